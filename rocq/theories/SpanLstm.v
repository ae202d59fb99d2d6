(** * SpanLstm: model of examples/networks/SpanLSTM.py. Vectors are functions of the
    coordinate; real arithmetic. *)
From Coq Require Import Reals.
From Verif Require Import Base Ops Tensor Codec Semirings TreeLstm.
Set Implicit Arguments.
Local Open Scope R_scope.

(** SpanLSTM.py:8-13, 34, nn.Linear: weight and bias *)
Record affine := { a_w : nat -> vec; a_b : vec }.
(** SpanLSTM.py:8-13, 34, nn.Linear applied to a vector *)
Definition apply_affine (d : nat) (l : affine) (x : vec) : vec := fun k => lin d (a_w l) x k + a_b l k.
(** torch.relu (SpanLSTM.py:17-18) *)
Definition relu (x : vec) : vec := fun k => Rmax (x k) 0.

(** SpanLSTM.py:5-18 [Res] on vectors of size d *)
Record resnet := { u1 : affine; u2 : affine; v1 : affine; v2 : affine; rw : affine }.
(** SpanLSTM.py:15-18 [Res.forward] *)
Definition res_forward (d : nat) (m : resnet) (y : vec) : vec :=
  let y := apply_affine d (rw m) y in
  let y1 := apply_affine d (v1 m) (relu (apply_affine d (u1 m) y)) in
  let y := fun k => y k + relu y1 k in
  let y2 := apply_affine d (v2 m) (relu (apply_affine d (u2 m) y)) in
  fun k => y k + relu y2 k.

(** one direction of torch.nn.LSTM (line 32): the gates are stacked as i, f, g, o *)
Record lstm := { w_ih : affine; w_hh : affine }.
(** SpanLSTM.py:32, 40: one step of torch.nn.LSTM, the states are hidden and cell vector *)
Definition lstm_step (H : nat) (m : lstm) (s : vec * vec) (x : vec) : vec * vec :=
  let z := fun k => apply_affine H (w_ih m) x k + apply_affine H (w_hh m) (fst s) k in
  let c := fun k => sigmoid (z (H + k)%nat) * snd s k + sigmoid (z k) * tanh (z (2 * H + k)%nat) in
  (fun k => sigmoid (z (3 * H + k)%nat) * tanh (c k), c).
(** the hidden vectors after each input *)
Fixpoint lstm_run (H : nat) (m : lstm) (s : vec * vec) (xs : list vec) : list vec :=
  match xs with
  | [] => []
  | x :: r => let s' := lstm_step H m s x in fst s' :: lstm_run H m s' r
  end.
(** SpanLSTM.py:40: the initial states are zero *)
Definition zero2 : vec * vec := (fun _ => 0, fun _ => 0).

(** lines 26-34 *)
Record span_lstm := {
  s_H : nat; s_V : nat; s_NT : nat;
  s_emb : nat -> vec; s_fwd : lstm; s_bwd : lstm; s_res : resnet; s_proj : affine }.
(** line 37 zeroes the embedding of word 1 in place, before line 40 reads the table *)
Definition embed (m : span_lstm) (w : nat) : vec := if (w =? 1)%nat then fun _ => 0 else s_emb m w.

(** lines 40-48 for one row: the forward half [a] and the backward half [b] of the vector
    of span (i, j) *)
Definition half_a (f : list vec) (N i j : nat) : vec :=
  if (j <? N - 1)%nat then fun k => nth (j + 1) f (fun _ => 0) k - nth i f (fun _ => 0) k else fun _ => 0.
(** SpanLSTM.py:46-48, the backward half *)
Definition half_b (ba : list vec) (i j : nat) : vec :=
  if (1 <=? i)%nat then fun k => nth (i - 1) ba (fun _ => 0) k - nth j ba (fun _ => 0) k else fun _ => 0.
(** SpanLSTM.py:40-49: both halves of the vector of span (i, j) *)
Definition span_vector (m : span_lstm) (ws : list nat) (i j : nat) : vec :=
  let f := lstm_run (s_H m) (s_fwd m) zero2 (map (embed m) ws) in
  let ba := rev (lstm_run (s_H m) (s_bwd m) zero2 (rev (map (embed m) ws))) in
  let a := half_a f (List.length ws) i j in
  let b := half_b ba i j in
  fun k => if (k <? s_H m)%nat then a k else b (k - s_H m)%nat.
(** lines 36-50 [forward]: [words] is a batch of rows of equal width N (the lengths are not
    used). An empty batch or width is refused by torch.nn.LSTM, a word outside the
    vocabulary by the embedding. *)
Definition span_forward (m : span_lstm) (words : list (list nat)) : res (tensor R) :=
  match words with
  | [] => Err RuntimeError
  | ws :: _ =>
      let N := List.length ws in
      if negb (forallb (fun r => (List.length r =? N)%nat) words) then Err ValueError else
      if (N =? 0)%nat then Err RuntimeError else
      if (s_V m <=? 1)%nat then Err IndexError else
      if negb (forallb (forallb (fun w => w <? s_V m)%nat) words) then Err IndexError else
      Ok {| shape := [List.length words; N; N; s_NT m];
            dat := fun e => match e with
              | [b; i; j; c] => apply_affine (2 * s_H m) (s_proj m) (res_forward (2 * s_H m) (s_res m) (span_vector m (nth b words []) i j)) c
              | _ => 0
              end |}
  end.

(** ** Specification: the state after reading some words, from the left or from the right *)
(** the equations of an LSTM cell, gate by gate (documentation of torch.nn.LSTM) *)
Definition dotp (H : nat) (w x : vec) : R := RSum (fun j => w j * x j) (seq 0 H).
(** spec: input of a gate *)
Definition gate_in (H : nat) (m : lstm) (row : nat) (h x : vec) : R :=
  dotp H (a_w (w_ih m) row) x + a_b (w_ih m) row + (dotp H (a_w (w_hh m) row) h + a_b (w_hh m) row).
(** spec: the equations of an LSTM cell *)
Definition cell_eqs (H : nat) (m : lstm) (hc : vec * vec) (x : vec) : vec * vec :=
  let (h, c) := hc in
  let input k := sigmoid (gate_in H m k h x) in
  let forget k := sigmoid (gate_in H m (H + k) h x) in
  let cand k := tanh (gate_in H m (2 * H + k) h x) in
  let output k := sigmoid (gate_in H m (3 * H + k) h x) in
  let c' k := forget k * c k + input k * cand k in
  (fun k => output k * tanh (c' k), c').
(** the padding symbol 1 has the zero vector *)
Definition word_vector (m : span_lstm) (w : nat) : vec := match w with 1%nat => fun _ => 0 | _ => s_emb m w end.
(** spec: hidden vector after some inputs *)
Definition state (H : nat) (m : lstm) (xs : list vec) : vec := fst (fold_left (cell_eqs H m) xs zero2).
(** spec: hidden vector after the first n words *)
Definition from_left (m : span_lstm) (ws : list nat) (n : nat) : vec := state (s_H m) (s_fwd m) (map (word_vector m) (firstn n ws)).
(** spec: hidden vector after the words from the end down to n *)
Definition from_right (m : span_lstm) (ws : list nat) (n : nat) : vec := state (s_H m) (s_bwd m) (map (word_vector m) (rev (skipn n ws))).
