(** * Codec: model of [to_parts] / [from_parts] (distributions.py:235-241 [to_event],
    [from_event]) of the linear chain, the semi-Markov model and the dependency tree.

    Integer tensors are [tensor Z]; the loops of the code are run as written, with
    index errors. *)
From Coq Require Import ZArith.
From Verif Require Import Base Ops Chain LinearChain SemiMarkov CkyCrf DepSpec DepTree Tensor.
Set Implicit Arguments.
Local Open Scope Z_scope.

(** ** Python and torch primitives *)
(** torch indexing by an integer: negative indices count from the end, others
    out of range raise IndexError. *)
Definition pyix (d : nat) (z : Z) : res nat :=
  if (0 <=? z) && (z <? Z.of_nat d) then Ok (Z.to_nat z)
  else if (- Z.of_nat d <=? z) && (z <? 0) then Ok (Z.to_nat (z + Z.of_nat d))
  else Err IndexError.
(** first index of the slice [z:] of a dimension of size [d] *)
Definition slice_from (d : nat) (z : Z) : nat :=
  if z <? 0 then Z.to_nat (Z.max 0 (z + Z.of_nat d)) else Nat.min d (Z.to_nat z).
(** a [for] loop that may raise *)
Fixpoint loop {S X} (f : S -> X -> res S) (l : list X) (s : S) : res S :=
  match l with [] => Ok s | x :: l' => bind (f s x) (loop f l') end.
(** list comprehension that may raise *)
Fixpoint mapM {X Y} (f : X -> res Y) (l : list X) : res (list Y) :=
  match l with [] => Ok [] | x :: l' => bind (f x) (fun y => bind (mapM f l') (fun ys => Ok (y :: ys))) end.
(** comparison of indices *)
Definition idx_dec := list_eq_dec Nat.eq_dec.
(** [t[i] = v], one cell *)
Definition upd {A} (t : tensor A) (i : list nat) (v : A) : tensor A :=
  {| shape := shape t; dat := fun j => if idx_dec j i then v else dat t j |}.
(** the same value written at several cells *)
Definition puts {A} (v : A) (l : list (list nat)) (t : tensor A) : tensor A := fold_left (fun t i => upd t i v) l t.
(** torch.zeros(...).long() *)
Definition zeros (sh : list nat) : tensor Z := {| shape := sh; dat := fun _ => 0 |}.
(** [t[mask] = 0] for a region given by a test on indices *)
Definition clear (m : list nat -> bool) (t : tensor Z) : tensor Z :=
  {| shape := shape t; dat := fun j => if m j then 0 else dat t j |}.
(** all index lists of a shape, in row-major order; [nonzero] (torch) *)
Fixpoint indexes (sh : list nat) : list (list nat) :=
  match sh with [] => [[]] | n :: sh' => flat_map (fun i => map (cons i) (indexes sh')) (seq 0 n) end.
(** torch.nonzero: indices of the nonzero entries, in row-major order *)
Definition nonzero (t : tensor Z) : list (list nat) := filter (fun i => negb (dat t i =? 0)) (indexes (shape t)).
(** linearchain.py:104-105, semimarkov.py and deptree.py likewise: default lengths *)
Definition row_lengths (N batch : nat) (lengths : option (list nat)) : list nat :=
  match lengths with None => repeat N batch | Some ls => ls end.
(** [lengths[b]] with its IndexError *)
Definition get_length (ls : list nat) (b : nat) : res nat :=
  match nth_error ls b with Some l => Ok l | None => Err IndexError end.

(** ** Linear chain *)
(** linearchain.py:87-110 [to_parts]. N = 0 asks for a negative size (line 103). *)
Definition lc_to_parts (sequence : tensor Z) (C : nat) (lengths : option (list nat)) : res (tensor Z) :=
  match shape sequence with
  | [batch; N] =>
      if (N =? 0)%nat then Err RuntimeError else
      let labels := zeros [batch; (N - 1)%nat; C; C] in
      let ls := row_lengths N batch lengths in
      (* lines 106-107 *)
      bind (loop (fun labels n =>
              bind (mapM (fun b => bind (pyix C (dat sequence [b; n])) (fun i =>
                                   bind (pyix C (dat sequence [b; (n - 1)%nat])) (fun j =>
                                   Ok [b; (n - 1)%nat; i; j]))) (seq 0 batch)) (fun idx =>
              Ok (puts 1 idx labels))) (seq 1 (N - 1)) labels) (fun labels =>
      (* lines 108-109 *)
      loop (fun labels b =>
              bind (get_length ls b) (fun l =>
              let s := slice_from (N - 1) (Z.of_nat l - 1) in
              Ok (clear (fun j => (nth 0 j 0 =? b)%nat && (s <=? nth 1 j 0)%nat) labels))) (seq 0 batch) labels)
  | _ => Err ValueError
  end.

(** linearchain.py:112-132 [from_parts] *)
Definition lc_from_step (labels : tensor Z) (on : list nat) : tensor Z :=
  let b := nth 0 on 0%nat in let n := nth 1 on 0%nat in
  let labels := if (n =? 0)%nat then upd labels [b; n] (Z.of_nat (nth 3 on 0%nat)) else labels in
  upd labels [b; (n + 1)%nat] (Z.of_nat (nth 2 on 0%nat)).
(** linearchain.py:112-132 [from_parts]: the loop over [edge.nonzero()] *)
Definition lc_from_parts (edge : tensor Z) : res (tensor Z * nat) :=
  match shape edge with
  | [batch; N_1; C; _] => Ok (fold_left lc_from_step (nonzero edge) (zeros [batch; (N_1 + 1)%nat]), C)
  | _ => Err ValueError
  end.

(** ** Semi-Markov *)
(** semimarkov.py:121-154 [to_parts], the body of the loop over n (lines 142-153).
    [last] and [c] are None before the first label; the assertion makes the
    first position set them. *)
Definition sm_to_state : Type := (tensor Z * option (nat * Z))%type.
(** semimarkov.py:142-153: one position *)
Definition sm_to_step (sequence : tensor Z) (K C b : nat) (st : sm_to_state) (n : nat) : res sm_to_state :=
  let '(labels, last) := st in
  let v := dat sequence [b; n] in
  if v =? -1 then (if (n =? 0)%nat then Err AssertionError else Ok st)
  else
    match last with
    | Some (m, c) =>
        if (n =? 0)%nat then Ok (labels, Some (n, v)) else
        if (K <=? n - m)%nat then Err IndexError else
        bind (pyix C v) (fun i => bind (pyix C c) (fun j => Ok (upd labels [b; m; (n - m)%nat; i; j] 1, Some (n, v))))
    | None => if (n =? 0)%nat then Ok (labels, Some (n, v)) else Err TypeError (* unreachable *)
    end.
(** [lengths] is assigned (lines 136-137) and never read. *)
Definition sm_to_parts (sequence : tensor Z) (C K : nat) (lengths : option (list nat)) : res (tensor Z) :=
  match shape sequence with
  | [batch; N] =>
      if (N =? 0)%nat then Err RuntimeError else
      loop (fun labels b => bind (loop (sm_to_step sequence K C b) (seq 0 N) (labels, None)) (fun st => Ok (fst st)))
        (seq 0 batch) (zeros [batch; (N - 1)%nat; K; C; C])
  | _ => Err ValueError
  end.

(** semimarkov.py:156-178 [from_parts] *)
Definition sm_from_step (N : nat) (labels : tensor Z) (on : list nat) : res (tensor Z) :=
  let b := nth 0 on 0%nat in let n := nth 1 on 0%nat in
  let labels := if (n =? 0)%nat then upd labels [b; n] (Z.of_nat (nth 4 on 0%nat)) else labels in
  if (n + nth 2 on 0 <? N)%nat then Ok (upd labels [b; (n + nth 2 on 0)%nat] (Z.of_nat (nth 3 on 0%nat)))
  else Err IndexError.
(** semimarkov.py:156-178 [from_parts]: the loop over [edge.nonzero()] *)
Definition sm_from_parts (edge : tensor Z) : res (tensor Z * (nat * nat)) :=
  match shape edge with
  | [batch; N_1; K; C; _] =>
      let N := (N_1 + 1)%nat in
      bind (loop (sm_from_step N) (nonzero edge) {| shape := [batch; N]; dat := fun _ => -1 |})
        (fun labels => Ok (labels, (C, K)))
  | _ => Err ValueError
  end.

(** ** Dependency trees *)
(** deptree.py:5-17 [convert]: root scores from the diagonal to row 0. *)
Definition dconvert {A} (junk : A) (t : tensor A) : res (tensor A) :=
  match shape t with
  | batch :: n :: n2 :: sh =>
      if (n =? n2)%nat then
        Ok {| shape := batch :: S n :: S n :: sh;
              dat := fun i => match i with
                | b :: h :: c :: r =>
                    (* line 16 *) if (h =? c)%nat && (1 <=? h)%nat then junk
                    (* line 15 *) else if (h =? 0)%nat && (1 <=? c)%nat then dat t (b :: (c - 1)%nat :: (c - 1)%nat :: r)
                    (* line 12 *) else if (1 <=? h)%nat && (1 <=? c)%nat then dat t (b :: (h - 1)%nat :: (c - 1)%nat :: r)
                    (* line 11 *) else junk
                | _ => junk end |}
      else Err RuntimeError
  | _ => Err IndexError
  end.
(** deptree.py:20-31 [unconvert]; every cell of the initial fill is overwritten
    by line 28. *)
Definition dunconvert {A} (t : tensor A) : res (tensor A) :=
  match shape t with
  | batch :: S n :: S n2 :: sh =>
      if (n =? n2)%nat then
        Ok {| shape := batch :: n :: n :: sh;
              dat := fun i => match i with
                | b :: h :: c :: r =>
                    (* line 30 *) if (h =? c)%nat then dat t (b :: 0%nat :: S c :: r)
                    (* line 28 *) else dat t (b :: S h :: S c :: r)
                | _ => dat t i end |}
      else Err RuntimeError
  | _ :: _ :: _ :: _ => Err RuntimeError
  | _ => Err IndexError
  end.

(** deptree.py:146-168 [to_parts] *)
Definition dp_to_parts (sequence : tensor Z) (lengths : option (list nat)) : res (tensor Z) :=
  match shape sequence with
  | [batch; N] =>
      let ls := row_lengths N batch lengths in
      bind (loop (fun labels n =>
              bind (mapM (fun b => bind (pyix (N + 1) (dat sequence [b; (n - 1)%nat])) (fun h => Ok [b; h; n])) (seq 0 batch))
                (fun idx => Ok (puts 1 idx labels))) (seq 1 N) (zeros [batch; (N + 1)%nat; (N + 1)%nat])) (fun labels =>
      bind (loop (fun labels b =>
              bind (get_length ls b) (fun l =>
              Ok (clear (fun j => (nth 0 j 0 =? b)%nat && (l + 1 <=? nth 2 j 0)%nat)
                 (clear (fun j => (nth 0 j 0 =? b)%nat && (l + 1 <=? nth 1 j 0)%nat) labels)))) (seq 0 batch) labels)
        dunconvert)
  | _ => Err ValueError
  end.

(** deptree.py:170-189 [from_parts]. Line 186 writes column index [on[2]]. *)
Definition dp_from_step (labels : tensor Z) (on : list nat) : tensor Z :=
  let b := nth 0 on 0%nat in let h := nth 1 on 0%nat in let c := nth 2 on 0%nat in
  upd labels [b; c] (if (h =? c)%nat then 0 else Z.of_nat h + 1).
(** deptree.py:170-189 [from_parts]: the loop over [arcs.nonzero()] *)
Definition dp_from_parts (arcs : tensor Z) : res (tensor Z) :=
  match shape arcs with
  | [batch; N; _] => Ok (fold_left dp_from_step (nonzero arcs) (zeros [batch; N]))
  | _ => Err ValueError
  end.

(** ** Specification vocabulary *)
(** row b of an event tensor is the indicator (count) of a list of parts *)
Definition represents (e : tensor Z) (b : nat) (parts : list (list nat)) : Prop :=
  forall i, Forall2 lt i (tl (shape e)) -> dat e (b :: i) = Z.of_nat (count_occ idx_dec parts (b :: i)).
(** row b of an integer matrix *)
Definition zrow (t : tensor Z) (b : nat) : list Z := map (fun n => dat t [b; n]) (seq 0 (nth 1 (shape t) 0%nat)).
(** segment starts: position 0 carries the first label, the last position of
    every segment the label of that segment, all others -1 *)
Definition seg_code (s : nat * nat) : list Z := repeat (-1) (fst s - 1) ++ [Z.of_nat (snd s)].
(** spec: the whole row of a segmentation *)
Definition segm_code (y : segm) : list Z := Z.of_nat (fst y) :: flat_map seg_code (snd y).

(** ** Lemmas *)
Lemma loop_ok S X (f : S -> X -> res S) g l : forall s,
  (forall s x, In x l -> f s x = Ok (g s x)) -> loop f l s = Ok (fold_left g l s).
Proof.
  induction l as [|x l IH]; intros s H; [reflexivity|]. cbn [loop fold_left]. rewrite H by (left; reflexivity).
  cbn [bind]. apply IH. intros; apply H; right; auto.
Qed.
Lemma mapM_ok X Y (f : X -> res Y) g l : (forall x, In x l -> f x = Ok (g x)) -> mapM f l = Ok (map g l).
Proof.
  induction l as [|x l IH]; intro H; [reflexivity|]. cbn [mapM map]. rewrite H by (left; reflexivity).
  cbn [bind]. rewrite IH by (intros; apply H; right; auto). reflexivity.
Qed.
Lemma pyix_in d z : 0 <= z < Z.of_nat d -> pyix d z = Ok (Z.to_nat z).
Proof. intro H. unfold pyix. destruct (Z.leb_spec 0 z), (Z.ltb_spec z (Z.of_nat d)); try lia. reflexivity. Qed.
Lemma pyix_nat d n : (n < d)%nat -> pyix d (Z.of_nat n) = Ok n.
Proof. intro H. rewrite pyix_in by lia. now rewrite Nat2Z.id. Qed.

Lemma puts_shape A (v : A) l : forall t, shape (puts v l t) = shape t.
Proof. induction l as [|i l IH]; intro t; [reflexivity|]. unfold puts in *. simpl. rewrite IH. reflexivity. Qed.
Lemma puts_dat A (v : A) l : forall t j, dat (puts v l t) j = if in_dec idx_dec j l then v else dat t j.
Proof.
  induction l as [|i l IH]; intros t j; [reflexivity|].
  unfold puts in *. cbn [fold_left]. rewrite IH. unfold upd. cbn [dat].
  destruct (in_dec idx_dec j l) as [H|H], (in_dec idx_dec j (i :: l)) as [H'|H']; try reflexivity.
  - destruct H'. right; auto.
  - destruct (idx_dec j i) as [E|E]; [reflexivity|]. destruct H' as [E'|H']; [congruence|tauto].
  - destruct (idx_dec j i) as [E|E]; [|reflexivity]. destruct H'. left; auto.
Qed.
Lemma puts_app A (v : A) l l' t : puts v (l ++ l') t = puts v l' (puts v l t).
Proof. unfold puts. now rewrite fold_left_app. Qed.

(** a list of writes *)
Definition writes (ws : list (list nat * Z)) (t : tensor Z) : tensor Z := fold_left (fun t w => upd t (fst w) (snd w)) ws t.
Lemma writes_shape ws : forall t, shape (writes ws t) = shape t.
Proof. induction ws as [|i l IH]; intro t; [reflexivity|]. unfold writes in *. simpl. rewrite IH. reflexivity. Qed.
Lemma writes_miss ws i : forall t, (forall v, ~ In (i, v) ws) -> dat (writes ws t) i = dat t i.
Proof.
  induction ws as [|[j v] ws IH]; intros t H; [reflexivity|]. unfold writes in *. cbn [fold_left fst snd].
  rewrite IH by (intros v' Hv; eapply H; right; eauto). unfold upd. cbn [dat].
  destruct (idx_dec i j) as [->|]; [|reflexivity]. exfalso. eapply H. left; reflexivity.
Qed.
Lemma writes_hit ws i v : forall t, In (i, v) ws -> (forall v', In (i, v') ws -> v' = v) -> dat (writes ws t) i = v.
Proof.
  induction ws as [|[j u] ws IH]; intros t Hi Hu; [destruct Hi|]. unfold writes in *. cbn [fold_left fst snd].
  destruct (in_dec (list_eq_dec Nat.eq_dec) i (map fst ws)) as [H|H].
  - apply in_map_iff in H as ([i' v'] & E & H). cbn [fst] in E. subst i'.
    assert (v' = v) by (apply Hu; right; auto). subst. apply IH; auto. intros v'' H''. apply Hu. right; auto.
  - destruct Hi as [E|Hi].
    + injection E as -> ->. change (dat (writes ws (upd t i v)) i = v). rewrite writes_miss.
      * unfold upd. cbn [dat]. destruct (idx_dec i i); congruence.
      * intros v' Hv. apply H. apply in_map_iff. exists (i, v'). auto.
    + destruct H. apply in_map_iff. exists (i, v). auto.
Qed.
Lemma fold_writes (f : tensor Z -> list nat -> tensor Z) (g : list nat -> list (list nat * Z)) l : forall t,
  (forall t i, f t i = writes (g i) t) -> fold_left f l t = writes (flat_map g l) t.
Proof.
  induction l as [|i l IH]; intros t H; [reflexivity|]. cbn [fold_left flat_map]. rewrite IH, H by auto.
  unfold writes. now rewrite fold_left_app.
Qed.

Lemma indexes_in sh e : In e (indexes sh) <-> Forall2 lt e sh.
Proof.
  revert e. induction sh as [|n sh IH]; intro e; simpl.
  - split; [intros [<-|[]]; constructor|]. intro H. inversion H. auto.
  - rewrite in_flat_map. split.
    + intros (i & Hi & He). apply in_map_iff in He as (e' & <- & He). apply in_seq in Hi.
      constructor; [lia|]. now apply IH.
    + intro H. inversion H as [|i n' e' sh' Hi He]; subst. exists i. split; [apply in_seq; lia|].
      apply in_map. now apply IH.
Qed.
Lemma nonzero_in t i : In i (nonzero t) <-> Forall2 lt i (shape t) /\ dat t i <> 0.
Proof.
  unfold nonzero. rewrite filter_In, indexes_in, negb_true_iff, Z.eqb_neq. reflexivity.
Qed.

Ltac inv2 H :=
  match type of H with
  | Forall2 _ _ [] => inversion H; subst; clear H
  | Forall2 _ _ _ => let H1 := fresh "Hlt" in let H' := fresh "Hr" in
      inversion H as [|? ? ? ? H1 H']; subst; clear H; inv2 H'
  end.
Ltac f2 := repeat first [apply Forall2_nil | apply Forall2_cons].

Lemma fold_puts (f : tensor Z -> nat -> tensor Z) g l : forall t,
  (forall t n, f t n = puts 1 (g n) t) -> fold_left f l t = puts 1 (flat_map g l) t.
Proof.
  induction l as [|n l IH]; intros t H; [reflexivity|]. cbn [fold_left flat_map]. rewrite IH, H by auto.
  now rewrite puts_app.
Qed.
Lemma clears_shape (m : nat -> list nat -> bool) l : forall t, shape (fold_left (fun t b => clear (m b) t) l t) = shape t.
Proof. induction l as [|b l IH]; intro t; [reflexivity|]. cbn [fold_left]. rewrite IH. reflexivity. Qed.
Lemma clears_dat (m : nat -> list nat -> bool) l : forall t j,
  dat (fold_left (fun t b => clear (m b) t) l t) j = if existsb (fun b => m b j) l then 0 else dat t j.
Proof.
  induction l as [|b l IH]; intros t j; [reflexivity|]. cbn [fold_left existsb]. rewrite IH. cbn [clear dat].
  destruct (m b j), (existsb (fun b0 => m b0 j) l); reflexivity.
Qed.
(** when the regions of different rows are disjoint *)
Lemma clears_row (m : nat -> list nat -> bool) l t j b : In b l -> (forall b', b' <> b -> m b' j = false) ->
  dat (fold_left (fun t b => clear (m b) t) l t) j = if m b j then 0 else dat t j.
Proof.
  intros Hb H. rewrite clears_dat. destruct (m b j) eqn:E.
  - replace (existsb _ l) with true; [reflexivity|]. symmetry. apply existsb_exists. exists b. auto.
  - replace (existsb _ l) with false; [reflexivity|]. symmetry. apply not_true_iff_false. intro Hx.
    apply existsb_exists in Hx as (b' & _ & Hx). destruct (Nat.eq_dec b' b) as [->|Hn]; [congruence|].
    rewrite H in Hx by auto. discriminate.
Qed.
Lemma count_nodup l x : NoDup l -> count_occ idx_dec l x = if in_dec idx_dec x l then 1%nat else 0%nat.
Proof.
  intro H. destruct (in_dec idx_dec x l) as [Hi|Hi].
  - apply (NoDup_count_occ' idx_dec); auto.
  - now apply count_occ_not_In.
Qed.
Lemma get_length_ok ls b : (b < length ls)%nat -> get_length ls b = Ok (nth b ls 0%nat).
Proof. intro H. unfold get_length. rewrite (nth_error_nth' ls 0%nat H). reflexivity. Qed.
Lemma zrow_nth t b n d : (n < nth 1 (shape t) 0)%nat -> nth n (zrow t b) d = dat t [b; n].
Proof.
  intro H. unfold zrow. rewrite nth_map_seq by auto. reflexivity.
Qed.
Lemma zrow_length t b : length (zrow t b) = nth 1 (shape t) 0%nat.
Proof. unfold zrow. now rewrite map_length, seq_length. Qed.
(** the tensor row starts with the given numbers *)
Lemma zrow_prefix t b y : firstn (length y) (zrow t b) = map Z.of_nat y ->
  forall n, (n < length y)%nat -> (n < nth 1 (shape t) 0)%nat -> dat t [b; n] = Z.of_nat (nth n y 0%nat).
Proof.
  intros H n Hn Hs. rewrite <- (@zrow_nth t b n 0 Hs).
  rewrite <- (map_nth Z.of_nat), <- H. change (Z.of_nat 0) with 0.
  rewrite <- (firstn_skipn (length y) (zrow t b)) at 1. apply app_nth1.
  rewrite firstn_length, zrow_length. lia.
Qed.
Lemma zrow_eq t b l : length l = nth 1 (shape t) 0%nat ->
  (forall n, (n < length l)%nat -> dat t [b; n] = nth n l 0) -> zrow t b = l.
Proof.
  intros Hl H. apply (@nth_ext _ _ _ 0 0); [now rewrite zrow_length|].
  rewrite zrow_length, <- Hl. intros n Hn. rewrite zrow_nth by lia. auto.
Qed.

(** ** Linear chain *)
Lemma seq_parts_in b y e : In e (seq_parts b y) <->
  exists n, (n < length y - 1)%nat /\ e = [b; n; nth (n + 1) y 0; nth n y 0]%nat.
Proof.
  unfold seq_parts. rewrite in_map_iff. split.
  - intros (n & <- & Hn). apply in_seq in Hn. exists n. split; [lia|reflexivity].
  - intros (n & Hn & ->). exists n. split; [reflexivity|]. apply in_seq. lia.
Qed.
Lemma seq_parts_nodup b y : NoDup (seq_parts b y).
Proof. apply NoDup_map_inj; [|apply seq_NoDup]. intros n m _ _ [= -> _]. reflexivity. Qed.

Theorem lc_to_parts_spec s C lengths batch N (ys : nat -> list nat) :
  shape s = [batch; N] -> (1 <= N)%nat -> (batch <= length (row_lengths N batch lengths))%nat ->
  (forall b n, (b < batch)%nat -> (n < N)%nat -> 0 <= dat s [b; n] < Z.of_nat C) ->
  (forall b, (b < batch)%nat -> length (ys b) = nth b (row_lengths N batch lengths) 0%nat /\
     (1 <= length (ys b) <= N)%nat /\ firstn (length (ys b)) (zrow s b) = map Z.of_nat (ys b)) ->
  exists e, lc_to_parts s C lengths = Ok e /\ shape e = [batch; (N - 1)%nat; C; C] /\
    forall b, (b < batch)%nat -> represents e b (seq_parts b (ys b)).
Proof.
  intros Hs HN Hls Hc Hy. unfold lc_to_parts. rewrite Hs. destruct (Nat.eqb_spec N 0) as [|_]; [lia|].
  set (g := fun n => map (fun b => [b; (n - 1)%nat; Z.to_nat (dat s [b; n]); Z.to_nat (dat s [b; (n - 1)%nat])]) (seq 0 batch)).
  rewrite (@loop_ok _ _ _ (fun t n => puts 1 (g n) t)).
  2:{ intros t n Hn. apply in_seq in Hn.
      rewrite (mapM_ok _ (fun b => [b; (n - 1)%nat; Z.to_nat (dat s [b; n]); Z.to_nat (dat s [b; (n - 1)%nat])])).
      - reflexivity.
      - intros b Hb. apply in_seq in Hb. rewrite !pyix_in by (apply Hc; lia). reflexivity. }
  cbn [bind]. rewrite (@fold_puts _ g) by reflexivity.
  set (stop := fun b => slice_from (N - 1) (Z.of_nat (nth b (row_lengths N batch lengths) 0%nat) - 1)).
  rewrite (@loop_ok _ _ _ (fun t b => clear (fun j => (nth 0 j 0 =? b)%nat && (stop b <=? nth 1 j 0)%nat) t)).
  2:{ intros t b Hb. apply in_seq in Hb. rewrite get_length_ok by lia. reflexivity. }
  eexists. split; [reflexivity|]. split; [rewrite clears_shape, puts_shape; reflexivity|].
  intros b Hb i Hi. rewrite clears_shape, puts_shape in Hi. cbn [tl shape zeros] in Hi. inv2 Hi.
  rename x into n0, x0 into i, x1 into j.
  rewrite (@clears_row _ _ _ _ b).
  2:{ apply in_seq. lia. }
  2:{ intros b' Hb'. cbn [nth]. destruct (Nat.eqb_spec b b'); [congruence|reflexivity]. }
  cbn [nth]. rewrite Nat.eqb_refl. cbn [andb].
  destruct (Hy b Hb) as (Hl & Hl1 & Hp).
  assert (Hstop : stop b = (length (ys b) - 1)%nat).
  { unfold stop, slice_from. rewrite <- Hl. destruct (Z.ltb_spec (Z.of_nat (length (ys b)) - 1) 0); lia. }
  rewrite Hstop, puts_dat, count_nodup by apply seq_parts_nodup.
  assert (Hv : forall n, (n < length (ys b))%nat -> dat s [b; n] = Z.of_nat (nth n (ys b) 0%nat)).
  { intros n Hn. apply zrow_prefix; auto. rewrite Hs. cbn [nth]. lia. }
  destruct (Nat.leb_spec (length (ys b) - 1) n0) as [Hge|Hlt3].
  - destruct (in_dec _ _ _) as [Hin|]; [|reflexivity]. apply seq_parts_in in Hin as (n & Hn & E).
    injection E as <- _ _. lia.
  - match goal with |- (if ?x then _ else _) = _ => destruct x as [Hin|Hin] end.
    + apply in_flat_map in Hin as (n & Hn & Hin). apply in_seq in Hn. apply in_map_iff in Hin as (b' & E & Hb').
      injection E as -> E1 E2 E3. rewrite Hv in E2, E3 by lia. rewrite Nat2Z.id in E2, E3.
      destruct (in_dec _ _ _) as [Hin|Hin]; [reflexivity|]. destruct Hin. apply seq_parts_in. exists n0.
      split; [lia|]. subst. repeat f_equal; lia.
    + destruct (in_dec _ _ _) as [Hin'|Hin']; [|reflexivity]. destruct Hin. apply seq_parts_in in Hin' as (n & Hn & E).
      injection E as -> -> ->. apply in_flat_map. exists (n + 1)%nat. split; [apply in_seq; lia|].
      apply in_map_iff. exists b. split; [|apply in_seq; lia].
      rewrite !Hv by lia. rewrite !Nat2Z.id. replace (n + 1 - 1)%nat with n by lia. reflexivity.
Qed.

(** what [from_parts] can recover of a row: a length-1 sequence has no part *)
Definition lc_decoded (N : nat) (y : list nat) : list Z :=
  if (length y <=? 1)%nat then repeat 0 N else map Z.of_nat y ++ repeat 0 (N - length y).

Lemma represents_in e b parts i : NoDup parts -> represents e b parts -> Forall2 lt i (tl (shape e)) ->
  dat e (b :: i) <> 0 <-> In (b :: i) parts.
Proof.
  intros Hn H Hi. rewrite (H i Hi), count_nodup by auto. destruct (in_dec _ _ _); split; auto; lia.
Qed.

Theorem lc_from_parts_spec e batch N C (ys : nat -> list nat) :
  shape e = [batch; (N - 1)%nat; C; C] -> (1 <= N)%nat ->
  (forall b, (b < batch)%nat -> is_seq C (length (ys b)) (ys b) /\ (1 <= length (ys b) <= N)%nat /\
     represents e b (seq_parts b (ys b))) ->
  exists s, lc_from_parts e = Ok (s, C) /\ shape s = [batch; N] /\
    forall b, (b < batch)%nat -> zrow s b = lc_decoded N (ys b).
Proof.
  intros Hs HN Hy. unfold lc_from_parts. rewrite Hs. replace (N - 1 + 1)%nat with N by lia.
  set (g := fun on : list nat => (if (nth 1 on 0 =? 0)%nat then [([nth 0 on 0; nth 1 on 0]%nat, Z.of_nat (nth 3 on 0%nat))] else []) ++
                [([nth 0 on 0; nth 1 on 0 + 1]%nat, Z.of_nat (nth 2 on 0%nat))]).
  rewrite (@fold_writes _ g).
  2:{ intros t i. unfold lc_from_step, g. destruct (nth 1 i 0 =? 0)%nat; reflexivity. }
  eexists. split; [reflexivity|]. split; [apply writes_shape|].
  intros b Hb. destruct (Hy b Hb) as ([_ Hf] & Hl & Hr).
  assert (Hn0 : forall i, Forall2 lt i [batch; (N - 1)%nat; C; C] -> nth 0 i 0%nat = b ->
    (In i (nonzero e) <-> In i (seq_parts b (ys b)))).
  { intros i Hi Hib. rewrite nonzero_in, Hs. inversion Hi as [|b' ? i' ? Hb' Hi']; subst.
    cbn [nth] in Hb, Hr |- *. rewrite (represents_in (seq_parts_nodup b' (ys b')) Hr) by (now rewrite Hs).
    tauto. }
  assert (Hin : forall i, In i (nonzero e) -> nth 0 i 0%nat = b -> In i (seq_parts b (ys b))).
  { intros i Hi Hib. apply Hn0; auto. apply nonzero_in in Hi as [Hi _]. now rewrite <- Hs. }
  assert (Hout : forall n, (n < length (ys b) - 1)%nat -> In [b; n; nth (n + 1) (ys b) 0%nat; nth n (ys b) 0%nat] (nonzero e)).
  { intros n Hn. apply Hn0; [|reflexivity|apply seq_parts_in; eauto].
    rewrite Forall_forall in Hf. f2; try lia; apply Hf, nth_In; lia. }
  (* every write to row b agrees with y *)
  assert (Hw : forall n v, In ([b; n], v) (flat_map g (nonzero e)) ->
    (2 <= length (ys b))%nat /\ (n < length (ys b))%nat /\ v = Z.of_nat (nth n (ys b) 0%nat)).
  { intros n v H. apply in_flat_map in H as (i & Hi & H). unfold g in H. apply in_app_iff in H.
    assert (Hib : nth 0 i 0%nat = b).
    { destruct H as [H|[H|[]]]; [destruct (nth 1 i 0 =? 0)%nat; [destruct H as [H|[]]|destruct H]|]; now injection H. }
    specialize (Hin i Hi Hib). apply seq_parts_in in Hin as (m & Hm & ->). cbn [nth] in H.
    destruct H as [H|[H|[]]].
    - destruct (Nat.eqb_spec m 0); [|destruct H]. subst m. destruct H as [H|[]]. injection H as <- <-. split; [lia|]. split; [lia|reflexivity].
    - injection H as <- <-. split; [lia|]. split; [lia|reflexivity]. }
  apply zrow_eq.
  - rewrite writes_shape. cbn [shape zeros nth]. unfold lc_decoded. destruct (_ <=? _)%nat; rewrite ?app_length, ?map_length, ?repeat_length; lia.
  - intros n Hn. unfold lc_decoded in *. destruct (Nat.leb_spec (length (ys b)) 1) as [H1|H1].
    + rewrite repeat_length in Hn. rewrite nth_repeat. rewrite writes_miss; [reflexivity|].
      intros v Hv. apply Hw in Hv. lia.
    + rewrite app_length, map_length, repeat_length in Hn.
      destruct (Nat.lt_ge_cases n (length (ys b))) as [Hlt|Hge].
      * rewrite app_nth1 by (now rewrite map_length). etransitivity; [|symmetry; exact (map_nth Z.of_nat (ys b) 0%nat n)].
        apply writes_hit; [|intros v Hv; apply Hw in Hv; tauto].
        destruct n as [|n].
        -- apply in_flat_map. exists [b; 0; nth 1 (ys b) 0; nth 0 (ys b) 0]%nat. split; [apply (Hout 0%nat); lia|].
           left. reflexivity.
        -- apply in_flat_map. exists [b; n; nth (n + 1) (ys b) 0; nth n (ys b) 0]%nat. split; [apply Hout; lia|].
           apply in_app_iff. right. left. cbn [nth]. now replace (n + 1)%nat with (S n) by lia.
      * rewrite app_nth2, nth_repeat by (now rewrite map_length). rewrite writes_miss; [reflexivity|].
        intros v Hv. apply Hw in Hv. lia.
Qed.

(** ** Semi-Markov *)
Lemma loop_app S X (f : S -> X -> res S) l l' : forall s, loop f (l ++ l') s = bind (loop f l s) (loop f l').
Proof.
  induction l as [|x l IH]; intro s; [reflexivity|]. cbn [app loop]. destruct (f s x); cbn [bind]; auto.
Qed.
Lemma seg_code_length s : (1 <= fst s)%nat -> length (seg_code s) = fst s.
Proof. intro H. unfold seg_code. rewrite app_length, repeat_length. simpl. lia. Qed.
Lemma code_length l : Forall (fun s => 1 <= fst s)%nat l -> length (flat_map seg_code l) = widths l.
Proof.
  induction 1 as [|s l Hs Hl IH]; [reflexivity|]. cbn [flat_map]. rewrite app_length, IH, seg_code_length by auto.
  reflexivity.
Qed.
Lemma seg_ok_pos K C l : Forall (seg_ok K C) l -> Forall (fun s => 1 <= fst s)%nat l.
Proof. apply Forall_impl. intros s [H _]. lia. Qed.

Section SemiRow.
  Variables (s : tensor Z) (K C b : nat).
  Lemma sm_skip st n k : (1 <= n)%nat -> (forall i, (i < k)%nat -> dat s [b; n + i]%nat = -1) ->
    loop (sm_to_step s K C b) (seq n k) st = Ok st.
  Proof.
    revert n. induction k as [|k IH]; intros n Hn H; [reflexivity|]. cbn [seq loop].
    unfold sm_to_step at 1. destruct st as [labels last].
    replace (dat s [b; n]) with (-1) by (symmetry; replace n with (n + 0)%nat by lia; apply H; lia).
    rewrite Z.eqb_refl. destruct (Nat.eqb_spec n 0); [lia|]. cbn [bind]. apply IH; [lia|].
    intros i Hi. replace (S n + i)%nat with (n + S i)%nat by lia. apply H. lia.
  Qed.
  Lemma sm_row_loop pad l : Forall (seg_ok K C) l -> forall m c labels, (c < C)%nat ->
    (forall k, (k < widths l + pad)%nat -> dat s [b; m + 1 + k]%nat = nth k (flat_map seg_code l ++ repeat (-1) pad) 0) ->
    exists st, loop (sm_to_step s K C b) (seq (m + 1) (widths l + pad)) (labels, Some (m, Z.of_nat c)) =
      Ok (puts 1 (segs_parts b m c l) labels, st).
  Proof.
    induction l as [|[w c2] l IH]; intros Hf m c labels Hc H.
    - eexists. cbn [segs_parts widths map list_sum fold_right Nat.add]. rewrite sm_skip; [reflexivity|lia|].
      intros i Hi. rewrite H by (unfold widths; simpl; lia). cbn [flat_map app].
      apply nth_error_nth. now rewrite nth_error_repeat.
    - inversion_clear Hf as [|? ? Hs Hf']. destruct Hs as [Hw Hc2]. cbn [fst snd] in Hw, Hc2.
      assert (HW : widths ((w, c2) :: l) = (w + widths l)%nat) by reflexivity. rewrite HW in *.
      replace (w + widths l + pad)%nat with ((w - 1) + S (widths l + pad))%nat by lia.
      rewrite seq_app, loop_app, sm_skip; [|lia|].
      2:{ intros i Hi. rewrite H by lia. cbn [flat_map]. unfold seg_code at 1. cbn [fst snd].
          rewrite <- !app_assoc, app_nth1 by (rewrite repeat_length; lia).
          apply nth_error_nth. now rewrite nth_error_repeat. }
      cbn [bind seq loop]. replace (m + 1 + (w - 1))%nat with (m + w)%nat by lia.
      assert (Hv : dat s [b; m + w]%nat = Z.of_nat c2).
      { replace (m + w)%nat with (m + 1 + (w - 1))%nat by lia. rewrite H by lia. cbn [flat_map].
        unfold seg_code at 1. cbn [fst snd]. rewrite <- !app_assoc, app_nth2 by (rewrite repeat_length; lia).
        rewrite repeat_length, Nat.sub_diag. reflexivity. }
      unfold sm_to_step at 1. rewrite Hv. destruct (Z.eqb_spec (Z.of_nat c2) (-1)); [lia|].
      destruct (Nat.eqb_spec (m + w) 0); [lia|]. replace (m + w - m)%nat with w by lia.
      destruct (Nat.leb_spec K w); [lia|]. rewrite !pyix_nat by auto. cbn [bind].
      replace (S (m + w)) with (m + w + 1)%nat by lia.
      destruct (IH Hf' (m + w)%nat c2 (upd labels [b; m; w; c2; c] 1) Hc2) as [st E].
      { intros k Hk. replace (m + w + 1 + k)%nat with (m + 1 + (w + k))%nat by lia. rewrite H by lia.
        cbn [flat_map]. rewrite <- app_assoc, app_nth2; rewrite seg_code_length; cbn [fst]; try lia.
        f_equal. lia. }
      exists st. rewrite E. reflexivity.
  Qed.
End SemiRow.

(** the rows of the encoding of a batch of segmentations, padded with -1 *)
Definition sm_code (N : nat) (y : segm) : list Z := segm_code y ++ repeat (-1) (N - S (widths (snd y))).
Lemma segs_parts_in5 b l : forall n c e, In e (segs_parts b n c l) ->
  exists m w c2 c1, e = [b; m; w; c2; c1].
Proof. induction l as [|[w c2] l IH]; intros n c e H; [destruct H|]. destruct H as [<-|H]; eauto 6. Qed.
Lemma segs_parts_ge b l : forall n c m w c2 c1, In [b; m; w; c2; c1] (segs_parts b n c l) -> (n <= m)%nat.
Proof.
  induction l as [|[w' c'] l IH]; intros n c m w c2 c1 H; [destruct H|]. destruct H as [[= -> _ _ _]|H]; [lia|].
  apply IH in H. lia.
Qed.
Lemma segs_parts_nodup b l : Forall (fun s => 1 <= fst s)%nat l -> forall n c, NoDup (segs_parts b n c l).
Proof.
  induction 1 as [|[w c'] l Hs Hl IH]; intros n c; cbn [segs_parts]; constructor; auto.
  intro H. apply segs_parts_ge in H. cbn [fst] in Hs. lia.
Qed.

Theorem sm_to_parts_spec s K C lengths batch N (ys : nat -> segm) :
  shape s = [batch; N] -> (1 <= N)%nat ->
  (forall b, (b < batch)%nat -> (exists len, (1 <= len <= N)%nat /\ is_segm K C len (ys b)) /\ zrow s b = sm_code N (ys b)) ->
  exists e, sm_to_parts s C K lengths = Ok e /\ shape e = [batch; (N - 1)%nat; K; C; C] /\
    forall b, (b < batch)%nat -> represents e b (segm_parts b (ys b)).
Proof.
  intros Hs HN Hy. unfold sm_to_parts. rewrite Hs. destruct (Nat.eqb_spec N 0) as [|_]; [lia|].
  rewrite (@loop_ok _ _ _ (fun t b => puts 1 (segm_parts b (ys b)) t)).
  2:{ intros t b Hb. apply in_seq in Hb. destruct (Hy b ltac:(lia)) as ((len & Hlen & Hc & Hf & Hw) & Hrow).
      destruct (ys b) as [c0 l]. cbn [fst snd] in *.
      assert (Hv : forall k, (k < N)%nat -> dat s [b; k] = nth k (sm_code N (c0, l)) 0).
      { intros k Hk. rewrite <- Hrow, zrow_nth; [reflexivity|]. rewrite Hs. exact Hk. }
      assert (Ec : sm_code N (c0, l) = Z.of_nat c0 :: flat_map seg_code l ++ repeat (-1) (N - S (widths l))) by reflexivity.
      rewrite Ec in Hv.
      replace N with (S (widths l + (N - S (widths l)))) at 1 by lia. cbn [seq loop].
      unfold sm_to_step at 1. rewrite (Hv 0%nat) by lia. cbn [nth].
      destruct (Z.eqb_spec (Z.of_nat c0) (-1)); [lia|]. cbn [Nat.eqb bind].
      destruct (@sm_row_loop s K C b (N - S (widths l))%nat l Hf 0%nat c0 t Hc) as [st E].
      { intros k Hk. rewrite Hv by lia. cbn [Nat.add nth]. reflexivity. }
      cbn [Nat.add] in E. rewrite E. reflexivity. }
  rewrite (@fold_puts _ (fun b => segm_parts b (ys b))) by reflexivity.
  eexists. split; [reflexivity|]. split; [apply puts_shape|].
  intros b Hb i Hi. destruct (Hy b Hb) as ((len & Hlen & Hc & Hf & Hw) & _).
  rewrite puts_dat, count_nodup by (apply segs_parts_nodup; eapply seg_ok_pos; eauto).
  cbn [dat zeros].
  destruct (in_dec _ (b :: i) (flat_map _ _)) as [H1|H1], (in_dec _ (b :: i) (segm_parts b (ys b))) as [H2|H2]; try reflexivity.
  - exfalso. apply in_flat_map in H1 as (b' & Hb' & H1). pose proof H1 as H3.
    apply segs_parts_in5 in H3 as (m & w & c2 & c1 & E). injection E as <- _. contradiction.
  - exfalso. apply H1. apply in_flat_map. exists b. split; [apply in_seq; lia|auto].
Qed.

(** ** Decoding *)
Lemma code_nth_part b l : Forall (fun s => 1 <= fst s)%nat l -> forall m c n w c2 c1,
  In [b; n; w; c2; c1] (segs_parts b m c l) ->
  (m <= n)%nat /\ (1 <= w)%nat /\ (n + w <= m + widths l)%nat /\ (n = m -> c1 = c) /\
  nth (n + w - m - 1) (flat_map seg_code l) 0 = Z.of_nat c2.
Proof.
  induction 1 as [|[w0 c0] l Hs Hl IH]; intros m c n w c2 c1 H; [destruct H|]. cbn [fst] in Hs.
  assert (HW : widths ((w0, c0) :: l) = (w0 + widths l)%nat) by reflexivity. rewrite HW.
  destruct H as [E|H].
  - injection E as <- <- <- <-. repeat split; try lia. cbn [flat_map]. rewrite app_nth1 by (rewrite seg_code_length; cbn [fst]; lia).
    unfold seg_code. cbn [fst snd]. rewrite app_nth2; rewrite repeat_length; try lia.
    replace (m + w0 - m - 1 - (w0 - 1))%nat with 0%nat by lia. reflexivity.
  - destruct (IH (m + w0)%nat c0 n w c2 c1 H) as (H1 & H2 & H3 & H4 & H5). repeat split; try lia.
    cbn [flat_map]. rewrite app_nth2; rewrite seg_code_length; cbn [fst]; try lia. rewrite <- H5. f_equal. lia.
Qed.
Lemma code_nth_find b l : Forall (fun s => 1 <= fst s)%nat l -> forall m c p, (p < widths l)%nat ->
  nth p (flat_map seg_code l) 0 = -1 \/
  exists n w c2 c1, In [b; n; w; c2; c1] (segs_parts b m c l) /\ (n + w = m + 1 + p)%nat /\
    nth p (flat_map seg_code l) 0 = Z.of_nat c2.
Proof.
  induction 1 as [|[w0 c0] l Hs Hl IH]; intros m c p Hp; [unfold widths in Hp; simpl in Hp; lia|]. cbn [fst] in Hs.
  assert (HW : widths ((w0, c0) :: l) = (w0 + widths l)%nat) by reflexivity. rewrite HW in Hp.
  cbn [flat_map]. destruct (Nat.lt_ge_cases p w0) as [Hlt|Hge].
  - rewrite app_nth1 by (rewrite seg_code_length; cbn [fst]; lia). unfold seg_code. cbn [fst snd].
    destruct (Nat.lt_ge_cases p (w0 - 1)) as [H1|H1].
    + left. rewrite app_nth1 by (rewrite repeat_length; lia). apply nth_error_nth. now rewrite nth_error_repeat.
    + right. exists m, w0, c0, c. split; [left; reflexivity|]. split; [lia|].
      rewrite app_nth2; rewrite repeat_length; [|lia]. replace (p - (w0 - 1))%nat with 0%nat by lia. reflexivity.
  - rewrite app_nth2; rewrite seg_code_length; cbn [fst]; try lia.
    destruct (IH (m + w0)%nat c0 (p - w0)%nat) as [H|(n & w & c2 & c1 & H1 & H2 & H3)]; [lia|left; auto|].
    right. exists n, w, c2, c1. split; [right; exact H1|]. split; [lia|auto].
Qed.

(** what [from_parts] can recover: without any segment the first label is lost *)
Definition sm_decoded (N : nat) (y : segm) : list Z :=
  match snd y with [] => repeat (-1) N | _ => sm_code N y end.
Lemma sm_code_length N y : Forall (fun s => 1 <= fst s)%nat (snd y) -> (S (widths (snd y)) <= N)%nat -> length (sm_code N y) = N.
Proof.
  intros Hp H. unfold sm_code, segm_code. rewrite app_length, repeat_length. cbn [length]. rewrite code_length by auto. lia.
Qed.

Theorem sm_from_parts_spec e batch N K C (ys : nat -> segm) :
  shape e = [batch; (N - 1)%nat; K; C; C] -> (1 <= N)%nat ->
  (forall b, (b < batch)%nat -> (exists len, (1 <= len <= N)%nat /\ is_segm K C len (ys b)) /\
     represents e b (segm_parts b (ys b))) ->
  exists s, sm_from_parts e = Ok (s, (C, K)) /\ shape s = [batch; N] /\
    forall b, (b < batch)%nat -> zrow s b = sm_decoded N (ys b).
Proof.
  intros Hs HN Hy. unfold sm_from_parts. rewrite Hs. replace (N - 1 + 1)%nat with N by lia.
  assert (Hin : forall i, In i (nonzero e) -> exists b, (b < batch)%nat /\ In i (segm_parts b (ys b))).
  { intros i Hi. apply nonzero_in in Hi as [Hi Hd]. rewrite Hs in Hi. inversion Hi as [|b ? i' ? Hb Hi']; subst.
    exists b. split; auto. destruct (Hy b Hb) as ((len & Hlen & Hc & Hf & Hw) & Hr).
    apply (represents_in (segs_parts_nodup b (seg_ok_pos Hf) 0 (fst (ys b))) Hr); [now rewrite Hs|auto]. }
  assert (Hbnd : forall b l K C, Forall (seg_ok K C) l -> forall m c e, (c < C)%nat -> In e (segs_parts b m c l) ->
    exists n w c2 c1, e = [b; n; w; c2; c1] /\ (w < K)%nat /\ (c2 < C)%nat /\ (c1 < C)%nat).
  { clear. induction 1 as [|[w c'] l [Hw Hc'] Hl IH]; intros m c e Hc H; [destruct H|]. cbn [fst snd] in *. destruct H as [<-|H].
    - exists m, w, c', c. repeat split; auto; lia.
    - eapply IH; [exact Hc'|exact H]. }
  set (g := fun on : list nat => (if (nth 1 on 0 =? 0)%nat then [([nth 0 on 0; nth 1 on 0]%nat, Z.of_nat (nth 4 on 0%nat))] else []) ++
                [([nth 0 on 0; nth 1 on 0 + nth 2 on 0]%nat, Z.of_nat (nth 3 on 0%nat))]).
  rewrite (@loop_ok _ _ _ (fun t i => writes (g i) t)).
  2:{ intros t i Hi. destruct (Hin i Hi) as (b & Hb & Hp). destruct (Hy b Hb) as ((len & Hlen & Hc & Hf & Hw) & Hr).
      pose proof Hp as Hp2. apply segs_parts_in5 in Hp2 as (n & w & c2 & c1 & ->).
      apply (@code_nth_part b _ (seg_ok_pos Hf)) in Hp as (H1 & H2 & H3 & _).
      unfold sm_from_step, g. cbn [nth]. destruct (Nat.ltb_spec (n + w) N); [|lia].
      destruct (n =? 0)%nat; reflexivity. }
  cbn [bind]. rewrite (@fold_writes _ g) by reflexivity.
  eexists. split; [reflexivity|]. split; [apply writes_shape|].
  intros b Hb. destruct (Hy b Hb) as ((len & Hlen & Hc & Hf & Hw) & Hr).
  pose proof (seg_ok_pos Hf) as Hpos.
  destruct (ys b) as [c0 l] eqn:Ey. cbn [fst snd] in *.
  assert (Hrow : forall i, In i (nonzero e) -> nth 0 i 0%nat = b -> In i (segs_parts b 0 c0 l)).
  { intros i Hi Hib. destruct (Hin i Hi) as (b' & Hb' & Hp). pose proof Hp as Hp2.
    apply segs_parts_in5 in Hp2 as (n & w & c2 & c1 & ->). cbn [nth] in Hib. subst b'. unfold segm_parts in Hp. now rewrite Ey in Hp. }
  assert (Hout : forall i, In i (segs_parts b 0 c0 l) -> In i (nonzero e)).
  { intros i Hi. destruct (Hbnd _ _ _ _ Hf _ _ _ Hc Hi) as (n & w & c2 & c1 & -> & B1 & B2 & B3).
    pose proof (@code_nth_part b _ Hpos _ _ _ _ _ _ Hi) as (H1 & H2 & H3 & _).
    assert (B : Forall2 lt [n; w; c2; c1] [(N - 1)%nat; K; C; C]) by (f2; lia).
    apply nonzero_in. split; [rewrite Hs; constructor; auto|].
    apply (represents_in (segs_parts_nodup b Hpos 0 c0) Hr); [now rewrite Hs|auto]. }
  assert (Hcode : forall p, nth (S p) (sm_code N (c0, l)) 0 = nth p (flat_map seg_code l ++ repeat (-1) (N - S (widths l))) 0) by reflexivity.
  assert (Hw2 : forall p v, In ([b; p], v) (flat_map g (nonzero e)) -> l <> [] /\ (p <= widths l)%nat /\ v = nth p (sm_code N (c0, l)) 0).
  { intros p v H. apply in_flat_map in H as (i & Hi & H). unfold g in H. apply in_app_iff in H.
    assert (Hib : nth 0 i 0%nat = b).
    { destruct H as [H|[H|[]]]; [destruct (nth 1 i 0 =? 0)%nat; [destruct H as [H|[]]|destruct H]|]; now injection H. }
    specialize (Hrow i Hi Hib). assert (Hne : l <> []) by (destruct l; [destruct Hrow|discriminate]).
    pose proof Hrow as H5. apply segs_parts_in5 in H5 as (n & w & c2 & c1 & ->). cbn [nth] in H.
    pose proof (@code_nth_part b _ Hpos _ _ _ _ _ _ Hrow) as (H1 & H2 & H3 & H4 & H5).
    destruct H as [H|[H|[]]].
    - destruct (Nat.eqb_spec n 0); [|destruct H]. subst n. destruct H as [H|[]]. injection H as <- <-.
      split; [exact Hne|]. split; [lia|]. rewrite H4 by reflexivity. reflexivity.
    - injection H as <- <-. split; [exact Hne|]. split; [lia|]. replace (n + w)%nat with (S (n + w - 0 - 1)) at 1 by lia.
      rewrite Hcode, app_nth1 by (rewrite code_length by auto; lia). now rewrite H5. }
  apply zrow_eq.
  - rewrite writes_shape. cbn [shape nth]. unfold sm_decoded. cbn [snd]. destruct l; [apply repeat_length|].
    apply sm_code_length; cbn [snd]; auto. lia.
  - intros p Hp.
    assert (HpN : (p < N)%nat).
    { unfold sm_decoded in Hp. cbn [snd] in Hp. destruct l; [now rewrite repeat_length in Hp|].
      rewrite sm_code_length in Hp; cbn [snd]; auto. lia. }
    unfold sm_decoded in *. cbn [snd] in *. destruct l as [|s0 l0].
    { rewrite writes_miss; [|intros v Hv; apply Hw2 in Hv; tauto]. cbn [dat].
      symmetry. apply nth_error_nth. now rewrite nth_error_repeat. }
    set (l := s0 :: l0) in *.
    assert (Hhit : forall v, In ([b; p], v) (flat_map g (nonzero e)) ->
      dat (writes (flat_map g (nonzero e)) {| shape := [batch; N]; dat := fun _ => -1 |}) [b; p] = nth p (sm_code N (c0, l)) 0).
    { intros v Hv. destruct (Hw2 _ _ Hv) as (_ & _ & ->). apply writes_hit; auto.
      intros v' Hv'. apply Hw2 in Hv'. tauto. }
    destruct p as [|p].
    { apply (Hhit (Z.of_nat c0)). apply in_flat_map. exists [b; 0%nat; fst s0; snd s0; c0]. split; [|left; reflexivity].
      apply Hout. destruct s0. left. reflexivity. }
    destruct (Nat.lt_ge_cases p (widths l)) as [Hlt|Hge].
    + destruct (code_nth_find b Hpos 0 c0 Hlt) as [Hm|(n & w & c2 & c1 & H1 & H2 & H3)].
      * rewrite writes_miss; [cbn [dat]; rewrite Hcode, app_nth1 by (rewrite code_length by auto; lia); now rewrite Hm|].
        intros v Hv. assert (Hv2 := Hw2 _ _ Hv). destruct Hv2 as (_ & _ & Ev).
        rewrite Hcode, app_nth1, Hm in Ev by (rewrite code_length by auto; lia).
        apply in_flat_map in Hv as (i & _ & Hv). unfold g in Hv. apply in_app_iff in Hv.
        destruct Hv as [Hv|[Hv|[]]]; [destruct (nth 1 i 0 =? 0)%nat; [destruct Hv as [Hv|[]]|destruct Hv]|]; injection Hv; intros; lia.
      * apply (Hhit (Z.of_nat c2)). apply in_flat_map. exists [b; n; w; c2; c1]. split; [now apply Hout|].
        apply in_app_iff. right. left. cbn [nth]. repeat f_equal. lia.
    + rewrite writes_miss; [|intros v Hv; apply Hw2 in Hv; lia]. cbn [dat].
      rewrite Hcode, app_nth2; rewrite code_length by auto; [|lia]. symmetry. apply nth_error_nth. rewrite nth_error_repeat; [reflexivity|lia].
Qed.

(** ** Every admissible row encodes a segmentation *)
(** first entry a label, other entries -1 or a label preceded, fewer than K
    positions before, by another label *)
Definition sm_row_ok (K C : nat) (r : list Z) : Prop :=
  0 <= nth 0 r (-1) < Z.of_nat C /\
  forall n, (1 <= n < length r)%nat -> nth n r (-1) <> -1 ->
    0 <= nth n r (-1) < Z.of_nat C /\ exists m, (m < n < m + K)%nat /\ nth m r (-1) <> -1.
(** proof device: the segments read off a row *)
Fixpoint sm_segs (k : nat) (t : list Z) : list (nat * nat) :=
  match t with
  | [] => []
  | v :: t' => if v =? -1 then sm_segs (S k) t' else (S k, Z.to_nat v) :: sm_segs 0 t'
  end.
Lemma repeat_snoc A (x : A) k t : repeat x k ++ x :: t = repeat x (S k) ++ t.
Proof. induction k as [|k IH]; [reflexivity|]. cbn [repeat app] in *. now rewrite IH. Qed.
Lemma sm_segs_code K C t : forall pre k,
  (forall n, (length pre + k <= n < length pre + k + length t)%nat -> let r := pre ++ repeat (-1) k ++ t in nth n r (-1) <> -1 ->
    0 <= nth n r (-1) < Z.of_nat C /\ exists m, (m < n < m + K)%nat /\ nth m r (-1) <> -1) ->
  Forall (seg_ok K C) (sm_segs k t) /\
  exists pad, repeat (-1) k ++ t = flat_map seg_code (sm_segs k t) ++ repeat (-1) pad.
Proof.
  induction t as [|v t IH]; intros pre k H.
  - split; [constructor|]. exists k. now rewrite app_nil_r.
  - cbn [sm_segs]. destruct (Z.eqb_spec v (-1)) as [->|Hv].
    + destruct (IH pre (S k)) as [H1 H2].
      * intros n Hn r. subst r. rewrite <- repeat_snoc. apply H. cbn [length]. lia.
      * split; auto. now rewrite repeat_snoc.
    + assert (Hk : nth (length pre + k) (pre ++ repeat (-1) k ++ v :: t) (-1) = v).
      { rewrite app_assoc, app_nth2; rewrite app_length, repeat_length; [|lia]. now rewrite Nat.sub_diag. }
      destruct (H (length pre + k)%nat) as [Hc (m & Hm & Hmv)]; [cbn [length]; lia|congruence|]. rewrite Hk in Hc.
      assert (Hmp : (m < length pre)%nat).
      { destruct (Nat.lt_ge_cases m (length pre)); auto. exfalso. apply Hmv.
        rewrite app_nth2 by lia. rewrite app_nth1 by (rewrite repeat_length; lia). apply nth_repeat. }
      destruct (IH (pre ++ repeat (-1) k ++ [v]) 0%nat) as [H1 (pad & H2)].
      * intros n Hn r. subst r. rewrite !app_length, repeat_length in Hn. cbn [length] in Hn.
        rewrite <- !app_assoc. cbn [repeat app]. apply H. cbn [length]. lia.
      * split; [constructor; auto; unfold seg_ok; cbn [fst snd]; lia|].
        exists pad. cbn [flat_map]. cbn [repeat app] in H2. rewrite <- app_assoc, <- H2. unfold seg_code. cbn [fst snd].
        rewrite <- app_assoc. cbn [app Nat.sub]. rewrite Nat.sub_0_r, Z2Nat.id by lia. reflexivity.
Qed.
Theorem sm_row_segm K C r : sm_row_ok K C r ->
  exists y len, (1 <= len <= length r)%nat /\ is_segm K C len y /\ r = sm_code (length r) y.
Proof.
  intros [H0 H]. destruct r as [|v t]; [cbn [nth] in H0; lia|]. cbn [nth] in H0.
  destruct (@sm_segs_code K C t [v] 0) as [H1 (pad & H2)].
  { intros n Hn r. subst r. cbn [repeat app length] in *. apply H. lia. }
  cbn [repeat app] in H2.
  assert (Hl : length t = (widths (sm_segs 0 t) + pad)%nat).
  { rewrite H2 at 1. rewrite app_length, repeat_length, code_length by (eapply seg_ok_pos; eauto). reflexivity. }
  exists (Z.to_nat v, sm_segs 0 t), (S (widths (sm_segs 0 t))). cbn [length].
  split; [lia|]. split.
  - unfold is_segm. cbn [fst snd]. repeat split; auto; lia.
  - unfold sm_code, segm_code. cbn [fst snd]. rewrite Z2Nat.id by lia. cbn [app]. f_equal.
    rewrite H2 at 1. do 2 f_equal. lia.
Qed.

(** ** Dependency trees *)
Lemma dp_to_parts_val s lengths batch N :
  shape s = [batch; N] -> (batch <= length (row_lengths N batch lengths))%nat ->
  (forall b n, (b < batch)%nat -> (n < N)%nat -> 0 <= dat s [b; n] <= Z.of_nat N) ->
  exists e, dp_to_parts s lengths = Ok e /\ shape e = [batch; N; N] /\
    forall b h c, (b < batch)%nat -> (h < N)%nat -> (c < N)%nat ->
      let len := nth b (row_lengths N batch lengths) 0%nat in
      dat e [b; h; c] = if (c <? len)%nat && (if (h =? c)%nat then dat s [b; c] =? 0
                                        else (h <? len)%nat && (dat s [b; c] =? Z.of_nat h + 1)) then 1 else 0.
Proof.
  intros Hs Hls Hv. unfold dp_to_parts. rewrite Hs.
  set (g := fun n => map (fun b => [b; Z.to_nat (dat s [b; (n - 1)%nat]); n]) (seq 0 batch)).
  rewrite (@loop_ok _ _ _ (fun t n => puts 1 (g n) t)).
  2:{ intros t n Hn. apply in_seq in Hn. rewrite (mapM_ok _ (fun b => [b; Z.to_nat (dat s [b; (n - 1)%nat]); n])).
      - reflexivity.
      - intros b Hb. apply in_seq in Hb. rewrite pyix_in; [reflexivity|]. specialize (Hv b (n - 1)%nat). lia. }
  cbn [bind]. rewrite (@fold_puts _ g) by reflexivity.
  set (ls := row_lengths N batch lengths) in *.
  set (m := fun b j => (nth 0 j 0 =? b)%nat && ((nth b ls 0 + 1 <=? nth 2 j 0)%nat || (nth b ls 0 + 1 <=? nth 1 j 0)%nat)).
  rewrite (@loop_ok _ _ _ (fun t b =>
     clear (fun j => (nth 0 j 0 =? b)%nat && (nth b ls 0 + 1 <=? nth 2 j 0)%nat)
       (clear (fun j => (nth 0 j 0 =? b)%nat && (nth b ls 0 + 1 <=? nth 1 j 0)%nat) t))).
  2:{ intros t b Hb. apply in_seq in Hb. rewrite get_length_ok by lia. reflexivity. }
  cbn [bind]. set (f := fun t b => clear _ (clear _ t)). set (t0 := puts _ _ _).
  assert (Hf : forall l t, shape (fold_left f l t) = shape t /\ forall j, dat (fold_left f l t) j = dat (fold_left (fun t b => clear (m b) t) l t) j).
  { assert (G : forall l t t', shape t = shape t' -> (forall j, dat t j = dat t' j) ->
      shape (fold_left f l t) = shape t' /\ forall j, dat (fold_left f l t) j = dat (fold_left (fun t b => clear (m b) t) l t') j).
    { induction l as [|b l IH]; intros t t' Hsh Hd; [auto|]. cbn [fold_left]. apply (IH _ (clear (m b) t')); [exact Hsh|].
      intro j. unfold f, clear, m. cbn [dat]. rewrite Hd.
      destruct (nth 0 j 0 =? b)%nat, (nth b ls 0 + 1 <=? nth 2 j 0)%nat, (nth b ls 0 + 1 <=? nth 1 j 0)%nat; reflexivity. }
    intros l t. apply G; auto. }
  destruct (Hf (seq 0 batch) t0) as [Hsh Hd]. unfold dunconvert. rewrite Hsh. unfold t0 at 1. rewrite puts_shape. cbn [shape zeros].
  rewrite Nat.add_1_r, Nat.eqb_refl. eexists. split; [reflexivity|]. split; [reflexivity|].
  intros b h c Hb Hh Hc. set (len := nth b ls 0%nat). cbn [dat].
  assert (Hval : forall h', dat (fold_left f (seq 0 batch) t0) [b; h'; S c] =
    if (c <? len)%nat && (h' <=? len)%nat && (dat s [b; c] =? Z.of_nat h') then 1 else 0).
  { intro h'. rewrite Hd, (@clears_row _ _ _ _ b).
    2:{ apply in_seq. lia. }
    2:{ intros b' Hb'. unfold m. cbn [nth]. destruct (Nat.eqb_spec b b'); [congruence|reflexivity]. }
    unfold m. cbn [nth]. rewrite Nat.eqb_refl. cbn [andb]. fold len.
    destruct (Nat.leb_spec (len + 1) (S c)), (Nat.ltb_spec c len); try lia; cbn [orb andb]; auto.
    destruct (Nat.leb_spec (len + 1) h'), (Nat.leb_spec h' len); try lia; cbn [orb andb]; auto.
    unfold t0. rewrite puts_dat. cbn [dat zeros].
    destruct (in_dec _ _ _) as [Hin|Hin], (Z.eqb_spec (dat s [b; c]) (Z.of_nat h')) as [E|E]; auto.
    - exfalso. apply in_flat_map in Hin as (n & Hn & Hin). apply in_seq in Hn. apply in_map_iff in Hin as (b' & Eb & Hb').
      injection Eb as -> E1 E2. subst n. replace (S c - 1)%nat with c in E1 by lia. specialize (Hv b c). lia.
    - exfalso. apply Hin. apply in_flat_map. exists (S c). split; [apply in_seq; lia|]. apply in_map_iff. exists b.
      split; [|apply in_seq; lia]. replace (S c - 1)%nat with c by lia. rewrite E, Nat2Z.id. reflexivity. }
  destruct (h =? c)%nat; rewrite Hval.
  - cbn [Nat.leb]. now rewrite andb_true_r.
  - replace (S h <=? len)%nat with (h <? len)%nat by reflexivity. replace (Z.of_nat (S h)) with (Z.of_nat h + 1) by lia.
    now rewrite andb_assoc.
Qed.

(** head vectors: the head of word c (0-based) is 0 for the root or a word 1..len
    different from c+1 *)
Definition heads_ok (hs : list nat) : Prop :=
  forall c, (c < length hs)%nat -> (nth c hs 0 <= length hs)%nat /\ nth c hs 0%nat <> S c.
Lemma dep_parts_in b hs : forall c0 e, In e (dep_parts_from b c0 hs) <->
  exists c, (c < length hs)%nat /\ e = dep_part b (c0 + c) (nth c hs 0%nat) [].
Proof.
  induction hs as [|x hs IH]; intros c0 e; cbn [dep_parts_from].
  - split; [intros []|]. intros (c & H & _). cbn [length] in H. lia.
  - cbn [In length]. rewrite IH. split.
    + intros [<-|(c & Hc & ->)].
      * exists 0%nat. split; [lia|]. now rewrite Nat.add_0_r.
      * exists (S c). split; [lia|]. cbn [nth]. f_equal. lia.
    + intros ([|c] & Hc & ->).
      * left. cbn [nth]. now rewrite Nat.add_0_r.
      * right. exists c. split; [lia|]. cbn [nth]. f_equal. lia.
Qed.
Lemma dep_parts_nodup b hs : forall c0, NoDup (dep_parts_from b c0 hs).
Proof.
  induction hs as [|x hs IH]; intro c0; cbn [dep_parts_from]; constructor; auto.
  intro H. apply dep_parts_in in H as (c & Hc & E).
  assert (F : forall c h, nth 2 (dep_part b c h []) 0%nat = c) by (intros ? [|?]; reflexivity).
  apply (f_equal (fun l => nth 2 l 0%nat)) in E. rewrite !F in E. lia.
Qed.
Lemma dep_parts_in3 b hs h c : heads_ok hs -> In [b; h; c] (dep_parts b hs) <->
  (c < length hs)%nat /\ (if (h =? c)%nat then nth c hs 0%nat = 0%nat else nth c hs 0%nat = S h).
Proof.
  intro Hk. unfold dep_parts. rewrite dep_parts_in. cbn [Nat.add]. split.
  - intros (c' & Hc & E). pose proof (Hk c' Hc) as [_ Hne]. destruct (nth c' hs 0%nat) as [|h'] eqn:Eh; cbn [dep_part] in E; injection E as -> ->.
    + rewrite Nat.eqb_refl. auto.
    + split; auto. destruct (Nat.eqb_spec h' c'); [congruence|auto].
  - intros [Hc E]. exists c. split; auto. destruct (Nat.eqb_spec h c) as [->|]; rewrite E; reflexivity.
Qed.

Theorem dp_to_parts_spec s lengths batch N (hs : nat -> list nat) :
  shape s = [batch; N] -> (batch <= length (row_lengths N batch lengths))%nat ->
  (forall b n, (b < batch)%nat -> (n < N)%nat -> 0 <= dat s [b; n] <= Z.of_nat N) ->
  (forall b, (b < batch)%nat -> heads_ok (hs b) /\ length (hs b) = nth b (row_lengths N batch lengths) 0%nat /\
     (length (hs b) <= N)%nat /\ firstn (length (hs b)) (zrow s b) = map Z.of_nat (hs b)) ->
  exists e, dp_to_parts s lengths = Ok e /\ shape e = [batch; N; N] /\
    forall b, (b < batch)%nat -> represents e b (dep_parts b (hs b)).
Proof.
  intros Hs Hls Hv Hh. destruct (dp_to_parts_val s lengths Hs Hls Hv) as (e & E & Hsh & He).
  exists e. split; [exact E|]. split; [exact Hsh|]. intros b Hb i Hi. rewrite Hsh in Hi. cbn [tl] in Hi. inv2 Hi.
  rename x into h, x0 into c. destruct (Hh b Hb) as (Hk & Hl & HlN & Hp).
  rewrite count_nodup by apply dep_parts_nodup. rewrite He by auto. rewrite <- Hl.
  assert (Hx : (c < length (hs b))%nat -> dat s [b; c] = Z.of_nat (nth c (hs b) 0%nat)).
  { intro Hc. apply zrow_prefix; auto. rewrite Hs. exact Hlt0. }
  destruct (in_dec _ _ _) as [Hin|Hin].
  - apply dep_parts_in3 in Hin; auto. destruct Hin as [Hc Hin]. rewrite (Hx Hc).
    destruct (Nat.ltb_spec c (length (hs b))); [|lia]. pose proof (Hk c Hc) as [Hk1 _].
    destruct (h =? c)%nat; rewrite Hin; cbn [andb]; [reflexivity|].
    destruct (Nat.ltb_spec h (length (hs b))); [|lia]. rewrite Nat2Z.inj_succ. unfold Z.succ. rewrite Z.eqb_refl. reflexivity.
  - destruct (_ && _) eqn:Eb; [|reflexivity]. exfalso. apply Hin. apply dep_parts_in3; auto.
    apply andb_true_iff in Eb as [Hc Eb]. apply Nat.ltb_lt in Hc. split; auto. rewrite (Hx Hc) in Eb.
    destruct (h =? c)%nat; [apply Z.eqb_eq in Eb; lia|]. apply andb_true_iff in Eb as [_ Eb]. apply Z.eqb_eq in Eb. lia.
Qed.

Theorem dp_from_parts_spec e batch N (hs : nat -> list nat) :
  shape e = [batch; N; N] ->
  (forall b, (b < batch)%nat -> heads_ok (hs b) /\ (length (hs b) <= N)%nat /\ represents e b (dep_parts b (hs b))) ->
  exists s, dp_from_parts e = Ok s /\ shape s = [batch; N] /\
    forall b, (b < batch)%nat -> zrow s b = map Z.of_nat (hs b) ++ repeat 0 (N - length (hs b)).
Proof.
  intros Hs Hy. unfold dp_from_parts. rewrite Hs.
  set (g := fun on : list nat => [([nth 0 on 0; nth 2 on 0]%nat, if (nth 1 on 0 =? nth 2 on 0)%nat then 0 else Z.of_nat (nth 1 on 0%nat) + 1)]).
  rewrite (@fold_writes _ g) by reflexivity.
  eexists. split; [reflexivity|]. split; [apply writes_shape|].
  intros b Hb. destruct (Hy b Hb) as (Hk & Hl & Hr).
  assert (Hin : forall h c, (h < N)%nat -> (c < N)%nat -> (In [b; h; c] (nonzero e) <-> In [b; h; c] (dep_parts b (hs b)))).
  { intros h c Hh Hc. rewrite nonzero_in, Hs. assert (B : Forall2 lt [h; c] [N; N]) by (f2; lia).
    rewrite (represents_in (dep_parts_nodup b (hs b) 0) Hr) by (now rewrite Hs).
    split; [tauto|]. intro. split; [constructor; auto|auto]. }
  assert (Hw : forall c v, In ([b; c], v) (flat_map g (nonzero e)) -> (c < length (hs b))%nat /\ v = Z.of_nat (nth c (hs b) 0%nat)).
  { intros c v H. apply in_flat_map in H as (i & Hi & H). pose proof Hi as Hi2. apply nonzero_in in Hi2 as [Hi2 _].
    rewrite Hs in Hi2. inv2 Hi2. destruct H as [H|[]]. cbn [nth] in H. injection H as -> -> <-.
    apply Hin in Hi; auto. apply dep_parts_in3 in Hi; auto. destruct Hi as [Hc Hi]. split; auto.
    destruct (x0 =? c)%nat; rewrite Hi; [reflexivity|lia]. }
  apply zrow_eq.
  - rewrite writes_shape. cbn [shape zeros nth]. rewrite app_length, map_length, repeat_length. lia.
  - intros c Hc. rewrite app_length, map_length, repeat_length in Hc.
    destruct (Nat.lt_ge_cases c (length (hs b))) as [Hlt|Hge].
    + rewrite app_nth1 by (now rewrite map_length).
      etransitivity; [|symmetry; exact (map_nth Z.of_nat (hs b) 0%nat c)].
      apply writes_hit; [|intros v Hv; apply Hw in Hv; tauto].
      pose proof (Hk c Hlt) as [Hk1 Hk2]. destruct (nth c (hs b) 0%nat) as [|h] eqn:Eh.
      * apply in_flat_map. exists [b; c; c]. split.
        -- apply Hin; try lia. apply dep_parts_in3; auto. rewrite Nat.eqb_refl. auto.
        -- left. cbn [nth]. now rewrite Nat.eqb_refl.
      * assert (h <> c) by congruence. apply in_flat_map. exists [b; h; c]. split.
        -- apply Hin; try lia. apply dep_parts_in3; auto. destruct (Nat.eqb_spec h c); [congruence|auto].
        -- left. cbn [nth]. destruct (Nat.eqb_spec h c); [congruence|]. f_equal. lia.
    + rewrite app_nth2, nth_repeat by (now rewrite map_length). rewrite writes_miss; [reflexivity|].
      intros v Hv. apply Hw in Hv. lia.
Qed.

(** [unconvert] undoes [convert] on every entry; [convert] undoes [unconvert]
    except on the diagonal and in column 0 *)
Theorem dunconvert_convert A (junk : A) t batch n sh : shape t = batch :: n :: n :: sh ->
  exists u v, dconvert junk t = Ok u /\ dunconvert u = Ok v /\ shape v = shape t /\
    forall b h c r, dat v (b :: h :: c :: r) = dat t (b :: h :: c :: r).
Proof.
  intro H. unfold dconvert. rewrite H, Nat.eqb_refl. eexists. unfold dunconvert.
  eexists. split; [reflexivity|]. cbn [shape]. rewrite Nat.eqb_refl. split; [reflexivity|]. split; [reflexivity|]. intros b h c r. cbn [dat].
  destruct (Nat.eqb_spec h c) as [->|Hn].
  - cbn [Nat.eqb Nat.leb andb Nat.sub]. now rewrite Nat.sub_0_r.
  - cbn [Nat.eqb Nat.leb andb Nat.sub]. destruct (Nat.eqb_spec h c); [contradiction|]. cbn [andb]. now rewrite !Nat.sub_0_r.
Qed.
