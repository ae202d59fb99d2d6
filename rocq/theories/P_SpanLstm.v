(** * P_SpanLstm (C70): the span scores of SpanLSTM and what they do to TreeCRF. *)
From Coq Require Import Reals Lra FunctionalExtensionality.
From Verif Require Import Base Ops Tensor Codec Semirings LinearChain CkyCrf Family Approx Api Query P_Structures P_Real TreeLstm SpanLstm.
Set Implicit Arguments.
Local Open Scope R_scope.

(** ** Span vectors *)
Lemma step_cell H m : lstm_step H m = cell_eqs H m.
Proof. apply functional_extensionality. intros [h c]. reflexivity. Qed.
Lemma embed_word m : embed m = word_vector m.
Proof. apply functional_extensionality. intros [|[|w]]; reflexivity. Qed.
Lemma lstm_run_nth H m xs : forall s n, (n < length xs)%nat ->
  nth n (lstm_run H m s xs) (fun _ => 0) = fst (fold_left (lstm_step H m) (firstn (n + 1) xs) s).
Proof.
  induction xs as [|x xs IH]; intros s n Hn; [cbn in Hn; lia|]. rewrite Nat.add_1_r. cbn [lstm_run firstn fold_left].
  destruct n as [|n]; [reflexivity|]. cbn [nth]. rewrite IH by (cbn in Hn; lia). now rewrite Nat.add_1_r.
Qed.
Lemma lstm_run_length H m xs : forall s, length (lstm_run H m s xs) = length xs.
Proof. induction xs as [|x xs IH]; intro s; [reflexivity|]. cbn. now rewrite IH. Qed.
(** The vector of span (i, j): the forward half is the difference of the states before and
    after the span's fence posts, one word late, and zero for spans that end the row; the
    backward half likewise from the right, and zero for spans that start the row. *)
Theorem C70_vector m ws i j k : (i <= j < length ws)%nat ->
  span_vector m ws i j k =
    if (k <? s_H m)%nat then (if (j =? length ws - 1)%nat then 0 else from_left m ws (j + 2)%nat k - from_left m ws (i + 1)%nat k)
    else (if (i =? 0)%nat then 0 else from_right m ws (i - 1)%nat (k - s_H m)%nat - from_right m ws j (k - s_H m)%nat).
Proof.
  intro Hij. unfold span_vector, half_a, half_b. destruct (Nat.ltb_spec k (s_H m)) as [Hk|Hk].
  - destruct (Nat.ltb_spec j (length ws - 1)) as [L|L], (Nat.eqb_spec j (length ws - 1)) as [E|E]; try lia; [|reflexivity].
    rewrite !lstm_run_nth by (rewrite map_length; lia). unfold from_left, state. rewrite !firstn_map, step_cell, embed_word. now replace (j + 1 + 1)%nat with (j + 2)%nat by lia.
  - destruct (Nat.leb_spec 1 i) as [L|L], (Nat.eqb_spec i 0) as [E|E]; try lia; [|reflexivity].
    assert (R : forall n, (n < length ws)%nat -> nth n (rev (lstm_run (s_H m) (s_bwd m) zero2 (rev (map (embed m) ws)))) (fun _ => 0) = from_right m ws n).
    { intros n Hn. rewrite rev_nth by (rewrite lstm_run_length, rev_length, map_length; lia). rewrite lstm_run_length, rev_length, map_length.
      rewrite lstm_run_nth by (rewrite rev_length, map_length; lia). unfold from_right, state. rewrite <- map_rev, firstn_map, step_cell, embed_word. do 3 f_equal.
      rewrite firstn_rev. f_equal. f_equal. lia. }
    rewrite !R by lia. reflexivity.
Qed.
(** Differences add up: two neighbouring spans inside the row give the span of both. *)
Theorem C70_additive m ws i j k h : (1 <= i <= j)%nat -> (j < k)%nat -> (k < length ws - 1)%nat ->
  (h < s_H m)%nat -> span_vector m ws i j h + span_vector m ws (j + 1)%nat k h = span_vector m ws i k h.
Proof.
  intros H1 H2 H3 Hh. rewrite !C70_vector by lia. destruct (Nat.ltb_spec h (s_H m)); [|lia].
  destruct (Nat.eqb_spec j (length ws - 1)), (Nat.eqb_spec k (length ws - 1)); try lia. replace (j + 1 + 1)%nat with (j + 2)%nat by lia. ring.
Qed.

(** ** Scores *)
(** rows of equal width with words of the vocabulary *)
Record rows_ok (m : span_lstm) (N : nat) (words : list (list nat)) : Prop := {
  ro_batch : words <> []; ro_width : Forall (fun r => length r = N) words; ro_N : (1 <= N)%nat;
  ro_vocab : (2 <= s_V m)%nat; ro_words : Forall (Forall (fun w => w < s_V m)%nat) words }.
(** spec: the layers after the span vector *)
Definition net (m : span_lstm) (x : vec) : vec := apply_affine (2 * s_H m) (s_proj m) (res_forward (2 * s_H m) (s_res m) x).
Lemma span_forward_ok m N words : rows_ok m N words -> exists t, span_forward m words = Ok t /\ shape t = [length words; N; N; s_NT m] /\
  forall e, dat t e = match e with [b; i; j; c] => net m (span_vector m (nth b words []) i j) c | _ => 0 end.
Proof.
  intros [Hb Hw HN HV Hv]. unfold span_forward. destruct words as [|ws r]; [congruence|]. assert (E : length ws = N) by (inversion Hw; auto). rewrite E.
  assert (E1 : forallb (fun r => (length r =? N)%nat) (ws :: r) = true) by (apply forallb_forall; rewrite Forall_forall in Hw; intros x Hx; apply Nat.eqb_eq, Hw; auto).
  rewrite E1. cbn [negb]. destruct (Nat.eqb_spec N 0); [lia|]. destruct (Nat.leb_spec (s_V m) 1); [lia|].
  assert (E2 : forallb (forallb (fun w => w <? s_V m)%nat) (ws :: r) = true).
  { apply forallb_forall. rewrite Forall_forall in Hv. intros x Hx. apply forallb_forall. intros w Hwx. apply Nat.ltb_lt. specialize (Hv x Hx). rewrite Forall_forall in Hv. auto. }
  rewrite E2. cbn [negb]. eexists. split; [reflexivity|]. split; [reflexivity|]. reflexivity.
Qed.
(** The scores are defined for exactly these batches. *)
Theorem C70_defined m words : (exists t, span_forward m words = Ok t) <-> exists N, rows_ok m N words.
Proof.
  split.
  - intros [t E]. unfold span_forward in E. destruct words as [|ws r]; [discriminate|]. exists (length ws).
    destruct (forallb _ (ws :: r)) eqn:E1 in E; [|discriminate]. cbn [negb] in E. destruct (Nat.eqb_spec (length ws) 0); [discriminate|].
    destruct (Nat.leb_spec (s_V m) 1); [discriminate|]. destruct (forallb (forallb _) (ws :: r)) eqn:E2 in E; [|discriminate].
    constructor; [discriminate| |lia|lia|].
    + apply Forall_forall. intros x Hx. rewrite forallb_forall in E1. now apply Nat.eqb_eq, E1.
    + apply Forall_forall. intros x Hx. rewrite forallb_forall in E2. specialize (E2 x Hx). rewrite forallb_forall in E2. apply Forall_forall. intros w Hw. now apply Nat.ltb_lt, E2.
  - intros [N H]. destruct (span_forward_ok H) as (t & Et & _). eauto.
Qed.
(** Sentences of a batch do not influence each other beyond the common width: the same row
    of words in two batches of the same width has the same scores, and TreeCRF gives it the
    same value in every semiring. *)
Theorem C70_rows m N words words' b b' : rows_ok m N words -> rows_ok m N words' -> (b < length words)%nat -> (b' < length words')%nat ->
  nth b words [] = nth b' words' [] ->
  exists t t', span_forward m words = Ok t /\ span_forward m words' = Ok t' /\
  (forall i j c, dat t [b; i; j; c] = dat t' [b'; i; j; c]) /\
  forall (O : ops) (conv : R -> car O) ls ls' d, (0 < s_NT m)%nat -> ck_args (length words) N (s_NT m) ls -> ck_args (length words') N (s_NT m) ls' -> lc_len N ls b = lc_len N ls' b' ->
    exists v v', run (CTree (length words) N (s_NT m) ls) O (fun e => conv (dat t e)) = Ok v /\
      run (CTree (length words') N (s_NT m) ls') O (fun e => conv (dat t' e)) = Ok v' /\ nth b v d = nth b' v' d.
Proof.
  intros H H' Hb Hb' E. destruct (span_forward_ok H) as (t & Et & Hs & Hd), (span_forward_ok H') as (t' & Et' & Hs' & Hd'). exists t, t'. split; [auto|]. split; [auto|].
  assert (HR : forall i j c, dat t [b; i; j; c] = dat t' [b'; i; j; c]) by (intros i j c; now rewrite Hd, Hd', E). split; [auto|].
  intros O conv ls ls' d HNT Ha Ha' Hl. cbn [run]. apply (@C03_tree_rows O (length words) (length words') N (s_NT m)); auto.
  intro e. cbn [dat tens]. f_equal. rewrite Hd, Hd'. destruct e as [|i [|j [|c [|x e]]]]; try reflexivity. now rewrite E.
Qed.
Print Assumptions C70_rows.
(** The score of the span of a whole row is the same for all words. *)
Theorem C70_whole_row m N words : rows_ok m N words -> exists t, span_forward m words = Ok t /\
  forall b c, (b < length words)%nat -> dat t [b; 0; N - 1; c]%nat = net m (fun _ => 0) c.
Proof.
  intro H. destruct (span_forward_ok H) as (t & Et & Hs & Hd). exists t. split; [auto|]. intros b c Hb. rewrite Hd. f_equal. apply functional_extensionality. intro k.
  assert (E : length (nth b words []) = N) by (pose proof (ro_width H) as Hw; rewrite Forall_forall in Hw; apply Hw, nth_In; auto). pose proof (ro_N H).
  rewrite C70_vector by lia. rewrite E, Nat.eqb_refl. now destruct (k <? s_H m)%nat.
Qed.

(** ** Padding *)
Lemma marg_one_word batch N ls phi : valid (CTree batch N 2 ls) -> (0 < batch)%nat -> eff_len N (lc_len N ls 0) = 1%nat ->
  q_marginals (CTree batch N 2 ls) phi [0; 0; 0; 0]%nat = exp (phi [0; 0; 0; 0]%nat) / (exp (phi [0; 0; 0; 0]%nat) + exp (phi [0; 0; 0; 1]%nat)).
Proof.
  intros V Hb E. pose proof (@C20_marginals_value (CTree batch N 2 ls) phi 0 V (Rle_refl 0) (or_introl eq_refl) 0%nat [LLeaf 0; LLeaf 1] [0; 0; 0; 0]%nat) as H.
  cbv zeta in H. specialize (H ltac:(split; [exact Hb|exact I]) eq_refl). cbn [spec_of ok prt] in H. rewrite E in H.
  assert (HE : Enumerates (is_ltree 2 1) [LLeaf 0; LLeaf 1]).
  { split; [repeat constructor; cbn; intuition discriminate|]. intro t. unfold is_ltree. split.
    - intros [<-|[<-|[]]]; cbn; lia.
    - destruct t as [a|a l r]; cbn [lsize lbounded].
      + intros [_ Ha]. destruct a as [|[|a]]; cbn; auto; lia.
      + pose proof (lsize_pos l). pose proof (lsize_pos r). intros [Hs _]. lia. }
  specialize (H HE). cbn [degree INR] in H. unfold leak in H. cbn [zero_free] in H. rewrite Rmult_0_r in H.
  match type of H with Rabs ?x <= 0 => assert (G : x = 0) by (destruct (Rcase_abs x); unfold Rabs in H; destruct (Rcase_abs x); lra) end.
  apply Rminus_diag_uniq in G. rewrite G. unfold marg_spec, prob, ZS, uses, sc. cbn. rewrite !Rplus_0_r, Rmult_0_r, Rplus_0_r, Rmult_1_r. reflexivity.
Qed.
(** example: a layer of zeros *)
Definition no_affine : affine := {| a_w := fun _ _ => 0; a_b := fun _ => 0 |}.
(** one unit whose cell input is constant *)
Definition counter : span_lstm := {|
  s_H := 1; s_V := 2; s_NT := 2; s_emb := fun _ _ => 0;
  s_fwd := {| w_ih := {| a_w := fun _ _ => 0; a_b := fun k => if (k =? 2)%nat then 1 else 0 |}; w_hh := no_affine |};
  s_bwd := {| w_ih := no_affine; w_hh := no_affine |};
  s_res := {| u1 := no_affine; u2 := no_affine; v1 := no_affine; v2 := no_affine; rw := {| a_w := fun k j => if (k =? j)%nat then 1 else 0; a_b := fun _ => 0 |} |};
  s_proj := {| a_w := fun k j => if (k =? 0)%nat && (j =? 0)%nat then 1 else 0; a_b := fun _ => 0 |} |}.
Lemma counter_net x : net counter x 0%nat = x 0%nat /\ net counter x 1%nat = 0.
Proof.
  unfold net, counter, res_forward, apply_affine, relu, lin. cbn. rewrite !Rmult_0_l, !Rplus_0_l, ?Rmult_1_l, ?Rplus_0_r. rewrite !Rmax_left by lra. split; ring.
Qed.
Lemma sigmoid_0 : sigmoid 0 = / 2.
Proof. unfold sigmoid. rewrite Ropp_0, exp_0. reflexivity. Qed.
Lemma tanh_exp x : tanh x = 1 - 2 / (exp (2 * x) + 1).
Proof.
  unfold tanh, sinh, cosh. rewrite exp_Ropp. replace (2 * x) with (x + x) by ring. rewrite exp_plus. pose proof (exp_pos x). field. repeat split; nra.
Qed.
Lemma tanh_lt x y : x < y -> tanh x < tanh y.
Proof.
  intro H. rewrite !tanh_exp. assert (exp (2 * x) < exp (2 * y)) by (apply exp_increasing; lra). pose proof (exp_pos (2 * x)).
  assert (/ (exp (2 * y) + 1) < / (exp (2 * x) + 1)) by (apply Rinv_lt_contravar; [apply Rmult_lt_0_compat; lra|lra]). unfold Rdiv. lra.
Qed.
Lemma counter_gap w w' : from_left counter [w; w'] 1 0%nat < from_left counter [w; w'] 2 0%nat.
Proof.
  unfold from_left, state. rewrite <- step_cell. cbn [firstn map fold_left].
  assert (S : forall s x, snd (lstm_step (s_H counter) (s_fwd counter) s x) 0%nat = / 2 * snd s 0%nat + / 2 * tanh 1 /\
     fst (lstm_step (s_H counter) (s_fwd counter) s x) 0%nat = / 2 * tanh (/ 2 * snd s 0%nat + / 2 * tanh 1)).
  { intros s x. unfold lstm_step. cbn [fst snd]. unfold apply_affine, lin, counter, no_affine. cbn -[sigmoid tanh Rmult Rplus].
    rewrite !Rmult_0_l. repeat rewrite Rplus_0_l. repeat rewrite Rplus_0_r. rewrite sigmoid_0. split; reflexivity. }
  destruct (S zero2 (word_vector counter w)) as [S1 H1]. destruct (S (lstm_step (s_H counter) (s_fwd counter) zero2 (word_vector counter w)) (word_vector counter w')) as [_ H2].
  rewrite H1, H2, S1. cbn [zero2 snd]. assert (T : 0 < tanh 1) by (replace 0 with (tanh 0) by (unfold tanh; rewrite sinh_0; unfold Rdiv; ring); apply tanh_lt; lra).
  apply Rmult_lt_compat_l; [lra|]. apply tanh_lt. lra.
Qed.
(** The same one-word sentence, alone and padded in a batch with a longer one: TreeCRF gives
    its label different probabilities. *)
Theorem C70_padding_refuted : exists m words words' t t',
  rows_ok m 1 words /\ rows_ok m 2 words' /\ nth 0 words' [] = nth 0 words [] ++ [1%nat] /\
  span_forward m words = Ok t /\ span_forward m words' = Ok t' /\
  valid (CTree 1 1 2 (Some [1%nat])) /\ valid (CTree 2 2 2 (Some [1; 2]%nat)) /\
  q_marginals (CTree 1 1 2 (Some [1%nat])) (dat t) [0; 0; 0; 0]%nat <> q_marginals (CTree 2 2 2 (Some [1; 2]%nat)) (dat t') [0; 0; 0; 0]%nat.
Proof.
  assert (H : rows_ok counter 1 [[0%nat]]) by (constructor; [discriminate| | | |]; repeat constructor).
  assert (H' : rows_ok counter 2 [[0; 1]; [0; 0]]%nat) by (constructor; [discriminate| | | |]; repeat constructor).
  destruct (span_forward_ok H) as (t & Et & _ & Hd), (span_forward_ok H') as (t' & Et' & _ & Hd').
  exists counter, [[0%nat]], [[0; 1]; [0; 0]]%nat, t, t'. split; [auto|]. split; [auto|]. split; [reflexivity|]. split; [auto|]. split; [auto|].
  assert (V : valid (CTree 1 1 2 (Some [1%nat]))) by (cbn; repeat constructor).
  assert (V' : valid (CTree 2 2 2 (Some [1; 2]%nat))) by (cbn; repeat constructor). split; [auto|]. split; [auto|].
  rewrite (marg_one_word (dat t) V), (marg_one_word (dat t') V') by (reflexivity || lia). rewrite !Hd, !Hd'.
  destruct (counter_net (span_vector counter (nth 0 [[0%nat]] []) 0 0)) as [-> ->]. destruct (counter_net (span_vector counter (nth 0 [[0; 1]; [0; 0]]%nat []) 0 0)) as [-> ->].
  rewrite !C70_vector by (cbn; lia). cbn [nth length Nat.eqb s_H counter Nat.ltb Nat.leb Nat.sub]. pose proof (counter_gap 0 1) as G. cbn [Nat.add].
  set (x := _ - _). assert (Hx : 0 < x) by (unfold x; lra). rewrite exp_0. intro E.
  assert (1 < exp x) by (rewrite <- exp_0; apply exp_increasing; auto).
  assert (1 / (1 + 1) * (2 * (exp x + 1)) = exp x / (exp x + 1) * (2 * (exp x + 1))) as E' by (now rewrite E). unfold Rdiv in E'. field_simplify in E'; lra.
Qed.
Print Assumptions C70_padding_refuted.

(** ** A batch that meets the hypotheses of the theorems *)
Example span_hypotheses : rows_ok counter 4 [[0; 0; 0; 1]; [0; 1; 0; 0]]%nat /\ rows_ok counter 4 [[0; 1; 0; 0]]%nat /\
  nth 1 [[0; 0; 0; 1]; [0; 1; 0; 0]]%nat [] = nth 0 [[0; 1; 0; 0]]%nat [] /\ ck_args 2 4 (s_NT counter) (Some [3; 4]%nat) /\ ck_args 1 4 (s_NT counter) None /\
  lc_len 4 (Some [3; 4]%nat) 1 = lc_len 4 None 0.
Proof.
  split; [constructor; [discriminate| | | |]; repeat constructor|]. split; [constructor; [discriminate| | | |]; repeat constructor|].
  split; [reflexivity|]. split; [repeat constructor|]. split; [repeat constructor|]. reflexivity.
Qed.
