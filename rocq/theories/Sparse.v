(** * Sparse: model of torch_struct/semirings/sparse_max.py

    One row along the last dimension (for other values of [dim] line 56 divides
    by an index vector laid out along the last dimension; not modelled). *)
From Coq Require Import Reals Lra.
From Verif Require Import Base Ops Terms Semirings Grad KMax.
Set Implicit Arguments.
Local Open Scope R_scope.

(** ** Model *)
Definition rsum (l : list R) : R := fold_right Rplus 0 l.
(** sparse_max.py:53-61 [project_simplex] (z = 1, the only value used). *)
Definition cssv (vs : list R) (i : nat) : R := rsum (firstn (S i) vs) - 1.                        (* line 55 *)
Definition ss_cond (vs : list R) (i : nat) : bool :=
  if Rle_dec 0 (nth i vs 0 - cssv vs i / INR (S i)) then true else false.                         (* lines 56-57 *)
Definition ss_k (vs : list R) : nat := length (filter (ss_cond vs) (seq 0 (length vs))).          (* line 58 *)
Definition ss_tau (vs : list R) : R := cssv vs (ss_k vs - 1) / INR (ss_k vs).                     (* line 59 *)
Definition project_simplex (v : list R) : list R :=
  let tau := ss_tau (dsort v) in map (fun x => Rmax (x - tau) 0) v.                               (* lines 54, 60 *)
(** sparse_max.py:64-71 [sparsemax_grad] *)
Definition posb (x : R) : bool := if Rlt_dec 0 x then true else false.
(** sparse_max.py:64-71 [sparsemax_grad] of one row *)
Definition sparsemax_grad (dout w : list R) : list R :=
  let out := map (fun p => if posb (snd p) then fst p else 0) (combine dout w) in
  let nnz := INR (length (filter posb w)) in
  let out' := map (fun x => x - rsum out / nnz) out in
  map (fun p => if posb (snd p) then fst p else 0) (combine out' w).
(** sparse_max.py:23-27 [_SimplexProject.forward]: note the norm, not half its square *)
Definition dotl (a b : list R) : R := rsum (map (fun p => fst p * snd p) (combine a b)).
(** sparse_max.py:23-27 [_SimplexProject.forward] of one row *)
Definition sparse_sum (v : list R) : R := let w := project_simplex v in dotl v w - sqrt (dotl w w).
(** sparse_max.py:30-38 [_SimplexProject.backward] with grad_output = 1
    ([_SparseMaxGrad.forward] is the identity) *)
Definition sparse_backward (v : list R) : list R := project_simplex v.

(** ** Lemmas *)
Lemma rsum_app a b : rsum (a ++ b) = rsum a + rsum b.
Proof. unfold rsum. induction a as [|x a IH]; cbn [app fold_right]; [symmetry; apply Rplus_0_l|]. rewrite IH. symmetry. apply Rplus_assoc. Qed.
Lemma rsum_perm a b : Permutation a b -> rsum a = rsum b.
Proof. induction 1; cbn in *; unfold rsum in *; lra. Qed.
Lemma rsum_seq l : rsum l = RSum (fun i => nth i l 0) (seq 0 (length l)).
Proof.
  induction l as [|x l IH]; [reflexivity|]. cbn [length seq]. rewrite RSum_cons. cbn [nth]. unfold rsum. cbn [fold_right]. f_equal. unfold rsum in IH. rewrite IH.
  symmetry. etransitivity; [apply (Sum_seq_shift R_csr)|]. reflexivity.
Qed.
Lemma firstn_S_nth (l : list R) i : (i < length l)%nat -> firstn (S i) l = firstn i l ++ [nth i l 0].
Proof.
  revert i. induction l as [|x l IH]; intros [|i] H; cbn [length] in H; try lia; [reflexivity|].
  cbn [firstn app nth]. f_equal. apply IH. lia.
Qed.
Lemma desc_nth l i j : desc l -> (i <= j)%nat -> (j < length l)%nat -> nth j l 0 <= nth i l 0.
Proof.
  intros H. revert i j. induction H as [|x l Hs IH Hf]; intros i j Hij Hj; cbn [length] in Hj; [lia|].
  destruct j as [|j]; [assert (i = 0)%nat as -> by lia; lra|].
  destruct i as [|i]; cbn [nth]; [|apply IH; lia]. rewrite Forall_forall in Hf. apply Hf, nth_In. lia.
Qed.
Lemma filter_prefix (p : nat -> bool) n : (forall i, (S i < n)%nat -> p (S i) = true -> p i = true) ->
  let k := length (filter p (seq 0 n)) in (k <= n)%nat /\ forall i, (i < n)%nat -> p i = true <-> (i < k)%nat.
Proof.
  induction n as [|n IH]; intro H; cbv zeta; [cbn; split; lia|].
  destruct IH as [Hk Hi]; [intros; apply H; auto; lia|]. rewrite seq_S, filter_app, app_length. cbn [plus filter].
  destruct (p n) eqn:E; cbn [length].
  - assert (A : forall i, (i <= n)%nat -> p (n - i)%nat = true).
    { induction i as [|i IHi]; intro Hin; [rewrite Nat.sub_0_r; auto|]. apply H; [lia|].
      replace (S (n - S i)) with (n - i)%nat by lia. apply IHi. lia. }
    assert (Hkn : length (filter p (seq 0 n)) = n).
    { destruct n as [|n]; [reflexivity|]. assert (B : (n < length (filter p (seq 0 (S n))))%nat).
      { apply Hi; [lia|]. specialize (A 1%nat ltac:(lia)). replace (S n - 1)%nat with n in A by lia. exact A. } lia. }
    rewrite Hkn. split; [lia|]. intros i Hin. split; [lia|]. intros _. specialize (A (n - i)%nat ltac:(lia)).
    replace (n - (n - i))%nat with i in A by lia. exact A.
  - split; [lia|]. intros i Hin. destruct (Nat.eq_dec i n) as [->|]; [|rewrite Hi by lia; lia].
    split; [congruence|]. lia.
Qed.
Lemma filter_ext_len A (p q : A -> bool) l : (forall x, In x l -> p x = q x) -> length (filter p l) = length (filter q l).
Proof. intro H. rewrite (filter_ext_in p q l) by auto. reflexivity. Qed.

Section Threshold.
  Variable vs : list R.
  Hypothesis Hd : desc vs.
  Hypothesis Hn : (1 <= length vs)%nat.
  Let P j := rsum (firstn j vs).
  Let g i := INR (S i) * nth i vs 0 - (P (S i) - 1).
  Lemma P_S i : (i < length vs)%nat -> P (S i) = P i + nth i vs 0.
  Proof. intro H. unfold P. rewrite firstn_S_nth by auto. rewrite rsum_app. cbn. lra. Qed.
  Lemma cond_g i : ss_cond vs i = true <-> 0 <= g i.
  Proof.
    unfold ss_cond, cssv, g, P. pose proof (lt_0_INR (S i) ltac:(lia)) as Hi. set (s := rsum (firstn (S i) vs) - 1). set (x := nth i vs 0).
    assert (E : INR (S i) * (x - s / INR (S i)) = INR (S i) * x - s) by (field; lra).
    destruct (Rle_dec 0 (x - s / INR (S i))) as [H|H]; split; intro H'; auto; try discriminate.
    - rewrite <- E. apply Rmult_le_pos; lra.
    - exfalso. apply H. rewrite <- E in H'. apply Rmult_le_reg_l with (INR (S i)); [auto|]. lra.
  Qed.
  Lemma g_mono i : (S i < length vs)%nat -> g (S i) <= g i.
  Proof.
    intro H. unfold g. rewrite (P_S H). rewrite (S_INR (S i)).
    pose proof (@desc_nth vs i (S i) Hd ltac:(lia) H). pose proof (pos_INR (S i)).
    assert (INR (S i) * nth (S i) vs 0 <= INR (S i) * nth i vs 0) by (apply Rmult_le_compat_l; auto). lra.
  Qed.
  Lemma k_spec : (1 <= ss_k vs <= length vs)%nat /\ forall i, (i < length vs)%nat -> 0 <= g i <-> (i < ss_k vs)%nat.
  Proof.
    destruct (@filter_prefix (ss_cond vs) (length vs)) as [H1 H2].
    { intros i Hi H. apply cond_g. apply cond_g in H. pose proof (g_mono Hi). lra. }
    fold (ss_k vs) in H1, H2. cbv zeta in *. split; [split; [|exact H1]|].
    - enough (0 < ss_k vs)%nat by lia. apply H2; [lia|]. apply cond_g. unfold g, P. destruct vs as [|x l]; [cbn in Hn; lia|].
      cbn. lra.
    - intros i Hi. rewrite <- H2 by auto. symmetry. apply cond_g.
  Qed.
  Lemma tau_eq : INR (ss_k vs) * ss_tau vs = P (ss_k vs) - 1.
  Proof.
    destruct k_spec as [Hk _]. unfold ss_tau, cssv, P. replace (S (ss_k vs - 1)) with (ss_k vs) by lia.
    pose proof (lt_0_INR (ss_k vs) ltac:(lia)). field. lra.
  Qed.
  Lemma tau_above i : (i < ss_k vs)%nat -> ss_tau vs <= nth i vs 0.
  Proof.
    intro H. destruct k_spec as [Hk Hg]. pose proof (@desc_nth vs i (ss_k vs - 1) Hd ltac:(lia) ltac:(lia)) as H1.
    enough (ss_tau vs <= nth (ss_k vs - 1) vs 0) by lra.
    assert (G : 0 <= g (ss_k vs - 1)) by (apply Hg; lia). unfold g in G. replace (S (ss_k vs - 1)) with (ss_k vs) in G by lia.
    rewrite <- tau_eq in G. pose proof (lt_0_INR (ss_k vs) ltac:(lia)). apply Rmult_le_reg_l with (INR (ss_k vs)); lra.
  Qed.
  Lemma tau_below i : (ss_k vs <= i < length vs)%nat -> nth i vs 0 < ss_tau vs.
  Proof.
    intro H. destruct k_spec as [Hk Hg]. pose proof (@desc_nth vs (ss_k vs) i Hd ltac:(lia) ltac:(lia)) as H1.
    enough (nth (ss_k vs) vs 0 < ss_tau vs) by lra.
    assert (G : ~ 0 <= g (ss_k vs)) by (rewrite Hg; lia). unfold g in G. rewrite P_S in G by lia. rewrite S_INR in G.
    pose proof tau_eq as E. pose proof (lt_0_INR (ss_k vs) ltac:(lia)). apply Rmult_lt_reg_l with (INR (ss_k vs)); lra.
  Qed.
  Lemma clamp_sum : rsum (map (fun x => Rmax (x - ss_tau vs) 0) vs) = 1.
  Proof.
    destruct k_spec as [Hk _].
    replace (map (fun x => Rmax (x - ss_tau vs) 0) vs) with (map (fun x => Rmax (x - ss_tau vs) 0) (firstn (ss_k vs) vs ++ skipn (ss_k vs) vs)) by now rewrite firstn_skipn.
    rewrite map_app, rsum_app.
    assert (E1 : forall l, (forall x, In x l -> ss_tau vs <= x) -> rsum (map (fun x => Rmax (x - ss_tau vs) 0) l) = rsum l - INR (length l) * ss_tau vs).
    { induction l as [|x l IH]; intro H; [cbn; lra|]. cbn [map length]. rewrite S_INR. unfold rsum in *. cbn [fold_right]. rewrite IH by auto with datatypes.
      rewrite Rmax_left by (specialize (H x (or_introl eq_refl)); lra). lra. }
    assert (E2 : forall l, (forall x, In x l -> x < ss_tau vs) -> rsum (map (fun x => Rmax (x - ss_tau vs) 0) l) = 0).
    { induction l as [|x l IH]; intro H; [reflexivity|]. cbn [map]. unfold rsum in *. cbn [fold_right]. rewrite IH by auto with datatypes.
      rewrite Rmax_right by (specialize (H x (or_introl eq_refl)); lra). lra. }
    rewrite E1, E2.
    - rewrite firstn_length_le by lia. rewrite tau_eq. unfold P. lra.
    - intros x Hx. apply (In_nth _ _ 0) in Hx as (i & Hi & <-). rewrite skipn_length in Hi.
      replace (nth i (skipn (ss_k vs) vs) 0) with (nth (ss_k vs + i) vs 0).
      + apply tau_below. lia.
      + generalize (ss_k vs) as k. clear. intro k. revert k. induction vs as [|x l IH]; intros [|k]; try reflexivity; [now destruct i|apply IH].
    - intros x Hx. apply (In_nth _ _ 0) in Hx as (i & Hi & <-). rewrite firstn_length_le in Hi by lia.
      replace (nth i (firstn (ss_k vs) vs) 0) with (nth i vs 0).
      + apply tau_above. lia.
      + revert Hi. generalize (ss_k vs) as k. clear. intro k. revert k i. induction vs as [|x l IH]; intros [|k] [|i] Hi; try reflexivity; try lia. cbn. apply IH. lia.
  Qed.
End Threshold.

(** the threshold of a vector *)
Definition thr (v : list R) : R := ss_tau (dsort v).
Lemma thr_sum v : v <> [] -> rsum (map (fun x => Rmax (x - thr v) 0) v) = 1.
Proof.
  intro H. rewrite <- (@clamp_sum (dsort v)).
  - apply rsum_perm. apply Permutation_map. symmetry. apply dsort_perm.
  - apply dsort_desc.
  - rewrite (Permutation_length (dsort_perm v)). destruct v; [contradiction|cbn; lia].
Qed.
Lemma clamp_mono v s t : s <= t -> rsum (map (fun x => Rmax (x - t) 0) v) <= rsum (map (fun x => Rmax (x - s) 0) v).
Proof.
  intro H. induction v as [|x v IH]; [cbn; lra|]. cbn [map]. unfold rsum in *. cbn [fold_right].
  assert (Rmax (x - t) 0 <= Rmax (x - s) 0) by (apply Rle_max_compat_r; lra). lra.
Qed.
Lemma thr_unique v t : rsum (map (fun x => Rmax (x - t) 0) v) = 1 -> t = thr v.
Proof.
  intro H. assert (Hne : v <> []) by (intros ->; cbn in H; lra). pose proof (thr_sum Hne) as H'.
  assert (A : forall s u, s < u -> rsum (map (fun x => Rmax (x - s) 0) v) = 1 -> rsum (map (fun x => Rmax (x - u) 0) v) = 1 -> False).
  { clear. intros s u Hlt Hs Hu.
    assert (S : forall l, rsum (map (fun x => Rmax (x - u) 0) l) = rsum (map (fun x => Rmax (x - s) 0) l) -> rsum (map (fun x => Rmax (x - u) 0) l) = 0).
    { induction l as [|x l IH]; [reflexivity|]. cbn [map]. unfold rsum in *. cbn [fold_right]. intro E.
      pose proof (@clamp_mono l s u ltac:(lra)) as M. unfold rsum in M.
      assert (M2 : Rmax (x - u) 0 <= Rmax (x - s) 0) by (apply Rle_max_compat_r; lra).
      rewrite IH by lra. assert (E2 : Rmax (x - u) 0 = Rmax (x - s) 0) by lra. unfold Rmax in *. destruct (Rle_dec (x - u) 0), (Rle_dec (x - s) 0); lra. }
    specialize (S v). rewrite Hs, Hu in S. specialize (S eq_refl). lra. }
  destruct (Rtotal_order t (thr v)) as [L|[E|L]]; auto; exfalso; eapply A; eauto.
Qed.
Lemma proj_length v : length (project_simplex v) = length v.
Proof. apply map_length. Qed.
Lemma proj_nth v i : (i < length v)%nat -> nth i (project_simplex v) 0 = Rmax (nth i v 0 - thr v) 0.
Proof.
  intro H. unfold project_simplex. fold (thr v). rewrite nth_indep with (d' := Rmax (0 - thr v) 0) by (rewrite map_length; auto).
  exact (map_nth (fun x => Rmax (x - thr v) 0) v 0 i).
Qed.
Lemma proj_char v t w : length w = length v -> (forall i, (i < length v)%nat -> nth i w 0 = Rmax (nth i v 0 - t) 0) -> rsum w = 1 -> project_simplex v = w.
Proof.
  intros Hl Hw Hs. assert (E : w = map (fun x => Rmax (x - t) 0) v).
  { apply nth_ext with (d := 0) (d' := Rmax (0 - t) 0); [now rewrite map_length|]. intros i Hi. rewrite Hl in Hi. rewrite Hw by auto.
    symmetry. exact (map_nth (fun x => Rmax (x - t) 0) v 0 i). }
  rewrite E in Hs |- *. apply thr_unique in Hs. subst t. reflexivity.
Qed.
Lemma combine_nth0 (a b : list R) i : length a = length b -> nth i (combine a b) (0, 0) = (nth i a 0, nth i b 0).
Proof. intro H. now apply combine_nth. Qed.
Lemma dotl_seq a b : length a = length b -> dotl a b = RSum (fun i => nth i a 0 * nth i b 0) (seq 0 (length a)).
Proof.
  intro H. unfold dotl. rewrite rsum_seq, map_length, combine_length, H, Nat.min_id, <- H. apply (Sum_ext_in R_csr). intros i Hi. apply in_seq in Hi.
  rewrite nth_indep with (d' := (fun p => fst p * snd p) (0, 0)) by (rewrite map_length, combine_length; lia).
  etransitivity; [exact (map_nth (fun p => fst p * snd p) (combine a b) (0, 0) i)|]. cbv beta. rewrite combine_nth0 by auto. reflexivity.
Qed.
