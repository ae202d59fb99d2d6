(** * P_Sparse: sparsemax (C35, C36) *)
From Coq Require Import Reals Lra.
From Verif Require Import Base Ops Terms Semirings Grad KMax Sparse.
Set Implicit Arguments.
Local Open Scope R_scope.

(** specification vocabulary: vectors are lists of the same length *)
Definition nonneg (w : list R) : Prop := forall x, In x w -> 0 <= x.
(** spec: sum of a vector *)
Definition total (w : list R) : R := fold_right Rplus 0 w.
(** spec: the probability simplex *)
Definition simplex (n : nat) (w : list R) : Prop := length w = n /\ nonneg w /\ total w = 1.
(** spec: inner product *)
Definition inner (a b : list R) : R := RSum (fun i => nth i a 0 * nth i b 0) (seq 0 (length a)).
(** spec: squared distance *)
Definition dist2 (a b : list R) : R := RSum (fun i => (nth i a 0 - nth i b 0) * (nth i a 0 - nth i b 0)) (seq 0 (length a)).
(** v + t d *)
Definition along (v d : list R) (t : R) : list R := map (fun p => fst p + t * snd p) (combine v d).

Lemma along_length v d t : length d = length v -> length (along v d t) = length v.
Proof. intro H. unfold along. rewrite map_length, combine_length, H. apply Nat.min_id. Qed.
Lemma along_nth v d t i : length d = length v -> (i < length v)%nat -> nth i (along v d t) 0 = nth i v 0 + t * nth i d 0.
Proof.
  intros H Hi. unfold along. rewrite nth_indep with (d' := (fun p => fst p + t * snd p) (0, 0)) by (rewrite map_length, combine_length; lia).
  etransitivity; [exact (map_nth (fun p => fst p + t * snd p) (combine v d) (0, 0) i)|]. cbv beta. rewrite combine_nth0 by auto. reflexivity.
Qed.
Lemma proj_simplex v : v <> [] -> simplex (length v) (project_simplex v).
Proof.
  intro H. split; [apply proj_length|]. split; [|apply (thr_sum H)].
  intros x Hx. unfold project_simplex in Hx. apply in_map_iff in Hx as (y & <- & _). apply Rmax_r.
Qed.

(** C35: the projection on the simplex; the gap term also gives uniqueness *)
Theorem C35_projection v : v <> [] ->
  let w := project_simplex v in
  simplex (length v) w /\ forall p, simplex (length v) p -> dist2 w v + dist2 p w <= dist2 p v.
Proof.
  intros H w. pose proof (proj_simplex H) as Hw. split; [exact Hw|]. intros p (Hl & Hp & Hs). destruct Hw as (Hwl & Hwn & Hws). fold w in Hwl, Hwn, Hws.
  unfold dist2. rewrite Hwl, Hl.
  set (n := length v) in *.
  assert (K : 0 <= RSum (fun i => (nth i p 0 - nth i w 0) * (nth i w 0 - nth i v 0) + thr v * (nth i p 0 - nth i w 0)) (seq 0 n)).
  { apply RSum_nonneg. intros i Hi. apply in_seq in Hi. unfold w. rewrite proj_nth by (fold n; lia).
    assert (Hpi : 0 <= nth i p 0) by (apply Hp, nth_In; lia).
    unfold Rmax. destruct (Rle_dec (nth i v 0 - thr v) 0) as [L|L].
    - replace ((nth i p 0 - 0) * (0 - nth i v 0) + thr v * (nth i p 0 - 0)) with (nth i p 0 * (thr v - nth i v 0)) by ring.
      apply Rmult_le_pos; lra.
    - apply Req_le. ring. }
  rewrite RSum_add, RSum_scal, RSum_sub in K.
  assert (Ep : RSum (fun i => nth i p 0) (seq 0 n) = 1) by (rewrite <- Hl, <- rsum_seq; exact Hs).
  assert (Ew : RSum (fun i => nth i w 0) (seq 0 n) = 1) by (rewrite <- Hwl, <- rsum_seq; exact Hws).
  rewrite Ep, Ew in K.
  rewrite <- RSum_add.
  apply Rle_trans with (RSum (fun i => ((nth i w 0 - nth i v 0) * (nth i w 0 - nth i v 0) + (nth i p 0 - nth i w 0) * (nth i p 0 - nth i w 0)) +
     2 * ((nth i p 0 - nth i w 0) * (nth i w 0 - nth i v 0))) (seq 0 n)).
  - rewrite (RSum_add (fun i => _ + _)), (RSum_scal 2). lra.
  - apply Req_le. apply (Sum_ext R_csr). intro i. ring.
Qed.
Print Assumptions C35_projection.
Example C35_example : project_simplex [1/2; 0; -2] = [3/4; 1/4; 0].
Proof.
  apply (@proj_char [1/2; 0; -2] (-1/4)); [reflexivity| |cbn; lra].
  intros i Hi. cbn [length] in Hi. unfold Rmax. destruct i as [|[|[|i]]]; cbn; try lia; destruct (Rle_dec _ _); lra.
Qed.

(** ** C36 *)
Lemma grad_nth d w i : length d = length w -> (i < length w)%nat ->
  nth i (sparsemax_grad d w) 0 =
  if posb (nth i w 0) then nth i d 0 - RSum (fun j => if posb (nth j w 0) then nth j d 0 else 0) (seq 0 (length w)) / INR (length (filter posb w)) else 0.
Proof.
  intros H Hi. unfold sparsemax_grad. set (out := map (fun p => if posb (snd p) then fst p else 0) (combine d w)).
  assert (Lo : length out = length w) by (unfold out; rewrite map_length, combine_length; lia).
  assert (No : forall j, (j < length w)%nat -> nth j out 0 = if posb (nth j w 0) then nth j d 0 else 0).
  { intros j Hj. unfold out. rewrite nth_indep with (d' := (fun p => if posb (snd p) then fst p else 0) (0, 0)) by (rewrite map_length, combine_length; lia).
    etransitivity; [exact (map_nth (fun p => if posb (snd p) then fst p else 0) (combine d w) (0, 0) j)|]. cbv beta. rewrite combine_nth0 by auto. reflexivity. }
  set (m := rsum out / _).
  assert (Em : m = RSum (fun j => if posb (nth j w 0) then nth j d 0 else 0) (seq 0 (length w)) / INR (length (filter posb w))).
  { unfold m. f_equal. rewrite rsum_seq, Lo. apply (Sum_ext_in R_csr). intros j Hj. apply in_seq in Hj. apply No. lia. }
  rewrite <- Em. rewrite nth_indep with (d' := (fun p => if posb (snd p) then fst p else 0) (0, 0)) by (rewrite map_length, combine_length, map_length; lia).
  etransitivity; [exact (map_nth (fun p => if posb (snd p) then fst p else 0) (combine (map (fun x => x - m) out) w) (0, 0) i)|]. cbv beta.
  rewrite combine_nth0 by (rewrite map_length; auto). cbn [fst snd]. destruct (posb (nth i w 0)) eqn:E; [|reflexivity].
  rewrite nth_indep with (d' := (fun x => x - m) 0) by (rewrite map_length; lia).
  etransitivity; [exact (map_nth (fun x => x - m) out 0 i)|]. cbv beta. rewrite No by auto. rewrite E. reflexivity.
Qed.
Lemma grad_length d w : length d = length w -> length (sparsemax_grad d w) = length w.
Proof. intro H. unfold sparsemax_grad. rewrite map_length, combine_length, !map_length, combine_length. lia. Qed.
Lemma count_pos (f : nat -> bool) w : (forall i, (i < length w)%nat -> f i = posb (nth i w 0)) ->
  RSum (fun i => if f i then 1 else 0) (seq 0 (length w)) = INR (length (filter posb w)).
Proof.
  revert f. induction w as [|x w IH]; intros f Hf; [reflexivity|]. cbn [length seq filter]. rewrite RSum_cons.
  rewrite (Hf 0%nat) by (cbn; lia). cbn [nth].
  assert (E : RSum (fun i => if f i then 1 else 0) (seq 1 (length w)) = INR (length (filter posb w))).
  { etransitivity; [apply (Sum_seq_shift R_csr)|]. apply (IH (fun i => f (1 + i)%nat)). intros i Hi. apply Hf. cbn. lia. }
  rewrite E. destruct (posb x); [cbn [length]; rewrite S_INR|]; lra.
Qed.
(** support and zero sum *)
Theorem C36_grad_support d w : length d = length w -> (exists x, In x w /\ 0 < x) ->
  (forall i, (i < length w)%nat -> nth i w 0 <= 0 -> nth i (sparsemax_grad d w) 0 = 0) /\ total (sparsemax_grad d w) = 0.
Proof.
  intros H (x & Hx & Hpos). split.
  - intros i Hi Hn. rewrite grad_nth by auto. unfold posb. destruct (Rlt_dec 0 (nth i w 0)); [lra|reflexivity].
  - change (total (sparsemax_grad d w)) with (rsum (sparsemax_grad d w)). rewrite rsum_seq, grad_length by auto.
    set (m := RSum (fun j => if posb (nth j w 0) then nth j d 0 else 0) (seq 0 (length w)) / INR (length (filter posb w))).
    transitivity (RSum (fun i => (if posb (nth i w 0) then nth i d 0 else 0) - m * (if posb (nth i w 0) then 1 else 0)) (seq 0 (length w))).
    + apply (Sum_ext_in R_csr). intros i Hi. apply in_seq in Hi. rewrite grad_nth by (auto; lia). fold m. destruct (posb (nth i w 0)); ring.
    + rewrite RSum_sub, RSum_scal, (count_pos (fun i => posb (nth i w 0))) by auto. unfold m.
      assert (0 < INR (length (filter posb w))).
      { apply lt_0_INR. assert (In x (filter posb w)) as F.
        { apply filter_In. split; auto. unfold posb. destruct (Rlt_dec 0 x); auto. }
        destruct (filter posb w); [destruct F|cbn; lia]. }
      set (X := Sum R_csr _ _). change ((X : R) - (X : R) / INR (length (filter posb w)) * INR (length (filter posb w)) = 0). field. lra.
Qed.
Print Assumptions C36_grad_support.
(** where no entry sits at the threshold (the support is locally constant) the
    projection is locally linear and sparsemax_grad is its exact derivative *)
Theorem C36_grad_is_derivative v d tau : v <> [] -> length d = length v ->
  let w := project_simplex v in
  (forall i, (i < length v)%nat -> nth i w 0 = Rmax (nth i v 0 - tau) 0 /\ nth i v 0 <> tau) ->
  exists eps, 0 < eps /\ forall t, Rabs t < eps -> project_simplex (along v d t) = along w (sparsemax_grad d w) t.
Proof.
  intros Hv Hd w Ht.
  assert (Lw : length w = length v) by apply proj_length.
  set (m := RSum (fun j => if posb (nth j w 0) then nth j d 0 else 0) (seq 0 (length w)) / INR (length (filter posb w))).
  assert (Gap : forall l, (forall x, In x l -> x <> tau) -> exists g, 0 < g /\ forall x, In x l -> g <= Rabs (x - tau)).
  { induction l as [|x l IH]; intro H; [exists 1; split; [lra|intros x []]|]. destruct IH as (g & Hg & Hl); [auto with datatypes|].
    exists (Rmin g (Rabs (x - tau))). split.
    - apply Rmin_glb_lt; auto. apply Rabs_pos_lt. specialize (H x (or_introl eq_refl)). lra.
    - intros y [<-|Hy]; [apply Rmin_r|]. eapply Rle_trans; [apply Rmin_l|auto]. }
  assert (Bd : forall l, exists D, 0 <= D /\ forall x, In x l -> Rabs (x - m) <= D).
  { induction l as [|x l (D & HD & Hl)]; [exists 0; split; [lra|intros x []]|]. exists (Rmax D (Rabs (x - m))). split.
    - eapply Rle_trans; [exact HD|apply Rmax_l].
    - intros y [<-|Hy]; [apply Rmax_r|]. eapply Rle_trans; [apply Hl; auto|apply Rmax_l]. }
  destruct (Gap v) as (g & Hg & HG).
  { intros x Hx. apply (In_nth _ _ 0) in Hx as (i & Hi & <-). apply Ht. auto. }
  destruct (Bd d) as (D & HD & HB).
  exists (g / (D + 1)). split; [apply Rdiv_lt_0_compat; lra|]. intros t Hs.
  assert (Hts : forall i, (i < length v)%nat -> Rabs (t * (nth i d 0 - m)) < g).
  { intros i Hi. rewrite Rabs_mult. apply Rle_lt_trans with (Rabs t * D).
    - apply Rmult_le_compat_l; [apply Rabs_pos|]. apply HB, nth_In. lia.
    - apply Rle_lt_trans with (Rabs t * (D + 1)); [apply Rmult_le_compat_l; [apply Rabs_pos|lra]|].
      apply Rmult_lt_reg_r with (/ (D + 1)); [apply Rinv_0_lt_compat; lra|]. rewrite Rmult_assoc, Rinv_r, Rmult_1_r by lra. exact Hs. }
  assert (Lg : length (sparsemax_grad d w) = length w) by (apply grad_length; lia).
  apply (@proj_char _ (tau + t * m)).
  - rewrite !along_length; auto.
  - intros i Hi. rewrite along_length in Hi by auto. rewrite !along_nth by (auto; lia).
    rewrite grad_nth by lia. fold m. destruct (Ht i Hi) as [Ew Hne]. rewrite Ew.
    specialize (Hts i Hi). specialize (HG (nth i v 0) ltac:(apply nth_In; lia)).
    apply Rabs_def2 in Hts. unfold posb. destruct (Rle_dec (nth i v 0 - tau) 0) as [L|L].
    + rewrite (@Rmax_right (nth i v 0 - tau) 0) by lra. destruct (Rlt_dec 0 0); [lra|]. rewrite Rabs_left in HG by lra. rewrite Rmax_right; [ring|lra].
    + rewrite (@Rmax_left (nth i v 0 - tau) 0) by lra. destruct (Rlt_dec 0 (nth i v 0 - tau)); [|lra]. rewrite Rabs_right in HG by lra. rewrite Rmax_left; [ring|lra].
  - assert (Hpos : exists x, In x w /\ 0 < x).
    { destruct (proj_simplex Hv) as (_ & Hn & Hs1). fold w in Hn, Hs1. clear -Hn Hs1. induction w as [|x l IH]; [cbn in Hs1; lra|].
      destruct (Rlt_dec 0 x) as [Hx|Hx]; [exists x; split; [left; auto|auto]|]. destruct IH as (y & Hy & Hp).
      - intros y Hy. apply Hn. right; auto.
      - cbn in Hs1. pose proof (Hn x (or_introl eq_refl)). unfold total. lra.
      - exists y. split; [right|]; auto. }
    destruct (@C36_grad_support d w ltac:(lia) Hpos) as [_ Hz].
    rewrite rsum_seq, along_length by lia.
    transitivity (RSum (fun i => nth i w 0 + t * nth i (sparsemax_grad d w) 0) (seq 0 (length w))).
    + apply (Sum_ext_in R_csr). intros i Hi. apply in_seq in Hi. apply along_nth; lia.
    + rewrite RSum_add, RSum_scal, <- rsum_seq. replace (seq 0 (length w)) with (seq 0 (length (sparsemax_grad d w))) by now rewrite Lg.
      rewrite <- rsum_seq. change (rsum (sparsemax_grad d w)) with (total (sparsemax_grad d w)). rewrite Hz.
      destruct (proj_simplex Hv) as (_ & _ & Hs1). change (rsum w) with (total w). unfold w at 1. rewrite Hs1. lra.
Qed.
Print Assumptions C36_grad_is_derivative.
(** the derivative is symmetric, so this is also the vector-Jacobian product *)
Theorem C36_grad_symmetric d g w : length d = length w -> length g = length w ->
  inner (sparsemax_grad g w) d = inner g (sparsemax_grad d w).
Proof.
  intros Hd Hg. unfold inner. rewrite grad_length, Hg by auto.
  set (c := INR (length (filter posb w))).
  set (sg := RSum (fun j => if posb (nth j w 0) then nth j g 0 else 0) (seq 0 (length w))).
  set (sd := RSum (fun j => if posb (nth j w 0) then nth j d 0 else 0) (seq 0 (length w))).
  transitivity (RSum (fun i => (if posb (nth i w 0) then nth i g 0 * nth i d 0 else 0) - sg / c * (if posb (nth i w 0) then nth i d 0 else 0)) (seq 0 (length w))).
  - apply (Sum_ext_in R_csr). intros i Hi. apply in_seq in Hi. rewrite grad_nth by (auto; lia). fold sg c. destruct (posb _); ring.
  - transitivity (RSum (fun i => (if posb (nth i w 0) then nth i g 0 * nth i d 0 else 0) - sd / c * (if posb (nth i w 0) then nth i g 0 else 0)) (seq 0 (length w))).
    + rewrite !RSum_sub, !RSum_scal. fold sg sd. set (X := Sum R_csr _ _).
      change ((X : R) - (sg : R) / c * (sd : R) = (X : R) - (sd : R) / c * (sg : R)). unfold Rdiv. ring.
    + apply (Sum_ext_in R_csr). intros i Hi. apply in_seq in Hi. rewrite grad_nth by (auto; lia). fold sd c. destruct (posb _); ring.
Qed.
Print Assumptions C36_grad_symmetric.

(** backward returns the gradient of <v,w> - |w|^2/2 ... *)
Definition sparse_potential (v : list R) : R := let w := project_simplex v in inner v w - inner w w / 2.
(** spec: inner product of the first n entries *)
Definition innern (n : nat) (a b : list R) : R := RSum (fun i => nth i a 0 * nth i b 0) (seq 0 n).
Theorem C36_backward_is_gradient v h : v <> [] -> length h = length v ->
  0 <= sparse_potential (along v h 1) - sparse_potential v - inner h (sparse_backward v) <= inner h h / 2.
Proof.
  intros Hv Hh. unfold sparse_potential, sparse_backward. set (w := project_simplex v). set (u := along v h 1).
  assert (Lu : length u = length v) by (apply along_length; auto).
  assert (Hu : u <> []) by (intro E; rewrite E in Lu; destruct v; [contradiction|discriminate]).
  set (x := project_simplex u).
  destruct (C35_projection Hv) as [Sw Ow]. destruct (C35_projection Hu) as [Sx Ox]. fold w in Sw, Ow. fold x in Sx, Ox. rewrite Lu in *.
  specialize (Ow x Sx). specialize (Ox w Sw). destruct Sw as (Lw & _), Sx as (Lx & _).
  unfold dist2, inner in *. rewrite Lw, Lx in *. rewrite Lu, Hh. set (n := length v) in *.
  set (I := innern n).
  assert (D : forall a b, RSum (fun i => (nth i a 0 - nth i b 0) * (nth i a 0 - nth i b 0)) (seq 0 n) = I a a - 2 * I a b + I b b).
  { intros a b. unfold I, innern. rewrite <- RSum_scal, <- RSum_sub, <- RSum_add. apply (Sum_ext R_csr). intro i. ring. }
  rewrite !D in Ow, Ox. change (RSum (fun i => nth i u 0 * nth i x 0) (seq 0 n)) with (I u x). change (RSum (fun i => nth i x 0 * nth i x 0) (seq 0 n)) with (I x x).
  change (RSum (fun i => nth i v 0 * nth i w 0) (seq 0 n)) with (I v w). change (RSum (fun i => nth i w 0 * nth i w 0) (seq 0 n)) with (I w w).
  change (RSum (fun i => nth i h 0 * nth i w 0) (seq 0 n)) with (I h w). change (RSum (fun i => nth i h 0 * nth i h 0) (seq 0 n)) with (I h h).
  assert (Iu : forall a, I u a = I v a + I h a).
  { intro a. unfold I, innern. rewrite <- RSum_add. apply (Sum_ext_in R_csr). intros i Hi. apply in_seq in Hi. unfold u. rewrite along_nth by (auto; fold n; lia). ring. }
  assert (Ic : forall a b, I a b = I b a) by (intros a b; unfold I, innern; apply (Sum_ext R_csr); intro i; ring).
  assert (CS : 0 <= I (along w (along h x (-1)) 1) (along w (along h x (-1)) 1)) by (unfold I, innern; apply RSum_nonneg; intros i _; apply Rle_0_sqr).
  assert (Eq : I (along w (along h x (-1)) 1) (along w (along h x (-1)) 1) = I w w + I h h + I x x + 2 * I w h - 2 * I w x - 2 * I h x).
  { unfold I, innern. rewrite <- !RSum_scal. rewrite <- !RSum_add, <- !RSum_sub. apply (Sum_ext_in R_csr). intros i Hi. apply in_seq in Hi.
    assert (Lhx : length (along h x (-1)) = length w) by (rewrite along_length; lia).
    rewrite (@along_nth w (along h x (-1)) 1 i) by lia. rewrite (@along_nth h x (-1) i) by lia. ring. }
  rewrite Eq in CS. rewrite (Iu x) in *. rewrite (Ic x u), (Ic w u), !Iu in Ox. rewrite (Ic x v), (Ic w v) in Ow. rewrite (Ic x w) in *. rewrite (Ic w h) in CS.
  assert (SQ : 0 <= I x x - 2 * I x w + I w w) by (rewrite <- D; apply RSum_nonneg; intros i _; apply Rle_0_sqr).
  rewrite (Ic x w) in SQ. split; lra.
Qed.
Print Assumptions C36_backward_is_gradient.

(** ... but the forward pass subtracts |w|, not |w|^2/2: it is a different function, and
    the backward pass is not its gradient *)
Lemma proj_pair s : Rabs s < 1 -> project_simplex [s; 0] = [(1 + s) / 2; (1 - s) / 2].
Proof.
  intro H. apply Rabs_def2 in H. apply (@proj_char [s; 0] ((s - 1) / 2)); [reflexivity| |cbn; lra].
  intros i Hi. cbn [length] in Hi. destruct i as [|[|i]]; [| |lia]; cbn [nth]; rewrite Rmax_left; lra.
Qed.
Lemma forward_pair s : Rabs s < 1 -> sparse_sum [s; 0] = s / 2 + s * s / 2 - sqrt ((1 + s * s) / 2).
Proof.
  intro H. unfold sparse_sum. rewrite proj_pair by auto. unfold dotl. cbn [combine map fst snd rsum fold_right].
  replace ((1 + s) / 2 * ((1 + s) / 2) + ((1 - s) / 2 * ((1 - s) / 2) + 0)) with ((1 + s * s) / 2) by lra. lra.
Qed.
Lemma dpl_to f g x l l' : derivable_pt_lim f x l -> (forall t, f t = g t) -> l = l' -> derivable_pt_lim g x l'.
Proof. intros H E <- eps He. destruct (H eps He) as (d & Hd). exists d. intros h Hh Hl. rewrite <- !E. auto. Qed.
Theorem C36_forward_refuted : exists (v : list R) (i : nat), (i < length v)%nat /\
  ~ derivable_pt_lim (fun t => sparse_sum (along v (map (fun j => if (j =? i)%nat then 1 else 0) (seq 0 (length v))) t)) 0 (nth i (sparse_backward v) 0).
Proof.
  exists [1/2; 0], 0%nat. split; [cbn; lia|]. intro H. cbn [length seq map Nat.eqb] in H.
  unfold sparse_backward in H. rewrite proj_pair in H by (rewrite Rabs_right; lra). cbn [nth] in H.
  assert (G : derivable_pt_lim (fun t => (1/2 + t) / 2 + (1/2 + t) * (1/2 + t) / 2 - sqrt ((1 + (1/2 + t) * (1/2 + t)) / 2)) 0 ((1 + 1/2) / 2)).
  { intros eps He. destruct (H eps He) as (dl & Hdl). assert (Hm : 0 < Rmin dl (1/4)) by (apply Rmin_glb_lt; [apply cond_pos|lra]).
    exists (mkposreal _ Hm). intros h Hh Hl. cbn [pos] in Hl. assert (Hl1 : Rabs h < 1/4) by (eapply Rlt_le_trans; [exact Hl|apply Rmin_r]).
    specialize (Hdl h Hh ltac:(eapply Rlt_le_trans; [exact Hl|apply Rmin_l])). apply Rabs_def2 in Hl1.
    unfold along in Hdl. cbn [combine map fst snd] in Hdl.
    replace (0 + (0 + h) * 0) with 0 in Hdl by ring. replace (0 + 0 * 0) with 0 in Hdl by ring.
    replace (1 / 2 + (0 + h) * 1) with (1/2 + (0 + h)) in Hdl by ring. replace (1 / 2 + 0 * 1) with (1/2 + 0) in Hdl by ring.
    rewrite !forward_pair in Hdl by (apply Rabs_def1; lra). exact Hdl. }
  assert (D : derivable_pt_lim (fun t => (1/2 + t) / 2 + (1/2 + t) * (1/2 + t) / 2 - sqrt ((1 + (1/2 + t) * (1/2 + t)) / 2)) 0 (1 - / (2 * sqrt (5/8)) * (1/2))).
  { assert (Di : derivable_pt_lim (fun t => 1/2 + t) 0 1).
    { eapply dpl_to; [apply (derivable_pt_lim_plus (fct_cte (1/2)) id); [apply derivable_pt_lim_const|apply derivable_pt_lim_id]|reflexivity|ring]. }
    assert (Dq : derivable_pt_lim (fun t => (1/2 + t) * (1/2 + t)) 0 1).
    { eapply dpl_to; [exact (derivable_pt_lim_mult _ _ 0 1 1 Di Di)|reflexivity|lra]. }
    assert (Dh : derivable_pt_lim (fun t => (1 + (1/2 + t) * (1/2 + t)) / 2) 0 (1/2)).
    { eapply dpl_to; [apply (derivable_pt_lim_scal (fun t => 1 + (1/2 + t) * (1/2 + t)) (/2) 0 (0 + 1));
        apply (derivable_pt_lim_plus (fct_cte 1) (fun t => (1/2 + t) * (1/2 + t)) 0 0 1); [apply derivable_pt_lim_const|exact Dq]| |lra].
      intro t. unfold mult_real_fct. field. }
    assert (Ds : derivable_pt_lim (fun t => sqrt ((1 + (1/2 + t) * (1/2 + t)) / 2)) 0 (/ (2 * sqrt (5/8)) * (1/2))).
    { apply (derivable_pt_lim_comp (fun t => (1 + (1/2 + t) * (1/2 + t)) / 2) sqrt 0 (1/2) (/ (2 * sqrt (5/8))) Dh).
      replace ((1 + (1/2 + 0) * (1/2 + 0)) / 2) with (5/8) by field. apply derivable_pt_lim_sqrt. lra. }
    apply (derivable_pt_lim_minus (fun t => (1/2 + t) / 2 + (1/2 + t) * (1/2 + t) / 2)
      (fun t => sqrt ((1 + (1/2 + t) * (1/2 + t)) / 2)) 0 1 _); [|exact Ds].
    eapply dpl_to; [apply (derivable_pt_lim_scal (fun t => (1/2 + t) + (1/2 + t) * (1/2 + t)) (/2) 0 (1 + 1));
      exact (derivable_pt_lim_plus (fun t => 1/2 + t) (fun t => (1/2 + t) * (1/2 + t)) 0 1 1 Di Dq)| |lra].
    intro t. unfold mult_real_fct. field. }
  pose proof (uniqueness_limite _ _ _ _ G D) as E.
  assert (P : 0 < sqrt (5/8)) by (apply sqrt_lt_R0; lra).
  assert (Q : sqrt (5/8) * sqrt (5/8) = 5/8) by (apply sqrt_sqrt; lra).
  assert (X : / (2 * sqrt (5/8)) * (1/2) = 1/4) by lra.
  assert (Y : 1/2 = 1/4 * (2 * sqrt (5/8))) by (rewrite <- X; field; lra).
  assert (sqrt (5/8) = 1) by lra. rewrite H0 in Q. lra.
Qed.
Print Assumptions C36_forward_refuted.
Theorem C36_single_score_refuted x : sparse_sum [x] = x - 1.
Proof.
  unfold sparse_sum. replace (project_simplex [x]) with [1].
  - unfold dotl. cbn. rewrite Rmult_1_r, !Rplus_0_r, Rmult_1_r, sqrt_1. reflexivity.
  - symmetry. apply (@proj_char [x] (x - 1)); [reflexivity| |cbn; lra]. intros i Hi. cbn [length] in Hi. destruct i; [|lia]. cbn. rewrite Rmax_left; lra.
Qed.
Example C36_example : exists v d tau, v <> [] /\ length d = length v /\
  (forall i, (i < length v)%nat -> nth i (project_simplex v) 0 = Rmax (nth i v 0 - tau) 0 /\ nth i v 0 <> tau) /\
  sparsemax_grad d (project_simplex v) = [3/2; -3/2; 0].
Proof.
  exists [1/2; 0; -2], [3; 0; 7], (-1/4). split; [discriminate|]. split; [reflexivity|]. rewrite C35_example. split.
  - intros i Hi. cbn [length] in Hi. unfold Rmax. destruct i as [|[|[|i]]]; cbn; try lia; destruct (Rle_dec _ _); split; lra.
  - assert (P0 : posb (3/4) = true) by (unfold posb; destruct (Rlt_dec 0 (3/4)); [reflexivity|lra]).
    assert (P1 : posb (1/4) = true) by (unfold posb; destruct (Rlt_dec 0 (1/4)); [reflexivity|lra]).
    assert (P2 : posb 0 = false) by (unfold posb; destruct (Rlt_dec 0 0); [lra|reflexivity]).
    unfold sparsemax_grad. cbn [combine map fst snd filter]. rewrite P0, P1, P2. cbn [length]. unfold rsum. cbn [fold_right].
    replace (INR 2) with 2 by (cbn; ring). match goal with |- [?a; ?b; _] = _ => replace a with (3/2) by lra; replace b with (-3/2) by lra end. reflexivity.
Qed.
