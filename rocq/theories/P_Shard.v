(** * The gradient of the sharded matrix product (C53). *)
From Verif Require Import Base Ops Terms Semirings Approx Grad SemiMarkov CkyCrf Api Query Tensor Shard.
Set Implicit Arguments.
Local Open Scope R_scope.

(** ** Specification: derivative of <g, matmul(a, b)> by one entry *)
Definition inner (g : tensor R) (c : res (tensor R)) : R :=
  match c with Ok c => RSum (fun y => dat g y * dat c y) (indices (shape c)) | Err _ => 0 end.
(** spec: a tensor with one entry changed *)
Definition tupd (a : tensor R) (e : list nat) (x : R) : tensor R :=
  {| shape := shape a; dat := fun idx => if leq idx e then x else dat a idx |}.

Section Sound.
  Variables (sm : list R -> R) (ml : R -> R -> R) (z o : R) (ov : list nat -> R).
  Let O : ops := {| car := R; ssum := sm; smul := ml; szero := z; sone := o; sover := ov |}.
  Variable lw : list R -> nat -> R.
  Variables ma mb : R -> R -> R.
  (** the local rules are the derivatives of the class's sum and product *)
  Definition local_a : Prop := forall (u v : nat -> R) n k, (k < n)%nat ->
    derivable_pt_lim (fun x => sm (map (fun k' => ml (if (k' =? k)%nat then x else u k') (v k')) (seq 0 n))) (u k)
      (lw (map (fun k' => ml (u k') (v k')) (seq 0 n)) k * ma (u k) (v k)).
  (** spec: partial derivatives of a sum of products in the second factor *)
  Definition local_b : Prop := forall (u v : nat -> R) n k, (k < n)%nat ->
    derivable_pt_lim (fun x => sm (map (fun k' => ml (u k') (if (k' =? k)%nat then x else v k')) (seq 0 n))) (v k)
      (lw (map (fun k' => ml (u k') (v k')) (seq 0 n)) k * mb (u k) (v k)).

  Variables (sa sb sc : list nat) (I D J : nat) (a b g : tensor R).
  Hypothesis Ha : shape a = sa ++ [I; D].
  Hypothesis Hb : shape b = sb ++ [D; J].
  Hypothesis Hc : bshape sa sb = Some sc.
  Hypothesis Hg : shape g = sc ++ [I; J].

  Lemma inner_spec (a' b' : tensor R) : shape a' = sa ++ [I; D] -> shape b' = sb ++ [D; J] ->
    inner g (tmatmul O a' b') = RSum (fun beta => RSum (fun i => RSum (fun j => dat g (beta ++ [i; j]) *
      sm (map (fun k => ml (dat a' (bidx sa beta ++ [i; k])) (dat b' (bidx sb beta ++ [k; j]))) (seq 0 D)))
        (seq 0 J)) (seq 0 I)) (indices sc).
  Proof.
    intros Ha' Hb'. destruct (@tmatmul_spec O sa sb sc I D J a' b' Ha' Hb' Hc) as (c & E & Sc & Dc).
    change (inner g (tmatmul O a' b')) with (match tmatmul O a' b' with Ok c => RSum (fun y => dat g y * dat c y) (indices (shape c)) | Err _ => 0 end).
    rewrite E, Sc, indices_app. apply (Sum_ext_in R_csr). intros beta Hbeta. apply indices_inr in Hbeta.
    rewrite indices_cons. apply (Sum_ext_in R_csr). intros i Hi. apply in_seq in Hi.
    rewrite indices_cons. apply (Sum_ext_in R_csr). intros j Hj. apply in_seq in Hj. rewrite indices_nil.
    rewrite Dc by (auto; lia). reflexivity.
  Qed.

  Theorem vjp_a_derivative ga gb : local_a -> tmatmul_vjp O lw ma mb a b g = Ok (ga, gb) ->
    forall e, inr (shape a) e -> derivable_pt_lim (fun x => inner g (tmatmul O (tupd a e x) b)) (dat a e) (dat ga e).
  Proof.
    intros HL E e He. destruct (@tmatmul_vjp_spec O lw ma mb sa sb sc I D J _ _ _ Ha Hb Hc Hg) as (ga' & gb' & E' & _ & _ & Dga & _).
    assert (X := eq_trans (eq_sym E) E'). injection X as <- <-.
    rewrite Ha in He. apply inr_app_inv in He as (alpha & ik & -> & Halpha & Hik).
    inversion Hik as [|i ? ik' ? Hi Hik']; subst. inversion Hik' as [|k ? ik'' ? Hk Hik'']; subst. inversion Hik''; subst. clear Hik Hik' Hik''.
    rewrite Dga by (auto; now apply inr_length).
    eapply dlim_ext; [intro x; symmetry; apply inner_spec; [exact Ha|exact Hb]|].
    apply (@dlim_sum _ (fun beta x => RSum (fun i0 => RSum (fun j => dat g (beta ++ [i0; j]) *
      sm (map (fun k0 => ml (dat (tupd a (alpha ++ [i; k]) x) (bidx sa beta ++ [i0; k0])) (dat b (bidx sb beta ++ [k0; j]))) (seq 0 D)))
        (seq 0 J)) (seq 0 I)) (fun beta => if leq (bidx sa beta) alpha then RSum (fun j => ja O lw ma sa sb D a b g beta i k j) (seq 0 J) else 0)).
    intros beta Hbeta. apply indices_inr in Hbeta. pose proof (bshape_length _ _ Hc) as L.
    assert (LB : length (bidx sa beta) = length alpha).
    { unfold bidx, bidx0. rewrite map_length, combine_length, skipn_length, (inr_length Hbeta), (inr_length Halpha). lia. }
    rewrite <- (@pick (fun i0 => if leq (bidx sa beta) alpha then RSum (fun j => ja O lw ma sa sb D a b g beta i0 k j) (seq 0 J) else 0) I i Hi).
    apply (@dlim_sum _ (fun i0 x => RSum (fun j => dat g (beta ++ [i0; j]) *
      sm (map (fun k0 => ml (dat (tupd a (alpha ++ [i; k]) x) (bidx sa beta ++ [i0; k0])) (dat b (bidx sb beta ++ [k0; j]))) (seq 0 D)))
        (seq 0 J)) (fun i0 => if (i0 =? i)%nat then if leq (bidx sa beta) alpha then RSum (fun j => ja O lw ma sa sb D a b g beta i0 k j) (seq 0 J) else 0 else 0)).
    intros i0 Hi0. apply in_seq in Hi0. cbn [tupd dat].
    assert (Eq : forall k0, leq (bidx sa beta ++ [i0; k0]) (alpha ++ [i; k]) = (leq (bidx sa beta) alpha && ((i0 =? i)%nat && (k0 =? k)%nat))%bool).
    { intro k0. rewrite leq_app by auto. rewrite !leq_cons, leq_refl, andb_true_r. reflexivity. }
    destruct (i0 =? i)%nat eqn:Ei; [apply Nat.eqb_eq in Ei; subst i0|].
    - destruct (leq (bidx sa beta) alpha) eqn:Ea.
      + apply leq_true in Ea.
        apply (@dlim_sum _ (fun j x => dat g (beta ++ [i; j]) *
          sm (map (fun k0 => ml (if leq (bidx sa beta ++ [i; k0]) (alpha ++ [i; k]) then x else dat a (bidx sa beta ++ [i; k0])) (dat b (bidx sb beta ++ [k0; j]))) (seq 0 D)))
          (fun j => ja O lw ma sa sb D a b g beta i k j)).
        intros j Hj. apply in_seq in Hj. unfold ja. rewrite Rmult_assoc.
        apply (derivable_pt_lim_scal (fun x => sm (map (fun k0 => ml (if leq (bidx sa beta ++ [i; k0]) (alpha ++ [i; k]) then x else dat a (bidx sa beta ++ [i; k0])) (dat b (bidx sb beta ++ [k0; j]))) (seq 0 D)))).
        rewrite <- Ea. eapply dlim_ext; [|apply (HL (fun k0 => dat a (bidx sa beta ++ [i; k0])) (fun k0 => dat b (bidx sb beta ++ [k0; j])) D k Hk)].
        intro x. cbv beta. f_equal. apply map_ext. intro k0.
        rewrite leq_app by auto. rewrite !leq_cons, !leq_refl, Nat.eqb_refl. cbn [andb]. rewrite andb_true_r. reflexivity.
      + eapply dlim_ext; [|apply derivable_pt_lim_const with (a := RSum (fun j => dat g (beta ++ [i; j]) *
          sm (map (fun k0 => ml (dat a (bidx sa beta ++ [i; k0])) (dat b (bidx sb beta ++ [k0; j]))) (seq 0 D))) (seq 0 J))].
        intro x. unfold fct_cte. apply (Sum_ext R_csr). intro j. f_equal. f_equal. apply map_ext. intro k0. rewrite Eq. cbn [andb]. reflexivity.
    - eapply dlim_ext; [|apply derivable_pt_lim_const with (a := RSum (fun j => dat g (beta ++ [i0; j]) *
        sm (map (fun k0 => ml (dat a (bidx sa beta ++ [i0; k0])) (dat b (bidx sb beta ++ [k0; j]))) (seq 0 D))) (seq 0 J))].
      intro x. unfold fct_cte. apply (Sum_ext R_csr). intro j. f_equal. f_equal. apply map_ext. intro k0. rewrite Eq.
      cbn [andb]. rewrite andb_false_r. reflexivity.
  Qed.

  Theorem vjp_b_derivative ga gb : local_b -> tmatmul_vjp O lw ma mb a b g = Ok (ga, gb) ->
    forall e, inr (shape b) e -> derivable_pt_lim (fun x => inner g (tmatmul O a (tupd b e x))) (dat b e) (dat gb e).
  Proof.
    intros HL E e He. destruct (@tmatmul_vjp_spec O lw ma mb sa sb sc I D J _ _ _ Ha Hb Hc Hg) as (ga' & gb' & E' & _ & _ & _ & Dgb).
    assert (X := eq_trans (eq_sym E) E'). injection X as <- <-.
    rewrite Hb in He. apply inr_app_inv in He as (alpha & ik & -> & Halpha & Hik).
    inversion Hik as [|k ? ik' ? Hk Hik']; subst. inversion Hik' as [|j ? ik'' ? Hj Hik'']; subst. inversion Hik''; subst. clear Hik Hik' Hik''.
    rewrite Dgb by (auto; now apply inr_length).
    eapply dlim_ext; [intro x; symmetry; apply inner_spec; [exact Ha|exact Hb]|].
    apply (@dlim_sum _ (fun beta x => RSum (fun i0 => RSum (fun j0 => dat g (beta ++ [i0; j0]) *
      sm (map (fun k0 => ml (dat a (bidx sa beta ++ [i0; k0])) (dat (tupd b (alpha ++ [k; j]) x) (bidx sb beta ++ [k0; j0]))) (seq 0 D)))
        (seq 0 J)) (seq 0 I)) (fun beta => if leq (bidx sb beta) alpha then RSum (fun i => jb O lw mb sa sb D a b g beta i k j) (seq 0 I) else 0)).
    intros beta Hbeta. apply indices_inr in Hbeta. pose proof (bshape_length _ _ Hc) as L.
    assert (LB : length (bidx sb beta) = length alpha).
    { unfold bidx, bidx0. rewrite map_length, combine_length, skipn_length, (inr_length Hbeta), (inr_length Halpha). lia. }
    rewrite <- RSum_if.
    apply (@dlim_sum _ (fun i0 x => RSum (fun j0 => dat g (beta ++ [i0; j0]) *
      sm (map (fun k0 => ml (dat a (bidx sa beta ++ [i0; k0])) (dat (tupd b (alpha ++ [k; j]) x) (bidx sb beta ++ [k0; j0]))) (seq 0 D)))
        (seq 0 J)) (fun i0 => if leq (bidx sb beta) alpha then jb O lw mb sa sb D a b g beta i0 k j else 0)).
    intros i0 Hi0. apply in_seq in Hi0. cbn [tupd dat].
    assert (Eq : forall k0 j0, leq (bidx sb beta ++ [k0; j0]) (alpha ++ [k; j]) = (leq (bidx sb beta) alpha && ((k0 =? k)%nat && (j0 =? j)%nat))%bool).
    { intros k0 j0. rewrite leq_app by auto. rewrite !leq_cons, leq_refl, andb_true_r. reflexivity. }
    rewrite <- (@pick (fun j0 => if leq (bidx sb beta) alpha then jb O lw mb sa sb D a b g beta i0 k j0 else 0) J j Hj).
    apply (@dlim_sum _ (fun j0 x => dat g (beta ++ [i0; j0]) *
      sm (map (fun k0 => ml (dat a (bidx sa beta ++ [i0; k0])) (if leq (bidx sb beta ++ [k0; j0]) (alpha ++ [k; j]) then x else dat b (bidx sb beta ++ [k0; j0]))) (seq 0 D)))
        (fun j0 => if (j0 =? j)%nat then if leq (bidx sb beta) alpha then jb O lw mb sa sb D a b g beta i0 k j0 else 0 else 0)).
    intros j0 Hj0. apply in_seq in Hj0.
    assert (Cst : (forall k0, leq (bidx sb beta ++ [k0; j0]) (alpha ++ [k; j]) = false) ->
      derivable_pt_lim (fun x => dat g (beta ++ [i0; j0]) *
        sm (map (fun k0 => ml (dat a (bidx sa beta ++ [i0; k0])) (if leq (bidx sb beta ++ [k0; j0]) (alpha ++ [k; j]) then x else dat b (bidx sb beta ++ [k0; j0]))) (seq 0 D))) (dat b (alpha ++ [k; j])) 0).
    { intro H. eapply dlim_ext; [|apply derivable_pt_lim_const with (a := dat g (beta ++ [i0; j0]) *
        sm (map (fun k0 => ml (dat a (bidx sa beta ++ [i0; k0])) (dat b (bidx sb beta ++ [k0; j0]))) (seq 0 D)))].
      intro x. unfold fct_cte. f_equal. f_equal. apply map_ext. intro k0. rewrite H. reflexivity. }
    destruct (j0 =? j)%nat eqn:Ej; [apply Nat.eqb_eq in Ej; subst j0|].
    - destruct (leq (bidx sb beta) alpha) eqn:Ea.
      + apply leq_true in Ea. unfold jb. rewrite Rmult_assoc.
        apply (derivable_pt_lim_scal (fun x => sm (map (fun k0 => ml (dat a (bidx sa beta ++ [i0; k0])) (if leq (bidx sb beta ++ [k0; j]) (alpha ++ [k; j]) then x else dat b (bidx sb beta ++ [k0; j]))) (seq 0 D)))).
        rewrite <- Ea. eapply dlim_ext; [|apply (HL (fun k0 => dat a (bidx sa beta ++ [i0; k0])) (fun k0 => dat b (bidx sb beta ++ [k0; j])) D k Hk)].
        intro x. cbv beta. f_equal. apply map_ext. intro k0.
        rewrite leq_app by auto. rewrite !leq_cons, !leq_refl, Nat.eqb_refl. cbn [andb]. rewrite andb_true_r. reflexivity.
      + apply Cst. intro k0. rewrite Eq. reflexivity.
    - apply Cst. intro k0. rewrite Eq, ?Ej, !andb_false_r. reflexivity.
  Qed.
End Sound.

(** ** The local rules of the library's smooth classes *)
(** LogSemiring: softmax (torch.logsumexp), and 1 for the addition *)
Definition log_lw (l : list R) (k : nat) : R := exp (nth k l 0) / RSum exp l.
(** the derivative of an addition *)
Definition one2 (x y : R) : R := 1.
(** StdSemiring: torch.sum and torch.mul *)
Definition std_lw (l : list R) (k : nat) : R := 1.
(** derivative of a product in its first factor *)
Definition std_ma (x y : R) : R := y.
(** derivative of a product in its second factor *)
Definition std_mb (x y : R) : R := x.

Lemma lse_dlim (f : nat -> R -> R) (f' : nat -> R) n x : (0 < n)%nat ->
  (forall k, (k < n)%nat -> derivable_pt_lim (f k) x (f' k)) ->
  derivable_pt_lim (fun x => lse (map (fun k => f k x) (seq 0 n))) x
    (RSum (fun k => exp (f k x) * f' k) (seq 0 n) / RSum (fun k => exp (f k x)) (seq 0 n)).
Proof.
  intros Hn H. unfold lse.
  assert (P : 0 < RSum (fun k => exp (f k x)) (seq 0 n)).
  { apply Rlt_le_trans with (exp (f 0%nat x)); [apply exp_pos|].
    apply (@RSum_single _ (fun k => exp (f k x)) 0%nat); [apply in_seq; lia|]. intros. apply Rlt_le, exp_pos. }
  assert (HS : derivable_pt_lim (fun x => RSum (fun k => exp (f k x)) (seq 0 n)) x (RSum (fun k => exp (f k x) * f' k) (seq 0 n))).
  { apply (@dlim_sum _ (fun k x => exp (f k x)) (fun k => exp (f k x) * f' k)). intros k Hk. apply in_seq in Hk.
    apply (derivable_pt_lim_comp (f k) exp); [apply H; lia|apply derivable_pt_lim_exp]. }
  pose proof (derivable_pt_lim_comp (fun x => RSum (fun k => exp (f k x)) (seq 0 n)) ln x _ _ HS (derivable_pt_lim_ln _ P)) as HD.
  unfold Rdiv. rewrite Rmult_comm. eapply dlim_ext; [|exact HD]. intro y. unfold comp. f_equal. symmetry.
  apply (Sum_map R_csr exp (fun k => f k y)).
Qed.
Lemma nth_map0 (f : nat -> R) n k : (k < n)%nat -> nth k (map f (seq 0 n)) 0 = f k.
Proof. intro H. now rewrite nth_map_seq. Qed.
Lemma log_local : local_a lse Rplus log_lw one2 /\ local_b lse Rplus log_lw one2.
Proof.
  split; intros u v n k Hk; unfold log_lw, one2; rewrite Rmult_1_r, nth_map0 by auto.
  - assert (H := @lse_dlim (fun k' x => (if (k' =? k)%nat then x else u k') + v k') (fun k' => if (k' =? k)%nat then 1 else 0) n (u k) ltac:(lia)).
    match type of H with ?P -> _ => assert (H0 : P) end.
    { intros k' _. destruct (k' =? k)%nat.
      - replace 1 with (1 + 0) by ring. apply (derivable_pt_lim_plus (fun x => x) (fun _ => v k')); [apply derivable_pt_lim_id|apply derivable_pt_lim_const].
      - apply derivable_pt_lim_const. }
    specialize (H H0). clear H0.
    match type of H with derivable_pt_lim _ _ ?d => match goal with |- derivable_pt_lim _ _ ?d' => replace d' with d; [exact H|] end end.
    clear H. f_equal.
    + rewrite <- (@pick (fun k' => exp (u k' + v k')) n k Hk). apply (Sum_ext R_csr). intro k'.
      destruct (k' =? k)%nat eqn:E; [apply Nat.eqb_eq in E; subst; ring|ring].
    + f_equal. rewrite (Sum_map R_csr exp (fun k => u k + v k)). apply (Sum_ext R_csr). intro k'.
      destruct (k' =? k)%nat eqn:E; [apply Nat.eqb_eq in E; subst|]; reflexivity.
  - assert (H := @lse_dlim (fun k' x => u k' + (if (k' =? k)%nat then x else v k')) (fun k' => if (k' =? k)%nat then 1 else 0) n (v k) ltac:(lia)).
    match type of H with ?P -> _ => assert (H0 : P) end.
    { intros k' _. destruct (k' =? k)%nat.
      - replace 1 with (0 + 1) by ring. apply (derivable_pt_lim_plus (fun _ => u k') (fun x => x)); [apply derivable_pt_lim_const|apply derivable_pt_lim_id].
      - apply derivable_pt_lim_const. }
    specialize (H H0). clear H0.
    match type of H with derivable_pt_lim _ _ ?d => match goal with |- derivable_pt_lim _ _ ?d' => replace d' with d; [exact H|] end end.
    clear H. f_equal.
    + rewrite <- (@pick (fun k' => exp (u k' + v k')) n k Hk). apply (Sum_ext R_csr). intro k'.
      destruct (k' =? k)%nat eqn:E; [apply Nat.eqb_eq in E; subst; ring|ring].
    + f_equal. rewrite (Sum_map R_csr exp (fun k => u k + v k)). apply (Sum_ext R_csr). intro k'.
      destruct (k' =? k)%nat eqn:E; [apply Nat.eqb_eq in E; subst|]; reflexivity.
Qed.
Lemma std_local : local_a (ssum std_ops) Rmult std_lw std_ma /\ local_b (ssum std_ops) Rmult std_lw std_mb.
Proof.
  split; intros u v n k Hk; unfold std_lw, std_ma, std_mb; rewrite Rmult_1_l.
  - rewrite <- (@pick v n k Hk).
    apply (@dlim_sum _ (fun k' x => (if (k' =? k)%nat then x else u k') * v k') (fun k' => if (k' =? k)%nat then v k' else 0)).
    intros k' _. destruct (k' =? k)%nat; [|apply derivable_pt_lim_const].
    eapply dlim_ext with (f := fun x => v k' * x); [intro; ring|].
    pose proof (derivable_pt_lim_scal (fun x => x) (v k') (u k) 1 (derivable_pt_lim_id (u k))) as H. rewrite Rmult_1_r in H. exact H.
  - rewrite <- (@pick u n k Hk).
    apply (@dlim_sum _ (fun k' x => u k' * (if (k' =? k)%nat then x else v k')) (fun k' => if (k' =? k)%nat then u k' else 0)).
    intros k' _. destruct (k' =? k)%nat; [|apply derivable_pt_lim_const].
    pose proof (derivable_pt_lim_scal (fun x => x) (u k') (v k) 1 (derivable_pt_lim_id (v k))) as H. rewrite Rmult_1_r in H. exact H.
Qed.

(** ** C53 *)
(** Sharding the backward pass does not change the gradients, whatever the local
    rules of the class (so also for MaxSemiring, whose rule is the one-hot of the
    index torch.max returns). The condition on [ones] holds for every tensor of the
    library's one-float classes: their leading dimension has size 1. *)
Theorem C53_sharded_backward (O : ops) lw ma mb (a b : tensor (car O)) (g : tensor R) sa sb sc I D J max_size :
  shape a = sa ++ [I; D] -> shape b = sb ++ [D; J] -> bzip sa sb = Some sc -> shape g = sc ++ [I; J] ->
  Forall (lt 0) [I; D; J] -> In 1%nat (sa ++ [I]) -> In 1%nat (sb ++ [D]) ->
  preseq (shard_backward O (tmatmul_vjp O lw ma mb) max_size a b g) (tmatmul_vjp O lw ma mb a b g).
Proof.
  intros Ha Hb Hc Hg P N1 N2. inversion_clear P as [|? ? P1 P']. inversion_clear P' as [|? ? P2 P'']. inversion_clear P'' as [|? ? P3 _].
  assert (N : forall s X Y, In 1%nat (s ++ [X]) -> ones (s ++ [X; Y]) <> []).
  { intros s X Y H. apply (In_nth _ _ 0%nat) in H as (p & Hp & Ep). rewrite app_length in Hp. simpl in Hp.
    intro E. assert (X1 := in_ones (s ++ [X; Y]) p). rewrite E in X1. cbn [existsb] in X1. symmetry in X1. apply andb_false_iff in X1.
    rewrite app_length in X1. simpl length in X1. rewrite Nat.ltb_ge, Nat.eqb_neq in X1. destruct X1 as [X1|X1]; [lia|]. apply X1.
    rewrite <- Ep. change [X; Y] with ([X] ++ [Y]). rewrite app_assoc. rewrite app_nth1; [reflexivity|]. rewrite app_length. simpl. lia. }
  apply (@unaccumulate_spec O lw ma mb sa sb sc I D J a b g); auto.
  - rewrite Ha. now apply N.
  - rewrite Hb. now apply N.
Qed.
Print Assumptions C53_sharded_backward.

(** for LogSemiring and StdSemiring the gradients are the derivatives of
    <g, matmul(a, b)> *)
Theorem C53_log_gradient (a b g : tensor R) sa sb sc I D J max_size :
  shape a = sa ++ [I; D] -> shape b = sb ++ [D; J] -> bzip sa sb = Some sc -> shape g = sc ++ [I; J] ->
  Forall (lt 0) [I; D; J] -> In 1%nat (sa ++ [I]) -> In 1%nat (sb ++ [D]) ->
  exists ga gb, shard_backward (log_ops NEG) (tmatmul_vjp (log_ops NEG) log_lw one2 one2) max_size a b g = Ok (ga, gb) /\
    shape ga = shape a /\ shape gb = shape b /\
    (forall e, inr (shape a) e -> derivable_pt_lim (fun x => inner g (tmatmul (log_ops NEG) (tupd a e x) b)) (dat a e) (dat ga e)) /\
    (forall e, inr (shape b) e -> derivable_pt_lim (fun x => inner g (tmatmul (log_ops NEG) a (tupd b e x))) (dat b e) (dat gb e)).
Proof.
  intros Ha Hb Hc Hg P N1 N2. pose proof (@C53_sharded_backward (log_ops NEG) log_lw one2 one2 a b g sa sb sc I D J max_size Ha Hb Hc Hg P N1 N2) as H.
  assert (L := bzip_length _ _ Hc). assert (Hc' : bshape sa sb = Some sc) by (rewrite bshape_same by lia; auto).
  destruct (@tmatmul_vjp_spec (log_ops NEG) log_lw one2 one2 sa sb sc I D J a b g Ha Hb Hc' Hg) as (ga & gb & E & S1 & S2 & _ & _).
  destruct (shard_backward _ _ _ _ _ _) as [[ga' gb']|e]; rewrite E in H; [|destruct H].
  destruct H as [[T1 T2] [T3 T4]]. exists ga', gb'. split; [reflexivity|].
  split; [exact (eq_trans T1 S1)|]. split; [exact (eq_trans T3 S2)|].
  split; intros e He.
  - rewrite T2 by (rewrite (eq_trans T1 S1); exact He). apply (@vjp_a_derivative lse Rplus NEG 0 (fun _ => NEG) log_lw one2 one2 sa sb sc I D J a b g Ha Hb Hc' Hg ga gb (proj1 log_local) E e He).
  - rewrite T4 by (rewrite (eq_trans T3 S2); exact He). apply (@vjp_b_derivative lse Rplus NEG 0 (fun _ => NEG) log_lw one2 one2 sa sb sc I D J a b g Ha Hb Hc' Hg ga gb (proj2 log_local) E e He).
Qed.
Print Assumptions C53_log_gradient.
Theorem C53_std_gradient (a b g : tensor R) sa sb sc I D J max_size :
  shape a = sa ++ [I; D] -> shape b = sb ++ [D; J] -> bzip sa sb = Some sc -> shape g = sc ++ [I; J] ->
  Forall (lt 0) [I; D; J] -> In 1%nat (sa ++ [I]) -> In 1%nat (sb ++ [D]) ->
  exists ga gb, shard_backward std_ops (tmatmul_vjp std_ops std_lw std_ma std_mb) max_size a b g = Ok (ga, gb) /\
    shape ga = shape a /\ shape gb = shape b /\
    (forall e, inr (shape a) e -> derivable_pt_lim (fun x => inner g (tmatmul std_ops (tupd a e x) b)) (dat a e) (dat ga e)) /\
    (forall e, inr (shape b) e -> derivable_pt_lim (fun x => inner g (tmatmul std_ops a (tupd b e x))) (dat b e) (dat gb e)).
Proof.
  intros Ha Hb Hc Hg P N1 N2. pose proof (@C53_sharded_backward std_ops std_lw std_ma std_mb a b g sa sb sc I D J max_size Ha Hb Hc Hg P N1 N2) as H.
  assert (L := bzip_length _ _ Hc). assert (Hc' : bshape sa sb = Some sc) by (rewrite bshape_same by lia; auto).
  destruct (@tmatmul_vjp_spec std_ops std_lw std_ma std_mb sa sb sc I D J a b g Ha Hb Hc' Hg) as (ga & gb & E & S1 & S2 & _ & _).
  destruct (shard_backward _ _ _ _ _ _) as [[ga' gb']|e]; rewrite E in H; [|destruct H].
  destruct H as [[T1 T2] [T3 T4]]. exists ga', gb'. split; [reflexivity|].
  split; [exact (eq_trans T1 S1)|]. split; [exact (eq_trans T3 S2)|].
  split; intros e He.
  - rewrite T2 by (rewrite (eq_trans T1 S1); exact He). apply (@vjp_a_derivative (ssum std_ops) Rmult 0 1 (sover std_ops) std_lw std_ma std_mb sa sb sc I D J a b g Ha Hb Hc' Hg ga gb (proj1 std_local) E e He).
  - rewrite T4 by (rewrite (eq_trans T3 S2); exact He). apply (@vjp_b_derivative (ssum std_ops) Rmult 0 1 (sover std_ops) std_lw std_ma std_mb sa sb sc I D J a b g Ha Hb Hc' Hg ga gb (proj2 std_local) E e He).
Qed.
Print Assumptions C53_std_gradient.

(** the condition on [ones] is needed: without a dimension of size 1,
    [sum([], keepdim=True)] adds everything up, and the returned gradient has
    neither the right content nor the right shape *)
Theorem C53_no_unit_dimension_refuted : exists (a b g : tensor R) ga gb,
  shape a = [2; 2; 2]%nat /\ shape b = [2; 2; 2]%nat /\ shape g = [2; 2; 2]%nat /\
  shard_backward (log_ops NEG) (tmatmul_vjp (log_ops NEG) log_lw one2 one2) 0 a b g = Ok (ga, gb) /\
  shape ga = [1; 1; 1]%nat.
Proof.
  set (t := {| shape := [2; 2; 2]%nat; dat := fun _ => 0 |} : tensor R).
  exists t, t, t. eexists _, _. repeat split; reflexivity.
Qed.
Print Assumptions C53_no_unit_dimension_refuted.

(** ** The hypotheses are met: batches (1, 2, 1) and (1, 1, 3), products of a 2x3 and a
    3x2 matrix; shards of two out of six *)
Example ex_C53 : bzip [1; 2; 1]%nat [1; 1; 3]%nat = Some [1; 2; 3]%nat /\ Forall (lt 0) [2; 3; 2]%nat /\
  In 1%nat ([1; 2; 1] ++ [2])%nat /\ In 1%nat ([1; 1; 3] ++ [3])%nat /\
  (prodl ([1; 2; 3] ++ [2; 2]) <? 0 / (3 * 3) + 2 = false)%nat.
Proof. repeat split; try (repeat constructor; fail); simpl; auto. Qed.
