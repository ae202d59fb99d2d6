(** * Learn: the log-partition and the maximum as functions of the potentials.

    Facts about [leval (log_ops z)] and [leval (max_ops z)] (the values of the
    computation graphs of Terms.v) used for the learning properties C49, C50 and
    C52: order, convexity, tangents, second derivatives, shifts. No code is
    modelled here; the models are those of Api.v, Query.v and Dist.v. *)
From Verif Require Import Base Ops Terms Semirings Poly Family Approx Grad Dist.
Set Implicit Arguments.
Local Open Scope R_scope.

Lemma score_mono phi psi z m : (forall e, phi e <= psi e) -> score phi z m <= score psi z m.
Proof. intro H. apply RSum_le. intros [] _; simpl; auto; lra. Qed.
(** spec: a point on the segment between two potentials *)
Definition mix (a : R) (phi psi : list nat -> R) : list nat -> R := fun e => a * phi e + (1 - a) * psi e.
Lemma score_mix a phi psi z m : score (mix a phi psi) z m = a * score phi z m + (1 - a) * score psi z m.
Proof.
  unfold score. rewrite <- !RSum_scal, <- RSum_add. apply (Sum_ext R_csr). intros []; simpl; unfold mix; ring.
Qed.
Lemma score_add phi delta z m : pure m = true ->
  score (fun e => phi e + delta e) z m = score phi z m + score delta z m.
Proof.
  intro H. rewrite !score_leaves by auto. apply RSum_add.
Qed.

Section Term.
  Variables (z : R) (t : term).
  Hypothesis W : twf t.
  Notation L phi := (leval (log_ops z) phi t).
  Notation M phi := (leval (max_ops z) phi t).

  Lemma log_mono phi psi : (forall e, phi e <= psi e) -> L phi <= L psi.
  Proof.
    intro H. rewrite !log_value_ln by auto.
    assert (ZZ phi z t <= ZZ psi z t).
    { apply RSum_le. intros m _. destruct (score_mono phi psi z m H) as [K| ->]; [left; now apply exp_increasing|lra]. }
    destruct H0 as [H0| ->]; [left; apply ln_increasing; auto; now apply ZZ_pos|lra].
  Qed.
  Lemma max_mono phi psi : (forall e, phi e <= psi e) -> M phi <= M psi.
  Proof.
    intro H. destruct (@max_value phi z t W) as [H1 _]. destruct (@max_value psi z t W) as [_ H2].
    apply in_map_iff in H1 as (m & <- & Hm). eapply Rle_trans; [apply score_mono, H|]. apply H2, in_map, Hm.
  Qed.
  Lemma max_convex a phi psi : 0 <= a <= 1 -> M (mix a phi psi) <= a * M phi + (1 - a) * M psi.
  Proof.
    intro Ha. destruct (@max_value (mix a phi psi) z t W) as [H1 _].
    apply in_map_iff in H1 as (m & E & Hm). change (score (mix a phi psi) z m = M (mix a phi psi)) in E.
    rewrite <- E, score_mix.
    destruct (@max_value phi z t W) as [_ H2]. destruct (@max_value psi z t W) as [_ H3].
    apply Rplus_le_compat; apply Rmult_le_compat_l; try lra; [apply H2|apply H3]; apply in_map, Hm.
  Qed.

  (** Jensen *)
  Lemma log_tangent phi psi : L phi + mean phi z t (fun m => score psi z m - score phi z m) <= L psi.
  Proof.
    rewrite !log_value_ln by auto. pose proof (ZZ_pos phi z W) as HP. pose proof (ZZ_pos psi z W) as HQ.
    set (mu := mean phi z t (fun m => score psi z m - score phi z m)).
    assert (E : RSum (fun m => exp (score phi z m) * (score psi z m - score phi z m)) (expand t) = mu * ZZ phi z t).
    { unfold mu, mean. rewrite RSum_pr by auto. unfold Rdiv. rewrite Rmult_assoc, Rinv_l, Rmult_1_r by lra. reflexivity. }
    assert (H : ZZ phi z t * exp mu <= ZZ psi z t).
    { apply Rle_trans with (RSum (fun m => exp (score phi z m) * (exp mu * (1 + (score psi z m - score phi z m - mu)))) (expand t)).
      - right. transitivity (RSum (fun m => exp mu * (exp (score phi z m) * (score psi z m - score phi z m)) +
            exp mu * (1 - mu) * exp (score phi z m)) (expand t)).
        + rewrite RSum_add, !RSum_scal, E. fold (ZZ phi z t). ring.
        + apply (Sum_ext R_csr). intro m. ring.
      - apply RSum_le. intros m _.
        apply Rle_trans with (exp (score phi z m) * (exp mu * exp (score psi z m - score phi z m - mu))).
        + apply Rmult_le_compat_l; [apply Rlt_le, exp_pos|]. apply Rmult_le_compat_l; [apply Rlt_le, exp_pos|].
          apply exp_ineq1_le.
        + right. rewrite <- !exp_plus. f_equal. ring. }
    rewrite <- (ln_exp mu). rewrite <- ln_mult by (auto using exp_pos).
    destruct H as [H| ->]; [left; apply ln_increasing; auto; apply Rmult_lt_0_compat; auto using exp_pos|lra].
  Qed.
  Lemma mean_scal phi c f : mean phi z t (fun m => c * f m) = c * mean phi z t f.
  Proof. unfold mean. rewrite <- RSum_scal. apply (Sum_ext R_csr). intro; ring. Qed.
  Lemma mean_ext phi f g : (forall m, f m = g m) -> mean phi z t f = mean phi z t g.
  Proof. intro H. apply (Sum_ext R_csr). intro; now rewrite H. Qed.
  Lemma log_convex a phi psi : 0 <= a <= 1 -> L (mix a phi psi) <= a * L phi + (1 - a) * L psi.
  Proof.
    intro Ha. pose proof (log_tangent (mix a phi psi) phi) as H1. pose proof (log_tangent (mix a phi psi) psi) as H2.
    rewrite (mean_ext _ _ (fun m => (1 - a) * (score phi z m - score psi z m))), mean_scal in H1
      by (intro; rewrite score_mix; ring).
    rewrite (mean_ext _ _ (fun m => (- a) * (score phi z m - score psi z m))), mean_scal in H2
      by (intro; rewrite score_mix; ring).
    set (x := mean (mix a phi psi) z t (fun m => score phi z m - score psi z m)) in *.
    set (l := L (mix a phi psi)) in *.
    assert (a * (l + (1 - a) * x) <= a * L phi) by (apply Rmult_le_compat_l; lra).
    assert ((1 - a) * (l + (- a) * x) <= (1 - a) * L psi) by (apply Rmult_le_compat_l; lra).
    lra.
  Qed.
  Lemma max_le_log phi : M phi <= L phi.
  Proof.
    rewrite log_value_ln by auto. destruct (@max_value phi z t W) as [H _].
    apply in_map_iff in H as (m & <- & Hm). rewrite <- (ln_exp (score phi z m)).
    assert (K : exp (score phi z m) <= ZZ phi z t).
    { apply (@RSum_single _ (fun m => exp (score phi z m))); auto. intros. apply Rlt_le, exp_pos. }
    destruct K as [K| ->]; [left; apply ln_increasing; auto using exp_pos|lra].
  Qed.

  (** derivative of a mean: a covariance *)
  Lemma mean_derivative phi f g :
    derivable_pt_lim (fun x => mean (upd phi f x) z t g) (phi f)
      (mean phi z t (fun m => g m * cntL f m) - mean phi z t g * mean phi z t (cntL f)).
  Proof.
    set (N := fun x => RSum (fun m => exp (score phi z m + (x - phi f) * cntL f m) * g m) (expand t)).
    set (D := fun x => RSum (fun m => exp (score phi z m + (x - phi f) * cntL f m)) (expand t)).
    assert (EN : N (phi f) = RSum (fun m => exp (score phi z m) * g m) (expand t)).
    { apply (Sum_ext R_csr). intro m. do 2 f_equal. ring. }
    assert (ED : D (phi f) = ZZ phi z t).
    { apply (Sum_ext R_csr). intro m. f_equal. ring. }
    pose proof (ZZ_pos phi z W) as HP.
    assert (HN : derivable_pt_lim N (phi f) (RSum (fun m => exp (score phi z m) * (g m * cntL f m)) (expand t))).
    { apply (@dlim_sum _ (fun m x => exp (score phi z m + (x - phi f) * cntL f m) * g m)
        (fun m => exp (score phi z m) * (g m * cntL f m))). intros m _.
      replace (exp (score phi z m) * (g m * cntL f m)) with
        (exp (score phi z m + (phi f - phi f) * cntL f m) * cntL f m * g m +
         exp (score phi z m + (phi f - phi f) * cntL f m) * 0).
      - apply (derivable_pt_lim_mult (fun x => exp (score phi z m + (x - phi f) * cntL f m)) (fun _ => g m)).
        + apply dlim_exp_affine.
        + apply derivable_pt_lim_const.
      - replace (score phi z m + (phi f - phi f) * cntL f m) with (score phi z m) by ring. ring. }
    assert (HD : derivable_pt_lim D (phi f) (RSum (fun m => exp (score phi z m) * cntL f m) (expand t))).
    { apply (@dlim_sum _ (fun m x => exp (score phi z m + (x - phi f) * cntL f m))
        (fun m => exp (score phi z m) * cntL f m)). intros m _.
      replace (exp (score phi z m) * cntL f m) with (exp (score phi z m + (phi f - phi f) * cntL f m) * cntL f m)
        by (do 2 f_equal; ring). apply dlim_exp_affine. }
    eapply dlim_ext; [|replace (mean phi z t (fun m => g m * cntL f m) - mean phi z t g * mean phi z t (cntL f))
      with ((RSum (fun m => exp (score phi z m) * (g m * cntL f m)) (expand t) * D (phi f) -
             RSum (fun m => exp (score phi z m) * cntL f m) (expand t) * N (phi f)) / Rsqr (D (phi f)));
      [apply (derivable_pt_lim_div N D); [exact HN|exact HD|rewrite ED; lra]|]].
    - intro x. unfold mean. rewrite RSum_pr by auto. unfold div_fct. f_equal; [|f_equal]; symmetry.
      + apply (Sum_ext R_csr (fun m => exp (score (upd phi f x) z m) * g m)). intro m. now rewrite score_upd.
      + apply (Sum_ext R_csr (fun m => exp (score (upd phi f x) z m))). intro m. now rewrite score_upd.
    - unfold mean. rewrite !RSum_pr by auto. rewrite EN, ED. unfold Rsqr. field. lra.
  Qed.
End Term.

(** the change of the score, part by part *)
Lemma RSum_delta (h : list nat -> R) e0 ids : NoDup ids ->
  RSum (fun e => h e * (if list_eq_dec Nat.eq_dec e e0 then 1 else 0)) ids =
  if in_dec (list_eq_dec Nat.eq_dec) e0 ids then h e0 else 0.
Proof.
  induction ids as [|x ids IH]; intro Hn; [reflexivity|]. inversion_clear Hn as [|? ? Hx Hn'].
  rewrite RSum_cons, IH by auto.
  destruct (list_eq_dec Nat.eq_dec x e0) as [->|E].
  - destruct (in_dec _ e0 ids); [contradiction|]. destruct (in_dec _ e0 (e0 :: ids)) as [|N]; [ring|].
    destruct N; left; auto.
  - destruct (in_dec _ e0 ids) as [I|I]; destruct (in_dec _ e0 (x :: ids)) as [J|J]; try ring.
    + destruct J; right; auto.
    + destruct J as [J|J]; [congruence|contradiction].
Qed.
Lemma score_diff phi psi z ids m : NoDup ids -> (forall e, ~ In e ids -> psi e = phi e) ->
  score psi z m - score phi z m = RSum (fun e => (psi e - phi e) * cntL e m) ids.
Proof.
  intros Hn Hi. induction m as [|a m IH].
  - replace (score psi z []) with 0 by reflexivity. replace (score phi z []) with 0 by reflexivity.
    transitivity (RSum (fun _ : list nat => 0) ids); [rewrite RSum_const; ring|].
    apply (Sum_ext R_csr). intro e. replace (cntL e []) with 0 by reflexivity. simpl. ring.
  - unfold score. rewrite !RSum_cons. fold (score psi z m) (score phi z m).
    replace (aval psi z a + score psi z m - (aval phi z a + score phi z m))
      with (aval psi z a - aval phi z a + (score psi z m - score phi z m)) by ring. rewrite IH.
    transitivity (RSum (fun e => (psi e - phi e) * acountL e a) ids + RSum (fun e => (psi e - phi e) * cntL e m) ids).
    + f_equal. destruct a as [e0|e0|]; simpl.
      * rewrite RSum_delta by auto. destruct (in_dec _ e0 ids) as [I|I]; [ring|]. rewrite Hi by auto. ring.
      * rewrite (Sum_ext R_csr _ (fun _ => 0)) by (intro; simpl; ring). rewrite RSum_const. ring.
      * rewrite (Sum_ext R_csr _ (fun _ => 0)) by (intro; simpl; ring). rewrite RSum_const. ring.
    + rewrite <- RSum_add. apply (Sum_ext R_csr). intro e. unfold cntL. rewrite RSum_cons. ring.
Qed.
Lemma mean_diff phi psi z t ids : twf t -> NoDup ids -> (forall e, ~ In e ids -> psi e = phi e) ->
  mean phi z t (fun m => score psi z m - score phi z m) =
  RSum (fun e => mean phi z t (cntL e) * (psi e - phi e)) ids.
Proof.
  intros W Hn Hi. rewrite (mean_ext z t phi _ (fun m => RSum (fun e => (psi e - phi e) * cntL e m) ids))
    by (intro; now apply score_diff).
  unfold mean. transitivity (RSum (fun m => RSum (fun e => (psi e - phi e) * (pr phi z t m * cntL e m)) ids) (expand t)).
  - apply (Sum_ext R_csr). intro m. rewrite <- RSum_scal. apply (Sum_ext R_csr). intro; ring.
  - etransitivity; [apply (Sum_comm R_csr)|]. apply (Sum_ext R_csr). intro e. change (RSum (fun m => (psi e - phi e) * (pr phi z t m * cntL e m)) (expand t) =
      RSum (fun m => pr phi z t m * cntL e m) (expand t) * (psi e - phi e)). rewrite RSum_scal. ring.
Qed.
