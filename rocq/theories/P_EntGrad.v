(** * P_EntGrad: what a training loss built from [entropy], [cross_entropy] or [kl] is driven by (C72).

    The three queries return numbers computed by the forward pass in the
    entropy, cross-entropy and KL semirings (distributions.py:77-115,
    semirings.py:240-403). A user adds them to a loss and calls [backward]. The theorems
    below give the derivative of the returned number in one entry of the
    potentials. They do not model autograd: as in C50, the derivative is the
    limit of difference quotients of the value. *)
From Verif Require Import Base Ops Terms Semirings Poly Chain LinearChain SemiMarkov CkyCrf Cky DepSpec DepTree
  Batch Family Approx Grad Sample Dist Purity Degree Shape Api Query Learn P_Real P_Learn.
Set Implicit Arguments.
Local Open Scope R_scope.

(** ** Specification: covariance of a function of the structure with the number of uses of a part *)
Definition expect A (parts : A -> list (list nat)) (l : list A) (phi : list nat -> R) (g : A -> R) : R :=
  RSum (fun s => prob parts l phi s * g s) l.
(** spec: covariance of the use of a potential with a function of the structure *)
Definition cov_uses A (parts : A -> list (list nat)) (l : list A) (phi : list nat -> R) (g : A -> R) (f : list nat) : R :=
  expect parts l phi (fun s => (g s - expect parts l phi g) * (uses parts f s - expect parts l phi (uses parts f))).

Lemma expect_avg A (parts : A -> list (list nat)) l phi g : expect parts l phi g = avg parts l phi g.
Proof. apply avg_prob. Qed.
Lemma cov_uses_avg A (parts : A -> list (list nat)) l phi g f : l <> [] ->
  cov_uses parts l phi g f = avg parts l phi (fun s => g s * uses parts f s) - avg parts l phi g * avg parts l phi (uses parts f).
Proof.
  intro Hl. unfold cov_uses. rewrite <- !expect_avg. set (x := expect parts l phi g). set (y := expect parts l phi (uses parts f)).
  unfold expect at 1.
  rewrite (Sum_ext R_csr _ (fun s => (prob parts l phi s * (g s * uses parts f s) + (- x) * (prob parts l phi s * uses parts f s))
    + ((- y) * (prob parts l phi s * g s) + (x * y) * prob parts l phi s))) by (intro; simpl; ring).
  rewrite !RSum_add, !RSum_scal, prob_sum by auto.
  change (RSum (fun s => prob parts l phi s * uses parts f s) l) with y. change (RSum (fun s => prob parts l phi s * g s) l) with x.
  change (RSum (fun s => prob parts l phi s * (g s * uses parts f s)) l) with (expect parts l phi (fun s => g s * uses parts f s)). ring.
Qed.
Lemma cov_uses_perm A (parts : A -> list (list nat)) l l' phi g f : l <> [] -> Permutation l l' ->
  cov_uses parts l phi g f = cov_uses parts l' phi g f.
Proof.
  intros Hl H. assert (Hl' : l' <> []) by (intros ->; apply Permutation_sym, Permutation_nil in H; auto).
  rewrite !cov_uses_avg, <- !expect_avg by auto. unfold expect. rewrite !(fun g => @wsum_perm _ parts l l' H phi g g (fun _ => eq_refl)). reflexivity.
Qed.

Lemma dlim_is f g x d d' : derivable_pt_lim f x d -> (forall y, f y = g y) -> d = d' -> derivable_pt_lim g x d'.
Proof. intros H E <-. exact (@dlim_ext f g x d E H). Qed.

Section Row.
  Variable F : family.
  Notation t := (ft F).
  Notation fsc := (sc (fparts F)).

  (** covariance over all derivations of the computation *)
  Definition cov_run phi (g : deriv -> R) f : R :=
    mean phi NEG t (fun m => g m * cntL f m) - mean phi NEG t g * mean phi NEG t (cntL f).

  Lemma score_cnt_transfer phi psi f :
    RSum (fun m => exp (score phi NEG m) * (score psi NEG m * cntL f m)) (filter pure (expand t)) =
    RSum (fun s => exp (fsc phi s) * (fsc psi s * uses (fparts F) f s)) (flist F).
  Proof.
    set (co := fun e l => INR (count_occ (list_eq_dec Nat.eq_dec) l e)).
    transitivity (RSum (fun m => (fun l => exp (RSum phi l) * (RSum psi l * co f l)) (leaves m)) (filter pure (expand t))).
    - apply (Sum_ext_in R_csr). intros m Hm. apply filter_In in Hm as [_ Hp].
      rewrite !score_leaves, cntL_pure, cnt_pure by auto. reflexivity.
    - rewrite (pure_transfer F R_csr (fun l => exp (RSum phi l) * (RSum psi l * co f l))); [reflexivity|].
      intros x y HP. unfold co. rewrite !(proj1 (Permutation_count_occ _ _ _) HP).
      rewrite (Sum_perm R_csr phi HP), (Sum_perm R_csr psi HP). reflexivity.
  Qed.

  Lemma mean_cntL_err phi B f : (forall e, Rabs (phi e) <= B) -> flist F <> [] ->
    Rabs (mean phi NEG t (cntL f) - avg (fparts F) (flist F) phi (uses (fparts F) f)) <= 2 * INR (fdeg F) * eps F B NEG.
  Proof.
    intros HB Hl. apply mean_err; auto using NEG_neg, cntL_transfer.
    - intros m Hm. pose proof (cntL_range f m). pose proof (@len_le F m Hm). unfold fdeg in *. rewrite Rabs_right; lra.
    - intros s Hs. pose proof (uses_range F f s Hs). rewrite Rabs_right; lra.
  Qed.
  Lemma mean_cntL_pure phi f : fpure F -> flist F <> [] -> mean phi NEG t (cntL f) = avg (fparts F) (flist F) phi (uses (fparts F) f).
  Proof.
    intros HP Hl. rewrite <- avg_prob. apply (@mean_pure F HP phi (cntL f) (uses (fparts F) f)).
    - intros m s Hp HPm. rewrite cntL_pure by auto. apply (perm_cnt F _ m s Hp HPm).
    - apply cntL_transfer.
  Qed.

  Lemma cov_run_pure phi psi f : fpure F -> flist F <> [] ->
    cov_run phi (score psi NEG) f = cov_uses (fparts F) (flist F) phi (fsc psi) f.
  Proof.
    intros HP Hl. rewrite cov_uses_avg by auto. unfold cov_run. rewrite mean_cntL_pure, mean_score_pure by auto. f_equal.
    rewrite <- avg_prob.
    apply (@mean_pure F HP phi (fun m => score psi NEG m * cntL f m) (fun s => fsc psi s * uses (fparts F) f s)).
    - intros m s Hp HPm. rewrite cntL_pure, (perm_cnt F _ m s Hp HPm), (perm_score F psi NEG m s Hp HPm) by auto. reflexivity.
    - apply score_cnt_transfer.
  Qed.

  Lemma cov_run_err phi psi B f : (forall e, Rabs (phi e) <= B) -> (forall e, Rabs (psi e) <= B) -> flist F <> [] ->
    Rabs (cov_run phi (score psi NEG) f - cov_uses (fparts F) (flist F) phi (fsc psi) f)
      <= 6 * (INR (fdeg F) * bigM F B) * eps F B NEG.
  Proof.
    intros HB HB' Hl. rewrite cov_uses_avg by auto. unfold cov_run.
    set (d := INR (fdeg F)). assert (Hd : 0 <= d) by apply pos_INR.
    set (M := bigM F B).
    assert (HS : forall s, In s (flist F) -> Rabs (fsc psi s) <= M).
    { intros s Hs. destruct (structure_is_pure F s Hs) as (m & Hm & Hp & HP).
      rewrite <- (perm_score F psi NEG m s Hp HP). apply (@score_bigM F psi B HB'), Hm. }
    assert (HM : 0 <= M).
    { destruct (flist F) as [|s0 l0] eqn:El; [congruence|]. eapply Rle_trans; [apply (Rabs_pos (fsc psi s0))|]. apply HS. now left. }
    assert (H1 : Rabs (mean phi NEG t (fun m => score psi NEG m * cntL f m) -
        avg (fparts F) (flist F) phi (fun s => fsc psi s * uses (fparts F) f s)) <= 2 * (M * d) * eps F B NEG).
    { apply mean_err; auto using NEG_neg, score_cnt_transfer.
      - intros m Hm. rewrite Rabs_mult. pose proof (cntL_range f m). pose proof (@len_le F m Hm).
        apply Rmult_le_compat; auto using Rabs_pos; [apply (@score_bigM F psi B HB'), Hm|]. unfold d, fdeg in *. rewrite Rabs_right; lra.
      - intros s Hs. rewrite Rabs_mult. pose proof (uses_range F f s Hs).
        apply Rmult_le_compat; auto using Rabs_pos. fold d in H. rewrite Rabs_right; lra. }
    pose proof (@mean_score_err F phi psi B HB HB' Hl) as H2. fold M in H2.
    pose proof (@mean_cntL_err phi B f HB Hl) as H3. fold d in H3.
    assert (M1 : Rabs (mean phi NEG t (score psi NEG)) <= M).
    { apply Rabs_le. split.
      - rewrite <- (@mean_const phi NEG t (- M) (ft_wf F)). unfold mean. apply RSum_le. intros m Hm.
        apply Rmult_le_compat_l; [apply Rlt_le, pr_pos, ft_wf|].
        pose proof (@score_bigM F psi B HB' m Hm) as K. fold M in K. apply Rabs_le_inv in K. lra.
      - rewrite <- (@mean_const phi NEG t M (ft_wf F)). unfold mean. apply RSum_le. intros m Hm.
        apply Rmult_le_compat_l; [apply Rlt_le, pr_pos, ft_wf|].
        pose proof (@score_bigM F psi B HB' m Hm) as K. fold M in K. apply Rabs_le_inv in K. lra. }
    assert (M2 : 0 <= avg (fparts F) (flist F) phi (uses (fparts F) f) <= d).
    { rewrite <- avg_prob. split.
      - apply RSum_nonneg. intros s Hs. apply Rmult_le_pos; [|apply (uses_range F f s Hs)].
        unfold prob. apply Rlt_le, Rdiv_lt_0_compat; [apply exp_pos|now apply ZS_pos].
      - apply Rle_trans with (RSum (fun s => prob (fparts F) (flist F) phi s * d) (flist F)).
        + apply RSum_le. intros s Hs. apply Rmult_le_compat_l; [|apply (uses_range F f s Hs)].
          unfold prob. apply Rlt_le, Rdiv_lt_0_compat; [apply exp_pos|now apply ZS_pos].
        + rewrite RSum_scar, prob_sum by auto. lra. }
    set (ef := mean phi NEG t (fun m => score psi NEG m * cntL f m)) in *.
    set (ef' := avg (fparts F) (flist F) phi (fun s => fsc psi s * uses (fparts F) f s)) in *.
    set (x := mean phi NEG t (score psi NEG)) in *. set (x' := avg (fparts F) (flist F) phi (fsc psi)) in *.
    set (y := mean phi NEG t (cntL f)) in *. set (y' := avg (fparts F) (flist F) phi (uses (fparts F) f)) in *.
    set (E := eps F B NEG) in *.
    replace (ef - x * y - (ef' - x' * y')) with ((ef - ef') - (x * (y - y') + (x - x') * y')) by ring.
    assert (G1 : Rabs (x * (y - y')) <= M * (2 * d * E)).
    { rewrite Rabs_mult. apply Rmult_le_compat; auto using Rabs_pos. }
    assert (G2 : Rabs ((x - x') * y') <= (2 * M * E) * d).
    { rewrite Rabs_mult. apply Rmult_le_compat; auto using Rabs_pos. rewrite Rabs_right; lra. }
    apply Rabs_le_inv in G1, G2, H1. apply Rabs_le. lra.
  Qed.

  (** ** derivatives of the values the code computes *)
  Lemma lnZ_derivative phi f : derivable_pt_lim (fun x => ln (ZS (fparts F) (flist F) (upd phi f x) + ES F (upd phi f x) NEG))
    (phi f) (mean phi NEG t (cntL f)).
  Proof.
    eapply dlim_ext; [|apply (@log_derivative NEG phi t f (ft_wf F))]. intro x. cbv beta.
    rewrite <- d_partition_ln. unfold d_partition. now rewrite frun_leval.
  Qed.
  Lemma mean_score_upd rho phi f x : mean rho NEG t (score (upd phi f x) NEG) =
    mean rho NEG t (score phi NEG) + (x - phi f) * mean rho NEG t (cntL f).
  Proof.
    rewrite (mean_ext NEG t rho _ (fun m => score phi NEG m + (x - phi f) * cntL f m)) by (intro; apply score_upd).
    unfold mean. rewrite <- RSum_scal, <- RSum_add. apply (Sum_ext R_csr). intro m. simpl. ring.
  Qed.
  Lemma d_entropy_derivative phi f : derivable_pt_lim (fun x => d_entropy F (upd phi f x)) (phi f) (- cov_run phi (score phi NEG) f).
  Proof.
    pose proof (lnZ_derivative phi f) as H1.
    pose proof (@mean_derivative NEG t (ft_wf F) phi f (score phi NEG)) as H2.
    pose proof (@mean_derivative NEG t (ft_wf F) phi f (cntL f)) as H3.
    assert (H4 : derivable_pt_lim (fun x => x - phi f) (phi f) (1 - 0)).
    { apply (derivable_pt_lim_minus id (fun _ => phi f)); [apply derivable_pt_lim_id|apply derivable_pt_lim_const]. }
    pose proof (derivable_pt_lim_mult _ _ _ _ _ H4 H3) as H5.
    pose proof (derivable_pt_lim_minus _ _ _ _ _ H1 (derivable_pt_lim_plus _ _ _ _ _ H2 H5)) as H6.
    apply (@dlim_is _ _ _ _ _ H6).
    - intro x. unfold minus_fct, plus_fct, mult_fct. cbv beta. rewrite entropy_code, (mean_score_upd (upd phi f x) phi f x). reflexivity.
    - cbv beta. replace (mean (upd phi f (phi f)) NEG t (cntL f)) with (mean phi NEG t (cntL f)); [unfold cov_run; ring|].
      assert (E : forall m, score (upd phi f (phi f)) NEG m = score phi NEG m) by (intro; rewrite score_upd; ring).
      assert (EZ : ZZ (upd phi f (phi f)) NEG t = ZZ phi NEG t) by (apply (Sum_ext R_csr); intro; now rewrite E).
      apply (Sum_ext R_csr). intro m. unfold pr. now rewrite E, EZ.
  Qed.
  Lemma d_cross_first phi psi f : derivable_pt_lim (fun x => d_cross_entropy F (upd phi f x) psi) (phi f) (- cov_run phi (score psi NEG) f).
  Proof.
    pose proof (@mean_derivative NEG t (ft_wf F) phi f (score psi NEG)) as H2.
    pose proof (derivable_pt_lim_minus _ _ _ _ _ (derivable_pt_lim_const (ln (ZS (fparts F) (flist F) psi + ES F psi NEG)) (phi f)) H2) as H6.
    apply (@dlim_is _ _ _ _ _ H6).
    - intro x. unfold minus_fct, fct_cte. cbv beta. now rewrite cross_code.
    - unfold cov_run. ring.
  Qed.
  Lemma d_cross_second phi psi f : derivable_pt_lim (fun x => d_cross_entropy F phi (upd psi f x)) (psi f)
    (mean psi NEG t (cntL f) - mean phi NEG t (cntL f)).
  Proof.
    pose proof (lnZ_derivative psi f) as H1.
    assert (H4 : derivable_pt_lim (fun x => x - psi f) (psi f) (1 - 0)).
    { apply (derivable_pt_lim_minus id (fun _ => psi f)); [apply derivable_pt_lim_id|apply derivable_pt_lim_const]. }
    pose proof (derivable_pt_lim_mult _ _ _ _ _ H4 (derivable_pt_lim_const (mean phi NEG t (cntL f)) (psi f))) as H5.
    pose proof (derivable_pt_lim_plus _ _ _ _ _ (derivable_pt_lim_const (mean phi NEG t (score psi NEG)) (psi f)) H5) as H7.
    pose proof (derivable_pt_lim_minus _ _ _ _ _ H1 H7) as H6.
    apply (@dlim_is _ _ _ _ _ H6).
    - intro x. unfold minus_fct, plus_fct, mult_fct, fct_cte. cbv beta. now rewrite cross_code, mean_score_upd.
    - unfold fct_cte. ring.
  Qed.
End Row.

(** ** rows of the queries *)
Lemma row_entropy c b F phi : is_row c b F -> at_row 0 (q_entropy c phi) b = d_entropy F phi.
Proof.
  intro HF. pose proof (q_row (ent_ops NEG) (fun e => ent_convert (phi e)) (0, 0) HF) as Ev. unfold q_entropy.
  destruct (run c (ent_ops NEG) (fun e => ent_convert (phi e))) as [v|x] eqn:E; cbn [res_map at_row] in *.
  - exact (@map_row _ snd v b (0, 0) _ Ev eq_refl).
  - unfold d_entropy. now rewrite <- Ev.
Qed.
Lemma row_cross c b F phi psi : has_pair_queries c -> is_row c b F -> at_row 0 (q_cross_entropy c phi psi) b = d_cross_entropy F phi psi.
Proof.
  intros Hp HF. pose proof (q_row (ce_ops NEG) (fun e => kl_convert (phi e) (psi e)) (kl_convert 0 0) HF) as Ev. unfold q_cross_entropy.
  replace (pair_call c) with (fun r : res (list R) => r) by (destruct c; try contradiction; reflexivity).
  destruct (run c (ce_ops NEG) (fun e => kl_convert (phi e) (psi e))) as [v|x] eqn:E; cbn [res_map at_row] in *.
  - exact (@map_row _ d_ v b (kl_convert 0 0) _ Ev eq_refl).
  - unfold d_cross_entropy. now rewrite <- Ev.
Qed.
Lemma row_kl c b F phi psi : has_pair_queries c -> is_row c b F -> at_row 0 (q_kl c phi psi) b = d_kl F phi psi.
Proof.
  intros Hp HF. pose proof (q_row (kl_ops NEG) (fun e => kl_convert (phi e) (psi e)) (kl_convert 0 0) HF) as Ev. unfold q_kl.
  replace (pair_call c) with (fun r : res (list R) => r) by (destruct c; try contradiction; reflexivity).
  destruct (run c (kl_ops NEG) (fun e => kl_convert (phi e) (psi e))) as [v|x] eqn:E; cbn [res_map at_row] in *.
  - exact (@map_row _ d_ v b (kl_convert 0 0) _ Ev eq_refl).
  - unfold d_kl. now rewrite <- Ev.
Qed.

Lemma cov_uses_minus A (parts : A -> list (list nat)) l phi g h f : l <> [] ->
  cov_uses parts l phi (fun s => g s - h s) f = cov_uses parts l phi g f - cov_uses parts l phi h f.
Proof.
  intro Hl. rewrite !cov_uses_avg, <- !avg_prob by auto.
  rewrite (Sum_ext R_csr (fun s => prob parts l phi s * ((g s - h s) * uses parts f s))
    (fun s => prob parts l phi s * (g s * uses parts f s) - prob parts l phi s * (h s * uses parts f s))) by (intro; simpl; ring).
  rewrite (Sum_ext R_csr (fun s => prob parts l phi s * (g s - h s)) (fun s => prob parts l phi s * g s - prob parts l phi s * h s))
    by (intro; simpl; ring).
  rewrite !RSum_sub. ring.
Qed.

Section Rows.
  Variables (c : call) (b : nat) (F : family) (B : R).
  Hypothesis HF : is_row c b F.
  Hypothesis HB0 : 0 <= B.
  Lemma cov_run_bound phi psi f : bounded c B phi -> bounded c B psi ->
    Rabs (cov_run F phi (score psi NEG) f - cov_uses (fparts F) (flist F) phi (sc (fparts F) psi) f)
      <= 6 * (INR (degree c b) * scale c B b) * leak c b B.
  Proof.
    intros HB HB'. apply (@err_transfer c B b F (6 * (INR (fdeg F) * bigM F B))); auto.
    - intro Z. rewrite cov_run_pure; [ring|now apply (ir_pure HF)|apply (ir_nonempty HF)].
    - pose proof (pos_INR (fdeg F)). pose proof (@bigM_nonneg B F HB0). nra.
    - intro Z. destruct HB as [HB|HB]; [congruence|]. destruct HB' as [HB'|HB']; [congruence|].
      apply cov_run_err; auto. apply (ir_nonempty HF).
    - intro Z. pose proof (bigM_scale HF Z HB0). destruct (ir_bnd HF Z) as [Hd _]. apply le_INR in Hd.
      apply Rmult_le_compat_l; [lra|]. apply Rmult_le_compat; auto using pos_INR, bigM_nonneg.
  Qed.
  Lemma mean_uses_bound phi f : bounded c B phi ->
    Rabs (mean phi NEG (ft F) (cntL f) - expect (fparts F) (flist F) phi (uses (fparts F) f)) <= 2 * INR (degree c b) * leak c b B.
  Proof.
    intro HB. rewrite expect_avg. apply (@err_transfer c B b F (2 * INR (fdeg F))); auto.
    - intro Z. rewrite mean_cntL_pure; [ring|now apply (ir_pure HF)|apply (ir_nonempty HF)].
    - pose proof (pos_INR (fdeg F)). lra.
    - intro Z. destruct HB as [HB|HB]; [congruence|]. apply mean_cntL_err; auto. apply (ir_nonempty HF).
    - intro Z. destruct (ir_bnd HF Z) as [Hd _]. apply le_INR in Hd. unfold fdeg. lra.
  Qed.
End Rows.

Lemma expect_perm A (parts : A -> list (list nat)) l l' phi g : Permutation l l' -> expect parts l phi g = expect parts l' phi g.
Proof. intro H. apply (@wsum_perm _ parts l l' H phi g g (fun _ => eq_refl)). Qed.

(** ** C72 *)
(** Entropy: raising the potential of a part lowers the entropy by the
    covariance of the score with the number of uses of the part. *)
Theorem C72_entropy c phi B : valid c -> 0 <= B -> bounded c B phi ->
  forall b l f, row_ok c b -> let S := spec_of c b in Enumerates (ok S) l ->
  exists D, derivable_pt_lim (fun x => at_row 0 (q_entropy c (upd phi f x)) b) (phi f) D /\
    Rabs (D + cov_uses (prt S) l phi (sc (prt S) phi) f) <= 6 * (INR (degree c b) * scale c B b) * leak c b B.
Proof.
  intros V HB0 HB b l f Hb; cbv zeta; intro Hl. destruct (row_family V Hb) as (F & HF).
  exists (- cov_run F phi (score phi NEG) f). split.
  - eapply dlim_ext; [|apply d_entropy_derivative]. intro x. cbv beta. symmetry. now apply row_entropy.
  - revert l Hl. rewrite <- (ir_spec HF). cbn [ok prt fspec st]. intros l Hl.
    rewrite <- (cov_uses_perm (fparts F) phi (sc (fparts F) phi) f (ir_nonempty HF) (row_perm HF Hl)).
    rewrite <- Rabs_Ropp. replace (- (- cov_run F phi (score phi NEG) f + cov_uses (fparts F) (flist F) phi (sc (fparts F) phi) f))
      with (cov_run F phi (score phi NEG) f - cov_uses (fparts F) (flist F) phi (sc (fparts F) phi) f) by ring.
    now apply cov_run_bound.
Qed.
Print Assumptions C72_entropy.

(** Cross entropy, in the distribution on which it is called: minus the
    covariance of the other score with the number of uses. *)
Theorem C72_cross_entropy_self c phi psi B : valid c -> has_pair_queries c -> 0 <= B -> bounded c B phi -> bounded c B psi ->
  forall b l f, row_ok c b -> let S := spec_of c b in Enumerates (ok S) l ->
  exists D, derivable_pt_lim (fun x => at_row 0 (q_cross_entropy c (upd phi f x) psi) b) (phi f) D /\
    Rabs (D + cov_uses (prt S) l phi (sc (prt S) psi) f) <= 6 * (INR (degree c b) * scale c B b) * leak c b B.
Proof.
  intros V Hp HB0 HB HB' b l f Hb; cbv zeta; intro Hl. destruct (row_family V Hb) as (F & HF).
  exists (- cov_run F phi (score psi NEG) f). split.
  - eapply dlim_ext; [|apply d_cross_first]. intro x. cbv beta. symmetry. now apply row_cross.
  - revert l Hl. rewrite <- (ir_spec HF). cbn [ok prt fspec st]. intros l Hl.
    rewrite <- (cov_uses_perm (fparts F) phi (sc (fparts F) psi) f (ir_nonempty HF) (row_perm HF Hl)).
    rewrite <- Rabs_Ropp. replace (- (- cov_run F phi (score psi NEG) f + cov_uses (fparts F) (flist F) phi (sc (fparts F) psi) f))
      with (cov_run F phi (score psi NEG) f - cov_uses (fparts F) (flist F) phi (sc (fparts F) psi) f) by ring.
    now apply cov_run_bound.
Qed.
Print Assumptions C72_cross_entropy_self.

(** Cross entropy and KL in the other distribution: expected uses under the
    other one minus expected uses under this one. At equal potentials the
    derivative is exactly zero, whatever the zero of the semiring. *)
Theorem C72_other c phi psi B : valid c -> has_pair_queries c -> 0 <= B -> bounded c B phi -> bounded c B psi ->
  forall b l f, row_ok c b -> let S := spec_of c b in Enumerates (ok S) l ->
  exists D, derivable_pt_lim (fun x => at_row 0 (q_cross_entropy c phi (upd psi f x)) b) (psi f) D /\
    derivable_pt_lim (fun x => at_row 0 (q_kl c phi (upd psi f x)) b) (psi f) D /\
    Rabs (D - (expect (prt S) l psi (uses (prt S) f) - expect (prt S) l phi (uses (prt S) f))) <= 4 * INR (degree c b) * leak c b B /\
    ((forall e, phi e = psi e) -> D = 0).
Proof.
  intros V Hp HB0 HB HB' b l f Hb; cbv zeta; intro Hl. destruct (row_family V Hb) as (F & HF).
  exists (mean psi NEG (ft F) (cntL f) - mean phi NEG (ft F) (cntL f)). split; [|split; [|split]].
  - eapply dlim_ext; [|apply d_cross_second]. intro x. cbv beta. symmetry. now apply row_cross.
  - pose proof (derivable_pt_lim_minus _ _ _ _ _ (d_cross_second F phi psi f) (derivable_pt_lim_const (d_entropy F phi) (psi f))) as H.
    apply (@dlim_is _ _ _ _ _ H); [|ring]. intro x. unfold minus_fct, fct_cte. cbv beta.
    rewrite (row_kl _ _ Hp HF). now rewrite kl_code.
  - revert l Hl. rewrite <- (ir_spec HF). cbn [ok prt fspec st]. intros l Hl.
    rewrite <- !(expect_perm (fparts F) _ _ (row_perm HF Hl)).
    pose proof (@mean_uses_bound c b F B HF HB0 phi f HB) as H1. pose proof (@mean_uses_bound c b F B HF HB0 psi f HB') as H2.
    apply Rabs_le_inv in H1, H2. apply Rabs_le. lra.
  - intro E. assert (Es : forall m, score phi NEG m = score psi NEG m).
    { intro m. apply (Sum_ext R_csr). intros []; simpl; auto. }
    assert (EZ : ZZ phi NEG (ft F) = ZZ psi NEG (ft F)) by (apply (Sum_ext R_csr); intro; now rewrite Es).
    replace (mean psi NEG (ft F) (cntL f)) with (mean phi NEG (ft F) (cntL f)); [ring|].
    apply (Sum_ext R_csr). intro m. unfold pr. now rewrite Es, EZ.
Qed.
Print Assumptions C72_other.

(** KL in the distribution on which it is called: the covariance of the
    difference of the scores with the number of uses. *)
Theorem C72_kl_self c phi psi B : valid c -> has_pair_queries c -> 0 <= B -> bounded c B phi -> bounded c B psi ->
  forall b l f, row_ok c b -> let S := spec_of c b in Enumerates (ok S) l ->
  exists D, derivable_pt_lim (fun x => at_row 0 (q_kl c (upd phi f x) psi) b) (phi f) D /\
    Rabs (D - cov_uses (prt S) l phi (fun s => sc (prt S) phi s - sc (prt S) psi s) f) <= 12 * (INR (degree c b) * scale c B b) * leak c b B /\
    ((forall e, phi e = psi e) -> D = 0).
Proof.
  intros V Hp HB0 HB HB' b l f Hb; cbv zeta; intro Hl. destruct (row_family V Hb) as (F & HF).
  exists (cov_run F phi (score phi NEG) f - cov_run F phi (score psi NEG) f). split; [|split].
  - pose proof (derivable_pt_lim_minus _ _ _ _ _ (d_cross_first F phi psi f) (d_entropy_derivative F phi f)) as H.
    apply (@dlim_is _ _ _ _ _ H); [|ring]. intro x. unfold minus_fct. cbv beta.
    rewrite (row_kl _ _ Hp HF). now rewrite kl_code.
  - revert l Hl. rewrite <- (ir_spec HF). cbn [ok prt fspec st]. intros l Hl.
    rewrite <- (cov_uses_perm (fparts F) phi _ f (ir_nonempty HF) (row_perm HF Hl)), cov_uses_minus by apply (ir_nonempty HF).
    pose proof (@cov_run_bound c b F B HF HB0 phi phi f HB HB) as H1. pose proof (@cov_run_bound c b F B HF HB0 phi psi f HB HB') as H2.
    apply Rabs_le_inv in H1, H2. apply Rabs_le. lra.
  - intro E. assert (Es : forall m, score phi NEG m = score psi NEG m).
    { intro m. apply (Sum_ext R_csr). intros []; simpl; auto. }
    unfold cov_run. rewrite (mean_ext NEG (ft F) phi (fun m => score phi NEG m * cntL f m) (fun m => score psi NEG m * cntL f m)) by (intro; now rewrite Es).
    rewrite (mean_ext NEG (ft F) phi (score phi NEG) (score psi NEG)) by auto. ring.
Qed.
Print Assumptions C72_kl_self.

(** Where all structures have the same score the entropy is largest; its
    derivative vanishes there, up to the same bound. *)
Theorem C72_flat c phi B K : valid c -> 0 <= B -> bounded c B phi ->
  forall b l f, row_ok c b -> let S := spec_of c b in Enumerates (ok S) l -> (forall s, ok S s -> sc (prt S) phi s = K) ->
  exists D, derivable_pt_lim (fun x => at_row 0 (q_entropy c (upd phi f x)) b) (phi f) D /\
    Rabs D <= 6 * (INR (degree c b) * scale c B b) * leak c b B.
Proof.
  intros V HB0 HB b l f Hb; cbv zeta; intros Hl HK.
  destruct (@C72_entropy c phi B V HB0 HB b l f Hb Hl) as (D & H1 & H2). exists D. split; [exact H1|].
  destruct (row_family V Hb) as (F & HF).
  assert (Hne : l <> []).
  { intros ->. revert Hl. rewrite <- (ir_spec HF). intro Hl. pose proof (row_perm HF Hl) as P.
    apply Permutation_sym, Permutation_nil in P. apply (ir_nonempty HF P). }
  replace (cov_uses (prt (spec_of c b)) l phi (sc (prt (spec_of c b)) phi) f) with 0 in H2; [now rewrite Rplus_0_r in H2|].
  symmetry. unfold cov_uses. set (S := spec_of c b) in *.
  assert (E : expect (prt S) l phi (sc (prt S) phi) = K).
  { unfold expect. rewrite (Sum_ext_in R_csr _ (fun s => prob (prt S) l phi s * K)) by (intros s Hs; rewrite HK by (apply Hl; exact Hs); reflexivity).
    rewrite RSum_scar, prob_sum by auto. ring. }
  rewrite E. unfold expect. rewrite (Sum_ext_in R_csr _ (fun _ => 0)); [rewrite RSum_const; ring|].
  intros s Hs. cbv beta. rewrite HK by (apply Hl; exact Hs). simpl. ring.
Qed.
Print Assumptions C72_flat.

(** the hypotheses are met: a chain with a padded row, and potentials of two
    different distributions; for binary trees the bound is zero, so the
    derivatives are exactly the covariances *)
Example entgrad_hypotheses : let c := CLin 2 3 2 (Some [3; 2]%nat) in
  let phi := fun e : list nat => if Nat.eqb (nth 3 e 0%nat) 0 then 1 else 0 in let psi := fun _ : list nat => 1 in
  valid c /\ has_pair_queries c /\ bounded c 1 phi /\ bounded c 1 psi /\ row_ok c 1 /\ (exists l, Enumerates (ok (spec_of c 1)) l) /\
  (exists e, phi e <> psi e) /\ (exists K, forall s, ok (spec_of c 1) s -> sc (prt (spec_of c 1)) psi s = K) /\
  (valid (CTree 1 3 2 None) /\ forall b B, leak (CTree 1 3 2 None) b B = 0).
Proof.
  cbv zeta. assert (V : valid (CLin 2 3 2 (Some [3; 2]%nat))) by (cbn; repeat split; lia).
  assert (Hb : row_ok (CLin 2 3 2 (Some [3; 2]%nat)) 1) by (split; [cbn; lia|exact I]).
  split; [exact V|]. split; [exact I|]. split; [|split; [|split; [exact Hb|split; [|split; [|split; [|split]]]]]].
  - right. intro e. destruct (Nat.eqb _ _); [rewrite Rabs_R1|rewrite Rabs_R0]; lra.
  - right. intro e. rewrite Rabs_R1. lra.
  - destruct (row_family V Hb) as (F & HF). rewrite <- (ir_spec HF). exists (flist F). apply (fenum F).
  - exists [0; 0; 0; 1]%nat. simpl. lra.
  - exists (INR 1). intros s [Hs _]. cbn in Hs. unfold sc. rewrite RSum_const. cbn [prt spec_of]. unfold seq_parts.
    rewrite map_length, seq_length. cbn in *. destruct s as [|? [|? [|]]]; cbn in *; try discriminate; lra.
  - cbn. repeat split; lia.
  - reflexivity.
Qed.
