(** * Properties of the potentials-to-objective maps (C49, C50, C52).

    Every theorem quantifies over all calls (class, shapes, lengths), all
    potentials and all rows that have a structure. *)
From Verif Require Import Base Ops Terms Semirings Poly Chain LinearChain SemiMarkov CkyCrf Cky DepSpec DepTree
  Batch Family Approx Grad Sample Dist Purity Degree Shape Api Query Learn P_Real.
Set Implicit Arguments.
Local Open Scope R_scope.

Section Rows.
  Variables (c : call) (b : nat) (F : family).
  Hypothesis HF : is_row c b F.
  Lemma row_partition phi : at_row 0 (q_partition c phi) b = leval (log_ops NEG) phi (ft F).
  Proof. rewrite <- frun_leval. apply (q_row (log_ops NEG) phi 0 HF). Qed.
  Lemma row_max phi : at_row 0 (q_max c phi) b = leval (max_ops NEG) phi (ft F).
  Proof. rewrite <- frun_leval. apply (q_row (max_ops NEG) phi 0 HF). Qed.
End Rows.

(** ** C49: the objective is monotone, convex, and its gradient is a global lower bound *)
Theorem C49_monotone c phi psi : valid c -> (forall e, phi e <= psi e) ->
  forall b, row_ok c b ->
    at_row 0 (q_partition c phi) b <= at_row 0 (q_partition c psi) b /\
    at_row 0 (q_max c phi) b <= at_row 0 (q_max c psi) b.
Proof.
  intros V H b Hb. destruct (row_family V Hb) as (F & HF). rewrite !(row_partition HF), !(row_max HF). split.
  - apply log_mono; auto. apply ft_wf.
  - apply max_mono; auto. apply ft_wf.
Qed.
Print Assumptions C49_monotone.

Theorem C49_convex c phi psi a : valid c -> 0 <= a <= 1 ->
  forall b, row_ok c b ->
    at_row 0 (q_partition c (fun e => a * phi e + (1 - a) * psi e)) b
      <= a * at_row 0 (q_partition c phi) b + (1 - a) * at_row 0 (q_partition c psi) b /\
    at_row 0 (q_max c (fun e => a * phi e + (1 - a) * psi e)) b
      <= a * at_row 0 (q_max c phi) b + (1 - a) * at_row 0 (q_max c psi) b.
Proof.
  intros V H b Hb. destruct (row_family V Hb) as (F & HF). rewrite !(row_partition HF), !(row_max HF). split.
  - apply (@log_convex NEG (ft F) (ft_wf F) a phi psi H).
  - apply (@max_convex NEG (ft F) (ft_wf F) a phi psi H).
Qed.
Print Assumptions C49_convex.

(** hence the negative log-likelihood of any event is convex *)
Theorem C49_log_prob_concave c phi psi a value : valid c -> 0 <= a <= 1 ->
  match c with CCfg _ _ _ _ _ => False | _ => True end ->
  forall b, row_ok c b -> exists x y m,
    q_log_prob c phi b value = Ok x /\ q_log_prob c psi b value = Ok y /\
    q_log_prob c (fun e => a * phi e + (1 - a) * psi e) b value = Ok m /\
    a * x + (1 - a) * y <= m.
Proof.
  intros V Ha Hc b Hb. destruct (@C49_convex c phi psi a V Ha b Hb) as [H _].
  assert (G : forall chi, exists v, q_partition c chi = Ok v).
  { intro chi. destruct (run_ok c (log_ops NEG) chi V) as (v & E & _). exists v. exact E. }
  destruct (G phi) as (vx & Ex). destruct (G psi) as (vy & Ey). destruct (G (fun e => a * phi e + (1 - a) * psi e)) as (vm & Em).
  rewrite Ex, Ey, Em in H. cbn [at_row] in H.
  set (ids := map (cons b) (indices (event_shape c))).
  exists (RSum (fun e => phi e * value e) ids - nth b vx 0), (RSum (fun e => psi e * value e) ids - nth b vy 0),
    (RSum (fun e => (a * phi e + (1 - a) * psi e) * value e) ids - nth b vm 0).
  unfold q_log_prob. rewrite Ex, Ey, Em. cbn [res_map]. fold ids.
  split; [destruct c; try contradiction; reflexivity|]. split; [destruct c; try contradiction; reflexivity|].
  split; [destruct c; try contradiction; reflexivity|].
  assert (E : RSum (fun e => (a * phi e + (1 - a) * psi e) * value e) ids =
    a * RSum (fun e => phi e * value e) ids + (1 - a) * RSum (fun e => psi e * value e) ids).
  { rewrite <- !RSum_scal, <- RSum_add. apply (Sum_ext R_csr). intro; simpl; ring. }
  rewrite E. lra.
Qed.
Print Assumptions C49_log_prob_concave.

(** the derivatives D exist, and following them never overshoots: the value at
    any other potentials is at least the linear extrapolation *)
Theorem C49_tangent c phi : valid c -> forall b, row_ok c b ->
  exists D : list nat -> R,
    (forall e, derivable_pt_lim (fun x => at_row 0 (q_partition c (upd phi e x)) b) (phi e) (D e)) /\
    (forall psi ids, NoDup ids -> (forall e, ~ In e ids -> psi e = phi e) ->
      at_row 0 (q_partition c phi) b + RSum (fun e => D e * (psi e - phi e)) ids
        <= at_row 0 (q_partition c psi) b).
Proof.
  intros V b Hb. destruct (row_family V Hb) as (F & HF). exists (fun e => mean phi NEG (ft F) (cntL e)). split.
  - intro e. eapply dlim_ext; [|apply (@log_derivative NEG phi (ft F) e (ft_wf F))].
    intro y. cbv beta. symmetry. apply (row_partition HF).
  - intros psi ids Hn Hi. rewrite !(row_partition HF).
    rewrite <- (@mean_diff phi psi NEG (ft F) ids (ft_wf F) Hn Hi). apply log_tangent, ft_wf.
Qed.
Print Assumptions C49_tangent.

(** the maximum and the log-partition differ by at most the log of the number of structures *)
Theorem C49_sandwich c phi B : valid c -> 0 <= B -> bounded c B phi ->
  forall b l, row_ok c b -> let S := spec_of c b in Enumerates (ok S) l ->
    at_row 0 (q_max c phi) b <= at_row 0 (q_partition c phi) b
      <= at_row 0 (q_max c phi) b + ln (INR (length l)) + leak c b B.
Proof.
  intros V HB0 HB b l Hb S Hl. split.
  - destruct (row_family V Hb) as (F & HF). rewrite (row_partition HF), (row_max HF). apply max_le_log, ft_wf.
  - destruct (@C20_partition_value c phi B V HB0 HB) as (v & E & L & H).
    specialize (H b l Hb Hl). cbv zeta in H. fold S in H. rewrite E. cbn [at_row].
    destruct (row_family V Hb) as (F & HF).
    assert (Em : at_row 0 (q_max c phi) b = d_max F phi) by apply (q_row (max_ops NEG) phi 0 HF).
    rewrite Em. revert l Hl H. unfold S. rewrite <- (ir_spec HF). cbn [ok prt fspec st]. intros l Hl H.
    assert (K : ln (ZS (fparts F) l phi) <= d_max F phi + ln (INR (length l))).
    { assert (Hne : l <> []).
      { intros ->. pose proof (row_perm HF Hl) as P. apply Permutation_sym, Permutation_nil in P.
        apply (ir_nonempty HF P). }
      assert (Z : ZS (fparts F) l phi <= INR (length l) * exp (d_max F phi)).
      { unfold ZS. rewrite <- RSum_const. apply RSum_le. intros s Hs.
        assert (K : sc (fparts F) phi s <= d_max F phi).
        { apply max_lower. apply (fenum F). apply Hl. exact Hs. }
        destruct K as [K| ->]; [left; now apply exp_increasing|lra]. }
      assert (0 < INR (length l)). { apply lt_0_INR. destruct l; [congruence|simpl; lia]. }
      rewrite <- (ln_exp (d_max F phi)) at 1. rewrite Rplus_comm, <- ln_mult by auto using exp_pos.
      pose proof (ZS_pos (fparts F) phi Hne).
      destruct Z as [Z| ->]; [left; now apply ln_increasing|lra]. }
    lra.
Qed.
Print Assumptions C49_sandwich.

(** ** C50: second derivatives *)
(** covariance of the numbers of uses of two parts under the Gibbs law *)
Definition cov_spec A (parts : A -> list (list nat)) (l : list A) (phi : list nat -> R) (e f : list nat) : R :=
  RSum (fun s => prob parts l phi s * (uses parts e s * uses parts f s)) l
  - marg_spec parts l phi e * marg_spec parts l phi f.

Lemma cov_perm A (parts : A -> list (list nat)) l l' phi e f : Permutation l l' ->
  cov_spec parts l phi e f = cov_spec parts l' phi e f.
Proof.
  intro H. unfold cov_spec. rewrite !(marg_perm parts H). f_equal. apply wsum_perm; auto.
Qed.

Section Cov.
  Variable F : family.
  Notation t := (ft F).
  Notation fsc := (sc (fparts F)).
  Lemma cntL_pure e m : pure m = true -> cntL e m = cnt e m.
  Proof. intro H. rewrite cnt_split, (cntO_pure e m H). ring. Qed.
  Lemma cntL_range e m : 0 <= cntL e m <= INR (length m).
  Proof. pose proof (cnt_range e m). pose proof (cntO_range e m). rewrite cnt_split in H.
    split; [|lra]. apply RSum_nonneg. intros [] _; simpl; try destruct (list_eq_dec _ _ _); lra.
  Qed.
  Lemma uses_range e s : In s (flist F) -> 0 <= uses (fparts F) e s <= INR (fdeg F).
  Proof.
    intro Hs. destruct (structure_is_pure F s Hs) as (m & Hm & Hp & HP).
    rewrite <- (perm_cnt F e m s Hp HP). pose proof (cnt_range e m). pose proof (@len_le F m Hm). lra.
  Qed.
  (** sums over pure derivations of functions of the leaves *)
  Lemma two_transfer phi e f :
    RSum (fun m => exp (score phi NEG m) * (cnt e m * cntL f m)) (filter pure (expand t)) =
    RSum (fun s => exp (fsc phi s) * (uses (fparts F) e s * uses (fparts F) f s)) (flist F).
  Proof.
    set (co := fun e l => INR (count_occ (list_eq_dec Nat.eq_dec) l e)).
    transitivity (RSum (fun m => (fun l => exp (RSum phi l) * (co e l * co f l)) (leaves m)) (filter pure (expand t))).
    - apply (Sum_ext_in R_csr). intros m Hm. apply filter_In in Hm as [_ Hp].
      rewrite score_leaves, cntL_pure, !cnt_pure by auto. reflexivity.
    - rewrite (pure_transfer F R_csr (fun l => exp (RSum phi l) * (co e l * co f l))); [reflexivity|].
      intros x y HP. unfold co. rewrite !(proj1 (Permutation_count_occ _ _ _) HP). do 2 f_equal. apply (Sum_perm R_csr), HP.
  Qed.
  Lemma cntL_transfer phi e : RSum (fun m => exp (score phi NEG m) * cntL e m) (filter pure (expand t)) =
    RSum (fun s => exp (fsc phi s) * uses (fparts F) e s) (flist F).
  Proof.
    rewrite <- cnt_transfer. apply (Sum_ext_in R_csr). intros m Hm. apply filter_In in Hm as [_ Hp].
    now rewrite cntL_pure.
  Qed.

  (** spec: covariance under the weights of all derivations *)
  Definition cov_code phi e f : R :=
    mean phi NEG t (fun m => cnt e m * cntL f m) - mean phi NEG t (cnt e) * mean phi NEG t (cntL f).

  Lemma cov_pure phi e f : fpure F -> flist F <> [] -> cov_code phi e f = cov_spec (fparts F) (flist F) phi e f.
  Proof.
    intros HP Hl. unfold cov_code, cov_spec, marg_spec. f_equal; [|f_equal].
    - apply (@mean_pure F HP phi (fun m => cnt e m * cntL f m) (fun s => uses (fparts F) e s * uses (fparts F) f s)).
      + intros m s Hp HPm. rewrite cntL_pure, !(perm_cnt F _ m s Hp HPm) by auto. reflexivity.
      + apply two_transfer.
    - apply (@mean_pure F HP phi (cnt e) (uses (fparts F) e)).
      + intros m s Hp HPm. apply (perm_cnt F _ m s Hp HPm).
      + apply cnt_transfer.
    - apply (@mean_pure F HP phi (cntL f) (uses (fparts F) f)).
      + intros m s Hp HPm. rewrite cntL_pure by auto. apply (perm_cnt F _ m s Hp HPm).
      + apply cntL_transfer.
  Qed.
  Lemma cov_err phi B e f : (forall e, Rabs (phi e) <= B) -> flist F <> [] ->
    Rabs (cov_code phi e f - cov_spec (fparts F) (flist F) phi e f) <= 6 * (INR (fdeg F) * INR (fdeg F)) * eps F B NEG.
  Proof.
    intros HB Hl. unfold cov_code, cov_spec, marg_spec. rewrite !avg_prob.
    set (d := INR (fdeg F)). assert (Hd : 0 <= d) by apply pos_INR.
    assert (H1 : Rabs (mean phi NEG t (fun m => cnt e m * cntL f m) -
        avg (fparts F) (flist F) phi (fun s => uses (fparts F) e s * uses (fparts F) f s)) <= 2 * (d * d) * eps F B NEG).
    { apply mean_err; auto using NEG_neg, two_transfer.
      - intros m Hm. pose proof (cnt_range e m). pose proof (cntL_range f m). pose proof (@len_le F m Hm). fold d in H1.
        rewrite Rabs_right by (apply Rle_ge, Rmult_le_pos; lra). apply Rmult_le_compat; lra.
      - intros s Hs. pose proof (uses_range e s Hs). pose proof (uses_range f s Hs). fold d in H, H0.
        rewrite Rabs_right by (apply Rle_ge, Rmult_le_pos; lra). apply Rmult_le_compat; lra. }
    assert (H2 : Rabs (mean phi NEG t (cnt e) - avg (fparts F) (flist F) phi (uses (fparts F) e)) <= 2 * d * eps F B NEG).
    { apply mean_err; auto using NEG_neg, cnt_transfer.
      - intros m Hm. pose proof (cnt_range e m). pose proof (@len_le F m Hm). fold d in H0. rewrite Rabs_right; lra.
      - intros s Hs. pose proof (uses_range e s Hs). fold d in H. rewrite Rabs_right; lra. }
    assert (H3 : Rabs (mean phi NEG t (cntL f) - avg (fparts F) (flist F) phi (uses (fparts F) f)) <= 2 * d * eps F B NEG).
    { apply mean_err; auto using NEG_neg, cntL_transfer.
      - intros m Hm. pose proof (cntL_range f m). pose proof (@len_le F m Hm). fold d in H0. rewrite Rabs_right; lra.
      - intros s Hs. pose proof (uses_range f s Hs). fold d in H. rewrite Rabs_right; lra. }
    assert (M1 : 0 <= mean phi NEG t (cnt e) <= d).
    { unfold mean. split.
      - apply RSum_nonneg. intros m _. apply Rmult_le_pos; [apply Rlt_le, pr_pos, ft_wf|apply cnt_range].
      - rewrite <- (@mean_const phi NEG t d (ft_wf F)). unfold mean. apply RSum_le. intros m Hm.
        apply Rmult_le_compat_l; [apply Rlt_le, pr_pos, ft_wf|]. pose proof (cnt_range e m). pose proof (@len_le F m Hm).
        fold d in H0. lra. }
    assert (M2 : 0 <= avg (fparts F) (flist F) phi (uses (fparts F) f) <= d).
    { rewrite <- avg_prob. split.
      - apply RSum_nonneg. intros s Hs. apply Rmult_le_pos; [|apply (uses_range f s Hs)].
        unfold prob. apply Rlt_le, Rdiv_lt_0_compat; [apply exp_pos|now apply ZS_pos].
      - apply Rle_trans with (RSum (fun s => prob (fparts F) (flist F) phi s * d) (flist F)).
        + apply RSum_le. intros s Hs. apply Rmult_le_compat_l; [|apply (uses_range f s Hs)].
          unfold prob. apply Rlt_le, Rdiv_lt_0_compat; [apply exp_pos|now apply ZS_pos].
        + rewrite RSum_scar, prob_sum by auto. lra. }
    set (ef := mean phi NEG t (fun m => cnt e m * cntL f m)) in *.
    set (ef' := avg (fparts F) (flist F) phi (fun s => uses (fparts F) e s * uses (fparts F) f s)) in *.
    set (x := mean phi NEG t (cnt e)) in *. set (x' := avg (fparts F) (flist F) phi (uses (fparts F) e)) in *.
    set (y := mean phi NEG t (cntL f)) in *. set (y' := avg (fparts F) (flist F) phi (uses (fparts F) f)) in *.
    set (E := eps F B NEG) in *.
    replace (ef - x * y - (ef' - x' * y')) with ((ef - ef') - (x * (y - y') + (x - x') * y')) by ring.
    assert (G1 : Rabs (x * (y - y')) <= d * (2 * d * E)).
    { rewrite Rabs_mult. apply Rmult_le_compat; auto using Rabs_pos. rewrite Rabs_right; lra. }
    assert (G2 : Rabs ((x - x') * y') <= (2 * d * E) * d).
    { rewrite Rabs_mult. apply Rmult_le_compat; auto using Rabs_pos. rewrite Rabs_right; lra. }
    apply Rabs_le_inv in G1, G2, H1. apply Rabs_le. lra.
  Qed.
End Cov.

(** the marginals are differentiable, and their derivatives (the second
    derivatives of the log-partition) are covariances of part counts *)
Theorem C50_covariance c phi B : valid c -> 0 <= B -> bounded c B phi ->
  forall b l e f, row_ok c b -> row_of c e = b -> let S := spec_of c b in Enumerates (ok S) l ->
  exists D, derivable_pt_lim (fun x => q_marginals c (upd phi f x) e) (phi f) D /\
    Rabs (D - cov_spec (prt S) l phi e f) <= 6 * (INR (degree c b) * INR (degree c b)) * leak c b B.
Proof.
  intros V HB0 HB b l e f Hb He; cbv zeta; intro Hl. destruct (row_family V Hb) as (F & HF).
  exists (cov_code F phi e f). split.
  - eapply dlim_ext; [|apply (@mean_derivative NEG (ft F) (ft_wf F) phi f (cnt e))].
    intro x. cbv beta. rewrite (@marginals_row c b F (upd phi f x) e V HF (proj1 Hb) He).
    symmetry. apply marginals_code.
  - revert l Hl. rewrite <- (ir_spec HF). cbn [ok prt fspec st]. intros l Hl.
    rewrite <- (cov_perm (fparts F) phi e f (row_perm HF Hl)).
    apply (@err_transfer c B b F (6 * (INR (fdeg F) * INR (fdeg F)))); auto.
    + intro Z. rewrite cov_pure; [ring|now apply (ir_pure HF)|apply (ir_nonempty HF)].
    + pose proof (pos_INR (fdeg F)). nra.
    + intro Z. destruct HB as [HB|HB]; [congruence|]. apply cov_err; auto. apply (ir_nonempty HF).
    + intro Z. destruct (ir_bnd HF Z) as [Hd _]. apply le_INR in Hd. pose proof (pos_INR (fdeg F)). unfold fdeg in *.
      apply Rmult_le_compat_l; [lra|]. apply Rmult_le_compat; lra.
Qed.
Print Assumptions C50_covariance.

(** ** C52: potentials that change every structure by the same amount *)
Definition padd (phi delta : list nat -> R) : list nat -> R := fun e => phi e + delta e.

Lemma sc_add A (parts : A -> list (list nat)) phi delta s :
  sc parts (padd phi delta) s = sc parts phi s + sc parts delta s.
Proof. apply RSum_add. Qed.
Section Shift.
  Variables (A : Type) (parts : A -> list (list nat)) (l : list A) (phi delta : list nat -> R) (K : R).
  Hypothesis HK : forall s, In s l -> sc parts delta s = K.
  Lemma ZS_shift : ZS parts l (padd phi delta) = ZS parts l phi * exp K.
  Proof.
    unfold ZS. rewrite <- RSum_scar. apply (Sum_ext_in R_csr). intros s Hs. simpl.
    now rewrite sc_add, HK, exp_plus.
  Qed.
  Lemma prob_shift s : l <> [] -> In s l -> prob parts l (padd phi delta) s = prob parts l phi s.
  Proof.
    intros Hl Hs. unfold prob. rewrite ZS_shift, sc_add, HK, exp_plus by auto. pose proof (ZS_pos parts phi Hl).
    pose proof (exp_pos K). field. split; lra.
  Qed.
End Shift.

Lemma row_partition_bound c phi B b F : is_row c b F -> 0 <= B -> bounded c B phi ->
  0 <= at_row 0 (q_partition c phi) b - ln (ZS (fparts F) (flist F) phi) <= leak c b B.
Proof.
  intros HF HB0 HB. assert (Ev : at_row 0 (q_partition c phi) b = d_partition F phi) by apply (q_row (log_ops NEG) phi 0 HF).
  rewrite Ev. destruct (zero_free c) eqn:Z.
  - rewrite partition_pure by now apply (ir_pure HF). unfold leak. rewrite Z. lra.
  - destruct HB as [HB|HB]; [congruence|].
    pose proof (@partition_err F phi B HB (ir_nonempty HF)) as H.
    pose proof (leak_eps HF HB0). lra.
Qed.
Lemma row_marginals_bound c phi B b F e : valid c -> (b < batch_of c)%nat -> is_row c b F -> 0 <= B -> bounded c B phi ->
  row_of c e = b ->
  Rabs (q_marginals c phi e - marg_spec (fparts F) (flist F) phi e) <= 2 * INR (degree c b) * leak c b B.
Proof.
  intros V Hlt HF HB0 HB He. rewrite (@marginals_row c b F phi e V HF Hlt He).
  apply (@err_transfer c B b F (2 * INR (fdeg F))); auto.
  - intro Z. rewrite marginals_pure; [ring|now apply (ir_pure HF)|apply (ir_nonempty HF)].
  - pose proof (pos_INR (fdeg F)). lra.
  - intro Z. destruct HB as [HB|HB]; [congruence|]. apply marginals_err; auto. apply (ir_nonempty HF).
  - intro Z. destruct (ir_bnd HF Z) as [Hd _]. apply le_INR in Hd. unfold fdeg. lra.
Qed.

Theorem C52_shift c phi delta K B : valid c -> 0 <= B -> bounded c B phi -> bounded c B (padd phi delta) ->
  forall b, row_ok c b -> let S := spec_of c b in
  (forall s, ok S s -> sc (prt S) delta s = K) ->
  (* the log-partition moves by K *)
  Rabs (at_row 0 (q_partition c (padd phi delta)) b - (at_row 0 (q_partition c phi) b + K)) <= leak c b B /\
  (* the maximum moves by K *)
  (small c b phi -> small c b (padd phi delta) ->
     at_row 0 (q_max c (padd phi delta)) b = at_row 0 (q_max c phi) b + K) /\
  (* the marginals stay *)
  (forall e, row_of c e = b ->
     Rabs (q_marginals c (padd phi delta) e - q_marginals c phi e) <= 4 * INR (degree c b) * leak c b B) /\
  (* the log-probabilities of structures stay *)
  (match c with CCfg _ _ _ _ _ => False | _ => True end -> forall s, ok S s ->
     exists x y, q_log_prob c (padd phi delta) b (fun e => uses (prt S) e s) = Ok x /\
       q_log_prob c phi b (fun e => uses (prt S) e s) = Ok y /\ Rabs (x - y) <= leak c b B).
Proof.
  intros V HB0 HB HB' b Hb S HK. destruct (row_family V Hb) as (F & HF).
  assert (HKF : forall s, In s (flist F) -> sc (fparts F) delta s = K).
  { intros s Hs. apply (fenum F) in Hs. revert s Hs. change (forall s, ok (fspec F) s -> sc (prt (fspec F)) delta s = K).
    rewrite (ir_spec HF). exact HK. }
  assert (HP : Rabs (at_row 0 (q_partition c (padd phi delta)) b - (at_row 0 (q_partition c phi) b + K)) <= leak c b B).
  { pose proof (@row_partition_bound c phi B b F HF HB0 HB) as H1. pose proof (@row_partition_bound c (padd phi delta) B b F HF HB0 HB') as H2.
    rewrite (@ZS_shift _ (fparts F) (flist F) phi delta K HKF) in H2.
    rewrite ln_mult, ln_exp in H2 by (auto using exp_pos; apply ZS_pos, (ir_nonempty HF)).
    apply Rabs_le. lra. }
  split; [exact HP|]. split; [|split].
  - intros R R'.
    assert (E1 : at_row 0 (q_max c phi) b = d_max F phi) by apply (q_row (max_ops NEG) phi 0 HF).
    assert (E2 : at_row 0 (q_max c (padd phi delta)) b = d_max F (padd phi delta)) by apply (q_row (max_ops NEG) _ 0 HF).
    rewrite E1, E2.
    destruct (@max_correct F phi (is_row_range HF R) (ir_nonempty HF)) as [H1 H2].
    destruct (@max_correct F (padd phi delta) (is_row_range HF R') (ir_nonempty HF)) as [G1 G2].
    apply in_map_iff in H1 as (s & Es & Hs). apply in_map_iff in G1 as (s' & Es' & Hs').
    assert (A1 := H2 _ (in_map _ _ _ Hs')). assert (A2 := G2 _ (in_map _ _ _ Hs)).
    rewrite sc_add, HKF in A2, Es' by auto. lra.
  - intros e He. pose proof (@row_marginals_bound c phi B b F e V (proj1 Hb) HF HB0 HB He) as H1.
    pose proof (@row_marginals_bound c (padd phi delta) B b F e V (proj1 Hb) HF HB0 HB' He) as H2.
    replace (marg_spec (fparts F) (flist F) (padd phi delta) e) with (marg_spec (fparts F) (flist F) phi e) in H2.
    + apply Rabs_le_inv in H1, H2. apply Rabs_le. lra.
    + apply (Sum_ext_in R_csr). intros s Hs. rewrite prob_shift with (K := K); auto. apply (ir_nonempty HF).
  - intros Hc s Hs.
    assert (G : forall chi, exists v, q_partition c chi = Ok v).
    { intro chi. destruct (run_ok c (log_ops NEG) chi V) as (v & E & _). exists v. exact E. }
    destruct (G phi) as (vx & Ex). destruct (G (padd phi delta)) as (vy & Ey).
    rewrite Ex, Ey in HP. cbn [at_row] in HP.
    set (ids := map (cons b) (indices (event_shape c))).
    exists (RSum (fun e => padd phi delta e * uses (prt S) e s) ids - nth b vy 0),
      (RSum (fun e => phi e * uses (prt S) e s) ids - nth b vx 0).
    unfold q_log_prob. rewrite Ex, Ey. cbn [res_map]. fold ids.
    split; [destruct c; try contradiction; reflexivity|]. split; [destruct c; try contradiction; reflexivity|].
    assert (Hnd : NoDup ids). { apply NoDup_map_inj; [congruence|apply indices_nodup]. }
    assert (Hin : incl (prt S s) ids) by (apply parts_in_event; auto).
    unfold uses. rewrite !score_event by auto.
    change (RSum (padd phi delta) (prt S s)) with (sc (prt S) (padd phi delta) s). rewrite sc_add, HK by auto.
    unfold sc. apply Rabs_le_inv in HP. apply Rabs_le. lra.
Qed.
Print Assumptions C52_shift.

(** the structure returned by argmax on the shifted potentials is optimal for the original ones *)
Theorem C52_shift_argmax c phi delta K o : valid c ->
  (forall b, (b < batch_of c)%nat -> argmax_ok NEG (padd phi delta) (o b) [] (row_graph c b)) ->
  forall b, row_ok c b -> small c b (padd phi delta) -> let S := spec_of c b in
  (forall s, ok S s -> sc (prt S) delta s = K) ->
  exists s, ok S s /\ (forall s', ok S s' -> sc (prt S) phi s' <= sc (prt S) phi s) /\
    (forall e, row_of c e = b -> q_argmax c o e = uses (prt S) e s).
Proof.
  intros V Ho b Hb HS S HK.
  destruct (@C15_argmax_is_optimal c (padd phi delta) o V Ho b Hb HS) as (s & H1 & H2 & H3 & _).
  exists s. split; [exact H1|]. split; [|exact H3].
  intros s' Hs'. specialize (H2 s' Hs'). fold S in H1, H2. rewrite !sc_add, !HK in H2 by auto. lra.
Qed.
Print Assumptions C52_shift_argmax.

(** *** Shifts that users apply *)
(** LinearChain: a constant per step *)
Lemma RSum_map' A B (f : B -> R) (g : A -> B) l : RSum f (map g l) = RSum (fun x => f (g x)) l.
Proof. apply Sum_map. Qed.
Theorem C52_chain_step batch N C ls b (g : nat -> R) : valid (CLin batch N C ls) ->
  forall s, ok (spec_of (CLin batch N C ls) b) s ->
  sc (prt (spec_of (CLin batch N C ls) b)) (fun e => g (nth 1 e 0%nat)) s =
  RSum g (seq 0 (Nat.max 1 (lc_len N ls b) - 1)).
Proof.
  intros _ s [Hl _]. cbn [spec_of prt]. unfold sc, seq_parts. rewrite RSum_map', Hl. reflexivity.
Qed.
(** LinearChain: moving a unary score of an inner position from the edge that
    enters it to the edge that leaves it *)
Theorem C52_chain_gauge batch N C ls b (h : nat -> nat -> R) : valid (CLin batch N C ls) ->
  (forall y, h 0%nat y = 0) -> (forall y, h (Nat.max 1 (lc_len N ls b) - 1)%nat y = 0) ->
  forall s, ok (spec_of (CLin batch N C ls) b) s ->
  sc (prt (spec_of (CLin batch N C ls) b))
    (fun e => h (nth 1 e 0%nat + 1)%nat (nth 2 e 0%nat) - h (nth 1 e 0%nat) (nth 3 e 0%nat)) s = 0.
Proof.
  intros _ H0 H1 s [Hl _]. cbn [spec_of prt]. unfold sc, seq_parts. rewrite RSum_map', Hl. cbn [nth].
  set (n := (Nat.max 1 (lc_len N ls b) - 1)%nat) in *.
  transitivity (h n (nth n s 0%nat) - h 0%nat (nth 0 s 0%nat)); [|rewrite H0, H1; ring].
  clear H0 H1 Hl. clearbody n. induction n as [|n IH]; [unfold Sum; simpl; ring|].
  rewrite seq_S, RSum_app, IH. cbn [Nat.add]. unfold Sum. simpl. replace (n + 1)%nat with (S n) by lia. ring.
Qed.
(** SemiMarkov: a score per covered position *)
Theorem C52_semi_position batch N K C ls b (G : nat -> R) : valid (CSemi batch N K C ls) ->
  forall s, ok (spec_of (CSemi batch N K C ls) b) s ->
  sc (prt (spec_of (CSemi batch N K C ls) b))
    (fun e => G (nth 1 e 0%nat + nth 2 e 0%nat)%nat - G (nth 1 e 0%nat)) s = G (lc_len N ls b - 1)%nat - G 0%nat.
Proof.
  intros _ [c0 l] (_ & _ & Hw). cbn [fst snd] in Hw. cbn [spec_of prt]. unfold sc, segm_parts. cbn [fst snd]. rewrite <- Hw.
  assert (H : forall l c n, RSum (fun e => G (nth 1 e 0%nat + nth 2 e 0%nat)%nat - G (nth 1 e 0%nat)) (segs_parts b n c l)
    = G (n + widths l)%nat - G n).
  { clear. induction l as [|[w c'] l IH]; intros c n; cbn [segs_parts].
    - unfold widths, Sum. simpl. rewrite Nat.add_0_r. ring.
    - rewrite RSum_cons, IH. cbn [nth]. replace (n + widths ((w, c') :: l))%nat with (n + w + widths l)%nat
        by (unfold widths; simpl; lia). ring. }
  apply (H l c0 0%nat).
Qed.
(** TreeCRF: a constant per word and a constant per bracket *)
Theorem C52_tree_words batch N NT ls b (g : nat -> R) k : valid (CTree batch N NT ls) ->
  forall s, ok (spec_of (CTree batch N NT ls) b) s ->
  let n := eff_len N (lc_len N ls b) in
  sc (prt (spec_of (CTree batch N NT ls) b))
    (fun e => (if Nat.eqb (nth 1 e 0%nat) (nth 2 e 0%nat) then g (nth 1 e 0%nat) else 0) + k) s
  = RSum g (seq 0 n) + (2 * INR n - 1) * k.
Proof.
  intros _ s [Hs _] n. cbn [spec_of prt]. unfold sc, n. rewrite <- Hs.
  assert (H : forall t i, (1 <= lsize t)%nat /\ RSum (fun e => (if Nat.eqb (nth 1 e 0%nat) (nth 2 e 0%nat) then g (nth 1 e 0%nat) else 0) + k)
    (lparts b i t) = RSum g (seq i (lsize t)) + (2 * INR (lsize t) - 1) * k).
  { clear. induction t as [a|a l IHl r IHr]; intro i; cbn [lparts lsize].
    - split; [lia|]. unfold Sum. cbn [map seq nth fold_right]. rewrite Nat.eqb_refl. simpl. ring.
    - destruct (IHl i) as [P1 E1]. destruct (IHr (i + lsize l)%nat) as [P2 E2]. split; [lia|].
      rewrite RSum_cons, RSum_app, E1, E2. cbn [nth].
      replace (Nat.eqb i (i + (lsize l + lsize r) - 1)) with false by (symmetry; apply Nat.eqb_neq; lia).
      rewrite seq_app, RSum_app, plus_INR. ring. }
  apply (H s 0%nat).
Qed.
(** DependencyCRF: a score per word, whatever its head and label *)
Theorem C52_dep_word mr batch n lab ls b (g : nat -> R) : valid (CDep mr batch n lab ls) ->
  forall s, ok (spec_of (CDep mr batch n lab ls) b) s ->
  sc (prt (spec_of (CDep mr batch n lab ls) b)) (fun e => g (nth 2 e 0%nat)) s = RSum g (seq 0 (lc_len n ls b)).
Proof.
  intros _. destruct lab as [L|]; cbn [spec_of prt ok st].
  - intros s [[(Hl & _) _] _]. rewrite map_length in Hl. unfold sc, ldep_parts. rewrite <- Hl. clear Hl.
    assert (H : forall h c, RSum (fun e => g (nth 2 e 0%nat)) (ldep_parts_from b c h) = RSum g (seq c (length h))).
    { induction h as [|x h IH]; intro c; [reflexivity|]. cbn [ldep_parts_from length seq]. rewrite !RSum_cons, IH.
      f_equal. f_equal. unfold dep_part. destruct (fst x); reflexivity. }
    apply H.
  - intros s [(Hl & _) _]. unfold sc, dep_parts. rewrite <- Hl. clear Hl.
    assert (H : forall h c, RSum (fun e => g (nth 2 e 0%nat)) (dep_parts_from b c h) = RSum g (seq c (length h))).
    { induction h as [|x h IH]; intro c; [reflexivity|]. cbn [dep_parts_from length seq]. rewrite !RSum_cons, IH.
      f_equal. f_equal. unfold dep_part. destruct x; reflexivity. }
    apply H.
Qed.

(** ** The hypotheses are met *)
(** the calls and potentials of P_Real.v: five classes, batches of two rows of
    different lengths. Here: potentials that differ in every entry (C49), the two
    shifts of C52 on the dependency call and on the chain call. *)
Definition ex_psi (e : list nat) : R := ex_phi e + 1 / 2.
Example ex_C49 : Forall (fun c => valid c /\ (forall b, (b < 2)%nat -> row_ok c b) /\ bounded c 3 ex_phi /\
  (forall e, ex_phi e <= ex_psi e) /\ 0 <= 1 / 3 <= 1) ex_calls.
Proof.
  pose proof ex_hypotheses as H. rewrite Forall_forall in *. intros c Hc. destruct (H c Hc) as (V & _ & R & HB).
  split; [auto|]. split; [intros b Hb; apply (R b Hb)|]. split; [auto|]. split; [|lra].
  intro e. unfold ex_psi. lra.
Qed.
(** so for instance the chain's objective at the mixture is below the mixture of the objectives *)
Example ex_C49_chain : at_row 0 (q_partition ex_lin (fun e => 1 / 3 * ex_phi e + (1 - 1 / 3) * ex_psi e)) 1
  <= 1 / 3 * at_row 0 (q_partition ex_lin ex_phi) 1 + (1 - 1 / 3) * at_row 0 (q_partition ex_lin ex_psi) 1.
Proof.
  pose proof ex_C49 as H. rewrite Forall_forall in H. destruct (H ex_lin) as (V & R & _ & _ & Ha); [left; auto|].
  apply (C49_convex ex_phi ex_psi V Ha (R 1%nat ltac:(lia))).
Qed.
(** word scores 10, -20, 30, ... added to the dependency potentials: not small
    changes, and still no effect beyond the constant *)
Definition ex_delta (e : list nat) : R := 10 * INR (nth 2 e 0%nat) - 20.
Example ex_C52 : at_row 0 (q_partition ex_dep (padd ex_phi ex_delta)) 0 = at_row 0 (q_partition ex_dep ex_phi) 0 + -20 /\
  forall e, row_of ex_dep e = 0%nat -> q_marginals ex_dep (padd ex_phi ex_delta) e = q_marginals ex_dep ex_phi e.
Proof.
  pose proof ex_C49 as H. rewrite Forall_forall in H.
  destruct (H ex_dep) as (V & R & HB & _); [simpl; auto 6|].
  destruct (@C52_shift ex_dep ex_phi ex_delta (-20) 3 V ltac:(lra) HB (or_introl eq_refl) 0%nat (R 0%nat ltac:(lia))) as (H1 & _ & H3 & _).
  - intros s Hs. unfold ex_dep in *. unfold ex_delta. 
    rewrite (@C52_dep_word _ _ _ _ _ 0 (fun k => 10 * INR k - 20) V s Hs).
    unfold Sum. simpl. lra.
  - assert (L : leak ex_dep 0 3 = 0) by reflexivity. rewrite L in H1, H3. split.
    + apply Rabs_le_inv in H1. lra.
    + intros e He. specialize (H3 e He). rewrite Rmult_0_r in H3. apply Rabs_le_inv in H3. lra.
Qed.
Example ex_C52_chain s : ok (spec_of ex_lin 0) s ->
  sc (prt (spec_of ex_lin 0)) (fun e => INR (nth 1 e 0%nat) / 2) s = 3 / 2 /\
  forall e, Rabs (padd ex_phi (fun e => if (nth 1 e 0%nat <? 3)%nat then INR (nth 1 e 0%nat) / 2 else 0) e) <= 4.
Proof.
  intro Hs. pose proof ex_C49 as H. rewrite Forall_forall in H. destruct (H ex_lin) as (V & _); [left; auto|]. split.
  - unfold ex_lin in *. rewrite (@C52_chain_step _ _ _ _ 0 (fun k => INR k / 2) V s Hs). unfold Sum. simpl. lra.
  - intro e. unfold padd. pose proof (ex_phi_abs e) as G. apply Rabs_le_inv in G. apply Rabs_le.
    destruct (Nat.ltb_spec (nth 1 e 0%nat) 3) as [L|L]; [|lra].
    destruct (nth 1 e 0%nat) as [|[|[|k]]]; simpl; try lra. lia.
Qed.
(** C50 on two words: the second derivative is the variance of a coin, 1/4 *)
Definition ex_dep2 := CDep false 1 2 None None.
Example ex_C50 : row_ok ex_dep2 0 /\
  derivable_pt_lim (fun x => q_marginals ex_dep2 (upd (fun _ => 0) [0; 0; 0]%nat x) [0; 0; 0]%nat) 0 (1 / 4).
Proof.
  assert (V : valid ex_dep2).
  { split; [|discriminate]. vm_compute. repeat split; try lia; try discriminate; auto. }
  assert (R : row_ok ex_dep2 0) by (vm_compute; lia). split; [exact R|].
  assert (Hl : Enumerates (ok (spec_of ex_dep2 0)) [[0; 1]; [2; 0]]%nat).
  { change (Enumerates (dep_ok false 2) (dep_list false 2)). apply dep_list_enum. lia. }
  destruct (@C50_covariance ex_dep2 (fun _ => 0) 0 V (Rle_refl 0) (or_introl eq_refl) 0%nat [[0; 1]; [2; 0]]%nat
    [0; 0; 0]%nat [0; 0; 0]%nat R eq_refl Hl) as (D & H1 & H2).
  replace (leak ex_dep2 0 0) with 0 in H2 by reflexivity. rewrite Rmult_0_r in H2. apply Rabs_le_inv in H2.
  replace (1 / 4) with D; [exact H1|].
  assert (C : cov_spec (prt (spec_of ex_dep2 0)) [[0; 1]; [2; 0]]%nat (fun _ => 0) [0; 0; 0]%nat [0; 0; 0]%nat = 1 / 4).
  { unfold cov_spec, marg_spec, uses, prob, ZS, sc. unfold Sum. cbn. rewrite !Rplus_0_r, exp_0. field. }
  lra.
Qed.
