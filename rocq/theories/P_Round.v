(** * P_Round: how far rounding can move the results (C57) *)
From Coq Require Import Reals Lra Lia.
From Verif Require Import Base Ops Terms Semirings Poly Chain LinearChain SemiMarkov CkyCrf Cky DepSpec DepTree
  Batch Family Approx Grad Sample Dist Purity Degree Shape Api Query P_Real P_Count P_Gumbel Mask Round Size Machine.
Set Implicit Arguments.
Local Open Scope R_scope.

(** ** Model *)
(** distributions.py:185-190 [count] in rounded arithmetic *)
Definition f_count_of (c : call) (fmul : R -> R -> R) (fsum : list R -> R) (dead : list nat -> bool) : res (list R) :=
  match c with
  | CCfg _ _ _ _ _ => Err TypeError
  | _ => f_count c fmul fsum (fun e => if dead e then 0 else 1)
  end.
(** distributions.py:171-183, helpers.py:97-116 [marginals]: [w b p l i] is the factor with
    which the backward pass of row b goes from the sum at path p to its i-th argument, i.e.
    exp (x_i - y) as rounded by the machine. Simplification: further multiplications and
    additions of gradients are exact; a relative error of each can be counted in [w]. *)
Definition f_marginals (c : call) (w : nat -> rule) (e : list nat) : R :=
  RSum (fun b => bp (w b) [] (row_graph c b) 1 e) (seq 0 (batch_of c)).
(** sample.py:20-39, 173-193: one sample of row b, drawn with the probabilities w.
    Simplification: one draw per path rather than per recorded node (P_Sample.v). *)
Definition f_sample (c : call) (w : nat -> rule) (b : nat) : pmf (list nat -> R) := rbp (w b) [] (row_graph c b) 1.

(** ** Conditions *)
(** largest magnitude of a computed number that is not masked *)
Definition mag_of (c : call) (b : nat) (B : R) : R := B * INR (c_deg c b) + INR (c_sum c b) * ln (INR (c_wide c)) + 2.
(** error of one operation of the log semiring *)
Definition op_err (c : call) (b : nat) (u B : R) : R := step_err u (mag_of c b B) (c_wide c).
(** the row is short enough for the precision u and the potentials small against 1e5 *)
Definition fits_in (c : call) (b : nat) (u B : R) : Prop :=
  INR (c_ops c b) * op_err c b u B <= 1 /\ mag_of c b B + INR (c_ops c b) * (op_err c b u B + u * 100001) <= 50000.
(** spec: bound on the value of a row *)
Definition mmag_of (c : call) (b : nat) (B : R) : R := B * INR (c_deg c b) + 1.
(** spec: the row is within the range of the error bound *)
Definition mfits_in (c : call) (b : nat) (u B : R) : Prop :=
  INR (c_ops c b) * (u * mmag_of c b B) <= 1 /\ mmag_of c b B + INR (c_ops c b) * (u * (mmag_of c b B + 100000)) < 50000.

Lemma wide_pos c : valid c -> (1 <= c_wide c)%nat.
Proof. intro V. destruct c; cbn [c_wide valid] in *; try lia. destruct V as (? & ? & ? & _). nia. Qed.
Section Row.
  Variables (c : call) (b : nat) (u B : R).
  Hypothesis V : valid c.
  Hypothesis Rb : row_ok c b.
  Hypothesis Hu : 0 <= u <= 1.
  Hypothesis HB : 0 <= B.
  Let A := c_wide c.
  Let W := mag_of c b B.
  Lemma mag_pos : 2 <= W.
  Proof.
    unfold W, mag_of. assert (0 <= B * INR (c_deg c b)) by (apply Rmult_le_pos; auto using pos_INR).
    assert (0 <= INR (c_sum c b) * ln (INR (c_wide c))) by (apply Rmult_le_pos; [apply pos_INR|apply lnA, wide_pos, V]). lra.
  Qed.
  Lemma op_err_nonneg : 0 <= op_err c b u B.
  Proof. apply err_nonneg; auto. fold W. pose proof mag_pos. lra. Qed.
  Lemma row_fits : fits_in c b u B -> fits u B W A (row_graph c b).
  Proof.
    intros [H1 H2]. destruct (@row_size c b V Rb) as (S1 & S2 & S3 & S4 & S5). pose proof op_err_nonneg as E0. pose proof mag_pos as W2.
    apply le_INR in S1, S2. pose proof (lv_tdeg (row_graph c b)) as Lv. assert (S6 : INR (lv (row_graph c b)) <= INR (c_deg c b)) by (apply le_INR; lia).
    split; [exact S3|]. split; [|split].
    - unfold mag, W, mag_of. fold A. assert (B * INR (lv (row_graph c b)) <= B * INR (c_deg c b)) by (now apply Rmult_le_compat_l).
      assert (INR (nsum (row_graph c b)) * ln (INR A) <= INR (c_sum c b) * ln (INR A)) by (apply Rmult_le_compat_r; [apply lnA, wide_pos, V|auto]). lra.
    - eapply Rle_trans; [|exact H1]. apply Rmult_le_compat_r; auto.
    - eapply Rle_trans; [|exact H2]. apply Rplus_le_compat_l. unfold step_loss. fold (op_err c b u B). apply Rmult_le_compat_r; auto.
      assert (0 <= u * 100001) by (apply Rmult_le_pos; lra). change (step_err u W A) with (op_err c b u B). lra.
  Qed.
  Lemma row_mfits : mfits_in c b u B -> mfits u B (mmag_of c b B) (row_graph c b).
  Proof.
    intros [H1 H2]. destruct (@row_size c b V Rb) as (S1 & _ & _ & _ & S5).
    apply le_INR in S1. pose proof (lv_tdeg (row_graph c b)) as Lv. assert (S6 : INR (lv (row_graph c b)) <= INR (c_deg c b)) by (apply le_INR; lia).
    assert (X : B * INR (lv (row_graph c b)) <= B * INR (c_deg c b)) by (now apply Rmult_le_compat_l).
    assert (M : 1 <= mmag_of c b B) by (unfold mmag_of; assert (0 <= B * INR (c_deg c b)) by (apply Rmult_le_pos; auto using pos_INR); lra).
    split; [unfold mmag_of; lra|]. split.
    - eapply Rle_trans; [|exact H1]. apply Rmult_le_compat_r; auto. apply Rmult_le_pos; lra.
    - eapply Rle_lt_trans; [|exact H2]. apply Rplus_le_compat_l, Rmult_le_compat_r; auto. apply Rmult_le_pos; lra.
  Qed.
End Row.

(** ** C57 *)
Theorem C57_partition c u fadd flse phi B : valid c -> 0 <= u <= 1 -> add_acc u fadd -> lse_acc (c_wide c) u flse -> 0 <= B -> (forall e, Rabs (phi e) <= B) ->
  exists v, f_partition c fadd flse phi = Ok v /\ length v = batch_of c /\
  forall b l, row_ok c b -> fits_in c b u B -> let S := spec_of c b in Enumerates (ok S) l ->
    Rabs (nth b v 0 - ln (ZS (prt S) l phi)) <= INR (c_ops c b) * op_err c b u B.
Proof.
  intros V Hu Ha Hl HB0 HB. assert (H0 : exists v, f_partition c fadd flse phi = Ok v /\ length v = batch_of c) by apply (run_ok c (flog_ops NEG fadd flse) phi V). destruct H0 as (v & E & L). exists v. split; [exact E|]. split; [exact L|].
  intros b l Hb Hf; cbv zeta; intro He. destruct (row_family V Hb) as (F & HF).
  assert (Ev : nth b v 0 = fval fadd flse phi (ft F)).
  { assert (Q : at_row 0 (f_partition c fadd flse phi) b = frun F (flog_ops NEG fadd flse) phi) by apply (q_row (flog_ops NEG fadd flse) phi 0 HF). rewrite E in Q. etransitivity; [exact Q|]. exact (frun_leval F (flog_ops NEG fadd flse) phi). }
  rewrite Ev. revert l He. rewrite <- (ir_spec HF). cbn [ok prt fspec]. intros l He.
  rewrite <- (ZS_perm (fparts F) (row_perm HF He)).
  assert (Ft := @row_fits c b u B V Hb Hu HB0 Hf). rewrite (ir_graph HF) in Ft.
  assert (C := @log_close u fadd flse B (mag_of c b B) (c_wide c) phi Hu Ha Hl HB0 HB (wide_pos c V)).
  assert (W0 : 0 <= mag_of c b B) by (pose proof (@mag_pos c b B V HB0); lra). specialize (C W0 (ft F) (ft_wf F) Ft).
  pose proof (pure_value F phi) as P. unfold close in C. fold (pval phi (ft F)) in P. destruct (pval phi (ft F)) as [q|].
  - cbn [xexp] in P. rewrite <- P, ln_exp. eapply Rle_trans; [apply C|]. apply Rmult_le_compat_r; [apply (@op_err_nonneg c b u B V Hu HB0)|].
    apply le_INR. rewrite <- (ir_graph HF). apply (@row_size c b V Hb).
  - exfalso. cbn [xexp] in P. pose proof (ZS_pos (fparts F) phi (ir_nonempty HF)). lra.
Qed.
Print Assumptions C57_partition.

Lemma row_pbest c b F phi : is_row c b F -> forall l, Enumerates (fok F) l -> exists q, pbest phi (ft F) = Some q /\ is_max q (map (sc (fparts F) phi) l).
Proof.
  intros HF l He. pose proof (@pbest_value phi NEG (ft F) (ft_wf F)) as P. destruct (pbest phi (ft F)) as [q|].
  - exists q. split; auto. destruct P as [(m & Hm & Hp & <-) P2]. split.
    + destruct (pure_is_structure F m Hm Hp) as (s & Hs & HP). rewrite (perm_score F phi NEG m s Hp HP). apply in_map. apply He, (fenum F), Hs.
    + intros x Hx. apply in_map_iff in Hx as (s & <- & Hs). destruct (structure_is_pure F s) as (m' & Hm' & Hp' & HP'); [apply (fenum F), He, Hs|].
      rewrite <- (perm_score F phi NEG m' s Hp' HP'). auto.
  - exfalso. destruct (flist F) as [|s k] eqn:Ef; [now apply (ir_nonempty HF)|].
    destruct (structure_is_pure F s) as (m' & Hm' & Hp' & _); [rewrite Ef; now left|]. rewrite (P m' Hm') in Hp'. discriminate.
Qed.
Theorem C57_max c u fadd phi B : valid c -> 0 <= u <= 1 -> add_acc u fadd -> 0 <= B -> (forall e, Rabs (phi e) <= B) ->
  exists v, f_max c fadd phi = Ok v /\ length v = batch_of c /\
  forall b l, row_ok c b -> mfits_in c b u B -> let S := spec_of c b in Enumerates (ok S) l ->
    exists best, is_max best (map (sc (prt S) phi) l) /\ Rabs (nth b v 0 - best) <= INR (c_ops c b) * (u * mmag_of c b B).
Proof.
  intros V Hu Ha HB0 HB. assert (H0 : exists v, f_max c fadd phi = Ok v /\ length v = batch_of c) by apply (run_ok c (fmax_ops NEG fadd) phi V). destruct H0 as (v & E & L). exists v. split; [exact E|]. split; [exact L|].
  intros b l Hb Hf; cbv zeta; intro He. destruct (row_family V Hb) as (F & HF).
  assert (Ev : nth b v 0 = mval fadd phi (ft F)).
  { assert (Q : at_row 0 (f_max c fadd phi) b = frun F (fmax_ops NEG fadd) phi) by apply (q_row (fmax_ops NEG fadd) phi 0 HF). rewrite E in Q. etransitivity; [exact Q|]. exact (frun_leval F (fmax_ops NEG fadd) phi). }
  rewrite Ev. revert l He. rewrite <- (ir_spec HF). cbn [ok prt fspec st]. intros l He.
  destruct (row_pbest phi HF He) as (q & Eq & Hq). exists q. split; auto.
  assert (Ft := @row_mfits c b u B V Hb Hu HB0 Hf). rewrite (ir_graph HF) in Ft.
  assert (M : 0 <= mmag_of c b B) by (unfold mmag_of; assert (0 <= B * INR (c_deg c b)) by (apply Rmult_le_pos; auto using pos_INR); lra).
  pose proof (@max_close u fadd B (mmag_of c b B) phi Hu Ha HB0 HB M (ft F) (ft_wf F) Ft) as C. unfold mclose in C. rewrite Eq in C.
  eapply Rle_trans; [apply C|]. apply Rmult_le_compat_r; [apply Rmult_le_pos; lra|].
  apply le_INR. rewrite <- (ir_graph HF). apply (@row_size c b V Hb).
Qed.
Print Assumptions C57_max.

Lemma argmax_row_in c b F o e : valid c -> is_row c b F -> (b < batch_of c)%nat -> row_of c e = b ->
  (forall b, (b < batch_of c)%nat -> inrange (o b) [] (row_graph c b)) -> q_argmax c o e = d_argmax F (o b) e.
Proof.
  intros V H Hb He Ho. unfold q_argmax. rewrite (@RSum_only _ _ _ b).
  - unfold d_argmax. now rewrite (ir_graph H).
  - apply seq_NoDup.
  - apply in_seq. lia.
  - intros b' Hb' Hne. apply in_seq in Hb'. assert (Hr : inrange (o b') [] (row_graph c b')) by (apply Ho; lia).
    rewrite bp_pick by exact Hr. rewrite cnt_names; [ring|].
    intro Hin. apply Hne. rewrite <- He. symmetry. eapply (@graph_inrow c b' V); [lia|apply picked_in; exact Hr|exact Hin].
Qed.
(** the indices that torch.max returns for the rounded numbers still select one structure,
    whose score is close to the best *)
Theorem C57_argmax c u fadd phi B o : valid c -> 0 <= u <= 1 -> add_acc u fadd -> 0 <= B -> (forall e, Rabs (phi e) <= B) ->
  (forall b, (b < batch_of c)%nat -> fargmax_ok fadd phi (o b) [] (row_graph c b)) ->
  forall b, row_ok c b -> mfits_in c b u B -> let S := spec_of c b in
    exists s, ok S s /\ (forall e, row_of c e = b -> q_argmax c o e = uses (prt S) e s) /\
      forall s', ok S s' -> sc (prt S) phi s' <= sc (prt S) phi s + 2 * (INR (c_ops c b) * (u * mmag_of c b B)).
Proof.
  intros V Hu Ha HB0 HB Ho b Hb Hf. cbv zeta. destruct (row_family V Hb) as (F & HF).
  assert (Ha' : forall e, row_of c e = b -> q_argmax c o e = d_argmax F (o b) e).
  { intros e He. apply argmax_row_in; auto; [apply Hb|]. intros b' Hb'. eapply fargmax_inrange. now apply Ho. }
  specialize (Ho b (proj1 Hb)). rewrite (ir_graph HF) in Ho.
  assert (Ft := @row_mfits c b u B V Hb Hu HB0 Hf). rewrite (ir_graph HF) in Ft.
  assert (M : 0 <= mmag_of c b B) by (unfold mmag_of; assert (0 <= B * INR (c_deg c b)) by (apply Rmult_le_pos; auto using pos_INR); lra).
  assert (Sz : INR (nops (ft F)) * (u * mmag_of c b B) <= INR (c_ops c b) * (u * mmag_of c b B)).
  { apply Rmult_le_compat_r; [apply Rmult_le_pos; lra|]. apply le_INR. rewrite <- (ir_graph HF). apply (@row_size c b V Hb). }
  revert Ha'. rewrite <- (ir_spec HF). cbn [ok prt fspec st]. intro Ha'.
  destruct (row_pbest phi HF (fenum F)) as (q & Eq & Hq).
  pose proof (@max_close u fadd B (mmag_of c b B) phi Hu Ha HB0 HB M (ft F) (ft_wf F) Ft) as C. unfold mclose in C. rewrite Eq in C. destruct C as [C _].
  destruct (@max_picked u fadd B (mmag_of c b B) phi Hu Ha HB0 HB M (ft F) (ft_wf F) Ft (o b) [] Ho q Eq) as [P1 P2].
  assert (Hr := fargmax_inrange _ _ _ _ _ Ho). destruct (pure_is_structure F _ (picked_in _ _ _ Hr) P1) as (s & Hs & HP).
  exists s. split; [now apply (fenum F)|]. split.
  - intros e He. rewrite (Ha' e He). unfold d_argmax. rewrite bp_pick by auto. rewrite (perm_cnt F e _ s P1 HP). ring.
  - intros s' Hs'. rewrite (perm_score F phi NEG _ s P1 HP) in P2. destruct Hq as [_ Hq].
    specialize (Hq (sc (fparts F) phi s')). assert (sc (fparts F) phi s' <= q) by (apply Hq, in_map, (fenum F), Hs').
    apply abs2 in C, P2. lra.
Qed.
Print Assumptions C57_argmax.

Theorem C57_count c u fmul fsum dead : valid c -> (forall a b d e f, c <> CCfg a b d e f) -> 0 <= u <= 1 -> mul_acc u fmul -> sum_acc (c_wide c) u fsum ->
  exists v, f_count_of c fmul fsum dead = Ok v /\ length v = batch_of c /\
  forall b l, row_ok c b -> let S := spec_of c b in Enumerates (ok S) l ->
    let n := INR (length (filter (fun s => forallb (fun e => negb (dead e)) (prt S s)) l)) in
    (1 - u) ^ c_ops c b * n <= nth b v 0 <= (1 + u) ^ c_ops c b * n.
Proof.
  intros V Hc Hu Hm Hs. set (phi := fun e => if dead e then 0 else 1).
  assert (E0 : f_count_of c fmul fsum dead = f_count c fmul fsum phi) by (destruct c; auto; exfalso; eapply Hc; reflexivity). rewrite E0.
  assert (H0 : exists v, f_count c fmul fsum phi = Ok v /\ length v = batch_of c) by apply (run_ok c (fstd_ops fmul fsum) phi V). destruct H0 as (v & E & L). exists v. split; [exact E|]. split; [exact L|].
  intros b l Hb; cbv zeta; intro He. destruct (@C40_count c dead V Hc) as (v' & E' & _ & Hv'). specialize (Hv' b l Hb He). cbv zeta in Hv'. rewrite <- Hv'.
  destruct (row_family V Hb) as (F & HF).
  assert (Ev : nth b v 0 = leval (fstd_ops fmul fsum) phi (ft F)).
  { assert (Q : at_row 0 (f_count c fmul fsum phi) b = frun F (fstd_ops fmul fsum) phi) by apply (q_row (fstd_ops fmul fsum) phi 0 HF). rewrite E in Q. etransitivity; [exact Q|]. exact (frun_leval F (fstd_ops fmul fsum) phi). }
  assert (Ev' : nth b v' 0 = leval std_ops phi (ft F)).
  { pose proof (q_row std_ops phi 0 HF) as Q. assert (Q' : run c std_ops phi = Ok v') by (destruct c; auto; exfalso; eapply Hc; reflexivity).
    rewrite Q' in Q. cbn [at_row] in Q. etransitivity; [exact Q|]. exact (frun_leval F std_ops phi). }
  rewrite Ev, Ev'.
  assert (Hphi : forall e, 0 <= phi e) by (intro e; unfold phi; destruct (dead e); lra).
  assert (Wd : (wide (ft F) <= c_wide c)%nat) by (rewrite <- (ir_graph HF); apply (@row_size c b V Hb)).
  destruct (@std_close (c_wide c) u fmul fsum Hu Hm Hs phi Hphi (ft F) (ft_wf F) Wd) as [P0 [P1 P2]].
  assert (Sz : (nops (ft F) <= c_ops c b)%nat) by (rewrite <- (ir_graph HF); apply (@row_size c b V Hb)).
  destruct (@pow_le1 u Hu _ _ Sz) as (Q1 & Q2 & _).
  split; (eapply Rle_trans; [|exact P1] || (eapply Rle_trans; [exact P2|])); apply Rmult_le_compat_r; auto.
Qed.
Print Assumptions C57_count.
(** the calls that raise are those of C40, with the same exception *)
Theorem C57_count_errors c fmul fsum dead e : valid c -> (f_count_of c fmul fsum dead = Err e <-> q_count c dead = Err e).
Proof.
  intro V. set (p := fun e => if dead e then 0 else 1).
  assert (H : exists v, f_count c fmul fsum p = Ok v) by (destruct (run_ok c (fstd_ops fmul fsum) p V) as (v & E & _); exists v; exact E).
  assert (H' : exists v, run c std_ops p = Ok v) by (destruct (run_ok c std_ops p V) as (v & E & _); exists v; exact E).
  destruct H as (v & E). destruct H' as (w & E').
  assert (Hc : (f_count_of c fmul fsum dead = f_count c fmul fsum p /\ q_count c dead = run c std_ops p) \/
    (f_count_of c fmul fsum dead = Err TypeError /\ q_count c dead = Err TypeError)) by (destruct c; auto).
  destruct Hc as [[-> H2]|[-> ->]]; [|tauto]. rewrite E. split; [discriminate|]. intro H3.
  pose proof (eq_trans (eq_sym E') (eq_trans (eq_sym H2) H3)). discriminate.
Qed.
Print Assumptions C57_count_errors.

(** bound on the magnitude of masked cells *)
Definition deep_of (c : call) (b : nat) : R := 200000 * INR (c_deg c b) + 50000.
Lemma row_deep c b u B : valid c -> row_ok c b -> 0 <= u <= 1 -> 0 <= B -> fits_in c b u B ->
  deep u (deep_of c b) (row_graph c b) /\ mag_of c b B <= deep_of c b.
Proof.
  intros V Hb Hu HB [H1 H2]. pose proof (@mag_pos c b B V HB) as W2. pose proof (@op_err_nonneg c b u B V Hu HB) as E0.
  destruct (@row_size c b V Hb) as (S1 & _ & _ & _ & S5). apply le_INR in S1, S5.
  pose proof (pos_INR (c_ops c b)) as P0. pose proof (pos_INR (c_deg c b)) as D0.
  assert (T0 := tail_nonneg (mag_of c b B) (c_wide c)).
  assert (X : INR (c_ops c b) * u <= / 2).
  { assert (INR (c_ops c b) * (u * mag_of c b B) <= 1).
    { eapply Rle_trans; [|exact H1]. apply Rmult_le_compat_l; auto. unfold op_err, step_err. lra. }
    assert (INR (c_ops c b) * u * 2 <= INR (c_ops c b) * u * mag_of c b B) by (apply Rmult_le_compat_l; [apply Rmult_le_pos; lra|lra]). lra. }
  split.
  - unfold deep, deep_of. assert (INR (nops (row_graph c b)) * (u * (1 + (200000 * INR (c_deg c b) + 50000))) <= / 2 * (1 + (200000 * INR (c_deg c b) + 50000))).
    { rewrite <- Rmult_assoc. apply Rmult_le_compat_r; [lra|]. eapply Rle_trans; [|exact X]. apply Rmult_le_compat_r; lra. }
    lra.
  - unfold deep_of. assert (0 <= INR (c_ops c b) * (op_err c b u B + u * 100001)) by (apply Rmult_le_pos; [auto|assert (0 <= u * 100001) by (apply Rmult_le_pos; lra); lra]). lra.
Qed.
(** relative and absolute error of a marginal *)
Definition marg_rel (c : call) (b : nat) (u B v : R) : R := INR (c_nest c b) * lambda u (mag_of c b B) (c_wide c) v (c_ops c b).
(** spec: bound on the absolute error of a marginal *)
Definition marg_abs (c : call) (b : nat) (u B v s : R) : R :=
  INR (c_deg c b) * (INR (c_nest c b) * rho (mag_of c b B) (c_wide c) (deep_of c b) v s * exp (INR (c_nest c b) * kappa u (c_wide c) (deep_of c b) v s)).

Lemma row_pm F phi e l : flist F <> [] -> Enumerates (fok F) l ->
  exists q, pval phi (ft F) = Some q /\ exp q = ZS (fparts F) l phi /\ pm phi e (ft F) * exp (- q) = marg_spec (fparts F) l phi e.
Proof.
  intros Hn He. assert (HP : Permutation (flist F) l) by (eapply Enumerates_perm; [apply (fenum F)|exact He]).
  pose proof (pure_value F phi) as P. fold (pval phi (ft F)) in P. pose proof (ZS_pos (fparts F) phi Hn) as Z.
  destruct (pval phi (ft F)) as [q|]; [|cbn [xexp] in P; lra]. exists q. split; auto. cbn [xexp] in P.
  rewrite <- (ZS_perm (fparts F) HP), <- (marg_perm (fparts F) HP). split; [exact P|].
  unfold marg_spec. rewrite avg_prob. unfold avg. rewrite exp_Ropp, P. unfold Rdiv. f_equal. unfold pm.
  etransitivity; [|apply (@pure_transfer F R_csr (fun p => exp (RSum phi p) * INR (count_occ (list_eq_dec Nat.eq_dec) p e)))].
  - apply (Sum_ext_in R_csr). intros m Hm. apply filter_In in Hm as [_ Hm]. rewrite (score_leaves phi NEG m Hm), cnt_pure by auto. reflexivity.
  - intros p p' Hp. f_equal; [f_equal; apply (Sum_perm R_csr), Hp|f_equal; now apply Permutation_count_occ].
Qed.
Theorem C57_marginals c u v s fadd flse fy phi B w : valid c -> 0 <= u <= 1 -> 0 <= v -> 0 <= s -> add_acc u fadd -> lse_acc (c_wide c) u flse -> lse_acc (c_wide c) u fy ->
  0 <= B <= 100000 -> (forall e, Rabs (phi e) <= B) -> (forall b, w_acc fadd flse (c_wide c) phi v s fy (w b)) ->
  forall b l e, row_ok c b -> fits_in c b u B -> row_of c e = b -> let S := spec_of c b in Enumerates (ok S) l ->
    exp (- marg_rel c b u B v) * marg_spec (prt S) l phi e - marg_abs c b u B v s <= f_marginals c w e
      <= exp (marg_rel c b u B v) * marg_spec (prt S) l phi e + marg_abs c b u B v s.
Proof.
  intros V Hu Hv Hs Ha Hl Hfy HB0 HB Hw b l e Hb Hf Hre; cbv zeta; intro He. destruct (row_family V Hb) as (F & HF).
  assert (Em : f_marginals c w e = bp (w b) [] (ft F) 1 e).
  { unfold f_marginals. rewrite (@RSum_only _ _ _ b).
    - now rewrite (ir_graph HF).
    - apply seq_NoDup.
    - apply in_seq. pose proof (proj1 Hb). lia.
    - intros b' Hb' Hne. apply in_seq in Hb'. apply (@bp_absent _ (fun e => row_of c e = b')); [apply graph_wf; auto; lia|apply graph_inrow; auto; lia|congruence]. }
  rewrite Em. revert l He. rewrite <- (ir_spec HF). cbn [ok prt fspec st]. intros l He.
  destruct (@row_pm F phi e l (ir_nonempty HF) He) as (q & Eq & Zq & Mq).
  destruct HB0 as [HB0 HB1].
  assert (Ft := @row_fits c b u B V Hb Hu HB0 Hf). destruct (@row_deep c b u B V Hb Hu HB0 Hf) as [Dp HVW].
  destruct (@row_size c b V Hb) as (S1 & S2 & S3 & S4 & S5). rewrite (ir_graph HF) in *.
  assert (W2 := @mag_pos c b B V HB0). assert (W0 : 0 <= mag_of c b B) by lra.
  destruct (@bp_close u fadd flse B (mag_of c b B) (c_wide c) phi Hu Ha Hl HB0 HB (wide_pos c V) W0 (deep_of c b) HB1 HVW v s fy (w b) Hv Hs Hfy (Hw b) (c_ops c b)
    (ft F) (ft_wf F) Ft Dp S1 q Eq [] e) as [L1 L2]. rewrite Mq in L1, L2.
  assert (M0 : 0 <= marg_spec (fparts F) l phi e) by (rewrite <- Mq; apply Rmult_le_pos; [apply pm_nonneg|apply Rlt_le, exp_pos]).
  apply le_INR in S4, S5.
  assert (Lam : 0 <= lambda u (mag_of c b B) (c_wide c) v (c_ops c b)) by (apply lambda_nonneg; auto).
  assert (Kap : 0 <= kappa u (c_wide c) (deep_of c b) v s) by (apply kappa_nonneg with (W := mag_of c b B); auto).
  assert (Rh : 0 <= rho (mag_of c b B) (c_wide c) (deep_of c b) v s) by (apply rho_nonneg; auto).
  assert (G : INR (hs (ft F)) * lambda u (mag_of c b B) (c_wide c) v (c_ops c b) <= marg_rel c b u B v) by (apply Rmult_le_compat_r; auto).
  assert (Gl : gleak u (mag_of c b B) (c_wide c) (deep_of c b) v s (ft F) <= marg_abs c b u B v s).
  { unfold gleak, marg_abs. assert (X0 : forall x, 0 <= exp x) by (intro; apply Rlt_le, exp_pos).
    apply Rmult_le_compat; auto using pos_INR; [apply Rmult_le_pos; auto; apply Rmult_le_pos; auto using pos_INR|].
    apply Rmult_le_compat; auto; [apply Rmult_le_pos; auto using pos_INR|apply Rmult_le_compat_r; auto|]. apply exp_le, Rmult_le_compat_r; auto. }
  split.
  - eapply Rle_trans; [|exact L1]. unfold Rminus. apply Rplus_le_compat; [|lra]. apply Rmult_le_compat_r; auto. apply exp_le. lra.
  - eapply Rle_trans; [exact L2|]. apply Rplus_le_compat; [|exact Gl]. apply Rmult_le_compat_r; auto. now apply exp_le.
Qed.
Print Assumptions C57_marginals.

(** ** Sampling *)
Lemma dist_nonneg A (w : rule) t : (forall p l i t, (length l <= A)%nat -> nth_error l i = Some t -> 0 <= w p l i) -> (wide t <= A)%nat -> forall p x, In x (dist w p t) -> 0 <= fst x.
Proof.
  intro Hw. induction t as [e|e| | |l IH|a b IHa IHb] using term_ind'; intros Hn p x Hx; cbn [dist wide] in *.
  1-4: destruct Hx as [<-|[]]; cbn; lra.
  - apply in_concat in Hx as (k & Hk & Hx). apply in_mapi in Hk as (j & t & Ht & Ek). rewrite Ek in Hx. apply in_map_iff in Hx as (y & <- & Hy). cbn [fst].
    rewrite Forall_forall in IH. assert (Hin := nth_error_In _ _ Ht). pose proof (lmax_in wide l t Hin).
    apply Rmult_le_pos; [eapply Hw; [lia|exact Ht]|]. eapply IH; [exact Hin|lia|exact Hy].
  - apply in_flat_map in Hx as (y & Hy & Hx). apply in_map_iff in Hx as (z & <- & Hz). cbn [fst].
    apply Rmult_le_pos; [eapply IHa; [lia|exact Hy]|eapply IHb; [lia|exact Hz]].
Qed.
(** spec: bound on the error of the probability of a sample *)
Definition sample_err (c : call) (b : nat) (u B v : R) : R := INR (c_ops c b) * (theta u (mag_of c b B) v + op_err c b u B).
(** the law of a sample differs from the distribution of the structures by at most
    [sample_err] on every event *)
Theorem C57_sampling c u v fadd flse fy phi B w : valid c -> 0 <= u <= 1 -> 0 <= v -> add_acc u fadd -> lse_acc (c_wide c) u flse -> lse_acc (c_wide c) u fy ->
  0 <= B -> (forall e, Rabs (phi e) <= B) -> (forall b, normal (w b)) -> (forall b, w_acc fadd flse (c_wide c) phi v 0 fy (w b)) ->
  forall b l h, row_ok c b -> fits_in c b u B -> ext_fun h -> (forall x, 0 <= h x <= 1) -> let S := spec_of c b in Enumerates (ok S) l ->
    Rabs (PE (f_sample c w b) h - RSum (fun s => prob (prt S) l phi s * h (fun e => uses (prt S) e s)) l) <= sample_err c b u B v.
Proof.
  intros V Hu Hv Ha Hl Hfy HB0 HB Hn Hw b l h Hb Hf Hext Hh; cbv zeta; intro He. destruct (row_family V Hb) as (F & HF).
  unfold f_sample. rewrite (ir_graph HF), rbp_law by (auto; apply ft_wf).
  revert l He. rewrite <- (ir_spec HF). cbn [ok prt fspec st]. intros l He.
  destruct (@row_pm F phi [] l (ir_nonempty HF) He) as (q & Eq & Zq & _).
  assert (Ft := @row_fits c b u B V Hb Hu HB0 Hf). destruct (@row_size c b V Hb) as (S1 & _). rewrite (ir_graph HF) in *.
  assert (W2 := @mag_pos c b B V HB0). assert (W0 : 0 <= mag_of c b B) by lra. assert (E0 := @op_err_nonneg c b u B V Hu HB0).
  assert (C := @log_close u fadd flse B (mag_of c b B) (c_wide c) phi Hu Ha Hl HB0 HB (wide_pos c V) W0 (ft F) (ft_wf F) Ft).
  unfold close in C. rewrite Eq in C. destruct C as [C _]. fold (op_err c b u B) in C. apply abs2 in C.
  pose proof (@dist_pure u fadd flse B (mag_of c b B) (c_wide c) phi Hu Ha Hl HB0 HB (wide_pos c V) W0 v 0 fy (w b) Hv Hfy (Hw b) (ft F) eq_refl (ft_wf F) Ft []) as D.
  assert (Th : 0 <= theta u (mag_of c b B) v) by (apply theta_nonneg; auto).
  set (eta := sample_err c b u B v).
  assert (Heta : INR (nops (ft F)) * theta u (mag_of c b B) v + INR (nops (ft F)) * op_err c b u B <= eta).
  { unfold eta, sample_err. rewrite <- Rmult_plus_distr_l. apply Rmult_le_compat_r; [lra|]. now apply le_INR. }
  assert (Eta0 : 0 <= eta).
  { eapply Rle_trans; [|exact Heta]. apply Rplus_le_le_0_compat; apply Rmult_le_pos; auto using pos_INR. }
  assert (HP : Permutation (flist F) l) by (eapply Enumerates_perm; [apply (fenum F)|exact He]).
  assert (Dn : forall x, In x (dist (w b) [] (ft F)) -> 0 <= fst x).
  { apply (@dist_nonneg (c_wide c)); [|apply Ft]. intros p l0 i t Hn0 Ht. exact (@w_pos fadd flse (c_wide c) phi v 0 fy (w b) (Hw b) p l0 i t Hn0 Ht). }
  (* lower bound for every test function *)
  assert (Low : forall g : gradv -> R, ext_fun g -> (forall x, 0 <= g x) ->
     exp (- eta) * RSum (fun s => prob (fparts F) l phi s * g (fun e => uses (fparts F) e s)) l <= RSum (fun x => fst x * g (fun e => 1 * cnt e (snd x))) (dist (w b) [] (ft F))).
  { intros g Hg G0.
    apply Rle_trans with (RSum (fun x => if pure (snd x) then exp (- eta) * (exp (score phi NEG (snd x) - q) * g (fun e => cnt e (snd x))) else 0) (dist (w b) [] (ft F))).
    - apply Req_le. transitivity (RSum (fun m => if pure m then exp (- eta) * (exp (score phi NEG m - q) * g (fun e => cnt e m)) else 0) (expand (ft F))).
      2:{ rewrite <- (dist_snd (w b) (ft F) []). apply RSum_map. }
      transitivity (RSum (fun m => exp (- eta) * (exp (score phi NEG m - q) * g (fun e => cnt e m))) (filter pure (expand (ft F)))).
      2:{ clear. induction (expand (ft F)) as [|m k IH]; [reflexivity|]. cbn [filter]. rewrite (RSum_cons _ m k). destruct (pure m).
          - rewrite RSum_cons. f_equal. exact IH.
          - rewrite Rplus_0_l. exact IH. }
      rewrite RSum_scal. f_equal. rewrite avg_prob. unfold avg. rewrite <- Zq. unfold Rdiv. rewrite <- exp_Ropp, <- RSum_scar.
      etransitivity; [symmetry; apply (Sum_perm R_csr), HP|]. symmetry.
      etransitivity; [|apply (@pure_transfer F R_csr (fun p => exp (RSum phi p) * g (fun e => INR (count_occ (list_eq_dec Nat.eq_dec) p e)) * exp (- q)))].
      + apply (Sum_ext_in R_csr). intros m Hm. apply filter_In in Hm as [_ Hm]. rewrite (score_leaves phi NEG m Hm). unfold Rminus. rewrite exp_plus.
        rewrite (Hg (fun e => cnt e m) (fun e => INR (count_occ (list_eq_dec Nat.eq_dec) (leaves m) e))); [ring|]. intro e. now apply cnt_pure.
      + intros p p' Hp. f_equal. f_equal; [f_equal; apply (Sum_perm R_csr), Hp|]. apply Hg. intro e. f_equal. now apply Permutation_count_occ.
    - apply RSum_le. intros [om m] Hm. cbn [fst snd]. rewrite (Hg (fun e => 1 * cnt e m) (fun e => cnt e m)) by (intro; ring).
      destruct (pure m) eqn:Ep; [|apply Rmult_le_pos; [exact (Dn _ Hm)|apply G0]].
      rewrite <- Rmult_assoc. apply Rmult_le_compat_r; [apply G0|]. destruct (D om m Hm Ep) as [D1 _]. eapply Rle_trans; [|exact D1].
      rewrite <- exp_plus. apply exp_le. lra. }
  assert (Tot : RSum (prob (fparts F) l phi) l = 1).
  { apply prob_sum. intros ->. apply Permutation_sym, Permutation_nil in HP. now apply (ir_nonempty HF). }
  assert (L1 := Low h Hext (fun x => proj1 (Hh x))).
  assert (X1 : ext_fun (fun x : gradv => 1 - h x)) by (intros x y Hxy; now rewrite (Hext x y Hxy)).
  assert (X2 : forall x, 0 <= 1 - h x) by (intro x; specialize (Hh x); lra).
  assert (L2 := Low (fun x => 1 - h x) X1 X2).
  set (P := RSum (fun s => prob (fparts F) l phi s * h (fun e => uses (fparts F) e s)) l) in *.
  set (Q := RSum (fun x => fst x * h (fun e => 1 * cnt e (snd x))) (dist (w b) [] (ft F))) in *.
  assert (E1 : RSum (fun s => prob (fparts F) l phi s * (1 - h (fun e => uses (fparts F) e s))) l = 1 - P).
  { transitivity (RSum (prob (fparts F) l phi) l - P); [|now rewrite Tot]. unfold P. rewrite <- RSum_sub. apply (Sum_ext R_csr). intro s. cbv beta. ring. }
  assert (E2 : RSum (fun x => fst x * (1 - h (fun e => 1 * cnt e (snd x)))) (dist (w b) [] (ft F)) = 1 - Q).
  { transitivity (RSum fst (dist (w b) [] (ft F)) - Q); [|now rewrite (@dist_total (w b) (ft F) (Hn b) (ft_wf F) [])]. unfold Q. rewrite <- RSum_sub. apply (Sum_ext R_csr). intros [om m]. cbn [fst snd]. rewrite Rmult_minus_distr_l, Rmult_1_r. reflexivity. }
  cbv beta in L2. rewrite E1, E2 in L2.
  assert (P01 : 0 <= P <= 1).
  { assert (Pn : forall s, 0 <= prob (fparts F) l phi s).
    { intro s. unfold prob. apply Rmult_le_pos; [apply Rlt_le, exp_pos|]. apply Rlt_le, Rinv_0_lt_compat. rewrite <- Zq. apply exp_pos. }
    split.
    - apply RSum_nonneg. intros s _. apply Rmult_le_pos; auto. apply Hh.
    - rewrite <- Tot. apply RSum_le. intros s _. rewrite <- (Rmult_1_r (prob (fparts F) l phi s)) at 2. apply Rmult_le_compat_l; auto. apply Hh. }
  assert (X : 1 - eta <= exp (- eta) <= 1) by (split; [pose proof (exp_ineq1_le (- eta)); lra|rewrite <- exp_0; apply exp_le; lra]).
  set (x := exp (- eta)) in *.
  assert ((1 - x) * P <= 1 - x) by (rewrite <- (Rmult_1_r (1 - x)) at 2; apply Rmult_le_compat_l; lra).
  assert ((1 - x) * (1 - P) <= 1 - x) by (rewrite <- (Rmult_1_r (1 - x)) at 2; apply Rmult_le_compat_l; lra).
  apply Rabs_le. lra.
Qed.
Print Assumptions C57_sampling.

(** ** The same with torch's logsumexp and its backward pass *)
(** error of one operation when logsumexp subtracts the maximum and adds n terms *)
Definition lse_err (c : call) (u : R) : R := 17 * INR (c_wide c) * u.
Lemma lse_err_range c u : valid c -> 0 <= u -> INR (c_wide c) * u <= / 24 -> u <= lse_err c u <= 1.
Proof.
  intros V Hu H. unfold lse_err. assert (1 <= INR (c_wide c)) by (change 1 with (INR 1); apply le_INR, wide_pos, V).
  assert (1 * u <= INR (c_wide c) * u) by (apply Rmult_le_compat_r; lra). lra.
Qed.
Lemma add_acc_le u u' fadd : u <= u' -> add_acc u fadd -> add_acc u' fadd.
Proof. intros H Ha x y. eapply Rle_trans; [apply Ha|]. apply Rmult_le_compat_r; [apply Rabs_pos|exact H]. Qed.
Lemma mul_acc_le u u' fmul : u <= u' -> mul_acc u fmul -> mul_acc u' fmul.
Proof.
  intros H Ha x y Hx Hy. destruct (Ha x y Hx Hy) as [H1 H2]. assert (u * (x * y) <= u' * (x * y)) by (apply Rmult_le_compat_r; [now apply Rmult_le_pos|exact H]). lra.
Qed.
Section Torch.
  Variables (c : call) (u s B : R) (rnd fexp fln : R -> R) (phi : list nat -> R).
  Hypothesis V : valid c.
  Hypothesis Hu : 0 <= u.
  Hypothesis Hs : 0 <= s <= u.
  Hypothesis Hrnd : rnd_acc u rnd.
  Hypothesis Hexp : exp_acc u s fexp.
  Hypothesis Hln : ln_acc u fln.
  Hypothesis HA : INR (c_wide c) * u <= / 24.
  Hypothesis HB : 0 <= B <= 100000.
  Hypothesis Hphi : forall e, Rabs (phi e) <= B.
  Let U := lse_err c u.
  Let A1 := wide_pos c V.
  Let Ur : u <= U <= 1.
  Proof. apply lse_err_range; auto. Qed.
  Let N1 : 1 <= INR (c_wide c).
  Proof. change 1 with (INR 1). apply le_INR, A1. Qed.
  Let u24 : u <= / 24.
  Proof. assert (1 * u <= INR (c_wide c) * u) by (apply Rmult_le_compat_r; lra). lra. Qed.
  Let Hlse : lse_acc (c_wide c) U (m_lse rnd fexp fln).
  Proof. apply (@m_lse_acc u s rnd fexp fln); auto; lra. Qed.
  Let Hadd : add_acc U (m_add rnd).
  Proof. apply (@add_acc_le u); [apply Ur|]. now apply m_add_acc. Qed.

  Theorem C57_torch_partition : exists v, f_partition c (m_add rnd) (m_lse rnd fexp fln) phi = Ok v /\ length v = batch_of c /\
    forall b l, row_ok c b -> fits_in c b U B -> let S := spec_of c b in Enumerates (ok S) l ->
      Rabs (nth b v 0 - ln (ZS (prt S) l phi)) <= INR (c_ops c b) * op_err c b U B.
  Proof. apply C57_partition; auto; lra. Qed.
  Theorem C57_torch_marginals : forall b l e, row_ok c b -> fits_in c b U B -> row_of c e = b -> let S := spec_of c b in Enumerates (ok S) l ->
    let m := f_marginals c (fun _ => m_rule rnd fexp fln phi) e in
    exp (- marg_rel c b U B (2 * u)) * marg_spec (prt S) l phi e - marg_abs c b U B (2 * u) s <= m
      <= exp (marg_rel c b U B (2 * u)) * marg_spec (prt S) l phi e + marg_abs c b U B (2 * u) s.
  Proof.
    apply (@C57_marginals c U (2 * u) s (m_add rnd) (m_lse rnd fexp fln) (m_lse rnd fexp fln)); auto; try lra.
    intros _. apply (@m_rule_acc u s rnd fexp fln); auto; lra.
  Qed.
  Theorem C57_torch_count dead : (forall a b d e f, c <> CCfg a b d e f) ->
    exists v, f_count_of c (m_mul rnd) (m_sum rnd) dead = Ok v /\ length v = batch_of c /\
    forall b l, row_ok c b -> let S := spec_of c b in Enumerates (ok S) l ->
      let n := INR (length (filter (fun s => forallb (fun e => negb (dead e)) (prt S s)) l)) in
      let a := 2 * INR (c_wide c) * u in (1 - a) ^ c_ops c b * n <= nth b v 0 <= (1 + a) ^ c_ops c b * n.
  Proof.
    intro Hc. assert (u <= 2 * INR (c_wide c) * u) by (assert (1 * u <= INR (c_wide c) * u) by (apply Rmult_le_compat_r; lra); lra).
    apply C57_count; auto; [lra| |].
    - apply (@mul_acc_le u); [lra|]. apply m_mul_acc; auto.
    - apply m_sum_acc; auto; lra.
  Qed.
End Torch.
Print Assumptions C57_torch_partition.
Print Assumptions C57_torch_marginals.
Print Assumptions C57_torch_count.
