(** * P_Float: the contracts of Round.v and Machine.v hold for binary32 (examples of C57) *)
From Coq Require Import Reals Lra Lia ZArith.
From Flocq Require Import Core Relative.
From Verif Require Import Base Ops Terms Semirings Batch Family Approx Grad Sample Dist Api Query P_Real P_Gumbel Mask Round Size Machine P_Round.
Set Implicit Arguments.
Local Open Scope R_scope.

(** round to nearest even with 24 bits (IEEE binary32; no overflow) *)
Definition rnd32 (x : R) : R := round radix2 (FLX_exp 24) ZnearestE x.
(** correctly rounded exponential with gradual underflow, and logarithm *)
Definition exp32 (x : R) : R := round radix2 (FLT_exp (-149) 24) ZnearestE (exp x).
(** single precision logarithm (torch.log, not code of the repository) *)
Definition ln32 (x : R) : R := rnd32 (ln x).
(** spec: unit roundoff of single precision *)
Definition u32 : R := / 2 * bpow radix2 (-23).
(** spec: half of the smallest single precision number *)
Definition s32 : R := / 2 * bpow radix2 (-149).

Lemma u32_value : u32 = / 16777216.
Proof. unfold u32. simpl. lra. Qed.
Lemma s32_range : 0 <= s32 <= u32.
Proof.
  unfold s32, u32. pose proof (bpow_gt_0 radix2 (-149)). assert (bpow radix2 (-149) <= bpow radix2 (-23)) by (apply bpow_le; lia). lra.
Qed.
Lemma rnd32_acc : rnd_acc u32 rnd32.
Proof. intro x. apply (@relative_error_N_FLX radix2 24); reflexivity. Qed.
Lemma exp32_acc : exp_acc u32 s32 exp32.
Proof.
  intro x. split.
  - unfold exp32. rewrite <- (@round_0 radix2 (FLT_exp (-149) 24) ZnearestE _). apply round_le; [apply FLT_exp_valid; reflexivity|apply valid_rnd_N|apply Rlt_le, exp_pos].
  - destruct (@error_N_FLT radix2 (-149) 24 eq_refl (fun n => negb (Z.even n)) (exp x)) as (eps & eta & H1 & H2 & _ & H3).
    unfold exp32. fold ZnearestE in H3. rewrite H3. change (-24 + 1)%Z with (-23)%Z in H1. fold u32 in H1. fold s32 in H2.
    replace (exp x * (1 + eps) + eta - exp x) with (eps * exp x + eta) by ring. eapply Rle_trans; [apply Rabs_triang|]. apply Rplus_le_compat; [|exact H2].
    rewrite Rabs_mult, (Rabs_right (exp x)) by (apply Rgt_ge, exp_pos). apply Rmult_le_compat_r; [apply Rlt_le, exp_pos|exact H1].
Qed.
Lemma ln32_acc : ln_acc u32 ln32.
Proof. intros x _. apply rnd32_acc. Qed.

(** the calls of P_Real.v in this arithmetic *)
Lemma tiny x : x <= -49000 -> exp x <= / 1000000.
Proof.
  intro H. apply Rle_trans with (exp (- 49000)); [now apply exp_le|]. eapply Rle_trans; [apply (@exp_neg_bound 49000 2); [lia|lra]|].
  replace (1 + 49000 / INR 2) with 24501 by (simpl; lra). simpl. lra.
Qed.
Lemma ex_fits c b : valid c -> (c_ops c b <= 24)%nat -> (c_sum c b <= 12)%nat -> (c_wide c <= 25)%nat -> (c_deg c b <= 8)%nat ->
  INR (c_wide c) * u32 <= / 24 /\ fits_in c b (lse_err c u32) 3 /\ mfits_in c b u32 3 /\ INR (c_ops c b) * op_err c b (lse_err c u32) 3 <= / 10.
Proof.
  intros V H1 H2 H3 H4. assert (W1 := wide_pos c V). apply le_INR in H1, H2, H3, H4, W1. rewrite (INR_IZR_INZ 24) in H1. rewrite (INR_IZR_INZ 12) in H2. rewrite (INR_IZR_INZ 25) in H3. rewrite (INR_IZR_INZ 8) in H4.
  cbn [Z.of_nat Pos.of_succ_nat Pos.succ] in *. change (INR 1) with 1 in W1.
  assert (P := pos_INR (c_ops c b)). assert (P2 := pos_INR (c_sum c b)). assert (P4 := pos_INR (c_deg c b)).
  unfold mfits_in, fits_in, lse_err, op_err, step_err, tail, mag_of, mmag_of. rewrite u32_value.
  set (o := INR (c_ops c b)) in *. set (k := INR (c_sum c b)) in *. set (a := INR (c_wide c)) in *. set (d := INR (c_deg c b)) in *. clearbody o k a d.
  assert (La : 0 <= ln a <= 8).
  { split; [rewrite <- ln_1; apply ln_le; lra|]. apply Rle_trans with (ln (5 * 5)); [apply ln_le; lra|]. rewrite ln_mult by lra.
    assert (ln 5 <= 4); [|lra]. rewrite <- (ln_exp 4). apply ln_le; [lra|]. pose proof (exp_ineq1_le 4). lra. }
  assert (Lk : 0 <= k * ln a <= 96) by (split; [apply Rmult_le_pos; lra|apply Rle_trans with (12 * 8); [apply Rmult_le_compat; lra|lra]]).
  assert (M : 2 <= 3 * d + k * ln a + 2 <= 122) by lra. set (m := 3 * d + k * ln a + 2) in *. clearbody m.
  assert (T : 0 <= a * exp (m - 50000) <= 25 * / 1000000).
  { split; [apply Rmult_le_pos; [lra|apply Rlt_le, exp_pos]|]. apply Rmult_le_compat; [lra|apply Rlt_le, exp_pos|lra|apply tiny; lra]. }
  set (t := a * exp (m - 50000)) in *. clearbody t.
  assert (U : 0 <= 17 * a * / 16777216 <= 3 / 100000) by lra. set (U0 := 17 * a * / 16777216) in *. clearbody U0.
  assert (Um : 0 <= U0 * m <= 3 / 100000 * 122) by (split; [apply Rmult_le_pos; lra|apply Rmult_le_compat; lra]).
  assert (E : o * (U0 * m + t) <= 24 * (3 / 100000 * 122 + 25 * / 1000000)) by (apply Rmult_le_compat; lra).
  assert (E2 : o * (U0 * m + t + U0 * 100001) <= 24 * (3 / 100000 * 122 + 25 * / 1000000 + 4)) by (apply Rmult_le_compat; lra).
  assert (E3 : o * (/ 16777216 * (3 * d + 1)) <= 24 * (/ 16777216 * 25)) by (apply Rmult_le_compat; lra).
  assert (E4 : o * (/ 16777216 * (3 * d + 1 + 100000)) <= 24 * (/ 16777216 * 100025)) by (apply Rmult_le_compat; lra).
  repeat split; lra.
Qed.
Example C57_ex c : In c ex_calls -> valid c /\ INR (c_wide c) * u32 <= / 24 /\ forall b, (b < 2)%nat ->
  row_ok c b /\ fits_in c b (lse_err c u32) 3 /\ mfits_in c b u32 3 /\ INR (c_ops c b) * op_err c b (lse_err c u32) 3 <= / 10.
Proof.
  intro Hc. pose proof ex_hypotheses as H. rewrite Forall_forall in H. destruct (H c Hc) as (V & _ & Hr & _).
  assert (Hb : forall b, (b < 2)%nat -> INR (c_wide c) * u32 <= / 24 /\ fits_in c b (lse_err c u32) 3 /\ mfits_in c b u32 3 /\ INR (c_ops c b) * op_err c b (lse_err c u32) 3 <= / 10).
  { clear Hr H. intros b Hb. apply ex_fits; auto; revert b Hb; unfold ex_calls in Hc; cbn [In] in Hc; repeat destruct Hc as [<-|Hc]; try contradiction; apply ex_row; vm_compute; lia. }
  split; [exact V|]. split; [apply (Hb 0%nat); lia|]. intros b Hlt. split; [apply (Hr b Hlt)|apply (Hb b Hlt)].
Qed.
(** the partition function of every call, computed in binary32 by torch's formulas, is within 1/10
    of the true value *)
Example C57_ex_partition c : In c ex_calls -> exists v, f_partition c (m_add rnd32) (m_lse rnd32 exp32 ln32) ex_phi = Ok v /\
  forall b l, (b < 2)%nat -> Enumerates (ok (spec_of c b)) l -> Rabs (nth b v 0 - ln (ZS (prt (spec_of c b)) l ex_phi)) <= / 10.
Proof.
  intro Hc. destruct (C57_ex Hc) as (V & HA & Hb). pose proof s32_range as Hs. assert (Hu : 0 <= u32) by lra. assert (HB : 0 <= 3 <= 100000) by lra.
  destruct (@C57_torch_partition c u32 s32 3 rnd32 exp32 ln32 ex_phi V Hu Hs rnd32_acc exp32_acc ln32_acc HA HB ex_phi_abs) as (v & E & _ & H).
  exists v. split; [exact E|]. intros b l Hlt He. destruct (Hb b Hlt) as (R1 & R2 & _ & R4). eapply Rle_trans; [apply (H b l R1 R2 He)|exact R4].
Qed.
(** sampling: exact softmax of the rounded numbers *)
Definition softmax32 (phi : list nat -> R) : rule := fun _ l i =>
  let x := map (fval (m_add rnd32) (m_lse rnd32 exp32 ln32) phi) l in exp (nth i x 0 - lse x).
Example C57_ex_sampling phi A : normal (softmax32 phi) /\ w_acc (m_add rnd32) (m_lse rnd32 exp32 ln32) A phi 0 0 lse (softmax32 phi) /\ (forall u, 0 <= u -> lse_acc A u lse).
Proof.
  set (fv := fval (m_add rnd32) (m_lse rnd32 exp32 ln32) phi). split; [|split].
  - intros p l Hl. unfold softmax32. cbv zeta. fold fv.
    transitivity (RSum (fun t => exp (fv t - lse (map fv l))) l).
    + rewrite <- (mapi_sum (fun t => exp (fv t - lse (map fv l))) l 0). f_equal. apply mapi_ext_nth. intros i t Hi. f_equal. f_equal. apply nth_error_nth. now apply map_nth_error.
    + assert (P : 0 < RSum (fun t => exp (fv t)) l) by now apply RSum_exp_pos.
      transitivity (RSum (fun t => exp (fv t) * / exp (lse (map fv l))) l).
      * apply (Sum_ext R_csr). intro t. unfold Rminus. rewrite exp_plus, exp_Ropp. reflexivity.
      * rewrite RSum_scar. unfold lse. rewrite (Sum_map R_csr), exp_ln by exact P. apply Rinv_r. lra.
  - intros p l i t _ Hi. cbv zeta. unfold softmax32. cbv zeta. fold fv. rewrite (nth_error_nth _ _ 0 (map_nth_error fv _ _ Hi)), !Rmult_0_l, !Rminus_0_r, !Rplus_0_r.
    split; [apply Rlt_le, exp_pos|lra].
  - intros u Hu l _ _. rewrite Rminus_diag_eq, Rabs_R0 by reflexivity. apply Rmult_le_pos; [exact Hu|]. pose proof (Rabs_pos (lse l)). lra.
Qed.
(** the indices of torch.max exist for every call *)
Example C57_ex_argmax c phi : valid c -> exists o, forall b, (b < batch_of c)%nat -> fargmax_ok (m_add rnd32) phi (o b) [] (row_graph c b).
Proof.
  intro V. set (mv := leval (fmax_ops NEG (m_add rnd32)) phi : term -> R). set (f := fun l => first_max (map mv l)).
  assert (Hf : forall l, l <> [] -> exists t', nth_error l (f l) = Some t' /\ is_max (mv t') (map mv l)).
  { intros l Hl. assert (Hm : map mv l <> []) by (destruct l; [congruence|discriminate]). destruct (first_max_ok Hm) as (x & E & M).
    unfold f. rewrite nth_error_map in E. destruct (nth_error l (first_max (map mv l))) as [t'|]; [|discriminate]. injection E as <-. eauto. }
  exists (fun b p => match sub (row_graph c b) (rev p) with Some (TSum l) => f l | _ => 0%nat end). intros b Hb.
  set (o := fun p => _). assert (G : forall s p, twf s -> sub (row_graph c b) (rev p) = Some s -> fargmax_ok (m_add rnd32) phi o p s).
  { induction s as [e'|e'| | |l IH|x y IHx IHy] using term_ind'; intros p Ws Hs; simpl; auto.
    - inversion_clear Ws as [| | | |? Hn Hfa|]. split.
      + unfold o. rewrite Hs. now apply Hf.
      + rewrite fold_and_mapi. intros j a Ha. simpl. rewrite Forall_forall in IH, Hfa.
        pose proof (nth_error_In _ _ Ha). apply IH; auto. simpl. rewrite (sub_app _ _ [j] Hs). simpl. now rewrite Ha.
    - inversion_clear Ws. split; [apply IHx|apply IHy]; auto; simpl.
      + now rewrite (sub_app _ _ [0%nat] Hs).
      + now rewrite (sub_app _ _ [1%nat] Hs). }
  apply G; auto. now apply graph_wf.
Qed.
Print Assumptions C57_ex_partition.
