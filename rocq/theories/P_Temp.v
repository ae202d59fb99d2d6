(** * P_Temp: the effect of a temperature (C89)

    Multiplying all potentials by a factor [t] (an inverse temperature) is the
    usual way to sharpen or flatten one of these distributions.  The theorems say
    what every query does under it, for all calls, all potentials, all factors
    and all rows that have a structure: the best structures stay the same, the
    log-partition divided by [t] tends to the maximum, the marginals tend to the
    argmax, the entropy falls, the expected score rises, and at [t = 0] every
    structure is equally likely. *)
From Coq Require Import Lra.
From Verif Require Import Base Ops Terms Semirings Poly Chain LinearChain SemiMarkov CkyCrf Cky DepSpec DepTree
  Batch Family Approx Grad Sample Dist Purity Degree Shape Api Query Learn P_Real P_Learn P_Cross P_Local.
Set Implicit Arguments.
Local Open Scope R_scope.

(** ** Specification *)
(** spec: the potentials times an inverse temperature; what a user passes as
    [log_potentials] (distributions.py:40-52), e.g. [phi / temperature] *)
Definition scaled (t : R) (phi : list nat -> R) : list nat -> R := fun e => t * phi e.
(** spec: the sum of marginals times potentials over the entries of row b *)
Definition mean_score (c : call) (b : nat) (psi phi : list nat -> R) : R :=
  RSum (fun e => q_marginals c psi e * phi e) (entries c b).
(** spec: what the finite zero can add to [entropy]; 0 for TreeCRF and DependencyCRF *)
Definition etol (c : call) (b : nat) (B : R) : R := (1 + 2 * scale c B b) * leak c b B.
(** spec: what the finite zero can add to [mean_score] *)
Definition mtol (c : call) (b : nat) (B' B : R) : R :=
  INR (length (entries c b)) * (2 * INR (degree c b) * leak c b B') * B.
(** spec: [s] scores at least [gap] more than every other structure of the row *)
Definition leads (c : call) (b : nat) (phi : list nat -> R) (gap : R) (s : st (spec_of c b)) : Prop :=
  ok (spec_of c b) s /\ forall s', ok (spec_of c b) s' -> s' <> s -> sc (prt (spec_of c b)) phi s' + gap <= sc (prt (spec_of c b)) phi s.

(** ** Generic part *)
Lemma sc_scaled A (parts : A -> list (list nat)) t phi s : sc parts (scaled t phi) s = t * sc parts phi s.
Proof. unfold sc, scaled. apply RSum_scal. Qed.
Lemma scaled_bounded c B t phi : 0 <= t -> bounded c B phi -> bounded c (t * B) (scaled t phi).
Proof.
  intros Ht [Z|H]; [now left|right]. intro e. unfold scaled. rewrite Rabs_mult, (Rabs_right t) by lra.
  apply Rmult_le_compat_l; auto.
Qed.
Section Spec.
  Variables (A : Type) (parts : A -> list (list nat)) (l : list A).
  Hypothesis Hl : l <> [].
  (** the log-partition lies above its tangents *)
  Lemma ln_ZS_tangent phi psi :
    ln (ZS parts l phi) + RSum (fun s => prob parts l phi s * (sc parts psi s - sc parts phi s)) l <= ln (ZS parts l psi).
  Proof.
    assert (K : 0 <= RSum (fun s => prob parts l phi s * (ln (prob parts l phi s) - ln (prob parts l psi s))) l).
    { replace 0 with (RSum (fun s => prob parts l phi s - prob parts l psi s) l) by (rewrite RSum_sub, !prob_sum by auto; lra).
      apply RSum_le. intros s _. pose proof (prob_pos parts Hl phi s) as P. pose proof (prob_pos parts Hl psi s) as Q.
      set (p := prob parts l phi s) in *. set (q := prob parts l psi s) in *.
      pose proof (exp_ineq1_le (ln (q * / p))) as E. rewrite exp_ln in E by (apply Rmult_lt_0_compat; auto using Rinv_0_lt_compat).
      rewrite ln_mult, ln_Rinv in E by auto using Rinv_0_lt_compat.
      assert (E' : p * (1 + (ln q + - ln p)) <= p * (q * / p)) by (apply Rmult_le_compat_l; lra).
      replace (p * (q * / p)) with q in E' by (field; lra). lra. }
    rewrite (Sum_ext R_csr _ (fun s => prob parts l phi s * (ln (ZS parts l psi) - ln (ZS parts l phi))
      - prob parts l phi s * (sc parts psi s - sc parts phi s))) in K by (intro s; rewrite !ln_prob by auto; simpl; ring).
    rewrite RSum_sub, RSum_scar, prob_sum in K by auto. lra.
  Qed.
  Lemma mean_mono phi t1 t2 : t1 <= t2 ->
    avg parts l (scaled t1 phi) (sc parts phi) <= avg parts l (scaled t2 phi) (sc parts phi).
  Proof.
    intros [H| ->]; [|lra]. pose proof (ln_ZS_tangent (scaled t1 phi) (scaled t2 phi)) as A1.
    pose proof (ln_ZS_tangent (scaled t2 phi) (scaled t1 phi)) as A2.
    rewrite (Sum_ext R_csr _ (fun s => (t2 - t1) * (prob parts l (scaled t1 phi) s * sc parts phi s))), RSum_scal, avg_prob in A1
      by (intro s; rewrite !sc_scaled; simpl; ring).
    rewrite (Sum_ext R_csr _ (fun s => (t1 - t2) * (prob parts l (scaled t2 phi) s * sc parts phi s))), RSum_scal, avg_prob in A2
      by (intro s; rewrite !sc_scaled; simpl; ring).
    nra.
  Qed.
  Lemma avg_scaled phi t : avg parts l (scaled t phi) (sc parts (scaled t phi)) = t * avg parts l (scaled t phi) (sc parts phi).
  Proof.
    rewrite <- !avg_prob, <- RSum_scal. apply (Sum_ext R_csr). intro s. rewrite sc_scaled. simpl. ring.
  Qed.
  Lemma entropy_mono phi t1 t2 : 0 <= t1 <= t2 -> entropy_spec parts l (scaled t2 phi) <= entropy_spec parts l (scaled t1 phi).
  Proof.
    intros [H0 H]. pose proof (mean_mono phi H) as M. pose proof (ln_ZS_tangent (scaled t2 phi) (scaled t1 phi)) as A2.
    rewrite (Sum_ext R_csr _ (fun s => (t1 - t2) * (prob parts l (scaled t2 phi) s * sc parts phi s))), RSum_scal, avg_prob in A2
      by (intro s; rewrite !sc_scaled; simpl; ring).
    rewrite !entropy_avg, !avg_scaled by auto. nra.
  Qed.
  (** a structure that leads by [gap] has all but an exponentially small part of the probability *)
  Lemma lead_prob phi gap s s0 : 0 <= gap -> In s0 l -> sc parts phi s + gap <= sc parts phi s0 -> prob parts l phi s <= exp (- gap).
  Proof.
    intros Hg H0 H. unfold prob. pose proof (ZS_pos parts phi Hl) as Z.
    assert (Z0 : exp (sc parts phi s0) <= ZS parts l phi).
    { unfold ZS. apply (RSum_single (fun s => exp (sc parts phi s))); auto. intros. apply Rlt_le, exp_pos. }
    apply Rmult_le_reg_r with (ZS parts l phi); [exact Z|]. unfold Rdiv. rewrite Rmult_assoc, Rinv_l, Rmult_1_r by lra.
    apply Rle_trans with (exp (- gap) * exp (sc parts phi s0)).
    - rewrite <- exp_plus. destruct (Req_dec (sc parts phi s) (- gap + sc parts phi s0)) as [->|N]; [lra|]. left. apply exp_increasing. lra.
    - apply Rmult_le_compat_l; [left; apply exp_pos|exact Z0].
  Qed.
  Lemma lead_mean phi gap s0 (f : A -> R) K : NoDup l -> 0 <= gap -> In s0 l -> 0 <= K ->
    (forall s, In s l -> s <> s0 -> sc parts phi s + gap <= sc parts phi s0) -> (forall s, In s l -> Rabs (f s - f s0) <= K) ->
    Rabs (RSum (fun s => prob parts l phi s * f s) l - f s0) <= K * INR (length l - 1) * exp (- gap).
  Proof.
    intros Hn Hg H0 HK Hlead Hf.
    replace (RSum (fun s => prob parts l phi s * f s) l - f s0) with (RSum (fun s => prob parts l phi s * (f s - f s0)) l).
    2:{ rewrite (Sum_ext R_csr _ (fun s => prob parts l phi s * f s - prob parts l phi s * f s0)) by (intro; simpl; ring).
        rewrite RSum_sub, RSum_scar, prob_sum by auto. ring. }
    destruct (in_split s0 l H0) as (l1 & l2 & E).
    assert (N : forall s, In s (l1 ++ l2) -> In s l /\ s <> s0).
    { intros s Hs. split; [rewrite E; apply in_app_iff; apply in_app_iff in Hs as [?|?]; simpl; auto|].
      intros ->. rewrite E in Hn. now apply NoDup_remove_2 in Hn. }
    assert (P : Permutation l (s0 :: l1 ++ l2)) by (rewrite E; symmetry; apply Permutation_middle).
    rewrite (Sum_perm R_csr _ P), RSum_cons. replace (f s0 - f s0) with 0 by ring. rewrite Rmult_0_r, Rplus_0_l.
    replace (length l - 1)%nat with (length (l1 ++ l2)) by (rewrite (Permutation_length P); simpl; lia).
    eapply Rle_trans; [apply RSum_abs|].
    apply Rle_trans with (RSum (fun _ => K * exp (- gap)) (l1 ++ l2)); [|rewrite RSum_const; right; simpl; ring].
    apply RSum_le. intros s Hs. destruct (N s Hs) as [Hin Hne]. rewrite Rabs_mult.
    rewrite (Rabs_right (prob parts l phi s)) by (left; now apply prob_pos). rewrite Rmult_comm.
    apply Rmult_le_compat; auto using Rabs_pos; [left; now apply prob_pos|]. now apply (@lead_prob phi gap s s0 Hg H0 (Hlead s Hin Hne)).
  Qed.
End Spec.

Lemma row_list c b : valid c -> row_ok c b -> exists l, Enumerates (ok (spec_of c b)) l /\ l <> [].
Proof.
  intros V Hb. destruct (row_family V Hb) as (F & HF). rewrite <- (ir_spec HF). exists (flist F). split; [apply (fenum F)|apply (ir_nonempty HF)].
Qed.
Lemma list_nonempty c b l : valid c -> row_ok c b -> Enumerates (ok (spec_of c b)) l -> l <> [].
Proof.
  intros V Hb Hl ->. destruct (row_list V Hb) as (l' & Hl' & Hne). destruct l' as [|s l']; [congruence|].
  apply (proj2 Hl s). apply Hl'. now left.
Qed.

(** ** C89 *)
(** the maximum scales with the potentials *)
Theorem C89_max c phi t : valid c -> 0 <= t ->
  forall b, row_ok c b -> small c b phi -> small c b (scaled t phi) ->
    at_row 0 (q_max c (scaled t phi)) b = t * at_row 0 (q_max c phi) b.
Proof.
  intros V Ht b Hb H1 H2. destruct (@C14_max_is_best c phi V) as (v & E & _ & H). destruct (@C14_max_is_best c (scaled t phi) V) as (v' & E' & _ & H').
  rewrite E, E'. cbn [at_row]. destruct (H b Hb H1) as ((s & Hs & Es) & Hm). destruct (H' b Hb H2) as ((s' & Hs' & Es') & Hm').
  specialize (Hm s' Hs'). specialize (Hm' s Hs). rewrite sc_scaled in Es', Hm'. rewrite Es, Es' in *.
  apply Rle_antisym; [|exact Hm']. apply Rmult_le_compat_l; auto.
Qed.
Print Assumptions C89_max.

(** for a positive factor [argmax] still returns a best structure of the original potentials *)
Theorem C89_argmax c phi t o : valid c -> 0 < t ->
  (forall b, (b < batch_of c)%nat -> argmax_ok NEG (scaled t phi) (o b) [] (row_graph c b)) ->
  forall b, row_ok c b -> small c b (scaled t phi) -> let S := spec_of c b in
    exists s, ok S s /\ (forall s', ok S s' -> sc (prt S) phi s' <= sc (prt S) phi s) /\
      forall e, row_of c e = b -> q_argmax c o e = uses (prt S) e s.
Proof.
  intros V Ht Ho b Hb HS S. destruct (@C15_argmax_is_optimal c (scaled t phi) o V Ho b Hb HS) as (s & Hs & Hm & Hu & _).
  exists s. split; [exact Hs|]. split; [|exact Hu]. intros s' Hs'. specialize (Hm s' Hs'). rewrite !sc_scaled in Hm.
  now apply Rmult_le_reg_l with t.
Qed.
Print Assumptions C89_argmax.

(** the log-partition over the factor exceeds the maximum by at most ln(#structures) / t *)
Theorem C89_cold_partition c phi B t : valid c -> 0 < t -> 0 <= B -> bounded c B phi ->
  forall b l, row_ok c b -> small c b phi -> small c b (scaled t phi) -> Enumerates (ok (spec_of c b)) l ->
    0 <= at_row 0 (q_partition c (scaled t phi)) b / t - at_row 0 (q_max c phi) b
      <= (ln (INR (length l)) + leak c b (t * B)) / t.
Proof.
  intros V Ht HB0 HB b l Hb H1 H2 Hl.
  assert (Ht' : 0 <= t) by lra. pose proof (scaled_bounded Ht' HB) as HBt.
  destruct (@C49_sandwich c (scaled t phi) (t * B) V ltac:(apply Rmult_le_pos; lra) HBt b l Hb Hl) as [L U].
  rewrite (@C89_max c phi t V Ht' b Hb H1 H2) in L, U.
  set (P := at_row 0 (q_partition c (scaled t phi)) b) in *. set (M := at_row 0 (q_max c phi) b) in *.
  replace (P / t - M) with ((P - t * M) / t) by (field; lra). unfold Rdiv.
  assert (I : 0 < / t) by (now apply Rinv_0_lt_compat).
  split; [apply Rmult_le_pos; lra|apply Rmult_le_compat_r; lra].
Qed.
Print Assumptions C89_cold_partition.

(** if one structure leads by [gap], the marginals tend to its indicator at rate exp(-t gap);
    [K] bounds how often a structure uses the part *)
Theorem C89_cold_marginals c phi B t : valid c -> 0 <= t -> 0 <= B -> bounded c B phi ->
  forall b l gap s K e, row_ok c b -> Enumerates (ok (spec_of c b)) l -> 0 <= gap -> leads c b phi gap s ->
    row_of c e = b -> (forall s', ok (spec_of c b) s' -> uses (prt (spec_of c b)) e s' <= K) ->
    Rabs (q_marginals c (scaled t phi) e - uses (prt (spec_of c b)) e s)
      <= K * INR (length l - 1) * exp (- (t * gap)) + 2 * INR (degree c b) * leak c b (t * B).
Proof.
  intros V Ht HB0 HB b l gap s K e Hb Hl Hg [Hs Hlead] He HK. pose proof (scaled_bounded Ht HB) as HBt.
  pose proof (@C20_marginals_value c (scaled t phi) (t * B) V ltac:(apply Rmult_le_pos; lra) HBt b l e Hb He Hl) as X. cbv zeta in X.
  assert (U0 : forall s', 0 <= uses (prt (spec_of c b)) e s') by (intro; apply pos_INR).
  assert (Y : Rabs (marg_spec (prt (spec_of c b)) l (scaled t phi) e - uses (prt (spec_of c b)) e s) <= K * INR (length l - 1) * exp (- (t * gap))).
  { unfold marg_spec. apply (@lead_mean _ (prt (spec_of c b)) l (list_nonempty V Hb Hl) (scaled t phi) (t * gap) s (uses (prt (spec_of c b)) e) K).
    - apply Hl.
    - apply Rmult_le_pos; auto.
    - now apply Hl.
    - specialize (HK s Hs). specialize (U0 s). lra.
    - intros s' Hs' Hne. rewrite !sc_scaled. apply Hl in Hs'. specialize (Hlead s' Hs' Hne). nra.
    - intros s' Hs'. apply Hl in Hs'. pose proof (HK s Hs). pose proof (HK s' Hs'). pose proof (U0 s). pose proof (U0 s'). apply Rabs_le. lra. }
  replace (q_marginals c (scaled t phi) e - uses (prt (spec_of c b)) e s) with
    ((marg_spec (prt (spec_of c b)) l (scaled t phi) e - uses (prt (spec_of c b)) e s) + (q_marginals c (scaled t phi) e - marg_spec (prt (spec_of c b)) l (scaled t phi) e)) by ring.
  eapply Rle_trans; [apply Rabs_triang|]. now apply Rplus_le_compat.
Qed.
Print Assumptions C89_cold_marginals.

(** the entropy falls with the factor *)
Theorem C89_entropy c phi B t1 t2 : valid c -> 0 <= t1 <= t2 -> 0 <= B -> bounded c B phi ->
  forall b, row_ok c b ->
    at_row 0 (q_entropy c (scaled t2 phi)) b
      <= at_row 0 (q_entropy c (scaled t1 phi)) b + etol c b (t1 * B) + etol c b (t2 * B).
Proof.
  intros V Ht HB0 HB b Hb. destruct (row_list V Hb) as (l & Hl & Hne).
  assert (H1 : 0 <= t1) by lra. assert (H2 : 0 <= t2) by lra.
  destruct (@C17_entropy_value c (scaled t1 phi) (t1 * B) V ltac:(apply Rmult_le_pos; lra) (scaled_bounded H1 HB)) as (v1 & E1 & _ & X1).
  destruct (@C17_entropy_value c (scaled t2 phi) (t2 * B) V ltac:(apply Rmult_le_pos; lra) (scaled_bounded H2 HB)) as (v2 & E2 & _ & X2).
  rewrite E1, E2. cbn [at_row]. specialize (X1 b l Hb Hl). specialize (X2 b l Hb Hl). cbv zeta in X1, X2.
  fold (etol c b (t1 * B)) in X1. fold (etol c b (t2 * B)) in X2.
  apply Rabs_le_inv in X1, X2. pose proof (entropy_mono (prt (spec_of c b)) Hne phi Ht). lra.
Qed.
Print Assumptions C89_entropy.

(** the expected score rises with the factor *)
Theorem C89_mean_score c phi B t1 t2 : valid c -> 0 <= t1 <= t2 -> 0 <= B -> bounded c B phi ->
  forall b, row_ok c b ->
    mean_score c b (scaled t1 phi) phi
      <= mean_score c b (scaled t2 phi) phi + mtol c b (t1 * B) B + mtol c b (t2 * B) B.
Proof.
  intros V Ht HB0 HB b Hb. destruct (row_list V Hb) as (l & Hl & Hne). set (S := spec_of c b) in *.
  assert (G : forall t, 0 <= t -> Rabs (mean_score c b (scaled t phi) phi - avg (prt S) l (scaled t phi) (sc (prt S) phi)) <= mtol c b (t * B) B).
  { intros t H.
    assert (E : avg (prt S) l (scaled t phi) (sc (prt S) phi) = RSum (fun e => marg_spec (prt S) l (scaled t phi) e * phi e) (entries c b)).
    { rewrite <- avg_prob. unfold marg_spec.
      transitivity (RSum (fun s => RSum (fun e => prob (prt S) l (scaled t phi) s * uses (prt S) e s * phi e) (entries c b)) l).
      - apply (Sum_ext_in R_csr). intros s Hs. unfold sc. rewrite <- (@score_event phi (entries c b) (prt S s)) by (apply entries_nodup || (apply parts_entries; auto; now apply Hl)).
        rewrite <- RSum_scal. apply (Sum_ext R_csr). intro e. unfold uses. simpl. ring.
      - rewrite (Sum_comm R_csr). apply (Sum_ext R_csr). intro e. apply RSum_scar. }
    rewrite E. unfold mean_score, mtol. rewrite <- RSum_sub. eapply Rle_trans; [apply RSum_abs|].
    rewrite Rmult_assoc, <- RSum_const. apply RSum_le. intros e He.
    replace (q_marginals c (scaled t phi) e * phi e - marg_spec (prt S) l (scaled t phi) e * phi e)
      with ((q_marginals c (scaled t phi) e - marg_spec (prt S) l (scaled t phi) e) * phi e) by ring.
    rewrite Rabs_mult.
    pose proof (@C20_marginals_value c (scaled t phi) (t * B) V ltac:(apply Rmult_le_pos; lra) (scaled_bounded H HB) b l e Hb (entries_row _ _ _ He) Hl) as X.
    cbv zeta in X. fold S in X. destruct (zero_free c) eqn:Z.
    - assert (Lk : leak c b (t * B) = 0) by (unfold leak; now rewrite Z). rewrite Lk in *.
      pose proof (Rabs_pos (q_marginals c (scaled t phi) e - marg_spec (prt S) l (scaled t phi) e)).
      replace (Rabs (q_marginals c (scaled t phi) e - marg_spec (prt S) l (scaled t phi) e)) with 0 by lra. lra.
    - destruct HB as [HB|HB]; [congruence|]. apply Rmult_le_compat; auto using Rabs_pos. }
  pose proof (G t1 ltac:(lra)) as G1. pose proof (G t2 ltac:(lra)) as G2. apply Rabs_le_inv in G1, G2.
  pose proof (mean_mono (prt S) Hne phi (proj2 Ht)). lra.
Qed.
Print Assumptions C89_mean_score.

(** at factor 0 all structures are equally likely *)
Theorem C89_hot c phi : valid c -> forall b l, row_ok c b -> let S := spec_of c b in Enumerates (ok S) l ->
  0 <= at_row 0 (q_partition c (scaled 0 phi)) b - ln (INR (length l)) <= leak c b 0 /\
  Rabs (at_row 0 (q_entropy c (scaled 0 phi)) b - ln (INR (length l))) <= etol c b 0 /\
  forall e, row_of c e = b ->
    Rabs (q_marginals c (scaled 0 phi) e - RSum (uses (prt S) e) l / INR (length l)) <= 2 * INR (degree c b) * leak c b 0.
Proof.
  intros V b l Hb S Hl. pose proof (list_nonempty V Hb Hl) as Hne.
  assert (HB : bounded c 0 (scaled 0 phi)) by (right; intro e; unfold scaled; rewrite Rmult_0_l, Rabs_R0; lra).
  assert (N : 0 < INR (length l)) by (apply lt_0_INR; destruct l; [congruence|simpl; lia]).
  assert (Z : ZS (prt S) l (scaled 0 phi) = INR (length l)).
  { unfold ZS. rewrite (Sum_ext R_csr _ (fun _ => 1)) by (intro s; rewrite sc_scaled, Rmult_0_l; apply exp_0). rewrite RSum_const. apply Rmult_1_r. }
  destruct (@C20_partition_value c (scaled 0 phi) 0 V ltac:(lra) HB) as (v & E & _ & H).
  destruct (@C17_entropy_value c (scaled 0 phi) 0 V ltac:(lra) HB) as (h & E' & _ & H').
  specialize (H b l Hb Hl). specialize (H' b l Hb Hl). cbv zeta in H, H'. fold S in H, H'. rewrite E, E'. cbn [at_row]. rewrite Z in H.
  split; [exact H|]. split.
  - fold (etol c b 0) in H'. replace (entropy_spec (prt S) l (scaled 0 phi)) with (ln (INR (length l))) in H'; [exact H'|].
    rewrite entropy_avg, Z, avg_scaled by auto. ring.
  - intros e He. pose proof (@C20_marginals_value c (scaled 0 phi) 0 V ltac:(lra) HB b l e Hb He Hl) as X. cbv zeta in X. fold S in X.
    replace (RSum (uses (prt S) e) l / INR (length l)) with (marg_spec (prt S) l (scaled 0 phi) e); [exact X|].
    unfold marg_spec, Rdiv. rewrite <- RSum_scar. apply (Sum_ext R_csr). intro s. unfold prob. rewrite Z, sc_scaled, Rmult_0_l, exp_0. simpl. field. lra.
Qed.
Print Assumptions C89_hot.

(** ** Concrete cases *)
(** the hypotheses of all the theorems hold for one call of every class, both rows,
    with the potentials halved and doubled *)
Example ex_C89 : Forall (fun c => valid c /\ bounded c 3 ex_phi /\
  (exists o, forall b, (b < batch_of c)%nat -> argmax_ok NEG (scaled 2 ex_phi) (o b) [] (row_graph c b)) /\
  forall b, (b < 2)%nat -> row_ok c b /\ small c b ex_phi /\ small c b (scaled (/ 2) ex_phi) /\ small c b (scaled 2 ex_phi)) ex_calls.
Proof.
  pose proof ex_hypotheses as H. rewrite Forall_forall in *. intros c Hc. destruct (H c Hc) as (V & _ & Hr & HB).
  split; [exact V|]. split; [exact HB|]. split; [now apply argmax_exists_batch|]. intros b Hb. destruct (Hr b Hb) as [R1 R2].
  split; [exact R1|]. split; [exact R2|].
  assert (D : (degree c b <= 8)%nat).
  { unfold ex_calls in Hc. cbn in Hc. destruct Hc as [<-|[<-|[<-|[<-|[<-|[]]]]]]; destruct b as [|[|b]]; try lia; vm_compute; lia. }
  apply le_INR in D. change 8%nat with (2 * (2 * 2))%nat in D. rewrite !mult_INR in D. simpl INR in D.
  assert (G : forall t, 0 <= t <= 2 -> small c b (scaled t ex_phi)).
  { intros t Ht. right. exists 6. split; [|lra]. intro e. unfold scaled. rewrite Rabs_mult, (Rabs_right t) by lra.
    pose proof (ex_phi_abs e). pose proof (Rabs_pos (ex_phi e)). nra. }
  split; apply G; lra.
Qed.
(** dependency trees over 4 words with 2 labels: doubling the potentials instead of
    halving them lowers the entropy, exactly *)
Example ex_C89_entropy :
  at_row 0 (q_entropy ex_dep (scaled 2 ex_phi)) 0 <= at_row 0 (q_entropy ex_dep (scaled (/ 2) ex_phi)) 0 /\
  mean_score ex_dep 0 (scaled (/ 2) ex_phi) ex_phi <= mean_score ex_dep 0 (scaled 2 ex_phi) ex_phi.
Proof.
  destruct (@ex_all ex_dep ltac:(simpl; auto 6)) as (V & HB & R). split.
  - pose proof (@C89_entropy ex_dep ex_phi 3 (/ 2) 2 V ltac:(lra) ltac:(lra) HB 0%nat (R 0%nat ltac:(lia))) as H.
    unfold etol in H. change (leak ex_dep 0 (/ 2 * 3)) with 0 in H. change (leak ex_dep 0 (2 * 3)) with 0 in H.
    rewrite !Rmult_0_r, !Rplus_0_r in H. exact H.
  - pose proof (@C89_mean_score ex_dep ex_phi 3 (/ 2) 2 V ltac:(lra) ltac:(lra) HB 0%nat (R 0%nat ltac:(lia))) as H.
    unfold mtol in H. change (leak ex_dep 0 (/ 2 * 3)) with 0 in H. change (leak ex_dep 0 (2 * 3)) with 0 in H.
    rewrite !Rmult_0_r, !Rmult_0_l, !Rplus_0_r in H. exact H.
Qed.
(** example: potentials 1 on the three parts of the labelling 0 2 1 1 of the chain of
    4 words, 0 elsewhere; it leads the 80 other labellings by 1 *)
Definition ex_best : list nat := [0; 2; 1; 1]%nat.
(** example: its potentials *)
Definition ex_peak (e : list nat) : R :=
  ind (if in_dec (list_eq_dec Nat.eq_dec) e (prt (spec_of ex_lin 0) ex_best) then true else false).
Example ex_leads : leads ex_lin 0 ex_peak 1 ex_best /\ Enumerates (ok (spec_of ex_lin 0)) (seqs 3 4) /\ length (seqs 3 4) = 81%nat.
Proof.
  assert (E : Enumerates (ok (spec_of ex_lin 0)) (seqs 3 4)) by apply seqs_enum.
  split; [|split; [exact E|reflexivity]]. split; [apply E; vm_compute; tauto|]. intros s Hs Hne. apply E in Hs.
  set (sel := fun e : list nat => if in_dec (list_eq_dec Nat.eq_dec) e (prt (spec_of ex_lin 0) ex_best) then true else false).
  assert (K : forall s, sc (prt (spec_of ex_lin 0)) ex_peak s = @hits ex_lin 0 sel s) by (intro; symmetry; apply hits_sc).
  rewrite !K. unfold hits.
  assert (C : forallb (fun s => if list_eq_dec Nat.eq_dec s ex_best then true
    else (length (filter sel (prt (spec_of ex_lin 0) s)) + 1 <=? length (filter sel (prt (spec_of ex_lin 0) ex_best)))%nat) (seqs 3 4) = true) by (vm_compute; reflexivity).
  rewrite forallb_forall in C. specialize (C s Hs). destruct (list_eq_dec Nat.eq_dec s ex_best) as [Q|_]; [contradiction|].
  apply Nat.leb_le, le_INR in C. rewrite plus_INR in C. exact C.
Qed.
(** the marginals of those potentials times 60 are the labelling, to 80 exp(-60) *)
Example ex_C89_cold : forall e, nth 0 e 0%nat = 0%nat ->
  Rabs (q_marginals ex_lin (scaled 60 ex_peak) e - uses (prt (spec_of ex_lin 0)) e ex_best) <= 80 * exp (-60) + 8 * leak ex_lin 0 60.
Proof.
  intros e He. destruct (@ex_all ex_lin ltac:(simpl; auto)) as (V & _ & R). destruct ex_leads as (L & E & Len).
  assert (HB : bounded ex_lin 1 ex_peak).
  { right. intro x. unfold ex_peak, ind. destruct (in_dec _ _ _); rewrite ?Rabs_R1, ?Rabs_R0; lra. }
  assert (K : forall s, ok (spec_of ex_lin 0) s -> uses (prt (spec_of ex_lin 0)) e s <= 1).
  { intros s Hs. unfold uses. replace 1 with (INR 1) by reflexivity. apply le_INR.
    apply (proj1 (NoDup_count_occ (list_eq_dec Nat.eq_dec) _)). apply (@prt_nodup ex_lin 0 s V I (R 0%nat ltac:(lia)) Hs). }
  pose proof (@C89_cold_marginals ex_lin ex_peak 1 60 V ltac:(lra) ltac:(lra) HB 0%nat _ 1 _ 1 e (R 0%nat ltac:(lia)) E ltac:(lra) L He K) as H.
  change (length (seqs 3 4) = 81%nat) with (@length (st (spec_of ex_lin 0)) (seqs 3 4) = 81%nat) in Len.
  rewrite Len in H. change (81 - 1)%nat with 80%nat in H. rewrite !Rmult_1_r, Rmult_1_l in H.
  replace (INR 80) with 80 in H by (rewrite INR_IZR_INZ; reflexivity).
  replace (2 * INR (degree ex_lin 0)) with 8 in H by (change (degree ex_lin 0) with 4%nat; simpl INR; lra).
  exact H.
Qed.
