(** * P_Cross: property C56, the queries of one distribution agree with each other.

    Each query is a separate dynamic program over a separate semiring, or a separate
    backward pass; the theorems below relate their results. *)
From Coq Require Import Sorting.Sorted Lra.
From Verif Require Import Base Ops Terms Semirings Poly Chain LinearChain SemiMarkov CkyCrf Cky DepSpec DepTree
  Batch Family Approx Grad Sample Dist Purity Degree Shape Api Query Dag KMax P_Real P_Sample P_KMax.
Set Implicit Arguments.
Local Open Scope R_scope.

(** ** Spec-level facts *)
Section Spec.
  Variables (A : Type) (parts : A -> list (list nat)) (l : list A).
  Hypothesis Hl : l <> [].
  Lemma prob_pos phi s : 0 < prob parts l phi s.
  Proof.
    unfold prob, Rdiv. apply Rmult_lt_0_compat; [apply exp_pos|]. apply Rinv_0_lt_compat. now apply ZS_pos.
  Qed.
  Lemma entropy_nonneg phi : 0 <= entropy_spec parts l phi.
  Proof.
    unfold entropy_spec. rewrite <- RSum_opp. apply RSum_nonneg. intros s Hs.
    pose proof (prob_pos phi s) as P. assert (P1 : prob parts l phi s <= 1).
    { rewrite <- (prob_sum parts phi Hl). apply RSum_single; auto. intros. apply Rlt_le, prob_pos. }
    assert (L : ln (prob parts l phi s) <= 0).
    { rewrite <- ln_1. destruct (Req_dec (prob parts l phi s) 1) as [->|N]; [lra|]. apply Rlt_le, ln_increasing; lra. }
    nra.
  Qed.
  Lemma entropy_le_count phi : entropy_spec parts l phi <= ln (INR (length l)).
  Proof.
    assert (N : 0 < INR (length l)) by (apply lt_0_INR; destruct l; [congruence|simpl; lia]).
    enough (0 <= RSum (fun s => prob parts l phi s * ln (prob parts l phi s) + prob parts l phi s * ln (INR (length l))) l).
    { rewrite RSum_add, RSum_scar, prob_sum in H by auto. unfold entropy_spec. lra. }
    replace 0 with (RSum (fun s => prob parts l phi s - / INR (length l)) l).
    2:{ rewrite RSum_sub, RSum_const, prob_sum by auto. field. lra. }
    apply RSum_le. intros s _. pose proof (prob_pos phi s) as P. set (p := prob parts l phi s) in *.
    assert (Q : 0 < p * INR (length l)) by (now apply Rmult_lt_0_compat).
    replace (p * ln p + p * ln (INR (length l))) with (p * ln (p * INR (length l))) by (rewrite ln_mult by auto; ring).
    (* ln x >= 1 - 1/x *)
    assert (L : 1 - / (p * INR (length l)) <= ln (p * INR (length l))).
    { pose proof (exp_ineq1_le (ln (/ (p * INR (length l))))) as E. rewrite exp_ln in E by (now apply Rinv_0_lt_compat).
      rewrite ln_Rinv in E by auto. lra. }
    apply Rle_trans with (p * (1 - / (p * INR (length l)))); [right; field; lra|]. apply Rmult_le_compat_l; lra.
  Qed.
  (** expected score from the expected number of uses of each part *)
  Lemma avg_score phi ids : NoDup ids -> (forall s, In s l -> incl (parts s) ids) ->
    avg parts l phi (sc parts phi) = RSum (fun e => marg_spec parts l phi e * phi e) ids.
  Proof.
    intros Hn Hi. rewrite <- avg_prob. unfold marg_spec.
    transitivity (RSum (fun s => RSum (fun e => prob parts l phi s * uses parts e s * phi e) ids) l).
    - apply (Sum_ext_in R_csr). intros s Hs. unfold sc. rewrite <- (@score_event phi ids (parts s)) by auto.
      rewrite <- RSum_scal. apply (Sum_ext R_csr). intro e. unfold uses. ring.
    - rewrite (Sum_comm R_csr). apply (Sum_ext R_csr). intro e. apply RSum_scar.
  Qed.
End Spec.

Lemma nth_firstn A (d : A) : forall n l q, (q < n)%nat -> nth q (firstn n l) d = nth q l d.
Proof.
  induction n as [|n IH]; intros [|x l] q H; cbn [firstn]; auto; [lia|]. destruct q as [|q]; cbn [nth]; auto. apply IH. lia.
Qed.
(** two lists of best structures agree position by position *)
Lemma top_le (S : spec) (phi : list nat -> R) (ss ss' : list (st S)) d i :
  NoDup ss' -> (forall s, In s ss' -> ok S s) -> StronglySorted Rge (map (sc (prt S) phi) ss) -> StronglySorted Rge (map (sc (prt S) phi) ss') ->
  (forall s s', ok S s -> ~ In s ss -> In s' ss -> sc (prt S) phi s <= sc (prt S) phi s') ->
  (i < length ss)%nat -> (i < length ss')%nat -> sc (prt S) phi (nth i ss' d) <= sc (prt S) phi (nth i ss d).
Proof.
  intros Hn Ho Hs Hs' Hb Hi Hi'. destruct (Rle_or_lt (sc (prt S) phi (nth i ss' d)) (sc (prt S) phi (nth i ss d))) as [H|H]; [exact H|exfalso].
  assert (Sorted_at : forall (u : list (st S)) p q, StronglySorted Rge (map (sc (prt S) phi) u) -> (p <= q < length u)%nat ->
     sc (prt S) phi (nth q u d) <= sc (prt S) phi (nth p u d)).
  { clear. induction u as [|x u IH]; intros p q Hu Hpq; cbn [length] in Hpq; [lia|]. cbn [map] in Hu. inversion_clear Hu as [|? ? Hu' Hx].
    destruct q as [|q]; [replace p with 0%nat by lia; cbn; lra|]. destruct p as [|p]; cbn [nth].
    - rewrite Forall_forall in Hx. apply Rge_le. apply Hx. apply in_map. apply nth_In. lia.
    - apply IH; auto. lia. }
  assert (I : incl (firstn (1 + i) ss') (firstn i ss)).
  { intros s Hin. apply (In_nth _ _ d) in Hin as (p & Hp & E). rewrite firstn_length in Hp.
    assert (E' : nth p ss' d = s).
    { rewrite <- E. symmetry. apply nth_firstn. lia. }
    assert (Hin : In s ss') by (rewrite <- E'; apply nth_In; lia).
    assert (Hs1 : sc (prt S) phi (nth i ss d) < sc (prt S) phi s).
    { eapply Rlt_le_trans; [exact H|]. rewrite <- E'. apply Sorted_at; auto. lia. }
    destruct (Classical_Prop.classic (In s ss)) as [K|K].
    - apply (In_nth _ _ d) in K as (q & Hq & Eq). destruct (Nat.lt_ge_cases q i) as [Hqi|Hqi].
      + rewrite <- Eq, <- (@nth_firstn _ d i ss q Hqi). apply nth_In. rewrite firstn_length. lia.
      + exfalso. pose proof (Sorted_at ss i q Hs (conj Hqi Hq)) as X. rewrite Eq in X. lra.
    - exfalso. specialize (Hb s (nth i ss d) (Ho s Hin) K (nth_In _ _ Hi)). lra. }
  apply NoDup_incl_length in I.
  - rewrite !firstn_length in I. lia.
  - clear - Hn. revert Hn. generalize (1 + i)%nat. intros n. revert n. induction ss' as [|x u IH]; intros [|n] Hn; cbn [firstn]; try constructor.
    + inversion_clear Hn as [|? ? Hx _]. intro Hin. apply Hx. rewrite <- (firstn_skipn n u). apply in_or_app. now left.
    + apply IH. now inversion Hn.
Qed.

(** ** Argmax, max, partition and log_prob *)
Lemma ids_nodup c b : NoDup (map (cons b) (indices (event_shape c))).
Proof. apply NoDup_map_inj; [congruence|apply indices_nodup]. Qed.
Lemma ids_row c b e : samples c -> In e (map (cons b) (indices (event_shape c))) -> row_of c e = b.
Proof. intros Hs H. apply in_map_iff in H as (j & <- & _). destruct c; try contradiction; reflexivity. Qed.

(** the log-probability of the argmax is max minus partition, and no structure has a
    larger one *)
Theorem C56_argmax_log_prob c phi o : valid c -> samples c ->
  (forall b, (b < batch_of c)%nat -> argmax_ok NEG phi (o b) [] (row_graph c b)) ->
  exists m p, q_max c phi = Ok m /\ q_partition c phi = Ok p /\
  forall b, row_ok c b -> small c b phi -> let S := spec_of c b in
    q_log_prob c phi b (q_argmax c o) = Ok (nth b m 0 - nth b p 0) /\
    forall s, ok S s -> exists x, q_log_prob c phi b (fun e => uses (prt S) e s) = Ok x /\ x <= nth b m 0 - nth b p 0.
Proof.
  intros V Hs Ho. destruct (@C14_max_is_best c phi V) as (m & Em & _ & Hm).
  assert (H0 : exists p, q_partition c phi = Ok p /\ length p = batch_of c) by apply (run_ok c (log_ops NEG) phi V).
  destruct H0 as (p & Ep & _). exists m, p. split; [exact Em|]. split; [exact Ep|].
  intros b Hb Hsm S.
  assert (LP : forall u, q_log_prob c phi b u = Ok (RSum (fun e => phi e * u e) (map (cons b) (indices (event_shape c))) - nth b p 0)).
  { intro u. unfold q_log_prob. rewrite Ep. destruct c; try contradiction; reflexivity. }
  assert (SC : forall s, ok S s -> RSum (fun e => phi e * uses (prt S) e s) (map (cons b) (indices (event_shape c))) = sc (prt S) phi s).
  { intros s Hok. apply score_event; [apply ids_nodup|]. now apply parts_in_event. }
  destruct (Hm b Hb Hsm) as [(s0 & Hs0 & E0) Hmax]. fold S in s0, Hs0, E0, Hmax. split.
  - destruct (@C15_argmax_is_optimal c phi o V Ho b Hb Hsm) as (s & Hok & Hopt & Hu & _). fold S in s, Hok, Hopt, Hu. rewrite LP. f_equal. f_equal.
    rewrite (Sum_ext_in R_csr _ (fun e => phi e * uses (prt S) e s)).
    2:{ intros e He. rewrite Hu; [reflexivity|]. now apply ids_row. }
    rewrite SC by auto. apply Rle_antisym; [now apply Hmax|]. rewrite E0. now apply Hopt.
  - intros s Hok. rewrite LP. eexists. split; [reflexivity|]. rewrite SC by auto. specialize (Hmax s Hok). lra.
Qed.
Print Assumptions C56_argmax_log_prob.

(** ** Entropy, partition and marginals: entropy = partition - <marginals, potentials>.
    [ids] is any list of parts, without repetition, that contains the parts of the row's
    structures (the whole event tensor, or the parts that occur). *)
Theorem C56_entropy_identity c phi B : valid c -> 0 <= B -> bounded c B phi ->
  exists h p, q_entropy c phi = Ok h /\ q_partition c phi = Ok p /\
  forall b ids, row_ok c b -> let S := spec_of c b in
    NoDup ids -> (forall e, In e ids -> row_of c e = b) -> (forall s, ok S s -> incl (prt S s) ids) ->
    Rabs (nth b h 0 - (nth b p 0 - RSum (fun e => q_marginals c phi e * phi e) ids))
      <= (2 + 2 * scale c B b + 2 * INR (degree c b) * B * INR (length ids)) * leak c b B.
Proof.
  intros V HB0 HB. destruct (@C17_entropy_value c phi B V HB0 HB) as (h & Eh & _ & Hh). destruct (@C20_partition_value c phi B V HB0 HB) as (p & Ep & _ & Hp).
  exists h, p. split; [exact Eh|]. split; [exact Ep|]. intros b ids Hb S Hn Hrow Hin.
  destruct (row_family V Hb) as (F & HF).
  assert (HL : exists l, Enumerates (ok S) l /\ l <> []).
  { unfold S. rewrite <- (ir_spec HF). exists (flist F). split; [apply (fenum F)|apply (ir_nonempty HF)]. }
  destruct HL as (l & Hl & Hne).
  specialize (Hh b l Hb Hl). specialize (Hp b l Hb Hl). fold S in Hh, Hp.
  rewrite entropy_avg in Hh by auto. rewrite (@avg_score _ (prt S) l phi ids Hn) in Hh by (intros s Hs; apply Hin, Hl, Hs).
  assert (HM : Rabs (RSum (fun e => q_marginals c phi e * phi e) ids - RSum (fun e => marg_spec (prt S) l phi e * phi e) ids)
      <= 2 * INR (degree c b) * B * INR (length ids) * leak c b B).
  { rewrite <- RSum_sub. eapply Rle_trans; [apply RSum_abs|].
    apply Rle_trans with (RSum (fun _ => 2 * INR (degree c b) * leak c b B * B) ids).
    - apply RSum_le. intros e He. replace (q_marginals c phi e * phi e - marg_spec (prt S) l phi e * phi e)
        with ((q_marginals c phi e - marg_spec (prt S) l phi e) * phi e) by ring.
      rewrite Rabs_mult. pose proof (@C20_marginals_value c phi B V HB0 HB b l e Hb (Hrow e He) Hl) as X. fold S in X.
      destruct (zero_free c) eqn:Z.
      + assert (Lk : leak c b B = 0) by (unfold leak; now rewrite Z). rewrite Lk in *.
        pose proof (Rabs_pos (q_marginals c phi e - marg_spec (prt S) l phi e)).
        replace (Rabs (q_marginals c phi e - marg_spec (prt S) l phi e)) with 0 by lra. lra.
      + destruct HB as [HB|HB]; [congruence|]. apply Rmult_le_compat; auto using Rabs_pos.
    - rewrite RSum_const. right. ring. }
  set (M := RSum (fun e => q_marginals c phi e * phi e) ids) in *. set (M0 := RSum (fun e => marg_spec (prt S) l phi e * phi e) ids) in *.
  set (Z0 := ln (ZS (prt S) l phi)) in *. set (lk := leak c b B) in *.
  replace ((2 + 2 * scale c B b + 2 * INR (degree c b) * B * INR (length ids)) * lk)
    with ((1 + 2 * scale c B b) * lk + lk + 2 * INR (degree c b) * B * INR (length ids) * lk) by ring.
  replace (nth b h 0 - (nth b p 0 - M)) with ((nth b h 0 - (Z0 - M0)) + ((Z0 - nth b p 0) + (M - M0))) by ring.
  eapply Rle_trans; [apply Rabs_triang|]. rewrite Rplus_assoc. apply Rplus_le_compat; [exact Hh|].
  eapply Rle_trans; [apply Rabs_triang|]. apply Rplus_le_compat; [|exact HM]. apply Rabs_le. lra.
Qed.
Print Assumptions C56_entropy_identity.

(** entropy lies between 0 and the log of the number of structures *)
Theorem C56_entropy_range c phi B : valid c -> 0 <= B -> bounded c B phi ->
  exists h, q_entropy c phi = Ok h /\
  forall b l, row_ok c b -> let S := spec_of c b in Enumerates (ok S) l ->
    - ((1 + 2 * scale c B b) * leak c b B) <= nth b h 0 <= ln (INR (length l)) + (1 + 2 * scale c B b) * leak c b B.
Proof.
  intros V HB0 HB. destruct (@C17_entropy_value c phi B V HB0 HB) as (h & Eh & _ & Hh). exists h. split; [exact Eh|]. intros b l Hb S Hl.
  specialize (Hh b l Hb Hl). fold S in Hh.
  assert (Hne : l <> []).
  { destruct (row_family V Hb) as (F & HF). intros ->. unfold S in Hl. rewrite <- (ir_spec HF) in Hl.
    apply (ir_nonempty HF). pose proof (fenum F) as HE. destruct (flist F) as [|s u]; auto. exfalso. destruct Hl as [_ Hl]. apply (Hl s). apply HE. now left. }
  pose proof (entropy_nonneg (prt S) Hne phi). pose proof (entropy_le_count (prt S) Hne phi).
  pose proof (Rle_abs (nth b h 0 - entropy_spec (prt S) l phi)). pose proof (Rle_abs (- (nth b h 0 - entropy_spec (prt S) l phi))) as X. rewrite Rabs_Ropp in X.
  unfold S in *. split; lra.
Qed.
Print Assumptions C56_entropy_range.

(** ** kmax and max *)
(** the first of the k best is max, and asking for more changes nothing in the first
    ones (as far as there are that many structures) *)
Theorem C56_kmax_prefix c k k' phi : valid c -> (0 < k <= k')%nat ->
  exists v v' m, q_kmax c k phi = Ok v /\ q_kmax c k' phi = Ok v' /\ q_max c phi = Ok m /\
  forall b l B, row_ok c b -> kbound c b B phi -> let S := spec_of c b in Enumerates (ok S) l ->
    nth 0 (nth b v []) 0 = nth b m 0 /\
    firstn (Nat.min k (length l)) (nth b v []) = firstn (Nat.min k (length l)) (nth b v' []).
Proof.
  intros V Hk. destruct (@C16_kmax c k phi V) as (v & E & _ & H); [lia|]. destruct (@C16_kmax c k' phi V) as (v' & E' & _ & H'); [lia|].
  destruct (@C14_max_is_best c phi V) as (m & Em & _ & Hm). exists v, v', m. split; [exact E|]. split; [exact E'|]. split; [exact Em|].
  intros b l B Hb HB S Hl. destruct (H b l B Hb HB Hl) as (_ & ss & K). destruct (H' b l B Hb HB Hl) as (_ & ss' & K'). fold S in ss, ss', K, K'.
  assert (Hne : (0 < length l)%nat).
  { destruct (row_family V Hb) as (F & HF). unfold S in Hl. destruct l as [|x l]; [|simpl; lia]. exfalso. rewrite <- (ir_spec HF) in Hl.
    apply (ir_nonempty HF). pose proof (fenum F) as HE. destruct (flist F) as [|s u]; auto. exfalso. destruct Hl as [_ Hl]. apply (Hl s). apply HE. now left. }
  assert (Hsm : small c b phi).
  { destruct (zero_free c) eqn:Z; [now left|]. right. exists B. destruct HB as [H1 H2]. split; [exact H1|].
    assert (Kd : kdegree c b = Nat.max 1 (degree c b)) by (destruct c; auto; discriminate). rewrite Kd in H2.
    eapply Rle_lt_trans; [|exact H2]. apply Rmult_le_compat_l; [lra|]. apply Rmult_le_compat_r; [|apply le_INR; lia].
    specialize (H1 []). pose proof (Rabs_pos (phi [])). lra. }
  assert (Vals : forall j v ss, k_best S l phi j (NEG + INR (kdegree c b) * B) v ss ->
     StronglySorted Rge (map (sc (prt S) phi) ss) /\ firstn (length ss) v = map (sc (prt S) phi) ss).
  { clear. intros j v ss K. destruct (kb_values K) as (junk & Ev & _). pose proof (kb_sorted K) as Hs. rewrite Ev in *. split.
    - clear - Hs. induction (map (sc (prt S) phi) ss) as [|x u IH]; [constructor|]. cbn [app] in Hs. inversion_clear Hs as [|? ? H1 H2].
      constructor; auto. apply Forall_app in H2. apply H2.
    - rewrite firstn_app, map_length, Nat.sub_diag, firstn_O, app_nil_r. rewrite <- (map_length (sc (prt S) phi) ss). apply firstn_all. }
  destruct (Vals _ _ _ K) as [S1 F1]. destruct (Vals _ _ _ K') as [S2 F2].
  assert (L1 : length ss = Nat.min k (length l)) by exact (kb_len K). assert (L2 : length ss' = Nat.min k' (length l)) by exact (kb_len K').
  destruct ss as [|d u] eqn:Ess; [simpl in L1; lia|]. rewrite <- Ess in *.
  assert (Hd : nth 0 ss d = d) by (rewrite Ess; reflexivity).
  split.
  - destruct (Hm b Hb Hsm) as [(s0 & Hs0 & E0) Hmax]. fold S in s0, Hs0, E0, Hmax.
    replace (nth 0 (nth b v []) 0) with (sc (prt S) phi d).
    2:{ destruct (kb_values K) as (junk & Ev & _). rewrite Ev, Ess. reflexivity. }
    apply Rle_antisym; [apply Hmax; apply (kb_ok K); rewrite Ess; now left|]. rewrite E0.
    destruct (Classical_Prop.classic (In s0 ss)) as [I|I].
    + rewrite Ess in I, S1. cbn [map] in S1. inversion_clear S1 as [|? ? _ X]. destruct I as [->|I]; [lra|].
      rewrite Forall_forall in X. apply Rge_le, X. now apply in_map.
    + apply (kb_best K s0 d Hs0 I). rewrite Ess. now left.
  - rewrite <- L1 at 1. rewrite F1. replace (Nat.min k (length l)) with (Nat.min (length ss) (length ss')) by lia.
    replace (firstn (Nat.min (length ss) (length ss')) (nth b v' [])) with (firstn (length ss) (map (sc (prt S) phi) ss')).
    2:{ rewrite <- F2. rewrite firstn_firstn. reflexivity. }
    apply (nth_ext _ _ 0 0); [rewrite firstn_length, !map_length; lia|]. intros i Hi. rewrite map_length in Hi.
    assert (Hi' : (i < length ss')%nat) by lia.
    assert (N1 : nth i (map (sc (prt S) phi) ss) 0 = sc (prt S) phi (nth i ss d)).
    { rewrite (nth_indep _ 0 (sc (prt S) phi d)) by (now rewrite map_length). apply map_nth. }
    assert (N2 : nth i (firstn (length ss) (map (sc (prt S) phi) ss')) 0 = sc (prt S) phi (nth i ss' d)).
    { transitivity (nth i (map (sc (prt S) phi) ss') 0).
      - now apply nth_firstn.
      - rewrite (nth_indep _ 0 (sc (prt S) phi d)) by (now rewrite map_length). apply map_nth. }
    rewrite N1, N2. apply Rle_antisym.
    + apply top_le; auto; [apply (kb_distinct K)|apply (kb_ok K)|apply (kb_best K')].
    + apply top_le; auto; [apply (kb_distinct K')|apply (kb_ok K')|apply (kb_best K)].
Qed.
Print Assumptions C56_kmax_prefix.

(** ** Samples, log_prob and marginals *)
Lemma prt_nodup c b s : valid c -> samples c -> row_ok c b -> ok (spec_of c b) s -> NoDup (prt (spec_of c b) s).
Proof.
  intros V Hs Hb. destruct (row_family V Hb) as (F & HF).
  assert (M : multilinear (row_graph c b)) by (apply graph_multilinear; auto; apply Hb).
  rewrite (ir_graph HF) in M. revert s. rewrite <- (ir_spec HF). cbn [ok prt fspec st].
  intros s Hok. apply (fenum F) in Hok. destruct (@structure_is_pure F s Hok) as (m & Hm & Hp & HP).
  eapply Permutation_NoDup; [exact HP|]. rewrite <- names_pure by auto. now apply M.
Qed.
Lemma event_uses (S : spec) (s : st S) e : NoDup (prt S s) -> IZR (event_of S s e) = uses (prt S) e s.
Proof.
  intro Hn. unfold event_of, uses. destruct (in_dec _ e _) as [H|H].
  - now rewrite (proj1 (NoDup_count_occ' _ _) Hn e H).
  - now rewrite (proj1 (count_occ_not_In _ _ _) H).
Qed.
(** products in which one factor differs from 1 *)
Lemma RProd_only (f : nat -> R) n k : (k < n)%nat -> (forall j, (j < n)%nat -> j <> k -> f j = 1) -> RProd f (seq 0 n) = f k.
Proof.
  intros Hk H. assert (G : forall m a, (forall j, (a <= j < a + m)%nat -> j <> k -> f j = 1) ->
    RProd f (seq a m) = if (a <=? k)%nat && (k <? a + m)%nat then f k else 1).
  { induction m as [|m IH]; intros a Ha.
    - cbn [seq]. replace ((a <=? k)%nat && (k <? a + 0)%nat) with false; [reflexivity|].
      symmetry. destruct (Nat.leb_spec a k); [|reflexivity]. cbn. apply Nat.ltb_ge. lia.
    - cbn [seq]. rewrite (Prod_cons R_csr), IH by (intros j Hj; apply Ha; lia). destruct (Nat.eq_dec a k) as [->|E].
      + rewrite Nat.leb_refl. replace (S k <=? k)%nat with false by (symmetry; apply Nat.leb_gt; lia).
        replace (k <? k + S m)%nat with true by (symmetry; apply Nat.ltb_lt; lia). cbn. ring.
      + rewrite Ha by lia. change (@eq R (1 * (if (S a <=? k)%nat && (k <? S a + m)%nat then f k else 1)) (if (a <=? k)%nat && (k <? a + S m)%nat then f k else 1)).
        rewrite Rmult_1_l. assert (X : ((S a <=? k)%nat && (k <? S a + m)%nat)%bool = ((a <=? k)%nat && (k <? a + S m)%nat)%bool).
        { apply Bool.eq_true_iff_eq. rewrite !Bool.andb_true_iff, !Nat.leb_le, !Nat.ltb_lt. lia. }
        now rewrite X. }
  rewrite G by (intros j Hj; apply H; lia). replace (k <? 0 + n)%nat with true by (symmetry; apply Nat.ltb_lt; lia). reflexivity.
Qed.
Lemma RProd_const1 A (l : list A) : RProd (fun _ => 1) l = 1.
Proof. induction l as [|x l IH]; [reflexivity|]. rewrite (Prod_cons R_csr), IH. apply Rmult_1_l. Qed.
Lemma pick_prod A n m k b (h : A -> R) (x : nat -> A) : (k < n)%nat -> (b < m)%nat ->
  RProd (fun k0 => RProd (fun b0 => (if Nat.eq_dec k0 k then if Nat.eq_dec b0 b then h else fun _ => 1 else fun _ => 1) (x k0)) (seq 0 m)) (seq 0 n) = h (x k).
Proof.
  intros Hk Hb. rewrite (@RProd_only _ n k Hk).
  - rewrite (@RProd_only _ m b Hb); [destruct (Nat.eq_dec k k); [|congruence]; destruct (Nat.eq_dec b b); [reflexivity|congruence]|].
    intros j _ Hj. destruct (Nat.eq_dec k k); [|reflexivity]. destruct (Nat.eq_dec j b); [congruence|reflexivity].
  - intros j _ Hj. destruct (Nat.eq_dec j k); [congruence|]. apply RProd_const1.
Qed.
(** one draw ([n] = 1 sample, one row) already determines the law; expectations of
    samples are averages weighted by exp(log_prob), and the frequency of a part is its
    marginal *)
Theorem C56_sample_log_prob c G phi B : valid c -> samples c -> records c G -> 0 <= B -> bounded c B phi ->
  forall n k b l, (k < n)%nat -> row_ok c b -> let S := spec_of c b in Enumerates (ok S) l ->
  exists lp, (forall s, ok S s -> q_log_prob c phi b (fun e => IZR (event_of S s e)) = Ok (lp s)) /\
  (forall h, row_fun c b h -> (forall u, Rabs (h u) <= 1) ->
     Rabs (PE (draws c G phi n) (fun o => h (q_sample c G o k)) - RSum (fun s => exp (lp s) * h (event_of S s)) l) <= 3 * leak c b B) /\
  (forall e, row_of c e = b ->
     Rabs (PE (draws c G phi n) (fun o => if Z.eq_dec (q_sample c G o k e) 1 then 1 else 0) - q_marginals c phi e)
       <= (2 + 2 * INR (degree c b)) * leak c b B).
Proof.
  intros V Hs HG HB0 HB n k b l Hk Hb S Hl.
  destruct (@C23_sample_law c G phi B V Hs HG HB0 HB) as (law & H1 & H2 & H3).
  assert (Law : forall h, row_fun c b h -> PE (draws c G phi n) (fun o => h (q_sample c G o k)) = law b h).
  { intros h Hh. specialize (H1 n (fun k0 b0 => if Nat.eq_dec k0 k then if Nat.eq_dec b0 b then h else fun _ => 1 else fun _ => 1)).
    cbv beta in H1. transitivity (RProd (fun k0 => RProd (fun b0 => law b0 (if Nat.eq_dec k0 k then if Nat.eq_dec b0 b then h else fun _ => 1 else fun _ => 1))
      (seq 0 (batch_of c))) (seq 0 n)).
    - rewrite <- H1.
      + f_equal. apply FunctionalExtensionality.functional_extensionality. intro o. symmetry. apply pick_prod; auto. apply Hb.
      + intros k0 b0 Hb0. destruct (Nat.eq_dec k0 k); [|intros u v _; reflexivity]. destruct (Nat.eq_dec b0 b) as [->|]; [exact Hh|intros u v _; reflexivity].
    - rewrite (@RProd_only _ n k Hk).
      + rewrite (@RProd_only _ (batch_of c) b (proj1 Hb)).
        * destruct (Nat.eq_dec k k); [|congruence]. destruct (Nat.eq_dec b b); [reflexivity|congruence].
        * intros j Hj Hne. destruct (Nat.eq_dec k k); [|congruence]. destruct (Nat.eq_dec j b); [congruence|]. now apply H2.
      + intros j Hj Hne. transitivity (RProd (fun _ : nat => 1) (seq 0 (batch_of c))); [|apply RProd_const1].
        apply (Prod_ext_in R_csr). intros i Hi. destruct (Nat.eq_dec j k); [congruence|]. apply H2. apply in_seq in Hi. lia. }
  destruct (@C21_log_prob_normalised c phi B V HB0 HB Hs b l Hb Hl) as (lp & Hlp & _ & Hp). fold S in lp, Hlp, Hp.
  assert (Hne : l <> []).
  { destruct (row_family V Hb) as (F & HF). intros ->. unfold S in Hl. rewrite <- (ir_spec HF) in Hl.
    apply (ir_nonempty HF). pose proof (fenum F) as HE. destruct (flist F) as [|s u]; auto. exfalso. destruct Hl as [_ Hl]. apply (Hl s). apply HE. now left. }
  exists lp. split; [|split].
  - intros s Hok. rewrite <- (Hlp s). f_equal. apply FunctionalExtensionality.functional_extensionality. intro e. apply event_uses. now apply prt_nodup.
  - intros h Hh Hh1. rewrite Law by auto. specialize (H3 b l h Hb Hl Hh Hh1). fold S in H3.
    assert (D : Rabs (RSum (fun s => prob (prt S) l phi s * h (event_of S s)) l - RSum (fun s => exp (lp s) * h (event_of S s)) l) <= leak c b B).
    { rewrite <- RSum_sub. eapply Rle_trans; [apply RSum_abs|].
      apply Rle_trans with (RSum (fun s => prob (prt S) l phi s * leak c b B) l).
      - apply RSum_le. intros s Hin. apply Hl in Hin. specialize (Hp s Hin). specialize (Hh1 (event_of S s)).
        replace (prob (prt S) l phi s * h (event_of S s) - exp (lp s) * h (event_of S s)) with ((prob (prt S) l phi s - exp (lp s)) * h (event_of S s)) by ring.
        rewrite Rabs_mult, (Rabs_right (prob (prt S) l phi s - exp (lp s))) by lra.
        apply Rle_trans with ((prob (prt S) l phi s - exp (lp s)) * 1); [apply Rmult_le_compat_l; lra|]. lra.
      - rewrite RSum_scar, prob_sum by auto. lra. }
    replace (law b h - RSum (fun s => exp (lp s) * h (event_of S s)) l) with
      ((law b h - RSum (fun s => prob (prt S) l phi s * h (event_of S s)) l) +
       (RSum (fun s => prob (prt S) l phi s * h (event_of S s)) l - RSum (fun s => exp (lp s) * h (event_of S s)) l)) by ring.
    eapply Rle_trans; [apply Rabs_triang|]. lra.
  - intros e He. set (h := fun u : list nat -> Z => if Z.eq_dec (u e) 1 then 1 else 0).
    assert (Hh : row_fun c b h) by (intros u v E; unfold h; now rewrite E).
    assert (Hh1 : forall u, Rabs (h u) <= 1) by (intro u; unfold h; destruct (Z.eq_dec (u e) 1); rewrite ?Rabs_R1, ?Rabs_R0; lra).
    change (PE (draws c G phi n) (fun o => if Z.eq_dec (q_sample c G o k e) 1 then 1 else 0)) with (PE (draws c G phi n) (fun o => h (q_sample c G o k))).
    rewrite Law by auto. specialize (H3 b l h Hb Hl Hh Hh1). fold S in H3.
    replace (RSum (fun s => prob (prt S) l phi s * h (event_of S s)) l) with (marg_spec (prt S) l phi e) in H3.
    2:{ apply (Sum_ext_in R_csr). intros s Hin. apply Hl in Hin. change (prob (prt S) l phi s * uses (prt S) e s = prob (prt S) l phi s * h (event_of S s)). f_equal.
        rewrite <- event_uses by (now apply prt_nodup). unfold h, event_of. destruct (in_dec _ e _); reflexivity. }
    pose proof (@C20_marginals_value c phi B V HB0 HB b l e Hb He Hl) as X. fold S in X.
    replace (law b h - q_marginals c phi e) with ((law b h - marg_spec (prt S) l phi e) - (q_marginals c phi e - marg_spec (prt S) l phi e)) by ring.
    eapply Rle_trans; [apply Rabs_triang|]. rewrite Rabs_Ropp. lra.
Qed.
Print Assumptions C56_sample_log_prob.

(** the hypotheses are met: by the example calls of P_Real, with the whole event tensor as
    [ids] ... *)
Example ex_C56 : Forall (fun c => valid c /\ samples c /\ bounded c 3 ex_phi /\ (exists G, records c G) /\
  (exists o, forall b, (b < batch_of c)%nat -> argmax_ok NEG ex_phi (o b) [] (row_graph c b)) /\
  forall b, (b < 2)%nat -> row_ok c b /\ small c b ex_phi /\ kbound c b 3 ex_phi /\
    let ids := map (cons b) (indices (event_shape c)) in
    NoDup ids /\ (forall e, In e ids -> row_of c e = b) /\ forall s, ok (spec_of c b) s -> incl (prt (spec_of c b) s) ids)
  [ex_lin; ex_semi; ex_tree; ex_dep].
Proof.
  pose proof ex_hypotheses as H1. pose proof ex_sampling as H2. pose proof ex_kmax as H3. rewrite Forall_forall in *. intros c Hc.
  assert (Hc' : In c ex_calls) by (unfold ex_calls; cbn in *; tauto).
  destruct (H1 c Hc') as (V & _ & Hr & HB). destruct (H2 c Hc) as (_ & Hs & HG). destruct (H3 c Hc') as (_ & Hk & _).
  split; [exact V|]. split; [exact Hs|]. split; [exact HB|]. split; [exact HG|]. split; [now apply argmax_exists_batch|].
  intros b Hb. destruct (Hr b Hb) as [R1 R2]. destruct (Hk b Hb) as [_ K]. split; [exact R1|]. split; [exact R2|]. split; [exact K|].
  cbv zeta. split; [apply ids_nodup|]. split; [intros e; now apply ids_row|]. intros s Hok. now apply parts_in_event.
Qed.
(** ... and for a dependency tree distribution all the relations are exact *)
Example ex_C56_exact : exists h p, q_entropy ex_dep ex_phi = Ok h /\ q_partition ex_dep ex_phi = Ok p /\
  forall b, (b < 2)%nat -> nth b h 0 = nth b p 0 - RSum (fun e => q_marginals ex_dep ex_phi e * ex_phi e) (map (cons b) (indices (event_shape ex_dep))).
Proof.
  pose proof ex_C56 as H. rewrite Forall_forall in H. destruct (H ex_dep) as (V & Hs & HB & _ & _ & Hr); [cbn; tauto|].
  destruct (@C56_entropy_identity ex_dep ex_phi 3 V) as (h & p & Eh & Ep & K); [lra|exact HB|].
  exists h, p. split; [exact Eh|]. split; [exact Ep|]. intros b Hb. destruct (Hr b Hb) as (R1 & _ & _ & I1 & I2 & I3).
  specialize (K b _ R1 I1 I2 I3). change (leak ex_dep b 3) with 0 in K. rewrite Rmult_0_r in K.
  apply Rminus_diag_uniq. match type of K with Rabs ?x <= 0 => pose proof (Rle_abs x); pose proof (Rle_abs (- x)) as Y; rewrite Rabs_Ropp in Y end. lra.
Qed.
