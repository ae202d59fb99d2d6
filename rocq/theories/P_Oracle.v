(** * P_Oracle: what the comparisons of the test-suite establish, for every size (C58).

    The tests compare each dynamic program with a brute-force enumeration, on
    random inputs with at most four words. The theorems below say that the
    comparison comes out right for every size, every batch row and every
    potential: the enumerations are exactly the structures of the specification. *)
From Coq Require Import ZArith Sorted.
From Verif Require Import Base Ops Terms Semirings Poly Chain LinearChain SemiMarkov CkyCrf Cky DepSpec DepTree
  Batch Family Approx Grad Sample Dist Purity Degree Shape Api Query P_Real P_Count KMax P_KMax Adapters P_Adapt
  NpSpec MatTree MxR NonProj P_NonProj P_Cross Instances Oracle OracleSpec.
Set Implicit Arguments.
Local Open Scope R_scope.

(** the list that a test enumerates for row b of a call: extensions.py:76, 165
    ([ls]), 112-114 ([parses]), 309-311 and 364-366 ([ls]) *)
Definition oracle (c : call) (b : nat) (O : ops) (pot : list nat -> car O) : list (car O) :=
  match c with
  | CLin _ N C _ => map snd (lco_chains O pot b C (N - 1))
  | CSemi _ N K C _ => map snd (smo_chains O pot b K C (N - 1))
  | CTree _ N NT _ => cko_scores O pot b NT N
  | CCfg _ N NT T _ => cyo_scores O pot b NT T N
  | CDep mr _ n _ _ => map (dpo_score O pot b) (kept false mr n)
  end.
(** calls that the tests compare: no lengths, no arc labels; a one-word sentence has no CFG
    parse (torch.stack of nothing raises) and an empty one no dependency arc (times of
    nothing raises) *)
Definition tested (c : call) : Prop :=
  match c with
  | CLin _ _ _ ls | CSemi _ _ _ _ ls | CTree _ _ _ ls => ls = None
  | CCfg _ N _ _ ls => ls = None /\ (2 <= N)%nat
  | CDep _ _ n lab ls => lab = None /\ ls = None /\ (1 <= n)%nat
  end.
Lemma tested_row c b : valid c -> tested c -> (b < batch_of c)%nat -> row_ok c b.
Proof.
  destruct c as [batch N C ls|batch N K C ls|batch N NT ls|batch N NT T' ls|mr batch n lab ls]; cbn; intros V T Hb; split; auto.
  - destruct T as [-> T]. unfold eff_len, lc_len. destruct (N =? 0)%nat eqn:E; lia.
  - destruct T as (-> & -> & T). destruct mr; cbn; auto.
Qed.

(** ** The oracle lists the structures of the specification, each once, with its score *)
Theorem C58_enumeration c b O (pot : list nat -> car O) : mlaws O -> valid c -> tested c -> (b < batch_of c)%nat ->
  exists l, Enumerates (ok (spec_of c b)) l /\
    oracle c b O pot = map (fun s => mprod O pot (prt (spec_of c b) s)) l.
Proof.
  intros H V T Hb. destruct c as [batch N C ls|batch N K C ls|batch N NT ls|batch N NT T' ls|mr batch n lab ls]; cbn [valid tested] in V, T.
  - subst ls. exists (rseqs C (N - 1)). destruct V as (HN & _ & _). cbn [spec_of ok prt lc_len oracle]. split.
    + replace (Nat.max 1 N) with (N - 1 + 1)%nat by lia. apply rseqs_enum.
    + rewrite (lco_spec H), map_map. reflexivity.
  - subst ls. exists (rsegs K C (N - 1) (N - 1)). destruct V as (HN & _). cbn [spec_of ok prt lc_len oracle]. split.
    + pose proof (rsegs_enum K C (le_n (N - 1))) as Q. replace (N - 1 + 1)%nat with N in Q by lia. exact Q.
    + rewrite (smo_chains_spec H), map_map. reflexivity.
  - subst ls. exists (flat_map (xtrees NT N N) (seq 0 NT)). destruct V as (HN & _). cbn [spec_of ok prt lc_len oracle].
    replace (eff_len N N) with N by (unfold eff_len; destruct (N =? 0)%nat; reflexivity). split; [apply lltrees_enum|].
    apply (cko_scores_spec H). lia.
  - destruct T as [-> T]. exists (flat_map (qtrees NT T' N N) (seq 0 NT)). cbn [spec_of ok prt lc_len oracle].
    replace (eff_len N N) with N by (unfold eff_len; destruct (N =? 0)%nat; reflexivity). split; [apply qparses_enum; auto|].
    apply (cyo_scores_spec H). auto.
  - destruct T as (-> & -> & T). exists (kept false mr n). cbn [spec_of ok prt lc_len oracle]. split.
    + eapply Enumerates_ext; [|apply (@kept_enum false mr n); auto]. intro h. unfold dep_ok. destruct mr; intuition discriminate.
    + apply map_ext. intro h. apply (dpo_spec H).
Qed.
Print Assumptions C58_enumeration.

(** ** Commutative semirings (StdSemiring and the tests that count): equality *)
Lemma csr_mlaws S : mlaws (csr_ops S).
Proof. pose proof (csr_srt S) as P. destruct P. split; cbn; intros; [apply SRmul_assoc|apply SRmul_comm|apply SRmul_1_l]. Qed.
Lemma mprod_csr S pot l : mprod (csr_ops S) pot l = Prod S pot l.
Proof. induction l as [|e l IH]; [reflexivity|]. rewrite mprod_cons, IH. reflexivity. Qed.
Theorem C58_semiring c (S : csr) pot : valid c -> tested c ->
  exists v, run c (csr_ops S) pot = Ok v /\ length v = batch_of c /\
  forall b d, (b < batch_of c)%nat -> nth b v d = ssum (csr_ops S) (oracle c b (csr_ops S) pot).
Proof.
  intros V T. destruct (run_ok c (csr_ops S) pot V) as (v & E & L). exists v. split; [exact E|]. split; [exact L|].
  intros b d Hb. destruct (row_family V (@tested_row c b V T Hb)) as (F & HF).
  destruct (ir_run HF (csr_ops S) pot d) as (v' & E' & _ & En). rewrite E in E'. injection E' as <-. rewrite En.
  destruct (@C58_enumeration c b (csr_ops S) pot (csr_mlaws S) V T Hb) as (l & Hl & Eo). rewrite Eo. clear Eo.
  revert l Hl. rewrite <- (ir_spec HF). cbn [ok prt fspec st]. intros l Hl.
  rewrite (fcorrect F S pot). rewrite (Sum_perm S _ (row_perm HF Hl)).
  unfold Sum. cbn [ssum csr_ops]. f_equal. apply map_ext. intro s. symmetry. apply mprod_csr.
Qed.
Print Assumptions C58_semiring.

(** ** LogSemiring and MaxSemiring (test_log_shapes, test_cky) *)
Lemma log_mlaws z : mlaws (log_ops z).
Proof. split; cbn; intros; lra. Qed.
Lemma max_mlaws z : mlaws (max_ops z).
Proof. split; cbn; intros; lra. Qed.
Lemma mprod_log z phi l : mprod (log_ops z) phi l = RSum phi l.
Proof. induction l as [|e l IH]; [reflexivity|]. rewrite mprod_cons, IH, RSum_cons. reflexivity. Qed.
Lemma mprod_max z phi l : mprod (max_ops z) phi l = RSum phi l.
Proof. induction l as [|e l IH]; [reflexivity|]. rewrite mprod_cons, IH, RSum_cons. reflexivity. Qed.
Lemma oracle_log c b z (phi : list nat -> R) : valid c -> tested c -> (b < batch_of c)%nat ->
  exists l, Enumerates (ok (spec_of c b)) l /\ oracle c b (log_ops z) phi = map (sc (prt (spec_of c b)) phi) l.
Proof.
  intros V T Hb. destruct (@C58_enumeration c b (log_ops z) phi (log_mlaws z) V T Hb) as (l & Hl & E). exists l. split; [exact Hl|].
  rewrite E. apply map_ext. intro s. apply mprod_log.
Qed.
Lemma oracle_max c b z (phi : list nat -> R) : valid c -> tested c -> (b < batch_of c)%nat ->
  exists l, Enumerates (ok (spec_of c b)) l /\ oracle c b (max_ops z) phi = map (sc (prt (spec_of c b)) phi) l.
Proof.
  intros V T Hb. destruct (@C58_enumeration c b (max_ops z) phi (max_mlaws z) V T Hb) as (l & Hl & E). exists l. split; [exact Hl|].
  rewrite E. apply map_ext. intro s. apply mprod_max.
Qed.
(** logsumexp of the enumerated scores, against the dynamic program *)
Theorem C58_log c phi B : valid c -> tested c -> 0 <= B -> bounded c B phi ->
  exists v, q_partition c phi = Ok v /\ length v = batch_of c /\
  forall b, (b < batch_of c)%nat -> 0 <= nth b v 0 - lse (oracle c b (log_ops NEG) phi) <= leak c b B.
Proof.
  intros V T HB0 HB. destruct (@C20_partition_value c phi B V HB0 HB) as (v & E & L & H). exists v. split; [exact E|]. split; [exact L|].
  intros b Hb. destruct (@oracle_log c b NEG phi V T Hb) as (l & Hl & Eo). rewrite Eo. unfold lse. rewrite (Sum_map R_csr).
  apply (H b l (@tested_row c b V T Hb) Hl).
Qed.
Print Assumptions C58_log.
Theorem C58_max c phi : valid c -> tested c ->
  exists v, q_max c phi = Ok v /\ length v = batch_of c /\
  forall b, (b < batch_of c)%nat -> small c b phi -> nth b v 0 = rmax (oracle c b (max_ops NEG) phi).
Proof.
  intros V T. destruct (@C14_max_is_best c phi V) as (v & E & L & H). exists v. split; [exact E|]. split; [exact L|].
  intros b Hb Hs. destruct (H b (@tested_row c b V T Hb) Hs) as ((s & Hs1 & Es) & Hmax). destruct (@oracle_max c b NEG phi V T Hb) as (l & Hl & Eo). rewrite Eo.
  assert (Hin : In s l) by (now apply Hl).
  assert (Hne : map (sc (prt (spec_of c b)) phi) l <> []) by (destruct l; [destruct Hin|discriminate]).
  destruct (rmax_is_max Hne) as [Hm1 Hm2]. apply Rle_antisym.
  - rewrite Es. apply Hm2. now apply in_map.
  - apply in_map_iff in Hm1 as (s' & <- & Hs'). apply Hmax. now apply Hl.
Qed.
Print Assumptions C58_max.

(** ** Counting, and test_linear_chain_counting *)
Theorem C58_count c : valid c -> tested c -> (forall a b d e f, c <> CCfg a b d e f) ->
  exists v, q_count c (fun _ => false) = Ok v /\ length v = batch_of c /\
  forall b z phi, (b < batch_of c)%nat -> nth b v 0 = INR (length (oracle c b (log_ops z) phi)).
Proof.
  intros V T Hc. destruct (@C40_count c (fun _ => false) V Hc) as (v & E & L & H). exists v. split; [exact E|]. split; [exact L|].
  intros b z phi Hb. destruct (@oracle_log c b z phi V T Hb) as (l & Hl & Eo). rewrite Eo, map_length.
  rewrite (H b l (@tested_row c b V T Hb) Hl). f_equal. f_equal. apply P_Count.filter_all. intro s. apply forallb_forall. reflexivity.
Qed.
Print Assumptions C58_count.

(** ** KMaxSemiring (test_kmax): the values are torch.topk of the enumeration *)
Lemma NoDup_incl_perm A (l l' : list A) : NoDup l -> incl l l' -> exists r, Permutation l' (l ++ r).
Proof.
  revert l'. induction l as [|x l IH]; intros l' Hn Hi; [exists l'; reflexivity|]. inversion Hn; subst.
  destruct (in_split x l' (Hi x (or_introl eq_refl))) as (l1 & l2 & ->).
  destruct (IH (l1 ++ l2)) as (r & Hr); [auto| |].
  - intros y Hy. specialize (Hi y (or_intror Hy)). apply in_app_iff in Hi. apply in_app_iff. destruct Hi as [Hi|[->|Hi]]; auto. contradiction.
  - exists r. cbn [app]. rewrite <- Hr. symmetry. apply Permutation_middle.
Qed.
Lemma NoDup_app_not A (l m : list A) x : NoDup (l ++ m) -> In x l -> In x m -> False.
Proof.
  induction l as [|y l IH]; intros Hn Hl Hm; [destruct Hl|]. cbn [app] in Hn. inversion Hn; subst. destruct Hl as [->|Hl]; [|auto].
  apply H1. apply in_app_iff. auto.
Qed.
Lemma desc_app_topk a r : desc a -> (forall x y, In x a -> In y r -> y <= x) -> forall k, (k = length a \/ (length a <= k)%nat /\ r = []) -> a = topk k (a ++ r).
Proof.
  intros Hd Hr k Hk. apply topk_char; [exact Hd|]. intro y. rewrite cge_app. pose proof (cge_le y a) as L.
  destruct Hk as [->|[Hk ->]]; [|cbn; lia]. destruct (Nat.eq_dec (cge y a) (length a)) as [E|N]; [lia|].
  enough (cge y r = 0%nat) by lia. apply cge_zero. intros x Hx. destruct (Rlt_dec x y) as [G|G]; [exact G|]. exfalso. apply N. apply cge_all.
  intros z Hz. specialize (Hr z x Hz Hx). lra.
Qed.
Lemma ge_desc v : StronglySorted Rge v -> desc v.
Proof. induction 1 as [|x v Hv IH Hx]; constructor; auto. eapply Forall_impl; [|exact Hx]. intros a Ha. lra. Qed.
Lemma desc_app_l a r : desc (a ++ r) -> desc a.
Proof.
  induction a as [|x a IH]; intro H; [constructor|]. cbn [app] in H. inversion H; subst. constructor; [apply IH; exact H2|].
  apply Forall_forall. intros y Hy. rewrite Forall_forall in H3. apply H3. apply in_app_iff. auto.
Qed.
Theorem C58_kmax c k phi : valid c -> tested c -> (0 < k)%nat ->
  exists v, q_kmax c k phi = Ok v /\ length v = batch_of c /\
  forall b B, (b < batch_of c)%nat -> kbound c b B phi ->
    let ls := oracle c b (max_ops NEG) phi in
    length (nth b v []) = k /\ firstn (length ls) (nth b v []) = topk k ls.
Proof.
  intros V T Hk. destruct (@C16_kmax c k phi V Hk) as (v & E & L & H). exists v. split; [exact E|]. split; [exact L|].
  intros b B Hb HB ls. unfold ls. clear ls. destruct (@oracle_max c b NEG phi V T Hb) as (l & Hl & Eo). rewrite Eo, map_length.
  destruct (H b l B (@tested_row c b V T Hb) HB Hl) as (H1 & ss & [K1 K2 K3 (junk & K4 & K4') K5 K6]). split; [exact H1|].
  destruct (@NoDup_incl_perm _ ss l K2) as (r & Hr); [intros s Hs; apply Hl, K3, Hs|].
  set (f := sc (prt (spec_of c b)) phi) in *.
  assert (Q : map f ss = topk k (map f l)).
  { rewrite (topk_perm k (Permutation_map f Hr)), map_app. apply desc_app_topk.
    - apply desc_app_l with junk. rewrite <- K4. now apply ge_desc.
    - intros x y Hx Hy. apply in_map_iff in Hx as (s & <- & Hs). apply in_map_iff in Hy as (s' & <- & Hs'). apply K6; [| |exact Hs].
      + apply Hl. apply (Permutation_in s' (Permutation_sym Hr)). apply in_app_iff. auto.
      + intro Hin. destruct Hl as [Hn _]. apply (Permutation_NoDup Hr) in Hn. apply (@NoDup_app_not _ _ _ s' Hn); auto.
    - rewrite map_length. apply Permutation_length in Hr. rewrite app_length in Hr. destruct (Nat.le_gt_cases k (length l)) as [G|G]; [left; lia|].
      right. split; [lia|]. destruct r; [reflexivity|cbn in Hr; lia]. }
  rewrite <- Q, K4, firstn_app, map_length. rewrite firstn_all2 by (rewrite map_length; lia).
  assert (Lj : (length ss + length junk = k)%nat) by (rewrite K4, app_length, map_length in H1; exact H1).
  destruct (Nat.le_gt_cases k (length l)) as [G|G].
  - replace junk with (@nil R) by (destruct junk; [reflexivity|cbn in Lj; lia]). now rewrite firstn_nil, app_nil_r.
  - replace (length l - length ss)%nat with 0%nat by lia. cbn [firstn]. apply app_nil_r.
Qed.
Print Assumptions C58_kmax.

(** ** EntropySemiring (test_entropy): the formula the test evaluates on the enumeration *)
Definition test_entropy (log_z : R) (ls : list R) : R := - RSum (fun x => (x - log_z) * exp (x - log_z)) ls.
Lemma one_minus_exp x : 0 <= x -> 0 <= 1 - exp (- x) <= x.
Proof.
  intro H. pose proof (exp_ineq1_le (- x)). split; [|lra].
  assert (exp (- x) <= exp 0) by (destruct H as [H| <-]; [left; apply exp_increasing; lra|rewrite Ropp_0; lra]). rewrite exp_0 in *. lra.
Qed.
Theorem C58_entropy c phi B : valid c -> tested c -> 0 <= B -> bounded c B phi ->
  exists z h, q_partition c phi = Ok z /\ q_entropy c phi = Ok h /\
  forall b, (b < batch_of c)%nat -> let ls := oracle c b (log_ops NEG) phi in
    Rabs (test_entropy (nth b z 0) ls - nth b h 0) <= (2 + 2 * scale c B b + ln (INR (length ls))) * leak c b B.
Proof.
  intros V T HB0 HB. destruct (@C20_partition_value c phi B V HB0 HB) as (z & Ez & _ & Hz).
  destruct (@C17_entropy_value c phi B V HB0 HB) as (h & Eh & _ & Hh). exists z, h. split; [exact Ez|]. split; [exact Eh|].
  intros b Hb ls. unfold ls. clear ls. pose proof (@tested_row c b V T Hb) as Hr.
  destruct (@oracle_log c b NEG phi V T Hb) as (l & Hl & Eo). rewrite Eo, map_length. clear Eo.
  specialize (Hz b l Hr Hl). specialize (Hh b l Hr Hl). set (f := sc (prt (spec_of c b)) phi) in *.
  set (H0 := entropy_spec (prt (spec_of c b)) l phi) in *. set (d := nth b z 0 - ln (ZS (prt (spec_of c b)) l phi)) in *.
  assert (Hne : l <> []).
  { intros ->. destruct (row_family V Hr) as (F & HF). apply (ir_nonempty HF). revert Hl. rewrite <- (ir_spec HF). cbn [ok prt fspec st]. intro Hl.
      apply Permutation_nil. symmetry. apply (row_perm HF Hl). }
  assert (Ht : test_entropy (nth b z 0) (map f l) = exp (- d) * (H0 + d)).
  { unfold test_entropy. rewrite (Sum_map R_csr).
    pose proof (ZS_pos (prt (spec_of c b)) phi Hne) as PZ. set (Z := ZS (prt (spec_of c b)) l phi) in *.
    assert (Q : forall s, (f s - nth b z 0) * exp (f s - nth b z 0) = exp (- d) * (prob (prt (spec_of c b)) l phi s * ln (prob (prt (spec_of c b)) l phi s)) + (- (d * exp (- d))) * prob (prt (spec_of c b)) l phi s).
    { intro s. assert (P : prob (prt (spec_of c b)) l phi s = exp (f s - ln Z)) by (unfold prob; fold Z; unfold Rminus, Rdiv; rewrite exp_plus, exp_Ropp, exp_ln by exact PZ; reflexivity).
      rewrite P, ln_exp. replace (f s - nth b z 0) with ((f s - ln Z) + - d) by (unfold d; ring). rewrite exp_plus. ring. }
    rewrite (Sum_ext R_csr _ _ _ Q), RSum_add, !RSum_scal. rewrite (prob_sum _ _ Hne). unfold H0, entropy_spec. lra. }
  rewrite Ht. destruct (one_minus_exp (proj1 Hz)) as [E1 E2].
  assert (E3 : Rabs (exp (- d) * (H0 + d) - H0) <= (1 + H0) * leak c b B).
  { assert (P0 : 0 <= H0).
    { unfold H0. apply entropy_nonneg. exact Hne. }
    pose proof (exp_pos (- d)) as Pe. set (e := exp (- d)) in *. set (L := leak c b B) in *. clearbody e L d H0.
    assert (M1 : (1 - e) * H0 <= L * H0) by (apply Rmult_le_compat_r; lra).
    assert (M2 : 0 <= (1 - e) * H0) by (apply Rmult_le_pos; lra). assert (M3 : e * d <= 1 * d) by (apply Rmult_le_compat_r; lra).
    assert (M4 : 0 <= e * d) by (apply Rmult_le_pos; lra). assert (M5 : 0 <= L * H0) by lra. apply Rabs_le. split; lra. }
  replace (exp (- d) * (H0 + d) - nth b h 0) with ((exp (- d) * (H0 + d) - H0) + - (nth b h 0 - H0)) by ring.
  eapply Rle_trans; [apply Rabs_triang|]. rewrite Rabs_Ropp.
  pose proof (entropy_le_count (prt (spec_of c b)) Hne phi) as Hc. fold H0 in Hc. assert (0 <= leak c b B) by lra. nra.
Qed.
Print Assumptions C58_entropy.

(** ** The filters of the dependency oracle decide what their names say *)
Theorem C58_filters mid : let n := length mid in
  (is_spanning (parse_of mid) = true <-> is_tree n mid) /\
  (is_tree n mid -> (is_projective (parse_of mid) = true <-> is_proj n mid)) /\
  (is_tree n mid -> (1 <= n)%nat -> (is_multi_root (parse_of mid) = false <-> single_root mid)).
Proof.
  intro n. split; [apply is_spanning_tree|]. split; [apply is_projective_proj|]. intros T Hn.
  rewrite multi_root_count, Nat.ltb_ge. pose proof (tree_root T Hn). unfold single_root. lia.
Qed.
Print Assumptions C58_filters.

(** ** test_non_proj: the comparison that is commented out (test_algorithms.py:398 and 406) *)
Lemma kept_np multi n : (multi = false -> (1 <= n)%nat) -> Enumerates (np_ok multi n) (kept true multi n).
Proof. intro H. eapply Enumerates_ext; [|apply (@kept_enum true multi n H)]. intro h. unfold np_ok. tauto. Qed.
Lemma lse_np phi b multi n : lse (map (dpo_score (log_ops NEG) phi b) (kept true multi n)) = ln (ZS (dep_parts b) (kept true multi n) phi).
Proof.
  unfold lse, ZS. rewrite (Sum_map R_csr). f_equal. apply (Sum_ext R_csr). intro h. f_equal. unfold sc.
  rewrite (dpo_spec (log_mlaws NEG)). apply mprod_log.
Qed.
(** without smoothing it holds exactly *)
Theorem C58_nonproj_exact multi n phi b : (1 <= n)%nat ->
  deptree_part multi n None 0 (real_row phi b) = Ok (Fin (lse (map (dpo_score (log_ops NEG) phi b) (kept true multi n)))).
Proof. intro Hn. rewrite lse_np. apply C11_partition_exact; [auto|]. apply kept_np. auto. Qed.
Print Assumptions C58_nonproj_exact.
(** with the code's smoothing of every score the result is larger, for two words or more *)
Lemma RSum_lt_some A (f g : A -> R) l x : In x l -> f x < g x -> (forall y, In y l -> f y <= g y) -> RSum f l < RSum g l.
Proof.
  induction l as [|y l IH]; intros Hin Hx Hle; [destruct Hin|]. rewrite !RSum_cons.
  assert (RSum f l <= RSum g l) by (apply RSum_le; intros; apply Hle; right; auto). pose proof (Hle y (or_introl eq_refl)).
  destruct Hin as [->|Hin]; [lra|]. specialize (IH Hin Hx (fun z Hz => Hle z (or_intror Hz))). lra.
Qed.
Lemma RProd_le A (f g : A -> R) l : (forall x, In x l -> 0 <= f x <= g x) -> RProd f l <= RProd g l.
Proof.
  induction l as [|x l IH]; intro H; [apply Rle_refl|]. change (f x * RProd f l <= g x * RProd g l).
  pose proof (H x (or_introl eq_refl)). assert (0 <= RProd f l) by (apply RProd_nonneg; intros y Hy; apply H; right; auto).
  specialize (IH (fun y Hy => H y (or_intror Hy))). apply Rmult_le_compat; lra.
Qed.
Lemma RProd_lt A (f g : A -> R) l x : In x l -> f x < g x -> (forall y, In y l -> 0 < f y <= g y) -> RProd f l < RProd g l.
Proof.
  induction l as [|y l IH]; intros Hin Hx Hle; [destruct Hin|]. change (f y * RProd f l < g y * RProd g l).
  pose proof (Hle y (or_introl eq_refl)). assert (P : 0 < RProd f l) by (apply RProd_pos; intros z Hz; apply Hle; right; auto).
  assert (Q : RProd f l <= RProd g l) by (apply RProd_le; intros z Hz; specialize (Hle z (or_intror Hz)); lra).
  destruct Hin as [->|Hin].
  - apply Rlt_le_trans with (g x * RProd f l); [apply Rmult_lt_compat_r; lra|apply Rmult_le_compat_l; lra].
  - specialize (IH Hin Hx (fun z Hz => Hle z (or_intror Hz))). apply Rlt_le_trans with (f y * RProd g l); [apply Rmult_lt_compat_l; lra|apply Rmult_le_compat_r; lra].
Qed.
Lemma RProd_mul A (f g : A -> R) l : RProd (fun x => f x * g x) l = RProd f l * RProd g l.
Proof. induction l as [|x l IH]; [symmetry; apply Rmult_1_l|]. change (f x * g x * RProd (fun x => f x * g x) l = f x * RProd f l * (g x * RProd g l)). rewrite IH. ring. Qed.
Lemma RProd_const A (k : R) (l : list A) : RProd (fun _ => k) l = k ^ length l.
Proof. induction l as [|x l IH]; [reflexivity|]. change (k * RProd (fun _ => k) l = k * k ^ length l). now rewrite IH. Qed.
Lemma ln_pow_ x n : 0 < x -> ln (x ^ n) = INR n * ln x.
Proof. intro H. induction n as [|n IH]; [cbn [pow]; rewrite ln_1; cbn; lra|]. rewrite <- tech_pow_Rmult, ln_mult, IH, S_INR; [lra|exact H|now apply pow_lt]. Qed.
Theorem C58_nonproj_smoothed multi n phi b eps B : (2 <= n)%nat -> 0 < eps -> (forall e, Rabs (phi e) <= B) ->
  exists x, deptree_part multi n None eps (real_row phi b) = Ok (Fin x) /\
    let count := lse (map (dpo_score (log_ops NEG) phi b) (kept true multi n)) in
    count < x <= count + INR n * ln (1 + eps * exp B).
Proof.
  intros Hn He HB. cbv zeta. rewrite lse_np. assert (HN : multi = false -> (1 <= n)%nat) by lia. pose proof (kept_np HN) as Hk.
  rewrite (@C11_partition multi n eps (real_row phi b) _ HN (Rlt_le _ _ He) Hk). set (l := kept true multi n) in *.
  set (W := RSum (fun h => RProd (tw eps (real_row phi b) h) (seq 0 n)) l).
  assert (Q : forall h j, 0 < tw 0 (real_row phi b) h j <= tw eps (real_row phi b) h j /\ tw eps (real_row phi b) h j <= tw 0 (real_row phi b) h j * (1 + eps * exp B)).
  { intros h j. assert (PB : forall e, 1 <= exp (phi e) * exp B).
    { intro e. rewrite <- exp_plus. rewrite <- exp_0 at 1. specialize (HB e).
      assert (0 <= phi e + B) by (pose proof (Rle_abs (- phi e)); rewrite Rabs_Ropp in *; lra).
      destruct H as [H|<-]; [left; now apply exp_increasing|apply Rle_refl]. }
    unfold tw, real_row, eexp. pose proof (exp_pos B). destruct (nth j h 0%nat) as [|k].
    - pose proof (exp_pos (phi [b; j; j])). specialize (PB [b; j; j]). split; [lra|]. assert (0 <= eps * exp B) by nra. nra.
    - pose proof (exp_pos (phi [b; k; j])). specialize (PB [b; k; j]). split; [lra|]. assert (eps * 1 <= eps * (exp (phi [b; k; j]) * exp B)) by (apply Rmult_le_compat_l; lra). lra. }
  assert (EZ : RSum (fun h => RProd (tw 0 (real_row phi b) h) (seq 0 n)) l = ZS (dep_parts b) l phi).
  { unfold ZS. apply (Sum_ext_in R_csr). intros h Hh. apply tw_exp. apply Hk in Hh as [[L _] _]. exact L. }
  assert (Hub : np_ok multi n (hub n 0)) by (apply hub_ok; lia).
  assert (P : 0 < ZS (dep_parts b) l phi).
  { apply ZS_pos. intros E. apply Hk in Hub. rewrite E in Hub. destruct Hub. }
  assert (Lt : ZS (dep_parts b) l phi < W).
  { rewrite <- EZ. unfold W. apply RSum_lt_some with (x := hub n 0).
    - apply Hk. exact Hub.
    - apply RProd_lt with (x := 1%nat); [apply in_seq; lia| |intros; apply Q].
      unfold tw, real_row, eexp, hub. rewrite nth_map_seq by lia. cbn. lra.
    - intros h _. apply RProd_le. intros j _. destruct (Q h j). lra. }
  assert (Le : W <= ZS (dep_parts b) l phi * (1 + eps * exp B) ^ n).
  { rewrite <- EZ. unfold W. rewrite <- RSum_scar. apply RSum_le. intros h _.
    rewrite <- (seq_length n 0) at 3. rewrite <- (RProd_const (1 + eps * exp B) (seq 0 n)), <- RProd_mul. apply RProd_le. intros j _. destruct (Q h j). lra. }
  exists (ln W). split; [unfold logval; destruct (Rlt_dec 0 W) as [_|C]; [reflexivity|exfalso; apply C; fold W; lra]|].
  split; [apply ln_increasing; lra|]. pose proof (exp_pos B). assert (P1 : 0 < 1 + eps * exp B) by nra.
  rewrite <- (ln_pow_ n P1). rewrite <- ln_mult; [|exact P|apply pow_lt; exact P1].
  destruct Le as [Le|Le]; [left; apply ln_increasing; lra|rewrite Le; apply Rle_refl].
Qed.
Print Assumptions C58_nonproj_smoothed.

(** ** test_hsmm: the two enumerations and the dynamic program *)
Lemma hso_spec z (ini : nat -> R) (tr tl : nat -> nat -> R) (em : nat -> nat -> nat -> R) y : hso_score (log_ops z) ini tr tl em (chain_of y) = hsmm_joint ini tr tl em y.
Proof.
  destruct y as [c0 l0]. unfold chain_of, hsmm_joint. cbn [fst snd hso_score].
  assert (G : forall l (s : R) n c, hso_steps (log_ops z) tr tl em s n c (map (fun p => (snd p, fst p)) l) = s + hsmm_steps tr tl em n c l).
  { induction l as [|[w c'] l' IH]; intros s n c; cbn [map hso_steps hsmm_steps fst snd]; [symmetry; apply Rplus_0_r|]. rewrite IH. cbn [smul log_ops]. lra. }
  rewrite G. cbn [smul sone log_ops]. lra.
Qed.
Theorem C58_hsmm ini tr tl em batch N K C :
  shape tr = [C; C] -> shape tl = [C; K] -> shape em = [batch; N; K; C] -> (1 <= N)%nat ->
  shape ini = [C] \/ shape ini = [batch; C] ->
  exists phi, hsmm ini tr tl em = Ok phi /\ shape phi = [batch; N; K; C; C] /\
    forall z b, map (fun cs => hso_score (log_ops z) (fun c => if Nat.eqb (length (shape ini)) 1 then dat ini [c] else dat ini [b; c])
        (fun c c' => dat tr [c; c']) (fun c w => dat tl [c; w]) (fun n w c => dat em [b; n; w; c]) (fst cs))
        (smo_chains (log_ops z) (dat phi) b K C N)
      = map snd (smo_chains (log_ops z) (dat phi) b K C N).
Proof.
  intros H1 H2 H3 H4 H5. destruct (@C34_hsmm_score ini tr tl em batch N K C H1 H2 H3 H4 H5) as (phi & E & Sh & H).
  exists phi. split; [exact E|]. split; [exact Sh|]. intros z b. rewrite (smo_chains_spec (log_mlaws z)), !map_map. apply map_ext_in. intros y Hy.
  cbn [fst snd]. rewrite hso_spec, mprod_log. symmetry. apply (H b (N + 1)%nat y); [lia|]. now apply (rsegs_enum K C (le_n N)).
Qed.
Print Assumptions C58_hsmm.

(** ** test_labeled_proj_deptree: the sum over labelled trees against the enumeration of
    unlabelled trees on potentials summed over labels *)
Section Labels.
  Variable S : csr.
  Add Ring Sring_orl : (csr_srt S).
  Lemma labels_weight (pot : list nat -> S) b L h : forall s,
    Sum S (fun hl => Prod S pot (ldep_parts_from b s hl)) (labelings L h)
    = Prod S (fun e => Sum S (fun l => pot (e ++ [l])) (seq 0 L)) (dep_parts_from b s h).
  Proof.
    induction h as [|x h IH]; intro s; cbn [labelings dep_parts_from]; [apply Sum_one|].
    rewrite Sum_flat_map, Prod_cons, <- IH, Sum_mul. apply Sum_ext. intro l. rewrite Sum_map. apply Sum_ext. intro hl.
    cbn [ldep_parts_from fst snd]. rewrite Prod_cons. f_equal. f_equal. destruct x; reflexivity.
  Qed.
End Labels.
(** every query of a commutative semiring is the sum over the structures *)
Lemma run_sum c b (S : csr) pot d v l : valid c -> row_ok c b -> run c (csr_ops S) pot = Ok v -> Enumerates (ok (spec_of c b)) l ->
  nth b v d = Sum S (fun s => Prod S pot (prt (spec_of c b) s)) l.
Proof.
  intros V Hr E. destruct (row_family V Hr) as (F & HF).
  destruct (ir_run HF (csr_ops S) pot d) as (v' & E' & _ & En). rewrite E in E'. injection E' as <-. rewrite En.
  revert l. rewrite <- (ir_spec HF). cbn [ok prt fspec st]. intros l Hl. rewrite (fcorrect F S pot). apply (Sum_perm S _ (row_perm HF Hl)).
Qed.
(** a call with labelled arcs *)
Definition lab_call mr batch n L : call := CDep mr batch n (Some L) None.
(** a call with unlabelled arcs *)
Definition unlab_call mr batch n : call := CDep mr batch n None None.
Lemma lab_enum mr batch n L b l : Enumerates (ok (spec_of (unlab_call mr batch n) b)) l ->
  Enumerates (ok (spec_of (lab_call mr batch n L) b)) (flat_map (labelings L) l).
Proof.
  intro H. cbn [spec_of lab_call unlab_call ok lc_len] in *. eapply Enumerates_ext; [|apply (labelings_enum L H)].
  intro hl. unfold dep_ok, ldep_ok, is_lproj, lsingle_root. tauto.
Qed.
Theorem C58_labels_semiring mr batch n L (S : csr) pot : (1 <= n)%nat -> (1 <= L)%nat ->
  exists v, run (lab_call mr batch n L) (csr_ops S) pot = Ok v /\ length v = batch /\
  forall b d, (b < batch)%nat -> nth b v d =
    ssum (csr_ops S) (oracle (unlab_call mr batch n) b (csr_ops S) (fun e => Sum S (fun l => pot (e ++ [l])) (seq 0 L))).
Proof.
  intros Hn HL. assert (V : valid (lab_call mr batch n L)) by (split; [split; [intros _; exact Hn|exact I]|intro E; injection E; lia]).
  assert (V0 : valid (unlab_call mr batch n)) by (split; [split; [intros _; exact Hn|exact I]|discriminate]). assert (T : tested (unlab_call mr batch n)) by (cbn; auto).
  destruct (run_ok _ (csr_ops S) pot V) as (v & E & Lv). exists v. split; [exact E|]. split; [exact Lv|]. intros b d Hb.
  assert (Hr : row_ok (lab_call mr batch n L) b) by (split; [exact Hb|destruct mr; [exact I|exact Hn]]).
  set (pot' := fun e => Sum S (fun l => pot (e ++ [l])) (seq 0 L)).
  destruct (@C58_enumeration _ b (csr_ops S) pot' (csr_mlaws S) V0 T Hb) as (l & Hl & Eo). rewrite Eo. clear Eo.
  pose proof (@lab_enum mr batch n L b l Hl) as Hl'.
  rewrite (@run_sum _ b S pot d v _ V Hr E Hl'). cbn [spec_of lab_call prt st].
  rewrite Sum_flat_map. unfold Sum at 1. cbn [ssum csr_ops]. f_equal. apply map_ext. intro h. cbn [spec_of prt unlab_call].
  etransitivity; [apply labels_weight|]. symmetry. apply (mprod_csr S pot').
Qed.
Print Assumptions C58_labels_semiring.
Lemma exp_RSum A (f : A -> R) l : exp (RSum f l) = RProd (fun x => exp (f x)) l.
Proof. induction l as [|x l IH]; [apply exp_0|]. rewrite RSum_cons, exp_plus, IH. reflexivity. Qed.
Theorem C58_labels_log mr batch n L phi : (1 <= n)%nat -> (1 <= L)%nat ->
  exists v, q_partition (lab_call mr batch n L) phi = Ok v /\ length v = batch /\
  forall b, (b < batch)%nat -> nth b v 0 =
    lse (oracle (unlab_call mr batch n) b (log_ops NEG) (fun e => lse (map (fun l => phi (e ++ [l])) (seq 0 L)))).
Proof.
  intros Hn HL. assert (V : valid (lab_call mr batch n L)) by (split; [split; [intros _; exact Hn|exact I]|intro E; injection E; lia]).
  assert (V0 : valid (unlab_call mr batch n)) by (split; [split; [intros _; exact Hn|exact I]|discriminate]). assert (T : tested (unlab_call mr batch n)) by (cbn; auto).
  destruct (@C20_partition_value _ phi 0 V (Rle_refl 0) (or_introl eq_refl)) as (v & E & Lv & H). exists v. split; [exact E|]. split; [exact Lv|]. intros b Hb.
  assert (Hr : row_ok (lab_call mr batch n L) b) by (split; [exact Hb|destruct mr; [exact I|exact Hn]]).
  set (phi' := fun e => lse (map (fun l => phi (e ++ [l])) (seq 0 L))).
  destruct (@oracle_log _ b NEG phi' V0 T Hb) as (l & Hl & Eo). rewrite Eo. clear Eo.
  specialize (H b _ Hr (@lab_enum mr batch n L b l Hl)). unfold leak in H. cbn [zero_free lab_call] in H.
  assert (EZ : ZS (prt (spec_of (lab_call mr batch n L) b)) (flat_map (labelings L) l) phi = RSum (fun h => exp (RSum phi' (dep_parts b h))) l).
  { unfold ZS. rewrite (Sum_flat_map R_csr). apply (Sum_ext R_csr). intro h. rewrite exp_RSum.
    rewrite (Prod_ext R_csr _ (fun e => Sum R_csr (fun l => (fun e => exp (phi e)) (e ++ [l])) (seq 0 L))).
    - etransitivity; [|apply (labels_weight R_csr (fun e => exp (phi e)) b L h 0)]. apply (Sum_ext R_csr). intro hl. apply exp_RSum.
    - intro e. unfold phi', lse. rewrite exp_ln; [apply (Sum_map R_csr)|]. rewrite (Sum_map R_csr). apply RSum_pos; [|intros; apply exp_pos].
      destruct L; [lia|discriminate]. }
  rewrite EZ in H. unfold lse at 1. rewrite (Sum_map R_csr). cbn [spec_of prt unlab_call]. unfold sc.
  apply Rminus_diag_uniq. apply Rle_antisym; apply H.
Qed.
Print Assumptions C58_labels_log.
Lemma labels_best phi b L h : (1 <= L)%nat -> forall s,
  let phi' := fun e => rmax (map (fun l => phi (e ++ [l])) (seq 0 L)) in
  (forall hl, In hl (labelings L h) -> RSum phi (ldep_parts_from b s hl) <= RSum phi' (dep_parts_from b s h)) /\
  exists hl, In hl (labelings L h) /\ RSum phi (ldep_parts_from b s hl) = RSum phi' (dep_parts_from b s h).
Proof.
  intros HL s phi'. revert s. induction h as [|x h IH]; intro s; cbn [labelings dep_parts_from].
  - split; [intros hl [<-|[]]; apply Rle_refl|]. exists []. split; [left; reflexivity|reflexivity].
  - destruct (IH (S s)) as (I1 & hl0 & I2 & I3). rewrite RSum_cons.
    assert (Ne : map (fun l => phi (dep_part b s x [] ++ [l])) (seq 0 L) <> []) by (destruct L; [lia|discriminate]).
    destruct (rmax_is_max Ne) as [M1 M2].
    assert (Ep : forall l, dep_part b s x [] ++ [l] = dep_part b s x [l]) by (intro; destruct x; reflexivity).
    split.
    + intros hl Hhl. apply in_flat_map in Hhl as (l & Hl & Hhl). apply in_map_iff in Hhl as (hl' & <- & Hhl').
      cbn [ldep_parts_from fst snd]. rewrite RSum_cons. specialize (I1 hl' Hhl'). apply Rplus_le_compat; [|exact I1].
      apply M2. apply in_map_iff. exists l. now rewrite Ep.
    + apply in_map_iff in M1 as (l & El & Hl). exists ((x, l) :: hl0). split.
      * apply in_flat_map. exists l. split; [exact Hl|]. now apply in_map.
      * cbn [ldep_parts_from fst snd]. rewrite RSum_cons, I3, <- Ep. f_equal. exact El.
Qed.
Theorem C58_labels_max mr batch n L phi : (1 <= n)%nat -> (1 <= L)%nat ->
  exists v, q_max (lab_call mr batch n L) phi = Ok v /\ length v = batch /\
  forall b, (b < batch)%nat -> nth b v 0 =
    rmax (oracle (unlab_call mr batch n) b (max_ops NEG) (fun e => rmax (map (fun l => phi (e ++ [l])) (seq 0 L)))).
Proof.
  intros Hn HL. assert (V : valid (lab_call mr batch n L)) by (split; [split; [intros _; exact Hn|exact I]|intro E; injection E; lia]).
  assert (V0 : valid (unlab_call mr batch n)) by (split; [split; [intros _; exact Hn|exact I]|discriminate]). assert (T : tested (unlab_call mr batch n)) by (cbn; auto).
  destruct (@C14_max_is_best _ phi V) as (v & E & Lv & H). exists v. split; [exact E|]. split; [exact Lv|]. intros b Hb.
  assert (Hr : row_ok (lab_call mr batch n L) b) by (split; [exact Hb|destruct mr; [exact I|exact Hn]]).
  destruct (H b Hr (or_introl eq_refl)) as ((hl & Hhl & Ev) & Hmax). cbn [spec_of lab_call ok prt] in hl, Hhl, Ev, Hmax.
  set (phi' := fun e => rmax (map (fun l => phi (e ++ [l])) (seq 0 L))).
  destruct (@oracle_max _ b NEG phi' V0 T Hb) as (l & Hl & Eo). rewrite Eo. clear Eo.
  pose proof (@lab_enum mr batch n L b l Hl) as Hl'. cbn [spec_of lab_call unlab_call ok prt st] in *.
  assert (Hin : In hl (flat_map (labelings L) l)) by (now apply Hl').
  apply in_flat_map in Hin as (h & Hh & Hin).
  assert (Ne : map (sc (dep_parts b) phi') l <> []) by (destruct l; [destruct Hh|discriminate]).
  destruct (rmax_is_max Ne) as [M1 M2]. apply Rle_antisym.
  - rewrite Ev. apply Rle_trans with (sc (dep_parts b) phi' h); [|apply M2, in_map, Hh]. apply (labels_best phi b h HL 0). exact Hin.
  - apply in_map_iff in M1 as (h' & <- & Hh'). destruct (labels_best phi b h' HL 0) as (_ & hl' & Hin' & Eh). unfold sc.
    replace (RSum phi' (dep_parts b h')) with (RSum phi (ldep_parts b hl')) by exact Eh. apply Hmax. apply Hl'. apply in_flat_map. eauto.
Qed.
Print Assumptions C58_labels_max.

(** ** Concrete calls that meet the hypotheses *)
Definition o_lin := CLin 2 4 3 None.
(** example: a call *)
Definition o_semi := CSemi 2 5 3 2 None.
(** example: a call *)
Definition o_tree := CTree 2 4 2 None.
(** example: a call *)
Definition o_cfg := CCfg 2 4 2 3 None.
(** example: a call *)
Definition o_dep (mr : bool) := CDep mr 2 4 None None.
(** example: one call per class *)
Definition o_calls := [o_lin; o_semi; o_tree; o_cfg; o_dep true; o_dep false].
Example o_hypotheses : Forall (fun c => valid c /\ tested c /\ batch_of c = 2%nat /\ bounded c 3 ex_phi /\
  forall b, (b < 2)%nat -> small c b ex_phi /\ kbound c b 3 ex_phi) o_calls.
Proof.
  assert (HR : forall c, valid c -> tested c -> batch_of c = 2%nat -> (forall b, (degree c b <= 8)%nat /\ (kdegree c b <= 8)%nat) ->
    valid c /\ tested c /\ batch_of c = 2%nat /\ bounded c 3 ex_phi /\ forall b, (b < 2)%nat -> small c b ex_phi /\ kbound c b 3 ex_phi).
  { intros c V T Eb HD. split; [exact V|]. split; [exact T|]. split; [exact Eb|]. split; [right; apply ex_phi_abs|]. intros b _.
    destruct (HD b) as [D1 D2]. apply le_INR in D1. apply le_INR in D2. replace (INR 8) with 8 in D1, D2 by (cbn; lra).
    split; [right; exists 3|]; (split; [apply ex_phi_abs|lra]). }
  unfold o_calls. repeat apply Forall_cons; [..|apply Forall_nil]; (apply HR; [| |reflexivity|intro b; split; vm_compute; lia]).
  all: vm_compute; repeat first [lia | reflexivity | discriminate | split].
Qed.
(** The oracles are not empty; 3^4 sequences; 8 + 3 * 16 + 32
    segmentations; 5 * 2^7 labelled trees; 5 * 2^3 * 3^4 parses; 55 and 30 projective trees. *)
Example o_sizes : map (fun c => length (oracle c 0 (csr_ops nat_csr) (fun _ => 1%nat))) o_calls = [81; 88; 640; 3240; 55; 30]%nat.
Proof. vm_compute. reflexivity. Qed.
(** among the 6^4 head lists there are 125 spanning trees, 64 of them with one root, and
    the filters reject for each of the three reasons *)
Example o_filters : length (kept true true 4) = 125%nat /\ length (kept true false 4) = 64%nat /\
  is_spanning (parse_of [2; 1; 0]%nat) = false /\
  (is_spanning (parse_of [3; 4; 0; 3]%nat) = true /\ is_projective (parse_of [3; 4; 0; 3]%nat) = false) /\
  (is_projective (parse_of [0; 1; 0]%nat) = true /\ is_multi_root (parse_of [0; 1; 0]%nat) = true).
Proof. vm_compute. repeat split. Qed.
(** two words, smoothing 1e-5 (deptree.py:192): both comparisons of test_non_proj *)
Example o_nonproj multi : exists x, deptree_part multi 2 None (/ 100000) (real_row ex_phi 0) = Ok (Fin x) /\
  lse (map (dpo_score (log_ops NEG) ex_phi 0) (kept true multi 2)) < x.
Proof.
  destruct (@C58_nonproj_smoothed multi 2 ex_phi 0 (/ 100000) 3) as (x & E & H & _); [lia|lra|apply ex_phi_abs|]. exists x. auto.
Qed.
(** a semi-Markov model with three states and widths one and two *)
Definition o_t (sh : list nat) : tensor R := {| shape := sh; dat := ex_phi |}.
Example o_hsmm : exists phi, hsmm (o_t [3]%nat) (o_t [3; 3]%nat) (o_t [3; 3]%nat) (o_t [2; 4; 3; 3]%nat) = Ok phi /\
  shape phi = [2; 4; 3; 3; 3]%nat.
Proof.
  destruct (@C58_hsmm (o_t [3]%nat) (o_t [3; 3]%nat) (o_t [3; 3]%nat) (o_t [2; 4; 3; 3]%nat) 2 4 3 3) as (phi & E & Sh & _);
    [reflexivity|reflexivity|reflexivity|lia|left; reflexivity|]. eauto.
Qed.
(** four words and two labels: 2^4 labellings of each of the 55 trees *)
Example o_labels : run (lab_call true 1 4 2) (csr_ops nat_csr) (fun _ => 1%nat) = Ok [880%nat].
Proof. vm_compute. reflexivity. Qed.
