(** * Minus-infinity potentials (C51).

    [x_partition], [x_max], [x_log_prob] (Mask.v) are the queries of the
    distribution classes on potentials some of which are -inf. A structure is
    [allowed] when it uses none of those. *)
From Verif Require Import Base Ops Terms Semirings Poly Chain LinearChain SemiMarkov CkyCrf Cky DepSpec DepTree
  Batch Family Approx Grad Sample Dist Purity Degree Shape Api Query P_Real Mask.
Set Implicit Arguments.
Local Open Scope R_scope.

(** finite entries bounded by B (nothing to require when the graph has no zero) *)
Definition xbounded (c : call) (B : R) (phi : list nat -> ext) : Prop :=
  zero_free c = true \/ forall e x, phi e = Some x -> Rabs x <= B.

Lemma xZ_perm A (parts : A -> list (list nat)) phi l l' : Permutation l l' -> xZ parts phi l = xZ parts phi l'.
Proof. intro H. apply (Sum_perm R_csr), H. Qed.

Lemma filter_len_le A (f : A -> bool) l : (length (filter f l) <= length l)%nat.
Proof. induction l as [|x l IH]; simpl; [lia|]. destruct (f x); simpl; lia. Qed.
Lemma leak_pos c b B : 0 <= leak c b B.
Proof. unfold leak. destruct (zero_free c); [lra|]. apply Rmult_le_pos; auto using pos_INR, Rlt_le, exp_pos. Qed.
Lemma spur_small c b F B : is_row c b F -> 0 <= B -> zero_free c = false ->
  INR (fspur F) * exp (NEG + INR (fdeg F) * B) <= leak c b (B / 2).
Proof.
  intros HF HB E. destruct (ir_bnd HF E) as [Hd Hn]. unfold leak. rewrite E.
  assert (Hs : (fspur F <= nderiv c b)%nat).
  { unfold fspur, spur. etransitivity; [apply filter_len_le|exact Hn]. }
  apply le_INR in Hs, Hd. unfold fdeg, NEG.
  apply Rmult_le_compat; auto using pos_INR, Rlt_le, exp_pos.
  assert (H : -100000 + INR (tdeg (ft F)) * B <= -100000 + 2 * (INR (degree c b) * (B / 2))).
  { assert (INR (tdeg (ft F)) * B <= INR (degree c b) * B) by (apply Rmult_le_compat_r; auto). lra. }
  destruct H as [H| ->]; [left; now apply exp_increasing|lra].
Qed.

(** the log-partition is that of the allowed structures *)
Theorem C51_masked_partition c phi B : valid c -> 0 <= B -> xbounded c B phi ->
  exists v, x_partition c phi = Ok v /\ length v = batch_of c /\
  forall b l, row_ok c b -> let S := spec_of c b in Enumerates (ok S) l ->
    (* exactly, for the classes whose graphs have no finite zero: -inf iff nothing is allowed *)
    (zero_free c = true -> xexp (nth b v None) = xZ (prt S) phi l /\
       (nth b v None = None <-> forall s, ok S s -> ~ allowed (prt S) phi s)) /\
    (* for the others, up to the leak of the finite zero *)
    ((exists s, ok S s /\ allowed (prt S) phi s) ->
       exists x, nth b v None = Some x /\ 0 <= x - ln (xZ (prt S) phi l) <= leak c b B) /\
    (* where nothing is allowed, the weight is that of the spurious derivations only *)
    ((forall s, ok S s -> ~ allowed (prt S) phi s) -> xexp (nth b v None) <= leak c b (B / 2)).
Proof.
  intros V HB0 HB.
  assert (H0 : exists v, x_partition c phi = Ok v /\ length v = batch_of c) by apply (run_ok c (xlog_ops NEG) phi V).
  destruct H0 as (v & E & L). exists v. split; [exact E|]. split; [exact L|].
  intros b l Hb; cbv zeta; intro Hl. destruct (row_family V Hb) as (F & HF).
  assert (Ev : at_row None (x_partition c phi) b = frun F (xlog_ops NEG) phi) by apply (q_row (xlog_ops NEG) phi None HF).
  rewrite E in Ev. cbn [at_row] in Ev.
  revert l Hl. rewrite <- (ir_spec HF). cbn [ok prt fspec st]. intros l Hl.
  rewrite <- (xZ_perm (fparts F) phi (row_perm HF Hl)).
  assert (Ex : xexp (nth b v None) = xZ (fparts F) phi (flist F) + XS F phi NEG).
  { etransitivity; [exact (f_equal xexp Ev)|]. rewrite frun_leval. apply x_split. }
  assert (Hz : zero_free c = true -> XS F phi NEG = 0).
  { intro Z. unfold XS. rewrite (ir_pure HF Z). reflexivity. }
  assert (Hin : forall s, fok F s <-> In s (flist F)) by (intro; symmetry; apply (fenum F)).
  split; [|split].
  - intro Z. rewrite Hz, Rplus_0_r in Ex by auto. split; [exact Ex|]. split.
    + intros En s Hs Ha. apply Hin in Hs. pose proof (@XZ_pos F phi s Hs Ha). pose proof (exp_pos (sc (fparts F) (fin phi) s)).
      rewrite En in Ex. simpl in Ex. lra.
    + intro H. rewrite XZ_zero in Ex by (intros s Hs; apply H, Hin, Hs).
      destruct (nth b v None) as [x|]; [|reflexivity]. simpl in Ex. pose proof (exp_pos x). lra.
  - intros (s & Hs & Ha). apply Hin in Hs.
    pose proof (@XZ_pos F phi s Hs Ha) as HP. pose proof (exp_pos (sc (fparts F) (fin phi) s)).
    pose proof (XS_nonneg F phi NEG).
    destruct (nth b v None) as [x|] eqn:En; [|simpl in Ex; lra].
    exists x. split; [reflexivity|]. simpl in Ex. rewrite <- (ln_exp x), Ex.
    destruct (zero_free c) eqn:Z.
    + rewrite Hz, Rplus_0_r by auto. unfold leak. rewrite Z. lra.
    + destruct HB as [HB|HB]; [congruence|].
      pose proof (@xlog_err F phi B HB0 HB s NEG NEG_neg Hs Ha). pose proof (leak_eps HF HB0). lra.
  - intro H. rewrite Ex, XZ_zero by (intros s Hs; apply H, Hin, Hs). rewrite Rplus_0_l.
    destruct (zero_free c) eqn:Z.
    + rewrite Hz by auto. apply leak_pos.
    + destruct HB as [HB|HB]; [congruence|].
      eapply Rle_trans; [apply (@XS_le F phi B HB0 HB NEG NEG_neg)|now apply spur_small].
Qed.
Print Assumptions C51_masked_partition.

(** finite entries small against the finite zero *)
Definition xsmall (c : call) (b : nat) (phi : list nat -> ext) : Prop :=
  zero_free c = true \/ exists B, 0 <= B /\ (forall e x, phi e = Some x -> Rabs x <= B) /\ 2 * (INR (degree c b) * B) < 100000.

(** the maximum is that of the allowed structures *)
Theorem C51_masked_max c phi : valid c ->
  exists v, x_max c phi = Ok v /\ length v = batch_of c /\
  forall b, row_ok c b -> xsmall c b phi -> let S := spec_of c b in
    ((exists s, ok S s /\ allowed (prt S) phi s) ->
      exists s, ok S s /\ allowed (prt S) phi s /\ nth b v None = Some (sc (prt S) (fin phi) s) /\
        forall s', ok S s' -> allowed (prt S) phi s' -> sc (prt S) (fin phi) s' <= sc (prt S) (fin phi) s) /\
    (zero_free c = true -> (forall s, ok S s -> ~ allowed (prt S) phi s) -> nth b v None = None).
Proof.
  intro V.
  assert (H0 : exists v, x_max c phi = Ok v /\ length v = batch_of c) by apply (run_ok c (xmax_ops NEG) phi V).
  destruct H0 as (v & E & L). exists v. split; [exact E|]. split; [exact L|].
  intros b Hb HS; cbv zeta. destruct (row_family V Hb) as (F & HF).
  assert (Ev : at_row None (x_max c phi) b = frun F (xmax_ops NEG) phi) by apply (q_row (xmax_ops NEG) phi None HF).
  rewrite E in Ev. cbn [at_row] in Ev. rewrite frun_leval in Ev. change (@nth ext b v None = leval (xmax_ops NEG) phi (ft F)) in Ev. rewrite Ev.
  rewrite <- (ir_spec HF). cbn [ok prt fspec st].
  destruct (@xmax_value phi NEG (ft F) (ft_wf F)) as [Hin Hmax]. apply in_map_iff in Hin as (m & Em & Hm).
  assert (Hperm : forall m s, Permutation (leaves m) (fparts F s) ->
    (forallb (fun e => negb (is_none (phi e))) (leaves m) = true <-> allowed (fparts F) phi s)).
  { intros m' s HP. rewrite <- allowedb, !forallb_forall. split; intros H e He; apply H.
    - apply Permutation_in with (l := fparts F s); auto. now apply Permutation_sym.
    - apply Permutation_in with (l := leaves m'); auto. }
  assert (HfS : forall s, fok F s <-> In s (flist F)) by (intro; symmetry; apply (fenum F)).
  split.
  - intros (s0 & Hs0 & Ha0). apply HfS in Hs0.
    destruct (@structure_is_pure F s0 Hs0) as (m0 & Hm0 & Hp0 & HP0).
    assert (G0 : xle (xscore phi NEG m0) (xscore phi NEG m)) by (rewrite Em; apply Hmax, in_map, Hm0).
    rewrite (xscore_fin phi NEG m0) in G0. apply (Hperm m0 s0 HP0) in Ha0. rewrite Ha0 in G0.
    rewrite (xscore_fin phi NEG m) in G0, Em. destruct (forallb _ (leaves m)) eqn:Am; [|destruct G0]. cbn [xle] in G0.
    assert (Hp : pure m = true).
    { destruct HS as [Z|(B & B0 & HB & HR)]; [apply (@fpure_all F (ir_pure HF Z) m Hm)|].
      destruct (zero_free c) eqn:Z; [apply (@fpure_all F (ir_pure HF Z) m Hm)|].
      destruct (pure m) eqn:P; auto. exfalso.
      pose proof (@score_spur_le (fin phi) NEG B (@fin_abs phi B B0 HB) NEG_neg m P) as H1.
      pose proof (@score_pure_ge (fin phi) NEG B (@fin_abs phi B B0 HB) m0 Hp0) as H2.
      pose proof (@len_le F m Hm). pose proof (@len_le F m0 Hm0).
      destruct (ir_bnd HF Z) as [Hd _]. apply le_INR in Hd. unfold fdeg in *.
      assert (INR (length m) * B <= INR (degree c b) * B) by (apply Rmult_le_compat_r; lra).
      assert (INR (length m0) * B <= INR (degree c b) * B) by (apply Rmult_le_compat_r; lra).
      unfold NEG in *. lra. }
    destruct (pure_is_structure F m Hm Hp) as (s & Hs & HP). exists s.
    assert (Ha : allowed (fparts F) phi s) by (apply (Hperm m s HP); auto).
    split; [now apply HfS|]. split; [exact Ha|]. rewrite <- Em. rewrite <- (@perm_score F (fin phi) NEG m s Hp HP).
    split; [reflexivity|]. intros s' Hs' Ha'. apply HfS in Hs'.
    destruct (@structure_is_pure F s' Hs') as (m' & Hm' & Hp' & HP').
    assert (G : xle (xscore phi NEG m') (leval (xmax_ops NEG) phi (ft F))) by apply Hmax, in_map, Hm'.
    rewrite <- Em, (xscore_fin phi NEG m') in G. apply (Hperm m' s' HP') in Ha'. rewrite Ha' in G. cbn [xle] in G.
    rewrite <- (@perm_score F (fin phi) NEG m' s' Hp' HP'). exact G.
  - intros Z H. rewrite <- Em, xscore_fin. destruct (forallb _ (leaves m)) eqn:Am; [|reflexivity]. exfalso.
    assert (Hp : pure m = true) by apply (@fpure_all F (ir_pure HF Z) m Hm).
    destruct (pure_is_structure F m Hm Hp) as (s & Hs & HP). apply (H s); [now apply HfS|]. now apply (Hperm m s HP).
Qed.
Print Assumptions C51_masked_max.

(** *** What a user would expect and does not get *)
(** LinearChain adds the finite zero to every potential (linearchain.py:76-79), so
    its log-partition is never -inf, whatever is masked *)
Lemma xlog_resp z : resp (xlog_ops z) (xlog_ops z) (fun x _ => x <> None).
Proof.
  constructor; simpl; try discriminate.
  - intros [a|] a' [b|] b' Ha Hb; simpl; congruence.
  - intros l l' Hl H. destruct H as [|x y l l' Hx _]; [congruence|]. unfold xlse. destruct x; [|congruence]. simpl. discriminate.
Qed.
Theorem C51_chain_never_minus_infinity batch N C ls phi v b : valid (CLin batch N C ls) ->
  x_partition (CLin batch N C ls) phi = Ok v -> (b < batch)%nat -> nth b v None <> None.
Proof.
  intros V E Hb. cbn [valid] in V. unfold x_partition in E. cbn [run] in E.
  pose proof (lc_logpartition_run (xlog_ops NEG) (tens [batch; (N - 1)%nat; C; C] phi) V eq_refl) as E'.
  pose proof (eq_trans (eq_sym E) E') as E''. injection E'' as ->. clear E E'. rewrite nth_map_seq by auto. cbn [dat tens]. unfold lc_one.
  assert (HC : (0 < C)%nat) by apply V.
  pose proof (@resp_scan (xlog_ops NEG) (xlog_ops NEG) _ (xlog_resp NEG) C (Nat.log2_up (N - 1))
    (lc_chart (xlog_ops NEG) phi b (lc_len N ls b) (2 ^ Nat.log2_up (N - 1)))
    (lc_chart (xlog_ops NEG) phi b (lc_len N ls b) (2 ^ Nat.log2_up (N - 1))) HC) as H.
  assert (H1 : Forall2 (Rmat (xlog_ops NEG) (xlog_ops NEG) (fun x _ => x <> None))
    (lc_chart (xlog_ops NEG) phi b (lc_len N ls b) (2 ^ Nat.log2_up (N - 1)))
    (lc_chart (xlog_ops NEG) phi b (lc_len N ls b) (2 ^ Nat.log2_up (N - 1)))).
  { unfold lc_chart. generalize (2 ^ Nat.log2_up (N - 1))%nat. intro w. generalize 0%nat. induction w as [|w IHw]; intro k; cbn [seq map]; constructor; auto.
    intros i j. unfold lc_cell, lc_init, fill. cbn [ssum xlog_ops szero sone].
    assert (G : forall c x, c <> None -> xlse [c; x] <> None).
    { intros [c|] x Hc; [|congruence]. unfold xlse. simpl. discriminate. }
    apply G. destruct (negb _); [discriminate|]. destruct (i =? j)%nat; discriminate. }
  specialize (H H1). inversion H as [|M M' l l' HM _ El El']; [discriminate|].
  apply (@resp_sum2 (xlog_ops NEG) (xlog_ops NEG) _ (xlog_resp NEG) C M M' HC HM).
Qed.
Print Assumptions C51_chain_never_minus_infinity.

(** log_prob multiplies potentials by the event (helpers.py:31-34): as soon as one
    potential of the row is masked, the log-probability of every allowed structure
    is NaN *)
Lemma nplus_nan_r x : nplus x NaN = NaN. Proof. destruct x; reflexivity. Qed.
Lemma nsum_nan l : In NaN l -> nsum l = NaN.
Proof.
  induction l as [|x l IH]; intros []; [subst; reflexivity|]. simpl. rewrite IH by auto. apply nplus_nan_r.
Qed.
Theorem C51_log_prob_nan c phi : valid c -> match c with CCfg _ _ _ _ _ => False | _ => True end ->
  forall b, row_ok c b -> let S := spec_of c b in
  (exists e, In e (map (cons b) (indices (event_shape c))) /\ phi e = None) ->
  forall s, ok S s -> allowed (prt S) phi s ->
    x_log_prob c phi b (fun e => uses (prt S) e s) = Ok NaN.
Proof.
  intros V Hc b Hb S (e & He & En) s Hs Ha.
  destruct (run_ok c (xlog_ops NEG) phi V) as (v & E & _).
  assert (X : nsum (map (fun e => nmul (of_ext (phi e)) (uses (prt S) e s)) (map (cons b) (indices (event_shape c)))) = NaN).
  { apply nsum_nan. apply in_map_iff. exists e. split; [|exact He]. rewrite En. cbn [of_ext nmul].
    assert (U : uses (prt S) e s = 0).
    { unfold uses. rewrite (proj1 (count_occ_not_In _ _ _)); [reflexivity|]. intro Hin. now apply (Ha e Hin). }
    rewrite U. destruct (Rlt_dec 0 0); [lra|reflexivity]. }
  unfold x_log_prob, x_partition. rewrite E. destruct c; try contradiction; cbn [res_map]; rewrite X; reflexivity.
Qed.
Print Assumptions C51_log_prob_nan.
(** without masks it is the log_prob of Query.v *)
Theorem C51_log_prob_unmasked c phi b value x : q_log_prob c phi b value = Ok x -> valid c -> row_ok c b ->
  x_log_prob c (fun e => Some (phi e)) b value = Ok (Fin x).
Proof.
  intros H V Hb.
  assert (R1 : resp (log_ops NEG) (xlog_ops NEG) (fun x y => y = Some x)).
  { constructor; simpl; auto.
    - intros a a' b0 b' -> ->. reflexivity.
    - intros l l' Hl F. unfold xlse.
      assert (E : l' = map Some l). { clear Hl. induction F as [|y y' l l' E F IH]; [reflexivity|]. cbn [map]. rewrite E, IH. reflexivity. }
      rewrite E. destruct l as [|y l]; [congruence|]. cbn [map forallb is_none andb].
      f_equal. unfold lse. f_equal. change (Some y :: map Some l) with (map Some (y :: l)).
      rewrite (Sum_map R_csr). reflexivity. }
  destruct (row_family V Hb) as (F & HF).
  destruct (run_ok c (log_ops NEG) phi V) as (w & Ew & _).
  destruct (run_ok c (xlog_ops NEG) (fun e => Some (phi e)) V) as (v & Ev & _).
  pose proof (q_row (log_ops NEG) phi 0 HF) as G1. pose proof (q_row (xlog_ops NEG) (fun e => Some (phi e)) None HF) as G2.
  rewrite Ew in G1. rewrite Ev in G2. cbn [at_row] in G1, G2.
  assert (G3 : nth b v None = Some (nth b w 0)).
  { refine (eq_trans G2 (eq_trans _ (f_equal Some (eq_sym G1)))).
    refine (@fresp F (log_ops NEG) (xlog_ops NEG) _ phi (fun e => Some (phi e)) R1 _). intro i. reflexivity. }
  assert (X : forall ids, nsum (map (fun e => nmul (of_ext (Some (phi e))) (value e)) ids) = Fin (RSum (fun e => phi e * value e) ids)).
  { induction ids as [|e ids IH]; [reflexivity|]. cbn [map nsum fold_right]. fold (nsum (map (fun e => nmul (of_ext (Some (phi e))) (value e)) ids)).
    rewrite IH, RSum_cons. reflexivity. }
  unfold q_log_prob, q_partition in H. unfold x_log_prob, x_partition. rewrite Ew in H. rewrite Ev.
  destruct c; try discriminate; cbn [res_map] in *; injection H as <-; rewrite X; exact (f_equal (fun y => Ok (nminus (Fin _) (of_ext y))) G3).
Qed.

(** ** The hypotheses are met *)
(** every edge / span / arc whose fourth coordinate is 1 is forbidden; the calls are
    those of P_Real.v *)
Definition ex_mask (e : list nat) : ext := if (nth 3 e 0 =? 1)%nat then None else Some (ex_phi e).
Example ex_C51 : Forall (fun c => valid c /\ (forall b, (b < 2)%nat -> row_ok c b /\ xsmall c b ex_mask) /\ xbounded c 3 ex_mask) ex_calls.
Proof.
  assert (HA : forall e x, ex_mask e = Some x -> Rabs x <= 3).
  { intros e x. unfold ex_mask. destruct (_ =? _)%nat; intro E; [discriminate|]. injection E as <-. apply ex_phi_abs. }
  assert (HS : forall c b, (degree c b <= 8)%nat -> xsmall c b ex_mask).
  { intros c b H. right. exists 3. split; [lra|]. split; [exact HA|]. apply le_INR in H.
    change 8%nat with (2 * (2 * 2))%nat in H. rewrite !mult_INR in H. simpl INR in H. lra. }
  assert (HD : Forall (fun c => forall b, (b < 2)%nat -> (degree c b <= 8)%nat) ex_calls).
  { unfold ex_calls. repeat apply Forall_cons; [.. |apply Forall_nil]; apply ex_row; vm_compute; lia. }
  pose proof ex_hypotheses as H. rewrite Forall_forall in *. intros c Hc. destruct (H c Hc) as (V & _ & R & _).
  split; [exact V|]. split; [|right; exact HA]. intros b Hb. split; [apply (R b Hb)|]. apply HS, (HD c Hc b Hb).
Qed.
(** some structures are forbidden and some are not *)
Example ex_C51_allowed :
  let P := fun (S : spec) (s s' : st S) => ok S s /\ allowed (prt S) ex_mask s /\ ok S s' /\ ~ allowed (prt S) ex_mask s' in
  P (spec_of ex_lin 0) [0; 2; 2; 0]%nat [0; 1; 2; 0]%nat /\
  P (spec_of ex_tree 0) (LNode 0 (LLeaf 0) (LLeaf 0)) (LNode 1 (LLeaf 0) (LLeaf 0)).
Proof.
  assert (D : forall A (parts : A -> list (list nat)) s, forallb (fun e => negb (is_none (ex_mask e))) (parts s) = false -> ~ allowed parts ex_mask s).
  { intros A parts s E H. apply allowedb in H. congruence. }
  cbv zeta. split.
  - split; [split; [reflexivity|repeat constructor]|]. split; [apply allowedb; reflexivity|].
    split; [split; [reflexivity|repeat constructor]|]. now apply D.
  - split; [vm_compute; repeat split; lia|]. split; [apply allowedb; reflexivity|].
    split; [vm_compute; repeat split; lia|]. now apply D.
Qed.
(** the log-probability of the allowed sequence is NaN *)
Example ex_C51_nan : x_log_prob ex_lin ex_mask 0 (fun e => uses (prt (spec_of ex_lin 0)) e [0; 2; 2; 0]%nat) = Ok NaN.
Proof.
  pose proof ex_C51 as H. rewrite Forall_forall in H. destruct (H ex_lin) as (V & R & _); [left; auto|].
  destruct ex_C51_allowed as [(H1 & H2 & _) _].
  apply (@C51_log_prob_nan ex_lin ex_mask V I 0%nat (proj1 (R 0%nat ltac:(lia)))); auto.
  exists [0; 0; 0; 1]%nat. split; [vm_compute; tauto|reflexivity].
Qed.
(** a dependency batch with everything masked has partition -inf, a chain does not: *)
Example ex_C51_all_masked :
  at_row (Some 0) (x_partition ex_tree (fun _ => None)) 0 = None /\
  at_row None (x_partition ex_lin (fun _ => None)) 0 <> None.
Proof.
  pose proof ex_C51 as H. rewrite Forall_forall in H. split.
  - destruct (H ex_tree) as (V & R & _); [simpl; auto|]. destruct (row_family V (proj1 (R 0%nat ltac:(lia)))) as (F & HF).
    destruct (@C51_masked_partition ex_tree (fun _ => None) 3 V ltac:(lra) (or_introl eq_refl)) as (v & E & L & G).
    rewrite E. cbn [at_row].
    assert (EF : Enumerates (ok (spec_of ex_tree 0)) (ltrees 2 2 2)) by (apply ltrees_enum; lia).
    destruct (proj1 (G 0%nat _ (proj1 (R 0%nat ltac:(lia))) EF) eq_refl) as [_ G'].
    assert (G2 : nth 0 v None = None).
    { apply G'. intros s [Hs _] Ha. destruct s as [a|a l r]; [apply (Ha (hd [] (lparts 0 0 (LLeaf a))))|apply (Ha (hd [] (lparts 0 0 (LNode a l r))))]; simpl; auto. }
    destruct v as [|x v]; [discriminate|exact G2].
  - destruct (H ex_lin) as (V & R & _); [simpl; auto|].
    destruct (run_ok ex_lin (xlog_ops NEG) (fun _ => None) V) as (v & E & _). unfold x_partition. rewrite E. cbn [at_row].
    eapply C51_chain_never_minus_infinity; [exact V|exact E|lia].
Qed.
