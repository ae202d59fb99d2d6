(** * Properties of the real-valued queries (C14, C15, C17-C21).

    Every theorem quantifies over all calls (class, shapes, lengths), all
    potentials and all rows. [sc (prt S) phi s] is the sum of the potentials of
    the parts of structure [s]; [l] is any list of all structures of the row. *)
From Verif Require Import Base Ops Terms Semirings Poly Chain LinearChain SemiMarkov CkyCrf Cky DepSpec DepTree
  Batch Family Approx Grad Sample Dist Purity Degree Shape Api Query.
Set Implicit Arguments.
Local Open Scope R_scope.

Lemma map_row A (f : A -> R) (v : list A) b d x : nth b v d = x -> f d = 0 -> nth b (map f v) 0 = f x.
Proof. intros <- E. rewrite <- E. apply map_nth. Qed.

(** C14 *)
Theorem C14_max_is_best c phi : valid c ->
  exists v, q_max c phi = Ok v /\ length v = batch_of c /\
  forall b, row_ok c b -> small c b phi ->
    let S := spec_of c b in
    (exists s, ok S s /\ nth b v 0 = sc (prt S) phi s) /\
    (forall s, ok S s -> sc (prt S) phi s <= nth b v 0).
Proof.
  intro V. assert (H0 : exists v, q_max c phi = Ok v /\ length v = batch_of c) by apply (run_ok c (max_ops NEG) phi V).
  destruct H0 as (v & E & L). exists v. split; [exact E|]. split; [exact L|].
  intros b Hb HR S. destruct (row_family V Hb) as (F & HF).
  assert (Ev : at_row 0 (q_max c phi) b = d_max F phi) by apply (q_row (max_ops NEG) phi 0 HF).
  rewrite E in Ev. cbn [at_row] in Ev. rewrite Ev. unfold S. rewrite <- (ir_spec HF). cbn [ok prt fspec].
  destruct (@max_correct F phi (is_row_range HF HR) (ir_nonempty HF)) as [H1 H2]. split.
  - apply in_map_iff in H1 as (s & <- & Hs). exists s. split; [now apply (fenum F)|reflexivity].
  - intros s Hs. apply H2, in_map. now apply (fenum F).
Qed.
Print Assumptions C14_max_is_best.

(** C15. [o b] are the indices torch.max returned at the nodes of row b's graph;
    the only requirement is that each is the index of a largest entry. *)
Theorem C15_argmax_is_optimal c phi o : valid c ->
  (forall b, (b < batch_of c)%nat -> argmax_ok NEG phi (o b) [] (row_graph c b)) ->
  forall b, row_ok c b -> small c b phi ->
    let S := spec_of c b in
    exists s, ok S s /\ (forall s', ok S s' -> sc (prt S) phi s' <= sc (prt S) phi s) /\
      (forall e, row_of c e = b -> q_argmax c o e = uses (prt S) e s) /\
      (match c with CCfg _ _ _ _ _ => True | _ => NoDup (prt S s) end).
Proof.
  intros V Ho b Hb HR S. destruct (row_family V Hb) as (F & HF). pose proof (proj1 Hb) as Hlt.
  assert (Hok : d_argmax_ok F phi (o b)).
  { unfold d_argmax_ok. rewrite <- (ir_graph HF). auto. }
  destruct (@argmax_correct F phi (o b) (is_row_range HF HR) (ir_nonempty HF) Hok) as (s & H1 & H2 & H3 & H4).
  assert (G : forall c', c' = c -> match c' with CCfg _ _ _ _ _ => True | _ => NoDup (fparts F s) end).
  { intros c' ->.
    assert (K : match c with CCfg _ _ _ _ _ => False | _ => True end -> NoDup (fparts F s)).
    { intro Hc. pose proof (@graph_multilinear c b V Hlt Hc) as M. rewrite (ir_graph HF) in M.
      apply (fenum F) in H1. destruct (@structure_is_pure F s H1) as (m & Hm & Hp & HP).
      eapply Permutation_NoDup; [exact HP|]. rewrite <- names_pure by auto. now apply M. }
    destruct c; auto. }
  unfold S. rewrite <- (ir_spec HF). cbn [ok prt fspec]. exists s. split; [auto|]. split; [auto|]. split.
  - intros e He. rewrite (@argmax_row c b F phi o e V HF Hlt He Ho). apply H2.
  - now apply G.
Qed.
Print Assumptions C15_argmax_is_optimal.

Section Err.
  Variables (c : call) (B : R).
  (** factor of the error bounds: the size of a score *)
  Definition scale (b : nat) : R := INR (degree c b) * (B + 100000).

  Lemma err_transfer b F K K' x : is_row c b F -> 0 <= B ->
    (zero_free c = true -> x = 0) -> (0 <= K) ->
    (zero_free c = false -> Rabs x <= K * eps F B NEG) -> (zero_free c = false -> K <= K') ->
    Rabs x <= K' * leak c b B.
  Proof.
    intros HF HB0 Hx HK H HKK. destruct (zero_free c) eqn:E.
    - rewrite Hx by auto. rewrite Rabs_R0. unfold leak. rewrite E. lra.
    - specialize (H eq_refl). specialize (HKK eq_refl).
      eapply Rle_trans; [exact H|]. apply Rmult_le_compat; auto.
      + apply eps_nonneg.
      + apply leak_eps; auto.
  Qed.
  Lemma bigM_scale b F : is_row c b F -> zero_free c = false -> 0 <= B -> bigM F B <= scale b.
  Proof.
    intros HF E HB. unfold bigM, scale. destruct (ir_bnd HF E) as [Hd _]. apply le_INR in Hd.
    apply Rmult_le_compat_r; [lra|exact Hd].
  Qed.
  Lemma bigM_nonneg F : 0 <= B -> 0 <= bigM F B.
  Proof. intro. unfold bigM. apply Rmult_le_pos; [apply pos_INR|lra]. Qed.
End Err.

Lemma row_perm c b F l : is_row c b F -> Enumerates (fok F) l -> Permutation (flist F) l.
Proof. intros _ H. eapply Enumerates_perm; [apply (fenum F)|exact H]. Qed.

(** partition, used by C20 and C21 *)
Theorem C20_partition_value c phi B : valid c -> 0 <= B -> bounded c B phi ->
  exists v, q_partition c phi = Ok v /\ length v = batch_of c /\
  forall b l, row_ok c b -> let S := spec_of c b in Enumerates (ok S) l ->
    0 <= nth b v 0 - ln (ZS (prt S) l phi) <= leak c b B.
Proof.
  intros V HB0 HB.
  assert (H0 : exists v, q_partition c phi = Ok v /\ length v = batch_of c) by apply (run_ok c (log_ops NEG) phi V).
  destruct H0 as (v & E & L). exists v. split; [exact E|]. split; [exact L|].
  intros b l Hb; cbv zeta; intro Hl. destruct (row_family V Hb) as (F & HF).
  assert (Ev : at_row 0 (q_partition c phi) b = d_partition F phi) by apply (q_row (log_ops NEG) phi 0 HF).
  rewrite E in Ev. cbn [at_row] in Ev. rewrite Ev.
  revert l Hl. rewrite <- (ir_spec HF). cbn [ok prt fspec]. intros l Hl.
  rewrite <- (ZS_perm (fparts F) (row_perm HF Hl)).
  destruct (zero_free c) eqn:Z.
  - rewrite partition_pure by now apply (ir_pure HF). unfold leak. rewrite Z. lra.
  - destruct HB as [HB|HB]; [congruence|].
    pose proof (@partition_err F phi B HB (ir_nonempty HF)) as H.
    pose proof (leak_eps HF HB0). lra.
Qed.
Print Assumptions C20_partition_value.

(** C17 *)
Theorem C17_entropy_value c phi B : valid c -> 0 <= B -> bounded c B phi ->
  exists v, q_entropy c phi = Ok v /\ length v = batch_of c /\
  forall b l, row_ok c b -> let S := spec_of c b in Enumerates (ok S) l ->
    Rabs (nth b v 0 - entropy_spec (prt S) l phi) <= (1 + 2 * scale c B b) * leak c b B.
Proof.
  intros V HB0 HB. destruct (run_ok c (ent_ops NEG) (fun e => ent_convert (phi e)) V) as (v & E & L).
  exists (map snd v). unfold q_entropy. rewrite E. split; [reflexivity|]. split; [now rewrite map_length|].
  intros b l Hb; cbv zeta; intro Hl. destruct (row_family V Hb) as (F & HF).
  pose proof (q_row (ent_ops NEG) (fun e => ent_convert (phi e)) (0, 0) HF) as Ev. rewrite E in Ev. cbn [at_row car ent_ops] in Ev.
  replace (nth b (map snd v) 0) with (d_entropy F phi).
  2:{ symmetry. exact (@map_row _ snd v b (0, 0) _ Ev eq_refl). }
  revert l Hl. rewrite <- (ir_spec HF). cbn [ok prt fspec]. intros l Hl.
  rewrite <- (entropy_perm (fparts F) (row_perm HF Hl)).
  apply (@err_transfer c B b F (1 + 2 * bigM F B)); auto.
  - intro Z. rewrite entropy_pure by (now apply (ir_pure HF)) || apply (ir_nonempty HF). ring.
  - pose proof (@bigM_nonneg B F HB0). lra.
  - intro Z. destruct HB as [HB|HB]; [congruence|]. now apply entropy_err, (ir_nonempty HF).
  - intro Z. pose proof (bigM_scale HF Z HB0). lra.
Qed.
Print Assumptions C17_entropy_value.

(** C18. The classes on which the call is defined. *)
Definition has_pair_queries (c : call) : Prop :=
  match c with CLin _ _ _ _ | CTree _ _ _ _ => True | _ => False end.
Theorem C18_cross_entropy_value c phi psi B : valid c -> has_pair_queries c -> 0 <= B -> bounded c B phi -> bounded c B psi ->
  exists v, q_cross_entropy c phi psi = Ok v /\ length v = batch_of c /\
  forall b l, row_ok c b -> let S := spec_of c b in Enumerates (ok S) l ->
    Rabs (nth b v 0 - cross_spec (prt S) l phi psi) <= (1 + 2 * scale c B b) * leak c b B.
Proof.
  intros V Hp HB0 HB HB'.
  destruct (run_ok c (ce_ops NEG) (fun e => kl_convert (phi e) (psi e)) V) as (v & E & L).
  exists (map d_ v). unfold q_cross_entropy. rewrite E. split; [destruct c; try contradiction; reflexivity|].
  split; [now rewrite map_length|].
  intros b l Hb; cbv zeta; intro Hl. destruct (row_family V Hb) as (F & HF).
  assert (Ev : nth b (map d_ v) 0 = d_cross_entropy F phi psi).
  { pose proof (q_row (ce_ops NEG) (fun e => kl_convert (phi e) (psi e)) (kl_convert 0 0) HF) as Ev.
    rewrite E in Ev. cbn [at_row car ce_ops] in Ev. exact (@map_row _ d_ v b (kl_convert 0 0) _ Ev eq_refl). }
  rewrite Ev.
  revert l Hl. rewrite <- (ir_spec HF). cbn [ok prt fspec]. intros l Hl.
  rewrite <- (cross_perm (fparts F) (row_perm HF Hl)).
  apply (@err_transfer c B b F (1 + 2 * bigM F B)); auto.
  - intro Z. rewrite cross_pure by (now apply (ir_pure HF)) || apply (ir_nonempty HF). ring.
  - pose proof (@bigM_nonneg B F HB0). lra.
  - intro Z. destruct HB as [HB|HB]; [congruence|]. destruct HB' as [HB'|HB']; [congruence|].
    apply cross_err; auto. apply (ir_nonempty HF).
  - intro Z. pose proof (bigM_scale HF Z HB0). lra.
Qed.
Print Assumptions C18_cross_entropy_value.
Theorem C18_pair_queries_elsewhere c phi psi : ~ has_pair_queries c ->
  exists e, q_cross_entropy c phi psi = Err e /\ q_kl c phi psi = Err e.
Proof. unfold q_cross_entropy, q_kl, pair_call. destruct c; simpl; try tauto; eauto. Qed.

(** C19 *)
Theorem C19_kl_value c phi psi B : valid c -> has_pair_queries c -> 0 <= B -> bounded c B phi -> bounded c B psi ->
  exists v, q_kl c phi psi = Ok v /\ length v = batch_of c /\
  forall b l, row_ok c b -> let S := spec_of c b in Enumerates (ok S) l ->
    Rabs (nth b v 0 - kl_spec (prt S) l phi psi) <= (2 + 4 * scale c B b) * leak c b B.
Proof.
  intros V Hp HB0 HB HB'.
  destruct (run_ok c (kl_ops NEG) (fun e => kl_convert (phi e) (psi e)) V) as (v & E & L).
  exists (map d_ v). unfold q_kl. rewrite E. split; [destruct c; try contradiction; reflexivity|].
  split; [now rewrite map_length|].
  intros b l Hb; cbv zeta; intro Hl. destruct (row_family V Hb) as (F & HF).
  assert (Ev : nth b (map d_ v) 0 = d_kl F phi psi).
  { pose proof (q_row (kl_ops NEG) (fun e => kl_convert (phi e) (psi e)) (kl_convert 0 0) HF) as Ev.
    rewrite E in Ev. cbn [at_row car kl_ops] in Ev. exact (@map_row _ d_ v b (kl_convert 0 0) _ Ev eq_refl). }
  rewrite Ev.
  revert l Hl. rewrite <- (ir_spec HF). cbn [ok prt fspec]. intros l Hl.
  rewrite <- (kl_perm (fparts F) (row_perm HF Hl)).
  apply (@err_transfer c B b F (2 + 4 * bigM F B)); auto.
  - intro Z. rewrite kl_pure by (now apply (ir_pure HF)) || apply (ir_nonempty HF). ring.
  - pose proof (@bigM_nonneg B F HB0). lra.
  - intro Z. destruct HB as [HB|HB]; [congruence|]. destruct HB' as [HB'|HB']; [congruence|].
    apply kl_err; auto. apply (ir_nonempty HF).
  - intro Z. pose proof (bigM_scale HF Z HB0). lra.
Qed.
Print Assumptions C19_kl_value.

(** exact, whatever the potentials: the three queries are consistent, KL is
    never negative, and zero for equal potentials *)
Theorem C19_kl_laws c phi psi : valid c -> has_pair_queries c ->
  exists k x h, q_kl c phi psi = Ok k /\ q_cross_entropy c phi psi = Ok x /\ q_entropy c phi = Ok h /\
  forall b, row_ok c b ->
    nth b k 0 = nth b x 0 - nth b h 0 /\ 0 <= nth b k 0 /\
    ((forall e, phi e = psi e) -> nth b k 0 = 0).
Proof.
  intros V Hp.
  destruct (run_ok c (kl_ops NEG) (fun e => kl_convert (phi e) (psi e)) V) as (k & E1 & _).
  destruct (run_ok c (ce_ops NEG) (fun e => kl_convert (phi e) (psi e)) V) as (x & E2 & _).
  destruct (run_ok c (ent_ops NEG) (fun e => ent_convert (phi e)) V) as (h & E3 & _).
  exists (map d_ k), (map d_ x), (map snd h). unfold q_kl, q_cross_entropy, q_entropy. rewrite E1, E2, E3.
  split; [destruct c; try contradiction; reflexivity|]. split; [destruct c; try contradiction; reflexivity|].
  split; [reflexivity|].
  intros b Hb. destruct (row_family V Hb) as (F & HF).
  pose proof (q_row (kl_ops NEG) (fun e => kl_convert (phi e) (psi e)) (kl_convert 0 0) HF) as G1.
  pose proof (q_row (ce_ops NEG) (fun e => kl_convert (phi e) (psi e)) (kl_convert 0 0) HF) as G2.
  pose proof (q_row (ent_ops NEG) (fun e => ent_convert (phi e)) (0, 0) HF) as G3.
  rewrite E1 in G1. rewrite E2 in G2. rewrite E3 in G3. cbn [at_row car kl_ops ce_ops ent_ops] in G1, G2, G3.
  assert (K1 : nth b (map d_ k) 0 = d_kl F phi psi).
  { exact (@map_row _ d_ k b (kl_convert 0 0) _ G1 eq_refl). }
  assert (K2 : nth b (map d_ x) 0 = d_cross_entropy F phi psi).
  { exact (@map_row _ d_ x b (kl_convert 0 0) _ G2 eq_refl). }
  assert (K3 : nth b (map snd h) 0 = d_entropy F phi).
  { exact (@map_row _ snd h b (0, 0) _ G3 eq_refl). }
  rewrite K1, K2, K3. split; [apply kl_code|]. split; [apply kl_code_nonneg|]. apply kl_code_self.
Qed.
Print Assumptions C19_kl_laws.

(** C20 *)
Theorem C20_marginals_value c phi B : valid c -> 0 <= B -> bounded c B phi ->
  forall b l e, row_ok c b -> row_of c e = b -> let S := spec_of c b in Enumerates (ok S) l ->
    Rabs (q_marginals c phi e - marg_spec (prt S) l phi e) <= 2 * INR (degree c b) * leak c b B.
Proof.
  intros V HB0 HB b l e Hb He; cbv zeta; intro Hl. destruct (row_family V Hb) as (F & HF).
  rewrite (@marginals_row c b F phi e V HF (proj1 Hb) He).
  revert l Hl. rewrite <- (ir_spec HF). cbn [ok prt fspec]. intros l Hl.
  rewrite <- (marg_perm (fparts F) (row_perm HF Hl)).
  apply (@err_transfer c B b F (2 * INR (fdeg F))); auto.
  - intro Z. rewrite marginals_pure; [ring|now apply (ir_pure HF)|apply (ir_nonempty HF)].
  - pose proof (pos_INR (fdeg F)). lra.
  - intro Z. destruct HB as [HB|HB]; [congruence|]. apply marginals_err; auto. apply (ir_nonempty HF).
  - intro Z. destruct (ir_bnd HF Z) as [Hd _]. apply le_INR in Hd. unfold fdeg. lra.
Qed.
Print Assumptions C20_marginals_value.

(** the derivative of the returned partition exists, and is the returned
    marginal up to the same bound (exactly, for graphs without the zero) *)
Theorem C20_marginals_gradient c phi B : valid c -> 0 <= B -> bounded c B phi ->
  forall b e, row_ok c b -> row_of c e = b ->
  exists D, derivable_pt_lim (fun x => at_row 0 (q_partition c (upd phi e x)) b) (phi e) D /\
    0 <= q_marginals c phi e - D <= 2 * INR (degree c b) * leak c b B.
Proof.
  intros V HB0 HB b e Hb He. destruct (row_family V Hb) as (F & HF).
  rewrite (@marginals_row c b F phi e V HF (proj1 Hb) He).
  exists (d_marginals F phi e - mean phi NEG (ft F) (cntO e)). split.
  - eapply dlim_ext; [|apply partition_derivative]. intro y. cbv beta.
    symmetry. apply (q_row (log_ops NEG) (upd phi e y) 0 HF).
  - replace (d_marginals F phi e - (d_marginals F phi e - mean phi NEG (ft F) (cntO e)))
      with (mean phi NEG (ft F) (cntO e)) by ring.
    destruct (zero_free c) eqn:Z.
    + assert (Hz : mean phi NEG (ft F) (cntO e) = 0).
      { unfold mean. transitivity (RSum (fun _ : deriv => 0) (expand (ft F))); [|rewrite RSum_const; ring].
        apply (Sum_ext_in R_csr). intros m Hm.
        rewrite cntO_pure; [ring|]. apply (@fpure_all F); auto. now apply (ir_pure HF). }
      rewrite Hz. unfold leak. rewrite Z. lra.
    + destruct HB as [HB|HB]; [congruence|].
      destruct (@masked_share F phi B e HB (ir_nonempty HF)) as [H1 H2]. split; auto.
      eapply Rle_trans; [exact H2|]. destruct (ir_bnd HF Z) as [Hd _]. apply le_INR in Hd.
      apply Rmult_le_compat; [pose proof (pos_INR (fdeg F)); lra|apply eps_nonneg| |now apply leak_eps].
      unfold fdeg. lra.
Qed.
Print Assumptions C20_marginals_gradient.

(** C21 *)
Theorem C21_log_prob_normalised c phi B : valid c -> 0 <= B -> bounded c B phi ->
  match c with CCfg _ _ _ _ _ => False | _ => True end ->
  forall b l, row_ok c b -> let S := spec_of c b in Enumerates (ok S) l ->
  exists lp, (forall s, q_log_prob c phi b (fun e => uses (prt S) e s) = Ok (lp s)) /\
    1 - leak c b B <= RSum (fun s => exp (lp s)) l <= 1 /\
    (forall s, ok S s -> (1 - leak c b B) * prob (prt S) l phi s <= exp (lp s) <= prob (prt S) l phi s).
Proof.
  intros V HB0 HB Hc b l Hb; cbv zeta; intro Hl. destruct (row_family V Hb) as (F & HF).
  assert (H0 : exists v, q_partition c phi = Ok v /\ length v = batch_of c) by apply (run_ok c (log_ops NEG) phi V).
  destruct H0 as (v & E & L).
  exists (fun s => RSum (fun e => phi e * uses (prt (spec_of c b)) e s) (map (cons b) (indices (event_shape c))) - nth b v 0).
  split. { intro s. unfold q_log_prob. rewrite E. destruct c; try contradiction; reflexivity. }
  assert (Hev : forall s, ok (spec_of c b) s -> incl (prt (spec_of c b) s) (map (cons b) (indices (event_shape c)))).
  { intros s Hs. apply parts_in_event; auto. }
  assert (Hnd : NoDup (map (cons b) (indices (event_shape c)))).
  { apply NoDup_map_inj; [congruence|apply indices_nodup]. }
  assert (Ev : at_row 0 (q_partition c phi) b = d_partition F phi) by apply (q_row (log_ops NEG) phi 0 HF).
  rewrite E in Ev. cbn [at_row] in Ev. rewrite Ev.
  revert l Hl Hev. rewrite <- (ir_spec HF). cbn [ok prt fspec st]. intros l Hl Hev.
  pose proof (row_perm HF Hl) as HP.
  assert (Hval : forall s, fok F s ->
    exp (RSum (fun e => phi e * uses (fparts F) e s) (map (cons b) (indices (event_shape c))) - d_partition F phi)
    = prob (fparts F) l phi s * (ZS (fparts F) (flist F) phi / (ZS (fparts F) (flist F) phi + ES F phi NEG))).
  { intros s Hs. rewrite <- (prob_perm (fparts F) HP). 
    apply (@log_prob_value F phi (map (cons b) (indices (event_shape c))) s Hnd (Hev s Hs) (ir_nonempty HF)). }
  assert (Hshare : 1 - leak c b B <= ZS (fparts F) (flist F) phi / (ZS (fparts F) (flist F) phi + ES F phi NEG) <= 1).
  { destruct (zero_free c) eqn:Z.
    - rewrite fpure_ES by now apply (ir_pure HF). rewrite Rplus_0_r.
      pose proof (ZS_pos (fparts F) phi (ir_nonempty HF)). unfold Rdiv. rewrite Rinv_r by lra.
      unfold leak. rewrite Z. lra.
    - destruct HB as [HB|HB]; [congruence|]. pose proof (@norm_share F phi B HB (ir_nonempty HF)).
      pose proof (leak_eps HF HB0). lra. }
  set (w := ZS (fparts F) (flist F) phi / (ZS (fparts F) (flist F) phi + ES F phi NEG)) in *.
  split.
  - rewrite (Sum_ext_in R_csr _ (fun s => prob (fparts F) l phi s * w)).
    2:{ intros s Hs. apply Hval. now apply Hl. }
    rewrite RSum_scar, prob_sum. lra.
    intros ->. apply Permutation_sym, Permutation_nil in HP. now apply (ir_nonempty HF).
  - intros s Hs. rewrite Hval by auto.
    assert (0 <= prob (fparts F) l phi s).
    { unfold prob. apply Rmult_le_pos; [apply Rlt_le, exp_pos|]. apply Rlt_le, Rinv_0_lt_compat, ZS_pos.
      intros ->. apply Permutation_sym, Permutation_nil in HP. now apply (ir_nonempty HF). }
    split; [rewrite Rmult_comm|rewrite <- (Rmult_1_r (prob (fparts F) l phi s)) at 2]; apply Rmult_le_compat_l; lra.
Qed.
Print Assumptions C21_log_prob_normalised.

(** ** The hypotheses are met *)

(** an index of a largest child always exists, at every node of any graph *)
Fixpoint sub (t : term) (q : path) : option term :=
  match q with
  | [] => Some t
  | i :: q' =>
      match t with
      | TMul a b => match i with 0%nat => sub a q' | 1%nat => sub b q' | _ => None end
      | TSum l => match nth_error l i with Some t' => sub t' q' | None => None end
      | _ => None
      end
  end.
Lemma sub_app t q1 q2 s : sub t q1 = Some s -> sub t (q1 ++ q2) = sub s q2.
Proof.
  revert t. induction q1 as [|i q1 IH]; intros t H; simpl in *; [congruence|].
  destruct t as [e|e| | |l|a b]; try discriminate.
  - destruct (nth_error l i); [auto|discriminate].
  - destruct i as [|[|i]]; auto. discriminate.
Qed.
Lemma argmax_list (v : list R) : v <> [] -> exists k x, nth_error v k = Some x /\ is_max x v.
Proof.
  intro H. destruct (rmax_is_max H) as [Hin Hmax]. destruct (In_nth_error _ _ Hin) as [k Hk].
  exists k, (rmax v). split; [exact Hk|split; auto].
Qed.
Lemma argmax_choice z (phi : list nat -> R) : exists f : list term -> nat, forall l, l <> [] ->
  exists t', nth_error l (f l) = Some t' /\ is_max (leval (max_ops z) phi t') (map (leval (max_ops z) phi) l).
Proof.
  (* first index of a largest value *)
  exists (fun l => (fix first (v : list R) := match v with [] => 0%nat
            | x :: v' => if Req_EM_T x (rmax (map (leval (max_ops z) phi) l)) then 0%nat else S (first v') end)
          (map (leval (max_ops z) phi) l)).
  intros l Hl. set (v := map (leval (max_ops z) phi) l). set (m := rmax v).
  assert (Hv : v <> []) by (unfold v; destruct l; simpl; congruence).
  destruct (rmax_is_max Hv) as [Hin Hmax]. fold m in Hin, Hmax.
  assert (G : forall w, In m w -> nth_error w ((fix first (v : list R) := match v with [] => 0%nat
            | x :: v' => if Req_EM_T x m then 0%nat else S (first v') end) w) = Some m).
  { induction w as [|x w IH]; intro H; [destruct H|]. destruct (Req_EM_T x m) as [->|E]; [reflexivity|].
    destruct H as [H|H]; [congruence|]. simpl. auto. }
  specialize (G v Hin). set (k := (fix first (v : list R) := match v with [] => 0%nat
            | x :: v' => if Req_EM_T x m then 0%nat else S (first v') end) v) in *. clearbody k.
  unfold v in G. rewrite nth_error_map in G.
  destruct (nth_error l k) as [t'|] eqn:E; [|discriminate]. exists t'. split; [reflexivity|].
  simpl in G. injection G as G. rewrite G. split; auto.
Qed.
Lemma argmax_exists z phi t : twf t -> exists o, argmax_ok z phi o [] t.
Proof.
  intro W. destruct (argmax_choice z phi) as [f Hf].
  exists (fun p => match sub t (rev p) with Some (TSum l) => f l | _ => 0%nat end).
  set (o := fun p => _).
  assert (G : forall s p, twf s -> sub t (rev p) = Some s -> argmax_ok z phi o p s).
  { induction s as [e'|e'| | |l IH|a b IHa IHb] using term_ind'; intros p Ws Hs; simpl; auto.
    - inversion_clear Ws as [| | | |? Hn Hfa|]. split.
      + unfold o. rewrite Hs. apply Hf. destruct l; simpl in *; congruence || auto.
      + rewrite fold_and_mapi. intros j a Ha. simpl. rewrite Forall_forall in IH, Hfa.
        pose proof (nth_error_In _ _ Ha). apply IH; auto. simpl. rewrite (sub_app _ _ [j] Hs). simpl. now rewrite Ha.
    - inversion_clear Ws. split; [apply IHa|apply IHb]; auto; simpl.
      + now rewrite (sub_app _ _ [0%nat] Hs).
      + now rewrite (sub_app _ _ [1%nat] Hs). }
  apply G; auto.
Qed.
Lemma argmax_exists_batch c phi : valid c ->
  exists o, forall b, (b < batch_of c)%nat -> argmax_ok NEG phi (o b) [] (row_graph c b).
Proof.
  intro V. assert (H : forall n, (n <= batch_of c)%nat -> exists o, forall b, (b < n)%nat ->
    argmax_ok NEG phi (o b) [] (row_graph c b)).
  { induction n as [|n IH]; intro Hn; [exists (fun _ _ => 0%nat); lia|].
    destruct IH as [o Ho]; [lia|]. destruct (@argmax_exists NEG phi (row_graph c n)) as [o' Ho'].
    { apply graph_wf; auto. }
    exists (fun b => if b =? n then o' else o b). intros b Hb. destruct (b =? n) eqn:E.
    - apply Nat.eqb_eq in E. now subst.
    - apply Nat.eqb_neq in E. apply Ho. lia. }
  now apply H.
Qed.

(** one call of each class, with different lengths in the batch *)
Definition ex_lin := CLin 2 4 3 (Some [4; 2])%nat.
(** example: a call *)
Definition ex_semi := CSemi 2 5 3 2 (Some [3; 5])%nat.
(** example: a call *)
Definition ex_tree := CTree 2 4 2 (Some [2; 4])%nat.
(** example: a call *)
Definition ex_cfg := CCfg 2 4 2 3 (Some [4; 3])%nat.
(** example: a call *)
Definition ex_dep := CDep false 2 4 (Some 2%nat) (Some [4; 2])%nat.
(** example: potentials *)
Definition ex_phi (e : list nat) : R := if Nat.even (list_sum e) then 3 else -2.
Lemma ex_phi_abs e : Rabs (ex_phi e) <= 3.
Proof. unfold ex_phi. destruct (Nat.even _); unfold Rabs; destruct (Rcase_abs _); lra. Qed.
(** example: one call per class *)
Definition ex_calls := [ex_lin; ex_semi; ex_tree; ex_cfg; ex_dep].

Lemma ex_row (P : nat -> Prop) : P 0%nat -> P 1%nat -> forall b, (b < 2)%nat -> P b.
Proof. intros H0 H1 [|[|b]] H; auto. lia. Qed.

(** all five are accepted, all their rows have structures, and the potentials
    are small enough for every row *)
Example ex_hypotheses : Forall (fun c => valid c /\ batch_of c = 2%nat /\
  (forall b, (b < 2)%nat -> row_ok c b /\ small c b ex_phi) /\ bounded c 3 ex_phi) ex_calls.
Proof.
  assert (HB : forall c, bounded c 3 ex_phi) by (intro; right; apply ex_phi_abs).
  assert (HS : forall c b, (degree c b <= 8)%nat -> small c b ex_phi).
  { intros c b H. right. exists 3. split; [apply ex_phi_abs|]. apply le_INR in H.
    change 8%nat with (2 * (2 * 2))%nat in H. rewrite !mult_INR in H. simpl INR in H. lra. }
  assert (HR : forall c, batch_of c = 2%nat -> valid c -> (forall b, (b < 2)%nat -> row_ok c b /\ (degree c b <= 8)%nat) ->
    valid c /\ batch_of c = 2%nat /\ (forall b, (b < 2)%nat -> row_ok c b /\ small c b ex_phi) /\ bounded c 3 ex_phi).
  { intros c Hb V H. split; [exact V|]. split; [exact Hb|]. split; [|apply HB].
    intros b Hlt. destruct (H b Hlt). split; auto. }
  unfold ex_calls. repeat apply Forall_cons; [.. |apply Forall_nil]; (apply HR; [reflexivity| |]).
  all: try (apply ex_row; (split; [split; [simpl; lia|]|]); vm_compute; (exact I || lia)).
  all: vm_compute; repeat first [lia | reflexivity | discriminate | split | apply Forall_cons | apply Forall_nil].
Qed.

Lemma exp_pow_nat y n : exp y ^ n = exp (INR n * y).
Proof.
  induction n as [|n IH]; [simpl; rewrite Rmult_0_l, exp_0; reflexivity|].
  rewrite S_INR, Rmult_plus_distr_r, Rmult_1_l, exp_plus, <- IH. simpl. ring.
Qed.
(** exp(-x) for large x *)
Lemma exp_neg_bound x (n : nat) : (0 < n)%nat -> 0 <= x -> exp (- x) <= (/ (1 + x / INR n)) ^ n.
Proof.
  intros Hn Hx. assert (0 < INR n) by (apply lt_0_INR, Hn).
  assert (Hq : 0 <= x / INR n) by (apply Rmult_le_pos; [auto|apply Rlt_le, Rinv_0_lt_compat; auto]).
  replace (exp (- x)) with ((exp (- (x / INR n))) ^ n).
  - apply pow_incr. split; [apply Rlt_le, exp_pos|]. rewrite exp_Ropp. apply Rinv_le_contravar; [lra|].
    apply exp_ineq1_le.
  - rewrite exp_pow_nat. f_equal. field. lra.
Qed.

(** for these calls the error terms are far below anything representable:
    at most 10^-30 *)
Example ex_leak b : leak ex_lin b 3 <= / 10 ^ 30 /\ leak ex_semi b 3 <= / 10 ^ 30.
Proof.
  assert (G : forall x n, 0 <= n <= 300000 -> x <= -99000 -> n * exp x <= / 10 ^ 30).
  { intros x n Hn Hx.
    assert (H : exp x <= (/ 991) ^ 100).
    { apply Rle_trans with (exp (- 99000)).
      - destruct (Rle_lt_or_eq_dec _ _ Hx) as [H| ->]; [left; now apply exp_increasing|lra].
      - eapply Rle_trans; [apply (@exp_neg_bound 99000 100); [lia|lra]|].
        replace (1 + 99000 / INR 100) with 991; [lra|]. rewrite INR_IZR_INZ. simpl. field. }
    apply Rle_trans with (300000 * (/ 991) ^ 100).
    - apply Rmult_le_compat; try lra. apply Rlt_le, exp_pos.
    - rewrite pow_inv. apply Rmult_le_reg_r with (991 ^ 100); [apply pow_lt; lra|].
      rewrite Rmult_assoc, Rinv_l, Rmult_1_r by (apply pow_nonzero; lra).
      apply Rmult_le_reg_l with (10 ^ 30); [apply pow_lt; lra|]. rewrite <- Rmult_assoc, Rinv_r, Rmult_1_l by (apply pow_nonzero; lra).
      rewrite !pow_IZR. rewrite <- mult_IZR. apply IZR_le. vm_compute. discriminate. }
  split; unfold leak; cbn [zero_free ex_lin ex_semi].
  - replace (degree ex_lin b) with 4%nat by reflexivity. replace (nderiv ex_lin b) with 3888%nat by (vm_compute; reflexivity).
    apply G; rewrite !INR_IZR_INZ; simpl; lra.
  - replace (degree ex_semi b) with 4%nat by reflexivity. replace (nderiv ex_semi b) with 4096%nat by (vm_compute; reflexivity).
    apply G; rewrite !INR_IZR_INZ; simpl; lra.
Qed.
