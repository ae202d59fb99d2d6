(** * Properties of the self-critical training example (C62). *)
From Verif Require Import Base Ops Terms Semirings Poly Chain LinearChain SemiMarkov CkyCrf Cky DepSpec DepTree
  Batch Family Approx Grad Sample Dist Purity Degree Shape Api Query Dag DagLaw Learn P_Real P_Sample P_Cross P_Learn Codec Train P_Train Reinforce.
Set Implicit Arguments.
Local Open Scope R_scope.

(** ** Derivatives of Gibbs averages *)
Section Gibbs.
  Context {A : Type} (parts : A -> list (list nat)) (l : list A).
  Notation pr_ := (prob parts l).
  Notation sc_ := (sc parts).
  Lemma sc_dir phi delta x s : sc_ (fun e => phi e + x * delta e) s = sc_ phi s + x * sc_ delta s.
  Proof. unfold sc. rewrite RSum_add, RSum_scal. reflexivity. Qed.
  Lemma ZS_dir phi delta (f : A -> R) :
    derivable_pt_lim (fun x => RSum (fun s => exp (sc_ (fun e => phi e + x * delta e) s) * f s) l) 0
      (RSum (fun s => exp (sc_ phi s) * sc_ delta s * f s) l).
  Proof.
    apply (dlim_sum (fun s x => exp (sc_ (fun e => phi e + x * delta e) s) * f s)). intros s _.
    apply dlim_ext with (fun x => exp (sc_ phi s + (x - 0) * sc_ delta s) * f s).
    { intro x. rewrite sc_dir. do 2 f_equal. ring. }
    assert (E : exp (sc_ phi s + (0 - 0) * sc_ delta s) * sc_ delta s * f s + exp (sc_ phi s + (0 - 0) * sc_ delta s) * 0 =
      exp (sc_ phi s) * sc_ delta s * f s).
    { replace (sc_ phi s + (0 - 0) * sc_ delta s) with (sc_ phi s) by ring. ring. }
    refine (eq_ind _ (derivable_pt_lim (fun x => exp (sc_ phi s + (x - 0) * sc_ delta s) * f s) 0) _ _ E).
    apply (derivable_pt_lim_mult (fun x => exp (sc_ phi s + (x - 0) * sc_ delta s)) (fun _ => f s)); [apply dlim_exp_affine|apply derivable_pt_lim_const].
  Qed.
  (** the derivative of an average is a covariance *)
  Lemma gibbs_dir phi delta (f : A -> R) : l <> [] ->
    derivable_pt_lim (fun x => RSum (fun s => pr_ (fun e => phi e + x * delta e) s * f s) l) 0
      (RSum (fun s => pr_ phi s * (f s * (sc_ delta s - RSum (fun s' => pr_ phi s' * sc_ delta s') l))) l).
  Proof.
    intro Hl.
    set (g := fun x => RSum (fun s => exp (sc_ (fun e => phi e + x * delta e) s) * f s) l).
    set (h := fun x => RSum (fun s => exp (sc_ (fun e => phi e + x * delta e) s) * 1) l).
    assert (Hh : forall x, h x = ZS parts l (fun e => phi e + x * delta e)).
    { intro x. apply (Sum_ext R_csr). intro s. apply Rmult_1_r. }
    assert (Hp : forall x, 0 < h x) by (intro x; rewrite Hh; now apply ZS_pos).
    apply dlim_ext with (fun x => g x / h x).
    { intro x. rewrite Hh. unfold g, Rdiv. rewrite <- RSum_scar. apply (Sum_ext R_csr). intro s. unfold prob. simpl. field.
      pose proof (Hp x) as P. rewrite Hh in P. lra. }
    pose proof (ZS_dir phi delta f) as Dg. pose proof (ZS_dir phi delta (fun _ => 1)) as Dh. fold g in Dg. fold h in Dh.
    pose proof (derivable_pt_lim_div g h 0 _ _ Dg Dh) as D. specialize (Hp 0).
    assert (E0 : (fun e => phi e + 0 * delta e) = phi) by (apply FunctionalExtensionality.functional_extensionality; intro; ring).
    assert (Z0 : h 0 = ZS parts l phi) by (rewrite Hh, E0; reflexivity).
    refine (eq_ind _ (derivable_pt_lim (fun x => g x / h x) 0) (D _) _ _); [lra|].
    rewrite Z0 in *. set (Z := ZS parts l phi) in *.
    assert (G0 : g 0 = RSum (fun s => exp (sc_ phi s) * f s) l) by (unfold g; rewrite E0; reflexivity).
    rewrite G0. set (m := RSum (fun s' => pr_ phi s' * sc_ delta s') l).
    assert (Em : RSum (fun s => exp (sc_ phi s) * sc_ delta s * 1) l = Z * m).
    { unfold m. rewrite <- RSum_scal. apply (Sum_ext R_csr). intro s. unfold prob. fold Z. simpl. field. lra. }
    rewrite Em. transitivity (/ Z * RSum (fun s => exp (sc_ phi s) * sc_ delta s * f s) l + (- m * / Z) * RSum (fun s => exp (sc_ phi s) * f s) l).
    { unfold Rsqr. field. lra. }
    rewrite <- !RSum_scal, <- RSum_add. apply (Sum_ext R_csr). intro s. unfold prob. fold Z. simpl. field. lra.
  Qed.
  (** a constant baseline adds nothing *)
  Lemma baseline phi delta (f : A -> R) base : l <> [] ->
    let m := RSum (fun s' => pr_ phi s' * sc_ delta s') l in
    RSum (fun s => pr_ phi s * ((f s - base) * (sc_ delta s - m))) l = RSum (fun s => pr_ phi s * (f s * (sc_ delta s - m))) l.
  Proof.
    intros Hl m.
    transitivity (RSum (fun s => pr_ phi s * (f s * (sc_ delta s - m)) + (- base) * (pr_ phi s * sc_ delta s) + (base * m) * pr_ phi s) l).
    { apply (Sum_ext R_csr). intro s. simpl. ring. }
    rewrite !RSum_add, !RSum_scal, (prob_sum parts phi Hl). fold m. ring.
  Qed.
  (** the entropy is differentiable along every direction *)
  Lemma entropy_dir phi delta : l <> [] ->
    exists D, derivable_pt_lim (fun x => entropy_spec parts l (fun e => phi e + x * delta e)) 0 D.
  Proof.
    intro Hl.
    pose proof (gibbs_dir phi delta (sc_ phi) Hl) as D1. pose proof (gibbs_dir phi delta (sc_ delta) Hl) as D2.
    pose proof (ZS_dir phi delta (fun _ => 1)) as D3.
    set (g1 := fun x => RSum (fun s => pr_ (fun e => phi e + x * delta e) s * sc_ phi s) l) in D1.
    set (g2 := fun x => RSum (fun s => pr_ (fun e => phi e + x * delta e) s * sc_ delta s) l) in D2.
    set (g3 := fun x => RSum (fun s => exp (sc_ (fun e => phi e + x * delta e) s) * 1) l) in D3.
    assert (H3 : forall x, g3 x = ZS parts l (fun e => phi e + x * delta e)).
    { intro x. apply (Sum_ext R_csr). intro s. apply Rmult_1_r. }
    eexists. apply dlim_ext with (fun x => ln (g3 x) - (g1 x + (x * g2 x))).
    { intro x. unfold entropy_spec. set (ps := fun e => phi e + x * delta e).
      rewrite (Sum_ext R_csr (fun s => pr_ ps s * ln (pr_ ps s)) (fun s => (pr_ ps s * sc_ phi s + x * (pr_ ps s * sc_ delta s)) + (- ln (ZS parts l ps)) * pr_ ps s)).
      - rewrite !RSum_add, !RSum_scal, (prob_sum parts ps Hl), H3. fold ps. unfold g1, g2. fold ps. ring.
      - intro s. rewrite ln_prob by auto. unfold ps. rewrite sc_dir. simpl. ring. }
    apply (derivable_pt_lim_minus (fun x => ln (g3 x)) (fun x => g1 x + x * g2 x)).
    - apply (derivable_pt_lim_comp g3 ln 0); [exact D3|]. apply derivable_pt_lim_ln. rewrite H3. now apply ZS_pos.
    - apply (derivable_pt_lim_plus g1 (fun x => x * g2 x)); [exact D1|].
      apply (derivable_pt_lim_mult (fun x => x) g2); [apply derivable_pt_lim_id|exact D2].
  Qed.
End Gibbs.

(** ** The law of the samples *)
Lemma sample_row_law c G phi B : valid c -> samples c -> records c G -> 0 <= B -> bounded c B phi ->
  forall n k b l h, (k < n)%nat -> row_ok c b -> let S := spec_of c b in Enumerates (ok S) l ->
  row_fun c b h -> (forall u, Rabs (h u) <= 1) ->
  Rabs (PE (draws c G phi n) (fun o => h (q_sample c G o k)) - RSum (fun s => prob (prt S) l phi s * h (event_of S s)) l) <= 2 * leak c b B.
Proof.
  intros V Hs HG HB0 HB n k b l h Hk Hb S Hl Hh Hh1.
  destruct (@C23_sample_law c G phi B V Hs HG HB0 HB) as (law & H1 & H2 & H3).
  specialize (H1 n (fun k0 b0 => if Nat.eq_dec k0 k then if Nat.eq_dec b0 b then h else fun _ => 1 else fun _ => 1)). cbv beta in H1.
  assert (Law : PE (draws c G phi n) (fun o => h (q_sample c G o k)) = law b h).
  { transitivity (RProd (fun k0 => RProd (fun b0 => law b0 (if Nat.eq_dec k0 k then if Nat.eq_dec b0 b then h else fun _ => 1 else fun _ => 1))
      (seq 0 (batch_of c))) (seq 0 n)).
    - rewrite <- H1.
      + f_equal. apply FunctionalExtensionality.functional_extensionality. intro o. symmetry. apply pick_prod; auto. apply Hb.
      + intros k0 b0 Hb0. destruct (Nat.eq_dec k0 k); [|intros u v _; reflexivity]. destruct (Nat.eq_dec b0 b) as [->|]; [exact Hh|intros u v _; reflexivity].
    - rewrite (@RProd_only _ n k Hk).
      + rewrite (@RProd_only _ (batch_of c) b (proj1 Hb)).
        * destruct (Nat.eq_dec k k); [|congruence]. destruct (Nat.eq_dec b b); [reflexivity|congruence].
        * intros j Hj Hne. destruct (Nat.eq_dec k k); [|congruence]. destruct (Nat.eq_dec j b); [congruence|]. now apply H2.
      + intros j Hj Hne. transitivity (RProd (fun _ : nat => 1) (seq 0 (batch_of c))); [|apply RProd_const1].
        apply (Prod_ext_in R_csr). intros i Hi. destruct (Nat.eq_dec j k); [congruence|]. apply H2. apply in_seq in Hi. lia. }
  rewrite Law. exact (H3 b l h Hb Hl Hh Hh1).
Qed.

Lemma sample_binary c G o k : binary (q_sample c G o k).
Proof. intro e. unfold q_sample, to_discrete. destruct (active _ _); auto. Qed.
Lemma event_binary S s : binary (event_of S s).
Proof. intro e. unfold event_of. destruct (in_dec _ _ _); auto. Qed.
(** spec: the cells equal to 1 *)
Definition bin (u : event) : event := fun e => if Z.eq_dec (u e) 1 then 1%Z else 0%Z.
Lemma bin_binary u : binary (bin u).
Proof. intro e. unfold bin. destruct (Z.eq_dec _ _); auto. Qed.
Lemma bin_id u e : binary u -> bin u e = u e.
Proof. intro H. unfold bin. destruct (H e) as [-> | ->]; reflexivity. Qed.

(** the same for tests that are bounded by any M on tensors of zeros and ones *)
Lemma sample_mean c G phi B : valid c -> samples c -> records c G -> 0 <= B -> bounded c B phi ->
  forall n k b l h M, (k < n)%nat -> row_ok c b -> let S := spec_of c b in Enumerates (ok S) l ->
  row_fun c b h -> (forall u, binary u -> Rabs (h u) <= M) ->
  Rabs (PE (draws c G phi n) (fun o => h (q_sample c G o k)) - RSum (fun s => prob (prt S) l phi s * h (event_of S s)) l) <= 2 * M * leak c b B.
Proof.
  intros V Hs HG HB0 HB n k b l h M Hk Hb S Hl Hh HM.
  assert (HM0 : 0 <= M) by (eapply Rle_trans; [apply Rabs_pos|apply (HM (fun _ => 0%Z)); intro; auto]).
  assert (Hx : forall u v, (forall e, u e = v e) -> h u = h v) by (intros; apply Hh; auto).
  destruct (Rle_lt_or_eq_dec _ _ HM0) as [Hp|Hz].
  - pose (h' := fun u => h (bin u) / M).
    assert (Hh' : row_fun c b h').
    { intros u v E. unfold h'. f_equal. apply Hh. intros e He. unfold bin. now rewrite E. }
    assert (H1 : forall u, Rabs (h' u) <= 1).
    { intro u. unfold h', Rdiv. rewrite Rabs_mult, (Rabs_pos_eq (/ M)) by (left; now apply Rinv_0_lt_compat).
      apply Rmult_le_reg_r with M; auto. rewrite Rmult_assoc, Rinv_l by lra. pose proof (HM _ (bin_binary u)). lra. }
    pose proof (@sample_row_law c G phi B V Hs HG HB0 HB n k b l h' Hk Hb Hl Hh' H1) as L. cbv zeta in L. fold S in L.
    rewrite (@PE_ext _ _ _ (fun o => / M * h (q_sample c G o k))) in L.
    2:{ intro o. unfold h', Rdiv. rewrite Rmult_comm. f_equal. apply Hx. intro e. apply bin_id, sample_binary. }
    rewrite (Sum_ext R_csr _ (fun s => / M * (prob (prt S) l phi s * h (event_of S s)))) in L.
    2:{ intro s. unfold h', Rdiv. rewrite (Hx (bin (event_of S s)) (event_of S s)) by (intro; apply bin_id, event_binary). simpl. ring. }
    rewrite PE_scal, RSum_scal in L.
    match type of L with Rabs ?y <= _ => match goal with |- Rabs ?x <= _ => replace x with (M * y) by (simpl; field; lra) end end.
    rewrite Rabs_mult, (Rabs_pos_eq M) by lra. replace (2 * M * leak c b B) with (M * (2 * leak c b B)) by ring. apply Rmult_le_compat_l; lra.
  - subst M.
    assert (Z : forall u, binary u -> h u = 0).
    { intros u Hu. specialize (HM u Hu). unfold Rabs in HM. destruct (Rcase_abs _); lra. }
    rewrite (@PE_ext _ _ _ (fun o => 0 * 1)) by (intro; rewrite Z by apply sample_binary; ring).
    rewrite (Sum_ext R_csr _ (fun s => 0 * 1)) by (intro; rewrite Z by apply event_binary; simpl; ring).
    rewrite PE_scal, RSum_scal. rewrite !Rmult_0_l, Rmult_0_r, Rmult_0_l, Rminus_0_r, Rabs_R0. lra.
Qed.

Lemma PE_sum A I (m : pmf A) (f : I -> A -> R) l : PE m (fun a => RSum (fun i => f i a) l) = RSum (fun i => PE m (f i)) l.
Proof.
  unfold PE. rewrite (Sum_ext R_csr _ (fun x => RSum (fun i => fst x * f i (snd x)) l)).
  - apply (Sum_comm R_csr).
  - intro x. now rewrite RSum_scal.
Qed.
Lemma PE_mean A (m : pmf A) n (f : nat -> A -> R) : PE m (fun a => mean_n n (fun i => f i a)) = mean_n n (fun i => PE m (f i)).
Proof. unfold mean_n, Rdiv. rewrite PE_scar, PE_sum. reflexivity. Qed.
Lemma mean_ext n f g : (forall i, (i < n)%nat -> f i = g i) -> mean_n n f = mean_n n g.
Proof. intro H. unfold mean_n. f_equal. apply (Sum_ext_in R_csr). intros i Hi. apply in_seq in Hi. apply H. lia. Qed.
Lemma mean_const n x : (0 < n)%nat -> mean_n n (fun _ => x) = x.
Proof. intro H. unfold mean_n. rewrite RSum_const, seq_length. field. apply not_0_INR. lia. Qed.
Lemma mean_close n f g e : (forall i, (i < n)%nat -> Rabs (f i - g i) <= e i) -> Rabs (mean_n n f - mean_n n g) <= mean_n n e.
Proof.
  intro H. unfold mean_n. destruct (Nat.eq_dec n 0) as [->|Hn].
  - cbn [seq]. change (RSum f []) with 0. change (RSum g []) with 0. change (RSum e []) with 0. unfold Rdiv. rewrite !Rmult_0_l, Rminus_0_r, Rabs_R0. lra.
  - assert (Hp : 0 < / INR n) by (apply Rinv_0_lt_compat, lt_0_INR; lia).
    replace (RSum f (seq 0 n) / INR n - RSum g (seq 0 n) / INR n) with (RSum (fun i => f i + -1 * g i) (seq 0 n) * / INR n).
    2:{ rewrite RSum_add, RSum_scal. unfold Rdiv. ring. }
    rewrite Rabs_mult, (Rabs_pos_eq (/ INR n)) by lra. apply Rmult_le_compat_r; [lra|].
    eapply Rle_trans; [apply RSum_abs|]. apply RSum_le. intros i Hi. apply in_seq in Hi.
    replace (f i + -1 * g i) with (f i - g i) by ring. apply H. lia.
Qed.
Lemma mean_dlim n (f : nat -> R -> R) (f' : nat -> R) x : (forall i, (i < n)%nat -> derivable_pt_lim (f i) x (f' i)) ->
  derivable_pt_lim (fun y => mean_n n (fun i => f i y)) x (mean_n n f').
Proof.
  intro H. unfold mean_n, Rdiv.
  assert (E : RSum f' (seq 0 n) * / INR n + RSum (fun i => f i x) (seq 0 n) * 0 = RSum f' (seq 0 n) * / INR n) by ring.
  refine (eq_ind _ (derivable_pt_lim (fun y => RSum (fun i => f i y) (seq 0 n) * / INR n) x) _ _ E).
  apply (derivable_pt_lim_mult (fun y => RSum (fun i => f i y) (seq 0 n)) (fun _ => / INR n)); [|apply derivable_pt_lim_const].
  apply (dlim_sum f). intros i Hi. apply in_seq in Hi. apply H. lia.
Qed.

(** ** The gradient of the objective *)
Notation ids c b := (map (cons b) (indices (event_shape c))).
(** [log_prob] of a sample does not raise *)
Lemma log_prob_event c phi b u : valid c -> samples c ->
  q_log_prob c phi b (fun e => IZR (u e)) = Ok (RSum (fun e => phi e * IZR (u e)) (ids c b) - at_row 0 (q_partition c phi) b).
Proof.
  intros V Hs. destruct (run_ok c (log_ops NEG) phi V) as (v & Ev & _). unfold q_log_prob, q_partition. rewrite Ev. destruct c; try contradiction; reflexivity.
Qed.
Lemma log_prob_sample c G phi o k b : valid c -> samples c -> exists v, q_log_prob c phi b (fun e => IZR (q_sample c G o k e)) = Ok v.
Proof. intros V Hs. eexists. now apply log_prob_event. Qed.
Lemma log_prob_dir c phi delta b u D : valid c -> samples c ->
  derivable_pt_lim (fun x => at_row 0 (q_partition c (fun e => phi e + x * delta e)) b) 0 D ->
  derivable_pt_lim (fun x => ok_or 0 (q_log_prob c (fun e => phi e + x * delta e) b (fun e => IZR (u e)))) 0
    (RSum (fun e => delta e * IZR (u e)) (ids c b) - D).
Proof.
  intros V Hs HD. set (A := RSum (fun e => phi e * IZR (u e)) (ids c b)). set (A' := RSum (fun e => delta e * IZR (u e)) (ids c b)).
  apply dlim_ext with (fun x => (A + x * A') - at_row 0 (q_partition c (fun e => phi e + x * delta e)) b).
  - intro x. rewrite log_prob_event by auto. cbn [ok_or]. f_equal. unfold A, A'. rewrite <- RSum_scal, <- RSum_add. apply (Sum_ext R_csr). intro e. simpl. ring.
  - apply (derivable_pt_lim_minus (fun x => A + x * A')); [|exact HD].
    assert (E : 0 + (1 * A' + 0 * 0) = A') by ring. refine (eq_ind _ (derivable_pt_lim (fun x => A + x * A') 0) _ _ E).
    apply (derivable_pt_lim_plus (fun _ => A)); [apply derivable_pt_lim_const|].
    apply (derivable_pt_lim_mult (fun x => x) (fun _ => A')); [apply derivable_pt_lim_id|apply derivable_pt_lim_const].
Qed.

Lemma rewards_eq reward K smp am k b : (k < K)%nat -> sc_rewards reward K smp am k b = reward b (smp k) - reward b am.
Proof.
  intro Hk. unfold sc_rewards, sc_max, sc_score, sc_trees. rewrite app_length, map_length, seq_length. cbn [length].
  replace (K + 1 - 1)%nat with K by lia.
  rewrite app_nth1 by (now rewrite map_length, seq_length). rewrite app_nth2 by (rewrite map_length, seq_length; lia).
  rewrite map_length, seq_length, Nat.sub_diag. cbn [nth].
  rewrite nth_indep with (d' := smp 0%nat) by (now rewrite map_length, seq_length). rewrite map_nth, seq_nth by auto. reflexivity.
Qed.
Lemma structs_eq K (smp : nat -> event) k : (k < K)%nat -> nth k (sc_structs K smp) (fun _ => 0%Z) = smp k.
Proof.
  intro Hk. unfold sc_structs. rewrite nth_indep with (d' := smp 0%nat) by (now rewrite map_length, seq_length).
  rewrite map_nth, seq_nth by auto. reflexivity.
Qed.

(** the error of one row: M bounds the rewards, A the sum of |delta|, T the degree times the largest |delta| *)
Definition rl_err (M A T lk : R) : R := 4 * M * lk * (2 * A + 2 * T * lk + T).

Section Objective.
  Variables (c : call) (G : nat -> dag * nat) (phi delta : list nat -> R) (B Kd M : R).
  Hypothesis V : valid c.
  Hypothesis Hs : samples c.
  Hypothesis HG : records c G.
  Hypothesis HB0 : 0 <= B.
  Hypothesis HB : bounded c B phi.
  Hypothesis HK0 : 0 <= Kd.
  Hypothesis HK : bounded c Kd delta.
  Hypothesis Hrow : forall b, (b < batch_of c)%nat -> row_ok c b.
  Variable L : forall b, list (st (spec_of c b)).
  Hypothesis HL : forall b, (b < batch_of c)%nat -> Enumerates (ok (spec_of c b)) (L b).
  Variables (reward : nat -> event -> R) (am : event).
  Hypothesis Hfun : forall b, (b < batch_of c)%nat -> row_fun c b (reward b).
  Hypothesis HM : forall b u, (b < batch_of c)%nat -> binary u -> Rabs (reward b u) <= M.
  Hypothesis Ham : binary am.
  Let S b := spec_of c b.
  Let A b := RSum (fun e => Rabs (delta e)) (ids c b).
  Let T b := INR (degree c b) * Kd.
  Let lk b := leak c b B.

  Lemma L_nonempty b : (b < batch_of c)%nat -> L b <> [].
  Proof.
    intros Hb E. destruct (row_family V (Hrow Hb)) as (F & HF). specialize (HL Hb). rewrite E in HL. rewrite <- (ir_spec HF) in HL.
    apply (ir_nonempty HF). pose proof (fenum F) as HE. destruct (flist F) as [|s u]; auto. exfalso. destruct HL as [_ HL']. apply (HL' s). apply HE. now left.
  Qed.
  Lemma lk_nonneg b : 0 <= lk b.
  Proof. unfold lk, leak. destruct (zero_free c); [lra|]. apply Rmult_le_pos; [apply pos_INR|left; apply exp_pos]. Qed.
  Lemma bin_score b u : binary u -> Rabs (RSum (fun e => delta e * IZR (u e)) (ids c b)) <= A b.
  Proof.
    intro Hu. eapply Rle_trans; [apply RSum_abs|]. apply RSum_le. intros e _. rewrite Rabs_mult.
    assert (Rabs (IZR (u e)) <= 1) by (destruct (Hu e) as [-> | ->]; [rewrite Rabs_R0|rewrite Rabs_R1]; lra).
    pose proof (Rabs_pos (delta e)). rewrite <- (Rmult_1_r (Rabs (delta e))) at 2. apply Rmult_le_compat_l; auto.
  Qed.
  Lemma event_sc b s : (b < batch_of c)%nat -> ok (S b) s -> RSum (fun e => delta e * IZR (event_of (S b) s e)) (ids c b) = sc (prt (S b)) delta s.
  Proof.
    intros Hb Hok. etransitivity; [|apply (@event_score c b s delta V (Hrow Hb)); auto].
    - apply (Sum_ext R_csr). intro e. rewrite (@event_uses (S b) s e); [reflexivity|]. apply prt_nodup; auto.
  Qed.

  Lemma row_gradient b D n k : (b < batch_of c)%nat -> (k < n)%nat ->
    Rabs (D - RSum (fun s => prob (prt (S b)) (L b) phi s * sc (prt (S b)) delta s) (L b)) <= 2 * T b * lk b ->
    Rabs (PE (draws c G phi n) (fun o => (reward b (q_sample c G o k) - reward b am) *
             (RSum (fun e => delta e * IZR (q_sample c G o k e)) (ids c b) - D))
          - RSum (fun s => prob (prt (S b)) (L b) phi s * (reward b (event_of (S b) s) *
               (sc (prt (S b)) delta s - RSum (fun s' => prob (prt (S b)) (L b) phi s' * sc (prt (S b)) delta s') (L b)))) (L b))
      <= rl_err M (A b) (T b) (lk b).
  Proof.
    intros Hb Hk HD. pose proof (L_nonempty Hb) as Hne. pose proof (lk_nonneg b) as Hlk. destruct (HL Hb) as [_ HLb].
    set (m := RSum (fun s' => prob (prt (S b)) (L b) phi s' * sc (prt (S b)) delta s') (L b)) in *.
    assert (HA : 0 <= A b) by (apply RSum_nonneg; intros; apply Rabs_pos).
    assert (HT : 0 <= T b) by (apply Rmult_le_pos; [apply pos_INR|auto]).
    assert (HM0 : 0 <= M) by (eapply Rle_trans; [apply Rabs_pos|apply (@HM b am Hb Ham)]).
    assert (Hm : Rabs m <= A b).
    { unfold m. eapply Rle_trans; [apply RSum_abs|]. apply Rle_trans with (RSum (fun s => A b * prob (prt (S b)) (L b) phi s) (L b)).
      - apply RSum_le. intros s Hi. pose proof (@prob_pos _ (prt (S b)) (L b) Hne phi s) as P. rewrite Rabs_mult, (Rabs_pos_eq (prob _ _ _ _)) by lra.
        rewrite (Rmult_comm (A b)). apply Rmult_le_compat_l; [lra|]. rewrite <- event_sc by (auto; now apply HLb). apply bin_score, event_binary.
      - rewrite RSum_scal, prob_sum by auto. lra. }
    assert (HDa : Rabs D <= A b + 2 * T b * lk b).
    { replace D with (m + (D - m)) by ring. eapply Rle_trans; [apply Rabs_triang|]. lra. }
    set (h := fun u : event => (reward b u - reward b am) * (RSum (fun e => delta e * IZR (u e)) (ids c b) - D)).
    assert (Hh : row_fun c b h).
    { intros u v E. unfold h. rewrite (Hfun Hb u v E). f_equal. f_equal. apply (Sum_ext_in R_csr). intros e He. rewrite E; [reflexivity|].
      now apply (ids_row c b e Hs). }
    assert (Hr2 : forall u, binary u -> Rabs (reward b u - reward b am) <= 2 * M).
    { intros u Hu. unfold Rminus. eapply Rle_trans; [apply Rabs_triang|]. rewrite Rabs_Ropp. pose proof (HM Hb Hu). pose proof (HM Hb Ham). lra. }
    assert (Hhb : forall u, binary u -> Rabs (h u) <= 2 * M * (2 * A b + 2 * T b * lk b)).
    { intros u Hu. unfold h. rewrite Rabs_mult. apply Rmult_le_compat; auto using Rabs_pos.
      unfold Rminus. eapply Rle_trans; [apply Rabs_triang|]. rewrite Rabs_Ropp. pose proof (bin_score b Hu). lra. }
    pose proof (@sample_mean c G phi B V Hs HG HB0 HB n k b (L b) h _ Hk (Hrow Hb) (HL Hb) Hh Hhb) as X. cbv zeta in X. fold (S b) (lk b) in X.
    assert (E : RSum (fun s => prob (prt (S b)) (L b) phi s * h (event_of (S b) s)) (L b) =
       RSum (fun s => prob (prt (S b)) (L b) phi s * (reward b (event_of (S b) s) * (sc (prt (S b)) delta s - m))) (L b) +
       (m - D) * RSum (fun s => prob (prt (S b)) (L b) phi s * (reward b (event_of (S b) s) - reward b am)) (L b)).
    { pose proof (@baseline _ (prt (S b)) (L b) phi delta (fun s => reward b (event_of (S b) s)) (reward b am) Hne) as Hbase. cbv zeta in Hbase. fold m in Hbase.
      rewrite <- Hbase, <- RSum_scal, <- RSum_add. apply (Sum_ext_in R_csr). intros s Hi. unfold h. rewrite event_sc by (auto; now apply HLb). simpl. ring. }
    change (PE (draws c G phi n) (fun o => h (q_sample c G o k)) - RSum (fun s => prob (prt (S b)) (L b) phi s * h (event_of (S b) s)) (L b)) with
      (PE (draws c G phi n) (fun o => h (q_sample c G o k)) - RSum (fun s => prob (prt (S b)) (L b) phi s * h (event_of (S b) s)) (L b)) in X.
    rewrite E in X. set (R1 := RSum (fun s => prob (prt (S b)) (L b) phi s * (reward b (event_of (S b) s) * (sc (prt (S b)) delta s - m))) (L b)) in *.
    set (R2 := RSum (fun s => prob (prt (S b)) (L b) phi s * (reward b (event_of (S b) s) - reward b am)) (L b)) in *.
    change (Rabs (PE (draws c G phi n) (fun o => h (q_sample c G o k)) - R1) <= rl_err M (A b) (T b) (lk b)).
    set (P := PE (draws c G phi n) (fun o => h (q_sample c G o k))) in *.
    assert (HR2 : Rabs R2 <= 2 * M).
    { unfold R2. eapply Rle_trans; [apply RSum_abs|]. apply Rle_trans with (RSum (fun s => 2 * M * prob (prt (S b)) (L b) phi s) (L b)).
      - apply RSum_le. intros s Hi. pose proof (@prob_pos _ (prt (S b)) (L b) Hne phi s) as Pp. rewrite Rabs_mult, (Rabs_pos_eq (prob _ _ _ _)) by lra.
        rewrite (Rmult_comm (2 * M)). apply Rmult_le_compat_l; [lra|]. apply Hr2, event_binary.
      - rewrite RSum_scal, prob_sum by auto. lra. }
    assert (HX : Rabs ((m - D) * R2) <= (2 * T b * lk b) * (2 * M)).
    { rewrite Rabs_mult. apply Rmult_le_compat; auto using Rabs_pos. rewrite Rabs_minus_sym. exact HD. }
    replace (P - R1) with ((P - (R1 + (m - D) * R2)) + (m - D) * R2) by ring.
    eapply Rle_trans; [apply Rabs_triang|]. unfold rl_err.
    replace (4 * M * lk b * (2 * A b + 2 * T b * lk b + T b)) with (2 * (2 * M * (2 * A b + 2 * T b * lk b)) * lk b + 2 * T b * lk b * (2 * M)) by ring. lra.
  Qed.

  (** C62: averaged over the draws of the samples, the gradient of the objective
      along any direction of the parameters is the derivative of the expected
      reward, for every reward and every argmax (the baseline cancels) *)
  Theorem C62_reinforce_gradient n : (0 < n)%nat -> (0 < batch_of c)%nat ->
    exists (g : (nat -> nat -> nat -> nat -> nat) -> R) (d : nat -> R),
      (forall o, derivable_pt_lim (fun x => rl_obj c n (sc_rewards reward n (q_sample c G o) am) (sc_structs n (q_sample c G o))
                                     (fun e => phi e + x * delta e)) 0 (g o)) /\
      (forall b, (b < batch_of c)%nat -> derivable_pt_lim (fun x => expected_reward (S b) (L b) (reward b) (fun e => phi e + x * delta e)) 0 (d b)) /\
      Rabs (PE (draws c G phi n) g - mean_n (batch_of c) d) <= mean_n (batch_of c) (fun b => rl_err M (A b) (T b) (lk b)).
  Proof.
    intros Hn Hbatch.
    assert (HD : exists D : nat -> R, forall b, (b < batch_of c)%nat ->
      derivable_pt_lim (fun x => at_row 0 (q_partition c (fun e => phi e + x * delta e)) b) 0 (D b) /\
      Rabs (D b - RSum (fun s => prob (prt (S b)) (L b) phi s * sc (prt (S b)) delta s) (L b)) <= 2 * T b * lk b).
    { apply (fin_choice 0 (fun b D => derivable_pt_lim (fun x => at_row 0 (q_partition c (fun e => phi e + x * delta e)) b) 0 D /\
        Rabs (D - RSum (fun s => prob (prt (S b)) (L b) phi s * sc (prt (S b)) delta s) (L b)) <= 2 * T b * lk b)). intros b Hb. destruct (@C61_partition_direction c phi delta B Kd V HB0 HB HK0 HK b (L b) (Hrow Hb) (HL Hb)) as (D & H1 & H2).
      exists D. split; [exact H1|]. exact H2. }
    destruct HD as (D & HD).
    exists (fun o => mean_n n (fun k => mean_n (batch_of c) (fun b => (reward b (q_sample c G o k) - reward b am) *
             (RSum (fun e => delta e * IZR (q_sample c G o k e)) (ids c b) - D b)))).
    exists (fun b => RSum (fun s => prob (prt (S b)) (L b) phi s * (reward b (event_of (S b) s) *
               (sc (prt (S b)) delta s - RSum (fun s' => prob (prt (S b)) (L b) phi s' * sc (prt (S b)) delta s') (L b)))) (L b)).
    split; [|split].
    - intro o. unfold rl_obj.
      apply (mean_dlim (fun k x => mean_n (batch_of c) (fun b => sc_rewards reward n (q_sample c G o) am k b *
        ok_or 0 (q_log_prob c (fun e => phi e + x * delta e) b (fun e => IZR (nth k (sc_structs n (q_sample c G o)) (fun _ => 0%Z) e)))))).
      intros k Hk. rewrite structs_eq by auto.
      apply (mean_dlim (fun b x => sc_rewards reward n (q_sample c G o) am k b *
        ok_or 0 (q_log_prob c (fun e => phi e + x * delta e) b (fun e => IZR (q_sample c G o k e))))).
      intros b Hb. rewrite rewards_eq by auto.
      apply (derivable_pt_lim_scal (fun x => ok_or 0 (q_log_prob c (fun e => phi e + x * delta e) b (fun e => IZR (q_sample c G o k e))))).
      apply log_prob_dir; auto. apply HD, Hb.
    - intros b Hb. apply gibbs_dir. now apply L_nonempty.
    - rewrite (PE_mean (draws c G phi n) n (fun k o => mean_n (batch_of c) (fun b => (reward b (q_sample c G o k) - reward b am) *
             (RSum (fun e => delta e * IZR (q_sample c G o k e)) (ids c b) - D b)))).
      match goal with |- Rabs (_ - ?y) <= ?z => rewrite <- (@mean_const n y Hn), <- (@mean_const n z Hn) end.
      apply mean_close. intros k Hk.
      rewrite (PE_mean (draws c G phi n) (batch_of c) (fun b o => (reward b (q_sample c G o k) - reward b am) *
             (RSum (fun e => delta e * IZR (q_sample c G o k e)) (ids c b) - D b))).
      apply mean_close. intros b Hb. apply row_gradient; auto. apply HD, Hb.
  Qed.
End Objective.

Print Assumptions C62_reinforce_gradient.

(** For the distributions whose graph has no zero (TreeCRF, which tree.py trains,
    and multi-root dependency trees) this is an equality, without bounds on
    potentials, directions or rewards; so is the whole policy objective with its
    entropy bonus *)
Definition reads (c : call) (b : nat) (r : event -> R) : Prop :=
  forall u v, (forall e, In e (ids c b) -> u e = v e) -> r u = r v.
Lemma reads_row c b r : samples c -> reads c b r -> row_fun c b r.
Proof. intros Hs H u v E. apply H. intros e He. apply E. now apply (ids_row c b e Hs). Qed.
Lemma binary_bound c b (r : event -> R) : reads c b r -> exists M, forall u, binary u -> Rabs (r u) <= M.
Proof.
  intro Hr.
  assert (H : forall l (base : event), exists M, forall u, binary u -> (forall e, ~ In e l -> u e = base e) -> Rabs (r u) <= M).
  { induction l as [|e l IH]; intro base.
    - exists (Rabs (r base)). intros u _ E. right. f_equal. apply Hr. intros; apply E; auto.
    - destruct (IH (fun x => if idx_dec x e then 0%Z else base x)) as (M0 & H0). destruct (IH (fun x => if idx_dec x e then 1%Z else base x)) as (M1 & H1).
      exists (Rmax M0 M1). intros u Hu E. destruct (Hu e) as [E0|E1].
      + eapply Rle_trans; [apply H0; auto|apply Rmax_l]. intros x Hx. destruct (idx_dec x e) as [->|Ne]; [exact E0|]. apply E. intros [->|]; auto.
      + eapply Rle_trans; [apply H1; auto|apply Rmax_r]. intros x Hx. destruct (idx_dec x e) as [->|Ne]; [exact E1|]. apply E. intros [->|]; auto. }
  destruct (H (ids c b) (fun _ => 0%Z)) as (M & HM). exists M. intros u Hu.
  pose (v := fun e => if in_dec idx_dec e (ids c b) then u e else 0%Z).
  rewrite (Hr u v).
  - apply HM.
    + intro e. unfold v. destruct (in_dec _ _ _); auto.
    + intros e He. unfold v. destruct (in_dec _ _ _); [contradiction|reflexivity].
  - intros e He. unfold v. destruct (in_dec _ _ _); [reflexivity|contradiction].
Qed.

Lemma draws_total c G phi B n : valid c -> samples c -> records c G -> 0 <= B -> bounded c B phi -> forall x, PE (draws c G phi n) (fun _ => x) = x.
Proof.
  intros V Hs HG HB0 HB x. destruct (@C23_sample_law c G phi B V Hs HG HB0 HB) as (law & H1 & H2 & _).
  specialize (H1 n (fun _ _ _ => 1)). cbv beta in H1.
  transitivity (x * PE (draws c G phi n) (fun _ => 1)); [rewrite <- PE_scal; apply PE_ext; intro; ring|].
  replace (PE (draws c G phi n) (fun _ => 1)) with 1; [ring|]. symmetry.
  transitivity (PE (draws c G phi n) (fun _ => RProd (fun _ => RProd (fun _ => 1) (seq 0 (batch_of c))) (seq 0 n))).
  - apply PE_ext. intros _. symmetry. transitivity (RProd (fun _ : nat => 1) (seq 0 n)); [|apply RProd_const1]. apply (Prod_ext R_csr). intro. apply RProd_const1.
  - rewrite H1 by (intros k b _ u v _; reflexivity). transitivity (RProd (fun _ : nat => 1) (seq 0 n)); [|apply RProd_const1].
    apply (Prod_ext R_csr). intro k. transitivity (RProd (fun _ : nat => 1) (seq 0 (batch_of c))); [|apply RProd_const1].
    apply (Prod_ext_in R_csr). intros b Hb. apply in_seq in Hb. apply H2. lia.
Qed.
Lemma entropy_row c phi b l : valid c -> zero_free c = true -> row_ok c b -> Enumerates (ok (spec_of c b)) l ->
  at_row 0 (q_entropy c phi) b = entropy_spec (prt (spec_of c b)) l phi.
Proof.
  intros V Z Hb Hl. destruct (@C17_entropy_value c phi 0 V (Rle_refl 0) (or_introl Z)) as (v & E & _ & H). rewrite E. cbn [at_row].
  specialize (H b l Hb Hl). unfold leak in H. rewrite Z, Rmult_0_r in H. apply Rminus_diag_uniq.
  match type of H with Rabs ?x <= 0 => pose proof (Rle_abs x); pose proof (Rle_abs (- x)) as Y; rewrite Rabs_Ropp in Y end. lra.
Qed.

Section Exact.
  Variables (c : call) (G : nat -> dag * nat) (phi delta : list nat -> R).
  Hypothesis V : valid c.
  Hypothesis Hs : samples c.
  Hypothesis Hz : zero_free c = true.
  Hypothesis HG : records c G.
  Hypothesis Hrow : forall b, (b < batch_of c)%nat -> row_ok c b.
  Variable L : forall b, list (st (spec_of c b)).
  Hypothesis HL : forall b, (b < batch_of c)%nat -> Enumerates (ok (spec_of c b)) (L b).
  Variables (reward : nat -> event -> R) (am : event).
  Hypothesis Hfun : forall b, (b < batch_of c)%nat -> reads c b (reward b).
  Hypothesis Ham : binary am.
  Let S b := spec_of c b.

  Lemma common_bound : exists M, forall b u, (b < batch_of c)%nat -> binary u -> Rabs (reward b u) <= M.
  Proof.
    assert (H : forall n, (n <= batch_of c)%nat -> exists M, forall b u, (b < n)%nat -> binary u -> Rabs (reward b u) <= M).
    { induction n as [|n IH]; intro Hn; [exists 0; intros; lia|]. destruct IH as (M & HM); [lia|].
      destruct (@binary_bound c n (reward n)) as (M' & HM'); [apply Hfun; lia|].
      exists (Rmax M M'). intros b u Hb Hu. destruct (Nat.eq_dec b n) as [->|].
      - eapply Rle_trans; [now apply HM'|apply Rmax_r].
      - eapply Rle_trans; [apply HM; auto; lia|apply Rmax_l]. }
    now apply H.
  Qed.

  (** the mean score of the samples estimates the expected reward *)
  Theorem C62_total n b : (0 < n)%nat -> (b < batch_of c)%nat ->
    PE (draws c G phi n) (fun o => sc_total reward n (q_sample c G o) am b) = expected_reward (S b) (L b) (reward b) phi.
  Proof.
    intros Hn Hb. destruct common_bound as (M & HM).
    rewrite (@PE_ext _ _ _ (fun o => mean_n n (fun k => reward b (q_sample c G o k)))).
    - rewrite (PE_mean (draws c G phi n) n (fun k o => reward b (q_sample c G o k))). rewrite <- (@mean_const n (expected_reward _ _ _ _) Hn).
      apply mean_ext. intros k Hk.
      pose proof (@sample_mean c G phi 0 V Hs HG (Rle_refl 0) (or_introl Hz) n k b (L b) (reward b) M Hk (Hrow Hb) (HL Hb) (reads_row Hs (Hfun Hb)) (fun u Hu => HM b u Hb Hu)) as X.
      cbv zeta in X. unfold leak in X. rewrite Hz, Rmult_0_r in X. apply Rminus_diag_uniq.
      match type of X with Rabs ?x <= 0 => pose proof (Rle_abs x); pose proof (Rle_abs (- x)) as Y; rewrite Rabs_Ropp in Y end.
      unfold expected_reward. fold (S b) in *. lra.
    - intro o. unfold sc_total. apply mean_ext. intros k Hk. unfold sc_score, sc_trees.
      rewrite app_nth1 by (now rewrite map_length, seq_length).
      rewrite nth_indep with (d' := q_sample c G o 0%nat) by (now rewrite map_length, seq_length). rewrite map_nth, seq_nth by auto. reflexivity.
  Qed.

  Theorem C62_policy_gradient n w len : (0 < n)%nat -> (0 < batch_of c)%nat ->
    exists (g : (nat -> nat -> nat -> nat -> nat) -> R) (D : R),
      (forall o, derivable_pt_lim (fun x => rl_policy c n w len (sc_rewards reward n (q_sample c G o) am) (sc_structs n (q_sample c G o))
                                     (fun e => phi e + x * delta e)) 0 (g o)) /\
      derivable_pt_lim (fun x => mean_n (batch_of c) (fun b => expected_reward (S b) (L b) (reward b) (fun e => phi e + x * delta e))
                         - w * mean_n (batch_of c) (fun b => entropy_spec (prt (S b)) (L b) (fun e => phi e + x * delta e) / len b)) 0 D /\
      PE (draws c G phi n) g = D.
  Proof.
    intros Hn Hbatch. destruct common_bound as (M & HM).
    destruct (@C62_reinforce_gradient c G phi delta 0 0 M V Hs HG (Rle_refl 0) (or_introl Hz) (Rle_refl 0) (or_introl Hz) Hrow L HL reward am
      (fun b Hb => reads_row Hs (Hfun Hb)) HM Ham n Hn Hbatch) as (g & d & Hg & Hd & HE).
    assert (He : exists h : nat -> R, forall b, (b < batch_of c)%nat ->
      derivable_pt_lim (fun x => entropy_spec (prt (S b)) (L b) (fun e => phi e + x * delta e)) 0 (h b)).
    { apply (fin_choice 0 (fun b h => derivable_pt_lim (fun x => entropy_spec (prt (S b)) (L b) (fun e => phi e + x * delta e)) 0 h)).
      intros b Hb. apply entropy_dir. apply (@L_nonempty c V Hrow L HL b Hb). }
    destruct He as (h & Hh).
    assert (Hent : derivable_pt_lim (fun x => w * mean_n (batch_of c) (fun b => entropy_spec (prt (S b)) (L b) (fun e => phi e + x * delta e) / len b)) 0
       (w * mean_n (batch_of c) (fun b => h b / len b))).
    { apply (derivable_pt_lim_scal (fun x => mean_n (batch_of c) (fun b => entropy_spec (prt (S b)) (L b) (fun e => phi e + x * delta e) / len b))).
      apply (mean_dlim (fun b x => entropy_spec (prt (S b)) (L b) (fun e => phi e + x * delta e) / len b)). intros b Hb. unfold Rdiv.
      assert (E : h b * / len b + entropy_spec (prt (S b)) (L b) (fun e => phi e + 0 * delta e) * 0 = h b * / len b) by ring.
      refine (eq_ind _ (derivable_pt_lim (fun x => entropy_spec (prt (S b)) (L b) (fun e => phi e + x * delta e) * / len b) 0) _ _ E).
      apply (derivable_pt_lim_mult (fun x => entropy_spec (prt (S b)) (L b) (fun e => phi e + x * delta e)) (fun _ => / len b)); [now apply Hh|apply derivable_pt_lim_const]. }
    exists (fun o => g o - w * mean_n (batch_of c) (fun b => h b / len b)), (mean_n (batch_of c) d - w * mean_n (batch_of c) (fun b => h b / len b)).
    split; [|split].
    - intro o.
      apply dlim_ext with (fun x => rl_obj c n (sc_rewards reward n (q_sample c G o) am) (sc_structs n (q_sample c G o)) (fun e => phi e + x * delta e)
        - w * mean_n (batch_of c) (fun b => entropy_spec (prt (S b)) (L b) (fun e => phi e + x * delta e) / len b)).
      + intro x. unfold rl_policy. f_equal. f_equal. apply mean_ext. intros b Hb. f_equal. symmetry. apply entropy_row; auto.
      + apply (derivable_pt_lim_minus (fun x => rl_obj c n (sc_rewards reward n (q_sample c G o) am) (sc_structs n (q_sample c G o)) (fun e => phi e + x * delta e)));
          [apply Hg|exact Hent].
    - apply (derivable_pt_lim_minus (fun x => mean_n (batch_of c) (fun b => expected_reward (S b) (L b) (reward b) (fun e => phi e + x * delta e)))); [|exact Hent].
      apply (mean_dlim (fun b x => expected_reward (S b) (L b) (reward b) (fun e => phi e + x * delta e))). exact Hd.
    - assert (E0 : PE (draws c G phi n) g = mean_n (batch_of c) d).
      { rewrite (@mean_ext (batch_of c) (fun b => rl_err M (RSum (fun e => Rabs (delta e)) (ids c b)) (INR (degree c b) * 0) (leak c b 0)) (fun _ => 0)) in HE.
        - rewrite (mean_const 0 Hbatch) in HE. apply Rminus_diag_uniq.
          match type of HE with Rabs ?x <= 0 => pose proof (Rle_abs x); pose proof (Rle_abs (- x)) as Y; rewrite Rabs_Ropp in Y end. lra.
        - intros b Hb. unfold rl_err, leak. rewrite Hz. ring. }
      rewrite <- E0. transitivity (PE (draws c G phi n) g + PE (draws c G phi n) (fun _ => - (w * mean_n (batch_of c) (fun b => h b / len b)))).
      + unfold PE. rewrite <- RSum_add. apply (Sum_ext R_csr). intro x. simpl. ring.
      + rewrite (@draws_total c G phi 0 n V Hs HG (Rle_refl 0) (or_introl Hz)). ring.
  Qed.
End Exact.
Print Assumptions C62_policy_gradient.

(** ** Training ignores the lengths *)
Lemma abs0 x : Rabs x <= 0 -> x = 0.
Proof. unfold Rabs. destruct (Rcase_abs x); lra. Qed.
(** tree.py:116 builds [Dist(phi)] without the lengths; validation builds
    [TreeCRF(phi, lengths)] (tree.py:69). On a sentence shorter than the batch the
    first distribution brackets the padding in every tree, the second never does. *)
Definition ltop (t : ltree) : nat := match t with LLeaf a | LNode a _ _ => a end.
Lemma root_use NT n b t a : is_ltree NT n t -> uses (lparts b 0) [b; 0%nat; (n - 1)%nat; a] t = ind (a =? ltop t)%nat.
Proof.
  intros [Hn Hb]. apply uses_nodup; [apply lparts_nodup|]. rewrite Nat.eqb_eq. split.
  - intro Hi. destruct t as [a'|a' l r]; cbn [lparts ltop lsize] in *.
    + destruct Hi as [E|[]]. congruence.
    + destruct Hi as [E|Hi]; [congruence|]. pose proof (lsize_pos l). pose proof (lsize_pos r).
      apply in_app_iff in Hi as [Hi|Hi]; apply lparts_in in Hi as (j & k & x & [= <- <- <-] & ? & ? & ?); lia.
  - intros ->. destruct t as [a'|a' l r]; cbn [lparts ltop lsize] in *; subst n; left; reflexivity.
Qed.
Lemma tree_marginal batch N NT ls phi b e l : valid (CTree batch N NT ls) -> (b < batch)%nat -> nth 0 e 0%nat = b ->
  Enumerates (is_ltree NT (eff_len N (lc_len N ls b))) l -> q_marginals (CTree batch N NT ls) phi e = marg_spec (lparts b 0) l phi e.
Proof.
  intros V Hb He Hl. pose proof (@C20_marginals_value _ phi 0 V (Rle_refl 0) (or_introl eq_refl) b l e (conj Hb I) He Hl) as H.
  change (leak (CTree batch N NT ls) b 0) with 0 in H. rewrite Rmult_0_r in H. apply Rminus_diag_uniq, abs0. exact H.
Qed.
Theorem C62_training_lengths batch N NT ls phi b : valid (CTree batch N NT None) -> valid (CTree batch N NT (Some ls)) -> (b < batch)%nat ->
  (1 <= nth b ls 0 < N)%nat ->
  RSum (fun a => q_marginals (CTree batch N NT None) phi [b; 0%nat; (N - 1)%nat; a]) (seq 0 NT) = 1 /\
  forall i j a, (nth b ls 0 <= j)%nat -> q_marginals (CTree batch N NT (Some ls)) phi [b; i; j; a] = 0.
Proof.
  intros V1 V2 Hb Hlen.
  assert (E1 : eff_len N (lc_len N None b) = N) by (unfold eff_len, lc_len; destruct (Nat.eqb_spec N 0); lia).
  assert (E2 : eff_len N (lc_len N (Some ls) b) = nth b ls 0%nat).
  { unfold eff_len. cbn [lc_len]. destruct (Nat.eqb_spec (nth b ls 0%nat) 0); lia. }
  split.
  - pose proof (@ltrees_enum NT N N (le_n _)) as HE. pose proof HE as [_ HE'].
    assert (Hne : ltrees NT N N <> []).
    { destruct (@row_family (CTree batch N NT None) b V1 (conj Hb I)) as (F & HF). pose proof (ir_spec HF) as Sp. pose proof (fenum F) as HF'.
      intro Z. apply (ir_nonempty HF). destruct (flist F) as [|s u]; auto. exfalso.
      assert (Hok : ok (fspec F) s) by (apply HF'; now left). revert s Hok HF'. 
      assert (X : forall (s : st (fspec F)), ok (fspec F) s -> False).
      { rewrite Sp. cbn [spec_of st ok]. rewrite E1. intros s Hk. apply HE' in Hk. rewrite Z in Hk. destruct Hk. }
      intros s Hok _. exact (X s Hok). }
    rewrite (Sum_ext R_csr _ (fun a => marg_spec (lparts b 0) (ltrees NT N N) phi [b; 0%nat; (N - 1)%nat; a])).
    2:{ intro a. apply tree_marginal; auto. now rewrite E1. }
    unfold marg_spec. etransitivity; [apply (Sum_comm R_csr)|].
    rewrite (Sum_ext_in R_csr _ (prob (lparts b 0) (ltrees NT N N) phi)); [now apply prob_sum|].
    intros t Ht. apply HE' in Ht. rewrite RSum_scal.
    assert (X : RSum (fun a => uses (lparts b 0) [b; 0%nat; (N - 1)%nat; a] t) (seq 0 NT) = 1).
    { etransitivity; [|apply (@RSum_delta1 NT (ltop t))].
      - apply (Sum_ext R_csr). intro a. now apply root_use with NT.
      - destruct Ht as [_ Hbd]. destruct t; cbn in *; tauto. }
    rewrite X. apply Rmult_1_r.
  - intros i j a Hj. pose proof (@ltrees_enum NT (nth b ls 0%nat) (nth b ls 0%nat) (le_n _)) as HE.
    rewrite (@tree_marginal batch N NT (Some ls) phi b [b; i; j; a] (ltrees NT (nth b ls 0%nat) (nth b ls 0%nat))); auto.
    + unfold marg_spec. apply (Sum_zero R_csr). intros t Ht. apply HE in Ht as [Hn _]. unfold uses.
      rewrite (proj1 (count_occ_not_In _ _ _)); [apply Rmult_0_r|].
      intro Hi. apply lparts_in in Hi as (j' & k & x & [= <- <- <-] & ? & ? & ?). lia.
    + now rewrite E2.
Qed.
Print Assumptions C62_training_lengths.

(** ** The hypotheses are met *)
Definition ex_rl_reward (b : nat) (u : event) : R := if Z.eq_dec (u [b; 0; 1; 0]%nat) 1 then 5 else -1.
Example rl_hypotheses : valid ex_tree /\ samples ex_tree /\ zero_free ex_tree = true /\ (exists G, records ex_tree G) /\
  (forall b, (b < 2)%nat -> row_ok ex_tree b) /\ (forall b, (b < 2)%nat -> exists l, Enumerates (ok (spec_of ex_tree b)) l) /\
  (forall b, (b < 2)%nat -> reads ex_tree b (ex_rl_reward b)) /\
  (exists am, binary am) /\
  (** the reward tells trees apart *)
  (exists s t, ok (spec_of ex_tree 1) s /\ ok (spec_of ex_tree 1) t /\
     ex_rl_reward 1 (event_of (spec_of ex_tree 1) s) <> ex_rl_reward 1 (event_of (spec_of ex_tree 1) t)) /\
  valid (CTree 2 4 2 None) /\ valid (CTree 2 4 2 (Some [2; 4]%nat)) /\ (1 <= nth 0 [2; 4] 0 < 4)%nat.
Proof.
  pose proof ex_hypotheses as H1. pose proof ex_sampling as H2. rewrite Forall_forall in *.
  destruct (H1 ex_tree) as (V & _ & Hr & _); [cbn; tauto|]. destruct (H2 ex_tree) as (_ & Hs & HG); [cbn; tauto|].
  split; [exact V|]. split; [exact Hs|]. split; [reflexivity|]. split; [exact HG|].
  split; [intros b Hb; apply Hr, Hb|]. split.
  { intros b Hb. destruct (@row_family ex_tree b V (proj1 (Hr b Hb))) as (F & HF). rewrite <- (ir_spec HF). exists (flist F). apply fenum. }
  split.
  { intros b Hb u v E. unfold ex_rl_reward. rewrite E; auto. change (In [b; 0; 1; 0]%nat (map (cons b) (indices [4; 4; 2]%nat))).
    apply in_map, indices_in. repeat constructor; lia. }
  split; [exists (fun _ => 0%Z); intro; auto|]. split.
  - exists (LNode 0 (LNode 0 (LLeaf 0) (LLeaf 0)) (LNode 0 (LLeaf 0) (LLeaf 0))), (LNode 0 (LLeaf 0) (LNode 0 (LLeaf 0) (LNode 0 (LLeaf 0) (LLeaf 0)))).
    split; [|split]; try (cbn; unfold is_ltree; cbn; repeat split; lia).
    unfold ex_rl_reward. vm_compute. lra.
  - split; [|split; [exact V|cbn; lia]]. cbn. unfold ck_args. repeat split; lia.
Qed.
