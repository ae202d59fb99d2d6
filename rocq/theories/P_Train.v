(** * Properties of the supervised training examples (C61). *)
From Verif Require Import Base Ops Terms Semirings Poly Chain LinearChain SemiMarkov CkyCrf Cky DepSpec DepTree
  Batch Family Approx Grad Sample Dist Purity Degree Shape Api Query Learn P_Real P_Learn Codec Adapters Train P_Grammar.
Set Implicit Arguments.
Local Open Scope R_scope.

(** the value of a call, or a default when it raised *)
Definition ok_or (d : R) (r : res R) : R := match r with Ok v => v | Err _ => d end.

(** ** Parameters that enter many potentials *)
(** A parameter x that adds [x * delta e] to every potential e (a bias, a
    transition weight, one entry of a linear layer): the derivative of the
    log-partition is the expected value of the structure's [delta] *)
Theorem C61_partition_direction c phi delta B K : valid c -> 0 <= B -> bounded c B phi ->
  0 <= K -> bounded c K delta ->
  forall b l, row_ok c b -> let S := spec_of c b in Enumerates (ok S) l ->
  exists D, derivable_pt_lim (fun x => at_row 0 (q_partition c (fun e => phi e + x * delta e)) b) 0 D /\
    Rabs (D - RSum (fun s => prob (prt S) l phi s * sc (prt S) delta s) l) <= 2 * (INR (degree c b) * K) * leak c b B.
Proof.
  intros V HB0 HB HK0 HK b l Hb; cbv zeta; intro Hl. destruct (row_family V Hb) as (F & HF).
  exists (mean phi NEG (ft F) (score delta 0)). split.
  - eapply dlim_ext; [|apply (@dir_derivative NEG phi delta (ft F) (ft_wf F))]. intro y. cbv beta.
    symmetry. apply (row_partition HF).
  - revert l Hl. rewrite <- (ir_spec HF). cbn [ok prt fspec st]. intros l Hl.
    rewrite <- (@wsum_perm _ (fparts F) (flist F) l (row_perm HF Hl) phi _ _ (fun s => eq_refl)).
    pose proof (pure_sum2 F (fun x y => exp x * y) phi delta NEG 0) as T.
    apply (@err_transfer c B b F (2 * (INR (fdeg F) * K))); auto.
    + intro Z. rewrite (@mean_pure F (ir_pure HF Z) phi (score delta 0) (sc (fparts F) delta)); [ring| |exact T].
      intros m s Hp HP. now apply perm_score.
    + pose proof (pos_INR (fdeg F)). pose proof (Rmult_le_pos _ _ H HK0). lra.
    + intro Z. destruct HB as [HB|HB]; [congruence|]. destruct HK as [HK|HK]; [congruence|].
      rewrite avg_prob. apply mean_err; auto using NEG_neg; [apply (ir_nonempty HF)| |].
      * intros m Hm. eapply Rle_trans; [apply score0_abs; eauto|]. apply Rmult_le_compat_r; auto. now apply len_le.
      * intros s Hs. destruct (structure_is_pure F s Hs) as (m & Hm & Hp & HP).
        rewrite <- (@perm_score F delta 0 m s Hp HP). eapply Rle_trans; [apply score0_abs; eauto|].
        apply Rmult_le_compat_r; auto. now apply len_le.
    + intro Z. destruct (ir_bnd HF Z) as [Hd _]. apply le_INR in Hd. unfold fdeg in *.
      apply Rmult_le_compat_l; [lra|]. apply Rmult_le_compat_r; auto.
Qed.
Print Assumptions C61_partition_direction.

(** the score of an event is the sum over its parts *)
Lemma event_score c b s phi : valid c -> row_ok c b -> match c with CCfg _ _ _ _ _ => False | _ => True end ->
  ok (spec_of c b) s ->
  RSum (fun e => phi e * uses (prt (spec_of c b)) e s) (map (cons b) (indices (event_shape c))) = sc (prt (spec_of c b)) phi s.
Proof.
  intros V Hb Hc Hs. pose proof (@parts_in_event c b s V Hb Hc Hs) as Hi.
  assert (Hnd : NoDup (map (cons b) (indices (event_shape c)))) by (apply NoDup_map_inj; [congruence|apply indices_nodup]).
  unfold sc, uses. revert Hi. generalize (map (cons b) (indices (event_shape c))) Hnd. intros ids Hn.
  generalize (prt (spec_of c b) s). induction l as [|e l IH]; intro Hi.
  - cbn [count_occ]. change (RSum phi []) with 0. transitivity (RSum (fun _ : list nat => 0) ids).
    + apply (Sum_ext R_csr). intro e. simpl. ring.
    + rewrite RSum_const. ring.
  - rewrite RSum_cons, <- IH by (intros x Hx; apply Hi; right; auto).
    assert (He : In e ids) by (apply Hi; left; auto).
    transitivity (RSum (fun x => (if list_eq_dec Nat.eq_dec e x then phi x else 0) +
        phi x * INR (count_occ (list_eq_dec Nat.eq_dec) l x)) ids).
    + apply (Sum_ext R_csr). intro x. cbn [count_occ]. destruct (list_eq_dec Nat.eq_dec e x); [rewrite S_INR|]; ring.
    + rewrite RSum_add. f_equal. clear - Hn He. induction Hn as [|a ids Ha Hn IH]; [destruct He|].
      rewrite RSum_cons. destruct (list_eq_dec Nat.eq_dec e a) as [->|Ne].
      * rewrite (Sum_ext_in R_csr _ (fun _ => 0)); [rewrite RSum_const; ring|].
        intros x Hx. destruct (list_eq_dec Nat.eq_dec a x); [subst; contradiction|reflexivity].
      * destruct He as [->|He]; [contradiction|]. rewrite IH by auto. ring.
Qed.

(** the gradient of the log-likelihood of a structure: its own feature value
    minus the expected one *)
Theorem C61_likelihood_gradient c phi delta B K : valid c -> 0 <= B -> bounded c B phi ->
  0 <= K -> bounded c K delta -> match c with CCfg _ _ _ _ _ => False | _ => True end ->
  forall b l s, row_ok c b -> let S := spec_of c b in Enumerates (ok S) l -> ok S s ->
  exists D, derivable_pt_lim (fun x => ok_or 0 (q_log_prob c (fun e => phi e + x * delta e) b (fun e => uses (prt S) e s))) 0 D /\
    Rabs (D - (sc (prt S) delta s - RSum (fun s' => prob (prt S) l phi s' * sc (prt S) delta s') l)) <= 2 * (INR (degree c b) * K) * leak c b B.
Proof.
  intros V HB0 HB HK0 HK Hc b l s Hb S Hl Hs.
  destruct (@C61_partition_direction c phi delta B K V HB0 HB HK0 HK b l Hb Hl) as (D & HD & HE). fold S in HE.
  exists (sc (prt S) delta s - D). split.
  - apply dlim_ext with (fun x => (sc (prt S) phi s + (x - 0) * sc (prt S) delta s) - at_row 0 (q_partition c (fun e => phi e + x * delta e)) b).
    + intro x. assert (E : ok_or 0 (q_log_prob c (fun e => phi e + x * delta e) b (fun e => uses (prt S) e s)) =
        RSum (fun e => (phi e + x * delta e) * uses (prt S) e s) (map (cons b) (indices (event_shape c))) - at_row 0 (q_partition c (fun e => phi e + x * delta e)) b).
      { destruct (run_ok c (log_ops NEG) (fun e => phi e + x * delta e) V) as (v & Ev & _). unfold q_log_prob, q_partition. rewrite Ev.
        destruct c; try contradiction; reflexivity. }
      rewrite E. unfold S. rewrite (event_score _ (fun e => phi e + x * delta e) V Hb Hc Hs). fold S. f_equal.
      unfold sc. rewrite RSum_add, RSum_scal. ring.
    + apply (derivable_pt_lim_minus (fun x => sc (prt S) phi s + (x - 0) * sc (prt S) delta s)); auto.
      assert (E : 0 + ((1 - 0) * sc (prt S) delta s + (0 - 0) * 0) = sc (prt S) delta s) by ring.
      refine (eq_ind _ (derivable_pt_lim (fun x => sc (prt S) phi s + (x - 0) * sc (prt S) delta s) 0) _ _ E).
      apply (derivable_pt_lim_plus (fun _ => sc (prt S) phi s)); [apply derivable_pt_lim_const|].
      apply (derivable_pt_lim_mult (fun x => x - 0) (fun _ => sc (prt S) delta s)); [|apply derivable_pt_lim_const].
      apply (derivable_pt_lim_minus (fun x => x) (fun _ => 0)); [apply derivable_pt_lim_id|apply derivable_pt_lim_const].
  - replace (sc (prt S) delta s - D - (sc (prt S) delta s - RSum (fun s' => prob (prt S) l phi s' * sc (prt S) delta s') l))
      with (- (D - RSum (fun s' => prob (prt S) l phi s' * sc (prt S) delta s') l)) by ring.
    now rewrite Rabs_Ropp.
Qed.
Print Assumptions C61_likelihood_gradient.

(** ** The tagger *)
Lemma tag_sc final trans b y : (2 <= length y)%nat -> sc (seq_parts b) (tag_vals final trans) y = tag_score final trans b y.
Proof.
  intro Hy. destruct y as [|c y]; [cbn in Hy; lia|]. cbn [length] in Hy. unfold sc, seq_parts, tag_score.
  rewrite (Sum_map R_csr). cbn [length]. replace (S (length y) - 1)%nat with (length y) by lia.
  destruct (length y) as [|m]; [lia|]. cbn [tag_vals].
  rewrite (RSum_first (fun n => final b (n + 1)%nat (nth (n + 1) (c :: y) 0%nat) + trans (nth (n + 1) (c :: y) 0%nat) (nth n (c :: y) 0%nat))
    (final b 0%nat (nth 0 (c :: y) 0%nat))) || idtac.
  rewrite (Sum_ext_in R_csr _ (fun n => (final b (n + 1)%nat (nth (n + 1) (c :: y) 0%nat) + trans (nth (n + 1) (c :: y) 0%nat) (nth n (c :: y) 0%nat))
     + (if (n =? 0)%nat then final b 0%nat c else 0))).
  2: { intros n _. destruct (Nat.eqb_spec n 0) as [->|]; reflexivity. }
  rewrite RSum_first, RSum_add.
  replace (RSum (fun i => final b i (nth i (c :: y) 0%nat)) (seq 0 (S (S m))))
    with (final b 0%nat c + RSum (fun n => final b (n + 1)%nat (nth (n + 1) (c :: y) 0%nat)) (seq 0 (S m))); [ring|].
  change (seq 0 (S (S m))) with (0%nat :: seq 1 (S m)). rewrite RSum_cons. cbn [nth]. f_equal.
  symmetry. etransitivity; [apply (Sum_seq_shift R_csr)|]. apply (Sum_ext R_csr). intro i. rewrite (Nat.add_comm 1 i). reflexivity.
Qed.

Lemma tag_vals_dir final trans final' trans' x e :
  tag_vals (fun b i c => final b i c + x * final' b i c) (fun p q => trans p q + x * trans' p q) e =
  tag_vals final trans e + x * tag_vals final' trans' e.
Proof.
  destruct e as [|b [|n [|p [|q [|]]]]]; cbn [tag_vals]; try ring. destruct (n =? 0)%nat; ring.
Qed.

(** an event given as a tensor of zeros and ones, as [to_parts] returns it *)
Lemma gold_log_prob c b s phi gold : represents gold b (prt (spec_of c b) s) -> tl (shape gold) = event_shape c ->
  q_log_prob c phi b (fun e => IZR (dat gold e)) = q_log_prob c phi b (fun e => uses (prt (spec_of c b)) e s).
Proof.
  intros Hr Hs. assert (E : RSum (fun e => phi e * IZR (dat gold e)) (map (cons b) (indices (event_shape c))) =
     RSum (fun e => phi e * uses (prt (spec_of c b)) e s) (map (cons b) (indices (event_shape c)))).
  { apply (Sum_ext_in R_csr). intros e He. apply in_map_iff in He as (i & <- & Hi). apply indices_in in Hi.
    unfold uses. rewrite <- Hs in Hi. rewrite (Hr i Hi), <- INR_IZR_INZ. reflexivity. }
  unfold q_log_prob. destruct c; try reflexivity; now rewrite E.
Qed.

(** spec: indicator *)
Definition ind (b : bool) : R := if b then 1 else 0.

(** ** Counting with tensors of zeros and ones *)
Lemma fin_choice A (a : A) (P : nat -> A -> Prop) n : (forall b, (b < n)%nat -> exists x, P b x) ->
  exists f : nat -> A, forall b, (b < n)%nat -> P b (f b).
Proof.
  induction n as [|n IH]; intro H; [exists (fun _ => a); intros; lia|].
  destruct IH as (f & Hf); [intros; apply H; lia|]. destruct (H n (le_n _)) as (x & Hx).
  exists (fun b => if (b =? n)%nat then x else f b). intros b Hb. destruct (Nat.eqb_spec b n) as [->|]; auto. apply Hf. lia.
Qed.
Lemma RSum_ind A (f : A -> bool) l : RSum (fun x => ind (f x)) l = INR (length (filter f l)).
Proof.
  induction l as [|a l IH]; [reflexivity|]. rewrite RSum_cons, IH. cbn [filter]. destruct (f a); cbn [length ind]; [rewrite S_INR|]; ring.
Qed.
Lemma RSum_delta1 n j : (j < n)%nat -> RSum (fun x => ind (x =? j)%nat) (seq 0 n) = 1.
Proof. intro H. exact (@Sum_seq_delta R_csr (fun _ => 1) n j H). Qed.
Lemma RSum_prefix (g : nat -> R) n m : (m <= n)%nat ->
  RSum (fun i => if (i <? m)%nat then g i else 0) (seq 0 n) = RSum g (seq 0 m).
Proof.
  intro H. replace n with (m + (n - m))%nat by lia. rewrite seq_app, RSum_app.
  rewrite (Sum_zero R_csr _ (seq (0 + m) (n - m))).
  - rewrite Rplus_0_r. apply (Sum_ext_in R_csr). intros i Hi. apply in_seq in Hi. destruct (Nat.ltb_spec i m); [reflexivity|lia].
  - intros i Hi. apply in_seq in Hi. destruct (Nat.ltb_spec i m); [lia|reflexivity].
Qed.
(** two one-hot vectors differ by 2 or by nothing *)
Lemma abs_pair n p q : (p < n)%nat -> (q < n)%nat ->
  RSum (fun x => Rabs (ind (x =? p)%nat - ind (x =? q)%nat)) (seq 0 n) = 2 * ind (negb (p =? q)%nat).
Proof.
  intros Hp Hq. destruct (Nat.eqb_spec p q) as [->|Ne].
  - cbn [negb ind]. rewrite (Sum_zero R_csr); [simpl; ring|]. intros x _. rewrite Rminus_diag_eq by reflexivity. apply Rabs_R0.
  - rewrite (Sum_ext R_csr _ (fun x => ind (x =? p)%nat + ind (x =? q)%nat)).
    + rewrite RSum_add, !RSum_delta1 by auto. cbn [negb ind]. ring.
    + intro x. destruct (Nat.eqb_spec x p), (Nat.eqb_spec x q); cbn [ind]; try lia; unfold Rabs; destruct (Rcase_abs _); lra.
Qed.
Lemma uses_nodup A (parts : A -> list (list nat)) s e (P : bool) : NoDup (parts s) -> (In e (parts s) <-> P = true) -> uses parts e s = ind P.
Proof.
  intros Hn HP. unfold uses. change (list_eq_dec Nat.eq_dec) with idx_dec. rewrite (count_nodup e Hn). destruct (in_dec idx_dec e (parts s)) as [Hi|Hi].
  - apply HP in Hi. rewrite Hi. reflexivity.
  - destruct P; [exfalso; tauto|reflexivity].
Qed.
Lemma uses_seq b y n x w : uses (seq_parts b) [b; n; x; w] y = ind ((n <? length y - 1) && (x =? nth (n + 1) y 0) && (w =? nth n y 0))%nat.
Proof.
  apply uses_nodup; [apply seq_parts_nodup|]. rewrite seq_parts_in. rewrite !Bool.andb_true_iff, Nat.ltb_lt, !Nat.eqb_eq. split.
  - intros (m & Hm & E). injection E as -> -> ->. auto.
  - intros [[H1 ->] ->]. exists n. auto.
Qed.
Lemma uses_tag C L b y n x : is_seq C L y ->
  RSum (fun w => uses (seq_parts b) [b; n; x; w] y) (seq 0 C) = ind ((n <? L - 1) && (x =? nth (n + 1) y 0))%nat.
Proof.
  intros [Hl Hf]. rewrite (Sum_ext R_csr _ (fun w => ind ((n <? length y - 1) && (x =? nth (n + 1) y 0) && (w =? nth n y 0))%nat))
    by (intro; apply uses_seq). rewrite Hl.
  destruct (Nat.ltb_spec n (L - 1)) as [Hn|Hn]; cbn [andb].
  - destruct (x =? nth (n + 1) y 0)%nat; cbn [andb].
    + apply RSum_delta1. rewrite Forall_forall in Hf. apply Hf, nth_In. lia.
    + apply (Sum_zero R_csr). reflexivity.
  - apply (Sum_zero R_csr). reflexivity.
Qed.
Lemma seq_nth_lt C L y i : is_seq C L y -> (i < L)%nat -> (nth i y 0 < C)%nat.
Proof. intros [Hl Hf] Hi. rewrite Forall_forall in Hf. apply Hf, nth_In. lia. Qed.

Section Tagger.
  Variables (batch N C : nat) (ls : option (list nat)) (labels : tensor Z) (gold : tensor Z) (ys : nat -> list nat).
  Notation c := (CLin batch N C ls).
  Notation len b := (lc_len N ls b).
  Hypothesis V : valid c.
  (** the gold tags of row b are [ys b], in the integer tensor [labels] *)
  Hypothesis Hshape : shape labels = [batch; N].
  Hypothesis Hrange : forall b n, (b < batch)%nat -> (n < N)%nat -> (0 <= dat labels [b; n] < Z.of_nat C)%Z.
  Hypothesis Hys : forall b, (b < batch)%nat -> length (ys b) = len b /\ (2 <= len b)%nat /\
    firstn (length (ys b)) (zrow labels b) = map Z.of_nat (ys b).
  Hypothesis Hgold : lc_to_parts labels C ls = Ok gold.
  Variables (final : nat -> nat -> nat -> R) (trans : nat -> nat -> R) (B : R).
  Hypothesis HB0 : 0 <= B.
  Hypothesis HB : forall e, Rabs (tag_vals final trans e) <= B.

  Lemma tg_len b : (b < batch)%nat -> nth b (row_lengths N batch ls) 0%nat = len b.
  Proof.
    intro Hb. unfold row_lengths, lc_len. destruct ls as [l|]; [reflexivity|].
    assert (K : forall m i, (i < m)%nat -> nth i (repeat N m) 0%nat = N).
    { induction m as [|m IH]; intros [|i] Hi; simpl; try lia. apply IH; lia. } now apply K.
  Qed.
  Lemma tg_le b : (len b <= N)%nat.
  Proof. apply lc_len_le. destruct ls; cbn [valid] in V; unfold lc_args in V; tauto. Qed.
  Lemma tg_gold : shape gold = [batch; (N - 1)%nat; C; C] /\ forall b, (b < batch)%nat -> represents gold b (seq_parts b (ys b)).
  Proof.
    destruct (@lc_to_parts_spec labels C ls batch N ys Hshape) as (e & E & Sh & Rp).
    - cbn [valid] in V. unfold lc_args in V. lia.
    - unfold row_lengths. destruct ls as [l|]; [|rewrite repeat_length; lia]. cbn [valid] in V. unfold lc_args in V. lia.
    - exact Hrange.
    - intros b Hb. destruct (Hys Hb) as (H1 & H2 & H3). rewrite tg_len by auto. pose proof (tg_le b). repeat split; auto; lia.
    - rewrite Hgold in E. injection E as <-. split; assumption.
  Qed.
  Lemma tg_is_seq b : (b < batch)%nat -> is_seq C (len b) (ys b).
  Proof.
    intro Hb. destruct (Hys Hb) as (H1 & H2 & H3). split; auto. apply Forall_forall. intros x Hx.
    apply (In_nth _ _ 0%nat) in Hx as (n & Hn & <-). pose proof (tg_le b).
    assert (E1 : dat labels [b; n] = Z.of_nat (nth n (ys b) 0%nat)).
    { rewrite <- (@zrow_nth labels b n 0%Z) by (rewrite Hshape; cbn; lia).
      etransitivity; [|exact (map_nth Z.of_nat (ys b) 0%nat n)]. rewrite <- H3. symmetry.
      rewrite <- (firstn_skipn (length (ys b)) (zrow labels b)) at 2. rewrite app_nth1; [reflexivity|].
      rewrite H3, map_length. exact Hn. }
    assert (Hn' : (n < N)%nat) by lia. pose proof (Hrange Hb Hn'). lia.
  Qed.
  Lemma tg_max b : (b < batch)%nat -> Nat.max 1 (len b) = len b.
  Proof. intro Hb. destruct (Hys Hb) as (_ & H & _). lia. Qed.

  Lemma tg_prob b l y : (b < batch)%nat -> Enumerates (is_seq C (len b)) l -> is_seq C (len b) y ->
    prob (seq_parts b) l (tag_vals final trans) y = tag_prob final trans b l y.
  Proof.
    intros Hb Hl Hy. destruct (Hys Hb) as (_ & H2 & _). unfold prob, tag_prob, ZS. rewrite tag_sc by (destruct Hy as [-> _]; auto). f_equal.
    apply (Sum_ext_in R_csr). intros z Hz. apply Hl in Hz as [Hz _]. rewrite tag_sc by lia. reflexivity.
  Qed.

  (** what [log_prob] of the gold tags returns: the log-probability under the
      model that scores tags and transitions *)
  Theorem C61_tagger_likelihood b l : (b < batch)%nat -> Enumerates (is_seq C (len b)) l ->
    exists lp, q_log_prob c (tag_vals final trans) b (fun e => IZR (dat gold e)) = Ok lp /\
      (1 - leak c b B) * tag_prob final trans b l (ys b) <= exp lp <= tag_prob final trans b l (ys b).
  Proof.
    intros Hb Hl. destruct tg_gold as [Sh Rp]. specialize (Rp b Hb).
    destruct (@C21_log_prob_normalised c (tag_vals final trans) B V HB0 (or_intror HB) I b l) as (lp & E & _ & H).
    - split; [exact Hb|exact I].
    - cbn [spec_of ok]. rewrite tg_max by auto. exact Hl.
    - exists (lp (ys b)). split.
      + rewrite <- E. apply gold_log_prob; [exact Rp|rewrite Sh; reflexivity].
      + specialize (H (ys b)). cbn [spec_of ok prt st] in H. rewrite tg_max in H by auto.
        rewrite tg_prob in H by (auto; now apply tg_is_seq). apply H. now apply tg_is_seq.
  Qed.

  (** derivative of the log-likelihood by one score of the network: gold
      indicator minus posterior probability of the tag at that position *)
  Theorem C61_tagger_emission b l i k : (b < batch)%nat -> Enumerates (is_seq C (len b)) l -> (i < len b)%nat ->
    exists D, derivable_pt_lim (fun x => ok_or 0 (q_log_prob c
        (tag_vals (fun b' i' k' => final b' i' k' + x * ind ((b' =? b) && (i' =? i) && (k' =? k))%nat) trans) b (fun e => IZR (dat gold e)))) 0 D /\
      Rabs (D - (ind (nth i (ys b) 0 =? k)%nat - RSum (fun y => tag_prob final trans b l y * ind (nth i y 0 =? k)%nat) l))
        <= 2 * INR (degree c b) * leak c b B.
  Proof.
    intros Hb Hl Hi. destruct tg_gold as [Sh Rp]. specialize (Rp b Hb).
    set (final' := fun b' i' k' => ind ((b' =? b) && (i' =? i) && (k' =? k))%nat).
    set (delta := tag_vals final' (fun _ _ => 0)).
    assert (Hd : forall e, Rabs (delta e) <= 1).
    { intro e. unfold delta, final'. destruct e as [|b' [|n [|p [|q [|]]]]]; cbn [tag_vals]; try (rewrite Rabs_R0; lra).
      destruct (Nat.eqb_spec n 0); destruct (Nat.eqb_spec b' b), (Nat.eqb_spec (n + 1) i), (Nat.eqb_spec 0 i), (p =? k)%nat, (q =? k)%nat;
        cbn [andb ind]; try lia; apply Rabs_le; lra. }
    assert (Hsc : forall y, is_seq C (len b) y -> sc (seq_parts b) delta y = ind (nth i y 0 =? k)%nat).
    { intros y [Hy _]. destruct (Hys Hb) as (_ & H2 & _). unfold delta. rewrite tag_sc by lia. unfold tag_score.
      rewrite (Sum_zero R_csr (fun _ : nat => 0)) by reflexivity.
      rewrite (@Sum_single R_csr nat _ i).
      - unfold final'. rewrite !Nat.eqb_refl. cbn [andb]. apply Rplus_0_r.
      - apply seq_NoDup.
      - apply in_seq. lia.
      - intros j _ Hj. unfold final'. destruct (Nat.eqb_spec j i); [contradiction|]. now rewrite Bool.andb_false_r. }
    destruct (@C61_likelihood_gradient c (tag_vals final trans) delta B 1 V HB0 (or_intror HB) ltac:(lra) (or_intror Hd) I b) with (l := l) (s := ys b) as (D & HD & HE).
    - split; [exact Hb|exact I].
    - cbn [spec_of ok]. rewrite tg_max by auto. exact Hl.
    - cbn [spec_of ok]. rewrite tg_max by auto. now apply tg_is_seq.
    - exists D. split.
      + eapply dlim_ext; [|exact HD]. intro x. cbv beta. f_equal. symmetry.
        rewrite (@gold_log_prob c b (ys b)) by (try exact Rp; rewrite Sh; reflexivity).
        apply (f_equal (fun phi => q_log_prob c phi b (fun e => uses (prt (spec_of c b)) e (ys b)))).
        apply FunctionalExtensionality.functional_extensionality. intro e.
        unfold delta, final'. rewrite <- tag_vals_dir. destruct e as [|b' [|n [|p [|q [|]]]]]; cbn [tag_vals]; try reflexivity. ring.
      + revert HE. cbn [spec_of ok prt st]. rewrite Hsc by (now apply tg_is_seq).
        rewrite (Sum_ext_in R_csr _ (fun y => tag_prob final trans b l y * ind (nth i y 0 =? k)%nat)).
        * intro HE. eapply Rle_trans; [exact HE|]. right. ring.
        * intros y Hy. apply Hl in Hy. now rewrite Hsc, tg_prob by auto.
  Qed.

  (** derivative by one transition weight: number of gold transitions minus the
      expected number *)
  Definition uses_trans (p q : nat) (y : list nat) : R :=
    RSum (fun i => ind ((nth (i + 1) y 0 =? p) && (nth i y 0 =? q))%nat) (seq 0 (length y - 1)).
  Theorem C61_tagger_transition b l p q : (b < batch)%nat -> Enumerates (is_seq C (len b)) l ->
    exists D, derivable_pt_lim (fun x => ok_or 0 (q_log_prob c
        (tag_vals final (fun p' q' => trans p' q' + x * ind ((p' =? p) && (q' =? q))%nat)) b (fun e => IZR (dat gold e)))) 0 D /\
      Rabs (D - (uses_trans p q (ys b) - RSum (fun y => tag_prob final trans b l y * uses_trans p q y) l))
        <= 2 * INR (degree c b) * leak c b B.
  Proof.
    intros Hb Hl. destruct tg_gold as [Sh Rp]. specialize (Rp b Hb).
    set (trans' := fun p' q' => ind ((p' =? p) && (q' =? q))%nat).
    set (delta := tag_vals (fun _ _ _ => 0) trans').
    assert (Hd : forall e, Rabs (delta e) <= 1).
    { intro e. unfold delta, trans'. destruct e as [|b' [|n [|p' [|q' [|]]]]]; cbn [tag_vals]; try (rewrite Rabs_R0; lra).
      destruct (n =? 0)%nat, (p' =? p)%nat, (q' =? q)%nat; cbn [andb ind]; apply Rabs_le; lra. }
    assert (Hsc : forall y, is_seq C (len b) y -> sc (seq_parts b) delta y = uses_trans p q y).
    { intros y [Hy _]. destruct (Hys Hb) as (_ & H2 & _). unfold delta. rewrite tag_sc by lia. unfold tag_score.
      rewrite (Sum_zero R_csr (fun _ : nat => 0)) by reflexivity. apply Rplus_0_l. }
    destruct (@C61_likelihood_gradient c (tag_vals final trans) delta B 1 V HB0 (or_intror HB) ltac:(lra) (or_intror Hd) I b) with (l := l) (s := ys b) as (D & HD & HE).
    - split; [exact Hb|exact I].
    - cbn [spec_of ok]. rewrite tg_max by auto. exact Hl.
    - cbn [spec_of ok]. rewrite tg_max by auto. now apply tg_is_seq.
    - exists D. split.
      + eapply dlim_ext; [|exact HD]. intro x. cbv beta. f_equal. symmetry.
        rewrite (@gold_log_prob c b (ys b)) by (try exact Rp; rewrite Sh; reflexivity).
        apply (f_equal (fun phi => q_log_prob c phi b (fun e => uses (prt (spec_of c b)) e (ys b)))).
        apply FunctionalExtensionality.functional_extensionality. intro e.
        unfold delta, trans'. rewrite <- tag_vals_dir. destruct e as [|b' [|n [|p' [|q' [|]]]]]; cbn [tag_vals]; try reflexivity.
        destruct (n =? 0)%nat; ring.
      + revert HE. cbn [spec_of ok prt st]. rewrite Hsc by (now apply tg_is_seq).
        rewrite (Sum_ext_in R_csr _ (fun y => tag_prob final trans b l y * uses_trans p q y)).
        * intro HE. eapply Rle_trans; [exact HE|]. right. ring.
        * intros y Hy. apply Hl in Hy. now rewrite Hsc, tg_prob by auto.
  Qed.

  (** the error count: positions after the first at which an optimal sequence
      differs from the gold tags; the total: all positions after the first *)
  Theorem C61_tagger_errors o : (forall b, (b < batch)%nat -> argmax_ok NEG (tag_vals final trans) (o b) [] (row_graph c b)) ->
    (forall b, (b < batch)%nat -> 2 * (INR (degree c b) * B) < 100000) ->
    exists zs : nat -> list nat,
      (forall b, (b < batch)%nat -> is_seq C (len b) (zs b) /\
         forall y, is_seq C (len b) y -> tag_score final trans b y <= tag_score final trans b (zs b)) /\
      tag_errors batch N C (q_argmax c o) (fun e => IZR (dat gold e)) = RSum (fun b => INR (differ 1 (len b) (zs b) (ys b))) (seq 0 batch) /\
      tag_total batch N C (q_argmax c o) = RSum (fun b => INR (len b - 1)) (seq 0 batch).
  Proof.
    intros Ho Hsm. destruct tg_gold as [Sh Rp].
    assert (HS : forall b, (b < batch)%nat -> small c b (tag_vals final trans)) by (intros b Hb; right; exists B; auto).
    destruct (@fin_choice _ [] (fun b z => is_seq C (len b) z /\ (forall y, is_seq C (len b) y -> tag_score final trans b y <= tag_score final trans b z) /\
       forall e, nth 0 e 0%nat = b -> q_argmax c o e = uses (seq_parts b) e z) batch) as (zs & Hz).
    { intros b Hb. destruct (@C15_argmax_is_optimal c (tag_vals final trans) o V Ho b (conj Hb I) (HS b Hb)) as (z & H1 & H2 & H3 & _).
      cbn [spec_of ok prt st row_of] in H1, H2, H3, z. exists z. rewrite tg_max in H1 by auto.
      destruct (Hys Hb) as (_ & L2 & _). split; [exact H1|]. split; [|exact H3].
      intros y Hy. specialize (H2 y). cbn [spec_of ok prt st] in H2. rewrite tg_max in H2 by auto. specialize (H2 Hy).
      destruct H1 as [H1 _]. pose proof Hy as [Hy' _]. now rewrite !tag_sc in H2 by lia. }
    exists zs. split; [intros b Hb; destruct (Hz b Hb) as (? & ? & _); auto|].
    assert (Hg : forall b n x, (b < batch)%nat -> (n < N - 1)%nat -> (x < C)%nat ->
      RSum (fun y => IZR (dat gold [b; n; x; y])) (seq 0 C) = ind ((n <? len b - 1) && (x =? nth (n + 1) (ys b) 0))%nat).
    { intros b n x Hb Hn Hx. rewrite <- (@uses_tag C (len b) b (ys b) n x (tg_is_seq Hb)). apply (Sum_ext_in R_csr). intros y Hy.
      apply in_seq in Hy. rewrite (Rp b Hb [n; x; y]); [symmetry; apply INR_IZR_INZ|]. rewrite Sh. cbn [tl]. repeat constructor; lia. }
    assert (Ha : forall b n x, (b < batch)%nat ->
      RSum (fun y => q_argmax c o [b; n; x; y]) (seq 0 C) = ind ((n <? len b - 1) && (x =? nth (n + 1) (zs b) 0))%nat).
    { intros b n x Hb. destruct (Hz b Hb) as (H1 & _ & H3). rewrite <- (@uses_tag C (len b) b (zs b) n x H1). apply (Sum_ext R_csr).
      intro y. now apply H3. }
    split.
    - unfold tag_errors. 
      rewrite (Sum_ext_in R_csr _ (fun b => 2 * INR (differ 1 (len b) (zs b) (ys b)))); [rewrite RSum_scal; field|].
      intros b Hb. apply in_seq in Hb. destruct Hb as [_ Hb]. cbn [plus] in Hb. destruct (Hz b Hb) as (H1 & _ & _). pose proof (tg_le b) as Hle.
      rewrite (Sum_ext_in R_csr _ (fun n => if (n <? len b - 1)%nat then 2 * ind (negb (nth (1 + n) (zs b) 0 =? nth (1 + n) (ys b) 0)%nat) else 0)).
      + rewrite RSum_prefix by lia. rewrite RSum_scal. f_equal. unfold differ. rewrite <- RSum_ind.
        symmetry. apply (Sum_seq_shift R_csr).
      + intros n Hn. apply in_seq in Hn. rewrite (Sum_ext_in R_csr _ (fun x => Rabs (ind ((n <? len b - 1) && (x =? nth (n + 1) (zs b) 0))%nat - ind ((n <? len b - 1) && (x =? nth (n + 1) (ys b) 0))%nat))).
        * destruct (Nat.ltb_spec n (len b - 1)) as [Hn'|Hn']; cbn [andb].
          -- rewrite (Nat.add_comm 1 n). apply abs_pair; (eapply seq_nth_lt; [eauto using tg_is_seq|lia]).
          -- apply (Sum_zero R_csr). intros x _. cbn [ind]. rewrite Rminus_diag_eq by reflexivity. apply Rabs_R0.
        * intros x Hx. apply in_seq in Hx. rewrite Ha, Hg by lia. reflexivity.
    - unfold tag_total. apply (Sum_ext_in R_csr). intros b Hb. apply in_seq in Hb. destruct Hb as [_ Hb]. cbn [plus] in Hb.
      destruct (Hz b Hb) as (H1 & _ & _). pose proof (tg_le b) as Hle.
      rewrite (Sum_ext_in R_csr _ (fun n => if (n <? len b - 1)%nat then 1 else 0)).
      + rewrite (RSum_prefix (fun _ => 1)) by lia. rewrite RSum_const, seq_length. ring.
      + intros n Hn. apply in_seq in Hn. rewrite (Sum_ext R_csr _ (fun x => ind ((n <? len b - 1) && (x =? nth (n + 1) (zs b) 0))%nat)).
        * destruct (Nat.ltb_spec n (len b - 1)) as [Hn'|Hn']; cbn [andb].
          -- apply RSum_delta1. eapply seq_nth_lt; eauto; lia.
          -- apply (Sum_zero R_csr). reflexivity.
        * intro x. apply Ha; lia.
  Qed.
End Tagger.
Print Assumptions C61_tagger_likelihood.
Print Assumptions C61_tagger_emission.
Print Assumptions C61_tagger_transition.
Print Assumptions C61_tagger_errors.

(** ** The parser *)
Lemma proj_heads n h : is_proj n h -> heads_ok h.
Proof.
  intros (Hl & Hk & _) c Hc. destruct (Hk (S c) ltac:(lia)) as [H1 [t Q]]. cbn [hd_of] in H1. split; [lia|].
  intro E. assert (K : forall t, Nat.iter t (hd_of h) (S c) = S c).
  { induction t0 as [|t0 IH]; [reflexivity|]. change (hd_of h (Nat.iter t0 (hd_of h) (S c)) = S c). rewrite IH. exact E. }
  rewrite K in Q. discriminate.
Qed.
Lemma dep_sc phi b h : sc (dep_parts b) phi h = RSum (fun c => phi (dep_part b c (nth c h 0%nat) [])) (seq 0 (length h)).
Proof.
  unfold sc, dep_parts. assert (K : forall h c0, RSum phi (dep_parts_from b c0 h) = RSum (fun c => phi (dep_part b (c0 + c) (nth c h 0%nat) [])) (seq 0 (length h))).
  { induction h0 as [|x h0 IH]; intro c0; [reflexivity|]. cbn [dep_parts_from length seq]. rewrite !RSum_cons, Nat.add_0_r. cbn [nth]. f_equal.
    rewrite IH. symmetry. etransitivity; [apply (Sum_seq_shift R_csr)|]. apply (Sum_ext R_csr). intro i. cbn [nth plus]. rewrite Nat.add_succ_r. reflexivity. }
  apply K.
Qed.
(** what the potentials of the network mean: the score of a tree is the sum over its words *)
Lemma dep_vals_score arc root b h : heads_ok h -> sc (dep_parts b) (dep_vals arc root) h = head_score arc root b h.
Proof.
  intro Hk. rewrite dep_sc. apply (Sum_ext_in R_csr). intros c Hc. apply in_seq in Hc. destruct (Hk c ltac:(lia)) as [_ Hn].
  unfold dep_part. destruct (nth c h 0%nat) as [|h']; cbn [dep_vals].
  - now rewrite Nat.eqb_refl.
  - destruct (Nat.eqb_spec h' c); [lia|]. ring.
Qed.

Section Parser.
  Variables (mr : bool) (hss : list (list nat)) (labels : tensor Z) (lens : list nat) (gold : tensor Z).
  Notation batch := (length hss).
  Notation n := (list_max (map (@length nat) hss)).
  Notation c := (CDep mr batch n None (Some lens)).
  Notation hs b := (nth b hss []).
  (** the batch of gold head vectors, not necessarily projective *)
  Hypothesis Hne : hss <> [].
  Hypothesis Hhs : forall h, In h hss -> heads_ok h /\ (1 <= length h)%nat.
  Hypothesis Hnum : batch_num (map (map Z.of_nat) hss) = Ok (labels, lens).
  Hypothesis Hgold : dp_to_parts labels (Some lens) = Ok gold.

  Lemma pr_num : labels = {| shape := [batch; n]; dat := fun e => match e with [b; i] => nth i (nth b (map (map Z.of_nat) hss) []) 0%Z | _ => 0%Z end |} /\
    lens = map (@length nat) hss.
  Proof.
    assert (E : map (@length Z) (map (map Z.of_nat) hss) = map (@length nat) hss) by (rewrite map_map; apply map_ext; intro; apply map_length).
    assert (K : forall nums, nums <> [] -> batch_num nums = Ok ({| shape := [length nums; list_max (map (@length Z) nums)];
                dat := fun e => match e with [b; i] => nth i (nth b nums []) 0%Z | _ => 0%Z end |}, map (@length Z) nums)).
    { intros [|x nums] H; [congruence|reflexivity]. }
    rewrite K in Hnum by (destruct hss; [congruence|discriminate]). rewrite E, map_length in Hnum. injection Hnum as <- <-. auto.
  Qed.
  Lemma pr_len : lens = map (@length nat) hss.
  Proof. apply pr_num. Qed.
  Lemma pr_nth b : (b < batch)%nat -> nth b lens 0%nat = length (hs b).
  Proof. intro Hb. rewrite pr_len. change 0%nat with (length (@nil nat)). apply map_nth. Qed.
  Lemma pr_le b : (length (hs b) <= n)%nat.
  Proof. pose proof (list_max_nth (map (@length nat) hss) b) as H. change 0%nat with (length (@nil nat)) in H. rewrite map_nth in H. exact H. Qed.
  Lemma pr_shape : shape labels = [batch; n].
  Proof. rewrite (proj1 pr_num). reflexivity. Qed.
  Lemma pr_dat b i : dat labels [b; i] = Z.of_nat (nth i (hs b) 0%nat).
  Proof.
    rewrite (proj1 pr_num). cbn [dat]. change (@nil Z) with (map Z.of_nat []). rewrite map_nth. change 0%Z with (Z.of_nat 0). apply map_nth.
  Qed.
  Lemma pr_in b : (b < batch)%nat -> heads_ok (hs b) /\ (1 <= length (hs b))%nat.
  Proof. intro Hb. apply Hhs, nth_In, Hb. Qed.
  Lemma pr_gold : shape gold = [batch; n; n] /\ forall b, (b < batch)%nat -> represents gold b (dep_parts b (hs b)).
  Proof.
    destruct (@dp_to_parts_spec labels (Some lens) batch n (fun b => hs b)) as (e & E & Sh & Rp).
    - apply pr_shape.
    - unfold row_lengths. rewrite pr_len, map_length. auto.
    - intros b i Hb Hi. rewrite pr_dat. destruct (pr_in Hb) as [Hk _]. pose proof (pr_le b).
      destruct (Nat.lt_ge_cases i (length (hs b))) as [H1|H1].
      + destruct (Hk i H1) as [H2 _]. lia.
      + rewrite nth_overflow by auto. lia.
    - intros b Hb. destruct (pr_in Hb) as [Hk _]. split; [exact Hk|]. unfold row_lengths. rewrite pr_nth by auto. split; [reflexivity|].
      pose proof (pr_le b). split; [auto|]. unfold zrow. rewrite pr_shape. cbn [nth].
      apply nth_ext with (d := 0%Z) (d' := 0%Z).
      + rewrite firstn_length, !map_length, seq_length. lia.
      + intros i Hi. rewrite firstn_length, map_length, seq_length in Hi. change 0%Z with (Z.of_nat 0) at 2. rewrite (map_nth Z.of_nat).
        rewrite <- pr_dat.
        assert (K : forall m (l : list Z), (i < m)%nat -> nth i (firstn m l) 0%Z = nth i l 0%Z).
        { clear. revert i. induction i as [|i IH]; intros [|m] [|x l] Hi; simpl; auto; try lia. apply IH. lia. }
        rewrite K by lia. rewrite (nth_indep _ 0%Z (dat labels [b; 0%nat])) by (rewrite map_length, seq_length; lia).
        rewrite (map_nth (fun i => dat labels [b; i]) (seq 0 n) 0%nat i). rewrite seq_nth by lia. reflexivity.
    - rewrite Hgold in E. injection E as <-. auto.
  Qed.
  Lemma pr_valid : valid c.
  Proof.
    assert (H1 : (0 < batch)%nat) by (destruct hss; [congruence|cbn; lia]).
    split; [|discriminate]. split.
    - intros _. pose proof (pr_le 0). destruct (pr_in H1) as [_ H2]. lia.
    - rewrite pr_len, map_length. split; [reflexivity|]. split; [auto|]. apply Forall_forall. intros x Hx. 
      apply (In_nth _ _ 0%nat) in Hx as (b & Hb & <-). apply list_max_nth.
  Qed.
  Lemma pr_row b : (b < batch)%nat -> row_ok c b.
  Proof. intro Hb. split; [exact Hb|]. destruct mr; [exact I|]. cbn [lc_len]. rewrite pr_nth by auto. now apply pr_in. Qed.
  Lemma uses_dep b h i j : heads_ok h -> uses (dep_parts b) [b; i; j] h = ind ((j <? length h) && (i =? match nth j h 0 with O => j | S k => k end))%nat.
  Proof.
    intro Hk. apply uses_nodup; [apply dep_parts_nodup|]. rewrite dep_parts_in3 by auto. rewrite Bool.andb_true_iff, Nat.ltb_lt, Nat.eqb_eq.
    split; intros [Hj E]; (split; [exact Hj|]); destruct (Hk j Hj) as [_ Ns].
    - destruct (Nat.eqb_spec i j) as [->|]; rewrite E; reflexivity.
    - destruct (nth j h 0%nat) as [|k]; subst i; [now rewrite Nat.eqb_refl|]. destruct (Nat.eqb_spec k j); [congruence|reflexivity].
  Qed.

  (** the error count: words whose head in an optimal tree is not the gold head;
      the total: all words *)
  Theorem C61_parser_errors phi o : (forall b, (b < batch)%nat -> argmax_ok NEG phi (o b) [] (row_graph c b)) ->
    exists zs : nat -> list nat,
      (forall b, (b < batch)%nat -> dep_ok mr (length (hs b)) (zs b) /\
         forall h, dep_ok mr (length (hs b)) h -> sc (dep_parts b) phi h <= sc (dep_parts b) phi (zs b)) /\
      dep_errors batch n (q_argmax c o) (fun e => IZR (dat gold e)) = RSum (fun b => INR (differ 0 (length (hs b)) (zs b) (hs b))) (seq 0 batch) /\
      dep_total batch n (fun e => IZR (dat gold e)) = RSum (fun b => INR (length (hs b))) (seq 0 batch).
  Proof.
    intro Ho. destruct pr_gold as [Sh Rp].
    destruct (@fin_choice _ [] (fun b z => dep_ok mr (length (hs b)) z /\ (forall h, dep_ok mr (length (hs b)) h -> sc (dep_parts b) phi h <= sc (dep_parts b) phi z) /\
       forall e, nth 0 e 0%nat = b -> q_argmax c o e = uses (dep_parts b) e z) batch) as (zs & Hz).
    { intros b Hb. destruct (@C15_argmax_is_optimal c phi o pr_valid Ho b (pr_row Hb) (or_introl eq_refl)) as (z & H1 & H2 & H3 & _).
      cbn [spec_of ok prt st row_of lc_len] in H1, H2, H3, z. rewrite pr_nth in H1, H2 by auto. exists z. auto. }
    exists zs. split; [intros b Hb; destruct (Hz b Hb) as (? & ? & _); auto|].
    assert (Hg : forall b i j, (b < batch)%nat -> (i < n)%nat -> (j < n)%nat -> IZR (dat gold [b; i; j]) =
      ind ((j <? length (hs b)) && (i =? match nth j (hs b) 0 with O => j | S k => k end))%nat).
    { intros b i j Hb Hi Hj. rewrite <- (@uses_dep b (hs b) i j (proj1 (pr_in Hb))). rewrite (Rp b Hb [i; j]); [symmetry; apply INR_IZR_INZ|].
      rewrite Sh. cbn [tl]. repeat constructor; lia. }
    assert (Hhead : forall h j m, heads_ok h -> (length h <= m)%nat -> (j < length h)%nat -> (match nth j h 0 with O => j | S k => k end < m)%nat).
    { intros h j m Hk Hm Hj. destruct (Hk j Hj) as [H1 _]. destruct (nth j h 0%nat); lia. }
    split.
    - unfold dep_errors.
      rewrite (Sum_ext_in R_csr _ (fun b => 2 * INR (differ 0 (length (hs b)) (zs b) (hs b)))); [rewrite RSum_scal; field|].
      intros b Hb. apply in_seq in Hb. destruct Hb as [_ Hb]. cbn [plus] in Hb. destruct (Hz b Hb) as ([H1 _] & _ & H3).
      destruct (pr_in Hb) as [Hk _]. pose proof (pr_le b) as Hle. pose proof (proj_heads H1) as Kz. pose proof (proj1 H1) as Lz.
      rewrite (Sum_comm R_csr).
      rewrite (Sum_ext_in R_csr _ (fun j => if (j <? length (hs b))%nat then 2 * ind (negb (nth j (zs b) 0 =? nth j (hs b) 0)%nat) else 0)).
      + rewrite RSum_prefix by auto. rewrite RSum_scal. f_equal. unfold differ. rewrite <- RSum_ind, Nat.sub_0_r. reflexivity.
      + intros j Hj. apply in_seq in Hj.
        rewrite (Sum_ext_in R_csr _ (fun i => Rabs (ind ((j <? length (hs b)) && (i =? match nth j (zs b) 0 with O => j | S k => k end))%nat -
          ind ((j <? length (hs b)) && (i =? match nth j (hs b) 0 with O => j | S k => k end))%nat))).
        * destruct (Nat.ltb_spec j (length (hs b))) as [Hj'|Hj']; cbn [andb].
          -- etransitivity; [apply abs_pair; apply Hhead; auto; lia|]. do 3 f_equal.
             destruct (Kz j ltac:(lia)) as [_ Na]. destruct (Hk j ltac:(lia)) as [_ Nb].
             destruct (nth j (zs b) 0%nat) as [|u], (nth j (hs b) 0%nat) as [|w]; cbn [Nat.eqb]; auto.
             ++ apply Nat.eqb_refl.
             ++ apply Nat.eqb_neq. congruence.
             ++ apply Nat.eqb_neq. congruence.
          -- apply (Sum_zero R_csr). intros x _. cbn [ind]. rewrite Rminus_diag_eq by reflexivity. apply Rabs_R0.
        * intros i Hi. apply in_seq in Hi. rewrite Hg by lia. rewrite (H3 [b; i; j] eq_refl), uses_dep by auto. rewrite Lz. reflexivity.
    - unfold dep_total. apply (Sum_ext_in R_csr). intros b Hb. apply in_seq in Hb. destruct Hb as [_ Hb]. cbn [plus] in Hb.
      destruct (pr_in Hb) as [Hk _]. pose proof (pr_le b) as Hle. rewrite (Sum_comm R_csr).
      rewrite (Sum_ext_in R_csr _ (fun j => if (j <? length (hs b))%nat then 1 else 0)).
      + rewrite (RSum_prefix (fun _ => 1)) by auto. rewrite RSum_const, seq_length. ring.
      + intros j Hj. apply in_seq in Hj. rewrite (Sum_ext_in R_csr _ (fun i => ind ((j <? length (hs b)) && (i =? match nth j (hs b) 0 with O => j | S k => k end))%nat)).
        * destruct (Nat.ltb_spec j (length (hs b))) as [Hj'|Hj']; cbn [andb].
          -- apply RSum_delta1, Hhead; auto; lia.
          -- apply (Sum_zero R_csr). reflexivity.
        * intros i Hi. apply in_seq in Hi. apply Hg; lia.
  Qed.

  Lemma pr_partition phi b l : (b < batch)%nat -> Enumerates (dep_ok mr (length (hs b))) l ->
    exists v, q_partition c phi = Ok v /\ nth b v 0 = ln (ZS (dep_parts b) l phi).
  Proof.
    intros Hb Hl. destruct (@C20_partition_value c phi 0 pr_valid ltac:(lra) (or_introl eq_refl)) as (v & E & _ & H).
    exists v. split; [exact E|]. specialize (H b l (pr_row Hb)). cbn [spec_of ok prt st lc_len] in H. rewrite pr_nth in H by auto.
    specialize (H Hl). unfold leak in H. cbn [zero_free] in H. lra.
  Qed.
  (** [log_prob] of any head vectors: their score minus the log of the total over projective trees *)
  Lemma pr_log_prob phi b l h g : (b < batch)%nat -> Enumerates (dep_ok mr (length (hs b))) l -> heads_ok h -> length h = length (hs b) ->
    (forall i j, (i < n)%nat -> (j < n)%nat -> g [b; i; j] = uses (dep_parts b) [b; i; j] h) ->
    q_log_prob c phi b g = Ok (sc (dep_parts b) phi h - ln (ZS (dep_parts b) l phi)).
  Proof.
    intros Hb Hl Hk Hlen Hg. destruct (pr_partition phi Hb Hl) as (v & E & Ev). unfold q_log_prob. rewrite E. cbn [res_map]. rewrite Ev. do 2 f_equal.
    cbn [event_shape]. pose proof (pr_le b) as Hle. rewrite dep_sc, (Sum_map R_csr). change (indices [n; n]) with (flat_map (fun i => map (cons i) (flat_map (fun j => map (cons j) [[]]) (seq 0 n))) (seq 0 n)). rewrite (Sum_flat_map R_csr).
    rewrite (Sum_ext_in R_csr _ (fun i => RSum (fun j => phi [b; i; j] * uses (dep_parts b) [b; i; j] h) (seq 0 n))).
    2: { intros i Hi. apply in_seq in Hi. rewrite (Sum_map R_csr), (Sum_flat_map R_csr). apply (Sum_ext_in R_csr). intros j Hj. apply in_seq in Hj.
      cbn [map]. rewrite (Sum_one R_csr). rewrite Hg by lia. reflexivity. }
    rewrite (Sum_comm R_csr).
    rewrite (Sum_ext_in R_csr _ (fun j => if (j <? length h)%nat then phi (dep_part b j (nth j h 0%nat) []) else 0)); [apply RSum_prefix; lia|].
    intros j Hj. apply in_seq in Hj. rewrite (Sum_ext R_csr _ (fun i => if (i =? match nth j h 0 with O => j | S k => k end)%nat then (if (j <? length h)%nat then phi [b; i; j] else 0) else 0)).
    2: { intro i. rewrite uses_dep by auto. destruct (j <? length h)%nat, (i =? match nth j h 0 with O => j | S k => k end)%nat; cbn [andb ind]; ring. }
    destruct (Nat.ltb_spec j (length h)) as [Hj'|Hj'].
    - etransitivity; [apply (@Sum_seq_delta R_csr (fun i => phi [b; i; j]))|].
      + destruct (Hk j Hj') as [H1 _]. destruct (nth j h 0%nat); lia.
      + unfold dep_part. destruct (nth j h 0%nat); reflexivity.
    - apply (Sum_zero R_csr). intros i _. destruct (i =? _)%nat; reflexivity.
  Qed.
  Lemma pr_gold_uses b i j : (b < batch)%nat -> (i < n)%nat -> (j < n)%nat -> IZR (dat gold [b; i; j]) = uses (dep_parts b) [b; i; j] (hs b).
  Proof.
    intros Hb Hi Hj. destruct pr_gold as [Sh Rp]. rewrite (Rp b Hb [i; j]); [symmetry; apply INR_IZR_INZ|].
    rewrite Sh. cbn [tl]. repeat constructor; lia.
  Qed.

  (** [log_prob] of a projective gold tree is its log-probability under the tree
      scores of the network, exactly *)
  Theorem C61_parser_likelihood arc root b l : (b < batch)%nat -> dep_ok mr (length (hs b)) (hs b) -> Enumerates (dep_ok mr (length (hs b))) l ->
    exists lp, q_log_prob c (dep_vals arc root) b (fun e => IZR (dat gold e)) = Ok lp /\
      exp lp = exp (head_score arc root b (hs b)) / RSum (fun h => exp (head_score arc root b h)) l.
  Proof.
    intros Hb Hok Hl. destruct (pr_in Hb) as [Hk _].
    eexists. split; [apply (@pr_log_prob (dep_vals arc root) b l (hs b)); auto; intros; now apply pr_gold_uses|].
    assert (Hne' : l <> []) by (intros ->; apply Hl in Hok; destruct Hok).
    unfold Rminus. rewrite exp_plus, exp_Ropp, exp_ln by (now apply ZS_pos). rewrite dep_vals_score by auto.
    unfold Rdiv. do 2 f_equal. apply (Sum_ext_in R_csr). intros h Hh. apply Hl in Hh as [Hh _]. rewrite dep_vals_score by (eapply proj_heads; eauto). reflexivity.
  Qed.

  (** but nothing bounds it for a gold tree outside the model (a crossing tree):
      training can raise it without limit *)
  Theorem C61_crossing_refuted b : (b < batch)%nat -> ~ dep_ok mr (length (hs b)) (hs b) ->
    forall K, exists phi lp, q_log_prob c phi b (fun e => IZR (dat gold e)) = Ok lp /\ K < lp.
  Proof.
    intros Hb Hno K. destruct (pr_in Hb) as [Hk H1].
    assert (Hl : Enumerates (dep_ok mr (length (hs b))) (dep_list mr (length (hs b)))) by (apply dep_list_enum; auto).
    set (l := dep_list mr (length (hs b))) in *.
    set (M := Rabs K + ln (INR (length l)) + 1).
    set (phi := fun e : list nat => if in_dec idx_dec e (dep_parts b (hs b)) then M else 0).
    assert (Hne' : l <> []).
    { destruct (@row_exists c b pr_valid (pr_row Hb)) as (s & Hs). cbn [spec_of ok st lc_len] in Hs, s. rewrite pr_nth in Hs by auto.
      intro E. apply Hl in Hs. rewrite E in Hs. destruct Hs. }
    assert (HL : 1 <= INR (length l)). { change 1 with (INR 1). apply le_INR. destruct l; [congruence|cbn; lia]. }
    assert (HM : 0 <= M). { unfold M. pose proof (Rabs_pos K). assert (0 <= ln (INR (length l))). { rewrite <- ln_1. destruct HL as [HL|<-]; [left; apply ln_increasing; lra|lra]. } lra. }
    assert (Hin : forall h j, heads_ok h -> length h = length (hs b) -> (j < length h)%nat -> phi (dep_part b j (nth j h 0%nat) []) = if (nth j h 0 =? nth j (hs b) 0)%nat then M else 0).
    { intros h j Hh Hlh Hj. unfold phi. destruct (in_dec idx_dec _ _) as [Hi|Hi]; destruct (Nat.eqb_spec (nth j h 0%nat) (nth j (hs b) 0%nat)) as [Ee|Ee]; auto; exfalso.
      - apply dep_parts_in in Hi as (j' & Hj' & E). cbn [plus] in E. destruct (Hh j Hj) as [_ N1]. destruct (Hk j' Hj') as [_ N2]. unfold dep_part in E.
        destruct (nth j h 0%nat) as [|u] eqn:E1, (nth j' (hs b) 0%nat) as [|w] eqn:E2; injection E; intros; subst; try congruence.
      - apply Hi. apply dep_parts_in. exists j. cbn [plus]. rewrite Ee. split; [lia|reflexivity]. }
    exists phi. eexists. split; [apply (@pr_log_prob phi b l (hs b)); auto; intros; now apply pr_gold_uses|].
    assert (Hgold' : sc (dep_parts b) phi (hs b) = INR (length (hs b)) * M).
    { rewrite dep_sc. rewrite (Sum_ext_in R_csr _ (fun _ => M)); [rewrite RSum_const, seq_length; reflexivity|].
      intros j Hj. apply in_seq in Hj. rewrite Hin by (auto; lia). now rewrite Nat.eqb_refl. }
    assert (Hother : forall h, In h l -> sc (dep_parts b) phi h <= INR (length (hs b)) * M - M).
    { intros h Hh. apply Hl in Hh. pose proof (proj_heads (proj1 Hh)) as Kh. pose proof (proj1 (proj1 Hh)) as Lh.
      assert (exists j, (j < length h)%nat /\ nth j h 0%nat <> nth j (hs b) 0%nat) as (j & Hj & Nj).
      { destruct (Forall_Exists_dec (fun j => nth j h 0%nat = nth j (hs b) 0%nat) (fun j => Nat.eq_dec _ _) (seq 0 (length h))) as [Hf|He].
        - exfalso. apply Hno. refine (eq_ind h (fun x => dep_ok mr (length (hs b)) x) Hh (hs b) _). apply nth_ext with (d := 0%nat) (d' := 0%nat); [exact Lh|].
          intros j Hj. rewrite Forall_forall in Hf. apply Hf, in_seq. lia.
        - apply Exists_exists in He as (j & Hj & Nj). apply in_seq in Hj. exists j. split; [lia|exact Nj]. }
      rewrite dep_sc. rewrite <- Lh.
      replace (INR (length h) * M - M) with (RSum (fun i => if (i =? j)%nat then 0 else M) (seq 0 (length h))).
      - apply RSum_le. intros i Hi. apply in_seq in Hi. rewrite Hin by (auto; lia).
        destruct (Nat.eqb_spec i j) as [->|]; [destruct (Nat.eqb_spec (nth j h 0%nat) (nth j (hs b) 0%nat)); [contradiction|lra]|].
        destruct (_ =? _)%nat; lra.
      - transitivity (RSum (fun i => M + (if (i =? j)%nat then - M else 0)) (seq 0 (length h))).
        + apply (Sum_ext R_csr). intro i. destruct (i =? j)%nat; ring.
        + rewrite RSum_add, RSum_const, seq_length. etransitivity; [apply (f_equal (Rplus _)), (@Sum_seq_delta R_csr (fun _ => - M) (length h) j Hj)|]. ring. }
    assert (HZ : ln (ZS (dep_parts b) l phi) <= ln (INR (length l)) + (INR (length (hs b)) * M - M)).
    { rewrite <- (ln_exp (INR (length (hs b)) * M - M)). rewrite <- ln_mult by (auto using exp_pos; lra).
      assert (Q : ZS (dep_parts b) l phi <= INR (length l) * exp (INR (length (hs b)) * M - M)).
      { unfold ZS. rewrite <- RSum_const. apply RSum_le. intros h Hh. destruct (Hother h Hh) as [H| ->]; [left; now apply exp_increasing|lra]. }
      destruct Q as [Q| ->]; [left; apply ln_increasing; [now apply ZS_pos|exact Q]|lra]. }
    rewrite Hgold'. pose proof (Rle_abs K). assert (EM : M = Rabs K + ln (INR (length l)) + 1) by reflexivity. lra.
  Qed.

  (** the masks of lines 78-79 and 102-103 remove the scores of the last word, not
      only of the padding: trees that differ only in the head of the last word
      are equally likely whatever the network says *)
  Theorem C61_last_word phi b h h' : (b < batch)%nat -> dep_ok mr (length (hs b)) h -> dep_ok mr (length (hs b)) h' ->
    (forall j, (j < length (hs b) - 1)%nat -> nth j h 0%nat = nth j h' 0%nat) ->
    q_log_prob c (dep_mask lens phi) b (fun e => uses (dep_parts b) e h) = q_log_prob c (dep_mask lens phi) b (fun e => uses (dep_parts b) e h').
  Proof.
    intros Hb Ho Ho' Hj. assert (Hl : Enumerates (dep_ok mr (length (hs b))) (dep_list mr (length (hs b)))) by (apply dep_list_enum; intros _; now apply pr_in).
    pose proof (proj1 (proj1 Ho)) as L1. pose proof (proj1 (proj1 Ho')) as L2.
    rewrite (@pr_log_prob (dep_mask lens phi) b _ h _ Hb Hl (proj_heads (proj1 Ho)) L1) by reflexivity.
    rewrite (@pr_log_prob (dep_mask lens phi) b _ h' _ Hb Hl (proj_heads (proj1 Ho')) L2) by reflexivity.
    do 2 f_equal. rewrite !dep_sc, L1, L2. apply (Sum_ext_in R_csr). intros j Hj'. apply in_seq in Hj'.
    destruct (Nat.lt_ge_cases j (length (hs b) - 1)) as [H1|H1]; [now rewrite Hj|].
    assert (K : forall x, dep_mask lens phi (dep_part b j x []) = 0).
    { intro x. unfold dep_part. destruct x; cbn [dep_mask]; rewrite pr_nth by auto; destruct (Nat.leb_spec (length (hs b) - 1) j); try lia; now rewrite Bool.orb_true_r. }
    now rewrite !K.
  Qed.
  Lemma RSum_filter_mask A (f g : A -> R) (q : A -> bool) l : (forall x, In x l -> f x = if q x then g x else 0) -> RSum f l = RSum g (filter q l).
  Proof.
    intro H. induction l as [|x l IH]; [reflexivity|]. cbn [filter]. rewrite RSum_cons, IH by auto with datatypes. rewrite (H x) by (left; auto).
    destruct (q x); [rewrite RSum_cons; reflexivity|]. apply Rplus_0_l.
  Qed.
  (** and nothing else of the sentence: a tree counts the scores of the arcs that neither leave
      nor enter the last word *)
  Theorem C61_mask_value phi b h : (b < batch)%nat -> dep_ok mr (length (hs b)) h -> let last := (length (hs b) - 1)%nat in
    sc (dep_parts b) (dep_mask lens phi) h =
    RSum (fun j => phi (dep_part b j (nth j h 0%nat) [])) (filter (fun j => negb (j =? last) && negb (nth j h 0 =? S last))%nat (seq 0 (length (hs b)))).
  Proof.
    intros Hb Ho last. pose proof (proj1 (proj1 Ho)) as L. pose proof (proj_heads (proj1 Ho)) as Hk. rewrite dep_sc, L. apply RSum_filter_mask. intros j Hj. apply in_seq in Hj.
    destruct (Hk j ltac:(lia)) as [H1 _]. unfold dep_part.
    destruct (nth j h 0%nat) as [|k] eqn:E; cbn [dep_mask]; rewrite pr_nth by auto; fold last.
    - destruct (Nat.eqb_spec j last); cbn [negb andb]; destruct (Nat.leb_spec last j); cbn [orb]; try reflexivity; lia.
    - destruct (Nat.eqb_spec j last); cbn [negb andb]; destruct (Nat.leb_spec last j); cbn [orb]; try lia; try (rewrite Bool.orb_true_r; reflexivity).
      rewrite Bool.orb_false_r. destruct (Nat.eqb_spec (S k) (S last)); cbn [negb]; destruct (Nat.leb_spec last k); try reflexivity; unfold last in *; lia.
  Qed.
End Parser.
Print Assumptions C61_parser_errors.
Print Assumptions C61_parser_likelihood.
Print Assumptions C61_crossing_refuted.
Print Assumptions C61_last_word.
Print Assumptions C61_mask_value.

(** for every sentence length some scores of words inside the sentence change
    the result when masked: the masks do not only affect padding *)
Theorem C61_mask_refuted mr n : (1 <= n)%nat -> let c := CDep mr 1 n None (Some [n]) in
  exists phi, at_row 0 (q_partition c phi) 0 = at_row 0 (q_partition c (dep_mask [n] phi)) 0 + 1.
Proof.
  intros Hn c. exists (fun e => match e with [b; h; k] => if (k =? n - 1)%nat then 1 else 0 | _ => 0 end).
  assert (V : valid c). { split; [|discriminate]. split; [auto|]. repeat split; auto. }
  assert (Hr : row_ok c 0). { split; [cbn; lia|]. destruct mr; [exact I|]. cbn. lia. }
  set (phi := fun e : list nat => match e with [b; h; k] => if (k =? n - 1)%nat then 1 else 0 | _ => 0 end).
  assert (Hl : Enumerates (dep_ok mr n) (dep_list mr n)) by (apply dep_list_enum; auto).
  assert (P : forall f, at_row 0 (q_partition c f) 0 = ln (ZS (dep_parts 0) (dep_list mr n) f)).
  { intro f. destruct (@C20_partition_value c f 0 V ltac:(lra) (or_introl eq_refl)) as (v & E & _ & H). rewrite E. cbn [at_row].
    assert (H' : 0 <= nth 0 v 0 - ln (ZS (dep_parts 0) (dep_list mr n) f) <= 0) by exact (H 0%nat (dep_list mr n) Hr Hl). lra. }
  rewrite !P.
  assert (Hne : dep_list mr n <> []).
  { destruct (@row_exists c 0 V Hr) as (s & Hs). change (dep_ok mr n s) in Hs. intro E. apply Hl in Hs. rewrite E in Hs. destruct Hs. }
  assert (E : ZS (dep_parts 0) (dep_list mr n) phi = ZS (dep_parts 0) (dep_list mr n) (dep_mask [n] phi) * exp 1).
  { unfold ZS. rewrite <- RSum_scar. apply (Sum_ext_in R_csr). intros h Hh. apply Hl in Hh. rewrite <- exp_plus. f_equal.
    rewrite !dep_sc. pose proof (proj1 (proj1 Hh)) as Lh. rewrite Lh.
    rewrite (Sum_ext_in R_csr _ (fun j => if (j =? n - 1)%nat then 1 else 0)).
    - etransitivity; [apply (@Sum_seq_delta R_csr (fun _ => 1) n (n - 1)); lia|].
      etransitivity; [symmetry; apply Rplus_0_l|]. f_equal. symmetry. apply (Sum_zero R_csr). intros j Hj. apply in_seq in Hj.
      unfold dep_part. destruct (nth j h 0%nat); cbn [dep_mask nth]; unfold phi; destruct (_ || _)%bool eqn:Eb; try reflexivity;
        destruct (Nat.eqb_spec j (n - 1)); try reflexivity; apply Bool.orb_false_iff in Eb as [_ Eb]; apply Nat.leb_gt in Eb; lia.
    - intros j Hj. unfold dep_part. destruct (nth j h 0%nat); reflexivity. }
  rewrite E, ln_mult, ln_exp by (auto using exp_pos; now apply ZS_pos). reflexivity.
Qed.
Print Assumptions C61_mask_refuted.

(** ** Instances *)
(** a tagger with two tags and rows of two and three words *)
Definition tr_ls : option (list nat) := Some [2; 3]%nat.
(** example: tags *)
Definition tr_rows : list (list nat) := [[0; 1]; [1; 0; 1]]%nat.
(** example: a batch of tags *)
Definition tr_labels : tensor Z := {| shape := [2; 3]%nat; dat := fun e => match e with [b; i] => Z.of_nat (nth i (nth b tr_rows []) 0%nat) | _ => 0%Z end |}.
(** example: scores *)
Definition tr_final (b i k : nat) : R := if (b + i + k =? 2)%nat then 1 else 0.
(** example: transitions *)
Definition tr_trans (p q : nat) : R := if (p =? q)%nat then 1 else 0.
Example tagger_hypotheses : valid (CLin 2 3 2 tr_ls) /\
  (forall b n, (b < 2)%nat -> (n < 3)%nat -> (0 <= dat tr_labels [b; n] < Z.of_nat 2)%Z) /\
  (forall b, (b < 2)%nat -> length (nth b tr_rows []) = lc_len 3 tr_ls b /\ (2 <= lc_len 3 tr_ls b)%nat /\
    firstn (length (nth b tr_rows [])) (zrow tr_labels b) = map Z.of_nat (nth b tr_rows [])) /\
  (exists gold, lc_to_parts tr_labels 2 tr_ls = Ok gold) /\
  (forall e, Rabs (tag_vals tr_final tr_trans e) <= 3) /\
  (forall b, (b < 2)%nat -> 2 * (INR (degree (CLin 2 3 2 tr_ls) b) * 3) < 100000) /\
  tag_score tr_final tr_trans 1 [1; 0; 1]%nat = 2 /\ tag_score tr_final tr_trans 1 [0; 0; 0]%nat = 3 /\
  differ 1 3 [0; 0; 0]%nat [1; 0; 1]%nat = 1%nat.
Proof.
  split; [cbn; unfold lc_args; cbn; repeat split; lia|].
  split. { intros [|[|b]] [|[|[|n]]] H1 H2; try lia; cbn; lia. }
  split. { intros [|[|b]] H; try lia; cbn; repeat split; lia. }
  split; [eexists; reflexivity|].
  split. { intros [|b [|n [|p [|q [|]]]]]; cbn [tag_vals]; try (rewrite Rabs_R0; lra). unfold tr_final, tr_trans.
    destruct (_ =? 2)%nat, (_ =? q)%nat, (n =? 0)%nat; try destruct (_ =? 2)%nat; apply Rabs_le; lra. }
  split. { intros b _. cbn [degree]. replace (INR (2 ^ Nat.log2_up (3 - 1))) with 2 by (cbn; lra). lra. }
  unfold tag_score, tr_final, tr_trans. cbn. split; [lra|]. split; [lra|reflexivity].
Qed.
(** two sentences, the second with a crossing tree *)
Definition ps_rows : list (list nat) := [[2; 0]; [3; 4; 0; 3]]%nat.
Example parser_hypotheses : exists labels lens gold, ps_rows <> [] /\ (forall h, In h ps_rows -> heads_ok h /\ (1 <= length h)%nat) /\
  batch_num (map (map Z.of_nat) ps_rows) = Ok (labels, lens) /\ dp_to_parts labels (Some lens) = Ok gold /\
  dep_ok true 2 (nth 0 ps_rows []) /\ ~ dep_ok true 4 (nth 1 ps_rows []) /\
  (* trees that differ only in the head of the last word *)
  dep_ok true 2 [0; 0]%nat /\ dep_ok true 2 [0; 1]%nat.
Proof.
  do 3 eexists. split; [discriminate|].
  split. { intros h [<-|[<-|[]]]; (split; [|cbn; lia]); intros c Hc; cbn [length] in Hc;
    [do 2 (destruct c as [|c]; [cbn; lia|])|do 4 (destruct c as [|c]; [cbn; lia|])]; cbn in Hc; lia. }
  split; [reflexivity|]. split; [reflexivity|].
  assert (Hl : Enumerates (dep_ok true 2) (dep_list true 2)) by (apply dep_list_enum; discriminate).
  split; [apply Hl; vm_compute; tauto|]. split.
  - intros [(_ & _ & H) _]. destruct (H 2%nat 3%nat ltac:(lia)) as [t Q]; [cbn; unfold between; lia|]. cbn [hd_of nth ps_rows] in Q.
    assert (K : forall t, Nat.iter t (hd_of [3; 4; 0; 3]%nat) 3%nat = 3%nat \/ Nat.iter t (hd_of [3; 4; 0; 3]%nat) 3%nat = 0%nat).
    { induction t0 as [|t0 IH]; [left; reflexivity|]. change (Nat.iter (S t0) (hd_of [3; 4; 0; 3]%nat) 3%nat) with (hd_of [3; 4; 0; 3]%nat (Nat.iter t0 (hd_of [3; 4; 0; 3]%nat) 3%nat)).
      right. destruct IH as [-> | ->]; reflexivity. }
    destruct (K t) as [E|E]; rewrite E in Q; discriminate.
  - split; apply Hl; vm_compute; tauto.
Qed.
