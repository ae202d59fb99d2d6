(** * Query: the real-valued queries of a distribution, for a whole batch. *)
From Verif Require Import Base Ops Terms Semirings Poly Chain LinearChain SemiMarkov CkyCrf Cky DepSpec DepTree
  Batch Family Approx Grad Sample Dist Purity Degree Shape Api.
Set Implicit Arguments.
Local Open Scope R_scope.

(** a function applied to the result of a call that did not raise *)
Definition res_map {A B} (f : A -> B) (r : res A) : res B :=
  match r with Ok a => Ok (f a) | Err e => Err e end.
(** entry of row b of a result *)
Definition at_row {A} (d : A) (r : res (list A)) (b : nat) : A :=
  match r with Ok v => nth b v d | Err _ => d end.

Section Queries.
  Variable c : call.
  (** distributions.py:207-210 *)
  Definition q_partition (phi : list nat -> R) : res (list R) := run c (log_ops NEG) phi.
  (** distributions.py:117-125 *)
  Definition q_max (phi : list nat -> R) : res (list R) := run c (max_ops NEG) phi.
  (** distributions.py:77-86; semirings.py:384-386 [unconvert] *)
  Definition q_entropy (phi : list nat -> R) : res (list R) :=
    res_map (map snd) (run c (ent_ops NEG) (fun e => ent_convert (phi e))).
  (** distributions.py:88-115: the two tensors are passed as a Python list.
      SemiMarkov calls [.requires_grad_] on it (semimarkov.py:27), DepTree
      [.dim()] (deptree.py:51), CKY unpacks three tensors (cky.py:13): these
      three raise. LinearChain and CKY_CRF go through helpers.py:41-48. *)
  Definition pair_call (r : res (list R)) : res (list R) :=
    match c with
    | CLin _ _ _ _ | CTree _ _ _ _ => r
    | CSemi _ _ _ _ _ | CDep _ _ _ _ _ => Err AttributeError
    | CCfg _ _ _ _ _ => Err ValueError
    end.
  (** distributions.py:88-101 [cross_entropy] *)
  Definition q_cross_entropy (phi psi : list nat -> R) : res (list R) :=
    pair_call (res_map (map d_) (run c (ce_ops NEG) (fun e => kl_convert (phi e) (psi e)))).
  (** distributions.py:103-115 [kl] *)
  Definition q_kl (phi psi : list nat -> R) : res (list R) :=
    pair_call (res_map (map d_) (run c (kl_ops NEG) (fun e => kl_convert (phi e) (psi e)))).
  (** distributions.py:171-183, helpers.py:97-116, cky.py:81-143 (term, rule and
      root marginals): [autograd.grad] of the log-partition summed over rows *)
  Definition q_marginals (phi : list nat -> R) (e : list nat) : R :=
    RSum (fun b => bp (w_soft NEG phi) [] (row_graph c b) 1 e) (seq 0 (batch_of c)).
  (** distributions.py:127-135; [o b] are the indices returned by torch.max at
      the nodes of row b *)
  Definition q_argmax (o : nat -> path -> nat) (e : list nat) : R :=
    RSum (fun b => bp (w_pick (o b)) [] (row_graph c b) 1 e) (seq 0 (batch_of c)).
  (** shape of the potentials, hence of an event (distributions.py:46) *)
  Definition event_shape : list nat :=
    match c with
    | CLin _ N C _ => [(N - 1)%nat; C; C]
    | CSemi _ N K C _ => [(N - 1)%nat; K; C; C]
    | CTree _ N NT _ => [N; N; NT]
    | CDep _ _ n None _ => [n; n]
    | CDep _ _ n (Some L) _ => [n; n; L]
    | CCfg _ _ _ _ _ => []
    end.
End Queries.
(** all indices of a tensor *)
Fixpoint indices (sh : list nat) : list (list nat) :=
  match sh with [] => [[]] | n :: sh' => flat_map (fun i => map (cons i) (indices sh')) (seq 0 n) end.
(** distributions.py:56-75 [log_prob] of one event, row b: helpers.py:31-34 and
    semirings.py:110-112 ([prod] is the sum over all entries), minus the
    log-partition. SentCFG raises ([value] is a tuple). *)
Definition q_log_prob (c : call) (phi : list nat -> R) (b : nat) (value : list nat -> R) : res R :=
  match c with
  | CCfg _ _ _ _ _ => Err AttributeError
  | _ => res_map (fun v => RSum (fun e => phi e * value e) (map (cons b) (indices (event_shape c))) - nth b v 0)
                 (q_partition c phi)
  end.

(** ** Side conditions *)
(** magnitudes bounded by B (nothing to require when the graph has no zero) *)
Definition bounded (c : call) (B : R) (phi : list nat -> R) : Prop :=
  zero_free c = true \/ forall e, Rabs (phi e) <= B.
(** potentials small against the finite zero *)
Definition small (c : call) (b : nat) (phi : list nat -> R) : Prop :=
  zero_free c = true \/ exists B, (forall e, Rabs (phi e) <= B) /\ 2 * (INR (degree c b) * B) < 100000.
(** bound on the total weight of the derivations through the finite zero,
    relative to the true partition function *)
Definition leak (c : call) (b : nat) (B : R) : R :=
  if zero_free c then 0 else INR (nderiv c b) * exp (-100000 + 2 * (INR (degree c b) * B)).

(** ** Sums over enumerations do not depend on the enumeration *)
Section Perm.
  Variables (A : Type) (parts : A -> list (list nat)) (l l' : list A).
  Hypothesis HP : Permutation l l'.
  Lemma ZS_perm phi : ZS parts l phi = ZS parts l' phi.
  Proof. apply (Sum_perm R_csr), HP. Qed.
  Lemma prob_perm phi s : prob parts l phi s = prob parts l' phi s.
  Proof. unfold prob. now rewrite ZS_perm. Qed.
  Lemma wsum_perm phi (f g : A -> R) : (forall s, f s = g s) ->
    RSum (fun s => prob parts l phi s * f s) l = RSum (fun s => prob parts l' phi s * g s) l'.
  Proof.
    intro E. etransitivity; [apply (Sum_perm R_csr), HP|]. apply (Sum_ext R_csr). intro s. now rewrite prob_perm, E.
  Qed.
  Lemma entropy_perm phi : entropy_spec parts l phi = entropy_spec parts l' phi.
  Proof. unfold entropy_spec. f_equal. apply wsum_perm. intro. now rewrite prob_perm. Qed.
  Lemma cross_perm phi psi : cross_spec parts l phi psi = cross_spec parts l' phi psi.
  Proof. unfold cross_spec. f_equal. apply wsum_perm. intro. now rewrite prob_perm. Qed.
  Lemma kl_perm phi psi : kl_spec parts l phi psi = kl_spec parts l' phi psi.
  Proof. apply wsum_perm. intro. now rewrite !prob_perm. Qed.
  Lemma marg_perm phi e : marg_spec parts l phi e = marg_spec parts l' phi e.
  Proof. apply wsum_perm. reflexivity. Qed.
End Perm.

(** ** Glue between rows and families *)
Lemma q_row c b F O p d : is_row c b F -> at_row d (run c O p) b = frun F O p.
Proof. intro H. destruct (ir_run H O p d) as (v & -> & _ & E). exact E. Qed.

Lemma is_row_range c b F phi : is_row c b F -> small c b phi -> in_range F phi.
Proof.
  intros H [Z|(B & HB & HR)]; [left; now apply (ir_pure H)|].
  destruct (zero_free c) eqn:E; [left; now apply (ir_pure H)|]. right. exists B. split; auto.
  destruct (ir_bnd H E) as [Hd _]. apply le_INR in Hd. pose proof (@HB0 phi B HB).
  assert (INR (fdeg F) * B <= INR (degree c b) * B) by (apply Rmult_le_compat_r; auto).
  unfold NEG. lra.
Qed.
Lemma leak_nonneg c b B : 0 <= leak c b B.
Proof. unfold leak. destruct (zero_free c); [lra|]. apply Rmult_le_pos; [apply pos_INR|apply Rlt_le, exp_pos]. Qed.
Lemma leak_eps c b F B : is_row c b F -> 0 <= B -> eps F B NEG <= leak c b B.
Proof.
  intros H HB. unfold leak. destruct (zero_free c) eqn:E.
  - rewrite eps_pure; [lra|]. now apply (ir_pure H).
  - apply eps_bnd; auto. now apply (ir_bnd H).
Qed.

(** potentials of another row do not occur *)
Lemma cnt_names e m : ~ In e (names m) -> cnt e m = 0.
Proof.
  intro H. rewrite zcount_cnt, zcount_names. rewrite (proj1 (count_occ_not_In _ _ _)) by auto. reflexivity.
Qed.
Lemma RSum_only A (f : A -> R) l x : NoDup l -> In x l -> (forall y, In y l -> y <> x -> f y = 0) -> RSum f l = f x.
Proof. intros Hn Hx H. apply (@Sum_single R_csr A f x l Hn Hx). intros y Hy Hne. apply H; auto. Qed.

Lemma graph_wf c b : valid c -> (b < batch_of c)%nat -> twf (row_graph c b).
Proof.
  intros V Hb. destruct (run_ok c tops TLeaf V) as (v & E & L). unfold row_graph, graphs. rewrite E.
  destruct c as [batch N C ls|batch N K C ls|batch N NT ls|batch N NT T ls|mr batch n lab ls]; simpl in V, Hb, E.
  - rewrite (lc_logpartition_run tops (tens [batch; (N - 1)%nat; C; C] TLeaf) V eq_refl) in E.
    injection E as <-. rewrite nth_map_seq by auto. apply (ft_wf (lc_fam V b)).
  - rewrite (sm_logpartition_run tops (tens [batch; (N - 1)%nat; K; C; C] TLeaf) V eq_refl) in E.
    injection E as <-. rewrite nth_map_seq by auto. apply (ft_wf (sm_fam V b)).
  - rewrite (ck_logpartition_run tops (tens [batch; N; N; NT] TLeaf) V eq_refl) in E.
    injection E as <-. rewrite nth_map_seq by auto. apply (ft_wf (ck_fam V Hb)).
  - rewrite (@cy_logpartition_run tops batch N NT T) in E by (exact V || reflexivity).
    injection E as <-. rewrite nth_map_seq by auto. apply (ft_wf (cy_fam V Hb)).
  - destruct V as [V HL].
    rewrite (@dp_logpartition_run tops mr TZero batch n lab) in E by (exact V || reflexivity).
    injection E as <-. rewrite nth_map_seq by auto. cbn [dat tens].
    assert (G : (mr = false -> (1 <= lc_len n ls b)%nat) \/ mr = false /\ lc_len n ls b = 0%nat).
    { destruct mr; [left; discriminate|]. destruct (lc_len n ls b); [right; auto|left; lia]. }
    destruct G as [H1|[-> ->]]; [|rewrite dp_one_empty; constructor].
    destruct lab as [L'|].
    + assert (HL' : (0 < L')%nat) by (destruct L'; [congruence|lia]).
      apply (ft_wf (dpl_fam HL' V Hb H1)).
    + apply (ft_wf (dp_fam V Hb H1)).
Qed.

Lemma marginals_row c b F phi e : valid c -> is_row c b F -> (b < batch_of c)%nat -> row_of c e = b ->
  q_marginals c phi e = d_marginals F phi e.
Proof.
  intros V H Hb He. unfold q_marginals. rewrite (@RSum_only _ _ _ b).
  - unfold d_marginals. now rewrite (ir_graph H).
  - apply seq_NoDup.
  - apply in_seq. lia.
  - intros b' Hb' Hne. apply in_seq in Hb'. rewrite bp_log by (apply graph_wf; [auto|lia]).
    rewrite Rmult_1_l. unfold mean.
    transitivity (RSum (fun _ : deriv => 0) (expand (row_graph c b'))); [|rewrite RSum_const; ring].
    apply (Sum_ext_in R_csr). intros m Hm. rewrite cnt_names; [ring|].
    intro Hin. apply Hne. rewrite <- He. symmetry. eapply (@graph_inrow c b' V); [lia|exact Hm|exact Hin].
Qed.
Lemma argmax_row c b F phi o e : valid c -> is_row c b F -> (b < batch_of c)%nat -> row_of c e = b ->
  (forall b, (b < batch_of c)%nat -> argmax_ok NEG phi (o b) [] (row_graph c b)) ->
  q_argmax c o e = d_argmax F (o b) e.
Proof.
  intros V H Hb He Ho. unfold q_argmax. rewrite (@RSum_only _ _ _ b).
  - unfold d_argmax. now rewrite (ir_graph H).
  - apply seq_NoDup.
  - apply in_seq. lia.
  - intros b' Hb' Hne. apply in_seq in Hb'.
    assert (Hr : inrange (o b') [] (row_graph c b')) by (eapply argmax_inrange; apply Ho; lia).
    rewrite bp_pick by exact Hr. rewrite cnt_names; [ring|].
    intro Hin. apply Hne. rewrite <- He. symmetry.
    eapply (@graph_inrow c b' V); [lia|apply picked_in; exact Hr|exact Hin].
Qed.

(** ** Events *)
Lemma indices_in sh e : In e (indices sh) <-> Forall2 lt e sh.
Proof.
  revert e. induction sh as [|n sh IH]; intro e; simpl.
  - split; [intros [<-|[]]; constructor|]. intro H. inversion H. auto.
  - rewrite in_flat_map. split.
    + intros (i & Hi & He). apply in_map_iff in He as (e' & <- & He). apply in_seq in Hi.
      constructor; [lia|]. now apply IH.
    + intro H. inversion H as [|i n' e' sh' Hi He]; subst. exists i. split; [apply in_seq; lia|].
      apply in_map. now apply IH.
Qed.
Lemma indices_nodup sh : NoDup (indices sh).
Proof.
  induction sh as [|n sh IH]; simpl; [repeat constructor; auto|].
  apply NoDup_flat_map; [apply seq_NoDup| |].
  - intros i _. apply NoDup_map_inj; [congruence|auto].
  - intros i j e _ _ H1 H2. apply in_map_iff in H1 as (? & <- & _). now apply in_map_iff in H2 as (? & [= -> _] & _).
Qed.

Arguments indices : simpl never.
Ltac f2 := repeat first [apply Forall2_nil | apply Forall2_cons].
Lemma segs_parts_bound b K C l : forall n c0, (c0 < C)%nat -> Forall (seg_ok K C) l -> forall M, (n + widths l <= M)%nat ->
  forall e, In e (segs_parts b n c0 l) -> In e (map (cons b) (indices [M; K; C; C])).
Proof.
  induction l as [|[w c] l IH]; intros n c0 Hc Hl M HM e He; [destruct He|].
  inversion_clear Hl as [|? ? Hs Hl']. destruct Hs as [Hw Hc']. cbn [fst snd] in Hw, Hc'.
  unfold widths in HM. simpl in HM. change (list_sum (map fst l)) with (widths l) in HM.
  destruct He as [<-|He].
  - apply in_map, indices_in. f2; lia.
  - apply (@IH (n + w)%nat c Hc' Hl' M); [lia|exact He].
Qed.
Lemma lparts_bound b NT N t : forall i, lbounded NT t -> (i + lsize t <= N)%nat ->
  forall e, In e (lparts b i t) -> In e (map (cons b) (indices [N; N; NT])).
Proof.
  induction t as [a|a l IHl r IHr]; intros i Hb Hi e He; simpl in *.
  - destruct He as [<-|[]]. apply in_map, indices_in. f2; lia.
  - pose proof (lsize_pos l). pose proof (lsize_pos r). destruct Hb as (Ha & Hl & Hr).
    destruct He as [<-|He]; [apply in_map, indices_in; f2; lia|].
    apply in_app_iff in He as [He|He]; [eapply IHl|eapply IHr]; eauto; lia.
Qed.
Lemma dep_parts_bound b n h : forall c, (c + length h <= n)%nat -> Forall (fun x => x <= n)%nat h ->
  forall e, In e (dep_parts_from b c h) -> In e (map (cons b) (indices [n; n])).
Proof.
  induction h as [|x h IH]; intros c Hc Hh e He; [destruct He|]. inversion_clear Hh. simpl in Hc.
  cbn [dep_parts_from] in He. destruct He as [<-|He].
  - destruct x; cbn [dep_part]; (apply in_map, indices_in; f2; lia).
  - eapply (@IH (S c)); eauto. lia.
Qed.
Lemma ldep_parts_bound b n L h : forall c, (c + length h <= n)%nat -> Forall (fun x => (fst x <= n)%nat /\ (snd x < L)%nat) h ->
  forall e, In e (ldep_parts_from b c h) -> In e (map (cons b) (indices [n; n; L])).
Proof.
  induction h as [|x h IH]; intros c Hc Hh e He; [destruct He|]. inversion_clear Hh as [|? ? [Hx1 Hx2] Hh']. simpl in Hc.
  cbn [ldep_parts_from] in He. destruct He as [<-|He].
  - destruct x as [[|x] y]; cbn [dep_part fst snd]; (apply in_map, indices_in; cbn [fst snd] in *; f2; lia).
  - eapply (@IH (S c)); eauto. lia.
Qed.
Lemma proj_heads n h : is_proj n h -> Forall (fun x => x <= n)%nat h.
Proof.
  intros (Hl & Hp & _). apply Forall_forall. intros x Hx. apply (In_nth _ _ 0%nat) in Hx as (k & Hk & <-).
  destruct (Hp (S k)) as [H _]; [lia|]. exact H.
Qed.

(** the parts of a structure are entries of the row's event tensor *)
Lemma parts_in_event c b s : valid c -> row_ok c b -> match c with CCfg _ _ _ _ _ => False | _ => True end ->
  ok (spec_of c b) s -> incl (prt (spec_of c b) s) (map (cons b) (indices (event_shape c))).
Proof.
  intros V [Hb R] Hc.
  destruct c as [batch N C ls|batch N K C ls|batch N NT ls|batch N NT T ls|mr batch n lab ls]; cbn [batch_of valid] in *.
  - cbn [spec_of ok prt event_shape]. intros [Hl Hf] e He. unfold seq_parts in He. apply in_map_iff in He as (n & <- & Hn).
    apply in_seq in Hn. rewrite Forall_forall in Hf.
    assert (Hle : (lc_len N ls b <= N)%nat) by (apply lc_len_le; destruct ls; unfold lc_args in V; tauto).
    assert ((0 < N - 1)%nat) by (unfold lc_args in V; lia).
    apply in_map, indices_in. f2; try lia; (apply Hf, nth_In; lia).
  - simpl. intros (H0 & Hf & Hw) e He.
    assert (Hle : (lc_len N ls b <= N)%nat) by (apply lc_len_le; destruct ls; unfold sm_args in V; tauto).
    eapply segs_parts_bound; [exact H0|exact Hf| |exact He]. lia.
  - simpl. intros [Hs Hl] e He. 
    assert (Hle : (1 <= eff_len N (lc_len N ls b) <= N)%nat) by (apply (@eff_len_ok batch); auto; apply V).
    eapply lparts_bound; eauto. lia.
  - destruct Hc.
  - destruct V as [V HL]. pose proof (@dp_len_le mr batch n ls b V Hb) as Hle.
    destruct lab as [L|]; simpl.
    + intros [[Hp Hf] _] e He. eapply ldep_parts_bound; [| |exact He].
      * simpl. destruct Hp as [Hl _]. rewrite map_length in Hl. lia.
      * apply proj_heads in Hp. apply Forall_forall. intros x Hx. rewrite Forall_forall in Hp, Hf. split; [|auto].
        etransitivity; [apply Hp, in_map, Hx|lia].
    + intros [Hp _] e He. eapply dep_parts_bound; [| |exact He].
      * simpl. destruct Hp as [Hl _]. lia.
      * apply proj_heads in Hp. eapply Forall_impl; [|exact Hp]. simpl. intros. lia.
Qed.
