(** * Properties of sampling (C22-C24), and C15, C20 on graphs with shared nodes.

    Autograd works on a graph in which one result feeds many operations. [G b]
    is the recorded graph of row [b] with its output node; the only thing
    required of it is that it computes the row's term. Sampling draws once per
    node of that graph, not once per use. *)
From Coq Require Import ZArith.
From Verif Require Import Base Ops Terms Semirings Poly Chain LinearChain SemiMarkov CkyCrf Cky DepSpec DepTree
  Batch Family Approx Grad Sample Dist Purity Degree Shape Api Query Dag DagLaw P_Real.
Set Implicit Arguments.
Local Open Scope R_scope.

(** helpers.py:83-116: the graph recorded while the row's value was computed *)
Definition records (c : call) (G : nat -> dag * nat) : Prop :=
  forall b, (b < batch_of c)%nat -> topo (fst (G b)) /\ unf (fst (G b)) (snd (G b)) = row_graph c b.
(** SentCFG.sample raises: [sample] there is a tuple without [.detach]
    (distributions.py:226-229, cky.py:143) *)
Definition samples (c : call) : Prop := match c with CCfg _ _ _ _ _ => False | _ => True end.

(** ** The queries on recorded graphs *)
(** distributions.py:171-183, helpers.py:108-116. Simplification: the gradient of
    the sum over the rows, one backward pass per row. *)
Definition q_marginals_on (c : call) (G : nat -> dag * nat) (phi : list nat -> R) (e : list nat) : R :=
  RSum (fun b => dgrad (fst (G b)) R_csr (lin_send (soft_at (fst (G b)) NEG phi)) (snd (G b)) e) (seq 0 (batch_of c)).
(** distributions.py:127-135 *)
Definition q_argmax_on (c : call) (G : nat -> dag * nat) (o : nat -> nat -> nat) (e : list nat) : R :=
  RSum (fun b => dgrad (fst (G b)) R_csr (lin_send (pick_at (o b))) (snd (G b)) e) (seq 0 (batch_of c)).
(** distributions.py:226-229: one packed tensor; [o b v j] is draw j at node v of
    row b. Simplification: integers for the float gradients (exact below 2^24). *)
Definition q_packed (c : call) (G : nat -> dag * nat) (o : nat -> nat -> nat -> nat) (e : list nat) : Z :=
  Sum Z_csr (fun b => dgrad (fst (G b)) Z_csr (multi_send (o b)) (snd (G b)) e) (seq 0 (batch_of c)).
(** distributions.py:212-233: sample k; [o q] are the draws of call number q *)
Definition q_sample (c : call) (G : nat -> dag * nat) (o : nat -> nat -> nat -> nat -> nat) (k : nat) (e : list nat) : Z :=
  to_discrete (q_packed c G (o (k / 10)%nat) e) (k mod 10 + 1)%nat.
(** calls of [marginals] made for n samples *)
Definition calls (n : nat) : nat := ((n + 9) / 10)%nat.
(** the draw that sample k uses at the nodes of row b *)
Definition draw_of (o : nat -> nat -> nat -> nat -> nat) (k b : nat) (v : nat) : nat := o (k / 10)%nat b v (k mod 10 + 1)%nat.
(** all draws are indices of arguments *)
Definition draws_ok (c : call) (G : nat -> dag * nat) (o : nat -> nat -> nat -> nat -> nat) : Prop :=
  forall q b j, (b < batch_of c)%nat -> in_range_at (fst (G b)) (fun v => o q b v j).
(** sample.py:173-193: independent draws, with weights W b at the nodes of row b *)
Definition wdraws (c : call) (G : nat -> dag * nat) (W : nat -> nat -> nat -> R) (n : nat) : pmf (nat -> nat -> nat -> nat -> nat) :=
  pind (fun _ => pind (fun b => wjoint16 (fst (G b)) (W b) (S (snd (G b)))) (fun _ _ => 0%nat) (batch_of c))
       (fun _ _ _ => 0%nat) (calls n).
(** sample.py:173-193: the weights are the softmax of the arguments *)
Definition draws (c : call) (G : nat -> dag * nat) (phi : list nat -> R) (n : nat) : pmf (nat -> nat -> nat -> nat -> nat) :=
  wdraws c G (fun b => soft_at (fst (G b)) NEG phi) n.

(** ** Spec *)
(** the event of a structure *)
Definition event_of (S : spec) (s : st S) (e : list nat) : Z :=
  if in_dec (list_eq_dec Nat.eq_dec) e (prt S s) then 1 else 0.
(** functions of the entries of row b *)
Definition row_fun (c : call) (b : nat) (h : (list nat -> Z) -> R) : Prop :=
  forall u v, (forall e, row_of c e = b -> u e = v e) -> h u = h v.

(** ** C20, C15 *)
Theorem shared_marginals c G phi e : records c G -> q_marginals_on c G phi e = q_marginals c phi e.
Proof.
  intro HG. apply (Sum_ext_in R_csr). intros b Hb. apply in_seq in Hb. destruct (HG b) as [Ht E]; [lia|].
  rewrite dgrad_soft by auto. now rewrite E.
Qed.
Theorem C20_marginals_shared c G phi B : valid c -> records c G -> 0 <= B -> bounded c B phi ->
  forall b l e, row_ok c b -> row_of c e = b -> let S := spec_of c b in Enumerates (ok S) l ->
    Rabs (q_marginals_on c G phi e - marg_spec (prt S) l phi e) <= 2 * INR (degree c b) * leak c b B.
Proof. intros V HG HB0 HB b l e Hb He S Hl. rewrite shared_marginals by auto. now apply C20_marginals_value. Qed.
Print Assumptions C20_marginals_shared.

Theorem C15_argmax_shared c G phi o : valid c -> records c G ->
  (forall b, (b < batch_of c)%nat -> argmax_node (fst (G b)) NEG phi (o b)) ->
  forall b, row_ok c b -> small c b phi ->
    let S := spec_of c b in
    exists s, ok S s /\ (forall s', ok S s' -> sc (prt S) phi s' <= sc (prt S) phi s) /\
      (forall e, row_of c e = b -> q_argmax_on c G o e = uses (prt S) e s) /\
      (match c with CCfg _ _ _ _ _ => True | _ => NoDup (prt S s) end).
Proof.
  intros V HG Ho b Hb HR S.
  assert (H : exists o', (forall b, (b < batch_of c)%nat -> argmax_ok NEG phi (o' b) [] (row_graph c b)) /\
     forall e, q_argmax_on c G o e = q_argmax c o' e).
  { exists (fun b p => o b (nodeat (fst (G b)) (snd (G b)) p)). split.
    - intros b' Hb'. destruct (HG b' Hb') as [Ht E]. rewrite <- E. now apply argmax_paths, Ho.
    - intro e. apply (Sum_ext_in R_csr). intros b' Hb'. apply in_seq in Hb'. destruct (HG b') as [Ht E]; [lia|].
      rewrite <- E. apply dgrad_paths; auto. }
  destruct H as (o' & Ho' & He). destruct (@C15_argmax_is_optimal c phi o' V Ho' b Hb HR) as (s & H1 & H2 & H3 & H4).
  exists s. split; [exact H1|]. split; [exact H2|]. split; [|exact H4]. intros e Hr. rewrite He. now apply H3.
Qed.
Print Assumptions C15_argmax_shared.

(** ** One row of the packed tensor *)
Section Row.
  Variables (c : call) (G : nat -> dag * nat).
  Hypothesis V : valid c.
  Hypothesis Hs : samples c.
  Hypothesis HG : records c G.

  Lemma row_multilinear b : (b < batch_of c)%nat -> multilinear (unf (fst (G b)) (snd (G b))).
  Proof. intro Hb. rewrite (proj2 (HG Hb)). apply graph_multilinear; auto. Qed.
  Lemma packed_row o b e : (forall b j, (b < batch_of c)%nat -> in_range_at (fst (G b)) (fun v => o b v j)) ->
    (b < batch_of c)%nat -> row_of c e = b ->
    q_packed c G o e = dgrad (fst (G b)) Z_csr (multi_send (o b)) (snd (G b)) e.
  Proof.
    intros Ho Hb He. unfold q_packed.
    apply (@Sum_single Z_csr nat (fun b => dgrad (fst (G b)) Z_csr (multi_send (o b)) (snd (G b)) e) b (seq 0 (batch_of c)) (seq_NoDup _ _)); [apply in_seq; lia|].
    intros b' Hb' Hne. apply in_seq in Hb'. assert (Hlt : (b' < batch_of c)%nat) by lia.
    apply (@multi_zero _ (proj1 (HG Hlt)) (o b') (fun j => Ho b' j Hlt)); [now apply row_multilinear|].
    rewrite (proj2 (HG Hlt)). intros m Hm. rewrite zcount_names.
    rewrite (proj1 (count_occ_not_In _ _ _)); [reflexivity|]. intro Hin. apply Hne.
    rewrite <- He. symmetry. eapply (@graph_inrow c b' V Hlt); [exact Hm|exact Hin].
  Qed.
  Lemma sample_row o k b e : draws_ok c G o -> (b < batch_of c)%nat -> row_of c e = b ->
    q_sample c G o k e = zcount e (npick (fst (G b)) (draw_of o k b) (snd (G b))).
  Proof.
    intros Ho Hb He. unfold q_sample. rewrite (@packed_row _ b e) by (auto; intros; now apply Ho).
    apply (@multi_unpack _ (proj1 (HG Hb)) (o (k / 10)%nat b) (fun j => Ho _ _ j Hb)).
    - now apply row_multilinear.
    - pose proof (Nat.mod_upper_bound k 10). lia.
  Qed.
End Row.

(** C24: entry by entry, what comes out of sample number k is the backward pass
    of a single sample (sample.py:20-39) with the draws of sample k, i.e. the
    derivation that follows these draws. *)
Theorem C24_unpacking c G o : valid c -> samples c -> records c G -> draws_ok c G o ->
  forall k b e, (b < batch_of c)%nat -> row_of c e = b ->
    q_sample c G o k e = dgrad (fst (G b)) Z_csr (one_send (draw_of o k b)) (snd (G b)) e /\
    q_sample c G o k e = zcount e (npick (fst (G b)) (draw_of o k b) (snd (G b))).
Proof.
  intros V Hs HG Ho k b e Hb He. assert (E := @sample_row c G V Hs HG o k b e Ho Hb He). split; [|exact E].
  rewrite E. symmetry. apply (dgrad_one (proj1 (HG b Hb))). now apply Ho.
Qed.
Print Assumptions C24_unpacking.

(** C22 *)
(** whatever the draws: the 0/1 indicator of one derivation of the program *)
Theorem C22_one_derivation c G o : valid c -> samples c -> records c G -> draws_ok c G o ->
  forall k b, (b < batch_of c)%nat ->
  exists m, In m (expand (row_graph c b)) /\
    forall e, row_of c e = b -> q_sample c G o k e = (if in_dec (list_eq_dec Nat.eq_dec) e (names m) then 1 else 0)%Z.
Proof.
  intros V Hs HG Ho k b Hb. destruct (HG b Hb) as [Ht E].
  exists (npick (fst (G b)) (draw_of o k b) (snd (G b))).
  assert (Hin : In (npick (fst (G b)) (draw_of o k b) (snd (G b))) (expand (row_graph c b))).
  { rewrite <- E. apply (npick_in Ht). discriminate. }
  split; [exact Hin|]. intros e He. rewrite (@sample_row c G V Hs HG) with (b := b) by auto.
  rewrite zcount_names. pose proof (@graph_multilinear c b V Hb Hs _ Hin) as Hn.
  destruct (in_dec _ e _) as [Hi|Hi].
  - now rewrite (proj1 (NoDup_count_occ' _ _) Hn e Hi).
  - now rewrite (proj1 (count_occ_not_In _ _ _) Hi).
Qed.
Print Assumptions C22_one_derivation.

(** number of choices a derivation depends on, at most *)
Fixpoint choices (t : term) : nat :=
  match t with
  | TSum l => S (list_max (map choices l))
  | TMul a b => choices a + choices b
  | _ => 0
  end.
Lemma pick_likely g z phi o d : topo g -> 0 <= d ->
  (forall k l, ndof g k = NSum l -> (o k < length l)%nat /\ exp (- d) <= soft_at g z phi k (o k)) ->
  forall k, exp (- (INR (choices (unf g k)) * d)) <= pr phi z (unf g k) (npick g o k).
Proof.
  intros Ht Hd Ho k. induction k as [k IH] using lt_wf_ind.
  assert (Hat : forall m, expand (unf g k) = [m] -> choices (unf g k) = 0%nat -> npick g o k = m ->
     exp (- (INR (choices (unf g k)) * d)) <= pr phi z (unf g k) (npick g o k)).
  { intros m E Hc ->. rewrite Hc, (@pr_one z phi _ _ E), Rmult_0_l, Ropp_0, exp_0. lra. }
  assert (Eu := unf_eq Ht k). unfold unf_step in Eu.
  assert (En : npick g o k = npick_step g o (fun _ => None) k (npick g o)) by apply (npick_eq Ht).
  unfold npick_step in En.
  destruct (ndof g k) as [e|e| | |l|a b] eqn:E;
    try (eapply Hat; [rewrite Eu; reflexivity|rewrite Eu; reflexivity|exact En]).
  - destruct (Ho k l E) as [Hlt Hw]. set (v := nth (o k) l (hd 0%nat l)) in *.
    assert (Hv : nth_error l (o k) = Some v) by (unfold v; apply nth_error_nth'; exact Hlt).
    rewrite En. rewrite <- (soft_pr Ht z phi k (o k) (npick g o v) E Hv).
    assert (Hvk : (v < k)%nat) by (apply (topo_sum Ht k E), (nth_error_In _ _ Hv)).
    specialize (IH v Hvk).
    apply Rle_trans with (exp (- d) * exp (- (INR (choices (unf g v)) * d))).
    + rewrite <- exp_plus. rewrite Eu. cbn [choices]. rewrite S_INR.
      assert (Hm : (choices (unf g v) <= list_max (map choices (map (unf g) l)))%nat).
      { assert (H := list_max_le (map choices (map (unf g) l)) (list_max (map choices (map (unf g) l)))).
        destruct H as [H _]. specialize (H (le_n _)). rewrite Forall_forall in H. apply H.
        apply in_map, in_map, (nth_error_In _ _ Hv). }
      apply le_INR in Hm.
      assert (INR (choices (unf g v)) * d <= INR (list_max (map choices (map (unf g) l))) * d)
        by (apply Rmult_le_compat_r; auto).
      assert (Hle : - ((INR (list_max (map choices (map (unf g) l))) + 1) * d) <= - d + - (INR (choices (unf g v)) * d)) by lra.
      destruct Hle as [Hle| ->]; [apply Rlt_le, exp_increasing, Hle|apply Rle_refl].
    + apply Rmult_le_compat; auto; apply Rlt_le, exp_pos.
  - destruct (topo_mul Ht k E) as [Ha Hb]. rewrite En, Eu. rewrite pr_mul by apply (unf_wf Ht). cbn [choices].
    rewrite plus_INR, Rmult_plus_distr_r, Ropp_plus_distr, exp_plus.
    apply Rmult_le_compat; auto; apply Rlt_le, exp_pos.
Qed.

(** The generator never returns an outcome whose probability is below exp(-d)
    (in floating point a softmax that small is 0, and torch.multinomial does not
    return outcomes of probability 0). Then a sample is a structure. For the
    classes whose graph has no zero this needs no condition on the draws. *)
Theorem C22_sample_is_structure c G phi o : valid c -> samples c -> records c G -> draws_ok c G o ->
  forall k b, row_ok c b ->
  (zero_free c = true \/
   exists B d, 0 <= d /\ (forall e, Rabs (phi e) <= B) /\
     (forall v l, ndof (fst (G b)) v = NSum l -> exp (- d) <= soft_at (fst (G b)) NEG phi v (draw_of o k b v)) /\
     INR (choices (row_graph c b)) * d + 2 * (INR (degree c b) * B) < 100000) ->
  let S := spec_of c b in
  exists s, ok S s /\ NoDup (prt S s) /\ forall e, row_of c e = b -> q_sample c G o k e = event_of S s e.
Proof.
  intros V Hs HG Ho k b Hb HR S. destruct (row_family V Hb) as (F & HF). pose proof (proj1 Hb) as Hlt.
  destruct (HG b Hlt) as [Ht E]. set (m := npick (fst (G b)) (draw_of o k b) (snd (G b))).
  assert (Hm : In m (expand (ft F))).
  { rewrite <- (ir_graph HF), <- E. apply (npick_in Ht). discriminate. }
  assert (Hp : pure m = true).
  { destruct (zero_free c) eqn:Z; [apply (@fpure_all F); auto; now apply (ir_pure HF)|].
    destruct HR as [|(B & d & Hd & HB & Hw & Hsum)]; [discriminate|].
    destruct (pure m) eqn:Ep; auto. exfalso.
    assert (Hl := @pick_likely (fst (G b)) NEG phi (draw_of o k b) d Ht Hd).
    specialize (Hl (fun v l Hv => conj (Ho _ _ _ Hlt v l Hv) (Hw v l Hv)) (snd (G b))).
    rewrite E in Hl. fold m in Hl. rewrite (ir_graph HF) in Hl, Hsum.
    pose proof (@score_spur_le phi NEG B HB NEG_neg m Ep) as Hsp.
    destruct (flist F) as [|s0 l0] eqn:El; [now apply (ir_nonempty HF)|].
    destruct (@structure_is_pure F s0) as (m' & Hm' & Hp' & _); [rewrite El; now left|].
    pose proof (@score_pure_ge phi NEG B HB m' Hp') as Hge.
    pose proof (@HB0 phi B HB) as B0. destruct (ir_bnd HF Z) as [Hdeg _]. apply le_INR in Hdeg.
    assert (INR (length m) * B <= INR (degree c b) * B).
    { apply Rmult_le_compat_r; auto. eapply Rle_trans; [apply (@len_le F m Hm)|exact Hdeg]. }
    assert (INR (length m') * B <= INR (degree c b) * B).
    { apply Rmult_le_compat_r; auto. eapply Rle_trans; [apply (@len_le F m' Hm')|exact Hdeg]. }
    assert (HZ : exp (score phi NEG m') <= ZZ phi NEG (ft F)).
    { unfold ZZ. apply (@RSum_single deriv (fun x => exp (score phi NEG x)) m'); auto. intros. apply Rlt_le, exp_pos. }
    assert (pr phi NEG (ft F) m <= exp (score phi NEG m - score phi NEG m')).
    { unfold pr, Rminus. rewrite exp_plus, exp_Ropp. apply Rmult_le_compat_l; [apply Rlt_le, exp_pos|].
      apply Rinv_le_contravar; [apply exp_pos|exact HZ]. }
    assert (Hx : exp (- (INR (choices (ft F)) * d)) <= exp (score phi NEG m - score phi NEG m')) by lra.
    assert (Hy : score phi NEG m - score phi NEG m' < - (INR (choices (ft F)) * d)) by (unfold NEG in *; lra).
    apply exp_increasing in Hy. lra. }
  destruct (pure_is_structure F m Hm Hp) as (s & Hsl & HP).
  assert (Hn : NoDup (fparts F s)).
  { eapply Permutation_NoDup; [exact HP|]. rewrite <- names_pure by auto.
    apply (@graph_multilinear c b V Hlt Hs). now rewrite (ir_graph HF). }
  unfold S. rewrite <- (ir_spec HF). cbn [ok prt fspec]. exists s. split; [now apply (fenum F)|]. split; [exact Hn|].
  intros e He. rewrite (@sample_row c G V Hs HG) with (b := b) by auto. fold m.
  rewrite zcount_names, names_pure by auto.
  rewrite (Permutation_count_occ (list_eq_dec Nat.eq_dec)) in HP. rewrite HP.
  unfold event_of. cbn [prt fspec]. destruct (in_dec _ e _) as [Hi|Hi].
  - now rewrite (proj1 (NoDup_count_occ' _ _) Hn e Hi).
  - now rewrite (proj1 (count_occ_not_In _ _ _) Hi).
Qed.
Print Assumptions C22_sample_is_structure.

(** ** Regrouping the samples by calls *)
Lemma Prod_times A (f g : A -> R) l : RProd (fun x => f x * g x) l = RProd f l * RProd g l.
Proof. induction l as [|x l IH]; [rewrite !Prod_nil; simpl; ring|]. rewrite !Prod_cons, IH. cbn [kmul R_csr]. rewrite !Rmult_assoc. f_equal. rewrite <- !Rmult_assoc. f_equal. apply Rmult_comm. Qed.
Lemma Prod_swap A B (f : A -> B -> R) l l' :
  RProd (fun x => RProd (f x) l') l = RProd (fun y => RProd (fun x => f x y) l) l'.
Proof.
  induction l as [|x l IH].
  - rewrite Prod_nil. symmetry. induction l' as [|y l' IH]; [reflexivity|]. rewrite Prod_cons, IH, Prod_nil. simpl. ring.
  - rewrite Prod_cons, IH. rewrite <- (Prod_times (f x) (fun y => RProd (fun x => f x y) l)).
    apply (Prod_ext R_csr). intro y. now rewrite Prod_cons.
Qed.
(** proof device: factor of a draw, if sample j of call q is used *)
Definition slot (n : nat) (h : nat -> R) (q j : nat) : R :=
  if (1 <=? j)%nat && (j <=? 10)%nat && (10 * q + (j - 1) <? n)%nat then h (10 * q + (j - 1))%nat else 1.
Lemma slots n h q : RProd (slot n h q) (seq 0 16) =
  RProd (fun i => if (10 * q + i <? n)%nat then h (10 * q + i)%nat else 1) (seq 0 10).
Proof.
  cbn [seq]. rewrite !Prod_cons, !Prod_nil. unfold slot. cbn [Nat.leb andb Nat.sub kmul k1 R_csr].
  change (K R_csr) with R. rewrite !Rmult_1_r, Rmult_1_l. reflexivity.
Qed.
Lemma regroup n h : RProd h (seq 0 n) = RProd (fun q => RProd (slot n h q) (seq 0 16)) (seq 0 (calls n)).
Proof.
  set (h' := fun k => if (k <? n)%nat then h k else 1).
  assert (G : forall Q, RProd h' (seq 0 (10 * Q)) = RProd (fun q => RProd (slot n h q) (seq 0 16)) (seq 0 Q)).
  { induction Q as [|Q IH]; [reflexivity|]. rewrite RProd_S, <- IH, slots.
    replace (10 * S Q)%nat with (10 * Q + 10)%nat by lia. rewrite seq_app, Prod_app. cbn [kmul R_csr]. f_equal.
    cbn [Nat.add]. replace (10 * Q)%nat with (0 + 10 * Q)%nat at 1 by lia.
    rewrite <- (map_id (seq (0 + 10 * Q) 10)). replace (seq (0 + 10 * Q) 10) with (map (fun i => (10 * Q + i)%nat) (seq 0 10)).
    - rewrite map_id, Prod_map. reflexivity.
    - generalize (10 * Q)%nat. intro x. cbn [seq map Nat.add]. repeat (f_equal; try lia). }
  rewrite <- G. assert (Hn : (n <= 10 * calls n)%nat).
  { unfold calls. pose proof (Nat.div_mod (n + 9) 10). pose proof (Nat.mod_upper_bound (n + 9) 10). lia. }
  replace (10 * calls n)%nat with (n + (10 * calls n - n))%nat by lia. rewrite seq_app, Prod_app. cbn [kmul R_csr].
  replace (RProd h' (seq (0 + n) (10 * calls n - n))) with 1.
  - rewrite Rmult_1_r. apply (Prod_ext_in R_csr). intros k Hk. apply in_seq in Hk. unfold h'.
    destruct (Nat.ltb_spec k n); [reflexivity|lia].
  - symmetry. rewrite (Prod_ext_in R_csr _ (fun _ => 1)).
    + induction (seq (0 + n) _) as [|x l IH]; [reflexivity|]. rewrite Prod_cons, IH. simpl. ring.
    + intros k Hk. apply in_seq in Hk. unfold h'. destruct (Nat.ltb_spec k n); [lia|reflexivity].
Qed.
Lemma slot_sample c G n (f : nat -> (list nat -> Z) -> R) o q j :
  slot n (fun k => f k (q_sample c G o k)) q j =
  slot n (fun k => f k (fun e => to_discrete (q_packed c G (o q) e) j)) q j.
Proof.
  unfold slot. destruct (_ && _)%bool eqn:E; auto.
  apply andb_true_iff in E as [E _]. apply andb_true_iff in E as [E1 E2].
  apply Nat.leb_le in E1, E2. unfold q_sample.
  replace ((10 * q + (j - 1)) / 10)%nat with q.
  - replace ((10 * q + (j - 1)) mod 10 + 1)%nat with j; [reflexivity|].
    replace (10 * q + (j - 1))%nat with (j - 1 + q * 10)%nat by lia. rewrite Nat.mod_add, Nat.mod_small by lia. lia.
  - symmetry. rewrite Nat.mul_comm, Nat.div_add_l by lia. rewrite Nat.div_small by lia. lia.
Qed.

(** samples and rows are independent, whatever the law of a row *)
Lemma product_law c G (W : nat -> nat -> nat -> R) (law : nat -> ((list nat -> Z) -> R) -> R) : valid c -> samples c -> records c G ->
  (forall b, (b < batch_of c)%nat -> forall F : nat -> (list nat -> Z) -> R, (forall j u v, (forall e, u e = v e) -> F j u = F j v) ->
     PE (wjoint16 (fst (G b)) (W b) (S (snd (G b))))
        (fun o => RProd (fun j => F j (fun e => to_discrete (dgrad (fst (G b)) Z_csr (multi_send o) (snd (G b)) e) j)) (seq 0 16)) =
     RProd (fun j => law b (F j)) (seq 0 16)) ->
  (forall b, (b < batch_of c)%nat -> law b (fun _ => 1) = 1) ->
  forall n (f : nat -> nat -> (list nat -> Z) -> R), (forall k b, (b < batch_of c)%nat -> row_fun c b (f k b)) ->
    PE (wdraws c G W n) (fun o => RProd (fun k => RProd (fun b => f k b (q_sample c G o k)) (seq 0 (batch_of c))) (seq 0 n))
    = RProd (fun k => RProd (fun b => law b (f k b)) (seq 0 (batch_of c))) (seq 0 n).
Proof.
  intros V Hs HG HW H1 n f Hf.
  assert (HR : psupp (draws_ok c G) (wdraws c G W n)).
  { assert (H : psupp (fun o : nat -> nat -> nat -> nat -> nat => forall q b, (b < batch_of c)%nat -> forall j, in_range_at (fst (G b)) (fun v => o q b v j))
                      (wdraws c G W n)).
    { assert (Hd : forall b, (b < batch_of c)%nat -> in_range_at (fst (G b)) (fun _ => 0%nat)).
      { intros b Hb k l E. destruct (topo_sum (proj1 (HG b Hb)) k E) as [Hl _]. destruct l; [congruence|simpl; lia]. }
      unfold wdraws.
      apply (psupp_pind (fun (_ : nat) (o : nat -> nat -> nat -> nat) => forall b, (b < batch_of c)%nat -> forall j, in_range_at (fst (G b)) (fun v => o b v j))).
      - intros _ b Hb j. now apply Hd.
      - intros _.
        assert (H : forall n', (n' <= batch_of c)%nat ->
          psupp (fun o : nat -> nat -> nat -> nat => forall b, (b < batch_of c)%nat -> forall j, in_range_at (fst (G b)) (fun v => o b v j))
            (pind (fun b => wjoint16 (fst (G b)) (W b) (S (snd (G b)))) (fun _ _ => 0%nat) n')).
        { induction n' as [|n' IH]; intro Hn'; [apply psupp_ret; intros b Hb j; now apply Hd|].
          simpl. eapply psupp_bind; [apply IH; lia|]. intros v Hv.
          eapply psupp_bind; [apply (wjoint16_range (proj1 (HG n' ltac:(lia))))|]. intros i Hi. apply psupp_ret.
          intros b Hb j. destruct (Nat.eqb_spec b n'); [subst; apply Hi|now apply Hv]. }
        now apply H. }
    eapply Forall_impl; [|exact H]. intros o Hx q b j Hb. now apply Hx. }
  pose (step := fun q b (o : nat -> nat -> nat) =>
     RProd (fun j => slot n (fun k => f k b (fun e => to_discrete (dgrad (fst (G b)) Z_csr (multi_send o) (snd (G b)) e) j)) q j) (seq 0 16)).
  rewrite (@PE_ext_in _ (draws_ok c G) (wdraws c G W n) _
    (fun o => RProd (fun q => RProd (fun b => step q b (o q b)) (seq 0 (batch_of c))) (seq 0 (calls n))) HR).
  + unfold wdraws.
    rewrite (pind_prod (fun _ => pind (fun b => wjoint16 (fst (G b)) (W b) (S (snd (G b)))) (fun _ _ => 0%nat) (batch_of c))
      (fun _ _ _ => 0%nat) (calls n) (fun q o => RProd (fun b => step q b (o b)) (seq 0 (batch_of c)))).
    rewrite (regroup n (fun k => RProd (fun b => law b (f k b)) (seq 0 (batch_of c)))).
    apply (Prod_ext R_csr). intro q.
    rewrite (pind_prod (fun b => wjoint16 (fst (G b)) (W b) (S (snd (G b)))) (fun _ _ => 0%nat) (batch_of c) (step q)).
    transitivity (RProd (fun b => RProd (fun j => slot n (fun k => law b (f k b)) q j) (seq 0 16)) (seq 0 (batch_of c))).
    * apply (Prod_ext_in R_csr). intros b Hb. apply in_seq in Hb. assert (Hlt : (b < batch_of c)%nat) by lia.
      destruct (HG b Hlt) as [Ht E]. unfold step.
      pose (F := fun j u => slot n (fun k => f k b u) q j).
      etransitivity; [apply (HW b Hlt F)|].
      -- intros j u v Euv. unfold F, slot. destruct (_ && _)%bool; [|reflexivity]. apply Hf; auto.
      -- apply (Prod_ext R_csr). intro j. unfold F, slot. destruct (_ && _)%bool; [reflexivity|]. now apply H1.
    * rewrite Prod_swap. apply (Prod_ext R_csr). intro j. unfold slot. destruct (_ && _)%bool; [reflexivity|].
      induction (seq 0 (batch_of c)) as [|x l IH]; [reflexivity|]. rewrite Prod_cons, IH. simpl. ring.
  + intros o Ho. rewrite (regroup n). apply (Prod_ext R_csr). intro q.
    transitivity (RProd (fun j => RProd (fun b => slot n (fun k => f k b (fun e => to_discrete (dgrad (fst (G b)) Z_csr (multi_send (o q b)) (snd (G b)) e) j)) q j) (seq 0 (batch_of c))) (seq 0 16)).
    2:{ unfold step. apply Prod_swap. }
    apply (Prod_ext R_csr). intro j.
    rewrite (slot_sample c G n (fun k u => RProd (fun b => f k b u) (seq 0 (batch_of c))) o q j).
    unfold slot. destruct (_ && _)%bool.
    * apply (Prod_ext_in R_csr). intros b Hb. apply in_seq in Hb. assert (Hlt : (b < batch_of c)%nat) by lia.
      apply Hf; auto. intros e He. f_equal. apply (packed_row V Hs HG); auto.
    * symmetry. induction (seq 0 (batch_of c)) as [|x l IH]; [reflexivity|]. rewrite Prod_cons, IH. simpl. ring.
Qed.

(** C23: n samples of a batch, for every n, every number of rows. The samples
    are independent, so are the rows of a sample, and in each row the law is the
    Gibbs distribution (exactly for graphs without the zero; else up to the
    explicit leak, uniformly over all tests h of the row's entries). *)
Theorem C23_sample_law c G phi B : valid c -> samples c -> records c G -> 0 <= B -> bounded c B phi ->
  exists law : nat -> ((list nat -> Z) -> R) -> R,
  (forall n (f : nat -> nat -> (list nat -> Z) -> R),
     (forall k b, (b < batch_of c)%nat -> row_fun c b (f k b)) ->
     PE (draws c G phi n) (fun o => RProd (fun k => RProd (fun b => f k b (q_sample c G o k)) (seq 0 (batch_of c))) (seq 0 n))
     = RProd (fun k => RProd (fun b => law b (f k b)) (seq 0 (batch_of c))) (seq 0 n)) /\
  (forall b, (b < batch_of c)%nat -> law b (fun _ => 1) = 1) /\
  (forall b l h, row_ok c b -> let S := spec_of c b in Enumerates (ok S) l ->
     row_fun c b h -> (forall u, Rabs (h u) <= 1) ->
     Rabs (law b h - RSum (fun s => prob (prt S) l phi s * h (event_of S s)) l) <= 2 * leak c b B).
Proof.
  intros V Hs HG HB0 HB.
  exists (fun b h => mean phi NEG (row_graph c b) (fun m => h (fun e => zcount e m))). split; [|split].
  - intros n f Hf.
    apply (@product_law c G (fun b => soft_at (fst (G b)) NEG phi) (fun b h => mean phi NEG (row_graph c b) (fun m => h (fun e => zcount e m)))); auto.
    + intros b Hb F HF. destruct (HG b Hb) as [Ht E].
      etransitivity; [apply (@multi_law (fst (G b)) Ht NEG phi (snd (G b)) F)|].
      * apply (row_multilinear V Hs HG Hb).
      * exact HF.
      * rewrite E. reflexivity.
    + intros b Hb. apply mean_const, graph_wf; auto.
  - intros b Hb. apply mean_const, graph_wf; auto.
  - intros b l h Hb; cbv zeta; intros Hl Hh Hh1. destruct (row_family V Hb) as (F & HF). pose proof (proj1 Hb) as Hlt.
    rewrite (ir_graph HF).
    assert (Hnd : forall s, In s (flist F) -> NoDup (fparts F s)).
    { intros s Hsl. destruct (@structure_is_pure F s Hsl) as (m & Hm & Hp & HP).
      eapply Permutation_NoDup; [exact HP|]. rewrite <- names_pure by auto.
      apply (@graph_multilinear c b V Hlt Hs). now rewrite (ir_graph HF). }
    revert l Hl. rewrite <- (ir_spec HF). cbn [ok prt fspec]. intros l Hl.
    match goal with |- Rabs (?x - ?y) <= _ =>
      replace y with (RSum (fun s : fst_ F => prob (fparts F) (flist F) phi s * h (event_of (fspec F) s)) (flist F)) end.
    2:{ apply (wsum_perm (fparts F) (row_perm HF Hl) phi (fun s => h (event_of (fspec F) s)) _ (fun s => eq_refl)). }
    pose (hc := fun lv : list (list nat) => h (fun e => Z.of_nat (count_occ (list_eq_dec Nat.eq_dec) lv e))).
    assert (Hhe : forall u v, (forall e, u e = v e) -> h u = h v) by (intros; apply Hh; auto).
    assert (Hev : forall s, In s (flist F) -> h (event_of (fspec F) s) = hc (fparts F s)).
    { intros s Hsl. apply Hhe. intro e. unfold event_of. cbn [prt fspec]. specialize (Hnd s Hsl).
      destruct (in_dec _ e _) as [Hi|Hi].
      - now rewrite (proj1 (NoDup_count_occ' _ _) Hnd e Hi).
      - now rewrite (proj1 (count_occ_not_In _ _ _) Hi). }
    assert (HT : RSum (fun m => exp (score phi NEG m) * h (fun e => zcount e m)) (filter pure (expand (ft F))) =
       RSum (fun s => exp (sc (fparts F) phi s) * h (event_of (fspec F) s)) (flist F)).
    { transitivity (RSum (fun m => (fun lv => exp (RSum phi lv) * hc lv) (leaves m)) (filter pure (expand (ft F)))).
      - apply (Sum_ext_in R_csr). intros m Hm. apply filter_In in Hm as [_ Hp].
        rewrite score_leaves by auto. f_equal. apply Hhe. intro e. now rewrite zcount_names, names_pure.
      - rewrite (pure_transfer F R_csr (fun lv => exp (RSum phi lv) * hc lv)).
        + apply (Sum_ext_in R_csr). intros s Hsl. now rewrite Hev.
        + intros x y HP. f_equal; [f_equal; apply (Sum_perm R_csr), HP|]. apply Hhe. intro e. f_equal. now apply Permutation_count_occ. }
    apply (@err_transfer c B b F (2 * 1)); auto; try lra.
    + intro Z. assert (Hfp := ir_pure HF Z).
      replace (mean phi NEG (ft F) (fun m => h (fun e => zcount e m)))
        with (RSum (fun s => prob (fparts F) (flist F) phi s * h (event_of (fspec F) s)) (flist F)); [ring|].
      symmetry. unfold mean. rewrite RSum_pr by apply ft_wf. rewrite avg_prob. unfold avg.
      rewrite (RSum_split _ pure), HT, ZZ_split, fpure_ES by auto. fold (spur (ft F)). rewrite Hfp.
      replace (RSum (fun m : deriv => exp (score phi NEG m) * h (fun e => zcount e m)) []) with 0 by reflexivity. f_equal; ring.
    + intro Z. destruct HB as [HB|HB]; [congruence|]. rewrite avg_prob.
      apply mean_err; auto using NEG_neg. apply (ir_nonempty HF).
Qed.
Print Assumptions C23_sample_law.

(** ** The hypotheses are met *)
(** every accepted call has recorded graphs *)
Theorem records_exist c : valid c -> exists G, records c G.
Proof.
  intro V. assert (H : forall n, (n <= batch_of c)%nat -> exists G : nat -> dag * nat, forall b, (b < n)%nat ->
    topo (fst (G b)) /\ unf (fst (G b)) (snd (G b)) = row_graph c b).
  { induction n as [|n IH]; intro Hn; [exists (fun _ => ([], 0%nat)); lia|].
    destruct IH as [G HG]; [lia|]. destruct (@record_exists (row_graph c n)) with (g := @nil node) as (h & r & T & _ & E).
    { apply graph_wf; auto. }
    { intro k. unfold ndof. destruct k; exact I. }
    exists (fun b => if b =? n then (h, r) else G b). intros b Hb. destruct (b =? n) eqn:Eb.
    - apply Nat.eqb_eq in Eb. subst. simpl in T, E. auto.
    - apply Nat.eqb_neq in Eb. apply HG. lia. }
  now apply H.
Qed.
Lemma node_choice g (P : nat -> nat -> Prop) : (forall k l, ndof g k = NSum l -> exists i, P k i) ->
  exists o, forall k l, ndof g k = NSum l -> P k (o k).
Proof.
  intro H. assert (Hn : forall n, exists o : nat -> nat, forall k l, (k < n)%nat -> ndof g k = NSum l -> P k (o k)).
  { induction n as [|n [o Ho]]; [exists (fun _ => 0%nat); lia|].
    destruct (ndof g n) as [| | | |l|] eqn:E;
      try (exists o; intros k l' Hk Ek; assert (k <> n) by congruence; apply (Ho k l'); auto; lia).
    destruct (H n l E) as [i Hi]. exists (fun k => if (k =? n)%nat then i else o k). intros k l' Hk Ek.
    destruct (Nat.eqb_spec k n); [subst; exact Hi|]. apply (Ho k l'); auto. lia. }
  destruct (Hn (length g)) as [o Ho]. exists o. intros k l E. apply (Ho k l); auto.
  destruct (Nat.lt_ge_cases k (length g)) as [|Hk]; auto. unfold ndof in E. now rewrite nth_overflow in E.
Qed.
(** torch.max has an answer at every node *)
Theorem argmax_node_exists g z phi : topo g -> exists o, argmax_node g z phi o.
Proof.
  intro Ht. destruct (@node_choice g (fun k i => forall l, ndof g k = NSum l -> exists c, nth_error l i = Some c /\
    is_max (fwd g (max_ops z) phi c) (map (fwd g (max_ops z) phi) l))) as [o Ho].
  - intros k l E. destruct (topo_sum Ht k E) as [Hl _].
    assert (Hv : map (fwd g (max_ops z) phi) l <> []) by (destruct l; simpl; congruence).
    destruct (argmax_list Hv) as (i & x & Hi & Hm). exists i. intros l' E'. rewrite E in E'. injection E' as <-.
    rewrite nth_error_map in Hi. destruct (nth_error l i) as [c|] eqn:Ec; [|discriminate]. injection Hi as <-. eauto.
  - exists o. intros k l E. now apply (Ho k l E).
Qed.
(** some outcome of every draw has probability at least 1/(number of outcomes) *)
Theorem likely_draws_exist g z phi M : topo g -> (0 < M)%nat -> (forall k l, ndof g k = NSum l -> (length l <= M)%nat) ->
  exists o, in_range_at g o /\ forall k l, ndof g k = NSum l -> exp (- ln (INR M)) <= soft_at g z phi k (o k).
Proof.
  intros Ht HM Hlen. assert (H0 : 0 < INR M) by (apply lt_0_INR, HM).
  destruct (@node_choice g (fun k i => forall l, ndof g k = NSum l -> (i < length l)%nat /\ exp (- ln (INR M)) <= soft_at g z phi k i)) as [o Ho].
  - intros k l E. assert (Hs := soft_total Ht z phi k E).
    destruct (topo_sum Ht k E) as [Hl _].
    rewrite exp_Ropp, exp_ln by auto.
    assert (G : forall (l' : list nat) i, l' <> [] ->
      exists j, (i <= j < i + length l')%nat /\
        ksum R_csr (mapi (fun i (_ : nat) => soft_at g z phi k i) i l') <= INR (length l') * soft_at g z phi k j).
    { induction l' as [|a l' IH]; intros i Hne; [congruence|]. destruct l' as [|a' l'].
      - exists i. split; [simpl; lia|]. simpl. lra.
      - destruct (IH (S i)) as (j & Hj & Hle); [discriminate|]. set (l2 := a' :: l') in *.
        change (ksum R_csr (mapi (fun i (_ : nat) => soft_at g z phi k i) i (a :: l2)))
          with (soft_at g z phi k i + ksum R_csr (mapi (fun i (_ : nat) => soft_at g z phi k i) (S i) l2)).
        cbn [length]. rewrite S_INR. pose proof (pos_INR (length l2)).
        destruct (Rle_lt_dec (soft_at g z phi k i) (soft_at g z phi k j)) as [Hij|Hij].
        + exists j. split; [lia|]. lra.
        + exists i. split; [lia|]. 
          assert (INR (length l2) * soft_at g z phi k j <= INR (length l2) * soft_at g z phi k i) by (apply Rmult_le_compat_l; lra).
          lra. }
    destruct (G l 0%nat Hl) as (j & Hj & Hle). exists j. intros l' E'. rewrite E in E'. injection E' as <-.
    split; [lia|]. change (K R_csr) with R in *. rewrite Hs in Hle.
    specialize (Hlen k l E). apply le_INR in Hlen.
    assert (Hpos : 0 < soft_at g z phi k j) by (unfold soft_at; rewrite E; cbv zeta; apply exp_pos).
    assert (INR (length l) * soft_at g z phi k j <= INR M * soft_at g z phi k j) by (apply Rmult_le_compat_r; lra).
    apply Rmult_le_reg_l with (INR M); auto. rewrite Rinv_r by lra. lra.
  - exists o. split; intros k l E; apply (Ho k l E l E).
Qed.
(** the condition of [C22_sample_is_structure] for a chain of 4 words with 3 tags:
    outcomes down to probability exp(-103) (the smallest positive float32) *)
Example ex_choices : choices (row_graph ex_lin 0) = 9%nat /\ choices (row_graph ex_semi 1) = 9%nat.
Proof. split; vm_compute; reflexivity. Qed.
Example ex_condition : INR (choices (row_graph ex_lin 0)) * 104 + 2 * (INR (degree ex_lin 0) * 3) < 100000.
Proof.
  rewrite (proj1 ex_choices). replace (degree ex_lin 0) with 4%nat by reflexivity. rewrite !INR_IZR_INZ. simpl. lra.
Qed.
Example ex_sampling : Forall (fun c => valid c /\ samples c /\ exists G, records c G) [ex_lin; ex_semi; ex_tree; ex_dep].
Proof.
  pose proof ex_hypotheses as H. unfold ex_calls in H.
  repeat apply Forall_cons; [.. |apply Forall_nil]; (assert (V := H); rewrite Forall_forall in V;
    match goal with |- valid ?c /\ _ => destruct (V c) as [V' _]; [simpl; tauto|] end;
    split; [exact V'|split; [exact I|apply records_exist, V']]).
Qed.
