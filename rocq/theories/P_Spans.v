(** * Properties of the span charts of SentCFG (C76). *)
From Coq Require Import Sorted.
From Verif Require Import Base Ops Terms Semirings Poly Chain LinearChain SemiMarkov CkyCrf Cky DepSpec DepTree
  Batch Family Approx Grad Sample Dist Purity Degree Shape Api Query Dag DagLaw KMax P_Real P_Sample P_KMax Spans.
Set Implicit Arguments.
Local Open Scope R_scope.

(** ** The values of a best list are determined *)
Lemma desc_app_l a b : desc (a ++ b) -> desc a.
Proof.
  induction a as [|x a IH]; intro H; [constructor|]. cbn [app] in H. inversion_clear H as [|? ? H1 H2]. constructor; [now apply IH|].
  apply Forall_app in H2. apply H2.
Qed.
Lemma sub_rest A (ss : list A) : NoDup ss -> forall l, (forall s, In s ss -> In s l) -> exists rest, Permutation l (ss ++ rest).
Proof.
  induction 1 as [|x ss Hx Hnd IH]; intros l Hl; [exists l; apply Permutation_refl|].
  destruct (in_split x l (Hl x (or_introl eq_refl))) as (l1 & l2 & ->).
  destruct (IH (l1 ++ l2)) as (rest & HP).
  - intros s Hs. assert (Hs' : In s (l1 ++ x :: l2)) by (apply Hl; now right). apply in_app_or in Hs' as [H|[H|H]]; apply in_or_app; auto.
    subst. contradiction.
  - exists rest. rewrite <- Permutation_middle. simpl. now apply perm_skip.
Qed.
Lemma ge_desc v : StronglySorted Rge v -> desc v.
Proof.
  induction 1 as [|x v Hv IH Hx]; constructor; auto. eapply Forall_impl; [|exact Hx]. simpl. intros. lra.
Qed.
Lemma best_list A (f : A -> R) k (l ss : list A) : NoDup ss -> (forall s, In s ss -> In s l) -> NoDup l ->
  length ss = Nat.min k (length l) -> desc (map f ss) ->
  (forall s s', In s l -> ~ In s ss -> In s' ss -> f s <= f s') -> map f ss = topk k (map f l).
Proof.
  intros Hnd Hin Hl Hlen Hd Hb. apply topk_char; auto. intro y.
  destruct (sub_rest Hnd l Hin) as (rest & HP).
  rewrite (cge_perm y (Permutation_map f HP)), map_app, cge_app.
  pose proof (cge_le y (map f ss)) as L1. rewrite map_length in L1.
  destruct (cge y (map f rest)) as [|q] eqn:Eq; [lia|].
  assert (Hex : exists s, In s rest /\ y <= f s).
  { clear - Eq. revert Eq. unfold cge. induction rest as [|s rest IH]; simpl; [discriminate|]. unfold geb at 1.
    destruct (Rle_dec y (f s)); [intros _; exists s; auto|]. intro H. destruct (IH H) as (s' & H1 & H2). exists s'; auto. }
  destruct Hex as (s & Hs & Hy).
  assert (Hns : ~ In s ss).
  { intro H. assert (Hnd' : NoDup (ss ++ rest)) by (eapply Permutation_NoDup; eassumption).
    clear - Hnd' H Hs. induction ss as [|x ss IH]; [destruct H|]. cbn [app] in Hnd'. inversion_clear Hnd' as [|? ? H1 H2].
    destruct H as [->|H]; [apply H1, in_or_app; now right|now apply IH]. }
  assert (Hsl : In s l) by (eapply Permutation_in; [symmetry; exact HP|apply in_or_app; now right]).
  rewrite (@cge_all y (map f ss)).
  - rewrite map_length. apply Permutation_length in HP. rewrite app_length in HP.
    assert (length rest <> 0%nat) by (destruct rest; [destruct Hs|discriminate]). lia.
  - intros x Hx. apply in_map_iff in Hx as (s' & <- & Hs'). specialize (Hb s s' Hsl Hns Hs'). lra.
Qed.

Section Cfg.
  Variables (batch N NT T : nat) (ls : option (list nat)).
  Notation c := (CCfg batch N NT T ls).
  (** words of row b that are parsed *)
  Notation len b := (eff_len N (lc_len N ls b)).

  (** ** The queries, on recorded graphs *)
  (** the graph of row b with offsets on [span[w]] (Spans.v) *)
  Definition span_graph (b : nat) : term := cs_one tops NT T N b TLeaf (lc_len N ls b).
  (** [G b] is the recorded graph of row b with its output node, as in P_Sample.v *)
  Definition span_records (G : nat -> dag * nat) : Prop :=
    forall b, (b < batch)%nat -> topo (fst (G b)) /\ unf (fst (G b)) (snd (G b)) = span_graph b.
  (** cky.py:114-121: [spans_marg], filled from the gradients [gr] of the offsets.
      Entries with [i >= N - w - 1] keep the zero of [torch.zeros]; [marg[3:]]
      starts with [span[1]], so row w holds the gradient of [span[w + 1]]. *)
  Definition span_chart (gr : list nat -> R) (b w i x : nat) : R :=
    if (i <? N - w - 1)%nat then gr [3; b; w; i; x]%nat else 0.
  (** cky.py:104-129, 143 for LogSemiring and for MaxSemiring ([o b v]: index
      returned by torch.max at node v of row b). Simplification: one backward pass
      per row. *)
  Definition q_soft (G : nat -> dag * nat) (phi : list nat -> R) (e : list nat) : R :=
    RSum (fun b => dgrad (fst (G b)) R_csr (lin_send (soft_at (fst (G b)) NEG (offsets phi))) (snd (G b)) e) (seq 0 batch).
  (** cky.py:104-129, 143 for MaxSemiring: the gradient along the chosen arguments *)
  Definition q_pick (G : nat -> dag * nat) (o : nat -> nat -> nat) (e : list nat) : R :=
    RSum (fun b => dgrad (fst (G b)) R_csr (lin_send (pick_at (o b))) (snd (G b)) e) (seq 0 batch).
  (** cky.py:131-138 for KMaxSemiring: [paths[j]] is built from the gradient of
      [v[j]]. Simplification: [span[w]] is replaced by its product with the [one]
      of KMaxSemiring (0 in slot 0, -1e5 in the others), and the sum over the slots
      of [span[w]] (cky.py:120) by the gradient of slot 0 of that [one]. A
      derivation through another slot of it scores below -1e5 + len * B, like the
      junk of the slots that hold no parse. *)
  Definition q_slot (G : nat -> dag * nat) (k : nat) (o : nat -> nat -> nat -> nat) (j : nat) (e : list nat) : R :=
    RSum (fun b => kgrad (fst (G b)) k (o b) (snd (G b)) (fun i => if (j =? i)%nat then 1 else 0) e) (seq 0 batch).

  (** ** Rows *)
  Section Row.
    Hypothesis V : valid c.
    Variable b : nat.
    Hypothesis Hb : (b < batch)%nat.
    Let F : family := cs_fam V Hb.
    Lemma span_row_graph : ft F = span_graph b.
    Proof. reflexivity. Qed.
    Lemma span_row_len : (1 <= len b <= N)%nat.
    Proof. apply (@eff_len_ok batch); auto; apply V. Qed.
    Lemma span_row_reach : inrow (in_span b 0 (len b - 1)) (span_graph b).
    Proof.
      unfold span_graph. rewrite cs_one_eff by apply V. apply cs_one_reach. apply span_row_len.
    Qed.
    Lemma span_row_bnd : bnd (3 * len b) (nderiv c b) (ft F).
    Proof.
      unfold ft. cbn [frun F cs_fam nderiv]. rewrite (cs_one_eff tops NT T b TLeaf (lc_len N ls b)) by apply V.
      apply cs_one_bnd; try apply V. apply span_row_len.
    Qed.
    Lemma span_row_nonempty : (2 <= len b)%nat -> flist F <> [].
    Proof. apply (@cy_nonempty batch N NT T ls V b Hb). Qed.
    Lemma span_row_nonempty' : row_ok c b -> flist F <> [].
    Proof. intros [_ H]. now apply span_row_nonempty. Qed.
    Lemma span_row_wf : twf (span_graph b).
    Proof. rewrite <- span_row_graph. apply ft_wf. Qed.
    Lemma span_row_names m e : In m (expand (span_graph b)) -> In e (names m) -> in_span b 0 (len b - 1) e.
    Proof. apply span_row_reach. Qed.
  End Row.

  (** bound on the weight of derivations through the finite zero (as [leak] in
      Query.v; one more factor per width) *)
  Definition span_leak (b : nat) (B : R) : R :=
    INR (nderiv c b) * exp (-100000 + 2 * (INR (3 * len b) * B)).
  (** spec: the range of potentials in which masked entries do not matter *)
  Definition span_small (b : nat) (B : R) (phi : list nat -> R) : Prop :=
    (forall e, Rabs (phi e) <= B) /\ 2 * (INR (3 * len b) * B) < 100000.

  Lemma span_eps (V : valid c) b (Hb : (b < batch)%nat) B : 0 <= B ->
    eps (cs_fam V Hb) B NEG <= span_leak b B /\ 2 * INR (fdeg (cs_fam V Hb)) <= 2 * INR (3 * len b).
  Proof.
    intro HB. pose proof (span_row_bnd V Hb) as Hbn. split.
    - pose proof (@eps_bnd (cs_fam V Hb) (3 * len b) (nderiv c b) B NEG Hbn HB) as H. exact H.
    - destruct Hbn as [Hd _]. apply le_INR in Hd. unfold fdeg. lra.
  Qed.

  Lemma soft_row (V : valid c) G phi b (Hb : (b < batch)%nat) e : span_records G -> nth 1 e 0%nat = b ->
    q_soft G phi e = d_marginals (cs_fam V Hb) (offsets phi) e.
  Proof.
    intros HG He. unfold q_soft. rewrite (@RSum_only _ _ _ b).
    - destruct (HG b Hb) as [Ht E]. rewrite dgrad_soft by auto. rewrite E. reflexivity.
    - apply seq_NoDup.
    - apply in_seq. lia.
    - intros b' Hb' Hne. apply in_seq in Hb'. assert (Hlt : (b' < batch)%nat) by lia. destruct (HG b' Hlt) as [Ht E].
      rewrite dgrad_soft by auto. rewrite E. rewrite bp_log by now apply span_row_wf. rewrite Rmult_1_l. unfold mean.
      transitivity (RSum (fun _ : deriv => 0) (expand (span_graph b'))); [|rewrite RSum_const; ring].
      apply (Sum_ext_in R_csr). intros m Hm. rewrite cnt_names; [ring|].
      intro Hin. apply Hne. destruct (span_row_names V Hlt m e Hm Hin) as [Hn _]. congruence.
  Qed.
  Lemma pick_row (V : valid c) G o phi b (Hb : (b < batch)%nat) e : span_records G -> nth 1 e 0%nat = b ->
    (forall b, (b < batch)%nat -> argmax_node (fst (G b)) NEG phi (o b)) ->
    q_pick G o e = d_argmax (cs_fam V Hb) (fun p => o b (nodeat (fst (G b)) (snd (G b)) p)) e.
  Proof.
    intros HG He Ho. unfold q_pick. rewrite (@RSum_only _ _ _ b).
    - destruct (HG b Hb) as [Ht E]. rewrite dgrad_paths by auto. rewrite E. reflexivity.
    - apply seq_NoDup.
    - apply in_seq. lia.
    - intros b' Hb' Hne. apply in_seq in Hb'. assert (Hlt : (b' < batch)%nat) by lia. destruct (HG b' Hlt) as [Ht E].
      rewrite dgrad_paths by auto. pose proof (argmax_inrange _ _ _ _ _ (@argmax_paths _ NEG phi (o b') (snd (G b')) Ht (Ho b' Hlt))) as Hr.
      rewrite bp_pick by exact Hr. rewrite cnt_names; [ring|].
      intro Hin. apply Hne. pose proof (picked_in _ _ _ Hr) as Hp. rewrite E in Hp at 2.
      destruct (span_row_names V Hlt _ e Hp Hin) as [Hn _]. congruence.
  Qed.

  (** no constituent reaches past the end of the sentence *)
  Lemma has_span_inside n p i w x : is_parse NT T n p -> has_span p i (w + 2) x = true -> (i + w + 2 <= n)%nat.
  Proof. intros Hp H. apply has_span_spec in H. apply constituent_range in H. destruct Hp as (Hs & _). lia. Qed.

  (** ** C76 *)
  (** entry [b, w, i, x] of the span chart is the probability that the parse has a
      constituent x over the w + 2 words that start at word i *)
  Theorem C76_span_marginals G phi B : valid c -> span_records G -> 0 <= B -> (forall e, Rabs (phi e) <= B) ->
    forall b l, row_ok c b -> Enumerates (is_parse NT T (len b)) l -> forall w i x,
    Rabs (span_chart (q_soft G phi) b w i x -
          RSum (fun p => prob (parse_parts NT b) l phi p * (if has_span p i (w + 2) x then 1 else 0)) l)
      <= 2 * INR (3 * len b) * span_leak b B.
  Proof.
    intros V HG HB0 HB b l Hrow Hl w i x. pose proof (proj1 Hrow) as Hb. cbn [batch_of] in Hb.
    pose proof (@span_row_len V b Hb) as HLN.
    destruct (@span_eps V b Hb B HB0) as [He Hd].
    assert (Hpos : 0 <= 2 * INR (3 * len b) * span_leak b B).
    { apply Rmult_le_pos; [pose proof (pos_INR (3 * len b)); lra|].
      apply Rmult_le_pos; [apply pos_INR|apply Rlt_le, exp_pos]. }
    unfold span_chart. destruct (Nat.ltb_spec i (N - w - 1)) as [Hi|Hi].
    - rewrite (soft_row V phi Hb) by auto.
      replace (RSum (fun p => prob (parse_parts NT b) l phi p * (if has_span p i (w + 2) x then 1 else 0)) l)
        with (marg_spec (marked_parts NT b) (flist (cs_fam V Hb)) (offsets phi) [3; b; w; i; x]%nat).
      + eapply Rle_trans; [apply (@marginals_err (cs_fam V Hb) (offsets phi) B)|].
        * now apply offsets_bound.
        * now apply span_row_nonempty'.
        * apply Rmult_le_compat; auto; [pose proof (pos_INR (fdeg (cs_fam V Hb))); lra|apply eps_nonneg].
      + rewrite (marg_perm (marked_parts NT b) (Enumerates_perm (fenum (cs_fam V Hb)) Hl)).
        unfold marg_spec. apply (Sum_ext_in R_csr). intros p Hp. rewrite uses_span. f_equal.
        unfold prob, ZS. rewrite sc_offsets. f_equal. apply (Sum_ext R_csr). intro q. now rewrite sc_offsets.
    - replace (RSum _ l) with 0; [rewrite Rminus_0_r, Rabs_R0; exact Hpos|]. symmetry.
      transitivity (RSum (fun _ : ptree => 0) l); [|rewrite RSum_const; ring]. apply (Sum_ext_in R_csr). intros p Hp.
      apply Hl in Hp. destruct (has_span p i (w + 2) x) eqn:E; [|ring]. apply (has_span_inside _ _ _ Hp) in E. lia.
  Qed.
  (** spans that reach past the end of the sentence have exactly 0 *)
  Theorem C76_span_padding G phi : valid c -> span_records G ->
    forall b w i x, (b < batch)%nat -> (len b < i + w + 2)%nat -> span_chart (q_soft G phi) b w i x = 0.
  Proof.
    intros V HG b w i x Hb H. unfold span_chart. destruct (Nat.ltb_spec i (N - w - 1)) as [Hi|Hi]; auto.
    rewrite (soft_row V phi Hb) by auto. unfold d_marginals. rewrite span_row_graph.
    rewrite bp_log by now apply span_row_wf. rewrite Rmult_1_l. unfold mean.
    transitivity (RSum (fun _ : deriv => 0) (expand (span_graph b))); [|rewrite RSum_const; ring].
    apply (Sum_ext_in R_csr). intros m Hm. rewrite cnt_names; [ring|].
    intro Hin. destruct (span_row_names V Hb m _ Hm Hin) as [_ Hs]. specialize (Hs eq_refl). cbn [nth] in Hs.
    pose proof (@span_row_len V b Hb). lia.
  Qed.
  (** the gradient of an offset is the derivative of the row's value *)
  Theorem C76_span_gradient G phi B : valid c -> span_records G -> 0 <= B -> (forall e, Rabs (phi e) <= B) ->
    forall b e, row_ok c b -> nth 1 e 0%nat = b ->
    exists D, derivable_pt_lim (fun x => fwd (fst (G b)) (log_ops NEG) (upd (offsets phi) e x) (snd (G b))) (offsets phi e) D /\
      0 <= q_soft G phi e - D <= 2 * INR (3 * len b) * span_leak b B.
  Proof.
    intros V HG HB0 HB b e Hrow He. pose proof (proj1 Hrow) as Hb. cbn [batch_of] in Hb.
    destruct (@span_eps V b Hb B HB0) as [Hep Hd]. destruct (HG b Hb) as [Ht E].
    rewrite (soft_row V phi Hb) by auto. set (F := cs_fam V Hb) in *.
    exists (d_marginals F (offsets phi) e - mean (offsets phi) NEG (ft F) (cntO e)). split.
    - eapply dlim_ext; [|apply partition_derivative]. intro y. cbv beta. unfold d_partition.
      rewrite (fwd_unf Ht), E, frun_leval. reflexivity.
    - replace (d_marginals F (offsets phi) e - (d_marginals F (offsets phi) e - mean (offsets phi) NEG (ft F) (cntO e)))
        with (mean (offsets phi) NEG (ft F) (cntO e)) by ring.
      destruct (@masked_share F (offsets phi) B e (offsets_bound phi HB) (@span_row_nonempty' V b Hb Hrow)) as [H1 H2]. split; auto.
      eapply Rle_trans; [exact H2|].
      apply Rmult_le_compat; auto; [pose proof (pos_INR (fdeg F)); lra|apply eps_nonneg].
  Qed.
  (** the offsets do not change the values of the row *)
  Theorem C76_same_values G phi : valid c -> span_records G -> forall b, row_ok c b ->
    fwd (fst (G b)) (log_ops NEG) (offsets phi) (snd (G b)) = at_row 0 (q_partition c phi) b /\
    fwd (fst (G b)) (max_ops NEG) (offsets phi) (snd (G b)) = at_row 0 (q_max c phi) b.
  Proof.
    intros V HG b Hrow. pose proof (proj1 Hrow) as Hb. cbn [batch_of] in Hb. destruct (HG b Hb) as [Ht E].
    assert (K : forall O (pot : list nat -> car O), leval O pot (span_graph b) = cs_one O NT T N b pot (lc_len N ls b)).
    { intros O pot. symmetry. apply (frun_leval (cs_fam V Hb)). }
    destruct (row_family V Hrow) as (F & HF).
    assert (K2 : forall O (pot : list nat -> car O) d, at_row d (run c O pot) b = cy_one O NT T N b pot (lc_len N ls b)).
    { intros O pot d. cbn [run]. rewrite (@cy_logpartition_run O batch N NT T) by (exact V || reflexivity).
      cbn [at_row]. rewrite nth_map_seq by auto. reflexivity. }
    pose proof V as (HN & HNT & HT & HL). rewrite !(fwd_unf Ht), E, !K.
    split; (rewrite cs_neutral; [|auto|auto|intros a w i x; simpl; ring]).
    - symmetry. apply (K2 (log_ops NEG) phi 0).
    - symmetry. apply (K2 (max_ops NEG) phi 0).
  Qed.

  (** argmax: the four tensors describe one best parse *)
  Theorem C76_argmax_spans G phi o B : valid c -> span_records G ->
    (forall b, (b < batch)%nat -> argmax_node (fst (G b)) NEG (offsets phi) (o b)) ->
    forall b, row_ok c b -> span_small b B phi ->
    exists p, is_parse NT T (len b) p /\
      (forall p', is_parse NT T (len b) p' -> sc (parse_parts NT b) phi p' <= sc (parse_parts NT b) phi p) /\
      (forall w i x, span_chart (q_pick G o) b w i x = if has_span p i (w + 2) x then 1 else 0) /\
      (forall e, nth 1 e 0%nat = b -> (nth 0 e 0 < 3)%nat -> q_pick G o e = uses (parse_parts NT b) e p).
  Proof.
    intros V HG Ho b Hrow [HB HR]. pose proof (proj1 Hrow) as Hb. cbn [batch_of] in Hb. destruct (HG b Hb) as [Ht E].
    pose proof (@span_row_len V b Hb) as HLN.
    assert (Hin : in_range (cs_fam V Hb) (offsets phi)).
    { right. exists B. split; [now apply offsets_bound|]. destruct (span_row_bnd V Hb) as [Hd _]. apply le_INR in Hd.
      pose proof (@HB0 phi B HB). assert (INR (fdeg (cs_fam V Hb)) * B <= INR (3 * len b) * B) by (apply Rmult_le_compat_r; auto).
      unfold NEG. lra. }
    destruct (@argmax_correct (cs_fam V Hb) (offsets phi) (fun p => o b (nodeat (fst (G b)) (snd (G b)) p)) Hin) as (p & H1 & H2 & H3 & H4).
    { now apply span_row_nonempty'. }
    { unfold d_argmax_ok. rewrite span_row_graph, <- E. apply argmax_paths; auto. }
    cbn [fok fparts cs_fam] in H1, H2, H4. exists p. split; [exact H1|]. split; [|split].
    - intros p' Hp'. rewrite <- !(sc_offsets NT b phi). now apply H4.
    - intros w i x. unfold span_chart. destruct (Nat.ltb_spec i (N - w - 1)) as [Hi|Hi].
      + rewrite (@pick_row V G o (offsets phi) b Hb) by auto. rewrite H2. apply uses_span.
      + destruct (has_span p i (w + 2) x) eqn:Es; auto. apply (has_span_inside _ _ _ H1) in Es. lia.
    - intros e He Hlow. rewrite (@pick_row V G o (offsets phi) b Hb) by auto. rewrite H2. now apply uses_other.
  Qed.

  (** ** topk *)
  Lemma slot_row (V : valid c) G k o phi j b e : span_records G -> (0 < k)%nat -> (j < k)%nat ->
    (forall b, (b < batch)%nat -> topk_node (fst (G b)) k NEG (offsets phi) (o b)) ->
    (b < batch)%nat -> nth 1 e 0%nat = b ->
    q_slot G k o j e = cnt e (dpick (fst (G b)) k (o b) (snd (G b)) j).
  Proof.
    intros HG Hk Hj Ho Hb He. unfold q_slot. rewrite (@RSum_only _ _ _ b).
    - destruct (HG b Hb) as [Ht _]. rewrite (@kgrad_counts _ k NEG (offsets phi) (o b) Ht Hk) by now apply Ho.
      rewrite <- (@RSum_delta k (fun i => cnt e (dpick (fst (G b)) k (o b) (snd (G b)) i)) j Hj).
      apply (Sum_ext R_csr). intro i. destruct (j =? i)%nat; ring.
    - apply seq_NoDup.
    - apply in_seq. lia.
    - intros b' Hb' Hne. apply in_seq in Hb'. assert (Hlt : (b' < batch)%nat) by lia. destruct (HG b' Hlt) as [Ht E].
      rewrite (@kgrad_counts _ k NEG (offsets phi) (o b') Ht Hk) by now apply Ho. apply (Sum_zero R_csr). intros i Hi. apply in_seq in Hi.
      rewrite cnt_names; [cbn [R_csr k0]; ring|]. intro Hin. apply Hne.
      destruct (@dpick_spec _ k NEG (offsets phi) (o b') Ht Hk (snd (G b')) (Ho b' Hlt)) as [_ (rest & HP)].
      assert (Hd : In (dpick (fst (G b')) k (o b') (snd (G b')) i) (expand (kt k (span_graph b')))).
      { rewrite <- E. eapply Permutation_in; [symmetry; exact HP|]. apply in_or_app. left. apply in_map, in_seq. lia. }
      destruct (kt_nleaf k (span_row_wf V Hlt) _ Hd) as (m0 & H0 & _ & Hi').
      destruct (span_row_names V Hlt m0 e H0 (Hi' _ Hin)) as [Hn _]. congruence.
  Qed.
  Lemma span_row_leaves (V : valid c) b (Hb : (b < batch)%nat) m : In m (expand (ft (cs_fam V Hb))) -> (nleaf m <= 3 * len b)%nat.
  Proof.
    intro Hm. destruct (span_row_bnd V Hb) as [Hd _]. pose proof (tdeg_ok _ m Hm). pose proof (nleaf_le m). lia.
  Qed.
  (** slice j of [paths] marks the constituents of the j-th best parse, and the
      best parses are those behind the values that [kmax] returns *)
  Theorem C76_topk_spans G k phi o B : valid c -> (0 < k)%nat -> span_records G ->
    (forall b, (b < batch)%nat -> topk_node (fst (G b)) k NEG (offsets phi) (o b)) ->
    forall b l, row_ok c b -> span_small b B phi -> let S := spec_of c b in Enumerates (ok S) l ->
    exists ss : list ptree, k_best S l phi k (NEG + INR (kdegree c b) * B) (at_row [] (q_kmax c k phi) b) ss /\
      forall j p w i x, nth_error ss j = Some p ->
        span_chart (q_slot G k o j) b w i x = if has_span p i (w + 2) x then 1 else 0.
  Proof.
    intros V Hk HG Ho b l Hrow [HB HR] S Hl. pose proof (proj1 Hrow) as Hb. cbn [batch_of] in Hb. destruct (HG b Hb) as [Ht E].
    pose proof (@span_row_len V b Hb) as HLN. pose proof (@HB0 phi B HB) as HBp.
    set (F := cs_fam V Hb) in *.
    set (r := snd (G b)) in *. set (g := fst (G b)) in *.
    set (P := map (dpick g k (o b) r) (seq 0 k)).
    destruct (@dpick_spec g k NEG (offsets phi) (o b) Ht Hk r (Ho b Hb)) as [HV (rest & HP)]. fold P in HV, HP.
    rewrite E in HP. rewrite (fwd_unf Ht), E in HV.
    assert (HPl : length P = k) by (unfold P; now rewrite map_length, seq_length).
    assert (HD1 : (1 <= 3 * len b)%nat) by lia.
    assert (HDB : INR (3 * len b) * B >= B).
    { apply le_INR in HD1. change (INR 1) with 1 in HD1. nra. }
    assert (HV' : map (score (offsets phi) NEG) P = topk k (map (score (offsets phi) NEG) (expand (kt k (ft F))))).
    { rewrite HV. apply kmax_value; auto; [apply (ft_wf F)|apply NEG_neg|]. intro e. pose proof (@offsets_bound phi B HB e) as H.
      apply Rabs_le_inv in H. unfold NEG. lra. }
    destruct (@best_structures F k (offsets phi) B (3 * len b) Hk (@offsets_bound phi B HB) (@span_row_leaves V b Hb) HD1 HR P rest HPl HP HV')
      as (ss & low & H1 & H2 & H3 & H4 & H5 & H6 & H7).
    assert (Esc : forall q, sc (fparts F) (offsets phi) q = sc (parse_parts NT b) phi q) by (intro q; apply sc_offsets).
    assert (Hll : Permutation (flist F) l) by exact (Enumerates_perm (fenum F) Hl).
    exists ss. split.
    - destruct (@C16_kmax c k phi V Hk) as (v & Ev & Lv & Hv).
      assert (HKB : kbound c b B phi).
      { split; [exact HB|]. cbn [kdegree degree]. eapply Rle_lt_trans; [|exact HR].
        assert (Hle : (Nat.max 1 (2 * len b) <= 3 * len b)%nat) by lia. apply le_INR in Hle.
        assert (INR (Nat.max 1 (2 * len b)) * B <= INR (3 * len b) * B) by (apply Rmult_le_compat_r; auto). lra. }
      destruct (Hv b l B Hrow HKB Hl) as (Lb & ss' & K). rewrite Ev. cbn [at_row].
      assert (Hsame : map (sc (parse_parts NT b) phi) ss = map (sc (parse_parts NT b) phi) ss').
      { transitivity (topk k (map (sc (parse_parts NT b) phi) l)); [|symmetry]; apply best_list; try apply Hl.
        - exact H3.
        - intros q Hq. eapply Permutation_in; [exact Hll|]. auto.
        - etransitivity; [exact H2|]. f_equal. now apply Permutation_length.
        - rewrite <- (map_ext _ _ Esc). pose proof (topk_desc k (map (score (offsets phi) NEG) (expand (kt k (ft F))))) as Hd.
          rewrite <- HV', H1 in Hd. now apply desc_app_l in Hd.
        - intros s s' Hs Hns Hs'. rewrite <- !Esc. apply H5; auto. eapply Permutation_in; [symmetry; exact Hll|exact Hs].
        - apply (kb_distinct K).
        - intros q Hq. apply Hl. now apply (kb_ok K).
        - apply (kb_len K).
        - destruct (kb_values K) as (junk & Ej & _). pose proof (kb_sorted K) as Hs. rewrite Ej in Hs.
          apply desc_app_l with junk. now apply ge_desc.
        - intros s s' Hs. apply (kb_best K). now apply Hl. }
      destruct K as [K1 K2 K3 K4 K5 K6]. split; auto.
      + etransitivity; [exact H2|]. f_equal. now apply Permutation_length.
      + intros q Hq. apply (fenum F). auto.
      + destruct K4 as (junk & Ej & Hj). exists junk. split; [|exact Hj]. rewrite Ej. f_equal. symmetry. exact Hsame.
      + intros s s' Hs Hns Hs'. cbn [prt S spec_of]. change (sc (parse_parts NT b) phi s <= sc (parse_parts NT b) phi s'). rewrite <- !Esc. apply H5; auto. now apply (fenum F).
    - intros j p w i x Hj.
      assert (Hjl : (j < length ss)%nat) by (apply nth_error_Some; intro Hx; discriminate (eq_trans (eq_sym Hj) Hx)).
      assert (Hjk : (j < k)%nat) by (rewrite H2 in Hjl; lia).
      assert (Hp : is_parse NT T (len b) p) by (apply (fenum F), H4; exact (nth_error_In _ _ Hj)).
      unfold span_chart. destruct (Nat.ltb_spec i (N - w - 1)) as [Hi|Hi].
      + rewrite (@slot_row V G k o phi j b _ HG Hk Hjk Ho Hb) by reflexivity.
        assert (Hj' : (j < Nat.min k (length (flist F)))%nat) by (rewrite <- H2; exact Hjl).
        rewrite <- (uses_span NT b p w i x). rewrite <- (nth_error_nth _ _ p Hj). etransitivity; [|exact (H7 j _ p Hj')]. f_equal.
        unfold P. rewrite (nth_indep _ [] (dpick g k (o b) r 0%nat)) by (rewrite map_length, seq_length; lia).
        rewrite map_nth, seq_nth by lia. reflexivity.
      + destruct (has_span p i (w + 2) x) eqn:Es; auto. apply (has_span_inside _ _ _ Hp) in Es. lia.
  Qed.

  (** ** Number of constituents *)
  (** all entries of the chart *)
  Definition chart_total (f : nat -> nat -> nat -> R) : R :=
    RSum (fun w => RSum (fun i => RSum (fun x => f w i x) (seq 0 NT)) (seq 0 N)) (seq 0 N).
  Lemma span_parts_length b p : forall i, (length (span_parts b i p) + 1 = psize p)%nat.
  Proof.
    induction p as [t|x l IHl r IHr]; intro i; simpl; auto. rewrite app_length. specialize (IHl i). specialize (IHr (i + psize l)%nat). lia.
  Qed.
  Lemma constituent_label p i n x : pbounded NT T p -> constituent p i n x -> (x < NT)%nat.
  Proof. intros Hp H. induction H; simpl in Hp; tauto. Qed.
  Lemma chart_count n p : is_parse NT T n p -> (n <= N)%nat ->
    chart_total (fun w i x => if has_span p i (w + 2) x then 1 else 0) = INR n - 1.
  Proof.
    intros (Hs & Hp & _) Hn. subst n.
    pose (ids := flat_map (fun w => flat_map (fun i => map (fun x => [3; 0; w; i; x]%nat) (seq 0 NT)) (seq 0 N)) (seq 0 N)).
    transitivity (RSum (fun e => 1 * INR (count_occ (list_eq_dec Nat.eq_dec) (span_parts 0 0 p) e)) ids).
    - unfold ids, chart_total. rewrite Sum_flat_map. apply (Sum_ext R_csr). intro w. rewrite Sum_flat_map.
      apply (Sum_ext R_csr). intro i. rewrite RSum_map. apply (Sum_ext R_csr). intro x.
      rewrite <- (uses_span NT 0 p w i x). unfold uses, marked_parts. rewrite count_occ_app.
      rewrite (proj1 (count_occ_not_In _ (parse_parts NT 0 p) [3; 0; w; i; x]%nat))
        by (intro H; apply parse_parts_low in H; simpl in H; lia). cbn [Nat.add]. ring.
    - rewrite (@score_event (fun _ => 1)).
      + rewrite RSum_const. pose proof (span_parts_length 0 p 0) as H. rewrite <- H, plus_INR. simpl INR. ring.
      + unfold ids. apply NoDup_flat_map; [apply seq_NoDup| |].
        * intros w _. apply NoDup_flat_map; [apply seq_NoDup| |].
          -- intros i _. apply NoDup_map_inj; [|apply seq_NoDup]. intros ? ? _ _ H. now injection H.
          -- intros i i' e _ _ H1 H2. apply in_map_iff in H1 as (x & <- & _). apply in_map_iff in H2 as (x' & H & _). now injection H.
        * intros w w' e _ _ H1 H2. apply in_flat_map in H1 as (i & _ & H1). apply in_flat_map in H2 as (i' & _ & H2).
          apply in_map_iff in H1 as (x & <- & _). apply in_map_iff in H2 as (x' & H & _). now injection H.
      + intros e He. apply span_parts_in in He as (j & m & y & He & ->). pose proof (constituent_range He).
        pose proof (constituent_label Hp He). unfold ids. apply in_flat_map. exists (m - 2)%nat. split; [apply in_seq; lia|].
        apply in_flat_map. exists j. split; [apply in_seq; lia|]. apply in_map_iff. exists y. split; [reflexivity|apply in_seq; lia].
  Qed.
  Lemma chart_total_ext f g : (forall w i x, f w i x = g w i x) -> chart_total f = chart_total g.
  Proof. intro H. unfold chart_total. apply (Sum_ext R_csr); intro w. apply (Sum_ext R_csr); intro i. apply (Sum_ext R_csr); intro x. apply H. Qed.
  (** the chart of the best parse has one entry per constituent: len - 1 *)
  Theorem C76_argmax_total G phi o B : valid c -> span_records G ->
    (forall b, (b < batch)%nat -> argmax_node (fst (G b)) NEG (offsets phi) (o b)) ->
    forall b, row_ok c b -> span_small b B phi -> chart_total (span_chart (q_pick G o) b) = INR (len b) - 1.
  Proof.
    intros V HG Ho b Hrow HS. destruct (@C76_argmax_spans G phi o B V HG Ho b Hrow HS) as (p & Hp & _ & Hc & _).
    rewrite (chart_total_ext _ _ Hc). apply chart_count; auto. now apply span_row_len; [|apply Hrow].
  Qed.
  Lemma RSum_err A (f g : A -> R) l d : (forall a, In a l -> Rabs (f a - g a) <= d) -> Rabs (RSum f l - RSum g l) <= INR (length l) * d.
  Proof.
    induction l as [|a l IH]; intro H; [unfold Sum; simpl; rewrite Rminus_0_r, Rabs_R0; lra|].
    rewrite !RSum_cons. cbn [length]. rewrite S_INR.
    replace (f a + RSum f l - (g a + RSum g l)) with ((f a - g a) + (RSum f l - RSum g l)) by ring.
    eapply Rle_trans; [apply Rabs_triang|]. pose proof (H a (or_introl eq_refl)). assert (Rabs (RSum f l - RSum g l) <= INR (length l) * d) by (apply IH; intros; apply H; now right). lra.
  Qed.
  (** the span marginals add up to the number of constituents of a parse *)
  Theorem C76_span_total G phi B : valid c -> span_records G -> 0 <= B -> (forall e, Rabs (phi e) <= B) ->
    forall b, row_ok c b ->
    Rabs (chart_total (span_chart (q_soft G phi) b) - (INR (len b) - 1)) <=
      INR N * (INR N * (INR NT * (2 * INR (3 * len b) * span_leak b B))).
  Proof.
    intros V HG HB0 HB b Hrow. pose proof (proj1 Hrow) as Hb. cbn [batch_of] in Hb.
    set (l := parses NT T (len b)). pose proof (parses_enum NT T (len b)) as Hl. fold l in Hl.
    assert (Hne : l <> []) by exact (@span_row_nonempty' V b Hb Hrow).
    replace (INR (len b) - 1) with (chart_total (fun w i x => RSum (fun p => prob (parse_parts NT b) l phi p * (if has_span p i (w + 2) x then 1 else 0)) l)).
    - unfold chart_total. set (d := 2 * INR (3 * len b) * span_leak b B).
      replace (INR N) with (INR (length (seq 0 N))) by now rewrite seq_length.
      replace (INR NT) with (INR (length (seq 0 NT))) by now rewrite seq_length.
      apply RSum_err. intros w _. apply RSum_err. intros i _. apply RSum_err. intros x _. now apply C76_span_marginals.
    - unfold chart_total.
      transitivity (RSum (fun p => prob (parse_parts NT b) l phi p * (INR (len b) - 1)) l).
      + transitivity (RSum (fun p => prob (parse_parts NT b) l phi p * chart_total (fun w i x => if has_span p i (w + 2) x then 1 else 0)) l).
        * unfold chart_total.
          rewrite (@Sum_ext_in R_csr _ _ (fun w => RSum (fun p => prob (parse_parts NT b) l phi p * RSum (fun i => RSum (fun x => if has_span p i (w + 2) x then 1 else 0) (seq 0 NT)) (seq 0 N)) l)).
          2:{ intros w _. rewrite (@Sum_ext_in R_csr _ _ (fun i => RSum (fun p => prob (parse_parts NT b) l phi p * RSum (fun x => if has_span p i (w + 2) x then 1 else 0) (seq 0 NT)) l)).
              2:{ intros i _. rewrite Sum_comm. apply (Sum_ext R_csr). intro p. now rewrite (Sum_scale_l R_csr). }
              rewrite Sum_comm. apply (Sum_ext R_csr). intro p. now rewrite (Sum_scale_l R_csr). }
          rewrite Sum_comm. apply (Sum_ext R_csr). intro p. now rewrite (Sum_scale_l R_csr).
        * apply (Sum_ext_in R_csr). intros p Hp. f_equal. apply chart_count; [now apply Hl|]. now apply span_row_len; [|apply Hrow].
      + rewrite (Sum_scale_r R_csr). rewrite (prob_sum (parse_parts NT b) phi Hne). cbn [R_csr kmul]. ring.
  Qed.

  (** ** The hypotheses are met *)
  Theorem span_records_exist : valid c -> exists G, span_records G.
  Proof.
    intro V. assert (H : forall n, (n <= batch)%nat -> exists G : nat -> dag * nat, forall b, (b < n)%nat ->
      topo (fst (G b)) /\ unf (fst (G b)) (snd (G b)) = span_graph b).
    { induction n as [|n IH]; intro Hn; [exists (fun _ => ([], 0%nat)); lia|].
      destruct IH as [G HG]; [lia|]. destruct (@record_exists (span_graph n)) with (g := @nil node) as (h & r & T' & _ & E).
      { apply span_row_wf; auto. }
      { intro k. unfold ndof. destruct k; exact I. }
      exists (fun b => if (b =? n)%nat then (h, r) else G b). intros b Hb. destruct (b =? n)%nat eqn:Eb.
      - apply Nat.eqb_eq in Eb. subst. simpl in T', E. auto.
      - apply Nat.eqb_neq in Eb. apply HG. lia. }
    now apply H.
  Qed.
  Theorem span_answers_exist G k phi : span_records G -> (0 < k)%nat ->
    (exists o, forall b, (b < batch)%nat -> argmax_node (fst (G b)) NEG (offsets phi) (o b)) /\
    (exists o, forall b, (b < batch)%nat -> topk_node (fst (G b)) k NEG (offsets phi) (o b)).
  Proof.
    intros HG Hk.
    assert (Hall : forall A (P : nat -> A -> Prop) (d : A), (forall b, (b < batch)%nat -> exists a, P b a) -> exists o, forall b, (b < batch)%nat -> P b (o b)).
    { intros A P d H. assert (K : forall n, (n <= batch)%nat -> exists o, forall b, (b < n)%nat -> P b (o b)).
      { induction n as [|n IH]; intro Hn; [exists (fun _ => d); intros; lia|]. destruct IH as (o & Ho); [lia|].
        destruct (H n Hn) as (a & Ha). exists (fun b => if (b =? n)%nat then a else o b). intros b Hb.
        destruct (Nat.eqb_spec b n) as [->|]; auto. apply Ho. lia. }
      now apply K. }
    split; [apply (Hall _ (fun b => argmax_node (fst (G b)) NEG (offsets phi)) (fun _ => 0%nat))|apply (Hall _ (fun b => topk_node (fst (G b)) k NEG (offsets phi)) (fun _ _ => 0%nat))]; intros b Hb; destruct (HG b Hb) as [Ht _].
    - now apply argmax_node_exists.
    - now apply topk_node_exists.
  Qed.
End Cfg.
Print Assumptions C76_span_marginals.
Print Assumptions C76_span_padding.
Print Assumptions C76_span_gradient.
Print Assumptions C76_same_values.
Print Assumptions C76_argmax_spans.
Print Assumptions C76_argmax_total.
Print Assumptions C76_span_total.
Print Assumptions C76_topk_spans.

(** the example call: two sentences, of 4 and 3 words; recorded graphs and answers
    of torch.max and torch.topk exist, and the potentials are small enough *)
Example ex_spans : valid ex_cfg /\ (forall b, (b < 2)%nat -> row_ok ex_cfg b /\ span_small 4 (Some [4; 3])%nat b 3 ex_phi) /\
  exists G, span_records 2 4 2 3 (Some [4; 3])%nat G /\
    (exists o, forall b, (b < 2)%nat -> argmax_node (fst (G b)) NEG (offsets ex_phi) (o b)) /\
    (exists o, forall b, (b < 2)%nat -> topk_node (fst (G b)) 3 NEG (offsets ex_phi) (o b)).
Proof.
  pose proof ex_hypotheses as H. rewrite Forall_forall in H. destruct (H ex_cfg) as (V & _ & Hb & _); [simpl; auto|].
  split; [exact V|]. split.
  - intros b Hlt. split; [now apply Hb|]. split; [apply ex_phi_abs|].
    revert b Hlt. apply ex_row; cbn; lra.
  - destruct (span_records_exist V) as (G & HG). exists G. split; [exact HG|]. apply (@span_answers_exist 2 4 2 3 (Some [4; 3])%nat G 3 ex_phi HG). lia.
Qed.
(** two parses of the first sentence, ((w0 w1) (w2 w3)) and (w0 ((w1 w2) w3)): the
    chart tells them apart *)
Definition ex_p1 : ptree := PN 0 (PN 1 (PT 0) (PT 1)) (PN 0 (PT 2) (PT 0)).
(** example: a parse *)
Definition ex_p2 : ptree := PN 0 (PT 0) (PN 1 (PN 0 (PT 1) (PT 2)) (PT 0)).
Example ex_span_charts : is_parse 2 3 4 ex_p1 /\ is_parse 2 3 4 ex_p2 /\
  (has_span ex_p1 0 2 1 = true /\ has_span ex_p2 0 2 1 = false) /\
  (has_span ex_p1 1 2 0 = false /\ has_span ex_p2 1 2 0 = true) /\
  (has_span ex_p1 0 4 0 = true /\ has_span ex_p2 0 4 0 = true) /\
  constituent ex_p2 1 3 1 /\ ~ constituent ex_p1 1 3 1.
Proof.
  repeat split; try (simpl; lia).
  - now apply has_span_spec.
  - intro H. apply has_span_spec in H. discriminate.
Qed.
