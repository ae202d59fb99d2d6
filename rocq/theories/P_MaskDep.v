(** * Marginals and samples of dependency trees and segmentations with forbidden parts (C81).

    The charts of DepTree contain sums with one argument: the span from a word to its
    neighbour. If that arc is forbidden, the sum is -inf and autograd returns NaN.
    Forbidding any other arcs is harmless. The charts of SemiMarkov have no such sums. *)
From Coq Require Import ZArith.
From Verif Require Import Base Ops Terms Semirings Poly Chain LinearChain SemiMarkov CkyCrf Cky DepSpec DepTree
  Batch Family Approx Grad Sample Dist Purity Degree Shape Api Query Dag DagLaw P_Real P_Sample Mask P_Mask Special P_Special MaskGrad P_MaskGrad P_MaskSample MaskDep.
Set Implicit Arguments.
Local Open Scope R_scope.

(** spec: no label is left for the pair (i, j): word i as head of word j, or for i = j
    the root as head (distributions.py:367-396, root scores on the diagonal) *)
Definition forbidden (lab : option nat) (phi : list nat -> ext) (b i j : nat) : Prop :=
  match lab with
  | None => phi [b; i; j] = None
  | Some L => forall l, (l < L)%nat -> phi [b; i; j; l] = None
  end.
(** spec: the pairs that must not be forbidden: neighbours and the root arc of the first
    word; with labels, all pairs *)
Definition critical (lab : option nat) (i j : nat) : Prop :=
  match lab with
  | None => (j = i + 1 \/ i = j + 1 \/ (i = 0 /\ j = 0))%nat
  | Some _ => True
  end.
(** spec: row b of length len has a forbidden critical pair *)
Definition blocked (lab : option nat) (phi : list nat -> ext) (b len : nat) : Prop :=
  exists i j, (i < len)%nat /\ (j < len)%nat /\ critical lab i j /\ forbidden lab phi b i j.

Lemma forbidden_dec lab phi b i j : forbidden lab phi b i j \/ ~ forbidden lab phi b i j.
Proof.
  destruct lab as [L|]; cbn [forbidden].
  - induction L as [|L IH]; [left; lia|]. destruct IH as [IH|IH].
    + destruct (phi [b; i; j; L]) as [x|] eqn:E.
      * right. intro H. rewrite H in E by lia. discriminate.
      * left. intros l Hl. destruct (Nat.eq_dec l L) as [->|]; [exact E|apply IH; lia].
    + right. intro H. apply IH. intros l Hl. apply H. lia.
  - destruct (phi [b; i; j]); [right; discriminate|now left].
Qed.
Lemma not_forbidden lab phi b i j : lab <> Some 0%nat -> ~ forbidden lab phi b i j ->
  match lab with None => phi [b; i; j] <> None | Some L => exists l, (l < L)%nat /\ phi [b; i; j; l] <> None end.
Proof.
  destruct lab as [L|]; cbn [forbidden]; [|auto]. intros _ H.
  assert (G : forall m, (m <= L)%nat -> (exists l, (l < m)%nat /\ phi [b; i; j; l] <> None) \/ forall l, (l < m)%nat -> phi [b; i; j; l] = None).
  { induction m as [|m IH]; intro Hm; [right; lia|]. destruct IH as [(l & Hl & E)|IH]; [lia|left; exists l; split; [lia|exact E]|].
    destruct (phi [b; i; j; m]) as [x|] eqn:E.
    - left. exists m. split; [lia|]. rewrite E. discriminate.
    - right. intros l Hl. destruct (Nat.eq_dec l m) as [->|]; [exact E|apply IH; lia]. }
  destruct (G L (le_n _)) as [G'|G']; [exact G'|destruct (H G')].
Qed.

Section Dep.
  Variables (lab : option nat) (phi : list nat -> ext) (b len : nat).
  Hypothesis Hlab : lab <> Some 0%nat.
  Notation arc := (dp_arc tops TZero lab TLeaf b len).
  (** the entry read for an arc *)
  Notation hd h c := (if (h =? 0)%nat then (c - 1)%nat else (h - 1)%nat).
  Lemma arc_in h c : (h <= len)%nat -> (1 <= c <= len)%nat -> h <> c ->
    arc h c = match lab with
              | None => TLeaf [b; hd h c; (c - 1)%nat]
              | Some L => TSum (map (fun l => TLeaf [b; hd h c; (c - 1)%nat; l]) (seq 0 L))
              end.
  Proof.
    intros H1 H2 H3. unfold dp_arc, dp_cell, dp_idx.
    replace (len <? h)%nat with false by (symmetry; apply Nat.ltb_ge; lia).
    replace (len <? c)%nat with false by (symmetry; apply Nat.ltb_ge; lia).
    replace (c =? 0)%nat with false by (symmetry; apply Nat.eqb_neq; lia).
    replace (h =? c)%nat with false by (symmetry; apply Nat.eqb_neq; lia). cbn [orb]. destruct lab; reflexivity.
  Qed.
  Lemma arc_out h c : (len < h \/ len < c \/ c = 0 \/ h = c)%nat ->
    arc h c = match lab with None => TZero | Some L => TSum (map (fun _ => TZero) (seq 0 L)) end.
  Proof.
    intro H.
    assert (E : forall l, dp_cell tops TZero TLeaf b len h c l = TZero).
    { intro l. unfold dp_cell. cbn [szero tops]. destruct (len <? h)%nat eqn:E1; [reflexivity|]. destruct (len <? c)%nat eqn:E2; [reflexivity|].
      destruct (c =? 0)%nat eqn:E3; [reflexivity|]. destruct (h =? c)%nat eqn:E4; [reflexivity|].
      apply Nat.ltb_ge in E1. apply Nat.ltb_ge in E2. apply Nat.eqb_neq in E3. apply Nat.eqb_neq in E4. lia. }
    unfold dp_arc. destruct lab as [L|]; [|apply E]. cbn [ssum tops]. f_equal. apply map_ext. intro l. apply E.
  Qed.
  Lemma live_leaves L (f : nat -> term) : (forall l, all_sums (live_sum phi NEG) (f l)) ->
    (exists l, (l < L)%nat /\ leval (xlog_ops NEG) phi (f l) <> None) -> live phi NEG (TSum (map f (seq 0 L))).
  Proof.
    intros Hf (l & Hl & H).
    assert (G : live_sum phi NEG (map f (seq 0 L))).
    { apply live_sum_l. exists (f l). split; [|exact H]. apply in_map. apply in_seq. lia. }
    split; [exact G|]. cbn [all_sums]. split; [exact G|]. apply fold_and. intros t Ht. apply in_map_iff in Ht as (l' & <- & _). apply Hf.
  Qed.
  Lemma arc_live h c : ((h <= len)%nat -> (1 <= c <= len)%nat -> h <> c -> ~ forbidden lab phi b (hd h c) (c - 1)) -> live phi NEG (arc h c).
  Proof.
    intro H. assert (D : ((h <= len)%nat /\ (1 <= c <= len)%nat /\ h <> c) \/ (len < h \/ len < c \/ c = 0 \/ h = c)%nat) by lia.
    destruct D as [(D1 & D2 & D3)|D].
    - rewrite arc_in by auto. specialize (H D1 D2 D3). apply not_forbidden in H; [|exact Hlab]. destruct lab as [L|].
      + apply live_leaves; [intro; exact I|exact H].
      + split; [exact H|exact I].
    - rewrite arc_out by auto. destruct lab as [L|]; [|split; [discriminate|exact I]].
      apply live_leaves; [intro; exact I|]. exists 0%nat. split; [destruct L; [congruence|lia]|discriminate].
  Qed.
  Lemma arc_sums h c : ((h <= len)%nat -> (1 <= c <= len)%nat -> h <> c -> lab <> None -> ~ forbidden lab phi b (hd h c) (c - 1)) -> all_sums (live_sum phi NEG) (arc h c).
  Proof.
    intro H. destruct lab as [L|] eqn:El.
    - rewrite <- El in *. apply arc_live. intros. apply H; auto. rewrite El. discriminate.
    - unfold dp_arc, dp_cell. destruct (_ || _); [exact I|]. destruct (_ || _); exact I.
  Qed.
  Lemma forbidden_dead h c : (h <= len)%nat -> (1 <= c <= len)%nat -> h <> c -> forbidden lab phi b (hd h c) (c - 1) ->
    leval (xlog_ops NEG) phi (arc h c) = None.
  Proof.
    intros H1 H2 H3 H. rewrite arc_in by auto. destruct lab as [L|]; [|exact H]. cbn [leval ssum xlog_ops]. unfold xlse.
    match goal with |- context [forallb is_none ?l] => replace (forallb is_none l) with true; [reflexivity|] end.
    symmetry. apply forallb_forall. intros v Hv. apply in_map_iff in Hv as (t & <- & Ht). apply in_map_iff in Ht as (l & <- & Hl). apply in_seq in Hl.
    cbn [leval]. rewrite H by lia. reflexivity.
  Qed.
  Lemma arc_reads h c : (h <= len)%nat -> (1 <= c <= len)%nat -> h <> c -> forall e,
    match lab with None => e = [b; hd h c; (c - 1)%nat] | Some L => exists l, (l < L)%nat /\ e = [b; hd h c; (c - 1)%nat; l] end -> reads e (arc h c).
  Proof.
    intros H1 H2 H3 e He. rewrite arc_in by auto. destruct lab as [L|]; [|now rewrite He]. destruct He as (l & Hl & ->).
    cbn [reads]. apply fold_or. exists (TLeaf [b; hd h c; (c - 1)%nat; l]). split; [|reflexivity]. apply in_map_iff. exists l. split; [reflexivity|apply in_seq; lia].
  Qed.

  Variables (mr : bool) (n : nat).
  Hypothesis Hn : mr = false -> (1 <= n)%nat.
  Hypothesis Hlen : (len <= n)%nat.
  (** nothing critical is forbidden: no sum is -inf *)
  Theorem dep_live : ~ blocked lab phi b len ->
    (forall t, In t (dep_values mr lab n b len) -> all_sums (live_sum phi NEG) t) /\ live phi NEG (dp_one tops mr lab n TZero TLeaf b len).
  Proof.
    intro HB.
    assert (Hc : forall i j, (i < len)%nat -> (j < len)%nat -> critical lab i j -> ~ forbidden lab phi b i j).
    { intros i j Hi Hj Hcr Hf. apply HB. exists i, j. auto. }
    assert (Qsum : forall l t, In t l -> live phi NEG t -> (forall u, In u l -> all_sums (live_sum phi NEG) u) -> live phi NEG (TSum l)).
    { intros l t Ht [H _] Hl. assert (G : live_sum phi NEG l) by (apply live_sum_l; eauto).
      split; [exact G|]. cbn [all_sums]. split; [exact G|]. now apply fold_and. }
    assert (Qmul : forall x y, live phi NEG x -> live phi NEG y -> live phi NEG (TMul x y)).
    { intros x y Hx Hy. apply (@resp_mul _ _ _ (live_resp phi NEG) x x y y Hx Hy). }
    assert (Parc : forall h c, (h <= n)%nat -> (c <= n)%nat -> all_sums (live_sum phi NEG) (arc h c)).
    { intros h c _ _. apply arc_sums. intros H1 H2 H3 H4. apply Hc; [destruct (Nat.eqb_spec h 0); lia|lia|]. destruct lab; [exact I|congruence]. }
    assert (Qarc : forall h c, (c = h + 1 \/ (h = c + 1))%nat -> live phi NEG (arc h c)).
    { intros h c Hhc. apply arc_live. intros H1 H2 H3. apply Hc; [destruct (Nat.eqb_spec h 0); lia|lia|].
      destruct lab; [exact I|]. cbn [critical]. destruct (Nat.eqb_spec h 0); lia. }
    assert (HW : (mr = false -> live phi NEG (arc 0 1))) by (intro; apply Qarc; lia).
    split.
    - refine (@dep_values_P mr lab n b len Hn Hlen (live phi NEG) (all_sums (live_sum phi NEG)) _ _ _ Qmul Qsum Parc _ _ HW).
      + intros t H. apply H.
      + split; [discriminate|exact I].
      + intros x y Hx Hy. split; auto.
      + intros i _ _. apply Qarc. lia.
      + intros i _ _. apply Qarc. lia.
    - refine (@dep_one_Q mr lab n b len Hn Hlen (live phi NEG) (all_sums (live_sum phi NEG)) _ _ _ Qmul Qsum Parc _ _ HW).
      + intros t H. apply H.
      + split; [discriminate|exact I].
      + intros x y Hx Hy. split; auto.
      + intros i _ _. apply Qarc. lia.
      + intros i _ _. apply Qarc. lia.
  Qed.
  (** a forbidden critical pair: a recorded sum is -inf and reads its entries *)
  Theorem dep_dead i j : (i < len)%nat -> (j < len)%nat -> critical lab i j -> forbidden lab phi b i j ->
    exists l, In (TSum l) (dep_values mr lab n b len) /\ dead_sum phi NEG l /\
      forall e, match lab with None => e = [b; i; j] | Some L => exists a, (a < L)%nat /\ e = [b; i; j; a] end -> reads e (TSum l).
  Proof.
    intros Hi Hj Hcr Hf.
    set (h := if (i =? j)%nat then 0%nat else (i + 1)%nat). set (c := (j + 1)%nat).
    assert (Eh : hd h c = i) by (unfold h, c; destruct (Nat.eqb_spec i j); [cbn [Nat.eqb]; lia|destruct (Nat.eqb_spec (i + 1) 0); lia]).
    assert (Ec : (c - 1)%nat = j) by (unfold c; lia).
    assert (H1 : (h <= len)%nat) by (unfold h; destruct (i =? j)%nat; lia).
    assert (H2 : (1 <= c <= len)%nat) by (unfold c; lia).
    assert (H3 : h <> c) by (unfold h, c; destruct (Nat.eqb_spec i j); lia).
    assert (HD : leval (xlog_ops NEG) phi (arc h c) = None) by (apply forbidden_dead; auto; rewrite Eh, Ec; exact Hf).
    assert (HR : forall e, match lab with None => e = [b; i; j] | Some L => exists a, (a < L)%nat /\ e = [b; i; j; a] end -> reads e (arc h c)).
    { intros e He. apply arc_reads; auto. rewrite Eh, Ec. exact He. }
    assert (HS : ((if mr then 0 else 1) <= 1)%nat) by (destruct mr; lia).
    assert (D1 : forall x y, dead_sum phi NEG [TMul (TMul x (arc h c)) y]).
    { intros x y. unfold dead_sum. cbn [leval ssum smul xlog_ops map]. rewrite HD.
      destruct (leval (xlog_ops NEG) phi x); destruct (leval (xlog_ops NEG) phi y); reflexivity. }
    assert (D2 : forall x y, dead_sum phi NEG [TMul x (TMul y (arc h c))]).
    { intros x y. unfold dead_sum. cbn [leval ssum smul xlog_ops map]. rewrite HD.
      destruct (leval (xlog_ops NEG) phi x); destruct (leval (xlog_ops NEG) phi y); reflexivity. }
    assert (R1 : forall x y e, reads e (arc h c) -> reads e (TSum [TMul (TMul x (arc h c)) y])) by (intros; cbn [reads map fold_right]; tauto).
    assert (R2 : forall x y e, reads e (arc h c) -> reads e (TSum [TMul x (TMul y (arc h c))])) by (intros; cbn [reads map fold_right]; tauto).
    destruct lab as [L|] eqn:El.
    - rewrite <- El in *. assert (E := arc_in H1 H2 H3). rewrite El in E at 2.
      eexists. rewrite <- E. split; [|split].
      + apply in_dep_values; auto. left. split; [rewrite El; discriminate|]. exists h, c. repeat split; try lia. 
      + unfold dead_sum. rewrite <- E. exact HD.
      + intros e He. apply HR. exact He.
    - rewrite <- El in *. rewrite El in Hcr. cbn [critical] in Hcr. destruct Hcr as [E|[E|[E1 E2]]].
      + destruct (@dep_short_r mr lab n b len Hn Hlen (i + 1)%nat) as (x & y & Ex); [lia|lia|].
        assert (Eq : h = (i + 1)%nat /\ c = (i + 1 + 1)%nat) by (unfold h, c; destruct (Nat.eqb_spec i j); lia). destruct Eq as [Eq1 Eq2].
        rewrite <- Eq2, <- Eq1 in Ex. eexists. rewrite <- Ex. split; [|split].
        * apply in_dep_values; auto. right; left. exists h, 1%nat. repeat split; lia.
        * apply D1.
        * intros e He. rewrite Ex. apply R1, HR. exact He.
      + destruct (@dep_short_l mr lab n b len Hn Hlen (j + 1)%nat) as (x & y & Ex); [lia|lia|].
        assert (Eq : c = (j + 1)%nat /\ h = (j + 1 + 1)%nat) by (unfold h, c; destruct (Nat.eqb_spec i j); lia). destruct Eq as [Eq1 Eq2].
        rewrite <- Eq2, <- Eq1 in Ex. eexists. rewrite <- Ex. split; [|split].
        * apply in_dep_values; auto. right; right; left. exists c, 1%nat. repeat split; lia.
        * apply D2.
        * intros e He. rewrite Ex. apply R2, HR. exact He.
      + assert (Eq : h = 0%nat /\ c = 1%nat) by (unfold h, c; destruct (Nat.eqb_spec i j); lia). clearbody h c. destruct Eq as [-> ->].
        destruct mr eqn:Em.
        * destruct (@dep_short_r true lab n b len Hn Hlen 0%nat) as (x & y & Ex); [lia|lia|]. change (0 + 1)%nat with 1%nat in Ex.
          eexists. rewrite <- Ex. split; [|split].
          -- apply in_dep_values; auto. right; left. exists 0%nat, 1%nat. repeat split; lia.
          -- apply D1.
          -- intros e He. rewrite Ex. apply R1, HR. exact He.
        * destruct (@dep_short_root false lab n b len Hn Hlen eq_refl) as (x & y & Ex).
          eexists. rewrite <- Ex. split; [|split].
          -- apply in_dep_values; auto. right; right; right; left. split; [reflexivity|]. exists 1%nat. split; [lia|reflexivity].
          -- apply D1.
          -- intros e He. rewrite Ex. apply R1, HR. exact He.
  Qed.
End Dep.

(** ** DependencyCRF *)
Section DepCall.
  Variables (mr : bool) (batch n : nat) (lab : option nat) (ls : option (list nat)).
  Notation c := (CDep mr batch n lab ls).
  Notation len b := (lc_len n ls b).
  Hypothesis V : valid c.
  Lemma dep_len b : (b < batch)%nat -> (len b <= n)%nat.
  Proof.
    destruct V as [[_ H] _]. intro Hb. unfold lc_len. destruct ls as [l|]; [|lia]. destruct H as (Hl & _ & H).
    rewrite Forall_forall in H. apply H. apply nth_In. lia.
  Qed.
  Lemma dep_words : mr = false -> (1 <= n)%nat.
  Proof. destruct V as [[H _] _]. exact H. Qed.
  Lemma dep_labels : lab <> Some 0%nat.
  Proof. destruct V as [_ H]. exact H. Qed.
  Lemma dep_row b : (b < batch)%nat -> row_graph c b = dp_one tops mr lab n TZero TLeaf b (len b).
  Proof.
    intro Hb. destruct V as [Ha _].
    assert (E : run c tops TLeaf = Ok (map (fun b => dp_one tops mr lab n TZero TLeaf b (len b)) (seq 0 batch))).
    { exact (@dp_logpartition_run tops mr TZero batch n lab (tens match lab with None => [batch; n; n] | Some L => [batch; n; n; L] end TLeaf) ls Ha eq_refl). }
    unfold row_graph, graphs. rewrite E. now rewrite nth_map_seq by auto.
  Qed.
  (** graphs that hold what the code computes exist *)
  Theorem dep_graphs : exists G, records c G /\
    forall b, (b < batch)%nat -> records_values (fun t => In t (dep_values mr lab n b (len b))) (fst (G b)) (snd (G b)).
  Proof.
    apply (@graphs_exist c (fun b => dep_values mr lab n b (len b)) V). intros b Hb. cbn [batch_of] in Hb. split.
    - apply Forall_forall.
      assert (Wa : forall h d, twf (dp_arc tops TZero lab TLeaf b (len b) h d)).
      { intros h d. unfold dp_arc. pose proof dep_labels as HL.
        assert (W : forall l, twf (dp_cell tops TZero TLeaf b (len b) h d l)) by (intro l; unfold dp_cell; destruct (_ || _); [constructor|]; destruct (_ || _); constructor).
        destruct lab as [L|]; [|apply W]. cbn [ssum tops]. constructor; [destruct L; [congruence|discriminate]|].
        apply Forall_forall. intros t Ht. apply in_map_iff in Ht as (l & <- & _). apply W. }
      assert (Ws : forall l t, In t l -> twf t -> (forall u, In u l -> twf u) -> twf (TSum l)).
      { intros l t Hl _ H. constructor; [intros ->; destruct Hl|now apply Forall_forall]. }
      apply (@dep_values_P mr lab n b (len b) dep_words (dep_len Hb) twf twf); auto; intros; constructor; auto.
    - rewrite dep_row by auto. apply in_dep_values; auto using dep_words, dep_len.
  Qed.
End DepCall.

(** classes without the finite zero: a finite log-partition means an allowed structure *)
Lemma live_allowed c b phi : valid c -> row_ok c b -> zero_free c = true ->
  leval (xlog_ops NEG) phi (row_graph c b) <> None -> exists s, ok (spec_of c b) s /\ allowed (prt (spec_of c b)) phi s.
Proof.
  intros V Hb Z L. destruct (row_family V Hb) as (F & HF). assert (FP : fpure F) by now apply (ir_pure HF).
  rewrite (ir_graph HF) in L. apply xexp_pos in L. rewrite x_split in L.
  replace (XS F phi NEG) with 0 in L by (unfold XS; rewrite FP; reflexivity). rewrite Rplus_0_r in L.
  rewrite <- (ir_spec HF). cbn [ok prt st fspec].
  destruct (existsb (fun s => forallb (fun e => negb (is_none (phi e))) (fparts F s)) (flist F)) eqn:E.
  - apply existsb_exists in E as (s & Hs & E). exists s. split; [now apply (fenum F)|now apply allowedb].
  - exfalso. rewrite XZ_zero in L; [lra|]. intros s Hs Ha. apply allowedb in Ha.
    assert (existsb (fun s => forallb (fun e => negb (is_none (phi e))) (fparts F s)) (flist F) = true) by (apply existsb_exists; eauto). congruence.
Qed.

(** [sample] raises exactly when some row forbids an arc between two neighbouring words or
    the root arc of its first word (with labels: all labels of any arc) *)
Theorem C81_dep_raises mr batch n lab ls G phi m : let c := CDep mr batch n lab ls in valid c -> records c G ->
  (forall b, (b < batch)%nat -> records_values (fun t => In t (dep_values mr lab n b (lc_len n ls b))) (fst (G b)) (snd (G b))) ->
  (f_sample c G phi m = Err RuntimeError <-> exists b, (b < batch)%nat /\ blocked lab phi b (lc_len n ls b)).
Proof.
  cbv zeta. intros V HG HR. split.
  - intro E. apply (C79_raises phi m HG) in E as (b & k & Hb & Hk & [(l & El) D]). cbn [batch_of] in Hb. exists b. split; [exact Hb|].
    assert (Bd : blocked lab phi b (lc_len n ls b) \/ ~ blocked lab phi b (lc_len n ls b)).
    { set (len := lc_len n ls b). unfold blocked.
      assert (Dc : forall i j, critical lab i j \/ ~ critical lab i j) by (intros i j; destruct lab; cbn [critical]; [now left|lia]).
      assert (G2 : forall q P, (forall i, P i \/ ~ P i) -> (exists i : nat, (i < q)%nat /\ P i) \/ ~ (exists i, (i < q)%nat /\ P i)).
      { intros q P HP. induction q as [|q IH]; [right; intros (i & Hi & _); lia|]. destruct IH as [(i & Hi & Q)|IH]; [left; exists i; split; [lia|exact Q]|].
        destruct (HP q) as [Q|Q]; [left; exists q; split; [lia|exact Q]|]. right. intros (i & Hi & Q'). destruct (Nat.eq_dec i q) as [->|Hne]; [auto|]. apply IH. exists i. split; [lia|exact Q']. }
      destruct (G2 len (fun i => exists j, (j < len)%nat /\ critical lab i j /\ forbidden lab phi b i j)) as [(i & Hi & j & Hj & Q)|Q].
      { intro i. apply G2. intro j. destruct (Dc i j), (forbidden_dec lab phi b i j); tauto. }
      - left. exists i, j. tauto.
      - right. intros (i & j & Hi & Hj & Q'). apply Q. exists i. split; [exact Hi|]. exists j. tauto. }
    destruct Bd as [Bd|Bd]; [exact Bd|]. exfalso.
    destruct (@dep_live lab phi b (lc_len n ls b) (dep_labels V) mr n (dep_words V) (dep_len V Hb) Bd) as [L _].
    destruct (HR b Hb) as [_ HS]. destruct (HG b Hb) as [Ht _]. destruct (HS k l Hk El) as (t & Tt & S).
    assert (U : unf (fst (G b)) k = TSum (map (unf (fst (G b))) l)) by (rewrite (unf_eq Ht); unfold unf_step; now rewrite El).
    rewrite U in S. apply (@all_sums_sub _ _ _ S (L t Tt)). rewrite <- U, <- (xv_unf phi NEG Ht). exact D.
  - intros (b & Hb & i & j & Hi & Hj & Hcr & Hf). apply C79_raises; [exact HG|]. destruct (HR b Hb) as [H _]. destruct (HG b Hb) as [Ht _].
    destruct (@dep_dead lab phi b (lc_len n ls b) (dep_labels V) mr n (dep_words V) (dep_len V Hb) i j Hi Hj Hcr Hf) as (l & Hl & D & _).
    destruct (H _ Hl) as (k & Hk & Uk). exists b, k. split; [exact Hb|]. split; [exact Hk|].
    destruct (unf_sum_node Ht k Uk) as (l' & E & _). split; [eauto|]. rewrite (xv_unf phi NEG Ht), Uk. exact D.
Qed.
Print Assumptions C81_dep_raises.

(** the marginals of a forbidden critical pair are NaN, although other trees are allowed *)
Theorem C81_dep_nan mr batch n lab ls G phi : let c := CDep mr batch n lab ls in valid c -> records c G ->
  forall b i j, (b < batch)%nat -> (i < lc_len n ls b)%nat -> (j < lc_len n ls b)%nat ->
    records_values (fun t => In t (dep_values mr lab n b (lc_len n ls b))) (fst (G b)) (snd (G b)) ->
    critical lab i j -> forbidden lab phi b i j ->
    forall e, match lab with None => e = [b; i; j] | Some L => exists a, (a < L)%nat /\ e = [b; i; j; a] end -> f_marginals c G phi e = FNan.
Proof.
  cbv zeta. intros V HG b i j Hb Hi Hj [HR _] Hcr Hf e He. destruct (HG b Hb) as [Ht _].
  destruct (@dep_dead lab phi b (lc_len n ls b) (dep_labels V) mr n (dep_words V) (dep_len V Hb) i j Hi Hj Hcr Hf) as (l & Hl & D & R).
  destruct (HR _ Hl) as (k & Hk & Uk). unfold f_marginals.
  replace (row_of (CDep mr batch n lab ls) e) with b by (destruct lab; [destruct He as (a & _ & ->)|rewrite He]; reflexivity).
  apply (@fgrad_dead_sum (fst (G b)) phi NEG Ht (snd (G b)) e k l Hk Uk D). now apply R.
Qed.
Print Assumptions C81_dep_nan.

(** nothing critical is forbidden in row b: its marginals are the exact conditional
    probabilities *)
Theorem C81_dep_marginals mr batch n lab ls G phi : let c := CDep mr batch n lab ls in valid c -> records c G ->
  forall b e, row_ok c b -> row_of c e = b -> let S := spec_of c b in
    records_values (fun t => In t (dep_values mr lab n b (lc_len n ls b))) (fst (G b)) (snd (G b)) ->
    ~ blocked lab phi b (lc_len n ls b) ->
    exists x, f_marginals c G phi e = FR x /\ (forall l, Enumerates (ok S) l -> x = cond_marg (prt S) l phi e) /\
      (phi e = None -> x = 0).
Proof.
  cbv zeta. intros V HG b e Hb He HR HB. set (c := CDep mr batch n lab ls) in *. assert (Hlt : (b < batch)%nat) by apply Hb.
  destruct (@dep_live lab phi b (lc_len n ls b) (dep_labels V) mr n (dep_words V) (dep_len V Hlt) HB) as [L [L0 _]].
  rewrite <- (dep_row V Hlt) in L0. fold c in L0.
  assert (HX : xbounded c 0 phi) by (left; reflexivity).
  destruct (@live_marginals c G phi 0 _ V HG (Rle_refl 0) HX b e Hb He HR L (@live_allowed c b phi V Hb eq_refl L0)) as (x & Ex & Hx).
  assert (HE : forall l, Enumerates (ok (spec_of c b)) l -> x = cond_marg (prt (spec_of c b)) l phi e).
  { intros l Hl. specialize (Hx l Hl). replace (leak c b 0) with 0 in Hx by reflexivity. rewrite Rmult_0_r in Hx.
    apply Rminus_diag_uniq. set (d := x - _) in *. destruct (Req_dec d 0) as [E|E]; [exact E|]. apply Rabs_pos_lt in E. lra. }
  exists x. split; [exact Ex|]. split; [exact HE|]. intro Hn. destruct (row_family V Hb) as (F & HF).
  assert (Hl : exists l, Enumerates (ok (spec_of c b)) l) by (rewrite <- (ir_spec HF); exists (flist F); apply (fenum F)).
  destruct Hl as [l Hl]. rewrite (HE l Hl). now apply cond_marg_forbidden.
Qed.
Print Assumptions C81_dep_marginals.

(** nothing critical is forbidden: the samples have exactly the conditional law *)
Theorem C81_dep_law mr batch n lab ls G phi m : let c := CDep mr batch n lab ls in valid c -> records c G ->
  (forall b, (b < batch)%nat -> row_ok c b) ->
  (forall b, (b < batch)%nat -> records_values (fun t => In t (dep_values mr lab n b (lc_len n ls b))) (fst (G b)) (snd (G b))) ->
  (forall b, (b < batch)%nat -> ~ blocked lab phi b (lc_len n ls b)) ->
  exists D, f_sample c G phi m = Ok D /\
  forall (l : forall b, list (st (spec_of c b))) (f : nat -> nat -> (list nat -> Z) -> R),
    (forall b, (b < batch)%nat -> Enumerates (ok (spec_of c b)) (l b)) ->
    (forall k b, (b < batch)%nat -> row_fun c b (f k b) /\ forall u, Rabs (f k b u) <= 1) ->
    PE D (fun o => RProd (fun k => RProd (fun b => f k b (q_sample c G o k)) (seq 0 batch)) (seq 0 m))
    = RProd (fun k => RProd (fun b => cond_mean (prt (spec_of c b)) (l b) phi (fun s => f k b (event_of (spec_of c b) s))) (seq 0 batch)) (seq 0 m).
Proof.
  cbv zeta. intros V HG HO HR HB. set (c := CDep mr batch n lab ls) in *.
  destruct (@live_ok c G phi m (fun b t => In t (dep_values mr lab n b (lc_len n ls b))) HG) as [D ED].
  { intros b Hb. split; [now apply HR|]. apply (@dep_live lab phi b (lc_len n ls b) (dep_labels V) mr n (dep_words V) (dep_len V Hb) (HB b Hb)). }
  exists D. split; [exact ED|]. intros l f Hl Hf.
  destruct (@C79_sample_law c G phi 0 V I HG (Rle_refl 0)) with (n := m) (D := D) as (law & H1 & _ & H3); auto.
  - left. reflexivity.
  - intros b Hb. apply live_allowed; auto. unfold c. rewrite (dep_row V Hb).
    apply (@dep_live lab phi b (lc_len n ls b) (dep_labels V) mr n (dep_words V) (dep_len V Hb) (HB b Hb)).
  - change (batch_of c) with batch in *. rewrite H1 by (intros k b Hb; now apply Hf).
    apply (Prod_ext R_csr). intro k. apply (Prod_ext_in R_csr). intros b Hb. apply in_seq in Hb. assert (Hlt : (b < batch)%nat) by lia.
    specialize (H3 b (l b) (f k b) Hlt). cbv zeta in H3. specialize (H3 (Hl b Hlt) (proj1 (Hf k b Hlt)) (proj2 (Hf k b Hlt))).
    replace (leak c b 0) with 0 in H3 by reflexivity. rewrite Rmult_0_r in H3. set (d := law b (f k b) - _) in H3.
    apply Rminus_diag_uniq. fold d. destruct (Req_dec d 0) as [E|E]; [exact E|]. apply Rabs_pos_lt in E. lra.
Qed.
Print Assumptions C81_dep_law.

(** ** SemiMarkovCRF *)
Section SemiCall.
  Variables (batch N K C : nat) (ls : option (list nat)).
  Notation c := (CSemi batch N K C ls).
  (** semimarkov.py:75-86 for row b of a call *)
  Definition semi_row (b : nat) : list term := semi_values K C (Nat.log2_up (N - 1)) (2 ^ Nat.log2_up (N - 1)) b (lc_len N ls b).
  Hypothesis V : valid c.
  Lemma semi_is_row b : (b < batch)%nat -> row_graph c b = sm_one tops K C (Nat.log2_up (N - 1)) (2 ^ Nat.log2_up (N - 1)) TLeaf b (lc_len N ls b).
  Proof.
    intro Hb. pose proof V as Ha. cbn [valid] in Ha.
    assert (E : run c tops TLeaf = Ok (map (fun b => sm_one tops K C (Nat.log2_up (N - 1)) (2 ^ Nat.log2_up (N - 1)) TLeaf b (lc_len N ls b)) (seq 0 batch))).
    { exact (@sm_logpartition_run tops batch N K C (tens [batch; (N - 1)%nat; K; C; C] TLeaf) ls Ha eq_refl). }
    unfold row_graph, graphs. rewrite E. now rewrite nth_map_seq by auto.
  Qed.
  Theorem semi_graphs : exists G, records c G /\
    forall b, (b < batch)%nat -> records_values (fun t => In t (semi_row b)) (fst (G b)) (snd (G b)).
  Proof.
    apply (@graphs_exist c semi_row V). intros b Hb. cbn [batch_of] in Hb. destruct V as (_ & HK & HC & _). split.
    - apply Forall_forall. apply (@semi_values_P twf twf_resp); auto. intros x y Hx (e & He). constructor; [discriminate|].
      constructor; [destruct Hx as [->| ->]; constructor|]. constructor; [|constructor]. destruct He as [->| ->]; constructor.
    - rewrite semi_is_row by auto. unfold semi_row, semi_values. apply in_app_iff. right. now left.
  Qed.
  Theorem semi_live phi b t : In t (semi_row b) -> all_sums (live_sum phi NEG) t.
  Proof.
    destruct V as (_ & HK & HC & _). intro Ht. assert (L : live phi NEG t); [|apply L]. revert t Ht.
    apply (@semi_values_P (live phi NEG) (live_resp phi NEG)); auto. intros x y Hx (e & He).
    assert (G : live_sum phi NEG [x; y]) by (apply live_sum_l; exists x; split; [now left|destruct Hx as [->| ->]; discriminate]).
    split; [exact G|]. cbn [all_sums map fold_right]. split; [exact G|].
    destruct Hx as [->| ->], He as [->| ->]; cbn; tauto.
  Qed.
End SemiCall.
(** segmentations: whatever is forbidden, [sample] never raises, and the marginals are the
    conditional probabilities, up to the leak of the finite zero *)
Theorem C81_semi_never_raises batch N K C ls G phi m : let c := CSemi batch N K C ls in valid c -> records c G ->
  (forall b, (b < batch)%nat -> records_values (fun t => In t (semi_row N K C ls b)) (fst (G b)) (snd (G b))) ->
  exists D, f_sample c G phi m = Ok D.
Proof.
  cbv zeta. intros V HG HR. apply (live_ok phi m (fun b t => In t (semi_row N K C ls b)) HG). intros b Hb. split; [now apply HR|].
  intros t Ht. apply (semi_live V phi b t Ht).
Qed.
Print Assumptions C81_semi_never_raises.
Theorem C81_semi_marginals batch N K C ls G phi B : let c := CSemi batch N K C ls in valid c -> records c G -> 0 <= B ->
  (forall e x, phi e = Some x -> Rabs x <= B) ->
  forall b e, (b < batch)%nat -> row_of c e = b -> let S := spec_of c b in
    records_values (fun t => In t (semi_row N K C ls b)) (fst (G b)) (snd (G b)) ->
    (exists s, ok S s /\ allowed (prt S) phi s) ->
    exists x, f_marginals c G phi e = FR x /\
      (forall l, Enumerates (ok S) l -> Rabs (x - cond_marg (prt S) l phi e) <= INR (degree c b) * leak c b B) /\
      (phi e = None -> Rabs x <= INR (degree c b) * leak c b B).
Proof.
  cbv zeta. intros V HG HB0 HB b e Hb He HR Ha. set (c := CSemi batch N K C ls) in *.
  assert (Hr : row_ok c b) by (split; [exact Hb|exact I]).
  assert (HX : xbounded c B phi) by (right; exact HB).
  destruct (@live_marginals c G phi B _ V HG HB0 HX b e Hr He HR) as (x & Ex & Hx); auto.
  { intros t Ht. apply (semi_live V phi b t Ht). }
  exists x. split; [exact Ex|]. split; [exact Hx|]. intro Hn.
  destruct (row_family V Hr) as (F & HF).
  assert (Hl : exists l, Enumerates (ok (spec_of c b)) l) by (rewrite <- (ir_spec HF); exists (flist F); apply (fenum F)).
  destruct Hl as [l Hl]. specialize (Hx _ Hl). rewrite cond_marg_forbidden, Rminus_0_r in Hx by auto. exact Hx.
Qed.
Print Assumptions C81_semi_marginals.

(** ** The hypotheses are met *)
(** example: single-root trees of 4 and 2 words, without labels *)
Definition ex_arcs := CDep false 2 4 None (Some [4; 2])%nat.
(** example: the arc from word 0 to word j is forbidden, in all rows *)
Definition ex_no_arc (j : nat) (e : list nat) : ext :=
  if (nth 1 e 0 =? 0)%nat && (nth 2 e 0 =? j)%nat then None else Some (ex_phi e).
(** forbidding the arc to word 2 is harmless, forbidding the one to word 1 is not,
    though a tree without it remains; with labels the arc to word 2 may not go either *)
Example ex_C81 : exists G G', records ex_arcs G /\ records ex_dep G' /\
  (forall b e, (b < 2)%nat -> row_of ex_arcs e = b -> exists x, f_marginals ex_arcs G (ex_no_arc 2) e = FR x) /\
  f_marginals ex_arcs G (ex_no_arc 2) [0; 0; 2]%nat = FR 0 /\
  (forall m, exists D, f_sample ex_arcs G (ex_no_arc 2) m = Ok D) /\
  (forall b, (b < 2)%nat -> f_marginals ex_arcs G (ex_no_arc 1) [b; 0; 1]%nat = FNan) /\
  (forall m, f_sample ex_arcs G (ex_no_arc 1) m = Err RuntimeError) /\
  (exists s, ok (spec_of ex_arcs 0) s /\ allowed (prt (spec_of ex_arcs 0)) (ex_no_arc 1) s) /\
  (forall m, f_sample ex_dep G' (ex_no_arc 2) m = Err RuntimeError) /\
  (forall m, exists D, f_sample ex_dep G' ex_mask m = Ok D).
Proof.
  assert (V : valid ex_arcs) by (cbn; repeat split; [lia|lia|repeat constructor; lia|discriminate]).
  assert (V' : valid ex_dep) by (cbn; repeat split; [lia|lia|repeat constructor; lia|discriminate]).
  destruct (dep_graphs V) as (G & HG & HR). destruct (dep_graphs V') as (G' & HG' & HR').
  assert (RO : forall b, (b < 2)%nat -> row_ok ex_arcs b) by (intros b Hb; split; [exact Hb|]; destruct b as [|[|b]]; cbn; lia).
  assert (RO' : forall b, (b < 2)%nat -> row_ok ex_dep b) by (intros b Hb; split; [exact Hb|]; destruct b as [|[|b]]; cbn; lia).
  assert (NB : forall b, (b < 2)%nat -> ~ blocked None (ex_no_arc 2) b (lc_len 4 (Some [4; 2]%nat) b)).
  { intros b Hb (i & j & Hi & Hj & Hc & Hf). cbn [critical forbidden] in *. unfold ex_no_arc in Hf. cbn [nth] in Hf.
    destruct (Nat.eqb_spec i 0), (Nat.eqb_spec j 2); cbn [andb] in Hf; try discriminate. lia. }
  exists G, G'. split; [exact HG|]. split; [exact HG'|].
  assert (HM : forall b e, (b < 2)%nat -> row_of ex_arcs e = b -> exists x, f_marginals ex_arcs G (ex_no_arc 2) e = FR x /\ (ex_no_arc 2 e = None -> x = 0)).
  { intros b e Hb He. destruct (@C81_dep_marginals _ _ _ _ _ G (ex_no_arc 2) V HG b e (RO b Hb) He (HR b Hb) (NB b Hb)) as (x & Ex & _ & H0). eauto. }
  split; [intros b e Hb He; destruct (HM b e Hb He) as (x & Ex & _); eauto|].
  split; [destruct (HM 0%nat [0; 0; 2]%nat ltac:(lia) eq_refl) as (x & -> & H0); now rewrite H0|].
  split; [intro m; destruct (@C81_dep_law _ _ _ _ _ G (ex_no_arc 2) m V HG RO HR NB) as (D & ED & _); eauto|].
  split.
  { intros b Hb. refine (@C81_dep_nan _ _ _ _ _ G (ex_no_arc 1) V HG b 0%nat 1%nat Hb _ _ (HR b Hb) _ eq_refl _ eq_refl).
    - destruct b as [|[|b]]; cbn; lia.
    - destruct b as [|[|b]]; cbn; lia.
    - now left. }
  split.
  { intro m. apply (C81_dep_raises (ex_no_arc 1) m V HG HR). exists 0%nat. split; [lia|]. exists 0%nat, 1%nat. cbn. repeat split; lia. }
  split.
  { exists [2; 0; 2; 3]%nat. split.
    - apply (@dep_list_enum false 4 ltac:(lia)). vm_compute. tauto.
    - apply allowedb. reflexivity. }
  split.
  { intro m. apply (C81_dep_raises (ex_no_arc 2) m V' HG' HR'). exists 0%nat. split; [lia|]. exists 0%nat, 2%nat. cbn. repeat split; lia. }
  intro m. destruct (@C81_dep_law _ _ _ _ _ G' ex_mask m V' HG' RO' HR') as (D & ED & _); [|eauto].
  intros b Hb (i & j & _ & _ & _ & Hf). specialize (Hf 0%nat ltac:(lia)). discriminate.
Qed.
(** segmentations whose segments with label 1 are forbidden *)
Example ex_C81_semi : exists G, records ex_semi G /\
  (forall b e, (b < 2)%nat -> row_of ex_semi e = b -> exists x, f_marginals ex_semi G ex_mask e = FR x) /\
  forall m, exists D, f_sample ex_semi G ex_mask m = Ok D.
Proof.
  assert (V : valid ex_semi) by (cbn; repeat split; lia).
  destruct (semi_graphs V) as (G & HG & HR). exists G. split; [exact HG|]. split.
  - intros b e Hb He.
    assert (Ha : exists s, ok (spec_of ex_semi b) s /\ allowed (prt (spec_of ex_semi b)) ex_mask s).
    { destruct b as [|[|b]]; [exists (0, [(2, 0)])%nat|exists (0, [(2, 0); (2, 0)])%nat|lia];
        (split; [cbn; repeat split; repeat constructor; cbn; lia|apply allowedb; reflexivity]). }
    destruct (@C81_semi_marginals _ _ _ _ _ G ex_mask 3 V HG ltac:(lra)) with (b := b) (e := e) as (x & Ex & _); auto; [|eauto].
    intros e' x. unfold ex_mask. destruct (_ =? _)%nat; intro E; [discriminate|]. injection E as <-. apply ex_phi_abs.
  - intro m. exact (@C81_semi_never_raises _ _ _ _ _ G ex_mask m V HG HR).
Qed.
