(** * Marginals of context-free grammars with forbidden rules, words and roots (C82).

    CKY sums the rules of a nonterminal in four blocks, by whether the two children are
    nonterminals or preterminals. Each block is a sum of its own at every pair of
    neighbouring words, padding included. A block without a usable rule is -inf, and
    autograd returns NaN, although the other blocks allow a parse. *)
From Coq Require Import ZArith.
From Verif Require Import Base Ops Terms Semirings Poly Chain LinearChain SemiMarkov CkyCrf Cky DepSpec DepTree
  Batch Family Approx Grad Sample Dist Purity Degree Shape Api Query Dag DagLaw P_Real P_Sample Mask P_Mask Special P_Special MaskGrad P_MaskGrad MaskDep.
Set Implicit Arguments.
Local Open Scope R_scope.

(** spec: symbol s is of kind k: a nonterminal (true) or a preterminal *)
Definition of_kind (NT T : nat) (k : bool) (s : nat) : Prop := if k then (s < NT)%nat else (NT <= s < NT + T)%nat.
(** spec: word i cannot have preterminal s *)
Definition no_word (NT : nat) (phi : list nat -> ext) (b i s : nat) : Prop :=
  (NT <= s)%nat /\ phi [0; b; i; (s - NT)%nat]%nat = None.
(** spec: no rule of nonterminal x with children of kinds kl and kr is left when
    the words i and j are its preterminal children *)
Definition no_rule (NT T : nat) (phi : list nat -> ext) (b i j : nat) (kl kr : bool) (x : nat) : Prop :=
  forall y z, of_kind NT T kl y -> of_kind NT T kr z ->
    phi [1; b; x; y; z]%nat = None \/ no_word NT phi b i y \/ no_word NT phi b j z.
(** spec: row b of N words (with padding) lacks a block of rules at two neighbouring
    words, or has no root left *)
Definition cfg_blocked (NT T N : nat) (phi : list nat -> ext) (b : nat) : Prop :=
  (exists i kl kr x, (i + 1 < N)%nat /\ (x < NT)%nat /\ no_rule NT T phi b i (i + 1) kl kr x) \/
  (forall x, (x < NT)%nat -> phi [2; b; x]%nat = None).

(** cky.py:13-24: the entries of the three tensors, as leaves *)
Definition cfg_pot (e : list nat) : term :=
  match e with 0 :: e' => TLeaf (0 :: e') | 1 :: e' => TLeaf (1 :: e') | _ :: e' => TLeaf (2 :: e') | [] => TLeaf [2] end%nat.
(** cky.py:49-78: what a call computes for one row: the spans of all widths (their
    arguments X1 to X4 included), and the result *)
Definition cfg_values (NT T N b len : nat) : list term :=
  flat_map (fun w => flat_map (fun i => map (fun x => fst (cy_run tops NT T N b cfg_pot) i w x) (seq 0 NT)) (seq 0 (N - w))) (seq 1 (N - 1)) ++
  [cy_one tops NT T N b cfg_pot len].
Lemma in_cfg_values NT T N b len t : In t (cfg_values NT T N b len) <->
  (exists i w x, (1 <= w)%nat /\ (i + w < N)%nat /\ (x < NT)%nat /\ t = fst (cy_run tops NT T N b cfg_pot) i w x) \/
  t = cy_one tops NT T N b cfg_pot len.
Proof.
  unfold cfg_values. rewrite in_app_iff, in_flat_map. split.
  - intros [(w & Hw & H)|[<-|[]]]; [left|now right]. apply in_flat_map in H as (i & Hi & H). apply in_map_iff in H as (x & <- & Hx).
    apply in_seq in Hw. apply in_seq in Hi. apply in_seq in Hx. exists i, w, x. repeat split; lia.
  - intros [(i & w & x & Hw & Hi & Hx & ->)| ->]; [left|right; now left]. exists w. split; [apply in_seq; lia|].
    apply in_flat_map. exists i. split; [apply in_seq; lia|]. apply in_map_iff. exists x. split; [reflexivity|apply in_seq; lia].
Qed.

(** ** The chart *)
Section Chart.
  Variables (O : ops) (NT T N b : nat) (pot : list nat -> car O).
  (** an invariant of all cells *)
  Lemma cy_run_all (Q : car O -> Prop) : Q (szero O) ->
    (forall cA cB w i x, (forall i k y, (y < NT)%nat -> Q (cA i k y)) -> (forall i k y, (y < NT)%nat -> Q (cB i k y)) ->
      (1 <= w)%nat -> (i + w < N)%nat -> (x < NT)%nat -> Q (cy_span O NT T N b pot cA cB w i x)) ->
    (forall i k y, (y < NT)%nat -> Q (fst (cy_run O NT T N b pot) i k y)) /\ (forall i k y, (y < NT)%nat -> Q (snd (cy_run O NT T N b pot) i k y)).
  Proof.
    intros Q0 HS. unfold cy_run.
    assert (G : forall l st, Forall (fun w => (1 <= w)%nat) l -> (forall i k y, (y < NT)%nat -> Q (fst st i k y)) /\ (forall i k y, (y < NT)%nat -> Q (snd st i k y)) ->
      (forall i k y, (y < NT)%nat -> Q (fst (fold_left (cy_step O NT T N b pot) l st) i k y)) /\
      (forall i k y, (y < NT)%nat -> Q (snd (fold_left (cy_step O NT T N b pot) l st) i k y))).
    { induction l as [|w l IH]; intros [cA cB] Hl [HA HB]; [auto|]. inversion_clear Hl as [|? ? Hw Hl']. cbn [fold_left]. apply IH; [exact Hl'|].
      cbn [fst snd] in *. unfold cy_step. cbn [fst snd]. split; intros i k y Hy.
      - destruct (Nat.ltb_spec i (N - w)); cbn [andb]; [|auto]. destruct (k =? w)%nat; [|auto]. apply HS; auto. lia.
      - destruct (Nat.leb_spec w i); cbn [andb]; [|auto]. destruct (Nat.ltb_spec i N); cbn [andb]; [|auto].
        destruct (k =? N - w - 1)%nat; [|auto]. apply HS; auto. lia. }
    apply G; [|split; auto]. apply Forall_forall. intros w Hw. apply in_seq in Hw. lia.
  Qed.
  (** the cells of two words *)
  Lemma cy_run_two i x : (i + 1 < N)%nat ->
    fst (cy_run O NT T N b pot) i 1%nat x = cy_span O NT T N b pot (fun _ _ _ => szero O) (fun _ _ _ => szero O) 1 i x.
  Proof.
    intro Hi. unfold cy_run. replace (N - 1)%nat with (S (N - 2)) by lia. cbn [seq fold_left].
    assert (G : forall l st, Forall (fun w => (2 <= w)%nat) l -> fst (fold_left (cy_step O NT T N b pot) l st) i 1%nat x = fst st i 1%nat x).
    { induction l as [|w l IH]; intros [cA cB] Hl; [reflexivity|]. inversion_clear Hl as [|? ? Hw Hl']. cbn [fold_left]. rewrite IH by auto.
      unfold cy_step. cbn [fst]. replace (1 =? w)%nat with false by (symmetry; apply Nat.eqb_neq; lia). now rewrite andb_false_r. }
    rewrite G by (apply Forall_forall; intros w Hw; apply in_seq in Hw; lia).
    unfold cy_step, cy_init. cbn [fst]. replace (i <? N - 1)%nat with true by (symmetry; apply Nat.ltb_lt; lia). reflexivity.
  Qed.
End Chart.

Lemma some_or_none n (P : nat -> Prop) : (forall i, P i \/ ~ P i) -> (exists i, (i < n)%nat /\ P i) \/ forall i, (i < n)%nat -> ~ P i.
Proof.
  intro HP. induction n as [|n [(i & Hi & H)|IH]]; [right; lia|left; exists i; split; [lia|exact H]|].
  destruct (HP n) as [H|H]; [left; exists n; split; [lia|exact H]|]. right. intros i Hi. destruct (Nat.eq_dec i n) as [->|]; [exact H|]. apply IH. lia.
Qed.

(** ** One block of rules *)
Section Block.
  Variables (phi : list nat -> ext).
  Notation ev := (leval (xlog_ops NEG) phi).
  Lemma sum_dead l : (forall t, In t l -> ev t = None) -> dead_sum phi NEG l.
  Proof.
    intro H. unfold dead_sum. cbn [leval ssum xlog_ops]. unfold xlse. replace (forallb is_none (map ev l)) with true; [reflexivity|].
    symmetry. apply forallb_forall. intros v Hv. apply in_map_iff in Hv as (t & <- & Ht). now rewrite H.
  Qed.
  Lemma mul_dead a c : ev a = None \/ ev c = None -> ev (TMul a c) = None.
  Proof. cbn [leval smul xlog_ops]. intros [-> | ->]; [reflexivity|]. now destruct (ev a). Qed.
  (** a sum of products of one summand each: alive when one product is *)
  Lemma mat_live D (f g : nat -> term) p : (p < D)%nat -> (forall q, (q < D)%nat -> all_sums (live_sum phi NEG) (f q) /\ all_sums (live_sum phi NEG) (g q)) ->
    ev (f p) <> None -> ev (g p) <> None -> live phi NEG (TSum (map (fun q => TMul (f q) (g q)) (seq 0 D))).
  Proof.
    intros Hp HS Hf Hg. assert (L : live_sum phi NEG (map (fun q => TMul (f q) (g q)) (seq 0 D))).
    { apply live_sum_l. exists (TMul (f p) (g p)). split; [apply in_map_iff; exists p; split; [reflexivity|apply in_seq; lia]|].
      cbn [leval smul xlog_ops]. destruct (ev (f p)); [|congruence]. destruct (ev (g p)); [discriminate|congruence]. }
    split; [exact L|]. cbn [all_sums]. split; [exact L|]. apply fold_and. intros t Ht. apply in_map_iff in Ht as (q & <- & Hq). apply in_seq in Hq.
    cbn [all_sums]. apply HS. lia.
  Qed.

  Variables (NT T b : nat).
  Hypotheses (HNT : (0 < NT)%nat) (HT : (0 < T)%nat).
  (** proof device: number of symbols of a kind *)
  Definition kn (k : bool) : nat := if k then NT else T.
  (** proof device: the first symbol of a kind *)
  Definition ko (k : bool) : nat := if k then 0%nat else NT.
  (** proof device: one of X1 to X4 (cky.py:55-70) *)
  Definition blk (YZ : nat -> term) (kl kr : bool) (x : nat) : list term :=
    map (fun p => TMul (YZ p) (TLeaf [1; b; x; (ko kl + p / kn kr)%nat; (ko kr + p mod kn kr)%nat]%nat)) (seq 0 (kn kl * kn kr)).
  Lemma kn_pos k : (0 < kn k)%nat. Proof. destruct k; assumption. Qed.
  Lemma kind_l kl kr p : (p < kn kl * kn kr)%nat -> of_kind NT T kl (ko kl + p / kn kr).
  Proof.
    intro Hp. pose proof (kn_pos kr) as H. assert (p / kn kr < kn kl)%nat by (apply Nat.div_lt_upper_bound; lia). destruct kl; cbn in *; lia.
  Qed.
  Lemma kind_r kr p : of_kind NT T kr (ko kr + p mod kn kr).
  Proof. pose proof (kn_pos kr) as H. assert (p mod kn kr < kn kr)%nat by (apply Nat.mod_upper_bound; lia). destruct kr; cbn in *; lia. Qed.
  Lemma kind_pair kl kr y z : of_kind NT T kl y -> of_kind NT T kr z -> exists p, (p < kn kl * kn kr)%nat /\ (ko kl + p / kn kr = y)%nat /\ (ko kr + p mod kn kr = z)%nat.
  Proof.
    intros Hy Hz. assert (Y : exists y', (y' < kn kl)%nat /\ y = (ko kl + y')%nat) by (exists (y - ko kl)%nat; destruct kl; cbn in *; lia).
    assert (Z : exists z', (z' < kn kr)%nat /\ z = (ko kr + z')%nat) by (exists (z - ko kr)%nat; destruct kr; cbn in *; lia).
    destruct Y as (y' & Hy' & ->), Z as (z' & Hz' & ->). exists (y' * kn kr + z')%nat.
    assert (E1 : ((y' * kn kr + z') / kn kr = y')%nat) by (rewrite Nat.div_add_l by lia; rewrite Nat.div_small by lia; lia).
    assert (E2 : ((y' * kn kr + z') mod kn kr = z')%nat) by (rewrite Nat.add_comm, Nat.mod_add by lia; apply Nat.mod_small; lia).
    rewrite E1, E2. split; [nia|auto].
  Qed.
  Lemma no_rule_dec i j kl kr x : no_rule NT T phi b i j kl kr x \/
    exists y z, of_kind NT T kl y /\ of_kind NT T kr z /\ phi [1; b; x; y; z]%nat <> None /\ ~ no_word NT phi b i y /\ ~ no_word NT phi b j z.
  Proof.
    assert (DN : forall e, phi e = None \/ phi e <> None) by (intro e; destruct (phi e); [right; discriminate|now left]).
    assert (DW : forall i s, no_word NT phi b i s \/ ~ no_word NT phi b i s).
    { intros i' s. unfold no_word. destruct (DN [0; b; i'; (s - NT)%nat]%nat), (Nat.le_gt_cases NT s); solve [tauto|right; lia]. }
    assert (DK : forall k s, of_kind NT T k s \/ ~ of_kind NT T k s) by (intros [] s; cbn; lia).
    set (P := fun y z => of_kind NT T kl y /\ of_kind NT T kr z /\ phi [1; b; x; y; z]%nat <> None /\ ~ no_word NT phi b i y /\ ~ no_word NT phi b j z).
    assert (DP : forall y z, P y z \/ ~ P y z).
    { intros y z. unfold P. destruct (DK kl y), (DK kr z), (DN [1; b; x; y; z]%nat), (DW i y), (DW j z); tauto. }
    destruct (@some_or_none (NT + T) (fun y => exists z, (z < NT + T)%nat /\ P y z)) as [(y & _ & z & _ & H)|H].
    { intro y. destruct (@some_or_none (NT + T) (P y) (DP y)) as [H|H]; [now left|right]. intros (z & Hz & Hp). now apply (H z Hz). }
    - right. exists y, z. exact H.
    - left. intros y z Hy Hz.
      assert (By : (y < NT + T)%nat) by (destruct kl; cbn in Hy; lia). assert (Bz : (z < NT + T)%nat) by (destruct kr; cbn in Hz; lia).
      destruct (DN [1; b; x; y; z]%nat), (DW i y), (DW j z); auto. exfalso. apply (H y By). exists z. unfold P. tauto.
  Qed.
  Lemma blk_live YZ i j kl kr x :
    (forall p, (p < kn kl * kn kr)%nat -> all_sums (live_sum phi NEG) (YZ p)) ->
    (forall p, (p < kn kl * kn kr)%nat -> ~ no_word NT phi b i (ko kl + p / kn kr) -> ~ no_word NT phi b j (ko kr + p mod kn kr) -> ev (YZ p) <> None) ->
    ~ no_rule NT T phi b i j kl kr x -> live phi NEG (TSum (blk YZ kl kr x)).
  Proof.
    intros HS HY HN. destruct (no_rule_dec i j kl kr x) as [H|(y & z & Hy & Hz & Hr & Wy & Wz)]; [contradiction|].
    destruct (@kind_pair kl kr y z Hy Hz) as (p & Hp & Ey & Ez). unfold blk.
    apply (@mat_live (kn kl * kn kr) YZ (fun p => TLeaf [1; b; x; (ko kl + p / kn kr)%nat; (ko kr + p mod kn kr)%nat]%nat) p Hp).
    - intros q Hq. split; [now apply HS|exact I].
    - apply HY; [exact Hp|now rewrite Ey|now rewrite Ez].
    - cbn [leval]. now rewrite Ey, Ez.
  Qed.
  Lemma blk_dead YZ i j kl kr x :
    (forall p, (p < kn kl * kn kr)%nat -> no_word NT phi b i (ko kl + p / kn kr) \/ no_word NT phi b j (ko kr + p mod kn kr) -> ev (YZ p) = None) ->
    no_rule NT T phi b i j kl kr x -> dead_sum phi NEG (blk YZ kl kr x).
  Proof.
    intros HY HN. apply sum_dead. intros t Ht. unfold blk in Ht. apply in_map_iff in Ht as (p & <- & Hp). apply in_seq in Hp.
    apply mul_dead. destruct (HN _ _ (@kind_l kl kr p ltac:(lia)) (kind_r kr p)) as [H|H]; [right; exact H|left]. apply HY; [lia|exact H].
  Qed.
  Lemma blk_reads YZ kl kr x e : (exists y z, of_kind NT T kl y /\ of_kind NT T kr z /\ e = [1; b; x; y; z]%nat) \/
    (exists p, (p < kn kl * kn kr)%nat /\ reads e (YZ p)) -> reads e (TSum (blk YZ kl kr x)).
  Proof.
    intro H. cbn [reads]. apply fold_or. unfold blk. destruct H as [(y & z & Hy & Hz & ->)|(p & Hp & H)].
    - destruct (@kind_pair kl kr y z Hy Hz) as (p & Hp & Ey & Ez). eexists. split; [apply in_map_iff; exists p; split; [reflexivity|apply in_seq; lia]|].
      cbn [reads]. right. now rewrite Ey, Ez.
    - eexists. split; [apply in_map_iff; exists p; split; [reflexivity|apply in_seq; lia]|]. now left.
  Qed.

  (** ** The arguments of a span *)
  Variable N : nat.
  (** proof device: the products that each block multiplies its rules with *)
  Definition yz (cA cB : nat -> nat -> nat -> term) (w i : nat) (kl kr : bool) (p : nat) : term :=
    match kl, kr with
    | true, true => TSum (map (fun m => TMul (cA i m (p / NT)%nat) (cB (i + w)%nat (N - w + m)%nat (p mod NT)%nat)) (seq 0 w))
    | true, false => TMul (cA i (w - 1)%nat (p / T)%nat) (TLeaf [0; b; (i + w)%nat; (p mod T)%nat]%nat)
    | false, true => TMul (TLeaf [0; b; i; (p / NT)%nat]%nat) (cB (i + w)%nat (N - w)%nat (p mod NT)%nat)
    | false, false => TMul (TLeaf [0; b; i; (p / T)%nat]%nat) (TLeaf [0; b; (i + w)%nat; (p mod T)%nat]%nat)
    end.
  Lemma span_blocks cA cB w i x : cy_span tops NT T N b cfg_pot cA cB w i x =
    TSum (map (fun k => TSum (blk (yz cA cB w i (fst k) (snd k)) (fst k) (snd k) x))
      ([(true, true); (true, false); (false, true)] ++ if (w =? 1)%nat then [(false, false)] else [])).
  Proof. unfold cy_span. destruct (w =? 1)%nat; reflexivity. Qed.
  Lemma yz_live cA cB w i kl kr p : (forall i k y, (y < NT)%nat -> live phi NEG (cA i k y)) -> (forall i k y, (y < NT)%nat -> live phi NEG (cB i k y)) ->
    (1 <= w)%nat -> (p < kn kl * kn kr)%nat ->
    all_sums (live_sum phi NEG) (yz cA cB w i kl kr p) /\
    (~ no_word NT phi b i (ko kl + p / kn kr) -> ~ no_word NT phi b (i + w) (ko kr + p mod kn kr) -> ev (yz cA cB w i kl kr p) <> None).
  Proof.
    intros HA HB Hw Hp. pose proof (@kind_l kl kr p Hp) as K1. pose proof (kind_r kr p) as K2.
    assert (WD : forall i s, ~ no_word NT phi b i (NT + s) -> phi [0; b; i; s]%nat <> None).
    { intros i' s H E. apply H. split; [lia|]. now replace (NT + s - NT)%nat with s by lia. }
    assert (MN : forall a c : term, ev a <> None -> ev c <> None -> ev (TMul a c) <> None).
    { intros a c Ha Hc. cbn [leval smul xlog_ops]. destruct (ev a); [|congruence]. destruct (ev c); [discriminate|congruence]. }
    destruct kl, kr; cbn [kn ko of_kind yz Nat.add] in *.
    - assert (L : live phi NEG (TSum (map (fun m => TMul (cA i m (p / NT)%nat) (cB (i + w)%nat (N - w + m)%nat (p mod NT)%nat)) (seq 0 w)))).
      { apply (@mat_live w (fun m => cA i m (p / NT)%nat) (fun m => cB (i + w)%nat (N - w + m)%nat (p mod NT)%nat) 0%nat); [lia| | |].
        - intros q _. split; [apply HA|apply HB]; lia.
        - apply HA; lia.
        - apply HB; lia. }
      split; [apply L|]. intros _ _. apply L.
    - split; [split; [apply HA; lia|exact I]|]. intros _ H. apply MN; [apply HA; lia|]. cbn [leval]. now apply WD.
    - split; [split; [exact I|apply HB; lia]|]. intros H _. apply MN; [|apply HB; lia]. cbn [leval]. now apply WD.
    - split; [split; exact I|]. intros H1 H2. apply MN; cbn [leval]; now apply WD.
  Qed.
  (** kinds that look at only one of the words *)
  Lemma no_rule_l i i' j kr x : no_rule NT T phi b i j true kr x -> no_rule NT T phi b i' j true kr x.
  Proof. intros H y z Hy Hz. destruct (H y z Hy Hz) as [Q|[[Q _]|Q]]; auto. cbn in Hy. lia. Qed.
  Lemma no_rule_r i j j' kl x : no_rule NT T phi b i j kl true x -> no_rule NT T phi b i j' kl true x.
  Proof. intros H y z Hy Hz. destruct (H y z Hy Hz) as [Q|[Q|[Q _]]]; auto. cbn in Hz. lia. Qed.
  Theorem cfg_live len : (forall i kl kr x, (i + 1 < N)%nat -> (x < NT)%nat -> ~ no_rule NT T phi b i (i + 1) kl kr x) ->
    (exists x, (x < NT)%nat /\ phi [2; b; x]%nat <> None) ->
    forall t, In t (cfg_values NT T N b len) -> live phi NEG t.
  Proof.
    intros HB (x0 & Hx0 & R0).
    assert (G : (forall i k y, (y < NT)%nat -> live phi NEG (fst (cy_run tops NT T N b cfg_pot) i k y)) /\
      (forall i k y, (y < NT)%nat -> live phi NEG (snd (cy_run tops NT T N b cfg_pot) i k y))).
    { apply (@cy_run_all tops NT T N b cfg_pot (live phi NEG)); [split; [discriminate|exact I]|].
      intros cA cB w i x HA HC Hw Hi Hx. rewrite span_blocks.
      assert (L : forall kl kr, (kl = false -> kr = false -> w = 1%nat) -> live phi NEG (TSum (blk (yz cA cB w i kl kr) kl kr x))).
      { intros kl kr Hk. apply blk_live with i (i + w)%nat.
        - intros p Hp. now apply yz_live.
        - intros p Hp. now apply yz_live.
        - intro H. destruct kl.
          + apply (HB (i + w - 1)%nat true kr x); [lia|exact Hx|]. apply (@no_rule_l i). now replace (i + w - 1 + 1)%nat with (i + w)%nat by lia.
          + destruct kr; [|rewrite (Hk eq_refl eq_refl) in H; apply (HB i false false x); [lia|exact Hx|exact H]].
            apply (HB i false true x); [lia|exact Hx|]. now apply (@no_rule_r i (i + w)%nat). }
      match goal with |- live _ _ (TSum ?l) => apply (@resp_sum _ _ _ (live_resp phi NEG) l l) end; [discriminate|].
      assert (GG : forall ks, Forall (fun k => fst k = false -> snd k = false -> w = 1%nat) ks ->
        Forall2 (fun t _ : term => live phi NEG t) (map (fun k => TSum (blk (yz cA cB w i (fst k) (snd k)) (fst k) (snd k) x)) ks) (map (fun k => TSum (blk (yz cA cB w i (fst k) (snd k)) (fst k) (snd k) x)) ks)).
      { induction 1; cbn [map]; constructor; auto. }
      apply GG. apply Forall_app. split; [repeat constructor; cbn; congruence|]. destruct (Nat.eqb_spec w 1); repeat constructor; auto. }
    intros t Ht. apply in_cfg_values in Ht as [(i & w & x & _ & _ & Hx & ->)| ->]; [now apply G|].
    unfold cy_one, dot, matmul. cbn [ssum smul tops]. apply (@mat_live NT (fun x => fst (cy_run tops NT T N b cfg_pot) 0%nat (pyidx N len) x) (fun x => croot tops b cfg_pot x) x0 Hx0).
    - intros q Hq. split; [now apply G|exact I].
    - now apply G.
    - exact R0.
  Qed.
  (** a missing block at the words i, i + 1: a recorded sum that is -inf *)
  Theorem cfg_dead len i kl kr x : (i + 1 < N)%nat -> (x < NT)%nat -> no_rule NT T phi b i (i + 1) kl kr x ->
    exists ls l, In (TSum ls) (cfg_values NT T N b len) /\ In (TSum l) ls /\ dead_sum phi NEG l /\
      (forall y z, of_kind NT T kl y -> of_kind NT T kr z -> reads [1; b; x; y; z]%nat (TSum l)) /\
      (forall t, (t < T)%nat -> kl = false -> reads [0; b; i; t]%nat (TSum l)) /\
      (forall t, (t < T)%nat -> kr = false -> reads [0; b; (i + 1)%nat; t]%nat (TSum l)).
  Proof.
    intros Hi Hx HN. set (z := fun _ _ _ : nat => TZero).
    eexists. exists (blk (yz z z 1 i kl kr) kl kr x). split; [|split; [|split; [|split; [|split]]]].
    - apply in_cfg_values. left. exists i, 1%nat, x. split; [lia|]. split; [exact Hi|]. split; [exact Hx|]. rewrite cy_run_two by auto.
      symmetry. apply span_blocks.
    - apply in_map_iff. exists (kl, kr). split; [reflexivity|]. destruct kl, kr; cbn; tauto.
    - apply blk_dead with i (i + 1)%nat; [|exact HN]. intros p Hp H.
      assert (WD : forall i s, no_word NT phi b i (NT + s) -> phi [0; b; i; s]%nat = None).
      { intros i' s [_ E]. now replace (NT + s - NT)%nat with s in E by lia. }
      pose proof (@kind_l kl kr p Hp) as K1. pose proof (kind_r kr p) as K2.
      destruct kl, kr; cbn [kn ko of_kind yz Nat.add] in *.
      + destruct H as [[H _]|[H _]]; lia.
      + apply mul_dead. destruct H as [[H _]|H]; [lia|]. right. cbn [leval]. now apply WD.
      + apply mul_dead. destruct H as [H|[H _]]; [|lia]. left. cbn [leval]. now apply WD.
      + apply mul_dead. destruct H as [H|H]; [left|right]; cbn [leval]; now apply WD.
    - intros y z' Hy Hz. apply blk_reads. left. eauto.
    - intros t Ht ->. apply blk_reads. right. destruct (@kind_pair false kr (NT + t)%nat (ko kr)) as (p & Hp & E1 & E2); [cbn; lia|destruct kr; cbn; lia|].
      exists p. split; [exact Hp|]. destruct kr; cbn [kn ko yz reads] in *; left; repeat f_equal; lia.
    - intros t Ht ->. apply blk_reads. right. destruct (@kind_pair kl false (ko kl) (NT + t)%nat) as (p & Hp & E1 & E2); [destruct kl; cbn; lia|cbn; lia|].
      exists p. split; [exact Hp|]. destruct kl; cbn [kn ko yz reads] in *; right; repeat f_equal; lia.
  Qed.
End Block.

(** ** SentCFG *)
Section CfgCall.
  Variables (batch N NT T : nat) (ls : option (list nat)).
  Notation c := (CCfg batch N NT T ls).
  (** cky.py:49-78 for row b of a call *)
  Definition cfg_row (b : nat) : list term := cfg_values NT T N b (lc_len N ls b).
  Hypothesis V : valid c.
  Lemma cfg_is_row b : (b < batch)%nat -> row_graph c b = cy_one tops NT T N b cfg_pot (lc_len N ls b).
  Proof.
    intro Hb. pose proof V as Ha. cbn [valid] in Ha.
    assert (E : run c tops TLeaf = Ok (map (fun b => cy_one tops NT T N b cfg_pot (lc_len N ls b)) (seq 0 batch))).
    { exact (@cy_logpartition_run tops batch N NT T (tens [batch; N; T] (fun e => TLeaf (0%nat :: e))) (tens [batch; NT; (NT + T)%nat; (NT + T)%nat] (fun e => TLeaf (1%nat :: e)))
        (tens [batch; NT] (fun e => TLeaf (2%nat :: e))) ls Ha eq_refl eq_refl eq_refl). }
    unfold row_graph, graphs. rewrite E. now rewrite nth_map_seq by auto.
  Qed.
  (** graphs that hold what the code computes exist *)
  Theorem cfg_graphs : exists G, records c G /\
    forall b, (b < batch)%nat -> records_values (fun t => In t (cfg_row b)) (fst (G b)) (snd (G b)).
  Proof.
    apply (@graphs_exist c cfg_row V). intros b Hb. cbn [batch_of] in Hb. destruct V as (HN & HNT & HT & _). split.
    - apply Forall_forall.
      assert (WM : forall D (f g : nat -> term), (0 < D)%nat -> (forall q, (q < D)%nat -> twf (f q) /\ twf (g q)) -> twf (TSum (map (fun q => TMul (f q) (g q)) (seq 0 D)))).
      { intros D f g HD H. constructor; [destruct D; [lia|discriminate]|]. apply Forall_forall. intros t Ht. apply in_map_iff in Ht as (q & <- & Hq). apply in_seq in Hq.
        constructor; apply H; lia. }
      destruct (@cy_run_all tops NT T N b cfg_pot twf) as [HA _].
      + constructor.
      + intros cA cB w i x HA HB Hw Hi Hx. rewrite span_blocks. constructor; [discriminate|]. apply Forall_forall. intros t Ht. apply in_map_iff in Ht as ([kl kr] & <- & _).
        cbn [fst snd]. unfold blk. apply (@WM _ (yz NT T b N cA cB w i kl kr) (fun p => TLeaf [1%nat; b; x; (ko NT kl + p / kn NT T kr)%nat; (ko NT kr + p mod kn NT T kr)%nat])).
        * destruct kl, kr; cbn [kn]; apply Nat.mul_pos_pos; assumption.
        * intros p Hp. split; [|constructor]. pose proof (@kind_l NT T HNT HT kl kr p Hp) as K1. pose proof (@kind_r NT T HNT HT kr p) as K2.
          destruct kl, kr; cbn [kn ko of_kind yz Nat.add] in *.
          -- apply (@WM w (fun m => cA i m (p / NT)%nat) (fun m => cB (i + w)%nat (N - w + m)%nat (p mod NT)%nat)); [lia|]. intros q _. split; [apply HA|apply HB]; lia.
          -- constructor; [apply HA; lia|constructor].
          -- constructor; [constructor|apply HB; lia].
          -- constructor; constructor.
      + intros t Ht. unfold cfg_row in Ht. apply in_cfg_values in Ht as [(i & w & x & _ & _ & Hx & ->)| ->]; [now apply HA|].
        apply (@WM NT (fun x => fst (cy_run tops NT T N b cfg_pot) 0%nat (pyidx N (lc_len N ls b)) x) (fun x => croot tops b cfg_pot x) HNT).
        intros q Hq. split; [now apply HA|constructor].
    - rewrite cfg_is_row by auto. unfold cfg_row, cfg_values. apply in_app_iff. right. now left.
  Qed.
  Lemma cfg_blocked_dec phi b : cfg_blocked NT T N phi b \/
    ((forall i kl kr x, (i + 1 < N)%nat -> (x < NT)%nat -> ~ no_rule NT T phi b i (i + 1) kl kr x) /\ exists x, (x < NT)%nat /\ phi [2%nat; b; x] <> None).
  Proof.
    assert (DR : forall i kl kr x, no_rule NT T phi b i (i + 1) kl kr x \/ ~ no_rule NT T phi b i (i + 1) kl kr x).
    { intros i kl kr x. destruct V as (_ & HNT & HT & _). destruct (@no_rule_dec phi NT T b HNT HT i (i + 1)%nat kl kr x) as [H|(y & z & Hy & Hz & Hr & Wy & Wz)]; [now left|right].
      intro H. destruct (H y z Hy Hz) as [Q|[Q|Q]]; auto. }
    destruct (@some_or_none NT (fun x => phi [2%nat; b; x] <> None)) as [HR|HR].
    { intro x. destruct (phi [2%nat; b; x]); [left; discriminate|right; congruence]. }
    2:{ left. right. intros x Hx. specialize (HR x Hx). destruct (phi [2%nat; b; x]); [exfalso; apply HR; discriminate|reflexivity]. }
    assert (D4 : forall i x, (exists kl kr, no_rule NT T phi b i (i + 1) kl kr x) \/ ~ (exists kl kr, no_rule NT T phi b i (i + 1) kl kr x)).
    { intros i x. destruct (DR i true true x), (DR i true false x), (DR i false true x), (DR i false false x); eauto. right. intros ([] & [] & H'); auto. }
    destruct (@some_or_none (N - 1) (fun i => exists x, (x < NT)%nat /\ exists kl kr, no_rule NT T phi b i (i + 1) kl kr x)) as [(i & Hi & x & Hx & kl & kr & H)|H].
    { intro i. destruct (@some_or_none NT (fun x => exists kl kr, no_rule NT T phi b i (i + 1) kl kr x) (D4 i)) as [H|H]; [now left|right]. intros (x & Hx & H'). now apply (H x Hx). }
    - left. left. exists i, kl, kr, x. repeat split; [lia|exact Hx|exact H].
    - right. split; [|exact HR]. intros i kl kr x Hi Hx H'. apply (H i); [lia|]. eauto.
  Qed.
End CfgCall.

(** a block of rules without a usable rule at two neighbouring words of the tensor
    (padding included): the marginals of its rules and of its words are NaN *)
Theorem C82_cfg_nan batch N NT T ls G phi : let c := CCfg batch N NT T ls in valid c -> records c G ->
  forall b i kl kr x, (b < batch)%nat -> (i + 1 < N)%nat -> (x < NT)%nat ->
    records_values (fun t => In t (cfg_row N NT T ls b)) (fst (G b)) (snd (G b)) ->
    no_rule NT T phi b i (i + 1) kl kr x ->
    (forall y z, of_kind NT T kl y -> of_kind NT T kr z -> f_marginals c G phi [1; b; x; y; z]%nat = FNan) /\
    (forall t, (t < T)%nat -> kl = false -> f_marginals c G phi [0; b; i; t]%nat = FNan) /\
    (forall t, (t < T)%nat -> kr = false -> f_marginals c G phi [0; b; (i + 1)%nat; t]%nat = FNan).
Proof.
  cbv zeta. intros V HG b i kl kr x Hb Hi Hx [HR _] HN. unfold cfg_row in HR. destruct (HG b Hb) as [Ht _].
  assert (HNT : (0 < NT)%nat) by apply V. assert (HT : (0 < T)%nat) by apply V.
  destruct (@cfg_dead phi NT T b HNT HT N (lc_len N ls b) i kl kr x Hi Hx HN) as (lss & l & H1 & H2 & D & R1 & R2 & R3).
  destruct (HR _ H1) as (k & Hk & Uk). destruct (unf_sum_node Ht k Uk) as (l' & E & El). rewrite <- El in H2. apply in_map_iff in H2 as (k' & Uk' & Hk').
  assert (L : (k' < k)%nat) by (destruct (topo_sum Ht k E) as [_ F]; apply F; exact Hk').
  assert (N1 : forall e, row_of (CCfg batch N NT T ls) e = b -> reads e (TSum l) -> f_marginals (CCfg batch N NT T ls) G phi e = FNan).
  { intros e He Hr. unfold f_marginals. rewrite He. apply (@fgrad_dead_sum (fst (G b)) phi NEG Ht (snd (G b)) e k' l); auto. lia. }
  split; [|split].
  - intros y z Hy Hz. apply N1; [reflexivity|now apply R1].
  - intros t Ht' Hk1. apply N1; [reflexivity|now apply R2].
  - intros t Ht' Hk1. apply N1; [reflexivity|now apply R3].
Qed.
Print Assumptions C82_cfg_nan.

(** a row has a NaN marginal exactly when it lacks a block of rules or has no root left *)
Theorem C82_cfg_nan_iff batch N NT T ls G phi : let c := CCfg batch N NT T ls in valid c -> records c G ->
  forall b, (b < batch)%nat -> records_values (fun t => In t (cfg_row N NT T ls b)) (fst (G b)) (snd (G b)) ->
    ((exists e, row_of c e = b /\ f_marginals c G phi e = FNan) <-> cfg_blocked NT T N phi b).
Proof.
  cbv zeta. intros V HG b Hb HR. assert (HNT : (0 < NT)%nat) by apply V. assert (HT : (0 < T)%nat) by apply V. destruct (HG b Hb) as [Ht _]. split.
  - intros (e & He & HF). destruct (@cfg_blocked_dec batch N NT T ls V phi b) as [H|[H1 H2]]; [exact H|]. exfalso.
    unfold f_marginals in HF. rewrite He in HF. rewrite (fgrad_live phi NEG Ht e HR) in HF; [discriminate|].
    intros t Hin. apply (@cfg_live phi NT T b HNT HT N (lc_len N ls b) H1 H2 t Hin).
  - intros [(i & kl & kr & x & Hi & Hx & HN)|HN].
    + destruct (@C82_cfg_nan batch N NT T ls G phi V HG b i kl kr x Hb Hi Hx HR HN) as [H _]. eexists. split; [|apply (H (ko NT kl) (ko NT kr))]; [reflexivity|destruct kl; cbn; lia|destruct kr; cbn; lia].
    + exists [2%nat; b; 0%nat]. split; [reflexivity|]. destruct HR as [HR _].
      destruct (HR (cy_one tops NT T N b cfg_pot (lc_len N ls b))) as (k & Hk & Uk); [unfold cfg_row; apply in_cfg_values; right; reflexivity|].
      unfold f_marginals. cbn [row_of nth]. apply (@fgrad_dead_sum (fst (G b)) phi NEG Ht (snd (G b)) [2%nat; b; 0%nat] k _ Hk Uk).
      * apply sum_dead. intros t Hin. apply in_map_iff in Hin as (x & <- & Hx). apply in_seq in Hx. apply mul_dead. right. cbn [leval croot cfg_pot]. apply HN. lia.
      * cbn [reads]. apply fold_or. eexists. split; [apply in_map_iff; exists 0%nat; split; [reflexivity|apply in_seq; lia]|]. cbn [reads]. right. reflexivity.
Qed.
Print Assumptions C82_cfg_nan_iff.

(** every block keeps a rule: the marginals are the expected uses given that the parse is
    allowed, up to the leak of the finite zero; forbidden entries have marginal 0 up to
    that leak *)
Theorem C82_cfg_marginals batch N NT T ls G phi B : let c := CCfg batch N NT T ls in valid c -> records c G -> 0 <= B ->
  (forall e x, phi e = Some x -> Rabs x <= B) ->
  forall b e, row_ok c b -> row_of c e = b -> let S := spec_of c b in
    records_values (fun t => In t (cfg_row N NT T ls b)) (fst (G b)) (snd (G b)) ->
    ~ cfg_blocked NT T N phi b -> (exists s, ok S s /\ allowed (prt S) phi s) ->
    exists x, f_marginals c G phi e = FR x /\
      (forall l, Enumerates (ok S) l -> Rabs (x - cond_marg (prt S) l phi e) <= INR (degree c b) * leak c b B) /\
      (phi e = None -> Rabs x <= INR (degree c b) * leak c b B).
Proof.
  cbv zeta. intros V HG HB0 HB b e Hb He HR HN Ha. set (c := CCfg batch N NT T ls) in *.
  assert (HNT : (0 < NT)%nat) by apply V. assert (HT : (0 < T)%nat) by apply V.
  destruct (@cfg_blocked_dec batch N NT T ls V phi b) as [H|[H1 H2]]; [contradiction|].
  assert (HX : xbounded c B phi) by (right; exact HB).
  destruct (@live_marginals c G phi B _ V HG HB0 HX b e Hb He HR) as (x & Ex & Hx); auto.
  { intros t Hin. apply (@cfg_live phi NT T b HNT HT N (lc_len N ls b) H1 H2 t Hin). }
  exists x. split; [exact Ex|]. split; [exact Hx|]. intro Hn.
  destruct (row_family V Hb) as (F & HF).
  assert (Hl : exists l, Enumerates (ok (spec_of c b)) l) by (rewrite <- (ir_spec HF); exists (flist F); apply (fenum F)).
  destruct Hl as [l Hl]. specialize (Hx _ Hl). rewrite cond_marg_forbidden, Rminus_0_r in Hx by auto. exact Hx.
Qed.
Print Assumptions C82_cfg_marginals.

(** ** The hypotheses are met *)
(** example: nonterminal 1 has no rule with two nonterminals *)
Definition ex_no_nn (e : list nat) : ext :=
  match e with [1; _; 1; y; z]%nat => if (y <? 2)%nat && (z <? 2)%nat then None else Some (ex_phi e) | _ => Some (ex_phi e) end.
(** example: word 3, which is padding in row 1, has no preterminal *)
Definition ex_no_pad (e : list nat) : ext := match e with [0; _; 3; _]%nat => None | _ => Some (ex_phi e) end.
(** example: one rule and one word are forbidden, and other rules remain *)
Definition ex_one_rule (e : list nat) : ext :=
  match e with [1; _; 1; 0; 0]%nat => None | [0; _; 2; 1]%nat => None | _ => Some (ex_phi e) end.
(** NaN in the first two cases and numbers in the third; parses remain in all of them *)
Example ex_C82 : exists G, records ex_cfg G /\
  (forall b, (b < 2)%nat -> f_marginals ex_cfg G ex_no_nn [1; b; 1; 0; 1]%nat = FNan) /\
  f_marginals ex_cfg G ex_no_pad [1; 1; 0; 1; 2]%nat = FNan /\
  (forall b e, (b < 2)%nat -> row_of ex_cfg e = b -> exists x, f_marginals ex_cfg G ex_one_rule e = FR x) /\
  (forall b phi, (b < 2)%nat -> phi = ex_no_nn \/ (phi = ex_no_pad /\ b = 1%nat) \/ phi = ex_one_rule ->
    exists s, ok (spec_of ex_cfg b) s /\ allowed (prt (spec_of ex_cfg b)) phi s).
Proof.
  assert (V : valid ex_cfg) by (cbn; repeat split; try lia; repeat constructor; lia).
  destruct (cfg_graphs V) as (G & HG & HR). exists G. split; [exact HG|].
  assert (HP : forall b phi, (b < 2)%nat -> phi = ex_no_nn \/ (phi = ex_no_pad /\ b = 1%nat) \/ phi = ex_one_rule ->
    exists s, ok (spec_of ex_cfg b) s /\ allowed (prt (spec_of ex_cfg b)) phi s).
  { intros b phi Hb H. destruct b as [|[|b]]; [exists (PN 0 (PT 0) (PN 0 (PT 0) (PN 0 (PT 0) (PT 0))))|exists (PN 0 (PT 0) (PN 0 (PT 0) (PT 0)))|lia];
      (split; [vm_compute; repeat split; lia|apply allowedb]); destruct H as [->|[[-> H]| ->]]; try discriminate; reflexivity. }
  split; [|split; [|split; [|exact HP]]].
  - intros b Hb. refine (proj1 (@C82_cfg_nan 2%nat 4%nat 2%nat 3%nat (Some [4; 3]%nat) G ex_no_nn V HG b 0%nat true true 1%nat Hb ltac:(lia) ltac:(lia) (HR b Hb) _) 0%nat 1%nat _ _); [|cbn; lia|cbn; lia].
    intros y z Hy Hz. left. cbn in Hy, Hz. apply Nat.ltb_lt in Hy. apply Nat.ltb_lt in Hz. unfold ex_no_nn. now rewrite Hy, Hz.
  - refine (proj1 (@C82_cfg_nan 2%nat 4%nat 2%nat 3%nat (Some [4; 3]%nat) G ex_no_pad V HG 1%nat 2%nat true false 0%nat ltac:(lia) ltac:(lia) ltac:(lia) (HR 1%nat ltac:(lia)) _) 1%nat 2%nat _ _); [|cbn; lia|cbn; lia].
    intros y z Hy Hz. right. right. cbn in Hz. split; [lia|reflexivity].
  - intros b e Hb He. assert (RO : row_ok ex_cfg b) by (split; [exact Hb|]; destruct b as [|[|b]]; cbn; lia).
    destruct (@C82_cfg_marginals 2%nat 4%nat 2%nat 3%nat (Some [4; 3]%nat) G ex_one_rule 3 V HG ltac:(lra)) with (b := b) (e := e) as (x & Ex & _); auto; [| |eauto].
    + intros e' x E. assert (H : ex_one_rule e' = None \/ ex_one_rule e' = Some (ex_phi e')).
      { unfold ex_one_rule. repeat match goal with |- context [match ?l with _ => _ end] => destruct l end; auto. }
      destruct H as [H|H]; rewrite H in E; [discriminate|]. injection E as <-. apply ex_phi_abs.
    + intros [(i & kl & kr & x & Hi & Hx & H)|H]; [|discriminate (H 0%nat ltac:(lia))].
      assert (W : forall i, ~ no_word 2 ex_one_rule b i 2) by (intros i' [_ Q]; destruct i' as [|[|[|i']]]; discriminate).
      destruct kl, kr.
      * destruct (H 1%nat 1%nat) as [Q|[[Q _]|[Q _]]]; try (cbn; lia). destruct x as [|[|x]]; discriminate.
      * destruct (H 0%nat 2%nat) as [Q|[[Q _]|Q]]; try (cbn; lia); [destruct x as [|[|x]]; discriminate|now apply W in Q].
      * destruct (H 2%nat 0%nat) as [Q|[Q|[Q _]]]; try (cbn; lia); [destruct x as [|[|x]]; discriminate|now apply W in Q].
      * destruct (H 2%nat 2%nat) as [Q|[Q|Q]]; try (cbn; lia); [destruct x as [|[|x]]; discriminate|now apply W in Q|now apply W in Q].
Qed.
