(** * P_TreeLstm (C68): the Tree-LSTM of examples/networks/TreeLSTM.py on the graphs of
    to_networkx. *)
From Coq Require Import ZArith Reals Lra FunctionalExtensionality.
From Verif Require Import Base Ops CkyCrf Tensor Codec Semirings AutoReg Networkx P_Graph ListOps P_ListOps TreeLstm.
Set Implicit Arguments.
Local Open Scope nat_scope.

Lemma mem_in v l : mem v l = true <-> In v l.
Proof. unfold mem. rewrite existsb_exists. split; [intros (x & H & E); apply Nat.eqb_eq in E; now subst|]. intro H. exists v. split; auto. apply Nat.eqb_refl. Qed.

Section Graph.
  Variables (N batch : nat) (fs : nat -> list ltree) (nodes : list node) (n_nodes : Z) (a b label : list nat)
    (indices : nat -> nat -> option (nat * nat)) (topo : list (list nat)).
  Hypothesis G : is_graph N batch fs nodes n_nodes a b label indices topo.
  Hypothesis Hsize : forall r, r < batch -> fsize (fs r) <= N.
  Let num (x : node) := posn x nodes.
  Lemma num_inj x y : In x nodes -> In y nodes -> num x = num y -> x = y.
  Proof. intros Hx Hy E. apply posn_spec in Hx, Hy. unfold num in E. congruence. Qed.
  Lemma num_lt x : In x nodes -> num x < length nodes.
  Proof. intro H. apply posn_spec in H. apply nth_error_Some. unfold num. congruence. Qed.
  (** spec: the parts of a node *)
  Definition kids (x : node) : list node := match x with (r, (i, LNode _ p q)) => [(r, (i, p)); (r, (i + lsize p, q))] | _ => [] end.
  Lemma kids_in x y : In x nodes -> In y (kids x) -> In y nodes /\ nheight y < nheight x.
  Proof.
    destruct x as [r [i [z|z p q]]]; intros Hx Hy; [destruct Hy|]. apply (ig_nodes G) in Hx as [Hr Hx]. destruct (fnodes_child _ _ _ _ _ _ Hx) as [Hp Hq].
    cbn [kids] in Hy. destruct Hy as [<-|[<-|[]]]; (split; [apply (ig_nodes G); auto|unfold nheight; cbn [snd lheight]; lia]).
  Qed.
  Lemma edges_of x : In x nodes -> in_edges a b (num x) = map num (kids x).
  Proof.
    intro Hx. unfold in_edges. rewrite (ig_from G), (ig_to G).
    assert (H : forall l, incl l nodes -> NoDup l ->
      map fst (filter (fun e : nat * nat => snd e =? num x) (combine
        (flat_map (fun x => match x with (r, (i, LNode _ p q)) => [posn (r, (i, p)) nodes; posn (r, (i + lsize p, q)) nodes] | _ => [] end) l)
        (flat_map (fun x => match x with (_, (_, LNode _ _ _)) => [posn x nodes; posn x nodes] | _ => [] end) l)))
      = if in_dec node_dec x l then map num (kids x) else []).
    { induction l as [|y l IH]; intros Hi Hn; [reflexivity|]. inversion Hn as [|? ? Hy Hl]; subst.
      specialize (IH (fun z Hz => Hi z (or_intror Hz)) Hl).
      destruct (in_dec node_dec x (y :: l)) as [L|L].
      - destruct L as [->|L].
        + destruct (in_dec node_dec x l) as [|_]; [contradiction|]. destruct x as [r [i [z|z p q]]]; cbn [flat_map app combine]; [exact IH|].
          cbn [filter snd]. unfold num at 1 2. rewrite Nat.eqb_refl. cbn [map fst kids]. f_equal. f_equal. exact IH.
        + destruct (in_dec node_dec x l) as [_|]; [|contradiction].
          assert (Ne : num y <> num x) by (intro E; apply num_inj in E; auto; [subst; contradiction|apply Hi; left; auto]).
          destruct y as [r [i [z|z p q]]]; cbn [flat_map app combine]; [exact IH|]. cbn [filter snd]. fold (num (r, (i, LNode z p q))).
          destruct (Nat.eqb_spec (num (r, (i, LNode z p q))) (num x)); [contradiction|exact IH].
      - destruct (in_dec node_dec x l) as [L'|_]; [destruct L; right; auto|].
        assert (Ne : num y <> num x) by (intro E; apply num_inj in E; auto; [subst; apply L; left; auto|apply Hi; left; auto]).
        destruct y as [r [i [z|z p q]]]; cbn [flat_map app combine]; [exact IH|]. cbn [filter snd]. fold (num (r, (i, LNode z p q))).
        destruct (Nat.eqb_spec (num (r, (i, LNode z p q))) (num x)); [contradiction|exact IH]. }
    rewrite H; [|apply incl_refl|apply (ig_nodup G)]. destruct (in_dec node_dec x nodes); [reflexivity|contradiction].
  Qed.

  (** levels by height *)
  Definition by_height (k : nat) (L : list (list nat)) : Prop :=
    (forall h v, h < length L -> (In v (nth h L []) <-> exists x, In x nodes /\ nheight x = k + h /\ num x = v)) /\
    (forall x, In x nodes -> nheight x < k + length L).
  Lemma height_N x : In x nodes -> nheight x < N.
  Proof.
    destruct x as [r [i q]]. intro Hx. apply (ig_nodes G) in Hx as [Hr Hx]. pose proof (lheight_lt q). apply fnodes_in in Hx. specialize (Hsize Hr). cbn. lia.
  Qed.
  Lemma topo_height : by_height 0 topo.
  Proof.
    rewrite (ig_topo G). split.
    - intros h v Hh. rewrite map_length, seq_length in Hh. rewrite (nth_indep _ [] (map (fun x => posn x nodes) (filter (fun x => nheight x =? 0) nodes))) by (now rewrite map_length, seq_length).
      rewrite (map_nth (fun h => map (fun x => posn x nodes) (filter (fun x => nheight x =? h) nodes)) (seq 0 N) 0), seq_nth by auto. cbn [Nat.add].
      rewrite in_map_iff. split; intros (x & H1 & H2); exists x.
      + apply filter_In in H2 as [H2 H3]. apply Nat.eqb_eq in H3. auto.
      + destruct H2 as [H2 H3]. split; auto. apply filter_In. split; auto. now apply Nat.eqb_eq.
    - intros x Hx. rewrite map_length, seq_length. now apply height_N.
  Qed.
  (** a node of every smaller height *)
  Lemma heights_below x k : In x nodes -> k <= nheight x -> exists y, In y nodes /\ nheight y = k.
  Proof.
    remember (nheight x) as h eqn:E. revert x E. induction h as [h IH] using (well_founded_induction lt_wf). intros x -> Hx Hk.
    destruct (Nat.eq_dec k (nheight x)) as [->|Ne]; [exists x; auto|]. destruct x as [r [i [z|z p q]]]; [unfold nheight in *; cbn in *; lia|].
    assert (Hs : nheight (r, (i, LNode z p q)) = S (Nat.max (nheight (r, (i, p))) (nheight (r, (i + lsize p, q))))) by reflexivity.
    destruct (Nat.le_ge_cases (nheight (r, (i, p))) (nheight (r, (i + lsize p, q)))).
    - destruct (@kids_in _ (r, (i + lsize p, q)) Hx) as [K1 K2]; [cbn; auto|]. apply (IH (nheight (r, (i + lsize p, q)))) with (x := (r, (i + lsize p, q))); auto. lia.
    - destruct (@kids_in _ (r, (i, p)) Hx) as [K1 K2]; [cbn; auto|]. apply (IH (nheight (r, (i, p)))) with (x := (r, (i, p))); auto. lia.
  Qed.
  Lemma height_n x : In x nodes -> nheight x < length nodes.
  Proof.
    destruct x as [r [i q]]. intro Hx. pose proof (lheight_lt q) as Hq. cbn [nheight snd]. apply Nat.lt_le_trans with (lsize q); [exact Hq|].
    assert (Hl : forall t j, lsize t <= length (lnodes j t)).
    { induction t as [z|z l IHl r' IHr]; intro j; cbn [lnodes lsize length]; [lia|]. rewrite app_length. specialize (IHl j). specialize (IHr (j + lsize l)). lia. }
    apply Nat.le_trans with (length (map (fun y => (r, y)) (lnodes i q))); [rewrite map_length; apply Hl|]. apply NoDup_incl_length.
    - apply FinFun.Injective_map_NoDup; [intros ? ? [=]; auto|apply lnodes_nodup].
    - intros y Hy. apply in_map_iff in Hy as ([j t] & <- & Hy). apply (ig_nodes G) in Hx as [Hr Hx]. apply (ig_nodes G). split; auto.
      clear - Hx Hy. revert Hx. generalize 0. induction (fs r) as [|u l IH]; intros o Hx; [destruct Hx|]. cbn [fnodes] in *. apply in_app_iff in Hx as [Hx|Hx]; apply in_app_iff; [left|right; auto].
      clear IH. revert o Hx. induction u as [z|z p IHp p' IHq]; intros o Hx.
      + cbn [lnodes] in Hx. destruct Hx as [[= <- <-]|[]]. exact Hy.
      + cbn [lnodes] in Hx. destruct Hx as [[= <- <-]|Hx]; [exact Hy|]. cbn [lnodes]. right. apply in_app_iff in Hx as [Hx|Hx]; apply in_app_iff; [left|right]; auto.
  Qed.
  Lemma topo_levels_height fuel : forall k done, (forall x, In x nodes -> (In (num x) done <-> nheight x < k)) ->
    length nodes <= k + fuel -> by_height k (topo_levels (length nodes) a b fuel done).
  Proof.
    induction fuel as [|fuel IH]; intros k done Hd Hf.
    - split; [intros h v Hh; cbn in Hh; lia|]. intros x Hx. pose proof (height_n x Hx). cbn. lia.
    - cbn [topo_levels]. set (fr := filter _ _).
      assert (Hfr : forall v, In v fr <-> exists x, In x nodes /\ nheight x = k + 0 /\ num x = v).
      { intro v. unfold fr. rewrite filter_In, in_seq, andb_true_iff, negb_true_iff, forallb_forall. split.
        - intros [Hv [H1 H2]]. destruct (nth_error nodes v) as [x|] eqn:Ex; [|apply nth_error_None in Ex; lia].
          pose proof (nth_error_In _ _ Ex) as Hx. assert (Ev : num x = v) by (apply posn_nth; [apply (ig_nodup G)|auto]). exists x. split; [auto|]. split; [|auto].
          assert (H1' : k <= nheight x). { destruct (Nat.le_gt_cases k (nheight x)) as [|L]; auto. apply (Hd x Hx) in L. apply mem_in in L. congruence. }
          assert (H2' : forall y, In y (kids x) -> nheight y < k). { intros y Hy. destruct (kids_in x y Hx Hy) as [Hyn _]. apply Hd; auto. apply mem_in, H2. rewrite <- Ev, edges_of by auto. now apply in_map. }
          rewrite Nat.add_0_r. destruct x as [r [i [z|z p q]]]; [unfold nheight in *; cbn in *; lia|]. cbn [kids] in H2'.
          pose proof (H2' _ (or_introl eq_refl)) as P1. pose proof (H2' _ (or_intror (or_introl eq_refl))) as P2. unfold nheight in *. cbn [snd lheight] in *. lia.
        - intros (x & Hx & Hh & <-). pose proof (num_lt x Hx). rewrite Nat.add_0_r in Hh. split; [lia|]. split.
          + destruct (mem (num x) done) eqn:Em; [|reflexivity]. apply mem_in, Hd in Em; auto. lia.
          + intros u Hu. rewrite edges_of in Hu by auto. apply in_map_iff in Hu as (y & <- & Hy). destruct (kids_in x y Hx Hy) as [Hyn Hyh]. apply mem_in, Hd; auto. lia. }
      destruct fr as [|v0 fr'] eqn:Efr.
      + split; [intros h v Hh; cbn in Hh; lia|]. intros x Hx. cbn [length]. rewrite Nat.add_0_r. destruct (Nat.lt_ge_cases (nheight x) k) as [|L]; [auto|].
        destruct (heights_below x Hx L) as (y & Hy & Ey). destruct (proj2 (Hfr (num y))). exists y. split; [auto|]. split; [lia|auto].
      + rewrite <- Efr in *. destruct (IH (S k) (fr ++ done)) as [I1 I2].
        * intros x Hx. rewrite in_app_iff, Hd by auto. split.
          -- intros [L|L]; [|lia]. apply Hfr in L as (y & Hy & Hh & E). apply num_inj in E; auto. subst. lia.
          -- intro L. destruct (Nat.eq_dec (nheight x) k) as [E|E]; [left; apply Hfr; exists x; split; [auto|split; [lia|auto]]|right; lia].
        * lia.
        * split.
          -- intros [|h] v Hh; cbn [nth]; [apply Hfr|]. cbn [length] in Hh. rewrite I1 by lia. replace (k + S h) with (S k + h) by lia. reflexivity.
          -- intros x Hx. specialize (I2 x Hx). cbn [length]. lia.
  Qed.

  Variable m : tlstm.
  (** spec: input of a node *)
  Definition input_of (x : node) : vec := lin (t_hidden m) (W_iou m) (t_emb m (llabel (snd (snd x)))).
  (** state after the levels below k of a pass that starts from s0 *)
  Definition reached (w : R) (s0 : nat -> nstate) (k : nat) (s : nat -> nstate) : Prop :=
    forall x, In x nodes ->
      (nheight x < k -> (s_h (s (num x)), s_c (s (num x))) = recursion m w (snd (snd x)) /\
         (nheight x = 0 -> s_iou (s (num x)) = input_of x)) /\
      (k <= nheight x -> s (num x) = s0 (num x)).
  (** at the start of a pass the leaves hold the gated inputs of w passes *)
  Definition starts (w : R) (s0 : nat -> nstate) : Prop :=
    forall x, In x nodes -> nheight x = 0 -> s_iou (s0 (num x)) = input_of x /\
      s_c (s0 (num x)) = fun k => (w * (gate_i (fun k => input_of x k + b_iou m k) k * gate_u m (fun k => input_of x k + b_iou m k) k))%R.
  Lemma pull_step w s0 fr k s : starts w s0 ->
    (forall v, In v fr <-> exists x, In x nodes /\ nheight x = k /\ num x = v) ->
    reached (w + 1) s0 k s -> exists s', pull m a b s fr = Ok s' /\ reached (w + 1) s0 (S k) s'.
  Proof.
    intros H0 Hfr Hs. assert (Hmem : forall x, In x nodes -> (mem (num x) fr = true <-> nheight x = k)).
    { intros x Hx. rewrite mem_in, Hfr. split; [intros (y & Hy & Hh & E); apply num_inj in E; auto; now subst|]. intro E. exists x. auto. }
    unfold pull. destruct (forallb _ fr) eqn:Enil.
    - (* leaves, or nothing *)
      eexists. split; [reflexivity|]. intros x Hx. destruct (mem (num x) fr) eqn:Em.
      + apply Hmem in Em; auto. split; [|lia]. intros _.
        rewrite forallb_forall in Enil. assert (Hnil : kids x = []).
        { specialize (Enil (num x)). rewrite Hfr in Enil. assert (Ex := edges_of x Hx). rewrite Ex in Enil. destruct (kids x); [reflexivity|]. cbn [map] in Enil.
          discriminate Enil. exists x. auto. }
        destruct x as [r [i [z|z p q]]]; [|discriminate]. assert (nheight (r, (i, LLeaf z)) = 0) by reflexivity.
        destruct (H0 _ Hx H) as [H1 H2]. destruct (Hs _ Hx) as [_ H3]. rewrite H3 by lia. cbn [apply_node_func s_h s_c s_iou recursion snd].
        split; [|auto]. unfold out_of. f_equal; extensionality j; rewrite H1, H2; unfold gate_o, gate_i, gate_u, input_of; cbn [snd llabel].
        * f_equal. f_equal. ring.
        * ring.
      + assert (Ne : nheight x <> k) by (intro E; apply Hmem in E; auto; congruence). destruct (Hs x Hx) as [H1 H2]. split; intro L; [apply H1; lia|apply H2; lia].
    - assert (Hk : k <> 0).
      { intros ->. apply Bool.not_true_iff_false in Enil. apply Enil. apply forallb_forall. intros v Hv. apply Hfr in Hv as (x & Hx & Hh & <-). rewrite edges_of by auto.
        destruct x as [r [i [z|z p q]]]; [reflexivity|]. unfold nheight in Hh. cbn in Hh. lia. }
      replace (forallb _ fr) with true.
      2:{ symmetry. apply forallb_forall. intros v Hv. apply Hfr in Hv as (x & Hx & Hh & <-). rewrite edges_of by auto.
          destruct x as [r [i [z|z p q]]]; [unfold nheight in Hh; cbn in Hh; lia|reflexivity]. }
      eexists. split; [reflexivity|]. intros x Hx. destruct (mem (num x) fr) eqn:Em.
      + apply Hmem in Em; auto. split; [|lia]. intros _. split; [|lia]. rewrite edges_of by auto.
        destruct x as [r [i [z|z p q]]]; [unfold nheight in Em; cbn in Em; lia|]. cbn [kids map].
        destruct (kids_in _ (r, (i, p)) Hx) as [P1 P2]; [left; reflexivity|]. destruct (kids_in _ (r, (i + lsize p, q)) Hx) as [Q1 Q2]; [right; left; reflexivity|].
        destruct (Hs _ P1) as [HP _]. destruct (HP ltac:(lia)) as [EP _]. destruct (Hs _ Q1) as [HQ _]. destruct (HQ ltac:(lia)) as [EQ _].
        cbn [snd] in EP, EQ. cbn [recursion snd]. rewrite <- EP, <- EQ. cbn [fst snd]. reflexivity.
      + assert (Ne : nheight x <> k) by (intro E; apply Hmem in E; auto; congruence). destruct (Hs x Hx) as [H1 H2]. split; intro L; [apply H1; lia|apply H2; lia].
  Qed.
  Lemma pass w s0 L : starts w s0 -> by_height 0 L ->
    exists s, prop_nodes m a b L s0 = Ok s /\ starts (w + 1) s /\ forall x, In x nodes -> s_h (s (num x)) = fst (recursion m (w + 1) (snd (snd x))).
  Proof.
    intros H0 [HL1 HL2].
    assert (HL : forall L k s, (forall h v, h < length L -> (In v (nth h L []) <-> exists x, In x nodes /\ nheight x = k + h /\ num x = v)) ->
      reached (w + 1) s0 k s -> exists s', loop (pull m a b) L s = Ok s' /\ reached (w + 1) s0 (k + length L) s').
    { clear HL1 HL2 L. induction L as [|fr L IH]; intros k s HL Hs.
      - exists s. split; [reflexivity|]. cbn [length]. now rewrite Nat.add_0_r.
      - destruct (@pull_step w s0 fr k s H0) as (s1 & E1 & R1); [|exact Hs|].
        + intro v. specialize (HL 0 v). cbn [nth length] in HL. rewrite HL by lia. now rewrite Nat.add_0_r.
        + destruct (IH (S k) s1) as (s2 & E2 & R2); [|exact R1|].
          * intros h v Hh. specialize (HL (S h) v). cbn [nth length] in HL. rewrite HL by lia. now replace (k + S h) with (S k + h) by lia.
          * exists s2. cbn [loop]. rewrite E1. cbn [bind]. split; [exact E2|]. cbn [length]. now replace (k + S (length L)) with (S k + length L) by lia. }
    destruct (HL L 0 s0) as (s & E & R); [exact HL1|intros x Hx; split; [lia|auto]|]. exists s. split; [exact E|]. split.
    - intros x Hx Hh. destruct (R x Hx) as [R1 _]. destruct (R1 (HL2 x Hx)) as [R2 R3]. split; [auto|].
      destruct x as [r [i [z|z p q]]]; [|unfold nheight in Hh; cbn in Hh; lia]. cbn [snd recursion] in R2. unfold out_of in R2. injection R2 as _ R2. rewrite R2. reflexivity.
    - intros x Hx. destruct (R x Hx) as [R1 _]. destruct (R1 (HL2 x Hx)) as [R2 _]. rewrite <- R2. reflexivity.
  Qed.
  Lemma label_nth x : In x nodes -> nth (num x) label 0 = llabel (snd (snd x)).
  Proof.
    intro Hx. rewrite (ig_label G). apply posn_spec in Hx. apply (map_nth_error (fun x => llabel (snd (snd x)))) in Hx.
    now apply nth_error_nth with (d := 0) in Hx.
  Qed.

  (** The class scores of sentence r are those of the recursion on its tree, with the
      cell of every word counted twice. *)
  Theorem C68_forward rows : 1 <= rows <= batch -> (forall x, In x label -> x < t_in m) ->
    (forall r, r < rows -> fs r <> []) ->
    exists outs, tl_forward m ((n_nodes, a, b, label), indices, topo) rows = Ok outs /\ length outs = rows /\
      forall r t ts, r < rows -> fs r = t :: ts -> nth_error outs r = Some (scores m 2 t).
  Proof.
    intros Hrows Hlab Hne. unfold tl_forward. replace (forallb _ label) with true by (symmetry; apply forallb_forall; intros x Hx; apply Nat.ltb_lt; auto). cbn [negb].
    set (s0 := fun v : nat => {| s_iou := _; s_h := _; s_c := _ |}). assert (H0 : starts 0 s0).
    { intros x Hx _. unfold s0. cbn [s_iou s_c]. rewrite label_nth by auto. split; [reflexivity|]. extensionality k. ring. }
    unfold tl_run. rewrite (ig_count G), Nat2Z.id.
    destruct (@pass 0%R s0 (topo_levels (length nodes) a b (length nodes) [])) as (s1 & E1 & S1 & _); [exact H0|apply topo_levels_height; [intros x Hx; cbn; lia|lia]|].
    destruct (@pass (0 + 1)%R s1 topo S1 topo_height) as (s2 & E2 & _ & R2).
    rewrite E1. cbn [bind]. rewrite E2. cbn [bind]. destruct (Nat.eqb_spec rows 0) as [|_]; [lia|].
    assert (Hix : forall r t ts, r < rows -> fs r = t :: ts -> indices r 0 = Some (num (r, (0, t)), lheight t) /\ In (r, (0, t)) nodes).
    { intros r t ts Hr Ef. split; [apply (ig_index G); [lia|rewrite Ef; left; reflexivity]|]. apply (ig_nodes G). split; [lia|]. rewrite Ef. cbn [fnodes]. apply in_app_iff. left. apply lnodes_here. }
    rewrite (mapM_ok _ (fun r => scores m 2 (hd (LLeaf 0) (fs r)))).
    - eexists. split; [reflexivity|]. split; [now rewrite map_length, seq_length|]. intros r t ts Hr Ef.
      rewrite nth_error_map, (nth_error_nth' _ 0) by (now rewrite seq_length). rewrite seq_nth by auto. cbn [option_map Nat.add]. now rewrite Ef.
    - intros r Hr. apply in_seq in Hr. destruct (fs r) as [|t ts] eqn:Ef; [destruct (Hne r); [lia|auto]|]. destruct (Hix r t ts) as [-> Hx]; [lia|auto|].
      rewrite (R2 _ Hx). cbn [snd hd]. unfold scores. replace (0 + 1 + 1)%R with 2%R by lra. reflexivity.
  Qed.
End Graph.
Print Assumptions C68_forward.

(** The reward of sample k of sentence b is a function of that sample's tree and that
    sentence's words only: not of the other samples and sentences, nor of the padding. *)
Theorem C68_reward m spans words batch N K V cls (us : nat -> ltree) (len : nat -> nat) :
  1 <= batch -> 1 <= K -> 1 + V <= t_in m -> shape spans = [K * batch; N; N; 1] ->
  (forall b i, b < batch -> i < N -> words b i < V) ->
  (forall r, r < K * batch -> is_ltree 1 (len r) (us r) /\ len r <= N /\ represents spans r (lparts r 0 (us r))) ->
  exists e, expand_spans spans words batch N K V = Ok e /\ forall perm, is_argsort (nx_keys (Codec.nonzero e)) perm ->
    exists rw, tree_reward m perm spans words batch N K V cls = Ok rw /\
      forall k b, k < K -> b < batch -> rw k b = (- scores m 2 (over_words (words b) 0 (us (k * batch + b)%nat)) (cls b))%R.
Proof.
  intros Hbatch HK HV Hs Hw Hu. destruct (@C67_sample_graph spans words batch N K V us len Hbatch Hs Hw Hu) as (e & E & Hg).
  exists e. split; [exact E|]. intros perm Hp. destruct (Hg perm Hp) as (nodes & n & a & b & la & ix & tp & EG & G).
  set (fs := fun r => over_words (words (r mod batch)) 0 (us r) :: loose (words (r mod batch)) (len r) N) in *.
  assert (Hfs : forall r, r < batch * K -> Forall (lbounded (1 + V)) (fs r) /\ fsize (fs r) <= N).
  { intros r Hr. destruct (Hu r) as ([Hsz _] & Hlen & _); [lia|]. assert (Hmod : r mod batch < batch) by (apply Nat.mod_upper_bound; lia). split.
    - constructor; [apply over_bounded with (N := N); [auto|lia]|]. apply Forall_forall. intros t Ht. apply in_map_iff in Ht as (i & <- & Hi). apply in_seq in Hi.
      cbn [lbounded]. specialize (Hw (r mod batch) i). lia.
    - unfold fs. cbn [fsize]. unfold loose. rewrite fsize_loose, over_size. lia. }
  destruct (@C68_forward N (batch * K) fs nodes n a b la ix tp G (fun r Hr => proj2 (Hfs r Hr)) m (K * batch)) as (outs & EO & Hl & HO).
  - split; [|lia]. destruct K; [lia|]. cbn. lia.
  - intros x Hx. rewrite (ig_label G) in Hx. apply in_map_iff in Hx as ([r [i q]] & <- & Hx). apply (ig_nodes G) in Hx as [Hr Hx]. cbn [snd].
    assert (llabel q < 1 + V) by (eapply fnodes_label; [exact (proj1 (Hfs r Hr))|exact Hx]). lia.
  - intros r _. discriminate.
  - unfold tree_reward. rewrite E. cbn [bind]. rewrite EG. cbn [bind]. rewrite EO. cbn [bind]. eexists. split; [reflexivity|].
    intros k b0 Hk Hb. cbn beta. assert (Hr : k * batch + b0 < K * batch) by (pose proof (Nat.mul_le_mono_r (S k) K batch ltac:(lia)); lia).
    pose proof (HO (k * batch + b0) _ _ Hr eq_refl) as H. apply nth_error_nth with (d := fun _ => 0%R) in H. rewrite H.
    rewrite Nat.add_comm, Nat.mod_add, Nat.mod_small by lia. now rewrite Nat.add_comm.
Qed.
Print Assumptions C68_reward.
Lemma over_words_ext w w' u : forall i, (forall k, i <= k < i + lsize u -> w k = w' k) -> over_words w i u = over_words w' i u.
Proof.
  induction u as [z|z l IHl r IHr]; intros i H; cbn [over_words lsize] in *; [rewrite H by lia; reflexivity|].
  rewrite IHl, IHr; [reflexivity|intros; apply H; lia|intros; apply H; lia].
Qed.

(** The forward pass is not the Tree-LSTM recursion: run propagates twice, and the second
    pass adds every word's gated input to its cell again. *)
Lemma tanh_double c : c <> 0%R -> tanh (2 * c) <> tanh c.
Proof.
  intros Hc E. unfold tanh, sinh, cosh in E. pose proof (exp_pos c) as Hp. pose proof (exp_pos (- c)) as Hq.
  replace (exp (2 * c)) with (exp c * exp c)%R in E by (rewrite <- exp_plus; f_equal; ring).
  replace (exp (- (2 * c))) with (exp (- c) * exp (- c))%R in E by (rewrite <- exp_plus; f_equal; ring).
  assert (Hpq : (exp c <> exp (- c))%R) by (intro H; apply exp_inv in H; lra).
  set (p := exp c) in *. set (q := exp (- c)) in *.
  assert (H1 : ((p * p - q * q) * (p + q) = (p - q) * (p * p + q * q))%R).
  { assert (L : ((p * p - q * q) / 2 / ((p * p + q * q) / 2) * ((p * p + q * q) * (p + q)) = (p * p - q * q) * (p + q))%R) by (field; nra).
    rewrite E in L. rewrite <- L. field. lra. }
  assert (H2 : ((p - q) * (2 * (p * q)) = 0)%R) by nra. apply Rmult_integral in H2 as [H2|H2]; [lra|]. pose proof (Rmult_lt_0_compat _ _ Hp Hq). lra.
Qed.
(** example: a network *)
Definition ex_m : tlstm := {| t_hidden := 1; t_in := 2; t_out := 2; t_emb := fun _ _ => 1%R; W_iou := fun _ _ => 1%R; U_iou := fun _ _ => 1%R;
  b_iou := fun _ => 0%R; U_f := fun _ _ => 1%R; U_f_bias := fun _ => 0%R; out_w := fun k _ => if k =? 0 then 1%R else 0%R; out_b := fun _ => 0%R |}.
Lemma ex_score w x : scores ex_m w (LLeaf x) 0 = (let h := sigmoid 1 * tanh (w * (sigmoid 1 * tanh 1)) in h - ln (exp h + 1))%R.
Proof.
  unfold scores, log_softmax, lin. cbn -[tanh sigmoid exp ln]. unfold lin, gate_o, gate_i, gate_u. cbn -[tanh sigmoid exp ln].
  replace (1 * 1 + 0 + 0)%R with 1%R by ring. set (h := (sigmoid 1 * tanh (w * (sigmoid 1 * tanh 1)))%R).
  replace (1 * h + 0 + 0)%R with h by ring. replace (0 * h + 0 + 0)%R with 0%R by ring. rewrite exp_0. now rewrite Rplus_0_r.
Qed.
Lemma ex_diff : scores ex_m 2 (LLeaf 1) 0 <> scores ex_m 1 (LLeaf 1) 0.
Proof.
  rewrite !ex_score. cbn zeta. replace (1 * (sigmoid 1 * tanh 1))%R with (sigmoid 1 * tanh 1)%R by ring. set (c := (sigmoid 1 * tanh 1)%R).
  assert (Hs : (0 < sigmoid 1)%R).
  { unfold sigmoid. apply Rinv_0_lt_compat. pose proof (exp_pos (- (1)))%R. lra. }
  assert (Hc : c <> 0%R).
  { unfold c. apply Rmult_integral_contrapositive_currified; [lra|]. unfold tanh, sinh, cosh. pose proof (exp_pos 1)%R. pose proof (exp_pos (- (1)))%R.
    assert (exp (- (1)) < exp 1)%R by (apply exp_increasing; lra).
    intro E. assert (E' : ((exp 1 - exp (- (1))) / 2 = 0)%R); [|lra].
    apply (f_equal (fun x => x * ((exp 1 + exp (- (1))) / 2))%R) in E. rewrite Rmult_0_l in E. rewrite <- E. field. lra. }
  pose proof (tanh_double Hc) as HT. intro E. apply HT. apply Rmult_eq_reg_l with (sigmoid 1); [|lra].
  set (x := (sigmoid 1 * tanh (2 * c))%R) in *. set (y := (sigmoid 1 * tanh c)%R) in *.
  pose proof (exp_pos x) as Hx. pose proof (exp_pos y) as Hy.
  assert (E2 : (exp (x - ln (exp x + 1)) = exp (y - ln (exp y + 1)))%R) by (now rewrite E). unfold Rminus in E2. rewrite !exp_plus, !exp_Ropp, !exp_ln in E2 by lra.
  apply exp_inv. assert (E3 : (exp x * (exp y + 1) = exp y * (exp x + 1))%R); [|lra].
  apply (f_equal (fun z => z * ((exp x + 1) * (exp y + 1)))%R) in E2.
  replace (exp x * / (exp x + 1) * ((exp x + 1) * (exp y + 1)))%R with (exp x * (exp y + 1))%R in E2 by (field; lra).
  replace (exp y * / (exp y + 1) * ((exp x + 1) * (exp y + 1)))%R with (exp y * (exp x + 1))%R in E2 by (field; lra). exact E2.
Qed.
(** example: a chart with one word *)
Definition ex_word : tensor Z := {| shape := [1; 1; 1; 2]; dat := fun e => Z.of_nat (count_occ idx_dec (lparts 0 0 (LLeaf 1)) e) |}.
Theorem C68_recursion_refuted : exists m t spans g outs,
  represents spans 0 (lparts 0 0 t) /\ is_argsort (nx_keys (Codec.nonzero spans)) [0] /\ to_networkx [0] spans = Ok g /\
  tl_forward m g 1 = Ok outs /\ nth_error outs 0 <> Some (scores m 1 t).
Proof.
  exists ex_m, (LLeaf 1), ex_word.
  assert (HA : is_argsort (nx_keys (Codec.nonzero ex_word)) [0]).
  { replace (nx_keys (Codec.nonzero ex_word)) with [0%Z] by (vm_compute; reflexivity). split; [reflexivity|]. cbn [length]. lia. }
  destruct (@C54_graph ex_word [0] 1 1 2 (fun _ => [LLeaf 1])) as (nodes & n & a & b & la & ix & tp & E & G); [reflexivity|exact HA| |].
  { intros r Hr. assert (r = 0) by lia. subst. split; [repeat constructor|]. split; [cbn; lia|]. intros i Hi. reflexivity. }
  destruct (@C68_forward 1 1 (fun _ => [LLeaf 1]) nodes n a b la ix tp G ltac:(cbn; lia) ex_m 1) as (outs & EO & _ & HO).
  - lia.
  - intros x Hx. rewrite (ig_label G) in Hx. apply in_map_iff in Hx as ([r [i q]] & <- & Hx). apply (ig_nodes G) in Hx as [_ [[= <- <-]|[]]]. cbn. lia.
  - discriminate.
  - eexists _, outs. split; [intros i Hi; reflexivity|]. split; [exact HA|]. split; [exact E|]. split; [exact EO|].
    rewrite (HO 0 (LLeaf 1) [] ltac:(lia) eq_refl). intro H. injection H as H. apply ex_diff. now rewrite H.
Qed.
Print Assumptions C68_recursion_refuted.
(** Hypotheses are met: the graph of P_Graph with two rows of different length. *)
Example treelstm_hypotheses : exists nodes n a b la ix tp, to_networkx [4; 0; 3; 5; 7; 8; 6; 1; 2] ex_spans = Ok ((n, a, b, la), ix, tp) /\
  is_graph 3 2 ex_fs nodes n a b la ix tp /\ (forall r, r < 2 -> fsize (ex_fs r) <= 3) /\ (forall r, r < 2 -> ex_fs r <> []).
Proof.
  destruct ex_C54 as (nodes & n & a & b & la & ix & tp & E & G & _). exists nodes, n, a, b, la, ix, tp. split; [exact E|]. split; [exact G|].
  split; intros r Hr; unfold ex_fs; destruct (r =? 0); cbn; (lia || discriminate).
Qed.
