(** * kmax and topk when parts are forbidden (C80).

    With potentials of -inf (C51) [kmax] should list the scores of the best allowed
    structures, and [topk] their parts. It does, in the first slots; but the slots
    beyond the number of allowed structures are filled from the finite -1e5 that
    KMaxSemiring writes into its empty slots, so with k >= 2 a model in which
    everything is forbidden gets a finite best score, where [max] answers -inf. *)
From Coq Require Import Sorted.
From Verif Require Import Base Ops Terms Semirings Poly Chain LinearChain SemiMarkov CkyCrf Cky DepSpec DepTree
  Batch Family Approx Grad Sample Dist Purity Degree Shape Api Query Dag P_Real P_Sample KMax P_KMax Mask P_Mask MaskKMax.
Set Implicit Arguments.
Local Open Scope R_scope.

(** distributions.py:137-150, helpers.py:66-81 on potentials that may be -inf: all k
    slots of the value *)
Definition x_kmax (c : call) (k : nat) (phi : list nat -> ext) : res (list (list ext)) :=
  run c (xkmax_ops k NEG) (fun e => xkmax_convert k NEG (phi e)).
(** every torch.topk (semirings.py:210, 232) returned the positions of the k largest
    entries, in order *)
Definition xtopk_answers (c : call) (G : nat -> dag * nat) (k : nat) (phi : list nat -> ext) (o : nat -> nat -> nat -> nat) : Prop :=
  forall b, (b < batch_of c)%nat ->
    top_node (fst (G b)) k (o b) None xplus (xtopk k) (fwd (fst (G b)) (xkmax_ops k NEG) (fun e => xkmax_convert k NEG (phi e))).

(** what slot values are claimed to be: [l] lists the allowed structures, [ss] the
    best of them, best first *)
Record xk_best (S : spec) (l : list (st S)) (phi : list nat -> ext) (k : nat) (hi : R) (v : list ext) (ss : list (st S)) : Prop := XKBest {
  xb_len : length ss = Nat.min k (length l);
  xb_distinct : NoDup ss;
  xb_ok : forall s, In s ss -> ok S s /\ allowed (prt S) phi s;
  xb_values : exists junk, v = map (fun s => Some (sc (prt S) (fin phi) s)) ss ++ junk /\ forall x, In (Some x) junk -> x <= hi;
  xb_sorted : StronglySorted (fun a b => xle b a) v;
  xb_best : forall s s', ok S s -> allowed (prt S) phi s -> ~ In s ss -> In s' ss -> sc (prt S) (fin phi) s <= sc (prt S) (fin phi) s'
}.

(** ** The root of a row's graph is never a potential *)
Lemma ck_inner NT N b pot : forall ws s, (forall i k, inner (fst s i k)) ->
  forall i k, inner (fst (fold_left (ck_step tops NT N pot b) ws s) i k).
Proof.
  induction ws as [|w ws IH]; intros [cA cB] H; [exact H|]. cbn [fold_left]. apply IH. intros i k. cbn [ck_step fst].
  destruct (_ && _); [exact I|apply H].
Qed.
Lemma dp_inner N st arc : forall ks s, (forall i k, inner (acr s i k)) ->
  forall i k, inner (acr (fold_left (dp_step tops N st arc) ks s) i k).
Proof.
  induction ks as [|k ks IH]; intros s H; [exact H|]. cbn [fold_left]. apply IH. intros i j. cbn [dp_step acr]. unfold setA.
  destruct (_ && _ && _); [exact I|apply H].
Qed.
Lemma dp_init_inner N i k : inner (acr (dp_init tops N) i k).
Proof. simpl. unfold fill. destruct (k =? 0)%nat; exact I. Qed.
Lemma graph_inner c b : valid c -> (b < batch_of c)%nat -> inner (row_graph c b).
Proof.
  intros V Hb. unfold row_graph, graphs.
  destruct c as [batch N C ls|batch N K C ls|batch N NT ls|batch N NT T ls|mr batch n lab ls]; simpl in V, Hb |- *.
  - rewrite (lc_logpartition_run tops (tens [batch; (N - 1)%nat; C; C] TLeaf) V eq_refl), nth_map_seq by auto.
    unfold lc_one. destruct (scan _ _ _ _); exact I.
  - rewrite (sm_logpartition_run tops (tens [batch; (N - 1)%nat; K; C; C] TLeaf) V eq_refl), nth_map_seq by auto.
    unfold sm_one. destruct (scan _ _ _ _); exact I.
  - rewrite (ck_logpartition_run tops (tens [batch; N; N; NT] TLeaf) V eq_refl), nth_map_seq by auto.
    unfold ck_one, ck_run. apply ck_inner. intros i k. cbn [ck_init fst]. destruct (_ && _); exact I.
  - rewrite (@cy_logpartition_run tops batch N NT T) by (exact V || reflexivity). rewrite nth_map_seq by auto. exact I.
  - destruct V as [V _]. rewrite (@dp_logpartition_run tops mr TZero batch n lab) by (exact V || reflexivity).
    rewrite nth_map_seq by auto. unfold dp_one, dp_root, dp_run. destruct mr; [apply dp_inner, dp_init_inner|].
    destruct (_ && _); [exact I|apply dp_inner, dp_init_inner].
Qed.

(** ** The k best allowed structures of one row *)
Lemma filter_map_comm A B (f : A -> B) (p : B -> bool) l : filter p (map f l) = map f (filter (fun x => p (f x)) l).
Proof. induction l as [|x l IH]; simpl; auto. destruct (p (f x)); simpl; now rewrite IH. Qed.
Lemma filter_andb A (p q : A -> bool) l : filter q (filter p l) = filter (fun x => p x && q x) l.
Proof. induction l as [|x l IH]; simpl; auto. destruct (p x); simpl; [destruct (q x)|]; now rewrite IH. Qed.
Lemma forallb_perm A (p : A -> bool) l l' : Permutation l l' -> forallb p l = forallb p l'.
Proof.
  induction 1 as [|x l l' _ IH|x y l|l1 l2 l3 _ IH1 _ IH2]; simpl; auto; try congruence.
  rewrite !andb_assoc. now rewrite (andb_comm (p y)).
Qed.
Section Best.
  Variables (F : family) (k : nat) (phi : list nat -> ext) (B : R) (D : nat).
  Hypothesis Hk : (0 < k)%nat.
  Hypothesis HB : forall e, Rabs (fin phi e) <= B.
  Hypothesis HD : forall m, In m (expand (ft F)) -> (nleaf m <= D)%nat.
  Hypothesis HD1 : (1 <= D)%nat.
  Hypothesis HR : 2 * (INR D * B) < 100000.
  Notation fsc := (sc (fparts F) (fin phi)).
  Notation al := (forallb (fun e => negb (is_none (phi e)))).
  Notation xs := (xscore phi NEG).

  Variables (P rest : list deriv).
  Hypothesis HPl : length P = k.
  Hypothesis HP : Permutation (expand (kt k (ft F))) (P ++ rest).
  Hypothesis HV : map xs P = xtopk k (map xs (expand (kt k (ft F)))).
  (** proof device: derivations of allowed structures *)
  Definition good (m : deriv) : bool := pure m && mok phi m.
  (** proof device: the allowed structures *)
  Definition alist : list (fst_ F) := filter (fun s => al (fparts F s)) (flist F).
  Notation n := (Nat.min k (length alist)).
  Notation y := (- (INR D * B)).
  Lemma xlow m : In m (expand (kt k (ft F))) -> good m = false -> xs m = None \/ exists r, xs m = Some r /\ r <= NEG + INR D * B.
  Proof.
    intros Hm Hg. unfold good in Hg. rewrite xscore_mok. destruct (mok phi m); [|now left]. right. eexists. split; [reflexivity|].
    apply (@low_score F k (fin phi) B D Hk HB HD HD1 P HPl m Hm). now rewrite andb_true_r in Hg.
  Qed.
  Lemma xhigh m : In m (expand (kt k (ft F))) -> good m = true -> exists r, xs m = Some r /\ y <= r.
  Proof.
    intros Hm Hg. unfold good in Hg. apply andb_true_iff in Hg as [H1 H2]. rewrite xscore_mok, H2. eexists. split; [reflexivity|].
    apply (@high_score F k (fin phi) B D Hk HB HD HD1 P HPl m Hm H1).
  Qed.
  Lemma good_derivations : Permutation (map (fun m => msort (leaves m)) (filter good (expand (kt k (ft F)))))
                                       (map (fun s => msort (fparts F s)) alist).
  Proof.
    assert (E : filter good (expand (kt k (ft F))) = filter (fun m => al (msort (leaves m))) (filter pure (expand (kt k (ft F))))).
    { rewrite filter_andb. apply filter_ext. intro m. unfold good, mok. f_equal. apply forallb_perm. symmetry. apply msort_perm. }
    assert (E2 : alist = filter (fun s => al (msort (fparts F s))) (flist F)).
    { apply filter_ext. intro s. apply forallb_perm. symmetry. apply msort_perm. }
    rewrite E, E2, <- (filter_map_comm (fun m => msort (leaves m)) al), <- (filter_map_comm (fun s => msort (fparts F s)) al).
    apply perm_filter. rewrite kt_pure. apply ft_derivations.
  Qed.
  Lemma good_count : length (filter good (expand (kt k (ft F)))) = length alist.
  Proof. pose proof (Permutation_length good_derivations) as H. now rewrite !map_length in H. Qed.
  Lemma cge_good l : (forall m, In m l -> In m (expand (kt k (ft F)))) -> cge y (fins (map xs l)) = length (filter good l).
  Proof.
    induction l as [|m l IH]; intro H; auto. cbn [map filter fins flat_map]. fold (fins (map xs l)).
    specialize (IH (fun m Hm => H m (or_intror Hm))). assert (Hm := H m (or_introl eq_refl)). destruct (good m) eqn:E.
    - destruct (xhigh m Hm E) as (r & -> & Hr). cbn [app]. rewrite cge_cons, IH. unfold geb. destruct (Rle_dec y r); [reflexivity|contradiction].
    - destruct (xlow m Hm E) as [->|(r & -> & Hr)]; [exact IH|]. cbn [app]. rewrite cge_cons, IH. unfold geb.
      destruct (Rle_dec y r); [|reflexivity]. unfold NEG in *. lra.
  Qed.
  Lemma xPin m : In m P -> In m (expand (kt k (ft F))).
  Proof. intro H. eapply Permutation_in; [symmetry; exact HP|]. apply in_or_app. now left. Qed.
  Lemma xP_desc : xdesc (map xs P).
  Proof. rewrite HV. apply xtopk_desc. Qed.
  Lemma P_good_count : length (filter good P) = n.
  Proof. rewrite <- cge_good by apply xPin. rewrite HV, fins_topk, cge_topk, cge_good by auto. now rewrite good_count. Qed.
  (** derivations of allowed structures come first *)
  Lemma good_first l : xdesc (map xs l) -> (forall m, In m l -> In m (expand (kt k (ft F)))) ->
    l = filter good l ++ filter (fun m => negb (good m)) l.
  Proof.
    induction l as [|m l IH]; intros Hd Hin; auto. cbn [map] in Hd. inversion_clear Hd as [|? ? Hd' Hx].
    cbn [filter]. destruct (good m) eqn:E; cbn [negb app].
    - f_equal. apply IH; auto. intros; apply Hin; now right.
    - assert (Hn : filter good l = []).
      { destruct (filter good l) as [|m' q] eqn:Ef; auto. exfalso.
        assert (Hm' : In m' (filter good l)) by (rewrite Ef; now left). apply filter_In in Hm' as [Hm' Hp'].
        rewrite Forall_forall in Hx. specialize (Hx (xs m') (in_map _ _ _ Hm')).
        destruct (xhigh m' (Hin m' (or_intror Hm')) Hp') as (r' & E' & Hr').
        destruct (xlow m (Hin m (or_introl eq_refl)) E) as [E1|(r & E1 & Hr)]; rewrite E', E1 in Hx; simpl in Hx; auto.
        unfold NEG in *. lra. }
      rewrite Hn. cbn [app]. f_equal. rewrite IH at 1; auto; [now rewrite Hn|]. intros; apply Hin; now right.
  Qed.

  Theorem xbest_structures : exists ss low,
    map xs P = map (fun s => Some (fsc s)) ss ++ low /\ length ss = n /\ NoDup ss /\ (forall s, In s ss -> In s alist) /\
    (forall s s', In s alist -> ~ In s ss -> In s' ss -> fsc s <= fsc s') /\
    (forall x, In (Some x) low -> x <= NEG + INR D * B) /\
    (forall i e d, (i < n)%nat -> cnt e (nth i P []) = uses (fparts F) e (nth i ss d)).
  Proof.
    pose (Q := filter good P). pose (Rp := filter good rest).
    assert (HQ : P = Q ++ filter (fun m => negb (good m)) P) by (apply good_first; [apply xP_desc|apply xPin]).
    assert (Hperm : Permutation (map (fun m => msort (leaves m)) (Q ++ Rp)) (map (fun s => msort (fparts F s)) alist)).
    { eapply Permutation_trans; [|apply good_derivations]. apply Permutation_map. unfold Q, Rp. rewrite <- filter_app.
      apply perm_filter. now symmetry. }
    apply Permutation_map_inv in Hperm as (l3 & E3 & P3).
    assert (HlQ : length Q = n) by apply P_good_count.
    pose (ss := firstn n l3).
    assert (HEs : map (fun m => msort (leaves m)) Q = map (fun s => msort (fparts F s)) ss).
    { unfold ss. rewrite <- firstn_map, <- E3, map_app. rewrite firstn_app, map_length, HlQ, Nat.sub_diag. cbn [firstn].
      rewrite app_nil_r. symmetry. apply firstn_all2. rewrite map_length, HlQ. auto. }
    assert (HEr : map (fun m => msort (leaves m)) Rp = map (fun s => msort (fparts F s)) (skipn n l3)).
    { rewrite <- skipn_map, <- E3, map_app. rewrite skipn_app, map_length, HlQ, Nat.sub_diag. cbn [skipn].
      rewrite skipn_all2; [reflexivity|]. rewrite map_length, HlQ. auto. }
    assert (Hsplit : l3 = ss ++ skipn n l3) by (symmetry; apply firstn_skipn).
    assert (Hlen : length ss = n) by (pose proof (f_equal (@length _) HEs) as H; rewrite !map_length in H; congruence).
    assert (Hmatch : forall m s, good m = true -> msort (leaves m) = msort (fparts F s) -> xs m = Some (fsc s) /\ forall e, cnt e m = uses (fparts F) e s).
    { intros m s Hg E. apply andb_true_iff in Hg as [Hp Hok]. assert (Hperm : Permutation (leaves m) (fparts F s)).
      { rewrite <- (msort_perm (leaves m)), E. apply msort_perm. }
      split; [rewrite xscore_mok, Hok; f_equal; now apply perm_score|intro e; now apply perm_cnt]. }
    assert (Hnd : NoDup l3) by (eapply Permutation_NoDup; [exact P3|apply NoDup_filter, (fenum F)]).
    exists ss, (map xs (filter (fun m => negb (good m)) P)).
    assert (HpQ : forall m, In m Q -> good m = true) by (intros m Hm; now apply filter_In in Hm).
    split; [|split; [|split; [|split; [|split; [|split]]]]]; auto.
    - rewrite HQ at 1. rewrite map_app. f_equal.
      clear - HEs HpQ Hmatch. revert HEs HpQ. generalize Q, ss. clear Q ss.
      induction Q as [|m Q IH]; intros [|s ss] E HpQ; try discriminate; auto. simpl in E. injection E as E1 E2.
      simpl. f_equal; [apply Hmatch; auto; apply HpQ; now left|]. apply IH; auto. intros; apply HpQ; now right.
    - rewrite Hsplit in Hnd. now apply NoDup_app_l in Hnd.
    - intros s Hs. eapply Permutation_in; [symmetry; exact P3|]. rewrite Hsplit. apply in_or_app. now left.
    - intros s s' Hs Hns Hs'. assert (H3 : In s l3) by (eapply Permutation_in; [exact P3|exact Hs]).
      rewrite Hsplit in H3. apply in_app_iff in H3 as [H3|H3]; [contradiction|].
      assert (E1 : In (msort (fparts F s)) (map (fun m => msort (leaves m)) Rp)) by (rewrite HEr; apply in_map_iff; eauto).
      assert (E2 : In (msort (fparts F s')) (map (fun m => msort (leaves m)) Q)) by (rewrite HEs; apply in_map_iff; eauto).
      apply in_map_iff in E1 as (m & Em & Hm). apply in_map_iff in E2 as (m' & Em' & Hm').
      apply filter_In in Hm as [Hm Hpm]. pose proof (HpQ m' Hm') as Hpm'. apply filter_In in Hm' as [Hm' _].
      destruct (xtopk_rest k (map xs (expand (kt k (ft F))))) as (r2 & Pr & Hr).
      assert (HH : Permutation (map xs rest) r2).
      { apply Permutation_app_inv_l with (l := map xs P). rewrite HV at 2. rewrite <- Pr, <- map_app. apply Permutation_map. now symmetry. }
      assert (L : xle (xs m) (xs m')).
      { apply Hr; [rewrite <- HV; now apply in_map|]. eapply Permutation_in; [exact HH|]. now apply in_map. }
      rewrite (proj1 (Hmatch m s Hpm Em)), (proj1 (Hmatch m' s' Hpm' Em')) in L. exact L.
    - intros x Hx. apply in_map_iff in Hx as (m & E & Hm). apply filter_In in Hm as [Hm Hp].
      apply negb_true_iff in Hp. destruct (xlow m (xPin m Hm) Hp) as [E1|(r & E1 & Hr)]; rewrite E1 in E; [discriminate|]. now injection E as <-.
    - intros i e d Hi. assert (HiQ : (i < length Q)%nat) by (rewrite HlQ; auto). rewrite HQ, app_nth1 by auto.
      apply Hmatch; [apply HpQ, nth_In; auto|].
      pose proof (f_equal (fun l => nth i l (msort (leaves []))) HEs) as E. cbv beta in E.
      rewrite (map_nth (fun m => msort (leaves m)) Q [] i) in E. rewrite E.
      rewrite (nth_indep _ _ (msort (fparts F d))) by (rewrite map_length, Hlen; auto).
      apply (map_nth (fun s => msort (fparts F s))).
  Qed.
End Best.

(** ** Rows *)
Section Rows.
  Variables (c : call) (G : nat -> dag * nat) (k : nat) (phi : list nat -> ext) (o : nat -> nat -> nat -> nat).
  Hypothesis V : valid c.
  Hypothesis Hk : (0 < k)%nat.
  Hypothesis HG : records c G.
  Hypothesis Ho : xtopk_answers c G k phi o.
  Notation val := (leval (xkmax_ops k NEG) (fun e => xkmax_convert k NEG (phi e))).
  Lemma xdpick_spec b : (b < batch_of c)%nat -> let g := fst (G b) in let r := snd (G b) in
    map (xscore phi NEG) (map (dpick g k (o b) r) (seq 0 k)) = val (unf g r) /\
    exists rest, Permutation (expand (kt k (unf g r))) (map (dpick g k (o b) r) (seq 0 k) ++ rest).
  Proof.
    intros Hb g r. destruct (HG Hb) as [Ht _].
    rewrite <- (fwd_unf Ht (xkmax_ops k NEG) (fun e => xkmax_convert k NEG (phi e))).
    apply (@dtop_spec g k (o b) Ht Hk ext None xplus (xtopk k) (xscore phi NEG) val); auto.
    - exact (fwd_unf Ht (xkmax_ops k NEG) (fun e => xkmax_convert k NEG (phi e))).
    - intros t W. now apply xkmax_length.
    - apply xscore_app.
    - intro e. now apply val_leaf.
    - intro e. now apply val_over.
    - apply val_one.
    - apply val_zero.
    - exact (Ho Hb).
  Qed.
  Lemma xidx_range b : (b < batch_of c)%nat -> idx_range (fst (G b)) k (o b).
  Proof.
    intro Hb. destruct (HG Hb) as [Ht _].
    apply (@top_range (fst (G b)) k (o b) Ht Hk ext None xplus (xtopk k) val (fwd (fst (G b)) (xkmax_ops k NEG) (fun e => xkmax_convert k NEG (phi e))) (fwd_unf Ht (xkmax_ops k NEG) (fun e => xkmax_convert k NEG (phi e)))).
    - intros t W. now apply xkmax_length.
    - exact (Ho Hb).
  Qed.
  Lemma xkgrad_row x e b : (b < batch_of c)%nat -> row_of c e = b ->
    q_kgrad c G k o x e = RSum (fun i => x i * cnt e (dpick (fst (G b)) k (o b) (snd (G b)) i)) (seq 0 k).
  Proof.
    intros Hb He. unfold q_kgrad. rewrite (@RSum_only _ _ _ b).
    - destruct (HG Hb) as [Ht _]. apply (@kgrad_range _ k (o b) Ht Hk). now apply xidx_range.
    - apply seq_NoDup.
    - apply in_seq. lia.
    - intros b' Hb' Hne. apply in_seq in Hb'. assert (Hlt : (b' < batch_of c)%nat) by lia. destruct (HG Hlt) as [Ht E].
      rewrite (@kgrad_range _ k (o b') Ht Hk) by now apply xidx_range. apply (Sum_zero R_csr). intros i Hi. apply in_seq in Hi.
      rewrite cnt_names; [cbn [R_csr k0]; ring|]. intro Hin. apply Hne. rewrite <- He. symmetry.
      destruct (xdpick_spec Hlt) as [_ (rest & HP)].
      assert (Hd : In (dpick (fst (G b')) k (o b') (snd (G b')) i) (expand (kt k (row_graph c b')))).
      { rewrite <- E. eapply Permutation_in; [symmetry; exact HP|]. apply in_or_app. left. apply in_map, in_seq. lia. }
      destruct (kt_nleaf k (graph_wf c V Hlt) _ Hd) as (m0 & H0 & _ & Hi').
      eapply (@graph_inrow c b' V Hlt); [exact H0|]. apply Hi'. exact Hin.
  Qed.
  Lemma xrow_best b l B : row_ok c b -> kbound c b B (fin phi) -> let S := spec_of c b in
    Enumerates (fun s => ok S s /\ allowed (prt S) phi s) l ->
    exists ss, xk_best S l phi k (NEG + INR (kdegree c b) * B) (at_row [] (x_kmax c k phi) b) ss /\
      length (at_row [] (x_kmax c k phi) b) = k /\
      forall i e d, (i < length ss)%nat ->
        cnt e (dpick (fst (G b)) k (o b) (snd (G b)) i) = uses (prt S) e (nth i ss d).
  Proof.
    intros Hb [HB HR]. cbv zeta. intro Hl. destruct (row_family V Hb) as (F & HF). pose proof (proj1 Hb) as Hlt.
    destruct (HG Hlt) as [Ht E]. pose proof (graph_inner c V Hlt) as Hin. rewrite (ir_graph HF) in E, Hin.
    set (r := snd (G b)) in *. set (g := fst (G b)) in *.
    set (P := map (dpick g k (o b) r) (seq 0 k)).
    destruct (xdpick_spec Hlt) as [HV (rest & HP)]. fold g r in HV, HP. fold P in HV, HP.
    rewrite E in HP, HV.
    assert (HPl : length P = k) by (unfold P; now rewrite map_length, seq_length).
    assert (HV' : map (xscore phi NEG) P = xtopk k (map (xscore phi NEG) (expand (kt k (ft F))))).
    { rewrite HV. apply xkmax_value; auto; [apply ft_wf|apply NEG_neg]. }
    assert (Ev : at_row [] (x_kmax c k phi) b = map (xscore phi NEG) P).
    { rewrite HV, <- frun_leval. apply (q_row (xkmax_ops k NEG) (fun e => xkmax_convert k NEG (phi e)) [] HF). }
    destruct (@xbest_structures F k phi B (kdegree c b) Hk HB (row_leaves HF) (kdegree_pos HF) HR P rest HPl HP HV') as (ss & low & H1 & H2 & H3 & H4 & H5 & H6 & H7).
    rewrite Ev. revert l Hl. rewrite <- (ir_spec HF). cbn [ok prt st fspec]. intros l Hl.
    assert (Hal : Enumerates (fun s => fok F s /\ allowed (fparts F) phi s) (alist F phi)).
    { split; [apply NoDup_filter, (fenum F)|]. intro s. unfold alist. rewrite filter_In, allowedb. pose proof (proj2 (fenum F) s). tauto. }
    assert (Hll : length (alist F phi) = length l) by (apply Permutation_length; exact (Enumerates_perm Hal Hl)).
    exists ss. split; [|split].
    - split; cbn [ok prt fspec].
      + exact (eq_trans H2 (f_equal (Nat.min k) Hll)).
      + exact H3.
      + intros s Hs. apply (proj2 Hal). auto.
      + exists low. auto.
      + rewrite HV'. apply xtopk_desc.
      + intros s s' Hs Ha. apply H5. now apply (proj2 Hal).
    - now rewrite map_length.
    - intros i e d Hi. assert (Hi' : (i < Nat.min k (length (alist F phi)))%nat) by (rewrite <- H2; exact Hi). etransitivity; [|exact (H7 i e d Hi')]. f_equal.
      unfold P. rewrite (nth_indep _ [] (dpick g k (o b) r 0%nat)) by (rewrite map_length, seq_length; lia).
      rewrite map_nth, seq_nth by lia. reflexivity.
  Qed.
End Rows.

(** torch.topk has an answer *)
Lemma is_xtop_exists k l : (k <= length l)%nat -> exists o, is_top k None (xtopk k) o l.
Proof.
  intro H. destruct (@perm_index _ None l (xsort l)) as (idx & Hp & E); [symmetry; apply xsort_perm|].
  assert (Hl : length idx = length l) by (rewrite (Permutation_length Hp); apply seq_length).
  exists (fun i => nth i idx 0%nat).
  assert (Hm : map (fun i => nth i idx 0%nat) (seq 0 k) = firstn k idx).
  { clear E Hp. assert (Hk' : (k <= length idx)%nat) by lia. clear - Hk'. revert Hk'. generalize k as n. intros n. revert idx.
    induction n as [|n IH]; intros [|a idx] Hn; simpl in *; try lia; auto. f_equal. rewrite <- seq_shift, map_map. apply IH. lia. }
  split; [|split].
  - rewrite Hm. apply (@NoDup_app_l _ _ (skipn k idx)). rewrite firstn_skipn. eapply Permutation_NoDup; [symmetry; exact Hp|apply seq_NoDup].
  - intros i Hi. assert (Hin : In (nth i idx 0%nat) idx) by (apply nth_In; lia). apply (Permutation_in _ Hp) in Hin. apply in_seq in Hin. lia.
  - unfold xtopk. rewrite E, firstn_map, <- Hm, map_map. reflexivity.
Qed.
Lemma xtop_node_exists g k phi : topo g -> (0 < k)%nat -> exists o,
  top_node g k o None xplus (xtopk k) (fwd g (xkmax_ops k NEG) (fun e => xkmax_convert k NEG (phi e))).
Proof.
  intros Ht Hk. set (val := fwd g (xkmax_ops k NEG) (fun e => xkmax_convert k NEG (phi e))).
  assert (Hv : forall v, length (val v) = k).
  { intro v. unfold val. rewrite (fwd_unf Ht). apply xkmax_length; auto. apply (unf_wf Ht). }
  pose (good := fun v ov => match ndof g v with
    | NSum l => is_top k None (xtopk k) ov (concat (map val l)) | NMul a b => is_top k None (xtopk k) ov (psums xplus (val a) (val b)) | _ => True end).
  assert (H : forall v, exists ov, good v ov).
  { intro v. unfold good. destruct (ndof g v) eqn:E; try (exists (fun _ => 0%nat); exact I).
    - apply is_xtop_exists; auto. destruct (topo_sum Ht v E) as [Hl _]. destruct l as [|c l]; [congruence|].
      cbn [map concat]. rewrite app_length. specialize (Hv c). change (car (xkmax_ops k NEG)) with (list ext) in *. lia.
    - apply is_xtop_exists; auto. rewrite xpsum_length, !Hv. nia. }
  assert (H' : forall n, exists o, forall v, (v < n)%nat -> good v (o v)).
  { induction n as [|n (o & Ho)]; [exists (fun _ _ => 0%nat); intros; lia|].
    destruct (H n) as (on & Hn). exists (fun v => if (v =? n)%nat then on else o v). intros v Hlt.
    destruct (Nat.eqb_spec v n) as [->|]; [exact Hn|]. apply Ho. lia. }
  destruct (H' (length g)) as (o & Ho). exists o. intro v. destruct (Nat.lt_ge_cases v (length g)) as [Hlt|Hge].
  - apply (Ho v Hlt).
  - unfold ndof. rewrite nth_overflow by auto. exact I.
Qed.
Lemma xtopk_answers_exist c G k phi : valid c -> records c G -> (0 < k)%nat -> exists o, xtopk_answers c G k phi o.
Proof.
  intros V HG Hk.
  assert (H : forall n, exists o, forall b, (b < n)%nat -> (b < batch_of c)%nat ->
    top_node (fst (G b)) k (o b) None xplus (xtopk k) (fwd (fst (G b)) (xkmax_ops k NEG) (fun e => xkmax_convert k NEG (phi e)))).
  { induction n as [|n (o & Ho)]; [exists (fun _ _ _ => 0%nat); intros; lia|].
    destruct (Nat.lt_ge_cases n (batch_of c)) as [Hn|Hn].
    - destruct (HG n Hn) as [Ht _]. destruct (@xtop_node_exists (fst (G n)) k phi Ht Hk) as (on & Hon).
      exists (fun b => if (b =? n)%nat then on else o b). intros b' Hb' Hb''. destruct (Nat.eqb_spec b' n) as [->|]; auto. apply Ho; lia.
    - exists o. intros b' H1 H2. apply Ho; lia. }
  destruct (H (batch_of c)) as (o & Ho). exists o. intros b' Hb'. now apply Ho.
Qed.

(** the first slots of [kmax] are the scores of the best allowed structures, in order;
    what follows is near -1e5 or below *)
Theorem C80_kmax c k phi : valid c -> (0 < k)%nat ->
  exists v, x_kmax c k phi = Ok v /\ length v = batch_of c /\
  forall b l B, row_ok c b -> kbound c b B (fin phi) -> let S := spec_of c b in
    Enumerates (fun s => ok S s /\ allowed (prt S) phi s) l ->
    length (nth b v []) = k /\ exists ss, xk_best S l phi k (NEG + INR (kdegree c b) * B) (nth b v []) ss.
Proof.
  intros V Hk. assert (H0 : exists v, x_kmax c k phi = Ok v /\ length v = batch_of c) by apply (run_ok c (xkmax_ops k NEG) _ V).
  destruct H0 as (v & E & L). exists v. split; [exact E|]. split; [exact L|]. intros b l B Hb HB S Hl.
  destruct (records_exist c V) as (G & HG).
  destruct (@xtopk_answers_exist c G k phi V HG Hk) as (o & Ho). destruct (@xrow_best c G k phi o V Hk HG Ho b l B Hb HB Hl) as (ss & H1 & H2 & _).
  rewrite E in H1, H2. cbn [at_row] in H1, H2. split; [exact H2|]. exists ss. exact H1.
Qed.
Print Assumptions C80_kmax.

(** the slices of [topk]: for every slot that holds an allowed structure, the slice is
    the 0/1 indicator of its parts; so no forbidden part is ever selected there *)
Theorem C80_topk c G k phi o : valid c -> samples c -> (0 < k)%nat -> records c G -> xtopk_answers c G k phi o ->
  forall b l B, row_ok c b -> kbound c b B (fin phi) -> let S := spec_of c b in
  Enumerates (fun s => ok S s /\ allowed (prt S) phi s) l ->
  exists ss, xk_best S l phi k (NEG + INR (kdegree c b) * B) (at_row [] (x_kmax c k phi) b) ss /\
    forall i s e, nth_error ss i = Some s -> row_of c e = b ->
      q_topk c G k o i e = if in_dec (list_eq_dec Nat.eq_dec) e (prt S s) then 1 else 0.
Proof.
  intros V Hs Hk HG Ho b l B Hb HB S Hl. destruct (@xrow_best c G k phi o V Hk HG Ho b l B Hb HB Hl) as (ss & H1 & _ & H3).
  exists ss. split; [exact H1|]. intros i s e Hi He. pose proof (proj1 Hb) as Hlt. unfold S in *. clear S.
  assert (Hil : (i < length ss)%nat) by (apply nth_error_Some; rewrite Hi; discriminate).
  assert (Hik : (i < k)%nat) by (rewrite (xb_len H1) in Hil; lia).
  unfold q_topk. rewrite (@xkgrad_row c G k phi o V Hk HG Ho _ e b Hlt He).
  rewrite <- (@RSum_delta k (fun _ => if in_dec (list_eq_dec Nat.eq_dec) e (prt (spec_of c b) s) then 1 else 0) i Hik).
  apply (Sum_ext_in R_csr). intros j Hj. destruct (Nat.eqb_spec i j) as [<-|]; [|apply Rmult_0_l]. rewrite Rmult_1_l.
  rewrite (H3 i e s Hil). rewrite (nth_error_nth _ _ s Hi). unfold uses.
  assert (Hnd : NoDup (prt (spec_of c b) s)).
  { pose proof (proj1 (xb_ok H1 s (nth_error_In _ _ Hi))) as Hok. destruct (row_family V Hb) as (F & HF).
    assert (M : multilinear (row_graph c b)) by (apply graph_multilinear; auto).
    rewrite (ir_graph HF) in M. clear - HF M Hok. revert s Hok. rewrite <- (ir_spec HF). cbn [ok prt fspec st].
    intros s Hok. apply (fenum F) in Hok. destruct (@structure_is_pure F s Hok) as (m & Hm & Hp & HP).
    eapply Permutation_NoDup; [exact HP|]. rewrite <- names_pure by auto. now apply M. }
  destruct (in_dec (list_eq_dec Nat.eq_dec) e (prt (spec_of c b) s)) as [H|H].
  - rewrite (proj1 (NoDup_count_occ' _ _) Hnd e H). reflexivity.
  - rewrite (proj1 (count_occ_not_In _ _ _)) by auto. reflexivity.
Qed.
Print Assumptions C80_topk.

(** SentCFG with at least k allowed parses: the term, rule and root tensors count the
    uses in the k best allowed parses together *)
Theorem C80_topk_cfg batch N NT T ls G k phi o : let c := CCfg batch N NT T ls in
  valid c -> (0 < k)%nat -> records c G -> xtopk_answers c G k phi o ->
  forall b l B, row_ok c b -> kbound c b B (fin phi) -> let S := spec_of c b in
  Enumerates (fun s => ok S s /\ allowed (prt S) phi s) l -> (k <= length l)%nat ->
  exists ss, xk_best S l phi k (NEG + INR (kdegree c b) * B) (at_row [] (x_kmax c k phi) b) ss /\
    forall e, row_of c e = b -> q_topk_cfg c G k o e = RSum (uses (prt S) e) ss.
Proof.
  intro c. intros V Hk HG Ho b l B Hb HB S Hl Hkl. destruct (@xrow_best c G k phi o V Hk HG Ho b l B Hb HB Hl) as (ss & H1 & _ & H3).
  exists ss. split; [exact H1|]. intros e He. pose proof (proj1 Hb) as Hlt.
  unfold q_topk_cfg. rewrite (@xkgrad_row c G k phi o V Hk HG Ho _ e b Hlt He).
  assert (Hlen : length ss = k) by (rewrite (xb_len H1); lia).
  destruct ss as [|d ss'] eqn:Es; [simpl in Hlen; lia|]. rewrite <- Es in *.
  transitivity (RSum (fun i => uses (prt S) e (nth i ss d)) (seq 0 k)).
  - apply (Sum_ext_in R_csr). intros i Hi. apply in_seq in Hi. rewrite Rmult_1_l. apply H3. lia.
  - rewrite <- Hlen. rewrite <- (@RSum_map nat _ (uses (prt S) e) (fun i => nth i ss d)). f_equal.
    clear. induction ss as [|s ss IH]; auto. simpl. f_equal. rewrite <- seq_shift, map_map. exact IH.
Qed.
Print Assumptions C80_topk_cfg.

(** with k = 1 [kmax] is [max] *)
Lemma xsort_head l : l <> [] -> exists t, xsort l = xmax l :: t.
Proof.
  induction l as [|x l IH]; [congruence|]. intros _. destruct l as [|y l]; [exists []; simpl; now destruct x|].
  destruct IH as (t & E); [discriminate|]. set (l' := y :: l) in *. cbn [xsort]. rewrite E. cbn [xins xmax fold_right]. fold (xmax l').
  destruct (xle_dec (xmax l') x) as [L|L].
  - exists (xmax l' :: t). f_equal. destruct (xmax l') as [m|], x as [x|]; simpl in L |- *; try tauto; auto. f_equal. symmetry. now apply Rmax_left.
  - eexists. f_equal. destruct (xmax l') as [m|], x as [x|]; simpl in L |- *; try tauto; auto. f_equal. symmetry. apply Rmax_right. lra.
Qed.
Theorem C80_one c phi b : valid c -> row_ok c b -> at_row [] (x_kmax c 1 phi) b = [at_row None (x_max c phi) b].
Proof.
  intros V Hb. destruct (row_family V Hb) as (F & HF).
  etransitivity; [apply (q_row (xkmax_ops 1 NEG) (fun e => xkmax_convert 1 NEG (phi e)) [] HF)|].
  transitivity [frun F (xmax_ops NEG) phi]; [|f_equal; symmetry; apply (q_row (xmax_ops NEG) phi None HF)].
  apply (@fresp F (xkmax_ops 1 NEG) (xmax_ops NEG) (fun a b => a = [b])); [|intro e; reflexivity].
  constructor; simpl; auto.
  - intros a a' b0 b' -> ->. cbn [psums flat_map map app]. unfold xtopk. simpl. reflexivity.
  - intros l l' Hn H. assert (E : concat l = l').
    { clear Hn. induction H as [|x y l l' -> H IH]; simpl; auto. now rewrite IH. }
    rewrite E. assert (Hn' : l' <> []) by (intros ->; inversion H; subst; congruence).
    destruct (xsort_head Hn') as (t & Et). unfold xtopk. rewrite Et. reflexivity.
Qed.
Print Assumptions C80_one.

(** with k >= 2 the best score is never -inf, whatever is forbidden *)
Theorem C80_never_minus_infinity c k phi b : valid c -> row_ok c b -> (2 <= k)%nat ->
  exists x, nth_error (at_row [] (x_kmax c k phi) b) 0 = Some (Some x).
Proof.
  intros V Hb Hk2. destruct (row_family V Hb) as (F & HF). assert (Hk : (0 < k)%nat) by lia.
  pose proof (graph_inner c V (proj1 Hb)) as Hin. rewrite (ir_graph HF) in Hin.
  assert (Ev : at_row [] (x_kmax c k phi) b = xtopk k (map (xscore phi NEG) (expand (kt k (ft F))))).
  { etransitivity; [apply (q_row (xkmax_ops k NEG) (fun e => xkmax_convert k NEG (phi e)) [] HF)|].
    rewrite frun_leval. apply xkmax_value; auto; [apply ft_wf|apply NEG_neg]. }
  destruct (@kt_finite k Hk (ft F) (ft_wf F) Hk2) as (m & Hm & El).
  set (L := map (xscore phi NEG) (expand (kt k (ft F)))) in *.
  assert (HmL : In (xscore phi NEG m) L) by now apply in_map.
  assert (Hn : L <> []) by (intro E0; rewrite E0 in HmL; destruct HmL).
  rewrite Ev. unfold xtopk. destruct (xsort_head Hn) as (t & Et). rewrite Et. destruct k as [|k']; [lia|]. cbn [firstn nth_error].
  destruct (xmax_is_max Hn) as [_ Hmax]. specialize (Hmax _ HmL).
  rewrite xscore_mok in Hmax. unfold mok in Hmax. rewrite El in Hmax. simpl in Hmax.
  destruct (xmax L) as [x|]; [|destruct Hmax]. eauto.
Qed.
Print Assumptions C80_never_minus_infinity.

(** so where everything is forbidden [max] says -inf and [kmax] a number near -1e5 *)
Theorem C80_disagrees_with_max c k phi b B : valid c -> row_ok c b -> zero_free c = true -> (2 <= k)%nat -> kbound c b B (fin phi) ->
  let S := spec_of c b in (forall s, ok S s -> ~ allowed (prt S) phi s) ->
  at_row None (x_max c phi) b = None /\
  exists x, nth_error (at_row [] (x_kmax c k phi) b) 0 = Some (Some x) /\ x <= NEG + INR (kdegree c b) * B.
Proof.
  intros V Hb Z Hk HB; cbv zeta. intro Hno. split.
  - destruct (C51_masked_max c phi V) as (v & E & _ & H). destruct (H b Hb (or_introl Z)) as [_ H']. rewrite E. now apply H'.
  - destruct (@C80_never_minus_infinity c k phi b V Hb Hk) as (x & Hx). exists x. split; [exact Hx|].
    destruct (@C80_kmax c k phi V ltac:(lia)) as (v & E & _ & H).
    assert (Hl : Enumerates (fun s => ok (spec_of c b) s /\ allowed (prt (spec_of c b)) phi s) []).
    { split; [constructor|]. intro s. split; [intros []|]. intros [H1 H2]. now apply (Hno s). }
    destruct (H b [] B Hb HB Hl) as [_ (ss & Hss)]. rewrite E in Hx. cbn [at_row] in Hx.
    destruct ss as [|s ss]; [|exfalso; apply (Hno s); apply (xb_ok Hss); now left].
    destruct (xb_values Hss) as (junk & Ej & Hj). simpl in Ej. apply Hj. rewrite <- Ej. now apply nth_error_In with (n := 0%nat).
Qed.
Print Assumptions C80_disagrees_with_max.

(** ** The hypotheses hold in concrete cases *)
Lemma ex_fin_abs e : Rabs (fin ex_mask e) <= 3.
Proof.
  unfold fin, ex_mask. destruct (_ =? _)%nat; [rewrite Rabs_R0; lra|apply ex_phi_abs].
Qed.
Example ex_C80 : Forall (fun c => valid c /\
  (forall b, (b < 2)%nat -> row_ok c b /\ kbound c b 3 (fin ex_mask) /\
     exists l, Enumerates (fun s => ok (spec_of c b) s /\ allowed (prt (spec_of c b)) ex_mask s) l) /\
  forall k, (0 < k)%nat -> exists G o, records c G /\ xtopk_answers c G k ex_mask o) ex_calls.
Proof.
  pose proof ex_kmax as H. rewrite Forall_forall in *. intros c Hc. destruct (H c Hc) as (V & Hr & _).
  split; [exact V|]. split.
  - intros b Hlt. destruct (Hr b Hlt) as [R [_ K]]. split; [exact R|]. split; [split; [apply ex_fin_abs|exact K]|].
    destruct (row_family V R) as (F & HF). rewrite <- (ir_spec HF). exists (alist F ex_mask).
    split; [apply NoDup_filter, (fenum F)|]. intro s. unfold alist. rewrite filter_In, allowedb. cbn [ok prt fspec]. pose proof (proj2 (fenum F) s). tauto.
  - intros k Hk. destruct (records_exist c V) as (G & HG). destruct (@xtopk_answers_exist c G k ex_mask V HG Hk) as (o & Ho). eauto.
Qed.
(** nothing allowed: a sentence of one word whose only label is forbidden *)
Example ex_C80_dead : let c := CTree 1 1 1 None in let none := fun _ : list nat => @None R in
  valid c /\ row_ok c 0 /\ kbound c 0 0 (fin none) /\ (forall s, ok (spec_of c 0) s -> ~ allowed (prt (spec_of c 0)) none s) /\
  at_row None (x_max c none) 0 = None /\ at_row [] (x_kmax c 2 none) 0 = [Some NEG; None].
Proof.
  cbv zeta. split; [vm_compute; auto|]. split; [vm_compute; auto|]. split.
  - split; [intro e; unfold fin; rewrite Rabs_R0; lra|]. rewrite Rmult_0_r. lra.
  - split; [|split; reflexivity]. intros s _ Ha.
    assert (E : exists e, In e (prt (spec_of (CTree 1 1 1 None) 0) s)) by (destruct s; simpl; eauto).
    destruct E as (e & He). now apply (Ha e He).
Qed.
(** fewer allowed structures than slots: two labellings, one of them allowed *)
Example ex_C80_few : let c := CTree 1 1 2 None in
  Enumerates (fun s => ok (spec_of c 0) s /\ allowed (prt (spec_of c 0)) ex_mask s) [LLeaf 0] /\ kbound c 0 3 (fin ex_mask).
Proof.
  cbv zeta. split.
  - split; [repeat constructor; intros []|]. intro s. split.
    + intros [<-|[]]. split; [vm_compute; auto|]. intros e [<-|[]]. discriminate.
    + intros [[H1 H2] Ha]. destruct s as [a|a l r].
      * simpl in H2. destruct a as [|[|a]]; [now left| |lia]. exfalso. apply (Ha [0; 0; 0; 1]%nat); [now left|reflexivity].
      * exfalso. simpl in H1. assert (forall t, (1 <= lsize t)%nat) by (induction t; simpl; lia). pose proof (H l). pose proof (H r). unfold eff_len in H1. simpl in H1. lia.
  - split; [apply ex_fin_abs|]. vm_compute kdegree. simpl. lra.
Qed.
