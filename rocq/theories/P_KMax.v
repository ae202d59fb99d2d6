(** * Properties of kmax and topk (C16). *)
From Coq Require Import Sorted.
From Verif Require Import Base Ops Terms Semirings Poly Chain LinearChain SemiMarkov CkyCrf Cky DepSpec DepTree
  Batch Family Approx Grad Sample Dist Purity Degree Shape Api Query Dag DagLaw KMax P_Real P_Sample.
Set Implicit Arguments.
Local Open Scope R_scope.

(** ** Spurious derivations *)
Definition nleaf (m : deriv) : nat := length (leaves m).
Lemma nleaf_app a b : nleaf (a ++ b) = (nleaf a + nleaf b)%nat.
Proof. unfold nleaf. unfold leaves. rewrite flat_map_app. apply app_length. Qed.
Lemma kt_nleaf k t : twf t -> forall m, In m (expand (kt k t)) -> exists m0, In m0 (expand t) /\ (nleaf m <= nleaf m0)%nat /\ incl (names m) (names m0).
Proof.
  induction t as [e|e| | |l IH|a b IHa IHb] using term_ind'; intros W m Hm.
  - cbn [kt expand flat_map] in Hm. rewrite expand_zeros in Hm. exists [AL e]. split; [now left|].
    destruct Hm as [<-|Hm]; [split; [auto|apply incl_refl]|]. apply repeat_spec in Hm. subst. split; [unfold nleaf; simpl; lia|intros ? []].
  - cbn [kt expand flat_map] in Hm. rewrite expand_zeros in Hm. exists [AO e]. split; [now left|].
    destruct Hm as [<-|Hm]; [split; [auto|apply incl_refl]|]. apply repeat_spec in Hm. subst. split; [unfold nleaf; simpl; lia|intros ? []].
  - cbn [kt expand flat_map] in Hm. rewrite expand_zeros in Hm. exists []. split; [now left|].
    destruct Hm as [<-|Hm]; [split; [auto|apply incl_refl]|]. apply repeat_spec in Hm. subst. split; [unfold nleaf; simpl; lia|intros ? []].
  - cbn [kt expand flat_map] in Hm. rewrite expand_zeros in Hm. exists [AZ]. split; [now left|].
    apply repeat_spec in Hm. subst. split; [auto|apply incl_refl].
  - inversion_clear W as [| | | |? Hn Hf|]. cbn [kt expand] in Hm. apply in_flat_map in Hm as (t' & Ht & Hm).
    apply in_map_iff in Ht as (t & <- & Ht). rewrite Forall_forall in IH, Hf.
    destruct (IH t Ht (Hf t Ht) m Hm) as (m0 & H0 & Hle & Hi). exists m0. split; auto. cbn [expand]. apply in_flat_map. eauto.
  - inversion_clear W as [| | | | |? ? Wa Wb]. cbn [kt expand] in Hm. apply in_prods in Hm as (x & y & Hx & Hy & ->).
    destruct (IHa Wa x Hx) as (x0 & Hx0 & L1 & I1). destruct (IHb Wb y Hy) as (y0 & Hy0 & L2 & I2).
    exists (x0 ++ y0). split; [cbn [expand]; apply in_prods; eauto|]. rewrite !nleaf_app, !names_app. split; [lia|].
    apply incl_app; [apply incl_appl|apply incl_appr]; auto.
Qed.
Lemma perm_filter A (f : A -> bool) l l' : Permutation l l' -> Permutation (filter f l) (filter f l').
Proof.
  induction 1 as [|x l l' H IH|x y l|l l' l'' H1 IH1 H2 IH2]; simpl; auto.
  - destruct (f x); auto.
  - destruct (f x), (f y); auto. apply perm_swap.
  - eapply Permutation_trans; eassumption.
Qed.
Lemma filter_zeros n : filter pure (repeat [AZ] n) = [].
Proof. induction n; simpl; auto. Qed.
Lemma pure_prods (a b : list (list atom)) : filter pure (prods a b) = prods (filter pure a) (filter pure b).
Proof.
  change deriv with (list atom) in *. unfold prods. induction a as [|x a IH]; auto. cbn [flat_map filter]. rewrite filter_app.
  etransitivity; [apply f_equal, IH|].
  assert (E : filter pure (map (fun y => x ++ y) b) = if pure x then map (fun y => x ++ y) (filter pure b) else []).
  { clear. induction b as [|y b IH]; simpl; [now destruct (pure x)|]. unfold pure at 1. rewrite forallb_app. fold (pure x) (pure y).
    destruct (pure x); simpl in *; [|exact IH]. destruct (pure y); simpl; now rewrite IH. }
  etransitivity; [apply (f_equal (fun l => l ++ _)); exact E|]. destruct (pure x); reflexivity.
Qed.
Lemma kt_pure k t : filter pure (expand (kt k t)) = filter pure (expand t).
Proof.
  induction t as [e|e| | |l IH|a b IHa IHb] using term_ind'.
  - cbn [kt expand flat_map]. rewrite expand_zeros. simpl. now rewrite filter_zeros.
  - cbn [kt expand flat_map]. rewrite expand_zeros. simpl. now rewrite filter_zeros.
  - cbn [kt expand flat_map]. rewrite expand_zeros. simpl. now rewrite filter_zeros.
  - cbn [kt expand flat_map]. rewrite expand_zeros. simpl. now rewrite filter_zeros.
  - cbn [kt expand]. induction IH as [|t l Ht Hl IHl]; auto. cbn [map flat_map]. rewrite !filter_app. congruence.
  - cbn [kt expand]. rewrite !pure_prods. congruence.
Qed.
Section Bounds.
  Variables (phi : list nat -> R) (z B : R).
  Hypothesis HB : forall e, Rabs (phi e) <= B.
  Hypothesis Hz : z <= 0.
  Lemma score_le_leaf m : score phi z m <= INR (nleaf m) * B.
  Proof.
    induction m as [|a m IH]; [unfold score, Sum, nleaf; simpl; lra|]. unfold score. rewrite RSum_cons. fold (score phi z m).
    destruct a; cbn [aval]; unfold nleaf in *; cbn [leaves flat_map app length] in *; try (unfold leaves in IH; lra).
    rewrite S_INR. specialize (HB e). apply Rabs_le_inv in HB. unfold leaves in IH. lra.
  Qed.
  Lemma score_spur_leaf m : pure m = false -> score phi z m <= z + INR (nleaf m) * B.
  Proof.
    induction m as [|a m IH]; [discriminate|]. unfold score. rewrite RSum_cons. fold (score phi z m). pose proof (score_le_leaf m) as L.
    intro H. destruct a; cbn [aval] in *; unfold nleaf in *; cbn [leaves flat_map app length] in *.
    - rewrite S_INR. specialize (HB e). apply Rabs_le_inv in HB. specialize (IH H). unfold leaves in IH. lra.
    - unfold leaves in L. lra.
    - unfold leaves in L. lra.
  Qed.
  Lemma score_pure_leaf m : pure m = true -> - (INR (nleaf m) * B) <= score phi z m.
  Proof.
    intro H. replace (nleaf m) with (length m); [now apply score_pure_ge|].
    induction m as [|a m IH]; auto. simpl in H. apply andb_true_iff in H as [H1 H2]. destruct a; try discriminate.
    unfold nleaf in *. simpl. f_equal. now apply IH.
  Qed.
End Bounds.

(** ** The k best structures of one row *)
Section Best.
  Variables (F : family) (k : nat) (phi : list nat -> R) (B : R) (D : nat).
  Hypothesis Hk : (0 < k)%nat.
  Hypothesis HB : forall e, Rabs (phi e) <= B.
  Hypothesis HD : forall m, In m (expand (ft F)) -> (nleaf m <= D)%nat.
  Hypothesis HD1 : (1 <= D)%nat.
  Hypothesis HR : 2 * (INR D * B) < 100000.
  Notation fsc := (sc (fparts F) phi).

  Variables (P rest : list deriv).
  Hypothesis HPl : length P = k.
  Hypothesis HP : Permutation (expand (kt k (ft F))) (P ++ rest).
  Hypothesis HV : map (score phi NEG) P = topk k (map (score phi NEG) (expand (kt k (ft F)))).

  Lemma B0 : 0 <= B. Proof. exact (@HB0 phi B HB). Qed.
  Lemma D_le n : (n <= D)%nat -> INR n * B <= INR D * B.
  Proof. intro H. apply le_INR in H. apply Rmult_le_compat_r; auto. apply B0. Qed.
  Lemma low_score m : In m (expand (kt k (ft F))) -> pure m = false -> score phi NEG m <= NEG + INR D * B.
  Proof.
    intros Hm Hp. destruct (kt_nleaf k (ft_wf F) m Hm) as (m0 & H0 & L & _). specialize (HD m0 H0).
    pose proof (@score_spur_leaf phi NEG B HB NEG_neg m Hp). pose proof (@D_le (nleaf m)). lra || (assert (nleaf m <= D)%nat by lia; specialize (H1 H2); lra).
  Qed.
  Lemma high_score m : In m (expand (kt k (ft F))) -> pure m = true -> - (INR D * B) <= score phi NEG m.
  Proof.
    intros Hm Hp. destruct (kt_nleaf k (ft_wf F) m Hm) as (m0 & H0 & L & _). specialize (HD m0 H0).
    pose proof (@score_pure_leaf phi NEG B HB m Hp). assert (Hle : (nleaf m <= D)%nat) by lia. pose proof (D_le Hle). lra.
  Qed.
  Notation n := (Nat.min k (length (flist F))).
  Notation y := (- (INR D * B)).
  Lemma pure_count : length (filter pure (expand (kt k (ft F)))) = length (flist F).
  Proof. rewrite kt_pure. pose proof (Permutation_length (ft_derivations F)) as H. now rewrite !map_length in H. Qed.
  Lemma cge_pure l : (forall m, In m l -> In m (expand (kt k (ft F)))) ->
    cge y (map (score phi NEG) l) = length (filter pure l).
  Proof.
    induction l as [|m l IH]; intro H; auto. cbn [map filter]. rewrite cge_cons, IH by (intros; apply H; now right).
    assert (Hm := H m (or_introl eq_refl)). unfold geb. destruct (Rle_dec y (score phi NEG m)) as [L|L]; destruct (pure m) eqn:E; auto.
    - pose proof (low_score _ Hm E). unfold NEG in *. lra.
    - pose proof (high_score _ Hm E). lra.
  Qed.
  Lemma HPin m : In m P -> In m (expand (kt k (ft F))).
  Proof. intro H. eapply Permutation_in; [symmetry; exact HP|]. apply in_or_app. now left. Qed.
  Lemma P_desc : desc (map (score phi NEG) P).
  Proof. rewrite HV. apply topk_desc. Qed.
  Lemma P_pure_count : length (filter pure P) = n.
  Proof. rewrite <- cge_pure by apply HPin. rewrite HV, cge_topk, cge_pure by auto. now rewrite pure_count. Qed.
  (** pure derivations come first *)
  Lemma pure_first l : desc (map (score phi NEG) l) -> (forall m, In m l -> In m (expand (kt k (ft F)))) ->
    l = filter pure l ++ filter (fun m => negb (pure m)) l.
  Proof.
    induction l as [|m l IH]; intros Hd Hin; auto. cbn [map] in Hd. inversion_clear Hd as [|? ? Hd' Hx].
    cbn [filter]. destruct (pure m) eqn:E; cbn [negb app].
    - f_equal. apply IH; auto. intros; apply Hin; now right.
    - assert (Hn : filter pure l = []).
      { destruct (filter pure l) as [|m' q] eqn:Ef; auto. exfalso.
        assert (Hm' : In m' (filter pure l)) by (rewrite Ef; now left). apply filter_In in Hm' as [Hm' Hp'].
        rewrite Forall_forall in Hx. specialize (Hx (score phi NEG m') (in_map _ _ _ Hm')).
        pose proof (high_score m' (Hin m' (or_intror Hm')) Hp'). pose proof (low_score m (Hin m (or_introl eq_refl)) E).
        unfold NEG in *. lra. }
      rewrite Hn. cbn [app]. f_equal. rewrite IH at 1; auto; [now rewrite Hn|]. intros; apply Hin; now right.
  Qed.

  Theorem best_structures : exists ss low,
    map (score phi NEG) P = map fsc ss ++ low /\ length ss = n /\ NoDup ss /\ (forall s, In s ss -> In s (flist F)) /\
    (forall s s', In s (flist F) -> ~ In s ss -> In s' ss -> fsc s <= fsc s') /\
    (forall x, In x low -> x <= NEG + INR D * B) /\
    (forall i e d, (i < n)%nat -> cnt e (nth i P []) = uses (fparts F) e (nth i ss d)).
  Proof.
    pose (Q := filter pure P). pose (Rp := filter pure rest).
    assert (HQ : P = Q ++ filter (fun m => negb (pure m)) P) by (apply pure_first; [apply P_desc|apply HPin]).
    assert (Hperm : Permutation (map (fun m => msort (leaves m)) (Q ++ Rp)) (map (fun s => msort (fparts F s)) (flist F))).
    { eapply Permutation_trans; [|apply ft_derivations]. apply Permutation_map. rewrite <- (kt_pure k). unfold Q, Rp. rewrite <- filter_app.
      apply perm_filter. now symmetry. }
    apply Permutation_map_inv in Hperm as (l3 & E3 & P3).
    assert (HlQ : length Q = n) by apply P_pure_count.
    pose (ss := firstn n l3).
    assert (HEs : map (fun m => msort (leaves m)) Q = map (fun s => msort (fparts F s)) ss).
    { unfold ss. rewrite <- firstn_map, <- E3, map_app. rewrite firstn_app, map_length, HlQ, Nat.sub_diag. cbn [firstn].
      rewrite app_nil_r. symmetry. apply firstn_all2. rewrite map_length, HlQ. auto. }
    assert (HEr : map (fun m => msort (leaves m)) Rp = map (fun s => msort (fparts F s)) (skipn n l3)).
    { rewrite <- skipn_map, <- E3, map_app. rewrite skipn_app, map_length, HlQ, Nat.sub_diag. cbn [skipn].
      rewrite skipn_all2; [reflexivity|]. rewrite map_length, HlQ. auto. }
    assert (Hsplit : l3 = ss ++ skipn n l3) by (symmetry; apply firstn_skipn).
    assert (Hlen : length ss = n) by (pose proof (f_equal (@length _) HEs) as H; rewrite !map_length in H; congruence).
    assert (Hmatch : forall m s, pure m = true -> msort (leaves m) = msort (fparts F s) -> score phi NEG m = fsc s /\ forall e, cnt e m = uses (fparts F) e s).
    { intros m s Hp E. assert (Hperm : Permutation (leaves m) (fparts F s)).
      { rewrite <- (msort_perm (leaves m)), E. apply msort_perm. }
      split; [now apply perm_score|intro e; now apply perm_cnt]. }
    assert (Hnd : NoDup l3) by (eapply Permutation_NoDup; [exact P3|apply (fenum F)]).
    exists ss, (map (score phi NEG) (filter (fun m => negb (pure m)) P)).
    assert (HpQ : forall m, In m Q -> pure m = true) by (intros m Hm; now apply filter_In in Hm).
    split; [|split; [|split; [|split; [|split; [|split]]]]]; auto.
    - rewrite HQ at 1. rewrite map_app. f_equal.
      clear - HEs HpQ Hmatch. revert HEs HpQ. generalize Q, ss. clear Q ss.
      induction Q as [|m Q IH]; intros [|s ss] E HpQ; try discriminate; auto. simpl in E. injection E as E1 E2.
      simpl. f_equal; [apply Hmatch; auto; apply HpQ; now left|]. apply IH; auto. intros; apply HpQ; now right.
    - rewrite Hsplit in Hnd. now apply NoDup_app_l in Hnd.
    - intros s Hs. eapply Permutation_in; [symmetry; exact P3|]. rewrite Hsplit. apply in_or_app. now left.
    - intros s s' Hs Hns Hs'. assert (H3 : In s l3) by (eapply Permutation_in; [exact P3|exact Hs]).
      rewrite Hsplit in H3. apply in_app_iff in H3 as [H3|H3]; [contradiction|].
      assert (E1 : In (msort (fparts F s)) (map (fun m => msort (leaves m)) Rp)) by (rewrite HEr; apply in_map_iff; eauto).
      assert (E2 : In (msort (fparts F s')) (map (fun m => msort (leaves m)) Q)) by (rewrite HEs; apply in_map_iff; eauto).
      apply in_map_iff in E1 as (m & Em & Hm). apply in_map_iff in E2 as (m' & Em' & Hm').
      apply filter_In in Hm as [Hm Hpm]. pose proof (HpQ m' Hm') as Hpm'. apply filter_In in Hm' as [Hm' _].
      rewrite <- (proj1 (Hmatch m s Hpm Em)), <- (proj1 (Hmatch m' s' Hpm' Em')).
      destruct (topk_rest k (map (score phi NEG) (expand (kt k (ft F))))) as (r2 & Pr & Hr).
      apply Hr; [rewrite <- HV; now apply in_map|].
      assert (HH : Permutation (map (score phi NEG) rest) r2).
      { apply Permutation_app_inv_l with (l := map (score phi NEG) P). rewrite HV at 2. rewrite <- Pr, <- map_app. apply Permutation_map. now symmetry. }
      eapply Permutation_in; [exact HH|]. now apply in_map.
    - intros x Hx. apply in_map_iff in Hx as (m & <- & Hm). apply filter_In in Hm as [Hm Hp]. apply low_score; [now apply HPin|]. now destruct (pure m).
    - intros i e d Hi. assert (HiQ : (i < length Q)%nat) by (rewrite HlQ; auto). rewrite HQ, app_nth1 by auto.
      apply Hmatch; [apply HpQ, nth_In; auto|].
      pose proof (f_equal (fun l => nth i l (msort (leaves []))) HEs) as E. cbv beta in E.
      rewrite (map_nth (fun m => msort (leaves m)) Q [] i) in E. rewrite E.
      rewrite (nth_indep _ _ (msort (fparts F d))) by (rewrite map_length, Hlen; auto).
      apply (map_nth (fun s => msort (fparts F s))).
  Qed.
End Best.

(** ** The queries *)
(** distributions.py:137-150, helpers.py:66-81: all k slots of the value *)
Definition q_kmax (c : call) (k : nat) (phi : list nat -> R) : res (list (list R)) :=
  run c (kmax_ops k NEG) (fun e => kmax_convert k NEG (phi e)).
(** helpers.py:83-116 with [_raw]: the gradient of [sum_i x_i v[i]] on the recorded
    graphs; [o b] are the indices of torch.topk in row b. Simplification: one
    backward pass per row. *)
Definition q_kgrad (c : call) (G : nat -> dag * nat) (k : nat) (o : nat -> nat -> nat -> nat) (x : nat -> R) (e : list nat) : R :=
  RSum (fun b => kgrad (fst (G b)) k (o b) (snd (G b)) x e) (seq 0 (batch_of c)).
(** distributions.py:152-165, helpers.py:95-109: slice i is the gradient of [v[i]] *)
Definition q_topk (c : call) (G : nat -> dag * nat) (k : nat) (o : nat -> nat -> nat -> nat) (i : nat) (e : list nat) : R :=
  q_kgrad c G k o (fun j => if (i =? j)%nat then 1 else 0) e.
(** cky.py:132-141: for SentCFG the term, rule and root tensors of topk are the
    gradient of the sum of all slots (the per-slot span charts: P_Spans.v) *)
Definition q_topk_cfg (c : call) (G : nat -> dag * nat) (k : nat) (o : nat -> nat -> nat -> nat) (e : list nat) : R :=
  q_kgrad c G k o (fun _ => 1) e.
(** every torch.topk returned the positions of the k largest entries, in order *)
Definition topk_answers (c : call) (G : nat -> dag * nat) (k : nat) (phi : list nat -> R) (o : nat -> nat -> nat -> nat) : Prop :=
  forall b, (b < batch_of c)%nat -> topk_node (fst (G b)) k NEG phi (o b).

(** most potentials in one derivation *)
Definition kdegree (c : call) (b : nat) : nat :=
  match c with
  | CTree _ N _ ls => 2 * eff_len N (lc_len N ls b)
  | CDep _ _ n _ ls => Nat.max 1 (lc_len n ls b)
  | _ => Nat.max 1 (degree c b)
  end.
(** potentials small against the filler -1e5 of the empty slots *)
Definition kbound (c : call) (b : nat) (B : R) (phi : list nat -> R) : Prop :=
  (forall e, Rabs (phi e) <= B) /\ 2 * (INR (kdegree c b) * B) < 100000.

Lemma lparts_length b t : forall i, (length (lparts b i t) + 1 = 2 * lsize t)%nat.
Proof. induction t as [a|a l IHl r IHr]; intro i; simpl; auto. rewrite app_length. specialize (IHl i). specialize (IHr (i + lsize l)%nat). lia. Qed.
Lemma dep_parts_length b h : length (dep_parts b h) = length h.
Proof. unfold dep_parts. generalize 0%nat. induction h; intro c; simpl; auto. Qed.
Lemma ldep_parts_length b h : length (ldep_parts b h) = length h.
Proof. unfold ldep_parts. generalize 0%nat. induction h; intro c; simpl; auto. Qed.
Lemma ok_parts_length c b : zero_free c = true -> forall s, ok (spec_of c b) s -> (length (prt (spec_of c b) s) <= kdegree c b)%nat.
Proof.
  intros Z s Hs. destruct c as [batch N C ls|batch N K C ls|batch N NT ls|batch N NT T ls|mr batch n lab ls]; try discriminate.
  - cbn [spec_of ok prt kdegree] in *. destruct Hs as [Hs _]. pose proof (lparts_length b s 0). lia.
  - destruct lab as [L|]; cbn [spec_of ok prt kdegree st] in *.
    + destruct Hs as [[Hs _] _]. rewrite ldep_parts_length. destruct Hs as [Hs _]. rewrite map_length in Hs. lia.
    + destruct Hs as [Hs _]. rewrite dep_parts_length. destruct Hs as [Hs _]. lia.
Qed.
Lemma nleaf_le m : (nleaf m <= length m)%nat.
Proof. induction m as [|a m IH]; auto. unfold nleaf, leaves in *. simpl. destruct a; simpl; lia. Qed.
Lemma row_leaves c b F : is_row c b F -> forall m, In m (expand (ft F)) -> (nleaf m <= kdegree c b)%nat.
Proof.
  intros HF m Hm. destruct (zero_free c) eqn:E.
  - pose proof (@fpure_all F (ir_pure HF E) m Hm) as Hp. destruct (@pure_is_structure F m Hm Hp) as (s & Hs & HP).
    unfold nleaf. rewrite (Permutation_length HP). apply (fenum F) in Hs.
    pose proof (@ok_parts_length c b E) as H. rewrite <- (ir_spec HF) in H. apply (H s Hs).
  - destruct (ir_bnd HF E) as [Hd _]. pose proof (tdeg_ok (ft F) m Hm). pose proof (nleaf_le m).
    assert (Hk : kdegree c b = Nat.max 1 (degree c b)) by (destruct c; auto; discriminate). lia.
Qed.
Lemma kdegree_pos c b F : is_row c b F -> (1 <= kdegree c b)%nat.
Proof.
  intro HF. destruct c as [batch N C ls|batch N K C ls|batch N NT ls|batch N NT T ls|mr batch n lab ls]; cbn [kdegree]; try apply Nat.le_max_l.
  assert (Hn := ir_nonempty HF). destruct (flist F) as [|s l] eqn:E; [congruence|].
  assert (Hs : fok F s) by (apply (fenum F); rewrite E; now left).
  assert (H : forall S, S = spec_of (CTree batch N NT ls) b -> (exists s, ok S s) -> (1 <= 2 * eff_len N (lc_len N ls b))%nat).
  { intros S -> (t & Ht). cbn [ok spec_of] in Ht. destruct Ht as [Ht _]. pose proof (lparts_length 0 t 0). rewrite Ht in H. lia. }
  apply (H (fspec F)); [apply (ir_spec HF)|]. exists s. exact Hs.
Qed.

Lemma kgrad_row c G k o x e phi b : valid c -> records c G -> (0 < k)%nat -> topk_answers c G k phi o ->
  (b < batch_of c)%nat -> row_of c e = b ->
  q_kgrad c G k o x e = RSum (fun i => x i * cnt e (dpick (fst (G b)) k (o b) (snd (G b)) i)) (seq 0 k).
Proof.
  intros V HG Hk Ho Hb He. unfold q_kgrad. rewrite (@RSum_only _ _ _ b).
  - destruct (HG b Hb) as [Ht _]. apply (@kgrad_counts _ k NEG phi (o b) Ht Hk). now apply Ho.
  - apply seq_NoDup.
  - apply in_seq. lia.
  - intros b' Hb' Hne. apply in_seq in Hb'. assert (Hlt : (b' < batch_of c)%nat) by lia. destruct (HG b' Hlt) as [Ht E].
    rewrite (@kgrad_counts _ k NEG phi (o b') Ht Hk) by now apply Ho. apply (Sum_zero R_csr). intros i Hi. apply in_seq in Hi.
    rewrite cnt_names; [cbn [R_csr k0]; ring|]. intro Hin. apply Hne. rewrite <- He. symmetry.
    destruct (@dpick_spec _ k NEG phi (o b') Ht Hk (snd (G b')) (Ho b' Hlt)) as [_ (rest & HP)].
    assert (Hd : In (dpick (fst (G b')) k (o b') (snd (G b')) i) (expand (kt k (row_graph c b')))).
    { rewrite <- E. eapply Permutation_in; [symmetry; exact HP|]. apply in_or_app. left. apply in_map, in_seq. lia. }
    destruct (kt_nleaf k (graph_wf c V Hlt) _ Hd) as (m0 & H0 & _ & Hi').
    eapply (@graph_inrow c b' V Hlt); [exact H0|]. apply Hi'. exact Hin.
Qed.

(** C16 *)
(** what slot values and slices are claimed to be: [ss] lists structures, best
    first; when there are fewer than k structures the last slots hold junk near -1e5 *)
Record k_best (S : spec) (l : list (st S)) (phi : list nat -> R) (k : nat) (hi : R) (v : list R) (ss : list (st S)) : Prop := KBest {
  kb_len : length ss = Nat.min k (length l);
  kb_distinct : NoDup ss;
  kb_ok : forall s, In s ss -> ok S s;
  kb_values : exists junk, v = map (sc (prt S) phi) ss ++ junk /\ forall x, In x junk -> x <= hi;
  kb_sorted : StronglySorted Rge v;
  kb_best : forall s s', ok S s -> ~ In s ss -> In s' ss -> sc (prt S) phi s <= sc (prt S) phi s'
}.
Lemma desc_ge v : desc v -> StronglySorted Rge v.
Proof.
  induction 1 as [|x v Hv IH Hx]; constructor; auto. eapply Forall_impl; [|exact Hx]. simpl. intros. lra.
Qed.
Lemma row_best c G k phi o B : valid c -> (0 < k)%nat -> records c G -> topk_answers c G k phi o ->
  forall b l, row_ok c b -> kbound c b B phi -> let S := spec_of c b in Enumerates (ok S) l ->
  exists ss, k_best S l phi k (NEG + INR (kdegree c b) * B) (at_row [] (q_kmax c k phi) b) ss /\
    length (at_row [] (q_kmax c k phi) b) = k /\
    forall i e d, (i < length ss)%nat ->
      cnt e (dpick (fst (G b)) k (o b) (snd (G b)) i) = uses (prt S) e (nth i ss d).
Proof.
  intros V Hk HG Ho b l Hb [HB HR]. cbv zeta. intro Hl. destruct (row_family V Hb) as (F & HF). pose proof (proj1 Hb) as Hlt.
  destruct (HG b Hlt) as [Ht E]. rewrite (ir_graph HF) in E.
  set (r := snd (G b)) in *. set (g := fst (G b)) in *.
  set (P := map (dpick g k (o b) r) (seq 0 k)).
  destruct (@dpick_spec g k NEG phi (o b) Ht Hk r (Ho b Hlt)) as [HV (rest & HP)]. fold P in HV, HP.
  rewrite E in HP. rewrite (fwd_unf Ht), E in HV.
  assert (HPl : length P = k) by (unfold P; now rewrite map_length, seq_length).
  assert (HDB : INR (kdegree c b) * B >= B).
  { pose proof (le_INR _ _ (kdegree_pos HF)) as H1. pose proof (@HB0 phi B HB). simpl in H1. nra. }
  assert (HV' : map (score phi NEG) P = topk k (map (score phi NEG) (expand (kt k (ft F))))).
  { rewrite HV. apply kmax_value; auto; [apply ft_wf|apply NEG_neg|]. intro e. specialize (HB e). apply Rabs_le_inv in HB. unfold NEG. lra. }
  assert (Ev : at_row [] (q_kmax c k phi) b = map (score phi NEG) P).
  { rewrite HV, <- frun_leval. apply (q_row (kmax_ops k NEG) (fun e => kmax_convert k NEG (phi e)) [] HF). }
  destruct (@best_structures F k phi B (kdegree c b) Hk HB (row_leaves HF) (kdegree_pos HF) HR P rest HPl HP HV') as (ss & low & H1 & H2 & H3 & H4 & H5 & H6 & H7).
  rewrite Ev. revert l Hl. rewrite <- (ir_spec HF). intros l Hl.
  assert (Hll : length (flist F) = length l).
  { apply Permutation_length. exact (Enumerates_perm (fenum F) Hl). }
  exists ss. split; [|split].
  - split; cbn [ok prt fspec].
    + rewrite <- Hll. exact H2.
    + exact H3.
    + intros s Hs. apply (fenum F). auto.
    + exists low. auto.
    + apply desc_ge. rewrite HV'. apply topk_desc.
    + intros s s' Hs. apply H5. now apply (fenum F).
  - now rewrite map_length.
  - intros i e d Hi. cbn [prt fspec]. assert (Hi' : (i < Nat.min k (length (flist F)))%nat) by (rewrite <- H2; exact Hi). etransitivity; [|exact (H7 i e d Hi')]. f_equal.
    unfold P. rewrite (nth_indep _ [] (dpick g k (o b) r 0%nat)) by (rewrite map_length, seq_length; lia).
    rewrite map_nth, seq_nth by lia. reflexivity.
Qed.

Lemma topk_answers_exist c G k phi : valid c -> records c G -> (0 < k)%nat -> exists o, topk_answers c G k phi o.
Proof.
  intros V HG Hk.
  assert (H : forall n, exists o, forall b, (b < n)%nat -> (b < batch_of c)%nat -> topk_node (fst (G b)) k NEG phi (o b)).
    { induction n as [|n (o & Ho)]; [exists (fun _ _ _ => 0%nat); intros; lia|].
      destruct (Nat.lt_ge_cases n (batch_of c)) as [Hn|Hn].
      - destruct (HG n Hn) as [Ht _]. destruct (@topk_node_exists (fst (G n)) k NEG phi Ht Hk) as (on & Hon).
        exists (fun b => if (b =? n)%nat then on else o b). intros b' Hb' Hb''. destruct (Nat.eqb_spec b' n) as [->|]; auto. apply Ho; lia.
      - exists o. intros b' H1 H2. apply Ho; lia. }
    destruct (H (batch_of c)) as (o & Ho). exists o. intros b' Hb'. now apply Ho.
Qed.

Theorem C16_kmax c k phi : valid c -> (0 < k)%nat ->
  exists v, q_kmax c k phi = Ok v /\ length v = batch_of c /\
  forall b l B, row_ok c b -> kbound c b B phi -> let S := spec_of c b in Enumerates (ok S) l ->
    length (nth b v []) = k /\ exists ss, k_best S l phi k (NEG + INR (kdegree c b) * B) (nth b v []) ss.
Proof.
  intros V Hk. assert (H0 : exists v, q_kmax c k phi = Ok v /\ length v = batch_of c) by apply (run_ok c (kmax_ops k NEG) _ V).
  destruct H0 as (v & E & L). exists v. split; [exact E|]. split; [exact L|]. intros b l B Hb HB S Hl.
  destruct (records_exist c V) as (G & HG).
  destruct (@topk_answers_exist c G k phi V HG Hk) as (o & Ho). destruct (@row_best c G k phi o B V Hk HG Ho b l Hb HB Hl) as (ss & H1 & H2 & _).
  rewrite E in H1, H2. cbn [at_row] in H1, H2. split; [exact H2|]. exists ss. exact H1.
Qed.
Print Assumptions C16_kmax.

(** the slices of [topk]: slice i is the 0/1 indicator of the structure behind
    value i *)
Theorem C16_topk c G k phi o : valid c -> samples c -> (0 < k)%nat -> records c G -> topk_answers c G k phi o ->
  forall b l B, row_ok c b -> kbound c b B phi -> let S := spec_of c b in Enumerates (ok S) l ->
  exists ss, k_best S l phi k (NEG + INR (kdegree c b) * B) (at_row [] (q_kmax c k phi) b) ss /\
    forall i s e, nth_error ss i = Some s -> row_of c e = b ->
      q_topk c G k o i e = if in_dec (list_eq_dec Nat.eq_dec) e (prt S s) then 1 else 0.
Proof.
  intros V Hs Hk HG Ho b l B Hb HB S Hl. destruct (@row_best c G k phi o B V Hk HG Ho b l Hb HB Hl) as (ss & H1 & _ & H3).
  exists ss. split; [exact H1|]. intros i s e Hi He. pose proof (proj1 Hb) as Hlt. unfold S in *. clear S.
  assert (Hil : (i < length ss)%nat) by (apply nth_error_Some; rewrite Hi; discriminate).
  assert (Hik : (i < k)%nat) by (rewrite (kb_len H1) in Hil; lia).
  unfold q_topk. rewrite (@kgrad_row c G k o _ e phi b V HG Hk Ho Hlt He).
  rewrite <- (@RSum_delta k (fun _ => if in_dec (list_eq_dec Nat.eq_dec) e (prt (spec_of c b) s) then 1 else 0) i Hik).
  apply (Sum_ext_in R_csr). intros j Hj. destruct (Nat.eqb_spec i j) as [<-|]; [|apply Rmult_0_l]. rewrite Rmult_1_l.
  rewrite (H3 i e s Hil). rewrite (nth_error_nth _ _ s Hi). unfold uses.
  assert (Hnd : NoDup (prt (spec_of c b) s)).
  { pose proof (kb_ok H1 s (nth_error_In _ _ Hi)) as Hok. destruct (row_family V Hb) as (F & HF).
    assert (M : multilinear (row_graph c b)) by (apply graph_multilinear; auto).
    rewrite (ir_graph HF) in M. clear - HF M Hok. revert s Hok. rewrite <- (ir_spec HF). cbn [ok prt fspec st].
    intros s Hok. apply (fenum F) in Hok. destruct (@structure_is_pure F s Hok) as (m & Hm & Hp & HP).
    eapply Permutation_NoDup; [exact HP|]. rewrite <- names_pure by auto. now apply M. }
  destruct (in_dec (list_eq_dec Nat.eq_dec) e (prt (spec_of c b) s)) as [H|H].
  - rewrite (proj1 (NoDup_count_occ' _ _) Hnd e H). reflexivity.
  - rewrite (proj1 (count_occ_not_In _ _ _)) by auto. reflexivity.
Qed.
Print Assumptions C16_topk.

(** SentCFG: with at least k parses, the term, rule and root tensors count the
    uses in all the k best parses together *)
Theorem C16_topk_cfg batch N NT T ls G k phi o : let c := CCfg batch N NT T ls in
  valid c -> (0 < k)%nat -> records c G -> topk_answers c G k phi o ->
  forall b l B, row_ok c b -> kbound c b B phi -> let S := spec_of c b in Enumerates (ok S) l -> (k <= length l)%nat ->
  exists ss, k_best S l phi k (NEG + INR (kdegree c b) * B) (at_row [] (q_kmax c k phi) b) ss /\
    forall e, row_of c e = b -> q_topk_cfg c G k o e = RSum (uses (prt S) e) ss.
Proof.
  intro c. intros V Hk HG Ho b l B Hb HB S Hl Hkl. destruct (@row_best c G k phi o B V Hk HG Ho b l Hb HB Hl) as (ss & H1 & _ & H3).
  exists ss. split; [exact H1|]. intros e He. pose proof (proj1 Hb) as Hlt.
  unfold q_topk_cfg. rewrite (@kgrad_row c G k o _ e phi b V HG Hk Ho Hlt He).
  assert (Hlen : length ss = k) by (rewrite (kb_len H1); lia).
  destruct ss as [|d ss'] eqn:Es; [simpl in Hlen; lia|]. rewrite <- Es in *.
  transitivity (RSum (fun i => uses (prt S) e (nth i ss d)) (seq 0 k)).
  - apply (Sum_ext_in R_csr). intros i Hi. apply in_seq in Hi. rewrite Rmult_1_l. apply H3. lia.
  - rewrite <- Hlen. rewrite <- (@RSum_map nat _ (uses (prt S) e) (fun i => nth i ss d)). f_equal.
    clear. induction ss as [|s ss IH]; auto. simpl. f_equal. rewrite <- seq_shift, map_map. exact IH.
Qed.
Print Assumptions C16_topk_cfg.

(** the hypotheses hold for the five example calls, and there are more than k
    structures in each row *)
Example ex_kmax : Forall (fun c => valid c /\ (forall b, (b < 2)%nat -> row_ok c b /\ kbound c b 3 ex_phi) /\
  forall k, (0 < k)%nat -> exists G o, records c G /\ topk_answers c G k ex_phi o) ex_calls.
Proof.
  pose proof ex_hypotheses as H. rewrite Forall_forall in *. intros c Hc. destruct (H c Hc) as (V & Hb & Hr & _).
  split; [exact V|]. split.
  - intros b Hlt. destruct (Hr b Hlt) as [R _]. split; [exact R|]. split; [apply ex_phi_abs|].
    assert (Hd : (kdegree c b <= 8)%nat).
    { unfold ex_calls in Hc. repeat destruct Hc as [<-|Hc]; try (destruct Hc); (destruct b as [|[|b]]; [vm_compute; lia|vm_compute; lia|lia]). }
    apply le_INR in Hd. rewrite (INR_IZR_INZ 8) in Hd. simpl in Hd. lra.
  - intros k Hk. destruct (records_exist c V) as (G & HG). destruct (@topk_answers_exist c G k ex_phi V HG Hk) as (o & Ho). eauto.
Qed.
Example ex_enough : length (seqs 3 4) = 81%nat /\ Enumerates (ok (spec_of ex_lin 0)) (seqs 3 4).
Proof. split; [vm_compute; reflexivity|]. apply seqs_enum. Qed.
