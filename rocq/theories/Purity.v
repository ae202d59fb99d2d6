(** * Purity: TreeCRF and DepTree never touch the finite zero.

    For these two dynamic programs every chart cell that can influence the
    result is built from potentials, one, sums and products only. *)
From Verif Require Import Base Ops Terms Poly LinearChain CkyCrf DepSpec DepTree Semirings Family Approx.
Set Implicit Arguments.

Section Pred.
  Variable O : ops.
  Variable P : car O -> Prop.
  Hypothesis Psum : forall l, l <> [] -> Forall P l -> P (ssum O l).
  Hypothesis Pmul : forall a b, P a -> P b -> P (smul O a b).
  Hypothesis Pone : P (sone O).

  Lemma Psum_seq n s (f : nat -> car O) : 0 < n -> (forall i, s <= i < s + n -> P (f i)) ->
    P (ssum O (map f (seq s n))).
  Proof.
    intros Hn H. apply Psum; [destruct n; [lia|discriminate]|].
    apply Forall_forall. intros x Hx. apply in_map_iff in Hx as (i & <- & Hi). apply in_seq in Hi. auto.
  Qed.
  Lemma Pdot n (f g : nat -> car O) : 0 < n -> (forall i, i < n -> P (f i)) -> (forall i, i < n -> P (g i)) ->
    P (dot O n f g).
  Proof. intros Hn Hf Hg. apply Psum_seq; auto. intros i Hi. apply Pmul; [apply Hf|apply Hg]; lia. Qed.

  (** TreeCRF *)
  Section Ck.
    Variables (NT N b : nat) (pot : list nat -> car O).
    Hypothesis HNT : 0 < NT.
    Hypothesis Ppot : forall e, P (pot e).
    Lemma Pred_red i j : P (ck_red O NT pot b i j).
    Proof. apply Psum_seq; auto. Qed.
    (** proof device: the predicate holds of all cells that the loop has filled *)
    Definition ckp (w : nat) (st : chart2 O) : Prop :=
      (forall i k, k <= w -> i + k < N -> P (fst st i k)) /\
      (forall j k, k <= w -> k <= j -> j < N -> P (snd st j (N - 1 - k))).
    Lemma ckp_step w st : 0 < w < N -> ckp (w - 1) st -> ckp w (ck_step O NT N pot b st w).
    Proof.
      intros Hw [HA HB]. destruct st as [cA cB]. cbn [fst snd] in HA, HB.
      assert (Hnew : forall i, i + w < N ->
        P (smul O (dot O w (fun m => cA i m) (fun m => cB (i + w) (N - w + m))) (ck_red O NT pot b i (i + w)))).
      { intros i Hi. apply Pmul; [|apply Pred_red]. apply Pdot; [lia| |].
        - intros m Hm. apply HA; lia.
        - intros m Hm. replace (N - w + m) with (N - 1 - (w - 1 - m)) by lia. apply HB; lia. }
      split; unfold ck_step; cbn [fst snd].
      - intros i k Hk Hi. destruct (k =? w) eqn:E.
        + apply Nat.eqb_eq in E; subst k.
          replace (i <? N - w) with true by (symmetry; apply Nat.ltb_lt; lia). simpl. apply Hnew; lia.
        + apply Nat.eqb_neq in E. rewrite andb_false_r. apply HA; lia.
      - intros j k Hk Hj HjN. destruct (N - 1 - k =? N - w - 1) eqn:E.
        + apply Nat.eqb_eq in E. assert (k = w) by lia. subst k.
          replace (w <=? j) with true by (symmetry; apply Nat.leb_le; lia).
          replace (j <? N) with true by (symmetry; apply Nat.ltb_lt; lia). simpl. apply Hnew. lia.
        + apply Nat.eqb_neq in E. rewrite andb_false_r. apply HB; lia.
    Qed.
    Lemma ckp_run w : w < N -> ckp w (fold_left (ck_step O NT N pot b) (seq 1 w) (ck_init O NT N pot b)).
    Proof.
      induction w; intro Hw.
      - split; simpl.
        + intros i k Hk Hi. replace k with 0 by lia.
          replace (i <? N) with true by (symmetry; apply Nat.ltb_lt; lia). apply Pred_red.
        + intros j k Hk Hj HjN. replace k with 0 by lia.
          replace (j <? N) with true by (symmetry; apply Nat.ltb_lt; lia). rewrite !Nat.sub_0_r, Nat.eqb_refl. apply Pred_red.
      - rewrite seq_S, fold_left_app. cbn [fold_left]. apply ckp_step; [lia|].
        replace (1 + w - 1) with w by lia. apply IHw. lia.
    Qed.
    Lemma ck_one_pred len : 1 <= N -> len <= N -> P (ck_one O NT N pot b len).
    Proof.
      intros HN HL. unfold ck_one, ck_run, pyidx.
      destruct (@ckp_run (N - 1)) as [HA _]; [lia|]. destruct (len =? 0); apply HA; lia.
    Qed.
  End Ck.

  (** DepTree *)
  Section Dp.
    Variables (N st M : nat) (arc : nat -> nat -> car O).
    Hypothesis HM : M < N.
    Hypothesis Parc : forall h c, h <= M -> c <= M -> c <> 0 -> h <> c -> P (arc h c).
    (** proof device: the predicate holds of all cells that the loop has filled *)
    Definition dpp (w : nat) (s : dstate (car O)) : Prop :=
      (forall i k, 1 <= i -> st <= i -> k <= w -> i + k <= M -> P (acl s i k)) /\
      (forall i k, st <= i -> k <= w -> i + k <= M -> P (acr s i k)) /\
      (forall j k, k <= w -> k + st <= j -> k < j -> j <= M -> P (bcl s j (N - 1 - k))) /\
      (forall j k, k <= w -> k + st <= j -> j <= M -> P (bcr s j (N - 1 - k))) /\
      (forall i k, st <= i -> 1 <= k <= w -> i + k <= M -> P (air s i k)) /\
      (forall j k, 1 <= k <= w -> k + st <= j -> k < j -> j <= M -> P (bil s j (N - 1 - k))).

    Lemma psetA_eq k v c i w : st <= i -> i + k < N -> w = k -> setA O N st k v c i w = v i.
    Proof.
      intros H1 H2 ->. unfold setA.
      replace (st <=? i) with true by (symmetry; apply Nat.leb_le; lia).
      replace (i <? N - k) with true by (symmetry; apply Nat.ltb_lt; lia).
      rewrite Nat.eqb_refl. reflexivity.
    Qed.
    Lemma psetA_ne k v c i w : w <> k -> setA O N st k v c i w = c i w.
    Proof.
      intro H. unfold setA. replace (w =? k) with false by (symmetry; apply Nat.eqb_neq; lia).
      now rewrite andb_false_r.
    Qed.
    Lemma psetB_eq k v c j w : k + st <= j -> j < N -> w = N - k - 1 -> setB O N st k v c j w = v (j - k).
    Proof.
      intros H1 H2 ->. unfold setB.
      replace (k + st <=? j) with true by (symmetry; apply Nat.leb_le; lia).
      replace (j <? N) with true by (symmetry; apply Nat.ltb_lt; lia).
      rewrite Nat.eqb_refl. reflexivity.
    Qed.
    Lemma psetB_ne k v c j w : w <> N - k - 1 -> setB O N st k v c j w = c j w.
    Proof.
      intro H. unfold setB. replace (w =? N - k - 1) with false by (symmetry; apply Nat.eqb_neq; lia).
      now rewrite andb_false_r.
    Qed.

    Lemma dpp_init : dpp 0 (dp_init O N).
    Proof.
      unfold dpp, dp_init. cbn [acl acr bcl bcr air bil].
      repeat split; intros; try lia; replace k with 0 by lia; unfold fill; rewrite ?Nat.sub_0_r, ?Nat.eqb_refl; auto.
    Qed.
    Lemma dpp_step k s : 1 <= k < N -> dpp (k - 1) s -> dpp k (dp_step O N st arc s k).
    Proof.
      intros Hk (H1 & H2 & H3 & H4 & H5 & H6).
      set (x := fun i => dot O k (fun m => acr s i m) (fun m => bcl s (i + k) (N - k + m))).
      assert (Hx : forall i, st <= i -> i + k <= M -> P (x i)).
      { intros i Hi HiN. apply Pdot; [lia| |].
        - intros m Hm. apply H2; lia.
        - intros m Hm. replace (N - k + m) with (N - 1 - (k - 1 - m)) by lia. apply H3; lia. }
      set (al := fun i => smul O (x i) (arc (i + k) i)).
      set (ar := fun i => smul O (x i) (arc i (i + k))).
      assert (Hal : forall i, 1 <= i -> st <= i -> i + k <= M -> P (al i)).
      { intros i H0 Hi HiN. apply Pmul; [apply Hx; auto|]. apply Parc; lia. }
      assert (Har : forall i, st <= i -> i + k <= M -> P (ar i)).
      { intros i Hi HiN. apply Pmul; [apply Hx; auto|]. apply Parc; lia. }
      set (bil' := setB O N st k al (bil s)).
      set (air' := setA O N st k ar (air s)).
      assert (Hbil : forall j w, 1 <= w <= k -> w + st <= j -> w < j -> j <= M -> P (bil' j (N - 1 - w))).
      { intros j w Hw Hj H0 HjN. unfold bil'. destruct (Nat.eq_dec w k) as [->|Hne].
        - rewrite psetB_eq by lia. apply Hal; lia.
        - rewrite psetB_ne by lia. apply H6; lia. }
      assert (Hair : forall i w, st <= i -> 1 <= w <= k -> i + w <= M -> P (air' i w)).
      { intros i w Hi Hw HiN. unfold air'. destruct (Nat.eq_dec w k) as [->|Hne].
        - rewrite psetA_eq by lia. now apply Har.
        - rewrite psetA_ne by lia. apply H5; lia. }
      set (nl := fun i => dot O k (fun m => acl s i m) (fun m => bil' (i + k) (N - k - 1 + m))).
      set (nr := fun i => dot O k (fun m => air' i (1 + m)) (fun m => bcr s (i + k) (N - k + m))).
      assert (Hnl : forall i, 1 <= i -> st <= i -> i + k <= M -> P (nl i)).
      { intros i H0 Hi HiN. apply Pdot; [lia| |].
        - intros m Hm. apply H1; lia.
        - intros m Hm. replace (N - k - 1 + m) with (N - 1 - (k - m)) by lia. apply Hbil; lia. }
      assert (Hnr : forall i, st <= i -> i + k <= M -> P (nr i)).
      { intros i Hi HiN. apply Pdot; [lia| |].
        - intros m Hm. apply Hair; lia.
        - intros m Hm. replace (N - k + m) with (N - 1 - (k - 1 - m)) by lia. apply H4; lia. }
      unfold dp_step. fold x al ar bil' air' nl nr. unfold dpp. cbn [acl acr bcl bcr air bil].
      split; [|split; [|split; [|split; [|split]]]].
      - intros i w H0 Hi Hw HiN. destruct (Nat.eq_dec w k) as [->|].
        + rewrite psetA_eq by lia. apply Hnl; lia.
        + rewrite psetA_ne by lia. apply H1; lia.
      - intros i w Hi Hw HiN. destruct (Nat.eq_dec w k) as [->|].
        + rewrite psetA_eq by lia. apply Hnr; lia.
        + rewrite psetA_ne by lia. apply H2; lia.
      - intros j w Hw Hj H0 HjN. destruct (Nat.eq_dec w k) as [->|].
        + rewrite psetB_eq by lia. apply Hnl; lia.
        + rewrite psetB_ne by lia. apply H3; lia.
      - intros j w Hw Hj HjN. destruct (Nat.eq_dec w k) as [->|].
        + rewrite psetB_eq by lia. apply Hnr; lia.
        + rewrite psetB_ne by lia. apply H4; lia.
      - intros; apply Hair; lia.
      - intros; apply Hbil; lia.
    Qed.
    Lemma dpp_run : st < N -> dpp (N - st - 1) (dp_run O N st arc).
    Proof.
      intro HN. unfold dp_run.
      assert (G : forall w, w < N -> dpp w (fold_left (dp_step O N st arc) (seq 1 w) (dp_init O N))).
      { induction w; intro Hw; [apply dpp_init|].
        rewrite seq_S, fold_left_app. cbn [fold_left]. apply dpp_step; [lia|].
        replace (1 + w - 1) with w by lia. apply IHw. lia. }
      apply G. lia.
    Qed.
  End Dp.

  Lemma dp_one_pred multiroot labels words junk pot b len :
    (forall e, P (pot e)) -> labels <> Some 0 -> len <= words -> (multiroot = false -> 1 <= len) ->
    P (dp_one O multiroot labels words junk pot b len).
  Proof.
    intros Hp HL Hle H1. unfold dp_one.
    assert (Ha : forall h c, h <= len -> c <= len -> c <> 0 -> h <> c -> P (dp_arc O junk labels pot b len h c)).
    { intros h c G1 G2 G3 G4.
      assert (G : forall lab, P (dp_cell O junk pot b len h c lab)).
      { intro lab. unfold dp_cell.
        replace (len <? h) with false by (symmetry; apply Nat.ltb_ge; lia).
        replace (len <? c) with false by (symmetry; apply Nat.ltb_ge; lia).
        replace (c =? 0) with false by (symmetry; apply Nat.eqb_neq; lia).
        replace (h =? c) with false by (symmetry; apply Nat.eqb_neq; lia). simpl. auto. }
      destruct labels as [L|]; [|apply G]. simpl. apply Psum_seq; auto. destruct L; [congruence|lia]. }
    destruct multiroot.
    - destruct (@dpp_run (words + 1) 0 len _ ltac:(lia) Ha ltac:(lia)) as (_ & H & _). apply H; lia.
    - specialize (H1 eq_refl).
      destruct (@dpp_run (words + 1) 1 len _ ltac:(lia) Ha ltac:(lia)) as (G1 & _ & _ & G4 & _).
      unfold dp_root.
      replace (1 <=? len) with true by (symmetry; apply Nat.leb_le; lia).
      replace (len <? words + 1) with true by (symmetry; apply Nat.ltb_lt; lia). cbn [andb].
      apply Pdot; [lia| |].
      + intros m Hm. apply Pmul; [apply G1; lia|apply Ha; lia].
      + intros m Hm. replace (words + 1 - len + m) with (words + 1 - 1 - (len - 1 - m)) by lia. apply G4; lia.
  Qed.
End Pred.

(** every derivation of the term is pure *)
Definition tpure (t : term) : Prop := forall m, In m (expand t) -> pure m = true.
Lemma tpure_sum l : l <> [] -> Forall tpure l -> tpure (TSum l).
Proof.
  intros _ H m Hm. simpl in Hm. apply in_flat_map in Hm as (t & Ht & Hm).
  rewrite Forall_forall in H. apply (H t Ht m Hm).
Qed.
Lemma pure_app a b : pure (a ++ b) = pure a && pure b.
Proof. apply forallb_app. Qed.
Lemma tpure_mul a b : tpure a -> tpure b -> tpure (TMul a b).
Proof.
  intros Ha Hb m Hm. simpl in Hm. apply in_prods in Hm as (x & y & Hx & Hy & ->).
  rewrite pure_app, (Ha x Hx), (Hb y Hy). reflexivity.
Qed.
Lemma tpure_one : tpure TOne.
Proof. intros m [<-|[]]. reflexivity. Qed.
Lemma tpure_leaf e : tpure (TLeaf e).
Proof. intros m [<-|[]]. reflexivity. Qed.
Lemma tpure_fpure F : tpure (ft F) -> fpure F.
Proof.
  intro H. unfold fpure, spur. 
  assert (G : forall l, (forall m, In m l -> pure m = true) -> filter (fun m => negb (pure m)) l = []).
  { induction l as [|m l IH]; simpl; auto. intro Hl. rewrite (Hl m) by auto. simpl. apply IH. auto. }
  apply G. exact H.
Qed.

Theorem ck_fam_pure batch N NT lengths (Ha : ck_args batch N NT lengths) b (Hb : b < batch) :
  fpure (ck_fam Ha Hb).
Proof.
  apply tpure_fpure. destruct Ha as (HN & HT & HL).
  apply (@ck_one_pred tops tpure tpure_sum tpure_mul NT N b TLeaf HT tpure_leaf); auto.
  destruct lengths as [ls|]; simpl; auto. destruct HL as [G1 G2]. rewrite Forall_forall in G2. apply G2, nth_In. lia.
Qed.
Theorem dp_fam_pure mr batch n lengths (Ha : dp_args mr batch n lengths) b (Hb : b < batch)
    (H1 : mr = false -> 1 <= lc_len n lengths b) : fpure (dp_fam Ha Hb H1).
Proof.
  apply tpure_fpure.
  apply (@dp_one_pred tops tpure tpure_sum tpure_mul tpure_one mr None n TZero TLeaf b); auto using tpure_leaf.
  - discriminate.
  - eapply dp_len_le; eauto.
Qed.
Theorem dpl_fam_pure mr batch n lengths L (HL : 0 < L) (Ha : dp_args mr batch n lengths) b (Hb : b < batch)
    (H1 : mr = false -> 1 <= lc_len n lengths b) : fpure (dpl_fam HL Ha Hb H1).
Proof.
  apply tpure_fpure.
  apply (@dp_one_pred tops tpure tpure_sum tpure_mul tpure_one mr (Some L) n TZero TLeaf b); auto using tpure_leaf.
  - intro E. injection E as E. lia.
  - eapply dp_len_le; eauto.
Qed.
