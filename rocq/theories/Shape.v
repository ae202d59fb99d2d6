(** * Shape: every structure set is inhabited; which potentials can occur twice
    in one derivation; [_dp_standard] never touches the finite zero. *)
From Verif Require Import Base Ops Terms Semirings Poly Chain LinearChain SemiMarkov CkyCrf Cky DepSpec DepTree
  Batch Family Approx Grad Sample Dist Purity Degree.
Set Implicit Arguments.

(** ** Inhabited *)
Lemma fam_nonempty F s : fok F s -> flist F <> [].
Proof.
  intros H E. destruct (fenum F) as [_ G]. apply G in H. rewrite E in H. destruct H.
Qed.
Lemma lc_nonempty batch N C lengths (Ha : lc_args batch N C lengths) b : flist (lc_fam Ha b) <> [].
Proof.
  apply (@fam_nonempty (lc_fam Ha b) (repeat 0 (Nat.max 1 (lc_len N lengths b)))). simpl. split.
  - apply repeat_length.
  - apply Forall_forall. intros x Hx. apply repeat_spec in Hx. subst. apply Ha.
Qed.
Lemma segm_inhabited K C len : 2 <= K -> 0 < C -> is_segm K C len (0, repeat (1, 0) (len - 1)).
Proof.
  intros HK HC. split; [simpl; lia|]. split.
  - apply Forall_forall. intros x Hx. apply repeat_spec in Hx. subst. split; simpl; lia.
  - unfold widths. simpl. induction (len - 1); simpl; auto.
Qed.
Lemma sm_nonempty batch N K C lengths (Ha : sm_args batch N K C lengths) b : flist (sm_fam Ha b) <> [].
Proof.
  apply (@fam_nonempty (sm_fam Ha b) (0, repeat (1, 0) (lc_len N lengths b - 1))). apply segm_inhabited; apply Ha.
Qed.
Lemma smd_nonempty batch N K C lengths (Ha : sm_args batch N K C lengths) b Hb : flist (smd_fam Ha b Hb) <> [].
Proof.
  apply (@fam_nonempty (smd_fam Ha b Hb) (0, repeat (1, 0) (lc_len N lengths b - 1))). apply segm_inhabited; apply Ha.
Qed.
Lemma ltree_inhabited NT n : 0 < NT -> exists t, is_ltree NT (S n) t.
Proof.
  intro H. induction n as [|n (t & H1 & H2)].
  - exists (LLeaf 0). split; simpl; auto.
  - exists (LNode 0 (LLeaf 0) t). split; simpl; auto; lia.
Qed.
Lemma ck_nonempty batch N NT lengths (Ha : ck_args batch N NT lengths) b (Hb : b < batch) : flist (ck_fam Ha Hb) <> [].
Proof.
  assert (H : 1 <= eff_len N (lc_len N lengths b)) by (apply (@eff_len_ok batch); auto; apply Ha).
  assert (HNT : 0 < NT) by apply Ha.
  destruct (@ltree_inhabited NT (eff_len N (lc_len N lengths b) - 1) HNT) as (t & Ht).
  apply (@fam_nonempty (ck_fam Ha Hb) t). simpl. 
  replace (eff_len N (lc_len N lengths b)) with (S (eff_len N (lc_len N lengths b) - 1)) by lia. exact Ht.
Qed.
Lemma ptree_inhabited NT T n : 0 < NT -> 0 < T -> exists p, is_parse NT T (S (S n)) p.
Proof.
  intros H1 H2. induction n as [|n (t & G1 & G2 & G3)].
  - exists (PN 0 (PT 0) (PT 0)). repeat split; simpl; auto.
  - exists (PN 0 (PT 0) t). repeat split; simpl; auto; lia.
Qed.
(** a one-word sentence has no parse: a root is a nonterminal, and nonterminals
    only rewrite to pairs *)
Lemma cy_nonempty batch N NT T lengths (Ha : cy_args batch N NT T lengths) b (Hb : b < batch) :
  2 <= eff_len N (lc_len N lengths b) -> flist (cy_fam Ha Hb) <> [].
Proof.
  intro H. destruct Ha as (HN & HNT & HT & HL) eqn:E.
  destruct (@ptree_inhabited NT T (eff_len N (lc_len N lengths b) - 2) HNT HT) as (t & Ht).
  apply (@fam_nonempty (cy_fam _ Hb) t). simpl.
  replace (eff_len N (lc_len N lengths b)) with (S (S (eff_len N (lc_len N lengths b) - 2))) by lia. exact Ht.
Qed.
(** root over word 1, word 1 over all others *)
Lemma proj_inhabited n : is_proj (S n) (0 :: repeat 1 n).
Proof.
  assert (Hk : forall k, hd_of (0 :: repeat 1 n) k <= 1).
  { intros [|[|k]]; simpl; try lia. destruct (nth_in_or_default k (repeat 1 n) 0) as [H|H]; [|lia].
    apply repeat_spec in H. lia. }
  assert (H1 : hd_of (0 :: repeat 1 n) 1 = 0) by reflexivity.
  assert (Hh : forall k, 2 <= k <= S n -> hd_of (0 :: repeat 1 n) k = 1).
  { intros [|[|k]] Hk'; try lia. simpl.
    destruct (nth_in_or_default k (repeat 1 n) 0) as [H|H]; [now apply repeat_spec in H|].
    assert (In (nth k (repeat 1 n) 0) (repeat 1 n)) by (apply nth_In; rewrite repeat_length; lia).
    apply repeat_spec in H0. exact H0. }
  split; [simpl; now rewrite repeat_length|]. split.
  - intros k Hk'. split; [specialize (Hk k); lia|].
    destruct (Nat.eq_dec k 1) as [->|]; [exists 1; reflexivity|].
    exists 2. cbn [Nat.iter nat_rect]. rewrite (Hh k) by lia. reflexivity.
  - intros k m Hk' Hb. unfold between in Hb. 
    destruct (Nat.eq_dec k 1) as [->|]; [rewrite H1 in Hb; lia|].
    rewrite (Hh k) in Hb |- * by lia. exists 1. cbn [Nat.iter nat_rect]. apply Hh. lia.
Qed.
Lemma single_root_repeat n : single_root (0 :: repeat 1 n).
Proof. unfold single_root. simpl. f_equal. induction n; simpl; auto. Qed.
Lemma dep_inhabited mr n : (mr = false -> 1 <= n) -> exists h, dep_ok mr n h.
Proof.
  intro H. destruct n as [|n].
  - exists []. split; [|intro E; specialize (H E); lia].
    split; [reflexivity|]. split; intros; lia.
  - exists (0 :: repeat 1 n). split; [apply proj_inhabited|intros _; apply single_root_repeat].
Qed.
Lemma dp_nonempty mr batch n lengths (Ha : dp_args mr batch n lengths) b (Hb : b < batch) H1 :
  flist (dp_fam Ha Hb H1) <> [].
Proof.
  destruct (@dep_inhabited mr (lc_len n lengths b) H1) as (h & Hh). apply (@fam_nonempty (dp_fam Ha Hb H1) h). exact Hh.
Qed.
Lemma dpl_nonempty mr batch n lengths L (HL : 0 < L) (Ha : dp_args mr batch n lengths) b (Hb : b < batch) H1 :
  flist (dpl_fam HL Ha Hb H1) <> [].
Proof.
  destruct (@dep_inhabited mr (lc_len n lengths b) H1) as (h & Hh & Hs).
  apply (@fam_nonempty (dpl_fam HL Ha Hb H1) (map (fun x => (x, 0)) h)). simpl.
  assert (E : map fst (map (fun x => (x, 0)) h) = h).
  { rewrite map_map. simpl. apply map_id. }
  split; [split|]; rewrite ?E; auto.
  - apply Forall_forall. intros x Hx. apply in_map_iff in Hx as (y & <- & _). exact HL.
  - intro G. unfold lsingle_root. rewrite E. auto.
Qed.

(** ** [_dp_standard] *)
Section PredSmd.
  Variable O : ops.
  Variable P : car O -> Prop.
  Hypothesis Psum : forall l, l <> [] -> Forall P l -> P (ssum O l).
  Hypothesis Pmul : forall a b, P a -> P b -> P (smul O a b).
  Hypothesis Pone : P (sone O).
  Variables (K C N b : nat) (pot : list nat -> car O).
  Hypotheses (HK : 2 <= K) (HC : 0 < C) (Ppot : forall e, P (pot e)).
  (** proof device: the predicate holds of all cells that the loop has filled *)
  Definition smdp (n : nat) (st : smd_state O) : Prop :=
    (forall a k c, a < n -> P (fst st a k c)) /\ (forall m c, m <= n -> P (snd st m c)).
  Lemma smdp_step n st : smdp n st -> smdp (n + 1) (smd_step O K C pot b st (n + 1)).
  Proof.
    intros [Ha Hb]. destruct st as [alpha beta]. cbn [fst snd] in *. unfold smd_step.
    replace (n + 1 - 1) with n by lia.
    assert (Ha' : forall a k c, a < n + 1 ->
      P (if a =? n then dot O C (beta n) (fun c' => pot [b; n; k; c; c']) else alpha a k c)).
    { intros a k c Hlt. destruct (Nat.eqb_spec a n); [|apply Ha; lia].
      apply (@Pdot O P Psum Pmul); auto. }
    split; cbn [fst snd]; auto.
    intros m c Hm. destruct (Nat.eqb_spec m (n + 1)); [|apply Hb; lia].
    apply (@Psum_seq O P Psum); [lia|]. intros q Hq. apply Ha'. lia.
  Qed.
  Lemma smdp_run : smdp (N - 1) (smd_run O K C N pot b).
  Proof.
    unfold smd_run. induction (N - 1) as [|n IH].
    - split; simpl; [lia|]. intros m c Hm. replace m with 0 by lia. exact Pone.
    - rewrite seq_S, fold_left_app. cbn [fold_left]. replace (1 + n) with (n + 1) by lia.
      replace (S n) with (n + 1) by lia. now apply smdp_step.
  Qed.
  Lemma smd_one_pred len : len <= N -> P (smd_one O K C N pot b len).
  Proof.
    intro Hl. unfold smd_one. apply (@Psum_seq O P Psum); auto. intros c _. apply smdp_run.
    destruct (len =? 0); lia.
  Qed.
End PredSmd.
Theorem smd_fam_pure batch N K C lengths (Ha : sm_args batch N K C lengths) b Hb : fpure (smd_fam Ha b Hb).
Proof.
  apply tpure_fpure. destruct Ha as (HN & HK & HC & Hbb & HL) eqn:E.
  apply (@smd_one_pred tops tpure tpure_sum tpure_mul tpure_one K C N b TLeaf); auto using tpure_leaf.
  apply lc_len_le. clear E. destruct lengths; tauto.
Qed.

(** ** Multilinearity: no derivation uses a potential twice *)
Definition names (m : deriv) : list (list nat) :=
  flat_map (fun a => match a with AL e | AO e => [e] | AZ => [] end) m.
(** spec: no derivation of the graph uses a potential twice *)
Definition multilinear (t : term) : Prop := forall m, In m (expand t) -> NoDup (names m).

Lemma zcount_names e m : zcount e m = Z.of_nat (count_occ (list_eq_dec Nat.eq_dec) (names m) e).
Proof.
  induction m as [|a m IH]; [reflexivity|]. unfold zcount in *. cbn [map fold_right]. rewrite IH.
  destruct a as [e'|e'|]; cbn [names flat_map app count_occ].
  3: reflexivity.
  all: change (flat_map _ m) with (names m);
       destruct (list_eq_dec Nat.eq_dec e e'), (list_eq_dec Nat.eq_dec e' e); try congruence; lia.
Qed.
Lemma multilinear_zcount t m e : multilinear t -> In m (expand t) -> (zcount e m <= 1)%Z.
Proof.
  intros H Hm. rewrite zcount_names. pose proof (proj1 (NoDup_count_occ (list_eq_dec Nat.eq_dec) _) (H m Hm) e). lia.
Qed.

(** derivations whose potentials satisfy P, none repeated *)
Definition lin (P : list nat -> Prop) (t : term) : Prop :=
  forall m, In m (expand t) -> NoDup (names m) /\ forall e, In e (names m) -> P e.
Lemma names_app a b : names (a ++ b) = names a ++ names b.
Proof. apply flat_map_app. Qed.
Lemma lin_sum P l : Forall (lin P) l -> lin P (TSum l).
Proof.
  intros H m Hm. simpl in Hm. apply in_flat_map in Hm as (t & Ht & Hm).
  rewrite Forall_forall in H. apply (H t Ht m Hm).
Qed.
Lemma NoDup_app_intro A (l m : list A) : NoDup l -> NoDup m -> (forall x, In x l -> In x m -> False) -> NoDup (l ++ m).
Proof.
  intros Hl Hm H. induction Hl as [|x l Hx Hl IH]; simpl; auto. constructor.
  - rewrite in_app_iff. intros [G|G]; [auto|]. apply (H x); simpl; auto.
  - apply IH. intros y Hy. apply H. now right.
Qed.
Lemma lin_mul (P Q U : list nat -> Prop) a b : (forall e, P e -> Q e -> False) -> (forall e, P e \/ Q e -> U e) ->
  lin P a -> lin Q b -> lin U (TMul a b).
Proof.
  intros Hd HU Ha Hb m Hm. simpl in Hm. apply in_prods in Hm as (x & y & Hx & Hy & ->).
  destruct (Ha x Hx) as [A1 A2], (Hb y Hy) as [B1 B2]. rewrite names_app. split.
  - apply NoDup_app_intro; auto. intros e H1 H2. eapply Hd; eauto.
  - intros e He. apply HU. apply in_app_iff in He as [He|He]; auto.
Qed.
Lemma lin_sum_seq P (f : nat -> term) s k : (forall i, s <= i < s + k -> lin P (f i)) -> lin P (TSum (map f (seq s k))).
Proof.
  intro H. apply lin_sum, Forall_forall. intros t Ht. apply in_map_iff in Ht as (i & <- & Hi).
  apply in_seq in Hi. auto.
Qed.
Lemma lin_atom P t : (exists e, P e /\ (t = TLeaf e \/ t = TOver e)) \/ t = TOne \/ t = TZero -> lin P t.
Proof.
  intros [(e & He & [->| ->])|[->| ->]] m [<-|[]]; simpl; split; repeat constructor; auto; try tauto.
  all: intros ? [<-|[]]; auto.
Qed.

(** potentials of row b and steps a, ..., c-1: the row is the first index, the
    step the second *)
Definition at_steps (b a c : nat) (e : list nat) : Prop := nth 0 e 0 = b /\ a <= nth 1 e 0 < c.
(** proof device: every entry of a matrix uses the potentials of its own steps only *)
Definition linm b a c (M : nat -> nat -> term) : Prop := forall i j, lin (at_steps b a c) (M i j).
(** proof device: the same for a list of matrices *)
Fixpoint linl (b a w : nat) (l : list (nat -> nat -> term)) : Prop :=
  match l with [] => True | M :: l' => linm b a (a + w) M /\ linl b (a + w) w l' end.
Lemma lin_matmul b C a w M1 M2 : linm b a (a + w) M1 -> linm b (a + w) (a + w + w) M2 ->
  linm b a (a + (w + w)) (matmul tops C M2 M1).
Proof.
  intros H1 H2 i j. apply lin_sum_seq. intros k _.
  eapply lin_mul; [| |apply H2|apply H1]; unfold at_steps; intros; lia.
Qed.
Lemma scan_round_lin b C w l : forall a, linl b a w l -> linl b a (w + w) (scan_round tops C l).
Proof.
  induction l as [|x|x y l IH] using list_pair_ind; intros a H.
  - exact I.
  - exact I.
  - destruct H as (H1 & H2 & H3).
    assert (E : scan_round tops C (x :: y :: l) = matmul tops C y x :: scan_round tops C l)
      by (unfold scan_round, odds; destruct l; reflexivity).
    rewrite E. split; [now apply lin_matmul|]. apply IH. now rewrite Nat.add_assoc.
Qed.
Lemma scan_lin b C k : forall w l, linl b 0 w l -> linl b 0 (2 ^ k * w) (scan tops C k l).
Proof.
  induction k as [|k IH]; intros w l H; cbn [scan].
  - simpl. now rewrite Nat.add_0_r.
  - replace (2 ^ S k * w) with (2 ^ k * (w + w)) by (simpl; lia). apply IH. now apply scan_round_lin.
Qed.
Lemma chart_lin b (cell : nat -> nat -> nat -> term) m : (forall n, linm b n (n + 1) (cell n)) ->
  forall a, linl b a 1 (map (fun n i j => cell n i j) (seq a m)).
Proof.
  intro H. induction m as [|m IH]; intro a; simpl; auto. split; [apply H|].
  replace (a + 1) with (S a) by lia. apply IH.
Qed.
Lemma sum2_lin b a w C M : linm b a w M -> lin (at_steps b a w) (sum2 tops C M).
Proof. intro H. apply lin_sum_seq. intros i _. apply lin_sum_seq. intros j _. apply H. Qed.
Lemma lin_pair P a b : lin P a -> lin P b -> lin P (TSum [a; b]).
Proof. intros. apply lin_sum. constructor; [auto|constructor; [auto|constructor]]. Qed.

Lemma lc_lin C k b len : lin (at_steps b 0 (2 ^ k)) (lc_one tops C k (2 ^ k) TLeaf b len).
Proof.
  unfold lc_one.
  pose proof (@scan_lin b C k 1 (lc_chart tops TLeaf b len (2 ^ k))) as H. rewrite Nat.mul_1_r in H.
  destruct (scan tops C k (lc_chart tops TLeaf b len (2 ^ k))) as [|M l].
  - apply lin_atom. auto.
  - apply sum2_lin. apply H. apply (@chart_lin b (fun n i j => lc_cell tops TLeaf b len n i j)).
    intros n i j. unfold lc_cell, lc_init, fill. apply lin_pair.
    + apply lin_atom. destruct (negb (lc_mask len n)), (i =? j); auto.
    + apply lin_atom. left. exists [b; n; i; j]. split; [unfold at_steps; simpl; lia|].
      destruct (lc_mask len n); auto.
Qed.
Lemma sm_lin K C k b len : lin (at_steps b 0 (2 ^ k)) (sm_one tops K C k (2 ^ k) TLeaf b len).
Proof.
  unfold sm_one.
  pose proof (@scan_lin b ((K - 1) * C) k 1 (sm_chart tops TLeaf C b len (2 ^ k))) as H. rewrite Nat.mul_1_r in H.
  destruct (scan tops ((K - 1) * C) k (sm_chart tops TLeaf C b len (2 ^ k))) as [|M l].
  - apply lin_atom. auto.
  - apply sum2_lin. apply H. apply (@chart_lin b (fun n i j => sm_cell tops TLeaf C b len n i j)).
    intros n i j. unfold sm_cell, fill. destruct (j / C =? 0).
    + apply lin_pair.
      * apply lin_atom. destruct (negb (len - 1 <=? n)), ((i / C =? 0) && (i mod C =? j mod C)); auto.
      * apply lin_atom. left. eexists. split; [|destruct (len - 1 <=? n); [right|left]; reflexivity].
        unfold at_steps; simpl; lia.
    + apply lin_atom. destruct (_ && _); auto.
Qed.
Theorem lc_multilinear batch N C lengths (Ha : lc_args batch N C lengths) b : multilinear (ft (lc_fam Ha b)).
Proof. intros m Hm. exact (proj1 (@lc_lin _ _ _ _ m Hm)). Qed.
Theorem sm_multilinear batch N K C lengths (Ha : sm_args batch N K C lengths) b : multilinear (ft (sm_fam Ha b)).
Proof. intros m Hm. exact (proj1 (@sm_lin _ _ _ _ _ m Hm)). Qed.

(** pure families: it is enough that no structure uses a potential twice *)
Lemma names_pure m : pure m = true -> names m = leaves m.
Proof.
  induction m as [|a m IH]; [reflexivity|]. simpl. destruct a; try discriminate. simpl. intro H. now rewrite IH.
Qed.
Lemma pure_multilinear F : fpure F -> (forall s, In s (flist F) -> NoDup (fparts F s)) -> multilinear (ft F).
Proof.
  intros HF Hn m Hm. pose proof (@fpure_all F HF m Hm) as Hp. rewrite names_pure by auto.
  destruct (@pure_is_structure F m Hm Hp) as (s & Hs & HP).
  eapply Permutation_NoDup; [apply Permutation_sym; eauto|]. auto.
Qed.
Lemma segs_parts_ge b l : forall n c e, Forall (fun s => 1 <= fst s) l -> In e (segs_parts b n c l) -> n <= nth 1 e 0.
Proof.
  induction l as [|[w c] l IH]; intros n c0 e Hl He; [destruct He|]. inversion_clear Hl.
  destruct He as [<-|He]; [simpl; lia|]. apply IH in He; auto. simpl in *. lia.
Qed.
Lemma segs_parts_nodup b l : forall n c, Forall (fun s => 1 <= fst s) l -> NoDup (segs_parts b n c l).
Proof.
  induction l as [|[w c] l IH]; intros n c0 Hl; simpl; [constructor|]. inversion_clear Hl. constructor; auto.
  intro He. apply segs_parts_ge in He; auto. simpl in *. lia.
Qed.
Theorem smd_multilinear batch N K C lengths (Ha : sm_args batch N K C lengths) b Hb :
  multilinear (ft (smd_fam Ha b Hb)).
Proof.
  apply pure_multilinear; [apply smd_fam_pure|]. intros s Hs.
  apply (fenum (smd_fam Ha b Hb)) in Hs. simpl in Hs. destruct Hs as (_ & Hs & _).
  apply segs_parts_nodup. eapply Forall_impl; [|exact Hs]. intros x Hx. apply Hx.
Qed.

Lemma lsize_pos t : 1 <= lsize t.
Proof. induction t; simpl; lia. Qed.
Lemma lparts_in b t : forall i e, In e (lparts b i t) ->
  exists j k a, e = [b; j; k; a] /\ i <= j /\ j <= k /\ k < i + lsize t.
Proof.
  induction t as [a|a l IHl r IHr]; intros i e He; simpl in He.
  - destruct He as [<-|[]]. exists i, i, a. simpl. repeat split; lia.
  - pose proof (lsize_pos l). pose proof (lsize_pos r).
    destruct He as [<-|He].
    { exists i, (i + (lsize l + lsize r) - 1), a. simpl. repeat split; lia. }
    apply in_app_iff in He as [He|He].
    + apply IHl in He as (j & k & c & -> & ? & ? & ?). exists j, k, c. simpl. repeat split; lia.
    + apply IHr in He as (j & k & c & -> & ? & ? & ?). exists j, k, c. simpl. repeat split; lia.
Qed.
Lemma lparts_nodup b t : forall i, NoDup (lparts b i t).
Proof.
  induction t as [a|a l IHl r IHr]; intro i; simpl; [repeat constructor; auto|].
  pose proof (lsize_pos l). pose proof (lsize_pos r). constructor.
  - intro He. apply in_app_iff in He as [He|He]; apply lparts_in in He as (j & k & c & [= <- <- <-] & ? & ? & ?); lia.
  - apply NoDup_app_intro; auto. intros e H1 H2.
    apply lparts_in in H1 as (j & k & c & -> & ? & ? & ?). apply lparts_in in H2 as (j' & k' & c' & [= <- <- <-] & ? & ? & ?). lia.
Qed.
Theorem ck_multilinear batch N NT lengths (Ha : ck_args batch N NT lengths) b (Hb : b < batch) :
  multilinear (ft (ck_fam Ha Hb)).
Proof. apply pure_multilinear; [apply ck_fam_pure|]. intros s _. apply lparts_nodup. Qed.

Lemma dep_part_mod b c h lab : nth 2 (dep_part b c h lab) 0 = c.
Proof. unfold dep_part. destruct h; reflexivity. Qed.
Lemma dep_parts_nodup b h : forall c, NoDup (dep_parts_from b c h) /\ forall e, In e (dep_parts_from b c h) -> c <= nth 2 e 0.
Proof.
  induction h as [|x h IH]; intro c; cbn [dep_parts_from]; [split; [constructor|intros e []]|].
  destruct (IH (S c)) as [H1 H2]. split.
  - constructor; auto. intro H. apply H2 in H. rewrite dep_part_mod in H. lia.
  - intros e [<-|He]; [rewrite dep_part_mod; lia|]. apply H2 in He. lia.
Qed.
Lemma ldep_parts_nodup b h : forall c, NoDup (ldep_parts_from b c h) /\ forall e, In e (ldep_parts_from b c h) -> c <= nth 2 e 0.
Proof.
  induction h as [|x h IH]; intro c; cbn [ldep_parts_from]; [split; [constructor|intros e []]|].
  destruct (IH (S c)) as [H1 H2]. split.
  - constructor; auto. intro H. apply H2 in H. rewrite dep_part_mod in H. lia.
  - intros e [<-|He]; [rewrite dep_part_mod; lia|]. apply H2 in He. lia.
Qed.
Theorem dp_multilinear mr batch n lengths (Ha : dp_args mr batch n lengths) b (Hb : b < batch) H1 :
  multilinear (ft (dp_fam Ha Hb H1)).
Proof. apply pure_multilinear; [apply dp_fam_pure|]. intros s _. apply dep_parts_nodup. Qed.
Theorem dpl_multilinear mr batch n lengths L (HL : 0 < L) (Ha : dp_args mr batch n lengths) b (Hb : b < batch) H1 :
  multilinear (ft (dpl_fam HL Ha Hb H1)).
Proof. apply pure_multilinear; [apply dpl_fam_pure|]. intros s _. apply ldep_parts_nodup. Qed.

(** ** Each row only mentions its own potentials *)
Definition inrow (P : list nat -> Prop) (t : term) : Prop := forall m e, In m (expand t) -> In e (names m) -> P e.
Lemma lin_inrow P t : lin P t -> inrow P t.
Proof. intros H m e Hm He. apply (H m Hm); auto. Qed.
Lemma inrow_weak (P Q : list nat -> Prop) t : (forall e, P e -> Q e) -> inrow P t -> inrow Q t.
Proof. intros H Ht m e Hm He. eapply H, Ht; eauto. Qed.
Lemma inrow_sum P l : Forall (inrow P) l -> inrow P (TSum l).
Proof.
  intros H m e Hm. simpl in Hm. apply in_flat_map in Hm as (t & Ht & Hm).
  rewrite Forall_forall in H. apply (H t Ht m e Hm).
Qed.
Lemma inrow_sum_seq P (f : nat -> term) s k : (forall i, s <= i < s + k -> inrow P (f i)) ->
  inrow P (TSum (map f (seq s k))).
Proof.
  intro H. apply inrow_sum, Forall_forall. intros t Ht. apply in_map_iff in Ht as (i & <- & Hi).
  apply in_seq in Hi. auto.
Qed.
Lemma inrow_mul P a b : inrow P a -> inrow P b -> inrow P (TMul a b).
Proof.
  intros Ha Hb m e Hm He. simpl in Hm. apply in_prods in Hm as (x & y & Hx & Hy & ->).
  rewrite names_app in He. apply in_app_iff in He as [He|He]; eauto.
Qed.
Lemma inrow_leaf (P : list nat -> Prop) e : P e -> inrow P (TLeaf e).
Proof. intros H m e' [<-|[]]. simpl. intros [<-|[]]. exact H. Qed.
Lemma inrow_zero P : inrow P TZero.
Proof. intros m e [<-|[]] []. Qed.
Lemma inrow_one P : inrow P TOne.
Proof. intros m e [<-|[]] []. Qed.
Lemma cy_inrow NT T N b len : inrow (fun e => nth 1 e 0 = b) (cy_one tops NT T N b TLeaf len).
Proof.
  unfold cy_one. apply inrow_sum_seq. intros x _. apply inrow_mul; [|apply inrow_leaf; reflexivity].
  unfold cy_run.
  assert (G : forall l s, (forall i k x, inrow (fun e => nth 1 e 0 = b) (fst s i k x)) /\
                          (forall i k x, inrow (fun e => nth 1 e 0 = b) (snd s i k x)) ->
    (forall i k x, inrow (fun e => nth 1 e 0 = b) (fst (fold_left (cy_step tops NT T N b TLeaf) l s) i k x)) /\
    (forall i k x, inrow (fun e => nth 1 e 0 = b) (snd (fold_left (cy_step tops NT T N b TLeaf) l s) i k x))).
  { induction l as [|w l IH]; intros s Hs; simpl; auto. apply IH. destruct s as [cA cB], Hs as [HA HB].
    cbn [fst snd] in HA, HB.
    assert (Hsp : forall i x, inrow (fun e => nth 1 e 0 = b) (cy_span tops NT T N b TLeaf cA cB w i x)).
    { intros i y. unfold cy_span. apply inrow_sum. apply Forall_app. split.
      - repeat apply Forall_cons; try apply Forall_nil; apply inrow_sum_seq; intros p _;
          (apply inrow_mul; [|apply inrow_leaf; reflexivity]).
        + apply inrow_sum_seq. intros q _. apply inrow_mul; auto.
        + apply inrow_mul; auto. apply inrow_leaf; reflexivity.
        + apply inrow_mul; auto. apply inrow_leaf; reflexivity.
      - destruct (w =? 1); [|apply Forall_nil]. apply Forall_cons; [|apply Forall_nil].
        apply inrow_sum_seq; intros p _. apply inrow_mul; [apply inrow_mul|]; apply inrow_leaf; reflexivity. }
    split; simpl; intros i k y; (destruct (_ && _); [apply Hsp|auto]). }
  apply G. split; simpl; intros; apply inrow_zero.
Qed.
Lemma pure_inrow F (P : list nat -> Prop) : fpure F -> (forall s e, In s (flist F) -> In e (fparts F s) -> P e) ->
  inrow P (ft F).
Proof.
  intros HF HP m e Hm He. pose proof (@fpure_all F HF m Hm) as Hp. rewrite names_pure in He by auto.
  destruct (@pure_is_structure F m Hm Hp) as (s & Hs & HPm). eapply HP; [exact Hs|].
  eapply Permutation_in; eauto.
Qed.
Lemma dep_parts_row b h : forall c e, In e (dep_parts_from b c h) -> nth 0 e 0 = b.
Proof.
  induction h as [|x h IH]; intros c e He; [destruct He|]. cbn [dep_parts_from] in He.
  destruct He as [<-|He]; [destruct x; reflexivity|eauto].
Qed.
Lemma ldep_parts_row b h : forall c e, In e (ldep_parts_from b c h) -> nth 0 e 0 = b.
Proof.
  induction h as [|x h IH]; intros c e He; [destruct He|]. cbn [ldep_parts_from] in He.
  destruct He as [<-|He]; [unfold dep_part; destruct (fst x); reflexivity|eauto].
Qed.

(** a single-root row without words: the cell (0, 0) of the chart is never assigned *)
Lemma dp_one_empty O labels n junk pot b : dp_one O false labels n junk pot b 0 = sone O.
Proof.
  unfold dp_one, dp_root. cbn [Nat.leb andb]. unfold dp_run.
  assert (G : forall l s, Forall (fun k => 1 <= k) l ->
    acr (fold_left (dp_step O (n + 1) 1 (dp_arc O junk labels pot b 0)) l s) 0 0 = acr s 0 0).
  { induction l as [|k l IH]; intros s Hl; simpl; auto. inversion_clear Hl. rewrite IH by auto. reflexivity. }
  rewrite G; [reflexivity|]. apply Forall_forall. intros k Hk. apply in_seq in Hk. lia.
Qed.

(** ** Closed-form bounds on the share of spurious derivations *)
Local Open Scope R_scope.
Lemma filter_len A (f : A -> bool) l : (length (filter f l) <= length l)%nat.
Proof. induction l as [|a l IH]; simpl; [lia|]. destruct (f a); simpl; lia. Qed.
Lemma eps_bnd F d n B z : bnd d n (ft F) -> 0 <= B -> eps F B z <= INR n * exp (z + 2 * (INR d * B)).
Proof.
  intros [Hd Hn] HB. unfold eps. apply Rmult_le_compat; [apply pos_INR|apply Rlt_le, exp_pos| |].
  - apply le_INR. unfold fspur, spur. etransitivity; [apply filter_len|]. exact Hn.
  - assert (H : INR (fdeg F) * B <= INR d * B).
    { apply Rmult_le_compat_r; auto. apply le_INR. exact Hd. }
    assert (G : z + 2 * (INR (fdeg F) * B) <= z + 2 * (INR d * B)) by lra.
    destruct G as [G|G]; [left; now apply exp_increasing|right; now rewrite G].
Qed.
