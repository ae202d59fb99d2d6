(** * OracleSpec: the oracles of Oracle.v list the structures of the specification. *)
From Coq Require Import ZArith.
From Verif Require Import Base Ops LinearChain SemiMarkov CkyCrf Cky DepSpec NpSpec DepTree Oracle.
Set Implicit Arguments.

(** ** Products in a commutative monoid *)
Record mlaws (O : ops) : Prop := {
  ml_assoc : forall x y z : car O, smul O x (smul O y z) = smul O (smul O x y) z;
  ml_comm : forall x y : car O, smul O x y = smul O y x;
  ml_one : forall x : car O, smul O (sone O) x = x }.
(** product of the potentials of a list of parts *)
Definition mprod (O : ops) (pot : list nat -> car O) (l : list (list nat)) : car O :=
  fold_right (fun e x => smul O (pot e) x) (sone O) l.
Section Monoid.
  Variable O : ops.
  Hypothesis H : mlaws O.
  Variable pot : list nat -> car O.
  Lemma ml_one_r x : smul O x (sone O) = x.
  Proof. rewrite (ml_comm H). apply (ml_one H). Qed.
  Lemma mprod_app l l' : mprod O pot (l ++ l') = smul O (mprod O pot l) (mprod O pot l').
  Proof.
    induction l as [|e l IH]; cbn [app mprod fold_right]; [symmetry; apply (ml_one H)|].
    change (smul O (pot e) (mprod O pot (l ++ l')) = smul O (smul O (pot e) (mprod O pot l)) (mprod O pot l')).
    now rewrite IH, (ml_assoc H).
  Qed.
  Lemma mprod_one e : mprod O pot [e] = pot e.
  Proof. cbn. apply ml_one_r. Qed.
  Lemma mprod_cons e l : mprod O pot (e :: l) = smul O (pot e) (mprod O pot l).
  Proof. reflexivity. Qed.
End Monoid.

(** ** Chains *)
Fixpoint rseqs (C n : nat) : list (list nat) :=
  match n with
  | 0 => map (fun c => [c]) (seq 0 C)
  | S m => flat_map (fun y => map (fun c => y ++ [c]) (seq 0 C)) (rseqs C m)
  end.
Lemma app_last_inj A (l l' : list A) x x' : l ++ [x] = l' ++ [x'] -> l = l' /\ x = x'.
Proof. apply app_inj_tail. Qed.
Lemma rseqs_enum C n : Enumerates (is_seq C (n + 1)) (rseqs C n).
Proof.
  induction n as [|n [Hn He]]; cbn [rseqs].
  - split; [apply NoDup_map_inj; [congruence|apply seq_NoDup]|]. intro y. rewrite in_map_iff. unfold is_seq. split.
    + intros (c & <- & Hc). apply in_seq in Hc. split; [reflexivity|]. constructor; [lia|constructor].
    + intros [Hl Hf]. destruct y as [|c [|c' y]]; try discriminate. exists c. split; [reflexivity|].
      inversion Hf; subst. apply in_seq. lia.
  - split.
    + apply NoDup_flat_map; [exact Hn| |].
      * intros y _. apply NoDup_map_inj; [|apply seq_NoDup]. intros c c' _ _ E. now apply app_last_inj in E.
      * intros y y' z _ _ H1 H2. apply in_map_iff in H1 as (c & <- & _). apply in_map_iff in H2 as (c' & E & _).
        now apply app_last_inj in E.
    + intro y. rewrite in_flat_map. split.
      * intros (y' & Hy & Hc). apply in_map_iff in Hc as (c & <- & Hc). apply in_seq in Hc. apply He in Hy as [Hl Hf].
        split; [rewrite app_length; simpl; lia|]. apply Forall_app. split; [auto|]. constructor; [lia|constructor].
      * intros [Hl Hf]. destruct (@exists_last _ y) as (y' & c & ->); [intros ->; simpl in Hl; lia|].
        apply Forall_app in Hf as [Hf Hc]. rewrite app_length in Hl. simpl in Hl. inversion Hc; subst.
        exists y'. split; [apply He; split; [lia|auto]|]. apply in_map_iff. exists c. split; [reflexivity|]. apply in_seq. lia.
Qed.
Lemma last_nth_ A (l : list A) d : last l d = nth (length l - 1) l d.
Proof.
  induction l as [|x [|y l] IH]; [reflexivity|reflexivity|]. change (last (x :: y :: l) d) with (last (y :: l) d). rewrite IH.
  cbn [length]. replace (S (S (length l)) - 1) with (S (S (length l) - 1)) by lia. reflexivity.
Qed.
Lemma seq_parts_snoc b y c : y <> [] -> seq_parts b (y ++ [c]) = seq_parts b y ++ [[b; length y - 1; c; last y 0]].
Proof.
  intro Hy. assert (0 < length y) by (destruct y; [congruence|simpl; lia]).
  unfold seq_parts. rewrite app_length. cbn [length]. replace (length y + 1 - 1) with (S (length y - 1)) by lia.
  rewrite seq_S, map_app. cbn [map plus]. f_equal.
  - apply map_ext_in. intros n Hn. apply in_seq in Hn. rewrite !app_nth1 by lia. reflexivity.
  - rewrite app_nth2 by lia. replace (length y - 1 + 1 - length y) with 0 by lia. rewrite app_nth1 by lia.
    rewrite last_nth_. reflexivity.
Qed.
Lemma lco_spec O (H : mlaws O) pot b C n :
  lco_chains O pot b C n = map (fun y => (y, mprod O pot (seq_parts b y))) (rseqs C n).
Proof.
  induction n as [|n IH]; cbn [lco_chains rseqs].
  - unfold lco_first. rewrite map_map. reflexivity.
  - rewrite IH. unfold lco_next. rewrite flat_map_concat_map, map_map, <- flat_map_concat_map.
    rewrite !flat_map_concat_map, concat_map, map_map. f_equal. apply map_ext_in. intros y Hy.
    rewrite map_map. apply map_ext. intro c. cbn [fst snd].
    destruct (rseqs_enum C n) as [_ He]. apply He in Hy as [Hl _].
    rewrite seq_parts_snoc by (destruct y; simpl in Hl; [lia|discriminate]).
    rewrite (mprod_app H), (mprod_one H). replace (length y - 1) with (S n - 1) by lia. reflexivity.
Qed.

(** ** Segmentations *)
Fixpoint rsegs (K C fuel n : nat) : list segm :=
  if n =? 0 then map (fun c => (c, [])) (seq 0 C) else
  match fuel with
  | 0 => []
  | S f => flat_map (fun k => if n <? k then [] else
             flat_map (fun y => map (fun c => (fst y, snd y ++ [(k, c)])) (seq 0 C)) (rsegs K C f (n - k))) (seq 1 (K - 1))
  end.
Lemma rsegs_fuel K C : forall f f' n, n <= f -> n <= f' -> rsegs K C f n = rsegs K C f' n.
Proof.
  induction f as [|f IH]; intros f' n Hf Hf'.
  - replace n with 0 by lia. destruct f'; reflexivity.
  - destruct f' as [|f']; [replace n with 0 by lia; reflexivity|]. cbn [rsegs]. destruct (n =? 0) eqn:E; [reflexivity|].
    apply Nat.eqb_neq in E. rewrite !flat_map_concat_map. f_equal. apply map_ext_in. intros k Hk. apply in_seq in Hk.
    destruct (n <? k) eqn:E2; [reflexivity|]. apply Nat.ltb_ge in E2. rewrite (IH f' (n - k)) by lia. reflexivity.
Qed.
Lemma widths_snoc l k c : widths (l ++ [(k, c)]) = widths l + k.
Proof. unfold widths. rewrite map_app, list_sum_app. simpl. lia. Qed.
Lemma rsegs_enum K C fuel : forall n, n <= fuel -> Enumerates (is_segm K C (n + 1)) (rsegs K C fuel n).
Proof.
  assert (Z : Enumerates (is_segm K C (0 + 1)) (map (fun c => (c, [])) (seq 0 C))).
  { split; [apply NoDup_map_inj; [congruence|apply seq_NoDup]|]. intros [c l]. rewrite in_map_iff. unfold is_segm. cbn [fst snd]. split.
    - intros (c' & [= <- <-] & Hc). apply in_seq in Hc. split; [lia|]. split; [constructor|reflexivity].
    - intros (Hc & Hf & Hw). exists c. split; [|apply in_seq; lia]. destruct l as [|[w x] l]; [reflexivity|].
      inversion Hf as [|? ? [Hs _] _]; subst. unfold widths in Hw. simpl in Hw, Hs. lia. }
  induction fuel as [|f IH]; intros n Hn; cbn [rsegs].
  - replace n with 0 by lia. exact Z.
  - destruct (n =? 0) eqn:E; [apply Nat.eqb_eq in E; subst; exact Z|]. apply Nat.eqb_neq in E. split.
    + apply NoDup_flat_map; [apply seq_NoDup| |].
      * intros k Hk. apply in_seq in Hk. destruct (n <? k) eqn:E2; [constructor|]. apply Nat.ltb_ge in E2.
        apply NoDup_flat_map; [apply IH; lia| |].
        -- intros y _. apply NoDup_map_inj; [|apply seq_NoDup]. intros c c' _ _ [= Ec]. apply app_last_inj in Ec as [_ [= ->]]. reflexivity.
        -- intros y y' z _ _ H1 H2. apply in_map_iff in H1 as (c & <- & _). apply in_map_iff in H2 as (c' & [= E1 Ec] & _).
           apply app_last_inj in Ec as [Ec _]. destruct y, y'; cbn in *; congruence.
      * intros k k' z _ _ H1 H2. destruct (n <? k); [destruct H1|]. destruct (n <? k'); [destruct H2|].
        apply in_flat_map in H1 as (y & _ & H1). apply in_flat_map in H2 as (y' & _ & H2).
        apply in_map_iff in H1 as (c & <- & _). apply in_map_iff in H2 as (c' & [= _ Ec] & _).
        apply app_last_inj in Ec as [_ [= -> _]]. reflexivity.
    + intros [c0 l]. rewrite in_flat_map. split.
      * intros (k & Hk & Hin). apply in_seq in Hk. destruct (n <? k) eqn:E2; [destruct Hin|]. apply Nat.ltb_ge in E2.
        apply in_flat_map in Hin as ([c1 l1] & Hy & Hc). apply in_map_iff in Hc as (c & [= <- <-] & Hc). apply in_seq in Hc.
        apply IH in Hy; [|lia]. destruct Hy as (H1 & H2 & H3). cbn [fst snd] in *. split; [exact H1|]. cbn [snd fst]. split.
        -- apply Forall_app. split; [exact H2|]. repeat constructor; cbn [fst snd]; lia.
        -- rewrite widths_snoc. lia.
      * intros (H1 & H2 & H3). cbn [fst snd] in *.
        destruct (@exists_last _ l) as (l' & [k c] & ->); [intros ->; unfold widths in H3; simpl in H3; lia|].
        apply Forall_app in H2 as [H2 H4]. inversion H4 as [|? ? [H5 H6] _]; subst. cbn [fst snd] in H5, H6. rewrite widths_snoc in H3.
        exists k. split; [apply in_seq; lia|]. replace (n <? k) with false by (symmetry; apply Nat.ltb_ge; lia).
        apply in_flat_map. exists (c0, l'). split.
        -- apply IH; [lia|]. split; [exact H1|]. split; [exact H2|]. cbn [snd]. lia.
        -- apply in_map_iff. exists c. split; [reflexivity|]. apply in_seq. lia.
Qed.
(** the chain of (label, width) pairs of a segmentation *)
Definition chain_of (y : segm) : list (nat * nat) := (fst y, 0) :: map (fun s => (snd s, fst s)) (snd y).
Lemma segs_parts_snoc b k c l : forall n c0, segs_parts b n c0 (l ++ [(k, c)]) =
  segs_parts b n c0 l ++ [[b; n + widths l; k; c; last (map snd l) c0]].
Proof.
  induction l as [|[w x] l IH]; intros n c0.
  - unfold widths. cbn. now rewrite Nat.add_0_r.
  - cbn [app segs_parts]. rewrite IH. replace (n + widths ((w, x) :: l)) with (n + w + widths l) by (unfold widths; simpl; lia).
    cbn [app]. do 4 f_equal. cbn [map snd]. do 3 f_equal. destruct (map snd l) as [|z l0] eqn:El; [reflexivity|].
    change (last (x :: z :: l0) c0) with (last (z :: l0) c0). f_equal. clear. revert z. induction l0 as [|q l0 IH]; intro z; [reflexivity|].
    change (last (q :: l0) x = last (q :: l0) c0). apply IH.
Qed.
Lemma last_map A B (f : A -> B) l d : last (map f l) (f d) = f (last l d).
Proof. induction l as [|x [|y l] IH]; [reflexivity|reflexivity|]. exact IH. Qed.
Lemma last_dep A (l : list A) : forall y d d', last (y :: l) d = last (y :: l) d'.
Proof. induction l as [|z l IH]; intros y d d'; [reflexivity|]. change (last (z :: l) d = last (z :: l) d'). apply IH. Qed.
Lemma last_cons A (x : A) l d : last (x :: l) d = last l x.
Proof. destruct l as [|y l]; [reflexivity|]. change (last (y :: l) d = last (y :: l) x). apply last_dep. Qed.
Lemma chain_last y : fst (last (chain_of y) (0, 0)) = last (map snd (snd y)) (fst y).
Proof.
  unfold chain_of. rewrite last_cons. destruct y as [c0 l]. cbn [fst snd].
  change ((c0, 0)) with ((fun s : nat * nat => (snd s, fst s)) (0, c0)). rewrite last_map. cbn [fst].
  change c0 with (snd (0, c0)) at 2. rewrite last_map. reflexivity.
Qed.
Lemma smo_spec O (H : mlaws O) pot b K C n :
  length (smo_tab O pot b K C n) = n + 1 /\
  forall m, m <= n -> nth m (smo_tab O pot b K C n) [] = map (fun y => (chain_of y, mprod O pot (segm_parts b y))) (rsegs K C m m).
Proof.
  induction n as [|n [IHl IH]]; cbn [smo_tab].
  - split; [reflexivity|]. intros m Hm. replace m with 0 by lia. cbn [nth rsegs Nat.eqb]. rewrite map_map. reflexivity.
  - split; [rewrite app_length; simpl; lia|]. intros m Hm. destruct (Nat.eq_dec m (S n)) as [->|Hne].
    + rewrite app_nth2 by lia. rewrite IHl. replace (S n - (n + 1)) with 0 by lia. cbn [nth]. unfold smo_next. cbn [rsegs Nat.eqb].
      rewrite !flat_map_concat_map, concat_map, map_map. f_equal. apply map_ext_in. intros k Hk. apply in_seq in Hk.
      destruct (S n <? k) eqn:E; [reflexivity|]. apply Nat.ltb_ge in E. rewrite IH by lia.
      rewrite (@rsegs_fuel K C n (S n - k) (S n - k)) by lia.
      rewrite !flat_map_concat_map, concat_map, !map_map. f_equal. apply map_ext_in. intros y Hy.
      rewrite map_map. apply map_ext. intro c. cbn [fst snd].
      apply rsegs_enum in Hy; [|lia]. destruct Hy as (_ & _ & Hw). f_equal.
      * unfold chain_of. cbn [fst snd]. rewrite map_app. reflexivity.
      * unfold segm_parts at 2. cbn [fst snd]. rewrite segs_parts_snoc, (mprod_app H), (mprod_one H), chain_last. do 2 f_equal.
        rewrite Hw. replace (0 + (S n - k + 1 - 1)) with (S n - k) by lia. reflexivity.
    + rewrite app_nth1 by lia. apply IH. lia.
Qed.
Corollary smo_chains_spec O (H : mlaws O) pot b K C n :
  smo_chains O pot b K C n = map (fun y => (chain_of y, mprod O pot (segm_parts b y))) (rsegs K C n n).
Proof. apply (smo_spec H). auto. Qed.

(** ** Trees *)
Definition llabel (t : ltree) : nat := match t with LLeaf a => a | LNode a _ _ => a end.
(** spec: a listing of trees in the order of the enumeration of tests/extensions.py *)
Fixpoint xtrees (NT fuel n x : nat) : list ltree :=
  match fuel with
  | 0 => []
  | S f => if n =? 1 then [LLeaf x] else
      flat_map (fun m => flat_map (fun y => flat_map (fun z => flat_map (fun l => map (LNode x l) (xtrees NT f (n - m) z))
        (xtrees NT f m y)) (seq 0 NT)) (seq 0 NT)) (seq 1 (n - 1))
  end.
Lemma xtrees_enum NT fuel : forall n x, n <= fuel -> x < NT ->
  Enumerates (fun t => is_ltree NT n t /\ llabel t = x) (xtrees NT fuel n x).
Proof.
  induction fuel as [|f IH]; intros n x Hn Hx.
  { split; [constructor|]. intro t. split; [intros []|]. intros [[Hs _] _]. pose proof (lsize_pos t). lia. }
  cbn [xtrees]. destruct (n =? 1) eqn:E.
  { apply Nat.eqb_eq in E. subst. split; [repeat constructor; auto|]. intro t. split.
    - intros [<-|[]]. split; [split; [reflexivity|exact Hx]|reflexivity].
    - intros [[Hs Hb] Hl]. destruct t as [a|a l r]; cbn in *; [subst; auto|]. pose proof (lsize_pos l). pose proof (lsize_pos r). lia. }
  apply Nat.eqb_neq in E. split.
  - apply NoDup_flat_map; [apply seq_NoDup| |].
    + intros m Hm. apply in_seq in Hm. apply NoDup_flat_map; [apply seq_NoDup| |].
      * intros y Hy. apply in_seq in Hy. apply NoDup_flat_map; [apply seq_NoDup| |].
        -- intros z Hz. apply in_seq in Hz. apply NoDup_flat_map; [apply IH; lia| |].
           ++ intros l _. apply NoDup_map_inj; [congruence|]. apply IH; lia.
           ++ intros l l' t _ _ H1 H2. apply in_map_iff in H1 as (r & <- & _). now apply in_map_iff in H2 as (r' & [= -> _] & _).
        -- intros z z' t Hz Hz' H1 H2. apply in_seq in Hz, Hz'. apply in_flat_map in H1 as (l & _ & H1). apply in_map_iff in H1 as (r & <- & H1).
           apply in_flat_map in H2 as (l' & _ & H2). apply in_map_iff in H2 as (r' & [= -> ->] & H2).
           apply IH in H1 as [_ <-]; [|lia|lia]. apply IH in H2 as [_ <-]; [reflexivity|lia|lia].
      * intros y y' t Hy Hy' H1 H2. apply in_seq in Hy, Hy'.
        apply in_flat_map in H1 as (z & Hz & H1). apply in_flat_map in H1 as (l & Hl & H1). apply in_map_iff in H1 as (r & <- & H1).
        apply in_flat_map in H2 as (z' & Hz' & H2). apply in_flat_map in H2 as (l' & Hl' & H2). apply in_map_iff in H2 as (r' & [= -> ->] & H2).
        apply IH in Hl as [_ <-]; [|lia|lia]. apply IH in Hl' as [_ <-]; [reflexivity|lia|lia].
    + intros m m' t Hm Hm' H1 H2. apply in_seq in Hm, Hm'.
      apply in_flat_map in H1 as (y & Hy & H1). apply in_flat_map in H1 as (z & Hz & H1). apply in_flat_map in H1 as (l & Hl & H1). apply in_map_iff in H1 as (r & <- & H1).
      apply in_flat_map in H2 as (y' & Hy' & H2). apply in_flat_map in H2 as (z' & Hz' & H2). apply in_flat_map in H2 as (l' & Hl' & H2). apply in_map_iff in H2 as (r' & [= -> ->] & H2).
      apply in_seq in Hy, Hy'. apply IH in Hl as [[<- _] _]; [|lia|lia]. apply IH in Hl' as [[<- _] _]; [reflexivity|lia|lia].
  - intro t. split.
    + intro Hin. apply in_flat_map in Hin as (m & Hm & H1). apply in_flat_map in H1 as (y & Hy & H1). apply in_flat_map in H1 as (z & Hz & H1).
      apply in_flat_map in H1 as (l & Hl & H1). apply in_map_iff in H1 as (r & <- & Hr). apply in_seq in Hm, Hy, Hz.
      apply IH in Hl as [[Hl1 Hl2] Hl3]; [|lia|lia]. apply IH in Hr as [[Hr1 Hr2] Hr3]; [|lia|lia].
      split; [|reflexivity]. split; [cbn; lia|]. cbn. auto.
    + intros [[Hs Hb] Hl]. destruct t as [a|a l r]; cbn in Hs, Hb, Hl; [lia|]. destruct Hb as (Ha & Hbl & Hbr). subst a.
      pose proof (lsize_pos l). pose proof (lsize_pos r).
      assert (Ll : llabel l < NT) by (destruct l; cbn in *; tauto). assert (Lr : llabel r < NT) by (destruct r; cbn in *; tauto).
      apply in_flat_map. exists (lsize l). split; [apply in_seq; lia|]. apply in_flat_map. exists (llabel l). split; [apply in_seq; lia|].
      apply in_flat_map. exists (llabel r). split; [apply in_seq; lia|]. apply in_flat_map. exists l.
      split; [apply IH; [lia|lia|]; split; [split|]; auto|]. apply in_map. apply IH; [lia|lia|]. split; [split|]; auto. lia.
Qed.
Lemma lltrees_enum NT n : Enumerates (is_ltree NT n) (flat_map (xtrees NT n n) (seq 0 NT)).
Proof.
  split.
  - apply NoDup_flat_map; [apply seq_NoDup| |].
    + intros x Hx. apply in_seq in Hx. apply xtrees_enum; lia.
    + intros x x' t Hx Hx' H1 H2. apply in_seq in Hx, Hx'. apply xtrees_enum in H1 as [_ <-]; [|lia|lia]. apply xtrees_enum in H2 as [_ <-]; [reflexivity|lia|lia].
  - intro t. rewrite in_flat_map. split.
    + intros (x & Hx & H). apply in_seq in Hx. apply xtrees_enum in H; [tauto|lia|lia].
    + intro H. assert (llabel t < NT) by (destruct H as [_ H]; destruct t; cbn in *; tauto).
      exists (llabel t). split; [apply in_seq; lia|]. apply xtrees_enum; [lia|lia|]. auto.
Qed.
(** the tuples listed beside the score *)
Fixpoint ltags (i : nat) (t : ltree) : list (list nat) :=
  match t with
  | LLeaf a => [[i; a]]
  | LNode a l r => [a; i; i + lsize l; i + (lsize l + lsize r)] :: ltags i l ++ ltags (i + lsize l) r
  end.
Lemma flat_map_map A B C (f : B -> list C) (g : A -> B) l : flat_map f (map g l) = flat_map (fun x => f (g x)) l.
Proof. now rewrite flat_map_concat_map, map_map, <- flat_map_concat_map. Qed.
Lemma map_flat_map A B C (f : B -> C) (g : A -> list B) l : map f (flat_map g l) = flat_map (fun x => map f (g x)) l.
Proof. now rewrite flat_map_concat_map, concat_map, map_map, <- flat_map_concat_map. Qed.
Lemma flat_map_ext_in A B (f g : A -> list B) l : (forall x, In x l -> f x = g x) -> flat_map f l = flat_map g l.
Proof. intro H. rewrite !flat_map_concat_map. f_equal. now apply map_ext_in. Qed.
Lemma seq_shift_map k n : seq k n = map (fun i => k + i) (seq 0 n).
Proof. rewrite <- (Nat.add_0_r k) at 1. generalize 0. induction n as [|n IH]; intro m; [reflexivity|]. cbn [seq map]. f_equal. rewrite <- IH. f_equal. lia. Qed.
Lemma cko_spec O (H : mlaws O) pot b NT fuel : forall n x start, n <= fuel -> 1 <= n -> x < NT ->
  cko_enum O pot b NT fuel x start (start + n) = map (fun t => (mprod O pot (lparts b start t), ltags start t)) (xtrees NT fuel n x).
Proof.
  induction fuel as [|f IH]; intros n x start Hn H1 Hx; [lia|]. cbn [cko_enum xtrees].
  replace (start + 1 =? start + n) with (n =? 1) by (destruct (Nat.eqb_spec n 1), (Nat.eqb_spec (start + 1) (start + n)); lia || reflexivity).
  destruct (n =? 1) eqn:E.
  - cbn [map lparts ltags]. now rewrite (mprod_one H).
  - apply Nat.eqb_neq in E. rewrite map_flat_map.
    replace (start + n - (start + 1)) with (n - 1) by lia. rewrite (seq_shift_map (start + 1)), (seq_shift_map 1), !flat_map_map.
    apply flat_map_ext_in. intros q Hq. apply in_seq in Hq. rewrite map_flat_map. apply flat_map_ext_in. intros y Hy. apply in_seq in Hy.
    rewrite map_flat_map. apply flat_map_ext_in. intros z Hz. apply in_seq in Hz.
    replace (start + 1 + q) with (start + (1 + q)) by lia.
    rewrite (IH (1 + q) y start) by lia. replace (start + n) with (start + (1 + q) + (n - (1 + q))) by lia.
    rewrite (IH (n - (1 + q)) z (start + (1 + q))) by lia. rewrite flat_map_map, map_flat_map. apply flat_map_ext_in. intros l Hl.
    rewrite !map_map. apply map_ext_in. intros r Hr. cbn [fst snd].
    apply xtrees_enum in Hl as [[Hl _] _]; [|lia|lia]. apply xtrees_enum in Hr as [[Hr _] _]; [|lia|lia].
    cbn [lparts ltags]. rewrite mprod_cons, (mprod_app H), Hl, Hr. cbn [stimes fold_left].
    replace (start + (1 + q + (n - (1 + q)))) with (start + (1 + q) + (n - (1 + q))) by lia.
    f_equal. apply (ml_comm H).
Qed.
Lemma cko_scores_spec O (H : mlaws O) pot b NT N : 1 <= N ->
  cko_scores O pot b NT N = map (fun t => mprod O pot (lparts b 0 t)) (flat_map (xtrees NT N N) (seq 0 NT)).
Proof.
  intro HN. unfold cko_scores. rewrite map_flat_map. apply flat_map_ext_in. intros x Hx. apply in_seq in Hx.
  pose proof (@cko_spec O H pot b NT N N x 0 (le_n _) HN ltac:(lia)) as E. cbn [plus] in E. rewrite E, map_map. reflexivity.
Qed.

(** ** Parses *)
Fixpoint qtrees (NT T fuel n x : nat) : list ptree :=
  match fuel with
  | 0 => []
  | S f => if n =? 1 then [PT (x - NT)] else
      flat_map (fun m => flat_map (fun y => flat_map (fun z => flat_map (fun l => map (PN x l) (qtrees NT T f (n - m) z))
        (qtrees NT T f m y)) (if m =? n - 1 then seq NT T else seq 0 NT)) (if m =? 1 then seq NT T else seq 0 NT)) (seq 1 (n - 1))
  end.
(** symbols that can head a span of n words *)
Definition fits (NT T n x : nat) : Prop := if n =? 1 then NT <= x < NT + T else x < NT.
Lemma in_symbols NT T m n x : m = n -> (In x (if m =? 1 then seq NT T else seq 0 NT) <-> fits NT T n x).
Proof. intros ->. unfold fits. destruct (n =? 1); rewrite in_seq; lia. Qed.
Lemma ptree_fits NT T n x p : ptree_at NT T n x p -> fits NT T n x.
Proof.
  intros (Hs & Hb & <-). unfold fits. destruct p as [t|y l r]; cbn in *; [subst; simpl; lia|].
  pose proof (psize_pos l). pose proof (psize_pos r). replace (n =? 1) with false by (symmetry; apply Nat.eqb_neq; lia). tauto.
Qed.
Lemma qtrees_enum NT T fuel : forall n x, n <= fuel -> 1 <= n -> fits NT T n x -> Enumerates (ptree_at NT T n x) (qtrees NT T fuel n x).
Proof.
  induction fuel as [|f IH]; intros n x Hn H1n Hx; [lia|].
  cbn [qtrees]. destruct (n =? 1) eqn:E.
  { unfold fits in Hx. rewrite E in Hx. apply Nat.eqb_eq in E. subst. split; [repeat constructor; auto|]. intro t. split.
    - intros [<-|[]]. repeat split; cbn; lia.
    - intros (Hs & Hb & Hl). destruct t as [a|a l r]; cbn in *; [left; f_equal; lia|]. pose proof (psize_pos l). pose proof (psize_pos r). lia. }
  pose proof Hx as Hx'. unfold fits in Hx'. rewrite E in Hx'. apply Nat.eqb_neq in E.
  assert (Sy : forall m y, 1 <= m < n -> (In y (if m =? 1 then seq NT T else seq 0 NT) <-> fits NT T m y)) by (intros; now apply in_symbols).
  assert (Sz : forall m z, 1 <= m < n -> (In z (if m =? n - 1 then seq NT T else seq 0 NT) <-> fits NT T (n - m) z)).
  { intros m z Hm. replace (m =? n - 1) with (n - m =? 1) by (destruct (Nat.eqb_spec (n - m) 1), (Nat.eqb_spec m (n - 1)); lia || reflexivity).
    now apply in_symbols. }
  assert (ND : forall q : bool, NoDup (if q then seq NT T else seq 0 NT)) by (intros []; apply seq_NoDup).
  split.
  - apply NoDup_flat_map; [apply seq_NoDup| |].
    + intros m Hm. apply in_seq in Hm. apply NoDup_flat_map; [apply ND| |].
      * intros y Hy. apply Sy in Hy; [|lia]. apply NoDup_flat_map; [apply ND| |].
        -- intros z Hz. apply Sz in Hz; [|lia]. apply NoDup_flat_map; [apply IH; auto; lia| |].
           ++ intros l _. apply NoDup_map_inj; [congruence|]. apply IH; auto; lia.
           ++ intros l l' t _ _ H1 H2. apply in_map_iff in H1 as (r & <- & _). now apply in_map_iff in H2 as (r' & [= -> _] & _).
        -- intros z z' t Hz Hz' H1 H2. apply Sz in Hz, Hz'; try lia. apply in_flat_map in H1 as (l & _ & H1). apply in_map_iff in H1 as (r & <- & H1).
           apply in_flat_map in H2 as (l' & _ & H2). apply in_map_iff in H2 as (r' & [= -> ->] & H2).
           apply IH in H1 as (_ & _ & <-); auto; try lia. apply IH in H2 as (_ & _ & <-); auto; lia.
      * intros y y' t Hy Hy' H1 H2. apply Sy in Hy, Hy'; try lia.
        apply in_flat_map in H1 as (z & Hz & H1). apply in_flat_map in H1 as (l & Hl & H1). apply in_map_iff in H1 as (r & <- & H1).
        apply in_flat_map in H2 as (z' & Hz' & H2). apply in_flat_map in H2 as (l' & Hl' & H2). apply in_map_iff in H2 as (r' & [= -> ->] & H2).
        apply IH in Hl as (_ & _ & <-); auto; try lia. apply IH in Hl' as (_ & _ & <-); auto; lia.
    + intros m m' t Hm Hm' H1 H2. apply in_seq in Hm, Hm'.
      apply in_flat_map in H1 as (y & Hy & H1). apply in_flat_map in H1 as (z & Hz & H1). apply in_flat_map in H1 as (l & Hl & H1). apply in_map_iff in H1 as (r & <- & H1).
      apply in_flat_map in H2 as (y' & Hy' & H2). apply in_flat_map in H2 as (z' & Hz' & H2). apply in_flat_map in H2 as (l' & Hl' & H2). apply in_map_iff in H2 as (r' & [= -> ->] & H2).
      apply Sy in Hy; [|lia]. apply Sy in Hy'; [|lia].
      apply IH in Hl as (<- & _); auto; try lia. apply IH in Hl' as (<- & _); auto; lia.
  - intro t. split.
    + intro Hin. apply in_flat_map in Hin as (m & Hm & H1). apply in_flat_map in H1 as (y & Hy & H1). apply in_flat_map in H1 as (z & Hz & H1).
      apply in_flat_map in H1 as (l & Hl & H1). apply in_map_iff in H1 as (r & <- & Hr). apply in_seq in Hm. apply Sy in Hy; [|lia]. apply Sz in Hz; [|lia].
      apply IH in Hl as (Hl1 & Hl2 & Hl3); auto; try lia. apply IH in Hr as (Hr1 & Hr2 & Hr3); auto; try lia.
      split; [cbn; lia|]. split; [cbn; auto|reflexivity].
    + intros (Hs & Hb & Hl). destruct t as [a|a l r]; cbn in Hs, Hb, Hl; [lia|]. destruct Hb as (Ha & Hbl & Hbr). subst a.
      pose proof (psize_pos l). pose proof (psize_pos r).
      assert (Ll : ptree_at NT T (psize l) (psym NT l) l) by (repeat split; auto).
      assert (Lr : ptree_at NT T (n - psize l) (psym NT r) r) by (repeat split; auto; lia).
      apply in_flat_map. exists (psize l). split; [apply in_seq; lia|]. apply in_flat_map. exists (psym NT l). split; [apply Sy; [lia|]; eapply ptree_fits; eauto|].
      apply in_flat_map. exists (psym NT r). split; [apply Sz; [lia|]; eapply ptree_fits; eauto|]. apply in_flat_map. exists l.
      split; [apply IH; auto; [lia|]; eapply ptree_fits; eauto|]. apply in_map. apply IH; auto; [lia|lia|]. eapply ptree_fits; eauto.
Qed.
Lemma qparses_enum NT T n : 2 <= n -> Enumerates (is_parse NT T n) (flat_map (qtrees NT T n n) (seq 0 NT)).
Proof.
  intro Hn. assert (F : forall x, x < NT -> fits NT T n x) by (intros x Hx; unfold fits; replace (n =? 1) with false by (symmetry; apply Nat.eqb_neq; lia); auto).
  split.
  - apply NoDup_flat_map; [apply seq_NoDup| |].
    + intros x Hx. apply in_seq in Hx. apply qtrees_enum; [lia|lia|]. apply F. lia.
    + intros x x' t Hx Hx' H1 H2. apply in_seq in Hx, Hx'. apply qtrees_enum in H1 as (_ & _ & <-); [|lia|lia|apply F; lia].
      apply qtrees_enum in H2 as (_ & _ & <-); [reflexivity|lia|lia|apply F; lia].
  - intro t. rewrite in_flat_map. split.
    + intros (x & Hx & H). apply in_seq in Hx. apply qtrees_enum in H as (H1 & H2 & H3); [|lia|lia|apply F; lia]. split; [auto|]. split; [auto|lia].
    + intros (H1 & H2 & H3). exists (psym NT t). split; [apply in_seq; lia|]. apply qtrees_enum; [lia|lia|apply F; lia|]. repeat split; auto.
Qed.
(** spec: the labelled spans of a parse *)
Fixpoint ptags (i : nat) (t : ptree) : list (list nat) :=
  match t with
  | PT a => [[i; a]]
  | PN a l r => [a; i; i + psize l; i + (psize l + psize r)] :: ptags i l ++ ptags (i + psize l) r
  end.
Lemma cyo_spec O (H : mlaws O) pot b NT T fuel : forall n x start, n <= fuel -> 1 <= n -> fits NT T n x ->
  cyo_enum O pot b NT T fuel x start (start + n) = map (fun t => (mprod O pot (pparts NT b start t), ptags start t)) (qtrees NT T fuel n x).
Proof.
  induction fuel as [|f IH]; intros n x start Hn H1 Hx; [lia|]. cbn [cyo_enum qtrees].
  replace (start + 1 =? start + n) with (n =? 1) by (destruct (Nat.eqb_spec n 1), (Nat.eqb_spec (start + 1) (start + n)); lia || reflexivity).
  destruct (n =? 1) eqn:E.
  - cbn [map pparts ptags]. now rewrite (mprod_one H).
  - apply Nat.eqb_neq in E. rewrite map_flat_map.
    replace (start + n - (start + 1)) with (n - 1) by lia. rewrite (seq_shift_map (start + 1)), (seq_shift_map 1), !flat_map_map.
    apply flat_map_ext_in. intros q Hq. apply in_seq in Hq.
    replace (start + 1 + q =? start + 1) with (1 + q =? 1) by (destruct (Nat.eqb_spec (1 + q) 1), (Nat.eqb_spec (start + 1 + q) (start + 1)); lia || reflexivity).
    replace (start + 1 + q =? start + n - 1) with (1 + q =? n - 1) by (destruct (Nat.eqb_spec (1 + q) (n - 1)), (Nat.eqb_spec (start + 1 + q) (start + n - 1)); lia || reflexivity).
    rewrite map_flat_map. apply flat_map_ext_in. intros y Hy. rewrite (in_symbols NT T (n := 1 + q) y eq_refl) in Hy.
    rewrite map_flat_map. apply flat_map_ext_in. intros z Hz.
    replace (1 + q =? n - 1) with (n - (1 + q) =? 1) in Hz by (destruct (Nat.eqb_spec (n - (1 + q)) 1), (Nat.eqb_spec (1 + q) (n - 1)); lia || reflexivity).
    rewrite (in_symbols NT T (n := n - (1 + q)) z eq_refl) in Hz.
    replace (start + 1 + q) with (start + (1 + q)) by lia.
    rewrite (IH (1 + q) y start) by (auto; lia). replace (start + n) with (start + (1 + q) + (n - (1 + q))) by lia.
    rewrite (IH (n - (1 + q)) z (start + (1 + q))) by (auto; lia). rewrite flat_map_map, map_flat_map. apply flat_map_ext_in. intros l Hl.
    rewrite !map_map. apply map_ext_in. intros r Hr. cbn [fst snd].
    apply qtrees_enum in Hl as (Hl & _ & Hl2); [|lia|lia|auto]. apply qtrees_enum in Hr as (Hr & _ & Hr2); [|lia|lia|auto].
    cbn [pparts ptags]. rewrite mprod_cons, (mprod_app H), Hl, Hr, Hl2, Hr2. cbn [stimes fold_left].
    replace (start + (1 + q + (n - (1 + q)))) with (start + (1 + q) + (n - (1 + q))) by lia.
    f_equal. apply (ml_comm H).
Qed.
Lemma cyo_scores_spec O (H : mlaws O) pot b NT T N : 2 <= N ->
  cyo_scores O pot b NT T N = map (fun t => mprod O pot (parse_parts NT b t)) (flat_map (qtrees NT T N N) (seq 0 NT)).
Proof.
  intro HN. unfold cyo_scores. rewrite map_flat_map. apply flat_map_ext_in. intros x Hx. apply in_seq in Hx.
  assert (F : fits NT T N x) by (unfold fits; replace (N =? 1) with false by (symmetry; apply Nat.eqb_neq; lia); lia).
  pose proof (@cyo_spec O H pot b NT T N N x 0 (le_n _) ltac:(lia) F) as E. cbn [plus] in E. rewrite E, map_map. apply map_ext_in.
  intros t Ht. apply qtrees_enum in Ht as (_ & _ & Ht); [|lia|lia|auto]. cbn [fst stimes fold_left]. unfold parse_parts.
  rewrite mprod_cons, Ht. apply (ml_comm H).
Qed.

(** ** Dependency parses *)
Lemma product_enum r k : Enumerates (fun mid => length mid = k /\ Forall (fun x => x < r) mid) (product r k).
Proof.
  induction k as [|k [Hn He]]; cbn [product].
  - split; [repeat constructor; auto|]. intro l. split; [intros [<-|[]]; auto|]. intros [Hl _]. destruct l; [left; auto|discriminate].
  - split.
    + apply NoDup_flat_map; [apply seq_NoDup| |].
      * intros x _. apply NoDup_map_inj; [congruence|auto].
      * intros x x' l _ _ H1 H2. apply in_map_iff in H1 as (m & <- & _). now apply in_map_iff in H2 as (m' & [= -> _] & _).
    + intro l. rewrite in_flat_map. split.
      * intros (x & Hx & Hl). apply in_seq in Hx. apply in_map_iff in Hl as (m & <- & Hm). apply He in Hm as [<- Hf].
        split; [reflexivity|]. constructor; [lia|auto].
      * intros [Hl Hf]. destruct l as [|x m]; [discriminate|]. inversion Hf; subst. exists x. split; [apply in_seq; lia|].
        apply in_map, He. split; [now injection Hl|auto].
Qed.

Lemma numbered_in parse m h : In (m, h) (numbered parse) <-> m < length parse /\ nth m parse 0%Z = h.
Proof.
  unfold numbered. assert (G : forall (l : list Z) s, In (m, h) (combine (seq s (length l)) l) <-> s <= m < s + length l /\ nth (m - s) l 0%Z = h).
  { induction l as [|x l IH]; intro s; cbn [length seq combine].
    - split; [intros []|lia].
    - cbn [In]. rewrite IH. split.
      + intros [[= -> ->]|[H1 H2]]; [split; [lia|now rewrite Nat.sub_diag]|]. split; [lia|]. replace (m - s) with (S (m - S s)) by lia. exact H2.
      + intros [H1 H2]. destruct (Nat.eq_dec m s) as [->|Hne]; [left; rewrite Nat.sub_diag in H2; simpl in H2; congruence|].
        right. split; [lia|]. replace (m - s) with (S (m - S s)) in H2 by lia. exact H2. }
  rewrite G. rewrite Nat.sub_0_r. intuition lia.
Qed.
Lemma numbered_NoDup parse : NoDup (map fst (numbered parse)).
Proof.
  unfold numbered. assert (G : forall (l : list Z) s, map fst (combine (seq s (length l)) l) = seq s (length l)).
  { induction l as [|x l IH]; intro s; [reflexivity|]. cbn. now rewrite IH. }
  rewrite G. apply seq_NoDup.
Qed.
Lemma nth_parse mid m : m <= length mid -> nth m (parse_of mid) 0%Z = if m =? 0 then (-1)%Z else Z.of_nat (hd_of mid m).
Proof. intro Hm. destruct m as [|m]; [reflexivity|]. unfold parse_of. cbn [nth hd_of Nat.eqb]. change 0%Z with (Z.of_nat 0). apply map_nth. Qed.
Lemma parse_length mid : length (parse_of mid) = length mid + 1.
Proof. unfold parse_of. cbn [length]. rewrite map_length. lia. Qed.
Lemma children_in mid h m : In m (children (parse_of mid) h) <-> 1 <= m <= length mid /\ hd_of mid m = h.
Proof.
  unfold children. rewrite in_map_iff. split.
  - intros ([m' z] & E & Hin). cbn in E. subst m'. apply filter_In in Hin as [Hin Hz]. apply numbered_in in Hin as [H1 H2]. rewrite parse_length in H1.
    rewrite nth_parse in H2 by lia. cbn in Hz. apply Z.eqb_eq in Hz. destruct (m =? 0) eqn:E; [lia|]. apply Nat.eqb_neq in E. lia.
  - intros [H1 H2]. exists (m, Z.of_nat h). split; [reflexivity|]. apply filter_In. split; [|apply Z.eqb_refl].
    apply numbered_in. rewrite parse_length. split; [lia|]. rewrite nth_parse by lia. destruct (m =? 0) eqn:E; [apply Nat.eqb_eq in E; lia|]. now rewrite H2.
Qed.
Lemma NoDup_map_filter A B (f : A -> B) p l : NoDup (map f l) -> NoDup (map f (filter p l)).
Proof.
  induction l as [|x l IH]; intro H; [constructor|]. cbn [map] in H. inversion H; subst. cbn [filter]. destruct (p x); [|auto].
  cbn [map]. constructor; [|auto]. intro Hin. apply in_map_iff in Hin as (y & E & Hy). apply filter_In in Hy as [Hy _].
  apply H2. rewrite <- E. now apply in_map.
Qed.
Lemma children_NoDup mid h : NoDup (children (parse_of mid) h).
Proof. apply NoDup_map_filter, numbered_NoDup. Qed.

(** proof device: invariant of the walk over the heads *)
Definition walk_inv (mid stack seen : list nat) : Prop :=
  NoDup (stack ++ seen) /\ In 0 (stack ++ seen) /\
  (forall m, In m (stack ++ seen) -> m <= length mid /\ anc mid m 0 /\ (m = 0 \/ In (hd_of mid m) seen)) /\
  (forall m, In m seen -> forall c, 1 <= c <= length mid -> hd_of mid c = m -> In c (stack ++ seen)).
Lemma existsb_in x l : existsb (Nat.eqb x) l = true <-> In x l.
Proof. rewrite existsb_exists. split; [intros (y & H & E); apply Nat.eqb_eq in E; congruence|]. intro H. exists x. split; [auto|apply Nat.eqb_refl]. Qed.
Lemma anc_parent h m q : anc h (hd_of h m) q -> anc h m q.
Proof. intros [t Ht]. exists (S t). now rewrite iter_shift. Qed.
Lemma walk_correct mid fuel : forall stack seen, walk_inv mid stack seen -> length mid + 1 <= fuel + length seen ->
  exists s, walk (parse_of mid) fuel stack seen = Some s /\ walk_inv mid [] s.
Proof.
  induction fuel as [|f IH]; intros stack seen Hi Hf; (destruct stack as [|cur rest]; [exists seen; split; [reflexivity|exact Hi]|]); cbn [walk];
    destruct Hi as (Hn & H0 & Hm & Hc).
  - exfalso. assert (length ((cur :: rest) ++ seen) <= length (seq 0 (length mid + 1))).
    { apply NoDup_incl_length; [exact Hn|]. intros m H. apply in_seq. apply Hm in H. lia. }
    rewrite app_length, seq_length in H. cbn [length] in H. lia.
  - assert (Hcur : ~ In cur seen). { intro Hin. cbn [app] in Hn. apply NoDup_cons_iff in Hn as [Hn _]. apply Hn, in_app_iff. auto. }
    destruct (existsb (Nat.eqb cur) seen) eqn:E; [apply existsb_in in E; contradiction|]. apply IH; [|cbn [length]; lia].
    assert (P : forall m, In m (children (parse_of mid) cur) -> ~ In m (cur :: rest ++ seen)).
    { intros m H Hin. apply children_in in H as [H1 H2]. destruct (Hm m Hin) as (_ & _ & [G|G]); [lia|]. rewrite H2 in G. contradiction. }
    assert (Q : forall m, In m ((children (parse_of mid) cur ++ rest) ++ cur :: seen) <-> In m (children (parse_of mid) cur) \/ In m (cur :: rest ++ seen)).
    { intro m. cbn [In]. rewrite !in_app_iff. cbn [In]. tauto. }
    split; [|split; [|split]].
    + rewrite <- app_assoc. assert (G : NoDup (rest ++ cur :: seen)).
      { apply Permutation_NoDup with (l := cur :: rest ++ seen); [apply Permutation_middle|exact Hn]. }
      clear Hn. pose proof (children_NoDup mid cur) as Hd. revert P Hd. clear - G. generalize (children (parse_of mid) cur). intros l P Hd.
      induction l as [|x l IH]; [exact G|]. inversion Hd; subst. cbn [app]. constructor.
      * rewrite in_app_iff. intros [H|H]; [contradiction|]. apply (P x); [left; auto|]. apply (Permutation_in x (l := rest ++ cur :: seen)); [symmetry; apply Permutation_middle|auto].
      * apply IH; [|auto]. intros m H. apply P. right. auto.
    + apply Q. right. exact H0.
    + intros m H. apply Q in H as [H|H].
      * apply children_in in H as [H1 H2]. split; [lia|]. split; [|right; left; auto]. apply anc_parent. rewrite H2. apply Hm. left. auto.
      * destruct (Hm m H) as (G1 & G2 & G3). split; [auto|]. split; [auto|]. destruct G3; [auto|right; right; auto].
    + intros m H c Hc1 Hc2. apply Q. destruct H as [<-|H]; [left; apply children_in; auto|]. right. apply (Hc m H c Hc1 Hc2).
Qed.
Lemma iter_plus_ A (f : A -> A) p q x : Nat.iter (p + q) f x = Nat.iter p f (Nat.iter q f x).
Proof. induction p as [|p IH]; [reflexivity|]. exact (f_equal f IH). Qed.
Lemma anc_self_zero h k q t : Nat.iter (S t) (hd_of h) k = k -> anc h k 0 -> anc h k q -> q = 0.
Proof.
  intros Hc [u Hu] [v Hv].
  assert (G : forall j, Nat.iter (j * S t) (hd_of h) k = k).
  { induction j as [|j IH]; [reflexivity|]. cbn [Nat.mul]. replace (S t + j * S t) with (j * S t + S t) by lia. rewrite iter_plus_, Hc. exact IH. }
  assert (K : k = 0). { specialize (G u). replace (u * S t) with (u * t + u) in G by lia. rewrite iter_plus_, Hu in G. rewrite <- G. apply iter_hd0. }
  subst. apply iter_hd0.
Qed.
Lemma tree_head n h k : is_tree n h -> 1 <= k <= n -> hd_of h k <> k.
Proof. intros [_ H] Hk E. apply H in Hk as Hk'. enough (k = 0) by lia. apply (@anc_self_zero h k k 0); [exact E|apply Hk'|exists 0; reflexivity]. Qed.

(** ** [_is_spanning] decides the specification's trees *)
Theorem is_spanning_tree mid : is_spanning (parse_of mid) = true <-> is_tree (length mid) mid.
Proof.
  assert (I : walk_inv mid [0] []).
  { split; [repeat constructor; auto|]. split; [left; auto|]. split; [|intros m []].
    intros m [<-|[]]. split; [lia|]. split; [exists 0; reflexivity|auto]. }
  destruct (@walk_correct mid (length (parse_of mid) + 1) [0] [] I) as (s & Hs & Hn & H0 & Hm & Hc); [rewrite parse_length; cbn; lia|].
  cbn [app] in *. unfold is_spanning. rewrite Hs. split.
  - destruct (self_headed (parse_of mid)); [discriminate|]. intro E. apply Nat.eqb_eq in E. rewrite parse_length in E.
    assert (All : forall k, k <= length mid -> In k s).
    { intros k Hk. apply (NoDup_length_incl (l := s) (l' := seq 0 (length mid + 1))); [exact Hn|rewrite seq_length; lia| |apply in_seq; lia].
      intros m H. apply in_seq. apply Hm in H. lia. }
    split; [reflexivity|]. intros k Hk. destruct (Hm k) as (_ & A & [Z|P]); [apply All; lia|lia|]. split; [apply Hm; auto|exact A].
  - intro T. destruct (self_headed (parse_of mid)) eqn:E.
    + unfold self_headed in E. apply existsb_exists in E as ([m z] & Hin & Hz). apply numbered_in in Hin as [H1 H2]. rewrite parse_length in H1.
      rewrite nth_parse in H2 by lia. cbn in Hz. apply Z.eqb_eq in Hz. destruct (m =? 0) eqn:E; [apply Nat.eqb_eq in E; lia|]. apply Nat.eqb_neq in E.
      exfalso. apply (@tree_head (length mid) mid m T); lia.
    + apply Nat.eqb_eq. rewrite parse_length. apply Nat.le_antisymm.
      * rewrite <- (seq_length (length mid + 1) 0). apply NoDup_incl_length; [exact Hn|]. intros m H. apply in_seq. apply Hm in H. lia.
      * rewrite <- (seq_length (length mid + 1) 0) at 1. apply NoDup_incl_length; [apply seq_NoDup|]. intros m H. apply in_seq in H.
        destruct (Nat.eq_dec m 0) as [->|Hne]; [exact H0|]. destruct T as [_ T]. destruct (T m) as [_ [t Ht]]; [lia|].
        assert (Hr : 1 <= m <= length mid) by lia. clear H Hne. revert m Hr Ht. induction t as [|t IH]; intros m Hr Ht; [cbn in Ht; lia|].
        rewrite iter_shift in Ht. destruct (Nat.eq_dec (hd_of mid m) 0) as [Z|NZ]; [apply (Hc 0 H0); auto|].
        apply (Hc (hd_of mid m)); [|auto|reflexivity]. apply IH; [|exact Ht]. destruct (T m Hr). lia.
Qed.

(** ** [_is_projective] decides projectivity of a tree *)
Definition cross_ends (a b' c d : nat) : Prop :=
  Nat.min a b' < Nat.min c d < Nat.max a b' /\ Nat.max a b' < Nat.max c d \/
  Nat.min c d < Nat.min a b' < Nat.max c d /\ Nat.max c d < Nat.max a b'.
Lemma lt4_true a b' c d : lt4 a b' c d = true <-> (a < b' /\ b' < c /\ c < d)%Z.
Proof. unfold lt4. rewrite !andb_true_iff, !Z.ltb_lt. tauto. Qed.
Lemma crosses_true m h m2 h2 : crosses m h m2 h2 = true <->
  ((m < h)%Z /\ (lt4 m m2 h h2 = true \/ lt4 m h2 h m2 = true \/ lt4 m2 m h2 h = true \/ lt4 h2 m m2 h = true)) \/
  ((h < m)%Z /\ (lt4 h m2 m h2 = true \/ lt4 h h2 m m2 = true \/ lt4 m2 h h2 m = true \/ lt4 h2 h m2 m = true)).
Proof. unfold crosses. rewrite orb_true_iff, !andb_true_iff, !orb_true_iff, !Z.ltb_lt. tauto. Qed.
Lemma crosses_nat m h m2 h2 : crosses (Z.of_nat m) (Z.of_nat h) (Z.of_nat m2) (Z.of_nat h2) = true <-> cross_ends m h m2 h2.
Proof.
  rewrite crosses_true, !lt4_true. unfold cross_ends.
  destruct (Nat.le_gt_cases m h) as [G|G];
    [rewrite (Nat.min_l m h), (Nat.max_r m h) by lia|rewrite (Nat.min_r m h), (Nat.max_l m h) by lia];
  (destruct (Nat.le_gt_cases m2 h2) as [G2|G2];
    [rewrite (Nat.min_l m2 h2), (Nat.max_r m2 h2) by lia|rewrite (Nat.min_r m2 h2), (Nat.max_l m2 h2) by lia]).
  all: split; [intros [[L D]|[L D]]; [destruct D as [D|[D|[D|D]]]|destruct D as [D|[D|[D|D]]]]; lia|].
  - intros [D|D]; left; (split; [lia|]); [left|right; right; left]; lia.
  - intros [D|D]; left; (split; [lia|]); [right; left|right; right; right]; lia.
  - intros [D|D]; right; (split; [lia|]); [left|right; right; left]; lia.
  - intros [D|D]; right; (split; [lia|]); [right; left|right; right; right]; lia.
Qed.
Lemma crosses_root m h : m <> 0 -> crosses (Z.of_nat m) (Z.of_nat h) (Z.of_nat 0) (-1) = false /\ crosses (Z.of_nat 0) (-1) (Z.of_nat m) (Z.of_nat h) = false.
Proof.
  intro Hm. split; apply not_true_iff_false; rewrite crosses_true, !lt4_true;
    (intros [[L D]|[L D]]; [destruct D as [D|[D|[D|D]]]|destruct D as [D|[D|[D|D]]]]; lia).
Qed.
Lemma is_projective_cross mid : is_projective (parse_of mid) = true <->
  forall k k2, 1 <= k <= length mid -> 1 <= k2 <= length mid -> k2 <> k -> ~ cross_ends k (hd_of mid k) k2 (hd_of mid k2).
Proof.
  unfold is_projective. rewrite forallb_forall. split.
  - intros H k k2 Hk Hk2 Hne C. apply crosses_nat in C.
    assert (I : forall j, 1 <= j <= length mid -> In (j, Z.of_nat (hd_of mid j)) (numbered (parse_of mid))).
    { intros j Hj. apply numbered_in. rewrite parse_length, nth_parse by lia. split; [lia|]. destruct (j =? 0) eqn:E; [apply Nat.eqb_eq in E; lia|reflexivity]. }
    specialize (H _ (I k Hk)). rewrite forallb_forall in H. specialize (H _ (I k2 Hk2)). cbn [fst snd] in H. rewrite C in H.
    destruct (k2 =? k) eqn:E; [apply Nat.eqb_eq in E; lia|discriminate].
  - intros H [m z] Hm. apply forallb_forall. intros [m2 z2] Hm2. cbn [fst snd]. apply numbered_in in Hm as [H1 H2], Hm2 as [H3 H4]. rewrite parse_length in H1, H3.
    rewrite nth_parse in H2, H4 by lia. destruct (m2 =? m) eqn:E; [reflexivity|]. apply Nat.eqb_neq in E. cbn [orb]. apply negb_true_iff.
    destruct (m =? 0) eqn:E1.
    + apply Nat.eqb_eq in E1. subst. destruct (m2 =? 0) eqn:E2; [apply Nat.eqb_eq in E2; lia|]. apply Nat.eqb_neq in E2. subst. now apply crosses_root.
    + apply Nat.eqb_neq in E1. destruct (m2 =? 0) eqn:E2; [apply Nat.eqb_eq in E2; subst; now apply crosses_root|]. apply Nat.eqb_neq in E2. subst.
      apply not_true_iff_false. rewrite crosses_nat. apply H; lia.
Qed.
Lemma anc_antisym n h a b : is_tree n h -> a <= n -> b <= n -> anc h a b -> anc h b a -> a = b.
Proof.
  intros [_ T] Ha Hb [p Hp] [q Hq].
  assert (R : forall x, x <= n -> anc h x 0). { intros x Hx. destruct (Nat.eq_dec x 0) as [->|Hne]; [exists 0; reflexivity|]. apply T. lia. }
  destruct p as [|p]; [cbn in Hp; auto|].
  assert (Ca : Nat.iter (S (q + p)) (hd_of h) a = a). { replace (S (q + p)) with (q + S p) by lia. rewrite iter_plus_, Hp. exact Hq. }
  rewrite (@anc_self_zero h a b (q + p) Ca (R a Ha)) by (exists (S p); exact Hp).
  symmetry. rewrite (@anc_self_zero h a a (q + p) Ca (R a Ha)) by (exists 0; reflexivity). reflexivity.
Qed.
Theorem is_projective_proj mid : is_tree (length mid) mid ->
  (is_projective (parse_of mid) = true <-> is_proj (length mid) mid).
Proof.
  intro T. rewrite is_projective_cross. pose proof T as [_ T']. split.
  - intro H. split; [reflexivity|]. split; [exact T'|]. intros k m Hk Hb.
    assert (Hm : 1 <= m <= length mid). { destruct (T' k Hk) as [G _]. unfold between in Hb. lia. }
    destruct (T' m Hm) as [_ [t Ht]]. revert m Hb Hm Ht. induction t as [|t IH]; intros m Hb Hm Ht; [cbn in Ht; lia|].
    rewrite iter_shift in Ht. apply anc_parent.
    destruct (Nat.eq_dec (hd_of mid m) (hd_of mid k)) as [E|N1]; [rewrite E; exists 0; reflexivity|].
    destruct (Nat.eq_dec (hd_of mid m) k) as [E|N2]; [rewrite E; exists 1; reflexivity|].
    assert (Hb' : between (hd_of mid k) (hd_of mid m) k).
    { destruct (T' k Hk) as [G _]. specialize (H k m Hk Hm ltac:(unfold between in Hb; lia)). unfold cross_ends, between in *. lia. }
    apply IH; [exact Hb'| |exact Ht]. destruct (T' k Hk) as [G _]. unfold between in Hb'. lia.
  - intros (_ & _ & P). assert (W : forall k k2, 1 <= k <= length mid -> 1 <= k2 <= length mid ->
      Nat.min k (hd_of mid k) < Nat.min k2 (hd_of mid k2) < Nat.max k (hd_of mid k) -> Nat.max k (hd_of mid k) < Nat.max k2 (hd_of mid k2) -> False).
    { intros k k2 Hk Hk2 L1 L2.
      assert (A1 : anc mid (hd_of mid k2) (hd_of mid k)).
      { assert (A : anc mid (Nat.min k2 (hd_of mid k2)) (hd_of mid k)) by (apply P; [auto|unfold between; lia]).
        destruct (Nat.min_spec k2 (hd_of mid k2)) as [[G E]|[G E]]; rewrite E in A; [|exact A].
        destruct A as [[|t] Ht]; [cbn in Ht; lia|]. exists t. now rewrite <- iter_shift. }
      assert (A2 : anc mid (hd_of mid k) (hd_of mid k2)).
      { assert (A : anc mid (Nat.max k (hd_of mid k)) (hd_of mid k2)) by (apply P; [auto|unfold between; lia]).
        destruct (Nat.max_spec k (hd_of mid k)) as [[G E]|[G E]]; rewrite E in A; [exact A|].
        destruct A as [[|t] Ht]; [cbn in Ht; lia|]. exists t. now rewrite <- iter_shift. }
      assert (E : hd_of mid k = hd_of mid k2) by (apply (@anc_antisym (length mid) mid _ _ T); auto; apply T'; auto). lia. }
    intros k k2 Hk Hk2 _ [[L1 L2]|[L1 L2]]; [apply (W k k2)|apply (W k2 k)]; auto; lia.
Qed.

Lemma multi_root_count mid : is_multi_root (parse_of mid) = (1 <? count_occ Nat.eq_dec mid 0).
Proof.
  unfold is_multi_root, parse_of. cbn [filter Z.eqb]. f_equal. induction mid as [|x mid IH]; [reflexivity|]. cbn [map filter count_occ].
  destruct (Nat.eq_dec x 0) as [->|Hne]; [cbn [Z.of_nat Z.eqb length]; now rewrite IH|].
  replace (Z.of_nat x =? 0)%Z with false by (symmetry; apply Z.eqb_neq; lia). exact IH.
Qed.
Lemma tree_root n h : is_tree n h -> 1 <= n -> 1 <= count_occ Nat.eq_dec h 0.
Proof.
  intros [Hl T] Hn. enough (In 0 h) by (apply (count_occ_In Nat.eq_dec) in H; lia).
  destruct (T 1) as [_ [t Ht]]; [lia|]. assert (G : exists m, 1 <= m <= n /\ Nat.iter t (hd_of h) m = 0) by (exists 1; split; [lia|exact Ht]).
  clear Ht. destruct G as (m & Hm & Ht). revert m Hm Ht.
  induction t as [|t IH]; intros m Hm Ht; [cbn in Ht; lia|]. rewrite iter_shift in Ht. destruct (T m Hm) as [B _].
  destruct (Nat.eq_dec (hd_of h m) 0) as [Z|NZ]; [|apply (IH (hd_of h m)); [lia|exact Ht]].
  destruct m as [|m]; [lia|]. cbn in Z. rewrite <- Z. apply nth_In. lia.
Qed.
Theorem kept_enum (non_proj multi : bool) n : (multi = false -> 1 <= n) ->
  Enumerates (fun h => (if non_proj then is_tree n h else is_proj n h) /\ (multi = true \/ single_root h)) (kept non_proj multi n).
Proof.
  intro Hn. destruct (product_enum (n + 2) n) as [Hd He]. split; [apply NoDup_filter; exact Hd|]. intro h. unfold kept. rewrite filter_In, He.
  unfold keep. rewrite !andb_true_iff, !orb_true_iff.
  assert (Tr : is_tree n h -> length h = n /\ Forall (fun x => x < n + 2) h).
  { intros [Hl T]. split; [exact Hl|]. apply Forall_forall. intros x Hx. apply In_nth with (d := 0) in Hx as (j & Hj & <-).
    destruct (T (S j)) as [B _]; [lia|]. cbn in B. lia. }
  assert (M : is_tree n h -> (multi = true \/ negb (is_multi_root (parse_of h)) = true) <-> (multi = true \/ single_root h)).
  { intro T. destruct multi; [tauto|]. rewrite multi_root_count, negb_true_iff, Nat.ltb_ge. pose proof (tree_root T (Hn eq_refl)). unfold single_root. intuition lia. }
  split.
  - intros [[Hl Hf] [[Hs Hp] Hm]]. apply is_spanning_tree in Hs. rewrite Hl in Hs. apply M in Hm; [|exact Hs]. split; [|exact Hm].
    destruct non_proj; [exact Hs|]. destruct Hp as [Hp|Hp]; [discriminate|]. pose proof Hs as Hs'. rewrite <- Hl in Hs'. apply (is_projective_proj Hs') in Hp. now rewrite Hl in Hp.
  - intros [Ht Hm]. assert (T : is_tree n h) by (destruct non_proj; [exact Ht|apply proj_tree; exact Ht]).
    split; [apply Tr; exact T|]. pose proof (Tr T) as [Hl _]. pose proof T as T'. rewrite <- Hl in T'. split; [|apply M; auto]. split; [apply is_spanning_tree; exact T'|].
    destruct non_proj; [auto|]. right. apply (is_projective_proj T'). now rewrite Hl.
Qed.
Lemma dpo_spec O (H : mlaws O) pot b mid : dpo_score O pot b mid = mprod O pot (dep_parts b mid).
Proof.
  unfold dpo_score.
  assert (E : map (fun i => pot (dp_idx b (nth (i - 1) mid 0) i [])) (seq 1 (length mid)) = map pot (dep_parts b mid)).
  { unfold dep_parts. assert (G : forall l s, map pot (dep_parts_from b s l) = map (fun i => pot (dp_idx b (nth (i - S s) l 0) i [])) (seq (S s) (length l))).
    { induction l as [|x l IH]; intro s; [reflexivity|]. cbn [dep_parts_from length seq map]. rewrite Nat.sub_diag. cbn [nth]. f_equal.
      - rewrite dep_part_idx. do 2 f_equal. lia.
      - rewrite IH. apply map_ext_in. intros i Hi. apply in_seq in Hi. replace (i - S s) with (S (i - S (S s))) by lia. reflexivity. }
    symmetry. apply G. }
  rewrite E. clear E. destruct (dep_parts b mid) as [|e l]; [reflexivity|]. cbn [map]. unfold stimes. rewrite mprod_cons.
  generalize (pot e). induction l as [|e' l IH]; intro x; cbn [map fold_left]; [symmetry; apply (ml_one_r H)|].
  rewrite IH, mprod_cons. symmetry. apply (ml_assoc H).
Qed.
