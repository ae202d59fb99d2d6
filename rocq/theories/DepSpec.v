(** * DepSpec: projective dependency trees, their decomposition and enumeration.

    Specification-level combinatorics; models no code. *)
From Verif Require Import Base.
Set Implicit Arguments.

(** strictly between two positions, in either order *)
Definition between (a m b : nat) : Prop := a < m < b \/ b < m < a.

(** ** The user-level notion: head vectors.

    [h] lists the head of word 1, word 2, ...; head 0 is the artificial root. *)
Definition hd_of (h : list nat) (k : nat) : nat :=
  match k with 0 => 0 | S k' => nth k' h 0 end.
(** [anc h k q]: q is k itself or an ancestor of k *)
Definition anc (h : list nat) (k q : nat) : Prop := exists t, Nat.iter t (hd_of h) k = q.

(** a projective dependency tree over n words: every word's head is a word or
    the root, every word reaches the root, and every word lying between a word
    and its head descends from that head *)
Definition is_proj (n : nat) (h : list nat) : Prop :=
  length h = n /\
  (forall k, 1 <= k <= n -> hd_of h k <= n /\ anc h k 0) /\
  (forall k m, 1 <= k <= n -> between (hd_of h k) m k -> anc h m (hd_of h k)).
(** the root has exactly one child *)
Definition single_root (h : list nat) : Prop := count_occ Nat.eq_dec h 0 = 1.

(** ** Trees on an interval, for a head function *)
(** [rch f q k h]: following heads from k, without going beyond q, meets h *)
Inductive rch (f : nat -> nat) (q : nat) : nat -> nat -> Prop :=
| rch_refl k : rch f q k k
| rch_step k h : k <> q -> rch f q (f k) h -> rch f q k h.

(** [tree f q a b]: on the words of [a, b], the head function [f] is a
    projective tree rooted at q *)
Definition tree (f : nat -> nat) (q a b : nat) : Prop :=
  a <= q <= b /\
  (forall k, a <= k <= b -> k <> q -> a <= f k <= b /\ rch f q k q) /\
  (forall k m, a <= k <= b -> k <> q -> between (f k) m k -> rch f q m (f k)).

Section Reach.
  Variable f : nat -> nat.
  Lemma rch_trans q a b c : rch f q a b -> rch f q b c -> rch f q a c.
  Proof. induction 1; auto. intro. constructor; auto. Qed.
  Lemma rch_root q h : rch f q q h -> h = q.
  Proof. intro H. inversion H; congruence. Qed.
  Lemma rch_inv q k h : rch f q k h -> k <> h -> k <> q /\ rch f q (f k) h.
  Proof. intros H Hne. inversion H; subst; [congruence|auto]. Qed.
  (** staying in a closed region *)
  Lemma rch_closed (Reg : nat -> Prop) q k h :
    (forall m, Reg m -> m <> q -> Reg (f m)) -> rch f q k h -> Reg k -> Reg h.
  Proof. intros Hc H. induction H; auto. Qed.
  Lemma rch_lift (Reg : nat -> Prop) q q' k h :
    (forall m, Reg m -> m <> q' -> Reg (f m)) -> ~ Reg q -> rch f q' k h -> Reg k -> rch f q k h.
  Proof.
    intros Hc Hq H. induction H as [k|k h Hk H IH]; intro HR; [constructor|].
    constructor; auto. intros ->. contradiction.
  Qed.
  Lemma rch_to_root (Reg : nat -> Prop) q q' k :
    (forall m, Reg m -> m <> q' -> Reg (f m)) -> (Reg q -> q = q') ->
    rch f q k q -> Reg k -> rch f q' k q'.
  Proof.
    intros Hc Hq H. remember q as q0 in H at 2. induction H as [k|k h Hk H IH]; intro HR; subst.
    - specialize (Hq HR). subst. constructor.
    - destruct (Nat.eq_dec k q') as [->|Hne]; [constructor|]. constructor; auto.
  Qed.
  Lemma rch_restrict (Reg : nat -> Prop) q q' k h :
    (forall m, Reg m -> m <> q' -> Reg (f m)) -> (forall x, rch f q q' x -> Reg x -> x = q') ->
    rch f q k h -> Reg k -> Reg h -> rch f q' k h.
  Proof.
    intros Hc Hq H. induction H as [k|k h Hk H IH]; intros HR Hh; [constructor|].
    destruct (Nat.eq_dec k q') as [->|Hne].
    - rewrite (Hq h); [constructor| |auto]. constructor; auto.
    - constructor; auto.
  Qed.
  Lemma rch_dec q k c : rch f q k q -> q <> c -> rch f q k c \/ ~ rch f q k c.
  Proof.
    intros H Hc. remember q as q0 in H at 2. induction H as [k|k h Hk H IH]; subst.
    - right. intro H. apply rch_root in H. congruence.
    - destruct (Nat.eq_dec k c) as [->|Hne]; [left; constructor|].
      destruct (IH eq_refl) as [Y|Y].
      + left. constructor; auto.
      + right. intro H'. apply rch_inv in H'; auto. tauto.
  Qed.
End Reach.

Lemma rch_ext f g q (Reg : nat -> Prop) k h :
  (forall m, Reg m -> m <> q -> Reg (f m) /\ f m = g m) -> rch f q k h -> Reg k -> rch g q k h.
Proof.
  intros Hc H. induction H as [k|k h Hk H IH]; intro HR; [constructor|].
  destruct (Hc k HR Hk) as [H1 H2]. constructor; auto. rewrite <- H2. auto.
Qed.

Lemma tree_ext f g q a b :
  (forall k, a <= k <= b -> k <> q -> f k = g k) -> tree f q a b -> tree g q a b.
Proof.
  intros E (H0 & H1 & H2). split; auto.
  assert (Hc : forall m, a <= m <= b -> m <> q -> a <= f m <= b /\ f m = g m).
  { intros m Hm Hq. split; [apply H1; auto|auto]. }
  split.
  - intros k Hk Hq. rewrite <- E by auto. destruct (H1 k Hk Hq) as [G1 G2]. split; auto.
    eapply rch_ext with (f := f) (Reg := fun m => a <= m <= b); eauto.
  - intros k m Hk Hq Hb. rewrite <- E in * by auto. specialize (H2 k m Hk Hq Hb).
    eapply rch_ext with (f := f) (Reg := fun m => a <= m <= b); eauto.
    destruct (H1 k Hk Hq) as [G1 _]. unfold between in Hb. lia.
Qed.

(** searching the largest / smallest position with a property *)
Lemma find_max (P : nat -> Prop) a b :
  (forall k, a <= k <= b -> P k \/ ~ P k) -> (exists k, a <= k <= b /\ P k) ->
  exists k, a <= k <= b /\ P k /\ forall m, k < m <= b -> ~ P m.
Proof.
  intros Hd (k0 & Hk0 & Pk0). remember (b - a) as d eqn:E. revert b Hd Hk0 E.
  induction d as [|d IH]; intros b Hd Hk0 E.
  - exists k0. split; [lia|]. split; [auto|intros; lia].
  - destruct (Hd b) as [Hb|Hb]; [lia| |].
    + exists b. split; [lia|]. split; [auto|intros; lia].
    + destruct (Nat.eq_dec k0 b) as [->|]; [contradiction|].
      destruct (IH (b - 1)) as (k & Hk & Pk & Hm); try lia.
      * intros; apply Hd; lia.
      * exists k. split; [lia|]. split; [auto|]. intros m Hm'.
        destruct (Nat.eq_dec m b) as [->|]; auto. apply Hm. lia.
Qed.
Lemma find_min (P : nat -> Prop) a b :
  (forall k, a <= k <= b -> P k \/ ~ P k) -> (exists k, a <= k <= b /\ P k) ->
  exists k, a <= k <= b /\ P k /\ forall m, a <= m < k -> ~ P m.
Proof.
  intros Hd (k0 & Hk0 & Pk0). remember (b - a) as d eqn:E. revert a Hd Hk0 E.
  induction d as [|d IH]; intros a Hd Hk0 E.
  - exists k0. split; [lia|]. split; [auto|intros; lia].
  - destruct (Hd a) as [Ha|Ha]; [lia| |].
    + exists a. split; [lia|]. split; [auto|intros; lia].
    + destruct (Nat.eq_dec k0 a) as [->|]; [contradiction|].
      destruct (IH (a + 1)) as (k & Hk & Pk & Hm); try lia.
      * intros; apply Hd; lia.
      * exists k. split; [lia|]. split; [auto|]. intros m Hm'.
        destruct (Nat.eq_dec m a) as [->|]; auto. apply Hm. lia.
Qed.

(** the chain to the root ends with a child of the root *)
Lemma child_exists f q a b k : tree f q a b -> a <= k <= b -> k <> q ->
  exists c, a <= c <= b /\ c <> q /\ f c = q.
Proof.
  intros (H0 & H1 & H2) Hk Hq.
  assert (G : forall x y, rch f q x y -> y = q -> a <= x <= b -> x <> q ->
     exists c, a <= c <= b /\ c <> q /\ f c = q).
  { induction 1 as [x|x y Hx Hr IH]; intros Ey Hx' Hxq; [congruence|].
    destruct (Nat.eq_dec (f x) q) as [E|E]; [exists x; auto|].
    apply IH; auto. apply H1; auto. }
  destruct (H1 k Hk Hq) as [_ Hr]. eapply G; eauto.
Qed.

(** ** Decomposition of a right-complete span *)
Definition right_dec (f : nat -> nat) (i j c r : nat) : Prop :=
  i <= r < c /\ c <= j /\ f c = i /\ tree f i i r /\ tree f c (r + 1) c /\ tree f c c j.

Lemma right_compose f i j c r : right_dec f i j c r -> tree f i i j.
Proof.
  intros (Hr & Hc & Hf & (_ & A1 & A2) & (_ & B1 & B2) & (_ & C1 & C2)).
  assert (CB : forall m, r + 1 <= m <= c -> m <> c -> r + 1 <= f m <= c) by (intros; apply B1; auto).
  assert (CC : forall m, c <= m <= j -> m <> c -> c <= f m <= j) by (intros; apply C1; auto).
  assert (Hroot : rch f i c i).
  { constructor; [lia|]. rewrite Hf. constructor. }
  assert (LB : forall m h, rch f c m h -> r + 1 <= m <= c -> rch f i m h).
  { intros m h H Hm. eapply rch_lift with (Reg := fun m => r + 1 <= m <= c); eauto. lia. }
  assert (LC : forall m h, rch f c m h -> c <= m <= j -> rch f i m h).
  { intros m h H Hm. eapply rch_lift with (Reg := fun m => c <= m <= j); eauto. lia. }
  split; [lia|]. split.
  - intros k Hk Hne. destruct (le_lt_dec k r); [|destruct (lt_eq_lt_dec k c) as [[Hl|He]|Hg]].
    + destruct (A1 k) as [G1 G2]; [lia|auto|]. split; [lia|auto].
    + destruct (B1 k) as [G1 G2]; [lia|lia|]. split; [lia|].
      eapply rch_trans; [apply LB; [exact G2|lia]|auto].
    + subst k. split; [lia|auto].
    + destruct (C1 k) as [G1 G2]; [lia|lia|]. split; [lia|].
      eapply rch_trans; [apply LC; [exact G2|lia]|auto].
  - intros k m Hk Hne Hb. destruct (le_lt_dec k r); [|destruct (lt_eq_lt_dec k c) as [[Hl|He]|Hg]].
    + apply A2; auto; lia.
    + destruct (B1 k) as [G1 G2]; [lia|lia|]. apply LB; [|unfold between in Hb; lia].
      apply B2; auto; lia.
    + subst k. rewrite Hf in *. assert (i < m < c) by (unfold between in Hb; lia).
      destruct (le_lt_dec m r).
      * apply A1; lia.
      * eapply rch_trans; [|exact Hroot]. apply LB; [|lia]. apply B1; lia.
    + destruct (C1 k) as [G1 G2]; [lia|lia|]. apply LC; [|unfold between in Hb; lia].
      apply C2; auto; lia.
Qed.

Lemma right_decompose f i j : i < j -> tree f i i j -> exists c r, right_dec f i j c r.
Proof.
  intros Hij Ht. pose proof Ht as (_ & H1 & H2).
  destruct (@find_max (fun k => f k = i) (i + 1) j) as (c & Hc & Hfc & Hmax).
  { intros k _. destruct (Nat.eq_dec (f k) i); auto. }
  { destruct (@child_exists f i i j j Ht) as (c & Hc & Hne & E); try lia.
    exists c. split; [lia|auto]. }
  assert (Hcr : forall x, rch f i c x -> x = c \/ x = i).
  { intros x H. destruct (Nat.eq_dec c x) as [->|Hne]; auto.
    apply rch_inv in H as [_ H]; auto. rewrite Hfc in H. apply rch_root in H. auto. }
  assert (Hright : forall k, c < k <= j -> c <= f k <= j).
  { intros k Hk. destruct (H1 k) as [G _]; [lia|lia|]. split; [|lia].
    destruct (le_lt_dec c (f k)) as [|Hlt]; auto. exfalso.
    assert (Hb : between (f k) c k) by (unfold between; lia).
    apply H2 in Hb; [|lia|lia]. apply Hcr in Hb as [E|E]; [lia|].
    apply (Hmax k); auto. }
  assert (Hleft : forall k, i < k < c -> i <= f k <= c).
  { intros k Hk. destruct (H1 k) as [G _]; [lia|lia|]. split; [lia|].
    destruct (le_lt_dec (f k) c) as [|Hlt]; auto. exfalso.
    assert (Hb : between (f k) c k) by (unfold between; lia).
    apply H2 in Hb; [|lia|lia]. apply Hcr in Hb as [E|E]; lia. }
  destruct (@find_min (fun k => rch f i k c) i c) as (m0 & Hm0 & Rm0 & Hmin).
  { intros k Hk. destruct (Nat.eq_dec k i) as [->|].
    - right. intro H. apply rch_root in H. lia.
    - apply rch_dec; [apply H1; lia|lia]. }
  { exists c. split; [lia|constructor]. }
  assert (Hm0i : i < m0).
  { destruct (Nat.eq_dec m0 i) as [->|]; [|lia]. apply rch_root in Rm0. lia. }
  assert (Hall : forall k', m0 <= k' <= c -> rch f i k' c).
  { intros k' Hk'. destruct (Nat.eq_dec k' m0) as [->|]; auto.
    destruct (Nat.eq_dec k' c) as [->|]; [constructor|].
    assert (G : forall k y, rch f i k y -> y = c -> k < k' -> i < k -> rch f i k' c).
    { induction 1 as [k|k y Hk Hr IH]; intros Ey Hlt Hik; [lia|]. subst y.
      destruct (lt_eq_lt_dec (f k) k') as [[Hl|He]|Hg].
      - apply IH; auto. destruct (Hleft k) as [G _]; [lia|].
        destruct (Nat.eq_dec (f k) i) as [E|]; [|lia]. rewrite E in Hr. apply rch_root in Hr. lia.
      - subst k'. auto.
      - eapply rch_trans; [|exact Hr]. apply H2; try lia. unfold between. lia. }
    eapply G; eauto; lia. }
  assert (Hno : forall k, i <= k < m0 -> ~ rch f i k c) by (intros; apply Hmin; lia).
  assert (CB : forall k, m0 <= k <= c -> k <> c -> m0 <= f k <= c).
  { intros k Hk Hne. assert (Hr : rch f i k c) by (apply Hall; lia).
    apply rch_inv in Hr as [_ Hr]; [|auto]. destruct (Hleft k) as [G1 G2]; [lia|].
    destruct (le_lt_dec m0 (f k)) as [|Hlt]; [lia|]. exfalso. apply (Hno (f k)); auto. }
  assert (CC : forall k, c <= k <= j -> k <> c -> c <= f k <= j) by (intros; apply Hright; lia).
  exists c, (m0 - 1). split; [lia|]. split; [lia|]. split; [auto|]. split; [|split].
  - split; [lia|]. split.
    + intros k Hk Hne. assert (G : i <= f k <= c) by (apply Hleft; lia). split; [|apply H1; lia].
      destruct (le_lt_dec m0 (f k)) as [Hle|]; [|lia]. exfalso.
      apply (Hno k); [lia|]. constructor; [lia|]. apply Hall. lia.
    + intros k m Hk Hne Hb. apply H2; auto; lia.
  - replace (m0 - 1 + 1) with m0 by lia. split; [lia|]. split.
    + intros k Hk Hne. split; [apply CB; auto|].
      eapply rch_to_root with (q := i) (Reg := fun k => m0 <= k <= c); auto; [lia|]. apply H1; lia.
    + intros k m Hk Hne Hb. destruct (CB k Hk Hne). unfold between in Hb.
      eapply rch_restrict with (q := i) (Reg := fun k => m0 <= k <= c); auto.
      * intros x Hx Hx'. destruct (Hcr x Hx); [auto|lia].
      * apply H2; auto; lia.
      * lia.
  - split; [lia|]. split.
    + intros k Hk Hne. split; [apply CC; auto|].
      eapply rch_to_root with (q := i) (Reg := fun k => c <= k <= j); auto; [lia|]. apply H1; lia.
    + intros k m Hk Hne Hb. destruct (CC k Hk Hne). unfold between in Hb.
      eapply rch_restrict with (q := i) (Reg := fun k => c <= k <= j); auto.
      * intros x Hx Hx'. destruct (Hcr x Hx); [auto|lia].
      * apply H2; auto; lia.
      * lia.
Qed.

Lemma right_unique f i j c r c' r' :
  right_dec f i j c r -> right_dec f i j c' r' -> c = c' /\ r = r'.
Proof.
  assert (G : forall c r c' r', right_dec f i j c r -> right_dec f i j c' r' -> ~ c < c').
  { clear. intros c r c' r' (Hr & Hc & Hf & A & B & (_ & C1 & C2)) (Hr' & Hc' & Hf' & _) Hlt.
    destruct (C1 c'); lia. }
  intros D D'.
  assert (c = c') as <- by (pose proof (G _ _ _ _ D D'); pose proof (G _ _ _ _ D' D); lia).
  split; auto.
  assert (G' : forall r r', right_dec f i j c r -> right_dec f i j c r' -> ~ r < r').
  { clear. intros r r' (Hr & Hc & Hf & A & (_ & B1 & B2) & C) (Hr' & Hc' & Hf' & (_ & A1 & A2) & _) Hlt.
    destruct (B1 r') as [_ Hrr]; [lia|lia|].
    assert (Hl : rch f i r' c).
    { eapply rch_lift with (Reg := fun m => r + 1 <= m <= c) (q' := c); eauto; [|lia|lia].
      intros; apply B1; auto. }
    apply rch_closed with (Reg := fun m => i <= m <= r') in Hl; [lia| |lia].
    intros; apply A1; auto. }
  pose proof (G' _ _ D D'). pose proof (G' _ _ D' D). lia.
Qed.

(** ** Mirror images *)
Definition mir (M : nat) (f : nat -> nat) (k : nat) : nat := M - f (M - k).

Lemma rch_mir M f q k h (Reg : nat -> Prop) :
  (forall m, Reg m -> m <= M) -> (forall m, Reg m -> m <> q -> Reg (f m)) -> q <= M ->
  rch f q k h -> Reg k -> rch (mir M f) (M - q) (M - k) (M - h).
Proof.
  intros HM Hc Hq H. induction H as [k|k h Hk H IH]; intro HR; [constructor|].
  constructor.
  - specialize (HM k HR). lia.
  - unfold mir at 2. replace (M - (M - k)) with k by (specialize (HM k HR); lia). auto.
Qed.

Lemma tree_mir M f q a b : b <= M -> tree f q a b -> tree (mir M f) (M - q) (M - b) (M - a).
Proof.
  intros HM (H0 & H1 & H2). split; [lia|].
  assert (Hc : forall m, a <= m <= b -> m <> q -> a <= f m <= b) by (intros; apply H1; auto).
  split.
  - intros k Hk Hne. destruct (H1 (M - k)) as [G1 G2]; [lia|lia|]. split; [unfold mir; lia|].
    replace k with (M - (M - k)) by lia.
    eapply rch_mir with (Reg := fun m => a <= m <= b); eauto; lia.
  - intros k m Hk Hne Hb. destruct (H1 (M - k)) as [G1 G2]; [lia|lia|].
    assert (Hb' : between (f (M - k)) (M - m) (M - k)) by (unfold between, mir in *; lia).
    apply H2 in Hb'; [|lia|lia].
    replace m with (M - (M - m)) by (unfold between, mir in Hb; lia).
    unfold mir at 2. eapply rch_mir with (Reg := fun m => a <= m <= b); eauto; [lia|lia|].
    unfold between, mir in Hb. lia.
Qed.

Lemma mir_mir M f q a b : b <= M -> tree (mir M f) (M - q) (M - b) (M - a) -> a <= q <= b ->
  (forall k, a <= k <= b -> k <> q -> f k <= M) -> tree f q a b.
Proof.
  intros HM Ht Hq Hf. apply (@tree_mir M) in Ht; [|lia].
  replace (M - (M - q)) with q in Ht by lia. replace (M - (M - a)) with a in Ht by lia.
  replace (M - (M - b)) with b in Ht by lia.
  eapply tree_ext; [|exact Ht]. intros k Hk Hne. unfold mir.
  replace (M - (M - k)) with k by lia. specialize (Hf k Hk Hne). lia.
Qed.

(** ** Decomposition of a left-complete span (by mirror image) *)
Definition left_dec (f : nat -> nat) (i j c r : nat) : Prop :=
  i <= c <= r /\ r < j /\ f c = j /\ tree f c i c /\ tree f c c r /\ tree f j (r + 1) j.

Lemma left_dec_mir f i j c r :
  left_dec f i j c r -> right_dec (mir j f) 0 (j - i) (j - c) (j - r - 1).
Proof.
  intros (H1 & H2 & H3 & A & B & C).
  apply (@tree_mir j) in A; [|lia]. apply (@tree_mir j) in B; [|lia].
  apply (@tree_mir j) in C; [|lia].
  split; [lia|]. split; [lia|]. split; [unfold mir; replace (j - (j - c)) with c by lia; lia|].
  replace (j - j) with 0 in C by lia. replace (j - (r + 1)) with (j - r - 1) in C by lia.
  replace (j - r) with (j - r - 1 + 1) in B by lia. auto.
Qed.

Lemma left_compose f i j c r : left_dec f i j c r -> tree f j i j.
Proof.
  intro D. pose proof (left_dec_mir D) as D'. apply right_compose in D'.
  destruct D as (H1 & H2 & H3 & (_ & A & _) & (_ & B & _) & (_ & C & _)).
  apply mir_mir with (M := j); [lia| |lia|].
  - replace (j - j) with 0 by lia. exact D'.
  - intros k Hk Hne. destruct (lt_eq_lt_dec k c) as [[Hl|He]|Hg].
    + destruct (A k); lia.
    + subst; lia.
    + destruct (le_lt_dec k r); [destruct (B k); lia|destruct (C k); lia].
Qed.

Lemma left_decompose f i j : i < j -> tree f j i j -> exists c r, left_dec f i j c r.
Proof.
  intros Hij Ht. pose proof Ht as (_ & H1 & _).
  pose proof (@tree_mir j _ _ _ _ (le_n j) Ht) as Hm. replace (j - j) with 0 in Hm by lia.
  destruct (@right_decompose (mir j f) 0 (j - i)) as (c & r & D); [lia|exact Hm|].
  destruct D as (G1 & G2 & G3 & A & B & C).
  assert (Hf : forall k, i <= k <= j -> k <> j -> f k <= j) by (intros k Hk Hne; destruct (H1 k); lia).
  exists (j - c), (j - r - 1).
  split; [lia|]. split; [lia|]. split.
  { unfold mir in G3. assert (f (j - c) <= j) by (apply Hf; lia). lia. }
  split; [|split].
  - apply mir_mir with (M := j); [lia| |lia|intros; apply Hf; lia].
    replace (j - (j - c)) with c by lia. exact C.
  - apply mir_mir with (M := j); [lia| |lia|intros; apply Hf; lia].
    replace (j - (j - c)) with c by lia. replace (j - (j - r - 1)) with (r + 1) by lia. exact B.
  - apply mir_mir with (M := j); [lia| |lia|intros; apply Hf; lia].
    replace (j - j) with 0 by lia. replace (j - (j - r - 1 + 1)) with r by lia. exact A.
Qed.

Lemma left_unique f i j c r c' r' :
  left_dec f i j c r -> left_dec f i j c' r' -> c = c' /\ r = r'.
Proof.
  intros D D'. pose proof (left_dec_mir D) as E. pose proof (left_dec_mir D') as E'.
  destruct (right_unique E E'). destruct D, D'. lia.
Qed.

(** ** Head lists of spans *)
(** head function of a list of heads for the words s, s+1, ... *)
Definition hfun (s : nat) (l : list nat) (k : nat) : nat := nth (k - s) l 0.
(** right-complete span: words i+1..j below i *)
Definition is_right (i j : nat) (l : list nat) : Prop := length l = j - i /\ tree (hfun (i + 1) l) i i j.
(** left-complete span: words i..j-1 below j *)
Definition is_left (i j : nat) (l : list nat) : Prop := length l = j - i /\ tree (hfun i l) j i j.

Lemma hfun_app1 s l1 l2 k : s <= k < s + length l1 -> hfun s (l1 ++ l2) k = hfun s l1 k.
Proof. intro H. unfold hfun. apply app_nth1. lia. Qed.
Lemma hfun_app2 s l1 l2 k : s + length l1 <= k -> hfun s (l1 ++ l2) k = hfun (s + length l1) l2 k.
Proof. intro H. unfold hfun. rewrite app_nth2 by lia. f_equal. lia. Qed.
Lemma hfun_cons s x l : hfun s (x :: l) s = x.
Proof. unfold hfun. rewrite Nat.sub_diag. reflexivity. Qed.

Lemma is_right_nil i : is_right i i [].
Proof.
  split; [simpl; lia|]. split; [lia|]. split; intros k; intros; lia.
Qed.
Lemma is_left_nil i : is_left i i [].
Proof.
  split; [simpl; lia|]. split; [lia|]. split; intros k; intros; lia.
Qed.

(** proof device: concatenation of the heads of two parts around a word with head i *)
Definition join_r (i : nat) (l1 l2 l3 : list nat) : list nat := l1 ++ l2 ++ i :: l3.
(** proof device: the same, with head j first *)
Definition join_l (j : nat) (l1 l2 l3 : list nat) : list nat := l1 ++ j :: l2 ++ l3.

Lemma join_r_dec i j c r l1 l2 l3 : i <= r < c -> c <= j ->
  length l1 = r - i -> length l2 = c - (r + 1) -> length l3 = j - c ->
  (right_dec (hfun (i + 1) (join_r i l1 l2 l3)) i j c r <->
   is_right i r l1 /\ is_left (r + 1) c l2 /\ is_right c j l3).
Proof.
  intros Hr Hc L1 L2 L3. unfold join_r.
  set (f := hfun (i + 1) (l1 ++ l2 ++ i :: l3)).
  assert (E1 : forall k, i <= k <= r -> k <> i -> f k = hfun (i + 1) l1 k).
  { intros k Hk Hne. unfold f. apply hfun_app1. lia. }
  assert (E2 : forall k, r + 1 <= k <= c -> k <> c -> f k = hfun (r + 1) l2 k).
  { intros k Hk Hne. unfold f. rewrite hfun_app2, hfun_app1 by lia. f_equal. lia. }
  assert (Ec : f c = i).
  { unfold f. rewrite !hfun_app2 by lia.
    replace (i + 1 + length l1 + length l2) with c by lia. apply hfun_cons. }
  assert (E3 : forall k, c <= k <= j -> k <> c -> f k = hfun (c + 1) l3 k).
  { intros k Hk Hne. unfold f. change (i :: l3) with ([i] ++ l3). rewrite !app_assoc.
    rewrite hfun_app2; rewrite !app_length; simpl; [f_equal|]; lia. }
  split.
  - intros (_ & _ & _ & A & B & C). split; [|split]; split; auto.
    + eapply tree_ext; [|exact A]; auto.
    + eapply tree_ext; [|exact B]; auto.
    + eapply tree_ext; [|exact C]; auto.
  - intros ([_ A] & [_ B] & [_ C]). split; [lia|]. split; [lia|]. split; [auto|].
    split; [|split].
    + eapply tree_ext; [|exact A]; intros; symmetry; auto.
    + eapply tree_ext; [|exact B]; intros; symmetry; auto.
    + eapply tree_ext; [|exact C]; intros; symmetry; auto.
Qed.

Lemma join_l_dec i j c r l1 l2 l3 : i <= c <= r -> r < j ->
  length l1 = c - i -> length l2 = r - c -> length l3 = j - (r + 1) ->
  (left_dec (hfun i (join_l j l1 l2 l3)) i j c r <->
   is_left i c l1 /\ is_right c r l2 /\ is_left (r + 1) j l3).
Proof.
  intros Hr Hc L1 L2 L3. unfold join_l.
  set (f := hfun i (l1 ++ j :: l2 ++ l3)).
  assert (E1 : forall k, i <= k <= c -> k <> c -> f k = hfun i l1 k).
  { intros k Hk Hne. unfold f. apply hfun_app1. lia. }
  assert (Ec : f c = j).
  { unfold f. rewrite !hfun_app2 by lia.
    replace (i + length l1) with c by lia. apply hfun_cons. }
  assert (E2 : forall k, c <= k <= r -> k <> c -> f k = hfun (c + 1) l2 k).
  { intros k Hk Hne. unfold f. change (j :: l2 ++ l3) with ([j] ++ (l2 ++ l3)). rewrite app_assoc.
    rewrite hfun_app2; rewrite !app_length; simpl; [|lia].
    rewrite hfun_app1; [f_equal|]; lia. }
  assert (E3 : forall k, r + 1 <= k <= j -> k <> j -> f k = hfun (r + 1) l3 k).
  { intros k Hk Hne. unfold f. change (j :: l2 ++ l3) with ([j] ++ (l2 ++ l3)). rewrite !app_assoc.
    rewrite hfun_app2; rewrite !app_length; simpl; [f_equal|]; lia. }
  split.
  - intros (_ & _ & _ & A & B & C). split; [|split]; split; auto.
    + eapply tree_ext; [|exact A]; auto.
    + eapply tree_ext; [|exact B]; auto.
    + eapply tree_ext; [|exact C]; auto.
  - intros ([_ A] & [_ B] & [_ C]). split; [lia|]. split; [lia|]. split; [auto|].
    split; [|split].
    + eapply tree_ext; [|exact A]; intros; symmetry; auto.
    + eapply tree_ext; [|exact B]; intros; symmetry; auto.
    + eapply tree_ext; [|exact C]; intros; symmetry; auto.
Qed.

(** splitting a list at two known places *)
Lemma split3 (l : list nat) a b : a + b < length l ->
  exists l1 x l2 l3, l = l1 ++ l2 ++ x :: l3 /\ length l1 = a /\ length l2 = b /\
    length l3 = length l - (a + b + 1).
Proof.
  intro H. destruct (skipn b (skipn a l)) as [|x l3] eqn:E.
  - apply (f_equal (@length nat)) in E. rewrite !skipn_length in E. simpl in E. lia.
  - exists (firstn a l), x, (firstn b (skipn a l)), l3.
    rewrite <- E, !firstn_skipn, !firstn_length, skipn_length. repeat split; try lia.
    apply (f_equal (@length nat)) in E. rewrite !skipn_length in E. simpl in E. lia.
Qed.
Lemma split3' (l : list nat) a b : a + b < length l ->
  exists l1 x l2 l3, l = l1 ++ x :: l2 ++ l3 /\ length l1 = a /\ length l2 = b /\
    length l3 = length l - (a + b + 1).
Proof.
  intro H. destruct (skipn a l) as [|x t] eqn:E.
  - apply (f_equal (@length nat)) in E. rewrite !skipn_length in E. simpl in E. lia.
  - exists (firstn a l), x, (firstn b t), (skipn b t).
    pose proof (f_equal (@length nat) E) as L. rewrite skipn_length in L. simpl in L.
    rewrite firstn_skipn, <- E, !firstn_skipn, !firstn_length, skipn_length. repeat split; lia.
Qed.

Lemma is_right_split i j l : i < j -> (is_right i j l <->
  exists c r l1 l2 l3, i <= r < c /\ c <= j /\ is_right i r l1 /\ is_left (r + 1) c l2 /\
    is_right c j l3 /\ l = join_r i l1 l2 l3).
Proof.
  intro Hij. split.
  - intros [L T]. destruct (right_decompose Hij T) as (c & r & D).
    pose proof D as (Hr & Hc & Hf & _).
    destruct (@split3 l (r - i) (c - (r + 1))) as (l1 & x & l2 & l3 & -> & L1 & L2 & L3); [lia|].
    assert (x = i) as ->.
    { rewrite <- Hf. rewrite !hfun_app2 by lia.
      replace (i + 1 + length l1 + length l2) with c by lia. symmetry. apply hfun_cons. }
    apply join_r_dec in D as (A & B & C); auto; try lia.
    exists c, r, l1, l2, l3. repeat split; auto; try apply A; try apply B; try apply C; lia.
  - intros (c & r & l1 & l2 & l3 & Hr & Hc & A & B & C & ->).
    pose proof A as [L1 _]. pose proof B as [L2 _]. pose proof C as [L3 _].
    assert (L : length (join_r i l1 l2 l3) = j - i).
    { unfold join_r. rewrite !app_length. simpl. lia. }
    split; auto. eapply right_compose. apply join_r_dec; eauto.
Qed.

Lemma is_left_split i j l : i < j -> (is_left i j l <->
  exists c r l1 l2 l3, i <= c <= r /\ r < j /\ is_left i c l1 /\ is_right c r l2 /\
    is_left (r + 1) j l3 /\ l = join_l j l1 l2 l3).
Proof.
  intro Hij. split.
  - intros [L T]. destruct (left_decompose Hij T) as (c & r & D).
    pose proof D as (Hr & Hc & Hf & _).
    destruct (@split3' l (c - i) (r - c)) as (l1 & x & l2 & l3 & -> & L1 & L2 & L3); [lia|].
    assert (x = j) as ->.
    { rewrite <- Hf. rewrite !hfun_app2 by lia.
      replace (i + length l1) with c by lia. symmetry. apply hfun_cons. }
    apply join_l_dec in D as (A & B & C); auto; try lia.
    exists c, r, l1, l2, l3. repeat split; auto; try apply A; try apply B; try apply C; lia.
  - intros (c & r & l1 & l2 & l3 & Hr & Hc & A & B & C & ->).
    pose proof A as [L1 _]. pose proof B as [L2 _]. pose proof C as [L3 _].
    assert (L : length (join_l j l1 l2 l3) = j - i).
    { unfold join_l. rewrite !app_length. simpl. rewrite app_length. lia. }
    split; auto. eapply left_compose. apply join_l_dec; eauto.
Qed.

Lemma app_inj_len A (a b c d : list A) : length a = length c -> a ++ b = c ++ d -> a = c /\ b = d.
Proof.
  revert c. induction a as [|x a IH]; intros [|y c] L E; simpl in *; try discriminate; auto.
  injection E as -> E. injection L as L. destruct (IH _ L E) as [-> ->]. auto.
Qed.

Lemma join_r_inj i j c r l1 l2 l3 c' r' l1' l2' l3' : i <= r < c -> c <= j -> i <= r' < c' -> c' <= j ->
  is_right i r l1 -> is_left (r + 1) c l2 -> is_right c j l3 ->
  is_right i r' l1' -> is_left (r' + 1) c' l2' -> is_right c' j l3' ->
  join_r i l1 l2 l3 = join_r i l1' l2' l3' -> c = c' /\ r = r' /\ l1 = l1' /\ l2 = l2' /\ l3 = l3'.
Proof.
  intros Hr Hc Hr' Hc' A B C A' B' C' E.
  assert (D : right_dec (hfun (i + 1) (join_r i l1 l2 l3)) i j c r).
  { apply join_r_dec; auto; try apply A; try apply B; try apply C. }
  assert (D' : right_dec (hfun (i + 1) (join_r i l1 l2 l3)) i j c' r').
  { rewrite E. apply join_r_dec; auto; try apply A'; try apply B'; try apply C'. }
  destruct (right_unique D D') as [<- <-].
  destruct A as [LA _], B as [LB _], A' as [LA' _], B' as [LB' _].
  unfold join_r in E. apply app_inj_len in E as [-> E]; [|lia].
  apply app_inj_len in E as [-> E]; [|lia]. injection E as ->. auto.
Qed.

Lemma join_l_inj i j c r l1 l2 l3 c' r' l1' l2' l3' : i <= c <= r -> r < j -> i <= c' <= r' -> r' < j ->
  is_left i c l1 -> is_right c r l2 -> is_left (r + 1) j l3 ->
  is_left i c' l1' -> is_right c' r' l2' -> is_left (r' + 1) j l3' ->
  join_l j l1 l2 l3 = join_l j l1' l2' l3' -> c = c' /\ r = r' /\ l1 = l1' /\ l2 = l2' /\ l3 = l3'.
Proof.
  intros Hr Hc Hr' Hc' A B C A' B' C' E.
  assert (D : left_dec (hfun i (join_l j l1 l2 l3)) i j c r).
  { apply join_l_dec; auto; try apply A; try apply B; try apply C. }
  assert (D' : left_dec (hfun i (join_l j l1 l2 l3)) i j c' r').
  { rewrite E. apply join_l_dec; auto; try apply A'; try apply B'; try apply C'. }
  destruct (left_unique D D') as [<- <-].
  destruct A as [LA _], B as [LB _], A' as [LA' _], B' as [LB' _].
  unfold join_l in E. apply app_inj_len in E as [-> E]; [|lia]. injection E as E.
  apply app_inj_len in E as [-> ->]; [|lia]. auto.
Qed.

(** ** Enumeration of the head lists *)
Fixpoint rights (fuel i j : nat) {struct fuel} : list (list nat) :=
  match fuel with
  | 0 => []
  | S f =>
      if i =? j then [[]] else
      flat_map (fun m => flat_map (fun x =>
        flat_map (fun l1 => flat_map (fun l2 => map (fun l3 => join_r i l1 l2 l3)
          (rights f (i + m + 1) j)) (lefts f (i + x + 1) (i + m + 1))) (rights f i (i + x)))
        (seq 0 (m + 1))) (seq 0 (j - i))
  end
with lefts (fuel i j : nat) {struct fuel} : list (list nat) :=
  match fuel with
  | 0 => []
  | S f =>
      if i =? j then [[]] else
      flat_map (fun m => flat_map (fun x =>
        flat_map (fun l1 => flat_map (fun l2 => map (fun l3 => join_l j l1 l2 l3)
          (lefts f (i + m + x + 1) j)) (rights f (i + m) (i + m + x))) (lefts f i (i + m)))
        (seq 0 (j - i - m))) (seq 0 (j - i))
  end.

Lemma enum_nil (P : list nat -> Prop) : P [] -> (forall l, P l -> length l = 0) -> Enumerates P [[]].
Proof.
  intros H1 H2. split; [repeat constructor; intros []|]. intro l. split.
  - intros [<-|[]]. auto.
  - intro H. apply H2 in H. destruct l; [left; auto|discriminate].
Qed.

Lemma spans_enum fuel : forall i j, i <= j -> j - i < fuel ->
  Enumerates (is_right i j) (rights fuel i j) /\ Enumerates (is_left i j) (lefts fuel i j).
Proof.
  induction fuel as [|f IH]; intros i j Hij Hf; [lia|].
  cbn [rights lefts]. destruct (Nat.eqb_spec i j) as [->|Hne].
  { split; apply enum_nil.
    - apply is_right_nil.
    - intros l [L _]. lia.
    - apply is_left_nil.
    - intros l [L _]. lia. }
  split.
  - split.
    + apply NoDup_flat_map; [apply seq_NoDup| |].
      * intros m Hm. apply in_seq in Hm. apply NoDup_flat_map; [apply seq_NoDup| |].
        -- intros x Hx. apply in_seq in Hx.
           apply NoDup_flat_map; [apply IH; lia| |].
           ++ intros l1 H1. apply IH in H1; [|lia|lia].
              apply NoDup_flat_map; [apply IH; lia| |].
              ** intros l2 H2. apply IH in H2; [|lia|lia].
                 apply NoDup_map_inj; [|apply IH; lia].
                 intros l3 l3' _ _ E. unfold join_r in E. do 2 apply app_inv_head in E. congruence.
              ** intros l2 l2' l H2 H2' G1 G2. apply in_map_iff in G1 as (l3 & <- & H3).
                 apply in_map_iff in G2 as (l3' & E & H3'). apply IH in H2, H2', H3, H3'; try lia.
                 symmetry in E.
                 eapply (@join_r_inj i j (i + m + 1) (i + x) _ _ _ (i + m + 1) (i + x)) in E; eauto; try lia. tauto.
           ++ intros l1 l1' l H1 H1' G1 G2.
              apply in_flat_map in G1 as (l2 & H2 & G1). apply in_flat_map in G2 as (l2' & H2' & G2).
              apply in_map_iff in G1 as (l3 & <- & H3). apply in_map_iff in G2 as (l3' & E & H3').
              apply IH in H1, H1', H2, H2', H3, H3'; try lia. symmetry in E.
              eapply (@join_r_inj i j (i + m + 1) (i + x) _ _ _ (i + m + 1) (i + x)) in E; eauto; try lia. tauto.
        -- intros x x' l Hx Hx' G1 G2. apply in_seq in Hx, Hx'.
           apply in_flat_map in G1 as (l1 & H1 & G1). apply in_flat_map in G2 as (l1' & H1' & G2).
           apply in_flat_map in G1 as (l2 & H2 & G1). apply in_flat_map in G2 as (l2' & H2' & G2).
           apply in_map_iff in G1 as (l3 & <- & H3). apply in_map_iff in G2 as (l3' & E & H3').
           apply IH in H1, H1', H2, H2', H3, H3'; try lia. symmetry in E.
           eapply (@join_r_inj i j (i + m + 1) (i + x) _ _ _ (i + m + 1) (i + x')) in E; eauto; try lia.
      * intros m m' l Hm Hm' G1 G2. apply in_seq in Hm, Hm'.
        apply in_flat_map in G1 as (x & Hx & G1). apply in_flat_map in G2 as (x' & Hx' & G2).
        apply in_seq in Hx, Hx'.
        apply in_flat_map in G1 as (l1 & H1 & G1). apply in_flat_map in G2 as (l1' & H1' & G2).
        apply in_flat_map in G1 as (l2 & H2 & G1). apply in_flat_map in G2 as (l2' & H2' & G2).
        apply in_map_iff in G1 as (l3 & <- & H3). apply in_map_iff in G2 as (l3' & E & H3').
        apply IH in H1, H1', H2, H2', H3, H3'; try lia. symmetry in E.
        eapply (@join_r_inj i j (i + m + 1) (i + x) _ _ _ (i + m' + 1) (i + x')) in E; eauto; try lia.
    + intro l. rewrite is_right_split by lia. split.
      * intro G. apply in_flat_map in G as (m & Hm & G). apply in_flat_map in G as (x & Hx & G).
        apply in_seq in Hx, Hm. apply in_flat_map in G as (l1 & H1 & G).
        apply in_flat_map in G as (l2 & H2 & G). apply in_map_iff in G as (l3 & <- & H3).
        apply IH in H1, H2, H3; try lia.
        exists (i + m + 1), (i + x), l1, l2, l3. split; [lia|]. split; [lia|]. auto.
      * intros (c & r & l1 & l2 & l3 & Hr & Hc & A & B & C & ->).
        apply in_flat_map. exists (c - i - 1). split; [apply in_seq; lia|].
        apply in_flat_map. exists (r - i). split; [apply in_seq; lia|].
        replace (i + (r - i)) with r by lia. replace (i + (c - i - 1) + 1) with c by lia.
        apply in_flat_map. exists l1. split; [apply IH; auto; lia|].
        apply in_flat_map. exists l2. split; [apply IH; auto; lia|].
        apply in_map_iff. exists l3. split; [reflexivity|apply IH; auto; lia].
  - split.
    + apply NoDup_flat_map; [apply seq_NoDup| |].
      * intros m Hm. apply in_seq in Hm. apply NoDup_flat_map; [apply seq_NoDup| |].
        -- intros x Hx. apply in_seq in Hx.
           apply NoDup_flat_map; [apply IH; lia| |].
           ++ intros l1 H1. apply IH in H1; [|lia|lia].
              apply NoDup_flat_map; [apply IH; lia| |].
              ** intros l2 H2. apply IH in H2; [|lia|lia].
                 apply NoDup_map_inj; [|apply IH; lia].
                 intros l3 l3' _ _ E. unfold join_l in E. apply app_inv_head in E. injection E as E.
                 apply app_inv_head in E. auto.
              ** intros l2 l2' l H2 H2' G1 G2. apply in_map_iff in G1 as (l3 & <- & H3).
                 apply in_map_iff in G2 as (l3' & E & H3'). apply IH in H2, H2', H3, H3'; try lia.
                 symmetry in E.
                 eapply (@join_l_inj i j (i + m) (i + m + x) _ _ _ (i + m) (i + m + x)) in E; eauto; try lia. tauto.
           ++ intros l1 l1' l H1 H1' G1 G2.
              apply in_flat_map in G1 as (l2 & H2 & G1). apply in_flat_map in G2 as (l2' & H2' & G2).
              apply in_map_iff in G1 as (l3 & <- & H3). apply in_map_iff in G2 as (l3' & E & H3').
              apply IH in H1, H1', H2, H2', H3, H3'; try lia. symmetry in E.
              eapply (@join_l_inj i j (i + m) (i + m + x) _ _ _ (i + m) (i + m + x)) in E; eauto; try lia. tauto.
        -- intros x x' l Hx Hx' G1 G2. apply in_seq in Hx, Hx'.
           apply in_flat_map in G1 as (l1 & H1 & G1). apply in_flat_map in G2 as (l1' & H1' & G2).
           apply in_flat_map in G1 as (l2 & H2 & G1). apply in_flat_map in G2 as (l2' & H2' & G2).
           apply in_map_iff in G1 as (l3 & <- & H3). apply in_map_iff in G2 as (l3' & E & H3').
           apply IH in H1, H1', H2, H2', H3, H3'; try lia. symmetry in E.
           eapply (@join_l_inj i j (i + m) (i + m + x) _ _ _ (i + m) (i + m + x')) in E; eauto; try lia.
      * intros m m' l Hm Hm' G1 G2. apply in_seq in Hm, Hm'.
        apply in_flat_map in G1 as (x & Hx & G1). apply in_flat_map in G2 as (x' & Hx' & G2).
        apply in_seq in Hx, Hx'.
        apply in_flat_map in G1 as (l1 & H1 & G1). apply in_flat_map in G2 as (l1' & H1' & G2).
        apply in_flat_map in G1 as (l2 & H2 & G1). apply in_flat_map in G2 as (l2' & H2' & G2).
        apply in_map_iff in G1 as (l3 & <- & H3). apply in_map_iff in G2 as (l3' & E & H3').
        apply IH in H1, H1', H2, H2', H3, H3'; try lia. symmetry in E.
        eapply (@join_l_inj i j (i + m) (i + m + x) _ _ _ (i + m') (i + m' + x')) in E; eauto; try lia.
    + intro l. rewrite is_left_split by lia. split.
      * intro G. apply in_flat_map in G as (m & Hm & G). apply in_flat_map in G as (x & Hx & G).
        apply in_seq in Hx, Hm. apply in_flat_map in G as (l1 & H1 & G).
        apply in_flat_map in G as (l2 & H2 & G). apply in_map_iff in G as (l3 & <- & H3).
        apply IH in H1, H2, H3; try lia.
        exists (i + m), (i + m + x), l1, l2, l3. split; [lia|]. split; [lia|]. auto.
      * intros (c & r & l1 & l2 & l3 & Hr & Hc & A & B & C & ->).
        apply in_flat_map. exists (c - i). split; [apply in_seq; lia|].
        apply in_flat_map. exists (r - c). split; [apply in_seq; lia|].
        replace (i + (c - i)) with c by lia. replace (c + (r - c)) with r by lia.
        apply in_flat_map. exists l1. split; [apply IH; auto; lia|].
        apply in_flat_map. exists l2. split; [apply IH; auto; lia|].
        apply in_map_iff. exists l3. split; [reflexivity|apply IH; auto; lia].
Qed.

(** ** Relation to the user-level head vectors *)
Lemma iter_fix f t : f 0 = 0 -> Nat.iter t f 0 = 0.
Proof. intro H. induction t; simpl; congruence. Qed.
Lemma iter_shift A (f : A -> A) t x : Nat.iter (S t) f x = Nat.iter t f (f x).
Proof. induction t; simpl in *; congruence. Qed.

Lemma anc_rch h k q : anc h k q -> q = 0 \/ rch (hd_of h) 0 k q.
Proof.
  intros (t & H). revert k H. induction t as [|t IH]; intros k H.
  - simpl in H. subst. right. constructor.
  - rewrite iter_shift in H. destruct (Nat.eq_dec k 0) as [->|Hk].
    + simpl in H. rewrite (iter_fix (hd_of h)) in H by reflexivity. auto.
    + destruct (IH _ H); [auto|]. right. constructor; auto.
Qed.
Lemma rch_anc h k q : rch (hd_of h) 0 k q -> anc h k q.
Proof.
  induction 1 as [k|k q Hk H (t & IH)].
  - exists 0. reflexivity.
  - exists (S t). rewrite iter_shift. auto.
Qed.
Lemma anc_rch0 h k : anc h k 0 -> rch (hd_of h) 0 k 0.
Proof.
  intros (t & H). revert k H. induction t as [|t IH]; intros k H.
  - simpl in H. subst. constructor.
  - destruct (Nat.eq_dec k 0) as [->|Hk]; [constructor|].
    rewrite iter_shift in H. constructor; auto.
Qed.

Lemma hfun_hd h k : k <> 0 -> hfun 1 h k = hd_of h k.
Proof. intro H. destruct k; [lia|]. unfold hfun, hd_of. f_equal. lia. Qed.

Theorem is_right_proj n h : is_right 0 n h <-> is_proj n h.
Proof.
  unfold is_right, is_proj. simpl Nat.add. rewrite Nat.sub_0_r.
  split; intros [L H]; (split; [exact L|]).
  - assert (T : tree (hd_of h) 0 0 n).
    { eapply tree_ext; [|exact H]. intros. apply hfun_hd; auto. }
    destruct T as (_ & H1 & H2). split.
    + intros k Hk. destruct (H1 k) as [G1 G2]; [lia|lia|]. split; [lia|apply rch_anc; auto].
    + intros k m Hk Hb. apply rch_anc. apply H2; auto; lia.
  - destruct H as [H1 H2].
    apply (@tree_ext (hd_of h)). { intros. symmetry. apply hfun_hd; auto. }
    split; [lia|]. split.
    + intros k Hk Hne. destruct (H1 k) as [G1 G2]; [lia|]. split; [lia|apply anc_rch0; auto].
    + intros k m Hk Hne Hb. destruct (H1 k) as [G1 _]; [lia|].
      assert (G : anc h m (hd_of h k)) by (apply H2; auto; lia).
      destruct (@anc_rch h m (hd_of h k)) as [E|E]; auto.
      rewrite E. apply anc_rch0. apply H1. unfold between in Hb. lia.
Qed.

(** *** Single-root trees *)
Definition singles (n : nat) : list (list nat) :=
  flat_map (fun m => flat_map (fun l2 => map (fun l3 => join_r 0 [] l2 l3)
     (rights (S n) (m + 1) n)) (lefts (S n) 1 (m + 1))) (seq 0 n).

Lemma count0_hfun s l k : (forall x, In x l -> x <> 0) -> count_occ Nat.eq_dec l 0 = 0 /\
  (s <= k < s + length l -> hfun s l k <> 0).
Proof.
  intro H. split.
  - apply count_occ_not_In. intro G. apply (H 0); auto.
  - intro Hk. apply H. apply nth_In. lia.
Qed.
Lemma in_hfun s l x : In x l -> exists k, s <= k < s + length l /\ hfun s l k = x.
Proof.
  intro H. apply In_nth with (d := 0) in H as (t & Ht & E). exists (s + t). split; [lia|].
  unfold hfun. replace (s + t - s) with t by lia. auto.
Qed.

Lemma is_left_nonroot i j l : 1 <= i -> is_left i j l -> count_occ Nat.eq_dec l 0 = 0.
Proof.
  intros Hi [L (_ & H & _)]. apply count_occ_not_In. intro G.
  apply (@in_hfun i) in G as (k & Hk & E). destruct (H k); lia.
Qed.
Lemma is_right_nonroot i j l : 1 <= i -> is_right i j l -> count_occ Nat.eq_dec l 0 = 0.
Proof.
  intros Hi [L (_ & H & _)]. apply count_occ_not_In. intro G.
  apply (@in_hfun (i + 1)) in G as (k & Hk & E). destruct (H k); lia.
Qed.

Theorem singles_enum n : 1 <= n -> Enumerates (fun h => is_proj n h /\ single_root h) (singles n).
Proof.
  intro Hn. unfold singles. split.
  - apply NoDup_flat_map; [apply seq_NoDup| |].
    + intros m Hm. apply in_seq in Hm.
      apply NoDup_flat_map; [apply spans_enum; lia| |].
      * intros l2 H2. apply NoDup_map_inj; [|apply spans_enum; lia].
        intros l3 l3' _ _ E. unfold join_r in E. do 2 apply app_inv_head in E. congruence.
      * intros l2 l2' l H2 H2' G1 G2. apply in_map_iff in G1 as (l3 & <- & H3).
        apply in_map_iff in G2 as (l3' & E & H3').
        apply spans_enum in H2, H2', H3, H3'; try lia. symmetry in E.
        eapply (@join_r_inj 0 n (m + 1) 0 _ _ _ (m + 1) 0) in E; eauto; try lia; try apply is_right_nil. tauto.
    + intros m m' l Hm Hm' G1 G2. apply in_seq in Hm, Hm'.
      apply in_flat_map in G1 as (l2 & H2 & G1). apply in_flat_map in G2 as (l2' & H2' & G2).
      apply in_map_iff in G1 as (l3 & <- & H3). apply in_map_iff in G2 as (l3' & E & H3').
      apply spans_enum in H2, H2', H3, H3'; try lia. symmetry in E.
      eapply (@join_r_inj 0 n (m + 1) 0 _ _ _ (m' + 1) 0) in E; eauto; try lia; apply is_right_nil.
  - intro h. rewrite <- is_right_proj, is_right_split by lia. split.
    + intro G. apply in_flat_map in G as (m & Hm & G). apply in_seq in Hm.
      apply in_flat_map in G as (l2 & H2 & G). apply in_map_iff in G as (l3 & <- & H3).
      apply spans_enum in H2, H3; try lia. split.
      * exists (m + 1), 0, [], l2, l3. split; [lia|]. split; [lia|]. split; [apply is_right_nil|]. auto.
      * unfold single_root, join_r. simpl app. rewrite count_occ_app, count_occ_cons_eq by reflexivity.
        rewrite (@is_left_nonroot 1 (m + 1)), (@is_right_nonroot (m + 1) n); auto; lia.
    + intros [(c & r & l1 & l2 & l3 & Hr & Hc & A & B & C & ->) Hs].
      assert (r = 0) as ->.
      { destruct (Nat.eq_dec r 0); auto. exfalso.
        assert (Hin : In 0 l1).
        { destruct A as [L1 T1]. destruct (@child_exists _ _ _ _ r T1) as (k & Hk & Hne & E); try lia.
          rewrite <- E. apply nth_In. lia. }
        apply (count_occ_In Nat.eq_dec) in Hin. revert Hs. unfold single_root, join_r.
        rewrite !count_occ_app, count_occ_cons_eq by reflexivity. lia. }
      assert (l1 = []) as -> by (destruct A as [L1 _]; destruct l1; [auto|discriminate]).
      apply in_flat_map. exists (c - 1). split; [apply in_seq; lia|].
      replace (c - 1 + 1) with c by lia.
      apply in_flat_map. exists l2. split; [apply spans_enum; auto; lia|].
      apply in_map_iff. exists l3. split; [reflexivity|apply spans_enum; auto; lia].
Qed.

Theorem projs_enum n : Enumerates (is_proj n) (rights (S n) 0 n).
Proof.
  eapply Enumerates_ext; [|apply spans_enum; lia]. intro h. apply is_right_proj.
Qed.
