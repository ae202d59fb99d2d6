(** * SymMaps: the correspondences behind the symmetries of the five classes. *)
From Verif Require Import Base Ops Semirings LinearChain SemiMarkov CkyCrf Cky DepSpec DepTree Family Api Sym.
Set Implicit Arguments.

Lemma perm_eq A (l l' : list A) : l = l' -> Permutation l l'.
Proof. intros ->. apply Permutation_refl. Qed.
(** [pi] and [qi] are inverse permutations of the numbers below C *)
Definition perm_of (C : nat) (pi qi : nat -> nat) : Prop :=
  forall c, c < C -> pi c < C /\ qi c < C /\ qi (pi c) = c /\ pi (qi c) = c.
Lemma perm_sym C pi qi : perm_of C pi qi -> perm_of C qi pi.
Proof. intros H c Hc. destruct (H c Hc) as (? & ? & ? & ?). auto. Qed.

(** ** Renaming of parts.

    These are specifications, not models of code: each acts on the indices of one
    class's [log_potentials] (distributions.py:263 LinearChainCRF, 351 SemiMarkovCRF,
    411 TreeCRF, 433-436 SentCFG with 0 = terms, 1 = rules, 2 = roots in front,
    378 DependencyCRF), the batch index first. *)
Definition lin_lab (pi : nat -> nat) (e : list nat) : list nat :=
  match e with [b; n; x; y] => [b; n; pi x; pi y] | _ => e end.
(** spec: parts of the reversed sequence *)
Definition lin_rev (len : nat) (e : list nat) : list nat :=
  match e with [b; n; x; y] => [b; len - 2 - n; y; x] | _ => e end.
(** spec: parts of the relabelled segmentation *)
Definition semi_lab (pi : nat -> nat) (e : list nat) : list nat :=
  match e with [b; n; w; x; y] => [b; n; w; pi x; pi y] | _ => e end.
(** spec: parts of the reversed segmentation *)
Definition semi_rev (len : nat) (e : list nat) : list nat :=
  match e with [b; n; w; x; y] => [b; len - 1 - n - w; w; y; x] | _ => e end.
(** spec: an edge of a chain as a segment of width 1 *)
Definition lin_semi (e : list nat) : list nat :=
  match e with [b; n; x; y] => [b; n; 1; x; y] | _ => e end.
(** spec: parts of the relabelled tree *)
Definition tree_lab (pi : nat -> nat) (e : list nat) : list nat :=
  match e with [b; i; j; a] => [b; i; j; pi a] | _ => e end.
(** spec: parts of the mirrored tree *)
Definition tree_rev (n : nat) (e : list nat) : list nat :=
  match e with [b; i; j; a] => [b; n - 1 - j; n - 1 - i; a] | _ => e end.
(** spec: renaming of nonterminals and terminals in one numbering *)
Definition sym_ext (NT : nat) (pi rho : nat -> nat) (y : nat) : nat := if y <? NT then pi y else NT + rho (y - NT).
(** spec: parts of the relabelled parse *)
Definition cfg_lab (NT : nat) (pi rho : nat -> nat) (e : list nat) : list nat :=
  match e with
  | [0; b; i; t] => [0; b; i; rho t]
  | [1; b; x; y; z] => [1; b; pi x; sym_ext NT pi rho y; sym_ext NT pi rho z]
  | [2; b; x] => [2; b; pi x]
  | _ => e
  end.
(** spec: parts of the mirrored parse *)
Definition cfg_rev (n : nat) (e : list nat) : list nat :=
  match e with
  | [0; b; i; t] => [0; b; n - 1 - i; t]
  | [1; b; x; y; z] => [1; b; x; z; y]
  | _ => e
  end.
(** spec: parts of the relabelled dependency tree *)
Definition dep_lab (pi : nat -> nat) (e : list nat) : list nat :=
  match e with [b; i; j; l] => [b; i; j; pi l] | _ => e end.
(** spec: parts of the mirrored dependency tree *)
Definition dep_rev (n : nat) (e : list nat) : list nat :=
  match e with b :: i :: j :: lab => b :: n - 1 - i :: n - 1 - j :: lab | _ => e end.
(** spec: an unlabelled arc as an arc with label 0 *)
Definition dep_one (e : list nat) : list nat := e ++ [0].

(** ** Linear chains *)
Lemma map_cancel (f g : nat -> nat) (P : nat -> Prop) l : (forall x, P x -> g (f x) = x) -> Forall P l -> map g (map f l) = l.
Proof. intros H F. rewrite map_map. rewrite <- (map_id l) at 2. apply map_ext_in. intros x Hx. apply H. rewrite Forall_forall in F. auto. Qed.
Lemma Forall_map_ (f : nat -> nat) (P Q : nat -> Prop) l : (forall x, P x -> Q (f x)) -> Forall P l -> Forall Q (map f l).
Proof. intros H F. apply Forall_map. eapply Forall_impl; [|exact F]. exact H. Qed.
Lemma lin_lab_iso C pi qi len b : perm_of C pi qi ->
  iso (Spec (is_seq C len) (seq_parts b)) (Spec (is_seq C len) (seq_parts b)) (map pi) (map qi) (lin_lab pi).
Proof.
  intro H. split; cbn [ok prt st].
  - intros y [L F]. split; [now rewrite map_length|]. eapply Forall_map_; [|exact F]. intros x Hx. now apply H.
  - intros y [L F]. split; [now rewrite map_length|]. eapply Forall_map_; [|exact F]. intros x Hx. now apply H.
  - intros y [L F]. eapply map_cancel; [|exact F]. intros x Hx. now apply H.
  - intros y [L F]. eapply map_cancel; [|exact F]. intros x Hx. now apply H.
  - intros y [L F]. unfold seq_parts. rewrite map_map, map_length. apply perm_eq. apply map_ext_in. intros n Hn. apply in_seq in Hn.
    cbn [lin_lab]. rewrite (nth_indep (map pi y) 0 (pi 0)), map_nth by (rewrite map_length; lia).
    rewrite (nth_indep (map pi y) 0 (pi 0)), map_nth by (rewrite map_length; lia). reflexivity.
Qed.
Lemma seq_rev n : rev (seq 0 n) = map (fun k => n - 1 - k) (seq 0 n).
Proof.
  apply nth_ext with (d := 0) (d' := 0); [now rewrite rev_length, map_length|]. intros k Hk. rewrite rev_length, seq_length in Hk.
  rewrite rev_nth by (rewrite seq_length; lia). rewrite seq_length, seq_nth by lia. rewrite nth_map_seq by lia. lia.
Qed.
Lemma lin_rev_iso C len b :
  iso (Spec (is_seq C len) (seq_parts b)) (Spec (is_seq C len) (seq_parts b)) (@rev nat) (@rev nat) (lin_rev len).
Proof.
  assert (G : forall y, is_seq C len y -> is_seq C len (rev y)) by (intros y [L F]; split; [now rewrite rev_length|now apply Forall_rev]).
  split; cbn [ok prt st]; [exact G|exact G|intros; apply rev_involutive|intros; apply rev_involutive|].
  intros y [L F]. unfold seq_parts. rewrite map_map, rev_length, L.
  etransitivity; [apply Permutation_rev|]. rewrite <- map_rev, seq_rev, map_map. apply perm_eq. apply map_ext_in. intros n Hn. apply in_seq in Hn.
  cbn [lin_rev]. rewrite !rev_nth by lia. rewrite L. do 2 f_equal; [lia|]. f_equal; [f_equal; lia|]. do 2 f_equal. lia.
Qed.

(** ** Segmentations *)
Definition seg_map (pi : nat -> nat) (s : nat * nat) : nat * nat := (fst s, pi (snd s)).
(** spec: a relabelled segmentation *)
Definition segm_map (pi : nat -> nat) (y : segm) : segm := (pi (fst y), map (seg_map pi) (snd y)).
Lemma widths_cons w c l : widths ((w, c) :: l) = w + widths l.
Proof. reflexivity. Qed.
Lemma widths_map pi l : widths (map (seg_map pi) l) = widths l.
Proof. induction l as [|[w c] l IH]; [reflexivity|]. change (w + widths (map (seg_map pi) l) = w + widths l). now rewrite IH. Qed.
Lemma segm_map_ok K C pi qi len y : perm_of C pi qi -> is_segm K C len y -> is_segm K C len (segm_map pi y) /\ segm_map qi (segm_map pi y) = y.
Proof.
  intros H (H1 & H2 & H3). destruct y as [c0 l]. cbn [fst snd segm_map] in *. split.
  - unfold is_segm, segm_map. cbn [fst snd]. split; [now apply H|]. split; [|now rewrite widths_map]. apply Forall_map. eapply Forall_impl; [|exact H2]. intros [w c] [A B]. split; [exact A|now apply H].
  - unfold segm_map. cbn [fst snd]. f_equal; [now apply H|]. rewrite map_map. rewrite <- (map_id l) at 2. apply map_ext_in. intros [w c] Hs.
    rewrite Forall_forall in H2. destruct (H2 _ Hs) as [_ B]. unfold seg_map. cbn [fst snd] in *. f_equal. now apply H.
Qed.
Lemma semi_lab_iso K C pi qi len b : perm_of C pi qi ->
  iso (Spec (is_segm K C len) (segm_parts b)) (Spec (is_segm K C len) (segm_parts b)) (segm_map pi) (segm_map qi) (semi_lab pi).
Proof.
  intro H. pose proof (perm_sym H) as H'. split; cbn [ok prt st].
  - intros y Hy. now apply (segm_map_ok H).
  - intros y Hy. now apply (segm_map_ok H').
  - intros y Hy. now apply (segm_map_ok H Hy).
  - intros y Hy. now apply (segm_map_ok H' Hy).
  - intros [c0 l] _. unfold segm_parts, segm_map. cbn [fst snd]. apply perm_eq. generalize 0 as n. revert c0.
    induction l as [|[w c] l IH]; intros c0 n; [reflexivity|]. cbn [map segs_parts]. change (seg_map pi (w, c)) with (w, pi c). cbn [segs_parts semi_lab]. f_equal. apply IH.
Qed.
(** proof device: reversal of segments with an accumulator *)
Fixpoint srev_aux (acc : list (nat * nat)) (c : nat) (l : list (nat * nat)) : segm :=
  match l with [] => (c, acc) | (w, c') :: l' => srev_aux ((w, c) :: acc) c' l' end.
(** the segmentation read from the right *)
Definition srev (y : segm) : segm := srev_aux [] (fst y) (snd y).
Lemma srev_twice l : forall acc c acc0, srev_aux acc0 (fst (srev_aux acc c l)) (snd (srev_aux acc c l)) = srev_aux (l ++ acc0) c acc.
Proof. induction l as [|[w c'] l IH]; intros acc c acc0; [reflexivity|]. cbn [srev_aux app]. rewrite IH. reflexivity. Qed.
Lemma srev_ok K C len y : is_segm K C len y -> is_segm K C len (srev y).
Proof.
  destruct y as [c0 l]. intros (H1 & H2 & H3). unfold srev. cbn [fst snd] in *.
  assert (G : forall l acc c, c < C -> Forall (seg_ok K C) l -> Forall (seg_ok K C) acc -> fst (srev_aux acc c l) < C /\ Forall (seg_ok K C) (snd (srev_aux acc c l)) /\
    widths (snd (srev_aux acc c l)) = widths acc + widths l).
  { clear. induction l as [|[w c'] l IH]; intros acc c Hc Hl Ha; cbn [srev_aux]; [cbn [fst snd]; repeat split; auto; unfold widths; simpl; lia|].
    inversion_clear Hl as [|? ? [A B] Hl']. cbn [fst snd] in *. destruct (IH ((w, c) :: acc) c' B Hl') as (G1 & G2 & G3); [constructor; [split; auto|auto]|].
    split; [exact G1|]. split; [exact G2|]. rewrite G3, !widths_cons. lia. }
  destruct (G l [] c0 H1 H2 (Forall_nil _)) as (G1 & G2 & G3). split; [exact G1|]. split; [exact G2|]. rewrite G3. exact H3.
Qed.
Lemma srev_parts b m l : forall acc c n, n + widths l = m ->
  Permutation (map (semi_rev (m + 1)) (segs_parts b n c l) ++ segs_parts b (m - n) c acc)
    (segs_parts b 0 (fst (srev_aux acc c l)) (snd (srev_aux acc c l))).
Proof.
  induction l as [|[w c'] l IH]; intros acc c n Hm; cbn [srev_aux segs_parts map app fst snd].
  - change (widths []) with 0 in Hm. replace (m - n) with 0 by lia. apply Permutation_refl.
  - rewrite widths_cons in Hm. cbn [semi_rev]. etransitivity; [|apply (IH ((w, c) :: acc) c' (n + w)); lia].
    cbn [segs_parts]. replace (m - (n + w) + w) with (m - n) by lia. replace (m + 1 - 1 - n - w) with (m - (n + w)) by lia. apply Permutation_middle.
Qed.
Lemma semi_rev_iso K C len b : 1 <= len ->
  iso (Spec (is_segm K C len) (segm_parts b)) (Spec (is_segm K C len) (segm_parts b)) srev srev (semi_rev len).
Proof.
  intro Hlen. assert (G : forall y, srev (srev y) = y) by (intros [c0 l]; unfold srev; cbn [fst snd]; rewrite srev_twice, app_nil_r; reflexivity).
  split; cbn [ok prt st]; [apply srev_ok|apply srev_ok|intros; apply G|intros; apply G|].
  intros [c0 l] (H1 & H2 & H3). unfold segm_parts, srev. cbn [fst snd] in *.
  pose proof (@srev_parts b (len - 1) l [] c0 0) as P. replace (len - 1 + 1) with len in P by lia. cbn [segs_parts] in P. rewrite app_nil_r in P. apply P. exact H3.
Qed.
(** width one only: a linear chain *)
Definition to_segm (y : list nat) : segm := (hd 0 y, map (fun c => (1, c)) (tl y)).
(** spec: the labels of a segmentation *)
Definition of_segm (y : segm) : list nat := fst y :: map snd (snd y).
Lemma lin_semi_iso C len b : 1 <= len ->
  iso (Spec (is_seq C len) (seq_parts b)) (Spec (is_segm 2 C len) (segm_parts b)) to_segm of_segm lin_semi.
Proof.
  intro Hlen. assert (W : forall l, widths (map (fun c => (1, c)) l) = length l) by (induction l as [|x l IH]; [reflexivity|]; cbn [map]; rewrite widths_cons, IH; reflexivity).
  assert (W' : forall l, Forall (seg_ok 2 C) l -> map (fun c => (1, c)) (map snd l) = l).
  { induction l as [|[w c] l IH]; intro H; [reflexivity|]. inversion_clear H as [|? ? [A B] Hl]. cbn [map snd fst] in *. rewrite IH by auto. repeat f_equal. lia. }
  split; cbn [ok prt st].
  - intros y [L F]. destruct y as [|c0 y]; [cbn in L; lia|]. inversion_clear F. unfold is_segm, to_segm. cbn [fst snd hd tl]. split; [assumption|]. split.
    + apply Forall_map. eapply Forall_impl; [|eassumption]. intros c Hc. split; [cbn; lia|exact Hc].
    + cbn [snd]. rewrite W. cbn [length] in L. lia.
  - intros [c0 l] (H1 & H2 & H3). unfold of_segm. cbn [fst snd] in *. rewrite <- (W' l H2), W, map_length in H3. split.
    + cbn [length]. rewrite map_length. lia.
    + constructor; [exact H1|]. apply Forall_map. eapply Forall_impl; [|exact H2]. intros s [_ B]. exact B.
  - intros y [L F]. destruct y as [|c0 y]; [cbn in L; lia|]. unfold of_segm, to_segm. cbn [fst snd hd tl]. f_equal. rewrite map_map. apply map_id.
  - intros [c0 l] (H1 & H2 & H3). unfold of_segm, to_segm. cbn [fst snd hd tl] in *. now rewrite W'.
  - intros y [L F]. destruct y as [|c0 y]; [cbn in L; lia|]. unfold to_segm, segm_parts. cbn [fst snd hd tl]. apply perm_eq. unfold seq_parts.
    cbn [length]. replace (S (length y) - 1) with (length y) by lia. rewrite map_map.
    assert (G : forall y c0 n, segs_parts b n c0 (map (fun c => (1, c)) y) = map (fun k => [b; n + k; 1; nth (k + 1) (c0 :: y) 0; nth k (c0 :: y) 0]) (seq 0 (length y))).
    { clear. induction y as [|c y IH]; intros c0 n; [reflexivity|]. cbn [map segs_parts length seq]. f_equal; [rewrite Nat.add_0_r; reflexivity|].
      rewrite IH, <- seq_shift, map_map. apply map_ext. intro k. cbn [nth Nat.add]. replace (n + 1 + k) with (n + S k) by lia. reflexivity. }
    rewrite G. apply map_ext. intro k. reflexivity.
Qed.
(** widths that do not fit *)
Lemma semi_wide_iso K K' C len b : len <= K -> len <= K' ->
  iso (Spec (is_segm K C len) (segm_parts b)) (Spec (is_segm K' C len) (segm_parts b)) (fun y => y) (fun y => y) (fun e => e).
Proof.
  intros HK HK'.
  assert (G : forall A B y, len <= A -> len <= B -> is_segm A C len y -> is_segm B C len y).
  { intros A B [c0 l] HA HB (H1 & H2 & H3). cbn [fst snd] in *. split; [exact H1|]. split; [|exact H3]. rewrite Forall_forall in *. intros [w c] Hs. destruct (H2 _ Hs) as [Q1 Q2].
    split; [|exact Q2]. cbn [fst snd] in *. split; [lia|]. assert (w <= widths l).
    { clear - Hs. induction l as [|[w' c'] l IH]; [destruct Hs|]. rewrite widths_cons. destruct Hs as [E|Hs]; [injection E as -> _; lia|specialize (IH Hs); lia]. }
    assert (1 <= len - 1) by lia. lia. }
  split; cbn [ok prt st]; auto; [intros; eapply G; [| |eassumption]; auto|intros; eapply G; [| |eassumption]; auto|].
  intros y _. now rewrite map_id.
Qed.

(** ** Labelled trees *)
Fixpoint lmap (pi : nat -> nat) (t : ltree) : ltree :=
  match t with LLeaf a => LLeaf (pi a) | LNode a l r => LNode (pi a) (lmap pi l) (lmap pi r) end.
Lemma lmap_size pi t : lsize (lmap pi t) = lsize t.
Proof. induction t as [a|a l IHl r IHr]; simpl; auto. Qed.
Lemma lmap_ok NT pi qi t : perm_of NT pi qi -> lbounded NT t -> lbounded NT (lmap pi t) /\ lmap qi (lmap pi t) = t.
Proof.
  intro H. induction t as [a|a l IHl r IHr]; simpl.
  - intro Ha. split; [now apply H|f_equal; now apply H].
  - intros (Ha & Hl & Hr). destruct (IHl Hl) as [L1 L2], (IHr Hr) as [R1 R2]. repeat split; auto; [now apply H|]. rewrite L2, R2. f_equal. now apply H.
Qed.
Lemma tree_lab_iso NT pi qi n b : perm_of NT pi qi ->
  iso (Spec (is_ltree NT n) (lparts b 0)) (Spec (is_ltree NT n) (lparts b 0)) (lmap pi) (lmap qi) (tree_lab pi).
Proof.
  intro H. pose proof (perm_sym H) as H'. split; cbn [ok prt st].
  - intros t [L B]. split; [now rewrite lmap_size|now apply (lmap_ok t H)].
  - intros t [L B]. split; [now rewrite lmap_size|now apply (lmap_ok t H')].
  - intros t [L B]. now apply (lmap_ok t H).
  - intros t [L B]. now apply (lmap_ok t H').
  - intros t _. apply perm_eq. generalize 0 as i. induction t as [a|a l IHl r IHr]; intro i; [reflexivity|].
    cbn [lparts map lmap tree_lab]. rewrite !lmap_size, map_app, IHl, IHr. reflexivity.
Qed.
(** spec: the mirror image of a labelled tree *)
Fixpoint lmirror (t : ltree) : ltree :=
  match t with LLeaf a => LLeaf a | LNode a l r => LNode a (lmirror r) (lmirror l) end.
Lemma lmirror_size t : lsize (lmirror t) = lsize t.
Proof. induction t as [a|a l IHl r IHr]; simpl; lia. Qed.
Lemma lmirror_bounded NT t : lbounded NT t -> lbounded NT (lmirror t).
Proof. induction t as [a|a l IHl r IHr]; simpl; intuition. Qed.
Lemma lmirror_twice t : lmirror (lmirror t) = t.
Proof. induction t as [a|a l IHl r IHr]; simpl; congruence. Qed.
Lemma tree_rev_iso NT n b :
  iso (Spec (is_ltree NT n) (lparts b 0)) (Spec (is_ltree NT n) (lparts b 0)) lmirror lmirror (tree_rev n).
Proof.
  assert (G : forall t, is_ltree NT n t -> is_ltree NT n (lmirror t)) by (intros t [L B]; split; [now rewrite lmirror_size|now apply lmirror_bounded]).
  split; cbn [ok prt st]; [exact G|exact G|intros; apply lmirror_twice|intros; apply lmirror_twice|].
  intros t [L _].
  assert (P : forall t i, i + lsize t <= n -> Permutation (map (tree_rev n) (lparts b i t)) (lparts b (n - i - lsize t) (lmirror t))).
  { clear. induction t as [a|a l IHl r IHr]; intros i Hi; cbn [lsize lparts map lmirror tree_rev] in *.
    - apply perm_eq. do 2 f_equal. f_equal; [lia|]. f_equal. lia.
    - pose proof (lsize_pos l). pose proof (lsize_pos r). rewrite map_app, !lmirror_size.
      replace (n - 1 - (i + (lsize l + lsize r) - 1)) with (n - i - (lsize l + lsize r)) by lia.
      replace (n - i - (lsize l + lsize r) + (lsize r + lsize l) - 1) with (n - 1 - i) by lia. apply perm_skip.
      etransitivity; [apply Permutation_app_comm|]. apply Permutation_app.
      + etransitivity; [apply IHr; lia|]. apply perm_eq. f_equal. lia.
      + etransitivity; [apply IHl; lia|]. apply perm_eq. f_equal. lia. }
  etransitivity; [apply P; lia|]. apply perm_eq. f_equal. lia.
Qed.

(** ** Parses of a context-free grammar *)
Fixpoint pmap_ (pi rho : nat -> nat) (p : ptree) : ptree :=
  match p with PT t => PT (rho t) | PN x l r => PN (pi x) (pmap_ pi rho l) (pmap_ pi rho r) end.
Lemma pmap_size pi rho p : psize (pmap_ pi rho p) = psize p.
Proof. induction p as [t|x l IHl r IHr]; simpl; auto. Qed.
Lemma pmap_sym NT T pi rho p : pbounded NT T p -> psym NT (pmap_ pi rho p) = sym_ext NT pi rho (psym NT p).
Proof.
  unfold sym_ext. destruct p as [t|x l r]; simpl; intro H.
  - replace (NT + t <? NT) with false by (symmetry; apply Nat.ltb_ge; lia). do 2 f_equal. lia.
  - destruct H as (Hx & _). now rewrite (proj2 (Nat.ltb_lt _ _) Hx).
Qed.
Lemma pmap_ok NT T pi qi rho sig p : perm_of NT pi qi -> perm_of T rho sig -> pbounded NT T p ->
  pbounded NT T (pmap_ pi rho p) /\ pmap_ qi sig (pmap_ pi rho p) = p.
Proof.
  intros H H'. induction p as [t|x l IHl r IHr]; simpl.
  - intro Ht. split; [now apply H'|f_equal; now apply H'].
  - intros (Hx & Hl & Hr). destruct (IHl Hl) as [L1 L2], (IHr Hr) as [R1 R2]. repeat split; auto; [now apply H|]. rewrite L2, R2. f_equal. now apply H.
Qed.
Lemma pmap_root NT pi rho p : psym NT p < NT -> psym NT (pmap_ pi rho p) = pi (psym NT p).
Proof. destruct p as [t|x l r]; simpl; [lia|reflexivity]. Qed.
Lemma cfg_lab_iso NT T pi qi rho sig n b : perm_of NT pi qi -> perm_of T rho sig ->
  iso (Spec (is_parse NT T n) (parse_parts NT b)) (Spec (is_parse NT T n) (parse_parts NT b)) (pmap_ pi rho) (pmap_ qi sig) (cfg_lab NT pi rho).
Proof.
  intros H H'. pose proof (perm_sym H) as I. pose proof (perm_sym H') as I'.
  assert (G : forall pi qi rho sig p, perm_of NT pi qi -> perm_of T rho sig -> is_parse NT T n p -> is_parse NT T n (pmap_ pi rho p)).
  { clear. intros pi qi rho sig p H H' (L & B & R). split; [now rewrite pmap_size|]. split; [now apply (pmap_ok _ H H')|]. rewrite pmap_root by exact R. now apply H. }
  split; cbn [ok prt st].
  - intros p Hp. now apply (G _ _ _ _ p H H').
  - intros p Hp. now apply (G _ _ _ _ p I I').
  - intros p (L & B & R). now apply (pmap_ok _ H H').
  - intros p (L & B & R). now apply (pmap_ok _ I I').
  - intros p (L & B & R). apply perm_eq. unfold parse_parts. cbn [map cfg_lab]. rewrite pmap_root by exact R. f_equal. generalize 0 as i. clear L R.
    induction p as [t|x l IHl r IHr]; intro i; [reflexivity|]. destruct B as (Bx & Bl & Br).
    cbn [pparts map pmap_ cfg_lab]. rewrite pmap_size, map_app, (IHl Bl), (IHr Br), !(@pmap_sym NT T) by assumption. reflexivity.
Qed.
(** spec: the mirror image of a parse *)
Fixpoint pmirror (p : ptree) : ptree :=
  match p with PT t => PT t | PN x l r => PN x (pmirror r) (pmirror l) end.
Lemma pmirror_size p : psize (pmirror p) = psize p.
Proof. induction p as [t|x l IHl r IHr]; simpl; lia. Qed.
Lemma pmirror_sym NT p : psym NT (pmirror p) = psym NT p.
Proof. destruct p; reflexivity. Qed.
Lemma pmirror_bounded NT T p : pbounded NT T p -> pbounded NT T (pmirror p).
Proof. induction p as [t|x l IHl r IHr]; simpl; intuition. Qed.
Lemma pmirror_twice p : pmirror (pmirror p) = p.
Proof. induction p as [t|x l IHl r IHr]; simpl; congruence. Qed.
Lemma cfg_rev_iso NT T n b :
  iso (Spec (is_parse NT T n) (parse_parts NT b)) (Spec (is_parse NT T n) (parse_parts NT b)) pmirror pmirror (cfg_rev n).
Proof.
  assert (G : forall p, is_parse NT T n p -> is_parse NT T n (pmirror p)).
  { intros p (L & B & R). split; [now rewrite pmirror_size|]. split; [now apply pmirror_bounded|now rewrite pmirror_sym]. }
  split; cbn [ok prt st]; [exact G|exact G|intros; apply pmirror_twice|intros; apply pmirror_twice|].
  intros p (L & _ & _). unfold parse_parts. cbn [map cfg_rev]. rewrite pmirror_sym. apply perm_skip.
  assert (P : forall p i, i + psize p <= n -> Permutation (map (cfg_rev n) (pparts NT b i p)) (pparts NT b (n - i - psize p) (pmirror p))).
  { clear. induction p as [t|x l IHl r IHr]; intros i Hi; cbn [psize pparts map pmirror cfg_rev] in *.
    - apply perm_eq. do 3 f_equal. f_equal. lia.
    - pose proof (psize_pos l). pose proof (psize_pos r). rewrite map_app, !pmirror_size, !pmirror_sym. apply perm_skip.
      etransitivity; [apply Permutation_app_comm|]. apply Permutation_app.
      + etransitivity; [apply IHr; lia|]. apply perm_eq. f_equal. lia.
      + etransitivity; [apply IHl; lia|]. apply perm_eq. f_equal. lia. }
  etransitivity; [apply P; lia|]. apply perm_eq. f_equal. lia.
Qed.

(** ** Dependency trees *)
(** position [x] of [n] words counted from the right; the root 0 stays *)
Definition flip (n x : nat) : nat := match x with 0 => 0 | S _ => S n - x end.
Lemma flip_flip n x : x <= n -> flip n (flip n x) = x.
Proof. unfold flip. destruct x as [|x]; [reflexivity|]. intro. destruct (S n - S x) eqn:E; lia. Qed.
Lemma flip_le n x : flip n x <= n.
Proof. unfold flip. destruct x; lia. Qed.
Lemma flip_pos n x : 1 <= x <= n -> 1 <= flip n x <= n.
Proof. unfold flip. destruct x; lia. Qed.
Lemma flip_zero n x : x <= n -> flip n x = 0 <-> x = 0.
Proof. unfold flip. destruct x; lia. Qed.
(** spec: the heads of the mirrored sentence *)
Definition mirror (n : nat) (h : list nat) : list nat := map (flip n) (rev h).
Lemma mirror_length n h : length (mirror n h) = length h.
Proof. unfold mirror. now rewrite map_length, rev_length. Qed.
Lemma mirror_nth n h c : length h = n -> c < n -> nth c (mirror n h) 0 = flip n (nth (n - 1 - c) h 0).
Proof.
  intros L Hc. unfold mirror. change 0 with (flip n 0) at 1. rewrite map_nth. f_equal. rewrite rev_nth by lia. f_equal. lia.
Qed.
Lemma mirror_hd n h k : length h = n -> hd_of (mirror n h) k = flip n (hd_of h (flip n k)).
Proof.
  intro L. destruct k as [|k]; [reflexivity|]. cbn [hd_of]. destruct (Nat.ltb_spec k n) as [Lt|Ge].
  - rewrite mirror_nth by assumption. f_equal. unfold hd_of. destruct (flip n (S k)) as [|j] eqn:E; cbn [flip] in E; [lia|]. f_equal. lia.
  - rewrite nth_overflow by (rewrite mirror_length; lia). replace (flip n (S k)) with 0 by (cbn [flip]; lia). reflexivity.
Qed.
Lemma mirror_iter n h t k : length h = n -> (forall k, hd_of h k <= n) -> k <= n ->
  Nat.iter t (hd_of (mirror n h)) k = flip n (Nat.iter t (hd_of h) (flip n k)).
Proof.
  intros L B Hk. induction t as [|t IH]; simpl; [now rewrite flip_flip|]. rewrite IH, mirror_hd by exact L. f_equal. f_equal.
  apply flip_flip. destruct t as [|t]; [apply flip_le|apply B].
Qed.
Lemma proj_hd_le n h k : is_proj n h -> hd_of h k <= n.
Proof.
  intros (L & H & _). destruct k as [|k]; [simpl; lia|]. destruct (Nat.ltb_spec k n); [apply H; lia|]. cbn [hd_of]. rewrite nth_overflow by lia. lia.
Qed.
Lemma mirror_proj n h : is_proj n h -> is_proj n (mirror n h).
Proof.
  intro P. pose proof (fun k => proj_hd_le k P) as B. destruct P as (L & H1 & H2).
  assert (A0 : forall m, 1 <= m <= n -> anc (mirror n h) m 0).
  { intros m Hm. destruct (proj2 (H1 (flip n m) (flip_pos Hm))) as [t Ht]. exists t. rewrite mirror_iter by (auto; lia). now rewrite Ht. }
  split; [now rewrite mirror_length|]. split.
  - intros k Hk. split; [|now apply A0]. rewrite mirror_hd by exact L. apply flip_le.
  - intros k m Hk Hb. rewrite mirror_hd in * by exact L.
    destruct (hd_of h (flip n k)) as [|p] eqn:Ep.
    + cbn [flip] in *. apply A0. unfold between in Hb. lia.
    + pose proof (B (flip n k)) as Bk. rewrite Ep in Bk. pose proof (flip_pos Hk) as Hk'.
      assert (Hm : 1 <= m <= n) by (unfold between in Hb; cbn [flip] in Hb; lia).
      assert (Hb' : between (hd_of h (flip n k)) (flip n m) (flip n k)).
      { rewrite Ep. unfold between in *. destruct k as [|k]; [lia|]. destruct m as [|m]; [lia|]. cbn [flip] in *. lia. }
      destruct (H2 _ _ Hk' Hb') as [t Ht]. exists t. rewrite mirror_iter by (auto; lia). now rewrite Ht, Ep.
Qed.
Lemma Forall_hd_le n h : is_proj n h -> Forall (fun x => x <= n) h.
Proof.
  intro P. apply Forall_forall. intros x Hx. destruct (In_nth _ _ 0 Hx) as (k & _ & <-). exact (proj_hd_le (S k) P).
Qed.
Lemma mirror_mirror n h : is_proj n h -> mirror n (mirror n h) = h.
Proof.
  intro P. unfold mirror. rewrite <- map_rev, rev_involutive. apply map_cancel with (P := fun x => x <= n); [apply flip_flip|now apply Forall_hd_le].
Qed.
Lemma mirror_single n h : is_proj n h -> single_root h -> single_root (mirror n h).
Proof.
  intros P. unfold single_root, mirror. intros <-. rewrite map_rev.
  rewrite (proj1 (Permutation_count_occ Nat.eq_dec _ _) (Permutation_sym (Permutation_rev (map (flip n) h)))).
  pose proof (Forall_hd_le P) as F. clear P. induction F as [|x l Hx F IH]; [reflexivity|]. cbn [map count_occ]. rewrite IH.
  pose proof (flip_zero Hx). destruct (Nat.eq_dec (flip n x) 0), (Nat.eq_dec x 0); intuition lia.
Qed.
Lemma dep_parts_from_map b c h : dep_parts_from b c h = map (fun k => dep_part b (c + k) (nth k h 0) []) (seq 0 (length h)).
Proof.
  revert c. induction h as [|x h IH]; intro c; [reflexivity|]. cbn [dep_parts_from length seq map nth]. rewrite Nat.add_0_r. f_equal.
  rewrite IH, <- seq_shift, map_map. apply map_ext. intro k. cbn [nth]. f_equal. lia.
Qed.
Lemma ldep_parts_from_map b c h :
  ldep_parts_from b c h = map (fun k => dep_part b (c + k) (fst (nth k h (0, 0))) [snd (nth k h (0, 0))]) (seq 0 (length h)).
Proof.
  revert c. induction h as [|x h IH]; intro c; [reflexivity|]. cbn [ldep_parts_from length seq map nth]. rewrite Nat.add_0_r. f_equal.
  rewrite IH, <- seq_shift, map_map. apply map_ext. intro k. cbn [nth]. f_equal. lia.
Qed.
Lemma dep_rev_part n b c x lab : c < n -> x <= n -> dep_rev n (dep_part b c x lab) = dep_part b (n - 1 - c) (flip n x) lab.
Proof.
  intros Hc Hx. destruct x as [|x]; [reflexivity|]. cbn [dep_part dep_rev flip]. destruct (S n - S x) as [|j] eqn:E; [lia|]. cbn [dep_part]. do 2 f_equal. lia.
Qed.
Lemma dep_rev_iso mr n b :
  iso (Spec (dep_ok mr n) (dep_parts b)) (Spec (dep_ok mr n) (dep_parts b)) (mirror n) (mirror n) (dep_rev n).
Proof.
  assert (G : forall h, dep_ok mr n h -> dep_ok mr n (mirror n h)).
  { intros h [P Q]. split; [now apply mirror_proj|]. intro E. apply mirror_single; auto. }
  split; cbn [ok prt st]; [exact G|exact G|intros h [P _]; now apply mirror_mirror|intros h [P _]; now apply mirror_mirror|].
  intros h [P _]. pose proof (proj1 P) as L. unfold dep_parts. rewrite !dep_parts_from_map, mirror_length, L, map_map.
  etransitivity; [apply perm_eq|].
  { apply map_ext_in with (g := fun k => dep_part b (n - 1 - k) (nth (n - 1 - k) (mirror n h) 0) []). intros k Hk. apply in_seq in Hk.
    cbn [plus]. rewrite dep_rev_part by (try lia; exact (proj_hd_le (S k) P)). rewrite mirror_nth by lia. do 3 f_equal. lia. }
  rewrite <- (map_map (fun k => n - 1 - k) (fun j => dep_part b j (nth j (mirror n h) 0) [])), <- seq_rev, map_rev. apply Permutation_sym, Permutation_rev.
Qed.
(** spec: the labelled heads of the mirrored sentence *)
Definition lmirror_dep (n : nat) (h : list (nat * nat)) : list (nat * nat) := map (fun p => (flip n (fst p), snd p)) (rev h).
Lemma lmirror_fst n h : map fst (lmirror_dep n h) = mirror n (map fst h).
Proof. unfold lmirror_dep, mirror. rewrite map_map, <- map_rev, map_map. reflexivity. Qed.
Lemma lmirror_nth n h c : length h = n -> c < n ->
  nth c (lmirror_dep n h) (0, 0) = (flip n (fst (nth (n - 1 - c) h (0, 0))), snd (nth (n - 1 - c) h (0, 0))).
Proof.
  intros L Hc. unfold lmirror_dep. change (0, 0) with ((fun p => (flip n (fst p), snd p)) (0, 0)) at 1. rewrite map_nth.
  rewrite rev_nth by lia. replace (length h - S c) with (n - 1 - c) by lia. reflexivity.
Qed.
Lemma ldep_rev_iso mr n L b :
  iso (Spec (ldep_ok mr n L) (ldep_parts b)) (Spec (ldep_ok mr n L) (ldep_parts b)) (lmirror_dep n) (lmirror_dep n) (dep_rev n).
Proof.
  assert (G : forall h, ldep_ok mr n L h -> ldep_ok mr n L (lmirror_dep n h)).
  { intros h [[P F] Q]. split; [split|].
    - rewrite lmirror_fst. now apply mirror_proj.
    - unfold lmirror_dep. apply Forall_map, Forall_rev. exact F.
    - intro E. unfold lsingle_root. rewrite lmirror_fst. apply mirror_single; [exact P|]. now apply Q. }
  assert (G2 : forall h, ldep_ok mr n L h -> lmirror_dep n (lmirror_dep n h) = h).
  { intros h [[P _] _]. apply Forall_hd_le in P. rewrite Forall_map in P. unfold lmirror_dep. rewrite <- map_rev, rev_involutive, map_map. rewrite <- (map_id h) at 2.
    apply map_ext_in. intros [x l] Hx. rewrite Forall_forall in P. specialize (P _ Hx). cbn [fst snd] in *. now rewrite flip_flip. }
  split; cbn [ok prt st]; [exact G|exact G|exact G2|exact G2|].
  intros h [[P _] _]. pose proof (proj1 P) as Len. rewrite map_length in Len. apply Forall_hd_le in P. rewrite Forall_map, Forall_forall in P.
  unfold ldep_parts. rewrite !ldep_parts_from_map, map_map. replace (length (lmirror_dep n h)) with n by (unfold lmirror_dep; now rewrite map_length, rev_length). rewrite Len.
  etransitivity; [apply perm_eq|].
  { apply map_ext_in with (g := fun k => dep_part b (n - 1 - k) (fst (nth (n - 1 - k) (lmirror_dep n h) (0, 0))) [snd (nth (n - 1 - k) (lmirror_dep n h) (0, 0))]).
    intros k Hk. apply in_seq in Hk. cbn [plus].
    rewrite dep_rev_part; [|lia|apply P, nth_In; lia]. rewrite lmirror_nth by lia. cbn [fst snd]. replace (n - 1 - (n - 1 - k)) with k by lia. reflexivity. }
  rewrite <- (map_map (fun k => n - 1 - k) (fun j => dep_part b j (fst (nth j (lmirror_dep n h) (0, 0))) [snd (nth j (lmirror_dep n h) (0, 0))])), <- seq_rev, map_rev.
  apply Permutation_sym, Permutation_rev.
Qed.
(** one label is no label *)
Lemma dep_one_iso mr n b :
  iso (Spec (dep_ok mr n) (dep_parts b)) (Spec (ldep_ok mr n 1) (ldep_parts b)) (map (fun x => (x, 0))) (map fst) dep_one.
Proof.
  assert (E : forall h : list nat, map fst (map (fun x => (x, 0)) h) = h) by (intro h; rewrite map_map; apply map_id).
  split; cbn [ok prt st].
  - intros h [P Q]. split; [split|].
    + now rewrite E.
    + apply Forall_map, Forall_forall. intros x _. simpl. lia.
    + intro M. unfold lsingle_root. rewrite E. now apply Q.
  - intros h [[P F] Q]. split; [exact P|exact Q].
  - intros h _. apply E.
  - intros h [[P F] Q]. rewrite map_map. rewrite <- (map_id h) at 2. apply map_ext_in. intros [x l] Hx. rewrite Forall_forall in F. specialize (F _ Hx). cbn [fst snd] in *. f_equal. lia.
  - intros h _. apply perm_eq. unfold dep_parts, ldep_parts.
    assert (A : forall c, map dep_one (dep_parts_from b c h) = ldep_parts_from b c (map (fun x => (x, 0)) h)); [|apply A].
    induction h as [|x h IH]; intro c; [reflexivity|].
    cbn [dep_parts_from map ldep_parts_from fst snd]. rewrite IH. f_equal. unfold dep_one, dep_part. destruct x; reflexivity.
Qed.
Lemma dep_lab_iso mr n L pi qi b : perm_of L pi qi ->
  iso (Spec (ldep_ok mr n L) (ldep_parts b)) (Spec (ldep_ok mr n L) (ldep_parts b)) (map (fun p => (fst p, pi (snd p)))) (map (fun p => (fst p, qi (snd p)))) (dep_lab pi).
Proof.
  intro H.
  assert (G : forall pi qi, perm_of L pi qi -> forall h, ldep_ok mr n L h -> ldep_ok mr n L (map (fun p => (fst p, pi (snd p))) h)).
  { clear. intros pi qi H h [[P F] Q].
    assert (E : map fst (map (fun p => (fst p, pi (snd p))) h) = map fst h) by (rewrite map_map; reflexivity).
    split; [split|].
    - now rewrite E.
    - apply Forall_map. eapply Forall_impl; [|exact F]. intros p Hp. cbn [snd]. now apply H.
    - intro M. unfold lsingle_root. rewrite E. now apply Q. }
  assert (G2 : forall pi qi, perm_of L pi qi -> forall h, ldep_ok mr n L h -> map (fun p => (fst p, qi (snd p))) (map (fun p => (fst p, pi (snd p))) h) = h).
  { clear. intros pi qi H h [[P F] Q]. rewrite map_map. rewrite <- (map_id h) at 2. apply map_ext_in. intros [x l] Hx. rewrite Forall_forall in F. specialize (F _ Hx).
    cbn [fst snd] in *. f_equal. now apply H. }
  split; cbn [ok prt st]; [now apply (G _ _ H)|now apply (G _ _ (perm_sym H))|now apply (G2 _ _ H)|now apply (G2 _ _ (perm_sym H))|].
  intros h _. apply perm_eq. unfold ldep_parts. generalize 0 as c. induction h as [|x h IH]; intro c; [reflexivity|].
  cbn [ldep_parts_from map fst snd]. rewrite IH. f_equal. unfold dep_lab, dep_part. destruct (fst x); reflexivity.
Qed.
