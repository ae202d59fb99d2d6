(** * Networkx: model of torch_struct/cky.py:239-269 ([CKY.to_networkx]) *)
From Coq Require Import ZArith.
From Verif Require Import Base Ops Chain CkyCrf Tensor Codec CkyCodec.
Set Implicit Arguments.
Local Open Scope nat_scope.

(** ** Model *)
(** the variables of the loop (lines 241, 246-252): [left], [right] map (batch, position)
    to (node, order); [ea], [eb] are the lists [a] and [b] *)
Record nx := { cur : nat; nleft : nat -> nat -> option (nat * nat); nright : nat -> nat -> option (nat * nat);
               ea : list nat; eb : list nat; topo : list (list nat) }.
(** line 252 *)
Definition nx_init (N : nat) : nx :=
  {| cur := 0; nleft := fun _ _ => None; nright := fun _ _ => None; ea := []; eb := []; topo := repeat [] N |}.
(** line 266: [topo[order].append(cur)] *)
Fixpoint append_at (t : list (list nat)) (o v : nat) : res (list (list nat)) :=
  match t, o with
  | [], _ => Err IndexError
  | x :: t', 0 => Ok ((x ++ [v]) :: t')
  | x :: t', S o' => bind (append_at t' o' v) (fun t'' => Ok (x :: t''))
  end.
(** cky.py:264-265: assignment to a dictionary keyed by (batch, position) *)
Definition set2 (f : nat -> nat -> option (nat * nat)) (b i : nat) (v : nat * nat) : nat -> nat -> option (nat * nat) :=
  fun b' i' => if (b' =? b) && (i' =? i) then Some v else f b' i'.
(** lines 253-267 *)
Definition nx_step (s : nx) (n : list nat) : res nx :=
  match n with
  | [batch; i; j; _] =>
      bind (if i =? j then Ok (0, [], [])
            else match nleft s batch i with
                 | None => Err KeyError
                 | Some (l, lo) =>
                     match nright s batch j with
                     | None => Err KeyError
                     | Some (r, ro) => Ok (Nat.max lo ro + 1, [l; r], [cur s; cur s])
                     end
                 end) (fun out =>
      let '(order, da, db) := out in
      bind (append_at (topo s) order (cur s)) (fun t =>
      Ok {| cur := cur s + 1; nleft := set2 (nleft s) batch i (cur s, order); nright := set2 (nright s) batch j (cur s, order);
            ea := ea s ++ da; eb := eb s ++ db; topo := t |}))
  | _ => Err ValueError
  end.
(** torch.argsort (line 245): some permutation that sorts the keys; which one is not
    specified for equal keys (argsort is not stable) *)
Definition is_argsort (keys : list Z) (perm : list nat) : Prop :=
  Permutation perm (seq 0 (length keys)) /\
  forall p q, p < q < length perm -> (nth (nth p perm 0%nat) keys 0 <= nth (nth q perm 0%nat) keys 0)%Z.
(** the keys of line 245 *)
Definition nx_keys (cover : list (list nat)) : list Z := map (fun e => (Z.of_nat (nth 2 e 0%nat) - Z.of_nat (nth 1 e 0%nat))%Z) cover.
(** lines 239-269; [perm] is the result of argsort. The result is
    (n_nodes, a, b, label), indices, topo. *)
Definition to_networkx (perm : list nat) (spans : tensor Z)
  : res ((Z * list nat * list nat * list nat) * (nat -> nat -> option (nat * nat)) * list (list nat)) :=
  match shape spans with
  | [_; N; _; _] =>
      let n_nodes := fold_right Z.add 0%Z (map (dat spans) (indexes (shape spans))) in
      let cover := nonzero spans in
      let ordered := map (fun k => nth k cover []) perm in
      let label := map (fun e => nth 3 e 0) ordered in
      bind (loop nx_step ordered (nx_init N)) (fun s => Ok ((n_nodes, ea s, eb s, label), nleft s, topo s))
  | _ => Err ValueError
  end.

(** ** Specification: a batch of forests. Row b is a sequence of labelled trees side by
    side, starting at word 0 (one tree, or a tree followed by padding leaves). *)
Definition node : Type := (nat * (nat * ltree))%type. (* row, first word, subtree *)
Fixpoint lnodes (i : nat) (t : ltree) : list (nat * ltree) :=
  (i, t) :: match t with LLeaf _ => [] | LNode _ l r => lnodes i l ++ lnodes (i + lsize l) r end.
(** spec: nodes of a sequence of trees *)
Fixpoint fnodes (i : nat) (ts : list ltree) : list (nat * ltree) :=
  match ts with [] => [] | t :: ts' => lnodes i t ++ fnodes (i + lsize t) ts' end.
(** spec: number of words of a sequence of trees *)
Fixpoint fsize (ts : list ltree) : nat := match ts with [] => 0 | t :: ts' => lsize t + fsize ts' end.
(** the cells of the chart *)
Fixpoint fparts (b i : nat) (ts : list ltree) : list (list nat) :=
  match ts with [] => [] | t :: ts' => lparts b i t ++ fparts b (i + lsize t) ts' end.
(** position of a tree of the forest *)
Fixpoint froot (i : nat) (ts : list ltree) : list (nat * ltree) :=
  match ts with [] => [] | t :: ts' => (i, t) :: froot (i + lsize t) ts' end.
(** spec: label at the top of a tree *)
Definition llabel (t : ltree) : nat := match t with LLeaf a => a | LNode a _ _ => a end.
(** spec: height of a tree *)
Fixpoint lheight (t : ltree) : nat := match t with LLeaf _ => 0 | LNode _ l r => S (Nat.max (lheight l) (lheight r)) end.
(** equality of trees is decidable *)
Definition ltree_dec : forall t u : ltree, {t = u} + {t <> u}.
Proof. decide equality; apply Nat.eq_dec. Defined.
(** equality of nodes is decidable *)
Definition node_dec : forall x y : node, {x = y} + {x <> y}.
Proof. repeat decide equality. Defined.
(** number of a node in a list *)
Fixpoint posn (x : node) (l : list node) : nat :=
  match l with [] => 0 | y :: l' => if node_dec x y then 0 else S (posn x l') end.
(** spec: height of a node *)
Definition nheight (x : node) : nat := lheight (snd (snd x)).
(** what the caller relies on: [nodes] numbers the subtrees of all rows; there are two
    edges into every inner node, from its left and its right child; level h of [topo]
    holds the nodes of height h; [indices] has the root of each tree *)
Record is_graph (N batch : nat) (fs : nat -> list ltree) (nodes : list node)
  (n_nodes : Z) (a b label : list nat) (indices : nat -> nat -> option (nat * nat)) (topo : list (list nat)) : Prop := {
  ig_nodup : NoDup nodes;
  ig_nodes : forall r i q, In (r, (i, q)) nodes <-> r < batch /\ In (i, q) (fnodes 0 (fs r));
  ig_count : n_nodes = Z.of_nat (length nodes);
  ig_label : label = map (fun x => llabel (snd (snd x))) nodes;
  ig_from : a = flat_map (fun x => match x with
                | (r, (i, LNode _ p q)) => [posn (r, (i, p)) nodes; posn (r, (i + lsize p, q)) nodes] | _ => [] end) nodes;
  ig_to : b = flat_map (fun x => match x with (_, (_, LNode _ _ _)) => [posn x nodes; posn x nodes] | _ => [] end) nodes;
  ig_topo : topo = map (fun h => map (fun x => posn x nodes) (filter (fun x => nheight x =? h) nodes)) (seq 0 N);
  ig_index : forall r i t, r < batch -> In (i, t) (froot 0 (fs r)) -> indices r i = Some (posn (r, (i, t)) nodes, lheight t) }.

(** ** Lemmas *)
Definition span_of (x : node) : list nat := let '(b, (i, q)) := x in [b; i; i + lsize q - 1; llabel q].
Lemma lparts_nodes b t : forall i, lparts b i t = map (fun p => span_of (b, p)) (lnodes i t).
Proof.
  induction t as [a|a l IHl r IHr]; intro i; cbn [lparts lnodes map span_of lsize llabel].
  - do 3 f_equal. f_equal. lia.
  - now rewrite map_app, IHl, IHr.
Qed.
Lemma fparts_nodes b ts : forall i, fparts b i ts = map (fun p => span_of (b, p)) (fnodes i ts).
Proof. induction ts as [|t ts IH]; intro i; [reflexivity|]. cbn [fparts fnodes]. now rewrite map_app, lparts_nodes, IH. Qed.
Lemma lnodes_in t : forall i a q, In (a, q) (lnodes i t) -> i <= a /\ a + lsize q <= i + lsize t.
Proof.
  induction t as [x|x l IHl r IHr]; intros i a q H; cbn [lnodes] in H.
  - destruct H as [[= <- <-]|[]]. lia.
  - destruct H as [[= <- <-]|H]; [lia|]. cbn [lsize]. apply in_app_iff in H as [H|H]; [apply IHl in H|apply IHr in H]; lia.
Qed.
Lemma lnodes_top t : forall i a q, In (a, q) (lnodes i t) -> lsize t <= lsize q -> a = i /\ q = t.
Proof.
  intros i a q H Hs. destruct t as [x|x l r]; cbn [lnodes] in H.
  - destruct H as [[= <- <-]|[]]. auto.
  - pose proof (lsize_pos l). pose proof (lsize_pos r). destruct H as [[= <- <-]|H]; [auto|].
    cbn [lsize] in Hs. apply in_app_iff in H as [H|H]; apply lnodes_in in H; lia.
Qed.
Lemma lnodes_here i t : In (i, t) (lnodes i t).
Proof. destruct t; left; reflexivity. Qed.
Lemma lnodes_nodup t : forall i, NoDup (lnodes i t).
Proof.
  induction t as [x|x l IHl r IHr]; intro i; cbn [lnodes]; [repeat constructor; auto|].
  pose proof (lsize_pos l). pose proof (lsize_pos r). constructor.
  - intro H'. apply in_app_iff in H' as [H'|H']; apply lnodes_in in H'; cbn [lsize] in H'; lia.
  - apply NoDup_app2; auto. intros [a q] H1 H2. apply lnodes_in in H1, H2. pose proof (lsize_pos q). lia.
Qed.
Lemma lnodes_nested t : forall i a q a' q', In (a, q) (lnodes i t) -> In (a', q') (lnodes i t) ->
  a + lsize q <= a' \/ a' + lsize q' <= a \/ In (a', q') (lnodes a q) \/ In (a, q) (lnodes a' q').
Proof.
  induction t as [x|x l IHl r IHr]; intros i a q a' q' H H'.
  - cbn [lnodes] in H, H'. destruct H as [[= <- <-]|[]]. right; right; left. exact H'.
  - pose proof H as K. pose proof H' as K'. cbn [lnodes] in H, H'.
    destruct H as [[= <- <-]|H]; [right; right; left; exact K'|].
    destruct H' as [[= <- <-]|H']; [right; right; right; exact K|].
    apply in_app_iff in H as [H|H]; apply in_app_iff in H' as [H'|H'].
    + eapply IHl; eauto.
    + apply lnodes_in in H, H'. lia.
    + apply lnodes_in in H, H'. lia.
    + eapply IHr; eauto.
Qed.
Lemma fnodes_in ts : forall i a q, In (a, q) (fnodes i ts) -> i <= a /\ a + lsize q <= i + fsize ts.
Proof.
  induction ts as [|t ts IH]; intros i a q H; cbn [fnodes fsize] in *; [destruct H|].
  apply in_app_iff in H as [H|H]; [apply lnodes_in in H|apply IH in H]; lia.
Qed.
Lemma fnodes_nested ts : forall i a q a' q', In (a, q) (fnodes i ts) -> In (a', q') (fnodes i ts) ->
  a + lsize q <= a' \/ a' + lsize q' <= a \/ In (a', q') (lnodes a q) \/ In (a, q) (lnodes a' q').
Proof.
  induction ts as [|t ts IH]; intros i a q a' q' H H'; cbn [fnodes] in *; [destruct H|].
  apply in_app_iff in H as [H|H]; apply in_app_iff in H' as [H'|H'].
  - eapply lnodes_nested; eauto.
  - apply lnodes_in in H. apply fnodes_in in H'. lia.
  - apply fnodes_in in H. apply lnodes_in in H'. lia.
  - eapply IH; eauto.
Qed.
Lemma fnodes_nodup ts : forall i, NoDup (fnodes i ts).
Proof.
  induction ts as [|t ts IH]; intro i; cbn [fnodes]; [constructor|]. apply NoDup_app2; auto using lnodes_nodup.
  intros [a q] H1 H2. apply lnodes_in in H1. apply fnodes_in in H2. pose proof (lsize_pos q). lia.
Qed.
(** one subtree per span *)
Lemma fnodes_unique ts i a q q' : In (a, q) (fnodes i ts) -> In (a, q') (fnodes i ts) -> lsize q = lsize q' -> q = q'.
Proof.
  intros H H' E. pose proof (lsize_pos q). pose proof (lsize_pos q').
  destruct (fnodes_nested _ _ _ _ _ _ H H') as [?|[?|[K|K]]]; try lia; apply lnodes_top in K; try lia; destruct K; auto.
Qed.
Lemma lnodes_child t : forall i a x l r, In (a, LNode x l r) (lnodes i t) -> In (a, l) (lnodes i t) /\ In (a + lsize l, r) (lnodes i t).
Proof.
  induction t as [y|y p IHp q IHq]; intros i a x l r H; cbn [lnodes] in H.
  - destruct H as [[=]|[]].
  - destruct H as [[= <- <- <- <-]|H].
    + split; right; apply in_app_iff; [left|right]; apply lnodes_here.
    + apply in_app_iff in H as [H|H]; [apply IHp in H|apply IHq in H]; destruct H as [H1 H2]; (split; right; apply in_app_iff; auto).
Qed.
Lemma fnodes_child ts : forall i a x l r, In (a, LNode x l r) (fnodes i ts) -> In (a, l) (fnodes i ts) /\ In (a + lsize l, r) (fnodes i ts).
Proof.
  induction ts as [|t ts IH]; intros i a x l r H; cbn [fnodes] in H; [destruct H|].
  apply in_app_iff in H as [H|H]; [apply lnodes_child in H|apply IH in H]; destruct H; split; apply in_app_iff; auto.
Qed.
Lemma lheight_lt t : lheight t < lsize t.
Proof. induction t; cbn [lheight lsize]; lia. Qed.
Lemma lnodes_label S t : lbounded S t -> forall i a q, In (a, q) (lnodes i t) -> llabel q < S.
Proof.
  induction t as [x|x l IHl r IHr]; intros Hb i a q H; cbn [lnodes] in H.
  - destruct H as [[= <- <-]|[]]. exact Hb.
  - destruct Hb as (B1 & B2 & B3). destruct H as [[= <- <-]|H]; [exact B1|]. apply in_app_iff in H as [H|H]; eauto.
Qed.
Lemma fnodes_label S ts : Forall (lbounded S) ts -> forall i a q, In (a, q) (fnodes i ts) -> llabel q < S.
Proof.
  induction 1 as [|t ts H _ IH]; intros i a q Hi; cbn [fnodes] in Hi; [destruct Hi|].
  apply in_app_iff in Hi as [Hi|Hi]; [eapply lnodes_label; eauto|eauto].
Qed.
Lemma froot_nodes ts : forall i a t, In (a, t) (froot i ts) -> In (a, t) (fnodes i ts).
Proof.
  induction ts as [|u ts IH]; intros i a t H; cbn [froot fnodes] in *; [destruct H|]. apply in_app_iff.
  destruct H as [[= <- <-]|H]; [left; apply lnodes_here|right; eauto].
Qed.
(** nothing in the forest contains the root of a tree *)
Lemma froot_max ts : forall i a t a' q, In (a, t) (froot i ts) -> In (a', q) (fnodes i ts) -> In (a, t) (lnodes a' q) -> a' = a /\ q = t.
Proof.
  induction ts as [|u ts IH]; intros i a t a' q H H' K; cbn [froot fnodes] in *; [destruct H|].
  apply in_app_iff in H'. destruct H as [[= <- <-]|H].
  - destruct H' as [H'|H'].
    + apply lnodes_in in K. pose proof (lnodes_in _ _ _ _ H'). apply lnodes_top in H'; [auto|lia].
    + apply lnodes_in in K. apply fnodes_in in H'. pose proof (lsize_pos u). lia.
  - destruct H' as [H'|H'].
    + exfalso. apply lnodes_in in K. apply lnodes_in in H'. apply froot_nodes, fnodes_in in H. pose proof (lsize_pos t). lia.
    + eapply IH; eauto.
Qed.
Lemma posn_spec x l : In x l -> nth_error l (posn x l) = Some x.
Proof.
  induction l as [|y l IH]; intro H; [destruct H|]. cbn [posn]. destruct (node_dec x y) as [->|E]; [reflexivity|].
  cbn [nth_error]. apply IH. destruct H; congruence || auto.
Qed.
Lemma posn_nth x l k : NoDup l -> nth_error l k = Some x -> posn x l = k.
Proof.
  intros Hn H. pose proof (posn_spec _ _ (nth_error_In _ _ H)) as H'. rewrite <- H in H'.
  eapply NoDup_nth_error in H'; [exact H'|exact Hn|]. apply nth_error_Some. rewrite H'. congruence.
Qed.

(** the last node of a list that passes a test, with its number and height *)
Definition lastn (P : node -> bool) (l : list node) : option (nat * nat) :=
  fold_left (fun acc kx => if P (snd kx) then Some (fst kx, nheight (snd kx)) else acc) (combine (seq 0 (length l)) l) None.
Lemma lastn_snoc P l x : lastn P (l ++ [x]) = if P x then Some (length l, nheight x) else lastn P l.
Proof.
  unfold lastn. rewrite app_length. cbn [length]. rewrite Nat.add_1_r, seq_S.
  assert (E : forall (A B : Type) (l1 l2 : list A) (m1 m2 : list B), length l1 = length m1 -> combine (l1 ++ l2) (m1 ++ m2) = combine l1 m1 ++ combine l2 m2).
  { induction l1 as [|a l1 IH]; intros l2 [|b m1] m2 H; try discriminate H; [reflexivity|]. cbn. f_equal. apply IH. now injection H. }
  rewrite E by apply seq_length. rewrite fold_left_app. reflexivity.
Qed.
Lemma lastn_at P l k x : nth_error l k = Some x -> P x = true ->
  (forall k' y, k < k' -> nth_error l k' = Some y -> P y = false) -> lastn P l = Some (k, nheight x).
Proof.
  induction l as [|y l IH] using rev_ind; intros H HP Hl; [destruct k; discriminate H|]. rewrite lastn_snoc.
  assert (k < length (l ++ [y])) by (apply nth_error_Some; congruence). rewrite app_length in H0. cbn [length] in H0.
  destruct (Nat.eq_dec k (length l)) as [->|Hk].
  - rewrite nth_error_app2, Nat.sub_diag in H by lia. injection H as ->. now rewrite HP.
  - rewrite nth_error_app1 in H by lia. rewrite (Hl (length l) y); [|lia|rewrite nth_error_app2, Nat.sub_diag by lia; reflexivity].
    apply IH; auto. intros k' z Hk' Hz. apply (Hl k' z Hk'). rewrite nth_error_app1; auto. apply nth_error_Some. congruence.
Qed.
Lemma append_at_spec (f : nat -> list nat) o v : forall N s, o < N ->
  append_at (map f (seq s N)) o v = Ok (map (fun h => if h =? s + o then f h ++ [v] else f h) (seq s N)).
Proof.
  induction o as [|o IH]; intros [|N] s H; try lia; cbn [seq map append_at].
  - rewrite Nat.add_0_r, Nat.eqb_refl. f_equal. f_equal. apply map_ext_in. intros h Hh. apply in_seq in Hh.
    destruct (Nat.eqb_spec h s); [lia|reflexivity].
  - rewrite IH by lia. cbn [bind]. replace (s + S o) with (S s + o) by lia.
    destruct (Nat.eqb_spec s (S s + o)); [lia|]. reflexivity.
Qed.

Lemma repeat_map A B (x : B) (l : list A) : repeat x (length l) = map (fun _ => x) l.
Proof. induction l as [|a l IH]; [reflexivity|]. cbn. now f_equal. Qed.

(** proof device: the node starts at word i of row r *)
Definition starts (r i : nat) (x : node) : bool := (fst x =? r) && (fst (snd x) =? i).
(** proof device: the node ends at word j of row r *)
Definition ends (r j : nat) (x : node) : bool := (fst x =? r) && (fst (snd x) + lsize (snd (snd x)) - 1 =? j).

Section Loop.
  Variables (N batch : nat) (fs : nat -> list ltree) (nodes : list node).
  Hypothesis Hnd : NoDup nodes.
  Hypothesis Hin : forall r i q, In (r, (i, q)) nodes <-> r < batch /\ In (i, q) (fnodes 0 (fs r)).
  Hypothesis Hsz : forall r, r < batch -> fsize (fs r) <= N.
  Hypothesis Hord : forall k k' x y, nth_error nodes k = Some x -> nth_error nodes k' = Some y -> k < k' -> lsize (snd (snd x)) <= lsize (snd (snd y)).

  Let cand (x : node) : list nat := match x with
    | (r, (i, LNode _ p q)) => [posn (r, (i, p)) nodes; posn (r, (i + lsize p, q)) nodes] | _ => [] end.
  Let cto (x : node) : list nat := match x with (_, (_, LNode _ _ _)) => [posn x nodes; posn x nodes] | _ => [] end.
  Let inv (pre : list node) (s : nx) : Prop :=
    cur s = length pre /\ (forall r i, nleft s r i = lastn (starts r i) pre) /\ (forall r j, nright s r j = lastn (ends r j) pre) /\
    ea s = flat_map cand pre /\ eb s = flat_map cto pre /\
    topo s = map (fun h => map (fun x => posn x nodes) (filter (fun x => nheight x =? h) pre)) (seq 0 N).

  (** when a node is reached, the last node seen with the same start is its left child *)
  Lemma child_last pre r i x p q post : nodes = pre ++ (r, (i, LNode x p q)) :: post ->
    lastn (starts r i) pre = Some (posn (r, (i, p)) nodes, lheight p) /\
    lastn (ends r (i + (lsize p + lsize q) - 1)) pre = Some (posn (r, (i + lsize p, q)) nodes, lheight q).
  Proof.
    intro E. pose proof (lsize_pos p) as Pp. pose proof (lsize_pos q) as Pq.
    assert (Ec : nth_error nodes (length pre) = Some (r, (i, LNode x p q))) by (rewrite E, nth_error_app2, Nat.sub_diag by lia; reflexivity).
    pose proof (nth_error_In _ _ Ec) as Hc. apply Hin in Hc as [Hr Hc]. destruct (fnodes_child _ _ _ _ _ _ Hc) as [Hp Hq].
    assert (Pre : forall k y, nth_error pre k = Some y -> nth_error nodes k = Some y /\ k < length pre).
    { intros k y Hk. assert (k < length pre) by (apply nth_error_Some; congruence). split; auto. rewrite E, nth_error_app1; auto. }
    assert (Chd : forall a c, In (a, c) (fnodes 0 (fs r)) -> lsize c < lsize (LNode x p q) ->
      exists k, posn (r, (a, c)) nodes = k /\ nth_error pre k = Some (r, (a, c)) /\ nth_error nodes k = Some (r, (a, c))).
    { intros a c Ha Hlt. assert (In (r, (a, c)) nodes) by (apply Hin; auto). pose proof (posn_spec _ _ H) as Hk.
      set (k := posn (r, (a, c)) nodes) in *. exists k. split; [reflexivity|].
      destruct (Nat.lt_trichotomy k (length pre)) as [L|[L|L]].
      - rewrite <- (nth_error_app1 pre ((r, (i, LNode x p q)) :: post)) by auto. rewrite <- E. auto.
      - rewrite L, Ec in Hk. injection Hk as <- <-. lia.
      - pose proof (Hord Ec Hk L) as X. cbn [snd] in X. lia. }
    split.
    - destruct (Chd i p Hp ltac:(cbn [lsize]; lia)) as (k & Ek & Hk & Hk'). rewrite Ek. apply (@lastn_at (starts r i) pre k (r, (i, p))); auto.
      + unfold starts. cbn [fst snd]. now rewrite !Nat.eqb_refl.
      + intros k' [r' [i' c]] Hlt Hy. apply Pre in Hy as [Hy HL]. unfold starts. cbn [fst snd].
        destruct (Nat.eqb_spec r' r) as [->|]; [|reflexivity]. destruct (Nat.eqb_spec i' i) as [->|]; [|reflexivity]. exfalso.
        pose proof (Hord Hk' Hy Hlt) as S1. pose proof (Hord Hy Ec HL) as S2. cbn [snd] in S1, S2.
        pose proof (nth_error_In _ _ Hy) as Hcy. apply Hin in Hcy as [_ Hcy].
        assert (Dup : forall k1 y, nth_error nodes k1 = Some y -> nth_error nodes k' = Some y -> k1 = k').
        { intros k1 y H1 H2. apply (proj1 (NoDup_nth_error nodes) Hnd); [apply nth_error_Some; congruence|congruence]. }
        assert (Top : forall t, c = t -> nth_error nodes k' = Some (r, (i, t))) by (intros t <-; exact Hy).
        pose proof (lsize_pos c).
        destruct (fnodes_nested _ _ _ _ _ _ Hc Hcy) as [K|[K|[K|K]]]; [lia|lia| |].
        * cbn [lnodes] in K. destruct K as [[= K]|K].
          -- specialize (Dup _ _ Ec (Top _ (eq_sym K))). lia.
          -- apply in_app_iff in K as [K|K].
             ++ apply lnodes_top in K as [_ K]; [|lia]. specialize (Dup _ _ Hk' (Top _ K)). lia.
             ++ apply lnodes_in in K. lia.
        * apply lnodes_top in K as [_ K]; [|lia]. specialize (Dup _ _ Ec (Top _ (eq_sym K))). lia.
    - destruct (Chd (i + lsize p) q Hq ltac:(cbn [lsize]; lia)) as (k & Ek & Hk & Hk'). rewrite Ek. apply (@lastn_at (ends r (i + (lsize p + lsize q) - 1)) pre k (r, (i + lsize p, q))); auto.
      + unfold ends. cbn [fst snd]. rewrite !Nat.eqb_refl. cbn [andb]. apply Nat.eqb_eq. lia.
      + intros k' [r' [i' c]] Hlt Hy. apply Pre in Hy as [Hy HL]. unfold ends. cbn [fst snd].
        destruct (Nat.eqb_spec r' r) as [->|]; [|reflexivity]. destruct (Nat.eqb_spec (i' + lsize c - 1) (i + (lsize p + lsize q) - 1)) as [Ei|]; [|reflexivity]. exfalso.
        pose proof (Hord Hk' Hy Hlt) as S1. pose proof (Hord Hy Ec HL) as S2. cbn [snd lsize] in S1, S2.
        pose proof (nth_error_In _ _ Hy) as Hcy. apply Hin in Hcy as [_ Hcy].
        assert (Dup : forall k1 y, nth_error nodes k1 = Some y -> nth_error nodes k' = Some y -> k1 = k').
        { intros k1 y H1 H2. apply (proj1 (NoDup_nth_error nodes) Hnd); [apply nth_error_Some; congruence|congruence]. }
        assert (Top : forall a t, i' = a -> c = t -> nth_error nodes k' = Some (r, (a, t))) by (intros a t <- <-; exact Hy).
        pose proof (lsize_pos c).
        destruct (fnodes_nested _ _ _ _ _ _ Hc Hcy) as [K|[K|[K|K]]]; [cbn [lsize] in K; lia|lia| |].
        * cbn [lnodes] in K. destruct K as [[= K1 K]|K].
          -- specialize (Dup _ _ Ec (Top _ _ (eq_sym K1) (eq_sym K))). lia.
          -- apply in_app_iff in K as [K|K].
             ++ apply lnodes_in in K. lia.
             ++ apply lnodes_top in K as [K1 K]; [|lia]. specialize (Dup _ _ Hk' (Top _ _ K1 K)). lia.
        * apply lnodes_top in K as [K1 K]; [|cbn [lsize]; lia]. specialize (Dup _ _ Ec (Top _ _ (eq_sym K1) (eq_sym K))). lia.
  Qed.

  Lemma nx_loop : exists s, loop nx_step (map span_of nodes) (nx_init N) = Ok s /\ inv nodes s.
  Proof.
    assert (G : forall post pre s, nodes = pre ++ post -> inv pre s -> exists s', loop nx_step (map span_of post) s = Ok s' /\ inv nodes s').
    { induction post as [|[r [i t]] post IH]; intros pre s E Hs.
      - rewrite app_nil_r in E. subst pre. exists s. auto.
      - destruct Hs as (I1 & I2 & I3 & I4 & I5 & I6).
        assert (Ec : nth_error nodes (length pre) = Some (r, (i, t))) by (rewrite E, nth_error_app2, Nat.sub_diag by lia; reflexivity).
        assert (Ep := @posn_nth _ _ _ Hnd Ec). pose proof (nth_error_In _ _ Ec) as Hc. apply Hin in Hc as [Hr Hc].
        assert (Hh : lheight t < N). { pose proof (lheight_lt t). apply fnodes_in in Hc. specialize (Hsz Hr). lia. }
        assert (App : append_at (topo s) (lheight t) (cur s) =
          Ok (map (fun h => map (fun x => posn x nodes) (filter (fun x => nheight x =? h) (pre ++ [(r, (i, t))]))) (seq 0 N))).
        { rewrite I6, I1. rewrite append_at_spec by exact Hh. f_equal. apply map_ext. intro h. rewrite filter_app, map_app. cbn [filter].
          change (nheight (r, (i, t))) with (lheight t). rewrite Nat.add_0_l.
          destruct (Nat.eqb_spec h (lheight t)), (Nat.eqb_spec (lheight t) h); try lia; cbn [map]; [now rewrite Ep|now rewrite app_nil_r]. }
        cbn [map loop span_of nx_step].
        assert (St : (if i =? i + lsize t - 1 then Ok (0, [], [])
            else match nleft s r i with
                 | None => Err KeyError
                 | Some (l, lo) =>
                     match nright s r (i + lsize t - 1) with
                     | None => Err KeyError
                     | Some (r, ro) => Ok (Nat.max lo ro + 1, [l; r], [cur s; cur s])
                     end
                 end) = Ok (lheight t, cand (r, (i, t)), cto (r, (i, t)))).
        { destruct t as [a|a p q]; cbn [lsize].
          - replace (i + 1 - 1) with i by lia. rewrite Nat.eqb_refl. reflexivity.
          - pose proof (lsize_pos p). pose proof (lsize_pos q). destruct (Nat.eqb_spec i (i + (lsize p + lsize q) - 1)); [lia|].
            destruct (child_last _ _ _ _ _ _ _ E) as [C1 C2]. rewrite I2, C1, I3, C2. unfold cto. rewrite Ep, I1. cbn [lheight cand].
            do 2 f_equal. f_equal. lia. }
        rewrite St. cbn [bind]. rewrite App. cbn [bind]. apply (IH (pre ++ [(r, (i, t))])); [now rewrite <- app_assoc|].
        unfold inv. cbn [cur nleft nright ea eb topo]. rewrite app_length. cbn [length]. split; [lia|].
        split; [intros r' i'; unfold set2; rewrite lastn_snoc, I2, I1; unfold starts; cbn [fst snd]; rewrite (Nat.eqb_sym r' r), (Nat.eqb_sym i' i); reflexivity|].
        split; [intros r' j'; unfold set2; rewrite lastn_snoc, I3, I1; unfold ends; cbn [fst snd]; rewrite (Nat.eqb_sym r' r), (Nat.eqb_sym j'); reflexivity|].
        rewrite !flat_map_app, I4, I5. cbn [flat_map]. rewrite !app_nil_r. auto. }
    apply (G nodes []); [reflexivity|]. unfold inv. cbn [cur nleft nright ea eb topo nx_init length flat_map].
    do 5 (split; [reflexivity|]). apply (repeat_map (@nil nat) (seq 0 N)) || (rewrite <- (seq_length N 0) at 1; apply repeat_map).
  Qed.

  Lemma nx_index s : inv nodes s -> forall r i t, r < batch -> In (i, t) (froot 0 (fs r)) -> nleft s r i = Some (posn (r, (i, t)) nodes, lheight t).
  Proof.
    intros (_ & I2 & _) r i t Hr Ht. rewrite I2. pose proof (froot_nodes _ _ _ _ Ht) as Hn.
    assert (Hi : In (r, (i, t)) nodes) by (apply Hin; auto). pose proof (posn_spec _ _ Hi) as Hk.
    apply (@lastn_at (starts r i) nodes _ (r, (i, t))); auto.
    - unfold starts. cbn [fst snd]. now rewrite !Nat.eqb_refl.
    - intros k' [r' [i' c]] Hlt Hy. unfold starts. cbn [fst snd].
      destruct (Nat.eqb_spec r' r) as [->|]; [|reflexivity]. destruct (Nat.eqb_spec i' i) as [->|]; [|reflexivity]. exfalso.
      pose proof (Hord Hk Hy Hlt) as S1. cbn [snd] in S1. pose proof (nth_error_In _ _ Hy) as Hcy. apply Hin in Hcy as [_ Hcy].
      pose proof (lsize_pos t). pose proof (lsize_pos c).
      assert (c = t).
      { destruct (fnodes_nested _ _ _ _ _ _ Hn Hcy) as [K|[K|[K|K]]]; [lia|lia| |].
        - apply lnodes_top in K; [tauto|lia].
        - destruct (froot_max _ _ _ _ _ _ Ht Hcy K); auto. }
      subst c. pose proof (@posn_nth _ _ _ Hnd Hy). lia.
  Qed.
End Loop.

Lemma indexes_nodup sh : NoDup (indexes sh).
Proof.
  induction sh as [|n sh IH]; cbn [indexes]; [repeat constructor; auto|]. apply NoDup_flat_map.
  - apply seq_NoDup.
  - intros a _. apply NoDup_map_inj; auto. intros x y _ _ [= ->]. reflexivity.
  - intros a a' b _ _ H1 H2. apply in_map_iff in H1 as (x & <- & _). apply in_map_iff in H2 as (y & [= -> _] & _). reflexivity.
Qed.
(** summing a 0/1 function counts its support *)
Lemma zsum_support (f : list nat -> Z) l : (forall x, In x l -> f x = 0%Z \/ f x = 1%Z) ->
  fold_right Z.add 0%Z (map f l) = Z.of_nat (length (filter (fun i => negb (f i =? 0)%Z) l)).
Proof.
  induction l as [|x l IH]; intro H; [reflexivity|]. cbn [map fold_right filter]. rewrite IH by (intros; apply H; right; auto).
  destruct (H x (or_introl eq_refl)) as [E|E]; rewrite E; cbn [Z.eqb negb length]; lia.
Qed.
Lemma perm_nth A (d : A) l : map (fun k => nth k l d) (seq 0 (length l)) = l.
Proof.
  apply (nth_ext _ _ d d); [now rewrite map_length, seq_length|]. intros n Hn. rewrite map_length, seq_length in Hn.
  rewrite (nth_indep _ d (nth 0 l d)) by now rewrite map_length, seq_length.
  rewrite (map_nth (fun k => nth k l d)), seq_nth by auto. reflexivity.
Qed.

Theorem to_networkx_spec spans perm N batch S (fs : nat -> list ltree) :
  shape spans = [batch; N; N; S] -> is_argsort (nx_keys (nonzero spans)) perm ->
  (forall r, r < batch -> Forall (lbounded S) (fs r) /\ fsize (fs r) <= N /\ represents spans r (fparts r 0 (fs r))) ->
  exists nodes n_nodes a b label indices topo, to_networkx perm spans = Ok ((n_nodes, a, b, label), indices, topo) /\
    is_graph N batch fs nodes n_nodes a b label indices topo.
Proof.
  intros Hsh [Hperm Hsorted] Hf.
  set (all := flat_map (fun r => map (pair r) (fnodes 0 (fs r))) (seq 0 batch)).
  assert (Hall : forall r i q, In (r, (i, q)) all <-> r < batch /\ In (i, q) (fnodes 0 (fs r))).
  { intros r i q. unfold all. rewrite in_flat_map. split.
    - intros (r' & Hr & H). apply in_map_iff in H as (p & [= -> ->] & H). apply in_seq in Hr. split; [lia|auto].
    - intros [Hr H]. exists r. split; [apply in_seq; lia|]. now apply in_map. }
  assert (Nall : NoDup all).
  { apply NoDup_flat_map; [apply seq_NoDup| |].
    - intros r _. apply NoDup_map_inj; [intros x y _ _ [= ->]; reflexivity|apply fnodes_nodup].
    - intros r r' x _ _ H1 H2. apply in_map_iff in H1 as (? & <- & _). apply in_map_iff in H2 as (? & [= -> _] & _). reflexivity. }
  assert (Inj : forall x y, In x all -> In y all -> span_of x = span_of y -> x = y).
  { intros [r [i q]] [r' [i' q']] H1 H2 [= -> -> Es _]. apply Hall in H1 as [_ H1], H2 as [_ H2].
    pose proof (lsize_pos q). pose proof (lsize_pos q'). rewrite (fnodes_unique _ _ _ _ _ H1 H2); [reflexivity|lia]. }
  assert (Nparts : forall r, r < batch -> NoDup (fparts r 0 (fs r))).
  { intros r Hr. rewrite fparts_nodes. apply NoDup_map_inj; [|apply fnodes_nodup].
    intros [i q] [i' q'] H1 H2 E. assert (X := Inj (r, (i, q)) (r, (i', q'))). rewrite !Hall in X. specialize (X (conj Hr H1) (conj Hr H2) E). congruence. }
  assert (Range : forall x, In x all -> Forall2 lt (span_of x) (shape spans)).
  { intros [r [i q]] H. apply Hall in H as [Hr H]. destruct (Hf r Hr) as (Hb & Hs & _). rewrite Hsh. cbn [span_of].
    pose proof (@fnodes_label _ _ Hb _ _ _ H). pose proof (lsize_pos q). apply fnodes_in in H. f2; lia. }
  assert (Hcov : Permutation (nonzero spans) (map span_of all)).
  { apply NoDup_Permutation.
    - apply NoDup_filter, indexes_nodup.
    - apply NoDup_map_inj; auto.
    - intro e. rewrite nonzero_in, in_map_iff. split.
      + intros [H1 H2]. rewrite Hsh in H1. inversion H1 as [|r ? e' ? Hr He]; subst. destruct (Hf r Hr) as (_ & _ & Hrep).
        apply (represents_in (Nparts r Hr) Hrep) in H2; [|now rewrite Hsh]. rewrite fparts_nodes in H2.
        apply in_map_iff in H2 as ([i q] & Ep & Hq). exists (r, (i, q)). split; auto. apply Hall. auto.
      + intros ([r [i q]] & <- & H). split; [now apply Range|]. specialize (Range _ H). rewrite Hsh in Range.
        apply Hall in H as [Hr H]. destruct (Hf r Hr) as (_ & _ & Hrep). cbn [span_of] in *. inversion Range; subst.
        apply (represents_in (Nparts r Hr) Hrep); [now rewrite Hsh|]. rewrite fparts_nodes. apply in_map_iff. exists (i, q). auto. }
  set (cover := nonzero spans) in *. set (ordered := map (fun k => nth k cover []) perm).
  assert (Hkl : length (nx_keys cover) = length cover) by apply map_length.
  assert (Hord : Permutation ordered (map span_of all)).
  { eapply perm_trans; [|exact Hcov]. unfold ordered. rewrite Hkl in Hperm. apply perm_trans with (map (fun k => nth k cover []) (seq 0 (length cover))); [now apply Permutation_map|]. now rewrite perm_nth. }
  apply Permutation_map_inv in Hord as (nodes & Eo & Hp).
  assert (Nn : NoDup nodes) by (eapply Permutation_NoDup; eauto).
  assert (Hin : forall r i q, In (r, (i, q)) nodes <-> r < batch /\ In (i, q) (fnodes 0 (fs r))).
  { intros r i q. rewrite <- Hall. split; apply Permutation_in; auto. now symmetry. }
  assert (Hsz : forall r, r < batch -> fsize (fs r) <= N) by (intros r Hr; apply Hf; auto).
  assert (Hnth : forall k x, nth_error nodes k = Some x -> k < length perm /\ nth k ordered [] = span_of x).
  { intros k x Hk. assert (k < length nodes) by (apply nth_error_Some; congruence).
    assert (length perm = length nodes). { apply (f_equal (@length _)) in Eo. unfold ordered in Eo. now rewrite !map_length in Eo. }
    split; [lia|]. rewrite Eo. rewrite (nth_indep _ [] (span_of x)) by (now rewrite map_length). rewrite map_nth. f_equal. now apply nth_error_nth. }
  assert (Hkey : forall k x, nth_error nodes k = Some x -> nth (nth k perm 0) (nx_keys cover) 0%Z = (Z.of_nat (lsize (snd (snd x))) - 1)%Z).
  { intros k x Hk. destruct (Hnth k x Hk) as [Hl E]. unfold nx_keys.
    assert (nth k perm 0 < length cover).
    { assert (In (nth k perm 0) perm) by (apply nth_In; auto). eapply Permutation_in in H; [|exact Hperm]. apply in_seq in H. rewrite Hkl in H. lia. }
    assert (E2 : nth (nth k perm 0) cover [] = span_of x).
    { rewrite <- E. unfold ordered. symmetry. erewrite nth_indep; [apply (map_nth (fun k => nth k cover []))|now rewrite map_length]. }
    set (f := fun e : list nat => (Z.of_nat (nth 2 e 0%nat) - Z.of_nat (nth 1 e 0%nat))%Z).
    change 0%Z with (f []). rewrite map_nth. rewrite E2. destruct x as [r [i q]]. unfold f. cbn [span_of nth snd]. pose proof (lsize_pos q). lia. }
  assert (Hmono : forall k k' x y, nth_error nodes k = Some x -> nth_error nodes k' = Some y -> k < k' -> lsize (snd (snd x)) <= lsize (snd (snd y))).
  { intros k k' x y H1 H2 Hlt. destruct (Hnth _ _ H2) as [Hl _]. specialize (Hsorted k k' (conj Hlt Hl)). rewrite (Hkey _ _ H1), (Hkey _ _ H2) in Hsorted. lia. }
  destruct (@nx_loop N batch fs nodes Nn Hin Hsz Hmono) as (s & El & Hs).
  pose proof (@nx_index N batch fs nodes Nn Hin Hmono s Hs) as Hidx.
  destruct Hs as (_ & _ & _ & I4 & I5 & I6).
  exists nodes. do 6 eexists. split.
  { unfold to_networkx. rewrite Hsh. fold cover. fold ordered. rewrite Eo, El. cbn [bind]. reflexivity. }
  split; auto.
  - rewrite zsum_support.
    + rewrite <- Hsh. change (Z.of_nat (length cover) = Z.of_nat (length nodes)). f_equal.
      transitivity (length ordered); [|rewrite Eo; apply map_length]. unfold ordered. rewrite map_length.
      rewrite (Permutation_length Hperm), seq_length. now symmetry.
    + intros e He. apply indexes_in in He. inversion He as [|r ? e' ? Hr He']; subst. destruct (Hf r Hr) as (_ & _ & Hrep).
      rewrite Hrep by now rewrite Hsh. rewrite count_nodup by auto. destruct (in_dec _ _ _); auto.
  - rewrite map_map. apply map_ext. intros [r [i q]]. reflexivity.
Qed.
