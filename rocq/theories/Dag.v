(** * Dag: backward passes over graphs with shared nodes.

    Terms.v unfolds the computation graph into a tree. PyTorch keeps shared
    nodes: a node is visited once, after the gradients of all its users have been
    added up (torch.autograd). This file runs the backward passes on any such
    graph and relates them to the tree. *)
From Coq Require Import ZArith.
From Verif Require Import Base Ops Terms Poly Semirings Grad Sample Shape.
Set Implicit Arguments.

(** a node of the recorded graph; arguments are numbers of earlier nodes. The
    kinds are those of [term] (Terms.v). *)
Inductive node :=
| NLeaf (e : list nat) | NOver (e : list nat) | NOne | NZero
| NSum (l : list nat) | NMul (a b : nat).
(** the recorded graph, in order of creation *)
Definition dag := list node.
(** node k of the graph *)
Definition ndof (g : dag) (k : nat) : node := nth k g NZero.

(** every node only uses earlier ones; sums have arguments *)
Definition topo (g : dag) : Prop := forall k,
  match ndof g k with
  | NSum l => l <> [] /\ Forall (fun i => i < k) l
  | NMul a b => a < k /\ b < k
  | _ => True
  end.

(** ** Values computed in order *)
Section Tab.
  Variables (A : Type) (d : A) (step : nat -> (nat -> A) -> A).
  (** proof device: table of the first n values, each computed from the earlier ones *)
  Fixpoint tab (n : nat) : nat -> A :=
    match n with
    | 0 => fun _ => d
    | S k => fun v => if v =? k then step k (tab k) else tab k v
    end.
  (** proof device: value k of that table *)
  Definition inorder (k : nat) : A := tab (S k) k.
  Lemma tab_stable n : forall i, i < n -> tab n i = inorder i.
  Proof.
    induction n as [|n IH]; intros i Hi; [lia|]. simpl. destruct (Nat.eqb_spec i n) as [->|].
    - unfold inorder. simpl. now rewrite Nat.eqb_refl.
    - apply IH. lia.
  Qed.
  Lemma inorder_eq : (forall k f f', (forall i, i < k -> f i = f' i) -> step k f = step k f') ->
    forall k, inorder k = step k inorder.
  Proof.
    intros H k. unfold inorder at 1. simpl. rewrite Nat.eqb_refl. apply H. intros i Hi. now apply tab_stable.
  Qed.
End Tab.

Section Graph.
  Variable g : dag.

  (** the tree that node k stands for *)
  Definition unf_step (k : nat) (f : nat -> term) : term :=
    match ndof g k with
    | NLeaf e => TLeaf e | NOver e => TOver e | NOne => TOne | NZero => TZero
    | NSum l => TSum (map f l) | NMul a b => TMul (f a) (f b)
    end.
  (** the tree that node k stands for *)
  Definition unf : nat -> term := inorder TZero unf_step.

  (** forward pass over the graph: every node computed once (semirings.py [sum],
      [mul] on tensors; torch records one node per operation) *)
  Definition fwd_step (O : ops) (v : list nat -> car O) (k : nat) (f : nat -> car O) : car O :=
    match ndof g k with
    | NLeaf e => v e | NOver e => sover O e | NOne => sone O | NZero => szero O
    | NSum l => ssum O (map f l) | NMul a b => smul O (f a) (f b)
    end.
  (** forward values of all nodes *)
  Definition fwd (O : ops) (v : list nat -> car O) : nat -> car O := inorder (szero O) (fwd_step O v).

  Hypothesis Ht : topo g.
  Lemma topo_sum k l : ndof g k = NSum l -> l <> [] /\ forall i, In i l -> i < k.
  Proof. intro E. specialize (Ht k). rewrite E in Ht. rewrite Forall_forall in Ht. tauto. Qed.
  Lemma topo_mul k a b : ndof g k = NMul a b -> a < k /\ b < k.
  Proof. intro E. specialize (Ht k). now rewrite E in Ht. Qed.

  Lemma unf_eq k : unf k = unf_step k unf.
  Proof.
    apply inorder_eq. intros i f f' H. unfold unf_step. destruct (ndof g i) eqn:E; auto.
    - f_equal. apply map_ext_in. intros c Hc. apply H. now apply (topo_sum i E).
    - destruct (topo_mul i E). now rewrite !H.
  Qed.
  Lemma fwd_eq O v k : fwd O v k = fwd_step O v k (fwd O v).
  Proof.
    apply inorder_eq. intros i f f' H. unfold fwd_step. destruct (ndof g i) eqn:E; auto.
    - f_equal. apply map_ext_in. intros c Hc. apply H. now apply (topo_sum i E).
    - destruct (topo_mul i E). now rewrite !H.
  Qed.
  Lemma unf_wf k : twf (unf k).
  Proof.
    induction k as [k IH] using lt_wf_ind. rewrite unf_eq. unfold unf_step.
    destruct (ndof g k) eqn:E; constructor.
    - destruct (topo_sum k E) as [H _]. destruct l; simpl; congruence.
    - apply Forall_forall. intros t H. apply in_map_iff in H as (c & <- & Hc). apply IH. now apply (topo_sum k E).
    - apply IH, (topo_mul k E).
    - apply IH, (topo_mul k E).
  Qed.
  (** sharing does not change values *)
  Theorem fwd_unf O v k : fwd O v k = leval O v (unf k).
  Proof.
    induction k as [k IH] using lt_wf_ind. rewrite fwd_eq, unf_eq. unfold fwd_step, unf_step.
    destruct (ndof g k) eqn:E; simpl; auto.
    - f_equal. rewrite map_map. apply map_ext_in. intros c Hc. apply IH. now apply (topo_sum k E).
    - destruct (topo_mul k E). now rewrite !IH.
  Qed.

  (** ** The backward pass *)
  Section Back.
    Variable S : csr.
    Add Ring Sring5 : (csr_srt S).
    (** [send k x i]: what node k passes to its i-th argument when its own gradient is x *)
    Variable send : nat -> S -> nat -> S.
    (** torch.autograd accumulates: the gradient of node c grows by x *)
    Definition addto (gr : nat -> S) (c : nat) (x : S) : nat -> S :=
      fun v => if v =? c then kadd (gr v) x else gr v.
    (** the gradients sent to a list of arguments are accumulated one after the other *)
    Fixpoint scatter (l : list nat) (i : nat) (s : nat -> S) (gr : nat -> S) : nat -> S :=
      match l with [] => gr | c :: l' => scatter l' (Datatypes.S i) s (addto gr c (s i)) end.
    (** backward step of one node: sums and products send to their arguments (helpers.py:97-116) *)
    Definition bstep (k : nat) (gr : nat -> S) : nat -> S :=
      match ndof g k with
      | NSum l => scatter l 0 (send k (gr k)) gr
      | NMul a b => addto (addto gr a (gr k)) b (gr k)
      | _ => gr
      end.
    (** nodes n-1, ..., 0 *)
    Fixpoint bpass (n : nat) (gr : nat -> S) : nat -> S :=
      match n with 0 => gr | Datatypes.S k => bpass k (bstep k gr) end.
    (** gradient 1 at the root, 0 elsewhere *)
    Definition binit (r : nat) : nat -> S := fun v => if v =? r then k1 else k0.
    (** helpers.py:97-116: [torch.autograd.grad] from the root, gradient 1 *)
    Definition node_grads (r : nat) : nat -> S := bpass (Datatypes.S r) (binit r).
    (** whether node k reads entry e of the potentials *)
    Definition sel (e : list nat) (k : nat) : S :=
      match ndof g k with
      | NLeaf e' | NOver e' => if list_eq_dec Nat.eq_dec e e' then k1 else k0
      | _ => k0
      end.
    (** gradient of entry e of the potentials: all reads of it *)
    Definition dgrad (r : nat) (e : list nat) : S :=
      Sum S (fun k => kmul (node_grads r k) (sel e k)) (seq 0 (Datatypes.S r)).

    (** proof device: sum of gradient times value over the first n nodes *)
    Definition pair_sum (n : nat) (gr V : nat -> S) : S := Sum S (fun v => kmul (gr v) (V v)) (seq 0 n).
    Lemma pair_S n gr V : pair_sum (Datatypes.S n) gr V = kadd (pair_sum n gr V) (kmul (gr n) (V n)).
    Proof. unfold pair_sum. rewrite seq_S, Sum_app, Sum_one. reflexivity. Qed.
    Lemma addto_pair n gr c x V : c < n ->
      pair_sum n (addto gr c x) V = kadd (pair_sum n gr V) (kmul x (V c)).
    Proof.
      induction n as [|n IH]; intro Hc; [lia|]. rewrite !pair_S. unfold addto at 2.
      destruct (Nat.eqb_spec n c) as [->|].
      - assert (E : pair_sum c (addto gr c x) V = pair_sum c gr V).
        { unfold pair_sum. apply Sum_ext_in. intros v Hv. apply in_seq in Hv. unfold addto.
          destruct (Nat.eqb_spec v c); [lia|reflexivity]. }
        rewrite E. ring.
      - rewrite IH by lia. ring.
    Qed.
    Lemma scatter_pair n V s l : forall i gr, (forall c, In c l -> c < n) ->
      pair_sum n (scatter l i s gr) V = kadd (pair_sum n gr V) (ksum S (mapi (fun j c => kmul (s j) (V c)) i l)).
    Proof.
      induction l as [|c l IH]; intros i gr H; simpl.
      - ring.
      - rewrite IH by (intros; apply H; now right). rewrite addto_pair by (apply H; now left). ring.
    Qed.
    Lemma scatter_other s l : forall i gr v, ~ In v l -> scatter l i s gr v = gr v.
    Proof.
      induction l as [|c l IH]; intros i gr v H; simpl; auto. rewrite IH by (intro; apply H; now right).
      unfold addto. destruct (Nat.eqb_spec v c); auto. subst. destruct H. now left.
    Qed.
    Lemma bstep_other k gr v : k <= v -> bstep k gr v = gr v.
    Proof.
      intro H. unfold bstep. destruct (ndof g k) eqn:E; auto.
      - apply scatter_other. intro Hc. apply (topo_sum k E) in Hc. lia.
      - destruct (topo_mul k E). unfold addto.
        destruct (Nat.eqb_spec v b), (Nat.eqb_spec v a); auto; lia.
    Qed.
    Lemma bpass_other n : forall gr v, n <= v -> bpass n gr v = gr v.
    Proof.
      induction n as [|n IH]; intros gr v H; simpl; auto. rewrite IH by lia. apply bstep_other. lia.
    Qed.
    Lemma pair_ext n gr gr' V : (forall v, v < n -> gr v = gr' v) -> pair_sum n gr V = pair_sum n gr' V.
    Proof. intro H. apply Sum_ext_in. intros v Hv. apply in_seq in Hv. rewrite H by lia. reflexivity. Qed.
    Lemma pair_init n r V : r < n -> pair_sum n (binit r) V = V r.
    Proof.
      induction n as [|n IH]; intro H; [lia|]. rewrite pair_S. unfold binit at 2.
      destruct (Nat.eqb_spec n r) as [->|].
      - assert (E : pair_sum r (binit r) V = k0).
        { unfold pair_sum. apply Sum_zero. intros v Hv. apply in_seq in Hv. unfold binit.
          destruct (Nat.eqb_spec v r); [lia|]. ring. }
        rewrite E. ring.
      - rewrite IH by lia. ring.
    Qed.

    (** *** Rules that scale the incoming gradient *)
    Section Linear.
      Variable w : nat -> nat -> S.
      Hypothesis Hw : forall k x i, send k x i = kmul x (w k i).
      Variable e : list nat.
      (** the value that the pass distributes *)
      Definition backs (V : nat -> S) (k : nat) : Prop :=
        match ndof g k with
        | NSum l => V k = ksum S (mapi (fun i c => kmul (w k i) (V c)) 0 l)
        | NMul a b => V k = kadd (V a) (V b)
        | _ => V k = sel e k
        end.
      Lemma ksum_mapi_scale x (f : nat -> nat -> S) l : forall i,
        ksum S (mapi (fun j c => kmul x (f j c)) i l) = kmul x (ksum S (mapi f i l)).
      Proof. induction l as [|c l IH]; intro i; simpl; [ring|]. rewrite IH. ring. Qed.
      Lemma bstep_pair V k gr : backs V k -> 
        kadd (pair_sum k (bstep k gr) V) (kmul (gr k) (sel e k)) = kadd (pair_sum k gr V) (kmul (gr k) (V k)).
      Proof.
        unfold backs, bstep, sel. destruct (ndof g k) eqn:E; intro H; rewrite ?H; try ring.
        - rewrite scatter_pair by apply (topo_sum k E).
          rewrite (@mapi_ext_in _ _ _ (fun j c => kmul (gr k) (kmul (w k j) (V c)))).
          + rewrite ksum_mapi_scale. ring.
          + intros j c _. rewrite Hw. ring.
        - destruct (topo_mul k E). rewrite !addto_pair by auto. ring.
      Qed.
      Theorem bpass_linear V : (forall k, backs V k) -> forall n gr,
        pair_sum n (bpass n gr) (sel e) = pair_sum n gr V.
      Proof.
        intro HV. induction n as [|n IH]; intro gr; [reflexivity|].
        rewrite !pair_S. simpl. rewrite IH, bpass_other, bstep_other by lia. rewrite bstep_pair by auto. reflexivity.
      Qed.
      Theorem dgrad_linear V r : (forall k, backs V k) -> dgrad r e = V r.
      Proof.
        intro HV. unfold dgrad, node_grads.
        change (pair_sum (Datatypes.S r) (bpass (Datatypes.S r) (binit r)) (sel e) = V r).
        rewrite (@bpass_linear V HV). apply pair_init. lia.
      Qed.
    End Linear.
  End Back.
End Graph.

(** ** Linear rules: the shared graph and the tree give the same gradient *)
Local Open Scope R_scope.
Section Paths.
  Variable g : dag.
  Hypothesis Ht : topo g.
  (** proof device: i-th argument of node k *)
  Definition child (k i : nat) : nat :=
    match ndof g k with NSum l => nth i l 0%nat | NMul a b => if (i =? 0)%nat then a else b | _ => 0%nat end.
  (** node reached from r along a path of the tree *)
  Fixpoint nodeat (r : nat) (p : path) : nat :=
    match p with [] => r | i :: p' => child (nodeat r p') i end.
  Variable w : nat -> nat -> R.
  (** proof device: a sending rule that is linear in the gradient *)
  Definition lin_send (k : nat) (x : R) (i : nat) : R := x * w k i.
  (** proof device: derivative of node k from those of its arguments *)
  Definition bval_step (e : list nat) (k : nat) (f : nat -> R) : R :=
    match ndof g k with
    | NSum l => ksum R_csr (mapi (fun i c => w k i * f c) 0 l)
    | NMul a b => f a + f b
    | _ => sel g R_csr e k
    end.
  (** proof device: derivative of node k with respect to entry e *)
  Definition bval (e : list nat) : nat -> R := inorder 0 (bval_step e).
  Lemma bval_eq e k : bval e k = bval_step e k (bval e).
  Proof.
    apply inorder_eq. intros i f f' H. unfold bval_step. destruct (ndof g i) eqn:E; auto.
    - f_equal. apply mapi_ext_in. intros j c Hc. rewrite H; auto. now apply (topo_sum Ht i E).
    - destruct (topo_mul Ht i E). now rewrite !H.
  Qed.
  Lemma mapi_map_in A B C (f : nat -> B -> C) (h : A -> B) l : forall i,
    mapi f i (map h l) = mapi (fun j a => f j (h a)) i l.
  Proof. induction l as [|a l IH]; intro i; simpl; auto. now rewrite IH. Qed.
  Lemma bp_bval r e : forall k p x, nodeat r p = k ->
    bp (fun p _ i => w (nodeat r p) i) p (unf g k) x e = x * bval e k.
  Proof.
    intro k. induction k as [k IH] using lt_wf_ind. intros p x Hp.
    rewrite bval_eq, (unf_eq Ht). unfold bval_step, unf_step, sel. destruct (ndof g k) eqn:E; cbn [bp].
    - destruct (list_eq_dec Nat.eq_dec e e0); cbn [R_csr k0 k1 K]; ring.
    - destruct (list_eq_dec Nat.eq_dec e e0); cbn [R_csr k0 k1 K]; ring.
    - cbn [R_csr k0]; ring.
    - cbn [R_csr k0]; ring.
    - rewrite mapi_map_in.
      transitivity (ksum R_csr (mapi (fun i c => @kmul R_csr x (@kmul R_csr (w k i) (bval e c))) 0 l)).
      + f_equal. apply mapi_ext_nth. intros j c Hc. simpl.
        assert (Hin := nth_error_In _ _ Hc). rewrite IH; [rewrite Hp; ring|now apply (topo_sum Ht k E)|].
        simpl. rewrite Hp. unfold child. rewrite E. now apply nth_error_nth.
      + rewrite (ksum_mapi_scale R_csr). reflexivity.
    - destruct (topo_mul Ht k E). rewrite !IH; auto.
      + ring.
      + simpl. rewrite Hp. unfold child. rewrite E. reflexivity.
      + simpl. rewrite Hp. unfold child. rewrite E. reflexivity.
  Qed.
  Theorem dgrad_bp r e :
    dgrad g R_csr lin_send r e = bp (fun p _ i => w (nodeat r p) i) [] (unf g r) 1 e.
  Proof.
    rewrite (@bp_bval r e r [] 1 eq_refl), Rmult_1_l.
    apply (dgrad_linear Ht R_csr lin_send w (fun _ _ _ => eq_refl)).
    intro k. unfold backs. pose proof (bval_eq e k) as H. unfold bval_step in H.
    destruct (ndof g k); exact H.
  Qed.
End Paths.

(** softmax weights at the nodes, from the forward values *)
Definition soft_at (g : dag) (z : R) (phi : list nat -> R) (k i : nat) : R :=
  match ndof g k with
  | NSum l => let v := map (fwd g (log_ops z) phi) l in exp (nth i v 0 - lse v)
  | _ => 0
  end.
Lemma bp_ext (w w' : rule) t : forall p, (forall q l i, w q l i = w' q l i) -> forall x e, bp w p t x e = bp w' p t x e.
Proof.
  intros p H. revert p. induction t as [e'|e'| | |l IH|a b IHa IHb] using term_ind'; intros p x e; simpl; auto.
  - f_equal. apply mapi_ext_in. intros j t Hj. rewrite Forall_forall in IH. rewrite H. now apply IH.
  - now rewrite IHa, IHb.
Qed.
(** only the weights at the sum nodes of the tree matter *)
Fixpoint agree (w w' : rule) (p : path) (t : term) : Prop :=
  match t with
  | TMul a b => agree w w' (0%nat :: p) a /\ agree w w' (1%nat :: p) b
  | TSum l => (forall i, w p l i = w' p l i) /\ fold_right and True (mapi (fun i t' => agree w w' (i :: p) t') 0 l)
  | _ => True
  end.
Lemma bp_agree (w w' : rule) t : forall p x e, agree w w' p t -> bp w p t x e = bp w' p t x e.
Proof.
  induction t as [e'|e'| | |l IH|a b IHa IHb] using term_ind'; intros p x e H; simpl; auto.
  - destruct H as [H1 H2]. rewrite fold_and_mapi in H2. f_equal. apply mapi_ext_nth. intros j t Hj.
    rewrite Forall_forall in IH. rewrite H1. apply IH; [apply (nth_error_In _ _ Hj)|]. apply (H2 j t Hj).
  - destruct H. now rewrite IHa, IHb.
Qed.
(** log marginals on the shared graph *)
Theorem dgrad_soft g z phi r e : topo g ->
  dgrad g R_csr (lin_send (soft_at g z phi)) r e = bp (w_soft z phi) [] (unf g r) 1 e.
Proof.
  intro Ht. rewrite (dgrad_bp Ht). apply bp_agree.
  assert (G : forall k p, nodeat g r p = k ->
    agree (fun p _ i => soft_at g z phi (nodeat g r p) i) (w_soft z phi) p (unf g k)); [|now apply G].
  intro k. induction k as [k IH] using lt_wf_ind. intros p Hp. rewrite (unf_eq Ht). unfold unf_step.
  destruct (ndof g k) eqn:E; cbn [agree]; auto.
  - split.
    + intro i. unfold soft_at, w_soft. rewrite Hp, E. cbv zeta. rewrite map_map.
      rewrite (map_ext _ _ (fwd_unf Ht (log_ops z) phi)). reflexivity.
    + rewrite fold_and_mapi. intros j t Hj. simpl. rewrite nth_error_map in Hj.
      destruct (nth_error l j) as [c|] eqn:Ec; [|discriminate]. injection Hj as <-.
      apply IH; [apply (topo_sum Ht k E), (nth_error_In _ _ Ec)|].
      simpl. rewrite Hp. unfold child. rewrite E. now apply nth_error_nth.
  - destruct (topo_mul Ht k E). split; apply IH; auto; simpl; rewrite Hp; unfold child; rewrite E; reflexivity.
Qed.
(** choices made once per node *)
Definition pick_at (o : nat -> nat) (k i : nat) : R := if (i =? o k)%nat then 1 else 0.
(** torch.max at the nodes: an argument of largest value *)
Definition argmax_node (g : dag) (z : R) (phi : list nat -> R) (o : nat -> nat) : Prop :=
  forall k l, ndof g k = NSum l -> exists c, nth_error l (o k) = Some c /\
    is_max (fwd g (max_ops z) phi c) (map (fwd g (max_ops z) phi) l).
Theorem argmax_paths g z phi o r : topo g -> argmax_node g z phi o ->
  argmax_ok z phi (fun p => o (nodeat g r p)) [] (unf g r).
Proof.
  intros Ht Ho.
  assert (G : forall k p, nodeat g r p = k -> argmax_ok z phi (fun p => o (nodeat g r p)) p (unf g k)); [|now apply G].
  intro k. induction k as [k IH] using lt_wf_ind. intros p Hp. rewrite (unf_eq Ht). unfold unf_step.
  destruct (ndof g k) eqn:E; cbn [argmax_ok]; auto.
  + split.
    * rewrite Hp. destruct (Ho k l E) as (c & Hc & Hm). exists (unf g c). split; [now apply map_nth_error|].
      rewrite map_map. rewrite <- (fwd_unf Ht (max_ops z) phi c).
      rewrite <- (map_ext _ _ (fwd_unf Ht (max_ops z) phi)). exact Hm.
    * rewrite fold_and_mapi. intros j t Hj. simpl. rewrite nth_error_map in Hj.
      destruct (nth_error l j) as [c|] eqn:Ec; [|discriminate]. injection Hj as <-.
      apply IH; [apply (topo_sum Ht k E), (nth_error_In _ _ Ec)|].
      simpl. rewrite Hp. unfold child. rewrite E. now apply nth_error_nth.
  + destruct (topo_mul Ht k E). split; apply IH; auto; simpl; rewrite Hp; unfold child; rewrite E; reflexivity.
Qed.
Theorem dgrad_paths g o r e : topo g ->
  dgrad g R_csr (lin_send (pick_at o)) r e = bp (w_pick (fun p => o (nodeat g r p))) [] (unf g r) 1 e.
Proof. intro Ht. rewrite (dgrad_bp Ht). apply bp_ext. reflexivity. Qed.
Local Close Scope R_scope.

(** ** The derivation selected by one choice per node *)
Section Pick.
  Variable g : dag.
  Hypothesis Ht : topo g.
  (** [ov]: nodes whose derivation is fixed from outside *)
  Definition npick_step (o : nat -> nat) (ov : nat -> option deriv) (k : nat) (f : nat -> deriv) : deriv :=
    match ov k with
    | Some m => m
    | None =>
      match ndof g k with
      | NLeaf e => [AL e] | NOver e => [AO e] | NOne => [] | NZero => [AZ]
      | NSum l => f (nth (o k) l (hd 0 l)) | NMul a b => f a ++ f b
      end
    end.
  (** the derivation picked at each node, with some nodes overridden *)
  Definition npick_ov (o : nat -> nat) (ov : nat -> option deriv) : nat -> deriv := inorder [] (npick_step o ov).
  (** the derivation picked at each node *)
  Definition npick (o : nat -> nat) : nat -> deriv := npick_ov o (fun _ => None).
  (** the choice at a sum node is one of its arguments *)
  Definition in_range_at (o : nat -> nat) : Prop := forall k l, ndof g k = NSum l -> o k < length l.

  Lemma pick_child k l i : ndof g k = NSum l -> In (nth i l (hd 0 l)) l.
  Proof.
    intro E. destruct (topo_sum Ht k E) as [H _]. destruct (nth_in_or_default i l (hd 0 l)) as [G|G]; auto.
    rewrite G. destruct l; simpl; [congruence|auto].
  Qed.
  Lemma npick_eq o ov k : npick_ov o ov k = npick_step o ov k (npick_ov o ov).
  Proof.
    apply inorder_eq. intros i f f' H. unfold npick_step. destruct (ov i); auto.
    destruct (ndof g i) eqn:E; auto.
    - apply H. apply (topo_sum Ht i E), (pick_child i _ E).
    - destruct (topo_mul Ht i E). now rewrite !H.
  Qed.
  Theorem npick_in o ov : (forall k m, ov k = Some m -> In m (expand (unf g k))) ->
    forall k, In (npick_ov o ov k) (expand (unf g k)).
  Proof.
    intros Hov. induction k as [k IH] using lt_wf_ind. rewrite npick_eq by auto. unfold npick_step.
    destruct (ov k) as [m|] eqn:Em; [now apply Hov|].
    rewrite (unf_eq Ht). unfold unf_step. destruct (ndof g k) eqn:E; try (simpl; auto; fail).
    - pose proof (pick_child k (o k) E) as Hc.
      cbn [expand]. apply in_flat_map. eexists. split; [apply in_map; exact Hc|].
      apply IH. now apply (topo_sum Ht k E).
    - destruct (topo_mul Ht k E). cbn [expand]. apply in_prods.
      exists (npick_ov o ov a), (npick_ov o ov b). auto.
  Qed.
  (** choices above k do not matter *)
  Lemma npick_local o o' k : (forall i, i <= k -> o i = o' i) -> npick o k = npick o' k.
  Proof.
    induction k as [k IH] using lt_wf_ind. intro H. unfold npick in *.
    rewrite !npick_eq by auto. unfold npick_step. destruct (ndof g k) eqn:E; auto.
    - rewrite (H k (le_n k)). pose proof (pick_child k (o' k) E) as Hc. apply (topo_sum Ht k E) in Hc.
      apply IH; auto. intros i Hi. apply H. lia.
    - destruct (topo_mul Ht k E). f_equal; apply IH; auto; intros i Hi; apply H; lia.
  Qed.
End Pick.

(** ** Packed samples *)
Local Open Scope Z_scope.
(** the integers as a commutative semiring (packed samples are int64, sample.py:171-208) *)
Definition Z_csr : csr.
Proof. refine (@Csr Z 0 1 Z.add Z.mul _ _ _ _ _ _ _ _); intros; ring. Defined.

Section Packed.
  Variable g : dag.
  Hypothesis Ht : topo g.
  (** one sample: the gradient goes to the chosen argument *)
  Definition one_send (o : nat -> nat) (k : nat) (x : Z) (i : nat) : Z :=
    x * (if (i =? o k)%nat then 1 else 0).
  (** sample.py:171-208, [o k j]: the j-th of the 16 draws of node k *)
  Definition multi_send (o : nat -> nat -> nat) (k : nat) (x : Z) (i : nat) : Z :=
    zsum16 (fun j => bits j * (if (o k j =? i)%nat && active x j then 1 else 0)).
  (** proof device: a rule that sends nothing *)
  Definition no_send (k : nat) (x : Z) (i : nat) : Z := x * 0.

  Lemma zsum_ksum l : ksum Z_csr l = fold_right Z.add 0 l. Proof. reflexivity. Qed.

  Lemma npick_backs o ov e k : in_range_at g o -> ov k = None ->
    backs g Z_csr (fun k i => if (i =? o k)%nat then 1 else 0) e (fun v => zcount e (npick_ov g o ov v)) k.
  Proof.
    intros Ho Hov. unfold backs, sel.
    pose proof (npick_eq Ht o ov k) as P. unfold npick_step in P. rewrite Hov in P.
    destruct (ndof g k) eqn:E; rewrite P.
    - unfold zcount; simpl. destruct (list_eq_dec Nat.eq_dec e e0); reflexivity.
    - unfold zcount; simpl. destruct (list_eq_dec Nat.eq_dec e e0); reflexivity.
    - reflexivity.
    - reflexivity.
    - rewrite zsum_ksum. assert (L := Ho k l E).
      destruct (nth_error l (o k)) as [c|] eqn:Ec; [|apply nth_error_None in Ec; lia].
      rewrite (@zfold_mapi_delta _ _ l (o k) c 0 Ec).
      + rewrite Nat.add_0_l, Nat.eqb_refl. rewrite (nth_error_nth _ _ _ Ec). symmetry. apply Z.mul_1_l.
      + intros j a Hj. rewrite Nat.add_0_l. apply Nat.eqb_neq in Hj. rewrite Hj. reflexivity.
    - apply zcount_app.
  Qed.
  Theorem dgrad_one o r e : in_range_at g o -> dgrad g Z_csr (one_send o) r e = zcount e (npick g o r).
  Proof.
    intro Ho.
    apply (dgrad_linear Ht Z_csr (one_send o) (fun k i => if (i =? o k)%nat then 1 else 0) (fun _ _ _ => eq_refl)
      e (fun v => zcount e (npick g o v))).
    intro k. now apply npick_backs.
  Qed.

  (** *** How often a sample visits a node *)
  Definition nonneg (gr : nat -> Z) : Prop := forall v, 0 <= gr v.
  Lemma addto_nonneg gr c x : nonneg gr -> 0 <= x -> nonneg (addto Z_csr gr c x).
  Proof. intros H Hx v. unfold addto. specialize (H v). destruct (v =? c)%nat; cbn [kadd Z_csr]; lia. Qed.
  Lemma scatter_nonneg s l : (forall i, 0 <= s i) -> forall i gr, nonneg gr -> nonneg (scatter Z_csr l i s gr).
  Proof. intro Hs. induction l as [|c l IH]; intros i gr H; simpl; auto. apply IH, addto_nonneg; auto. Qed.
  Lemma bstep_nonneg send k gr : (forall x i, 0 <= x -> 0 <= send k x i) -> nonneg gr -> nonneg (bstep g Z_csr send k gr).
  Proof.
    intros Hs H. unfold bstep. destruct (ndof g k); auto.
    - apply scatter_nonneg; auto.
    - apply addto_nonneg; [apply addto_nonneg|]; auto.
  Qed.
  Lemma bpass_nonneg send n : (forall k x i, 0 <= x -> 0 <= send k x i) -> forall gr, nonneg gr -> nonneg (bpass g Z_csr send n gr).
  Proof. intro Hs. induction n as [|n IH]; intros gr H; simpl; auto. apply IH, bstep_nonneg; auto. Qed.
  Lemma one_send_nonneg o k x i : 0 <= x -> 0 <= one_send o k x i.
  Proof. unfold one_send. destruct (i =? o k)%nat; lia. Qed.
  Lemma pair_nonneg n gr V : nonneg gr -> (forall v, 0 <= V v) -> 0 <= pair_sum Z_csr n gr V.
  Proof.
    intros H HV. induction n as [|n IH]; [apply Z.le_refl|]. rewrite pair_S. cbn [kadd kmul Z_csr].
    specialize (H n). specialize (HV n). nia.
  Qed.
  Lemma sel_nonneg e k : 0 <= sel g Z_csr e k.
  Proof. unfold sel. destruct (ndof g k) as [e0|e0| | | |]; cbn; try destruct (list_eq_dec Nat.eq_dec e e0); cbn; lia. Qed.

  Lemma visits_bound o e ov k0 : in_range_at g o -> (forall k, k <> k0 -> ov k = None) ->
    forall n gr, (k0 < n)%nat -> nonneg gr ->
    bpass g Z_csr (one_send o) n gr k0 * zcount e (npick_ov g o ov k0)
      <= pair_sum Z_csr n gr (fun v => zcount e (npick_ov g o ov v)).
  Proof.
    intros Ho Hov. induction n as [|n IH]; intros gr Hn Hg; [lia|].
    rewrite pair_S. cbn [bpass kadd kmul Z_csr].
    destruct (Nat.eq_dec n k0) as [->|Hne].
    - rewrite (bpass_other Ht), (bstep_other Ht) by lia.
      assert (0 <= pair_sum Z_csr k0 gr (fun v => zcount e (npick_ov g o ov v)))
        by (apply pair_nonneg; auto; intro; apply zcount_nonneg). lia.
    - pose proof (bstep_pair Ht Z_csr (one_send o) (fun k i => if (i =? o k)%nat then 1 else 0) (fun _ _ _ => eq_refl)
        e (fun v => zcount e (npick_ov g o ov v)) n gr (npick_backs ov e n Ho (Hov n Hne))) as B.
      cbn [kadd kmul Z_csr] in B. rewrite <- B.
      etransitivity; [apply IH; [lia|]|].
      + apply bstep_nonneg; auto. intros; now apply one_send_nonneg.
      + pose proof (sel_nonneg e n). specialize (Hg n). nia.
  Qed.

  (** some derivation of the node mentions a potential *)
  Definition named (k : nat) : Prop := exists m e, In m (expand (unf g k)) /\ In e (names m).

  Theorem visits_once o r k : in_range_at g o -> multilinear (unf g r) -> (k <= r)%nat -> named k ->
    node_grads g Z_csr (one_send o) r k <= 1.
  Proof.
    intros Ho Hm Hk (m & e & Hin & He).
    set (ov := fun v => if (v =? k)%nat then Some m else None).
    assert (Hov : forall v, v <> k -> ov v = None).
    { intros v Hv. unfold ov. destruct (Nat.eqb_spec v k); congruence. }
    assert (Hov2 : forall v m', ov v = Some m' -> In m' (expand (unf g v))).
    { intros v m'. unfold ov. destruct (Nat.eqb_spec v k); [|discriminate]. intros [= <-]. subst. exact Hin. }
    pose proof (@visits_bound o e ov k Ho Hov (S r) (binit Z_csr r) ltac:(lia)) as B.
    assert (Hn : nonneg (binit Z_csr r)) by (intro v; unfold binit; destruct (v =? r)%nat; cbn; lia).
    specialize (B Hn). rewrite (@pair_init Z_csr (S r) r) in B by lia.
    assert (E1 : npick_ov g o ov k = m).
    { rewrite (npick_eq Ht) by auto. unfold npick_step, ov. now rewrite Nat.eqb_refl. }
    rewrite E1 in B.
    assert (H1 : zcount e (npick_ov g o ov r) <= 1) by (eapply multilinear_zcount; [exact Hm|now apply npick_in]).
    assert (H2 : 1 <= zcount e m).
    { rewrite zcount_names. pose proof (proj1 (count_occ_In (list_eq_dec Nat.eq_dec) (names m) e) He). lia. }
    unfold node_grads in *.
    set (x := bpass g Z_csr (one_send o) (S r) (binit Z_csr r) k) in *.
    nia.
  Qed.

  Lemma unf_some k : exists m, In m (expand (unf g k)).
  Proof.
    pose proof (expand_nonempty (unf_wf Ht k)) as H. destruct (expand (unf g k)) as [|m l]; [congruence|].
    exists m. now left.
  Qed.
  Lemma named_sum k l c : ndof g k = NSum l -> In c l -> named c -> named k.
  Proof.
    intros E Hc (m & e & Hm & He). exists m, e. split; auto. rewrite (unf_eq Ht). unfold unf_step. rewrite E.
    cbn [expand]. apply in_flat_map. exists (unf g c). split; [now apply in_map|auto].
  Qed.
  Lemma named_mul_l k a b : ndof g k = NMul a b -> named a -> named k.
  Proof.
    intros E (m & e & Hm & He). destruct (unf_some b) as (m' & Hm'). exists (m ++ m'), e. split.
    - rewrite (unf_eq Ht). unfold unf_step. rewrite E. cbn [expand]. apply in_prods. eauto.
    - rewrite names_app. apply in_app_iff. auto.
  Qed.
  Lemma named_mul_r k a b : ndof g k = NMul a b -> named b -> named k.
  Proof.
    intros E (m & e & Hm & He). destruct (unf_some a) as (m' & Hm'). exists (m' ++ m), e. split.
    - rewrite (unf_eq Ht). unfold unf_step. rewrite E. cbn [expand]. apply in_prods. eauto.
    - rewrite names_app. apply in_app_iff. auto.
  Qed.
End Packed.

Lemma z4 (a b c d : Z) : a + b + (c + d) = a + c + (b + d).
Proof. ring. Qed.
Lemma z5 (u x y b a : Z) : u * (x - y) + u * (b - a) = u * (x + b - (y + a)).
Proof. ring. Qed.
(** D: the odd part; C j: the visits of sample j *)
Lemma unpack_arith D C j : 0 <= D -> (forall i, (i < 16)%nat -> D <= C i <= 1) -> (j < 16)%nat ->
  to_discrete (D + zsum16 (fun i => bits i * (C i - D))) j = C j.
Proof.
  intros HD HC Hj. unfold to_discrete.
  assert (Hd : D = 0 \/ D = 1) by (specialize (HC j Hj); lia).
  destruct Hd as [-> | ->].
  - set (b := fun i => C i =? 1).
    assert (Hb : forall i, (i < 16)%nat -> C i = if b i then 1 else 0).
    { intros i Hi. unfold b. specialize (HC i Hi). destruct (Z.eqb_spec (C i) 1); lia. }
    replace (zsum16 (fun i => bits i * (C i - 0))) with (pack b 16).
    + rewrite Z.add_0_l, active_pack by auto. now rewrite Hb.
    + rewrite <- zsum16_pack. apply zsum16_ext. intros i Hi. rewrite Hb by auto. ring.
  - rewrite zsum16_zero.
    + rewrite Z.add_0_r, active_one. specialize (HC j Hj). lia.
    + intros i Hi. specialize (HC i Hi). replace (C i - 1) with 0 by lia. ring.
Qed.

Section Multi.
  Variable g : dag.
  Hypothesis Ht : topo g.
  Variable o : nat -> nat -> nat.
  (** the choices of draw j *)
  Definition nj (j : nat) : nat -> nat := fun k => o k j.
  Hypothesis Ho : forall j, in_range_at g (nj j).

  (** proof device: a gradient is the packed form of 16 counts *)
  Record packed (gr d : nat -> Z) (c : nat -> nat -> Z) : Prop := Packed_ {
    pk_eq : forall v, named g v -> gr v = d v + zsum16 (fun j => bits j * (c j v - d v));
    pk_pos : forall v, 0 <= d v;
    pk_le : forall j v, d v <= c j v
  }.
  Lemma packed_addto gr d c a x y z : packed gr d c ->
    (named g a -> x = y + zsum16 (fun j => bits j * (z j - y))) -> 0 <= y -> (forall j, y <= z j) ->
    packed (addto Z_csr gr a x) (addto Z_csr d a y) (fun j => addto Z_csr (c j) a (z j)).
  Proof.
    intros [H1 H2 H3] Hx Hy Hz. split; unfold addto; cbn [kadd Z_csr].
    - intros v Hv. destruct (Nat.eqb_spec v a) as [->|]; [|auto]. rewrite H1, Hx by auto.
      transitivity (d a + y + (zsum16 (fun j => bits j * (c j a - d a)) + zsum16 (fun j => bits j * (z j - y)))); [ring|].
      f_equal. rewrite <- zsum16_add. apply zsum16_ext. intros. ring.
    - intro v. specialize (H2 v). destruct (v =? a)%nat; lia.
    - intros j v. specialize (H3 j v). specialize (Hz j). destruct (v =? a)%nat; lia.
  Qed.
  Lemma packed_scatter x y z l : forall i gr d c, packed gr d c ->
    (forall k a, nth_error l k = Some a -> named g a -> x (i + k)%nat = y (i + k)%nat + zsum16 (fun j => bits j * (z j (i + k)%nat - y (i + k)%nat))) ->
    (forall k, 0 <= y k) -> (forall j k, y k <= z j k) ->
    packed (scatter Z_csr l i x gr) (scatter Z_csr l i y d) (fun j => scatter Z_csr l i (z j) (c j)).
  Proof.
    induction l as [|a l IH]; intros i gr d c H Hx Hy Hz; simpl; auto.
    apply (IH (S i) _ _ (fun j => addto Z_csr (c j) a (z j i))); auto.
    - apply packed_addto; auto. intro Ha. specialize (Hx 0%nat a eq_refl Ha). now rewrite Nat.add_0_r in Hx.
    - intros k b Hb Hn. specialize (Hx (S k) b Hb Hn). now rewrite <- plus_n_Sm in Hx.
  Qed.
  Lemma packed_bstep k gr d c : packed gr d c -> (named g k -> forall j, (j < 16)%nat -> c j k <= 1) ->
    packed (bstep g Z_csr (multi_send o) k gr) (bstep g Z_csr no_send k d)
           (fun j => bstep g Z_csr (one_send (nj j)) k (c j)).
  Proof.
    intros H Hv. pose proof H as [H1 H2 H3]. unfold bstep. destruct (ndof g k) eqn:E; auto.
    - apply packed_scatter; auto.
      + intros i a Ha Hn. rewrite Nat.add_0_l. assert (Hk := named_sum Ht k E (nth_error_In _ _ Ha) Hn).
        unfold multi_send, no_send, one_send. rewrite Z.mul_0_r, Z.add_0_l. apply zsum16_ext. intros j Hj. f_equal.
        rewrite Z.sub_0_r. unfold nj. rewrite (Nat.eqb_sym i).
        destruct (o k j =? i)%nat; simpl; [|ring]. rewrite Z.mul_1_r.
        change (to_discrete (gr k) j = c j k). rewrite H1 by auto.
        apply (@unpack_arith (d k) (fun j => c j k)); auto.
      + intro i. unfold no_send. lia.
      + intros j i. unfold no_send, one_send. specialize (H2 k). specialize (H3 j k). destruct (i =? nj j k)%nat; lia.
    - apply packed_addto; auto.
      + apply packed_addto; auto. intro Ha. apply H1. eapply named_mul_l; eauto.
      + intro Hb. apply H1. eapply named_mul_r; eauto.
  Qed.
  Lemma packed_bpass n : forall gr d c, packed gr d c ->
    (forall k, (k < n)%nat -> named g k -> forall j, (j < 16)%nat -> bpass g Z_csr (one_send (nj j)) n (c j) k <= 1) ->
    packed (bpass g Z_csr (multi_send o) n gr) (bpass g Z_csr no_send n d)
           (fun j => bpass g Z_csr (one_send (nj j)) n (c j)).
  Proof.
    induction n as [|n IH]; intros gr d c H Hv; simpl; auto.
    apply (IH _ _ (fun j => bstep g Z_csr (one_send (nj j)) n (c j))).
    - apply packed_bstep; auto. intros Hn j Hj. specialize (Hv n ltac:(lia) Hn j Hj).
      simpl in Hv. rewrite (bpass_other Ht), (bstep_other Ht) in Hv by lia. exact Hv.
    - intros k Hk Hn j Hj. apply (Hv k); auto.
  Qed.
  Lemma packed_init r : packed (binit Z_csr r) (binit Z_csr r) (fun _ => binit Z_csr r).
  Proof.
    split.
    - intros v _. change (K Z_csr) with Z. rewrite zsum16_zero; [symmetry; apply Z.add_0_r|].
      intros. rewrite Z.sub_diag. apply Z.mul_0_r.
    - intro v. unfold binit. destruct (v =? r)%nat; cbn; lia.
    - intros. apply Z.le_refl.
  Qed.

  (** the gradient that reaches entry e *)
  Lemma multi_value r e : multilinear (unf g r) -> exists D, 0 <= D /\
    (forall j, D <= zcount e (npick g (nj j) r)) /\
    dgrad g Z_csr (multi_send o) r e = D + zsum16 (fun j => bits j * (zcount e (npick g (nj j) r) - D)).
  Proof.
    intros Hm.
    pose proof (@packed_bpass (S r) _ _ _ (packed_init r)) as P.
    assert (P' : packed (node_grads g Z_csr (multi_send o) r) (node_grads g Z_csr no_send r)
                        (fun j => node_grads g Z_csr (one_send (nj j)) r)).
    { apply P. intros k Hk Hn i Hi. apply (@visits_once g Ht (nj i) r k); auto. lia. }
    clear P. destruct P' as [P1 P2 P3].
    assert (E : dgrad g Z_csr (multi_send o) r e = dgrad g Z_csr no_send r e +
       zsum16 (fun j => bits j * (dgrad g Z_csr (one_send (nj j)) r e - dgrad g Z_csr no_send r e))).
    { assert (G : forall l, Sum Z_csr (fun k => node_grads g Z_csr (multi_send o) r k * sel g Z_csr e k) l =
        Sum Z_csr (fun k => node_grads g Z_csr no_send r k * sel g Z_csr e k) l + zsum16 (fun j => bits j *
         (Sum Z_csr (fun k => node_grads g Z_csr (one_send (nj j)) r k * sel g Z_csr e k) l -
          Sum Z_csr (fun k => node_grads g Z_csr no_send r k * sel g Z_csr e k) l))).
      { induction l as [|k l IH]; [reflexivity|].
        rewrite !Sum_cons, IH. cbn [kadd Z_csr].
        set (A := Sum Z_csr (fun k => node_grads g Z_csr no_send r k * sel g Z_csr e k) l).
        set (B := fun j => Sum Z_csr (fun k => node_grads g Z_csr (one_send (nj j)) r k * sel g Z_csr e k) l).
        assert (Hk : node_grads g Z_csr (multi_send o) r k * sel g Z_csr e k =
          node_grads g Z_csr no_send r k * sel g Z_csr e k + zsum16 (fun j => bits j *
           (node_grads g Z_csr (one_send (nj j)) r k * sel g Z_csr e k - node_grads g Z_csr no_send r k * sel g Z_csr e k))).
        { assert (Hz : forall x, x = 0 \/ x = 1 -> (x = 1 -> named g k) ->
            node_grads g Z_csr (multi_send o) r k * x = node_grads g Z_csr no_send r k * x + zsum16 (fun j => bits j *
             (node_grads g Z_csr (one_send (nj j)) r k * x - node_grads g Z_csr no_send r k * x))).
          { intros x [-> | ->] Hx.
            - rewrite zsum16_zero; [ring|]. intros. ring.
            - rewrite P1 by auto. rewrite !Z.mul_1_r. f_equal. apply zsum16_ext. intros. ring. }
          apply Hz.
          - unfold sel. destruct (ndof g k) as [e0|e0| | | |]; cbn; auto; destruct (list_eq_dec Nat.eq_dec e e0); auto.
          - unfold sel. destruct (ndof g k) as [e0|e0| | | |] eqn:Ek; cbn; try discriminate;
              (destruct (list_eq_dec Nat.eq_dec e e0); [intros _|discriminate]);
              exists (if match ndof g k with NLeaf _ => true | _ => false end then [AL e] else [AO e]), e;
              rewrite (unf_eq Ht); unfold unf_step; rewrite Ek; subst; simpl; auto. }
        rewrite Hk. 
        transitivity (node_grads g Z_csr no_send r k * sel g Z_csr e k + A + (zsum16 (fun j => bits j *
           (node_grads g Z_csr (one_send (nj j)) r k * sel g Z_csr e k - node_grads g Z_csr no_send r k * sel g Z_csr e k)) +
            zsum16 (fun j => bits j * (B j - A)))).
        { apply z4. }
        f_equal. rewrite <- zsum16_add. apply zsum16_ext. intros i _. fold (B i). apply z5. }
      apply G. }
    exists (dgrad g Z_csr no_send r e). split; [|split].
    - unfold dgrad. generalize (seq 0 (S r)). induction l as [|k l IH]; [apply Z.le_refl|].
      rewrite !Sum_cons. cbn [kadd kmul Z_csr]. apply Z.add_nonneg_nonneg; [|exact IH]. apply Z.mul_nonneg_nonneg; [apply P2|apply sel_nonneg].
    - intro i. rewrite <- (dgrad_one Ht r e (Ho i)).
      unfold dgrad. generalize (seq 0 (S r)). induction l as [|k l IH]; [apply Z.le_refl|].
      rewrite !Sum_cons. cbn [kadd kmul Z_csr]. apply Z.add_le_mono; [|exact IH]. apply Z.mul_le_mono_nonneg_r; [apply sel_nonneg|apply (P3 i k)].
    - rewrite E. f_equal. apply zsum16_ext. intros j _. now rewrite <- (dgrad_one Ht r e (Ho j)).
  Qed.
  (** ... and its unpacking *)
  Theorem multi_unpack r e j : multilinear (unf g r) -> (j < 16)%nat ->
    to_discrete (dgrad g Z_csr (multi_send o) r e) j = zcount e (npick g (nj j) r).
  Proof.
    intros Hm Hj. destruct (multi_value r e Hm) as (D & H0 & Hle & ->).
    apply (@unpack_arith D (fun i => zcount e (npick g (nj i) r))); auto.
    intros i Hi. split; [apply Hle|]. eapply multilinear_zcount; [exact Hm|]. apply npick_in; auto. discriminate.
  Qed.
  Theorem multi_zero r e : multilinear (unf g r) -> (forall m, In m (expand (unf g r)) -> zcount e m = 0) ->
    dgrad g Z_csr (multi_send o) r e = 0.
  Proof.
    intros Hm H0. destruct (multi_value r e Hm) as (D & H1 & Hle & ->).
    assert (G : forall j, zcount e (npick g (nj j) r) = 0) by (intro; apply H0, npick_in; auto; discriminate).
    assert (D = 0) by (specialize (Hle 0%nat); rewrite G in Hle; lia). subst.
    rewrite zsum16_zero; [reflexivity|]. intros. rewrite G. ring.
  Qed.
End Multi.

(** ** Every term is recorded by some graph *)
Local Close Scope Z_scope.
Lemma ndof_app g h k : k < length g -> ndof (g ++ h) k = ndof g k.
Proof. intro H. unfold ndof. now apply app_nth1. Qed.
Lemma topo_small g k l : topo g -> ndof g k = NSum l -> k < length g.
Proof. intros _ E. destruct (Nat.lt_ge_cases k (length g)) as [|H]; auto. unfold ndof in E. rewrite nth_overflow in E by auto. discriminate. Qed.
(** proof device: the arguments of a node come before it *)
Definition node_ok (k : nat) (n : node) : Prop :=
  match n with NSum l => l <> [] /\ Forall (fun i => i < k) l | NMul a b => a < k /\ b < k | _ => True end.
Lemma topo_snoc g n : topo g -> node_ok (length g) n -> topo (g ++ [n]).
Proof.
  intros Ht Hn k. destruct (Nat.lt_trichotomy k (length g)) as [H|[->|H]].
  - rewrite ndof_app by auto. apply Ht.
  - unfold ndof. rewrite app_nth2, Nat.sub_diag by lia. exact Hn.
  - unfold ndof. rewrite nth_overflow; [exact I|]. rewrite app_length. simpl. lia.
Qed.
Lemma unf_app g h : topo g -> topo (g ++ h) -> forall k, k < length g -> unf (g ++ h) k = unf g k.
Proof.
  intros Ht Ht' k. induction k as [k IH] using lt_wf_ind. intro Hk.
  rewrite (unf_eq Ht), (unf_eq Ht'). unfold unf_step. rewrite ndof_app by auto. destruct (ndof g k) eqn:E; auto.
  - f_equal. apply map_ext_in. intros c Hc. apply (topo_sum Ht k E) in Hc. apply IH; lia.
  - destruct (topo_mul Ht k E). rewrite !IH by lia. reflexivity.
Qed.
Lemma unf_snoc g n : topo g -> topo (g ++ [n]) -> unf (g ++ [n]) (length g) =
  match n with NLeaf e => TLeaf e | NOver e => TOver e | NOne => TOne | NZero => TZero
  | NSum l => TSum (map (unf (g ++ [n])) l) | NMul a b => TMul (unf (g ++ [n]) a) (unf (g ++ [n]) b) end.
Proof.
  intros Ht Ht'. rewrite (unf_eq Ht') at 1. unfold unf_step, ndof. rewrite app_nth2, Nat.sub_diag by lia. reflexivity.
Qed.
Theorem record_exists t : twf t -> forall g, topo g -> exists h r, topo (g ++ h) /\ r < length (g ++ h) /\ unf (g ++ h) r = t.
Proof.
  assert (Hatom : forall g n, topo g -> node_ok (length g) n ->
    exists h r, topo (g ++ h) /\ r < length (g ++ h) /\ unf (g ++ h) r =
      match n with NLeaf e => TLeaf e | NOver e => TOver e | NOne => TOne | NZero => TZero
      | NSum l => TSum (map (unf (g ++ [n])) l) | NMul a b => TMul (unf (g ++ [n]) a) (unf (g ++ [n]) b) end).
  { intros g n Ht Hn. exists [n], (length g). pose proof (@topo_snoc g n Ht Hn) as Ht'. split; [exact Ht'|].
    split; [rewrite app_length; simpl; lia|]. now apply unf_snoc. }
  induction t as [e|e| | |l IH|a b IHa IHb] using term_ind'; intros W g Ht.
  - apply (Hatom g (NLeaf e) Ht I).
  - apply (Hatom g (NOver e) Ht I).
  - apply (Hatom g NOne Ht I).
  - apply (Hatom g NZero Ht I).
  - inversion_clear W as [| | | |? Hn Hf|].
    assert (G : exists h rs, topo (g ++ h) /\ Forall (fun r => r < length (g ++ h)) rs /\ map (unf (g ++ h)) rs = l).
    { clear Hn. revert g Ht. induction l as [|t l IHl]; intros g Ht.
      - exists [], []. rewrite app_nil_r. auto.
      - inversion_clear IH as [|? ? It Il]. inversion_clear Hf as [|? ? Wt Wl].
        destruct (It Wt g Ht) as (h1 & r & T1 & L1 & E1).
        destruct (IHl Il Wl (g ++ h1) T1) as (h2 & rs & T2 & L2 & E2).
        exists (h1 ++ h2), (r :: rs). rewrite app_assoc. split; [exact T2|]. split.
        + constructor; auto. rewrite app_length. lia.
        + simpl. f_equal; auto. rewrite (@unf_app _ _ T1 T2) by auto. exact E1. }
    destruct G as (h & rs & T & L & E). assert (Hok : node_ok (length (g ++ h)) (NSum rs)).
    { split; [|exact L]. intros ->. simpl in E. congruence. }
    exists (h ++ [NSum rs]), (length (g ++ h)). rewrite app_assoc. pose proof (@topo_snoc _ _ T Hok) as T'.
    split; [exact T'|]. split; [rewrite (app_length (g ++ h)); simpl; lia|].
    rewrite (@unf_snoc _ _ T T'). f_equal. rewrite <- E. apply map_ext_in. intros r Hr. rewrite Forall_forall in L.
    apply (@unf_app _ _ T T'). auto.
  - inversion_clear W as [| | | | |? ? Wa Wb].
    destruct (IHa Wa g Ht) as (h1 & r1 & T1 & L1 & E1). destruct (IHb Wb (g ++ h1) T1) as (h2 & r2 & T2 & L2 & E2).
    assert (Hok : node_ok (length ((g ++ h1) ++ h2)) (NMul r1 r2)).
    { split; [rewrite app_length; lia|exact L2]. }
    exists (h1 ++ h2 ++ [NMul r1 r2]), (length ((g ++ h1) ++ h2)). rewrite !app_assoc. pose proof (@topo_snoc _ _ T2 Hok) as T'.
    split; [exact T'|]. split; [rewrite (app_length ((g ++ h1) ++ h2)); simpl; lia|].
    rewrite (@unf_snoc _ _ T2 T'). f_equal.
    + rewrite (@unf_app _ _ T2 T') by (rewrite app_length; lia). rewrite (@unf_app _ _ T1 T2) by auto. exact E1.
    + rewrite (@unf_app _ _ T2 T') by auto. exact E2.
Qed.
