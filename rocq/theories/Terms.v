(** * Terms: the computation graph of a dynamic program, as a term.

    Running a dynamic program on [tops] (every operation builds a node) yields the
    graph that PyTorch's autograd would record; [leval] recomputes the value.
    Simplification: shared nodes are unfolded into a tree. *)
From Verif Require Import Base Ops.
Set Implicit Arguments.

(** the computation of one cell, as autograd records it (all of torch_struct; see the header) *)
Inductive term :=
| TLeaf (e : list nat)        (* a potential, by its index *)
| TOver (e : list nat)        (* masked copy of a potential: value [zero], gradient to [e] *)
| TOne | TZero                (* the class constants *)
| TSum (l : list term)
| TMul (a b : term).

Section TermInd.
  Variable P : term -> Prop.
  Hypothesis HL : forall e, P (TLeaf e).
  Hypothesis HOv : forall e, P (TOver e).
  Hypothesis H1 : P TOne.
  Hypothesis H0 : P TZero.
  Hypothesis HS : forall l, Forall P l -> P (TSum l).
  Hypothesis HM : forall a b, P a -> P b -> P (TMul a b).
  (** proof device: induction over nested terms *)
  Fixpoint term_ind' (t : term) : P t :=
    match t with
    | TLeaf e => HL e
    | TOver e => HOv e
    | TOne => H1
    | TZero => H0
    | TSum l => HS ((fix go l := match l return Forall P l with
                                 | [] => Forall_nil _
                                 | a :: l' => Forall_cons _ (term_ind' a) (go l')
                                 end) l)
    | TMul a b => HM (term_ind' a) (term_ind' b)
    end.
End TermInd.

(** the operations of a semiring class, recorded instead of computed *)
Definition tops : ops :=
  {| car := term; ssum := TSum; smul := TMul; szero := TZero; sone := TOne; sover := TOver |}.

(** value of a recorded computation in a semiring class *)
Fixpoint leval (O : ops) (v : list nat -> car O) (t : term) : car O :=
  match t with
  | TLeaf e => v e
  | TOver e => sover O e
  | TOne => sone O
  | TZero => szero O
  | TSum l => ssum O (map (leval O v) l)
  | TMul a b => smul O (leval O v a) (leval O v b)
  end.

(** every sum node has at least one child *)
Inductive twf : term -> Prop :=
| wf_leaf e : twf (TLeaf e)
| wf_over e : twf (TOver e)
| wf_one : twf TOne
| wf_zero : twf TZero
| wf_sum l : l <> [] -> Forall twf l -> twf (TSum l)
| wf_mul a b : twf a -> twf b -> twf (TMul a b).

(** A dynamic program run in [O] is the evaluation of its term, and the term is
    well formed: both facts follow from one transport along this relation. *)
Definition leval_rel (O : ops) (v : list nat -> car O) (x : car O) (t : term) : Prop :=
  x = leval O v t /\ twf t.

Lemma leval_resp (O : ops) v : resp O tops (leval_rel O v).
Proof.
  constructor; unfold leval_rel; simpl.
  - split; [reflexivity|constructor].
  - split; [reflexivity|constructor].
  - split; [reflexivity|constructor].
  - intros a a' b b' [-> ?] [-> ?]. split; [reflexivity|constructor; auto].
  - intros l l' Hl H. split.
    + f_equal. clear Hl. induction H as [|x y l l' [-> _] _ IH]; simpl; congruence.
    + constructor.
      * intro E; subst. inversion H; subst. congruence.
      * clear Hl. induction H as [|x y l l' [_ ?] _ IH]; constructor; auto.
Qed.

Lemma leval_leaf (O : ops) v e : leval_rel O v (v e) (TLeaf e).
Proof. split; [reflexivity|constructor]. Qed.

(** transporting [leval] itself *)
Lemma leval_param (O1 O2 : ops) R v1 v2 t : resp O1 O2 R -> (forall e, R (v1 e) (v2 e)) ->
  twf t -> R (leval O1 v1 t) (leval O2 v2 t).
Proof.
  intros HR Hv. induction t as [| | | |l IH|a b IHa IHb] using term_ind'; intro W; simpl.
  - apply Hv.
  - apply (resp_over HR).
  - apply (resp_one HR).
  - apply (resp_zero HR).
  - inversion_clear W as [| | | |? Hn Hf|]. apply (resp_sum HR).
    + destruct l; simpl; congruence.
    + clear Hn. induction l; simpl; constructor; inversion_clear IH; inversion_clear Hf; auto.
  - inversion_clear W. apply (resp_mul HR); auto.
Qed.

(** ** Derivations: the monomials of a term *)
Inductive atom :=
| AL (e : list nat)      (* a potential *)
| AO (e : list nat)      (* a masked copy: the constant zero, owned by [e] *)
| AZ.                    (* the constant zero *)
Definition deriv := list atom.

(** spec: products of the derivations of two factors *)
Definition prods (l m : list deriv) : list deriv :=
  flat_map (fun a => map (fun b => a ++ b) m) l.

(** spec: the derivations of a term *)
Fixpoint expand (t : term) : list deriv :=
  match t with
  | TLeaf e => [[AL e]]
  | TOver e => [[AO e]]
  | TOne => [[]]
  | TZero => [[AZ]]
  | TSum l => flat_map expand l
  | TMul a b => prods (expand a) (expand b)
  end.

(** spec: value of a factor *)
Definition aval {A} (v : list nat -> A) (z : A) (a : atom) : A :=
  match a with AL e => v e | _ => z end.

(** spec: the factor is a potential *)
Definition is_leaf (a : atom) : bool := match a with AL _ => true | _ => false end.
(** spec: the derivation multiplies potentials only *)
Definition pure (m : deriv) : bool := forallb is_leaf m.
(** the potentials a pure derivation multiplies *)
Definition leaves (m : deriv) : list (list nat) :=
  flat_map (fun a => match a with AL e => [e] | _ => [] end) m.

(** A semiring class over a lawful semiring whose [zero] is an arbitrary
    constant [z] (the code's -1e5 is not a true zero). *)
Definition csr_opsz (S : csr) (z : S) : ops :=
  {| car := S; ssum := ksum S; smul := kmul; szero := z; sone := k1; sover := fun _ => z |}.

Section Expand.
  Variable S : csr.
  Add Ring Sring4 : (csr_srt S).

  Lemma Sum_prods (f : deriv -> S) l m :
    (forall a b, f (a ++ b) = kmul (f a) (f b)) ->
    Sum S f (prods l m) = kmul (Sum S f l) (Sum S f m).
  Proof.
    intro H. unfold prods. rewrite Sum_flat_map, <- Sum_scale_r. apply Sum_ext. intro a.
    rewrite Sum_map, <- Sum_scale_l. apply Sum_ext. intro b. apply H.
  Qed.

  (** The value of a term is the sum over its derivations of the product of
      their atoms, whatever constant is used for [zero]. *)
  Theorem leval_expand (z : S) v t :
    leval (csr_opsz S z) v t = Sum S (fun m => Prod S (aval v z) m) (expand t).
  Proof.
    induction t as [e|e| | |l IH|a b IHa IHb] using term_ind';
      cbn [expand]; try (rewrite Sum_one, ?Prod_one; reflexivity).
    - change (expand (TSum l)) with (flat_map expand l).
      rewrite Sum_flat_map. apply Sum_ext_in. rewrite Forall_forall in IH. auto.
    - cbn [leval expand smul csr_opsz]. rewrite IHa, IHb, Sum_prods; auto. intros; apply Prod_app.
  Qed.

  Lemma Prod_impure v m : pure m = false -> Prod S (aval v k0) m = k0.
  Proof.
    induction m as [|a m IH]; simpl; [discriminate|]. rewrite Prod_cons.
    destruct a; simpl; intro H; [rewrite IH by auto; ring|ring|ring].
  Qed.
  Lemma Prod_pure v z m : pure m = true -> Prod S (aval v z) m = Prod S v (leaves m).
  Proof.
    induction m as [|a m IH]; simpl; [reflexivity|]. rewrite Prod_cons.
    destruct a; simpl; intro H; [|discriminate|discriminate].
    rewrite IH by auto. now rewrite Prod_cons.
  Qed.

  (** With a true zero only the pure derivations count. *)
  Theorem leval_pure v t :
    leval (csr_ops S) v t =
    Sum S (fun m => Prod S v (leaves m)) (filter pure (expand t)).
  Proof.
    transitivity (leval (csr_opsz S k0) v t); [reflexivity|].
    rewrite leval_expand, Sum_filter. apply Sum_ext. intro m.
    destruct (pure m) eqn:E; [apply Prod_pure|apply Prod_impure]; auto.
  Qed.
End Expand.

Lemma expand_nonempty t : twf t -> expand t <> [].
Proof.
  induction t as [e|e| | |l IH|a b IHa IHb] using term_ind'; intro W; simpl; try discriminate.
  - inversion_clear W as [| | | |? Hn Hf|]. destruct l as [|t l]; [congruence|].
    inversion_clear IH as [|? ? Ht _]. inversion_clear Hf as [|? ? Wt _].
    simpl. specialize (Ht Wt). destruct (expand t); simpl; congruence.
  - inversion_clear W as [| | | | |? ? Wa Wb]. specialize (IHa Wa). specialize (IHb Wb).
    unfold prods. destruct (expand a); [congruence|]. destruct (expand b); simpl; congruence.
Qed.
