(** * Straight: the gradient that flows back through [gumbel_crf]
    (semirings/sample.py:98-153, distributions.py:192-197). *)
From Verif Require Import Base Ops Terms Semirings Poly Chain LinearChain SemiMarkov CkyCrf Cky DepSpec DepTree
  Batch Family Approx Grad Sample Dist Purity Degree Shape Api Query Gumbel.
Set Implicit Arguments.
Local Open Scope R_scope.

(** [logits.softmax(-1)] of one row (sample.py:112) *)
Definition soft_l (v : list R) (i : nat) : R := exp (nth i v 0) / RSum exp v.

Section Straight.
  Variables (am : list R -> nat) (temp : R) (g : path -> nat -> R) (phi : list nat -> R).
  (** sample.py:107-114 [ST.backward] of one row of logits: autograd.grad of the
      softmax with output gradients [out * grad_output], where [out] is the one-hot
      result of the forward call (100-105). Entry i is the sum over j of
      d softmax_j / d logit_i * (out_j * grad_j). *)
  Definition st_back (v : list R) (grad : nat -> R) (i : nat) : R :=
    RSum (fun j => soft_l v j * ((if (j =? i)%nat then 1 else 0) - soft_l v i) *
                   ((if (j =? am v)%nat then 1 else 0) * grad j)) (seq 0 (length v)).

  (** The tensor returned by [gumbel_crf] is the gradient of the log-partition, built
      with create_graph=True (helpers.py:110-114); a loss on it is differentiated
      by running the recorded backward pass in reverse. [om e] is the gradient of the
      loss with respect to cell e of the returned tensor.
      [st_cot p t]: the gradient that reaches the incoming gradient of the node at
      path p (t is its subgraph): a potential's cell receives [om]; [mul] passed its
      gradient to both sides; a sum node multiplied it with the one-hot s (sample.py:145). *)
  Variable om : list nat -> R.
  (** sample.py:122-146 differentiated once more: what reaches the incoming gradient of a node *)
  Fixpoint st_cot (p : path) (t : term) : R :=
    match t with
    | TLeaf e | TOver e => om e
    | TOne | TZero => 0
    | TMul a b => st_cot (0%nat :: p) a + st_cot (1%nat :: p) b
    | TSum l => ksum R_csr (mapi (fun i t' => w_gum am temp g phi p l i * st_cot (i :: p) t') 0 l)
    end.
  (** [st_grad w2 p t adj e]: contribution of the node at path p, with incoming
      gradient [adj] in the first backward pass, to the gradient of potential e. At a
      sum node the one-hot s_j receives [adj] times the [st_cot] of child j (line
      145); ST.backward turns it into a gradient of [update], lines 129-131 divide by
      the temperature, and the saved logits pass it on through the forward graph,
      whose sum nodes run their own backward (122-146) with rule [w2]: a fresh draw.
      Simplification: shared nodes are unfolded (as in Grad.v). *)
  Variable w2 : rule.
  (** sample.py:107-114, 122-146: contribution of a node to the gradient of potential e *)
  Fixpoint st_grad (p : path) (t : term) (adj : R) (e : list nat) : R :=
    match t with
    | TMul a b => st_grad (0%nat :: p) a adj e + st_grad (1%nat :: p) b adj e
    | TSum l => ksum R_csr (mapi (fun i t' =>
        st_grad (i :: p) t' (adj * w_gum am temp g phi p l i) e +
        bp w2 (i :: p) t' (st_back (gum_logits temp g phi p l) (fun j => adj * st_cot (j :: p) (nth j l TZero)) i / temp) e) 0 l)
    | _ => 0
    end.
End Straight.

(** gradient, with respect to potential e, of the loss [sum_e om e * gumbel_crf[e]]: [g]
    is the noise of the call of gumbel_crf, [g'] the noise drawn during the backward pass
    of the loss *)
Definition q_straight (am : list R -> nat) (temp : R) (g g' : path -> nat -> R) (c : call) (phi om : list nat -> R) (e : list nat) : R :=
  RSum (fun b => st_grad am temp g phi om (w_gum am temp g' phi) [] (row_graph c b) 1 e) (seq 0 (batch_of c)).

(** ** Specification *)
(** a weighting of potentials applied to a derivation (masked copies count, constants do not) *)
Definition dweight (om : list nat -> R) (m : deriv) : R :=
  RSum (fun a => match a with AL e | AO e => om e | AZ => 0 end) m.
(** the derivation drawn below a node, [o p l] being the child taken at the sum node with
    children l at path p *)
Fixpoint drawn (o : path -> list term -> nat) (p : path) (t : term) : deriv :=
  match t with
  | TLeaf e => [AL e] | TOver e => [AO e] | TOne => [] | TZero => [AZ]
  | TMul a b => drawn o (0%nat :: p) a ++ drawn o (1%nat :: p) b
  | TSum l => nth (o p l) (mapi (fun i t' => drawn o (i :: p) t') 0 l) []
  end.
(** the sum nodes of the drawn derivation *)
Fixpoint visits (o : path -> list term -> nat) (p : path) (t : term) : list (path * list term) :=
  match t with
  | TMul a b => visits o (0%nat :: p) a ++ visits o (1%nat :: p) b
  | TSum l => (p, l) :: nth (o p l) (mapi (fun i t' => visits o (i :: p) t') 0 l) []
  | _ => []
  end.
(** the child taken by the Gumbel draw *)
Definition taken (am : list R -> nat) (temp : R) (g : path -> nat -> R) (phi : list nat -> R) : path -> list term -> nat :=
  fun p l => am (gum_logits temp g phi p l).
(** relaxed objective: every sum node of the drawn derivation contributes the loss of what
    was drawn below it times the softmax probability of the child it took; choices are
    frozen at [phi], probabilities vary with [psi] *)
Definition relaxed am temp g phi (om psi : list nat -> R) (t : term) : R :=
  let o := taken am temp g phi in
  RSum (fun v => dweight om (drawn o (fst v) (TSum (snd v))) *
                 soft_l (gum_logits temp g psi (fst v) (snd v)) (o (fst v) (snd v))) (visits o [] t).
