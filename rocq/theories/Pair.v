(** * Pair: [kl] and [cross_entropy] of two distribution objects (distributions.py:88-115):
    which fields of [other] are read, and how its potentials are laid next to those of [self]. *)
From Verif Require Import Base Ops Terms Semirings Poly Chain LinearChain SemiMarkov CkyCrf Cky DepSpec DepTree
  Batch Family Approx Grad Sample Dist Purity Degree Shape Api Query Tensor.
Set Implicit Arguments.
Local Open Scope R_scope.

(** distributions.py:45-51: the fields [log_potentials] and [lengths]; class, shape and lengths
    are in the call, the cells in [d_pot] *)
Record dist := Dist { d_call : call; d_pot : list nat -> R }.
(** shape of log_potentials (distributions.py:45-46); SentCFG keeps a tuple instead *)
Definition pot_shape (d : dist) : list nat := batch_of (d_call d) :: event_shape (d_call d).
(** [values[1] = xs[1]] (semirings.py:263-269, 323-329): assignment to a slice drops the leading
    dimensions of size one of the right-hand side and expands the rest to the slice *)
Fixpoint strip1 (s : list nat) : list nat :=
  match s with 1%nat :: s' => strip1 s' | _ => s end.
(** semirings.py:263-269, 323-329: torch lets a tensor of shape s be assigned to a slice of shape t *)
Definition expandable (s t : list nat) : bool :=
  (length s <=? length t)%nat && forallb (fun p => (fst p =? snd p)%nat || (fst p =? 1)%nat) (combine s (skipn (length t - length s) t)).
(** semirings.py:263-269, 323-329: the values after the assignment, or the exception *)
Definition assign (t : list nat) (x : tensor R) : res (list nat -> R) :=
  let s := strip1 (shape x) in
  if expandable s t then Ok (fun idx => dat x (repeat 0%nat (length (shape x) - length s) ++ bidx s idx)) else Err RuntimeError.
(** the second tensor seen by the dynamic program of [self]; for [other] a SentCFG
    helpers.py:42-44 calls [requires_grad_] on its tuple. Simplification: an invalid [self] may
    raise another error before this one. *)
Definition second (p q : dist) : res (list nat -> R) :=
  match d_call q with
  | CCfg _ _ _ _ _ => Err AttributeError
  | _ => assign (pot_shape p) {| shape := pot_shape q; dat := d_pot q |}
  end.
(** distributions.py:88-101; only self.lengths is passed *)
Definition dist_cross_entropy (p q : dist) : res (list R) :=
  pair_call (d_call p) (match second p q with Err e => Err e | Ok psi => q_cross_entropy (d_call p) (d_pot p) psi end).
(** distributions.py:103-115 *)
Definition dist_kl (p q : dist) : res (list R) :=
  pair_call (d_call p) (match second p q with Err e => Err e | Ok psi => q_kl (d_call p) (d_pot p) psi end).

(** ** Specification *)
(** sizes of other's dimensions: equal to self's, or one *)
Definition compatible (s t : list nat) : Prop := Forall2 (fun d e => d = e \/ d = 1%nat) s t.
(** the cell of other that stands for a cell of self *)
Fixpoint cell (s e : list nat) : list nat :=
  match s, e with d :: s, i :: e => (if (d =? 1)%nat then 0%nat else i) :: cell s e | _, _ => [] end.
