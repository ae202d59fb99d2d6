(** * SparseMarg: a structured model evaluated with SparseMaxSemiring
    (semirings/sparse_max.py with helpers.py:66-116 and every log-partition routine). *)
From Verif Require Import Base Ops Terms Semirings Poly Chain LinearChain SemiMarkov CkyCrf Cky DepSpec DepTree
  Batch Family Approx Grad Sample Dist Purity Degree Shape Api Query KMax Sparse.
Set Implicit Arguments.
Local Open Scope R_scope.

(** [SparseMaxSemiring]: sparse_max.py:5-18; [mul], [zero] and [one] are those of
    [_BaseLog] (semirings.py:98-112). Every sum of the log-partition routines runs along
    the last dimension. Masked cells are filled with the finite zero. *)
Definition sp_ops (z : R) : ops :=
  {| car := R; ssum := sparse_sum; smul := Rplus; szero := z; sone := 0; sover := fun _ => z |}.
(** the values returned by [logpartition]/[sum] of the classes in this semiring (one per
    row; helpers.py:66-81) *)
Definition q_sparse_value (c : call) (phi : list nat -> R) : res (list R) := run c (sp_ops NEG) phi.
(** the gradient a sum node passes to its children: sparse_max.py:30-38, [grad_output] times
    the projected vector *)
Definition w_sparse (phi : list nat -> R) : rule :=
  fun _ l i => nth i (sparse_backward (map (leval (sp_ops NEG) phi) l)) 0.
(** [marginals] in this semiring: the gradient of the sum over rows of the values
    (helpers.py:97-122). Simplification: shared nodes are unfolded, as in Grad.v. *)
Definition q_sparse (c : call) (phi : list nat -> R) (e : list nat) : R :=
  RSum (fun b => bp (w_sparse phi) [] (row_graph c b) 1 e) (seq 0 (batch_of c)).
