(** * Gumbel: the Gumbel semirings of sample.py and [gumbel_crf]. *)
From Verif Require Import Base Ops Terms Semirings Poly Chain LinearChain SemiMarkov CkyCrf Cky DepSpec DepTree
  Batch Family Approx Grad Sample Dist Purity Degree Shape Api Query.
Set Implicit Arguments.
Local Open Scope R_scope.

(** [torch.max(-1)[1]]: some index of the vector, a fixed function of its content *)
Definition index_of (am : list R -> nat) : Prop := forall v, v <> [] -> (am v < length v)%nat.
(** sample.py:74, 102 [torch.max(-1)[1]]: the index of a largest entry *)
Definition max_index (am : list R -> nat) : Prop :=
  forall v, v <> [] -> exists x, nth_error v (am v) = Some x /\ is_max x v.

Section Gumbel.
  Variables (am : list R -> nat) (temp : R) (g : path -> nat -> R).
  (** sample.py:69-75, 128-133 [sample]: [(ls + noise) / temp] for one row [ls] of
      logits, the children of one sum node. The noise vector has the size of the
      summed dimension and is drawn once per call of [sum]; it is broadcast over
      every other dimension, the batch included. [g p] is the vector used at the
      node at path p of a row's graph: the path fixes the call, whatever the row.
      Simplification: the noise is given, and g may use different vectors at
      different nodes of one call; [by_call] below adds that sharing. *)
  Definition gum_logits (phi : list nat -> R) (p : path) (l : list term) : list R :=
    mapi (fun i t => (leval (log_ops NEG) phi t + g p i) / temp) 0 l.
  (** one_hot of the largest, times the incoming gradient (sample.py:74, 87; ST, 100-105, 145) *)
  Definition w_gum (phi : list nat -> R) : rule := fun p l i => if (i =? am (gum_logits phi p l))%nat then 1 else 0.
  (** distributions.py:192-197 [gumbel_crf] = marginals of the Gumbel semiring:
      the gradient of the log-partition, summed over rows *)
  Definition q_gumbel (c : call) (phi : list nat -> R) (e : list nat) : R :=
    RSum (fun b => bp (w_gum phi) [] (row_graph c b) 1 e) (seq 0 (batch_of c)).
End Gumbel.
(** LinearChain: all nodes at the same depth of the graph belong to one call of
    [sum] (linearchain.py:81-85: one matmul per level of the scan, then two sums) *)
Definition by_call (h : nat -> nat -> R) : path -> nat -> R := fun p => h (length p).
