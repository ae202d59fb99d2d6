(** * LogProb: log_prob on whole tensors, with sample dimensions and broadcasting
    (distributions.py:56-75, helpers.py:31-34). *)
From Verif Require Import Base Ops Terms Semirings Poly Chain LinearChain SemiMarkov CkyCrf Cky DepSpec DepTree
  Batch Family Approx Grad Sample Dist Purity Degree Shape Api Query Tensor.
Set Implicit Arguments.
Local Open Scope R_scope.

(** cell by cell operation on two tensors with broadcasting: [torch.mul] (helpers.py:32),
    [v - self.partition] (distributions.py:75) *)
Definition tzip (f : R -> R -> R) (a b : tensor R) : res (tensor R) :=
  match bshape (shape a) (shape b) with
  | Some sh => Ok {| shape := sh; dat := fun idx => f (dat a (bidx (shape a) idx)) (dat b (bidx (shape b) idx)) |}
  | None => Err RuntimeError
  end.
(** helpers.py:31-34 [score] with batch_dims = range(nb), LogSemiring.prod
    (semirings.py:110-112) being the sum over the last dimension. [view(batch + (-1,))]
    keeps the row-major order and raises when the last size cannot be inferred.
    Simplification: the product is laid out contiguously (torch may keep the layout
    of permuted operands, and then view raises). *)
Definition t_score (phi v : tensor R) (nb : nat) : res (tensor R) :=
  match tzip Rmult phi v with
  | Err e => Err e
  | Ok s =>
      let bt := firstn nb (shape s) in
      if (prodl bt =? 0)%nat then Err RuntimeError else
      if negb (prodl (shape s) mod prodl bt =? 0)%nat then Err RuntimeError else
      let m := (prodl (shape s) / prodl bt)%nat in
      Ok {| shape := bt; dat := fun idx => RSum (fun k => dat s (unflat (shape s) (flat bt idx * m + k))) (seq 0 m) |}
  end.
(** distributions.py:56-75 [log_prob]: the number of batch dimensions is value.dim() minus the
    length of the event shape (range of a negative number is empty); the score comes
    before the partition. SentCFG raises: its potentials are a tuple. *)
Definition t_log_prob (c : call) (phi : list nat -> R) (v : tensor R) : res (tensor R) :=
  match c with
  | CCfg _ _ _ _ _ => Err AttributeError
  | _ =>
      match t_score {| shape := batch_of c :: event_shape c; dat := phi |} v (length (shape v) - length (event_shape c)) with
      | Err e => Err e
      | Ok s =>
          match q_partition c phi with
          | Err e => Err e
          | Ok z => tzip Rminus s {| shape := [batch_of c]; dat := fun i => nth (hd 0%nat i) z 0 |}
          end
      end
  end.
