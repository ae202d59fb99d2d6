(** * Instances: concrete semirings used to exhibit non-trivial instances *)
From Verif Require Import Base Ops.
Set Implicit Arguments.

(** natural numbers with + and * (counting) *)
Definition nat_csr : csr.
Proof.
  refine (@Csr nat 0 1 Nat.add Nat.mul _ _ _ _ _ _ _ _); intros; lia.
Defined.
(** a tensor with distinct small entries *)
Definition demo (sh : list nat) : tensor nat :=
  {| shape := sh; dat := fun i => S (fold_left (fun a x => (2 * a + x) mod 3) i 0) |}.
