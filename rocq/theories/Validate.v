(** * Validate: the constructors of the distribution classes with [validate_args] (distributions.py:40-51, 302-312, 337-339,
    393-396, 449-456, 481-487).

    The loop over [arg_constraints] is in torch.distributions.Distribution.__init__, which is not in the
    repository. Contract: it goes over the entries in order, calls [check] of the constraint on the attribute,
    calls [.all()] on the result, and raises ValueError when that is false. *)
From Coq Require Import List ZArith Reals Bool Lia.
From Verif Require Import Ops.
Import ListNotations.
Local Open Scope Z_scope.

(** what an argument can be; [None] in a float tensor is NaN. Simplification: a tensor is the list of its entries *)
Inductive pyval := VFloats (x : list (option R)) | VInts (x : list Z) | VTuple (x : list (list (option R))) | VBool (x : bool) | VInt (x : Z) | VNone.
(** torch.distributions.constraints *)
Inductive constr := CReal | CNonnegInt | CBoolean.
(** the attributes (distributions.py:47-49, 310-311) *)
Inductive field := FPot | FLengths | FLocal | FMaxGap.
(** result of [check]: a tensor of booleans, or a Python bool *)
Inductive verdict := Mask (m : list bool) | Plain (b : bool).

(** contract: [real.check(v)] is [v == v]; [nonnegative_integer.check(v)] is [(v % 1 == 0) & (v >= 0)];
    [boolean.check(v)] is [(v == 0) | (v == 1)]. On Python values these are Python operators: a tuple
    equals itself, and [%] with None or a tuple on its left raises. *)
Definition rbool {P Q : Prop} (d : {P} + {Q}) : bool := if d then true else false.
(** distributions.py:40-43: the constraint applied to the value, as torch.distributions does *)
Definition check (c : constr) (v : pyval) : res verdict :=
  match c, v with
  | CReal, VFloats x => Ok (Mask (map (fun o => match o with Some _ => true | None => false end) x))
  | CReal, VInts x => Ok (Mask (map (fun _ => true) x))
  | CReal, _ => Ok (Plain true)
  | CNonnegInt, VInts x => Ok (Mask (map (fun z => 0 <=? z) x))
  | CNonnegInt, VFloats x =>
      Ok (Mask (map (fun o => match o with Some r => rbool (Req_EM_T (frac_part r) 0) && rbool (Rle_dec 0 r) | None => false end) x))
  | CNonnegInt, VInt z => Ok (Plain (0 <=? z))
  | CNonnegInt, VBool _ => Ok (Plain true)
  | CNonnegInt, (VNone | VTuple _) => Err TypeError
  | CBoolean, VInts x => Ok (Mask (map (fun z => (z =? 0) || (z =? 1)) x))
  | CBoolean, VFloats x =>
      Ok (Mask (map (fun o => match o with Some r => rbool (Req_EM_T r 0) || rbool (Req_EM_T r 1) | None => false end) x))
  | CBoolean, VBool _ => Ok (Plain true)
  | CBoolean, VInt z => Ok (Plain ((z =? 0) || (z =? 1)))
  | CBoolean, (VNone | VTuple _) => Ok (Plain false)
  end.
(** contract: [if not constraint.check(getattr(self, param)).all(): raise ValueError]; bool has no [all] *)
Fixpoint validate (get : field -> pyval) (cs : list (field * constr)) : res unit :=
  match cs with
  | [] => Ok tt
  | (f, c) :: cs =>
      match check c (get f) with
      | Err e => Err e
      | Ok (Plain _) => Err AttributeError
      | Ok (Mask m) => if forallb (fun b => b) m then validate get cs else Err ValueError
      end
  end.

(** the classes: LinearChainCRF, HMM, SemiMarkovCRF, TreeCRF take the base constructor as it is *)
Inductive cls := KBase | KDep | KCfg | KAlign | KNonProj.
(** distributions.py:40-43, 302-307, 481-483 *)
Definition constraints (k : cls) : list (field * constr) :=
  match k with
  | KBase | KDep | KCfg => [(FPot, CReal); (FLengths, CNonnegInt)]
  | KAlign => [(FPot, CReal); (FLocal, CBoolean); (FMaxGap, CNonnegInt); (FLengths, CNonnegInt)]
  | KNonProj => [(FPot, CReal)]
  end.
(** potentials: a tensor, or the tuple of tensors of SentCFG (distributions.py:450-452) *)
Inductive pots := PTensor (x : list (option R)) | PTuple (x : list (list (option R))).
(** the arguments with their documented types (distributions.py:45, 309, 449, 485); lengths and max_gap default to None *)
Record args := Args { a_pot : pots; a_lengths : option (list Z); a_local : bool; a_gap : option Z }.
(** the fields assigned before [super().__init__] (distributions.py:48-50, 310-311, 452-453) *)
Definition getter (a : args) (f : field) : pyval :=
  match f with
  | FPot => match a_pot a with PTensor x => VFloats x | PTuple x => VTuple x end
  | FLengths => match a_lengths a with Some l => VInts l | None => VNone end
  | FLocal => VBool (a_local a)
  | FMaxGap => match a_gap a with Some g => VInt g | None => VNone end
  end.
(** the constructor: the object keeps its arguments; [DepTree.multiroot] is set after the base constructor returns
    (distributions.py:394-396), so not if that raises. The state is the class attribute. *)
Definition construct (k : cls) (validate_args : bool) (multiroot : bool) (a : args) (attr : bool) : res args * bool :=
  match (if validate_args then validate (getter a) (constraints k) else Ok tt) with
  | Err e => (Err e, attr)
  | Ok _ => (Ok a, match k with KDep => multiroot | _ => attr end)
  end.

(** ** Specification *)
(** a tensor of potentials, no entry of which is NaN *)
Definition no_nan (x : list (option R)) : Prop := forall o, In o x -> exists r, o = Some r.
(** spec: no entry is negative *)
Definition nonneg (x : list Z) : Prop := forall z, In z x -> 0 <= z.
(** whether a call of LinearChainCRF with these lengths is one the dynamic program accepts *)
Definition to_nats (l : list Z) : list nat := map Z.to_nat l.
