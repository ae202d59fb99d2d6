(** * Align: the semiring classes as Python objects, alignment.py and AlignmentCRF.

    The dynamic program of alignment.py stops at an attribute that no class has.
    What is modelled here is how far it gets: the binding of call arguments, the
    checks, the attribute lookups, in the order of the source. *)
From Coq Require Import String ZArith.
From Verif Require Import Base Ops.
Set Implicit Arguments.
Local Open Scope string_scope.

(** ** The classes *)
(** every semiring class of the library; those made by a function carry the
    function's arguments (temp, alpha and sizes play no role below) *)
Inductive sclass :=
| KSemiring        (* semirings.py:23 *)
| KBase            (* semirings.py:85 *)
| KBaseLog         (* semirings.py:98 *)
| KStd             (* semirings.py:119 *)
| KLog             (* semirings.py:138 *)
| KMax             (* semirings.py:153 *)
| KKMax (k : nat)  (* semirings.py:177-180 *)
| KKL              (* semirings.py:240 *)
| KCross           (* semirings.py:303 *)
| KEntropy         (* semirings.py:357 *)
| KTempMax         (* semirings.py:406-407 *)
| KSparse          (* sparse_max.py:5 *)
| KFastLog         (* fast_semirings.py:28 *)
| KFastMax         (* fast_semirings.py:48 *)
| KFastSample      (* fast_semirings.py:59 *)
| KSampled         (* sample.py:42 *)
| KGumbelMax       (* sample.py:56, 90 *)
| KGumbelCRF       (* sample.py:98, 148 *)
| KMulti           (* sample.py:211 *)
| KCheck (c : sclass)   (* checkpoint.py:24, 55: class _CheckpointSemiring(cls) *)
| KShard (c : sclass).  (* checkpoint.py:72, 100 *)

(** the base class written in the class statement; None: object *)
Definition base (c : sclass) : option sclass :=
  match c with
  | KSemiring => None
  | KBase | KBaseLog | KKL | KCross | KEntropy => Some KSemiring   (* semirings.py:85, 98, 240, 303, 357 *)
  | KStd => Some KBase                                             (* semirings.py:119 *)
  | KCheck c' | KShard c' => Some c'                               (* checkpoint.py:55, 100 *)
  | _ => Some KBaseLog
  end.
(** the names bound in the class body *)
Definition own (c : sclass) : list string :=
  match c with
  | KSemiring => ["matmul"; "size"; "dot"; "fill"; "times"; "convert"; "unconvert"; "sum"; "plus"]  (* semirings.py:33-82 *)
  | KBase => ["zero"; "one"; "mul"; "prod"]                           (* semirings.py:86-95 *)
  | KBaseLog => ["zero"; "one"; "sum"; "mul"; "prod"]                 (* semirings.py:99-112 *)
  | KStd => ["sum"; "matmul"]                                         (* semirings.py:124-135 *)
  | KLog => ["matmul"]                                                (* semirings.py:145-150 *)
  | KMax => ["matmul"; "sum"; "sparse_sum"]                           (* semirings.py:160-174 *)
  | KKMax _ => ["zero"; "one"; "size"; "convert"; "unconvert"; "sum"; "sparse_sum"; "mul"]  (* semirings.py:182-235 *)
  | KKL | KCross | KEntropy => ["zero"; "one"; "size"; "convert"; "unconvert"; "sum"; "mul"; "prod"]  (* semirings.py:256-300, 316-354, 370-403 *)
  | KTempMax => ["sum"; "sparse_sum"]                                 (* semirings.py:412-420 *)
  | KFastLog | KFastMax | KFastSample => ["sum"; "matmul"]            (* fast_semirings.py:35-46, 49-57, 60-68 *)
  | KSparse | KSampled | KGumbelMax | KGumbelCRF => ["sum"]           (* sparse_max.py:16, sample.py:51, 91, 149 *)
  | KMulti => ["sum"; "to_discrete"]                                  (* sample.py:218-227 *)
  | KCheck _ | KShard _ => ["matmul"]                                 (* checkpoint.py:56, 101 *)
  end.
(** Python's lookup on a class: itself, then its bases in order, then object
    (which has none of the names asked for). Gives the class that binds it. *)
Definition has (c : sclass) (a : string) : bool := existsb (String.eqb a) (own c).
(** Python's [__mro__] of the classes of semirings.py, checkpoint.py:55, 100 *)
Fixpoint mro (c : sclass) : list sclass :=
  c :: match c with
       | KCheck c' | KShard c' => mro c'
       | KSemiring => []
       | KBase | KBaseLog | KKL | KCross | KEntropy => [KSemiring]
       | KStd => [KBase; KSemiring]
       | _ => [KBaseLog; KSemiring]
       end.
Lemma mro_base c : mro c = c :: match base c with Some c' => mro c' | None => [] end.
Proof. destruct c; reflexivity. Qed.
(** the class on which an attribute is found *)
Definition resolve (c : sclass) (a : string) : option sclass := find (fun c' => has c' a) (mro c).
(** reading an attribute *)
Definition attr (c : sclass) (a : string) : res unit :=
  match resolve c a with Some _ => Ok tt | None => Err AttributeError end.

(** ** Calls with default and keyword arguments (Python language reference 6.3.4) *)
Inductive val := VNone | VBool (b : bool) | VInt (z : Z) | VClass (c : sclass).
(** local variables of a call *)
Definition frame := list (string * val).
(** value of a variable *)
Fixpoint lookup (f : frame) (x : string) : option val :=
  match f with [] => None | (y, v) :: f' => if String.eqb x y then Some v else lookup f' x end.
(** parameters with defaults; positional arguments fill them from the left *)
Fixpoint bind_pos (ps : list (string * option val)) (pos : list val) : option (frame * list (string * option val)) :=
  match pos, ps with
  | [], _ => Some ([], ps)
  | v :: pos', (x, _) :: ps' => match bind_pos ps' pos' with Some (f, r) => Some ((x, v) :: f, r) | None => None end
  | _ :: _, [] => None
  end.
(** the remaining parameters come from keywords or defaults *)
Fixpoint bind_rest (ps : list (string * option val)) (kw : frame) : option frame :=
  match ps with
  | [] => Some []
  | (x, d) :: ps' =>
      match (match lookup kw x with Some v => Some v | None => d end), bind_rest ps' kw with
      | Some v, Some f => Some ((x, v) :: f)
      | _, _ => None
      end
  end.
(** binding of all parameters; a leftover argument raises TypeError *)
Definition bind (ps : list (string * option val)) (pos : list val) (kw : frame) : res frame :=
  match bind_pos ps pos with
  | None => Err TypeError
  | Some (f, r) =>
      if forallb (fun xv => existsb (fun p => String.eqb (fst xv) (fst p)) r) kw
      then match bind_rest r kw with Some f' => Ok (f ++ f')%list | None => Err TypeError end
      else Err TypeError
  end.

(** alignment.py:18-24 *)
Definition align_params : list (string * option val) :=
  [("semiring", Some (VClass KLog)); ("sparse_rounds", Some (VInt 3)); ("max_gap", Some VNone); ("local", Some (VBool false))].
(** alignment.py:18-24: the fields set by [__init__] *)
Record align := Align { al_semiring : val; al_rounds : val; al_gap : val; al_local : val }.
(** alignment.py:18-24 [__init__]: see [align_params] for its parameters *)
Definition align_init (pos : list val) (kw : frame) : res align :=
  match bind align_params pos kw with
  | Err e => Err e
  | Ok f =>
      match lookup f "semiring", lookup f "sparse_rounds", lookup f "max_gap", lookup f "local" with
      | Some a, Some b, Some c, Some d => Ok (Align a b c d)
      | _, _, _, _ => Err TypeError
      end
  end.
(** Python truth *)
Definition truthy (v : val) : bool :=
  match v with VNone => false | VBool b => b | VInt z => negb (Z.eqb z 0) | VClass _ => true end.

(** ** logpartition *)
(** the potentials: one tensor, given by its shape and by whether its entries meet
    the three sign conditions of lines 30-32; or the list of two tensors that kl
    and cross_entropy pass *)
Inductive pots := PTensor (sh : list nat) (signs : bool) | PList.
(** what the lines that are not modelled do: [fill], the semiring's convert (line
    34) and the first assignment to the chart (line 93), which may raise; [rest],
    everything after the first [one_] (lines 100-195) *)
Record beyond := Beyond { fill_err : option pyerr; rest : res (list Z) }.
(** Python's [max] of a list of integers *)
Definition zmax (l : list Z) : option Z := match l with [] => None | x :: l' => Some (fold_left Z.max l' x) end.

(** alignment.py:26-46 [_check_potentials]: N, M and the lengths.
    Simplification: an error of [convert] is counted with line 93. *)
Definition align_check (sr : sclass) (local : bool) (p : pots) (lengths : option (list Z)) : res (nat * nat * list Z) :=
  match p with
  | PTensor [batch; N; M; x] signs =>
      if negb (Nat.eqb x 3) then Err AssertionError else
      if local && negb signs then Err AssertionError else
      match attr sr "convert" with
      | Err e => Err e
      | Ok _ =>
          if negb (Nat.leb N M) then Err AssertionError else
          let ls := match lengths with None => repeat (Z.of_nat N) batch | Some ls => ls end in
          match zmax ls with
          | None => Err ValueError
          | Some m =>
              if negb (Z.leb m (Z.of_nat N)) then Err AssertionError else
              if negb (Z.eqb m (Z.of_nat N)) then Err AssertionError else Ok (N, M, ls)
          end
      end
  | PTensor _ _ => Err ValueError
  | PList => Err AttributeError
  end.
(** alignment.py:48-195 [logpartition] = [_dp_scan] *)
Definition align_logpartition (self : align) (p : pots) (lengths : option (list Z)) (u : beyond) : res (list Z) :=
  match al_semiring self with
  | VClass sr =>
      match p with
      | PList => Err AttributeError           (* line 55: a list has no requires_grad_ *)
      | PTensor _ _ =>
          match attr sr "size" with           (* line 56 *)
          | Err e => Err e
          | Ok _ =>
              match align_check sr (truthy (al_local self)) p lengths with   (* line 57 *)
              | Err e => Err e
              | Ok (N, M, ls) =>
                  if Nat.eqb (M + N) 0 then Err ValueError else   (* line 63: math.log(0, 2) *)
                  match attr sr "zero" with   (* lines 71-76, helpers.py:61 *)
                  | Err e => Err e
                  | Ok _ =>
                      match ls with           (* line 90 *)
                      | [] => rest u
                      | _ :: _ =>
                          match fill_err u with   (* line 93 *)
                          | Some e => Err e
                          | None =>
                              match attr sr "one_" with   (* line 100 *)
                              | Err e => Err e
                              | Ok _ => rest u
                              end
                          end
                      end
                  end
              end
          end
      end
  | _ => Err AttributeError                   (* line 56: no size *)
  end.

(** ** AlignmentCRF *)
(** distributions.py:309-312 *)
Record align_crf := AlignCrf { ac_pots : pots; ac_local : bool; ac_lengths : option (list Z); ac_gap : val }.
(** distributions.py:314-317 *)
Definition crf_struct (d : align_crf) (sr : sclass) : res align :=
  align_init [VClass sr; VBool (ac_local d)] [("max_gap", ac_gap d)].
(** distributions.py:54-233: the queries *)
Inductive aquery :=
| QPartition | QEntropy | QMax | QArgmax | QMode | QMarginals | QKmax (k : nat) | QTopk (k : nat)
| QCount | QGumbel | QCross | QKl | QLogProb (score_err : option pyerr) | QSample (shape : list nat).
(** distributions.py:54-233: [self._struct(sr).logpartition(self.log_potentials, lengths)] *)
Definition on (d : align_crf) (sr : sclass) (p : pots) (u : beyond) : res (list Z) :=
  match crf_struct d sr with
  | Err e => Err e
  | Ok s => align_logpartition s p (ac_lengths d) u
  end.
(** each query calls [sum] or [marginals] of a new struct, and both start with
    [logpartition] (helpers.py:78, 95). Simplification: what they do with its
    result is not modelled (the result is passed through). log_prob scores first
    (distributions.py:68-75), which may raise; sample checks the shape and stacks
    an empty list when no samples are asked for (:222-233). *)
Definition align_query (d : align_crf) (q : aquery) (u : beyond) : res (list Z) :=
  match q with
  | QPartition => on d KLog (ac_pots d) u                  (* 209-210 *)
  | QEntropy => on d KEntropy (ac_pots d) u                (* 85 *)
  | QMax | QArgmax | QMode => on d KMax (ac_pots d) u      (* 125, 135, 168 *)
  | QMarginals => on d KLog (ac_pots d) u                  (* 183 *)
  | QKmax k | QTopk k => on d (KKMax k) (ac_pots d) u      (* 148, 163 *)
  | QCount => on d KStd (match ac_pots d with PTensor sh _ => PTensor sh false | PList => PList end) u  (* 186-190: potentials all 0 or 1 *)
  | QGumbel => on d KGumbelCRF (ac_pots d) u               (* 192-197 *)
  | QCross => on d KCross PList u                          (* 98-100 *)
  | QKl => on d KKL PList u                                (* 112-114 *)
  | QLogProb (Some e) => Err e
  | QLogProb None => on d KLog (ac_pots d) u               (* 76 *)
  | QSample [0%nat] => Err RuntimeError
  | QSample [_] => on d KMulti (ac_pots d) u
  | QSample _ => Err AssertionError
  end.

(** ** The other structures *)
Inductive algorithm := ALinear | ASemi | ASemiStandard | ACkyCrf | ACky | ADep.
(** the attributes of the semiring each algorithm reads, with helpers.py:61,
    78-81, 111-116 (size, zero, unconvert) and what they call in turn
    (semirings.py:12-20, 44-82) *)
Definition reads (a : algorithm) : list string :=
  let common := ["size"; "zero"; "unconvert"; "prod"] in
  match a with
  | ALinear => common ++ ["convert"; "fill"; "one"; "matmul"; "sum"; "times"; "mul"]                 (* linearchain.py:30-85 *)
  | ASemi => common ++ ["convert"; "fill"; "one"; "matmul"; "sum"; "times"; "mul"]                   (* semimarkov.py:10-87 *)
  | ASemiStandard => common ++ ["convert"; "fill"; "one"; "sum"; "dot"; "matmul"; "times"; "mul"]    (* semimarkov.py:89-119 *)
  | ACkyCrf => common ++ ["convert"; "dot"; "matmul"; "sum"; "times"; "mul"]                         (* cky_crf.py:8-43 *)
  | ACky => common ++ ["convert"; "dot"; "matmul"; "sum"; "times"; "mul"]                            (* cky.py:8-79 *)
  | ADep => common ++ ["convert"; "fill"; "one"; "dot"; "matmul"; "sum"; "times"; "mul"]             (* deptree.py:49-141 *)
  end%list.
