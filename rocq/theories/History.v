(** * History: distribution objects, their lazily cached properties and the
    class attribute [DepTree.multiroot], over a whole program run. *)
From Verif Require Import Base Ops Terms Semirings Poly Chain LinearChain SemiMarkov CkyCrf Cky DepSpec DepTree
  Batch Family Approx Grad Sample Dist Purity Degree Shape Api Query.
Set Implicit Arguments.
Local Open Scope R_scope.

Section History.
  (** torch.max: the index it returns at a node of a row, a fixed function of the computation *)
  Variable tie : call -> (list nat -> R) -> nat -> path -> nat.

  (** the [@lazy_property] members, distributions.py:77 entropy, 117 max, 127
      argmax, 171 marginals, 185 count, 207 partition. [mode] (167-169) returns
      [self.argmax] and is not listed: its value is the cached argmax. *)
  Inductive key := KPartition | KMaximum | KEntropy | KArgmax | KMarginals | KCount.
  (** comparison of cache entries (distributions.py:77-210, the names of the lazy properties) *)
  Definition key_eqb (a b : key) : bool :=
    match a, b with
    | KPartition, KPartition | KMaximum, KMaximum | KEntropy, KEntropy | KArgmax, KArgmax
    | KMarginals, KMarginals | KCount, KCount => true
    | _, _ => false
    end.
  (** a result: one number per row, one number, or a tensor of the shape of the potentials *)
  Inductive ans := AVec (r : res (list R)) | ANum (r : res R) | ATen (r : res (list nat -> R)).
  (** the call raised an exception (distributions.py:77-210) *)
  Definition raises (a : ans) : bool :=
    match a with AVec (Err _) | ANum (Err _) | ATen (Err _) => true | _ => false end.

  (** the body of each property, for the structure class as it is now *)
  Definition eval (k : key) (c : call) (phi : list nat -> R) : ans :=
    match k with
    | KPartition => AVec (q_partition c phi)
    | KMaximum => AVec (q_max c phi)
    | KEntropy => AVec (q_entropy c phi)
    | KArgmax => ATen (res_map (fun _ => q_argmax c (tie c phi)) (q_max c phi))
    | KMarginals => ATen (res_map (fun _ => q_marginals c phi) (q_partition c phi))
    (* distributions.py:185-190: no finite potential is -inf; a CFG has no log_potentials tensor *)
    | KCount => AVec (match c with CCfg _ _ _ _ _ => Err TypeError | _ => run c std_ops (fun _ => 1) end)
    end.

  (** [multiroot] in a call stands for the constructor argument; DepTree.logpartition
      reads the class attribute instead, deptree.py:50 *)
  Definition with_flag (f : bool) (c : call) : call :=
    match c with CDep _ b n lab ls => CDep f b n lab ls | _ => c end.

  (** an object: constructor arguments and instance dictionary of cached values
      (torch.distributions.utils.lazy_property sets the attribute after the
      first evaluation that returns) *)
  Record obj := { oc : call; ophi : list nat -> R; cache : key -> option ans }.
  (** [flag = None]: attribute not set yet, [getattr(self, "multiroot", True)] *)
  Record world := { flag : option bool; objs : list obj }.
  (** before any call: [multiroot] is not set (deptree.py:50 falls back to True) and there is no object *)
  Definition w0 : world := {| flag := None; objs := [] |}.
  (** the value of the class attribute [multiroot] that a call reads (deptree.py:50) *)
  Definition cur (w : world) : bool := match flag w with Some f => f | None => true end.

  (** one operation of a user on distributions (distributions.py:45-51, 56-210, 393-396) *)
  Inductive op :=
  | New (c : call) (phi : list nat -> R)               (* StructDistribution.__init__ 45-51, DependencyCRF.__init__ 393-396 *)
  | Ask (i : nat) (k : key)                            (* a lazy property *)
  | LogProb (i : nat) (b : nat) (value : list nat -> R) (* log_prob, 56-75 *)
  | Direct (i : nat) (f : call -> (list nat -> R) -> ans). (* kmax, topk, kl, cross_entropy, sample with fixed draws: not cached *)

  Definition set_obj (i : nat) (o : obj) (l : list obj) : list obj := firstn i l ++ [o] ++ skipn (S i) l.
  (** one lazy attribute access *)
  Definition get (w : world) (i : nat) (o : obj) (k : key) : world * ans :=
    match cache o k with
    | Some a => (w, a)
    | None =>
        let a := eval k (with_flag (cur w) (oc o)) (ophi o) in
        if raises a then (w, a)
        else ({| flag := flag w;
                 objs := set_obj i {| oc := oc o; ophi := ophi o; cache := fun k' => if key_eqb k' k then Some a else cache o k' |} (objs w) |}, a)
    end.
  (** distributions.py:67-75: the score of the event minus the cached partition;
      an event of a CFG is a tuple and has no [dim] *)
  Definition lp_of (c : call) (phi : list nat -> R) (b : nat) (value : list nat -> R) (p : res (list R)) : res R :=
    match c with
    | CCfg _ _ _ _ _ => Err AttributeError
    | _ => res_map (fun v => RSum (fun e => phi e * value e) (map (cons b) (indices (event_shape c))) - nth b v 0) p
    end.
  (** distributions.py:45-51, 56-210, 393-396: one operation; a lazy property is computed once and kept in the object *)
  Definition step (w : world) (o : op) : world * option ans :=
    match o with
    | New c phi =>
        ({| flag := match c with CDep mr _ _ _ _ => Some mr | _ => flag w end;
            objs := objs w ++ [{| oc := c; ophi := phi; cache := fun _ => None |}] |}, None)
    | Ask i k =>
        match nth_error (objs w) i with
        | Some ob => let '(w', a) := get w i ob k in (w', Some a)
        | None => (w, None)
        end
    | LogProb i b value =>
        match nth_error (objs w) i with
        | Some ob =>
            match oc ob with
            | CCfg _ _ _ _ _ => (w, Some (ANum (Err AttributeError)))
            | _ => let '(w', a) := get w i ob KPartition in
                   (w', Some (ANum (lp_of (oc ob) (ophi ob) b value (match a with AVec r => r | _ => Err TypeError end))))
            end
        | None => (w, None)
        end
    | Direct i f =>
        match nth_error (objs w) i with
        | Some ob => (w, Some (f (with_flag (cur w) (oc ob)) (ophi ob)))
        | None => (w, None)
        end
    end.
  (** the state after a list of operations, one after the other (distributions.py:45-210) *)
  Definition after (h : list op) : world := fold_left (fun w o => fst (step w o)) h w0.
  (** result of an operation issued after a history *)
  Definition answer (h : list op) (o : op) : option ans := snd (step (after h) o).
End History.
