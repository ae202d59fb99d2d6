(** * AutoReg: model of Autoregressive (autoregressive.py 27-288).

    Tensors are functions of their indices together with the sizes that the code
    reads. Simplifications: real arithmetic; batch size at least one (torch cannot infer
    a dimension of an empty view); the state tuple is one abstract value per row. *)
From Coq Require Import Reals Lra.
From Verif Require Import Base Ops Semirings Approx Sample DagLaw.
Set Implicit Arguments.
Local Open Scope R_scope.

(** a token given to the model: an index, or the weights of TempMax (semirings.py 420) *)
Inductive tok := Hard (c : nat) | Soft (w : nat -> R).

(** log_softmax over the last dimension (autoregressive.py 113, 173) *)
Definition log_softmax (C : nat) (v : nat -> R) (c : nat) : R := v c - ln (RSum (fun x => exp (v x)) (seq 0 C)).
(** softmax over the last dimension (semirings.py 419, and Categorical(logits=), 285) *)
Definition softmax (C : nat) (v : nat -> R) (c : nat) : R := exp (v c) / RSum (fun x => exp (v x)) (seq 0 C).
(** autoregressive.py 27-28: view(ssize, -1, ...) of a tensor with B columns *)
Definition wrap {A} (B : nat) (x : nat -> A) (k b : nat) : A := x (k * B + b)%nat.
(** autoregressive.py 31-32: view(-1, ...) *)
Definition unwrap {A} (B : nat) (x : nat -> nat -> A) (i : nat) : A := x (i / B)%nat (i mod B)%nat.

Section Ar.
  Variable St : Type.
  (** the user's module (autoregressive.py 6-24), by its documented contract: every row
      is treated separately, and a sequence of tokens is read one at a time, each token
      giving the logits of the next one and a new state *)
  Record model := { odim : nat; mstep : St -> tok -> (nat -> R) * St }.
  (** autoregressive.py 49-68 *)
  Record ar := { mo : model; init : nat -> St; batch : nat; n_classes : nat; n_length : nat; normalize : bool; start_class : nat }.
  Variable a : ar.

  (** state after reading [t] tokens *)
  Fixpoint after (st : St) (toks : nat -> tok) (t : nat) : St :=
    match t with O => st | S t' => snd (mstep (mo a) (after st toks t') (toks t')) end.
  (** self.model(tokens, state) for rows of T tokens (autoregressive.py 104, 156, 283) *)
  Definition forward (T : nat) (toks : nat -> nat -> tok) (st : nat -> St) : (nat -> nat -> nat -> R) * (nat -> St) :=
    (fun i t => fst (mstep (mo a) (after (st i) (toks i) t) (toks i t)), fun i => after (st i) (toks i) T).
  (** autoregressive.py 112-115 and 172-173 *)
  Definition norm (v : nat -> R) : nat -> R := if normalize a then log_softmax (n_classes a) v else v.

  (** autoregressive.py 70-118 with sparse=True: [value] holds class indices, shape
      sample x batch x N. gather (117) raises on an index out of range. *)
  Definition log_prob (sample N : nat) (value : nat -> nat -> nat -> nat) : res (nat -> nat -> R) :=
    let B := batch a in
    let value1 s b t := match t with O => start_class a | S t' => value s b t' end in
    let value2 := unwrap B value1 in
    let state := unwrap B (fun _ b => init a b) in
    let logits := fst (forward (S N) (fun i t => Hard (value2 i t)) state) in
    if negb (odim (mo a) =? n_classes a)%nat then Err AssertionError else
    if negb (forallb (fun i => forallb (fun t => (value2 i (S t) <? n_classes a)%nat) (seq 0 N)) (seq 0 (sample * B))) then Err RuntimeError else
    let scores i := RSum (fun t => norm (logits i t) (value2 i (S t))) (seq 0 N) in
    Ok (wrap B scores).
  (** autoregressive.py 81-86: with sparse=False the last dimension holds one-hot rows *)
  Definition log_prob_onehot (sample N C : nat) (value : nat -> nat -> nat -> nat -> nat) : res (nat -> nat -> R) :=
    log_prob sample N (fun s b t => fold_right Nat.add 0%nat (map (fun c => value s b t c * c)%nat (seq 0 C))).

  (** ** Beam search (autoregressive.py 120-191) *)
  (** the semirings it is called with (202, 235, 238, 257; TempMax of 221 is below) *)
  Inductive srng := SMax | SKMax (k : nat).
  (** semirings.py 38-41, 185-187 *)
  Definition ssize (r : srng) : nat := match r with SMax => 1%nat | SKMax k => k end.
  (** semirings.py 100, 183: semiring.one, filled into the initial beam (121-125) *)
  Definition sone (r : srng) (k : nat) : R := match r with SMax => 0 | SKMax _ => if (k =? 0)%nat then 0 else NEG end.
  (** semirings.py 171-174 (MaxSemiring) and 215-225 (KMaxSemiring): the vector searched
      for row b, its length, and the position and token a chosen index stands for *)
  Definition sp_vec (r : srng) (xs : nat -> nat -> nat -> R) (b i : nat) : R :=
    match r with SMax => xs 0%nat b i | SKMax k => xs (i mod k)%nat b (i / k)%nat end.
  (** length of that vector *)
  Definition sp_len (r : srng) : nat := match r with SMax => n_classes a | SKMax k => (n_classes a * k)%nat end.
  (** beam position of the chosen index (semirings.py:220-224) *)
  Definition sp_pos (r : srng) (i : nat) : nat := match r with SMax => 0%nat | SKMax k => (i mod k)%nat end.
  (** token of the chosen index (semirings.py:171-174, 220-224) *)
  Definition sp_tok (r : srng) (i : nat) : nat := match r with SMax => i | SKMax k => (i / k)%nat end.
  (** what torch.max and torch.topk (sorted) guarantee about the K indices they return *)
  Definition is_topk (K L : nat) (v : nat -> R) (sel : nat -> nat) : Prop :=
    (forall j, (j < K)%nat -> (sel j < L)%nat) /\
    (forall j j', (j < K)%nat -> (j' < K)%nat -> sel j = sel j' -> j = j') /\
    (forall j j', (j < j' < K)%nat -> v (sel j') <= v (sel j)) /\
    (forall i, (i < L)%nat -> (forall j, (j < K)%nat -> sel j <> i) -> forall j, (j < K)%nat -> v i <= v (sel j)).

  Variable r : srng.
  (** the Gumbel noise of step t (168-171); None: no noise *)
  Variable noise : option (nat -> nat -> nat -> nat -> R).
  (** the indices torch returns at step t for row b *)
  Variable pick : nat -> nat -> nat -> nat.
  Let K := ssize r.
  Let B := batch a.

  (** loop variables beam, tokens, state (autoregressive.py 121-126, 145-150); tokens and state
      flattened to ssize * batch rows *)
  Record bst := { bm : nat -> nat -> R; tk : nat -> tok; sts : nat -> St }.
  (** autoregressive.py 121-126, 145-150: the initial beam, tokens and states *)
  Definition b0 : bst := {| bm := fun k _ => sone r k; tk := fun _ => Hard (start_class a); sts := unwrap B (fun _ b => init a b) |}.
  (** autoregressive.py 156-173 *)
  Definition blogits (t : nat) (s : bst) (k b : nat) : nat -> R :=
    let logits := fst (forward 1 (fun i _ => tk s i) (sts s)) in
    let w := wrap B (fun i => logits i 0%nat) in
    norm (fun c => match noise with None => w k b c | Some g => w k b c + g t k b c end).
  (** autoregressive.py 175 *)
  Definition ex_beam (t : nat) (s : bst) (k b c : nat) : R := bm s k b + blogits t s k b c.
  (** autoregressive.py 128-143, 156, 178-179 *)
  Definition bstep (t : nat) (s : bst) : bst :=
    let st' := snd (forward 1 (fun i _ => tk s i) (sts s)) in
    let xs := ex_beam t s in
    let positions k b := sp_pos r (pick t b k) in
    let tokens k b := sp_tok r (pick t b k) in
    {| bm := fun k b => sp_vec r xs b (pick t b k);
       tk := unwrap B (fun k b => Hard (tokens k b));
       sts := unwrap B (fun k b => st' (positions k b * B + b)%nat) |}.
  (** autoregressive.py 155: the loop over the steps *)
  Fixpoint brun (t : nat) : bst := match t with O => b0 | S t' => bstep t' (brun t') end.
  (** the tie-breaking of torch is arbitrary, but always picks maximal elements *)
  Definition picks_ok : Prop := forall t b, (t < n_length a)%nat -> (b < B)%nat ->
    is_topk K (sp_len r) (sp_vec r (ex_beam t (brun t)) b) (pick t b).

  (** the backward pass of autoregressive.py 181-190 for output k: gradient with respect
      to the beam after step t, to ex_beam of step t. An index selected by max or topk
      passes its gradient on; the addition (175) sums it over the classes. *)
  Fixpoint gbeam (k : nat) (n : nat) (k' b : nat) : R :=
    match n with
    | O => if (k' =? k)%nat then 1 else 0
    | S n' => let t := (n_length a - S n')%nat in
        RSum (fun c => RSum (fun j => if (sp_pos r (pick t b j) =? k')%nat && (sp_tok r (pick t b j) =? c)%nat then gbeam k n' j b else 0) (seq 0 K)) (seq 0 (n_classes a))
    end.
  (** gradient with respect to ex_beam of step t *)
  Definition gex (k t k' b c : nat) : R :=
    RSum (fun j => if (sp_pos r (pick t b j) =? k')%nat && (sp_tok r (pick t b j) =? c)%nat then gbeam k (n_length a - S t) j b else 0) (seq 0 K).
  (** autoregressive.py 184-191: paths, final scores, logits *)
  Definition beam_search : res ((nat -> nat -> nat -> nat -> R) * (nat -> nat -> R) * (nat -> nat -> nat -> nat -> R)) :=
    if (K =? 0)%nat || (n_length a =? 0)%nat then Err RuntimeError else
    if negb (odim (mo a) =? n_classes a)%nat then Err AssertionError else
    if (n_classes a =? 0)%nat then Err (match r with SMax => IndexError | SKMax _ => RuntimeError end) else
    Ok (fun k b t c => RSum (fun k' => gex k t k' b c) (seq 0 K), bm (brun (n_length a)),
        fun k b t c => blogits t (brun t) k b c).
End Ar.
Arguments SMax : clear implicits.

(** ** Sampling (autoregressive.py 259-288) *)
Section ArSample.
  Variable St : Type.
  Variable a : ar St.
  Variable S0 : nat.
  Let B := batch a.
  (** Categorical(logits=...).sample (285) *)
  Definition categorical (C : nat) (v : nat -> R) : pmf nat := map (fun c => (softmax C v c, c)) (seq 0 C).
  (** the loop (282-286): after n steps, the tokens drawn so far, the next input tokens
      and the states, for the rows of the flattened batch *)
  Fixpoint ar_steps (n t : nat) (hist : nat -> nat -> nat) (tk : nat -> nat) (sts : nat -> St) : pmf (nat -> nat -> nat) :=
    match n with
    | O => pret hist
    | S n' =>
        let f := forward a 1 (fun i _ => Hard (tk i)) sts in
        pbind (pind (fun i => categorical (n_classes a) (fst f i 0%nat)) 0%nat (S0 * B))
          (fun d => ar_steps n' (S t) (fun i t' => if (t' =? t)%nat then d i else hist i t') d (snd f))
    end.
  (** sample (259-288): class indices of shape sample x batch x N; one_hot (288) is
      their indicator *)
  Definition ar_sample : pmf (nat -> nat -> nat -> nat) :=
    pbind (ar_steps (n_length a) 0 (fun _ _ => 0%nat) (fun _ => start_class a) (unwrap B (fun _ b => init a b)))
      (fun y => pret (wrap B y)).
End ArSample.

(** ** greedy_tempmax (autoregressive.py 205-222) *)
Section Temp.
  Variable St : Type.
  Variable a : ar St.
  Variable alpha : R.
  Variable noise : nat -> nat -> nat -> R.
  Variable pick : nat -> nat -> nat.
  Let B := batch a.
  (** _beam_search(TempMax(alpha), alpha): alpha is also the argument [gumbel], and a
      nonzero number is true (168) *)
  Definition temp_noise (t b c : nat) : R := if Req_EM_T alpha 0 then 0 else noise t b c.
  (** autoregressive.py 156-173: the normalized logits of a step, with noise *)
  Definition tlogits (t : nat) (tk : nat -> tok) (sts : nat -> St) (b : nat) : nat -> R :=
    norm a (fun c => fst (forward a 1 (fun i _ => tk i) sts) b 0%nat c + temp_noise t b c).
  (** one step (autoregressive.py 155-179) with TempMax.sparse_sum (semirings.py 416-420);
      ssize is 1, so wrap and unwrap change nothing *)
  Fixpoint trun (t : nat) : (nat -> R) * (nat -> tok) * (nat -> St) :=
    match t with
    | O => (fun _ => 0, fun _ => Hard (start_class a), fun b => init a b)
    | S t' => let '(bm, tk, sts) := trun t' in
        let xs b c := bm b + tlogits t' tk sts b c in
        (fun b => xs b (pick t' b), fun b => Soft (softmax (n_classes a) (fun c => alpha * xs b c)),
         snd (forward a 1 (fun i _ => tk i) sts))
    end.
  (** what torch.max guarantees about the index chosen at each step *)
  Definition t_ok : Prop := forall t b, (t < n_length a)%nat -> (b < B)%nat ->
    let '(bm, tk, sts) := trun t in
    (pick t b < n_classes a)%nat /\ forall c, (c < n_classes a)%nat -> tlogits t tk sts b c <= tlogits t tk sts b (pick t b).
  (** the second output; the paths (first output) are not modelled: they are gradients
      through the user's model *)
  Definition tempmax_score : nat -> R := fst (fst (trun (n_length a))).
End Temp.
