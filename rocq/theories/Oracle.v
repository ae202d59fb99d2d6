(** * Oracle: the brute-force oracles of the test-suite (tests/extensions.py).

    The unit tests compare the dynamic programs with these enumerations on
    sentences of 2 to 4 words. Here the oracles are functions of arbitrary sizes;
    P_Oracle.v proves that they list exactly the structures of the
    specification, and hence that the comparisons hold for every size. *)
From Coq Require Import ZArith.
From Verif Require Import Base Ops LinearChain SemiMarkov CkyCrf Cky DepSpec DepTree.
Set Implicit Arguments.

Section Model.
  Variable O : ops.
  Notation A := (car O).
  Variable pot : list nat -> A.
  Variable b : nat.

  (** ** extensions.py:24-79 [LinearChainTest.enumerate]: lines 29-39 the first
      column, 42-52 the loop over n. [pot] are the potentials after
      [_check_potentials] (line 28). Not modelled: the lengths of the enumeration (54-56)
      and the second computation of the sum from indicator tensors (58-66). *)
  Definition lco_first (C : nat) : list (list nat * A) := map (fun c => ([c], sone O)) (seq 0 C).
  (** extensions.py:42-52: every prefix is continued with every class *)
  Definition lco_next (C n : nat) (prev : list (list nat * A)) : list (list nat * A) :=
    flat_map (fun cs => map (fun c => (fst cs ++ [c], smul O (snd cs) (pot [b; n - 1; c; last (fst cs) 0]))) (seq 0 C)) prev.
  (** [chains[n]], line 52 *)
  Fixpoint lco_chains (C n : nat) : list (list nat * A) :=
    match n with 0 => lco_first C | S m => lco_next C (S m) (lco_chains C m) end.

  (** ** extensions.py:134-166 [SemiMarkovTest.enumerate]. A chain is a list of
      (label, width) pairs, the first with width 0. [N] is the number of rows of the
      potentials. The dictionary [chains] is the list of its values at 0, 1, ... *)
  Definition smo_next (K C n : nat) (tab : list (list (list (nat * nat) * A))) : list (list (nat * nat) * A) :=
    flat_map (fun k => if n <? k then [] else        (* [if n - k not in chains: continue] *)
      flat_map (fun cs => map (fun c => (fst cs ++ [(c, k)],
          smul O (snd cs) (pot [b; n - k; k; c; fst (last (fst cs) (0, 0))]))) (seq 0 C)) (nth (n - k) tab []))
      (seq 1 (K - 1)).
  (** lines 139-151: the dictionary [chains] after the round for n *)
  Fixpoint smo_tab (K C n : nat) : list (list (list (nat * nat) * A)) :=
    match n with
    | 0 => [map (fun c => ([(c, 0)], sone O)) (seq 0 C)]
    | S m => let t := smo_tab K C m in t ++ [smo_next K C (S m) t]
    end.
  (** line 165: [chains[N]] *)
  Definition smo_chains (K C n : nat) : list (list (nat * nat) * A) := nth n (smo_tab K C n) [].

  (** ** extensions.py:288-313 [CKY_CRFTest.enumerate]: lines 293-307 the inner
      generator, 309-311 the loop over the top label. [fuel] bounds the recursion depth. *)
  Fixpoint cko_enum (NT fuel x start stop : nat) : list (A * list (list nat)) :=
    match fuel with
    | 0 => []
    | S f =>
        if start + 1 =? stop then [(pot [b; start; start; x], [[start; x]])] else
        flat_map (fun w => flat_map (fun y => flat_map (fun z => flat_map (fun m1 => map (fun m2 =>
            (stimes O (fst m1) [fst m2; pot [b; start; stop - 1; x]], [x; start; w; stop] :: snd m1 ++ snd m2))
          (cko_enum NT f z w stop)) (cko_enum NT f y start w)) (seq 0 NT)) (seq 0 NT)) (seq (start + 1) (stop - (start + 1)))
    end.
  (** lines 309-311 *)
  Definition cko_scores (NT N : nat) : list A :=
    flat_map (fun nt => map fst (cko_enum NT N nt 0 N)) (seq 0 NT).

  (** ** extensions.py:342-367 [CKYTest.enumerate]: lines 348-362 the generator
      (children of width one range over the preterminals NT .. NT+T-1, wider ones over
      the nonterminals), 364-366 the roots *)
  Fixpoint cyo_enum (NT T fuel x start stop : nat) : list (A * list (list nat)) :=
    match fuel with
    | 0 => []
    | S f =>
        if start + 1 =? stop then [(pot [0; b; start; x - NT], [[start; x - NT]])] else
        flat_map (fun w =>
          flat_map (fun y => flat_map (fun z => flat_map (fun m1 => map (fun m2 =>
            (stimes O (stimes O (fst m1) [fst m2]) [pot [1; b; x; y; z]], [x; start; w; stop] :: snd m1 ++ snd m2))
          (cyo_enum NT T f z w stop)) (cyo_enum NT T f y start w))
            (if w =? stop - 1 then seq NT T else seq 0 NT))
            (if w =? start + 1 then seq NT T else seq 0 NT)) (seq (start + 1) (stop - (start + 1)))
    end.
  (** lines 364-366 *)
  Definition cyo_scores (NT T N : nat) : list A :=
    flat_map (fun nt => map (fun s => stimes O (fst s) [pot [2; b; nt]]) (cyo_enum NT T N nt 0 N)) (seq 0 NT).
End Model.

(** ** extensions.py:222-239 [_is_spanning]. A parse lists the head of node 0, 1,
    ...; node 0 is the root and has head -1. *)
(** [enumerate(parse)], line 224: pairs (m, h) *)
Definition numbered (parse : list Z) : list (nat * Z) := combine (seq 0 (length parse)) parse.
(** lines 225-226: [m == h] *)
Definition self_headed (parse : list Z) : bool := existsb (fun mh => (Z.of_nat (fst mh) =? snd mh)%Z) (numbered parse).
(** lines 223 and 227-228: the dictionary [d], from a head to its children in order *)
Definition children (parse : list Z) (h : nat) : list nat :=
  map fst (filter (fun mh => (snd mh =? Z.of_nat h)%Z) (numbered parse)).
(** lines 229-236: the traversal. [None] stands for [return False]; [fuel] bounds the
    iterations, each of which adds a node to [seen]. *)
Fixpoint walk (parse : list Z) (fuel : nat) (stack seen : list nat) : option (list nat) :=
  match stack with
  | [] => Some seen
  | cur :: rest =>
      if existsb (Nat.eqb cur) seen then None else
      match fuel with
      | 0 => None
      | S f => walk parse f (children parse cur ++ rest) (cur :: seen)
      end
  end.
(** lines 237-239; no head is None *)
Definition is_spanning (parse : list Z) : bool :=
  if self_headed parse then false else
  match walk parse (length parse + 1) [0] [] with
  | None => false
  | Some seen => length seen =? length parse
  end.

(** ** extensions.py:242-247 [_is_multi_root] *)
Definition is_multi_root (parse : list Z) : bool := 1 <? length (filter (fun h => (h =? 0)%Z) parse).

(** ** extensions.py:250-271 [_is_projective]: chained comparisons, *)
Definition lt4 (a b' c d : Z) : bool := ((a <? b') && (b' <? c) && (c <? d))%Z.
(** the two conditions, lines 255-270, *)
Definition crosses (m h m2 h2 : Z) : bool :=
  ((m <? h)%Z && (lt4 m m2 h h2 || lt4 m h2 h m2 || lt4 m2 m h2 h || lt4 h2 m m2 h)) ||
  ((h <? m)%Z && (lt4 h m2 m h2 || lt4 h h2 m m2 || lt4 m2 h h2 m || lt4 h2 h m2 m)).
(** and the double loop, lines 251-254 and 271 *)
Definition is_projective (parse : list Z) : bool :=
  forallb (fun mh => forallb (fun mh2 => (fst mh2 =? fst mh) ||
    negb (crosses (Z.of_nat (fst mh)) (snd mh) (Z.of_nat (fst mh2)) (snd mh2))) (numbered parse)) (numbered parse).

(** ** extensions.py:93-115 [DepTreeTest.enumerate]. [n] words, so N = n + 1 after
    [convert] (line 97); [product(range(N + 1), repeat=N - 1)] (line 101) *)
Fixpoint product (r k : nat) : list (list nat) :=
  match k with 0 => [[]] | S k' => flat_map (fun x => map (cons x) (product r k')) (seq 0 r) end.
(** line 102 *)
Definition parse_of (mid : list nat) : list Z := (-1)%Z :: map Z.of_nat mid.
(** lines 103-109 *)
Definition keep (non_proj multi_root : bool) (mid : list nat) : bool :=
  let parse := parse_of mid in
  is_spanning parse && (non_proj || is_projective parse) && (multi_root || negb (is_multi_root parse)).
(** lines 101-111: the list [q] *)
Definition kept (non_proj multi_root : bool) (n : nat) : list (list nat) :=
  filter (keep non_proj multi_root) (product (n + 2) n).
(** lines 112-114: [arc_scores[:, parse[i], i]] for i = 1 .. N-1, multiplied. [times]
    of no factor raises IndexError: the model returns [one] there, and the theorems ask
    for at least one word. *)
Definition dpo_score (O : ops) (pot : list nat -> car O) (b : nat) (mid : list nat) : car O :=
  match map (fun i => pot (dp_idx b (nth (i - 1) mid 0) i [])) (seq 1 (length mid)) with
  | [] => sone O
  | x :: l => stimes O x l
  end.

(** ** extensions.py:168-216 [SemiMarkovTest.enumerate_hsmm]: [score_chain], lines
    183-200, for a chain of (label, width) pairs whose first pair is the initial state *)
Section Hsmm.
  Variable O : ops.
  Variables (init : nat -> car O) (trans len : nat -> nat -> car O) (emis : nat -> nat -> nat -> car O).
  (** lines 190-199 *)
  Fixpoint hso_steps (score : car O) (n prev : nat) (chain : list (nat * nat)) : car O :=
    match chain with
    | [] => score
    | (state, k) :: rest =>
        let score := smul O score (trans prev state) in
        let score := smul O score (len state k) in
        let score := smul O score (emis n k state) in
        hso_steps score (n + k) state rest
    end.
  (** lines 184-189 *)
  Definition hso_score (chain : list (nat * nat)) : car O :=
    match chain with
    | [] => sone O
    | (state0, _) :: rest => hso_steps (smul O (sone O) (init state0)) 0 state0 rest
    end.
End Hsmm.
