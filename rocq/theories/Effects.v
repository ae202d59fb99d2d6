(** * Effects: which tensors a query writes to, shares memory with or marks as trainable.

    The numbers are not modelled here (the other files do that); only objects, the memory
    they share and the flag [requires_grad] are. Integer arguments, sizes and the Python list
    of chart indices are left out: a conditional may take either branch and a loop may run any
    number of times, so every run of the library is among the runs of the programs below. *)
From Coq Require Import List Lia Bool Arith String.
Import ListNotations.
Set Implicit Arguments.
Local Open Scope string_scope.

(** ** What torch does (contract) *)
(** Commands of the programs below. A variable holds a list of tensors (a single tensor is a
    list of one).
    - [New x]: x is a new tensor in new memory (torch.zeros, arithmetic, torch.where,
      torch.stack, logsumexp, clone, indexing by tensors, autograd.grad, ...);
    - [Push x]: a new tensor is added to the list x, or replaces one of its entries;
    - [View x y]: x is a new tensor in the memory of a tensor of y (slices, view, transpose,
      permute, diagonal, unsqueeze, squeeze, expand, .data, detach);
    - [Like x y]: x is a tensor of y itself or a copy of it (contiguous, to, type_as);
    - [Let x y]: the same list; [Cat x y z]: the list of the tensors of y and z; [Nil x]: the
      empty list;
    - [Write x]: a tensor of x is written in place (x[...] = v, x += v, fill_, masked_fill_);
      autograd may then also mark all tensors in that memory as requiring gradients;
    - [Flag x]: requires_grad_(True) on all tensors of x; [MayFlag x]: on some. *)
Inductive cmd := Nil (x : string) | New (x : string) | Push (x : string) | View (x y : string) | Like (x y : string) | Let (x y : string)
  | Cat (x y z : string) | Write (x : string) | Flag (x : string) | MayFlag (x : string).
(** sequences, any number of rounds of a loop, either branch of a conditional, and [Raise] *)
Inductive prog := Do (c : cmd) | Skip | Raise | Seq (p q : prog) | Star (p : prog) | Alt (p q : prog).
(** a sequence of programs *)
Fixpoint seqp (l : list prog) : prog := match l with [] => Skip | p :: l' => Seq p (seqp l') end.
(** a sequence of commands *)
Definition dos (l : list cmd) : prog := seqp (map Do l).

Section Machine.
  (** contents of one block of memory *)
  Variable C : Type.
  (** a tensor object: its memory block and its requires_grad flag *)
  Record obj := Obj { storage : nat; rgrad : bool }.
  (** a state: objects, contents of memory, variables (each a list of objects: tuples and lists) *)
  Record st := St { objs : list obj; mem : list C; env : string -> list nat }.
  (** assignment to a variable *)
  Definition upd (e : string -> list nat) (x : string) (v : list nat) : string -> list nat := fun y => if String.eqb y x then v else e y.
  (** objects keep their memory; flags can only change for the objects satisfying P *)
  Definition flags_only (P : nat -> obj -> Prop) (o o' : list obj) : Prop :=
    List.length o' = List.length o /\
    forall i a, nth_error o i = Some a -> exists f, nth_error o' i = Some (Obj (storage a) f) /\ (rgrad a = true -> f = true) /\ (~ P i a -> f = rgrad a).
  (** what one command does (torch semantics of views, in-place writes and requires_grad_) *)
  Inductive step : cmd -> st -> st -> Prop :=
  | s_nil x o m e : step (Nil x) (St o m e) (St o m (upd e x []))
  | s_new x o m e f v : step (New x) (St o m e) (St (o ++ [Obj (List.length m) f]) (m ++ [v]) (upd e x [List.length o]))
  | s_push x o m e f v : step (Push x) (St o m e) (St (o ++ [Obj (List.length m) f]) (m ++ [v]) (upd e x (e x ++ [List.length o])))
  | s_view x y o m e i a f : In i (e y) -> nth_error o i = Some a ->
      step (View x y) (St o m e) (St (o ++ [Obj (storage a) f]) m (upd e x [List.length o]))
  | s_like_same x y o m e i : In i (e y) -> step (Like x y) (St o m e) (St o m (upd e x [i]))
  | s_like_copy x y o m e f v : step (Like x y) (St o m e) (St (o ++ [Obj (List.length m) f]) (m ++ [v]) (upd e x [List.length o]))
  | s_let x y o m e : step (Let x y) (St o m e) (St o m (upd e x (e y)))
  | s_cat x y z o m e : step (Cat x y z) (St o m e) (St o m (upd e x (e y ++ e z)))
  | s_write x o m e i a o' m' : In i (e x) -> nth_error o i = Some a ->
      List.length m' = List.length m -> (forall k, k <> storage a -> nth_error m' k = nth_error m k) ->
      flags_only (fun _ b => storage b = storage a) o o' -> step (Write x) (St o m e) (St o' m' e)
  | s_flag x o m e o' : flags_only (fun i _ => In i (e x)) o o' ->
      (forall i a, In i (e x) -> nth_error o' i = Some a -> rgrad a = true) -> step (Flag x) (St o m e) (St o' m e)
  | s_mayflag x o m e o' : flags_only (fun i _ => In i (e x)) o o' -> step (MayFlag x) (St o m e) (St o' m e).
  (** [exec p s true s']: p runs to its end; [false]: it is left by an exception at any point *)
  Inductive exec : prog -> st -> bool -> st -> Prop :=
  | e_do c s s' : step c s s' -> exec (Do c) s true s'
  | e_raise p s : exec p s false s
  | e_skip s : exec Skip s true s
  | e_seq p q s s1 d s2 : exec p s true s1 -> exec q s1 d s2 -> exec (Seq p q) s d s2
  | e_seq_raise p q s s1 : exec p s false s1 -> exec (Seq p q) s false s1
  | e_star_end p s : exec (Star p) s true s
  | e_star p s s1 d s2 : exec p s true s1 -> exec (Star p) s1 d s2 -> exec (Star p) s d s2
  | e_star_raise p s s1 : exec p s false s1 -> exec (Star p) s false s1
  | e_alt_l p q s d s' : exec p s d s' -> exec (Alt p q) s d s'
  | e_alt_r p q s d s' : exec q s d s' -> exec (Alt p q) s d s'.
End Machine.

(** ** Model: the programs of the library *)
(** how [semiring.convert] treats its argument: unsqueeze(0) (semirings.py:65-68, all semirings
    but the following) or a new tensor that is filled (semirings.py:189-198 KMax, 263-269
    KLDivergence, 323-329 CrossEntropy, 377-382 Entropy; the pair semirings read every tensor
    of the list) *)
Inductive conv := CView | CNew.
(** semirings.py:65-68 or a new tensor, as just described *)
Definition p_convert (k : conv) (x y : string) : prog :=
  match k with CView => dos [View x y] | CNew => dos [New x; Like x x; View "row" x; Write "row"] end.
(** [semiring.unconvert] (semirings.py:70-73, 200-202, 271-273, 331-333, 384-386): a view *)
Definition p_unconvert (x y : string) : prog := dos [View x y].

(** The operations [sum], [mul], [times] of two, [dot], [matmul] and [fill] of every semiring of
    semirings.py, sample.py and sparse_max.py allocate their result: [New]. The in-place writes
    inside such operations and their backward passes are the following ones.

    sample.py:166-208 [_MultiSampledLogSumExp.backward] (the others of the file, lines 12-39,
    63-88, 107-114 and 122-146, allocate only) *)
Definition p_multi_backward : prog := seqp
  [ dos [New "draws"; View "draws" "draws"; New "s"; View "s" "s"; Like "s" "s"]; Alt Skip (dos [View "s" "s"]);
    dos [New "final"; View "final" "final"; View "mbits" "bits"; Like "mbits" "mbits"; New "on"; New "on"; New "old_bits"; View "old_bits" "old_bits"];
    dos [View "mb" "mbits"; View "mb" "mb"; Write "s"; New "grad_input"; New "ret"] ].
(** sparse_max.py:22-38 [_SimplexProject] (the flag of line 32 is put on the copy saved at line
    25), 41-50 [_SparseMaxGrad], 64-71 [sparsemax_grad] *)
Definition p_sparse_forward : prog := dos [New "w_star"; New "saved"; New "ret"].
(** sparse_max.py:29-38 after the forward pass *)
Definition p_sparse_backward : prog := Seq p_sparse_forward (dos [Flag "saved"; Let "wstar" "saved"; New "ret"]).
(** sparse_max.py:64-71 [sparsemax_grad] *)
Definition p_sparsemax_grad : prog := dos [New "out"; New "supp"; Write "out"; New "nnz"; New "out"; Write "out"; Let "ret" "out"].
(** checkpoint.py:127-147 [accumulate_] and 150-189 [unaccumulate_], on the caller's "a", "b"
    and "grad_output"; [fn] allocates *)
Definition p_accumulate : prog :=
  Alt (dos [New "ret"])
      (seqp [ dos [New "ret"; View "a" "a"; View "b" "b"; Like "a2" "a"; View "a2" "a2"; Like "b2" "b"; View "b2" "b2"; View "ret" "ret"];
              Star (dos [View "sa" "a2"; View "sb" "b2"; New "v"; View "t" "ret"; Write "t"]); dos [View "ret" "ret"] ]).
(** checkpoint.py:150-189 [unaccumulate_] *)
Definition p_unaccumulate : prog :=
  Alt (dos [New "a_in"; Flag "a_in"; New "b_in"; Flag "b_in"; New "q"; New "ag"; New "bg"; Cat "ret" "ag" "bg"])
      (seqp [ dos [View "a2" "a"; View "b2" "b"; Like "a2" "a2"; View "a2" "a2"; Like "b2" "b2"; View "b2" "b2"];
              dos [New "a_grad"; Write "a_grad"; New "b_grad"; Write "b_grad"; View "go" "grad_output"];
              Star (dos [View "s" "a2"; New "a_in"; Flag "a_in"; View "s" "b2"; New "b_in"; Flag "b_in"; New "q"; View "s" "go"; New "ag"; New "bg";
                         View "t" "a_grad"; Write "t"; View "t" "b_grad"; Write "t"]);
              dos [View "a_grad" "a_grad"; View "b_grad" "b_grad"; New "f1"; New "f2"; Cat "ret" "f1" "f2"] ]).

(** helpers.py:7-16 [Chart.__init__]: data (lines 8-15) and grad (line 16) *)
Definition p_Chart (x : string) : prog := dos [New x; View "t" x; Write "t"; View "t" x; New "chart.grad"; Write "chart.grad"].
(** helpers.py:22-24 [Chart.__setitem__] *)
Definition p_set (x : string) : prog := dos [View "t" x; Write "t"].
(** helpers.py:41-48 [_get_dimension]: all tensors of a list, or the tensor itself *)
Definition p_dim (x : string) : prog := dos [Flag x].
(** helpers.py:50-64 [_chart] and [_make_chart], for one chart *)
Definition p_make (x : string) : prog := dos [New x; View "t" x; Write "t"; MayFlag x].
(** [if lengths is None: lengths = torch.LongTensor(...).to(...)] (linearchain.py:35-40,
    semimarkov.py:14-17, cky_crf.py:11-12, cky.py:25-26, deptree.py:130-132) *)
Definition p_lengths : prog := Alt Skip (dos [New "lengths"; Like "lengths" "lengths"]).

(** linearchain.py:44-85 [logpartition] with 30-42 [_check_potentials] *)
Definition p_linear (k : conv) : prog := seqp
  [ p_dim "phi"; p_convert k "lp0" "phi"; p_lengths;
    p_make "chart"; dos [New "init"; View "t" "init"; Write "t"; New "chart"];
    dos [New "big"; View "t" "big"; Write "t"; View "c" "chart"; View "c" "c"; View "lp" "big"; View "lp" "lp"];
    dos [New "mask"; View "mask" "mask"; Like "mask" "mask"; New "len1"; View "len1" "len1"; New "mask"; View "mask" "mask"; Like "mask" "mask"];
    dos [View "d" "lp"; New "v"; View "d" "d"; Write "d"; View "d" "c"; New "v"; View "d" "d"; Write "d"; New "v"; View "d" "c"; Write "d"];
    Star (dos [View "l" "chart"; View "r" "chart"; New "chart"]);
    dos [View "t" "chart"; Like "t" "t"; New "ret"; Let "edges" "lp0"] ].

(** semimarkov.py:21-87 [logpartition] with 10-19 [_check_potentials]; on a list of tensors line
    27 raises, see [p_query] *)
Definition p_semi (k : conv) : prog := seqp
  [ dos [Flag "phi"]; p_dim "phi"; p_convert k "lp0" "phi"; p_lengths;
    p_make "init"; dos [New "mask"; View "t" "mask"; View "t" "t"; Write "t"; New "init"];
    dos [New "big"; View "t" "big"; Write "t"; View "c" "init"; View "c" "c"; View "lp" "big"; View "lp" "lp"];
    dos [New "mask"; View "mask" "mask"; Like "mask" "mask"; New "len1"; View "len1" "len1"; New "mask"; View "mask" "mask"; Like "mask" "mask"];
    dos [View "d" "lp"; New "v"; View "d" "d"; Write "d"; View "d" "c"; New "v"; View "d" "d"; Write "d"; New "v"; View "d" "c"; Write "d"];
    dos [New "mask"; New "ml"; View "ml" "ml"; Like "ml" "ml"];
    Star (seqp [dos [New "mlk"]; p_convert k "mlk" "mlk"; dos [View "t" "mask"; View "t" "t"; Write "t"]]);
    dos [New "init"; View "chart" "init"; Like "chart" "chart"; View "chart" "chart"];
    Star (dos [View "l" "chart"; View "r" "chart"; New "chart"]);
    dos [View "final" "chart"; View "t" "final"; Like "t" "t"; New "ret"; Let "edges" "lp0"] ].
(** semimarkov.py:89-119 [_dp_standard] *)
Definition p_semi_standard (k : conv) : prog := seqp
  [ p_dim "phi"; p_convert k "edge" "phi"; p_lengths; dos [Flag "edge"];
    p_make "alpha"; dos [Nil "beta"]; Star (dos [Push "beta"; View "t" "beta"; Write "t"; MayFlag "beta"]);
    dos [Push "beta"];
    Star (dos [View "l" "beta"; View "r" "edge"; View "r" "r"; New "v"; View "t" "alpha"; Write "t"; View "s" "alpha"; New "v"; View "t" "beta"; Write "t"]);
    dos [New "ret"; Let "edges" "edge"] ].

(** cky_crf.py:16-43 [logpartition] with 8-14 [_check_potentials] *)
Definition p_ckycrf (k : conv) : prog := seqp
  [ p_dim "phi"; p_convert k "scores" "phi"; p_lengths; p_Chart "betaA"; p_Chart "betaB";
    dos [New "reduced"; View "term" "reduced"]; p_set "betaA"; p_set "betaB";
    Star (seqp [dos [View "Y" "betaA"; View "Z" "betaB"; View "score" "reduced"; New "new"]; p_set "betaA"; p_set "betaB"]);
    dos [View "final" "betaA"; New "ret"; Let "edges" "scores"] ].

(** cky.py:8-79 [logpartition]: line 14 marks the caller's rules; lines 20-24 mark the
    converted tensors, which are other objects; lines 39-40 [arr] *)
Definition p_arr (x : string) : prog := dos [View "t" "rules2"; Like "t" "t"; View "t" "t"; View x "t"].
(** cky.py:8-79 [logpartition] *)
Definition p_cky (k : conv) : prog := seqp
  [ dos [Flag "rules"]; p_convert k "terms1" "terms"; dos [Flag "terms1"]; p_convert k "rules1" "rules"; dos [Flag "rules1"];
    p_convert k "roots1" "roots"; dos [Flag "roots1"]; p_lengths; p_Chart "betaA"; p_Chart "betaB";
    dos [Nil "span"; New "term_use"; View "rules2" "rules1"];
    p_arr "X_Y_Z"; p_arr "X_Y1_Z"; p_arr "X_Y_Z1"; p_arr "X_Y1_Z1";
    Star (seqp [ dos [View "Y" "betaA"; View "Z" "betaB"; New "X1"; View "Y_term" "term_use"; View "Z_term" "term_use"; View "Y" "Y"; New "X2"; View "Z" "Z"; New "X3"];
                 Alt (dos [New "X4"]) Skip; dos [Push "span"]; p_set "betaA"; p_set "betaB" ]);
    dos [View "final" "betaA"; New "top"; New "ret"; Cat "edges" "rules2" "roots1"; Cat "edges" "edges" "term_use"; Cat "edges" "edges" "span"] ].

(** deptree.py:5-17 [convert], 20-31 [unconvert] *)
Definition p_dconvert (x y : string) : prog := dos [New x; View "d" y; Like x x; Write x; View "t" x; Write "t"; View "t" x; Write "t"; Write x].
(** deptree.py:20-31 [unconvert] *)
Definition p_dunconvert (x y : string) : prog := dos [New "new_logits"; Write "new_logits"; View "d" y; View "t" "new_logits"; Write "t"; View "d" y; Write "new_logits"; Let x "new_logits"].
(** deptree.py:49-124 [logpartition] with 126-141 [_check_potentials]: [convert] of line 56 comes
    first, so that all marks are put on new tensors. [alpha] is a list of eight charts. *)
Definition p_deptree (k : conv) : prog := seqp
  [ p_dconvert "arcs" "phi"; p_dim "arcs"; p_lengths; p_convert k "arcs1" "arcs"; dos [New "keep"];
    Star (dos [View "t" "keep"; Write "t"; View "t" "keep"; Write "t"]);
    dos [New "arcs2"; Flag "arcs2"]; Alt (dos [New "scores"]) (dos [Let "scores" "arcs2"]);
    p_Chart "ACL"; p_Chart "ACR"; p_Chart "BCL"; p_Chart "BCR"; p_Chart "AIL"; p_Chart "AIR"; p_Chart "BIL"; p_Chart "BIR";
    dos [New "mask"; View "t" "mask"; Write "t"; New "v"]; p_set "ACL"; dos [New "v"]; p_set "ACR";
    dos [New "mask"; View "t" "mask"; Write "t"; New "v"]; p_set "BCL"; dos [New "v"]; p_set "BCR";
    Star (seqp [ dos [View "acl" "ACL"; View "acr" "ACR"; View "bcl" "BCL"; View "bcr" "BCR"; New "x"; New "arcs_l"]; p_set "AIL"; p_set "BIL";
                 dos [New "arcs_r"]; p_set "AIR"; p_set "BIR"; dos [View "air" "AIR"; View "bil" "BIL"; New "new"]; p_set "ACL"; p_set "BCL";
                 dos [New "new"]; p_set "ACR"; p_set "BCR" ]);
    Alt Skip (seqp [dos [View "acl" "ACL"; New "root_incomplete"]; Star (seqp [dos [View "air" "root_incomplete"; View "bcr" "BCR"; New "v"]; p_set "ACR"])]);
    dos [View "final" "ACR"; New "ret"; Let "edges" "arcs2"] ].

(** helpers.py:66-81 [sum]; [raw]: the argument [_raw] *)
Definition p_sum (raw : bool) (lp : prog) : prog := Seq lp (if raw then Skip else p_unconvert "ret" "ret").
(** [torch.autograd.grad] allocates its results (accumulating nothing into .grad); for the
    MultiSampled semiring it runs sample.py:166-208 for every sum. *)
Definition p_grad (x : string) : prog := Seq (Star p_multi_backward) (dos [New x]).
(** [_arrange_marginals]: helpers.py:126-127, deptree.py:143-144 ([dep]) *)
Definition p_arrange (dep : bool) (k : conv) : prog :=
  if dep then seqp [p_unconvert "g" "marg"; p_dunconvert "g" "g"; p_convert k "a_m" "g"] else dos [Let "a_m" "marg"].
(** helpers.py:83-116 [marginals] *)
Definition p_marginals (raw dep : bool) (k : conv) (lp : prog) : prog := seqp
  [ lp; dos [Let "v" "ret"];
    if raw then seqp [dos [Nil "all_m"]; Star (seqp [dos [View "obj" "v"; New "obj"]; p_grad "marg"; p_arrange dep k; dos [View "a_m" "a_m"; Cat "all_m" "all_m" "a_m"]]); dos [New "ret"]]
    else seqp [p_unconvert "obj" "v"; dos [New "obj"]; p_grad "marg"; p_arrange dep k; p_unconvert "ret" "a_m"] ].
(** cky.py:81-143 [marginals], 104-129 [marginal]: the result is a tuple *)
Definition p_cky_marginal (obj : string) : prog := seqp
  [ dos [View "o" obj; New "o"]; p_grad "marg"; dos [New "spans_marg"]; Star (dos [View "g" "marg"; New "x"; View "x" "x"; View "t" "spans_marg"; Write "t"]);
    dos [View "rule_marg" "marg"; View "rule_marg" "rule_marg"; View "root_marg" "marg"; View "term_marg" "marg"] ].
(** cky.py:81-143 [marginals] *)
Definition p_cky_marginals (raw : bool) (k : conv) : prog := seqp
  [ p_cky k; dos [Let "v" "ret"];
    if raw then seqp [ dos [Nil "paths"]; Star (seqp [dos [View "obj" "v"]; p_cky_marginal "obj"; dos [Cat "paths" "paths" "spans_marg"]]); dos [New "paths"; New "obj"]; p_cky_marginal "obj";
                dos [Cat "ret" "term_marg" "rule_marg"; Cat "ret" "ret" "root_marg"; Cat "ret" "ret" "paths"] ]
    else seqp [ p_cky_marginal "v"; dos [Cat "ret" "term_marg" "rule_marg"; Cat "ret" "ret" "root_marg"; Cat "ret" "ret" "spans_marg"] ] ].

(** deptree.py:192-220 [deptree_part], 223-302 [deptree_nonproj]; the first part is common *)
Definition p_np_lap : prog := seqp
  [ Alt (dos [Let "input" "phi"])
        (seqp [ dos [New "x"; View "x" "x"]; Alt Skip (dos [New "lengths"]); dos [View "lengths" "lengths"; New "x"; New "det_offset"; View "x" "x"; New "mask"; New "mask"; Write "mask"; Write "mask"; New "input"]]);
    dos [New "eye"; New "laplacian"; New "lap"; New "lap"]; Alt Skip (dos [Write "lap"]) ].
(** deptree.py:192-220 [deptree_part] *)
Definition p_np_part : prog := seqp
  [ p_np_lap; Alt (dos [View "d" "input"; New "rss"; New "lap"]) (dos [View "d" "input"; New "v"; View "t" "lap"; Write "t"]); dos [New "ret"] ].
(** deptree.py:223-302 [deptree_nonproj] *)
Definition p_np_marginals : prog := seqp
  [ p_np_lap;
    Alt (dos [View "d" "input"; New "rss"; New "lap"; New "inv"; View "factor" "inv"; New "term1"; New "term2"; New "output"; New "roots_output"])
        (dos [View "d" "input"; New "v"; View "t" "lap"; Write "t"; New "inv"; View "factor" "inv"; New "term1"; New "term2"; View "t" "term1"; Write "t"; View "t" "term2"; Write "t"; New "output"; New "roots_output"]);
    dos [New "ret"] ].

(** the classes of distributions.py and their queries, each at its first evaluation
    ([lazy_property] hands out the stored result afterwards). The argument of the algorithm is
    "phi", for SentCFG "terms", "rules" and "roots"; the other distribution of [cross_entropy]
    and [kl] holds "other"; "value" is the argument of [log_prob]. *)
Inductive klass := KLin | KSemi | KTree | KCfg | KDep | KNonProj.
(** distributions.py:54-241: the queries *)
Inductive query := QPartition | QMax | QEntropy | QMarginals | QArgmax | QKMax | QTopk | QGumbel | QCross | QKl | QCount | QSample | QLogProb.
(** which [convert] the semiring of a query has (distributions.py:77-233) *)
Definition conv_of (q : query) : conv := match q with QEntropy | QKMax | QTopk | QCross | QKl => CNew | _ => CView end.
(** [logpartition] of the class's algorithm (distributions.py:231-233) *)
Definition p_logpartition (c : klass) (k : conv) : prog :=
  match c with KLin => p_linear k | KSemi => p_semi k | KTree => p_ckycrf k | KCfg => p_cky k | _ => p_deptree k end.
(** [marginals] of the class's algorithm: cky.py:81-143 or helpers.py:83-132 *)
Definition p_marg (raw : bool) (c : klass) (k : conv) : prog :=
  match c with KCfg => p_cky_marginals raw k | KDep => p_marginals raw true k (p_deptree k) | c => p_marginals raw false k (p_logpartition c k) end.
(** helpers.py:31-34 [score], distributions.py:56-75 [log_prob] *)
Definition p_log_prob (lp : prog) : prog := seqp [dos [Like "val" "value"; New "score"; View "score" "score"; New "prod"]; lp; dos [New "ret"]].
(** sample.py:222-227 [to_discrete] *)
Definition p_discrete : prog := dos [New "final"; Like "mbits" "bits"; New "tmp_sample"; Like "tmp_sample" "tmp_sample"].
(** distributions.py:77-233 and, for the non-projective class, 489-522; [count]: 186-190;
    [sample]: 212-233 (the first round always calls [marginals]; with no rounds line 233 raises).
    Raising: cross_entropy and kl where the list is not accepted (semimarkov.py:27,
    deptree.py:51, cky.py:13); count (distributions.py:188), log_prob (line 67) and sample (line
    230) of SentCFG on tuples; what the non-projective class inherits (it has no [struct]). *)
Definition p_query (c : klass) (q : query) : prog :=
  match c with
  | KNonProj =>
    match q with
    | QPartition => p_np_part | QMarginals => p_np_marginals
    | QEntropy | QArgmax => dos [Nil "ret"]
    | QCount => seqp [dos [New "ones"; Write "ones"]; Raise]
    | _ => Raise
    end
  | _ =>
    let k := conv_of q in
    match q with
    | QPartition | QMax | QEntropy => p_sum false (p_logpartition c k)
    | QKMax => p_sum true (p_logpartition c k)
    | QMarginals | QArgmax | QGumbel => p_marg false c k
    | QTopk => p_marg true c k
    | QCross | QKl =>
        match c with
        | KLin | KTree => seqp [dos [Cat "phi" "phi" "other"]; p_sum false (p_logpartition c k)]
        | _ => Raise
        end
    | QCount => match c with KCfg => Raise | _ => seqp [dos [New "phi"; Write "phi"]; p_sum false (p_logpartition c k)] end
    | QLogProb => match c with KCfg => Raise | _ => p_log_prob (p_sum false (p_logpartition c k)) end
    | QSample =>
        let draw := match c with KCfg => Seq (p_marg false c k) Raise | _ => Seq (p_marg false c k) (dos [View "sample" "ret"]) end in
        seqp [dos [Nil "samples"]; draw; p_discrete; dos [Cat "samples" "samples" "tmp_sample"];
              Star (seqp [Alt draw Skip; p_discrete; dos [Cat "samples" "samples" "tmp_sample"]]); dos [New "ret"]]
    end
  end.

(** [to_event] and [from_event] (distributions.py:235-241) on the caller's "value": linearchain.py:
    87-110 and 112-132; semimarkov.py:121-154 and 156-178; cky.py:155-187 and 189-202; deptree.py:
    146-168 and 170-189; the span trees inherit helpers.py:118-124 *)
Definition p_to_event (c : klass) : prog :=
  match c with
  | KLin => seqp [dos [New "labels"]; Alt Skip (dos [New "lengths"]); Star (dos [View "s" "value"; View "t" "labels"; Write "t"]); Star (dos [View "t" "labels"; Write "t"]); dos [Let "ret" "labels"]]
  | KSemi => seqp [dos [New "labels"]; Alt Skip (dos [New "lengths"]); Star (seqp [dos [View "new_c" "value"]; Alt Skip (dos [View "t" "labels"; Write "t"])]); dos [Let "ret" "labels"]]
  | KTree => dos [Let "ret" "value"]
  | KCfg => seqp [dos [New "terms"; New "rules"; New "roots"];
                  Star (seqp [dos [View "s" "value"; View "t" "roots"; Write "t"; View "s" "value"; New "s"; View "t" "terms"; Write "t"; New "cover"]; Star (dos [View "t" "rules"; Write "t"])]);
                  dos [Cat "ret" "terms" "rules"; Cat "ret" "ret" "roots"]]
  | KDep => seqp [Alt Skip (dos [New "lengths"]); dos [New "labels"]; Star (dos [View "s" "value"; Write "labels"]); Star (dos [View "t" "labels"; Write "t"; View "t" "labels"; Write "t"]); p_dunconvert "ret" "labels"]
  | KNonProj => Raise
  end.
(** distributions.py:239-241 [from_event]: the class's [from_parts] *)
Definition p_from_event (c : klass) : prog :=
  match c with
  | KLin | KSemi | KDep => seqp [dos [New "labels"; Write "labels"; New "on"]; Star (dos [View "s" "on"; View "t" "labels"; Write "t"]); dos [Let "ret" "labels"]]
  | KTree => dos [Let "ret" "value"]
  | KCfg => seqp [dos [New "spans"; New "sums"]; Star (dos [New "s"; Write "spans"]); dos [Write "spans"; Let "ret" "spans"]]
  | KNonProj => Raise
  end.
(** linearchain.py:135-157 [hmm], used by distributions.py:337-339; semimarkov.py:181-219 [hsmm] *)
Definition p_hmm : prog := seqp
  [ dos [New "scores"; Like "scores" "scores"; View "s" "transition"; View "t" "scores"; Write "t"; View "s" "init"; View "t" "scores"; Write "t"];
    dos [View "s" "observations"; New "obs"; View "s" "obs"; View "t" "scores"; Write "t"; View "s" "obs"; View "t" "scores"; Write "t"; Let "ret" "scores"] ].
(** semimarkov.py:181-219 [hsmm] *)
Definition p_hsmm : prog := seqp
  [ dos [New "edges"; Like "edges" "edges"]; Alt Skip (dos [View "init" "init"; View "init" "init"]); dos [View "s" "init"; View "t" "edges"; Write "t"];
    dos [View "s" "transition"; Write "edges"; View "s" "lengthlaw"; Write "edges"; View "s" "emission"; Write "edges"; Let "ret" "edges"] ].
