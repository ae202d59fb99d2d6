(** * TreeLstm: model of examples/networks/TreeLSTM.py, run on the graph of
    [CKY.to_networkx], and of the reward of examples/tree.py.

    Vectors are functions of the coordinate; real arithmetic. The graph library (DGL)
    is not part of the repository. What is assumed of it: [g.prop_nodes(levels)] pulls
    the levels one after the other; pulling a set of nodes without any incoming edge
    applies the node function only; otherwise the messages along the incoming edges, in
    the order in which the edges were added, are reduced and the node function applied
    to the result, for all nodes of the set at once; [prop_nodes_topo] does this for the
    levels of a topological traversal. *)
From Coq Require Import ZArith Reals Lra.
From Verif Require Import Base Ops CkyCrf Tensor Codec Semirings AutoReg Networkx ListOps.
Set Implicit Arguments.
Local Open Scope R_scope.

(** a vector, by coordinate *)
Definition vec : Type := nat -> R.
(** nn.Linear without bias *)
Definition lin (d : nat) (W : nat -> vec) (x : vec) : vec := fun k => RSum (fun j => W k j * x j) (seq 0 d).
(** th.sigmoid (TreeLSTM.py:22, 29) *)
Definition sigmoid (x : R) : R := / (1 + exp (- x)).

(** TreeLSTM.py:10-15 and 59-64, the parameters *)
Record tlstm := {
  t_hidden : nat; t_in : nat; t_out : nat;
  t_emb : nat -> vec;              (* line 61 *)
  W_iou : nat -> vec;              (* line 12 *)
  U_iou : nat -> vec;              (* line 13 *)
  b_iou : vec;                     (* line 14 *)
  U_f : nat -> vec; U_f_bias : vec; (* line 15 *)
  out_w : nat -> vec; out_b : vec  (* line 62 *) }.
(** the node data iou, h, c (lines 41-43) *)
Record nstate := { s_iou : vec; s_h : vec; s_c : vec }.

Section Cell.
  Variable m : tlstm.
  Let H := t_hidden m.
  (** the view of line 21: the mailbox [left; right] as one vector *)
  Definition h_cat (h1 h2 : vec) : vec := fun k => if (k <? H)%nat then h1 k else h2 (k - H)%nat.
  (** lines 17-24 [message_func], [reduce_func]; the gates f of line 22 are viewed as (2, hidden) *)
  Definition reduce_func (l r x : nstate) : nstate :=
    let hc := h_cat (s_h l) (s_h r) in
    let f := fun k => sigmoid (lin (2 * H) (U_f m) hc k + U_f_bias m k) in
    {| s_iou := lin (2 * H) (U_iou m) hc; s_h := s_h x; s_c := fun k => f k * s_c l k + f (H + k)%nat * s_c r k |}.
  (** lines 26-32 [apply_node_func] *)
  Definition apply_node_func (x : nstate) : nstate :=
    let iou := fun k => s_iou x k + b_iou m k in
    let c := fun k => sigmoid (iou k) * tanh (iou (2 * H + k)%nat) + s_c x k in
    {| s_iou := s_iou x; s_h := fun k => sigmoid (iou (H + k)%nat) * tanh (c k); s_c := c |}.
End Cell.

(** sources of the edges into v, in the order of [g.add_edges(a, b)] (line 82) *)
Definition in_edges (a b : list nat) (v : nat) : list nat := map fst (filter (fun e => snd e =? v)%nat (combine a b)).
(** membership of a node in a level (TreeLSTM.py:45-49) *)
Definition mem (v : nat) (l : list nat) : bool := existsb (Nat.eqb v) l.
(** DGL [pull] of one level, with the functions registered in lines 37-39. A level that
    has nodes with a number of incoming edges other than 2 cannot be reduced (the layers
    of lines 13, 15 take 2 * hidden inputs); levels that mix nodes with and without
    incoming edges do not arise and are an error here. *)
Definition pull (m : tlstm) (a b : list nat) (s : nat -> nstate) (fr : list nat) : res (nat -> nstate) :=
  if forallb (fun v => match in_edges a b v with [] => true | _ => false end) fr then
    Ok (fun v => if mem v fr then apply_node_func m (s v) else s v)
  else if forallb (fun v => match in_edges a b v with [_; _] => true | _ => false end) fr then
    Ok (fun v => if mem v fr then
                   match in_edges a b v with [l; r] => apply_node_func m (reduce_func m (s l) (s r) (s v)) | _ => s v end
                 else s v)
  else Err RuntimeError.
(** [g.prop_nodes(levels)] *)
Definition prop_nodes (m : tlstm) (a b : list nat) (levels : list (list nat)) (s : nat -> nstate) : res (nat -> nstate) :=
  loop (pull m a b) levels s.
(** DGL's topological traversal: the nodes whose predecessors have all been visited, again
    and again (Kahn). The order within a level does not matter to [pull]. *)
Fixpoint topo_levels (n : nat) (a b : list nat) (fuel : nat) (done : list nat) : list (list nat) :=
  match fuel with
  | O => []
  | S fuel' =>
      let fr := filter (fun v => negb (mem v done) && forallb (fun u => mem u done) (in_edges a b v)) (seq 0 n) in
      match fr with [] => [] | _ => fr :: topo_levels n a b fuel' (fr ++ done) end
  end.
(** lines 35-51 [run]: with [topo] given, both line 45 and line 49 run *)
Definition tl_run (m : tlstm) (n : nat) (a b : list nat) (topo : option (list (list nat))) (s : nat -> nstate) : res (nat -> nstate) :=
  bind (prop_nodes m a b (topo_levels n a b n []) s) (fun s =>
  match topo with
  | None => prop_nodes m a b (topo_levels n a b n []) s
  | Some levels => prop_nodes m a b levels s
  end).
(** lines 66-75 [forward] on the graph of lines 77-83; [rows] is [len(lengths)] *)
Definition tl_forward (m : tlstm) (g : (Z * list nat * list nat * list nat) * (nat -> nat -> option (nat * nat)) * list (list nat))
  (rows : nat) : res (list vec) :=
  let '((n_nodes, a, b, label), indices, topo) := g in
  if negb (forallb (fun x => x <? t_in m)%nat label) then Err IndexError else
  let s0 := fun v => {| s_iou := lin (t_hidden m) (W_iou m) (t_emb m (nth v label 0%nat)); s_h := fun _ => 0; s_c := fun _ => 0 |} in
  bind (tl_run m (Z.to_nat n_nodes) a b (Some topo) s0) (fun s =>
  if (rows =? 0)%nat then Err RuntimeError else
  mapM (fun i => match indices i 0%nat with
    | None => Err KeyError
    | Some (v, _) => Ok (log_softmax (t_out m) (fun k => lin (t_hidden m) (out_w m) (s_h (s v)) k + out_b m k))
    end) (seq 0 rows)).

(** examples/tree.py:105-112 [tree_reward]: minus the score of the right class for sample
    k of sentence b. [perm] is the argsort inside to_networkx. *)
Definition tree_reward (m : tlstm) (perm : list nat) (spans : tensor Z) (words : nat -> nat -> nat) (batch N K V : nat) (cls : nat -> nat)
  : res (nat -> nat -> R) :=
  bind (expand_spans spans words batch N K V) (fun e =>
  bind (to_networkx perm e) (fun g =>
  bind (tl_forward m g (K * batch)) (fun ret =>
  Ok (fun k b => - nth (k * batch + b) ret (fun _ => 0) (cls b))))).

(** ** Specification: the Tree-LSTM recursion. The cell of a word is [w] times its gated
    input; w = 1 is the Tree-LSTM. Labels of inner nodes play no role. *)
Section Spec.
  Variables (m : tlstm) (w : R).
  Let H := t_hidden m.
  (** spec: the input gate *)
  Definition gate_i (z : vec) : vec := fun k => sigmoid (z k).
  (** spec: the output gate *)
  Definition gate_o (z : vec) : vec := fun k => sigmoid (z (H + k)%nat).
  (** spec: the candidate *)
  Definition gate_u (z : vec) : vec := fun k => tanh (z (2 * H + k)%nat).
  (** spec: hidden and cell vector *)
  Definition out_of (z c : vec) : vec * vec := (fun k => gate_o z k * tanh (c k), c).
  (** spec: two vectors as one *)
  Definition beside (x y : vec) : vec := fun k => if (k <? H)%nat then x k else y (k - H)%nat.
  (** spec: states of a tree from those of its parts *)
  Fixpoint recursion (t : ltree) : vec * vec :=
    match t with
    | LLeaf x =>
        let z := fun k => lin H (W_iou m) (t_emb m x) k + b_iou m k in
        out_of z (fun k => w * (gate_i z k * gate_u z k))
    | LNode _ l r =>
        let hl := fst (recursion l) in let hr := fst (recursion r) in
        let z := fun k => lin (2 * H) (U_iou m) (beside hl hr) k + b_iou m k in
        let f := fun k => sigmoid (lin (2 * H) (U_f m) (beside hl hr) k + U_f_bias m k) in
        out_of z (fun k => gate_i z k * gate_u z k + (f k * snd (recursion l) k + f (H + k)%nat * snd (recursion r) k))
    end.
  (** scores of the classes for a sentence with tree t *)
  Definition scores (t : ltree) : vec := log_softmax (t_out m) (fun k => lin H (out_w m) (fst (recursion t)) k + out_b m k).
End Spec.
