(** * ListOps: the data reader and the tree plumbing of examples/tree.py.

    examples/data/trees.py:27-66 (ListOpsDataset), examples/tree.py:38-48
    (expand_spans) and 173-212 (valid_show). Tokens are strings; Python integers
    are [Z]; the loops are run as written, with index errors. *)
From Coq Require Import ZArith String.
From Verif Require Import Base Ops CkyCrf Tensor Codec.
Set Implicit Arguments.
Local Open Scope Z_scope.

(** ** Reader *)
(** a triple of the list [spans] (trees.py:54) *)
Definition span : Type := (Z * Z * string)%type.
(** trees.py:53-55: [cur], [spans], [stack]. The stack is kept with its top first. *)
Record rd := { rcur : Z; rspans : list span; rstack : list Z }.
(** trees.py:56-64, loop body *)
Definition rd_step (s : rd) (w : string) : res rd :=
  if String.eqb w "(" then Ok {| rcur := rcur s; rspans := rspans s; rstack := rcur s :: rstack s |}
  else if String.eqb w ")" then
    match rstack s with
    | [] => Err IndexError
    | t :: st => Ok {| rcur := rcur s; rspans := rspans s ++ [(t, rcur s - 1, w)]; rstack := st |}
    end
  else Ok {| rcur := rcur s + 1; rspans := rspans s ++ [(rcur s, rcur s, w)]; rstack := rstack s |}.
(** trees.py:51 [w in "()"]: substring test *)
Definition in_parens (w : string) : bool := existsb (String.eqb w) [""; "("; ")"; "()"]%string.
(** trees.py:48-65 on the tokens [b.split()] of a line: the fields word and tree.
    Simplification: opening the file, splitting the line at the tab and the torchtext
    [Example] are left out. *)
Definition read_tree (toks : list string) : res (list string * list span) :=
  bind (loop rd_step toks {| rcur := 0; rspans := []; rstack := [] |}) (fun s =>
  Ok (filter (fun w => negb (in_parens w)) toks, rspans s)).

(** trees.py:28-43 [tree_field(v)]: V is [len(v.vocab)], [stoi] the vocabulary (a
    defaultdict, so total). *)
Definition tree_post (V : nat) (stoi : string -> nat) (ls : list (list span)) : res (tensor Z) :=
  let batch := List.length ls in
  bind (mapM (fun l => match rev l with [] => Err IndexError | (_, j, _) :: _ => Ok j end) ls) (fun lengths =>
  match lengths with
  | [] => Err ValueError
  | x :: r =>
      let len := fold_left Z.max r x + 1 in
      if len <? 0 then Err RuntimeError else
      let L := Z.to_nat len in
      loop (fun ret b =>
        loop (fun ret s => let '(i, j, n) := s in
          bind (pyix L i) (fun i' => bind (pyix L j) (fun j' =>
          if i =? j then bind (pyix (10 + V) (Z.of_nat (stoi n) + 1)) (fun c => Ok (upd ret [b; i'; j'; c] 1))
          else Ok (upd ret [b; i'; j'; 0%nat] 1)))) (nth b ls []) ret)
        (seq 0 batch) (zeros [batch; L; L; (10 + V)%nat])
  end).

(** ** Printing (tree.py:173-212) *)
(** one row of a batched tensor ([ex.tree[b]], [argmax_tree[b]]) *)
Definition trow (t : tensor Z) (b : nat) : tensor Z := {| shape := tl (shape t); dat := fun i => dat t (b :: i) |}.
(** tree.py:189-206 [show]: [start] (coordinate 0) and [end] (coordinate 1) count the
    cells, from -1; a position without cell has 0 ([get(i, 0)]), as [range(-1)] would
    be empty. The text is kept as the list of its tokens. *)
Definition brackets (cover : list (list nat)) (d i : nat) : nat := List.length (filter (fun e => nth d e 0%nat =? i)%nat cover) - 1.
(** examples/tree.py:200-206: the words with the brackets before and after them *)
Definition show_text (tree : tensor Z) (out : list string) : list string :=
  let cover := nonzero tree in
  flat_map (fun i => repeat "("%string (brackets cover 0 i) ++ [nth i out ""%string] ++ repeat ")"%string (brackets cover 1 i))
    (seq 0 (List.length out)).
(** tree.py:174, 208-210: one row of the table, by column name *)
Definition show_row (gold argmax_tree : tensor Z) (b : nat) (out : list string) : list (string * list string) :=
  combine ["Sent"; "Predicted Tree"; "True Tree"]%string [out; show_text (trow gold b) out; show_text (trow argmax_tree b) out].

(** ** expand_spans (tree.py:38-48) *)
(** [spans] has K * batch rows; row k * batch + b is copied and the diagonal
    replaced by the words of row b. [one_hot] raises for a word index that is not
    below V. *)
Definition expand_spans (spans : tensor Z) (words : nat -> nat -> nat) (batch N K V : nat) : res (tensor Z) :=
  match shape spans with
  | [rows; N1; N2; W] =>
      if negb ((rows =? K * batch) && (N1 =? N) && (N2 =? N) && (W =? 1))%nat then Err RuntimeError else
      if negb (forallb (fun b => forallb (fun i => words b i <? V)%nat (seq 0 N)) (seq 0 batch)) then Err RuntimeError else
      Ok {| shape := [batch * K; N; N; 1 + V]%nat;
            dat := fun e => match e with
              | [r; i; j; c] =>
                  if (i =? j)%nat then (if (c =? 0)%nat then 0 else if (c =? words (r mod batch) i + 1)%nat then 1 else 0)
                  else if (c =? 0)%nat then dat spans [r; i; j; 0%nat] else 0
              | _ => 0
              end |}
  | _ => Err RuntimeError
  end.

(** ** Specification: ordered trees over words *)
Inductive rt := RW (w : string) | RN (l : list rt).
Section RtInd.
  Variable P : rt -> Prop.
  Hypothesis HW : forall w, P (RW w).
  Hypothesis HN : forall l, Forall P l -> P (RN l).
  (** proof device: induction over nested trees *)
  Fixpoint rt_ind' (t : rt) : P t :=
    match t with
    | RW w => HW w
    | RN l => HN ((fix go l := match l return Forall P l with [] => Forall_nil _ | a :: l' => Forall_cons _ (rt_ind' a) (go l') end) l)
    end.
End RtInd.
(** the words; the text with brackets *)
Fixpoint ryield (t : rt) : list string := match t with RW w => [w] | RN l => flat_map ryield l end.
(** spec: number of words of a tree *)
Definition rsize (t : rt) : nat := List.length (ryield t).
(** spec: the tokens of a line that writes the tree with brackets *)
Fixpoint rtext (t : rt) : list string := match t with RW w => [w] | RN l => "("%string :: flat_map rtext l ++ [")"%string] end.
(** the constituents over words i .., children before parents: first word, last word, token *)
Fixpoint rcons (i : nat) (t : rt) : list (nat * nat * string) :=
  match t with
  | RW w => [(i, i, w)]
  | RN l => (fix go i l := match l with [] => [] | a :: l' => rcons i a ++ go (i + rsize a)%nat l' end) i l
            ++ [(i, (i + rsize t - 1)%nat, ")"%string)]
  end.
(** spec: constituents of the trees of a list, starting at word i *)
Fixpoint fcons (i : nat) (l : list rt) : list (nat * nat * string) :=
  match l with [] => [] | a :: l' => rcons i a ++ fcons (i + rsize a)%nat l' end.
(** words are no brackets *)
Definition plain (t : rt) : Prop := Forall (fun w => in_parens w = false) (ryield t).
(** every bracket has at least k parts *)
Inductive branching (k : nat) : rt -> Prop :=
| br_w w : branching k (RW w)
| br_n l : (k <= List.length l)%nat -> Forall (branching k) l -> branching k (RN l).
