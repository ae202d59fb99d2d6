(** * Subword: the CoNLL reader and the alignment of word pieces with words.

    examples/data/trees.py:5-24 (ConllXDataset), examples/data/data.py:5-48 (token_pre,
    token_post) and the pooling of examples/bert-dep.py:52-58. *)
From Coq Require Import ZArith Ascii String Reals.
From Verif Require Import Base Ops Tensor Codec Semirings.
Set Implicit Arguments.
Local Open Scope Z_scope.

(** ** Reader *)
(** trees.py:9-22: a line is given by its columns, a blank line by None. Opening the
    file, [strip] and [split] are left out. The lists of columns 1 and 6 are the fields. *)
Definition conll_line (columns : list string * list string) (line : list string) : list string * list string :=
  (fst columns ++ match nth_error line 1 with Some c => [c] | None => [] end,
   snd columns ++ match nth_error line 6 with Some c => [c] | None => [] end).
(** lines 14, 21: [if columns] is a test on a list of two lists, which is never empty *)
Definition read_conll (lines : list (option (list string))) : list (list string * list string) :=
  let '(examples, columns) := fold_left (fun st line =>
     match line with
     | None => (fst st ++ [snd st], ([], []))
     | Some l => (fst st, conll_line (snd st) l)
     end) lines ([], ([], [])) in
  examples ++ [columns].

(** ** token_pre (data.py:5-32) *)
(** [w.startswith("##")] *)
Definition cont (w : string) : bool := String.prefix "##" w.
(** lines 9-12: [out], [cur], [expect], [first]. Only the length of [expect] is used
    (lines 14, 20, 23, 26), so [expect] is its length; lower-casing is assumed to keep the
    length. *)
Record tp := { p_out : list Z; p_cur : nat; p_expect : nat; p_first : bool }.
(** lines 13-26, loop body *)
Definition tp_step (q : list string) (s : tp) (w : string) : res tp :=
  bind (if (p_expect s =? 0)%nat then
          match nth_error q (p_cur s) with
          | None => Err IndexError
          | Some x => Ok {| p_out := p_out s; p_cur := p_cur s + 1; p_expect := String.length x; p_first := true |}
          end
        else Ok s) (fun s =>
  Ok (if cont w then {| p_out := p_out s ++ [-1]; p_cur := p_cur s; p_expect := p_expect s - (String.length w - 2); p_first := p_first s |}
      else if p_first s then
        {| p_out := p_out s ++ [Z.of_nat (p_cur s)]; p_cur := p_cur s; p_expect := p_expect s - String.length w; p_first := false |}
      else {| p_out := p_out s; p_cur := p_cur s; p_expect := p_expect s - String.length w; p_first := p_first s |})).
(** [pieces] is [tokenizer.tokenize(st)], [ids] is [tokenizer.encode(st,
    add_special_tokens=True)] *)
Definition token_pre (pieces : list string) (ids : list Z) (q : list string) : res (list Z * list Z) :=
  bind (loop (tp_step q) pieces {| p_out := [0]; p_cur := 0; p_expect := 0; p_first := true |}) (fun s =>
  let out := p_out s ++ [Z.of_nat (p_cur s + 1)] in
  if negb (p_cur s =? List.length q)%nat then Ok (repeat 0 (List.length q + 2), repeat 0 (List.length q + 2))
  else Ok (ids, out)).

(** ** token_post (data.py:35-48) *)
Definition zmax (l : list Z) : res Z := match l with [] => Err ValueError | x :: r => Ok (fold_left Z.max r x) end.
(** examples/data/data.py:35-48 *)
Definition token_post (ls : list (list Z * list Z)) : res (tensor Z * tensor Z * list nat) :=
  let batch := List.length ls in
  let lengths := map (fun l => List.length (fst l)) ls in
  match ls with
  | [] => Err ValueError
  | _ =>
      let len := fold_right Nat.max 0%nat lengths in
      let out := {| shape := [batch; len]; dat := fun e => nth (nth 1 e 0%nat) (fst (nth (nth 0 e 0%nat) ls ([], []))) 0 |} in
      bind (mapM (fun l => bind (zmax (snd l)) (fun x => Ok (x + 1))) ls) (fun lengths2 =>
      bind (zmax lengths2) (fun length2 =>
      if length2 <? 0 then Err RuntimeError else
      let L2 := Z.to_nat length2 in
      bind (loop (fun out2 b =>
          loop (fun out2 (iw : nat * Z) => let '(i, w) := iw in
            if w =? -1 then Ok out2
            else bind (pyix len (Z.of_nat i)) (fun i' => bind (pyix L2 w) (fun w' => Ok (upd out2 [b; i'; w'] 1))))
            (combine (seq 0 (List.length (snd (nth b ls ([], []))))) (snd (nth b ls ([], [])))) out2)
        (seq 0 batch) (zeros [batch; len; L2])) (fun out2 =>
      Ok (out, out2, lengths))))
  end.

(** bert-dep.py:54: [torch.matmul(mapper.transpose(1, 2), out)] for the vectors x[b, i, :] of
    the pieces *)
Definition pool (mapper : tensor Z) (x : nat -> nat -> nat -> R) (b w h : nat) : R :=
  RSum (fun i => (IZR (dat mapper [b; i; w]) * x b i h)%R) (seq 0 (nth 1 (shape mapper) 0%nat)).

(** ** Specification: a word with its pieces *)
(** a continuation: a piece that begins with two hash marks *)
Definition hashed (w : string) : bool :=
  match w with String a (String b _) => (Ascii.eqb a "#" && Ascii.eqb b "#")%bool | _ => false end.
(** what a piece covers of its word *)
Definition covers (w : string) : nat := (if hashed w then String.length w - 2 else String.length w)%nat.
(** spec: number of characters of some pieces *)
Definition total (ps : list string) : nat := fold_right Nat.add 0%nat (map covers ps).
(** the pieces of one word: the first one is no continuation, and no proper prefix of
    them covers the word, while all of them do *)
Record fits (x : string) (ps : list string) : Prop := {
  ft_first : exists p ps', ps = p :: ps' /\ hashed p = false;
  ft_cover : (String.length x <= total ps)%nat;
  ft_proper : forall k, (k < List.length ps)%nat -> k <> 0%nat -> (total (firstn k ps) < String.length x)%nat;
  ft_word : (0 < String.length x)%nat }.
(** words cut the WordPiece way: every further piece is a continuation *)
Definition wordpiece (ps : list string) : Prop := Forall (fun p => hashed p = true) (tl ps).
(** position of word j (1-based) in the token sequence [CLS] ... [SEP] *)
Definition first_piece (pss : list (list string)) (j : nat) : nat := (1 + List.length (concat (firstn (j - 1) pss)))%nat.
