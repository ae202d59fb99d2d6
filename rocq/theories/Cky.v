(** * Cky: model of torch_struct/cky.py, logpartition (SentCFG) *)
From Verif Require Import Base Ops LinearChain SemiMarkov CkyCrf.
Set Implicit Arguments.

(** Potentials of the three tensors are addressed by one index list:
    terms [0; b; i; t], rules [1; b; x; y; z], roots [2; b; x]
    (y, z range over nonterminals 0..NT-1 followed by preterminals NT..NT+T-1,
    cky.py:34-36). *)
Section Model.
  Variable O : ops.
  Notation A := (car O).
  Variables (NT T N b : nat) (pot : list nat -> A).
  (** cky.py:13, 32: entry of [terms] *)
  Definition cterm (i t : nat) : A := pot [0; b; i; t].
  (** cky.py:13, 37: entry of [rules] *)
  Definition crule (x y z : nat) : A := pot [1; b; x; y; z].
  (** cky.py:13, 78: entry of [roots] *)
  Definition croot (x : nat) : A := pot [2; b; x].

  (** cky.py:29: two charts of shape (N, N, NT), filled with [zero]. *)
  Definition chart3 : Type := ((nat -> nat -> nat -> A) * (nat -> nat -> nat -> A))%type.
  (** cky.py:29: both charts are [zero] *)
  Definition cy_init : chart3 := (fun _ _ _ => szero O, fun _ _ _ => szero O).

  (** cky.py:39-47 [arr(a, b)]: the rule block whose first symbols start at [oy]
      ([ny] of them) and second at [oz] ([nz] of them), flattened row-major and
      transposed: cell (y * nz + z, x). *)
  Definition cy_arr (oy oz nz : nat) : nat -> nat -> A :=
    fun p x => crule x (oy + p / nz) (oz + p mod nz).

  (** cky.py:55: X1 *)
  Definition cy_X1 (cA cB : nat -> nat -> nat -> A) (w i x : nat) : A :=
    let YZ := fun p => matmul O w (fun y m => cA i m y) (fun m z => cB (i + w) (N - w + m) z)
                         (p / NT) (p mod NT) in
    matmul O (NT * NT) (fun _ p => YZ p) (cy_arr 0 0 NT) 0 x.
  (** cky.py:59, 61-62: X2, nonterminal then preterminal *)
  Definition cy_X2 (cA : nat -> nat -> nat -> A) (w i x : nat) : A :=
    let YZ := fun p => smul O (cA i (w - 1) (p / T)) (cterm (i + w) (p mod T)) in
    matmul O (NT * T) (fun _ p => YZ p) (cy_arr 0 NT T) 0 x.
  (** cky.py:58, 64-65: X3, preterminal then nonterminal *)
  Definition cy_X3 (cB : nat -> nat -> nat -> A) (w i x : nat) : A :=
    let YZ := fun p => smul O (cterm i (p / NT)) (cB (i + w) (N - w) (p mod NT)) in
    matmul O (T * NT) (fun _ p => YZ p) (cy_arr NT 0 NT) 0 x.
  (** cky.py:68-70: X4, two preterminals (w = 1 only) *)
  Definition cy_X4 (w i x : nat) : A :=
    let YZ := fun p => smul O (cterm i (p / T)) (cterm (i + w) (p mod T)) in
    matmul O (T * T) (fun _ p => YZ p) (cy_arr NT NT T) 0 x.

  (** cky.py:49-74, loop body for width w *)
  Definition cy_span (cA cB : nat -> nat -> nat -> A) (w i x : nat) : A :=
    ssum O ([cy_X1 cA cB w i x; cy_X2 cA w i x; cy_X3 cB w i x] ++
            (if w =? 1 then [cy_X4 w i x] else [])).
  (** cky.py:73-74: [span[w]] is stored in both charts *)
  Definition cy_step (st : chart3) (w : nat) : chart3 :=
    let '(cA, cB) := st in
    (fun i k x => if (i <? N - w) && (k =? w) then cy_span cA cB w i x else cA i k x,
     fun j k x => if (w <=? j) && (j <? N) && (k =? N - w - 1) then cy_span cA cB w (j - w) x
                  else cB j k x).
  (** cky.py:49: the loop over widths w = 1 .. N-1 *)
  Definition cy_run : chart3 := fold_left cy_step (seq 1 (N - 1)) cy_init.

  (** cky.py:76-78 *)
  Definition cy_one (len : nat) : A :=
    dot O NT (fun x => fst cy_run 0 (pyidx N len) x) croot.
End Model.
Arguments cy_init : clear implicits.
Arguments cy_X1 : clear implicits.
Arguments cy_X2 : clear implicits.
Arguments cy_X3 : clear implicits.
Arguments cy_X4 : clear implicits.
Arguments cy_span : clear implicits.
Arguments cy_step : clear implicits.
Arguments cy_run : clear implicits.
Arguments cy_one : clear implicits.

(** cky.py:8-79 [logpartition] (value only) on the tuple (terms, rules, roots).
    Simplification: inconsistent shapes, which raise in some view or broadcast,
    are all rejected with RuntimeError; [lengths] must have [batch] entries. *)
Definition cy_pot {A} (terms rules roots : tensor A) : list nat -> A :=
  fun e => match e with
           | 0 :: e' => dat terms e'
           | 1 :: e' => dat rules e'
           | _ :: e' => dat roots e'
           | [] => dat roots []
           end.
(** comparison of shapes *)
Definition list_eqb (l m : list nat) : bool :=
  if list_eq_dec Nat.eq_dec l m then true else false.
(** cky.py:8-79 [logpartition]: the value; simplifications as listed above *)
Definition cy_logpartition (O : ops) (terms rules roots : tensor (car O)) (lengths : option (list nat))
  : res (list (car O)) :=
  match shape terms, shape rules with
  | [batch; N; T], [b2; NT; S1; S2] =>
      if negb (list_eqb [b2; S1; S2] [batch; NT + T; NT + T] && list_eqb (shape roots) [batch; NT])
      then Err RuntimeError else
      let ls := match lengths with None => repeat N batch | Some ls => ls end in
      if N =? 0 then Err IndexError else
      if negb (length ls =? batch) then Err RuntimeError else
      if negb (forallb (fun l => l <=? N) ls) then Err IndexError else
      Ok (map (fun b => cy_one O NT T N b (cy_pot terms rules roots) (nth b ls 0)) (seq 0 batch))
  | _, _ => Err ValueError
  end.

(** ** Relational transport *)
Section Resp.
  Variables (O1 O2 : ops) (R : car O1 -> car O2 -> Prop).
  Hypothesis HR : resp O1 O2 R.
  Variables (p1 : list nat -> car O1) (p2 : list nat -> car O2).
  Hypothesis Hp : forall i, R (p1 i) (p2 i).
  Variables (NT T N b : nat).
  Hypotheses (HNT : 0 < NT) (HT : 0 < T).

  (** proof device: relation between two charts, cell by cell *)
  Definition chart3_rel (s1 : chart3 O1) (s2 : chart3 O2) : Prop :=
    (forall i k x, R (fst s1 i k x) (fst s2 i k x)) /\ (forall i k x, R (snd s1 i k x) (snd s2 i k x)).

  Lemma resp_cy_span a1 b1 a2 b2 w i x : 1 <= w ->
    (forall i k x, R (a1 i k x) (a2 i k x)) -> (forall i k x, R (b1 i k x) (b2 i k x)) ->
    R (cy_span O1 NT T N b p1 a1 b1 w i x) (cy_span O2 NT T N b p2 a2 b2 w i x).
  Proof.
    intros Hw Ha Hb. unfold cy_span. apply (resp_sum HR); [discriminate|].
    assert (0 < NT * NT /\ 0 < NT * T /\ 0 < T * NT /\ 0 < T * T) as (P1 & P2 & P3 & P4) by nia.
    repeat apply Forall2_app || apply Forall2_cons; auto.
    - apply (resp_matmul HR); auto.
      + intros _ p. apply (resp_matmul HR); auto.
      + intros; apply Hp.
    - apply (resp_matmul HR); auto.
      + intros _ p. apply (resp_mul HR); auto. apply Hp.
      + intros; apply Hp.
    - apply (resp_matmul HR); auto.
      + intros _ p. apply (resp_mul HR); auto. apply Hp.
      + intros; apply Hp.
    - destruct (w =? 1); constructor; auto. apply (resp_matmul HR); auto.
      + intros _ p. apply (resp_mul HR); apply Hp.
      + intros; apply Hp.
  Qed.

  Lemma resp_cy_one len : R (cy_one O1 NT T N b p1 len) (cy_one O2 NT T N b p2 len).
  Proof.
    unfold cy_one. apply (resp_dot HR); auto; [|intros; apply Hp]. intro x. unfold cy_run.
    assert (G : forall l s1 s2, Forall (fun w => 1 <= w) l -> chart3_rel s1 s2 ->
      chart3_rel (fold_left (cy_step O1 NT T N b p1) l s1) (fold_left (cy_step O2 NT T N b p2) l s2)).
    { induction l as [|w l IH]; intros s1 s2 Hl Hs; simpl; auto.
      inversion_clear Hl. apply IH; auto. destruct s1 as [a1 b1], s2 as [a2 b2], Hs as [Ha Hb].
      split; simpl; intros i k y.
      - destruct ((i <? N - w) && (k =? w)); auto. apply resp_cy_span; auto.
      - destruct ((w <=? i) && (i <? N) && (k =? N - w - 1)); auto. apply resp_cy_span; auto. }
    apply G.
    - apply Forall_forall. intros w Hw. apply in_seq in Hw. lia.
    - split; simpl; intros; apply HR.
  Qed.
End Resp.

(** ** Specification: parse trees *)
Inductive ptree := PT (t : nat) | PN (x : nat) (l r : ptree).
(** spec: number of words of a parse *)
Fixpoint psize (p : ptree) : nat :=
  match p with PT _ => 1 | PN _ l r => psize l + psize r end.
(** the symbol at the top: preterminals come after the NT nonterminals *)
Definition psym (NT : nat) (p : ptree) : nat :=
  match p with PT t => NT + t | PN x _ _ => x end.
(** spec: all symbols are in range *)
Fixpoint pbounded (NT T : nat) (p : ptree) : Prop :=
  match p with PT t => t < T | PN x l r => x < NT /\ pbounded NT T l /\ pbounded NT T r end.
(** spec: a parse of n words whose top symbol is a nonterminal *)
Definition is_parse (NT T n : nat) (p : ptree) : Prop :=
  psize p = n /\ pbounded NT T p /\ psym NT p < NT.
(** spec: the terms and rules used by a tree over the words from i on *)
Fixpoint pparts (NT b i : nat) (p : ptree) : list (list nat) :=
  match p with
  | PT t => [[0; b; i; t]]
  | PN x l r => [1; b; x; psym NT l; psym NT r] :: pparts NT b i l ++ pparts NT b (i + psize l) r
  end.
(** root, rules and words of a parse of the sentence *)
Definition parse_parts (NT b : nat) (p : ptree) : list (list nat) :=
  [2; b; psym NT p] :: pparts NT b 0 p.

(** trees of size n with symbol s *)
Fixpoint ptrees (NT T fuel n s : nat) : list ptree :=
  match fuel with
  | 0 => []
  | S f =>
      if s <? NT then
        flat_map (fun m => flat_map (fun y => flat_map (fun z => flat_map (fun l =>
            map (PN s l) (ptrees NT T f (n - m) z)) (ptrees NT T f m y))
          (seq 0 (NT + T))) (seq 0 (NT + T))) (seq 1 (n - 1))
      else if (n =? 1) && (s <? NT + T) then [PT (s - NT)] else []
  end.

Lemma psize_pos p : 1 <= psize p.
Proof. induction p; simpl; lia. Qed.

(** spec: trees of n words with top symbol s (numbered as in cky.py:34-36) *)
Definition ptree_at (NT T n s : nat) (p : ptree) : Prop :=
  psize p = n /\ pbounded NT T p /\ psym NT p = s.

Lemma psym_lt NT T p : pbounded NT T p -> psym NT p < NT + T.
Proof. destruct p; simpl; lia. Qed.

Lemma ptrees_enum NT T fuel : forall n s, n <= fuel -> Enumerates (ptree_at NT T n s) (ptrees NT T fuel n s).
Proof.
  induction fuel as [|f IH]; intros n s Hn.
  - split; [constructor|]. intro t; split; [intros []|]. intros [H _].
    pose proof (psize_pos t). lia.
  - cbn [ptrees]. destruct (s <? NT) eqn:Es.
    + apply Nat.ltb_lt in Es. split.
      * apply NoDup_flat_map; [apply seq_NoDup| |].
        -- intros m Hm. apply in_seq in Hm. apply NoDup_flat_map; [apply seq_NoDup| |].
           ++ intros y _. apply NoDup_flat_map; [apply seq_NoDup| |].
              ** intros z _. apply NoDup_flat_map; [apply IH; lia| |].
                 --- intros l _. apply NoDup_map_inj; [congruence|apply IH; lia].
                 --- intros l l' t _ _ H1 H2. apply in_map_iff in H1 as (? & <- & _).
                     apply in_map_iff in H2 as (? & [= -> _] & _). reflexivity.
              ** intros z z' t _ _ H1 H2.
                 apply in_flat_map in H1 as (l & _ & H1). apply in_map_iff in H1 as (r & <- & Hr).
                 apply in_flat_map in H2 as (l' & _ & H2). apply in_map_iff in H2 as (r' & [= _ ->] & Hr').
                 apply IH in Hr as (_ & _ & <-); [|lia]. apply IH in Hr' as (_ & _ & <-); [reflexivity|lia].
           ++ intros y y' t _ _ H1 H2.
              apply in_flat_map in H1 as (? & _ & H1).
              apply in_flat_map in H1 as (l & Hl & H1). apply in_map_iff in H1 as (r & <- & _).
              apply in_flat_map in H2 as (? & _ & H2).
              apply in_flat_map in H2 as (l' & Hl' & H2). apply in_map_iff in H2 as (r' & [= -> _] & _).
              apply IH in Hl as (_ & _ & <-); [|lia]. apply IH in Hl' as (_ & _ & <-); [reflexivity|lia].
        -- intros m m' t Hm Hm' H1 H2. apply in_seq in Hm, Hm'.
           apply in_flat_map in H1 as (? & _ & H1). apply in_flat_map in H1 as (? & _ & H1).
           apply in_flat_map in H1 as (l & Hl & H1). apply in_map_iff in H1 as (r & <- & _).
           apply in_flat_map in H2 as (? & _ & H2). apply in_flat_map in H2 as (? & _ & H2).
           apply in_flat_map in H2 as (l' & Hl' & H2). apply in_map_iff in H2 as (r' & [= -> _] & _).
           apply IH in Hl as (<- & _ & _); [|lia]. apply IH in Hl' as (<- & _ & _); [reflexivity|lia].
      * intro p. rewrite in_flat_map. split.
        -- intros (m & Hm & H). apply in_seq in Hm. apply in_flat_map in H as (y & Hy & H).
           apply in_flat_map in H as (z & Hz & H). apply in_flat_map in H as (l & Hl & H).
           apply in_map_iff in H as (r & <- & Hr).
           apply IH in Hl as (H1 & H2 & H3); [|lia]. apply IH in Hr as (H4 & H5 & H6); [|lia].
           split; simpl; [lia|]. repeat split; auto; lia.
        -- intros (H1 & H2 & H3). destruct p as [t|x l r]; simpl in *; [lia|].
           subst x. destruct H2 as (_ & Hl & Hr).
           pose proof (psize_pos l). pose proof (psize_pos r).
           exists (psize l). split; [apply in_seq; lia|].
           apply in_flat_map. exists (psym NT l). pose proof (psym_lt _ _ _ Hl). pose proof (psym_lt _ _ _ Hr).
           split; [apply in_seq; lia|].
           apply in_flat_map. exists (psym NT r). split; [apply in_seq; lia|].
           apply in_flat_map. exists l. split; [apply IH; [lia|repeat split; auto]|].
           apply in_map. apply IH; [lia|]. repeat split; auto. lia.
    + apply Nat.ltb_ge in Es. destruct ((n =? 1) && (s <? NT + T)) eqn:E.
      * apply andb_true_iff in E as [E1 E2]. apply Nat.eqb_eq in E1. apply Nat.ltb_lt in E2.
        split; [repeat constructor; auto|]. intro p; split.
        -- intros [<-|[]]. repeat split; simpl; lia.
        -- intros (H1 & H2 & H3). left. destruct p as [t|x l r]; simpl in *.
           ++ f_equal. lia.
           ++ pose proof (psize_pos l). pose proof (psize_pos r). lia.
      * split; [constructor|]. intro p; split; [intros []|]. intros (H1 & H2 & H3).
        destruct p as [t|x l r]; simpl in *.
        -- apply andb_false_iff in E as [E|E]; [apply Nat.eqb_neq in E|apply Nat.ltb_ge in E]; lia.
        -- lia.
Qed.

(** spec: a listing of all parses of n words *)
Definition parses (NT T n : nat) : list ptree := flat_map (ptrees NT T n n) (seq 0 NT).
Lemma parses_enum NT T n : Enumerates (is_parse NT T n) (parses NT T n).
Proof.
  split.
  - apply NoDup_flat_map; [apply seq_NoDup| |].
    + intros s _. apply ptrees_enum; auto.
    + intros s s' p _ _ H1 H2. apply ptrees_enum in H1 as (_ & _ & <-); auto.
      apply ptrees_enum in H2 as (_ & _ & <-); auto.
  - intro p. unfold parses. rewrite in_flat_map. split.
    + intros (s & Hs & H). apply in_seq in Hs. apply ptrees_enum in H as (H1 & H2 & H3); auto.
      repeat split; auto. lia.
    + intros (H1 & H2 & H3). exists (psym NT p). split; [apply in_seq; lia|].
      apply ptrees_enum; auto. repeat split; auto.
Qed.

(** ** Correctness *)
Section Correct.
  Variable S : csr.
  Add Ring Sring8 : (csr_srt S).
  Variables (NT T N b : nat) (pot : list nat -> S).
  Hypothesis HT : 0 < T.
  Hypothesis HNT : 0 < NT.

  (** proof device: weight of a tree over the words from i on *)
  Definition PW (i : nat) (p : ptree) : S := Prod S pot (pparts NT b i p).
  (** total weight of trees of size n and symbol s starting at word i *)
  Definition W (i n s : nat) : S := Sum S (PW i) (ptrees NT T n n s).
  Lemma W_any i n s fuel : n <= fuel -> Sum S (PW i) (ptrees NT T fuel n s) = W i n s.
  Proof. intro H. eapply Sum_enum; apply ptrees_enum; lia. Qed.

  Lemma W_term i t : t < T -> W i 1 (NT + t) = pot [0; b; i; t].
  Proof.
    intro Ht. unfold W. cbn [ptrees].
    replace (NT + t <? NT) with false by (symmetry; apply Nat.ltb_ge; lia).
    replace (NT + t <? NT + T) with true by (symmetry; apply Nat.ltb_lt; lia).
    cbn [Nat.eqb andb]. rewrite Sum_one. unfold PW. cbn [pparts]. rewrite Prod_one.
    repeat f_equal. lia.
  Qed.
  Lemma W_term_0 i n t : n <> 1 -> W i n (NT + t) = k0.
  Proof.
    intro Hn. unfold W. destruct n as [|n]; [reflexivity|]. cbn [ptrees].
    replace (NT + t <? NT) with false by (symmetry; apply Nat.ltb_ge; lia).
    replace (Datatypes.S n =? 1) with false by (symmetry; apply Nat.eqb_neq; lia). reflexivity.
  Qed.
  Lemma W_nt_1 i x : x < NT -> W i 1 x = k0.
  Proof.
    intro Hx. unfold W. cbn [ptrees].
    replace (x <? NT) with true by (symmetry; apply Nat.ltb_lt; lia). reflexivity.
  Qed.

  Notation rule := (fun x y z => pot [1; b; x; y; z]).
  Lemma W_rec i w x : 0 < w -> x < NT ->
    W i (Datatypes.S w) x =
    Sum S (fun m => Sum S (fun y => Sum S (fun z =>
      kmul (kmul (W i (m + 1) y) (W (i + m + 1) (w - m) z)) (rule x y z))
      (seq 0 (NT + T))) (seq 0 (NT + T))) (seq 0 w).
  Proof.
    intros Hw Hx. unfold W at 1. cbn [ptrees].
    replace (x <? NT) with true by (symmetry; apply Nat.ltb_lt; lia).
    rewrite Sum_flat_map. replace (Datatypes.S w - 1) with w by lia.
    rewrite (Sum_seq_shift S _ 1). apply Sum_seq_ext. intros m Hm.
    rewrite Sum_flat_map. apply Sum_ext. intro y.
    rewrite Sum_flat_map. apply Sum_ext. intro z.
    rewrite Sum_flat_map.
    rewrite <- (@W_any i (m + 1) y w), <- (@W_any (i + m + 1) (w - m) z w) by lia.
    replace (1 + m) with (m + 1) by lia.
    replace (Datatypes.S w - (m + 1)) with (w - m) by lia.
    rewrite <- !Sum_scale_r. apply Sum_ext_in. intros l Hl.
    apply ptrees_enum in Hl as (Hl & _ & Hsl); [|lia].
    rewrite Sum_map, <- Sum_scale_l, <- Sum_scale_r.
    apply Sum_ext_in. intros r Hr. apply ptrees_enum in Hr as (Hr & _ & Hsr); [|lia].
    unfold PW. cbn [pparts]. rewrite Prod_cons, Prod_app, Hl, Hsl, Hsr.
    replace (i + (m + 1)) with (i + m + 1) by lia. ring.
  Qed.

  (** the four blocks of the rule sum *)
  Lemma Sum_blocks (g : nat -> nat -> S) :
    Sum S (fun y => Sum S (fun z => g y z) (seq 0 (NT + T))) (seq 0 (NT + T)) =
    kadd (kadd (Sum S (fun y => Sum S (fun z => g y z) (seq 0 NT)) (seq 0 NT))
               (Sum S (fun y => Sum S (fun t => g y (NT + t)) (seq 0 T)) (seq 0 NT)))
         (kadd (Sum S (fun t => Sum S (fun z => g (NT + t) z) (seq 0 NT)) (seq 0 T))
               (Sum S (fun t => Sum S (fun u => g (NT + t) (NT + u)) (seq 0 T)) (seq 0 T))).
  Proof.
    rewrite seq_app, Sum_app, <- !Sum_add. simpl (0 + NT). f_equal.
    - apply Sum_ext. intro y. rewrite Sum_app. f_equal. apply (Sum_seq_shift S (g y)).
    - rewrite (Sum_seq_shift S _ NT). apply Sum_ext. intro t. rewrite Sum_app. f_equal.
      apply (Sum_seq_shift S (g (NT + t))).
  Qed.

  Lemma flat_dm D y z : z < D -> (y * D + z) / D = y /\ (y * D + z) mod D = z.
  Proof.
    intro H. split.
    - rewrite Nat.add_comm, Nat.div_add by lia. rewrite Nat.div_small; lia.
    - rewrite Nat.add_comm, Nat.mod_add by lia. apply Nat.mod_small; auto.
  Qed.

  Lemma Sum_pair (m n : nat) (f : nat -> nat -> S) :
    Sum S (fun p => f (p / n) (p mod n)) (seq 0 (m * n)) =
    Sum S (fun y => Sum S (fun z => f y z) (seq 0 n)) (seq 0 m).
  Proof.
    rewrite Sum_seq_flatten. apply Sum_ext. intro y. apply Sum_seq_ext. intros z Hz.
    destruct (@flat_dm n y z) as [-> ->]; [lia|reflexivity].
  Qed.

  (** proof device: invariant of the loop over widths *)
  Definition cy_inv (w : nat) (st : chart3 (csr_ops S)) : Prop :=
    (forall i k x, k <= w -> i + k < N -> x < NT -> fst st i k x = W i (k + 1) x) /\
    (forall j k x, k <= w -> k <= j -> j < N -> x < NT -> snd st j (N - 1 - k) x = W (j - k) (k + 1) x).

  Lemma cy_span_correct cA cB w i x : 0 < w -> i + w < N -> x < NT -> cy_inv (w - 1) (cA, cB) ->
    cy_span (csr_ops S) NT T N b pot cA cB w i x = W i (w + 1) x.
  Proof.
    intros Hw Hi Hx [HA HB]. cbn [fst snd] in HA, HB.
    replace (w + 1) with (Datatypes.S w) by lia. rewrite W_rec by lia.
    set (g := fun m y z => kmul (kmul (W i (m + 1) y) (W (i + m + 1) (w - m) z)) (rule x y z)).
    transitivity (kadd (kadd
       (Sum S (fun m => Sum S (fun y => Sum S (fun z => g m y z) (seq 0 NT)) (seq 0 NT)) (seq 0 w))
       (Sum S (fun m => Sum S (fun y => Sum S (fun t => g m y (NT + t)) (seq 0 T)) (seq 0 NT)) (seq 0 w)))
      (kadd
       (Sum S (fun m => Sum S (fun t => Sum S (fun z => g m (NT + t) z) (seq 0 NT)) (seq 0 T)) (seq 0 w))
       (Sum S (fun m => Sum S (fun t => Sum S (fun u => g m (NT + t) (NT + u)) (seq 0 T)) (seq 0 T)) (seq 0 w)))).
    2:{ rewrite <- !Sum_add. apply Sum_ext. intro m. symmetry. apply (Sum_blocks (g m)). }
    assert (HAm : forall m y, m < w -> y < NT -> cA i m y = W i (m + 1) y).
    { intros m y Hm Hy. apply HA; lia. }
    assert (HBm : forall m z, m < w -> z < NT -> cB (i + w) (N - w + m) z = W (i + m + 1) (w - m) z).
    { intros m z Hm Hz. replace (N - w + m) with (N - 1 - (w - 1 - m)) by lia.
      rewrite HB by lia. f_equal; lia. }
    assert (E1 : cy_X1 (csr_ops S) NT N b pot cA cB w i x =
      Sum S (fun m => Sum S (fun y => Sum S (fun z => g m y z) (seq 0 NT)) (seq 0 NT)) (seq 0 w)).
    { unfold cy_X1. rewrite matmul_csr. unfold cy_arr, crule.
      rewrite (Sum_pair NT NT (fun y z => kmul (matmul (csr_ops S) w (fun y0 m => cA i m y0)
         (fun m z0 => cB (i + w) (N - w + m) z0) y z) (pot [1; b; x; 0 + y; 0 + z]))).
      rewrite Sum_comm.
      symmetry. rewrite Sum_comm.
      transitivity (Sum S (fun y => Sum S (fun z => Sum S (fun m => g m y z) (seq 0 w)) (seq 0 NT)) (seq 0 NT)).
      { apply Sum_ext. intro y. apply Sum_comm. }
      rewrite Sum_comm. apply Sum_seq_ext. intros z Hz. apply Sum_seq_ext. intros y Hy.
      rewrite matmul_csr, <- Sum_scale_r. apply Sum_seq_ext. intros m Hm.
      unfold g. rewrite HAm, HBm by lia. reflexivity. }
    assert (E2 : cy_X2 (csr_ops S) NT T b pot cA w i x =
      Sum S (fun m => Sum S (fun y => Sum S (fun t => g m y (NT + t)) (seq 0 T)) (seq 0 NT)) (seq 0 w)).
    { unfold cy_X2. rewrite matmul_csr. unfold cy_arr, crule, cterm.
      etransitivity; [exact (Sum_pair NT T (fun y t => kmul (kmul (cA i (w - 1) y) (pot [0; b; i + w; t]))
         (pot [1; b; x; 0 + y; NT + t])))|].
      symmetry. rewrite (@Sum_single S nat _ (w - 1)); [symmetry|apply seq_NoDup|apply in_seq; lia|].
      - apply Sum_seq_ext. intros y Hy. apply Sum_seq_ext. intros t Ht.
        unfold g. rewrite HAm by lia. replace (w - (w - 1)) with 1 by lia.
        rewrite W_term by lia. replace (i + (w - 1) + 1) with (i + w) by lia. reflexivity.
      - intros m Hm Hne. apply in_seq in Hm. apply Sum_zero. intros y _. apply Sum_zero. intros t _.
        unfold g. rewrite (W_term_0 _ t) by lia. ring. }
    assert (E3 : cy_X3 (csr_ops S) NT T N b pot cB w i x =
      Sum S (fun m => Sum S (fun t => Sum S (fun z => g m (NT + t) z) (seq 0 NT)) (seq 0 T)) (seq 0 w)).
    { unfold cy_X3. rewrite matmul_csr. unfold cy_arr, crule, cterm.
      etransitivity; [exact (Sum_pair T NT (fun t z => kmul (kmul (pot [0; b; i; t]) (cB (i + w) (N - w) z))
         (pot [1; b; x; NT + t; 0 + z])))|].
      symmetry. rewrite (@Sum_single S nat _ 0); [symmetry|apply seq_NoDup|apply in_seq; lia|].
      - apply Sum_seq_ext. intros t Ht. apply Sum_seq_ext. intros z Hz.
        unfold g. simpl (0 + 1). rewrite W_term by lia.
        rewrite <- (HBm 0 z) by lia. rewrite Nat.add_0_r. reflexivity.
      - intros m Hm Hne. apply in_seq in Hm. apply Sum_zero. intros t _. apply Sum_zero. intros z _.
        unfold g. rewrite (W_term_0 _ t) by lia. ring. }
    unfold cy_span. rewrite E1, E2, E3. cbn [ssum csr_ops].
    destruct (w =? 1) eqn:E.
    - apply Nat.eqb_eq in E. subst w.
      assert (E4 : cy_X4 (csr_ops S) NT T b pot 1 i x =
        Sum S (fun m => Sum S (fun t => Sum S (fun u => g m (NT + t) (NT + u)) (seq 0 T)) (seq 0 T)) (seq 0 1)).
      { unfold cy_X4. rewrite matmul_csr. unfold cy_arr, crule, cterm.
        etransitivity; [exact (Sum_pair T T (fun t u => kmul (kmul (pot [0; b; i; t]) (pot [0; b; i + 1; u]))
           (pot [1; b; x; NT + t; NT + u])))|].
        cbn [seq]. rewrite Sum_one. apply Sum_seq_ext. intros t Ht. apply Sum_seq_ext. intros u Hu.
        unfold g. simpl (0 + 1). replace (1 - 0) with 1 by lia.
        rewrite !W_term by lia. replace (i + 0 + 1) with (i + 1) by lia. reflexivity. }
      rewrite E4. simpl. ring.
    - apply Nat.eqb_neq in E.
      assert (E4 : Sum S (fun m => Sum S (fun t => Sum S (fun u => g m (NT + t) (NT + u)) (seq 0 T)) (seq 0 T)) (seq 0 w) = k0).
      { apply Sum_zero. intros m Hm. apply in_seq in Hm. apply Sum_zero. intros t _. apply Sum_zero. intros u _.
        unfold g. destruct (Nat.eq_dec m 0) as [->|].
        - rewrite (W_term_0 _ u) by lia. ring.
        - rewrite (W_term_0 _ t) by lia. ring. }
      rewrite E4. simpl. ring.
  Qed.

  Lemma cy_inv_step w st : 0 < w < N -> cy_inv (w - 1) st -> cy_inv w (cy_step (csr_ops S) NT T N b pot st w).
  Proof.
    intros Hw H. destruct st as [cA cB]. pose proof H as [HA HB]. cbn [fst snd] in HA, HB.
    split; unfold cy_step; cbn [fst snd].
    - intros i k x Hk Hi Hx. destruct (k =? w) eqn:E.
      + apply Nat.eqb_eq in E; subst k.
        replace (i <? N - w) with true by (symmetry; apply Nat.ltb_lt; lia). cbn [andb].
        apply cy_span_correct; auto; lia.
      + apply Nat.eqb_neq in E. rewrite andb_false_r. apply HA; lia.
    - intros j k x Hk Hj HjN Hx. destruct (N - 1 - k =? N - w - 1) eqn:E.
      + apply Nat.eqb_eq in E. assert (k = w) by lia. subst k.
        replace (w <=? j) with true by (symmetry; apply Nat.leb_le; lia).
        replace (j <? N) with true by (symmetry; apply Nat.ltb_lt; lia). cbn [andb].
        apply cy_span_correct; auto; lia.
      + apply Nat.eqb_neq in E. rewrite andb_false_r. apply HB; lia.
  Qed.

  Lemma cy_run_inv w : w < N ->
    cy_inv w (fold_left (cy_step (csr_ops S) NT T N b pot) (seq 1 w) (cy_init (csr_ops S))).
  Proof.
    induction w; intro Hw.
    - split; simpl; intros.
      + replace k with 0 by lia. now rewrite W_nt_1.
      + replace k with 0 by lia. now rewrite W_nt_1.
    - rewrite seq_S, fold_left_app. cbn [fold_left]. apply cy_inv_step; [lia|].
      replace (1 + w - 1) with w by lia. apply IHw. lia.
  Qed.

  Lemma cy_one_sum len : 1 <= len <= N ->
    cy_one (csr_ops S) NT T N b pot len =
    Sum S (fun p => Prod S pot (parse_parts NT b p)) (parses NT T len).
  Proof.
    intro HL. unfold cy_one, pyidx.
    replace (len =? 0) with false by (symmetry; apply Nat.eqb_neq; lia).
    destruct (@cy_run_inv (N - 1)) as [HA _]; [lia|].
    rewrite dot_csr. unfold parses. rewrite Sum_flat_map. apply Sum_seq_ext. intros x Hx.
    unfold cy_run. rewrite HA by lia. replace (len - 1 + 1) with len by lia.
    unfold W. rewrite <- Sum_scale_r. apply Sum_ext_in. intros p Hp.
    apply ptrees_enum in Hp as (_ & _ & Hp); [|lia].
    unfold parse_parts. rewrite Prod_cons, Hp. unfold croot, PW. ring.
  Qed.
End Correct.

(** the arguments of cky.py:8-79 that do not raise (row lengths 1 .. N) *)
Definition cy_args (batch N NT T : nat) (lengths : option (list nat)) : Prop :=
  1 <= N /\ 0 < NT /\ 0 < T /\
  match lengths with None => True | Some ls => length ls = batch /\ Forall (fun l => l <= N) ls end.

Lemma list_eqb_refl l : list_eqb l l = true.
Proof. unfold list_eqb. destruct (list_eq_dec Nat.eq_dec l l); congruence. Qed.

Lemma cy_logpartition_run (O : ops) batch N NT T terms rules roots lengths :
  cy_args batch N NT T lengths ->
  shape terms = [batch; N; T] -> shape rules = [batch; NT; NT + T; NT + T] -> shape roots = [batch; NT] ->
  cy_logpartition O terms rules roots lengths =
  Ok (map (fun b => cy_one O NT T N b (cy_pot terms rules roots) (lc_len N lengths b)) (seq 0 batch)).
Proof.
  intros (HN & HT & HT2 & HL) H1 H2 H3. unfold cy_logpartition. rewrite H1, H2, H3, !list_eqb_refl.
  replace (N =? 0) with false by (symmetry; apply Nat.eqb_neq; lia).
  assert (G1 : length (match lengths with None => repeat N batch | Some ls => ls end) = batch).
  { destruct lengths; [tauto|apply repeat_length]. }
  assert (G2 : forallb (fun l => l <=? N) (match lengths with None => repeat N batch | Some ls => ls end) = true).
  { apply forallb_forall. intros x Hx. apply Nat.leb_le. destruct lengths as [ls|].
    - destruct HL as [_ HL]. rewrite Forall_forall in HL. auto.
    - apply repeat_spec in Hx. lia. }
  rewrite G1, G2, Nat.eqb_refl. simpl. f_equal. apply map_ext_in. intros b Hb. apply in_seq in Hb.
  now rewrite lens_nth by lia.
Qed.

Theorem cy_logpartition_correct (S : csr) batch N NT T terms rules roots lengths :
  cy_args batch N NT T lengths ->
  shape terms = [batch; N; T] -> shape rules = [batch; NT; NT + T; NT + T] -> shape roots = [batch; NT] ->
  exists v, cy_logpartition (csr_ops S) terms rules roots lengths = Ok v /\
  length v = batch /\
  forall b l, b < batch -> 1 <= lc_len N lengths b ->
    Enumerates (is_parse NT T (lc_len N lengths b)) l ->
    nth b v k0 = Sum S (fun p => Prod S (cy_pot terms rules roots) (parse_parts NT b p)) l.
Proof.
  intros Ha H1 H2 H3. rewrite (cy_logpartition_run _ _ _ _ Ha H1 H2 H3). eexists; split; [reflexivity|].
  rewrite map_length, seq_length. split; auto. intros b l Hb Hpos He.
  rewrite nth_map_seq by auto. destruct Ha as (HN & HNT & HT & HL).
  assert (Hle : lc_len N lengths b <= N).
  { destruct lengths as [ls|]; simpl; auto. destruct HL as [G1 G2]. rewrite Forall_forall in G2.
    apply G2, nth_In. lia. }
  rewrite cy_one_sum by lia. eapply Sum_enum; [apply parses_enum|exact He].
Qed.
