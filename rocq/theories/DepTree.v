(** * DepTree: model of torch_struct/deptree.py, the projective dependency CRF *)
From Verif Require Import Base Ops LinearChain SemiMarkov CkyCrf DepSpec.
Set Implicit Arguments.

(** deptree.py:5-17 [convert] (row 0 / column 0 is the artificial root; the root
    score of word c comes from the diagonal) seen as a change of index: the
    potential behind the arc h -> c, for c <> 0 and h <> c. [lab] is the label
    suffix: empty, or one label when the potentials are labeled. *)
Definition dp_idx (b h c : nat) (lab : list nat) : list nat :=
  b :: (if h =? 0 then c - 1 else h - 1) :: (c - 1) :: lab.

(** deptree.py:51-52, 126-134: shape checks. Returns (batch, words, labels,
    lengths); [words] is N - 1 of the code after [convert].
    Simplification: non-square potentials already fail in [convert], line 12. *)
Definition dp_check (sh : list nat) (lengths : option (list nat))
  : res (nat * nat * option nat * list nat) :=
  let go batch n n2 lab :=
    if negb (n =? n2) then Err RuntimeError else
    match lengths with
    | None => Ok (batch, n, lab, repeat n batch)
    | Some ls =>
        match list_max_opt ls with
        | None => Err ValueError
        | Some m => if m <=? n + 1 then Ok (batch, n, lab, ls) else Err AssertionError
        end
    end in
  match sh with
  | [batch; n; n2] => go batch n n2 None
  | [batch; n; n2; l] => go batch n n2 (Some l)
  | _ => Err ValueError
  end.

(** deptree.py:62-68: the charts alpha[A/B][C/I][L/R]; A charts are indexed by
    (left end, width), B charts by (right end, N-1-width). *)
Record dstate (A : Type) := DState {
  acl : nat -> nat -> A; acr : nat -> nat -> A; bcl : nat -> nat -> A; bcr : nat -> nat -> A;
  ail : nat -> nat -> A; air : nat -> nat -> A; bil : nat -> nat -> A; bir : nat -> nat -> A }.

Section Model.
  Variable O : ops.
  Notation A := (car O).

  (** deptree.py:11, 16, 136-140: one entry of the converted and masked scores.
      [junk] is the converted constant -1e9 that [convert] leaves on the
      diagonal and in column 0.
      Entries beyond the length are filled with the semiring zero. *)
  Definition dp_cell (junk : A) (pot : list nat -> A) (b len h c : nat) (lab : list nat) : A :=
    if (len <? h) || (len <? c) then szero O
    else if (c =? 0) || (h =? c) then junk
    else pot (dp_idx b h c lab).

  (** deptree.py:61: labels are summed out first. *)
  Definition dp_arc (junk : A) (labels : option nat) (pot : list nat -> A) (b len h c : nat) : A :=
    match labels with
    | None => dp_cell junk pot b len h c []
    | Some L => ssum O (map (fun l => dp_cell junk pot b len h c [l]) (seq 0 L))
    end.

  (** deptree.py:62-84. N is the number of words plus one. *)
  Definition dp_init (N : nat) : dstate A :=
    let z := fun _ _ : nat => szero O in
    let a := fun _ k => fill O (szero O) (k =? 0) (sone O) in
    let bb := fun _ k => fill O (szero O) (k =? N - 1) (sone O) in
    DState a a bb bb z z z z.

  (** assignments [alpha[A][..][st : N-k, k] = v] and
      [alpha[B][..][k+st : N, N-k-1] = v] (v indexed by the left end) *)
  Definition setA (N st k : nat) (v : nat -> A) (ch : nat -> nat -> A) : nat -> nat -> A :=
    fun i w => if (st <=? i) && (i <? N - k) && (w =? k) then v i else ch i w.
  (** deptree.py:100, 103, 108, 111: assignment to a B chart *)
  Definition setB (N st k : nat) (v : nat -> A) (ch : nat -> nat -> A) : nat -> nat -> A :=
    fun j w => if (k + st <=? j) && (j <? N) && (w =? N - k - 1) then v (j - k) else ch j w.

  (** deptree.py:91-111, the loop body for width k; [arc h c] is
      [arc_scores[.., h, c]]. *)
  Definition dp_step (N st : nat) (arc : nat -> nat -> A) (s : dstate A) (k : nat) : dstate A :=
    let x := fun i => dot O k (fun m => acr s i m) (fun m => bcl s (i + k) (N - k + m)) in
    let arcs_l := fun i => smul O (x i) (arc (i + k) i) in
    let ail' := setA N st k arcs_l (ail s) in
    let bil' := setB N st k arcs_l (bil s) in
    let arcs_r := fun i => smul O (x i) (arc i (i + k)) in
    let air' := setA N st k arcs_r (air s) in
    let bir' := setB N st k arcs_r (bir s) in
    let newl := fun i => dot O k (fun m => acl s i m) (fun m => bil' (i + k) (N - k - 1 + m)) in
    let newr := fun i => dot O k (fun m => air' i (1 + m)) (fun m => bcr s (i + k) (N - k + m)) in
    DState (setA N st k newl (acl s)) (setA N st k newr (acr s))
           (setB N st k newl (bcl s)) (setB N st k newr (bcr s))
           ail' air' bil' bir'.

  (** deptree.py:91: the loop over widths k = 1 .. N-1 (multi-root) or N-2 (single root) *)
  Definition dp_run (N st : nat) (arc : nat -> nat -> A) : dstate A :=
    fold_left (dp_step N st arc) (seq 1 (N - st - 1)) (dp_init N).

  (** deptree.py:113-120 (single root): row 0 of alpha[A][C][R] is recomputed
      from the arcs leaving the root. *)
  Definition dp_root_inc (arc : nat -> nat -> A) (s : dstate A) (m : nat) : A :=
    smul O (acl s 1 m) (arc 0 (m + 1)).
  (** deptree.py:117-120: the dot product that joins the root arc with the words to its right *)
  Definition dp_root (N : nat) (arc : nat -> nat -> A) (s : dstate A) (w : nat) : A :=
    if (1 <=? w) && (w <? N)
    then dot O w (fun m => dp_root_inc arc s m) (fun m => bcr s w (N - w + m))
    else acr s 0 w.

  (** deptree.py:86-124 for one batch element. *)
  Definition dp_one (multiroot : bool) (labels : option nat) (words : nat)
      (junk : A) (pot : list nat -> A) (b len : nat) : A :=
    let N := words + 1 in
    let arc := dp_arc junk labels pot b len in
    if multiroot then acr (dp_run N 0 arc) 0 len
    else dp_root N arc (dp_run N 1 arc) len.

  (** deptree.py:49-124 [logpartition] (value only). Index errors: [lengths]
      must have one entry per batch element (line 137 and 123), at most [words]
      (line 123; a length of words+1 passes the assertion), and the single-root
      code reads row 1 (line 115). *)
  Definition dp_logpartition (multiroot : bool) (junk : A) (arcs : tensor A)
      (lengths : option (list nat)) : res (list A) :=
    match dp_check (shape arcs) lengths with
    | Err e => Err e
    | Ok (batch, n, labels, ls) =>
        if negb (length ls =? batch) then Err IndexError else
        if negb multiroot && (n =? 0) then Err IndexError else
        if negb (forallb (fun l => l <=? n) ls) then Err IndexError else
        Ok (map (fun b => dp_one multiroot labels n junk (dat arcs) b (nth b ls 0)) (seq 0 batch))
    end.
End Model.
Arguments dp_step : clear implicits.
Arguments dp_init : clear implicits.
Arguments dp_run : clear implicits.
Arguments dp_root : clear implicits.
Arguments dp_root_inc : clear implicits.
Arguments dstate : clear implicits.

(** ** Relational transport. No relation between the two [junk] values is
    needed: they only enter the left-facing charts of row 0, which never reach
    the result. *)
Section Resp.
  Variables (O1 O2 : ops) (R : car O1 -> car O2 -> Prop).
  Hypothesis HR : resp O1 O2 R.
  Variables (arc1 : nat -> nat -> car O1) (arc2 : nat -> nat -> car O2).
  Hypothesis Harc : forall h c, c <> 0 -> h <> c -> R (arc1 h c) (arc2 h c).
  Variables (N st : nat).

  (** related at every cell; the left-facing charts only for a nonzero left end
      (the left end of B cell (j, w) is j - (N-1-w)) *)
  Definition dst_rel (s1 : dstate (car O1)) (s2 : dstate (car O2)) : Prop :=
    (forall i k, 1 <= i -> R (acl s1 i k) (acl s2 i k)) /\
    (forall i k, R (acr s1 i k) (acr s2 i k)) /\
    (forall j k, N - 1 - k < j -> R (bcl s1 j k) (bcl s2 j k)) /\
    (forall j k, R (bcr s1 j k) (bcr s2 j k)) /\
    (forall i k, R (air s1 i k) (air s2 i k)) /\
    (forall j k, N - 1 - k < j -> R (bil s1 j k) (bil s2 j k)).

  Lemma resp_dot_in D a a' b b' : 0 < D ->
    (forall i, i < D -> R (a i) (a' i)) -> (forall i, i < D -> R (b i) (b' i)) ->
    R (dot O1 D a b) (dot O2 D a' b').
  Proof.
    intros HD Ha Hb. unfold dot, matmul. apply (resp_sum HR).
    - destruct D; [lia|discriminate].
    - assert (G : forall n s, s + n <= D ->
        Forall2 R (map (fun k => smul O1 (a k) (b k)) (seq s n)) (map (fun k => smul O2 (a' k) (b' k)) (seq s n))).
      { induction n as [|n IH]; intros s Hs; simpl; constructor; [|apply IH; lia].
        apply (resp_mul HR); auto; [apply Ha|apply Hb]; lia. }
      apply G. lia.
  Qed.

  Lemma resp_setA k (v1 : nat -> car O1) (v2 : nat -> car O2) c1 c2 i w :
    (i < N - k -> R (v1 i) (v2 i)) -> R (c1 i w) (c2 i w) ->
    R (setA O1 N st k v1 c1 i w) (setA O2 N st k v2 c2 i w).
  Proof.
    intros Hv Hc. unfold setA. destruct ((st <=? i) && (i <? N - k) && (w =? k)) eqn:E; auto.
    apply Hv. apply andb_prop in E as [E _]. apply andb_prop in E as [_ E]. now apply Nat.ltb_lt.
  Qed.
  Lemma resp_setB k (v1 : nat -> car O1) (v2 : nat -> car O2) c1 c2 j w :
    (k <= j < N -> w = N - k - 1 -> R (v1 (j - k)) (v2 (j - k))) -> R (c1 j w) (c2 j w) ->
    R (setB O1 N st k v1 c1 j w) (setB O2 N st k v2 c2 j w).
  Proof.
    intros Hv Hc. unfold setB. destruct ((k + st <=? j) && (j <? N) && (w =? N - k - 1)) eqn:E; auto.
    apply andb_prop in E as [E E3]. apply andb_prop in E as [E1 E2].
    apply Nat.leb_le in E1. apply Nat.ltb_lt in E2. apply Nat.eqb_eq in E3. apply Hv; auto; lia.
  Qed.

  Lemma resp_dp_step s1 s2 k : 1 <= k < N -> dst_rel s1 s2 ->
    dst_rel (dp_step O1 N st arc1 s1 k) (dp_step O2 N st arc2 s2 k).
  Proof.
    intros Hk (H1 & H2 & H3 & H4 & H5 & H6).
    set (x1 := fun i => dot O1 k (fun m => acr s1 i m) (fun m => bcl s1 (i + k) (N - k + m))).
    set (x2 := fun i => dot O2 k (fun m => acr s2 i m) (fun m => bcl s2 (i + k) (N - k + m))).
    assert (Hx : forall i, R (x1 i) (x2 i)).
    { intro i. apply resp_dot_in; [lia|auto|]. intros m Hm. apply H3. lia. }
    assert (HL : forall i, 1 <= i -> R (smul O1 (x1 i) (arc1 (i + k) i)) (smul O2 (x2 i) (arc2 (i + k) i))).
    { intros i Hi. apply (resp_mul HR); auto. apply Harc; lia. }
    assert (HRr : forall i, R (smul O1 (x1 i) (arc1 i (i + k))) (smul O2 (x2 i) (arc2 i (i + k)))).
    { intros i. apply (resp_mul HR); auto. apply Harc; lia. }
    assert (Hbil : forall j w, N - 1 - w < j ->
      R (setB O1 N st k (fun i => smul O1 (x1 i) (arc1 (i + k) i)) (bil s1) j w)
        (setB O2 N st k (fun i => smul O2 (x2 i) (arc2 (i + k) i)) (bil s2) j w)).
    { intros j w Hw. apply resp_setB; auto. intros Hj Ew. apply HL. lia. }
    assert (Hair : forall i w,
      R (setA O1 N st k (fun i => smul O1 (x1 i) (arc1 i (i + k))) (air s1) i w)
        (setA O2 N st k (fun i => smul O2 (x2 i) (arc2 i (i + k))) (air s2) i w)).
    { intros i w. apply resp_setA; auto. }
    unfold dp_step. fold x1 x2. unfold dst_rel. cbn [acl acr bcl bcr air bil].
    split; [|split; [|split; [|split; [|split]]]]; auto.
    - intros i w Hi. apply resp_setA; auto. intro Hik. apply resp_dot_in; [lia|auto|].
      intros m Hm. apply Hbil. lia.
    - intros i w. apply resp_setA; auto. intro Hik. apply resp_dot_in; [lia|auto|auto].
    - intros j w Hw. apply resp_setB; auto. intros Hj Ew. apply resp_dot_in; [lia| |].
      + intros m Hm. apply H1. lia.
      + intros m Hm. apply Hbil. lia.
    - intros j w. apply resp_setB; auto. intros Hj Ew. apply resp_dot_in; [lia|auto|auto].
  Qed.

  Lemma resp_dp_run : dst_rel (dp_run O1 N st arc1) (dp_run O2 N st arc2).
  Proof.
    unfold dp_run.
    assert (G : forall l s1 s2, Forall (fun k => 1 <= k < N) l -> dst_rel s1 s2 ->
      dst_rel (fold_left (dp_step O1 N st arc1) l s1) (fold_left (dp_step O2 N st arc2) l s2)).
    { induction l as [|k l IH]; intros s1 s2 Hl Hs; simpl; auto.
      inversion_clear Hl. apply IH; auto. apply resp_dp_step; auto. }
    apply G.
    - apply Forall_forall. intros k Hk. apply in_seq in Hk. lia.
    - unfold dst_rel, dp_init. cbn [acl acr bcl bcr air bil].
      repeat split; intros; try apply HR; apply resp_fill; apply HR.
  Qed.
End Resp.

Lemma resp_dp_arc (O1 O2 : ops) (R : car O1 -> car O2 -> Prop) (HR : resp O1 O2 R)
    (p1 : list nat -> car O1) (p2 : list nat -> car O2) (Hp : forall i, R (p1 i) (p2 i))
    j1 j2 labels b len h c :
  labels <> Some 0 -> c <> 0 -> h <> c ->
  R (dp_arc O1 j1 labels p1 b len h c) (dp_arc O2 j2 labels p2 b len h c).
Proof.
  intros HL Hc Hh.
  assert (G : forall lab, R (dp_cell O1 j1 p1 b len h c lab) (dp_cell O2 j2 p2 b len h c lab)).
  { intro lab. unfold dp_cell. destruct ((len <? h) || (len <? c)); [apply HR|].
    replace (c =? 0) with false by (symmetry; apply Nat.eqb_neq; auto).
    replace (h =? c) with false by (symmetry; apply Nat.eqb_neq; auto). simpl. auto. }
  destruct labels as [L|]; [|apply G]. simpl. apply (resp_sum_seq HR); auto.
  destruct L; [congruence|lia].
Qed.

Lemma resp_dp_one (O1 O2 : ops) (R : car O1 -> car O2 -> Prop) (HR : resp O1 O2 R)
    (p1 : list nat -> car O1) (p2 : list nat -> car O2) (Hp : forall i, R (p1 i) (p2 i))
    multiroot labels words j1 j2 b len :
  labels <> Some 0 ->
  R (dp_one O1 multiroot labels words j1 p1 b len) (dp_one O2 multiroot labels words j2 p2 b len).
Proof.
  intro HL. unfold dp_one.
  assert (Ha : forall h c, c <> 0 -> h <> c ->
    R (dp_arc O1 j1 labels p1 b len h c) (dp_arc O2 j2 labels p2 b len h c)).
  { intros. apply resp_dp_arc; auto. }
  destruct multiroot.
  - apply (@resp_dp_run _ _ R HR _ _ Ha (words + 1) 0).
  - destruct (@resp_dp_run _ _ R HR _ _ Ha (words + 1) 1) as (H1 & H2 & H3 & H4 & H5 & H6).
    unfold dp_root. destruct ((1 <=? len) && (len <? words + 1)) eqn:E; [|auto].
    apply andb_prop in E as [E _]. apply Nat.leb_le in E.
    apply resp_dot_in; auto. intros m Hm. unfold dp_root_inc.
    apply (resp_mul HR); [apply H1; lia|]. apply Ha; lia.
Qed.

(** ** Correctness *)
(** the arcs of a list of heads for the words s, s+1, ... *)
Fixpoint harcs (s : nat) (l : list nat) : list (nat * nat) :=
  match l with [] => [] | h :: l' => (h, s) :: harcs (S s) l' end.
Lemma harcs_app s l1 l2 : harcs s (l1 ++ l2) = harcs s l1 ++ harcs (s + length l1) l2.
Proof.
  revert s. induction l1 as [|h l IH]; intro s; simpl; [now rewrite Nat.add_0_r|].
  rewrite IH. do 3 f_equal. lia.
Qed.

Section Correct.
  Variable S : csr.
  Add Ring Sring_dep : (csr_srt S).
  Variables (N st : nat) (arc : nat -> nat -> S).

  (** proof device: weight of the heads of consecutive words *)
  Definition hw (s : nat) (l : list nat) : S := Prod S (fun a => arc (fst a) (snd a)) (harcs s l).
  Lemma hw_app s l1 l2 : hw s (l1 ++ l2) = kmul (hw s l1) (hw (s + length l1) l2).
  Proof. unfold hw. rewrite harcs_app, Prod_app. reflexivity. Qed.
  Lemma hw_cons s h l : hw s (h :: l) = kmul (arc h s) (hw (s + 1) l).
  Proof. unfold hw. simpl. rewrite Prod_cons. simpl. replace (s + 1) with (Datatypes.S s) by lia. reflexivity. Qed.
  Lemma hw_nil s : hw s [] = k1.
  Proof. reflexivity. Qed.

  (** total weights of right- and left-complete spans *)
  Definition WR (i j : nat) : S := Sum S (hw (i + 1)) (rights (Datatypes.S (j - i)) i j).
  (** proof device: total weight of the complete spans headed at their right end *)
  Definition WL (i j : nat) : S := Sum S (hw i) (lefts (Datatypes.S (j - i)) i j).
  Lemma WR_any f i j : i <= j -> j - i < f -> Sum S (hw (i + 1)) (rights f i j) = WR i j.
  Proof. intros H1 H2. eapply Sum_enum; apply spans_enum; lia. Qed.
  Lemma WL_any f i j : i <= j -> j - i < f -> Sum S (hw i) (lefts f i j) = WL i j.
  Proof. intros H1 H2. eapply Sum_enum; apply spans_enum; lia. Qed.
  Lemma WR_0 i : WR i i = k1.
  Proof. unfold WR. simpl. rewrite Nat.eqb_refl, Sum_one. apply hw_nil. Qed.
  Lemma WL_0 i : WL i i = k1.
  Proof. unfold WL. simpl. rewrite Nat.eqb_refl, Sum_one. apply hw_nil. Qed.

  (** the pairing of two facing half spans over i..j *)
  Definition WX (i j : nat) : S :=
    Sum S (fun x => kmul (WR i (i + x)) (WL (i + x + 1) j)) (seq 0 (j - i)).

  Lemma hw_join_r i r c l1 l2 l3 :
    i <= r < c -> length l1 = r - i -> length l2 = c - (r + 1) ->
    hw (i + 1) (join_r i l1 l2 l3) =
    kmul (kmul (kmul (hw (i + 1) l1) (hw (r + 1) l2)) (arc i c)) (hw (c + 1) l3).
  Proof.
    intros Hr L1 L2. unfold join_r. rewrite !hw_app, hw_cons.
    replace (i + 1 + length l1) with (r + 1) by lia.
    replace (r + 1 + length l2) with c by lia. ring.
  Qed.
  Lemma hw_join_l i j r c l1 l2 l3 :
    i <= c <= r -> length l1 = c - i -> length l2 = r - c ->
    hw i (join_l j l1 l2 l3) =
    kmul (hw i l1) (kmul (kmul (hw (c + 1) l2) (hw (r + 1) l3)) (arc j c)).
  Proof.
    intros Hr L1 L2. unfold join_l. rewrite hw_app, hw_cons, hw_app.
    replace (i + length l1) with c by lia.
    replace (c + 1 + length l2) with (r + 1) by lia. ring.
  Qed.

  Lemma WR_rec i k : 0 < k ->
    WR i (i + k) = Sum S (fun m => kmul (kmul (WX i (i + (1 + m))) (arc i (i + (1 + m))))
                                       (WR (i + (1 + m)) (i + k))) (seq 0 k).
  Proof.
    intro Hk. unfold WR at 1. cbn [rights].
    replace (i =? i + k) with false by (symmetry; apply Nat.eqb_neq; lia).
    rewrite Sum_flat_map. replace (i + k - i) with k by lia. apply Sum_seq_ext. intros m Hm.
    rewrite Sum_flat_map. unfold WX. replace (i + (1 + m) - i) with (m + 1) by lia.
    rewrite <- Sum_scale_r, <- Sum_scale_r. apply Sum_seq_ext. intros x Hx.
    rewrite Sum_flat_map.
    rewrite <- (@WR_any k i (i + x)) by lia.
    rewrite <- (@WL_any k (i + x + 1) (i + (1 + m))) by lia.
    rewrite <- (@WR_any k (i + (1 + m)) (i + k)) by lia.
    replace (i + (1 + m)) with (i + m + 1) by lia.
    rewrite <- !Sum_scale_r. apply Sum_ext_in. intros l1 H1.
    rewrite Sum_flat_map, <- (Sum_scale_l S _ (hw (i + x + 1))), <- !Sum_scale_r.
    apply Sum_ext_in. intros l2 H2.
    rewrite Sum_map, <- Sum_scale_l. apply Sum_ext. intros l3.
    apply spans_enum in H1 as [L1 _]; [|lia|lia]. apply spans_enum in H2 as [L2 _]; [|lia|lia].
    apply hw_join_r; lia.
  Qed.

  Lemma WL_rec i k : 0 < k ->
    WL i (i + k) = Sum S (fun m => kmul (WL i (i + m))
                       (kmul (WX (i + m) (i + k)) (arc (i + k) (i + m)))) (seq 0 k).
  Proof.
    intro Hk. unfold WL at 1. cbn [lefts].
    replace (i =? i + k) with false by (symmetry; apply Nat.eqb_neq; lia).
    rewrite Sum_flat_map. replace (i + k - i) with k by lia. apply Sum_seq_ext. intros m Hm.
    rewrite Sum_flat_map. unfold WX. replace (i + k - (i + m)) with (k - m) by lia.
    rewrite <- Sum_scale_r, <- Sum_scale_l. apply Sum_seq_ext. intros x Hx.
    rewrite Sum_flat_map.
    rewrite <- (@WL_any k i (i + m)) by lia.
    rewrite <- (@WR_any k (i + m) (i + m + x)) by lia.
    rewrite <- (@WL_any k (i + m + x + 1) (i + k)) by lia.
    rewrite <- (Sum_scale_r S _ (hw i)). apply Sum_ext_in. intros l1 H1.
    rewrite Sum_flat_map. rewrite <- Sum_scale_r, <- Sum_scale_r, <- Sum_scale_l.
    apply Sum_ext_in. intros l2 H2.
    rewrite Sum_map. rewrite <- Sum_scale_l, <- Sum_scale_r, <- Sum_scale_l. apply Sum_ext. intros l3.
    apply spans_enum in H1 as [L1 _]; [|lia|lia]. apply spans_enum in H2 as [L2 _]; [|lia|lia].
    rewrite (@hw_join_l i (i + k) (i + m + x) (i + m)) by lia. ring.
  Qed.

  (** the charts after the widths up to w *)
  Definition dp_inv (w : nat) (s : dstate (car (csr_ops S))) : Prop :=
    (forall i k, st <= i -> k <= w -> i + k < N -> acl s i k = WL i (i + k)) /\
    (forall i k, st <= i -> k <= w -> i + k < N -> acr s i k = WR i (i + k)) /\
    (forall j k, k <= w -> k + st <= j -> j < N -> bcl s j (N - 1 - k) = WL (j - k) j) /\
    (forall j k, k <= w -> k + st <= j -> j < N -> bcr s j (N - 1 - k) = WR (j - k) j) /\
    (forall i k, st <= i -> 1 <= k <= w -> i + k < N ->
       air s i k = kmul (WX i (i + k)) (arc i (i + k))) /\
    (forall j k, 1 <= k <= w -> k + st <= j -> j < N ->
       bil s j (N - 1 - k) = kmul (WX (j - k) j) (arc j (j - k))).

  Lemma setA_eq k v c i w : st <= i -> i + k < N -> w = k -> setA (csr_ops S) N st k v c i w = v i.
  Proof.
    intros H1 H2 ->. unfold setA.
    replace (st <=? i) with true by (symmetry; apply Nat.leb_le; lia).
    replace (i <? N - k) with true by (symmetry; apply Nat.ltb_lt; lia).
    rewrite Nat.eqb_refl. reflexivity.
  Qed.
  Lemma setA_ne k v c i w : w <> k -> setA (csr_ops S) N st k v c i w = c i w.
  Proof.
    intro H. unfold setA. replace (w =? k) with false by (symmetry; apply Nat.eqb_neq; lia).
    now rewrite andb_false_r.
  Qed.
  Lemma setB_eq k v c j w : k + st <= j -> j < N -> w = N - k - 1 ->
    setB (csr_ops S) N st k v c j w = v (j - k).
  Proof.
    intros H1 H2 ->. unfold setB.
    replace (k + st <=? j) with true by (symmetry; apply Nat.leb_le; lia).
    replace (j <? N) with true by (symmetry; apply Nat.ltb_lt; lia).
    rewrite Nat.eqb_refl. reflexivity.
  Qed.
  Lemma setB_ne k v c j w : w <> N - k - 1 -> setB (csr_ops S) N st k v c j w = c j w.
  Proof.
    intro H. unfold setB. replace (w =? N - k - 1) with false by (symmetry; apply Nat.eqb_neq; lia).
    now rewrite andb_false_r.
  Qed.

  Lemma dp_inv_init : 0 < N -> dp_inv 0 (dp_init (csr_ops S) N).
  Proof.
    intro HN. unfold dp_inv, dp_init. cbn [acl acr bcl bcr air bil].
    repeat split; intros; try lia; replace k with 0 by lia.
    - rewrite Nat.add_0_r, WL_0. reflexivity.
    - rewrite Nat.add_0_r, WR_0. reflexivity.
    - rewrite !Nat.sub_0_r, WL_0. unfold fill. rewrite Nat.eqb_refl. reflexivity.
    - rewrite !Nat.sub_0_r, WR_0. unfold fill. rewrite Nat.eqb_refl. reflexivity.
  Qed.

  Lemma dp_inv_step k s : 1 <= k < N -> dp_inv (k - 1) s -> dp_inv k (dp_step (csr_ops S) N st arc s k).
  Proof.
    intros Hk (H1 & H2 & H3 & H4 & H5 & H6).
    set (x := fun i => dot (csr_ops S) k (fun m => acr s i m) (fun m => bcl s (i + k) (N - k + m))).
    assert (Hx : forall i, st <= i -> i + k < N -> x i = WX i (i + k)).
    { intros i Hi HiN. unfold x, WX. rewrite dot_csr. replace (i + k - i) with k by lia.
      apply Sum_seq_ext. intros m Hm. rewrite H2 by lia. f_equal.
      replace (N - k + m) with (N - 1 - (k - 1 - m)) by lia. rewrite H3 by lia. f_equal; lia. }
    set (al := fun i => smul (csr_ops S) (x i) (arc (i + k) i)).
    set (ar := fun i => smul (csr_ops S) (x i) (arc i (i + k))).
    assert (Hal : forall i, st <= i -> i + k < N -> al i = kmul (WX i (i + k)) (arc (i + k) i)).
    { intros i Hi HiN. unfold al. cbn [smul csr_ops]. now rewrite Hx by lia. }
    assert (Har : forall i, st <= i -> i + k < N -> ar i = kmul (WX i (i + k)) (arc i (i + k))).
    { intros i Hi HiN. unfold ar. cbn [smul csr_ops]. now rewrite Hx by lia. }
    set (bil' := setB (csr_ops S) N st k al (bil s)).
    set (air' := setA (csr_ops S) N st k ar (air s)).
    assert (Hbil : forall j w, 1 <= w <= k -> w + st <= j -> j < N ->
       bil' j (N - 1 - w) = kmul (WX (j - w) j) (arc j (j - w))).
    { intros j w Hw Hj HjN. unfold bil'. destruct (Nat.eq_dec w k) as [->|Hne].
      - rewrite setB_eq by lia. rewrite Hal by lia. replace (j - k + k) with j by lia. reflexivity.
      - rewrite setB_ne by lia. apply H6; lia. }
    assert (Hair : forall i w, st <= i -> 1 <= w <= k -> i + w < N ->
       air' i w = kmul (WX i (i + w)) (arc i (i + w))).
    { intros i w Hi Hw HiN. unfold air'. destruct (Nat.eq_dec w k) as [->|Hne].
      - rewrite setA_eq by lia. now apply Har.
      - rewrite setA_ne by lia. apply H5; lia. }
    set (nl := fun i => dot (csr_ops S) k (fun m => acl s i m) (fun m => bil' (i + k) (N - k - 1 + m))).
    set (nr := fun i => dot (csr_ops S) k (fun m => air' i (1 + m)) (fun m => bcr s (i + k) (N - k + m))).
    assert (Hnl : forall i, st <= i -> i + k < N -> nl i = WL i (i + k)).
    { intros i Hi HiN. unfold nl. rewrite dot_csr, WL_rec by lia. apply Sum_seq_ext. intros m Hm.
      rewrite H1 by lia. f_equal. replace (N - k - 1 + m) with (N - 1 - (k - m)) by lia.
      rewrite Hbil by lia. replace (i + k - (k - m)) with (i + m) by lia. reflexivity. }
    assert (Hnr : forall i, st <= i -> i + k < N -> nr i = WR i (i + k)).
    { intros i Hi HiN. unfold nr. rewrite dot_csr, WR_rec by lia. apply Sum_seq_ext. intros m Hm.
      rewrite Hair by lia. f_equal. replace (N - k + m) with (N - 1 - (k - 1 - m)) by lia.
      rewrite H4 by lia. f_equal; lia. }
    unfold dp_step. fold x al ar bil' air' nl nr. unfold dp_inv. cbn [acl acr bcl bcr air bil].
    split; [|split; [|split; [|split; [|split]]]].
    - intros i w Hi Hw HiN. destruct (Nat.eq_dec w k) as [->|].
      + rewrite setA_eq by lia. apply Hnl; lia.
      + rewrite setA_ne by lia. apply H1; lia.
    - intros i w Hi Hw HiN. destruct (Nat.eq_dec w k) as [->|].
      + rewrite setA_eq by lia. apply Hnr; lia.
      + rewrite setA_ne by lia. apply H2; lia.
    - intros j w Hw Hj HjN. destruct (Nat.eq_dec w k) as [->|].
      + rewrite setB_eq by lia. etransitivity; [apply Hnl; lia|]. f_equal; lia.
      + rewrite setB_ne by lia. apply H3; lia.
    - intros j w Hw Hj HjN. destruct (Nat.eq_dec w k) as [->|].
      + rewrite setB_eq by lia. etransitivity; [apply Hnr; lia|]. f_equal; lia.
      + rewrite setB_ne by lia. apply H4; lia.
    - intros; apply Hair; lia.
    - intros; apply Hbil; lia.
  Qed.

  Lemma dp_run_inv : st < N -> dp_inv (N - st - 1) (dp_run (csr_ops S) N st arc).
  Proof.
    intro HN. unfold dp_run.
    assert (G : forall w, w < N -> dp_inv w (fold_left (dp_step (csr_ops S) N st arc) (seq 1 w) (dp_init (csr_ops S) N))).
    { induction w; intro Hw; [apply dp_inv_init; lia|].
      rewrite seq_S, fold_left_app. cbn [fold_left]. apply dp_inv_step; [lia|].
      replace (1 + w - 1) with w by lia. apply IHw. lia. }
    apply G. lia.
  Qed.
End Correct.

(** in a lawful semiring: the sum over the head vectors, for any arc function *)
Lemma dp_multi_sum (S : csr) N arc len : len < N ->
  acr (dp_run (csr_ops S) N 0 arc) 0 len =
  Sum S (fun h => Prod S (fun a => arc (fst a) (snd a)) (harcs 1 h)) (rights (Datatypes.S len) 0 len).
Proof.
  intro HL. destruct (@dp_run_inv S N 0 arc) as (_ & H & _); [lia|].
  etransitivity; [apply H; lia|]. unfold WR. rewrite Nat.sub_0_r. reflexivity.
Qed.

Lemma dp_single_sum (S : csr) N arc len : 1 <= len < N ->
  dp_root (csr_ops S) N arc (dp_run (csr_ops S) N 1 arc) len =
  Sum S (fun h => Prod S (fun a => arc (fst a) (snd a)) (harcs 1 h)) (singles len).
Proof.
  intro HL. destruct (@dp_run_inv S N 1 arc) as (H1 & _ & _ & H4 & _); [lia|].
  unfold dp_root.
  replace (1 <=? len) with true by (symmetry; apply Nat.leb_le; lia).
  replace (len <? N) with true by (symmetry; apply Nat.ltb_lt; lia). cbn [andb].
  rewrite dot_csr. unfold singles. rewrite Sum_flat_map. apply Sum_seq_ext. intros m Hm.
  unfold dp_root_inc. cbn [smul csr_ops].
  rewrite H1 by lia. replace (N - len + m) with (N - 1 - (len - 1 - m)) by lia.
  rewrite H4 by lia. replace (len - (len - 1 - m)) with (m + 1) by lia.
  replace (1 + m) with (m + 1) by lia.
  rewrite <- (@WL_any S arc (Datatypes.S len) 1 (m + 1)) by lia.
  rewrite <- (@WR_any S arc (Datatypes.S len) (m + 1) len) by lia.
  rewrite Sum_flat_map, <- !Sum_scale_r. apply Sum_ext_in. intros l2 H2.
  rewrite Sum_map, <- Sum_scale_l. apply Sum_ext. intro l3.
  apply spans_enum in H2 as [L2 _]; [|lia|lia].
  pose proof (@hw_join_r S arc 0 0 (m + 1) [] l2 l3) as E. unfold hw at 1 in E. symmetry.
  etransitivity; [apply E; simpl; lia|]. rewrite hw_nil. rewrite kmul_1_l. reflexivity.
Qed.

(** ** Specification: the potentials used by a head vector. With 0-based
    positions, word c headed by word h uses (b, h, c); a word headed by the root
    uses the diagonal entry (b, c, c). *)
Definition dep_part (b c h : nat) (lab : list nat) : list nat :=
  match h with 0 => b :: c :: c :: lab | S h' => b :: h' :: c :: lab end.
(** spec: the potentials used by the words from c on *)
Fixpoint dep_parts_from (b c : nat) (h : list nat) : list (list nat) :=
  match h with [] => [] | x :: h' => dep_part b c x [] :: dep_parts_from b (S c) h' end.
(** spec: the potentials used by a tree *)
Definition dep_parts (b : nat) (h : list nat) : list (list nat) := dep_parts_from b 0 h.
(** labeled trees: one (head, label) pair per word *)
Definition is_lproj (n L : nat) (hl : list (nat * nat)) : Prop :=
  is_proj n (map fst hl) /\ Forall (fun p => snd p < L) hl.
(** spec: exactly one word has head 0 *)
Definition lsingle_root (hl : list (nat * nat)) : Prop := single_root (map fst hl).
(** spec: the potentials used by the words from c on, with labels *)
Fixpoint ldep_parts_from (b c : nat) (h : list (nat * nat)) : list (list nat) :=
  match h with [] => [] | x :: h' => dep_part b c (fst x) [snd x] :: ldep_parts_from b (S c) h' end.
(** spec: the potentials used by a labelled tree *)
Definition ldep_parts (b : nat) (h : list (nat * nat)) : list (list nat) := ldep_parts_from b 0 h.

Section Parts.
  Variable S : csr.
  Add Ring Sring_dep2 : (csr_srt S).
  Variables (pot : list nat -> S) (junk : S) (b len : nat).

  Lemma dep_part_idx c h lab : dep_part b c h lab = dp_idx b h (c + 1) lab.
  Proof. unfold dep_part, dp_idx. destruct h; simpl; repeat f_equal; lia. Qed.

  (** a head list whose arcs lie within the sentence *)
  Definition inside (s : nat) (h : list nat) : Prop :=
    s + length h <= len + 1 /\ forall k, s <= k < s + length h -> hfun s h k <= len /\ hfun s h k <> k.

  Lemma inside_cons s x h : inside s (x :: h) -> s <= len /\ x <= len /\ x <> s /\ inside (s + 1) h.
  Proof.
    intros [H1 H2]. simpl in H1. destruct (H2 s) as [G1 G2]; [simpl; lia|].
    rewrite hfun_cons in G1, G2. repeat split; auto; try lia;
    destruct (H2 k) as [G3 G4]; simpl; try lia;
    (replace (hfun s (x :: h) k) with (hfun (s + 1) h k) in *; [lia|]);
    unfold hfun; replace (k - s) with (Datatypes.S (k - (s + 1))) by lia; reflexivity.
  Qed.

  Lemma is_proj_inside h : is_proj len h -> inside 1 h.
  Proof.
    intro H. apply is_right_proj in H. destruct H as [L (H0 & H1 & H2)].
    split; [lia|]. intros k Hk. destruct (H1 k) as [G1 G2]; [lia|lia|]. split; [exact (proj2 G1)|].
    intro E. change (0 + 1) with 1 in *.
    assert (G : forall x y, rch (hfun 1 h) 0 x y -> x = k -> y = 0 -> False).
    { induction 1 as [x|x y Hx Hr IH]; intros E1 E2; [lia|]. apply IH; auto. congruence. }
    apply (G _ _ G2); auto.
  Qed.

  Lemma cell_in h c lab : c <> 0 -> h <> c -> h <= len -> c <= len ->
    dp_cell (csr_ops S) junk pot b len h c lab = pot (dp_idx b h c lab).
  Proof.
    intros H1 H2 H3 H4. unfold dp_cell.
    replace (len <? h) with false by (symmetry; apply Nat.ltb_ge; lia).
    replace (len <? c) with false by (symmetry; apply Nat.ltb_ge; lia).
    replace (c =? 0) with false by (symmetry; apply Nat.eqb_neq; lia).
    replace (h =? c) with false by (symmetry; apply Nat.eqb_neq; lia). reflexivity.
  Qed.

  Lemma dep_parts_weight s h : inside (s + 1) h ->
    Prod S (fun a => dp_arc (csr_ops S) junk None pot b len (fst a) (snd a)) (harcs (s + 1) h)
    = Prod S pot (dep_parts_from b s h).
  Proof.
    revert s. induction h as [|x h IH]; intros s Hin; [reflexivity|].
    apply inside_cons in Hin as (G1 & G2 & G3 & G4). cbn [harcs dep_parts_from].
    rewrite !Prod_cons. cbn [fst snd dp_arc]. rewrite dep_part_idx, cell_in by lia. f_equal.
    replace (Datatypes.S (s + 1)) with (Datatypes.S s + 1) by lia. apply IH.
    replace (Datatypes.S s + 1) with (s + 1 + 1) by lia. auto.
  Qed.

  (** label assignments of a head list *)
  Fixpoint labelings (L : nat) (h : list nat) : list (list (nat * nat)) :=
    match h with
    | [] => [[]]
    | x :: h' => flat_map (fun l => map (cons (x, l)) (labelings L h')) (seq 0 L)
    end.
  Lemma labelings_in L h hl : In hl (labelings L h) <-> map fst hl = h /\ Forall (fun p => snd p < L) hl.
  Proof.
    revert hl. induction h as [|x h IH]; intro hl; simpl.
    - split; [intros [<-|[]]; auto|]. intros [E _]. destruct hl; [auto|discriminate].
    - rewrite in_flat_map. split.
      + intros (l & Hl & G). apply in_seq in Hl. apply in_map_iff in G as (t & <- & G).
        apply IH in G as [<- G]. split; [reflexivity|constructor; simpl; auto; lia].
      + intros [E F]. destruct hl as [|[x' l] hl]; [discriminate|]. injection E as -> E.
        inversion_clear F. simpl in *. exists l. split; [apply in_seq; lia|]. apply in_map, IH. auto.
  Qed.
  Lemma labelings_nodup L h : NoDup (labelings L h).
  Proof.
    induction h as [|x h IH]; simpl; [repeat constructor; intros []|].
    apply NoDup_flat_map; [apply seq_NoDup| |].
    - intros l _. apply NoDup_map_inj; [congruence|auto].
    - intros l l' hl _ _ H1 H2. apply in_map_iff in H1 as (? & <- & _).
      apply in_map_iff in H2 as (? & [= -> _] & _). reflexivity.
  Qed.
  Lemma labelings_enum (P : list nat -> Prop) L hs : Enumerates P hs ->
    Enumerates (fun hl => P (map fst hl) /\ Forall (fun p => snd p < L) hl) (flat_map (labelings L) hs).
  Proof.
    intros [N1 E1]. split.
    - apply NoDup_flat_map; auto; [intros; apply labelings_nodup|].
      intros h h' hl _ _ H1 H2. apply labelings_in in H1 as [<- _]. apply labelings_in in H2 as [<- _]. auto.
    - intro hl. rewrite in_flat_map. split.
      + intros (h & Hh & G). apply labelings_in in G as [<- G]. apply E1 in Hh. auto.
      + intros [G F]. exists (map fst hl). split; [apply E1; auto|apply labelings_in; auto].
  Qed.

  Lemma ldep_parts_weight L s h : inside (s + 1) h ->
    Prod S (fun a => dp_arc (csr_ops S) junk (Some L) pot b len (fst a) (snd a)) (harcs (s + 1) h)
    = Sum S (fun hl => Prod S pot (ldep_parts_from b s hl)) (labelings L h).
  Proof.
    revert s. induction h as [|x h IH]; intros s Hin; [simpl; rewrite Sum_one; reflexivity|].
    apply inside_cons in Hin as (G1 & G2 & G3 & G4). cbn [harcs labelings].
    rewrite Prod_cons. cbn [fst snd dp_arc].
    replace (Datatypes.S (s + 1)) with (Datatypes.S s + 1) by lia.
    rewrite IH by (replace (Datatypes.S s + 1) with (s + 1 + 1) by lia; auto).
    rewrite Sum_flat_map.
    change (ssum (csr_ops S) (map (fun l => dp_cell (csr_ops S) junk pot b len x (s + 1) [l]) (seq 0 L)))
      with (Sum S (fun l => dp_cell (csr_ops S) junk pot b len x (s + 1) [l]) (seq 0 L)).
    rewrite <- Sum_scale_r. apply Sum_ext. intro l. rewrite Sum_map, <- Sum_scale_l. apply Sum_ext.
    intro hl. cbn [ldep_parts_from fst snd]. rewrite Prod_cons, dep_part_idx, cell_in by lia. reflexivity.
  Qed.
End Parts.

(** the structures of a call: multi-root or single-root *)
Definition dep_ok (multiroot : bool) (n : nat) (h : list nat) : Prop :=
  is_proj n h /\ (multiroot = false -> single_root h).
(** spec: the labelled trees a row is about, with one root if the flag is off *)
Definition ldep_ok (multiroot : bool) (n L : nat) (h : list (nat * nat)) : Prop :=
  is_lproj n L h /\ (multiroot = false -> lsingle_root h).
(** spec: a listing of these trees *)
Definition dep_list (multiroot : bool) (n : nat) : list (list nat) :=
  if multiroot then rights (S n) 0 n else singles n.
Lemma dep_list_enum multiroot n : (multiroot = false -> 1 <= n) ->
  Enumerates (dep_ok multiroot n) (dep_list multiroot n).
Proof.
  intro H. unfold dep_ok, dep_list. destruct multiroot.
  - eapply Enumerates_ext; [|apply projs_enum]. intro h. split; [intro; split; [auto|discriminate]|tauto].
  - eapply Enumerates_ext; [|apply singles_enum; auto]. intro h. split; intros [? ?]; split; auto.
Qed.

Lemma dp_one_heads (S : csr) multiroot labels words junk pot b len :
  len <= words -> (multiroot = false -> 1 <= len) ->
  dp_one (csr_ops S) multiroot labels words junk pot b len =
  Sum S (fun h => Prod S (fun a => dp_arc (csr_ops S) junk labels pot b len (fst a) (snd a)) (harcs 1 h))
    (dep_list multiroot len).
Proof.
  intros HL H1. unfold dp_one, dep_list. destruct multiroot.
  - apply dp_multi_sum. lia.
  - apply dp_single_sum. specialize (H1 eq_refl). lia.
Qed.

Lemma dp_one_sum (S : csr) multiroot words junk pot b len :
  len <= words -> (multiroot = false -> 1 <= len) ->
  dp_one (csr_ops S) multiroot None words junk pot b len =
  Sum S (fun h => Prod S pot (dep_parts b h)) (dep_list multiroot len).
Proof.
  intros HL H1. rewrite dp_one_heads by auto. apply Sum_ext_in. intros h Hh.
  apply dep_list_enum in Hh as [Hh _]; [|auto].
  apply (@dep_parts_weight S pot junk b len 0). apply is_proj_inside; auto.
Qed.

Lemma dp_one_lsum (S : csr) multiroot L words junk pot b len :
  len <= words -> (multiroot = false -> 1 <= len) ->
  dp_one (csr_ops S) multiroot (Some L) words junk pot b len =
  Sum S (fun h => Prod S pot (ldep_parts b h)) (flat_map (labelings L) (dep_list multiroot len)).
Proof.
  intros HL H1. rewrite dp_one_heads by auto. rewrite Sum_flat_map. apply Sum_ext_in. intros h Hh.
  apply dep_list_enum in Hh as [Hh _]; [|auto].
  apply (@ldep_parts_weight S pot junk b len L 0). apply is_proj_inside; auto.
Qed.

(** the arguments of deptree.py:49-141 that do not raise and mean what they say *)
Definition dp_args (multiroot : bool) (batch n : nat) (lengths : option (list nat)) : Prop :=
  (multiroot = false -> 1 <= n) /\
  match lengths with
  | None => True
  | Some ls => length ls = batch /\ 0 < batch /\ Forall (fun l => l <= n) ls
  end.

Lemma dp_logpartition_run (O : ops) multiroot junk batch n lab arcs lengths :
  dp_args multiroot batch n lengths ->
  shape arcs = (match lab with None => [batch; n; n] | Some L => [batch; n; n; L] end) ->
  dp_logpartition O multiroot junk arcs lengths =
  Ok (map (fun b => dp_one O multiroot lab n junk (dat arcs) b (lc_len n lengths b)) (seq 0 batch)).
Proof.
  intros (H1 & HL) Hs. unfold dp_logpartition.
  assert (E : dp_check (shape arcs) lengths =
    Ok (batch, n, lab, match lengths with None => repeat n batch | Some ls => ls end)).
  { rewrite Hs. unfold dp_check. destruct lab; rewrite Nat.eqb_refl; cbn [negb];
    (destruct lengths as [ls|]; [|reflexivity]);
    destruct HL as (L1 & L2 & L3); destruct ls as [|x ls]; simpl in L1; try lia; cbn [list_max_opt];
    (replace (list_max (x :: ls) <=? n + 1) with true; [reflexivity|]); symmetry; apply Nat.leb_le;
    apply list_max_le; eapply Forall_impl; [|exact L3| |exact L3]; cbn; intros; lia. }
  rewrite E.
  assert (E1 : length (match lengths with None => repeat n batch | Some ls => ls end) = batch).
  { destruct lengths; [tauto|apply repeat_length]. }
  assert (E2 : forallb (fun l => l <=? n) (match lengths with None => repeat n batch | Some ls => ls end) = true).
  { apply forallb_forall. intros x Hx. apply Nat.leb_le. destruct lengths as [ls|].
    - destruct HL as (_ & _ & HL). rewrite Forall_forall in HL. auto.
    - apply repeat_spec in Hx. lia. }
  rewrite E1, E2, Nat.eqb_refl. cbn [negb].
  replace (negb multiroot && (n =? 0)) with false.
  2:{ destruct multiroot; auto. symmetry. apply Nat.eqb_neq. specialize (H1 eq_refl). lia. }
  f_equal. apply map_ext_in. intros b Hb. apply in_seq in Hb. now rewrite lens_nth by lia.
Qed.

Lemma dp_len_le multiroot batch n lengths b :
  dp_args multiroot batch n lengths -> b < batch -> lc_len n lengths b <= n.
Proof.
  intros (_ & HL) Hb. destruct lengths as [ls|]; simpl; auto.
  destruct HL as (L1 & _ & L3). rewrite Forall_forall in L3. apply L3, nth_In. lia.
Qed.

(** C08 (multiroot = true) and C09 (multiroot = false) *)
Theorem dp_logpartition_correct (S : csr) multiroot junk batch n arcs lengths :
  dp_args multiroot batch n lengths -> shape arcs = [batch; n; n] ->
  exists v, dp_logpartition (csr_ops S) multiroot junk arcs lengths = Ok v /\
  length v = batch /\
  forall b l, b < batch -> (multiroot = false -> 1 <= lc_len n lengths b) ->
    Enumerates (dep_ok multiroot (lc_len n lengths b)) l ->
    nth b v k0 = Sum S (fun h => Prod S (dat arcs) (dep_parts b h)) l.
Proof.
  intros Ha Hs. rewrite (@dp_logpartition_run _ _ _ batch n None arcs lengths Ha Hs).
  eexists; split; [reflexivity|]. rewrite map_length, seq_length. split; auto.
  intros b l Hb Hpos He. rewrite nth_map_seq by auto.
  rewrite dp_one_sum; [|eapply dp_len_le; eauto|auto].
  eapply Sum_enum; [apply dep_list_enum; auto|exact He].
Qed.

(** C10 *)
Theorem dp_logpartition_labeled_correct (S : csr) multiroot junk batch n L arcs lengths :
  dp_args multiroot batch n lengths -> shape arcs = [batch; n; n; L] ->
  exists v, dp_logpartition (csr_ops S) multiroot junk arcs lengths = Ok v /\
  length v = batch /\
  forall b l, b < batch -> (multiroot = false -> 1 <= lc_len n lengths b) ->
    Enumerates (ldep_ok multiroot (lc_len n lengths b) L) l ->
    nth b v k0 = Sum S (fun h => Prod S (dat arcs) (ldep_parts b h)) l.
Proof.
  intros Ha Hs. rewrite (@dp_logpartition_run _ _ _ batch n (Some L) arcs lengths Ha Hs).
  eexists; split; [reflexivity|]. rewrite map_length, seq_length. split; auto.
  intros b l Hb Hpos He. rewrite nth_map_seq by auto.
  rewrite dp_one_lsum; [|eapply dp_len_le; eauto|auto].
  eapply Sum_enum; [|exact He]. eapply Enumerates_ext; [|apply labelings_enum, dep_list_enum; auto].
  intro hl. unfold dep_ok, ldep_ok, is_lproj, lsingle_root. tauto.
Qed.

(** the constant -1e9 left by [convert] never influences the result, whatever
    the semiring operations are *)
Theorem dp_junk_irrelevant (O : ops) multiroot labels words j1 j2 pot b len :
  labels <> Some 0 ->
  dp_one O multiroot labels words j1 pot b len = dp_one O multiroot labels words j2 pot b len.
Proof.
  intro HL. apply (@resp_dp_one O O eq); auto.
  split; auto; [intros; congruence|]. intros l l' _ H. f_equal. induction H; congruence.
Qed.

Corollary dp_multiroot_correct (S : csr) junk batch n arcs lengths :
  dp_args true batch n lengths -> shape arcs = [batch; n; n] ->
  exists v, dp_logpartition (csr_ops S) true junk arcs lengths = Ok v /\
  length v = batch /\
  forall b l, b < batch -> Enumerates (is_proj (lc_len n lengths b)) l ->
    nth b v k0 = Sum S (fun h => Prod S (dat arcs) (dep_parts b h)) l.
Proof.
  intros Ha Hs. destruct (dp_logpartition_correct S junk _ Ha Hs) as (v & E & L & H).
  exists v. split; auto. split; auto. intros b l Hb He. apply H; auto; [discriminate|].
  eapply Enumerates_ext; [|exact He]. intro h. unfold dep_ok. split; [|tauto].
  intro. split; [auto|discriminate].
Qed.
Corollary dp_singleroot_correct (S : csr) junk batch n arcs lengths :
  dp_args false batch n lengths -> shape arcs = [batch; n; n] ->
  exists v, dp_logpartition (csr_ops S) false junk arcs lengths = Ok v /\
  length v = batch /\
  forall b l, b < batch -> 1 <= lc_len n lengths b ->
    Enumerates (fun h => is_proj (lc_len n lengths b) h /\ single_root h) l ->
    nth b v k0 = Sum S (fun h => Prod S (dat arcs) (dep_parts b h)) l.
Proof.
  intros Ha Hs. destruct (dp_logpartition_correct S junk _ Ha Hs) as (v & E & L & H).
  exists v. split; auto. split; auto. intros b l Hb Hp He. apply H; auto.
  eapply Enumerates_ext; [|exact He]. intro h. unfold dep_ok. split; [|intros []; auto].
  intros [? ?]; auto.
Qed.
