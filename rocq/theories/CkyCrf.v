(** * CkyCrf: model of torch_struct/cky_crf.py (TreeCRF) *)
From Verif Require Import Base Ops LinearChain SemiMarkov.
Set Implicit Arguments.

(** cky_crf.py:8-14 [_check_potentials]. Returns (batch, N, NT, lengths).
    Simplification: a non-square span axis (N x N2, N2 <> N), which fails later
    in the diagonal assignments, is rejected here. *)
Definition ck_check (sh : list nat) (lengths : option (list nat)) : res (nat * nat * nat * list nat) :=
  match sh with
  | [batch; N; N2; NT] =>
      if N =? N2 then
        Ok (batch, N, NT, match lengths with None => repeat N batch | Some ls => ls end)
      else Err RuntimeError
  | _ => Err ValueError
  end.

Section Model.
  Variable O : ops.
  Notation A := (car O).

  (** cky_crf.py:24 [reduced_scores = semiring.sum(scores)]: sum over labels. *)
  Definition ck_red (NT : nat) (pot : list nat -> A) (b i j : nat) : A :=
    ssum O (map (fun a => pot [b; i; j; a]) (seq 0 NT)).

  (** cky_crf.py:20, 25-28: the two charts. A is indexed by (left end, width),
      B by (right end, N-1-width). *)
  Definition chart2 : Type := ((nat -> nat -> A) * (nat -> nat -> A))%type.
  (** cky_crf.py:20, 26-28: charts of [zero]; cells of width 0 hold the diagonal of the scores *)
  Definition ck_init (NT N : nat) (pot : list nat -> A) (b : nat) : chart2 :=
    (fun i k => if (i <? N) && (k =? 0) then ck_red NT pot b i i else szero O,
     fun j k => if (j <? N) && (k =? N - 1) then ck_red NT pot b j j else szero O).

  (** cky_crf.py:31-39, loop body for width w: the slices
      A[:N-w, :w] and B[w:, N-w:] are paired row by row. *)
  Definition ck_step (NT N : nat) (pot : list nat -> A) (b : nat) (st : chart2) (w : nat) : chart2 :=
    let '(cA, cB) := st in
    let new := fun i =>
      smul O (dot O w (fun m => cA i m) (fun m => cB (i + w) (N - w + m)))
             (ck_red NT pot b i (i + w)) in
    (fun i k => if (i <? N - w) && (k =? w) then new i else cA i k,
     fun j k => if (w <=? j) && (j <? N) && (k =? N - w - 1) then new (j - w) else cB j k).

  (** cky_crf.py:31: the loop over widths w = 1 .. N-1 *)
  Definition ck_run (NT N : nat) (pot : list nat -> A) (b : nat) : chart2 :=
    fold_left (ck_step NT N pot b) (seq 1 (N - 1)) (ck_init NT N pot b).

  (** Python index [len - 1] on an axis of size N: -1 is the last element. *)
  Definition pyidx (N len : nat) : nat := if len =? 0 then N - 1 else len - 1.

  (** cky_crf.py:41-42 *)
  Definition ck_one (NT N : nat) (pot : list nat -> A) (b len : nat) : A :=
    fst (ck_run NT N pot b) 0 (pyidx N len).

  (** cky_crf.py:16-43 [logpartition] (value only). N = 0 and lengths above N
      raise IndexError. Simplification: [lengths] must have [batch] entries (one
      entry would be broadcast by the indexing of line 42). *)
  Definition ck_logpartition (edge : tensor A) (lengths : option (list nat)) : res (list A) :=
    match ck_check (shape edge) lengths with
    | Err e => Err e
    | Ok (batch, N, NT, ls) =>
        if N =? 0 then Err IndexError else
        if negb (length ls =? batch) then Err IndexError else
        if negb (forallb (fun l => l <=? N) ls) then Err IndexError else
        Ok (map (fun b => ck_one NT N (dat edge) b (nth b ls 0)) (seq 0 batch))
    end.
End Model.
Arguments ck_step : clear implicits.
Arguments ck_init : clear implicits.
Arguments ck_run : clear implicits.

(** ** Relational transport *)
Section Resp.
  Variables (O1 O2 : ops) (R : car O1 -> car O2 -> Prop).
  Hypothesis HR : resp O1 O2 R.
  Variables (p1 : list nat -> car O1) (p2 : list nat -> car O2).
  Hypothesis Hp : forall i, R (p1 i) (p2 i).

  (** proof device: relation between two charts, cell by cell *)
  Definition chart2_rel (s1 : chart2 O1) (s2 : chart2 O2) : Prop :=
    (forall i k, R (fst s1 i k) (fst s2 i k)) /\ (forall i k, R (snd s1 i k) (snd s2 i k)).

  Lemma resp_ck_red NT b i j : 0 < NT -> R (ck_red O1 NT p1 b i j) (ck_red O2 NT p2 b i j).
  Proof. intro H. apply (resp_sum_seq HR); auto. Qed.

  Lemma resp_ck_step NT N b s1 s2 w : 0 < NT -> 1 <= w -> chart2_rel s1 s2 ->
    chart2_rel (ck_step O1 NT N p1 b s1 w) (ck_step O2 NT N p2 b s2 w).
  Proof.
    intros HN Hw [Ha Hb]. destruct s1 as [a1 b1], s2 as [a2 b2]. simpl in *.
    assert (Hnew : forall i,
      R (smul O1 (dot O1 w (fun m => a1 i m) (fun m => b1 (i + w) (N - w + m))) (ck_red O1 NT p1 b i (i + w)))
        (smul O2 (dot O2 w (fun m => a2 i m) (fun m => b2 (i + w) (N - w + m))) (ck_red O2 NT p2 b i (i + w)))).
    { intro i. apply (resp_mul HR); [|apply resp_ck_red; auto]. apply (resp_dot HR); auto. }
    split; simpl; intros i k.
    - destruct ((i <? N - w) && (k =? w)); auto.
    - destruct ((w <=? i) && (i <? N) && (k =? N - w - 1)); auto.
  Qed.

  Lemma resp_ck_one NT N b len : 0 < NT -> R (ck_one O1 NT N p1 b len) (ck_one O2 NT N p2 b len).
  Proof.
    intros HN. unfold ck_one, ck_run.
    assert (G : forall l s1 s2, Forall (fun w => 1 <= w) l -> chart2_rel s1 s2 ->
      chart2_rel (fold_left (ck_step O1 NT N p1 b) l s1) (fold_left (ck_step O2 NT N p2 b) l s2)).
    { induction l as [|w l IH]; intros s1 s2 Hl Hs; simpl; auto.
      inversion_clear Hl. apply IH; auto. apply resp_ck_step; auto. }
    apply G.
    - apply Forall_forall. intros w Hw. apply in_seq in Hw. lia.
    - split; simpl; intros i k.
      + destruct ((i <? N) && (k =? 0)); [apply resp_ck_red; auto|apply HR].
      + destruct ((i <? N) && (k =? N - 1)); [apply resp_ck_red; auto|apply HR].
  Qed.
End Resp.

(** ** Specification: labelled binary trees over a sentence *)
Inductive ltree := LLeaf (a : nat) | LNode (a : nat) (l r : ltree).
(** spec: number of words of a labelled tree *)
Fixpoint lsize (t : ltree) : nat :=
  match t with LLeaf _ => 1 | LNode _ l r => lsize l + lsize r end.
(** spec: all labels are below NT *)
Fixpoint lbounded (NT : nat) (t : ltree) : Prop :=
  match t with LLeaf a => a < NT | LNode a l r => a < NT /\ lbounded NT l /\ lbounded NT r end.
(** a bracketing of [n] words, one label below NT on every bracket *)
Definition is_ltree (NT n : nat) (t : ltree) : Prop := lsize t = n /\ lbounded NT t.
(** the potentials used: every bracket over words i..j labelled a uses (b,i,j,a) *)
Fixpoint lparts (b i : nat) (t : ltree) : list (list nat) :=
  match t with
  | LLeaf a => [[b; i; i; a]]
  | LNode a l r =>
      [b; i; i + (lsize l + lsize r) - 1; a] :: lparts b i l ++ lparts b (i + lsize l) r
  end.

(** spec: a listing of all labelled binary trees over n words *)
Fixpoint ltrees (NT fuel n : nat) : list ltree :=
  match fuel with
  | 0 => []
  | S f =>
      (if n =? 1 then map LLeaf (seq 0 NT) else []) ++
      flat_map (fun m => flat_map (fun a => flat_map (fun l => map (LNode a l) (ltrees NT f (n - m)))
                  (ltrees NT f m)) (seq 0 NT)) (seq 1 (n - 1))
  end.

Lemma lsize_pos t : 1 <= lsize t.
Proof. induction t; simpl; lia. Qed.

Lemma ltrees_enum NT fuel : forall n, n <= fuel -> Enumerates (is_ltree NT n) (ltrees NT fuel n).
Proof.
  induction fuel as [|f IH]; intros n Hn.
  - split; [constructor|]. intro t; split; [intros []|]. intros [H _].
    pose proof (lsize_pos t). lia.
  - cbn [ltrees]. split.
    + apply NoDup_app2.
      * destruct (n =? 1); [|constructor]. apply NoDup_map_inj; [congruence|apply seq_NoDup].
      * apply NoDup_flat_map; [apply seq_NoDup| |].
        -- intros m Hm. apply in_seq in Hm. apply NoDup_flat_map; [apply seq_NoDup| |].
           ++ intros a _. apply NoDup_flat_map; [apply IH; lia| |].
              ** intros l _. apply NoDup_map_inj; [congruence|apply IH; lia].
              ** intros l l' t _ _ H1 H2. apply in_map_iff in H1 as (? & <- & _).
                 apply in_map_iff in H2 as (? & [= -> _] & _). reflexivity.
           ++ intros a a' t _ _ H1 H2. apply in_flat_map in H1 as (? & _ & H1).
              apply in_map_iff in H1 as (? & <- & _). apply in_flat_map in H2 as (? & _ & H2).
              apply in_map_iff in H2 as (? & [= -> _ _] & _). reflexivity.
        -- intros m m' t Hm Hm' H1 H2. apply in_seq in Hm, Hm'.
           apply in_flat_map in H1 as (? & _ & H1). apply in_flat_map in H1 as (l & Hl & H1).
           apply in_map_iff in H1 as (? & <- & _).
           apply in_flat_map in H2 as (? & _ & H2). apply in_flat_map in H2 as (l' & Hl' & H2).
           apply in_map_iff in H2 as (? & [= _ -> _] & _).
           apply IH in Hl as [<- _]; [|lia]. apply IH in Hl' as [<- _]; [reflexivity|lia].
      * intros t H1 H2. destruct (n =? 1); [|destruct H1].
        apply in_map_iff in H1 as (? & <- & _).
        apply in_flat_map in H2 as (? & _ & H2). apply in_flat_map in H2 as (? & _ & H2).
        apply in_flat_map in H2 as (? & _ & H2). apply in_map_iff in H2 as (? & [=] & _).
    + intro t. rewrite in_app_iff, in_flat_map. split.
      * intros [H|(m & Hm & H)].
        -- destruct (n =? 1) eqn:E; [|destruct H]. apply Nat.eqb_eq in E.
           apply in_map_iff in H as (a & <- & Ha). apply in_seq in Ha. split; simpl; lia.
        -- apply in_seq in Hm. apply in_flat_map in H as (a & Ha & H). apply in_seq in Ha.
           apply in_flat_map in H as (l & Hl & H). apply in_map_iff in H as (r & <- & Hr).
           apply IH in Hl as [H1 H2]; [|lia]. apply IH in Hr as [H3 H4]; [|lia].
           split; simpl; [lia|]. repeat split; auto; lia.
      * intros [H1 H2]. destruct t as [a|a l r]; simpl in *.
        -- left. subst n. simpl. apply in_map. apply in_seq. lia.
        -- right. pose proof (lsize_pos l). pose proof (lsize_pos r). destruct H2 as (Ha & Hl & Hr).
           exists (lsize l). split; [apply in_seq; lia|].
           apply in_flat_map. exists a. split; [apply in_seq; lia|].
           apply in_flat_map. exists l. split; [apply IH; [lia|split; auto]|].
           apply in_map. apply IH; [lia|]. split; auto. lia.
Qed.

(** ** Correctness *)
Section Correct.
  Variable S : csr.
  Add Ring Sring7 : (csr_srt S).
  Variables (NT N b : nat) (pot : list nat -> S).

  (** total weight of the trees over words i..i+k *)
  Definition TT (i k : nat) : S :=
    Sum S (fun t => Prod S pot (lparts b i t)) (ltrees NT (Datatypes.S k) (Datatypes.S k)).

  Lemma TT_any i k fuel : k < fuel ->
    Sum S (fun t => Prod S pot (lparts b i t)) (ltrees NT fuel (Datatypes.S k)) = TT i k.
  Proof. intro H. eapply Sum_enum; apply ltrees_enum; lia. Qed.

  Notation red := (ck_red (csr_ops S) NT pot b).
  Lemma red_sum i j : red i j = Sum S (fun a => pot [b; i; j; a]) (seq 0 NT).
  Proof. reflexivity. Qed.

  Lemma TT_0 i : TT i 0 = red i i.
  Proof.
    unfold TT. cbn [ltrees Nat.eqb seq Nat.sub flat_map]. rewrite app_nil_r, Sum_map.
    rewrite red_sum. apply Sum_ext. intro a. cbn [lparts]. apply Prod_one.
  Qed.

  Lemma TT_rec i w : 0 < w ->
    TT i w = kmul (Sum S (fun m => kmul (TT i m) (TT (i + m + 1) (w - 1 - m))) (seq 0 w)) (red i (i + w)).
  Proof.
    intro Hw. unfold TT at 1. cbn [ltrees].
    replace (Datatypes.S w =? 1) with false by (symmetry; apply Nat.eqb_neq; lia).
    cbn [app]. rewrite Sum_flat_map. replace (Datatypes.S w - 1) with w by lia.
    rewrite (Sum_seq_shift S _ 1), <- Sum_scale_r. apply Sum_seq_ext. intros m Hm.
    rewrite red_sum, <- Sum_scale_l, Sum_flat_map. apply Sum_ext. intro a.
    rewrite Sum_flat_map.
    rewrite <- (@TT_any i m w) by lia.
    rewrite <- (@TT_any (i + m + 1) (w - 1 - m) w) by lia.
    replace (1 + m) with (Datatypes.S m) by lia.
    replace (Datatypes.S w - Datatypes.S m) with (Datatypes.S (w - 1 - m)) by lia.
    transitivity (kmul (kmul (Sum S (fun t => Prod S pot (lparts b i t)) (ltrees NT w (Datatypes.S m)))
       (Sum S (fun t => Prod S pot (lparts b (i + m + 1) t)) (ltrees NT w (Datatypes.S (w - 1 - m)))))
       (pot [b; i; i + w; a])); [|ring].
    rewrite <- Sum_scale_r, <- Sum_scale_r. apply Sum_ext_in. intros l Hl.
    rewrite Sum_map, <- Sum_scale_l, <- Sum_scale_r.
    apply ltrees_enum in Hl as [Hl _]; [|lia].
    apply Sum_ext_in. intros r Hr. apply ltrees_enum in Hr as [Hr _]; [|lia].
    cbn [lparts]. rewrite Prod_cons, Prod_app, Hl, Hr.
    replace (i + (Datatypes.S m + Datatypes.S (w - 1 - m)) - 1) with (i + w) by lia.
    replace (i + Datatypes.S m) with (i + m + 1) by lia. ring.
  Qed.

  (** proof device: invariant of the loop over widths *)
  Definition ck_inv (w : nat) (st : chart2 (csr_ops S)) : Prop :=
    (forall i k, k <= w -> i + k < N -> fst st i k = TT i k) /\
    (forall j k, k <= w -> k <= j -> j < N -> snd st j (N - 1 - k) = TT (j - k) k).

  Lemma ck_inv_init : ck_inv 0 (ck_init (csr_ops S) NT N pot b).
  Proof.
    split; simpl.
    - intros i k Hk Hi. replace k with 0 by lia.
      replace (i <? N) with true by (symmetry; apply Nat.ltb_lt; lia). simpl. symmetry. apply TT_0.
    - intros j k Hk Hj HjN. replace k with 0 by lia.
      replace (j <? N) with true by (symmetry; apply Nat.ltb_lt; lia). rewrite !Nat.sub_0_r, Nat.eqb_refl.
      symmetry. apply TT_0.
  Qed.

  Lemma ck_inv_step w st : 0 < w < N -> ck_inv (w - 1) st -> ck_inv w (ck_step (csr_ops S) NT N pot b st w).
  Proof.
    intros Hw [HA HB]. destruct st as [cA cB]. cbn [fst snd] in HA, HB.
    assert (Hnew : forall i, i + w < N ->
      kmul (dot (csr_ops S) w (fun m => cA i m) (fun m => cB (i + w) (N - w + m))) (red i (i + w)) = TT i w).
    { intros i Hi. rewrite TT_rec by lia. f_equal. rewrite dot_csr. apply Sum_seq_ext. intros m Hm.
      rewrite HA by lia. f_equal.
      replace (N - w + m) with (N - 1 - (w - 1 - m)) by lia. rewrite HB by lia. f_equal; lia. }
    split; unfold ck_step; cbn [fst snd].
    - intros i k Hk Hi. destruct (k =? w) eqn:E.
      + apply Nat.eqb_eq in E; subst k.
        replace (i <? N - w) with true by (symmetry; apply Nat.ltb_lt; lia). simpl. apply Hnew; lia.
      + apply Nat.eqb_neq in E. rewrite andb_false_r. apply HA; lia.
    - intros j k Hk Hj HjN. destruct (N - 1 - k =? N - w - 1) eqn:E.
      + apply Nat.eqb_eq in E. assert (k = w) by lia. subst k.
        replace (w <=? j) with true by (symmetry; apply Nat.leb_le; lia).
        replace (j <? N) with true by (symmetry; apply Nat.ltb_lt; lia). simpl.
        change (kmul (dot (csr_ops S) w (fun m => cA (j - w) m) (fun m => cB (j - w + w) (N - w + m)))
          (red (j - w) (j - w + w)) = TT (j - w) w). apply Hnew. lia.
      + apply Nat.eqb_neq in E. rewrite andb_false_r. apply HB; lia.
  Qed.

  Lemma ck_run_inv w : w < N ->
    ck_inv w (fold_left (ck_step (csr_ops S) NT N pot b) (seq 1 w) (ck_init (csr_ops S) NT N pot b)).
  Proof.
    induction w; intro Hw; [apply ck_inv_init|].
    rewrite seq_S, fold_left_app. cbn [fold_left]. apply ck_inv_step; [lia|].
    replace (1 + w - 1) with w by lia. apply IHw. lia.
  Qed.

  Lemma ck_one_sum len : 1 <= len <= N ->
    ck_one (csr_ops S) NT N pot b len =
    Sum S (fun t => Prod S pot (lparts b 0 t)) (ltrees NT len len).
  Proof.
    intro HL. unfold ck_one, pyidx.
    replace (len =? 0) with false by (symmetry; apply Nat.eqb_neq; lia).
    destruct (@ck_run_inv (N - 1)) as [HA _]; [lia|].
    unfold ck_run. rewrite HA by lia. unfold TT.
    replace (Datatypes.S (len - 1)) with len by lia. reflexivity.
  Qed.
End Correct.

(** the arguments of cky_crf.py:16-43 that do not raise (row lengths 1 .. N) *)
Definition ck_args (batch N NT : nat) (lengths : option (list nat)) : Prop :=
  1 <= N /\ 0 < NT /\
  match lengths with None => True | Some ls => length ls = batch /\ Forall (fun l => l <= N) ls end.

Lemma lens_nth batch N lengths b : b < batch ->
  nth b (match lengths with None => repeat N batch | Some ls => ls end) 0 = lc_len N lengths b.
Proof.
  intro H. destruct lengths; simpl; auto.
  rewrite nth_indep with (d' := N) by (rewrite repeat_length; lia). apply nth_repeat.
Qed.

Lemma ck_logpartition_run (O : ops) batch N NT edge lengths :
  ck_args batch N NT lengths -> shape edge = [batch; N; N; NT] ->
  ck_logpartition O edge lengths =
  Ok (map (fun b => ck_one O NT N (dat edge) b (lc_len N lengths b)) (seq 0 batch)).
Proof.
  intros (HN & HT & HL) Hs. unfold ck_logpartition, ck_check. rewrite Hs, Nat.eqb_refl.
  replace (N =? 0) with false by (symmetry; apply Nat.eqb_neq; lia).
  assert (H1 : length (match lengths with None => repeat N batch | Some ls => ls end) = batch).
  { destruct lengths; [tauto|apply repeat_length]. }
  assert (H2 : forallb (fun l => l <=? N) (match lengths with None => repeat N batch | Some ls => ls end) = true).
  { apply forallb_forall. intros x Hx. apply Nat.leb_le. destruct lengths as [ls|].
    - destruct HL as [_ HL]. rewrite Forall_forall in HL. auto.
    - apply repeat_spec in Hx. lia. }
  rewrite H1, H2, Nat.eqb_refl. simpl. f_equal. apply map_ext_in. intros b Hb. apply in_seq in Hb.
  now rewrite lens_nth by lia.
Qed.

Theorem ck_logpartition_correct (S : csr) batch N NT edge lengths :
  ck_args batch N NT lengths -> shape edge = [batch; N; N; NT] ->
  exists v, ck_logpartition (csr_ops S) edge lengths = Ok v /\
  length v = batch /\
  forall b l, b < batch -> 1 <= lc_len N lengths b ->
    Enumerates (is_ltree NT (lc_len N lengths b)) l ->
    nth b v k0 = Sum S (fun t => Prod S (dat edge) (lparts b 0 t)) l.
Proof.
  intros Ha Hs. rewrite (ck_logpartition_run _ _ Ha Hs). eexists; split; [reflexivity|].
  rewrite map_length, seq_length. split; auto. intros b l Hb Hpos He.
  rewrite nth_map_seq by auto. destruct Ha as (HN & HT & HL).
  assert (Hle : lc_len N lengths b <= N).
  { destruct lengths as [ls|]; simpl; auto. destruct HL as [H1 H2]. rewrite Forall_forall in H2.
    apply H2, nth_In. lia. }
  rewrite ck_one_sum by lia. eapply Sum_enum; [apply ltrees_enum; lia|exact He].
Qed.

(** C45: length 0 answers for the whole sentence *)
Theorem ck_length0_is_full (O : ops) NT N pot b : ck_one O NT N pot b 0 = ck_one O NT N pot b N.
Proof.
  unfold ck_one, pyidx. destruct N; reflexivity.
Qed.

Theorem ck_length0_full_call (O : ops) batch N NT edge ls b d :
  ck_args batch N NT (Some ls) -> shape edge = [batch; N; N; NT] -> b < batch -> nth b ls 0 = 0 ->
  exists v v', ck_logpartition O edge (Some ls) = Ok v /\ ck_logpartition O edge None = Ok v' /\
    nth b v d = nth b v' d.
Proof.
  intros Ha Hs Hb Hl. assert (Ha' : ck_args batch N NT None) by (split; [|split]; auto; apply Ha).
  rewrite (ck_logpartition_run _ _ Ha Hs), (ck_logpartition_run _ _ Ha' Hs).
  do 2 eexists. split; [reflexivity|]. split; [reflexivity|].
  rewrite !nth_map_seq by auto. simpl lc_len. rewrite Hl. apply ck_length0_is_full.
Qed.
