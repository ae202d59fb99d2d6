(** * LinearChain: model of torch_struct/linearchain.py *)
From Verif Require Import Base Ops Chain.
Set Implicit Arguments.

(** helpers.py / linearchain.py: Python's builtin [max] of a 1-D tensor. *)
Definition list_max_opt (l : list nat) : option nat :=
  match l with [] => None | _ => Some (list_max l) end.

(** linearchain.py:30-42 [_check_potentials]; the shape unpacking raises
    ValueError when the tensor is not 4-dimensional, [max] of no element raises
    ValueError. Returns (batch, N, C, lengths). *)
Definition lc_check (sh : list nat) (lengths : option (list nat))
  : res (nat * nat * nat * list nat) :=
  match sh with
  | [batch; N_1; C; C2] =>
      let N := N_1 + 1 in
      match lengths with
      | None => if C =? C2 then Ok (batch, N, C, repeat N batch) else Err AssertionError
      | Some ls =>
          match list_max_opt ls with
          | None => Err ValueError
          | Some m =>
              if m <=? N then
                if m =? N then
                  if C =? C2 then Ok (batch, N, C, ls) else Err AssertionError
                else Err AssertionError
              else Err AssertionError
          end
      end
  | _ => Err ValueError
  end.

Section Model.
  Variable O : ops.
  Notation A := (car O).

  (** linearchain.py:53-58: the chart is all [zero]; the diagonal of the last
      two axes is filled with [one]. *)
  Definition lc_init (i j : nat) : A := fill O (szero O) (i =? j) (sone O).

  (** linearchain.py:61-79, one cell (b, n, i, j). [mask] is line 74
      ([n >= lengths - 1]; with natural subtraction, length 0 behaves as length 1,
      as [-1] and [0] give the same comparison on n >= 0).
      Line 76 overwrites the data of the copied potentials where masked
      ([sover]), line 77 the identity where not masked, line 79 sums both.
      Simplification: [big] (line 61) is read at n < N-1 only, i.e. the raw 0.0
      padding of lines 61-69 is always masked (lemma [lc_padding_masked]). *)
  Definition lc_mask (len n : nat) : bool := len - 1 <=? n.
  (** linearchain.py:70-79, cell (b, n, i, j) of the chart given to the scan *)
  Definition lc_cell (pot : list nat -> A) (b len n i j : nat) : A :=
    let mask := lc_mask len n in
    let lp := if mask then sover O [b; n; i; j] else pot [b; n; i; j] in
    let c := fill O (lc_init i j) (negb mask) (szero O) in
    ssum O [c; lp].

  (** linearchain.py:44-85 for one batch element, after the checks: build the
      chart over [bin_N] steps, scan, and sum both state axes of the result. *)
  Definition lc_chart (pot : list nat -> A) (b len bin_N : nat) : list (nat -> nat -> A) :=
    map (fun n i j => lc_cell pot b len n i j) (seq 0 bin_N).

  (** linearchain.py:84: [semiring.sum] over the last axis, then over the other *)
  Definition sum2 (C : nat) (M : nat -> nat -> A) : A :=
    ssum O (map (fun i => ssum O (map (fun j => M i j) (seq 0 C))) (seq 0 C)).

  (** linearchain.py:81-84: the scan, then both state axes of the remaining cell are summed *)
  Definition lc_one (C log_N bin_N : nat) (pot : list nat -> A) (b len : nat) : A :=
    match scan O C log_N (lc_chart pot b len bin_N) with
    | M :: _ => sum2 C M
    | [] => szero O (* unreachable: the scan of 2^log_N cells has one cell *)
    end.

  (** linearchain.py:44-85 [logpartition] (value [v] only). The tensor carries
      already converted potentials (semirings.py:65-68 [convert]).
      A [lengths] vector whose size is not [batch] fails in [view(batch, 1)]. *)
  Definition lc_logpartition (edge : tensor A) (lengths : option (list nat)) : res (list A) :=
    match lc_check (shape edge) lengths with
    | Err e => Err e
    | Ok (batch, N, C, ls) =>
        match bin_length (N - 1) with
        | Err e => Err e
        | Ok (log_N, bin_N) =>
            if length ls =? batch then
              Ok (map (fun b => lc_one C log_N bin_N (dat edge) b (nth b ls 0)) (seq 0 batch))
            else Err RuntimeError
        end
    end.
End Model.

(** Every cell beyond the potentials is masked (lengths are at most N). *)
Lemma lc_padding_masked len N n : len <= N -> N - 1 <= n -> lc_mask len n = true.
Proof. intros. unfold lc_mask. apply Nat.leb_le. lia. Qed.

(** ** Relational transport *)
Section Resp.
  Variables (O1 O2 : ops) (R : car O1 -> car O2 -> Prop).
  Hypothesis HR : resp O1 O2 R.
  Variables (p1 : list nat -> car O1) (p2 : list nat -> car O2).
  Hypothesis Hp : forall i, R (p1 i) (p2 i).

  Lemma resp_lc_cell b len n i j : R (lc_cell O1 p1 b len n i j) (lc_cell O2 p2 b len n i j).
  Proof.
    unfold lc_cell, lc_init. apply (resp_sum HR); [discriminate|].
    repeat constructor.
    - repeat apply resp_fill; apply HR.
    - destruct (lc_mask len n); auto. apply (resp_over HR).
  Qed.

  Lemma resp_sum2 C M M' : 0 < C -> (forall i j, R (M i j) (M' i j)) -> R (sum2 O1 C M) (sum2 O2 C M').
  Proof.
    intros HC H. apply (resp_sum_seq HR); auto. intro i.
    apply (resp_sum_seq HR); auto.
  Qed.

  Lemma resp_lc_one C k n b len : 0 < C -> R (lc_one O1 C k n p1 b len) (lc_one O2 C k n p2 b len).
  Proof.
    intros HC. unfold lc_one.
    assert (H : Forall2 (Rmat O1 O2 R) (scan O1 C k (lc_chart O1 p1 b len n)) (scan O2 C k (lc_chart O2 p2 b len n))).
    { apply (resp_scan HR); auto. unfold lc_chart.
      generalize 0. induction n; simpl; constructor; auto.
      intros i j. apply resp_lc_cell. }
    inversion H; [apply HR|]. apply resp_sum2; auto.
  Qed.
End Resp.

(** ** Specification: label sequences *)
Section Spec.
  (** a tag sequence of length [len] over [C] labels *)
  Definition is_seq (C len : nat) (y : list nat) : Prop :=
    length y = len /\ Forall (fun c => c < C) y.

  (** the potentials a tag sequence of batch element [b] uses: for every step n
      the one of index (b, n, y_{n+1}, y_n) *)
  Definition seq_parts (b : nat) (y : list nat) : list (list nat) :=
    map (fun n => [b; n; nth (n + 1) y 0; nth n y 0]) (seq 0 (length y - 1)).

  (** canonical enumeration, used only to prove and to exhibit instances *)
  Fixpoint seqs (C len : nat) : list (list nat) :=
    match len with
    | 0 => [[]]
    | Datatypes.S len' => flat_map (fun c => map (cons c) (seqs C len')) (seq 0 C)
    end.

  Lemma seqs_enum C len : Enumerates (is_seq C len) (seqs C len).
  Proof.
    induction len as [|len [Hn He]]; simpl.
    - split; [repeat constructor; auto|]. intros y; unfold is_seq. simpl. split.
      + intros [<-|[]]; auto.
      + intros [H _]. left. destruct y; auto; discriminate.
    - split.
      + apply NoDup_flat_map; [apply seq_NoDup| |].
        * intros c _. apply NoDup_map_inj; auto. congruence.
        * intros c c' y _ _ H1 H2. apply in_map_iff in H1 as (? & <- & _).
          apply in_map_iff in H2 as (? & [= -> _] & _). reflexivity.
      + intro y. rewrite in_flat_map. unfold is_seq. split.
        * intros (c & Hc & H). apply in_map_iff in H as (y' & <- & Hy).
          apply He in Hy as [H1 H2]. apply in_seq in Hc. simpl. split; [lia|].
          constructor; auto; lia.
        * intros [H1 H2]. destruct y as [|c y]; [discriminate|].
          inversion_clear H2. exists c. split; [apply in_seq; lia|].
          apply in_map. apply He. split; auto.
  Qed.
End Spec.

(** ** Correctness in every commutative semiring *)
Section Correct.
  Variable S : csr.
  Add Ring Sring3 : (csr_srt S).
  Notation mat := (nat -> nat -> S).

  (** product of the potentials along a tag sequence *)
  Definition seq_weight (pot : list nat -> S) (b : nat) (y : list nat) : S :=
    Prod S pot (seq_parts b y).

  (** weight of a path through a list of matrices *)
  Fixpoint wt (l : list mat) (y : list nat) : S :=
    match l, y with
    | M :: l', j :: ((k :: _) as y') => kmul (M k j) (wt l' y')
    | _, _ => k1
    end.

  (** proof device: sum of a column of a matrix product *)
  Definition tot (C : nat) (l : list mat) (j : nat) : S :=
    Sum S (fun i => mprod S C l i j) (seq 0 C).

  Lemma tot_nil C j : j < C -> tot C [] j = k1.
  Proof.
    intro H. unfold tot. simpl. unfold ident.
    apply (Sum_seq_delta S (fun _ => k1)); auto.
  Qed.
  Lemma tot_cons C M l j : tot C (M :: l) j = Sum S (fun k => kmul (tot C l k) (M k j)) (seq 0 C).
  Proof.
    unfold tot. simpl.
    transitivity (Sum S (fun i => Sum S (fun k => kmul (mprod S C l i k) (M k j)) (seq 0 C)) (seq 0 C)).
    - apply Sum_ext. intro i. reflexivity.
    - rewrite Sum_comm. apply Sum_ext. intro k. now rewrite Sum_scale_r.
  Qed.

  Lemma tot_paths C l j : j < C ->
    tot C l j = Sum S (fun y => wt l (j :: y)) (seqs C (length l)).
  Proof.
    revert j. induction l as [|M l IH]; intros j Hj.
    - rewrite tot_nil by auto. cbn. ring.
    - rewrite tot_cons. cbn [length seqs]. rewrite Sum_flat_map.
      apply Sum_seq_ext. intros k Hk. rewrite Sum_map, IH by lia.
      rewrite <- Sum_scale_r. apply Sum_ext. intro y. cbn [wt]. ring.
  Qed.

  Lemma sum2_tot C M l : meq S C M (mprod S C l) ->
    sum2 (csr_ops S) C M = Sum S (tot C l) (seq 0 C).
  Proof.
    intro H. unfold sum2. cbn [ssum csr_ops].
    transitivity (Sum S (fun i => Sum S (fun j => mprod S C l i j) (seq 0 C)) (seq 0 C)).
    - apply Sum_seq_ext. intros i Hi. apply Sum_seq_ext. intros j Hj. apply H; lia.
    - apply Sum_comm.
  Qed.

  Lemma lc_cell_on pot b len n i j : lc_mask len n = false ->
    lc_cell (csr_ops S) pot b len n i j = pot [b; n; i; j].
  Proof. intro H. unfold lc_cell. rewrite H. simpl. ring. Qed.
  Lemma lc_cell_off pot b len n i j : lc_mask len n = true ->
    lc_cell (csr_ops S) pot b len n i j = ident S i j.
  Proof. intro H. unfold lc_cell, lc_init, ident. rewrite H. simpl. unfold fill. destruct (i =? j); ring. Qed.

  Lemma wt_chart pot b y : forall j n0,
    wt (map (fun n i j => pot [b; n; i; j]) (seq n0 (length y))) (j :: y) =
    Prod S (fun n => pot [b; n0 + n; nth (n + 1) (j :: y) 0; nth n (j :: y) 0]) (seq 0 (length y)).
  Proof.
    induction y as [|k y IH]; intros j n0; [reflexivity|].
    cbn [length seq map wt]. rewrite Prod_cons. f_equal.
    - repeat (f_equal; try lia).
    - rewrite IH. rewrite <- seq_shift, Prod_map. apply Prod_ext. intro n.
      f_equal. f_equal. f_equal. lia.
  Qed.

  (** the value for one batch element, for any number of scan rounds covering
      the potentials *)
  Lemma lc_one_sum C k pot b len :
    0 < C -> len - 1 <= 2 ^ k ->
    lc_one (csr_ops S) C k (2 ^ k) pot b len =
    Sum S (seq_weight pot b) (seqs C (Nat.max 1 len)).
  Proof.
    intros HC Hk. unfold lc_one.
    destruct (scan_mprod S C k (lc_chart (csr_ops S) pot b len (2 ^ k))) as (M & HM & E).
    { unfold lc_chart. now rewrite map_length, seq_length. }
    rewrite HM.
    set (on := map (fun n i j => pot [b; n; i; j]) (seq 0 (len - 1))).
    assert (E2 : meq S C M (mprod S C on)).
    { eapply meq_trans; [exact E|]. unfold lc_chart.
      replace (2 ^ k) with ((len - 1) + (2 ^ k - (len - 1))) by lia.
      rewrite seq_app, map_app. eapply meq_trans; [apply mprod_app|].
      eapply meq_trans; [apply mm_meq|apply mm_ident_l].
      - apply mprod_ident. apply Forall_forall. intros X HX.
        apply in_map_iff in HX as (n & <- & Hn). apply in_seq in Hn.
        intros i j _ _. apply lc_cell_off. apply Nat.leb_le. lia.
      - apply mprod_meq. unfold on.
        assert (G : forall a l, a + l <= len - 1 ->
          Forall2 (meq S C) (map (fun n i j => lc_cell (csr_ops S) pot b len n i j) (seq a l))
                            (map (fun n i j => pot [b; n; i; j]) (seq a l))).
        { intros a l. revert a. induction l; intros a Ha; simpl; constructor.
          - intros i j _ _. apply lc_cell_on. apply Nat.leb_gt. lia.
          - apply IHl. lia. }
        apply G. lia. }
    rewrite (sum2_tot _ E2).
    replace (Nat.max 1 len) with (Datatypes.S (len - 1)) by lia.
    cbn [seqs]. rewrite Sum_flat_map. apply Sum_seq_ext. intros j Hj.
    rewrite tot_paths by lia. rewrite Sum_map. unfold on.
    rewrite map_length, seq_length. apply Sum_ext_in. intros y Hy.
    apply (proj2 (seqs_enum C (len - 1))) in Hy as [Hl _].
    rewrite <- Hl, wt_chart. unfold seq_weight, seq_parts. rewrite Prod_map. cbn [length].
    replace (Datatypes.S (length y) - 1) with (length y) by lia. reflexivity.
  Qed.
End Correct.

(** any number of scan rounds that covers the potentials gives the same answer *)
Lemma lc_scan_any_log (S : csr) C k k' pot b len :
  0 < C -> len - 1 <= 2 ^ k -> len - 1 <= 2 ^ k' ->
  lc_one (csr_ops S) C k (2 ^ k) pot b len = lc_one (csr_ops S) C k' (2 ^ k') pot b len.
Proof. intros. now rewrite !lc_one_sum. Qed.

(** argument conditions under which the call returns *)
Definition lc_args (batch N C : nat) (lengths : option (list nat)) : Prop :=
  2 <= N /\ 0 < C /\
  match lengths with None => True | Some ls => length ls = batch /\ 0 < batch /\ list_max ls = N end.
(** linearchain.py:35-36: the length of row b ([lengths] defaults to N) *)
Definition lc_len (N : nat) (lengths : option (list nat)) (b : nat) : nat :=
  match lengths with None => N | Some ls => nth b ls 0 end.

Lemma list_max_nth l b : nth b l 0 <= list_max l.
Proof.
  revert b. induction l as [|a l IH]; intros [|b]; simpl; try lia.
  specialize (IH b). lia.
Qed.

Lemma lc_logpartition_run (O : ops) batch N C edge lengths :
  lc_args batch N C lengths -> shape edge = [batch; N - 1; C; C] ->
  lc_logpartition O edge lengths =
  Ok (map (fun b => lc_one O C (Nat.log2_up (N - 1)) (2 ^ Nat.log2_up (N - 1)) (dat edge) b
                      (lc_len N lengths b)) (seq 0 batch)).
Proof.
  intros (HN & HC & HL) Hs. unfold lc_logpartition. rewrite Hs. unfold lc_check.
  replace (N - 1 + 1) with N by lia. rewrite Nat.eqb_refl.
  assert (Hb : bin_length (N - 1) = Ok (Nat.log2_up (N - 1), 2 ^ Nat.log2_up (N - 1))).
  { unfold bin_length. destruct (N - 1 =? 0) eqn:E; auto. apply Nat.eqb_eq in E. lia. }
  destruct lengths as [ls|].
  - destruct HL as (Hl & Hb0 & Hm). destruct ls as [|a ls']; [simpl in Hl; lia|].
    unfold list_max_opt. rewrite Hm, Nat.leb_refl, Nat.eqb_refl, Hb, Hl, Nat.eqb_refl. reflexivity.
  - rewrite Hb, repeat_length, Nat.eqb_refl. f_equal. apply map_ext_in.
    intros b Hbb. apply in_seq in Hbb. f_equal. simpl.
    rewrite nth_indep with (d' := N) by (rewrite repeat_length; lia). apply nth_repeat.
Qed.

Lemma log2_up_cover n : 0 < n -> n <= 2 ^ Nat.log2_up n.
Proof.
  intro H. destruct (Nat.eq_dec n 1) as [->|]; [simpl; lia|].
  apply (Nat.log2_up_spec n). lia.
Qed.

Theorem lc_logpartition_correct (S : csr) batch N C edge lengths :
  lc_args batch N C lengths -> shape edge = [batch; N - 1; C; C] ->
  exists v, lc_logpartition (csr_ops S) edge lengths = Ok v /\
  length v = batch /\
  forall b l, b < batch ->
    Enumerates (is_seq C (Nat.max 1 (lc_len N lengths b))) l ->
    nth b v k0 = Sum S (seq_weight S (dat edge) b) l.
Proof.
  intros Ha Hs. rewrite (lc_logpartition_run _ _ Ha Hs). eexists; split; [reflexivity|].
  rewrite map_length, seq_length. split; auto. intros b l Hb He.
  rewrite nth_indep with (d' := lc_one (csr_ops S) C (Nat.log2_up (N - 1))
     (2 ^ Nat.log2_up (N - 1)) (dat edge) 0 (lc_len N lengths 0))
    by (rewrite map_length, seq_length; auto).
  rewrite (map_nth (fun b => lc_one (csr_ops S) C (Nat.log2_up (N - 1))
     (2 ^ Nat.log2_up (N - 1)) (dat edge) b (lc_len N lengths b))), seq_nth by auto.
  destruct Ha as (HN & HC & HL). rewrite lc_one_sum; auto.
  - eapply Sum_enum; [apply seqs_enum|exact He].
  - etransitivity; [|apply log2_up_cover; lia].
    destruct lengths as [ls|]; simpl; [|lia]. destruct HL as (_ & _ & <-).
    pose proof (list_max_nth ls b). lia.
Qed.
