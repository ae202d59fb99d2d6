(** * SemiMarkov: model of torch_struct/semimarkov.py *)
From Verif Require Import Base Ops Chain LinearChain.
Set Implicit Arguments.

(** semimarkov.py:10-19 [_check_potentials]. With [lengths = None] the default
    vector is checked too ([max] of an empty batch raises ValueError).
    Returns (batch, N, K, C, lengths). *)
Definition sm_check (sh : list nat) (lengths : option (list nat))
  : res (nat * nat * nat * nat * list nat) :=
  match sh with
  | [batch; N_1; K; C; C2] =>
      let N := N_1 + 1 in
      let ls := match lengths with None => repeat N batch | Some ls => ls end in
      match list_max_opt ls with
      | None => Err ValueError
      | Some m =>
          if m <=? N then
            if m =? N then
              if C =? C2 then Ok (batch, N, K, C, ls) else Err AssertionError
            else Err AssertionError
          else Err AssertionError
      end
  | _ => Err ValueError
  end.

Section Model.
  Variable O : ops.
  Notation A := (car O).

  (** semimarkov.py:36-80, one cell of the chart at step [n], for batch element
      [b] of length [len]. Row [s'] is the flattened (k', c') and column [s] the
      flattened (k, c) (lines 76-80), flattening being k * C + c.
      - column k = 0 (lines 38, 52-63): identity on k' = 0 where masked, plus the
        potential of width k'+1 where not masked;
      - columns k >= 1 (lines 64-71): [one] from (k, c) to (k-1, c) while
        n < lengths - 1 - (k - 1), [zero] elsewhere.
      Simplification: the raw 0.0 padding of [big] is always masked, as in
      LinearChain. *)
  Definition sm_cell (pot : list nat -> A) (C b len n s' s : nat) : A :=
    let k' := s' / C in let i := s' mod C in
    let k := s / C in let j := s mod C in
    if k =? 0 then
      let mask := len - 1 <=? n in
      let init := fill O (szero O) ((k' =? 0) && (i =? j)) (sone O) in
      let c := fill O init (negb mask) (szero O) in
      let lp := if mask then sover O [b; n; k' + 1; i; j] else pot [b; n; k' + 1; i; j] in
      ssum O [c; lp]
    else
      fill O (szero O) ((k' + 1 =? k) && (i =? j) && (n + (k - 1) <? len - 1)) (sone O).

  (** semimarkov.py:75-80: the list of the [bin_N] matrices given to the scan *)
  Definition sm_chart (pot : list nat -> A) (C b len bin_N : nat) : list (nat -> nat -> A) :=
    map (fun n s' s => sm_cell pot C b len n s' s) (seq 0 bin_N).

  (** semimarkov.py:82-86: scan over (K-1)*C states, then sum the block
      (0, c') x (0, c). *)
  Definition sm_one (K C log_N bin_N : nat) (pot : list nat -> A) (b len : nat) : A :=
    match scan O ((K - 1) * C) log_N (sm_chart pot C b len bin_N) with
    | M :: _ => sum2 O C M
    | [] => szero O (* unreachable *)
    end.

  (** semimarkov.py:21-87 [logpartition] (value only). For K <= 1 the reshape of
      an empty (or negative-sized) chart raises RuntimeError. *)
  Definition sm_logpartition (edge : tensor A) (lengths : option (list nat)) : res (list A) :=
    match sm_check (shape edge) lengths with
    | Err e => Err e
    | Ok (batch, N, K, C, ls) =>
        match bin_length (N - 1) with
        | Err e => Err e
        | Ok (log_N, bin_N) =>
            if (length ls =? batch) && (2 <=? K) then
              Ok (map (fun b => sm_one K C log_N bin_N (dat edge) b (nth b ls 0)) (seq 0 batch))
            else Err RuntimeError
        end
    end.

  (** semimarkov.py:89-119 [_dp_standard], one batch element.
      [alpha] (line 97) and [beta] (lines 100-101) as functions. *)
  Definition smd_state : Type := ((nat -> nat -> nat -> A) * (nat -> nat -> A))%type.
  (** semimarkov.py:97-101: charts of [zero]; [beta[0]] is filled with [one] *)
  Definition smd_init : smd_state :=
    (fun _ _ _ => szero O, fun m _ => fill O (szero O) (m =? 0) (sone O)).
  (** lines 104-115, loop body for n *)
  Definition smd_step (K C : nat) (pot : list nat -> A) (b : nat) (st : smd_state) (n : nat) : smd_state :=
    let '(alpha, beta) := st in
    let alpha' := fun a k c =>
      if a =? n - 1 then dot O C (beta (n - 1)) (fun c' => pot [b; n - 1; k; c; c'])
      else alpha a k c in
    (* f1 = n-1, n-2, ..., max(n-K,-1)+1 and f2 = 1, 2, ..., len(f1) *)
    let beta' := fun m c =>
      if m =? n then
        ssum O (map (fun q => alpha' (n - 1 - q) (1 + q) c) (seq 0 (Nat.min (K - 1) n)))
      else beta m c in
    (alpha', beta').
  (** semimarkov.py:104: the loop over n = 1 .. N-1 *)
  Definition smd_run (K C N : nat) (pot : list nat -> A) (b : nat) : smd_state :=
    fold_left (smd_step K C pot b) (seq 1 (N - 1)) smd_init.
  (** lines 116-118; [beta[l - 1]] with l = 0 is Python's last element *)
  Definition smd_one (K C N : nat) (pot : list nat -> A) (b len : nat) : A :=
    let beta := snd (smd_run K C N pot b) in
    ssum O (map (fun c => beta (if len =? 0 then N - 1 else len - 1) c) (seq 0 C)).
  (** [torch.stack] of no tensor (K <= 1, N >= 2) raises RuntimeError. *)
  Definition smd_logpartition (edge : tensor A) (lengths : option (list nat)) : res (list A) :=
    match sm_check (shape edge) lengths with
    | Err e => Err e
    | Ok (batch, N, K, C, ls) =>
        if (length ls =? batch) && ((2 <=? K) || (N =? 1)) then
          Ok (map (fun b => smd_one K C N (dat edge) b (nth b ls 0)) (seq 0 batch))
        else Err RuntimeError
    end.
End Model.
Arguments smd_step : clear implicits.

(** ** Relational transport *)
Section Resp.
  Variables (O1 O2 : ops) (R : car O1 -> car O2 -> Prop).
  Hypothesis HR : resp O1 O2 R.
  Variables (p1 : list nat -> car O1) (p2 : list nat -> car O2).
  Hypothesis Hp : forall i, R (p1 i) (p2 i).

  Lemma resp_sm_cell C b len n i j : R (sm_cell O1 p1 C b len n i j) (sm_cell O2 p2 C b len n i j).
  Proof.
    unfold sm_cell. destruct (j / C =? 0).
    - apply (resp_sum HR); [discriminate|]. repeat constructor.
      + repeat apply resp_fill; apply HR.
      + destruct (len - 1 <=? n); auto. apply (resp_over HR).
    - apply resp_fill; apply HR.
  Qed.

  Lemma resp_sm_one K C k n b len : 0 < C -> 2 <= K ->
    R (sm_one O1 K C k n p1 b len) (sm_one O2 K C k n p2 b len).
  Proof.
    intros HC HK. unfold sm_one.
    assert (H : Forall2 (Rmat O1 O2 R) (scan O1 ((K - 1) * C) k (sm_chart O1 p1 C b len n))
                                 (scan O2 ((K - 1) * C) k (sm_chart O2 p2 C b len n))).
    { apply (resp_scan HR).
      { apply Nat.mul_pos_pos; lia. }
      unfold sm_chart.
      generalize 0. induction n; simpl; constructor; auto.
      intros i j. apply resp_sm_cell. }
    inversion H; [apply HR|]. apply (resp_sum2 HR); auto.
  Qed.

  (** proof device: relation between two states of the loop, entry by entry *)
  Definition smd_rel (s1 : smd_state O1) (s2 : smd_state O2) : Prop :=
    (forall a k c, R (fst s1 a k c) (fst s2 a k c)) /\ (forall m c, R (snd s1 m c) (snd s2 m c)).

  Lemma resp_smd_step K C b s1 s2 n : 0 < C -> 2 <= K -> 1 <= n -> smd_rel s1 s2 ->
    smd_rel (smd_step O1 K C p1 b s1 n) (smd_step O2 K C p2 b s2 n).
  Proof.
    intros HC HK Hn [Ha Hb]. destruct s1 as [a1 b1], s2 as [a2 b2]. simpl in *.
    assert (Ha' : forall a k c,
      R (if a =? n - 1 then dot O1 C (b1 (n - 1)) (fun c' => p1 [b; n - 1; k; c; c']) else a1 a k c)
        (if a =? n - 1 then dot O2 C (b2 (n - 1)) (fun c' => p2 [b; n - 1; k; c; c']) else a2 a k c)).
    { intros a k c. destruct (a =? n - 1); auto. apply (resp_dot HR); auto. }
    split; simpl; auto. intros m c. destruct (m =? n); auto.
    apply (resp_sum_seq HR); [lia|]. intro q. apply Ha'.
  Qed.

  Lemma resp_smd_one K C N b len : 0 < C -> 2 <= K ->
    R (smd_one O1 K C N p1 b len) (smd_one O2 K C N p2 b len).
  Proof.
    intros HC HK. unfold smd_one. apply (resp_sum_seq HR); auto. intro c.
    unfold smd_run.
    assert (G : forall l s1 s2, Forall (fun n => 1 <= n) l -> smd_rel s1 s2 ->
      smd_rel (fold_left (smd_step O1 K C p1 b) l s1) (fold_left (smd_step O2 K C p2 b) l s2)).
    { induction l as [|n l IH]; intros s1 s2 Hl Hs; simpl; auto.
      inversion_clear Hl. apply IH; auto. apply resp_smd_step; auto. }
    apply G.
    - apply Forall_forall. intros n Hn. apply in_seq in Hn. lia.
    - split; simpl; intros; [apply HR|]. apply resp_fill; apply HR.
  Qed.
End Resp.

(** ** Specification: labelled segmentations *)
(** an initial label and a list of segments (width, label) *)
Definition segm : Type := (nat * list (nat * nat))%type.
(** spec: sum of the widths of some segments *)
Definition widths (l : list (nat * nat)) : nat := list_sum (map fst l).
(** spec: a segment (width, label) has a width in 1 .. K-1 and a label below C *)
Definition seg_ok (K C : nat) (s : nat * nat) : Prop := 1 <= fst s < K /\ snd s < C.
(** spec: a segmentation of [len] positions: first label, then segments that cover the rest *)
Definition is_segm (K C len : nat) (y : segm) : Prop :=
  fst y < C /\ Forall (seg_ok K C) (snd y) /\ widths (snd y) = len - 1.

(** the potentials used: segment of width w and label c starting at n after
    label c' uses the one of index (b, n, w, c, c') *)
Fixpoint segs_parts (b n c' : nat) (l : list (nat * nat)) : list (list nat) :=
  match l with
  | [] => []
  | (w, c) :: l' => [b; n; w; c; c'] :: segs_parts b (n + w) c l'
  end.
(** spec: the potentials a segmentation uses *)
Definition segm_parts (b : nat) (y : segm) : list (list nat) := segs_parts b 0 (fst y) (snd y).

(** canonical enumeration *)
Fixpoint segs (K C fuel rem : nat) : list (list (nat * nat)) :=
  if rem =? 0 then [[]] else
  match fuel with
  | 0 => []
  | S f => flat_map (fun w => if w <=? rem then
             flat_map (fun c => map (cons (w, c)) (segs K C f (rem - w))) (seq 0 C) else [])
             (seq 1 (K - 1))
  end.
(** spec: a listing of all segmentations *)
Definition segms (K C len : nat) : list segm :=
  flat_map (fun c => map (pair c) (segs K C (len - 1) (len - 1))) (seq 0 C).

Lemma segs_enum K C fuel rem : rem <= fuel ->
  Enumerates (fun l => Forall (seg_ok K C) l /\ widths l = rem) (segs K C fuel rem).
Proof.
  revert rem. induction fuel as [|f IH]; intros rem Hr; cbn [segs].
  - replace rem with 0 by lia. simpl. split; [repeat constructor; auto|].
    intro l; split.
    + intros [<-|[]]. split; auto.
    + intros [Hl Hw]. left. destruct l as [|[w c] l]; auto.
      inversion_clear Hl as [|? ? [Ha _] _]. unfold widths in Hw; simpl in Hw, Ha. lia.
  - destruct (rem =? 0) eqn:E; [apply Nat.eqb_eq in E; subst|apply Nat.eqb_neq in E].
    + split; [repeat constructor; auto|].
      intro l; split.
      * intros [<-|[]]. split; auto.
      * intros [Hl Hw]. left. destruct l as [|[w c] l]; auto.
        inversion_clear Hl as [|? ? [Ha _] _]. unfold widths in Hw; simpl in Hw, Ha. lia.
    + split.
      * apply NoDup_flat_map; [apply seq_NoDup| |].
        -- intros w Hw. apply in_seq in Hw. destruct (w <=? rem) eqn:El; [|constructor].
           apply Nat.leb_le in El.
           apply NoDup_flat_map; [apply seq_NoDup| |].
           ++ intros c _. apply NoDup_map_inj; [congruence|]. apply IH. lia.
           ++ intros c c' y _ _ H1 H2. apply in_map_iff in H1 as (? & <- & _).
              apply in_map_iff in H2 as (? & [= -> _] & _). reflexivity.
        -- intros w w' y _ _ H1 H2.
           destruct (w <=? rem); [|destruct H1]. destruct (w' <=? rem); [|destruct H2].
           apply in_flat_map in H1 as (? & _ & H1). apply in_map_iff in H1 as (? & <- & _).
           apply in_flat_map in H2 as (? & _ & H2). apply in_map_iff in H2 as (? & [= -> _] & _).
           reflexivity.
      * intro l. rewrite in_flat_map. split.
        -- intros (w & Hw & H). apply in_seq in Hw. destruct (w <=? rem) eqn:El; [|destruct H].
           apply Nat.leb_le in El.
           apply in_flat_map in H as (c & Hc & H). apply in_seq in Hc.
           apply in_map_iff in H as (y & <- & Hy).
           apply IH in Hy as [H1 H2]; [|lia]. split.
           ++ constructor; auto. split; simpl; lia.
           ++ unfold widths in *. simpl. lia.
        -- intros [Hl Hw]. destruct l as [|[w c] l]; [unfold widths in Hw; simpl in Hw; lia|].
           inversion_clear Hl as [|? ? [Ha Hc] Hl']. unfold widths in Hw; simpl in *.
           exists w. split; [apply in_seq; lia|].
           assert (w <= rem) by lia. replace (w <=? rem) with true by (symmetry; apply Nat.leb_le; auto).
           apply in_flat_map. exists c. split; [apply in_seq; lia|]. apply in_map.
           apply IH; [lia|]. split; auto. unfold widths; lia.
Qed.

Lemma segms_enum K C len : Enumerates (is_segm K C len) (segms K C len).
Proof.
  unfold segms. destruct (@segs_enum K C (len - 1) (len - 1) (le_n _)) as [Hn He]. split.
  - apply NoDup_flat_map; [apply seq_NoDup| |].
    + intros c _. apply NoDup_map_inj; auto. congruence.
    + intros c c' y _ _ H1 H2. apply in_map_iff in H1 as (? & <- & _).
      apply in_map_iff in H2 as (? & [= -> _] & _). reflexivity.
  - intros [c l]. rewrite in_flat_map. unfold is_segm. simpl. split.
    + intros (c' & Hc & H). apply in_seq in Hc. apply in_map_iff in H as (l' & [= -> ->] & Hl).
      apply He in Hl. split; [lia|auto].
    + intros (Hc & Hl). exists c. split; [apply in_seq; lia|]. apply in_map, He. auto.
Qed.

(** ** Correctness of the scan *)
Section Correct.
  Variable S : csr.
  Add Ring Sring5 : (csr_srt S).
  Notation mat := (nat -> nat -> S).

  (** total weight of paths from state s through [l] into the block k' = 0 *)
  Definition into (St C : nat) (l : list mat) (s : nat) : S :=
    Sum S (fun i => mprod S St l i s) (seq 0 C).
  Lemma into_cons St C M l s : into St C (M :: l) s = Sum S (fun t => kmul (into St C l t) (M t s)) (seq 0 St).
  Proof.
    unfold into. simpl.
    transitivity (Sum S (fun i => Sum S (fun k => kmul (mprod S St l i k) (M k s)) (seq 0 St)) (seq 0 C)).
    - apply Sum_ext. intro i. reflexivity.
    - rewrite Sum_comm. apply Sum_ext. intro k. now rewrite Sum_scale_r.
  Qed.
  Lemma into_nil St C s : into St C [] s = if s <? C then k1 else k0.
  Proof.
    unfold into. simpl. unfold ident. destruct (s <? C) eqn:E.
    - apply Nat.ltb_lt in E. apply (Sum_seq_delta S (fun _ => k1)); auto.
    - apply Nat.ltb_ge in E. apply Sum_zero. intros i Hi. apply in_seq in Hi.
      destruct (i =? s) eqn:E2; auto. apply Nat.eqb_eq in E2. lia.
  Qed.

  Variables (K C b len : nat) (pot : list nat -> S).
  Hypotheses (HK : 2 <= K) (HC : 0 < C).
  Notation St := ((K - 1) * C).
  Notation cell := (sm_cell (csr_ops S) pot C b len).
  (** proof device: the m matrices from step n on *)
  Definition sfx (n m : nat) : list mat := map (fun n s' s => cell n s' s) (seq n m).
  (** proof device: total weight of the paths through these matrices that enter at (k, c) *)
  Definition G (n m k c : nat) : S := into St C (sfx n m) (k * C + c).

  Lemma divmod k c : c < C -> (k * C + c) / C = k /\ (k * C + c) mod C = c.
  Proof.
    intro H. split.
    - rewrite Nat.add_comm, Nat.div_add by lia. rewrite Nat.div_small; lia.
    - rewrite Nat.add_comm, Nat.mod_add by lia. apply Nat.mod_small; auto.
  Qed.

  Lemma cell_col0_on n k' i c : i < C -> c < C -> n < len - 1 ->
    cell n (k' * C + i) (0 * C + c) = pot [b; n; k' + 1; i; c].
  Proof.
    intros Hi Hc Hn. unfold sm_cell.
    destruct (divmod k' Hi) as [-> ->]. destruct (divmod 0 Hc) as [-> ->]. cbn [Nat.eqb].
    replace (len - 1 <=? n) with false by (symmetry; apply Nat.leb_gt; lia).
    simpl. ring.
  Qed.
  Lemma cell_col0_off n k' i c : i < C -> c < C -> len - 1 <= n ->
    cell n (k' * C + i) (0 * C + c) = if (k' =? 0) && (i =? c) then k1 else k0.
  Proof.
    intros Hi Hc Hn. unfold sm_cell.
    destruct (divmod k' Hi) as [-> ->]. destruct (divmod 0 Hc) as [-> ->]. cbn [Nat.eqb].
    replace (len - 1 <=? n) with true by (symmetry; apply Nat.leb_le; lia).
    simpl. unfold fill. destruct ((k' =? 0) && (i =? c)); ring.
  Qed.
  Lemma cell_colS n k' i k c : i < C -> c < C ->
    cell n (k' * C + i) ((k + 1) * C + c) =
    if (k' =? k) && (i =? c) && (n + k <? len - 1) then k1 else k0.
  Proof.
    intros Hi Hc. unfold sm_cell.
    destruct (divmod k' Hi) as [-> ->]. destruct (divmod (k + 1) Hc) as [-> ->].
    replace (k + 1 =? 0) with false by (symmetry; apply Nat.eqb_neq; lia).
    unfold fill. replace (k' + 1 =? k + 1) with (k' =? k).
    - replace (k + 1 - 1) with k by lia. reflexivity.
    - destruct (k' =? k) eqn:E.
      + apply Nat.eqb_eq in E; subst. symmetry; apply Nat.eqb_refl.
      + apply Nat.eqb_neq in E. symmetry; apply Nat.eqb_neq; lia.
  Qed.

  Lemma G_step n m k c :
    G n (Datatypes.S m) k c =
    Sum S (fun k' => Sum S (fun i => kmul (G (n + 1) m k' i) (cell n (k' * C + i) (k * C + c)))
      (seq 0 C)) (seq 0 (K - 1)).
  Proof.
    unfold G, sfx. cbn [seq map]. rewrite into_cons, Sum_seq_flatten.
    replace (n + 1) with (Datatypes.S n) by lia. reflexivity.
  Qed.

  Lemma Sum_seq2_delta (f : nat -> nat -> S) m1 m2 a1 a2 : a1 < m1 -> a2 < m2 ->
    Sum S (fun i => Sum S (fun j => kmul (f i j) (if (i =? a1) && (j =? a2) then k1 else k0)) (seq 0 m2)) (seq 0 m1) = f a1 a2.
  Proof.
    intros H1 H2.
    rewrite (@Sum_single S nat _ a1); [|apply seq_NoDup|apply in_seq; lia|].
    - rewrite (@Sum_single S nat _ a2); [|apply seq_NoDup|apply in_seq; lia|].
      + rewrite !Nat.eqb_refl. simpl. ring.
      + intros x _ Hx. apply Nat.eqb_neq in Hx. rewrite Hx, andb_false_r. ring.
    - intros x _ Hx. apply Nat.eqb_neq in Hx. apply Sum_zero. intros. rewrite Hx. simpl. ring.
  Qed.

  (** past the end of the sentence *)
  Lemma G_off m n k c : k < K - 1 -> c < C -> len - 1 <= n ->
    G n m k c = if k =? 0 then k1 else k0.
  Proof.
    revert n k c. induction m as [|m IH]; intros n k c Hk Hc Hn.
    - unfold G, sfx. cbn [seq map]. rewrite into_nil. destruct k; simpl Nat.eqb.
      + replace (0 * C + c <? C) with true by (symmetry; apply Nat.ltb_lt; lia). reflexivity.
      + replace (Datatypes.S k * C + c <? C) with false by (symmetry; apply Nat.ltb_ge; simpl; lia). reflexivity.
    - rewrite G_step. destruct k as [|k].
      + transitivity (G (n + 1) m 0 c); [|rewrite IH by lia; reflexivity].
        rewrite <- (@Sum_seq2_delta (fun k i => G (n + 1) m k i) (K - 1) C 0 c) by lia.
        apply Sum_seq_ext. intros k' Hk'. apply Sum_seq_ext. intros i Hi.
        rewrite cell_col0_off by lia. reflexivity.
      + apply Sum_zero. intros k' Hk'. apply Sum_zero. intros i Hi. apply in_seq in Hi.
        replace (Datatypes.S k) with (k + 1) by lia. rewrite cell_colS by lia.
        replace (n + k <? len - 1) with false by (symmetry; apply Nat.ltb_ge; lia).
        rewrite andb_false_r. ring.
  Qed.

  (** counting down inside a segment *)
  Lemma G_count k n m c : k < K - 1 -> c < C -> n <= len - 1 -> len - 1 <= n + m ->
    G n m k c = if n + k <=? len - 1 then G (n + k) (m - k) 0 c else k0.
  Proof.
    revert n m. induction k as [|k IH]; intros n m Hk Hc Hn Hm.
    - rewrite Nat.add_0_r, Nat.sub_0_r.
      replace (n <=? len - 1) with true by (symmetry; apply Nat.leb_le; lia). reflexivity.
    - destruct (Nat.eq_dec n (len - 1)) as [->|Hne].
      + rewrite G_off by lia. cbn [Nat.eqb].
        replace (len - 1 + Datatypes.S k <=? len - 1) with false by (symmetry; apply Nat.leb_gt; lia).
        reflexivity.
      + destruct m as [|m]; [lia|]. rewrite G_step.
        transitivity (if n + k <? len - 1 then G (n + 1) m k c else k0).
        * destruct (n + k <? len - 1) eqn:E.
          -- rewrite <- (@Sum_seq2_delta (fun k i => G (n + 1) m k i) (K - 1) C k c) by lia.
             apply Sum_seq_ext. intros k' Hk'. apply Sum_seq_ext. intros i Hi.
             replace (Datatypes.S k) with (k + 1) by lia.
             rewrite cell_colS, E, andb_true_r by lia. reflexivity.
          -- apply Sum_zero. intros k' Hk'. apply Sum_zero. intros i Hi. apply in_seq in Hi.
             replace (Datatypes.S k) with (k + 1) by lia.
             rewrite cell_colS, E, andb_false_r by lia. ring.
        * destruct (n + k <? len - 1) eqn:E.
          -- apply Nat.ltb_lt in E. rewrite IH by lia.
             replace (n + 1 + k <=? len - 1) with true by (symmetry; apply Nat.leb_le; lia).
             replace (n + Datatypes.S k <=? len - 1) with true by (symmetry; apply Nat.leb_le; lia).
             f_equal; lia.
          -- apply Nat.ltb_ge in E.
             replace (n + Datatypes.S k <=? len - 1) with false by (symmetry; apply Nat.leb_gt; lia).
             reflexivity.
  Qed.

  (** proof device: weight of segments that start at position n in label c *)
  Definition swt (n c : nat) (l : list (nat * nat)) : S := Prod S pot (segs_parts b n c l).

  Lemma G_segs fuel : forall n m c, c < C -> n <= len - 1 -> len - 1 <= n + m -> len - 1 - n <= fuel ->
    G n m 0 c = Sum S (swt n c) (segs K C fuel (len - 1 - n)).
  Proof.
    induction fuel as [|f IH]; intros n m c Hc Hn Hm Hf.
    - rewrite G_off by lia. cbn [segs].
      replace (len - 1 - n) with 0 by lia. simpl. unfold Sum, swt, Prod; simpl. ring.
    - cbn [segs]. destruct (len - 1 - n =? 0) eqn:E.
      + apply Nat.eqb_eq in E. rewrite G_off by lia. unfold Sum, swt, Prod; simpl. ring.
      + apply Nat.eqb_neq in E. destruct m as [|m]; [lia|].
        rewrite G_step, Sum_flat_map, (Sum_seq_shift _ _ 1).
        apply Sum_seq_ext. intros k Hk.
        transitivity (Sum S (fun i => kmul (if n + 1 + k <=? len - 1 then
            G (n + 1 + k) (m - k) 0 i else k0) (pot [b; n; k + 1; i; c])) (seq 0 C)).
        * apply Sum_seq_ext. intros i Hi. rewrite cell_col0_on by lia.
          rewrite G_count by lia. reflexivity.
        * replace (1 + k <=? len - 1 - n) with (n + 1 + k <=? len - 1).
          2:{ destruct (n + 1 + k <=? len - 1) eqn:E2.
              - apply Nat.leb_le in E2. symmetry; apply Nat.leb_le; lia.
              - apply Nat.leb_gt in E2. symmetry; apply Nat.leb_gt; lia. }
          destruct (n + 1 + k <=? len - 1) eqn:E2.
          -- apply Nat.leb_le in E2. rewrite Sum_flat_map. apply Sum_seq_ext. intros i Hi.
             rewrite IH by lia. rewrite Sum_map, <- Sum_scale_r.
             replace (len - 1 - (n + 1 + k)) with (len - 1 - n - (1 + k)) by lia.
             apply Sum_ext. intro l. unfold swt. cbn [segs_parts].
             rewrite Prod_cons. replace (k + 1) with (1 + k) by lia.
             replace (n + (1 + k)) with (n + 1 + k) by lia. ring.
          -- rewrite Sum_nil. apply Sum_zero. intros. ring.
  Qed.

  Lemma sm_one_sum k : len - 1 <= 2 ^ k ->
    sm_one (csr_ops S) K C k (2 ^ k) pot b len =
    Sum S (fun y => Prod S pot (segm_parts b y)) (segms K C len).
  Proof.
    intro Hk. unfold sm_one.
    destruct (scan_mprod S St k (sm_chart (csr_ops S) pot C b len (2 ^ k))) as (M & HM & E).
    { unfold sm_chart. now rewrite map_length, seq_length. }
    rewrite HM. unfold sum2. cbn [ssum csr_ops].
    assert (HSt : C <= St) by nia.
    transitivity (Sum S (fun i => Sum S (fun j => mprod S St (sfx 0 (2 ^ k)) i j) (seq 0 C)) (seq 0 C)).
    { apply Sum_seq_ext. intros i Hi. apply Sum_seq_ext. intros j Hj. apply E; lia. }
    rewrite Sum_comm. unfold segms. rewrite Sum_flat_map. apply Sum_seq_ext. intros c Hc.
    rewrite Sum_map.
    transitivity (G 0 (2 ^ k) 0 c); [reflexivity|].
    rewrite (@G_segs (len - 1)) by lia.
    rewrite Nat.sub_0_r. reflexivity.
  Qed.
End Correct.

(** ** Correctness of the textbook recursion *)
Section Standard.
  Variable S : csr.
  Add Ring Sring6 : (csr_srt S).
  Variables (K C b : nat) (pot : list nat -> S).
  Hypotheses (HK : 2 <= K) (HC : 0 < C).

  Lemma last_snoc {A B} (f : A -> B) l s c : last (map f (l ++ [s])) c = f s.
  Proof. rewrite map_app. apply last_last. Qed.

  (** label of the last segment *)
  Definition last_label (y : segm) : nat := last (map snd (snd y)) (fst y).

  (** enumeration by the last segment *)
  Fixpoint fsegs (fuel n c : nat) : list segm :=
    if n =? 0 then [(c, [])] else
    match fuel with
    | 0 => []
    | Datatypes.S f =>
        flat_map (fun q => flat_map (fun c' => map (fun y => (fst y, snd y ++ [(1 + q, c)]))
                                       (fsegs f (n - 1 - q) c')) (seq 0 C))
          (seq 0 (Nat.min (K - 1) n))
    end.

  Lemma widths_app l l' : widths (l ++ l') = widths l + widths l'.
  Proof. unfold widths. rewrite map_app, list_sum_app. reflexivity. Qed.

  Lemma fsegs_enum fuel : forall n c, n <= fuel -> c < C ->
    Enumerates (fun y => is_segm K C (n + 1) y /\ last_label y = c) (fsegs fuel n c).
  Proof.
    induction fuel as [|f IH]; intros n c Hn Hc; cbn [fsegs].
    - replace n with 0 by lia. simpl. split; [repeat constructor; auto|].
      intros [c0 l]; unfold is_segm, last_label; simpl; split.
      + intros [[= <- <-]|[]]. repeat split; auto.
      + intros [(H1 & H2 & H3) H4]. left. destruct l as [|[w c1] l]; [simpl in H4; congruence|].
        inversion_clear H2 as [|? ? [Ha _] _]. unfold widths in H3; simpl in H3, Ha. lia.
    - destruct (n =? 0) eqn:E; [apply Nat.eqb_eq in E; subst|apply Nat.eqb_neq in E].
      + split; [repeat constructor; auto|].
        intros [c0 l]; unfold is_segm, last_label; simpl; split.
        * intros [[= <- <-]|[]]. repeat split; auto.
        * intros [(H1 & H2 & H3) H4]. left. destruct l as [|[w c1] l]; [simpl in H4; congruence|].
          inversion_clear H2 as [|? ? [Ha _] _]. unfold widths in H3; simpl in H3, Ha. lia.
      + split.
        * apply NoDup_flat_map; [apply seq_NoDup| |].
          -- intros q Hq. apply in_seq in Hq. apply NoDup_flat_map; [apply seq_NoDup| |].
             ++ intros c' Hc'. apply in_seq in Hc'. apply NoDup_map_inj; [|apply IH; lia].
                intros [x1 x2] [y1 y2] _ _ [= -> H]. apply app_inj_tail in H as [-> _]. reflexivity.
             ++ intros c1 c2 y H1 H2 H3 H4. apply in_seq in H1, H2.
                apply in_map_iff in H3 as ([x1 x2] & <- & Hx).
                apply in_map_iff in H4 as ([y1 y2] & [= -> H] & Hy).
                apply app_inj_tail in H as [-> _].
                apply IH in Hx as [_ <-]; [|lia|lia]. apply IH in Hy as [_ Hy]; [exact Hy|lia|lia].
          -- intros q q' y H1 H2 H3 H4.
             apply in_flat_map in H3 as (c1 & _ & H3). apply in_map_iff in H3 as ([x1 x2] & <- & Hx).
             apply in_flat_map in H4 as (c2 & _ & H4). apply in_map_iff in H4 as ([y1 y2] & [= -> H] & Hy).
             apply app_inj_tail in H as [_ [= ->]]. reflexivity.
        * intros [c0 l]. rewrite in_flat_map. split.
          -- intros (q & Hq & H). apply in_seq in Hq. apply in_flat_map in H as (c' & Hc' & H).
             apply in_seq in Hc'. apply in_map_iff in H as ([x1 x2] & [= -> <-] & Hx).
             apply IH in Hx as [(H1 & H2 & H3) H4]; [|lia|lia]. simpl in *.
             repeat split; simpl; auto.
             ++ apply Forall_app. split; auto. constructor; auto. split; simpl; lia.
             ++ rewrite widths_app. simpl in H3. rewrite H3. unfold widths; simpl. lia.
             ++ unfold last_label. simpl. rewrite last_snoc. reflexivity.
          -- intros [(H1 & H2 & H3) H4]. simpl in *.
             destruct l as [|s l _] using rev_ind; [unfold widths in H3; simpl in H3; lia|].
             destruct s as [w c1]. apply Forall_app in H2 as [H2 H5]. inversion_clear H5 as [|? ? [H6 H7] _].
             unfold last_label in H4. simpl in *. rewrite last_snoc in H4. simpl in H4. subst c1.
             rewrite widths_app in H3. unfold widths at 2 in H3. simpl in H3.
             exists (w - 1). split; [apply in_seq; lia|].
             apply in_flat_map. exists (last_label (c0, l)).
             assert (HL : last_label (c0, l) < C).
             { unfold last_label; simpl. destruct l as [|[w' c''] l' _] using rev_ind; simpl; auto.
               rewrite last_snoc. apply Forall_app in H2 as [_ H2].
               inversion_clear H2 as [|? ? [_ H8] _]. exact H8. }
             split; [apply in_seq; lia|].
             apply in_map_iff. exists (c0, l). simpl. split.
             ++ f_equal. replace (Datatypes.S (w - 1)) with w by lia. reflexivity.
             ++ apply IH; [lia|lia|]. repeat split; simpl; auto; lia.
  Qed.

  Lemma segs_parts_app l l' : forall n c,
    segs_parts b n c (l ++ l') = segs_parts b n c l ++ segs_parts b (n + widths l) (last (map snd l) c) l'.
  Proof.
    induction l as [|[w c1] l IH]; intros n c; simpl.
    - unfold widths; simpl. now rewrite Nat.add_0_r.
    - rewrite IH. f_equal. f_equal. f_equal.
      + unfold widths; simpl. lia.
      + destruct l as [|s l]; [reflexivity|].
        change (last (map snd (s :: l)) c1 = last (map snd (s :: l)) c).
        destruct l as [|s' l2 _] using rev_ind; [reflexivity|].
        rewrite app_comm_cons, !last_snoc. reflexivity.
  Qed.

  (** proof device: total weight of the segmentations that end at position n in label c *)
  Definition F (n c : nat) : S := Sum S (fun y => Prod S pot (segm_parts b y)) (fsegs n n c).

  Lemma fsegs_any n c fuel : c < C -> n <= fuel ->
    Sum S (fun y => Prod S pot (segm_parts b y)) (fsegs fuel n c) = F n c.
  Proof.
    intros Hc Hn. unfold F. eapply Sum_enum; apply fsegs_enum; auto.
  Qed.

  Lemma F_0 c : F 0 c = k1.
  Proof. unfold F, Sum, Prod; simpl. unfold Prod; simpl. ring. Qed.

  Lemma F_rec n c : 0 < n -> c < C ->
    F n c = Sum S (fun q => Sum S (fun c' => kmul (F (n - 1 - q) c') (pot [b; n - 1 - q; 1 + q; c; c']))
                     (seq 0 C)) (seq 0 (Nat.min (K - 1) n)).
  Proof.
    intros Hn Hc. unfold F at 1. destruct n as [|n]; [lia|]. cbn [fsegs].
    replace (Datatypes.S n =? 0) with false by reflexivity.
    rewrite Sum_flat_map. apply Sum_seq_ext. intros q Hq.
    rewrite Sum_flat_map. apply Sum_seq_ext. intros c' Hc'.
    rewrite Sum_map, <- (@fsegs_any (Datatypes.S n - 1 - q) c' n) by lia.
    rewrite <- Sum_scale_r. apply Sum_ext_in. intros [c0 l] Hl.
    assert (Hq' : Datatypes.S n - 1 - q <= n) by lia.
    destruct (@fsegs_enum n _ c' Hq' (proj2 Hc')) as [_ He].
    apply He in Hl as [(_ & _ & H3) H4]. simpl in H3.
    unfold segm_parts. simpl fst; simpl snd. rewrite segs_parts_app, Prod_app. f_equal.
    unfold last_label in H4. simpl in H4. rewrite H4, H3.
    cbn [segs_parts]. rewrite Prod_one. replace (0 + (n - 0 - q + 1 - 1)) with (Datatypes.S n - 1 - q) by lia. reflexivity.
  Qed.

  (** proof device: invariant of the loop of [_dp_standard] *)
  Definition smd_inv (n : nat) (st : smd_state (csr_ops S)) : Prop :=
    (forall a k c, a < n -> fst st a k c = Sum S (fun c' => kmul (F a c') (pot [b; a; k; c; c'])) (seq 0 C)) /\
    (forall m c, m <= n -> c < C -> snd st m c = F m c).

  Lemma smd_inv_step n st : smd_inv n st -> smd_inv (n + 1) (smd_step (csr_ops S) K C pot b st (n + 1)).
  Proof.
    intros [Ha Hb]. destruct st as [alpha beta]. unfold smd_step. simpl fst in *; simpl snd in *.
    replace (n + 1 - 1) with n by lia.
    assert (Ha' : forall a k c, a < n + 1 ->
      (if a =? n then dot (csr_ops S) C (beta n) (fun c' => pot [b; n; k; c; c']) else alpha a k c) =
      Sum S (fun c' => kmul (F a c') (pot [b; a; k; c; c'])) (seq 0 C)).
    { intros a k c Hlt. destruct (a =? n) eqn:E.
      - apply Nat.eqb_eq in E; subst a. rewrite dot_csr. apply Sum_seq_ext. intros i Hi.
        rewrite Hb by lia. reflexivity.
      - apply Nat.eqb_neq in E. apply Ha. lia. }
    split; simpl; [exact Ha'|].
    intros m c Hm Hc. destruct (m =? n + 1) eqn:E.
    - apply Nat.eqb_eq in E; subst m. rewrite F_rec by lia.
      apply Sum_seq_ext. intros q Hq. replace (n + 1 - 1 - q) with (n - q) by lia.
      apply Ha'. lia.
    - apply Nat.eqb_neq in E. apply Hb; lia.
  Qed.

  Lemma smd_run_inv n : smd_inv n (fold_left (smd_step (csr_ops S) K C pot b) (seq 1 n) (smd_init (csr_ops S))).
  Proof.
    induction n.
    - split; simpl; [intros; lia|]. intros m c Hm Hc. replace m with 0 by lia. simpl. now rewrite F_0.
    - rewrite seq_S, fold_left_app. cbn [fold_left]. replace (Datatypes.S n) with (n + 1) by lia.
      replace (1 + n) with (n + 1) by lia. apply smd_inv_step. exact IHn.
  Qed.

  Lemma segms_last len : Enumerates (is_segm K C (len + 1)) (flat_map (fsegs len len) (seq 0 C)).
  Proof.
    split.
    - apply NoDup_flat_map; [apply seq_NoDup| |].
      + intros c Hc. apply in_seq in Hc. apply fsegs_enum; lia.
      + intros c c' y H1 H2 H3 H4. apply in_seq in H1, H2.
        apply fsegs_enum in H3 as [_ <-]; [|lia|lia]. apply fsegs_enum in H4 as [_ H4]; [exact H4|lia|lia].
    - intro y. rewrite in_flat_map. split.
      + intros (c & Hc & H). apply in_seq in Hc. apply fsegs_enum in H; [tauto|lia|lia].
      + intro H. exists (last_label y).
        assert (HL : last_label y < C).
        { destruct H as (H1 & H2 & _). destruct y as [c0 l]. unfold last_label; simpl in *.
          destruct l as [|[w' c''] l' _] using rev_ind; simpl; auto.
          rewrite last_snoc. apply Forall_app in H2 as [_ H2].
          inversion_clear H2 as [|? ? [_ H8] _]. exact H8. }
        split; [apply in_seq; lia|]. apply fsegs_enum; auto.
  Qed.

  Lemma smd_one_sum N len : 1 <= len <= N ->
    smd_one (csr_ops S) K C N pot b len =
    Sum S (fun y => Prod S pot (segm_parts b y)) (segms K C len).
  Proof.
    intro HL. unfold smd_one.
    replace (len =? 0) with false by (symmetry; apply Nat.eqb_neq; lia).
    destruct (smd_run_inv (N - 1)) as [_ Hb].
    transitivity (Sum S (F (len - 1)) (seq 0 C)).
    { apply Sum_seq_ext. intros c Hc. apply Hb; lia. }
    unfold F. rewrite <- (Sum_flat_map S (fun y => Prod S pot (segm_parts b y))).
    eapply Sum_enum.
    - apply segms_last.
    - replace (len - 1 + 1) with len by lia. apply segms_enum.
  Qed.
End Standard.

(** ** The API level *)
Definition sm_args (batch N K C : nat) (lengths : option (list nat)) : Prop :=
  2 <= N /\ 2 <= K /\ 0 < C /\ 0 < batch /\
  match lengths with None => True | Some ls => length ls = batch /\ list_max ls = N end.

Lemma list_max_repeat n b : 0 < b -> list_max (repeat n b) = n.
Proof. induction b as [|[|b] IH]; simpl in *; lia. Qed.

Lemma sm_check_ok batch N K C lengths : sm_args batch N K C lengths ->
  exists ls, sm_check [batch; N - 1; K; C; C] lengths = Ok (batch, N, K, C, ls) /\
    length ls = batch /\ forall b, b < batch -> nth b ls 0 = lc_len N lengths b.
Proof.
  intros (HN & HK & HC & Hb & HL). unfold sm_check. replace (N - 1 + 1) with N by lia.
  rewrite (Nat.eqb_refl C).
  destruct lengths as [ls|].
  - destruct HL as (Hl & Hm). exists ls. destruct ls as [|a ls']; [simpl in Hl; lia|].
    unfold list_max_opt. rewrite Hm, Nat.leb_refl, Nat.eqb_refl. auto.
  - exists (repeat N batch). rewrite repeat_length. split; [|split; auto].
    + assert (E : list_max_opt (repeat N batch) = Some (list_max (repeat N batch))).
      { destruct batch; [lia|reflexivity]. }
      rewrite E, list_max_repeat, Nat.leb_refl, Nat.eqb_refl by auto. reflexivity.
    + intros b Hbb. simpl. rewrite nth_indep with (d' := N) by (rewrite repeat_length; lia). apply nth_repeat.
Qed.

Lemma sm_logpartition_run (O : ops) batch N K C edge lengths :
  sm_args batch N K C lengths -> shape edge = [batch; N - 1; K; C; C] ->
  sm_logpartition O edge lengths =
  Ok (map (fun b => sm_one O K C (Nat.log2_up (N - 1)) (2 ^ Nat.log2_up (N - 1)) (dat edge) b
                      (lc_len N lengths b)) (seq 0 batch)).
Proof.
  intros Ha Hs. destruct (sm_check_ok Ha) as (ls & Hc & Hl & Hn).
  destruct Ha as (HN & HK & HC & Hb & HL).
  unfold sm_logpartition. rewrite Hs, Hc.
  unfold bin_length. destruct (N - 1 =? 0) eqn:E; [apply Nat.eqb_eq in E; lia|].
  rewrite Hl, Nat.eqb_refl. replace (2 <=? K) with true by (symmetry; apply Nat.leb_le; auto).
  simpl. f_equal. apply map_ext_in. intros b Hbb. apply in_seq in Hbb. rewrite Hn by lia. reflexivity.
Qed.

Lemma smd_logpartition_run (O : ops) batch N K C edge lengths :
  sm_args batch N K C lengths -> shape edge = [batch; N - 1; K; C; C] ->
  smd_logpartition O edge lengths =
  Ok (map (fun b => smd_one O K C N (dat edge) b (lc_len N lengths b)) (seq 0 batch)).
Proof.
  intros Ha Hs. destruct (sm_check_ok Ha) as (ls & Hc & Hl & Hn).
  destruct Ha as (HN & HK & HC & Hb & HL).
  unfold smd_logpartition. rewrite Hs, Hc.
  rewrite Hl, Nat.eqb_refl. replace (2 <=? K) with true by (symmetry; apply Nat.leb_le; auto).
  simpl. f_equal. apply map_ext_in. intros b Hbb. apply in_seq in Hbb. rewrite Hn by lia. reflexivity.
Qed.

Lemma nth_map_seq {A} (f : nat -> A) n b d : b < n -> nth b (map f (seq 0 n)) d = f b.
Proof.
  intro H. rewrite nth_indep with (d' := f 0) by (rewrite map_length, seq_length; auto).
  rewrite (map_nth f), seq_nth by auto. reflexivity.
Qed.

Lemma lc_len_le N lengths b :
  match lengths with None => True | Some ls => list_max ls = N end -> lc_len N lengths b <= N.
Proof.
  destruct lengths as [ls|]; simpl; [|lia]. intros <-. apply list_max_nth.
Qed.

Theorem sm_logpartition_correct (S : csr) batch N K C edge lengths :
  sm_args batch N K C lengths -> shape edge = [batch; N - 1; K; C; C] ->
  exists v, sm_logpartition (csr_ops S) edge lengths = Ok v /\
  length v = batch /\
  forall b l, b < batch ->
    Enumerates (is_segm K C (lc_len N lengths b)) l ->
    nth b v k0 = Sum S (fun y => Prod S (dat edge) (segm_parts b y)) l.
Proof.
  intros Ha Hs. rewrite (sm_logpartition_run _ _ Ha Hs). eexists; split; [reflexivity|].
  rewrite map_length, seq_length. split; auto. intros b l Hb He.
  rewrite nth_map_seq by auto.
  destruct Ha as (HN & HK & HC & Hb0 & HL). rewrite sm_one_sum; auto.
  - eapply Sum_enum; [apply segms_enum|exact He].
  - etransitivity; [|apply log2_up_cover; lia].
    assert (lc_len N lengths b <= N); [|lia]. apply lc_len_le. destruct lengths; tauto.
Qed.

Theorem smd_agrees (S : csr) batch N K C edge lengths :
  sm_args batch N K C lengths -> shape edge = [batch; N - 1; K; C; C] ->
  (forall b, b < batch -> 1 <= lc_len N lengths b) ->
  exists v, sm_logpartition (csr_ops S) edge lengths = Ok v /\
            smd_logpartition (csr_ops S) edge lengths = Ok v.
Proof.
  intros Ha Hs Hpos. rewrite (sm_logpartition_run _ _ Ha Hs), (smd_logpartition_run _ _ Ha Hs).
  eexists; split; [reflexivity|]. f_equal. apply map_ext_in. intros b Hb. apply in_seq in Hb.
  destruct Ha as (HN & HK & HC & Hb0 & HL).
  assert (lc_len N lengths b <= N) by (apply lc_len_le; destruct lengths; tauto).
  specialize (Hpos b ltac:(lia)).
  rewrite sm_one_sum, smd_one_sum; auto.
  etransitivity; [|apply log2_up_cover; lia]. lia.
Qed.
