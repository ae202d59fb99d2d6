(** * Spans: the span charts of SentCFG (torch_struct/cky.py:29, 72-74, 79, 104-143).

    [CKY.marginals] asks [torch.autograd.grad] for the gradients of the rule, root
    and term tensors and of every tensor [span[w]], an intermediate result of the
    inside pass. The gradient of an intermediate tensor is the derivative with
    respect to an offset added to it, so the model adds an offset to [span[w]]
    (entry [3; b; w - 1; i; x] of the potentials, which the queries set to 0, the
    [one] of the semiring) and takes the gradient of the offset. *)
From Verif Require Import Base Ops Terms Semirings Poly Chain LinearChain SemiMarkov CkyCrf Cky DepSpec DepTree
  Batch Family Approx Grad Sample Dist Purity Degree Shape.
Set Implicit Arguments.

Section Model.
  Variable O : ops.
  Notation A := (car O).
  Variables (NT T N b : nat) (pot : list nat -> A).
  (** cky.py:72: [span[w]], plus its offset *)
  Definition cs_span (cA cB : nat -> nat -> nat -> A) (w i x : nat) : A :=
    smul O (cy_span O NT T N b pot cA cB w i x) (pot [3; b; w - 1; i; x]).
  (** cky.py:49-74, the loop body for width w (as [cy_step] in Cky.v): both charts
      receive [span[w]] *)
  Definition cs_step (st : chart3 O) (w : nat) : chart3 O :=
    let '(cA, cB) := st in
    (fun i k x => if (i <? N - w) && (k =? w) then cs_span cA cB w i x else cA i k x,
     fun j k x => if (w <=? j) && (j <? N) && (k =? N - w - 1) then cs_span cA cB w (j - w) x
                  else cB j k x).
  (** cky.py:49: the loop over widths w = 1 .. N-1 *)
  Definition cs_run : chart3 O := fold_left cs_step (seq 1 (N - 1)) (cy_init O).
  (** cky.py:76-78 *)
  Definition cs_one (len : nat) : A :=
    dot O NT (fun x => fst cs_run 0 (pyidx N len) x) (croot O b pot).
End Model.
Arguments cs_span : clear implicits.
Arguments cs_step : clear implicits.
Arguments cs_run : clear implicits.
Arguments cs_one : clear implicits.

(** ** Relational transport *)
Section Resp.
  Variables (O1 O2 : ops) (R : car O1 -> car O2 -> Prop).
  Hypothesis HR : resp O1 O2 R.
  Variables (p1 : list nat -> car O1) (p2 : list nat -> car O2).
  Hypothesis Hp : forall i, R (p1 i) (p2 i).
  Variables (NT T N b : nat).
  Hypotheses (HNT : 0 < NT) (HT : 0 < T).
  Lemma resp_cs_one len : R (cs_one O1 NT T N b p1 len) (cs_one O2 NT T N b p2 len).
  Proof.
    unfold cs_one. apply (resp_dot HR); auto; [|intros; apply Hp]. intro x. unfold cs_run.
    assert (G : forall l s1 s2, Forall (fun w => 1 <= w) l -> chart3_rel R s1 s2 ->
      chart3_rel R (fold_left (cs_step O1 NT T N b p1) l s1) (fold_left (cs_step O2 NT T N b p2) l s2)).
    { induction l as [|w l IH]; intros s1 s2 Hl Hs; simpl; auto.
      inversion_clear Hl. apply IH; auto. destruct s1 as [a1 b1], s2 as [a2 b2], Hs as [Ha Hb].
      assert (HS : forall i y, R (cs_span O1 NT T N b p1 a1 b1 w i y) (cs_span O2 NT T N b p2 a2 b2 w i y)).
      { intros i y. unfold cs_span. apply (resp_mul HR); [|apply Hp]. now apply resp_cy_span. }
      split; simpl; intros i k y.
      - destruct ((i <? N - w) && (k =? w)); auto.
      - destruct ((w <=? i) && (i <? N) && (k =? N - w - 1)); auto. }
    apply G.
    - apply Forall_forall. intros w Hw. apply in_seq in Hw. lia.
    - split; simpl; intros; apply HR.
  Qed.
End Resp.

(** ** Offsets equal to [one] change nothing *)
Section Neutral.
  Variables (O : ops) (NT T N b : nat) (pot : list nat -> car O).
  Hypotheses (HNT : 0 < NT) (HT : 0 < T).
  Hypothesis Hone : forall a w i x, smul O a (pot [3; b; w; i; x]) = a.
  Lemma cs_neutral len : cs_one O NT T N b pot len = cy_one O NT T N b pot len.
  Proof.
    unfold cs_one, cy_one. apply (@resp_dot O O eq (resp_id O)); auto. intro x. unfold cs_run, cy_run.
    assert (G : forall l s1 s2, Forall (fun w => 1 <= w) l -> chart3_rel (O1 := O) (O2 := O) eq s1 s2 ->
      chart3_rel (O1 := O) (O2 := O) eq (fold_left (cs_step O NT T N b pot) l s1) (fold_left (cy_step O NT T N b pot) l s2)).
    { induction l as [|w l IH]; intros s1 s2 Hl Hs; simpl; auto.
      inversion_clear Hl. apply IH; auto. destruct s1 as [a1 b1], s2 as [a2 b2], Hs as [Ha Hb].
      assert (HS : forall i y, cs_span O NT T N b pot a1 b1 w i y = cy_span O NT T N b pot a2 b2 w i y).
      { intros i y. unfold cs_span. rewrite Hone. now apply (@resp_cy_span O O eq (resp_id O)). }
      split; simpl; intros i k y.
      - destruct ((i <? N - w) && (k =? w)); auto.
      - destruct ((w <=? i) && (i <? N) && (k =? N - w - 1)); auto. }
    apply G.
    - apply Forall_forall. intros w Hw. apply in_seq in Hw. lia.
    - split; simpl; intros; reflexivity.
  Qed.
End Neutral.

(** ** Specification: the constituents of a parse *)
(** [constituent p i n x]: the [n] words from word [i] form a constituent labelled
    [x] (a node above two children) *)
Inductive constituent : ptree -> nat -> nat -> nat -> Prop :=
| c_here x l r : constituent (PN x l r) 0 (psize l + psize r) x
| c_left y l r i n x : constituent l i n x -> constituent (PN y l r) i n x
| c_right y l r i n x : constituent r i n x -> constituent (PN y l r) (psize l + i) n x.

(** offsets met by a parse that starts at word i *)
Fixpoint span_parts (b i : nat) (p : ptree) : list (list nat) :=
  match p with
  | PT _ => []
  | PN x l r => [3; b; psize l + psize r - 2; i; x] :: span_parts b i l ++ span_parts b (i + psize l) r
  end.
(** spec: the parts of a parse, with the span offsets *)
Definition marked_parts (NT b : nat) (p : ptree) : list (list nat) := parse_parts NT b p ++ span_parts b 0 p.

Lemma span_parts_in b p : forall i e, In e (span_parts b i p) <->
  exists j n x, constituent p j n x /\ e = [3; b; n - 2; i + j; x].
Proof.
  induction p as [t|x l IHl r IHr]; intros i e; simpl.
  - split; [intros []|]. intros (j & n & x & H & _). inversion H.
  - rewrite in_app_iff, IHl, IHr. split.
    + intros [<-|[(j & n & y & H & ->)|(j & n & y & H & ->)]].
      * exists 0, (psize l + psize r), x. split; [constructor|]. now rewrite Nat.add_0_r.
      * exists j, n, y. split; [now constructor|reflexivity].
      * exists (psize l + j), n, y. split; [now constructor|]. now rewrite Nat.add_assoc.
    + intros (j & n & y & H & ->). inversion H; subst.
      * left. now rewrite Nat.add_0_r.
      * right; left. eauto.
      * right; right. exists i0, n, y. split; auto. now rewrite Nat.add_assoc.
Qed.
Lemma constituent_range p j n x : constituent p j n x -> 2 <= n /\ j + n <= psize p.
Proof.
  induction 1; simpl; try lia. pose proof (psize_pos l). pose proof (psize_pos r). lia.
Qed.
(** no constituent occurs twice *)
Lemma span_parts_nodup b p : forall i, NoDup (span_parts b i p).
Proof.
  induction p as [t|x l IHl r IHr]; intro i; simpl; [constructor|].
  pose proof (psize_pos l). pose proof (psize_pos r). constructor.
  - intro H1. apply in_app_or in H1 as [H1|H1]; apply span_parts_in in H1 as (j & n & y & H1 & E);
      apply constituent_range in H1; injection E; intros; lia.
  - apply NoDup_app_intro; auto. intros e H1 H2.
    apply span_parts_in in H1 as (j & n & y & H1 & ->). apply span_parts_in in H2 as (j' & n' & y' & H2 & E).
    apply constituent_range in H1, H2. injection E; intros; lia.
Qed.

(** ** Correctness *)
Section Correct.
  Variable S : csr.
  Add Ring Sring9 : (csr_srt S).
  Variables (NT T N b : nat) (pot : list nat -> S).
  Hypothesis HT : 0 < T.
  Hypothesis HNT : 0 < NT.

  (** weight of a tree that starts at word i, offsets included *)
  Definition SPW (i : nat) (p : ptree) : S := kmul (Prod S pot (pparts NT b i p)) (Prod S pot (span_parts b i p)).
  (** proof device: total weight of the trees of n words with top symbol s *)
  Definition SW (i n s : nat) : S := Sum S (SPW i) (ptrees NT T n n s).
  Lemma SW_any i n s fuel : n <= fuel -> Sum S (SPW i) (ptrees NT T fuel n s) = SW i n s.
  Proof. intro H. eapply Sum_enum; apply ptrees_enum; lia. Qed.
  Lemma SW_term i t : t < T -> SW i 1 (NT + t) = pot [0; b; i; t].
  Proof.
    intro Ht. unfold SW. cbn [ptrees].
    replace (NT + t <? NT) with false by (symmetry; apply Nat.ltb_ge; lia).
    replace (NT + t <? NT + T) with true by (symmetry; apply Nat.ltb_lt; lia).
    cbn [Nat.eqb andb]. rewrite Sum_one. unfold SPW. cbn [pparts span_parts]. rewrite Prod_one.
    replace (NT + t - NT) with t by lia. unfold Prod. simpl. ring.
  Qed.
  Lemma SW_term_0 i n t : n <> 1 -> SW i n (NT + t) = k0.
  Proof.
    intro Hn. unfold SW. destruct n as [|n]; [reflexivity|]. cbn [ptrees].
    replace (NT + t <? NT) with false by (symmetry; apply Nat.ltb_ge; lia).
    replace (Datatypes.S n =? 1) with false by (symmetry; apply Nat.eqb_neq; lia). reflexivity.
  Qed.
  Lemma SW_nt_1 i x : x < NT -> SW i 1 x = k0.
  Proof.
    intro Hx. unfold SW. cbn [ptrees].
    replace (x <? NT) with true by (symmetry; apply Nat.ltb_lt; lia). reflexivity.
  Qed.
  Notation rule := (fun x y z => pot [1; b; x; y; z]).
  Lemma SW_rec i w x : 0 < w -> x < NT ->
    SW i (Datatypes.S w) x = kmul
    (Sum S (fun m => Sum S (fun y => Sum S (fun z =>
      kmul (kmul (SW i (m + 1) y) (SW (i + m + 1) (w - m) z)) (rule x y z))
      (seq 0 (NT + T))) (seq 0 (NT + T))) (seq 0 w)) (pot [3; b; w - 1; i; x]).
  Proof.
    intros Hw Hx. unfold SW at 1. cbn [ptrees].
    replace (x <? NT) with true by (symmetry; apply Nat.ltb_lt; lia).
    rewrite Sum_flat_map. replace (Datatypes.S w - 1) with w by lia.
    rewrite (Sum_seq_shift S _ 1). rewrite <- Sum_scale_r. apply Sum_seq_ext. intros m Hm.
    rewrite Sum_flat_map. rewrite <- Sum_scale_r. apply Sum_ext. intro y.
    rewrite Sum_flat_map. rewrite <- Sum_scale_r. apply Sum_ext. intro z.
    rewrite Sum_flat_map.
    rewrite <- (@SW_any i (m + 1) y w), <- (@SW_any (i + m + 1) (w - m) z w) by lia.
    replace (1 + m) with (m + 1) by lia.
    replace (Datatypes.S w - (m + 1)) with (w - m) by lia.
    rewrite <- !Sum_scale_r. apply Sum_ext_in. intros l Hl.
    apply ptrees_enum in Hl as (Hl & _ & Hsl); [|lia].
    rewrite Sum_map, <- Sum_scale_l, <- !Sum_scale_r.
    apply Sum_ext_in. intros r Hr. apply ptrees_enum in Hr as (Hr & _ & Hsr); [|lia].
    unfold SPW. cbn [pparts span_parts]. rewrite !Prod_cons, !Prod_app, Hl, Hr, Hsl, Hsr.
    replace (m + 1 + (w - m) - 2) with (w - 1) by lia.
    replace (i + (m + 1)) with (i + m + 1) by lia. ring.
  Qed.

  (** proof device: invariant of the loop over widths *)
  Definition cs_inv (w : nat) (st : chart3 (csr_ops S)) : Prop :=
    (forall i k x, k <= w -> i + k < N -> x < NT -> fst st i k x = SW i (k + 1) x) /\
    (forall j k x, k <= w -> k <= j -> j < N -> x < NT -> snd st j (N - 1 - k) x = SW (j - k) (k + 1) x).

  Lemma cs_span_correct cA cB w i x : 0 < w -> i + w < N -> x < NT -> cs_inv (w - 1) (cA, cB) ->
    cs_span (csr_ops S) NT T N b pot cA cB w i x = SW i (w + 1) x.
  Proof.
    intros Hw Hi Hx [HA HB]. cbn [fst snd] in HA, HB.
    replace (w + 1) with (Datatypes.S w) by lia. rewrite SW_rec by lia. unfold cs_span. cbn [smul csr_ops].
    f_equal.
    set (g := fun m y z => kmul (kmul (SW i (m + 1) y) (SW (i + m + 1) (w - m) z)) (rule x y z)).
    transitivity (kadd (kadd
       (Sum S (fun m => Sum S (fun y => Sum S (fun z => g m y z) (seq 0 NT)) (seq 0 NT)) (seq 0 w))
       (Sum S (fun m => Sum S (fun y => Sum S (fun t => g m y (NT + t)) (seq 0 T)) (seq 0 NT)) (seq 0 w)))
      (kadd
       (Sum S (fun m => Sum S (fun t => Sum S (fun z => g m (NT + t) z) (seq 0 NT)) (seq 0 T)) (seq 0 w))
       (Sum S (fun m => Sum S (fun t => Sum S (fun u => g m (NT + t) (NT + u)) (seq 0 T)) (seq 0 T)) (seq 0 w)))).
    2:{ rewrite <- !Sum_add. apply Sum_ext. intro m. symmetry. apply (@Sum_blocks S NT T (g m)). }
    assert (HAm : forall m y, m < w -> y < NT -> cA i m y = SW i (m + 1) y).
    { intros m y Hm Hy. apply HA; lia. }
    assert (HBm : forall m z, m < w -> z < NT -> cB (i + w) (N - w + m) z = SW (i + m + 1) (w - m) z).
    { intros m z Hm Hz. replace (N - w + m) with (N - 1 - (w - 1 - m)) by lia.
      rewrite HB by lia. f_equal; lia. }
    assert (E1 : cy_X1 (csr_ops S) NT N b pot cA cB w i x =
      Sum S (fun m => Sum S (fun y => Sum S (fun z => g m y z) (seq 0 NT)) (seq 0 NT)) (seq 0 w)).
    { unfold cy_X1. rewrite matmul_csr. unfold cy_arr, crule.
      etransitivity; [exact (@Sum_pair S NT T HT HNT NT NT (fun y z => kmul (matmul (csr_ops S) w (fun y0 m => cA i m y0)
         (fun m z0 => cB (i + w) (N - w + m) z0) y z) (pot [1; b; x; 0 + y; 0 + z])))|].
      rewrite Sum_comm.
      symmetry. rewrite Sum_comm.
      transitivity (Sum S (fun y => Sum S (fun z => Sum S (fun m => g m y z) (seq 0 w)) (seq 0 NT)) (seq 0 NT)).
      { apply Sum_ext. intro y. apply Sum_comm. }
      rewrite Sum_comm. apply Sum_seq_ext. intros z Hz. apply Sum_seq_ext. intros y Hy.
      rewrite matmul_csr, <- Sum_scale_r. apply Sum_seq_ext. intros m Hm.
      unfold g. rewrite HAm, HBm by lia. reflexivity. }
    assert (E2 : cy_X2 (csr_ops S) NT T b pot cA w i x =
      Sum S (fun m => Sum S (fun y => Sum S (fun t => g m y (NT + t)) (seq 0 T)) (seq 0 NT)) (seq 0 w)).
    { unfold cy_X2. rewrite matmul_csr. unfold cy_arr, crule, cterm.
      etransitivity; [exact (@Sum_pair S NT T HT HNT NT T (fun y t => kmul (kmul (cA i (w - 1) y) (pot [0; b; i + w; t]))
         (pot [1; b; x; 0 + y; NT + t])))|].
      symmetry. rewrite (@Sum_single S nat _ (w - 1)); [symmetry|apply seq_NoDup|apply in_seq; lia|].
      - apply Sum_seq_ext. intros y Hy. apply Sum_seq_ext. intros t Ht.
        unfold g. rewrite HAm by lia. replace (w - (w - 1)) with 1 by lia.
        rewrite SW_term by lia. replace (i + (w - 1) + 1) with (i + w) by lia. reflexivity.
      - intros m Hm Hne. apply in_seq in Hm. apply Sum_zero. intros y _. apply Sum_zero. intros t _.
        unfold g. rewrite (SW_term_0 _ t) by lia. ring. }
    assert (E3 : cy_X3 (csr_ops S) NT T N b pot cB w i x =
      Sum S (fun m => Sum S (fun t => Sum S (fun z => g m (NT + t) z) (seq 0 NT)) (seq 0 T)) (seq 0 w)).
    { unfold cy_X3. rewrite matmul_csr. unfold cy_arr, crule, cterm.
      etransitivity; [exact (@Sum_pair S NT T HT HNT T NT (fun t z => kmul (kmul (pot [0; b; i; t]) (cB (i + w) (N - w) z))
         (pot [1; b; x; NT + t; 0 + z])))|].
      symmetry. rewrite (@Sum_single S nat _ 0); [symmetry|apply seq_NoDup|apply in_seq; lia|].
      - apply Sum_seq_ext. intros t Ht. apply Sum_seq_ext. intros z Hz.
        unfold g. simpl (0 + 1). rewrite SW_term by lia.
        rewrite <- (HBm 0 z) by lia. rewrite Nat.add_0_r. reflexivity.
      - intros m Hm Hne. apply in_seq in Hm. apply Sum_zero. intros t _. apply Sum_zero. intros z _.
        unfold g. rewrite (SW_term_0 _ t) by lia. ring. }
    unfold cy_span. rewrite E1, E2, E3. cbn [ssum csr_ops].
    destruct (w =? 1) eqn:E.
    - apply Nat.eqb_eq in E. subst w.
      assert (E4 : cy_X4 (csr_ops S) NT T b pot 1 i x =
        Sum S (fun m => Sum S (fun t => Sum S (fun u => g m (NT + t) (NT + u)) (seq 0 T)) (seq 0 T)) (seq 0 1)).
      { unfold cy_X4. rewrite matmul_csr. unfold cy_arr, crule, cterm.
        etransitivity; [exact (@Sum_pair S NT T HT HNT T T (fun t u => kmul (kmul (pot [0; b; i; t]) (pot [0; b; i + 1; u]))
           (pot [1; b; x; NT + t; NT + u])))|].
        cbn [seq]. rewrite Sum_one. apply Sum_seq_ext. intros t Ht. apply Sum_seq_ext. intros u Hu.
        unfold g. simpl (0 + 1). replace (1 - 0) with 1 by lia.
        rewrite !SW_term by lia. replace (i + 0 + 1) with (i + 1) by lia. reflexivity. }
      rewrite E4. simpl. ring.
    - apply Nat.eqb_neq in E.
      assert (E4 : Sum S (fun m => Sum S (fun t => Sum S (fun u => g m (NT + t) (NT + u)) (seq 0 T)) (seq 0 T)) (seq 0 w) = k0).
      { apply Sum_zero. intros m Hm. apply in_seq in Hm. apply Sum_zero. intros t _. apply Sum_zero. intros u _.
        unfold g. destruct (Nat.eq_dec m 0) as [->|].
        - rewrite (SW_term_0 _ u) by lia. ring.
        - rewrite (SW_term_0 _ t) by lia. ring. }
      rewrite E4. simpl. ring.
  Qed.

  Lemma cs_inv_step w st : 0 < w < N -> cs_inv (w - 1) st -> cs_inv w (cs_step (csr_ops S) NT T N b pot st w).
  Proof.
    intros Hw H. destruct st as [cA cB]. pose proof H as [HA HB]. cbn [fst snd] in HA, HB.
    split; unfold cs_step; cbn [fst snd].
    - intros i k x Hk Hi Hx. destruct (k =? w) eqn:E.
      + apply Nat.eqb_eq in E; subst k.
        replace (i <? N - w) with true by (symmetry; apply Nat.ltb_lt; lia). cbn [andb].
        apply cs_span_correct; auto; lia.
      + apply Nat.eqb_neq in E. rewrite andb_false_r. apply HA; lia.
    - intros j k x Hk Hj HjN Hx. destruct (N - 1 - k =? N - w - 1) eqn:E.
      + apply Nat.eqb_eq in E. assert (k = w) by lia. subst k.
        replace (w <=? j) with true by (symmetry; apply Nat.leb_le; lia).
        replace (j <? N) with true by (symmetry; apply Nat.ltb_lt; lia). cbn [andb].
        apply cs_span_correct; auto; lia.
      + apply Nat.eqb_neq in E. rewrite andb_false_r. apply HB; lia.
  Qed.
  Lemma cs_run_inv w : w < N ->
    cs_inv w (fold_left (cs_step (csr_ops S) NT T N b pot) (seq 1 w) (cy_init (csr_ops S))).
  Proof.
    induction w; intro Hw.
    - split; simpl; intros.
      + replace k with 0 by lia. now rewrite SW_nt_1.
      + replace k with 0 by lia. now rewrite SW_nt_1.
    - rewrite seq_S, fold_left_app. cbn [fold_left]. apply cs_inv_step; [lia|].
      replace (1 + w - 1) with w by lia. apply IHw. lia.
  Qed.
  Lemma cs_one_sum len : 1 <= len <= N ->
    cs_one (csr_ops S) NT T N b pot len =
    Sum S (fun p => Prod S pot (marked_parts NT b p)) (parses NT T len).
  Proof.
    intro HL. unfold cs_one, pyidx.
    replace (len =? 0) with false by (symmetry; apply Nat.eqb_neq; lia).
    destruct (@cs_run_inv (N - 1)) as [HA _]; [lia|].
    rewrite dot_csr. unfold parses. rewrite Sum_flat_map. apply Sum_seq_ext. intros x Hx.
    unfold cs_run. rewrite HA by lia. replace (len - 1 + 1) with len by lia.
    unfold SW. rewrite <- Sum_scale_r. apply Sum_ext_in. intros p Hp.
    apply ptrees_enum in Hp as (_ & _ & Hp); [|lia].
    unfold marked_parts, parse_parts. rewrite Prod_app, Prod_cons, Hp. unfold croot, SPW. ring.
  Qed.
End Correct.

Lemma cs_one_eff O NT T N b pot len : 1 <= N -> cs_one O NT T N b pot len = cs_one O NT T N b pot (eff_len N len).
Proof.
  intro HN. unfold cs_one, eff_len. destruct len; [|reflexivity]. simpl. unfold pyidx. simpl.
  destruct (Nat.eqb_spec N 0); [lia|reflexivity].
Qed.
(** one row with offsets, as a family (Family.v) *)
Program Definition cs_fam {batch N NT T lengths} (Ha : cy_args batch N NT T lengths) (b : nat) (Hb : b < batch) : family :=
  {| fst_ := ptree; fok := is_parse NT T (eff_len N (lc_len N lengths b)); fparts := marked_parts NT b;
     frun := fun O p => cs_one O NT T N b p (lc_len N lengths b);
     flist := parses NT T (eff_len N (lc_len N lengths b)) |}.
Next Obligation. apply resp_cs_one; auto; apply Ha. Qed.
Next Obligation. apply parses_enum; auto. Qed.
Next Obligation.
  etransitivity; [apply (cs_one_eff (csr_ops S) NT T b p (lc_len N lengths b)), Ha|].
  destruct Ha as (HN & HNT & HT & HL).
  apply cs_one_sum; auto. apply (@eff_len_ok batch); auto.
Qed.

(** ** Bounds on the graph: as in Degree.v, with at most one offset per width *)
Section Bound.
  Variables (NT T N b : nat).
  Hypotheses (HNT : 0 < NT) (HT : 0 < T).
  Let Q := (NT + T) * (NT + T).
  Let HQ : 0 < Q. Proof. unfold Q. nia. Qed.
  (** proof device: bounds of all cells of the first chart *)
  Definition sA_ok (cA : nat -> nat -> nat -> term) : Prop := forall i k x, bnd (3 * k + 1) (cnum Q k) (cA i k x).
  (** proof device: bounds of all cells of the second chart *)
  Definition sB_ok (cB : nat -> nat -> nat -> term) : Prop :=
    forall j k x, k < N -> bnd (3 * (N - 1 - k) + 1) (cnum Q (N - 1 - k)) (cB j k x).
  Lemma cs_span_bnd cA cB w i x : 1 <= w -> w < N -> sA_ok cA -> sB_ok cB ->
    bnd (3 * w + 1) (cnum Q w) (cs_span tops NT T N b TLeaf cA cB w i x).
  Proof.
    intros Hw HwN HA HB. unfold cs_span. replace (3 * w + 1) with (3 * w + 0 + 1) by lia.
    replace (cnum Q w) with (cnum Q w * 1) by lia. apply bnd_mul; [|apply bnd_leaf].
    rewrite Nat.add_0_r. unfold cy_span.
    set (c := cnum Q (w - 1)).
    assert (B1 : bnd (3 * w) (NT * NT * (w * c)) (cy_X1 tops NT N b TLeaf cA cB w i x)).
    { apply bnd_sum_seq. intros p _. 
      replace (w * c) with (w * c * 1) by lia. replace (3 * w) with (3 * w - 1 + 1) by lia.
      apply bnd_mul; [|apply bnd_leaf].
      apply bnd_sum_seq. intros m Hm. eapply bnd_le; [apply bnd_mul; [apply HA|apply HB; lia]|lia|].
      replace (N - 1 - (N - w + m)) with (w - 1 - m) by lia. etransitivity; [apply cnum_mul|].
      unfold c. replace (m + (w - 1 - m)) with (w - 1) by lia. lia. }
    assert (B2 : bnd (3 * w) (NT * T * c) (cy_X2 tops NT T b TLeaf cA w i x)).
    { apply bnd_sum_seq. intros p _. eapply bnd_le; [apply bnd_mul; [apply bnd_mul; [apply HA|apply bnd_leaf]|apply bnd_leaf]|lia|].
      unfold c. lia. }
    assert (B3 : bnd (3 * w) (T * NT * c) (cy_X3 tops NT T N b TLeaf cB w i x)).
    { apply bnd_sum_seq. intros p _. eapply bnd_le; [apply bnd_mul; [apply bnd_mul; [apply bnd_leaf|apply HB; lia]|apply bnd_leaf]|lia|].
      unfold c. replace (N - 1 - (N - w)) with (w - 1) by lia. lia. }
    assert (B4 : bnd (3 * w) (T * T * 1) (cy_X4 tops NT T b TLeaf w i x)).
    { apply bnd_sum_seq. intros p _. eapply bnd_le; [apply bnd_mul; [apply bnd_mul; apply bnd_leaf|apply bnd_leaf]|lia|].
      lia. }
    assert (Hc : 1 <= c) by (apply cnum_pos, HQ).
    assert (E : cnum Q w = Q * (w * c)).
    { unfold c, cnum. destruct w as [|w]; [lia|]. simpl. rewrite Nat.sub_0_r. ring. }
    rewrite E. simpl app.
    assert (P1 : w * c >= c) by nia.
    destruct (w =? 1).
    - eapply bnd_le; [apply bnd_cons; [exact B1|apply bnd_cons; [exact B2|apply bnd_cons; [exact B3|
        apply bnd_cons; [exact B4|apply bnd_nil]]]]|lia|]. unfold Q. nia.
    - eapply bnd_le; [apply bnd_cons; [exact B1|apply bnd_cons; [exact B2|apply bnd_cons; [exact B3|
        apply bnd_nil]]]|lia|]. unfold Q. nia.
  Qed.
  Lemma cs_run_bnd : sA_ok (fst (cs_run tops NT T N b TLeaf)) /\ sB_ok (snd (cs_run tops NT T N b TLeaf)).
  Proof.
    unfold cs_run.
    assert (G : forall l s, Forall (fun w => 1 <= w < N) l -> sA_ok (fst s) /\ sB_ok (snd s) ->
      sA_ok (fst (fold_left (cs_step tops NT T N b TLeaf) l s)) /\ sB_ok (snd (fold_left (cs_step tops NT T N b TLeaf) l s))).
    { induction l as [|w l IH]; intros s Hl Hs; simpl; auto. inversion_clear Hl as [|? ? Hw Hl'].
      apply IH; auto. destruct s as [cA cB], Hs as [HA HB]. split; simpl.
      - intros i k x. destruct ((i <? N - w) && (k =? w)) eqn:E; auto.
        apply andb_true_iff in E as [_ E]. apply Nat.eqb_eq in E. subst k. apply cs_span_bnd; auto; lia.
      - intros j k x Hk. destruct ((w <=? j) && (j <? N) && (k =? N - w - 1)) eqn:E; [|apply HB; auto].
        apply andb_true_iff in E as [_ E]. apply Nat.eqb_eq in E. subst k.
        replace (N - 1 - (N - w - 1)) with w by lia. apply cs_span_bnd; auto; lia. }
    apply G.
    - apply Forall_forall. intros w Hw. apply in_seq in Hw. lia.
    - split; simpl; intros i k x; intros; (eapply bnd_le; [apply bnd_zero|lia|apply cnum_pos, HQ]).
  Qed.
  Theorem cs_one_bnd len : 1 <= len ->
    bnd (3 * len) (NT * cnum Q (len - 1)) (cs_one tops NT T N b TLeaf len).
  Proof.
    intro Hl. unfold cs_one, pyidx. destruct (Nat.eqb_spec len 0); [lia|].
    apply bnd_sum_seq. intros x _. replace (cnum Q (len - 1)) with (cnum Q (len - 1) * 1) by lia.
    eapply bnd_le; [apply bnd_mul; [apply cs_run_bnd|apply bnd_leaf]|lia|lia].
  Qed.
End Bound.

(** ** Which potentials occur: those of the row, and offsets of spans inside the sentence *)
Definition in_span (b i w : nat) (e : list nat) : Prop :=
  nth 1 e 0 = b /\ (nth 0 e 0 = 3 -> i <= nth 3 e 0 /\ nth 3 e 0 + nth 2 e 0 + 1 <= i + w).
Section Reach.
  Variables (NT T N b : nat).
  (** proof device: cells of the first chart read their own span only *)
  Definition rA_ok (cA : nat -> nat -> nat -> term) : Prop := forall i k x, inrow (in_span b i k) (cA i k x).
  (** proof device: cells of the second chart read their own span only *)
  Definition rB_ok (cB : nat -> nat -> nat -> term) : Prop :=
    forall j k x, k < N -> inrow (in_span b (j - (N - 1 - k)) (N - 1 - k)) (cB j k x).
  Lemma in_span_weak i w i' w' e : i' <= i -> i + w <= i' + w' -> in_span b i w e -> in_span b i' w' e.
  Proof. intros H1 H2 [G1 G2]. split; auto. intro H. specialize (G2 H). lia. Qed.
  Lemma leaf_span i w k l : k < 3 -> inrow (in_span b i w) (TLeaf (k :: b :: l)).
  Proof. intro H. apply inrow_leaf. split; simpl; [reflexivity|lia]. Qed.
  Lemma cs_span_reach cA cB w i x : 1 <= w -> w < N -> rA_ok cA -> rB_ok cB ->
    inrow (in_span b i w) (cs_span tops NT T N b TLeaf cA cB w i x).
  Proof.
    intros Hw HwN HA HB.
    assert (GA : forall k y, k < w -> inrow (in_span b i w) (cA i k y)).
    { intros k y Hk. eapply inrow_weak; [|apply HA]. intro e. apply in_span_weak; lia. }
    assert (GB : forall m z, m < w -> inrow (in_span b i w) (cB (i + w) (N - w + m) z)).
    { intros m z Hm. eapply inrow_weak; [|apply HB; lia]. intro e. apply in_span_weak; lia. }
    apply inrow_mul; [|apply inrow_leaf; split; simpl; auto; lia].
    unfold cy_span. apply inrow_sum. apply Forall_app. split.
    - repeat apply Forall_cons; try apply Forall_nil; apply inrow_sum_seq; intros p _;
        (apply inrow_mul; [|apply leaf_span; lia]).
      + apply inrow_sum_seq. intros q Hq. apply inrow_mul; [apply GA|apply GB]; lia.
      + apply inrow_mul; [apply GA; lia|apply leaf_span; lia].
      + apply inrow_mul; [apply leaf_span; lia|]. rewrite <- (Nat.add_0_r (N - w)). apply GB; lia.
    - destruct (w =? 1); [|apply Forall_nil]. apply Forall_cons; [|apply Forall_nil].
      apply inrow_sum_seq; intros p _. apply inrow_mul; [apply inrow_mul|]; apply leaf_span; lia.
  Qed.
  Lemma cs_run_reach : rA_ok (fst (cs_run tops NT T N b TLeaf)) /\ rB_ok (snd (cs_run tops NT T N b TLeaf)).
  Proof.
    unfold cs_run.
    assert (G : forall l s, Forall (fun w => 1 <= w < N) l -> rA_ok (fst s) /\ rB_ok (snd s) ->
      rA_ok (fst (fold_left (cs_step tops NT T N b TLeaf) l s)) /\ rB_ok (snd (fold_left (cs_step tops NT T N b TLeaf) l s))).
    { induction l as [|w l IH]; intros s Hl Hs; simpl; auto. inversion_clear Hl as [|? ? Hw Hl'].
      apply IH; auto. destruct s as [cA cB], Hs as [HA HB]. split; simpl.
      - intros i k x. destruct ((i <? N - w) && (k =? w)) eqn:E; auto.
        apply andb_true_iff in E as [_ E]. apply Nat.eqb_eq in E. subst k. apply cs_span_reach; auto; lia.
      - intros j k x Hk. destruct ((w <=? j) && (j <? N) && (k =? N - w - 1)) eqn:E; [|apply HB; auto].
        apply andb_true_iff in E as [_ E]. apply Nat.eqb_eq in E. subst k.
        replace (N - 1 - (N - w - 1)) with w by lia. apply cs_span_reach; auto; lia. }
    apply G.
    - apply Forall_forall. intros w Hw. apply in_seq in Hw. lia.
    - split; simpl; intros i k x; intros; apply inrow_zero.
  Qed.
  Theorem cs_one_reach len : 1 <= len -> inrow (in_span b 0 (len - 1)) (cs_one tops NT T N b TLeaf len).
  Proof.
    intro Hl. unfold cs_one, pyidx. destruct (Nat.eqb_spec len 0); [lia|].
    apply inrow_sum_seq. intros x _. apply inrow_mul; [apply cs_run_reach|apply leaf_span; lia].
  Qed.
End Reach.

(** the constituents as a test *)
Fixpoint has_span (p : ptree) (i n x : nat) : bool :=
  match p with
  | PT _ => false
  | PN y l r => ((i =? 0) && (n =? psize l + psize r) && (x =? y)) || has_span l i n x ||
                ((psize l <=? i) && has_span r (i - psize l) n x)
  end.
Lemma has_span_spec p : forall i n x, has_span p i n x = true <-> constituent p i n x.
Proof.
  induction p as [t|y l IHl r IHr]; intros i n x; simpl.
  - split; [discriminate|]. intro H. inversion H.
  - rewrite !orb_true_iff, !andb_true_iff, !Nat.eqb_eq, Nat.leb_le, IHl, IHr. split.
    + intros [[[[-> ->] ->]|H]|[H1 H2]]; [constructor|now constructor|].
      replace i with (psize l + (i - psize l)) by lia. now constructor.
    + intro H. inversion H; subst; auto. right. split; [lia|]. now replace (psize l + i0 - psize l) with i0 by lia.
Qed.
Lemma pparts_low NT b p : forall i e, In e (pparts NT b i p) -> nth 0 e 0 < 3.
Proof.
  induction p as [t|x l IHl r IHr]; intros i e; simpl.
  - intros [<-|[]]. simpl. lia.
  - intros [<-|H]; [simpl; lia|]. apply in_app_or in H as [H|H]; eauto.
Qed.
Lemma parse_parts_low NT b p e : In e (parse_parts NT b p) -> nth 0 e 0 < 3.
Proof. intros [<-|H]; [simpl; lia|eapply pparts_low; exact H]. Qed.
Lemma span_parts_high b p i e : In e (span_parts b i p) -> nth 0 e 0 = 3.
Proof. intro H. apply span_parts_in in H as (j & n & x & _ & ->). reflexivity. Qed.

Local Open Scope R_scope.
(** a parse meets the offset of a span once if it has the constituent, else never *)
Lemma uses_span NT b p w i x : uses (marked_parts NT b) [3; b; w; i; x]%nat p = if has_span p i (w + 2) x then 1 else 0.
Proof.
  unfold uses, marked_parts. rewrite count_occ_app.
  rewrite (proj1 (count_occ_not_In _ (parse_parts NT b p) [3; b; w; i; x]%nat))
    by (intro H; apply parse_parts_low in H; simpl in H; lia).
  destruct (has_span p i (w + 2) x) eqn:E.
  - apply has_span_spec in E. rewrite (proj1 (NoDup_count_occ' _ _) (span_parts_nodup b p 0)); [reflexivity|].
    apply span_parts_in. exists i, (w + 2)%nat, x. split; auto. repeat f_equal; lia.
  - rewrite (proj1 (count_occ_not_In _ (span_parts b 0 p) _)); [reflexivity|]. intro H.
    apply span_parts_in in H as (j & n & y & H & E'). injection E' as -> -> ->.
    pose proof (constituent_range H) as [Hn _]. apply has_span_spec in H.
    replace (n - 2 + 2)%nat with n in E by lia. simpl in E. congruence.
Qed.
(** other parts are counted as before *)
Lemma uses_other NT b p e : (nth 0 e 0 < 3)%nat -> uses (marked_parts NT b) e p = uses (parse_parts NT b) e p.
Proof.
  intro He. unfold uses, marked_parts. rewrite count_occ_app.
  rewrite (proj1 (count_occ_not_In _ (span_parts b 0 p) e)); [now rewrite Nat.add_0_r|].
  intro H. apply span_parts_high in H. lia.
Qed.
(** offsets that are 0, the [one] of LogSemiring and MaxSemiring *)
Definition offsets (phi : list nat -> R) (e : list nat) : R :=
  match e with 3%nat :: _ => 0 | _ => phi e end.
Lemma sc_offsets NT b phi p : sc (marked_parts NT b) (offsets phi) p = sc (parse_parts NT b) phi p.
Proof.
  unfold sc, marked_parts. rewrite RSum_app.
  rewrite (@Sum_ext_in R_csr _ (offsets phi) phi (parse_parts NT b p)).
  - rewrite (@Sum_ext_in R_csr _ (offsets phi) (fun _ => 0) (span_parts b 0 p)); [rewrite RSum_const; ring|].
    intros e He. apply span_parts_high in He. unfold offsets. destruct e as [|n e]; simpl in He; [discriminate|subst; reflexivity].
  - intros e He. apply parse_parts_low in He. destruct e as [|[|[|[|n]]] e]; simpl in *; auto. lia.
Qed.
Lemma offsets_bound phi B : (forall e, Rabs (phi e) <= B) -> forall e, Rabs (offsets phi e) <= B.
Proof.
  intros H e. unfold offsets. destruct e as [|[|[|[|[|n]]]] e]; auto.
  simpl. rewrite Rabs_R0. eapply Rle_trans; [apply Rabs_pos|apply (H [])].
Qed.
