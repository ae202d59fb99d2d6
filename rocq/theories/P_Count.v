(** * P_Count: [StructDistribution.count] *)
From Coq Require Import Reals Lra.
From Verif Require Import Base Ops Terms Semirings Poly Chain LinearChain SemiMarkov CkyCrf Cky DepSpec DepTree Batch Family Approx Grad Sample Dist Purity Degree Shape Api Query P_Real.
Set Implicit Arguments.
Local Open Scope R_scope.

(** distributions.py:185-190: potentials that are -inf become 0, all others 1, then
    [sum] in StdSemiring (exact: its zero is 0). [dead e] tells whether entry e of
    the potentials is -inf. For SentCFG the potentials are a tuple and
    [torch.ones_like] raises TypeError. *)
Definition q_count (c : call) (dead : list nat -> bool) : res (list R) :=
  match c with
  | CCfg _ _ _ _ _ => Err TypeError
  | _ => run c std_ops (fun e => if dead e then 0 else 1)
  end.

(** C40 *)
Theorem C40_count c dead : valid c -> (forall a b d e f, c <> CCfg a b d e f) ->
  exists v, q_count c dead = Ok v /\ length v = batch_of c /\
  forall b l, row_ok c b -> let S := spec_of c b in Enumerates (ok S) l ->
    nth b v 0 = INR (length (filter (fun s => forallb (fun e => negb (dead e)) (prt S s)) l)).
Proof.
  intros V Hc. assert (E : q_count c dead = run c std_ops (fun e => if dead e then 0 else 1)) by (destruct c; cbn; auto; exfalso; eapply Hc; reflexivity).
  rewrite E. destruct (run_ok c std_ops (fun e => if dead e then 0 else 1) V) as (v & Ev & Lv). exists v. split; [exact Ev|]. split; [exact Lv|].
  intros b l Hb; cbv zeta; intro Hl. destruct (row_family V Hb) as (F & HF).
  destruct (ir_run HF std_ops (fun e => if dead e then 0 else 1) 0) as (v' & Ev' & _ & En). rewrite Ev in Ev'. injection Ev' as <-.
  etransitivity; [exact En|]. revert l Hl. rewrite <- (ir_spec HF). cbn [ok prt fspec]. intros l Hl.
  etransitivity; [apply (fcorrect F R_csr)|].
  etransitivity; [exact (Sum_enum R_csr _ (fenum F) Hl)|].
  clear. induction l as [|s l IH]; [reflexivity|]. etransitivity; [apply RSum_cons|]. etransitivity; [apply (f_equal (Rplus _) IH)|]. cbn [filter].
  assert (P : Prod R_csr (fun e => if dead e then 0 else 1) (fparts F s) = if forallb (fun e => negb (dead e)) (fparts F s) then 1 else 0).
  { induction (fparts F s) as [|e es IHe]; [reflexivity|]. etransitivity; [apply (Prod_cons R_csr)|]. rewrite IHe. cbn [forallb kmul R_csr].
    destruct (dead e); cbn [negb andb]; destruct (forallb _ es); ring. }
  destruct (forallb (fun e => negb (dead e)) (fparts F s)) eqn:A.
  - cbn [length]. rewrite S_INR. etransitivity; [apply (f_equal (fun x => x + INR _) P)|]. cbv beta. lra.
  - etransitivity; [apply (f_equal (fun x => x + INR _) P)|]. cbv beta. lra.
Qed.
Print Assumptions C40_count.
Theorem C40_cfg_raises a b d e f dead : q_count (CCfg a b d e f) dead = Err TypeError.
Proof. reflexivity. Qed.

Lemma flat_map_const A B (f : A -> list B) k l : (forall a, In a l -> length (f a) = k) -> length (flat_map f l) = (length l * k)%nat.
Proof. induction l as [|a l IH]; intro H; [reflexivity|]. cbn [flat_map length]. rewrite app_length, IH, H; auto with datatypes. Qed.
Lemma seqs_length C n : length (seqs C n) = (C ^ n)%nat.
Proof.
  induction n as [|n IH]; [reflexivity|]. cbn [seqs]. rewrite flat_map_const with (k := (C ^ n)%nat).
  - rewrite seq_length. reflexivity.
  - intros. now rewrite map_length.
Qed.
Lemma Enumerates_length A (P : A -> Prop) l l' : Enumerates P l -> Enumerates P l' -> length l = length l'.
Proof. intros H1 H2. apply Permutation_length. eapply Enumerates_perm; eauto. Qed.
Lemma filter_all A (f : A -> bool) l : (forall x, f x = true) -> filter f l = l.
Proof. intro H. induction l; cbn; [reflexivity|]. rewrite H. now f_equal. Qed.
Lemma forallb_true A (f : A -> bool) l : (forall x, f x = true) -> forallb f l = true.
Proof. intro H. apply forallb_forall. auto. Qed.

(** without -inf: C^len label sequences *)
Theorem C40_chain_count batch N C ls : valid (CLin batch N C ls) ->
  exists v, q_count (CLin batch N C ls) (fun _ => false) = Ok v /\
  forall b, (b < batch)%nat -> nth b v 0 = INR (C ^ Nat.max 1 (lc_len N ls b)).
Proof.
  intro V. destruct (C40_count (fun _ => false) V ltac:(discriminate)) as (v & E & L & H). exists v. split; [exact E|].
  intros b Hb. rewrite (H b (seqs C (Nat.max 1 (lc_len N ls b)))); [|split; cbn; auto|apply seqs_enum].
  rewrite filter_all by (intro; now apply forallb_true). now rewrite seqs_length.
Qed.
Print Assumptions C40_chain_count.
(** labelled binary bracketings: NT^(2n-1) times the Catalan number of n-1 *)
Fixpoint catalan_upto (n : nat) : list nat := (* [c_n; ...; c_0] *)
  match n with
  | O => [1%nat]
  | S m => let l := catalan_upto m in fold_right Nat.add 0%nat (map (fun p => fst p * snd p)%nat (combine l (rev l))) :: l
  end.
(** spec: number of binary trees *)
Definition catalan (n : nat) : nat := nth 0 (catalan_upto n) 0%nat.
Lemma catalan_upto_map n : catalan_upto n = map catalan (rev (seq 0 (S n))).
Proof.
  induction n as [|n IH]; [reflexivity|]. rewrite seq_S, rev_app_distr. cbn [rev app map]. rewrite <- IH. cbn [plus]. reflexivity.
Qed.
Lemma catalan_S n : catalan (S n) = fold_right Nat.add 0%nat (map (fun i => catalan i * catalan (n - i))%nat (seq 0 (S n))).
Proof.
  unfold catalan at 1. cbn [catalan_upto nth]. rewrite catalan_upto_map.
  rewrite <- map_rev, rev_involutive.
  assert (G : forall m k, (S n = k + m)%nat -> combine (map catalan (rev (seq 0 m))) (map catalan (seq k m)) =
     map (fun i => (catalan (n - i), catalan i)) (seq k m)).
  { induction m as [|m IH]; intros k Hk; [reflexivity|]. rewrite seq_S, rev_app_distr. cbn [rev app map plus seq combine].
    f_equal; [do 2 f_equal; lia|]. apply IH. lia. }
  rewrite G by lia. rewrite map_map. f_equal. apply map_ext. intro i. cbn [fst snd]. lia.
Qed.
Lemma ltrees_length NT : forall fuel n, (1 <= n <= fuel)%nat -> length (ltrees NT fuel n) = (NT ^ (2 * n - 1) * catalan (n - 1))%nat.
Proof.
  induction fuel as [|f IH]; intros n Hn; [lia|]. cbn [ltrees]. rewrite app_length.
  destruct (Nat.eqb_spec n 1) as [->|Hn1].
  - rewrite map_length, seq_length. cbn. lia.
  - cbn [length plus]. destruct n as [|[|n]]; try lia. cbn [Nat.sub]. rewrite catalan_S.
    assert (G : forall l, (forall m, In m l -> (1 <= m <= S n)%nat) ->
      length (flat_map (fun m => flat_map (fun a => flat_map (fun t => map (LNode a t) (ltrees NT f (S (S n) - m))) (ltrees NT f m)) (seq 0 NT)) l) =
      (NT ^ (2 * S (S n) - 1) * fold_right Nat.add 0 (map (fun m => catalan (m - 1) * catalan (n - (m - 1))) l))%nat).
    { induction l as [|m l IHl]; intro Hl; [cbn; lia|]. cbn [flat_map map fold_right]. rewrite app_length, IHl by auto with datatypes.
      specialize (Hl m (or_introl eq_refl)).
      rewrite flat_map_const with (k := (NT ^ (2 * m - 1) * catalan (m - 1) * (NT ^ (2 * (S (S n) - m) - 1) * catalan (S (S n) - m - 1)))%nat).
      - rewrite seq_length, Nat.mul_add_distr_l. f_equal. replace (S (S n) - m - 1)%nat with (n - (m - 1))%nat by lia.
        replace (2 * S (S n) - 1)%nat with (1 + (2 * m - 1) + (2 * (S (S n) - m) - 1))%nat by lia. rewrite !Nat.pow_add_r, Nat.pow_1_r. ring.
      - intros a _. rewrite flat_map_const with (k := (NT ^ (2 * (S (S n) - m) - 1) * catalan (S (S n) - m - 1))%nat); [rewrite IH by lia; reflexivity|].
        intros t _. rewrite map_length. apply IH. lia. }
    rewrite G by (intros m Hm; apply in_seq in Hm; lia). f_equal. f_equal. rewrite <- (seq_shift (S n) 0), map_map.
    apply map_ext. intro i. replace (S i - 1)%nat with i by lia. reflexivity.
Qed.
Theorem C40_tree_count batch N NT ls : valid (CTree batch N NT ls) ->
  exists v, q_count (CTree batch N NT ls) (fun _ => false) = Ok v /\
  forall b, (b < batch)%nat -> let n := eff_len N (lc_len N ls b) in (1 <= n)%nat -> nth b v 0 = INR (NT ^ (2 * n - 1) * catalan (n - 1)).
Proof.
  intro V. destruct (C40_count (fun _ => false) V ltac:(discriminate)) as (v & E & L & H). exists v. split; [exact E|].
  intros b Hb n Hn. rewrite (H b (ltrees NT n n)); [|split; cbn; auto|apply ltrees_enum; auto].
  rewrite filter_all by (intro; now apply forallb_true). now rewrite ltrees_length by lia.
Qed.
Print Assumptions C40_tree_count.
(** labelled segmentations: the first label, then segments *)
Fixpoint nsegs_upto (K C n : nat) : list nat := (* [g_n; ...; g_0], g_n = C * (g_{n-1} + ... + g_{n-K+1}) *)
  match n with
  | O => [1%nat]
  | S m => let l := nsegs_upto K C m in (C * fold_right Nat.add 0 (firstn (K - 1) l))%nat :: l
  end.
(** spec: number of segmentations *)
Definition nsegs (K C n : nat) : nat := nth 0 (nsegs_upto K C n) 0%nat.
Lemma nsegs_upto_map K C n : nsegs_upto K C n = map (nsegs K C) (rev (seq 0 (S n))).
Proof. induction n as [|n IH]; [reflexivity|]. rewrite seq_S, rev_app_distr. cbn [rev app map]. rewrite <- IH. reflexivity. Qed.
Lemma rev_seq n : rev (seq 0 n) = map (fun w => n - w)%nat (seq 1 n).
Proof.
  induction n as [|n IH]; [reflexivity|]. rewrite seq_S, rev_app_distr. cbn [rev app plus]. rewrite IH. cbn [seq map]. f_equal; [lia|].
  rewrite <- (seq_shift n 1), map_map. apply map_ext. intro. lia.
Qed.
Lemma nsegs_S K C n : nsegs K C (S n) = (C * fold_right Nat.add 0 (map (fun w => if (w <=? S n) then nsegs K C (S n - w) else 0) (seq 1 (K - 1))))%nat.
Proof.
  unfold nsegs at 1. cbn [nsegs_upto nth]. f_equal. rewrite nsegs_upto_map, rev_seq, map_map.
  generalize (K - 1)%nat as k. intro k.
  assert (G : forall m j k, (S n = j + m)%nat -> fold_right Nat.add 0%nat (firstn k (map (fun w => nsegs K C (S n - w)) (seq (S j) m))) =
     fold_right Nat.add 0%nat (map (fun w => if (w <=? S n) then nsegs K C (S n - w) else 0%nat) (seq (S j) k))).
  { induction m as [|m IH]; intros j k' Hj.
    - rewrite firstn_nil. cbn [fold_right]. symmetry. apply (f_equal (fun x => x)).
      assert (Z : forall l, (forall w, In w l -> (S n < w)%nat) -> fold_right Nat.add 0%nat (map (fun w => if (w <=? S n) then nsegs K C (S n - w) else 0%nat) l) = 0%nat).
      { induction l as [|w l IHl]; intro Hl; [reflexivity|]. cbn [map fold_right]. rewrite IHl by auto with datatypes.
        specialize (Hl w (or_introl eq_refl)). destruct (Nat.leb_spec w (S n)); lia. }
      apply Z. intros w Hw. apply in_seq in Hw. lia.
    - destruct k' as [|k']; [reflexivity|]. cbn [seq map firstn fold_right]. rewrite IH by lia.
      destruct (Nat.leb_spec (S j) (S n)); [reflexivity|lia]. }
  apply (G (S n) 0%nat k eq_refl).
Qed.
Lemma segs_length K C : forall fuel n, (n <= fuel)%nat -> length (segs K C fuel n) = nsegs K C n.
Proof.
  induction fuel as [|f IH]; intros n Hn; cbn [segs].
  - assert (n = 0)%nat as -> by lia. reflexivity.
  - destruct (Nat.eqb_spec n 0) as [->|Hn0]; [reflexivity|]. destruct n as [|n]; [lia|]. rewrite nsegs_S.
    assert (Hl : forall w, In w (seq 1 (K - 1)) -> (1 <= w)%nat) by (intros w Hw; apply in_seq in Hw; lia). revert Hl.
    generalize (seq 1 (K - 1)) as l. induction l as [|w l IHl]; intro Hl; [cbn; lia|]. cbn [flat_map map fold_right]. rewrite app_length, IHl by auto with datatypes.
    specialize (Hl w (or_introl eq_refl)). rewrite Nat.mul_add_distr_l. f_equal.
    destruct (Nat.leb_spec w (S n)); [|cbn; lia]. rewrite flat_map_const with (k := nsegs K C (S n - w)); [now rewrite seq_length|].
    intros c _. rewrite map_length. apply IH. lia.
Qed.
Theorem C40_segment_count batch N K C ls : valid (CSemi batch N K C ls) ->
  exists v, q_count (CSemi batch N K C ls) (fun _ => false) = Ok v /\
  forall b, (b < batch)%nat -> nth b v 0 = INR (C * nsegs K C (lc_len N ls b - 1)).
Proof.
  intro V. destruct (C40_count (fun _ => false) V ltac:(discriminate)) as (v & E & L & H). exists v. split; [exact E|].
  intros b Hb. rewrite (H b (segms K C (lc_len N ls b))); [|split; cbn; auto|apply segms_enum].
  rewrite filter_all by (intro; now apply forallb_true). unfold segms. rewrite flat_map_const with (k := nsegs K C (lc_len N ls b - 1)); [now rewrite seq_length|].
  intros c _. rewrite map_length. now apply segs_length.
Qed.
Print Assumptions C40_segment_count.
(** 3 words, 2 labels: 2^5 * 2 = 64 trees; chains of 3 positions over 3 labels
    where the step 0 -> 1 at the first position is forbidden: 27 - 3 = 24 *)
Example C40_example : exists v, q_count (CTree 1 3 2 None) (fun _ => false) = Ok v /\ nth 0 v 0 = 64.
Proof.
  assert (V : valid (CTree 1 3 2 None)) by (cbn; unfold ck_args; repeat split; lia).
  destruct (C40_tree_count V) as (v & E & H). exists v. split; [exact E|]. rewrite H by (cbn; lia). cbn. lra.
Qed.
Example C40_masked_example : exists v, q_count (CLin 1 3 3 None) (fun e => match e with [_; 0; 1; 0]%nat => true | _ => false end) = Ok v /\ nth 0 v 0 = 24.
Proof.
  assert (V : valid (CLin 1 3 3 None)) by (cbn; unfold lc_args; repeat split; lia).
  destruct (C40_count (fun e => match e with [_; 0; 1; 0]%nat => true | _ => false end) V ltac:(discriminate)) as (v & E & _ & H). exists v. split; [exact E|].
  rewrite (H 0%nat (seqs 3 3)); [|split; cbn; auto|apply seqs_enum].
  match goal with |- INR ?n = _ => replace n with 24%nat by reflexivity end. cbn. lra.
Qed.
