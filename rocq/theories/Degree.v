(** * Degree: closed-form bounds on the size of derivations and on their number,
    for the three families whose graph contains the zero constant. *)
From Verif Require Import Base Ops Terms Semirings Poly Chain LinearChain SemiMarkov CkyCrf Cky Batch Family Approx.
Set Implicit Arguments.

(** at most [n] derivations, each with at most [d] factors *)
Definition bnd (d n : nat) (t : term) : Prop := tdeg t <= d /\ length (expand t) <= n.

Lemma bnd_le d n d' n' t : bnd d n t -> d <= d' -> n <= n' -> bnd d' n' t.
Proof. intros [H1 H2] ? ?. split; lia. Qed.
Lemma bnd_leaf e : bnd 1 1 (TLeaf e). Proof. split; simpl; lia. Qed.
Lemma bnd_over e : bnd 1 1 (TOver e). Proof. split; simpl; lia. Qed.
Lemma bnd_zero : bnd 1 1 TZero. Proof. split; simpl; lia. Qed.
Lemma bnd_one : bnd 1 1 TOne. Proof. split; simpl; lia. Qed.
Lemma prods_length a b : length (prods a b) = length a * length b.
Proof.
  unfold prods. induction a as [|x a IH]; [reflexivity|]. simpl.
  etransitivity; [apply app_length|]. rewrite map_length. f_equal. exact IH.
Qed.
Lemma bnd_mul a b d n d' n' : bnd d n a -> bnd d' n' b -> bnd (d + d') (n * n') (TMul a b).
Proof.
  intros [H1 H2] [H3 H4]. split; simpl; [lia|]. rewrite prods_length. now apply Nat.mul_le_mono.
Qed.
Lemma bnd_sum l d (n : nat) : Forall (bnd d n) l -> bnd d (length l * n) (TSum l).
Proof.
  induction 1 as [|t l [H1 H2] Hl [IH1 IH2]]; simpl in *; [split; simpl; lia|].
  split; simpl in *; [lia|]. rewrite app_length. lia.
Qed.
Lemma bnd_sum_seq (f : nat -> term) s k d n : (forall i, s <= i < s + k -> bnd d n (f i)) ->
  bnd d (k * n) (TSum (map f (seq s k))).
Proof.
  intro H. replace (k * n) with (length (map f (seq s k)) * n) by (now rewrite map_length, seq_length).
  apply bnd_sum, Forall_forall. intros t Ht. apply in_map_iff in Ht as (i & <- & Hi). apply in_seq in Hi. auto.
Qed.
Lemma bnd_matmul C a b d n d' n' i j : (forall i k, bnd d n (a i k)) -> (forall k j, bnd d' n' (b k j)) ->
  bnd (d + d') (C * (n * n')) (matmul tops C a b i j).
Proof. intros Ha Hb. apply bnd_sum_seq. intros k _. now apply bnd_mul. Qed.

(** ** Chains *)
Definition bndm d n (M : nat -> nat -> term) : Prop := forall i j, bnd d n (M i j).
Lemma evens_Forall A (P : A -> Prop) l : Forall P l -> Forall P (evens l).
Proof.
  induction l as [|a|a b l IH] using list_pair_ind; intro H; simpl; auto.
  inversion_clear H. inversion_clear H1. constructor; auto.
Qed.
Lemma odds_Forall A (P : A -> Prop) l : Forall P l -> Forall P (odds l).
Proof. intro H. apply evens_Forall. destruct l; simpl; auto. now inversion H. Qed.
Lemma zip_Forall C d n l m : Forall (bndm d n) l -> Forall (bndm d n) m ->
  Forall (bndm (d + d) (C * (n * n))) (zip_with (matmul tops C) l m).
Proof.
  intro H. revert m. induction H as [|a l Ha Hl IH]; intros m Hm; simpl; [constructor|].
  destruct Hm; constructor; auto. intros i j. now apply bnd_matmul.
Qed.
(** after k rounds *)
Definition scan_num (C k n : nat) : nat := C ^ (2 ^ k - 1) * n ^ (2 ^ k).
Lemma pow2_pos k : 1 <= 2 ^ k.
Proof. induction k; simpl; lia. Qed.
Lemma scan_num_S C k n : scan_num C (S k) n = scan_num C k (C * (n * n)).
Proof.
  unfold scan_num. rewrite !Nat.pow_mul_l, <- Nat.pow_add_r. 
  rewrite Nat.mul_assoc, <- Nat.pow_add_r. pose proof (pow2_pos k). f_equal; f_equal; simpl; lia.
Qed.
Lemma scan_bnd C k : forall d n l, Forall (bndm d n) l ->
  Forall (bndm (2 ^ k * d) (scan_num C k n)) (scan tops C k l).
Proof.
  induction k as [|k IH]; intros d n l H; cbn [scan].
  - unfold scan_num. simpl. eapply Forall_impl; [|exact H]. intros M HM i j. eapply bnd_le; [apply HM|lia|lia].
  - rewrite scan_num_S. replace (2 ^ S k * d) with (2 ^ k * (d + d)) by (simpl; lia).
    apply IH. unfold scan_round. apply zip_Forall; auto using odds_Forall, evens_Forall.
Qed.
Lemma bnd_sum2 C d n M : bndm d n M -> bnd d (C * (C * n)) (sum2 tops C M).
Proof. intro H. apply bnd_sum_seq. intros. apply bnd_sum_seq. intros. apply H. Qed.

Lemma scan_num_pos C k n : 0 < C -> 0 < n -> 1 <= scan_num C k n.
Proof.
  intros. unfold scan_num. apply (Nat.mul_le_mono 1 _ 1); apply Nat.le_succ_l, Nat.neq_0_lt_0, Nat.pow_nonzero; lia.
Qed.
Lemma lc_one_bnd C k b len : 0 < C ->
  bnd (2 ^ k) (C * (C * scan_num C k 2)) (lc_one tops C k (2 ^ k) TLeaf b len).
Proof.
  intro HC. unfold lc_one.
  assert (H : Forall (bndm (2 ^ k * 1) (scan_num C k 2)) (scan tops C k (lc_chart tops TLeaf b len (2 ^ k)))).
  { apply scan_bnd. unfold lc_chart. apply Forall_forall. intros M HM.
    apply in_map_iff in HM as (n & <- & _). intros i j. unfold lc_cell, lc_init.
    apply (@bnd_sum [_; _] 1 1). constructor; [split|constructor; [split|constructor]]; unfold fill.
    1-2: destruct (negb (lc_mask len n)), (i =? j); simpl; lia.
    1-2: destruct (lc_mask len n); simpl; lia. }
  rewrite Nat.mul_1_r in H.
  destruct (scan tops C k (lc_chart tops TLeaf b len (2 ^ k))) as [|M l].
  - eapply bnd_le; [apply bnd_zero|apply pow2_pos|].
    pose proof (@scan_num_pos C k 2 HC). nia.
  - apply bnd_sum2. inversion H; auto.
Qed.

Lemma sm_one_bnd K C k b len : 2 <= K -> 0 < C ->
  bnd (2 ^ k) (C * (C * scan_num ((K - 1) * C) k 2)) (sm_one tops K C k (2 ^ k) TLeaf b len).
Proof.
  intros HK HC. unfold sm_one.
  assert (HD : 0 < (K - 1) * C) by (apply Nat.mul_pos_pos; lia).
  assert (H : Forall (bndm (2 ^ k * 1) (scan_num ((K - 1) * C) k 2))
    (scan tops ((K - 1) * C) k (sm_chart tops TLeaf C b len (2 ^ k)))).
  { apply scan_bnd. unfold sm_chart. apply Forall_forall. intros M HM.
    apply in_map_iff in HM as (n & <- & _). intros i j. unfold sm_cell.
    destruct (j / C =? 0).
    - apply (@bnd_sum [_; _] 1 1). constructor; [split|constructor; [split|constructor]]; unfold fill.
      1-2: destruct (negb (len - 1 <=? n)), ((i / C =? 0) && (i mod C =? j mod C)); simpl; lia.
      1-2: destruct (len - 1 <=? n); simpl; lia.
    - unfold fill. destruct (_ && _); split; simpl; lia. }
  rewrite Nat.mul_1_r in H.
  destruct (scan tops ((K - 1) * C) k (sm_chart tops TLeaf C b len (2 ^ k))) as [|M l].
  - eapply bnd_le; [apply bnd_zero|apply pow2_pos|].
    pose proof (@scan_num_pos ((K - 1) * C) k 2 HD). nia.
  - apply bnd_sum2. inversion H; auto.
Qed.

(** ** CFG *)
Definition cnum (Q w : nat) : nat := Q ^ w * fact w.
Lemma cnum_pos Q w : 0 < Q -> 1 <= cnum Q w.
Proof.
  intro. unfold cnum. apply (Nat.mul_le_mono 1 _ 1); [|apply lt_O_fact].
  apply Nat.le_succ_l, Nat.neq_0_lt_0, Nat.pow_nonzero; lia.
Qed.
Lemma fact_mul a b : fact a * fact b <= fact (a + b).
Proof.
  induction a as [|a IH]; simpl; [lia|]. nia.
Qed.
Lemma cnum_mul Q a b : cnum Q a * cnum Q b <= cnum Q (a + b).
Proof.
  unfold cnum. rewrite Nat.pow_add_r. pose proof (fact_mul a b).
  replace (Q ^ a * fact a * (Q ^ b * fact b)) with (Q ^ a * Q ^ b * (fact a * fact b)) by ring.
  now apply Nat.mul_le_mono_l.
Qed.
Lemma bnd_cons d n n' t l : bnd d n t -> bnd d n' (TSum l) -> bnd d (n + n') (TSum (t :: l)).
Proof.
  intros [H1 H2] [H3 H4]. split; simpl in *; [lia|]. rewrite app_length. lia.
Qed.
Lemma bnd_nil d : bnd d 0 (TSum []).
Proof. split; simpl; lia. Qed.

Section Cfg.
  Variables (NT T N b : nat).
  Hypotheses (HNT : 0 < NT) (HT : 0 < T).
  Let Q := (NT + T) * (NT + T).
  Let HQ : 0 < Q. Proof. unfold Q. nia. Qed.
  (** proof device: bounds on the cells of chart A *)
  Definition cA_ok (cA : nat -> nat -> nat -> term) : Prop := forall i k x, bnd (2 * k + 1) (cnum Q k) (cA i k x).
  (** proof device: bounds on the cells of chart B *)
  Definition cB_ok (cB : nat -> nat -> nat -> term) : Prop :=
    forall j k x, k < N -> bnd (2 * (N - 1 - k) + 1) (cnum Q (N - 1 - k)) (cB j k x).

  Lemma cy_span_bnd cA cB w i x : 1 <= w -> w < N -> cA_ok cA -> cB_ok cB ->
    bnd (2 * w + 1) (cnum Q w) (cy_span tops NT T N b TLeaf cA cB w i x).
  Proof.
    intros Hw HwN HA HB. unfold cy_span.
    set (c := cnum Q (w - 1)).
    assert (B1 : bnd (2 * w + 1) (NT * NT * (w * c)) (cy_X1 tops NT N b TLeaf cA cB w i x)).
    { apply bnd_sum_seq. intros p _. 
      replace (w * c) with (w * c * 1) by lia. apply bnd_mul; [|apply bnd_leaf].
      apply bnd_sum_seq. intros m Hm. eapply bnd_le; [apply bnd_mul; [apply HA|apply HB; lia]|lia|].
      replace (N - 1 - (N - w + m)) with (w - 1 - m) by lia. etransitivity; [apply cnum_mul|].
      unfold c. replace (m + (w - 1 - m)) with (w - 1) by lia. lia. }
    assert (B2 : bnd (2 * w + 1) (NT * T * c) (cy_X2 tops NT T b TLeaf cA w i x)).
    { apply bnd_sum_seq. intros p _. eapply bnd_le; [apply bnd_mul; [apply bnd_mul; [apply HA|apply bnd_leaf]|apply bnd_leaf]|lia|].
      unfold c. lia. }
    assert (B3 : bnd (2 * w + 1) (T * NT * c) (cy_X3 tops NT T N b TLeaf cB w i x)).
    { apply bnd_sum_seq. intros p _. eapply bnd_le; [apply bnd_mul; [apply bnd_mul; [apply bnd_leaf|apply HB; lia]|apply bnd_leaf]|lia|].
      unfold c. replace (N - 1 - (N - w)) with (w - 1) by lia. lia. }
    assert (B4 : bnd (2 * w + 1) (T * T * 1) (cy_X4 tops NT T b TLeaf w i x)).
    { apply bnd_sum_seq. intros p _. eapply bnd_le; [apply bnd_mul; [apply bnd_mul; apply bnd_leaf|apply bnd_leaf]|lia|].
      lia. }
    assert (Hc : 1 <= c) by (apply cnum_pos, HQ).
    assert (E : cnum Q w = Q * (w * c)).
    { unfold c, cnum. destruct w as [|w]; [lia|]. simpl. rewrite Nat.sub_0_r. ring. }
    rewrite E. simpl app.
    assert (P1 : w * c >= c) by nia.
    destruct (w =? 1).
    - eapply bnd_le; [apply bnd_cons; [exact B1|apply bnd_cons; [exact B2|apply bnd_cons; [exact B3|
        apply bnd_cons; [exact B4|apply bnd_nil]]]]|lia|]. unfold Q. nia.
    - eapply bnd_le; [apply bnd_cons; [exact B1|apply bnd_cons; [exact B2|apply bnd_cons; [exact B3|
        apply bnd_nil]]]|lia|]. unfold Q. nia.
  Qed.

  Lemma cy_run_bnd : cA_ok (fst (cy_run tops NT T N b TLeaf)) /\ cB_ok (snd (cy_run tops NT T N b TLeaf)).
  Proof.
    unfold cy_run.
    assert (G : forall l s, Forall (fun w => 1 <= w < N) l -> cA_ok (fst s) /\ cB_ok (snd s) ->
      cA_ok (fst (fold_left (cy_step tops NT T N b TLeaf) l s)) /\ cB_ok (snd (fold_left (cy_step tops NT T N b TLeaf) l s))).
    { induction l as [|w l IH]; intros s Hl Hs; simpl; auto. inversion_clear Hl as [|? ? Hw Hl'].
      apply IH; auto. destruct s as [cA cB], Hs as [HA HB]. split; simpl.
      - intros i k x. destruct ((i <? N - w) && (k =? w)) eqn:E; auto.
        apply andb_true_iff in E as [_ E]. apply Nat.eqb_eq in E. subst k. apply cy_span_bnd; auto; lia.
      - intros j k x Hk. destruct ((w <=? j) && (j <? N) && (k =? N - w - 1)) eqn:E; [|apply HB; auto].
        apply andb_true_iff in E as [_ E]. apply Nat.eqb_eq in E. subst k.
        replace (N - 1 - (N - w - 1)) with w by lia. apply cy_span_bnd; auto; lia. }
    apply G.
    - apply Forall_forall. intros w Hw. apply in_seq in Hw. lia.
    - split; simpl; intros i k x; intros; (eapply bnd_le; [apply bnd_zero|lia|apply cnum_pos, HQ]).
  Qed.

  Theorem cy_one_bnd len : 1 <= len ->
    bnd (2 * len) (NT * cnum Q (len - 1)) (cy_one tops NT T N b TLeaf len).
  Proof.
    intro Hl. unfold cy_one, pyidx. destruct (Nat.eqb_spec len 0); [lia|].
    apply bnd_sum_seq. intros x _. replace (cnum Q (len - 1)) with (cnum Q (len - 1) * 1) by lia.
    eapply bnd_le; [apply bnd_mul; [apply cy_run_bnd|apply bnd_leaf]|lia|lia].
  Qed.
End Cfg.
