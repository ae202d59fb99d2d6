(** * Size: closed-form bounds on the computation graphs of the five algorithms. *)
From Verif Require Import Base Ops Terms Semirings Poly Chain LinearChain SemiMarkov CkyCrf Cky DepSpec DepTree
  Batch Family Approx Grad Sample Dist Purity Degree Shape Api Query Mask Round.
Set Implicit Arguments.

(** at most [n] operations, [s] choices, [d] factors on one derivation, [w] alternatives
    at one choice and [h] nested choices *)
Definition sz (n s w h d : nat) (t : term) : Prop :=
  nops t <= n /\ nsum t <= s /\ wide t <= w /\ hs t <= h /\ tdeg t <= d.
Lemma sz_le n s w h d n' s' w' h' d' t : sz n s w h d t -> n <= n' -> s <= s' -> w <= w' -> h <= h' -> d <= d' -> sz n' s' w' h' d' t.
Proof. intros (H1 & H2 & H3 & H4 & H5) ? ? ? ? ?. repeat split; lia. Qed.
Lemma sz_leaf e w : 1 <= w -> sz 0 0 w 0 1 (TLeaf e). Proof. repeat split; cbn -[Nat.max]; lia. Qed.
Lemma sz_over e w : 1 <= w -> sz 0 0 w 0 1 (TOver e). Proof. repeat split; cbn -[Nat.max]; lia. Qed.
Lemma sz_zero w : 1 <= w -> sz 0 0 w 0 1 TZero. Proof. repeat split; cbn -[Nat.max]; lia. Qed.
Lemma sz_one w : 1 <= w -> sz 0 0 w 0 0 TOne. Proof. repeat split; cbn -[Nat.max]; lia. Qed.
Lemma sz_mul n s w h d n' s' h' d' a b : sz n s w h d a -> sz n' s' w h' d' b -> sz (S (n + n')) (s + s') w (Nat.max h h') (d + d') (TMul a b).
Proof. intros (H1 & H2 & H3 & H4 & H5) (K1 & K2 & K3 & K4 & K5). repeat split; cbn -[Nat.max]; lia. Qed.
Lemma lmax_le A (f : A -> nat) l n : (forall x, In x l -> f x <= n) -> list_max (map f l) <= n.
Proof. intro H. apply list_max_le. apply Forall_forall. intros y Hy. apply in_map_iff in Hy as (x & <- & Hx). auto. Qed.
Lemma sz_sum n s w h d l : (forall t, In t l -> sz n s w h d t) -> length l <= w -> sz (S n) (S s) w (S h) d (TSum l).
Proof.
  intros H Hw. assert (G : forall f m, (forall t, In t l -> f t <= m) -> list_max (map f l) <= m) by (intros; now apply lmax_le).
  split; [|split; [|split; [|split]]]; cbn [nops nsum wide hs tdeg].
  - apply le_n_S, G. intros t Ht. apply (H t Ht).
  - apply le_n_S, G. intros t Ht. apply (H t Ht).
  - apply Nat.max_lub; auto. apply G. intros t Ht. apply (H t Ht).
  - apply le_n_S, G. intros t Ht. apply (H t Ht).
  - change (list_max (map tdeg l) <= d). apply G. intros t Ht. apply (H t Ht).
Qed.
Lemma sz_sum_seq (f : nat -> term) st k n s w h d : (forall i, st <= i < st + k -> sz n s w h d (f i)) -> k <= w ->
  sz (S n) (S s) w (S h) d (TSum (map f (seq st k))).
Proof.
  intros H Hk. apply sz_sum; [|now rewrite map_length, seq_length]. intros t Ht. apply in_map_iff in Ht as (i & <- & Hi). apply in_seq in Hi. auto.
Qed.
Lemma lv_tdeg t : lv t <= tdeg t.
Proof.
  induction t as [e|e| | |l IH|a b IHa IHb] using term_ind'; simpl; try lia.
  change (list_max (map lv l) <= list_max (map tdeg l)). apply lmax_le. intros t Ht. rewrite Forall_forall in IH. specialize (IH t Ht).
  pose proof (lmax_in tdeg l t Ht). lia.
Qed.

(** ** Chains *)
Definition szm n s w h d (M : nat -> nat -> term) : Prop := forall i j, sz n s w h d (M i j).
Lemma zip_sz C n s w h d l m : C <= w -> Forall (szm n s w h d) l -> Forall (szm n s w h d) m ->
  Forall (szm (2 + (n + n)) (1 + (s + s)) w (1 + h) (d + d)) (zip_with (matmul tops C) l m).
Proof.
  intros HC H. revert m. induction H as [|a l Ha Hl IH]; intros m Hm; simpl; [constructor|].
  destruct Hm; constructor; auto. intros i j. apply sz_sum_seq; auto. intros k _.
  replace h with (Nat.max h h) by lia. now apply sz_mul.
Qed.
Lemma scan_sz C k w : C <= w -> forall n s h d l, Forall (szm n s w h d) l ->
  Forall (szm (2 ^ k * (n + 2) - 2) (2 ^ k * (s + 1) - 1) w (k + h) (2 ^ k * d)) (scan tops C k l).
Proof.
  intro HC. induction k as [|k IH]; intros n s h d l H; cbn [scan].
  - eapply Forall_impl; [|exact H]. intros M HM i j. eapply sz_le; [apply HM|simpl; lia..].
  - specialize (IH (2 + (n + n)) (1 + (s + s)) (1 + h) (d + d) (scan_round tops C l)).
    eapply Forall_impl; [|apply IH].
    + intros M HM i j. pose proof (pow2_pos k). eapply sz_le; [apply HM|cbn [Nat.pow]; nia..].
    + unfold scan_round. apply zip_sz; auto using odds_Forall, evens_Forall.
Qed.
Lemma sum2_sz C w n s h d M : C <= w -> szm n s w h d M -> sz (2 + n) (2 + s) w (2 + h) d (sum2 tops C M).
Proof. intros HC H. unfold sum2. apply (@sz_sum_seq _ 0 C (1 + n) (1 + s) w (1 + h) d); auto. intros. apply (@sz_sum_seq _ 0 C n s w h d); auto. Qed.
Lemma lc_one_sz C k b len : sz (3 * 2 ^ k) (2 * 2 ^ k + 1) (Nat.max 2 C) (k + 3) (2 ^ k) (lc_one tops C k (2 ^ k) TLeaf b len).
Proof.
  unfold lc_one. pose proof (pow2_pos k) as P.
  assert (H : Forall (szm (2 ^ k * (1 + 2) - 2) (2 ^ k * (1 + 1) - 1) (Nat.max 2 C) (k + 1) (2 ^ k * 1)) (scan tops C k (lc_chart tops TLeaf b len (2 ^ k)))).
  { apply scan_sz; [lia|]. unfold lc_chart. apply Forall_forall. intros M HM.
    apply in_map_iff in HM as (n & <- & _). intros i j. unfold lc_cell, lc_init. apply sz_sum; [|cbn [length]; lia].
    intros t [<-|[<-|[]]]; unfold fill.
    - destruct (negb (lc_mask len n)), (i =? j); repeat split; cbn -[Nat.max]; lia.
    - destruct (lc_mask len n); repeat split; cbn -[Nat.max]; lia. }
  destruct (scan tops C k (lc_chart tops TLeaf b len (2 ^ k))) as [|M l].
  - eapply sz_le; [apply sz_zero with (w := Nat.max 2 C)|..]; lia.
  - inversion_clear H. eapply sz_le; [apply sum2_sz with (w := Nat.max 2 C); [lia|eassumption]|..]; lia.
Qed.
Lemma sm_one_sz K C k b len : 2 <= K -> sz (3 * 2 ^ k) (2 * 2 ^ k + 1) (Nat.max 2 ((K - 1) * C)) (k + 3) (2 ^ k) (sm_one tops K C k (2 ^ k) TLeaf b len).
Proof.
  intro HK. unfold sm_one. pose proof (pow2_pos k) as P. set (W := Nat.max 2 ((K - 1) * C)).
  assert (H : Forall (szm (2 ^ k * (1 + 2) - 2) (2 ^ k * (1 + 1) - 1) W (k + 1) (2 ^ k * 1)) (scan tops ((K - 1) * C) k (sm_chart tops TLeaf C b len (2 ^ k)))).
  { apply scan_sz; [unfold W; lia|]. unfold sm_chart. apply Forall_forall. intros M HM.
    apply in_map_iff in HM as (n & <- & _). intros i j. unfold sm_cell. destruct (j / C =? 0).
    - apply sz_sum; [|unfold W; cbn [length]; lia]. intros t [<-|[<-|[]]]; unfold fill.
      + destruct (negb (len - 1 <=? n)), ((i / C =? 0) && (i mod C =? j mod C)); unfold W; repeat split; cbn -[Nat.max]; lia.
      + destruct (len - 1 <=? n); unfold W; repeat split; cbn -[Nat.max]; lia.
    - unfold fill, W. destruct (_ && _); repeat split; cbn -[Nat.max]; lia. }
  destruct (scan tops ((K - 1) * C) k (sm_chart tops TLeaf C b len (2 ^ k))) as [|M l].
  - eapply sz_le; [apply sz_zero with (w := W)|..]; unfold W; lia.
  - inversion_clear H. eapply sz_le; [apply sum2_sz with (w := W); [|eassumption]|..]; unfold W; try lia. nia.
Qed.

(** ** Trees *)
Section Tree.
  Variables (NT N b : nat).
  Let W := Nat.max (Nat.max 1 NT) N.
  (** proof device: size of the graph of a tree cell of width k *)
  Definition ts (k : nat) : term -> Prop := sz (5 * k + 1) (3 * k + 1) W (k + 1) (2 * k + 1).
  Lemma ck_red_sz i j : sz 1 1 W 1 1 (ck_red tops NT TLeaf b i j).
  Proof. apply sz_sum_seq; [|unfold W; lia]. intros. apply sz_leaf. unfold W. lia. Qed.
  (** proof device: all cells of the first chart have that size *)
  Definition tA_ok (cA : nat -> nat -> term) : Prop := forall i k, ts k (cA i k).
  (** proof device: all cells of the second chart have that size *)
  Definition tB_ok (cB : nat -> nat -> term) : Prop := forall j k, k < N -> ts (N - 1 - k) (cB j k).
  Lemma ck_run_sz : tA_ok (fst (ck_run tops NT N TLeaf b)) /\ tB_ok (snd (ck_run tops NT N TLeaf b)).
  Proof.
    unfold ck_run.
    assert (Z : forall k, ts k TZero) by (intro k; eapply sz_le; [apply sz_zero with (w := W); unfold W|..]; lia).
    assert (Rd : forall i j k, ts k (ck_red tops NT TLeaf b i j)) by (intros i j k; eapply sz_le; [apply ck_red_sz|..]; lia).
    assert (G : forall l s, Forall (fun w => 1 <= w < N) l -> tA_ok (fst s) /\ tB_ok (snd s) ->
      tA_ok (fst (fold_left (ck_step tops NT N TLeaf b) l s)) /\ tB_ok (snd (fold_left (ck_step tops NT N TLeaf b) l s))).
    { induction l as [|w l IH]; intros s Hl Hs; simpl; auto. inversion_clear Hl as [|? ? Hw Hl'].
      apply IH; auto. destruct s as [cA cB], Hs as [HA HB].
      assert (Hnew : forall i, ts w (smul tops (dot tops w (fun m => cA i m) (fun m => cB (i + w) (N - w + m))) (ck_red tops NT TLeaf b i (i + w)))).
      { intro i. unfold ts. eapply sz_le; [apply sz_mul; [|apply ck_red_sz]|..].
        - apply (@sz_sum_seq _ 0 w (5 * (w - 1) + 3) (3 * (w - 1) + 2) W w (2 * (w - 1) + 2)); [|unfold W; lia].
          intros m Hm. assert (X := HB (i + w) (N - w + m) ltac:(lia)). specialize (HA i m). unfold ts in HA, X.
          eapply sz_le; [apply sz_mul; [exact HA|exact X]|..]; lia.
        - lia.
        - lia.
        - lia.
        - lia.
        - lia. }
      split; simpl.
      - intros i k. destruct ((i <? N - w) && (k =? w)) eqn:E; auto.
        apply andb_true_iff in E as [_ E]. apply Nat.eqb_eq in E. subst k. apply Hnew.
      - intros j k Hk. destruct ((w <=? j) && (j <? N) && (k =? N - w - 1)) eqn:E; [|apply HB; auto].
        apply andb_true_iff in E as [_ E]. apply Nat.eqb_eq in E. subst k.
        replace (N - 1 - (N - w - 1)) with w by lia. apply Hnew. }
    apply G.
    - apply Forall_forall. intros w Hw. apply in_seq in Hw. lia.
    - split; simpl.
      + intros i k. destruct (_ && _); [exact (Rd i i k)|exact (Z k)].
      + intros j k _. destruct (_ && _); [exact (Rd j j _)|exact (Z _)].
  Qed.
  Lemma ck_one_sz len : ts (pyidx N len) (ck_one tops NT N TLeaf b len).
  Proof. apply ck_run_sz. Qed.
End Tree.

(** ** Grammars *)
Section Cfg.
  Variables (NT T N b : nat).
  Hypotheses (HNT : 0 < NT) (HT : 0 < T).
  Let W := Nat.max ((NT + T) * (NT + T)) N.
  Let Q : 4 <= (NT + T) * (NT + T). Proof. nia. Qed.
  (** proof device: size of the graph of a grammar cell of width k *)
  Definition gs (k : nat) : term -> Prop := sz (5 * k) (3 * k) W (3 * k) (2 * k + 1).
  (** proof device: all cells of the first chart have that size *)
  Definition gA_ok (cA : nat -> nat -> nat -> term) : Prop := forall i k x, gs k (cA i k x).
  (** proof device: all cells of the second chart have that size *)
  Definition gB_ok (cB : nat -> nat -> nat -> term) : Prop := forall j k x, k < N -> gs (N - 1 - k) (cB j k x).
  Lemma gleaf e : sz 0 0 W 0 1 (TLeaf e). Proof. apply sz_leaf. unfold W. lia. Qed.
  Lemma cy_span_sz cA cB w i x : 1 <= w -> w < N -> gA_ok cA -> gB_ok cB -> gs w (cy_span tops NT T N b TLeaf cA cB w i x).
  Proof.
    intros Hw HwN HA HB. unfold cy_span, gs.
    apply (@sz_le (5 * (w - 1) + 5) (3 * (w - 1) + 3) W (3 * (w - 1) + 3) (2 * w + 1)); try lia.
    replace (5 * (w - 1) + 5) with (S (5 * (w - 1) + 4)) by lia. replace (3 * (w - 1) + 3) with (S (3 * (w - 1) + 2)) by lia.
    apply sz_sum; [|unfold W; destruct (w =? 1); cbn [app length]; lia].
    intros t Ht.
    assert (X1 : sz (5 * (w - 1) + 4) (3 * (w - 1) + 2) W (3 * (w - 1) + 2) (2 * w + 1) (cy_X1 tops NT N b TLeaf cA cB w i x)).
    { replace (5 * (w - 1) + 4) with (S (5 * (w - 1) + 3)) by lia. replace (3 * (w - 1) + 2) with (S (3 * (w - 1) + 1)) by lia.
      apply sz_sum_seq; [|unfold W; nia]. intros p _. eapply sz_le; [apply sz_mul; [|apply gleaf]|..].
      - apply (@sz_sum_seq _ 0 w (5 * (w - 1) + 1) (3 * (w - 1)) W (3 * (w - 1)) (2 * (w - 1) + 2)); [|unfold W; lia].
        intros m Hm. assert (Y := HB (i + w) (N - w + m) (p mod NT) ltac:(lia)). specialize (HA i m (p / NT)). unfold gs in HA, Y.
        eapply sz_le; [apply sz_mul; [exact HA|exact Y]|..]; lia.
      - lia.
      - lia.
      - lia.
      - lia.
      - lia. }
    assert (X2 : sz (5 * (w - 1) + 3) (3 * (w - 1) + 1) W (3 * (w - 1) + 1) (2 * w + 1) (cy_X2 tops NT T b TLeaf cA w i x)).
    { replace (5 * (w - 1) + 3) with (S (5 * (w - 1) + 2)) by lia. replace (3 * (w - 1) + 1) with (S (3 * (w - 1))) by lia.
      apply sz_sum_seq; [|unfold W; nia]. intros p _.
      eapply sz_le; [apply sz_mul; [apply sz_mul; [apply HA|apply gleaf]|apply gleaf]|..]; lia. }
    assert (X3 : sz (5 * (w - 1) + 3) (3 * (w - 1) + 1) W (3 * (w - 1) + 1) (2 * w + 1) (cy_X3 tops NT T N b TLeaf cB w i x)).
    { replace (5 * (w - 1) + 3) with (S (5 * (w - 1) + 2)) by lia. replace (3 * (w - 1) + 1) with (S (3 * (w - 1))) by lia.
      apply sz_sum_seq; [|unfold W; nia]. intros p _. assert (Y := HB (i + w) (N - w) (p mod NT) ltac:(lia)). replace (N - 1 - (N - w)) with (w - 1) in Y by lia.
      eapply sz_le; [apply sz_mul; [apply sz_mul; [apply gleaf|exact Y]|apply gleaf]|..]; lia. }
    assert (X4 : sz 3 1 W 1 3 (cy_X4 tops NT T b TLeaf w i x)).
    { apply sz_sum_seq; [|unfold W; nia]. intros p _. eapply sz_le; [apply sz_mul; [apply sz_mul; apply gleaf|apply gleaf]|..]; lia. }
    cbn [app] in Ht. destruct Ht as [<-|[<-|[<-|Ht]]].
    - exact X1.
    - eapply sz_le; [exact X2|..]; lia.
    - eapply sz_le; [exact X3|..]; lia.
    - destruct (w =? 1); [|destruct Ht]. destruct Ht as [<-|[]]. eapply sz_le; [exact X4|..]; lia.
  Qed.
  Lemma cy_run_sz : gA_ok (fst (cy_run tops NT T N b TLeaf)) /\ gB_ok (snd (cy_run tops NT T N b TLeaf)).
  Proof.
    unfold cy_run.
    assert (G : forall l s, Forall (fun w => 1 <= w < N) l -> gA_ok (fst s) /\ gB_ok (snd s) ->
      gA_ok (fst (fold_left (cy_step tops NT T N b TLeaf) l s)) /\ gB_ok (snd (fold_left (cy_step tops NT T N b TLeaf) l s))).
    { induction l as [|w l IH]; intros s Hl Hs; simpl; auto. inversion_clear Hl as [|? ? Hw Hl'].
      apply IH; auto. destruct s as [cA cB], Hs as [HA HB]. split; simpl.
      - intros i k x. destruct ((i <? N - w) && (k =? w)) eqn:E; auto.
        apply andb_true_iff in E as [_ E]. apply Nat.eqb_eq in E. subst k. apply cy_span_sz; auto; lia.
      - intros j k x Hk. destruct ((w <=? j) && (j <? N) && (k =? N - w - 1)) eqn:E; [|apply HB; auto].
        apply andb_true_iff in E as [_ E]. apply Nat.eqb_eq in E. subst k.
        replace (N - 1 - (N - w - 1)) with w by lia. apply cy_span_sz; auto; lia. }
    apply G.
    - apply Forall_forall. intros w Hw. apply in_seq in Hw. lia.
    - split; simpl; intros i k x; intros; (eapply sz_le; [apply sz_zero with (w := W); unfold W|..]; lia).
  Qed.
  Lemma cy_one_sz len : 1 <= len -> sz (5 * len) (3 * len) W (3 * len) (2 * len) (cy_one tops NT T N b TLeaf len).
  Proof.
    intro Hl. unfold cy_one, pyidx. destruct (Nat.eqb_spec len 0); [lia|].
    eapply sz_le; [apply sz_sum_seq with (n := 5 * (len - 1) + 1) (s := 3 * (len - 1)) (w := W) (h := 3 * (len - 1)) (d := 2 * len)|..]; try lia; [|unfold W; nia].
    intros x _. eapply sz_le; [apply sz_mul; [apply cy_run_sz|apply gleaf]|..]; lia.
  Qed.
End Cfg.

(** ** Dependency trees *)
Section Dep.
  Variables (n b len : nat) (lab : option nat).
  Let L := match lab with None => 0 | Some L => L end.
  Let W := Nat.max 1 (Nat.max n L).
  Let N := n + 1.
  Let arc := dp_arc tops TZero lab TLeaf b len.
  (** proof device: size of the graph of a complete span of width k *)
  Definition cs (k : nat) : term -> Prop := sz (6 * k) (3 * k) W (2 * k) k.
  (** proof device: size of the graph of an incomplete span of width k *)
  Definition is_ (k : nat) : term -> Prop := sz (6 * k - 2) (3 * k - 1) W (2 * k - 1) k.
  Lemma arc_sz h c : sz 1 1 W 1 1 (arc h c).
  Proof.
    assert (Z : forall e, sz 0 0 W 0 1 (dp_cell tops TZero TLeaf b len h c e)).
    { intro e. unfold dp_cell. destruct (_ || _); [apply sz_zero; unfold W; lia|]. destruct (_ || _); [apply sz_zero|apply sz_leaf]; unfold W; lia. }
    unfold arc, dp_arc, L in *. destruct lab as [l|].
    - apply sz_sum_seq; [|unfold W, L; lia]. intros. apply Z.
    - eapply sz_le; [apply Z|..]; lia.
  Qed.
  (** proof device: sizes of the complete spans, first chart *)
  Definition cA_sz (f : nat -> nat -> term) : Prop := forall i w, cs w (f i w).
  (** proof device: sizes of the complete spans, second chart *)
  Definition cB_sz (f : nat -> nat -> term) : Prop := forall j w, w < N -> cs (N - 1 - w) (f j w).
  (** proof device: sizes of the incomplete spans, first chart *)
  Definition iA_sz (f : nat -> nat -> term) : Prop := forall i w, 1 <= w -> is_ w (f i w).
  (** proof device: sizes of the incomplete spans, second chart *)
  Definition iB_sz (f : nat -> nat -> term) : Prop := forall j w, w + 1 < N -> is_ (N - 1 - w) (f j w).
  (** proof device: sizes of all charts *)
  Definition st_sz (s : dstate term) : Prop :=
    (cA_sz (acl s) /\ cA_sz (acr s) /\ cB_sz (bcl s) /\ cB_sz (bcr s)) /\ (iA_sz (ail s) /\ iA_sz (air s) /\ iB_sz (bil s) /\ iB_sz (bir s)).
  Lemma setA_c st k v f : (forall i, cs k (v i)) -> cA_sz f -> cA_sz (setA tops N st k v f).
  Proof. intros Hv Hf i w. unfold setA. destruct (_ && _) eqn:E; auto. apply andb_true_iff in E as [_ E]. apply Nat.eqb_eq in E. now subst. Qed.
  Lemma setA_i st k v f : (forall i, is_ k (v i)) -> iA_sz f -> iA_sz (setA tops N st k v f).
  Proof. intros Hv Hf i w Hw. unfold setA. destruct (_ && _) eqn:E; auto. apply andb_true_iff in E as [_ E]. apply Nat.eqb_eq in E. now subst. Qed.
  Lemma setB_c st k v f : k < N -> (forall i, cs k (v i)) -> cB_sz f -> cB_sz (setB tops N st k v f).
  Proof.
    intros Hk Hv Hf i w Hw. unfold setB. destruct (_ && _) eqn:E; auto. apply andb_true_iff in E as [_ E]. apply Nat.eqb_eq in E. subst.
    replace (N - 1 - (N - k - 1)) with k by lia. auto.
  Qed.
  Lemma setB_i st k v f : k < N -> (forall i, is_ k (v i)) -> iB_sz f -> iB_sz (setB tops N st k v f).
  Proof.
    intros Hk Hv Hf i w Hw. unfold setB. destruct (_ && _) eqn:E; auto. apply andb_true_iff in E as [_ E]. apply Nat.eqb_eq in E. subst.
    replace (N - 1 - (N - k - 1)) with k by lia. auto.
  Qed.
  Lemma dp_step_sz st s k : 1 <= k < N -> st_sz s -> st_sz (dp_step tops N st arc s k).
  Proof.
    intros Hk ((A1 & A2 & A3 & A4) & (I1 & I2 & I3 & I4)).
    assert (Hx : forall i, sz (6 * (k - 1) + 2) (3 * (k - 1) + 1) W (2 * (k - 1) + 1) (k - 1) (dot tops k (fun m => acr s i m) (fun m => bcl s (i + k) (N - k + m)))).
    { intro i. replace (6 * (k - 1) + 2) with (S (6 * (k - 1) + 1)) by lia. replace (3 * (k - 1) + 1) with (S (3 * (k - 1))) by lia.
      replace (2 * (k - 1) + 1) with (S (2 * (k - 1))) by lia.
      apply sz_sum_seq; [|unfold W, N in *; lia]. intros m Hm. assert (Y := A3 (i + k) (N - k + m) ltac:(lia)). specialize (A2 i m). unfold cs in A2, Y.
      eapply sz_le; [apply sz_mul; [exact A2|exact Y]|..]; lia. }
    assert (Hal : forall i h c, is_ k (smul tops (dot tops k (fun m => acr s i m) (fun m => bcl s (i + k) (N - k + m))) (arc h c))).
    { intros i h c. unfold is_. eapply sz_le; [apply sz_mul; [apply Hx|apply arc_sz]|..]; lia. }
    assert (Il := @setA_i st k _ _ (fun i => Hal i (i + k) i) I1). assert (Ir := @setA_i st k _ _ (fun i => Hal i i (i + k)) I2).
    assert (Jl := @setB_i st k _ _ (proj2 Hk) (fun i => Hal i (i + k) i) I3). assert (Jr := @setB_i st k _ _ (proj2 Hk) (fun i => Hal i i (i + k)) I4).
    assert (Hnl : forall i, cs k (dot tops k (fun m => acl s i m) (fun m => setB tops N st k (fun i => smul tops (dot tops k (fun m => acr s i m) (fun m => bcl s (i + k) (N - k + m))) (arc (i + k) i)) (bil s) (i + k) (N - k - 1 + m)))).
    { intro i. unfold cs. apply (@sz_le (S (6 * k - 1)) (S (3 * k - 1)) W (S (2 * k - 1)) k); try lia.
      apply sz_sum_seq; [|unfold W, N in *; lia]. intros m Hm. assert (Y := Jl (i + k) (N - k - 1 + m) ltac:(lia)). specialize (A1 i m). unfold cs in A1.
      replace (N - 1 - (N - k - 1 + m)) with (k - m) in Y by lia. unfold is_ in Y. eapply sz_le; [apply sz_mul; [exact A1|exact Y]|..]; lia. }
    assert (Hnr : forall i, cs k (dot tops k (fun m => setA tops N st k (fun i => smul tops (dot tops k (fun m => acr s i m) (fun m => bcl s (i + k) (N - k + m))) (arc i (i + k))) (air s) i (1 + m)) (fun m => bcr s (i + k) (N - k + m)))).
    { intro i. unfold cs. apply (@sz_le (S (6 * k - 1)) (S (3 * k - 1)) W (S (2 * k - 1)) k); try lia.
      apply sz_sum_seq; [|unfold W, N in *; lia]. intros m Hm. assert (Y := A4 (i + k) (N - k + m) ltac:(lia)). assert (X := Ir i (1 + m) ltac:(lia)). unfold is_ in X.
      replace (N - 1 - (N - k + m)) with (k - 1 - m) in Y by lia. unfold cs in Y. eapply sz_le; [apply sz_mul; [exact X|exact Y]|..]; lia. }
    split; (split; [|split; [|split]]); cbn [dp_step acl acr bcl bcr ail air bil bir]; auto.
    - apply setA_c; auto.
    - apply setA_c; auto.
    - apply setB_c; auto. lia.
    - apply setB_c; auto. lia.
  Qed.
  Lemma dp_run_sz st : st_sz (dp_run tops N st arc).
  Proof.
    unfold dp_run. assert (G : forall l s, Forall (fun w => 1 <= w < N) l -> st_sz s -> st_sz (fold_left (dp_step tops N st arc) l s)).
    { induction l as [|w l IH]; intros s Hl Hs; simpl; auto. inversion_clear Hl. apply IH; auto. now apply dp_step_sz. }
    apply G.
    - apply Forall_forall. intros w Hw. apply in_seq in Hw. lia.
    - assert (W1 : 1 <= W) by (unfold W; lia).
      split; (split; [|split; [|split]]); cbn [dp_init acl acr bcl bcr ail air bil bir].
      1-2: intros i w; unfold fill, cs; destruct (Nat.eqb_spec w 0); [eapply sz_le; [apply (sz_one W1)|..]; lia|eapply sz_le; [apply (sz_zero W1)|..]; lia].
      1-2: intros i w Hw; unfold fill, cs; destruct (Nat.eqb_spec w (N - 1)); [eapply sz_le; [apply (sz_one W1)|..]; lia|eapply sz_le; [apply (sz_zero W1)|..]; lia].
      1-2: intros i w Hw; unfold is_; eapply sz_le; [apply (sz_zero W1)|..]; lia.
      1-2: intros i w Hw; unfold is_; eapply sz_le; [apply (sz_zero W1)|..]; lia.
  Qed.
  Lemma dp_one_sz mr : len <= n -> (mr = false -> 1 <= len) -> sz (6 * len) (3 * len) W (2 * len) len (dp_one tops mr lab n TZero TLeaf b len).
  Proof.
    intros Hn H1. unfold dp_one. fold N arc. destruct mr.
    - apply (dp_run_sz 0).
    - specialize (H1 eq_refl). unfold dp_root. destruct (dp_run_sz 1) as ((A1 & A2 & A3 & A4) & _).
      replace ((1 <=? len) && (len <? N))%bool with true by (symmetry; apply andb_true_iff; split; [now apply Nat.leb_le|apply Nat.ltb_lt; unfold N; lia]).
      apply (@sz_le (S (6 * len - 1)) (S (3 * len - 1)) W (S (2 * len - 1)) len); try lia.
      apply sz_sum_seq; [|unfold W; lia]. intros m Hm. assert (Y := A4 len (N - len + m) ltac:(unfold N in *; lia)).
      replace (N - 1 - (N - len + m)) with (len - 1 - m) in Y by (unfold N; lia). unfold cs in Y. specialize (A1 1 m). unfold cs in A1.
      eapply sz_le; [apply sz_mul; [apply sz_mul; [exact A1|apply arc_sz]|exact Y]|..]; lia.
  Qed.
End Dep.

(** ** All calls *)
(** closed forms, spec side: operations on one derivation of row b *)
Definition c_ops (c : call) (b : nat) : nat :=
  match c with
  | CLin _ N _ _ | CSemi _ N _ _ _ => 3 * 2 ^ Nat.log2_up (N - 1)
  | CTree _ N _ ls | CCfg _ N _ _ ls => 5 * eff_len N (lc_len N ls b)
  | CDep _ _ n _ ls => 6 * lc_len n ls b
  end.
(** choices on one derivation *)
Definition c_sum (c : call) (b : nat) : nat :=
  match c with
  | CLin _ N _ _ | CSemi _ N _ _ _ => 2 * 2 ^ Nat.log2_up (N - 1) + 1
  | CTree _ N _ ls | CCfg _ N _ _ ls => 3 * eff_len N (lc_len N ls b)
  | CDep _ _ n _ ls => 3 * lc_len n ls b
  end.
(** summands of one sum *)
Definition c_wide (c : call) : nat :=
  match c with
  | CLin _ _ C _ => Nat.max 2 C
  | CSemi _ _ K C _ => Nat.max 2 ((K - 1) * C)
  | CTree _ N NT _ => Nat.max (Nat.max 1 NT) N
  | CCfg _ N NT T _ => Nat.max ((NT + T) * (NT + T)) N
  | CDep _ _ n lab _ => Nat.max 1 (Nat.max n (match lab with None => 0 | Some L => L end))
  end.
(** nested choices *)
Definition c_nest (c : call) (b : nat) : nat :=
  match c with
  | CLin _ N _ _ | CSemi _ N _ _ _ => Nat.log2_up (N - 1) + 3
  | CTree _ N _ ls => eff_len N (lc_len N ls b)
  | CCfg _ N _ _ ls => 3 * eff_len N (lc_len N ls b)
  | CDep _ _ n _ ls => 2 * lc_len n ls b
  end.
(** potentials and zeros on one derivation *)
Definition c_deg (c : call) (b : nat) : nat :=
  match c with
  | CLin _ N _ _ | CSemi _ N _ _ _ => 2 ^ Nat.log2_up (N - 1)
  | CTree _ N _ ls | CCfg _ N _ _ ls => 2 * eff_len N (lc_len N ls b)
  | CDep _ _ n _ ls => lc_len n ls b
  end.
Lemma row_code c b : valid c -> b < batch_of c -> row_graph c b =
  match c with
  | CLin _ N C ls => lc_one tops C (Nat.log2_up (N - 1)) (2 ^ Nat.log2_up (N - 1)) TLeaf b (lc_len N ls b)
  | CSemi _ N K C ls => sm_one tops K C (Nat.log2_up (N - 1)) (2 ^ Nat.log2_up (N - 1)) TLeaf b (lc_len N ls b)
  | CTree _ N NT ls => ck_one tops NT N TLeaf b (lc_len N ls b)
  | CCfg _ N NT T ls => cy_one tops NT T N b TLeaf (lc_len N ls b)
  | CDep mr _ n lab ls => dp_one tops mr lab n TZero TLeaf b (lc_len n ls b)
  end.
Proof.
  intros V Hb. unfold row_graph, graphs.
  destruct c as [batch N C ls|batch N K C ls|batch N NT ls|batch N NT T ls|mr batch n lab ls]; simpl in V, Hb; simpl.
  - rewrite (lc_logpartition_run tops (tens [batch; N - 1; C; C] TLeaf) V eq_refl). now rewrite nth_map_seq by auto.
  - rewrite (sm_logpartition_run tops (tens [batch; N - 1; K; C; C] TLeaf) V eq_refl). now rewrite nth_map_seq by auto.
  - rewrite (ck_logpartition_run tops (tens [batch; N; N; NT] TLeaf) V eq_refl). now rewrite nth_map_seq by auto.
  - rewrite (@cy_logpartition_run tops batch N NT T) by (exact V || reflexivity). now rewrite nth_map_seq by auto.
  - destruct V as [V HLb]. rewrite (@dp_logpartition_run tops mr TZero batch n lab) by (exact V || reflexivity). now rewrite nth_map_seq by auto.
Qed.
Theorem row_size c b : valid c -> row_ok c b -> sz (c_ops c b) (c_sum c b) (c_wide c) (c_nest c b) (c_deg c b) (row_graph c b).
Proof.
  intros V [Hb R]. rewrite (@row_code c b V Hb).
  destruct c as [batch N C ls|batch N K C ls|batch N NT ls|batch N NT T ls|mr batch n lab ls]; simpl in V, Hb, R; cbn [c_ops c_sum c_wide c_nest c_deg].
  - apply lc_one_sz.
  - apply sm_one_sz. apply V.
  - assert (E : eff_len N (lc_len N ls b) = pyidx N (lc_len N ls b) + 1).
    { unfold eff_len, pyidx. destruct V as (HN & _). destruct (Nat.eqb_spec (lc_len N ls b) 0); lia. }
    rewrite E. eapply sz_le; [apply ck_one_sz|..]; lia.
  - pose proof V as (HN & HNT & HT & HL).
    rewrite (cy_one_eff tops NT T b TLeaf (lc_len N ls b) HN). apply cy_one_sz; auto. lia.
  - destruct V as [V HLb]. apply dp_one_sz; [eapply dp_len_le; eauto|]. intros ->. exact R.
Qed.
