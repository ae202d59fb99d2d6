(** * P_Depth: C66, the documented parallel time.

    distributions.py states for every class how many merges have to be done one
    after the other: "Parallel Time: O(log(N)) parallel merges" for
    LinearChainCRF (272) and SemiMarkovCRF (359), "O(N) parallel merges" for
    DependencyCRF (388), TreeCRF (417) and SentCFG (441). Here: the longest chain
    of operations that have to wait for each other, exactly. *)
From Verif Require Import Base Ops Terms Semirings Poly Chain LinearChain SemiMarkov CkyCrf Cky DepSpec DepTree
  Batch Family Approx Grad Sample Dist Purity Degree Shape Api Query.
Set Implicit Arguments.

(** ** Specification *)
(** [n] operations of the graph, each one needing the result of the next *)
Inductive nested : nat -> term -> Prop :=
| nested_0 t : nested 0 t
| nested_sum n l x : In x l -> nested n x -> nested (S n) (TSum l)
| nested_left n a b : nested n a -> nested (S n) (TMul a b)
| nested_right n a b : nested n b -> nested (S n) (TMul a b).
(** [d] operations have to be done in order, and no more than [d] *)
Definition sequential (d : nat) (t : term) : Prop := nested d t /\ forall n, nested n t -> n <= d.

(** ** The depth of a graph *)
Fixpoint tdepth (t : term) : nat :=
  match t with
  | TSum l => S (list_max (map tdepth l))
  | TMul a b => S (Nat.max (tdepth a) (tdepth b))
  | _ => 0
  end.

Lemma list_max_in l : l <> [] -> In (list_max l) l.
Proof.
  induction l as [|a l IH]; [congruence|]. intros _. simpl. destruct l as [|b l]; [left; simpl; lia|].
  destruct (Nat.max_spec a (list_max (b :: l))) as [[_ ->]|[_ ->]]; [right; apply IH; discriminate|left; auto].
Qed.
Lemma list_max_ge l x : In x l -> x <= list_max l.
Proof. intro H. assert (F : Forall (fun k => k <= list_max l) l) by (apply list_max_le; reflexivity). rewrite Forall_forall in F. auto. Qed.

Lemma depth_sequential t : twf t -> sequential (tdepth t) t.
Proof.
  intro W. split.
  - induction t as [e|e| | |l IH|a b IHa IHb] using term_ind'; cbn [tdepth]; try apply nested_0.
    + inversion W as [| | | |l' Hl Hw|]; subst. rewrite Forall_forall in IH, Hw.
      assert (Hm : In (list_max (map tdepth l)) (map tdepth l)) by (apply list_max_in; destruct l; [congruence|discriminate]).
      apply in_map_iff in Hm as (x & E & Hx). rewrite <- E. econstructor; [exact Hx|]. apply IH; auto.
    + inversion W; subst. destruct (Nat.max_spec (tdepth a) (tdepth b)) as [[_ ->]|[_ ->]].
      * apply nested_right; auto.
      * apply nested_left; auto.
  - clear W. induction t as [e|e| | |l IH|a b IHa IHb] using term_ind'; intros n H; cbn [tdepth]; inversion H; subst; try lia.
    + rewrite Forall_forall in IH. apply le_n_S. etransitivity; [eapply IH; eauto|]. now apply list_max_ge, in_map.
    + apply IHa in H2. lia.
    + apply IHb in H2. lia.
Qed.

Lemma depth_sum_seq (f : nat -> term) s k d : (forall i, s <= i < s + k -> tdepth (f i) <= d) ->
  (exists i, s <= i < s + k /\ tdepth (f i) = d) -> tdepth (TSum (map f (seq s k))) = S d.
Proof.
  intros H (i & Hi & E). cbn [tdepth]. f_equal. apply Nat.le_antisymm.
  - apply list_max_le, Forall_forall. intros x Hx. rewrite map_map in Hx. apply in_map_iff in Hx as (j & <- & Hj). apply in_seq in Hj. auto.
  - rewrite <- E. apply list_max_ge. rewrite map_map. apply in_map_iff. exists i. split; auto. apply in_seq. lia.
Qed.
Lemma depth_sum_all (f : nat -> term) s k d : 0 < k -> (forall i, s <= i < s + k -> tdepth (f i) = d) -> tdepth (TSum (map f (seq s k))) = S d.
Proof.
  intros Hk H. apply depth_sum_seq; [intros i Hi; rewrite H; auto|exists s; split; [lia|apply H; lia]].
Qed.

(** ** Chains *)
Definition depm (d : nat) (M : nat -> nat -> term) : Prop := forall i j, tdepth (M i j) = d.
Lemma zip_depm C l m d : 0 < C -> Forall (depm d) l -> Forall (depm d) m -> Forall (depm (d + 2)) (zip_with (matmul tops C) l m).
Proof.
  intros HC H. revert m. induction H as [|a l Ha Hl IH]; intros m Hm; simpl; [constructor|].
  destruct Hm as [|x m Hx Hm]; constructor; auto. intros i j. unfold matmul. cbn [ssum smul tops].
  rewrite (@depth_sum_all _ 0 C (S d)) by (auto; intros k _; cbn [tdepth]; rewrite Ha, Hx, Nat.max_id; reflexivity). lia.
Qed.
Lemma scan_depm C k : 0 < C -> forall d l, Forall (depm d) l -> Forall (depm (d + 2 * k)) (scan tops C k l).
Proof.
  intro HC. induction k as [|k IH]; intros d l H; cbn [scan].
  - now rewrite Nat.add_0_r.
  - replace (d + 2 * S k) with (d + 2 + 2 * k) by lia. apply IH. unfold scan_round.
    apply zip_depm; auto using odds_Forall, evens_Forall.
Qed.
Lemma depth_sum2 C d M : 0 < C -> (forall i j, i < C -> j < C -> tdepth (M i j) = d) -> tdepth (sum2 tops C M) = d + 2.
Proof.
  intros HC H. unfold sum2. cbn [ssum tops]. rewrite (@depth_sum_all _ 0 C (S d)); auto; [lia|].
  intros i Hi. apply depth_sum_all; auto. intros j Hj. apply H; lia.
Qed.
Lemma evens_len A (l : list A) k : length l = 2 * k -> length (evens l) = k /\ length (odds l) = k.
Proof.
  revert k. induction l as [|a|a b l IH] using list_pair_ind; intros k H; simpl in *; [split; simpl; lia|lia|].
  destruct k as [|k]; [lia|]. destruct (IH k) as [H1 H2]; [lia|]. split; [simpl; now rewrite H1|].
  unfold odds in *. cbn [tl] in *. destruct l as [|x l]; cbn [tl evens length] in *; [lia|]. now rewrite H2.
Qed.
Lemma zip_len A B D (f : A -> B -> D) l m k : length l = k -> length m = k -> length (zip_with f l m) = k.
Proof. revert m k. induction l as [|a l IH]; intros [|x m] k H1 H2; simpl in *; try lia. destruct k; [lia|]. f_equal. apply IH; lia. Qed.
Lemma scan_len C k : forall l, length l = 2 ^ k -> length (scan tops C k l) = 1.
Proof.
  induction k as [|k IH]; intros l H; cbn [scan]; [exact H|]. apply IH. unfold scan_round.
  destruct (@evens_len _ l (2 ^ k)) as [H1 H2]; [exact H|]. now apply zip_len.
Qed.

Lemma lc_depth C k b len : 0 < C -> tdepth (lc_one tops C k (2 ^ k) TLeaf b len) = 2 * k + 3.
Proof.
  intro HC. unfold lc_one.
  assert (H : Forall (depm (1 + 2 * k)) (scan tops C k (lc_chart tops TLeaf b len (2 ^ k)))).
  { apply scan_depm; auto. unfold lc_chart. apply Forall_forall. intros M HM.
    apply in_map_iff in HM as (n & <- & _). intros i j. unfold lc_cell, lc_init, fill. cbn [ssum tops szero sone sover].
    destruct (lc_mask len n), (i =? j); reflexivity. }
  assert (L : length (scan tops C k (lc_chart tops TLeaf b len (2 ^ k))) = 1).
  { apply scan_len. unfold lc_chart. now rewrite map_length, seq_length. }
  destruct (scan tops C k (lc_chart tops TLeaf b len (2 ^ k))) as [|M l]; [discriminate|].
  inversion H as [|? ? HM Hl]; subst. rewrite (@depth_sum2 C (1 + 2 * k)); auto. lia.
Qed.

(** semi-Markov: only the columns with k = 0 hold a sum *)
Definition sdepm (C : nat) (M : nat -> nat -> term) : Prop := forall i j, tdepth (M i j) = if j / C =? 0 then 1 else 0.
Lemma zip_sdepm C D l m : 0 < C <= D -> Forall (sdepm C) l -> Forall (sdepm C) m -> Forall (depm 3) (zip_with (matmul tops D) l m).
Proof.
  intros HC H. revert m. induction H as [|a l Ha Hl IH]; intros m Hm; simpl; [constructor|].
  destruct Hm as [|x m Hx Hm]; constructor; auto. intros i j. unfold matmul. cbn [ssum smul tops].
  apply depth_sum_seq.
  - intros k _. cbn [tdepth]. rewrite Ha, Hx. destruct (k / C =? 0), (j / C =? 0); simpl; lia.
  - exists 0. split; [lia|]. cbn [tdepth]. rewrite Ha, Hx, Nat.div_0_l by lia. destruct (j / C =? 0); reflexivity.
Qed.
Lemma sm_depth K C k b len : 2 <= K -> 0 < C -> tdepth (sm_one tops K C k (2 ^ k) TLeaf b len) = 2 * k + 3.
Proof.
  intros HK HC. unfold sm_one. set (ch := sm_chart tops TLeaf C b len (2 ^ k)).
  assert (HD : C <= (K - 1) * C) by nia.
  assert (H0 : Forall (sdepm C) ch).
  { unfold ch, sm_chart. apply Forall_forall. intros M HM. apply in_map_iff in HM as (n & <- & _). intros i j.
    unfold sm_cell, fill. cbn [ssum tops szero sone sover]. destruct (j / C =? 0).
    - destruct (len - 1 <=? n), ((i / C =? 0) && (i mod C =? j mod C)); reflexivity.
    - destruct (_ && _); reflexivity. }
  assert (L : length (scan tops ((K - 1) * C) k ch) = 1).
  { apply scan_len. unfold ch, sm_chart. now rewrite map_length, seq_length. }
  assert (G : match scan tops ((K - 1) * C) k ch with [] => True | M :: _ => forall i j, i < C -> j < C -> tdepth (M i j) = 2 * k + 1 end).
  { destruct k as [|k]; cbn [scan] in *.
    - destruct ch as [|M l]; auto. inversion H0 as [|? ? HM Hl]; subst. intros i j Hi Hj. rewrite HM, Nat.div_small by auto. reflexivity.
    - assert (H1 : Forall (depm (3 + 2 * k)) (scan tops ((K - 1) * C) k (scan_round tops ((K - 1) * C) ch))).
      { apply scan_depm; [lia|]. unfold scan_round. apply (@zip_sdepm C); auto using odds_Forall, evens_Forall. }
      destruct (scan tops ((K - 1) * C) k (scan_round tops ((K - 1) * C) ch)) as [|M l]; auto.
      inversion H1 as [|? ? HM Hl]; subst. intros i j _ _. rewrite HM. lia. }
  destruct (scan tops ((K - 1) * C) k ch) as [|M l]; [discriminate|]. rewrite (@depth_sum2 C (2 * k + 1)); auto. lia.
Qed.

(** the sequential program [_dp_standard] (semimarkov.py 89-119) *)
Lemma smd_inv K C b : 2 <= K -> 0 < C -> forall n, 
  let s := fold_left (smd_step tops K C TLeaf b) (seq 1 n) (smd_init tops) in
  (forall a k c, a < n -> tdepth (fst s a k c) = 3 * a + 2) /\ (forall m c, m <= n -> tdepth (snd s m c) = 3 * m).
Proof.
  intros HK HC n. induction n as [|n IH]; cbn zeta in *.
  - split; [intros; lia|]. intros m c Hm. assert (m = 0) as -> by lia. reflexivity.
  - rewrite seq_S, fold_left_app. cbn [fold_left]. change (1 + n) with (S n).
    set (s := fold_left _ (seq 1 n) _) in *. destruct s as [al be]. destruct IH as [IA IB]. cbn [fst snd] in IA, IB.
    assert (HA : forall a k c, a < S n -> tdepth (fst (smd_step tops K C TLeaf b (al, be) (S n)) a k c) = 3 * a + 2).
    { intros a k c Ha. unfold smd_step. cbn [fst]. replace (S n - 1) with n by lia. destruct (Nat.eqb_spec a n) as [->|].
      - unfold dot, matmul. cbn [ssum smul tops]. rewrite (@depth_sum_all _ 0 C (S (3 * n))); auto; [lia|].
        intros i Hi. cbn [tdepth]. rewrite IB by lia. lia.
      - apply IA. lia. }
    split; [exact HA|]. intros m c Hm. unfold smd_step. cbn [snd]. destruct (Nat.eqb_spec m (S n)) as [->|]; [|apply IB; lia].
    cbn [ssum tops]. rewrite (@depth_sum_seq _ 0 (Nat.min (K - 1) (S n)) (3 * n + 2)); [lia| |].
    + intros q Hq. specialize (HA (S n - 1 - q) (1 + q) c). unfold smd_step in HA. cbn [fst] in HA. rewrite HA by lia. lia.
    + exists 0. split; [lia|]. specialize (HA (S n - 1 - 0) (1 + 0) c). unfold smd_step in HA. cbn [fst] in HA. rewrite HA by lia. lia.
Qed.
Lemma smd_depth K C N b len : 2 <= K -> 0 < C -> 1 <= len <= N -> tdepth (smd_one tops K C N TLeaf b len) = 3 * (len - 1) + 1.
Proof.
  intros HK HC Hl. unfold smd_one, smd_run. destruct (Nat.eqb_spec len 0); [lia|]. cbn [ssum tops].
  rewrite (@depth_sum_all _ 0 C (3 * (len - 1))); auto; [lia|]. intros c _. apply (@smd_inv K C b HK HC (N - 1)). lia.
Qed.

(** ** Trees *)
Lemma ck_depth_run NT N b : 0 < NT -> forall W, W < N ->
  let s := fold_left (ck_step tops NT N TLeaf b) (seq 1 W) (ck_init tops NT N TLeaf b) in
  (forall i k, k <= W -> i + k < N -> tdepth (fst s i k) = 3 * k + 1) /\
  (forall j w, w <= W -> w <= j < N -> tdepth (snd s j (N - 1 - w)) = 3 * w + 1).
Proof.
  intros HT. assert (HR : forall i j, tdepth (ck_red tops NT TLeaf b i j) = 1).
  { intros i j. unfold ck_red. cbn [ssum tops]. now apply depth_sum_all. }
  induction W as [|W IH]; intros HW; cbn zeta in *.
  - cbn [fold_left seq ck_init fst snd]. split.
    + intros i k Hk Hi. assert (k = 0) as -> by lia. rewrite (proj2 (Nat.ltb_lt i N)) by lia. apply HR.
    + intros j w Hw Hj. assert (w = 0) as -> by lia. rewrite (proj2 (Nat.ltb_lt j N)), Nat.sub_0_r, Nat.eqb_refl by lia. apply HR.
  - specialize (IH ltac:(lia)). rewrite seq_S, fold_left_app. cbn [fold_left]. change (1 + W) with (S W).
    set (s := fold_left _ (seq 1 W) _) in *. destruct s as [cA cB]. destruct IH as [IA IB]. cbn [fst snd] in IA, IB.
    assert (HN : forall i, i + S W < N -> tdepth (smul tops (dot tops (S W) (fun m => cA i m) (fun m => cB (i + S W) (N - S W + m)))
      (ck_red tops NT TLeaf b i (i + S W))) = 3 * S W + 1).
    { intros i Hi. cbn [smul tops tdepth]. unfold dot, matmul. cbn [ssum smul tops].
      rewrite HR, (@depth_sum_seq _ 0 (S W) (3 * W + 2)); [lia| |].
      - intros m Hm. cbn [tdepth]. rewrite IA by lia. replace (N - S W + m) with (N - 1 - (W - m)) by lia. rewrite IB by lia. lia.
      - exists 0. split; [lia|]. cbn [tdepth]. rewrite IA by lia. replace (N - S W + 0) with (N - 1 - W) by lia. rewrite IB by lia. lia. }
    cbn [ck_step fst snd]. split.
    + intros i k Hk Hi. destruct ((i <? N - S W) && (k =? S W)) eqn:E.
      * apply andb_true_iff in E as [E1 E2]. apply Nat.eqb_eq in E2. subst k. apply HN. lia.
      * apply IA; auto. destruct (Nat.eq_dec k (S W)) as [->|]; [|lia]. rewrite Nat.eqb_refl, (proj2 (Nat.ltb_lt i (N - S W))) in E by lia. discriminate.
    + intros j w Hw Hj. destruct (Nat.eq_dec w (S W)) as [->|Hne].
      * rewrite (proj2 (Nat.leb_le (S W) j)), (proj2 (Nat.ltb_lt j N)) by lia. replace (N - 1 - S W) with (N - S W - 1) by lia. rewrite Nat.eqb_refl.
        cbn [andb]. specialize (HN (j - S W) ltac:(lia)). exact HN.
      * rewrite (proj2 (Nat.eqb_neq (N - 1 - w) (N - S W - 1))) by lia. rewrite andb_false_r. apply IB; lia.
Qed.
Lemma ck_depth NT N b len : 0 < NT -> 1 <= len <= N -> tdepth (ck_one tops NT N TLeaf b len) = 3 * (len - 1) + 1.
Proof.
  intros HT Hl. unfold ck_one, pyidx, ck_run. destruct (Nat.eqb_spec len 0); [lia|]. apply (@ck_depth_run NT N b HT (N - 1)); lia.
Qed.

(** ** Grammars *)
Lemma cy_depth_run NT T N b pot : (forall x e, tdepth (pot (x :: e)) = 0) -> 0 < NT -> 0 < T -> forall W, W < N ->
  let s := fold_left (cy_step tops NT T N b pot) (seq 1 W) (cy_init tops) in
  (forall i k x, k <= W -> i + k < N -> tdepth (fst s i k x) = 5 * k) /\
  (forall j w x, w <= W -> w <= j < N -> tdepth (snd s j (N - 1 - w) x) = 5 * w).
Proof.
  intros Hpot HNT HT. assert (P : 0 < NT * NT /\ 0 < NT * T /\ 0 < T * NT /\ 0 < T * T) by nia. destruct P as (P1 & P2 & P3 & P4).
  induction W as [|W IH]; intros HW; cbn zeta in *.
  - cbn [fold_left seq cy_init fst snd]. split.
    + intros i k x Hk Hi. assert (k = 0) as -> by lia. reflexivity.
    + intros j w x Hw Hj. assert (w = 0) as -> by lia. reflexivity.
  - specialize (IH ltac:(lia)). rewrite seq_S, fold_left_app. cbn [fold_left]. change (1 + W) with (S W).
    set (s := fold_left _ (seq 1 W) _) in *. destruct s as [cA cB]. destruct IH as [IA IB]. cbn [fst snd] in IA, IB.
    assert (HN : forall i x, i + S W < N -> tdepth (cy_span tops NT T N b pot cA cB (S W) i x) = 5 * S W).
    { intros i x Hi. unfold cy_span.
      assert (E1 : tdepth (cy_X1 tops NT N b pot cA cB (S W) i x) = 5 * W + 4).
      { unfold cy_X1, matmul, cy_arr, crule. cbn [ssum smul tops]. rewrite (@depth_sum_all _ 0 (NT * NT) (5 * W + 3)); [lia|auto|].
        intros p Hp. cbn [tdepth]. rewrite ?Hpot. rewrite Nat.max_0_r. rewrite map_map. rewrite <- (map_map (fun m => TMul (cA i m (p / NT)) (cB (i + S W) (N - S W + m) (p mod NT))) tdepth).
        pose proof (@depth_sum_seq (fun m => TMul (cA i m (p / NT)) (cB (i + S W) (N - S W + m) (p mod NT))) 0 (S W) (5 * W + 1)) as Q.
        cbn [tdepth] in Q. rewrite Q; [lia| |].
        - intros m Hm. rewrite IA by lia. replace (N - S W + m) with (N - 1 - (W - m)) by lia. rewrite IB by lia. lia.
        - exists 0. split; [lia|]. rewrite IA by lia. replace (N - S W + 0) with (N - 1 - W) by lia. rewrite IB by lia. lia. }
      assert (E2 : tdepth (cy_X2 tops NT T b pot cA (S W) i x) = 5 * W + 3).
      { unfold cy_X2, matmul, cy_arr, crule, cterm. cbn [ssum smul tops]. rewrite (@depth_sum_all _ 0 (NT * T) (5 * W + 2)); [lia|auto|].
        intros p Hp. cbn [tdepth]. rewrite ?Hpot. rewrite IA by lia. lia. }
      assert (E3 : tdepth (cy_X3 tops NT T N b pot cB (S W) i x) = 5 * W + 3).
      { unfold cy_X3, matmul, cy_arr, crule, cterm. cbn [ssum smul tops]. rewrite (@depth_sum_all _ 0 (T * NT) (5 * W + 2)); [lia|auto|].
        intros p Hp. cbn [tdepth]. rewrite ?Hpot. replace (N - S W) with (N - 1 - W) by lia. rewrite IB by lia. lia. }
      assert (E4 : tdepth (cy_X4 tops NT T b pot (S W) i x) = 3).
      { unfold cy_X4, matmul, cy_arr, crule, cterm. cbn [ssum smul tops]. apply (@depth_sum_all _ 0 (T * T) 2); auto. intros p Hp. cbn [tdepth]. now rewrite !Hpot. }
      cbn [ssum tops app]. destruct (S W =? 1); cbn [app tdepth map list_max fold_right]; rewrite E1, E2, E3, ?E4; lia. }
    cbn [cy_step fst snd]. split.
    + intros i k x Hk Hi. destruct ((i <? N - S W) && (k =? S W)) eqn:E.
      * apply andb_true_iff in E as [E1 E2]. apply Nat.eqb_eq in E2. subst k. apply HN. lia.
      * apply IA; auto. destruct (Nat.eq_dec k (S W)) as [->|]; [|lia]. rewrite Nat.eqb_refl, (proj2 (Nat.ltb_lt i (N - S W))) in E by lia. discriminate.
    + intros j w x Hw Hj. destruct (Nat.eq_dec w (S W)) as [->|Hne].
      * rewrite (proj2 (Nat.leb_le (S W) j)), (proj2 (Nat.ltb_lt j N)) by lia. replace (N - 1 - S W) with (N - S W - 1) by lia. rewrite Nat.eqb_refl.
        cbn [andb]. apply HN. lia.
      * rewrite (proj2 (Nat.eqb_neq (N - 1 - w) (N - S W - 1))) by lia. rewrite andb_false_r. apply IB; lia.
Qed.
Lemma cy_depth NT T N b pot len : (forall x e, tdepth (pot (x :: e)) = 0) -> 0 < NT -> 0 < T -> 1 <= len <= N -> tdepth (cy_one tops NT T N b pot len) = 5 * (len - 1) + 2.
Proof.
  intros Hpot HNT HT Hl. unfold cy_one, pyidx, cy_run, dot, matmul, croot. destruct (Nat.eqb_spec len 0); [lia|]. cbn [ssum smul tops].
  rewrite (@depth_sum_all _ 0 NT (5 * (len - 1) + 1)); [lia|auto|]. intros x Hx. cbn [tdepth]. rewrite Hpot.
  rewrite (proj1 (@cy_depth_run NT T N b pot Hpot HNT HT (N - 1) ltac:(lia)) 0 (len - 1) x) by lia. lia.
Qed.

(** ** Dependencies *)
Lemma depth_dot D (f g : nat -> term) d : (forall m, m < D -> tdepth (f m) <= d /\ tdepth (g m) <= d) ->
  (exists m, m < D /\ (tdepth (f m) = d \/ tdepth (g m) = d)) -> tdepth (dot tops D f g) = d + 2.
Proof.
  intros H (m & Hm & E). unfold dot, matmul. cbn [ssum smul tops]. rewrite (@depth_sum_seq _ 0 D (S d)); [lia| |].
  - intros i Hi. cbn [tdepth]. destruct (H i); lia.
  - exists m. split; [lia|]. cbn [tdepth]. destruct (H m Hm). lia.
Qed.
Section Dep.
  Variables (N st a : nat) (arc : nat -> nat -> term).
  Hypothesis Ha : a <= 1.
  Hypothesis Harc : forall h c, tdepth (arc h c) = a.
  (** complete cells of width k have depth 5 k, incomplete ones 5 k - 2 *)
  Definition dep_inv (W : nat) (s : dstate term) : Prop :=
    (forall i k, k <= W -> st <= i -> i + k < N -> tdepth (acl s i k) = 5 * k /\ tdepth (acr s i k) = 5 * k) /\
    (forall j w, w <= W -> w + st <= j < N -> tdepth (bcl s j (N - 1 - w)) = 5 * w /\ tdepth (bcr s j (N - 1 - w)) = 5 * w) /\
    (forall i k, 1 <= k <= W -> st <= i -> i + k < N -> tdepth (air s i k) = 5 * k - 2) /\
    (forall j w, 1 <= w <= W -> w + st <= j < N -> tdepth (bil s j (N - 1 - w)) = 5 * w - 2).
  Lemma setA_depth k v ch i w d : (w = k -> st <= i -> i + k < N -> tdepth (v i) = d) -> (w <> k -> tdepth (ch i w) = d) -> st <= i -> i + w < N ->
    tdepth (setA tops N st k v ch i w) = d.
  Proof.
    intros H1 H2 Hi Hw. unfold setA. destruct (Nat.eqb_spec w k) as [->|Hne].
    - rewrite (proj2 (Nat.leb_le st i)), (proj2 (Nat.ltb_lt i (N - k))) by lia. cbn [andb]. apply H1; auto.
    - rewrite andb_false_r. auto.
  Qed.
  Lemma setB_depth k v ch j w d : (w = k -> tdepth (v (j - k)) = d) -> (w <> k -> tdepth (ch j (N - 1 - w)) = d) -> w + st <= j < N -> k < N ->
    tdepth (setB tops N st k v ch j (N - 1 - w)) = d.
  Proof.
    intros H1 H2 Hj Hk. unfold setB. destruct (Nat.eqb_spec (N - 1 - w) (N - k - 1)) as [E|Hne].
    - assert (w = k) as -> by lia. rewrite (proj2 (Nat.leb_le (k + st) j)), (proj2 (Nat.ltb_lt j N)) by lia. cbn [andb]. apply H1; auto.
    - rewrite andb_false_r. apply H2. intros ->. apply Hne. lia.
  Qed.
  Lemma dep_step W s : S W < N -> dep_inv W s -> dep_inv (S W) (dp_step tops N st arc s (S W)).
  Proof.
    intros HW (I1 & I2 & I3 & I4). unfold dp_step. cbn zeta.
    set (x := fun i => dot tops (S W) (fun m => acr s i m) (fun m => bcl s (i + S W) (N - S W + m))).
    assert (Hx : forall i, st <= i -> i + S W < N -> tdepth (x i) = 5 * W + 2).
    { intros i Hi Hk. unfold x. apply depth_dot.
      - intros m Hm. split; [destruct (I1 i m); lia|]. replace (N - S W + m) with (N - 1 - (W - m)) by lia. destruct (I2 (i + S W) (W - m)); lia.
      - exists W. split; [lia|]. left. apply (I1 i W); lia. }
    set (al := fun i => smul tops (x i) (arc (i + S W) i)). set (ar := fun i => smul tops (x i) (arc i (i + S W))).
    assert (Hal : forall i, st <= i -> i + S W < N -> tdepth (al i) = 5 * S W - 2).
    { intros i Hi Hk. unfold al. cbn [smul tops tdepth]. rewrite Hx, Harc by auto. lia. }
    assert (Har : forall i, st <= i -> i + S W < N -> tdepth (ar i) = 5 * S W - 2).
    { intros i Hi Hk. unfold ar. cbn [smul tops tdepth]. rewrite Hx, Harc by auto. lia. }
    assert (J3 : forall i k, 1 <= k <= S W -> st <= i -> i + k < N -> tdepth (setA tops N st (S W) ar (air s) i k) = 5 * k - 2).
    { intros i k Hk Hi Hik. apply setA_depth; auto; intros; [subst k; apply Har; auto|apply I3; lia]. }
    assert (J4 : forall j w, 1 <= w <= S W -> w + st <= j < N -> tdepth (setB tops N st (S W) al (bil s) j (N - 1 - w)) = 5 * w - 2).
    { intros j w Hw Hj. apply setB_depth; auto; intros; [subst w; apply Hal; lia|apply I4; lia]. }
    set (nl := fun i => dot tops (S W) (fun m => acl s i m) (fun m => setB tops N st (S W) al (bil s) (i + S W) (N - S W - 1 + m))).
    set (nr := fun i => dot tops (S W) (fun m => setA tops N st (S W) ar (air s) i (1 + m)) (fun m => bcr s (i + S W) (N - S W + m))).
    assert (Hnl : forall i, st <= i -> i + S W < N -> tdepth (nl i) = 5 * S W).
    { intros i Hi Hk. unfold nl. rewrite (@depth_dot (S W) _ _ (5 * S W - 2)); [lia| |].
      - intros m Hm. split; [destruct (I1 i m); lia|]. replace (N - S W - 1 + m) with (N - 1 - (S W - m)) by lia. rewrite J4 by lia. lia.
      - exists 0. split; [lia|]. right. replace (N - S W - 1 + 0) with (N - 1 - S W) by lia. apply J4; lia. }
    assert (Hnr : forall i, st <= i -> i + S W < N -> tdepth (nr i) = 5 * S W).
    { intros i Hi Hk. unfold nr. rewrite (@depth_dot (S W) _ _ (5 * S W - 2)); [lia| |].
      - intros m Hm. split; [rewrite J3 by lia; lia|]. replace (N - S W + m) with (N - 1 - (W - m)) by lia. destruct (I2 (i + S W) (W - m)); lia.
      - exists W. split; [lia|]. left. apply J3; lia. }
    unfold dep_inv. cbn [acl acr bcl bcr ail air bil bir]. split; [|split; [|split]]; auto.
    - intros i k Hk Hi Hik. split; (apply setA_depth; [| |exact Hi|exact Hik]).
      + intros -> _ H. now apply Hnl.
      + intro H. apply I1; lia.
      + intros -> _ H. now apply Hnr.
      + intro H. apply I1; lia.
    - intros j w Hw Hj. split; (apply setB_depth; [| |exact Hj|exact HW]).
      + intros ->. apply Hnl; lia.
      + intro H. apply I2; lia.
      + intros ->. apply Hnr; lia.
      + intro H. apply I2; lia.
  Qed.
  Lemma dep_run W : W < N -> dep_inv W (fold_left (dp_step tops N st arc) (seq 1 W) (dp_init tops N)).
  Proof.
    induction W as [|W IH]; intro HW.
    - cbn [seq fold_left]. unfold dep_inv, dp_init. cbn [acl acr bcl bcr ail air bil bir].
      split; [|split; [|split]]; try (intros; lia).
      + intros i k Hk Hi Hik. assert (k = 0) as -> by lia. split; reflexivity.
      + intros j w Hw Hj. assert (w = 0) as -> by lia. rewrite Nat.sub_0_r. unfold fill. rewrite Nat.eqb_refl. split; reflexivity.
    - rewrite seq_S, fold_left_app. cbn [fold_left]. change (1 + W) with (S W). apply dep_step; auto. apply IH. lia.
  Qed.
End Dep.

(** spec: the sum over labels adds one level *)
Definition lab_depth (lab : option nat) : nat := match lab with None => 0 | Some _ => 1 end.
Lemma arc_depth lab b len h c : lab <> Some 0 -> tdepth (dp_arc tops (szero tops) lab TLeaf b len h c) = lab_depth lab.
Proof.
  assert (H : forall l, tdepth (dp_cell tops (szero tops) TLeaf b len h c l) = 0).
  { intro l. unfold dp_cell. destruct (_ || _); [reflexivity|]. destruct (_ || _); reflexivity. }
  intro HL. destruct lab as [L|]; cbn [dp_arc lab_depth]; [|apply H]. cbn [ssum tops].
  apply depth_sum_all; [destruct L; [congruence|lia]|]. intros; apply H.
Qed.
Lemma dp_depth_multi lab n b len : lab <> Some 0 -> len <= n -> tdepth (dp_one tops true lab n (szero tops) TLeaf b len) = 5 * len.
Proof.
  intros HL Hl. unfold dp_one, dp_run. cbn zeta.
  destruct (@dep_run (n + 1) 0 (lab_depth lab) (dp_arc tops (szero tops) lab TLeaf b len)) with (W := n + 1 - 0 - 1) as (I & _);
    [destruct lab; cbn; lia|intros; now apply arc_depth|lia|]. apply I; lia.
Qed.
Lemma dp_depth_single lab n b len : lab <> Some 0 -> 1 <= len <= n ->
  tdepth (dp_one tops false lab n (szero tops) TLeaf b len) = Nat.max (5 * (len - 1)) (lab_depth lab) + 3.
Proof.
  intros HL Hl. unfold dp_one, dp_run, dp_root. cbn zeta.
  set (arc := dp_arc tops (szero tops) lab TLeaf b len). set (s := fold_left _ _ _).
  assert (I : dep_inv (n + 1) 1 (n + 1 - 1 - 1) s).
  { apply (@dep_run (n + 1) 1 (lab_depth lab)); [destruct lab; cbn; lia|intros; now apply arc_depth|lia]. }
  destruct I as (I1 & I2 & _). assert (Ha : forall h c, tdepth (arc h c) = lab_depth lab) by (intros; now apply arc_depth).
  clearbody s arc. change (car tops) with term in *.
  rewrite (proj2 (Nat.leb_le 1 len)), (proj2 (Nat.ltb_lt len (n + 1))) by lia. cbn [andb].
  rewrite (@depth_dot len _ _ (Nat.max (5 * (len - 1)) (lab_depth lab) + 1)); [lia| |].
  - intros m Hm. split.
    + unfold dp_root_inc. cbn [smul tops tdepth]. change (car tops) with term. rewrite Ha. rewrite (proj1 (I1 1 m ltac:(lia) ltac:(lia) ltac:(lia))). lia.
    + replace (n + 1 - len + m) with (n + 1 - 1 - (len - 1 - m)) by lia. rewrite (proj2 (I2 len (len - 1 - m) ltac:(lia) ltac:(lia))). lia.
  - exists (len - 1). split; [lia|]. left. unfold dp_root_inc. cbn [smul tops tdepth]. change (car tops) with term. rewrite Ha.
    rewrite (proj1 (I1 1 (len - 1) ltac:(lia) ltac:(lia) ltac:(lia))). lia.
Qed.

(** ** C66 *)
Definition log_up (n k : nat) : Prop := n <= 2 ^ k /\ (forall k', n <= 2 ^ k' -> k <= k').
Lemma log2_up_spec n : 1 <= n -> log_up n (Nat.log2_up n).
Proof.
  intro H. split.
  - destruct (Nat.eq_dec n 1) as [->|]; [simpl; lia|]. apply Nat.log2_up_spec. lia.
  - intros k' Hk. rewrite <- (Nat.log2_up_pow2 k') by lia. now apply Nat.log2_up_le_mono.
Qed.

(** closed forms *)
Definition steps (c : call) (b : nat) : nat :=
  match c with
  | CLin _ N _ _ | CSemi _ N _ _ _ => 2 * Nat.log2_up (N - 1) + 3
  | CTree _ N _ ls => 3 * (eff_len N (lc_len N ls b) - 1) + 1
  | CCfg _ N _ _ ls => 5 * (eff_len N (lc_len N ls b) - 1) + 2
  | CDep true _ n _ ls => 5 * lc_len n ls b
  | CDep false _ n lab ls => if lc_len n ls b =? 0 then 0 else Nat.max (5 * (lc_len n ls b - 1)) (lab_depth lab) + 3
  end.
Lemma run_row c f n b : run c tops TLeaf = Ok (map f (seq 0 n)) -> b < n -> row_graph c b = f b.
Proof. intros E Hb. unfold row_graph, graphs. rewrite E. now apply nth_map_seq. Qed.
Lemma row_depth c b : valid c -> b < batch_of c -> sequential (steps c b) (row_graph c b).
Proof.
  intros V Hb. pose proof (@graph_wf c b V Hb) as W. apply depth_sequential in W.
  enough (E : tdepth (row_graph c b) = steps c b) by (now rewrite <- E). clear W.
  destruct c as [batch N C ls|batch N K C ls|batch N NT ls|batch N NT T ls|mr batch n lab ls]; cbn [valid batch_of] in V, Hb; cbn [steps].
  - pose proof (lc_logpartition_run tops (tens [batch; N - 1; C; C] TLeaf) V eq_refl) as E. pose proof (@run_row (CLin batch N C ls) _ _ b E) as E'. rewrite E' by auto.
    apply lc_depth, V.
  - pose proof (sm_logpartition_run tops (tens [batch; N - 1; K; C; C] TLeaf) V eq_refl) as E. pose proof (@run_row (CSemi batch N K C ls) _ _ b E) as E'. rewrite E' by auto.
    apply sm_depth; apply V.
  - pose proof (ck_logpartition_run tops (tens [batch; N; N; NT] TLeaf) V eq_refl) as E. pose proof (@run_row (CTree batch N NT ls) _ _ b E) as E'. rewrite E' by auto.
    cbn [dat tens]. rewrite ck_one_eff. apply ck_depth; [apply V|]. apply (@eff_len_ok batch); auto; apply V.
  - pose proof (@cy_logpartition_run tops batch N NT T (tens [batch; N; T] (fun e => TLeaf (0 :: e)))
      (tens [batch; NT; NT + T; NT + T] (fun e => TLeaf (1 :: e))) (tens [batch; NT] (fun e => TLeaf (2 :: e))) ls V eq_refl eq_refl eq_refl) as E.
    pose proof (@run_row (CCfg batch N NT T ls) _ _ b E) as E'. rewrite E' by auto.
    cbn [dat tens]. rewrite cy_one_eff by apply V. apply cy_depth; [intros [|[|x]] e; reflexivity|apply V|apply V|]. apply (@eff_len_ok batch); auto; apply V.
  - destruct V as [V HL].
    pose proof (@dp_logpartition_run tops mr TZero batch n lab (tens (match lab with None => [batch; n; n] | Some L => [batch; n; n; L] end) TLeaf) ls V eq_refl) as E.
    pose proof (@run_row (CDep mr batch n lab ls) _ _ b E) as E'. rewrite E' by auto.
    cbn [dat tens]. assert (Hl : lc_len n ls b <= n) by (eapply dp_len_le; eauto).
    destruct mr; [now apply dp_depth_multi|]. destruct (Nat.eqb_spec (lc_len n ls b) 0) as [->|Hne].
    + rewrite dp_one_empty. reflexivity.
    + apply dp_depth_single; auto. lia.
Qed.

(** LinearChainCRF and SemiMarkovCRF: 2 ceil(log2(N-1)) + 3 operations have to
    be done one after the other, whatever the lengths of the sentences, the number
    of labels and of widths *)
Theorem C66_logarithmic c b : valid c -> b < batch_of c ->
  match c with
  | CLin _ N _ _ | CSemi _ N _ _ _ => exists k, log_up (N - 1) k /\ sequential (2 * k + 3) (row_graph c b)
  | _ => True
  end.
Proof.
  intros V Hb. pose proof (@row_depth c b V Hb) as D.
  destruct c as [batch N C ls|batch N K C ls| | |]; auto; (exists (Nat.log2_up (N - 1)); split; [apply log2_up_spec; destruct V; lia|exact D]).
Qed.
Print Assumptions C66_logarithmic.

(** TreeCRF, SentCFG and DependencyCRF: proportional to the length of the
    sentence, whatever the number of labels and symbols *)
Theorem C66_linear c b : valid c -> row_ok c b ->
  match c with
  | CTree _ N _ ls => exists n, n = (if len_of c b =? 0 then N else len_of c b) /\ sequential (3 * n - 2) (row_graph c b)
  | CCfg _ N _ _ ls => exists n, n = (if len_of c b =? 0 then N else len_of c b) /\ sequential (5 * n - 3) (row_graph c b)
  | CDep true _ _ _ _ => sequential (5 * len_of c b) (row_graph c b)
  | CDep false _ _ None _ => sequential (5 * len_of c b - 2) (row_graph c b)
  | CDep false _ _ (Some _) _ => sequential (if len_of c b =? 1 then 4 else 5 * len_of c b - 2) (row_graph c b)
  | _ => True
  end.
Proof.
  intros V [Hb R]. pose proof (@row_depth c b V Hb) as D.
  destruct c as [batch N C ls|batch N K C ls|batch N NT ls|batch N NT T ls|mr batch n lab ls]; auto; cbn [steps len_of batch_of valid] in *.
  - destruct V as (V1 & V2 & V3). pose proof (@eff_len_ok batch N ls b V1 Hb V3) as L. exists (eff_len N (lc_len N ls b)). split; [reflexivity|].
    replace (3 * eff_len N (lc_len N ls b) - 2) with (3 * (eff_len N (lc_len N ls b) - 1) + 1) by lia. exact D.
  - destruct V as (V1 & V2 & V3 & V4). pose proof (@eff_len_ok batch N ls b V1 Hb V4) as L. exists (eff_len N (lc_len N ls b)). split; [reflexivity|].
    replace (5 * eff_len N (lc_len N ls b) - 3) with (5 * (eff_len N (lc_len N ls b) - 1) + 2) by lia. exact D.
  - destruct mr; [exact D|]. set (l := lc_len n ls b) in *. rewrite (proj2 (Nat.eqb_neq l 0)) in D by lia. destruct lab as [L|]; cbn [lab_depth] in D.
    + destruct (Nat.eqb_spec l 1) as [E|]; [rewrite E in D; exact D|].
      replace (5 * l - 2) with (Nat.max (5 * (l - 1)) 1 + 3) by lia. exact D.
    + replace (5 * l - 2) with (Nat.max (5 * (l - 1)) 0 + 3) by lia. exact D.
Qed.
Print Assumptions C66_linear.

(** the other program for semi-Markov models, [_dp_standard], gives the same
    value (C05) but needs a number of steps proportional to the length *)
Theorem C66_standard batch N K C ls b : valid (CSemi batch N K C ls) -> b < batch -> 1 <= lc_len N ls b ->
  exists v, smd_logpartition tops (tens [batch; N - 1; K; C; C] TLeaf) ls = Ok v /\
  sequential (3 * lc_len N ls b - 2) (nth b v TZero).
Proof.
  intros V Hb Hl. pose proof (@smd_logpartition_run tops batch N K C (tens [batch; N - 1; K; C; C] TLeaf) ls V eq_refl) as E.
  eexists. split; [exact E|]. rewrite nth_map_seq by auto. cbn [dat tens].
  pose proof V as (V1 & V2 & V3 & V4 & V5). assert (Hle : lc_len N ls b <= N) by (apply lc_len_le; destruct ls; [apply V5|exact I]).
  replace (3 * lc_len N ls b - 2) with (3 * (lc_len N ls b - 1) + 1) by lia. rewrite <- (@smd_depth K C N b) by lia.
  apply depth_sequential.
  apply (@resp_smd_one tops tops _ (@leval_resp tops TLeaf) TLeaf TLeaf (@leval_leaf tops TLeaf) K C N b (lc_len N ls b) V3 V2).
Qed.
Print Assumptions C66_standard.

(** *** The hypotheses are met *)
Example depth_hypotheses :
  (valid (CSemi 2 5 3 2 (Some [5; 3])) /\ 1 < batch_of (CSemi 2 5 3 2 (Some [5; 3])) /\ log_up 4 2 /\
   sequential 7 (row_graph (CSemi 2 5 3 2 (Some [5; 3])) 1)) /\
  (valid (CDep false 1 3 (Some 2) None) /\ row_ok (CDep false 1 3 (Some 2) None) 0 /\ sequential 13 (row_graph (CDep false 1 3 (Some 2) None) 0)) /\
  (valid (CCfg 1 4 2 3 None) /\ row_ok (CCfg 1 4 2 3 None) 0 /\ sequential 17 (row_graph (CCfg 1 4 2 3 None) 0)).
Proof.
  assert (V1 : valid (CSemi 2 5 3 2 (Some [5; 3]))) by (cbn; repeat split; lia).
  assert (V2 : valid (CDep false 1 3 (Some 2) None)) by (cbn; repeat split; [lia|discriminate]).
  assert (V3 : valid (CCfg 1 4 2 3 None)) by (cbn; repeat split; lia).
  assert (R2 : row_ok (CDep false 1 3 (Some 2) None) 0) by (split; cbn; lia).
  assert (R3 : row_ok (CCfg 1 4 2 3 None) 0) by (split; cbn; lia).
  split; [|split].
  - split; [exact V1|]. split; [cbn; lia|]. split; [apply (@log2_up_spec 4); lia|].
    exact (@row_depth (CSemi 2 5 3 2 (Some [5; 3])) 1 V1 ltac:(cbn; lia)).
  - split; [exact V2|]. split; [exact R2|]. exact (@row_depth (CDep false 1 3 (Some 2) None) 0 V2 ltac:(cbn; lia)).
  - split; [exact V3|]. split; [exact R3|]. exact (@row_depth (CCfg 1 4 2 3 None) 0 V3 ltac:(cbn; lia)).
Qed.
