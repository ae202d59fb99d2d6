(** * Grad: the backward pass.

    helpers.py:83-116 [marginals]: the gradient of the (summed) value with respect
    to the potentials, where each semiring class chooses how a [sum] node passes
    its incoming gradient to its inputs:
    - LogSemiring (semirings.py:102-104): child i gets g * softmax_i (the
      derivative of logsumexp);
    - MaxSemiring (semirings.py:167-169): the child selected by torch.max gets g;
    - SampledSemiring (sample.py:12-39): the drawn child gets g.
    [mul] is an addition, both sides get g. Constants get nothing; a masked copy
    of a potential ([TOver], filled through [.data]) passes its gradient on.
    Simplification: shared nodes are unfolded, a node is identified by its path
    from the root, and choices are indexed by paths (so the same shared node may
    choose differently along different paths: more behaviours than the code). *)
From Verif Require Import Base Ops Terms Poly Semirings.
Set Implicit Arguments.
Local Open Scope R_scope.

(** position of a node in a tree: indices of arguments, innermost first *)
Definition path := list nat.

Section Mapi.
  Variables (A B : Type) (f : nat -> A -> B).
  (** proof device: map with the index *)
  Fixpoint mapi (i : nat) (l : list A) : list B :=
    match l with [] => [] | a :: l' => f i a :: mapi (S i) l' end.
End Mapi.

Lemma mapi_length A B (f : nat -> A -> B) l i : length (mapi f i l) = length l.
Proof. revert i; induction l; simpl; auto. Qed.
Lemma mapi_ext_in A B (f g : nat -> A -> B) l : forall i,
  (forall j a, In a l -> f j a = g j a) -> mapi f i l = mapi g i l.
Proof. induction l as [|a l IH]; simpl; intros i H; auto. rewrite H by (left; auto). f_equal. apply IH. intros; apply H; right; auto. Qed.
Lemma mapi_map A B C (f : nat -> A -> B) (g : B -> C) l : forall i, map g (mapi f i l) = mapi (fun j a => g (f j a)) i l.
Proof. induction l; simpl; intros; congruence. Qed.
Lemma mapi_const A B (f : A -> B) l : forall i, mapi (fun _ a => f a) i l = map f l.
Proof. induction l; simpl; intros; congruence. Qed.
Lemma in_mapi A B (f : nat -> A -> B) l y : forall i, In y (mapi f i l) <->
  exists j a, nth_error l j = Some a /\ y = f (i + j)%nat a.
Proof.
  induction l as [|a l IH]; simpl; intro i.
  - split; [intros []|]. intros (j & a & H & _). destruct j; discriminate.
  - rewrite IH. split.
    + intros [<-|(j & b & H & ->)].
      * exists 0%nat, a. rewrite Nat.add_0_r. auto.
      * exists (S j), b. rewrite <- plus_n_Sm. auto.
    + intros ([|j] & b & H & ->); simpl in H.
      * left. rewrite Nat.add_0_r. congruence.
      * right. exists j, b. rewrite <- plus_n_Sm. auto.
Qed.

(** number of uses of the potential [e] in a derivation, as seen by the gradient *)
Definition acount (e : list nat) (a : atom) : R :=
  match a with
  | AL e' | AO e' => if list_eq_dec Nat.eq_dec e e' then 1 else 0
  | AZ => 0
  end.
(** uses of entry e in a derivation *)
Definition cnt (e : list nat) (m : deriv) : R := RSum (acount e) m.
Lemma cnt_app e a b : cnt e (a ++ b) = cnt e a + cnt e b.
Proof. apply RSum_app. Qed.

(** rule for passing gradients at sum nodes: weight of child i *)
Definition rule := path -> list term -> nat -> R.

(** The backward pass with incoming gradient g; contribution to the potential e. *)
Fixpoint bp (w : rule) (p : path) (t : term) (g : R) (e : list nat) : R :=
  match t with
  | TLeaf e' | TOver e' => if list_eq_dec Nat.eq_dec e e' then g else 0
  | TOne | TZero => 0
  | TMul a b => bp w (0%nat :: p) a g e + bp w (1%nat :: p) b g e
  | TSum l => ksum R_csr (mapi (fun i t' => bp w (i :: p) t' (g * w p l i) e) 0 l)
  end.

(** The distribution over derivations obtained by choosing child i of the sum
    node at path p with weight [w p l i]. *)
Fixpoint dist (w : rule) (p : path) (t : term) : list (R * deriv) :=
  match t with
  | TLeaf e => [(1, [AL e])]
  | TOver e => [(1, [AO e])]
  | TOne => [(1, [])]
  | TZero => [(1, [AZ])]
  | TMul a b => flat_map (fun x => map (fun y => (fst x * fst y, snd x ++ snd y)) (dist w (1%nat :: p) b))
                         (dist w (0%nat :: p) a)
  | TSum l => concat (mapi (fun i t' => map (fun x => (w p l i * fst x, snd x)) (dist w (i :: p) t')) 0 l)
  end.

(** weights at every sum node sum to one *)
Definition normal (w : rule) : Prop := forall p l, l <> [] ->
  ksum R_csr (mapi (fun i _ => w p l i) 0 l) = 1.

Lemma ksum_scal g (l : list R) : ksum R_csr (map (Rmult g) l) = g * ksum R_csr l.
Proof. induction l as [|a l IH]; [simpl; ring|]. cbn [map]. rewrite !ksum_cons, IH. simpl. ring. Qed.
Lemma RSum_concat A (f : A -> R) l : RSum f (concat l) = RSum (RSum f) l.
Proof. apply (Sum_concat R_csr). Qed.
Lemma RSum_mapi A B (f : B -> R) (h : nat -> A -> B) l : forall i,
  RSum f (mapi h i l) = ksum R_csr (mapi (fun j a => f (h j a)) i l).
Proof. intro i. unfold Sum. now rewrite mapi_map. Qed.
Lemma RSum_map A B (f : B -> R) (h : A -> B) l : RSum f (map h l) = RSum (fun x => f (h x)) l.
Proof. apply (Sum_map R_csr). Qed.

Lemma dist_snd w t : forall p, map snd (dist w p t) = expand t.
Proof.
  induction t as [e|e| | |l IH|a b IHa IHb] using term_ind'; intro p; simpl; auto.
  - rewrite concat_map, mapi_map.
    rewrite (@mapi_ext_in _ _ _ (fun _ t => expand t)).
    + rewrite mapi_const. now rewrite <- flat_map_concat_map.
    + intros j t Ht. rewrite map_map. simpl. rewrite Forall_forall in IH. apply IH; auto.
  - unfold prods. rewrite <- (IHa (0%nat :: p)), <- (IHb (1%nat :: p)).
    rewrite !flat_map_concat_map, concat_map, !map_map. f_equal. apply map_ext. intro x.
    rewrite !map_map. reflexivity.
Qed.

Lemma dist_total w t : normal w -> twf t -> forall p, RSum fst (dist w p t) = 1.
Proof.
  intro Hw. induction t as [e|e| | |l IH|a b IHa IHb] using term_ind'; intros W p;
    try (unfold Sum; simpl; ring).
  - inversion_clear W as [| | | |? Hn Hf|]. cbn [dist]. rewrite RSum_concat, RSum_mapi.
    rewrite <- (Hw p l Hn). f_equal. apply mapi_ext_in. intros j t Ht. rewrite RSum_map. simpl.
    rewrite RSum_scal, Forall_forall in *. rewrite IH; auto. ring.
  - inversion_clear W. cbn [dist]. rewrite RSum_flat_map.
    rewrite (Sum_ext R_csr _ (fun x => fst x * 1)).
    + rewrite RSum_scar, IHa by auto. ring.
    + intro x. rewrite RSum_map. simpl. rewrite RSum_scal, IHb by auto. reflexivity.
Qed.

(** the backward pass computes expected counts *)
Theorem bp_expect w t : normal w -> twf t -> forall p g e,
  bp w p t g e = g * RSum (fun x => fst x * cnt e (snd x)) (dist w p t).
Proof.
  intro Hw. induction t as [e'|e'| | |l IH|a b IHa IHb] using term_ind'; intros W p g e.
  - simpl. unfold Sum, cnt, Sum; simpl. destruct (list_eq_dec Nat.eq_dec e e'); ring.
  - simpl. unfold Sum, cnt, Sum; simpl. destruct (list_eq_dec Nat.eq_dec e e'); ring.
  - simpl. unfold Sum, cnt, Sum; simpl. ring.
  - simpl. unfold Sum, cnt, Sum; simpl. ring.
  - inversion_clear W as [| | | |? Hn Hf|]. cbn [bp dist]. rewrite RSum_concat, RSum_mapi.
    transitivity (ksum R_csr (map (Rmult g) (mapi (fun j a => RSum (fun x => fst x * cnt e (snd x))
        (map (fun x => (w p l j * fst x, snd x)) (dist w (j :: p) a))) 0 l))).
    2:{ apply ksum_scal. }
    rewrite mapi_map. f_equal. apply mapi_ext_in. intros j t Ht. rewrite Forall_forall in IH, Hf.
    rewrite IH by auto. rewrite RSum_map. cbn [fst snd].
    rewrite (Sum_ext R_csr (fun x => w p l j * fst x * cnt e (snd x)) (fun x => w p l j * (fst x * cnt e (snd x)))) by (intro x; ring).
    rewrite RSum_scal. ring.
  - inversion_clear W as [| | | | |? ? Wa Wb]. cbn [bp dist]. rewrite RSum_flat_map, IHa, IHb by auto.
    match goal with |- _ = g * ?s => transitivity (g * RSum (fun x => fst x * cnt e (snd x) * 1 + fst x *
       RSum (fun y => fst y * cnt e (snd y)) (dist w (1%nat :: p) b)) (dist w (0%nat :: p) a)) end.
    + rewrite RSum_add, !RSum_scar, (dist_total Hw Wa). ring.
    + f_equal. apply (Sum_ext R_csr). intro x. symmetry. rewrite RSum_map. cbn [fst snd].
      rewrite (Sum_ext R_csr (fun y => fst x * fst y * cnt e (snd x ++ snd y))
        (fun y => fst x * cnt e (snd x) * fst y + fst x * (fst y * cnt e (snd y)))) by
        (intro; rewrite cnt_app; ring).
      rewrite RSum_add, !RSum_scal, (dist_total Hw Wb). reflexivity.
Qed.

(** ** LogSemiring: softmax weights *)
Definition w_soft (z : R) (phi : list nat -> R) : rule := fun _ l i =>
  exp (nth i (map (leval (log_ops z) phi) l) 0 - lse (map (leval (log_ops z) phi) l)).

Lemma mapi_nth A B (f : A -> B) l d : forall i, mapi (fun j _ => nth (j - i) (map f l) d) i l = map f l.
Proof.
  induction l as [|a l IH]; intro i; simpl; auto. rewrite Nat.sub_diag. f_equal.
  transitivity (mapi (fun j _ => nth (j - S i) (map f l) d) (S i) l); [|apply IH].
  assert (G : forall (l' : list A) k, (i < k)%nat -> mapi (fun j (_ : A) => match (j - i)%nat with 0%nat => f a | S m => nth m (map f l) d end) k l'
     = mapi (fun j _ => nth (j - S i) (map f l) d) k l').
  { induction l' as [|x l' IH']; intros k Hk; simpl; auto. rewrite IH' by lia. f_equal.
    replace (k - i)%nat with (S (k - S i)) by lia. reflexivity. }
  apply G. lia.
Qed.
Lemma mapi_nth0 A B (f : A -> B) l d : mapi (fun j _ => nth j (map f l) d) 0 l = map f l.
Proof.
  transitivity (mapi (fun j _ => nth (j - 0) (map f l) d) 0 l); [|apply mapi_nth].
  apply mapi_ext_in. intros. now rewrite Nat.sub_0_r.
Qed.

Lemma w_soft_normal z phi : normal (w_soft z phi).
Proof.
  intros p l Hl. unfold w_soft.
  set (v := leval (log_ops z) phi).
  transitivity (ksum R_csr (map (fun x => exp (x - lse (map v l))) (mapi (fun i _ => nth i (map v l) 0) 0 l))).
  { rewrite mapi_map. reflexivity. }
  rewrite mapi_nth0. rewrite map_map. apply (sm_one v Hl).
Qed.

Lemma w_soft_nth z phi p l i t : nth_error l i = Some t -> twf t ->
  twf (TSum l) -> w_soft z phi p l i = ZZ phi z t / ZZ phi z (TSum l).
Proof.
  intros Hi Wt Wl. unfold w_soft.
  assert (E : nth i (map (leval (log_ops z) phi) l) 0 = leval (log_ops z) phi t).
  { apply nth_error_nth, map_nth_error, Hi. }
  rewrite E.
  unfold Rminus. rewrite exp_plus, exp_Ropp, log_value by auto.
  change (lse (map (leval (log_ops z) phi) l)) with (leval (log_ops z) phi (TSum l)).
  rewrite log_value by auto. reflexivity.
Qed.

(** the softmax law is the Gibbs law over derivations *)
Lemma mapi_ext_nth A B (f g : nat -> A -> B) l : forall i,
  (forall j a, nth_error l j = Some a -> f (i + j)%nat a = g (i + j)%nat a) -> mapi f i l = mapi g i l.
Proof.
  induction l as [|a l IH]; simpl; intros i H; auto. f_equal.
  - rewrite <- (Nat.add_0_r i). apply H. reflexivity.
  - apply IH. intros j b Hj. replace (S i + j)%nat with (i + S j)%nat by lia. apply H. exact Hj.
Qed.

Theorem dist_soft z phi t : twf t -> forall p,
  dist (w_soft z phi) p t = map (fun m => (pr phi z t m, m)) (expand t).
Proof.
  intro W. induction t as [e|e| | |l IH|a b IHa IHb] using term_ind'; intro p.
  1-4: simpl; unfold pr, ZZ; simpl; unfold Sum; simpl; rewrite Rplus_0_r; unfold Rdiv;
       rewrite Rinv_r; [reflexivity|apply Rgt_not_eq, exp_pos].
  - inversion W as [| | | |? Hn Hf|]; subst. cbn [dist expand].
    rewrite flat_map_concat_map, concat_map, map_map. f_equal.
    rewrite <- (mapi_const (fun t => map (fun m => (pr phi z (TSum l) m, m)) (expand t)) l 0).
    apply mapi_ext_nth. intros j t Hj. simpl. assert (Ht := nth_error_In _ _ Hj).
    rewrite Forall_forall in IH, Hf. rewrite IH by auto. rewrite map_map. apply map_ext. intro m. simpl.
    f_equal. rewrite (@w_soft_nth z phi p l j t) by auto. unfold pr.
    pose proof (ZZ_pos phi z (Hf t Ht)). pose proof (ZZ_pos phi z W). field. split; lra.
  - inversion W as [| | | | |? ? Wa Wb]; subst. cbn [dist expand]. rewrite IHa, IHb by auto.
    unfold prods. rewrite !flat_map_concat_map, concat_map, !map_map. f_equal. apply map_ext. intro x.
    rewrite !map_map. apply map_ext. intro y. simpl. f_equal. unfold pr, ZZ. cbn [expand].
    rewrite (Sum_prods R_csr) by (intros; rewrite score_app; apply exp_plus).
    rewrite score_app, exp_plus. cbn [kmul R_csr].
    pose proof (ZZ_pos phi z Wa) as Ha. pose proof (ZZ_pos phi z Wb) as Hb. unfold ZZ in Ha, Hb.
    change (K R_csr) with R in *. field. split; lra.
Qed.

(** log marginals: expected counts under the Gibbs law over derivations *)
Theorem bp_log z phi t p g e : twf t ->
  bp (w_soft z phi) p t g e = g * mean phi z t (cnt e).
Proof.
  intro W. rewrite bp_expect by auto using w_soft_normal. rewrite dist_soft by auto.
  rewrite RSum_map. reflexivity.
Qed.

(** ** Choosing one child: MaxSemiring and SampledSemiring *)
Definition w_pick (o : path -> nat) : rule := fun p _ i => if i =? o p then 1 else 0.

(** the derivation selected by the choices *)
Fixpoint picked (o : path -> nat) (p : path) (t : term) : deriv :=
  match t with
  | TLeaf e => [AL e]
  | TOver e => [AO e]
  | TOne => []
  | TZero => [AZ]
  | TMul a b => picked o (0%nat :: p) a ++ picked o (1%nat :: p) b
  | TSum l => concat (mapi (fun i t' => if i =? o p then picked o (i :: p) t' else []) 0 l)
  end.

(** every choice is the index of a child *)
Fixpoint inrange (o : path -> nat) (p : path) (t : term) : Prop :=
  match t with
  | TMul a b => inrange o (0%nat :: p) a /\ inrange o (1%nat :: p) b
  | TSum l => (o p < length l)%nat /\ fold_right and True (mapi (fun i t' => inrange o (i :: p) t') 0 l)
  | _ => True
  end.

Lemma fold_and_mapi A (f : nat -> A -> Prop) l : forall i, fold_right and True (mapi f i l) <->
  forall j a, nth_error l j = Some a -> f (i + j)%nat a.
Proof.
  induction l as [|a l IH]; simpl; intro i.
  - split; auto. intros _ [|j] b H; discriminate.
  - rewrite IH. split.
    + intros [H1 H2] [|j] b E; simpl in E.
      * rewrite Nat.add_0_r. congruence.
      * rewrite <- plus_n_Sm. apply (H2 j b E).
    + intro H. split.
      * rewrite <- (Nat.add_0_r i). apply H; reflexivity.
      * intros j b E. replace (S i + j)%nat with (i + S j)%nat by lia. apply H, E.
Qed.

Lemma picked_sum o p l t : nth_error l (o p) = Some t -> picked o p (TSum l) = picked o (o p :: p) t.
Proof.
  intro H. simpl. 
  assert (G : forall k l i, nth_error l k = Some t -> o p = (i + k)%nat ->
     concat (mapi (fun i t' => if i =? o p then picked o (i :: p) t' else []) i l) = picked o (o p :: p) t).
  { assert (Z : forall l' i', (o p < i')%nat -> concat (mapi (fun i t' => if i =? o p then picked o (i :: p) t' else []) i' l') = []).
    { induction l' as [|x l' IH]; intros i' Hi; simpl; auto.
      replace (i' =? o p) with false by (symmetry; apply Nat.eqb_neq; lia). apply IH. lia. }
    induction k; intros [|x l'] i E Eo; simpl in E; try discriminate.
    - injection E as ->. rewrite Nat.add_0_r in Eo. simpl. rewrite <- Eo, Nat.eqb_refl, Z by lia. apply app_nil_r.
    - simpl. replace (i =? o p) with false by (symmetry; apply Nat.eqb_neq; lia). apply IHk; auto. lia. }
  apply (G _ _ _ H). reflexivity.
Qed.

Lemma bp_zero w t : forall p e, bp w p t 0 e = 0.
Proof.
  induction t as [e'|e'| | |l IH|a b IHa IHb] using term_ind'; intros p e; simpl; auto.
  1-2: destruct (list_eq_dec Nat.eq_dec e e'); auto.
  - rewrite (@mapi_ext_in _ _ _ (fun _ _ => 0)).
    + rewrite mapi_const. apply (Sum_0 R_csr).
    + intros j t Ht. rewrite Rmult_0_l. rewrite Forall_forall in IH. auto.
  - rewrite IHa, IHb. ring.
Qed.

Lemma ksum_mapi_delta A (f : nat -> A -> R) l k t : forall i, nth_error l k = Some t ->
  (forall j a, j <> k -> f (i + j)%nat a = 0) -> ksum R_csr (mapi f i l) = f (i + k)%nat t.
Proof.
  revert k. induction l as [|x l IH]; intros [|k] i E H; simpl in E; try discriminate.
  - injection E as ->. cbn [mapi]. rewrite ksum_cons, Nat.add_0_r. cbn [kadd R_csr].
    assert (Z : ksum R_csr (mapi f (S i) l) = 0).
    { rewrite (@mapi_ext_nth _ _ _ (fun _ _ => 0)).
      - rewrite mapi_const. apply (Sum_0 R_csr).
      - intros j a Hj. replace (S i + j)%nat with (i + S j)%nat by lia. apply H. lia. }
    rewrite Z. ring.
  - cbn [mapi]. rewrite ksum_cons. rewrite (IH k (S i) E).
    + assert (Z := H 0%nat x ltac:(lia)). rewrite Nat.add_0_r in Z. rewrite Z. simpl.
      replace (S (i + k)) with (i + S k)%nat by lia. ring.
    + intros j a Hj. replace (S i + j)%nat with (i + S j)%nat by lia. apply H. lia.
Qed.

(** the gradient is g times the count vector of the selected derivation *)
Theorem bp_pick o t : forall p g e, inrange o p t -> bp (w_pick o) p t g e = g * cnt e (picked o p t).
Proof.
  induction t as [e'|e'| | |l IH|a b IHa IHb] using term_ind'; intros p g e H.
  - simpl. unfold cnt, Sum; simpl. destruct (list_eq_dec Nat.eq_dec e e'); ring.
  - simpl. unfold cnt, Sum; simpl. destruct (list_eq_dec Nat.eq_dec e e'); ring.
  - simpl. unfold cnt, Sum; simpl. ring.
  - simpl. unfold cnt, Sum; simpl. ring.
  - simpl in H. destruct H as [H1 H2]. rewrite fold_and_mapi in H2.
    destruct (nth_error l (o p)) as [t|] eqn:E; [|apply nth_error_None in E; lia].
    rewrite (picked_sum _ _ _ E). cbn [bp].
    rewrite (@ksum_mapi_delta _ _ l (o p) t 0 E).
    + simpl. unfold w_pick. rewrite Nat.eqb_refl, Rmult_1_r. rewrite Forall_forall in IH.
      apply IH; [apply (nth_error_In _ _ E)|]. apply (H2 _ _ E).
    + intros j a Hj. simpl. unfold w_pick. apply Nat.eqb_neq in Hj. rewrite Hj, Rmult_0_r. apply bp_zero.
  - destruct H. simpl. rewrite IHa, IHb, cnt_app by auto. ring.
Qed.

Theorem picked_in o t : forall p, inrange o p t -> In (picked o p t) (expand t).
Proof.
  induction t as [e'|e'| | |l IH|a b IHa IHb] using term_ind'; intros p H; try (simpl; auto; fail).
  - simpl in H. destruct H as [H1 H2]. rewrite fold_and_mapi in H2.
    destruct (nth_error l (o p)) as [t|] eqn:E; [|apply nth_error_None in E; lia].
    rewrite (picked_sum _ _ _ E). cbn [expand]. apply in_flat_map. exists t.
    assert (Ht := nth_error_In _ _ E). split; auto. rewrite Forall_forall in IH. apply IH; auto. apply (H2 _ _ E).
  - destruct H. simpl. apply in_prods. do 2 eexists. split; [apply IHa; eauto|]. split; [apply IHb; eauto|]. reflexivity.
Qed.

(** torch.max: every choice is the index of a child of largest value *)
Fixpoint argmax_ok (z : R) (phi : list nat -> R) (o : path -> nat) (p : path) (t : term) : Prop :=
  match t with
  | TMul a b => argmax_ok z phi o (0%nat :: p) a /\ argmax_ok z phi o (1%nat :: p) b
  | TSum l => (exists t', nth_error l (o p) = Some t' /\
                  is_max (leval (max_ops z) phi t') (map (leval (max_ops z) phi) l)) /\
              fold_right and True (mapi (fun i t' => argmax_ok z phi o (i :: p) t') 0 l)
  | _ => True
  end.

Lemma argmax_inrange z phi o t : forall p, argmax_ok z phi o p t -> inrange o p t.
Proof.
  induction t as [e'|e'| | |l IH|a b IHa IHb] using term_ind'; intros p H; simpl in *; auto.
  - destruct H as [(t' & E & _) H]. split; [apply nth_error_Some; congruence|].
    rewrite fold_and_mapi in *. intros j a Ha. rewrite Forall_forall in IH. apply IH; auto.
    apply (nth_error_In _ _ Ha).
  - destruct H; auto.
Qed.

Theorem picked_max z phi o t : twf t -> forall p, argmax_ok z phi o p t ->
  score phi z (picked o p t) = leval (max_ops z) phi t.
Proof.
  intro W. induction t as [e'|e'| | |l IH|a b IHa IHb] using term_ind'; intros p H;
    try (simpl; unfold score, Sum; simpl; ring; fail).
  - inversion_clear W as [| | | |? Hn Hf|]. simpl in H. destruct H as [(t' & E & M) H].
    rewrite fold_and_mapi in H. rewrite (picked_sum _ _ _ E). rewrite Forall_forall in IH, Hf.
    assert (Ht := nth_error_In _ _ E). rewrite IH; auto; [|apply (H _ _ E)].
    cbn [leval ssum max_ops]. apply (is_max_unique M). apply rmax_is_max. destruct l; simpl; congruence.
  - inversion_clear W. destruct H. simpl. rewrite score_app, IHa, IHb by auto. reflexivity.
Qed.


(** ** The log marginal is a derivative *)
Definition upd (phi : list nat -> R) (e : list nat) (x : R) : list nat -> R :=
  fun e' => if list_eq_dec Nat.eq_dec e e' then x else phi e'.

(** uses of the potential [e] itself (not of a masked copy) *)
Definition acountL (e : list nat) (a : atom) : R :=
  match a with AL e' => if list_eq_dec Nat.eq_dec e e' then 1 else 0 | _ => 0 end.
(** uses of unmasked reads of [e] in a derivation *)
Definition cntL (e : list nat) (m : deriv) : R := RSum (acountL e) m.
(** uses of masked copies of [e] *)
Definition acountO (e : list nat) (a : atom) : R :=
  match a with AO e' => if list_eq_dec Nat.eq_dec e e' then 1 else 0 | _ => 0 end.
(** uses of masked copies of [e] in a derivation *)
Definition cntO (e : list nat) (m : deriv) : R := RSum (acountO e) m.
Lemma cnt_split e m : cnt e m = cntL e m + cntO e m.
Proof.
  unfold cnt, cntL, cntO. rewrite <- RSum_add. apply (Sum_ext R_csr). intros []; simpl; ring.
Qed.

Lemma score_upd phi e x z m : score (upd phi e x) z m = score phi z m + (x - phi e) * cntL e m.
Proof.
  unfold score, cntL. rewrite <- RSum_scal, <- RSum_add. apply (Sum_ext R_csr).
  intros []; simpl; try ring. unfold upd. destruct (list_eq_dec Nat.eq_dec e e0); subst; ring.
Qed.

Lemma dlim_exp_affine a c x0 x :
  derivable_pt_lim (fun y => exp (a + (y - x0) * c)) x (exp (a + (x - x0) * c) * c).
Proof.
  assert (H : derivable_pt_lim (fun y => a + (y - x0) * c) x c).
  { assert (E : c = 0 + ((1 - 0) * c + (x - x0) * 0)) by ring.
    apply (eq_ind_r (fun d => derivable_pt_lim (fun y => a + (y - x0) * c) x d)
      (x := 0 + ((1 - 0) * c + (x - x0) * 0))); [|exact E].
    apply (derivable_pt_lim_plus (fun _ => a) (fun y => (y - x0) * c)); [apply derivable_pt_lim_const|].
    apply (derivable_pt_lim_mult (fun y => y - x0) (fun _ => c)); [|apply derivable_pt_lim_const].
    apply (derivable_pt_lim_minus (fun y => y) (fun _ => x0)); [apply derivable_pt_lim_id|apply derivable_pt_lim_const]. }
  apply (derivable_pt_lim_comp (fun y => a + (y - x0) * c) exp x c _ H). apply derivable_pt_lim_exp.
Qed.

Lemma dlim_sum A (f : A -> R -> R) (f' : A -> R) x l :
  (forall a, In a l -> derivable_pt_lim (f a) x (f' a)) ->
  derivable_pt_lim (fun y => RSum (fun a => f a y) l) x (RSum f' l).
Proof.
  induction l as [|a l IH]; intro H.
  - apply derivable_pt_lim_const.
  - apply (derivable_pt_lim_plus (f a) (fun y => RSum (fun a => f a y) l)); [apply H; left; auto|].
    apply IH. intros; apply H; right; auto.
Qed.
Lemma dlim_ext f g x d : (forall y, f y = g y) -> derivable_pt_lim f x d -> derivable_pt_lim g x d.
Proof. intros E H eps He. destruct (H eps He) as [del Hd]. exists del. intros h h0 hd. rewrite <- !E. auto. Qed.

Theorem log_derivative z phi t e : twf t ->
  derivable_pt_lim (fun x => leval (log_ops z) (upd phi e x) t) (phi e) (mean phi z t (cntL e)).
Proof.
  intro W.
  apply dlim_ext with (fun x => ln (RSum (fun m => exp (score phi z m + (x - phi e) * cntL e m)) (expand t))).
  { intro x. rewrite log_value_ln by auto. f_equal. unfold ZZ. apply (Sum_ext R_csr). intro m. now rewrite score_upd. }
  unfold mean. rewrite RSum_pr by auto.
  set (g := fun x => RSum (fun m => exp (score phi z m + (x - phi e) * cntL e m)) (expand t)).
  assert (Hg : derivable_pt_lim g (phi e) (RSum (fun m => exp (score phi z m) * cntL e m) (expand t))).
  { unfold g. rewrite (Sum_ext R_csr (fun m => exp (score phi z m) * cntL e m)
       (fun m => exp (score phi z m + (phi e - phi e) * cntL e m) * cntL e m)).
    - apply (dlim_sum (fun m x => exp (score phi z m + (x - phi e) * cntL e m))). intros m _. apply dlim_exp_affine.
    - intro m. do 2 f_equal. ring. }
  assert (E : g (phi e) = ZZ phi z t).
  { unfold g, ZZ. apply (Sum_ext R_csr). intro m. f_equal. ring. }
  unfold Rdiv. rewrite (Rmult_comm _ (/ _)).
  apply (derivable_pt_lim_comp g ln (phi e) _ (/ ZZ phi z t) Hg).
  rewrite E. apply derivable_pt_lim_ln, ZZ_pos, W.
Qed.
