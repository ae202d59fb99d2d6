(** * KMax: the k-max semiring and its backward pass. *)
From Coq Require Import Sorted.
From Verif Require Import Base Ops Terms Poly Semirings Family Approx Grad Dist Shape Dag.
Set Implicit Arguments.
Lemma NoDup_app_l T (a b : list T) : NoDup (a ++ b) -> NoDup a.
Proof. induction a as [|x a IH]; simpl; intro H; [constructor|]. inversion_clear H. constructor; auto. intro Hx. apply H0, in_or_app. now left. Qed.
Local Open Scope R_scope.

(** ** torch.topk *)
Fixpoint dins (x : R) (l : list R) : list R :=
  match l with [] => [x] | y :: l' => if Rle_dec y x then x :: y :: l' else y :: dins x l' end.
(** spec: a list sorted from large to small *)
Fixpoint dsort (l : list R) : list R := match l with [] => [] | x :: l' => dins x (dsort l') end.
(** torch.topk(l, k)[0]: the k largest entries, in decreasing order *)
Definition topk (k : nat) (l : list R) : list R := firstn k (dsort l).
(** all pairwise sums, in the order of [(a.view(k,1,..) + b.view(1,k,..)).view(k*k,..)] *)
Definition psum (a b : list R) : list R := flat_map (fun x => map (Rplus x) b) a.

(** semirings.py:177-237 [KMaxSemiring(k)]: the carrier is the leading dimension
    of size k; zero and one 182-183, [sum] 204-213 (the n x k entries are
    flattened), [mul] 227-235. *)
Definition kmax_ops (k : nat) (z : R) : ops :=
  {| car := list R; ssum := fun xs => topk k (concat xs); smul := fun a b => topk k (psum a b);
     szero := repeat z k; sone := 0 :: repeat z (k - 1); sover := fun _ => repeat z k |}.
(** semirings.py:189-198 [convert] *)
Definition kmax_convert (k : nat) (z : R) (x : R) : list R := x :: repeat z (k - 1).

(** ** Sorting facts *)
Definition desc : list R -> Prop := StronglySorted (fun a b => b <= a).
Lemma dins_perm x l : Permutation (dins x l) (x :: l).
Proof.
  induction l as [|y l IH]; simpl; [apply Permutation_refl|]. destruct (Rle_dec y x); [apply Permutation_refl|].
  rewrite IH. apply perm_swap.
Qed.
Lemma dsort_perm l : Permutation (dsort l) l.
Proof. induction l as [|x l IH]; simpl; auto. rewrite dins_perm. now constructor. Qed.
Lemma dins_desc x l : desc l -> desc (dins x l).
Proof.
  intro H. induction H as [|y l Hl IH Hy]; simpl; [repeat constructor|].
  destruct (Rle_dec y x).
  - constructor; [constructor; auto|]. constructor; auto. eapply Forall_impl; [|exact Hy]. simpl. intros. lra.
  - constructor; auto. eapply Permutation_Forall; [symmetry; apply dins_perm|]. constructor; auto. lra.
Qed.
Lemma dsort_desc l : desc (dsort l).
Proof. induction l; simpl; [constructor|]. now apply dins_desc. Qed.
Lemma desc_firstn k l : desc l -> desc (firstn k l).
Proof.
  intro H. revert k. induction H as [|y l Hl IH Hy]; intros [|k]; simpl; try (constructor; fail).
  constructor; [apply IH|]. rewrite Forall_forall in *. intros x Hx. apply Hy. rewrite <- (firstn_skipn k l). apply in_or_app. now left.
Qed.
Lemma topk_desc k l : desc (topk k l).
Proof. apply desc_firstn, dsort_desc. Qed.
Lemma topk_length k l : length (topk k l) = Nat.min k (length l).
Proof. unfold topk. rewrite firstn_length, (Permutation_length (dsort_perm l)). reflexivity. Qed.

(** number of entries at least y; a sorted list is determined by these *)
Definition geb (y x : R) : bool := if Rle_dec y x then true else false.
(** proof device: number of entries that are at least y *)
Definition cge (y : R) (l : list R) : nat := length (filter (geb y) l).
Lemma cge_app y a b : cge y (a ++ b) = (cge y a + cge y b)%nat.
Proof. unfold cge. now rewrite filter_app, app_length. Qed.
Lemma cge_perm y a b : Permutation a b -> cge y a = cge y b.
Proof.
  intro H. apply Permutation_length. induction H; simpl; auto.
  - destruct (geb y x); auto.
  - destruct (geb y x), (geb y y0); auto. apply perm_swap.
  - etransitivity; eauto.
Qed.
Lemma cge_cons y x l : cge y (x :: l) = ((if geb y x then 1 else 0) + cge y l)%nat.
Proof. unfold cge. simpl. now destruct (geb y x). Qed.
Lemma cge_le y l : (cge y l <= length l)%nat.
Proof. unfold cge. induction l as [|a l IH]; simpl; [lia|]. destruct (geb y a); simpl; lia. Qed.
Lemma cge_concat y ls : cge y (concat ls) = list_sum (map (cge y) ls).
Proof. induction ls as [|l ls IH]; simpl; auto. now rewrite cge_app, IH. Qed.
Lemma cge_desc_firstn y l : desc l -> forall k, cge y (firstn k l) = Nat.min k (cge y l).
Proof.
  intro H. induction H as [|x l Hl IH Hx]; intros [|k]; auto. cbn [firstn]. rewrite !cge_cons, IH.
  unfold geb. destruct (Rle_dec y x) as [Hy|Hy]; [simpl; lia|].
  replace (cge y l) with 0%nat; [simpl; lia|]. symmetry. unfold cge.
  assert (E : filter (geb y) l = []); [|now rewrite E].
  clear -Hx Hy. induction l as [|a l IH]; auto. inversion_clear Hx. simpl. unfold geb at 1.
  destruct (Rle_dec y a); [lra|]. auto.
Qed.
Lemma cge_topk y k l : cge y (topk k l) = Nat.min k (cge y l).
Proof. unfold topk. rewrite cge_desc_firstn by apply dsort_desc. now rewrite (cge_perm y (dsort_perm l)). Qed.
Lemma cge_self x l : (1 <= cge x (x :: l))%nat.
Proof. rewrite cge_cons. unfold geb. destruct (Rle_dec x x); lra || lia. Qed.
Lemma cge_zero y l : (forall x, In x l -> x < y) -> cge y l = 0%nat.
Proof.
  intro H. unfold cge. replace (filter (geb y) l) with (@nil R); auto.
  induction l as [|a l IH]; auto. simpl. unfold geb at 1. destruct (Rle_dec y a).
  - specialize (H a (or_introl eq_refl)). lra.
  - apply IH. intros; apply H; now right.
Qed.
Lemma cge_all y l : (forall x, In x l -> y <= x) -> cge y l = length l.
Proof.
  intro H. unfold cge. f_equal. induction l as [|a l IH]; auto. simpl. unfold geb at 1.
  destruct (Rle_dec y a); [|exfalso; apply n, H; now left]. f_equal. apply IH. intros; apply H; now right.
Qed.
Lemma desc_head x l : desc (x :: l) -> forall a, In a (x :: l) -> a <= x.
Proof. intros H a [<-|Ha]; [lra|]. inversion_clear H. rewrite Forall_forall in H1. auto. Qed.
Lemma desc_ext l l' : desc l -> desc l' -> (forall y, cge y l = cge y l') -> l = l'.
Proof.
  intro H. revert l'. induction l as [|x l IH]; intros [|x' l'] H' E; auto.
  - specialize (E x'). pose proof (cge_self x' l'). unfold cge at 1 in E. simpl in E. lia.
  - specialize (E x). pose proof (cge_self x l). unfold cge at 2 in E. simpl in E. lia.
  - assert (Hx : x = x').
    { destruct (Rtotal_order x x') as [Hlt|[Heq|Hgt]]; auto; exfalso.
      - specialize (E x'). pose proof (cge_self x' l'). rewrite (@cge_zero x' (x :: l)) in E; [lia|].
        intros a Ha. apply (desc_head H) in Ha. lra.
      - specialize (E x). pose proof (cge_self x l). rewrite (@cge_zero x (x' :: l')) in E; [lia|].
        intros a Ha. apply (desc_head H') in Ha. lra. }
    subst. f_equal. inversion_clear H. inversion_clear H'. apply IH; auto.
    intro y. specialize (E y). rewrite !cge_cons in E. lia.
Qed.
Lemma topk_ext k l l' : (forall y, Nat.min k (cge y l) = Nat.min k (cge y l')) -> topk k l = topk k l'.
Proof. intro H. apply desc_ext; try apply topk_desc. intro y. now rewrite !cge_topk. Qed.
Lemma topk_char k l v : desc v -> (forall y, cge y v = Nat.min k (cge y l)) -> v = topk k l.
Proof. intros Hv H. apply desc_ext; auto; [apply topk_desc|]. intro y. now rewrite cge_topk. Qed.
Lemma topk_perm k l l' : Permutation l l' -> topk k l = topk k l'.
Proof. intro H. apply topk_ext. intro y. now rewrite (cge_perm y H). Qed.
Lemma min_sum A k (f : A -> nat) l :
  Nat.min k (list_sum (map f l)) = Nat.min k (list_sum (map (fun x => Nat.min k (f x)) l)).
Proof. induction l as [|a l IH]; simpl; lia. Qed.
Lemma topk_rest k l : exists rest, Permutation l (topk k l ++ rest) /\ forall x y, In x (topk k l) -> In y rest -> y <= x.
Proof.
  exists (skipn k (dsort l)). unfold topk. split.
  - rewrite firstn_skipn. symmetry. apply dsort_perm.
  - pose proof (dsort_desc l) as H. revert k. induction H as [|a s Hs IH Ha]; intros [|k] x y Hx Hy; simpl in *; try contradiction.
    destruct Hx as [<-|Hx]; [|eapply IH; eauto]. rewrite Forall_forall in Ha. apply Ha.
    rewrite <- (firstn_skipn k s). apply in_or_app. now right.
Qed.

(** ** Sums and products of k-best lists *)
Lemma cge_map_plus y x l : cge y (map (Rplus x) l) = cge (y - x) l.
Proof.
  induction l as [|a l IH]; auto. cbn [map]. rewrite !cge_cons, IH. unfold geb.
  destruct (Rle_dec y (x + a)), (Rle_dec (y - x) a); auto; exfalso; lra.
Qed.
Lemma cge_psum y a b : cge y (psum a b) = list_sum (map (fun x => cge (y - x) b) a).
Proof. unfold psum. rewrite flat_map_concat_map, cge_concat, map_map. f_equal. apply map_ext. intro. apply cge_map_plus. Qed.
Lemma cge_psum_comm y a b : cge y (psum a b) = cge y (psum b a).
Proof.
  rewrite !cge_psum. revert b. induction a as [|x a IH]; intro b; simpl.
  - induction b; simpl; auto.
  - rewrite IH. clear IH. induction b as [|x' b IH]; [reflexivity|]. cbn [map list_sum fold_right].
    change (fold_right Nat.add 0%nat) with list_sum in *. rewrite <- IH. rewrite !cge_cons.
    assert (E : geb (y - x) x' = geb (y - x') x).
    { unfold geb. destruct (Rle_dec (y - x) x'), (Rle_dec (y - x') x); auto; lra. }
    rewrite E. lia.
Qed.
Lemma min_psum_r k y a b b' : (forall y, Nat.min k (cge y b) = Nat.min k (cge y b')) ->
  Nat.min k (cge y (psum a b)) = Nat.min k (cge y (psum a b')).
Proof.
  intro H. rewrite !cge_psum, min_sum, (min_sum k (fun x => cge (y - x) b')). f_equal. f_equal. apply map_ext. intro x. apply H.
Qed.
Lemma min_psum k y a a' b b' : (forall y, Nat.min k (cge y a) = Nat.min k (cge y a')) ->
  (forall y, Nat.min k (cge y b) = Nat.min k (cge y b')) ->
  Nat.min k (cge y (psum a b)) = Nat.min k (cge y (psum a' b')).
Proof.
  intros Ha Hb. rewrite (min_psum_r k y a _ _ Hb), cge_psum_comm, (min_psum_r k y b' _ _ Ha), cge_psum_comm. reflexivity.
Qed.
Lemma min_concat A k y (f g : A -> list R) l : (forall x, In x l -> forall y, Nat.min k (cge y (f x)) = Nat.min k (cge y (g x))) ->
  Nat.min k (cge y (concat (map f l))) = Nat.min k (cge y (concat (map g l))).
Proof.
  intro H. rewrite !cge_concat, !map_map, min_sum, (min_sum k (fun x => cge y (g x))). f_equal. f_equal.
  apply map_ext_in. intros x Hx. now apply H.
Qed.
Lemma topk_idem k y l : Nat.min k (cge y (topk k l)) = Nat.min k (cge y l).
Proof. rewrite cge_topk. lia. Qed.

(** ** The derivations behind the k numbers of a node *)
(** every constant and potential stands for itself and k-1 copies of the zero *)
Fixpoint kt (k : nat) (t : term) : term :=
  match t with
  | TLeaf e => TSum (TLeaf e :: repeat TZero (k - 1))
  | TOver e => TSum (TOver e :: repeat TZero (k - 1))
  | TOne => TSum (TOne :: repeat TZero (k - 1))
  | TZero => TSum (repeat TZero k)
  | TSum l => TSum (map (kt k) l)
  | TMul a b => TMul (kt k a) (kt k b)
  end.
Lemma expand_zeros n : flat_map expand (repeat TZero n) = repeat [AZ] n.
Proof. induction n; simpl; auto. now rewrite IHn. Qed.
Lemma score_zeros phi z n : map (score phi z) (repeat [AZ] n) = repeat z n.
Proof. induction n; simpl; auto. rewrite IHn. f_equal. unfold score, Sum; simpl. ring. Qed.
Lemma score_prods phi z a b : map (score phi z) (prods a b) = psum (map (score phi z) a) (map (score phi z) b).
Proof.
  unfold prods, psum. rewrite !flat_map_concat_map, concat_map, !map_map. f_equal. apply map_ext. intro x.
  rewrite !map_map. apply map_ext. intro y. apply score_app.
Qed.
Lemma score_one phi z a : score phi z [a] = aval phi z a.
Proof. unfold score, Sum; simpl. ring. Qed.

Lemma nth_mapi_gen A B (f : nat -> A -> B) l d d' : forall s i, (i < length l)%nat ->
  nth i (mapi f s l) d' = f (s + i)%nat (nth i l d).
Proof.
  induction l as [|a l IH]; intros s [|i] H; simpl in *; try lia; [now rewrite Nat.add_0_r|].
  rewrite IH by lia. now rewrite <- Nat.add_succ_comm.
Qed.
Lemma nth_pairs T (op : T -> T -> T) d a b i j : (i < length a)%nat -> (j < length b)%nat ->
  nth j (nth i (map (fun x => map (fun y => op x y) b) a) []) d = op (nth i a d) (nth j b d).
Proof.
  intros Hi Hj. rewrite (nth_indep _ [] (map (fun y => op d y) b)) by (rewrite map_length; auto).
  rewrite (map_nth (fun x => map (fun y => op x y) b) a d i).
  rewrite (nth_indep _ d (op (nth i a d) d)) by (rewrite map_length; auto).
  apply (map_nth (fun y => op (nth i a d) y)).
Qed.
Lemma select_perm A (d : A) P idx : NoDup idx -> (forall i, In i idx -> (i < length P)%nat) ->
  exists rest, Permutation P (map (fun i => nth i P d) idx ++ rest).
Proof.
  intros Hn Hi. exists (map (fun i => nth i P d) (filter (fun i => if in_dec Nat.eq_dec i idx then false else true) (seq 0 (length P)))).
  rewrite <- map_app.
  transitivity (map (fun i => nth i P d) (seq 0 (length P))).
  - replace (map (fun i => nth i P d) (seq 0 (length P))) with P; auto.
    clear. symmetry. induction P as [|a P IH]; auto. simpl. f_equal. rewrite <- seq_shift, map_map. exact IH.
  - apply Permutation_map. apply NoDup_Permutation; [apply seq_NoDup| |].
    + apply NoDup_app_intro; auto.
      * apply NoDup_filter, seq_NoDup.
      * intros x H1 H2. apply filter_In in H2 as [_ H2]. destruct (in_dec Nat.eq_dec x idx); congruence.
    + intro x. rewrite in_seq, in_app_iff, filter_In, in_seq. destruct (in_dec Nat.eq_dec x idx) as [H|H].
      * specialize (Hi x H). split; [auto|]. intros. lia.
      * split; [intros Hx; right; auto|]. intros [Hx|[Hx _]]; [contradiction|lia].
Qed.
Lemma ksum_mapi_seq A (f : nat -> A -> R) d l : ksum R_csr (mapi f 0 l) = RSum (fun j => f j (nth j l d)) (seq 0 (length l)).
Proof.
  assert (H : forall s, mapi f s l = map (fun j => f (s + j)%nat (nth j l d)) (seq 0 (length l))).
  { induction l as [|a l IH]; intro s; simpl; auto. rewrite Nat.add_0_r. f_equal. rewrite IH, <- seq_shift, map_map.
    apply map_ext. intro j. f_equal. lia. }
  rewrite (H 0%nat). reflexivity.
Qed.
Lemma RSum_delta n (h : nat -> R) j : (j < n)%nat -> RSum (fun s => if (j =? s)%nat then h s else 0) (seq 0 n) = h j.
Proof.
  intro H. rewrite (@Sum_single R_csr nat (fun s => if (j =? s)%nat then h s else 0) j).
  - now rewrite Nat.eqb_refl.
  - apply seq_NoDup.
  - apply in_seq. lia.
  - intros s Hs. destruct (j =? s)%nat eqn:E; auto. apply Nat.eqb_eq in E. congruence.
Qed.
Lemma RSum_route n m (c : nat -> nat) (g h : nat -> R) : (forall i, (i < n)%nat -> (c i < m)%nat) ->
  RSum (fun s => RSum (fun i => if (c i =? s)%nat then g i else 0) (seq 0 n) * h s) (seq 0 m)
  = RSum (fun i => g i * h (c i)) (seq 0 n).
Proof.
  intro H. rewrite (Sum_ext R_csr _ (fun s => RSum (fun i => if (c i =? s)%nat then g i * h s else 0) (seq 0 n))).
  2:{ intro s. rewrite <- RSum_scar. apply Sum_ext. intro i. destruct (c i =? s)%nat; ring. }
  etransitivity; [apply (Sum_comm R_csr)|]. apply (Sum_ext_in R_csr). intros i Hi. apply in_seq in Hi.
  apply (@RSum_delta m (fun s => g i * h s)). apply H. lia.
Qed.
Lemma perm_index A (d : A) l l' : Permutation l l' -> exists idx, Permutation idx (seq 0 (length l)) /\ l' = map (fun i => nth i l d) idx.
Proof.
  induction 1 as [|x l l' H IH|x y l|l l' l'' H1 IH1 H2 IH2].
  - exists []. auto.
  - destruct IH as (idx & Hp & ->). exists (0%nat :: map S idx). split.
    + simpl. constructor. rewrite <- seq_shift. now apply Permutation_map.
    + simpl. now rewrite map_map.
  - exists (1%nat :: 0%nat :: seq 2 (length l)). split; [apply perm_swap|]. simpl. do 2 f_equal.
    rewrite <- !seq_shift, !map_map. clear. symmetry. induction l as [|a l IH]; auto. simpl. f_equal.
    rewrite <- seq_shift, map_map. exact IH.
  - destruct IH1 as (i1 & P1 & ->). destruct IH2 as (i2 & P2 & ->). rewrite map_length in P2.
    exists (map (fun j => nth j i1 0%nat) i2). split.
    + rewrite (Permutation_map (fun j => nth j i1 0%nat) P2).
      replace (map (fun j => nth j i1 0%nat) (seq 0 (length i1))) with i1; auto.
      clear. symmetry. induction i1 as [|a l IH]; auto. simpl. f_equal. rewrite <- seq_shift, map_map. exact IH.
    + rewrite map_map. apply map_ext_in. intros j Hj. apply (Permutation_in _ P2) in Hj. apply in_seq in Hj.
      rewrite (nth_indep _ d (nth 0 l d)) by (rewrite map_length; lia).
      apply (map_nth (fun i => nth i l d)).
Qed.

(** ** Which derivations: any ordered carrier *)
Section Picks.
  Variables (k : nat) (T : Type) (d0 : T) (add : T -> T -> T) (tk : list T -> list T) (sT : deriv -> T) (val : term -> list T).
  (** all pairwise sums (semirings.py:228-231) *)
  Definition psums (a b : list T) : list T := flat_map (fun x => map (add x) b) a.
  Hypothesis Hk : (0 < k)%nat.
  Hypothesis sT_app : forall x y, sT (x ++ y) = add (sT x) (sT y).
  Hypothesis val_leaf : forall e, val (TLeaf e) = map sT ([AL e] :: repeat [AZ] (k - 1)).
  Hypothesis val_over : forall e, val (TOver e) = map sT ([AO e] :: repeat [AZ] (k - 1)).
  Hypothesis val_one : val TOne = map sT ([] :: repeat [AZ] (k - 1)).
  Hypothesis val_zero : val TZero = map sT (repeat [AZ] k).
  Hypothesis val_sum : forall l, val (TSum l) = tk (concat (map val l)).
  Hypothesis val_mul : forall a b, val (TMul a b) = tk (psums (val a) (val b)).
  Lemma sT_prods a b : map sT (prods a b) = psums (map sT a) (map sT b).
  Proof.
    unfold prods, psums. rewrite !flat_map_concat_map, concat_map, !map_map. f_equal. apply map_ext. intro x.
    rewrite !map_map. apply map_ext. intro y. apply sT_app.
  Qed.

  (** [o p i]: position, in the flattened argument, of output i at the node with path p *)
  Fixpoint kpick (o : path -> nat -> nat) (p : path) (t : term) (i : nat) {struct t} : deriv :=
    match t with
    | TLeaf e => if (i =? 0)%nat then [AL e] else [AZ]
    | TOver e => if (i =? 0)%nat then [AO e] else [AZ]
    | TOne => if (i =? 0)%nat then [] else [AZ]
    | TZero => [AZ]
    | TSum l => nth (o p i / k) (mapi (fun j t' => kpick o (j :: p) t' (o p i mod k)) 0 l) []
    | TMul a b => kpick o (0%nat :: p) a (o p i / k) ++ kpick o (1%nat :: p) b (o p i mod k)
    end.
  (** proof device: the k derivations that the choices select at a node *)
  Definition picks o p t : list deriv := map (kpick o p t) (seq 0 k).

  (** distinct positions, and the entries there are those of torch.topk *)
  Definition is_top (o : nat -> nat) (l : list T) : Prop :=
    NoDup (map o (seq 0 k)) /\ (forall i, (i < k)%nat -> (o i < length l)%nat) /\
    map (fun i => nth (o i) l d0) (seq 0 k) = tk l.
  (** spec: at every sum the choices are those of torch.topk (semirings.py:204-213) *)
  Fixpoint top_ok (o : path -> nat -> nat) (p : path) (t : term) : Prop :=
    match t with
    | TSum l => is_top (o p) (concat (map val l)) /\
                fold_right and True (mapi (fun i t' => top_ok o (i :: p) t') 0 l)
    | TMul a b => is_top (o p) (psums (val a) (val b)) /\ top_ok o (0%nat :: p) a /\ top_ok o (1%nat :: p) b
    | _ => True
    end.

  Lemma nth_concat_unif A (d : A) ls : Forall (fun l => length l = k) ls -> forall x, (x < length ls * k)%nat ->
    nth x (concat ls) d = nth (x mod k) (nth (x / k) ls []) d.
  Proof.
    induction 1 as [|l ls Hl Hls IH]; intros x Hx; [simpl in Hx; lia|]. simpl in Hx.
    destruct (Nat.lt_ge_cases x k) as [H|H].
    - rewrite Nat.div_small, Nat.mod_small by auto. simpl. rewrite app_nth1 by lia. reflexivity.
    - simpl concat. rewrite app_nth2 by lia. rewrite Hl, IH by lia.
      replace x with ((x - k) + 1 * k)%nat at 3 4 by lia. rewrite Nat.div_add, Nat.mod_add by lia.
      rewrite Nat.add_1_r. reflexivity.
  Qed.
  Lemma concat_unif_length A (ls : list (list A)) : Forall (fun l => length l = k) ls -> length (concat ls) = (length ls * k)%nat.
  Proof. induction 1 as [|l ls Hl Hls IH]; simpl; auto. rewrite app_length. lia. Qed.
  Lemma prods_app_l a a' b : prods (a ++ a') b = prods a b ++ prods a' b.
  Proof. apply flat_map_app. Qed.
  Lemma prods_perm_l a a' b : Permutation a a' -> Permutation (prods a b) (prods a' b).
  Proof. intro H. unfold prods. now apply Permutation_flat_map. Qed.
  Lemma prods_split_r a b b' : Permutation (prods a (b ++ b')) (prods a b ++ prods a b').
  Proof.
    induction a as [|x a IH]; auto. unfold prods in *. cbn [flat_map]. rewrite map_app, IH, <- !app_assoc.
    apply Permutation_app_head. rewrite !app_assoc. apply Permutation_app_tail, Permutation_app_comm.
  Qed.
  Lemma prods_perm_r a b b' : Permutation b b' -> Permutation (prods a b) (prods a b').
  Proof.
    intro H. induction a as [|x a IH]; auto. unfold prods in *. cbn [flat_map]. apply Permutation_app; auto. now apply Permutation_map.
  Qed.
  Lemma prods_concat a b : prods a b = concat (map (fun x => map (fun y => x ++ y) b) a).
  Proof. apply flat_map_concat_map. Qed.
  Lemma picks_length o p t : length (picks o p t) = k.
  Proof. unfold picks. now rewrite map_length, seq_length. Qed.
  Lemma nth_picks o p t i : (i < k)%nat -> nth i (picks o p t) [] = kpick o p t i.
  Proof. intro H. unfold picks. rewrite (nth_indep _ [] (kpick o p t 0)), map_nth, seq_nth by (rewrite ?map_length, ?seq_length; lia). reflexivity. Qed.
  Lemma picks_const (x : deriv) o p t : (forall i, kpick o p t i = if (i =? 0)%nat then x else [AZ]) ->
    picks o p t = x :: repeat [AZ] (k - 1).
  Proof.
    intro H. unfold picks. rewrite (map_ext _ _ H). clear -Hk. destruct k as [|k']; [lia|]. simpl. rewrite Nat.sub_0_r. f_equal.
    rewrite <- seq_shift, map_map. simpl. generalize 0%nat. induction k' as [|k'' IH]; intro s; simpl; auto. f_equal. apply IH. lia.
  Qed.

  Theorem tops_spec o t : twf t -> forall p, top_ok o p t ->
    map sT (picks o p t) = val t /\ exists rest, Permutation (expand (kt k t)) (picks o p t ++ rest).
  Proof.
    induction t as [e|e| | |l IH|a b IHa IHb] using term_ind'; intros W p Ho.
    - rewrite (@picks_const [AL e]) by reflexivity. split; [symmetry; apply val_leaf|].
      exists []. cbn [kt expand flat_map]. rewrite expand_zeros, app_nil_r. apply Permutation_refl.
    - rewrite (@picks_const [AO e]) by reflexivity. split; [symmetry; apply val_over|].
      exists []. cbn [kt expand flat_map]. rewrite expand_zeros, app_nil_r. apply Permutation_refl.
    - rewrite (@picks_const []) by reflexivity. split; [symmetry; apply val_one|].
      exists []. cbn [kt expand flat_map]. rewrite expand_zeros, app_nil_r. apply Permutation_refl.
    - rewrite (@picks_const [AZ]) by (intro i; simpl; now destruct (i =? 0)%nat).
      assert (EZ : forall A (x : A), x :: repeat x (k - 1) = repeat x k).
      { intros A x. clear -Hk. destruct k; [lia|simpl; now rewrite Nat.sub_0_r]. }
      rewrite EZ. split; [symmetry; apply val_zero|].
      exists []. cbn [kt expand flat_map]. rewrite expand_zeros, app_nil_r. apply Permutation_refl.
    - inversion_clear W as [| | | |? Hn Hf|]. destruct Ho as [(Hnd & Hlt & Hv) Hc]. rewrite fold_and_mapi in Hc.
      pose (Ps := mapi (fun j t' => picks o (j :: p) t') 0 l). set (P := concat Ps).
      assert (HU : Forall (fun l => length l = k) Ps).
      { apply Forall_forall. intros x Hx. apply in_mapi in Hx as (j & t' & _ & ->). apply picks_length. }
      assert (HPl : length P = (length l * k)%nat).
      { unfold P. rewrite (concat_unif_length HU). unfold Ps. now rewrite mapi_length. }
      assert (HS : map sT P = concat (map val l)).
      { unfold P. rewrite concat_map. f_equal. unfold Ps. rewrite mapi_map. rewrite <- (mapi_const val l 0).
        apply mapi_ext_nth. intros j t' Hj. rewrite Forall_forall in IH, Hf. pose proof (nth_error_In _ _ Hj) as Hin.
        apply (IH t' Hin (Hf t' Hin)). rewrite Nat.add_0_l. now apply Hc. }
      assert (HL : length (concat (map val l)) = (length l * k)%nat) by (rewrite <- HS, map_length; exact HPl).
      assert (HE : picks o p (TSum l) = map (fun i => nth (o p i) P []) (seq 0 k)).
      { unfold picks. apply map_ext_in. intros i Hi. apply in_seq in Hi. cbn [kpick].
        specialize (Hlt i ltac:(lia)). rewrite HL in Hlt.
        unfold P. rewrite (nth_concat_unif _ HU) by (unfold Ps; rewrite mapi_length; exact Hlt).
        assert (Hq : (o p i / k < length l)%nat) by (apply Nat.div_lt_upper_bound; lia).
        pose proof (Nat.mod_upper_bound (o p i) k ltac:(lia)) as Hm.
        rewrite (@nth_mapi_gen _ _ (fun j t' => kpick o (j :: p) t' (o p i mod k)) l TZero []) by auto.
        unfold Ps. rewrite (@nth_mapi_gen _ _ (fun j t' => picks o (j :: p) t') l TZero []) by auto.
        now rewrite nth_picks by auto. }
      split.
      + rewrite HE. rewrite val_sum, <- Hv, map_map. apply map_ext_in. intros i Hi. apply in_seq in Hi.
        rewrite <- HS. rewrite <- (map_nth sT P []). apply nth_indep. rewrite HS. apply Hlt. lia.
      + rewrite HE.
        destruct (@select_perm _ [] P (map (o p) (seq 0 k)) Hnd) as (r1 & Hr1).
        { intros i Hi. apply in_map_iff in Hi as (j & <- & Hj). apply in_seq in Hj. eapply Nat.lt_le_trans; [apply Hlt; lia|].
          apply Nat.eq_le_incl. etransitivity; [exact HL|symmetry; exact HPl]. }
        rewrite map_map in Hr1.
        assert (HR : exists rest, Permutation (expand (kt k (TSum l))) (P ++ rest)).
        { cbn [kt expand]. rewrite flat_map_concat_map, map_map. unfold P, Ps.
          clear - IH Hf Hc. revert Hc. generalize 0%nat. induction l as [|t l IHl]; intros s Hc; simpl; [exists []; apply Permutation_refl|].
          inversion_clear IH. inversion_clear Hf.
          destruct (H H1 (s :: p)) as [_ (r & Hr)]. { rewrite <- (Nat.add_0_r s). apply (Hc 0%nat t). reflexivity. }
          destruct (IHl H0 H2 (S s)) as (r' & Hr').
          { intros j t' Hj. rewrite Nat.add_succ_comm. now apply (Hc (S j)). }
          exists (r ++ r'). rewrite Hr, Hr', <- !app_assoc. apply Permutation_app_head. rewrite !app_assoc.
          apply Permutation_app_tail, Permutation_app_comm. }
        destruct HR as (r2 & Hr2). exists (r1 ++ r2). rewrite Hr2, Hr1, app_assoc. apply Permutation_refl.
    - inversion_clear W as [| | | | |? ? Wa Wb]. destruct Ho as ((Hnd & Hlt & Hv) & Hoa & Hob).
      destruct (IHa Wa _ Hoa) as [Sa (ra & Ra)]. destruct (IHb Wb _ Hob) as [Sb (rb & Rb)].
      set (Pa := picks o (0%nat :: p) a) in *. set (Pb := picks o (1%nat :: p) b) in *.
      set (P := prods Pa Pb).
      assert (HS : map sT P = psums (val a) (val b)) by (unfold P; now rewrite sT_prods, Sa, Sb).
      assert (Hla : length Pa = k) by apply picks_length. assert (Hlb : length Pb = k) by apply picks_length.
      assert (HU : Forall (fun l => length l = k) (map (fun x : list atom => map (fun y : list atom => x ++ y) Pb) Pa)).
      { apply Forall_forall. intros x Hx. apply in_map_iff in Hx as (y & <- & _). now rewrite map_length. }
      assert (HPl : length P = (k * k)%nat).
      { unfold P. rewrite prods_concat. etransitivity; [apply (concat_unif_length HU)|]. rewrite map_length. f_equal. exact Hla. }
      assert (HL : length (psums (val a) (val b)) = (k * k)%nat) by (rewrite <- HS, map_length; exact HPl).
      assert (HE : picks o p (TMul a b) = map (fun i => nth (o p i) P []) (seq 0 k)).
      { unfold picks. apply map_ext_in. intros i Hi. apply in_seq in Hi. cbn [kpick].
        specialize (Hlt i ltac:(lia)). rewrite HL in Hlt.
        unfold P. rewrite prods_concat. symmetry.
        etransitivity; [apply (nth_concat_unif _ HU); rewrite map_length; eapply Nat.lt_le_trans; [exact Hlt|]; apply Nat.mul_le_mono_r, Nat.eq_le_incl; symmetry; exact Hla|].
        assert (Hq : (o p i / k < k)%nat) by (apply Nat.div_lt_upper_bound; lia).
        pose proof (Nat.mod_upper_bound (o p i) k ltac:(lia)) as Hm.
        etransitivity; [apply (@nth_pairs deriv (fun x y => x ++ y) [] Pa Pb); [rewrite Hla; exact Hq|rewrite Hlb; exact Hm]|].
        unfold Pa, Pb. now rewrite !nth_picks by auto. }
      split.
      + rewrite HE. rewrite val_mul, <- Hv, map_map. apply map_ext_in. intros i Hi. apply in_seq in Hi.
        rewrite <- HS. rewrite <- (map_nth sT P []). apply nth_indep. rewrite HS. apply Hlt. lia.
      + rewrite HE.
        destruct (@select_perm _ [] P (map (o p) (seq 0 k)) Hnd) as (r1 & Hr1).
        { intros i Hi. apply in_map_iff in Hi as (j & <- & Hj). apply in_seq in Hj. eapply Nat.lt_le_trans; [apply Hlt; lia|].
          apply Nat.eq_le_incl. etransitivity; [exact HL|symmetry; exact HPl]. }
        rewrite map_map in Hr1. cbn [kt expand].
        exists (r1 ++ prods Pa rb ++ prods ra (Pb ++ rb)).
        rewrite (prods_perm_l _ Ra), (prods_perm_r _ Rb), prods_app_l, prods_split_r. fold P. rewrite Hr1.
        now rewrite <- !app_assoc.
  Qed.

End Picks.

Section Value.
  Variables (k : nat) (z : R) (phi : list nat -> R).
  Hypothesis Hk : (0 < k)%nat.
  Notation val := (leval (kmax_ops k z) (fun e => kmax_convert k z (phi e))).
  Notation scores t := (map (score phi z) (expand (kt k t))).

  Lemma kt_nonempty t : twf t -> expand (kt k t) <> [].
  Proof.
    induction t as [e|e| | |l IH|a b IHa IHb] using term_ind'; intro W; simpl; try discriminate.
    - destruct k; [lia|simpl; discriminate].
    - inversion_clear W as [| | | |? Hn Hf|]. destruct l as [|t l]; [congruence|]. inversion_clear Hf. inversion_clear IH.
      simpl. intro E. apply app_eq_nil in E as [E _]. now apply (H1 H).
    - inversion_clear W as [| | | | |? ? Wa Wb]. specialize (IHa Wa). specialize (IHb Wb).
      destruct (expand (kt k a)) as [|x la]; [congruence|]. destruct (expand (kt k b)); [congruence|discriminate].
  Qed.
  Theorem kmax_counts t : twf t -> forall y, Nat.min k (cge y (val t)) = Nat.min k (cge y (scores t)).
  Proof.
    induction t as [e|e| | |l IH|a b IHa IHb] using term_ind'; intros W y.
    - cbn [leval kt expand flat_map]. rewrite expand_zeros. cbn [app map]. rewrite score_zeros, score_one. reflexivity.
    - cbn [leval kt expand flat_map sover kmax_ops]. rewrite expand_zeros. cbn [app map]. rewrite score_zeros, score_one.
      destruct k as [|k']; [lia|]. simpl. now rewrite Nat.sub_0_r.
    - cbn [leval kt expand flat_map sone kmax_ops]. rewrite expand_zeros. cbn [app map]. rewrite score_zeros. reflexivity.
    - cbn [leval kt expand flat_map szero kmax_ops]. rewrite expand_zeros, score_zeros. reflexivity.
    - cbn [leval kt expand ssum kmax_ops]. inversion_clear W as [| | | |? Hn Hf|]. rewrite topk_idem.
      rewrite flat_map_concat_map, concat_map, !map_map.
      apply (@min_concat term k y val (fun t => scores t)). rewrite Forall_forall in *. intros t Ht. apply IH; auto.
    - cbn [leval kt expand smul kmax_ops]. inversion_clear W as [| | | | |? ? Wa Wb]. rewrite topk_idem, score_prods.
      apply min_psum; auto.
  Qed.
  Lemma psum_length a b : length (psum a b) = (length a * length b)%nat.
  Proof. induction a; auto. unfold psum in *. cbn [flat_map]. rewrite app_length, map_length, IHa. reflexivity. Qed.
  Lemma kmax_length t : twf t -> length (val t) = k.
  Proof.
    induction t as [e|e| | |l IH|a b IHa IHb] using term_ind'; intro W; simpl; rewrite ?repeat_length; try lia.
    - inversion_clear W as [| | | |? Hn Hf|]. rewrite topk_length. destruct l as [|t l]; [congruence|].
      inversion_clear IH. inversion_clear Hf. simpl. rewrite app_length. rewrite H by auto. lia.
    - inversion_clear W. rewrite topk_length, psum_length, IHa, IHb by auto. nia.
  Qed.
  Lemma desc_repeat n x : desc (repeat x n).
  Proof.
    induction n; simpl; constructor; auto. apply Forall_forall. intros y Hy. apply repeat_spec in Hy. subst. lra.
  Qed.
  Lemma desc_cons_repeat n x y : y <= x -> desc (x :: repeat y n).
  Proof. intro H. constructor; [apply desc_repeat|]. apply Forall_forall. intros a Ha. apply repeat_spec in Ha. now subst. Qed.
  Lemma kmax_desc t : z <= 0 -> (forall e, z <= phi e) -> desc (val t).
  Proof.
    intros Hz Hp. destruct t; simpl; try apply topk_desc; try apply desc_repeat; apply desc_cons_repeat; auto.
  Qed.
  (** the k numbers are the k best scores of the derivations *)
  Theorem kmax_value t : twf t -> z <= 0 -> (forall e, z <= phi e) -> val t = topk k (scores t).
  Proof.
    intros W Hz Hp. apply topk_char; [now apply kmax_desc|]. intro y. rewrite <- kmax_counts by auto.
    pose proof (cge_le y (val t)). rewrite kmax_length in H by auto. change (car (kmax_ops k z)) with (list R) in *. lia.
  Qed.

  (** distinct positions, of the k largest entries in decreasing order *)
  Definition is_topk : (nat -> nat) -> list R -> Prop := is_top k 0 (topk k).
  (** spec: at every sum the choices are those of torch.topk (semirings.py:204-213) *)
  Definition topk_ok : (path -> nat -> nat) -> path -> term -> Prop := top_ok k 0 Rplus (topk k) val.
  Theorem picks_spec o t : twf t -> forall p, topk_ok o p t ->
    map (score phi z) (picks k o p t) = val t /\ exists rest, Permutation (expand (kt k t)) (picks k o p t ++ rest).
  Proof.
    apply (@tops_spec k R 0 Rplus (topk k) (score phi z) val Hk); auto.
    - apply score_app.
    - intro e. rewrite map_cons, score_zeros, score_one. reflexivity.
    - intro e. rewrite map_cons, score_zeros, score_one. destruct k as [|k']; [lia|]. simpl. now rewrite Nat.sub_0_r.
    - rewrite map_cons, score_zeros. reflexivity.
    - rewrite score_zeros. reflexivity.
  Qed.

  (** torch.topk has a result whenever there are at least k entries *)
  Lemma is_topk_exists l : (k <= length l)%nat -> exists o, is_topk o l.
  Proof.
    intro H. destruct (@perm_index _ 0 l (dsort l)) as (idx & Hp & E); [symmetry; apply dsort_perm|].
    assert (Hl : length idx = length l) by (rewrite (Permutation_length Hp); apply seq_length).
    exists (fun i => nth i idx 0%nat). 
    assert (Hm : map (fun i => nth i idx 0%nat) (seq 0 k) = firstn k idx).
    { clear E Hp. assert (Hk' : (k <= length idx)%nat) by lia. clear - Hk'. revert Hk'. generalize k as n. intros n. revert idx.
      induction n as [|n IH]; intros [|a idx] Hn; simpl in *; try lia; auto. f_equal. rewrite <- seq_shift, map_map. apply IH. lia. }
    split; [|split].
    - rewrite Hm. apply (@NoDup_app_l _ _ (skipn k idx)). rewrite firstn_skipn. eapply Permutation_NoDup; [symmetry; exact Hp|apply seq_NoDup].
    - intros i Hi. assert (Hin : In (nth i idx 0%nat) idx) by (apply nth_In; lia). apply (Permutation_in _ Hp) in Hin. apply in_seq in Hin. lia.
    - unfold topk. rewrite E, firstn_map, <- Hm, map_map. reflexivity.
  Qed.
End Value.

(** ** Shared graphs *)
Section KGraph.
  Variables (g : dag) (k : nat) (o : nat -> nat -> nat).
  Hypothesis Ht : topo g.
  Hypothesis Hk : (0 < k)%nat.
  (** the indices of torch.topk are positions in its argument *)
  Definition idx_range : Prop := forall v i, (i < k)%nat ->
    match ndof g v with NSum l => (o v i < length l * k)%nat | NMul _ _ => (o v i < k * k)%nat | _ => True end.

  (** backward: state [gr v s], gradient of slot s of node v *)
  Definition kaddto (gr : nat -> nat -> R) (c : nat) (x : nat -> R) : nat -> nat -> R :=
    fun v s => if (v =? c)%nat then gr v s + x s else gr v s.
  (** helpers.py:101-107: gradient of a sum node with respect to the slices of its arguments, added to what is there *)
  Fixpoint kscatter (l : list nat) (j : nat) (x : nat -> nat -> R) (gr : nat -> nat -> R) : nat -> nat -> R :=
    match l with [] => gr | c :: l' => kscatter l' (S j) x (kaddto gr c (x j)) end.
  (** the outputs i with [test (o v i)] pass on their gradient *)
  Definition routed (gr : nat -> nat -> R) (v : nat) (test : nat -> bool) : R :=
    RSum (fun i => if test (o v i) then gr v i else 0) (seq 0 k).
  (** torch.topk passes the gradient of an output to the selected entry; mul adds
      slot x/k of one factor to slot x mod k of the other (semirings.py:204-235) *)
  Definition kstep (v : nat) (gr : nat -> nat -> R) : nat -> nat -> R :=
    match ndof g v with
    | NSum l => kscatter l 0 (fun j s => routed gr v (fun x => (x =? j * k + s)%nat)) gr
    | NMul a b => kaddto (kaddto gr a (fun s => routed gr v (fun x => (x / k =? s)%nat)))
                                    b (fun s => routed gr v (fun x => (x mod k =? s)%nat))
    | _ => gr
    end.
  (** helpers.py:101-107: the backward pass over the recorded nodes, from the last to the first *)
  Fixpoint kpass (n : nat) (gr : nat -> nat -> R) : nat -> nat -> R :=
    match n with 0%nat => gr | S v => kpass v (kstep v gr) end.
  (** helpers.py:97-109: gradient of [sum_i x_i v[i]]; [unconvert] reads slot 0
      (semirings.py:200-202) *)
  Definition kgrad (r : nat) (x : nat -> R) (e : list nat) : R :=
    RSum (fun v => kpass (S r) (fun v s => if (v =? r)%nat then x s else 0) v 0%nat * sel g R_csr e v) (seq 0 (S r)).

  (** the derivations behind the slots of node v *)
  Definition dpick_step (v : nat) (f : nat -> list deriv) : list deriv :=
    map (fun i =>
    match ndof g v with
    | NLeaf e => if (i =? 0)%nat then [AL e] else [AZ]
    | NOver e => if (i =? 0)%nat then [AO e] else [AZ]
    | NOne => if (i =? 0)%nat then [] else [AZ]
    | NZero => [AZ]
    | NSum l => nth (o v i mod k) (f (nth (o v i / k) l (hd 0%nat l))) []
    | NMul a b => nth (o v i / k) (f a) [] ++ nth (o v i mod k) (f b) []
    end) (seq 0 k).
  (** proof device: derivations selected at every recorded node *)
  Definition dpicks : nat -> list deriv := inorder [] dpick_step.
  (** proof device: the i-th derivation selected at node v *)
  Definition dpick (v i : nat) : deriv := nth i (dpicks v) [].
  Lemma dpicks_eq v : dpicks v = dpick_step v dpicks.
  Proof.
    apply inorder_eq. intros u f f' H. unfold dpick_step. apply map_ext. intro i. destruct (ndof g u) eqn:E; auto.
    - rewrite H; auto. apply (topo_sum Ht u E), (pick_child Ht u _ E).
    - destruct (topo_mul Ht u E). now rewrite !H.
  Qed.
  Lemma dpicks_length v : length (dpicks v) = k.
  Proof. rewrite dpicks_eq. unfold dpick_step. now rewrite map_length, seq_length. Qed.
  Lemma dpick_eq v i : (i < k)%nat -> dpick v i =
    match ndof g v with
    | NLeaf e => if (i =? 0)%nat then [AL e] else [AZ]
    | NOver e => if (i =? 0)%nat then [AO e] else [AZ]
    | NOne => if (i =? 0)%nat then [] else [AZ]
    | NZero => [AZ]
    | NSum l => dpick (nth (o v i / k) l (hd 0%nat l)) (o v i mod k)
    | NMul a b => dpick a (o v i / k) ++ dpick b (o v i mod k)
    end.
  Proof.
    intro Hi. unfold dpick at 1. rewrite dpicks_eq. unfold dpick_step.
    match goal with |- nth i (map ?f _) _ = _ => rewrite (nth_indep _ [] (f 0%nat)) by (rewrite map_length, seq_length; auto); rewrite (map_nth f (seq 0 k) 0%nat i) end.
    rewrite seq_nth by auto. reflexivity.
  Qed.

  (** choices per node are choices per path *)
  Lemma dpick_paths r : forall v p i, nodeat g r p = v -> (i < k)%nat -> idx_range ->
    kpick k (fun p => o (nodeat g r p)) p (unf g v) i = dpick v i.
  Proof.
    intro v. induction v as [v IH] using lt_wf_ind. intros p i Hp Hi Ho. specialize (Ho v) as Hv.
    rewrite (dpick_eq v Hi), (unf_eq Ht). unfold unf_step. destruct (ndof g v) eqn:E; auto.
    - cbn [kpick]. pose proof (Hv i Hi) as Hlt.
      assert (Hq : (o v i / k < length l)%nat) by (apply Nat.div_lt_upper_bound; lia).
      pose proof (Nat.mod_upper_bound (o v i) k ltac:(lia)) as Hm.
      rewrite Hp. rewrite (@nth_mapi_gen term deriv _ _ TZero []) by (rewrite map_length; auto). cbn [Nat.add].
      rewrite (nth_indep _ TZero (unf g (hd 0%nat l))) by (rewrite map_length; auto). rewrite map_nth.
      apply IH; auto.
      + apply (topo_sum Ht v E), (pick_child Ht v _ E).
      + simpl. rewrite Hp. unfold child. rewrite E. apply nth_indep. auto.
    - cbn [kpick]. pose proof (Hv i Hi) as Hlt.
      assert (Hq : (o v i / k < k)%nat) by (apply Nat.div_lt_upper_bound; lia).
      pose proof (Nat.mod_upper_bound (o v i) k ltac:(lia)) as Hm. destruct (topo_mul Ht v E) as [Ha Hb].
      rewrite Hp. rewrite (IH a), (IH b); auto; simpl; rewrite Hp; unfold child; rewrite E; reflexivity.
  Qed.
  (** the backward pass counts in the derivations *)
  Definition kpair (n : nat) (gr V : nat -> nat -> R) : R :=
    RSum (fun v => RSum (fun s => gr v s * V v s) (seq 0 k)) (seq 0 n).
  Lemma kpair_S n gr V : kpair (S n) gr V = kpair n gr V + RSum (fun s => gr n s * V n s) (seq 0 k).
  Proof. unfold kpair. rewrite seq_S, RSum_app. f_equal. rewrite (Sum_one R_csr). reflexivity. Qed.
  Lemma kaddto_pair n gr c x V : (c < n)%nat ->
    kpair n (kaddto gr c x) V = kpair n gr V + RSum (fun s => x s * V c s) (seq 0 k).
  Proof.
    induction n as [|n IH]; intro Hc; [lia|]. rewrite !kpair_S. unfold kaddto at 2.
    destruct (Nat.eqb_spec n c) as [->|].
    - assert (E : kpair c (kaddto gr c x) V = kpair c gr V).
      { unfold kpair. apply (Sum_ext_in R_csr). intros v Hv. apply in_seq in Hv. unfold kaddto.
        destruct (Nat.eqb_spec v c); [lia|reflexivity]. }
      rewrite E. rewrite (Sum_ext R_csr _ (fun s => @kadd R_csr (gr c s * V c s) (x s * V c s))) by (intro; simpl; ring).
      rewrite (Sum_add R_csr). simpl. ring.
    - rewrite IH by lia. ring.
  Qed.
  Lemma kscatter_pair n V x l : forall j gr, (forall c, In c l -> (c < n)%nat) ->
    kpair n (kscatter l j x gr) V = kpair n gr V + ksum R_csr (mapi (fun j c => RSum (fun s => x j s * V c s) (seq 0 k)) j l).
  Proof.
    induction l as [|c l IH]; intros j gr H; simpl.
    - ring.
    - rewrite IH by (intros; apply H; now right). rewrite kaddto_pair by (apply H; now left). apply Rplus_assoc.
  Qed.
  Lemma kscatter_other x l : forall j gr v s, ~ In v l -> kscatter l j x gr v s = gr v s.
  Proof.
    induction l as [|c l IH]; intros j gr v s H; simpl; auto. rewrite IH by (intro; apply H; now right).
    unfold kaddto. destruct (Nat.eqb_spec v c); auto. subst. destruct H. now left.
  Qed.
  Lemma kstep_other u gr v s : (u <= v)%nat -> kstep u gr v s = gr v s.
  Proof.
    intro H. unfold kstep. destruct (ndof g u) eqn:E; auto.
    - apply kscatter_other. intro Hc. apply (topo_sum Ht u E) in Hc. lia.
    - destruct (topo_mul Ht u E). unfold kaddto.
      destruct (Nat.eqb_spec v b), (Nat.eqb_spec v a); auto; lia.
  Qed.
  Lemma kpass_other n : forall gr v s, (n <= v)%nat -> kpass n gr v s = gr v s.
  Proof. induction n as [|n IH]; intros gr v s H; simpl; auto. rewrite IH by lia. apply kstep_other. lia. Qed.

  (** proof device: 1 for the first slice of a node that reads potential e *)
  Definition ksel (e : list nat) (v s : nat) : R := if (s =? 0)%nat then sel g R_csr e v else 0.
  Lemma ksel_sum e v (h : nat -> R) : RSum (fun s => h s * ksel e v s) (seq 0 k) = h 0%nat * sel g R_csr e v.
  Proof.
    rewrite <- (@RSum_delta k (fun s => h s * sel g R_csr e v) 0%nat Hk). apply (Sum_ext R_csr). intro s.
    unfold ksel. rewrite (Nat.eqb_sym s). destruct (0 =? s)%nat; ring.
  Qed.
  Lemma kstep_pair e u gr : idx_range ->
    let V := fun v s => cnt e (dpick v s) in
    kpair u (kstep u gr) V + gr u 0%nat * sel g R_csr e u = kpair u gr V + RSum (fun s => gr u s * V u s) (seq 0 k).
  Proof.
    intro Ho. cbv zeta. set (V := fun v s => cnt e (dpick v s)). specialize (Ho u) as Hu.
    assert (HC : forall a, cnt e [a] = acount e a) by (intros; unfold cnt, Sum; simpl; ring).
    assert (Hbase : forall x, (forall i, (i < k)%nat -> dpick u i = if (i =? 0)%nat then x else [AZ]) ->
      RSum (fun s => gr u s * V u s) (seq 0 k) = gr u 0%nat * cnt e x).
    { intros x Hx. rewrite <- (@RSum_delta k (fun s => gr u s * cnt e x) 0%nat Hk). apply (Sum_ext_in R_csr). intros s Hs.
      apply in_seq in Hs. unfold V. rewrite Hx by lia. rewrite (Nat.eqb_sym s). destruct (0 =? s)%nat; auto. rewrite HC. simpl. ring. }
    unfold kstep, sel. destruct (ndof g u) eqn:E.
    - rewrite (Hbase [AL e0]) by (intros i Hi; rewrite dpick_eq, E by auto; reflexivity). rewrite HC. simpl.
      destruct (list_eq_dec Nat.eq_dec e e0); reflexivity.
    - rewrite (Hbase [AO e0]) by (intros i Hi; rewrite dpick_eq, E by auto; reflexivity). rewrite HC. simpl.
      destruct (list_eq_dec Nat.eq_dec e e0); reflexivity.
    - rewrite (Hbase []) by (intros i Hi; rewrite dpick_eq, E by auto; reflexivity). unfold cnt, Sum. simpl. ring.
    - rewrite (Hbase [AZ]) by (intros i Hi; rewrite dpick_eq, E by auto; now destruct (i =? 0)%nat). rewrite HC. simpl. ring.
    - assert (Hlt : forall i, (i < k)%nat -> (o u i < length l * k)%nat) by exact Hu.
      rewrite kscatter_pair by apply (topo_sum Ht u E).
      cbn [k0 R_csr]. rewrite Rmult_0_r, Rplus_0_r. f_equal.
      rewrite (@ksum_mapi_seq _ _ (hd 0%nat l)).
      rewrite (@Sum_ext_in R_csr nat _ (fun j => RSum (fun i => if (o u i / k =? j)%nat then
                gr u i * V (nth j l (hd 0%nat l)) (o u i mod k)%nat else 0) (seq 0 k))).
      + etransitivity; [apply (Sum_comm R_csr)|]. apply (Sum_ext_in R_csr). intros i Hi. apply in_seq in Hi.
        assert (Hq : (o u i / k < length l)%nat) by (apply Nat.div_lt_upper_bound; [lia|]; rewrite Nat.mul_comm; apply Hlt; lia).
        rewrite (@RSum_delta (length l) (fun j => gr u i * V (nth j l (hd 0%nat l)) (o u i mod k)%nat)) by auto.
        unfold V at 2. rewrite dpick_eq, E by lia. reflexivity.
      + intros j Hj. apply in_seq in Hj.
        rewrite (Sum_ext R_csr _ (fun s => RSum (fun i => if (o u i =? j * k + s)%nat then
                   gr u i * V (nth j l (hd 0%nat l)) s else 0) (seq 0 k))).
        2:{ intro s. unfold routed. rewrite <- RSum_scar. apply Sum_ext. intro i. destruct (o u i =? j * k + s)%nat; ring. }
        etransitivity; [apply (Sum_comm R_csr)|]. apply (Sum_ext_in R_csr). intros i Hi.
        pose proof (Nat.div_mod (o u i) k ltac:(lia)) as Hdm. pose proof (Nat.mod_upper_bound (o u i) k ltac:(lia)) as Hm.
        destruct (o u i / k =? j)%nat eqn:E'.
        * apply Nat.eqb_eq in E'.
          rewrite <- (@RSum_delta k (fun s => gr u i * V (nth j l (hd 0%nat l)) s) (o u i mod k)%nat) by auto.
          apply Sum_ext. intro s. replace (o u i =? j * k + s)%nat with (o u i mod k =? s)%nat; auto.
          apply Bool.eq_iff_eq_true. rewrite !Nat.eqb_eq. rewrite <- E'. nia.
        * apply Nat.eqb_neq in E'. apply (Sum_zero R_csr).
          intros s Hs. apply in_seq in Hs. cbv beta. destruct (Nat.eqb_spec (o u i) (j * k + s)) as [E''|E'']; [|reflexivity].
          exfalso. apply E'. rewrite E'', Nat.div_add_l, (Nat.div_small s) by lia. lia.
    - assert (Hlt : forall i, (i < k)%nat -> (o u i < k * k)%nat) by exact Hu.
      destruct (topo_mul Ht u E) as [Ha Hb].
      rewrite !kaddto_pair by auto. cbn [k0 R_csr]. rewrite Rmult_0_r, Rplus_0_r, Rplus_assoc. f_equal. unfold routed.
      rewrite (@RSum_route k k (fun i => o u i / k)%nat (gr u) (V a)).
      2:{ intros i Hi. apply Nat.div_lt_upper_bound; [lia|]. now apply Hlt. }
      rewrite (@RSum_route k k (fun i => o u i mod k)%nat (gr u) (V b)).
      2:{ intros i Hi. apply Nat.mod_upper_bound. lia. }
      symmetry. etransitivity; [|apply (Sum_add R_csr)]. apply (Sum_ext_in R_csr). intros i Hi. apply in_seq in Hi.
      unfold V at 1. rewrite dpick_eq, E, cnt_app by lia. cbn [kadd R_csr]. unfold V. ring.
  Qed.
  Theorem kpass_counts e : idx_range -> forall n gr,
    RSum (fun v => kpass n gr v 0%nat * sel g R_csr e v) (seq 0 n) = kpair n gr (fun v s => cnt e (dpick v s)).
  Proof.
    intro Ho. induction n as [|n IH]; intro gr; [reflexivity|].
    rewrite seq_S, RSum_app, (Sum_one R_csr). cbn [kpass]. rewrite IH, kpass_other, kstep_other by lia.
    rewrite kpair_S. apply (kstep_pair e n gr Ho).
  Qed.
  Theorem kgrad_range r x e : idx_range -> kgrad r x e = RSum (fun i => x i * cnt e (dpick r i)) (seq 0 k).
  Proof.
    intro Ho. unfold kgrad. rewrite (kpass_counts e Ho). rewrite kpair_S, Nat.eqb_refl.
    replace (kpair r (fun v s => if (v =? r)%nat then x s else 0) (fun v s => cnt e (dpick v s))) with 0; [ring|].
    symmetry. apply (Sum_zero R_csr). intros v Hv. apply in_seq in Hv. apply (Sum_zero R_csr). intros s _.
    destruct (Nat.eqb_spec v r); [lia|]. simpl. ring.
  Qed.

  (** the derivations of the slots, in any ordered carrier *)
  Section Carrier.
    Variables (T : Type) (d : T) (add : T -> T -> T) (tk : list T -> list T) (sT : deriv -> T) (val : term -> list T) (nv : nat -> list T).
    Hypothesis nv_unf : forall v, nv v = val (unf g v).
    (** [o v i]: index returned by torch.topk for output i of node v *)
    Definition top_node : Prop := forall v,
      match ndof g v with
      | NSum l => is_top k d tk (o v) (concat (map nv l))
      | NMul a b => is_top k d tk (o v) (psums add (nv a) (nv b))
      | _ => True
      end.
    Lemma psums_length a b : length (psums add a b) = (length a * length b)%nat.
    Proof. induction a; auto. unfold psums in *. cbn [flat_map]. rewrite app_length, map_length, IHa. reflexivity. Qed.
    Hypothesis Hlen : forall t, twf t -> length (val t) = k.
    Lemma top_range : top_node -> idx_range.
    Proof.
      intros H v i Hi. specialize (H v). destruct (ndof g v) eqn:E; auto.
      - destruct H as (_ & H & _). specialize (H i Hi). rewrite concat_unif_length with (k := k), map_length in H; auto.
        apply Forall_forall. intros x Hx. apply in_map_iff in Hx as (c & <- & _). rewrite nv_unf. apply Hlen, (unf_wf Ht).
      - destruct H as (_ & H & _). specialize (H i Hi). rewrite psums_length, !nv_unf, !Hlen in H by apply (unf_wf Ht). exact H.
    Qed.
    Lemma top_paths r : top_node -> top_ok k d add tk val (fun p => o (nodeat g r p)) [] (unf g r).
    Proof.
      intro Ho.
      assert (G : forall v p, nodeat g r p = v -> top_ok k d add tk val (fun p => o (nodeat g r p)) p (unf g v)); [|now apply G].
      intro v. induction v as [v IH] using lt_wf_ind. intros p Hp. specialize (Ho v) as Hv. rewrite (unf_eq Ht). unfold unf_step.
      destruct (ndof g v) eqn:E; cbn [top_ok]; auto.
      - split.
        + rewrite Hp, map_map. rewrite <- (map_ext _ _ nv_unf). exact Hv.
        + rewrite fold_and_mapi. intros j t Hj. simpl. rewrite nth_error_map in Hj.
          destruct (nth_error l j) as [c|] eqn:Ec; [|discriminate]. injection Hj as <-.
          apply IH; [apply (topo_sum Ht v E), (nth_error_In _ _ Ec)|].
          simpl. rewrite Hp. unfold child. rewrite E. now apply nth_error_nth.
      - destruct (topo_mul Ht v E). rewrite Hp. rewrite <- !nv_unf. split; [exact Hv|].
        split; apply IH; auto; simpl; rewrite Hp; unfold child; rewrite E; reflexivity.
    Qed.
    Hypothesis sT_app : forall x y, sT (x ++ y) = add (sT x) (sT y).
    Hypothesis val_leaf : forall e, val (TLeaf e) = map sT ([AL e] :: repeat [AZ] (k - 1)).
    Hypothesis val_over : forall e, val (TOver e) = map sT ([AO e] :: repeat [AZ] (k - 1)).
    Hypothesis val_one : val TOne = map sT ([] :: repeat [AZ] (k - 1)).
    Hypothesis val_zero : val TZero = map sT (repeat [AZ] k).
    Hypothesis val_sum : forall l, val (TSum l) = tk (concat (map val l)).
    Hypothesis val_mul : forall a b, val (TMul a b) = tk (psums add (val a) (val b)).
    Theorem dtop_spec r : top_node ->
      map sT (map (dpick r) (seq 0 k)) = nv r /\
      exists rest, Permutation (expand (kt k (unf g r))) (map (dpick r) (seq 0 k) ++ rest).
    Proof.
      intro Ho. replace (map (dpick r) (seq 0 k)) with (picks k (fun p => o (nodeat g r p)) [] (unf g r)).
      - rewrite nv_unf. apply (@tops_spec k T d add tk sT val); auto; [apply (unf_wf Ht)|now apply top_paths].
      - apply map_ext_in. intros i Hi. apply in_seq in Hi. apply dpick_paths; auto; [lia|]. now apply top_range.
    Qed.
  End Carrier.
End KGraph.

Section KDag.
  Variables (g : dag) (k : nat) (z : R) (phi : list nat -> R) (o : nat -> nat -> nat).
  Hypothesis Ht : topo g.
  Hypothesis Hk : (0 < k)%nat.
  Notation kfwd := (fwd g (kmax_ops k z) (fun e => kmax_convert k z (phi e))).

  (** [o v i]: index returned by torch.topk for output i of node v *)
  Definition topk_node : Prop := forall v,
    match ndof g v with
    | NSum l => is_topk k (o v) (concat (map kfwd l))
    | NMul a b => is_topk k (o v) (psum (kfwd a) (kfwd b))
    | _ => True
    end.

  Lemma topk_range : topk_node -> idx_range g k o.
  Proof.
    intro H. apply (@top_range g k o Ht Hk R 0 Rplus (topk k) (leval (kmax_ops k z) (fun e => kmax_convert k z (phi e))) kfwd (fwd_unf Ht (kmax_ops k z) (fun e => kmax_convert k z (phi e)))); auto.
    intros t W. now apply kmax_length.
  Qed.
  Theorem dpick_spec r : topk_node ->
    map (score phi z) (map (dpick g k o r) (seq 0 k)) = kfwd r /\
    exists rest, Permutation (expand (kt k (unf g r))) (map (dpick g k o r) (seq 0 k) ++ rest).
  Proof.
    apply (@dtop_spec g k o Ht Hk R 0 Rplus (topk k) (score phi z) (leval (kmax_ops k z) (fun e => kmax_convert k z (phi e)))); auto.
    - exact (fwd_unf Ht (kmax_ops k z) (fun e => kmax_convert k z (phi e))).
    - intros t W. now apply kmax_length.
    - apply score_app.
    - intro e. rewrite map_cons, score_zeros, score_one. reflexivity.
    - intro e. rewrite map_cons, score_zeros, score_one. destruct k as [|k']; [lia|]. simpl. now rewrite Nat.sub_0_r.
    - rewrite map_cons, score_zeros. reflexivity.
    - rewrite score_zeros. reflexivity.
  Qed.
  Theorem kgrad_counts r x e : topk_node -> kgrad g k o r x e = RSum (fun i => x i * cnt e (dpick g k o r i)) (seq 0 k).
  Proof. intro Ho. apply kgrad_range; auto. now apply topk_range. Qed.
End KDag.

Lemma topk_node_exists g k z phi : topo g -> (0 < k)%nat -> exists o, topk_node g k z phi o.
Proof.
  intros Ht Hk. set (val := fwd g (kmax_ops k z) (fun e => kmax_convert k z (phi e))).
  assert (Hv : forall v, length (val v) = k).
  { intro v. unfold val. rewrite (fwd_unf Ht). apply kmax_length; auto. apply (unf_wf Ht). }
  assert (H : forall v, exists ov, match ndof g v with
    | NSum l => is_topk k ov (concat (map val l)) | NMul a b => is_topk k ov (psum (val a) (val b)) | _ => True end).
  { intro v. destruct (ndof g v) eqn:E; try (exists (fun _ => 0%nat); exact I).
    - apply is_topk_exists; auto. destruct (topo_sum Ht v E) as [Hl _]. destruct l as [|c l]; [congruence|].
      cbn [map concat]. change (car (kmax_ops k z)) with (list R). rewrite app_length. specialize (Hv c).
      change (car (kmax_ops k z)) with (list R) in Hv. lia.
    - apply is_topk_exists; auto. rewrite psum_length, !Hv. nia. }
  assert (H' : forall n, exists o, forall v, (v < n)%nat -> match ndof g v with
    | NSum l => is_topk k (o v) (concat (map val l)) | NMul a b => is_topk k (o v) (psum (val a) (val b)) | _ => True end).
  { induction n as [|n (o & Ho)]; [exists (fun _ _ => 0%nat); intros; lia|].
    destruct (H n) as (on & Hn). exists (fun v => if (v =? n)%nat then on else o v). intros v Hlt.
    destruct (Nat.eqb_spec v n) as [->|]; [exact Hn|]. apply Ho. lia. }
  destruct (H' (length g)) as (o & Ho). exists o. intro v. destruct (Nat.lt_ge_cases v (length g)) as [Hlt|Hge].
  - apply (Ho v Hlt).
  - unfold ndof. rewrite nth_overflow by auto. exact I.
Qed.
