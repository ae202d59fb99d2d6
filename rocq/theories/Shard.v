(** * Shard: the backward passes of [matmul] and of its sharded version
    (checkpoint.py:87-98, 150-189).

    One-float classes; the leading dimension of size 1 is among the batch
    dimensions, as in Tensor.v. What a class contributes to a gradient are the
    local derivatives of its sum and of its product; they are parameters here. *)
From Verif Require Import Base Ops Terms Semirings Approx Grad Api Query Tensor.
Set Implicit Arguments.
Local Open Scope R_scope.

(** equality of indices as a boolean *)
Definition leq (x y : list nat) : bool := if list_eq_dec Nat.eq_dec x y then true else false.
(** the cells y of a tensor of shape [sh] are added up into the cells [f y] *)
Definition scatter (sh : list nat) (f : list nat -> list nat) (v : list nat -> R) (idx : list nat) : R :=
  RSum (fun y => if leq (f y) idx then v y else 0) (indices sh).

Section Model.
  Variable O : ops.
  Notation A := (car O).
  (** [lw l k]: derivative of [sum l] by the k-th entry (softmax for LogSemiring,
      one-hot at the index of torch.max for MaxSemiring, 1 for StdSemiring);
      [ma x y], [mb x y]: derivatives of [mul x y] by x and by y *)
  Variable lw : list A -> nat -> R.
  Variables ma mb : A -> A -> R.

  (** torch.autograd through [mul] with broadcasting: every operand cell collects the
      gradients of all result cells it was used for *)
  Definition tmul_vjp (a b : tensor A) (g : tensor R) : tensor R * tensor R :=
    let d m := fun y => dat g y * m (dat a (bidx (shape a) y)) (dat b (bidx (shape b) y)) in
    ({| shape := shape a; dat := scatter (shape g) (bidx (shape a)) (d ma) |},
     {| shape := shape b; dat := scatter (shape g) (bidx (shape b)) (d mb) |}).
  (** through [cls.sum] over the last dimension *)
  Definition tsum_last_vjp (c : tensor A) (g : tensor R) : tensor R :=
    {| shape := shape c;
       dat := fun idx => dat g (removelast idx) *
         lw (map (fun k => dat c (removelast idx ++ [k])) (seq 0 (last (shape c) 0%nat))) (last idx 0%nat) |}.
  (** through [unsqueeze(-k)] *)
  Definition tunsqueeze_vjp (k : nat) (a : tensor A) (g : tensor R) : tensor R :=
    {| shape := shape a; dat := fun idx => dat g (insert_at (length (shape a) + 1 - k) 0 idx) |}.
  (** [torch.autograd.grad(cls.matmul(a, b), (a, b), g)]: Tensor.tmatmul backwards,
      step by step. autograd rejects a [g] of another shape than the product.
      This is also CheckpointSemiring's backward (checkpoint.py:31-36). *)
  Definition tmatmul_vjp (a b : tensor A) (g : tensor R) : res (tensor R * tensor R) :=
    bind (tunsqueeze O 1 a) (fun au =>
    bind (tunsqueeze O 3 b) (fun bu =>
    bind (tmul O au bu) (fun c =>
    let ct := ttranspose O c in
    if leq (shape g) (shape (tsum_last O ct)) then
      let gct := tsum_last_vjp ct g in
      let gc := ttranspose std_ops gct in
      let (ga, gb) := tmul_vjp au bu gc in
      Ok (tunsqueeze_vjp 1 a ga, tunsqueeze_vjp 3 b gb)
    else Err RuntimeError))).

  (** ** checkpoint.py:150-189 *)
  (** checkpoint.py:112-117 [ones]: positions of the dimensions of size 1, the last
      dimension not considered *)
  Definition ones (sh : list nat) : list nat := filter (fun i => nth i sh 0 =? 1)%nat (seq 0 (length sh - 1)).
  (** the entries at the positions [dims] replaced by v *)
  Definition clear (dims : list nat) (v : nat) (l : list nat) : list nat :=
    map (fun p => if existsb (Nat.eqb (fst p)) dims then v else snd p) (combine (seq 0 (length l)) l).
  (** [t.sum(dims, keepdim=True)]; torch reduces over all dimensions when the list is empty *)
  Definition tsum_keep (dims : list nat) (t : tensor R) : tensor R :=
    let dims := match dims with [] => seq 0 (length (shape t)) | _ => dims end in
    {| shape := clear dims 1 (shape t); dat := scatter (shape t) (clear dims 0) (dat t) |}.
  (** [ret[p : q] += v] *)
  Definition tadd_slice (p q : nat) (ret v : tensor R) : res (tensor R) :=
    match shape ret, shape v with
    | n :: sh, m :: sh' =>
        if ((Nat.min q n - p =? m)%nat && leq sh sh')%bool
        then Ok {| shape := shape ret; dat := fun idx => match idx with
                   | i :: idx' => if ((p <=? i) && (i <? q))%nat%bool then dat ret idx + dat v ((i - p)%nat :: idx') else dat ret idx
                   | [] => dat ret idx end |}
        else Err RuntimeError
    | _, _ => Err RuntimeError
    end.
  Section Un.
    Variable vfn : tensor A -> tensor A -> tensor R -> res (tensor R * tensor R).
    (** checkpoint.py:174-182, [m] rounds left *)
    Fixpoint unshard_loop (m p step : nat) (a2 b2 : tensor A) (g2 ra rb : tensor R) : res (tensor R * tensor R) :=
      match m with
      | 0%nat => Ok (ra, rb)
      | S m' =>
          bind (vfn (tslice O p (p + step) a2) (tslice O p (p + step) b2) (tslice std_ops p (p + step) g2)) (fun ab =>
          bind (tadd_slice p (p + step) ra (fst ab)) (fun ra =>
          bind (tadd_slice p (p + step) rb (snd ab)) (fun rb =>
          unshard_loop m' (p + step) step a2 b2 g2 ra rb)))
      end.
    (** checkpoint.py:150-189 [unaccumulate_] with [preserve = len(grad_output.shape)] *)
    Definition unaccumulate (a b : tensor A) (g : tensor R) (step : nat) : res (tensor R * tensor R) :=
      if (prodl (shape g) <? step)%nat then vfn a b g
      else
        let batch := firstn (length (shape g) - 2) (shape g) in
        let (ai, ak) := (dim_2 (shape a), dim_1 (shape a)) in
        let (bk, bj) := (dim_2 (shape b), dim_1 (shape b)) in
        bind (texpand O (batch ++ [ai; ak]) a) (fun ae =>
        bind (texpand O (batch ++ [bk; bj]) b) (fun be =>
        bind (tview O [infer O ae ai ak; ai; ak] ae) (fun a2 =>
        bind (tview O [infer O be bk bj; bk; bj] be) (fun b2 =>
        bind (tview std_ops [infer std_ops g ai bj; ai; bj] g) (fun g2 =>
        let n := hd 0%nat (shape g2) in
        bind (unshard_loop ((n + step - 1) / step) 0 step a2 b2 g2
                {| shape := shape a2; dat := fun _ => 0 |} {| shape := shape b2; dat := fun _ => 0 |}) (fun r =>
        bind (tview std_ops (batch ++ [ai; ak]) (fst r)) (fun ra =>
        bind (tview std_ops (batch ++ [bk; bj]) (snd r)) (fun rb =>
        Ok (tsum_keep (ones (shape a)) ra, tsum_keep (ones (shape b)) rb))))))))).
    (** checkpoint.py:87-98 [_Check.backward] of CheckpointShardSemiring *)
    Definition shard_backward (max_size : nat) (a b : tensor A) (g : tensor R) : res (tensor R * tensor R) :=
      unaccumulate a b g (max_size / (dim_2 (shape b) * dim_1 (shape a)) + 2).
  End Un.
End Model.

(** ** Sums over indices *)
Lemma leq_true x y : leq x y = true <-> x = y.
Proof. unfold leq. destruct (list_eq_dec _ _ _); split; congruence. Qed.
Lemma leq_refl x : leq x x = true.
Proof. now apply leq_true. Qed.
Lemma leq_cons x y a b : leq (a :: x) (b :: y) = ((a =? b)%nat && leq x y)%bool.
Proof.
  apply Bool.eq_iff_eq_true. rewrite andb_true_iff, !leq_true, Nat.eqb_eq. split; [intro H; injection H as -> ->; auto|intros [-> ->]; auto].
Qed.
Lemma leq_app a b x y : length a = length b -> leq (a ++ x) (b ++ y) = (leq a b && leq x y)%bool.
Proof.
  revert b. induction a as [|u a IH]; intros [|v b] H; try discriminate H; [reflexivity|].
  cbn [app]. rewrite !leq_cons, IH by (simpl in H; lia). apply andb_assoc.
Qed.
Lemma indices_nil (f : list nat -> R) : RSum f (indices []) = f [].
Proof. change (indices []) with [@nil nat]. rewrite RSum_cons. unfold Sum. cbn. ring. Qed.
Lemma indices_app (f : list nat -> R) s t : RSum f (indices (s ++ t)) = RSum (fun x => RSum (fun y => f (x ++ y)) (indices t)) (indices s).
Proof.
  revert f. induction s as [|n s IH]; intro f.
  - rewrite indices_nil. reflexivity.
  - cbn [app]. change (indices (n :: s ++ t)) with (flat_map (fun i => map (cons i) (indices (s ++ t))) (seq 0 n)).
    change (indices (n :: s)) with (flat_map (fun i => map (cons i) (indices s)) (seq 0 n)).
    rewrite !(Sum_flat_map R_csr). apply (Sum_ext R_csr). intro i. rewrite !(Sum_map R_csr). apply (IH (fun x => f (i :: x))).
Qed.
Lemma indices_cons (f : list nat -> R) n t : RSum f (indices (n :: t)) = RSum (fun i => RSum (fun y => f (i :: y)) (indices t)) (seq 0 n).
Proof.
  change (indices (n :: t)) with (flat_map (fun i => map (cons i) (indices t)) (seq 0 n)).
  rewrite (Sum_flat_map R_csr). apply (Sum_ext R_csr). intro i. apply (Sum_map R_csr).
Qed.
Lemma indices_inr sh y : In y (indices sh) <-> inr sh y.
Proof. apply indices_in. Qed.
Lemma pick (f : nat -> R) n i : (i < n)%nat -> RSum (fun x => if (x =? i)%nat then f x else 0) (seq 0 n) = f i.
Proof.
  intro H. rewrite (@Sum_single R_csr nat (fun x => if (x =? i)%nat then f x else 0) i (seq 0 n)).
  - now rewrite Nat.eqb_refl.
  - apply seq_NoDup.
  - apply in_seq. lia.
  - intros y _ Hy. destruct (y =? i)%nat eqn:E; [apply Nat.eqb_eq in E; congruence|reflexivity].
Qed.
Lemma RSum_if A (c : bool) (f : A -> R) l : RSum (fun x => if c then f x else 0) l = if c then RSum f l else 0.
Proof. destruct c; [reflexivity|]. apply (Sum_0 R_csr). Qed.

(** ** The gradient of the product *)
Section Vjp.
  Variable O : ops.
  Notation A := (car O).
  Variable lw : list A -> nat -> R.
  Variables ma mb : A -> A -> R.
  Variables (sa sb sc : list nat) (I D J : nat) (a b : tensor A) (g : tensor R).
  Hypothesis Ha : shape a = sa ++ [I; D].
  Hypothesis Hb : shape b = sb ++ [D; J].
  Hypothesis Hc : bshape sa sb = Some sc.
  Hypothesis Hg : shape g = sc ++ [I; J].

  (** the row of products summed for cell (beta, i, j) *)
  Definition row (beta : list nat) (i j : nat) : list A :=
    map (fun k => smul O (dat a (bidx sa beta ++ [i; k])) (dat b (bidx sb beta ++ [k; j]))) (seq 0 D).
  (** proof device: one term of the gradient of the first factor *)
  Definition ja beta i k j : R :=
    dat g (beta ++ [i; j]) * lw (row beta i j) k * ma (dat a (bidx sa beta ++ [i; k])) (dat b (bidx sb beta ++ [k; j])).
  (** proof device: one term of the gradient of the second factor *)
  Definition jb beta i k j : R :=
    dat g (beta ++ [i; j]) * lw (row beta i j) k * mb (dat a (bidx sa beta ++ [i; k])) (dat b (bidx sb beta ++ [k; j])).

  Theorem tmatmul_vjp_spec : exists ga gb, tmatmul_vjp O lw ma mb a b g = Ok (ga, gb) /\
    shape ga = shape a /\ shape gb = shape b /\
    (forall alpha i k, length alpha = length sa -> (i < I)%nat -> (k < D)%nat -> dat ga (alpha ++ [i; k]) =
      RSum (fun beta => if leq (bidx sa beta) alpha then RSum (fun j => ja beta i k j) (seq 0 J) else 0) (indices sc)) /\
    (forall alpha k j, length alpha = length sb -> (k < D)%nat -> (j < J)%nat -> dat gb (alpha ++ [k; j]) =
      RSum (fun beta => if leq (bidx sb beta) alpha then RSum (fun i => jb beta i k j) (seq 0 I) else 0) (indices sc)).
  Proof.
    unfold tmatmul_vjp, tunsqueeze. rewrite Ha, Hb, !app_length. simpl length.
    replace (1 <=? length sa + 2 + 1)%nat with true by (symmetry; apply Nat.leb_le; lia).
    replace (3 <=? length sb + 2 + 1)%nat with true by (symmetry; apply Nat.leb_le; lia).
    replace (length sa + 2 + 1 - 1)%nat with (length (sa ++ [I; D])) by (rewrite app_length; simpl; lia).
    replace (length sb + 2 + 1 - 3)%nat with (length sb) by lia. cbn [bind].
    assert (E1 : insert_at (length (sa ++ [I; D])) 1 (sa ++ [I; D]) = sa ++ [I; D; 1%nat]).
    { rewrite <- (app_nil_r (sa ++ [I; D])) at 2. rewrite insert_app, <- app_assoc. reflexivity. }
    rewrite E1, insert_app. unfold tmul. cbn [shape dat].
    assert (E2 : bzip [I; D; 1%nat] [1%nat; D; J] = Some [I; D; J]).
    { simpl. rewrite bdim_refl. destruct (bdim_one I) as [-> _], (bdim_one J) as [_ ->]. reflexivity. }
    rewrite (bshape_app _ _ _ _ Hc E2). cbn [bind]. pose proof (bshape_length _ _ Hc) as L.
    unfold tsum_last, ttranspose, tsum_last_vjp. cbn [shape dat].
    assert (S3 : forall (l : list nat) x y z, swap2 (l ++ [x; y; z]) = l ++ [x; z; y]).
    { intros l x y z. change [x; y; z] with ([x] ++ [y; z]). rewrite app_assoc, swap2_app, <- app_assoc. reflexivity. }
    assert (RL : forall (l : list nat) x y z, removelast (l ++ [x; y; z]) = l ++ [x; y]).
    { intros l x y z. change [x; y; z] with ([x; y] ++ [z]). now rewrite app_assoc, removelast_last. }
    assert (LL : forall (l : list nat) x y z d, last (l ++ [x; y; z]) d = z).
    { intros l x y z d. change [x; y; z] with ([x; y] ++ [z]). now rewrite app_assoc, last_last. }
    rewrite S3, RL, LL, Hg, leq_refl. unfold tmul_vjp. cbn [shape dat].
    rewrite (S3 sc). eexists _, _. split; [reflexivity|]. unfold tunsqueeze_vjp. cbn [shape dat].
    split; [exact Ha|]. split; [exact Hb|].
    (* value of the result's gradient at a cell *)
    assert (LB : forall s beta, (length s <= length sc)%nat -> length beta = length sc -> length (bidx s beta) = length s).
    { intros s beta Hs L2. unfold bidx, bidx0. rewrite map_length, combine_length, skipn_length. lia. }
    assert (BA : forall beta i k j, inr sc beta -> (i < I)%nat -> (k < D)%nat ->
      bidx (sa ++ [I; D; 1%nat]) (beta ++ [i; k; j]) = bidx sa beta ++ [i; k; 0%nat]).
    { intros beta i k j H Hi Hk. rewrite bidx_app by (rewrite ?(inr_length H); simpl; lia). unfold bidx0. cbn [combine map fst snd].
      change (if (1 =? 1)%nat then 0%nat else j) with 0%nat. rewrite !bcell by lia. reflexivity. }
    assert (BB : forall beta i k j, inr sc beta -> (k < D)%nat -> (j < J)%nat ->
      bidx (sb ++ [1%nat; D; J]) (beta ++ [i; k; j]) = bidx sb beta ++ [0%nat; k; j]).
    { intros beta i k j H Hk Hj. rewrite bidx_app by (rewrite ?(inr_length H); simpl; lia). unfold bidx0. cbn [combine map fst snd].
      change (if (1 =? 1)%nat then 0%nat else i) with 0%nat. rewrite !bcell by lia. reflexivity. }
    assert (RA : forall beta i k, inr sc beta -> remove_at (length (sa ++ [I; D])) (bidx sa beta ++ [i; k; 0%nat]) = bidx sa beta ++ [i; k]).
    { intros beta i k H. replace (length (sa ++ [I; D])) with (length (bidx sa beta ++ [i; k])).
      - change (bidx sa beta ++ [i; k; 0%nat]) with (bidx sa beta ++ [i; k] ++ [0%nat]). rewrite app_assoc, remove_app. apply app_nil_r.
      - rewrite !app_length, LB by (rewrite ?(inr_length H); lia). reflexivity. }
    assert (RB : forall beta k j, inr sc beta -> remove_at (length sb) (bidx sb beta ++ [0%nat; k; j]) = bidx sb beta ++ [k; j]).
    { intros beta k j H. replace (length sb) with (length (bidx sb beta)) by (apply LB; rewrite ?(inr_length H); lia). apply remove_app. }
    assert (G : forall beta i k j, inr sc beta -> (i < I)%nat -> (k < D)%nat -> (j < J)%nat ->
      map (fun k0 => smul O
        (dat a (remove_at (length (sa ++ [I; D])) (bidx (sa ++ [I; D; 1%nat]) (swap2 ((beta ++ [i; j]) ++ [k0])))))
        (dat b (remove_at (length sb) (bidx (sb ++ [1%nat; D; J]) (swap2 ((beta ++ [i; j]) ++ [k0])))))) (seq 0 D) = row beta i j).
    { intros beta i k j H Hi Hk Hj. apply map_ext_in. intros k0 Hk0. apply in_seq in Hk0.
      rewrite <- app_assoc. cbn [app]. rewrite S3, BA, BB, RA, RB by (auto; lia). reflexivity. }
    split.
    - intros alpha i k La Hi Hk. unfold scatter. cbn [shape dat]. rewrite ?Ha.
      replace (length (sa ++ [I; D]) + 1 - 1)%nat with (length (alpha ++ [i; k])) by (rewrite !app_length, La; simpl; lia).
      replace (insert_at (length (alpha ++ [i; k])) 0 (alpha ++ [i; k])) with (alpha ++ [i; k; 0%nat])
        by (rewrite <- (app_nil_r (alpha ++ [i; k])) at 2; rewrite insert_app, <- app_assoc; reflexivity).
      rewrite indices_app. apply (Sum_ext_in R_csr). intros beta Hbeta. apply indices_inr in Hbeta.
      rewrite indices_cons. 
      rewrite <- RSum_if. rewrite <- (@pick (fun i => RSum (fun j => if leq (bidx sa beta) alpha then ja beta i k j else 0) (seq 0 J)) I i Hi).
      apply (Sum_ext_in R_csr). intros i' Hi'. apply in_seq in Hi'. rewrite indices_cons.
      transitivity (RSum (fun k' => if (k' =? k)%nat then (if (i' =? i)%nat then RSum (fun j => if leq (bidx sa beta) alpha then ja beta i' k' j else 0) (seq 0 J) else 0) else 0) (seq 0 D)).
      + apply (Sum_ext_in R_csr). intros k' Hk'. apply in_seq in Hk'. rewrite indices_cons.
        rewrite <- !RSum_if. apply (Sum_ext_in R_csr). intros j Hj. apply in_seq in Hj. rewrite indices_nil.
        rewrite BA, BB, RA, RB by (auto; lia). rewrite leq_app by (rewrite LB by (rewrite ?(inr_length Hbeta); lia); auto).
        rewrite !leq_cons. change (0 =? 0)%nat with true. rewrite leq_refl, !andb_true_r.
        rewrite S3, RL, LL. rewrite G with (k := k') by (auto; lia). unfold ja.
        destruct (leq (bidx sa beta) alpha), (i' =? i)%nat, (k' =? k)%nat; cbn [andb]; reflexivity.
      + exact (@pick (fun k' => if (i' =? i)%nat then RSum (fun j => if leq (bidx sa beta) alpha then ja beta i' k' j else 0) (seq 0 J) else 0) D k Hk).
    - intros alpha k j La Hk Hj. unfold scatter. cbn [shape dat]. rewrite ?Hb.
      replace (length (sb ++ [D; J]) + 1 - 3)%nat with (length alpha) by (rewrite app_length; simpl; lia). rewrite insert_app.
      rewrite indices_app. apply (Sum_ext_in R_csr). intros beta Hbeta. apply indices_inr in Hbeta.
      rewrite indices_cons. rewrite <- RSum_if. apply (Sum_ext_in R_csr). intros i Hi. apply in_seq in Hi. rewrite indices_cons.
      transitivity (RSum (fun k' => if (k' =? k)%nat then (if leq (bidx sb beta) alpha then jb beta i k' j else 0) else 0) (seq 0 D)).
      + apply (Sum_ext_in R_csr). intros k' Hk'. apply in_seq in Hk'. rewrite indices_cons.
        transitivity (RSum (fun j' => if (j' =? j)%nat then (if (k' =? k)%nat then (if leq (bidx sb beta) alpha then jb beta i k' j' else 0) else 0) else 0) (seq 0 J)).
        * apply (Sum_ext_in R_csr). intros j' Hj'. apply in_seq in Hj'. rewrite indices_nil.
          rewrite BA, BB, RA, RB by (auto; lia). rewrite leq_app by (rewrite LB by (rewrite ?(inr_length Hbeta); lia); auto).
          rewrite !leq_cons. change (0 =? 0)%nat with true. rewrite leq_refl, !andb_true_r.
          rewrite S3, RL, LL. rewrite G with (k := k') by (auto; lia). unfold jb.
          destruct (leq (bidx sb beta) alpha), (j' =? j)%nat, (k' =? k)%nat; cbn [andb]; reflexivity.
        * exact (@pick (fun j' => if (k' =? k)%nat then (if leq (bidx sb beta) alpha then jb beta i k' j' else 0) else 0) J j Hj).
      + exact (@pick (fun k' => if leq (bidx sb beta) alpha then jb beta i k' j else 0) D k Hk).
  Qed.
End Vjp.

(** ** Sharding the gradient *)
Lemma nth_clear dims v l p d : (p < length l)%nat ->
  nth p (clear dims v l) d = if existsb (Nat.eqb p) dims then v else nth p l d.
Proof.
  intro H. unfold clear.
  rewrite nth_indep with (d' := (fun q : nat * nat => if existsb (Nat.eqb (fst q)) dims then v else snd q) (0%nat, d))
    by (rewrite map_length, combine_length, seq_length; lia).
  rewrite (map_nth (fun q : nat * nat => if existsb (Nat.eqb (fst q)) dims then v else snd q)).
  rewrite combine_nth by apply seq_length. cbn [fst snd]. rewrite seq_nth by auto. reflexivity.
Qed.
Lemma clear_length dims v l : length (clear dims v l) = length l.
Proof. unfold clear. rewrite map_length, combine_length, seq_length. lia. Qed.
Lemma in_ones sh p : existsb (Nat.eqb p) (ones sh) = ((p <? length sh - 1)%nat && (nth p sh 0 =? 1)%nat)%bool.
Proof.
  apply Bool.eq_iff_eq_true. rewrite existsb_exists, andb_true_iff, Nat.ltb_lt. unfold ones. split.
  - intros (q & Hq & E). apply Nat.eqb_eq in E. subst q. apply filter_In in Hq as [H1 H2]. apply in_seq in H1. split; [lia|auto].
  - intros [H1 H2]. exists p. split; [|apply Nat.eqb_refl]. apply filter_In. split; [apply in_seq; lia|auto].
Qed.
Lemma nth_bidx0 s x p d : (p < length s)%nat -> (p < length x)%nat -> nth p (bidx0 s x) d = if (nth p s 0 =? 1)%nat then 0%nat else nth p x d.
Proof.
  revert x p. induction s as [|u s IH]; intros [|v x] [|p]; cbn [length]; intros H1 H2; try lia; [reflexivity|].
  unfold bidx0. cbn [combine map nth]. apply (IH x p); lia.
Qed.
Lemma inr_nth sh x p : inr sh x -> (p < length sh)%nat -> (nth p x 0 < nth p sh 0)%nat.
Proof. intro H. revert p. induction H as [|i d x sh Hi _ IH]; intros [|p] Hp; simpl in *; try lia. apply IH; lia. Qed.
(** summing over the dimensions [ones] reports is summing over what [expand] repeated *)
Lemma clear_bidx0 sh big y : length big = length sh -> inr big y ->
  (forall p, (p < length sh)%nat -> nth p sh 0%nat <> 1%nat -> nth p sh 0%nat = nth p big 0%nat) ->
  (nth (length sh - 1) sh 0%nat = nth (length sh - 1) big 0%nat) ->
  clear (ones sh) 0 y = bidx0 sh y.
Proof.
  intros L Hy _ Hl. pose proof (inr_length Hy) as Ly.
  apply nth_ext with (d := 0%nat) (d' := 0%nat).
  - rewrite clear_length. unfold bidx0. rewrite map_length, combine_length. lia.
  - intros p Hp. rewrite clear_length in Hp. rewrite nth_clear by auto. rewrite nth_bidx0 by lia. rewrite in_ones.
    destruct (p <? length sh - 1)%nat eqn:E; cbn [andb]; [reflexivity|]. apply Nat.ltb_ge in E.
    assert (p = length sh - 1)%nat by lia. subst p. destruct (nth (length sh - 1) sh 0 =? 1)%nat eqn:E1; [|reflexivity].
    apply Nat.eqb_eq in E1. pose proof (@inr_nth _ _ (length sh - 1)%nat Hy ltac:(lia)). lia.
Qed.
Lemma clear_shape sh big : length big = length sh ->
  (forall p, (p < length sh)%nat -> nth p sh 0%nat <> 1%nat -> nth p sh 0%nat = nth p big 0%nat) ->
  (nth (length sh - 1) sh 0%nat = nth (length sh - 1) big 0%nat) ->
  clear (ones sh) 1 big = sh.
Proof.
  intros L H Hl. apply nth_ext with (d := 0%nat) (d' := 0%nat); rewrite clear_length; auto.
  intros p Hp. rewrite nth_clear by auto. rewrite in_ones.
  destruct (p <? length sh - 1)%nat eqn:E; cbn [andb].
  - destruct (nth p sh 0 =? 1)%nat eqn:E1; [apply Nat.eqb_eq in E1; lia|]. apply Nat.eqb_neq in E1. symmetry. apply H; auto. lia.
  - apply Nat.ltb_ge in E. assert (p = length sh - 1)%nat by lia. subst p. symmetry. exact Hl.
Qed.
Lemma bzip_nth s t u : bzip s t = Some u -> forall p, (p < length s)%nat ->
  (nth p s 0%nat <> 1%nat -> nth p s 0%nat = nth p u 0%nat) /\ (nth p t 0%nat <> 1%nat -> nth p t 0%nat = nth p u 0%nat).
Proof.
  revert t u. induction s as [|d s IH]; intros [|e t] u H; simpl in H; try discriminate.
  - intros p Hp. simpl in Hp. lia.
  - destruct (bdim d e) eqn:E1; [|discriminate]. destruct (bzip s t) eqn:E2; [|discriminate]. injection H as <-.
    intros [|p] Hp; [|simpl in *; apply (IH _ _ E2); lia]. cbn [nth]. unfold bdim in E1.
    destruct (d =? e)%nat eqn:F1; [apply Nat.eqb_eq in F1; injection E1 as <-; subst; auto|].
    destruct (d =? 1)%nat eqn:F2; [apply Nat.eqb_eq in F2; injection E1 as <-; subst; split; congruence|].
    destruct (e =? 1)%nat eqn:F3; [|discriminate]. apply Nat.eqb_eq in F3. injection E1 as <-. subst. split; congruence.
Qed.

(** ** equality of pairs of gradients *)
Definition preseq (s t : res (tensor R * tensor R)) : Prop :=
  match s, t with Ok (x, y), Ok (x', y') => teq x x' /\ teq y y' | Err e, Err e' => e = e' | _, _ => False end.

Lemma slice_std p q (t : tensor R) n sh : shape t = n :: sh ->
  shape (tslice std_ops p q t) = (Nat.min q n - p)%nat :: sh /\ forall i idx, dat (tslice std_ops p q t) (i :: idx) = dat t ((p + i)%nat :: idx).
Proof. destruct t as [s d]. cbn [shape]. intros ->. split; reflexivity. Qed.

Lemma tadd_spec p q (ret v : tensor R) n sh : shape ret = n :: sh -> shape v = (Nat.min q n - p)%nat :: sh ->
  exists t, tadd_slice p q ret v = Ok t /\ shape t = n :: sh /\ forall i idx,
    dat t (i :: idx) = if ((p <=? i) && (i <? q))%nat%bool then dat ret (i :: idx) + dat v ((i - p)%nat :: idx) else dat ret (i :: idx).
Proof.
  intros H1 H2. unfold tadd_slice. rewrite H1, H2, Nat.eqb_refl, leq_refl. cbn [andb]. eexists. split; [reflexivity|]. cbn [shape dat]. auto.
Qed.

Lemma view_std sh (t : tensor R) : prodl sh = prodl (shape t) ->
  tview std_ops sh t = Ok ({| shape := sh; dat := fun idx => dat t (unflat (shape t) (flat sh idx)) |} : tensor R).
Proof. destruct t as [s d]. unfold tview. cbn [shape dat]. intros ->. now rewrite Nat.eqb_refl. Qed.

Section Sharded.
  Variable O : ops.
  Notation A := (car O).
  Variable lw : list A -> nat -> R.
  Variables ma mb : A -> A -> R.
  Variables (sa sb sc : list nat) (I D J : nat) (a b : tensor A) (g : tensor R).
  Hypothesis Ha : shape a = sa ++ [I; D].
  Hypothesis Hb : shape b = sb ++ [D; J].
  Hypothesis Hc : bzip sa sb = Some sc.
  Hypothesis Hg : shape g = sc ++ [I; J].
  Hypothesis PI : (0 < I)%nat.
  Hypothesis PD : (0 < D)%nat.
  Hypothesis PJ : (0 < J)%nat.
  Notation GA := (fun m i k => RSum (fun j => ja O lw ma sa sb D a b g (unflat sc m) i k j) (seq 0 J)).
  Notation GB := (fun m k j => RSum (fun i => jb O lw mb sa sb D a b g (unflat sc m) i k j) (seq 0 I)).

  Lemma unloop_spec step (a2 b2 : tensor A) (g2 : tensor R) :
    shape a2 = [prodl sc; I; D] -> shape b2 = [prodl sc; D; J] -> shape g2 = [prodl sc; I; J] ->
    (forall m i k, (m < prodl sc)%nat -> (i < I)%nat -> (k < D)%nat -> dat a2 [m; i; k] = dat a (bidx sa (unflat sc m) ++ [i; k])) ->
    (forall m k j, (m < prodl sc)%nat -> (k < D)%nat -> (j < J)%nat -> dat b2 [m; k; j] = dat b (bidx sb (unflat sc m) ++ [k; j])) ->
    (forall m i j, (m < prodl sc)%nat -> (i < I)%nat -> (j < J)%nat -> dat g2 [m; i; j] = dat g (unflat sc m ++ [i; j])) ->
    forall rounds p ra rb, shape ra = [prodl sc; I; D] -> shape rb = [prodl sc; D; J] ->
    (forall m i k, (m < prodl sc)%nat -> (i < I)%nat -> (k < D)%nat -> dat ra [m; i; k] = if (m <? p)%nat then GA m i k else 0) ->
    (forall m k j, (m < prodl sc)%nat -> (k < D)%nat -> (j < J)%nat -> dat rb [m; k; j] = if (m <? p)%nat then GB m k j else 0) ->
    exists ra' rb', unshard_loop O (tmatmul_vjp O lw ma mb) rounds p step a2 b2 g2 ra rb = Ok (ra', rb') /\
      shape ra' = [prodl sc; I; D] /\ shape rb' = [prodl sc; D; J] /\
      (forall m i k, (m < prodl sc)%nat -> (i < I)%nat -> (k < D)%nat -> dat ra' [m; i; k] = if (m <? p + rounds * step)%nat then GA m i k else 0) /\
      (forall m k j, (m < prodl sc)%nat -> (k < D)%nat -> (j < J)%nat -> dat rb' [m; k; j] = if (m <? p + rounds * step)%nat then GB m k j else 0).
  Proof.
    intros Sa Sb Sg Da Db Dg. induction rounds as [|r IH]; intros p ra rb Sra Srb Dra Drb; cbn [unshard_loop].
    - exists ra, rb. rewrite Nat.mul_0_l, Nat.add_0_r. auto.
    - set (n := prodl sc) in *. set (w := (Nat.min (p + step) n - p)%nat).
      assert (S1 : shape (tslice O p (p + step) a2) = [w] ++ [I; D]) by (unfold tslice; rewrite Sa; reflexivity).
      assert (S2 : shape (tslice O p (p + step) b2) = [w] ++ [D; J]) by (unfold tslice; rewrite Sb; reflexivity).
      assert (S3 : bshape [w] [w] = Some [w]) by (rewrite bshape_same by auto; simpl; now rewrite bdim_refl).
      assert (S4 : shape (tslice std_ops p (p + step) g2) = [w] ++ [I; J]) by apply (slice_std p (p + step) g2 Sg).
      destruct (@tmatmul_vjp_spec O lw ma mb [w] [w] [w] I D J _ _ _ S1 S2 S3 S4) as (va & vb & E & Sva & Svb & Dva & Dvb).
      change (exists ra' rb', bind (tmatmul_vjp O lw ma mb (tslice O p (p + step) a2) (tslice O p (p + step) b2) (tslice std_ops p (p + step) g2)) (fun ab =>
          bind (tadd_slice p (p + step) ra (fst ab)) (fun ra =>
          bind (tadd_slice p (p + step) rb (snd ab)) (fun rb =>
          unshard_loop O (tmatmul_vjp O lw ma mb) r (p + step) step a2 b2 g2 ra rb))) = Ok (ra', rb') /\
        shape ra' = [n; I; D] /\ shape rb' = [n; D; J] /\
        (forall m i k, (m < n)%nat -> (i < I)%nat -> (k < D)%nat -> dat ra' [m; i; k] = if (m <? p + S r * step)%nat then GA m i k else 0) /\
        (forall m k j, (m < n)%nat -> (k < D)%nat -> (j < J)%nat -> dat rb' [m; k; j] = if (m <? p + S r * step)%nat then GB m k j else 0)).
      rewrite E. cbn [bind fst snd]. rewrite S1 in Sva. rewrite S2 in Svb.
      destruct (@tadd_spec p (p + step) ra va n [I; D] Sra Sva) as (ra1 & -> & Sra1 & Dra1).
      destruct (@tadd_spec p (p + step) rb vb n [D; J] Srb Svb) as (rb1 & E2 & Srb1 & Drb1). cbn [bind].
      rewrite E2. cbn [bind].
      assert (B : forall x, (x < w)%nat -> bidx [w] [x] = [x]) by (intros x Hx; unfold bidx, bidx0; simpl; rewrite bcell by lia; reflexivity).
      assert (W : forall (f : list nat -> R) x, (x < w)%nat ->
        RSum (fun beta => if leq (bidx [w] beta) [x] then f beta else 0) (indices [w]) = f [x]).
      { intros f x Hx. rewrite indices_cons. rewrite <- (@pick (fun x => f [x]) w x Hx).
        apply (Sum_ext_in R_csr). intros y Hy. apply in_seq in Hy. rewrite indices_nil, B, leq_cons, leq_refl, andb_true_r by lia. reflexivity. }
      assert (RW : forall x i j, (x < w)%nat -> (i < I)%nat -> (j < J)%nat ->
        row O [w] [w] D (tslice O p (p + step) a2) (tslice O p (p + step) b2) [x] i j = row O sa sb D a b (unflat sc (p + x)) i j).
      { intros x i j Hx Hi Hj. unfold row. apply map_ext_in. intros k Hk. apply in_seq in Hk. rewrite B by auto.
        unfold tslice. rewrite Sa, Sb. cbn [app dat]. rewrite Da, Db by lia. reflexivity. }
      assert (VA : forall m i k, (p <= m)%nat -> (m < p + step)%nat -> (m < n)%nat -> (i < I)%nat -> (k < D)%nat -> dat va [(m - p)%nat; i; k] = GA m i k).
      { intros m i k H1 H2 H3 Hi Hk. change [(m - p)%nat; i; k] with ([(m - p)%nat] ++ [i; k]). rewrite Dva by auto.
        rewrite (@W (fun beta => RSum (fun j => ja O lw ma [w] [w] D (tslice O p (p + step) a2) (tslice O p (p + step) b2)
          (tslice std_ops p (p + step) g2) beta i k j) (seq 0 J))) by lia.
        apply (Sum_ext_in R_csr). intros j Hj. apply in_seq in Hj. unfold ja. rewrite RW by lia. rewrite B by lia.
        cbn [app]. rewrite (proj2 (slice_std p (p + step) g2 Sg)). unfold tslice. rewrite Sa, Sb. cbn [app dat]. replace (p + (m - p))%nat with m by lia. rewrite Da, Db, Dg by lia. reflexivity. }
      assert (VB : forall m k j, (p <= m)%nat -> (m < p + step)%nat -> (m < n)%nat -> (k < D)%nat -> (j < J)%nat -> dat vb [(m - p)%nat; k; j] = GB m k j).
      { intros m k j H1 H2 H3 Hk Hj. change [(m - p)%nat; k; j] with ([(m - p)%nat] ++ [k; j]). rewrite Dvb by auto.
        rewrite (@W (fun beta => RSum (fun i => jb O lw mb [w] [w] D (tslice O p (p + step) a2) (tslice O p (p + step) b2)
          (tslice std_ops p (p + step) g2) beta i k j) (seq 0 I))) by lia.
        apply (Sum_ext_in R_csr). intros i Hi. apply in_seq in Hi. unfold jb. rewrite RW by lia. rewrite B by lia.
        cbn [app]. rewrite (proj2 (slice_std p (p + step) g2 Sg)). unfold tslice. rewrite Sa, Sb. cbn [app dat]. replace (p + (m - p))%nat with m by lia. rewrite Da, Db, Dg by lia. reflexivity. }
      destruct (IH (p + step)%nat ra1 rb1 Sra1 Srb1) as (ra' & rb' & E' & H1 & H2 & H3 & H4).
      + intros m i k Hm Hi Hk. rewrite Dra1, Dra by auto.
        destruct (p <=? m)%nat eqn:E1, (m <? p + step)%nat eqn:E3, (m <? p)%nat eqn:E4; cbn [andb];
          rewrite ?Nat.leb_le, ?Nat.leb_gt, ?Nat.ltb_lt, ?Nat.ltb_ge in *; try lia; try reflexivity.
        rewrite VA by auto. apply Rplus_0_l.
      + intros m k j Hm Hk Hj. rewrite Drb1, Drb by auto.
        destruct (p <=? m)%nat eqn:E1, (m <? p + step)%nat eqn:E3, (m <? p)%nat eqn:E4; cbn [andb];
          rewrite ?Nat.leb_le, ?Nat.leb_gt, ?Nat.ltb_lt, ?Nat.ltb_ge in *; try lia; try reflexivity.
        rewrite VB by auto. apply Rplus_0_l.
      + exists ra', rb'. replace (p + S r * step)%nat with (p + step + r * step)%nat by lia. auto.
  Qed.

  Hypothesis Na : ones (shape a) <> [].
  Hypothesis Nb : ones (shape b) <> [].

  (** the final views and sums *)
  Lemma fold_back s X Y (r : tensor R) (f : list nat -> nat -> nat -> R) : length s = length sc ->
    (forall p, (p < length s)%nat -> nth p s 0%nat <> 1%nat -> nth p s 0%nat = nth p sc 0%nat) ->
    (0 < X)%nat -> (0 < Y)%nat -> ones (s ++ [X; Y]) <> [] ->
    shape r = [prodl sc; X; Y] -> (forall m x y, (m < prodl sc)%nat -> (x < X)%nat -> (y < Y)%nat -> dat r [m; x; y] = f (unflat sc m) x y) ->
    exists v, tview std_ops (sc ++ [X; Y]) r = Ok v /\ shape (tsum_keep (ones (s ++ [X; Y])) v) = s ++ [X; Y] /\
      forall alpha x y, length alpha = length s -> (x < X)%nat -> (y < Y)%nat ->
        dat (tsum_keep (ones (s ++ [X; Y])) v) (alpha ++ [x; y]) =
        RSum (fun beta => if leq (bidx s beta) alpha then f beta x y else 0) (indices sc).
  Proof.
    intros L Hs HX HY Hn Sr Dr.
    eexists. split; [apply view_std; rewrite Sr, prodl_app; cbn [prodl fold_right]; fold (prodl sc); lia|].
    unfold tsum_keep. cbn [shape dat]. rewrite Sr.
    destruct (ones (s ++ [X; Y])) as [|o1 os] eqn:Eo; [congruence|]. rewrite <- Eo.
    assert (C1 : forall p, (p < length (s ++ [X; Y]))%nat -> nth p (s ++ [X; Y]) 0%nat <> 1%nat ->
      nth p (s ++ [X; Y]) 0%nat = nth p (sc ++ [X; Y]) 0%nat).
    { intros p Hp. rewrite app_length in Hp. simpl in Hp. destruct (Nat.lt_ge_cases p (length s)) as [H|H].
      - rewrite !app_nth1 by lia. now apply Hs.
      - rewrite !app_nth2 by lia. now rewrite L. }
    assert (C2 : nth (length (s ++ [X; Y]) - 1) (s ++ [X; Y]) 0%nat = nth (length (s ++ [X; Y]) - 1) (sc ++ [X; Y]) 0%nat).
    { rewrite app_length. simpl length. rewrite !app_nth2 by lia. now rewrite L. }
    assert (C0 : length (sc ++ [X; Y]) = length (s ++ [X; Y])) by (rewrite !app_length; lia).
    split; [apply clear_shape; auto|].
    intros alpha x y La Hx Hy. unfold scatter. rewrite indices_app. apply (Sum_ext_in R_csr). intros beta Hbeta. apply indices_inr in Hbeta.
    transitivity (RSum (fun x' => if (x' =? x)%nat then (if leq (bidx s beta) alpha then f beta x' y else 0) else 0) (seq 0 X));
      [|exact (@pick (fun x' => if leq (bidx s beta) alpha then f beta x' y else 0) X x Hx)].
    rewrite indices_cons. apply (Sum_ext_in R_csr). intros x' Hx'. apply in_seq in Hx'.
    transitivity (RSum (fun y' => if (y' =? y)%nat then (if (x' =? x)%nat then (if leq (bidx s beta) alpha then f beta x' y' else 0) else 0) else 0) (seq 0 Y));
      [|exact (@pick (fun y' => if (x' =? x)%nat then (if leq (bidx s beta) alpha then f beta x' y' else 0) else 0) Y y Hy)].
    rewrite indices_cons. apply (Sum_ext_in R_csr). intros y' Hy'. apply in_seq in Hy'. rewrite indices_nil.
    assert (In1 : inr (sc ++ [X; Y]) (beta ++ [x'; y'])) by (apply inr_app; [auto|repeat constructor; lia]).
    rewrite (@clear_bidx0 (s ++ [X; Y]) (sc ++ [X; Y])) by auto.
    assert (Lb : length beta = length s) by (rewrite (inr_length Hbeta); lia).
    rewrite bidx0_app by lia. 
    replace (bidx0 s beta) with (bidx s beta) by (unfold bidx; rewrite Lb, Nat.sub_diag; reflexivity).
    replace (bidx0 [X; Y] [x'; y']) with [x'; y'] by (unfold bidx0; simpl; rewrite !bcell by lia; reflexivity).
    rewrite leq_app by (unfold bidx, bidx0; rewrite map_length, combine_length, skipn_length; lia).
    rewrite !leq_cons, leq_refl, andb_true_r.
    rewrite view_back by (auto; lia). rewrite Dr by (try apply flat_lt; auto; lia). rewrite unflat_flat by auto.
    destruct (leq (bidx s beta) alpha), (x' =? x)%nat, (y' =? y)%nat; cbn [andb]; reflexivity.
  Qed.

  Theorem unaccumulate_spec max_size :
    preseq (shard_backward O (tmatmul_vjp O lw ma mb) max_size a b g) (tmatmul_vjp O lw ma mb a b g).
  Proof.
    assert (L := bzip_length _ _ Hc). destruct L as [L1 L2].
    destruct (dims_app sa I D) as (A1 & A2 & A3). destruct (dims_app sb D J) as (B1 & B2 & B3).
    assert (Hc' : bshape sa sb = Some sc) by (rewrite bshape_same by lia; auto).
    destruct (@tmatmul_vjp_spec O lw ma mb sa sb sc I D J _ _ _ Ha Hb Hc' Hg) as (ga & gb & Ec & Sga & Sgb & Dga & Dgb).
    unfold shard_backward. rewrite Ha, Hb, A3, B2. set (step := (max_size / (D * D) + 2)%nat). unfold unaccumulate.
    destruct (prodl (shape g) <? step)%nat; [rewrite Ec; split; split; auto|].
    rewrite Ha, Hb, Hg, A2, A3, B2, B3. destruct (dims_app sc I J) as (C1 & _ & _). unfold batch_dims in C1. rewrite C1.
    destruct (bzip_expand _ _ Hc) as [X1 X2].
    assert (Cmb : forall s x y, length s = length sc -> combine (s ++ [x; y]) (sc ++ [x; y]) = combine s sc ++ [(x, x); (y, y)]).
    { clear. intros s x y. revert sc. induction s as [|d s IH]; intros [|e u] E; simpl in *; try discriminate; auto. f_equal. auto. }
    unfold texpand at 1. rewrite Ha, !app_length, L1, Nat.eqb_refl, Cmb, forallb_app, X1 by auto. simpl. rewrite !Nat.eqb_refl. simpl.
    unfold texpand at 1. rewrite Hb, !app_length, L2, Nat.eqb_refl, Cmb, forallb_app, X2 by auto. simpl. rewrite !Nat.eqb_refl. simpl.
    change (infer std_ops g I J) with (prodl (shape g) / (I * J))%nat. rewrite Hg.
    unfold infer. cbn [shape]. rewrite !prodl_app. cbn [prodl fold_right]. rewrite !Nat.mul_1_r, !Nat.div_mul by nia.
    fold (prodl sc). unfold tview at 1. cbn [shape dat]. rewrite prodl_app. cbn [prodl fold_right]. rewrite !Nat.mul_1_r.
    fold (prodl sc). rewrite Nat.eqb_refl. cbn [bind].
    unfold tview at 1. cbn [shape dat]. rewrite prodl_app. cbn [prodl fold_right]. rewrite !Nat.mul_1_r.
    fold (prodl sc). rewrite Nat.eqb_refl. cbn [bind].
    rewrite (@view_std [prodl sc; I; J] g) by (rewrite Hg, prodl_app; reflexivity). rewrite Hg. cbn [bind hd shape].
    match goal with |- context [unshard_loop _ _ ?n 0 _ ?x ?y ?z ?u ?v] =>
      destruct (@unloop_spec step x y z eq_refl eq_refl eq_refl) with (rounds := n) (p := 0%nat) (ra := u) (rb := v) as (ra & rb & -> & Sra & Srb & Dra & Drb) end.
    - cbn [dat]. intros m i k Hm Hi Hk. rewrite view_batch by auto. f_equal. rewrite bidx_app.
      + f_equal. unfold bidx0. simpl. now rewrite !bcell.
      + rewrite (inr_length (inr_unflat _ Hm)). lia.
      + reflexivity.
    - cbn [dat]. intros m k j Hm Hk Hj. rewrite view_batch by auto. f_equal. rewrite bidx_app.
      + f_equal. unfold bidx0. simpl. now rewrite !bcell.
      + rewrite (inr_length (inr_unflat _ Hm)). lia.
      + reflexivity.
    - cbn [dat]. intros m i j Hm Hi Hj. rewrite view_batch by auto. reflexivity.
    - reflexivity.
    - reflexivity.
    - intros. reflexivity.
    - intros. reflexivity.
    - cbn [bind fst snd].
      assert (Full : forall m, (m < prodl sc)%nat -> (m <? 0 + (prodl sc + step - 1) / step * step)%nat = true).
      { intros m Hm. apply Nat.ltb_lt. assert (St : step <> 0%nat) by (unfold step; lia).
        pose proof (Nat.mul_succ_div_gt (prodl sc + step - 1) step St). nia. }
      pose proof (bzip_nth _ _ Hc) as HN.
      destruct (@fold_back sa I D ra (fun beta i k => RSum (fun j => ja O lw ma sa sb D a b g beta i k j) (seq 0 J))) as (va & -> & S1 & D1); auto.
      { intros p Hp. now apply HN. }
      { now rewrite <- Ha. }
      { intros m x y Hm Hx Hy. rewrite Dra, Full by auto. reflexivity. }
      destruct (@fold_back sb D J rb (fun beta k j => RSum (fun i => jb O lw mb sa sb D a b g beta i k j) (seq 0 I))) as (vb & -> & S2 & D2); auto.
      { intros p Hp. apply HN. lia. }
      { now rewrite <- Hb. }
      { intros m x y Hm Hx Hy. rewrite Drb, Full by auto. reflexivity. }
      cbn [bind]. rewrite Ec. cbn [preseq]. split; split.
      + rewrite S1, Sga. auto.
      + rewrite S1. intros idx Hidx. apply inr_app_inv in Hidx as (beta & ij & -> & Hbeta & Hij).
        inversion Hij as [|i ? ij' ? Hi Hij']; subst. inversion Hij' as [|j ? ij'' ? Hj Hij'']; subst. inversion Hij''; subst.
        pose proof (inr_length Hbeta). rewrite D1, Dga by auto. reflexivity.
      + rewrite S2, Sgb. auto.
      + rewrite S2. intros idx Hidx. apply inr_app_inv in Hidx as (beta & ij & -> & Hbeta & Hij).
        inversion Hij as [|i ? ij' ? Hi Hij']; subst. inversion Hij' as [|j ? ij'' ? Hj Hij'']; subst. inversion Hij''; subst.
        pose proof (inr_length Hbeta). rewrite D2, Dgb by auto. reflexivity.
  Qed.
End Sharded.
