(** * C63: the straight-through gradient of [gumbel_crf]. *)
From Coq Require Import FunctionalExtensionality.
From Verif Require Import Base Ops Terms Semirings Poly Chain LinearChain SemiMarkov CkyCrf Cky DepSpec DepTree
  Batch Family Approx Grad Sample Dist Purity Degree Shape Api Query Learn Train Gumbel P_Gumbel Straight Round.
Set Implicit Arguments.
Local Open Scope R_scope.

Lemma mapi_seq (f : nat -> term -> R) l : forall i,
  ksum R_csr (mapi f i l) = RSum (fun j => f (i + j)%nat (nth j l TZero)) (seq 0 (length l)).
Proof.
  induction l as [|t l IH]; intro i; [reflexivity|]. cbn [mapi length seq]. rewrite ksum_cons, IH, RSum_cons. cbn [nth].
  rewrite Nat.add_0_r. rewrite <- seq_shift, RSum_map. apply (f_equal (Rplus (f i t))). apply (Sum_ext R_csr).
  intro j. cbn [nth]. f_equal. lia.
Qed.
Lemma mapi_seq0 (f : nat -> term -> R) l : ksum R_csr (mapi f 0 l) = RSum (fun j => f j (nth j l TZero)) (seq 0 (length l)).
Proof. apply mapi_seq. Qed.
Lemma RSum_at (f : nat -> R) n k : (k < n)%nat -> RSum (fun i => (if (i =? k)%nat then 1 else 0) * f i) (seq 0 n) = f k.
Proof.
  intro H. etransitivity; [|exact (Sum_seq_delta R_csr f H)]. apply (Sum_ext R_csr). intro i.
  destruct (i =? k)%nat; simpl; ring.
Qed.
Lemma mapi_nth_get A (f : nat -> term -> A) l d : forall i k, (k < length l)%nat -> nth k (mapi f i l) d = f (i + k)%nat (nth k l TZero).
Proof.
  induction l as [|t l IH]; intros i k H; cbn [length] in H; [lia|]. destruct k as [|k]; cbn [mapi nth]; [now rewrite Nat.add_0_r|].
  rewrite IH by lia. f_equal. lia.
Qed.

Section Formula.
  Variables (am : list R -> nat) (temp : R) (g : path -> nat -> R) (phi om dir : list nat -> R).
  Hypothesis Ham : index_of am.
  Let o := taken am temp g phi.
  Lemma taken_lt p l : l <> [] -> (o p l < length l)%nat.
  Proof.
    intro H. unfold o, taken. pose proof (@Ham (gum_logits temp g phi p l)) as K. rewrite gum_len in K. apply K.
    intro E. apply H. apply length_zero_iff_nil. now rewrite <- (gum_len temp g phi p l), E.
  Qed.

  (** one row: Jacobian of the softmax, restricted to the entry that was taken *)
  Lemma st_back_at v grad i : v <> [] -> st_back am v grad i =
    soft_l v (am v) * grad (am v) * ((if (i =? am v)%nat then 1 else 0) - soft_l v i).
  Proof.
    intro H. unfold st_back. rewrite (Sum_ext R_csr _ (fun j => (if (j =? am v)%nat then 1 else 0) *
       (soft_l v j * grad j * ((if (j =? i)%nat then 1 else 0) - soft_l v i)))) by (intro; ring).
    rewrite RSum_at by now apply Ham. rewrite (Nat.eqb_sym (am v) i). reflexivity.
  Qed.

  Lemma cot_drawn t : twf t -> forall p, st_cot am temp g phi om p t = dweight om (drawn o p t).
  Proof.
    induction t as [e|e| | |l IH|a b IHa IHb] using term_ind'; intros W p; cbn [st_cot drawn];
      try (unfold dweight, Sum; cbn; ring).
    - inversion_clear W as [| | | |? Hn Hf|]. rewrite mapi_seq0. unfold w_gum.
      pose proof (@taken_lt p l Hn) as Hk.
      etransitivity; [exact (@RSum_at (fun i => st_cot am temp g phi om (i :: p) (nth i l TZero)) (length l) (o p l) Hk)|].
      rewrite (mapi_nth_get _ _ _ 0 Hk). rewrite Forall_forall in IH, Hf.
      apply IH; [|apply Hf]; now apply nth_In.
    - inversion_clear W. rewrite IHa, IHb by auto. unfold dweight. now rewrite RSum_app.
  Qed.

  Variable (w2 : rule).
  Variable ids : list (list nat).
  Hypothesis Hids : NoDup ids.
  (** the gradient of the second pass along [dir], at child i of a sum node *)
  Definition below (p : path) (t : term) : R := RSum (fun e => dir e * bp w2 p t 1 e) ids.
  (** spec: derivative of the temperature softmax at a sum *)
  Definition slope (v : path * list term) : R :=
    let pi := soft_l (gum_logits temp g phi (fst v) (snd v)) in
    let D i := below (i :: fst v) (nth i (snd v) TZero) in
    let k := o (fst v) (snd v) in
    pi k * (D k - RSum (fun i => pi i * D i) (seq 0 (length (snd v)))) / temp.

  Theorem grad_formula t : twf t -> forall p adj,
    RSum (fun e => dir e * st_grad am temp g phi om w2 p t adj e) ids =
    adj * RSum (fun v => dweight om (drawn o (fst v) (TSum (snd v))) * slope v) (visits o p t).
  Proof.
    induction t as [e|e| | |l IH|a b IHa IHb] using term_ind'; intros W p adj; cbn [st_grad visits].
    1-4: (rewrite (Sum_ext R_csr _ (fun _ => 0)) by (intro; simpl; ring); rewrite RSum_const; change (RSum _ []) with 0; ring).
    - inversion_clear W as [| | | |? Hn Hf|]. pose proof (@taken_lt p l Hn) as Hk. rewrite Forall_forall in IH, Hf.
      set (v := gum_logits temp g phi p l).
      assert (Hv : v <> []). { intro E. apply Hn, length_zero_iff_nil. rewrite <- (gum_len temp g phi p l). fold v. now rewrite E. }
      rewrite (Sum_ext R_csr _ (fun e => RSum (fun i => dir e * st_grad am temp g phi om w2 (i :: p) (nth i l TZero) (adj * w_gum am temp g phi p l i) e +
           dir e * bp w2 (i :: p) (nth i l TZero) (st_back am v (fun j => adj * st_cot am temp g phi om (j :: p) (nth j l TZero)) i / temp) e)
           (seq 0 (length l)))).
      2:{ intro e. rewrite mapi_seq0. rewrite <- RSum_scal. apply (Sum_ext R_csr). intro i. fold v. ring. }
      rewrite (Sum_comm R_csr).
      rewrite (Sum_ext_in R_csr _ (fun i => (if (i =? o p l)%nat then 1 else 0) *
          (adj * RSum (fun v => dweight om (drawn o (fst v) (TSum (snd v))) * slope v) (visits o (i :: p) (nth i l TZero))) +
          adj * (soft_l v (o p l) * dweight om (drawn o (o p l :: p) (nth (o p l) l TZero)) / temp) *
            ((if (i =? o p l)%nat then 1 else 0) * below (i :: p) (nth i l TZero) - soft_l v i * below (i :: p) (nth i l TZero)))).
      2:{ intros i Hi. apply in_seq in Hi. assert (Hin : In (nth i l TZero) l) by (apply nth_In; lia).
          rewrite RSum_add, (IH _ Hin (Hf _ Hin)). unfold w_gum. fold v. change (am v) with (o p l).
          rewrite (Sum_ext R_csr _ (fun e => (st_back am v (fun j => adj * st_cot am temp g phi om (j :: p) (nth j l TZero)) i / temp) * (dir e * bp w2 (i :: p) (nth i l TZero) 1 e))).
          2:{ intro e. rewrite bp_scale. ring. }
          rewrite RSum_scal. fold (below (i :: p) (nth i l TZero)). rewrite st_back_at by auto. change (am v) with (o p l).
          rewrite cot_drawn by (apply Hf, nth_In, Hk). destruct (i =? o p l)%nat; simpl; unfold Rdiv; ring. }
      rewrite RSum_add. rewrite (RSum_at (fun i => adj * RSum (fun v => dweight om (drawn o (fst v) (TSum (snd v))) * slope v) (visits o (i :: p) (nth i l TZero))) Hk).
      rewrite RSum_scal, RSum_sub, (RSum_at (fun i => below (i :: p) (nth i l TZero)) Hk).
      rewrite RSum_cons. rewrite (mapi_nth_get _ _ _ 0 Hk). cbn [fst snd plus].
      replace (drawn o p (TSum l)) with (drawn o (o p l :: p) (nth (o p l) l TZero)).
      2:{ cbn [drawn]. now rewrite (mapi_nth_get _ _ _ 0 Hk). }
      unfold slope at 2. cbn [fst snd]. fold v. unfold Rdiv. ring.
    - inversion_clear W as [| | | | |? ? Wa Wb]. rewrite RSum_app.
      rewrite (Sum_ext R_csr _ (fun e => dir e * st_grad am temp g phi om w2 (0%nat :: p) a adj e + dir e * st_grad am temp g phi om w2 (1%nat :: p) b adj e)) by (intro; simpl; ring).
      rewrite RSum_add, IHa, IHb by auto. ring.
  Qed.
End Formula.

(** sum nodes of the drawn derivation inherit what holds of all subgraphs *)
Lemma visits_sub (Q : term -> Prop) (o : path -> list term -> nat) :
  (forall l, Q (TSum l) -> Forall Q l) -> (forall a b, Q (TMul a b) -> Q a /\ Q b) ->
  forall t p v, Q t -> In v (visits o p t) -> Q (TSum (snd v)).
Proof.
  intros HS HM. induction t as [e|e| | |l IH|a b IHa IHb] using term_ind'; intros p v Ht Hv; cbn [visits] in Hv; try (destruct Hv; fail).
  - destruct Hv as [<-|Hv]; [exact Ht|]. apply HS in Ht. rewrite Forall_forall in IH, Ht.
    destruct (Nat.lt_ge_cases (o p l) (length l)) as [Hk|Hk].
    + rewrite (mapi_nth_get _ _ _ 0 Hk) in Hv. assert (Hin : In (nth (o p l) l TZero) l) by now apply nth_In. eapply IH; eauto.
    + rewrite nth_overflow in Hv by now rewrite mapi_length. destruct Hv.
  - apply HM in Ht as [Ha Hb]. apply in_app_or in Hv as [Hv|Hv]; eauto.
Qed.
Lemma sub_good P (o : path -> list term -> nat) t p v : twf t -> inrow P t -> In v (visits o p t) ->
  twf (TSum (snd v)) /\ inrow P (TSum (snd v)).
Proof.
  intros W I. apply (@visits_sub (fun t => twf t /\ inrow P t)); auto.
  - intros l [W' I']. inversion_clear W' as [| | | |? Hn Hf|]. apply inrow_sum_inv in I'.
    rewrite Forall_forall in *. auto.
  - intros a b [W' I']. inversion_clear W' as [| | | | |? ? Wa Wb]. apply inrow_mul_inv in I' as [Ia Ib]; auto.
Qed.

Lemma drawn_in (o : path -> list term -> nat) t : (forall p l, l <> [] -> (o p l < length l)%nat) -> twf t -> forall p, In (drawn o p t) (expand t).
Proof.
  intro Ho. induction t as [e|e| | |l IH|a b IHa IHb] using term_ind'; intros W p; cbn [drawn expand]; try (left; reflexivity).
  - inversion_clear W as [| | | |? Hn Hf|]. rewrite Forall_forall in IH, Hf. pose proof (Ho p l Hn) as Hk.
    rewrite (mapi_nth_get _ _ _ 0 Hk). apply in_flat_map. exists (nth (o p l) l TZero). split; [now apply nth_In|].
    apply IH; [|apply Hf]; now apply nth_In.
  - inversion_clear W. unfold prods. apply in_flat_map. eexists. split; [apply IHa; auto|]. apply in_map, IHb; auto.
Qed.

(** what a backward pass adds up along a direction *)
Lemma dir_cnt dir ids m : NoDup ids -> incl (names m) ids -> RSum (fun e => dir e * cnt e m) ids = dweight dir m.
Proof.
  intros Hn. induction m as [|a m IH]; intro Hi.
  - unfold dweight. rewrite (Sum_ext R_csr _ (fun _ => 0)) by (intro; unfold cnt, Sum; cbn; ring). rewrite RSum_const. change (RSum _ []) with 0. ring.
  - unfold dweight. rewrite RSum_cons. fold (dweight dir m).
    rewrite (Sum_ext R_csr _ (fun e => dir e * acount e a + dir e * cnt e m)) by (intro; unfold cnt; rewrite RSum_cons; simpl; ring).
    rewrite RSum_add, IH by (intros x Hx; apply Hi; unfold names; cbn [flat_map]; apply in_or_app; now right).
    f_equal. assert (G : forall e0, In e0 ids -> RSum (fun e => dir e * (if list_eq_dec Nat.eq_dec e e0 then 1 else 0)) ids = dir e0).
    { intros e0 He0. rewrite (@RSum_only _ _ ids e0 Hn He0).
      - destruct (list_eq_dec Nat.eq_dec e0 e0); [ring|congruence].
      - intros y _ Hy. destruct (list_eq_dec Nat.eq_dec y e0); [congruence|ring]. }
    destruct a as [e0|e0|]; cbn [acount].
    + apply G, Hi. now left.
    + apply G, Hi. now left.
    + rewrite (Sum_ext R_csr _ (fun _ => 0)) by (intro; simpl; ring). rewrite RSum_const. ring.
Qed.
Lemma bp_drawn am temp g phi t : index_of am -> twf t -> forall p e, bp (w_gum am temp g phi) p t 1 e = cnt e (drawn (taken am temp g phi) p t).
Proof.
  intro Ham. induction t as [e'|e'| | |l IH|a b IHa IHb] using term_ind'; intros W p e; cbn [bp drawn];
    try (unfold cnt, Sum; cbn; try ring; destruct (list_eq_dec Nat.eq_dec e e'); ring).
  - inversion_clear W as [| | | |? Hn Hf|]. rewrite mapi_seq0. unfold w_gum at 2.
    pose proof (@taken_lt am temp g phi Ham p l Hn) as Hk. rewrite Forall_forall in IH, Hf.
    rewrite (Sum_ext R_csr _ (fun i => (if (i =? am (gum_logits temp g phi p l))%nat then 1 else 0) * bp (w_gum am temp g phi) (i :: p) (nth i l TZero) 1 e)).
    2:{ intro i. rewrite bp_scale. ring. }
    rewrite RSum_at by exact Hk. rewrite (mapi_nth_get _ _ _ 0 Hk). apply IH; [|apply Hf]; now apply nth_In.
  - inversion_clear W. rewrite IHa, IHb by auto. now rewrite cnt_app.
Qed.

Lemma st_absent am temp g phi om w2 P t e : twf t -> inrow P t -> ~ P e -> forall p adj, st_grad am temp g phi om w2 p t adj e = 0.
Proof.
  induction t as [e'|e'| | |l IH|a b IHa IHb] using term_ind'; intros W I N p adj; cbn [st_grad]; auto.
  - inversion_clear W as [| | | |? Hn Hf|]. apply inrow_sum_inv in I. rewrite Forall_forall in IH, Hf, I.
    apply ksum_mapi_zero. intros j s Hs. rewrite IH by auto. rewrite (@bp_absent w2 P s e (Hf s Hs) (I s Hs) N). ring.
  - inversion_clear W as [| | | | |? ? Wa Wb]. apply inrow_mul_inv in I as [Ia Ib]; auto. rewrite IHa, IHb by auto. ring.
Qed.

Lemma straight_row am temp g g' c phi om b e : valid c -> (b < batch_of c)%nat -> row_of c e = b ->
  q_straight am temp g g' c phi om e = st_grad am temp g phi om (w_gum am temp g' phi) [] (row_graph c b) 1 e.
Proof.
  intros V Hb He. unfold q_straight.
  apply (@RSum_only _ (fun b => st_grad am temp g phi om (w_gum am temp g' phi) [] (row_graph c b) 1 e) (seq 0 (batch_of c)) b); [apply seq_NoDup|apply in_seq; lia|].
  intros b' Hb' Hne. apply in_seq in Hb'. apply (@st_absent am temp g phi om _ (fun e => row_of c e = b')).
  - apply graph_wf; auto. lia.
  - apply graph_inrow; auto. lia.
  - congruence.
Qed.

(** ** What the backward pass returns *)
(** Along any direction of the potentials: each sum node of the drawn derivation contributes
    the loss of what was drawn below it, times the softmax derivative of the child it took,
    where the forward values move by what a second, independent draw finds below each child *)
Theorem C63_formula am temp g g' c phi om dir b ids : valid c -> index_of am -> (b < batch_of c)%nat ->
  NoDup ids -> (forall e, In e ids -> row_of c e = b) -> inrow (fun e => In e ids) (row_graph c b) ->
  RSum (fun e => dir e * q_straight am temp g g' c phi om e) ids =
  let o := taken am temp g phi in
  RSum (fun v => let '(p, l) := v in
    let pi := soft_l (gum_logits temp g phi p l) in
    let D i := dweight dir (drawn (taken am temp g' phi) (i :: p) (nth i l TZero)) in
    dweight om (drawn o p (TSum l)) *
    (pi (o p l) * (D (o p l) - RSum (fun i => pi i * D i) (seq 0 (length l))) / temp)) (visits o [] (row_graph c b)).
Proof.
  intros V Ham Hb Hn Hr Hi. cbv zeta. pose proof (@graph_wf c b V Hb) as W.
  rewrite (Sum_ext_in R_csr _ (fun e => dir e * st_grad am temp g phi om (w_gum am temp g' phi) [] (row_graph c b) 1 e)).
  2:{ intros e He. now rewrite (@straight_row am temp g g' c phi om b e V Hb (Hr e He)). }
  rewrite grad_formula by auto. rewrite Rmult_1_l. apply (Sum_ext_in R_csr). intros [p l] Hv.
  destruct (@sub_good _ _ _ _ _ W Hi Hv) as [Wl Il]. cbn [fst snd] in *.
  inversion_clear Wl as [| | | |? Hne Hf|]. apply inrow_sum_inv in Il. rewrite Forall_forall in Hf, Il.
  assert (E : forall i, (i < length l)%nat -> below dir (w_gum am temp g' phi) ids (i :: p) (nth i l TZero) =
      dweight dir (drawn (taken am temp g' phi) (i :: p) (nth i l TZero))).
  { intros i Hlt. pose proof (nth_In l TZero Hlt) as Hin. unfold below.
    rewrite (Sum_ext R_csr _ (fun e => dir e * cnt e (drawn (taken am temp g' phi) (i :: p) (nth i l TZero)))).
    2:{ intro e. now rewrite bp_drawn by auto. }
    apply dir_cnt; auto. intros e He. apply (Il _ Hin (drawn (taken am temp g' phi) (i :: p) (nth i l TZero))); auto.
    apply drawn_in; auto. intros. now apply taken_lt. }
  unfold slope. cbn [fst snd]. rewrite E by now apply taken_lt.
  rewrite (Sum_ext_in R_csr _ (fun i => soft_l (gum_logits temp g phi p l) i * dweight dir (drawn (taken am temp g' phi) (i :: p) (nth i l TZero))) (seq 0 (length l))).
  2:{ intros i Hlt. apply in_seq in Hlt. rewrite E by lia. reflexivity. }
  reflexivity.
Qed.
Print Assumptions C63_formula.

(** ** What it is the gradient of *)
Lemma soft_gum temp g psi p l k : (k < length l)%nat -> soft_l (gum_logits temp g psi p l) k =
  exp ((leval (log_ops NEG) psi (nth k l TZero) + g p k) / temp) /
  RSum (fun i => exp ((leval (log_ops NEG) psi (nth i l TZero) + g p i) / temp)) (seq 0 (length l)).
Proof.
  intro H. unfold soft_l, gum_logits. rewrite (mapi_nth_get _ _ _ 0 H), RSum_mapi, mapi_seq0. reflexivity.
Qed.
Lemma dlim_exp f x d : derivable_pt_lim f x d -> derivable_pt_lim (fun y => exp (f y)) x (exp (f x) * d).
Proof. intro H. apply (derivable_pt_lim_comp f exp x d _ H). apply derivable_pt_lim_exp. Qed.
Lemma soft_slope (f : nat -> R -> R) (d : nat -> R) n k : (k < n)%nat -> (forall i, (i < n)%nat -> derivable_pt_lim (f i) 0 (d i)) ->
  let pi i := exp (f i 0) / RSum (fun j => exp (f j 0)) (seq 0 n) in
  derivable_pt_lim (fun x => exp (f k x) / RSum (fun i => exp (f i x)) (seq 0 n)) 0
    (pi k * (d k - RSum (fun i => pi i * d i) (seq 0 n))).
Proof.
  intros Hk Hd pi. set (S := fun x => RSum (fun i => exp (f i x)) (seq 0 n)).
  assert (Sp : 0 < S 0). { unfold S. apply RSum_exp_pos. destruct n; [lia|discriminate]. }
  assert (HS : derivable_pt_lim S 0 (RSum (fun i => exp (f i 0) * d i) (seq 0 n))).
  { unfold S. apply (dlim_sum (fun i x => exp (f i x)) (fun i => exp (f i 0) * d i)). intros i Hi. apply in_seq in Hi.
    apply dlim_exp, Hd. lia. }
  pose proof (derivable_pt_lim_div _ _ _ _ _ (dlim_exp (Hd k Hk)) HS ltac:(lra)) as H.
  change (derivable_pt_lim (fun x => exp (f k x) / S x) 0 (pi k * (d k - RSum (fun i => pi i * d i) (seq 0 n)))).
  match type of H with derivable_pt_lim _ _ ?u => assert (E : u = pi k * (d k - RSum (fun i => pi i * d i) (seq 0 n))) end.
  { unfold pi. fold (S 0). rewrite (Sum_ext R_csr (fun i => exp (f i 0) / S 0 * d i) (fun i => / S 0 * (exp (f i 0) * d i))) by (intro; unfold Rdiv; ring).
    rewrite RSum_scal. unfold Rsqr. field. lra. }
  exact (eq_ind _ (fun u => derivable_pt_lim (fun x => exp (f k x) / S x) 0 u) H _ E).
Qed.

(** The gradient above is the derivative of the relaxed objective (every drawn node
    contributes the loss drawn below it times the probability of the child it took), with
    the expectation below each child replaced by one fresh draw *)
Theorem C63_relaxed am temp g c phi om dir b : valid c -> index_of am -> (b < batch_of c)%nat ->
  let o := taken am temp g phi in
  derivable_pt_lim (fun x => relaxed am temp g phi om (fun e => phi e + x * dir e) (row_graph c b)) 0
  (RSum (fun v => let '(p, l) := v in
    let pi := soft_l (gum_logits temp g phi p l) in
    let D i := mean phi NEG (nth i l TZero) (score dir 0) in
    dweight om (drawn o p (TSum l)) *
    (pi (o p l) * (D (o p l) - RSum (fun i => pi i * D i) (seq 0 (length l))) / temp)) (visits o [] (row_graph c b))).
Proof.
  intros V Ham Hb o. pose proof (@graph_wf c b V Hb) as W. unfold relaxed. fold o.
  apply (dlim_sum (fun v x => dweight om (drawn o (fst v) (TSum (snd v))) * soft_l (gum_logits temp g (fun e => phi e + x * dir e) (fst v) (snd v)) (o (fst v) (snd v)))).
  intros [p l] Hv. cbn [fst snd].
  assert (Wl : twf (TSum l)).
  { apply (@visits_sub twf o) with (t := row_graph c b) (p := []) (v := (p, l)); auto.
    - intros l' W'. now inversion_clear W'.
    - intros a b' W'. now inversion_clear W'. }
  inversion_clear Wl as [| | | |? Hne Hf|]. rewrite Forall_forall in Hf.
  pose proof (@taken_lt am temp g phi Ham p l Hne) as Hk. fold o in Hk.
  apply (derivable_pt_lim_scal (fun x => soft_l (gum_logits temp g (fun e => phi e + x * dir e) p l) (o p l))).
  set (f := fun i x => (leval (log_ops NEG) (fun e => phi e + x * dir e) (nth i l TZero) + g p i) / temp).
  set (d := fun i => mean phi NEG (nth i l TZero) (score dir 0) / temp).
  assert (Hf' : forall i, (i < length l)%nat -> derivable_pt_lim (f i) 0 (d i)).
  { intros i Hi. unfold f, d, Rdiv.
    assert (E : mean phi NEG (nth i l TZero) (score dir 0) * / temp = / temp * (mean phi NEG (nth i l TZero) (score dir 0) + 0)) by ring.
    rewrite E. apply dlim_ext with (fun x => / temp * (leval (log_ops NEG) (fun e => phi e + x * dir e) (nth i l TZero) + g p i)); [intro; ring|].
    apply (derivable_pt_lim_scal (fun x => leval (log_ops NEG) (fun e => phi e + x * dir e) (nth i l TZero) + g p i)).
    apply (derivable_pt_lim_plus (fun x => leval (log_ops NEG) (fun e => phi e + x * dir e) (nth i l TZero)) (fun _ => g p i)).
    - apply dir_derivative. apply Hf, nth_In, Hi.
    - apply derivable_pt_lim_const. }
  pose proof (@soft_slope f d (length l) (o p l) Hk Hf') as H. cbv zeta in H.
  eapply dlim_ext; [intro y; symmetry; apply (@soft_gum temp g _ p l (o p l) Hk)|].
  assert (E0 : forall i, (i < length l)%nat -> soft_l (gum_logits temp g phi p l) i = exp (f i 0) / RSum (fun j => exp (f j 0)) (seq 0 (length l))).
  { intros i Hi. rewrite (@soft_gum temp g phi p l i Hi). unfold f.
    replace (fun e => phi e + 0 * dir e) with phi; [reflexivity|]. apply functional_extensionality. intro e. ring. }
  match goal with |- derivable_pt_lim _ _ ?u => match type of H with derivable_pt_lim _ _ ?w => assert (E : u = w) end end.
  { rewrite E0 by exact Hk. unfold d.
    rewrite (Sum_ext_in R_csr (fun i => soft_l (gum_logits temp g phi p l) i * mean phi NEG (nth i l TZero) (score dir 0)) (fun i => exp (f i 0) / RSum (fun j => exp (f j 0)) (seq 0 (length l)) * mean phi NEG (nth i l TZero) (score dir 0)) (seq 0 (length l))).
    2:{ intros i Hi. apply in_seq in Hi. rewrite E0 by lia. reflexivity. }
    rewrite (Sum_ext R_csr (fun i => exp (f i 0) / RSum (fun j => exp (f j 0)) (seq 0 (length l)) * (mean phi NEG (nth i l TZero) (score dir 0) / temp))
      (fun i => / temp * (exp (f i 0) / RSum (fun j => exp (f j 0)) (seq 0 (length l)) * mean phi NEG (nth i l TZero) (score dir 0)))) by (intro; unfold Rdiv; ring).
    rewrite RSum_scal. unfold Rdiv. ring. }
  match type of H with derivable_pt_lim ?F _ _ => exact (eq_ind_r (fun u => derivable_pt_lim F 0 u) H E) end.
Qed.
Print Assumptions C63_relaxed.

(** ** Directions that do not change the distribution *)
Definition level (dir : list nat -> R) (t : term) : Prop := exists d, forall m, In m (expand t) -> dweight dir m = d.
Lemma expand_some t : twf t -> exists m, In m (expand t).
Proof. intro W. exists (drawn (fun _ _ => 0%nat) [] t). apply drawn_in; auto. intros p [|x l] H; [congruence|cbn; lia]. Qed.
Lemma level_sum dir l : level dir (TSum l) -> Forall (level dir) l.
Proof. intros [d H]. apply Forall_forall. intros t Ht. exists d. intros m Hm. apply H. cbn [expand]. apply in_flat_map. eauto. Qed.
Lemma level_mul dir a b : twf a -> twf b -> level dir (TMul a b) -> level dir a /\ level dir b.
Proof.
  intros Wa Wb [d H]. destruct (expand_some Wa) as [x Hx]. destruct (expand_some Wb) as [y Hy].
  assert (G : forall u v, In u (expand a) -> In v (expand b) -> dweight dir u + dweight dir v = d).
  { intros u v Hu Hv. rewrite <- (H (u ++ v)); [unfold dweight; now rewrite RSum_app|]. cbn [expand]. unfold prods.
    apply in_flat_map. exists u. split; auto. now apply in_map. }
  split; [exists (d - dweight dir y)|exists (d - dweight dir x)]; intros m Hm; [rewrite <- (G m y Hm Hy)|rewrite <- (G x m Hx Hm)]; ring.
Qed.

(** Whatever the loss, the noise and the temperature: along a direction that adds the same
    amount to every derivation the gradient is zero *)
Theorem C63_gauge_graph am temp g g' c phi om dir b ids : valid c -> index_of am -> (b < batch_of c)%nat ->
  NoDup ids -> (forall e, In e ids -> row_of c e = b) -> inrow (fun e => In e ids) (row_graph c b) ->
  level dir (row_graph c b) ->
  RSum (fun e => dir e * q_straight am temp g g' c phi om e) ids = 0.
Proof.
  intros V Ham Hb Hn Hr Hi Hl. rewrite (@C63_formula am temp g g' c phi om dir b ids V Ham Hb Hn Hr Hi). cbv zeta.
  pose proof (@graph_wf c b V Hb) as W.
  rewrite (Sum_ext_in R_csr _ (fun _ => 0)); [rewrite RSum_const; ring|]. intros [p l] Hv.
  assert (Wl : twf (TSum l) /\ level dir (TSum l)).
  { apply (@visits_sub (fun t => twf t /\ level dir t) (taken am temp g phi)) with (t := row_graph c b) (p := []) (v := (p, l)); auto.
    - intros l' [W' L']. inversion_clear W' as [| | | |? Hne Hf|]. apply level_sum in L'. rewrite Forall_forall in *. auto.
    - intros a b' [W' L']. inversion_clear W' as [| | | | |? ? Wa Wb]. apply level_mul in L' as [La Lb]; auto. }
  destruct Wl as [Wl [d Hd]]. inversion_clear Wl as [| | | |? Hne Hf|]. rewrite Forall_forall in Hf.
  assert (E : forall i, (i < length l)%nat -> dweight dir (drawn (taken am temp g' phi) (i :: p) (nth i l TZero)) = d).
  { intros i Hlt. pose proof (nth_In l TZero Hlt) as Hin. apply Hd. cbn [expand]. apply in_flat_map. eexists; split; [exact Hin|].
    apply drawn_in; auto. intros. now apply taken_lt. }
  rewrite E by now apply taken_lt.
  rewrite (Sum_ext_in R_csr _ (fun i => soft_l (gum_logits temp g phi p l) i * d) (seq 0 (length l))).
  2:{ intros i Hlt. apply in_seq in Hlt. rewrite E by lia. reflexivity. }
  rewrite RSum_scar. replace (RSum (soft_l (gum_logits temp g phi p l)) (seq 0 (length l))) with 1; [unfold Rdiv; simpl; ring|].
  assert (Hp : 0 < RSum (fun i => exp ((leval (log_ops NEG) phi (nth i l TZero) + g p i) / temp)) (seq 0 (length l))).
  { apply RSum_exp_pos. destruct l; [congruence|discriminate]. }
  rewrite (Sum_ext_in R_csr _ (fun i => exp ((leval (log_ops NEG) phi (nth i l TZero) + g p i) / temp) *
     / RSum (fun i => exp ((leval (log_ops NEG) phi (nth i l TZero) + g p i) / temp)) (seq 0 (length l)))).
  2:{ intros i Hlt. apply in_seq in Hlt. rewrite soft_gum by lia. reflexivity. }
  rewrite RSum_scar. symmetry. apply Rinv_r. lra.
Qed.
(** ... in terms of structures, for the classes whose graphs have no zero *)
Theorem C63_gauge am temp g g' c phi om dir b ids d : valid c -> zero_free c = true -> index_of am -> row_ok c b ->
  NoDup ids -> (forall e, In e ids -> row_of c e = b) -> inrow (fun e => In e ids) (row_graph c b) ->
  (forall s, ok (spec_of c b) s -> sc (prt (spec_of c b)) dir s = d) ->
  RSum (fun e => dir e * q_straight am temp g g' c phi om e) ids = 0.
Proof.
  intros V Z Ham Hb Hn Hr Hi Hd. apply (@C63_gauge_graph am temp g g' c phi om dir b ids); auto; [apply Hb|].
  exists d. intros m Hm. destruct (row_family V Hb) as (F & HF). rewrite (ir_graph HF) in Hm.
  assert (Hp : pure m = true) by (apply (@fpure_all F); auto; now apply (ir_pure HF)).
  destruct (pure_is_structure F m Hm Hp) as (s & Hs & HP). revert Hd. rewrite <- (ir_spec HF). cbn [ok prt fspec st]. intro Hd.
  rewrite <- (Hd s) by now apply (fenum F). rewrite <- (@perm_score F dir 0 m s Hp HP).
  unfold dweight, score. apply (Sum_ext_in R_csr). intros a Ha. destruct a as [e|e|]; auto.
  - exfalso. unfold pure in Hp. rewrite forallb_forall in Hp. specialize (Hp _ Ha). discriminate.
Qed.
Print Assumptions C63_gauge.

(** ** A sentence of one word with two labels *)
Definition word1 : call := CTree 1 1 2 None.
(** example: a potential of the first word *)
Definition lab (j : nat) : list nat := [0; 0; 0; j]%nat.
Lemma word1_graph : row_graph word1 0 = TSum [TLeaf (lab 0); TLeaf (lab 1)].
Proof. vm_compute. reflexivity. Qed.
Lemma word1_valid : valid word1.
Proof. cbn. repeat split; auto; lia. Qed.
Lemma word1_row : row_ok word1 0.
Proof. cbn. unfold row_ok. cbn. lia. Qed.
(** example: the chosen class *)
Definition two (am : list R -> nat) temp g phi : nat := taken am temp g phi [] [TLeaf (lab 0); TLeaf (lab 1)].
Lemma two_lt am temp g phi : index_of am -> (two am temp g phi < 2)%nat.
Proof. intro H. apply (@taken_lt am temp g phi H [] [TLeaf (lab 0); TLeaf (lab 1)]). discriminate. Qed.
(** example: the softmax over two classes *)
Definition pi2 temp g phi : nat -> R := soft_l (gum_logits temp g phi [] [TLeaf (lab 0); TLeaf (lab 1)]).
Lemma pi2_pos temp g phi i : (i < 2)%nat -> 0 < pi2 temp g phi i.
Proof.
  intro H. unfold pi2. rewrite soft_gum by exact H. apply Rdiv_lt_0_compat; [apply exp_pos|]. apply RSum_exp_pos. discriminate.
Qed.
Lemma pi2_sum temp g phi : pi2 temp g phi 0 + pi2 temp g phi 1 = 1.
Proof.
  unfold pi2. rewrite !soft_gum by (cbn; lia). cbn [length seq]. unfold Sum. cbn [map ksum fold_right nth].
  change (@kadd R_csr) with Rplus. change (@k0 R_csr) with 0.
  match goal with |- ?a / (?a + (?b + 0)) + _ = 1 => pose proof (exp_pos ((leval (log_ops NEG) phi (TLeaf (lab 0)) + g [] 0%nat) / temp));
     pose proof (exp_pos ((leval (log_ops NEG) phi (TLeaf (lab 1)) + g [] 1%nat) / temp)) end.
  field. lra.
Qed.
(** example: the potentials *)
Definition ids1 : list (list nat) := [lab 0; lab 1].
Lemma ids1_nd : NoDup ids1.
Proof. repeat constructor; cbn; intuition discriminate. Qed.
Lemma ids1_row : forall e, In e ids1 -> row_of word1 e = 0%nat.
Proof. intros e [<-|[<-|[]]]; reflexivity. Qed.
Lemma ids1_in : inrow (fun e => In e ids1) (row_graph word1 0).
Proof. rewrite word1_graph. intros m e Hm He. cbn in Hm. destruct Hm as [<-|[<-|[]]]; cbn in He |- *; intuition. Qed.
(** example: a loss on one cell *)
Definition dirac (e0 e : list nat) : R := if list_eq_dec Nat.eq_dec e e0 then 1 else 0.
Lemma dirac_sum f e0 ids : NoDup ids -> In e0 ids -> RSum (fun e => dirac e0 e * f e) ids = f e0.
Proof.
  intros Hn Hi. rewrite (@RSum_only _ _ ids e0 Hn Hi).
  - unfold dirac. destruct (list_eq_dec Nat.eq_dec e0 e0); [ring|congruence].
  - intros y _ Hy. unfold dirac. destruct (list_eq_dec Nat.eq_dec y e0); [congruence|ring].
Qed.
Lemma lt2 j : (j < 2)%nat -> j = 0%nat \/ j = 1%nat.
Proof. lia. Qed.
Lemma word1_grad am temp g g' phi om j : index_of am -> (j < 2)%nat ->
  q_straight am temp g g' word1 phi om (lab j) =
  let k := two am temp g phi in
  om (lab k) * (pi2 temp g phi k * ((if (k =? j)%nat then 1 else 0) - pi2 temp g phi j) / temp).
Proof.
  intros Ham Hj. cbv zeta.
  rewrite <- (@dirac_sum (q_straight am temp g g' word1 phi om) (lab j) ids1 ids1_nd) by (destruct (lt2 Hj) as [-> | ->]; cbn; auto).
  rewrite (@C63_formula am temp g g' word1 phi om (dirac (lab j)) 0 ids1 word1_valid Ham (proj1 word1_row) ids1_nd ids1_row ids1_in).
  cbv zeta. rewrite word1_graph. pose proof (@two_lt am temp g phi Ham) as Hk. unfold two in *. cbn [visits].
  fold (pi2 temp g phi). destruct (lt2 Hk) as [E|E]; destruct (lt2 Hj) as [-> | ->]; rewrite E;
    cbn [mapi visits nth map length seq]; rewrite RSum_cons; change (RSum _ []) with 0; cbn [drawn mapi]; rewrite E; cbn [nth drawn];
    cbn [length seq]; rewrite !RSum_cons; change (RSum _ []) with 0; cbn [nth drawn];
    unfold dweight; rewrite !RSum_cons; change (RSum _ []) with 0; unfold dirac; cbn [Nat.eqb];
    repeat (destruct (list_eq_dec _ _ _) as [Q|Q]; [try discriminate Q; clear Q|try congruence; clear Q]); unfold pi2, Rdiv; ring.
Qed.
(** The loss that adds up all cells of the returned tensor is 1 for every draw; it has no
    slope. The gradient that comes back is never zero. *)
Theorem C63_constant_refuted : exists c phi om ids, valid c /\ row_ok c 0 /\
  (forall am temp g, index_of am -> RSum (fun e => om e * q_gumbel am temp g c phi e) ids = 1) /\
  (forall am temp g g', index_of am -> temp <> 0 -> exists e, In e ids /\ q_straight am temp g g' c phi om e <> 0).
Proof.
  exists word1, (fun _ => 0), (fun _ => 1), ids1. split; [exact word1_valid|]. split; [exact word1_row|]. split.
  - intros am temp g Ham.
    rewrite (Sum_ext_in R_csr _ (fun e => 1 * cnt e (drawn (taken am temp g (fun _ => 0)) [] (row_graph word1 0)))).
    + rewrite (@dir_cnt (fun _ => 1) ids1 _ ids1_nd).
      * rewrite word1_graph. cbn [drawn]. destruct (lt2 (@two_lt am temp g (fun _ => 0) Ham)) as [E|E]; unfold two in E; rewrite E;
          cbn [mapi nth drawn]; unfold dweight; rewrite RSum_cons; change (RSum _ []) with 0; ring.
      * intros e He. eapply ids1_in; [|exact He]. apply drawn_in; [intros; now apply taken_lt|].
        apply graph_wf; [exact word1_valid|cbn; lia].
    + intros e He. rewrite (@gumbel_row am temp g word1 (fun _ => 0) 0 e word1_valid (proj1 word1_row) (ids1_row He)).
      rewrite bp_drawn; auto. apply graph_wf; [exact word1_valid|cbn; lia].
  - intros am temp g g' Ham Ht. set (k := two am temp g (fun _ => 0)). pose proof (@two_lt am temp g (fun _ => 0) Ham) as Hk. fold k in Hk.
    exists (lab k). split; [destruct (lt2 Hk) as [-> | ->]; cbn; auto|].
    rewrite (@word1_grad am temp g g' (fun _ => 0) (fun _ => 1) k Ham Hk). cbv zeta. fold k. rewrite Nat.eqb_refl.
    pose proof (@pi2_pos temp g (fun _ => 0) 0 ltac:(lia)) as P0. pose proof (@pi2_pos temp g (fun _ => 0) 1 ltac:(lia)) as P1.
    pose proof (pi2_sum temp g (fun _ => 0)) as PS.
    assert (H : pi2 temp g (fun _ => 0) k * (1 - pi2 temp g (fun _ => 0) k) <> 0).
    { apply Rmult_integral_contrapositive_currified; destruct (lt2 Hk) as [-> | ->]; lra. }
    rewrite Rmult_1_l. unfold Rdiv. apply Rmult_integral_contrapositive_currified; auto. now apply Rinv_neq_0_compat.
Qed.
Print Assumptions C63_constant_refuted.

(** ** The backward pass draws again *)
Definition dep2 : call := CDep true 1 2 None None.
(** example: part of a graph *)
Definition in0 : term := TMul TOne (TSum [TMul TOne (TMul (TSum [TMul TOne TOne]) (TLeaf [0; 1; 0]%nat))]).
(** example: part of a graph *)
Definition in1 : term := TMul (TSum [TMul (TMul (TSum [TMul TOne TOne]) (TLeaf [0; 0; 0]%nat)) TOne]) TOne.
(** example: part of a graph *)
Definition chA : term := TMul (TMul (TSum [TMul TOne TOne]) (TLeaf [0; 0; 0]%nat)) (TSum [TMul (TMul (TSum [TMul TOne TOne]) (TLeaf [0; 0; 1]%nat)) TOne]).
(** example: part of a graph *)
Definition chB : term := TMul (TMul (TSum [in0; in1]) (TLeaf [0; 1; 1]%nat)) TOne.
Lemma dep2_graph : row_graph dep2 0 = TSum [chA; chB].
Proof. vm_compute. reflexivity. Qed.
Lemma dep2_valid : valid dep2.
Proof. split; [|discriminate]. vm_compute. repeat split; try lia; try discriminate; auto. Qed.
Lemma dep2_row : row_ok dep2 0.
Proof. split; [cbn; lia|exact I]. Qed.
(** example: the potentials *)
Definition ids2 : list (list nat) := [[0; 0; 0]; [0; 0; 1]; [0; 1; 0]; [0; 1; 1]]%nat.
Lemma ids2_nd : NoDup ids2.
Proof. repeat constructor; cbn; intuition discriminate. Qed.
Lemma ids2_row : forall e, In e ids2 -> row_of dep2 e = 0%nat.
Proof. intros e He. cbn in He. intuition (subst; reflexivity). Qed.
Lemma ids2_in : inrow (fun e => In e ids2) (row_graph dep2 0).
Proof. rewrite dep2_graph. intros m e Hm He. cbn in Hm. destruct Hm as [<-|[<-|[<-|[]]]]; cbn in He |- *; intuition. Qed.

(** noise that makes the inner node (who heads the first word when the second is the root)
    take child j *)
Definition push (phi : list nat -> R) (j : nat) : path -> nat -> R := fun _ i =>
  if (i =? j)%nat then Rabs (leval (log_ops NEG) phi in0 - leval (log_ops NEG) phi in1) + 1 else 0.
Lemma push_takes am temp phi j p : max_index am -> 0 < temp -> (j < 2)%nat -> taken am temp (push phi j) phi p [in0; in1] = j.
Proof.
  intros Ham Ht Hj. unfold taken, gum_logits, push. cbn [mapi].
  generalize (leval (log_ops NEG) phi in1). generalize (leval (log_ops NEG) phi in0). cbn [car log_ops]. intros a b.
  set (v := [_; _]). destruct (Ham v) as (x & Hx & Hin & Hle); [discriminate|].
  assert (Hlt : (am v < 2)%nat). { apply (max_index_of Ham (v := v)). discriminate. }
  pose proof (Rle_abs (a - b)) as A. pose proof (Rle_abs (- (a - b))) as A'. rewrite Rabs_Ropp in A'.
  pose proof (Rinv_0_lt_compat temp Ht) as It.
  destruct (lt2 Hlt) as [E|E]; rewrite E in *; destruct (lt2 Hj) as [-> | ->]; auto; exfalso; unfold v in Hx, Hle; cbn [Nat.eqb nth_error] in Hx, Hle; injection Hx as <-.
  - assert (H := Hle _ (or_intror (or_introl eq_refl))). unfold Rdiv in H. apply Rmult_le_reg_r in H; auto. lra.
  - assert (H := Hle _ (or_introl eq_refl)). unfold Rdiv in H. apply Rmult_le_reg_r in H; auto. lra.
Qed.

(** Same potentials, same tensor returned by gumbel_crf, same loss: two runs of the backward
    pass give different gradients, whatever the noise of the forward call *)
Theorem C63_redraw_refuted : exists c phi om e, valid c /\ row_ok c 0 /\
  forall am temp g, max_index am -> 0 < temp -> exists g' g'',
    q_straight am temp g g' c phi om e <> q_straight am temp g g'' c phi om e.
Proof.
  exists dep2, (fun _ => 0), (fun _ => 1), [0; 1; 0]%nat. split; [exact dep2_valid|]. split; [exact dep2_row|].
  intros am temp g Hmax Ht. set (phi := fun _ : list nat => 0). set (om := fun _ : list nat => 1). pose proof (max_index_of Hmax) as Ham.
  exists (push phi 0), (push phi 1).
  set (dir := dirac [0; 1; 0]%nat).
  assert (F : forall g', q_straight am temp g g' dep2 phi om [0; 1; 0]%nat = RSum (fun e => dir e * q_straight am temp g g' dep2 phi om e) ids2).
  { intro g'. symmetry. apply dirac_sum; [exact ids2_nd|]. cbn. auto. }
  rewrite !F.
  rewrite !(@C63_formula am temp g _ dep2 phi om dir 0 ids2 dep2_valid Ham (proj1 dep2_row) ids2_nd ids2_row ids2_in).
  cbv zeta. rewrite dep2_graph. set (o := taken am temp g phi).
  set (L := [chA; chB]).
  set (f := fun g' v => let '(p, l) := v in dweight om (drawn o p (TSum l)) * (soft_l (gum_logits temp g phi p l) (o p l) *
    (dweight dir (drawn (taken am temp g' phi) (o p l :: p) (nth (o p l) l TZero)) -
     RSum (fun i => soft_l (gum_logits temp g phi p l) i * dweight dir (drawn (taken am temp g' phi) (i :: p) (nth i l TZero))) (seq 0 (length l))) / temp)).
  change (RSum (f (push phi 0)) (visits o [] (TSum L)) <> RSum (f (push phi 1)) (visits o [] (TSum L))).
  assert (Hk : (o [] L < 2)%nat) by (apply (@taken_lt am temp g phi Ham [] L); discriminate).
  pose proof (@graph_wf dep2 0 dep2_valid (proj1 dep2_row)) as W. rewrite dep2_graph in W. fold L in W.
  assert (WB : twf chB) by (inversion_clear W as [| | | |? Hne Hf|]; rewrite Forall_forall in Hf; apply Hf; cbn; auto).
  assert (WA : twf chA) by (inversion_clear W as [| | | |? Hne Hf|]; rewrite Forall_forall in Hf; apply Hf; cbn; auto).
  (* below the top node nothing depends on the second draw *)
  set (Q := fun t => twf t /\ (level dir t \/ t = chB \/ t = TMul (TSum [in0; in1]) (TLeaf [0; 1; 1]%nat) \/ t = TSum [in0; in1])).
  assert (L0 : level dir in0) by (exists 1; intros m [<-|[]]; unfold dweight, Sum; cbn; ring).
  assert (L1 : level dir in1) by (exists 0; intros m [<-|[]]; unfold dweight, Sum; cbn; ring).
  assert (LA : level dir chA) by (exists 0; intros m [<-|[]]; unfold dweight, Sum; cbn; ring).
  assert (Inner : forall t p v, Q t -> In v (visits o p t) -> f (push phi 0) v = f (push phi 1) v).
  { intros t p [q l] HQ Hv.
    assert (Hs : Q (TSum l)).
    { apply (@visits_sub Q o) with (t := t) (p := p) (v := (q, l)); auto.
      - intros l' [W' [L'|[L'|[L'|L']]]]; try discriminate.
        + inversion_clear W' as [| | | |? Hne Hf|]. apply level_sum in L'. rewrite Forall_forall in *. intros x Hx. split; auto.
        + injection L' as ->. inversion_clear W' as [| | | |? Hne Hf|]. rewrite Forall_forall in *. intros x Hx. split; [auto|].
          left. destruct Hx as [<-|[<-|[]]]; auto.
      - intros a b [W' [L'|[L'|[L'|L']]]]; try discriminate; inversion_clear W' as [| | | | |? ? Wa Wb].
        + apply level_mul in L' as [La Lb]; auto. split; split; auto.
        + injection L' as -> ->. split; split; auto. left. exists 0. intros m [<-|[]]. reflexivity.
        + injection L' as -> ->. split; split; auto. left. exists 0. intros m [<-|[]]. unfold dweight, Sum; cbn; ring. }
    destruct Hs as [Wl HL].
    assert (HF : Forall (level dir) l).
    { destruct HL as [HL|[HL|[HL|HL]]]; try discriminate; [now apply level_sum|]. injection HL as ->. auto. }
    inversion_clear Wl as [| | | |? Hne Hf|]. rewrite Forall_forall in HF, Hf.
    assert (E : forall i, (i < length l)%nat -> dweight dir (drawn (taken am temp (push phi 0) phi) (i :: q) (nth i l TZero)) =
        dweight dir (drawn (taken am temp (push phi 1) phi) (i :: q) (nth i l TZero))).
    { intros i Hi. pose proof (nth_In l TZero Hi) as Hin. destruct (HF _ Hin) as [d Hd].
      rewrite !Hd; auto; (apply drawn_in; auto; intros; now apply taken_lt). }
    unfold f. rewrite E by now apply taken_lt.
    rewrite (Sum_ext_in R_csr (fun i => soft_l (gum_logits temp g phi q l) i * dweight dir (drawn (taken am temp (push phi 0) phi) (i :: q) (nth i l TZero)))
      (fun i => soft_l (gum_logits temp g phi q l) i * dweight dir (drawn (taken am temp (push phi 1) phi) (i :: q) (nth i l TZero)))).
    - reflexivity.
    - intros i Hi. apply in_seq in Hi. rewrite E by lia. reflexivity. }
  cbn [visits]. rewrite !RSum_cons.
  assert (Rest : RSum (f (push phi 0)) (nth (o [] L) (mapi (fun i t' => visits o [i] t') 0 L) []) =
                 RSum (f (push phi 1)) (nth (o [] L) (mapi (fun i t' => visits o [i] t') 0 L) [])).
  { apply (Sum_ext_in R_csr). intros v Hv. rewrite (mapi_nth_get _ L _ 0 Hk) in Hv. eapply Inner; [|exact Hv].
    destruct (lt2 Hk) as [E|E]; rewrite E; [change (nth 0 L TZero) with chA|change (nth 1 L TZero) with chB]; split; auto. }
  rewrite Rest. intro Heq. apply Rplus_eq_reg_r in Heq. revert Heq. unfold f at 1 2.
  replace (dweight om (drawn o [] (TSum L))) with 2.
  2:{ assert (Hd : In (drawn o [] (TSum L)) (expand (TSum L))) by (apply drawn_in; auto; intros; now apply taken_lt).
      revert Hd. generalize (drawn o [] (TSum L)). intros m Hd. cbn in Hd. destruct Hd as [<-|[<-|[<-|[]]]]; unfold dweight, Sum, om; cbn; ring. }
  assert (HA : forall g' p, dweight dir (drawn (taken am temp g' phi) p chA) = 0).
  { intros g' p. assert (Hd : In (drawn (taken am temp g' phi) p chA) (expand chA)) by (apply drawn_in; auto; intros; now apply taken_lt).
    destruct Hd as [<-|[]]; unfold dweight, Sum; cbn; ring. }
  assert (HB : forall j p, (j < 2)%nat -> dweight dir (drawn (taken am temp (push phi j) phi) p chB) = if (j =? 0)%nat then 1 else 0).
  { intros j p Hj. change (drawn (taken am temp (push phi j) phi) p chB) with
      ((drawn (taken am temp (push phi j) phi) (0%nat :: 0%nat :: p) (TSum [in0; in1]) ++ [AL [0; 1; 1]%nat]) ++ []).
    rewrite app_nil_r. unfold dweight. rewrite RSum_app. fold (dweight dir). cbn [drawn]. rewrite push_takes by auto.
    inversion_clear WB as [| | | | |? ? Wx Wy]. inversion_clear Wx as [| | | | |? ? Wz Wt]. inversion_clear Wz as [| | | |? Hne Hf|]. rewrite Forall_forall in Hf.
    assert (H0 : twf in0) by (apply Hf; cbn; auto). assert (H1 : twf in1) by (apply Hf; cbn; auto).
    destruct (lt2 Hj) as [-> | ->]; cbn [mapi nth Nat.eqb].
    - assert (Hd : In (drawn (taken am temp (push phi 0) phi) (0%nat :: 0%nat :: 0%nat :: p) in0) (expand in0)) by (apply drawn_in; auto; intros; now apply taken_lt).
      destruct Hd as [<-|[]]. unfold Sum; cbn; ring.
    - assert (Hd : In (drawn (taken am temp (push phi 1) phi) (1%nat :: 0%nat :: 0%nat :: p) in1) (expand in1)) by (apply drawn_in; auto; intros; now apply taken_lt).
      destruct Hd as [<-|[]]. unfold Sum; cbn; ring. }
  assert (P : forall i, (i < 2)%nat -> 0 < soft_l (gum_logits temp g phi [] L) i).
  { intros i Hi. rewrite soft_gum by exact Hi. apply Rdiv_lt_0_compat; [apply exp_pos|]. apply RSum_exp_pos. discriminate. }
  assert (PS : soft_l (gum_logits temp g phi [] L) 0 + soft_l (gum_logits temp g phi [] L) 1 = 1).
  { rewrite !soft_gum by (cbn; lia). change (length L) with 2%nat. cbn [seq]. rewrite !RSum_cons. change (RSum _ []) with 0.
    pose proof (exp_pos ((leval (log_ops NEG) phi (nth 0 L TZero) + g [] 0%nat) / temp)).
    pose proof (exp_pos ((leval (log_ops NEG) phi (nth 1 L TZero) + g [] 1%nat) / temp)). field. lra. }
  pose proof (P 0%nat ltac:(lia)) as P0. pose proof (P 1%nat ltac:(lia)) as P1.
  set (x := soft_l (gum_logits temp g phi [] L) 0) in *. set (y := soft_l (gum_logits temp g phi [] L) 1) in *.
  pose proof (Rinv_0_lt_compat temp Ht) as It.
  change (length L) with 2%nat. cbn [seq]. rewrite !RSum_cons. change (RSum _ []) with 0.
  change (nth 0 L TZero) with chA. change (nth 1 L TZero) with chB. rewrite !HA, !(fun p => HB 0%nat p ltac:(lia)), !(fun p => HB 1%nat p ltac:(lia)). cbn [Nat.eqb]. fold x y.
  pose proof (Rmult_lt_0_compat _ _ (Rmult_lt_0_compat _ _ P0 P1) It).
  destruct (lt2 Hk) as [E|E]; rewrite E; [change (nth 0 L TZero) with chA|change (nth 1 L TZero) with chB]; fold x y;
    rewrite ?HA, ?(fun p => HB 0%nat p ltac:(lia)), ?(fun p => HB 1%nat p ltac:(lia)); cbn [Nat.eqb]; unfold Rdiv; intro Heq.
  - assert (x * y * / temp = 0) by (change (K R_csr) with R in *; lra). lra.
  - assert (y * (1 - y) * / temp = 0) by (change (K R_csr) with R in *; lra). replace (1 - y) with x in * by lra. lra.
Qed.
Print Assumptions C63_redraw_refuted.

(** the hypotheses of C63_gauge on two words: every tree has two arcs *)
Example straight_hypotheses : zero_free dep2 = true /\ index_of first_max /\ row_ok dep2 0 /\ NoDup ids2 /\
  inrow (fun e => In e ids2) (row_graph dep2 0) /\
  (forall s, ok (spec_of dep2 0) s -> sc (prt (spec_of dep2 0)) (fun _ => 1) s = 2) /\
  q_straight first_max 1 (by_call ex_noise) (by_call ex_noise) dep2 (fun _ => 0) (fun e => INR (list_sum e)) [0; 1; 0]%nat =
  - (q_straight first_max 1 (by_call ex_noise) (by_call ex_noise) dep2 (fun _ => 0) (fun e => INR (list_sum e)) [0; 0; 0]%nat +
     q_straight first_max 1 (by_call ex_noise) (by_call ex_noise) dep2 (fun _ => 0) (fun e => INR (list_sum e)) [0; 0; 1]%nat +
     q_straight first_max 1 (by_call ex_noise) (by_call ex_noise) dep2 (fun _ => 0) (fun e => INR (list_sum e)) [0; 1; 1]%nat).
Proof.
  assert (Hs : forall s, ok (spec_of dep2 0) s -> sc (prt (spec_of dep2 0)) (fun _ => 1) s = 2).
  { intros s Hs. assert (Hin : In s (dep_list true 2)) by (apply (@dep_list_enum true 2 ltac:(lia)); exact Hs).
    cbn in Hin. repeat (destruct Hin as [<-|Hin]; [unfold sc, Sum; cbn; ring|]). destruct Hin. }
  pose proof (max_index_of first_max_ok) as Hf.
  do 5 (split; [first [reflexivity|exact Hf|exact dep2_row|exact ids2_nd|exact ids2_in]|]). split; [exact Hs|].
  pose proof (@C63_gauge first_max 1 (by_call ex_noise) (by_call ex_noise) dep2 (fun _ => 0) (fun e => INR (list_sum e)) (fun _ => 1) 0 ids2 2
    dep2_valid eq_refl Hf dep2_row ids2_nd ids2_row ids2_in Hs) as H.
  unfold ids2 in H. rewrite !RSum_cons in H. change (RSum _ []) with 0 in H.
  apply Rplus_opp_r_uniq. etransitivity; [|exact H]. ring.
Qed.
