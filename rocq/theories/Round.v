(** * Round: the same dynamic programs in rounded arithmetic.

    The other files read floats as real numbers. Here every operation of the semiring
    returns its exact result up to a rounding error. Overflow is not modelled: the
    magnitudes that occur are bounded by the theorems. *)
From Coq Require Import Reals Lra Lia.
From Verif Require Import Base Ops Terms Semirings Poly Chain LinearChain SemiMarkov CkyCrf Cky DepSpec DepTree
  Batch Family Approx Grad Sample Dist Purity Degree Shape Api Query Mask.
Set Implicit Arguments.
Local Open Scope R_scope.

(** ** Model *)
(** semirings.py:98-112, 138-150 [LogSemiring] with the operations a machine provides:
    [fadd] for torch.Tensor.__add__, [flse] for torch.logsumexp *)
Definition flog_ops (z : R) (fadd : R -> R -> R) (flse : list R -> R) : ops :=
  {| car := R; ssum := flse; smul := fadd; szero := z; sone := 0; sover := fun _ => z |}.
(** semirings.py:153-174 [MaxSemiring]; torch.max does not round *)
Definition fmax_ops (z : R) (fadd : R -> R -> R) : ops :=
  {| car := R; ssum := rmax; smul := fadd; szero := z; sone := 0; sover := fun _ => z |}.
(** semirings.py:85-95, 119-126 [StdSemiring] *)
Definition fstd_ops (fmul : R -> R -> R) (fsum : list R -> R) : ops :=
  {| car := R; ssum := fsum; smul := fmul; szero := 0; sone := 1; sover := fun _ => 0 |}.
(** what is assumed of the machine: relative error u (2^-24 for an addition in float32),
    for logsumexp relative to 1 + |result| because the sum of exponentials is rounded
    before the logarithm. A: largest number of summands *)
Definition add_acc (u : R) (fadd : R -> R -> R) : Prop := forall x y, Rabs (fadd x y - (x + y)) <= u * Rabs (x + y).
(** assumed of torch.logsumexp (semirings.py:102-104) on at most A entries *)
Definition lse_acc (A : nat) (u : R) (flse : list R -> R) : Prop := forall l, l <> [] -> (length l <= A)%nat -> Rabs (flse l - lse l) <= u * (1 + Rabs (lse l)).
(** assumed of torch.mul (semirings.py:89-91) on nonnegative numbers *)
Definition mul_acc (u : R) (fmul : R -> R -> R) : Prop := forall x y, 0 <= x -> 0 <= y -> (1 - u) * (x * y) <= fmul x y <= (1 + u) * (x * y).
(** assumed of torch.sum (semirings.py:124-126) on at most A nonnegative entries *)
Definition sum_acc (A : nat) (u : R) (fsum : list R -> R) : Prop := forall l, l <> [] -> (length l <= A)%nat -> Forall (Rle 0) l ->
  (1 - u) * RSum (fun x => x) l <= fsum l <= (1 + u) * RSum (fun x => x) l.
(** distributions.py:207-210 [partition], 117-125 [max], 185-190 [count] *)
Definition f_partition (c : call) (fadd : R -> R -> R) (flse : list R -> R) (phi : list nat -> R) : res (list R) := run c (flog_ops NEG fadd flse) phi.
(** distributions.py:117-125 [max], rounded *)
Definition f_max (c : call) (fadd : R -> R -> R) (phi : list nat -> R) : res (list R) := run c (fmax_ops NEG fadd) phi.
(** distributions.py:185-190 [count], rounded *)
Definition f_count (c : call) (fmul : R -> R -> R) (fsum : list R -> R) (phi : list nat -> R) : res (list R) := run c (fstd_ops fmul fsum) phi.

(** ** Sizes of a graph *)
(** operations on one derivation *)
Fixpoint nops (t : term) : nat :=
  match t with
  | TSum l => S (list_max (map nops l))
  | TMul a b => S (nops a + nops b)
  | _ => 0
  end.
(** potentials on one derivation *)
Fixpoint lv (t : term) : nat :=
  match t with
  | TLeaf _ => 1
  | TSum l => list_max (map lv l)
  | TMul a b => (lv a + lv b)%nat
  | _ => 0
  end.
(** choices on one derivation, and the largest number of alternatives *)
Fixpoint nsum (t : term) : nat :=
  match t with
  | TSum l => S (list_max (map nsum l))
  | TMul a b => (nsum a + nsum b)%nat
  | _ => 0
  end.
(** spec: largest number of arguments of a sum of the graph *)
Fixpoint wide (t : term) : nat :=
  match t with
  | TSum l => Nat.max (length l) (list_max (map wide l))
  | TMul a b => Nat.max (wide a) (wide b)
  | _ => 1
  end.
Lemma lmax_in A (f : A -> nat) l x : In x l -> (f x <= list_max (map f l))%nat.
Proof.
  intro H. assert (G := proj1 (list_max_le (map f l) _) (le_n _)). rewrite Forall_forall in G. apply G, in_map, H.
Qed.
(** ** Log-sum-exp *)
Lemma lse_shift A (f g : A -> R) (s : list A) d : s <> [] -> (forall x, In x s -> Rabs (f x - g x) <= d) ->
  Rabs (lse (map f s) - lse (map g s)) <= d.
Proof.
  intros Hs H. unfold lse. rewrite !(Sum_map R_csr).
  assert (P : forall h : A -> R, 0 < RSum (fun x => exp (h x)) s) by (intro h; now apply RSum_exp_pos).
  assert (G : forall f g : A -> R, (forall x, In x s -> f x - g x <= d) -> ln (RSum (fun x => exp (f x)) s) <= ln (RSum (fun x => exp (g x)) s) + d).
  { clear f g H. intros f g H. rewrite <- (ln_exp d), <- ln_mult by auto using exp_pos.
    assert (L : RSum (fun x => exp (f x)) s <= RSum (fun x => exp (g x)) s * exp d).
    { rewrite <- RSum_scar. apply RSum_le. intros x Hx. rewrite <- exp_plus. specialize (H x Hx).
      destruct (Req_dec (f x) (g x + d)) as [->|N]; [lra|]. apply Rlt_le, exp_increasing. lra. }
    destruct (Req_dec (RSum (fun x => exp (f x)) s) (RSum (fun x => exp (g x)) s * exp d)) as [->|N]; [lra|].
    apply Rlt_le, ln_increasing; auto. lra. }
  apply Rabs_le. split.
  - assert (X := G g f). cut (ln (RSum (fun x => exp (g x)) s) <= ln (RSum (fun x => exp (f x)) s) + d); [cbv beta; intro Y; change (K R_csr) with R in *; lra|].
    apply X. intros x Hx. specialize (H x Hx). pose proof (Rle_abs (- (f x - g x))) as Y. rewrite Rabs_Ropp in Y. lra.
  - cut (ln (RSum (fun x => exp (f x)) s) <= ln (RSum (fun x => exp (g x)) s) + d); [intro Y; lra|].
    apply G. intros x Hx. specialize (H x Hx). pose proof (Rle_abs (f x - g x)). lra.
Qed.

Lemma ln_le x y : 0 < x -> x <= y -> ln x <= ln y.
Proof. intros H H'. destruct (Req_dec x y) as [->|N]; [lra|]. apply Rlt_le, ln_increasing; lra. Qed.
Lemma exp_le x y : x <= y -> exp x <= exp y.
Proof. intro H. destruct (Req_dec x y) as [->|N]; [lra|]. apply Rlt_le, exp_increasing. lra. Qed.
Lemma ln1p x : 0 <= x -> 0 <= ln (1 + x) <= x.
Proof.
  intro H. split; [rewrite <- ln_1; apply ln_le; lra|]. rewrite <- (ln_exp x) at 2. apply ln_le; [lra|]. apply exp_ineq1_le.
Qed.
Lemma ln_sum_range A (f : A -> R) l m : l <> [] -> (forall x, In x l -> Rabs (f x) <= m) ->
  Rabs (ln (RSum (fun x => exp (f x)) l)) <= m + ln (INR (length l)).
Proof.
  intros Hl H. assert (L : 1 <= INR (length l)) by (change 1 with (INR 1); apply le_INR; destruct l; [congruence|simpl; lia]).
  assert (L0 : 0 <= ln (INR (length l))) by (rewrite <- ln_1; apply ln_le; lra).
  assert (P : 0 < RSum (fun x => exp (f x)) l) by now apply RSum_exp_pos.
  apply Rabs_le. split.
  - apply Rle_trans with (- m); [lra|]. rewrite <- (ln_exp (- m)). apply ln_le; [apply exp_pos|].
    destruct l as [|x l]; [congruence|]. apply Rle_trans with (exp (f x)).
    + apply exp_le. specialize (H x (or_introl eq_refl)). pose proof (Rle_abs (- f x)) as Y. rewrite Rabs_Ropp in Y. lra.
    + apply (RSum_single (fun x => exp (f x))); [now left|]. intros. apply Rlt_le, exp_pos.
  - rewrite Rplus_comm, <- (ln_exp m), <- ln_mult by (auto using exp_pos; lra). apply ln_le; auto.
    rewrite <- (RSum_const (exp m) l). apply RSum_le. intros x Hx. apply exp_le. specialize (H x Hx). pose proof (Rle_abs (f x)). lra.
Qed.

(** ** The pure part: [zero] as minus infinity *)
Definition plog_ops : ops :=
  {| car := ext; ssum := xlse; smul := xplus; szero := None; sone := Some 0; sover := fun _ => None |}.
Lemma pure_value F (phi : list nat -> R) : xexp (leval plog_ops (fun e => Some (phi e)) (ft F)) = ZS (fparts F) (flist F) phi.
Proof.
  assert (R1 : resp plog_ops (csr_ops R_csr) (fun x y => xexp x = y)).
  { constructor; simpl; auto using exp_0.
    - intros a a' b b' <- <-. apply xplus_exp.
    - intros l l' _ H. rewrite xlse_exp. change (ksum R_csr (map xexp l) = ksum R_csr l').
      induction H as [|x y l l' E H IH]; [reflexivity|]. cbn [map]. rewrite !ksum_cons. now rewrite E, IH. }
  rewrite (@leval_param plog_ops (csr_ops R_csr) _ (fun e => Some (phi e)) (fun e => exp (phi e)) (ft F) R1 (fun e => eq_refl) (ft_wf F)).
  rewrite (ft_correct F R_csr). unfold ZS. apply (Sum_ext R_csr). intro s. unfold sc.
  induction (fparts F s) as [|e l IH]; [unfold Sum; cbn; now rewrite exp_0|].
  rewrite Prod_cons, RSum_cons, exp_plus. cbn [kmul R_csr]. now rewrite IH.
Qed.

Lemma pure_app (a b : deriv) : pure (a ++ b) = pure a && pure b.
Proof. unfold pure. apply forallb_app. Qed.

(** ** Pure derivations *)
Lemma filter_flat A C (f : A -> list C) P l : filter P (flat_map f l) = flat_map (fun x => filter P (f x)) l.
Proof. induction l as [|x l IH]; simpl; auto. now rewrite filter_app, IH. Qed.
Lemma filter_prods (a b : list deriv) : filter pure (prods a b) = prods (filter pure a) (filter pure b).
Proof.
  change deriv with (list atom) in *. unfold prods. induction a as [|x a IH]; auto. cbn [flat_map filter]. rewrite filter_app.
  etransitivity; [apply f_equal, IH|].
  assert (E : filter pure (map (fun y => x ++ y) b) = if pure x then map (fun y => x ++ y) (filter pure b) else []).
  { clear. induction b as [|y b IH]; simpl; [now destruct (pure x)|]. unfold pure at 1. rewrite forallb_app. fold (pure x) (pure y).
    destruct (pure x); simpl in *; [|exact IH]. destruct (pure y); simpl; now rewrite IH. }
  etransitivity; [apply (f_equal (fun l => l ++ _)); exact E|]. destruct (pure x); reflexivity.
Qed.
(** weight of the pure derivations, and of their uses of a potential *)
Definition pz (phi : list nat -> R) (t : term) : R := RSum (fun m => exp (score phi NEG m)) (filter pure (expand t)).
(** spec: weight of the pure derivations, counted with their uses of potential e *)
Definition pm (phi : list nat -> R) (e : list nat) (t : term) : R := RSum (fun m => exp (score phi NEG m) * cnt e m) (filter pure (expand t)).
Lemma pz_sum phi l : pz phi (TSum l) = RSum (pz phi) l.
Proof. unfold pz. cbn [expand]. rewrite filter_flat. apply (Sum_flat_map R_csr). Qed.
Lemma pm_sum phi e l : pm phi e (TSum l) = RSum (pm phi e) l.
Proof. unfold pm. cbn [expand]. rewrite filter_flat. apply (Sum_flat_map R_csr). Qed.
Lemma pz_mul phi a b : pz phi (TMul a b) = pz phi a * pz phi b.
Proof. unfold pz. cbn [expand]. rewrite filter_prods. apply (Sum_prods R_csr). intros x y. rewrite score_app. apply exp_plus. Qed.
Lemma pm_mul phi e a b : pm phi e (TMul a b) = pm phi e a * pz phi b + pz phi a * pm phi e b.
Proof.
  transitivity (RSum (fun x => exp (score phi NEG x) * cnt e x * pz phi b + exp (score phi NEG x) * pm phi e b) (filter pure (expand a))).
  2:{ rewrite RSum_add, !RSum_scar. reflexivity. }
  unfold pm at 1. cbn [expand]. rewrite filter_prods. unfold prods. rewrite RSum_flat_map.
  apply (Sum_ext R_csr). intro x. rewrite RSum_map. unfold pz, pm. rewrite <- !RSum_scal, <- RSum_add.
  apply (Sum_ext R_csr). intro y. rewrite score_app, exp_plus, cnt_app. ring.
Qed.
Lemma pz_pval phi t : xexp (leval plog_ops (fun e => Some (phi e)) t) = pz phi t.
Proof.
  induction t as [e|e| | |l IH|a b IHa IHb] using term_ind'.
  1-4: unfold pz, score, Sum; cbn; rewrite ?Rplus_0_r; reflexivity.
  - cbn [leval ssum plog_ops]. rewrite xlse_exp, pz_sum, (Sum_map R_csr). apply (Sum_ext_in R_csr). intros t Ht. rewrite Forall_forall in IH. now apply IH.
  - cbn [leval smul plog_ops]. now rewrite xplus_exp, IHa, IHb, pz_mul.
Qed.
Lemma cnt_nonneg e m : 0 <= cnt e m.
Proof. unfold cnt. apply RSum_nonneg. intros a _. unfold acount. destruct a; try destruct (list_eq_dec _ _ _); lra. Qed.
Lemma pm_nonneg phi e t : 0 <= pm phi e t.
Proof. apply RSum_nonneg. intros m _. apply Rmult_le_pos; [apply Rlt_le, exp_pos|apply cnt_nonneg]. Qed.
Lemma pm_dead phi e t : pz phi t = 0 -> pm phi e t = 0.
Proof.
  unfold pz, pm. destruct (filter pure (expand t)) as [|m l]; [reflexivity|]. intro H. exfalso.
  assert (0 < RSum (fun m => exp (score phi NEG m)) (m :: l)) by (apply RSum_exp_pos; discriminate). change (K R_csr) with R in *. lra.
Qed.
(** gradients *)
Lemma bp_scale w t : forall p g e, bp w p t g e = g * bp w p t 1 e.
Proof.
  induction t as [e'|e'| | |l IH|a b IHa IHb] using term_ind'; intros p g e; cbn [bp].
  1-2: destruct (list_eq_dec Nat.eq_dec e e'); ring.
  1-2: ring.
  - rewrite <- ksum_scal, mapi_map. f_equal. apply mapi_ext_in. intros i t Ht. rewrite Forall_forall in IH.
    rewrite (IH t Ht _ (g * w p l i)), (IH t Ht _ (1 * w p l i)). ring.
  - rewrite (IHa _ g), (IHb _ g). ring.
Qed.
Lemma mapi_le A (f g : nat -> A -> R) l : forall i, (forall j a, nth_error l j = Some a -> f (i + j)%nat a <= g (i + j)%nat a) ->
  ksum R_csr (mapi f i l) <= ksum R_csr (mapi g i l).
Proof.
  induction l as [|a l IH]; intros i H; [apply Rle_refl|]. cbn [mapi]. rewrite !ksum_cons. apply Rplus_le_compat.
  - specialize (H 0%nat a eq_refl). now rewrite Nat.add_0_r in H.
  - apply IH. intros j x Hx. specialize (H (S j) x Hx). now replace (S i + j)%nat with (i + S j)%nat by lia.
Qed.
Lemma mapi_sum A (f : A -> R) l i : ksum R_csr (mapi (fun _ a => f a) i l) = RSum f l.
Proof. now rewrite mapi_const. Qed.
Lemma Sum_mapi_scar A (f : nat -> A -> R) c l : forall i, ksum R_csr (mapi (fun j a => f j a * c) i l) = ksum R_csr (mapi f i l) * c.
Proof.
  induction l as [|a l IH]; intro i; cbn [mapi]; [cbn; ring|]. rewrite !ksum_cons, IH. cbn [kadd R_csr]. ring.
Qed.
Lemma ksum_mapi_plus A (f g : nat -> A -> R) l : forall i, ksum R_csr (mapi (fun j a => f j a + g j a) i l) = ksum R_csr (mapi f i l) + ksum R_csr (mapi g i l).
Proof.
  induction l as [|a l IH]; intro i; cbn [mapi]; [cbn; ring|]. rewrite !ksum_cons, IH. cbn [kadd R_csr]. ring.
Qed.
(** nested choices *)
Fixpoint hs (t : term) : nat :=
  match t with
  | TSum l => S (list_max (map hs l))
  | TMul a b => Nat.max (hs a) (hs b)
  | _ => 0
  end.

Section Log.
  Variables (u : R) (fadd : R -> R -> R) (flse : list R -> R) (B W : R) (A : nat) (phi : list nat -> R).
  Hypothesis Hu : 0 <= u <= 1.
  Hypothesis Hadd : add_acc u fadd.
  Hypothesis Hlse : lse_acc A u flse.
  Hypothesis HB : 0 <= B.
  Hypothesis Hphi : forall e, Rabs (phi e) <= B.
  Hypothesis HA : (1 <= A)%nat.
  Hypothesis HW : 0 <= W.
  (** weight of the derivations through the finite zero, at one sum *)
  Definition tail : R := INR A * exp (W - 50000).
  (** error added by one operation; loss of one operation on a masked cell *)
  Definition step_err : R := u * W + tail.
  (** proof device: error of one operation, with the error of the constant -1e5 *)
  Definition step_loss : R := step_err + u * 100001.
  (** the rounded value of a node in the log semiring (semirings.py:98-112) *)
  Definition fval : term -> R := leval (flog_ops NEG fadd flse) phi.
  (** spec: the exact value of a node, without the derivations that use a masked entry *)
  Definition pval : term -> ext := leval plog_ops (fun e => Some (phi e)).
  (** spec: bound on the exact value of a node *)
  Definition mag (t : term) : R := B * INR (lv t) + INR (nsum t) * ln (INR A).

  Lemma lnA : 0 <= ln (INR A).
  Proof. rewrite <- ln_1. apply ln_le; [lra|]. change 1 with (INR 1). now apply le_INR. Qed.
  Lemma tail_nonneg : 0 <= tail.
  Proof. apply Rmult_le_pos; [apply pos_INR|apply Rlt_le, exp_pos]. Qed.
  Lemma err_nonneg : 0 <= step_err.
  Proof. unfold step_err. pose proof tail_nonneg. assert (0 <= u * W) by (apply Rmult_le_pos; lra). lra. Qed.
  Lemma loss_nonneg : 0 <= step_loss.
  Proof. unfold step_loss. pose proof err_nonneg. assert (0 <= u * 100001) by (apply Rmult_le_pos; lra). lra. Qed.

  (** spec: the node is within the range of the error bound *)
  Definition fits (t : term) : Prop := (wide t <= A)%nat /\ mag t + 2 <= W /\ INR (nops t) * step_err <= 1 /\ W + INR (nops t) * step_loss <= 50000.
  (** proof device: the rounded value is close to the exact one *)
  Definition close (t : term) : Prop :=
    match pval t with
    | Some p => Rabs (fval t - p) <= INR (nops t) * step_err /\ Rabs p <= mag t
    | None => fval t <= - 100000 + mag t + INR (nops t) * step_loss
    end.
  Lemma fits_child l t : In t l -> fits (TSum l) -> fits t.
  Proof.
    intros Hin (H1 & H2 & H3 & H4). cbn [wide nops] in *. pose proof (lmax_in wide l t Hin) as X1. pose proof (lmax_in nops l t Hin) as X2.
    pose proof (lmax_in lv l t Hin) as X3. pose proof (lmax_in nsum l t Hin) as X4.
    assert (Y : INR (nops t) <= INR (S (list_max (map nops l)))) by (apply le_INR; lia).
    split; [lia|]. split; [|split].
    - unfold mag in *. cbn [lv nsum] in H2. apply le_INR in X3. assert (X4' : INR (nsum t) <= INR (S (list_max (map nsum l)))) by (apply le_INR; lia).
      assert (B * INR (lv t) <= B * INR (list_max (map lv l))) by (now apply Rmult_le_compat_l).
      assert (INR (nsum t) * ln (INR A) <= INR (S (list_max (map nsum l))) * ln (INR A)) by (apply Rmult_le_compat_r; auto; apply lnA). lra.
    - eapply Rle_trans; [|exact H3]. apply Rmult_le_compat_r; auto. apply err_nonneg.
    - eapply Rle_trans; [|exact H4]. apply Rplus_le_compat_l, Rmult_le_compat_r; auto. apply loss_nonneg.
  Qed.
  Lemma narrow l : fits (TSum l) -> (length (map fval l) <= A)%nat.
  Proof. intros [H _]. cbn [wide] in H. rewrite map_length. lia. Qed.
  Lemma len_le l : fits (TSum l) -> (length l <= A)%nat.
  Proof. intros [H _]. cbn [wide] in H. lia. Qed.
  Lemma mag_nonneg t : 0 <= mag t.
  Proof. unfold mag. pose proof lnA. apply Rplus_le_le_0_compat; apply Rmult_le_pos; auto using pos_INR. Qed.
  Lemma fits_mul a b : fits (TMul a b) -> fits a /\ fits b.
  Proof.
    intros (H1 & H2 & H3 & H4). cbn [wide nops] in *.
    assert (M : mag (TMul a b) = mag a + mag b) by (unfold mag; cbn [lv nsum]; rewrite !plus_INR; ring).
    pose proof (mag_nonneg a). pose proof (mag_nonneg b). rewrite M in H2. rewrite S_INR, plus_INR in H3, H4.
    pose proof err_nonneg. pose proof loss_nonneg.
    assert (0 <= INR (nops a) * step_err) by (apply Rmult_le_pos; auto using pos_INR).
    assert (0 <= INR (nops b) * step_err) by (apply Rmult_le_pos; auto using pos_INR).
    assert (0 <= INR (nops a) * step_loss) by (apply Rmult_le_pos; auto using pos_INR).
    assert (0 <= INR (nops b) * step_loss) by (apply Rmult_le_pos; auto using pos_INR).
    split; (split; [lia|]); (split; [lra|]); split; lra.
  Qed.
  Lemma abs2 x y d : Rabs (x - y) <= d -> - d <= x - y <= d.
  Proof. intro H. pose proof (Rle_abs (x - y)). pose proof (Rle_abs (- (x - y))) as Y. rewrite Rabs_Ropp in Y. lra. Qed.

  (** a sum some of whose alternatives are not masked *)
  Lemma sum_alive l : l <> [] -> (forall t, In t l -> fits t /\ close t) -> fits (TSum l) ->
    forall p, xlse (map pval l) = Some p ->
    (Rabs (flse (map fval l) - p) <= INR (nops (TSum l)) * step_err /\ Rabs p <= mag (TSum l)) /\
    (1 + Rabs (lse (map fval l)) <= W /\ Rabs (lse (map fval l) - p) <= INR (nops (TSum l)) * step_err).
  Proof.
    intros Hne Hl (H1 & H2 & H3 & H4) p Hp.
    set (val t := match pval t with Some p => p | None => 0 end).
    set (al := filter (fun t => negb (is_none (pval t))) l). set (de := filter (fun t => is_none (pval t)) l).
    assert (Hal : forall t, In t al -> In t l /\ pval t = Some (val t)).
    { intros t Ht. apply filter_In in Ht as [Hin Hn]. split; auto. unfold val. destruct (pval t); [reflexivity|discriminate]. }
    unfold xlse in Hp. destruct (forallb is_none (map pval l)) eqn:E; [discriminate|]. injection Hp as Ep.
    assert (Ane : al <> []).
    { intro N. apply Bool.not_true_iff_false in E. apply E. apply forallb_forall. intros x Hx. apply in_map_iff in Hx as (t & <- & Ht).
      destruct (is_none (pval t)) eqn:Et; auto. exfalso. assert (In t al) by (apply filter_In; rewrite Et; auto). rewrite N in H. destruct H. }
    assert (Split : forall f : term -> R, RSum f l = RSum f al + RSum f de).
    { intro f. unfold al, de. clear. induction l as [|t l IH]; [unfold Sum; cbn; ring|]. cbn [filter]. destruct (is_none (pval t)); cbn [negb];
        rewrite !RSum_cons, IH; ring. }
    assert (Ep' : p = ln (RSum (fun t => exp (val t)) al)).
    { rewrite <- Ep. rewrite (Sum_map R_csr), Split. rewrite (Sum_ext_in R_csr _ (fun t => exp (val t)) al).
      2:{ intros t Ht. apply Hal in Ht as [_ Ht]. now rewrite Ht. }
      rewrite (Sum_ext_in R_csr _ (fun _ => 0) de).
      2:{ intros t Ht. apply filter_In in Ht as [_ Ht]. destruct (pval t); [discriminate|reflexivity]. }
      rewrite RSum_const. f_equal. cbn [K R_csr]. ring. }
    set (nm := list_max (map nops l)). set (e1 := INR nm * step_err).
    pose proof err_nonneg as Er. pose proof lnA as LA. pose proof tail_nonneg as Tn.
    assert (He1 : e1 + step_err = INR (nops (TSum l)) * step_err) by (unfold e1; cbn [nops]; fold nm; rewrite S_INR; ring).
    assert (Hclose : forall t, In t al -> Rabs (fval t - val t) <= e1 /\ Rabs (val t) <= B * INR (list_max (map lv l)) + INR (list_max (map nsum l)) * ln (INR A)).
    { intros t Ht. destruct (Hal t Ht) as [Hin Hv]. destruct (Hl t Hin) as [_ C]. unfold close in C. rewrite Hv in C. destruct C as [C1 C2]. split.
      - eapply Rle_trans; [exact C1|]. unfold e1. apply Rmult_le_compat_r; auto. apply le_INR. now apply (lmax_in nops).
      - eapply Rle_trans; [exact C2|]. unfold mag. apply Rplus_le_compat.
        + apply Rmult_le_compat_l; auto. apply le_INR. now apply (lmax_in lv).
        + apply Rmult_le_compat_r; auto. apply le_INR. now apply (lmax_in nsum). }
    assert (Hlen : (length al <= A)%nat).
    { assert (length al <= length l)%nat by (unfold al; clear; induction l as [|t l IH]; cbn; [lia|destruct (negb _); cbn; lia]). cbn [wide] in H1. lia. }
    assert (Hpm : Rabs p <= mag (TSum l)).
    { rewrite Ep'. eapply Rle_trans; [apply (ln_sum_range val Ane (fun t Ht => proj2 (Hclose t Ht)))|].
      unfold mag. cbn [lv nsum]. rewrite S_INR. assert (ln (INR (length al)) <= ln (INR A)); [|lra].
      apply ln_le; [|now apply le_INR]. apply lt_0_INR. destruct al; [congruence|simpl; lia]. }
    set (S1 := RSum (fun t => exp (fval t)) al). set (S2 := RSum (fun t => exp (fval t)) de).
    assert (P1 : 0 < S1) by (now apply RSum_exp_pos).
    assert (D1 : Rabs (ln S1 - p) <= e1).
    { rewrite Ep'. pose proof (@lse_shift term fval val al e1 Ane (fun t Ht => proj1 (Hclose t Ht))) as X. unfold lse in X. rewrite !(Sum_map R_csr) in X. exact X. }
    assert (Hloss : forall t, In t de -> fval t <= -50000).
    { intros t Ht. apply filter_In in Ht as [Hin Hn]. destruct (Hl t Hin) as [(_ & M & _ & L) C]. unfold close in C. destruct (pval t); [discriminate|]. lra. }
    assert (P2 : 0 <= S2 <= INR A * exp (-50000)).
    { split; [apply RSum_nonneg; intros; apply Rlt_le, exp_pos|].
      apply Rle_trans with (RSum (fun _ : term => exp (-50000)) de); [apply RSum_le; intros t Ht; apply exp_le; auto|].
      rewrite RSum_const. apply Rmult_le_compat_r; [apply Rlt_le, exp_pos|]. apply le_INR.
      assert (length de <= length l)%nat by (unfold de; clear; induction l as [|t l IH]; cbn; [lia|destruct (is_none _); cbn; lia]). cbn [wide] in H1. lia. }
    apply abs2 in D1. assert (Hp1 := Hpm). rewrite <- (Rminus_0_r p) in Hp1. apply abs2 in Hp1. rewrite Rminus_0_r in Hp1.
    assert (E1 : e1 <= 1) by lra.
    assert (Q : 0 <= S2 / S1 <= tail).
    { split; [apply Rmult_le_pos; [apply P2|apply Rlt_le, Rinv_0_lt_compat, P1]|].
      apply Rmult_le_reg_r with S1; auto. unfold Rdiv. rewrite Rmult_assoc, Rinv_l, Rmult_1_r by lra.
      eapply Rle_trans; [apply P2|]. unfold tail. rewrite Rmult_assoc. apply Rmult_le_compat_l; [apply pos_INR|].
      rewrite <- (exp_ln S1) by auto. rewrite <- exp_plus. apply exp_le. lra. }
    assert (L : lse (map fval l) = ln S1 + ln (1 + S2 / S1)).
    { unfold lse. rewrite (Sum_map R_csr), Split. fold S1 S2. rewrite <- ln_mult by lra. f_equal. cbn [K R_csr]. field. lra. }
    pose proof (ln1p (proj1 Q)) as Q2. assert (Lb : - (e1 + tail) <= lse (map fval l) - p <= e1 + tail) by (rewrite L; lra).
    assert (Ht1 : e1 + tail <= 1) by (unfold step_err in *; assert (0 <= u * W) by (apply Rmult_le_pos; lra); lra).
    assert (La : Rabs (lse (map fval l)) <= mag (TSum l) + 1) by (apply Rabs_le; lra).
    assert (Hm : map fval l <> []) by (destruct l; [congruence|discriminate]). assert (Hn : (length (map fval l) <= A)%nat) by (rewrite map_length; cbn [wide] in H1; lia). pose proof (Hlse Hm Hn) as Ff.
    assert (Fu : u * (1 + Rabs (lse (map fval l))) <= u * W) by (apply Rmult_le_compat_l; lra).
    assert (Uw : 0 <= u * W) by (apply Rmult_le_pos; lra).
    split; [split; [|exact Hpm]|split; [lra|]].
    - rewrite <- He1. apply abs2 in Ff. apply Rabs_le. unfold step_err. lra.
    - rewrite <- He1. apply Rabs_le. unfold step_err. lra.
  Qed.
  Lemma neg_round x y s0 : Rabs (x - y) <= u * Rabs y -> y <= s0 -> -100000 <= s0 <= 0 -> x <= s0 + u * 100000.
  Proof.
    intros H Hy Hs. apply abs2 in H. rewrite (Rabs_left1 y) in H by lra. assert (u * - s0 <= u * 100000) by (apply Rmult_le_compat_l; lra).
    assert (0 <= (1 - u) * (s0 - y)) by (apply Rmult_le_pos; lra). lra.
  Qed.
  (** a sum all of whose alternatives are masked *)
  Lemma sum_dead l : l <> [] -> (forall t, In t l -> fits t /\ close t) -> fits (TSum l) -> xlse (map pval l) = None ->
    flse (map fval l) <= - 100000 + mag (TSum l) + INR (nops (TSum l)) * step_loss /\ lse (map fval l) <= 0.
  Proof.
    intros Hne Hl (H1 & H2 & H3 & H4) Hp. unfold xlse in Hp. destruct (forallb is_none (map pval l)) eqn:E; [|discriminate].
    rewrite forallb_forall in E. set (nm := list_max (map nops l)) in *. pose proof loss_nonneg as Lo. pose proof lnA as LA.
    cbn [nops] in H4 |- *. fold nm in H4 |- *. rewrite S_INR in H4 |- *. 
    set (mg := B * INR (list_max (map lv l)) + INR (list_max (map nsum l)) * ln (INR A)).
    assert (Mg : mag (TSum l) = mg + ln (INR A)) by (unfold mag, mg; cbn [lv nsum]; rewrite S_INR; ring). rewrite Mg in *.
    set (q := -100000 + mg + INR nm * step_loss).
    assert (Hd : forall t, In t l -> fval t <= q).
    { intros t Ht. destruct (Hl t Ht) as [_ C]. unfold close in C. assert (N := E (pval t) (in_map pval l t Ht)). destruct (pval t); [discriminate|].
      eapply Rle_trans; [exact C|]. unfold q. apply Rplus_le_compat; [apply Rplus_le_compat_l; unfold mag, mg; apply Rplus_le_compat|].
      - apply Rmult_le_compat_l; auto. apply le_INR. now apply (lmax_in lv).
      - apply Rmult_le_compat_r; auto. apply le_INR. now apply (lmax_in nsum).
      - apply Rmult_le_compat_r; auto. apply le_INR. now apply (lmax_in nops). }
    assert (Hm : map fval l <> []) by (destruct l; [congruence|discriminate]). assert (Hn : (length (map fval l) <= A)%nat) by (rewrite map_length; cbn [wide] in H1; lia). pose proof (Hlse Hm Hn) as Ff.
    assert (L : lse (map fval l) <= q + ln (INR A)).
    { unfold lse. rewrite (Sum_map R_csr). apply Rle_trans with (ln (INR (length l) * exp q)).
      - apply ln_le; [now apply RSum_exp_pos|]. rewrite <- (RSum_const (exp q) l). apply RSum_le. intros t Ht. apply exp_le. auto.
      - assert (0 < INR (length l)) by (apply lt_0_INR; destruct l; [congruence|simpl; lia]).
        rewrite ln_mult, ln_exp by auto using exp_pos. rewrite Rplus_comm. apply Rplus_le_compat_l. apply ln_le; auto. apply le_INR. cbn [wide] in H1. lia. }
    assert (Sn : 0 <= INR nm * step_loss) by (apply Rmult_le_pos; auto using pos_INR).
    set (y := lse (map fval l)) in *. set (s0 := q + ln (INR A)) in *.
    assert (Mn : 0 <= mg) by (unfold mg; apply Rplus_le_le_0_compat; apply Rmult_le_pos; auto using pos_INR).
    assert (Rg : -100000 <= s0 <= 0) by (unfold s0, q; lra).
    split; [|lra]. rewrite (Rabs_left1 y) in Ff by lra. apply abs2 in Ff. assert (u * - s0 <= u * 100000) by (apply Rmult_le_compat_l; lra).
    assert (0 <= (1 - u) * (s0 - y)) by (apply Rmult_le_pos; lra).
    pose proof err_nonneg. unfold s0, q in *. replace ((INR nm + 1) * step_loss) with (INR nm * step_loss + step_err + u * 100001) by (unfold step_loss; ring). lra.
  Qed.

  Theorem log_close t : twf t -> fits t -> close t.
  Proof.
    induction t as [e|e| | |l IH|a b IHa IHb] using term_ind'; intros Wf Hf.
    - unfold close, pval, fval, mag. cbn [leval nops lv nsum]. simpl INR. rewrite Rminus_diag_eq, Rabs_R0 by reflexivity. specialize (Hphi e). split; lra.
    - unfold close, pval, fval, mag. cbn [leval nops lv nsum sover plog_ops flog_ops]. simpl INR. unfold NEG. lra.
    - unfold close, pval, fval, mag. cbn [leval nops lv nsum sone plog_ops flog_ops]. simpl INR. rewrite Rminus_0_r, Rabs_R0. split; lra.
    - unfold close, pval, fval, mag. cbn [leval nops lv nsum szero plog_ops flog_ops]. simpl INR. unfold NEG. lra.
    - inversion_clear Wf as [| | | |? Hne Wl|]. rewrite Forall_forall in IH, Wl.
      assert (Hl : forall t, In t l -> fits t /\ close t) by (intros t Ht; assert (fits t) by (eapply fits_child; eauto); auto).
      unfold close. change (pval (TSum l)) with (xlse (map pval l)). change (fval (TSum l)) with (flse (map fval l)).
      destruct (xlse (map pval l)) as [p|] eqn:E; [now apply sum_alive|now apply sum_dead].
    - inversion_clear Wf as [| | | | |? ? Wa Wb]. destruct (fits_mul Hf) as [Fa Fb]. specialize (IHa Wa Fa). specialize (IHb Wb Fb).
      unfold close in *. change (pval (TMul a b)) with (xplus (pval a) (pval b)). change (fval (TMul a b)) with (fadd (fval a) (fval b)).
      destruct Fa as (_ & Ma & Ea & La), Fb as (_ & Mb & Eb & Lb), Hf as (_ & M & E3 & L3).
      assert (MM : mag (TMul a b) = mag a + mag b) by (unfold mag; cbn [lv nsum]; rewrite !plus_INR; ring).
      pose proof (mag_nonneg a). pose proof (mag_nonneg b). pose proof err_nonneg as Er. pose proof loss_nonneg as Lo. pose proof lnA as LA. pose proof tail_nonneg as Tn.
      cbn [nops] in *. rewrite S_INR, plus_INR in *. pose proof (@Hadd (fval a) (fval b)) as HAd.
      pose proof (pos_INR (nops a)) as Na. pose proof (pos_INR (nops b)) as Nb.
      set (ea := INR (nops a) * step_err) in *. set (eb := INR (nops b) * step_err) in *. set (la := INR (nops a) * step_loss) in *. set (lb := INR (nops b) * step_loss) in *.
      replace ((INR (nops a) + INR (nops b) + 1) * step_err) with (ea + eb + step_err) in * by (unfold ea, eb; ring).
      replace ((INR (nops a) + INR (nops b) + 1) * step_loss) with (la + lb + step_loss) in * by (unfold la, lb; ring).
      assert (0 <= ea) by (apply Rmult_le_pos; auto). assert (0 <= eb) by (apply Rmult_le_pos; auto).
      assert (0 <= la) by (apply Rmult_le_pos; auto). assert (0 <= lb) by (apply Rmult_le_pos; auto).
      destruct (pval a) as [pa|], (pval b) as [pb|]; cbn [xplus].
      + destruct IHa as [A1 A2], IHb as [B1 B2]. split.
        2:{ rewrite MM. eapply Rle_trans; [apply Rabs_triang|]. lra. }
        assert (S0 : Rabs (fval a + fval b) <= W).
        { assert (A1' := abs2 _ _ A1). assert (B1' := abs2 _ _ B1). rewrite <- (Rminus_0_r pa) in A2. rewrite <- (Rminus_0_r pb) in B2.
          apply abs2 in A2, B2. apply Rabs_le. lra. }
        assert (u * Rabs (fval a + fval b) <= u * W) by (apply Rmult_le_compat_l; lra).
        apply abs2 in HAd, A1, B1. apply Rabs_le. unfold step_err in *. lra.
      + destruct IHa as [A1 A2]. apply abs2 in A1. rewrite <- (Rminus_0_r pa) in A2. apply abs2 in A2. rewrite Rminus_0_r in A2.
        assert (ea <= la) by (unfold ea, la; apply Rmult_le_compat_l; auto; unfold step_loss; assert (0 <= u * 100001) by (apply Rmult_le_pos; lra); lra).
        assert (S0 : fval a + fval b <= - 100000 + mag a + mag b + la + lb) by lra. rewrite MM.
        eapply Rle_trans; [apply (@neg_round _ _ _ HAd S0); lra|]. unfold step_loss in *. assert (0 <= u) by lra. lra.
      + destruct IHb as [B1 B2]. apply abs2 in B1. rewrite <- (Rminus_0_r pb) in B2. apply abs2 in B2. rewrite Rminus_0_r in B2.
        assert (eb <= lb) by (unfold eb, lb; apply Rmult_le_compat_l; auto; unfold step_loss; assert (0 <= u * 100001) by (apply Rmult_le_pos; lra); lra).
        assert (S0 : fval a + fval b <= - 100000 + mag a + mag b + la + lb) by lra. rewrite MM.
        eapply Rle_trans; [apply (@neg_round _ _ _ HAd S0); lra|]. unfold step_loss in *. assert (0 <= u) by lra. lra.
      + assert (S0 : fval a + fval b <= - 100000 + mag a + mag b + la + lb) by lra. rewrite MM.
        eapply Rle_trans; [apply (@neg_round _ _ _ HAd S0); lra|]. unfold step_loss in *. assert (0 <= u) by lra. lra.
  Qed.

  (** *** Magnitude of every cell *)
  Variable V : R.
  Hypothesis HBz : B <= 100000.
  Hypothesis HVW : W <= V.
  (** spec: a masked node stays far below the others *)
  Definition deep (t : term) : Prop := 100000 * INR (tdeg t) + INR (nops t) * (u * (1 + V)) <= V.
  Let uV : 0 <= u * (1 + V).
  Proof. apply Rmult_le_pos; lra. Qed.
  Lemma tdeg_in l t : In t l -> (tdeg t <= tdeg (TSum l))%nat.
  Proof.
    cbn [tdeg]. induction l as [|x l IHl]; simpl; [intros []|]. intros [->|Ht]; [lia|]. specialize (IHl Ht). lia.
  Qed.
  Lemma deep_child l t : In t l -> deep (TSum l) -> deep t.
  Proof.
    intros Hin H. unfold deep in *. pose proof (le_INR _ _ (tdeg_in l t Hin)). pose proof (lmax_in nops l t Hin).
    assert (INR (nops t) <= INR (nops (TSum l))) by (apply le_INR; cbn [nops]; lia).
    assert (INR (nops t) * (u * (1 + V)) <= INR (nops (TSum l)) * (u * (1 + V))) by (now apply Rmult_le_compat_r). lra.
  Qed.
  Lemma deep_mul a b : deep (TMul a b) -> deep a /\ deep b.
  Proof.
    unfold deep. cbn [tdeg nops]. rewrite S_INR, !plus_INR. intro H.
    assert (forall t, 0 <= INR (nops t) * (u * (1 + V))) by (intro; apply Rmult_le_pos; auto using pos_INR).
    pose proof (H0 a). pose proof (H0 b). pose proof (pos_INR (tdeg a)). pose proof (pos_INR (tdeg b)). split; lra.
  Qed.
  Lemma lse_ge l x : In x l -> x <= lse l.
  Proof.
    intro H. unfold lse. rewrite <- (ln_exp x) at 1. apply ln_le; [apply exp_pos|]. apply (RSum_single exp); auto. intros. apply Rlt_le, exp_pos.
  Qed.
  Lemma up t : fits t -> close t -> fval t <= W.
  Proof.
    intros (H1 & H2 & H3 & H4) C. unfold close in C. destruct (pval t) as [p|].
    - destruct C as [C1 C2]. apply abs2 in C1. rewrite <- (Rminus_0_r p) in C2. apply abs2 in C2. lra.
    - lra.
  Qed.
  Lemma sum_facts l : twf (TSum l) -> fits (TSum l) -> forall t, In t l -> twf t /\ fits t /\ close t.
  Proof.
    intros Wf Hf t Ht. inversion_clear Wf as [| | | |? Hne Wl|]. rewrite Forall_forall in Wl.
    assert (fits t) by (eapply fits_child; eauto). auto using log_close.
  Qed.
  Theorem low t : twf t -> fits t -> deep t -> - (100000 * INR (tdeg t) + INR (nops t) * (u * (1 + V))) <= fval t.
  Proof.
    induction t as [e|e| | |l IH|a b IHa IHb] using term_ind'; intros Wf Hf Hd.
    1-4: unfold fval; cbn [leval nops tdeg sover szero sone flog_ops]; simpl INR; unfold NEG; try lra.
    - specialize (Hphi e). rewrite <- (Rminus_0_r (phi e)) in Hphi. apply abs2 in Hphi. lra.
    - pose proof (sum_facts Wf Hf) as Hl. inversion Wf as [| | | |? Hne Wl|]; subst. rewrite Forall_forall in IH.
      change (fval (TSum l)) with (flse (map fval l)).
      assert (Hm : map fval l <> []) by (destruct l; [congruence|discriminate]). pose proof (Hlse Hm (narrow Hf)) as Ff.
      assert (Hlow : forall t, In t l -> - (100000 * INR (tdeg (TSum l)) + INR (list_max (map nops l)) * (u * (1 + V))) <= fval t).
      { intros t Ht. destruct (Hl t Ht) as (W1 & F1 & _). eapply Rle_trans; [|apply (IH t Ht W1 F1 (deep_child _ Ht Hd))].
        pose proof (le_INR _ _ (tdeg_in l t Ht)). pose proof (le_INR _ _ (lmax_in nops l t Ht)).
        assert (INR (nops t) * (u * (1 + V)) <= INR (list_max (map nops l)) * (u * (1 + V))) by (now apply Rmult_le_compat_r). lra. }
      set (q := 100000 * INR (tdeg (TSum l)) + INR (list_max (map nops l)) * (u * (1 + V))) in *.
      assert (Lq : - q <= lse (map fval l)).
      { destruct l as [|t l]; [congruence|]. eapply Rle_trans; [apply (Hlow t); now left|]. apply lse_ge. now left. }
      assert (Q : 100000 * INR (tdeg (TSum l)) + INR (nops (TSum l)) * (u * (1 + V)) = q + u * (1 + V)) by (unfold q; cbn [nops]; rewrite S_INR; ring).
      assert (Hq : q + u * (1 + V) <= V) by (unfold deep in Hd; lra).
      assert (Lu : lse (map fval l) <= V).
      { destruct (xlse (map pval l)) as [p|] eqn:E.
        - destruct (sum_alive Hne (fun t Ht => proj2 (Hl t Ht)) Hf E) as [_ [X _]]. pose proof (Rle_abs (lse (map fval l))). lra.
        - destruct (sum_dead Hne (fun t Ht => proj2 (Hl t Ht)) Hf E) as [_ X]. lra. }
      assert (La : Rabs (lse (map fval l)) <= V) by (apply Rabs_le; lra).
      assert (u * (1 + Rabs (lse (map fval l))) <= u * (1 + V)) by (apply Rmult_le_compat_l; lra).
      apply abs2 in Ff. rewrite Q. lra.
    - inversion_clear Wf as [| | | | |? ? Wa Wb]. destruct (fits_mul Hf) as [Fa Fb]. destruct (deep_mul Hd) as [Da Db].
      specialize (IHa Wa Fa Da). specialize (IHb Wb Fb Db). change (fval (TMul a b)) with (fadd (fval a) (fval b)).
      pose proof (@Hadd (fval a) (fval b)) as HAd. unfold deep in *. cbn [nops tdeg] in *. rewrite S_INR, !plus_INR in *.
      set (qa := INR (nops a) * (u * (1 + V))) in *. set (qb := INR (nops b) * (u * (1 + V))) in *.
      replace ((INR (nops a) + INR (nops b) + 1) * (u * (1 + V))) with (qa + qb + u * (1 + V)) in * by (unfold qa, qb; ring).
      assert (Up : fval a + fval b <= W).
      { pose proof (log_close Wa Fa) as Ca. pose proof (log_close Wb Fb) as Cb. unfold close in Ca, Cb.
        destruct Fa as (_ & Ma & Ea & La), Fb as (_ & Mb & Eb & Lb), Hf as (_ & M & E3 & L3).
        assert (MM : mag (TMul a b) = mag a + mag b) by (unfold mag; cbn [lv nsum]; rewrite !plus_INR; ring).
        pose proof (mag_nonneg a). pose proof (mag_nonneg b). pose proof err_nonneg. cbn [nops] in E3. rewrite S_INR, plus_INR in E3.
        assert (forall t p, Rabs (fval t - p) <= INR (nops t) * step_err /\ Rabs p <= mag t -> fval t <= mag t + INR (nops t) * step_err).
        { intros t p [X1 X2]. apply abs2 in X1. rewrite <- (Rminus_0_r p) in X2. apply abs2 in X2. lra. }
        destruct (pval a), (pval b); try (apply H2 in Ca); try (apply H2 in Cb); lra. }
      assert (La : Rabs (fval a + fval b) <= V) by (apply Rabs_le; lra).
      assert (u * Rabs (fval a + fval b) <= u * (1 + V)) by (apply Rmult_le_compat_l; lra).
      apply abs2 in HAd. lra.
  Qed.
  Lemma lse_range l : twf (TSum l) -> fits (TSum l) -> deep (TSum l) -> Rabs (lse (map fval l)) <= V.
  Proof.
    intros Wf Hf Hd. pose proof (sum_facts Wf Hf) as Hl. inversion Wf as [| | | |? Hne Wl|]; subst.
    assert (Lu : lse (map fval l) <= V).
    { destruct (xlse (map pval l)) as [p|] eqn:E.
      - destruct (sum_alive Hne (fun t Ht => proj2 (Hl t Ht)) Hf E) as [_ [X _]]. pose proof (Rle_abs (lse (map fval l))). lra.
      - destruct (sum_dead Hne (fun t Ht => proj2 (Hl t Ht)) Hf E) as [_ X]. lra. }
    apply Rabs_le. split; [|exact Lu]. destruct l as [|t l]; [congruence|].
    assert (Hin : In t (t :: l)) by now left. destruct (Hl t Hin) as (W1 & F1 & _). pose proof (deep_child _ Hin Hd) as D1.
    pose proof (low W1 F1 D1) as X. unfold deep in D1. eapply Rle_trans; [|apply lse_ge; left; reflexivity]. lra.
  Qed.

  (** *** Weights of a backward pass *)
  (** torch's logsumexp backward is exp(x_i - result); torch.multinomial draws with softmax(x).
      [fy]: the rounded log-sum-exp that is subtracted; v: relative error of the difference
      and of the exponential; s: absolute error where the exponential underflows *)
  Variables (v s : R) (fy : list R -> R) (w : rule).
  Hypothesis Hv : 0 <= v.
  Hypothesis Hs : 0 <= s.
  Hypothesis Hfy : lse_acc A u fy.
  (** assumed of the weights of the backward pass (semirings.py:102-104, sample.py:21): error va, leak s *)
  Definition w_acc : Prop := forall p l i t, (length l <= A)%nat -> nth_error l i = Some t ->
    let d := fval t - fy (map fval l) in 0 <= w p l i /\ exp (d - v * (1 + Rabs d)) - s <= w p l i <= exp (d + v * (1 + Rabs d)) + s.
  Hypothesis Hw : w_acc.
  (** the error of a weight, at a sum that is not masked and at any sum *)
  Definition va : R := v * (1 + 2 * W).
  (** proof device: error of one weight *)
  Definition vd : R := v * (2 + 3 * V).
  Lemma va_nonneg : 0 <= va.
  Proof. apply Rmult_le_pos; lra. Qed.
  Lemma vd_nonneg : 0 <= vd.
  Proof. apply Rmult_le_pos; lra. Qed.
  Lemma w_pos p l i t : (length l <= A)%nat -> nth_error l i = Some t -> 0 <= w p l i.
  Proof. intros H1 H2. apply (Hw p l i H1 H2). Qed.
  Lemma w_widen p l i t x : (length l <= A)%nat -> nth_error l i = Some t -> 1 + Rabs (fval t - fy (map fval l)) <= x ->
    exp (fval t - fy (map fval l) - v * x) - s <= w p l i <= exp (fval t - fy (map fval l) + v * x) + s.
  Proof.
    intros H1 H2 H3. destruct (Hw p l i H1 H2) as (_ & L & U). cbv zeta in L, U. set (d := fval t - fy (map fval l)) in *.
    assert (v * (1 + Rabs d) <= v * x) by (now apply Rmult_le_compat_l). split.
    - eapply Rle_trans; [|exact L]. apply Rplus_le_compat_r, exp_le. lra.
    - eapply Rle_trans; [exact U|]. apply Rplus_le_compat_r, exp_le. lra.
  Qed.
  Lemma w_alive p l i t q q' : twf (TSum l) -> fits (TSum l) -> nth_error l i = Some t -> pval t = Some q -> pval (TSum l) = Some q' ->
    exp (fval t - fy (map fval l) - va) - s <= w p l i <= exp (fval t - fy (map fval l) + va) + s.
  Proof.
    intros Wf Hf Hi Hq Hq'. pose proof (sum_facts Wf Hf) as Hl. inversion Wf as [| | | |? Hne Wl|]; subst.
    apply w_widen; [rewrite <- (map_length fval); now apply narrow|exact Hi|].
    destruct (sum_alive Hne (fun t Ht => proj2 (Hl t Ht)) Hf Hq') as [_ [Lw _]].
    assert (Hm : map fval l <> []) by (destruct l; [congruence|discriminate]). pose proof (Hfy Hm (narrow Hf)) as Fy.
    destruct (Hl t (nth_error_In _ _ Hi)) as (_ & (_ & H2 & H3 & H4) & C). unfold close in C. rewrite Hq in C. destruct C as [C1 C2].
    assert (u * (1 + Rabs (lse (map fval l))) <= u * W) by (apply Rmult_le_compat_l; lra).
    assert (Uw : u * W <= 1).
    { destruct Hf as (_ & _ & E & _). pose proof tail_nonneg. pose proof err_nonneg. assert (step_err <= INR (nops (TSum l)) * step_err) by (cbn [nops]; rewrite S_INR; pose proof (pos_INR (list_max (map nops l))); assert (0 <= INR (list_max (map nops l)) * step_err) by (now apply Rmult_le_pos); lra).
      unfold step_err in *. lra. }
    rewrite <- (Rminus_0_r q) in C2. apply abs2 in C1, C2, Fy. assert (Lx := Rle_refl (Rabs (lse (map fval l)))).
    rewrite <- (Rminus_0_r (lse (map fval l))) in Lx at 1. apply abs2 in Lx.
    assert (Rabs (fval t - fy (map fval l)) <= 2 * W); [apply Rabs_le|]; lra.
  Qed.
  Lemma w_any p l i t : twf (TSum l) -> fits (TSum l) -> deep (TSum l) -> nth_error l i = Some t ->
    exp (fval t - fy (map fval l) - vd) - s <= w p l i <= exp (fval t - fy (map fval l) + vd) + s.
  Proof.
    intros Wf Hf Hd Hi. pose proof (sum_facts Wf Hf) as Hl. pose proof (lse_range Wf Hf Hd) as La. inversion Wf as [| | | |? Hne Wl|]; subst.
    apply w_widen; [rewrite <- (map_length fval); now apply narrow|exact Hi|].
    assert (Hm : map fval l <> []) by (destruct l; [congruence|discriminate]). pose proof (Hfy Hm (narrow Hf)) as Fy.
    assert (Ht := nth_error_In _ _ Hi). destruct (Hl t Ht) as (W1 & F1 & C1). pose proof (deep_child _ Ht Hd) as D1.
    pose proof (low W1 F1 D1) as X. pose proof (up F1 C1) as Y. unfold deep in D1.
    assert (u * (1 + Rabs (lse (map fval l))) <= 1 * (1 + V)) by (pose proof (Rabs_pos (lse (map fval l))); apply Rmult_le_compat; lra).
    rewrite <- (Rminus_0_r (lse (map fval l))) in La. apply abs2 in La, Fy.
    assert (Rabs (fval t - fy (map fval l)) <= 1 + 3 * V); [apply Rabs_le|]; lra.
  Qed.

  (** sampling: the weight of a pure derivation *)
  Definition theta : R := 2 * (u * W) + va.
  Lemma theta_nonneg : 0 <= theta.
  Proof. unfold theta. pose proof va_nonneg. assert (0 <= u * W) by (apply Rmult_le_pos; lra). lra. Qed.
  Lemma pure_alive t : forall m, In m (expand t) -> pure m = true -> exists p, pval t = Some p.
  Proof.
    induction t as [e|e| | |l IH|a b IHa IHb] using term_ind'; intros m Hm Hp.
    1-4: cbn in Hm; destruct Hm as [<-|[]]; try discriminate; eexists; reflexivity.
    - cbn [expand] in Hm. apply in_flat_map in Hm as (t & Ht & Hm). rewrite Forall_forall in IH. destruct (IH t Ht m Hm Hp) as (q & Eq).
      change (pval (TSum l)) with (xlse (map pval l)). unfold xlse. destruct (forallb is_none (map pval l)) eqn:E; [|eauto].
      rewrite forallb_forall in E. specialize (E _ (in_map pval l t Ht)). rewrite Eq in E. discriminate.
    - cbn [expand] in Hm. apply in_prods in Hm as (x & y & Hx & Hy & ->). rewrite pure_app in Hp. apply andb_prop in Hp as [Px Py].
      destruct (IHa x Hx Px) as (pa & Ea), (IHb y Hy Py) as (pb & Eb). change (pval (TMul a b)) with (xplus (pval a) (pval b)). rewrite Ea, Eb. cbn. eauto.
  Qed.
  Theorem dist_pure t : s = 0 -> twf t -> fits t -> forall p om m, In (om, m) (dist w p t) -> pure m = true ->
    exp (score phi NEG m - fval t - INR (nops t) * theta) <= om <= exp (score phi NEG m - fval t + INR (nops t) * theta).
  Proof.
    intro S0. induction t as [e|e| | |l IH|a b IHa IHb] using term_ind'; intros Wf Hf p om m Hin Hp.
    1-4: cbn [dist] in Hin; destruct Hin as [E|[]]; injection E as <- <-; try discriminate;
      match goal with |- exp ?x <= 1 <= exp ?z => replace x with 0 by (unfold score, Sum, fval; cbn; ring);
        replace z with 0 by (unfold score, Sum, fval; cbn; ring); rewrite exp_0; lra end.
    - pose proof (sum_facts Wf Hf) as Hl. inversion Wf as [| | | |? Hne Wl|]; subst. rewrite Forall_forall in IH.
      assert (Hx : exists q, pval (TSum l) = Some q).
      { apply (@pure_alive (TSum l) m); auto. rewrite <- (dist_snd w (TSum l) p). change m with (snd (om, m)). now apply in_map. }
      destruct Hx as (q & Eq). assert (Eq' := Eq). change (pval (TSum l)) with (xlse (map pval l)) in Eq.
      destruct (sum_alive Hne (fun t Ht => proj2 (Hl t Ht)) Hf Eq) as [_ [Lw _]].
      assert (Hm : map fval l <> []) by (destruct l; [congruence|discriminate]). pose proof (Hfy Hm (narrow Hf)) as Fy. pose proof (Hlse Hm (narrow Hf)) as Fl.
      assert (u * (1 + Rabs (lse (map fval l))) <= u * W) by (apply Rmult_le_compat_l; lra).
      assert (Hd : - (2 * (u * W)) <= fy (map fval l) - flse (map fval l) <= 2 * (u * W)) by (apply abs2 in Fy, Fl; lra).
      cbn [dist] in Hin. apply in_concat in Hin as (L & HL & Hin). apply in_mapi in HL as (i & t & Hi & ->). simpl in Hin.
      apply in_map_iff in Hin as ([om' m'] & E & Hin). cbn [fst snd] in E. injection E as <- <-.
      assert (Ht := nth_error_In _ _ Hi). destruct (Hl t Ht) as (W1 & F1 & _). destruct (IH t Ht W1 F1 _ _ _ Hin Hp) as [I1 I2].
      
      assert (Hq' : exists q', pval t = Some q').
      { apply (@pure_alive t m'); auto. rewrite <- (dist_snd w t (i :: p)). change m' with (snd (om', m')). now apply in_map. }
      destruct Hq' as (q' & Eq''). destruct (@w_alive p l i t q' q Wf Hf Hi Eq'' Eq') as [R1 R2]. rewrite S0, Rminus_0_r in R1. rewrite S0, Rplus_0_r in R2. change (fval (TSum l)) with (flse (map fval l)).
      assert (Nn : INR (nops t) * theta + theta <= INR (nops (TSum l)) * theta).
      { replace (INR (nops t) * theta + theta) with ((INR (nops t) + 1) * theta) by ring. rewrite <- S_INR. apply Rmult_le_compat_r; [apply theta_nonneg|].
        apply le_INR. cbn [nops]. pose proof (lmax_in nops l t Ht). lia. }
      split.
      + eapply Rle_trans; [|apply Rmult_le_compat; [| |exact R1|exact I1]; apply Rlt_le, exp_pos]. rewrite <- exp_plus. apply exp_le. unfold theta in *. lra.
      + eapply Rle_trans; [apply Rmult_le_compat; [| |exact R2|exact I2]|]; try (apply Rlt_le; eapply Rlt_le_trans; [apply exp_pos|eassumption]).
        rewrite <- exp_plus. apply exp_le. unfold theta in *. lra.
    - inversion_clear Wf as [| | | | |? ? Wa Wb]. destruct (fits_mul Hf) as [Fa Fb]. cbn [dist] in Hin.
      apply in_flat_map in Hin as ([oa ma] & Ha & Hin). apply in_map_iff in Hin as ([ob mb] & E & Hb). cbn [fst snd] in E. injection E as <- <-.
      rewrite pure_app in Hp. apply andb_prop in Hp as [Pa Pb]. destruct (IHa Wa Fa _ _ _ Ha Pa) as [A1 A2], (IHb Wb Fb _ _ _ Hb Pb) as [B1 B2].
      assert (Xa : In ma (expand a)) by (rewrite <- (dist_snd w a (0%nat :: p)); change ma with (snd (oa, ma)); now apply in_map).
      assert (Xb : In mb (expand b)) by (rewrite <- (dist_snd w b (1%nat :: p)); change mb with (snd (ob, mb)); now apply in_map).
      destruct (pure_alive _ _ Xa Pa) as (pa & Ea), (pure_alive _ _ Xb Pb) as (pb & Eb).
      pose proof (log_close Wa Fa) as Ca. pose proof (log_close Wb Fb) as Cb. unfold close in Ca, Cb. rewrite Ea in Ca. rewrite Eb in Cb.
      destruct Ca as [Ca1 Ca2], Cb as [Cb1 Cb2]. destruct Hf as (_ & M & E3 & L3).
      assert (MM : mag (TMul a b) = mag a + mag b) by (unfold mag; cbn [lv nsum]; rewrite !plus_INR; ring).
      pose proof err_nonneg as Er. cbn [nops] in *. rewrite S_INR, !plus_INR in *.
      assert (0 <= INR (nops a) * step_err) by (apply Rmult_le_pos; auto using pos_INR). assert (0 <= INR (nops b) * step_err) by (apply Rmult_le_pos; auto using pos_INR).
      assert (Sab : Rabs (fval a + fval b) <= W).
      { rewrite <- (Rminus_0_r pa) in Ca2. rewrite <- (Rminus_0_r pb) in Cb2. apply abs2 in Ca1, Cb1, Ca2, Cb2. apply Rabs_le. lra. }
      pose proof (@Hadd (fval a) (fval b)) as HAd. assert (u * Rabs (fval a + fval b) <= u * W) by (apply Rmult_le_compat_l; lra). apply abs2 in HAd.
      change (fval (TMul a b)) with (fadd (fval a) (fval b)). rewrite score_app.
      pose proof theta_nonneg as Tn. assert (u * W <= theta) by (unfold theta; pose proof va_nonneg; assert (0 <= u * W) by (apply Rmult_le_pos; lra); lra).
      split.
      + eapply Rle_trans; [|apply Rmult_le_compat; [| |exact A1|exact B1]; apply Rlt_le, exp_pos]. rewrite <- exp_plus. apply exp_le. lra.
      + eapply Rle_trans; [apply Rmult_le_compat; [| |exact A2|exact B2]|]; try (apply Rlt_le; eapply Rlt_le_trans; [apply exp_pos|eassumption]).
        rewrite <- exp_plus. apply exp_le. lra.
  Qed.
  (** marginals *)
  Definition kappa : R := vd + u * (1 + V) + INR A * s.
  (** proof device: weight that a node may pass to masked arguments *)
  Definition rho : R := exp vd * tail + INR A * s.
  Variable N : nat.
  (** proof device: relative error of one weight *)
  Definition lambda : R := 2 * (INR N * step_err) + u * W + va.
  Lemma kappa_nonneg : 0 <= kappa.
  Proof. unfold kappa. pose proof vd_nonneg. assert (0 <= INR A * s) by (apply Rmult_le_pos; auto using pos_INR). lra. Qed.
  Lemma lambda_nonneg : 0 <= lambda.
  Proof.
    unfold lambda. pose proof va_nonneg. assert (0 <= u * W) by (apply Rmult_le_pos; lra). assert (0 <= INR N * step_err) by (apply Rmult_le_pos; [apply pos_INR|apply err_nonneg]). lra.
  Qed.
  Lemma rho_nonneg : 0 <= rho.
  Proof.
    unfold rho. assert (0 <= INR A * s) by (apply Rmult_le_pos; auto using pos_INR).
    assert (0 <= exp vd * tail) by (apply Rmult_le_pos; [apply Rlt_le, exp_pos|apply tail_nonneg]). lra.
  Qed.
  Lemma w_total p l : twf (TSum l) -> fits (TSum l) -> deep (TSum l) -> ksum R_csr (mapi (fun i _ => w p l i) 0 l) <= exp kappa.
  Proof.
    intros Wf Hf Hd. pose proof (lse_range Wf Hf Hd) as La. inversion Wf as [| | | |? Hne Wl|]; subst.
    assert (Hm : map fval l <> []) by (destruct l; [congruence|discriminate]). pose proof (Hfy Hm (narrow Hf)) as Fy.
    assert (u * (1 + Rabs (lse (map fval l))) <= u * (1 + V)) by (apply Rmult_le_compat_l; lra). apply abs2 in Fy.
    set (y := fy (map fval l)) in *.
    eapply Rle_trans; [apply (@mapi_le _ _ (fun _ t => exp (fval t - y + vd) + s)); intros j t Hj; apply (@w_any p l j t Wf Hf Hd Hj)|].
    rewrite (mapi_sum (fun t => exp (fval t - y + vd) + s)), RSum_add, RSum_const.
    rewrite (Sum_ext R_csr _ (fun t => exp (fval t) * exp (vd - y))) by (intro t; rewrite <- exp_plus; f_equal; ring).
    rewrite RSum_scar. replace (RSum (fun t => exp (fval t)) l) with (exp (lse (map fval l))).
    - rewrite <- exp_plus. assert (Ls : INR (length l) * s <= INR A * s) by (apply Rmult_le_compat_r; auto; apply le_INR; destruct Hf as [Hf _]; cbn [wide] in Hf; lia).
      assert (As : 0 <= INR A * s) by (apply Rmult_le_pos; auto using pos_INR). pose proof vd_nonneg as Vn.
      apply Rle_trans with (exp (vd + u * (1 + V)) * (1 + INR A * s)).
      + assert (E1 : exp (lse (map fval l) + (vd - y)) <= exp (vd + u * (1 + V))) by (apply exp_le; lra).
        assert (E2 : 1 <= exp (vd + u * (1 + V))) by (rewrite <- exp_0 at 1; apply exp_le; lra).
        assert (1 * (INR A * s) <= exp (vd + u * (1 + V)) * (INR A * s)) by (apply Rmult_le_compat_r; lra). change (K R_csr) with R in *. lra.
      + unfold kappa. rewrite (exp_plus (vd + u * (1 + V))). apply Rmult_le_compat_l; [apply Rlt_le, exp_pos|apply exp_ineq1_le].
    - unfold lse. rewrite (Sum_map R_csr). apply exp_ln, RSum_exp_pos. exact Hne.
  Qed.
  Theorem bp_all t : twf t -> fits t -> deep t -> forall p e, 0 <= bp w p t 1 e <= INR (tdeg t) * exp (INR (hs t) * kappa).
  Proof.
    pose proof kappa_nonneg as Kn.
    induction t as [e'|e'| | |l IH|a b IHa IHb] using term_ind'; intros Wf Hf Hd p e.
    1-4: cbn [bp tdeg hs]; simpl INR; rewrite ?Rmult_0_l, ?exp_0; try destruct (list_eq_dec Nat.eq_dec e e'); lra.
    - pose proof (sum_facts Wf Hf) as Hl. pose proof (w_total p Wf Hf Hd) as Wt. rewrite Forall_forall in IH. cbn [bp].
      set (h := list_max (map hs l)).
      assert (Hc : forall j t, nth_error l j = Some t -> 0 <= bp w (j :: p) t (1 * w p l j) e <= w p l j * (INR (tdeg (TSum l)) * exp (INR h * kappa))).
      { intros j t Hj. assert (Ht := nth_error_In _ _ Hj). destruct (Hl t Ht) as (W1 & F1 & _).
        destruct (IH t Ht W1 F1 (deep_child _ Ht Hd) (j :: p) e) as [I1 I2]. rewrite bp_scale, Rmult_1_l. pose proof (@w_pos p l j t (len_le Hf) Hj).
        split; [now apply Rmult_le_pos|]. apply Rmult_le_compat_l; auto. eapply Rle_trans; [exact I2|].
        apply Rmult_le_compat; auto using pos_INR; [apply Rlt_le, exp_pos|apply le_INR, tdeg_in, Ht|].
        apply exp_le, Rmult_le_compat_r; auto. apply le_INR. now apply (lmax_in hs). }
      split.
      + apply Rle_trans with (ksum R_csr (mapi (fun _ _ => 0) 0 l)).
        * rewrite (mapi_sum (fun _ => 0)), RSum_const. lra.
        * apply mapi_le. intros j t Hj. apply (Hc j t Hj).
      + eapply Rle_trans; [apply (@mapi_le _ _ (fun j _ => w p l j * (INR (tdeg (TSum l)) * exp (INR h * kappa)))); intros j t Hj; apply (Hc j t Hj)|].
        rewrite (Sum_mapi_scar (fun j _ => w p l j)).
        cbn [hs]. fold h. rewrite S_INR. replace ((INR h + 1) * kappa) with (kappa + INR h * kappa) by ring. rewrite exp_plus.
        replace (INR (tdeg (TSum l)) * (exp kappa * exp (INR h * kappa))) with (exp kappa * (INR (tdeg (TSum l)) * exp (INR h * kappa))) by ring.
        apply Rmult_le_compat_r; auto. apply Rmult_le_pos; [apply pos_INR|apply Rlt_le, exp_pos].
    - inversion_clear Wf as [| | | | |? ? Wa Wb]. destruct (fits_mul Hf) as [Fa Fb]. destruct (deep_mul Hd) as [Da Db].
      destruct (IHa Wa Fa Da (0%nat :: p) e) as [A1 A2], (IHb Wb Fb Db (1%nat :: p) e) as [B1 B2]. cbn [bp tdeg hs]. split; [lra|].
      rewrite plus_INR, Rmult_plus_distr_r. apply Rplus_le_compat.
      + eapply Rle_trans; [exact A2|]. apply Rmult_le_compat_l; [apply pos_INR|]. apply exp_le, Rmult_le_compat_r; auto. apply le_INR; lia.
      + eapply Rle_trans; [exact B2|]. apply Rmult_le_compat_l; [apply pos_INR|]. apply exp_le, Rmult_le_compat_r; auto. apply le_INR; lia.
  Qed.

  (** spec: bound on the gradient that leaks to masked derivations *)
  Definition gleak (t : term) : R := INR (tdeg t) * (INR (hs t) * rho * exp (INR (hs t) * kappa)).
  Lemma pm_le e t : pm phi e t <= INR (tdeg t) * pz phi t.
  Proof.
    induction t as [e'|e'| | |l IH|a b IHa IHb] using term_ind'.
    1-4: unfold pm, pz, score, cnt, Sum; cbn; rewrite ?Rplus_0_r; try (pose proof (exp_pos (phi e'))); try destruct (list_eq_dec Nat.eq_dec e e'); rewrite ?Rplus_0_r; lra.
    - rewrite pm_sum, pz_sum, <- RSum_scal. apply RSum_le. intros t Ht. rewrite Forall_forall in IH. eapply Rle_trans; [apply IH, Ht|].
      apply Rmult_le_compat_r; [rewrite <- pz_pval; destruct (leval _ _ t); cbn [xexp]; [apply Rlt_le, exp_pos|lra]|]. apply le_INR, tdeg_in, Ht.
    - rewrite pm_mul, pz_mul. cbn [tdeg]. rewrite plus_INR.
      assert (Z : forall t, 0 <= pz phi t) by (intro t; rewrite <- pz_pval; destruct (leval _ _ t); cbn [xexp]; [apply Rlt_le, exp_pos|lra]).
      pose proof (Rmult_le_compat_r _ _ _ (Z b) IHa). pose proof (Rmult_le_compat_l _ _ _ (Z a) IHb). lra.
  Qed.
  Lemma leak_up x X d bp' m g M : 0 <= X -> 0 <= d -> 0 <= x <= X + d -> 0 <= bp' <= M -> bp' <= m + g -> 0 <= m -> 0 <= g -> x * bp' <= X * m + (x * g + d * M).
  Proof.
    intros HX Hd Hx Hb Hb' Hm Hg. destruct (Rle_dec x X) as [C|C].
    - pose proof (Rmult_le_compat_l _ _ _ (proj1 Hx) Hb'). pose proof (Rmult_le_compat_r _ _ _ Hm C). assert (0 <= d * M) by (apply Rmult_le_pos; lra). lra.
    - pose proof (Rmult_le_compat_l _ _ _ HX Hb'). assert ((x - X) * bp' <= d * M) by (apply Rmult_le_compat; lra).
      assert (X * g <= x * g) by (apply Rmult_le_compat_r; lra). lra.
  Qed.
  Lemma leak_dn x X d bp' m g M : 0 <= d -> 0 <= x -> X - d <= x -> m - g <= bp' -> 0 <= m <= M -> X * m - (x * g + d * M) <= x * bp'.
  Proof.
    intros Hd Hx HX Hb Hm. pose proof (Rmult_le_compat_l _ _ _ Hx Hb). pose proof (Rmult_le_compat_r _ _ _ (proj1 Hm) HX).
    pose proof (Rmult_le_compat_l _ _ _ Hd (proj2 Hm)). lra.
  Qed.
  Theorem bp_close t : twf t -> fits t -> deep t -> (nops t <= N)%nat -> forall q, pval t = Some q -> forall p e,
    exp (- (INR (hs t) * lambda)) * (pm phi e t * exp (- q)) - gleak t <= bp w p t 1 e <= exp (INR (hs t) * lambda) * (pm phi e t * exp (- q)) + gleak t.
  Proof.
    pose proof kappa_nonneg as Kn. pose proof lambda_nonneg as Ln. pose proof rho_nonneg as Rn. pose proof err_nonneg as Er. pose proof va_nonneg as Van. pose proof vd_nonneg as Vdn.
    induction t as [e'|e'| | |l IH|a b IHa IHb] using term_ind'; intros Wf Hf Hd HN q Hq p e.
    - injection Hq as <-. unfold gleak. change (INR (hs (TLeaf e'))) with 0.
      assert (E : pm phi e (TLeaf e') * exp (- phi e') = if list_eq_dec Nat.eq_dec e e' then 1 else 0).
      { unfold pm, score, cnt, Sum. cbn. destruct (list_eq_dec Nat.eq_dec e e'); [|ring].
        rewrite (Rplus_0_r (phi e')), exp_Ropp. pose proof (exp_pos (phi e')). field. lra. }
      rewrite E, ?Rmult_0_l, Ropp_0, exp_0, ?Rmult_0_l, ?Rmult_0_r. cbn [bp]. destruct (list_eq_dec Nat.eq_dec e e'); lra.
    - discriminate.
    - injection Hq as <-. unfold gleak. change (INR (hs TOne)) with 0.
      assert (E : pm phi e TOne = 0) by (unfold pm, score, cnt, Sum; cbn; ring).
      rewrite E, ?Rmult_0_l, ?Ropp_0, ?Rmult_0_r. cbn [bp]. lra.
    - discriminate.
    - pose proof (sum_facts Wf Hf) as Hl. pose proof (w_total p Wf Hf Hd) as Wt. rewrite Forall_forall in IH.
      inversion Wf as [| | | |? Hne Wl|]; subst. assert (Hq' := Hq). change (pval (TSum l)) with (xlse (map pval l)) in Hq.
      destruct (sum_alive Hne (fun t Ht => proj2 (Hl t Ht)) Hf Hq) as [_ [Lw Lp]].
      assert (Hm : map fval l <> []) by (destruct l; [congruence|discriminate]). pose proof (Hfy Hm (narrow Hf)) as Fy.
      assert (u * (1 + Rabs (lse (map fval l))) <= u * W) by (apply Rmult_le_compat_l; lra). apply abs2 in Fy, Lp.
      assert (HNE : INR (nops (TSum l)) * step_err <= INR N * step_err) by (apply Rmult_le_compat_r; auto; now apply le_INR).
      assert (Hf' := Hf). destruct Hf as (H1 & H2 & H3 & H4).
      assert (Uw : u * W <= 1).
      { pose proof tail_nonneg. assert (step_err <= INR (nops (TSum l)) * step_err) by (cbn [nops]; rewrite S_INR; pose proof (pos_INR (list_max (map nops l))); assert (0 <= INR (list_max (map nops l)) * step_err) by (now apply Rmult_le_pos); lra).
        unfold step_err in *. lra. }
      set (y := fy (map fval l)) in *. set (h := list_max (map hs l)) in *.
      assert (Yl : - W <= y).
      { assert (X := Rle_abs (- lse (map fval l))). rewrite Rabs_Ropp in X. lra. }
      (* the alternatives *)
      set (lo t := exp (- (INR (S h) * lambda)) * (pm phi e t * exp (- q))).
      set (hi t := exp (INR (S h) * lambda) * (pm phi e t * exp (- q))).
      set (D := INR (tdeg (TSum l))). set (G0 := D * (INR h * rho * exp (INR h * kappa))). set (M := D * exp (INR h * kappa)).
      assert (D0 : 0 <= D) by apply pos_INR.
      assert (Hk : 0 <= INR h * kappa) by (apply Rmult_le_pos; auto using pos_INR).
      assert (M0 : 0 <= M) by (apply Rmult_le_pos; auto; apply Rlt_le, exp_pos).
      assert (DM : D <= M) by (unfold M; rewrite <- (Rmult_1_r D) at 1; apply Rmult_le_compat_l; auto; rewrite <- exp_0; now apply exp_le).
      assert (G00 : 0 <= G0) by (apply Rmult_le_pos; auto; apply Rmult_le_pos; [apply Rmult_le_pos; auto; apply pos_INR|apply Rlt_le, exp_pos]).
      set (loss := (exp vd * exp (W - 50000) + s) * M).
      assert (sM : s * M <= loss) by (unfold loss; apply Rmult_le_compat_r; auto; assert (0 <= exp vd * exp (W - 50000)) by (apply Rmult_le_pos; apply Rlt_le, exp_pos); lra).
      assert (Hc : forall j t, nth_error l j = Some t -> lo t - (w p l j * G0 + loss) <= bp w (j :: p) t (1 * w p l j) e <= hi t + (w p l j * G0 + loss)).
      { intros j t Hj. assert (Ht := nth_error_In _ _ Hj). destruct (Hl t Ht) as (W1 & F1 & C1). pose proof (deep_child _ Ht Hd) as D1.
        rewrite bp_scale, Rmult_1_l. pose proof (@w_pos p l j t (len_le Hf') Hj) as Wp.
        pose proof (lmax_in nops l t Ht) as Xn. pose proof (lmax_in hs l t Ht) as Xh. fold h in Xh. apply le_INR in Xh.
        pose proof (le_INR _ _ (tdeg_in l t Ht)) as Xd. fold D in Xd.
        destruct (bp_all W1 F1 D1 (j :: p) e) as [J1 J2].
        assert (JM : bp w (j :: p) t 1 e <= M).
        { eapply Rle_trans; [exact J2|]. apply Rmult_le_compat; auto using pos_INR; [apply Rlt_le, exp_pos|]. apply exp_le. now apply Rmult_le_compat_r. }
        unfold close in C1. destruct (pval t) as [qt|] eqn:Et.
        - destruct (@w_alive p l j t qt q Wf Hf' Hj Et Hq') as [R1 R2]. fold y in R1, R2.
          destruct C1 as [C1 C2]. assert (NT : (nops t <= N)%nat) by (cbn [nops] in HN; lia).
          destruct (IH t Ht W1 F1 D1 NT qt Et (j :: p) e) as [I1 I2].
          assert (C1' : - (INR N * step_err) <= fval t - qt <= INR N * step_err).
          { apply abs2 in C1. assert (INR (nops t) * step_err <= INR N * step_err) by (apply Rmult_le_compat_r; auto; now apply le_INR). lra. }
          pose proof (pm_nonneg phi e t) as Pn.
          assert (Pq : 0 <= pm phi e t * exp (- qt)) by (apply Rmult_le_pos; auto; apply Rlt_le, exp_pos).
          assert (Pd : pm phi e t * exp (- qt) <= INR (tdeg t)).
          { pose proof (pm_le e t) as X. rewrite <- pz_pval in X. fold (pval t) in X. rewrite Et in X. cbn [xexp] in X.
            apply Rle_trans with (INR (tdeg t) * exp qt * exp (- qt)); [apply Rmult_le_compat_r; [apply Rlt_le, exp_pos|exact X]|].
            rewrite Rmult_assoc, <- exp_plus, Rplus_opp_r, exp_0. lra. }
          assert (Hl' : INR (hs t) * lambda <= INR h * lambda) by (now apply Rmult_le_compat_r).
          assert (Hl0 : 0 <= INR (hs t) * lambda) by (apply Rmult_le_pos; auto using pos_INR).
          assert (GL : 0 <= gleak t <= G0).
          { unfold gleak, G0. assert (X0 : forall x, 0 <= exp x) by (intro; apply Rlt_le, exp_pos). split.
            - apply Rmult_le_pos; auto using pos_INR. apply Rmult_le_pos; auto. apply Rmult_le_pos; auto using pos_INR.
            - apply Rmult_le_compat; auto using pos_INR.
              + apply Rmult_le_pos; auto. apply Rmult_le_pos; auto using pos_INR.
              + apply Rmult_le_compat; auto; [apply Rmult_le_pos; auto; apply pos_INR|now apply Rmult_le_compat_r|]. apply exp_le. now apply Rmult_le_compat_r. }
          assert (WG : w p l j * gleak t <= w p l j * G0) by (apply Rmult_le_compat_l; lra). split.
          + assert (E1 : exp (- (INR (hs t) * lambda)) <= 1) by (rewrite <- exp_0; apply exp_le; lra).
            assert (X := @leak_dn (w p l j) (exp (fval t - y - va)) s (bp w (j :: p) t 1 e) (exp (- (INR (hs t) * lambda)) * (pm phi e t * exp (- qt))) (gleak t) M Hs Wp R1 I1).
            assert (Y : 0 <= exp (- (INR (hs t) * lambda)) * (pm phi e t * exp (- qt)) <= M).
            { split; [apply Rmult_le_pos; auto; apply Rlt_le, exp_pos|]. apply Rle_trans with (1 * (pm phi e t * exp (- qt))); [now apply Rmult_le_compat_r|lra]. }
            specialize (X Y). eapply Rle_trans; [|exact X].
            assert (Z : lo t <= exp (fval t - y - va) * (exp (- (INR (hs t) * lambda)) * (pm phi e t * exp (- qt)))); [|lra].
            unfold lo. rewrite S_INR. replace (exp (fval t - y - va) * (exp (- (INR (hs t) * lambda)) * (pm phi e t * exp (- qt))))
              with (pm phi e t * (exp (fval t - y - va) * (exp (- (INR (hs t) * lambda)) * exp (- qt)))) by ring.
            replace (exp (- ((INR h + 1) * lambda)) * (pm phi e t * exp (- q))) with (pm phi e t * (exp (- ((INR h + 1) * lambda)) * exp (- q))) by ring.
            apply Rmult_le_compat_l; auto. rewrite <- !exp_plus. apply exp_le. unfold lambda in *. lra.
          + assert (X := @leak_up (w p l j) (exp (fval t - y + va)) s (bp w (j :: p) t 1 e) (exp (INR (hs t) * lambda) * (pm phi e t * exp (- qt))) (gleak t) M
              (Rlt_le _ _ (exp_pos _)) Hs (conj Wp R2) (conj J1 JM) I2).
            assert (Y : 0 <= exp (INR (hs t) * lambda) * (pm phi e t * exp (- qt))) by (apply Rmult_le_pos; auto; apply Rlt_le, exp_pos).
            specialize (X Y (proj1 GL)). eapply Rle_trans; [exact X|].
            assert (Z : exp (fval t - y + va) * (exp (INR (hs t) * lambda) * (pm phi e t * exp (- qt))) <= hi t); [|lra].
            unfold hi. rewrite S_INR. replace (exp (fval t - y + va) * (exp (INR (hs t) * lambda) * (pm phi e t * exp (- qt))))
              with (pm phi e t * (exp (fval t - y + va) * (exp (INR (hs t) * lambda) * exp (- qt)))) by ring.
            replace (exp ((INR h + 1) * lambda) * (pm phi e t * exp (- q))) with (pm phi e t * (exp ((INR h + 1) * lambda) * exp (- q))) by ring.
            apply Rmult_le_compat_l; auto. rewrite <- !exp_plus. apply exp_le. unfold lambda in *. lra.
        - destruct (@w_any p l j t Wf Hf' Hd Hj) as [R1 R2]. fold y in R1, R2.
          assert (P0 : pm phi e t = 0) by (apply pm_dead; rewrite <- pz_pval; fold (pval t); rewrite Et; reflexivity).
          unfold lo, hi. rewrite P0, Rmult_0_l, !Rmult_0_r, Rplus_0_l.
          assert (0 <= w p l j * G0) by (now apply Rmult_le_pos). assert (0 <= s * M) by (now apply Rmult_le_pos). assert (0 <= w p l j * bp w (j :: p) t 1 e) by (now apply Rmult_le_pos).
          split; [lra|].
          assert (X : w p l j * bp w (j :: p) t 1 e <= loss); [|lra].
          apply Rmult_le_compat; auto. eapply Rle_trans; [exact R2|]. apply Rplus_le_compat_r. rewrite <- exp_plus. apply exp_le. destruct F1 as (_ & M1 & _ & L1). lra. }
      cbn [bp]. assert (Es : forall c, RSum (fun t => c * (pm phi e t * exp (- q))) l = c * (pm phi e (TSum l) * exp (- q))).
      { intro c. rewrite RSum_scal, RSum_scar, pm_sum. reflexivity. }
      cbn [hs]. fold h.
      assert (Tot : ksum R_csr (mapi (fun j (_ : term) => w p l j * G0 + loss) 0 l) <= gleak (TSum l)).
      { rewrite ksum_mapi_plus, (Sum_mapi_scar (fun j _ => w p l j)), (mapi_sum (fun _ => loss)), RSum_const.
        assert (T1 : ksum R_csr (mapi (fun j (_ : term) => w p l j) 0 l) * G0 <= exp kappa * G0) by (now apply Rmult_le_compat_r).
        assert (T2 : INR (length l) * loss <= rho * M).
        { unfold rho, loss, tail. replace ((exp vd * (INR A * exp (W - 50000)) + INR A * s) * M) with (INR A * ((exp vd * exp (W - 50000) + s) * M)) by ring.
          apply Rmult_le_compat_r; [|apply le_INR, (len_le Hf')]. fold loss. assert (0 <= s * M) by (now apply Rmult_le_pos). lra. }
        unfold gleak. cbn [hs]. fold h D. rewrite S_INR. replace ((INR h + 1) * kappa) with (kappa + INR h * kappa) by ring. rewrite exp_plus.
        assert (T3 : rho * M <= exp kappa * (rho * M)).
        { rewrite <- (Rmult_1_l (rho * M)) at 1. apply Rmult_le_compat_r; [now apply Rmult_le_pos|]. rewrite <- exp_0. now apply exp_le. }
        replace (D * ((INR h + 1) * rho * (exp kappa * exp (INR h * kappa)))) with (exp kappa * G0 + exp kappa * (rho * M)) by (unfold G0, M; ring).
        change (K R_csr) with R in *. lra. }
      split.
      + rewrite <- Es. rewrite <- (mapi_sum (fun t => exp (- (INR (S h) * lambda)) * (pm phi e t * exp (- q))) l 0).
        apply Rle_trans with (ksum R_csr (mapi (fun _ t => lo t) 0 l) - ksum R_csr (mapi (fun j (_ : term) => w p l j * G0 + loss) 0 l)); [unfold lo; change (K R_csr) with R in *; lra|].
        assert (X : ksum R_csr (mapi (fun _ t => lo t) 0 l) <= ksum R_csr (mapi (fun j t => bp w (j :: p) t (1 * w p l j) e + (w p l j * G0 + loss)) 0 l)).
        { apply mapi_le. intros j t Hj. destruct (Hc j t Hj) as [X _]. cbv beta. simpl Nat.add. lra. }
        rewrite ksum_mapi_plus in X. change (K R_csr) with R in *. lra.
      + eapply Rle_trans; [apply (@mapi_le _ _ (fun j t => hi t + (w p l j * G0 + loss))); intros j t Hj; apply (Hc j t Hj)|].
        rewrite ksum_mapi_plus, (mapi_sum hi). unfold hi at 1. rewrite Es. apply Rplus_le_compat_l. exact Tot.
    - inversion_clear Wf as [| | | | |? ? Wa Wb]. destruct (fits_mul Hf) as [Fa Fb]. destruct (deep_mul Hd) as [Da Db].
      change (pval (TMul a b)) with (xplus (pval a) (pval b)) in Hq.
      destruct (pval a) as [qa|] eqn:Ea; [|discriminate]. destruct (pval b) as [qb|] eqn:Eb; [|discriminate]. injection Hq as <-. cbn [nops] in HN.
      destruct (IHa Wa Fa Da ltac:(lia) qa eq_refl (0%nat :: p) e) as [A1 A2], (IHb Wb Fb Db ltac:(lia) qb eq_refl (1%nat :: p) e) as [B1 B2].
      assert (Za : pz phi a = exp qa) by (rewrite <- pz_pval; fold (pval a); now rewrite Ea).
      assert (Zb : pz phi b = exp qb) by (rewrite <- pz_pval; fold (pval b); now rewrite Eb).
      assert (E : pm phi e (TMul a b) * exp (- (qa + qb)) = pm phi e a * exp (- qa) + pm phi e b * exp (- qb)).
      { rewrite pm_mul, Za, Zb, Ropp_plus_distr, exp_plus, !exp_Ropp. pose proof (exp_pos qa). pose proof (exp_pos qb). field. split; lra. }
      cbn [bp]. rewrite E.
      assert (Pa : 0 <= pm phi e a * exp (- qa)) by (apply Rmult_le_pos; [apply pm_nonneg|apply Rlt_le, exp_pos]).
      assert (Pb : 0 <= pm phi e b * exp (- qb)) by (apply Rmult_le_pos; [apply pm_nonneg|apply Rlt_le, exp_pos]).
      cbn [hs]. set (h := Nat.max (hs a) (hs b)).
      assert (Ha : INR (hs a) <= INR h) by (apply le_INR; unfold h; lia). assert (Hb : INR (hs b) <= INR h) by (apply le_INR; unfold h; lia).
      assert (La : INR (hs a) * lambda <= INR h * lambda) by (now apply Rmult_le_compat_r). assert (Lb : INR (hs b) * lambda <= INR h * lambda) by (now apply Rmult_le_compat_r).
      assert (Ka : INR (hs a) * kappa <= INR h * kappa) by (now apply Rmult_le_compat_r). assert (Kb : INR (hs b) * kappa <= INR h * kappa) by (now apply Rmult_le_compat_r).
      assert (Ga : gleak a <= INR (tdeg a) * (INR h * rho * exp (INR h * kappa))).
      { unfold gleak. apply Rmult_le_compat_l; [apply pos_INR|]. apply Rmult_le_compat; [apply Rmult_le_pos; auto; apply pos_INR|apply Rlt_le, exp_pos|now apply Rmult_le_compat_r|now apply exp_le]. }
      assert (Gb : gleak b <= INR (tdeg b) * (INR h * rho * exp (INR h * kappa))).
      { unfold gleak. apply Rmult_le_compat_l; [apply pos_INR|]. apply Rmult_le_compat; [apply Rmult_le_pos; auto; apply pos_INR|apply Rlt_le, exp_pos|now apply Rmult_le_compat_r|now apply exp_le]. }
      assert (GG : gleak (TMul a b) = INR (tdeg a) * (INR h * rho * exp (INR h * kappa)) + INR (tdeg b) * (INR h * rho * exp (INR h * kappa))).
      { unfold gleak. cbn [hs tdeg]. fold h. rewrite plus_INR. ring. }
      split.
      + assert (Xa : exp (- (INR h * lambda)) * (pm phi e a * exp (- qa)) <= exp (- (INR (hs a) * lambda)) * (pm phi e a * exp (- qa))) by (apply Rmult_le_compat_r; auto; apply exp_le; lra).
        assert (Xb : exp (- (INR h * lambda)) * (pm phi e b * exp (- qb)) <= exp (- (INR (hs b) * lambda)) * (pm phi e b * exp (- qb))) by (apply Rmult_le_compat_r; auto; apply exp_le; lra). lra.
      + assert (Xa : exp (INR (hs a) * lambda) * (pm phi e a * exp (- qa)) <= exp (INR h * lambda) * (pm phi e a * exp (- qa))) by (apply Rmult_le_compat_r; auto; now apply exp_le).
        assert (Xb : exp (INR (hs b) * lambda) * (pm phi e b * exp (- qb)) <= exp (INR h * lambda) * (pm phi e b * exp (- qb))) by (apply Rmult_le_compat_r; auto; now apply exp_le). lra.
  Qed.
End Log.

(** ** Max *)
(** the best pure derivation *)
Definition pmax_ops : ops :=
  {| car := ext; ssum := xmax; smul := xplus; szero := None; sone := Some 0; sover := fun _ => None |}.
(** spec: the exact maximum of a node, without masked derivations *)
Definition pbest (phi : list nat -> R) : term -> ext := leval pmax_ops (fun e => Some (phi e)).
Theorem pbest_value phi z t : twf t ->
  match pbest phi t with
  | Some p => (exists m, In m (expand t) /\ pure m = true /\ score phi z m = p) /\
              forall m, In m (expand t) -> pure m = true -> score phi z m <= p
  | None => forall m, In m (expand t) -> pure m = false
  end.
Proof.
  induction t as [e|e| | |l IH|a b IHa IHb] using term_ind'; intro Wf.
  - cbn. split; [exists [AL e]|]; repeat split; auto.
    + unfold score, Sum; cbn. ring.
    + intros m [<-|[]] _. unfold score, Sum; cbn. lra.
  - cbn. intros m [<-|[]]. reflexivity.
  - cbn. split; [exists []|]; repeat split; auto. intros m [<-|[]] _. unfold score, Sum; cbn. lra.
  - cbn. intros m [<-|[]]. reflexivity.
  - inversion_clear Wf as [| | | |? Hne Wl|]. rewrite Forall_forall in IH, Wl.
    change (pbest phi (TSum l)) with (xmax (map (pbest phi) l)).
    destruct (@xmax_is_max (map (pbest phi) l)) as [M1 M2]; [destruct l; [congruence|discriminate]|].
    destruct (xmax (map (pbest phi) l)) as [p|]; cbn [expand].
    + split.
      * apply in_map_iff in M1 as (t & Et & Ht). specialize (IH t Ht (Wl t Ht)). rewrite Et in IH. destruct IH as [(m & H1 & H2) _].
        exists m. split; [apply in_flat_map; eauto|exact H2].
      * intros m Hm Hp. apply in_flat_map in Hm as (t & Ht & Hm). specialize (IH t Ht (Wl t Ht)).
        specialize (M2 _ (in_map (pbest phi) l t Ht)). destruct (pbest phi t) as [q|].
        -- destruct IH as [_ IH]. cbn in M2. eapply Rle_trans; [apply IH; auto|exact M2].
        -- rewrite (IH m Hm) in Hp. discriminate.
    + intros m Hm. apply in_flat_map in Hm as (t & Ht & Hm). specialize (IH t Ht (Wl t Ht)).
      specialize (M2 _ (in_map (pbest phi) l t Ht)). destruct (pbest phi t) as [q|]; [destruct M2|auto].
  - inversion_clear Wf as [| | | | |? ? Wa Wb]. specialize (IHa Wa). specialize (IHb Wb).
    change (pbest phi (TMul a b)) with (xplus (pbest phi a) (pbest phi b)). cbn [expand].
    destruct (pbest phi a) as [pa|], (pbest phi b) as [pb|]; cbn [xplus].
    + destruct IHa as [(ma & A1 & A2 & A3) A4], IHb as [(mb & B1 & B2 & B3) B4]. split.
      * exists (ma ++ mb). split; [apply in_prods; eauto|]. rewrite pure_app, A2, B2, score_app, A3, B3. auto.
      * intros m Hm Hp. apply in_prods in Hm as (x & y & Hx & Hy & ->). rewrite pure_app in Hp. apply andb_prop in Hp as [Px Py].
        rewrite score_app. apply Rplus_le_compat; auto.
    + intros m Hm. apply in_prods in Hm as (x & y & Hx & Hy & ->). now rewrite pure_app, (IHb y Hy), Bool.andb_false_r.
    + intros m Hm. apply in_prods in Hm as (x & y & Hx & Hy & ->). now rewrite pure_app, (IHa x Hx).
    + intros m Hm. apply in_prods in Hm as (x & y & Hx & Hy & ->). now rewrite pure_app, (IHa x Hx).
Qed.

(** the choices of a backward pass that follows the computed maxima *)
Fixpoint fargmax_ok (fadd : R -> R -> R) (phi : list nat -> R) (o : path -> nat) (p : path) (t : term) : Prop :=
  match t with
  | TMul a b => fargmax_ok fadd phi o (0%nat :: p) a /\ fargmax_ok fadd phi o (1%nat :: p) b
  | TSum l => (exists t', nth_error l (o p) = Some t' /\
                  is_max (leval (fmax_ops NEG fadd) phi t') (map (leval (fmax_ops NEG fadd) phi) l)) /\
              fold_right and True (mapi (fun i t' => fargmax_ok fadd phi o (i :: p) t') 0 l)
  | _ => True
  end.
Lemma fargmax_inrange fadd phi o t : forall p, fargmax_ok fadd phi o p t -> inrange o p t.
Proof.
  induction t as [e'|e'| | |l IH|a b IHa IHb] using term_ind'; intros p H; simpl in *; auto.
  - destruct H as [(t' & E & _) H]. split; [apply nth_error_Some; congruence|].
    rewrite fold_and_mapi in *. intros j a Ha. rewrite Forall_forall in IH. apply IH; auto.
    apply (nth_error_In _ _ Ha).
  - destruct H; auto.
Qed.

Section Max.
  Variables (u : R) (fadd : R -> R -> R) (B W : R) (phi : list nat -> R).
  Hypothesis Hu : 0 <= u <= 1.
  Hypothesis Hadd : add_acc u fadd.
  Hypothesis HB : 0 <= B.
  Hypothesis Hphi : forall e, Rabs (phi e) <= B.
  Hypothesis HW : 0 <= W.
  (** the rounded value of a node in the max semiring (semirings.py:153-174) *)
  Definition mval : term -> R := leval (fmax_ops NEG fadd) phi.
  (** spec: the node is within the range of the error bound *)
  Definition mfits (t : term) : Prop := B * INR (lv t) + 1 <= W /\ INR (nops t) * (u * W) <= 1 /\ W + INR (nops t) * (u * (W + 100000)) < 50000.
  (** proof device: the rounded value is close to the exact one *)
  Definition mclose (t : term) : Prop :=
    match pbest phi t with
    | Some p => Rabs (mval t - p) <= INR (nops t) * (u * W) /\ Rabs p <= B * INR (lv t)
    | None => mval t <= - 100000 + B * INR (lv t) + INR (nops t) * (u * (W + 100000))
    end.
  Let e1 : 0 <= u * W.
  Proof. apply Rmult_le_pos; lra. Qed.
  Let e2 : u * W <= u * (W + 100000).
  Proof. apply Rmult_le_compat_l; lra. Qed.
  Lemma mfits_child l t : In t l -> mfits (TSum l) -> mfits t.
  Proof.
    intros Hin (H1 & H2 & H3). unfold mfits. cbn [lv nops] in *. rewrite S_INR in *.
    pose proof (le_INR _ _ (lmax_in lv l t Hin)) as X1. pose proof (le_INR _ _ (lmax_in nops l t Hin)) as X2.
    assert (B * INR (lv t) <= B * INR (list_max (map lv l))) by (now apply Rmult_le_compat_l).
    assert (INR (nops t) * (u * W) <= (INR (list_max (map nops l)) + 1) * (u * W)) by (apply Rmult_le_compat_r; lra).
    assert (INR (nops t) * (u * (W + 100000)) <= (INR (list_max (map nops l)) + 1) * (u * (W + 100000))) by (apply Rmult_le_compat_r; lra).
    repeat split; lra.
  Qed.
  Lemma mfits_mul a b : mfits (TMul a b) -> mfits a /\ mfits b.
  Proof.
    intros (H1 & H2 & H3). unfold mfits. cbn [lv nops] in *. rewrite S_INR, !plus_INR in *.
    assert (forall t, 0 <= B * INR (lv t)) by (intro; apply Rmult_le_pos; auto using pos_INR).
    assert (forall t, 0 <= INR (nops t) * (u * W)) by (intro; apply Rmult_le_pos; auto using pos_INR).
    assert (forall t, 0 <= INR (nops t) * (u * (W + 100000))) by (intro; apply Rmult_le_pos; [apply pos_INR|lra]).
    pose proof (H a). pose proof (H b). pose proof (H0 a). pose proof (H0 b). pose proof (H4 a). pose proof (H4 b).
    repeat split; lra.
  Qed.
  Lemma mdead t : mfits t -> mclose t -> pbest phi t = None -> mval t < - 50000.
  Proof. intros (H1 & H2 & H3) C E. unfold mclose in C. rewrite E in C. lra. Qed.
  Lemma malive t p : mfits t -> mclose t -> pbest phi t = Some p -> - W <= mval t.
  Proof.
    intros (H1 & H2 & H3) C E. unfold mclose in C. rewrite E in C. destruct C as [C1 C2]. apply abs2 in C1.
    rewrite <- (Rminus_0_r p) in C2. apply abs2 in C2. lra.
  Qed.

  Theorem max_close t : twf t -> mfits t -> mclose t.
  Proof.
    induction t as [e|e| | |l IH|a b IHa IHb] using term_ind'; intros Wf Hf.
    - unfold mclose, pbest, mval. cbn [leval nops lv]. simpl INR. rewrite Rminus_diag_eq, Rabs_R0 by reflexivity. specialize (Hphi e). split; lra.
    - unfold mclose, pbest, mval. cbn [leval nops lv sover pmax_ops fmax_ops]. simpl INR. unfold NEG. lra.
    - unfold mclose, pbest, mval. cbn [leval nops lv sone pmax_ops fmax_ops]. simpl INR. rewrite Rminus_0_r, Rabs_R0. split; lra.
    - unfold mclose, pbest, mval. cbn [leval nops lv szero pmax_ops fmax_ops]. simpl INR. unfold NEG. lra.
    - inversion_clear Wf as [| | | |? Hne Wl|]. rewrite Forall_forall in IH, Wl.
      assert (Hl : forall t, In t l -> mfits t /\ mclose t) by (intros t Ht; assert (mfits t) by (eapply mfits_child; eauto); auto).
      unfold mclose. change (pbest phi (TSum l)) with (xmax (map (pbest phi) l)). change (mval (TSum l)) with (rmax (map mval l)).
      destruct (@xmax_is_max (map (pbest phi) l)) as [M1 M2]; [destruct l; [congruence|discriminate]|].
      destruct (@rmax_is_max (map mval l)) as [V1 V2]; [destruct l; [congruence|discriminate]|].
      cbn [nops lv]. rewrite S_INR. set (nm := INR (list_max (map nops l))). set (lm := INR (list_max (map lv l))).
      assert (Hn : forall t, In t l -> INR (nops t) <= nm) by (intros t Ht; apply le_INR; now apply (lmax_in nops)).
      assert (Hv : forall t, In t l -> B * INR (lv t) <= B * lm) by (intros t Ht; apply Rmult_le_compat_l; auto; apply le_INR; now apply (lmax_in lv)).
      assert (Hn1 : forall t, In t l -> INR (nops t) * (u * W) <= nm * (u * W)) by (intros t Ht; apply Rmult_le_compat_r; auto).
      assert (Hn2 : forall t, In t l -> INR (nops t) * (u * (W + 100000)) <= nm * (u * (W + 100000))) by (intros t Ht; apply Rmult_le_compat_r; auto; lra).
      destruct (xmax (map (pbest phi) l)) as [p|].
      + apply in_map_iff in M1 as (t & Et & Ht). apply in_map_iff in V1 as (t' & Et' & Ht').
        assert (Ct := proj2 (Hl t Ht)). unfold mclose in Ct. rewrite Et in Ct. destruct Ct as [C1 C2]. apply abs2 in C1.
        assert (V2t := V2 _ (in_map mval l t Ht)). specialize (Hn1 t Ht) as N1. split; [|eapply Rle_trans; [exact C2|auto]].
        assert (Up : rmax (map mval l) <= p + nm * (u * W)).
        { rewrite <- Et'. destruct (Hl t' Ht') as [F' C']. specialize (Hn1 t' Ht'). destruct (pbest phi t') as [q|] eqn:Eq.
          - unfold mclose in C'. rewrite Eq in C'. destruct C' as [C' _]. apply abs2 in C'.
            specialize (M2 _ (in_map (pbest phi) l t' Ht')). rewrite Eq in M2. cbn in M2. lra.
          - exfalso. pose proof (mdead F' C' Eq). pose proof (@malive t p (proj1 (Hl t Ht)) (proj2 (Hl t Ht)) Et).
            destruct (proj1 (Hl t Ht)) as (_ & _ & X). assert (0 <= INR (nops t) * (u * (W + 100000))) by (apply Rmult_le_pos; [apply pos_INR|lra]). lra. }
        apply Rabs_le. lra.
      + apply in_map_iff in V1 as (t' & Et' & Ht'). rewrite <- Et'. specialize (M2 _ (in_map (pbest phi) l t' Ht')).
        destruct (Hl t' Ht') as [F' C']. unfold mclose in C'. destruct (pbest phi t'); [destruct M2|].
        specialize (Hv t' Ht'). specialize (Hn2 t' Ht'). lra.
    - inversion_clear Wf as [| | | | |? ? Wa Wb]. destruct (mfits_mul Hf) as [Fa Fb]. specialize (IHa Wa Fa). specialize (IHb Wb Fb).
      unfold mclose in *. change (pbest phi (TMul a b)) with (xplus (pbest phi a) (pbest phi b)). change (mval (TMul a b)) with (fadd (mval a) (mval b)).
      destruct Fa as (Ma & Ea & La), Fb as (Mb & Eb & Lb), Hf as (M & E3 & L3). cbn [nops lv] in *. rewrite S_INR, !plus_INR in *.
      pose proof (@Hadd (mval a) (mval b)) as HAd.
      set (ea := INR (nops a) * (u * W)) in *. set (eb := INR (nops b) * (u * W)) in *. set (la := INR (nops a) * (u * (W + 100000))) in *. set (lb := INR (nops b) * (u * (W + 100000))) in *.
      replace ((INR (nops a) + INR (nops b) + 1) * (u * W)) with (ea + eb + u * W) in * by (unfold ea, eb; ring).
      replace ((INR (nops a) + INR (nops b) + 1) * (u * (W + 100000))) with (la + lb + u * (W + 100000)) in * by (unfold la, lb; ring).
      pose proof (pos_INR (nops a)). pose proof (pos_INR (nops b)).
      assert (0 <= ea <= la) by (split; [apply Rmult_le_pos|apply Rmult_le_compat_l]; auto).
      assert (0 <= eb <= lb) by (split; [apply Rmult_le_pos|apply Rmult_le_compat_l]; auto).
      assert (0 <= B * INR (lv a)) by (apply Rmult_le_pos; auto using pos_INR). assert (0 <= B * INR (lv b)) by (apply Rmult_le_pos; auto using pos_INR).
      destruct (pbest phi a) as [pa|], (pbest phi b) as [pb|]; cbn [xplus].
      + destruct IHa as [A1 A2], IHb as [B1 B2]. split.
        2:{ eapply Rle_trans; [apply Rabs_triang|]. lra. }
        assert (S0 : Rabs (mval a + mval b) <= W).
        { assert (A1' := abs2 _ _ A1). assert (B1' := abs2 _ _ B1). rewrite <- (Rminus_0_r pa) in A2. rewrite <- (Rminus_0_r pb) in B2.
          apply abs2 in A2, B2. apply Rabs_le. lra. }
        assert (u * Rabs (mval a + mval b) <= u * W) by (apply Rmult_le_compat_l; lra).
        apply abs2 in HAd, A1, B1. apply Rabs_le. lra.
      + destruct IHa as [A1 A2]. apply abs2 in A1. rewrite <- (Rminus_0_r pa) in A2. apply abs2 in A2. rewrite Rminus_0_r in A2.
        assert (S0 : mval a + mval b <= - 100000 + B * (INR (lv a) + INR (lv b)) + la + lb) by lra.
        eapply Rle_trans; [apply (@neg_round u Hu _ _ _ HAd S0); lra|]. lra.
      + destruct IHb as [B1 B2]. apply abs2 in B1. rewrite <- (Rminus_0_r pb) in B2. apply abs2 in B2. rewrite Rminus_0_r in B2.
        assert (S0 : mval a + mval b <= - 100000 + B * (INR (lv a) + INR (lv b)) + la + lb) by lra.
        eapply Rle_trans; [apply (@neg_round u Hu _ _ _ HAd S0); lra|]. lra.
      + assert (S0 : mval a + mval b <= - 100000 + B * (INR (lv a) + INR (lv b)) + la + lb) by lra.
        eapply Rle_trans; [apply (@neg_round u Hu _ _ _ HAd S0); lra|]. lra.
  Qed.

  (** the derivation that is followed is pure and scores close to the computed maximum *)
  Theorem max_picked t : twf t -> mfits t -> forall o p, fargmax_ok fadd phi o p t -> forall v, pbest phi t = Some v ->
    pure (picked o p t) = true /\ Rabs (score phi NEG (picked o p t) - mval t) <= INR (nops t) * (u * W).
  Proof.
    induction t as [e|e| | |l IH|a b IHa IHb] using term_ind'; intros Wf Hf o p Ho v Hv.
    - split; auto. cbn [picked mval leval]. unfold score, Sum, mval; cbn. rewrite Rplus_0_r, Rminus_diag_eq, Rabs_R0 by reflexivity. lra.
    - discriminate.
    - split; auto. unfold score, Sum, mval; cbn. rewrite Rminus_0_r, Rabs_R0. lra.
    - discriminate.
    - inversion Wf as [| | | |? Hne Wl|]; subst. rewrite Forall_forall in IH, Wl.
      cbn [fargmax_ok] in Ho. destruct Ho as [(t & E & M) Ho]. rewrite fold_and_mapi in Ho. rewrite (picked_sum _ _ _ E).
      assert (Ht := nth_error_In _ _ E). assert (Ft := mfits_child _ Ht Hf).
      assert (Ev : mval (TSum l) = mval t).
      { change (mval (TSum l)) with (rmax (map mval l)). symmetry. apply (is_max_unique M). apply rmax_is_max. destruct l; [congruence|discriminate]. }
      destruct (pbest phi t) as [q|] eqn:Eq.
      + destruct (IH t Ht (Wl t Ht) Ft o (o p :: p) (Ho _ _ E) q Eq) as [H1 H2]. split; auto. rewrite Ev.
        eapply Rle_trans; [exact H2|]. apply Rmult_le_compat_r; auto. apply le_INR. cbn [nops]. pose proof (lmax_in nops l t Ht). lia.
      + exfalso. change (pbest phi (TSum l)) with (xmax (map (pbest phi) l)) in Hv.
        destruct (@xmax_is_max (map (pbest phi) l)) as [M1 _]; [destruct l; [congruence|discriminate]|]. rewrite Hv in M1.
        apply in_map_iff in M1 as (t' & Et' & Ht'). assert (Ft' := mfits_child _ Ht' Hf).
        pose proof (mdead Ft (max_close (Wl t Ht) Ft) Eq). pose proof (malive Ft' (max_close (Wl t' Ht') Ft') Et').
        destruct M as [_ M]. specialize (M _ (in_map (leval (fmax_ops NEG fadd) phi) l t' Ht')). fold (mval t') in M. fold (mval t) in M.
        destruct Ft as (_ & _ & X). assert (0 <= INR (nops t) * (u * (W + 100000))) by (apply Rmult_le_pos; [apply pos_INR|lra]). lra.
    - inversion Wf as [| | | | |? ? Wa Wb]; subst. destruct (mfits_mul Hf) as [Fa Fb]. destruct Ho as [Oa Ob].
      change (pbest phi (TMul a b)) with (xplus (pbest phi a) (pbest phi b)) in Hv.
      pose proof (max_close Wa Fa) as Ca. pose proof (max_close Wb Fb) as Cb. unfold mclose in Ca, Cb.
      destruct (pbest phi a) as [pa|] eqn:Ea; [|discriminate]. destruct (pbest phi b) as [pb|] eqn:Eb; [|discriminate].
      destruct (IHa Wa Fa o _ Oa pa eq_refl) as [A1 A2], (IHb Wb Fb o _ Ob pb eq_refl) as [B1 B2].
      cbn [picked]. rewrite pure_app, A1, B1, score_app. split; auto. change (mval (TMul a b)) with (fadd (mval a) (mval b)).
      pose proof (@Hadd (mval a) (mval b)) as HAd. destruct Hf as (M & E3 & L3). cbn [nops lv] in *. rewrite S_INR, !plus_INR in *.
      destruct Ca as [Ca1 Ca2], Cb as [Cb1 Cb2].
      assert (0 <= INR (nops a) * (u * W)) by (apply Rmult_le_pos; auto using pos_INR). assert (0 <= INR (nops b) * (u * W)) by (apply Rmult_le_pos; auto using pos_INR).
      assert (S0 : Rabs (mval a + mval b) <= W).
      { rewrite <- (Rminus_0_r pa) in Ca2. rewrite <- (Rminus_0_r pb) in Cb2. apply abs2 in Ca1, Cb1, Ca2, Cb2. apply Rabs_le. lra. }
      assert (u * Rabs (mval a + mval b) <= u * W) by (apply Rmult_le_compat_l; lra).
      apply abs2 in HAd, A2, B2. apply Rabs_le. lra.
  Qed.
End Max.

(** ** Count and the other sums of weights *)
Section Std.
  Variables (A : nat) (u : R) (fmul : R -> R -> R) (fsum : list R -> R).
  Hypothesis Hu : 0 <= u <= 1.
  Hypothesis Hmul : mul_acc u fmul.
  Hypothesis Hsum : sum_acc A u fsum.
  Variable phi : list nat -> R.
  Hypothesis Hphi : forall e, 0 <= phi e.
  Lemma pow_le1 n m : (n <= m)%nat -> (1 - u) ^ m <= (1 - u) ^ n /\ (1 + u) ^ n <= (1 + u) ^ m /\ 0 <= (1 - u) ^ m.
  Proof.
    intro H. split; [|split].
    - replace m with (n + (m - n))%nat by lia. rewrite pow_add. rewrite <- (Rmult_1_r ((1 - u) ^ n)) at 2.
      apply Rmult_le_compat_l; [apply pow_le; lra|]. assert (X : (1 - u) ^ (m - n) <= 1 ^ (m - n)) by (apply pow_incr; lra). rewrite pow1 in X. exact X.
    - apply Rle_pow; auto. lra.
    - apply pow_le. lra.
  Qed.
  Theorem std_close t : twf t -> (wide t <= A)%nat ->
    0 <= leval std_ops phi t /\ (1 - u) ^ nops t * leval std_ops phi t <= leval (fstd_ops fmul fsum) phi t <= (1 + u) ^ nops t * leval std_ops phi t.
  Proof.
    induction t as [e|e| | |l IH|a b IHa IHb] using term_ind'; intros Wf Hw.
    - specialize (Hphi e). cbn. lra.
    - cbn. lra.
    - cbn. lra.
    - cbn. lra.
    - inversion_clear Wf as [| | | |? Hne Wl|]. rewrite Forall_forall in IH, Wl. cbn [leval nops pow].
      set (ex := leval std_ops phi : term -> R) in *. set (fl := leval (fstd_ops fmul fsum) phi : term -> R) in *. set (n := list_max (map nops l)).
      assert (Hc : forall t, In t l -> 0 <= ex t /\ (1 - u) ^ n * ex t <= fl t <= (1 + u) ^ n * ex t).
      { intros t Ht. destruct (IH t Ht (Wl t Ht)) as [H1 H2]; [pose proof (lmax_in wide l t Ht); cbn [wide] in Hw; lia|]. split; auto. destruct (pow_le1 (lmax_in nops l t Ht)) as (P1 & P2 & P3). fold n in P1, P2, P3.
        split; (eapply Rle_trans; [|apply H2] || (eapply Rle_trans; [apply H2|])); apply Rmult_le_compat_r; auto. }
      assert (Z' : RSum (fun x => x) (map fl l) = RSum fl l) by apply RSum_map.
      assert (Fl : Forall (Rle 0) (map fl l)).
      { apply Forall_forall. intros x Hx. apply in_map_iff in Hx as (t & <- & Ht). destruct (Hc t Ht) as [H1 [H2 _]].
        eapply Rle_trans; [|exact H2]. apply Rmult_le_pos; auto. apply pow_le; lra. }
      assert (Hm : map fl l <> []) by (destruct l; [congruence|discriminate]). assert (Hn : (length (map fl l) <= A)%nat) by (rewrite map_length; cbn [wide] in Hw; lia). destruct (Hsum Hm Hn Fl) as [S1 S2]. rewrite Z' in S1, S2.
      assert (R1 : (1 - u) ^ n * RSum ex l <= RSum fl l) by (rewrite <- RSum_scal; apply RSum_le; intros t Ht; apply (Hc t Ht)).
      assert (R2 : RSum fl l <= (1 + u) ^ n * RSum ex l) by (rewrite <- RSum_scal; apply RSum_le; intros t Ht; apply (Hc t Ht)).
      change (ssum std_ops (map ex l)) with (RSum ex l). cbn [ssum fstd_ops].
      assert (H : 0 <= RSum ex l) by (apply RSum_nonneg; intros t Ht; apply (Hc t Ht)).
      split; [exact H|]. split.
      + eapply Rle_trans; [|exact S1]. rewrite Rmult_assoc. apply Rmult_le_compat_l; [lra|exact R1].
      + eapply Rle_trans; [exact S2|]. rewrite Rmult_assoc. apply Rmult_le_compat_l; [lra|exact R2].
    - inversion_clear Wf as [| | | | |? ? Wa Wb]. cbn [wide] in Hw. destruct (IHa Wa ltac:(lia)) as [A0 [A1 A2]], (IHb Wb ltac:(lia)) as [B0 [B1 B2]].
      cbn [leval smul std_ops fstd_ops nops pow]. set (fa := leval (fstd_ops fmul fsum) phi a) in *. set (fb := leval (fstd_ops fmul fsum) phi b) in *.
      set (xa := leval std_ops phi a) in *. set (xb := leval std_ops phi b) in *. cbn [car std_ops fstd_ops] in *.
      assert (La : 0 <= (1 - u) ^ nops a) by (apply pow_le; lra). assert (Lb : 0 <= (1 - u) ^ nops b) by (apply pow_le; lra).
      assert (0 <= (1 - u) ^ nops a * xa) by (now apply Rmult_le_pos). assert (0 <= (1 - u) ^ nops b * xb) by (now apply Rmult_le_pos).
      assert (Fa : 0 <= fa) by lra. assert (Fb : 0 <= fb) by lra. destruct (Hmul Fa Fb) as [M1 M2]. rewrite !pow_add.
      split; [now apply Rmult_le_pos|]. split.
      + eapply Rle_trans; [|exact M1]. rewrite Rmult_assoc. apply Rmult_le_compat_l; [lra|].
        assert (Q : (1 - u) ^ nops a * (1 - u) ^ nops b * smul std_ops xa xb = ((1 - u) ^ nops a * xa) * ((1 - u) ^ nops b * xb)) by (change (smul std_ops xa xb) with (Rmult xa xb); ring).
        rewrite Q. apply Rmult_le_compat; [exact H|exact H0|exact A1|exact B1].
      + eapply Rle_trans; [exact M2|]. rewrite Rmult_assoc. apply Rmult_le_compat_l; [lra|].
        assert (Q : (1 + u) ^ nops a * (1 + u) ^ nops b * smul std_ops xa xb = ((1 + u) ^ nops a * xa) * ((1 + u) ^ nops b * xb)) by (change (smul std_ops xa xb) with (Rmult xa xb); ring).
        rewrite Q. apply Rmult_le_compat; [exact Fa|exact Fb|exact A2|exact B2].
  Qed.
End Std.
