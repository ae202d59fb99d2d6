(** * MaskGrad: the backward pass when potentials may be minus infinity.

    [marginals] is the gradient of the log-partition (helpers.py:83-116). The
    forward values are those of Mask.v. The backward pass of torch.logsumexp
    multiplies by exp(argument - result), which is NaN when both are -inf. *)
From Verif Require Import Base Ops Terms Semirings Poly Chain LinearChain SemiMarkov CkyCrf Batch Family Approx Grad Dist Degree Shape Api Query Mask Special Dag.
Set Implicit Arguments.
Local Open Scope R_scope.

Section Back.
  Variables (g : dag) (phi : list nat -> ext) (z : R).
  (** forward value of node k (semirings.py:98-112 on floats with -inf) *)
  Definition xv (k : nat) : ext := fwd g (xlog_ops z) phi k.
  (** torch's backward of logsumexp (semirings.py:102-104):
      [grad * (self - result).exp()] *)
  Definition fweight (k i : nat) : flt :=
    match ndof g k with
    | NSum l => fexp (fsub (of_x (nth i (map xv l) None)) (of_x (xv k)))
    | _ => FR 0
    end.
  (** torch.autograd accumulates: the gradient of node c grows by x *)
  Definition faddto (gr : nat -> flt) (c : nat) (x : flt) : nat -> flt :=
    fun v => if (v =? c)%nat then fadd (gr v) x else gr v.
  (** the gradients sent to a list of arguments are accumulated one after the other *)
  Fixpoint fscatter (l : list nat) (i : nat) (s : nat -> flt) (gr : nat -> flt) : nat -> flt :=
    match l with [] => gr | c :: l' => fscatter l' (S i) s (faddto gr c (s i)) end.
  (** backward step of one node (helpers.py:97-116): also nodes with gradient 0 send *)
  Definition fbstep (k : nat) (gr : nat -> flt) : nat -> flt :=
    match ndof g k with
    | NSum l => fscatter l 0 (fun i => fmul (gr k) (fweight k i)) gr
    | NMul a b => faddto (faddto gr a (gr k)) b (gr k)
    | _ => gr
    end.
  (** nodes n-1, ..., 0 (torch.autograd) *)
  Fixpoint fbpass (n : nat) (gr : nat -> flt) : nat -> flt :=
    match n with O => gr | S k => fbpass k (fbstep k gr) end.
  (** helpers.py:97-116: [torch.autograd.grad] from the root, gradient 1 *)
  Definition fgrads (r : nat) : nat -> flt := fbpass (S r) (fun v => if (v =? r)%nat then FR 1 else FR 0).
  (** whether node k reads entry e of the potentials, or a copy overwritten through [.data] *)
  Definition reads_at (e : list nat) (k : nat) : bool :=
    match ndof g k with
    | NLeaf e' | NOver e' => if list_eq_dec Nat.eq_dec e e' then true else false
    | _ => false
    end.
  (** gradient of entry e of the potentials: all reads of it *)
  Definition fgrad (r : nat) (e : list nat) : flt := fsum (map (fgrads r) (filter (reads_at e) (seq 0 (S r)))).

  (** ** Spec: what becomes NaN *)
  (** the arguments of node k *)
  Definition args (k : nat) : list nat := match ndof g k with NSum l => l | NMul a b => [a; b] | _ => [] end.
  (** node v is used, directly or not, to compute node k *)
  Inductive below (k : nat) : nat -> Prop :=
  | below_arg v : In v (args k) -> below k v
  | below_step u v : below k u -> In v (args u) -> below k v.
  (** a sum all of whose arguments are -inf *)
  Definition dead (k : nat) : Prop := (exists l, ndof g k = NSum l) /\ xv k = None.
  (** node v feeds such a sum, recorded before the root *)
  Definition poisoned (r v : nat) : Prop := exists k, (k <= r)%nat /\ dead k /\ below k v.
  (** the finite weights: exp(argument - result) for the other sums *)
  Definition xsoft (k i : nat) : R :=
    match ndof g k with NSum l => xexp (nth i (map xv l) None) / xexp (xv k) | _ => 0 end.

  Hypothesis Ht : topo g.
  Lemma args_lt k v : In v (args k) -> (v < k)%nat.
  Proof.
    unfold args. destruct (ndof g k) as [| | | |l|a b] eqn:E.
    1-4: intros [].
    - intro H. now apply (topo_sum Ht k E).
    - destruct (topo_mul Ht k E). intros [<-|[<-|[]]]; auto.
  Qed.
  Lemma below_lt k v : below k v -> (v < k)%nat.
  Proof. induction 1 as [v H|u v _ IH H]; apply args_lt in H; lia. Qed.
  Lemma xv_sum k l : ndof g k = NSum l -> xv k = xlse (map xv l).
  Proof. intro E. unfold xv at 1. rewrite (fwd_eq Ht). unfold fwd_step. rewrite E. reflexivity. Qed.
  Lemma xlse_none l i : xlse l = None -> nth i l None = None.
  Proof.
    unfold xlse. destruct (forallb is_none l) eqn:E; [|discriminate]. intros _. rewrite forallb_forall in E.
    destruct (nth_in_or_default i l None) as [H|H]; [|exact H]. specialize (E _ H). destruct (nth i l None); [discriminate|reflexivity].
  Qed.
  Lemma dead_dec k : dead k \/ ~ dead k.
  Proof.
    unfold dead. destruct (ndof g k) eqn:E; try (right; intros [(l' & H) _]; discriminate).
    destruct (xv k) eqn:X; [right; intros [_ H]; discriminate|left; eauto].
  Qed.
  Lemma fweight_dead k i : dead k -> fweight k i = FNan.
  Proof.
    intros [(l & E) H]. unfold fweight. rewrite E, H. pose proof (xv_sum k E) as X. rewrite H in X.
    rewrite (@xlse_none _ i (eq_sym X)). reflexivity.
  Qed.
  Lemma fweight_live k i : ~ dead k -> fweight k i = FR (xsoft k i).
  Proof.
    intro H. unfold fweight, xsoft. destruct (ndof g k) eqn:E; try reflexivity.
    destruct (xv k) as [y|] eqn:X; [|destruct H; split; eauto].
    destruct (nth i (map xv l) None) as [x|]; cbn.
    - f_equal. rewrite exp_plus, exp_Ropp. reflexivity.
    - f_equal. unfold Rdiv. ring.
  Qed.

  Section Pass.
    Variable r : nat.
    (** proof device: v has received a NaN from a node at or above n *)
    Definition hit (n v : nat) : Prop := exists k, (n <= k <= r)%nat /\ In v (args k) /\ (dead k \/ poisoned r k).
    (** proof device: the pass on floats follows the pass on reals where nothing was hit *)
    Definition follows (P : nat -> Prop) (gr : nat -> flt) (rg : nat -> R) : Prop :=
      forall v, (gr v = FNan /\ P v) \/ (gr v = FR (rg v) /\ ~ P v).
    Lemma follows_iff P Q gr rg : (forall v, P v <-> Q v) -> follows P gr rg -> follows Q gr rg.
    Proof. intros E H v. destruct (H v) as [[A B]|[A B]]; [left|right]; split; auto; now rewrite <- E. Qed.
    Lemma faddto_real P gr rg c x : follows P gr rg -> follows P (faddto gr c (FR x)) (addto R_csr rg c x).
    Proof.
      intros H v. unfold faddto, addto. destruct (v =? c)%nat; [|apply H].
      destruct (H v) as [[A B]|[A B]]; rewrite A; [left|right]; split; auto.
    Qed.
    Lemma faddto_nan P gr rg rg' c : (forall v, v <> c -> rg' v = rg v) -> follows P gr rg ->
      follows (fun v => P v \/ v = c) (faddto gr c FNan) rg'.
    Proof.
      intros E H v. unfold faddto. destruct (Nat.eqb_spec v c) as [->|N].
      - left. rewrite fadd_nan_r. auto.
      - destruct (H v) as [[A B]|[A B]]; rewrite A; [left|right]; split; auto; [now rewrite E|tauto].
    Qed.
    Lemma fscatter_real P (s : nat -> flt) (s' : nat -> R) l : (forall i, s i = FR (s' i)) -> forall i gr rg,
      follows P gr rg -> follows P (fscatter l i s gr) (scatter R_csr l i s' rg).
    Proof.
      intro E. induction l as [|c l IH]; intros i gr rg H; simpl; auto. apply IH. rewrite E. now apply faddto_real.
    Qed.
    Lemma fscatter_nan P (s : nat -> flt) (s' : nat -> R) l : (forall i, s i = FNan) -> forall i gr rg,
      follows P gr rg -> follows (fun v => P v \/ In v l) (fscatter l i s gr) (scatter R_csr l i s' rg).
    Proof.
      intro E. revert P. induction l as [|c l IH]; intros P i gr rg H; simpl.
      - revert H. apply follows_iff. tauto.
      - eapply follows_iff; [|apply (IH (fun v => P v \/ v = c))].
        + intro v. simpl. intuition.
        + rewrite E. apply faddto_nan with rg; auto. intros v Hv. unfold addto. now apply Nat.eqb_neq in Hv as ->.
    Qed.
    Lemma hit_self k : (k <= r)%nat -> hit (S k) k <-> poisoned r k.
    Proof.
      intro Hk. split.
      - intros (u & Hu & Ha & [D|(w & Hw & D & B)]).
        + exists u. repeat split; try apply D; [lia|now apply below_arg].
        + exists w. repeat split; try apply D; [lia|now apply below_step with u].
      - intros (w & Hw & D & B). inversion B as [v Ha|u v Hb Ha]; subst.
        + exists w. apply args_lt in Ha as L. split; [lia|auto].
        + exists u. apply args_lt in Ha as L. apply below_lt in Hb as L'. split; [lia|]. split; auto. right. exists w. auto.
    Qed.
    Lemma hit_step k v : (k <= r)%nat -> hit k v <-> hit (S k) v \/ (In v (args k) /\ (dead k \/ poisoned r k)).
    Proof.
      intro Hk. split.
      - intros (u & Hu & H). destruct (Nat.eq_dec u k) as [->|N]; [now right|]. left. exists u. split; [lia|exact H].
      - intros [(u & Hu & H)|H]; [exists u|exists k]; (split; [lia|exact H]).
    Qed.
    Lemma fbstep_follows k gr rg : (k <= r)%nat -> follows (hit (S k)) gr rg ->
      follows (hit k) (fbstep k gr) (bstep g R_csr (lin_send xsoft) k rg).
    Proof.
      intros Hk H.
      assert (D : dead k \/ ~ dead k) by apply dead_dec.
      assert (HK : (gr k = FNan /\ poisoned r k) \/ (gr k = FR (rg k) /\ ~ poisoned r k)).
      { pose proof (hit_self Hk) as [Q1 Q2]. destruct (H k) as [[A B]|[A B]]; [left|right]; auto. }
      apply follows_iff with (P := fun v => hit (S k) v \/ (In v (args k) /\ (dead k \/ poisoned r k))); [intro v; symmetry; apply (hit_step v Hk)|].
      unfold fbstep, bstep. destruct (ndof g k) as [e|e| | |l|a b] eqn:E.
      1-4: revert H; apply follows_iff; intro v; unfold args; rewrite E; simpl; tauto.
      - assert (EA : args k = l) by (unfold args; now rewrite E). rewrite EA.
        assert (C : (dead k \/ poisoned r k) \/ (~ dead k /\ gr k = FR (rg k) /\ ~ poisoned r k)) by tauto.
        destruct C as [C|(C1 & C2 & C3)].
        + eapply follows_iff; [|apply fscatter_nan, H].
          * intro v. simpl. tauto.
          * intro i. destruct C as [C|C]; [rewrite (fweight_dead i C); apply fmul_nan_r|].
            destruct HK as [[-> _]|[_ HK]]; [apply fmul_nan_l|contradiction].
        + eapply follows_iff; [|apply fscatter_real with (s' := lin_send xsoft k (rg k)), H].
          * intro v. tauto.
          * intro i. rewrite C2, (fweight_live i C1). reflexivity.
      - assert (EA : args k = [a; b]) by (unfold args; now rewrite E). rewrite EA.
        assert (ND : ~ dead k) by (intros [(l & H') _]; congruence).
        destruct HK as [[-> HK]|[-> HK]].
        + eapply follows_iff; [|eapply faddto_nan; [|eapply faddto_nan; [|exact H]]].
          * intro v. simpl. intuition.
          * intros v Hv. unfold addto at 1. apply Nat.eqb_neq in Hv as ->. reflexivity.
          * intros v Hv. unfold addto. apply Nat.eqb_neq in Hv as ->. reflexivity.
        + eapply follows_iff; [|apply faddto_real, faddto_real, H]. intro v. tauto.
    Qed.
    Lemma fbpass_follows n : forall gr rg, (n <= S r)%nat -> follows (hit n) gr rg ->
      follows (hit 0) (fbpass n gr) (bpass g R_csr (lin_send xsoft) n rg).
    Proof.
      induction n as [|n IH]; intros gr rg Hn H; simpl; auto. apply IH; [lia|]. apply fbstep_follows; [lia|exact H].
    Qed.
    Theorem fgrads_follow : follows (poisoned r) (fgrads r) (node_grads g R_csr (lin_send xsoft) r).
    Proof.
      apply follows_iff with (P := hit 0).
      { intro v. split.
        - intros (u & Hu & Ha & [D|(w & Hw & D & B)]).
          + exists u. repeat split; try apply D; [lia|now apply below_arg].
          + exists w. repeat split; try apply D; [lia|now apply below_step with u].
        - intros (w & Hw & D & B). inversion B as [v' Ha|u v' Hb Ha]; subst.
          + exists w. split; [lia|auto].
          + exists u. apply below_lt in Hb as L'. split; [lia|]. split; auto. right. exists w. auto. }
      apply fbpass_follows; [lia|]. intro v. right. split.
      - unfold binit. destruct (v =? r)%nat; reflexivity.
      - intros (u & Hu & _). lia.
    Qed.
  End Pass.

  Lemma fsum_real A (f : A -> flt) (h : A -> R) l : (forall x, In x l -> f x = FR (h x)) -> fsum (map f l) = FR (RSum h l).
  Proof.
    induction l as [|x l IH]; intro H; [reflexivity|]. cbn [map fsum fold_right]. fold (fsum (map f l)).
    rewrite IH by (intros; apply H; now right). rewrite (H x (or_introl eq_refl)). cbn [fadd]. f_equal.
  Qed.
  (** an entry's gradient is NaN iff some read of it feeds a sum that is -inf *)
  Theorem fgrad_nan r e : (exists v, (v <= r)%nat /\ reads_at e v = true /\ poisoned r v) -> fgrad r e = FNan.
  Proof.
    intros (v & Hv & R & P). unfold fgrad. apply fsum_nan, in_map_iff. exists v. split.
    - destruct (fgrads_follow r v) as [[A _]|[_ A]]; [exact A|contradiction].
    - apply filter_In. split; [apply in_seq; lia|exact R].
  Qed.
  Theorem fgrad_real r e : (forall v, (v <= r)%nat -> reads_at e v = true -> ~ poisoned r v) ->
    fgrad r e = FR (dgrad g R_csr (lin_send xsoft) r e).
  Proof.
    intro H. unfold fgrad, dgrad. rewrite (@fsum_real _ _ (node_grads g R_csr (lin_send xsoft) r)).
    - f_equal. rewrite (Sum_filter R_csr). apply (Sum_ext R_csr). intro k. unfold reads_at, sel.
      destruct (ndof g k) as [e0|e0| | | |]; try destruct (list_eq_dec Nat.eq_dec e e0); cbn [R_csr k0 k1 kmul K]; try (symmetry; apply Rmult_0_r); symmetry; apply Rmult_1_r.
    - intros v Hv. apply filter_In in Hv as [Hv R]. apply in_seq in Hv.
      destruct (fgrads_follow r v) as [[_ A]|[A _]]; [|exact A]. destruct (H v) in A; auto. lia.
  Qed.

  (** ** The finite gradients: expected uses *)
  (** weight times derivative of a node *)
  Lemma xbval_value e k : xexp (xv k) * bval g xsoft e k = RSum (fun m => xw phi z m * cnt e m) (expand (unf g k)).
  Proof.
    induction k as [k IH] using lt_wf_ind.
    assert (VX : forall i, xexp (xv i) = RSum (xw phi z) (expand (unf g i))).
    { intro i. unfold xv. rewrite (fwd_unf Ht). apply xlog_value, (unf_wf Ht). }
    rewrite (bval_eq Ht). unfold bval_step, sel. rewrite (unf_eq Ht k). unfold unf_step.
    assert (XK : xv k = fwd_step g (xlog_ops z) phi k xv) by exact (fwd_eq Ht (xlog_ops z) phi k). unfold fwd_step in XK.
    destruct (ndof g k) as [e'|e'| | |l|a b] eqn:E.
    - rewrite XK. cbn [expand]. unfold Sum, xw, cnt, Sum. cbn. destruct (list_eq_dec Nat.eq_dec e e'); cbn; ring.
    - rewrite XK. cbn [expand]. unfold Sum, xw, cnt, Sum. cbn. destruct (list_eq_dec Nat.eq_dec e e'); cbn; ring.
    - cbn [expand]. unfold Sum, xw, cnt, Sum. cbn. ring.
    - cbn [expand]. unfold Sum, xw, cnt, Sum. cbn. ring.
    - cbn [expand]. rewrite RSum_flat_map, RSum_map.
      transitivity (RSum (fun c => xexp (xv c) * bval g xsoft e c) l).
      2:{ apply (Sum_ext_in R_csr). intros c Hc. apply IH. now apply (topo_sum Ht k E). }
      assert (XE : xexp (xv k) = RSum (fun c => xexp (xv c)) l).
      { rewrite XK. cbn [ssum xlog_ops]. rewrite xlse_exp, RSum_map. reflexivity. }
      destruct (xv k) as [y|] eqn:Y.
      + transitivity (xexp (Some y) * ksum R_csr (mapi (fun i c => / xexp (Some y) * (nth i (map xexp (map xv l)) 0 * bval g xsoft e c)) 0 l)).
        * f_equal. f_equal. apply mapi_ext_nth. intros j c Hc. unfold xsoft. rewrite E, Y. cbn [Nat.add].
          change 0 with (xexp None). rewrite map_nth. unfold Rdiv. ring.
        * rewrite (@ksum_mapi_scale R_csr (/ xexp (Some y)) (fun i c => nth i (map xexp (map xv l)) 0 * bval g xsoft e c)).
          cbn [kmul R_csr]. rewrite <- Rmult_assoc, Rinv_r, Rmult_1_l by (apply Rgt_not_eq, exp_pos).
          transitivity (ksum R_csr (mapi (fun _ c => xexp (xv c) * bval g xsoft e c) 0 l)); [|now rewrite mapi_const].
          f_equal. apply mapi_ext_nth. intros j c Hc. f_equal. cbn [Nat.add].
          rewrite map_map. apply nth_error_nth. now apply (map_nth_error (fun x => xexp (xv x))).
      + cbn [xexp] in *. rewrite Rmult_0_l. symmetry.
        transitivity (RSum (fun _ : nat => 0) l); [|rewrite RSum_const; ring].
        apply (Sum_ext_in R_csr). intros c Hc.
        assert (Z : xexp (xv c) = 0).
        { pose proof (@RSum_single _ (fun c => xexp (xv c)) c l Hc (fun x _ => xexp_nonneg (xv x))) as Q. cbv beta in Q. rewrite <- XE in Q.
          pose proof (xexp_nonneg (xv c)). lra. }
        rewrite Z. ring.
    - destruct (topo_mul Ht k E) as [La Lb]. cbn [smul xlog_ops] in XK. rewrite XK, xplus_exp.
      cbn [expand]. unfold prods. rewrite RSum_flat_map.
      transitivity (RSum (fun x => xw phi z x * cnt e x * xexp (xv b) + xw phi z x * (xexp (xv b) * bval g xsoft e b)) (expand (unf g a))).
      + rewrite RSum_add, !RSum_scar, <- (VX a), <- (IH a La). ring.
      + apply (Sum_ext R_csr). intro x. rewrite RSum_map, (IH b Lb), (VX b).
        transitivity (RSum (fun y => xw phi z x * cnt e x * xw phi z y + xw phi z x * (xw phi z y * cnt e y)) (expand (unf g b))).
        * now rewrite RSum_add, !RSum_scal.
        * apply (Sum_ext R_csr). intro y. rewrite cnt_app. unfold xw. rewrite (Prod_app R_csr). cbn [kmul R_csr]. ring.
  Qed.
  Theorem dgrad_xsoft r e : xv r <> None -> dgrad g R_csr (lin_send xsoft) r e =
    RSum (fun m => xw phi z m * cnt e m) (expand (unf g r)) / RSum (xw phi z) (expand (unf g r)).
  Proof.
    intro H. assert (D : dgrad g R_csr (lin_send xsoft) r e = bval g xsoft e r).
    { apply (dgrad_linear Ht R_csr (lin_send xsoft) xsoft (fun _ _ _ => eq_refl)).
      intro k. unfold backs. pose proof (bval_eq Ht xsoft e k) as Q. unfold bval_step in Q. destruct (ndof g k); exact Q. }
    rewrite D, <- xbval_value.
    rewrite <- (xlog_value phi z (unf_wf Ht r)), <- (fwd_unf Ht). fold (xv r).
    apply xexp_pos in H. field. lra.
  Qed.
End Back.

(** ** Sums recorded by a call *)
(** spec: s is computed on the way to t *)
Inductive subterm (s : term) : term -> Prop :=
| sub_refl : subterm s s
| sub_sum t l : In t l -> subterm s t -> subterm s (TSum l)
| sub_mul_l a b : subterm s a -> subterm s (TMul a b)
| sub_mul_r a b : subterm s b -> subterm s (TMul a b).
(** helpers.py:83-116: the graph recorded up to node r holds the values T (a call
    computes more than its result: every cell of its tensors, and autograd visits
    them all, with gradient 0 when the result does not use them), and its sums are
    those met on the way to a value of T *)
Definition records_values (T : term -> Prop) (g : dag) (r : nat) : Prop :=
  (forall t, T t -> exists k, (k <= r)%nat /\ unf g k = t) /\
  (forall k l, (k <= r)%nat -> ndof g k = NSum l -> exists t, T t /\ subterm (unf g k) t).

Lemma all_sums_sub P l t : subterm (TSum l) t -> all_sums P t -> P l.
Proof.
  induction 1 as [|t l' Hin _ IH|a b _ IH|a b _ IH]; cbn [all_sums]; intro H.
  - apply H.
  - destruct H as [_ H]. rewrite fold_and in H. apply IH, H, Hin.
  - apply IH, H.
  - apply IH, H.
Qed.
Lemma reads_sub e s t : subterm s t -> reads e s -> reads e t.
Proof. induction 1; cbn [reads]; intro R; auto. apply fold_or. eauto. Qed.
Section Sub.
  Variables (g : dag) (phi : list nat -> ext) (z : R).
  Hypothesis Ht : topo g.
  Lemma xv_unf k : xv g phi z k = leval (xlog_ops z) phi (unf g k).
  Proof. exact (fwd_unf Ht (xlog_ops z) phi k). Qed.
  (** a node that unfolds to a sum is one *)
  Lemma unf_sum_node k l : unf g k = TSum l -> exists l', ndof g k = NSum l' /\ map (unf g) l' = l.
  Proof. rewrite (unf_eq Ht). unfold unf_step. destruct (ndof g k); try discriminate. intro E. injection E as E. eauto. Qed.
  Lemma reads_below e k : reads e (unf g k) -> reads_at g e k = true \/ exists v, below g k v /\ reads_at g e v = true.
  Proof.
    induction k as [k IH] using lt_wf_ind. intro H. rewrite (unf_eq Ht) in H. unfold unf_step in H. unfold reads_at at 1.
    assert (S : forall c, In c (args g k) -> reads e (unf g c) -> exists v, below g k v /\ reads_at g e v = true).
    { intros c Hc Hr. destruct (IH c (args_lt Ht _ _ Hc) Hr) as [Q|(v & Hv & Q)].
      - exists c. split; [now apply below_arg|exact Q].
      - exists v. split; [|exact Q]. clear -Hc Hv. induction Hv as [v Ha|u v _ IHu Ha]; [apply below_step with c; auto; now apply below_arg|].
        now apply below_step with u. }
    destruct (ndof g k) as [e'|e'| | |l|a b] eqn:E; cbn [reads] in H; try contradiction.
    - left. subst. destruct (list_eq_dec Nat.eq_dec e' e'); congruence.
    - right. rewrite fold_or in H. destruct H as (t & Hin & H). apply in_map_iff in Hin as (c & <- & Hc).
      apply S with c; auto. unfold args. now rewrite E.
    - right. destruct H as [H|H]; [apply S with a|apply S with b]; auto; unfold args; rewrite E; simpl; auto.
  Qed.
  (** an entry read below a recorded sum that is -inf has gradient NaN *)
  Theorem fgrad_dead_sum r e k l : (k <= r)%nat -> unf g k = TSum l -> dead_sum phi z l -> reads e (TSum l) ->
    fgrad g phi z r e = FNan.
  Proof.
    intros Hk U D R. destruct (unf_sum_node k U) as (l' & E & _). rewrite <- U in R.
    destruct (@reads_below e k R) as [Q|(v & Hv & Q)].
    - unfold reads_at in Q. rewrite E in Q. discriminate.
    - apply (fgrad_nan Ht). exists v. pose proof (below_lt Ht Hv). split; [lia|]. split; [exact Q|].
      exists k. split; [exact Hk|]. split; [|exact Hv]. split; [eauto|]. rewrite xv_unf, U. exact D.
  Qed.
  (** no recorded sum is -inf: every gradient is a number *)
  Theorem fgrad_live T r e : records_values T g r -> (forall t, T t -> all_sums (live_sum phi z) t) ->
    fgrad g phi z r e = FR (dgrad g R_csr (lin_send (xsoft g phi z)) r e).
  Proof.
    intros [_ H] L. apply (fgrad_real Ht). intros v _ _ (k & Hk & [(l & E) D] & _).
    destruct (H k l Hk E) as (t & Tt & S).
    assert (U : unf g k = TSum (map (unf g) l)) by (rewrite (unf_eq Ht); unfold unf_step; now rewrite E).
    rewrite U in S. apply (@all_sums_sub _ _ _ S (L t Tt)). rewrite <- U, <- xv_unf. exact D.
  Qed.
End Sub.

(** ** Such graphs exist *)
Lemma sub_trans a b c : subterm a b -> subterm b c -> subterm a c.
Proof. intros H H'. revert a H. induction H'; intros; auto; [eapply sub_sum|apply sub_mul_l|apply sub_mul_r]; eauto. Qed.
Theorem record_sub t : twf t -> forall g, topo g -> exists h r, topo (g ++ h) /\ Datatypes.S r = length (g ++ h) /\ unf (g ++ h) r = t /\
  forall k, (length g <= k < length (g ++ h))%nat -> subterm (unf (g ++ h) k) t.
Proof.
  assert (Hatom : forall g n t, topo g -> node_ok (length g) n ->
    match n with NLeaf e => TLeaf e | NOver e => TOver e | NOne => TOne | NZero => TZero
      | NSum l => TSum (map (unf (g ++ [n])) l) | NMul a b => TMul (unf (g ++ [n]) a) (unf (g ++ [n]) b) end = t ->
    exists h r, topo (g ++ h) /\ Datatypes.S r = length (g ++ h) /\ unf (g ++ h) r = t /\
      forall k, (length g <= k < length (g ++ h))%nat -> subterm (unf (g ++ h) k) t).
  { intros g n u Ht Hn Et. exists [n], (length g). pose proof (@topo_snoc g n Ht Hn) as Ht'. split; [exact Ht'|].
    split; [rewrite app_length; simpl; lia|]. assert (U : unf (g ++ [n]) (length g) = u) by (rewrite <- Et; now apply unf_snoc).
    split; [exact U|]. intros k. rewrite app_length. intro Hk. simpl in Hk. replace k with (length g) by lia. rewrite U. apply sub_refl. }
  induction t as [e|e| | |l IH|a b IHa IHb] using term_ind'; intros W g Ht.
  - apply (Hatom g (NLeaf e) _ Ht I eq_refl).
  - apply (Hatom g (NOver e) _ Ht I eq_refl).
  - apply (Hatom g NOne _ Ht I eq_refl).
  - apply (Hatom g NZero _ Ht I eq_refl).
  - inversion_clear W as [| | | |? Hn Hf|].
    assert (G : exists h rs, topo (g ++ h) /\ Forall (fun r => (r < length (g ++ h))%nat) rs /\ map (unf (g ++ h)) rs = l /\
      forall k, (length g <= k < length (g ++ h))%nat -> exists t, In t l /\ subterm (unf (g ++ h) k) t).
    { clear Hn. revert g Ht. induction l as [|t l IHl]; intros g Ht.
      - exists [], []. rewrite app_nil_r. repeat split; auto. intros k Hk. lia.
      - inversion_clear IH as [|? ? It Il]. inversion_clear Hf as [|? ? Wt Wl].
        destruct (It Wt g Ht) as (h1 & r & T1 & L1 & E1 & S1).
        destruct (IHl Il Wl (g ++ h1) T1) as (h2 & rs & T2 & L2 & E2 & S2).
        exists (h1 ++ h2), (r :: rs). rewrite app_assoc. split; [exact T2|]. split; [|split].
        + constructor; auto. rewrite app_length. lia.
        + simpl. f_equal; auto. rewrite (@unf_app _ _ T1 T2) by lia. exact E1.
        + intros k Hk. destruct (Nat.lt_ge_cases k (length (g ++ h1))) as [Hlt|Hge].
          * exists t. split; [now left|]. rewrite (@unf_app _ _ T1 T2) by auto. apply S1. lia.
          * destruct (S2 k) as (t' & Hin & Hs); [lia|]. exists t'. split; [now right|exact Hs]. }
    destruct G as (h & rs & T & L & E & SS). assert (Hok : node_ok (length (g ++ h)) (NSum rs)).
    { split; [|exact L]. intros ->. simpl in E. congruence. }
    exists (h ++ [NSum rs]), (length (g ++ h)). rewrite app_assoc. pose proof (@topo_snoc _ _ T Hok) as T'.
    assert (U : unf ((g ++ h) ++ [NSum rs]) (length (g ++ h)) = TSum l).
    { rewrite (@unf_snoc _ _ T T'). f_equal. rewrite <- E. apply map_ext_in. intros r Hr. rewrite Forall_forall in L.
      apply (@unf_app _ _ T T'). auto. }
    split; [exact T'|]. split; [rewrite (app_length (g ++ h)); simpl; lia|]. split; [exact U|].
    intros k. rewrite (app_length (g ++ h)). cbn [length]. intro Hk. destruct (Nat.lt_ge_cases k (length (g ++ h))) as [Hlt|Hge].
    + rewrite (@unf_app _ _ T T') by auto. destruct (SS k) as (t & Hin & Hs); [lia|]. now apply sub_sum with t.
    + replace k with (length (g ++ h)) by lia. rewrite U. apply sub_refl.
  - inversion_clear W as [| | | | |? ? Wa Wb].
    destruct (IHa Wa g Ht) as (h1 & r1 & T1 & L1 & E1 & S1). destruct (IHb Wb (g ++ h1) T1) as (h2 & r2 & T2 & L2 & E2 & S2).
    assert (Hok : node_ok (length ((g ++ h1) ++ h2)) (NMul r1 r2)).
    { split; [rewrite app_length; lia|lia]. }
    exists (h1 ++ h2 ++ [NMul r1 r2]), (length ((g ++ h1) ++ h2)). rewrite !app_assoc. pose proof (@topo_snoc _ _ T2 Hok) as T'.
    assert (U : unf (((g ++ h1) ++ h2) ++ [NMul r1 r2]) (length ((g ++ h1) ++ h2)) = TMul a b).
    { rewrite (@unf_snoc _ _ T2 T'). f_equal.
      - rewrite (@unf_app _ _ T2 T') by (rewrite app_length; lia). rewrite (@unf_app _ _ T1 T2) by lia. exact E1.
      - rewrite (@unf_app _ _ T2 T') by lia. exact E2. }
    split; [exact T'|]. split; [rewrite (app_length ((g ++ h1) ++ h2)); simpl; lia|]. split; [exact U|].
    intros k. rewrite (app_length ((g ++ h1) ++ h2)). cbn [length]. intro Hk.
    destruct (Nat.lt_ge_cases k (length ((g ++ h1) ++ h2))) as [Hlt|Hge].
    + rewrite (@unf_app _ _ T2 T') by auto. destruct (Nat.lt_ge_cases k (length (g ++ h1))) as [Hlt'|Hge'].
      * rewrite (@unf_app _ _ T1 T2) by auto. apply sub_mul_l, S1. lia.
      * apply sub_mul_r, S2. lia.
    + replace k with (length ((g ++ h1) ++ h2)) by lia. rewrite U. apply sub_refl.
Qed.
(** every list of values, and a result among them, has a recorded graph *)
Theorem values_recorded ts t : Forall twf ts -> In t ts -> exists g r, topo g /\ unf g r = t /\ records_values (fun s => In s ts) g r.
Proof.
  intros Hw Hin.
  assert (G : forall us, Forall twf us -> exists g, topo g /\ (forall s, In s us -> exists k, (k < length g)%nat /\ unf g k = s) /\
    forall k, (k < length g)%nat -> exists s, In s us /\ subterm (unf g k) s).
  { induction us as [|u us IH]; intro Hu.
    - exists []. split; [intro k; unfold ndof; destruct k; exact I|]. split; [intros s []|]. simpl. intros k Hk. lia.
    - inversion_clear Hu as [|? ? W Hus]. destruct (IH Hus) as (g & T & C & SS).
      destruct (record_sub W T) as (h & r & T' & L & U & S'). exists (g ++ h). split; [exact T'|]. split.
      + intros s [<-|Hs]; [exists r; split; [lia|exact U]|]. destruct (C s Hs) as (k & Hk & Uk).
        exists k. split; [rewrite app_length; lia|]. now rewrite (@unf_app _ _ T T') by auto.
      + intros k Hk. destruct (Nat.lt_ge_cases k (length g)) as [Hlt|Hge].
        * rewrite (@unf_app _ _ T T') by auto. destruct (SS k Hlt) as (s & Hs & H). exists s. split; [now right|exact H].
        * exists u. split; [now left|]. apply S'. lia. }
  destruct (G ts Hw) as (g & T & C & SS). rewrite Forall_forall in Hw.
  destruct (record_sub (Hw t Hin) T) as (h & r & T' & L & U & S'). exists (g ++ h), r. split; [exact T'|]. split; [exact U|]. split.
  - intros s Hs. destruct (C s Hs) as (k & Hk & Uk). exists k. rewrite app_length in L. split; [lia|]. now rewrite (@unf_app _ _ T T') by auto.
  - intros k l Hk _. destruct (Nat.lt_ge_cases k (length g)) as [Hlt|Hge].
    + rewrite (@unf_app _ _ T T') by auto. apply SS, Hlt.
    + exists t. split; [exact Hin|]. apply S'. lia.
Qed.

(** ** TreeCRF: the values that the loop over the widths computes *)
Section Cells.
  Variables (NT N b : nat).
  Notation red := (ck_red tops NT TLeaf b).
  (** spec: the value of the span of words i .. i+w, all splits (f: fuel, at least w) *)
  Fixpoint cell (f i w : nat) : term :=
    match f, w with
    | S f', S _ => TMul (TSum (map (fun m => TMul (cell f' i m) (cell f' (i + m + 1) (w - 1 - m))) (seq 0 w))) (red i (i + w))
    | _, _ => red i i
    end.
  Lemma cell_fuel f : forall f' i w, (w <= f)%nat -> (w <= f')%nat -> cell f i w = cell f' i w.
  Proof.
    induction f as [|f IH]; intros f' i w H H'.
    - replace w with 0%nat by lia. destruct f'; reflexivity.
    - destruct w as [|w]; [destruct f'; reflexivity|]. destruct f' as [|f']; [lia|].
      cbn [cell]. f_equal. f_equal. apply map_ext_in. intros m Hm. apply in_seq in Hm. f_equal; apply IH; lia.
  Qed.
  Lemma cell_S i w : cell (S w) i (S w) =
    TMul (TSum (map (fun m => TMul (cell m i m) (cell (w - m) (i + m + 1) (w - m))) (seq 0 (S w)))) (red i (i + S w)).
  Proof.
    cbn [cell]. f_equal. f_equal. apply map_ext_in. intros m Hm. apply in_seq in Hm.
    replace (S w - 1 - m)%nat with (w - m)%nat by lia. f_equal; apply cell_fuel; lia.
  Qed.
  (** proof device: the charts after the widths up to w *)
  Definition cells (w : nat) (st : chart2 tops) : Prop :=
    (forall i k, (k <= w)%nat -> (i + k < N)%nat -> fst st i k = cell k i k) /\
    (forall j k, (k <= w)%nat -> (k <= j)%nat -> (j < N)%nat -> snd st j (N - 1 - k)%nat = cell k (j - k) k).
  Lemma cells_step w st : (0 < w < N)%nat -> cells (w - 1) st -> cells w (ck_step tops NT N TLeaf b st w).
  Proof.
    intros Hw [HA HB]. destruct st as [cA cB]. cbn [fst snd] in HA, HB.
    assert (Hnew : forall i, (i + w < N)%nat ->
      TMul (dot tops w (fun m => cA i m) (fun m => cB (i + w)%nat (N - w + m)%nat)) (red i (i + w)) = cell w i w).
    { intros i Hi. destruct w as [|w]; [lia|]. rewrite cell_S. f_equal. unfold dot, matmul. cbn [ssum smul tops]. f_equal.
      apply map_ext_in. intros m Hm. apply in_seq in Hm. rewrite HA by lia. f_equal.
      replace (N - S w + m)%nat with (N - 1 - (w - m))%nat by lia. rewrite HB by lia. f_equal. lia. }
    split; unfold ck_step; cbn [fst snd smul tops].
    - intros i k Hk Hi. destruct (k =? w)%nat eqn:E.
      + apply Nat.eqb_eq in E; subst k.
        replace (i <? N - w)%nat with true by (symmetry; apply Nat.ltb_lt; lia). simpl. apply Hnew; lia.
      + apply Nat.eqb_neq in E. rewrite andb_false_r. apply HA; lia.
    - intros j k Hk Hj HjN. destruct (N - 1 - k =? N - w - 1)%nat eqn:E.
      + apply Nat.eqb_eq in E. assert (k = w) by lia. subst k.
        replace (w <=? j)%nat with true by (symmetry; apply Nat.leb_le; lia).
        replace (j <? N)%nat with true by (symmetry; apply Nat.ltb_lt; lia). simpl. apply Hnew; lia.
      + apply Nat.eqb_neq in E. rewrite andb_false_r. apply HB; lia.
  Qed.
  Lemma cells_run w : (w < N)%nat -> cells w (fold_left (ck_step tops NT N TLeaf b) (seq 1 w) (ck_init tops NT N TLeaf b)).
  Proof.
    induction w; intro Hw.
    - split; simpl.
      + intros i k Hk Hi. replace k with 0%nat by lia.
        replace (i <? N)%nat with true by (symmetry; apply Nat.ltb_lt; lia). reflexivity.
      + intros j k Hk Hj HjN. replace k with 0%nat by lia.
        replace (j <? N)%nat with true by (symmetry; apply Nat.ltb_lt; lia). rewrite !Nat.sub_0_r, Nat.eqb_refl. reflexivity.
    - rewrite seq_S, fold_left_app. cbn [fold_left]. apply cells_step; [lia|].
      replace (1 + w - 1)%nat with w by lia. apply IHw. lia.
  Qed.
  Lemma ck_run_cell i w : (i + w < N)%nat -> fst (ck_run tops NT N TLeaf b) i w = cell w i w.
  Proof. intro H. apply (@cells_run (N - 1)); lia. Qed.
  (** cky_crf.py:24, 31-39: the label sums of all pairs of positions and the cells of
      all spans, whatever the lengths *)
  Definition tree_values : list term :=
    flat_map (fun i => map (fun j => red i j) (seq 0 N)) (seq 0 N) ++
    flat_map (fun i => map (fun w => fst (ck_run tops NT N TLeaf b) i w) (seq 0 (N - i))) (seq 0 N).
  Lemma in_tree_values t : In t tree_values <->
    (exists i j, (i < N)%nat /\ (j < N)%nat /\ t = red i j) \/ (exists i w, (i + w < N)%nat /\ t = cell w i w).
  Proof.
    unfold tree_values. rewrite in_app_iff, !in_flat_map. split.
    - intros [(i & Hi & H)|(i & Hi & H)]; apply in_map_iff in H as (j & <- & Hj); apply in_seq in Hi; apply in_seq in Hj.
      + left. exists i, j. repeat split; lia.
      + right. exists i, j. split; [lia|]. apply ck_run_cell. lia.
    - intros [(i & j & Hi & Hj & ->)|(i & w & H & ->)].
      + left. exists i. split; [apply in_seq; lia|]. apply in_map_iff. exists j. split; [reflexivity|apply in_seq; lia].
      + right. exists i. split; [apply in_seq; lia|]. apply in_map_iff. exists w. split; [now apply ck_run_cell|apply in_seq; lia].
  Qed.
  (** a span reads the labels of every span inside it *)
  Lemma cell_reads w : forall i i' j', (i <= i')%nat -> (i' <= j')%nat -> (j' <= i + w)%nat -> i' = i \/ j' = (i + w)%nat ->
    forall e, In e (labels NT b i' j') -> reads e (cell w i w).
  Proof.
    induction w as [w IH] using lt_wf_ind. intros i i' j' H1 H2 H3 H4 e He.
    assert (HR : reads e (red i' j')).
    { rewrite ck_red_leaves. cbn [reads]. apply fold_or. exists (TLeaf e). split; [now apply in_map|reflexivity]. }
    destruct w as [|w]; [replace i' with i in HR by lia; replace j' with i in HR by lia; exact HR|].
    rewrite cell_S. cbn [reads].
    destruct (Nat.eq_dec i' i) as [Ei|Ni]; [destruct (Nat.eq_dec j' (i + S w)) as [Ej|Nj]|].
    - right. subst. exact HR.
    - left. apply fold_or. exists (TMul (cell (j' - i) i (j' - i)) (cell (w - (j' - i)) (i + (j' - i) + 1) (w - (j' - i)))). split.
      + apply in_map_iff. exists (j' - i)%nat. split; [reflexivity|apply in_seq; lia].
      + left. apply (IH (j' - i)%nat) with i' j'; auto; lia.
    - left. apply fold_or. exists (TMul (cell (i' - i - 1) i (i' - i - 1)) (cell (w - (i' - i - 1)) (i + (i' - i - 1) + 1) (w - (i' - i - 1)))). split.
      + apply in_map_iff. exists (i' - i - 1)%nat. split; [reflexivity|apply in_seq; lia].
      + right. apply (IH (w - (i' - i - 1))%nat) with i' j'; auto; lia.
  Qed.
  Variables (phi : list nat -> ext) (z : R).
  Notation X := (leval (xlog_ops z) phi).
  Lemma red_dead i j : (forall e, In e (labels NT b i j) -> phi e = None) -> X (red i j) = None.
  Proof.
    intro H. rewrite ck_red_leaves. cbn [leval ssum xlog_ops]. unfold xlse. rewrite map_map.
    replace (forallb is_none (map (fun x => X (TLeaf x)) (labels NT b i j))) with true; [reflexivity|].
    symmetry. apply forallb_forall. intros x Hx. apply in_map_iff in Hx as (e & <- & Hx). cbn [leval]. now rewrite (H e Hx).
  Qed.
  Lemma cell_dead i w : X (red i (i + w)) = None -> X (cell w i w) = None.
  Proof.
    destruct w as [|w]; [rewrite Nat.add_0_r; auto|]. intro H. rewrite cell_S. cbn [leval smul xlog_ops] in *. rewrite H.
    destruct (ssum _ _); reflexivity.
  Qed.
End Cells.
