(** * Approx: from derivations to structures.

    The derivations of a dynamic program split into the pure ones, which are
    exactly the structures, and the spurious ones, which use the finite [zero]
    constant. This file bounds the effect of the latter. *)
From Verif Require Import Base Ops Terms Poly Semirings Family.
Set Implicit Arguments.
Local Open Scope R_scope.

Lemma Rabs_le_inv x a : Rabs x <= a -> - a <= x <= a.
Proof. unfold Rabs. destruct (Rcase_abs x); lra. Qed.

(** ** Specification side: the Gibbs distribution over an explicit list of structures *)
Section Spec.
  Variable A : Type.
  Variable parts : A -> list (list nat).
  Variable l : list A.
  (** score of a structure: sum of its log potentials *)
  Definition sc (phi : list nat -> R) (s : A) : R := RSum phi (parts s).
  (** spec: sum of exp(score) over the structures *)
  Definition ZS phi : R := RSum (fun s => exp (sc phi s)) l.
  (** spec: the probability of a structure *)
  Definition prob phi (s : A) : R := exp (sc phi s) / ZS phi.
  (** spec: Shannon entropy, in nats *)
  Definition entropy_spec phi : R := - RSum (fun s => prob phi s * ln (prob phi s)) l.
  (** spec: cross entropy *)
  Definition cross_spec phi psi : R := - RSum (fun s => prob phi s * ln (prob psi s)) l.
  (** spec: Kullback-Leibler divergence *)
  Definition kl_spec phi psi : R := RSum (fun s => prob phi s * (ln (prob phi s) - ln (prob psi s))) l.
  (** expected number of uses of the part [e] *)
  Definition uses (e : list nat) (s : A) : R := INR (count_occ (list_eq_dec Nat.eq_dec) (parts s) e).
  (** spec: expected number of uses of a part *)
  Definition marg_spec phi e : R := RSum (fun s => prob phi s * uses e s) l.

  Lemma ZS_pos phi : l <> [] -> 0 < ZS phi.
  Proof. intro H. apply RSum_exp_pos; auto. Qed.
  Lemma ln_prob phi s : l <> [] -> ln (prob phi s) = sc phi s - ln (ZS phi).
  Proof.
    intro H. pose proof (ZS_pos phi H). unfold prob, Rdiv.
    rewrite ln_mult, ln_Rinv, ln_exp; auto using exp_pos, Rinv_0_lt_compat.
  Qed.
  Lemma prob_sum phi : l <> [] -> RSum (prob phi) l = 1.
  Proof.
    intro H. pose proof (ZS_pos phi H). unfold prob, Rdiv. rewrite RSum_scar. fold (ZS phi). field. lra.
  Qed.
  (** proof device: weighted average of f *)
  Definition avg phi (f : A -> R) : R := RSum (fun s => exp (sc phi s) * f s) l / ZS phi.
  Lemma avg_prob phi f : RSum (fun s => prob phi s * f s) l = avg phi f.
  Proof. unfold avg, Rdiv. rewrite <- RSum_scar. apply (Sum_ext R_csr). intro. unfold prob, Rdiv. ring. Qed.
  Lemma entropy_avg phi : l <> [] -> entropy_spec phi = ln (ZS phi) - avg phi (sc phi).
  Proof.
    intro H. unfold entropy_spec.
    rewrite (Sum_ext R_csr _ (fun s => prob phi s * sc phi s - prob phi s * ln (ZS phi))) by
      (intro; rewrite ln_prob by auto; ring).
    rewrite RSum_sub, RSum_scar, prob_sum, avg_prob by auto. ring.
  Qed.
  Lemma cross_avg phi psi : l <> [] -> cross_spec phi psi = ln (ZS psi) - avg phi (sc psi).
  Proof.
    intro H. unfold cross_spec.
    rewrite (Sum_ext R_csr _ (fun s => prob phi s * sc psi s - prob phi s * ln (ZS psi))) by
      (intro; rewrite ln_prob by auto; ring).
    rewrite RSum_sub, RSum_scar, prob_sum, avg_prob by auto. ring.
  Qed.
  Lemma kl_cross phi psi : l <> [] -> kl_spec phi psi = cross_spec phi psi - entropy_spec phi.
  Proof.
    intro H. unfold kl_spec, cross_spec, entropy_spec. 
    rewrite (Sum_ext R_csr _ (fun s => prob phi s * ln (prob phi s) - prob phi s * ln (prob psi s))) by
      (intro; ring). rewrite RSum_sub. ring.
  Qed.
End Spec.

(** ** Degree and number of spurious derivations *)
Fixpoint tdeg (t : term) : nat :=
  match t with
  | TLeaf _ | TOver _ | TZero => 1
  | TOne => 0
  | TSum l => fold_right Nat.max 0%nat (map tdeg l)
  | TMul a b => (tdeg a + tdeg b)%nat
  end.
Lemma tdeg_ok t : forall m, In m (expand t) -> (length m <= tdeg t)%nat.
Proof.
  induction t as [e|e| | |l IH|a b IHa IHb] using term_ind'; simpl; intros m Hm.
  1-4: destruct Hm as [<-|[]]; simpl; lia.
  - apply in_flat_map in Hm as (t & Ht & Hm). rewrite Forall_forall in IH. specialize (IH t Ht m Hm).
    etransitivity; [exact IH|]. clear -Ht. induction l as [|x l IHl]; simpl; [destruct Ht|].
    destruct Ht as [->|Ht]; [lia|]. specialize (IHl Ht). lia.
  - apply in_prods in Hm as (x & y & Hx & Hy & ->). rewrite app_length.
    specialize (IHa x Hx). specialize (IHb y Hy). lia.
Qed.

(** proof device: the derivations that use a masked cell or a [zero] of the chart *)
Definition spur (t : term) : list deriv := filter (fun m => negb (pure m)) (expand t).

Section Bounds.
  Variables (phi : list nat -> R) (z B : R).
  Hypothesis HB : forall e, Rabs (phi e) <= B.
  Hypothesis Hz : z <= 0.

  Lemma HB0 : 0 <= B.
  Proof. eapply Rle_trans; [apply Rabs_pos|apply (HB [])]. Qed.

  Lemma score_le m : score phi z m <= INR (length m) * B.
  Proof.
    unfold score. rewrite <- (RSum_const B m). apply RSum_le. intros a _.
    pose proof HB0. destruct a; simpl; try lra. eapply Rle_trans; [apply Rle_abs|apply HB].
  Qed.
  Lemma score_pure_ge m : pure m = true -> - (INR (length m) * B) <= score phi z m.
  Proof.
    intro H. unfold score. rewrite <- (RSum_const B m), <- RSum_opp. apply RSum_le. intros a Ha.
    unfold pure in H. rewrite forallb_forall in H. specialize (H a Ha). destruct a; try discriminate. simpl.
    specialize (HB e). apply Rabs_le_inv in HB. lra.
  Qed.
  Lemma score_spur_le m : pure m = false -> score phi z m <= z + INR (length m) * B.
  Proof.
    pose proof HB0 as B0. induction m as [|a m IH]; [discriminate|]. cbn [length]. rewrite S_INR.
    unfold score. rewrite RSum_cons. fold (score phi z m). intro H.
    destruct a; simpl in H |- *.
    - specialize (IH H). specialize (HB e). apply Rabs_le_inv in HB. lra.
    - pose proof (score_le m). lra.
    - pose proof (score_le m). lra.
  Qed.
  Lemma score_abs m : Rabs (score phi z m) <= INR (length m) * (B + Rabs z).
  Proof.
    unfold score. eapply Rle_trans; [apply RSum_abs|]. rewrite <- (RSum_const (B + Rabs z) m).
    apply RSum_le. intros a _. pose proof HB0. pose proof (Rabs_pos z).
    destruct a; simpl; try lra. specialize (HB e). lra.
  Qed.
End Bounds.

Lemma RSum_bound A (f w : A -> R) M l : (forall x, In x l -> 0 <= w x) -> (forall x, In x l -> Rabs (f x) <= M) ->
  Rabs (RSum (fun x => w x * f x) l) <= RSum w l * M.
Proof.
  intros Hw Hf. eapply Rle_trans; [apply RSum_abs|]. rewrite <- RSum_scar. apply RSum_le.
  intros x Hx. rewrite Rabs_mult, (Rabs_right (w x)) by (apply Rle_ge, Hw, Hx).
  apply Rmult_le_compat_l; auto.
Qed.

(** ** A family under the real semirings *)
Section Fam.
  Variable F : family.
  Notation t := (ft F).
  Notation fsc := (sc (fparts F)).
  Notation fZ := (ZS (fparts F) (flist F)).
  Notation fprob := (prob (fparts F) (flist F)).

  (** pure derivations against structures *)
  Lemma pure_transfer (T : csr) (g : list (list nat) -> T) :
    (forall a b, Permutation a b -> g a = g b) ->
    Sum T (fun m => g (leaves m)) (filter pure (expand t)) = Sum T (fun s => g (fparts F s)) (flist F).
  Proof.
    intro Hg.
    transitivity (Sum T g (map (fun m => msort (leaves m)) (filter pure (expand t)))).
    { rewrite Sum_map. apply Sum_ext. intro m. apply Hg, Permutation_sym, msort_perm. }
    rewrite (Sum_perm T g (ft_derivations F)), Sum_map. apply Sum_ext. intro s. apply Hg, msort_perm.
  Qed.

  Lemma score_leaves phi z m : pure m = true -> score phi z m = RSum phi (leaves m).
  Proof.
    induction m as [|a m IH]; simpl; [reflexivity|]. intro H.
    destruct a; try discriminate. unfold score. rewrite RSum_cons. fold (score phi z m).
    rewrite IH by auto. reflexivity.
  Qed.

  Lemma pure_sum2 (g : R -> R -> R) phi psi z z' :
    RSum (fun m => g (score phi z m) (score psi z' m)) (filter pure (expand t)) =
    RSum (fun s => g (fsc phi s) (fsc psi s)) (flist F).
  Proof.
    etransitivity; [|apply (@pure_transfer R_csr (fun p => g (RSum phi p) (RSum psi p)))].
    - apply (Sum_ext_in R_csr). intros m Hm. apply filter_In in Hm as [_ Hm].
      now rewrite !score_leaves by auto.
    - intros a b H. f_equal; apply (Sum_perm R_csr), H.
  Qed.

  (** proof device: total weight of these derivations *)
  Definition ES phi z : R := RSum (fun m => exp (score phi z m)) (spur t).
  Lemma ZZ_split phi z : ZZ phi z t = fZ phi + ES phi z.
  Proof.
    unfold ZZ. rewrite (RSum_split _ pure). f_equal.
    apply (pure_sum2 (fun x _ => exp x) phi phi z z).
  Qed.
  Lemma ES_nonneg phi z : 0 <= ES phi z.
  Proof. apply RSum_nonneg. intros. apply Rlt_le, exp_pos. Qed.

  (** a family whose graph never touches the zero constant *)
  Definition fpure : Prop := spur t = [].
  Lemma fpure_ES phi z : fpure -> ES phi z = 0.
  Proof. intro H. unfold ES. rewrite H. reflexivity. Qed.

  (** degree, number of spurious derivations, and the bound on their share *)
  Definition fdeg : nat := tdeg t.
  (** proof device: their number *)
  Definition fspur : nat := length (spur t).
  (** the error bound in the theorems: total weight of these derivations relative to the partition *)
  Definition eps (B z : R) : R := INR fspur * exp (z + 2 * (INR fdeg * B)).

  Lemma eps_nonneg B z : 0 <= eps B z.
  Proof. apply Rmult_le_pos; [apply pos_INR|apply Rlt_le, exp_pos]. Qed.
  Lemma eps_pure B z : fpure -> eps B z = 0.
  Proof. intro H. unfold eps, fspur. rewrite H. simpl. ring. Qed.

  Section B.
    Variables (phi : list nat -> R) (z B : R).
    Hypothesis HB : forall e, Rabs (phi e) <= B.
    Hypothesis Hz : z <= 0.
    Hypothesis Hl : flist F <> [].

    Lemma len_le m : In m (expand t) -> INR (length m) <= INR fdeg.
    Proof. intro H. apply le_INR, tdeg_ok, H. Qed.

    Lemma fZ_ge : exp (- (INR fdeg * B)) <= fZ phi.
    Proof.
      unfold ZS. rewrite <- (pure_sum2 (fun x _ => exp x) phi phi z z).
      assert (H : filter pure (expand t) <> []).
      { intro E. pose proof (Permutation_length (ft_derivations F)) as P. rewrite !map_length, E in P.
        destruct (flist F); simpl in P; [congruence|lia]. }
      destruct (filter pure (expand t)) as [|m lm] eqn:E; [congruence|].
      eapply Rle_trans; [|apply (@RSum_single _ (fun m => exp (score phi z m)) m (m :: lm))].
      - assert (Hm : In m (filter pure (expand t))) by (rewrite E; left; auto).
        apply filter_In in Hm as [Hm Hp].
        assert (- (INR fdeg * B) <= score phi z m).
        { eapply Rle_trans; [|apply (@score_pure_ge phi z B HB m Hp)].
          apply Ropp_le_contravar, Rmult_le_compat_r; [apply (@HB0 phi B HB)|apply len_le, Hm]. }
        destruct H0 as [H0| ->]; [apply Rlt_le, exp_increasing, H0|apply Rle_refl].
      - left; auto.
      - intros. apply Rlt_le, exp_pos.
    Qed.

    Lemma ES_le : ES phi z <= INR fspur * exp (z + INR fdeg * B).
    Proof.
      unfold ES, fspur. rewrite <- (RSum_const (exp (z + INR fdeg * B)) (spur t)). apply RSum_le. intros m Hm.
      apply filter_In in Hm as [Hm Hp]. apply negb_true_iff in Hp.
      assert (score phi z m <= z + INR fdeg * B).
      { eapply Rle_trans; [apply (@score_spur_le phi z B HB Hz m Hp)|].
        apply Rplus_le_compat_l, Rmult_le_compat_r; [apply (@HB0 phi B HB)|apply len_le, Hm]. }
      destruct H as [H| ->]; [apply Rlt_le, exp_increasing, H|apply Rle_refl].
    Qed.

    (** share of the spurious derivations *)
    Lemma share_le : ES phi z / fZ phi <= eps B z.
    Proof.
      pose proof fZ_ge. pose proof ES_le. pose proof (ES_nonneg phi z).
      pose proof (exp_pos (- (INR fdeg * B))).
      apply Rle_trans with (ES phi z / exp (- (INR fdeg * B))).
      - apply Rmult_le_compat_l; auto. apply Rinv_le_contravar; auto.
      - unfold eps. replace (z + 2 * (INR fdeg * B)) with (z + INR fdeg * B + INR fdeg * B) by ring.
        rewrite exp_plus. unfold Rdiv. rewrite <- exp_Ropp, Ropp_involutive, <- Rmult_assoc.
        apply Rmult_le_compat_r; auto. apply Rlt_le, exp_pos.
    Qed.

    Lemma log_err : 0 <= ln (fZ phi + ES phi z) - ln (fZ phi) <= eps B z.
    Proof.
      pose proof (ZS_pos (fparts F) phi Hl). pose proof (ES_nonneg phi z).
      split.
      - assert (ln (fZ phi) <= ln (fZ phi + ES phi z)); [|lra].
        destruct H0 as [H0|H0]; [apply Rlt_le, ln_increasing; lra|]. rewrite <- H0, Rplus_0_r. apply Rle_refl.
      - eapply Rle_trans; [|apply share_le].
        replace (ln (fZ phi + ES phi z) - ln (fZ phi)) with (ln (1 + ES phi z / fZ phi)).
        + assert (0 <= ES phi z / fZ phi) by (apply Rmult_le_pos; auto; apply Rlt_le, Rinv_0_lt_compat; auto).
          destruct H1 as [H1|H1].
          * assert (ln (1 + ES phi z / fZ phi) < ln (exp (ES phi z / fZ phi))).
            { apply ln_increasing; [lra|]. apply exp_ineq1; lra. } rewrite ln_exp in H2. lra.
          * rewrite <- H1, Rplus_0_r, ln_1. lra.
        + unfold Rminus. rewrite <- ln_Rinv by auto. rewrite <- ln_mult; [|lra|apply Rinv_0_lt_compat; auto].
          f_equal. field. lra.
    Qed.

    (** means over all derivations against means over structures *)
    Lemma mean_err (f : deriv -> R) (g : fst_ F -> R) M :
      RSum (fun m => exp (score phi z m) * f m) (filter pure (expand t))
        = RSum (fun s => exp (fsc phi s) * g s) (flist F) ->
      (forall m, In m (expand t) -> Rabs (f m) <= M) ->
      (forall s, In s (flist F) -> Rabs (g s) <= M) ->
      Rabs (mean phi z t f - avg (fparts F) (flist F) phi g) <= 2 * M * eps B z.
    Proof.
      intros Hfg Hf Hg. unfold mean. rewrite RSum_pr by apply ft_wf.
      rewrite (RSum_split _ pure), Hfg, ZZ_split. unfold avg. fold (spur t).
      set (a := RSum (fun s => exp (fsc phi s) * g s) (flist F)).
      set (b := RSum (fun m => exp (score phi z m) * f m) (spur t)).
      pose proof (ZS_pos (fparts F) phi Hl) as HZ. set (Z := fZ phi) in *.
      pose proof (ES_nonneg phi z) as HE. 
      assert (Ha : Rabs a <= Z * M).
      { apply RSum_bound; auto. intros. apply Rlt_le, exp_pos. }
      assert (Hb : Rabs b <= ES phi z * M).
      { apply RSum_bound; [intros; apply Rlt_le, exp_pos|]. intros m Hm. apply filter_In in Hm as [Hm _]. auto. }
      pose proof share_le as HS. fold Z in HS. set (E := ES phi z) in *.
      assert (HM : 0 <= M).
      { destruct (flist F) as [|s l]; [congruence|]. eapply Rle_trans; [apply Rabs_pos|apply (Hg s); left; auto]. }
      replace ((a + b) / (Z + E) - a / Z) with ((b * Z - a * E) * / (Z * (Z + E))) by (field; lra).
      rewrite Rabs_mult, (Rabs_right (/ _)) by (apply Rle_ge, Rlt_le, Rinv_0_lt_compat, Rmult_lt_0_compat; lra).
      assert (Rabs (b * Z - a * E) <= 2 * M * E * Z).
      { unfold Rminus. eapply Rle_trans; [apply Rabs_triang|]. rewrite Rabs_Ropp, !Rabs_mult.
        rewrite (Rabs_right Z), (Rabs_right E) by lra.
        apply (Rmult_le_compat_r Z) in Hb; [|lra]. apply (Rmult_le_compat_r E) in Ha; [|lra]. lra. }
      apply Rle_trans with (2 * M * E * Z * / (Z * (Z + E))).
      { apply Rmult_le_compat_r; auto. apply Rlt_le, Rinv_0_lt_compat, Rmult_lt_0_compat; lra. }
      apply Rle_trans with (2 * M * (E / Z)).
      { replace (2 * M * E * Z * / (Z * (Z + E))) with (2 * M * (E / (Z + E))) by (field; lra).
        apply Rmult_le_compat_l; [lra|]. apply Rmult_le_compat_l; auto. apply Rinv_le_contravar; lra. }
      apply Rmult_le_compat_l; lra.
    Qed.
  End B.
End Fam.
