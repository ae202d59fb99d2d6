(** * Mask: potentials that may be minus infinity.

    Users forbid parts by setting their potentials to -inf. The models of Api.v
    are parametric in the semiring operations, so the same [run] is used, with
    LogSemiring and MaxSemiring over reals extended by minus infinity. *)
From Verif Require Import Base Ops Terms Semirings Poly Family Approx Grad Dist Degree Shape Api Query.
Set Implicit Arguments.
Local Open Scope R_scope.

(** a float that is not NaN and not +inf; None is -inf *)
Definition ext := option R.
(** torch.exp (no code of the repository): exp(-inf) = 0 *)
Definition xexp (x : ext) : R := match x with Some r => exp r | None => 0 end.
(** torch.Tensor.__add__: -inf absorbs *)
Definition xplus (a b : ext) : ext := match a, b with Some x, Some y => Some (x + y) | _, _ => None end.
(** torch.logsumexp along a nonempty dimension: -inf when all entries are *)
Definition is_none (x : ext) : bool := match x with None => true | _ => false end.
(** torch.logsumexp (semirings.py:102-104): minus infinity when every entry is *)
Definition xlse (l : list ext) : ext := if forallb is_none l then None else Some (ln (RSum xexp l)).
(** torch.max along a nonempty dimension *)
Definition xmax2 (a b : ext) : ext :=
  match a, b with None, y => y | x, None => x | Some x, Some y => Some (Rmax x y) end.
(** torch.max along a dimension (semirings.py:167-169) *)
Definition xmax (l : list ext) : ext := fold_right xmax2 None l.
(** semirings.py:98-112, 138-150 [LogSemiring]: the class's own zero is the finite -1e5 *)
Definition xlog_ops (z : R) : ops :=
  {| car := ext; ssum := xlse; smul := xplus; szero := Some z; sone := Some 0; sover := fun _ => Some z |}.
(** semirings.py:153-174 [MaxSemiring] *)
Definition xmax_ops (z : R) : ops :=
  {| car := ext; ssum := xmax; smul := xplus; szero := Some z; sone := Some 0; sover := fun _ => Some z |}.
(** distributions.py:207-210 [partition] and 117-125 [max] on such potentials *)
Definition x_partition (c : call) (phi : list nat -> ext) : res (list ext) := run c (xlog_ops NEG) phi.
(** distributions.py:117-125 [max] on potentials that may be -inf *)
Definition x_max (c : call) (phi : list nat -> ext) : res (list ext) := run c (xmax_ops NEG) phi.

(** ** log_prob: here NaN can occur *)
Inductive num := Fin (r : R) | NInf | NaN.
(** an extended real as a float *)
Definition of_ext (x : ext) : num := match x with Some r => Fin r | None => NInf end.
(** IEEE multiplication by an event entry (a finite number): 0 * -inf is NaN, a
    negative multiple of -inf would be +inf (entries of events are counts; the
    model returns NaN there and the theorems do not use it) *)
Definition nmul (x : num) (v : R) : num :=
  match x with
  | Fin r => Fin (r * v)
  | NInf => if Rlt_dec 0 v then NInf else NaN
  | NaN => NaN
  end.
(** torch addition of floats with -inf and NaN (helpers.py:34, semirings.py:110-112) *)
Definition nplus (x y : num) : num :=
  match x, y with
  | Fin a, Fin b => Fin (a + b)
  | NaN, _ | _, NaN => NaN
  | _, _ => NInf
  end.
(** x - y; -inf - -inf is NaN, and finite - -inf is +inf, which needs a row
    whose score is finite while its partition is not (never) *)
Definition nminus (x y : num) : num :=
  match x, y with
  | Fin a, Fin b => Fin (a - b)
  | NInf, Fin _ => NInf
  | _, _ => NaN
  end.
(** torch.sum (semirings.py:110-112 [prod]) of floats with -inf and NaN *)
Definition nsum (l : list num) : num := fold_right nplus (Fin 0) l.
(** distributions.py:56-75, helpers.py:31-34: potentials times event, summed, minus
    the partition (Query.q_log_prob for extended potentials) *)
Definition x_log_prob (c : call) (phi : list nat -> ext) (b : nat) (value : list nat -> R) : res num :=
  match c with
  | CCfg _ _ _ _ _ => Err AttributeError
  | _ => res_map (fun v => nminus (nsum (map (fun e => nmul (of_ext (phi e)) (value e)) (map (cons b) (indices (event_shape c)))))
                                  (of_ext (nth b v None))) (x_partition c phi)
  end.

(** ** Specification: a structure is allowed when none of its parts is at -inf *)
Section Spec.
  Variables (A : Type) (parts : A -> list (list nat)).
  (** spec: no part of the structure is excluded *)
  Definition allowed (phi : list nat -> ext) (s : A) : Prop := forall e, In e (parts s) -> phi e <> None.
  (** the score of an allowed structure *)
  Definition fin (phi : list nat -> ext) : list nat -> R := fun e => match phi e with Some r => r | None => 0 end.
  (** spec: total weight of the allowed structures *)
  Definition xZ (phi : list nat -> ext) (l : list A) : R :=
    RSum (fun s => if forallb (fun e => negb (is_none (phi e))) (parts s) then exp (sc parts (fin phi) s) else 0) l.
End Spec.

Lemma allowedb A (parts : A -> list (list nat)) phi s :
  forallb (fun e => negb (is_none (phi e))) (parts s) = true <-> allowed parts phi s.
Proof.
  rewrite forallb_forall. unfold allowed. split; intros H e He; specialize (H e He).
  - intro E. rewrite E in H. discriminate.
  - destruct (phi e); [reflexivity|congruence].
Qed.

(** ** Values of terms *)
Lemma xexp_nonneg x : 0 <= xexp x.
Proof. destruct x; simpl; [apply Rlt_le, exp_pos|lra]. Qed.
Lemma xexp_pos x : 0 < xexp x <-> x <> None.
Proof. destruct x; simpl; split; intro H; try congruence; [apply exp_pos|lra]. Qed.
Lemma xlse_exp l : xexp (xlse l) = RSum xexp l.
Proof.
  unfold xlse. destruct (forallb is_none l) eqn:E.
  - cbn [xexp]. symmetry. transitivity (RSum (fun _ : ext => 0) l); [|rewrite RSum_const; ring].
    apply (Sum_ext_in R_csr). intros x Hx. rewrite forallb_forall in E. specialize (E x Hx). destruct x; [discriminate|reflexivity].
  - cbn [xexp]. apply exp_ln.
    assert (H : exists x, In x l /\ is_none x = false).
    { clear -E. induction l as [|x l IH]; [discriminate|]. simpl in E. destruct (is_none x) eqn:Ex.
      - destruct (IH E) as (y & Hy & Ey). exists y. split; [right|]; auto.
      - exists x. split; [left|]; auto. }
    destruct H as (x & Hx & Ex). apply Rlt_le_trans with (xexp x).
    + apply xexp_pos. destruct x; [discriminate|discriminate Ex].
    + apply RSum_single; auto. intros. apply xexp_nonneg.
Qed.
Lemma xplus_exp a b : xexp (xplus a b) = xexp a * xexp b.
Proof. destruct a, b; simpl; try ring. apply exp_plus. Qed.

(** weight of a derivation *)
Definition xw (phi : list nat -> ext) (z : R) (m : deriv) : R := RProd (aval (fun e => xexp (phi e)) (exp z)) m.
Theorem xlog_value (phi : list nat -> ext) z t : twf t -> xexp (leval (xlog_ops z) phi t) = RSum (xw phi z) (expand t).
Proof.
  intro W.
  assert (R1 : resp (xlog_ops z) (csr_opsz R_csr (exp z)) (fun x y => xexp x = y)).
  { constructor; simpl; auto using exp_0.
    - intros a a' b b' <- <-. apply xplus_exp.
    - intros l l' _ H. rewrite xlse_exp. change (ksum R_csr (map xexp l) = ksum R_csr l').
      induction H as [|x y l l' E H IH]; [reflexivity|]. cbn [map]. rewrite !ksum_cons. now rewrite E, IH. }
  rewrite (@leval_param (xlog_ops z) (csr_opsz R_csr (exp z)) _ phi (fun e => xexp (phi e)) t R1 (fun e => eq_refl) W).
  apply (leval_expand R_csr (exp z) (fun e => xexp (phi e)) t).
Qed.

Lemma xw_nonneg phi z m : 0 <= xw phi z m.
Proof.
  unfold xw. induction m as [|a m IH]; [cbn; lra|]. rewrite Prod_cons. cbn [kmul R_csr].
  apply Rmult_le_pos; auto. destruct a; simpl; [apply xexp_nonneg|apply Rlt_le, exp_pos|apply Rlt_le, exp_pos].
Qed.
Lemma xw_le phi psi z m : (forall e, xexp (phi e) <= exp (psi e)) -> xw phi z m <= exp (score psi z m).
Proof.
  intro H. induction m as [|a m IH]; [unfold xw, score, Sum; cbn; rewrite exp_0; lra|].
  unfold xw, score. rewrite Prod_cons, RSum_cons, exp_plus. cbn [kmul R_csr].
  apply Rmult_le_compat; auto.
  - destruct a; simpl; [apply xexp_nonneg|apply Rlt_le, exp_pos|apply Rlt_le, exp_pos].
  - apply xw_nonneg.
  - destruct a; simpl; [apply H|lra|lra].
Qed.
Lemma prod_xexp phi l : RProd (fun e => xexp (phi e)) l =
  if forallb (fun e => negb (is_none (phi e))) l then exp (RSum (fin phi) l) else 0.
Proof.
  induction l as [|e l IH]; [unfold Sum; cbn; now rewrite exp_0|].
  rewrite Prod_cons, IH, RSum_cons. cbn [kmul R_csr forallb]. unfold fin at 2. destruct (phi e) as [r|]; simpl; [|ring].
  destruct (forallb _ l); [now rewrite exp_plus|ring].
Qed.

Section Fam.
  Variable F : family.
  Notation t := (ft F).
  Variable phi : list nat -> ext.
  Notation XZ := (xZ (fparts F) phi (flist F)).
  Lemma xpure z : RSum (xw phi z) (filter pure (expand t)) = XZ.
  Proof.
    transitivity (RSum (fun m => (fun l => RProd (fun e => xexp (phi e)) l) (leaves m)) (filter pure (expand t))).
    - apply (Sum_ext_in R_csr). intros m Hm. apply filter_In in Hm as [_ Hp]. unfold xw. now apply (Prod_pure R_csr).
    - rewrite (pure_transfer F R_csr (fun l => RProd (fun e => xexp (phi e)) l)).
      + apply (Sum_ext R_csr). intro s. apply prod_xexp.
      + intros a b H. apply (Prod_perm R_csr), H.
  Qed.
  (** proof device: weight of the derivations that use a masked entry *)
  Definition XS z : R := RSum (xw phi z) (spur t).
  Lemma x_split z : xexp (leval (xlog_ops z) phi t) = XZ + XS z.
  Proof. rewrite xlog_value by apply ft_wf. rewrite (RSum_split _ pure), xpure. reflexivity. Qed.
  Lemma XS_nonneg z : 0 <= XS z.
  Proof. apply RSum_nonneg. intros. apply xw_nonneg. Qed.
  Lemma XZ_nonneg : 0 <= XZ.
  Proof. apply RSum_nonneg. intros s _. destruct (forallb _ _); [apply Rlt_le, exp_pos|lra]. Qed.
  Lemma XZ_pos s : In s (flist F) -> allowed (fparts F) phi s -> exp (sc (fparts F) (fin phi) s) <= XZ.
  Proof.
    intros Hs Ha. unfold xZ. eapply Rle_trans; [|apply (@RSum_single _ (fun s => if forallb (fun e => negb (is_none (phi e))) (fparts F s)
      then exp (sc (fparts F) (fin phi) s) else 0) s (flist F) Hs)].
    - apply allowedb in Ha. rewrite Ha. lra.
    - intros y _. destruct (forallb _ _); [apply Rlt_le, exp_pos|lra].
  Qed.
  Lemma XZ_zero : (forall s, In s (flist F) -> ~ allowed (fparts F) phi s) -> XZ = 0.
  Proof.
    intro H. unfold xZ. transitivity (RSum (fun _ : fst_ F => 0) (flist F)); [|rewrite RSum_const; ring].
    apply (Sum_ext_in R_csr). intros s Hs. destruct (forallb _ _) eqn:E; [|reflexivity].
    apply allowedb in E. destruct (H s Hs E).
  Qed.

  Section B.
    Variable B : R.
    Hypothesis B0 : 0 <= B.
    Hypothesis HB : forall e x, phi e = Some x -> Rabs x <= B.
    (** finite potentials above the masked ones *)
    Definition lift (e : list nat) : R := match phi e with Some x => x | None => - B end.
    Lemma lift_abs e : Rabs (lift e) <= B.
    Proof.
      unfold lift. destruct (phi e) as [x|] eqn:E; [now apply (@HB e)|]. rewrite Rabs_Ropp, Rabs_right; lra.
    Qed.
    Lemma lift_ge e : xexp (phi e) <= exp (lift e).
    Proof. unfold lift. destruct (phi e); simpl; [lra|apply Rlt_le, exp_pos]. Qed.
    Lemma fin_abs e : Rabs (fin phi e) <= B.
    Proof. unfold fin. destruct (phi e) as [x|] eqn:E; [now apply (@HB e)|]. rewrite Rabs_R0. lra. Qed.
    Lemma XS_le z : z <= 0 -> XS z <= INR (fspur F) * exp (z + INR (fdeg F) * B).
    Proof.
      intro Hz. apply Rle_trans with (ES F lift z).
      - apply RSum_le. intros m _. apply xw_le, lift_ge.
      - apply ES_le; auto using lift_abs.
    Qed.
    Lemma XZ_ge s : In s (flist F) -> allowed (fparts F) phi s -> exp (- (INR (fdeg F) * B)) <= XZ.
    Proof.
      intros Hs Ha. eapply Rle_trans; [|apply (@XZ_pos s Hs Ha)].
      destruct (@structure_is_pure F s Hs) as (m & Hm & Hp & HP).
      rewrite <- (@perm_score F (fin phi) NEG m s Hp HP).
      assert (- (INR (fdeg F) * B) <= score (fin phi) NEG m).
      { eapply Rle_trans; [|apply (@score_pure_ge (fin phi) NEG B fin_abs m Hp)].
        apply Ropp_le_contravar, Rmult_le_compat_r; [auto|apply len_le, Hm]. }
      destruct H as [H| ->]; [apply Rlt_le, exp_increasing, H|apply Rle_refl].
    Qed.
    Lemma xlog_err s z : z <= 0 -> In s (flist F) -> allowed (fparts F) phi s ->
      0 <= ln (XZ + XS z) - ln XZ <= eps F B z.
    Proof.
      intros Hz Hs Ha. pose proof (@XZ_ge s Hs Ha) as H1. pose proof (XS_le Hz) as H2. pose proof (XS_nonneg z) as H3.
      pose proof (exp_pos (- (INR (fdeg F) * B))) as H4.
      assert (HS : XS z / XZ <= eps F B z).
      { apply Rle_trans with (XS z / exp (- (INR (fdeg F) * B))).
        - apply Rmult_le_compat_l; auto. apply Rinv_le_contravar; auto.
        - unfold eps. replace (z + 2 * (INR (fdeg F) * B)) with (z + INR (fdeg F) * B + INR (fdeg F) * B) by ring.
          rewrite exp_plus. unfold Rdiv. rewrite <- exp_Ropp, Ropp_involutive, <- Rmult_assoc.
          apply Rmult_le_compat_r; auto. apply Rlt_le, exp_pos. }
      assert (0 <= XS z / XZ) by (apply Rmult_le_pos; auto; apply Rlt_le, Rinv_0_lt_compat; lra).
      replace (ln (XZ + XS z) - ln XZ) with (ln (1 + XS z / XZ)).
      - split.
        + rewrite <- ln_1. destruct H as [H| <-]; [left; apply ln_increasing; lra|rewrite Rplus_0_r; lra].
        + eapply Rle_trans; [|exact HS]. rewrite <- (ln_exp (XS z / XZ)) at 2.
          destruct (exp_ineq1_le (XS z / XZ)) as [K|K]; [left; apply ln_increasing; lra|rewrite K; lra].
      - unfold Rminus. rewrite <- ln_Rinv by lra. rewrite <- ln_mult; [|lra|apply Rinv_0_lt_compat; lra].
        f_equal. field. lra.
    Qed.
  End B.
End Fam.

(** ** max *)
Definition xle (a b : ext) : Prop :=
  match a, b with None, _ => True | Some _, None => False | Some x, Some y => x <= y end.
Lemma xle_refl a : xle a a. Proof. destruct a; simpl; auto. lra. Qed.
Lemma xle_trans a b c : xle a b -> xle b c -> xle a c.
Proof. destruct a, b, c; simpl; auto; try tauto. lra. Qed.
(** spec: a largest element of a list *)
Definition is_xmax (v : ext) (l : list ext) : Prop := In v l /\ forall x, In x l -> xle x v.
Lemma xmax_is_max l : l <> [] -> is_xmax (xmax l) l.
Proof.
  induction l as [|x l IH]; [congruence|]. intros _. destruct l as [|y l].
  - simpl. destruct x; split; simpl; auto; intros y [<-|[]]; simpl; auto; lra.
  - destruct (IH ltac:(discriminate)) as [H1 H2]. change (xmax (x :: y :: l)) with (xmax2 x (xmax (y :: l))).
    set (v := xmax (y :: l)) in *.
    assert (G : (xmax2 x v = x \/ xmax2 x v = v) /\ xle x (xmax2 x v) /\ xle v (xmax2 x v)).
    { destruct x as [a|], v as [b|]; simpl; auto; try (repeat split; auto using Rle_refl; lra).
      split; [|split; [apply Rmax_l|apply Rmax_r]]. unfold Rmax. destruct (Rle_dec a b); auto. }
    destruct G as (G1 & G2 & G3). split.
    + destruct G1 as [-> | ->]; [left; auto|right; auto].
    + intros w [<-|Hw]; auto. eapply xle_trans; [apply H2, Hw|auto].
Qed.
(** proof device: score of a derivation *)
Definition xscore (phi : list nat -> ext) (z : R) (m : deriv) : ext :=
  fold_right (fun a x => xplus (aval phi (Some z) a) x) (Some 0) m.
Lemma xplus_0 x : xplus x (Some 0) = x.
Proof. destruct x; simpl; auto. f_equal. ring. Qed.
Lemma xplus_assoc x y z : xplus x (xplus y z) = xplus (xplus x y) z.
Proof. destruct x, y, z; simpl; auto. f_equal. ring. Qed.
Lemma xscore_app phi z a b : xscore phi z (a ++ b) = xplus (xscore phi z a) (xscore phi z b).
Proof.
  induction a as [|x a IH]; simpl.
  - destruct (xscore phi z b); simpl; auto. f_equal. ring.
  - rewrite IH. apply xplus_assoc.
Qed.
Lemma xplus_mono a b c d : xle a b -> xle c d -> xle (xplus a c) (xplus b d).
Proof. destruct a, b, c, d; simpl; auto; try tauto. lra. Qed.
Theorem xmax_value (phi : list nat -> ext) z t : twf t ->
  is_xmax (leval (xmax_ops z) phi t) (map (xscore phi z) (expand t)).
Proof.
  induction t as [e|e| | |l IH|a b IHa IHb] using term_ind'; intro W.
  1-4: cbn [leval expand map xscore fold_right aval xmax_ops szero sone sover]; rewrite ?xplus_0; split; [left; auto|intros x [<-|[]]; apply xle_refl].
  - inversion_clear W as [| | | |? Hn Hf|]. cbn [leval ssum xmax_ops].
    destruct (@xmax_is_max (map (leval (xmax_ops z) phi) l)) as [H1 H2].
    { destruct l; simpl; congruence. }
    rewrite Forall_forall in IH, Hf. split.
    + apply in_map_iff in H1 as (t & E & Ht). rewrite <- E.
      destruct (IH t Ht (Hf t Ht)) as [G _]. apply in_map_iff in G as (m & <- & Hm).
      apply in_map. cbn [expand]. apply in_flat_map. eauto.
    + intros x Hx. apply in_map_iff in Hx as (m & <- & Hm).
      cbn [expand] in Hm. apply in_flat_map in Hm as (t & Ht & Hm).
      apply xle_trans with (leval (xmax_ops z) phi t).
      * apply (IH t Ht (Hf t Ht)), in_map, Hm.
      * apply H2, (in_map (leval (xmax_ops z) phi)), Ht.
  - inversion_clear W as [| | | | |? ? Wa Wb]. cbn [leval smul xmax_ops expand].
    destruct (IHa Wa) as [A1 A2]. destruct (IHb Wb) as [B1 B2]. split.
    + apply in_map_iff in A1 as (x & <- & Hx). apply in_map_iff in B1 as (y & <- & Hy).
      rewrite <- xscore_app. apply in_map, in_prods. eauto.
    + intros s Hs. apply in_map_iff in Hs as (m & <- & Hm). apply in_prods in Hm as (x & y & Hx & Hy & ->).
      rewrite xscore_app. apply xplus_mono; [apply A2|apply B2]; apply in_map; auto.
Qed.
(** the score of a derivation is finite iff it uses no masked potential *)
Lemma xscore_fin phi z m : xscore phi z m =
  if forallb (fun e => negb (is_none (phi e))) (leaves m) then Some (score (fin phi) z m) else None.
Proof.
  induction m as [|a m IH]; [reflexivity|]. cbn [xscore fold_right]. fold (xscore phi z m). rewrite IH.
  unfold score. rewrite RSum_cons. fold (score (fin phi) z m).
  destruct a as [e|e|]; simpl.
  - unfold fin at 2. destruct (phi e); simpl; [|destruct (forallb _ _); reflexivity].
    destruct (forallb _ _); reflexivity.
  - destruct (forallb _ _); reflexivity.
  - destruct (forallb _ _); reflexivity.
Qed.
