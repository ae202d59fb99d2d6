(** * Semirings: the real-valued semiring classes of
    torch_struct/semirings/semirings.py, and what a dynamic program computes in
    each of them, as a function of its derivations.

    Simplification (whole file): floats are real numbers; [exp], [log] and
    [logsumexp] are exact. The constant -1e5 used for [zero] is kept. *)
From Coq Require Export Reals Psatz.
From Verif Require Import Base Ops Terms Poly.
Set Implicit Arguments.
Local Open Scope R_scope.

(** ** Reals as a commutative semiring: semirings.py:85-95, 119-135 (StdSemiring) *)
Definition R_csr : csr.
Proof. refine (@Csr R 0 1 Rplus Rmult _ _ _ _ _ _ _ _); intros; ring. Defined.
Notation RSum := (Sum R_csr).
Notation RProd := (Prod R_csr).

Ltac rr := match goal with |- ?a = ?b => change (@eq R a b) end.
Tactic Notation "ring" := first [ring | rr; ring].
Tactic Notation "field" := first [field | rr; field].

(** semirings.py:85-95 [_Base] and 119-135 [StdSemiring]: sum is addition, mul is
    multiplication, zero 0, one 1. *)
Definition std_ops : ops := csr_ops R_csr.

(** semirings.py:99 and 182: the finite number that stands for minus infinity *)
Definition NEG : R := -100000.

(** torch.logsumexp along a nonempty dimension *)
Definition lse (l : list R) : R := ln (RSum exp l).

(** semirings.py:98-112, 138-150 [LogSemiring] with [zero] = z. *)
Definition log_ops (z : R) : ops :=
  {| car := R; ssum := lse; smul := Rplus; szero := z; sone := 0; sover := fun _ => z |}.

(** torch.max along a nonempty dimension *)
Definition rmax (l : list R) : R :=
  match l with [] => 0 | x :: l' => fold_right Rmax x l' end.
(** semirings.py:153-174 [MaxSemiring]; on an empty dimension torch.max raises,
    the value 0 here is never used (well-formed terms have no empty sum). *)
Definition max_ops (z : R) : ops :=
  {| car := R; ssum := rmax; smul := Rplus; szero := z; sone := 0; sover := fun _ => z |}.

(** semirings.py:357-403 [EntropySemiring]: pairs (log value, running entropy) *)
Definition ent_sum (l : list (R * R)) : R * R :=
  let part := lse (map fst l) in
  (part, RSum (fun x => snd x * exp (fst x - part) - (fst x - part) * exp (fst x - part)) l).
(** semirings.py:357-403 [EntropySemiring] *)
Definition ent_ops (z : R) : ops :=
  {| car := R * R; ssum := ent_sum; smul := fun a b => (fst a + fst b, snd a + snd b);
     szero := (z, 0); sone := (0, 0); sover := fun _ => (z, 0) |}.
(** semirings.py:377-382 [convert] *)
Definition ent_convert (x : R) : R * R := (x, 0).

(** triples (log p, log q, running value) *)
Definition p_ (x : R * R * R) : R := fst (fst x).
(** second float of a cell (semirings.py:240-354) *)
Definition q_ (x : R * R * R) : R := snd (fst x).
(** third float of a cell (semirings.py:240-354) *)
Definition d_ (x : R * R * R) : R := snd x.
(** semirings.py:240-354 [mul]: the three floats are added *)
Definition mul3 (a b : R * R * R) : R * R * R := (p_ a + p_ b, q_ a + q_ b, d_ a + d_ b).

(** semirings.py:303-354 [CrossEntropySemiring] *)
Definition ce_sum (l : list (R * R * R)) : R * R * R :=
  let pp := lse (map p_ l) in let pq := lse (map q_ l) in
  (pp, pq, RSum (fun x => d_ x * exp (p_ x - pp) - (q_ x - pq) * exp (p_ x - pp)) l).
(** semirings.py:303-354 [CrossEntropySemiring] *)
Definition ce_ops (z : R) : ops :=
  {| car := R * R * R; ssum := ce_sum; smul := mul3;
     szero := (z, z, 0); sone := (0, 0, 0); sover := fun _ => (z, z, 0) |}.
(** semirings.py:240-300 [KLDivergenceSemiring] *)
Definition kl_sum (l : list (R * R * R)) : R * R * R :=
  let pp := lse (map p_ l) in let pq := lse (map q_ l) in
  (pp, pq, RSum (fun x => d_ x * exp (p_ x - pp) - (q_ x - pq) * exp (p_ x - pp)
                          + (p_ x - pp) * exp (p_ x - pp)) l).
(** semirings.py:240-300 [KLDivergenceSemiring] *)
Definition kl_ops (z : R) : ops :=
  {| car := R * R * R; ssum := kl_sum; smul := mul3;
     szero := (z, z, 0); sone := (0, 0, 0); sover := fun _ => (z, z, 0) |}.
(** semirings.py:263-269, 323-329 [convert] of two potential tensors *)
Definition kl_convert (x y : R) : R * R * R := (x, y, 0).

(** ** Real sums *)
Lemma RSum_cons A (f : A -> R) a l : RSum f (a :: l) = f a + RSum f l.
Proof. reflexivity. Qed.
Lemma RSum_app A (f : A -> R) l l' : RSum f (l ++ l') = RSum f l + RSum f l'.
Proof. apply (Sum_app R_csr). Qed.
Lemma RSum_add A (f g : A -> R) l : RSum (fun x => f x + g x) l = RSum f l + RSum g l.
Proof. apply (Sum_add R_csr). Qed.
Lemma RSum_scal A c (f : A -> R) l : RSum (fun x => c * f x) l = c * RSum f l.
Proof. apply (Sum_scale_l R_csr). Qed.
Lemma RSum_scar A c (f : A -> R) l : RSum (fun x => f x * c) l = RSum f l * c.
Proof. apply (Sum_scale_r R_csr). Qed.
Lemma RSum_opp A (f : A -> R) l : RSum (fun x => - f x) l = - RSum f l.
Proof.
  induction l as [|a l IH]; [unfold Sum; simpl; ring|]. rewrite !RSum_cons, IH. ring.
Qed.
Lemma RSum_sub A (f g : A -> R) l : RSum (fun x => f x - g x) l = RSum f l - RSum g l.
Proof. unfold Rminus. rewrite RSum_add, RSum_opp. reflexivity. Qed.
Lemma RSum_le A (f g : A -> R) l : (forall x, In x l -> f x <= g x) -> RSum f l <= RSum g l.
Proof.
  induction l as [|a l IH]; intro H; [apply Rle_refl|]. rewrite !RSum_cons.
  apply Rplus_le_compat; [apply H; left; auto|apply IH; intros; apply H; right; auto].
Qed.
Lemma RSum_nonneg A (f : A -> R) l : (forall x, In x l -> 0 <= f x) -> 0 <= RSum f l.
Proof.
  intro H. replace 0 with (RSum (fun _ : A => 0) l) by apply (Sum_0 R_csr). apply RSum_le; auto.
Qed.
Lemma RSum_pos A (f : A -> R) l : l <> [] -> (forall x, In x l -> 0 < f x) -> 0 < RSum f l.
Proof.
  destruct l as [|a l]; [congruence|]. intros _ H. rewrite RSum_cons.
  apply Rplus_lt_le_0_compat; [apply H; left; auto|]. apply RSum_nonneg.
  intros x Hx. apply Rlt_le, H. right; auto.
Qed.
Lemma RSum_const A c (l : list A) : RSum (fun _ => c) l = INR (length l) * c.
Proof.
  induction l as [|a l IH]; [simpl; unfold Sum; simpl; ring|].
  rewrite RSum_cons, IH. cbn [length]. rewrite S_INR. ring.
Qed.
Lemma RSum_abs A (f : A -> R) l : Rabs (RSum f l) <= RSum (fun x => Rabs (f x)) l.
Proof.
  induction l as [|a l IH]; [unfold Sum; simpl; rewrite Rabs_R0; apply Rle_refl|].
  rewrite !RSum_cons. eapply Rle_trans; [apply Rabs_triang|]. lra.
Qed.
Lemma RSum_single A (f : A -> R) x l : In x l -> (forall y, In y l -> 0 <= f y) -> f x <= RSum f l.
Proof.
  intros Hx H. apply in_split in Hx as (l1 & l2 & ->). rewrite RSum_app, RSum_cons.
  assert (0 <= RSum f l1) by (apply RSum_nonneg; intros; apply H, in_or_app; auto).
  assert (0 <= RSum f l2) by (apply RSum_nonneg; intros; apply H, in_or_app; right; right; auto).
  lra.
Qed.
Lemma RSum_exp_pos A (f : A -> R) l : l <> [] -> 0 < RSum (fun x => exp (f x)) l.
Proof. intro H. apply RSum_pos; auto. intros. apply exp_pos. Qed.
Lemma RSum_split A (f : A -> R) (p : A -> bool) l :
  RSum f l = RSum f (filter p l) + RSum f (filter (fun x => negb (p x)) l).
Proof.
  induction l as [|a l IH]; [unfold Sum; simpl; ring|]. rewrite RSum_cons, IH. simpl.
  destruct (p a); simpl; rewrite RSum_cons; ring.
Qed.

Lemma lse_exp l : l <> [] -> exp (lse l) = RSum exp l.
Proof. intro H. unfold lse. apply exp_ln, RSum_exp_pos; auto. Qed.
Lemma exp_inj x y : exp x = exp y -> x = y.
Proof. apply exp_inv. Qed.

(** ** The score of a derivation *)
Definition score (phi : list nat -> R) (z : R) (m : deriv) : R := RSum (aval phi z) m.

Lemma score_app phi z a b : score phi z (a ++ b) = score phi z a + score phi z b.
Proof. apply RSum_app. Qed.
Lemma exp_RSum A (f : A -> R) l : exp (RSum f l) = RProd (fun x => exp (f x)) l.
Proof. induction l as [|a l IH]; [apply exp_0|]. rewrite RSum_cons, exp_plus, IH. reflexivity. Qed.

(** LogSemiring: exp of the value is the sum of exp of the scores *)
Theorem log_value (phi : list nat -> R) z t : twf t ->
  exp (leval (log_ops z) phi t) = RSum (fun m => exp (score phi z m)) (expand t).
Proof.
  intro W.
  assert (R1 : resp (log_ops z) (csr_opsz R_csr (exp z)) (fun x y => exp x = y)).
  { constructor; simpl; auto using exp_0.
    - intros a a' b b' <- <-. apply exp_plus.
    - intros l l' Hl H. rewrite lse_exp by auto. change (ksum R_csr (map exp l) = ksum R_csr l').
      clear Hl. induction H as [|x y l l' E H IH]; [reflexivity|].
      cbn [map]. rewrite !ksum_cons. now rewrite E, IH. }
  rewrite (@leval_param (log_ops z) (csr_opsz R_csr (exp z)) _ phi (fun e => exp (phi e)) t R1 (fun e => eq_refl) W).
  rewrite leval_expand. apply (Sum_ext R_csr). intro m. unfold score.
  rewrite exp_RSum. apply (Prod_ext R_csr). intros []; reflexivity.
Qed.

(** total weight of the derivations *)
Definition ZZ phi z t : R := RSum (fun m => exp (score phi z m)) (expand t).
Lemma ZZ_pos phi z t : twf t -> 0 < ZZ phi z t.
Proof. intro W. apply RSum_exp_pos, expand_nonempty, W. Qed.
Theorem log_value_ln (phi : list nat -> R) z t : twf t -> leval (log_ops z) phi t = ln (ZZ phi z t).
Proof. intro W. unfold ZZ. now rewrite <- log_value, ln_exp. Qed.

(** ** Max *)
Definition is_max (v : R) (l : list R) : Prop := In v l /\ forall x, In x l -> x <= v.
Lemma rmax_is_max l : l <> [] -> is_max (rmax l) l.
Proof.
  destruct l as [|x l]; [congruence|]. intros _. simpl.
  induction l as [|y l [H1 H2]]; simpl.
  - split; simpl; auto. intros y [->|[]]; apply Rle_refl.
  - split.
    + destruct (Rle_dec y (fold_right Rmax x l)) as [H|H].
      * rewrite Rmax_right by auto. destruct H1 as [H1|H1]; [left|right; right]; auto.
      * rewrite Rmax_left by lra. right; left; auto.
    + intros w [<-|[<-|Hw]].
      * eapply Rle_trans; [apply H2; left; auto|apply Rmax_r].
      * apply Rmax_l.
      * eapply Rle_trans; [apply H2; right; auto|apply Rmax_r].
Qed.
Lemma is_max_unique v w l : is_max v l -> is_max w l -> v = w.
Proof. intros [H1 H2] [H3 H4]. apply Rle_antisym; auto. Qed.

Lemma in_prods a l m : In a (prods l m) <-> exists x y, In x l /\ In y m /\ a = x ++ y.
Proof.
  unfold prods. rewrite in_flat_map. split.
  - intros (x & Hx & H). apply in_map_iff in H as (y & <- & Hy). eauto.
  - intros (x & y & Hx & Hy & ->). exists x. split; auto. apply in_map; auto.
Qed.

Theorem max_value (phi : list nat -> R) z t : twf t ->
  is_max (leval (max_ops z) phi t) (map (score phi z) (expand t)).
Proof.
  induction t as [e|e| | |l IH|a b IHa IHb] using term_ind'; intro W.
  - simpl. unfold score, Sum. simpl. rewrite Rplus_0_r. split; simpl; auto. intros x [->|[]]; apply Rle_refl.
  - simpl. unfold score, Sum. simpl. rewrite Rplus_0_r. split; simpl; auto. intros x [->|[]]; apply Rle_refl.
  - simpl. unfold score, Sum. simpl. split; simpl; auto. intros x [->|[]]; apply Rle_refl.
  - simpl. unfold score, Sum. simpl. rewrite Rplus_0_r. split; simpl; auto. intros x [->|[]]; apply Rle_refl.
  - inversion_clear W as [| | | |? Hn Hf|]. cbn [leval ssum max_ops].
    destruct (@rmax_is_max (map (leval (max_ops z) phi) l)) as [H1 H2].
    { destruct l; simpl; congruence. }
    rewrite Forall_forall in IH, Hf. split.
    + apply in_map_iff in H1 as (t & E & Ht). rewrite <- E.
      destruct (IH t Ht (Hf t Ht)) as [G _]. apply in_map_iff in G as (m & <- & Hm).
      apply in_map. cbn [expand]. apply in_flat_map. eauto.
    + intros x Hx. apply in_map_iff in Hx as (m & <- & Hm).
      cbn [expand] in Hm. apply in_flat_map in Hm as (t & Ht & Hm).
      apply Rle_trans with (leval (max_ops z) phi t).
      * apply (IH t Ht (Hf t Ht)), in_map, Hm.
      * apply H2, (in_map (leval (max_ops z) phi)), Ht.
  - inversion_clear W as [| | | | |? ? Wa Wb]. cbn [leval smul max_ops expand].
    destruct (IHa Wa) as [A1 A2]. destruct (IHb Wb) as [B1 B2]. split.
    + apply in_map_iff in A1 as (x & <- & Hx). apply in_map_iff in B1 as (y & <- & Hy).
      rewrite <- score_app. apply in_map, in_prods. eauto.
    + intros s Hs. apply in_map_iff in Hs as (m & <- & Hm). apply in_prods in Hm as (x & y & Hx & Hy & ->).
      rewrite score_app. apply Rplus_le_compat; [apply A2|apply B2]; apply in_map; auto.
Qed.

(** ** Entropy *)
Lemma lse_fst {A} (f : A -> R) l : l <> [] -> exp (lse (map f l)) = RSum (fun x => exp (f x)) l.
Proof. intro H. rewrite lse_exp by (destruct l; simpl; congruence). apply (Sum_map R_csr). Qed.

Lemma RSum_flat_map A B (f : B -> R) (h : A -> list B) l :
  RSum f (flat_map h l) = RSum (fun a => RSum f (h a)) l.
Proof. apply (Sum_flat_map R_csr). Qed.

(** *** Expectation semirings

    Pairs (weight, weight times value): the lawful semiring to which Entropy,
    CrossEntropy and KLDivergence reduce. *)
Definition exp_csr : csr.
Proof.
  refine (@Csr (R * R) (0, 0) (1, 0) (fun a b => (fst a + fst b, snd a + snd b))
    (fun a b => (fst a * fst b, fst a * snd b + snd a * fst b)) _ _ _ _ _ _ _ _);
  intros; simpl; repeat match goal with x : R * R |- _ => destruct x end; simpl; f_equal; ring.
Defined.

Lemma exp_csr_Sum A (f g : A -> R) l : Sum exp_csr (fun x => (f x, g x)) l = (RSum f l, RSum g l).
Proof. induction l as [|a l IH]; [reflexivity|]. rewrite Sum_cons, IH. reflexivity. Qed.
Lemma exp_csr_Prod A (f g : A -> R) l :
  Prod exp_csr (fun x => (exp (f x), exp (f x) * g x)) l = (exp (RSum f l), exp (RSum f l) * RSum g l).
Proof.
  induction l as [|a l IH].
  - unfold Prod, Sum; simpl. rewrite exp_0. f_equal. ring.
  - rewrite Prod_cons, IH. rewrite !RSum_cons, exp_plus. simpl. f_equal. ring.
Qed.

Section Expectation.
  Variable O : ops.
  Variables (P X : car O -> R).
  Variables (z x : R).
  (** proof device: the pair (weight, weight times expectation) of a cell *)
  Definition exp_rel (v : car O) (y : R * R) : Prop := (exp (P v), exp (P v) * X v) = y.
  Hypothesis HR : resp O (csr_opsz exp_csr (exp z, exp z * x)) exp_rel.

  Theorem expect_value v t : twf t ->
    exp (P (leval O v t)) = RSum (fun m => exp (score (fun e => P (v e)) z m)) (expand t) /\
    exp (P (leval O v t)) * X (leval O v t) =
    RSum (fun m => exp (score (fun e => P (v e)) z m) * score (fun e => X (v e)) x m) (expand t).
  Proof.
    intro W.
    assert (H := @leval_param O (csr_opsz exp_csr (exp z, exp z * x)) exp_rel v (fun e => (exp (P (v e)), exp (P (v e)) * X (v e))) t HR
                   (fun e => eq_refl) W).
    rewrite leval_expand in H. unfold exp_rel in H.
    rewrite (Sum_ext exp_csr _ (fun m => (exp (score (fun e => P (v e)) z m),
       exp (score (fun e => P (v e)) z m) * score (fun e => X (v e)) x m))) in H.
    - rewrite exp_csr_Sum in H. split; congruence.
    - intro m. unfold score. rewrite <- exp_csr_Prod. apply (Prod_ext exp_csr). intros []; reflexivity.
  Qed.
End Expectation.

Lemma exp_rel_sum (O : ops) (P X : car O -> R) l l' v :
  Forall2 (exp_rel O P X) l l' ->
  exp (P v) = RSum (fun y => exp (P y)) l ->
  exp (P v) * X v = RSum (fun y => exp (P y) * X y) l ->
  exp_rel O P X v (ksum exp_csr l').
Proof.
  intros H E1 E2. unfold exp_rel. rewrite E2, E1, <- exp_csr_Sum.
  clear E1 E2. induction H as [|a b l l' E H IH]; [reflexivity|].
  rewrite Sum_cons, ksum_cons, IH. unfold exp_rel in E. now rewrite E.
Qed.

Lemma lse_norm A (p : A -> R) l : l <> [] -> forall y,
  exp (lse (map p l)) * exp (p y - lse (map p l)) = exp (p y).
Proof. intros H y. rewrite <- exp_plus. f_equal. ring. Qed.

(** linear combinations under the local softmax *)
Lemma sm_sum A (p w : A -> R) l : l <> [] ->
  exp (lse (map p l)) * RSum (fun y => w y * exp (p y - lse (map p l))) l = RSum (fun y => exp (p y) * w y) l.
Proof.
  intro H. rewrite <- RSum_scal. apply (Sum_ext R_csr). intro y. rewrite <- (lse_norm p H y). ring.
Qed.
Lemma sm_one A (p : A -> R) l : l <> [] -> RSum (fun y => exp (p y - lse (map p l))) l = 1.
Proof.
  intro H. pose proof (exp_pos (lse (map p l))). apply Rmult_eq_reg_l with (exp (lse (map p l))); [|lra].
  rewrite <- RSum_scal, (Sum_ext R_csr _ _ _ (lse_norm p H)), Rmult_1_r. symmetry. apply lse_fst; auto.
Qed.

Lemma ent_resp z : resp (ent_ops z) (csr_opsz exp_csr (exp z, exp z * z))
  (exp_rel (ent_ops z) fst (fun y => fst y - snd y)).
Proof.
  constructor; unfold exp_rel; simpl.
  - f_equal. ring.
  - rewrite exp_0. f_equal. ring.
  - intros _. f_equal. ring.
  - intros a a' b b' <- <-. simpl. rewrite exp_plus. f_equal. ring.
  - intros l l' Hl H. apply (exp_rel_sum (ssum (ent_ops z) l) H).
    + apply (lse_fst fst Hl).
    + simpl. set (p := lse (map fst l)).
      transitivity (exp p * RSum (fun y => (fst y - snd y) * exp (fst y - p)) l); [|apply (sm_sum fst (fun y => fst y - snd y) Hl)].
      f_equal. rewrite <- (Rmult_1_r p) at 1. rewrite <- (sm_one fst Hl). fold p. rewrite <- RSum_scal, <- RSum_sub.
      apply (Sum_ext R_csr). intro. ring.
Qed.
Lemma ce_resp z : resp (ce_ops z) (csr_opsz exp_csr (exp z, exp z * z))
  (exp_rel (ce_ops z) p_ (fun y => q_ y - d_ y)).
Proof.
  constructor; unfold exp_rel; simpl.
  - unfold p_, q_, d_; simpl. f_equal. ring.
  - unfold p_, q_, d_; simpl. rewrite exp_0. f_equal. ring.
  - intros _. unfold p_, q_, d_; simpl. f_equal. ring.
  - intros [[a1 a2] a3] a' [[b1 b2] b3] b' <- <-. unfold mul3, p_, q_, d_; simpl. rewrite exp_plus. f_equal. ring.
  - intros l l' Hl H. apply (exp_rel_sum (ssum (ce_ops z) l) H).
    + apply (lse_fst p_ Hl).
    + change (exp (lse (map p_ l)) * (lse (map q_ l) - RSum (fun x => d_ x * exp (p_ x - lse (map p_ l))
          - (q_ x - lse (map q_ l)) * exp (p_ x - lse (map p_ l))) l)
        = RSum (fun y => exp (p_ y) * (q_ y - d_ y)) l).
      set (p := lse (map p_ l)). set (q := lse (map q_ l)).
      transitivity (exp p * RSum (fun y => (q_ y - d_ y) * exp (p_ y - p)) l); [|apply (sm_sum p_ (fun y => q_ y - d_ y) Hl)].
      f_equal. assert (E1 := sm_one p_ Hl). fold p in E1.
      assert (Eq := RSum_scal q (fun y => exp (p_ y - p)) l). rewrite E1, Rmult_1_r in Eq.
      match goal with |- _ - ?s = _ => transitivity (RSum (fun y => q * exp (p_ y - p)) l - s); [now rewrite Eq|] end.
      rewrite <- RSum_sub. apply (Sum_ext R_csr). intro. ring.
Qed.
Lemma kl_resp z : resp (kl_ops z) (csr_opsz exp_csr (exp z, exp z * 0))
  (exp_rel (kl_ops z) p_ (fun y => d_ y - q_ y + p_ y)).
Proof.
  constructor; unfold exp_rel; simpl.
  - unfold p_, q_, d_; simpl. f_equal. ring.
  - unfold p_, q_, d_; simpl. rewrite exp_0. f_equal. ring.
  - intros _. unfold p_, q_, d_; simpl. f_equal. ring.
  - intros [[a1 a2] a3] a' [[b1 b2] b3] b' <- <-. unfold mul3, p_, q_, d_; simpl. rewrite exp_plus. f_equal. ring.
  - intros l l' Hl H. apply (exp_rel_sum (ssum (kl_ops z) l) H).
    + apply (lse_fst p_ Hl).
    + change (exp (lse (map p_ l)) * (RSum (fun x => d_ x * exp (p_ x - lse (map p_ l))
          - (q_ x - lse (map q_ l)) * exp (p_ x - lse (map p_ l))
          + (p_ x - lse (map p_ l)) * exp (p_ x - lse (map p_ l))) l - lse (map q_ l) + lse (map p_ l))
        = RSum (fun y => exp (p_ y) * (d_ y - q_ y + p_ y)) l).
      set (p := lse (map p_ l)). set (q := lse (map q_ l)).
      transitivity (exp p * RSum (fun y => (d_ y - q_ y + p_ y) * exp (p_ y - p)) l); [|apply (sm_sum p_ (fun y => d_ y - q_ y + p_ y) Hl)].
      f_equal. assert (E1 := sm_one p_ Hl). fold p in E1.
      assert (Eq := RSum_scal q (fun y => exp (p_ y - p)) l). assert (Ep := RSum_scal p (fun y => exp (p_ y - p)) l).
      rewrite E1, Rmult_1_r in Eq, Ep.
      match goal with |- ?s - _ + _ = _ => transitivity (s - RSum (fun y => q * exp (p_ y - p)) l
        + RSum (fun y => p * exp (p_ y - p)) l); [now rewrite Eq, Ep|] end.
      rewrite <- RSum_sub, <- RSum_add.
      apply (Sum_ext R_csr). intro. ring.
Qed.

(** ** What the three information semirings compute over derivations *)
(** probability of a derivation *)
Definition pr phi z t (m : deriv) : R := exp (score phi z m) / ZZ phi z t.

Lemma ln_pr phi z t m : twf t -> ln (pr phi z t m) = score phi z m - ln (ZZ phi z t).
Proof.
  intro W. unfold pr, Rdiv. pose proof (ZZ_pos phi z W).
  rewrite ln_mult, ln_Rinv, ln_exp; auto using exp_pos, Rinv_0_lt_compat.
Qed.
Lemma pr_pos phi z t m : twf t -> 0 < pr phi z t m.
Proof. intro W. apply Rdiv_lt_0_compat; [apply exp_pos|apply ZZ_pos, W]. Qed.
Lemma pr_sum phi z t : twf t -> RSum (pr phi z t) (expand t) = 1.
Proof.
  intro W. unfold pr, Rdiv. rewrite RSum_scar. fold (ZZ phi z t).
  pose proof (ZZ_pos phi z W). field. lra.
Qed.
Lemma RSum_pr phi z t (f : deriv -> R) : twf t ->
  RSum (fun m => pr phi z t m * f m) (expand t) = RSum (fun m => exp (score phi z m) * f m) (expand t) / ZZ phi z t.
Proof.
  intro W. unfold Rdiv. rewrite <- RSum_scar. apply (Sum_ext R_csr). intro m. unfold pr, Rdiv. ring.
Qed.

(** mean of a score under the derivation distribution *)
Definition mean phi z t (f : deriv -> R) : R := RSum (fun m => pr phi z t m * f m) (expand t).

Lemma mean_lin phi z t f g : mean phi z t (fun m => f m - g m) = mean phi z t f - mean phi z t g.
Proof. unfold mean. rewrite <- RSum_sub. apply (Sum_ext R_csr). intro; ring. Qed.
Lemma mean_const phi z t c : twf t -> mean phi z t (fun _ => c) = c.
Proof. intro W. unfold mean. rewrite RSum_scar, pr_sum by auto. ring. Qed.

Lemma leval_p (O : ops) (P : car O -> R) z (v : list nat -> car O) t :
  resp O (log_ops z) (fun x y => P x = y) -> twf t ->
  P (leval O v t) = leval (log_ops z) (fun e => P (v e)) t.
Proof. intros H W. apply (@leval_param O (log_ops z) (fun x y => P x = y) v (fun e => P (v e)) t H (fun e => eq_refl) W). Qed.

Lemma Forall2_map_eq A B (f : A -> B) l l' : Forall2 (fun x y => f x = y) l l' -> map f l = l'.
Proof. induction 1; simpl; congruence. Qed.
Lemma ent_p z : resp (ent_ops z) (log_ops z) (fun x y => fst x = y).
Proof.
  constructor; simpl; auto; [intros; congruence|].
  intros l l' _ H. f_equal. apply Forall2_map_eq, H.
Qed.
Lemma ce_p z : resp (ce_ops z) (log_ops z) (fun x y => p_ x = y).
Proof.
  constructor; simpl; auto; [intros; subst; reflexivity|].
  intros l l' _ H. unfold p_ at 1. simpl. f_equal. apply Forall2_map_eq, H.
Qed.
Lemma ce_q z : resp (ce_ops z) (log_ops z) (fun x y => q_ x = y).
Proof.
  constructor; simpl; auto; [intros; subst; reflexivity|].
  intros l l' _ H. unfold q_ at 1. simpl. f_equal. apply Forall2_map_eq, H.
Qed.
Lemma kl_p z : resp (kl_ops z) (log_ops z) (fun x y => p_ x = y).
Proof.
  constructor; simpl; auto; [intros; subst; reflexivity|].
  intros l l' _ H. unfold p_ at 1. simpl. f_equal. apply Forall2_map_eq, H.
Qed.
Lemma kl_q z : resp (kl_ops z) (log_ops z) (fun x y => q_ x = y).
Proof.
  constructor; simpl; auto; [intros; subst; reflexivity|].
  intros l l' _ H. unfold q_ at 1. simpl. f_equal. apply Forall2_map_eq, H.
Qed.

Section Information.
  Variables (z : R) (phi psi : list nat -> R) (t : term).
  Hypothesis W : twf t.

  Theorem ent_value : snd (leval (ent_ops z) (fun e => ent_convert (phi e)) t) =
    - mean phi z t (fun m => ln (pr phi z t m)).
  Proof.
    destruct (@expect_value _ _ _ z z (ent_resp z) (fun e => ent_convert (phi e)) t W) as [H1 H2].
    rewrite (@leval_p (ent_ops z) fst z _ t (ent_p z) W) in H1, H2. cbn [fst snd ent_convert] in H1, H2.
    rewrite log_value_ln in H1, H2 by auto. rewrite exp_ln in H2 by (apply ZZ_pos, W).
    change (fun e : list nat => phi e) with phi in H2; try change (fun e : list nat => psi e) with psi in H2.
    erewrite (Sum_ext R_csr) in H2; [|intro m; replace (score (fun e => phi e - 0) z m) with (score phi z m); [reflexivity|]].
    2:{ unfold score. apply (Sum_ext R_csr). intros []; simpl; ring. }
    unfold mean. rewrite (Sum_ext R_csr _ (fun m => pr phi z t m * (score phi z m - ln (ZZ phi z t)))) by
      (intro; now rewrite ln_pr).
    fold (mean phi z t (fun m => score phi z m - ln (ZZ phi z t))).
    rewrite mean_lin, mean_const by auto. unfold mean. rewrite RSum_pr, <- H2 by auto.
    pose proof (ZZ_pos phi z W). unfold car, ent_ops. field. lra.
  Qed.

  Theorem ce_value : d_ (leval (ce_ops z) (fun e => kl_convert (phi e) (psi e)) t) =
    - mean phi z t (fun m => ln (pr psi z t m)).
  Proof.
    destruct (@expect_value _ _ _ z z (ce_resp z) (fun e => kl_convert (phi e) (psi e)) t W) as [H1 H2].
    rewrite (@leval_p (ce_ops z) p_ z _ t (ce_p z) W) in H1, H2.
    rewrite (@leval_p (ce_ops z) q_ z _ t (ce_q z) W) in H2. unfold kl_convert, p_, q_, d_ in H1, H2; cbn [fst snd] in H1, H2.
    rewrite !log_value_ln in H2 by auto. rewrite exp_ln in H2 by (apply ZZ_pos, W).
    change (fun e : list nat => phi e) with phi in H2; try change (fun e : list nat => psi e) with psi in H2.
    erewrite (Sum_ext R_csr) in H2; [|intro m; replace (score (fun e => psi e - 0) z m) with (score psi z m); [reflexivity|]].
    2:{ unfold score. apply (Sum_ext R_csr). intros []; simpl; ring. }
    unfold mean. rewrite (Sum_ext R_csr _ (fun m => pr phi z t m * (score psi z m - ln (ZZ psi z t)))) by
      (intro; now rewrite ln_pr).
    fold (mean phi z t (fun m => score psi z m - ln (ZZ psi z t))).
    rewrite mean_lin, mean_const by auto. unfold mean. rewrite RSum_pr, <- H2 by auto.
    pose proof (ZZ_pos phi z W). unfold d_, kl_convert. rr. field. lra.
  Qed.

  Theorem kl_value : d_ (leval (kl_ops z) (fun e => kl_convert (phi e) (psi e)) t) =
    mean phi z t (fun m => ln (pr phi z t m) - ln (pr psi z t m)).
  Proof.
    destruct (@expect_value _ _ _ z 0 (kl_resp z) (fun e => kl_convert (phi e) (psi e)) t W) as [H1 H2].
    rewrite (@leval_p (kl_ops z) p_ z _ t (kl_p z) W) in H1, H2.
    rewrite (@leval_p (kl_ops z) q_ z _ t (kl_q z) W) in H2. unfold kl_convert, p_, q_, d_ in H1, H2; cbn [fst snd] in H1, H2.
    rewrite !log_value_ln in H2 by auto. rewrite exp_ln in H2 by (apply ZZ_pos, W).
    change (fun e : list nat => phi e) with phi in H2; try change (fun e : list nat => psi e) with psi in H2.
    erewrite (Sum_ext R_csr) in H2; [|intro m; replace (score (fun e => 0 - psi e + phi e) 0 m)
      with (score phi z m - score psi z m); [reflexivity|]].
    2:{ unfold score. rewrite <- RSum_sub. apply (Sum_ext R_csr). intros []; simpl; ring. }
    unfold mean. rewrite (Sum_ext R_csr _ (fun m => pr phi z t m * ((score phi z m - score psi z m)
       - (ln (ZZ phi z t) - ln (ZZ psi z t))))) by
      (intro; rewrite !ln_pr by auto; ring).
    fold (mean phi z t (fun m => (score phi z m - score psi z m) - (ln (ZZ phi z t) - ln (ZZ psi z t)))).
    rewrite mean_lin, mean_const by auto. unfold mean. rewrite RSum_pr, <- H2 by auto.
    pose proof (ZZ_pos phi z W). unfold d_, kl_convert. rr. field. lra.
  Qed.
End Information.

(** Gibbs' inequality: the KL value is never negative *)
Theorem kl_nonneg z (phi psi : list nat -> R) t : twf t ->
  0 <= mean phi z t (fun m => ln (pr phi z t m) - ln (pr psi z t m)).
Proof.
  intro W. unfold mean.
  apply Rle_trans with (RSum (fun m => pr phi z t m - pr psi z t m) (expand t)).
  { rewrite RSum_sub, !pr_sum by auto. lra. }
  apply RSum_le. intros m _.
  set (p := pr phi z t m). set (q := pr psi z t m).
  assert (0 < p) by (apply pr_pos; auto). assert (0 < q) by (apply pr_pos; auto).
  assert (ln (q / p) <= q / p - 1).
  { assert (0 < q / p) by (apply Rdiv_lt_0_compat; auto).
    destruct (Req_dec (q / p) 1) as [->|N]; [rewrite ln_1; lra|].
    pose proof (exp_ineq1 (ln (q / p))) as G. rewrite exp_ln in G by auto.
    assert (ln (q / p) <> 0); [|lra]. intro E. apply N. rewrite <- (exp_ln (q / p)), E, exp_0; auto. }
  unfold Rdiv in H1. rewrite ln_mult, ln_Rinv in H1; auto using Rinv_0_lt_compat.
  replace (p - q) with (- (p * (q * / p - 1))) by (field; lra).
  replace (p * (ln p - ln q)) with (- (p * (ln q + - ln p))) by ring.
  apply Ropp_le_contravar. apply Rmult_le_compat_l; lra.
Qed.
