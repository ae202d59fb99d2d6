(** * Chain: the parallel (binary) scan shared by linear chains and semi-Markov.

    linearchain.py:52, 82-83; semimarkov.py:31, 82-83; helpers.py:36-39. *)
From Verif Require Import Base Ops.
Set Implicit Arguments.

(** Python slices [l[0::2]] and [l[1::2]]. *)
Fixpoint evens {A} (l : list A) : list A :=
  match l with
  | [] => []
  | a :: l' => a :: (match l' with [] => [] | _ :: l'' => evens l'' end)
  end.
(** [chart[:, :, 1::2]] of linearchain.py:83 and semimarkov.py:83 *)
Definition odds {A} (l : list A) : list A := evens (tl l).

(** batched [semiring.matmul] of two slices of equal length (linearchain.py:83, semimarkov.py:83): cell by cell *)
Fixpoint zip_with {A B C} (f : A -> B -> C) (l : list A) (m : list B) : list C :=
  match l, m with
  | a :: l, b :: m => f a b :: zip_with f l m
  | _, _ => []
  end.

Section Scan.
  Variable O : ops.
  Notation mat := (nat -> nat -> car O).
  (** linearchain.py:83, semimarkov.py:83: one round of
      [chart = semiring.matmul(chart[:, :, 1::2], chart[:, :, 0::2])],
      for one batch element; the chart is the list over the time axis.
      [zip_with] pairs position by position, as batched matmul does. *)
  Definition scan_round (C : nat) (chart : list mat) : list mat :=
    zip_with (matmul O C) (odds chart) (evens chart).

  (** linearchain.py:82-83, semimarkov.py:82-83: [for n in range(1, log_N + 1)]. *)
  Fixpoint scan (C log_N : nat) (chart : list mat) : list mat :=
    match log_N with
    | 0 => chart
    | S n => scan C n (scan_round C chart)
    end.
End Scan.

(** helpers.py:36-39 [_bin_length]: log_N = ceil(log2 length), bin_N = 2^log_N;
    [math.log(0, 2)] raises ValueError.
    Simplification: the float computation [ceil(log(length, 2))] is replaced by
    the exact integer one (theorem [lc_scan_any_log] in LinearChain.v shows any
    larger log_N gives the same answer). *)
Definition bin_length (length : nat) : res (nat * nat) :=
  if length =? 0 then Err ValueError
  else Ok (Nat.log2_up length, 2 ^ Nat.log2_up length).

(** [l] laid out as consecutive pairs *)
Lemma list_pair_ind {A} (P : list A -> Prop) :
  P [] -> (forall a, P [a]) -> (forall a b l, P l -> P (a :: b :: l)) -> forall l, P l.
Proof.
  intros H0 H1 H2. fix IH 1. intros [|a [|b l]]; [apply H0|apply H1|apply H2, IH].
Qed.

Section RespScan.
  Variables (O1 O2 : ops) (R : car O1 -> car O2 -> Prop).
  Hypothesis HR : resp O1 O2 R.
  (** proof device: relation between matrices over two semirings, entry by entry *)
  Definition Rmat (a : nat -> nat -> car O1) (b : nat -> nat -> car O2) : Prop :=
    forall i j, R (a i j) (b i j).

  Lemma Forall2_evens l l' : Forall2 Rmat l l' -> Forall2 Rmat (evens l) (evens l').
  Proof.
    revert l'. induction l as [|a|a b l IH] using list_pair_ind; intros l' H.
    - inversion H; constructor.
    - inversion_clear H. inversion_clear H1. simpl. repeat constructor; auto.
    - inversion_clear H. inversion_clear H1. simpl. constructor; auto.
  Qed.
  Lemma Forall2_odds l l' : Forall2 Rmat l l' -> Forall2 Rmat (odds l) (odds l').
  Proof. intro H. apply Forall2_evens. inversion H; subst; simpl; auto. Qed.

  Lemma Forall2_zip C l l' m m' : 0 < C ->
    Forall2 Rmat l l' -> Forall2 Rmat m m' ->
    Forall2 Rmat (zip_with (matmul O1 C) l m) (zip_with (matmul O2 C) l' m').
  Proof.
    intros HC H. revert m m'. induction H; intros m m' Hm; simpl; [constructor|].
    inversion_clear Hm; constructor; auto.
    intros i j. apply (resp_matmul HR); auto.
  Qed.

  Lemma resp_scan C n l l' : 0 < C ->
    Forall2 Rmat l l' -> Forall2 Rmat (scan O1 C n l) (scan O2 C n l').
  Proof.
    intros HC. revert l l'. induction n; intros l l' H; simpl; auto.
    apply IHn, Forall2_zip; auto using Forall2_odds, Forall2_evens.
  Qed.
End RespScan.

(** ** The scan computes the ordered product of the matrices *)
Section Product.
  Variable S : csr.
  Add Ring Sring2 : (csr_srt S).
  Notation mat := (nat -> nat -> S).
  Notation mm := (matmul (csr_ops S)).

  (** spec: equality of matrices on C states *)
  Definition meq (C : nat) (a b : mat) : Prop := forall i j, i < C -> j < C -> a i j = b i j.
  (** spec: the identity matrix *)
  Definition ident : mat := fun i j => if i =? j then k1 else k0.

  (** latest matrix on the left *)
  Fixpoint mprod (C : nat) (l : list mat) : mat :=
    match l with [] => ident | M :: l' => mm C (mprod C l') M end.

  Lemma meq_refl C a : meq C a a. Proof. intros i j _ _; reflexivity. Qed.
  Lemma meq_trans C a b c : meq C a b -> meq C b c -> meq C a c.
  Proof. intros H1 H2 i j Hi Hj. rewrite H1, H2; auto. Qed.
  Lemma meq_sym C a b : meq C a b -> meq C b a.
  Proof. intros H i j Hi Hj. symmetry; auto. Qed.

  Lemma mm_meq C a a' b b' : meq C a a' -> meq C b b' -> meq C (mm C a b) (mm C a' b').
  Proof.
    intros Ha Hb i j Hi Hj. rewrite !matmul_csr. apply Sum_seq_ext.
    intros k Hk. rewrite Ha, Hb; auto; lia.
  Qed.

  Lemma mm_ident_l C a : meq C (mm C ident a) a.
  Proof.
    intros i j Hi Hj. rewrite matmul_csr.
    rewrite (@Sum_single S nat _ i); [unfold ident; rewrite Nat.eqb_refl; ring
      |apply seq_NoDup|apply in_seq; lia|].
    intros x _ Hx. unfold ident. destruct (i =? x) eqn:E; [|ring].
    apply Nat.eqb_eq in E. congruence.
  Qed.
  Lemma mm_ident_r C a : meq C (mm C a ident) a.
  Proof.
    intros i j Hi Hj. rewrite matmul_csr.
    rewrite (@Sum_single S nat _ j); [unfold ident; rewrite Nat.eqb_refl; ring
      |apply seq_NoDup|apply in_seq; lia|].
    intros x _ Hx. unfold ident. destruct (x =? j) eqn:E; [|ring].
    apply Nat.eqb_eq in E. congruence.
  Qed.

  Lemma mm_assoc C a b c i j : mm C (mm C a b) c i j = mm C a (mm C b c) i j.
  Proof.
    rewrite !matmul_csr.
    transitivity (Sum S (fun k => Sum S (fun l => kmul (kmul (a i l) (b l k)) (c k j)) (seq 0 C)) (seq 0 C)).
    - apply Sum_ext. intro k. rewrite matmul_csr, <- Sum_scale_r. reflexivity.
    - rewrite Sum_comm. apply Sum_ext. intro l.
      rewrite matmul_csr, <- Sum_scale_l. apply Sum_ext. intro k. ring.
  Qed.

  Lemma scan_round_cons C a b l :
    scan_round (csr_ops S) C (a :: b :: l) = mm C b a :: scan_round (csr_ops S) C l.
  Proof. unfold scan_round, odds. destruct l; reflexivity. Qed.

  Lemma scan_round_length C l n : length l = 2 * n -> length (scan_round (csr_ops S) C l) = n.
  Proof.
    revert n. induction l as [|a|a b l IH] using list_pair_ind; intros n H; simpl in H.
    - unfold scan_round; simpl; lia.
    - lia.
    - rewrite scan_round_cons. cbn [length]. cbn [car csr_ops] in *. rewrite (IH (n - 1)); lia.
  Qed.

  Lemma scan_round_mprod C l n : length l = 2 * n ->
    meq C (mprod C (scan_round (csr_ops S) C l)) (mprod C l).
  Proof.
    revert n. induction l as [|a|a b l IH] using list_pair_ind; intros n H.
    - apply meq_refl.
    - simpl in H; lia.
    - rewrite scan_round_cons. simpl. eapply meq_trans.
      + apply mm_meq; [apply (IH (n - 1)); simpl in *; lia|apply meq_refl].
      + intros i j Hi Hj. symmetry. apply mm_assoc.
  Qed.

  Lemma scan_mprod C n l : length l = 2 ^ n ->
    exists M, scan (csr_ops S) C n l = [M] /\ meq C M (mprod C l).
  Proof.
    revert l. induction n; intros l H.
    - destruct l as [|M [|]]; simpl in H; try lia. exists M. split; auto.
      simpl. apply meq_sym, mm_ident_l.
    - cbn [scan].
      assert (Hl : length l = 2 * 2 ^ n) by (rewrite H; reflexivity).
      destruct (IHn _ (scan_round_length C l _ Hl)) as (M & HM & E).
      exists M. split; auto. eapply meq_trans; [exact E|].
      eapply scan_round_mprod; eauto.
  Qed.

  Lemma mprod_app C l l' : meq C (mprod C (l ++ l')) (mm C (mprod C l') (mprod C l)).
  Proof.
    induction l as [|M l IH]; simpl.
    - apply meq_sym, mm_ident_r.
    - eapply meq_trans; [apply mm_meq; [exact IH|apply meq_refl]|].
      intros i j Hi Hj. apply mm_assoc.
  Qed.

  Lemma mprod_meq C l l' : Forall2 (meq C) l l' -> meq C (mprod C l) (mprod C l').
  Proof.
    induction 1; simpl; [apply meq_refl|]. apply mm_meq; auto.
  Qed.

  Lemma mprod_ident C l : Forall (fun M => meq C M ident) l -> meq C (mprod C l) ident.
  Proof.
    induction 1; simpl; [apply meq_refl|].
    eapply meq_trans; [apply mm_meq; eauto|]. apply mm_ident_l.
  Qed.
End Product.
