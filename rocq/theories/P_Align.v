(** * P_Align: C43 (AlignmentCRF) and C48 (attributes of the semiring classes). *)
From Coq Require Import String ZArith.
From Verif Require Import Base Ops Align.
Set Implicit Arguments.
Local Open Scope string_scope.

(** ** C43 *)
(** no semiring class of the library has [one_], however often it is wrapped *)
Theorem C43_no_one_ c : attr c "one_" = Err AttributeError.
Proof. unfold attr, resolve. induction c; try reflexivity; cbn [mro find]; exact IHc. Qed.

Lemma align_raises s p ls u : exists e, align_logpartition s p ls u = Err e.
Proof.
  unfold align_logpartition. destruct (al_semiring s) as [| | |sr]; eauto. destruct p as [sh sg|]; eauto.
  destruct (attr sr "size"); eauto. destruct (align_check _ _ _ _) as [[[N M] l]|e] eqn:E; eauto.
  destruct (Nat.eqb (M + N) 0); eauto. destruct (attr sr "zero"); eauto.
  destruct l as [|z l]; [|destruct (fill_err u); eauto; rewrite C43_no_one_; eauto].
  exfalso. unfold align_check in E. destruct sh as [|b [|n [|m [|x [|]]]]]; try discriminate.
  destruct (negb (x =? 3)%nat); [discriminate|]. destruct (_ && _)%bool; [discriminate|].
  destruct (attr sr "convert"); [|discriminate]. destruct (negb (n <=? m)%nat); [discriminate|].
  set (l := match ls with Some l0 => l0 | None => _ end) in E. destruct l as [|z l]; [discriminate|]. cbn [zmax] in E.
  destruct (negb (_ <=? _)%Z); [discriminate|]. destruct (negb (_ =? _)%Z); discriminate.
Qed.
(** Every query of every AlignmentCRF raises: any potentials, lengths, options,
    and whatever the lines that are not modelled do. *)
Theorem C43_every_query_raises d q u : exists e, align_query d q u = Err e.
Proof.
  assert (H : forall sr p, exists e, on d sr p u = Err e).
  { intros sr p. unfold on. destruct (crf_struct d sr); [apply align_raises|eauto]. }
  destruct q as [| | | | | | | | | | | |[e|]|[|[|n] [|? ?]]]; cbn [align_query]; eauto.
Qed.
Print Assumptions C43_every_query_raises.

(** The struct behind an AlignmentCRF is never in local mode: the flag arrives as
    [sparse_rounds]. *)
Theorem C43_local_lost d sr : exists s, crf_struct d sr = Ok s /\
  al_local s = VBool false /\ al_rounds s = VBool (ac_local d) /\ al_gap s = ac_gap d /\ al_semiring s = VClass sr.
Proof. eexists. split; [reflexivity|]. repeat split. Qed.
(** so asking for local alignments changes nothing, and the sign checks of local
    mode (alignment.py:29-32) are never made *)
Theorem C43_local_ignored p ls g q u :
  align_query (AlignCrf p true ls g) q u = align_query (AlignCrf p false ls g) q u.
Proof. destruct q as [| | | | | | | | | | | |[e|]|[|[|n] [|? ?]]]; reflexivity. Qed.
Theorem C43_signs_ignored sh ls g lc q u sg sg' :
  align_query (AlignCrf (PTensor sh sg) lc ls g) q u = align_query (AlignCrf (PTensor sh sg') lc ls g) q u.
Proof.
  assert (H : forall sr, on (AlignCrf (PTensor sh sg) lc ls g) sr (PTensor sh sg) u = on (AlignCrf (PTensor sh sg') lc ls g) sr (PTensor sh sg') u).
  { intro sr. unfold on, crf_struct. cbn [ac_local ac_gap ac_lengths]. cbn -[align_logpartition].
    unfold align_logpartition, align_check. cbn [al_semiring al_local truthy andb]. reflexivity. }
  destruct q as [| | | | | | | | | | | |[e|]|[|[|n] [|? ?]]]; cbn [align_query]; try reflexivity; try apply H.
Qed.

(** classes with a zero: all but the abstract base *)
Fixpoint abstract (c : sclass) : bool :=
  match c with KSemiring => true | KCheck c' | KShard c' => abstract c' | _ => false end.
Lemma find_none_app A (f : A -> bool) l x : find f l = None -> f x = true -> In x l -> False.
Proof. intros H Hx Hin. pose proof (find_none _ _ H x Hin). congruence. Qed.
Lemma in_mro c : abstract c = false -> forall a, (a = "size" \/ a = "convert" \/ a = "zero") -> attr c a = Ok tt.
Proof.
  unfold attr, resolve. induction c; intros Ha a H; try discriminate; try (destruct H as [->|[->| ->]]; reflexivity);
  cbn [abstract] in Ha; specialize (IHc Ha a H); cbn [mro find]; destruct H as [->|[->| ->]]; exact IHc.
Qed.
(** On every well-formed request the exception is the missing attribute: the
    partition is not refused for what the caller passed. *)
Theorem C43_attribute d q batch N M sg ls u : ac_pots d = PTensor [batch; N; M; 3]%nat sg ->
  ls = match ac_lengths d with Some ls => ls | None => repeat (Z.of_nat N) batch end ->
  (N <= M)%nat -> (0 < M)%nat -> In (Z.of_nat N) ls -> Forall (fun l => (l <= Z.of_nat N)%Z) ls -> fill_err u = None ->
  match q with QSample [S _] | QLogProb None => True | QSample _ | QLogProb _ => False | _ => True end ->
  align_query d q u = Err AttributeError.
Proof.
  intros Hp Hls HNM HM Hin Hle Hu Hq.
  assert (H : forall sr sg', abstract sr = false -> on d sr (PTensor [batch; N; M; 3]%nat sg') u = Err AttributeError).
  { intros sr sg' Ha. unfold on. destruct (C43_local_lost d sr) as (s & -> & E1 & _ & _ & E2).
    unfold align_logpartition. rewrite E1, E2. rewrite (@in_mro sr Ha "size") by auto.
    unfold align_check. cbn [truthy andb negb Nat.eqb]. rewrite (@in_mro sr Ha "convert") by auto.
    replace (N <=? M)%nat with true by (symmetry; now apply Nat.leb_le). cbn [negb]. rewrite <- Hls.
    assert (Hz : zmax ls = Some (Z.of_nat N)).
    { destruct ls as [|x l]; [destruct Hin|]. cbn [zmax]. f_equal. clear Hls.
      assert (G : forall l x, In (Z.of_nat N) (x :: l) -> Forall (fun l => (l <= Z.of_nat N)%Z) (x :: l) -> fold_left Z.max l x = Z.of_nat N).
      { clear. induction l as [|y l IH]; intros x Hin Hf.
        - destruct Hin as [->|[]]. reflexivity.
        - cbn [fold_left]. inversion_clear Hf as [|? ? H1 H2]. inversion_clear H2 as [|? ? H2' H3]. apply IH.
          + destruct Hin as [->|[->|Hin]]; [left; lia|left; lia|now right].
          + constructor; [lia|auto]. }
      now apply G. }
    rewrite Hz, Z.leb_refl, Z.eqb_refl. cbn [negb].
    replace (M + N =? 0)%nat with false by (symmetry; apply Nat.eqb_neq; lia).
    rewrite (@in_mro sr Ha "zero") by auto. destruct ls as [|x l]; [destruct Hin|]. now rewrite Hu, C43_no_one_. }
  destruct q as [| | | | | | | | | | | |[e|]|[|[|n] [|? ?]]]; cbn [align_query]; rewrite ?Hp; try contradiction; try (now apply H).
  - unfold on. destruct (C43_local_lost d KCross) as (s & -> & _ & _ & _ & E2). unfold align_logpartition. now rewrite E2.
  - unfold on. destruct (C43_local_lost d KKL) as (s & -> & _ & _ & _ & E2). unfold align_logpartition. now rewrite E2.
Qed.
(** an instance: batch of two, lengths 2 and 3 *)
Example C43_example : align_query (AlignCrf (PTensor [2; 3; 5; 3]%nat true) true (Some [2; 3]%Z) (VInt 2)) QPartition (Beyond None (Ok [])) = Err AttributeError.
Proof.
  apply (@C43_attribute _ _ 2 3 5 true [2; 3]%Z); try reflexivity; try lia.
  - right. now left.
  - repeat constructor; lia.
Qed.

(** ** C48. Every attribute the other algorithms read is there, for every class
    but the abstract one, and is not the [sum] that only raises
    NotImplementedError (semirings.py:75-78) *)
Fixpoint usable (c : sclass) : bool :=
  match c with KSemiring | KBase => false | KCheck c' | KShard c' => usable c' | _ => true end.
(** spec: the class has the attribute, and not only the abstract [sum] *)
Definition provides (c : sclass) (a : string) : Prop :=
  exists c', resolve c a = Some c' /\ ~ (a = "sum" /\ c' = KSemiring).
Theorem C48_attributes a c : usable c = true -> Forall (provides c) (reads a).
Proof.
  intro Hu.
  assert (G : Forall (provides c) ["size"; "zero"; "unconvert"; "prod"; "convert"; "fill"; "one"; "matmul"; "sum"; "times"; "mul"; "dot"]).
  { induction c; try discriminate;
      try (repeat constructor; eexists; (split; [reflexivity|]); intros [H1 H2]; discriminate);
      cbn [usable] in Hu; specialize (IHc Hu); rewrite Forall_forall in IHc |- *; intros x Hx; specialize (IHc x Hx); destruct IHc as (c' & H1 & H2);
      unfold provides, resolve; cbn [mro find]; unfold has at 1; cbn [own existsb];
      (destruct (String.eqb_spec x "matmul") as [->|Hne]; [eexists; split; [reflexivity|]; intros [K _]; discriminate|]); exists c'; auto. }
  rewrite Forall_forall in G |- *. intros x Hx. apply G. destruct a; cbn in Hx |- *; tauto.
Qed.
(** and [mul], [zero] and [prod] are missing from the abstract class *)
Theorem C48_abstract a : ~ Forall (provides KSemiring) (reads a).
Proof.
  intro H. rewrite Forall_forall in H. destruct (H "zero") as (c & Hc & _); [destruct a; cbn; tauto|]. discriminate.
Qed.
Print Assumptions C48_attributes.

(** Which code runs: every class except LogSemiring reduces with its own [sum]
    (LogSemiring with the logsumexp of its base), a wrapped class reduces like the
    class it wraps, and only the wrappers and the classes with a specialised
    product replace the generic [matmul]. *)
Fixpoint sum_home (c : sclass) : sclass :=
  match c with
  | KLog => KBaseLog
  | KBase => KSemiring
  | KCheck c' | KShard c' => sum_home c'
  | _ => c
  end.
(** spec: the class whose [matmul] is used *)
Definition matmul_home (c : sclass) : sclass :=
  match c with
  | KStd | KLog | KMax | KFastLog | KFastMax | KFastSample | KCheck _ | KShard _ => c
  | _ => KSemiring
  end.
Theorem C48_methods c : resolve c "sum" = Some (sum_home c) /\ resolve c "matmul" = Some (matmul_home c) /\
  (forall c', c = KCheck c' \/ c = KShard c' -> forall a, a <> "matmul" -> resolve c a = resolve c' a).
Proof.
  split; [|split].
  - induction c; try reflexivity; unfold resolve in *; cbn [mro find sum_home]; exact IHc.
  - destruct c; reflexivity.
  - intros c' [-> | ->] a Ha; unfold resolve; cbn [mro find]; unfold has at 1; cbn [own existsb];
      apply String.eqb_neq in Ha; rewrite Ha; reflexivity.
Qed.
Print Assumptions C48_methods.
