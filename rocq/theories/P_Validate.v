(** * P_Validate: which arguments [validate_args=True] lets through (C73) *)
From Coq Require Import List ZArith Reals Bool Lia.
From Verif Require Import Base Ops LinearChain Api Validate.
Import ListNotations.
Local Open Scope Z_scope.

Lemma forallb_id_map A (f : A -> bool) x : forallb (fun b => b) (map f x) = true <-> forall y, In y x -> f y = true.
Proof.
  rewrite forallb_forall. split.
  - intros H y Hy. apply H, in_map, Hy.
  - intros H b Hb. apply in_map_iff in Hb as (y & <- & Hy). auto.
Qed.
Lemma real_mask x : forallb (fun b => b) (map (fun o : option R => match o with Some _ => true | None => false end) x) = true <-> no_nan x.
Proof.
  rewrite forallb_id_map. split; intros H o Ho; specialize (H o Ho); destruct o; eauto; try discriminate.
  destruct H; discriminate.
Qed.
Lemma nonneg_mask x : forallb (fun b => b) (map (fun z => 0 <=? z) x) = true <-> nonneg x.
Proof. rewrite forallb_id_map. split; intros H z Hz; specialize (H z Hz); lia. Qed.

(** Without the flag every constructor returns, whatever the values, and keeps its arguments. *)
Theorem C73_default k mr a attr : exists attr', construct k false mr a attr = (Ok a, attr').
Proof. unfold construct. eauto. Qed.
Print Assumptions C73_default.

(** With the flag: chain, semi-Markov, tree, HMM and dependency distributions. *)
Theorem C73_tensor_classes k mr x len loc gap attr : k = KBase \/ k = KDep ->
  let a := Args (PTensor x) len loc gap in
  (* accepted exactly when there is no NaN and lengths are given and not negative *)
  (fst (construct k true mr a attr) = Ok a <-> no_nan x /\ exists l, len = Some l /\ nonneg l) /\
  (* a NaN is reported first *)
  (~ no_nan x -> fst (construct k true mr a attr) = Err ValueError) /\
  (* lengths left out *)
  (no_nan x -> len = None -> fst (construct k true mr a attr) = Err TypeError) /\
  (* a negative length *)
  (forall l, no_nan x -> len = Some l -> ~ nonneg l -> fst (construct k true mr a attr) = Err ValueError).
Proof.
  intros Hk a. assert (Hc : constraints k = [(FPot, CReal); (FLengths, CNonnegInt)]) by (destruct Hk; subst; reflexivity).
  pose proof (real_mask x) as HR. set (m := map (fun o : option R => match o with Some _ => true | None => false end) x) in *.
  assert (E : fst (construct k true mr a attr) =
    match validate (getter a) [(FPot, CReal); (FLengths, CNonnegInt)] with Ok _ => Ok a | Err e => Err e end).
  { unfold construct. rewrite Hc. destruct (validate _ _); reflexivity. }
  rewrite E. cbn [validate getter a a_pot a_lengths check]. fold m.
  destruct (forallb (fun b => b) m) eqn:Hm.
  - assert (N : no_nan x) by now apply HR. split; [|split; [|split]].
    + split.
      * intro H. split; [exact N|]. destruct len as [y|]; cbn [check] in H; [|discriminate].
        exists y. split; [reflexivity|]. apply nonneg_mask. destruct (forallb (fun b => b) (map (fun z => 0 <=? z) y)); [reflexivity|discriminate].
      * intros (_ & l & -> & Hl). cbn [check]. apply nonneg_mask in Hl. now rewrite Hl.
    + tauto.
    + intros _ ->. reflexivity.
    + intros l _ -> Hl. cbn [check]. destruct (forallb (fun b => b) (map (fun z => 0 <=? z) l)) eqn:F; [|reflexivity].
      apply nonneg_mask in F. tauto.
  - assert (N : ~ no_nan x) by (intro N; apply HR in N; congruence). repeat split; try tauto; try discriminate; intros; tauto.
Qed.
Print Assumptions C73_tensor_classes.

(** SentCFG (a tuple of tensors has no [.all()]) and AlignmentCRF ([local] is a Python bool) cannot be
    built with the flag, whatever the arguments. *)
Theorem C73_never mr attr a : 
  (forall x, a_pot a = PTuple x -> construct KCfg true mr a attr = (Err AttributeError, attr)) /\
  (forall x, a_pot a = PTensor x -> exists e, construct KAlign true mr a attr = (Err e, attr)).
Proof.
  destruct a as [p len loc gap]. cbn [a_pot]. split; intros x ->; unfold construct; cbn; [reflexivity|].
  destruct (forallb _ _); eauto.
Qed.
Print Assumptions C73_never.

(** NonProjectiveDependencyCRF does not look at its lengths. *)
Theorem C73_nonprojective mr x len loc gap attr : let a := Args (PTensor x) len loc gap in
  fst (construct KNonProj true mr a attr) = Ok a <-> no_nan x.
Proof.
  cbv zeta. unfold construct. cbn. rewrite <- real_mask. destruct (forallb _ _); cbn; split; auto; discriminate.
Qed.
Print Assumptions C73_nonprojective.

(** The flag decides only whether the constructor returns: an accepted object has the same fields, and leaves the same
    class attribute, as without it. A refused DependencyCRF leaves the attribute alone, an unvalidated one sets it. *)
Theorem C73_no_effect k mr a attr :
  (fst (construct k true mr a attr) = Ok a -> construct k true mr a attr = construct k false mr a attr) /\
  (forall e, fst (construct k true mr a attr) = Err e -> snd (construct k true mr a attr) = attr) /\
  snd (construct KDep false mr a attr) = mr.
Proof.
  unfold construct. destruct (validate _ _) as [[]|e]; cbn; repeat split; try discriminate; auto.
Qed.
Print Assumptions C73_no_effect.

(** That an accepted call is one the dynamic program handles is false: lengths are not compared with the width of the potentials. *)
Theorem C73_too_long_refuted : exists x l, let a := Args (PTensor x) (Some l) false None in
  length x = (1 * (3 - 1) * 2 * 2)%nat /\ fst (construct KBase true false a true) = Ok a /\ ~ valid (CLin 1 3 2 (Some (to_nats l))).
Proof.
  exists (repeat (Some 0%R) 8), [4]. cbv zeta. split; [reflexivity|]. split.
  - apply C73_tensor_classes; [now left|]. split.
    + intros o Ho. apply repeat_spec in Ho. eauto.
    + exists [4]. split; [reflexivity|]. intros z [<-|[]]. lia.
  - intros (_ & _ & _ & _ & H). vm_compute in H. discriminate.
Qed.
Print Assumptions C73_too_long_refuted.

(** the hypotheses are met, on both sides *)
Example validate_hypotheses :
  no_nan [Some 0%R; Some 1%R] /\ ~ no_nan [Some 0%R; None] /\ nonneg [2; 0] /\ ~ nonneg [2; -1] /\
  fst (construct KDep true false (Args (PTensor [Some 0%R; None]) None false None) true) = Err ValueError.
Proof.
  assert (N : ~ no_nan [Some 0%R; None]) by (intro H; destruct (H None) as [r E]; [cbn; tauto|discriminate]).
  split; [intros o [<-|[<-|[]]]; eauto|]. split; [exact N|]. split; [intros z [<-|[<-|[]]]; lia|]. split.
  - intro H. specialize (H (-1)). cbn in H. lia.
  - reflexivity.
Qed.
