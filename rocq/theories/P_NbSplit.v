(** * P_NbSplit: C74, the split points computed in notebooks/Unsupervised_CFG.ipynb *)
From Coq Require Import ZArith.
From Verif Require Import Base Ops Chain LinearChain SemiMarkov CkyCrf Cky DepSpec DepTree Tensor Codec CkyCodec NbSplit.
Set Implicit Arguments.

(** the rows of the chart are the spans of the parse trees ps *)
Definition charts (NT : nat) (spans : tensor Z) (batch : nat) (ps : nat -> ptree) : Prop :=
  (exists N Sy, shape spans = [batch; N; N; Sy]) /\ forall b, (b < batch)%nat -> chart_row NT spans b (ps b).

(** [split] returns one dictionary per sentence; its keys are the constituents of two words or
    more, and the value at (i, j) is the end of the widest constituent that starts at i *)
Theorem C74_value NT spans batch ps : charts NT spans batch ps ->
  exists out, nb_split spans = Ok out /\ length out = batch /\ forall b, (b < batch)%nat ->
    let d := nth b out (fun _ _ => None) in
    (forall i x l r, occurs (ps b) 0 i (PN x l r) -> exists w, d i (i + (psize l + psize r) - 1)%nat = Some w /\ widest NT (ps b) i w) /\
    (forall i j, d i j <> None <-> (i < j)%nat /\ exists A, In [i; j; A] (pspans NT 0 (ps b))).
Proof.
  intros [(N & Sy & Hsh) Hc]. destruct (@nb_batch false spans NT batch N Sy ps Hsh Hc) as (out & E & L & H). exists out. split; [exact E|]. split; [exact L|].
  intros b Hb. cbv zeta. destruct (H b Hb) as [G K]. split.
  - intros i x l r Ho. apply (G i x l r x Ho). apply (Hc b Hb). eapply occurs_spans; [exact Ho|]. left. reflexivity.
  - intros i j. split.
    + destruct (nth b out _ i j) as [k|] eqn:Ek; [|congruence]. intros _. destruct (K _ _ _ Ek) as (H1 & A & H2). split; auto. exists A. now apply (Hc b Hb).
    + intros (Hlt & A & HA). destruct (@wide_node NT (ps b) 0 0 (ps b) (occ_here _ 0) i j A HA Hlt) as (x & l & r & Ho & -> & ->).
      destruct (G i x l r x Ho) as (k & -> & _); [now apply (Hc b Hb)|discriminate].
Qed.
Print Assumptions C74_value.

(** so no entry is ever the split point of its constituent: the value is at least j, the split
    point is below j; and the entry of the whole sentence is its last word *)
Theorem C74_split_refuted NT spans batch ps : charts NT spans batch ps ->
  exists out, nb_split spans = Ok out /\ forall b, (b < batch)%nat -> let d := nth b out (fun _ _ => None) in
    (forall i x l r, occurs (ps b) 0 i (PN x l r) ->
      exists w, d i (i + (psize l + psize r) - 1)%nat = Some w /\ (i + (psize l + psize r) - 1 <= w)%nat /\ (i + psize l - 1 < w)%nat) /\
    forall x l r, ps b = PN x l r -> d 0%nat (psize (ps b) - 1)%nat = Some (psize (ps b) - 1)%nat.
Proof.
  intro H. destruct (C74_value H) as (out & E & _ & Hv). exists out. split; [exact E|]. intros b Hb. destruct (Hv b Hb) as [Hv' _]. cbv zeta in *. split.
  - intros i x l r Ho. destruct (Hv' i x l r Ho) as (w & Ew & [_ Hw]). exists w. split; [exact Ew|].
    pose proof (psize_pos l). pose proof (psize_pos r).
    assert (i + (psize l + psize r) - 1 <= w)%nat; [|lia]. apply (Hw _ x). eapply occurs_spans; [exact Ho|]. left. reflexivity.
  - intros x l r Ep. assert (Ho : occurs (ps b) 0 0 (PN x l r)) by (rewrite <- Ep; apply occ_here).
    destruct (Hv' 0%nat x l r Ho) as (w & Ew & [(A & Hin) Hw]). rewrite Ep at 1. cbn [psize]. cbn [Nat.add] in Ew. rewrite Ew. f_equal.
    pose proof (pspans_in _ _ _ _ Hin) as (? & ? & ? & [= <- <- <-] & ?).
    specialize (Hw _ _ (pspans_top NT (ps b) 0)). lia.
Qed.
Print Assumptions C74_split_refuted.

(** storing [k_final], which the loop computes and nothing reads, would be right *)
Theorem C74_k_final NT spans batch ps : charts NT spans batch ps ->
  exists out, nb_split_with true spans = Ok out /\ length out = batch /\ forall b, (b < batch)%nat ->
    forall i x l r, occurs (ps b) 0 i (PN x l r) ->
      nth b out (fun _ _ => None) i (i + (psize l + psize r) - 1)%nat = Some (i + psize l - 1)%nat.
Proof.
  intros [(N & Sy & Hsh) Hc]. destruct (@nb_batch true spans NT batch N Sy ps Hsh Hc) as (out & E & L & H). exists out. split; [exact E|]. split; [exact L|].
  intros b Hb i x l r Ho. destruct (H b Hb) as [G _]. destruct (G i x l r x Ho) as (k & -> & ->); [|reflexivity].
  apply (Hc b Hb). eapply occurs_spans; [exact Ho|]. left. reflexivity.
Qed.
Print Assumptions C74_k_final.

(** two sentences of three words, branching left and right *)
Definition nb_trees (b : nat) : ptree := if (b =? 0)%nat then PN 0 (PN 1 (PT 0) (PT 1)) (PT 0) else PN 1 (PT 1) (PN 0 (PT 0) (PT 0)).
(** example: a chart *)
Definition nb_spans : tensor Z := {| shape := [2; 3; 3; 4]%nat;
  dat := fun e => match e with b :: e' => if in_dec (list_eq_dec Nat.eq_dec) e' (pspans 2 0 (nb_trees b)) then 1%Z else 0%Z | [] => 0%Z end |}.
Example nb_hypotheses : charts 2 nb_spans 2 nb_trees /\
  exists d d', nb_split nb_spans = Ok [d; d'] /\ d 0%nat 2%nat = Some 2%nat /\ d 0%nat 1%nat = Some 2%nat /\ d' 1%nat 2%nat = Some 2%nat /\ d 1%nat 2%nat = None.
Proof.
  split.
  - split; [exists 3%nat, 4%nat; reflexivity|]. intros [|[|b]] Hb; [| |lia].
    + intro e. replace (nonzero (row_tensor nb_spans 0)) with [[0; 0; 2]; [0; 1; 1]; [0; 2; 0]; [1; 1; 3]; [2; 2; 2]]%nat by (vm_compute; reflexivity). cbn. tauto.
    + intro e. replace (nonzero (row_tensor nb_spans 1)) with [[0; 0; 3]; [0; 2; 1]; [1; 1; 2]; [1; 2; 0]; [2; 2; 2]]%nat by (vm_compute; reflexivity). cbn. tauto.
  - eexists. eexists. split; [vm_compute; reflexivity|]. repeat split; vm_compute; reflexivity.
Qed.
