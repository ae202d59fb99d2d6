(** * Sym: what two models with corresponding structures have in common.

    [iso S1 S2 f g sg]: [f] and [g] are inverse bijections between the structures of
    two specifications, and renaming the parts of a structure by [sg] gives the parts
    of its image. [transports] lists what this means for a user who evaluates both
    models, the first on the renamed potentials. *)
From Verif Require Import Base Ops Terms Semirings Poly Chain LinearChain SemiMarkov CkyCrf Cky DepSpec DepTree
  Batch Family Approx Grad Sample Dist Purity Degree Shape Api Query P_Real P_Oracle.
Set Implicit Arguments.
Local Open Scope R_scope.

(** spec: two models whose structures correspond, part by part *)
Record iso (S1 S2 : spec) (f : st S1 -> st S2) (g : st S2 -> st S1) (sg : list nat -> list nat) : Prop := Iso {
  iso_f : forall s, ok S1 s -> ok S2 (f s);
  iso_g : forall s, ok S2 s -> ok S1 (g s);
  iso_gf : forall s, ok S1 s -> g (f s) = s;
  iso_fg : forall s, ok S2 s -> f (g s) = s;
  iso_parts : forall s, ok S1 s -> Permutation (map sg (prt S1 s)) (prt S2 (f s)) }.

Arguments iso_f {S1 S2 f g sg} i {s} _.
Arguments iso_g {S1 S2 f g sg} i {s} _.
Arguments iso_gf {S1 S2 f g sg} i {s} _.
Arguments iso_fg {S1 S2 f g sg} i {s} _.
Arguments iso_parts {S1 S2 f g sg} i {s} _.
(** no other part of a structure is renamed like [e] *)
Definition inj_at (S : spec) (sg : list nat -> list nat) (e : list nat) : Prop :=
  forall s e', ok S s -> In e' (prt S s) -> sg e' = sg e -> e' = e.

(** row b1 of c1 on the potentials [pot o sg] and row b2 of c2 on [pot] *)
Record transports (c1 : call) (b1 : nat) (c2 : call) (b2 : nat) (sg : list nat -> list nat) : Prop := Transports {
  (** every semiring *)
  tr_semiring : forall (S : csr) (pot : list nat -> S) d v1 v2, run c1 (csr_ops S) (fun e => pot (sg e)) = Ok v1 -> run c2 (csr_ops S) pot = Ok v2 ->
    nth b1 v1 d = nth b2 v2 d;
  (** partition *)
  tr_partition : forall phi B v1 v2, (forall e, Rabs (phi e) <= B) -> q_partition c1 (fun e => phi (sg e)) = Ok v1 -> q_partition c2 phi = Ok v2 ->
    - leak c2 b2 B <= nth b1 v1 0 - nth b2 v2 0 <= leak c1 b1 B;
  (** max *)
  tr_max : forall phi v1 v2, small c1 b1 (fun e => phi (sg e)) -> small c2 b2 phi -> q_max c1 (fun e => phi (sg e)) = Ok v1 -> q_max c2 phi = Ok v2 ->
    nth b1 v1 0 = nth b2 v2 0;
  (** entropy *)
  tr_entropy : forall phi B v1 v2, (forall e, Rabs (phi e) <= B) -> q_entropy c1 (fun e => phi (sg e)) = Ok v1 -> q_entropy c2 phi = Ok v2 ->
    Rabs (nth b1 v1 0 - nth b2 v2 0) <= (1 + 2 * scale c1 B b1) * leak c1 b1 B + (1 + 2 * scale c2 B b2) * leak c2 b2 B;
  (** marginals *)
  tr_marginals : forall phi B e, (forall e, Rabs (phi e) <= B) -> row_of c1 e = b1 -> row_of c2 (sg e) = b2 -> inj_at (spec_of c1 b1) sg e ->
    Rabs (q_marginals c1 (fun e => phi (sg e)) e - q_marginals c2 phi (sg e)) <= 2 * INR (degree c1 b1) * leak c1 b1 B + 2 * INR (degree c2 b2) * leak c2 b2 B;
  (** argmax, when the best structure is unique *)
  tr_argmax : forall phi o1 o2 e, small c1 b1 (fun e => phi (sg e)) -> small c2 b2 phi ->
    (forall b, (b < batch_of c1)%nat -> argmax_ok NEG (fun e => phi (sg e)) (o1 b) [] (row_graph c1 b)) ->
    (forall b, (b < batch_of c2)%nat -> argmax_ok NEG phi (o2 b) [] (row_graph c2 b)) ->
    (forall s s', ok (spec_of c2 b2) s -> ok (spec_of c2 b2) s' ->
      (forall t, ok (spec_of c2 b2) t -> sc (prt (spec_of c2 b2)) phi t <= sc (prt (spec_of c2 b2)) phi s) ->
      (forall t, ok (spec_of c2 b2) t -> sc (prt (spec_of c2 b2)) phi t <= sc (prt (spec_of c2 b2)) phi s') -> s = s') ->
    row_of c1 e = b1 -> row_of c2 (sg e) = b2 -> inj_at (spec_of c1 b1) sg e ->
    q_argmax c1 o1 e = q_argmax c2 o2 (sg e) }.

Section Transport.
  Variables (S1 S2 : spec) (f : st S1 -> st S2) (g : st S2 -> st S1) (sg : list nat -> list nat).
  Hypothesis I : iso S1 S2 f g sg.
  Lemma iso_enum l : Enumerates (ok S1) l -> Enumerates (ok S2) (map f l).
  Proof.
    intros [N H]. split.
    - apply NoDup_map_inj; [|exact N]. intros x y Hx Hy E. apply H in Hx, Hy. rewrite <- (iso_gf I Hx), <- (iso_gf I Hy). now rewrite E.
    - intro s. rewrite in_map_iff. split.
      + intros (x & <- & Hx). apply (iso_f I). now apply H.
      + intro Hs. exists (g s). split; [now apply (iso_fg I)|]. apply H. now apply (iso_g I).
  Qed.
  Lemma iso_prod (S : csr) (pot : list nat -> S) s : ok S1 s -> Prod S (fun e => pot (sg e)) (prt S1 s) = Prod S pot (prt S2 (f s)).
  Proof. intro Hs. rewrite <- (Prod_perm S pot (iso_parts I Hs)). symmetry. apply (Prod_map S). Qed.
  Lemma iso_sc phi s : ok S1 s -> sc (prt S1) (fun e => phi (sg e)) s = sc (prt S2) phi (f s).
  Proof. intro Hs. unfold sc. rewrite <- (Sum_perm R_csr phi (iso_parts I Hs)). symmetry. apply (Sum_map R_csr). Qed.
  Lemma iso_ZS phi l : Enumerates (ok S1) l -> ZS (prt S1) l (fun e => phi (sg e)) = ZS (prt S2) (map f l) phi.
  Proof. intros [_ H]. unfold ZS. rewrite (Sum_map R_csr). apply (Sum_ext_in R_csr). intros s Hs. f_equal. apply iso_sc. now apply H. Qed.
  Lemma iso_prob phi l s : Enumerates (ok S1) l -> ok S1 s -> prob (prt S1) l (fun e => phi (sg e)) s = prob (prt S2) (map f l) phi (f s).
  Proof. intros H Hs. unfold prob. now rewrite (iso_ZS _ H), (@iso_sc _ _ Hs). Qed.
  Lemma iso_entropy phi l : Enumerates (ok S1) l -> entropy_spec (prt S1) l (fun e => phi (sg e)) = entropy_spec (prt S2) (map f l) phi.
  Proof.
    intros H. unfold entropy_spec. f_equal. rewrite (Sum_map R_csr). apply (Sum_ext_in R_csr). intros s Hs. apply H in Hs. now rewrite (@iso_prob _ _ _ H Hs).
  Qed.
  Lemma count_map_inj (l : list (list nat)) e : (forall e', In e' l -> sg e' = sg e -> e' = e) ->
    count_occ (list_eq_dec Nat.eq_dec) (map sg l) (sg e) = count_occ (list_eq_dec Nat.eq_dec) l e.
  Proof.
    induction l as [|x l IH]; intro H; [reflexivity|]. cbn [map count_occ]. rewrite IH by (intros; apply H; [right|]; auto).
    destruct (list_eq_dec Nat.eq_dec x e) as [E0|N]; destruct (list_eq_dec Nat.eq_dec (sg x) (sg e)) as [E|N']; [congruence|congruence| |congruence].
    exfalso. apply N. apply H; [left; reflexivity|exact E].
  Qed.
  Lemma iso_uses e s : inj_at S1 sg e -> ok S1 s -> uses (prt S1) e s = uses (prt S2) (sg e) (f s).
  Proof.
    intros J Hs. unfold uses. f_equal. transitivity (count_occ (list_eq_dec Nat.eq_dec) (map sg (prt S1 s)) (sg e)).
    2:{ apply (proj1 (Permutation_count_occ (list_eq_dec Nat.eq_dec) _ _) (iso_parts I Hs)). }
    symmetry. apply count_map_inj. intros e' He'. now apply (J s).
  Qed.
  Lemma iso_marg phi l e : Enumerates (ok S1) l -> inj_at S1 sg e ->
    marg_spec (prt S1) l (fun e => phi (sg e)) e = marg_spec (prt S2) (map f l) phi (sg e).
  Proof.
    intros H J. unfold marg_spec. rewrite (Sum_map R_csr). apply (Sum_ext_in R_csr). intros s Hs. apply H in Hs.
    now rewrite (@iso_prob _ _ _ H Hs), (@iso_uses _ _ J Hs).
  Qed.
End Transport.

Lemma row_enum c b : valid c -> row_ok c b -> exists l, Enumerates (ok (spec_of c b)) l.
Proof. intros V Hb. destruct (row_family V Hb) as (F & HF). rewrite <- (ir_spec HF). exists (flist F). apply (fenum F). Qed.

Theorem iso_transports c1 b1 c2 b2 f g sg : valid c1 -> valid c2 -> row_ok c1 b1 -> row_ok c2 b2 ->
  iso (spec_of c1 b1) (spec_of c2 b2) f g sg -> transports c1 b1 c2 b2 sg.
Proof.
  intros V1 V2 R1 R2 I. destruct (row_enum V1 R1) as (l & Hl). pose proof (iso_enum I Hl) as Hl2. split.
  - intros S pot d v1 v2 E1 E2. rewrite (@run_sum c1 b1 S _ d v1 l V1 R1 E1 Hl), (@run_sum c2 b2 S pot d v2 _ V2 R2 E2 Hl2), (Sum_map S).
    apply Sum_ext_in. intros s Hs. apply (iso_prod I). now apply Hl.
  - intros phi B v1 v2 HB E1 E2. assert (HB0 : 0 <= B) by (eapply Rle_trans; [apply Rabs_pos|apply (HB [])]).
    destruct (@C20_partition_value c1 (fun e => phi (sg e)) B V1 HB0) as (w1 & F1 & _ & G1); [right; intro; apply HB|].
    destruct (@C20_partition_value c2 phi B V2 HB0) as (w2 & F2 & _ & G2); [right; apply HB|].
    rewrite E1 in F1. injection F1 as <-. rewrite E2 in F2. injection F2 as <-.
    specialize (G1 b1 l R1 Hl). specialize (G2 b2 _ R2 Hl2). rewrite (iso_ZS I _ Hl) in G1. lra.
  - intros phi v1 v2 M1 M2 E1 E2.
    destruct (@C14_max_is_best c1 (fun e => phi (sg e)) V1) as (w1 & F1 & _ & G1). destruct (@C14_max_is_best c2 phi V2) as (w2 & F2 & _ & G2).
    rewrite E1 in F1. injection F1 as <-. rewrite E2 in F2. injection F2 as <-.
    destruct (G1 b1 R1 M1) as ((s1 & H1 & A1) & U1). destruct (G2 b2 R2 M2) as ((s2 & H2 & A2) & U2). apply Rle_antisym.
    + rewrite A1, (iso_sc I phi _ H1). apply U2. now apply (iso_f I).
    + rewrite A2, <- (iso_fg I H2), <- (iso_sc I phi _ (iso_g I H2)). apply U1. now apply (iso_g I).
  - intros phi B v1 v2 HB E1 E2. assert (HB0 : 0 <= B) by (eapply Rle_trans; [apply Rabs_pos|apply (HB [])]).
    destruct (@C17_entropy_value c1 (fun e => phi (sg e)) B V1 HB0) as (w1 & F1 & _ & G1); [right; intro; apply HB|].
    destruct (@C17_entropy_value c2 phi B V2 HB0) as (w2 & F2 & _ & G2); [right; apply HB|].
    rewrite E1 in F1. injection F1 as <-. rewrite E2 in F2. injection F2 as <-.
    specialize (G1 b1 l R1 Hl). specialize (G2 b2 _ R2 Hl2). rewrite (iso_entropy I _ Hl) in G1.
    eapply Rle_trans; [|apply Rplus_le_compat; [exact G1|exact G2]]. rewrite (Rabs_minus_sym (nth b2 v2 0)). eapply Rle_trans; [|apply Rabs_triang].
    right. f_equal. ring.
  - intros phi B e HB Q1 Q2 J. assert (HB0 : 0 <= B) by (eapply Rle_trans; [apply Rabs_pos|apply (HB [])]).
    pose proof (@C20_marginals_value c1 (fun e => phi (sg e)) B V1 HB0 (or_intror (fun e => HB (sg e))) b1 l e R1 Q1 Hl) as G1.
    pose proof (@C20_marginals_value c2 phi B V2 HB0 (or_intror HB) b2 _ (sg e) R2 Q2 Hl2) as G2.
    rewrite (iso_marg I _ Hl J) in G1. eapply Rle_trans; [|apply Rplus_le_compat; [exact G1|exact G2]].
    rewrite (Rabs_minus_sym (q_marginals c2 phi (sg e))). eapply Rle_trans; [|apply Rabs_triang]. right. f_equal. ring.
  - intros phi o1 o2 e M1 M2 A1 A2 U Q1 Q2 J.
    destruct (@C15_argmax_is_optimal c1 _ o1 V1 A1 b1 R1 M1) as (s1 & H1 & T1 & P1 & _).
    destruct (@C15_argmax_is_optimal c2 _ o2 V2 A2 b2 R2 M2) as (s2 & H2 & T2 & P2 & _).
    rewrite (P1 e Q1), (P2 (sg e) Q2), (@iso_uses _ _ f g sg I e s1 J H1). f_equal. apply U; [now apply (iso_f I)|exact H2| |exact T2].
    intros t Ht. rewrite <- (iso_fg I Ht), <- (iso_sc I phi _ (iso_g I Ht)), <- (iso_sc I phi _ H1). apply T1. now apply (iso_g I).
Qed.
