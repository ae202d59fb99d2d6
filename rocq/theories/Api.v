(** * Api: one description of the supported calls.

    A [call] fixes the structured-distribution class and the shape arguments;
    the potentials and the semiring are given separately. Everything below the
    definitions of [run], [spec_of] and the queries is glue between the model
    files. *)
From Verif Require Import Base Ops Terms Semirings Poly Chain LinearChain SemiMarkov CkyCrf Cky DepSpec DepTree
  Batch Family Approx Grad Sample Dist Purity Degree Shape.
Set Implicit Arguments.

(** distributions.py: LinearChainCRF 247-277, SemiMarkovCRF 344-364, TreeCRF
    399-422, SentCFG 425-456, DependencyCRF 367-396 ([multiroot] is a class-level
    switch there; [labels] is None for 3-dimensional potentials). *)
Inductive call :=
| CLin (batch N C : nat) (lengths : option (list nat))
| CSemi (batch N K C : nat) (lengths : option (list nat))
| CTree (batch N NT : nat) (lengths : option (list nat))
| CCfg (batch N NT T : nat) (lengths : option (list nat))
| CDep (multiroot : bool) (batch n : nat) (labels : option nat) (lengths : option (list nat)).

(** distributions.py:45-51: the first entry of [batch_shape] *)
Definition batch_of (c : call) : nat :=
  match c with
  | CLin b _ _ _ | CSemi b _ _ _ _ | CTree b _ _ _ | CCfg b _ _ _ _ | CDep _ b _ _ _ => b
  end.
(** length given for row b *)
Definition len_of (c : call) (b : nat) : nat :=
  match c with
  | CLin _ N _ ls | CSemi _ N _ _ ls | CTree _ N _ ls | CCfg _ N _ _ ls | CDep _ _ N _ ls => lc_len N ls b
  end.
(** a tensor given by its shape and entries *)
Definition tens {A} (sh : list nat) (p : list nat -> A) : tensor A := {| shape := sh; dat := p |}.

(** [self._struct(semiring).sum(log_potentials, lengths, _raw=True)], helpers.py:66-81,
    on converted potentials. The three tensors of a CFG are addressed as in Cky.v. *)
Definition run (c : call) (O : ops) (p : list nat -> car O) : res (list (car O)) :=
  match c with
  | CLin batch N C ls => lc_logpartition O (tens [batch; N - 1; C; C] p) ls
  | CSemi batch N K C ls => sm_logpartition O (tens [batch; N - 1; K; C; C] p) ls
  | CTree batch N NT ls => ck_logpartition O (tens [batch; N; N; NT] p) ls
  | CCfg batch N NT T ls =>
      cy_logpartition O (tens [batch; N; T] (fun e => p (0 :: e)))
        (tens [batch; NT; NT + T; NT + T] (fun e => p (1 :: e))) (tens [batch; NT] (fun e => p (2 :: e))) ls
  | CDep mr batch n lab ls =>
      dp_logpartition O mr (szero O)
        (tens (match lab with None => [batch; n; n] | Some L => [batch; n; n; L] end) p) ls
  end.

(** arguments accepted by the code *)
Definition valid (c : call) : Prop :=
  match c with
  | CLin batch N C ls => lc_args batch N C ls
  | CSemi batch N K C ls => sm_args batch N K C ls
  | CTree batch N NT ls => ck_args batch N NT ls
  | CCfg batch N NT T ls => cy_args batch N NT T ls
  | CDep mr batch n lab ls => dp_args mr batch n ls /\ lab <> Some 0
  end.
(** rows that have at least one structure: a CFG sentence needs two words, a
    single-root dependency tree one word *)
Definition row_ok (c : call) (b : nat) : Prop :=
  b < batch_of c /\
  match c with
  | CCfg _ N _ _ ls => 2 <= eff_len N (lc_len N ls b)
  | CDep false _ n _ ls => 1 <= lc_len n ls b
  | _ => True
  end.

(** ** Specification: what the structures of row b are and which potentials they use *)
Record spec := Spec { st : Type; ok : st -> Prop; prt : st -> list (list nat) }.
(** spec: the structures of row b for each class *)
Definition spec_of (c : call) (b : nat) : spec :=
  match c with
  | CLin _ N C ls => Spec (is_seq C (Nat.max 1 (lc_len N ls b))) (seq_parts b)
  | CSemi _ N K C ls => Spec (is_segm K C (lc_len N ls b)) (segm_parts b)
  | CTree _ N NT ls => Spec (is_ltree NT (eff_len N (lc_len N ls b))) (lparts b 0)
  | CCfg _ N NT T ls => Spec (is_parse NT T (eff_len N (lc_len N ls b))) (parse_parts NT b)
  | CDep mr _ n None ls => Spec (dep_ok mr (lc_len n ls b)) (dep_parts b)
  | CDep mr _ n (Some L) ls => Spec (ldep_ok mr (lc_len n ls b) L) (ldep_parts b)
  end.
(** the batch row that an index belongs to *)
Definition row_of (c : call) (e : list nat) : nat :=
  match c with CCfg _ _ _ _ _ => nth 1 e 0 | _ => nth 0 e 0 end.

(** graphs without the finite zero *)
Definition zero_free (c : call) : bool :=
  match c with CTree _ _ _ _ | CDep _ _ _ _ _ => true | _ => false end.
(** most factors in one derivation; bound on the number of derivations *)
Definition degree (c : call) (b : nat) : nat :=
  match c with
  | CLin _ N _ _ | CSemi _ N _ _ _ => 2 ^ Nat.log2_up (N - 1)
  | CCfg _ N _ _ ls => 2 * eff_len N (lc_len N ls b)
  | _ => 0
  end.
(** proof device: bound on the number of derivations of the graph of row b *)
Definition nderiv (c : call) (b : nat) : nat :=
  match c with
  | CLin _ N C _ => C * (C * scan_num C (Nat.log2_up (N - 1)) 2)
  | CSemi _ N K C _ => C * (C * scan_num ((K - 1) * C) (Nat.log2_up (N - 1)) 2)
  | CCfg _ N NT T ls => NT * cnum ((NT + T) * (NT + T)) (eff_len N (lc_len N ls b) - 1)
  | _ => 0
  end.

(** ** Computation graphs *)
Definition graphs (c : call) : list term :=
  match run c tops TLeaf with Ok ts => ts | Err _ => [] end.
(** the graph recorded for row b (helpers.py:83-116 differentiates it) *)
Definition row_graph (c : call) (b : nat) : term := nth b (graphs c) TZero.

(** ** Glue *)
Definition fspec (F : family) : spec := Spec (fok F) (fparts F).

(** glue: a family of structures is the one meant by row b of a call *)
Record is_row (c : call) (b : nat) (F : family) : Prop := IsRow {
  ir_spec : fspec F = spec_of c b;
  ir_nonempty : flist F <> [];
  ir_pure : zero_free c = true -> fpure F;
  ir_bnd : zero_free c = false -> bnd (degree c b) (nderiv c b) (ft F);
  ir_run : forall O p d, exists v, run c O p = Ok v /\ length v = batch_of c /\ nth b v d = frun F O p
}.

Lemma run_ok c O p : valid c -> exists v, run c O p = Ok v /\ length v = batch_of c.
Proof.
  destruct c as [batch N C ls|batch N K C ls|batch N NT ls|batch N NT T ls|mr batch n lab ls]; simpl; intro V.
  - rewrite (lc_logpartition_run O (tens [batch; N - 1; C; C] p) V eq_refl).
    eexists; split; [reflexivity|now rewrite map_length, seq_length].
  - rewrite (sm_logpartition_run O (tens [batch; N - 1; K; C; C] p) V eq_refl).
    eexists; split; [reflexivity|now rewrite map_length, seq_length].
  - rewrite (ck_logpartition_run O (tens [batch; N; N; NT] p) V eq_refl).
    eexists; split; [reflexivity|now rewrite map_length, seq_length].
  - rewrite (@cy_logpartition_run O batch N NT T) by (exact V || reflexivity).
    eexists; split; [reflexivity|now rewrite map_length, seq_length].
  - destruct V as [V _].
    rewrite (@dp_logpartition_run O mr (szero O) batch n lab) by (exact V || reflexivity).
    eexists; split; [reflexivity|now rewrite map_length, seq_length].
Qed.

Theorem row_family c b : valid c -> row_ok c b -> exists F, is_row c b F.
Proof.
  destruct c as [batch N C ls|batch N K C ls|batch N NT ls|batch N NT T ls|mr batch n lab ls];
    intros V [Hb R]; simpl in V, Hb, R.
  - exists (lc_fam V b). split; auto; try discriminate.
    + apply lc_nonempty.
    + intros _. apply lc_one_bnd. apply V.
    + intros O p d. simpl. rewrite (lc_logpartition_run O (tens [batch; N - 1; C; C] p) V eq_refl).
      eexists; split; [reflexivity|]. rewrite map_length, seq_length, nth_map_seq by auto. auto.
  - exists (sm_fam V b). split; auto; try discriminate.
    + apply sm_nonempty.
    + intros _. apply sm_one_bnd; apply V.
    + intros O p d. simpl. rewrite (sm_logpartition_run O (tens [batch; N - 1; K; C; C] p) V eq_refl).
      eexists; split; [reflexivity|]. rewrite map_length, seq_length, nth_map_seq by auto. auto.
  - exists (ck_fam V Hb). split; auto; try discriminate.
    + apply ck_nonempty.
    + intros _. apply ck_fam_pure.
    + intros O p d. simpl. rewrite (ck_logpartition_run O (tens [batch; N; N; NT] p) V eq_refl).
      eexists; split; [reflexivity|]. rewrite map_length, seq_length, nth_map_seq by auto. auto.
  - exists (cy_fam V Hb). split; auto; try discriminate.
    + now apply cy_nonempty.
    + intros _. unfold ft. cbn [frun cy_fam degree nderiv].
      pose proof V as (HN & HNT & HT & HL). rewrite (cy_one_eff tops NT T b TLeaf (lc_len N ls b) HN).
      apply cy_one_bnd; auto. lia.
    + intros O p d. simpl. rewrite (@cy_logpartition_run O batch N NT T) by (exact V || reflexivity).
      eexists; split; [reflexivity|]. rewrite map_length, seq_length, nth_map_seq by auto. auto.
  - destruct V as [V HL].
    assert (H1 : mr = false -> 1 <= lc_len n ls b) by (intros ->; exact R).
    destruct lab as [L|].
    + assert (HL' : 0 < L) by (destruct L; [congruence|lia]).
      exists (dpl_fam HL' V Hb H1). split; auto; try discriminate.
      * apply dpl_nonempty.
      * intros _. apply dpl_fam_pure.
      * intros O p d. simpl.
        rewrite (@dp_logpartition_run O mr (szero O) batch n (Some L)) by (exact V || reflexivity).
        eexists; split; [reflexivity|]. rewrite map_length, seq_length, nth_map_seq by auto. auto.
    + exists (dp_fam V Hb H1). split; auto; try discriminate.
      * apply dp_nonempty.
      * intros _. apply dp_fam_pure.
      * intros O p d. simpl.
        rewrite (@dp_logpartition_run O mr (szero O) batch n None) by (exact V || reflexivity).
        eexists; split; [reflexivity|]. rewrite map_length, seq_length, nth_map_seq by auto. auto.
Qed.

Lemma ir_graph c b F : is_row c b F -> row_graph c b = ft F.
Proof.
  intro H. unfold row_graph, graphs. destruct (ir_run H tops TLeaf TZero) as (v & -> & _ & E). exact E.
Qed.

(** every row's graph only mentions the potentials of that row *)
Theorem graph_inrow c b : valid c -> b < batch_of c -> inrow (fun e => row_of c e = b) (row_graph c b).
Proof.
  intros V Hb. unfold row_graph, graphs.
  destruct c as [batch N C ls|batch N K C ls|batch N NT ls|batch N NT T ls|mr batch n lab ls]; simpl in V, Hb |- *.
  - rewrite (lc_logpartition_run tops (tens [batch; N - 1; C; C] TLeaf) V eq_refl), nth_map_seq by auto.
    eapply inrow_weak; [|apply lin_inrow, lc_lin]. unfold at_steps. tauto.
  - rewrite (sm_logpartition_run tops (tens [batch; N - 1; K; C; C] TLeaf) V eq_refl), nth_map_seq by auto.
    eapply inrow_weak; [|apply lin_inrow, sm_lin]. unfold at_steps. tauto.
  - rewrite (ck_logpartition_run tops (tens [batch; N; N; NT] TLeaf) V eq_refl), nth_map_seq by auto.
    apply (@pure_inrow (ck_fam V Hb)); [apply ck_fam_pure|].
    intros s e _ He. simpl in He. apply lparts_in in He as (j & k & a & -> & _). reflexivity.
  - rewrite (@cy_logpartition_run tops batch N NT T) by (exact V || reflexivity). rewrite nth_map_seq by auto.
    apply (@cy_inrow NT T N b).
  - destruct V as [V HL]. 
    rewrite (@dp_logpartition_run tops mr TZero batch n lab) by (exact V || reflexivity). rewrite nth_map_seq by auto.
    cbn [dat tens].
    assert (G : (mr = false -> 1 <= lc_len n ls b) \/ mr = false /\ lc_len n ls b = 0).
    { destruct mr; [left; discriminate|]. destruct (lc_len n ls b); [right; auto|left; lia]. }
    destruct G as [H1|[-> ->]].
    + destruct lab as [L|].
      * assert (HL' : 0 < L) by (destruct L; [congruence|lia]).
        apply (@pure_inrow (dpl_fam HL' V Hb H1)); [apply dpl_fam_pure|].
        intros s e _ He. simpl in He. now apply ldep_parts_row in He.
      * apply (@pure_inrow (dp_fam V Hb H1)); [apply dp_fam_pure|].
        intros s e _ He. simpl in He. now apply dep_parts_row in He.
    + rewrite dp_one_empty. apply inrow_one.
Qed.

(** no potential occurs twice in a derivation, except CFG rules and terms *)
Theorem graph_multilinear c b : valid c -> b < batch_of c ->
  match c with CCfg _ _ _ _ _ => False | _ => True end -> multilinear (row_graph c b).
Proof.
  intros V Hb Hc. unfold row_graph, graphs.
  destruct c as [batch N C ls|batch N K C ls|batch N NT ls|batch N NT T ls|mr batch n lab ls]; simpl in V, Hb |- *.
  - rewrite (lc_logpartition_run tops (tens [batch; N - 1; C; C] TLeaf) V eq_refl), nth_map_seq by auto.
    apply (@lc_multilinear batch N C ls V b).
  - rewrite (sm_logpartition_run tops (tens [batch; N - 1; K; C; C] TLeaf) V eq_refl), nth_map_seq by auto.
    apply (@sm_multilinear batch N K C ls V b).
  - rewrite (ck_logpartition_run tops (tens [batch; N; N; NT] TLeaf) V eq_refl), nth_map_seq by auto.
    apply (@ck_multilinear batch N NT ls V b Hb).
  - destruct Hc.
  - destruct V as [V HL].
    rewrite (@dp_logpartition_run tops mr TZero batch n lab) by (exact V || reflexivity). rewrite nth_map_seq by auto.
    cbn [dat tens].
    assert (G : (mr = false -> 1 <= lc_len n ls b) \/ mr = false /\ lc_len n ls b = 0).
    { destruct mr; [left; discriminate|]. destruct (lc_len n ls b); [right; auto|left; lia]. }
    destruct G as [H1|[-> ->]].
    + destruct lab as [L|].
      * assert (HL' : 0 < L) by (destruct L; [congruence|lia]).
        apply (@dpl_multilinear mr batch n ls L HL' V b Hb H1).
      * apply (@dp_multilinear mr batch n ls V b Hb H1).
    + rewrite dp_one_empty. intros m [<-|[]]. constructor.
Qed.
