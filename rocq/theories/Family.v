(** * Family: what the five structure families have in common.

    A [family] is the value returned for one batch element of one call of
    [logpartition] (fixed shape, length and batch index), as a function of the
    semiring operations and of the potentials. The five instances at the end of
    the file are exactly the [X_one] functions of the models, which
    [X_logpartition_run] connects to the calls. *)
From Verif Require Import Base Ops Chain LinearChain Terms Poly SemiMarkov CkyCrf Cky DepSpec DepTree Batch.
Set Implicit Arguments.

(** the record described above *)
Record family := Family {
  fst_ : Type;                          (* the structures *)
  fok : fst_ -> Prop;                   (* which ones are valid *)
  fparts : fst_ -> list (list nat);     (* potentials a structure uses *)
  frun : forall O : ops, (list nat -> car O) -> car O;
  fresp : forall O1 O2 R p1 p2, resp O1 O2 R -> (forall i, R (p1 i) (p2 i)) ->
            R (frun O1 p1) (frun O2 p2);
  flist : list fst_;
  fenum : Enumerates fok flist;
  fcorrect : forall (S : csr) p, frun (csr_ops S) p = Sum S (fun s => Prod S p (fparts s)) flist
}.

(** the computation graph of the family *)
Definition ft (F : family) : term := frun F tops TLeaf.

Lemma ft_run F O p : frun F O p = leval O p (ft F) /\ twf (ft F).
Proof. apply (@fresp F O tops (leval_rel O p)); [apply leval_resp|]. intro i. apply leval_leaf. Qed.
Lemma frun_leval F O p : frun F O p = leval O p (ft F).
Proof. apply ft_run. Qed.
Lemma ft_wf F : twf (ft F).
Proof. apply (@ft_run F tops TLeaf). Qed.

Lemma ft_correct F (S : csr) p : leval (csr_ops S) p (ft F) = Sum S (fun s => Prod S p (fparts F s)) (flist F).
Proof. rewrite <- frun_leval. apply fcorrect. Qed.

(** structures and pure derivations are the same thing *)
Lemma ft_derivations F :
  Permutation (map (fun m => msort (leaves m)) (filter pure (expand (ft F))))
              (map (fun s => msort (fparts F s)) (flist F)).
Proof. apply derivations_are_structures. intros. apply ft_correct. Qed.

(** ** The instances: one batch row of one call *)
Lemma lc_len_cover N lengths batch C b : lc_args batch N C lengths ->
  lc_len N lengths b - 1 <= 2 ^ Nat.log2_up (N - 1).
Proof.
  intros (HN & HC & HL). etransitivity; [|apply log2_up_cover; lia].
  destruct lengths as [ls|]; simpl; [|lia]. destruct HL as (_ & _ & <-).
  pose proof (list_max_nth ls b). lia.
Qed.

(** LinearChain row: tag sequences *)
Program Definition lc_fam {batch N C lengths} (Ha : lc_args batch N C lengths) (b : nat) : family :=
  {| fst_ := list nat; fok := is_seq C (Nat.max 1 (lc_len N lengths b)); fparts := seq_parts b;
     frun := fun O p => lc_one O C (Nat.log2_up (N - 1)) (2 ^ Nat.log2_up (N - 1)) p b (lc_len N lengths b);
     flist := seqs C (Nat.max 1 (lc_len N lengths b)) |}.
Next Obligation. apply resp_lc_one; auto. apply Ha. Qed.
Next Obligation. apply seqs_enum. Qed.
Next Obligation. apply lc_one_sum; [apply Ha|apply (lc_len_cover b Ha)]. Qed.

Lemma lc_fam_run batch N C lengths (Ha : lc_args batch N C lengths) O edge :
  shape edge = [batch; N - 1; C; C] ->
  lc_logpartition O edge lengths = Ok (map (fun b => frun (lc_fam Ha b) O (dat edge)) (seq 0 batch)).
Proof. intro Hs. apply (lc_logpartition_run _ _ Ha Hs). Qed.

(** SemiMarkov row: segmentations *)
Lemma sm_len_cover N lengths batch K C b : sm_args batch N K C lengths ->
  lc_len N lengths b - 1 <= 2 ^ Nat.log2_up (N - 1).
Proof.
  intros (HN & HK & HC & Hb & HL). etransitivity; [|apply log2_up_cover; lia].
  assert (lc_len N lengths b <= N); [|lia]. apply lc_len_le. destruct lengths; tauto.
Qed.
(** the family of a SemiMarkov row *)
Program Definition sm_fam {batch N K C lengths} (Ha : sm_args batch N K C lengths) (b : nat) : family :=
  {| fst_ := nat * list (nat * nat); fok := is_segm K C (lc_len N lengths b); fparts := segm_parts b;
     frun := fun O p => sm_one O K C (Nat.log2_up (N - 1)) (2 ^ Nat.log2_up (N - 1)) p b (lc_len N lengths b);
     flist := segms K C (lc_len N lengths b) |}.
Next Obligation. apply resp_sm_one; auto; apply Ha. Qed.
Next Obligation. apply segms_enum. Qed.
Next Obligation. apply sm_one_sum; [apply Ha|apply Ha|apply (sm_len_cover b Ha)]. Qed.

Lemma sm_fam_run batch N K C lengths (Ha : sm_args batch N K C lengths) O edge :
  shape edge = [batch; N - 1; K; C; C] ->
  sm_logpartition O edge lengths = Ok (map (fun b => frun (sm_fam Ha b) O (dat edge)) (seq 0 batch)).
Proof. intro Hs. apply (sm_logpartition_run _ _ Ha Hs). Qed.

(** the same row computed by [_dp_standard] *)
Program Definition smd_fam {batch N K C lengths} (Ha : sm_args batch N K C lengths) (b : nat)
    (Hb : 1 <= lc_len N lengths b) : family :=
  {| fst_ := nat * list (nat * nat); fok := is_segm K C (lc_len N lengths b); fparts := segm_parts b;
     frun := fun O p => smd_one O K C N p b (lc_len N lengths b);
     flist := segms K C (lc_len N lengths b) |}.
Next Obligation. apply resp_smd_one; auto; apply Ha. Qed.
Next Obligation. apply segms_enum. Qed.
Next Obligation. apply smd_one_sum; [apply Ha|apply Ha|]. split; auto. apply lc_len_le. destruct lengths; apply Ha. Qed.

(** TreeCRF row: binary trees with labels; a length 0 stands for N
    (negative index, [ck_length0_is_full]) *)
Definition eff_len (N len : nat) : nat := if len =? 0 then N else len.
Lemma ck_one_eff O NT N pot b len : ck_one O NT N pot b len = ck_one O NT N pot b (eff_len N len).
Proof. destruct len; [apply ck_length0_is_full|reflexivity]. Qed.
Lemma eff_len_ok batch N lengths b : 1 <= N -> b < batch ->
  match lengths with None => True | Some ls => length ls = batch /\ Forall (fun l => l <= N) ls end ->
  1 <= eff_len N (lc_len N lengths b) <= N.
Proof.
  intros HN Hb HL. unfold eff_len. destruct (Nat.eqb_spec (lc_len N lengths b) 0); [lia|].
  split; [lia|]. destruct lengths as [ls|]; simpl; auto. destruct HL as [G1 G2].
  rewrite Forall_forall in G2. apply G2, nth_In. lia.
Qed.
(** the family of a TreeCRF row *)
Program Definition ck_fam {batch N NT lengths} (Ha : ck_args batch N NT lengths) (b : nat) (Hb : b < batch) : family :=
  {| fst_ := ltree; fok := is_ltree NT (eff_len N (lc_len N lengths b)); fparts := lparts b 0;
     frun := fun O p => ck_one O NT N p b (lc_len N lengths b);
     flist := ltrees NT (eff_len N (lc_len N lengths b)) (eff_len N (lc_len N lengths b)) |}.
Next Obligation. apply resp_ck_one; auto; apply Ha. Qed.
Next Obligation. apply ltrees_enum; auto. Qed.
Next Obligation.
  rewrite ck_one_eff. apply ck_one_sum. apply (@eff_len_ok batch); auto; apply Ha.
Qed.
Lemma ck_fam_run batch N NT lengths (Ha : ck_args batch N NT lengths) O edge d :
  shape edge = [batch; N; N; NT] ->
  exists v, ck_logpartition O edge lengths = Ok v /\ length v = batch /\
    forall b (Hb : b < batch), nth b v d = frun (ck_fam Ha Hb) O (dat edge).
Proof.
  intro Hs. rewrite (ck_logpartition_run _ _ Ha Hs). eexists; split; [reflexivity|].
  split; [now rewrite map_length, seq_length|]. intros b Hb. now rewrite nth_map_seq.
Qed.

(** SentCFG row: parses *)
Lemma cy_one_eff O NT T N b pot len : 1 <= N -> cy_one O NT T N b pot len = cy_one O NT T N b pot (eff_len N len).
Proof.
  intro HN. unfold cy_one, eff_len. destruct len; [|reflexivity]. simpl. unfold pyidx. simpl.
  replace (N =? 0) with false by (symmetry; apply Nat.eqb_neq; lia). reflexivity.
Qed.
(** the family of a SentCFG row *)
Program Definition cy_fam {batch N NT T lengths} (Ha : cy_args batch N NT T lengths) (b : nat) (Hb : b < batch) : family :=
  {| fst_ := ptree; fok := is_parse NT T (eff_len N (lc_len N lengths b)); fparts := parse_parts NT b;
     frun := fun O p => cy_one O NT T N b p (lc_len N lengths b);
     flist := parses NT T (eff_len N (lc_len N lengths b)) |}.
Next Obligation. apply resp_cy_one; auto; apply Ha. Qed.
Next Obligation. apply parses_enum; auto. Qed.
Next Obligation.
  etransitivity; [apply (cy_one_eff (csr_ops S) NT T b p (lc_len N lengths b)), Ha|].
  destruct Ha as (HN & HNT & HT & HL).
  apply cy_one_sum; auto. apply (@eff_len_ok batch); auto.
Qed.
Lemma cy_fam_run batch N NT T lengths (Ha : cy_args batch N NT T lengths) O terms rules roots d :
  shape terms = [batch; N; T] -> shape rules = [batch; NT; NT + T; NT + T] -> shape roots = [batch; NT] ->
  exists v, cy_logpartition O terms rules roots lengths = Ok v /\ length v = batch /\
    forall b (Hb : b < batch), nth b v d = frun (cy_fam Ha Hb) O (cy_pot terms rules roots).
Proof.
  intros H1 H2 H3. rewrite (cy_logpartition_run _ _ _ _ Ha H1 H2 H3). eexists; split; [reflexivity|].
  split; [now rewrite map_length, seq_length|]. intros b Hb. now rewrite nth_map_seq.
Qed.

(** DepTree row, unlabeled: projective trees as head lists. The junk constant of
    [convert] must be given in every semiring; [dp_junk_irrelevant] says it does
    not matter, so the family uses [zero]. *)
Program Definition dp_fam {mr batch n lengths} (Ha : dp_args mr batch n lengths) (b : nat) (Hb : b < batch)
    (H1 : mr = false -> 1 <= lc_len n lengths b) : family :=
  {| fst_ := list nat; fok := dep_ok mr (lc_len n lengths b); fparts := dep_parts b;
     frun := fun O p => dp_one O mr None n (szero O) p b (lc_len n lengths b);
     flist := dep_list mr (lc_len n lengths b) |}.
Next Obligation. apply resp_dp_one; auto; discriminate. Qed.
Next Obligation. apply dep_list_enum; auto. Qed.
Next Obligation. apply dp_one_sum; auto. eapply dp_len_le; eauto. Qed.
Lemma dp_fam_run mr batch n lengths (Ha : dp_args mr batch n lengths) O junk arcs d :
  shape arcs = [batch; n; n] ->
  exists v, dp_logpartition O mr junk arcs lengths = Ok v /\ length v = batch /\
    forall b (Hb : b < batch) (H1 : mr = false -> 1 <= lc_len n lengths b),
      nth b v d = frun (dp_fam Ha Hb H1) O (dat arcs).
Proof.
  intro Hs. rewrite (@dp_logpartition_run _ _ _ batch n None arcs lengths Ha Hs). eexists; split; [reflexivity|].
  split; [now rewrite map_length, seq_length|]. intros b Hb H1. rewrite nth_map_seq by auto.
  apply dp_junk_irrelevant. discriminate.
Qed.
(** labeled: heads and labels *)
Program Definition dpl_fam {mr batch n lengths} L (HL : 0 < L) (Ha : dp_args mr batch n lengths) (b : nat) (Hb : b < batch)
    (H1 : mr = false -> 1 <= lc_len n lengths b) : family :=
  {| fst_ := list (nat * nat); fok := ldep_ok mr (lc_len n lengths b) L; fparts := ldep_parts b;
     frun := fun O p => dp_one O mr (Some L) n (szero O) p b (lc_len n lengths b);
     flist := flat_map (labelings L) (dep_list mr (lc_len n lengths b)) |}.
Next Obligation. apply resp_dp_one; auto. intro E. injection E as E. lia. Qed.
Next Obligation.
  eapply Enumerates_ext; [|apply labelings_enum, dep_list_enum; auto].
  intro hl. unfold dep_ok, ldep_ok, is_lproj, lsingle_root. tauto.
Qed.
Next Obligation. apply dp_one_lsum; auto. eapply dp_len_le; eauto. Qed.
Lemma dpl_fam_run mr batch n lengths L (HL : 0 < L) (Ha : dp_args mr batch n lengths) O junk arcs d :
  shape arcs = [batch; n; n; L] ->
  exists v, dp_logpartition O mr junk arcs lengths = Ok v /\ length v = batch /\
    forall b (Hb : b < batch) (H1 : mr = false -> 1 <= lc_len n lengths b),
      nth b v d = frun (dpl_fam HL Ha Hb H1) O (dat arcs).
Proof.
  intro Hs. rewrite (@dp_logpartition_run _ _ _ batch n (Some L) arcs lengths Ha Hs). eexists; split; [reflexivity|].
  split; [now rewrite map_length, seq_length|]. intros b Hb H1. rewrite nth_map_seq by auto.
  apply dp_junk_irrelevant. intro E. injection E as E. lia.
Qed.
