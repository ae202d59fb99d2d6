(** * Batch: padding invariance and independence of batch elements (C02, C03) *)
From Verif Require Import Base Ops Chain LinearChain SemiMarkov CkyCrf Cky DepSpec DepTree.
Set Implicit Arguments.

(** ** C02: only the unmasked potentials of the row matter *)
Lemma seq_weight_agree (S : csr) p p' b b' C len y :
  is_seq C len y ->
  (forall n i j, n + 1 < len -> i < C -> j < C -> p [b; n; i; j] = p' [b'; n; i; j]) ->
  seq_weight S p b y = seq_weight S p' b' y.
Proof.
  intros [Hl Hy] H. unfold seq_weight, seq_parts. rewrite !Prod_map.
  apply Prod_ext_in. intros n Hn. apply in_seq in Hn.
  rewrite Forall_forall in Hy. apply H; [lia| |]; apply Hy, nth_In; lia.
Qed.

Theorem lc_padding_invariant (S : csr) batch N batch' N' C edge edge' lengths lengths' b b' :
  lc_args batch N C lengths -> shape edge = [batch; N - 1; C; C] ->
  lc_args batch' N' C lengths' -> shape edge' = [batch'; N' - 1; C; C] ->
  b < batch -> b' < batch' ->
  lc_len N lengths b = lc_len N' lengths' b' ->
  (forall n i j, n + 1 < lc_len N lengths b -> i < C -> j < C ->
     dat edge [b; n; i; j] = dat edge' [b'; n; i; j]) ->
  exists v v', lc_logpartition (csr_ops S) edge lengths = Ok v /\
    lc_logpartition (csr_ops S) edge' lengths' = Ok v' /\ nth b v k0 = nth b' v' k0.
Proof.
  intros A1 S1 A2 S2 Hb Hb' HL Hp.
  destruct (lc_logpartition_correct S _ A1 S1) as (v & E1 & _ & H1).
  destruct (lc_logpartition_correct S _ A2 S2) as (v' & E2 & _ & H2).
  exists v, v'. split; [auto|]. split; [auto|].
  rewrite (H1 b _ Hb (seqs_enum _ _)), (H2 b' _ Hb' (seqs_enum _ _)), HL.
  apply Sum_ext_in. intros y Hy. apply seqs_enum in Hy.
  eapply seq_weight_agree; eauto. intros n i j Hn Hi Hj. apply Hp; auto. lia.
Qed.

(** ** C03: batch elements do not interact, whatever the semiring operations *)
(** the same operations with the masked cells spelled [zero] *)
Definition plain (O : ops) : ops :=
  {| car := car O; ssum := ssum O; smul := smul O; szero := szero O; sone := sone O;
     sover := fun _ => szero O |}.
(** masked cells have the value [zero] (true of every numeric semiring) *)
Definition over_zero (O : ops) : Prop := forall e, sover O e = szero O.

Lemma resp_plain O : over_zero O -> resp O (plain O) eq.
Proof.
  intro H. split; auto.
  - intros a a' b b' -> ->. reflexivity.
  - intros l l' _ F. change (ssum O l = ssum O l'). f_equal.
    induction F as [|x y l l' E F IH]; [reflexivity|]. change (x = y) in E. subst. now f_equal.
Qed.
Lemma resp_id O : resp O O eq.
Proof.
  split; auto; [intros; congruence|].
  intros l l' _ F. f_equal. induction F; congruence.
Qed.

(** the content of row b, whatever the row number *)
Definition rowof {A} (b : nat) (p : list nat -> A) : list nat -> A := fun i => p (b :: tl i).
(** spec: row b of one tensor has the entries of row b' of another *)
Definition row_agree {A} (t : tensor A) (b : nat) (t' : tensor A) (b' : nat) : Prop :=
  forall i, dat t (b :: i) = dat t' (b' :: i).

Section Rows.
  Variable O : ops.
  Hypothesis HO : over_zero O.

  Lemma lc_one_row C lg bn p p' b b' len : 0 < C -> (forall i, p (b :: i) = p' (b' :: i)) ->
    lc_one O C lg bn p b len = lc_one O C lg bn p' b' len.
  Proof.
    intros HC H.
    rewrite (@resp_lc_one O (plain O) eq (resp_plain HO) p p (fun _ => eq_refl) C lg bn b len HC).
    rewrite (@resp_lc_one O (plain O) eq (resp_plain HO) p' p' (fun _ => eq_refl) C lg bn b' len HC).
    change (lc_one (plain O) C lg bn (rowof b p) b' len = lc_one (plain O) C lg bn (rowof b' p') b' len).
    apply (@resp_lc_one (plain O) (plain O) eq (resp_id _)); auto.
    intro i. apply H.
  Qed.

  Lemma sm_one_row K C lg bn p p' b b' len : 2 <= K -> 0 < C -> (forall i, p (b :: i) = p' (b' :: i)) ->
    sm_one O K C lg bn p b len = sm_one O K C lg bn p' b' len.
  Proof.
    intros HK HC H.
    rewrite (@resp_sm_one O (plain O) eq (resp_plain HO) p p (fun _ => eq_refl) K C lg bn b len HC HK).
    rewrite (@resp_sm_one O (plain O) eq (resp_plain HO) p' p' (fun _ => eq_refl) K C lg bn b' len HC HK).
    change (sm_one (plain O) K C lg bn (rowof b p) b' len = sm_one (plain O) K C lg bn (rowof b' p') b' len).
    apply (@resp_sm_one (plain O) (plain O) eq (resp_id _)); auto.
    intro i. apply H.
  Qed.

  Lemma ck_one_row NT N p p' b b' len : 0 < NT -> (forall i, p (b :: i) = p' (b' :: i)) ->
    ck_one O NT N p b len = ck_one O NT N p' b' len.
  Proof.
    intros HN H. change (ck_one O NT N (rowof b p) b' len = ck_one O NT N (rowof b' p') b' len).
    apply (@resp_ck_one O O eq (resp_id _)); auto. intro i. apply H.
  Qed.

  (** proof device: row b of the potentials as row 0 of a batch of one (SentCFG indices) *)
  Definition rowof1 {A} (b : nat) (p : list nat -> A) : list nat -> A :=
    fun i => p (hd 0 i :: b :: tl (tl i)).
  Lemma cy_one_row NT T N p p' b b' len : 0 < NT -> 0 < T ->
    (forall k i, p (k :: b :: i) = p' (k :: b' :: i)) ->
    cy_one O NT T N b p len = cy_one O NT T N b' p' len.
  Proof.
    intros HN HT H. change (cy_one O NT T N b' (rowof1 b p) len = cy_one O NT T N b' (rowof1 b' p') len).
    apply (@resp_cy_one O O eq (resp_id _)); auto. intro i. apply H.
  Qed.

  Lemma dp_one_row mr lab n j j' p p' b b' len : lab <> Some 0 -> (forall i, p (b :: i) = p' (b' :: i)) ->
    dp_one O mr lab n j p b len = dp_one O mr lab n j' p' b' len.
  Proof.
    intros HL H.
    rewrite (@dp_junk_irrelevant O mr lab n j j' p b len HL).
    change (dp_one O mr lab n j' (rowof b p) b' len = dp_one O mr lab n j' (rowof b' p') b' len).
    apply (@resp_dp_one O O eq (resp_id _)); auto. intro i. apply H.
  Qed.

  Theorem lc_rows batch batch' N C e e' lengths lengths' b b' d :
    lc_args batch N C lengths -> shape e = [batch; N - 1; C; C] ->
    lc_args batch' N C lengths' -> shape e' = [batch'; N - 1; C; C] ->
    b < batch -> b' < batch' -> lc_len N lengths b = lc_len N lengths' b' -> row_agree e b e' b' ->
    exists v v', lc_logpartition O e lengths = Ok v /\ lc_logpartition O e' lengths' = Ok v' /\
      nth b v d = nth b' v' d.
  Proof.
    intros A1 S1 A2 S2 Hb Hb' HL H. rewrite (lc_logpartition_run _ _ A1 S1), (lc_logpartition_run _ _ A2 S2).
    do 2 eexists. split; [reflexivity|]. split; [reflexivity|].
    rewrite !nth_map_seq by auto. rewrite HL. apply lc_one_row; auto. apply A1.
  Qed.

  Theorem sm_rows batch batch' N K C e e' lengths lengths' b b' d :
    sm_args batch N K C lengths -> shape e = [batch; N - 1; K; C; C] ->
    sm_args batch' N K C lengths' -> shape e' = [batch'; N - 1; K; C; C] ->
    b < batch -> b' < batch' -> lc_len N lengths b = lc_len N lengths' b' -> row_agree e b e' b' ->
    exists v v', sm_logpartition O e lengths = Ok v /\ sm_logpartition O e' lengths' = Ok v' /\
      nth b v d = nth b' v' d.
  Proof.
    intros A1 S1 A2 S2 Hb Hb' HL H. rewrite (sm_logpartition_run _ _ A1 S1), (sm_logpartition_run _ _ A2 S2).
    do 2 eexists. split; [reflexivity|]. split; [reflexivity|].
    rewrite !nth_map_seq by auto. rewrite HL. apply sm_one_row; auto; apply A1.
  Qed.

  Theorem ck_rows batch batch' N NT e e' lengths lengths' b b' d :
    ck_args batch N NT lengths -> shape e = [batch; N; N; NT] ->
    ck_args batch' N NT lengths' -> shape e' = [batch'; N; N; NT] ->
    b < batch -> b' < batch' -> lc_len N lengths b = lc_len N lengths' b' -> row_agree e b e' b' ->
    exists v v', ck_logpartition O e lengths = Ok v /\ ck_logpartition O e' lengths' = Ok v' /\
      nth b v d = nth b' v' d.
  Proof.
    intros A1 S1 A2 S2 Hb Hb' HL H. rewrite (ck_logpartition_run _ _ A1 S1), (ck_logpartition_run _ _ A2 S2).
    do 2 eexists. split; [reflexivity|]. split; [reflexivity|].
    rewrite !nth_map_seq by auto. rewrite HL. apply ck_one_row; auto; apply A1.
  Qed.

  Theorem cy_rows batch batch' N NT T te ru ro te' ru' ro' lengths lengths' b b' d :
    cy_args batch N NT T lengths ->
    shape te = [batch; N; T] -> shape ru = [batch; NT; NT + T; NT + T] -> shape ro = [batch; NT] ->
    cy_args batch' N NT T lengths' ->
    shape te' = [batch'; N; T] -> shape ru' = [batch'; NT; NT + T; NT + T] -> shape ro' = [batch'; NT] ->
    b < batch -> b' < batch' -> lc_len N lengths b = lc_len N lengths' b' ->
    row_agree te b te' b' -> row_agree ru b ru' b' -> row_agree ro b ro' b' ->
    exists v v', cy_logpartition O te ru ro lengths = Ok v /\ cy_logpartition O te' ru' ro' lengths' = Ok v' /\
      nth b v d = nth b' v' d.
  Proof.
    intros A1 S1 S2 S3 A2 S4 S5 S6 Hb Hb' HL H1 H2 H3.
    rewrite (cy_logpartition_run _ _ _ _ A1 S1 S2 S3), (cy_logpartition_run _ _ _ _ A2 S4 S5 S6).
    do 2 eexists. split; [reflexivity|]. split; [reflexivity|].
    rewrite !nth_map_seq by auto. rewrite HL. apply cy_one_row; auto; try apply A1.
    intros [|[|k]] i; simpl; auto.
  Qed.

  Theorem dp_rows mr batch batch' n lab j j' e e' lengths lengths' b b' d :
    lab <> Some 0 ->
    dp_args mr batch n lengths ->
    shape e = (match lab with None => [batch; n; n] | Some L => [batch; n; n; L] end) ->
    dp_args mr batch' n lengths' ->
    shape e' = (match lab with None => [batch'; n; n] | Some L => [batch'; n; n; L] end) ->
    b < batch -> b' < batch' -> lc_len n lengths b = lc_len n lengths' b' -> row_agree e b e' b' ->
    exists v v', dp_logpartition O mr j e lengths = Ok v /\ dp_logpartition O mr j' e' lengths' = Ok v' /\
      nth b v d = nth b' v' d.
  Proof.
    intros HL0 A1 S1 A2 S2 Hb Hb' HL H.
    rewrite (@dp_logpartition_run _ _ _ _ _ lab _ _ A1 S1), (@dp_logpartition_run _ _ _ _ _ lab _ _ A2 S2).
    do 2 eexists. split; [reflexivity|]. split; [reflexivity|].
    rewrite !nth_map_seq by auto. rewrite HL. apply dp_one_row; auto.
  Qed.
End Rows.
