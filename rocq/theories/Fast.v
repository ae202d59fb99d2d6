(** * Fast: model of torch_struct/semirings/fast_semirings.py *)
From Verif Require Import Base Ops Tensor.
Set Implicit Arguments.

Section Model.
  Variable O : ops.
  Notation A := (car O).
  (** fast_semirings.py:12-16, 19-25 [broadcast] (and [matmul_size], the same text as in
      checkpoint.py): expand both operands to the common batch and flatten it *)
  Definition fast_broadcast (a b : tensor A) : res (tensor A * tensor A * list nat) :=
    let size := matmul_size (shape a) (shape b) in
    let batch := firstn (length size - 2) size in
    let (ai, ak) := (dim_2 (shape a), dim_1 (shape a)) in
    let (bk, bj) := (dim_2 (shape b), dim_1 (shape b)) in
    bind (texpand O (batch ++ [ai; ak]) a) (fun a =>
    bind (texpand O (batch ++ [bk; bj]) b) (fun b =>
    bind (tview O [infer O a ai ak; ai; ak] a) (fun a2 =>
    bind (tview O [infer O b bk bj; bk; bj] b) (fun b2 =>
    Ok (a2, b2, size))))).
  (** lines 52-55 and 64-67: [FastMaxSemiring.matmul], [FastSampleSemiring.matmul].
      [bmm] is the function of the genbmm extension, None when the import of lines 6-9
      failed; the name is then unbound (NameError), which shows after [broadcast] *)
  Definition fast_matmul (bmm : option (tensor A -> tensor A -> res (tensor A))) (a b : tensor A) : res (tensor A) :=
    bind (fast_broadcast a b) (fun out =>
    let '(a2, b2, size) := out in
    match bmm with
    | None => Err NameError
    | Some bmm => bind (bmm a2 b2) (fun c => tview O size c)
    end).
  (** lines 39-44 [FastLogSemiring.matmul]: the isinstance test already needs genbmm;
      banded operands (only alignment.py has them) are not modelled *)
  Definition fast_log_matmul (bmm : option (tensor A -> tensor A -> res (tensor A))) (a b : tensor A) : res (tensor A) :=
    match bmm with None => Err NameError | Some _ => fast_matmul bmm a b end.

  (** contract of [genbmm.logbmm] / [maxbmm]: the batched matrix product *)
  Definition is_bmm (bmm : tensor A -> tensor A -> res (tensor A)) : Prop :=
    forall n I D J a2 b2, shape a2 = [n; I; D] -> shape b2 = [n; D; J] ->
    exists c, bmm a2 b2 = Ok c /\ shape c = [n; I; J] /\
      forall m i j, m < n -> i < I -> j < J ->
        dat c [m; i; j] = ssum O (map (fun k => smul O (dat a2 [m; i; k]) (dat b2 [m; k; j])) (seq 0 D)).
End Model.

Section Fast.
  Variable O : ops.
  Notation A := (car O).
  Variables (sa sb sc : list nat) (I D J : nat) (a b : tensor A).
  Hypothesis Ha : shape a = sa ++ [I; D].
  Hypothesis Hb : shape b = sb ++ [D; J].
  Hypothesis Hc : bzip sa sb = Some sc.
  Hypothesis Pa : Forall (lt 0) sa.
  Hypothesis Pb : Forall (lt 0) sb.
  Hypothesis PI : 0 < I.
  Hypothesis PD : 0 < D.
  Hypothesis PJ : 0 < J.

  Lemma fast_broadcast_spec : exists a2 b2, fast_broadcast O a b = Ok (a2, b2, sc ++ [I; J]) /\
    shape a2 = [prodl sc; I; D] /\ shape b2 = [prodl sc; D; J] /\
    (forall m i k, m < prodl sc -> i < I -> k < D -> dat a2 [m; i; k] = dat a (bidx sa (unflat sc m) ++ [i; k])) /\
    (forall m k j, m < prodl sc -> k < D -> j < J -> dat b2 [m; k; j] = dat b (bidx sb (unflat sc m) ++ [k; j])).
  Proof.
    assert (L := bzip_length _ _ Hc). destruct L as [L1 L2].
    destruct (dims_app sa I D) as (A1 & A2 & A3). destruct (dims_app sb D J) as (B1 & B2 & B3).
    unfold fast_broadcast. rewrite Ha, Hb. unfold matmul_size. rewrite A1, A2, A3, B1, B2, B3.
    rewrite (bzip_max Pa Pb Hc).
    destruct (dims_app sc I J) as (C1 & _ & _). unfold batch_dims in C1. rewrite C1.
    destruct (bzip_expand _ _ Hc) as [X1 X2].
    assert (Cmb : forall s x y, length s = length sc -> combine (s ++ [x; y]) (sc ++ [x; y]) = combine s sc ++ [(x, x); (y, y)]).
    { clear. intros s x y. revert sc. induction s as [|d s IH]; intros [|e u] E; simpl in *; try discriminate; auto. f_equal. auto. }
    unfold texpand at 1. rewrite Ha, !app_length, L1, Nat.eqb_refl, Cmb, forallb_app, X1 by auto. simpl. rewrite !Nat.eqb_refl. simpl.
    unfold texpand at 1. rewrite Hb, !app_length, L2, Nat.eqb_refl, Cmb, forallb_app, X2 by auto. simpl. rewrite !Nat.eqb_refl. simpl.
    unfold infer. cbn [shape]. rewrite !prodl_app. cbn [prodl fold_right]. rewrite !Nat.mul_1_r, !Nat.div_mul by nia.
    fold (prodl sc). unfold tview at 1. cbn [shape dat]. rewrite prodl_app. cbn [prodl fold_right]. rewrite !Nat.mul_1_r.
    fold (prodl sc). rewrite Nat.eqb_refl. cbn [bind].
    unfold tview at 1. cbn [shape dat]. rewrite prodl_app. cbn [prodl fold_right]. rewrite !Nat.mul_1_r.
    fold (prodl sc). rewrite Nat.eqb_refl. cbn [bind].
    eexists _, _. split; [reflexivity|]. split; [reflexivity|]. split; [reflexivity|]. split.
    - cbn [dat]. intros m i k Hm Hi Hk.
      rewrite view_batch by auto. f_equal.
      rewrite bidx_app.
      + f_equal. unfold bidx0. simpl. now rewrite !bcell.
      + rewrite (inr_length (inr_unflat _ Hm)). lia.
      + reflexivity.
    - cbn [dat]. intros m k j Hm Hk Hj.
      rewrite view_batch by auto. f_equal.
      rewrite bidx_app.
      + f_equal. unfold bidx0. simpl. now rewrite !bcell.
      + rewrite (inr_length (inr_unflat _ Hm)). lia.
      + reflexivity.
  Qed.

  Theorem fast_matmul_spec bmm : is_bmm O bmm -> reseq (fast_matmul O (Some bmm) a b) (tmatmul O a b).
  Proof.
    intro Hbmm. destruct fast_broadcast_spec as (a2 & b2 & E & S1 & S2 & D1 & D2).
    assert (Hc' : bshape sa sb = Some sc). { destruct (bzip_length _ _ Hc). rewrite bshape_same by lia. auto. }
    destruct (@tmatmul_spec O sa sb sc I D J _ _ Ha Hb Hc') as (c & Ec & Sc & Dc).
    destruct (Hbmm _ _ _ _ a2 b2 S1 S2) as (c2 & E2 & S3 & D3).
    unfold fast_matmul. rewrite E. cbn [bind]. rewrite E2. cbn [bind]. unfold tview. rewrite S3, prodl_app. cbn [prodl fold_right].
    rewrite !Nat.mul_1_r. fold (prodl sc). rewrite Nat.eqb_refl, Ec. cbn [reseq]. split; [cbn; auto|]. cbn [shape dat]. intros idx Hidx.
    apply inr_app_inv in Hidx as (beta & ij & -> & Hbeta & Hij).
    inversion Hij as [|i ? ij' ? Hi Hij']; subst. inversion Hij' as [|j ? ij'' ? Hj Hij'']; subst. inversion Hij''; subst.
    rewrite view_back by auto. rewrite D3; auto; [|now apply flat_lt]. rewrite Dc by auto. f_equal. apply map_ext_in. intros k Hk. apply in_seq in Hk.
    pose proof (flat_lt Hbeta). rewrite D1, D2 by lia. now rewrite unflat_flat.
  Qed.
End Fast.
