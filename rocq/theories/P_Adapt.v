(** * P_Adapt: hidden Markov and semi-Markov parameters as potentials *)
From Coq Require Import ZArith Reals Lra.
From Verif Require Import Base Ops Terms Semirings Poly Chain LinearChain SemiMarkov CkyCrf Cky DepSpec DepTree Batch Family Approx Grad Sample Dist Purity Degree Shape Tensor Codec Adapters Api Query P_Real.
Set Implicit Arguments.
Local Open Scope R_scope.

(** C33: the score of a state sequence is its joint log-probability with the
    observations of the row. *)
Theorem C33_hmm_score transition emission init observations V C batch N (os : nat -> list nat) :
  shape transition = [C; C] -> shape emission = [V; C] -> shape init = [C] -> shape observations = [batch; N] -> (2 <= N)%nat ->
  (forall b, (b < batch)%nat -> zrow observations b = map Z.of_nat (os b) /\ is_seq V N (os b)) ->
  exists phi, hmm transition emission init observations = Ok phi /\ shape phi = [batch; (N - 1)%nat; C; C] /\
    forall b y, (b < batch)%nat -> (2 <= length y <= N)%nat ->
      sc (seq_parts b) (dat phi) y =
      hmm_joint (fun c' c => dat transition [c'; c]) (fun o c => dat emission [o; c]) (fun c => dat init [c]) y (firstn (length y) (os b)).
Proof. intros H1 H2 H3 H4 H5 H6. destruct (@hmm_spec transition emission init observations V C batch N os H1 H2 H3 H4 H5 H6) as (phi & E & S & _ & H). eauto. Qed.
Print Assumptions C33_hmm_score.
(** The [HMM] distribution (distributions.py:337-341): for rows of length at least
    2 the partition is the log-likelihood of the row's observations, for rows of
    length 1 it is log C whatever the parameters. *)
Theorem C33_hmm_likelihood transition emission init observations V C batch N ls (os : nat -> list nat) M :
  shape transition = [C; C] -> shape emission = [V; C] -> shape init = [C] -> shape observations = [batch; N] -> (2 <= N)%nat ->
  (forall b, (b < batch)%nat -> zrow observations b = map Z.of_nat (os b) /\ is_seq V N (os b)) ->
  (forall e, Rabs (dat transition e) <= M) -> (forall e, Rabs (dat emission e) <= M) -> (forall e, Rabs (dat init e) <= M) ->
  let c := CLin batch N C ls in valid c ->
  exists phi v, hmm transition emission init observations = Ok phi /\ q_partition c (dat phi) = Ok v /\ length v = batch /\
  forall b, (b < batch)%nat -> let len := lc_len N ls b in
    ((2 <= len)%nat -> forall l, Enumerates (is_seq C len) l ->
      0 <= nth b v 0 - ln (RSum (fun y => exp (hmm_joint (fun c' c => dat transition [c'; c]) (fun o c => dat emission [o; c]) (fun c => dat init [c]) y (firstn len (os b)))) l)
        <= leak c b (4 * M)) /\
    ((len <= 1)%nat -> 0 <= nth b v 0 - ln (INR C) <= leak c b (4 * M)).
Proof.
  intros H1 H2 H3 H4 H5 H6 HT HE HI c V0.
  destruct (@hmm_spec transition emission init observations V C batch N os H1 H2 H3 H4 H5 H6) as (phi & E & S & HB & H). specialize (HB M HT HE HI).
  assert (HM : 0 <= M) by (pose proof (HT []); pose proof (Rabs_pos (dat transition [])); lra).
  destruct (@C20_partition_value c (dat phi) (4 * M) V0 ltac:(lra) (or_intror HB)) as (v & Ev & Lv & Hv).
  exists phi, v. split; [exact E|]. split; [exact Ev|]. split; [exact Lv|]. intros b Hb len.
  assert (Hr : row_ok c b) by (split; cbn; auto).
  assert (Hlen : (len <= N)%nat).
  { unfold len. destruct V0 as (_ & _ & HL). destruct ls as [l|]; simpl; [|lia]. destruct HL as (_ & _ & <-). apply list_max_nth. }
  split.
  - intros Hl l He. specialize (Hv b l Hr). cbn [spec_of ok prt c] in Hv. fold len in Hv. rewrite Nat.max_r in Hv by lia. specialize (Hv He).
    unfold ZS in Hv. erewrite (Sum_ext_in R_csr) in Hv; [exact Hv|]. intros y Hy. apply He in Hy as [Hy _]. cbv beta. f_equal. etransitivity; [apply H; auto; lia|]. now rewrite Hy.
  - intro Hl. specialize (Hv b (seqs C 1) Hr). cbn [spec_of ok prt c] in Hv. fold len in Hv. rewrite Nat.max_l in Hv by lia. specialize (Hv (seqs_enum C 1)).
    replace (INR C) with (ZS (seq_parts b) (seqs C 1) (dat phi)); [exact Hv|]. unfold ZS.
    transitivity (RSum (fun _ : list nat => 1) (seqs C 1)).
    + apply (Sum_ext_in R_csr). intros y Hy. apply seqs_enum in Hy as [Hy _]. unfold sc, seq_parts. rewrite Hy. cbn. apply exp_0.
    + etransitivity; [apply RSum_const|]. rewrite Rmult_1_r. f_equal. cbn [seqs map]. clear. rewrite flat_map_concat_map.
      assert (L : forall l : list nat, length (concat (map (fun c => [[c]]) l)) = length l) by (induction l; cbn; auto). rewrite L. apply seq_length.
Qed.
Print Assumptions C33_hmm_likelihood.
(** with stochastic parameters the joint is a probability distribution *)
Theorem C33_joint_is_distribution C V tr em ini n : RSum (fun c => exp (ini c)) (seq 0 C) = 1 ->
  (forall c, (c < C)%nat -> RSum (fun c' => exp (tr c' c)) (seq 0 C) = 1) ->
  (forall c, (c < C)%nat -> RSum (fun o => exp (em o c)) (seq 0 V) = 1) ->
  RSum (fun os => RSum (fun ys => exp (hmm_joint tr em ini ys os)) (seqs C (S n))) (seqs V (S n)) = 1.
Proof. apply joint_total. Qed.
Print Assumptions C33_joint_is_distribution.
(** a single observation cannot be scored at all *)
Theorem C33_single_observation transition emission init observations V C batch :
  shape transition = [C; C] -> shape emission = [V; C] -> shape observations = [batch; 1%nat] ->
  hmm transition emission init observations = Err IndexError.
Proof. intros H1 H2 H3. unfold hmm. rewrite H2, H3, H1. destruct (idx_dec [C; C] [C; C]); [reflexivity|contradiction]. Qed.

(** a two-state model with uniform parameters; rows of lengths 3 and 1 *)
Definition half_t (sh : list nat) : tensor R := {| shape := sh; dat := fun _ => ln (1 / 2) |}.
(** example: observations *)
Definition ex_obs : tensor Z := {| shape := [2; 3]%nat; dat := fun i => nth (nth 1 i 0%nat) (nth (nth 0 i 0%nat) [[1;0;1];[0;1;1]]%Z []) 0%Z |}.
Lemma half_stochastic : RSum (fun _ : nat => exp (ln (1 / 2))) (seq 0 2) = 1.
Proof. rewrite RSum_const, exp_ln by lra. cbn. lra. Qed.
Lemma ln_half : Rabs (ln (1 / 2)) <= 1.
Proof.
  assert (H : ln (1/2) = - ln 2) by (replace (1/2) with (/2) by lra; apply ln_Rinv; lra). rewrite H, Rabs_Ropp, Rabs_right.
  - apply Rlt_le. rewrite <- (ln_exp 1). apply ln_increasing; [lra|]. pose proof (exp_ineq1 1 ltac:(lra)). lra.
  - apply Rle_ge. rewrite <- ln_1. left. apply ln_increasing; lra.
Qed.
(** the likelihood of the single observation of row 1 is 1/2, the partition is
    at least log 2 *)
Theorem C33_length_one_refuted : exists phi v,
  hmm (half_t [2;2]%nat) (half_t [2;2]%nat) (half_t [2%nat]) ex_obs = Ok phi /\
  q_partition (CLin 2 3 2 (Some [3;1]%nat)) (dat phi) = Ok v /\ ln 2 <= nth 1 v 0 /\
  RSum (fun y => exp (hmm_joint (fun _ _ => ln (1/2)) (fun _ _ => ln (1/2)) (fun _ => ln (1/2)) y [0%nat])) (seqs 2 1) = 1 / 2.
Proof.
  destruct (@C33_hmm_likelihood (half_t [2;2]%nat) (half_t [2;2]%nat) (half_t [2%nat]) ex_obs 2 2 2 3 (Some [3;1]%nat)
    (fun b => match b with O => [1;0;1]%nat | _ => [0;1;1]%nat end) 1) as (phi & v & E1 & E2 & _ & H); try reflexivity; try lia.
  - intros b Hb. destruct b as [|[|b]]; [..|lia]; (split; [reflexivity|]); (split; [reflexivity|repeat constructor; lia]).
  - intros; apply ln_half.
  - intros; apply ln_half.
  - intros; apply ln_half.
  - cbn. unfold lc_args. repeat split; try lia; cbn; intuition lia.
  - exists phi, v. split; [exact E1|]. split; [exact E2|]. destruct (H 1%nat ltac:(lia)) as [_ H1]. specialize (H1 ltac:(cbn; lia)). split.
    + change (INR 2) with 2 in H1. lra.
    + cbn [seqs map flat_map seq app]. rewrite !RSum_cons. cbn [hmm_joint hmm_steps]. rewrite !Rplus_0_r, !exp_plus, !exp_ln by lra. unfold Sum. cbn. lra.
Qed.

(** ** C34 *)
Theorem C34_hsmm_score ini tr tl em batch N K C :
  shape tr = [C; C] -> shape tl = [C; K] -> shape em = [batch; N; K; C] -> (1 <= N)%nat ->
  shape ini = [C] \/ shape ini = [batch; C] ->
  exists phi, hsmm ini tr tl em = Ok phi /\ shape phi = [batch; N; K; C; C] /\
    forall b len y, (2 <= len)%nat -> is_segm K C len y ->
      sc (segm_parts b) (dat phi) y =
      hsmm_joint (fun c => if Nat.eqb (length (shape ini)) 1 then dat ini [c] else dat ini [b; c])
        (fun c c' => dat tr [c; c']) (fun c w => dat tl [c; w]) (fun n w c => dat em [b; n; w; c]) y.
Proof.
  intros H1 H2 H3 H4 H5. assert (H6 : shape ini = [C] \/ shape ini = [batch; C] /\ shape ini <> [C]).
  { destruct H5 as [H5|H5]; [auto|]. right. rewrite H5. split; [reflexivity|discriminate]. }
  destruct (@hsmm_spec ini tr tl em batch N K C H1 H2 H3 H4 H6) as (phi & E & S & _ & H).
  exists phi. split; [exact E|]. split; [exact S|]. intros b len y Hlen (Hc & Hf & Hw). rewrite H.
  - unfold hsmm_joint. f_equal. destruct H5 as [H5|H5]; rewrite H5; cbn [length Nat.eqb].
    + destruct (idx_dec [C] [C]); [reflexivity|contradiction].
    + destruct (idx_dec [batch; C] [C]); [discriminate|reflexivity].
  - eapply Forall_impl; [|exact Hf]. intros s Hs. apply Hs.
  - intro E0. rewrite E0 in Hw. cbn in Hw. lia.
Qed.
Print Assumptions C34_hsmm_score.
(** the partition of a SemiMarkovCRF on these potentials is the log of the total
    probability of all segmentations of the row *)
Theorem C34_hsmm_likelihood ini tr tl em batch N K C ls M :
  shape tr = [C; C] -> shape tl = [C; K] -> shape em = [batch; N; K; C] -> (1 <= N)%nat ->
  shape ini = [C] \/ shape ini = [batch; C] ->
  (forall e, Rabs (dat ini e) <= M) -> (forall e, Rabs (dat tr e) <= M) -> (forall e, Rabs (dat tl e) <= M) -> (forall e, Rabs (dat em e) <= M) ->
  let c := CSemi batch (S N) K C ls in valid c ->
  exists phi v, hsmm ini tr tl em = Ok phi /\ q_partition c (dat phi) = Ok v /\ length v = batch /\
  forall b l, (b < batch)%nat -> let len := lc_len (S N) ls b in (2 <= len)%nat -> Enumerates (is_segm K C len) l ->
    0 <= nth b v 0 - ln (RSum (fun y => exp (hsmm_joint (fun c => if Nat.eqb (length (shape ini)) 1 then dat ini [c] else dat ini [b; c])
        (fun c c' => dat tr [c; c']) (fun c w => dat tl [c; w]) (fun n w c => dat em [b; n; w; c]) y)) l) <= leak c b (4 * M).
Proof.
  intros H1 H2 H3 H4 H5 HI HT HL HE c V0.
  destruct (@C34_hsmm_score ini tr tl em batch N K C H1 H2 H3 H4 H5) as (phi & E & Sh & H).
  assert (H6 : shape ini = [C] \/ shape ini = [batch; C] /\ shape ini <> [C]).
  { destruct H5 as [H5|H5]; [auto|]. right. rewrite H5. split; [reflexivity|discriminate]. }
  destruct (@hsmm_spec ini tr tl em batch N K C H1 H2 H3 H4 H6) as (phi' & E' & _ & HB & _). rewrite E in E'. injection E' as <-.
  specialize (HB M HI HT HL HE).
  assert (HM : 0 <= M) by (pose proof (HT []); pose proof (Rabs_pos (dat tr [])); lra).
  destruct (@C20_partition_value c (dat phi) (4 * M) V0 ltac:(lra) (or_intror HB)) as (v & Ev & Lv & Hv).
  exists phi, v. split; [exact E|]. split; [exact Ev|]. split; [exact Lv|]. intros b l Hb len Hlen He.
  specialize (Hv b l ltac:(split; cbn; auto)). cbn [spec_of ok prt c] in Hv. fold len in Hv. specialize (Hv He).
  unfold ZS in Hv. erewrite (Sum_ext_in R_csr) in Hv; [exact Hv|]. intros y Hy. apply He in Hy. cbv beta. f_equal. eapply H; eauto.
Qed.
Print Assumptions C34_hsmm_likelihood.
(** two segments of widths 2 and 1 over three positions *)
Example C34_example : exists phi, hsmm (half_t [2%nat]) (half_t [2;2]%nat) (half_t [2;3]%nat) (half_t [1;3;3;2]%nat) = Ok phi /\
  sc (segm_parts 0) (dat phi) (1%nat, [(2,0);(1,1)]%nat) = 7 * ln (1/2).
Proof.
  destruct (@C34_hsmm_score (half_t [2%nat]) (half_t [2;2]%nat) (half_t [2;3]%nat) (half_t [1;3;3;2]%nat) 1 3 3 2) as (phi & E & _ & H); try reflexivity; try lia; [left; reflexivity|].
  exists phi. split; [exact E|]. rewrite (H 0%nat 4%nat); [unfold hsmm_joint; cbn; ring|lia|].
  unfold is_segm, seg_ok. cbn. repeat split; try lia; repeat constructor; cbn; lia.
Qed.
(** with no segment the initial state is not scored: a row of length 1 has score 0 *)
Theorem C34_length_one phi b y K C : is_segm K C 1 y -> sc (segm_parts b) phi y = 0.
Proof.
  intros (_ & Hf & Hw). destruct y as [c [|[w c'] l]]; [reflexivity|]. cbn in Hf, Hw. inversion Hf as [|? ? [Hs _] ?]; subst. cbn in Hs. lia.
Qed.
