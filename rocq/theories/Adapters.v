(** * Adapters: models of [LinearChain.hmm] and [SemiMarkov.hsmm] *)
From Coq Require Import ZArith Reals Lra.
From Verif Require Import Base Ops Terms Semirings Poly Chain LinearChain SemiMarkov CkyCrf Cky DepSpec DepTree Batch Family Approx Grad Tensor Codec.
Set Implicit Arguments.
Local Open Scope R_scope.

(** ** linearchain.py:135-157 [hmm] *)
(** torch.zeros(.., N - 1, ..) fails for N = 0 (line 150), [scores[:, 0]] for
    N = 1 (line 152). [view] of a tensor of another shape with the same number of
    elements is not modelled (it raises here). Observations index the rows of
    [emission]: negative values count from the end, others raise. *)
Definition hmm (transition emission init : tensor R) (observations : tensor Z) : res (tensor R) :=
  match shape emission, shape observations with
  | [V; C], [batch; N] =>
      if (N =? 0)%nat then Err RuntimeError else
      if idx_dec (shape transition) [C; C] then
      if (N =? 1)%nat then Err IndexError else
      if idx_dec (shape init) [C] then
      bind (mapM (fun b => mapM (fun n => pyix V (dat observations [b; n])) (seq 0 N)) (seq 0 batch)) (fun rows =>
      let obs b n i := dat emission [nth n (nth b rows []) 0%nat; i] in
      Ok {| shape := [batch; (N - 1)%nat; C; C];
            dat := fun idx => match idx with
              | [b; n; i; j] =>
                  let s := 0 + dat transition [i; j] in                        (* line 151 *)
                  let s := if (n =? 0)%nat then s + dat init [j] else s in     (* line 152 *)
                  let s := s + obs b (n + 1)%nat i in                          (* line 154 *)
                  if (n =? 0)%nat then s + obs b 0%nat j else s                (* line 155 *)
              | _ => 0 end |})
      else Err RuntimeError
      else Err RuntimeError
  | _, _ => Err ValueError
  end.

(** ** semimarkov.py:181-219 [hsmm] *)
(** same remark on [view] *)
Definition hsmm (init_z_1 transition_z_to_z transition_z_to_l emission_n_l_z : tensor R) : res (tensor R) :=
  match shape emission_n_l_z with
  | [batch; N; K; C] =>
      (* lines 206-208 *)
      bind (if (N =? 0)%nat then Err IndexError else
            if idx_dec (shape init_z_1) [C] then Ok (fun b c => dat init_z_1 [c])
            else if idx_dec (shape init_z_1) [batch; C] then Ok (fun b c => dat init_z_1 [b; c])
            else Err RuntimeError) (fun init =>
      if idx_dec (shape transition_z_to_z) [C; C] then
      if idx_dec (shape transition_z_to_l) [C; K] then
      Ok {| shape := [batch; N; K; C; C];
            dat := fun idx => match idx with
              | [b; n; k; c2; c1] =>
                  let e := if (n =? 0)%nat then 0 + init b c1 else 0 in        (* line 208 *)
                  let e := e + dat transition_z_to_z [c1; c2] in               (* line 211 *)
                  let e := e + dat transition_z_to_l [c2; k] in                (* line 214 *)
                  e + dat emission_n_l_z [b; n; k; c2]                         (* line 217 *)
              | _ => 0 end |}
      else Err RuntimeError
      else Err RuntimeError)
  | _ => Err ValueError
  end.

(** ** Specification: the generative stories *)
(** hidden Markov model: draw the first state, then alternate transition and
    emission. [em o c] = log p(o | c), [tr c' c] = log p(next c' | current c). *)
Section Story.
  Variables (tr em : nat -> nat -> R) (ini : nat -> R).
  (** spec: joint log-probability of the states and observations after state c *)
  Fixpoint hmm_steps (c : nat) (ys os : list nat) : R :=
    match ys, os with
    | y :: ys', o :: os' => tr y c + em o y + hmm_steps y ys' os'
    | _, _ => 0
    end.
  (** spec: joint log-probability of a state sequence and its observations *)
  Definition hmm_joint (ys os : list nat) : R :=
    match ys, os with y :: ys', o :: os' => ini y + em o y + hmm_steps y ys' os' | _, _ => 0 end.
End Story.
(** hidden semi-Markov model: draw the auxiliary state z_{-1}; then, from
    position n, draw the next state, the width of its segment and the
    observations of the segment. [tr c c'] = log p(next c' | current c),
    [tl c w] = log p(width w | c), [em n w c] = log p(x_n .. x_{n+w-1} | c, w). *)
Section Story2.
  Variables (ini : nat -> R) (tr tl : nat -> nat -> R) (em : nat -> nat -> nat -> R).
  (** spec: joint log-probability of the segments after state c at time n *)
  Fixpoint hsmm_steps (n c : nat) (segs : list (nat * nat)) : R :=
    match segs with
    | [] => 0
    | (w, c') :: segs' => tr c c' + tl c' w + em n w c' + hsmm_steps (n + w) c' segs'
    end.
  (** spec: joint log-probability of a segmentation *)
  Definition hsmm_joint (y : segm) : R := ini (fst y) + hsmm_steps 0 (fst y) (snd y).
End Story2.

(** ** Lemmas *)
Lemma RSum_first f g m : RSum (fun n => f n + (if (n =? 0)%nat then g else 0)) (seq 0 (S m)) = RSum f (seq 0 (S m)) + g.
Proof.
  rewrite RSum_add. f_equal. cbn [seq]. rewrite RSum_cons. cbn [Nat.eqb].
  etransitivity; [apply (f_equal (Rplus g)), (Sum_zero R_csr)|apply Rplus_0_r].
  intros x Hx. apply in_seq in Hx. destruct x; [lia|reflexivity].
Qed.
Lemma steps_sum tr em : forall ys os c, length os = length ys ->
  RSum (fun n => tr (nth (n + 1) (c :: ys) 0%nat) (nth n (c :: ys) 0%nat) + em (nth n os 0%nat) (nth (n + 1) (c :: ys) 0%nat)) (seq 0 (length ys)) =
  hmm_steps tr em c ys os.
Proof.
  induction ys as [|y ys IH]; intros [|o os] c H; try discriminate; [reflexivity|]. cbn [length seq hmm_steps].
  rewrite RSum_cons. cbn [nth plus]. f_equal. rewrite <- IH by (cbn [length] in H; lia).
  etransitivity; [apply (Sum_seq_shift R_csr)|]. apply (Sum_ext R_csr). intro n. cbn [plus nth]. reflexivity.
Qed.
(** total probability of the stories *)
Lemma seqs_sum_S C n (f : list nat -> R) : RSum f (seqs C (S n)) = RSum (fun c => RSum (fun y => f (c :: y)) (seqs C n)) (seq 0 C).
Proof. cbn [seqs]. rewrite RSum_flat_map. apply (Sum_ext R_csr). intro c. apply RSum_map. Qed.
Lemma steps_total C V tr em : (forall c, (c < C)%nat -> RSum (fun c' => exp (tr c' c)) (seq 0 C) = 1) ->
  (forall c, (c < C)%nat -> RSum (fun o => exp (em o c)) (seq 0 V) = 1) -> forall n c, (c < C)%nat ->
  RSum (fun ys => RSum (fun os => exp (hmm_steps tr em c ys os)) (seqs V n)) (seqs C n) = 1.
Proof.
  intros Ht He. induction n as [|n IH]; intros c Hc.
  - cbn [seqs]. rewrite !RSum_cons. cbn [hmm_steps]. rewrite exp_0. unfold Sum. cbn. lra.
  - rewrite seqs_sum_S. rewrite <- (Ht c Hc). apply (Sum_ext_in R_csr). intros c' Hc'. apply in_seq in Hc'.
    transitivity (RSum (fun y => RSum (fun o => exp (tr c' c) * exp (em o c') * RSum (fun os => exp (hmm_steps tr em c' y os)) (seqs V n)) (seq 0 V)) (seqs C n)).
    { apply (Sum_ext R_csr). intro y. rewrite seqs_sum_S. apply (Sum_ext R_csr). intro o. rewrite <- RSum_scal. apply (Sum_ext R_csr). intro os.
      cbn [hmm_steps]. rewrite !exp_plus. reflexivity. }
    transitivity (RSum (fun y => exp (tr c' c) * RSum (fun os => exp (hmm_steps tr em c' y os)) (seqs V n)) (seqs C n)).
    { apply (Sum_ext R_csr). intro y. rewrite RSum_scar, RSum_scal, He by lia. ring. }
    rewrite RSum_scal, IH by lia. ring.
Qed.
Lemma joint_total C V tr em ini n : RSum (fun c => exp (ini c)) (seq 0 C) = 1 ->
  (forall c, (c < C)%nat -> RSum (fun c' => exp (tr c' c)) (seq 0 C) = 1) ->
  (forall c, (c < C)%nat -> RSum (fun o => exp (em o c)) (seq 0 V) = 1) ->
  RSum (fun os => RSum (fun ys => exp (hmm_joint tr em ini ys os)) (seqs C (S n))) (seqs V (S n)) = 1.
Proof.
  intros Hi Ht He. etransitivity; [apply (Sum_comm R_csr)|]. rewrite seqs_sum_S. rewrite <- Hi. apply (Sum_ext_in R_csr). intros c Hc. apply in_seq in Hc.
  transitivity (RSum (fun y => RSum (fun o => exp (ini c) * exp (em o c) * RSum (fun os => exp (hmm_steps tr em c y os)) (seqs V n)) (seq 0 V)) (seqs C n)).
  { apply (Sum_ext R_csr). intro y. rewrite seqs_sum_S. apply (Sum_ext R_csr). intro o. rewrite <- RSum_scal. apply (Sum_ext R_csr). intro os.
    cbn [hmm_joint]. rewrite !exp_plus. reflexivity. }
  transitivity (RSum (fun y => exp (ini c) * RSum (fun os => exp (hmm_steps tr em c y os)) (seqs V n)) (seqs C n)).
  { apply (Sum_ext R_csr). intro y. rewrite RSum_scar, RSum_scal, He by lia. ring. }
  rewrite RSum_scal, steps_total by (auto; lia). ring.
Qed.

(** ** The potentials *)
Theorem hmm_spec transition emission init observations V C batch N (os : nat -> list nat) :
  shape transition = [C; C] -> shape emission = [V; C] -> shape init = [C] -> shape observations = [batch; N] -> (2 <= N)%nat ->
  (forall b, (b < batch)%nat -> zrow observations b = map Z.of_nat (os b) /\ is_seq V N (os b)) ->
  exists phi, hmm transition emission init observations = Ok phi /\ shape phi = [batch; (N - 1)%nat; C; C] /\
    (forall M, (forall e, Rabs (dat transition e) <= M) -> (forall e, Rabs (dat emission e) <= M) -> (forall e, Rabs (dat init e) <= M) ->
       forall e, Rabs (dat phi e) <= 4 * M) /\
    forall b y, (b < batch)%nat -> (2 <= length y <= N)%nat ->
      sc (seq_parts b) (dat phi) y =
      hmm_joint (fun c' c => dat transition [c'; c]) (fun o c => dat emission [o; c]) (fun c => dat init [c]) y (firstn (length y) (os b)).
Proof.
  intros Ht He Hi Ho HN Hos. unfold hmm. rewrite He, Ho, Ht, Hi.
  destruct (Nat.eqb_spec N 0) as [|_]; [lia|]. destruct (Nat.eqb_spec N 1) as [|_]; [lia|].
  destruct (idx_dec [C; C] [C; C]) as [_|]; [|congruence]. destruct (idx_dec [C] [C]) as [_|]; [|congruence].
  rewrite (mapM_ok _ os).
  2:{ intros b Hb. apply in_seq in Hb. destruct (Hos b) as (Hz & Hl & Hf); [lia|].
      rewrite (mapM_ok _ (fun n => nth n (os b) 0%nat)).
      - f_equal. transitivity (map (fun n => nth n (os b) 0%nat) (seq 0 (length (os b)))); [now rewrite Hl|].
        clear. induction (os b) as [|x l IH]; [reflexivity|]. cbn [length seq map nth]. f_equal. rewrite <- seq_shift, map_map. exact IH.
      - intros n Hn. apply in_seq in Hn.
        rewrite <- (@zrow_nth observations b n 0%Z) by (rewrite Ho; cbn; lia). rewrite Hz.
        replace (nth n (map Z.of_nat (os b)) 0%Z) with (Z.of_nat (nth n (os b) 0%nat)) by (symmetry; exact (map_nth Z.of_nat (os b) 0%nat n)).
        apply pyix_nat. rewrite Forall_forall in Hf. apply Hf, nth_In. lia. }
  cbn [bind]. eexists. split; [reflexivity|]. split; [reflexivity|]. cbn [dat]. split.
  - intros M HT HE HI e. assert (HM : 0 <= M) by (pose proof (HT []); pose proof (Rabs_pos (dat transition [])); lra).
    assert (H0 : Rabs 0 <= 4 * M) by (rewrite Rabs_R0; lra).
    destruct e as [|b [|n [|i [|j [|]]]]]; auto. 
    assert (T : forall x y a c, Rabs x <= a -> Rabs y <= c -> Rabs (x + y) <= a + c) by (intros; eapply Rle_trans; [apply Rabs_triang|lra]).
    pose proof (HT [i; j]) as H1. set (o1 := dat emission _). assert (H2 : Rabs o1 <= M) by apply HE.
    set (o2 := dat emission [nth 0 _ _; j]). assert (H3 : Rabs o2 <= M) by apply HE. pose proof (HI [j]) as H4.
    assert (H5 : Rabs (0 + dat transition [i; j]) <= M) by (rewrite Rplus_0_l; auto).
    destruct (Nat.eqb n 0).
    + replace (4 * M) with (M + M + M + M) by ring. auto.
    + eapply Rle_trans; [apply (T _ _ _ _ H5 H2)|]. lra.
  - intros b y Hb Hy. destruct (Hos b Hb) as (Hz & Hl & Hf).
    destruct y as [|c ys]; [cbn in Hy; lia|]. destruct (os b) as [|o ol] eqn:Eo; [cbn in Hl; lia|].
    cbn [length] in Hy, Hl. unfold sc, seq_parts. cbn [length]. replace (S (length ys) - 1)%nat with (length ys) by lia.
    rewrite RSum_map. cbn [dat firstn hmm_joint].
    rewrite <- steps_sum by (rewrite firstn_length; lia).
    destruct (length ys) as [|m] eqn:Em; [lia|].
    rewrite Rplus_comm, <- RSum_first. apply (Sum_ext_in R_csr). intros n Hn. apply in_seq in Hn.
    assert (Eb : nth b (map os (seq 0 batch)) [] = os b).
    { rewrite (nth_indep _ [] (os 0%nat)) by (rewrite map_length, seq_length; auto). rewrite map_nth, seq_nth by auto. reflexivity. }
    rewrite Eb, Eo. replace (nth (n + 1) (o :: ol) 0%nat) with (nth n ol 0%nat) by (rewrite Nat.add_1_r; reflexivity).
    replace (nth n (firstn (S m) ol) 0%nat) with (nth n ol 0%nat).
    2:{ rewrite <- (firstn_skipn (S m) ol) at 1. rewrite app_nth1; [reflexivity|]. rewrite firstn_length. lia. }
    destruct n as [|n]; cbn [Nat.eqb nth]; cbv beta; try ring.
Qed.
Theorem hsmm_spec ini tr tl em batch N K C :
  shape tr = [C; C] -> shape tl = [C; K] -> shape em = [batch; N; K; C] -> (1 <= N)%nat ->
  shape ini = [C] \/ shape ini = [batch; C] /\ shape ini <> [C] ->
  exists phi, hsmm ini tr tl em = Ok phi /\ shape phi = [batch; N; K; C; C] /\
    (forall M, (forall e, Rabs (dat ini e) <= M) -> (forall e, Rabs (dat tr e) <= M) -> (forall e, Rabs (dat tl e) <= M) -> (forall e, Rabs (dat em e) <= M) ->
       forall e, Rabs (dat phi e) <= 4 * M) /\
    forall b y, Forall (fun s => 1 <= fst s)%nat (snd y) -> snd y <> [] ->
      sc (segm_parts b) (dat phi) y =
      hsmm_joint (fun c => if idx_dec (shape ini) [C] then dat ini [c] else dat ini [b; c])
        (fun c c' => dat tr [c; c']) (fun c w => dat tl [c; w]) (fun n w c => dat em [b; n; w; c]) y.
Proof.
  intros Ht Hl He HN Hi. unfold hsmm. rewrite He, Ht, Hl. destruct (Nat.eqb_spec N 0) as [|_]; [lia|].
  destruct (idx_dec [C; C] [C; C]) as [_|]; [|congruence]. destruct (idx_dec [C; K] [C; K]) as [_|]; [|congruence].
  set (init := fun (b : nat) c => if idx_dec (shape ini) [C] then dat ini [c] else dat ini [b; c]).
  assert (E : exists ii, (if idx_dec (shape ini) [C] then Ok (fun b c => dat ini [c])
            else if idx_dec (shape ini) [batch; C] then Ok (fun b c => dat ini [b; c]) else Err RuntimeError) = Ok ii /\ forall b c, ii b c = init b c).
  { unfold init. destruct (idx_dec (shape ini) [C]) as [H|H]; [eexists; split; [reflexivity|reflexivity]|].
    destruct Hi as [Hi|[Hi _]]; [contradiction|]. destruct (idx_dec (shape ini) [batch; C]) as [H'|H']; [|contradiction].
    eexists; split; reflexivity. }
  destruct E as (ii & -> & Hii). cbn [bind]. eexists. split; [reflexivity|]. split; [reflexivity|]. cbn [dat]. split.
  - intros M HI HT HL HE e. assert (HM : 0 <= M) by (pose proof (HT []); pose proof (Rabs_pos (dat tr [])); lra).
    assert (H0 : Rabs 0 <= 4 * M) by (rewrite Rabs_R0; lra).
    destruct e as [|b [|n' [|k [|c2 [|c1 [|]]]]]]; auto.
    assert (T : forall x y a c, Rabs x <= a -> Rabs y <= c -> Rabs (x + y) <= a + c) by (intros; eapply Rle_trans; [apply Rabs_triang|lra]).
    replace (4 * M) with (M + M + M + M) by ring.
    repeat (apply T; auto). rewrite Hii. unfold init. destruct (Nat.eqb n' 0); [rewrite Rplus_0_l; destruct (idx_dec _ _); auto|rewrite Rabs_R0; lra].
  - intros b [c l] Hp Hne. cbn [fst snd] in *. unfold sc, segm_parts, hsmm_joint. cbn [fst snd].
    set (phi := fun idx : list nat => _).
    assert (G : forall l n c, Forall (fun s => 1 <= fst s)%nat l -> (0 < n)%nat ->
      RSum phi (segs_parts b n c l) = hsmm_steps (fun c c' => dat tr [c; c']) (fun c w => dat tl [c; w]) (fun n w c => dat em [b; n; w; c]) n c l).
    { clear. induction l as [|[w c'] l IH]; intros n c Hp Hn; [reflexivity|]. inversion Hp as [|? ? Hw Hp']; subst. cbn [fst] in Hw.
      cbn [segs_parts hsmm_steps]. rewrite RSum_cons. rewrite IH by (auto; lia). f_equal. unfold phi. destruct n; [lia|]. cbn [Nat.eqb]. ring. }
    destruct l as [|[w c'] l]; [contradiction|]. inversion Hp as [|? ? Hw Hp']; subst. cbn [fst] in Hw.
    cbn [segs_parts hsmm_steps]. rewrite RSum_cons, G by (auto; lia). unfold phi at 1. cbn [Nat.eqb]. rewrite Hii. unfold init. ring.
Qed.
