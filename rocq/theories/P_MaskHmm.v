(** * P_MaskHmm: hidden Markov models with impossible transitions and emissions

    The parameters are logarithms of probabilities, and the logarithm of 0 is
    minus infinity, so a model with impossible events gives potentials that are
    minus infinity (left-to-right models, deterministic emissions). *)
From Coq Require Import ZArith.
From Verif Require Import Base Ops Terms Semirings Poly Chain LinearChain SemiMarkov CkyCrf Cky DepSpec DepTree
  Batch Family Approx Grad Sample Dist Purity Degree Shape Tensor Codec Adapters Api Query Dag DagLaw P_Real P_Adapt P_Train P_Sample
  Mask P_Mask Special P_Special MaskGrad P_MaskGrad P_MaskSample MaskDep P_MaskDep.
Set Implicit Arguments.
Local Open Scope R_scope.

(** ** Model *)
(** torch.log of a probability (no code of the repository: the callers of
    linearchain.py:136-157 pass logarithms): log 0 is minus infinity *)
Definition xlog (p : R) : ext := if Rlt_dec 0 p then Some (ln p) else None.
(** the tensor of logarithms of a tensor of probabilities (as above) *)
Definition xlogt (t : tensor R) : tensor ext := {| shape := shape t; dat := fun e => xlog (dat t e) |}.
(** linearchain.py:136-157 [hmm] on parameters that may be minus infinity; the
    simplifications are those of [Adapters.hmm] *)
Definition xhmm (transition emission init : tensor ext) (observations : tensor Z) : res (tensor ext) :=
  match shape emission, shape observations with
  | [V; C], [batch; N] =>
      if (N =? 0)%nat then Err RuntimeError else
      if idx_dec (shape transition) [C; C] then
      if (N =? 1)%nat then Err IndexError else
      if idx_dec (shape init) [C] then
      bind (mapM (fun b => mapM (fun n => pyix V (dat observations [b; n])) (seq 0 N)) (seq 0 batch)) (fun rows =>
      let obs b n i := dat emission [nth n (nth b rows []) 0%nat; i] in
      Ok {| shape := [batch; (N - 1)%nat; C; C];
            dat := fun idx => match idx with
              | [b; n; i; j] =>
                  let s := xplus (Some 0) (dat transition [i; j]) in                  (* line 151 *)
                  let s := if (n =? 0)%nat then xplus s (dat init [j]) else s in      (* line 152 *)
                  let s := xplus s (obs b (n + 1)%nat i) in                           (* line 154 *)
                  if (n =? 0)%nat then xplus s (obs b 0%nat j) else s                 (* line 155 *)
              | _ => Some 0 end |})
      else Err RuntimeError
      else Err RuntimeError
  | _, _ => Err ValueError
  end.
(** semimarkov.py:182-219 [hsmm] on parameters that may be minus infinity; the
    simplification is that of [Adapters.hsmm] *)
Definition xhsmm (init_z_1 transition_z_to_z transition_z_to_l emission_n_l_z : tensor ext) : res (tensor ext) :=
  match shape emission_n_l_z with
  | [batch; N; K; C] =>
      (* lines 206-208 *)
      bind (if (N =? 0)%nat then Err IndexError else
            if idx_dec (shape init_z_1) [C] then Ok (fun b c => dat init_z_1 [c])
            else if idx_dec (shape init_z_1) [batch; C] then Ok (fun b c => dat init_z_1 [b; c])
            else Err RuntimeError) (fun init =>
      if idx_dec (shape transition_z_to_z) [C; C] then
      if idx_dec (shape transition_z_to_l) [C; K] then
      Ok {| shape := [batch; N; K; C; C];
            dat := fun idx => match idx with
              | [b; n; k; c2; c1] =>
                  let e := if (n =? 0)%nat then xplus (Some 0) (init b c1) else Some 0 in   (* line 208 *)
                  let e := xplus e (dat transition_z_to_z [c1; c2]) in                      (* line 211 *)
                  let e := xplus e (dat transition_z_to_l [c2; k]) in                       (* line 214 *)
                  xplus e (dat emission_n_l_z [b; n; k; c2])                                (* line 217 *)
              | _ => Some 0 end |}
      else Err RuntimeError
      else Err RuntimeError)
  | _ => Err ValueError
  end.

(** ** Specification: the generative stories as products of probabilities *)
Section Story.
  Variables (tr em : nat -> nat -> R) (ini : nat -> R).
  (** spec: probability of the rest of the story after a state: next state, its observation, ... *)
  Fixpoint prob_steps (c : nat) (ys os : list nat) : R :=
    match ys, os with
    | y :: ys', o :: os' => tr y c * em o y * prob_steps y ys' os'
    | _, _ => 1
    end.
  (** spec: joint probability of a state sequence and its observations *)
  Definition prob_joint (ys os : list nat) : R :=
    match ys, os with y :: ys', o :: os' => ini y * em o y * prob_steps y ys' os' | _, _ => 1 end.
  (** spec: probability of the observations *)
  Definition likelihood (l : list (list nat)) (os : list nat) : R := RSum (fun y => prob_joint y os) l.
  (** spec: posterior probability that step n goes from state j to state i *)
  Definition posterior (l : list (list nat)) (os : list nat) (n i j : nat) : R :=
    RSum (fun y => if ((nth (n + 1) y 0 =? i) && (nth n y 0 =? j))%nat then prob_joint y os / likelihood l os else 0) l.
End Story.
Section Story2.
  Variables (tr tl : nat -> nat -> R) (em : nat -> nat -> nat -> R) (ini : nat -> R).
  (** spec: probability of the segments from position n on, after state c *)
  Fixpoint seg_steps (n c : nat) (segs : list (nat * nat)) : R :=
    match segs with
    | [] => 1
    | (w, c') :: segs' => tr c c' * tl c' w * em n w c' * seg_steps (n + w) c' segs'
    end.
  (** spec: joint probability of a segmentation and the observations *)
  Definition seg_joint (y : segm) : R := ini (fst y) * seg_steps 0 (fst y) (snd y).
End Story2.

(** ** Lemmas *)
Lemma xlog_exp p : 0 <= p -> xexp (xlog p) = p.
Proof. intro H. unfold xlog. destruct (Rlt_dec 0 p); cbn [xexp]; [now apply exp_ln|lra]. Qed.
Lemma xplus_bound a b A B : (forall x, a = Some x -> Rabs x <= A) -> (forall x, b = Some x -> Rabs x <= B) -> forall x, xplus a b = Some x -> Rabs x <= A + B.
Proof. intros HA HB x. destruct a as [a|], b as [b|]; cbn [xplus]; try discriminate. intro E. injection E as <-. eapply Rle_trans; [apply Rabs_triang|]. apply Rplus_le_compat; auto. Qed.
Lemma xZ_prod A (parts : A -> list (list nat)) phi l : xZ parts phi l = RSum (fun s => RProd (fun e => xexp (phi e)) (parts s)) l.
Proof. apply (Sum_ext R_csr). intro s. symmetry. apply prod_xexp. Qed.
(** a structure is allowed exactly when its weight is positive *)
Lemma allowed_pos A (parts : A -> list (list nat)) phi s : allowed parts phi s <-> 0 < RProd (fun e => xexp (phi e)) (parts s).
Proof.
  rewrite prod_xexp. rewrite <- allowedb. destruct (forallb _ _); split; intro H; try discriminate; try reflexivity; [apply exp_pos|lra].
Qed.

Lemma RProd_tail (f : nat -> R) n : RProd f (seq 0 (S n)) = f 0%nat * RProd (fun k => f (S k)) (seq 0 n).
Proof. cbn [seq]. rewrite Prod_cons. cbn [kmul R_csr]. f_equal. rewrite <- seq_shift. apply Prod_map. Qed.
Lemma prob_steps_prod tr em : forall ys os c, length os = length ys ->
  RProd (fun n => tr (nth n ys 0%nat) (nth n (c :: ys) 0%nat) * em (nth n os 0%nat) (nth n ys 0%nat)) (seq 0 (length ys)) = prob_steps tr em c ys os.
Proof.
  induction ys as [|y ys IH]; intros [|o os] c H; try discriminate; [reflexivity|]. cbn [length prob_steps].
  rewrite RProd_tail. cbn [nth]. f_equal. rewrite <- IH by (cbn [length] in H; lia). reflexivity.
Qed.
Lemma prob_steps_nonneg tr em : (forall i j, 0 <= tr i j) -> (forall i j, 0 <= em i j) -> forall ys os c, 0 <= prob_steps tr em c ys os.
Proof. intros Ht He. induction ys as [|y ys IH]; intros [|o os] c; cbn [prob_steps]; try lra. repeat apply Rmult_le_pos; auto. Qed.

(** ** The potentials of a hidden Markov model *)
Lemma xhmm_spec transition emission init observations V C batch N (os : nat -> list nat) :
  shape transition = [C; C] -> shape emission = [V; C] -> shape init = [C] -> shape observations = [batch; N] -> (2 <= N)%nat ->
  (forall b, (b < batch)%nat -> zrow observations b = map Z.of_nat (os b) /\ is_seq V N (os b)) ->
  (forall e, 0 <= dat transition e) -> (forall e, 0 <= dat emission e) -> (forall e, 0 <= dat init e) ->
  exists phi, xhmm (xlogt transition) (xlogt emission) (xlogt init) observations = Ok phi /\ shape phi = [batch; (N - 1)%nat; C; C] /\
    (forall M, 0 <= M -> (forall e, 0 < dat transition e -> Rabs (ln (dat transition e)) <= M) -> (forall e, 0 < dat emission e -> Rabs (ln (dat emission e)) <= M) ->
       (forall e, 0 < dat init e -> Rabs (ln (dat init e)) <= M) -> forall e x, dat phi e = Some x -> Rabs x <= 4 * M) /\
    forall b y, (b < batch)%nat -> (2 <= length y <= N)%nat ->
      RProd (fun e => xexp (dat phi e)) (seq_parts b y) =
      prob_joint (fun c' c => dat transition [c'; c]) (fun o c => dat emission [o; c]) (fun c => dat init [c]) y (firstn (length y) (os b)).
Proof.
  intros Ht He Hi Ho HN Hos Nt Ne Ni. unfold xhmm. cbn [shape xlogt]. rewrite He, Ho, Ht, Hi.
  destruct (Nat.eqb_spec N 0) as [|_]; [lia|]. destruct (Nat.eqb_spec N 1) as [|_]; [lia|].
  destruct (idx_dec [C; C] [C; C]) as [_|]; [|congruence]. destruct (idx_dec [C] [C]) as [_|]; [|congruence].
  rewrite (mapM_ok _ os).
  2:{ intros b Hb. apply in_seq in Hb. destruct (Hos b) as (Hz & Hl & Hf); [lia|].
      rewrite (mapM_ok _ (fun n => nth n (os b) 0%nat)).
      - f_equal. transitivity (map (fun n => nth n (os b) 0%nat) (seq 0 (length (os b)))); [now rewrite Hl|].
        clear. induction (os b) as [|x l IH]; [reflexivity|]. cbn [length seq map nth]. f_equal. rewrite <- seq_shift, map_map. exact IH.
      - intros n Hn. apply in_seq in Hn.
        rewrite <- (@zrow_nth observations b n 0%Z) by (rewrite Ho; cbn; lia). rewrite Hz.
        replace (nth n (map Z.of_nat (os b)) 0%Z) with (Z.of_nat (nth n (os b) 0%nat)) by (symmetry; exact (map_nth Z.of_nat (os b) 0%nat n)).
        apply pyix_nat. rewrite Forall_forall in Hf. apply Hf, nth_In. lia. }
  cbn [bind]. eexists. split; [reflexivity|]. split; [reflexivity|]. cbn [dat xlogt]. split.
  - intros M HM HT HE HI e x.
    assert (H0 : forall x, Some 0 = Some x -> Rabs x <= 4 * M) by (intros x' E; injection E as <-; rewrite Rabs_R0; lra).
    assert (L : forall t : tensor R, (forall e, 0 < dat t e -> Rabs (ln (dat t e)) <= M) -> forall e x, xlog (dat t e) = Some x -> Rabs x <= M).
    { intros t Hb e' x'. unfold xlog. destruct (Rlt_dec 0 (dat t e')) as [P|P]; [|discriminate]. intro E. injection E as <-. auto. }
    pose proof (L _ HT) as LT. pose proof (L _ HE) as LE. pose proof (L _ HI) as LI. clear L.
    destruct e as [|b [|n [|i [|j [|]]]]]; try (apply H0).
    assert (Z : forall x, Some 0 = Some x -> Rabs x <= 0) by (intros x' E; injection E as <-; rewrite Rabs_R0; lra).
    destruct (Nat.eqb n 0).
    + replace (4 * M) with (0 + M + M + M + M) by ring. revert x. repeat apply xplus_bound; first [exact Z|exact (LT _)|exact (LE _)|exact (LI _)].
    + intro E. assert (E' : Rabs x <= 0 + M + M); [|lra]. revert x E. repeat apply xplus_bound; first [exact Z|exact (LT _)|exact (LE _)].
  - intros b y Hb Hy. destruct (Hos b Hb) as (Hz & Hl & Hf).
    destruct y as [|c ys]; [cbn in Hy; lia|]. destruct (os b) as [|o ol] eqn:Eo; [cbn in Hl; lia|].
    cbn [length] in Hy, Hl. unfold seq_parts. cbn [length]. replace (S (length ys) - 1)%nat with (length ys) by lia.
    rewrite Prod_map. cbn [dat firstn prob_joint].
    rewrite <- prob_steps_prod by (rewrite firstn_length; lia).
    destruct (length ys) as [|m] eqn:Em; [lia|]. rewrite !RProd_tail.
    assert (Eb : nth b (map os (seq 0 batch)) [] = os b).
    { rewrite (nth_indep _ [] (os 0%nat)) by (rewrite map_length, seq_length; auto). rewrite map_nth, seq_nth by auto. reflexivity. }
    rewrite Eb, Eo.
    assert (Fn : forall n, (n < S m)%nat -> nth n (firstn (S m) ol) 0%nat = nth n ol 0%nat).
    { intros n Hn. rewrite <- (firstn_skipn (S m) ol) at 2. rewrite app_nth1; [reflexivity|]. rewrite firstn_length. lia. }
    rewrite (Fn 0%nat) by lia. rewrite <- Rmult_assoc. f_equal.
    + cbn [Nat.eqb nth plus]. rewrite !xplus_exp, !xlog_exp by auto. cbn [xexp]. rewrite exp_0. ring.
    + apply Prod_ext_in. intros n Hn. apply in_seq in Hn. rewrite Fn by lia. cbn [Nat.eqb]. rewrite Nat.add_1_r. cbn [nth].
      rewrite !xplus_exp, !xlog_exp by auto. cbn [xexp]. rewrite exp_0. ring.
Qed.

Section Hmm.
  Variables (transition emission init : tensor R) (observations : tensor Z) (V C batch N : nat) (ls : option (list nat)) (os : nat -> list nat) (M : R).
  Hypothesis (Ht : shape transition = [C; C]) (He : shape emission = [V; C]) (Hi : shape init = [C]) (Ho : shape observations = [batch; N]) (HN : (2 <= N)%nat).
  Hypothesis (Hos : forall b, (b < batch)%nat -> zrow observations b = map Z.of_nat (os b) /\ is_seq V N (os b)).
  Hypothesis (Nt : forall e, 0 <= dat transition e) (Ne : forall e, 0 <= dat emission e) (Ni : forall e, 0 <= dat init e).
  Hypothesis (HM : 0 <= M) (Mt : forall e, 0 < dat transition e -> Rabs (ln (dat transition e)) <= M)
    (Me : forall e, 0 < dat emission e -> Rabs (ln (dat emission e)) <= M) (Mi : forall e, 0 < dat init e -> Rabs (ln (dat init e)) <= M).
  Let c := CLin batch N C ls.
  Hypothesis V0 : valid c.
  Let tr := fun c' c => dat transition [c'; c].
  Let em := fun o c => dat emission [o; c].
  Let ini := fun c => dat init [c].
  Let len b := lc_len N ls b.

  Lemma hmm_len b : (len b <= N)%nat.
  Proof. unfold len. destruct V0 as (_ & _ & HL). destruct ls as [l|]; simpl; [|lia]. destruct HL as (_ & _ & <-). apply list_max_nth. Qed.
  Lemma hmm_row : exists phi, xhmm (xlogt transition) (xlogt emission) (xlogt init) observations = Ok phi /\
    (forall e x, dat phi e = Some x -> Rabs x <= 4 * M) /\
    forall b, (b < batch)%nat -> (2 <= len b)%nat ->
      ok (spec_of c b) = is_seq C (len b) /\ prt (spec_of c b) = seq_parts b /\
      forall y, is_seq C (len b) y -> RProd (fun e => xexp (dat phi e)) (seq_parts b y) = prob_joint tr em ini y (firstn (len b) (os b)).
  Proof.
    destruct (@xhmm_spec transition emission init observations V C batch N os Ht He Hi Ho HN Hos Nt Ne Ni) as (phi & E & _ & HB & H).
    exists phi. split; [exact E|]. split; [exact (HB M HM Mt Me Mi)|]. intros b Hb Hlen. split; [|split].
    - cbn [spec_of ok c]. rewrite Nat.max_r by (fold (len b); lia). reflexivity.
    - reflexivity.
    - intros y [Hy _]. rewrite H by (auto; pose proof (hmm_len b); lia). now rewrite Hy.
  Qed.
  Lemma hmm_nonneg y o : 0 <= prob_joint tr em ini y o.
  Proof.
    destruct y, o; cbn [prob_joint]; try lra. repeat apply Rmult_le_pos; unfold ini, em; auto. apply prob_steps_nonneg; intros; unfold tr, em; auto.
  Qed.
  (** observations have positive probability exactly when some state sequence explains them *)
  Lemma likelihood_pos l o : 0 < likelihood tr em ini l o <-> exists y, In y l /\ 0 < prob_joint tr em ini y o.
  Proof.
    unfold likelihood. split.
    - intro H. induction l as [|y l IH]; [cbn in H; lra|]. rewrite RSum_cons in H. destruct (Rlt_dec 0 (prob_joint tr em ini y o)) as [P|P].
      + exists y. split; [now left|exact P].
      + pose proof (hmm_nonneg y o). destruct IH as (z & Hz & Pz); [lra|]. exists z. split; [now right|exact Pz].
    - intros (y & Hy & P). eapply Rlt_le_trans; [exact P|]. apply (RSum_single (fun y => prob_joint tr em ini y o) y l Hy). intros z _. apply hmm_nonneg.
  Qed.

  (** C85: the partition is the log-likelihood of the observations; observations of
      probability 0 do not give minus infinity but the logarithm of the leak *)
  Theorem C85_hmm_likelihood : exists phi v,
    xhmm (xlogt transition) (xlogt emission) (xlogt init) observations = Ok phi /\ x_partition c (dat phi) = Ok v /\ length v = batch /\
    forall b l, (b < batch)%nat -> (2 <= len b)%nat -> Enumerates (is_seq C (len b)) l ->
      let P := likelihood tr em ini l (firstn (len b) (os b)) in
      (0 < P -> exists x, nth b v None = Some x /\ 0 <= x - ln P <= leak c b (4 * M)) /\
      (P = 0 -> exists x, nth b v None = Some x /\ exp x <= leak c b (2 * M)).
  Proof.
    destruct hmm_row as (phi & E & HB & H).
    destruct (@C51_masked_partition c (dat phi) (4 * M) V0 ltac:(lra) (or_intror HB)) as (v & Ev & Lv & Hv).
    exists phi, v. split; [exact E|]. split; [exact Ev|]. split; [exact Lv|]. intros b l Hb Hlen Hl P.
    destruct (H b Hb Hlen) as (E1 & E2 & E3).
    assert (Hr : row_ok c b) by (split; cbn; auto).
    assert (EP : xZ (seq_parts b) (dat phi) l = P).
    { rewrite xZ_prod. apply (Sum_ext_in R_csr). intros y Hy. apply E3. now apply Hl. }
    assert (Al : forall y, is_seq C (len b) y -> allowed (seq_parts b) (dat phi) y <-> 0 < prob_joint tr em ini y (firstn (len b) (os b))).
    { intros y Hy. rewrite allowed_pos, (E3 y Hy). reflexivity. }
    specialize (Hv b l Hr). cbv zeta in Hv. rewrite E1 in Hv. specialize (Hv Hl). destruct Hv as (_ & H1 & H2).
    change (prt (spec_of c b)) with (seq_parts b) in H1, H2. pose proof (EP : @xZ (st (spec_of c b)) (seq_parts b) (dat phi) l = P) as EP'. rewrite EP' in H1. split.
    - intro HP. apply H1. apply likelihood_pos in HP as (y & Hy & Py). apply Hl in Hy. exists y. split; [exact Hy|]. now apply Al.
    - intro HP. assert (Q : xexp (nth b v None) <= leak c b (4 * M / 2)).
      { apply H2. intros y Hy Ha. apply Al in Ha; auto. assert (0 < P); [|lra]. apply likelihood_pos. exists y. split; [now apply Hl|exact Ha]. }
      pose proof (@C51_chain_never_minus_infinity batch N C ls (dat phi) v b V0 Ev Hb) as Hnn.
      destruct (nth b v None) as [x|]; [|congruence]. exists x. split; [reflexivity|]. cbn [xexp] in Q. now replace (2 * M) with (4 * M / 2) by lra.
  Qed.

  (** the marginals are the posterior probabilities of the transitions: impossible
      events do not make them NaN *)
  Theorem C85_hmm_posterior G : records c G -> (forall b, (b < batch)%nat -> records_values (fun t => t = row_graph c b) (fst (G b)) (snd (G b))) ->
    exists phi, xhmm (xlogt transition) (xlogt emission) (xlogt init) observations = Ok phi /\
    forall b l, (b < batch)%nat -> (2 <= len b)%nat -> Enumerates (is_seq C (len b)) l ->
      0 < likelihood tr em ini l (firstn (len b) (os b)) ->
      forall n i j, (n < len b - 1)%nat ->
      exists x, f_marginals c G (dat phi) [b; n; i; j] = FR x /\
        Rabs (x - posterior tr em ini l (firstn (len b) (os b)) n i j) <= INR (degree c b) * leak c b (4 * M).
  Proof.
    intros HG HR. destruct hmm_row as (phi & E & HB & H). exists phi. split; [exact E|]. intros b l Hb Hlen Hl HP n i j Hn.
    destruct (H b Hb Hlen) as (E1 & E2 & E3).
    assert (EP : xZ (seq_parts b) (dat phi) l = likelihood tr em ini l (firstn (len b) (os b))).
    { rewrite xZ_prod. apply (Sum_ext_in R_csr). intros y Hy. apply E3. now apply Hl. }
    destruct (@C78_chain batch N C ls G (dat phi) (4 * M) V0 HG ltac:(lra) HB b [b; n; i; j] Hb eq_refl (HR b Hb)) as (x & Ex & Hx & _).
    { apply likelihood_pos in HP as (y & Hy & Py). apply Hl in Hy. exists y. change (CLin batch N C ls) with c. rewrite E1. split; [exact Hy|].
      change (prt (spec_of c b)) with (seq_parts b). apply allowed_pos. now rewrite (E3 y Hy). }
    exists x. split; [exact Ex|]. specialize (Hx l). change (CLin batch N C ls) with c in Hx. rewrite E1 in Hx. specialize (Hx Hl).
    change (prt (spec_of c b)) with (seq_parts b) in Hx.
    replace (posterior tr em ini l (firstn (len b) (os b)) n i j) with (cond_marg (seq_parts b) l (dat phi) [b; n; i; j]); [exact Hx|].
    unfold cond_marg, posterior. rewrite EP. apply (Sum_ext_in R_csr). intros y Hy. apply Hl in Hy. rewrite <- (E3 y Hy), prod_xexp, uses_seq.
    rewrite (proj1 Hy). destruct (Nat.ltb_spec n (len b - 1)) as [_|]; [|lia]. cbn [andb]. rewrite (Nat.eqb_sym i), (Nat.eqb_sym j).
    unfold sc. destruct (forallb _ _), ((nth (n + 1) y 0 =? i) && (nth n y 0 =? j))%nat; cbn [ind]; unfold Rdiv; ring.
  Qed.

  (** argmax is a most probable state sequence *)
  Theorem C85_hmm_viterbi G o : records c G -> 2 * (INR (degree c 0) * (4 * M)) < 100000 ->
    exists phi, xhmm (xlogt transition) (xlogt emission) (xlogt init) observations = Ok phi /\
    ((forall b, (b < batch)%nat -> xargmax_node (fst (G b)) (dat phi) (o b)) ->
     forall b l, (b < batch)%nat -> (2 <= len b)%nat -> Enumerates (is_seq C (len b)) l ->
       0 < likelihood tr em ini l (firstn (len b) (os b)) ->
       exists y, is_seq C (len b) y /\
         (forall y', is_seq C (len b) y' -> prob_joint tr em ini y' (firstn (len b) (os b)) <= prob_joint tr em ini y (firstn (len b) (os b))) /\
         forall e, nth 0 e 0%nat = b -> f_argmax c G o e = uses (seq_parts b) e y).
  Proof.
    intros HG HD. destruct hmm_row as (phi & E & HB & H). exists phi. split; [exact E|]. intros Hor b l Hb Hlen Hl HP.
    destruct (H b Hb Hlen) as (E1 & E2 & E3).
    assert (Hr : row_ok c b) by (split; cbn; auto).
    assert (Al : forall y, is_seq C (len b) y -> allowed (seq_parts b) (dat phi) y <-> 0 < prob_joint tr em ini y (firstn (len b) (os b))).
    { intros y Hy. rewrite allowed_pos, (E3 y Hy). reflexivity. }
    destruct (@C78_argmax c G (dat phi) o V0 HG Hor b Hr) as (y & Hy & Ay & By & Uy).
    { right. exists (4 * M). split; [lra|]. split; [exact HB|exact HD]. }
    { apply likelihood_pos in HP as (y & Hy & Py). apply Hl in Hy. exists y. rewrite E1. split; [exact Hy|]. now apply Al. }
    rewrite E1 in Hy, By. change (prt (spec_of c b)) with (seq_parts b) in *. exists y. split; [exact Hy|]. split.
    - intros y' Hy'. assert (Py : 0 < prob_joint tr em ini y (firstn (len b) (os b))) by now apply Al.
      destruct (Rlt_dec 0 (prob_joint tr em ini y' (firstn (len b) (os b)))) as [P|P]; [|lra].
      assert (Q : sc (seq_parts b) (fin (dat phi)) y' <= sc (seq_parts b) (fin (dat phi)) y) by (apply By; auto; now apply Al).
      rewrite <- (E3 y Hy), <- (E3 y' Hy'), !prod_xexp. rewrite (proj2 (allowedb _ _ _) Ay), (proj2 (allowedb _ _ _) (proj2 (Al y' Hy') P)).
      destruct Q as [Q|Q]; [left; apply exp_increasing, Q|right; unfold sc in Q; now rewrite Q].
    - exact Uy.
  Qed.
End Hmm.
Print Assumptions C85_hmm_likelihood.
Print Assumptions C85_hmm_posterior.
Print Assumptions C85_hmm_viterbi.

(** with stochastic parameters the joint is a probability distribution, zeros included *)
Lemma prob_steps_total C V tr em n : (forall c, (c < C)%nat -> RSum (fun c' => tr c' c) (seq 0 C) = 1) ->
  (forall c, (c < C)%nat -> RSum (fun o => em o c) (seq 0 V) = 1) -> forall c, (c < C)%nat ->
  RSum (fun ys => RSum (fun os => prob_steps tr em c ys os) (seqs V n)) (seqs C n) = 1.
Proof.
  intros Ht He. induction n as [|n IH]; intros c Hc.
  - cbn [seqs]. rewrite !RSum_cons. cbn [prob_steps]. unfold Sum. cbn. lra.
  - rewrite seqs_sum_S. rewrite <- (Ht c Hc). apply (Sum_ext_in R_csr). intros c' Hc'. apply in_seq in Hc'.
    transitivity (RSum (fun y => RSum (fun o => tr c' c * em o c' * RSum (fun os => prob_steps tr em c' y os) (seqs V n)) (seq 0 V)) (seqs C n)).
    { apply (Sum_ext R_csr). intro y. rewrite seqs_sum_S. apply (Sum_ext R_csr). intro o. rewrite <- RSum_scal. apply (Sum_ext R_csr). intro os. reflexivity. }
    transitivity (RSum (fun y => tr c' c * RSum (fun os => prob_steps tr em c' y os) (seqs V n)) (seqs C n)).
    { apply (Sum_ext R_csr). intro y. rewrite RSum_scar, RSum_scal, He by lia. ring. }
    rewrite RSum_scal, IH by lia. ring.
Qed.
Theorem C85_joint_is_distribution C V tr em ini n : RSum ini (seq 0 C) = 1 ->
  (forall c, (c < C)%nat -> RSum (fun c' => tr c' c) (seq 0 C) = 1) ->
  (forall c, (c < C)%nat -> RSum (fun o => em o c) (seq 0 V) = 1) ->
  RSum (fun os => likelihood tr em ini (seqs C (S n)) os) (seqs V (S n)) = 1.
Proof.
  intros Hi Ht He. unfold likelihood. etransitivity; [apply (Sum_comm R_csr)|]. rewrite seqs_sum_S. rewrite <- Hi. apply (Sum_ext_in R_csr). intros c Hc. apply in_seq in Hc.
  transitivity (RSum (fun y => RSum (fun o => ini c * em o c * RSum (fun os => prob_steps tr em c y os) (seqs V n)) (seq 0 V)) (seqs C n)).
  { apply (Sum_ext R_csr). intro y. rewrite seqs_sum_S. apply (Sum_ext R_csr). intro o. rewrite <- RSum_scal. apply (Sum_ext R_csr). intro os. reflexivity. }
  transitivity (RSum (fun y => ini c * RSum (fun os => prob_steps tr em c y os) (seqs V n)) (seqs C n)).
  { apply (Sum_ext R_csr). intro y. rewrite RSum_scar, RSum_scal, He by lia. ring. }
  rewrite RSum_scal, (@prob_steps_total C V tr em n) by (auto; lia). ring.
Qed.
Print Assumptions C85_joint_is_distribution.

(** ** Hidden semi-Markov models *)
(** spec: how often a segmentation has a segment of width w and state i at position n
    after state j *)
Fixpoint seg_at (n w i j : nat) (m cur : nat) (l : list (nat * nat)) : R :=
  match l with
  | [] => 0
  | (w', i') :: l' => (if ((m =? n) && (w' =? w) && (i' =? i) && (cur =? j))%nat then 1 else 0) + seg_at n w i j (m + w') i' l'
  end.
Lemma seg_at_uses b n w i j : forall l m cur,
  INR (count_occ (list_eq_dec Nat.eq_dec) (segs_parts b m cur l) [b; n; w; i; j]) = seg_at n w i j m cur l.
Proof.
  induction l as [|[w' i'] l IH]; intros m cur; [reflexivity|]. cbn [segs_parts count_occ seg_at]. rewrite <- IH.
  destruct (list_eq_dec Nat.eq_dec [b; m; w'; i'; cur] [b; n; w; i; j]) as [E|E].
  - injection E as -> -> -> ->. rewrite !Nat.eqb_refl. cbn [andb]. rewrite S_INR. ring.
  - destruct (Nat.eqb_spec m n) as [->|]; [|cbn [andb]; ring]. destruct (Nat.eqb_spec w' w) as [->|]; [|cbn [andb]; ring].
    destruct (Nat.eqb_spec i' i) as [->|]; [|cbn [andb]; ring]. destruct (Nat.eqb_spec cur j) as [->|]; [congruence|cbn [andb]; ring].
Qed.
Lemma xhsmm_spec ini tr tl em batch N K C :
  shape tr = [C; C] -> shape tl = [C; K] -> shape em = [batch; N; K; C] -> (1 <= N)%nat -> shape ini = [C] \/ shape ini = [batch; C] ->
  (forall e, 0 <= dat ini e) -> (forall e, 0 <= dat tr e) -> (forall e, 0 <= dat tl e) -> (forall e, 0 <= dat em e) ->
  exists phi, xhsmm (xlogt ini) (xlogt tr) (xlogt tl) (xlogt em) = Ok phi /\ shape phi = [batch; N; K; C; C] /\
    (forall M, 0 <= M -> (forall e, 0 < dat ini e -> Rabs (ln (dat ini e)) <= M) -> (forall e, 0 < dat tr e -> Rabs (ln (dat tr e)) <= M) ->
       (forall e, 0 < dat tl e -> Rabs (ln (dat tl e)) <= M) -> (forall e, 0 < dat em e -> Rabs (ln (dat em e)) <= M) ->
       forall e x, dat phi e = Some x -> Rabs x <= 4 * M) /\
    forall b len y, (2 <= len)%nat -> is_segm K C len y ->
      RProd (fun e => xexp (dat phi e)) (segm_parts b y) =
      seg_joint (fun c c' => dat tr [c; c']) (fun c w => dat tl [c; w]) (fun n w c => dat em [b; n; w; c])
        (fun c => if Nat.eqb (length (shape ini)) 1 then dat ini [c] else dat ini [b; c]) y.
Proof.
  intros Ht Hl He HN Hi Ni Nt Nl Ne. unfold xhsmm. cbn [shape xlogt]. rewrite He, Ht, Hl. destruct (Nat.eqb_spec N 0) as [|_]; [lia|].
  destruct (idx_dec [C; C] [C; C]) as [_|]; [|congruence]. destruct (idx_dec [C; K] [C; K]) as [_|]; [|congruence].
  set (init := fun (b : nat) c => if Nat.eqb (length (shape ini)) 1 then dat ini [c] else dat ini [b; c]).
  assert (E : exists ii, (if idx_dec (shape ini) [C] then Ok (fun (b : nat) c => dat (xlogt ini) [c])
            else if idx_dec (shape ini) [batch; C] then Ok (fun b c => dat (xlogt ini) [b; c]) else Err RuntimeError) = Ok ii /\ forall b c, ii b c = xlog (init b c)).
  { unfold init. destruct Hi as [Hi|Hi]; rewrite Hi; cbn [length Nat.eqb].
    - destruct (idx_dec [C] [C]); [|congruence]. eexists; split; reflexivity.
    - destruct (idx_dec [batch; C] [C]); [discriminate|]. destruct (idx_dec [batch; C] [batch; C]); [|congruence]. eexists; split; reflexivity. }
  destruct E as (ii & E & Hii). cbn [dat xlogt] in E |- *. rewrite E. cbn [bind]. eexists. split; [reflexivity|]. split; [reflexivity|]. cbn [dat]. split.
  - intros M HM HI HT HL HE e x.
    assert (H0 : forall x, Some 0 = Some x -> Rabs x <= 4 * M) by (intros x' E'; injection E' as <-; rewrite Rabs_R0; lra).
    assert (L : forall t : tensor R, (forall e, 0 < dat t e -> Rabs (ln (dat t e)) <= M) -> forall e x, xlog (dat t e) = Some x -> Rabs x <= M).
    { intros t Hb e' x'. unfold xlog. destruct (Rlt_dec 0 (dat t e')) as [P|P]; [|discriminate]. intro E'. injection E' as <-. auto. }
    pose proof (L _ HT) as LT. pose proof (L _ HE) as LE. pose proof (L _ HI) as LI. pose proof (L _ HL) as LL. clear L.
    destruct e as [|b [|n [|k [|c2 [|c1 [|]]]]]]; try (apply H0).
    assert (Z : forall x, Some 0 = Some x -> Rabs x <= 0) by (intros x' E'; injection E' as <-; rewrite Rabs_R0; lra).
    assert (LI' : forall x, ii b c1 = Some x -> Rabs x <= M) by (intro x'; rewrite Hii; unfold init; destruct (Nat.eqb _ 1); apply LI).
    destruct (Nat.eqb n 0).
    + replace (4 * M) with (0 + M + M + M + M) by ring. revert x. repeat apply xplus_bound; first [exact Z|exact (LT _)|exact (LE _)|exact LI'|exact (LL _)].
    + intro E'. assert (E2 : Rabs x <= 0 + M + M + M); [|lra]. revert x E'. repeat apply xplus_bound; first [exact Z|exact (LT _)|exact (LE _)|exact (LL _)].
  - intros b len [c l] Hlen (Hc & Hf & Hw). cbn [fst snd] in *. unfold segm_parts, seg_joint. cbn [fst snd].
    set (phi := fun idx : list nat => _).
    assert (Hp : Forall (fun s => 1 <= fst s)%nat l) by (eapply Forall_impl; [|exact Hf]; intros s Hs; apply Hs).
    assert (G : forall l n c, Forall (fun s => 1 <= fst s)%nat l -> (0 < n)%nat ->
      RProd phi (segs_parts b n c l) = seg_steps (fun c c' => dat tr [c; c']) (fun c w => dat tl [c; w]) (fun n w c => dat em [b; n; w; c]) n c l).
    { clear Hc Hf Hw Hp l. induction l as [|[w c'] l IH]; intros n c0 Hp Hn; [reflexivity|]. inversion Hp as [|? ? Hw Hp']; subst. cbn [fst] in Hw.
      cbn [segs_parts seg_steps]. rewrite Prod_cons. rewrite IH by (auto; lia). cbn [kmul R_csr]. f_equal. unfold phi. destruct n; [lia|]. cbn [Nat.eqb].
      rewrite !xplus_exp, !xlog_exp by auto. cbn [xexp]. rewrite exp_0. ring. }
    destruct l as [|[w c'] l]; [cbn in Hw; lia|]. inversion Hp as [|? ? Hw' Hp']; subst. cbn [fst] in Hw'.
    cbn [segs_parts seg_steps]. rewrite Prod_cons, G by (auto; lia). cbn [kmul R_csr]. unfold phi at 1. cbn [Nat.eqb]. rewrite Hii, !xplus_exp, !xlog_exp by (auto; unfold init; destruct (Nat.eqb _ 1); auto).
    cbn [xexp]. rewrite exp_0. unfold init. ring.
Qed.
Section Hsmm.
  Variables (ini tr tl em : tensor R) (batch N K C : nat) (ls : option (list nat)) (M : R).
  Hypothesis (Ht : shape tr = [C; C]) (Hl : shape tl = [C; K]) (He : shape em = [batch; N; K; C]) (HN : (1 <= N)%nat) (Hi : shape ini = [C] \/ shape ini = [batch; C]).
  Hypothesis (Ni : forall e, 0 <= dat ini e) (Nt : forall e, 0 <= dat tr e) (Nl : forall e, 0 <= dat tl e) (Ne : forall e, 0 <= dat em e).
  Hypothesis (HM : 0 <= M) (Mi : forall e, 0 < dat ini e -> Rabs (ln (dat ini e)) <= M) (Mt : forall e, 0 < dat tr e -> Rabs (ln (dat tr e)) <= M)
    (Ml : forall e, 0 < dat tl e -> Rabs (ln (dat tl e)) <= M) (Me : forall e, 0 < dat em e -> Rabs (ln (dat em e)) <= M).
  Let c := CSemi batch (S N) K C ls.
  Hypothesis V0 : valid c.
  Let len b := lc_len (S N) ls b.
  Let joint b := seg_joint (fun c c' => dat tr [c; c']) (fun c w => dat tl [c; w]) (fun n w c => dat em [b; n; w; c])
        (fun c => if Nat.eqb (length (shape ini)) 1 then dat ini [c] else dat ini [b; c]).
  Lemma joint_nonneg b y : 0 <= joint b y.
  Proof.
    unfold joint, seg_joint. apply Rmult_le_pos; [destruct (Nat.eqb _ 1); auto|]. generalize 0%nat, (fst y). induction (snd y) as [|[w c'] l IH]; intros n c0; cbn [seg_steps]; [lra|].
    repeat apply Rmult_le_pos; auto.
  Qed.
  Lemma seg_total_pos b l : 0 < RSum (joint b) l <-> exists y, In y l /\ 0 < joint b y.
  Proof.
    split.
    - intro H. induction l as [|y l IH]; [cbn in H; lra|]. rewrite RSum_cons in H. destruct (Rlt_dec 0 (joint b y)) as [P|P].
      + exists y. split; [now left|exact P].
      + pose proof (joint_nonneg b y). destruct IH as (z & Hz & Pz); [lra|]. exists z. split; [now right|exact Pz].
    - intros (y & Hy & P). eapply Rlt_le_trans; [exact P|]. apply (RSum_single (joint b) y l Hy). intros z _. apply joint_nonneg.
  Qed.
  (** C85: the partition of the segmentations is the log-likelihood, and the marginals
      are the posterior probabilities of the segments *)
  Theorem C85_hsmm_likelihood : exists phi v,
    xhsmm (xlogt ini) (xlogt tr) (xlogt tl) (xlogt em) = Ok phi /\ x_partition c (dat phi) = Ok v /\ length v = batch /\
    forall b l, (b < batch)%nat -> (2 <= len b)%nat -> Enumerates (is_segm K C (len b)) l ->
      (0 < RSum (joint b) l -> exists x, nth b v None = Some x /\ 0 <= x - ln (RSum (joint b) l) <= leak c b (4 * M)) /\
      (RSum (joint b) l = 0 -> xexp (nth b v None) <= leak c b (2 * M)).
  Proof.
    destruct (@xhsmm_spec ini tr tl em batch N K C Ht Hl He HN Hi Ni Nt Nl Ne) as (phi & E & _ & HB & H). specialize (HB M HM Mi Mt Ml Me).
    destruct (@C51_masked_partition c (dat phi) (4 * M) V0 ltac:(lra) (or_intror HB)) as (v & Ev & Lv & Hv).
    exists phi, v. split; [exact E|]. split; [exact Ev|]. split; [exact Lv|]. intros b l Hb Hlen Hen.
    assert (Hr : row_ok c b) by (split; cbn; auto).
    assert (EP : @xZ (st (spec_of c b)) (segm_parts b) (dat phi) l = RSum (joint b) l).
    { etransitivity; [apply xZ_prod|]. apply (Sum_ext_in R_csr). intros y Hy. apply (H b (len b)); auto. now apply Hen. }
    assert (Al : forall y, is_segm K C (len b) y -> allowed (segm_parts b) (dat phi) y <-> 0 < joint b y).
    { intros y Hy. rewrite allowed_pos, (H b (len b) y Hlen Hy). reflexivity. }
    destruct (Hv b l Hr Hen) as (_ & H1 & H2). change (prt (spec_of c b)) with (segm_parts b) in H1, H2. rewrite EP in H1. split.
    - intro HP. apply H1. apply seg_total_pos in HP as (y & Hy & Py). apply Hen in Hy. exists y. split; [exact Hy|]. now apply Al.
    - intro HP. replace (2 * M) with (4 * M / 2) by lra. apply H2. intros y Hy Ha. apply (Al y Hy) in Ha.
      assert (0 < RSum (joint b) l); [|lra]. apply seg_total_pos. exists y. split; [now apply Hen|exact Ha].
  Qed.
  Theorem C85_hsmm_posterior G : records c G -> (forall b, (b < batch)%nat -> records_values (fun t => In t (semi_row (S N) K C ls b)) (fst (G b)) (snd (G b))) ->
    exists phi, xhsmm (xlogt ini) (xlogt tr) (xlogt tl) (xlogt em) = Ok phi /\
    forall b l, (b < batch)%nat -> (2 <= len b)%nat -> Enumerates (is_segm K C (len b)) l -> 0 < RSum (joint b) l ->
      forall n w i j, exists x, f_marginals c G (dat phi) [b; n; w; i; j] = FR x /\
        Rabs (x - RSum (fun y => joint b y / RSum (joint b) l * seg_at n w i j 0 (fst y) (snd y)) l) <= INR (degree c b) * leak c b (4 * M).
  Proof.
    intros HG HR. destruct (@xhsmm_spec ini tr tl em batch N K C Ht Hl He HN Hi Ni Nt Nl Ne) as (phi & E & _ & HB & H). specialize (HB M HM Mi Mt Ml Me).
    exists phi. split; [exact E|]. intros b l Hb Hlen Hen HP n w i j.
    assert (EP : xZ (segm_parts b) (dat phi) l = RSum (joint b) l).
    { etransitivity; [apply xZ_prod|]. apply (Sum_ext_in R_csr). intros y Hy. apply (H b (len b)); auto. now apply Hen. }
    destruct (@C81_semi_marginals batch (S N) K C ls G (dat phi) (4 * M) V0 HG ltac:(lra) HB b [b; n; w; i; j] Hb eq_refl (HR b Hb)) as (x & Ex & Hx & _).
    { apply seg_total_pos in HP as (y & Hy & Py). apply Hen in Hy. exists y. split; [exact Hy|].
      apply (proj2 (allowed_pos (segm_parts b) (dat phi) y)). rewrite (H b (len b) y Hlen Hy). exact Py. }
    exists x. split; [exact Ex|]. specialize (Hx l Hen). change (prt (spec_of (CSemi batch (S N) K C ls) b)) with (segm_parts b) in Hx.
    replace (RSum (fun y => joint b y / RSum (joint b) l * seg_at n w i j 0 (fst y) (snd y)) l) with (cond_marg (segm_parts b) l (dat phi) [b; n; w; i; j]); [exact Hx|].
    unfold cond_marg. rewrite EP. apply (Sum_ext_in R_csr). intros y Hy. apply Hen in Hy. unfold joint at 2. rewrite <- (H b (len b) y Hlen Hy), prod_xexp.
    rewrite <- (seg_at_uses b). fold (segm_parts b y). unfold uses, sc. destruct (forallb _ _); [reflexivity|]. unfold Rdiv. ring.
  Qed.
End Hsmm.
Print Assumptions C85_hsmm_likelihood.
Print Assumptions C85_hsmm_posterior.

(** ** A left-to-right model with two states: state 0 always shows symbol 0 and can move
    to state 1, which shows both symbols and is never left *)
Definition lr_tr : tensor R := {| shape := [2; 2]%nat; dat := fun e => if (nth 1 e 0 =? 0)%nat then 1 / 2 else if (nth 0 e 0 =? 0)%nat then 0 else 1 |}.
(** example: emissions *)
Definition lr_em : tensor R := {| shape := [2; 2]%nat; dat := fun e => if (nth 1 e 0 =? 0)%nat then (if (nth 0 e 0 =? 0)%nat then 1 else 0) else 1 / 2 |}.
(** example: the first state is state 0 *)
Definition lr_ini : tensor R := {| shape := [2%nat]; dat := fun e => if (nth 0 e 0 =? 0)%nat then 1 else 0 |}.
(** example: row 0 shows 0 1 1, row 1 shows 1 1 0, which is impossible *)
Definition lr_obs : tensor Z := {| shape := [2; 3]%nat; dat := fun i => nth (nth 1 i 0%nat) (nth (nth 0 i 0%nat) [[0;1;1];[1;1;0]]%Z []) 0%Z |}.
(** example: the same observations as lists *)
Definition lr_os (b : nat) : list nat := match b with O => [0;1;1]%nat | _ => [1;1;0]%nat end.
(** example: the call *)
Definition lr_call : call := CLin 2 3 2 None.
Lemma abs_ln1 : Rabs (ln 1) <= 1.
Proof. rewrite ln_1, Rabs_R0. lra. Qed.
Lemma lr_ok : (forall e, 0 <= dat lr_tr e) /\ (forall e, 0 <= dat lr_em e) /\ (forall e, 0 <= dat lr_ini e) /\
  (forall e, 0 < dat lr_tr e -> Rabs (ln (dat lr_tr e)) <= 1) /\ (forall e, 0 < dat lr_em e -> Rabs (ln (dat lr_em e)) <= 1) /\ (forall e, 0 < dat lr_ini e -> Rabs (ln (dat lr_ini e)) <= 1) /\
  (forall b, (b < 2)%nat -> zrow lr_obs b = map Z.of_nat (lr_os b) /\ is_seq 2 3 (lr_os b)) /\ valid lr_call.
Proof.
  pose proof ln_half. pose proof abs_ln1.
  split; [|split; [|split; [|split; [|split; [|split; [|split]]]]]].
  1-6: intro e; cbn [dat lr_tr lr_em lr_ini]; repeat destruct (Nat.eqb _ _); try lra; auto.
  - intros b Hb. destruct b as [|[|b]]; [..|lia]; (split; [reflexivity|]); (split; [reflexivity|repeat constructor; lia]).
  - cbn. unfold lc_args. repeat split; try lia.
Qed.
Lemma lr_likelihood : likelihood (fun c' c => dat lr_tr [c'; c]) (fun o c => dat lr_em [o; c]) (fun c => dat lr_ini [c]) (seqs 2 3) [0;1;1]%nat = 1 / 8 /\
  likelihood (fun c' c => dat lr_tr [c'; c]) (fun o c => dat lr_em [o; c]) (fun c => dat lr_ini [c]) (seqs 2 3) [1;1;0]%nat = 0.
Proof. unfold likelihood. cbn [seqs map flat_map seq app]. rewrite !RSum_cons. cbn. split; lra. Qed.
(** the parameters are stochastic, and the theorems apply to them *)
Example ex_C85 : RSum (fun os => likelihood (fun c' c => dat lr_tr [c'; c]) (fun o c => dat lr_em [o; c]) (fun c => dat lr_ini [c]) (seqs 2 3) os) (seqs 2 3) = 1 /\
  exists phi v x, xhmm (xlogt lr_tr) (xlogt lr_em) (xlogt lr_ini) lr_obs = Ok phi /\ x_partition lr_call (dat phi) = Ok v /\
    nth 0 v None = Some x /\ 0 <= x - ln (1 / 8) <= leak lr_call 0 4.
Proof.
  split.
  - apply (@C85_joint_is_distribution 2 2 (fun c' c => dat lr_tr [c'; c]) (fun o c => dat lr_em [o; c]) (fun c => dat lr_ini [c]) 2); [|intros c Hc; destruct c as [|[|c]]; [..|lia]|intros c Hc; destruct c as [|[|c]]; [..|lia]];
      cbn [seq]; rewrite !RSum_cons; cbn; lra.
  - destruct lr_ok as (A1 & A2 & A3 & A4 & A5 & A6 & A7 & A8).
    destruct (@C85_hmm_likelihood lr_tr lr_em lr_ini lr_obs 2 2 2 3 None lr_os 1 eq_refl eq_refl eq_refl eq_refl ltac:(lia) A7 A1 A2 A3 ltac:(lra) A4 A5 A6 A8) as (phi & v & E & Ev & _ & H).
    destruct (H 0%nat (seqs 2 3) ltac:(lia) ltac:(cbn; lia) (seqs_enum 2 3)) as [H1 _]. cbn [lc_len firstn lr_os] in H1. rewrite (proj1 lr_likelihood) in H1.
    destruct (H1 ltac:(lra)) as (x & Ex & Hx). exists phi, v, x. split; [exact E|]. split; [exact Ev|]. split; [exact Ex|]. rewrite Rmult_1_r in Hx. exact Hx.
Qed.
(** impossible observations do not give a partition of minus infinity *)
Theorem C85_impossible_refuted : exists transition emission init observations phi v os l,
  xhmm (xlogt transition) (xlogt emission) (xlogt init) observations = Ok phi /\ x_partition lr_call (dat phi) = Ok v /\
  zrow observations 1 = map Z.of_nat os /\ Enumerates (is_seq 2 3) l /\
  likelihood (fun c' c => dat transition [c'; c]) (fun o c => dat emission [o; c]) (fun c => dat init [c]) l os = 0 /\ nth 1 v None <> None.
Proof.
  destruct lr_ok as (A1 & A2 & A3 & A4 & A5 & A6 & A7 & A8).
  destruct (@C85_hmm_likelihood lr_tr lr_em lr_ini lr_obs 2 2 2 3 None lr_os 1 eq_refl eq_refl eq_refl eq_refl ltac:(lia) A7 A1 A2 A3 ltac:(lra) A4 A5 A6 A8) as (phi & v & E & Ev & _ & H).
  exists lr_tr, lr_em, lr_ini, lr_obs, phi, v, [1;1;0]%nat, (seqs 2 3). split; [exact E|]. split; [exact Ev|]. split; [reflexivity|]. split; [apply seqs_enum|].
  split; [apply lr_likelihood|]. destruct (H 1%nat (seqs 2 3) ltac:(lia) ltac:(cbn; lia) (seqs_enum 2 3)) as [_ H1]. cbn [lc_len firstn lr_os] in H1.
  destruct (H1 (proj2 lr_likelihood)) as (x & -> & _). discriminate.
Qed.
Print Assumptions C85_impossible_refuted.
(** graphs and answers of torch.max as in the other theorems exist; the first step of row 0 surely goes from state 0 to state 1 *)
Example ex_C85_posterior : exists G phi x, records lr_call G /\ xhmm (xlogt lr_tr) (xlogt lr_em) (xlogt lr_ini) lr_obs = Ok phi /\
  f_marginals lr_call G (dat phi) [0; 0; 1; 0]%nat = FR x /\ Rabs (x - 1) <= INR (degree lr_call 0) * leak lr_call 0 4 /\
  2 * (INR (degree lr_call 0) * (4 * 1)) < 100000 /\
  exists o, forall b, (b < 2)%nat -> xargmax_node (fst (G b)) (dat phi) (o b).
Proof.
  destruct lr_ok as (A1 & A2 & A3 & A4 & A5 & A6 & A7 & A8).
  destruct (chain_graphs A8) as (G & HG & HR).
  destruct (@C85_hmm_posterior lr_tr lr_em lr_ini lr_obs 2 2 2 3 None lr_os 1 eq_refl eq_refl eq_refl eq_refl ltac:(lia) A7 A1 A2 A3 ltac:(lra) A4 A5 A6 A8 G HG HR) as (phi & E & H).
  destruct (H 0%nat (seqs 2 3) ltac:(lia) ltac:(cbn; lia) (seqs_enum 2 3)) with (n := 0%nat) (i := 1%nat) (j := 0%nat) as (x & Ex & Hx); [|cbn; lia|].
  { cbn [lc_len firstn lr_os]. rewrite (proj1 lr_likelihood). lra. }
  exists G, phi, x. split; [exact HG|]. split; [exact E|]. split; [exact Ex|]. split; [|split].
  - rewrite Rmult_1_r in Hx. cbn [lc_len firstn lr_os] in Hx.
    replace 1 with (posterior (fun c' c => dat lr_tr [c'; c]) (fun o c => dat lr_em [o; c]) (fun c => dat lr_ini [c]) (seqs 2 3) [0;1;1]%nat 0 1 0) at 1; [exact Hx|].
    unfold posterior. rewrite (proj1 lr_likelihood). cbn [seqs map flat_map seq app]. rewrite !RSum_cons. cbn. lra.
  - change (degree lr_call 0) with 2%nat. cbn [INR]. lra.
  - destruct (HG 0%nat ltac:(cbn; lia)) as [T0 _]. destruct (HG 1%nat ltac:(cbn; lia)) as [T1 _].
    destruct (@xargmax_node_exists (fst (G 0%nat)) (dat phi) T0) as [o0 H0]. destruct (@xargmax_node_exists (fst (G 1%nat)) (dat phi) T1) as [o1 H1].
    exists (fun b => match b with O => o0 | _ => o1 end). intros [|[|b]] Hb; [exact H0|exact H1|lia].
Qed.
(** a semi-Markov model with three positions: segments of width 2 do not exist in state 0 *)
Definition lr_tl : tensor R := {| shape := [2; 3]%nat; dat := fun e => if (nth 1 e 0 =? 0)%nat then 0 else if (nth 0 e 0 =? 0)%nat then (if (nth 1 e 0 =? 1)%nat then 1 else 0) else 1 / 2 |}.
(** example: emissions of segments *)
Definition lr_em3 : tensor R := {| shape := [1; 3; 3; 2]%nat; dat := fun _ => 1 / 2 |}.
Example ex_C85_hsmm : let c := CSemi 1 4 3 2 None in valid c /\ exists G phi, records c G /\
  xhsmm (xlogt lr_ini) (xlogt lr_tr) (xlogt lr_tl) (xlogt lr_em3) = Ok phi /\ dat phi [0;0;2;0;0]%nat = None /\
  forall n w i j, exists x, f_marginals c G (dat phi) [0%nat; n; w; i; j] = FR x.
Proof.
  cbv zeta. destruct lr_ok as (A1 & A2 & A3 & A4 & A5 & A6 & _ & _).
  assert (V : valid (CSemi 1 4 3 2 None)) by (cbn; repeat split; lia).
  assert (B1 : forall e, 0 <= dat lr_tl e) by (intro e; cbn [dat lr_tl]; repeat destruct (Nat.eqb _ _); lra).
  assert (B2 : forall e, 0 < dat lr_tl e -> Rabs (ln (dat lr_tl e)) <= 1) by (pose proof ln_half; pose proof abs_ln1; intro e; cbn [dat lr_tl]; repeat destruct (Nat.eqb _ _); try lra; auto).
  assert (B3 : forall e, 0 <= dat lr_em3 e) by (intro e; cbn; lra).
  assert (B4 : forall e, 0 < dat lr_em3 e -> Rabs (ln (dat lr_em3 e)) <= 1) by (intros e _; apply ln_half).
  split; [exact V|]. destruct (semi_graphs V) as (G & HG & HR). exists G.
  destruct (@C85_hsmm_posterior lr_ini lr_tr lr_tl lr_em3 1 3 3 2 None 1 eq_refl eq_refl eq_refl ltac:(lia) (or_introl eq_refl) A3 A1 B1 B3 ltac:(lra) A6 A4 B2 B4 V G HG HR) as (phi & E & H).
  exists phi. split; [exact HG|]. split; [exact E|]. split.
  - unfold xhsmm in E. cbn in E. injection E as <-. cbn. unfold xlog. destruct (Rlt_dec 0 0); [lra|]. destruct (Rlt_dec 0 1); [|reflexivity]. destruct (Rlt_dec 0 (1/2)); reflexivity.
  - intros n w i j. destruct (H 0%nat (segms 3 2 4) ltac:(lia) ltac:(cbn; lia) (segms_enum 3 2 4)) with (n := n) (w := w) (i := i) (j := j) as (x & Ex & _); [|exists x; exact Ex].
    eapply Rlt_le_trans; [|apply (RSum_single _ (0, [(1, 0); (1, 0); (1, 0)])%nat)].
    + unfold seg_joint. cbn. lra.
    + apply segms_enum. unfold is_segm, seg_ok. cbn. repeat split; try lia; repeat constructor; cbn; lia.
    + intros y _. apply (@joint_nonneg lr_ini lr_tr lr_tl lr_em3); auto.
Qed.
(** on finite parameters both models of [hmm] agree, errors included *)
Definition finite_t (t : tensor R) : tensor ext := {| shape := shape t; dat := fun e => Some (dat t e) |}.
Theorem C85_hmm_agrees transition emission init observations :
  match hmm transition emission init observations, xhmm (finite_t transition) (finite_t emission) (finite_t init) observations with
  | Ok phi, Ok phi' => shape phi' = shape phi /\ forall e, dat phi' e = Some (dat phi e)
  | Err x, Err y => x = y
  | _, _ => False
  end.
Proof.
  unfold hmm, xhmm. cbn [shape finite_t]. destruct (shape emission) as [|V [|C [|]]]; try reflexivity. destruct (shape observations) as [|batch [|N [|]]]; try reflexivity.
  destruct (N =? 0)%nat; [reflexivity|]. destruct (idx_dec (shape transition) [C; C]); [|reflexivity]. destruct (N =? 1)%nat; [reflexivity|].
  destruct (idx_dec (shape init) [C]); [|reflexivity]. destruct (mapM _ (seq 0 batch)); [|reflexivity]. cbn [bind]. split; [reflexivity|].
  intros [|b [|m [|i [|j [|]]]]]; try reflexivity. cbn [dat finite_t]. destruct (m =? 0)%nat; reflexivity.
Qed.
Theorem C85_hsmm_agrees ini tr tl em :
  match hsmm ini tr tl em, xhsmm (finite_t ini) (finite_t tr) (finite_t tl) (finite_t em) with
  | Ok phi, Ok phi' => shape phi' = shape phi /\ forall e, dat phi' e = Some (dat phi e)
  | Err x, Err y => x = y
  | _, _ => False
  end.
Proof.
  unfold hsmm, xhsmm. cbn [shape finite_t]. destruct (shape em) as [|batch [|N [|K [|C [|]]]]]; try reflexivity.
  destruct (N =? 0)%nat; [reflexivity|]. destruct (idx_dec (shape ini) [C]).
  2: destruct (idx_dec (shape ini) [batch; C]); [|reflexivity].
  all: cbn [bind]; destruct (idx_dec (shape tr) [C; C]); [|reflexivity]; destruct (idx_dec (shape tl) [C; K]); [|reflexivity]; split; [reflexivity|];
    intros [|b [|m [|k [|c2 [|c1 [|]]]]]]; try reflexivity; cbn [dat finite_t]; destruct (m =? 0)%nat; reflexivity.
Qed.
