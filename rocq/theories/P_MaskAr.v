(** * P_MaskAr: autoregressive models with forbidden classes

    A user's module forbids classes by giving them logits of minus infinity. The
    model is that of AutoReg.v (autoregressive.py 27-288) with such logits; here NaN can
    occur. *)
From Coq Require Import Reals Lra Permutation.
From Verif Require Import Base Ops Semirings Approx Grad LinearChain Adapters Sample Shape DagLaw AutoReg P_AutoReg Mask.
Set Implicit Arguments.
Local Open Scope R_scope.

(** ** Model *)
(** torch.max and torch.topk order NaN above every number *)
Definition nle (x y : num) : Prop :=
  match x, y with
  | _, NaN => True | NaN, _ => False
  | NInf, _ => True | _, NInf => False
  | Fin a, Fin b => a <= b
  end.
Section Ar.
  Variable St : Type.
  (** the user's module (autoregressive.py 6-24), by its documented contract, as in
      [AutoReg.model]; tokens are class indices, logits may be minus infinity *)
  Record xmodel := { xodim : nat; xmstep : St -> nat -> (nat -> ext) * St }.
  (** autoregressive.py 49-68 *)
  Record xar := { xmo : xmodel; xinit : nat -> St; xbatch : nat; xn_classes : nat; xn_length : nat; xnormalize : bool; xstart : nat }.
  Variable a : xar.
  (** state after reading [t] tokens (autoregressive.py 104, 156) *)
  Fixpoint xafter (st : St) (toks : nat -> nat) (t : nat) : St :=
    match t with O => st | S t' => snd (xmstep (xmo a) (xafter st toks t') (toks t')) end.
  (** self.model(tokens, state) for rows of T tokens (autoregressive.py 104, 156) *)
  Definition xforward (T : nat) (toks : nat -> nat -> nat) (st : nat -> St) : (nat -> nat -> nat -> ext) * (nat -> St) :=
    (fun i t => fst (xmstep (xmo a) (xafter (st i) (toks i) t) (toks i t)), fun i => xafter (st i) (toks i) T).
  (** autoregressive.py 112-115 and 172-173: log_softmax subtracts the logsumexp; when all
      logits are minus infinity this is -inf - -inf = NaN *)
  Definition xnorm (v : nat -> ext) (c : nat) : num :=
    if xnormalize a then nminus (of_ext (v c)) (of_ext (xlse (map v (seq 0 (xn_classes a))))) else of_ext (v c).
  (** autoregressive.py 70-118 with sparse=True, as [AutoReg.log_prob] *)
  Definition xlog_prob (sample N : nat) (value : nat -> nat -> nat -> nat) : res (nat -> nat -> num) :=
    let B := xbatch a in
    let value1 s b t := match t with O => xstart a | S t' => value s b t' end in
    let value2 := unwrap B value1 in
    let state := unwrap B (fun _ b => xinit a b) in
    let logits := fst (xforward (S N) (fun i t => value2 i t) state) in
    if negb (xodim (xmo a) =? xn_classes a)%nat then Err AssertionError else
    if negb (forallb (fun i => forallb (fun t => (value2 i (S t) <? xn_classes a)%nat) (seq 0 N)) (seq 0 (sample * B))) then Err RuntimeError else
    let scores i := nsum (map (fun t => xnorm (logits i t) (value2 i (S t))) (seq 0 N)) in
    Ok (wrap B scores).

  (** ** Beam search (autoregressive.py 120-191) *)
  (** the vector searched for row b (semirings.py 171-174, 215-225), as [AutoReg.sp_vec] *)
  Definition xsp_vec (r : srng) (xs : nat -> nat -> nat -> num) (b i : nat) : num := xs (sp_pos r i) b (sp_tok r i).
  (** its length *)
  Definition xsp_len (r : srng) : nat := match r with SMax => xn_classes a | SKMax k => (xn_classes a * k)%nat end.
  (** what torch.max and torch.topk (sorted) guarantee, as [AutoReg.is_topk] *)
  Definition xis_topk (K L : nat) (v : nat -> num) (sel : nat -> nat) : Prop :=
    (forall j, (j < K)%nat -> (sel j < L)%nat) /\
    (forall j j', (j < K)%nat -> (j' < K)%nat -> sel j = sel j' -> j = j') /\
    (forall j j', (j < j' < K)%nat -> nle (v (sel j')) (v (sel j))) /\
    (forall i, (i < L)%nat -> (forall j, (j < K)%nat -> sel j <> i) -> forall j, (j < K)%nat -> nle (v i) (v (sel j))).
  Variable r : srng.
  (** the indices torch returns at step t for row b *)
  Variable pick : nat -> nat -> nat -> nat.
  Let K := ssize r.
  Let B := xbatch a.
  (** loop variables beam, tokens, state (autoregressive.py 121-126, 145-150) *)
  Record xbst := { xbm : nat -> nat -> num; xtk : nat -> nat; xsts : nat -> St }.
  (** autoregressive.py 121-126, 145-150: the initial beam, tokens and states *)
  Definition xb0 : xbst := {| xbm := fun k _ => Fin (sone r k); xtk := fun _ => xstart a; xsts := unwrap B (fun _ b => xinit a b) |}.
  (** autoregressive.py 156-173, without Gumbel noise *)
  Definition xblogits (s : xbst) (k b : nat) : nat -> num :=
    let logits := fst (xforward 1 (fun i _ => xtk s i) (xsts s)) in
    xnorm (wrap B (fun i => logits i 0%nat) k b).
  (** autoregressive.py 175 *)
  Definition xex_beam (s : xbst) (k b c : nat) : num := nplus (xbm s k b) (xblogits s k b c).
  (** autoregressive.py 128-143, 156, 178-179 *)
  Definition xbstep (t : nat) (s : xbst) : xbst :=
    let st' := snd (xforward 1 (fun i _ => xtk s i) (xsts s)) in
    {| xbm := fun k b => xsp_vec r (xex_beam s) b (pick t b k);
       xtk := unwrap B (fun k b => sp_tok r (pick t b k));
       xsts := unwrap B (fun k b => st' (sp_pos r (pick t b k) * B + b)%nat) |}.
  (** autoregressive.py 155: the loop over the steps *)
  Fixpoint xbrun (t : nat) : xbst := match t with O => xb0 | S t' => xbstep t' (xbrun t') end.
  (** the tie-breaking of torch is arbitrary, but always picks maximal elements *)
  Definition xpicks_ok : Prop := forall t b, (t < xn_length a)%nat -> (b < B)%nat ->
    xis_topk K (xsp_len r) (xsp_vec r (xex_beam (xbrun t)) b) (pick t b).
  (** the sizes, for the backward pass [AutoReg.gex] (autoregressive.py 181-190), which
      reads nothing else: indices chosen by topk pass their gradient on *)
  Definition sizes : ar unit :=
    {| mo := {| odim := xn_classes a; mstep := fun _ _ => (fun _ => 0, tt) |}; init := fun _ => tt; batch := xbatch a;
       n_classes := xn_classes a; n_length := xn_length a; normalize := false; start_class := 0 |}.
  (** autoregressive.py 184-191: paths and final scores *)
  Definition xbeam_search : res ((nat -> nat -> nat -> nat -> R) * (nat -> nat -> num)) :=
    if (K =? 0)%nat || (xn_length a =? 0)%nat then Err RuntimeError else
    if negb (xodim (xmo a) =? xn_classes a)%nat then Err AssertionError else
    if (xn_classes a =? 0)%nat then Err (match r with SMax => IndexError | SKMax _ => RuntimeError end) else
    Ok (fun k b t c => RSum (fun k' => gex sizes r pick k t k' b c) (seq 0 K), xbm (xbrun (xn_length a))).
End Ar.

(** ** Sampling (autoregressive.py 259-288) *)
Section ArSample.
  Variable St : Type.
  Variable a : xar St.
  Variable S0 : nat.
  Let B := xbatch a.
  (** Categorical(logits=...).sample (285): a class of probability 0 is never drawn *)
  Definition xcategorical (C : nat) (v : nat -> ext) : pmf nat :=
    map (fun c => (xexp (v c) / RSum (fun x => xexp (v x)) (seq 0 C), c)) (filter (fun c => match v c with None => false | Some _ => true end) (seq 0 C)).
  (** the loop (282-286), as [AutoReg.ar_steps]; None: Categorical raises, because the
      logits of some row are all minus infinity *)
  Fixpoint xar_steps (n t : nat) (hist : nat -> nat -> nat) (tk : nat -> nat) (sts : nat -> St) : pmf (option (nat -> nat -> nat)) :=
    match n with
    | O => pret (Some hist)
    | S n' =>
        let f := xforward a 1 (fun i _ => tk i) sts in
        if existsb (fun i => forallb (fun c => match fst f i 0%nat c with None => true | Some _ => false end) (seq 0 (xn_classes a))) (seq 0 (S0 * B)) then pret None else
        pbind (pind (fun i => xcategorical (xn_classes a) (fst f i 0%nat)) 0%nat (S0 * B))
          (fun d => xar_steps n' (S t) (fun i t' => if (t' =? t)%nat then d i else hist i t') d (snd f))
    end.
  (** sample (259-288): class indices of shape sample x batch x N *)
  Definition xar_sample : pmf (option (nat -> nat -> nat -> nat)) :=
    pbind (xar_steps (xn_length a) 0 (fun _ _ => 0%nat) (fun _ => xstart a) (unwrap B (fun _ b => xinit a b)))
      (fun o => pret (option_map (wrap B) o)).
End ArSample.

(** ** Specification *)
Section Spec.
  Variable St : Type.
  Variable a : xar St.
  (** spec: weight of class c under logits v: its conditional probability, or exp of the
      logit if the model is not normalised; forbidden classes have weight 0 *)
  Definition cweight (v : nat -> ext) (c : nat) : R :=
    if xnormalize a then xexp (v c) / RSum (fun x => xexp (v x)) (seq 0 (xn_classes a)) else xexp (v c).
  (** spec: weight of a sequence: the product along it *)
  Fixpoint pweight (st : St) (prev : nat) (y : list nat) : R :=
    match y with
    | [] => 1
    | c :: y' => cweight (fst (xmstep (xmo a) st prev)) c * pweight (snd (xmstep (xmo a) st prev)) c y'
    end.
  (** spec: weight (probability) of a sequence in row b *)
  Definition weight (b : nat) (y : list nat) : R := pweight (xinit a b) (xstart a) y.
  (** spec: state and token before the next step *)
  Fixpoint xstp (st : St) (prev : nat) (y : list nat) : St * nat :=
    match y with [] => (st, prev) | c :: y' => xstp (snd (xmstep (xmo a) st prev)) c y' end.
  (** spec: the logits after a prefix *)
  Definition next (b : nat) (y : list nat) : nat -> ext :=
    fst (xmstep (xmo a) (fst (xstp (xinit a b) (xstart a) y)) (snd (xstp (xinit a b) (xstart a) y))).
  (** spec: every allowed prefix has an allowed continuation *)
  Definition open (b : nat) : Prop := forall t y, (t < xn_length a)%nat -> is_seq (xn_classes a) t y -> 0 < weight b y ->
    exists c, (c < xn_classes a)%nat /\ next b y c <> None.
  (** spec: allowed sequences of one length do not differ by a factor of exp(1e5) *)
  Definition wspread (b : nat) : Prop := forall t y y', (t <= xn_length a)%nat -> is_seq (xn_classes a) t y -> is_seq (xn_classes a) t y' ->
    0 < weight b y -> 0 < weight b y' -> exp NEG * weight b y < weight b y'.
End Spec.
(** spec: the same model with normalize=True *)
Definition normed St (a : xar St) : xar St :=
  {| xmo := xmo a; xinit := xinit a; xbatch := xbatch a; xn_classes := xn_classes a; xn_length := xn_length a; xnormalize := true; xstart := xstart a |}.
(** spec: the logarithm of a weight as a float *)
Definition nlog (p : R) : num := if Rlt_dec 0 p then Fin (ln p) else NInf.

(** ** Lemmas *)
Lemma nlog_mul p q : 0 <= p -> 0 <= q -> nplus (nlog p) (nlog q) = nlog (p * q).
Proof.
  intros Hp Hq. unfold nlog. destruct (Rlt_dec 0 p), (Rlt_dec 0 q), (Rlt_dec 0 (p * q)) as [H|H]; cbn [nplus]; try reflexivity.
  - now rewrite ln_mult.
  - exfalso. apply H. now apply Rmult_lt_0_compat.
  - exfalso. replace q with 0 in H by lra. lra.
  - exfalso. replace p with 0 in H by lra. lra.
  - exfalso. replace p with 0 in H by lra. lra.
Qed.
Lemma nlog_le p q : 0 <= p -> 0 <= q -> (nle (nlog p) (nlog q) <-> p <= q).
Proof.
  intros Hp Hq. unfold nlog. destruct (Rlt_dec 0 p), (Rlt_dec 0 q); cbn [nle]; split; intro H; try lra; try exact I; try contradiction.
  - destruct (Rle_dec p q) as [|N]; auto. exfalso. assert (ln q < ln p) by (apply ln_increasing; lra). lra.
  - destruct H as [H|H]; [left; now apply ln_increasing|right; now rewrite H].
Qed.
Lemma of_ext_nlog x : of_ext x = nlog (xexp x).
Proof. unfold nlog. destruct x as [x|]; cbn [of_ext xexp]; [|destruct (Rlt_dec 0 0); [lra|reflexivity]]. destruct (Rlt_dec 0 (exp x)) as [|H]; [now rewrite ln_exp|]. exfalso. apply H, exp_pos. Qed.
Lemma sone_nlog r o : Fin (sone r o) = nlog (exp (sone r o)).
Proof. unfold nlog. destruct (Rlt_dec 0 (exp (sone r o))) as [|H]; [now rewrite ln_exp|]. exfalso. apply H, exp_pos. Qed.
Lemma nlog_minus p q : 0 <= p -> 0 < q -> nminus (nlog p) (nlog q) = nlog (p / q).
Proof.
  intros Hp Hq. unfold nlog. destruct (Rlt_dec 0 q); [|lra]. destruct (Rlt_dec 0 p) as [P|P], (Rlt_dec 0 (p / q)) as [H|H]; cbn [nminus]; try reflexivity.
  - f_equal. unfold Rdiv. rewrite ln_mult, ln_Rinv; auto. now apply Rinv_0_lt_compat.
  - exfalso. apply H. now apply Rdiv_lt_0_compat.
  - exfalso. replace p with 0 in H by lra. unfold Rdiv in H. lra.
Qed.
Section Weights.
  Variable St : Type.
  Variable a : xar St.
  Notation C := (xn_classes a).
  Lemma cweight_nonneg v c : 0 <= cweight a v c.
  Proof.
    unfold cweight. destruct (xnormalize a); [|apply xexp_nonneg]. assert (H : 0 <= RSum (fun x => xexp (v x)) (seq 0 C)) by (apply RSum_nonneg; intros; apply xexp_nonneg).
    unfold Rdiv. apply Rmult_le_pos; [apply xexp_nonneg|]. destruct H as [H|H]; [left; now apply Rinv_0_lt_compat|rewrite <- H, Rinv_0; lra].
  Qed.
  Lemma sum_pos v c : (c < C)%nat -> v c <> None -> 0 < RSum (fun x => xexp (v x)) (seq 0 C).
  Proof.
    intros Hc Hv. apply Rlt_le_trans with (xexp (v c)); [now apply xexp_pos|]. apply (RSum_single (fun x => xexp (v x))); [apply in_seq; lia|]. intros; apply xexp_nonneg.
  Qed.
  Lemma cweight_pos v c : (c < C)%nat -> (0 < cweight a v c <-> v c <> None).
  Proof.
    intro Hc. unfold cweight. destruct (xnormalize a); [|apply xexp_pos]. split; intro H.
    - intro E. rewrite E in H. cbn [xexp] in H. unfold Rdiv in H. lra.
    - apply Rdiv_lt_0_compat; [now apply xexp_pos|now apply (@sum_pos v c)].
  Qed.
  Lemma xnorm_nlog v c : (exists c, (c < C)%nat /\ v c <> None) -> xnorm a v c = nlog (cweight a v c).
  Proof.
    intros (d & Hd & Hv). unfold xnorm, cweight. destruct (xnormalize a); [|apply of_ext_nlog].
    rewrite !of_ext_nlog, xlse_exp, RSum_map. apply nlog_minus; [apply xexp_nonneg|]. now apply (@sum_pos v d).
  Qed.
  Lemma xstp_snoc y c : forall st prev, xstp a st prev (y ++ [c]) = (snd (xmstep (xmo a) (fst (xstp a st prev y)) (snd (xstp a st prev y))), c).
  Proof. induction y as [|d y IH]; intros st prev; [reflexivity|]. cbn [app xstp]. apply IH. Qed.
  Lemma pweight_snoc y c : forall st prev, pweight a st prev (y ++ [c]) = pweight a st prev y * cweight a (fst (xmstep (xmo a) (fst (xstp a st prev y)) (snd (xstp a st prev y)))) c.
  Proof. induction y as [|d y IH]; intros st prev; cbn [app pweight xstp fst snd]; [ring|]. rewrite IH. ring. Qed.
  Lemma weight_snoc b y c : weight a b (y ++ [c]) = weight a b y * cweight a (next a b y) c.
  Proof. apply pweight_snoc. Qed.
  Lemma pweight_nonneg y : forall st prev, 0 <= pweight a st prev y.
  Proof. induction y as [|c y IH]; intros st prev; cbn [pweight]; [lra|]. apply Rmult_le_pos; [apply cweight_nonneg|apply IH]. Qed.
  Lemma weight_nonneg b y : 0 <= weight a b y. Proof. apply pweight_nonneg. Qed.
  Lemma weight_prefix b y c : 0 < weight a b (y ++ [c]) -> 0 < weight a b y.
  Proof. rewrite weight_snoc. intro H. pose proof (weight_nonneg b y). destruct (Req_dec (weight a b y) 0) as [E|E]; [rewrite E in H; lra|lra]. Qed.
End Weights.

Lemma vec_pt r xs b i : sp_vec r xs b i = xs (sp_pos r i) b (sp_tok r i).
Proof. destruct r; reflexivity. Qed.
Lemma xpos_lt St (a : xar St) r i : (1 <= ssize r)%nat -> (i < xsp_len a r)%nat -> (sp_pos r i < ssize r)%nat.
Proof. unfold xsp_len, sp_pos, ssize. destruct r; intros HK H; [lia|]. apply Nat.mod_upper_bound. lia. Qed.
Lemma xtok_lt St (a : xar St) r i : (1 <= ssize r)%nat -> (i < xsp_len a r)%nat -> (sp_tok r i < xn_classes a)%nat.
Proof. unfold xsp_len, sp_tok, ssize. destruct r; intros HK H; [lia|]. apply Nat.div_lt_upper_bound; lia. Qed.
Lemma xsurj St (a : xar St) r kk c : (kk < ssize r)%nat -> (c < xn_classes a)%nat -> exists i, (i < xsp_len a r)%nat /\ sp_pos r i = kk /\ sp_tok r i = c.
Proof.
  unfold sp_pos, sp_tok, xsp_len, ssize. destruct r as [|k]; intros H1 H2; [exists c; repeat split; lia|].
  exists (c * k + kk)%nat. destruct (divmod_k c H1) as [-> ->]. repeat split; nia.
Qed.

(** any indices of the right range without repetition are valid choices for some real
    beam search: so the lemmas of P_AutoReg on back pointers apply to all of them *)
Section Replay.
  Variable St : Type.
  Variable a : xar St.
  Variable r : srng.
  Variable pick : nat -> nat -> nat -> nat.
  Notation K := (ssize r).
  Notation B := (xbatch a).
  Notation C := (xn_classes a).
  Notation N := (xn_length a).
  Hypothesis HK : (1 <= K)%nat.
  Hypothesis HC : (1 <= C)%nat.
  Hypothesis Hlt : forall t b j, (t < N)%nat -> (b < B)%nat -> (j < K)%nat -> (pick t b j < xsp_len a r)%nat.
  Hypothesis Hinj : forall t b j j', (t < N)%nat -> (b < B)%nat -> (j < K)%nat -> (j' < K)%nat -> pick t b j = pick t b j' -> j = j'.
  (** proof device: the index of a candidate *)
  Definition idx (k c : nat) : nat := match r with SMax => c | SKMax kk => (c * kk + k)%nat end.
  (** proof device: the slot a candidate is put in *)
  Definition slot (t b i : nat) : R := match find (fun j => (pick t b j =? i)%nat) (seq 0 K) with Some j => INR j | None => INR K end.
  (** proof device: noise under which [AutoReg] chooses exactly these indices *)
  Definition replay (t k b c : nat) : R := - slot t b (idx k c) - match t with O => sone r k | S _ => - INR k end.
  Lemma idx_of i : idx (sp_pos r i) (sp_tok r i) = i.
  Proof. unfold idx, sp_pos, sp_tok. unfold ssize in HK. destruct r as [|kk]; [reflexivity|]. rewrite (Nat.div_mod i kk) at 3 by lia. lia. Qed.
  Lemma slot_pick t b j : (t < N)%nat -> (b < B)%nat -> (j < K)%nat -> slot t b (pick t b j) = INR j.
  Proof.
    intros Ht Hb Hj. unfold slot. destruct (find _ _) as [j'|] eqn:E.
    - apply find_some in E as [H1 H2]. apply in_seq in H1. apply Nat.eqb_eq in H2. f_equal. apply (@Hinj t b); auto; lia.
    - pose proof (find_none _ _ E j ltac:(apply in_seq; lia)) as H. cbv beta in H. rewrite Nat.eqb_refl in H. discriminate.
  Qed.
  Lemma slot_other t b i : (forall j, (j < K)%nat -> pick t b j <> i) -> slot t b i = INR K.
  Proof.
    intro H. unfold slot. destruct (find _ _) as [j'|] eqn:E; [|reflexivity]. apply find_some in E as [H1 H2]. apply in_seq in H1. apply Nat.eqb_eq in H2. exfalso. apply (H j'); auto; lia.
  Qed.
  Lemma replay_val t b i : (t <= N)%nat -> (b < B)%nat -> (i < xsp_len a r)%nat ->
    (forall k, (k < K)%nat -> bm (brun (sizes a) r (Some replay) pick t) k b = match t with O => sone r k | S _ => - INR k end) ->
    sp_vec r (ex_beam (sizes a) (Some replay) t (brun (sizes a) r (Some replay) pick t)) b i = - slot t b i.
  Proof.
    intros Ht Hb Hi H. rewrite vec_pt. unfold ex_beam. rewrite H by exact (xpos_lt a r HK Hi).
    unfold blogits, norm, wrap, forward, sizes. cbn [normalize mo mstep fst snd after]. unfold replay. rewrite idx_of. ring.
  Qed.
  Lemma replay_bm t : (t <= N)%nat -> forall k b, (k < K)%nat -> (b < B)%nat -> bm (brun (sizes a) r (Some replay) pick t) k b = match t with O => sone r k | S _ => - INR k end.
  Proof.
    induction t as [|t IH]; intros Ht k b Hk Hb; [reflexivity|]. cbn [brun bstep bm]. rewrite replay_val; auto; try lia.
    - rewrite slot_pick; auto.
    - intros k' Hk'. apply IH; auto; lia.
  Qed.
  Lemma replay_ok : picks_ok (sizes a) r (Some replay) pick.
  Proof.
    intros t b Ht Hb. cbn [sizes n_length batch] in Ht, Hb.
    assert (V : forall i, (i < xsp_len a r)%nat -> sp_vec r (ex_beam (sizes a) (Some replay) t (brun (sizes a) r (Some replay) pick t)) b i = - slot t b i).
    { intros i Hi. apply replay_val; auto; [lia|]. intros k Hk. apply replay_bm; auto; lia. }
    split; [intros j Hj; now apply Hlt|]. split; [intros j j' Hj Hj'; now apply Hinj|]. split.
    - intros j j' Hj. rewrite !V by (apply Hlt; auto; lia). rewrite !slot_pick by (auto; lia). apply Ropp_le_contravar, le_INR. lia.
    - intros i Hi Hn j Hj. rewrite !V by (auto; apply Hlt; auto; lia). rewrite slot_other by auto. rewrite slot_pick by auto. apply Ropp_le_contravar, le_INR. lia.
  Qed.
End Replay.

Lemma pigeon (f : nat -> nat) n j0 : (j0 < n)%nat -> (forall k, (k < n)%nat -> exists j, (j < n)%nat /\ j <> j0 /\ f j = k) -> False.
Proof.
  intros H0 H. assert (L : (length (remove Nat.eq_dec j0 (seq 0 n)) < length (seq 0 n))%nat) by (apply remove_length_lt, in_seq; lia).
  assert (I : (length (seq 0 n) <= length (map f (remove Nat.eq_dec j0 (seq 0 n))))%nat).
  { apply NoDup_incl_length; [apply seq_NoDup|]. intros k Hk. apply in_seq in Hk. destruct (H k ltac:(lia)) as (j & Hj & Hne & <-). apply in_map, in_in_remove; auto. apply in_seq. lia. }
  rewrite map_length in I. lia.
Qed.

Lemma picked_or r (pick : nat -> nat -> nat -> nat) t b i : (exists j, (j < ssize r)%nat /\ pick t b j = i) \/ (forall j, (j < ssize r)%nat -> pick t b j <> i).
Proof.
  destruct (existsb (fun j => (pick t b j =? i)%nat) (seq 0 (ssize r))) eqn:X.
  - left. apply existsb_exists in X as (j & Hj & X). apply in_seq in Hj. apply Nat.eqb_eq in X. exists j. split; [lia|exact X].
  - right. intros j Hj E. enough (false = true) by discriminate. rewrite <- X. apply existsb_exists. exists j. split; [apply in_seq; lia|now apply Nat.eqb_eq].
Qed.

Section Beam.
  Variable St : Type.
  Variable a : xar St.
  Variable r : srng.
  Variable pick : nat -> nat -> nat -> nat.
  Notation K := (ssize r).
  Notation B := (xbatch a).
  Notation C := (xn_classes a).
  Notation N := (xn_length a).
  Hypothesis HK : (1 <= K)%nat.
  Hypothesis HC : (1 <= C)%nat.
  Hypothesis Hok : xpicks_ok a r pick.
  Notation H_ := (hist r pick).
  Let Hrep : picks_ok (sizes a) r (Some (replay r pick)) pick.
  Proof. apply replay_ok; auto; intros t b; intros; [now apply (Hok (t := t) (b := b))|]. destruct (Hok (t := t) (b := b)) as (_ & I & _); auto. Qed.
  Let plt t b k : (t < N)%nat -> (b < B)%nat -> (k < K)%nat -> (pick t b k < xsp_len a r)%nat.
  Proof. intros Ht Hb Hk. now apply (Hok Ht Hb). Qed.
  Let pos_lt i : (i < xsp_len a r)%nat -> (sp_pos r i < K)%nat := @xpos_lt _ a r i HK.
  Let tok_lt i : (i < xsp_len a r)%nat -> (sp_tok r i < C)%nat := @xtok_lt _ a r i HK.
  Let surj kk c : (kk < K)%nat -> (c < C)%nat -> exists i, (i < xsp_len a r)%nat /\ sp_pos r i = kk /\ sp_tok r i = c := @xsurj _ a r kk c.
  Lemma xhist_wf t k b : (t <= N)%nat -> (k < K)%nat -> (b < B)%nat -> (fst (H_ t k b) < K)%nat /\ is_seq C t (snd (H_ t k b)).
  Proof. intros Ht Hk Hb. exact (@hist_wf _ (sizes a) r _ pick HK HC Hrep t Ht k b Hk Hb). Qed.
  Lemma xhist_inj t k k' b : (t <= N)%nat -> (k < K)%nat -> (k' < K)%nat -> (b < B)%nat -> H_ t k b = H_ t k' b -> k = k'.
  Proof. intros Ht Hk Hk' Hb. exact (@hist_inj _ (sizes a) r _ pick HK HC Hrep t Ht k k' b Hk Hk' Hb). Qed.
  Lemma xpath_onehot k t b c : (k < K)%nat -> (b < B)%nat -> (t < N)%nat ->
    RSum (fun k' => gex (sizes a) r pick k t k' b c) (seq 0 K) = onehot (snd (H_ N k b)) t c.
  Proof. intros Hk Hb Ht. exact (@path_onehot _ (sizes a) r _ pick HK HC Hrep k t b c Hk Hb Ht). Qed.
  Lemma xstate_inv t : (t <= N)%nat -> forall k b, (k < K)%nat -> (b < B)%nat ->
    xsts (xbrun a r pick t) (k * B + b) = fst (xstp a (xinit a b) (xstart a) (snd (H_ t k b))) /\
    xtk (xbrun a r pick t) (k * B + b) = snd (xstp a (xinit a b) (xstart a) (snd (H_ t k b))).
  Proof.
    induction t as [|t IH]; intros Ht k b Hk Hb.
    - cbn [xbrun xb0 xsts xtk hist snd xstp fst]. split; [now rewrite unwrap_at|reflexivity].
    - pose proof (@plt t b k ltac:(lia) Hb Hk) as Hi. destruct (IH ltac:(lia) (sp_pos r (pick t b k)) b (pos_lt Hi) Hb) as [H1 H2].
      cbn [xbrun xbstep xsts xtk hist snd]. rewrite xstp_snoc. rewrite !unwrap_at by auto. cbn [fst snd]. split; [|reflexivity].
      unfold xforward. cbn [snd xafter]. rewrite H1, H2. reflexivity.
  Qed.
  Lemma xblogits_at t k b c : (t <= N)%nat -> (k < K)%nat -> (b < B)%nat -> xblogits a (xbrun a r pick t) k b c = xnorm a (next a b (snd (H_ t k b))) c.
  Proof.
    intros Ht Hk Hb. destruct (@xstate_inv t Ht k b Hk Hb) as [H1 H2]. unfold xblogits, wrap, xforward. cbn [fst xafter]. rewrite H1, H2. reflexivity.
  Qed.
  Section Row.
  Variable b : nat.
  Hypothesis Hb : (b < B)%nat.
  Hypothesis Hopen : open a b.
  (** value of a candidate with history h *)
  Definition cval (o : nat) (y : list nat) : num := nlog (exp (sone r o) * weight a b y).
  Lemma cval_le o y o' y' : nle (cval o y) (cval o' y') <-> exp (sone r o) * weight a b y <= exp (sone r o') * weight a b y'.
  Proof. apply nlog_le; apply Rmult_le_pos; try apply weight_nonneg; left; apply exp_pos. Qed.
  (** proof device: the loop invariant of the beam *)
  Definition inv (t : nat) : Prop := forall k, (k < K)%nat -> xbm (xbrun a r pick t) k b = cval (fst (H_ t k b)) (snd (H_ t k b)) /\ 0 < weight a b (snd (H_ t k b)).
  Lemma xcand t i : (t < N)%nat -> (i < xsp_len a r)%nat -> inv t ->
    xsp_vec r (xex_beam a (xbrun a r pick t)) b i = cval (fst (H_ t (sp_pos r i) b)) (snd (H_ t (sp_pos r i) b) ++ [sp_tok r i]).
  Proof.
    intros Ht Hi IH. pose proof (pos_lt Hi) as Hp. destruct (IH _ Hp) as [E P]. unfold xsp_vec, xex_beam. rewrite E, xblogits_at by (auto; lia).
    rewrite xnorm_nlog by (apply (Hopen Ht); [apply xhist_wf; auto; lia|exact P]). unfold cval. rewrite nlog_mul.
    - f_equal. rewrite weight_snoc. ring.
    - apply Rmult_le_pos; [left; apply exp_pos|left; exact P].
    - apply cweight_nonneg.
  Qed.
  (** every slot has an allowed continuation *)
  Lemma ext_exists t k : (t < N)%nat -> (k < K)%nat -> inv t ->
    exists i, (i < xsp_len a r)%nat /\ sp_pos r i = k /\ 0 < weight a b (snd (H_ t k b) ++ [sp_tok r i]).
  Proof.
    intros Ht Hk IH. destruct (IH k Hk) as [_ P]. destruct (@Hopen t (snd (H_ t k b)) Ht (proj2 (@xhist_wf t k b ltac:(lia) Hk Hb)) P) as (c & Hc & Hv).
    destruct (@surj k c Hk Hc) as (i & Hi & E1 & E2). exists i. split; [exact Hi|]. split; [exact E1|]. rewrite E2, weight_snoc. apply Rmult_lt_0_compat; [exact P|]. now apply cweight_pos.
  Qed.
  Lemma inv_all t : (t <= N)%nat -> inv t.
  Proof.
    induction t as [|t IH]; intros Ht k Hk.
    - cbn [xbrun xb0 xbm hist fst snd]. unfold cval, weight. cbn [pweight]. rewrite Rmult_1_r. split; [apply sone_nlog|lra].
    - specialize (IH ltac:(lia)). pose proof (@plt t b k ltac:(lia) Hb Hk) as Hi. cbn [xbrun xbstep xbm hist fst snd]. split; [apply xcand; auto|].
      set (y := snd (H_ t (sp_pos r (pick t b k)) b) ++ [sp_tok r (pick t b k)]).
      destruct (Rle_lt_or_eq_dec 0 (weight a b y) (weight_nonneg a b y)) as [|Z]; [assumption|]. exfalso.
      apply (@pigeon (fun j => sp_pos r (pick t b j)) K k Hk). intros k' Hk'. destruct (@ext_exists t k' ltac:(lia) Hk' IH) as (i & Hi' & E1 & P).
      destruct (Hok (t := t) (b := b) ltac:(lia) Hb) as (_ & _ & _ & Top). destruct (picked_or r pick t b i) as [(j & Hj & E)|Hn].
      + exists j. split; [exact Hj|]. split; [|now rewrite E]. intros ->. unfold y in Z. rewrite E, E1 in Z. lra.
      + exfalso. pose proof (Top i Hi' Hn k Hk) as Q. rewrite !xcand in Q by (auto; lia). apply cval_le in Q. fold y in Q. rewrite <- Z, E1, Rmult_0_r in Q.
        pose proof (Rmult_lt_0_compat _ _ (exp_pos (sone r (fst (H_ t k' b)))) P). lra.
  Qed.
  (** which slots descend from the real initial hypothesis *)
  Hypothesis Hspread : wspread a b.
  Lemma fake_below t k k' y y' : (t <= N)%nat -> is_seq C t y -> is_seq C t y' -> 0 < weight a b y -> (k' < K)%nat -> k = 0%nat -> k' <> 0%nat -> ~ nle (cval k y) (cval k' y').
  Proof.
    intros Ht Hy Hy' P Hk' -> Hne Q. apply cval_le in Q. rewrite sone_0, exp_0, Rmult_1_l, sone_fake in Q by auto.
    destruct (Rle_lt_or_eq_dec 0 (weight a b y') (weight_nonneg a b y')) as [P'|Z]; [|rewrite <- Z in Q; lra].
    pose proof (@Hspread t y' y Ht Hy' Hy P' P). lra.
  Qed.
  Lemma xcand_seq t i : (t < N)%nat -> (i < xsp_len a r)%nat -> is_seq C (S t) (snd (H_ t (sp_pos r i) b) ++ [sp_tok r i]).
  Proof.
    intros Ht Hi. destruct (@xhist_wf t (sp_pos r i) b ltac:(lia) (pos_lt Hi) Hb) as [_ [L F]]. split; [rewrite app_length, L; cbn; lia|].
    apply Forall_app; split; auto.
  Qed.
  Lemma xreal t : (t <= N)%nat -> exists q, (q <= K)%nat /\ (forall k, (k < K)%nat -> (fst (H_ t k b) = 0%nat <-> (k < q)%nat)) /\
    ((q < K)%nat -> forall y, is_seq C t y -> 0 < weight a b y -> exists k, (k < K)%nat /\ H_ t k b = (0%nat, y)).
  Proof.
    induction t as [|t IH]; intro Ht.
    - exists 1%nat. split; [exact HK|]. split; [intros k Hk; cbn; lia|]. intros _ y [L _] _. exists 0%nat. split; [lia|]. destruct y; [reflexivity|discriminate].
    - destruct (IH ltac:(lia)) as (q & Hq & Eq & Cq). clear IH. pose proof (@inv_all t ltac:(lia)) as Inv. pose proof (@inv_all (S t) Ht) as Inv'.
      destruct (Hok (t := t) (b := b) ltac:(lia) Hb) as (_ & _ & Desc & Top).
      destruct (@prefix_exists _ (sizes a) r HK HC (fun k => (fst (H_ (S t) k b) =? 0)%nat) K) as (q' & Hq' & E).
      { intros j j' Hj Q. apply Nat.eqb_eq in Q. apply Nat.eqb_eq. destruct (Nat.eq_dec (fst (H_ (S t) j b)) 0) as [|Hne]; auto. exfalso.
        pose proof (Desc j j' Hj) as D. pose proof (@plt t b j ltac:(lia) Hb ltac:(lia)) as L1. pose proof (@plt t b j' ltac:(lia) Hb ltac:(lia)) as L2. rewrite !xcand in D by (auto; lia).
        refine (fake_below (t := S t) Ht (xcand_seq _ L2) (xcand_seq _ L1) _ _ Q Hne D).
        all: first [lia|apply (Inv' j'); lia|apply xhist_wf; try lia; apply pos_lt, L1]. }
      assert (E' : forall k, (k < K)%nat -> (fst (H_ (S t) k b) = 0%nat <-> (k < q')%nat)) by (intros k Hk; rewrite <- (E k Hk), Nat.eqb_eq; reflexivity).
      exists q'. split; [exact Hq'|]. split; [exact E'|]. intro Hlt.
      assert (Pk : forall i, (i < xsp_len a r)%nat -> fst (H_ t (sp_pos r i) b) = 0%nat -> 0 < weight a b (snd (H_ t (sp_pos r i) b) ++ [sp_tok r i]) ->
        exists j, (j < q')%nat /\ pick t b j = i).
      { intros i Hi F P. destruct (picked_or r pick t b i) as [(j & Hj & Ej)|Hn].
        - exists j. split; [|exact Ej]. apply E'; [exact Hj|]. cbn [hist fst]. now rewrite Ej.
        - exfalso. pose proof (Top i Hi Hn q' Hlt) as D. pose proof (@plt t b q' ltac:(lia) Hb Hlt) as L1. rewrite !xcand in D by (auto; lia).
          refine (fake_below (t := S t) Ht (xcand_seq _ Hi) (xcand_seq _ L1) P _ F _ D).
          all: first [lia|apply xhist_wf; try lia; apply pos_lt, L1|idtac].
          intro Q. assert (q' < q')%nat by (apply E'; auto). lia. }
      destruct (Nat.lt_ge_cases q K) as [HqK|HqK].
      + intros y [L F] P. destruct (@exists_last _ y) as (p & c & ->); [intros ->; discriminate|]. rewrite app_length in L. cbn in L. apply Forall_app in F as [F1 F2]. inversion F2 as [|? ? Hc _]; subst.
        assert (Hp : is_seq C t p) by (split; [lia|exact F1]). pose proof (@weight_prefix _ a b p c P) as Pp.
        destruct (Cq HqK p Hp Pp) as (k & Hk & Ek). destruct (@surj k c Hk Hc) as (i & Hi & E1 & E2).
        destruct (@Pk i Hi) as (j & Hj & Ej); [now rewrite E1, Ek|rewrite E1, Ek, E2; exact P|]. exists j. split; [lia|]. cbn [hist]. rewrite Ej, E1, E2, Ek. reflexivity.
      + exfalso. apply (@pigeon (fun j => sp_pos r (pick t b j)) K q' Hlt). intros k Hk. destruct (@ext_exists t k ltac:(lia) Hk Inv) as (i & Hi & E1 & P).
        destruct (@Pk i Hi) as (j & Hj & Ej); [rewrite E1; apply Eq; lia|rewrite E1; exact P|]. exists j. split; [lia|]. split; [lia|]. now rewrite Ej.
  Qed.
  Lemma xcount t l : (t <= N)%nat -> Enumerates (fun y => is_seq C t y /\ 0 < weight a b y) l ->
    (forall k, (k < K)%nat -> (fst (H_ t k b) = 0%nat <-> (k < Nat.min K (length l))%nat)) /\
    ((length l <= K)%nat -> forall y, In y l -> exists k, (k < K)%nat /\ H_ t k b = (0%nat, y)).
  Proof.
    intros Ht [ND El]. destruct (xreal Ht) as (q & Hq & Eq & Cq). set (M := map (fun k => snd (H_ t k b)) (seq 0 q)).
    assert (NM : NoDup M).
    { apply NoDup_map_in; [apply seq_NoDup|]. intros x z Hx Hz E. apply in_seq in Hx, Hz. apply (@xhist_inj t x z b Ht); try lia; auto.
      assert (E1 : fst (H_ t x b) = 0%nat) by (apply Eq; lia). assert (E2 : fst (H_ t z b) = 0%nat) by (apply Eq; lia).
      destruct (H_ t x b), (H_ t z b); cbn in *; congruence. }
    assert (I : incl M l).
    { intros y Hy. apply in_map_iff in Hy as (k & <- & Hk). apply in_seq in Hk. apply El. split; [apply xhist_wf; auto; lia|]. apply (inv_all Ht). lia. }
    assert (LM : length M = q) by (unfold M; now rewrite map_length, seq_length).
    assert (Le : (q <= length l)%nat) by (rewrite <- LM; now apply NoDup_incl_length).
    assert (Ge : (q < K)%nat -> (length l <= q)%nat).
    { intro HqK. rewrite <- LM. apply NoDup_incl_length; [exact ND|]. intros y Hy. apply El in Hy as [Hy P]. destruct (Cq HqK y Hy P) as (k & Hk & Ek).
      apply in_map_iff. exists k. rewrite Ek. split; [reflexivity|]. apply in_seq. split; [lia|]. apply Eq; auto. now rewrite Ek. }
    split.
    - replace (Nat.min K (length l)) with q; [exact Eq|]. destruct (Nat.lt_ge_cases q K) as [Q|Q]; [specialize (Ge Q); lia|lia].
    - intros HlK y Hy. assert (I' : incl l M).
      { apply NoDup_length_incl; auto. destruct (Nat.lt_ge_cases q K) as [Q|Q]; [specialize (Ge Q)|]; lia. }
      apply I' in Hy. apply in_map_iff in Hy as (k & E & Hk). apply in_seq in Hk. exists k. split; [lia|]. assert (E1 : fst (H_ t k b) = 0%nat) by (apply Eq; lia). destruct (H_ t k b); cbn in *; congruence.
  Qed.
  End Row.
End Beam.
Lemma xbeam_ok St (a : xar St) r pick paths v : xbeam_search a r pick = Ok (paths, v) ->
  (1 <= ssize r)%nat /\ (1 <= xn_classes a)%nat /\ (1 <= xn_length a)%nat /\ xodim (xmo a) = xn_classes a /\
  paths = (fun k b t c => RSum (fun k' => gex (sizes a) r pick k t k' b c) (seq 0 (ssize r))) /\ v = xbm (xbrun a r pick (xn_length a)).
Proof.
  unfold xbeam_search. destruct (Nat.eqb_spec (ssize r) 0), (Nat.eqb_spec (xn_length a) 0); cbn [orb]; try discriminate.
  destruct (Nat.eqb_spec (xodim (xmo a)) (xn_classes a)); cbn [negb]; [|discriminate]. destruct (Nat.eqb_spec (xn_classes a) 0); [discriminate|].
  intro H. injection H as <- <-. repeat split; auto; lia.
Qed.
Lemma nsum_nlog A (p : A -> R) l : (forall x, In x l -> 0 <= p x) -> nsum (map (fun x => nlog (p x)) l) = nlog (RProd p l) /\ 0 <= RProd p l.
Proof.
  induction l as [|x l IH]; intro H.
  - unfold nsum, nlog. cbn [map fold_right]. change (RProd p []) with 1. destruct (Rlt_dec 0 1); [|lra]. rewrite ln_1. split; [reflexivity|lra].
  - destruct IH as [E P]; [intros; apply H; now right|]. assert (P0 : 0 <= p x) by (apply H; now left). change (RProd p (x :: l)) with (p x * RProd p l).
    split; [|now apply Rmult_le_pos]. rewrite <- nlog_mul by auto. rewrite <- E. reflexivity.
Qed.
Section Roll.
  Variable St : Type.
  Variable a : xar St.
  Lemma xafter_stp st toks prev val n : toks 0%nat = prev -> (forall t, toks (S t) = val t) ->
    xafter a st toks n = fst (xstp a st prev (map val (seq 0 n))) /\ toks n = snd (xstp a st prev (map val (seq 0 n))).
  Proof.
    intros H0 HS. induction n as [|n [IH1 IH2]]; [split; [reflexivity|exact H0]|].
    rewrite seq_S, map_app. cbn [map]. rewrite xstp_snoc. cbn [xafter fst snd]. rewrite IH1, IH2. split; [reflexivity|]. rewrite Nat.add_0_l. apply HS.
  Qed.
  Lemma weight_prod b val n : RProd (fun t => cweight a (next a b (map val (seq 0 t))) (val t)) (seq 0 n) = weight a b (map val (seq 0 n)).
  Proof. induction n as [|n IH]; [reflexivity|]. rewrite RProd_S, IH, seq_S, map_app. cbn [map]. rewrite weight_snoc, Nat.add_0_l. reflexivity. Qed.
End Roll.

(** ** C86 *)
(** log_prob: the logarithm of the product of the conditional probabilities, minus infinity
    when the sequence uses a forbidden class; NaN-free as long as every step of the
    sequence has some allowed class *)
Theorem C86_log_prob St (a : xar St) sample N value : xodim (xmo a) = xn_classes a ->
  (forall s b t, (s < sample)%nat -> (b < xbatch a)%nat -> (t < N)%nat -> (value s b t < xn_classes a)%nat) ->
  exists lp, xlog_prob a sample N value = Ok lp /\
    forall s b, (s < sample)%nat -> (b < xbatch a)%nat ->
      (forall t, (t < N)%nat -> exists c, (c < xn_classes a)%nat /\ next a b (map (value s b) (seq 0 t)) c <> None) ->
      lp s b = nlog (weight a b (map (value s b) (seq 0 N))).
Proof.
  intros Ho Hv. unfold xlog_prob. rewrite Ho, Nat.eqb_refl. cbn [negb].
  set (ok := forallb _ _). assert (E : ok = true).
  { apply forallb_forall. intros i Hi. apply in_seq in Hi. apply forallb_forall. intros t Ht. apply in_seq in Ht. apply Nat.ltb_lt.
    assert (HB : xbatch a <> 0%nat) by (intro Q; rewrite Q in Hi; lia).
    unfold unwrap. apply Hv; try lia; [apply Nat.div_lt_upper_bound; lia|apply Nat.mod_upper_bound; lia]. }
  rewrite E. cbn [negb]. eexists; split; [reflexivity|]. intros s b Hs Hb Hop. unfold wrap.
  rewrite <- weight_prod. rewrite <- (proj1 (@nsum_nlog nat (fun t => cweight a (next a b (map (value s b) (seq 0 t))) (value s b t)) (seq 0 N) (fun _ _ => cweight_nonneg a _ _))).
  f_equal. apply map_ext_in. intros t Ht. apply in_seq in Ht. rewrite <- xnorm_nlog by (apply Hop; lia).
  unfold xforward. cbn [fst]. unfold unwrap. destruct (divmod_k s Hb) as [-> ->].
  destruct (@xafter_stp St a (xinit a b) (fun t => match t with O => xstart a | S t' => value s b t' end) (xstart a) (value s b) t eq_refl (fun _ => eq_refl)) as [-> E2].
  unfold next. rewrite E2. reflexivity.
Qed.
Print Assumptions C86_log_prob.
(** a sequence has log-probability minus infinity exactly when some class on it is forbidden *)
Theorem C86_forbidden St (a : xar St) b y : Forall (fun c => (c < xn_classes a)%nat) y ->
  (0 < weight a b y <-> forall t, (t < length y)%nat -> next a b (firstn t y) (nth t y 0%nat) <> None).
Proof.
  induction y as [|c y IH] using rev_ind; intro F; [unfold weight; cbn; split; [intros; lia|lra]|].
  apply Forall_app in F as [F1 F2]. inversion F2 as [|? ? Hc _]; subst. specialize (IH F1). rewrite weight_snoc, app_length. cbn [length]. split.
  - intros P t Ht. assert (P1 : 0 < weight a b y) by (apply (@weight_prefix _ a b y c); now rewrite weight_snoc).
    destruct (Nat.eq_dec t (length y)) as [->|Hne].
    + rewrite firstn_app, Nat.sub_diag, firstn_all, app_nil_r, app_nth2, Nat.sub_diag by lia. cbn [nth]. apply (cweight_pos a (next a b y) Hc).
      apply Rmult_lt_reg_l with (weight a b y); lra.
    + rewrite firstn_app, app_nth1 by lia. replace (t - length y)%nat with 0%nat by lia. cbn [firstn]. rewrite app_nil_r. apply IH; auto; lia.
  - intro H. apply Rmult_lt_0_compat.
    + apply IH. intros t Ht. specialize (H t ltac:(lia)). rewrite firstn_app, app_nth1 in H by lia. replace (t - length y)%nat with 0%nat in H by lia. cbn [firstn] in H. now rewrite app_nil_r in H.
    + apply cweight_pos; auto. specialize (H (length y) ltac:(lia)). rewrite firstn_app, Nat.sub_diag, firstn_all, app_nil_r, app_nth2, Nat.sub_diag in H by lia. exact H.
Qed.
(** the probabilities of all sequences sum to one *)
Theorem C86_normalised St (a : xar St) b l N : xnormalize a = true -> open a b -> (N <= xn_length a)%nat -> Enumerates (is_seq (xn_classes a) N) l -> RSum (weight a b) l = 1.
Proof.
  intros Hn Hop HN [ND El]. rewrite (Sum_enum R_csr (weight a b) (conj ND El) (seqs_enum (xn_classes a) N)).
  enough (G : forall m p, (length p + m <= xn_length a)%nat -> Forall (fun c => (c < xn_classes a)%nat) p -> 0 < weight a b p ->
    RSum (fun y => weight a b (p ++ y)) (seqs (xn_classes a) m) = weight a b p).
  { assert (P0 : 0 < weight a b []) by (unfold weight; cbn [pweight]; lra). exact (G N [] HN (Forall_nil _) P0). }
  induction m as [|m IH]; intros p L F P.
  - cbn [seqs]. rewrite RSum_cons, app_nil_r. change (RSum _ []) with 0. ring.
  - rewrite seqs_sum_S. rewrite (Sum_ext_in R_csr _ (fun c => weight a b p * cweight a (next a b p) c)).
    + assert (Z : RSum (fun x => xexp (next a b p x)) (seq 0 (xn_classes a)) <> 0).
      { destruct (@Hop (length p) p ltac:(lia) (conj eq_refl F) P) as (c & Hc & Hv). apply Rgt_not_eq. exact (sum_pos a (next a b p) Hc Hv). }
      rewrite (@RSum_scal nat). unfold cweight. rewrite Hn. unfold Rdiv. rewrite RSum_scar. now field.
    + intros c Hc. apply in_seq in Hc. rewrite <- weight_snoc.
      transitivity (RSum (fun y => weight a b ((p ++ [c]) ++ y)) (seqs (xn_classes a) m)); [apply (Sum_ext R_csr); intro y; now rewrite <- app_assoc|].
      destruct (Rle_lt_or_eq_dec 0 (weight a b (p ++ [c])) (weight_nonneg a b _)) as [P'|Z].
      * apply IH; auto; [rewrite app_length; cbn; lia|]. apply Forall_app; split; auto. constructor; auto; lia.
      * rewrite <- Z. apply (Sum_zero R_csr). intros y _. clear - Z. induction y as [|d y IH] using rev_ind; [now rewrite app_nil_r|]. rewrite app_assoc, weight_snoc, IH. apply Rmult_0_l.
Qed.
Lemma nlog_pos p : 0 < p -> nlog p = Fin (ln p).
Proof. intro H. unfold nlog. destruct (Rlt_dec 0 p); [reflexivity|contradiction]. Qed.
Lemma cval_real St (a : xar St) r b y : 0 < weight a b y -> cval a r b 0 y = Fin (ln (weight a b y)).
Proof. intro H. unfold cval. rewrite sone_0, exp_0, Rmult_1_l. now apply nlog_pos. Qed.
Lemma cval_fake St (a : xar St) r b o y : (o < ssize r)%nat -> o <> 0%nat -> 0 < weight a b y -> cval a r b o y = Fin (ln (weight a b y) - 100000).
Proof.
  intros Ho Hne H. unfold cval. rewrite sone_fake by auto. rewrite nlog_pos by (apply Rmult_lt_0_compat; [apply exp_pos|exact H]).
  rewrite ln_mult, ln_exp by (auto; apply exp_pos). f_equal. unfold NEG. lra.
Qed.
(** beam search never returns a forbidden sequence, nor a score of minus infinity or NaN *)
Theorem C86_beam St (a : xar St) r pick paths v b : xbeam_search a r pick = Ok (paths, v) -> xpicks_ok a r pick -> (b < xbatch a)%nat -> open a b ->
  forall k, (k < ssize r)%nat -> exists y, is_seq (xn_classes a) (xn_length a) y /\ 0 < weight a b y /\
    (forall t c, (t < xn_length a)%nat -> paths k b t c = onehot y t c) /\
    (v k b = Fin (ln (weight a b y)) \/ v k b = Fin (ln (weight a b y) - 100000)).
Proof.
  intros E Hp Hb Hop k Hk. destruct (@xbeam_ok _ _ _ _ _ _ E) as (HK & HC & HN & Ho & -> & ->).
  destruct (@xhist_wf _ a r pick HK HC Hp (xn_length a) k b (le_n _) Hk Hb) as [Hf Hs]. destruct (@inv_all _ a r pick HK HC Hp b Hb Hop (xn_length a) (le_n _) k Hk) as [V P].
  exists (snd (hist r pick (xn_length a) k b)). split; [exact Hs|]. split; [exact P|]. split; [intros t c Ht; now apply xpath_onehot|]. rewrite V.
  destruct (Nat.eq_dec (fst (hist r pick (xn_length a) k b)) 0) as [->|Hne]; [left; now apply cval_real|right; now apply cval_fake].
Qed.
Print Assumptions C86_beam.
(** the first min(K, number of allowed sequences) slots hold distinct sequences with their
    exact log-probabilities; the others repeat sequences at 1e5 less *)
Theorem C86_distinct St (a : xar St) r pick paths v b l : xbeam_search a r pick = Ok (paths, v) -> xpicks_ok a r pick -> (b < xbatch a)%nat -> open a b -> wspread a b ->
  Enumerates (fun y => is_seq (xn_classes a) (xn_length a) y /\ 0 < weight a b y) l ->
  exists ys : nat -> list nat,
    (forall k, (k < ssize r)%nat -> In (ys k) l /\ forall t c, (t < xn_length a)%nat -> paths k b t c = onehot (ys k) t c) /\
    (forall k, (k < ssize r)%nat -> (k < length l)%nat -> v k b = Fin (ln (weight a b (ys k)))) /\
    (forall k, (k < ssize r)%nat -> (length l <= k)%nat -> v k b = Fin (ln (weight a b (ys k)) - 100000)) /\
    (forall k k', (k < Nat.min (ssize r) (length l))%nat -> (k' < Nat.min (ssize r) (length l))%nat -> ys k = ys k' -> k = k').
Proof.
  intros E Hp Hb Hop Hsp El. destruct (@xbeam_ok _ _ _ _ _ _ E) as (HK & HC & HN & Ho & -> & ->).
  pose proof (@inv_all _ a r pick HK HC Hp b Hb Hop (xn_length a) (le_n _)) as Inv.
  destruct (@xcount _ a r pick HK HC Hp b Hb Hop Hsp (xn_length a) l (le_n _) El) as [Cnt _]. destruct El as [ND El].
  exists (fun k => snd (hist r pick (xn_length a) k b)). split; [|split; [|split]].
  - intros k Hk. split; [|intros; now apply xpath_onehot]. apply El. split; [now apply (@xhist_wf _ a r pick HK HC Hp)|]. now apply Inv.
  - intros k Hk Hl. destruct (Inv k Hk) as [V P]. rewrite V, (proj2 (Cnt k Hk)) by lia. now apply cval_real.
  - intros k Hk Hl. destruct (Inv k Hk) as [V P]. rewrite V. apply cval_fake; auto; [now apply (@xhist_wf _ a r pick HK HC Hp)|]. intro Q. apply (Cnt k Hk) in Q. lia.
  - intros k k' Hk Hk' Ey. apply (@xhist_inj _ a r pick HK HC Hp (xn_length a) k k' b); auto; try lia.
    assert (E1 : fst (hist r pick (xn_length a) k b) = 0%nat) by (apply Cnt; lia). assert (E2 : fst (hist r pick (xn_length a) k' b) = 0%nat) by (apply Cnt; lia).
    destruct (hist r pick (xn_length a) k b), (hist r pick (xn_length a) k' b); cbn in *; congruence.
Qed.
Print Assumptions C86_distinct.
(** a beam at least as wide as the number of allowed prefixes finds the best sequences: what
    it does not return is no better than anything it returns with its own score *)
Theorem C86_exact St (a : xar St) r pick paths v b l : xbeam_search a r pick = Ok (paths, v) -> xpicks_ok a r pick -> (b < xbatch a)%nat -> open a b -> wspread a b ->
  Enumerates (fun y => is_seq (xn_classes a) (xn_length a - 1) y /\ 0 < weight a b y) l -> (length l <= ssize r)%nat ->
  forall y, is_seq (xn_classes a) (xn_length a) y -> 0 < weight a b y ->
    (exists k, (k < ssize r)%nat /\ v k b = Fin (ln (weight a b y)) /\ forall t c, (t < xn_length a)%nat -> paths k b t c = onehot y t c) \/
    (forall k, (k < ssize r)%nat -> nle (Fin (ln (weight a b y))) (v k b)).
Proof.
  intros E Hp Hb Hop Hsp El Hl y Hy P. destruct (@xbeam_ok _ _ _ _ _ _ E) as (HK & HC & HN & Ho & -> & ->).
  destruct (@xcount _ a r pick HK HC Hp b Hb Hop Hsp (xn_length a - 1) l ltac:(lia) El) as [_ All]. destruct El as [ND El].
  pose proof (@inv_all _ a r pick HK HC Hp b Hb Hop (xn_length a - 1) ltac:(lia)) as Inv.
  destruct Hy as [L F]. destruct (@exists_last _ y) as (p & c & ->); [intros ->; cbn in L; lia|]. rewrite app_length in L. cbn in L. apply Forall_app in F as [F1 F2]. inversion F2 as [|? ? Hc _]; subst.
  destruct (All Hl p) as (k & Hk & Ek). { apply El. split; [split; [lia|exact F1]|]. now apply (@weight_prefix _ a b p c). }
  destruct (@xsurj _ a r k c Hk Hc) as (i & Hi & E1 & E2). set (n := (xn_length a - 1)%nat) in *. assert (EN : xn_length a = S n) by lia.
  assert (Hn : (n < xn_length a)%nat) by lia. destruct (Hp n b Hn Hb) as (_ & _ & _ & Top).
  pose proof (@xcand _ a r pick HK HC Hp b Hb Hop n i Hn Hi Inv) as V. rewrite E1, E2, Ek in V. cbn [fst snd] in V. rewrite cval_real in V by exact P.
  destruct (picked_or r pick n b i) as [(j & Hj & Ej)|Hnp].
  - left. exists j. split; [exact Hj|]. split.
    + rewrite EN. cbn [xbrun xbstep xbm]. rewrite Ej. exact V.
    + intros t d Ht. rewrite (@xpath_onehot _ a r pick HK HC Hp j t b d Hj Hb Ht). rewrite EN. cbn [hist snd]. now rewrite Ej, E1, E2, Ek.
  - right. intros j Hj. rewrite <- V. rewrite EN. cbn [xbrun xbstep xbm]. now apply Top.
Qed.
Print Assumptions C86_exact.
(** greedy search: exact score, allowed classes only, each the best continuation *)
Theorem C86_greedy St (a : xar St) pick paths v b : xbeam_search a SMax pick = Ok (paths, v) -> xpicks_ok a SMax pick -> (b < xbatch a)%nat -> open a b ->
  exists y, is_seq (xn_classes a) (xn_length a) y /\ 0 < weight a b y /\ v 0%nat b = Fin (ln (weight a b y)) /\
    (forall t c, (t < xn_length a)%nat -> paths 0%nat b t c = onehot y t c) /\
    forall t c, (t < xn_length a)%nat -> (c < xn_classes a)%nat -> weight a b (firstn t y ++ [c]) <= weight a b (firstn (S t) y).
Proof.
  intros E Hp Hb Hop. destruct (@xbeam_ok _ _ _ _ _ _ E) as (HK & HC & HN & Ho & -> & ->). assert (H0 : (0 < ssize SMax)%nat) by (cbn; lia).
  destruct (@xhist_wf _ a SMax pick HK HC Hp (xn_length a) 0 b (le_n _) H0 Hb) as [Hf Hs]. destruct (@inv_all _ a SMax pick HK HC Hp b Hb Hop (xn_length a) (le_n _) 0%nat H0) as [V P].
  exists (snd (hist SMax pick (xn_length a) 0 b)). split; [exact Hs|]. split; [exact P|]. split; [rewrite V; replace (fst (hist SMax pick (xn_length a) 0 b)) with 0%nat by (cbn in Hf; lia); now apply cval_real|].
  split; [intros; now apply xpath_onehot|]. intros t c Ht Hc.
  assert (Pre : forall n u, (u + n = xn_length a)%nat -> firstn u (snd (hist SMax pick (xn_length a) 0 b)) = snd (hist SMax pick u 0 b)).
  { induction n as [|n IH]; intros u Hu.
    - replace u with (xn_length a) by lia. destruct Hs as [L _]. rewrite <- L at 1. apply firstn_all.
    - specialize (IH (S u) ltac:(lia)). apply (f_equal (firstn u)) in IH. rewrite firstn_firstn in IH. replace (Nat.min u (S u)) with u in IH by lia. rewrite IH. cbn [hist snd sp_pos sp_tok].
      destruct (@xhist_wf _ a SMax pick HK HC Hp u 0 b ltac:(lia) H0 Hb) as [_ [L _]]. rewrite <- L at 1. now rewrite firstn_app, Nat.sub_diag, firstn_all, app_nil_r. }
  rewrite (Pre (xn_length a - t)%nat t), (Pre (xn_length a - S t)%nat (S t)) by lia. destruct (Hp t b Ht Hb) as (Hlt & _ & _ & Top). cbn [hist snd sp_pos sp_tok].
  destruct (Nat.eq_dec (pick t b 0%nat) c) as [<-|Hne]; [right; reflexivity|].
  pose proof (Top c Hc ltac:(intros j Hj; cbn in Hj; replace j with 0%nat by lia; exact Hne) 0%nat ltac:(cbn; lia)) as Q.
  pose proof (@inv_all _ a SMax pick HK HC Hp b Hb Hop t ltac:(lia)) as Inv. rewrite !(@xcand _ a SMax pick HK HC Hp b Hb Hop t) in Q by (auto; apply Hlt; cbn; lia). apply cval_le in Q. cbn [sp_pos sp_tok sone] in Q. rewrite exp_0, !Rmult_1_l in Q. exact Q.
Qed.

(** *** Sampling *)
Lemma psupp_pind_lt A (P : nat -> A -> Prop) ms d n : (forall k, (k < n)%nat -> psupp (P k) (ms k)) -> psupp (fun v => forall k, (k < n)%nat -> P k (v k)) (pind ms d n).
Proof.
  induction n as [|n IH]; intro H; cbn [pind]; [apply psupp_ret; intros; lia|].
  eapply psupp_bind; [apply IH; intros; apply H; lia|]. intros v Hv. eapply psupp_bind; [apply (H n); lia|]. intros x Hx. apply psupp_ret. intros k Hk. destruct (Nat.eqb_spec k n) as [->|]; [exact Hx|apply Hv; lia].
Qed.
Section SampleLaw.
  Variable St : Type.
  Variable a : xar St.
  Notation C := (xn_classes a).
  Hypothesis Hn : xnormalize a = true.
  (** spec: for n more steps no reachable state is a dead end *)
  Fixpoint live (n : nat) (st : St) (prev : nat) : Prop :=
    match n with
    | O => True
    | S n' => (exists c, (c < C)%nat /\ fst (xmstep (xmo a) st prev) c <> None) /\
        forall c, (c < C)%nat -> fst (xmstep (xmo a) st prev) c <> None -> live n' (snd (xmstep (xmo a) st prev)) c
    end.
  Lemma open_live b : open a b -> forall n p, (length p + n <= xn_length a)%nat -> Forall (fun c => (c < C)%nat) p -> 0 < weight a b p ->
    live n (fst (xstp a (xinit a b) (xstart a) p)) (snd (xstp a (xinit a b) (xstart a) p)).
  Proof.
    intro Hop. induction n as [|n IH]; intros p L F P; [exact I|]. cbn [live]. split; [apply (@Hop (length p) p); auto; [lia|split; auto]|].
    intros c Hc Hv. specialize (IH (p ++ [c])). rewrite xstp_snoc in IH. cbn [fst snd] in IH. apply IH.
    - rewrite app_length. cbn. lia.
    - apply Forall_app. split; auto.
    - rewrite weight_snoc. apply Rmult_lt_0_compat; [exact P|]. now apply cweight_pos.
  Qed.
  Lemma PE_xcategorical v f : PE (xcategorical C v) f = RSum (fun c => cweight a v c * f c) (seq 0 C).
  Proof.
    unfold PE, xcategorical. rewrite RSum_map. cbn [fst snd]. unfold cweight. rewrite Hn. generalize (RSum (fun x => xexp (v x)) (seq 0 C)) as Z. intro Z.
    generalize (seq 0 C) as l. induction l as [|c l IH]; [reflexivity|]. cbn [filter]. rewrite (RSum_cons (fun c => xexp (v c) / Z * f c)). destruct (v c) eqn:E.
    - rewrite RSum_cons, IH, E. reflexivity.
    - rewrite IH. cbn [xexp]. unfold Rdiv. rewrite !Rmult_0_l, Rplus_0_l. reflexivity.
  Qed.
  Lemma xcat_supp v : psupp (fun c => (c < C)%nat /\ v c <> None) (xcategorical C v).
  Proof.
    unfold psupp, xcategorical. apply Forall_forall. intros x Hx. apply in_map_iff in Hx as (c & <- & Hc). apply filter_In in Hc as [Hc E]. apply in_seq in Hc. cbn [snd]. split; [lia|]. destruct (v c); discriminate.
  Qed.
  Lemma no_raise S0 n tk sts : (forall i, (i < S0 * xbatch a)%nat -> live (S n) (sts i) (tk i)) ->
    existsb (fun i => forallb (fun c => match fst (xforward a 1 (fun i _ => tk i) sts) i 0%nat c with None => true | Some _ => false end) (seq 0 C)) (seq 0 (S0 * xbatch a)) = false.
  Proof.
    intro H. apply not_true_is_false. intro X. apply existsb_exists in X as (i & Hi & X). apply in_seq in Hi. destruct (H i ltac:(lia)) as [(c & Hc & Hv) _].
    rewrite forallb_forall in X. specialize (X c ltac:(apply in_seq; lia)). unfold xforward in X. cbn [fst xafter] in X. destruct (fst (xmstep (xmo a) (sts i) (tk i)) c); [discriminate|now apply Hv].
  Qed.
  Lemma xsteps_supp S0 n : forall t h tk sts, psupp (fun o => match o with Some y => forall i t', (t' < t)%nat -> y i t' = h i t' | None => True end) (xar_steps a S0 n t h tk sts).
  Proof.
    induction n as [|n IH]; intros t h tk sts; cbn [xar_steps]; [now apply psupp_ret|]. destruct (existsb _ _); [now apply psupp_ret|].
    apply (@psupp_bind _ _ (fun _ => True)); [apply Forall_forall; auto|]. intros d _.
    specialize (IH (S t) (fun i t' => if (t' =? t)%nat then d i else h i t') d (snd (xforward a 1 (fun i _ => tk i) sts))).
    unfold psupp in *. eapply Forall_impl; [|exact IH]. intros [p [y|]]; cbn [snd]; auto. intros Hy i t' Ht'. rewrite Hy by lia. destruct (Nat.eqb_spec t' t); [lia|reflexivity].
  Qed.
  Lemma live_next S0 n tk sts d : (forall i, (i < S0 * xbatch a)%nat -> live (S n) (sts i) (tk i)) ->
    (forall i, (i < S0 * xbatch a)%nat -> (d i < C)%nat /\ fst (xforward a 1 (fun i _ => tk i) sts) i 0%nat (d i) <> None) ->
    forall i, (i < S0 * xbatch a)%nat -> live n (snd (xforward a 1 (fun i _ => tk i) sts) i) (d i).
  Proof. intros H Hd i Hi. destruct (Hd i Hi) as [H1 H2]. unfold xforward in *. cbn [fst snd xafter] in *. now apply (proj2 (H i Hi)). Qed.
  Lemma xsteps_law S0 n : forall t h tk sts G, (forall i, (i < S0 * xbatch a)%nat -> live n (sts i) (tk i)) ->
    PE (xar_steps a S0 n t h tk sts) (fun o => match o with Some y => RProd (fun i => G i (map (y i) (seq t n))) (seq 0 (S0 * xbatch a)) | None => 0 end) =
    RProd (fun i => RSum (fun z => pweight a (sts i) (tk i) z * G i z) (seqs C n)) (seq 0 (S0 * xbatch a)).
  Proof.
    induction n as [|n IH]; intros t h tk sts G Hl.
    - cbn [xar_steps seq map seqs]. rewrite PE_ret. apply (Prod_ext R_csr). intro i. rewrite RSum_cons. cbn [pweight]. rewrite Rmult_1_l. symmetry. apply Rplus_0_r.
    - cbn [xar_steps]. rewrite no_raise with (n := n) by exact Hl. rewrite PE_bind.
      rewrite (@PE_ext_in _ (fun d => forall i, (i < S0 * xbatch a)%nat -> (d i < C)%nat /\ fst (xforward a 1 (fun i _ => tk i) sts) i 0%nat (d i) <> None)
        _ _ (fun d => RProd (fun i => (fun c => RSum (fun z => pweight a (snd (xmstep (xmo a) (sts i) (tk i))) c z * G i (c :: z)) (seqs C n)) (d i)) (seq 0 (S0 * xbatch a)))).
      + rewrite (pind_prod (fun i => xcategorical C (fst (xforward a 1 (fun i _ => tk i) sts) i 0%nat)) 0%nat (S0 * xbatch a)
          (fun i c => RSum (fun z => pweight a (snd (xmstep (xmo a) (sts i) (tk i))) c z * G i (c :: z)) (seqs C n))).
        apply (Prod_ext R_csr). intro i. rewrite PE_xcategorical, seqs_sum_S. apply (Sum_ext R_csr). intro c. rewrite <- RSum_scal. apply (Sum_ext R_csr). intro z.
        cbn [pweight]. unfold xforward. cbn [fst xafter]. ring.
      + apply (@psupp_pind_lt _ (fun i c => (c < C)%nat /\ fst (xforward a 1 (fun i _ => tk i) sts) i 0%nat c <> None)). intros i Hi. apply xcat_supp.
      + intros d Hd. etransitivity; [|apply (IH (S t) (fun i t' => if (t' =? t)%nat then d i else h i t') d (snd (xforward a 1 (fun i _ => tk i) sts)) (fun i z => G i (d i :: z)))].
        * eapply PE_ext_in; [apply xsteps_supp|]. intros [y|] Hy; [|reflexivity]. apply (Prod_ext R_csr). intro i. cbn [seq map]. rewrite (Hy i t) by lia. now rewrite Nat.eqb_refl.
        * exact (@live_next S0 n tk sts d Hl Hd).
  Qed.
  Lemma xsteps_some S0 n : forall t h tk sts, (forall i, (i < S0 * xbatch a)%nat -> live n (sts i) (tk i)) -> psupp (fun o => o <> None) (xar_steps a S0 n t h tk sts).
  Proof.
    induction n as [|n IH]; intros t h tk sts Hl; cbn [xar_steps]; [now apply psupp_ret|]. rewrite no_raise with (n := n) by exact Hl.
    eapply psupp_bind; [apply (@psupp_pind_lt _ (fun i c => (c < C)%nat /\ fst (xforward a 1 (fun i _ => tk i) sts) i 0%nat c <> None)); intros i Hi; apply xcat_supp|]. intros d Hd. apply IH. exact (@live_next S0 n tk sts d Hl Hd).
  Qed.
End SampleLaw.
Lemma weight_normed St (a : xar St) b y : Forall (fun c => (c < xn_classes a)%nat) y -> (0 < weight (normed a) b y <-> 0 < weight a b y).
Proof. intro F. rewrite (@C86_forbidden _ a b y F). apply (@C86_forbidden _ (normed a) b y F). Qed.
Lemma open_normed St (a : xar St) b : open a b -> open (normed a) b.
Proof. intros H t y Ht [L F] P. apply (H t y Ht (conj L F)). now apply weight_normed. Qed.
(** sampling does not raise, and draws every sequence with its probability under the
    normalised model, independently for all samples and rows *)
Theorem C86_sample_law St (a : xar St) S0 (G : nat -> nat -> list nat -> R) : (forall b, (b < xbatch a)%nat -> open a b) ->
  psupp (fun o => o <> None) (xar_sample a S0) /\
  PE (xar_sample a S0) (fun o => match o with Some y => RProd (fun s => RProd (fun b => G s b (map (y s b) (seq 0 (xn_length a)))) (seq 0 (xbatch a))) (seq 0 S0) | None => 0 end) =
  RProd (fun s => RProd (fun b => RSum (fun z => weight (normed a) b z * G s b z) (seqs (xn_classes a) (xn_length a))) (seq 0 (xbatch a))) (seq 0 S0).
Proof.
  intro Hop. assert (Hl : forall i, (i < S0 * xbatch a)%nat -> live (normed a) (xn_length a) (unwrap (xbatch a) (fun _ b => xinit a b) i) (xstart a)).
  { intros i Hi. assert (HB : (i mod xbatch a < xbatch a)%nat) by (apply Nat.mod_upper_bound; intro Q; rewrite Q in Hi; lia).
    apply (@open_live _ (normed a) _ (open_normed (Hop _ HB)) (xn_length a) []); [cbn; lia|constructor|unfold weight; cbn [pweight]; lra]. }
  split.
  - unfold xar_sample. eapply psupp_bind; [exact (@xsteps_some _ (normed a) S0 (xn_length a) 0 (fun _ _ => 0%nat) (fun _ => xstart a) _ Hl)|].
    intros [y|] Hy; [now apply psupp_ret|contradiction].
  - unfold xar_sample. rewrite PE_bind.
    rewrite (@PE_ext _ _ _ (fun o => match o with Some y => RProd (fun i => G (i / xbatch a)%nat (i mod xbatch a)%nat (map (y i) (seq 0 (xn_length a)))) (seq 0 (S0 * xbatch a)) | None => 0 end)).
    + etransitivity; [exact (@xsteps_law _ (normed a) eq_refl S0 (xn_length a) 0 (fun _ _ => 0%nat) (fun _ => xstart a) (unwrap (xbatch a) (fun _ b => xinit a b)) (fun i z => G (i / xbatch a)%nat (i mod xbatch a)%nat z) Hl)|].
      etransitivity; [apply RProd_flat|]. apply (Prod_ext R_csr). intro s. apply (Prod_ext_in R_csr). intros b Hb. apply in_seq in Hb. cbn [normed xbatch] in Hb.
      unfold unwrap, weight. destruct (@divmod_k (xbatch a) s b) as [E1 E2]; [lia|]. cbn [normed xbatch xinit xstart]. rewrite E1, E2. reflexivity.
    + intros [y|]; rewrite PE_ret; cbn [option_map]; [|reflexivity]. rewrite RProd_flat. apply (Prod_ext R_csr). intro s. apply (Prod_ext_in R_csr). intros b Hb. apply in_seq in Hb. unfold wrap.
      destruct (@divmod_k (xbatch a) s b) as [-> ->]; [lia|]. reflexivity.
Qed.
Print Assumptions C86_sample_law.

(** a dead end: if before the last step some slot of the beam has no allowed class left, the
    first score is NaN (log_softmax gives NaN, which topk puts first) *)
Theorem C86_dead_end St (a : xar St) r pick paths v b k : xbeam_search a r pick = Ok (paths, v) -> xpicks_ok a r pick -> (b < xbatch a)%nat -> (k < ssize r)%nat ->
  xnormalize a = true -> (forall c, (c < xn_classes a)%nat -> next a b (snd (hist r pick (xn_length a - 1) k b)) c = None) -> v 0%nat b = NaN.
Proof.
  intros E Hp Hb Hk Hn Hd. destruct (@xbeam_ok _ _ _ _ _ _ E) as (HK & HC & HN & Ho & -> & ->). set (n := (xn_length a - 1)%nat) in *. assert (EN : xn_length a = S n) by lia.
  assert (Hlt : (n < xn_length a)%nat) by lia. destruct (@xsurj _ a r k 0 Hk HC) as (i & Hi & E1 & E2).
  assert (V : xsp_vec r (xex_beam a (xbrun a r pick n)) b i = NaN).
  { unfold xsp_vec, xex_beam. rewrite E1, E2, (@xblogits_at _ a r pick HK HC Hp n k b 0) by (auto; lia). unfold xnorm. rewrite Hn, (Hd 0%nat HC).
    replace (xlse _) with (@None R); [cbn; destruct (xbm _ _ _); reflexivity|]. symmetry. unfold xlse.
    replace (forallb is_none _) with true; [reflexivity|]. symmetry. apply forallb_forall. intros x Hx. apply in_map_iff in Hx as (c & <- & Hc). apply in_seq in Hc. now rewrite Hd by lia. }
  destruct (Hp n b Hlt Hb) as (_ & _ & Desc & Top). rewrite EN. cbn [xbrun xbstep xbm].
  enough (Q : nle NaN (xsp_vec r (xex_beam a (xbrun a r pick n)) b (pick n b 0%nat))) by (destruct (xsp_vec _ _ _ (pick n b 0%nat)); [contradiction..|reflexivity]).
  rewrite <- V. destruct (picked_or r pick n b i) as [(j & Hj & Ej)|Hnp]; [|apply Top; auto; lia].
  destruct (Nat.eq_dec j 0) as [->|Hne]; [rewrite Ej, V; exact I|]. rewrite <- Ej. apply Desc. lia.
Qed.

(** valid choices of indices always exist *)
Definition emb (x : num) : R := match x with NInf => 0 | Fin x => exp x / (1 + exp x) | NaN => 1 end.
Lemma emb_le x y : emb x <= emb y -> nle x y.
Proof.
  assert (Q : forall z, exp z / (1 + exp z) = 1 - / (1 + exp z)) by (intro z; field; pose proof (exp_pos z); lra).
  assert (Q2 : forall z, 0 < / (1 + exp z) < 1).
  { intro z. pose proof (exp_pos z). split; [apply Rinv_0_lt_compat; lra|]. rewrite <- Rinv_1 at 2. apply Rinv_lt_contravar; lra. }
  destruct x as [x| |], y as [y| |]; cbn [emb nle]; auto; rewrite ?Q; try (pose proof (Q2 x)); try (pose proof (Q2 y)); try lra.
  intro H1. destruct (Rle_dec x y) as [|N]; auto. exfalso. assert (exp y < exp x) by (apply exp_increasing; lra). pose proof (exp_pos x). pose proof (exp_pos y).
  assert (/ (1 + exp x) < / (1 + exp y)) by (apply Rinv_lt_contravar; [apply Rmult_lt_0_compat; lra|lra]). lra.
Qed.
Lemma xtopk_exists K L v : (K <= L)%nat -> xis_topk K L v (fun j => nth j (asort (fun i => emb (v i)) L) 0%nat).
Proof. intro H. destruct (@topk_exists K L (fun i => emb (v i)) H) as (T1 & T2 & T3 & T4). split; [exact T1|]. split; [exact T2|]. split; intros; apply emb_le; auto. Qed.
Lemma xbrun_ext St (a : xar St) r pick pick' n : (forall t b k, (t < n)%nat -> pick t b k = pick' t b k) ->
  forall t, (t <= n)%nat -> (forall k b, xbm (xbrun a r pick t) k b = xbm (xbrun a r pick' t) k b) /\
    (forall i, xtk (xbrun a r pick t) i = xtk (xbrun a r pick' t) i) /\ (forall i, xsts (xbrun a r pick t) i = xsts (xbrun a r pick' t) i).
Proof.
  intros H. induction t as [|t IH]; intro Ht; [repeat split; reflexivity|]. destruct (IH ltac:(lia)) as (E1 & E2 & E3).
  assert (X : forall k b c, xex_beam a (xbrun a r pick t) k b c = xex_beam a (xbrun a r pick' t) k b c).
  { intros k b c. unfold xex_beam. rewrite E1. f_equal. unfold xblogits, xforward, wrap. cbn [fst xafter]. rewrite E2, E3. reflexivity. }
  cbn [xbrun xbstep xbm xtk xsts]. repeat split; intros.
  - rewrite H by lia. apply X.
  - unfold unwrap. rewrite H by lia. reflexivity.
  - unfold unwrap, xforward. cbn [snd xafter]. rewrite H by lia. rewrite E2, E3. reflexivity.
Qed.
Theorem xpicks_exist St (a : xar St) r : (1 <= xn_classes a)%nat -> exists pick, xpicks_ok a r pick.
Proof.
  intro HC. assert (HL : (ssize r <= xsp_len a r)%nat) by (unfold ssize, xsp_len; destruct r; nia).
  enough (G : forall n, exists pick, forall t b, (t < n)%nat -> xis_topk (ssize r) (xsp_len a r) (xsp_vec r (xex_beam a (xbrun a r pick t)) b) (pick t b)).
  { destruct (G (xn_length a)) as (pick & Hp). exists pick. intros t b Ht _. auto. }
  induction n as [|n (pick & IH)]; [exists (fun _ _ _ => 0%nat); intros; lia|].
  set (pick' := fun t b j => if (t =? n)%nat then nth j (asort (fun i => emb (xsp_vec r (xex_beam a (xbrun a r pick n)) b i)) (xsp_len a r)) 0%nat else pick t b j).
  exists pick'. intros t b Ht.
  assert (EV : forall i, xsp_vec r (xex_beam a (xbrun a r pick' t)) b i = xsp_vec r (xex_beam a (xbrun a r pick t)) b i).
  { destruct (@xbrun_ext St a r pick' pick n) with (t := t) as (E1 & E2 & E3); [|lia|].
    - intros t' b' k' Ht'. unfold pick'. destruct (Nat.eqb_spec t' n); [lia|reflexivity].
    - intro i. unfold xsp_vec, xex_beam. rewrite E1. f_equal. unfold xblogits, xforward, wrap. cbn [fst xafter]. rewrite E2, E3. reflexivity. }
  enough (T : xis_topk (ssize r) (xsp_len a r) (xsp_vec r (xex_beam a (xbrun a r pick t)) b) (pick' t b)).
  { destruct T as (T1 & T2 & T3 & T4). split; [exact T1|]. split; [exact T2|]. split; intros; rewrite !EV; auto. }
  destruct (Nat.eq_dec t n) as [->|Hne].
  - unfold pick'. rewrite Nat.eqb_refl. apply (@xtopk_exists _ _ (xsp_vec r (xex_beam a (xbrun a r pick n)) b)). exact HL.
  - unfold pick'. destruct (Nat.eqb_spec t n); [contradiction|]. apply IH. lia.
Qed.

(** ** Examples *)
(** classes 0 and 1 alternate; class 2 ends the sequence *)
Definition alt_ok (prev c : nat) : bool := match prev with O => (c =? 1) || (c =? 2) | 1 => (c =? 0) || (c =? 2) | _ => (c =? 2) end%nat.
(** example *)
Definition alt_model (N : nat) : xar unit :=
  {| xmo := {| xodim := 3; xmstep := fun _ prev => (fun c => if alt_ok prev c then Some 0 else None, tt) |};
     xinit := fun _ => tt; xbatch := 2; xn_classes := 3; xn_length := N; xnormalize := true; xstart := 0 |}.
Lemma alt_open N b : open (alt_model N) b.
Proof. intros t y _ _ _. exists 2%nat. split; [cbn; lia|]. unfold next. cbn [alt_model xmo xmstep fst]. destruct (snd _) as [|[|p]]; discriminate. Qed.
Lemma alt_bound N y : Forall (fun c => (c < 3)%nat) y -> forall st prev, pweight (alt_model N) st prev y = 0 \/ (1 / 2) ^ length y <= pweight (alt_model N) st prev y <= 1.
Proof.
  intro F. induction F as [|c y Hc F IH]; intros st prev; [right; cbn; lra|]. cbn [pweight length pow].
  assert (Q : cweight (alt_model N) (fst (xmstep (xmo (alt_model N)) st prev)) c = 0 \/ 1 / 2 <= cweight (alt_model N) (fst (xmstep (xmo (alt_model N)) st prev)) c <= 1).
  { unfold cweight. cbn [xnormalize alt_model xmo xmstep fst xn_classes seq]. rewrite !RSum_cons. change (RSum _ []) with 0.
    destruct prev as [|[|p]], c as [|[|[|c]]]; try lia; cbn [alt_ok Nat.eqb orb xexp]; rewrite exp_0; (left; lra) || (right; lra). }
  destruct Q as [->|Q]; [left; ring|]. destruct (IH (snd (xmstep (xmo (alt_model N)) st prev)) c) as [->|I]; [left; ring|]. right.
  assert (0 <= (1 / 2) ^ length y) by (apply pow_le; lra). split; [apply Rmult_le_compat; lra|]. rewrite <- (Rmult_1_l 1). apply Rmult_le_compat; lra.
Qed.
Lemma NEG_small : exp NEG < 1 / 10000.
Proof.
  replace NEG with (- (100000)) by (unfold NEG; lra). rewrite exp_Ropp. assert (H : 10000 < exp 100000) by (pose proof (exp_ineq1 100000 ltac:(lra)); lra).
  unfold Rdiv. rewrite Rmult_1_l. apply Rinv_lt_contravar; [|exact H]. apply Rmult_lt_0_compat; lra.
Qed.
Lemma alt_spread N b : (N <= 10)%nat -> wspread (alt_model N) b.
Proof.
  intros HN t y y' Ht [L F] [L' F'] P P'. destruct (alt_bound N F tt 0%nat) as [E|B]; [unfold weight in P; cbn in P, E; lra|]. destruct (alt_bound N F' tt 0%nat) as [E|B']; [unfold weight in P'; cbn in P', E; lra|].
  unfold weight. cbn [alt_model xinit xstart]. fold (alt_model N). pose proof NEG_small. pose proof (exp_pos NEG).
  assert (H1 : 1 / 1024 <= (1 / 2) ^ length y').
  { rewrite L'. cbn in Ht. replace (1 / 1024) with ((1 / 2) ^ 10) by (cbn; lra). unfold Rdiv. rewrite !Rmult_1_l, !pow_inv. apply Rinv_le_contravar; [apply pow_lt; lra|]. apply Rle_pow; [lra|lia]. }
  assert (exp NEG * pweight (alt_model N) tt 0 y <= exp NEG * 1) by (apply Rmult_le_compat_l; lra). lra.
Qed.
Lemma alt_prefixes b : Enumerates (fun y => is_seq 3 2 y /\ 0 < weight (alt_model 3) b y) [[1; 0]; [1; 2]; [2; 2]]%nat.
Proof.
  split; [repeat constructor; cbn; intuition discriminate|]. intro y. split.
  - intro Hy. assert (F : is_seq 3 2 y) by (destruct Hy as [<-|[<-|[<-|[]]]]; split; try reflexivity; repeat constructor). split; [exact F|]. destruct F as [_ F].
    apply (@C86_forbidden _ (alt_model 3) b y F). intros t Ht. destruct Hy as [<-|[<-|[<-|[]]]]; destruct t as [|[|t]]; cbn in Ht; try lia; cbn; discriminate.
  - intros [[L F] P]. destruct y as [|c [|d [|]]]; cbn in L; try lia. pose proof F as F'. inversion F as [|? ? Hc F2]; subst. inversion F2 as [|? ? Hd _]; subst.
    pose proof (proj1 (@C86_forbidden _ (alt_model 3) b _ F') P) as Q. pose proof (Q 0%nat ltac:(cbn; lia)) as Q0. pose proof (Q 1%nat ltac:(cbn; lia)) as Q1. clear - Hc Hd Q0 Q1. cbn in Q0, Q1.
    destruct c as [|[|[|c]]], d as [|[|[|d]]]; try lia; cbn in *; try (exfalso; now apply Q0); try (exfalso; now apply Q1); auto.
Qed.
Example ex_C86 : exists pick paths v, xbeam_search (alt_model 3) (SKMax 3) pick = Ok (paths, v) /\ xpicks_ok (alt_model 3) (SKMax 3) pick /\
  (forall b, open (alt_model 3) b) /\ (forall b, wspread (alt_model 3) b) /\
  (forall b, exists l, Enumerates (fun y => is_seq (xn_classes (alt_model 3)) (xn_length (alt_model 3) - 1) y /\ 0 < weight (alt_model 3) b y) l /\ (length l <= ssize (SKMax 3))%nat) /\
  weight (alt_model 3) 0 [1; 0; 2]%nat = 1 / 8 /\ weight (alt_model 3) 0 [1; 1; 2]%nat = 0.
Proof.
  destruct (@xpicks_exist _ (alt_model 3) (SKMax 3)) as (pick & Hp); [cbn; lia|]. exists pick. do 2 eexists. split; [reflexivity|]. split; [exact Hp|].
  split; [intro b; apply alt_open|]. split; [intro b; apply alt_spread; lia|]. split; [intro b; exists [[1; 0]; [1; 2]; [2; 2]]%nat; split; [apply alt_prefixes|cbn; lia]|].
  assert (Q : forall prev c, cweight (alt_model 3) (fun c => if alt_ok prev c then Some 0 else None) c =
    xexp (if alt_ok prev c then Some 0 else None) / (xexp (if alt_ok prev 0 then Some 0 else None) + (xexp (if alt_ok prev 1 then Some 0 else None) + (xexp (if alt_ok prev 2 then Some 0 else None) + 0)))) by reflexivity.
  unfold weight. cbn [pweight alt_model xmo xmstep fst snd xinit xstart]. rewrite !Q. cbn [alt_ok Nat.eqb orb xexp]. rewrite exp_0. split; field.
Qed.
Example ex_C86_greedy : exists pick paths v, xbeam_search (alt_model 3) SMax pick = Ok (paths, v) /\ xpicks_ok (alt_model 3) SMax pick.
Proof. destruct (@xpicks_exist _ (alt_model 3) SMax) as (pick & Hp); [cbn; lia|]. exists pick. do 2 eexists. split; [reflexivity|exact Hp]. Qed.
(** the paths of C38 are no longer distinct: with forbidden classes a beam no wider than the
    number of sequences repeats one of them instead of returning a forbidden one *)
Definition only0 : xar unit :=
  {| xmo := {| xodim := 2; xmstep := fun _ _ => (fun c => if (c =? 0)%nat then Some 0 else None, tt) |};
     xinit := fun _ => tt; xbatch := 1; xn_classes := 2; xn_length := 1; xnormalize := true; xstart := 0 |}.
Theorem C86_repeats_refuted : exists (a : xar unit) pick paths v, xbeam_search a (SKMax 2) pick = Ok (paths, v) /\ xpicks_ok a (SKMax 2) pick /\ open a 0 /\
  (ssize (SKMax 2) <= xn_classes a ^ xn_length a)%nat /\ forall t c, (t < xn_length a)%nat -> paths 0%nat 0%nat t c = paths 1%nat 0%nat t c.
Proof.
  destruct (@xpicks_exist _ only0 (SKMax 2)) as (pick & Hp); [cbn; lia|]. set (S := xbeam_search only0 (SKMax 2) pick). assert (E : exists paths v, S = Ok (paths, v)) by (do 2 eexists; reflexivity).
  destruct E as (paths & v & E). assert (Hop : open only0 0) by (intros t y _ _ _; exists 0%nat; split; [cbn; lia|discriminate]).
  exists only0, pick, paths, v. split; [exact E|]. split; [exact Hp|]. split; [exact Hop|]. split; [cbn; lia|].
  assert (Q : forall k, (k < 2)%nat -> forall t c, (t < 1)%nat -> paths k 0%nat t c = onehot [0%nat] t c).
  { intros k Hk t c Ht. destruct (@C86_beam _ only0 (SKMax 2) pick paths v 0%nat E Hp ltac:(cbn; lia) Hop k Hk) as (y & [L F] & P & O & _). rewrite (O t c Ht). f_equal.
    cbn in L. destruct y as [|d [|]]; try discriminate. pose proof F as F'. inversion F as [|? ? Hd _]; subst. cbn in Hd.
    pose proof (proj1 (@C86_forbidden _ only0 0%nat _ F') P 0%nat ltac:(cbn; lia)) as N. destruct d as [|[|d]]; [reflexivity| |lia]. exfalso. now apply N. }
  intros t c Ht. rewrite (Q 0%nat), (Q 1%nat); auto.
Qed.
(** a dead end spoils the search even if allowed sequences exist *)
Definition trap : xar unit :=
  {| xmo := {| xodim := 2; xmstep := fun _ prev => (fun c => if (prev =? 0)%nat then Some (INR c) else None, tt) |};
     xinit := fun _ => tt; xbatch := 1; xn_classes := 2; xn_length := 2; xnormalize := true; xstart := 0 |}.
Theorem C86_dead_end_refuted : exists (a : xar unit) pick paths v y, xbeam_search a SMax pick = Ok (paths, v) /\ xpicks_ok a SMax pick /\
  is_seq (xn_classes a) (xn_length a) y /\ 0 < weight a 0 y /\ v 0%nat 0%nat = NaN.
Proof.
  destruct (@xpicks_exist _ trap SMax) as (pick & Hp); [cbn; lia|]. set (S := xbeam_search trap SMax pick). assert (E : exists paths v, S = Ok (paths, v)) by (do 2 eexists; reflexivity).
  destruct E as (paths & v & E). assert (F : Forall (fun c => (c < xn_classes trap)%nat) [0; 0]%nat) by (repeat constructor).
  exists trap, pick, paths, v, [0; 0]%nat. split; [exact E|]. split; [exact Hp|]. split; [split; [reflexivity|exact F]|].
  split; [apply (@C86_forbidden _ trap 0%nat _ F); intros [|[|t]] Ht; cbn in Ht; try lia; cbn; discriminate|].
  apply (@C86_dead_end _ trap SMax pick paths v 0%nat 0%nat E Hp); auto; try (cbn; lia).
  intros c Hc. assert (P1 : pick 0%nat 0%nat 0%nat = 1%nat).
  { destruct (Hp 0%nat 0%nat ltac:(cbn; lia) ltac:(cbn; lia)) as (Hlt & _ & _ & Top). specialize (Hlt 0%nat ltac:(cbn; lia)). cbn [xsp_len trap xn_classes] in Hlt.
    destruct (Nat.eq_dec (pick 0%nat 0%nat 0%nat) 1) as [|Hne]; [assumption|]. assert (E0 : pick 0%nat 0%nat 0%nat = 0%nat) by lia.
    pose proof (Top 1%nat ltac:(cbn; lia) ltac:(intros j Hj; cbn in Hj; replace j with 0%nat by lia; exact Hne) 0%nat ltac:(cbn; lia)) as Q. rewrite E0 in Q. exfalso.
    assert (X : forall c, xsp_vec SMax (xex_beam trap (xbrun trap SMax pick 0)) 0%nat c = nplus (Fin 0) (xnorm trap (fun c => Some (INR c)) c)) by reflexivity. rewrite !X in Q.
    rewrite !xnorm_nlog in Q by (exists 0%nat; split; [cbn; lia|discriminate]).
    replace (Fin 0) with (nlog 1) in Q by (rewrite nlog_pos by lra; now rewrite ln_1). rewrite !nlog_mul in Q by (try apply cweight_nonneg; lra).
    apply nlog_le in Q; try (rewrite Rmult_1_l; apply cweight_nonneg). rewrite !Rmult_1_l in Q. unfold cweight in Q. cbn [trap xnormalize xn_classes] in Q.
    assert (Z : 0 < RSum (fun x => xexp (Some (INR x))) (seq 0 2)) by (apply (@sum_pos _ trap (fun x => Some (INR x)) 0%nat); [cbn; lia|discriminate]).
    apply (Rmult_le_compat_r _ _ _ (Rlt_le _ _ Z)) in Q. unfold Rdiv in Q. rewrite !Rmult_assoc, Rinv_l, !Rmult_1_r in Q by lra. cbn [xexp INR] in Q. rewrite exp_0 in Q. pose proof (exp_ineq1 1 ltac:(lra)). lra. }
  cbn [trap xn_length Nat.sub hist snd fst sp_tok sp_pos]. rewrite P1. reflexivity.
Qed.
