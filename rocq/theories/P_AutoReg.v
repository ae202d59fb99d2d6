(** * P_AutoReg: autoregressive models (C37, C38, C39, C46, C47) *)
From Coq Require Import Reals Lra Permutation Sorted FunctionalExtensionality.
From Verif Require Import Base Ops Semirings Approx Grad LinearChain Adapters Sample Shape DagLaw AutoReg.
Set Implicit Arguments.
Local Open Scope R_scope.

(** ** Specification: the score of a sequence of classes *)
Section Spec.
  Variable St : Type.
  Variable a : ar St.
  (** read the previous token, add the (normalised) logit of the next one, and so on *)
  Fixpoint arscore (nrm : (nat -> R) -> nat -> R) (st : St) (prev : nat) (y : list nat) : R :=
    match y with
    | [] => 0
    | c :: y' => nrm (fst (mstep (mo a) st (Hard prev))) c + arscore nrm (snd (mstep (mo a) st (Hard prev))) c y'
    end.
  (** spec: score of a sequence *)
  Definition score (b : nat) (y : list nat) : R := arscore (norm a) (init a b) (start_class a) y.

  (** state and token reached before the next step *)
  Fixpoint stp (st : St) (prev : nat) (y : list nat) : St * nat :=
    match y with [] => (st, prev) | c :: y' => stp (snd (mstep (mo a) st (Hard prev))) c y' end.
  Lemma stp_snoc y c : forall st prev, stp st prev (y ++ [c]) = (snd (mstep (mo a) (fst (stp st prev y)) (Hard (snd (stp st prev y)))), c).
  Proof. induction y as [|d y IH]; intros st prev; [reflexivity|]. cbn [app stp]. apply IH. Qed.
  Lemma arscore_snoc nrm y c : forall st prev,
    arscore nrm st prev (y ++ [c]) = arscore nrm st prev y + nrm (fst (mstep (mo a) (fst (stp st prev y)) (Hard (snd (stp st prev y))))) c.
  Proof. induction y as [|d y IH]; intros st prev; cbn [app arscore stp fst snd]; [ring|]. rewrite IH. ring. Qed.

  Lemma divmod_k B k b : (b < B)%nat -> ((k * B + b) / B = k /\ (k * B + b) mod B = b)%nat.
  Proof.
    intro H. split; [rewrite Nat.div_add_l by lia; rewrite Nat.div_small by lia; lia|].
    rewrite Nat.add_comm, Nat.mod_add by lia. apply Nat.mod_small; lia.
  Qed.
  Lemma unwrap_at A B (x : nat -> nat -> A) k b : (b < B)%nat -> unwrap B x (k * B + b) = x k b.
  Proof. intro H. unfold unwrap. destruct (divmod_k k H) as [-> ->]. reflexivity. Qed.

  Lemma after_stp st toks prev val n : toks 0%nat = Hard prev -> (forall t, toks (S t) = Hard (val t)) ->
    after a st toks n = fst (stp st prev (map val (seq 0 n))) /\ toks n = Hard (snd (stp st prev (map val (seq 0 n)))).
  Proof.
    intros H0 HS. induction n as [|n [IH1 IH2]]; [split; [reflexivity|exact H0]|].
    rewrite seq_S, map_app. cbn [map]. rewrite stp_snoc. cbn [after fst snd]. rewrite IH1, IH2. split; [reflexivity|]. rewrite Nat.add_0_l. apply HS.
  Qed.
  Lemma roll_score nrm st toks prev val n : toks 0%nat = Hard prev -> (forall t, toks (S t) = Hard (val t)) ->
    RSum (fun t => nrm (fst (mstep (mo a) (after a st toks t) (toks t))) (val t)) (seq 0 n) = arscore nrm st prev (map val (seq 0 n)).
  Proof.
    intros H0 HS. induction n as [|n IH]; [reflexivity|]. rewrite seq_S, RSum_app, IH, map_app. cbn [map]. rewrite arscore_snoc, RSum_cons, Nat.add_0_l.
    destruct (@after_stp st toks prev val n H0 HS) as [-> ->]. change (RSum _ []) with 0. ring.
  Qed.
  (** log_prob returns exactly that score, for every batch of sequences *)
  Theorem log_prob_score sample N value : odim (mo a) = n_classes a ->
    (forall s b t, (s < sample)%nat -> (b < batch a)%nat -> (t < N)%nat -> (value s b t < n_classes a)%nat) ->
    exists lp, log_prob a sample N value = Ok lp /\
      forall s b, (s < sample)%nat -> (b < batch a)%nat -> lp s b = score b (map (value s b) (seq 0 N)).
  Proof.
    intros Ho Hv. unfold log_prob. rewrite Ho, Nat.eqb_refl. cbn [negb].
    set (ok := forallb _ _). assert (E : ok = true).
    { apply forallb_forall. intros i Hi. apply in_seq in Hi. apply forallb_forall. intros t Ht. apply in_seq in Ht. apply Nat.ltb_lt.
      assert (HB : batch a <> 0%nat) by (intro Q; rewrite Q in Hi; lia).
      unfold unwrap. apply Hv; try lia; [apply Nat.div_lt_upper_bound; lia|apply Nat.mod_upper_bound; lia]. }
    rewrite E. cbn [negb]. eexists; split; [reflexivity|]. intros s b Hs Hb. unfold wrap.
    rewrite (Sum_ext R_csr _ (fun t => norm a (fst (mstep (mo a) (after a (init a b) (fun t => Hard (match t with O => start_class a | S t' => value s b t' end)) t) (Hard (match t with O => start_class a | S t' => value s b t' end)))) (value s b t))).
    - apply (@roll_score (norm a) (init a b) (fun t => Hard (match t with O => start_class a | S t' => value s b t' end)) (start_class a) (value s b) N); reflexivity.
    - intro t. unfold forward. cbn [fst]. unfold unwrap. destruct (divmod_k s Hb) as [-> ->]. reflexivity.
  Qed.
End Spec.

(** ** Beam search *)
Lemma sone_0 r : sone r 0 = 0. Proof. destruct r; reflexivity. Qed.
Lemma sone_fake r o : (o < ssize r)%nat -> o <> 0%nat -> sone r o = NEG.
Proof. unfold sone, ssize. destruct r; intros H1 H2; [lia|]. destruct (Nat.eqb_spec o 0); [contradiction|reflexivity]. Qed.
Section Beam.
  Variable St : Type.
  Variable a : ar St.
  Variable r : srng.
  Variable noise : option (nat -> nat -> nat -> nat -> R).
  Variable pick : nat -> nat -> nat -> nat.
  Notation K := (ssize r).
  Notation B := (batch a).
  Notation C := (n_classes a).
  Notation N := (n_length a).
  Hypothesis HK : (1 <= K)%nat.
  Hypothesis HC : (1 <= C)%nat.
  Hypothesis Hok : picks_ok a r noise pick.

  Lemma sp_pos_lt i : (i < sp_len a r)%nat -> (sp_pos r i < K)%nat.
  Proof. unfold sp_len, sp_pos, ssize in *. destruct r; intro H; [lia|]. apply Nat.mod_upper_bound. lia. Qed.
  Lemma sp_tok_lt i : (i < sp_len a r)%nat -> (sp_tok r i < C)%nat.
  Proof. unfold sp_len, sp_tok, ssize in *. destruct r; intro H; [lia|]. apply Nat.div_lt_upper_bound; lia. Qed.
  Lemma sp_vec_pt xs b i : (i < sp_len a r)%nat -> sp_vec r xs b i = xs (sp_pos r i) b (sp_tok r i).
  Proof. unfold sp_vec, sp_pos, sp_tok. destruct r; reflexivity. Qed.
  Lemma sp_inj i j : (i < sp_len a r)%nat -> (j < sp_len a r)%nat -> sp_pos r i = sp_pos r j -> sp_tok r i = sp_tok r j -> i = j.
  Proof.
    unfold sp_pos, sp_tok, ssize in *. destruct r as [|k]; intros Hi Hj H1 H2; [auto|].
    rewrite (Nat.div_mod i k), (Nat.div_mod j k) by lia. now rewrite H1, H2.
  Qed.
  Lemma sp_surj kk c : (kk < K)%nat -> (c < C)%nat -> exists i, (i < sp_len a r)%nat /\ sp_pos r i = kk /\ sp_tok r i = c.
  Proof.
    unfold sp_pos, sp_tok, sp_len, ssize in *. destruct r as [|k]; intros H1 H2; [exists c; repeat split; lia|].
    exists (c * k + kk)%nat. destruct (divmod_k c H1) as [-> ->]. repeat split; nia.
  Qed.
  Lemma pick_lt t b k : (t < N)%nat -> (b < B)%nat -> (k < K)%nat -> (pick t b k < sp_len a r)%nat.
  Proof. intros Ht Hb Hk. apply (Hok Ht Hb); auto. Qed.

  (** the hypothesis in slot k: the slot of the initial beam it comes from, its classes *)
  Fixpoint hist (t k b : nat) : nat * list nat :=
    match t with
    | O => (k, [])
    | S t' => let i := pick t' b k in let h := hist t' (sp_pos r i) b in (fst h, snd h ++ [sp_tok r i])
    end.
  Lemma hist_wf t : (t <= N)%nat -> forall k b, (k < K)%nat -> (b < B)%nat ->
    (fst (hist t k b) < K)%nat /\ is_seq C t (snd (hist t k b)).
  Proof.
    induction t as [|t IH]; intros Ht k b Hk Hb; [cbn; split; [auto|split; [reflexivity|constructor]]|].
    cbn [hist fst snd]. pose proof (@pick_lt t b k ltac:(lia) Hb Hk) as Hi. destruct (IH ltac:(lia) (sp_pos r (pick t b k)) b (sp_pos_lt Hi) Hb) as [H1 [H2 H3]].
    split; [exact H1|]. split; [rewrite app_length, H2; cbn; lia|]. apply Forall_app. split; auto. constructor; auto. now apply sp_tok_lt.
  Qed.
  Lemma hist_inj t : (t <= N)%nat -> forall k k' b, (k < K)%nat -> (k' < K)%nat -> (b < B)%nat -> hist t k b = hist t k' b -> k = k'.
  Proof.
    induction t as [|t IH]; intros Ht k k' b Hk Hk' Hb E; [injection E; auto|].
    cbn [hist] in E. injection E as E1 E2. apply app_inj_tail in E2 as [E2 E3].
    pose proof (@pick_lt t b k ltac:(lia) Hb Hk) as Hi. pose proof (@pick_lt t b k' ltac:(lia) Hb Hk') as Hi'.
    assert (Ep : sp_pos r (pick t b k) = sp_pos r (pick t b k')).
    { apply (IH ltac:(lia)) with b; try apply sp_pos_lt; auto. destruct (hist t (sp_pos r (pick t b k)) b), (hist t (sp_pos r (pick t b k')) b). cbn in *. congruence. }
    destruct (Hok (t := t) (b := b) ltac:(lia) Hb) as (_ & Inj & _). apply Inj; auto. apply sp_inj; auto.
  Qed.
  Lemma state_inv t : (t <= N)%nat -> forall k b, (k < K)%nat -> (b < B)%nat ->
    sts (brun a r noise pick t) (k * B + b) = fst (stp a (init a b) (start_class a) (snd (hist t k b))) /\
    tk (brun a r noise pick t) (k * B + b) = Hard (snd (stp a (init a b) (start_class a) (snd (hist t k b)))).
  Proof.
    induction t as [|t IH]; intros Ht k b Hk Hb.
    - cbn [brun b0 sts tk hist snd stp fst]. split; [now rewrite unwrap_at|reflexivity].
    - pose proof (@pick_lt t b k ltac:(lia) Hb Hk) as Hi. destruct (IH ltac:(lia) (sp_pos r (pick t b k)) b (sp_pos_lt Hi) Hb) as [H1 H2].
      cbn [brun bstep sts tk hist snd]. rewrite stp_snoc. rewrite !unwrap_at by auto. cbn [fst snd]. split; [|reflexivity].
      unfold forward. cbn [snd after]. rewrite H1, H2. reflexivity.
  Qed.
  Lemma blogits_at t k b c : (t <= N)%nat -> (k < K)%nat -> (b < B)%nat -> noise = None ->
    blogits a noise t (brun a r noise pick t) k b c =
    norm a (fst (mstep (mo a) (fst (stp a (init a b) (start_class a) (snd (hist t k b)))) (Hard (snd (stp a (init a b) (start_class a) (snd (hist t k b))))))) c.
  Proof.
    intros Ht Hk Hb En. destruct (@state_inv t Ht k b Hk Hb) as [H1 H2]. unfold blogits, wrap, forward. cbn [fst after]. rewrite H1, H2, En. reflexivity.
  Qed.
  Lemma beam_inv t : noise = None -> (t <= N)%nat -> forall k b, (k < K)%nat -> (b < B)%nat ->
    bm (brun a r noise pick t) k b = sone r (fst (hist t k b)) + score a b (snd (hist t k b)).
  Proof.
    intros En. induction t as [|t IH]; intros Ht k b Hk Hb; [cbn [brun b0 bm hist fst snd]; unfold score; cbn [arscore]; ring|].
    pose proof (@pick_lt t b k ltac:(lia) Hb Hk) as Hi. pose proof (sp_pos_lt Hi) as Hp.
    cbn [brun bstep bm hist fst snd]. rewrite sp_vec_pt by auto. unfold ex_beam. rewrite IH, blogits_at by (auto; lia).
    unfold score at 2. rewrite arscore_snoc. unfold score. ring.
  Qed.
  (** value of a candidate of step t *)
  Lemma cand_val t i b : noise = None -> (t < N)%nat -> (i < sp_len a r)%nat -> (b < B)%nat ->
    sp_vec r (ex_beam a noise t (brun a r noise pick t)) b i =
    sone r (fst (hist t (sp_pos r i) b)) + score a b (snd (hist t (sp_pos r i) b) ++ [sp_tok r i]).
  Proof.
    intros En Ht Hi Hb. pose proof (sp_pos_lt Hi) as Hp. rewrite sp_vec_pt by auto. unfold ex_beam. rewrite beam_inv, blogits_at by (auto; lia).
    unfold score at 2. rewrite arscore_snoc. unfold score. ring.
  Qed.

  (** ** Back pointers *)
  Fixpoint anc (k n b : nat) : nat :=
    match n with O => k | S n' => sp_pos r (pick (N - S n') b (anc k n' b)) end.
  Lemma anc_lt k n b : (k < K)%nat -> (b < B)%nat -> (n <= N)%nat -> (anc k n b < K)%nat.
  Proof.
    intros Hk Hb. induction n as [|n IH]; intro Hn; [exact Hk|]. cbn [anc]. apply sp_pos_lt, pick_lt; auto; [lia|]. apply IH; lia.
  Qed.
  Lemma RSum_delta (f : nat -> R) n x : (x < n)%nat -> RSum (fun i => if (i =? x)%nat then f i else 0) (seq 0 n) = f x.
  Proof. intro H. exact (Sum_seq_delta R_csr f H). Qed.
  Lemma gbeam_anc k n : (n <= N)%nat -> forall k' b, (k < K)%nat -> (b < B)%nat -> (k' < K)%nat ->
    gbeam a r pick k n k' b = if (k' =? anc k n b)%nat then 1 else 0.
  Proof.
    induction n as [|n IH]; intros Hn k' b Hk Hb Hk'; [reflexivity|]. cbn [gbeam anc]. set (t := (N - S n)%nat). set (x := anc k n b).
    assert (Hx : (x < K)%nat) by (apply anc_lt; auto; lia). pose proof (@pick_lt t b x ltac:(lia) Hb Hx) as Hi.
    transitivity (RSum (fun c => if (c =? sp_tok r (pick t b x))%nat then (if (k' =? sp_pos r (pick t b x))%nat then 1 else 0) else 0) (seq 0 C)).
    - apply (Sum_ext R_csr). intro c.
      rewrite (Sum_ext_in R_csr _ (fun j => if (j =? x)%nat then (if (sp_pos r (pick t b j) =? k')%nat && (sp_tok r (pick t b j) =? c)%nat then 1 else 0) else 0)).
      + etransitivity; [apply (RSum_delta (fun j => if (sp_pos r (pick t b j) =? k')%nat && (sp_tok r (pick t b j) =? c)%nat then 1 else 0) Hx)|].
        cbv beta. rewrite (Nat.eqb_sym k'), (Nat.eqb_sym c). destruct (sp_pos r (pick t b x) =? k')%nat, (sp_tok r (pick t b x) =? c)%nat; reflexivity.
      + intros j Hj. apply in_seq in Hj. rewrite IH by (auto; lia). fold x. destruct (_ && _), (j =? x)%nat; reflexivity.
    - apply (RSum_delta (fun _ => if (k' =? sp_pos r (pick t b x))%nat then 1 else 0)). now apply sp_tok_lt.
  Qed.
  Lemma path_anc k t b c : (k < K)%nat -> (b < B)%nat -> (t < N)%nat ->
    RSum (fun k' => gex a r pick k t k' b c) (seq 0 K) = if (sp_tok r (pick t b (anc k (N - S t) b)) =? c)%nat then 1 else 0.
  Proof.
    intros Hk Hb Ht. set (x := anc k (N - S t) b). assert (Hx : (x < K)%nat) by (apply anc_lt; auto; lia). pose proof (@pick_lt t b x Ht Hb Hx) as Hi.
    transitivity (RSum (fun k' => if (k' =? sp_pos r (pick t b x))%nat then (if (sp_tok r (pick t b x) =? c)%nat then 1 else 0) else 0) (seq 0 K)).
    - apply (Sum_ext R_csr). intro k'. unfold gex.
      rewrite (Sum_ext_in R_csr _ (fun j => if (j =? x)%nat then (if (sp_pos r (pick t b j) =? k')%nat && (sp_tok r (pick t b j) =? c)%nat then 1 else 0) else 0)).
      + etransitivity; [apply (RSum_delta (fun j => if (sp_pos r (pick t b j) =? k')%nat && (sp_tok r (pick t b j) =? c)%nat then 1 else 0) Hx)|].
        cbv beta. rewrite (Nat.eqb_sym k'). destruct (sp_pos r (pick t b x) =? k')%nat, (sp_tok r (pick t b x) =? c)%nat; reflexivity.
      + intros j Hj. apply in_seq in Hj. rewrite gbeam_anc by (auto; lia). fold x. destruct (_ && _), (j =? x)%nat; reflexivity.
    - apply (RSum_delta (fun _ => if (sp_tok r (pick t b x) =? c)%nat then 1 else 0)). now apply sp_pos_lt.
  Qed.
  Lemma hist_anc k n b : (n <= N)%nat -> (k < K)%nat -> (b < B)%nat -> firstn (N - n) (snd (hist N k b)) = snd (hist (N - n) (anc k n b) b).
  Proof.
    intros Hn Hk Hb. induction n as [|n IH].
    - rewrite Nat.sub_0_r. cbn [anc]. destruct (@hist_wf N (le_n _) k b Hk Hb) as [_ [L _]]. rewrite <- L at 1. apply firstn_all.
    - specialize (IH ltac:(lia)). assert (E : (N - n = S (N - S n))%nat) by lia. rewrite E in IH. cbn [hist snd] in IH. cbn [anc].
      assert (Ha : (anc k n b < K)%nat) by (apply anc_lt; auto; lia). pose proof (@pick_lt (N - S n) b _ ltac:(lia) Hb Ha) as Hi.
      destruct (@hist_wf (N - S n) ltac:(lia) (sp_pos r (pick (N - S n) b (anc k n b))) b (sp_pos_lt Hi) Hb) as [_ [L _]].
      apply (f_equal (firstn (N - S n))) in IH. rewrite firstn_firstn in IH. replace (Nat.min (N - S n) (S (N - S n))) with (N - S n)%nat in IH by lia.
      rewrite IH. rewrite <- L at 1. now rewrite firstn_app, Nat.sub_diag, firstn_all, app_nil_r.
  Qed.
  Lemma hist_nth k t b : (t < N)%nat -> (k < K)%nat -> (b < B)%nat -> nth t (snd (hist N k b)) 0%nat = sp_tok r (pick t b (anc k (N - S t) b)).
  Proof.
    intros Ht Hk Hb. pose proof (@hist_anc k (N - S t) b ltac:(lia) Hk Hb) as E. replace (N - (N - S t))%nat with (S t) in E by lia. cbn [hist snd] in E.
    assert (Ha : (anc k (N - S t) b < K)%nat) by (apply anc_lt; auto; lia). pose proof (@pick_lt t b _ Ht Hb Ha) as Hi.
    destruct (@hist_wf t ltac:(lia) (sp_pos r (pick t b (anc k (N - S t) b))) b (sp_pos_lt Hi) Hb) as [_ [L _]].
    rewrite <- (firstn_skipn (S t) (snd (hist N k b))), E. rewrite app_nth1 by (rewrite app_length, L; cbn; lia).
    rewrite app_nth2 by lia. rewrite L, Nat.sub_diag. reflexivity.
  Qed.
  Lemma path_onehot k t b c : (k < K)%nat -> (b < B)%nat -> (t < N)%nat ->
    RSum (fun k' => gex a r pick k t k' b c) (seq 0 K) = if (nth t (snd (hist N k b)) 0 =? c)%nat then 1 else 0.
  Proof. intros. rewrite path_anc, hist_nth; auto. Qed.

  (** ** Which slots hold descendants of the real initial hypothesis *)
  Definition spread (b : nat) : Prop := forall t y y', (t <= N)%nat -> is_seq C t y -> is_seq C t y' -> score a b y < score a b y' + 100000.
  Lemma prefix_exists (p : nat -> bool) n : (forall j j', (j < j' < n)%nat -> p j' = true -> p j = true) ->
    exists q, (q <= n)%nat /\ forall j, (j < n)%nat -> (p j = true <-> (j < q)%nat).
  Proof.
    induction n as [|n IH]; intro H; [exists 0%nat; split; [lia|intros; lia]|].
    destruct (IH ltac:(intros; eapply H; eauto; lia)) as (q & Hq & E). destruct (p n) eqn:Pn.
    - exists (S n). split; [lia|]. intros j Hj. split; [lia|]. intros _. destruct (Nat.eq_dec j n) as [->|]; [auto|]. apply (H j n); auto; lia.
    - exists q. split; [lia|]. intros j Hj. destruct (Nat.eq_dec j n) as [->|]; [|apply E; lia]. rewrite Pn. split; [discriminate|lia].
  Qed.
  Lemma NoDup_map_in A D (f : A -> D) l : NoDup l -> (forall x y, In x l -> In y l -> f x = f y -> x = y) -> NoDup (map f l).
  Proof.
    intros H I. induction H as [|x l Hx Hn IH]; [constructor|]. cbn [map]. constructor.
    - intro Q. apply in_map_iff in Q as (y & E & Hy). apply Hx. rewrite (I x y); auto; [left|right]; auto.
    - apply IH. intros; apply I; auto; right; auto.
  Qed.
  Lemma Rabs_def2' x D : Rabs x <= D -> - D <= x <= D.
  Proof. unfold Rabs. destruct (Rcase_abs x); lra. Qed.
  (** candidates from the real hypothesis beat the others *)
  Definition separated (b : nat) : Prop := forall t i j, (t < N)%nat -> (i < sp_len a r)%nat -> (j < sp_len a r)%nat ->
    fst (hist t (sp_pos r i) b) = 0%nat -> fst (hist t (sp_pos r j) b) <> 0%nat ->
    sp_vec r (ex_beam a noise t (brun a r noise pick t)) b j < sp_vec r (ex_beam a noise t (brun a r noise pick t)) b i.
  Lemma cand_seq t i b : (t < N)%nat -> (i < sp_len a r)%nat -> (b < B)%nat -> is_seq C (S t) (snd (hist t (sp_pos r i) b) ++ [sp_tok r i]).
  Proof.
    intros Ht Hi Hb. destruct (@hist_wf t ltac:(lia) (sp_pos r i) b (sp_pos_lt Hi) Hb) as [_ [L F]]. split; [rewrite app_length, L; cbn; lia|].
    apply Forall_app; split; auto. constructor; auto. now apply sp_tok_lt.
  Qed.
  Lemma spread_separated b : noise = None -> spread b -> (b < B)%nat -> separated b.
  Proof.
    intros En Hs Hb t i j Ht Hi Hj E1 E2. rewrite !cand_val by auto. rewrite E1, sone_0. rewrite sone_fake; auto; [|apply hist_wf; auto; [lia|now apply sp_pos_lt]].
    unfold NEG. pose proof (Hs (S t) _ _ Ht (cand_seq Ht Hj Hb) (cand_seq Ht Hi Hb)). lra.
  Qed.
  (** with noise: logits bounded by D keep the candidates apart *)
  Lemma beam_bound b D : 0 <= D -> (b < B)%nat -> (forall t k c, (t < N)%nat -> (k < K)%nat -> (c < C)%nat -> Rabs (blogits a noise t (brun a r noise pick t) k b c) <= D) ->
    forall t, (t <= N)%nat -> forall k, (k < K)%nat -> Rabs (bm (brun a r noise pick t) k b - sone r (fst (hist t k b))) <= INR t * D.
  Proof.
    intros HD Hb Hbd. induction t as [|t IH]; intros Ht k Hk.
    - cbn [brun b0 bm hist fst INR]. rewrite Rminus_diag_eq by reflexivity. rewrite Rabs_R0. lra.
    - pose proof (@pick_lt t b k ltac:(lia) Hb Hk) as Hi. pose proof (sp_pos_lt Hi) as Hp. specialize (IH ltac:(lia) _ Hp).
      cbn [brun bstep bm hist fst snd]. rewrite sp_vec_pt by auto. unfold ex_beam. pose proof (Hbd t _ _ ltac:(lia) Hp (sp_tok_lt Hi)) as Q. rewrite S_INR.
      match goal with |- Rabs (?x + ?y - ?z) <= _ => replace (x + y - z) with ((x - z) + y) by ring end. eapply Rle_trans; [apply Rabs_triang|]. lra.
  Qed.
  Lemma bounded_separated b D : 0 <= D -> 2 * INR N * D < 100000 -> (b < B)%nat ->
    (forall t k c, (t < N)%nat -> (k < K)%nat -> (c < C)%nat -> Rabs (blogits a noise t (brun a r noise pick t) k b c) <= D) -> separated b.
  Proof.
    intros HD HN Hb Hbd t i j Ht Hi Hj E1 E2. rewrite !sp_vec_pt by auto. unfold ex_beam.
    pose proof (@beam_bound b D HD Hb Hbd t ltac:(lia) _ (sp_pos_lt Hi)) as Q1. pose proof (@beam_bound b D HD Hb Hbd t ltac:(lia) _ (sp_pos_lt Hj)) as Q2.
    pose proof (Hbd t _ _ Ht (sp_pos_lt Hi) (sp_tok_lt Hi)) as Q3. pose proof (Hbd t _ _ Ht (sp_pos_lt Hj) (sp_tok_lt Hj)) as Q4.
    rewrite E1, sone_0 in Q1. rewrite sone_fake in Q2; auto; [|apply hist_wf; auto; [lia|now apply sp_pos_lt]]. unfold NEG in Q2.
    apply Rabs_def2' in Q1, Q2, Q3, Q4. assert (T : INR t * D + D <= INR N * D) by (rewrite <- (Rmult_1_l D) at 2; rewrite <- Rmult_plus_distr_r, <- S_INR; apply Rmult_le_compat_r; auto; apply le_INR; lia).
    lra.
  Qed.
  Lemma real_prefix b t : separated b -> (b < B)%nat -> (t <= N)%nat ->
    forall k, (k < K)%nat -> (fst (hist t k b) = 0%nat <-> (k < Nat.min K (C ^ t))%nat).
  Proof.
    intros Hs Hb. induction t as [|t IH]; intros Ht.
    - intros k Hk. cbn. lia.
    - specialize (IH ltac:(lia)). destruct (Hok (t := t) (b := b) ltac:(lia) Hb) as (Hlt & Inj & Desc & Top).
      set (rt := Nat.min K (C ^ t)) in *.
      pose proof (fun i j => @Hs t i j ltac:(lia)) as RF.
      destruct (@prefix_exists (fun k => (fst (hist (S t) k b) =? 0)%nat) K) as (q & Hq & E).
      { intros j j' Hj H. apply Nat.eqb_eq in H. apply Nat.eqb_eq. cbn [hist fst] in *. destruct (Nat.eq_dec (fst (hist t (sp_pos r (pick t b j)) b)) 0) as [|Hne]; auto.
        exfalso. pose proof (RF _ _ (Hlt j' ltac:(lia)) (Hlt j ltac:(lia)) H Hne). pose proof (Desc j j' ltac:(lia)). lra. }
      assert (E' : forall k, (k < K)%nat -> (fst (hist t (sp_pos r (pick t b k)) b) = 0%nat <-> (k < q)%nat)).
      { intros k Hk. rewrite <- (E k Hk). cbn [hist fst]. rewrite Nat.eqb_eq. reflexivity. }
      set (P := map (fun j => (sp_pos r (pick t b j), sp_tok r (pick t b j))) (seq 0 q)).
      assert (NP : NoDup P).
      { apply NoDup_map_in; [apply seq_NoDup|]. intros x y Hx Hy Exy. apply in_seq in Hx, Hy. injection Exy as E1 E2. apply Inj; try lia. apply sp_inj; auto; apply Hlt; lia. }
      assert (LP : length P = q) by (unfold P; now rewrite map_length, seq_length).
      assert (U1 : (q <= rt * C)%nat).
      { rewrite <- LP. replace (rt * C)%nat with (length (list_prod (seq 0 rt) (seq 0 C))) by (rewrite prod_length, !seq_length; reflexivity).
        apply NoDup_incl_length; auto. intros [x c] Hx. apply in_map_iff in Hx as (j & Ex & Hj). apply in_seq in Hj. injection Ex as <- <-.
        apply in_prod; apply in_seq; split; try lia; [|apply sp_tok_lt, Hlt; lia]. cbn. apply (IH _ (sp_pos_lt (Hlt j ltac:(lia)))). apply E'; lia. }
      assert (U2 : (q < K)%nat -> (rt * C <= q)%nat).
      { intro HqK. rewrite <- LP. replace (rt * C)%nat with (length (list_prod (seq 0 rt) (seq 0 C))) by (rewrite prod_length, !seq_length; reflexivity).
        apply NoDup_incl_length; [|].
        - clear. assert (H1 := seq_NoDup rt 0). assert (H2 := seq_NoDup C 0). revert H1. generalize (seq 0 rt) as l1. induction l1 as [|x l1 IHl]; intro H1; [constructor|]. cbn [list_prod].
          inversion H1 as [|? ? Hx Hn]; subst. apply NoDup_app_intro.
          + apply NoDup_map_in; auto. intros ? ? _ _ Q. now injection Q.
          + apply IHl; auto.
          + intros [u v] H3 H4. apply in_map_iff in H3 as (w & Q & _). injection Q as <- <-. apply in_prod_iff in H4 as [H4 _]. contradiction.
        - intros [x c] Hx. apply in_prod_iff in Hx as [Hx Hc]. apply in_seq in Hx, Hc. destruct (@sp_surj x c) as (i & Hi & Ep & Ec); [lia|lia|].
          destruct (existsb (fun j => (pick t b j =? i)%nat) (seq 0 K)) eqn:X.
          + apply existsb_exists in X as (j & Hj & X). apply in_seq in Hj. apply Nat.eqb_eq in X. apply in_map_iff. exists j. rewrite X, Ep, Ec. split; auto.
            apply in_seq. split; [lia|]. cbn. apply E'; [lia|]. rewrite X, Ep. apply IH; lia.
          + exfalso. assert (NS : forall j, (j < K)%nat -> pick t b j <> i).
            { intros j Hj Q. enough (false = true) by discriminate. rewrite <- X. apply existsb_exists. exists j. split; [apply in_seq; lia|]. now apply Nat.eqb_eq. }
            pose proof (Top i Hi NS q HqK) as T1. assert (F : fst (hist t (sp_pos r (pick t b q)) b) <> 0%nat) by (intro Q; apply E' in Q; lia).
            assert (R0 : fst (hist t (sp_pos r i) b) = 0%nat) by (rewrite Ep; apply IH; lia).
            pose proof (RF i _ Hi (Hlt q HqK) R0 F). lra. }
      intros k Hk. cbn [hist fst]. rewrite (E' k Hk).
      enough (Eq : q = Nat.min K (C ^ S t)) by (rewrite Eq; reflexivity).
      assert (PC : (1 <= C ^ t)%nat) by (clear - HC; induction t; cbn; [lia|nia]). assert (EC : (C ^ S t = C * C ^ t)%nat) by (cbn; lia). rewrite EC. unfold rt in *. clear - U1 U2 Hq HC HK PC.
      destruct (Nat.le_gt_cases K q) as [Q|Q].
      + assert (q = K) by lia. subst q. symmetry. apply Nat.min_l. nia.
      + specialize (U2 Q). assert (C ^ t <= K)%nat by (destruct (Nat.le_gt_cases (C ^ t) K); [auto|]; rewrite Nat.min_l in U2 by lia; nia).
        rewrite Nat.min_r in U1, U2 by lia. rewrite Nat.min_r by nia. nia.
  Qed.
  Lemma seqs_len n : length (seqs C n) = (C ^ n)%nat.
  Proof.
    induction n as [|n IH]; [reflexivity|]. cbn [seqs]. assert (F : forall l, length (flat_map (fun c => map (cons c) (seqs C n)) l) = (length l * C ^ n)%nat).
    { induction l as [|x l IHl]; [reflexivity|]. cbn [flat_map length]. rewrite app_length, map_length, IH, IHl. lia. }
    rewrite F, seq_length. reflexivity.
  Qed.
  (** a beam at least as wide as the number of prefixes keeps them all *)
  Lemma all_prefixes b t : separated b -> (b < B)%nat -> (t <= N)%nat -> (C ^ t <= K)%nat ->
    forall y, is_seq C t y -> exists k, (k < K)%nat /\ hist t k b = (0%nat, y).
  Proof.
    intros Hs Hb Ht HCK y Hy. set (L := map (fun k => snd (hist t k b)) (seq 0 (C ^ t))).
    assert (RP := @real_prefix b t Hs Hb Ht).
    assert (I : incl (seqs C t) L).
    { apply NoDup_length_incl.
      - apply NoDup_map_in; [apply seq_NoDup|]. intros x z Hx Hz E. apply in_seq in Hx, Hz. apply (@hist_inj t Ht x z b); try lia.
        assert (E1 : fst (hist t x b) = 0%nat) by (apply RP; lia). assert (E2 : fst (hist t z b) = 0%nat) by (apply RP; lia).
        destruct (hist t x b), (hist t z b); cbn in *; congruence.
      - unfold L. rewrite map_length, seq_length, seqs_len. lia.
      - intros z Hz. apply in_map_iff in Hz as (k & <- & Hk). apply in_seq in Hk. apply seqs_enum. apply hist_wf; auto; lia. }
    assert (Hin : In y L) by (apply I, seqs_enum; auto). apply in_map_iff in Hin as (k & E & Hk). apply in_seq in Hk. exists k. split; [lia|].
    assert (E1 : fst (hist t k b) = 0%nat) by (apply RP; lia). destruct (hist t k b); cbn in *; congruence.
  Qed.
End Beam.

Lemma beam_ok St (a : ar St) r noise pick paths v lg : beam_search a r noise pick = Ok (paths, v, lg) ->
  (1 <= ssize r)%nat /\ (1 <= n_classes a)%nat /\ (1 <= n_length a)%nat /\ odim (mo a) = n_classes a /\
  paths = (fun k b t c => RSum (fun k' => gex a r pick k t k' b c) (seq 0 (ssize r))) /\ v = bm (brun a r noise pick (n_length a)) /\
  lg = (fun k b t c => blogits a noise t (brun a r noise pick t) k b c).
Proof.
  unfold beam_search. destruct (Nat.eqb_spec (ssize r) 0), (Nat.eqb_spec (n_length a) 0); cbn [orb]; try discriminate.
  destruct (Nat.eqb_spec (odim (mo a)) (n_classes a)); cbn [negb]; [|discriminate]. destruct (Nat.eqb_spec (n_classes a) 0); [discriminate|].
  intro H. injection H as <- <- <-. repeat split; auto; lia.
Qed.
(** spec: the event of a sequence *)
Definition onehot (y : list nat) (t c : nat) : R := if (nth t y 0 =? c)%nat then 1 else 0.
Lemma pick_sum (x C : nat) : (x < C)%nat -> fold_right Nat.add 0%nat (map (fun c => (if (x =? c)%nat then 1 else 0) * c)%nat (seq 0 C)) = x.
Proof.
  intro H. assert (G : forall n s, fold_right Nat.add 0%nat (map (fun c => (if (x =? c)%nat then 1 else 0) * c)%nat (seq s n)) = if (s <=? x)%nat && (x <? s + n)%nat then x else 0%nat).
  { induction n as [|n IH]; intro s; cbn [seq map fold_right].
    - destruct (Nat.leb_spec s x), (Nat.ltb_spec x (s + 0)); cbn; auto; lia.
    - rewrite IH. destruct (Nat.eqb_spec x s), (Nat.leb_spec (S s) x), (Nat.ltb_spec x (S s + n)), (Nat.leb_spec s x), (Nat.ltb_spec x (s + S n)); cbn [andb]; subst; lia. }
  rewrite G. destruct (Nat.leb_spec 0 x), (Nat.ltb_spec x (0 + C)); cbn; auto; lia.
Qed.
Lemma map_nth_id (y : list nat) : map (fun t => nth t y 0%nat) (seq 0 (length y)) = y.
Proof. induction y as [|x y IH]; [reflexivity|]. cbn [length seq map nth]. f_equal. rewrite <- seq_shift, map_map. exact IH. Qed.

(** C37: every returned path is one sequence of classes; the score in its slot is the
    value log_prob gives to that very path, or 1e5 less in slots that hold a descendant of
    a dummy of the initial beam; the first C^N slots hold none of those *)
Theorem C37_beam St (a : ar St) r pick paths v lg : beam_search a r None pick = Ok (paths, v, lg) -> picks_ok a r None pick ->
  exists lp, log_prob_onehot a (ssize r) (n_length a) (n_classes a) (fun k b t c => if Req_EM_T (paths k b t c) 1 then 1 else 0)%nat = Ok lp /\
    forall k b, (k < ssize r)%nat -> (b < batch a)%nat ->
      (exists y, is_seq (n_classes a) (n_length a) y /\ lp k b = score a b y /\ forall t c, (t < n_length a)%nat -> paths k b t c = onehot y t c) /\
      (v k b = lp k b \/ v k b = lp k b - 100000) /\
      (spread a b -> (k < n_classes a ^ n_length a)%nat -> v k b = lp k b).
Proof.
  intros E Hp. destruct (@beam_ok _ _ _ _ _ _ _ _ E) as (HK & HC & HN & Ho & -> & -> & ->).
  set (P := fun k b t c => RSum (fun k' => gex a r pick k t k' b c) (seq 0 (ssize r))).
  set (val := fun k b t => fold_right Nat.add 0%nat (map (fun c => ((if Req_EM_T (P k b t c) 1 then 1 else 0) * c)%nat) (seq 0 (n_classes a)))).
  assert (V : forall k b t, (k < ssize r)%nat -> (b < batch a)%nat -> (t < n_length a)%nat -> val k b t = nth t (snd (hist r pick (n_length a) k b)) 0%nat).
  { intros k b t Hk Hb Ht. unfold val. destruct (hist_wf HK HC Hp (le_n _) Hk Hb) as [_ [L F]]. rewrite Forall_forall in F.
    rewrite <- (@pick_sum (nth t (snd (hist r pick (n_length a) k b)) 0%nat) (n_classes a)) at 1 by (apply F, nth_In; lia).
    f_equal. apply map_ext. intro c. f_equal. unfold P. rewrite (path_onehot HK HC Hp c Hk Hb Ht).
    destruct (Nat.eqb _ c); destruct (Req_EM_T _ 1); auto; lra. }
  destruct (@log_prob_score St a (ssize r) (n_length a) val Ho) as (lp & El & H).
  { intros k b t Hk Hb Ht. rewrite V by auto. destruct (hist_wf HK HC Hp (le_n _) Hk Hb) as [_ [L F]]. rewrite Forall_forall in F. apply F, nth_In. lia. }
  exists lp. split; [exact El|]. intros k b Hk Hb. destruct (hist_wf HK HC Hp (le_n _) Hk Hb) as [Hf [L F]].
  assert (El' : lp k b = score a b (snd (hist r pick (n_length a) k b))).
  { rewrite (H k b Hk Hb). f_equal. rewrite <- (map_nth_id (snd (hist r pick (n_length a) k b))) at 1. rewrite L. apply map_ext_in. intros t Ht. apply in_seq in Ht. apply V; auto; lia. }
  split; [|split].
  - exists (snd (hist r pick (n_length a) k b)). split; [split; auto|]. split; [exact El'|]. intros t c Ht. apply (path_onehot HK HC Hp c Hk Hb Ht).
  - rewrite (beam_inv HK HC Hp eq_refl (le_n _) Hk Hb), El'. destruct (Nat.eq_dec (fst (hist r pick (n_length a) k b)) 0) as [Q|Q].
    + left. rewrite Q, sone_0. ring.
    + right. rewrite sone_fake by auto. unfold NEG. ring.
  - intros Hs HkC. rewrite (beam_inv HK HC Hp eq_refl (le_n _) Hk Hb), El'.
    rewrite (proj2 (real_prefix HK HC Hp (spread_separated HK HC Hp eq_refl Hs Hb) Hb (le_n _) Hk)); [rewrite sone_0; ring|]. lia.
Qed.
Print Assumptions C37_beam.
(** greedy search never sees a dummy: its score is exact, and every class on the path is
    the best continuation of what precedes it *)
Theorem C37_greedy St (a : ar St) pick paths v lg : beam_search a SMax None pick = Ok (paths, v, lg) -> picks_ok a SMax None pick ->
  forall b, (b < batch a)%nat -> exists y, is_seq (n_classes a) (n_length a) y /\ v 0%nat b = score a b y /\
    (forall t c, (t < n_length a)%nat -> paths 0%nat b t c = onehot y t c) /\
    forall t c, (t < n_length a)%nat -> (c < n_classes a)%nat -> score a b (firstn t y ++ [c]) <= score a b (firstn (S t) y).
Proof.
  intros E Hp b Hb. destruct (@beam_ok _ _ _ _ _ _ _ _ E) as (HK & HC & HN & Ho & -> & -> & ->). assert (H0 : (0 < ssize SMax)%nat) by (cbn; lia).
  destruct (hist_wf HK HC Hp (le_n _) H0 Hb) as [Hf [L F]]. exists (snd (hist SMax pick (n_length a) 0 b)).
  split; [split; auto|]. split; [rewrite (beam_inv HK HC Hp eq_refl (le_n _) H0 Hb); cbn [sone]; ring|]. split; [intros; apply (path_onehot HK HC Hp); auto|].
  intros t c Ht Hc.
  assert (Pre : forall u, (u <= n_length a)%nat -> firstn u (snd (hist SMax pick (n_length a) 0 b)) = snd (hist SMax pick u 0 b)).
  { intros u Hu. pose proof (hist_anc HK HC Hp (n := n_length a - u) ltac:(lia) H0 Hb) as Q. replace (n_length a - (n_length a - u))%nat with u in Q by lia.
    rewrite Q. f_equal. f_equal. assert (A : forall n, anc a SMax pick 0 n b = 0%nat) by (induction n; reflexivity). apply A. }
  rewrite !Pre by lia. destruct (Hp t b Ht Hb) as (Hlt & _ & _ & Top).
  destruct (Nat.eq_dec (pick t b 0%nat) c) as [<-|Hne]; [right; reflexivity|].
  pose proof (Top c Hc ltac:(intros j Hj; cbn in Hj; replace j with 0%nat by lia; exact Hne) 0%nat ltac:(cbn; lia)) as Q.
  rewrite !(cand_val HK HC Hp) in Q; auto. cbn [sp_pos sp_tok sone] in Q. cbn [hist snd sp_pos sp_tok]. lra.
Qed.

(** C38 *)
Theorem C38_sorted St (a : ar St) r noise pick paths v lg : beam_search a r noise pick = Ok (paths, v, lg) -> picks_ok a r noise pick ->
  forall k k' b, (k < k' < ssize r)%nat -> (b < batch a)%nat -> v k' b <= v k b.
Proof.
  intros E Hp k k' b Hk Hb. destruct (@beam_ok _ _ _ _ _ _ _ _ E) as (HK & HC & HN & Ho & -> & -> & ->).
  destruct (n_length a) as [|n] eqn:EN; [lia|]. cbn [brun bstep bm]. destruct (Hp n b ltac:(lia) Hb) as (_ & _ & D & _). apply D. auto.
Qed.
Lemma onehot_differ C N y y' : is_seq C N y -> is_seq C N y' -> y <> y' -> exists t c, (t < N)%nat /\ (c < C)%nat /\ onehot y t c <> onehot y' t c.
Proof.
  intros [L F] [L' F'] Hne.
  destruct (existsb (fun t => negb (nth t y 0 =? nth t y' 0)%nat) (seq 0 N)) eqn:X.
  - apply existsb_exists in X as (t & Ht & X). apply in_seq in Ht. apply negb_true_iff, Nat.eqb_neq in X. exists t, (nth t y 0%nat). split; [lia|].
    rewrite Forall_forall in F. split; [apply F, nth_In; lia|]. unfold onehot. rewrite Nat.eqb_refl. destruct (Nat.eqb_spec (nth t y' 0%nat) (nth t y 0%nat)); [congruence|lra].
  - exfalso. apply Hne. apply nth_ext with 0%nat 0%nat; [lia|]. intros t Ht. destruct (Nat.eq_dec (nth t y 0%nat) (nth t y' 0%nat)) as [|Q]; auto.
    enough (false = true) by discriminate. rewrite <- X. apply existsb_exists. exists t. split; [apply in_seq; lia|]. now apply negb_true_iff, Nat.eqb_neq.
Qed.
Lemma distinct_gen St (a : ar St) r noise pick paths v lg : beam_search a r noise pick = Ok (paths, v, lg) -> picks_ok a r noise pick ->
  forall b, (b < batch a)%nat -> separated a r noise pick b -> forall k k', (k < ssize r)%nat -> (k' < ssize r)%nat -> k <> k' ->
  (k < n_classes a ^ n_length a)%nat -> (k' < n_classes a ^ n_length a)%nat ->
  exists t c, (t < n_length a)%nat /\ (c < n_classes a)%nat /\ paths k b t c <> paths k' b t c.
Proof.
  intros E Hp b Hb Hs k k' Hk Hk' Hne HkC HkC'. destruct (@beam_ok _ _ _ _ _ _ _ _ E) as (HK & HC & HN & Ho & -> & -> & ->).
  pose proof (proj2 (real_prefix HK HC Hp Hs Hb (le_n _) Hk) ltac:(lia)) as R1. pose proof (proj2 (real_prefix HK HC Hp Hs Hb (le_n _) Hk') ltac:(lia)) as R2.
  destruct (hist_wf HK HC Hp (le_n _) Hk Hb) as [_ Q1]. destruct (hist_wf HK HC Hp (le_n _) Hk' Hb) as [_ Q2].
  destruct (@onehot_differ _ _ _ _ Q1 Q2) as (t & c & Ht & Hc & D).
  - intro Q. apply Hne. apply (hist_inj HK HC Hp (le_n _) Hk Hk' Hb). destruct (hist r pick (n_length a) k b), (hist r pick (n_length a) k' b). cbn in *. congruence.
  - exists t, c. split; auto. split; auto. rewrite !(path_onehot HK HC Hp) by auto. exact D.
Qed.
(** the hypotheses of beam_topk are pairwise different *)
Theorem C38_distinct St (a : ar St) r pick paths v lg : beam_search a r None pick = Ok (paths, v, lg) -> picks_ok a r None pick ->
  forall b, (b < batch a)%nat -> spread a b -> forall k k', (k < ssize r)%nat -> (k' < ssize r)%nat -> k <> k' ->
  (k < n_classes a ^ n_length a)%nat -> (k' < n_classes a ^ n_length a)%nat ->
  exists t c, (t < n_length a)%nat /\ (c < n_classes a)%nat /\ paths k b t c <> paths k' b t c.
Proof.
  intros E Hp b Hb Hs. apply (@distinct_gen _ _ _ _ _ _ _ _ E Hp _ Hb). destruct (@beam_ok _ _ _ _ _ _ _ _ E) as (HK & HC & _). apply spread_separated; auto.
Qed.
(** sample_without_replacement: whatever the Gumbel noise was, as long as the returned
    logits are small against 1e5, no sequence is returned twice *)
Theorem C38_without_replacement St (a : ar St) r g pick paths v lg D : beam_search a r (Some g) pick = Ok (paths, v, lg) -> picks_ok a r (Some g) pick ->
  0 <= D -> 2 * INR (n_length a) * D < 100000 -> forall b, (b < batch a)%nat ->
  (forall k t c, (k < ssize r)%nat -> (t < n_length a)%nat -> (c < n_classes a)%nat -> Rabs (lg k b t c) <= D) ->
  forall k k', (k < ssize r)%nat -> (k' < ssize r)%nat -> k <> k' ->
  (k < n_classes a ^ n_length a)%nat -> (k' < n_classes a ^ n_length a)%nat ->
  exists t c, (t < n_length a)%nat /\ (c < n_classes a)%nat /\ paths k b t c <> paths k' b t c.
Proof.
  intros E Hp HD HN b Hb Hl. apply (@distinct_gen _ _ _ _ _ _ _ _ E Hp _ Hb). destruct (@beam_ok _ _ _ _ _ _ _ _ E) as (HK & HC & _ & _ & _ & _ & ->). apply bounded_separated with D; auto.
Qed.
(** a beam at least as wide as the number of sequences without the last class is exact:
    no sequence outside the returned ones scores higher than any returned one *)
Theorem C38_wide_exact St (a : ar St) r pick paths v lg : beam_search a r None pick = Ok (paths, v, lg) -> picks_ok a r None pick ->
  forall b, (b < batch a)%nat -> spread a b -> (n_classes a ^ (n_length a - 1) <= ssize r)%nat ->
  forall y, is_seq (n_classes a) (n_length a) y ->
    (exists k, (k < ssize r)%nat /\ v k b = score a b y /\ forall t c, (t < n_length a)%nat -> paths k b t c = onehot y t c) \/
    (forall k, (k < ssize r)%nat -> score a b y <= v k b).
Proof.
  intros E Hp b Hb Hs HW y Hy. destruct (@beam_ok _ _ _ _ _ _ _ _ E) as (HK & HC & HN & Ho & -> & -> & ->).
  pose proof (spread_separated HK HC Hp eq_refl Hs Hb) as Sep.
  destruct (n_length a) as [|n] eqn:EN; [lia|]. replace (S n - 1)%nat with n in HW by lia.
  assert (Hn : (n <= n_length a)%nat) by lia. assert (Hn' : (n < n_length a)%nat) by lia.
  destruct Hy as [L F]. assert (Ey : exists y0 c, y = y0 ++ [c]) by (destruct (@exists_last _ y) as (y0 & c & ->); [intros ->; discriminate|eauto]).
  destruct Ey as (y0 & c & ->). rewrite app_length in L. cbn in L. apply Forall_app in F as [F0 Fc]. inversion Fc; subst.
  destruct (all_prefixes HK HC Hp Sep Hb Hn HW (y := y0)) as (k0 & Hk0 & Eh); [split; auto; lia|].
  destruct (sp_surj HK HC Hp Hk0 H1) as (i & Hi & Ep & Ec).
  destruct (Hp n b Hn' Hb) as (Hlt & _ & _ & Top).
  destruct (existsb (fun j => (pick n b j =? i)%nat) (seq 0 (ssize r))) eqn:X.
  - left. apply existsb_exists in X as (j & Hj & X). apply in_seq in Hj. apply Nat.eqb_eq in X. exists j. split; [lia|].
    assert (Eh' : hist r pick (n_length a) j b = (0%nat, y0 ++ [c])) by (rewrite EN; cbn [hist]; rewrite X, Ep, Ec, Eh; reflexivity).
    split.
    + assert (Hj' : (j < ssize r)%nat) by lia. rewrite <- EN. rewrite (beam_inv HK HC Hp eq_refl (le_n _) Hj' Hb), Eh'. cbn [fst snd]. rewrite sone_0. ring.
    + intros t c' Ht. rewrite (path_onehot HK HC Hp); auto; try lia. rewrite Eh'. reflexivity.
  - right. intros k Hk. cbn [brun bstep bm].
    assert (NS : forall j, (j < ssize r)%nat -> pick n b j <> i).
    { intros j Hj Q. enough (false = true) by discriminate. rewrite <- X. apply existsb_exists. exists j. split; [apply in_seq; lia|]. now apply Nat.eqb_eq. }
    pose proof (Top i Hi NS k Hk) as Q. rewrite (cand_val HK HC Hp) in Q; auto. rewrite Ep, Ec, Eh in Q. cbn [fst snd] in Q. rewrite sone_0 in Q. lra.
Qed.
Print Assumptions C38_wide_exact.

(** ** Every model has a run: a concrete choice of indices *)
Fixpoint ins (v : nat -> R) (x : nat) (l : list nat) : list nat :=
  match l with [] => [x] | y :: l' => if Rle_dec (v y) (v x) then x :: l else y :: ins v x l' end.
(** spec: the indices sorted by value *)
Definition asort (v : nat -> R) (L : nat) : list nat := fold_right (ins v) [] (seq 0 L).
Lemma ins_perm v x l : Permutation (ins v x l) (x :: l).
Proof. induction l as [|y l IH]; [reflexivity|]. cbn [ins]. destruct (Rle_dec (v y) (v x)); [reflexivity|]. rewrite IH. apply perm_swap. Qed.
Lemma ins_sorted v x l : StronglySorted (fun i j => v j <= v i) l -> StronglySorted (fun i j => v j <= v i) (ins v x l).
Proof.
  intro H. induction H as [|y l H IH F]; [repeat constructor|]. cbn [ins]. destruct (Rle_dec (v y) (v x)) as [Q|Q].
  - constructor; [constructor; auto|]. constructor; auto. eapply Forall_impl; [|exact F]. cbn. intros; lra.
  - constructor; auto. eapply Permutation_Forall; [symmetry; apply ins_perm|]. constructor; auto. lra.
Qed.
Lemma asort_perm v L : Permutation (asort v L) (seq 0 L).
Proof. unfold asort. induction (seq 0 L) as [|x l IH]; [reflexivity|]. cbn [fold_right]. rewrite ins_perm, IH. reflexivity. Qed.
Lemma asort_sorted v L : StronglySorted (fun i j => v j <= v i) (asort v L).
Proof. unfold asort. induction (seq 0 L) as [|x l IH]; [constructor|]. cbn [fold_right]. now apply ins_sorted. Qed.
Lemma sorted_nth A (Q : A -> A -> Prop) l d : StronglySorted Q l -> forall i j, (i < j < length l)%nat -> Q (nth i l d) (nth j l d).
Proof.
  intro H. induction H as [|x l H IH F]; intros i j Hij; [cbn in Hij; lia|]. rewrite Forall_forall in F. destruct j as [|j]; [lia|]. destruct i as [|i]; cbn [nth length] in *.
  - apply F, nth_In. lia.
  - apply IH. lia.
Qed.
Lemma topk_exists K L v : (K <= L)%nat -> is_topk K L v (fun j => nth j (asort v L) 0%nat).
Proof.
  intro H. pose proof (asort_perm v L) as P. pose proof (Permutation_length P) as Len. rewrite seq_length in Len.
  assert (Hin : forall j, (j < L)%nat -> (nth j (asort v L) 0 < L)%nat).
  { intros j Hj. assert (Q : In (nth j (asort v L) 0%nat) (seq 0 L)) by (eapply Permutation_in; [exact P|]; apply nth_In; lia). apply in_seq in Q. lia. }
  assert (Nd : NoDup (asort v L)) by (eapply Permutation_NoDup; [symmetry; exact P|apply seq_NoDup]).
  repeat split.
  - intros j Hj. apply Hin. lia.
  - intros j j' Hj Hj' E. apply (proj1 (NoDup_nth _ 0%nat) Nd); auto; lia.
  - intros j j' Hj. apply (sorted_nth 0%nat (asort_sorted v L)). lia.
  - intros i Hi NS j Hj. assert (Q : In i (asort v L)) by (eapply Permutation_in; [symmetry; exact P|]; apply in_seq; lia).
    apply (In_nth _ _ 0%nat) in Q as (m & Hm & E). destruct (Nat.lt_ge_cases m K) as [A|A]; [exfalso; apply (NS m A E)|].
    rewrite <- E. apply (sorted_nth 0%nat (asort_sorted v L)). lia.
Qed.
Lemma brun_ext St (a : ar St) r noise pick pick' n : (forall t b k, (t < n)%nat -> pick t b k = pick' t b k) ->
  forall t, (t <= n)%nat -> (forall k b, bm (brun a r noise pick t) k b = bm (brun a r noise pick' t) k b) /\
    (forall i, tk (brun a r noise pick t) i = tk (brun a r noise pick' t) i) /\ (forall i, sts (brun a r noise pick t) i = sts (brun a r noise pick' t) i).
Proof.
  intros H. induction t as [|t IH]; intro Ht; [repeat split; reflexivity|]. destruct (IH ltac:(lia)) as (E1 & E2 & E3).
  assert (X : forall k b c, ex_beam a noise t (brun a r noise pick t) k b c = ex_beam a noise t (brun a r noise pick' t) k b c).
  { intros k b c. unfold ex_beam. rewrite E1. f_equal. unfold blogits, forward, wrap. cbn [fst after]. rewrite E2, E3. reflexivity. }
  cbn [brun bstep bm tk sts]. repeat split; intros.
  - rewrite H by lia. unfold sp_vec. destruct r; apply X.
  - unfold unwrap. rewrite H by lia. reflexivity.
  - unfold unwrap, forward. cbn [snd after]. rewrite H by lia. rewrite E2, E3. reflexivity.
Qed.
Theorem picks_exist St (a : ar St) r noise : (1 <= n_classes a)%nat -> exists pick, picks_ok a r noise pick.
Proof.
  intro HC. assert (HL : (ssize r <= sp_len a r)%nat) by (unfold ssize, sp_len; destruct r; nia).
  enough (G : forall n, exists pick, forall t b, (t < n)%nat -> is_topk (ssize r) (sp_len a r) (sp_vec r (ex_beam a noise t (brun a r noise pick t)) b) (pick t b)).
  { destruct (G (n_length a)) as (pick & Hp). exists pick. intros t b Ht _. auto. }
  induction n as [|n (pick & IH)]; [exists (fun _ _ _ => 0%nat); intros; lia|].
  set (pick' := fun t b j => if (t =? n)%nat then nth j (asort (sp_vec r (ex_beam a noise n (brun a r noise pick n)) b) (sp_len a r)) 0%nat else pick t b j).
  exists pick'. intros t b Ht.
  assert (Ext : forall k b c, ex_beam a noise t (brun a r noise pick' t) k b c = ex_beam a noise t (brun a r noise pick t) k b c).
  { destruct (@brun_ext St a r noise pick' pick n) with (t := t) as (E1 & E2 & E3); [|lia|].
    - intros t' b' k' Ht'. unfold pick'. destruct (Nat.eqb_spec t' n); [lia|reflexivity].
    - intros k b' c. unfold ex_beam. rewrite E1. f_equal. unfold blogits, forward, wrap. cbn [fst after]. rewrite E2, E3. reflexivity. }
  assert (EV : forall i, sp_vec r (ex_beam a noise t (brun a r noise pick' t)) b i = sp_vec r (ex_beam a noise t (brun a r noise pick t)) b i) by (intro i; unfold sp_vec; destruct r; apply Ext).
  enough (T : is_topk (ssize r) (sp_len a r) (sp_vec r (ex_beam a noise t (brun a r noise pick t)) b) (pick' t b)).
  { destruct T as (T1 & T2 & T3 & T4). split; [exact T1|]. split; [exact T2|]. split; intros; rewrite !EV; auto. }
  destruct (Nat.eq_dec t n) as [->|Hne].
  - unfold pick'. rewrite Nat.eqb_refl. apply topk_exists. exact HL.
  - unfold pick'. destruct (Nat.eqb_spec t n); [contradiction|]. apply IH. lia.
Qed.

(** ** C39 *)
Lemma lse_pos C v : (1 <= C)%nat -> 0 < RSum (fun c => exp (v c)) (seq 0 C).
Proof. intro H. apply RSum_exp_pos. destruct C; [lia|discriminate]. Qed.
Lemma exp_log_softmax C v c : (1 <= C)%nat -> exp (log_softmax C v c) = softmax C v c.
Proof.
  intro H. unfold log_softmax, softmax. unfold Rminus. rewrite exp_plus, exp_Ropp, exp_ln by (apply (lse_pos v H)). reflexivity.
Qed.
Lemma softmax_sum C v : (1 <= C)%nat -> RSum (softmax C v) (seq 0 C) = 1.
Proof.
  intro H. unfold softmax, Rdiv. rewrite RSum_scar. pose proof (lse_pos v H). field. apply Rgt_not_eq. exact H0.
Qed.
Lemma arscore_norm1 St (a : ar St) C n : (1 <= C)%nat -> forall st prev,
  RSum (fun y => exp (arscore a (log_softmax C) st prev y)) (seqs C n) = 1.
Proof.
  intro HC. induction n as [|n IH]; intros st prev.
  - cbn [seqs]. rewrite RSum_cons. cbn [arscore]. rewrite exp_0. change (RSum _ []) with 0. ring.
  - rewrite seqs_sum_S. rewrite <- (softmax_sum (fst (mstep (mo a) st (Hard prev))) HC). apply (Sum_ext R_csr). intro c. cbn [arscore].
    rewrite <- (Rmult_1_r (softmax _ _ _)), <- (IH (snd (mstep (mo a) st (Hard prev))) c), <- RSum_scal. apply (Sum_ext R_csr). intro y.
    rewrite exp_plus, exp_log_softmax by auto. reflexivity.
Qed.
Theorem C39_normalised St (a : ar St) N l b : normalize a = true -> odim (mo a) = n_classes a -> (1 <= n_classes a)%nat -> (b < batch a)%nat ->
  Enumerates (is_seq (n_classes a) N) l ->
  exists lp, log_prob a (length l) N (fun s _ t => nth t (nth s l []) 0%nat) = Ok lp /\ RSum (fun s => exp (lp s b)) (seq 0 (length l)) = 1.
Proof.
  intros Hn Ho HC Hb [Nd Hl]. destruct (@log_prob_score St a (length l) N (fun s _ t => nth t (nth s l []) 0%nat) Ho) as (lp & E & H).
  { intros s b' t Hs _ Ht. assert (Q : is_seq (n_classes a) N (nth s l [])) by (apply Hl, nth_In; auto). destruct Q as [L F]. rewrite Forall_forall in F. apply F, nth_In. lia. }
  exists lp. split; auto.
  rewrite (Sum_ext_in R_csr _ (fun s => exp (score a b (nth s l [])))).
  - transitivity (RSum (fun y => exp (score a b y)) l).
    + clear. induction l as [|x l IH]; [reflexivity|]. cbn [length seq]. rewrite !RSum_cons. cbn [nth]. f_equal. rewrite <- seq_shift, RSum_map. exact IH.
    + rewrite (Sum_enum R_csr (fun y => exp (score a b y)) (conj Nd Hl) (seqs_enum (n_classes a) N)). unfold score, norm. rewrite Hn. now apply arscore_norm1.
  - intros s Hs. apply in_seq in Hs. rewrite H by (auto; lia). f_equal. f_equal. assert (Q : is_seq (n_classes a) N (nth s l [])) by (apply Hl, nth_In; lia).
    destruct Q as [L _]. etransitivity; [|apply map_nth_id]. now rewrite L.
Qed.
Print Assumptions C39_normalised.

(** ** C46: the law of sample *)
Section Law.
  Variable St : Type.
  Variable a : ar St.
  Notation C := (n_classes a).
  Hypothesis HC : (1 <= C)%nat.
  Lemma steps_supp S0 n : forall t h tk sts, psupp (fun y => forall i t', (t' < t)%nat -> y i t' = h i t') (ar_steps a S0 n t h tk sts).
  Proof.
    induction n as [|n IH]; intros t h tk sts; cbn [ar_steps]; [constructor; [cbn; auto|constructor]|].
    unfold psupp, pbind. apply Forall_forall. intros x Hx. apply in_flat_map in Hx as (d & Hd & Hx). apply in_map_iff in Hx as (z & <- & Hz). cbn [snd].
    specialize (IH (S t) (fun i t' => if (t' =? t)%nat then snd d i else h i t') (snd d) (snd (forward a 1 (fun i _ => Hard (tk i)) sts))).
    unfold psupp in IH. rewrite Forall_forall in IH. intros i t' Ht'. rewrite (IH z Hz) by lia. destruct (Nat.eqb_spec t' t); [lia|reflexivity].
  Qed.
  Lemma PE_categorical v f : PE (categorical C v) f = RSum (fun c => softmax C v c * f c) (seq 0 C).
  Proof. unfold PE, categorical. rewrite RSum_map. reflexivity. Qed.
  Lemma steps_law S0 n : forall t h tk sts G,
    PE (ar_steps a S0 n t h tk sts) (fun y => RProd (fun i => G i (map (y i) (seq t n))) (seq 0 (S0 * batch a))) =
    RProd (fun i => RSum (fun z => exp (arscore a (log_softmax C) (sts i) (tk i) z) * G i z) (seqs C n)) (seq 0 (S0 * batch a)).
  Proof.
    induction n as [|n IH]; intros t h tk sts G.
    - cbn [ar_steps seq map seqs]. rewrite PE_ret. apply (Prod_ext R_csr). intro i. rewrite RSum_cons. cbn [arscore]. rewrite exp_0, Rmult_1_l. symmetry. apply Rplus_0_r.
    - cbn [ar_steps]. rewrite PE_bind.
      rewrite (@PE_ext _ _ _ (fun d => RProd (fun i => (fun c => RSum (fun z => exp (arscore a (log_softmax C) (snd (mstep (mo a) (sts i) (Hard (tk i)))) c z) * G i (c :: z)) (seqs C n)) (d i)) (seq 0 (S0 * batch a)))).
      + rewrite (pind_prod (fun i => categorical C (fst (forward a 1 (fun i _ => Hard (tk i)) sts) i 0%nat)) 0%nat (S0 * batch a)
          (fun i c => RSum (fun z => exp (arscore a (log_softmax C) (snd (mstep (mo a) (sts i) (Hard (tk i)))) c z) * G i (c :: z)) (seqs C n))).
        apply (Prod_ext R_csr). intro i. rewrite PE_categorical, seqs_sum_S. apply (Sum_ext R_csr). intro c. rewrite <- RSum_scal. apply (Sum_ext R_csr). intro z.
        cbn [arscore]. rewrite exp_plus, exp_log_softmax by auto. unfold forward. cbn [fst after]. ring.
      + intro d. etransitivity; [|apply (IH (S t) (fun i t' => if (t' =? t)%nat then d i else h i t') d (snd (forward a 1 (fun i _ => Hard (tk i)) sts)) (fun i z => G i (d i :: z)))].
        eapply PE_ext_in; [apply steps_supp|]. intros y Hy. apply (Prod_ext R_csr). intro i. cbn [seq map]. rewrite (Hy i t) by lia. now rewrite Nat.eqb_refl.
  Qed.
End Law.
Lemma RProd_shift (f : nat -> R) m B : forall q, RProd f (seq (m + q) B) = RProd (fun b => f (m + b)%nat) (seq q B).
Proof.
  induction B as [|B IHB]; intro q; [reflexivity|]. cbn [seq].
  change (f (m + q)%nat * RProd f (seq (S (m + q)) B) = f (m + q)%nat * RProd (fun b => f (m + b)%nat) (seq (S q) B)). f_equal. rewrite <- IHB. f_equal. f_equal. lia.
Qed.
Lemma RProd_flat (f : nat -> R) S0 B : RProd f (seq 0 (S0 * B)) = RProd (fun s => RProd (fun b => f (s * B + b)%nat) (seq 0 B)) (seq 0 S0).
Proof.
  induction S0 as [|s IH]; [reflexivity|]. rewrite RProd_S, <- IH. replace (S s * B)%nat with (s * B + B)%nat by lia. rewrite seq_app, (Prod_app R_csr). apply f_equal. cbn [Nat.add].
  etransitivity; [|apply RProd_shift]. f_equal. f_equal. lia.
Qed.
(** all samples and all rows are independent; each is a sequence drawn with the
    probability of the normalised model *)
Theorem C46_sample_law St (a : ar St) S0 (G : nat -> nat -> list nat -> R) : (1 <= n_classes a)%nat ->
  PE (ar_sample a S0) (fun y => RProd (fun s => RProd (fun b => G s b (map (y s b) (seq 0 (n_length a)))) (seq 0 (batch a))) (seq 0 S0)) =
  RProd (fun s => RProd (fun b => RSum (fun z => exp (arscore a (log_softmax (n_classes a)) (init a b) (start_class a) z) * G s b z) (seqs (n_classes a) (n_length a))) (seq 0 (batch a))) (seq 0 S0).
Proof.
  intro HC. unfold ar_sample. rewrite PE_bind.
  rewrite (@PE_ext _ _ _ (fun y => RProd (fun i => G (i / batch a)%nat (i mod batch a)%nat (map (y i) (seq 0 (n_length a)))) (seq 0 (S0 * batch a)))).
  - rewrite (@steps_law St a HC S0 (n_length a) 0 (fun _ _ => 0%nat) (fun _ => start_class a) (unwrap (batch a) (fun _ b => init a b)) (fun i z => G (i / batch a)%nat (i mod batch a)%nat z)). rewrite RProd_flat. apply (Prod_ext R_csr). intro s. apply (Prod_ext_in R_csr). intros b Hb. apply in_seq in Hb.
    unfold unwrap. destruct (@divmod_k (batch a) s b) as [-> ->]; [lia|]. reflexivity.
  - intro y. rewrite PE_ret, RProd_flat. apply (Prod_ext R_csr). intro s. apply (Prod_ext_in R_csr). intros b Hb. apply in_seq in Hb. unfold wrap.
    destruct (@divmod_k (batch a) s b) as [-> ->]; [lia|]. reflexivity.
Qed.
Print Assumptions C46_sample_law.
(** with normalize=True that probability is exp(log_prob) ... *)
Corollary C46_sample_log_prob St (a : ar St) S0 (G : nat -> nat -> list nat -> R) : (1 <= n_classes a)%nat -> normalize a = true ->
  PE (ar_sample a S0) (fun y => RProd (fun s => RProd (fun b => G s b (map (y s b) (seq 0 (n_length a)))) (seq 0 (batch a))) (seq 0 S0)) =
  RProd (fun s => RProd (fun b => RSum (fun z => exp (score a b z) * G s b z) (seqs (n_classes a) (n_length a))) (seq 0 (batch a))) (seq 0 S0).
Proof. intros HC Hn. rewrite C46_sample_law by auto. unfold score, norm. now rewrite Hn. Qed.
(** ... with normalize=False it is not: sample normalises, log_prob does not *)
Definition flat_model (nz : bool) : ar unit :=
  {| mo := {| odim := 2; mstep := fun _ _ => (fun _ => 1, tt) |}; init := fun _ => tt; batch := 1; n_classes := 2; n_length := 1; normalize := nz; start_class := 0 |}.
Theorem C46_unnormalised_refuted : exists (a : ar unit) lp, normalize a = false /\ log_prob a 1 1 (fun _ _ _ => 0%nat) = Ok lp /\
  PE (ar_sample a 1) (fun y => if (y 0 0 0 =? 0)%nat then 1 else 0) <> exp (lp 0%nat 0%nat).
Proof.
  destruct (@log_prob_score unit (flat_model false) 1 1 (fun _ _ _ => 0%nat) eq_refl) as (lp & E & H); [intros; cbn; lia|].
  exists (flat_model false), lp. split; [reflexivity|]. split; [exact E|]. rewrite H by (cbn; lia).
  pose proof (@C46_sample_law unit (flat_model false) 1 (fun _ _ z => if (nth 0 z 0 =? 0)%nat then 1 else 0) ltac:(cbn; lia)) as L.
  intro Q. assert (V : PE (ar_sample (flat_model false) 1) (fun y => if (y 0 0 0 =? 0)%nat then 1 else 0) = / 2).
  { etransitivity; [|etransitivity; [exact L|]].
    - apply PE_ext. intro y. cbn. ring.
    - cbn. assert (X : log_softmax 2 (fun _ => 1) 0 = - ln 2).
      { unfold log_softmax. cbn. replace (exp 1 + (exp 1 + 0)) with (2 * exp 1) by ring. rewrite ln_mult, ln_exp by (try apply exp_pos; lra). ring. }
      assert (Y : log_softmax 2 (fun _ => 1) 1 = - ln 2) by exact X.
      rewrite X, Y. rewrite !Rplus_0_r, exp_Ropp, exp_ln by lra. ring. }
  rewrite V in Q. unfold score in Q. cbn in Q. rewrite Rplus_0_r in Q. pose proof (exp_ineq1 1 ltac:(lra)). lra.
Qed.

(** ** C47: greedy_tempmax *)
Lemma trun_noise St (a : ar St) alpha g g' pick n : (forall t, (t < n)%nat -> g t = g' t) ->
  forall t, (t <= n)%nat -> trun a alpha g pick t = trun a alpha g' pick t.
Proof.
  intro H. induction t as [|t IH]; intro Ht; [reflexivity|]. cbn [trun]. rewrite IH by lia. destruct (trun a alpha g' pick t) as [[bm tk] sts].
  unfold tlogits, temp_noise. rewrite (H t) by lia. reflexivity.
Qed.
Lemma log_softmax_bump C v c0 : (2 <= C)%nat -> (c0 < C)%nat -> let w := fun c => v c + (if (c =? c0)%nat then 1 else 0) in
  log_softmax C v c0 < log_softmax C w c0 /\ forall c, log_softmax C v c <= log_softmax C v c0 -> log_softmax C w c <= log_softmax C w c0.
Proof.
  intros HC Hc w. unfold log_softmax. set (Z := RSum (fun x => exp (v x)) (seq 0 C)). set (Z' := RSum (fun x => exp (w x)) (seq 0 C)).
  assert (Hw0 : w c0 = v c0 + 1) by (unfold w; now rewrite Nat.eqb_refl).
  assert (PZ : 0 < Z) by (apply lse_pos; lia). assert (PZ' : 0 < Z') by (apply lse_pos; lia).
  split.
  - enough (ln Z' < ln Z + 1) by (rewrite Hw0; lra). rewrite <- (ln_exp 1) at 1. rewrite <- ln_mult by (auto; apply exp_pos). apply ln_increasing; auto.
    rewrite Rmult_comm. unfold Z, Z'. rewrite <- RSum_scal.
    assert (E1 : 1 < exp 1) by (pose proof (exp_ineq1 1 ltac:(lra)); lra).
    set (c1 := if (c0 =? 0)%nat then 1%nat else 0%nat). assert (H1 : (c1 < C)%nat /\ c1 <> c0) by (unfold c1; destruct (Nat.eqb_spec c0 0); lia).
    assert (Le : forall x, exp (w x) <= exp 1 * exp (v x)).
    { intro x. unfold w. rewrite exp_plus. destruct (x =? c0)%nat; [lra|]. rewrite exp_0. pose proof (exp_pos (v x)). nra. }
    assert (Lt : exp (w c1) < exp 1 * exp (v c1)).
    { unfold w. destruct (Nat.eqb_spec c1 c0); [tauto|]. rewrite Rplus_0_r. pose proof (exp_pos (v c1)). nra. }
    enough (0 < RSum (fun x => exp 1 * exp (v x) - exp (w x)) (seq 0 C)) by (rewrite RSum_sub in H; apply Rminus_gt_0_lt; exact H).
    apply Rlt_le_trans with (exp 1 * exp (v c1) - exp (w c1)); [lra|].
    apply (RSum_single (fun x => exp 1 * exp (v x) - exp (w x))); [apply in_seq; lia|]. intros y _. specialize (Le y). lra.
  - intros c H. rewrite Hw0. unfold w. destruct (c =? c0)%nat; lra.
Qed.
(** what a row's score is: read the start symbol, then at every step add the largest
    normalised noisy logit and read the softmax of alpha times the logits as next token *)
Fixpoint tscore St (m : model St) (C : nat) (nrm : (nat -> R) -> nat -> R) (alpha : R) (nz : nat -> nat -> R)
    (t : nat) (st : St) (tk : tok) (n : nat) : R :=
  match n with
  | O => 0
  | S n' => let L := nrm (fun c => fst (mstep m st tk) c + nz t c) in
      rmax (map L (seq 0 C)) + tscore m C nrm alpha nz (S t) (snd (mstep m st tk)) (Soft (fun c => exp (alpha * L c) / RSum (fun x => exp (alpha * L x)) (seq 0 C))) n'
  end.
Lemma softmax_shift C x v : softmax C (fun c => x + v c) = softmax C v.
Proof.
  apply functional_extensionality. intro c. unfold softmax. rewrite (Sum_ext R_csr (fun y => exp (x + v y)) (fun y => exp x * exp (v y))) by (intro; apply exp_plus).
  etransitivity; [apply (f_equal (fun u => _ / u)), RSum_scal|]. rewrite exp_plus. unfold Rdiv. rewrite Rinv_mult.
  assert (E : exp x * / exp x = 1) by (apply Rinv_r, Rgt_not_eq, exp_pos).
  match goal with |- exp x * ?p * (/ exp x * ?q) = _ => transitivity (exp x * / exp x * (p * q)); [ring|rewrite E; ring] end.
Qed.
Theorem C47_score St (a : ar St) alpha g pick b : t_ok a alpha g pick -> (b < batch a)%nat ->
  tempmax_score a alpha g pick b =
  tscore (mo a) (n_classes a) (norm a) alpha (fun t c => if Req_EM_T alpha 0 then 0 else g t b c) 0 (init a b) (Hard (start_class a)) (n_length a).
Proof.
  intros Ht Hb. unfold tempmax_score. set (TS := tscore _ _ _ _ _).
  assert (G : forall t, (t <= n_length a)%nat -> let '(bm, tk, sts) := trun a alpha g pick t in
    bm b + TS t (sts b) (tk b) (n_length a - t)%nat = TS 0%nat (init a b) (Hard (start_class a)) (n_length a)).
  { induction t as [|t IH]; intro Hle; [cbn [trun]; rewrite Nat.sub_0_r; ring|]. cbn [trun].
    specialize (IH ltac:(lia)). specialize (Ht t b ltac:(lia) Hb). destruct (trun a alpha g pick t) as [[bm tk] sts]. destruct Ht as [H1 H2].
    rewrite <- IH. replace (n_length a - t)%nat with (S (n_length a - S t)) by lia. unfold TS at 2. cbn [tscore]. fold TS.
    set (L := norm a _). assert (EL : tlogits a alpha g t tk sts b = L) by reflexivity. rewrite EL in *.
    assert (EM : rmax (map L (seq 0 (n_classes a))) = L (pick t b)).
    { destruct (@rmax_is_max (map L (seq 0 (n_classes a)))) as [M1 M2].
      - destruct (n_classes a); [lia|discriminate].
      - apply in_map_iff in M1 as (c & Ec & Hc). apply in_seq in Hc. apply Rle_antisym.
        + rewrite <- Ec. apply H2. lia.
        + apply M2. apply in_map_iff. exists (pick t b). split; [reflexivity|]. apply in_seq. lia. }
    rewrite EM. cbn [forward snd after].
    assert (ES : softmax (n_classes a) (fun c => alpha * (bm b + L c)) = (fun c => exp (alpha * L c) / RSum (fun x => exp (alpha * L x)) (seq 0 (n_classes a)))).
    { etransitivity; [|exact (softmax_shift (n_classes a) (alpha * bm b) (fun c => alpha * L c))]. f_equal. apply functional_extensionality. intro c. ring. }
    rewrite ES. ring. }
  specialize (G (n_length a) (le_n _)). destruct (trun a alpha g pick (n_length a)) as [[bm tk] sts]. rewrite Nat.sub_diag in G.
  cbn [fst]. rewrite <- G. unfold TS. cbn [tscore]. ring.
Qed.
Print Assumptions C47_score.
(** alpha doubles as the switch of the Gumbel noise: for every run with a nonzero alpha
    there is other noise under which the score of the last step is higher *)
Theorem C47_tempmax_noise St (a : ar St) alpha g pick b : alpha <> 0 -> normalize a = true -> (2 <= n_classes a)%nat -> (1 <= n_length a)%nat -> (b < batch a)%nat ->
  t_ok a alpha g pick -> exists g', t_ok a alpha g' pick /\ tempmax_score a alpha g pick b < tempmax_score a alpha g' pick b.
Proof.
  intros Ha Hn HC HN Hb Ht. destruct (n_length a) as [|n] eqn:EN; [lia|].
  set (g' := fun t => if (t =? n)%nat then (fun b' c => g t b' c + if (c =? pick n b')%nat then 1 else 0) else g t).
  assert (Eg : forall t, (t < n)%nat -> g' t = g t) by (intros t Hlt; unfold g'; destruct (Nat.eqb_spec t n); [lia|reflexivity]).
  assert (ER : forall t, (t <= n)%nat -> trun a alpha g' pick t = trun a alpha g pick t) by (apply trun_noise; exact Eg).
  exists g'. split.
  - intros t b' Hlt Hb'. rewrite ER by lia. specialize (Ht t b' ltac:(lia) Hb'). destruct (trun a alpha g pick t) as [[bm tk] sts]. destruct Ht as [H1 H2]. split; [exact H1|].
    intros c Hc. specialize (H2 c Hc). revert H2. unfold tlogits, temp_noise, norm. rewrite Hn. destruct (Req_EM_T alpha 0); [contradiction|].
    destruct (Nat.eq_dec t n) as [->|Hne]; [|rewrite Eg by lia; auto].
    intro H2. destruct (@log_softmax_bump (n_classes a) (fun c => fst (forward a 1 (fun i _ => tk i) sts) b' 0%nat c + g n b' c) (pick n b') HC H1) as [_ Q].
    specialize (Q c H2). unfold g'. rewrite Nat.eqb_refl. unfold log_softmax in Q |- *.
    rewrite (Sum_ext R_csr (fun x => exp (fst (forward a 1 (fun i _ => tk i) sts) b' 0%nat x + (g n b' x + (if (x =? pick n b')%nat then 1 else 0)))) (fun x => exp (fst (forward a 1 (fun i _ => tk i) sts) b' 0%nat x + g n b' x + (if (x =? pick n b')%nat then 1 else 0)))) by (intro; f_equal; ring).
    rewrite <- !Rplus_assoc. exact Q.
  - unfold tempmax_score. rewrite EN. cbn [trun]. rewrite ER by lia. specialize (Ht n b ltac:(lia) Hb). destruct (trun a alpha g pick n) as [[bm tk] sts]. destruct Ht as [H1 _].
    cbn [fst]. apply Rplus_lt_compat_l. unfold tlogits, temp_noise, norm. rewrite Hn. destruct (Req_EM_T alpha 0); [contradiction|].
    destruct (@log_softmax_bump (n_classes a) (fun c => fst (forward a 1 (fun i _ => tk i) sts) b 0%nat c + g n b c) (pick n b) HC H1) as [Q _].
    unfold g'. rewrite Nat.eqb_refl. unfold log_softmax in Q |- *.
    rewrite (Sum_ext R_csr (fun x => exp (fst (forward a 1 (fun i _ => tk i) sts) b 0%nat x + (g n b x + (if (x =? pick n b)%nat then 1 else 0)))) (fun x => exp (fst (forward a 1 (fun i _ => tk i) sts) b 0%nat x + g n b x + (if (x =? pick n b)%nat then 1 else 0)))) by (intro; f_equal; ring).
    rewrite <- !Rplus_assoc. exact Q.
Qed.
(** with alpha = 0 no noise is drawn *)
Theorem C47_alpha_zero St (a : ar St) g g' pick t : trun a 0 g pick t = trun a 0 g' pick t.
Proof.
  induction t as [|t IH]; [reflexivity|]. cbn [trun]. rewrite IH. destruct (trun a 0 g' pick t) as [[bm tk] sts].
  unfold tlogits, temp_noise. destruct (Req_EM_T 0 0); [reflexivity|lra].
Qed.
(** so the documented greedy search is not a function of the model and alpha *)
Theorem C47_deterministic_refuted : exists (a : ar unit) alpha g g' pick, t_ok a alpha g pick /\ t_ok a alpha g' pick /\
  tempmax_score a alpha g pick 0%nat <> tempmax_score a alpha g' pick 0%nat.
Proof.
  assert (T : t_ok (flat_model true) 1 (fun _ _ _ => 0) (fun _ _ => 0%nat)).
  { intros t b Ht Hb. destruct (trun (flat_model true) 1 (fun _ _ _ => 0) (fun _ _ => 0%nat) t) as [[bm tk] sts]. split; [cbn; lia|]. intros c _.
    unfold tlogits, temp_noise, norm, forward. cbn. destruct (Req_EM_T 1 0); [lra|]. unfold log_softmax. lra. }
  destruct (@C47_tempmax_noise unit (flat_model true) 1 (fun _ _ _ => 0) (fun _ _ => 0%nat) 0%nat) as (g' & T' & L); auto; try (cbn; lia); try lra.
  exists (flat_model true), 1, (fun _ _ _ => 0), g', (fun _ _ => 0%nat). repeat split; auto; try apply T; try apply T'. lra.
Qed.

(** ** A model the theorems apply to: it prefers repeating the previous class *)
Definition rep_model : ar nat :=
  {| mo := {| odim := 2; mstep := fun s x => (fun c => match x with Hard p => if (c =? p)%nat then 1 else 0 | Soft _ => 0 end, S s) |};
     init := fun _ => 0%nat; batch := 3; n_classes := 2; n_length := 3; normalize := false; start_class := 0 |}.
Example C38_example : (exists pick paths v lg, beam_search rep_model (SKMax 4) None pick = Ok (paths, v, lg) /\ picks_ok rep_model (SKMax 4) None pick) /\
  (n_classes rep_model ^ (n_length rep_model - 1) <= ssize (SKMax 4))%nat /\ forall b, spread rep_model b.
Proof.
  split; [|split].
  - destruct (picks_exist rep_model (SKMax 4) None) as (pick & Hp); [cbn; lia|]. exists pick. do 3 eexists. split; [reflexivity|exact Hp].
  - cbn. lia.
  - intros b t y y' Ht Hy Hy'. assert (Q : forall z s p, 0 <= arscore rep_model (norm rep_model) s p z <= INR (length z)).
    { induction z as [|c z IH]; intros s p; [cbn; lra|]. cbn [arscore]. specialize (IH (snd (mstep (mo rep_model) s (Hard p))) c). cbn [length]. rewrite S_INR.
      unfold norm in IH |- *. cbn [normalize rep_model mstep mo fst] in IH |- *. destruct (c =? p)%nat; cbn -[INR arscore] in IH |- *; lra. }
    unfold score. pose proof (Q y (init rep_model b) (start_class rep_model)) as Q1. pose proof (Q y' (init rep_model b) (start_class rep_model)) as Q2.
    destruct Hy as [L _]; destruct Hy' as [L' _]. rewrite L in Q1; rewrite L' in Q2. assert (INR t <= 3) by (replace 3 with (INR 3) by (cbn; ring); apply le_INR; exact Ht). lra.
Qed.
