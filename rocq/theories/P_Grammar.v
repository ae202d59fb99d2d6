(** * P_Grammar: what SentCFG computes for the grammar of NeuralCFG (C60). *)
From Coq Require Import Reals Lra.
From Verif Require Import Base Ops Terms Semirings LinearChain CkyCrf Cky DepSpec Batch Family Approx Api Query AutoReg P_AutoReg P_Real P_Oracle Grammar.
Set Implicit Arguments.
Local Open Scope R_scope.

Theorem C60_proper m : (0 < nV m)%nat -> (0 < nT m)%nat -> (0 < nNT m)%nat -> proper (nV m) (nT m) (nNT m) (grammar_of m).
Proof.
  intros HV HT HN. unfold grammar_of, proper. cbn [p_root p_rule p_word]. repeat split; try (intros; apply Rlt_le, exp_pos).
  - unfold n_roots. rewrite (Sum_ext R_csr _ _ _ (fun x => exp_log_softmax _ x HN)). apply softmax_sum, HN.
  - intro x. set (D := (nNT m + nT m)%nat). assert (HD : (1 <= D * D)%nat) by (unfold D; nia).
    set (f := fun k => RSum (fun h => nonterm_emb m x h * nonterm_emb_c m (k / D) (k mod D) h) (seq 0 (nH m))).
    rewrite <- (softmax_sum f HD), (Sum_seq_flatten R_csr). apply (Sum_ext R_csr). intro y. apply (Sum_ext R_csr). intro z.
    unfold n_rules. fold D. fold f. apply exp_log_softmax, HD.
  - intro t. unfold n_terms. rewrite (Sum_ext R_csr _ _ _ (fun x => exp_log_softmax _ x HV)). apply softmax_sum, HV.
Qed.

(** the probabilities are softmaxes of inner products of the embeddings: of the start
    vector with the roots, of a nonterminal with the pairs, of a preterminal with the words *)
Fixpoint inner (n : nat) (a b : nat -> R) : R := match n with O => 0 | S k => inner k a b + a k * b k end.
Lemma inner_sum n a b : RSum (fun h => a h * b h) (seq 0 n) = inner n a b.
Proof. induction n as [|n IH]; [reflexivity|]. rewrite seq_S, RSum_app, IH. cbn [inner Nat.add]. unfold Sum at 1. simpl. ring. Qed.
Theorem C60_probabilities m x y z t w : let D := (nNT m + nT m)%nat in
  (0 < nV m)%nat -> (0 < nNT m)%nat -> (y < D)%nat -> (z < D)%nat ->
  let root x := exp (inner (nH m) (s_emb m) (root_hid m x)) in
  let pair y z := exp (inner (nH m) (nonterm_emb m x) (nonterm_emb_c m y z)) in
  let word w := exp (inner (nH m) (word_emb m w) (term_hid m t)) in
  p_root (grammar_of m) x = root x / RSum root (seq 0 (nNT m)) /\
  p_rule (grammar_of m) x y z = pair y z / RSum (fun y => RSum (pair y) (seq 0 D)) (seq 0 D) /\
  p_word (grammar_of m) t w = word w / RSum word (seq 0 (nV m)).
Proof.
  intros D HV HN Hy Hz root pair word. unfold grammar_of. cbn [p_root p_rule p_word]. split; [|split].
  - unfold n_roots. rewrite exp_log_softmax by exact HN. unfold softmax, root. rewrite inner_sum. unfold Rdiv. apply f_equal, f_equal.
    apply (Sum_ext R_csr). intro. now rewrite inner_sum.
  - unfold n_rules. fold D. assert (HD : (1 <= D * D)%nat) by (unfold D; nia). rewrite exp_log_softmax by exact HD. unfold softmax.
    assert (Ey : ((y * D + z) / D = y)%nat) by (rewrite Nat.div_add_l by lia; rewrite Nat.div_small by exact Hz; lia).
    assert (Ez : ((y * D + z) mod D = z)%nat) by (rewrite Nat.add_comm, Nat.mod_add by lia; now apply Nat.mod_small).
    rewrite Ey, Ez, inner_sum. unfold Rdiv. apply f_equal, f_equal. rewrite (Sum_seq_flatten R_csr). apply (Sum_ext_in R_csr). intros y' Hy'. apply in_seq in Hy'.
    apply (Sum_ext_in R_csr). intros z' Hz'. apply in_seq in Hz'.
    assert (Ey' : ((y' * D + z') / D = y')%nat) by (rewrite Nat.div_add_l by lia; rewrite Nat.div_small by lia; lia).
    assert (Ez' : ((y' * D + z') mod D = z')%nat) by (rewrite Nat.add_comm, Nat.mod_add by lia; apply Nat.mod_small; lia).
    rewrite Ey', Ez', inner_sum. reflexivity.
  - unfold n_terms. rewrite exp_log_softmax by exact HV. unfold softmax, word. rewrite inner_sum. unfold Rdiv. apply f_equal, f_equal.
    apply (Sum_ext R_csr). intro. now rewrite inner_sum.
Qed.
Print Assumptions C60_probabilities.

(** ** Parses of a sentence and derivations that yield it *)
Fixpoint deco (ws : nat -> nat) (i : nat) (p : ptree) : deriv :=
  match p with PT t => DW t (ws i) | PN x l r => DR x (deco ws i l) (deco ws (i + psize l)%nat r) end.
(** spec: the parse of a derivation *)
Fixpoint strip (d : deriv) : ptree := match d with DW t _ => PT t | DR x l r => PN x (strip l) (strip r) end.
Lemma deco_top ws i p NT : dtop NT (deco ws i p) = psym NT p.
Proof. destruct p; reflexivity. Qed.
Lemma strip_top d NT : psym NT (strip d) = dtop NT d.
Proof. destruct d; reflexivity. Qed.
Lemma strip_deco ws p : forall i, strip (deco ws i p) = p.
Proof. induction p as [t|x l IHl r IHr]; intro i; simpl; congruence. Qed.
Lemma strip_size d : psize (strip d) = length (yield d).
Proof. induction d as [t w|x l IHl r IHr]; simpl; [reflexivity|]. rewrite app_length. lia. Qed.
Lemma deco_yield ws p : forall i, yield (deco ws i p) = map ws (seq i (psize p)).
Proof. induction p as [t|x l IHl r IHr]; intro i; cbn [deco yield psize]; [reflexivity|]. rewrite IHl, IHr, seq_app, map_app. reflexivity. Qed.
Lemma deco_strip ws d : forall i, yield d = map ws (seq i (length (yield d))) -> deco ws i (strip d) = d.
Proof.
  induction d as [t w|x l IHl r IHr]; intros i H; cbn [yield strip deco] in *.
  - cbn [length seq map] in H. injection H as ->. reflexivity.
  - rewrite app_length, seq_app, map_app in H. apply app_inj_len in H as [H1 H2]. 2: now rewrite map_length, seq_length.
    rewrite strip_size, (IHl _ H1), (IHr _ H2). reflexivity.
Qed.
Lemma deco_valid ws V T NT p : forall i, pbounded NT T p -> (forall j, (i <= j < i + psize p)%nat -> (ws j < V)%nat) -> dvalid V T NT (deco ws i p).
Proof.
  induction p as [t|x l IHl r IHr]; intros i B H; cbn [pbounded deco dvalid psize] in *; [split; [exact B|apply H; lia]|].
  destruct B as (Bx & Bl & Br). repeat split; [exact Bx|apply IHl; auto; intros; apply H; lia|apply IHr; auto; intros; apply H; lia].
Qed.
Lemma strip_bounded V T NT d : dvalid V T NT d -> pbounded NT T (strip d).
Proof. induction d as [t w|x l IHl r IHr]; simpl; intuition. Qed.
(** the sentence in row b of the input *)
Definition sent (input : nat -> nat -> nat) (b n : nat) : list nat := map (input b) (seq 0 n).
Lemma deco_enum V T NT n input b l : (forall i, (i < n)%nat -> (input b i < V)%nat) -> Enumerates (is_parse NT T n) l ->
  Enumerates (derives V T NT (sent input b n)) (map (deco (input b) 0) l).
Proof.
  intros Hw [N H]. split.
  - apply NoDup_map_inj; [|exact N]. intros x y _ _ E. rewrite <- (strip_deco (input b) x 0), <- (strip_deco (input b) y 0). now rewrite E.
  - intro d. rewrite in_map_iff. split.
    + intros (p & <- & Hp). apply H in Hp as (L & B & R). split; [|split].
      * apply deco_valid; [exact B|]. intros j Hj. apply Hw. lia.
      * now rewrite deco_top.
      * rewrite deco_yield, L. reflexivity.
    + intros (Hv & Ht & Hy). assert (L : length (yield d) = n) by (rewrite Hy; unfold sent; now rewrite map_length, seq_length).
      exists (strip d). split; [apply deco_strip; rewrite L; exact Hy|]. apply H. split; [|split].
      * now rewrite strip_size.
      * eapply strip_bounded, Hv.
      * now rewrite strip_top.
Qed.
Lemma deco_dprob m input b p : forall i, exp (RSum (forward m input) (pparts (nNT m) b i p)) = dprob (grammar_of m) (nNT m) (deco (input b) i p).
Proof.
  induction p as [t|x l IHl r IHr]; intro i; cbn [pparts deco dprob].
  - rewrite (Sum_one R_csr). reflexivity.
  - rewrite RSum_cons, RSum_app, !exp_plus, IHl, IHr, !deco_top. cbn [forward grammar_of p_rule]. ring.
Qed.
Lemma deco_tprob m input b p : exp (sc (parse_parts (nNT m) b) (forward m input) p) = tprob (grammar_of m) (nNT m) (deco (input b) 0 p).
Proof. unfold sc, parse_parts, tprob. rewrite RSum_cons, exp_plus, deco_dprob, deco_top. reflexivity. Qed.

Lemma row_exists c b : valid c -> row_ok c b -> exists s, ok (spec_of c b) s.
Proof.
  intros V Hb. destruct (row_family V Hb) as (F & HF). rewrite <- (ir_spec HF). pose proof (ir_nonempty HF) as Ne.
  destruct (flist F) as [|s l] eqn:El; [contradiction|]. exists s. apply (fenum F). rewrite El. now left.
Qed.
Section Queries.
  Variables (m : neural) (batch N : nat) (ls : option (list nat)) (input : nat -> nat -> nat).
  Let c := CCfg batch N (nNT m) (nT m) ls.
  Let len b := eff_len N (lc_len N ls b).
  Hypothesis V : valid c.
  (** all words of all sentences are in the vocabulary *)
  Hypothesis Hw : forall b i, (b < batch)%nat -> (i < len b)%nat -> (input b i < nV m)%nat.
  Let row_sum (S : csr) b l ds (f : deriv -> S) (h : ptree -> S) : row_ok c b -> Enumerates (is_parse (nNT m) (nT m) (len b)) l ->
    Enumerates (derives (nV m) (nT m) (nNT m) (sent input b (len b))) ds -> (forall p, h p = f (deco (input b) 0 p)) -> Sum S h l = Sum S f ds.
  Proof.
    intros [Hb _] Hl Hds E. rewrite <- (Sum_enum S f (@deco_enum _ _ _ _ input b l (fun i => @Hw b i Hb) Hl) Hds), (Sum_map S). apply Sum_ext. exact E.
  Qed.

  (** in the probability semiring: the total probability of the derivations of the sentence *)
  Theorem C60_likelihood_exact : forall v, run c (csr_ops R_csr) (fun e => exp (forward m input e)) = Ok v ->
    forall b ds, row_ok c b -> Enumerates (derives (nV m) (nT m) (nNT m) (sent input b (len b))) ds -> nth b v 0 = RSum (tprob (grammar_of m) (nNT m)) ds.
  Proof.
    intros v E b ds Hb Hds. destruct (row_family V Hb) as (F & HF).
    assert (Hl : exists l, Enumerates (ok (spec_of c b)) l) by (rewrite <- (ir_spec HF); exists (flist F); apply (fenum F)). destruct Hl as (l & Hl).
    rewrite (@run_sum c b R_csr _ 0 v l V Hb E Hl). apply (@row_sum R_csr b l ds); auto. intro p. rewrite <- deco_tprob. unfold sc.
    cbn [prt spec_of c]. induction (parse_parts (nNT m) b p) as [|e q IH]; [symmetry; apply exp_0|]. rewrite (Prod_cons R_csr), RSum_cons, exp_plus, IH. reflexivity.
  Qed.

  Variable B : R.
  Hypothesis HB : forall e, Rabs (forward m input e) <= B.
  Let HB0 : 0 <= B.
  Proof. eapply Rle_trans; [apply Rabs_pos|apply (HB [])]. Qed.
  (** partition is the log-likelihood *)
  Theorem C60_likelihood : exists v, q_partition c (forward m input) = Ok v /\ length v = batch /\
    forall b ds, row_ok c b -> Enumerates (derives (nV m) (nT m) (nNT m) (sent input b (len b))) ds ->
      0 <= nth b v 0 - ln (RSum (tprob (grammar_of m) (nNT m)) ds) <= leak c b B.
  Proof.
    destruct (@C20_partition_value c (forward m input) B V HB0 (or_intror HB)) as (v & E & L & G). exists v. split; [exact E|]. split; [exact L|].
    intros b ds Hb Hds. destruct (row_family V Hb) as (F & HF).
    assert (Hl : exists l, Enumerates (ok (spec_of c b)) l) by (rewrite <- (ir_spec HF); exists (flist F); apply (fenum F)). destruct Hl as (l & Hl).
    specialize (G b l Hb Hl). replace (RSum (tprob (grammar_of m) (nNT m)) ds) with (ZS (prt (spec_of c b)) l (forward m input)); [exact G|].
    apply (@row_sum R_csr b l ds); auto. intro p. apply deco_tprob.
  Qed.
  (** the probabilities of distinct sentences, of whatever lengths, add up to at most one *)
  Theorem C60_subprobability rows : (0 < nV m)%nat -> NoDup rows -> (forall b, In b rows -> row_ok c b) ->
    (forall b b', In b rows -> In b' rows -> sent input b (len b) = sent input b' (len b') -> b = b') ->
    forall v, q_partition c (forward m input) = Ok v -> RSum (fun b => exp (nth b v 0 - leak c b B)) rows <= 1.
  Proof.
    intros HV Nr Hr Hd v E. destruct C60_likelihood as (v' & E' & _ & G). rewrite E in E'. injection E' as <-.
    set (nt := nNT m) in *. set (g := grammar_of m) in *.
    set (ds b := map (deco (input b) 0) (parses nt (nT m) (len b))).
    assert (Hds : forall b, In b rows -> Enumerates (derives (nV m) (nT m) nt (sent input b (len b))) (ds b)).
    { intros b Hb. apply deco_enum; [intros i Hi; apply Hw; [apply (Hr b Hb)|exact Hi]|]. apply parses_enum. }
    apply Rle_trans with (RSum (tprob g nt) (flat_map ds rows)).
    - rewrite RSum_flat_map. apply RSum_le. intros b Hb. specialize (G b (ds b) (Hr b Hb) (Hds b Hb)).
      assert (Pos : 0 < RSum (tprob g nt) (ds b)).
      { apply RSum_pos.
        - destruct (row_exists V (Hr b Hb)) as (p & Hp). apply (parses_enum nt (nT m) (len b)) in Hp. unfold ds. destruct (parses nt (nT m) (len b)); [destruct Hp|discriminate].
        - intros d _. unfold tprob. apply Rmult_lt_0_compat; [apply exp_pos|]. induction d as [t w|x l IHl r IHr]; cbn [dprob]; [apply exp_pos|]. repeat apply Rmult_lt_0_compat; auto. apply exp_pos. }
      rewrite <- (exp_ln _ Pos). destruct (Rle_lt_or_eq_dec (nth b v 0 - leak c b B) (ln (RSum (tprob g nt) (ds b)))) as [Lt|Eq]; [lra|left; now apply exp_increasing|right; now rewrite Eq].
    - apply (@finite_mass (nV m) (nT m) nt g); [apply C60_proper; auto; apply V| |].
      + apply NoDup_flat_map; [exact Nr|intros b Hb; apply (Hds b Hb)|]. intros b b' d Hb Hb' H1 H2. apply (Hds b Hb) in H1 as (_ & _ & Y1). apply (Hds b' Hb') in H2 as (_ & _ & Y2). apply Hd; auto. congruence.
      + intros d Hin. apply in_flat_map in Hin as (b & Hb & Hin). apply (Hds b Hb) in Hin as (H1 & H2 & _). auto.
  Qed.
End Queries.

(** ** Summing over the words *)
Lemma seqs_split C a b (f : list nat -> R) : RSum f (seqs C (a + b)) = RSum (fun u => RSum (fun w => f (u ++ w)) (seqs C b)) (seqs C a).
Proof.
  revert f. induction a as [|a IH]; intro f; cbn [seqs Nat.add]; [rewrite (Sum_one R_csr); reflexivity|].
  rewrite !RSum_flat_map. apply (Sum_ext R_csr). intro x. rewrite !(Sum_map R_csr), IH. reflexivity.
Qed.
Lemma deco_ext p : forall ws ws' i i', (forall j, (j < psize p)%nat -> ws (i + j)%nat = ws' (i' + j)%nat) -> deco ws i p = deco ws' i' p.
Proof.
  induction p as [t|x l IHl r IHr]; intros ws ws' i i' H; cbn [deco psize] in *.
  - f_equal. specialize (H 0%nat). rewrite !Nat.add_0_r in H. apply H. lia.
  - f_equal; [apply IHl; intros; apply H; lia|]. apply IHr. intros j Hj. rewrite <- !Nat.add_assoc. apply H. lia.
Qed.
(** the probability of the rules alone *)
Fixpoint rprob (g : pcfg) (NT : nat) (p : ptree) : R :=
  match p with PT _ => 1 | PN x l r => p_rule g x (psym NT l) (psym NT r) * rprob g NT l * rprob g NT r end.
Lemma words_out g V T NT p : (forall t, RSum (p_word g t) (seq 0 V) = 1) -> pbounded NT T p ->
  RSum (fun ws => dprob g NT (deco (fun i => nth i ws 0%nat) 0 p)) (seqs V (psize p)) = rprob g NT p.
Proof.
  intros H. induction p as [t|x l IHl r IHr]; intro B; cbn [psize rprob deco dprob].
  - cbn [seqs]. rewrite RSum_flat_map, <- (H t). apply (Sum_ext R_csr). intro w. cbn [map]. rewrite (Sum_one R_csr). reflexivity.
  - destruct B as (Bx & Bl & Br). rewrite seqs_split, <- (IHl Bl), <- (IHr Br).
    transitivity (RSum (fun u => RSum (fun w => p_rule g x (psym NT l) (psym NT r) * dprob g NT (deco (fun i => nth i u 0%nat) 0 l) * dprob g NT (deco (fun i => nth i w 0%nat) 0 r))
      (seqs V (psize r))) (seqs V (psize l))).
    + apply (Sum_ext_in R_csr). intros u Hu. apply (seqs_enum V) in Hu as [Lu _]. apply (Sum_ext_in R_csr). intros w _. rewrite !deco_top. f_equal; [f_equal|]; f_equal; apply deco_ext.
      * intros j Hj. cbn [Nat.add]. apply app_nth1. lia.
      * intros j Hj. cbn [Nat.add]. rewrite app_nth2 by lia. f_equal. lia.
    + transitivity (RSum (fun u => p_rule g x (psym NT l) (psym NT r) * dprob g NT (deco (fun i => nth i u 0%nat) 0 l) *
        RSum (fun w => dprob g NT (deco (fun i => nth i w 0%nat) 0 r)) (seqs V (psize r))) (seqs V (psize l))).
      * apply (Sum_ext R_csr). intro u. apply RSum_scal.
      * rewrite RSum_scar, RSum_scal. reflexivity.
Qed.
(** the grammar without its words *)
Definition no_words (m : neural) (e : list nat) : R :=
  match e with
  | [1; _; x; y; z] => n_rules m x y z
  | [2; _; x] => n_roots m x
  | _ => 0%R
  end%nat.
Lemma no_words_parts m b p : forall i, exp (RSum (no_words m) (pparts (nNT m) b i p)) = rprob (grammar_of m) (nNT m) p.
Proof.
  induction p as [t|x l IHl r IHr]; intro i; cbn [pparts rprob].
  - rewrite (Sum_one R_csr). apply exp_0.
  - rewrite RSum_cons, RSum_app, !exp_plus, IHl, IHr. cbn [no_words grammar_of p_rule]. ring.
Qed.
Lemma Prod_exp (phi : list nat -> R) (l : list (list nat)) : RProd (fun e => exp (phi e)) l = exp (RSum phi l).
Proof. induction l as [|e l IH]; [symmetry; apply exp_0|]. rewrite (Prod_cons R_csr), RSum_cons, exp_plus, IH. reflexivity. Qed.
Theorem C60_words_sum_out m n : (0 < nV m)%nat -> (2 <= n)%nat -> let c := CCfg 1 n (nNT m) (nT m) None in valid c ->
  forall (v : list nat -> list R) v0, (forall ws, run c (csr_ops R_csr) (fun e => exp (forward m (fun _ i => nth i ws 0%nat) e)) = Ok (v ws)) ->
    run c (csr_ops R_csr) (fun e => exp (no_words m e)) = Ok v0 ->
    RSum (fun ws => nth 0 (v ws) 0) (seqs (nV m) n) = nth 0 v0 0.
Proof.
  intros HV Hn c Vc v v0 E E0.
  assert (En : eff_len n (lc_len n None 0) = n) by (unfold eff_len, lc_len; destruct n; [lia|reflexivity]).
  assert (Hb : row_ok c 0) by (split; [simpl; lia|]; cbn [c]; rewrite En; exact Hn).
  assert (Hl : Enumerates (ok (spec_of c 0)) (parses (nNT m) (nT m) n)) by (cbn [spec_of c ok]; rewrite En; apply parses_enum).
  rewrite (@run_sum c 0 R_csr _ 0 v0 _ Vc Hb E0 Hl).
  rewrite (Sum_ext R_csr _ _ _ (fun ws => @run_sum c 0 R_csr _ 0 (v ws) _ Vc Hb (E ws) Hl)), (Sum_comm R_csr).
  apply (Sum_ext_in R_csr). intros p Hp. apply parses_enum in Hp as (Lp & Bp & Rp). cbn [prt spec_of c].
  transitivity (RSum (fun ws => p_root (grammar_of m) (psym (nNT m) p) * dprob (grammar_of m) (nNT m) (deco (fun i => nth i ws 0%nat) 0 p)) (seqs (nV m) n)).
  - apply (Sum_ext R_csr). intro ws. rewrite Prod_exp. etransitivity; [apply (deco_tprob m (fun _ i => nth i ws 0%nat) 0 p)|]. unfold tprob. now rewrite deco_top.
  - rewrite RSum_scal. rewrite <- Lp. rewrite (@words_out _ _ (nT m)); [|apply C60_proper; auto; apply Vc|exact Bp].
    rewrite Prod_exp. unfold parse_parts. rewrite RSum_cons, exp_plus, no_words_parts. reflexivity.
Qed.
Print Assumptions C60_proper.
Print Assumptions C60_likelihood_exact.
Print Assumptions C60_likelihood.
Print Assumptions C60_subprobability.
Print Assumptions C60_words_sum_out.

(** ** Instance: two words, one preterminal, one nonterminal, all weights zero: every
    choice is uniform *)
Definition coin : neural := {| nV := 2; nT := 1; nNT := 1; nH := 1; word_emb := fun _ _ => 0; term_hid := fun _ _ => 0; nonterm_emb := fun _ _ => 0;
  nonterm_emb_c := fun _ _ _ => 0; root_hid := fun _ _ => 0; s_emb := fun _ => 0 |}.
(** example: word indices *)
Definition co_input (b i : nat) : nat := nth i (nth b [[0; 1]; [0; 0]; [0; 1; 1]]%nat []) 0%nat.
(** example: a call of SentCFG *)
Definition co_call := CCfg 3 3 1 1 (Some [2; 2; 3])%nat.
Lemma ls_zero C c : (1 <= C)%nat -> log_softmax C (fun _ => 0 * 0 + 0) c = - ln (INR C).
Proof. intro H. unfold log_softmax. rewrite RSum_const, seq_length. replace (0 * 0 + 0) with 0 by ring. rewrite exp_0, Rmult_1_r. ring. Qed.
Example co_hypotheses : valid co_call /\ (forall b i, (b < 3)%nat -> (i < eff_len 3 (lc_len 3 (Some [2; 2; 3]) b))%nat -> (co_input b i < nV coin)%nat) /\
  (forall b, In b [0; 1; 2]%nat -> row_ok co_call b) /\
  (forall b b', In b [0; 1; 2]%nat -> In b' [0; 1; 2]%nat ->
    sent co_input b (eff_len 3 (lc_len 3 (Some [2; 2; 3])%nat b)) = sent co_input b' (eff_len 3 (lc_len 3 (Some [2; 2; 3])%nat b')) -> b = b') /\
  (forall e, Rabs (forward coin co_input e) <= 3).
Proof.
  split; [vm_compute; repeat first [lia | reflexivity | split | apply Forall_cons | apply Forall_nil]|]. split.
  { intros [|[|[|b]]] [|[|[|i]]] Hb Hi; vm_compute in Hi |- *; lia. }
  split. { intros b [<-|[<-|[<-|[]]]]; (split; [simpl; lia|vm_compute; lia]). }
  split. { intros b b' [<-|[<-|[<-|[]]]] [<-|[<-|[<-|[]]]]; vm_compute; congruence. }
  assert (L : forall k, (1 <= k <= 4)%nat -> Rabs (- ln (INR k)) <= 3).
  { intros k Hk. rewrite Rabs_Ropp. assert (1 <= INR k <= 4). { split; [change 1 with (INR 1)|replace 4 with (INR 4) by (simpl; ring)]; apply le_INR; lia. }
    assert (0 <= ln (INR k)) by (rewrite <- ln_1; destruct (Req_dec (INR k) 1) as [->|]; [lra|left; apply ln_increasing; lra]).
    rewrite Rabs_pos_eq by assumption. apply Rle_trans with (INR k - 1); [|lra]. pose proof (exp_ineq1_le (ln (INR k))) as Q. rewrite exp_ln in Q by lra. lra. }
  assert (Z : Rabs 0 <= 3) by (rewrite Rabs_R0; lra).
  intro e. unfold forward. repeat (match goal with |- context [match ?x with _ => _ end] => destruct x end); try exact Z.
  all: unfold n_terms, n_rules, n_roots; cbn; rewrite ls_zero by lia; apply L; lia.
Qed.
(** P("0 1") = 1/16 and P("0 1 1") = 2/128 *)
Example co_values v : run co_call (csr_ops R_csr) (fun e => exp (forward coin co_input e)) = Ok v ->
  nth 0 v 0 = / 16 /\ nth 2 v 0 = / 64.
Proof.
  destruct co_hypotheses as (Vc & Hw & Hr & _). intro E.
  assert (E1 : forall c, exp (- ln (INR (S c))) = / INR (S c)) by (intro; rewrite exp_Ropp, exp_ln; [reflexivity|apply lt_0_INR; lia]).
  assert (G : forall b n, In b [0; 1; 2]%nat -> eff_len 3 (lc_len 3 (Some [2; 2; 3])%nat b) = n ->
    nth b v 0 = RSum (fun p => RProd (fun e => exp (forward coin co_input e)) (parse_parts 1 b p)) (parses 1 1 n)).
  { intros b n Hb En. rewrite (@run_sum co_call b R_csr _ 0 v (parses 1 1 n) Vc (Hr b Hb) E); [reflexivity|]. cbn [spec_of co_call ok]. rewrite En. apply parses_enum. }
  assert (W : forall b i t, forward coin co_input [0; b; i; t]%nat = - ln (INR 2)) by (intros; cbn [forward]; unfold n_terms; cbn; apply ls_zero; lia).
  assert (Q : forall b x y z, forward coin co_input [1; b; x; y; z]%nat = - ln (INR 4)) by (intros; cbn [forward]; unfold n_rules; cbn; apply ls_zero; lia).
  assert (Ro : forall b x, forward coin co_input [2; b; x]%nat = - ln (INR 1)) by (intros; cbn [forward]; unfold n_roots; cbn; apply ls_zero; lia).
  split.
  - rewrite (G 0%nat 2%nat) by (simpl; auto). replace (parses 1 1 2) with [PN 0 (PT 0) (PT 0)] by reflexivity. rewrite (Sum_one R_csr). cbv [parse_parts pparts psym psize Nat.add app]. rewrite !(Prod_cons R_csr). cbv beta. rewrite !W, !Q, !Ro, !E1, !(Prod_nil R_csr). simpl. field.
  - rewrite (G 2%nat 3%nat) by (simpl; auto). replace (parses 1 1 3) with [PN 0 (PT 0) (PN 0 (PT 0) (PT 0)); PN 0 (PN 0 (PT 0) (PT 0)) (PT 0)] by reflexivity.
    rewrite RSum_cons, (Sum_one R_csr). cbv [parse_parts pparts psym psize Nat.add app]. rewrite !(Prod_cons R_csr). cbv beta. rewrite !W, !Q, !Ro, !E1, !(Prod_nil R_csr). simpl. field.
Qed.
