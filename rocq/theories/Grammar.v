(** * Grammar: the probabilistic grammar of examples/networks/NeuralCFG.py, and what a
    probabilistic context-free grammar is. *)
From Coq Require Import Reals Lra.
From Verif Require Import Base Semirings Cky AutoReg P_AutoReg.
Set Implicit Arguments.
Local Open Scope R_scope.

(** ** Model *)
(** NeuralCFG.py:26-44, the parameters. The residual networks [mlp1], [mlp2] (lines
    5-18) enter only through their outputs on [term_emb] (line 53) and [root_emb] (line
    76), which are arbitrary here. *)
Record neural := {
  nV : nat; nT : nat; nNT : nat; nH : nat;
  word_emb : nat -> nat -> R;
  term_hid : nat -> nat -> R;
  nonterm_emb : nat -> nat -> R;
  nonterm_emb_c : nat -> nat -> nat -> R;
  root_hid : nat -> nat -> R;
  s_emb : nat -> R }.

Section Forward.
  Variable m : neural.
  Let D := (nNT m + nT m)%nat.
  (** lines 50-62 [terms]: einsum "vh,th->tv", log_softmax over the words, gather at the
      words of the input *)
  Definition n_terms (input : nat -> nat -> nat) (b i t : nat) : R :=
    log_softmax (nV m) (fun v => RSum (fun h => word_emb m v h * term_hid m t h) (seq 0 (nH m))) (input b i).
  (** lines 64-71 [rules]: einsum "sh,tuh->stu", flattened to NT x (NT+T)^2 before
      log_softmax and folded back afterwards *)
  Definition n_rules (x y z : nat) : R :=
    log_softmax (D * D) (fun k => RSum (fun h => nonterm_emb m x h * nonterm_emb_c m (k / D) (k mod D) h) (seq 0 (nH m))) (y * D + z).
  (** lines 73-79 [roots]: einsum "ah,th->t", log_softmax over the nonterminals *)
  Definition n_roots (x : nat) : R :=
    log_softmax (nNT m) (fun t => RSum (fun h => s_emb m h * root_hid m t h) (seq 0 (nH m))) x.
  (** lines 81-82 [forward]: the three tensors passed to SentCFG (notebook use: distributions.py:425-447
      takes them as one tuple); the first index chooses the tensor *)
  Definition forward (input : nat -> nat -> nat) (e : list nat) : R :=
    match e with
    | [0; b; i; t] => n_terms input b i t
    | [1; _; x; y; z] => n_rules x y z
    | [2; _; x] => n_roots x
    | _ => 0%R
    end%nat.
End Forward.

(** ** Specification: probabilistic context-free grammars over words.

    Symbols below NT rewrite to two symbols, symbols NT .. NT+T-1 to one word. *)
Inductive deriv := DW (t w : nat) | DR (x : nat) (l r : deriv).
(** spec: symbol at the top of a derivation, numbered as in cky.py:34-36 *)
Definition dtop (NT : nat) (d : deriv) : nat := match d with DW t _ => NT + t | DR x _ _ => x end.
(** spec: words of a derivation, from left to right *)
Fixpoint yield (d : deriv) : list nat := match d with DW _ w => [w] | DR _ l r => yield l ++ yield r end.
(** spec: words and symbols are in range *)
Fixpoint dvalid (V T NT : nat) (d : deriv) : Prop :=
  match d with DW t w => (t < T)%nat /\ (w < V)%nat | DR x l r => (x < NT)%nat /\ dvalid V T NT l /\ dvalid V T NT r end.
(** [derives V T NT ws d]: d is a derivation of the sentence ws from a nonterminal *)
Definition derives (V T NT : nat) (ws : list nat) (d : deriv) : Prop := dvalid V T NT d /\ (dtop NT d < NT)%nat /\ yield d = ws.
(** spec: a probabilistic grammar (roots, binary rules, words of a preterminal) *)
Record pcfg := { p_root : nat -> R; p_rule : nat -> nat -> nat -> R; p_word : nat -> nat -> R }.
(** spec: probability of a derivation given its top symbol *)
Fixpoint dprob (g : pcfg) (NT : nat) (d : deriv) : R :=
  match d with DW t w => p_word g t w | DR x l r => p_rule g x (dtop NT l) (dtop NT r) * dprob g NT l * dprob g NT r end.
(** spec: probability of a derivation *)
Definition tprob (g : pcfg) (NT : nat) (d : deriv) : R := p_root g (dtop NT d) * dprob g NT d.
(** spec: the rules, roots and words are probabilities *)
Definition proper (V T NT : nat) (g : pcfg) : Prop :=
  (forall x, 0 <= p_root g x) /\ (forall x y z, 0 <= p_rule g x y z) /\ (forall t w, 0 <= p_word g t w) /\
  RSum (p_root g) (seq 0 NT) = 1 /\
  (forall x, RSum (fun y => RSum (fun z => p_rule g x y z) (seq 0 (NT + T))) (seq 0 (NT + T)) = 1) /\
  (forall t, RSum (p_word g t) (seq 0 V) = 1).
(** the grammar whose probabilities are the network's *)
Definition grammar_of (m : neural) : pcfg := {|
  p_root := fun x => exp (n_roots m x); p_rule := fun x y z => exp (n_rules m x y z);
  p_word := fun t w => exp (n_terms m (fun _ _ => w) 0 0 t) |}.

(** ** A finite set of derivations has probability at most one *)
Fixpoint dheight (d : deriv) : nat := match d with DW _ _ => 0 | DR _ l r => S (Nat.max (dheight l) (dheight r)) end.
(** spec: a listing of all derivations of height at most h with top symbol s *)
Fixpoint dall (V T NT h s : nat) : list deriv :=
  if (s <? NT)%nat then
    match h with
    | 0%nat => []
    | S h' => flat_map (fun y => flat_map (fun z => flat_map (fun l => map (DR s l) (dall V T NT h' z)) (dall V T NT h' y)) (seq 0 (NT + T))) (seq 0 (NT + T))
    end
  else map (DW (s - NT)) (seq 0 V).
Lemma dtop_lt V T NT d : dvalid V T NT d -> (dtop NT d < NT + T)%nat.
Proof. destruct d; simpl; lia. Qed.
Lemma dall_in V T NT h : forall d, dvalid V T NT d -> (dheight d <= h)%nat -> In d (dall V T NT h (dtop NT d)).
Proof.
  induction h as [|h IH]; intros d Hd Hh.
  - destruct d as [t w|x l r]; [|simpl in Hh; lia]. cbn [dtop dall]. replace (NT + t <? NT)%nat with false by (symmetry; apply Nat.ltb_ge; lia).
    replace (NT + t - NT)%nat with t by lia. apply in_map, in_seq. simpl in Hd. lia.
  - destruct d as [t w|x l r]; cbn [dtop dall].
    + replace (NT + t <? NT)%nat with false by (symmetry; apply Nat.ltb_ge; lia). replace (NT + t - NT)%nat with t by lia. apply in_map, in_seq. simpl in Hd. lia.
    + destruct Hd as (Hx & Hl & Hr). cbn [dheight] in Hh. rewrite (proj2 (Nat.ltb_lt _ _) Hx).
      apply in_flat_map. exists (dtop NT l). split; [apply in_seq; pose proof (dtop_lt _ _ _ _ Hl); lia|].
      apply in_flat_map. exists (dtop NT r). split; [apply in_seq; pose proof (dtop_lt _ _ _ _ Hr); lia|].
      apply in_flat_map. exists l. split; [apply IH; auto; lia|]. apply in_map, IH; auto; lia.
Qed.
Lemma dall_top V T NT h s d : In d (dall V T NT h s) -> (s < NT + T)%nat -> dtop NT d = s.
Proof.
  intros Hd Hs. destruct h; cbn [dall] in Hd; destruct (Nat.ltb_spec s NT) as [Lt|Ge].
  - destruct Hd.
  - apply in_map_iff in Hd as (w & <- & _). simpl. lia.
  - apply in_flat_map in Hd as (y & _ & Hd). apply in_flat_map in Hd as (z & _ & Hd). apply in_flat_map in Hd as (l & _ & Hd). apply in_map_iff in Hd as (r & <- & _). reflexivity.
  - apply in_map_iff in Hd as (w & <- & _). simpl. lia.
Qed.
Arguments dall_top {V T NT h s d} _ _.
Section Bound.
  Variables (V T NT : nat) (g : pcfg).
  Hypothesis P : proper V T NT g.
  Lemma dprob_nonneg d : 0 <= dprob g NT d.
  Proof. destruct P as (_ & H2 & H3 & _). induction d as [t w|x l IHl r IHr]; simpl; auto. repeat apply Rmult_le_pos; auto. Qed.
  Lemma dall_sum h : forall s, (s < NT + T)%nat -> RSum (dprob g NT) (dall V T NT h s) <= 1.
  Proof.
    destruct P as (H1 & H2 & H3 & H4 & H5 & H6). induction h as [|h IH]; intros s Hs; cbn [dall].
    - destruct (Nat.ltb_spec s NT); [apply Rle_0_1|]. rewrite (Sum_map R_csr). cbn [dprob]. right. apply H6.
    - destruct (Nat.ltb_spec s NT); [|rewrite (Sum_map R_csr); cbn [dprob]; right; apply H6].
      rewrite RSum_flat_map. rewrite <- (H5 s). apply RSum_le. intros y Hy. apply in_seq in Hy. rewrite RSum_flat_map. apply RSum_le. intros z Hz. apply in_seq in Hz.
      rewrite RSum_flat_map.
      assert (Nn : forall s, 0 <= RSum (dprob g NT) (dall V T NT h s)) by (intro; apply RSum_nonneg; intros; apply dprob_nonneg).
      apply Rle_trans with (p_rule g s y z * RSum (dprob g NT) (dall V T NT h y) * RSum (dprob g NT) (dall V T NT h z)).
      + right. rewrite Rmult_assoc, (Rmult_comm (RSum _ (dall V T NT h y))), <- Rmult_assoc, <- RSum_scal. apply (Sum_ext_in R_csr). intros l Hl.
        rewrite (Sum_map R_csr). pose proof (dall_top Hl ltac:(lia)) as El.
        transitivity (RSum (fun r => p_rule g s y z * dprob g NT l * dprob g NT r) (dall V T NT h z)).
        * apply (Sum_ext_in R_csr). intros r Hr. cbn [dprob]. rewrite El, (dall_top Hr ltac:(lia)). reflexivity.
        * rewrite RSum_scal. ring.
      + rewrite <- (Rmult_1_r (p_rule g s y z)) at 2. rewrite Rmult_assoc. apply Rmult_le_compat_l; [apply H2|].
        rewrite <- (Rmult_1_r 1). apply Rmult_le_compat; auto; apply IH; lia.
  Qed.
  Lemma RSum_incl A (f : A -> R) l : (forall x, 0 <= f x) -> NoDup l -> forall l', incl l l' -> RSum f l <= RSum f l'.
  Proof.
    intros Hf N. induction N as [|x l Hx N IH]; intros l' I; [apply RSum_nonneg; auto|].
    destruct (in_split x l' (I x (or_introl eq_refl))) as (l1 & l2 & ->). rewrite RSum_cons, RSum_app, RSum_cons.
    assert (RSum f l <= RSum f (l1 ++ l2)); [|rewrite RSum_app in *; lra]. apply IH. intros y Hy. specialize (I y (or_intror Hy)).
    apply in_app_iff in I as [I|[->|I]]; [apply in_app_iff; auto|contradiction|apply in_app_iff; auto].
  Qed.
  Theorem finite_mass l : NoDup l -> (forall d, In d l -> dvalid V T NT d /\ (dtop NT d < NT)%nat) -> RSum (tprob g NT) l <= 1.
  Proof.
    intros N Hl. set (h := list_max (map dheight l)).
    apply Rle_trans with (RSum (tprob g NT) (flat_map (dall V T NT h) (seq 0 NT))).
    - apply RSum_incl; auto.
      + intro d. apply Rmult_le_pos; [apply P|apply dprob_nonneg].
      + intros d Hd. destruct (Hl d Hd) as [Hv Ht]. apply in_flat_map. exists (dtop NT d). split; [apply in_seq; lia|]. apply dall_in; [exact Hv|].
        assert (F : Forall (fun k => (k <= h)%nat) (map dheight l)) by (apply list_max_le; reflexivity). rewrite Forall_map, Forall_forall in F. auto.
    - rewrite RSum_flat_map. destruct P as (H1 & H2 & H3 & H4 & _). rewrite <- H4. apply RSum_le. intros s Hs. apply in_seq in Hs.
      apply Rle_trans with (p_root g s * RSum (dprob g NT) (dall V T NT h s)).
      + right. rewrite <- RSum_scal. apply (Sum_ext_in R_csr). intros d Hd. unfold tprob. rewrite (dall_top Hd ltac:(lia)). reflexivity.
      + rewrite <- (Rmult_1_r (p_root g s)) at 2. apply Rmult_le_compat_l; [apply H1|]. apply dall_sum. lia.
  Qed.
End Bound.
