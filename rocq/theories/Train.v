(** * Train: the training and evaluation loops of the two supervised examples.

    Model of the tensor code of notebooks/BertTagger.ipynb (a tagger on
    LinearChainCRF) and examples/bert-dep.py (a parser on DependencyCRF) around
    the network: how the network's outputs become potentials, the masks, the
    error counts. The network itself (BERT, linear layers, dropout) is an
    arbitrary function: its outputs are parameters. Optimiser, clipping and
    scheduling are not modelled. *)
From Verif Require Import Base Ops Terms Semirings Chain LinearChain DepSpec DepTree Family Approx Grad Api Query Codec.
Set Implicit Arguments.
Local Open Scope R_scope.

(** ** The tagger *)
(** BertTagger.ipynb, third code cell, [Model.forward], last three lines:
    [vals = final.view(batch, N, C, 1)[:, 1:N] + transition.weight.view(1, 1, C, C)]
    and [vals[:, 0, :, :] += final.view(batch, N, 1, C)[:, 0]].
    [final b i c] is the network's score of tag c at position i, [trans] the
    transition weights. The entry [b; n; x; y] joins tag y at n to tag x at n + 1. *)
Definition tag_vals (final : nat -> nat -> nat -> R) (trans : nat -> nat -> R) (e : list nat) : R :=
  match e with
  | [b; n; x; y] => final b (n + 1)%nat x + trans x y + (if (n =? 0)%nat then final b 0%nat y else 0)
  | _ => 0
  end.

(** BertTagger.ipynb, fourth code cell, [validate]:
    [(argmax.sum(-1) - gold.sum(-1)).abs().sum() / 2.0] *)
Definition tag_errors (batch N C : nat) (argmax gold : list nat -> R) : R :=
  RSum (fun b => RSum (fun n => RSum (fun x =>
    Rabs (RSum (fun y => argmax [b; n; x; y]) (seq 0 C) - RSum (fun y => gold [b; n; x; y]) (seq 0 C)))
    (seq 0 C)) (seq 0 (N - 1))) (seq 0 batch) / 2.
(** the same cell: [total += argmax.sum()] *)
Definition tag_total (batch N C : nat) (argmax : list nat -> R) : R :=
  RSum (fun b => RSum (fun n => RSum (fun x => RSum (fun y => argmax [b; n; x; y]) (seq 0 C)) (seq 0 C)) (seq 0 (N - 1))) (seq 0 batch).

(** ** The parser *)
(** bert-dep.py:58-60: scores of arcs with the score of being a root added to the
    diagonal. [arc b h c] is final2 after line 58, [root b c] is root_score[:, 1:-1]. *)
Definition dep_vals (arc : nat -> nat -> nat -> R) (root : nat -> nat -> R) (e : list nat) : R :=
  match e with
  | [b; h; c] => arc b h c + (if (h =? c)%nat then root b c else 0)
  | _ => 0
  end.
(** bert-dep.py:77-79 and 101-103: [final[b, lengths[b]-1:, :] = 0] and
    [final[b, :, lengths[b]-1:] = 0] for every row. [lengths] are numbers of words
    (batch_num, lines 19-25), not 0 by the filter of line 32 (no word gives two
    tokens), so [lengths[b]-1] is not negative and natural subtraction is exact. *)
Definition dep_mask (lengths : list nat) (phi : list nat -> R) (e : list nat) : R :=
  match e with
  | [b; h; c] => if ((nth b lengths 0 - 1 <=? h) || (nth b lengths 0 - 1 <=? c))%nat%bool then 0 else phi e
  | _ => phi e
  end.
(** bert-dep.py:82: [(dist.argmax[:, :] - gold[:, :]).abs().sum() / 2.0] *)
Definition dep_errors (batch n : nat) (argmax gold : list nat -> R) : R :=
  RSum (fun b => RSum (fun h => RSum (fun c => Rabs (argmax [b; h; c] - gold [b; h; c])) (seq 0 n)) (seq 0 n)) (seq 0 batch) / 2.
(** bert-dep.py:83: [gold.sum()] *)
Definition dep_total (batch n : nat) (gold : list nat -> R) : R :=
  RSum (fun b => RSum (fun h => RSum (fun c => gold [b; h; c]) (seq 0 n)) (seq 0 n)) (seq 0 batch).
(** bert-dep.py:19-25 [batch_num]: rows padded with zeros to the longest, and the lengths.
    An empty batch has no maximum (line 21). *)
Definition batch_num (nums : list (list Z)) : res (tensor Z * list nat) :=
  match nums with
  | [] => Err RuntimeError
  | _ => Ok ({| shape := [length nums; list_max (map (@length Z) nums)];
                dat := fun e => match e with [b; i] => nth i (nth b nums []) 0%Z | _ => 0%Z end |},
             map (@length Z) nums)
  end.

(** ** Specification *)
(** a tag sequence is scored by its tags and its transitions *)
Definition tag_score (final : nat -> nat -> nat -> R) (trans : nat -> nat -> R) (b : nat) (y : list nat) : R :=
  RSum (fun i => final b i (nth i y 0%nat)) (seq 0 (length y)) +
  RSum (fun i => trans (nth (i + 1) y 0%nat) (nth i y 0%nat)) (seq 0 (length y - 1)).
(** probability under a linear-chain model with these scores; [l] lists all sequences *)
Definition tag_prob final trans b (l : list (list nat)) (y : list nat) : R :=
  exp (tag_score final trans b y) / RSum (fun y' => exp (tag_score final trans b y')) l.
(** a head vector is scored by its arcs: head 0 is the root *)
Definition head_score (arc : nat -> nat -> nat -> R) (root : nat -> nat -> R) (b : nat) (h : list nat) : R :=
  RSum (fun c => match nth c h 0%nat with O => arc b c c + root b c | S h' => arc b h' c end) (seq 0 (length h)).
(** number of positions from [i] on at which two lists of length [n] differ *)
Definition differ (i n : nat) (u w : list nat) : nat :=
  length (filter (fun k => negb (nth k u 0 =? nth k w 0)%nat) (seq i (n - i))).

(** ** Directional derivatives of the log value of a graph *)
Lemma score_dir phi delta z x m : score (fun e => phi e + x * delta e) z m = score phi z m + x * score delta 0 m.
Proof. unfold score. rewrite <- RSum_scal, <- RSum_add. apply (Sum_ext R_csr). intros []; simpl; ring. Qed.

Lemma dir_derivative z phi delta t : twf t ->
  derivable_pt_lim (fun x => leval (log_ops z) (fun e => phi e + x * delta e) t) 0 (mean phi z t (score delta 0)).
Proof.
  intro W.
  apply dlim_ext with (fun x => ln (RSum (fun m => exp (score phi z m + (x - 0) * score delta 0 m)) (expand t))).
  { intro x. rewrite log_value_ln by auto. f_equal. unfold ZZ. apply (Sum_ext R_csr). intro m. rewrite score_dir. do 2 f_equal. ring. }
  unfold mean. rewrite RSum_pr by auto.
  set (g := fun x => RSum (fun m => exp (score phi z m + (x - 0) * score delta 0 m)) (expand t)).
  assert (Hg : derivable_pt_lim g 0 (RSum (fun m => exp (score phi z m) * score delta 0 m) (expand t))).
  { unfold g. rewrite (Sum_ext R_csr (fun m => exp (score phi z m) * score delta 0 m)
       (fun m => exp (score phi z m + (0 - 0) * score delta 0 m) * score delta 0 m)).
    - apply (dlim_sum (fun m x => exp (score phi z m + (x - 0) * score delta 0 m))). intros m _. apply dlim_exp_affine.
    - intro m. do 2 f_equal. ring. }
  assert (E : g 0 = ZZ phi z t).
  { unfold g, ZZ. apply (Sum_ext R_csr). intro m. f_equal. ring. }
  unfold Rdiv. rewrite (Rmult_comm _ (/ _)).
  apply (derivable_pt_lim_comp g ln 0 _ (/ ZZ phi z t) Hg).
  rewrite E. apply derivable_pt_lim_ln, ZZ_pos, W.
Qed.
Lemma score0_abs delta K m : 0 <= K -> (forall e, Rabs (delta e) <= K) -> Rabs (score delta 0 m) <= INR (length m) * K.
Proof.
  intros HK H. induction m as [|a m IH].
  - unfold score. cbn. rewrite Rabs_R0. lra.
  - change (score delta 0 (a :: m)) with (aval delta 0 a + score delta 0 m). cbn [length]. rewrite S_INR.
    eapply Rle_trans; [apply Rabs_triang|].
    assert (Rabs (aval delta 0 a) <= K) by (destruct a; simpl; auto; rewrite Rabs_R0; auto). lra.
Qed.
