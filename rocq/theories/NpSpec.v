(** * NpSpec: dependency trees without the projectivity condition (specification) *)
From Verif Require Import Base DepSpec.
Set Implicit Arguments.

(** every word's head is a word or the root (0), and every word reaches the root *)
Definition is_tree (n : nat) (h : list nat) : Prop :=
  length h = n /\ forall k, 1 <= k <= n -> hd_of h k <= n /\ anc h k 0.
(** the ancestor of word k whose head is the root *)
Fixpoint top (fuel : nat) (h : list nat) (k : nat) : nat :=
  match fuel with O => k | S fuel' => match hd_of h k with O => k | S k' => top fuel' h (S k') end end.

Lemma proj_tree n h : is_proj n h -> is_tree n h.
Proof. intros (H1 & H2 & _). split; auto. Qed.
Lemma top_spec fuel h k : top fuel h k <> 0 -> anc h k (top fuel h k).
Proof.
  revert k. induction fuel as [|f IH]; intros k H; [exists 0; reflexivity|]. cbn in *. destruct (hd_of h k) eqn:E; [exists 0; reflexivity|].
  destruct (IH _ H) as [t Ht]. exists (S t). rewrite iter_shift, E. exact Ht.
Qed.
Lemma iter_hd0 h t : Nat.iter t (hd_of h) 0 = 0.
Proof. apply iter_fix. reflexivity. Qed.
