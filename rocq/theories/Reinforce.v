(** * Reinforcement learning of trees (examples/rl.py, examples/tree.py).

    The reward function (a tree LSTM in tree.py:105-112) is a parameter: any real
    function of a row's event. Simplification: the reward of one sampled tree does
    not depend on the other trees that are stacked in the same call. *)
From Verif Require Import Base Ops Terms Semirings Poly Approx Dist Shape Api Query P_Real P_Sample P_Train.
Set Implicit Arguments.
Local Open Scope R_scope.

(** an event tensor of one row, by cell index (examples/rl.py:9-17) *)
Definition event := list nat -> Z.

(** torch's [mean] over one dimension of size n (rl.py:19; tree.py:130) *)
Definition mean_n (n : nat) (f : nat -> R) : R := RSum f (seq 0 n) / INR n.

(** examples/rl.py:8-23 [SelfCritical.forward]: [smp k] is sample k, [am] the argmax event. *)
Section Forward.
  Variables (reward : nat -> event -> R) (K : nat) (smp : nat -> event) (am : event).
  (** rl.py:11-17: the trees list, K samples and then the argmax. [from_parts] of a
      CKY_CRF is the identity (helpers.py:122-124). *)
  Definition sc_trees : list event := map smp (seq 0 K) ++ [am].
  (** rl.py:14 *)
  Definition sc_structs : list event := map smp (seq 0 K).
  (** rl.py:18: [reward_fn(torch.cat(trees), K + 1)], a (K + 1) x batch table *)
  Definition sc_score (k b : nat) : R := reward b (nth k sc_trees am).
  (** rl.py:19 *)
  Definition sc_total (b : nat) : R := mean_n K (fun k => sc_score k b).
  (** rl.py:20: index -1 is the last of K + 1 rows *)
  Definition sc_max (b : nat) : R := sc_score (length sc_trees - 1) b.
  (** rl.py:21 *)
  Definition sc_rewards (k b : nat) : R := sc_score k b - sc_max b.
End Forward.

(** examples/tree.py:129-130: [rewards.mul(log_prob(structs)).mean(-1).mean(-1)].
    Simplification: [log_prob] never raises here (see [log_prob_sample]). *)
Definition rl_obj (c : call) (K : nat) (rewards : nat -> nat -> R) (structs : list event) (phi : list nat -> R) : R :=
  mean_n K (fun k => mean_n (batch_of c) (fun b =>
    rewards k b * ok_or 0 (q_log_prob c phi b (fun e => IZR (nth k structs (fun _ => 0%Z) e))))).
(** examples/tree.py:128, 131-133: minus [w] times the mean of entropy / lengths *)
Definition rl_policy (c : call) (K : nat) (w : R) (len : nat -> R) (rewards : nat -> nat -> R) (structs : list event)
  (phi : list nat -> R) : R :=
  rl_obj c K rewards structs phi - w * mean_n (batch_of c) (fun b => at_row 0 (q_entropy c phi) b / len b).

(** ** Spec *)
(** the expected reward of a row under the Gibbs distribution *)
Definition expected_reward (S : spec) (l : list (st S)) (reward : event -> R) (phi : list nat -> R) : R :=
  RSum (fun s => prob (prt S) l phi s * reward (event_of S s)) l.
(** events are tensors of zeros and ones *)
Definition binary (u : event) : Prop := forall e, u e = 0%Z \/ u e = 1%Z.
