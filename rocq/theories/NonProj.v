(** * NonProj: model of deptree_part and deptree_nonproj (deptree.py 192-302).

    One row of the batch at a time: every tensor operation of these functions acts on
    each batch element separately. Scores are [option R]; [None] is minus infinity. *)
From Coq Require Import Reals Lra.
From Verif Require Import Base Ops Terms Semirings Grad DepSpec NpSpec MxR.
Set Implicit Arguments.
Local Open Scope R_scope.

(** exp of a score, exp(-inf) = 0 (deptree.py 209, 215, 217) *)
Definition eexp (x : option R) : R := match x with Some y => exp y | None => 0 end.
(** deptree.py 193-206 and 241-254: mask[i,j] = 0 inside the sentence and -inf outside,
    added to the scores *)
Definition np_mask (len : option nat) (phi : nat -> nat -> option R) (i j : nat) : option R :=
  match len with None => phi i j | Some l => if (i <? l)%nat && (j <? l)%nat then phi i j else None end.
(** deptree.py 200 and 248: det_offset, the diagonal of ~x; added at 212-213 / 261-262 *)
Definition np_off (len : option nat) (i : nat) : R := match len with None => 0 | Some l => if (i <? l)%nat then 0 else 1 end.
(** deptree.py 209-210 and 258-259: exp + eps with a zero diagonal *)
Definition np_arc (eps : R) (s : nat -> nat -> option R) (i j : nat) : R := if Nat.eqb i j then 0 else eexp (s i j) + eps.
(** deptree.py 209-213 and 258-262: -lap + diag(column sums) + offset *)
Definition np_lap0 (N : nat) (len : option nat) (eps : R) (s : nat -> nat -> option R) (i j : nat) : R :=
  - np_arc eps s i j + (if Nat.eqb i j then RSum (fun h => np_arc eps s h j) (seq 0 N) else 0) + (if Nat.eqb i j then np_off len i else 0).
(** deptree.py 215-219, 264-266 and 283: root scores on the diagonal, or in row 0 *)
Definition np_lap (multi : bool) (N : nat) (len : option nat) (eps : R) (phi : nat -> nat -> option R) (i j : nat) : R :=
  let s := np_mask len phi in
  if multi then np_lap0 N len eps s i j + (if Nat.eqb i j then eexp (s i i) else 0)
  else if Nat.eqb i 0 then eexp (s j j) else np_lap0 N len eps s i j.
(** values of torch.logdet: the logarithm, -inf at a zero determinant, nan below *)
Inductive lval := Fin (x : R) | NegInf | NaN.
(** [Tensor.logdet] (deptree.py:220): -inf for determinant 0, NaN for a negative one *)
Definition logdet (d : R) : lval := if Rlt_dec 0 d then Fin (ln d) else if Req_EM_T d 0 then NegInf else NaN.
(** deptree.py 192-220 for one row. Writing row 0 of an empty matrix fails.
    Simplification: real arithmetic, no overflow of exp. *)
Definition deptree_part (multi : bool) (N : nat) (len : option nat) (eps : R) (phi : nat -> nat -> option R) : res lval :=
  if negb multi && Nat.eqb N 0 then Err IndexError else Ok (logdet (detR N (np_lap multi N len eps phi))).
(** deptree.py 223-302 for one row: entry (i, j) of the output. torch.inverse raises on
    a singular matrix. *)
Definition deptree_nonproj (multi : bool) (N : nat) (len : option nat) (eps : R) (phi : nat -> nat -> option R) : res (nat -> nat -> R) :=
  if negb multi && Nat.eqb N 0 then Err IndexError else
  let s := np_mask len phi in
  let lap := np_lap multi N len eps phi in
  if Req_EM_T (detR N lap) 0 then Err RuntimeError else
  let inv := invR N lap in
  let term1 i j := eexp (s i j) * inv j j in
  let term2 i j := eexp (s i j) * inv j i in
  if multi then
    (* 268-281, 301 *)
    Ok (fun i j => term1 i j - term2 i j + if Nat.eqb i j then eexp (s i i) * inv i i else 0)
  else
    (* 285-300, 301 *)
    Ok (fun i j => (if Nat.eqb j 0 then 0 else term1 i j) - (if Nat.eqb i 0 then 0 else term2 i j) + if Nat.eqb i j then eexp (s i i) * inv i 0%nat else 0).

(** ** The Laplacian as a weighted graph *)
(** arc and root weights, including the smoothing and the padding *)
Definition aw (len : option nat) (eps : R) (phi : nat -> nat -> option R) (i j : nat) : R := eexp (np_mask len phi i j) + eps.
(** spec: weight of word j as a root *)
Definition rw (len : option nat) (phi : nat -> nat -> option R) (j : nat) : R := eexp (np_mask len phi j j).
(** weight of the head choice of word j (0-based) in the tree h *)
Definition npw (multi : bool) (N : nat) (len : option nat) (eps : R) phi (h : list nat) (j : nat) : R :=
  if multi then wtr (aw len eps phi) (fun j => rw len phi j + np_off len j) h j
  else wtr1 N (aw len eps phi) (np_off len) (rw len phi) 0 h j.
(** spec: total weight of all trees, with the smoothing constant *)
Definition npZ multi N len eps phi : R := RSum (fun h => RProd (npw multi N len eps phi h) (seq 0 N)) (trees N).

Lemma RSum_filter_zero A (f : A -> R) (p : A -> bool) l : (forall x, p x = false -> f x = 0) -> RSum f l = RSum f (filter p l).
Proof.
  intro H. induction l as [|x l IH]; [reflexivity|]. cbn [filter]. rewrite RSum_cons, IH. destruct (p x) eqn:E; [rewrite RSum_cons; reflexivity|].
  rewrite H by auto. apply Rplus_0_l.
Qed.
Lemma lap_multi N len eps phi i j : np_lap true N len eps phi i j = lapR N (aw len eps phi) (fun j => rw len phi j + np_off len j) i j.
Proof.
  unfold np_lap, np_lap0, lapR. destruct (Nat.eqb_spec i j) as [<-|Hne].
  - unfold np_arc at 1. rewrite Nat.eqb_refl. rewrite (@RSum_filter_zero _ _ (fun h => negb (Nat.eqb h i))).
    + rewrite (Sum_ext_in R_csr (fun h => np_arc eps (np_mask len phi) h i) (fun h => aw len eps phi h i)).
      * unfold rw. set (X := Sum R_csr _ _). change (- 0 + (X : R) + np_off len i + eexp (np_mask len phi i i) = eexp (np_mask len phi i i) + np_off len i + (X : R)). ring.
      * intros h Hh. apply filter_In in Hh as [_ Hh]. unfold np_arc. destruct (Nat.eqb h i); [discriminate|reflexivity].
    + intros h Hh. unfold np_arc. destruct (Nat.eqb h i); [reflexivity|discriminate].
  - unfold np_arc. destruct (Nat.eqb_spec i j); [contradiction|]. unfold aw. ring.
Qed.
Lemma lap_single N len eps phi i j : np_lap false N len eps phi i j = lapR1 N (aw len eps phi) (np_off len) (rw len phi) 0 i j.
Proof.
  unfold np_lap, lapR1. destruct (Nat.eqb i 0); [reflexivity|].
  unfold np_lap0, lapR. destruct (Nat.eqb_spec i j) as [<-|Hne].
  - unfold np_arc at 1. rewrite Nat.eqb_refl. rewrite (@RSum_filter_zero _ _ (fun h => negb (Nat.eqb h i))).
    + rewrite (Sum_ext_in R_csr (fun h => np_arc eps (np_mask len phi) h i) (fun h => aw len eps phi h i)).
      * set (X := Sum R_csr _ _). change (- 0 + (X : R) + np_off len i = np_off len i + (X : R)). ring.
      * intros h Hh. apply filter_In in Hh as [_ Hh]. unfold np_arc. destruct (Nat.eqb h i); [discriminate|reflexivity].
    + intros h Hh. unfold np_arc. destruct (Nat.eqb h i); [reflexivity|discriminate].
  - unfold np_arc. destruct (Nat.eqb_spec i j); [contradiction|]. unfold aw. ring.
Qed.
Lemma det_npZ multi N len eps phi : (multi = false -> (1 <= N)%nat) -> detR N (np_lap multi N len eps phi) = npZ multi N len eps phi.
Proof.
  intro H. destruct multi.
  - rewrite (@detR_ext N _ _ (fun i j _ _ => lap_multi N len eps phi i j)). apply detR_lap.
  - rewrite (@detR_ext N _ _ (fun i j _ _ => lap_single N len eps phi i j)). apply detR_lap1. specialize (H eq_refl). lia.
Qed.

(** ** The output of deptree_nonproj *)
Definition usesb (multi : bool) (N i j : nat) (t : list nat) : bool :=
  if Nat.eqb i j then Nat.eqb (nth j t 0%nat) 0 && (multi || Nat.eqb (S j) (top N t 1)) else Nat.eqb (nth j t 0%nat) (S i).
(** spec: total weight of the trees that use an arc, without its own factor *)
Definition npT multi N len eps phi i j : R :=
  RSum (fun t => RProd (npw multi N len eps phi t) (others N j)) (filter (usesb multi N i j) (trees N)).
Lemma nonproj_spec multi N len eps phi : (multi = false -> (1 <= N)%nat) -> npZ multi N len eps phi <> 0 ->
  exists M, deptree_nonproj multi N len eps phi = Ok M /\ forall i j, (i < N)%nat -> (j < N)%nat ->
    npZ multi N len eps phi * M i j = eexp (np_mask len phi i j) * npT multi N len eps phi i j.
Proof.
  intros HN HZ. unfold deptree_nonproj. replace (negb multi && Nat.eqb N 0) with false by (destruct multi; [reflexivity|specialize (HN eq_refl); destruct N; [lia|reflexivity]]).
  rewrite det_npZ by auto. destruct (Req_EM_T _ 0) as [E|_]; [contradiction|].
  rewrite <- (@det_npZ multi N len eps phi HN) in *. destruct multi.
  - eexists; split; [reflexivity|]. intros i j Hi Hj. cbv beta.
    rewrite (@detR_ext N _ _ (fun i j _ _ => lap_multi N len eps phi i j)) in *. rewrite !(@invR_ext N _ _ _ _ (fun i j _ _ => lap_multi N len eps phi i j)).
    set (L := lapR N _ _) in *. unfold npT, usesb. destruct (Nat.eqb_spec i j) as [->|Hne].
    + rewrite <- (Rmult_comm (RSum _ _)). cbn [orb]. etransitivity; [|apply Rmult_comm].
      transitivity (eexp (np_mask len phi j j) * (detR N L * invR N L j j)); [ring|]. f_equal. unfold L. rewrite invR_root by auto.
      f_equal. apply filter_ext. intro t. now rewrite andb_true_r.
    + transitivity (eexp (np_mask len phi i j) * (detR N L * (invR N L j j - invR N L j i))); [ring|]. f_equal. unfold L. rewrite invR_arc by auto. reflexivity.
  - eexists; split; [reflexivity|]. intros i j Hi Hj. cbv beta. assert (H0 : (0 < N)%nat) by lia.
    rewrite (@detR_ext N _ _ (fun i j _ _ => lap_single N len eps phi i j)) in *. rewrite !(@invR_ext N _ _ _ _ (fun i j _ _ => lap_single N len eps phi i j)).
    set (L := lapR1 N _ _ _ 0) in *. unfold npT, usesb. destruct (Nat.eqb_spec i j) as [->|Hne].
    + transitivity (eexp (np_mask len phi j j) * (detR N L * invR N L j 0)); [destruct (Nat.eqb j 0); ring|]. f_equal. unfold L. rewrite invR1_root by auto. reflexivity.
    + transitivity (eexp (np_mask len phi i j) * (detR N L * ((if Nat.eqb j 0 then 0 else invR N L j j) - (if Nat.eqb i 0 then 0 else invR N L j i)))).
      * destruct (Nat.eqb j 0), (Nat.eqb i 0); ring.
      * f_equal. unfold L. rewrite invR1_arc by auto. reflexivity.
Qed.

(** ** Unpadded rows *)
(** the weight of word j's arc: exp(phi) + eps, exp(phi) at the root *)
Definition tw (eps : R) (phi : nat -> nat -> option R) (h : list nat) (j : nat) : R :=
  match nth j h 0%nat with O => eexp (phi j j) | S k => eexp (phi k j) + eps end.
(** spec: a tree, with one root unless several are allowed *)
Definition np_ok (multi : bool) (N : nat) (h : list nat) : Prop := is_tree N h /\ (multi = true \/ single_root h).
Lemma count_unique h : count_occ Nat.eq_dec h 0%nat = 1%nat <->
  (exists j, (j < length h)%nat /\ nth j h 0%nat = 0%nat) /\ (forall j j', (j < length h)%nat -> (j' < length h)%nat -> nth j h 0%nat = 0%nat -> nth j' h 0%nat = 0%nat -> j = j').
Proof.
  induction h as [|x h IH]; [cbn; split; [discriminate|intros ((j & Hj & _) & _); lia]|].
  destruct (Nat.eq_dec x 0) as [->|Hx].
  - rewrite count_occ_cons_eq by reflexivity. split.
    + intro H. assert (Hn : count_occ Nat.eq_dec h 0%nat = 0%nat) by lia. apply count_occ_not_In in Hn. split; [exists 0%nat; cbn; split; [lia|reflexivity]|].
      intros [|j] [|j'] Hj Hj' E E'; cbn in *; auto; exfalso; apply Hn; [rewrite <- E'|rewrite <- E|rewrite <- E]; apply nth_In; lia.
    + intros [_ U]. f_equal. apply count_occ_not_In. intro Hin. apply (In_nth _ _ 0%nat) in Hin as (j & Hj & E).
      specialize (U 0%nat (S j)). cbn in U. specialize (U ltac:(lia) ltac:(lia) eq_refl E). discriminate.
  - rewrite count_occ_cons_neq by auto. rewrite IH. split.
    + intros ((j & Hj & E) & U). split; [exists (S j); cbn; split; [lia|auto]|].
      intros [|k] [|k'] Hk Hk' A B; cbn in *; try congruence. f_equal. apply U; auto; lia.
    + intros (( [|j] & Hj & E) & U); [cbn in E; congruence|]. split; [exists j; cbn in *; split; [lia|auto]|].
      intros k k' Hk Hk' A B. specialize (U (S k) (S k') ltac:(cbn; lia) ltac:(cbn; lia) A B). lia.
Qed.
Lemma RProd_zero A (f : A -> R) l x : In x l -> f x = 0 -> RProd f l = 0.
Proof.
  intros Hx E. induction l as [|y l IH]; [destruct Hx|]. change (f y * RProd f l = 0). destruct Hx as [->|Hx]; [rewrite E; apply Rmult_0_l|].
  rewrite IH by auto. apply Rmult_0_r.
Qed.
Lemma RProd_nonneg A (f : A -> R) l : (forall x, In x l -> 0 <= f x) -> 0 <= RProd f l.
Proof.
  induction l as [|y l IH]; intro H; [cbn; lra|]. change (0 <= f y * RProd f l). apply Rmult_le_pos; [apply H; left; auto|apply IH; intros; apply H; right; auto].
Qed.
Lemma RProd_pos A (f : A -> R) l : (forall x, In x l -> 0 < f x) -> 0 < RProd f l.
Proof.
  induction l as [|y l IH]; intro H; [cbn; lra|]. change (0 < f y * RProd f l). apply Rmult_lt_0_compat; [apply H; left; auto|apply IH; intros; apply H; right; auto].
Qed.
Lemma single_top N h j : is_tree N h -> single_root h -> (j < N)%nat -> nth j h 0%nat = 0%nat -> top N h 1 = S j.
Proof.
  intros Ht Hs Hj E. assert (H0 : (0 < N)%nat) by lia. destruct (top_root Ht H0) as [j' [Hj' E' ->]]. f_equal. destruct Ht as [L _].
  apply count_unique in Hs as [_ U]. apply U; auto; lia.
Qed.
Lemma tree_enum_filter multi N : (multi = false -> (1 <= N)%nat) -> Enumerates (np_ok multi N) (filter (fun h => multi || Nat.eqb (count_occ Nat.eq_dec h 0%nat) 1) (trees N)).
Proof.
  intro H. destruct (trees_enum N) as [Hn Hi]. split; [apply NoDup_filter; auto|]. intro h. rewrite filter_In, Hi. unfold np_ok, single_root. destruct multi; cbn [orb].
  - tauto.
  - rewrite Nat.eqb_eq. split; intros [? ?]; split; auto. destruct H1; [discriminate|auto].
Qed.
Lemma npw_None multi N eps phi h : np_ok multi N h -> forall j, (j < N)%nat -> npw multi N None eps phi h j = tw eps phi h j.
Proof.
  intros [Ht Hs] j Hj. unfold npw, wtr, wtr1, tw, aw, rw. cbn [np_mask np_off]. destruct multi.
  - destruct (nth j h 0%nat); [apply Rplus_0_r|reflexivity].
  - destruct (nth j h 0%nat) eqn:E; [|reflexivity]. destruct Hs as [|Hs]; [discriminate|]. rewrite (single_top Ht Hs Hj E). now rewrite Nat.eqb_refl.
Qed.
Lemma npw_dead N eps phi h : is_tree N h -> (1 <= N)%nat -> ~ single_root h -> exists j, (j < N)%nat /\ npw false N None eps phi h j = 0 /\ nth j h 0%nat = 0%nat /\ S j <> top N h 1.
Proof.
  intros Ht HN Hs. destruct (top_root Ht HN) as [j [Hj E Et]]. pose proof Ht as [L _].
  destruct (existsb (fun k => Nat.eqb (nth k h 0%nat) 0 && negb (Nat.eqb k j)) (seq 0 N)) eqn:X.
  - apply existsb_exists in X as (k & Hk & X). apply in_seq in Hk. apply andb_prop in X as [Xa Xb]. apply Nat.eqb_eq in Xa. apply negb_true_iff, Nat.eqb_neq in Xb.
    exists k. split; [lia|]. rewrite Et. split; [|split; [auto|lia]]. unfold npw, wtr1. rewrite Xa, Et. destruct (Nat.eqb_spec (S k) (S j)); [lia|reflexivity].
  - exfalso. apply Hs. apply count_unique. split; [exists j; split; [lia|auto]|].
    assert (U : forall k, (k < N)%nat -> nth k h 0%nat = 0%nat -> k = j).
    { intros k Hk Ek. destruct (Nat.eq_dec k j) as [|Hne]; auto. exfalso. enough (false = true) by discriminate. rewrite <- X. apply existsb_exists. exists k.
      split; [apply in_seq; lia|]. rewrite Ek. cbn. apply negb_true_iff, Nat.eqb_neq. auto. }
    intros a c Ha Hc Ea Ec. rewrite (U a), (U c); auto; lia.
Qed.
Lemma filter_true A (l : list A) : filter (fun _ => true) l = l.
Proof. induction l as [|x l IH]; [reflexivity|]. cbn. now rewrite IH. Qed.
Lemma npZ_None multi N eps phi l : (multi = false -> (1 <= N)%nat) -> Enumerates (np_ok multi N) l ->
  npZ multi N None eps phi = RSum (fun h => RProd (tw eps phi h) (seq 0 N)) l.
Proof.
  intros HN He. rewrite (Sum_enum R_csr (fun h => RProd (tw eps phi h) (seq 0 N)) He (tree_enum_filter HN)).
  unfold npZ. destruct (trees_enum N) as [_ Hi].
  transitivity (RSum (fun h => RProd (npw multi N None eps phi h) (seq 0 N)) (filter (fun h => multi || Nat.eqb (count_occ Nat.eq_dec h 0%nat) 1) (trees N))).
  - destruct multi; cbn [orb]; [f_equal; symmetry; apply filter_true|].
    rewrite (RSum_split _ (fun h => Nat.eqb (count_occ Nat.eq_dec h 0%nat) 1)). rewrite <- Rplus_0_r. f_equal.
    apply (Sum_zero R_csr). intros h Hh. apply filter_In in Hh as [Hh X]. apply Hi in Hh. apply negb_true_iff, Nat.eqb_neq in X.
    destruct (npw_dead eps phi Hh (HN eq_refl) X) as (j & Hj & E & _). apply (RProd_zero _ _ j); [apply in_seq; lia|exact E].
  - apply (Sum_ext_in R_csr). intros h Hh. apply (tree_enum_filter HN) in Hh. apply (Prod_ext_in R_csr). intros j Hj. apply in_seq in Hj.
    apply npw_None; auto; lia.
Qed.
