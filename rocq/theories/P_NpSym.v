(** * P_NpSym: order of the words, shifts, convexity and smoothing of non-projective
    trees (C84). No new code is modelled: the functions are those of NonProj.v
    (deptree.py 192-302). *)
From Coq Require Import Reals Lra.
From Verif Require Import Base Ops Terms Semirings Poly Chain DepSpec DepTree Approx Grad Mask MaskGrad P_MaskGrad P_Oracle NpSpec MxR NonProj P_Sparse P_NonProj P_MaskNp.
Set Implicit Arguments.
Local Open Scope R_scope.

(** ** Renaming the words *)
(** spec: p and q are inverse permutations of the words 0 .. N-1 *)
Definition perm_words (N : nat) (p q : nat -> nat) : Prop := forall i, (i < N)%nat -> (p i < N)%nat /\ (q i < N)%nat /\ q (p i) = i /\ p (q i) = i.
(** proof device: a head after renaming; the root stays *)
Definition up (q : nat -> nat) (k : nat) : nat := match k with O => O | S k => S (q k) end.
(** proof device: the tree after renaming, word j is the old word p j *)
Definition relab (N : nat) (p q : nat -> nat) (h : list nat) : list nat := map (fun j => up q (nth (p j) h 0%nat)) (seq 0 N).
Lemma relab_nth N p q h j : (j < N)%nat -> nth j (relab N p q h) 0%nat = up q (nth (p j) h 0%nat).
Proof. intro H. unfold relab. now rewrite nth_map_seq. Qed.
Lemma relab_len N p q h : length (relab N p q h) = N.
Proof. unfold relab. now rewrite map_length, seq_length. Qed.
Lemma perm_sym N p q : perm_words N p q -> perm_words N q p.
Proof. intros H i Hi. destruct (H i Hi) as (A & B & C & D). auto. Qed.
Lemma up_le N p q k : perm_words N p q -> (k <= N)%nat -> (up q k <= N)%nat.
Proof. intros H Hk. destruct k as [|k]; cbn; [lia|]. destruct (H k ltac:(lia)) as (_ & Q & _). lia. Qed.
Lemma relab_hd N p q h k : perm_words N p q -> (k <= N)%nat -> hd_of (relab N p q h) (up q k) = up q (hd_of h k).
Proof.
  intros H Hk. destruct k as [|k]; [reflexivity|]. destruct (H k ltac:(lia)) as (_ & Q & _ & E). cbn [up hd_of]. rewrite relab_nth by auto. now rewrite E.
Qed.
Lemma relab_iter N p q h t : perm_words N p q -> is_tree N h -> forall k, (k <= N)%nat -> Nat.iter t (hd_of (relab N p q h)) (up q k) = up q (Nat.iter t (hd_of h) k).
Proof.
  intros H T. induction t as [|t IH]; intros k Hk; [reflexivity|]. rewrite !iter_shift, (relab_hd _ H Hk). apply IH.
  destruct k as [|k]; [cbn; lia|]. exact (proj1 (proj2 T (S k) ltac:(lia))).
Qed.
Lemma tree_nth N h j : is_tree N h -> (j < N)%nat -> (nth j h 0 <= N)%nat.
Proof. intros T Hj. exact (proj1 (proj2 T (S j) ltac:(lia))). Qed.
Lemma relab_ok multi N p q h : perm_words N p q -> np_ok multi N h -> np_ok multi N (relab N p q h).
Proof.
  intros H [T S]. split; [split; [apply relab_len|]|].
  - intros [|j] Hj; [lia|]. destruct (H j ltac:(lia)) as (P & _ & E & _). replace (Datatypes.S j) with (up q (Datatypes.S (p j))) by (cbn; now rewrite E). split.
    + rewrite (relab_hd _ H) by lia. apply (@up_le N p q); auto. exact (tree_nth T P).
    + destruct (proj2 (proj2 T (Datatypes.S (p j)) ltac:(lia))) as [t Et]. exists t. rewrite (relab_iter t H T) by lia. now rewrite Et.
  - destruct S as [S|S]; [auto|right]. unfold single_root in *. apply count_unique. apply count_unique in S as [(j & Hj & E) U]. rewrite relab_len. rewrite (proj1 T) in Hj, U. split.
    + destruct (H j Hj) as (_ & Q & _ & E'). exists (q j). split; auto. rewrite relab_nth, E' by auto. now rewrite E.
    + intros a b Ha Hb Ea Eb. rewrite relab_nth in Ea, Eb by auto. destruct (H a Ha) as (Pa & _ & Qa & _). destruct (H b Hb) as (Pb & _ & Qb & _).
      rewrite <- Qa, <- Qb. f_equal. apply U; auto; [destruct (nth (p a) h 0%nat)|destruct (nth (p b) h 0%nat)]; cbn in *; congruence.
Qed.
Lemma relab_inv N p q h : perm_words N p q -> is_tree N h -> relab N q p (relab N p q h) = h.
Proof.
  intros H T. apply nth_ext with (d := 0%nat) (d' := 0%nat); [rewrite relab_len; symmetry; apply T|]. rewrite relab_len. intros j Hj.
  rewrite relab_nth by auto. destruct (H j Hj) as (_ & Q & _ & E). rewrite relab_nth, E by auto. pose proof (tree_nth T Hj) as B.
  destruct (nth j h 0%nat) as [|k]; [reflexivity|]. cbn. destruct (H k ltac:(lia)) as (_ & _ & _ & E'). now rewrite E'.
Qed.
Lemma relab_perm multi N p q l : perm_words N p q -> Enumerates (np_ok multi N) l -> Permutation (map (relab N p q) l) l.
Proof.
  intros H [Hn Hi]. apply NoDup_Permutation; auto.
  - assert (Inj : forall x y, In x l -> In y l -> relab N p q x = relab N p q y -> x = y).
    { intros x y Hx Hy E. apply Hi in Hx as [Tx _]. apply Hi in Hy as [Ty _]. rewrite <- (relab_inv H Tx), <- (relab_inv H Ty). now rewrite E. }
    clear Hi. induction Hn as [|x l Hx Hn IH]; [constructor|]. cbn [map]. constructor.
    + intro Q. apply in_map_iff in Q as (y & E & Hy). apply Hx. rewrite <- (Inj y x); auto; [right; auto|left; auto].
    + apply IH. intros a b Ha Hb. apply Inj; right; auto.
  - intro h. rewrite in_map_iff. split.
    + intros (x & <- & Hx). apply Hi, relab_ok, Hi; auto.
    + intro Hh. exists (relab N q p h). apply Hi in Hh. split; [apply (relab_inv (perm_sym H)), Hh|]. apply Hi, relab_ok; auto. now apply perm_sym.
Qed.
Lemma tw_relab N p q eps phi h j : perm_words N p q -> is_tree N h -> (j < N)%nat ->
  tw eps (fun i j => phi (p i) (p j)) (relab N p q h) j = tw eps phi h (p j).
Proof.
  intros H T Hj. unfold tw. rewrite relab_nth by auto. destruct (H j Hj) as (P & _). pose proof (tree_nth T P) as B.
  destruct (nth (p j) h 0%nat) as [|k]; [reflexivity|]. cbn. destruct (H k ltac:(lia)) as (_ & _ & _ & E). now rewrite E.
Qed.
Lemma perm_inj N p q a b : perm_words N p q -> (a < N)%nat -> (b < N)%nat -> p a = p b -> a = b.
Proof. intros H Ha Hb E. destruct (H a Ha) as (_ & _ & A & _). destruct (H b Hb) as (_ & _ & B & _). congruence. Qed.
Lemma map_perm_nodup N p q l : perm_words N p q -> NoDup l -> (forall x, In x l -> (x < N)%nat) -> NoDup (map p l).
Proof.
  intros H Hn. induction Hn as [|x l Hx Hn IH]; intro B; [constructor|]. cbn [map]. constructor.
  - intro Q. apply in_map_iff in Q as (y & E & Hy). apply Hx. rewrite <- (@perm_inj N p q y x); auto; apply B; [right|left]; auto.
  - apply IH. intros y Hy. apply B. right; auto.
Qed.
Lemma perm_seq N p q : perm_words N p q -> Permutation (map p (seq 0 N)) (seq 0 N).
Proof.
  intro H. apply NoDup_Permutation; [|apply seq_NoDup|].
  - apply (@map_perm_nodup N p q); auto; [apply seq_NoDup|]. intros x Hx. apply in_seq in Hx. lia.
  - intro x. rewrite in_map_iff. split.
    + intros (y & <- & Hy). apply in_seq in Hy. destruct (H y ltac:(lia)) as (P & _). apply in_seq. lia.
    + intro Hx. apply in_seq in Hx. destruct (H x ltac:(lia)) as (_ & Q & _ & E). exists (q x). split; auto. apply in_seq. lia.
Qed.
Lemma in_others N j k : In k (others N j) <-> (k < N)%nat /\ k <> j.
Proof. unfold others. rewrite filter_In, in_seq, negb_true_iff, Nat.eqb_neq. lia. Qed.
Lemma perm_others N p q j : perm_words N p q -> (j < N)%nat -> Permutation (map p (others N j)) (others N (p j)).
Proof.
  intros H Hj. apply NoDup_Permutation.
  - apply (@map_perm_nodup N p q); auto; [apply NoDup_filter, seq_NoDup|]. intros x Hx. now apply in_others in Hx.
  - apply NoDup_filter, seq_NoDup.
  - intro x. rewrite in_map_iff, in_others. split.
    + intros (y & <- & Hy). apply in_others in Hy as [Hy Hn]. destruct (H y Hy) as (P & _). split; auto. intro E. apply Hn. exact (perm_inj H Hy Hj E).
    + intros [Hx Hn]. destruct (H x Hx) as (_ & Q & _ & E). exists (q x). split; auto. apply in_others. split; auto. intros <-. congruence.
Qed.
Lemma uses_relab N p q h i j : perm_words N p q -> is_tree N h -> (i < N)%nat -> (j < N)%nat -> uses_arc i j (relab N p q h) = uses_arc (p i) (p j) h.
Proof.
  intros H T Hi Hj. unfold uses_arc. rewrite relab_nth by auto. destruct (H j Hj) as (P & _). pose proof (tree_nth T P) as B.
  destruct (Nat.eqb_spec i j) as [->|Hn].
  - rewrite Nat.eqb_refl. destruct (nth (p j) h 0%nat); reflexivity.
  - destruct (Nat.eqb_spec (p i) (p j)) as [E|_]; [elim Hn; exact (perm_inj H Hi Hj E)|]. destruct (nth (p j) h 0%nat) as [|k]; [reflexivity|]. cbn [up Nat.eqb].
    destruct (H k ltac:(lia)) as (_ & _ & _ & E). destruct (H i Hi) as (_ & _ & E' & _). destruct (Nat.eqb_spec (q k) i), (Nat.eqb_spec k (p i)); congruence.
Qed.
Lemma Z_relab multi N p q eps phi l : perm_words N p q -> Enumerates (np_ok multi N) l ->
  RSum (fun h => RProd (tw eps (fun i j => phi (p i) (p j)) h) (seq 0 N)) l = RSum (fun h => RProd (tw eps phi h) (seq 0 N)) l.
Proof.
  intros H Hl. rewrite <- (Sum_perm R_csr _ (relab_perm H Hl)), (Sum_map R_csr). apply (Sum_ext_in R_csr). intros h Hh. apply Hl in Hh as [T _].
  rewrite <- (Prod_perm R_csr (tw eps phi h) (perm_seq H)), (Prod_map R_csr). apply (Prod_ext_in R_csr). intros j Hj. apply in_seq in Hj. apply tw_relab; auto; lia.
Qed.
Lemma np_enum multi N : exists l, Enumerates (np_ok multi N) l.
Proof.
  destruct (trees_enum N) as [Hn Hi]. exists (filter (fun h => multi || Nat.eqb (count_occ Nat.eq_dec h 0%nat) 1) (trees N)). split; [apply NoDup_filter; auto|].
  intro h. rewrite filter_In, Hi. unfold np_ok, single_root. destruct multi; cbn [orb]; [tauto|]. rewrite Nat.eqb_eq. intuition discriminate.
Qed.

(** C84: the order of the words does not matter, although the code of the single-root
    case treats row 0 of its matrix differently from the others *)
Theorem C84_word_order multi N eps phi p q : (multi = false -> (1 <= N)%nat) -> 0 <= eps -> perm_words N p q ->
  let phi' := fun i j => phi (p i) (p j) in
  deptree_part multi N None eps phi' = deptree_part multi N None eps phi /\
  match deptree_nonproj multi N None eps phi', deptree_nonproj multi N None eps phi with
  | Ok M', Ok M => forall i j, (i < N)%nat -> (j < N)%nat -> M' i j = M (p i) (p j)
  | Err e', Err e => e' = RuntimeError /\ e = RuntimeError /\ deptree_part multi N None eps phi = Ok NegInf
  | _, _ => False
  end.
Proof.
  intros HN He H phi'. destruct (np_enum multi N) as (l & Hl). pose proof (Z_relab eps phi H Hl) as EZ. fold phi' in EZ.
  rewrite !(@C11_partition multi N eps _ l HN He Hl). rewrite EZ. split; [reflexivity|].
  set (Z := RSum (fun h => RProd (tw eps phi h) (seq 0 N)) l) in *. destruct (Req_EM_T Z 0) as [E|E].
  - rewrite (np_singular eps phi HN Hl E), (np_singular eps phi' HN Hl) by (now rewrite EZ). split; [reflexivity|]. split; [reflexivity|].
    rewrite E. unfold logval. destruct (Rlt_dec 0 0); [lra|reflexivity].
  - destruct (@C12_output multi N eps phi l HN Hl E) as (M & -> & HM). destruct (@C12_output multi N eps phi' l HN Hl) as (M' & -> & HM'); [now rewrite EZ|].
    intros i j Hi Hj. destruct (H i Hi) as (Pi & _). destruct (H j Hj) as (Pj & _). specialize (HM _ _ Pi Pj). specialize (HM' _ _ Hi Hj). rewrite EZ in HM'. fold Z in HM, HM'.
    apply Rmult_eq_reg_l with Z; auto. rewrite HM, HM'. unfold phi' at 1. apply f_equal.
    rewrite <- (@RSum_filter_in _ (fun h => if uses_arc i j h then RProd (tw eps phi' h) (others N j) else 0) (fun h => RProd (tw eps phi' h) (others N j)) (uses_arc i j) l) by reflexivity.
    rewrite <- (@RSum_filter_in _ (fun h => if uses_arc (p i) (p j) h then RProd (tw eps phi h) (others N (p j)) else 0) (fun h => RProd (tw eps phi h) (others N (p j))) (uses_arc (p i) (p j)) l) by reflexivity.
    rewrite <- (Sum_perm R_csr _ (relab_perm H Hl)), (Sum_map R_csr). apply (Sum_ext_in R_csr). intros h Hh. apply Hl in Hh as [T _].
    rewrite (uses_relab H T Hi Hj). destruct (uses_arc (p i) (p j) h); [|reflexivity].
    rewrite <- (Prod_perm R_csr (tw eps phi h) (perm_others H Hj)), (Prod_map R_csr). apply (Prod_ext_in R_csr). intros k Hk. apply in_others in Hk as [Hk _]. exact (@tw_relab N p q eps phi h k H T Hk).
Qed.
Print Assumptions C84_word_order.

(** ** Adding a constant to all heads of a word *)
(** spec: the score of every possible head of word j, the root included, grows by c j *)
Definition col_shift (c : nat -> R) (phi : nat -> nat -> option R) (i j : nat) : option R := option_map (fun x => x + c j) (phi i j).
Lemma tw_shift c phi h j : tw 0 (col_shift c phi) h j = exp (c j) * tw 0 phi h j.
Proof.
  assert (E : forall i, eexp (col_shift c phi i j) = exp (c j) * eexp (phi i j)).
  { intro i. unfold col_shift. destruct (phi i j); cbn [option_map eexp]; [rewrite exp_plus|]; ring. }
  unfold tw. destruct (nth j h 0%nat); rewrite E; ring.
Qed.
Lemma prod_shift c phi h l : RProd (tw 0 (col_shift c phi) h) l = RProd (fun j => exp (c j)) l * RProd (tw 0 phi h) l.
Proof. rewrite <- RProd_mul. apply (Prod_ext R_csr). intro j. apply tw_shift. Qed.
Theorem C84_column_shift multi N phi c : (multi = false -> (1 <= N)%nat) ->
  deptree_part multi N None 0 (col_shift c phi) =
    match deptree_part multi N None 0 phi with Ok (Fin x) => Ok (Fin (x + RSum c (seq 0 N))) | r => r end /\
  match deptree_nonproj multi N None 0 (col_shift c phi), deptree_nonproj multi N None 0 phi with
  | Ok M', Ok M => forall i j, (i < N)%nat -> (j < N)%nat -> M' i j = M i j
  | Err e', Err e => e' = e
  | _, _ => False
  end.
Proof.
  intros HN. destruct (np_enum multi N) as (l & Hl). set (K := RProd (fun j => exp (c j)) (seq 0 N)).
  assert (KP : 0 < K) by (apply RProd_pos; intros; apply exp_pos).
  set (Z := RSum (fun h => RProd (tw 0 phi h) (seq 0 N)) l).
  assert (EZ : RSum (fun h => RProd (tw 0 (col_shift c phi) h) (seq 0 N)) l = K * Z).
  { unfold Z. rewrite <- RSum_scal. apply (Sum_ext R_csr). intro h. apply prod_shift. }
  assert (Z0 : 0 <= Z) by (apply RSum_nonneg; intros; apply RProd_nonneg; intros; apply tw_nonneg; lra).
  rewrite !(@C11_partition multi N 0 _ l HN (Rle_refl 0) Hl), EZ. fold Z. unfold logval. split.
  - destruct (Rlt_dec 0 Z) as [P|P].
    + destruct (Rlt_dec 0 (K * Z)) as [_|Q]; [|elim Q; now apply Rmult_lt_0_compat]. do 2 f_equal. rewrite ln_mult by auto. unfold K. rewrite <- exp_RSum, ln_exp. ring.
    + assert (Z = 0) as -> by lra. rewrite Rmult_0_r. destruct (Rlt_dec 0 0); [lra|reflexivity].
  - destruct (Req_EM_T Z 0) as [E|E].
    + rewrite (np_singular 0 phi HN Hl E), (np_singular 0 (col_shift c phi) HN Hl); [reflexivity|]. rewrite EZ, E. ring.
    + assert (E' : K * Z <> 0) by (apply Rmult_integral_contrapositive; split; lra).
      destruct (@C12_output multi N 0 phi l HN Hl E) as (M & -> & HM). destruct (@C12_output multi N 0 (col_shift c phi) l HN Hl) as (M' & -> & HM'); [now rewrite EZ|].
      intros i j Hi Hj. specialize (HM i j Hi Hj). specialize (HM' i j Hi Hj). rewrite EZ in HM'. fold Z in HM.
      apply Rmult_eq_reg_l with (K * Z); auto. rewrite HM', Rmult_assoc, HM.
      assert (Ee : eexp (col_shift c phi i j) = exp (c j) * eexp (phi i j)) by (unfold col_shift; destruct (phi i j); cbn [option_map eexp]; [rewrite exp_plus|]; ring). rewrite Ee.
      rewrite (Sum_ext R_csr _ (fun h => RProd (fun j => exp (c j)) (others N j) * RProd (tw 0 phi h) (others N j))) by (intro h; apply prod_shift).
      rewrite RSum_scal. unfold K. rewrite (RProd_others (fun j => exp (c j)) Hj).
      change (exp (c j) * eexp (phi i j) * (RProd (fun j => exp (c j)) (others N j) * RSum (fun h => RProd (tw 0 phi h) (others N j)) (filter (uses_arc i j) l)) =
        exp (c j) * RProd (fun j => exp (c j)) (others N j) * (eexp (phi i j) * RSum (fun h => RProd (tw 0 phi h) (others N j)) (filter (uses_arc i j) l))). ring.
Qed.
Print Assumptions C84_column_shift.

(** ** Convexity and order, with and without smoothing *)
(** spec: weighted geometric mean *)
Definition gm (a x y : R) : R := exp (a * ln x + (1 - a) * ln y).
Lemma gm_pos a x y : 0 < gm a x y. Proof. apply exp_pos. Qed.
Lemma exp_convex a u v : 0 <= a <= 1 -> exp (a * u + (1 - a) * v) <= a * exp u + (1 - a) * exp v.
Proof.
  intro Ha. set (m := a * u + (1 - a) * v).
  assert (T : forall w, exp m * (1 + (w - m)) <= exp w).
  { intro w. replace w with (m + (w - m)) at 2 by ring. rewrite exp_plus. apply Rmult_le_compat_l; [left; apply exp_pos|apply exp_ineq1_le]. }
  pose proof (Rmult_le_compat_l a _ _ (proj1 Ha) (T u)). assert (0 <= 1 - a) as H1 by lra. pose proof (Rmult_le_compat_l (1 - a) _ _ H1 (T v)).
  assert (a * (exp m * (1 + (u - m))) + (1 - a) * (exp m * (1 + (v - m))) = exp m) by (unfold m; ring). lra.
Qed.
Lemma gm_mean a x y : 0 <= a <= 1 -> 0 < x -> 0 < y -> gm a x y <= a * x + (1 - a) * y.
Proof. intros Ha Hx Hy. unfold gm. eapply Rle_trans; [apply exp_convex; auto|]. rewrite !exp_ln by auto. lra. Qed.
Lemma gm_mult a x y x' y' : 0 < x -> 0 < y -> 0 < x' -> 0 < y' -> gm a (x * x') (y * y') = gm a x y * gm a x' y'.
Proof. intros. unfold gm. rewrite !ln_mult by auto. rewrite <- exp_plus. f_equal. ring. Qed.
Lemma gm_id a x : 0 < x -> gm a x x = x.
Proof. intro H. unfold gm. replace (a * ln x + (1 - a) * ln x) with (ln x) by ring. now apply exp_ln. Qed.
(** Hoelder for a pair *)
Lemma gm_plus a x y x' y' : 0 <= a <= 1 -> 0 < x -> 0 < y -> 0 < x' -> 0 < y' -> gm a x y + gm a x' y' <= gm a (x + x') (y + y').
Proof.
  intros Ha Hx Hy Hx' Hy'. set (X := x + x'). set (Y := y + y'). assert (PX : 0 < X) by (unfold X; lra). assert (PY : 0 < Y) by (unfold Y; lra).
  assert (D : forall u v, 0 < u -> 0 < v -> gm a u v <= gm a X Y * (a * (u / X) + (1 - a) * (v / Y))).
  { intros u v Hu Hv. assert (0 < u / X) by (apply Rdiv_lt_0_compat; auto). assert (0 < v / Y) by (apply Rdiv_lt_0_compat; auto).
    replace u with (X * (u / X)) at 1 by (field; lra). replace v with (Y * (v / Y)) at 1 by (field; lra). rewrite gm_mult by auto.
    apply Rmult_le_compat_l; [left; apply gm_pos|]. now apply gm_mean. }
  eapply Rle_trans; [apply Rplus_le_compat; [apply (D x y)|apply (D x' y')]; auto|]. right.
  assert (E : a * (x / X) + (1 - a) * (y / Y) + (a * (x' / X) + (1 - a) * (y' / Y)) = 1) by (unfold X, Y in *; field; lra).
  rewrite <- Rmult_plus_distr_l, E. ring.
Qed.
Lemma gm_sum A a (f g : A -> R) l : 0 <= a <= 1 -> l <> [] -> (forall s, In s l -> 0 < f s /\ 0 < g s) -> RSum (fun s => gm a (f s) (g s)) l <= gm a (RSum f l) (RSum g l).
Proof.
  intros Ha. induction l as [|x [|y l] IH]; intros Hn H; [congruence| |].
  - rewrite !RSum_cons. change (RSum f []) with 0. change (RSum g []) with 0. change (gm a (f x) (g x) + 0 <= gm a (f x + 0) (g x + 0)). rewrite !Rplus_0_r. apply Rle_refl.
  - rewrite (RSum_cons _ x), (RSum_cons f x), (RSum_cons g x). assert (P : forall k : A -> R, (forall s, In s (x :: y :: l) -> 0 < k s) -> 0 < RSum k (y :: l)).
    { intros k Hk. apply Rlt_le_trans with (k y); [apply Hk; right; left; auto|]. apply RSum_single; [left; auto|]. intros s Hs. left. apply Hk. right; auto. }
    eapply Rle_trans; [apply Rplus_le_compat_l, IH; [discriminate|intros; apply H; right; auto]|].
    destruct (H x (or_introl eq_refl)). apply gm_plus; auto; apply P; intros s Hs; apply H; auto.
Qed.
Lemma gm_prod A a (f g : A -> R) l : (forall s, In s l -> 0 < f s /\ 0 < g s) -> RProd (fun s => gm a (f s) (g s)) l = gm a (RProd f l) (RProd g l).
Proof.
  induction l as [|x l IH]; intro H.
  - change (1 = gm a 1 1). now rewrite gm_id by lra.
  - change (gm a (f x) (g x) * RProd (fun s => gm a (f s) (g s)) l = gm a (f x * RProd f l) (g x * RProd g l)). destruct (H x (or_introl eq_refl)).
    rewrite IH by (intros; apply H; right; auto). symmetry. apply gm_mult; auto; apply RProd_pos; intros; apply H; right; auto.
Qed.
Lemma tw_somes_pos eps pr h j : 0 <= eps -> 0 < tw eps (somes pr) h j.
Proof. intro He. unfold tw, somes, eexp. pose proof (exp_pos (pr j j)). destruct (nth j h 0%nat) as [|k]; auto. pose proof (exp_pos (pr k j)). lra. Qed.
Lemma np_part multi N eps pr l : (1 <= N)%nat -> 0 <= eps -> Enumerates (np_ok multi N) l ->
  let Z := RSum (fun h => RProd (tw eps (somes pr) h) (seq 0 N)) l in 0 < Z /\ deptree_part multi N None eps (somes pr) = Ok (Fin (ln Z)).
Proof.
  intros HN He Hl Z. assert (P : 0 < Z).
  { apply Rlt_le_trans with (RProd (tw eps (somes pr) (hub N 0)) (seq 0 N)); [apply RProd_pos; intros; apply tw_somes_pos; auto|].
    apply (RSum_single (fun h => RProd (tw eps (somes pr) h) (seq 0 N))); [apply Hl, hub_ok; lia|]. intros y _. apply RProd_nonneg. intros. apply tw_nonneg. lra. }
  split; auto. rewrite (@C11_partition multi N eps _ l ltac:(auto) He Hl). fold Z. unfold logval. destruct (Rlt_dec 0 Z); [reflexivity|contradiction].
Qed.
Lemma ln_le x y : 0 < x -> x <= y -> ln x <= ln y.
Proof. intros H [K| ->]; [left; now apply ln_increasing|lra]. Qed.
Theorem C84_convex multi N eps pr pr' a : (1 <= N)%nat -> 0 <= eps -> 0 <= a <= 1 -> exists x y z,
  deptree_part multi N None eps (somes pr) = Ok (Fin x) /\ deptree_part multi N None eps (somes pr') = Ok (Fin y) /\
  deptree_part multi N None eps (somes (fun i j => a * pr i j + (1 - a) * pr' i j)) = Ok (Fin z) /\ z <= a * x + (1 - a) * y.
Proof.
  intros HN He Ha. destruct (np_enum multi N) as (l & Hl). destruct (@np_part multi N eps pr l HN He Hl) as (P1 & E1). destruct (@np_part multi N eps pr' l HN He Hl) as (P2 & E2).
  destruct (@np_part multi N eps (fun i j => a * pr i j + (1 - a) * pr' i j) l HN He Hl) as (P3 & E3). do 3 eexists. split; [exact E1|]. split; [exact E2|]. split; [exact E3|].
  set (Z1 := RSum (fun h => RProd (tw eps (somes pr) h) (seq 0 N)) l) in *. set (Z2 := RSum (fun h => RProd (tw eps (somes pr') h) (seq 0 N)) l) in *.
  match goal with |- ln ?Z <= _ => apply Rle_trans with (ln (gm a Z1 Z2)); [|unfold gm; rewrite ln_exp; apply Rle_refl]; apply ln_le; auto end.
  assert (Ne : l <> []) by (intros ->; apply (proj2 Hl (hub N 0)); apply hub_ok; lia).
  eapply Rle_trans; [|apply gm_sum; auto; intros h _; split; apply RProd_pos; intros; apply tw_somes_pos; auto].
  apply RSum_le. intros h _. rewrite <- gm_prod by (intros; split; apply tw_somes_pos; auto). apply RProd_le. intros j _. split; [left; now apply tw_somes_pos|].
  assert (Em : forall i, exp (a * pr i j + (1 - a) * pr' i j) = gm a (exp (pr i j)) (exp (pr' i j))) by (intro i; unfold gm; now rewrite !ln_exp).
  unfold tw, somes, eexp. destruct (nth j h 0%nat) as [|k]; rewrite Em; [apply Rle_refl|]. destruct (Rle_lt_or_eq_dec 0 eps He) as [Pe|<-].
  - rewrite <- (@gm_id a eps Pe) at 1. apply gm_plus; auto using exp_pos.
  - rewrite !Rplus_0_r. apply Rle_refl.
Qed.
Print Assumptions C84_convex.
Theorem C84_monotone multi N eps eps' pr pr' : (1 <= N)%nat -> 0 <= eps <= eps' -> (forall i j, (i < N)%nat -> (j < N)%nat -> pr i j <= pr' i j) -> exists x y,
  deptree_part multi N None eps (somes pr) = Ok (Fin x) /\ deptree_part multi N None eps' (somes pr') = Ok (Fin y) /\ x <= y.
Proof.
  intros HN He Hle. destruct (np_enum multi N) as (l & Hl). destruct (@np_part multi N eps pr l HN ltac:(lra) Hl) as (P1 & E1). destruct (@np_part multi N eps' pr' l HN ltac:(lra) Hl) as (P2 & E2).
  do 2 eexists. split; [exact E1|]. split; [exact E2|]. apply ln_le; auto. apply RSum_le. intros h Hh. apply Hl in Hh as [T _].
  apply RProd_le. intros j Hj. apply in_seq in Hj. split; [apply tw_nonneg; lra|].
  assert (X : forall i, (i < N)%nat -> exp (pr i j) <= exp (pr' i j)) by (intros i Hi; destruct (Hle i j Hi ltac:(lia)) as [Q| ->]; [left; now apply exp_increasing|apply Rle_refl]).
  pose proof (@tree_nth N h j T ltac:(lia)) as B. unfold tw, somes, eexp. destruct (nth j h 0%nat) as [|k]; [apply X; lia|]. specialize (X k ltac:(lia)). lra.
Qed.
Print Assumptions C84_monotone.

(** ** How far the smoothing moves the answers *)
Lemma RProd_ratio A (f g : A -> R) (c : R) l : (forall x, In x l -> 0 <= f x <= c * g x) -> (forall x, In x l -> 0 <= g x) -> RProd f l <= c ^ length l * RProd g l.
Proof.
  intros H G. eapply Rle_trans; [apply RProd_le; exact H|]. right. rewrite (RProd_mul (fun _ => c) g). now rewrite RProd_const.
Qed.
Lemma others_len N j : (j < N)%nat -> length (others N j) = (N - 1)%nat.
Proof.
  intro Hj. assert (P : Permutation (seq 0 N) (j :: others N j)).
  { apply NoDup_Permutation; [apply seq_NoDup| |].
    - constructor; [rewrite in_others; tauto|apply NoDup_filter, seq_NoDup].
    - intro k. cbn [In]. rewrite in_others, in_seq. lia. }
  apply Permutation_length in P. rewrite seq_length in P. cbn in P. lia.
Qed.
Theorem C84_smoothing multi N eps pr m : (1 <= N)%nat -> 0 <= eps -> (forall i j, (i < N)%nat -> (j < N)%nat -> i <> j -> m <= pr i j) ->
  let d := eps * exp (- m) in exists x y M M',
  deptree_part multi N None 0 (somes pr) = Ok (Fin x) /\ deptree_part multi N None eps (somes pr) = Ok (Fin y) /\
  deptree_nonproj multi N None 0 (somes pr) = Ok M /\ deptree_nonproj multi N None eps (somes pr) = Ok M' /\
  x <= y <= x + INR (N - 1) * ln (1 + d) /\
  forall i j, (i < N)%nat -> (j < N)%nat -> M i j <= (1 + d) ^ (N - 1) * M' i j /\ M' i j <= (1 + d) ^ (N - 1) * M i j.
Proof.
  intros HN He Hm d. assert (Hd : 0 <= d) by (apply Rmult_le_pos; [auto|left; apply exp_pos]).
  assert (D1 : 0 < (1 + d) ^ (N - 1)) by (apply pow_lt; lra).
  destruct (np_enum multi N) as (l & Hl). destruct (@np_part multi N 0 pr l HN (Rle_refl 0) Hl) as (P1 & E1). destruct (@np_part multi N eps pr l HN He Hl) as (P2 & E2).
  set (Z := RSum (fun h => RProd (tw 0 (somes pr) h) (seq 0 N)) l) in *. set (Z' := RSum (fun h => RProd (tw eps (somes pr) h) (seq 0 N)) l) in *.
  destruct (@C12_output multi N 0 (somes pr) l ltac:(auto) Hl) as (M & E3 & H3); [fold Z; lra|]. destruct (@C12_output multi N eps (somes pr) l ltac:(auto) Hl) as (M' & E4 & H4); [fold Z'; lra|].
  fold Z in H3. fold Z' in H4. exists (ln Z), (ln Z'), M, M'. do 4 (split; [assumption|]).
  assert (Lo : forall h j, tw 0 (somes pr) h j <= tw eps (somes pr) h j) by (intros h j; unfold tw; destruct (nth j h 0%nat); lra).
  assert (Hi : forall h j, is_tree N h -> (j < N)%nat -> tw eps (somes pr) h j <= (1 + d) * tw 0 (somes pr) h j).
  { intros h j T Hj. pose proof (tree_nth T Hj) as B. pose proof (tree_noself T Hj) as NS. unfold tw, somes, eexp. destruct (nth j h 0%nat) as [|k].
    - pose proof (Rmult_le_pos d _ Hd (Rlt_le _ _ (exp_pos (pr j j)))). lra.
    - specialize (Hm k j ltac:(lia) Hj ltac:(congruence)).
      assert (Q : eps <= d * exp (pr k j)).
      { unfold d. rewrite Rmult_assoc, <- exp_plus. rewrite <- (Rmult_1_r eps) at 1. apply Rmult_le_compat_l; auto. rewrite <- exp_0.
        destruct (Rle_lt_or_eq_dec m (pr k j) Hm) as [Q|<-]; [left; apply exp_increasing; lra|right; f_equal; ring]. }
      lra. }
  assert (PLo : forall h ks, RProd (tw 0 (somes pr) h) ks <= RProd (tw eps (somes pr) h) ks) by (intros h ks; apply RProd_le; intros j _; split; [apply tw_nonneg; lra|apply Lo]).
  assert (PHi : forall h j, is_tree N h -> (j < N)%nat -> RProd (tw eps (somes pr) h) (others N j) <= (1 + d) ^ (N - 1) * RProd (tw 0 (somes pr) h) (others N j)).
  { intros h j T Hj. rewrite <- (others_len Hj). apply RProd_ratio; intros k Hk; apply in_others in Hk as [Hk _]; [split; [now apply tw_nonneg|now apply Hi]|apply tw_nonneg; lra]. }
  assert (ZLo : Z <= Z') by (apply RSum_le; intros; apply PLo).
  assert (ZHi : Z' <= (1 + d) ^ (N - 1) * Z).
  { unfold Z, Z'. rewrite <- RSum_scal. apply RSum_le. intros h Hh. apply Hl in Hh as [T _]. destruct (tree_root HN T) as (j & Hj & Ej).
    rewrite !(RProd_others _ Hj). assert (Et : tw eps (somes pr) h j = tw 0 (somes pr) h j) by (unfold tw; now rewrite Ej). rewrite Et.
    eapply Rle_trans; [apply Rmult_le_compat_l; [apply tw_nonneg; lra|apply (PHi h j T Hj)]|]. right.
    change (tw 0 (somes pr) h j * ((1 + d) ^ (N - 1) * RProd (tw 0 (somes pr) h) (others N j)) = (1 + d) ^ (N - 1) * (tw 0 (somes pr) h j * RProd (tw 0 (somes pr) h) (others N j))). ring. }
  split; [split|].
  - now apply ln_le.
  - eapply Rle_trans; [apply ln_le; [exact P2|exact ZHi]|]. rewrite ln_mult by auto. rewrite ln_pow by lra. lra.
  - intros i j Hii Hj. specialize (H3 i j Hii Hj). specialize (H4 i j Hii Hj).
    set (T := RSum (fun h => RProd (tw 0 (somes pr) h) (others N j)) (filter (uses_arc i j) l)) in *. set (T' := RSum (fun h => RProd (tw eps (somes pr) h) (others N j)) (filter (uses_arc i j) l)) in *.
    assert (T0 : 0 <= T) by (apply RSum_nonneg; intros; apply RProd_nonneg; intros; apply tw_nonneg; lra).
    assert (TLo : T <= T') by (apply RSum_le; intros; apply PLo).
    assert (THi : T' <= (1 + d) ^ (N - 1) * T).
    { unfold T, T'. rewrite <- RSum_scal. apply RSum_le. intros h Hh. apply filter_In in Hh as [Hh _]. apply Hl in Hh as [Tr _]. now apply PHi. }
    cbn [somes eexp] in H3, H4. set (w := exp (pr i j)) in *. assert (W : 0 < w) by apply exp_pos. set (C := (1 + d) ^ (N - 1)) in *.
    assert (EM : M i j = w * T / Z) by (apply Rmult_eq_reg_l with Z; [|lra]; rewrite H3; unfold Rdiv; change (w * (T : R) = (Z : R) * (w * (T : R) * / (Z : R))); field; lra).
    assert (EM' : M' i j = w * T' / Z') by (apply Rmult_eq_reg_l with Z'; [|lra]; rewrite H4; unfold Rdiv; change (w * (T' : R) = (Z' : R) * (w * (T' : R) * / (Z' : R))); field; lra).
    clearbody Z Z' T T' C w. rewrite EM, EM'. clear - P1 P2 D1 ZLo ZHi T0 TLo THi W. split.
    + apply Rmult_le_reg_l with (Z * Z'); [now apply Rmult_lt_0_compat|]. replace (Z * Z' * (w * T / Z)) with (w * (Z' * T)) by (field; lra). replace (Z * Z' * (C * (w * T' / Z'))) with (w * ((C * Z) * T')) by (field; lra).
      apply Rmult_le_compat_l; [lra|]. apply Rmult_le_compat; lra.
    + apply Rmult_le_reg_l with (Z * Z'); [now apply Rmult_lt_0_compat|]. replace (Z * Z' * (w * T' / Z')) with (w * (Z * T')) by (field; lra). replace (Z * Z' * (C * (w * T / Z))) with (w * (Z' * (C * T))) by (field; lra).
      apply Rmult_le_compat_l; [lra|]. apply Rmult_le_compat; lra.
Qed.
Print Assumptions C84_smoothing.

(** with smoothing a shift of one column does change the probabilities *)
Lemma two_words : Enumerates (np_ok false 2) [[0;1];[2;0]]%nat.
Proof.
  split; [repeat (constructor; [cbn; intuition discriminate|]); constructor|]. intro h.
  assert (T : forall h, length h = 2%nat -> (forall k, (1 <= k <= 2)%nat -> (hd_of h k <= 2)%nat /\ Nat.iter 2 (hd_of h) k = 0%nat) -> is_tree 2 h).
  { intros h0 L H0. split; auto. intros k Hk. destruct (H0 k Hk). split; auto. exists 2%nat; auto. }
  split.
  - intro H. repeat (destruct H as [<-|H]; [split; [apply T; [reflexivity|]; intros k Hk; destruct k as [|[|[|k]]]; try lia; cbn; split; lia|right; reflexivity]|]). destruct H.
  - intros [Ht Hs]. assert (Hs' : single_root h) by (destruct Hs; [discriminate|auto]). pose proof Ht as [L Hk].
    pose proof (@tree_noself 2 h 0 Ht ltac:(lia)) as N0. pose proof (@tree_noself 2 h 1 Ht ltac:(lia)) as N1.
    pose proof (proj1 (Hk 1%nat ltac:(lia))) as B0. pose proof (proj1 (Hk 2%nat ltac:(lia))) as B1.
    destruct h as [|a [|d [|? ?]]]; try discriminate. cbn in N0, N1, B0, B1. unfold single_root in Hs'.
    assert (Ha : a = 0%nat \/ a = 2%nat) by lia. assert (Hd : d = 0%nat \/ d = 1%nat) by lia.
    destruct Ha as [-> | ->], Hd as [-> | ->]; cbn in Hs'; try discriminate; cbn; auto.
Qed.
Lemma two_marg eps pr : 0 <= eps -> exists M, deptree_nonproj false 2 None eps (somes pr) = Ok M /\
  (exp (pr 0%nat 0%nat) * (exp (pr 0%nat 1%nat) + eps) + (exp (pr 1%nat 0%nat) + eps) * exp (pr 1%nat 1%nat)) * M 0%nat 1%nat = exp (pr 0%nat 1%nat) * exp (pr 0%nat 0%nat).
Proof.
  intro He. pose proof (exp_pos (pr 0%nat 0%nat)). pose proof (exp_pos (pr 0%nat 1%nat)). pose proof (exp_pos (pr 1%nat 0%nat)). pose proof (exp_pos (pr 1%nat 1%nat)).
  destruct (@C12_output false 2 eps (somes pr) _ ltac:(lia) two_words) as (M & E & HM).
  - apply Rgt_not_eq. exact (proj1 (@np_part false 2 eps pr _ ltac:(lia) He two_words)).
  - exists M. split; auto. specialize (HM 0%nat 1%nat ltac:(lia) ltac:(lia)). cbn in HM. rewrite ?Rmult_1_r, ?Rplus_0_r in HM. exact HM.
Qed.
Theorem C84_column_shift_refuted : exists N phi c M M',
  deptree_nonproj false N None (/ 100000) phi = Ok M /\ deptree_nonproj false N None (/ 100000) (col_shift c phi) = Ok M' /\
  (exists i j, (i < N)%nat /\ (j < N)%nat /\ M i j <> M' i j).
Proof.
  set (c := fun j => if Nat.eqb j 1 then 1 else 0).
  destruct (@two_marg (/ 100000) (fun _ _ => 0) ltac:(lra)) as (M & E & H). destruct (@two_marg (/ 100000) (fun _ j => 0 + c j) ltac:(lra)) as (M' & E' & H').
  exists 2%nat, (somes (fun _ _ => 0)), c, M, M'. split; auto. split; [exact E'|]. exists 0%nat, 1%nat. split; [lia|]. split; [lia|]. intro Q. rewrite <- Q in H'.
  cbn in H'. rewrite !Rplus_0_l, !exp_0 in *. pose proof (exp_ineq1 1 ltac:(lra)) as X. set (e := exp 1) in *. clearbody e. set (m := M 0%nat 1%nat) in *. clearbody m.
  assert (F : e * ((1 * (1 + / 100000) + (1 + / 100000) * 1) * m) = e * (1 * 1)) by now rewrite H.
  assert (G : (e - 1) * m = 0) by lra. apply Rmult_integral in G as [G|G]; [lra|]. rewrite G in H. lra.
Qed.
Print Assumptions C84_column_shift_refuted.

(** instances: three words in reverse order; scores of at least 0 and the default
    smoothing move a probability by less than a factor of 1.0001 *)
Example ex_C84_order : perm_words 3 (fun i => 2 - i)%nat (fun i => 2 - i)%nat.
Proof. intros i Hi. lia. Qed.
Example ex_C84_smoothing : exists M M', deptree_nonproj false 3 None 0 (somes (fun i j => INR (i * j))) = Ok M /\ deptree_nonproj false 3 None (/ 100000) (somes (fun i j => INR (i * j))) = Ok M' /\
  M 1%nat 2%nat <= 1.0001 * M' 1%nat 2%nat /\ M' 1%nat 2%nat <= 1.0001 * M 1%nat 2%nat.
Proof.
  destruct (@C84_smoothing false 3 (/ 100000) (fun i j => INR (i * j)) 0 ltac:(lia) ltac:(lra)) as (x & y & M & M' & _ & _ & E3 & E4 & _ & H); [intros; apply pos_INR|].
  exists M, M'. split; auto. split; auto. destruct (H 1%nat 2%nat ltac:(lia) ltac:(lia)) as [H1 H2]. rewrite Ropp_0, exp_0 in H1, H2. cbn [Nat.sub pow] in H1, H2.
  destruct (np_enum false 3) as (l & Hl). destruct (@C83_smoothed_marginals false 3 (/ 100000) _ l M' ltac:(lia) ltac:(lra) Hl E4) as (_ & P & _).
  specialize (P 1%nat 2%nat ltac:(lia) ltac:(lia)). split; lra.
Qed.
