(** * Properties of the semiring classes and of matrix products (C25-C28). *)
From Coq Require Import Sorted.
From Verif Require Import Base Ops Terms Semirings Poly Chain LinearChain SemiMarkov CkyCrf Cky DepSpec DepTree
  Batch Family Approx Grad Sample Dist Purity Degree Shape Api Query KMax Laws Tensor LcMax P_Real.
Set Implicit Arguments.
Local Open Scope R_scope.

(** The semiring classes: semirings.py:119 StdSemiring, 138 LogSemiring, 153
    MaxSemiring, 177 KMaxSemiring(k), 357 EntropySemiring, 303
    CrossEntropySemiring, 240 KLDivergenceSemiring. *)
Inductive cls := Std | Log | Max | KMax (k : nat) | Entropy | CrossEntropy | KL.
(** the operations of each class (semirings.py:119-403) *)
Definition class_ops (c : cls) : ops :=
  match c with
  | Std => std_ops
  | Log => log_ops NEG
  | Max => max_ops NEG
  | KMax k => kmax_ops k NEG
  | Entropy => ent_ops NEG
  | CrossEntropy => ce_ops NEG
  | KL => kl_ops NEG
  end.
(** every cell content is a value, except that a KMax cell holds k numbers in
    decreasing order (what [topk] returns) *)
Definition value (c : cls) : car (class_ops c) -> Prop :=
  match c with KMax k => kvec k | _ => fun _ => True end.
(** KMaxSemiring(k) needs k at least 1 (semirings.py:177-183) *)
Definition exists_class (c : cls) : Prop := match c with KMax k => (1 <= k)%nat | _ => True end.

(** C25: sum is order independent and associative, mul associative and
    commutative, and mul distributes over sum. *)
Theorem C25_semiring_laws c : exists_class c ->
  let O := class_ops c in let P := value c in
  (forall l l', l <> [] -> Forall P l -> Permutation l l' -> ssum O l = ssum O l') /\
  (forall ls, ls <> [] -> Forall (fun l => l <> [] /\ Forall P l) ls -> ssum O (map (ssum O) ls) = ssum O (concat ls)) /\
  (forall a, P a -> ssum O [a] = a) /\
  (forall a b, P a -> P b -> smul O a b = smul O b a) /\
  (forall a b d, P a -> P b -> P d -> smul O a (smul O b d) = smul O (smul O a b) d) /\
  (forall a l, l <> [] -> P a -> Forall P l -> smul O a (ssum O l) = ssum O (map (smul O a) l)) /\
  (forall l, l <> [] -> Forall P l -> P (ssum O l)) /\ (forall a b, P a -> P b -> P (smul O a b)) /\ P (sone O).
Proof.
  intros Hc O P.
  assert (L : lawful O P).
  { destruct c; [apply std_lawful|apply log_lawful|apply max_lawful|apply kmax_lawful, Hc|apply ent_lawful|apply ce_lawful|apply kl_lawful]. }
  assert (P (sone O)).
  { destruct c; try exact I. cbn in *. split.
    - apply desc_cons_repeat. unfold NEG. lra.
    - cbn [length]. rewrite repeat_length. lia. }
  destruct L. repeat (split; [assumption|]). assumption.
Qed.
Print Assumptions C25_semiring_laws.

(** C25: [one] is a unit of mul in every class except KMax(k), ... *)
Theorem C25_unit c a : (forall k, c <> KMax k) ->
  smul (class_ops c) a (sone (class_ops c)) = a /\ smul (class_ops c) (sone (class_ops c)) a = a.
Proof.
  intro H. destruct c; [..|exfalso; eapply H; reflexivity| | |]; cbn in *.
  - split; ring.
  - split; ring.
  - split; ring.
  - destruct a as [x y]. cbn. split; f_equal; ring.
  - destruct a as [[x y] w]. unfold mul3, p_, q_, d_. cbn. split; repeat f_equal; ring.
  - destruct a as [[x y] w]. unfold mul3, p_, q_, d_. cbn. split; repeat f_equal; ring.
Qed.
Print Assumptions C25_unit.

(** ... where it is one exactly for the cells whose entries spread at most 1e5. *)
Theorem C25_kmax_unit k a : (1 <= k)%nat -> value (KMax k) a ->
  smul (class_ops (KMax k)) a (sone (class_ops (KMax k))) = a <-> nth 0 a 0 - nth (k - 1) a 0 <= 100000.
Proof.
  intros Hk Ha. destruct (Nat.eq_dec k 1) as [->|Hk1].
  - destruct Ha as [_ Ha]. destruct a as [|x [|y a]]; try discriminate Ha. cbn.
    split; intro H; [lra|]. unfold topk. cbn. f_equal. ring.
  - pose proof (@kmax_unit k NEG a ltac:(lia) ltac:(unfold NEG; lra) Ha) as H. cbn in *. rewrite H.
    unfold NEG. split; intro; lra.
Qed.
Print Assumptions C25_kmax_unit.
(** it really fails on converted potentials: with k = 2, the cell of a potential 1 *)
Theorem C25_kmax_unit_refuted : exists a, value (KMax 2) a /\ a = kmax_convert 2 NEG 1 /\
  smul (class_ops (KMax 2)) a (sone (class_ops (KMax 2))) <> a.
Proof.
  exists (kmax_convert 2 NEG 1). assert (V : value (KMax 2) (kmax_convert 2 NEG 1)).
  { split; [apply desc_cons_repeat; unfold NEG; lra|reflexivity]. }
  split; [auto|]. split; [auto|]. intro H. apply (C25_kmax_unit (k := 2)) in H; auto.
  cbn in H. unfold NEG in H. lra.
Qed.

(** a concrete case: three 2-best cells *)
Example ex_laws : exists_class (KMax 2) /\ Forall (value (KMax 2)) [[3; 1]; [2; 2]; [0; -5]] /\ 3 - 1 <= 100000.
Proof.
  assert (forall x y, y <= x -> kvec 2 [x; y]) by (intros x y H; split; [exact (@desc_cons_repeat 1 x y H)|reflexivity]).
  split; [cbn; lia|]. split; [|lra]. constructor; [apply H; lra|]. constructor; [apply H; lra|]. constructor; [apply H; lra|constructor].
Qed.

(** C27: one product. Batch dimensions [sa] and [sb] broadcast to [sc]. *)
Theorem C27_matmul c (a b : tensor (car (class_ops c))) sa sb sc I D J :
  shape a = sa ++ [I; D] -> shape b = sb ++ [D; J] -> bshape sa sb = Some sc ->
  exists r, tmatmul (class_ops c) a b = Ok r /\ shape r = sc ++ [I; J] /\
  forall beta i j, inr sc beta -> (i < I)%nat -> (j < J)%nat ->
    dat r (beta ++ [i; j]) =
    ssum (class_ops c) (map (fun k => smul (class_ops c) (dat a (bidx sa beta ++ [i; k])) (dat b (bidx sb beta ++ [k; j]))) (seq 0 D)).
Proof. apply tmatmul_spec. Qed.
Print Assumptions C27_matmul.

(** C27: [dot] is the sum of the products along the last dimension *)
Theorem C27_dot c (a b : tensor (car (class_ops c))) sa sb sc D :
  shape a = sa ++ [D] -> shape b = sb ++ [D] -> bshape sa sb = Some sc ->
  exists r, tdot (class_ops c) a b = Ok r /\ shape r = sc /\
  forall beta, inr sc beta ->
    dat r beta =
    ssum (class_ops c) (map (fun k => smul (class_ops c) (dat a (bidx sa beta ++ [k])) (dat b (bidx sb beta ++ [k]))) (seq 0 D)).
Proof. apply tdot_spec. Qed.
Print Assumptions C27_dot.

(** C27: a product of matrices of any (positive) sizes, bracketed in any way, is
    the sum over all choices of the inner indices of the product of the entries;
    so two bracketings of the same factors agree. *)
Theorem C27_any_bracketing c (b b' : bracket (class_ops c)) : exists_class c ->
  (forall i j, value c (fst (factors b) i j)) ->
  Forall (fun x => (0 < fst x)%nat /\ forall i j, value c (snd x i j)) (snd (factors b)) ->
  (forall i j, bval b i j =
     ssum (class_ops c) (map (fun ks => @pathprod (class_ops c) (fst (factors b)) (snd (factors b)) ks i j) (tuples (map fst (snd (factors b)))))) /\
  (factors b' = factors b -> forall i j, bval b' i j = bval b i j).
Proof.
  intros Hc H1 H2. assert (L : lawful (class_ops c) (value c)).
  { destruct c; [apply std_lawful|apply log_lawful|apply max_lawful|apply kmax_lawful, Hc|apply ent_lawful|apply ce_lawful|apply kl_lawful]. }
  split.
  - intros i j. exact (bval_paths L b i j H1 H2).
  - intros E i j. rewrite (bval_paths L b i j H1 H2).
    rewrite (bval_paths L b' i j); rewrite E; auto.
Qed.
Print Assumptions C27_any_bracketing.

(** C27: the parallel scan of linearchain.py:82-83 and semimarkov.py:82-83 is the
    product of all matrices, latest on the left *)
Theorem C27_scan c (C n : nat) (M : nat -> nat -> car (class_ops c)) l : exists_class c -> (0 < C)%nat ->
  Forall (fun M => forall i j, value c (M i j)) (M :: l) -> length (M :: l) = (2 ^ n)%nat ->
  exists R, scan (class_ops c) C n (rev (M :: l)) = [R] /\ forall i j,
    R i j = ssum (class_ops c) (map (fun ks => @pathprod (class_ops c) M (map (pair C) l) ks i j) (tuples (repeat C (length l)))).
Proof.
  intros Hc HC HF HL. assert (L : lawful (class_ops c) (value c)).
  { destruct c; [apply std_lawful|apply log_lawful|apply max_lawful|apply kmax_lawful, Hc|apply ent_lawful|apply ce_lawful|apply kl_lawful]. }
  destruct (@scan_bracket (class_ops c) C n M l HL) as (b & E & E1). exists (bval b). split; auto.
  intros i j. rewrite (bval_paths L b i j).
  - rewrite E1. unfold pathsum. cbn [fst snd]. rewrite map_map. cbn [fst]. rewrite map_const. reflexivity.
  - rewrite E1. inversion HF; auto.
  - rewrite E1. cbn [snd]. inversion_clear HF. unfold good. apply Forall_map. cbn [fst snd].
    eapply Forall_impl; [|exact H0]. auto.
Qed.
Print Assumptions C27_scan.

(** C28. Tensors of the one-float classes, with their leading dimension of size 1
    among the batch dimensions. Positive sizes, equal ranks (every call of the
    library passes tensors of equal rank). *)
Definition one_float (c : cls) : Prop := match c with Std | Log | Max => True | _ => False end.
Theorem C28_sharded_matmul c (a b : tensor (car (class_ops c))) sa sb sc I D J max_size min_size : one_float c ->
  shape a = sa ++ [I; D] -> shape b = sb ++ [D; J] -> bzip sa sb = Some sc ->
  Forall (lt 0) (shape a) -> Forall (lt 0) (shape b) ->
  reseq (shard_matmul (class_ops c) max_size min_size a b) (tmatmul (class_ops c) a b) /\
  reseq (ckpt_matmul (class_ops c) min_size a b) (tmatmul (class_ops c) a b).
Proof.
  intros _ Ha Hb Hc Pa Pb.
  assert (Refl : forall r : res (tensor (car (class_ops c))), reseq r r) by (intros [t|e]; cbn; [split|]; auto).
  split.
  - unfold shard_matmul. destruct (broadcast_size _ a b <? min_size)%nat; auto.
    rewrite Ha in Pa. rewrite Hb in Pb. apply Forall_app in Pa as [Pa PA]. apply Forall_app in Pb as [Pb PB].
    inversion_clear PA as [|? ? P1 PA']. inversion_clear PA' as [|? ? P2 _]. inversion_clear PB as [|? ? _ PB']. inversion_clear PB' as [|? ? P3 _].
    apply (@shard_spec (class_ops c) sa sb sc I D J a b); auto.
  - unfold ckpt_matmul. destruct (min_size <? broadcast_size _ a b)%nat; auto.
Qed.
Print Assumptions C28_sharded_matmul.

(** a concrete case: batches (2, 1, 3) and (2, 4, 1), products of a 1x2 and a 2x3
    matrix, shards of two *)
Example ex_shard : (bzip [2; 1; 3] [2; 4; 1] = Some [2; 4; 3] /\
  Forall (lt 0) ([2; 1; 3] ++ [1; 2]) /\ Forall (lt 0) ([2; 4; 1] ++ [2; 3]) /\
  bshape [4; 1] [3] = Some [4; 3] /\ (prodl [2; 4; 3; 1; 3] <? 0 / (2 * 2) + 2) = false)%nat.
Proof. repeat split; repeat constructor. Qed.

(** C28 does not extend to classes with several floats per cell: the flattening
    of [accumulate_] mixes the leading dimension with the batch. EntropySemiring
    on raw tensors: the first two slices of the leading dimension are the log
    values and the running entropies (semirings.py:357-403). *)
Definition raw_ent (t : tensor R) : tensor (R * R) :=
  {| shape := tl (shape t); dat := fun idx => (dat t (0%nat :: idx), dat t (1%nat :: idx)) |}.
(** semirings.py:12-20 on the tensors of EntropySemiring, the float dimension treated as a batch dimension *)
Definition ent_matmul_raw (a b : tensor R) : res (tensor R) :=
  if ((hd 0 (shape a) <? 2) || (hd 0 (shape b) <? 2))%nat then Err IndexError else
  match tmatmul (ent_ops NEG) (raw_ent a) (raw_ent b) with
  | Ok c => Ok {| shape := 2%nat :: shape c;
                  dat := fun idx => match idx with 0%nat :: i => fst (dat c i) | _ :: i => snd (dat c i) | [] => 0 end |}
  | Err e => Err e
  end.
Theorem C28_entropy_refuted : exists a b, shape a = [2; 2; 1; 2]%nat /\ shape b = [2; 2; 2; 1]%nat /\
  ~ reseq (shard_forward std_ops ent_matmul_raw 0 a b) (ent_matmul_raw a b).
Proof.
  set (a := {| shape := [2; 2; 1; 2]%nat; dat := fun i : list nat => match i with [0; 1; 0; 0]%nat => 2 | _ => 0 end : R |}).
  set (b := {| shape := [2; 2; 2; 1]%nat; dat := fun _ : list nat => 0 : R |}).
  exists a, b. split; [reflexivity|]. split; [reflexivity|].
  assert (E1 : match shard_forward std_ops ent_matmul_raw 0 a b with Ok c => dat c [0; 1; 0; 0]%nat | Err _ => 0 end =
               snd (ent_sum [(0 + 0, 2 + 0); (0 + 0, 0 + 0)])) by reflexivity.
  assert (E2 : match ent_matmul_raw a b with Ok c => dat c [0; 1; 0; 0]%nat | Err _ => 0 end =
               fst (ent_sum [(2 + 0, 0 + 0); (0 + 0, 0 + 0)])) by reflexivity.
  assert (E3 : match ent_matmul_raw a b with Ok c => shape c | Err _ => [] end = [2; 2; 1; 1]%nat) by reflexivity.
  intro H. destruct (shard_forward std_ops ent_matmul_raw 0 a b) as [c|], (ent_matmul_raw a b) as [c'|]; try contradiction; try discriminate E3.
  destruct H as [Hs Hd]. cbn beta iota in E1, E2, E3. assert (Hs2 := eq_trans Hs E3). clear Hs; rename Hs2 into Hs. specialize (Hd [0; 1; 0; 0]%nat). rewrite Hs in Hd.
  assert (I : inr [2; 2; 1; 1]%nat [0; 1; 0; 0]%nat) by (repeat constructor).
  assert (Hd2 := eq_trans (eq_sym E1) (eq_trans (Hd I) E2)). clear - Hd2. rename Hd2 into Hd. unfold ent_sum, lse in Hd. cbn [map fst snd] in Hd.
  rewrite !RSum_cons in Hd. cbn [fst snd] in Hd. unfold Sum in Hd. cbn [map ksum fold_right] in Hd. change (@k0 R_csr) with 0 in Hd.
  replace (0 + 0) with 0 in Hd by ring. replace (2 + 0) with (1 + 1) in Hd by ring.
  rewrite exp_0 in Hd. replace (1 + (1 + 0)) with 2 in Hd by ring. replace (exp (1 + 1) + (1 + 0)) with (exp (1 + 1) + 1) in Hd by ring.
  assert (X : exp (0 - ln 2) = / 2) by (rewrite Rminus_0_l, exp_Ropp, exp_ln; lra).
  rewrite X in Hd.
  assert (Y : 1 + ln 2 = ln (exp (1 + 1) + 1)) by lra.
  assert (Z : exp (1 + ln 2) = exp (ln (exp (1 + 1) + 1))) by now rewrite Y.
  pose proof (exp_pos 1). rewrite exp_ln in Z by (pose proof (exp_pos (1 + 1)); lra).
  rewrite !exp_plus, exp_ln in Z by lra. pose proof (exp_ineq1 1 ltac:(lra)). nra.
Qed.
Print Assumptions C28_entropy_refuted.

(** C26: in no log-space class is [zero] neutral for sum or absorbing for mul. *)
Theorem C26_zero_not_neutral c : exists_class c -> c <> Std ->
  (exists a, value c a /\ splus (class_ops c) a (szero (class_ops c)) <> a) /\
  (exists a, value c a /\ smul (class_ops c) a (szero (class_ops c)) <> szero (class_ops c)).
Proof.
  intros Hc Hs.
  assert (L0 : lse [NEG; NEG] <> NEG).
  { intro H. assert (E : exp (lse [NEG; NEG]) = exp NEG) by now rewrite H. rewrite lse_exp in E by discriminate.
    unfold Sum in E. cbn in E. pose proof (exp_pos NEG). lra. }
  assert (N1 : 1 + NEG <> NEG) by (unfold NEG; lra).
  destruct c; try congruence; cbn.
  - split; [exists NEG|exists 1]; split; auto.
  - split; [exists (NEG - 1)|exists 1]; split; auto. unfold Rmax. destruct Rle_dec; unfold NEG in *; lra.
  - destruct k as [|k]; [cbn in Hc; lia|].
    assert (D : forall x y, y <= x -> kvec (S k) (x :: repeat y k)).
    { intros x y H. split; [now apply desc_cons_repeat|]. cbn [length]. now rewrite repeat_length. }
    split.
    + exists (NEG - 1 :: repeat (NEG - 1) k). split; [apply D; lra|]. cbn [splus ssum class_ops kmax_ops].
      intro H. assert (C : cge NEG (topk (S k) (concat [NEG - 1 :: repeat (NEG - 1) k; repeat NEG (S k)])) = 0%nat).
      { change (topk (S k) (concat [NEG - 1 :: repeat (NEG - 1) k; repeat NEG (S k)])) with (splus (kmax_ops (S k) NEG) (NEG - 1 :: repeat (NEG - 1) k) (repeat NEG (S k))).
        cbn [repeat] in *. etransitivity; [exact (f_equal (cge NEG) H)|]. apply cge_zero. intros x [<-|Hx]; [lra|]. apply repeat_spec in Hx. subst. lra. }
      rewrite cge_topk in C. cbn [concat] in C. rewrite app_nil_r, cge_app in C. cbn [repeat] in C.
      pose proof (cge_self NEG (repeat NEG k)). lia.
    + exists (1 :: repeat NEG k). split; [apply D; unfold NEG; lra|]. intro H.
      assert (C : cge (1 + NEG) (topk (S k) (psum (1 :: repeat NEG k) (NEG :: repeat NEG k))) = 0%nat).
      { etransitivity; [exact (f_equal (cge (1 + NEG)) H)|]. apply cge_zero. intros x [<-|Hx]; [lra|]. apply repeat_spec in Hx. subst. lra. }
      rewrite cge_topk in C. unfold psum in C. cbn [flat_map map app] in C.
      pose proof (cge_self (1 + NEG) (map (Rplus 1) (repeat NEG k) ++ flat_map (fun x => x + NEG :: map (Rplus x) (repeat NEG k)) (repeat NEG k))). lia.
  - split; [exists (NEG, 0)|exists (1, 0)]; split; auto; intro H; injection H; intros; auto.
  - split; [exists (NEG, 0, 0)|exists (1, 0, 0)]; split; auto; intro H; injection H; intros; auto.
  - split; [exists (NEG, 0, 0)|exists (1, 0, 0)]; split; auto; intro H; injection H; intros; auto.
Qed.
Print Assumptions C26_zero_not_neutral.
(** in LogSemiring adding [zero] always changes the value *)
Theorem C26_log_zero_visible x : x < splus (log_ops NEG) x (szero (log_ops NEG)).
Proof.
  cbn. apply exp_lt_inv. rewrite lse_exp by discriminate. unfold Sum. cbn. pose proof (exp_pos NEG). lra.
Qed.

(** C26: the exact value of LinearChain under MaxSemiring, for all potentials:
    every potential below -1e5 counts as -1e5. *)
Theorem C26_linear_chain_max batch N C ls phi : valid (CLin batch N C ls) ->
  exists v, q_max (CLin batch N C ls) phi = Ok v /\ length v = batch /\
  forall b, (b < batch)%nat ->
    let ok := is_seq C (Nat.max 1 (lc_len N ls b)) in
    let score y := RSum (fun e => Rmax (-100000) (phi e)) (seq_parts b y) in
    (exists y, ok y /\ nth b v 0 = score y) /\ (forall y, ok y -> score y <= nth b v 0).
Proof.
  intro V. eexists. split; [exact (@lc_logpartition_run (max_ops NEG) batch N C (tens [batch; N - 1; C; C]%nat phi) ls V eq_refl)|]. rewrite map_length, seq_length. split; auto. intros b Hb ok score.
  set (f := fun b => lc_one (max_ops NEG) C (Nat.log2_up (N - 1)) (2 ^ Nat.log2_up (N - 1)) (dat (tens [batch; N - 1; C; C]%nat phi)) b (lc_len N ls b)).
  assert (E : nth b (map f (seq 0 batch)) 0 = f b).
  { rewrite nth_indep with (d' := f 0%nat) by (rewrite map_length, seq_length; auto). rewrite (map_nth f), seq_nth by auto. reflexivity. }
  destruct V as (HN & HC & HL).
  assert (Hle : (lc_len N ls b - 1 <= 2 ^ Nat.log2_up (N - 1))%nat).
  { etransitivity; [|apply log2_up_cover; lia].
    destruct ls as [l|]; simpl; [|lia]. destruct HL as (_ & _ & <-). pose proof (list_max_nth l b). lia. }
  pose proof (@lc_one_max NEG ltac:(unfold NEG; lra) phi b (lc_len N ls b) C (Nat.log2_up (N - 1)) HC Hle) as [H1 H2].
  match goal with |- context [@nth ?T b ?l ?d] => assert (E2 : @nth T b l d = f b) by exact E; rewrite E2 end. split; [exact H1|exact H2].
Qed.
Print Assumptions C26_linear_chain_max.

(** so the returned maximum can be wrong: potentials -2e5 on a chain of 3 positions *)
Theorem C26_wrong_maximum : exists phi v, q_max (CLin 1 3 2 None) phi = Ok v /\
  nth 0 v 0 = -200000 /\ forall y, is_seq 2 3 y -> sc (seq_parts 0) phi y = -400000.
Proof.
  assert (V : valid (CLin 1 3 2 None)) by (cbn; unfold lc_args; repeat split; lia).
  destruct (C26_linear_chain_max (fun _ => -200000) V) as (v & E & _ & H). exists (fun _ => -200000), v. split; auto.
  destruct (H 0%nat ltac:(lia)) as [(y & Hy & Ev) _]. cbn [lc_len] in Hy. destruct Hy as [Hl _]. cbn in Hl. split.
  - rewrite Ev. etransitivity; [apply RSum_const|]. unfold seq_parts. rewrite map_length, seq_length, Hl. cbn [Nat.sub].
    unfold Rmax. destruct Rle_dec; cbn; lra.
  - intros y' [Hl' _]. unfold sc. etransitivity; [apply RSum_const|]. unfold seq_parts. rewrite map_length, seq_length, Hl'. cbn. lra.
Qed.
Print Assumptions C26_wrong_maximum.
