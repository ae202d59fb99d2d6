(** * P_NonProj: non-projective dependency trees (C11, C12, C13) *)
From Coq Require Import Reals Lra.
From Verif Require Import Base Ops Terms Semirings Poly Chain DepSpec DepTree Approx Grad NpSpec MxR NonProj P_Sparse.
Set Implicit Arguments.
Local Open Scope R_scope.

Lemma eexp_nonneg x : 0 <= eexp x.
Proof. destruct x; cbn; [left; apply exp_pos|lra]. Qed.
Lemma tw_nonneg eps phi h j : 0 <= eps -> 0 <= tw eps phi h j.
Proof. intro H. unfold tw. pose proof (eexp_nonneg (phi j j)). destruct (nth j h 0%nat) as [|k]; auto. pose proof (eexp_nonneg (phi k j)). lra. Qed.
(** spec: logarithm, -inf at zero *)
Definition logval (z : R) : lval := if Rlt_dec 0 z then Fin (ln z) else NegInf.
Lemma logdet_nonneg z : 0 <= z -> logdet z = logval z.
Proof. intro H. unfold logdet, logval. destruct (Rlt_dec 0 z); [reflexivity|]. destruct (Req_EM_T z 0); [reflexivity|lra]. Qed.

(** C11: the matrix-tree sum, any scores (minus infinity allowed), any smoothing *)
Theorem C11_partition multi N eps phi l : (multi = false -> (1 <= N)%nat) -> 0 <= eps -> Enumerates (np_ok multi N) l ->
  deptree_part multi N None eps phi = Ok (logval (RSum (fun h => RProd (tw eps phi h) (seq 0 N)) l)).
Proof.
  intros HN He Hl. unfold deptree_part. replace (negb multi && Nat.eqb N 0) with false by (destruct multi; [reflexivity|specialize (HN eq_refl); destruct N; [lia|reflexivity]]).
  rewrite det_npZ, (npZ_None eps phi HN Hl) by auto. f_equal. apply logdet_nonneg. apply RSum_nonneg. intros h _. apply RProd_nonneg. intros j _. apply tw_nonneg; auto.
Qed.
Print Assumptions C11_partition.

Lemma dep_parts_map b h : dep_parts b h = map (fun j => dep_part b j (nth j h 0%nat) []) (seq 0 (length h)).
Proof.
  unfold dep_parts. enough (H : forall c, dep_parts_from b c h = map (fun j => dep_part b (c + j) (nth j h 0%nat) []) (seq 0 (length h))) by apply (H 0%nat).
  induction h as [|x h IH]; intro c; [reflexivity|]. cbn [dep_parts_from length seq map nth]. rewrite Nat.add_0_r. f_equal.
  rewrite IH. rewrite <- seq_shift, map_map. apply map_ext. intro j. cbn [nth]. f_equal. lia.
Qed.
(** spec: scores without -inf *)
Definition real_row (phi : list nat -> R) (b i j : nat) : option R := Some (phi [b; i; j]).
Lemma tw_exp phi b N h : length h = N -> RProd (tw 0 (real_row phi b) h) (seq 0 N) = exp (sc (dep_parts b) phi h).
Proof.
  intros <-. unfold sc. rewrite dep_parts_map. rewrite (Sum_map R_csr). rewrite exp_RSum. apply (Prod_ext R_csr). intro j. unfold tw, real_row, dep_part, eexp.
  destruct (nth j h 0%nat); [reflexivity|apply Rplus_0_r].
Qed.
(** the star: word 1 below the root, the other words of the sentence below word 1; if
    [x], also the last padded word *)
Definition star (N len : nat) (x : bool) : list nat :=
  map (fun j => if Nat.eqb j 0 then 0%nat else if (j <? len)%nat then 1%nat else if x && Nat.eqb j (N - 1) then 1%nat else 0%nat) (seq 0 N).
Lemma nth_map_seq (f : nat -> nat) N j d : (j < N)%nat -> nth j (map f (seq 0 N)) d = f j.
Proof.
  intro H. rewrite nth_indep with (d' := f 0%nat) by (rewrite map_length, seq_length; auto). rewrite map_nth, seq_nth by auto. reflexivity.
Qed.
Lemma star_tree N len x : (1 <= N)%nat -> is_tree N (star N len x).
Proof.
  intro HN. split; [unfold star; now rewrite map_length, seq_length|]. intros [|k] Hk; [lia|].
  assert (E : hd_of (star N len x) (S k) = if Nat.eqb k 0 then 0%nat else if (k <? len)%nat then 1%nat else if x && Nat.eqb k (N - 1) then 1%nat else 0%nat).
  { cbn [hd_of]. unfold star. apply nth_map_seq. lia. }
  assert (E1 : hd_of (star N len x) 1 = 0%nat) by (cbn [hd_of]; unfold star; rewrite nth_map_seq by lia; reflexivity).
  rewrite E. split; [destruct (Nat.eqb k 0), (k <? len)%nat, (x && Nat.eqb k (N - 1)); lia|].
  exists 2%nat. cbn [Nat.iter nat_rect]. rewrite E. destruct (Nat.eqb k 0), (k <? len)%nat, (x && Nat.eqb k (N - 1)); try apply E1; reflexivity.
Qed.
Lemma star_top N len x : (1 <= N)%nat -> top N (star N len x) 1 = 1%nat.
Proof. intro HN. destruct N as [|N]; [lia|]. cbn [top]. replace (hd_of (star (S N) len x) 1) with 0%nat; [reflexivity|]. cbn [hd_of]. unfold star. rewrite nth_map_seq by lia. reflexivity. Qed.
(** spec: number of words of a row *)
Definition len_of (N : nat) (len : option nat) : nat := match len with Some l => l | None => N end.
Lemma star_pos multi N len eps (pr : nat -> nat -> R) x : (1 <= N)%nat -> 0 <= eps -> (1 <= len_of N len)%nat -> (x = true -> 0 < eps) ->
  0 < RProd (npw multi N len eps (fun i j => Some (pr i j)) (star N (len_of N len) x)) (seq 0 N).
Proof.
  intros HN He Hl Hx. apply RProd_pos. intros j Hj. apply in_seq in Hj.
  assert (E : nth j (star N (len_of N len) x) 0%nat = if Nat.eqb j 0 then 0%nat else if (j <? len_of N len)%nat then 1%nat else if x && Nat.eqb j (N - 1) then 1%nat else 0%nat).
  { unfold star. apply nth_map_seq. lia. }
  assert (A : forall k, (k < len_of N len)%nat -> (k < N)%nat -> np_mask len (fun i j => Some (pr i j)) 0 k = Some (pr 0%nat k)).
  { intros k Hk HkN. unfold np_mask, len_of in *. destruct len as [l|]; [|reflexivity]. destruct (Nat.ltb_spec 0 l); [|lia]. destruct (Nat.ltb_spec k l); [reflexivity|lia]. }
  unfold npw, wtr, wtr1. rewrite E, star_top by auto. unfold aw, rw.
  destruct (Nat.eqb_spec j 0) as [->|Hj0].
  - rewrite A by lia. cbn [Nat.eqb eexp]. pose proof (exp_pos (pr 0%nat 0%nat)). destruct multi; [|auto].
    assert (0 <= np_off len 0) by (unfold np_off; destruct len as [l|]; [destruct (0 <? l)%nat|]; lra). lra.
  - destruct (Nat.ltb_spec j (len_of N len)) as [Hjl|Hjl].
    + rewrite A by lia. cbn [eexp]. pose proof (exp_pos (pr 0%nat j)). destruct multi; lra.
    + destruct x; cbn [andb].
      * destruct (Nat.eqb j (N - 1)) eqn:EN.
        -- specialize (Hx eq_refl). pose proof (eexp_nonneg (np_mask len (fun i j => Some (pr i j)) 0 j)). destruct multi; lra.
        -- assert (np_off len j = 1) as -> by (unfold np_off, len_of in *; destruct len as [l|]; [destruct (Nat.ltb_spec j l); [lia|reflexivity]|lia]).
           pose proof (eexp_nonneg (np_mask len (fun i j => Some (pr i j)) j j)). destruct multi; [lra|]. destruct (Nat.eqb_spec (S j) 1); [lia|lra].
      * assert (np_off len j = 1) as -> by (unfold np_off, len_of in *; destruct len as [l|]; [destruct (Nat.ltb_spec j l); [lia|reflexivity]|lia]).
        pose proof (eexp_nonneg (np_mask len (fun i j => Some (pr i j)) j j)). destruct multi; [lra|]. destruct (Nat.eqb_spec (S j) 1); [lia|lra].
Qed.
Lemma npw_nonneg multi N len eps phi h j : 0 <= eps -> 0 <= npw multi N len eps phi h j.
Proof.
  intro He. assert (0 <= np_off len j) by (unfold np_off; destruct len as [l|]; [destruct (j <? l)%nat|]; lra).
  unfold npw, wtr, wtr1, aw, rw. pose proof (eexp_nonneg (np_mask len phi j j)).
  destruct multi, (nth j h 0%nat) as [|k]; try (pose proof (eexp_nonneg (np_mask len phi k j))); try lra. destruct (Nat.eqb _ _); lra.
Qed.
Lemma npZ_pos multi N len eps (pr : nat -> nat -> R) : (multi = false -> (1 <= N)%nat) -> 0 <= eps -> ((1 <= N)%nat -> (1 <= len_of N len)%nat) ->
  0 < npZ multi N len eps (fun i j => Some (pr i j)).
Proof.
  intros HN He Hl. unfold npZ. destruct (trees_enum N) as [_ Hi]. destruct N as [|N].
  - assert (H : In [] (trees 0)) by (apply Hi; split; [reflexivity|intros; lia]).
    apply Rlt_le_trans with (RProd (npw multi 0 len eps (fun i j => Some (pr i j)) []) (seq 0 0)); [cbn; lra|].
    apply (RSum_single (fun h => RProd (npw multi 0 len eps (fun i j => Some (pr i j)) h) (seq 0 0))); auto. intros y _. apply RProd_nonneg. intros. apply npw_nonneg; auto.
  - assert (H : In (star (S N) (len_of (S N) len) false) (trees (S N))) by (apply Hi, star_tree; lia).
    eapply Rlt_le_trans; [apply (@star_pos multi (S N) len eps pr false); try lia; auto; discriminate|].
    apply (RSum_single (fun h => RProd (npw multi (S N) len eps (fun i j => Some (pr i j)) h) (seq 0 (S N)))); auto. intros y _. apply RProd_nonneg. intros. apply npw_nonneg; auto.
Qed.
(** without smoothing: the log-sum over trees of the summed scores, the same parts as
    the projective parser's *)
Theorem C11_partition_exact multi N phi b l : (multi = false -> (1 <= N)%nat) -> Enumerates (np_ok multi N) l ->
  deptree_part multi N None 0 (real_row phi b) = Ok (Fin (ln (ZS (dep_parts b) l phi))).
Proof.
  intros HN Hl. rewrite (@C11_partition multi N 0 _ l HN (Rle_refl 0) Hl).
  assert (E : RSum (fun h => RProd (tw 0 (real_row phi b) h) (seq 0 N)) l = ZS (dep_parts b) l phi).
  { unfold ZS. apply (Sum_ext_in R_csr). intros h Hh. apply tw_exp. apply Hl in Hh as [[L _] _]. exact L. }
  assert (P : 0 < npZ multi N None 0 (real_row phi b)) by exact (@npZ_pos multi N None 0 (fun i j => phi [b; i; j]) HN (Rle_refl 0) (fun H => H)).
  rewrite (npZ_None 0 (real_row phi b) HN Hl) in P.
  unfold logval. destruct (Rlt_dec 0 _); [|contradiction]. now rewrite E.
Qed.
Print Assumptions C11_partition_exact.
(** every projective tree is a tree: the projective partition is a lower bound *)
Theorem C11_projective_below multi N phi b l lp : (multi = false -> (1 <= N)%nat) -> Enumerates (np_ok multi N) l ->
  Enumerates (fun h => is_proj N h /\ (multi = true \/ single_root h)) lp -> ZS (dep_parts b) lp phi <= ZS (dep_parts b) l phi.
Proof.
  intros HN [_ Hl] [Hn Hp]. unfold ZS.
  assert (I : incl lp l) by (intros h Hh; apply Hp in Hh as [H1 H2]; apply Hl; split; [apply proj_tree; auto|auto]).
  clear Hp Hl. revert l I. induction lp as [|h lp IH]; intros l I; [apply RSum_nonneg; intros; left; apply exp_pos|].
  inversion Hn as [|? ? Hn1 Hn2]; subst. destruct (in_split h l) as (l1 & l2 & ->); [apply I; left; auto|].
  rewrite RSum_cons. rewrite RSum_app, RSum_cons. specialize (IH Hn2 (l1 ++ l2)). rewrite RSum_app in IH.
  assert (incl lp (l1 ++ l2)).
  { intros x Hx. assert (In x (l1 ++ h :: l2)) as Q by (apply I; right; auto). apply in_app_or in Q as [Q|[->|Q]]; [apply in_or_app; auto|contradiction|apply in_or_app; auto]. }
  specialize (IH H). lra.
Qed.

(** a row the theorems talk about: three words, exactly one root child *)
Example C11_example : exists l, Enumerates (np_ok false 3) l /\ length l = 9%nat.
Proof.
  exists [[0;1;1];[0;1;2];[0;3;1];[2;0;2];[2;0;1];[3;0;2];[3;3;0];[2;3;0];[3;1;0]]%nat. split; [|reflexivity]. split.
  - repeat (constructor; [cbn; intuition discriminate|]). constructor.
  - intro h. split.
    + intros H. assert (T : forall h, length h = 3%nat -> (forall k, (1 <= k <= 3)%nat -> (hd_of h k <= 3)%nat /\ Nat.iter 3 (hd_of h) k = 0%nat) -> is_tree 3 h).
      { intros h0 L H0. split; auto. intros k Hk. destruct (H0 k Hk). split; auto. exists 3%nat; auto. }
      repeat (destruct H as [<-|H]; [split; [apply T; [reflexivity|]; intros k Hk; destruct k as [|[|[|[|k]]]]; try lia; cbn; split; lia|right; reflexivity]|]). destruct H.
    + intros [[L H] [Hm|Hs]]; [discriminate|]. destruct h as [|a [|c [|d [|]]]]; try discriminate L.
      pose proof (H 1%nat ltac:(lia)) as [H1 [t1 E1]]. pose proof (H 2%nat ltac:(lia)) as [H2 [t2 E2]]. pose proof (H 3%nat ltac:(lia)) as [H3 [t3 E3]]. cbn in H1, H2, H3.
      assert (C : forall t k (h : list nat), hd_of h k = k -> Nat.iter t (hd_of h) k = k) by (intros t k h0 Hk; induction t as [|t IH]; [reflexivity|]; rewrite iter_shift, Hk; auto).
      assert (C2 : forall t k k' (h : list nat), hd_of h k = k' -> hd_of h k' = k -> Nat.iter t (hd_of h) k = k \/ Nat.iter t (hd_of h) k = k').
      { intros t k k' h0 Hk Hk'. induction t as [|t IH]; [left; reflexivity|]. change (Nat.iter (S t) (hd_of h0) k) with (hd_of h0 (Nat.iter t (hd_of h0) k)). destruct IH as [-> | ->]; auto. }
      unfold single_root in Hs.
      assert (a = 0 \/ a = 1 \/ a = 2 \/ a = 3)%nat as Ha by lia. assert (c = 0 \/ c = 1 \/ c = 2 \/ c = 3)%nat as Hc by lia. assert (d = 0 \/ d = 1 \/ d = 2 \/ d = 3)%nat as Hd by lia.
      destruct Ha as [-> | [-> | [-> | ->]]].
      2: { rewrite C in E1 by reflexivity. discriminate. }
      all: destruct Hc as [-> | [-> | [-> | ->]]].
      all: try (rewrite C in E2 by reflexivity; discriminate).
      all: destruct Hd as [-> | [-> | [-> | ->]]].
      all: try (rewrite C in E3 by reflexivity; discriminate).
      all: try (cbn in Hs; discriminate).
      all: try (exfalso; match type of E1 with Nat.iter _ (hd_of ?h) _ = _ => destruct (C2 t1 1%nat 2%nat h eq_refl eq_refl) as [Q | Q]; rewrite Q in E1; discriminate end).
      all: try (exfalso; match type of E1 with Nat.iter _ (hd_of ?h) _ = _ => destruct (C2 t1 1%nat 3%nat h eq_refl eq_refl) as [Q | Q]; rewrite Q in E1; discriminate end).
      all: try (exfalso; match type of E2 with Nat.iter _ (hd_of ?h) _ = _ => destruct (C2 t2 2%nat 3%nat h eq_refl eq_refl) as [Q | Q]; rewrite Q in E2; discriminate end).
      all: cbn; tauto.
Qed.

(** ** C12: the output of deptree_nonproj *)
Lemma RProd_others (f : nat -> R) N j : (j < N)%nat -> RProd f (seq 0 N) = f j * RProd f (others N j).
Proof.
  intro H. change (f j * RProd f (others N j)) with (RProd f (j :: others N j)). apply (Prod_perm R_csr). apply NoDup_Permutation.
  - apply seq_NoDup.
  - constructor; [|apply NoDup_filter, seq_NoDup]. unfold others. rewrite filter_In. intros [_ Q]. rewrite Nat.eqb_refl in Q. discriminate.
  - intro k. unfold others. cbn [In]. rewrite filter_In, in_seq. destruct (Nat.eqb_spec k j); cbn; split; intros; auto; try lia; destruct H0; auto; try lia; try tauto; destruct H0; discriminate.
Qed.
(** spec: word j has head i, or is a root when i = j *)
Definition uses_arc (i j : nat) (h : list nat) : bool := Nat.eqb (nth j h 0%nat) (if Nat.eqb i j then 0%nat else S i).
Lemma npT_None multi N eps phi l i j : (multi = false -> (1 <= N)%nat) -> Enumerates (np_ok multi N) l -> (j < N)%nat ->
  npT multi N None eps phi i j = RSum (fun h => RProd (tw eps phi h) (others N j)) (filter (uses_arc i j) l).
Proof.
  intros HN He Hj. unfold npT. destruct (trees_enum N) as [Ht Hi].
  assert (P : Permutation (filter (uses_arc i j) l) (filter (fun h => (multi || Nat.eqb (count_occ Nat.eq_dec h 0%nat) 1) && usesb multi N i j h) (trees N))).
  { apply NoDup_Permutation; [apply NoDup_filter, He|apply NoDup_filter; auto|]. intro h. rewrite !filter_In, Hi. destruct He as [_ He]. rewrite He. unfold np_ok.
    assert (Q : is_tree N h -> multi = true \/ single_root h -> uses_arc i j h = usesb multi N i j h).
    { intros T S. unfold uses_arc, usesb. destruct (Nat.eqb i j); [|reflexivity]. destruct (Nat.eqb_spec (nth j h 0%nat) 0) as [E|]; [|reflexivity].
      destruct multi; [reflexivity|]. destruct S as [|S]; [discriminate|]. rewrite (single_top T S Hj E), Nat.eqb_refl. reflexivity. }
    split.
    - intros [[T S] U]. split; auto. rewrite <- Q by auto. rewrite U, andb_true_r. destruct multi; [reflexivity|]. destruct S as [|S]; [discriminate|]. now apply Nat.eqb_eq.
    - intros [T U]. apply andb_prop in U as [S U]. assert (S' : multi = true \/ single_root h) by (destruct multi; [auto|right; now apply Nat.eqb_eq]). rewrite Q by auto. auto. }
  transitivity (RSum (fun t => RProd (npw multi N None eps phi t) (others N j)) (filter (fun h => (multi || Nat.eqb (count_occ Nat.eq_dec h 0%nat) 1) && usesb multi N i j h) (trees N))).
  - rewrite (RSum_split _ (fun h => multi || Nat.eqb (count_occ Nat.eq_dec h 0%nat) 1)). rewrite <- Rplus_0_r. f_equal.
    + f_equal. clear. induction (trees N) as [|h t IH]; [reflexivity|]. cbn. destruct (usesb multi N i j h); cbn; [|rewrite andb_false_r; auto].
      rewrite andb_true_r. destruct (multi || _); cbn; now rewrite IH.
    + apply (Sum_zero R_csr). intros h Hh. apply filter_In in Hh as [Hh X]. apply filter_In in Hh as [Hh U]. apply Hi in Hh. destruct multi; [discriminate|].
      cbn [orb] in X. apply negb_true_iff, Nat.eqb_neq in X. destruct (npw_dead eps phi Hh (HN eq_refl) X) as (k & Hk & E & E0 & Et).
      apply (RProd_zero _ _ k); [|exact E]. unfold others. apply filter_In. split; [apply in_seq; lia|]. apply negb_true_iff, Nat.eqb_neq. intros ->.
      unfold usesb in U. destruct (Nat.eqb i j).
      * apply andb_prop in U as [_ U]. cbn [orb] in U. apply Nat.eqb_eq in U. contradiction.
      * apply Nat.eqb_eq in U. congruence.
  - rewrite <- (Sum_perm R_csr _ P). apply (Sum_ext_in R_csr). intros h Hh. apply filter_In in Hh as [Hh _]. apply He in Hh.
    apply (Prod_ext_in R_csr). intros k Hk. apply filter_In in Hk as [Hk _]. apply in_seq in Hk. apply npw_None; auto; lia.
Qed.
Lemma RSum_filter_in A (f g : A -> R) (p : A -> bool) l : (forall x, In x l -> f x = if p x then g x else 0) -> RSum f l = RSum g (filter p l).
Proof.
  intro H. induction l as [|x l IH]; [reflexivity|]. cbn [filter]. rewrite RSum_cons, IH by auto with datatypes. rewrite (H x) by (left; auto). destruct (p x); [rewrite RSum_cons; reflexivity|].
  apply Rplus_0_l.
Qed.
Theorem C12_output multi N eps phi l : (multi = false -> (1 <= N)%nat) -> Enumerates (np_ok multi N) l ->
  let Z := RSum (fun h => RProd (tw eps phi h) (seq 0 N)) l in Z <> 0 ->
  exists M, deptree_nonproj multi N None eps phi = Ok M /\ forall i j, (i < N)%nat -> (j < N)%nat ->
    Z * M i j = eexp (phi i j) * RSum (fun h => RProd (tw eps phi h) (others N j)) (filter (uses_arc i j) l).
Proof.
  intros HN Hl Z HZ. unfold Z in *. rewrite <- (npZ_None eps phi HN Hl) in *. destruct (@nonproj_spec multi N None eps phi HN HZ) as (M & E & H). exists M. split; auto.
  intros i j Hi Hj. rewrite H by auto. now rewrite (npT_None eps phi i HN Hl Hj).
Qed.
Print Assumptions C12_output.
Lemma dep_part_inj b c h : forall i j, dep_part b c h [] = [b; i; j] <-> c = j /\ h = if Nat.eqb i j then (if Nat.eqb h 0 then 0%nat else S i) else S i.
Proof.
  intros i j. unfold dep_part. destruct h as [|h]; cbn [Nat.eqb].
  - split; [intros [= -> ->]; rewrite Nat.eqb_refl; auto|]. intros [-> E]. destruct (Nat.eqb_spec i j); [subst; reflexivity|discriminate].
  - split; [intros [= -> ->]; split; auto; destruct (Nat.eqb i j); reflexivity|]. intros [-> E]. destruct (Nat.eqb_spec i j); injection E as ->; reflexivity.
Qed.
Lemma uses_count b h i j : is_tree (length h) h -> (j < length h)%nat -> uses (dep_parts b) [b; i; j] h = if uses_arc i j h then 1 else 0.
Proof.
  intros Ht Hj. unfold uses. rewrite dep_parts_map.
  assert (NS : nth j h 0%nat <> S j).
  { intro E. destruct Ht as [_ H]. destruct (H (S j) ltac:(lia)) as [_ [t Q]]. assert (forall t, Nat.iter t (hd_of h) (S j) = S j).
    { induction t0 as [|t0 IH]; [reflexivity|]. rewrite iter_shift. cbn [hd_of]. rewrite E. exact IH. }
    rewrite H0 in Q. discriminate. }
  destruct (uses_arc i j h) eqn:U.
  - unfold uses_arc in U. apply Nat.eqb_eq in U.
    replace 1 with (INR 1) by reflexivity. f_equal. apply NoDup_count_occ'.
    + apply FinFun.Injective_map_NoDup; [|apply seq_NoDup]. intros x y. unfold dep_part. destruct (nth x h 0%nat), (nth y h 0%nat); congruence.
    + apply in_map_iff. exists j. split; [|apply in_seq; lia]. unfold dep_part. rewrite U. destruct (Nat.eqb_spec i j) as [->|]; reflexivity.
  - replace 0 with (INR 0) by reflexivity. f_equal. apply count_occ_not_In. intro Q. apply in_map_iff in Q as (x & E & Hx).
    unfold uses_arc in U. apply Nat.eqb_neq in U. unfold dep_part in E. destruct (nth x h 0%nat) eqn:Ex; injection E as E1 E2.
    + subst. rewrite Nat.eqb_refl in U. congruence.
    + subst. destruct (Nat.eqb_spec i j); [subst; congruence|congruence].
Qed.
(** without smoothing: posterior probabilities of the arcs ... *)
Theorem C12_marginals multi N phi b l : (multi = false -> (1 <= N)%nat) -> Enumerates (np_ok multi N) l ->
  exists M, deptree_nonproj multi N None 0 (real_row phi b) = Ok M /\ forall i j, (i < N)%nat -> (j < N)%nat ->
    M i j = marg_spec (dep_parts b) l phi [b; i; j].
Proof.
  intros HN Hl.
  assert (EZ : RSum (fun h => RProd (tw 0 (real_row phi b) h) (seq 0 N)) l = ZS (dep_parts b) l phi).
  { unfold ZS. apply (Sum_ext_in R_csr). intros h Hh. apply tw_exp. apply Hl in Hh as [[L _] _]. exact L. }
  assert (P : 0 < npZ multi N None 0 (real_row phi b)) by exact (@npZ_pos multi N None 0 (fun i j => phi [b; i; j]) HN (Rle_refl 0) (fun H => H)).
  rewrite (npZ_None 0 (real_row phi b) HN Hl), EZ in P.
  destruct (@C12_output multi N 0 (real_row phi b) l HN Hl) as (M & E & H); [rewrite EZ; lra|]. exists M. split; auto. intros i j Hi Hj. specialize (H i j Hi Hj). rewrite EZ in H.
  apply Rmult_eq_reg_l with (ZS (dep_parts b) l phi); [|lra]. rewrite H. rewrite <- RSum_scal. unfold marg_spec.
  rewrite <- RSum_scal. symmetry. apply RSum_filter_in. intros h Hh. apply Hl in Hh as [T Sr]. pose proof T as [L _].
  rewrite uses_count by (rewrite L; auto). destruct (uses_arc i j h) eqn:U; [|ring].
  unfold prob. transitivity (exp (sc (dep_parts b) phi h)); [field; lra|].
  rewrite <- (@tw_exp phi b N h L). rewrite (@RProd_others (tw 0 (real_row phi b) h) N j Hj).
  apply (f_equal (fun x => x * RProd (tw 0 (real_row phi b) h) (others N j))). unfold tw. unfold uses_arc in U. apply Nat.eqb_eq in U. rewrite U.
  destruct (Nat.eqb_spec i j) as [->|]; [reflexivity|apply Rplus_0_r].
Qed.
Print Assumptions C12_marginals.
(** ... whose columns (the heads of one word) sum to one *)
Theorem C12_columns multi N phi b l M j : (multi = false -> (1 <= N)%nat) -> Enumerates (np_ok multi N) l ->
  deptree_nonproj multi N None 0 (real_row phi b) = Ok M -> (j < N)%nat -> RSum (fun i => M i j) (seq 0 N) = 1.
Proof.
  intros HN Hl EM Hj. destruct (C12_marginals phi b HN Hl) as (M' & E & H). rewrite EM in E. injection E as ->.
  rewrite (Sum_ext_in R_csr (fun i => M' i j) (fun i => marg_spec (dep_parts b) l phi [b; i; j])).
  2: { intros i Hi. apply in_seq in Hi. apply H; lia. }
  unfold marg_spec. rewrite (Sum_comm R_csr).
  assert (P : 0 < ZS (dep_parts b) l phi).
  { unfold ZS. apply RSum_exp_pos. intros ->. destruct Hl as [_ Hl]. apply (Hl (star N N false)). split; [apply star_tree; lia|].
    right. unfold single_root. apply count_unique. assert (Ls : length (star N N false) = N) by (unfold star; now rewrite map_length, seq_length). rewrite Ls. split.
    - exists 0%nat. split; [lia|]. unfold star. rewrite nth_map_seq by lia. reflexivity.
    - assert (U : forall k, (k < N)%nat -> nth k (star N N false) 0%nat = 0%nat -> k = 0%nat).
      { intros k Hk. unfold star. rewrite nth_map_seq by lia. destruct (Nat.eqb_spec k 0); auto. destruct (Nat.ltb_spec k N); [discriminate|lia]. }
      intros a c Ha Hc Ea Ec. rewrite (U a), (U c); auto. }
  transitivity (RSum (fun h => prob (dep_parts b) l phi h) l).
  - apply (Sum_ext_in R_csr). intros h Hh. apply Hl in Hh as [T Sr]. pose proof T as [L Hk].
    etransitivity; [apply RSum_scal|]. rewrite <- Rmult_1_r. apply (f_equal (Rmult _)).
    rewrite (Sum_ext_in R_csr _ (fun i => if Nat.eqb i (match nth j h 0%nat with O => j | S k => k end) then 1 else 0)).
    + set (a := match nth j h 0%nat with O => j | S k => k end). assert (Ha : (a < N)%nat).
      { unfold a. destruct (Hk (S j) ltac:(lia)) as [Q _]. cbn [hd_of] in Q. destruct (nth j h 0%nat); lia. }
      etransitivity; [apply (@RSum_filter_in _ _ (fun _ => 1) (fun i => Nat.eqb i a)); intros; reflexivity|].
      rewrite RSum_const. replace (filter (fun i => Nat.eqb i a) (seq 0 N)) with [a]; [cbn; ring|].
      clear -Ha. symmetry. enough (Q : forall s n, (s <= a < s + n)%nat -> filter (fun i => Nat.eqb i a) (seq s n) = [a]) by (apply Q; lia).
      intros s n. revert s. induction n as [|n IH]; intros s Hs; [lia|]. cbn. destruct (Nat.eqb_spec s a) as [->|].
      * f_equal. enough (Q : forall n s, (a < s)%nat -> filter (fun i => Nat.eqb i a) (seq s n) = []) by (apply Q; lia).
        induction n0 as [|n0 IH0]; intros s' Hs'; [reflexivity|]. cbn. destruct (Nat.eqb_spec s' a); [lia|]. apply IH0. lia.
      * apply IH. lia.
    + intros i Hi. apply in_seq in Hi. rewrite uses_count by (rewrite L; auto). unfold uses_arc.
      destruct (nth j h 0%nat) as [|k] eqn:Ek.
      * destruct (Nat.eqb_spec i j); reflexivity.
      * destruct (Nat.eqb_spec i j) as [->|Hne]; cbn [Nat.eqb].
        -- destruct (Nat.eqb_spec j k) as [->|]; [|reflexivity]. exfalso.
           destruct (Hk (S k) ltac:(lia)) as [_ [t Q]]. assert (F : forall t, Nat.iter t (hd_of h) (S k) = S k).
           { induction t0 as [|t0 IH]; [reflexivity|]. rewrite iter_shift. cbn [hd_of]. rewrite Ek. exact IH. }
           rewrite F in Q. discriminate.
        -- rewrite (Nat.eqb_sym k i). reflexivity.
  - unfold prob, Rdiv. rewrite RSum_scar. apply Rinv_r. lra.
Qed.
Print Assumptions C12_columns.

(** in general (smoothing, padding): the output is the gradient of the log-partition *)
Definition bump (i j : nat) (t : R) (pr : nat -> nat -> R) (a c : nat) : R := if Nat.eqb a i && Nat.eqb c j then pr a c + t else pr a c.
(** spec: scores without -inf *)
Definition somes (pr : nat -> nat -> R) : nat -> nat -> option R := fun i j => Some (pr i j).
Lemma mask_bump_other len i j t pr a c : (a <> i \/ c <> j) -> np_mask len (somes (bump i j t pr)) a c = np_mask len (somes pr) a c.
Proof.
  intro H. unfold np_mask, somes, bump. replace (Nat.eqb a i && Nat.eqb c j) with false; [reflexivity|]. symmetry. apply andb_false_iff.
  destruct H; [left|right]; now apply Nat.eqb_neq.
Qed.
Lemma npw_bump_other multi N len eps i j t pr h k : (k <> j \/ (usesb multi N i j h = false /\ k = j)) ->
  nth j h 0%nat <> S j -> npw multi N len eps (somes (bump i j t pr)) h k = npw multi N len eps (somes pr) h k.
Proof.
  intros H NS. destruct H as [H|[H ->]].
  - unfold npw, wtr, wtr1, aw, rw. rewrite (@mask_bump_other len i j t pr k k) by auto. destruct multi, (nth k h 0%nat) as [|x]; try reflexivity; now rewrite mask_bump_other by auto.
  - unfold usesb in H. destruct (Nat.eqb_spec i j) as [->|Hne].
    + unfold npw, wtr, wtr1, aw, rw. destruct (nth j h 0%nat) as [|x] eqn:E.
      * rewrite Nat.eqb_refl, andb_true_l in H. destruct multi; [discriminate|]. rewrite orb_false_l in H. now rewrite H.
      * destruct multi; rewrite mask_bump_other by (left; congruence); reflexivity.
    + unfold npw, wtr, wtr1, aw, rw. apply Nat.eqb_neq in H. rewrite (@mask_bump_other len i j t pr j j) by auto. destruct (nth j h 0%nat) as [|x]; [reflexivity|].
      destruct multi; rewrite mask_bump_other by (left; congruence); reflexivity.
Qed.
Lemma npw_bump_used multi N len eps i j t pr h : usesb multi N i j h = true ->
  npw multi N len eps (somes (bump i j t pr)) h j = npw multi N len eps (somes pr) h j +
    (eexp (np_mask len (somes (bump i j t pr)) i j) - eexp (np_mask len (somes pr) i j)).
Proof.
  intro H. unfold usesb in H. unfold npw, wtr, wtr1, aw, rw. destruct (Nat.eqb_spec i j) as [->|Hne].
  - apply andb_prop in H as [E H]. apply Nat.eqb_eq in E. rewrite E. destruct multi; [lra|]. rewrite orb_false_l in H. rewrite H. lra.
  - apply Nat.eqb_eq in H. rewrite H. destruct multi; lra.
Qed.
Lemma npZ_bump multi N len eps i j t pr : (j < N)%nat ->
  npZ multi N len eps (somes (bump i j t pr)) = npZ multi N len eps (somes pr) +
    (eexp (np_mask len (somes (bump i j t pr)) i j) - eexp (np_mask len (somes pr) i j)) * npT multi N len eps (somes pr) i j.
Proof.
  intro Hj. unfold npZ, npT. destruct (trees_enum N) as [_ Hi]. rewrite <- RSum_scal.
  set (dE := eexp _ - eexp _).
  rewrite <- (@RSum_filter_in _ (fun h => if usesb multi N i j h then dE * RProd (npw multi N len eps (somes pr) h) (others N j) else 0)
    (fun h => dE * RProd (npw multi N len eps (somes pr) h) (others N j)) (usesb multi N i j)) by reflexivity.
  rewrite <- RSum_add. apply (Sum_ext_in R_csr). intros h Hh. apply Hi in Hh as [L Hk].
  assert (NS : nth j h 0%nat <> S j).
  { intro E. destruct (Hk (S j) ltac:(lia)) as [_ [u Q]]. assert (F : forall u, Nat.iter u (hd_of h) (S j) = S j).
    { induction u0 as [|u0 IH]; [reflexivity|]. rewrite iter_shift. cbn [hd_of]. rewrite E. exact IH. } rewrite F in Q. discriminate. }
  rewrite !(@RProd_others _ N j Hj).
  assert (O : RProd (npw multi N len eps (somes (bump i j t pr)) h) (others N j) = RProd (npw multi N len eps (somes pr) h) (others N j)).
  { apply (Prod_ext_in R_csr). intros k Hk'. apply filter_In in Hk' as [_ Hk']. apply npw_bump_other; auto. left. now apply negb_true_iff, Nat.eqb_neq in Hk'. }
  rewrite O. set (X := Prod R_csr _ _). destruct (usesb multi N i j h) eqn:U.
  - rewrite npw_bump_used by auto. fold dE. change ((npw multi N len eps (somes pr) h j + dE) * (X : R) = npw multi N len eps (somes pr) h j * (X : R) + dE * (X : R)). ring.
  - rewrite npw_bump_other by auto. symmetry. apply Rplus_0_r.
Qed.
Theorem C12_gradient multi N len eps pr : (multi = false -> (1 <= N)%nat) -> 0 <= eps -> ((1 <= N)%nat -> (1 <= len_of N len)%nat) ->
  exists M, deptree_nonproj multi N len eps (somes pr) = Ok M /\ forall i j, (i < N)%nat -> (j < N)%nat ->
    exists F, (forall t, deptree_part multi N len eps (somes (bump i j t pr)) = Ok (Fin (F t))) /\ derivable_pt_lim F 0 (M i j).
Proof.
  intros HN He Hl. pose proof (@npZ_pos multi N len eps pr HN He Hl) as P. fold (somes pr) in P.
  destruct (@nonproj_spec multi N len eps (somes pr) HN ltac:(apply Rgt_not_eq; exact P)) as (M & E & H). exists M. split; auto.
  intros i j Hi Hj. exists (fun t => ln (npZ multi N len eps (somes (bump i j t pr)))). split.
  - intro t. unfold deptree_part. replace (negb multi && Nat.eqb N 0) with false by (destruct multi; [reflexivity|specialize (HN eq_refl); destruct N; [lia|reflexivity]]).
    rewrite det_npZ by auto. unfold logdet. destruct (Rlt_dec 0 _) as [|Q]; [reflexivity|]. exfalso. apply Q. apply (@npZ_pos multi N len eps (bump i j t pr) HN He Hl).
  - set (Z0 := npZ multi N len eps (somes pr)) in *. set (T := npT multi N len eps (somes pr) i j) in *. specialize (H i j Hi Hj). fold T in H.
    set (E0 := eexp (np_mask len (somes pr) i j)) in *.
    assert (DE : derivable_pt_lim (fun t => eexp (np_mask len (somes (bump i j t pr)) i j)) 0 E0).
    { unfold E0, np_mask, somes, bump. destruct len as [n|]; [destruct ((i <? n)%nat && (j <? n)%nat)|]; rewrite ?Nat.eqb_refl; cbn [andb eexp].
      - eapply dpl_to; [apply (derivable_pt_lim_comp (fun t => pr i j + t) exp 0 1 (exp (pr i j)))|reflexivity|ring].
        + eapply dpl_to; [apply (derivable_pt_lim_plus (fct_cte (pr i j)) id); [apply derivable_pt_lim_const|apply derivable_pt_lim_id]|reflexivity|ring].
        + rewrite Rplus_0_r. apply derivable_pt_lim_exp.
      - apply (derivable_pt_lim_const 0 0).
      - eapply dpl_to; [apply (derivable_pt_lim_comp (fun t => pr i j + t) exp 0 1 (exp (pr i j)))|reflexivity|ring].
        + eapply dpl_to; [apply (derivable_pt_lim_plus (fct_cte (pr i j)) id); [apply derivable_pt_lim_const|apply derivable_pt_lim_id]|reflexivity|ring].
        + rewrite Rplus_0_r. apply derivable_pt_lim_exp. }
    assert (DZ : derivable_pt_lim (fun t => npZ multi N len eps (somes (bump i j t pr))) 0 (E0 * T)).
    { eapply dpl_to; [apply (derivable_pt_lim_plus (fct_cte (Z0 - E0 * T)) (mult_real_fct T (fun t => eexp (np_mask len (somes (bump i j t pr)) i j))) 0 0 (T * E0));
        [apply derivable_pt_lim_const|apply derivable_pt_lim_scal; exact DE]| |ring].
      intro t. rewrite npZ_bump by auto. fold Z0 E0 T. unfold plus_fct, fct_cte, mult_real_fct. ring. }
    assert (B0 : npZ multi N len eps (somes (bump i j 0 pr)) = Z0).
    { rewrite npZ_bump by auto. fold Z0 E0 T. replace (eexp (np_mask len (somes (bump i j 0 pr)) i j)) with E0; [ring|].
      unfold E0, np_mask, somes, bump. rewrite !Nat.eqb_refl. cbn [andb]. rewrite Rplus_0_r. reflexivity. }
    eapply dpl_to; [apply (derivable_pt_lim_comp (fun t => npZ multi N len eps (somes (bump i j t pr))) ln 0 (E0 * T) (/ Z0) DZ)|reflexivity|].
    + rewrite B0. apply derivable_pt_lim_ln. exact P.
    + rewrite <- H. field. apply Rgt_not_eq. exact P.
Qed.
Print Assumptions C12_gradient.

Lemma tree_noself N h j : is_tree N h -> (j < N)%nat -> nth j h 0%nat <> S j.
Proof.
  intros [L Hk] Hj E. destruct (Hk (S j) ltac:(lia)) as [_ [u Q]]. assert (F : forall u, Nat.iter u (hd_of h) (S j) = S j).
  { induction u0 as [|u0 IH]; [reflexivity|]. rewrite iter_shift. cbn [hd_of]. rewrite E. exact IH. } rewrite F in Q. discriminate.
Qed.
Lemma pick_arc N h j (g : nat -> R) : is_tree N h -> (j < N)%nat ->
  RSum (fun i => if uses_arc i j h then g i else 0) (seq 0 N) = g (match nth j h 0%nat with O => j | S k => k end).
Proof.
  intros T Hj. pose proof (tree_noself T Hj) as NS. destruct T as [L Hk]. set (a := match nth j h 0%nat with O => j | S k => k end).
  assert (Ha : (a < N)%nat). { unfold a. destruct (Hk (S j) ltac:(lia)) as [Q _]. cbn [hd_of] in Q. destruct (nth j h 0%nat); lia. }
  rewrite (Sum_ext R_csr _ (fun i => if Nat.eqb i a then g i else 0)).
  - apply (Sum_seq_delta R_csr g). exact Ha.
  - intro i. unfold uses_arc, a. destruct (nth j h 0%nat) as [|k]; [destruct (Nat.eqb_spec i j); reflexivity|].
    destruct (Nat.eqb_spec i j) as [->|].
    + cbn [Nat.eqb]. destruct (Nat.eqb_spec j k); [congruence|reflexivity].
    + cbn [Nat.eqb]. rewrite (Nat.eqb_sym k i). reflexivity.
Qed.
(** every other word below word c *)
Definition hub (N c : nat) : list nat := map (fun k => if Nat.eqb k c then 0%nat else S c) (seq 0 N).
Lemma hub_ok multi N c : (c < N)%nat -> np_ok multi N (hub N c).
Proof.
  intro Hc. assert (L : length (hub N c) = N) by (unfold hub; now rewrite map_length, seq_length).
  assert (E : forall k, (k < N)%nat -> nth k (hub N c) 0%nat = if Nat.eqb k c then 0%nat else S c) by (intros; unfold hub; now apply nth_map_seq).
  split; [split; auto|right].
  - intros [|k] Hk; [lia|]. assert (E1 : hd_of (hub N c) (S c) = 0%nat) by (cbn [hd_of]; rewrite E, Nat.eqb_refl; auto).
    assert (E2 : hd_of (hub N c) (S k) = if Nat.eqb k c then 0%nat else S c) by (cbn [hd_of]; apply E; lia).
    rewrite E2. split; [destruct (Nat.eqb k c); lia|]. exists 2%nat. cbn [Nat.iter nat_rect]. rewrite E2. destruct (Nat.eqb k c); [reflexivity|exact E1].
  - unfold single_root. apply count_unique. rewrite L. split; [exists c; split; auto; rewrite E, Nat.eqb_refl; auto|].
    assert (U : forall k, (k < N)%nat -> nth k (hub N c) 0%nat = 0%nat -> k = c) by (intros k Hk; rewrite E by auto; destruct (Nat.eqb_spec k c); [auto|discriminate]).
    intros a d Ha Hd Ea Ed. rewrite (U a), (U d); auto.
Qed.
Lemma minus_lt (a b : R) : 0 < b -> a - b < a. Proof. lra. Qed.
(** with smoothing the columns no longer sum to one *)
Theorem C12_smoothed_columns multi N eps pr l M j : (2 <= N)%nat -> 0 < eps -> Enumerates (np_ok multi N) l ->
  deptree_nonproj multi N None eps (somes pr) = Ok M -> (j < N)%nat -> RSum (fun i => M i j) (seq 0 N) < 1.
Proof.
  intros HN He Hl EM Hj. assert (HN' : multi = false -> (1 <= N)%nat) by lia.
  set (Z := RSum (fun h => RProd (tw eps (somes pr) h) (seq 0 N)) l).
  assert (P : 0 < npZ multi N None eps (somes pr)) by (apply (@npZ_pos multi N None eps pr); auto; cbn; lra).
  rewrite (npZ_None eps (somes pr) HN' Hl) in P. fold Z in P.
  destruct (@C12_output multi N eps (somes pr) l HN' Hl) as (M' & E & H); [fold Z; apply Rgt_not_eq; exact P|]. rewrite EM in E. injection E as ->. fold Z in H.
  apply Rmult_lt_reg_l with Z; [exact P|]. rewrite Rmult_1_r. rewrite <- RSum_scal.
  rewrite (Sum_ext_in R_csr _ (fun i => RSum (fun h => if uses_arc i j h then exp (pr i j) * RProd (tw eps (somes pr) h) (others N j) else 0) l)).
  2: { intros i Hi. apply in_seq in Hi. rewrite H by lia. etransitivity; [symmetry; apply RSum_scal|]. symmetry. apply (@RSum_filter_in _ _ (fun h => eexp (somes pr i j) * RProd (tw eps (somes pr) h) (others N j))).
       reflexivity. }
  rewrite (Sum_comm R_csr). unfold Z.
  set (g := fun h => RProd (tw eps (somes pr) h) (others N j)).
  assert (G : forall h, 0 < g h).
  { intro h. unfold g. apply RProd_pos. intros k _. unfold tw, somes, eexp. pose proof (exp_pos (pr k k)). destruct (nth k h 0%nat) as [|x]; auto. pose proof (exp_pos (pr x k)). lra. }
  apply Rle_lt_trans with (RSum (fun h => RProd (tw eps (somes pr) h) (seq 0 N) - (if Nat.eqb (nth j h 0%nat) 0 then 0 else eps * g h)) l).
  2: { rewrite RSum_sub. apply minus_lt.
       set (c := if Nat.eqb j 0 then 1%nat else 0%nat). assert (Hc : (c < N)%nat) by (unfold c; destruct (Nat.eqb j 0); lia).
       assert (Hn : c <> j) by (unfold c; destruct (Nat.eqb_spec j 0); lia).
       apply Rlt_le_trans with (eps * g (hub N c)); [apply Rmult_lt_0_compat; auto|].
       eapply Rle_trans; [|apply (RSum_single (fun h => if Nat.eqb (nth j h 0%nat) 0 then 0 else eps * g h) (hub N c))].
       - unfold hub at 2. rewrite nth_map_seq by auto. destruct (Nat.eqb_spec j c); [congruence|]. cbn. lra.
       - apply Hl, hub_ok; auto.
       - intros h _. destruct (Nat.eqb (nth j h 0%nat) 0); [apply Rle_refl|]. left. apply Rmult_lt_0_compat; auto. }
  right. apply (Sum_ext_in R_csr). intros h Hh. assert (T : is_tree N h) by (apply Hl in Hh; exact (proj1 Hh)).
  etransitivity; [exact (@pick_arc N h j (fun i => exp (pr i j) * g h) T Hj)|]. cbv beta. rewrite (RProd_others (tw eps (somes pr) h) Hj).
  fold (g h). set (G0 := g h). assert (Et : tw eps (somes pr) h j = exp (pr match nth j h 0%nat with O => j | S k => k end j) + if Nat.eqb (nth j h 0%nat) 0 then 0 else eps).
  { unfold tw, somes, eexp. destruct (nth j h 0%nat); cbn [Nat.eqb]; ring. }
  rewrite Et. set (E0 := exp _). change (E0 * (G0 : R) = (E0 + (if Nat.eqb (nth j h 0%nat) 0 then 0 else eps)) * (G0 : R) - (if Nat.eqb (nth j h 0%nat) 0 then 0 else eps * (G0 : R))).
  destruct (Nat.eqb (nth j h 0%nat) 0); ring.
Qed.
Print Assumptions C12_smoothed_columns.

(** ** C13: padded rows *)
(** a tree of a sentence with [N - len] padded words below the root *)
Definition emb (N : nat) (h : list nat) : list nat := h ++ repeat 0%nat (N - length h).
Lemma emb_nth N h j : nth j (emb N h) 0%nat = if (j <? length h)%nat then nth j h 0%nat else 0%nat.
Proof.
  unfold emb. destruct (Nat.ltb_spec j (length h)); [now rewrite app_nth1|]. rewrite app_nth2 by auto.
  destruct (Nat.lt_ge_cases (j - length h) (N - length h)); [apply nth_repeat|]. apply nth_overflow. now rewrite repeat_length.
Qed.
Lemma emb_hd N h k : (k <= length h)%nat -> hd_of (emb N h) k = hd_of h k.
Proof. destruct k as [|k]; intro H; [reflexivity|]. cbn [hd_of]. rewrite emb_nth. destruct (Nat.ltb_spec k (length h)); [reflexivity|lia]. Qed.
Lemma tree_hd n h k : is_tree n h -> (k <= n)%nat -> (hd_of h k <= n)%nat.
Proof. intros [_ H] Hk. destruct k; [cbn; lia|]. apply H. lia. Qed.
Lemma emb_iter N h n : is_tree n h -> forall u k, (k <= n)%nat -> Nat.iter u (hd_of (emb N h)) k = Nat.iter u (hd_of h) k.
Proof.
  intro T. assert (L := proj1 T). induction u as [|u IH]; intros k Hk; [reflexivity|]. rewrite !iter_shift. rewrite emb_hd by lia. apply IH, tree_hd; auto.
Qed.
Lemma emb_tree N n h : is_tree n h -> (n <= N)%nat -> is_tree N (emb N h).
Proof.
  intros T Hn. pose proof T as [L Hk]. split; [unfold emb; rewrite app_length, repeat_length; lia|].
  intros k Hkb. destruct (Nat.le_gt_cases k n) as [Q|Q].
  - destruct (Hk k ltac:(lia)) as [A [u B]]. rewrite emb_hd by lia. split; [lia|]. exists u. rewrite (emb_iter N T) by auto. exact B.
  - assert (E : hd_of (emb N h) k = 0%nat) by (destruct k; [lia|]; cbn [hd_of]; rewrite emb_nth; destruct (Nat.ltb_spec k (length h)); [lia|reflexivity]).
    rewrite E. split; [lia|]. exists 1%nat. exact E.
Qed.
Lemma emb_top_gen N h n : is_tree n h -> forall f f' k, (f <= f')%nat -> (k <= n)%nat -> hd_of h (top f h k) = 0%nat -> top f' (emb N h) k = top f h k.
Proof.
  intro T. assert (L := proj1 T). induction f as [|f IH]; intros f' k Hf Hk E.
  - cbn [top] in *. destruct f' as [|f']; [reflexivity|]. cbn [top]. rewrite emb_hd by lia. now rewrite E.
  - destruct f' as [|f']; [lia|]. cbn [top] in *. rewrite emb_hd by lia. pose proof (tree_hd T Hk). destruct (hd_of h k); [reflexivity|]. apply IH; auto; lia.
Qed.
Lemma emb_top N h n : is_tree n h -> (1 <= n <= N)%nat -> top N (emb N h) 1 = top n h 1.
Proof.
  intros T Hn. apply emb_top_gen with n; auto; try lia. destruct (@top_root n h 0 T ltac:(lia)) as [j [Hj E Et]]. rewrite Et. exact E.
Qed.
Lemma emb_weight multi N n eps phi h : is_tree n h -> (1 <= n <= N)%nat ->
  RProd (npw multi N (Some n) eps phi (emb N h)) (seq 0 N) = RProd (npw multi n None eps phi h) (seq 0 n).
Proof.
  intros T Hn. pose proof T as [L Hk]. assert (Es : seq 0 N = seq 0 n ++ seq (0 + n) (N - n)) by (rewrite <- seq_app; f_equal; lia). rewrite Es, (Prod_app R_csr).
  destruct (@top_root n h 0 T ltac:(lia)) as [jt [Hjt _ Et]]. pose proof (emb_top T Hn) as Ete. rewrite Et in Ete.
  rewrite (Prod_ext_in R_csr _ (npw multi n None eps phi h) (seq 0 n)).
  - rewrite (Prod_ext_in R_csr _ (fun _ => 1) (seq (0 + n) (N - n))).
    + assert (P1 : forall l : list nat, RProd (fun _ => 1) l = 1) by (induction l as [|x l IH]; [reflexivity|]; change (1 * RProd (fun _ : nat => 1) l = 1); rewrite IH; ring).
      rewrite P1. apply Rmult_1_r.
    + intros j Hj. apply in_seq in Hj. unfold npw, wtr, wtr1, rw. rewrite Ete. rewrite emb_nth. destruct (Nat.ltb_spec j (length h)); [lia|].
      unfold np_mask, np_off. destruct (Nat.ltb_spec j n); [lia|]. cbn [andb eexp]. destruct (Nat.eqb_spec (S j) (S jt)); [lia|]. destruct multi; [apply Rplus_0_l|reflexivity].
  - intros j Hj. apply in_seq in Hj. unfold npw, wtr, wtr1, rw, aw. rewrite Ete, Et. rewrite emb_nth. destruct (Nat.ltb_spec j (length h)); [|lia].
    destruct (Hk (S j) ltac:(lia)) as [Hh _]. cbn [hd_of] in Hh. unfold np_mask, np_off. destruct (Nat.ltb_spec j n); [|lia]. cbn [andb].
    destruct (nth j h 0%nat) as [|k]; [destruct multi; reflexivity|]. destruct (Nat.ltb_spec k n); [|lia]. cbn [andb]. reflexivity.
Qed.
(** no arc between the sentence and the padding, and the padding below the root *)
Definition inside (N n : nat) (h : list nat) : bool :=
  forallb (fun j => if (j <? n)%nat then (nth j h 0%nat <=? n)%nat else Nat.eqb (nth j h 0%nat) 0) (seq 0 N).
Lemma inside_spec N n h : inside N n h = true <-> forall j, (j < N)%nat -> if (j <? n)%nat then (nth j h 0 <= n)%nat else nth j h 0%nat = 0%nat.
Proof.
  unfold inside. rewrite forallb_forall. split; intros H j Hj.
  - specialize (H j ltac:(apply in_seq; lia)). destruct (j <? n)%nat; [now apply Nat.leb_le|now apply Nat.eqb_eq].
  - apply in_seq in Hj. specialize (H j ltac:(lia)). destruct (j <? n)%nat; [now apply Nat.leb_le|now apply Nat.eqb_eq].
Qed.
Lemma inside_enum N n : (n <= N)%nat -> Permutation.Permutation (filter (inside N n) (trees N)) (map (emb N) (trees n)).
Proof.
  intro Hn. destruct (trees_enum N) as [Nd Hi]. destruct (trees_enum n) as [Nd' Hi']. apply Permutation.NoDup_Permutation.
  - apply NoDup_filter; auto.
  - assert (I : forall a c, In a (trees n) -> In c (trees n) -> emb N a = emb N c -> a = c).
    { intros a c Ha Hc E. apply Hi' in Ha as [La _]. apply Hi' in Hc as [Lc _]. unfold emb in E. rewrite La, Lc in E. now apply app_inv_tail in E. }
    clear Hi' Hi Nd. induction Nd' as [|x l Hx Nd' IH]; [constructor|]. cbn [map]. constructor.
    + rewrite in_map_iff. intros (y & E & Hy). apply Hx. rewrite <- (I y x); auto; [right|left]; auto.
    + apply IH. intros a c Ha Hc. apply I; right; auto.
  - intro h. rewrite filter_In, in_map_iff, Hi, inside_spec. split.
    + intros [[L Hk] P]. assert (Lf : length (firstn n h) = n) by (apply firstn_length_le; lia).
      assert (E : emb N (firstn n h) = h).
      { apply nth_ext with 0%nat 0%nat; [unfold emb; rewrite app_length, repeat_length; lia|]. intros j Hj.
        assert (HjN : (j < N)%nat) by (unfold emb in Hj; rewrite app_length, repeat_length, Lf in Hj; lia).
        rewrite emb_nth, Lf. specialize (P j HjN). destruct (Nat.ltb_spec j n) as [Q|Q]; [|now rewrite P].
        rewrite <- (firstn_skipn n h) at 2. rewrite app_nth1 by lia. reflexivity. }
      exists (firstn n h). split; auto. apply Hi'.
      assert (Hd : forall k, (k <= n)%nat -> hd_of (firstn n h) k = hd_of h k) by (intros k Hkn; rewrite <- E at 2; symmetry; apply emb_hd; lia).
      assert (Hb : forall k, (k <= n)%nat -> (hd_of h k <= n)%nat) by (intros [|k] Hkn; cbn [hd_of]; [lia|]; specialize (P k ltac:(lia)); destruct (Nat.ltb_spec k n); [auto|lia]).
      split; [exact Lf|]. intros k Hkn. rewrite Hd by lia. split; [apply Hb; lia|].
      destruct (Hk k ltac:(lia)) as [_ [u B]]. exists u. rewrite <- B. clear B.
      assert (Hkn' : (k <= n)%nat) by lia. clear Hkn. revert k Hkn'. induction u as [|u IH]; intros k Hkn; [reflexivity|]. rewrite !iter_shift, Hd by auto. apply IH, Hb; auto.
    + intros (h0 & <- & H0). apply Hi' in H0. split; [apply emb_tree with n; auto|]. intros j Hj. rewrite emb_nth. destruct H0 as [L Hk]. rewrite L.
      destruct (Nat.ltb_spec j n); [|reflexivity]. destruct (Hk (S j) ltac:(lia)) as [Q _]. exact Q.
Qed.
(** spec: weight of the trees that attach a word to padding *)
Definition leak_Z multi N n eps phi : R := RSum (fun h => RProd (npw multi N (Some n) eps phi h) (seq 0 N)) (filter (fun h => negb (inside N n h)) (trees N)).
Lemma npZ_pad multi N n eps phi : (1 <= n <= N)%nat -> npZ multi N (Some n) eps phi = npZ multi n None eps phi + leak_Z multi N n eps phi.
Proof.
  intro Hn. unfold npZ at 1, leak_Z. rewrite (RSum_split _ (inside N n)). f_equal.
  rewrite (Sum_perm R_csr _ (inside_enum (proj2 Hn))), (Sum_map R_csr). unfold npZ. apply (Sum_ext_in R_csr). intros h Hh. apply trees_enum in Hh. now apply emb_weight.
Qed.
Lemma leak_zero multi N n phi : leak_Z multi N n 0 phi = 0.
Proof.
  unfold leak_Z. apply (Sum_zero R_csr). intros h Hh. apply filter_In in Hh as [Hh P]. apply negb_true_iff in P.
  assert (X : existsb (fun j => negb (if (j <? n)%nat then (nth j h 0%nat <=? n)%nat else Nat.eqb (nth j h 0%nat) 0)) (seq 0 N) = true).
  { clear Hh. unfold inside in P. revert P. generalize (seq 0 N). intro s. induction s as [|j s IH]; [discriminate|]. cbn [forallb existsb]. destruct (if (j <? n)%nat then _ else _); cbn; auto. }
  apply existsb_exists in X as (j & Hj & X). apply negb_true_iff in X. apply (RProd_zero _ _ j Hj).
  unfold npw, wtr, wtr1, aw, np_mask. destruct (nth j h 0%nat) as [|k]; [destruct (j <? n)%nat; discriminate|].
  assert (Q : (k <? n)%nat && (j <? n)%nat = false) by (destruct (Nat.ltb_spec j n), (Nat.ltb_spec k n); auto; apply Nat.leb_gt in X; lia).
  rewrite Q. cbn [eexp]. destruct multi; apply Rplus_0_l.
Qed.
Lemma leak_pos multi N n eps pr : (1 <= n < N)%nat -> 0 < eps -> 0 < leak_Z multi N n eps (somes pr).
Proof.
  intros Hn He. unfold leak_Z.
  eapply Rlt_le_trans; [apply (@star_pos multi N (Some n) eps pr true); cbn [len_of]; try lia; try lra|]. cbn [len_of].
  apply (RSum_single (fun h => RProd (npw multi N (Some n) eps (somes pr) h) (seq 0 N))).
  - apply filter_In. split; [apply trees_enum, star_tree; lia|]. apply negb_true_iff. destruct (inside N n (star N n true)) eqn:E; [|reflexivity].
    rewrite inside_spec in E. specialize (E (N - 1)%nat ltac:(lia)). unfold star in E. rewrite nth_map_seq in E by lia. rewrite Nat.eqb_refl in E.
    destruct (Nat.ltb_spec (N - 1) n); [lia|]. destruct (Nat.eqb_spec (N - 1) 0); [lia|]. discriminate.
  - intros h _. apply RProd_nonneg. intros. apply npw_nonneg. lra.
Qed.
(** without smoothing a padded row has the log-partition of the unpadded row *)
Theorem C13_padding_exact multi N n phi : (1 <= n <= N)%nat -> deptree_part multi N (Some n) 0 phi = deptree_part multi n None 0 phi.
Proof.
  intro Hn. unfold deptree_part. destruct (Nat.eqb_spec N 0); [lia|]. destruct (Nat.eqb_spec n 0); [lia|]. rewrite andb_false_r.
  rewrite !det_npZ by lia. rewrite npZ_pad, leak_zero by auto. do 2 f_equal. apply Rplus_0_r.
Qed.
(** with smoothing it is strictly larger: the smoothing constant also connects the
    sentence with its padding *)
Theorem C13_padding_leak multi N n eps pr : (1 <= n < N)%nat -> 0 < eps -> exists x y,
  deptree_part multi N (Some n) eps (somes pr) = Ok (Fin x) /\ deptree_part multi n None eps (somes pr) = Ok (Fin y) /\ y < x.
Proof.
  intros Hn He. assert (P : 0 < npZ multi n None eps (somes pr)) by (apply (@npZ_pos multi n None eps pr); cbn [len_of]; try lia; lra).
  pose proof (@leak_pos multi N n eps pr Hn He) as Q.
  assert (E : npZ multi N (Some n) eps (somes pr) = npZ multi n None eps (somes pr) + leak_Z multi N n eps (somes pr)) by (apply npZ_pad; lia).
  unfold deptree_part. destruct (Nat.eqb_spec N 0); [lia|]. destruct (Nat.eqb_spec n 0); [lia|]. rewrite andb_false_r.
  rewrite !det_npZ by lia. unfold logdet. destruct (Rlt_dec 0 (npZ multi N (Some n) eps (somes pr))); [|exfalso; lra]. destruct (Rlt_dec 0 (npZ multi n None eps (somes pr))); [|contradiction].
  do 2 eexists. split; [reflexivity|]. split; [reflexivity|]. apply ln_increasing; lra.
Qed.
(** the claim for the smoothing constant of the code (deptree.py 192: eps = 1e-5) *)
Theorem C13_padding_refuted : exists multi N n phi, (1 <= n < N)%nat /\ (forall i j, phi i j <> None) /\
  deptree_part multi N (Some n) (/ 100000) phi <> deptree_part multi n None (/ 100000) phi.
Proof.
  exists true, 3%nat, 2%nat, (somes (fun _ _ => 0)). split; [lia|]. split; [discriminate|].
  destruct (@C13_padding_leak true 3 2 (/ 100000) (fun _ _ => 0) ltac:(lia) ltac:(lra)) as (x & y & -> & -> & H). intro Q. injection Q as ->. lra.
Qed.
(** the marginals: nothing is ever attached to or below a padded word *)
Theorem C13_padding_marginals multi N n eps pr : (1 <= n <= N)%nat -> 0 <= eps -> exists M,
  deptree_nonproj multi N (Some n) eps (somes pr) = Ok M /\ forall i j, (i < N)%nat -> (j < N)%nat -> (n <= i \/ n <= j)%nat -> M i j = 0.
Proof.
  intros Hn He. assert (P : 0 < npZ multi N (Some n) eps (somes pr)) by (apply (@npZ_pos multi N (Some n) eps pr); cbn [len_of]; try lia; lra).
  destruct (@nonproj_spec multi N (Some n) eps (somes pr) ltac:(lia) ltac:(lra)) as (M & E & H). exists M. split; auto. intros i j Hi Hj Hp.
  specialize (H i j Hi Hj). unfold np_mask in H. replace ((i <? n)%nat && (j <? n)%nat) with false in H by (destruct (Nat.ltb_spec i n), (Nat.ltb_spec j n); auto; lia).
  cbn [eexp] in H. rewrite Rmult_0_l in H. apply Rmult_integral in H as [H|H]; [lra|auto].
Qed.
(** without smoothing the marginals inside the sentence are those of the unpadded row *)
Theorem C13_marginals_exact multi N n pr : (1 <= n <= N)%nat -> exists M M',
  deptree_nonproj multi N (Some n) 0 (somes pr) = Ok M /\ deptree_nonproj multi n None 0 (somes pr) = Ok M' /\
  forall i j, (i < n)%nat -> (j < n)%nat -> M i j = M' i j.
Proof.
  intro Hn. destruct (@C12_gradient multi N (Some n) 0 pr ltac:(lia) (Rle_refl 0) ltac:(cbn [len_of]; lia)) as (M & E & H).
  destruct (@C12_gradient multi n None 0 pr ltac:(lia) (Rle_refl 0) ltac:(cbn [len_of]; lia)) as (M' & E' & H').
  exists M, M'. split; auto. split; auto. intros i j Hi Hj. destruct (H i j ltac:(lia) ltac:(lia)) as (F & HF & D). destruct (H' i j Hi Hj) as (F' & HF' & D').
  eapply uniqueness_limite; [exact D|]. eapply dpl_to; [exact D'| |reflexivity]. intro t. specialize (HF t). specialize (HF' t). rewrite C13_padding_exact in HF by auto. congruence.
Qed.
Print Assumptions C13_marginals_exact.

(** two words, one root child, equal scores: the two trees share the mass *)
Example C12_example : exists M, deptree_nonproj false 2 None 0 (real_row (fun _ => 0) 0) = Ok M /\ M 0%nat 0%nat = / 2 /\ M 0%nat 1%nat = / 2.
Proof.
  assert (Hl : Enumerates (np_ok false 2) [[0;1];[2;0]]%nat).
  { split; [repeat (constructor; [cbn; intuition discriminate|]); constructor|]. intro h.
    assert (T : forall h, length h = 2%nat -> (forall k, (1 <= k <= 2)%nat -> (hd_of h k <= 2)%nat /\ Nat.iter 2 (hd_of h) k = 0%nat) -> is_tree 2 h).
    { intros h0 L H0. split; auto. intros k Hk. destruct (H0 k Hk). split; auto. exists 2%nat; auto. }
    split.
    - intro H. repeat (destruct H as [<-|H]; [split; [apply T; [reflexivity|]; intros k Hk; destruct k as [|[|[|k]]]; try lia; cbn; split; lia|right; reflexivity]|]). destruct H.
    - intros [Ht Hs]. assert (Hs' : single_root h) by (destruct Hs; [discriminate|auto]). pose proof Ht as [L Hk].
      pose proof (@tree_noself 2 h 0 Ht ltac:(lia)) as N0. pose proof (@tree_noself 2 h 1 Ht ltac:(lia)) as N1.
      pose proof (proj1 (Hk 1%nat ltac:(lia))) as B0. pose proof (proj1 (Hk 2%nat ltac:(lia))) as B1.
      destruct h as [|a [|d [|? ?]]]; try discriminate. cbn in N0, N1, B0, B1. unfold single_root in Hs'.
      assert (Ha : a = 0%nat \/ a = 2%nat) by lia. assert (Hd : d = 0%nat \/ d = 1%nat) by lia.
      destruct Ha as [-> | ->], Hd as [-> | ->]; cbn in Hs'; try discriminate; cbn; auto. }
  destruct (@C12_marginals false 2 (fun _ => 0) 0 _ ltac:(lia) Hl) as (M & E & H). exists M. split; [exact E|]. rewrite !H by lia.
  assert (S0 : forall h, sc (dep_parts 0) (fun _ => 0) h = 0) by (intro h; unfold sc; apply (Sum_zero R_csr); reflexivity).
  assert (P0 : forall h, prob (dep_parts 0) [[0;1];[2;0]]%nat (fun _ => 0) h = / 2).
  { intro h. unfold prob, ZS. rewrite !RSum_cons, !S0, exp_0. change (Sum R_csr (fun s => exp (sc (dep_parts 0) (fun _ => 0) s)) []) with 0. field. }
  unfold marg_spec. rewrite !RSum_cons, !P0. change (RSum _ []) with 0. rewrite !uses_count by (try (apply Hl; cbn; auto); cbn; lia). cbn. lra.
Qed.
