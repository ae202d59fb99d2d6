(** * LcMax: the exact value of LinearChain under MaxSemiring with its finite zero. *)
From Verif Require Import Base Ops Chain LinearChain Terms Poly Semirings Laws.
Set Implicit Arguments.
Local Open Scope R_scope.

(** reals with minus infinity under max and + *)
Definition tplus (a b : option R) : option R :=
  match a, b with Some x, Some y => Some (Rmax x y) | Some x, None => Some x | None, b => b end.
(** spec: addition of scores, minus infinity absorbs *)
Definition ttimes (a b : option R) : option R :=
  match a, b with Some x, Some y => Some (x + y) | _, _ => None end.
(** spec: the max-plus semiring with minus infinity *)
Definition trop : csr.
Proof.
  refine (@Csr (option R) None (Some 0) tplus ttimes _ _ _ _ _ _ _ _).
  - intros [x|] [y|]; simpl; auto. f_equal. apply Rmax_comm.
  - intros [x|] [y|] [w|]; simpl; auto. f_equal. apply Rmax_assoc.
  - intros [x|]; auto.
  - intros [x|] [y|]; simpl; auto. f_equal. ring.
  - intros [x|] [y|] [w|]; simpl; auto. f_equal. ring.
  - intros [x|]; simpl; auto. f_equal. ring.
  - intros [x|]; auto.
  - intros [x|] [y|] [w|]; simpl; auto. f_equal.
    unfold Rmax. destruct (Rle_dec y w), (Rle_dec (x + y) (x + w)); auto; lra.
Defined.

Lemma trop_resp z : resp (max_ops z) (csr_opsz trop (Some z)) (fun x y => Some x = y).
Proof.
  constructor; auto.
  - intros a a' b b' <- <-. reflexivity.
  - intros l l' Hl H. simpl. destruct H as [|x y l l' <- H]; [congruence|]. clear Hl. cbn [rmax].
    assert (E : l' = map Some l) by (induction H as [|a b l l' <- H IH]; [reflexivity|cbn; f_equal; exact IH]). subst l'. clear H.
    induction l as [|a l IH]; [reflexivity|]. cbn [fold_right map]. rewrite ksum_cons in *. rewrite ksum_cons.
    cbn [kadd trop] in *. change (Some (Rmax a (fold_right Rmax x l)) = tplus (Some x) (tplus (Some a) (ksum trop (map Some l)))).
    change (Some (fold_right Rmax x l) = tplus (Some x) (ksum trop (map Some l))) in IH.
    destruct (ksum trop (map Some l)) as [s|]; simpl in *; injection IH as ->; f_equal.
    + unfold Rmax. repeat destruct Rle_dec; lra.
    + apply Rmax_comm.
Qed.

Lemma trop_Sum A (f : A -> R) l : l <> [] -> exists v, Sum trop (fun x => Some (f x)) l = Some v /\ is_max v (map f l).
Proof.
  induction l as [|a l IH]; [congruence|]. intros _. rewrite Sum_cons. destruct l as [|b l].
  - exists (f a). split; [reflexivity|]. split; [left; auto|]. intros x [<-|[]]. lra.
  - destruct IH as (v & E & H1 & H2); [discriminate|]. cbn [kadd trop]. rewrite E. exists (Rmax (f a) v). split; [reflexivity|].
    split.
    + unfold Rmax. destruct Rle_dec; [right; auto|left; auto].
    + intros x [<-|Hx]; [apply Rmax_l|]. eapply Rle_trans; [apply H2; auto|apply Rmax_r].
Qed.
Lemma trop_Prod A (f : A -> R) l : Prod trop (fun x => Some (f x)) l = Some (RSum f l).
Proof. induction l as [|a l IH]; [reflexivity|]. rewrite Prod_cons, IH, RSum_cons. reflexivity. Qed.

(** ** the chart as a sum over paths, whatever the zero is *)
Section Paths.
  Variable S : csr.
  Variable z : S.
  Lemma wt_map (f : nat -> nat -> nat -> S) y : forall j n0,
    wt S (map f (seq n0 (length y))) (j :: y) =
    Prod S (fun n => f (n0 + n)%nat (nth (n + 1) (j :: y) 0%nat) (nth n (j :: y) 0%nat)) (seq 0 (length y)).
  Proof.
    induction y as [|k y IH]; intros j n0; [reflexivity|].
    cbn [length seq map wt]. rewrite Prod_cons. f_equal.
    - f_equal. lia.
    - rewrite IH. rewrite <- seq_shift, Prod_map. apply Prod_ext. intro n.
      cbn [nth Nat.add]. f_equal. lia.
  Qed.
  Lemma lc_one_paths C k pot b len : (0 < C)%nat ->
    lc_one (csr_opsz S z) C k (2 ^ k) pot b len =
    Sum S (fun y => Prod S (fun n => lc_cell (csr_opsz S z) pot b len n (nth (n + 1) y 0%nat) (nth n y 0%nat)) (seq 0 (2 ^ k)))
      (seqs C (2 ^ k + 1)).
  Proof.
    intro HC. unfold lc_one.
    destruct (scan_mprod S C k (lc_chart (csr_opsz S z) pot b len (2 ^ k))) as (M & HM & E).
    { unfold lc_chart. now rewrite map_length, seq_length. }
    change (scan (csr_opsz S z)) with (scan (csr_ops S)). rewrite HM.
    change (sum2 (csr_opsz S z) C M) with (sum2 (csr_ops S) C M). rewrite (sum2_tot _ E).
    replace (2 ^ k + 1)%nat with (Datatypes.S (2 ^ k)) by lia. cbn [seqs]. rewrite Sum_flat_map.
    apply Sum_seq_ext. intros j Hj. rewrite tot_paths by lia. rewrite Sum_map. unfold lc_chart.
    rewrite map_length, seq_length. apply Sum_ext_in. intros y Hy.
    apply (proj2 (seqs_enum C (2 ^ k))) in Hy as [Hl _]. rewrite <- Hl. rewrite wt_map. reflexivity.
  Qed.
End Paths.

(** ** Max *)
Section Max.
  Variable z : R.
  Hypothesis Hz : z <= 0.
  Variables (phi : list nat -> R) (b len C k : nat).
  Hypothesis HC : (0 < C)%nat.
  Hypothesis Hlen : (len - 1 <= 2 ^ k)%nat.
  (** a path cell *)
  Definition mcell (n i j : nat) : R :=
    if lc_mask len n then (if (i =? j)%nat then 0 else z) else Rmax z (phi [b; n; i; j]).

  Lemma mcell_eq n i j : lc_cell (max_ops z) phi b len n i j = mcell n i j.
  Proof.
    unfold lc_cell, lc_init, fill, mcell. cbn. destruct (lc_mask len n); cbn; [|apply Rmax_comm].
    destruct (i =? j)%nat; unfold Rmax; destruct Rle_dec; lra.
  Qed.
  Lemma lc_one_paths_max : is_max (lc_one (max_ops z) C k (2 ^ k) phi b len)
    (map (fun y => RSum (fun n => mcell n (nth (n + 1) y 0%nat) (nth n y 0%nat)) (seq 0 (2 ^ k))) (seqs C (2 ^ k + 1))).
  Proof.
    pose proof (@resp_lc_one _ _ _ (trop_resp z) phi (fun e => Some (phi e)) (fun e => eq_refl) C k (2 ^ k) b len HC) as E.
    rewrite lc_one_paths in E by auto.
    match type of E with _ = Sum _ ?f ?l => rewrite (@Sum_ext trop _ f (fun y => Some (RSum (fun n => mcell n (nth (n + 1) y 0%nat) (nth n y 0%nat)) (seq 0 (2 ^ k)))) l) in E end.
    - assert (Hne : seqs C (2 ^ k + 1) <> []).
      { intro H. assert (I : In (repeat 0%nat (2 ^ k + 1)) (seqs C (2 ^ k + 1))).
        { apply seqs_enum. split; [apply repeat_length|]. apply Forall_forall. intros x Hx. apply repeat_spec in Hx. lia. }
        rewrite H in I. destruct I. }
      destruct (@trop_Sum _ (fun y => RSum (fun n => mcell n (nth (n + 1) y 0%nat) (nth n y 0%nat)) (seq 0 (2 ^ k))) _ Hne) as (v & E' & M).
      assert (E2 := eq_trans E E'). injection E2 as ->. exact M.
    - intro y. rewrite <- trop_Prod. apply Prod_ext. intro n. rewrite <- mcell_eq. symmetry.
      exact (@resp_lc_cell _ _ _ (trop_resp z) phi (fun e => Some (phi e)) (fun e => eq_refl) b len n _ _).
  Qed.

  (** spec: score of a sequence whose parts are replaced by at least z *)
  Definition floored (y : list nat) : R := RSum (fun e => Rmax z (phi e)) (seq_parts b y).
  Lemma path_split (y : list nat) : (length y = 2 ^ k + 1)%nat ->
    RSum (fun n => mcell n (nth (n + 1) y 0%nat) (nth n y 0%nat)) (seq 0 (2 ^ k)) =
    floored (firstn (Nat.max 1 len) y) +
    RSum (fun n => if (nth (n + 1) y 0 =? nth n y 0)%nat then 0 else z) (seq (len - 1) (2 ^ k - (len - 1))).
  Proof.
    intro Hy. replace (seq 0 (2 ^ k)) with (seq 0 (len - 1) ++ seq (len - 1) (2 ^ k - (len - 1)))
      by (rewrite <- seq_app; f_equal; lia).
    rewrite RSum_app. f_equal.
    - unfold floored, seq_parts. rewrite firstn_length. replace (Nat.min (Nat.max 1 len) (length y) - 1)%nat with (len - 1)%nat by lia.
      etransitivity; [|symmetry; apply (Sum_map R_csr)]. apply (Sum_ext_in R_csr). intros n Hn. apply in_seq in Hn. unfold mcell.
      replace (lc_mask len n) with false by (symmetry; apply Nat.leb_gt; lia).
      assert (N : forall m, (m < Nat.max 1 len)%nat -> nth m (firstn (Nat.max 1 len) y) 0%nat = nth m y 0%nat).
      { intros m Hm. rewrite <- (firstn_skipn (Nat.max 1 len) y) at 2. rewrite app_nth1; auto. rewrite firstn_length. lia. }
      rewrite !N by lia. reflexivity.
    - apply (Sum_ext_in R_csr). intros n Hn. apply in_seq in Hn. unfold mcell.
      replace (lc_mask len n) with true by (symmetry; apply Nat.leb_le; lia). reflexivity.
  Qed.

  Theorem lc_one_max : 
    (exists y, is_seq C (Nat.max 1 len) y /\ lc_one (max_ops z) C k (2 ^ k) phi b len = floored y) /\
    (forall y, is_seq C (Nat.max 1 len) y -> floored y <= lc_one (max_ops z) C k (2 ^ k) phi b len).
  Proof.
    destruct lc_one_paths_max as [H1 H2].
    assert (Low : forall y, is_seq C (Nat.max 1 len) y -> floored y <= lc_one (max_ops z) C k (2 ^ k) phi b len).
    { intros y [Hl Hy]. set (y' := y ++ repeat (last y 0%nat) (2 ^ k + 1 - Nat.max 1 len)).
      assert (Hy0 : y <> []) by (intros ->; cbn [length] in Hl; lia).
      assert (Ly : length y' = (2 ^ k + 1)%nat) by (unfold y'; rewrite app_length, repeat_length; lia).
      assert (Iy : In y' (seqs C (2 ^ k + 1))).
      { apply seqs_enum. split; auto. apply Forall_app. split; auto. apply Forall_forall. intros x Hx. apply repeat_spec in Hx. subst x.
        rewrite Forall_forall in Hy. apply Hy. destruct (exists_last Hy0) as (y0 & x & ->). rewrite last_last. apply in_or_app. right; left; auto. }
      eapply Rle_trans; [|apply H2, in_map, Iy]. rewrite path_split by auto.
      assert (E : firstn (Nat.max 1 len) y' = y).
      { unfold y'. rewrite firstn_app, <- Hl, firstn_all, Nat.sub_diag. simpl. apply app_nil_r. }
      rewrite E.
      assert (Z : RSum (fun n => if (nth (n + 1) y' 0 =? nth n y' 0)%nat then 0 else z) (seq (len - 1) (2 ^ k - (len - 1))) = 0).
      { etransitivity; [apply (Sum_ext_in R_csr) with (g := fun _ => 0)|apply (Sum_0 R_csr)].
        intros n Hn. apply in_seq in Hn.
        assert (N : forall m, (len - 1 <= m < 2 ^ k + 1)%nat -> nth m y' 0%nat = last y 0%nat).
        { intros m Hm. unfold y'. destruct (Nat.lt_ge_cases m (length y)) as [Hlt|Hge].
          - rewrite app_nth1 by auto. destruct (exists_last Hy0) as (y0 & x & ->). rewrite last_last.
            rewrite app_length in *. cbn [length] in *. rewrite app_nth2 by lia. replace (m - length y0)%nat with 0%nat by lia. reflexivity.
          - rewrite app_nth2 by auto. rewrite nth_indep with (d' := last y 0%nat) by (rewrite repeat_length; lia). apply nth_repeat. }
        rewrite !N by lia. now rewrite Nat.eqb_refl. }
      rewrite Z. lra. }
    split; auto. apply in_map_iff in H1 as (y & E & Hy). apply seqs_enum in Hy as [Hl Hy].
    exists (firstn (Nat.max 1 len) y).
    assert (Q : is_seq C (Nat.max 1 len) (firstn (Nat.max 1 len) y)).
    { split; [rewrite firstn_length; lia|]. rewrite Forall_forall in *. intros x Hx. apply Hy.
      rewrite <- (firstn_skipn (Nat.max 1 len) y). apply in_or_app. auto. }
    split; auto. apply Rle_antisym; [|auto]. rewrite <- E, path_split by auto.
    assert (N : RSum (fun n => if (nth (n + 1) y 0 =? nth n y 0)%nat then 0 else z) (seq (len - 1) (2 ^ k - (len - 1))) <= 0).
    { eapply Rle_trans; [apply RSum_le with (g := fun _ => 0)|rewrite (Sum_0 R_csr); apply Rle_refl]. intros n _. cbn. destruct (_ =? _)%nat; lra. }
    lra.
  Qed.
End Max.
