(** * MaskKMax: the k-max semiring when potentials may be minus infinity. *)
From Coq Require Import Sorted.
From Verif Require Import Base Ops Terms Poly Semirings Family Approx Grad Dist Shape Dag KMax Mask.
Set Implicit Arguments.
Local Open Scope R_scope.

(** ** torch.topk on floats with -inf *)
(** proof device: [xle] is decidable *)
Definition xle_dec (a b : ext) : {xle a b} + {~ xle a b}.
Proof. destruct a as [x|], b as [y|]; simpl; try (left; exact I); try (right; tauto). apply Rle_dec. Defined.
(** spec: insertion into a list sorted from large to small *)
Fixpoint xins (x : ext) (l : list ext) : list ext :=
  match l with [] => [x] | y :: l' => if xle_dec y x then x :: y :: l' else y :: xins x l' end.
(** spec: a list sorted from large to small *)
Fixpoint xsort (l : list ext) : list ext := match l with [] => [] | x :: l' => xins x (xsort l') end.
(** torch.topk(l, k)[0] (semirings.py:210, 232) *)
Definition xtopk (k : nat) (l : list ext) : list ext := firstn k (xsort l).
(** semirings.py:177-237 [KMaxSemiring(k)] (see KMax.kmax_ops) on floats with -inf:
    zero and one 182-183 hold the finite -1e5, [sum] 204-213, [mul] 227-235 *)
Definition xkmax_ops (k : nat) (z : R) : ops :=
  {| car := list ext; ssum := fun xs => xtopk k (concat xs); smul := fun a b => xtopk k (psums xplus a b);
     szero := repeat (Some z) k; sone := Some 0 :: repeat (Some z) (k - 1); sover := fun _ => repeat (Some z) k |}.
(** semirings.py:189-198 [convert]: slot 0 is the potential, the others the finite -1e5 *)
Definition xkmax_convert (k : nat) (z : R) (x : ext) : list ext := x :: repeat (Some z) (k - 1).

(** ** The finite entries *)
(** proof device: the entries that are not -inf, in order *)
Definition fins (l : list ext) : list R := flat_map (fun x => match x with Some r => [r] | None => [] end) l.
(** spec: sorted from large to small *)
Definition xdesc : list ext -> Prop := StronglySorted (fun a b => xle b a).
Lemma fins_app a b : fins (a ++ b) = fins a ++ fins b.
Proof. apply flat_map_app. Qed.
Lemma xins_perm x l : Permutation (xins x l) (x :: l).
Proof.
  induction l as [|y l IH]; simpl; auto. destruct (xle_dec y x); auto. rewrite IH. apply perm_swap.
Qed.
Lemma xsort_perm l : Permutation (xsort l) l.
Proof. induction l as [|x l IH]; simpl; auto. rewrite xins_perm. now constructor. Qed.
Lemma xle_total a b : ~ xle a b -> xle b a.
Proof. destruct a, b; simpl; try tauto. lra. Qed.
Lemma xins_desc x l : xdesc l -> xdesc (xins x l).
Proof.
  induction 1 as [|y l Hl IH Hy]; simpl; [repeat constructor|]. destruct (xle_dec y x) as [L|L].
  - constructor; [now constructor|]. constructor; auto. eapply Forall_impl; [|exact Hy]. intros a Ha. now apply xle_trans with y.
  - constructor; auto. apply Forall_forall. intros a Ha. apply (Permutation_in _ (xins_perm x l)) in Ha. destruct Ha as [<-|Ha].
    + now apply xle_total.
    + rewrite Forall_forall in Hy. auto.
Qed.
Lemma xsort_desc l : xdesc (xsort l).
Proof. induction l; simpl; [constructor|now apply xins_desc]. Qed.
Lemma xdesc_firstn k l : xdesc l -> xdesc (firstn k l).
Proof.
  intro H. revert k. induction H as [|x l Hl IH Hx]; intros [|k]; simpl; try constructor; [apply IH|]. apply Forall_forall. intros a Ha.
  rewrite Forall_forall in Hx. apply Hx. rewrite <- (firstn_skipn k l). apply in_or_app. now left.
Qed.
Lemma xtopk_desc k l : xdesc (xtopk k l).
Proof. apply xdesc_firstn, xsort_desc. Qed.
Lemma xtopk_length k l : length (xtopk k l) = Nat.min k (length l).
Proof. unfold xtopk. rewrite firstn_length. f_equal. apply Permutation_length, xsort_perm. Qed.
(** a sorted list: numbers first, then -inf *)
Lemma xdesc_split l : xdesc l -> l = map Some (fins l) ++ repeat None (length l - length (fins l)).
Proof.
  induction 1 as [|x l Hl IH Hx]; auto. destruct x as [x|]; simpl.
  - f_equal. exact IH.
  - assert (E : fins l = [] /\ l = repeat None (length l)).
    { clear - Hx. induction Hx as [|y l Hy Hl IH]; auto. destruct y; [destruct Hy|]. destruct IH as [I1 I2]. simpl. rewrite I1. split; auto. f_equal. exact I2. }
    destruct E as [E1 E2]. rewrite E1. simpl. f_equal. exact E2.
Qed.
Lemma fins_desc l : xdesc l -> desc (fins l).
Proof.
  induction 1 as [|x l Hl IH Hx]; simpl; [constructor|]. destruct x as [x|]; simpl; auto. constructor; auto.
  apply Forall_forall. intros y Hy. apply in_flat_map in Hy as (a & Ha & Hy). destruct a as [a|]; [|destruct Hy]. destruct Hy as [<-|[]].
  rewrite Forall_forall in Hx. apply (Hx _ Ha).
Qed.
Lemma fins_perm a b : Permutation a b -> Permutation (fins a) (fins b).
Proof. intro H. unfold fins. now apply Permutation_flat_map. Qed.
Lemma fins_some l : fins (map Some l) = l.
Proof. induction l; simpl; auto. now rewrite IHl. Qed.
Lemma fins_none n : fins (repeat None n) = [].
Proof. induction n; auto. Qed.
Lemma fins_length l : (length (fins l) <= length l)%nat.
Proof. induction l as [|[x|] l IH]; simpl; lia. Qed.
Lemma fins_topk k l : fins (xtopk k l) = topk k (fins l).
Proof.
  unfold xtopk, topk.
  assert (E : fins (xsort l) = dsort (fins l)).
  { apply desc_ext; [apply fins_desc, xsort_desc|apply dsort_desc|]. intro y. apply cge_perm.
    rewrite (fins_perm (xsort_perm l)). symmetry. apply dsort_perm. }
  rewrite <- E. set (s := xsort l). assert (D : xdesc s) by apply xsort_desc. rewrite (xdesc_split D) at 1.
  rewrite firstn_app, fins_app, firstn_map, fins_some.
  assert (H : forall m n, fins (firstn m (repeat None n)) = []).
  { intros m n. revert m. induction n; intros [|m]; simpl; auto. }
  now rewrite H, app_nil_r.
Qed.
Lemma fins_concat ls : fins (concat ls) = concat (map fins ls).
Proof. induction ls; simpl; auto. now rewrite fins_app, IHls. Qed.
Lemma fins_plus x l : fins (map (xplus (Some x)) l) = map (Rplus x) (fins l).
Proof. induction l as [|[y|] l IH]; simpl; auto. now rewrite IH. Qed.
Lemma fins_psum a b : fins (psums xplus a b) = psum (fins a) (fins b).
Proof.
  unfold psums. induction a as [|[x|] a IH]; auto; cbn [flat_map]; rewrite fins_app, IH.
  - rewrite fins_plus. reflexivity.
  - assert (E : fins (map (xplus None) b) = []) by (clear; induction b; simpl; auto). rewrite E; reflexivity.
Qed.
(** a sorted list is the k largest when it counts right *)
Lemma xtopk_char k l v : xdesc v -> length v = Nat.min k (length l) ->
  (forall y, cge y (fins v) = Nat.min k (cge y (fins l))) -> v = xtopk k l.
Proof.
  intros D L H. assert (E : fins v = fins (xtopk k l)).
  { rewrite fins_topk. apply topk_char; auto. now apply fins_desc. }
  rewrite (xdesc_split D), (xdesc_split (xtopk_desc k l)), E, L, xtopk_length. reflexivity.
Qed.
Lemma xtopk_rest k l : exists rest, Permutation l (xtopk k l ++ rest) /\ forall x y, In x (xtopk k l) -> In y rest -> xle y x.
Proof.
  exists (skipn k (xsort l)). split.
  - unfold xtopk. rewrite firstn_skipn. symmetry. apply xsort_perm.
  - unfold xtopk. pose proof (xsort_desc l) as D. revert D. generalize (xsort l) as s. intros s D. revert k.
    induction D as [|x s Hs IH Hx]; intros [|k] a b Ha Hb; simpl in *; try contradiction.
    destruct Ha as [<-|Ha]; [|now apply (IH k)]. rewrite Forall_forall in Hx. apply Hx.
    rewrite <- (firstn_skipn k s). apply in_or_app. now right.
Qed.

(** ** Values of terms *)
(** proof device: the derivation uses no forbidden part *)
Definition mok (phi : list nat -> ext) (m : deriv) : bool := forallb (fun e => negb (is_none (phi e))) (leaves m).
Lemma xscore_mok phi z m : xscore phi z m = if mok phi m then Some (score (fin phi) z m) else None.
Proof. apply xscore_fin. Qed.
Lemma xscore_leaf phi z e : xscore phi z [AL e] = phi e.
Proof. rewrite xscore_mok. unfold mok. simpl. rewrite andb_true_r, score_one. simpl. unfold fin. destruct (phi e); reflexivity. Qed.
Lemma xscore_zeros phi z n : map (xscore phi z) (repeat [AZ] n) = repeat (Some z) n.
Proof. induction n; simpl; auto. rewrite IHn. f_equal. simpl. f_equal. ring. Qed.
Lemma xscore_nil phi z : xscore phi z [] = Some 0.
Proof. reflexivity. Qed.
Lemma xscore_over phi z e : xscore phi z [AO e] = Some z.
Proof. rewrite xscore_mok. simpl. f_equal. rewrite score_one. reflexivity. Qed.

Section Value.
  Variables (k : nat) (z : R) (phi : list nat -> ext).
  Hypothesis Hk : (0 < k)%nat.
  Notation val := (leval (xkmax_ops k z) (fun e => xkmax_convert k z (phi e))).
  Notation scores t := (map (xscore phi z) (expand (kt k t))).

  Lemma val_leaf e : val (TLeaf e) = map (xscore phi z) ([AL e] :: repeat [AZ] (k - 1)).
  Proof. rewrite map_cons, xscore_zeros, xscore_leaf. reflexivity. Qed.
  Lemma val_over e : val (TOver e) = map (xscore phi z) ([AO e] :: repeat [AZ] (k - 1)).
  Proof. rewrite map_cons, xscore_zeros, xscore_over. destruct k as [|k']; [lia|]. simpl. now rewrite Nat.sub_0_r. Qed.
  Lemma val_one : val TOne = map (xscore phi z) ([] :: repeat [AZ] (k - 1)).
  Proof. rewrite map_cons, xscore_zeros, xscore_nil. reflexivity. Qed.
  Lemma val_zero : val TZero = map (xscore phi z) (repeat [AZ] k).
  Proof. rewrite xscore_zeros. reflexivity. Qed.
  Lemma xpsum_length a b : length (psums xplus a b) = (length a * length b)%nat.
  Proof. apply (psums_length xplus). Qed.
  Lemma xkmax_length t : twf t -> length (val t) = k.
  Proof.
    induction t as [e|e| | |l IH|a b IHa IHb] using term_ind'; intro W.
    - rewrite val_leaf. simpl. rewrite map_length, repeat_length. lia.
    - rewrite val_over. simpl. rewrite map_length, repeat_length. lia.
    - rewrite val_one. simpl. rewrite map_length, repeat_length. lia.
    - rewrite val_zero. simpl. rewrite map_length, repeat_length. lia.
    - inversion_clear W as [| | | |? Hn Hf|]. cbn [leval ssum xkmax_ops]. rewrite xtopk_length. destruct l as [|t l]; [congruence|].
      inversion_clear IH. inversion_clear Hf. simpl. rewrite app_length. rewrite H by auto. lia.
    - inversion_clear W. cbn [leval smul xkmax_ops]. rewrite xtopk_length, xpsum_length, IHa, IHb by auto. nia.
  Qed.
  Theorem xkmax_counts t : twf t -> forall y, Nat.min k (cge y (fins (val t))) = Nat.min k (cge y (fins (scores t))).
  Proof.
    induction t as [e|e| | |l IH|a b IHa IHb] using term_ind'; intros W y.
    - rewrite val_leaf. cbn [kt expand flat_map]. rewrite expand_zeros. reflexivity.
    - rewrite val_over. cbn [kt expand flat_map]. rewrite expand_zeros. reflexivity.
    - rewrite val_one. cbn [kt expand flat_map]. rewrite expand_zeros. reflexivity.
    - rewrite val_zero. cbn [kt expand flat_map]. rewrite expand_zeros. reflexivity.
    - cbn [leval kt expand ssum xkmax_ops]. inversion_clear W as [| | | |? Hn Hf|]. rewrite fins_topk, topk_idem.
      rewrite flat_map_concat_map, concat_map, !fins_concat, !map_map.
      apply (@min_concat term k y (fun t => fins (val t)) (fun t => fins (scores t))). rewrite Forall_forall in *. intros t Ht. apply IH; auto.
    - cbn [leval kt expand smul xkmax_ops]. inversion_clear W as [| | | | |? ? Wa Wb]. rewrite fins_topk, topk_idem.
      rewrite (sT_prods xplus (xscore phi z) (xscore_app phi z)), !fins_psum.
      apply min_psum; auto.
  Qed.
  (** proof device: the node is not a leaf *)
  Definition inner (t : term) : Prop := match t with TLeaf _ => False | _ => True end.
  Lemma xdesc_repeat n x : xdesc (repeat x n).
  Proof.
    induction n; simpl; constructor; auto. apply Forall_forall. intros y Hy. apply repeat_spec in Hy. subst. destruct x; simpl; lra || auto.
  Qed.
  Lemma xkmax_desc t : z <= 0 -> inner t -> xdesc (val t).
  Proof.
    intros Hz Hi. destruct t; simpl; try apply xtopk_desc; try apply xdesc_repeat; [destruct Hi|].
    constructor; [apply xdesc_repeat|]. apply Forall_forall. intros y Hy. apply repeat_spec in Hy. now subst.
  Qed.
  Lemma kt_many t : twf t -> (k <= length (expand (kt k t)))%nat.
  Proof.
    induction t as [e|e| | |l IH|a b IHa IHb] using term_ind'; intro W; cbn [kt expand flat_map]; rewrite ?expand_zeros.
    1-4: simpl; rewrite ?repeat_length; lia.
    - inversion_clear W as [| | | |? Hn Hf|]. destruct l as [|t l]; [congruence|]. inversion_clear Hf. inversion_clear IH.
      cbn [map flat_map]. rewrite app_length. specialize (H1 H). lia.
    - inversion_clear W as [| | | | |? ? Wa Wb]. specialize (IHa Wa). specialize (IHb Wb). rewrite prods_concat.
      set (A := expand (kt k a)) in *. set (B := expand (kt k b)) in *.
      destruct A as [|x A]; [simpl in IHa; lia|]. cbn [map concat]. rewrite app_length, map_length.
      apply Nat.le_trans with (length B); [exact IHb|apply Nat.le_add_r].
  Qed.
  (** the k numbers are the k best scores of the derivations *)
  Theorem xkmax_value t : twf t -> z <= 0 -> inner t -> val t = xtopk k (scores t).
  Proof.
    intros W Hz Hi. pose proof (kt_many W) as Hm.
    apply xtopk_char; [now apply xkmax_desc| |].
    - rewrite map_length, xkmax_length by auto. lia.
    - intro y. rewrite <- xkmax_counts by auto. pose proof (cge_le y (fins (val t))). pose proof (fins_length (val t)).
      pose proof (xkmax_length W) as H1. change (car (xkmax_ops k z)) with (list ext) in *. change (option R) with ext in *. lia.
  Qed.
  (** with two slots every node has a finite one: the filler of its leaves *)
  Lemma kt_finite t : twf t -> (2 <= k)%nat -> exists m, In m (expand (kt k t)) /\ leaves m = [].
  Proof.
    intros W H2. induction t as [e|e| | |l IH|a b IHa IHb] using term_ind'; cbn [kt expand flat_map]; rewrite ?expand_zeros.
    1-3: exists [AZ]; split; [|reflexivity]; destruct k as [|[|k']]; try lia; simpl; auto.
    - exists [AZ]; split; [|reflexivity]. destruct k as [|[|k']]; try lia; simpl; auto.
    - inversion_clear W as [| | | |? Hn Hf|]. destruct l as [|t l]; [congruence|]. inversion_clear Hf. inversion_clear IH.
      destruct (H1 H) as (m & Hm & E). exists m. split; auto. cbn [map flat_map]. apply in_or_app. now left.
    - inversion_clear W as [| | | | |? ? Wa Wb]. destruct (IHa Wa) as (ma & Ha & Ea). destruct (IHb Wb) as (mb & Hb & Eb).
      exists (ma ++ mb). split; [|unfold leaves in *; now rewrite flat_map_app, Ea, Eb].
      apply in_flat_map. exists ma. split; auto. apply in_map_iff. eauto.
  Qed.
End Value.
