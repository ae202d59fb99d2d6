(** * Laws: the algebraic laws of the semiring classes, and products of matrices
    under any bracketing. *)
From Coq Require Import Sorted.
From Verif Require Import Base Ops Chain Terms Poly Semirings KMax.
Set Implicit Arguments.
Local Open Scope R_scope.

(** ** Specification: a commutative semiring up to its zero

    [P] is the set of values a tensor of this class may hold. Sums are over
    nonempty dimensions, as in every dynamic program of the library. *)
Record lawful (O : ops) (P : car O -> Prop) : Prop := {
  cl_sum : forall l, l <> [] -> Forall P l -> P (ssum O l);
  cl_mul : forall a b, P a -> P b -> P (smul O a b);
  (* the sum of one value is that value *)
  law_one : forall a, P a -> ssum O [a] = a;
  (* the order of the summands does not matter *)
  law_perm : forall l l', l <> [] -> Forall P l -> Permutation l l' -> ssum O l = ssum O l';
  (* summands may be grouped in any way *)
  law_flat : forall ls, ls <> [] -> Forall (fun l => l <> [] /\ Forall P l) ls ->
    ssum O (map (ssum O) ls) = ssum O (concat ls);
  law_comm : forall a b, P a -> P b -> smul O a b = smul O b a;
  law_assoc : forall a b c, P a -> P b -> P c -> smul O a (smul O b c) = smul O (smul O a b) c;
  (* mul distributes over sum *)
  law_dist : forall a l, l <> [] -> P a -> Forall P l ->
    smul O a (ssum O l) = ssum O (map (smul O a) l) }.

(** ** Classes that embed in a semiring *)
Section Embed.
  Variables (O : ops) (S : csr) (f : car O -> S).
  Hypothesis inj : forall a b, f a = f b -> a = b.
  Hypothesis Hmul : forall a b, f (smul O a b) = kmul (f a) (f b).
  Hypothesis Hsum : forall l, l <> [] -> f (ssum O l) = Sum S f l.
  Add Ring SringL : (csr_srt S).

  Lemma lawful_embed : lawful O (fun _ => True).
  Proof.
    constructor; auto.
    - intros a _. apply inj. rewrite Hsum by discriminate. apply Sum_one.
    - intros l l' Hl _ H. apply inj. rewrite !Hsum; [apply Sum_perm; auto|..]; auto.
      intros ->. symmetry in H. apply Permutation_nil in H. auto.
    - intros ls Hl H. apply inj.
      rewrite !Hsum.
      + rewrite Sum_map. clear Hl. induction H as [|l ls [Hl _] _ IH]; [reflexivity|].
        cbn [concat]. rewrite Sum_cons, Sum_app, IH, Hsum by auto. reflexivity.
      + destruct H as [|l ls [H _] _]; [congruence|]. cbn. destruct l; [congruence|discriminate].
      + destruct ls; [congruence|discriminate].
    - intros a b _ _. apply inj. rewrite !Hmul. ring.
    - intros a b c _ _ _. apply inj. rewrite !Hmul. ring.
    - intros a l Hl _ _. apply inj. rewrite Hmul, !Hsum; auto.
      + rewrite Sum_map, <- Sum_scale_l. apply Sum_ext. intro. symmetry. apply Hmul.
      + destruct l; [congruence|discriminate].
  Qed.
End Embed.

Lemma std_lawful : lawful std_ops (fun _ => True).
Proof.
  apply (@lawful_embed std_ops R_csr (fun x => x)); auto.
  intros l _. simpl. unfold Sum. now rewrite map_id.
Qed.
Lemma log_lawful z : lawful (log_ops z) (fun _ => True).
Proof.
  apply (@lawful_embed (log_ops z) R_csr exp).
  - apply exp_inj.
  - apply exp_plus.
  - apply lse_exp.
Qed.

(** products of two semirings *)
Definition prod_csr (S T : csr) : csr.
Proof.
  refine (@Csr (S * T) (k0, k0) (k1, k1) (fun a b => (kadd (fst a) (fst b), kadd (snd a) (snd b)))
    (fun a b => (kmul (fst a) (fst b), kmul (snd a) (snd b))) _ _ _ _ _ _ _ _);
  intros; simpl; repeat match goal with x : prod _ _ |- _ => destruct x end; simpl; f_equal;
  first [apply kadd_comm|apply kadd_assoc|apply kadd_0_l|apply kmul_comm|apply kmul_assoc|apply kmul_1_l|apply kmul_0_l|apply kdistr].
Defined.
Lemma prod_csr_Sum (S T : csr) A (f : A -> S) (g : A -> T) l :
  Sum (prod_csr S T) (fun x => (f x, g x)) l = (Sum S f l, Sum T g l).
Proof. induction l as [|a l IH]; [reflexivity|]. rewrite Sum_cons, IH. reflexivity. Qed.

Lemma exp_rel_Sum (O : ops) (P X : car O -> R) z x l :
  resp O (csr_opsz exp_csr (exp z, exp z * x)) (exp_rel O P X) -> l <> [] ->
  (exp (P (ssum O l)), exp (P (ssum O l)) * X (ssum O l)) = Sum exp_csr (fun v => (exp (P v), exp (P v) * X v)) l.
Proof.
  intros H Hl. apply (resp_sum H (l' := map (fun v => (exp (P v), exp (P v) * X v)) l)); auto.
  clear Hl. induction l; constructor; auto. reflexivity.
Qed.
Lemma exp_rel_mul (O : ops) (P X : car O -> R) z x a b :
  resp O (csr_opsz exp_csr (exp z, exp z * x)) (exp_rel O P X) ->
  (exp (P (smul O a b)), exp (P (smul O a b)) * X (smul O a b)) =
  @kmul exp_csr (exp (P a), exp (P a) * X a) (exp (P b), exp (P b) * X b).
Proof. intro H. apply (resp_mul H); reflexivity. Qed.
Lemma exp_rel_inj p p' x x' : (exp p, exp p * x) = (exp p', exp p' * x') -> p = p' /\ x = x'.
Proof.
  intros [= E F]. apply exp_inj in E. subst. split; auto.
  pose proof (exp_pos p'). apply Rmult_eq_reg_l with (exp p'); lra.
Qed.

Lemma ent_lawful z : lawful (ent_ops z) (fun _ => True).
Proof.
  apply (@lawful_embed (ent_ops z) exp_csr (fun v : R * R => (exp (fst v), exp (fst v) * (fst v - snd v)))).
  - intros [a a'] [b b'] H. apply exp_rel_inj in H as [E F]. simpl in *. subst. f_equal. lra.
  - intros a b. exact (@exp_rel_mul _ _ _ _ _ a b (ent_resp z)).
  - intros l Hl. exact (@exp_rel_Sum _ _ _ _ _ _ (ent_resp z) Hl).
Qed.
Lemma three_lawful (O : ops) (X : car O -> R) (P Q : car O -> R) z x :
  (forall a b, P a = P b -> Q a = Q b -> X a = X b -> a = b) ->
  resp O (csr_opsz exp_csr (exp z, exp z * x)) (exp_rel O P X) ->
  resp O (log_ops z) (fun x y => Q x = y) -> lawful O (fun _ => True).
Proof.
  intros inj HX HQ.
  apply (@lawful_embed O (prod_csr exp_csr R_csr) (fun v => ((exp (P v), exp (P v) * X v), exp (Q v)))).
  - intros a b H. injection H as E F G. destruct (@exp_rel_inj _ _ _ _ (f_equal2 pair E F)) as [E' F'].
    apply exp_inj in G. apply inj; auto.
  - intros a b. unfold kmul at 1. cbn -[exp]. f_equal.
    + exact (@exp_rel_mul _ _ _ _ _ a b HX).
    + rewrite (resp_mul HQ a _ b _ eq_refl eq_refl). simpl. apply exp_plus.
  - intros l Hl. etransitivity; [|symmetry; apply prod_csr_Sum]. apply f_equal2.
    + exact (@exp_rel_Sum _ _ _ _ _ _ HX Hl).
    + assert (F : Forall2 (fun x y => Q x = y) l (map Q l)) by (clear Hl; induction l; constructor; auto).
      rewrite (resp_sum HQ Hl F). simpl. rewrite lse_exp by (destruct l; [congruence|discriminate]).
      apply (Sum_map R_csr).
Qed.
Lemma ce_lawful z : lawful (ce_ops z) (fun _ => True).
Proof.
  apply (@three_lawful (ce_ops z) (fun y => q_ y - d_ y) p_ q_ z z); [|apply ce_resp|apply ce_q].
  intros [[a1 a2] a3] [[b1 b2] b3]. unfold p_, q_, d_; simpl. intros -> -> H. f_equal. lra.
Qed.
Lemma kl_lawful z : lawful (kl_ops z) (fun _ => True).
Proof.
  apply (@three_lawful (kl_ops z) (fun y => d_ y - q_ y + p_ y) p_ q_ z 0); [|apply kl_resp|apply kl_q].
  intros [[a1 a2] a3] [[b1 b2] b3]. unfold p_, q_, d_; simpl. intros -> -> H. f_equal. lra.
Qed.

(** ** Max *)
Lemma is_max_perm v l l' : Permutation l l' -> is_max v l -> is_max v l'.
Proof.
  intros H [H1 H2]. split; [eapply Permutation_in; eauto|].
  intros x Hx. apply H2. eapply Permutation_in; [symmetry; eauto|auto].
Qed.
Lemma rmax_eq v l : is_max v l -> rmax l = v.
Proof.
  intro H. apply is_max_unique with l; auto. apply rmax_is_max. intros ->. destruct H as [[] _].
Qed.
Lemma map_nonempty A B (f : A -> B) l : l <> [] -> map f l <> [].
Proof. destruct l; [congruence|discriminate]. Qed.
Lemma max_lawful z : lawful (max_ops z) (fun _ => True).
Proof.
  constructor; auto; simpl.
  - intros l l' Hl _ H. apply is_max_unique with l'; [|apply rmax_is_max].
    + eapply is_max_perm; eauto. apply rmax_is_max; auto.
    + intros ->. symmetry in H. apply Permutation_nil in H. auto.
  - intros ls Hl H. assert (Hc : concat ls <> []).
    { destruct H as [|l ls' [H _] _]; [congruence|]. simpl. destruct l; [congruence|discriminate]. }
    apply rmax_eq. destruct (rmax_is_max Hc) as [H1 H2]. split.
    + apply in_concat in H1 as (l & Hin & H1). apply in_map_iff. exists l. split; auto.
      apply rmax_eq. split; auto. intros x Hx. apply H2, in_concat. eauto.
    + intros x Hx. apply in_map_iff in Hx as (l & <- & Hin).
      rewrite Forall_forall in H. destruct (H l Hin) as [Hne _].
      destruct (rmax_is_max Hne) as [H3 _]. apply H2, in_concat. eauto.
  - intros a b _ _. apply Rplus_comm.
  - intros a b c _ _ _. ring.
  - intros a l Hl _ _. symmetry. apply rmax_eq. destruct (rmax_is_max Hl) as [H1 H2]. split.
    + now apply in_map.
    + intros x Hx. apply in_map_iff in Hx as (y & <- & Hy). specialize (H2 y Hy). lra.
Qed.

(** ** KMax: values are decreasing lists of k numbers *)
Definition kvec (k : nat) (a : list R) : Prop := desc a /\ length a = k.
Lemma concat_length_ge (k : nat) (ls : list (list R)) : ls <> [] -> Forall (kvec k) ls -> (k <= length (concat ls))%nat.
Proof. intros Hl H. destruct H as [|a l [_ Ha] _]; [congruence|]. cbn [concat]. rewrite app_length. lia. Qed.
Lemma topk_self k a : kvec k a -> topk k a = a.
Proof.
  intros [Hd Hl]. symmetry. apply topk_char; auto. intro y. pose proof (cge_le y a). lia.
Qed.
Lemma kvec_topk k l : (k <= length l)%nat -> kvec k (topk k l).
Proof. intro H. split; [apply topk_desc|]. rewrite topk_length. lia. Qed.
Lemma psum_len a b : length (psum a b) = (length a * length b)%nat.
Proof. unfold psum. induction a as [|x a IH]; auto. simpl. rewrite app_length, map_length. lia. Qed.
Lemma psum_assoc a b c y : cge y (psum a (psum b c)) = cge y (psum (psum a b) c).
Proof.
  rewrite !cge_psum. unfold psum at 2. induction a as [|x a IH]; auto. simpl. rewrite map_app, list_sum_app, <- IH.
  f_equal. rewrite cge_psum, map_map. f_equal. apply map_ext. intro b'. f_equal. ring.
Qed.
Lemma psum_concat a ls y : cge y (psum a (concat ls)) = cge y (concat (map (psum a) ls)).
Proof.
  rewrite cge_psum_comm, cge_concat, map_map. induction ls as [|l ls IH]; auto. cbn [concat map list_sum fold_right].
  change (fold_right Nat.add 0%nat) with list_sum. rewrite <- IH, (cge_psum_comm y a l).
  unfold psum at 1. rewrite flat_map_app, cge_app. reflexivity.
Qed.
Lemma concat_concat A (ls : list (list (list A))) : concat (concat ls) = concat (map (@concat A) ls).
Proof. induction ls as [|l ls IH]; auto. simpl. now rewrite concat_app, IH. Qed.
Lemma kmax_lawful k z : (1 <= k)%nat -> lawful (kmax_ops k z) (kvec k).
Proof.
  intro Hk. constructor.
  - intros l Hl H. apply kvec_topk, concat_length_ge; auto.
  - intros a b [_ Ha] [_ Hb]. apply kvec_topk. rewrite psum_len, Ha, Hb. nia.
  - intros a Ha. simpl. rewrite app_nil_r. now apply topk_self.
  - intros l l' _ _ H. apply topk_perm. clear - H. induction H; simpl; auto.
    + apply Permutation_app; auto.
    + rewrite !app_assoc. apply Permutation_app; auto. apply Permutation_app_comm.
    + etransitivity; eauto.
  - intros ls Hl H. apply topk_ext. intro y. clear Hl. simpl.
    assert (E := concat_concat (ls : list (list (list R)))).
    etransitivity; [|symmetry; apply (f_equal (fun c => Nat.min k (cge y c)) E)].
    apply (min_concat k y (fun xs => topk k (concat xs)) (@concat R)). intros l _ y'. apply topk_idem.
  - intros a b _ _. apply topk_ext. intro y. now rewrite cge_psum_comm.
  - intros a b c _ _ _. apply topk_ext. intro y. simpl.
    transitivity (Nat.min k (cge y (psum a (psum b c)))).
    + apply min_psum_r. intro. apply topk_idem.
    + rewrite psum_assoc. apply min_psum; [|auto]. intro. symmetry. apply topk_idem.
  - intros a l _ _ _. apply topk_ext. intro y. simpl.
    transitivity (Nat.min k (cge y (psum a (concat l)))).
    + apply min_psum_r. intro. apply topk_idem.
    + rewrite psum_concat. symmetry. apply (min_concat k y (fun x => topk k (psum a x)) (psum a)).
      intros x _ y'. apply topk_idem.
Qed.

(** the unit law of KMax: exactly when the entries spread at most [-z] *)
Lemma kmax_unit k z a : (2 <= k)%nat -> z <= 0 -> kvec k a ->
  smul (kmax_ops k z) a (sone (kmax_ops k z)) = a <-> nth 0 a 0 + z <= nth (k - 1) a 0.
Proof.
  intros Hk Hz Ha. destruct Ha as [Hd Hl]. simpl. split; intro H.
  - destruct (Rle_dec (nth 0 a 0 + z) (nth (k - 1) a 0)) as [|N]; auto. exfalso.
    set (y := nth 0 a 0 + z) in *.
    assert (C1 : cge y a = cge y (topk k (psum a (0 :: repeat z (k - 1))))) by now rewrite H.
    assert (L1 : (cge y a < k)%nat).
    { assert (Hin : In (nth (k - 1) a 0) a) by (apply nth_In; lia).
      apply in_split in Hin as (u & v & Hin). rewrite Hin at 1. rewrite cge_app, cge_cons.
      assert (geb y (nth (k - 1) a 0) = false) as -> by (unfold geb; destruct Rle_dec; auto; lra).
      pose proof (cge_le y u). pose proof (cge_le y v).
      assert (length a = length (u ++ nth (k - 1) a 0 :: v)) by congruence.
      rewrite app_length in H2. simpl in H2. lia. }
    rewrite cge_topk, cge_psum_comm, cge_psum in C1. cbn [map list_sum fold_right] in C1.
    change (fold_right Nat.add 0%nat) with list_sum in C1.
    replace (y - 0) with y in C1 by ring.
    assert (1 <= list_sum (map (fun x => cge (y - x) a) (repeat z (k - 1))))%nat.
    { destruct k as [|[|k]]; try lia. replace (S (S k) - 1)%nat with (S k) by lia. cbn [repeat map list_sum fold_right].
      replace (y - z) with (nth 0 a 0) by (unfold y; ring).
      destruct a as [|x a]; [simpl in Hl; lia|]. cbn [nth]. pose proof (cge_self x a). lia. }
    lia.
  - symmetry. apply topk_char; auto. intro y. rewrite cge_psum_comm, cge_psum. cbn [map list_sum fold_right].
    change (fold_right Nat.add 0%nat) with list_sum. replace (y - 0) with y by ring.
    destruct (Rle_dec y (nth (k - 1) a 0)) as [Y|Y].
    + rewrite cge_all; [lia|]. intros x Hx.
      apply In_nth with (d := 0) in Hx as (i & Hi & <-).
      assert (G : forall (l : list R), desc l -> forall i j, (i <= j < length l)%nat -> nth j l 0 <= nth i l 0).
      { clear. intros l H. induction H as [|x l H IH F]; intros i j Hij; [simpl in Hij; lia|].
        destruct i, j; simpl; try lra; try lia.
        - rewrite Forall_forall in F. apply F, nth_In. simpl in Hij. lia.
        - apply IH. simpl in Hij. lia. }
      specialize (G a Hd i (k - 1)%nat ltac:(lia)). lra.
    + assert (E : list_sum (map (fun x => cge (y - x) a) (repeat z (k - 1))) = 0%nat).
      { generalize (k - 1)%nat at 1. intro n. induction n; auto. cbn [repeat map list_sum fold_right].
        change (fold_right Nat.add 0%nat) with list_sum. rewrite IHn, Nat.add_0_r. apply cge_zero.
        intros x Hx. destruct a as [|x0 a]; [destruct Hx|]. pose proof (@desc_head _ _ Hd _ Hx). change (nth 0 (x0 :: a) 0) with x0 in H. lra. }
      rewrite E. pose proof (cge_le y a). lia.
Qed.

(** ** Products of matrices *)
Lemma flat_map_cons_perm A B (g : A -> B) (h : A -> list B) l :
  Permutation (flat_map (fun b => g b :: h b) l) (map g l ++ flat_map h l).
Proof.
  induction l as [|b l IH]; simpl; auto. constructor. rewrite IH, !app_assoc.
  apply Permutation_app_tail, Permutation_app_comm.
Qed.
Lemma flat_map_swap A B C (f : A -> B -> C) la lb :
  Permutation (flat_map (fun a => map (f a) lb) la) (flat_map (fun b => map (fun a => f a b) la) lb).
Proof.
  induction la as [|a la IH]; simpl.
  - induction lb; simpl; auto.
  - rewrite IH. symmetry. apply (flat_map_cons_perm (f a) (fun b => map (fun a => f a b) la)).
Qed.

Section Brackets.
  Variables (O : ops) (P : car O -> Prop).
  Hypothesis HO : lawful O P.
  Notation mat := (nat -> nat -> car O).
  (** proof device: a predicate holds of every entry *)
  Definition pmat (M : mat) : Prop := forall i j, P (M i j).

  Lemma ssum_swap A B (f : A -> B -> car O) la lb : la <> [] -> lb <> [] -> (forall a b, P (f a b)) ->
    ssum O (map (fun a => ssum O (map (f a) lb)) la) = ssum O (map (fun b => ssum O (map (fun a => f a b) la)) lb).
  Proof.
    intros Ha Hb H.
    assert (F : forall T (g : T -> car O) l, (forall x, P (g x)) -> Forall P (map g l)).
    { intros T g l Hg. apply Forall_forall. intros x Hx. apply in_map_iff in Hx as (? & <- & _). auto. }
    rewrite <- (map_map (fun a => map (f a) lb) (ssum O)), <- (map_map (fun b => map (fun a => f a b) la) (ssum O)).
    rewrite !(law_flat HO).
    - rewrite <- !flat_map_concat_map. apply (law_perm HO); [| |apply flat_map_swap].
      + destruct la, lb; congruence || discriminate.
      + rewrite flat_map_concat_map. apply Forall_concat, Forall_map, Forall_forall. auto.
    - now apply map_nonempty.
    - apply Forall_map, Forall_forall. intros b _. split; [now apply map_nonempty|auto].
    - now apply map_nonempty.
    - apply Forall_map, Forall_forall. intros a _. split; [now apply map_nonempty|auto].
  Qed.

  Lemma pmat_ssum A (f : A -> car O) l : l <> [] -> (forall x, P (f x)) -> P (ssum O (map f l)).
  Proof. intros Hl H. apply (cl_sum HO); [now apply map_nonempty|]. apply Forall_map, Forall_forall. auto. Qed.
  Lemma seq_ne n : (0 < n)%nat -> seq 0 n <> [].
  Proof. destruct n; [lia|discriminate]. Qed.
  Lemma pmat_matmul D a b : (0 < D)%nat -> pmat a -> pmat b -> pmat (matmul O D a b).
  Proof. intros HD Ha Hb i j. apply pmat_ssum; [now apply seq_ne|]. intro. apply (cl_mul HO); auto. Qed.

  Lemma dist_l A x (f : A -> car O) l : l <> [] -> P x -> (forall y, P (f y)) ->
    smul O x (ssum O (map f l)) = ssum O (map (fun y => smul O x (f y)) l).
  Proof.
    intros Hl Hx Hf. rewrite (law_dist HO); auto.
    - now rewrite map_map.
    - now apply map_nonempty.
    - apply Forall_map, Forall_forall. auto.
  Qed.
  Lemma dist_r A x (f : A -> car O) l : l <> [] -> P x -> (forall y, P (f y)) ->
    smul O (ssum O (map f l)) x = ssum O (map (fun y => smul O (f y) x) l).
  Proof.
    intros Hl Hx Hf. rewrite (law_comm HO), dist_l; auto.
    - f_equal. apply map_ext. intro. apply (law_comm HO); auto.
    - now apply pmat_ssum.
  Qed.

  Theorem matmul_assoc D E a b c i j : (0 < D)%nat -> (0 < E)%nat -> pmat a -> pmat b -> pmat c ->
    matmul O E (matmul O D a b) c i j = matmul O D a (matmul O E b c) i j.
  Proof.
    intros HD HE Ha Hb Hc. unfold matmul.
    assert (M : forall x y, P x -> P y -> P (smul O x y)) by (intros; apply (cl_mul HO); auto).
    transitivity (ssum O (map (fun k => ssum O (map (fun l => smul O (smul O (a i l) (b l k)) (c k j)) (seq 0 D))) (seq 0 E))).
    - f_equal. apply map_ext. intro k.
      apply (dist_r (fun l => smul O (a i l) (b l k))); auto using seq_ne.
    - rewrite ssum_swap; auto using seq_ne.
      f_equal. apply map_ext. intro l.
      rewrite (dist_l (fun k => smul O (b l k) (c k j))); auto using seq_ne.
      f_equal. apply map_ext. intro k. symmetry. apply (law_assoc HO); auto.
  Qed.

  (** a product of matrices together with its brackets; the number is the inner
      dimension of the product *)
  Inductive bracket := BLeaf (M : mat) | BMul (a : bracket) (D : nat) (b : bracket).
  (** spec: value of a bracketed product of matrices (semirings.py:12-20, 33-36 at every pair of brackets) *)
  Fixpoint bval (b : bracket) : mat :=
    match b with BLeaf M => M | BMul a D b => matmul O D (bval a) (bval b) end.
  (** forgetting the brackets: the first factor, then dimension and factor *)
  Fixpoint factors (b : bracket) : mat * list (nat * mat) :=
    match b with
    | BLeaf M => (M, [])
    | BMul a D b => (fst (factors a), snd (factors a) ++ (D, fst (factors b)) :: snd (factors b))
    end.
  (** spec: all index tuples within the given sizes *)
  Fixpoint tuples (ds : list nat) : list (list nat) :=
    match ds with [] => [[]] | d :: ds => flat_map (fun k => map (cons k) (tuples ds)) (seq 0 d) end.
  (** the product along one choice of the inner indices *)
  Fixpoint pathprod (M : mat) (l : list (nat * mat)) (ks : list nat) (i j : nat) : car O :=
    match l, ks with
    | (_, M') :: l', k :: ks' => smul O (M i k) (pathprod M' l' ks' k j)
    | _, _ => M i j
    end.
  (** spec: sum over all paths through the matrices *)
  Definition pathsum (M : mat) (l : list (nat * mat)) : mat := fun i j =>
    ssum O (map (fun ks => pathprod M l ks i j) (tuples (map fst l))).
  (** spec: inner sizes are positive and the entries satisfy the predicate *)
  Definition good (l : list (nat * mat)) : Prop := Forall (fun x => (0 < fst x)%nat /\ pmat (snd x)) l.

  Lemma tuples_ne l : good l -> tuples (map fst l) <> [].
  Proof.
    intro H. induction H as [|[d M] l [H _] _ IH]; simpl in *; [discriminate|].
    destruct d; [lia|]. simpl. destruct (tuples (map fst l)); [congruence|discriminate].
  Qed.
  Lemma pathprod_p M l ks i j : pmat M -> good l -> P (pathprod M l ks i j).
  Proof.
    intros HM H. revert M HM ks i. induction H as [|[d M'] l [_ H] _ IH]; intros M HM ks i; simpl; auto.
    destruct ks; auto. apply (cl_mul HO); auto.
  Qed.
  Lemma pathsum_p M l : pmat M -> good l -> pmat (pathsum M l).
  Proof. intros HM H i j. apply pmat_ssum; [now apply tuples_ne|]. intro. now apply pathprod_p. Qed.

  Lemma pathsum_cons M D M' l i j : (0 < D)%nat -> pmat M -> pmat M' -> good l ->
    pathsum M ((D, M') :: l) i j = matmul O D M (pathsum M' l) i j.
  Proof.
    intros HD HM HM' H. unfold pathsum at 1. cbn [map fst tuples].
    rewrite flat_map_concat_map, concat_map, map_map, <- (law_flat HO).
    - rewrite map_map. unfold matmul. f_equal. apply map_ext. intro k. rewrite map_map. cbn [pathprod].
      unfold pathsum. symmetry. apply (dist_l (fun ks => pathprod M' l ks k j)); auto using tuples_ne.
      intro. now apply pathprod_p.
    - apply map_nonempty. now apply seq_ne.
    - apply Forall_map, Forall_forall. intros k _. split.
      + apply map_nonempty, map_nonempty. now apply tuples_ne.
      + apply Forall_map, Forall_forall. intros ks _. apply pathprod_p; auto. constructor; auto.
  Qed.
  Lemma matmul_ext D a a' b b' i j : (forall k, a i k = a' i k) -> (forall k, b k j = b' k j) ->
    matmul O D a b i j = matmul O D a' b' i j.
  Proof. intros Ha Hb. unfold matmul. f_equal. apply map_ext. intro. now rewrite Ha, Hb. Qed.
  Lemma pathsum_app M l D M' l' i j : pmat M -> good l -> (0 < D)%nat -> pmat M' -> good l' ->
    pathsum M (l ++ (D, M') :: l') i j = matmul O D (pathsum M l) (pathsum M' l') i j.
  Proof.
    intros HM H HD HM' H'. revert M HM i. induction H as [|[d X] l [Hd HX] H IH]; intros M HM i; cbn [app].
    - rewrite pathsum_cons by auto. apply matmul_ext; auto. intro k. unfold pathsum. simpl.
      symmetry. now apply (law_one HO).
    - rewrite pathsum_cons; auto.
      + transitivity (matmul O D (matmul O d M (pathsum X l)) (pathsum M' l') i j).
        * rewrite matmul_assoc; auto using pathsum_p. apply matmul_ext; auto.
        * apply matmul_ext; auto. intro k. symmetry. now apply pathsum_cons.
      + unfold good. apply Forall_app. split; auto.
  Qed.

  (** every entry is the sum, over all choices of the inner indices, of the
      product of the entries, however the product is bracketed *)
  Theorem bval_paths b i j : pmat (fst (factors b)) -> good (snd (factors b)) ->
    bval b i j = pathsum (fst (factors b)) (snd (factors b)) i j.
  Proof.
    revert i j. induction b as [M|a IHa D b IHb]; intros i j HM H.
    - unfold pathsum. simpl. symmetry. now apply (law_one HO).
    - simpl in H. apply Forall_app in H as [H1 H2]. inversion_clear H2 as [|? ? [HD HM'] H3]. cbn [factors fst snd bval] in *.
      rewrite pathsum_app; auto. apply matmul_ext; intros; auto.
  Qed.
End Brackets.

(** ** The parallel scan is a bracketing *)
Section ScanBracket.
  Variable O : ops.
  Notation mat := (nat -> nat -> car O).
  (** proof device: the factors of a bracketed product *)
  Definition mats (b : bracket O) : list mat := fst (factors b) :: map snd (snd (factors b)).
  (** spec: all inner sizes are C *)
  Definition dims_are (C : nat) (b : bracket O) : Prop := Forall (fun x => fst x = C) (snd (factors b)).

  Lemma map_const A B (c : B) (l : list A) : map (fun _ => c) l = repeat c (length l).
  Proof. induction l; simpl; congruence. Qed.

  Lemma round_bracket C (l : list (bracket O)) m : length l = (2 * m)%nat -> Forall (dims_are C) l ->
    exists l', scan_round O C (map (@bval O) l) = map (@bval O) l' /\ length l' = m /\ Forall (dims_are C) l' /\
      concat (map mats (rev l')) = concat (map mats (rev l)).
  Proof.
    revert m. induction l as [|a|a b l IH] using list_pair_ind; intros m Hm H.
    - exists []. simpl in *. repeat split; auto. lia.
    - simpl in Hm. lia.
    - inversion_clear H as [|? ? Ha H']. inversion_clear H' as [|? ? Hb H]. destruct m as [|m]; [simpl in Hm; lia|].
      destruct (IH m) as (l' & E1 & E2 & E3 & E4); [simpl in *; lia|auto|].
      exists (BMul b C a :: l'). cbn [map bval length rev]. repeat split.
      + rewrite <- E1. unfold scan_round, odds. destruct l; reflexivity.
      + lia.
      + constructor; auto. unfold dims_are. cbn [factors snd]. apply Forall_app. split; auto.
      + rewrite !map_app, !concat_app, E4. cbn [map concat]. rewrite <- !app_assoc. f_equal.
        unfold mats. cbn [factors fst snd]. rewrite map_app, !app_nil_r. cbn [map snd app]. reflexivity.
  Qed.
  Lemma scan_brackets C n : forall l : list (bracket O), length l = (2 ^ n)%nat -> Forall (dims_are C) l ->
    exists b, scan O C n (map (@bval O) l) = [bval b] /\ dims_are C b /\ mats b = concat (map mats (rev l)).
  Proof.
    induction n as [|n IH]; intros l Hl H.
    - destruct l as [|b [|]]; simpl in Hl; try lia. exists b. inversion_clear H. repeat split; auto. simpl. now rewrite app_nil_r.
    - cbn [scan]. destruct (@round_bracket C l (2 ^ n)) as (l' & E1 & E2 & E3 & E4); auto.
      rewrite E1. destruct (IH l' E2 E3) as (b & B1 & B2 & B3). exists b. repeat split; auto. now rewrite B3.
  Qed.
  Lemma scan_bracket C n (M : mat) l : length (M :: l) = (2 ^ n)%nat ->
    exists b, scan O C n (rev (M :: l)) = [bval b] /\ factors b = (M, map (pair C) l).
  Proof.
    intro HL. destruct (@scan_brackets C n (map (@BLeaf O) (rev (M :: l)))) as (b & B1 & B2 & B3).
    - now rewrite map_length, rev_length.
    - apply Forall_map, Forall_forall. intros. constructor.
    - rewrite map_map in B1. cbn [bval] in B1. rewrite map_id in B1. exists b. split; auto.
      rewrite <- map_rev, rev_involutive, map_map in B3.
      assert (E : concat (map (fun x => mats (BLeaf O x)) (M :: l)) = M :: l).
      { generalize (M :: l). clear. intro l. induction l as [|x l IH]; auto. simpl. f_equal. exact IH. }
      rewrite E in B3. unfold mats in B3. injection B3 as E1 E2. rewrite (surjective_pairing (factors b)), E1. f_equal.
      rewrite <- E2, map_map. unfold dims_are in B2. clear - B2. induction B2 as [|[d X] l' H _ IH]; simpl in *; congruence.
  Qed.
End ScanBracket.
