(** * Base: commutative semirings, finite sums over lists, enumerations.

    This file is specification-level mathematics: it models no code of the
    repository. *)
From Coq Require Export List Arith Lia Permutation Bool.
From Coq Require Import Ring Setoid Morphisms.
Export ListNotations.
Set Implicit Arguments.

(** ** Commutative semirings with Leibniz equality *)
Record csr := Csr {
  K :> Type;
  k0 : K; k1 : K;
  kadd : K -> K -> K;
  kmul : K -> K -> K;
  kadd_comm : forall a b, kadd a b = kadd b a;
  kadd_assoc : forall a b c, kadd a (kadd b c) = kadd (kadd a b) c;
  kadd_0_l : forall a, kadd k0 a = a;
  kmul_comm : forall a b, kmul a b = kmul b a;
  kmul_assoc : forall a b c, kmul a (kmul b c) = kmul (kmul a b) c;
  kmul_1_l : forall a, kmul k1 a = a;
  kmul_0_l : forall a, kmul k0 a = k0;
  kdistr : forall a b c, kmul a (kadd b c) = kadd (kmul a b) (kmul a c)
}.
Arguments k0 {_}. Arguments k1 {_}. Arguments kadd {_}. Arguments kmul {_}.

Lemma csr_srt (S : csr) : semi_ring_theory (@k0 S) k1 kadd kmul eq.
Proof.
  constructor; intros.
  - apply kadd_0_l.
  - apply kadd_comm.
  - apply kadd_assoc.
  - apply kmul_1_l.
  - apply kmul_0_l.
  - apply kmul_comm.
  - apply kmul_assoc.
  - rewrite (kmul_comm _ (kadd n m)), kdistr, (kmul_comm _ p), (kmul_comm _ p). reflexivity.
Qed.

(** ** Enumerations of a predicate: the list contains every element exactly once *)
Definition Enumerates {A} (P : A -> Prop) (l : list A) : Prop :=
  NoDup l /\ forall x, In x l <-> P x.

Lemma Enumerates_perm {A} (P : A -> Prop) l l' :
  Enumerates P l -> Enumerates P l' -> Permutation l l'.
Proof.
  intros [N1 H1] [N2 H2]. apply NoDup_Permutation; auto.
  intro x. rewrite H1, H2. tauto.
Qed.

Lemma Enumerates_ext {A} (P Q : A -> Prop) l :
  (forall x, P x <-> Q x) -> Enumerates P l -> Enumerates Q l.
Proof. intros H [N E]; split; auto. intro x; rewrite E; apply H. Qed.

Lemma Enumerates_of_perm {A} (P : A -> Prop) l l' :
  Permutation l l' -> Enumerates P l -> Enumerates P l'.
Proof.
  intros Hp [N E]. split.
  - eapply Permutation_NoDup; eauto.
  - intro x. rewrite <- E. split; apply Permutation_in; auto. now symmetry.
Qed.

(** ** Finite sums and products *)
Section Sums.
  Variable S : csr.
  Add Ring Sring : (csr_srt S).

  (** finite sum in a commutative semiring (mathematics; no code) *)
  Definition ksum (l : list S) : S := fold_right kadd k0 l.
  (** finite product in a commutative semiring (mathematics; no code) *)
  Definition kprod (l : list S) : S := fold_right kmul k1 l.
  (** [Sum f l] is the sum of [f x] for [x] in [l]. *)
  Definition Sum {A} (f : A -> S) (l : list A) : S := ksum (map f l).
  (** [Prod f l] is the product of [f x] for [x] in [l]. *)
  Definition Prod {A} (f : A -> S) (l : list A) : S := kprod (map f l).

  Lemma ksum_cons a l : ksum (a :: l) = kadd a (ksum l). Proof. reflexivity. Qed.
  Lemma kprod_cons a l : kprod (a :: l) = kmul a (kprod l). Proof. reflexivity. Qed.

  Lemma ksum_app l l' : ksum (l ++ l') = kadd (ksum l) (ksum l').
  Proof. induction l; simpl; [ring|rewrite IHl; ring]. Qed.
  Lemma kprod_app l l' : kprod (l ++ l') = kmul (kprod l) (kprod l').
  Proof. induction l; simpl; [ring|rewrite IHl; ring]. Qed.

  Lemma ksum_perm l l' : Permutation l l' -> ksum l = ksum l'.
  Proof. induction 1; simpl; try ring; congruence. Qed.
  Lemma kprod_perm l l' : Permutation l l' -> kprod l = kprod l'.
  Proof. induction 1; simpl; try ring; congruence. Qed.

  Section A.
    Context {A : Type}.
    Implicit Types (f g : A -> S) (l : list A).

    Lemma Sum_nil f : Sum f [] = k0. Proof. reflexivity. Qed.
    Lemma Sum_cons f a l : Sum f (a :: l) = kadd (f a) (Sum f l).
    Proof. reflexivity. Qed.
    Lemma Sum_one f a : Sum f [a] = f a.
    Proof. unfold Sum; simpl; ring. Qed.
    Lemma Sum_app f l l' : Sum f (l ++ l') = kadd (Sum f l) (Sum f l').
    Proof. unfold Sum. rewrite map_app. apply ksum_app. Qed.
    Lemma Prod_nil f : Prod f [] = k1. Proof. reflexivity. Qed.
    Lemma Prod_cons f a l : Prod f (a :: l) = kmul (f a) (Prod f l).
    Proof. reflexivity. Qed.
    Lemma Prod_one f a : Prod f [a] = f a.
    Proof. unfold Prod; simpl; ring. Qed.
    Lemma Prod_app f l l' : Prod f (l ++ l') = kmul (Prod f l) (Prod f l').
    Proof. unfold Prod. rewrite map_app. apply kprod_app. Qed.

    Lemma Sum_ext_in f g l : (forall x, In x l -> f x = g x) -> Sum f l = Sum g l.
    Proof. intro H; unfold Sum; f_equal; apply map_ext_in; auto. Qed.
    Lemma Sum_ext f g l : (forall x, f x = g x) -> Sum f l = Sum g l.
    Proof. intro H; apply Sum_ext_in; auto. Qed.
    Lemma Prod_ext_in f g l : (forall x, In x l -> f x = g x) -> Prod f l = Prod g l.
    Proof. intro H; unfold Prod; f_equal; apply map_ext_in; auto. Qed.
    Lemma Prod_ext f g l : (forall x, f x = g x) -> Prod f l = Prod g l.
    Proof. intro H; apply Prod_ext_in; auto. Qed.

    Lemma Sum_perm f l l' : Permutation l l' -> Sum f l = Sum f l'.
    Proof. intro H; apply ksum_perm, Permutation_map, H. Qed.
    Lemma Prod_perm f l l' : Permutation l l' -> Prod f l = Prod f l'.
    Proof. intro H; apply kprod_perm, Permutation_map, H. Qed.

    Lemma Sum_enum f P l l' : Enumerates P l -> Enumerates P l' -> Sum f l = Sum f l'.
    Proof. intros; eapply Sum_perm, Enumerates_perm; eauto. Qed.

    Lemma Sum_0 l : Sum (fun _ : A => k0) l = k0.
    Proof. induction l; [reflexivity|]. rewrite Sum_cons, IHl. ring. Qed.
    Lemma Sum_zero f l : (forall x, In x l -> f x = k0) -> Sum f l = k0.
    Proof. intro H. rewrite (Sum_ext_in f (fun _ => k0)) by auto. apply Sum_0. Qed.

    Lemma Sum_add f g l : Sum (fun x => kadd (f x) (g x)) l = kadd (Sum f l) (Sum g l).
    Proof. induction l; [unfold Sum; simpl; ring|]. rewrite !Sum_cons, IHl. ring. Qed.
    Lemma Sum_scale_l c f l : Sum (fun x => kmul c (f x)) l = kmul c (Sum f l).
    Proof. induction l; [unfold Sum; simpl; ring|]. rewrite !Sum_cons, IHl. ring. Qed.
    Lemma Sum_scale_r c f l : Sum (fun x => kmul (f x) c) l = kmul (Sum f l) c.
    Proof. induction l; [unfold Sum; simpl; ring|]. rewrite !Sum_cons, IHl. ring. Qed.

    Lemma Sum_filter f (p : A -> bool) l :
      Sum f (filter p l) = Sum (fun x => if p x then f x else k0) l.
    Proof.
      induction l; [reflexivity|]. rewrite Sum_cons. simpl.
      destruct (p a); rewrite ?Sum_cons, IHl; ring.
    Qed.
  End A.

  Lemma Sum_map {A B} (f : B -> S) (h : A -> B) l : Sum f (map h l) = Sum (fun x => f (h x)) l.
  Proof. unfold Sum. now rewrite map_map. Qed.
  Lemma Prod_map {A B} (f : B -> S) (h : A -> B) l : Prod f (map h l) = Prod (fun x => f (h x)) l.
  Proof. unfold Prod. now rewrite map_map. Qed.

  Lemma Sum_flat_map {A B} (f : B -> S) (h : A -> list B) l :
    Sum f (flat_map h l) = Sum (fun a => Sum f (h a)) l.
  Proof. induction l; [reflexivity|]. simpl. rewrite Sum_app, Sum_cons, IHl. reflexivity. Qed.

  Lemma Sum_concat {B} (f : B -> S) l : Sum f (concat l) = Sum (fun a => Sum f a) l.
  Proof. induction l; [reflexivity|]. simpl. rewrite Sum_app, Sum_cons, IHl. reflexivity. Qed.

  Lemma Sum_comm {A B} (f : A -> B -> S) la lb :
    Sum (fun a => Sum (fun b => f a b) lb) la = Sum (fun b => Sum (fun a => f a b) la) lb.
  Proof.
    induction la.
    - simpl. rewrite Sum_nil. symmetry. apply Sum_zero. reflexivity.
    - rewrite Sum_cons, IHla, <- Sum_add. apply Sum_ext. intro x. now rewrite Sum_cons.
  Qed.

  Lemma Sum_list_prod {A B} (f : A -> S) (g : B -> S) la lb :
    Sum (fun p => kmul (f (fst p)) (g (snd p))) (list_prod la lb) = kmul (Sum f la) (Sum g lb).
  Proof.
    induction la.
    - simpl. unfold Sum at 1 2. simpl. ring.
    - simpl. rewrite Sum_app, Sum_map, Sum_cons, IHla. simpl. rewrite Sum_scale_l. ring.
  Qed.

  Lemma Sum_mul {A B} (f : A -> S) (g : B -> S) la lb :
    kmul (Sum f la) (Sum g lb) = Sum (fun a => Sum (fun b => kmul (f a) (g b)) lb) la.
  Proof.
    rewrite <- Sum_scale_r. apply Sum_ext. intro a. now rewrite Sum_scale_l.
  Qed.

  Lemma Sum_single {A} (f : A -> S) (a : A) l :
    NoDup l -> In a l -> (forall x, In x l -> x <> a -> f x = k0) -> Sum f l = f a.
  Proof.
    induction l as [|b l IH]; intros Hn Hi Hz; [destruct Hi|].
    inversion_clear Hn as [|? ? Hb Hl]. rewrite Sum_cons. destruct Hi as [->|Hi].
    - rewrite (Sum_zero f l); [ring|]. intros x Hx. apply Hz; simpl; auto. congruence.
    - rewrite IH; auto.
      + rewrite Hz; [ring|simpl; auto|congruence].
      + intros; apply Hz; simpl; auto.
  Qed.

  (** sums over [seq] *)
  Lemma Sum_seq_shift f a n : Sum f (seq a n) = Sum (fun i => f (a + i)) (seq 0 n).
  Proof.
    revert f a. induction n; intros f a; [reflexivity|]. cbn [seq].
    rewrite !Sum_cons, Nat.add_0_r. f_equal.
    rewrite (IHn f), (IHn _ 1). apply Sum_ext. intro i. f_equal. lia.
  Qed.

  Lemma Sum_seq_S f n : Sum f (seq 0 (Datatypes.S n)) = kadd (Sum f (seq 0 n)) (f n).
  Proof. rewrite seq_S, Sum_app, Sum_one. reflexivity. Qed.

  Lemma Sum_seq_ext f g a n : (forall i, a <= i < a + n -> f i = g i) -> Sum f (seq a n) = Sum g (seq a n).
  Proof. intros H. apply Sum_ext_in. intros i Hi. apply in_seq in Hi. apply H. lia. Qed.

  Lemma seq_rev n : rev (seq 0 n) = map (fun i => n - 1 - i) (seq 0 n).
  Proof.
    induction n; [reflexivity|]. rewrite seq_S at 1. rewrite rev_app_distr. cbn [rev app].
    rewrite IHn. cbn [seq map]. f_equal; [lia|].
    rewrite <- seq_shift, map_map. apply map_ext_in. intros i Hi. apply in_seq in Hi. lia.
  Qed.

  Lemma Sum_seq_rev f n : Sum f (seq 0 n) = Sum (fun i => f (n - 1 - i)) (seq 0 n).
  Proof.
    rewrite (Sum_perm f (Permutation_rev (seq 0 n))), seq_rev, Sum_map. reflexivity.
  Qed.

  (** flattening a pair index: p = y * n + z *)
  Lemma Sum_seq_flatten f m n :
    Sum f (seq 0 (m * n)) = Sum (fun y => Sum (fun z => f (y * n + z)) (seq 0 n)) (seq 0 m).
  Proof.
    induction m; [reflexivity|].
    rewrite Sum_seq_S, <- IHm. replace (Datatypes.S m * n) with (m * n + n) by lia.
    rewrite seq_app, Sum_app. f_equal. rewrite Nat.add_0_l, Sum_seq_shift. reflexivity.
  Qed.

  Lemma Sum_seq_delta f n a : a < n ->
    Sum (fun i => if i =? a then f i else k0) (seq 0 n) = f a.
  Proof.
    intro H. rewrite (@Sum_single _ _ a).
    - now rewrite Nat.eqb_refl.
    - apply seq_NoDup.
    - apply in_seq; lia.
    - intros x _ Hx. apply Nat.eqb_neq in Hx. now rewrite Hx.
  Qed.
End Sums.

(** ** Homomorphisms between commutative semirings *)
Record csr_hom (S T : csr) (h : S -> T) : Prop := {
  hom0 : h k0 = k0; hom1 : h k1 = k1;
  hom_add : forall a b, h (kadd a b) = kadd (h a) (h b);
  hom_mul : forall a b, h (kmul a b) = kmul (h a) (h b) }.

Lemma hom_Sum (S T : csr) h (H : csr_hom S T h) A (f : A -> S) l :
  h (Sum S f l) = Sum T (fun x => h (f x)) l.
Proof.
  induction l; [apply (hom0 H)|]. rewrite !Sum_cons, (hom_add H), IHl. reflexivity.
Qed.
Lemma hom_Prod (S T : csr) h (H : csr_hom S T h) A (f : A -> S) l :
  h (Prod S f l) = Prod T (fun x => h (f x)) l.
Proof.
  induction l; [apply (hom1 H)|]. rewrite !Prod_cons, (hom_mul H), IHl. reflexivity.
Qed.

(** ** Useful list facts *)
Lemma NoDup_app2 {A} (l1 l2 : list A) : NoDup l1 -> NoDup l2 ->
  (forall x, In x l1 -> ~ In x l2) -> NoDup (l1 ++ l2).
Proof.
  induction l1 as [|a l1 IH]; simpl; intros H1 H2 H; auto.
  inversion_clear H1 as [|? ? Ha Hl]. constructor.
  - rewrite in_app_iff. intros [?|?]; [contradiction|]. eapply H; eauto.
  - apply IH; auto.
Qed.

Lemma NoDup_flat_map {A B} (f : A -> list B) l :
  NoDup l -> (forall a, In a l -> NoDup (f a)) ->
  (forall a a' b, In a l -> In a' l -> In b (f a) -> In b (f a') -> a = a') ->
  NoDup (flat_map f l).
Proof.
  induction l as [|a l IH]; intros Hn Hf Hd; simpl; [constructor|].
  inversion_clear Hn as [|? ? Ha Hl].
  apply NoDup_app2.
  - apply Hf; left; reflexivity.
  - apply IH; auto.
    + intros a' Ha'; apply Hf; right; exact Ha'.
    + intros a1 a2 b H1 H2; apply Hd; right; assumption.
  - intros b Hb Hc. apply in_flat_map in Hc as (a' & Ha' & Hb').
    assert (a = a') by (eapply Hd; simpl; eauto). subst. contradiction.
Qed.

Lemma NoDup_map_inj {A B} (f : A -> B) l :
  (forall x y, In x l -> In y l -> f x = f y -> x = y) -> NoDup l -> NoDup (map f l).
Proof.
  induction l as [|a l IH]; intros Hf Hn; simpl; [constructor|].
  inversion_clear Hn as [|? ? Ha Hl]. constructor.
  - intro Hi. apply in_map_iff in Hi as (x & Hx & Hi).
    assert (x = a) by (apply Hf; simpl; auto). subst; contradiction.
  - apply IH; auto. intros; apply Hf; simpl; auto.
Qed.

Lemma NoDup_list_prod {A B} (la : list A) (lb : list B) :
  NoDup la -> NoDup lb -> NoDup (list_prod la lb).
Proof.
  intros Ha Hb. induction Ha; simpl; [constructor|].
  apply NoDup_app2; auto.
  - apply NoDup_map_inj; auto. congruence.
  - intros [u v] H1 H2. apply in_map_iff in H1 as (w & [= <- <-] & _).
    apply in_prod_iff in H2 as [? _]. contradiction.
Qed.
