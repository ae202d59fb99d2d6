(** * Poly: the free commutative semiring over potentials.

    Used to turn "the dynamic program equals the sum over structures in every
    commutative semiring" into "the derivations of the program are, one for one,
    the structures". Specification-level mathematics; models no code. *)
From Verif Require Import Base Ops Terms.
From Coq Require Import Eqdep_dec Sorting.Sorted.
Set Implicit Arguments.

(** mathematics: a total order *)
Record tot := Tot {
  T :> Type;
  leb : T -> T -> bool;
  leb_total : forall a b, leb a b = true \/ leb b a = true;
  leb_trans : forall a b c, leb a b = true -> leb b c = true -> leb a c = true;
  leb_anti : forall a b, leb a b = true -> leb b a = true -> a = b }.
Arguments leb {_}.

Section Sort.
  Variable X : tot.
  Lemma leb_refl (a : X) : leb a a = true.
  Proof. destruct (leb_total X a a); auto. Qed.
  Lemma tot_eq_dec (a b : X) : {a = b} + {a <> b}.
  Proof.
    destruct (leb a b) eqn:E1; [destruct (leb b a) eqn:E2|].
    - left. apply leb_anti; auto.
    - right. intros ->. rewrite leb_refl in E2. discriminate.
    - right. intros ->. rewrite leb_refl in E1. discriminate.
  Qed.

  (** mathematics: insertion into a sorted list *)
  Fixpoint insert (a : X) (l : list X) : list X :=
    match l with
    | [] => [a]
    | b :: l' => if leb a b then a :: l else b :: insert a l'
    end.
  (** mathematics: insertion sort *)
  Fixpoint isort (l : list X) : list X :=
    match l with [] => [] | a :: l' => insert a (isort l') end.

  Lemma insert_perm a l : Permutation (insert a l) (a :: l).
  Proof.
    induction l as [|b l IH]; simpl; auto. destruct (leb a b); auto.
    rewrite IH. apply perm_swap.
  Qed.
  Lemma isort_perm l : Permutation (isort l) l.
  Proof. induction l; simpl; auto. rewrite insert_perm. auto. Qed.

  Lemma insert_comm a b l : insert a (insert b l) = insert b (insert a l).
  Proof.
    induction l as [|c l IH]; simpl.
    - destruct (leb a b) eqn:E1, (leb b a) eqn:E2; auto.
      + now rewrite (leb_anti X _ _ E1 E2).
      + destruct (leb_total X a b); congruence.
    - destruct (leb a c) eqn:Eac, (leb b c) eqn:Ebc; simpl; rewrite ?Eac, ?Ebc.
      + destruct (leb a b) eqn:E1, (leb b a) eqn:E2; simpl; rewrite ?Eac, ?Ebc; auto.
        * now rewrite (leb_anti X _ _ E1 E2).
        * destruct (leb_total X a b); congruence.
      + destruct (leb b a) eqn:E2; simpl; rewrite ?Ebc; auto.
        rewrite (leb_trans X _ _ _ E2 Eac) in Ebc. discriminate.
      + destruct (leb a b) eqn:E1; simpl; rewrite ?Eac; auto.
        rewrite (leb_trans X _ _ _ E1 Ebc) in Eac. discriminate.
      + now rewrite IH.
  Qed.

  Lemma isort_of_perm l l' : Permutation l l' -> isort l = isort l'.
  Proof.
    induction 1; simpl; auto.
    - congruence.
    - apply insert_comm.
    - congruence.
  Qed.
  Lemma isort_idem l : isort (isort l) = isort l.
  Proof. apply isort_of_perm, isort_perm. Qed.
  Lemma isort_inj l l' : isort l = isort l' -> Permutation l l'.
  Proof. intro H. rewrite <- (isort_perm l), <- (isort_perm l'), H. reflexivity. Qed.

  (** lexicographic order on lists *)
  Fixpoint lexb (l m : list X) : bool :=
    match l, m with
    | [], _ => true
    | _ :: _, [] => false
    | a :: l', b :: m' => if leb a b then (if leb b a then lexb l' m' else true) else false
    end.
  Lemma lexb_total l m : lexb l m = true \/ lexb m l = true.
  Proof.
    revert m. induction l as [|a l IH]; intros [|b m]; simpl; auto.
    destruct (leb a b) eqn:E1, (leb b a) eqn:E2; auto.
    destruct (leb_total X a b); congruence.
  Qed.
  Lemma lexb_anti l m : lexb l m = true -> lexb m l = true -> l = m.
  Proof.
    revert m. induction l as [|a l IH]; intros [|b m]; simpl; auto; try discriminate.
    destruct (leb a b) eqn:E1, (leb b a) eqn:E2; try discriminate.
    intros. f_equal; auto. apply leb_anti; auto.
  Qed.
  Lemma lexb_trans l m n : lexb l m = true -> lexb m n = true -> lexb l n = true.
  Proof.
    revert m n. induction l as [|a l IH]; intros [|b m] [|c n]; simpl; auto; try discriminate.
    destruct (leb a b) eqn:E1; try discriminate.
    destruct (leb b c) eqn:E2; try discriminate.
    rewrite (leb_trans X _ _ _ E1 E2).
    destruct (leb c a) eqn:E5; auto.
    rewrite (leb_trans X _ _ _ E2 E5), (leb_trans X _ _ _ E5 E1). eauto.
  Qed.
End Sort.

(** mathematics: the lexicographic order of lists *)
Definition lex (X : tot) : tot := Tot (lexb X) (lexb_total X) (lexb_trans X) (lexb_anti X).

(** mathematics: the order of the natural numbers *)
Definition nat_tot : tot.
Proof.
  refine (@Tot nat Nat.leb _ _ _); intros *; rewrite ?Nat.leb_le; lia.
Defined.

(** mathematics: an order of the potentials, by index *)
Definition leaf_tot : tot := lex nat_tot.         (* potentials, by index *)
Definition mono_tot : tot := lex leaf_tot.        (* sorted lists of potentials *)

Definition leaf_id : Type := list nat.
(** mathematics: a monomial in sorted form *)
Definition msort (m : list leaf_id) : list leaf_id := isort leaf_tot m.
(** mathematics: a list of monomials in sorted form *)
Definition psort (p : list (list leaf_id)) : list (list leaf_id) := isort mono_tot p.

(** canonical form: monomials sorted, list of monomials sorted *)
Definition canon (p : list (list leaf_id)) : list (list leaf_id) := psort (map msort p).

Lemma psort_perm p : Permutation (psort p) p.
Proof. exact (isort_perm mono_tot p). Qed.
Lemma psort_of_perm p q : Permutation p q -> psort p = psort q.
Proof. exact (@isort_of_perm mono_tot p q). Qed.
Lemma psort_inj p q : psort p = psort q -> Permutation p q.
Proof. exact (@isort_inj mono_tot p q). Qed.
Lemma msort_perm m : Permutation (msort m) m.
Proof. exact (isort_perm leaf_tot m). Qed.
Lemma msort_eq m m' : msort m = msort m' <-> Permutation m m'.
Proof. split; [exact (@isort_inj leaf_tot m m')|exact (@isort_of_perm leaf_tot m m')]. Qed.
Lemma msort_idem m : msort (msort m) = msort m.
Proof. apply msort_eq, msort_perm. Qed.

Lemma canon_idem p : canon (canon p) = canon p.
Proof.
  unfold canon. apply psort_of_perm.
  rewrite (Permutation_map msort (psort_perm (map msort p))), map_map.
  erewrite map_ext; [reflexivity|]. apply msort_idem.
Qed.

(** mathematics: equality of polynomials up to order *)
Definition pequiv (p q : list (list leaf_id)) : Prop :=
  Permutation (map msort p) (map msort q).

Lemma canon_eq p q : canon p = canon q <-> pequiv p q.
Proof.
  unfold canon, pequiv. split.
  - apply psort_inj.
  - apply psort_of_perm.
Qed.

(** mathematics: polynomials in canonical form *)
Definition poly := { p : list (list leaf_id) | canon p = p }.
(** mathematics: canonical form of a list of monomials *)
Definition mkpoly (p : list (list leaf_id)) : poly := exist _ (canon p) (canon_idem p).

Lemma poly_eq (a b : poly) : proj1_sig a = proj1_sig b -> a = b.
Proof.
  destruct a as [a Ha], b as [b Hb]. simpl. intros ->. f_equal.
  apply UIP_dec. apply (list_eq_dec (list_eq_dec (list_eq_dec Nat.eq_dec))).
Qed.
Lemma mkpoly_eq p q : mkpoly p = mkpoly q <-> pequiv p q.
Proof.
  rewrite <- canon_eq. split; intro H.
  - inversion H; auto.
  - apply poly_eq. exact H.
Qed.
Lemma mkpoly_val a : mkpoly (proj1_sig a) = a.
Proof. apply poly_eq. destruct a; simpl; auto. Qed.

(** mathematics: sum of polynomials, as lists *)
Definition padd_l (p q : list (list leaf_id)) := p ++ q.
(** mathematics: product of polynomials, as lists *)
Definition pmul_l (p q : list (list leaf_id)) :=
  flat_map (fun a => map (fun b => a ++ b) q) p.

Global Instance pequiv_equiv : RelationClasses.Equivalence pequiv.
Proof.
  split.
  - intro p. unfold pequiv. reflexivity.
  - intros p q H. unfold pequiv in *. now symmetry.
  - intros p q r H1 H2. unfold pequiv in *. etransitivity; eauto.
Qed.

Lemma padd_proper p p' q q' : pequiv p p' -> pequiv q q' -> pequiv (padd_l p q) (padd_l p' q').
Proof. unfold pequiv, padd_l. rewrite !map_app. intros -> ->. reflexivity. Qed.

Lemma msort_app a a' b b' : msort a = msort a' -> msort b = msort b' -> msort (a ++ b) = msort (a' ++ b').
Proof.
  rewrite !msort_eq. intros Ha Hb.
  now rewrite Ha, Hb.
Qed.

Lemma pmul_canon p q :
  map msort (pmul_l p q) =
  flat_map (fun a => map (fun b => msort (a ++ b)) (map msort q)) (map msort p).
Proof.
  unfold pmul_l. induction p as [|a p IH]; simpl; auto.
  rewrite map_app, IH. f_equal. rewrite !map_map. apply map_ext. intro b.
  symmetry. apply msort_app; apply msort_idem.
Qed.

Lemma flat_map_perm2 {A B C} (f : A -> B -> C) p p' q q' :
  Permutation p p' -> Permutation q q' ->
  Permutation (flat_map (fun a => map (f a) q) p) (flat_map (fun a => map (f a) q') p').
Proof.
  intros Hp Hq. transitivity (flat_map (fun a => map (f a) q') p).
  - clear Hp. induction p; simpl; auto. apply Permutation_app; auto.
    apply Permutation_map, Hq.
  - apply Permutation_flat_map, Hp.
Qed.

Lemma pmul_proper p p' q q' : pequiv p p' -> pequiv q q' -> pequiv (pmul_l p q) (pmul_l p' q').
Proof.
  unfold pequiv. intros Hp Hq. rewrite !pmul_canon.
  apply (flat_map_perm2 (fun a b => msort (a ++ b))); auto.
Qed.

Lemma perm_pequiv p q : Permutation p q -> pequiv p q.
Proof. unfold pequiv. intros ->. reflexivity. Qed.
Lemma ext_pequiv p q : Forall2 (@Permutation leaf_id) p q -> pequiv p q.
Proof.
  unfold pequiv. induction 1; simpl; auto.
  rewrite IHForall2. replace (msort y) with (msort x); auto.
  now apply msort_eq.
Qed.

Lemma Forall2_perm_map {A} (f g : A -> list leaf_id) l :
  (forall x, Permutation (f x) (g x)) -> Forall2 (@Permutation leaf_id) (map f l) (map g l).
Proof. intro H. induction l; simpl; constructor; auto. Qed.

Lemma flat_map_map_swap {A B C} (f : A -> B -> C) la lb :
  Permutation (flat_map (fun a => map (f a) lb) la) (flat_map (fun b => map (fun a => f a b) la) lb).
Proof.
  induction la as [|a la IH]; simpl.
  - induction lb; simpl; auto.
  - rewrite IH. clear IH. induction lb as [|b lb IH]; simpl; auto.
    rewrite <- IH. apply perm_skip. rewrite !app_assoc.
    apply Permutation_app_tail. apply Permutation_app_comm.
Qed.

Lemma pmul_comm_l p q : pequiv (pmul_l p q) (pmul_l q p).
Proof.
  unfold pmul_l. transitivity (flat_map (fun b => map (fun a => a ++ b) p) q).
  - apply perm_pequiv. apply (flat_map_map_swap (fun a b => a ++ b)).
  - apply ext_pequiv. induction q; simpl; auto.
    apply Forall2_app; auto. apply Forall2_perm_map. intro. apply Permutation_app_comm.
Qed.

Lemma pmul_assoc_l p q r : pmul_l p (pmul_l q r) = pmul_l (pmul_l p q) r.
Proof.
  unfold pmul_l. induction p as [|a p IH]; simpl; auto.
  rewrite flat_map_app, IH. f_equal. clear IH.
  induction q as [|b q IH]; simpl; auto.
  rewrite map_app, IH, map_map. f_equal. apply map_ext. intro. apply app_assoc.
Qed.
Lemma pmul_1_l p : pmul_l [[]] p = p.
Proof. unfold pmul_l. simpl. rewrite app_nil_r. erewrite map_ext; [apply map_id|]. reflexivity. Qed.
Lemma pmul_distr_l p q r : Permutation (pmul_l p (q ++ r)) (pmul_l p q ++ pmul_l p r).
Proof.
  unfold pmul_l. induction p as [|a p IH]; simpl; auto.
  rewrite map_app, IH, <- !app_assoc. apply Permutation_app_head.
  rewrite !app_assoc. apply Permutation_app_tail, Permutation_app_comm.
Qed.

(** mathematics: sum of polynomials *)
Definition padd (a b : poly) : poly := mkpoly (padd_l (proj1_sig a) (proj1_sig b)).
(** mathematics: product of polynomials *)
Definition pmul (a b : poly) : poly := mkpoly (pmul_l (proj1_sig a) (proj1_sig b)).

Lemma canon_pequiv p : pequiv (canon p) p.
Proof. apply canon_eq, canon_idem. Qed.
Lemma padd_mk p q : padd (mkpoly p) (mkpoly q) = mkpoly (padd_l p q).
Proof. apply mkpoly_eq. apply padd_proper; apply canon_pequiv. Qed.
Lemma pmul_mk p q : pmul (mkpoly p) (mkpoly q) = mkpoly (pmul_l p q).
Proof. apply mkpoly_eq. apply pmul_proper; apply canon_pequiv. Qed.

Lemma mkpoly_surj (a : poly) : exists p, a = mkpoly p.
Proof. exists (proj1_sig a). symmetry. apply mkpoly_val. Qed.
Ltac polys := intros; repeat match goal with
  | a : poly |- _ => let p := fresh "p" in let E := fresh in
                     destruct (mkpoly_surj a) as [p E]; subst a end;
  repeat (rewrite padd_mk || rewrite pmul_mk); apply mkpoly_eq.

Lemma padd_comm_p a b : padd a b = padd b a.
Proof. polys. apply perm_pequiv, Permutation_app_comm. Qed.
Lemma padd_assoc_p a b c : padd a (padd b c) = padd (padd a b) c.
Proof. polys. unfold padd_l. rewrite app_assoc. reflexivity. Qed.
Lemma padd_0_p a : padd (mkpoly []) a = a.
Proof. polys. reflexivity. Qed.
Lemma pmul_comm_p a b : pmul a b = pmul b a.
Proof. polys. apply pmul_comm_l. Qed.
Lemma pmul_assoc_p a b c : pmul a (pmul b c) = pmul (pmul a b) c.
Proof. polys. rewrite pmul_assoc_l. reflexivity. Qed.
Lemma pmul_1_p a : pmul (mkpoly [[]]) a = a.
Proof. polys. rewrite pmul_1_l. reflexivity. Qed.
Lemma pmul_0_p a : pmul (mkpoly []) a = mkpoly [].
Proof. polys. reflexivity. Qed.
Lemma pdistr_p a b c : pmul a (padd b c) = padd (pmul a b) (pmul a c).
Proof. polys. apply perm_pequiv, pmul_distr_l. Qed.

(** mathematics: polynomials form a commutative semiring *)
Definition poly_csr : csr :=
  @Csr poly (mkpoly []) (mkpoly [[]]) padd pmul padd_comm_p padd_assoc_p padd_0_p
      pmul_comm_p pmul_assoc_p pmul_1_p pmul_0_p pdistr_p.

(** mathematics: the polynomial of one potential *)
Definition var (e : leaf_id) : poly_csr := mkpoly [[e]].

Lemma Prod_var m : Prod poly_csr var m = mkpoly [m].
Proof.
  induction m as [|e m IH]; [reflexivity|]. rewrite Prod_cons, IH. unfold var.
  change (pmul (mkpoly [[e]]) (mkpoly [m]) = mkpoly [e :: m]). rewrite pmul_mk. reflexivity.
Qed.
Lemma Sum_mono {A} (f : A -> list leaf_id) l :
  Sum poly_csr (fun x => mkpoly [f x]) l = mkpoly (map f l).
Proof.
  induction l as [|a l IH]; [reflexivity|]. rewrite Sum_cons, IH.
  change (padd (mkpoly [f a]) (mkpoly (map f l)) = mkpoly (map f (a :: l))).
  rewrite padd_mk. reflexivity.
Qed.

(** Two lists of monomials equal in value under every valuation in every
    commutative semiring agree one for one, up to reordering. *)
Theorem monomials_unique {A B} (f : A -> list leaf_id) (g : B -> list leaf_id) la lb :
  (forall (S : csr) (v : leaf_id -> S),
     Sum S (fun x => Prod S v (f x)) la = Sum S (fun y => Prod S v (g y)) lb) ->
  Permutation (map (fun x => msort (f x)) la) (map (fun y => msort (g y)) lb).
Proof.
  intro H. specialize (H poly_csr var).
  rewrite (Sum_ext poly_csr _ (fun x => mkpoly [f x])) in H by (intro; apply Prod_var).
  rewrite (Sum_ext poly_csr (fun y => Prod poly_csr var (g y)) (fun x => mkpoly [g x])) in H
    by (intro; apply Prod_var).
  rewrite !Sum_mono in H. apply mkpoly_eq in H. unfold pequiv in H.
  now rewrite !map_map in H.
Qed.

(** The pure derivations of a term whose value is the sum over structures in
    every commutative semiring are exactly the structures. *)
Theorem derivations_are_structures {A} (parts : A -> list leaf_id) (l : list A) t :
  (forall (S : csr) v, leval (csr_ops S) v t = Sum S (fun s => Prod S v (parts s)) l) ->
  Permutation (map (fun m => msort (leaves m)) (filter pure (expand t)))
              (map (fun s => msort (parts s)) l).
Proof.
  intro H. apply monomials_unique. intros S v. rewrite <- H. symmetry. apply leval_pure.
Qed.
