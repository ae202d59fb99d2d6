(** * Special: the expectation semirings on floats that may be infinite or NaN.

    EntropySemiring, KLDivergenceSemiring and CrossEntropySemiring multiply
    log-probabilities by probabilities. With potentials of -inf (Mask.v) this
    meets -inf * 0 and -inf - -inf. The models of Api.v are parametric in the
    semiring operations; here they are run on floats with the IEEE special values. *)
From Verif Require Import Base Ops Terms Semirings Poly Chain LinearChain SemiMarkov CkyCrf Batch Family Approx Grad Dist Degree Shape Api Query Mask.
Set Implicit Arguments.
Local Open Scope R_scope.

(** a float: a real number, +inf, -inf or NaN. Simplification: finite values are
    real numbers, without rounding or overflow. *)
Inductive flt := FR (r : R) | FPos | FNeg | FNan.
(** torch addition (no code of the repository): inf + -inf is NaN *)
Definition fadd (a b : flt) : flt :=
  match a, b with
  | FNan, _ | _, FNan | FPos, FNeg | FNeg, FPos => FNan
  | FR x, FR y => FR (x + y)
  | FPos, _ | _, FPos => FPos
  | _, _ => FNeg
  end.
(** torch negation *)
Definition fneg (a : flt) : flt := match a with FR x => FR (- x) | FPos => FNeg | FNeg => FPos | FNan => FNan end.
(** torch subtraction *)
Definition fsub (a b : flt) : flt := fadd a (fneg b).
(** torch multiplication of +inf by x *)
Definition finf (x : R) : flt := if Rlt_dec 0 x then FPos else if Rlt_dec x 0 then FNeg else FNan.
(** torch multiplication: infinity times zero is NaN *)
Definition fmul (a b : flt) : flt :=
  match a, b with
  | FNan, _ | _, FNan => FNan
  | FR x, FR y => FR (x * y)
  | FPos, FR x | FR x, FPos => finf x
  | FNeg, FR x | FR x, FNeg => fneg (finf x)
  | FPos, FPos | FNeg, FNeg => FPos
  | _, _ => FNeg
  end.
(** torch.exp *)
Definition fexp (a : flt) : flt := match a with FR x => FR (exp x) | FPos => FPos | FNeg => FR 0 | FNan => FNan end.
(** torch.sum along a dimension *)
Definition fsum (l : list flt) : flt := fold_right fadd (FR 0) l.
(** an entry without NaN and +inf, as a float *)
Definition of_x (x : ext) : flt := match x with Some r => FR r | None => FNeg end.
(** the entry of such a float; None for the others *)
Definition to_x (a : flt) : ext := match a with FR r => Some r | _ => None end.
(** whether a float is NaN *)
Definition is_nan (a : flt) : bool := match a with FNan => true | _ => false end.
(** whether a float is +inf *)
Definition is_pinf (a : flt) : bool := match a with FPos => true | _ => false end.
(** torch.logsumexp along a dimension: NaN wins over +inf, +inf over finite values *)
Definition flse (l : list flt) : flt :=
  if existsb is_nan l then FNan else if existsb is_pinf l then FPos else of_x (xlse (map to_x l)).

(** semirings.py:388-395 [EntropySemiring.sum] on floats *)
Definition fent_sum (l : list (flt * flt)) : flt * flt :=
  let part := flse (map fst l) in
  (part, fsum (map (fun x => let log_sm := fsub (fst x) part in let sm := fexp log_sm in
                             fsub (fmul (snd x) sm) (fmul log_sm sm)) l)).
(** semirings.py:357-403 [EntropySemiring]; the class's own zero is the finite -1e5 *)
Definition fent_ops (z : R) : ops :=
  {| car := flt * flt; ssum := fent_sum; smul := fun a b => (fadd (fst a) (fst b), fadd (snd a) (snd b));
     szero := (FR z, FR 0); sone := (FR 0, FR 0); sover := fun _ => (FR z, FR 0) |}.
(** three floats of a cell (semirings.py:240-354) *)
Definition tri : Type := (flt * flt * flt)%type.
(** log p of a cell (semirings.py:240-354) *)
Definition fp (x : tri) : flt := fst (fst x).
(** log q of a cell (semirings.py:240-354) *)
Definition fq (x : tri) : flt := snd (fst x).
(** running value of a cell (semirings.py:240-354) *)
Definition fd (x : tri) : flt := snd x.
(** semirings.py:294-296, 348-350 [mul]: the three floats are added *)
Definition fmul3 (a b : tri) : tri := (fadd (fp a) (fp b), fadd (fq a) (fq b), fadd (fd a) (fd b)).
(** semirings.py:275-292 [KLDivergenceSemiring.sum] on floats *)
Definition fkl_sum (l : list tri) : tri :=
  let part_p := flse (map fp l) in let part_q := flse (map fq l) in
  (part_p, part_q,
   fsum (map (fun x => let lp := fsub (fp x) part_p in let lq := fsub (fq x) part_q in let sm := fexp lp in
                       fadd (fsub (fmul (fd x) sm) (fmul lq sm)) (fmul lp sm)) l)).
(** semirings.py:335-346 [CrossEntropySemiring.sum] on floats *)
Definition fce_sum (l : list tri) : tri :=
  let part_p := flse (map fp l) in let part_q := flse (map fq l) in
  (part_p, part_q,
   fsum (map (fun x => let lp := fsub (fp x) part_p in let lq := fsub (fq x) part_q in let sm := fexp lp in
                       fsub (fmul (fd x) sm) (fmul lq sm)) l)).
(** semirings.py:240-300 [KLDivergenceSemiring] *)
Definition fkl_ops (z : R) : ops :=
  {| car := tri; ssum := fkl_sum; smul := fmul3;
     szero := (FR z, FR z, FR 0); sone := (FR 0, FR 0, FR 0); sover := fun _ => (FR z, FR z, FR 0) |}.
(** semirings.py:303-354 [CrossEntropySemiring] *)
Definition fce_ops (z : R) : ops :=
  {| car := tri; ssum := fce_sum; smul := fmul3;
     szero := (FR z, FR z, FR 0); sone := (FR 0, FR 0, FR 0); sover := fun _ => (FR z, FR z, FR 0) |}.

(** distributions.py:77-86 [entropy] on potentials that may be -inf *)
Definition f_entropy (c : call) (phi : list nat -> ext) : res (list flt) :=
  res_map (map snd) (run c (fent_ops NEG) (fun e => (of_x (phi e), FR 0))).
(** distributions.py:88-115: classes that accept a pair of tensors (see
    Query.pair_call for the others) *)
Definition fpair_call (c : call) (r : res (list flt)) : res (list flt) :=
  match c with
  | CLin _ _ _ _ | CTree _ _ _ _ => r
  | CSemi _ _ _ _ _ | CDep _ _ _ _ _ => Err AttributeError
  | CCfg _ _ _ _ _ => Err ValueError
  end.
(** distributions.py:103-115 [kl] on potentials that may be -inf *)
Definition f_kl (c : call) (phi psi : list nat -> ext) : res (list flt) :=
  fpair_call c (res_map (map fd) (run c (fkl_ops NEG) (fun e => (of_x (phi e), of_x (psi e), FR 0)))).
(** distributions.py:88-101 [cross_entropy] on potentials that may be -inf *)
Definition f_cross_entropy (c : call) (phi psi : list nat -> ext) : res (list flt) :=
  fpair_call c (res_map (map fd) (run c (fce_ops NEG) (fun e => (of_x (phi e), of_x (psi e), FR 0)))).

(** ** Arithmetic *)
Lemma fadd_nan_l a : fadd FNan a = FNan. Proof. destruct a; reflexivity. Qed.
Lemma fadd_nan_r a : fadd a FNan = FNan. Proof. destruct a; reflexivity. Qed.
Lemma fmul_nan_l a : fmul FNan a = FNan. Proof. destruct a; reflexivity. Qed.
Lemma fmul_nan_r a : fmul a FNan = FNan. Proof. destruct a; reflexivity. Qed.
Lemma fsum_nan l : In FNan l -> fsum l = FNan.
Proof. induction l as [|x l IH]; intros []; [subst; apply fadd_nan_l|]. simpl. rewrite IH by auto. apply fadd_nan_r. Qed.
Lemma of_to x : to_x (of_x x) = x. Proof. destruct x; reflexivity. Qed.
Lemma flse_x l : flse (map of_x l) = of_x (xlse l).
Proof.
  unfold flse.
  assert (E1 : existsb is_nan (map of_x l) = false) by (induction l as [|[x|] l IH]; simpl; auto).
  assert (E2 : existsb is_pinf (map of_x l) = false) by (induction l as [|[x|] l IH]; simpl; auto).
  rewrite E1, E2, map_map. f_equal. f_equal. rewrite <- (map_id l) at 2. apply map_ext, of_to.
Qed.
Lemma of_x_plus a b : fadd (of_x a) (of_x b) = of_x (xplus a b). Proof. destruct a, b; reflexivity. Qed.
Lemma of_x_inj a b : of_x a = of_x b -> a = b. Proof. destruct a, b; simpl; congruence. Qed.
Lemma finf_0 : finf 0 = FNan.
Proof. unfold finf. destruct (Rlt_dec 0 0); [lra|reflexivity]. Qed.
Lemma finf_pos x : 0 < x -> finf x = FPos.
Proof. intro H. unfold finf. destruct (Rlt_dec 0 x); [reflexivity|lra]. Qed.
(** -inf - part, times its exponential, is NaN whatever part is (not +inf) *)
Lemma dead_nan (part : ext) : fmul (fsub FNeg (of_x part)) (fexp (fsub FNeg (of_x part))) = FNan.
Proof. destruct part; cbn; [now rewrite finf_0|reflexivity]. Qed.

(** ** Terms *)
(** spec: potential e is read somewhere in the graph *)
Fixpoint reads (e : list nat) (t : term) : Prop :=
  match t with
  | TLeaf e' => e = e'
  | TSum l => fold_right or False (map (reads e) l)
  | TMul a b => reads e a \/ reads e b
  | _ => False
  end.
Lemma fold_or (A : Type) (f : A -> Prop) l : fold_right or False (map f l) <-> exists x, In x l /\ f x.
Proof.
  induction l as [|x l IH]; simpl; [split; [tauto|intros (x & [] & _)]|]. rewrite IH. split.
  - intros [H|(y & Hy & H)]; eauto.
  - intros (y & [<-|Hy] & H); eauto.
Qed.
Lemma fold_and (A : Type) (f : A -> Prop) l : fold_right and True (map f l) <-> forall x, In x l -> f x.
Proof.
  induction l as [|x l IH]; simpl; [tauto|]. rewrite IH. split.
  - intros [H1 H2] y [<-|Hy]; auto.
  - intro H. split; auto.
Qed.
Lemma reads_expand e t : forall m, In m (expand t) -> In (AL e) m -> reads e t.
Proof.
  induction t as [e'|e'| | |l IH|a b IHa IHb] using term_ind'; intros m Hm He; cbn [expand reads] in *.
  - destruct Hm as [<-|[]]. destruct He as [E|[]]. congruence.
  - destruct Hm as [<-|[]]. destruct He as [E|[]]. congruence.
  - destruct Hm as [<-|[]]. destruct He.
  - destruct Hm as [<-|[]]. destruct He as [E|[]]. congruence.
  - apply fold_or. apply in_flat_map in Hm as (t & Ht & Hm). rewrite Forall_forall in IH. exists t. eauto.
  - apply in_prods in Hm as (x & y & Hx & Hy & ->). apply in_app_or in He as [He|He]; eauto.
Qed.
(** spec: every sum of the graph satisfies P *)
Fixpoint all_sums (P : list term -> Prop) (t : term) : Prop :=
  match t with
  | TSum l => P l /\ fold_right and True (map (all_sums P) l)
  | TMul a b => all_sums P a /\ all_sums P b
  | _ => True
  end.
(** spec: some sum of the graph satisfies P *)
Fixpoint some_sum (P : list term -> Prop) (t : term) : Prop :=
  match t with
  | TSum l => P l \/ fold_right or False (map (some_sum P) l)
  | TMul a b => some_sum P a \/ some_sum P b
  | _ => False
  end.
(** spec: a sum all of whose arguments are -inf *)
Definition dead_sum (psi : list nat -> ext) (z : R) (l : list term) : Prop := leval (xlog_ops z) psi (TSum l) = None.
(** spec: a sum with an argument that is not -inf *)
Definition live_sum (psi : list nat -> ext) (z : R) (l : list term) : Prop := leval (xlog_ops z) psi (TSum l) <> None.

(** *** Entropy *)
Section Ent.
  Variables (phi : list nat -> ext) (z : R).
  Notation ev := (leval (fent_ops z) (fun e => (of_x (phi e), FR 0))).
  Lemma ent_fst t : fst (ev t) = of_x (leval (xlog_ops z) phi t).
  Proof.
    induction t as [e|e| | |l IH|a b IHa IHb] using term_ind'; try reflexivity.
    - cbn [leval ssum fent_ops xlog_ops fent_sum fst]. rewrite <- flse_x, !map_map. f_equal.
      apply map_ext_in. rewrite Forall_forall in IH. exact IH.
    - cbn [leval smul fent_ops xlog_ops fst]. now rewrite IHa, IHb, of_x_plus.
  Qed.
  (** the term that argument t contributes to the second float of a sum *)
  Lemma ent_sum_nan l t : In t l -> (snd (ev t) = FNan \/ fst (ev t) = FNeg) -> snd (ev (TSum l)) = FNan.
  Proof.
    intros Ht H. cbn [leval ssum fent_ops fent_sum snd]. apply fsum_nan. rewrite map_map. apply in_map_iff. exists t. split; [|exact Ht].
    rewrite !map_map. rewrite (map_ext _ (fun t => of_x (leval (xlog_ops z) phi t)) ent_fst).
    rewrite <- (map_map (leval (xlog_ops z) phi) of_x). rewrite flse_x.
    destruct H as [H|H]; cbv zeta.
    - rewrite H, fmul_nan_l. unfold fsub at 1. apply fadd_nan_l.
    - rewrite H, dead_nan. unfold fsub at 1. cbn [fneg]. apply fadd_nan_r.
  Qed.
  Lemma ent_reads e t : phi e = None -> reads e t -> snd (ev t) = FNan \/ fst (ev t) = FNeg.
  Proof.
    intros He. induction t as [e'|e'| | |l IH|a b IHa IHb] using term_ind'; cbn [reads]; intro H; try contradiction.
    - subst e'. right. cbn. now rewrite He.
    - left. apply fold_or in H as (t & Ht & H). rewrite Forall_forall in IH. eapply ent_sum_nan; eauto.
    - cbn [leval smul fent_ops fst snd]. destruct H as [H|H].
      + destruct (IHa H) as [G|G]; rewrite G; [left; apply fadd_nan_l|right].
        rewrite ent_fst. now destruct (leval (xlog_ops z) phi b).
      + destruct (IHb H) as [G|G]; rewrite G; [left; apply fadd_nan_r|right].
        rewrite ent_fst. now destruct (leval (xlog_ops z) phi a).
  Qed.
  (** one -inf that is read anywhere in a row that is itself not at -inf *)
  Theorem ent_nan e t : phi e = None -> reads e t -> leval (xlog_ops z) phi t <> None -> snd (ev t) = FNan.
  Proof.
    intros He Hr Hl. destruct (ent_reads t He Hr) as [H|H]; auto. rewrite ent_fst in H.
    destruct Hl. now apply of_x_inj.
  Qed.
End Ent.

(** *** Divergences: log p and log q are both log-partition values *)
Section Kl.
  Variables (phi psi : list nat -> ext) (z : R) (kl : bool).
  (** proof device: both semirings at once; the flag says which *)
  Definition fkc_ops : ops :=
    {| car := tri; ssum := if kl then fkl_sum else fce_sum; smul := fmul3;
       szero := (FR z, FR z, FR 0); sone := (FR 0, FR 0, FR 0); sover := fun _ => (FR z, FR z, FR 0) |}.
  (** proof device: value of a graph in either semiring *)
  Definition kev (t : term) : tri := leval fkc_ops (fun e => (of_x (phi e), of_x (psi e), FR 0)) t.
  (** proof device: what argument x contributes to the third float of a sum with these totals *)
  Definition contrib (pp pq : flt) (x : tri) : flt :=
    let lp := fsub (fp x) pp in let lq := fsub (fq x) pq in let sm := fexp lp in
    if kl then fadd (fsub (fmul (fd x) sm) (fmul lq sm)) (fmul lp sm) else fsub (fmul (fd x) sm) (fmul lq sm).
  Lemma kev_leaf e : kev (TLeaf e) = (of_x (phi e), of_x (psi e), FR 0).
  Proof. unfold kev, fkc_ops. destruct kl; reflexivity. Qed.
  Lemma kev_const t : t = TZero \/ (exists e, t = TOver e) -> kev t = (FR z, FR z, FR 0).
  Proof. unfold kev, fkc_ops. intros [->|(e & ->)]; destruct kl; reflexivity. Qed.
  Lemma kev_one : kev TOne = (FR 0, FR 0, FR 0).
  Proof. unfold kev, fkc_ops. destruct kl; reflexivity. Qed.
  Lemma kev_mul a b : kev (TMul a b) = fmul3 (kev a) (kev b).
  Proof. unfold kev, fkc_ops. destruct kl; reflexivity. Qed.
  Lemma kev_sum l : kev (TSum l) =
    let v := map kev l in let pp := flse (map fp v) in let pq := flse (map fq v) in
    (pp, pq, fsum (map (contrib pp pq) v)).
  Proof. unfold kev, fkc_ops, contrib. destruct kl; reflexivity. Qed.
  Notation P := (leval (xlog_ops z) phi).
  Notation Q := (leval (xlog_ops z) psi).
  Lemma kev_pq t : fp (kev t) = of_x (P t) /\ fq (kev t) = of_x (Q t).
  Proof.
    induction t as [e|e| | |l IH|a b IHa IHb] using term_ind'.
    - rewrite kev_leaf. split; reflexivity.
    - rewrite kev_const by eauto. split; reflexivity.
    - rewrite kev_one. split; reflexivity.
    - rewrite kev_const by eauto. split; reflexivity.
    - rewrite kev_sum. cbv zeta. unfold fp, fq. cbn [fst snd leval ssum xlog_ops]. rewrite <- !flse_x, !map_map.
      rewrite Forall_forall in IH. split; f_equal; apply map_ext_in; intros t Ht; now apply IH.
    - rewrite kev_mul. unfold fmul3. destruct IHa as [A1 A2], IHb as [B1 B2]. rewrite A1, A2, B1, B2.
      unfold fp, fq. cbn [fst snd leval smul xlog_ops]. now rewrite !of_x_plus.
  Qed.
  Lemma kev_sum_x l : kev (TSum l) =
    (of_x (P (TSum l)), of_x (Q (TSum l)), fsum (map (fun t => contrib (of_x (P (TSum l))) (of_x (Q (TSum l))) (kev t)) l)).
  Proof.
    destruct (kev_pq (TSum l)) as [H1 H2]. rewrite kev_sum in *. cbv zeta in *. unfold fp at 1 in H1. unfold fq at 1 in H2.
    cbn [fst snd] in H1, H2. rewrite H1, H2, map_map. reflexivity.
  Qed.
  Lemma fd_sum_nan l t : In t l -> contrib (of_x (P (TSum l))) (of_x (Q (TSum l))) (kev t) = FNan -> fd (kev (TSum l)) = FNan.
  Proof. intros Ht H. rewrite kev_sum_x. unfold fd at 1. cbn [snd]. apply fsum_nan. apply in_map_iff. eauto. Qed.
  Lemma contrib_d pp pq x : fd x = FNan -> contrib pp pq x = FNan.
  Proof. intro H. unfold contrib. rewrite H, fmul_nan_l. unfold fsub. rewrite fadd_nan_l. destruct kl; reflexivity. Qed.
  Lemma contrib_lq pp pq x : fmul (fsub (fq x) pq) (fexp (fsub (fp x) pp)) = FNan -> contrib pp pq x = FNan.
  Proof. intro H. unfold contrib. cbv zeta. rewrite H. assert (E : forall a, fsub a FNan = FNan) by (intro a; apply fadd_nan_r). rewrite E. destruct kl; reflexivity. Qed.
  Lemma contrib_lp pp pq x : kl = true -> fmul (fsub (fp x) pp) (fexp (fsub (fp x) pp)) = FNan -> contrib pp pq x = FNan.
  Proof. intros E H. unfold contrib. rewrite E, H. apply fadd_nan_r. Qed.
  Lemma dead_nan2 (a b : ext) : fmul (fsub FNeg (of_x a)) (fexp (fsub FNeg (of_x b))) = FNan.
  Proof. destruct a, b; cbn; rewrite ?finf_0; reflexivity. Qed.

  (** KL: p forbids a potential that is read. *)
  Lemma kl_p_reads e t : kl = true -> phi e = None -> reads e t -> fd (kev t) = FNan \/ P t = None.
  Proof.
    intros Hk He. induction t as [e'|e'| | |l IH|a b IHa IHb] using term_ind'; cbn [reads]; intro H; try contradiction.
    - subst e'. right. exact He.
    - left. apply fold_or in H as (t & Ht & H). rewrite Forall_forall in IH. apply fd_sum_nan with t; auto.
      destruct (IH t Ht H) as [G|G]; [now apply contrib_d|]. apply contrib_lp; auto.
      rewrite (proj1 (kev_pq t)), G. apply dead_nan.
    - rewrite kev_mul. cbn [leval smul xlog_ops]. unfold fmul3, fd at 1. cbn [snd]. destruct H as [H|H].
      + destruct (IHa H) as [G|G]; rewrite G; [left; apply fadd_nan_l|right; reflexivity].
      + destruct (IHb H) as [G|G]; rewrite G; [left; apply fadd_nan_r|right]. now destruct (P a).
  Qed.
  (** either: p and q forbid the same potential *)
  Lemma both_reads e t : phi e = None -> psi e = None -> reads e t -> fd (kev t) = FNan \/ P t = None /\ Q t = None.
  Proof.
    intros Hp Hq. induction t as [e'|e'| | |l IH|a b IHa IHb] using term_ind'; cbn [reads]; intro H; try contradiction.
    - subst e'. right. split; [exact Hp|exact Hq].
    - left. apply fold_or in H as (t & Ht & H). rewrite Forall_forall in IH. apply fd_sum_nan with t; auto.
      destruct (IH t Ht H) as [G|[G1 G2]]; [now apply contrib_d|]. apply contrib_lq.
      destruct (kev_pq t) as [-> ->]. rewrite G1, G2. apply dead_nan2.
    - rewrite kev_mul. cbn [leval smul xlog_ops]. unfold fmul3, fd at 1. cbn [snd]. destruct H as [H|H].
      + destruct (IHa H) as [G|[G1 G2]]; [rewrite G; left; apply fadd_nan_l|right; rewrite G1, G2; split; reflexivity].
      + destruct (IHb H) as [G|[G1 G2]]; [rewrite G; left; apply fadd_nan_r|right]. rewrite G1, G2. now destruct (P a), (Q a).
  Qed.
  (** either: some sum is -inf under q, or under p *)
  Lemma dead_sum_nan_q t : some_sum (dead_sum psi z) t -> twf t -> fd (kev t) = FNan.
  Proof.
    induction t as [e'|e'| | |l IH|a b IHa IHb] using term_ind'; cbn [some_sum]; intros H W; try contradiction.
    - inversion_clear W as [| | | |? Hn Hf|]. rewrite Forall_forall in *. destruct H as [H|H].
      + destruct l as [|t l]; [congruence|]. apply fd_sum_nan with t; [now left|]. apply contrib_lq.
        unfold dead_sum in H. rewrite H. cbn [of_x].
        assert (G : fq (kev t) = FNeg).
        { rewrite (proj2 (kev_pq t)). cbn [leval ssum xlog_ops map] in H. unfold xlse in H. cbn [forallb] in H.
          destruct (Q t); [discriminate|reflexivity]. }
        rewrite G. cbn [fsub fneg fadd]. apply fmul_nan_l.
      + apply fold_or in H as (t & Ht & H). apply fd_sum_nan with t; auto. apply contrib_d. auto.
    - inversion_clear W. rewrite kev_mul. unfold fmul3, fd at 1. cbn [snd]. destruct H as [H|H].
      + rewrite IHa by auto. apply fadd_nan_l.
      + rewrite IHb by auto. apply fadd_nan_r.
  Qed.
  Lemma dead_sum_nan_p t : some_sum (dead_sum phi z) t -> twf t -> fd (kev t) = FNan.
  Proof.
    induction t as [e'|e'| | |l IH|a b IHa IHb] using term_ind'; cbn [some_sum]; intros H W; try contradiction.
    - inversion_clear W as [| | | |? Hn Hf|]. rewrite Forall_forall in *. destruct H as [H|H].
      + destruct l as [|t l]; [congruence|]. apply fd_sum_nan with t; [now left|]. apply contrib_lq.
        unfold dead_sum in H. rewrite H. cbn [of_x].
        assert (G : fp (kev t) = FNeg).
        { rewrite (proj1 (kev_pq t)). cbn [leval ssum xlog_ops map] in H. unfold xlse in H. cbn [forallb] in H.
          destruct (P t); [discriminate|reflexivity]. }
        rewrite G. cbn [fsub fneg fadd fexp]. apply fmul_nan_r.
      + apply fold_or in H as (t & Ht & H). apply fd_sum_nan with t; auto. apply contrib_d. auto.
    - inversion_clear W. rewrite kev_mul. unfold fmul3, fd at 1. cbn [snd]. destruct H as [H|H].
      + rewrite IHa by auto. apply fadd_nan_l.
      + rewrite IHb by auto. apply fadd_nan_r.
  Qed.

  (** *** p finite *)
  Section Pfin.
    Hypothesis Hphi : forall e, phi e <> None.
    Lemma P_fin t : twf t -> exists x, P t = Some x.
    Proof.
      induction t as [e'|e'| | |l IH|a b IHa IHb] using term_ind'; intro W; cbn [leval xlog_ops]; simpl; eauto.
      - destruct (phi e') eqn:E; [eauto|now destruct (Hphi E)].
      - inversion_clear W as [| | | |? Hn Hf|]. destruct l as [|t l]; [congruence|]. rewrite Forall_forall in *.
        destruct (IH t (or_introl eq_refl) (Hf t (or_introl eq_refl))) as [x Hx]. unfold xlse. simpl.
        change {| car := ext; ssum := xlse; smul := xplus; szero := Some z; sone := Some 0; sover := fun _ => Some z |} with (xlog_ops z).
        rewrite Hx. simpl. eauto.
      - inversion_clear W. destruct IHa as [x Hx], IHb as [y Hy]; auto.
        change {| car := ext; ssum := xlse; smul := xplus; szero := Some z; sone := Some 0; sover := fun _ => Some z |} with (xlog_ops z).
        rewrite Hx, Hy. simpl. eauto.
    Qed.
    (** real or +inf *)
    Definition finp (a : flt) : Prop := match a with FR _ | FPos => True | _ => False end.
    Lemma fsum_finp l : (forall x, In x l -> finp x) ->
      finp (fsum l) /\ (fsum l = FPos <-> In FPos l).
    Proof.
      induction l as [|x l IH]; intro H; [split; [exact I|split; [discriminate|intros []]]|].
      cbn [fsum fold_right]. destruct IH as [H1 H2]; [intros; apply H; now right|]. unfold fsum in H1, H2.
      pose proof (H x (or_introl eq_refl)) as Hx.
      destruct x; try contradiction; destruct (fold_right fadd (FR 0) l); try contradiction; cbn [fadd finp In]; (split; [exact I|]); split; intro G; auto; try discriminate.
      - destruct G as [G|G]; [discriminate|]. apply H2 in G. discriminate.
      - right. now apply H2.
    Qed.
    (** every sum has a finite argument under q *)
    Theorem kl_q t : twf t -> all_sums (live_sum psi z) t ->
      finp (fd (kev t)) /\
      (fd (kev t) = FPos -> exists e, psi e = None /\ reads e t) /\
      (forall e, psi e = None -> reads e t -> fd (kev t) = FPos \/ Q t = None).
    Proof.
      induction t as [e'|e'| | |l IH|a b IHa IHb] using term_ind'; intros W A.
      - rewrite kev_leaf. cbn [fd snd finp reads leval]. split; [exact I|]. split; [discriminate|]. intros e He ->. right. exact He.
      - rewrite kev_const by eauto. cbn [fd snd finp reads]. split; [exact I|]. split; [discriminate|tauto].
      - rewrite kev_one. cbn [fd snd finp reads]. split; [exact I|]. split; [discriminate|tauto].
      - rewrite kev_const by eauto. cbn [fd snd finp reads]. split; [exact I|]. split; [discriminate|tauto].
      - destruct (P_fin W) as [pp Hpp]. inversion_clear W as [| | | |? Hn Hf|]. cbn [all_sums] in A. destruct A as [A1 A2]. rewrite fold_and in A2.
        rewrite Forall_forall in IH, Hf. unfold live_sum in A1. destruct (Q (TSum l)) as [pq|] eqn:Eq; [|congruence].
        rewrite kev_sum_x, Hpp, Eq. cbn [of_x]. unfold fd at 1 2 3. cbn [snd].
        assert (C : forall t, In t l -> finp (contrib (FR pp) (FR pq) (kev t)) /\
          (contrib (FR pp) (FR pq) (kev t) = FPos <-> fd (kev t) = FPos \/ Q t = None)).
        { intros t Ht. destruct (P_fin (Hf t Ht)) as [p Hp]. destruct (IH t Ht (Hf t Ht) (A2 t Ht)) as [G _].
          destruct (kev_pq t) as [E1 E2]. unfold contrib. rewrite E1, E2, Hp. cbn [of_x fsub fneg fadd fexp].
          pose proof (exp_pos (p + - pp)) as Hexp. cbv zeta.
          destruct (fd (kev t)) as [d| | |]; try contradiction; destruct (Q t) as [q|]; destruct kl;
            cbn [of_x fneg fsub fadd fmul finp]; rewrite ?(finf_pos Hexp); cbn [fneg fadd finp];
            (split; [exact I|]); split; intro K; auto; try discriminate;
            destruct K as [K|K]; discriminate. }
        destruct (@fsum_finp (map (fun t => contrib (FR pp) (FR pq) (kev t)) l)) as [S1 S2].
        { intros x Hx. apply in_map_iff in Hx as (t & <- & Ht). now apply C. }
        split; [exact S1|]. split.
        + intro K. apply S2 in K. apply in_map_iff in K as (t & E & Ht). apply (proj2 (C t Ht)) in E.
          assert (G : exists e, psi e = None /\ reads e t).
          { destruct E as [E|E]; [now apply (IH t Ht (Hf t Ht) (A2 t Ht))|].
            clear -E A2 Ht Hf z. specialize (A2 t Ht). specialize (Hf t Ht). clear Ht l.
            induction t as [e'|e'| | |l IH|a b IHa IHb] using term_ind'; try discriminate.
            - exists e'. split; [exact E|reflexivity].
            - destruct A2 as [A2 _]. destruct (A2 E).
            - inversion_clear Hf. destruct A2 as [A2 A3]. cbn [leval smul xlog_ops] in E.
              destruct (Q a) eqn:Ea; [destruct (Q b) eqn:Eb; [discriminate|]|].
              + destruct (IHb A3 H0 eq_refl) as (e & He & Hr). exists e. split; [exact He|right; exact Hr].
              + destruct (IHa A2 H eq_refl) as (e & He & Hr). exists e. split; [exact He|left; exact Hr]. }
          destruct G as (e & He & Hr). exists e. split; [exact He|]. cbn [reads]. apply fold_or. eauto.
        + intros e He Hr. left. apply S2. cbn [reads] in Hr. apply fold_or in Hr as (t & Ht & Hr).
          apply in_map_iff. exists t. split; [|exact Ht]. apply (proj2 (C t Ht)).
          now apply (proj2 (proj2 (IH t Ht (Hf t Ht) (A2 t Ht))) e).
      - inversion_clear W as [| | | | |? ? Wa Wb]. destruct A as [A1 A2]. rewrite kev_mul. unfold fmul3, fd at 1 4 7. cbn [snd].
        destruct (IHa Wa A1) as (Ga & Ia & Ja). destruct (IHb Wb A2) as (Gb & Ib & Jb).
        change (leval (xlog_ops z) psi (TMul a b)) with (xplus (Q a) (Q b)). cbn [reads].
        destruct (fd (kev a)) eqn:Ea; try contradiction; destruct (fd (kev b)) eqn:Eb; try contradiction; cbn [fadd finp]; (split; [exact I|]); split; try discriminate.
        + intros e He [Hr|Hr]; right; [destruct (Ja e He Hr) as [K| ->]|destruct (Jb e He Hr) as [K| ->]]; try discriminate; auto.
          now destruct (Q a).
        + intros _. destruct (Ib eq_refl) as (e & He & Hr). eauto.
        + auto.
        + intros _. destruct (Ia eq_refl) as (e & He & Hr). eauto.
        + auto.
        + intros _. destruct (Ia eq_refl) as (e & He & Hr). eauto.
        + auto.
    Qed.
  End Pfin.

  (** *** Cross entropy, q finite *)
  Section Qfin.
    Hypothesis Hkl : kl = false.
    Variable psr : list nat -> R.
    Hypothesis Hpsi : forall e, psi e = Some (psr e).
    Lemma fsum_FR A (f : A -> R) l : fsum (map (fun x => FR (f x)) l) = FR (RSum f l).
    Proof. induction l as [|x l IH]; [reflexivity|]. cbn [map fsum fold_right]. unfold fsum in IH. rewrite IH. cbn [fadd]. now rewrite RSum_cons. Qed.
    Lemma xw_app a b : xw phi z (a ++ b) = xw phi z a * xw phi z b.
    Proof. unfold xw. apply (Prod_app R_csr). Qed.
    Lemma score_app' a b : score psr z (a ++ b) = score psr z a + score psr z b.
    Proof. unfold score. apply (Sum_app R_csr). Qed.
    Lemma RSum_prods (f : deriv -> R) la lb :
      RSum f (prods la lb) = RSum (fun a => RSum (fun b => f (a ++ b)) lb) la.
    Proof.
      unfold prods. induction la as [|a la IH]; [reflexivity|]. cbn [flat_map]. rewrite RSum_cons.
      etransitivity; [apply (Sum_app R_csr)|]. cbn [kadd R_csr]. f_equal; [|exact IH]. apply (Sum_map R_csr).
    Qed.
    Theorem ce_value t : twf t -> all_sums (live_sum phi z) t ->
      exists x q, fd (kev t) = FR x /\ Q t = Some q /\
        xexp (P t) * x = RSum (fun m => xw phi z m * (q - score psr z m)) (expand t).
    Proof.
      induction t as [e'|e'| | |l IH|a b IHa IHb] using term_ind'; intros W A.
      - rewrite kev_leaf. exists 0, (psr e'). split; [reflexivity|]. split; [apply Hpsi|].
        cbn [expand]. unfold score, Sum. cbn. ring.
      - rewrite kev_const by eauto. exists 0, z. split; [reflexivity|]. split; [reflexivity|]. cbn [expand]. unfold score, Sum. cbn. ring.
      - rewrite kev_one. exists 0, 0. split; [reflexivity|]. split; [reflexivity|]. cbn [expand]. unfold score, Sum. cbn. ring.
      - rewrite kev_const by eauto. exists 0, z. split; [reflexivity|]. split; [reflexivity|]. cbn [expand]. unfold score, Sum. cbn. ring.
      - pose proof (xlog_value phi z W) as XV.
        inversion_clear W as [| | | |? Hn Hf|]. cbn [all_sums] in A. destruct A as [A1 A2]. rewrite fold_and in A2.
        rewrite Forall_forall in IH, Hf. unfold live_sum in A1. destruct (P (TSum l)) as [pp|] eqn:Ep; [|congruence].
        assert (Hx : forall t, In t l -> exists x q, fd (kev t) = FR x /\ Q t = Some q /\
          xexp (P t) * x = RSum (fun m => xw phi z m * (q - score psr z m)) (expand t)) by (intros t Ht; apply IH; auto).
        assert (Hq : exists q, Q (TSum l) = Some q).
        { destruct l as [|t l]; [congruence|]. destruct (Hx t (or_introl eq_refl)) as (x & q & _ & E & _).
          cbn [leval ssum xlog_ops map]. unfold xlse. cbn [forallb]. rewrite E. cbn [is_none andb]. eauto. }
        destruct Hq as [q Hq].
        set (xd := fun t => match fd (kev t) with FR x => x | _ => 0 end).
        set (qd := fun t => match Q t with Some x => x | _ => 0 end).
        set (s := fun t => xexp (P t) * exp (- pp)).
        exists (RSum (fun t => xd t * s t - (qd t - q) * s t) l), q.
        rewrite kev_sum_x, Ep, Hq. unfold fd at 1. cbn [snd of_x].
        split; [|split; [reflexivity|]].
        + rewrite <- fsum_FR. f_equal. apply map_ext_in. intros t Ht. destruct (Hx t Ht) as (x & qt & E1 & E2 & _).
          unfold contrib, xd, qd, s. rewrite Hkl. destruct (kev_pq t) as [-> ->]. rewrite E1, E2. cbv zeta.
          assert (Es : fexp (fsub (of_x (P t)) (FR pp)) = FR (xexp (P t) * exp (- pp))).
          { destruct (P t) as [p|]; cbn; f_equal; [now rewrite <- exp_plus|ring]. }
          rewrite Es. reflexivity.
        + rewrite <- RSum_scal. cbn [xexp expand].
          etransitivity; [|symmetry; apply (Sum_flat_map R_csr)]. apply (Sum_ext_in R_csr). intros t Ht.
          destruct (Hx t Ht) as (x & qt & E1 & E2 & E3). unfold xd, qd, s. rewrite E1, E2.
          assert (Ee : exp pp * exp (- pp) = 1) by (rewrite <- exp_plus; replace (pp + - pp) with 0 by ring; apply exp_0).
          transitivity (xexp (P t) * x + (q - qt) * xexp (P t)).
          { replace (exp pp * (x * (xexp (P t) * exp (- pp)) - (qt - q) * (xexp (P t) * exp (- pp))))
              with ((exp pp * exp (- pp)) * (xexp (P t) * x + (q - qt) * xexp (P t))) by ring. rewrite Ee. ring. }
          rewrite E3, (xlog_value phi z (Hf t Ht)), <- RSum_scal, <- RSum_add. apply (Sum_ext R_csr). intro m. ring.
      - inversion_clear W as [| | | | |? ? Wa Wb]. destruct A as [A1 A2]. rewrite kev_mul. unfold fmul3, fd at 1. cbn [snd].
        destruct (IHa Wa A1) as (x & qa & Ea & Qa & Va). destruct (IHb Wb A2) as (y & qb & Eb & Qb & Vb).
        exists (x + y), (qa + qb). rewrite Ea, Eb. split; [reflexivity|].
        split; [cbn [leval smul xlog_ops]; rewrite Qa, Qb; reflexivity|].
        cbn [expand leval smul xlog_ops]. change (smul (xlog_ops z)) with xplus. rewrite xplus_exp, RSum_prods.
        transitivity (RSum (fun m => xw phi z m * (qa - score psr z m)) (expand a) * xexp (P b)
                      + xexp (P a) * RSum (fun m => xw phi z m * (qb - score psr z m)) (expand b)).
        { rewrite <- Va, <- Vb. ring. }
        rewrite (xlog_value phi z Wa), (xlog_value phi z Wb).
        set (wb := RSum (xw phi z) (expand b)). set (Sb := RSum (fun m => xw phi z m * (qb - score psr z m)) (expand b)).
        transitivity (RSum (fun m => xw phi z m * (qa - score psr z m) * wb + xw phi z m * Sb) (expand a)).
        { rewrite RSum_add. f_equal; [rewrite Rmult_comm, <- RSum_scal; apply (Sum_ext R_csr); intro; ring
                                       |rewrite Rmult_comm, <- RSum_scal; apply (Sum_ext R_csr); intro; ring]. }
        apply (Sum_ext R_csr). intro m. unfold wb, Sb.
        transitivity (RSum (fun m' => xw phi z m * (qa - score psr z m) * xw phi z m' + xw phi z m * (xw phi z m' * (qb - score psr z m'))) (expand b)).
        { rewrite RSum_add, !RSum_scal. reflexivity. }
        apply (Sum_ext R_csr). intro m'. rewrite xw_app, score_app'. ring.
    Qed.
  End Qfin.
End Kl.


(** ** Sums that cannot be -inf *)
Section Live.
  Variables (psi : list nat -> ext) (z : R).
  (** proof device: the value and all sums below are not -inf *)
  Definition live (t : term) : Prop := leval (xlog_ops z) psi t <> None /\ all_sums (live_sum psi z) t.
  Lemma live_resp : resp tops tops (fun t _ => live t).
  Proof.
    constructor; unfold live; cbn [szero sone sover smul ssum tops].
    - split; [discriminate|exact I].
    - split; [discriminate|exact I].
    - intro e. split; [discriminate|exact I].
    - intros a a' b b' [A1 A2] [B1 B2]. split; [|split; auto]. cbn [leval smul xlog_ops].
      destruct (leval (xlog_ops z) psi a); [|congruence]. destruct (leval (xlog_ops z) psi b); [discriminate|congruence].
    - intros l l' Hl H.
      assert (H' : forall t, In t l -> live t).
      { clear Hl. induction H as [|x y l l' Hx _ IH]; intros t []; [subst; exact Hx|auto]. }
      assert (L : live_sum psi z l).
      { destruct l as [|t l]; [congruence|]. destruct (H' t (or_introl eq_refl)) as [G _]. unfold live_sum.
        cbn [leval ssum xlog_ops map]. unfold xlse. cbn [forallb].
        destruct (leval (xlog_ops z) psi t); [discriminate|congruence]. }
      split; [exact L|]. cbn [all_sums]. split; [exact L|]. apply fold_and. intros t Ht. now apply H'.
  Qed.
  Lemma live_sum_l l : (exists t, In t l /\ leval (xlog_ops z) psi t <> None) -> live_sum psi z l.
  Proof.
    intros (t & Ht & H). unfold live_sum. cbn [leval ssum xlog_ops]. unfold xlse.
    destruct (forallb is_none (map (leval (xlog_ops z) psi) l)) eqn:E; [|discriminate].
    rewrite forallb_forall in E. specialize (E (leval (xlog_ops z) psi t) (in_map _ _ _ Ht)).
    destruct (leval (xlog_ops z) psi t); [discriminate|congruence].
  Qed.
  (** a chain: every cell is a sum with a class constant (linearchain.py:76-79) *)
  Theorem live_chain batch N C ls b : valid (CLin batch N C ls) -> (b < batch)%nat -> live (row_graph (CLin batch N C ls) b).
  Proof.
    intros V Hb. unfold row_graph, graphs. simpl in V |- *.
    rewrite (lc_logpartition_run tops (tens [batch; (N - 1)%nat; C; C] TLeaf) V eq_refl), nth_map_seq by auto. cbn [dat tens].
    assert (HC : (0 < C)%nat) by apply V. unfold lc_one.
    set (ch := lc_chart tops TLeaf b (lc_len N ls b) (2 ^ Nat.log2_up (N - 1))).
    assert (H1 : Forall2 (Rmat tops tops (fun t _ => live t)) ch ch).
    { unfold ch, lc_chart. generalize (2 ^ Nat.log2_up (N - 1))%nat. intro w. generalize 0%nat. induction w as [|w IHw]; intro k; cbn [seq map]; constructor; auto.
      intros i j. unfold lc_cell, lc_init, fill. cbn [ssum tops szero sone sover].
      assert (G : forall c x, (c = TZero \/ c = TOne) -> (x = TOver [b; k; i; j] \/ x = TLeaf [b; k; i; j]) -> live (TSum [c; x])).
      { intros c x Hc Hx.
        assert (L : live_sum psi z [c; x]).
        { apply live_sum_l. exists c. split; [now left|]. destruct Hc as [-> | ->]; discriminate. }
        split; [exact L|]. cbn [all_sums map fold_right]. split; [exact L|].
        destruct Hc as [-> | ->], Hx as [-> | ->]; cbn; tauto. }
      apply G; destruct (lc_mask _ k); cbn [negb]; auto. destruct (i =? j)%nat; auto. }
    pose proof (@resp_scan tops tops _ live_resp C (Nat.log2_up (N - 1)) ch ch HC H1) as H.
    inversion H as [|M M' l l' HM _ El El']; [apply live_resp|].
    apply (@resp_sum2 tops tops _ live_resp C M M' HC HM).
  Qed.
End Live.

(** TreeCRF: a property of the graphs of the spans, closed under sums and products,
    holds of the row *)
Section Ck.
  Variable Pr : term -> Prop.
  Hypothesis Psum : forall l, l <> [] -> (forall t, In t l -> Pr t) -> Pr (TSum l).
  Hypothesis Pmul : forall a b, Pr a -> Pr b -> Pr (TMul a b).
  Variables (NT N b M : nat).
  Hypothesis HM : (1 <= M <= N)%nat.
  Notation red := (ck_red tops NT TLeaf b).
  Hypothesis Hred : forall i j, (i <= j)%nat -> (j < M)%nat -> Pr (red i j).
  (** proof device: the property holds of all cells of the sentence filled so far *)
  Definition ckq (w : nat) (st : chart2 tops) : Prop :=
    (forall i k, (k <= w)%nat -> (i + k < M)%nat -> Pr (fst st i k)) /\
    (forall j k, (k <= w)%nat -> (k <= j)%nat -> (j < M)%nat -> Pr (snd st j (N - 1 - k)%nat)).
  Lemma ckq_step w st : (0 < w < N)%nat -> ckq (w - 1) st -> ckq w (ck_step tops NT N TLeaf b st w).
  Proof.
    intros Hw [HA HB]. destruct st as [cA cB]. cbn [fst snd] in HA, HB.
    assert (Hnew : forall i, (i + w < M)%nat ->
      Pr (TMul (dot tops w (fun m => cA i m) (fun m => cB (i + w)%nat (N - w + m)%nat)) (red i (i + w)))).
    { intros i Hi. apply Pmul; [|apply Hred; lia]. unfold dot, matmul. cbn [ssum tops]. apply Psum.
      - destruct w; [lia|discriminate].
      - intros t Ht. apply in_map_iff in Ht as (m & <- & Hm). apply in_seq in Hm. apply Pmul; [apply HA; lia|].
        replace (N - w + m)%nat with (N - 1 - (w - 1 - m))%nat by lia. apply HB; lia. }
    split; unfold ck_step; cbn [fst snd smul tops].
    - intros i k Hk Hi. destruct (k =? w)%nat eqn:E.
      + apply Nat.eqb_eq in E; subst k.
        replace (i <? N - w)%nat with true by (symmetry; apply Nat.ltb_lt; lia). simpl. apply Hnew; lia.
      + apply Nat.eqb_neq in E. rewrite andb_false_r. apply HA; lia.
    - intros j k Hk Hj HjN. destruct (N - 1 - k =? N - w - 1)%nat eqn:E.
      + apply Nat.eqb_eq in E. assert (k = w) by lia. subst k.
        replace (w <=? j)%nat with true by (symmetry; apply Nat.leb_le; lia).
        replace (j <? N)%nat with true by (symmetry; apply Nat.ltb_lt; lia). simpl.
        replace (j - w + w)%nat with j by lia. pose proof (Hnew (j - w)%nat ltac:(lia)) as G.
        replace (j - w + w)%nat with j in G by lia. exact G.
      + apply Nat.eqb_neq in E. rewrite andb_false_r. apply HB; lia.
  Qed.
  Lemma ckq_run w : (w < N)%nat -> ckq w (fold_left (ck_step tops NT N TLeaf b) (seq 1 w) (ck_init tops NT N TLeaf b)).
  Proof.
    induction w; intro Hw.
    - split; simpl.
      + intros i k Hk Hi. replace k with 0%nat by lia.
        replace (i <? N)%nat with true by (symmetry; apply Nat.ltb_lt; lia). apply Hred; lia.
      + intros j k Hk Hj HjN. replace k with 0%nat by lia.
        replace (j <? N)%nat with true by (symmetry; apply Nat.ltb_lt; lia). rewrite !Nat.sub_0_r, Nat.eqb_refl. apply Hred; lia.
    - rewrite seq_S, fold_left_app. cbn [fold_left]. apply ckq_step; [lia|].
      replace (1 + w - 1)%nat with w by lia. apply IHw. lia.
  Qed.
  Lemma ck_one_q : Pr (ck_one tops NT N TLeaf b M).
  Proof.
    unfold ck_one, ck_run, pyidx. destruct (@ckq_run (N - 1)) as [HA _]; [lia|].
    replace (M =? 0)%nat with false by (symmetry; apply Nat.eqb_neq; lia). apply HA; lia.
  Qed.
End Ck.

(** the labels of span (i, j) of row b *)
Definition labels (NT b i j : nat) : list (list nat) := map (fun a => [b; i; j; a]) (seq 0 NT).
Section CkGraph.
  Variables (batch N NT : nat) (ls : option (list nat)).
  Notation c := (CTree batch N NT ls).
  Hypothesis V : valid c.
  Variable b : nat.
  Hypothesis Hb : (b < batch)%nat.
  Notation M := (eff_len N (lc_len N ls b)).
  Lemma M_ok : (1 <= M <= N)%nat.
  Proof. cbn [valid] in V. apply (@eff_len_ok batch); auto; apply V. Qed.
  Lemma ck_row : row_graph c b = ck_one tops NT N TLeaf b M.
  Proof.
    unfold row_graph, graphs. simpl in V |- *.
    rewrite (ck_logpartition_run tops (tens [batch; N; N; NT] TLeaf) V eq_refl), nth_map_seq by auto. cbn [dat tens].
    apply (ck_one_eff tops).
  Qed.
  Lemma ck_red_leaves i j : ck_red tops NT TLeaf b i j = TSum (map TLeaf (labels NT b i j)).
  Proof. unfold ck_red, labels. cbn [ssum tops]. now rewrite map_map. Qed.
  (** every span keeps a label: no sum is -inf *)
  Theorem live_tree psi z : (forall i j, (i <= j)%nat -> (j < M)%nat -> exists e, In e (labels NT b i j) /\ psi e <> None) ->
    live psi z (row_graph c b).
  Proof.
    intro H. rewrite ck_row. apply ck_one_q; [| |apply M_ok|].
    - intros l Hn Hl. apply (@resp_sum _ _ _ (live_resp psi z) l l Hn). apply Forall_forall in Hl. clear Hn. induction Hl; constructor; auto.
    - intros x y Hx Hy. apply (@resp_mul _ _ _ (live_resp psi z) x x y y Hx Hy).
    - intros i j Hi Hj. rewrite ck_red_leaves. destruct (H i j Hi Hj) as (e & He & Hp).
      assert (L : live_sum psi z (map TLeaf (labels NT b i j))).
      { apply live_sum_l. exists (TLeaf e). split; [now apply in_map|exact Hp]. }
      split; [exact L|]. cbn [all_sums]. split; [exact L|]. apply fold_and. intros t Ht.
      apply in_map_iff in Ht as (e' & <- & _). exact I.
  Qed.
  (** the label scores of a span are read through their sum only (cky_crf.py:24) *)
  Theorem reads_through_sum i j a : reads [b; i; j; a] (row_graph c b) ->
    some_sum (fun l => l = map TLeaf (labels NT b i j)) (row_graph c b).
  Proof.
    rewrite ck_row.
    refine (@ck_one_q (fun t => reads [b; i; j; a] t -> some_sum (fun l => l = map TLeaf (labels NT b i j)) t) _ _ NT N b M M_ok _).
    - intros l _ Hl Hr. cbn [reads some_sum] in *. apply fold_or in Hr as (t & Ht & Hr). right. apply fold_or. eauto.
    - intros x y Hx Hy [Hr|Hr]; [left|right]; auto.
    - intros i' j' _ _. rewrite ck_red_leaves. cbn [reads some_sum]. intro Hr. left.
      apply fold_or in Hr as (t & Ht & Hr). apply in_map_iff in Ht as (e & <- & He). cbn [reads] in Hr.
      unfold labels in He. apply in_map_iff in He as (a' & <- & _). injection Hr as -> -> _. reflexivity.
  Qed.
  Lemma some_sum_dead psi z i j t : (forall e, In e (labels NT b i j) -> psi e = None) ->
    some_sum (fun l => l = map TLeaf (labels NT b i j)) t -> some_sum (dead_sum psi z) t.
  Proof.
    intros He. induction t as [e'|e'| | |l IH|x y IHx IHy] using term_ind'; cbn [some_sum]; try tauto.
    intros [->|H].
    - left. unfold dead_sum. cbn [leval ssum xlog_ops]. unfold xlse. rewrite map_map.
      replace (forallb is_none (map (fun x => leval (xlog_ops z) psi (TLeaf x)) (labels NT b i j))) with true; [reflexivity|].
      symmetry. apply forallb_forall. intros x Hx. apply in_map_iff in Hx as (e & <- & Hx). cbn [leval]. now rewrite (He e Hx).
    - right. apply fold_or in H as (t & Ht & H). apply fold_or. exists t. rewrite Forall_forall in IH. auto.
  Qed.
End CkGraph.
