(** * P_MaskLocal: marginals with forbidden parts fit together (C88)

    The relations of P_Local.v for potentials that may be minus infinity.  An
    entry of [marginals] can then be NaN (C78, C81, C82); a sum of entries is
    looked at only when all of them are numbers.  A relation need only hold for
    the allowed structures. *)
From Coq Require Import ZArith Classical.
From Verif Require Import Base Ops Terms Semirings Poly Chain LinearChain SemiMarkov CkyCrf Cky DepSpec DepTree
  Batch Family Approx Grad Sample Dist Purity Degree Shape Api Query Dag DagLaw P_Real P_Sample Mask P_Mask Special P_Special MaskGrad P_MaskGrad
  MaskDep P_MaskDep P_MaskCfg P_Local.
Set Implicit Arguments.
Local Open Scope R_scope.

(** ** Specification *)
(** spec: the real number in an entry *)
Definition fval (x : flt) : R := match x with FR r => r | _ => 0 end.
(** spec: the selected entries of row b are numbers *)
Definition finite_on (c : call) (G : nat -> dag * nat) (phi : list nat -> ext) (b : nat) (sel : list nat -> bool) : Prop :=
  forall e, In e (entries c b) -> sel e = true -> exists x, f_marginals c G phi e = FR x.
(** spec: sum of the selected entries of row b *)
Definition fmass (c : call) (G : nat -> dag * nat) (phi : list nat -> ext) (b : nat) (sel : list nat -> bool) : R :=
  RSum (fun e => fval (f_marginals c G phi e)) (filter sel (entries c b)).
(** spec: what the finite zero can add; 0 for TreeCRF and DependencyCRF *)
Definition ftol (c : call) (b : nat) (B : R) (sel : list nat -> bool) : R :=
  INR (length (filter sel (entries c b))) * (INR (degree c b) * leak c b B).
(** spec: some structure of row b is allowed *)
Definition some_allowed (c : call) (b : nat) (phi : list nat -> ext) : Prop :=
  exists s, ok (spec_of c b) s /\ allowed (prt (spec_of c b)) phi s.

(** ** Generic part *)
Lemma ftol_exact c b B sel : zero_free c = true -> ftol c b B sel = 0.
Proof. intro H. unfold ftol, leak. rewrite H. ring. Qed.
Lemma allowed_iff A (parts : A -> list (list nat)) phi s :
  forallb (fun e => negb (is_none (phi e))) (parts s) = true <-> allowed parts phi s.
Proof.
  rewrite forallb_forall. unfold allowed. split; intros H e He; specialize (H e He); destruct (phi e); try discriminate; auto.
Qed.

Section Mean.
  Variables (c : call) (b : nat) (G : nat -> dag * nat) (phi : list nat -> ext) (B : R).
  Hypotheses (V : valid c) (HG : records c G) (HB0 : 0 <= B) (HB : xbounded c B phi) (Hb : row_ok c b) (Ha : some_allowed c b phi).
  Let S := spec_of c b.
  Let err := INR (degree c b) * leak c b B.
  Lemma number_value e x l : row_of c e = b -> f_marginals c G phi e = FR x -> Enumerates (ok S) l ->
    Rabs (x - cond_marg (prt S) l phi e) <= err.
  Proof.
    intros He Ex Hl. destruct (@C78_marginals c G phi B V HG HB0 HB b e Hb He) as [H1 H2]. cbv zeta in H1, H2.
    destruct (classic (exists v, (v <= snd (G b))%nat /\ reads_at (fst (G b)) e v = true /\ poisoned (fst (G b)) phi NEG (snd (G b)) v)) as [P|P].
    - rewrite (H1 P) in Ex. discriminate.
    - destruct H2 as (y & Ey & Hy); [|exact Ha|].
      + intros v Hv Hr Hp. apply P. eauto.
      + rewrite Ex in Ey. injection Ey as <-. now apply Hy.
  Qed.
  (** a weighted sum of numbers is the mean over the allowed structures *)
  Lemma fmean (w : list nat -> R) lo hi :
    (forall e, In e (entries c b) -> w e <> 0 -> exists x, f_marginals c G phi e = FR x) ->
    (forall s, ok S s -> allowed (prt S) phi s -> lo <= sc (prt S) w s <= hi) ->
    lo - RSum (fun e => Rabs (w e)) (entries c b) * err <= RSum (fun e => w e * fval (f_marginals c G phi e)) (entries c b)
      <= hi + RSum (fun e => Rabs (w e)) (entries c b) * err.
  Proof.
    intros Hf H. destruct (row_family V Hb) as (F & HF).
    assert (Hl : exists l, Enumerates (ok S) l) by (unfold S; rewrite <- (ir_spec HF); exists (flist F); apply (fenum F)).
    destruct Hl as (l & Hl).
    set (ind1 := fun s => forallb (fun e => negb (is_none (phi e))) (prt S s)).
    set (p := fun s => if ind1 s then exp (sc (prt S) (fin phi) s) / xZ (prt S) phi l else 0).
    assert (Z : 0 < xZ (prt S) phi l).
    { unfold xZ. destruct Ha as (s0 & H1 & H2). apply Rlt_le_trans with (RSum (fun s => if ind1 s then exp (sc (prt S) (fin phi) s) else 0) [s0]).
      - rewrite RSum_one. unfold ind1. replace (forallb _ _) with true by (symmetry; now apply allowed_iff). apply exp_pos.
      - apply Hl in H1. apply in_split in H1 as (l1 & l2 & ->). rewrite RSum_app, !RSum_cons.
        assert (N : forall l', 0 <= RSum (fun s => if ind1 s then exp (sc (prt S) (fin phi) s) else 0) l').
        { intro l'. apply RSum_nonneg. intros s _. destruct (ind1 s); [apply Rlt_le, exp_pos|lra]. }
        pose proof (N l1). pose proof (N l2). change (RSum _ []) with 0. unfold ind1 in *. lra. }
    assert (P0 : forall s, 0 <= p s).
    { intro s. unfold p. destruct (ind1 s); [|lra]. apply Rlt_le, Rdiv_lt_0_compat; [apply exp_pos|exact Z]. }
    assert (P1 : RSum p l = 1).
    { transitivity (RSum (fun s => (if ind1 s then exp (sc (prt S) (fin phi) s) else 0) * / xZ (prt S) phi l) l).
      - apply (Sum_ext R_csr). intro s. unfold p. destruct (ind1 s); simpl; unfold Rdiv; ring.
      - rewrite RSum_scar. change (RSum (fun s => if ind1 s then exp (sc (prt S) (fin phi) s) else 0) l) with (xZ (prt S) phi l). apply Rinv_r. lra. }
    assert (E : RSum (fun e => w e * cond_marg (prt S) l phi e) (entries c b) = RSum (fun s => p s * sc (prt S) w s) l).
    { transitivity (RSum (fun e => RSum (fun s => p s * (w e * uses (prt S) e s)) l) (entries c b)).
      - apply (Sum_ext R_csr). intro e. unfold cond_marg. rewrite <- RSum_scal. apply (Sum_ext R_csr). intro s. unfold p, ind1.
        destruct (forallb _ _); simpl; ring.
      - rewrite (Sum_comm R_csr). apply (Sum_ext_in R_csr). intros s Hs. rewrite RSum_scal. f_equal.
        unfold uses, sc. apply score_event; [apply entries_nodup|]. apply parts_entries; auto. now apply Hl. }
    assert (L : lo <= RSum (fun s => p s * sc (prt S) w s) l <= hi).
    { split.
      - apply Rle_trans with (RSum (fun s => p s * lo) l); [rewrite RSum_scar, P1; lra|].
        apply RSum_le. intros s Hs. unfold p. destruct (ind1 s) eqn:Ei; [|lra]. apply Rmult_le_compat_l; [apply Rlt_le, Rdiv_lt_0_compat; [apply exp_pos|exact Z]|].
        apply H; [now apply Hl|]. now apply allowed_iff.
      - apply Rle_trans with (RSum (fun s => p s * hi) l); [|rewrite RSum_scar, P1; lra].
        apply RSum_le. intros s Hs. unfold p. destruct (ind1 s) eqn:Ei; [|lra]. apply Rmult_le_compat_l; [apply Rlt_le, Rdiv_lt_0_compat; [apply exp_pos|exact Z]|].
        apply H; [now apply Hl|]. now apply allowed_iff. }
    assert (D : Rabs (RSum (fun e => w e * fval (f_marginals c G phi e)) (entries c b) - RSum (fun e => w e * cond_marg (prt S) l phi e) (entries c b))
      <= RSum (fun e => Rabs (w e)) (entries c b) * err).
    { rewrite <- RSum_sub, <- RSum_scar. eapply Rle_trans; [apply RSum_abs|]. apply RSum_le. intros e He.
      rewrite <- Rmult_minus_distr_l, Rabs_mult. destruct (Req_dec (w e) 0) as [W|W].
      - rewrite W, Rabs_R0. lra.
      - apply Rmult_le_compat_l; [apply Rabs_pos|]. destruct (Hf e He W) as (x & Ex). rewrite Ex. cbn [fval].
        apply number_value; auto. now apply entries_row. }
    rewrite E in D. apply Rabs_le_inv in D. lra.
  Qed.
End Mean.

(** if every allowed structure uses between lo and hi of the selected parts, and
    the selected entries are numbers, they sum to a number between lo and hi *)
Theorem C88_mass c G phi B : valid c -> records c G -> 0 <= B -> xbounded c B phi ->
  forall b sel lo hi, row_ok c b -> some_allowed c b phi -> finite_on c G phi b sel ->
    (forall s, ok (spec_of c b) s -> allowed (prt (spec_of c b)) phi s -> lo <= @hits c b sel s <= hi) ->
    lo - ftol c b B sel <= fmass c G phi b sel <= hi + ftol c b B sel.
Proof.
  intros V HG HB0 HB b sel lo hi Hb Ha Hf H. unfold ftol, fmass. rewrite len_filter, RSum_filter_ind.
  replace (RSum (fun x => ind (sel x)) (entries c b)) with (RSum (fun x => Rabs (ind (sel x))) (entries c b)) by (apply (Sum_ext R_csr); intro; apply ind_abs).
  apply fmean; auto.
  - intros e He Hw. apply Hf; auto. destruct (sel e); [reflexivity|]. now contradiction Hw.
  - intros s Hs Hal. rewrite <- hits_sc. auto.
Qed.
Print Assumptions C88_mass.
(** relations between groups of selections carry over *)
Theorem C88_balance c G phi B : valid c -> records c G -> 0 <= B -> xbounded c B phi ->
  forall b L L', row_ok c b -> some_allowed c b phi -> (forall sel, In sel (L ++ L') -> finite_on c G phi b sel) ->
    (forall s, ok (spec_of c b) s -> allowed (prt (spec_of c b)) phi s ->
       RSum (fun sel => @hits c b sel s) L = RSum (fun sel => @hits c b sel s) L') ->
    Rabs (RSum (fmass c G phi b) L - RSum (fmass c G phi b) L') <= RSum (ftol c b B) L + RSum (ftol c b B) L'.
Proof.
  intros V HG HB0 HB b L L' Hb Ha Hf H.
  set (W := fun (K : list (list nat -> bool)) e => RSum (fun sel => ind (sel e)) K).
  assert (EM : forall K, RSum (fmass c G phi b) K = RSum (fun e => W K e * fval (f_marginals c G phi e)) (entries c b)).
  { intro K. transitivity (RSum (fun sel => RSum (fun e => ind (sel e) * fval (f_marginals c G phi e)) (entries c b)) K).
    - apply (Sum_ext R_csr). intro sel. apply RSum_filter_ind.
    - rewrite (Sum_comm R_csr). apply (Sum_ext R_csr). intro e. unfold W. apply RSum_scar. }
  assert (EH : forall K s, RSum (fun sel => @hits c b sel s) K = sc (prt (spec_of c b)) (W K) s).
  { intros K s. unfold sc, W. rewrite (Sum_comm R_csr). apply (Sum_ext R_csr). intro sel. apply hits_sc. }
  assert (W0 : forall K e, 0 <= W K e). { intros K e. apply RSum_nonneg. intros sel _. unfold ind. destruct (sel e); lra. }
  assert (WS : forall K e, W K e <> 0 -> exists sel, In sel K /\ sel e = true).
  { intros K e. unfold W. induction K as [|sel K IH]; intro N; [now contradiction N|]. rewrite RSum_cons in N. destruct (sel e) eqn:E.
    - exists sel. split; [now left|exact E].
    - destruct IH as (sel' & H1 & H2); [|exists sel'; split; [now right|exact H2]]. intro Z. apply N. rewrite Z. unfold ind. ring. }
  set (err := INR (degree c b) * leak c b B).
  assert (ET : forall K, RSum (ftol c b B) K = RSum (W K) (entries c b) * err).
  { intro K. unfold W. rewrite (Sum_comm R_csr), <- RSum_scar. apply (Sum_ext R_csr). intro sel. unfold ftol. fold err. now rewrite len_filter. }
  destruct (@fmean c b G phi B V HG HB0 HB Hb Ha (fun e => W L e - W L' e) 0 0) as [H1 H2].
  { intros e He Hw. assert (K : exists sel, In sel (L ++ L') /\ sel e = true).
    { destruct (Req_dec (W L e) 0) as [Z|Z].
      - destruct (WS L' e) as (sel & I1 & I2); [lra|]. exists sel. split; [apply in_app_iff; now right|exact I2].
      - destruct (WS L e Z) as (sel & I1 & I2). exists sel. split; [apply in_app_iff; now left|exact I2]. }
    destruct K as (sel & I1 & I2). apply (Hf sel I1 e He I2). }
  { intros s Hs Hal. replace (sc (prt (spec_of c b)) (fun e => W L e - W L' e) s) with (sc (prt (spec_of c b)) (W L) s - sc (prt (spec_of c b)) (W L') s).
    - rewrite <- !EH, H by auto. lra.
    - unfold sc. symmetry. apply RSum_sub. }
  fold err in H1, H2. rewrite !EM, !ET, <- RSum_sub.
  assert (E : RSum (fun e => W L e * fval (f_marginals c G phi e) - W L' e * fval (f_marginals c G phi e)) (entries c b) =
    RSum (fun e => (W L e - W L' e) * fval (f_marginals c G phi e)) (entries c b)) by (apply (Sum_ext R_csr); intro; ring).
  rewrite E.
  assert (Q : RSum (fun e => Rabs (W L e - W L' e)) (entries c b) * err <= RSum (W L) (entries c b) * err + RSum (W L') (entries c b) * err).
  { rewrite <- Rmult_plus_distr_r, <- RSum_add. apply Rmult_le_compat_r.
    - unfold err. apply Rmult_le_pos; [apply pos_INR|apply leak_pos].
    - apply RSum_le. intros e _. pose proof (W0 L e). pose proof (W0 L' e). apply Rabs_le. lra. }
  apply Rabs_le. lra.
Qed.
Print Assumptions C88_balance.

Lemma fmass_eq c G phi B : valid c -> records c G -> 0 <= B -> xbounded c B phi ->
  forall b sel k, row_ok c b -> some_allowed c b phi -> finite_on c G phi b sel ->
    (forall s, ok (spec_of c b) s -> @hits c b sel s = k) -> Rabs (fmass c G phi b sel - k) <= ftol c b B sel.
Proof.
  intros V HG HB0 HB b sel k Hb Ha Hf H. destruct (@C88_mass c G phi B V HG HB0 HB b sel k k Hb Ha Hf) as [H1 H2].
  - intros s Hs _. rewrite H by auto. lra.
  - apply Rabs_le. lra.
Qed.
Lemma fmass_agree c G phi B : valid c -> records c G -> 0 <= B -> xbounded c B phi ->
  forall b sel sel', row_ok c b -> some_allowed c b phi -> finite_on c G phi b sel -> finite_on c G phi b sel' ->
    (forall s, ok (spec_of c b) s -> @hits c b sel s = @hits c b sel' s) ->
    Rabs (fmass c G phi b sel - fmass c G phi b sel') <= ftol c b B sel + ftol c b B sel'.
Proof.
  intros V HG HB0 HB b sel sel' Hb Ha Hf Hf' H. pose proof (@C88_balance c G phi B V HG HB0 HB b [sel] [sel'] Hb Ha) as Q. rewrite !RSum_one in Q. apply Q.
  - intros x [<-|[<-|[]]]; auto.
  - intros s Hs _. rewrite !RSum_one. auto.
Qed.
(** forbidden entries have no mass: the allowed ones carry all of it *)
Theorem C88_forbidden c G phi B : valid c -> records c G -> 0 <= B -> xbounded c B phi ->
  forall b sel, row_ok c b -> some_allowed c b phi -> finite_on c G phi b sel ->
    let rest e := (sel e && negb (is_none (phi e)))%bool in
    Rabs (fmass c G phi b sel - fmass c G phi b rest) <= ftol c b B sel + ftol c b B rest.
Proof.
  intros V HG HB0 HB b sel Hb Ha Hf rest. pose proof (@C88_balance c G phi B V HG HB0 HB b [sel] [rest] Hb Ha) as Q. rewrite !RSum_one in Q. apply Q.
  - intros x [<-|[<-|[]]]; auto. intros e He Hr. apply andb_prop in Hr as [Hr _]. auto.
  - intros s Hs Hal. rewrite !RSum_one. unfold hits. do 2 f_equal. apply filter_ext_in. intros e He. unfold rest.
    specialize (Hal e He). destruct (phi e); [|contradiction]. cbn. now rewrite andb_true_r.
Qed.
Print Assumptions C88_forbidden.

(** ** The classes *)
Section Exact.
  Variables (c : call) (G : nat -> dag * nat) (phi : list nat -> ext) (b : nat).
  Hypotheses (Z : zero_free c = true) (V : valid c) (HG : records c G) (Hb : row_ok c b) (Ha : some_allowed c b phi).
  Lemma fexact_eq sel k : finite_on c G phi b sel -> (forall s, ok (spec_of c b) s -> @hits c b sel s = k) -> fmass c G phi b sel = k.
  Proof.
    intros Hf H. assert (HX : xbounded c 0 phi) by (left; exact Z).
    pose proof (@fmass_eq c G phi 0 V HG ltac:(lra) HX b sel k Hb Ha Hf H) as D. rewrite ftol_exact in D by exact Z. apply Rabs_le_inv in D. lra.
  Qed.
  Lemma fexact_le sel k : finite_on c G phi b sel -> (forall s, ok (spec_of c b) s -> @hits c b sel s <= k) -> fmass c G phi b sel <= k.
  Proof.
    intros Hf H. assert (HX : xbounded c 0 phi) by (left; exact Z).
    destruct (@C88_mass c G phi 0 V HG ltac:(lra) HX b sel 0 k Hb Ha Hf) as [_ D].
    - intros s Hs _. split; [apply pos_INR|auto].
    - rewrite ftol_exact in D by exact Z. lra.
  Qed.
End Exact.

(** LinearChain: whatever is forbidden, as long as one sequence is allowed *)
Theorem C88_chain batch N C ls G phi B : let c := CLin batch N C ls in valid c -> records c G -> 0 <= B ->
  (forall e x, phi e = Some x -> Rabs x <= B) ->
  forall b, (b < batch)%nat -> records_values (fun t => t = row_graph c b) (fst (G b)) (snd (G b)) -> some_allowed c b phi ->
    (forall n, (n + 1 < lc_len N ls b)%nat -> let sel e := (nth 1 e 0 =? n)%nat in
      Rabs (fmass c G phi b sel - 1) <= ftol c b B sel) /\
    (forall n y, (n + 2 < lc_len N ls b)%nat ->
      let before e := ((nth 1 e 0 =? n) && (nth 2 e 0 =? y))%nat%bool in
      let after e := ((nth 1 e 0 =? n + 1) && (nth 3 e 0 =? y))%nat%bool in
      Rabs (fmass c G phi b before - fmass c G phi b after) <= ftol c b B before + ftol c b B after).
Proof.
  intros c V HG HB0 HB b Hb HR Ha. assert (Hr : row_ok c b) by (split; [exact Hb|exact I]).
  assert (HX : xbounded c B phi) by (right; exact HB).
  assert (Hf : forall sel, finite_on c G phi b sel).
  { intros sel e He _. destruct (@C78_chain batch N C ls G phi B V HG HB0 HB b e Hb (entries_row c b e He) HR Ha) as (x & Ex & _). eauto. }
  split.
  - intros n Hn sel. apply fmass_eq; auto. intros s Hs. now apply hits_chain_step.
  - intros n y Hn before after. apply fmass_agree; auto. intros s Hs. now apply hits_chain_join.
Qed.
Print Assumptions C88_chain.
(** SemiMarkov: whatever is forbidden, as long as one segmentation is allowed *)
Theorem C88_semi batch N K C ls G phi B : let c := CSemi batch N K C ls in valid c -> records c G -> 0 <= B ->
  (forall e x, phi e = Some x -> Rabs x <= B) ->
  forall b, (b < batch)%nat -> records_values (fun t => In t (semi_row N K C ls b)) (fst (G b)) (snd (G b)) -> some_allowed c b phi ->
    (forall t, (t + 1 < lc_len N ls b)%nat -> let sel e := ((nth 1 e 0 <=? t) && (t <? nth 1 e 0 + nth 2 e 0))%nat%bool in
      Rabs (fmass c G phi b sel - 1) <= ftol c b B sel) /\
    (forall m y, (0 < m)%nat -> (m + 1 < lc_len N ls b)%nat ->
      let ends e := ((nth 1 e 0 + nth 2 e 0 =? m) && (nth 3 e 0 =? y))%nat%bool in
      let starts e := ((nth 1 e 0 =? m) && (nth 4 e 0 =? y))%nat%bool in
      Rabs (fmass c G phi b ends - fmass c G phi b starts) <= ftol c b B ends + ftol c b B starts).
Proof.
  intros c V HG HB0 HB b Hb HR Ha. assert (Hr : row_ok c b) by (split; [exact Hb|exact I]).
  assert (HX : xbounded c B phi) by (right; exact HB).
  assert (Hf : forall sel, finite_on c G phi b sel).
  { intros sel e He _. destruct (@C81_semi_marginals batch N K C ls G phi B V HG HB0 HB b e Hb (entries_row c b e He) HR Ha) as (x & Ex & _). eauto. }
  split.
  - intros t Ht sel. apply fmass_eq; auto. intros s Hs. now apply hits_semi_cover.
  - intros m y H0 Hm ends starts. apply fmass_agree; auto. intros s Hs. now apply hits_semi_join.
Qed.
Print Assumptions C88_semi.
(** TreeCRF: exact, for the selections without NaN *)
Theorem C88_tree batch N NT ls G phi : let c := CTree batch N NT ls in valid c -> records c G ->
  forall b, row_ok c b -> some_allowed c b phi -> let n := eff_len N (lc_len N ls b) in
    (forall i, (i < n)%nat -> let sel e := ((nth 1 e 0 =? i) && (nth 2 e 0 =? i))%nat%bool in
      finite_on c G phi b sel -> fmass c G phi b sel = 1) /\
    (let sel e := ((nth 1 e 0 =? 0) && (nth 2 e 0 =? n - 1))%nat%bool in
      finite_on c G phi b sel -> fmass c G phi b sel = 1) /\
    (finite_on c G phi b (fun _ => true) -> fmass c G phi b (fun _ => true) = 2 * INR n - 1) /\
    (forall i j i' j', (i < i' <= j /\ j < j')%nat ->
      let sel e := ((nth 1 e 0 =? i) && (nth 2 e 0 =? j) || (nth 1 e 0 =? i') && (nth 2 e 0 =? j'))%nat%bool in
      finite_on c G phi b sel -> fmass c G phi b sel <= 1).
Proof.
  intros c V HG b Hb Ha n. split; [|split; [|split]].
  - intros i Hi sel Hf. apply fexact_eq; auto. intros s Hs. now apply hits_tree_word.
  - intros sel Hf. apply fexact_eq; auto. intros s Hs. now apply hits_tree_root.
  - intros Hf. apply fexact_eq; auto. intros s Hs. now apply hits_tree_all.
  - intros i j i' j' H sel Hf. apply fexact_le; auto. intros s _. now apply hits_tree_cross.
Qed.
Print Assumptions C88_tree.
(** DependencyCRF: exact; if nothing critical is forbidden (C81) all entries are numbers *)
Theorem C88_dep mr batch n lab ls G phi : let c := CDep mr batch n lab ls in valid c -> records c G ->
  forall b, row_ok c b -> records_values (fun t => In t (dep_values mr lab n b (lc_len n ls b))) (fst (G b)) (snd (G b)) ->
    ~ blocked lab phi b (lc_len n ls b) ->
    (forall m, (m < lc_len n ls b)%nat -> fmass c G phi b (fun e => nth 2 e 0 =? m)%nat = 1) /\
    (forall m, (m < lc_len n ls b)%nat -> fmass c G phi b (fun e => (nth 2 e 0 =? m)%nat && negb (is_none (phi e)))%bool = 1) /\
    (mr = false -> fmass c G phi b (fun e => nth 1 e 0 =? nth 2 e 0)%nat = 1) /\
    (forall x y z w, (x < z < y /\ y < w)%nat -> fmass c G phi b (fun e => link x y e || link z w e)%bool <= 1).
Proof.
  intros c V HG b Hb HR NB. assert (Hlt : (b < batch)%nat) by apply Hb.
  assert (Hf : forall sel, finite_on c G phi b sel).
  { intros sel e He _. destruct (@C81_dep_marginals mr batch n lab ls G phi V HG b e Hb (entries_row c b e He) HR NB) as (x & Ex & _). eauto. }
  assert (Ha : some_allowed c b phi).
  { destruct (@dep_live lab phi b (lc_len n ls b) (dep_labels V) mr n (dep_words V) (dep_len V Hlt) NB) as [_ [L0 _]].
    rewrite <- (dep_row V Hlt) in L0. exact (@live_allowed c b phi V Hb eq_refl L0). }
  assert (W : forall m, (m < lc_len n ls b)%nat -> fmass c G phi b (fun e => nth 2 e 0 =? m)%nat = 1).
  { intros m Hm. apply fexact_eq; auto. intros s Hs. now apply hits_dep_word. }
  split; [exact W|]. split; [|split].
  - intros m Hm. assert (HX : xbounded c 0 phi) by (left; reflexivity).
    pose proof (@C88_forbidden c G phi 0 V HG ltac:(lra) HX b (fun e => nth 2 e 0 =? m)%nat Hb Ha (Hf _)) as D. cbv zeta in D.
    rewrite !ftol_exact in D by reflexivity. rewrite W in D by exact Hm. apply Rabs_le_inv in D. lra.
  - intros ->. apply fexact_eq; auto. intros s Hs. now apply hits_dep_root.
  - intros x y z w H. apply fexact_le; auto. intros s Hs. now apply (hits_dep_cross _ _ _ _ _ _ _ Hs).
Qed.
Print Assumptions C88_dep.
(** SentCFG: if every block of rules keeps a rule (C82) all entries are numbers *)
Theorem C88_cfg batch N NT T ls G phi B : let c := CCfg batch N NT T ls in valid c -> records c G -> 0 <= B ->
  (forall e x, phi e = Some x -> Rabs x <= B) ->
  forall b, row_ok c b -> records_values (fun t => In t (cfg_row N NT T ls b)) (fst (G b)) (snd (G b)) ->
    ~ cfg_blocked NT T N phi b -> some_allowed c b phi -> let n := eff_len N (lc_len N ls b) in
    let root e := (nth 0 e 0 =? 2)%nat in
    let word i e := ((nth 0 e 0 =? 0) && (nth 2 e 0 =? i))%nat%bool in
    let rule e := (nth 0 e 0 =? 1)%nat in
    Rabs (fmass c G phi b root - 1) <= ftol c b B root /\
    (forall i, (i < n)%nat -> Rabs (fmass c G phi b (word i) - 1) <= ftol c b B (word i)) /\
    Rabs (fmass c G phi b rule - (INR n - 1)) <= ftol c b B rule /\
    (forall A, (A < NT)%nat -> let L := [role 1 2 A] in let L' := [role 2 2 A; role 1 3 A; role 1 4 A] in
      Rabs (RSum (fmass c G phi b) L - RSum (fmass c G phi b) L') <= RSum (ftol c b B) L + RSum (ftol c b B) L') /\
    (forall t, (t < T)%nat -> let L := [role 0 3 t] in let L' := [role 1 3 (NT + t)%nat; role 1 4 (NT + t)%nat] in
      Rabs (RSum (fmass c G phi b) L - RSum (fmass c G phi b) L') <= RSum (ftol c b B) L + RSum (ftol c b B) L').
Proof.
  intros c V HG HB0 HB b Hb HR NB Ha n root word rule.
  assert (HX : xbounded c B phi) by (right; exact HB).
  assert (Hf : forall sel, finite_on c G phi b sel).
  { intros sel e He _. destruct (@C82_cfg_marginals batch N NT T ls G phi B V HG HB0 HB b e Hb (entries_row c b e He) HR NB Ha) as (x & Ex & _). eauto. }
  split; [|split; [|split; [|split]]].
  - apply fmass_eq; auto. intros s _. apply hits_cfg_root.
  - intros i Hi. apply fmass_eq; auto. intros s Hs. now apply hits_cfg_word.
  - apply fmass_eq; auto. intros s Hs. now apply hits_cfg_rule.
  - intros A HA L L'. apply C88_balance; auto. intros s Hs _. now apply hits_cfg_flow.
  - intros t Ht L L'. apply C88_balance; auto. intros s Hs _. now apply hits_cfg_preterm.
Qed.
Print Assumptions C88_cfg.

(** ** Concrete cases *)
(** dependency trees over 4 words in which the arc from word 0 to word 2 is
    forbidden: the remaining heads of word 2 share probability 1 *)
Example ex_C88 : exists G, records ex_arcs G /\
  fmass ex_arcs G (ex_no_arc 2) 0 (fun e => nth 2 e 0 =? 2)%nat = 1 /\
  fmass ex_arcs G (ex_no_arc 2) 0 (fun e => (nth 2 e 0 =? 2)%nat && negb (is_none (ex_no_arc 2 e)))%bool = 1 /\
  length (filter (fun e => (nth 2 e 0 =? 2)%nat && negb (is_none (ex_no_arc 2 e)))%bool (entries ex_arcs 0)) = 3%nat.
Proof.
  assert (V : valid ex_arcs) by (cbn; repeat split; [lia|lia|repeat constructor; lia|discriminate]).
  destruct (dep_graphs V) as (G & HG & HR).
  assert (RO : row_ok ex_arcs 0) by (split; [cbn; lia|cbn; lia]).
  assert (NB : ~ blocked None (ex_no_arc 2) 0 (lc_len 4 (Some [4; 2]%nat) 0)).
  { intros (i & j & Hi & Hj & Hc & Hf). cbn [critical forbidden] in *. unfold ex_no_arc in Hf. cbn [nth] in Hf.
    destruct (Nat.eqb_spec i 0), (Nat.eqb_spec j 2); cbn [andb] in Hf; try discriminate. lia. }
  destruct (@C88_dep _ _ _ _ _ G (ex_no_arc 2) V HG 0%nat RO (HR 0%nat ltac:(cbn; lia)) NB) as (H1 & H2 & _).
  exists G. split; [exact HG|]. split; [apply H1; cbn; lia|]. split; [apply H2; cbn; lia|]. reflexivity.
Qed.
(** a chain in which label 1 is forbidden *)
Example ex_C88_chain : exists G, records ex_lin G /\
  Rabs (fmass ex_lin G ex_mask 0 (fun e => nth 1 e 0 =? 1)%nat - 1) <= ftol ex_lin 0 3 (fun e => nth 1 e 0 =? 1)%nat /\
  ftol ex_lin 0 3 (fun e => nth 1 e 0 =? 1)%nat <= 36 * / 10 ^ 30.
Proof.
  assert (V : valid ex_lin) by (apply (@ex_all ex_lin); simpl; auto).
  destruct (chain_graphs V) as (G & HG & HR). exists G. split; [exact HG|].
  assert (HB : forall e x, ex_mask e = Some x -> Rabs x <= 3).
  { intros e x. unfold ex_mask. destruct (_ =? _)%nat; intro E; [discriminate|]. injection E as <-. apply ex_phi_abs. }
  assert (Ha : some_allowed ex_lin 0 ex_mask).
  { exists [0; 0; 0; 0]%nat. split; [split; [reflexivity|repeat constructor]|apply allowedb; reflexivity]. }
  destruct (@C88_chain 2 4 3 (Some [4; 2]%nat) G ex_mask 3 V HG ltac:(lra) HB 0%nat ltac:(lia) (HR 0%nat ltac:(lia)) Ha) as [H1 _].
  split; [apply H1; cbn; lia|]. unfold ftol. destruct (ex_leak 0) as [L _].
  change (length (filter _ _)) with 9%nat. change (degree ex_lin 0) with 4%nat. simpl INR.
  pose proof (leak_pos ex_lin 0 3). lra.
Qed.
