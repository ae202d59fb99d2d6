(** * Marginals and argmax when parts are forbidden (C78).

    Potentials of -inf forbid parts (C51). [marginals] should then be the
    probabilities of the parts given that the structure is allowed. It is, unless
    some sum of the computation has only -inf arguments: there the backward pass of
    torch.logsumexp yields NaN, and every entry read by that sum becomes NaN. *)
From Verif Require Import Base Ops Terms Semirings Poly Chain LinearChain SemiMarkov CkyCrf Cky DepSpec DepTree
  Batch Family Approx Grad Sample Dist Purity Degree Shape Api Query Dag DagLaw P_Real P_Sample Mask P_Mask Special P_Special MaskGrad.
Set Implicit Arguments.
Local Open Scope R_scope.

(** distributions.py:171-183, helpers.py:108-116 on potentials that may be -inf. The
    operations act row by row, so an entry gets the gradient of its own row's graph. *)
Definition f_marginals (c : call) (G : nat -> dag * nat) (phi : list nat -> ext) (e : list nat) : flt :=
  fgrad (fst (G (row_of c e))) phi NEG (snd (G (row_of c e))) e.

(** spec: expected uses of part e, given that the structure is allowed *)
Definition cond_marg A (parts : A -> list (list nat)) (l : list A) (phi : list nat -> ext) (e : list nat) : R :=
  RSum (fun s => if forallb (fun e => negb (is_none (phi e))) (parts s)
                 then exp (sc parts (fin phi) s) / xZ parts phi l * uses parts e s else 0) l.

Lemma cond_marg_perm A (parts : A -> list (list nat)) phi e l l' : Permutation l l' -> cond_marg parts l phi e = cond_marg parts l' phi e.
Proof. intro H. unfold cond_marg. rewrite <- (xZ_perm _ phi H). apply (Sum_perm R_csr), H. Qed.
(** a forbidden part has probability 0 *)
Lemma cond_marg_forbidden A (parts : A -> list (list nat)) phi e l : phi e = None -> cond_marg parts l phi e = 0.
Proof.
  intro H. unfold cond_marg. transitivity (RSum (fun _ : A => 0) l); [|rewrite RSum_const; ring].
  apply (Sum_ext R_csr). intro s. destruct (forallb _ _) eqn:E; [|reflexivity].
  apply allowedb in E. unfold uses. rewrite (proj1 (count_occ_not_In _ _ _)); [simpl; ring|]. intro Hin. now apply (E e Hin).
Qed.

(** the finite gradient of a row *)
Lemma row_value c b F g r phi B e l : is_row c b F -> topo g -> unf g r = row_graph c b -> 0 <= B -> xbounded c B phi ->
  Enumerates (fok F) l -> (exists s, fok F s /\ allowed (fparts F) phi s) ->
  Rabs (dgrad g R_csr (lin_send (xsoft g phi NEG)) r e - cond_marg (fparts F) l phi e) <= INR (degree c b) * leak c b B.
Proof.
  intros HF Ht U HB0 HB Hl (s & Hs & Ha). apply (fenum F) in Hs.
  rewrite <- (cond_marg_perm (fparts F) phi e (row_perm HF Hl)).
  rewrite (ir_graph HF) in U.
  pose proof (@XZ_pos F phi s Hs Ha) as HP. pose proof (exp_pos (sc (fparts F) (fin phi) s)) as HP'.
  set (Z := xZ (fparts F) phi (flist F)) in *. pose proof (XS_nonneg F phi NEG) as HS. set (S := XS F phi NEG) in *.
  assert (ET : RSum (xw phi NEG) (expand (ft F)) = Z + S).
  { rewrite <- xlog_value by apply ft_wf. apply x_split. }
  assert (Hr : xv g phi NEG r <> None).
  { rewrite (xv_unf phi NEG Ht), U. apply xexp_pos. rewrite xlog_value by apply ft_wf. lra. }
  rewrite (@dgrad_xsoft g phi NEG Ht r e Hr), U, ET. rewrite (RSum_split _ pure).
  set (A := RSum (fun m => xw phi NEG m * cnt e m) (filter pure (expand (ft F)))).
  change (filter (fun m => negb (pure m)) (expand (ft F))) with (spur (ft F)).
  set (D := RSum (fun m => xw phi NEG m * cnt e m) (spur (ft F))).
  assert (EA : A = Z * cond_marg (fparts F) (flist F) phi e).
  { unfold A. transitivity (RSum (fun m => (fun p => RProd (fun e => xexp (phi e)) p * INR (count_occ (list_eq_dec Nat.eq_dec) p e)) (leaves m)) (filter pure (expand (ft F)))).
    - apply (Sum_ext_in R_csr). intros m Hm. apply filter_In in Hm as [_ Hp]. rewrite cnt_pure by auto. f_equal.
      unfold xw. now apply (Prod_pure R_csr).
    - etransitivity; [apply (pure_transfer F R_csr (fun p => RProd (fun e => xexp (phi e)) p * INR (count_occ (list_eq_dec Nat.eq_dec) p e)))|].
      + intros a b0 HP0. f_equal; [apply (Prod_perm R_csr), HP0|]. f_equal. now apply Permutation_count_occ.
      + unfold cond_marg. rewrite <- RSum_scal. apply (Sum_ext R_csr). intro s'. rewrite prod_xexp. fold Z. unfold uses.
        destruct (forallb _ _); [|ring]. unfold sc. field. lra. }
  assert (RA : 0 <= A <= INR (fdeg F) * Z).
  { unfold Z. rewrite <- (xpure F phi NEG). unfold A. rewrite <- RSum_scal. split.
    - apply RSum_nonneg. intros m _. apply Rmult_le_pos; [apply xw_nonneg|apply cnt_range].
    - apply RSum_le. intros m Hm. apply filter_In in Hm as [Hm _]. rewrite Rmult_comm. apply Rmult_le_compat_r; [apply xw_nonneg|].
      pose proof (cnt_range e m). pose proof (@len_le F m Hm). lra. }
  assert (RD : 0 <= D <= INR (fdeg F) * S).
  { unfold S, XS, D. rewrite <- RSum_scal. split.
    - apply RSum_nonneg. intros m _. apply Rmult_le_pos; [apply xw_nonneg|apply cnt_range].
    - apply RSum_le. intros m Hm. apply filter_In in Hm as [Hm _]. rewrite Rmult_comm. apply Rmult_le_compat_r; [apply xw_nonneg|].
      pose proof (cnt_range e m). pose proof (@len_le F m Hm). lra. }
  assert (EQ : (A + D) / (Z + S) - cond_marg (fparts F) (flist F) phi e = (D * Z - A * S) / (Z * (Z + S))).
  { replace (cond_marg (fparts F) (flist F) phi e) with (A / Z) by (rewrite EA; field; lra). field. lra. }
  rewrite EQ. apply (@err_transfer c B b F (INR (fdeg F))); auto.
  - intro ZF. assert (S = 0) as ->. { unfold S, XS. rewrite (ir_pure HF ZF). reflexivity. }
    assert (D = 0) as ->. { unfold D. rewrite (ir_pure HF ZF). reflexivity. } unfold Rdiv. ring.
  - apply pos_INR.
  - intro ZF. destruct HB as [HB|HB]; [congruence|].
    apply Rle_trans with (INR (fdeg F) * (S / Z)).
    + assert (HZ : 0 < Z) by lra. assert (HZS : 0 < Z * (Z + S)) by (apply Rmult_lt_0_compat; lra).
      unfold Rdiv. rewrite Rabs_mult, (Rabs_right (/ _)) by (apply Rle_ge, Rlt_le, Rinv_0_lt_compat, HZS).
      apply Rmult_le_reg_r with (Z * (Z + S)); auto. rewrite Rmult_assoc, Rinv_l, Rmult_1_r by lra.
      replace (INR (fdeg F) * (S * / Z) * (Z * (Z + S))) with (INR (fdeg F) * S * (Z + S)) by (field; lra).
      assert (G1 : 0 <= D * Z <= INR (fdeg F) * S * Z) by (split; [apply Rmult_le_pos; lra|apply Rmult_le_compat_r; lra]).
      assert (G2 : 0 <= A * S <= INR (fdeg F) * Z * S) by (split; [apply Rmult_le_pos; lra|apply Rmult_le_compat_r; lra]).
      assert (G3 : 0 <= INR (fdeg F) * S * S) by (apply Rmult_le_pos; [apply Rmult_le_pos; [apply pos_INR|lra]|lra]).
      unfold Rabs. destruct (Rcase_abs _); lra.
    + apply Rmult_le_compat_l; [apply pos_INR|].
      pose proof (@XZ_ge F phi B HB0 HB s Hs Ha) as H1. pose proof (@XS_le F phi B HB0 HB NEG NEG_neg) as H2.
      fold Z in H1. fold S in H2. pose proof (exp_pos (- (INR (fdeg F) * B))) as H4.
      apply Rle_trans with (S / exp (- (INR (fdeg F) * B))).
      * apply Rmult_le_compat_l; auto. apply Rinv_le_contravar; auto.
      * unfold eps. replace (NEG + 2 * (INR (fdeg F) * B)) with (NEG + INR (fdeg F) * B + INR (fdeg F) * B) by ring.
        rewrite exp_plus. unfold Rdiv. rewrite <- exp_Ropp, Ropp_involutive, <- Rmult_assoc.
        apply Rmult_le_compat_r; auto. apply Rlt_le, exp_pos.
  - intro ZF. destruct (ir_bnd HF ZF) as [Hd _]. apply le_INR in Hd. exact Hd.
Qed.

(** every class: an entry's marginal is NaN exactly when it is read on the way to a
    recorded sum that is -inf; otherwise it is the conditional probability, up to the
    leak of the finite zero *)
Theorem C78_marginals c G phi B : valid c -> records c G -> 0 <= B -> xbounded c B phi ->
  forall b e, row_ok c b -> row_of c e = b ->
    let g := fst (G b) in let r := snd (G b) in let S := spec_of c b in
    ((exists v, (v <= r)%nat /\ reads_at g e v = true /\ poisoned g phi NEG r v) -> f_marginals c G phi e = FNan) /\
    ((forall v, (v <= r)%nat -> reads_at g e v = true -> ~ poisoned g phi NEG r v) ->
     (exists s, ok S s /\ allowed (prt S) phi s) ->
     exists x, f_marginals c G phi e = FR x /\
       forall l, Enumerates (ok S) l -> Rabs (x - cond_marg (prt S) l phi e) <= INR (degree c b) * leak c b B).
Proof.
  intros V HG HB0 HB b e Hb <-; cbv zeta. destruct (HG _ (proj1 Hb)) as [Ht U]. unfold f_marginals. split.
  - apply (fgrad_nan Ht).
  - intros Hn Ha. eexists. split; [apply (fgrad_real Ht), Hn|].
    destruct (row_family V Hb) as (F & HF). revert Ha. rewrite <- (ir_spec HF). cbn [ok prt st fspec]. intros Ha l Hl.
    now apply row_value.
Qed.
Print Assumptions C78_marginals.

(** the values a call computes, when no sum among them is -inf *)
Lemma live_marginals c G phi B T : valid c -> records c G -> 0 <= B -> xbounded c B phi ->
  forall b e, row_ok c b -> row_of c e = b -> records_values T (fst (G b)) (snd (G b)) ->
    (forall t, T t -> all_sums (live_sum phi NEG) t) ->
    (exists s, ok (spec_of c b) s /\ allowed (prt (spec_of c b)) phi s) ->
    exists x, f_marginals c G phi e = FR x /\
      forall l, Enumerates (ok (spec_of c b)) l -> Rabs (x - cond_marg (prt (spec_of c b)) l phi e) <= INR (degree c b) * leak c b B.
Proof.
  intros V HG HB0 HB b e Hb <- HR HL Ha. destruct (HG _ (proj1 Hb)) as [Ht U]. unfold f_marginals.
  eexists. split; [apply (fgrad_live phi NEG Ht e HR HL)|].
  destruct (row_family V Hb) as (F & HF). revert Ha. rewrite <- (ir_spec HF). cbn [ok prt st fspec]. intros Ha l Hl.
  now apply row_value.
Qed.

(** LinearChain: every recorded sum feeds the result, and none is -inf, so masking
    gives the conditional probabilities (up to the leak), whatever is forbidden *)
Theorem C78_chain batch N C ls G phi B : valid (CLin batch N C ls) -> records (CLin batch N C ls) G -> 0 <= B ->
  (forall e x, phi e = Some x -> Rabs x <= B) ->
  forall b e, (b < batch)%nat -> row_of (CLin batch N C ls) e = b -> let c := CLin batch N C ls in let S := spec_of c b in
    records_values (fun t => t = row_graph c b) (fst (G b)) (snd (G b)) ->
    (exists s, ok S s /\ allowed (prt S) phi s) ->
    exists x, f_marginals c G phi e = FR x /\
      (forall l, Enumerates (ok S) l -> Rabs (x - cond_marg (prt S) l phi e) <= INR (degree c b) * leak c b B) /\
      (phi e = None -> Rabs x <= INR (degree c b) * leak c b B).
Proof.
  intros V HG HB0 HB b e Hb He; cbv zeta. intros HR Ha.
  assert (Hr : row_ok (CLin batch N C ls) b) by (split; [exact Hb|exact I]).
  assert (HX : xbounded (CLin batch N C ls) B phi) by (right; exact HB).
  destruct (@live_marginals (CLin batch N C ls) G phi B _ V HG HB0 HX b e Hr He HR) as (x & Ex & Hx); auto.
  { intros t ->. apply (@live_chain phi NEG batch N C ls b V Hb). }
  exists x. split; [exact Ex|]. split; [exact Hx|]. intro Hn.
  destruct (row_family V Hr) as (F & HF).
  assert (Hl : exists l, Enumerates (ok (spec_of (CLin batch N C ls) b)) l).
  { rewrite <- (ir_spec HF). exists (flist F). apply (fenum F). }
  destruct Hl as [l Hl]. specialize (Hx _ Hl). rewrite cond_marg_forbidden, Rminus_0_r in Hx by auto. exact Hx.
Qed.
Print Assumptions C78_chain.

(** a tree whose pairs of positions all keep a label has no dead value *)
Lemma tree_live batch N NT ls phi b : valid (CTree batch N NT ls) -> (b < batch)%nat ->
  (forall i j, (i < N)%nat -> (j < N)%nat -> exists a, (a < NT)%nat /\ phi [b; i; j; a] <> None) ->
  (forall t, In t (tree_values NT N b) -> all_sums (live_sum phi NEG) t) /\
  exists s, ok (spec_of (CTree batch N NT ls) b) s /\ allowed (prt (spec_of (CTree batch N NT ls) b)) phi s.
Proof.
  intros V Hb HL. set (c := CTree batch N NT ls) in *.
  assert (Hr : row_ok c b) by (split; [exact Hb|exact I]).
  assert (Hred : forall i j, (i < N)%nat -> (j < N)%nat -> live phi NEG (ck_red tops NT TLeaf b i j)).
  { intros i' j' Hi Hj. rewrite ck_red_leaves. destruct (HL i' j' Hi Hj) as (a' & Ha & Hp).
    assert (L : live_sum phi NEG (map TLeaf (labels NT b i' j'))).
    { apply live_sum_l. exists (TLeaf [b; i'; j'; a']). split; [|exact Hp]. apply in_map. unfold labels. apply in_map_iff.
      exists a'. split; [reflexivity|apply in_seq; lia]. }
    split; [exact L|]. cbn [all_sums]. split; [exact L|]. apply fold_and. intros t Ht.
    apply in_map_iff in Ht as (e' & <- & _). exact I. }
  assert (Hcell : forall w i, (i + w < N)%nat -> live phi NEG (cell NT b w i w)).
  { intro w. induction w as [w IH] using lt_wf_ind. intros i' Hi. destruct w as [|w]; [apply Hred; lia|].
    rewrite cell_S. apply (@resp_mul _ _ _ (live_resp phi NEG) _ TOne _ TOne); [|apply Hred; lia].
    set (ts := map _ _).
    assert (HT : forall t, In t ts -> live phi NEG t).
    { intros t Ht. unfold ts in Ht. apply in_map_iff in Ht as (m & <- & Hm). apply in_seq in Hm.
      apply (@resp_mul _ _ _ (live_resp phi NEG) _ TOne _ TOne); apply IH; lia. }
    apply (@resp_sum _ _ _ (live_resp phi NEG) ts ts); [discriminate|]. apply Forall_forall in HT. clear -HT. induction HT; constructor; auto. }
  assert (Hok : exists s, ok (spec_of c b) s /\ allowed (prt (spec_of c b)) phi s).
  { destruct (row_family V Hr) as (F & HF). assert (FP : fpure F) by now apply (ir_pure HF).
    pose proof (Hcell (eff_len N (lc_len N ls b) - 1)%nat 0%nat) as L. pose proof (@M_ok batch N NT ls V b Hb) as HM.
    destruct L as [L _]; [lia|]. rewrite <- (@ck_run_cell NT N b 0%nat) in L by lia.
    replace (fst (ck_run tops NT N TLeaf b) 0 (eff_len N (lc_len N ls b) - 1))%nat with (row_graph c b) in L.
    2:{ unfold c. rewrite (@ck_row batch N NT ls V b Hb). unfold ck_one, pyidx.
        replace (eff_len N (lc_len N ls b) =? 0)%nat with false by (symmetry; apply Nat.eqb_neq; lia). reflexivity. }
    rewrite (ir_graph HF) in L. apply xexp_pos in L. rewrite x_split in L.
    replace (XS F phi NEG) with 0 in L by (unfold XS; rewrite FP; reflexivity). rewrite Rplus_0_r in L.
    rewrite <- (ir_spec HF). cbn [ok prt st fspec].
    destruct (existsb (fun s => forallb (fun e => negb (is_none (phi e))) (fparts F s)) (flist F)) eqn:E.
    - apply existsb_exists in E as (s & Hs & E). exists s. split; [now apply (fenum F)|now apply allowedb].
    - exfalso. rewrite XZ_zero in L; [lra|]. intros s Hs Ha. apply allowedb in Ha.
      assert (existsb (fun s => forallb (fun e => negb (is_none (phi e))) (fparts F s)) (flist F) = true) by (apply existsb_exists; eauto). congruence. }
  split; [|exact Hok].
  intros t Ht. apply in_tree_values in Ht as [(i' & j' & Hi & Hj & ->)|(i' & w & Hw & ->)]; [apply Hred; auto|apply Hcell; auto].
Qed.

(** TreeCRF: every pair of positions keeps a label: exact conditional probabilities *)
Theorem C78_tree batch N NT ls G phi : valid (CTree batch N NT ls) -> records (CTree batch N NT ls) G ->
  forall b i j a, (b < batch)%nat -> let c := CTree batch N NT ls in let S := spec_of c b in
    records_values (fun t => In t (tree_values NT N b)) (fst (G b)) (snd (G b)) ->
    (forall i j, (i < N)%nat -> (j < N)%nat -> exists a, (a < NT)%nat /\ phi [b; i; j; a] <> None) ->
    exists x, f_marginals c G phi [b; i; j; a] = FR x /\
      forall l, Enumerates (ok S) l -> x = cond_marg (prt S) l phi [b; i; j; a].
Proof.
  intros V HG b i j a Hb; cbv zeta. intros HR HL. set (c := CTree batch N NT ls) in *.
  assert (Hr : row_ok c b) by (split; [exact Hb|exact I]).
  assert (HX : xbounded c 0 phi) by (left; reflexivity).
  destruct (@tree_live batch N NT ls phi b V Hb HL) as [Hlive Hok].
  destruct (@live_marginals c G phi 0 _ V HG (Rle_refl 0) HX b [b; i; j; a] Hr eq_refl HR) as (x & Ex & Hx); auto.
  exists x. split; [exact Ex|]. intros l Hl. specialize (Hx l Hl).
  replace (leak c b 0) with 0 in Hx by reflexivity. rewrite Rmult_0_r in Hx.
  pose proof (Rabs_pos (x - cond_marg (prt (spec_of c b)) l phi [b; i; j; a])) as H0.
  apply Rminus_diag_uniq. destruct (Req_dec (x - cond_marg (prt (spec_of c b)) l phi [b; i; j; a]) 0) as [E|E]; [exact E|].
  apply Rabs_pos_lt in E. lra.
Qed.
Print Assumptions C78_tree.

(** TreeCRF: forbidding a whole span (i, j), also one below the diagonal or beyond the
    length of the row, makes its marginals NaN *)
Theorem C78_tree_span_nan batch N NT ls G phi : valid (CTree batch N NT ls) -> records (CTree batch N NT ls) G ->
  forall b i j, (b < batch)%nat -> (i < N)%nat -> (j < N)%nat ->
    records_values (fun t => In t (tree_values NT N b)) (fst (G b)) (snd (G b)) ->
    (forall a, (a < NT)%nat -> phi [b; i; j; a] = None) ->
    forall a, (a < NT)%nat -> f_marginals (CTree batch N NT ls) G phi [b; i; j; a] = FNan.
Proof.
  intros V HG b i j Hb Hi Hj [HR _] Hn a Ha. destruct (HG b Hb) as [Ht U]. unfold f_marginals. cbn [row_of nth hd].
  destruct (HR (ck_red tops NT TLeaf b i j)) as (k & Hk & Uk).
  { apply in_tree_values. left. exists i, j. auto. }
  rewrite ck_red_leaves in Uk.
  apply (@fgrad_dead_sum (fst (G b)) phi NEG Ht (snd (G b)) [b; i; j; a] k _ Hk Uk).
  - pose proof (@red_dead NT b phi NEG i j) as D. rewrite ck_red_leaves in D. apply D. intros e He. unfold labels in He.
    apply in_map_iff in He as (a' & <- & Ha'). apply in_seq in Ha'. apply Hn. lia.
  - cbn [reads]. apply fold_or. exists (TLeaf [b; i; j; a]). split; [|reflexivity]. apply in_map. unfold labels.
    apply in_map_iff. exists a. split; [reflexivity|apply in_seq; lia].
Qed.
Print Assumptions C78_tree_span_nan.

(** TreeCRF: if no span may end at word j, as when the scores of the padding are -inf,
    then the marginals of all spans before j are NaN, though the log-partition of a
    shorter row does not depend on word j *)
Theorem C78_tree_padding_nan batch N NT ls G phi : valid (CTree batch N NT ls) -> records (CTree batch N NT ls) G ->
  forall b j, (b < batch)%nat -> (j < N)%nat ->
    records_values (fun t => In t (tree_values NT N b)) (fst (G b)) (snd (G b)) ->
    (forall i a, (i <= j)%nat -> (a < NT)%nat -> phi [b; i; j; a] = None) ->
    forall i' j' a, (i' <= j')%nat -> (j' < j)%nat -> (a < NT)%nat ->
      f_marginals (CTree batch N NT ls) G phi [b; i'; j'; a] = FNan.
Proof.
  intros V HG b j Hb Hj [HR _] Hn i' j' a Hi Hj' Ha. destruct (HG b Hb) as [Ht U]. unfold f_marginals. cbn [row_of nth hd].
  assert (Hd : forall i, (i <= j)%nat -> leval (xlog_ops NEG) phi (ck_red tops NT TLeaf b i j) = None).
  { intros i Hle. apply red_dead. intros e He. unfold labels in He. apply in_map_iff in He as (a' & <- & Ha'). apply in_seq in Ha'. apply Hn; lia. }
  destruct (HR (cell NT b (j - i') i' (j - i'))) as (k & Hk & Uk).
  { apply in_tree_values. right. exists i', (j - i')%nat. split; [lia|reflexivity]. }
  destruct (j - i')%nat as [|w] eqn:Ew; [lia|]. rewrite cell_S in Uk. rewrite (unf_eq Ht) in Uk. unfold unf_step in Uk.
  destruct (ndof (fst (G b)) k) as [| | | | |x y] eqn:Ek; try discriminate.
  match type of Uk with _ = TMul ?s _ => assert (Ux : unf (fst (G b)) x = s) by congruence end.
  destruct (topo_mul Ht k Ek) as [Lx _].
  refine (@fgrad_dead_sum (fst (G b)) phi NEG Ht (snd (G b)) [b; i'; j'; a] x _ _ Ux _ _); [lia| |].
  - unfold dead_sum. cbn [leval ssum xlog_ops]. unfold xlse. rewrite map_map.
    match goal with |- context [forallb is_none ?l] => replace (forallb is_none l) with true; [reflexivity|] end.
    symmetry. apply forallb_forall. intros v Hv. apply in_map_iff in Hv as (m & <- & Hm). apply in_seq in Hm.
    cbn [leval smul xlog_ops].
    rewrite (@cell_dead NT b phi NEG (i' + m + 1) (w - m)).
    + destruct (leval _ _ _); reflexivity.
    + replace (i' + m + 1 + (w - m))%nat with j by lia. apply Hd. lia.
  - cbn [reads]. apply fold_or. exists (TMul (cell NT b (j' - i') i' (j' - i')) (cell NT b (w - (j' - i')) (i' + (j' - i') + 1) (w - (j' - i')))). split.
    + apply in_map_iff. exists (j' - i')%nat. split; [reflexivity|apply in_seq; lia].
    + left. apply cell_reads with i' j'; try lia. unfold labels. apply in_map_iff. exists a. split; [reflexivity|apply in_seq; lia].
Qed.
Print Assumptions C78_tree_padding_nan.

(** ** argmax *)
(** torch.max (semirings.py:167-169) on values that may be -inf: the choices at the
    nodes are indices of largest arguments (any index when all are -inf) *)
Definition xargmax_node (g : dag) (phi : list nat -> ext) (o : nat -> nat) : Prop :=
  forall k l, ndof g k = NSum l -> exists c, nth_error l (o k) = Some c /\
    is_xmax (fwd g (xmax_ops NEG) phi c) (map (fwd g (xmax_ops NEG) phi) l).
(** distributions.py:127-135; the backward pass of torch.max sends the gradient to the
    chosen argument and nothing to the others *)
Definition f_argmax (c : call) (G : nat -> dag * nat) (o : nat -> nat -> nat) (e : list nat) : R :=
  dgrad (fst (G (row_of c e))) R_csr (lin_send (pick_at (o (row_of c e)))) (snd (G (row_of c e))) e.

Lemma xle_antisym a b : xle a b -> xle b a -> a = b.
Proof. destruct a, b; simpl; try tauto. intros. f_equal. lra. Qed.
Lemma is_xmax_unique v w l : is_xmax v l -> is_xmax w l -> v = w.
Proof. intros [V1 V2] [W1 W2]. apply xle_antisym; auto. Qed.
Section Pick.
  Variables (g : dag) (phi : list nat -> ext) (o : nat -> nat).
  Hypothesis Ht : topo g.
  Hypothesis Ho : xargmax_node g phi o.
  Lemma npick_sum k l c : ndof g k = NSum l -> nth_error l (o k) = Some c -> npick g o k = npick g o c.
  Proof.
    intros E Hc. unfold npick at 1. rewrite (npick_eq Ht). unfold npick_step. rewrite E.
    now rewrite (nth_error_nth _ _ _ Hc).
  Qed.
  Lemma npick_mul k a b : ndof g k = NMul a b -> npick g o k = npick g o a ++ npick g o b.
  Proof. intro E. unfold npick at 1. rewrite (npick_eq Ht). unfold npick_step. now rewrite E. Qed.
  Lemma npick_score k : xscore phi NEG (npick g o k) = fwd g (xmax_ops NEG) phi k.
  Proof.
    induction k as [k IH] using lt_wf_ind. rewrite (fwd_eq Ht). unfold fwd_step.
    destruct (ndof g k) as [e|e| | |l|a b] eqn:E.
    1-4: unfold npick; rewrite (npick_eq Ht); unfold npick_step; rewrite E; cbn; try apply xplus_0; try (f_equal; ring); reflexivity.
    - destruct (Ho k E) as (c & Hc & M). rewrite (npick_sum k E Hc). destruct (topo_sum Ht k E) as [Hl Hlt].
      rewrite IH by (apply Hlt, (nth_error_In _ _ Hc)). apply (is_xmax_unique M). apply xmax_is_max. destruct l; simpl; congruence.
    - destruct (topo_mul Ht k E). rewrite (npick_mul k E), xscore_app, !IH by auto. reflexivity.
  Qed.
  Lemma dgrad_npick r e : dgrad g R_csr (lin_send (pick_at o)) r e = cnt e (npick g o r).
  Proof.
    apply (dgrad_linear Ht R_csr (lin_send (pick_at o)) (pick_at o) (fun _ _ _ => eq_refl) e (fun k => cnt e (npick g o k))).
    intro k. unfold backs, sel. destruct (ndof g k) as [e'|e'| | |l|a b] eqn:E.
    1-4: unfold npick; rewrite (npick_eq Ht); unfold npick_step; rewrite E; unfold cnt, Sum; cbn; try destruct (list_eq_dec Nat.eq_dec e e'); cbn; ring.
    - destruct (Ho k E) as (c & Hc & _). rewrite (npick_sum k E Hc). unfold pick_at.
      assert (Q : forall l i, (i <= o k)%nat -> nth_error l (o k - i) = Some c ->
        ksum R_csr (mapi (fun j c => (if (j =? o k)%nat then 1 else 0) * cnt e (npick g o c)) i l) = cnt e (npick g o c)).
      { clear. induction l as [|x l IH]; intros i Hi Hc; [destruct (o k - i)%nat; discriminate|]. cbn [mapi]. rewrite ksum_cons.
        destruct (Nat.eqb_spec i (o k)) as [Ei|N].
        - rewrite Ei, Nat.sub_diag in Hc. cbn in Hc. injection Hc as ->.
          assert (Z : forall (l : list nat) i, (o k < i)%nat -> ksum R_csr (mapi (fun j c => (if (j =? o k)%nat then 1 else 0) * cnt e (npick g o c)) i l) = 0).
          { induction l0 as [|y l0 IH0]; intros i' Hi'; [reflexivity|]. cbn [mapi]. rewrite ksum_cons, IH0 by lia.
            destruct (Nat.eqb_spec i' (o k)); [lia|]. cbn. ring. }
          rewrite Z by lia. cbn. ring.
        - rewrite IH; [cbn; ring|lia|]. replace (o k - i)%nat with (S (o k - S i)) in Hc by lia. exact Hc. }
      symmetry. apply Q; [lia|]. now rewrite Nat.sub_0_r.
    - rewrite (npick_mul k E). apply cnt_app.
  Qed.
End Pick.

(** argmax is the event of a best allowed structure, whenever one exists *)
Theorem C78_argmax c G phi o : valid c -> records c G -> (forall b, (b < batch_of c)%nat -> xargmax_node (fst (G b)) phi (o b)) ->
  forall b, row_ok c b -> xsmall c b phi -> let S := spec_of c b in
    (exists s, ok S s /\ allowed (prt S) phi s) ->
    exists s, ok S s /\ allowed (prt S) phi s /\
      (forall s', ok S s' -> allowed (prt S) phi s' -> sc (prt S) (fin phi) s' <= sc (prt S) (fin phi) s) /\
      forall e, row_of c e = b -> f_argmax c G o e = uses (prt S) e s.
Proof.
  intros V HG Ho b Hb HS; cbv zeta. destruct (HG b (proj1 Hb)) as [Ht U]. specialize (Ho b (proj1 Hb)).
  destruct (row_family V Hb) as (F & HF). rewrite (ir_graph HF) in U.
  rewrite <- (ir_spec HF). cbn [ok prt fspec st]. intros (s0 & Hs0 & Ha0).
  set (m := npick (fst (G b)) (o b) (snd (G b))).
  assert (Hm : In m (expand (ft F))).
  { rewrite <- U. apply (npick_in Ht (o b) (fun _ => None)). discriminate. }
  assert (Em : xscore phi NEG m = leval (xmax_ops NEG) phi (ft F)).
  { unfold m. rewrite (npick_score Ht Ho), (fwd_unf Ht). now rewrite U. }
  destruct (@xmax_value phi NEG (ft F) (ft_wf F)) as [_ Hmax].
  assert (Hperm : forall m s, Permutation (leaves m) (fparts F s) ->
    (forallb (fun e => negb (is_none (phi e))) (leaves m) = true <-> allowed (fparts F) phi s)).
  { intros m' s HP. rewrite <- allowedb, !forallb_forall. split; intros H e He; apply H.
    - apply Permutation_in with (l := fparts F s); auto. now apply Permutation_sym.
    - apply Permutation_in with (l := leaves m'); auto. }
  assert (HfS : forall s, fok F s <-> In s (flist F)) by (intro; symmetry; apply (fenum F)).
  apply HfS in Hs0. destruct (@structure_is_pure F s0 Hs0) as (m0 & Hm0 & Hp0 & HP0).
  assert (G0 : xle (xscore phi NEG m0) (xscore phi NEG m)) by (rewrite Em; apply Hmax, in_map, Hm0).
  rewrite (xscore_fin phi NEG m0) in G0. apply (Hperm m0 s0 HP0) in Ha0. rewrite Ha0 in G0.
  rewrite (xscore_fin phi NEG m) in G0, Em. destruct (forallb _ (leaves m)) eqn:Am; [|destruct G0]. cbn [xle] in G0.
  assert (Hp : pure m = true).
  { destruct HS as [Z|(B & B0 & HB & HR)]; [apply (@fpure_all F (ir_pure HF Z) m Hm)|].
    destruct (zero_free c) eqn:Z; [apply (@fpure_all F (ir_pure HF Z) m Hm)|].
    destruct (pure m) eqn:P; auto. exfalso.
    pose proof (@score_spur_le (fin phi) NEG B (@fin_abs phi B B0 HB) NEG_neg m P) as H1.
    pose proof (@score_pure_ge (fin phi) NEG B (@fin_abs phi B B0 HB) m0 Hp0) as H2.
    pose proof (@len_le F m Hm). pose proof (@len_le F m0 Hm0).
    destruct (ir_bnd HF Z) as [Hd _]. apply le_INR in Hd. unfold fdeg in *.
    assert (INR (length m) * B <= INR (degree c b) * B) by (apply Rmult_le_compat_r; lra).
    assert (INR (length m0) * B <= INR (degree c b) * B) by (apply Rmult_le_compat_r; lra).
    unfold NEG in *. lra. }
  destruct (pure_is_structure F m Hm Hp) as (s & Hs & HP). exists s.
  split; [now apply HfS|]. split; [now apply (Hperm m s HP)|]. rewrite <- (@perm_score F (fin phi) NEG m s Hp HP). split.
  - intros s' Hs' Ha'. apply HfS in Hs'.
    destruct (@structure_is_pure F s' Hs') as (m' & Hm' & Hp' & HP').
    assert (G1 : xle (xscore phi NEG m') (leval (xmax_ops NEG) phi (ft F))) by apply Hmax, in_map, Hm'.
    rewrite <- Em, (xscore_fin phi NEG m') in G1. apply (Hperm m' s' HP') in Ha'. rewrite Ha' in G1. cbn [xle] in G1.
    rewrite <- (@perm_score F (fin phi) NEG m' s' Hp' HP'). exact G1.
  - intros e He. unfold f_argmax. rewrite He, (dgrad_npick Ht Ho). fold m. now apply perm_cnt.
Qed.
Print Assumptions C78_argmax.

(** ** Masking computes the probability of avoiding the forbidden parts *)
(** spec: probability that the structure uses no forbidden part *)
Definition avoids A (parts : A -> list (list nat)) (l : list A) (phi : list nat -> R) (bad : list nat -> bool) : R :=
  RSum (fun s => if forallb (fun e => negb (bad e)) (parts s) then prob parts l phi s else 0) l.
Theorem C78_probability_of_avoiding c phi (bad : list nat -> bool) B : valid c -> 0 <= B -> bounded c B phi ->
  exists v w, q_partition c phi = Ok v /\ x_partition c (fun e => if bad e then None else Some (phi e)) = Ok w /\
  forall b l, row_ok c b -> let S := spec_of c b in Enumerates (ok S) l ->
    (exists s, ok S s /\ forall e, In e (prt S s) -> bad e = false) ->
    exists x, nth b w None = Some x /\ Rabs (x - nth b v 0 - ln (avoids (prt S) l phi bad)) <= leak c b B.
Proof.
  intros V HB0 HB. set (psi := (fun e => if bad e then None else Some (phi e)) : list nat -> ext).
  destruct (@C20_partition_value c phi B V HB0 HB) as (v & Ev & Lv & Hv).
  assert (HX : xbounded c B psi).
  { destruct HB as [HB|HB]; [now left|right]. intros e x. unfold psi. destruct (bad e); [discriminate|]. intro E. injection E as <-. apply HB. }
  destruct (@C51_masked_partition c psi B V HB0 HX) as (w & Ew & Lw & Hw).
  exists v, w. split; [exact Ev|]. split; [exact Ew|].
  intros b l Hb; cbv zeta; intros Hl (s & Hs & Hbad). specialize (Hv b l Hb Hl). cbv zeta in Hv.
  destruct (Hw b l Hb Hl) as (_ & H & _). destruct H as (x & Ex & Hx).
  { exists s. split; [exact Hs|]. intros e He. unfold psi. now rewrite (Hbad e He). }
  exists x. split; [exact Ex|].
  set (S := spec_of c b) in *.
  assert (Hin : In s l) by now apply Hl.
  assert (HZ : 0 < ZS (prt S) l phi) by (apply ZS_pos; intro E; rewrite E in Hin; destruct Hin).
  assert (EX : xZ (prt S) psi l = ZS (prt S) l phi * avoids (prt S) l phi bad).
  { unfold avoids. rewrite <- RSum_scal. unfold xZ. apply (Sum_ext R_csr). intro t.
    assert (E1 : forallb (fun e => negb (is_none (psi e))) (prt S t) = forallb (fun e => negb (bad e)) (prt S t)).
    { induction (prt S t) as [|e p IH]; [reflexivity|]. cbn [forallb]. rewrite IH. f_equal. unfold psi. destruct (bad e); reflexivity. }
    rewrite E1. destruct (forallb (fun e => negb (bad e)) (prt S t)) eqn:E2; [|ring]. unfold prob.
    assert (E3 : sc (prt S) (fin psi) t = sc (prt S) phi t).
    { unfold sc. apply (Sum_ext_in R_csr). intros e He. rewrite forallb_forall in E2. specialize (E2 e He).
      unfold fin, psi. destruct (bad e); [discriminate|reflexivity]. }
    rewrite E3. field. lra. }
  assert (HA : 0 < avoids (prt S) l phi bad).
  { unfold avoids. eapply Rlt_le_trans; [|apply (@RSum_single _ (fun s => if forallb (fun e => negb (bad e)) (prt S s) then prob (prt S) l phi s else 0) s l Hin)].
    - assert (E : forallb (fun e => negb (bad e)) (prt S s) = true) by (apply forallb_forall; intros e He; now rewrite (Hbad e He)).
      rewrite E. unfold prob. apply Rmult_lt_0_compat; [apply exp_pos|now apply Rinv_0_lt_compat].
    - intros y _. destruct (forallb _ _); [|lra]. unfold prob. apply Rlt_le, Rmult_lt_0_compat; [apply exp_pos|now apply Rinv_0_lt_compat]. }
  rewrite EX, ln_mult in Hx by auto. apply Rabs_le. lra.
Qed.
Print Assumptions C78_probability_of_avoiding.

(** ** The hypotheses are met *)
Lemma graphs_exist c (T : nat -> list term) : valid c ->
  (forall b, (b < batch_of c)%nat -> Forall twf (T b) /\ In (row_graph c b) (T b)) ->
  exists G, records c G /\ forall b, (b < batch_of c)%nat -> records_values (fun t => In t (T b)) (fst (G b)) (snd (G b)).
Proof.
  intros V HT. assert (H : forall n, (n <= batch_of c)%nat -> exists G : nat -> dag * nat, forall b, (b < n)%nat ->
    (topo (fst (G b)) /\ unf (fst (G b)) (snd (G b)) = row_graph c b) /\ records_values (fun t => In t (T b)) (fst (G b)) (snd (G b))).
  { induction n as [|n IH]; intro Hn; [exists (fun _ => ([], 0%nat)); lia|].
    destruct IH as [G HG]; [lia|]. destruct (HT n) as [W Hin]; [lia|].
    destruct (@values_recorded _ _ W Hin) as (g & r & Tg & U & R).
    exists (fun b => if (b =? n)%nat then (g, r) else G b). intros b Hb. destruct (Nat.eqb_spec b n) as [->|]; [auto|]. apply HG. lia. }
  destruct (H (batch_of c) (le_n _)) as [G HG]. exists G. split; intros b Hb; apply (HG b Hb).
Qed.
(** LinearChain records only values that feed the result: graphs as in [C78_chain] exist *)
Theorem chain_graphs batch N C ls : valid (CLin batch N C ls) -> exists G, records (CLin batch N C ls) G /\
  forall b, (b < batch)%nat -> records_values (fun t => t = row_graph (CLin batch N C ls) b) (fst (G b)) (snd (G b)).
Proof.
  intro V. destruct (@graphs_exist (CLin batch N C ls) (fun b => [row_graph (CLin batch N C ls) b]) V) as (G & HG & HR).
  - intros b Hb. split; [|now left]. constructor; [|constructor]. apply graph_wf; auto.
  - exists G. split; [exact HG|]. intros b Hb. destruct (HR b Hb) as [H1 H2]. split.
    + intros t ->. apply H1. now left.
    + intros k l Hk E. destruct (H2 k l Hk E) as (t & [<-|[]] & S). eauto.
Qed.
(** TreeCRF: graphs as in [C78_tree] exist *)
Theorem tree_graphs batch N NT ls : valid (CTree batch N NT ls) -> exists G, records (CTree batch N NT ls) G /\
  forall b, (b < batch)%nat -> records_values (fun t => In t (tree_values NT N b)) (fst (G b)) (snd (G b)).
Proof.
  intro V. apply (@graphs_exist (CTree batch N NT ls) (tree_values NT N) V). intros b Hb.
  assert (HNT : (0 < NT)%nat) by (cbn [valid] in V; apply V).
  assert (Wr : forall i j, twf (ck_red tops NT TLeaf b i j)).
  { intros i j. rewrite ck_red_leaves. constructor.
    - unfold labels. destruct NT; [lia|discriminate].
    - apply Forall_forall. intros t Ht. apply in_map_iff in Ht as (e & <- & _). constructor. }
  assert (Wc : forall w i, twf (cell NT b w i w)).
  { intro w. induction w as [w IH] using lt_wf_ind. intro i. destruct w as [|w]; [apply Wr|]. rewrite cell_S. constructor; [|apply Wr].
    constructor; [discriminate|]. apply Forall_forall. intros t Ht. apply in_map_iff in Ht as (m & <- & Hm). apply in_seq in Hm. constructor; apply IH; lia. }
  split.
  - apply Forall_forall. intros t Ht. apply in_tree_values in Ht as [(i & j & _ & _ & ->)|(i & w & _ & ->)]; auto.
  - apply in_tree_values. right. pose proof (@M_ok batch N NT ls V b Hb) as HM.
    exists 0%nat, (eff_len N (lc_len N ls b) - 1)%nat. split; [lia|]. rewrite <- (@ck_run_cell NT N b 0%nat) by lia.
    rewrite (@ck_row batch N NT ls V b Hb). unfold ck_one, pyidx.
    replace (eff_len N (lc_len N ls b) =? 0)%nat with false by (symmetry; apply Nat.eqb_neq; lia). reflexivity.
Qed.
(** torch.max has an answer at every node, also among -inf *)
Theorem xargmax_node_exists g phi : topo g -> exists o, xargmax_node g phi o.
Proof.
  intro Ht. destruct (@node_choice g (fun k i => forall l, ndof g k = NSum l -> exists c, nth_error l i = Some c /\
    is_xmax (fwd g (xmax_ops NEG) phi c) (map (fwd g (xmax_ops NEG) phi) l))) as [o Ho].
  - intros k l E. destruct (topo_sum Ht k E) as [Hl _].
    assert (Hv : map (fwd g (xmax_ops NEG) phi) l <> []) by (destruct l; simpl; congruence).
    destruct (xmax_is_max Hv) as [H1 H2]. pose proof H1 as H3. apply in_map_iff in H1 as (c & Ec & Hc). apply In_nth_error in Hc as (i & Hi).
    exists i. intros l' E'. rewrite E in E'. injection E' as <-. exists c. split; [exact Hi|]. rewrite Ec. split; auto.
  - exists o. intros k l E. now apply (Ho k l E).
Qed.

(** a mask of the spans that end at word 2, beyond the two words of row 0 *)
Definition ex_pad (e : list nat) : ext := if (nth 2 e 0 =? 2)%nat then None else Some (ex_phi e).
(** a chain and a tree whose edges and labels numbered 1 are forbidden *)
Example ex_C78 : exists G G', records ex_lin G /\ records ex_tree G' /\
  (forall e, row_of ex_lin e = 0%nat -> exists x, f_marginals ex_lin G ex_mask e = FR x) /\
  (forall i j a, exists x, f_marginals ex_tree G' ex_mask [0; i; j; a]%nat = FR x /\
     forall l, Enumerates (ok (spec_of ex_tree 0)) l -> x = cond_marg (prt (spec_of ex_tree 0)) l ex_mask [0; i; j; a]%nat) /\
  (forall a, (a < 2)%nat -> f_marginals ex_tree G' ex_span [0; 0; 1; a]%nat = FNan) /\
  (forall i j a, (i <= j)%nat -> (j < 2)%nat -> (a < 2)%nat -> f_marginals ex_tree G' ex_pad [0; i; j; a]%nat = FNan) /\
  (exists x, at_row None (x_partition ex_tree ex_pad) 0 = Some x).
Proof.
  destruct ex_C77 as (V1 & V2 & R). destruct ex_C51_allowed as [(A1 & A2 & A3 & A4) (B1 & B2 & B3 & B4)].
  destruct (chain_graphs V1) as (G & HG & HR). destruct (tree_graphs V2) as (G' & HG' & HR').
  exists G, G'. split; [exact HG|]. split; [exact HG'|]. split; [|split; [|split; [|split]]].
  - intros e He. destruct (@C78_chain _ _ _ _ G ex_mask 3 V1 HG ltac:(lra)) with (b := 0%nat) (e := e) as (x & Ex & _); auto.
    + intros e' x. unfold ex_mask. destruct (_ =? _)%nat; intro E; [discriminate|]. injection E as <-. apply ex_phi_abs.
    + eexists. split; [exact A1|exact A2].
    + exists x. exact Ex.
  - intros i j a. apply (@C78_tree _ _ _ _ G' ex_mask V2 HG' 0%nat i j a); [lia|apply HR'; lia|].
    intros i' j' _ _. exists 0%nat. split; [lia|discriminate].
  - intros a Ha. apply (@C78_tree_span_nan _ _ _ _ G' ex_span V2 HG' 0%nat 0%nat 1%nat); auto; lia.
  - intros i j a Hi Hj Ha. apply (@C78_tree_padding_nan _ _ _ _ G' ex_pad V2 HG' 0%nat 2%nat); auto; lia.
  - destruct (@C51_masked_partition ex_tree ex_pad 3 V2 ltac:(lra) ltac:(left; reflexivity)) as (v & -> & _ & H). cbn [at_row].
    destruct (R 0%nat ltac:(lia)) as [_ R2]. destruct (row_family V2 R2) as (F & HF).
    assert (Hl : exists l, Enumerates (ok (spec_of ex_tree 0)) l) by (rewrite <- (ir_spec HF); exists (flist F); apply (fenum F)).
    destruct Hl as [l Hl]. destruct (H 0%nat l R2 Hl) as (_ & Hx & _). destruct Hx as (x & Ex & _); [|eauto].
    exists (LNode 0 (LLeaf 0) (LLeaf 0)). split; [exact B1|]. apply allowedb. reflexivity.
Qed.
(** best allowed structures: graphs and answers of torch.max exist for a call of each class *)
Example ex_C78_argmax : Forall (fun c => valid c /\ xsmall c 0 ex_mask /\
  exists G o, records c G /\ forall b, (b < batch_of c)%nat -> xargmax_node (fst (G b)) ex_mask (o b)) ex_calls.
Proof.
  pose proof ex_C51 as H. rewrite Forall_forall in *. intros c Hc. destruct (H c Hc) as (V & R & _).
  split; [exact V|]. split; [apply (R 0%nat ltac:(lia))|]. destruct (records_exist c V) as (G & HG). exists G.
  assert (Q : forall n, (n <= batch_of c)%nat -> exists o : nat -> nat -> nat, forall b, (b < n)%nat -> xargmax_node (fst (G b)) ex_mask (o b)).
  { induction n as [|n IH]; intro Hn; [exists (fun _ _ => 0%nat); lia|]. destruct IH as [o Ho]; [lia|].
    destruct (HG n) as [Ht _]; [lia|]. destruct (xargmax_node_exists ex_mask Ht) as [o' Ho'].
    exists (fun b => if (b =? n)%nat then o' else o b). intros b Hb. destruct (Nat.eqb_spec b n) as [->|]; [exact Ho'|]. apply Ho. lia. }
  destruct (Q (batch_of c) (le_n _)) as [o Ho]. exists o. split; [exact HG|exact Ho].
Qed.
