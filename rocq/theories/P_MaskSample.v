(** * Sampling when parts are forbidden (C79).

    Every recorded sum draws from the softmax of its arguments. The softmax of
    arguments that are all -inf is NaN, and torch.multinomial refuses NaN. If no sum
    is like that, the samples have the conditional law given that no forbidden part
    is used. *)
From Coq Require Import ZArith.
From Verif Require Import Base Ops Terms Semirings Poly Chain LinearChain SemiMarkov CkyCrf Cky DepSpec DepTree
  Batch Family Approx Grad Sample Dist Purity Degree Shape Api Query Dag DagLaw P_Real P_Sample Mask P_Mask Special P_Special MaskGrad P_MaskGrad.
Set Implicit Arguments.
Local Open Scope R_scope.

(** sample.py:175-177: [ls.softmax(-1)] of the arguments of node k, argument i. As in
    MaskGrad, the softmax is exp(argument - logsumexp), NaN if all are -inf. *)
Definition softmax_at (g : dag) (phi : list nat -> ext) (k i : nat) : flt := fweight g phi NEG k i.
(** sample.py:175-177: torch.multinomial raises RuntimeError when a weight is NaN. All
    sums recorded up to the root r draw, also those the root does not use. *)
Definition nan_weights (g : dag) (phi : list nat -> ext) (r : nat) : bool :=
  existsb (fun k => match ndof g k with
                    | NSum l => existsb is_nan (map (softmax_at g phi k) (seq 0 (length l)))
                    | _ => false
                    end) (seq 0 (S r)).
(** the number in a float, 0 for the others *)
Definition to_r (a : flt) : R := match a with FR x => x | _ => 0 end.
(** distributions.py:212-233 [sample] with at least one sample, on potentials that may
    be -inf: the law of the draws, or the exception of the first call *)
Definition f_sample (c : call) (G : nat -> dag * nat) (phi : list nat -> ext) (n : nat) : res (pmf (nat -> nat -> nat -> nat -> nat)) :=
  if existsb (fun b => nan_weights (fst (G b)) phi (snd (G b))) (seq 0 (batch_of c)) then Err RuntimeError
  else Ok (wdraws c G (fun b k i => to_r (softmax_at (fst (G b)) phi k i)) n).

(** spec: expectation of h given that the structure is allowed *)
Definition cond_mean A (parts : A -> list (list nat)) (l : list A) (phi : list nat -> ext) (h : A -> R) : R :=
  RSum (fun s => if forallb (fun e => negb (is_none (phi e))) (parts s)
                 then exp (sc parts (fin phi) s) / xZ parts phi l * h s else 0) l.

Section Node.
  Variables (g : dag) (phi : list nat -> ext).
  Hypothesis Ht : topo g.
  Variable r : nat.
  Lemma nan_weights_dead : nan_weights g phi r = true <-> exists k, (k <= r)%nat /\ dead g phi NEG k.
  Proof.
    unfold nan_weights. rewrite existsb_exists. split.
    - intros (k & Hk & H). apply in_seq in Hk. exists k. split; [lia|]. destruct (ndof g k) as [| | | |l|] eqn:E; try discriminate.
      destruct (dead_dec g phi NEG k) as [D|D]; [exact D|]. exfalso.
      apply existsb_exists in H as (w & Hw & H). apply in_map_iff in Hw as (i & <- & _).
      unfold softmax_at in H. rewrite (fweight_live i D) in H. discriminate.
    - intros (k & Hk & D). exists k. split; [apply in_seq; lia|]. destruct D as [(l & E) X]. rewrite E.
      apply existsb_exists. exists FNan. split; [|reflexivity]. apply in_map_iff. exists 0%nat. split.
      + unfold softmax_at. apply (fweight_dead Ht). split; eauto.
      + apply in_seq. destruct (topo_sum Ht k E) as [Hl _]. destruct l; [congruence|simpl; lia].
  Qed.

  (** no recorded sum is -inf *)
  Hypothesis HL : forall k, (k <= r)%nat -> ~ dead g phi NEG k.
  Notation W := (fun k i => to_r (softmax_at g phi k i)).
  Notation v := (xv g phi NEG).
  (** probability of derivation m of node k *)
  Definition xpr (k : nat) (m : deriv) : R := xw phi NEG m / xexp (v k).

  Lemma W_xsoft k i : (k <= r)%nat -> to_r (softmax_at g phi k i) = xsoft g phi NEG k i.
  Proof. intro H. unfold softmax_at. now rewrite (fweight_live i (HL H)). Qed.
  Lemma v_value k : xexp (v k) = RSum (xw phi NEG) (expand (unf g k)).
  Proof. rewrite (xv_unf phi NEG Ht). apply xlog_value, (unf_wf Ht). Qed.
  Lemma v_sum k l : ndof g k = NSum l -> xexp (v k) = RSum (fun c => xexp (v c)) l.
  Proof. intro E. rewrite (@xv_sum g phi NEG Ht k l E), xlse_exp, RSum_map. reflexivity. Qed.
  Lemma W_total k l : (k < S r)%nat -> ndof g k = NSum l -> ksum R_csr (mapi (fun i _ => to_r (softmax_at g phi k i)) 0 l) = 1.
  Proof.
    intros Hk E. assert (Hx : 0 < xexp (v k)).
    { apply xexp_pos. intro X. apply (@HL k); [lia|]. split; eauto. }
    transitivity (ksum R_csr (mapi (fun (_ : nat) c => @kmul R_csr (/ xexp (v k)) (xexp (v c))) 0 l)).
    - f_equal. apply mapi_ext_nth. intros i c Hc. rewrite W_xsoft by lia. unfold xsoft. rewrite E. cbn [Nat.add kmul R_csr].
      rewrite (nth_error_nth _ _ _ (map_nth_error v _ _ Hc)). unfold Rdiv. ring.
    - rewrite (@ksum_mapi_scale R_csr (/ xexp (v k)) (fun _ c => xexp (v c))). rewrite mapi_const.
      change (ksum R_csr (map (fun c => xexp (v c)) l)) with (RSum (fun c => xexp (v c)) l). rewrite <- (v_sum k E).
      cbn [kmul R_csr]. apply Rinv_l. lra.
  Qed.
  Lemma xpr_total k : v k <> None -> RSum (xpr k) (expand (unf g k)) = 1.
  Proof.
    intro H. apply xexp_pos in H. unfold xpr, Rdiv. rewrite RSum_scar, <- v_value. apply Rinv_r. lra.
  Qed.
  Lemma xw_app a b : xw phi NEG (a ++ b) = xw phi NEG a * xw phi NEG b.
  Proof. unfold xw. rewrite Prod_app. reflexivity. Qed.
  Lemma xpr_mul k a b : v k <> None -> ndof g k = NMul a b -> v a <> None /\ v b <> None /\
    forall x y, xpr k (x ++ y) = xpr a x * xpr b y.
  Proof.
    intros H E. assert (X : v k = xplus (v a) (v b)).
    { unfold xv at 1. rewrite (fwd_eq Ht). unfold fwd_step. rewrite E. reflexivity. }
    assert (Ha : v a <> None) by (intro A; apply H; rewrite X, A; reflexivity).
    assert (Hb : v b <> None) by (intro A; apply H; rewrite X, A; destruct (v a); reflexivity).
    split; [exact Ha|]. split; [exact Hb|]. intros x y. unfold xpr. rewrite xw_app, X, xplus_exp.
    apply xexp_pos in Ha, Hb. field. lra.
  Qed.
  Lemma dead_xw c m : v c = None -> In m (expand (unf g c)) -> xw phi NEG m = 0.
  Proof.
    intros X Hm. pose proof (v_value c) as H. rewrite X in H. cbn [xexp] in H.
    pose proof (@RSum_single _ (xw phi NEG) m _ Hm (fun x _ => xw_nonneg phi NEG x)) as Q. pose proof (xw_nonneg phi NEG m). lra.
  Qed.
  Lemma xpr_sum k l i c : (k <= r)%nat -> v k <> None -> ndof g k = NSum l -> nth_error l i = Some c ->
    (v c <> None /\ forall m, In m (expand (unf g c)) -> to_r (softmax_at g phi k i) * xpr c m = xpr k m) \/
    (to_r (softmax_at g phi k i) = 0 /\ forall m, In m (expand (unf g c)) -> xpr k m = 0).
  Proof.
    intros Hk Hv E Hc.
    assert (EW : to_r (softmax_at g phi k i) = xexp (v c) / xexp (v k)).
    { rewrite W_xsoft by auto. unfold xsoft. rewrite E, (nth_error_nth _ _ _ (map_nth_error v _ _ Hc)). reflexivity. }
    apply xexp_pos in Hv. rewrite EW. destruct (v c) as [x|] eqn:X.
    - left. split; [discriminate|]. intros m _. unfold xpr. rewrite X. pose proof (exp_pos x). cbn [xexp]. field. lra.
    - right. cbn [xexp]. split; [unfold Rdiv; ring|]. intros m Hm. unfold xpr. rewrite (@dead_xw c m X Hm). unfold Rdiv. ring.
  Qed.
  (** the 16 unpacked samples of a row are independent and each has law [xpr] *)
  Lemma xmulti_law (F : nat -> (list nat -> Z) -> R) : v r <> None -> multilinear (unf g r) ->
    (forall j u w, (forall e, u e = w e) -> F j u = F j w) ->
    PE (wjoint16 g W (S r)) (fun o => RProd (fun j => F j (fun e => to_discrete (dgrad g Z_csr (multi_send o) r e) j)) (seq 0 16)) =
    RProd (fun j => RSum (fun m => xpr r m * F j (fun e => zcount e m)) (expand (unf g r))) (seq 0 16).
  Proof.
    intros Hr Hm HF. apply (@wmulti_law g Ht W xpr (S r) (fun k => v k <> None)); auto.
    - intros k l Hk E. now apply W_total.
    - intros k _ Hk. now apply xpr_total.
    - intros k a b _ Hk E. destruct (xpr_mul k Hk E) as (A & B & C). repeat split; auto.
    - intros k l i c Hk Hv E Hc. apply (@xpr_sum k l i c); auto. lia.
  Qed.
End Node.

Lemma cond_mean_perm A (parts : A -> list (list nat)) phi h l l' : Permutation l l' -> cond_mean parts l phi h = cond_mean parts l' phi h.
Proof. intro H. unfold cond_mean. rewrite <- (xZ_perm _ phi H). apply (Sum_perm R_csr), H. Qed.

(** the law of a row, against a test h of the entries of the row *)
Lemma row_law c b F g r phi B h l : valid c -> samples c -> (b < batch_of c)%nat -> is_row c b F -> topo g -> unf g r = row_graph c b -> 0 <= B -> xbounded c B phi ->
  Enumerates (fok F) l -> (exists s, fok F s /\ allowed (fparts F) phi s) -> row_fun c b h -> (forall u, Rabs (h u) <= 1) ->
  Rabs (RSum (fun m => xpr g phi r m * h (fun e => zcount e m)) (expand (unf g r)) - cond_mean (fparts F) l phi (fun s => h (event_of (fspec F) s))) <= 2 * leak c b B.
Proof.
  intros V Hsm Hlt HF Ht U HB0 HB Hl (s & Hs & Ha) Hh Hh1. apply (fenum F) in Hs.
  rewrite <- (cond_mean_perm (fparts F) phi (fun s => h (event_of (fspec F) s)) (row_perm HF Hl)).
  rewrite (ir_graph HF) in U.
  pose proof (@XZ_pos F phi s Hs Ha) as HP. pose proof (exp_pos (sc (fparts F) (fin phi) s)) as HP'.
  set (Z := xZ (fparts F) phi (flist F)) in *. pose proof (XS_nonneg F phi NEG) as HS. set (S := XS F phi NEG) in *.
  assert (ET : xexp (xv g phi NEG r) = Z + S).
  { rewrite (xv_unf phi NEG Ht), U. apply x_split. }
  assert (Hhe : forall u v, (forall e, u e = v e) -> h u = h v) by (intros; apply Hh; auto).
  set (H := fun m : deriv => h (fun e => zcount e m)).
  assert (EQ0 : RSum (fun m => xpr g phi r m * H m) (expand (unf g r)) = RSum (fun m => xw phi NEG m * H m) (expand (ft F)) / (Z + S)).
  { rewrite U. unfold Rdiv. rewrite <- RSum_scar. apply (Sum_ext R_csr). intro m. unfold xpr. rewrite ET. unfold Rdiv. ring. }
  change (fun m => xpr g phi r m * h (fun e => zcount e m)) with (fun m => xpr g phi r m * H m). rewrite EQ0. clear EQ0.
  rewrite (RSum_split _ pure). set (A := RSum (fun m => xw phi NEG m * H m) (filter pure (expand (ft F)))).
  change (filter (fun m => negb (pure m)) (expand (ft F))) with (spur (ft F)).
  set (D := RSum (fun m => xw phi NEG m * H m) (spur (ft F))).
  assert (Hnd : forall s, In s (flist F) -> NoDup (fparts F s)).
  { intros s' Hsl. destruct (@structure_is_pure F s' Hsl) as (m & Hm & Hp & HPm).
    eapply Permutation_NoDup; [exact HPm|]. rewrite <- names_pure by auto.
    apply (@graph_multilinear c b V Hlt Hsm). now rewrite (ir_graph HF). }
  pose (hc := fun lv : list (list nat) => h (fun e => Z.of_nat (count_occ (list_eq_dec Nat.eq_dec) lv e))).
  assert (Hev : forall s, In s (flist F) -> h (event_of (fspec F) s) = hc (fparts F s)).
  { intros s' Hsl. apply Hhe. intro e. unfold event_of. cbn [prt fspec]. specialize (Hnd s' Hsl).
    destruct (in_dec _ e _) as [Hi|Hi].
    - now rewrite (proj1 (NoDup_count_occ' _ _) Hnd e Hi).
    - now rewrite (proj1 (count_occ_not_In _ _ _) Hi). }
  set (CM := cond_mean (fparts F) (flist F) phi (fun s => h (event_of (fspec F) s))).
  assert (EA : A = Z * CM).
  { unfold A. transitivity (RSum (fun m => (fun p => RProd (fun e => xexp (phi e)) p * hc p) (leaves m)) (filter pure (expand (ft F)))).
    - apply (Sum_ext_in R_csr). intros m Hm. apply filter_In in Hm as [_ Hp]. f_equal.
      + unfold xw. now apply (Prod_pure R_csr).
      + unfold H, hc. apply Hhe. intro e. now rewrite zcount_names, names_pure.
    - etransitivity; [apply (pure_transfer F R_csr (fun p => RProd (fun e => xexp (phi e)) p * hc p))|].
      + intros a b0 HP0. f_equal; [apply (Prod_perm R_csr), HP0|]. apply Hhe. intro e. f_equal. now apply Permutation_count_occ.
      + unfold CM, cond_mean. rewrite <- RSum_scal. apply (Sum_ext_in R_csr). intros s' Hs'. rewrite prod_xexp, <- (Hev s' Hs'). fold Z.
        destruct (forallb _ _); [|ring]. unfold sc. field. lra. }
  assert (AB : forall l', Rabs (RSum (fun m => xw phi NEG m * H m) l') <= RSum (xw phi NEG) l').
  { induction l' as [|m l' IH]; [unfold Sum; cbn; rewrite Rabs_R0; lra|]. rewrite !RSum_cons.
    eapply Rle_trans; [apply Rabs_triang|]. apply Rplus_le_compat; [|exact IH].
    pose proof (xw_nonneg phi NEG m). rewrite Rabs_mult, (Rabs_right (xw phi NEG m)) by lra.
    pose proof (Hh1 (fun e => zcount e m)) as Q. fold (H m) in Q. rewrite <- (Rmult_1_r (xw phi NEG m)) at 2. now apply Rmult_le_compat_l. }
  assert (RA : Rabs A <= Z). { unfold Z. rewrite <- (xpure F phi NEG). apply AB. }
  assert (RD : Rabs D <= S) by apply AB.
  assert (EQ : (A + D) / (Z + S) - CM = (D * Z - A * S) / (Z * (Z + S))).
  { replace CM with (A / Z) by (rewrite EA; field; lra). field. lra. }
  rewrite EQ. apply (@err_transfer c B b F 2); auto; try lra.
  - intro ZF. assert (S = 0) as ->. { unfold S, XS. rewrite (ir_pure HF ZF). reflexivity. }
    assert (D = 0) as ->. { unfold D. rewrite (ir_pure HF ZF). reflexivity. } unfold Rdiv. ring.
  - intro ZF. destruct HB as [HB|HB]; [congruence|].
    apply Rle_trans with (2 * (S / Z)).
    + assert (HZ : 0 < Z) by lra. assert (HZS : 0 < Z * (Z + S)) by (apply Rmult_lt_0_compat; lra).
      unfold Rdiv. rewrite Rabs_mult, (Rabs_right (/ _)) by (apply Rle_ge, Rlt_le, Rinv_0_lt_compat, HZS).
      apply Rmult_le_reg_r with (Z * (Z + S)); auto. rewrite Rmult_assoc, Rinv_l, Rmult_1_r by lra.
      replace (2 * (S * / Z) * (Z * (Z + S))) with (2 * S * (Z + S)) by (field; lra).
      eapply Rle_trans; [apply Rabs_triang|]. rewrite Rabs_Ropp, !Rabs_mult, (Rabs_right Z), (Rabs_right S) by lra.
      assert (Rabs D * Z <= S * Z) by (apply Rmult_le_compat_r; lra).
      assert (Rabs A * S <= Z * S) by (apply Rmult_le_compat_r; lra).
      assert (0 <= S * S) by (apply Rmult_le_pos; lra). lra.
    + apply Rmult_le_compat_l; [lra|].
      pose proof (@XZ_ge F phi B HB0 HB s Hs Ha) as H1. pose proof (@XS_le F phi B HB0 HB NEG NEG_neg) as H2.
      fold Z in H1. fold S in H2. pose proof (exp_pos (- (INR (fdeg F) * B))) as H4.
      apply Rle_trans with (S / exp (- (INR (fdeg F) * B))).
      * apply Rmult_le_compat_l; auto. apply Rinv_le_contravar; auto.
      * unfold eps. replace (NEG + 2 * (INR (fdeg F) * B)) with (NEG + INR (fdeg F) * B + INR (fdeg F) * B) by ring.
        rewrite exp_plus. unfold Rdiv. rewrite <- exp_Ropp, Ropp_involutive, <- Rmult_assoc.
        apply Rmult_le_compat_r; auto. apply Rlt_le, exp_pos.
Qed.

(** sampling raises exactly when some recorded sum of some row has only -inf arguments *)
Theorem C79_raises c G phi n : records c G ->
  (f_sample c G phi n = Err RuntimeError <->
   exists b k, (b < batch_of c)%nat /\ (k <= snd (G b))%nat /\ dead (fst (G b)) phi NEG k).
Proof.
  intro HG. unfold f_sample. destruct (existsb _ _) eqn:E.
  - split; [intros _|reflexivity]. apply existsb_exists in E as (b & Hb & E). apply in_seq in Hb.
    assert (Hlt : (b < batch_of c)%nat) by lia. apply (nan_weights_dead phi (proj1 (HG b Hlt))) in E as (k & Hk & D). eauto.
  - split; [discriminate|]. intros (b & k & Hb & Hk & D). exfalso.
    assert (E' : existsb (fun b => nan_weights (fst (G b)) phi (snd (G b))) (seq 0 (batch_of c)) = true).
    { apply existsb_exists. exists b. split; [apply in_seq; lia|]. apply (nan_weights_dead phi (proj1 (HG b Hb))). eauto. }
    congruence.
Qed.
Print Assumptions C79_raises.

(** otherwise: n samples of a batch, for every n. Samples and rows are independent, and
    in each row with an allowed structure the law is the conditional one given that
    no forbidden part is used, up to the leak *)
Theorem C79_sample_law c G phi B : valid c -> samples c -> records c G -> 0 <= B -> xbounded c B phi ->
  (forall b, (b < batch_of c)%nat -> row_ok c b) ->
  (forall b, (b < batch_of c)%nat -> exists s, ok (spec_of c b) s /\ allowed (prt (spec_of c b)) phi s) ->
  forall n D, f_sample c G phi n = Ok D ->
  exists law : nat -> ((list nat -> Z) -> R) -> R,
  (forall (f : nat -> nat -> (list nat -> Z) -> R), (forall k b, (b < batch_of c)%nat -> row_fun c b (f k b)) ->
     PE D (fun o => RProd (fun k => RProd (fun b => f k b (q_sample c G o k)) (seq 0 (batch_of c))) (seq 0 n))
     = RProd (fun k => RProd (fun b => law b (f k b)) (seq 0 (batch_of c))) (seq 0 n)) /\
  (forall b, (b < batch_of c)%nat -> law b (fun _ => 1) = 1) /\
  (forall b l h, (b < batch_of c)%nat -> let S := spec_of c b in Enumerates (ok S) l ->
     row_fun c b h -> (forall u, Rabs (h u) <= 1) ->
     Rabs (law b h - cond_mean (prt S) l phi (fun s => h (event_of S s))) <= 2 * leak c b B).
Proof.
  intros V Hsm HG HB0 HB HO HA n D HD.
  assert (HN : f_sample c G phi n <> Err RuntimeError) by congruence.
  assert (ED : D = wdraws c G (fun b k i => to_r (softmax_at (fst (G b)) phi k i)) n).
  { unfold f_sample in HD. destruct (existsb _ _); congruence. }
  subst D. clear HD.
  assert (HL : forall b, (b < batch_of c)%nat -> forall k, (k <= snd (G b))%nat -> ~ dead (fst (G b)) phi NEG k).
  { intros b Hb k Hk Dk. apply HN. apply C79_raises; eauto. }
  assert (HV : forall b, (b < batch_of c)%nat -> xv (fst (G b)) phi NEG (snd (G b)) <> None).
  { intros b Hb. destruct (HG b Hb) as [Ht U]. destruct (row_family V (HO b Hb)) as (F & HF).
    pose proof (HA b Hb) as HAb. revert HAb. rewrite <- (ir_spec HF). cbn [ok prt st fspec]. intros (s & Hs & Ha). apply (fenum F) in Hs.
    rewrite (xv_unf phi NEG Ht), U, (ir_graph HF). apply xexp_pos. rewrite x_split.
    pose proof (@XZ_pos F phi s Hs Ha) as HP. pose proof (exp_pos (sc (fparts F) (fin phi) s)). pose proof (XS_nonneg F phi NEG). lra. }
  pose (law := fun b (h : (list nat -> Z) -> R) => RSum (fun m => xpr (fst (G b)) phi (snd (G b)) m * h (fun e => zcount e m)) (expand (unf (fst (G b)) (snd (G b))))).
  assert (H1 : forall b, (b < batch_of c)%nat -> law b (fun _ => 1) = 1).
  { intros b Hb. unfold law. etransitivity; [|exact (@xpr_total _ phi (proj1 (HG b Hb)) (snd (G b)) (HV b Hb))]. apply (Sum_ext R_csr). intro m. apply Rmult_1_r. }
  exists law. split; [|split; [exact H1|]].
  - intros f Hf. apply (@product_law c G (fun b k i => to_r (softmax_at (fst (G b)) phi k i)) law); auto.
    intros b Hb F HF. apply (@xmulti_law _ phi (proj1 (HG b Hb)) (snd (G b)) (HL b Hb) F (HV b Hb)); auto. apply (row_multilinear V Hsm HG Hb).
  - intros b l h Hb; cbv zeta. destruct (HG b Hb) as [Ht U]. destruct (row_family V (HO b Hb)) as (F & HF).
    pose proof (HA b Hb) as HAb. revert l HAb. rewrite <- (ir_spec HF). cbn [ok prt st fspec]. intros l HAb Hl Hh Hh1.
    unfold law. now apply row_law.
Qed.
Print Assumptions C79_sample_law.

(** ** Every sample is an allowed structure *)
Section Pick.
  Variables (g : dag) (phi : list nat -> ext).
  Hypothesis Ht : topo g.
  Variable r : nat.
  Hypothesis HL : forall k, (k <= r)%nat -> ~ dead g phi NEG k.
  Variable o : nat -> nat.
  Lemma xpr_one k m : xv g phi NEG k <> None -> expand (unf g k) = [m] -> xpr g phi k m = 1.
  Proof. intros H E. pose proof (xpr_total phi Ht k H) as T. rewrite E in T. unfold Sum in T; simpl in T. rewrite Rplus_0_r in T. exact T. Qed.
  (** proof device: follow the draws down from node k *)
  Lemma xpick_step k (Q : nat -> R -> Prop) :
    (forall i, Q i 1) ->
    (forall k l, (k <= r)%nat -> ndof g k = NSum l -> (o k < length l)%nat /\ 0 < to_r (softmax_at g phi k (o k))) ->
    (forall k l c x, (k <= r)%nat -> ndof g k = NSum l -> nth_error l (o k) = Some c -> Q c x -> Q k (to_r (softmax_at g phi k (o k)) * x)) ->
    (forall k a b x y, (k <= r)%nat -> ndof g k = NMul a b -> Q a x -> Q b y -> Q k (x * y)) ->
    (k <= r)%nat -> xv g phi NEG k <> None -> Q k (xpr g phi k (npick g o k)).
  Proof.
    intros Q1 Ho Qs Qm. induction k as [k IH] using lt_wf_ind. intros Hk Hv.
    assert (Eu := unf_eq Ht k). unfold unf_step in Eu.
    assert (En : npick g o k = npick_step g o (fun _ => None) k (npick g o)) by apply (npick_eq Ht). unfold npick_step in En.
    destruct (ndof g k) as [e|e| | |l|a b] eqn:E;
      try (rewrite (@xpr_one k (npick g o k)); [apply Q1|exact Hv|rewrite Eu, En; reflexivity]).
    - destruct (Ho k l Hk E) as [Hlt Hw]. set (c := nth (o k) l (hd 0%nat l)) in *.
      assert (Hc : nth_error l (o k) = Some c) by (unfold c; apply nth_error_nth'; exact Hlt).
      assert (Hck : (c < k)%nat) by (apply (topo_sum Ht k E), (nth_error_In _ _ Hc)).
      destruct (@xpr_sum g phi Ht r HL k l (o k) c Hk Hv E Hc) as [[Vc HP]|[W0 _]]; [|lra].
      rewrite En, <- HP by (apply (npick_in Ht o (fun _ => None)); discriminate).
      apply (Qs k l c _ Hk E Hc). apply IH; auto. lia.
    - destruct (topo_mul Ht k E) as [Ha Hb]. destruct (xpr_mul phi Ht k Hv E) as (Va & Vb & HP).
      rewrite En, HP. apply (Qm k a b _ _ Hk E); apply IH; auto; lia.
  Qed.
  Lemma xpick_pos : (forall k l, (k <= r)%nat -> ndof g k = NSum l -> (o k < length l)%nat /\ 0 < to_r (softmax_at g phi k (o k))) ->
    forall k, (k <= r)%nat -> xv g phi NEG k <> None -> 0 < xpr g phi k (npick g o k).
  Proof.
    intros Ho k. apply (@xpick_step k (fun _ x => 0 < x)); auto.
    - intros _. lra.
    - intros k' l c x Hk E _ Hx. apply Rmult_lt_0_compat; auto. now apply (Ho k' l).
    - intros k' a b x y _ _ Hx Hy. now apply Rmult_lt_0_compat.
  Qed.
  Lemma xpick_likely d : 0 <= d ->
    (forall k l, (k <= r)%nat -> ndof g k = NSum l -> (o k < length l)%nat /\ exp (- d) <= to_r (softmax_at g phi k (o k))) ->
    forall k, (k <= r)%nat -> xv g phi NEG k <> None -> exp (- (INR (choices (unf g k)) * d)) <= xpr g phi k (npick g o k).
  Proof.
    intros Hd Ho k. apply (@xpick_step k (fun k x => exp (- (INR (choices (unf g k)) * d)) <= x)).
    - intro i. change (exp (- (INR (choices (unf g i)) * d)) <= 1). rewrite <- exp_0. assert (H : - (INR (choices (unf g i)) * d) <= 0).
      { pose proof (pos_INR (choices (unf g i))). assert (0 <= INR (choices (unf g i)) * d) by now apply Rmult_le_pos. lra. }
      destruct H as [H| ->]; [apply Rlt_le, exp_increasing, H|lra].
    - intros k' l Hk E. destruct (Ho k' l Hk E). split; auto. pose proof (exp_pos (- d)). lra.
    - intros k' l c x Hk E Hc Hx. destruct (Ho k' l Hk E) as [_ Hw]. rewrite (unf_eq Ht k'). unfold unf_step. rewrite E. cbn [choices].
      apply Rle_trans with (exp (- d) * exp (- (INR (choices (unf g c)) * d))).
      + rewrite <- exp_plus, S_INR.
        assert (Hm : (choices (unf g c) <= list_max (map choices (map (unf g) l)))%nat).
        { assert (H := list_max_le (map choices (map (unf g) l)) (list_max (map choices (map (unf g) l)))).
          destruct H as [H _]. specialize (H (le_n _)). rewrite Forall_forall in H. apply H. apply in_map, in_map, (nth_error_In _ _ Hc). }
        apply le_INR in Hm.
        assert (INR (choices (unf g c)) * d <= INR (list_max (map choices (map (unf g) l))) * d) by (apply Rmult_le_compat_r; auto).
        assert (Hle : - ((INR (list_max (map choices (map (unf g) l))) + 1) * d) <= - d + - (INR (choices (unf g c)) * d)) by lra.
        destruct Hle as [Hle| ->]; [apply Rlt_le, exp_increasing, Hle|apply Rle_refl].
      + apply Rmult_le_compat; auto; apply Rlt_le, exp_pos.
    - intros k' a b x y Hk E Hx Hy. rewrite (unf_eq Ht k'). unfold unf_step. rewrite E. cbn [choices].
      rewrite plus_INR, Rmult_plus_distr_r, Ropp_plus_distr, exp_plus. apply Rmult_le_compat; auto; apply Rlt_le, exp_pos.
  Qed.
End Pick.

(** torch.multinomial never returns an outcome of weight 0; for the classes with a finite
    zero none below exp(-d) (see C22). Then every sample is an allowed structure. *)
Theorem C79_sample_is_allowed c G phi o : valid c -> samples c -> records c G -> draws_ok c G o ->
  forall k b, row_ok c b -> let S := spec_of c b in let g := fst (G b) in
  (forall v, (v <= snd (G b))%nat -> ~ dead g phi NEG v) -> (exists s, ok S s /\ allowed (prt S) phi s) ->
  (zero_free c = true /\ (forall v l, (v <= snd (G b))%nat -> ndof g v = NSum l -> 0 < to_r (softmax_at g phi v (draw_of o k b v))) \/
   exists B d, 0 <= B /\ 0 <= d /\ (forall e x, phi e = Some x -> Rabs x <= B) /\
     (forall v l, (v <= snd (G b))%nat -> ndof g v = NSum l -> exp (- d) <= to_r (softmax_at g phi v (draw_of o k b v))) /\
     INR (choices (row_graph c b)) * d + 2 * (INR (degree c b) * B) < 100000) ->
  exists s, ok S s /\ allowed (prt S) phi s /\ forall e, row_of c e = b -> q_sample c G o k e = event_of S s e.
Proof.
  intros V Hsm HG Ho k b Hb; cbv zeta. intros HL HA HR. destruct (row_family V Hb) as (F & HF). pose proof (proj1 Hb) as Hlt.
  destruct (HG b Hlt) as [Ht U]. set (g := fst (G b)) in *. set (r := snd (G b)) in *. set (m := npick g (draw_of o k b) r).
  assert (Hm : In m (expand (ft F))).
  { rewrite <- (ir_graph HF), <- U. apply (npick_in Ht (draw_of o k b) (fun _ => None)). discriminate. }
  revert HA. rewrite <- (ir_spec HF). cbn [ok prt st fspec]. intros (s0 & Hs0 & Ha0). apply (fenum F) in Hs0.
  pose proof (@XZ_pos F phi s0 Hs0 Ha0) as HP. pose proof (exp_pos (sc (fparts F) (fin phi) s0)) as HP'. pose proof (XS_nonneg F phi NEG) as HS.
  assert (ET : xexp (xv g phi NEG r) = xZ (fparts F) phi (flist F) + XS F phi NEG).
  { rewrite (xv_unf phi NEG Ht), U, (ir_graph HF). apply x_split. }
  assert (Hv : xv g phi NEG r <> None) by (apply xexp_pos; lra).
  assert (Hrange : forall v l, ndof g v = NSum l -> (draw_of o k b v < length l)%nat) by (intros v l E; apply (Ho _ _ _ Hlt v l E)).
  assert (Hpos : 0 < xpr g phi r m).
  { apply (xpick_pos Ht HL); auto. intros v l Hv' E. split; [eauto|].
    destruct HR as [[_ H]|(B & d & _ & _ & _ & H & _)]; [now apply (H v l)|]. specialize (H v l Hv' E). pose proof (exp_pos (- d)). lra. }
  assert (Hw : 0 < xw phi NEG m).
  { unfold xpr, Rdiv in Hpos. pose proof (xw_nonneg phi NEG m) as [|E]; auto. rewrite <- E, Rmult_0_l in Hpos. lra. }
  assert (Hp : pure m = true).
  { destruct HR as [[Z _]|(B & d & HB0 & Hd & HB & Hw' & Hsum)]; [apply (@fpure_all F); auto; now apply (ir_pure HF)|].
    destruct (zero_free c) eqn:Z; [apply (@fpure_all F); auto; now apply (ir_pure HF)|].
    destruct (pure m) eqn:Ep; auto. exfalso.
    assert (Hlk := @xpick_likely g phi Ht r HL (draw_of o k b) d Hd (fun v l H E => conj (Hrange v l E) (Hw' v l H E)) r (le_n r) Hv).
    fold m in Hlk. rewrite U, (ir_graph HF) in Hlk. rewrite (ir_graph HF) in Hsum.
    pose proof (@score_spur_le (lift phi B) NEG B (lift_abs phi HB0 HB) NEG_neg m Ep) as Hsp.
    pose proof (@xw_le phi (lift phi B) NEG m (lift_ge phi B)) as Hle.
    pose proof (@XZ_ge F phi B HB0 HB s0 Hs0 Ha0) as HZ.
    destruct (ir_bnd HF Z) as [Hdeg _]. apply le_INR in Hdeg.
    assert (D1 : INR (length m) * B <= INR (degree c b) * B).
    { apply Rmult_le_compat_r; auto. eapply Rle_trans; [apply (@len_le F m Hm)|exact Hdeg]. }
    assert (D2 : INR (fdeg F) * B <= INR (degree c b) * B) by (apply Rmult_le_compat_r; auto).
    pose proof (exp_pos (- (INR (fdeg F) * B))) as HE.
    assert (Hx : xpr g phi r m <= exp (score (lift phi B) NEG m) * exp (INR (fdeg F) * B)).
    { unfold xpr, Rdiv. rewrite ET. apply Rmult_le_compat; [apply xw_nonneg|apply Rlt_le, Rinv_0_lt_compat; lra|exact Hle|].
      rewrite <- (Ropp_involutive (INR (fdeg F) * B)), exp_Ropp. apply Rinv_le_contravar; [exact HE|lra]. }
    rewrite <- exp_plus in Hx.
    assert (Hy : score (lift phi B) NEG m + INR (fdeg F) * B < - (INR (choices (ft F)) * d)) by (unfold NEG in *; lra).
    apply exp_increasing in Hy. lra. }
  destruct (pure_is_structure F m Hm Hp) as (s & Hsl & HPm).
  assert (Hn : NoDup (fparts F s)).
  { eapply Permutation_NoDup; [exact HPm|]. rewrite <- names_pure by auto.
    apply (@graph_multilinear c b V Hlt Hsm). now rewrite (ir_graph HF). }
  exists s. split; [now apply (fenum F)|]. split.
  - intros e He X. apply (Permutation_in e (Permutation_sym HPm)) in He.
    assert (E : xw phi NEG m = RProd (fun e => xexp (phi e)) (leaves m)) by (unfold xw; now apply (Prod_pure R_csr)).
    rewrite E, prod_xexp in Hw. destruct (forallb _ _) eqn:Q; [|lra]. rewrite forallb_forall in Q. specialize (Q e He). rewrite X in Q. discriminate.
  - intros e He. rewrite (@sample_row c G V Hsm HG) with (b := b) by auto. fold g r m.
    rewrite zcount_names, names_pure by auto.
    rewrite (Permutation_count_occ (list_eq_dec Nat.eq_dec)) in HPm. rewrite HPm.
    unfold event_of. cbn [prt fspec]. destruct (in_dec _ e _) as [Hi|Hi].
    + now rewrite (proj1 (NoDup_count_occ' _ _) Hn e Hi).
    + now rewrite (proj1 (count_occ_not_In _ _ _) Hi).
Qed.
Print Assumptions C79_sample_is_allowed.

(** ** Chains and trees *)
Lemma live_ok c G phi n (T : nat -> term -> Prop) : records c G ->
  (forall b, (b < batch_of c)%nat -> records_values (T b) (fst (G b)) (snd (G b)) /\ forall t, T b t -> all_sums (live_sum phi NEG) t) ->
  exists D, f_sample c G phi n = Ok D.
Proof.
  intros HG HT. destruct (f_sample c G phi n) as [D|e] eqn:E; [eauto|]. exfalso.
  assert (E' : f_sample c G phi n = Err RuntimeError) by (unfold f_sample in *; destruct (existsb _ _); [reflexivity|discriminate]).
  apply (C79_raises phi n HG) in E' as (b & k & Hb & Hk & [(l & El) D]). destruct (HT b Hb) as [[_ HR] L].
  destruct (HG b Hb) as [Ht _]. destruct (HR k l Hk El) as (t & Tt & S).
  assert (U : unf (fst (G b)) k = TSum (map (unf (fst (G b))) l)) by (rewrite (unf_eq Ht); unfold unf_step; now rewrite El).
  rewrite U in S. apply (@all_sums_sub _ _ _ S (L t Tt)). rewrite <- U, <- (xv_unf phi NEG Ht). exact D.
Qed.
(** LinearChain: never raises, whatever is forbidden *)
Theorem C79_chain_never_raises batch N C ls G phi n : valid (CLin batch N C ls) -> records (CLin batch N C ls) G ->
  (forall b, (b < batch)%nat -> records_values (fun t => t = row_graph (CLin batch N C ls) b) (fst (G b)) (snd (G b))) ->
  exists D, f_sample (CLin batch N C ls) G phi n = Ok D.
Proof.
  intros V HG HR. apply (live_ok phi n (fun b t => t = row_graph (CLin batch N C ls) b) HG). intros b Hb. split; [now apply HR|].
  intros t ->. apply (@live_chain phi NEG batch N C ls b V Hb).
Qed.
Print Assumptions C79_chain_never_raises.
(** TreeCRF: one pair of positions without a label, also below the diagonal or beyond the
    length of its row, and sampling the whole batch raises *)
Theorem C79_tree_raises batch N NT ls G phi n : valid (CTree batch N NT ls) -> records (CTree batch N NT ls) G ->
  (forall b, (b < batch)%nat -> records_values (fun t => In t (tree_values NT N b)) (fst (G b)) (snd (G b))) ->
  forall b i j, (b < batch)%nat -> (i < N)%nat -> (j < N)%nat -> (forall a, (a < NT)%nat -> phi [b; i; j; a] = None) ->
    f_sample (CTree batch N NT ls) G phi n = Err RuntimeError.
Proof.
  intros V HG HR b i j Hb Hi Hj Hn. apply C79_raises; [exact HG|]. destruct (HR b Hb) as [H _]. destruct (HG b Hb) as [Ht _].
  destruct (H (ck_red tops NT TLeaf b i j)) as (k & Hk & Uk); [apply in_tree_values; left; exists i, j; auto|].
  exists b, k. split; [exact Hb|]. split; [exact Hk|].
  assert (D : leval (xlog_ops NEG) phi (ck_red tops NT TLeaf b i j) = None).
  { apply red_dead. intros e He. unfold labels in He. apply in_map_iff in He as (a' & <- & Ha'). apply in_seq in Ha'. apply Hn. lia. }
  split.
  - rewrite ck_red_leaves in Uk. rewrite (unf_eq Ht) in Uk. unfold unf_step in Uk. destruct (ndof (fst (G b)) k); try discriminate. eauto.
  - rewrite (xv_unf phi NEG Ht), Uk. exact D.
Qed.
Print Assumptions C79_tree_raises.
(** TreeCRF: every pair of positions keeps a label: exact conditional law *)
Theorem C79_tree_law batch N NT ls G phi n : valid (CTree batch N NT ls) -> records (CTree batch N NT ls) G ->
  (forall b, (b < batch)%nat -> records_values (fun t => In t (tree_values NT N b)) (fst (G b)) (snd (G b))) ->
  (forall b i j, (b < batch)%nat -> (i < N)%nat -> (j < N)%nat -> exists a, (a < NT)%nat /\ phi [b; i; j; a] <> None) ->
  exists D, f_sample (CTree batch N NT ls) G phi n = Ok D /\
  forall (l : forall b, list (st (spec_of (CTree batch N NT ls) b))) (f : nat -> nat -> (list nat -> Z) -> R),
    (forall b, (b < batch)%nat -> Enumerates (ok (spec_of (CTree batch N NT ls) b)) (l b)) ->
    (forall k b, (b < batch)%nat -> row_fun (CTree batch N NT ls) b (f k b) /\ forall u, Rabs (f k b u) <= 1) ->
    PE D (fun o => RProd (fun k => RProd (fun b => f k b (q_sample (CTree batch N NT ls) G o k)) (seq 0 batch)) (seq 0 n))
    = RProd (fun k => RProd (fun b => cond_mean (prt (spec_of (CTree batch N NT ls) b)) (l b) phi (fun s => f k b (event_of (spec_of (CTree batch N NT ls) b) s))) (seq 0 batch)) (seq 0 n).
Proof.
  intros V HG HR HL. set (c := CTree batch N NT ls) in *.
  destruct (@live_ok c G phi n (fun b t => In t (tree_values NT N b)) HG) as [D ED].
  { intros b Hb. split; [now apply HR|]. apply (@tree_live batch N NT ls phi b V Hb). intros i j. now apply HL. }
  exists D. split; [exact ED|]. intros l f Hl Hf.
  destruct (@C79_sample_law c G phi 0 V I HG (Rle_refl 0)) with (n := n) (D := D) as (law & H1 & _ & H3); auto.
  - left. reflexivity.
  - intros b Hb. split; [exact Hb|exact I].
  - intros b Hb. apply (@tree_live batch N NT ls phi b V Hb). intros i j. now apply HL.
  - change (batch_of c) with batch in *. rewrite H1 by (intros k b Hb; now apply Hf).
    apply (Prod_ext R_csr). intro k. apply (Prod_ext_in R_csr). intros b Hb. apply in_seq in Hb. assert (Hlt : (b < batch)%nat) by lia.
    specialize (H3 b (l b) (f k b) Hlt). cbv zeta in H3. specialize (H3 (Hl b Hlt) (proj1 (Hf k b Hlt)) (proj2 (Hf k b Hlt))).
    replace (leak c b 0) with 0 in H3 by reflexivity. rewrite Rmult_0_r in H3. set (d := law b (f k b) - _) in H3.
    pose proof (Rabs_pos d) as H0. apply Rminus_diag_uniq. fold d. destruct (Req_dec d 0) as [E|E]; [exact E|]. apply Rabs_pos_lt in E. lra.
Qed.
Print Assumptions C79_tree_law.

(** ** The hypotheses are met *)
(** without dead sums every draw has an outcome of positive weight *)
Theorem positive_draws_exist g phi r : topo g -> (forall k, (k <= r)%nat -> ~ dead g phi NEG k) ->
  exists o, in_range_at g o /\ forall k l, (k <= r)%nat -> ndof g k = NSum l -> 0 < to_r (softmax_at g phi k (o k)).
Proof.
  intros Ht HL. destruct (@node_choice g (fun k i => forall l, ndof g k = NSum l -> (i < length l)%nat /\
    ((k <= r)%nat -> 0 < to_r (softmax_at g phi k i)))) as [o Ho].
  - intros k l E. destruct (topo_sum Ht k E) as [Hl _]. destruct (Nat.le_gt_cases k r) as [Hk|Hk].
    2:{ exists 0%nat. intros l' E'. rewrite E in E'. injection E' as <-. split; [destruct l; [congruence|simpl; lia]|lia]. }
    assert (Hv : xv g phi NEG k <> None) by (intro X; apply (HL k Hk); split; eauto).
    rewrite (@xv_sum g phi NEG Ht k l E) in Hv.
    assert (H : exists i c, nth_error l i = Some c /\ xv g phi NEG c <> None).
    { unfold xlse in Hv. destruct (forallb is_none _) eqn:Q; [congruence|].
      assert (Q' : existsb (fun x => negb (is_none x)) (map (xv g phi NEG) l) = true).
      { clear -Q. induction (map (xv g phi NEG) l) as [|x l' IH]; [discriminate|]. cbn in *. destruct (is_none x); cbn in *; auto. }
      apply existsb_exists in Q' as (x & Hx & Q'). apply in_map_iff in Hx as (c & <- & Hc). apply In_nth_error in Hc as (i & Hi).
      exists i, c. split; [exact Hi|]. intro X. rewrite X in Q'. discriminate. }
    destruct H as (i & c & Hc & Vc). exists i. intros l' E'. rewrite E in E'. injection E' as <-. split; [apply nth_error_Some; congruence|].
    intros _. rewrite (@W_xsoft g phi r HL) by auto. unfold xsoft. rewrite E, (nth_error_nth _ _ _ (map_nth_error (xv g phi NEG) _ _ Hc)).
    apply xexp_pos in Vc. apply Rdiv_lt_0_compat; auto. apply xexp_pos. rewrite (@xv_sum g phi NEG Ht k l E). exact Hv.
  - exists o. split; [intros k l E; exact (proj1 (Ho k l E l E))|]. intros k l Hk E. exact (proj2 (Ho k l E l E) Hk).
Qed.

(** a chain and a tree whose edges and labels numbered 1 are forbidden can be sampled; a tree
    with a forbidden span below the diagonal cannot *)
Definition ex_lower (e : list nat) : ext := if (nth 1 e 0 =? 1)%nat && (nth 2 e 0 =? 0)%nat then None else Some (ex_phi e).
Example ex_C79 : exists G G', records ex_lin G /\ records ex_tree G' /\
  (forall b, (b < 2)%nat -> exists s, ok (spec_of ex_lin b) s /\ allowed (prt (spec_of ex_lin b)) ex_mask s) /\
  (forall b, (b < 2)%nat -> exists s, ok (spec_of ex_tree b) s /\ allowed (prt (spec_of ex_tree b)) ex_mask s) /\
  (forall n, exists D, f_sample ex_lin G ex_mask n = Ok D) /\
  (forall n, exists D, f_sample ex_tree G' ex_mask n = Ok D) /\
  (forall n, f_sample ex_tree G' ex_lower n = Err RuntimeError) /\
  (exists o, draws_ok ex_tree G' o /\ forall k b v l, (b < 2)%nat -> (v <= snd (G' b))%nat -> ndof (fst (G' b)) v = NSum l ->
     0 < to_r (softmax_at (fst (G' b)) ex_mask v (draw_of o k b v))).
Proof.
  destruct ex_C77 as (V1 & V2 & R). destruct (chain_graphs V1) as (G & HG & HR). destruct (tree_graphs V2) as (G' & HG' & HR').
  assert (HT : forall b, (b < 2)%nat -> forall i j, (i < 4)%nat -> (j < 4)%nat -> exists a, (a < 2)%nat /\ ex_mask [b; i; j; a] <> None).
  { intros b _ i j _ _. exists 0%nat. split; [lia|discriminate]. }
  assert (HD : forall n, exists D, f_sample ex_tree G' ex_mask n = Ok D).
  { intro n. destruct (@C79_tree_law _ _ _ _ G' ex_mask n V2 HG' HR') as (D & ED & _); [|eauto]. intros b i j Hb. now apply HT. }
  exists G, G'. split; [exact HG|]. split; [exact HG'|]. split; [|split; [|split; [|split; [exact HD|split]]]].
  - intros [|[|b]] Hb; [exists [0; 2; 2; 0]%nat|exists [0; 2]%nat|lia]; (split; [split; [reflexivity|repeat constructor]|apply allowedb; reflexivity]).
  - intros b Hb. apply (@tree_live _ _ _ _ ex_mask b V2 Hb). now apply HT.
  - intro n. apply (@C79_chain_never_raises _ _ _ _ G ex_mask n V1 HG HR).
  - intro n. apply (@C79_tree_raises _ _ _ _ G' ex_lower n V2 HG' HR' 0%nat 1%nat 0%nat); auto; lia.
  - assert (HL : forall b, (b < 2)%nat -> forall k, (k <= snd (G' b))%nat -> ~ dead (fst (G' b)) ex_mask NEG k).
    { intros b Hb k Hk Dk. destruct (HD 1%nat) as [D ED]. assert (E : f_sample ex_tree G' ex_mask 1 = Err RuntimeError) by (apply C79_raises; eauto). congruence. }
    destruct (positive_draws_exist (proj1 (HG' 0%nat ltac:(simpl; lia))) (HL 0%nat ltac:(lia))) as (o0 & A0 & B0).
    destruct (positive_draws_exist (proj1 (HG' 1%nat ltac:(simpl; lia))) (HL 1%nat ltac:(lia))) as (o1 & A1 & B1).
    exists (fun _ b v _ => if (b =? 0)%nat then o0 v else o1 v). split.
    + intros q [|[|b]] j Hb; [exact A0|exact A1|simpl in Hb; lia].
    + intros k [|[|b]] v l Hb; [apply B0|apply B1|lia].
Qed.
