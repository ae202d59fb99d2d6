(** * P_RoundLp: rounding of log_prob and of the score of an event (continues C57) *)
From Coq Require Import Reals Lra Lia List Permutation.
From Verif Require Import Base Ops Terms Semirings Batch Family Approx Grad Sample Dist Api Query P_Real Mask Round Size Machine P_Round P_Float.
Import ListNotations.
Set Implicit Arguments.
Local Open Scope R_scope.

(** ** Model *)
(** the order in which torch.sum (semirings.py:110-112, the [prod] of the log semiring) adds
    its entries: torch does not fix it (vectorised lanes start from 0, blocks are summed
    pairwise), so it is any binary tree over the entries *)
Inductive rtree := RZero | RLeaf (e : list nat) | RAdd (a b : rtree).
(** entries that the reduction of semirings.py:110-112 reads, each once *)
Fixpoint rleaves (t : rtree) : list (list nat) :=
  match t with RZero => [] | RLeaf e => [e] | RAdd a b => rleaves a ++ rleaves b end.
(** longest chain of additions of semirings.py:110-112 *)
Fixpoint rheight (t : rtree) : nat :=
  match t with RZero => 0 | RLeaf _ => 0 | RAdd a b => S (Nat.max (rheight a) (rheight b)) end.
(** the rounded sum of semirings.py:110-112 *)
Fixpoint rsum (fadd : R -> R -> R) (x : list nat -> R) (t : rtree) : R :=
  match t with RZero => 0 | RLeaf e => x e | RAdd a b => fadd (rsum fadd x a) (rsum fadd x b) end.
(** helpers.py:31-34 [score] of one event of one row: the entries of [torch.mul], then [prod] *)
Definition f_score (fadd fmul : R -> R -> R) (t : rtree) (phi value : list nat -> R) : R :=
  rsum fadd (fun e => fmul (phi e) (value e)) t.
(** distributions.py:56-75 [log_prob] of one event, row b, in rounded arithmetic: the
    difference of the rounded score and the rounded partition is rounded once more
    ([v - p] is [fadd v (- p)]: negation is exact). SentCFG raises, as in [q_log_prob]. *)
Definition f_log_prob (c : call) (fadd fmul : R -> R -> R) (flse : list R -> R) (t : rtree) (phi : list nat -> R) (b : nat) (value : list nat -> R) : res R :=
  match c with
  | CCfg _ _ _ _ _ => Err AttributeError
  | _ => res_map (fun v => fadd (f_score fadd fmul t phi value) (- nth b v 0)) (f_partition c fadd flse phi)
  end.
(** contract of [torch.mul] (helpers.py:32) on numbers of any sign *)
Definition mulr_acc (u : R) (fmul : R -> R -> R) : Prop := forall x y, Rabs (fmul x y - x * y) <= u * Rabs (x * y).

(** ** Spec *)
(** the reduction reads every entry of the event of row b once *)
Definition reads_all (c : call) (b : nat) (t : rtree) : Prop :=
  Permutation (rleaves t) (map (cons b) (indices (event_shape c))).
(** error of the score: one rounding for each product and one for each addition on the longest chain *)
Definition score_err (u B : R) (h parts : nat) : R := ((1 + u) ^ S h - 1) * (B * INR parts).

(** ** Proof *)
Lemma pow_ge1 u n : 0 <= u -> 1 <= (1 + u) ^ n.
Proof. intro H. apply pow_R1_Rle. lra. Qed.
Lemma pow_mono1 u n m : 0 <= u -> (n <= m)%nat -> (1 + u) ^ n <= (1 + u) ^ m.
Proof. intros H L. apply Rle_pow; [lra|exact L]. Qed.

Lemma rsum_err u fadd x t : 0 <= u -> add_acc u fadd ->
  Rabs (rsum fadd x t - RSum x (rleaves t)) <= ((1 + u) ^ rheight t - 1) * RSum (fun e => Rabs (x e)) (rleaves t).
Proof.
  intros Hu Ha. induction t as [|e|a IHa b IHb]; cbn [rsum rleaves rheight].
  - unfold Sum; simpl. rewrite Rminus_0_r, Rabs_R0. lra.
  - rewrite !RSum_cons. unfold Sum; simpl. replace (x e - (x e + 0)) with 0 by ring. rewrite Rabs_R0. lra.
  - rewrite !RSum_app. set (h := Nat.max (rheight a) (rheight b)).
    assert (Pa : (1 + u) ^ rheight a <= (1 + u) ^ h) by (apply pow_mono1; [auto|subst h; lia]).
    assert (Pb : (1 + u) ^ rheight b <= (1 + u) ^ h) by (apply pow_mono1; [auto|subst h; lia]).
    assert (P1 := pow_ge1 h Hu). set (A := RSum (fun e => Rabs (x e)) (rleaves a)) in *. set (B := RSum (fun e => Rabs (x e)) (rleaves b)) in *.
    assert (A0 : 0 <= A) by (apply RSum_nonneg; intros; apply Rabs_pos). assert (B0 : 0 <= B) by (apply RSum_nonneg; intros; apply Rabs_pos).
    assert (Sa : Rabs (RSum x (rleaves a)) <= A) by apply RSum_abs. assert (Sb : Rabs (RSum x (rleaves b)) <= B) by apply RSum_abs.
    assert (Ea : Rabs (rsum fadd x a - RSum x (rleaves a)) <= ((1 + u) ^ h - 1) * A).
    { eapply Rle_trans; [exact IHa|]. apply Rmult_le_compat_r; lra. }
    assert (Eb : Rabs (rsum fadd x b - RSum x (rleaves b)) <= ((1 + u) ^ h - 1) * B).
    { eapply Rle_trans; [exact IHb|]. apply Rmult_le_compat_r; lra. }
    clear IHa IHb Pa Pb. pose proof (Ha (rsum fadd x a) (rsum fadd x b)) as Hab. cbn [pow].
    set (p := rsum fadd x a) in *. set (q := rsum fadd x b) in *. set (P := RSum x (rleaves a)) in *. set (Q := RSum x (rleaves b)) in *.
    set (w := (1 + u) ^ h) in *. clearbody w p q P Q A B.
    assert (Hpq : Rabs (p + q) <= w * (A + B)).
    { replace (p + q) with ((p - P) + (q - Q) + (P + Q)) by ring. eapply Rle_trans; [apply Rabs_triang|].
      pose proof (Rabs_triang (p - P) (q - Q)). pose proof (Rabs_triang P Q). lra. }
    assert (Hu' : u * Rabs (p + q) <= u * (w * (A + B))) by (now apply Rmult_le_compat_l).
    replace (fadd p q - (P + Q)) with ((fadd p q - (p + q)) + ((p - P) + (q - Q))) by ring.
    eapply Rle_trans; [apply Rabs_triang|]. pose proof (Rabs_triang (p - P) (q - Q)). lra.
Qed.
Lemma f_score_err u fadd fmul t phi value : 0 <= u -> add_acc u fadd -> mulr_acc u fmul ->
  Rabs (f_score fadd fmul t phi value - RSum (fun e => phi e * value e) (rleaves t))
    <= ((1 + u) ^ S (rheight t) - 1) * RSum (fun e => Rabs (phi e * value e)) (rleaves t).
Proof.
  intros Hu Ha Hm. unfold f_score. pose proof (rsum_err (fun e => fmul (phi e) (value e)) t Hu Ha) as E.
  set (X := RSum (fun e => Rabs (phi e * value e)) (rleaves t)).
  assert (H1 : RSum (fun e => Rabs (fmul (phi e) (value e))) (rleaves t) <= (1 + u) * X).
  { unfold X. rewrite <- RSum_scal. apply RSum_le. intros e _. pose proof (Hm (phi e) (value e)) as H.
    replace (fmul (phi e) (value e)) with ((fmul (phi e) (value e) - phi e * value e) + phi e * value e) by ring.
    eapply Rle_trans; [apply Rabs_triang|]. lra. }
  assert (H2 : Rabs (RSum (fun e => fmul (phi e) (value e)) (rleaves t) - RSum (fun e => phi e * value e) (rleaves t)) <= u * X).
  { unfold X. clear - Hm. induction (rleaves t) as [|e l IH]; [unfold Sum; simpl; rewrite Rminus_0_r, Rabs_R0; lra|].
    rewrite !RSum_cons. pose proof (Hm (phi e) (value e)) as H. cbv beta.
    match goal with |- Rabs ?z <= _ => replace z with ((fmul (phi e) (value e) - phi e * value e) +
      (RSum (fun e => fmul (phi e) (value e)) l - RSum (fun e => phi e * value e) l)) by ring end.
    eapply Rle_trans; [apply Rabs_triang|]. lra. }
  assert (P1 := pow_ge1 (rheight t) Hu). cbn [pow]. set (w := (1 + u) ^ rheight t) in *.
  assert (H3 : (w - 1) * RSum (fun e => Rabs (fmul (phi e) (value e))) (rleaves t) <= (w - 1) * ((1 + u) * X)) by (apply Rmult_le_compat_l; lra).
  match goal with |- Rabs (?a - ?b) <= _ => replace (a - b) with ((a - RSum (fun e => fmul (phi e) (value e)) (rleaves t)) + (RSum (fun e => fmul (phi e) (value e)) (rleaves t) - b)) by ring end.
  eapply Rle_trans; [apply Rabs_triang|]. lra.
Qed.

(** ** C57 *)
(** the score of a structure, whatever the order of summation *)
Theorem C57_score c u fadd fmul phi B t b s : valid c -> (forall p q d e f, c <> CCfg p q d e f) -> 0 <= u -> add_acc u fadd -> mulr_acc u fmul ->
  (forall e, Rabs (phi e) <= B) -> row_ok c b -> reads_all c b t -> let S := spec_of c b in ok S s ->
  Rabs (f_score fadd fmul t phi (fun e => uses (prt S) e s) - sc (prt S) phi s) <= score_err u B (rheight t) (length (prt S s)).
Proof.
  intros V Hc Hu Ha Hm HB Hb Ht; cbv zeta; intro Hs. pose proof (@f_score_err u fadd fmul t phi (fun e => uses (prt (spec_of c b)) e s) Hu Ha Hm) as E.
  assert (Hev : incl (prt (spec_of c b) s) (map (cons b) (indices (event_shape c)))).
  { apply parts_in_event; auto. destruct c; auto. eapply Hc; reflexivity. }
  assert (Hnd : NoDup (map (cons b) (indices (event_shape c)))).
  { apply NoDup_map_inj; [congruence|apply indices_nodup]. }
  rewrite (Sum_perm R_csr _ Ht) in E. rewrite (Sum_perm R_csr (fun e => Rabs (phi e * uses (prt (spec_of c b)) e s)) Ht) in E.
  unfold uses in E at 2 3. rewrite (score_event phi Hnd Hev) in E.
  rewrite (Sum_ext R_csr (fun e => Rabs (phi e * INR (count_occ (list_eq_dec Nat.eq_dec) (prt (spec_of c b) s) e)))
    (fun e => Rabs (phi e) * INR (count_occ (list_eq_dec Nat.eq_dec) (prt (spec_of c b) s) e))) in E.
  2:{ intro e. rewrite Rabs_mult. now rewrite (Rabs_right (INR _)) by (apply Rle_ge, pos_INR). }
  rewrite (@score_event (fun e => Rabs (phi e)) _ _ Hnd Hev) in E. eapply Rle_trans; [exact E|]. unfold score_err.
  apply Rmult_le_compat_l; [pose proof (pow_ge1 (S (rheight t)) Hu); lra|].
  eapply Rle_trans; [apply (@RSum_le _ _ (fun _ => B)); intros; apply HB|]. rewrite RSum_const. lra.
Qed.
Print Assumptions C57_score.

Lemma log_prob_from c u fadd fmul flse phi B b l s t v e2 : valid c -> (forall p q d e f, c <> CCfg p q d e f) ->
  0 <= u -> add_acc u fadd -> mulr_acc u fmul -> (forall e, Rabs (phi e) <= B) ->
  row_ok c b -> reads_all c b t -> let S := spec_of c b in Enumerates (ok S) l -> ok S s ->
  f_partition c fadd flse phi = Ok v -> Rabs (nth b v 0 - ln (ZS (prt S) l phi)) <= e2 ->
  exists r, f_log_prob c fadd fmul flse t phi b (fun e => uses (prt S) e s) = Ok r /\
    Rabs (r - ln (prob (prt S) l phi s)) <= (1 + u) * (score_err u B (rheight t) (length (prt S s)) + e2) + u * Rabs (ln (prob (prt S) l phi s)).
Proof.
  intros V Hc Hu0 Ha Hm HB Hb Ht; cbv zeta; intros He Hs Ev Hv.
  exists (fadd (f_score fadd fmul t phi (fun e => uses (prt (spec_of c b)) e s)) (- nth b v 0)). split.
  { unfold f_log_prob. rewrite Ev. destruct c; auto. exfalso. eapply Hc; reflexivity. }
  pose proof (@C57_score c u fadd fmul phi B t b s V Hc Hu0 Ha Hm HB Hb Ht Hs) as Es. cbv zeta in Es.
  set (S := spec_of c b) in *. assert (Hne : l <> []). { intro X. subst l. now apply (proj2 (proj2 He s)) in Hs. }
  assert (El : ln (prob (prt S) l phi s) = sc (prt S) phi s - ln (ZS (prt S) l phi)).
  { unfold prob. unfold Rdiv. rewrite ln_mult; [|apply exp_pos|apply Rinv_0_lt_compat, ZS_pos; auto].
    rewrite ln_Rinv by (apply ZS_pos; auto). rewrite ln_exp. ring. }
  rewrite El. set (x := f_score fadd fmul t phi _) in *. set (p := nth b v 0) in *.
  pose proof (Ha x (- p)) as H. set (X := sc (prt S) phi s) in *. set (P := ln (ZS (prt S) l phi)) in *.
  set (e1 := score_err u B (rheight t) (length (prt S s))) in *.
  assert (D : Rabs (x + - p - (X - P)) <= e1 + e2).
  { replace (x + - p - (X - P)) with ((x - X) + - (p - P)) by ring. eapply Rle_trans; [apply Rabs_triang|]. rewrite Rabs_Ropp. lra. }
  assert (G : Rabs (x + - p) <= e1 + e2 + Rabs (X - P)).
  { replace (x + - p) with ((x + - p - (X - P)) + (X - P)) by ring. eapply Rle_trans; [apply Rabs_triang|]. lra. }
  assert (K : u * Rabs (x + - p) <= u * (e1 + e2 + Rabs (X - P))) by (apply Rmult_le_compat_l; auto).
  replace (fadd x (- p) - (X - P)) with ((fadd x (- p) - (x + - p)) + (x + - p - (X - P))) by ring.
  eapply Rle_trans; [apply Rabs_triang|]. lra.
Qed.
(** log_prob of a structure: the error of the score, of the partition function, and of the
    last subtraction *)
Theorem C57_log_prob c u fadd fmul flse phi B : valid c -> (forall p q d e f, c <> CCfg p q d e f) ->
  0 <= u <= 1 -> add_acc u fadd -> mulr_acc u fmul -> lse_acc (c_wide c) u flse -> 0 <= B -> (forall e, Rabs (phi e) <= B) ->
  forall b l s t, row_ok c b -> fits_in c b u B -> reads_all c b t -> let S := spec_of c b in Enumerates (ok S) l -> ok S s ->
  exists r, f_log_prob c fadd fmul flse t phi b (fun e => uses (prt S) e s) = Ok r /\
    Rabs (r - ln (prob (prt S) l phi s))
      <= (1 + u) * (score_err u B (rheight t) (length (prt S s)) + INR (c_ops c b) * op_err c b u B) + u * Rabs (ln (prob (prt S) l phi s)).
Proof.
  intros V Hc Hu Ha Hm Hl HB0 HB b l s t Hb Hf Ht; cbv zeta; intros He Hs.
  destruct (@C57_partition c u fadd flse phi B V Hu Ha Hl HB0 HB) as (v & Ev & _ & Hv). specialize (Hv b l Hb Hf He). cbv zeta in Hv.
  eapply log_prob_from; eauto; lra.
Qed.
Print Assumptions C57_log_prob.

(** by torch's formulas on any arithmetic with relative error u *)
Theorem C57_torch_log_prob c u s0 B rnd fexp fln phi : valid c -> (forall p q d e f, c <> CCfg p q d e f) ->
  0 <= u -> 0 <= s0 <= u -> rnd_acc u rnd -> exp_acc u s0 fexp -> ln_acc u fln -> INR (c_wide c) * u <= / 24 -> 0 <= B <= 100000 -> (forall e, Rabs (phi e) <= B) ->
  let U := lse_err c u in
  forall b l s t, row_ok c b -> fits_in c b U B -> reads_all c b t -> let S := spec_of c b in Enumerates (ok S) l -> ok S s ->
  exists r, f_log_prob c (m_add rnd) (m_mul rnd) (m_lse rnd fexp fln) t phi b (fun e => uses (prt S) e s) = Ok r /\
    Rabs (r - ln (prob (prt S) l phi s))
      <= (1 + u) * (score_err u B (rheight t) (length (prt S s)) + INR (c_ops c b) * op_err c b U B) + u * Rabs (ln (prob (prt S) l phi s)).
Proof.
  intros V Hc Hu Hs0 Hr Hexp Hln HA HB Hphi. cbv zeta. intros b l s t Hb Hf Ht He Hs.
  destruct (@C57_torch_partition c u s0 B rnd fexp fln phi V Hu Hs0 Hr Hexp Hln HA HB Hphi) as (v & Ev & _ & Hv). specialize (Hv b l Hb Hf He). cbv zeta in Hv.
  eapply log_prob_from; eauto.
  - now apply m_add_acc.
  - intros x y. apply Hr.
Qed.
Print Assumptions C57_torch_log_prob.

(** ** A case that meets the hypotheses: binary32, one addition after the other *)
Definition chain (l : list (list nat)) : rtree := fold_left (fun t e => RAdd t (RLeaf e)) l RZero.
Lemma chain_leaves l : rleaves (chain l) = l.
Proof.
  unfold chain. assert (H : forall t, rleaves (fold_left (fun t e => RAdd t (RLeaf e)) l t) = rleaves t ++ l); [|apply H].
  induction l as [|e l IH]; intro t; cbn [fold_left]; [now rewrite app_nil_r|]. rewrite IH. cbn [rleaves]. now rewrite <- app_assoc.
Qed.
Lemma chain_height l : rheight (chain l) = length l.
Proof.
  unfold chain. assert (H : forall t, rheight (fold_left (fun t e => RAdd t (RLeaf e)) l t) = (rheight t + length l)%nat); [|apply H].
  induction l as [|e l IH]; intro t; cbn [fold_left length]; [lia|]. rewrite IH. cbn [rheight]. lia.
Qed.
Lemma parts_deg c b s : valid c -> row_ok c b -> ok (spec_of c b) s -> (length (prt (spec_of c b) s) <= c_deg c b)%nat.
Proof.
  intros V Hb. destruct (row_family V Hb) as (F & HF). revert s. rewrite <- (ir_spec HF). cbn [ok prt fspec st]. intros s Hs.
  destruct (structure_is_pure F s) as (m & Hm & Hp & HP); [now apply (fenum F)|]. rewrite <- (Permutation_length HP).
  assert (L : (length (leaves m) <= length m)%nat).
  { clear. induction m as [|[] m IH]; cbn [leaves flat_map length app] in *; unfold leaves in *; lia. }
  pose proof (tdeg_ok _ _ Hm). assert (tdeg (ft F) <= c_deg c b)%nat by (rewrite <- (ir_graph HF); apply (@row_size c b V Hb)). lia.
Qed.
Example C57_ex_log_prob c : In c [ex_lin; ex_semi; ex_tree; ex_dep] -> forall b, (b < 2)%nat ->
  exists t, reads_all c b t /\ forall l s, Enumerates (ok (spec_of c b)) l -> ok (spec_of c b) s ->
  exists r, f_log_prob c (m_add rnd32) (m_mul rnd32) (m_lse rnd32 exp32 ln32) t ex_phi b (fun e => uses (prt (spec_of c b)) e s) = Ok r /\
    Rabs (r - ln (prob (prt (spec_of c b)) l ex_phi s)) <= / 5 + u32 * Rabs (ln (prob (prt (spec_of c b)) l ex_phi s)).
Proof.
  intros Hc b Hlt. assert (Hin : In c ex_calls) by (unfold ex_calls; cbn [In] in *; tauto).
  destruct (C57_ex Hin) as (V & HA & Hb). destruct (Hb b Hlt) as (R1 & R2 & _ & R4).
  set (ids := map (cons b) (indices (event_shape c))). exists (chain ids).
  assert (Ht : reads_all c b (chain ids)) by (unfold reads_all; rewrite chain_leaves; apply Permutation_refl). split; [exact Ht|].
  intros l s He Hs. pose proof s32_range as Hs32. assert (Hu : 0 <= u32) by lra. assert (HB : 0 <= 3 <= 100000) by lra.
  assert (Hcc : forall p q d e f, c <> CCfg p q d e f) by (intros; cbn [In] in Hc; repeat destruct Hc as [<-|Hc]; try contradiction; discriminate).
  destruct (@C57_torch_log_prob c u32 s32 3 rnd32 exp32 ln32 ex_phi V Hcc Hu Hs32 rnd32_acc exp32_acc ln32_acc HA HB ex_phi_abs b l s _ R1 R2 Ht He Hs) as (r & Er & Hr).
  exists r. split; [exact Er|]. eapply Rle_trans; [exact Hr|]. apply Rplus_le_compat_r.
  assert (Hlen : (rheight (chain ids) <= 48)%nat).
  { rewrite chain_height. unfold ids. rewrite map_length. clear - Hc. cbn [In] in Hc. repeat destruct Hc as [<-|Hc]; try contradiction; vm_compute; lia. }
  assert (Hdeg : (length (prt (spec_of c b) s) <= 8)%nat).
  { eapply Nat.le_trans; [apply parts_deg; auto|]. clear - Hc Hlt. revert b Hlt. cbn [In] in Hc. repeat destruct Hc as [<-|Hc]; try contradiction; apply ex_row; vm_compute; lia. }
  assert (E1 : score_err u32 3 (rheight (chain ids)) (length (prt (spec_of c b) s)) <= / 100).
  { unfold score_err. apply le_INR in Hdeg. rewrite (INR_IZR_INZ 8) in Hdeg. cbn [Z.of_nat Pos.of_succ_nat Pos.succ] in Hdeg.
    assert (P : (1 + u32) ^ S (rheight (chain ids)) <= 1 + / 10000).
    { eapply Rle_trans; [apply (@pow_mono1 u32 _ 49); [auto|lia]|]. rewrite u32_value. simpl. lra. }
    pose proof (pow_ge1 (S (rheight (chain ids))) Hu). pose proof (pos_INR (length (prt (spec_of c b) s))).
    apply Rle_trans with (/ 10000 * (3 * 8)); [apply Rmult_le_compat; lra|lra]. }
  assert (u32 <= / 100) by (rewrite u32_value; lra).
  set (a := score_err u32 3 _ _) in *. set (d := INR (c_ops c b) * op_err c b (lse_err c u32) 3) in *.
  assert (0 <= a). { unfold a, score_err. apply Rmult_le_pos; [pose proof (pow_ge1 (S (rheight (chain ids))) Hu); lra|]. apply Rmult_le_pos; [lra|apply pos_INR]. }
  assert (u32 * (a + d) <= / 100 * (/ 100 + / 10)); [|lra].
  destruct (Rle_or_lt 0 (a + d)); [apply Rmult_le_compat; lra|]. assert (u32 * (a + d) <= u32 * 0) by (apply Rmult_le_compat_l; lra). lra.
Qed.
Print Assumptions C57_ex_log_prob.
