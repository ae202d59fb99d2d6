(** * P_Partial: masks and marginals agree (C90)

    A partly annotated sentence is trained with the log-partition of the masked
    potentials minus the log-partition of all: minus infinity on the parts that
    contradict the annotation.  That difference is the log-probability of the
    annotation; here it is compared with what [marginals] says about the same
    event, for all calls, potentials and rows that have a structure. *)
From Coq Require Import Lra.
From Verif Require Import Base Ops Terms Semirings Poly Chain LinearChain SemiMarkov CkyCrf Cky DepSpec DepTree
  Batch Family Approx Grad Sample Dist Purity Degree Shape Api Query Dag P_Real P_Sample P_Cross Mask P_Mask MaskGrad P_MaskGrad P_Local P_Temp.
Set Implicit Arguments.
Local Open Scope R_scope.

(** ** Specification *)
(** spec: the potentials a user passes (distributions.py:40-52) to exclude the parts [bad] *)
Definition without (bad : list nat -> bool) (phi : list nat -> R) : list nat -> ext := fun e => if bad e then None else Some (phi e).
(** spec: exp(partition of the masked potentials - partition) of row b, what the
    objective on partial annotations exponentiates *)
Definition share (c : call) (phi : list nat -> R) (b : nat) (bad : list nat -> bool) : R :=
  xexp (at_row None (x_partition c (without bad phi)) b) * exp (- at_row 0 (q_partition c phi) b).
(** spec: what the finite zero can add to [share]; 0 for TreeCRF and DependencyCRF *)
Definition slack (c : call) (b : nat) (B : R) : R := exp (leak c b B) - 1.
(** spec: some structure uses none of the excluded parts (not needed for TreeCRF and DependencyCRF) *)
Definition possible (c : call) (b : nat) (bad : list nat -> bool) : Prop :=
  zero_free c = true \/ exists s, ok (spec_of c b) s /\ forall e, In e (prt (spec_of c b) s) -> bad e = false.

(** ** Generic part *)
Lemma avoids_hits c b phi bad l :
  avoids (prt (spec_of c b)) l phi bad = RSum (fun s => prob (prt (spec_of c b)) l phi s * ind (length (filter bad (prt (spec_of c b) s)) =? 0)%nat) l.
Proof.
  unfold avoids. apply (Sum_ext R_csr). intro s.
  assert (E : forallb (fun e => negb (bad e)) (prt (spec_of c b) s) = (length (filter bad (prt (spec_of c b) s)) =? 0)%nat).
  { induction (prt (spec_of c b) s) as [|e p IH]; [reflexivity|]. cbn [forallb filter]. rewrite IH. destruct (bad e); reflexivity. }
  rewrite E. unfold ind. destruct (_ =? 0)%nat; simpl; ring.
Qed.
Lemma slack_exact c b B : zero_free c = true -> slack c b B = 0.
Proof. intro Z. unfold slack, leak. rewrite Z, exp_0. ring. Qed.
Lemma slack_nonneg c b B : 0 <= slack c b B.
Proof. unfold slack. pose proof (exp_ineq1_le (leak c b B)). pose proof (leak_pos c b B). lra. Qed.
Lemma mass_mean c phi B b l sel : valid c -> 0 <= B -> bounded c B phi -> row_ok c b -> Enumerates (ok (spec_of c b)) l ->
  Rabs (mass c phi b sel - RSum (fun s => prob (prt (spec_of c b)) l phi s * @hits c b sel s) l) <= tol c b B sel.
Proof.
  intros V HB0 HB Hb Hl. set (S := spec_of c b) in *.
  assert (E : RSum (fun s => prob (prt S) l phi s * @hits c b sel s) l = RSum (fun e => marg_spec (prt S) l phi e) (filter sel (entries c b))).
  { rewrite RSum_filter_ind. unfold marg_spec.
    transitivity (RSum (fun s => RSum (fun e => prob (prt S) l phi s * (ind (sel e) * uses (prt S) e s)) (entries c b)) l).
    - apply (Sum_ext_in R_csr). intros s Hs. rewrite RSum_scal. f_equal. rewrite hits_sc. symmetry. unfold uses, sc.
      apply score_event; [apply entries_nodup|]. apply parts_entries; auto. now apply Hl.
    - rewrite (Sum_comm R_csr). apply (Sum_ext R_csr). intro e. rewrite <- RSum_scal. apply (Sum_ext R_csr). intro s. simpl. ring. }
  rewrite E. unfold mass, tol. rewrite <- RSum_sub, <- RSum_const. eapply Rle_trans; [apply RSum_abs|].
  apply RSum_le. intros e He. apply filter_In in He as [He _].
  apply (@C20_marginals_value c phi B V HB0 HB b l e Hb (entries_row _ _ _ He) Hl).
Qed.
Lemma mean_le A (p f g : A -> R) l : (forall s, In s l -> 0 <= p s) -> (forall s, In s l -> f s <= g s) ->
  RSum (fun s => p s * f s) l <= RSum (fun s => p s * g s) l.
Proof. intros H1 H2. apply RSum_le. intros s Hs. apply Rmult_le_compat_l; auto. Qed.

(** ** C90 *)
(** [share] is the probability that no excluded part is used *)
Theorem C90_event c phi B : valid c -> 0 <= B -> bounded c B phi ->
  forall b l bad, row_ok c b -> let S := spec_of c b in Enumerates (ok S) l -> possible c b bad ->
    Rabs (share c phi b bad - RSum (prob (prt S) l phi) (filter (fun s => forallb (fun e => negb (bad e)) (prt S s)) l)) <= slack c b B.
Proof.
  intros V HB0 HB b l bad Hb S Hl Hp.
  replace (RSum (prob (prt S) l phi) (filter (fun s => forallb (fun e => negb (bad e)) (prt S s)) l)) with (avoids (prt S) l phi bad).
  2:{ rewrite RSum_filter_ind. unfold avoids. apply (Sum_ext R_csr). intro s. unfold ind. destruct (forallb _ _); simpl; ring. }
  assert (Hne : l <> []) by (eapply list_nonempty; eauto).
  assert (A1 : avoids (prt S) l phi bad <= 1).
  { rewrite <- (prob_sum (prt S) phi Hne). unfold avoids. apply RSum_le. intros s Hs. destruct (forallb _ _); [lra|left; now apply prob_pos]. }
  destruct (@C78_probability_of_avoiding c phi bad B V HB0 HB) as (v & w & Ev & Ew & H).
  unfold share, without. rewrite Ev, Ew. cbn [at_row].
  assert (D : (exists s, ok S s /\ forall e, In e (prt S s) -> bad e = false) \/ (zero_free c = true /\ forall s, In s l -> forallb (fun e => negb (bad e)) (prt S s) = false)).
  { destruct (existsb (fun s => forallb (fun e => negb (bad e)) (prt S s)) l) eqn:X.
    - left. apply existsb_exists in X as (s & Hs & Hx). exists s. split; [now apply Hl|]. rewrite forallb_forall in Hx. intros e He. specialize (Hx e He). now destruct (bad e).
    - destruct Hp as [Z|Hp]; [|left; exact Hp]. right. split; [exact Z|]. intros s Hs. destruct (forallb _ (prt S s)) eqn:Y; auto.
      assert (existsb (fun s => forallb (fun e => negb (bad e)) (prt S s)) l = true) by (apply existsb_exists; eauto). congruence. }
  destruct D as [D|[Z D]].
  - destruct (H b l Hb Hl D) as (x & Ex & Hx). fold S in Hx. assert (Ex' : xexp (nth b w None) = exp x) by (now rewrite Ex).
    change (Rabs (xexp (nth b w None) * exp (- nth b v 0) - avoids (prt S) l phi bad) <= slack c b B). rewrite Ex', <- exp_plus.
    assert (HA : 0 < avoids (prt S) l phi bad).
    { destruct D as (s & Hs & Hx'). unfold avoids. apply Hl in Hs.
      eapply Rlt_le_trans; [|apply (@RSum_single _ (fun s => if forallb (fun e => negb (bad e)) (prt S s) then prob (prt S) l phi s else 0) s l Hs)].
      - replace (forallb (fun e => negb (bad e)) (prt S s)) with true; [now apply prob_pos|]. symmetry. apply forallb_forall. intros e He. now rewrite Hx'.
      - intros y _. destruct (forallb _ _); [left; now apply prob_pos|lra]. }
    set (a := avoids (prt S) l phi bad) in *. set (u := x + - nth b v 0). apply Rabs_le_inv in Hx. set (k := leak c b B) in *. unfold slack. fold k.
    assert (Hu : - k <= u - ln a <= k) by (unfold u; lra).
    replace (exp u) with (a * exp (u - ln a)) by (rewrite <- (exp_ln a HA) at 1; rewrite <- exp_plus; f_equal; ring).
    assert (E1 : exp (u - ln a) <= exp k) by (destruct (proj2 Hu) as [Q| ->]; [left; now apply exp_increasing|lra]).
    assert (E2 : exp (- k) <= exp (u - ln a)) by (destruct (proj1 Hu) as [Q|Q]; [left; now apply exp_increasing|rewrite Q; lra]).
    assert (E3 : 1 - exp (- k) <= exp k - 1).
    { rewrite exp_Ropp. pose proof (exp_pos k) as P. pose proof (Rle_0_sqr (exp k - 1)) as Q. unfold Rsqr in Q.
      apply Rmult_le_reg_r with (exp k); [exact P|]. replace ((1 - / exp k) * exp k) with (exp k - 1) by (field; lra). lra. }
    replace (a * exp (u - ln a) - a) with (a * (exp (u - ln a) - 1)) by ring. rewrite Rabs_mult, (Rabs_right a) by lra.
    assert (E4 : Rabs (exp (u - ln a) - 1) <= exp k - 1) by (apply Rabs_le; lra).
    pose proof (Rabs_pos (exp (u - ln a) - 1)). nra.
  - rewrite (slack_exact _ _ _ Z).
    assert (A0 : avoids (prt S) l phi bad = 0).
    { unfold avoids. rewrite (Sum_ext_in R_csr _ (fun _ => 0)); [rewrite RSum_const; ring|]. intros s Hs. now rewrite D. }
    destruct (@C51_masked_partition c (without bad phi) B V HB0 (or_introl Z)) as (w' & Ew' & _ & Hw).
    assert (w' = w) as -> by (unfold without in Ew'; congruence).
    destruct (Hw b l Hb Hl) as [Hz _]. destruct (Hz Z) as [_ Hn]. destruct Hn as [_ Hn].
    assert (W : nth b w None = None).
    { apply Hn. intros s Hs Ha. apply Hl in Hs. specialize (D s Hs). assert (Hall : forallb (fun e => negb (bad e)) (prt S s) = true); [|congruence].
      apply forallb_forall. intros e He. specialize (Ha e He). unfold without in Ha. destruct (bad e); [congruence|reflexivity]. }
    change (Rabs (xexp (nth b w None) * exp (- nth b v 0) - avoids (prt S) l phi bad) <= 0).
    rewrite W, A0. cbn [xexp]. rewrite Rmult_0_l, Rminus_0_r, Rabs_R0. lra.
Qed.
Print Assumptions C90_event.

(** a bound for every set of parts, and equality when structures use at most one of them *)
Theorem C90_forbid c phi B : valid c -> 0 <= B -> bounded c B phi ->
  forall b bad, row_ok c b -> possible c b bad ->
    1 - mass c phi b bad - (slack c b B + tol c b B bad) <= share c phi b bad /\
    ((forall s, ok (spec_of c b) s -> @hits c b bad s <= 1) ->
      Rabs (share c phi b bad - (1 - mass c phi b bad)) <= slack c b B + tol c b B bad).
Proof.
  intros V HB0 HB b bad Hb Hp. destruct (row_list V Hb) as (l & Hl & Hne). set (S := spec_of c b) in *.
  pose proof (@C90_event c phi B V HB0 HB b l bad Hb Hl Hp) as E. cbv zeta in E. fold S in E.
  replace (RSum (prob (prt S) l phi) (filter (fun s => forallb (fun e => negb (bad e)) (prt S s)) l)) with (avoids (prt S) l phi bad) in E.
  2:{ rewrite RSum_filter_ind. unfold avoids. apply (Sum_ext R_csr). intro s. unfold ind. destruct (forallb _ _); simpl; ring. }
  pose proof (@mass_mean c phi B b l bad V HB0 HB Hb Hl) as M. fold S in M. unfold S in E at 1. rewrite avoids_hits in E. fold S in E.
  assert (Q : 1 - RSum (fun s => prob (prt S) l phi s * @hits c b bad s) l = RSum (fun s => prob (prt S) l phi s * (1 - @hits c b bad s)) l).
  { rewrite (Sum_ext R_csr (fun s => prob (prt S) l phi s * (1 - @hits c b bad s)) (fun s => prob (prt S) l phi s - prob (prt S) l phi s * @hits c b bad s))
      by (intro s; rewrite Rmult_minus_distr_l, Rmult_1_r; reflexivity). rewrite RSum_sub, (prob_sum (prt S) phi Hne). reflexivity. }
  assert (L : RSum (fun s => prob (prt S) l phi s * (1 - @hits c b bad s)) l <= RSum (fun s => prob (prt S) l phi s * ind (length (filter bad (prt S s)) =? 0)%nat) l).
  { apply mean_le; [intros; left; now apply prob_pos|]. intros s _. unfold hits, ind. fold S. destruct (length (filter bad (prt S s))) as [|k]; [simpl; lra|].
    cbn [Nat.eqb]. rewrite S_INR. pose proof (pos_INR k). lra. }
  apply Rabs_le_inv in E, M. split; [lra|]. intro H1.
  assert (U : RSum (fun s => prob (prt S) l phi s * ind (length (filter bad (prt S s)) =? 0)%nat) l <= RSum (fun s => prob (prt S) l phi s * (1 - @hits c b bad s)) l).
  { apply mean_le; [intros; left; now apply prob_pos|]. intros s Hs. apply Hl in Hs. specialize (H1 s Hs). unfold hits, ind in *. fold S in H1 |- *.
    destruct (length (filter bad (prt S s))) as [|k]; cbn [Nat.eqb]; [simpl; lra|lra]. }
  apply Rabs_le. lra.
Qed.
Print Assumptions C90_forbid.

(** excluding one part takes away its marginal (every class but SentCFG, where a
    rule may be used several times) *)
Theorem C90_part c phi B : valid c -> 0 <= B -> bounded c B phi -> samples c ->
  forall b e, row_ok c b -> In e (entries c b) -> let bad x := if list_eq_dec Nat.eq_dec x e then true else false in possible c b bad ->
    Rabs (share c phi b bad - (1 - q_marginals c phi e)) <= slack c b B + 2 * INR (degree c b) * leak c b B.
Proof.
  intros V HB0 HB Hs b e Hb He bad Hp. destruct (@C90_forbid c phi B V HB0 HB b bad Hb Hp) as [_ H].
  assert (F : filter bad (entries c b) = [e]).
  { pose proof (entries_nodup c b) as N. revert He N. clear. induction (entries c b) as [|x l IH]; [intros []|]. intros He N. inversion N as [|y l' Hx N']; subst.
    cbn [filter]. unfold bad at 1. destruct (list_eq_dec Nat.eq_dec x e) as [->|Hne].
    - f_equal. clear IH He N. induction l as [|y l IH]; [reflexivity|]. cbn [filter]. unfold bad at 1. destruct (list_eq_dec Nat.eq_dec y e) as [->|_]; [exfalso; apply Hx; now left|].
      apply IH; [intro; apply Hx; now right|]. now inversion N'.
    - apply IH; auto. destruct He as [->|He]; [congruence|exact He]. }
  assert (M : mass c phi b bad = q_marginals c phi e) by (unfold mass; rewrite F; apply RSum_one).
  assert (T : tol c b B bad = 2 * INR (degree c b) * leak c b B) by (unfold tol; rewrite F; simpl; ring).
  rewrite M, T in H. apply H. intros s Hok. unfold hits.
  pose proof (@prt_nodup c b s V Hs Hb Hok) as N. replace 1 with (INR 1) by reflexivity. apply le_INR.
  revert N. generalize (prt (spec_of c b) s). intros l N. replace (length (filter bad l)) with (count_occ (list_eq_dec Nat.eq_dec) l e).
  - apply NoDup_count_occ. exact N.
  - clear. induction l as [|x l IH]; [reflexivity|]. cbn [filter count_occ]. unfold bad at 1. destruct (list_eq_dec Nat.eq_dec x e); cbn [length]; now rewrite IH.
Qed.
Print Assumptions C90_part.

(** if every structure uses exactly one part of [sel], excluding those that contradict [p]
    leaves the marginals of those that satisfy it *)
Theorem C90_pin c phi B : valid c -> 0 <= B -> bounded c B phi ->
  forall b sel p, row_ok c b -> (forall s, ok (spec_of c b) s -> @hits c b sel s = 1) ->
    let bad e := (sel e && negb (p e))%bool in let keep e := (sel e && p e)%bool in possible c b bad ->
    Rabs (share c phi b bad - mass c phi b keep) <= slack c b B + tol c b B keep.
Proof.
  intros V HB0 HB b sel p Hb H1 bad keep Hp. destruct (row_list V Hb) as (l & Hl & Hne). set (S := spec_of c b) in *.
  pose proof (@C90_event c phi B V HB0 HB b l bad Hb Hl Hp) as E. cbv zeta in E. fold S in E.
  replace (RSum (prob (prt S) l phi) (filter (fun s => forallb (fun e => negb (bad e)) (prt S s)) l)) with (avoids (prt S) l phi bad) in E.
  2:{ rewrite RSum_filter_ind. unfold avoids. apply (Sum_ext R_csr). intro s. unfold ind. destruct (forallb _ _); simpl; ring. }
  pose proof (@mass_mean c phi B b l keep V HB0 HB Hb Hl) as M. fold S in M. unfold S in E at 1. rewrite avoids_hits in E. fold S in E.
  assert (Q : RSum (fun s => prob (prt S) l phi s * ind (length (filter bad (prt S s)) =? 0)%nat) l = RSum (fun s => prob (prt S) l phi s * @hits c b keep s) l).
  { apply (Sum_ext_in R_csr). intros s Hs. apply Hl in Hs. specialize (H1 s Hs). f_equal. unfold hits in *. fold S in H1 |- *.
    assert (K : (length (filter sel (prt S s)) = length (filter bad (prt S s)) + length (filter keep (prt S s)))%nat).
    { clear. induction (prt S s) as [|e q IH]; [reflexivity|]. cbn [filter]. unfold bad at 1, keep at 1. destruct (sel e), (p e); cbn [andb negb length]; lia. }
    assert (K1 : length (filter sel (prt S s)) = 1%nat) by (apply INR_eq; simpl; lra).
    rewrite K1 in K. unfold ind. destruct (length (filter bad (prt S s))) as [|k]; cbn [Nat.eqb].
    - replace (length (filter keep (prt S s))) with 1%nat by lia. reflexivity.
    - replace (length (filter keep (prt S s))) with 0%nat by lia. reflexivity. }
  rewrite Q in E. apply Rabs_le_inv in E, M. apply Rabs_le. lra.
Qed.
Print Assumptions C90_pin.

(** what that says for each class: [p] is what is known of the transition at a step, the
    segment over a position, the label of a word or of the sentence, the head of a word,
    the class of a word *)
Theorem C90_chain batch N C ls phi B : let c := CLin batch N C ls in valid c -> 0 <= B -> bounded c B phi ->
  forall b n p, row_ok c b -> (n + 1 < lc_len N ls b)%nat ->
    let bad e := ((nth 1 e 0 =? n)%nat && negb (p e))%bool in let keep e := ((nth 1 e 0 =? n)%nat && p e)%bool in possible c b bad ->
    Rabs (share c phi b bad - mass c phi b keep) <= slack c b B + tol c b B keep.
Proof.
  intros c V HB0 HB b n p Hb Hn. apply (@C90_pin c phi B V HB0 HB b (fun e => nth 1 e 0 =? n)%nat p Hb).
  intros s Hs. now apply hits_chain_step.
Qed.
Print Assumptions C90_chain.
Theorem C90_semi batch N K C ls phi B : let c := CSemi batch N K C ls in valid c -> 0 <= B -> bounded c B phi ->
  forall b t p, row_ok c b -> (t + 1 < lc_len N ls b)%nat -> let over e := ((nth 1 e 0 <=? t) && (t <? nth 1 e 0 + nth 2 e 0))%nat%bool in
    let bad e := (over e && negb (p e))%bool in let keep e := (over e && p e)%bool in possible c b bad ->
    Rabs (share c phi b bad - mass c phi b keep) <= slack c b B + tol c b B keep.
Proof.
  intros c V HB0 HB b t p Hb Ht over. apply (@C90_pin c phi B V HB0 HB b over p Hb).
  intros s Hs. now apply hits_semi_cover.
Qed.
Print Assumptions C90_semi.
(** exact *)
Lemma pin_exact c phi b sel p : valid c -> zero_free c = true -> row_ok c b -> (forall s, ok (spec_of c b) s -> @hits c b sel s = 1) ->
  share c phi b (fun e => sel e && negb (p e))%bool = mass c phi b (fun e => sel e && p e)%bool.
Proof.
  intros V Z Hb H. pose proof (@C90_pin c phi 0 V ltac:(lra) (or_introl Z) b sel p Hb H (or_introl Z)) as E. cbv zeta in E.
  rewrite slack_exact, C87_exact, Rplus_0_r in E by auto. apply Rminus_diag_uniq. apply Rabs_le_inv in E. lra.
Qed.
Theorem C90_tree batch N NT ls phi : let c := CTree batch N NT ls in valid c ->
  forall b p, row_ok c b -> let n := eff_len N (lc_len N ls b) in
    (forall i, (i < n)%nat -> let word e := ((nth 1 e 0 =? i) && (nth 2 e 0 =? i))%nat%bool in
      share c phi b (fun e => word e && negb (p e))%bool = mass c phi b (fun e => word e && p e)%bool) /\
    (let all e := ((nth 1 e 0 =? 0) && (nth 2 e 0 =? n - 1))%nat%bool in
      share c phi b (fun e => all e && negb (p e))%bool = mass c phi b (fun e => all e && p e)%bool).
Proof.
  intros c V b p Hb n. split.
  - intros i Hi word. apply pin_exact; auto. intros s Hs. now apply hits_tree_word.
  - intro all. apply pin_exact; auto. intros s Hs. now apply hits_tree_root.
Qed.
Print Assumptions C90_tree.
Theorem C90_dep mr batch n lab ls phi : let c := CDep mr batch n lab ls in valid c ->
  forall b p, row_ok c b ->
    (forall m, (m < lc_len n ls b)%nat ->
      share c phi b (fun e => (nth 2 e 0 =? m)%nat && negb (p e))%bool = mass c phi b (fun e => (nth 2 e 0 =? m)%nat && p e)%bool) /\
    (mr = false -> share c phi b (fun e => (nth 1 e 0 =? nth 2 e 0)%nat && negb (p e))%bool = mass c phi b (fun e => (nth 1 e 0 =? nth 2 e 0)%nat && p e)%bool).
Proof.
  intros c V b p Hb. split.
  - intros m Hm. apply (@pin_exact c phi b (fun e => nth 2 e 0 =? m)%nat p); auto. intros s Hs. now apply hits_dep_word.
  - intros ->. apply (@pin_exact c phi b (fun e => nth 1 e 0 =? nth 2 e 0)%nat p); auto. intros s Hs. now apply hits_dep_root.
Qed.
Print Assumptions C90_dep.
Theorem C90_cfg batch N NT T ls phi B : let c := CCfg batch N NT T ls in valid c -> 0 <= B -> bounded c B phi ->
  forall b p, row_ok c b -> let n := eff_len N (lc_len N ls b) in
    (forall i, (i < n)%nat -> let word e := ((nth 0 e 0 =? 0) && (nth 2 e 0 =? i))%nat%bool in
      let bad e := (word e && negb (p e))%bool in let keep e := (word e && p e)%bool in possible c b bad ->
      Rabs (share c phi b bad - mass c phi b keep) <= slack c b B + tol c b B keep) /\
    (let root e := (nth 0 e 0 =? 2)%nat in
      let bad e := (root e && negb (p e))%bool in let keep e := (root e && p e)%bool in possible c b bad ->
      Rabs (share c phi b bad - mass c phi b keep) <= slack c b B + tol c b B keep).
Proof.
  intros c V HB0 HB b p Hb n. split.
  - intros i Hi word. apply (@C90_pin c phi B V HB0 HB b word p Hb). intros s Hs. now apply hits_cfg_word.
  - intro root. apply (@C90_pin c phi B V HB0 HB b root p Hb). intros s Hs. apply hits_cfg_root.
Qed.
Print Assumptions C90_cfg.

(** ** Concrete cases *)
(** dependency trees: knowing that word 1 is the head of word 3 has the probability of that
    arc, over both labels; binary trees: excluding a labelled span takes away its marginal *)
Example ex_C90_exact :
  share ex_dep ex_phi 0 (fun e => (nth 2 e 0 =? 3) && negb (nth 1 e 0 =? 1))%nat%bool
    = mass ex_dep ex_phi 0 (fun e => (nth 2 e 0 =? 3) && (nth 1 e 0 =? 1))%nat%bool /\
  filter (fun e => (nth 2 e 0 =? 3) && (nth 1 e 0 =? 1))%nat%bool (entries ex_dep 0) = [[0; 1; 3; 0]; [0; 1; 3; 1]]%nat /\
  share ex_tree ex_phi 1 (fun x => if list_eq_dec Nat.eq_dec x [1; 0; 2; 1]%nat then true else false) = 1 - q_marginals ex_tree ex_phi [1; 0; 2; 1]%nat.
Proof.
  destruct (@ex_all ex_dep ltac:(simpl; auto 6)) as (V & _ & R). destruct (@ex_all ex_tree ltac:(simpl; auto)) as (V' & HB' & R').
  split; [|split; [reflexivity|]].
  - apply (@C90_dep false 2 4 (Some 2%nat) (Some [4; 2]%nat) ex_phi V 0%nat (fun e => nth 1 e 0 =? 1)%nat (R 0%nat ltac:(lia))). vm_compute. lia.
  - pose proof (@C90_part ex_tree ex_phi 3 V' ltac:(lra) HB' I 1%nat [1; 0; 2; 1]%nat (R' 1%nat ltac:(lia)) ltac:(vm_compute; tauto) (or_introl eq_refl)) as H.
    cbv zeta in H. rewrite slack_exact in H by reflexivity. change (leak ex_tree 1 3) with 0 in H. rewrite Rmult_0_r, Rplus_0_r in H.
    apply Rminus_diag_uniq. apply Rabs_le_inv in H. lra.
Qed.
(** chains: the label of word 1 is known to be 2; segmentations: position 2 is known to be in a
    segment of width 1; grammars: word 2 is known to be of class 1, the root to be 0 *)
Example ex_C90_others :
  (let bad e := ((nth 1 e 0 =? 1) && negb (nth 3 e 0 =? 2))%nat%bool in let keep e := ((nth 1 e 0 =? 1) && (nth 3 e 0 =? 2))%nat%bool in
    Rabs (share ex_lin ex_phi 0 bad - mass ex_lin ex_phi 0 keep) <= slack ex_lin 0 3 + tol ex_lin 0 3 keep) /\
  (let over e := ((nth 1 e 0 <=? 2) && (2 <? nth 1 e 0 + nth 2 e 0))%nat%bool in
    let bad e := (over e && negb (nth 2 e 0 =? 1)%nat)%bool in let keep e := (over e && (nth 2 e 0 =? 1)%nat)%bool in
    Rabs (share ex_semi ex_phi 1 bad - mass ex_semi ex_phi 1 keep) <= slack ex_semi 1 3 + tol ex_semi 1 3 keep) /\
  (let word e := ((nth 0 e 0 =? 0) && (nth 2 e 0 =? 2))%nat%bool in
    let bad e := (word e && negb (nth 3 e 0 =? 1)%nat)%bool in let keep e := (word e && (nth 3 e 0 =? 1)%nat)%bool in
    Rabs (share ex_cfg ex_phi 1 bad - mass ex_cfg ex_phi 1 keep) <= slack ex_cfg 1 3 + tol ex_cfg 1 3 keep).
Proof.
  destruct (@ex_all ex_lin ltac:(simpl; auto)) as (V1 & B1 & R1). destruct (@ex_all ex_semi ltac:(simpl; auto)) as (V2 & B2 & R2).
  destruct (@ex_all ex_cfg ltac:(simpl; auto)) as (V3 & B3 & R3).
  assert (A : forall c b (s : st (spec_of c b)) bad, ok (spec_of c b) s -> forallb (fun e => negb (bad e)) (prt (spec_of c b) s) = true -> possible c b bad).
  { intros c b s bad Hs H. right. exists s. split; [exact Hs|]. rewrite forallb_forall in H. intros e He. specialize (H e He). now destruct (bad e). }
  split; [|split].
  - apply (@C90_chain 2 4 3 (Some [4; 2]%nat) ex_phi 3 V1 ltac:(lra) B1 0%nat 1%nat (fun e => nth 3 e 0 =? 2)%nat (R1 0%nat ltac:(lia))); [vm_compute; lia|].
    apply (A ex_lin 0%nat [0; 2; 1; 1]%nat); [split; [reflexivity|repeat constructor]|reflexivity].
  - apply (@C90_semi 2 5 3 2 (Some [3; 5]%nat) ex_phi 3 V2 ltac:(lra) B2 1%nat 2%nat (fun e => nth 2 e 0 =? 1)%nat (R2 1%nat ltac:(lia))); [vm_compute; lia|].
    apply (A ex_semi 1%nat (0, [(2, 1); (1, 0); (1, 1)])%nat); [|reflexivity]. split; [simpl; lia|]. split; [repeat constructor; simpl; lia|reflexivity].
  - destruct (@C90_cfg 2 4 2 3 (Some [4; 3]%nat) ex_phi 3 V3 ltac:(lra) B3 1%nat (fun e => nth 3 e 0 =? 1)%nat (R3 1%nat ltac:(lia))) as [H _].
    apply H; [vm_compute; lia|]. apply (A ex_cfg 1%nat (PN 0 (PN 1 (PT 0) (PT 2)) (PT 1))); [|reflexivity].
    split; [reflexivity|]. split; [vm_compute; repeat split; lia|vm_compute; lia].
Qed.
