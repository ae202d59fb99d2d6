(** * Entropy, cross entropy and KL divergence with forbidden parts (C77).

    [f_entropy], [f_cross_entropy], [f_kl] (Special.v) are the queries on
    potentials some of which are -inf, computed with IEEE infinities and NaN. A
    part is forbidden when its potential is -inf; a structure is [allowed] when it
    has no forbidden part (Mask.v). *)
From Verif Require Import Base Ops Terms Semirings Poly Chain LinearChain SemiMarkov CkyCrf Cky DepSpec DepTree
  Batch Family Approx Grad Sample Dist Purity Degree Shape Api Query P_Real Mask P_Mask Special.
Set Implicit Arguments.
Local Open Scope R_scope.

Lemma row_leval c O p d : valid c -> exists v, run c O p = Ok v /\ length v = batch_of c /\
  forall b, row_ok c b -> nth b v d = leval O p (row_graph c b) /\ twf (row_graph c b).
Proof.
  intro V. destruct (run_ok c O p V) as (v & E & L). exists v. split; [exact E|]. split; [exact L|].
  intros b Hb. destruct (row_family V Hb) as (F & HF). destruct (ir_run HF O p d) as (v' & E' & _ & En).
  rewrite E in E'. injection E' as <-. rewrite En, (ir_graph HF), frun_leval. split; [reflexivity|apply ft_wf].
Qed.
(** a part of a structure of the row is read by its graph *)
Lemma part_reads c b s e : valid c -> row_ok c b -> ok (spec_of c b) s -> In e (prt (spec_of c b) s) -> reads e (row_graph c b).
Proof.
  intros V Hb. destruct (row_family V Hb) as (F & HF). rewrite (ir_graph HF). revert s. rewrite <- (ir_spec HF). cbn [ok prt st fspec].
  intros s Hs He. apply (fenum F) in Hs. destruct (@structure_is_pure F s Hs) as (m & Hm & Hp & HP).
  apply reads_expand with m; [exact Hm|]. apply (Permutation_in e (Permutation_sym HP)) in He.
  unfold leaves in He. apply in_flat_map in He as (x & Hx & He). destruct x as [e'|e'|]; try contradiction.
  destruct He as [<-|[]]. exact Hx.
Qed.
(** a row with an allowed structure has a finite log-partition *)
Lemma allowed_live c b phi : valid c -> row_ok c b -> (exists s, ok (spec_of c b) s /\ allowed (prt (spec_of c b)) phi s) ->
  leval (xlog_ops NEG) phi (row_graph c b) <> None.
Proof.
  intros V Hb. destruct (row_family V Hb) as (F & HF). rewrite (ir_graph HF), <- (ir_spec HF). cbn [ok prt st fspec].
  intros (s & Hs & Ha) E. apply (fenum F) in Hs. pose proof (x_split F phi NEG) as X. rewrite E in X. cbn [xexp] in X.
  pose proof (@XZ_pos F phi s Hs Ha). pose proof (exp_pos (sc (fparts F) (fin phi) s)). pose proof (XS_nonneg F phi NEG). lra.
Qed.
Lemma map_nth' A B (f : A -> B) l b d x : (b < length l)%nat -> nth b l d = x -> forall d', nth b (map f l) d' = f x.
Proof. intros H E d'. rewrite nth_indep with (d' := f d) by now rewrite map_length. now rewrite map_nth, E. Qed.

(** one forbidden part makes the entropy NaN, although the entropy of the allowed
    structures is a real number *)
Theorem C77_entropy_nan c phi : valid c ->
  exists v, f_entropy c phi = Ok v /\ length v = batch_of c /\
  forall b, row_ok c b -> let S := spec_of c b in
    forall s e, ok S s -> In e (prt S s) -> phi e = None ->
    (exists s', ok S s' /\ allowed (prt S) phi s') -> nth b v (FR 0) = FNan.
Proof.
  intro V. destruct (@row_leval c (fent_ops NEG) (fun e => (of_x (phi e), FR 0)) (FR 0, FR 0) V) as (v & E & L & G).
  exists (map snd v). unfold f_entropy. rewrite E. split; [reflexivity|]. split; [now rewrite map_length|].
  intros b Hb; cbv zeta; intros s e Hs He Hn Hl. destruct (G b Hb) as [G1 _].
  etransitivity; [exact (@map_nth' (flt * flt) flt snd v b (FR 0, FR 0) _ (eq_ind_r (fun n => (b < n)%nat) (proj1 Hb) L) G1 (FR 0))|].
  apply ent_nan with e; auto. 
  - now apply part_reads with s.
  - now apply allowed_live.
Qed.
Print Assumptions C77_entropy_nan.

(** ** Divergences *)
(** the classes whose [kl] and [cross_entropy] do not raise (Query.pair_call) *)
Definition pairs (c : call) : Prop := match c with CLin _ _ _ _ | CTree _ _ _ _ => True | _ => False end.
Lemma f_kl_rows c phi psi : valid c -> pairs c -> exists v, f_kl c phi psi = Ok v /\ length v = batch_of c /\
  forall b, row_ok c b -> nth b v (FR 0) = fd (kev phi psi NEG true (row_graph c b)) /\ twf (row_graph c b).
Proof.
  intros V Hc. destruct (@row_leval c (fkl_ops NEG) (fun e => (of_x (phi e), of_x (psi e), FR 0)) (FR 0, FR 0, FR 0) V) as (v & E & L & G).
  exists (map fd v). unfold f_kl. rewrite E. split; [destruct c; try contradiction; reflexivity|]. split; [now rewrite map_length|].
  intros b Hb. destruct (G b Hb) as [G1 G2]. split; [|exact G2].
  exact (@map_nth' tri flt fd v b (FR 0, FR 0, FR 0) _ (eq_ind_r (fun n => (b < n)%nat) (proj1 Hb) L) G1 (FR 0)).
Qed.
Lemma f_ce_rows c phi psi : valid c -> pairs c -> exists v, f_cross_entropy c phi psi = Ok v /\ length v = batch_of c /\
  forall b, row_ok c b -> nth b v (FR 0) = fd (kev phi psi NEG false (row_graph c b)) /\ twf (row_graph c b).
Proof.
  intros V Hc. destruct (@row_leval c (fce_ops NEG) (fun e => (of_x (phi e), of_x (psi e), FR 0)) (FR 0, FR 0, FR 0) V) as (v & E & L & G).
  exists (map fd v). unfold f_cross_entropy. rewrite E. split; [destruct c; try contradiction; reflexivity|]. split; [now rewrite map_length|].
  intros b Hb. destruct (G b Hb) as [G1 G2]. split; [|exact G2].
  exact (@map_nth' tri flt fd v b (FR 0, FR 0, FR 0) _ (eq_ind_r (fun n => (b < n)%nat) (proj1 Hb) L) G1 (FR 0)).
Qed.

(** KL(p || q) is NaN as soon as p forbids a part *)
Theorem C77_kl_p_nan c phi psi : valid c -> pairs c ->
  exists v, f_kl c phi psi = Ok v /\ length v = batch_of c /\
  forall b, row_ok c b -> let S := spec_of c b in
    forall s e, ok S s -> In e (prt S s) -> phi e = None ->
    (exists s', ok S s' /\ allowed (prt S) phi s') -> nth b v (FR 0) = FNan.
Proof.
  intros V Hc. destruct (@f_kl_rows c phi psi V Hc) as (v & E & L & G). exists v. split; [exact E|]. split; [exact L|].
  intros b Hb; cbv zeta; intros s e Hs He Hn Hl. destruct (G b Hb) as [-> _].
  destruct (@kl_p_reads phi psi NEG true e (row_graph c b) eq_refl Hn) as [K|K]; [now apply part_reads with s|exact K|].
  destruct (@allowed_live c b phi V Hb Hl K).
Qed.
Print Assumptions C77_kl_p_nan.

(** cross entropy is NaN when p and q forbid the same part *)
Theorem C77_cross_entropy_both_nan c phi psi : valid c -> pairs c ->
  exists v, f_cross_entropy c phi psi = Ok v /\ length v = batch_of c /\
  forall b, row_ok c b -> let S := spec_of c b in
    forall s e, ok S s -> In e (prt S s) -> phi e = None -> psi e = None ->
    (exists s', ok S s' /\ allowed (prt S) phi s') -> nth b v (FR 0) = FNan.
Proof.
  intros V Hc. destruct (@f_ce_rows c phi psi V Hc) as (v & E & L & G). exists v. split; [exact E|]. split; [exact L|].
  intros b Hb; cbv zeta; intros s e Hs He Hn Hm Hl. destruct (G b Hb) as [-> _].
  destruct (@both_reads phi psi NEG false e (row_graph c b) Hn Hm) as [K|[K _]]; [now apply part_reads with s|exact K|].
  destruct (@allowed_live c b phi V Hb Hl K).
Qed.
Print Assumptions C77_cross_entropy_both_nan.

(** p forbids nothing, q forbids a part: both divergences of a chain are +inf, as
    they should be (p gives the part a positive probability, q none) *)
Theorem C77_chain_q_infinite batch N C ls phi psi : valid (CLin batch N C ls) -> (forall e, phi e <> None) ->
  exists v w, f_kl (CLin batch N C ls) phi psi = Ok v /\ f_cross_entropy (CLin batch N C ls) phi psi = Ok w /\
  length v = batch /\ length w = batch /\
  forall b, (b < batch)%nat -> let S := spec_of (CLin batch N C ls) b in
    forall s e, ok S s -> In e (prt S s) -> psi e = None -> nth b v (FR 0) = FPos /\ nth b w (FR 0) = FPos.
Proof.
  intros V Hp. set (c := CLin batch N C ls) in *. destruct (@f_kl_rows c phi psi V I) as (v & E & L & G). destruct (@f_ce_rows c phi psi V I) as (w & E' & L' & G').
  exists v, w. split; [exact E|]. split; [exact E'|]. split; [exact L|]. split; [exact L'|].
  intros b Hb; cbv zeta; intros s e Hs He Hn. assert (Hr : row_ok c b) by (split; [exact Hb|exact I]).
  destruct (G b Hr) as [-> W]. destruct (G' b Hr) as [-> _].
  destruct (@live_chain psi NEG batch N C ls b V Hb) as [L1 L2].
  assert (R : reads e (row_graph c b)) by now apply part_reads with s.
  split.
  - destruct (@kl_q phi psi NEG true Hp (row_graph c b) W L2) as (_ & _ & K). destruct (K e Hn R) as [K'|K']; [exact K'|contradiction].
  - destruct (@kl_q phi psi NEG false Hp (row_graph c b) W L2) as (_ & _ & K). destruct (K e Hn R) as [K'|K']; [exact K'|contradiction].
Qed.
Print Assumptions C77_chain_q_infinite.

(** TreeCRF: +inf when every span keeps a label, NaN when a span loses all of them *)
Theorem C77_tree_q batch N NT ls phi psi : valid (CTree batch N NT ls) -> (forall e, phi e <> None) ->
  exists v w, f_kl (CTree batch N NT ls) phi psi = Ok v /\ f_cross_entropy (CTree batch N NT ls) phi psi = Ok w /\
  length v = batch /\ length w = batch /\
  forall b, (b < batch)%nat -> let S := spec_of (CTree batch N NT ls) b in let M := eff_len N (lc_len N ls b) in
    ((forall i j, (i <= j < M)%nat -> exists a, (a < NT)%nat /\ psi [b; i; j; a] <> None) ->
     forall s e, ok S s -> In e (prt S s) -> psi e = None -> nth b v (FR 0) = FPos /\ nth b w (FR 0) = FPos) /\
    (forall s i j a, ok S s -> In [b; i; j; a] (prt S s) -> (forall a', (a' < NT)%nat -> psi [b; i; j; a'] = None) ->
     nth b v (FR 0) = FNan /\ nth b w (FR 0) = FNan).
Proof.
  intros V Hp. set (c := CTree batch N NT ls) in *. destruct (@f_kl_rows c phi psi V I) as (v & E & L & G). destruct (@f_ce_rows c phi psi V I) as (w & E' & L' & G').
  exists v, w. split; [exact E|]. split; [exact E'|]. split; [exact L|]. split; [exact L'|].
  intros b Hb; cbv zeta. assert (Hr : row_ok c b) by (split; [exact Hb|exact I]).
  destruct (G b Hr) as [-> W]. destruct (G' b Hr) as [-> _]. split.
  - intros H s e Hs He Hn.
    destruct (@live_tree batch N NT ls V b Hb psi NEG) as [L1 L2].
    { intros i j Hi Hj. destruct (H i j (conj Hi Hj)) as (a & Ha & Hx). exists [b; i; j; a]. split; [|exact Hx].
      unfold labels. apply in_map_iff. exists a. split; [reflexivity|]. apply in_seq. lia. }
    assert (R : reads e (row_graph c b)) by now apply part_reads with s.
    split.
    + destruct (@kl_q phi psi NEG true Hp (row_graph c b) W L2) as (_ & _ & K). destruct (K e Hn R) as [K'|K']; [exact K'|contradiction].
    + destruct (@kl_q phi psi NEG false Hp (row_graph c b) W L2) as (_ & _ & K). destruct (K e Hn R) as [K'|K']; [exact K'|contradiction].
  - intros s i j a Hs He Hn.
    assert (D : some_sum (dead_sum psi NEG) (row_graph c b)).
    { apply (@some_sum_dead NT b psi NEG i j).
      - intros e Hx. unfold labels in Hx. apply in_map_iff in Hx as (a' & <- & Ha). apply in_seq in Ha. apply Hn. lia.
      - apply (@reads_through_sum batch N NT ls V b Hb i j a). now apply part_reads with s. }
    split; now apply dead_sum_nan_q.
Qed.
Print Assumptions C77_tree_q.

(** spec: the cross entropy of the allowed structures of p (their distribution
    conditioned on being allowed) relative to q *)
Definition cond_cross A (parts : A -> list (list nat)) (l : list A) (phi : list nat -> ext) (psi : list nat -> R) : R :=
  RSum (fun s => if forallb (fun e => negb (is_none (phi e))) (parts s)
                 then exp (sc parts (fin phi) s) / xZ parts phi l * (ln (ZS parts l psi) - sc parts psi s) else 0) l.
(** TreeCRF: p may forbid labels as long as every span keeps one and q forbids
    nothing; the cross entropy is that of the allowed structures *)
Theorem C77_tree_p_cross_entropy batch N NT ls phi psi : valid (CTree batch N NT ls) ->
  exists w, f_cross_entropy (CTree batch N NT ls) phi (fun e => Some (psi e)) = Ok w /\ length w = batch /\
  forall b l, (b < batch)%nat -> let S := spec_of (CTree batch N NT ls) b in let M := eff_len N (lc_len N ls b) in
    Enumerates (ok S) l ->
    (forall i j, (i <= j < M)%nat -> exists a, (a < NT)%nat /\ phi [b; i; j; a] <> None) ->
    nth b w (FR 0) = FR (cond_cross (prt S) l phi psi).
Proof.
  intro V. set (c := CTree batch N NT ls) in *. destruct (@f_ce_rows c phi (fun e => Some (psi e)) V I) as (w & E' & L' & G').
  exists w. split; [exact E'|]. split; [exact L'|].
  intros b l Hb; cbv zeta; intros Hl H. assert (Hr : row_ok c b) by (split; [exact Hb|exact I]).
  destruct (G' b Hr) as [-> W]. destruct (row_family V Hr) as (F & HF).
  destruct (@live_tree batch N NT ls V b Hb phi NEG) as [L1 L2].
  { intros i j Hi Hj. destruct (H i j (conj Hi Hj)) as (a & Ha & Hx). exists [b; i; j; a]. split; [|exact Hx].
    unfold labels. apply in_map_iff. exists a. split; [reflexivity|]. apply in_seq. lia. }
  destruct (@ce_value phi (fun e => Some (psi e)) NEG false eq_refl psi (fun e => eq_refl) (row_graph c b) W L2) as (x & q & Ex & Eq & Ev).
  unfold c in Ex, Eq, Ev, L1. fold c in Ex, Eq, Ev, L1. rewrite Ex. f_equal.
  assert (FP : fpure F) by now apply (ir_pure HF).
  rewrite (ir_graph HF) in Eq, Ev, L1. revert l Hl. rewrite <- (ir_spec HF). cbn [ok prt st fspec]. intros l Hl.
  assert (EF : Permutation (flist F) l) by (eapply Enumerates_perm; [apply (fenum F)|exact Hl]).
  assert (XP : forall g, xexp (leval (xlog_ops NEG) g (ft F)) = xZ (fparts F) g (flist F)).
  { intro g. rewrite x_split. unfold XS. unfold fpure in FP. rewrite FP. unfold Sum. cbn. ring. }
  assert (Hz : 0 < xZ (fparts F) phi (flist F)) by (rewrite <- XP; now apply xexp_pos).
  assert (Eq' : q = ln (ZS (fparts F) (flist F) psi)).
  { rewrite <- (ln_exp q). f_equal. change (exp q) with (xexp (Some q)). rewrite <- Eq, XP. unfold xZ, ZS.
    apply (Sum_ext R_csr). intro s. unfold sc, fin. rewrite (proj2 (forallb_forall _ _) (fun _ _ => eq_refl)). reflexivity. }
  rewrite XP in Ev.
  assert (Ev' : RSum (fun m => xw phi NEG m * (q - score psi NEG m)) (expand (ft F)) =
    RSum (fun s => (if forallb (fun e => negb (is_none (phi e))) (fparts F s) then exp (sc (fparts F) (fin phi) s) else 0) * (q - sc (fparts F) psi s)) (flist F)).
  { rewrite (RSum_split _ pure). change (filter (fun m => negb (pure m)) (expand (ft F))) with (spur (ft F)). unfold fpure in FP. rewrite FP.
    unfold Sum at 2. cbn [map ksum fold_right]. rewrite Rplus_0_r.
    transitivity (RSum (fun m => (fun p => RProd (fun e => xexp (phi e)) p * (q - RSum psi p)) (leaves m)) (filter pure (expand (ft F)))).
    - apply (Sum_ext_in R_csr). intros m Hm. apply filter_In in Hm as [_ Hp]. rewrite score_leaves by auto. f_equal.
      unfold xw. now apply (Prod_pure R_csr).
    - etransitivity; [apply (pure_transfer F R_csr (fun p => RProd (fun e => xexp (phi e)) p * (q - RSum psi p)))|].
      + intros a b0 HP. f_equal; [apply (Prod_perm R_csr), HP|]. f_equal. apply (Sum_perm R_csr), HP.
      + apply (Sum_ext R_csr). intro s. cbv beta. now rewrite prod_xexp. }
  rewrite Ev' in Ev.
  unfold cond_cross. rewrite <- (xZ_perm _ phi EF), <- (ZS_perm _ EF psi), <- Eq'.
  rewrite <- (Sum_perm R_csr _ EF).
  apply Rmult_eq_reg_l with (xZ (fparts F) phi (flist F)); [|lra]. rewrite Ev, <- RSum_scal.
  apply (Sum_ext R_csr). intro s. destruct (forallb _ _); [|ring]. field. lra.
Qed.
Print Assumptions C77_tree_p_cross_entropy.

(** ** Without forbidden parts these are the queries of Query.v *)
Theorem C77_finite c phi psi : valid c ->
  (exists v w, f_entropy c (fun e => Some (phi e)) = Ok w /\ q_entropy c phi = Ok v /\
    forall b, row_ok c b -> nth b w FNan = FR (nth b v 0)) /\
  (pairs c ->
    (exists v w, f_kl c (fun e => Some (phi e)) (fun e => Some (psi e)) = Ok w /\ q_kl c phi psi = Ok v /\
      forall b, row_ok c b -> nth b w FNan = FR (nth b v 0)) /\
    (exists v w, f_cross_entropy c (fun e => Some (phi e)) (fun e => Some (psi e)) = Ok w /\ q_cross_entropy c phi psi = Ok v /\
      forall b, row_ok c b -> nth b w FNan = FR (nth b v 0))).
Proof.
  intro V.
  assert (HL : forall A (f : A -> R) (g : A -> flt) l, l <> [] -> (forall x, In x l -> g x = FR (f x)) -> flse (map g l) = FR (lse (map f l))).
  { intros A f g l Hn Hg.
    assert (E : map g l = map of_x (map (fun x => Some (f x)) l)) by (rewrite map_map; apply map_ext_in; exact Hg).
    rewrite E, flse_x. unfold xlse, lse. destruct l as [|x l]; [congruence|]. cbn [map forallb is_none andb of_x].
    f_equal. f_equal. change (Some (f x) :: map (fun x => Some (f x)) l) with (map (fun x => Some (f x)) (x :: l)).
    change (f x :: map f l) with (map f (x :: l)). now rewrite !(Sum_map R_csr). }
  assert (HS : forall A (f : A -> R) (g : A -> flt) l, (forall x, In x l -> g x = FR (f x)) -> fsum (map g l) = FR (RSum f l)).
  { intros A f g l Hg. rewrite <- fsum_FR. f_equal. apply map_ext_in. exact Hg. }
  assert (F2 : forall A B (f : A -> B) (l : list A) (l' : list B), Forall2 (fun x y => y = f x) l l' -> l' = map f l).
  { intros A B f l l' H. induction H as [|x y l l' -> H IH]; [reflexivity|]. now rewrite IH. }
  split; [|intro Hc; split].
  - assert (K : forall l : list (R * R), l <> [] ->
      fent_sum (map (fun x => (FR (fst x), FR (snd x))) l) = let x := ent_sum l in (FR (fst x), FR (snd x))).
    { intros l Hn. unfold fent_sum, ent_sum. cbv zeta. rewrite !map_map. unfold fp, fq, fd, p_, q_, d_ in *. cbn [fst snd].
      rewrite (HL _ fst (fun x => FR (fst x)) l Hn) by reflexivity. f_equal. apply HS. intros x _. reflexivity. }
    assert (R1 : resp (ent_ops NEG) (fent_ops NEG) (fun x y => y = (FR (fst x), FR (snd x)))).
    { constructor; try reflexivity.
      - intros a a' b b' -> ->. reflexivity.
      - intros l l' Hn H. apply F2 in H. rewrite H. exact (K l Hn). }
    destruct (@row_leval c (ent_ops NEG) (fun e => ent_convert (phi e)) (0, 0) V) as (v & E & L & G).
    destruct (@row_leval c (fent_ops NEG) (fun e => (of_x (Some (phi e)), FR 0)) (FNan, FNan) V) as (w & E' & L' & G').
    exists (map snd v), (map snd w). unfold f_entropy, q_entropy. rewrite E, E'. split; [reflexivity|]. split; [reflexivity|].
    intros b Hb. destruct (G b Hb) as [G1 W]. destruct (G' b Hb) as [G2 _].
    pose proof (@leval_param (ent_ops NEG) (fent_ops NEG) _ (fun e => ent_convert (phi e)) (fun e => (of_x (Some (phi e)), FR 0)) (row_graph c b) R1 (fun e => eq_refl) W) as P.
    rewrite P in G2. rewrite <- G1 in G2.
    etransitivity; [exact (@map_nth' (flt * flt) flt snd w b (FNan, FNan) _ (eq_ind_r (fun n => (b < n)%nat) (proj1 Hb) L') G2 FNan)|].
    cbn [snd]. f_equal. symmetry. exact (@map_nth' (R * R) R snd v b (0, 0) _ (eq_ind_r (fun n => (b < n)%nat) (proj1 Hb) L) eq_refl 0).
  - assert (K : forall l : list (R * R * R), l <> [] ->
      fkl_sum (map (fun x => (FR (p_ x), FR (q_ x), FR (d_ x))) l) = let x := kl_sum l in (FR (p_ x), FR (q_ x), FR (d_ x))).
    { intros l Hn. unfold fkl_sum, kl_sum. cbv zeta. rewrite !map_map. unfold fp, fq, fd, p_, q_, d_ in *. cbn [fst snd].
      rewrite (HL _ (fun x : R * R * R => fst (fst x)) (fun x => FR (fst (fst x))) l Hn), (HL _ (fun x : R * R * R => snd (fst x)) (fun x => FR (snd (fst x))) l Hn) by reflexivity. f_equal. apply HS. intros x _. reflexivity. }
    assert (R1 : resp (kl_ops NEG) (fkl_ops NEG) (fun x y => y = (FR (p_ x), FR (q_ x), FR (d_ x)))).
    { constructor; try reflexivity.
      - intros a a' b b' -> ->. reflexivity.
      - intros l l' Hn H. apply F2 in H. rewrite H. exact (K l Hn). }
    destruct (@row_leval c (kl_ops NEG) (fun e => kl_convert (phi e) (psi e)) (0, 0, 0) V) as (v & E & L & G).
    destruct (@row_leval c (fkl_ops NEG) (fun e => (of_x (Some (phi e)), of_x (Some (psi e)), FR 0)) (FNan, FNan, FNan) V) as (w & E' & L' & G').
    exists (map d_ v), (map fd w). unfold f_kl, q_kl. rewrite E, E'. split; [destruct c; try contradiction; reflexivity|]. split; [destruct c; try contradiction; reflexivity|].
    intros b Hb. destruct (G b Hb) as [G1 W]. destruct (G' b Hb) as [G2 _].
    pose proof (@leval_param (kl_ops NEG) (fkl_ops NEG) _ (fun e => kl_convert (phi e) (psi e)) (fun e => (of_x (Some (phi e)), of_x (Some (psi e)), FR 0)) (row_graph c b) R1 (fun e => eq_refl) W) as P.
    rewrite P in G2. rewrite <- G1 in G2.
    etransitivity; [exact (@map_nth' tri flt fd w b (FNan, FNan, FNan) _ (eq_ind_r (fun n => (b < n)%nat) (proj1 Hb) L') G2 FNan)|].
    cbn [fd snd]. f_equal. symmetry. exact (@map_nth' (R * R * R) R d_ v b (0, 0, 0) _ (eq_ind_r (fun n => (b < n)%nat) (proj1 Hb) L) eq_refl 0).
  - assert (K : forall l : list (R * R * R), l <> [] ->
      fce_sum (map (fun x => (FR (p_ x), FR (q_ x), FR (d_ x))) l) = let x := ce_sum l in (FR (p_ x), FR (q_ x), FR (d_ x))).
    { intros l Hn. unfold fce_sum, ce_sum. cbv zeta. rewrite !map_map. unfold fp, fq, fd, p_, q_, d_ in *. cbn [fst snd].
      rewrite (HL _ (fun x : R * R * R => fst (fst x)) (fun x => FR (fst (fst x))) l Hn), (HL _ (fun x : R * R * R => snd (fst x)) (fun x => FR (snd (fst x))) l Hn) by reflexivity. f_equal. apply HS. intros x _. reflexivity. }
    assert (R1 : resp (ce_ops NEG) (fce_ops NEG) (fun x y => y = (FR (p_ x), FR (q_ x), FR (d_ x)))).
    { constructor; try reflexivity.
      - intros a a' b b' -> ->. reflexivity.
      - intros l l' Hn H. apply F2 in H. rewrite H. exact (K l Hn). }
    destruct (@row_leval c (ce_ops NEG) (fun e => kl_convert (phi e) (psi e)) (0, 0, 0) V) as (v & E & L & G).
    destruct (@row_leval c (fce_ops NEG) (fun e => (of_x (Some (phi e)), of_x (Some (psi e)), FR 0)) (FNan, FNan, FNan) V) as (w & E' & L' & G').
    exists (map d_ v), (map fd w). unfold f_cross_entropy, q_cross_entropy. rewrite E, E'. split; [destruct c; try contradiction; reflexivity|]. split; [destruct c; try contradiction; reflexivity|].
    intros b Hb. destruct (G b Hb) as [G1 W]. destruct (G' b Hb) as [G2 _].
    pose proof (@leval_param (ce_ops NEG) (fce_ops NEG) _ (fun e => kl_convert (phi e) (psi e)) (fun e => (of_x (Some (phi e)), of_x (Some (psi e)), FR 0)) (row_graph c b) R1 (fun e => eq_refl) W) as P.
    rewrite P in G2. rewrite <- G1 in G2.
    etransitivity; [exact (@map_nth' tri flt fd w b (FNan, FNan, FNan) _ (eq_ind_r (fun n => (b < n)%nat) (proj1 Hb) L') G2 FNan)|].
    cbn [fd snd]. f_equal. symmetry. exact (@map_nth' (R * R * R) R d_ v b (0, 0, 0) _ (eq_ind_r (fun n => (b < n)%nat) (proj1 Hb) L) eq_refl 0).
Qed.
Print Assumptions C77_finite.

(** ** The hypotheses are met *)
(** a mask that forbids the whole span of words 0 and 1 *)
Definition ex_span (e : list nat) : ext :=
  if (nth 1 e 0 =? 0)%nat && (nth 2 e 0 =? 1)%nat then None else Some (ex_phi e).
Example ex_C77 : valid ex_lin /\ valid ex_tree /\ (forall b, (b < 2)%nat -> row_ok ex_lin b /\ row_ok ex_tree b).
Proof.
  pose proof ex_C51 as H. rewrite Forall_forall in H.
  destruct (H ex_lin) as (V1 & R1 & _); [simpl; auto|]. destruct (H ex_tree) as (V2 & R2 & _); [simpl; auto|].
  split; [exact V1|]. split; [exact V2|]. intros b Hb. split; [apply (R1 b Hb)|apply (R2 b Hb)].
Qed.
(** entropy and KL of masked chains and trees *)
Example ex_C77_nan :
  at_row (FR 0) (f_entropy ex_lin ex_mask) 0 = FNan /\ at_row (FR 0) (f_entropy ex_tree ex_mask) 0 = FNan /\
  at_row (FR 0) (f_kl ex_lin ex_mask ex_mask) 0 = FNan /\ at_row (FR 0) (f_cross_entropy ex_tree ex_mask ex_mask) 0 = FNan.
Proof.
  destruct ex_C77 as (V1 & V2 & R). destruct (R 0%nat ltac:(lia)) as [R1 R2]. destruct ex_C51_allowed as [(A1 & A2 & A3 & A4) (B1 & B2 & B3 & B4)].
  assert (E1 : In [0; 0; 1; 0]%nat (prt (spec_of ex_lin 0) [0; 1; 2; 0]%nat)) by (vm_compute; tauto).
  assert (E2 : In [0; 1; 2; 1]%nat (prt (spec_of ex_lin 0) [0; 1; 2; 0]%nat)) by (vm_compute; tauto).
  assert (E3 : In [0; 0; 1; 1]%nat (prt (spec_of ex_tree 0) (LNode 1 (LLeaf 0) (LLeaf 0)))) by (vm_compute; tauto).
  split; [|split; [|split]].
  - destruct (@C77_entropy_nan ex_lin ex_mask V1) as (v & -> & _ & G). cbn [at_row].
    apply (G 0%nat R1 _ _ A3 E2 eq_refl). eexists. split; [exact A1|exact A2].
  - destruct (@C77_entropy_nan ex_tree ex_mask V2) as (v & -> & _ & G). cbn [at_row].
    apply (G 0%nat R2 _ _ B3 E3 eq_refl). eexists. split; [exact B1|exact B2].
  - destruct (@C77_kl_p_nan ex_lin ex_mask ex_mask V1 I) as (v & -> & _ & G). cbn [at_row].
    apply (G 0%nat R1 _ _ A3 E2 eq_refl). eexists. split; [exact A1|exact A2].
  - destruct (@C77_cross_entropy_both_nan ex_tree ex_mask ex_mask V2 I) as (v & -> & _ & G). cbn [at_row].
    apply (G 0%nat R2 _ _ B3 E3 eq_refl eq_refl). eexists. split; [exact B1|exact B2].
Qed.
(** q forbids: +inf for the chain and for a tree whose spans keep a label, NaN for a
    tree that loses a span *)
Example ex_C77_q :
  at_row (FR 0) (f_kl ex_lin (fun e => Some (ex_phi e)) ex_mask) 0 = FPos /\
  at_row (FR 0) (f_kl ex_tree (fun e => Some (ex_phi e)) ex_mask) 0 = FPos /\
  at_row (FR 0) (f_kl ex_tree (fun e => Some (ex_phi e)) ex_span) 0 = FNan.
Proof.
  destruct ex_C77 as (V1 & V2 & R). destruct ex_C51_allowed as [(A1 & A2 & A3 & A4) (B1 & B2 & B3 & B4)].
  assert (E2 : In [0; 1; 2; 1]%nat (prt (spec_of ex_lin 0) [0; 1; 2; 0]%nat)) by (vm_compute; tauto).
  assert (E3 : In [0; 0; 1; 1]%nat (prt (spec_of ex_tree 0) (LNode 1 (LLeaf 0) (LLeaf 0)))) by (vm_compute; tauto).
  assert (Hp : forall e : list nat, Some (ex_phi e) <> None) by discriminate.
  split; [|split].
  - destruct (C77_chain_q_infinite _ ex_mask V1 Hp) as (v & w & Ev & _ & _ & _ & G). unfold ex_lin at 1. rewrite Ev. cbn [at_row].
    apply (proj1 (G 0%nat ltac:(lia) _ _ A3 E2 eq_refl)).
  - destruct (C77_tree_q _ ex_mask V2 Hp) as (v & w & Ev & _ & _ & _ & G). unfold ex_tree at 1. rewrite Ev. cbn [at_row].
    apply (proj1 (proj1 (G 0%nat ltac:(lia)) ltac:(intros i j _; exists 0%nat; split; [lia|discriminate]) _ _ B3 E3 eq_refl)).
  - destruct (C77_tree_q _ ex_span V2 Hp) as (v & w & Ev & _ & _ & _ & G). unfold ex_tree at 1. rewrite Ev. cbn [at_row].
    apply (proj1 (proj2 (G 0%nat ltac:(lia)) _ 0%nat 1%nat 1%nat B3 E3 ltac:(reflexivity))).
Qed.
(** p forbids one label of every span: the cross entropy is real *)
Example ex_C77_p : exists x, at_row FNan (f_cross_entropy ex_tree ex_mask (fun e => Some (ex_phi e))) 0 = FR x.
Proof.
  destruct ex_C77 as (V1 & V2 & R). destruct (C77_tree_p_cross_entropy ex_mask ex_phi V2) as (w & Ew & L & G).
  unfold ex_tree at 1. rewrite Ew. cbn [at_row].
  assert (EF : Enumerates (ok (spec_of ex_tree 0)) (ltrees 2 2 2)) by (apply ltrees_enum; lia).
  eexists. rewrite nth_indep with (d' := FR 0) by (rewrite L; lia).
  apply (G 0%nat _ ltac:(lia) EF). intros i j _. exists 0%nat. split; [lia|discriminate].
Qed.
