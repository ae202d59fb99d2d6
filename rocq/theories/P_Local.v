(** * P_Local: the marginals fit together (C87)

    [marginals] fills one tensor entry by entry.  A user reads sums of entries
    as probabilities of events: the label of a word, the head of a word, the
    word being inside some segment.  The theorems say which sums are 1, which
    pairs of sums agree, and which are at most 1, for all calls, all potentials
    and all rows that have a structure. *)
From Coq Require Import Lra.
From Verif Require Import Base Ops Terms Semirings Poly Chain LinearChain SemiMarkov CkyCrf Cky DepSpec DepTree
  Batch Family Approx Grad Sample Dist Purity Degree Shape Api Query Learn P_Real P_Learn NpSpec OracleSpec.
Set Implicit Arguments.
Local Open Scope R_scope.

(** ** Specification *)
(** spec: the entries of row b of the tensor(s) that [marginals] returns
    (distributions.py:171-183; for SentCFG the tensors are terms, rules, roots) *)
Definition entries (c : call) (b : nat) : list (list nat) :=
  match c with
  | CCfg _ N NT T _ =>
      map (fun e => 0%nat :: b :: e) (indices [N; T]) ++
      map (fun e => 1%nat :: b :: e) (indices [NT; (NT + T)%nat; (NT + T)%nat]) ++
      map (fun e => 2%nat :: b :: e) (indices [NT])
  | _ => map (cons b) (indices (event_shape c))
  end.
(** spec: sum of the selected entries of row b of the marginals *)
Definition mass (c : call) (phi : list nat -> R) (b : nat) (sel : list nat -> bool) : R :=
  RSum (q_marginals c phi) (filter sel (entries c b)).
(** spec: how many selected parts a structure uses *)
Definition hits (c : call) (b : nat) (sel : list nat -> bool) (s : st (spec_of c b)) : R :=
  INR (length (filter sel (prt (spec_of c b) s))).
(** spec: what the finite zero can add to a sum of selected entries; it is 0
    for TreeCRF and DependencyCRF *)
Definition tol (c : call) (b : nat) (B : R) (sel : list nat -> bool) : R :=
  INR (length (filter sel (entries c b))) * (2 * INR (degree c b) * leak c b B).
(** spec: 1 for true, 0 for false *)
Definition ind (p : bool) : R := if p then 1 else 0.

(** ** Generic part *)
Lemma len_filter A (p : A -> bool) l : INR (length (filter p l)) = RSum (fun x => ind (p x)) l.
Proof.
  induction l as [|a l IH]; [reflexivity|]. rewrite RSum_cons, <- IH. cbn [filter]. unfold ind.
  destruct (p a); [cbn [length]; rewrite S_INR|]; simpl; ring.
Qed.
Lemma RSum_filter_ind A (f : A -> R) (p : A -> bool) l : RSum f (filter p l) = RSum (fun x => ind (p x) * f x) l.
Proof.
  induction l as [|a l IH]; [reflexivity|]. rewrite RSum_cons, <- IH. cbn [filter]. unfold ind.
  destruct (p a); [rewrite RSum_cons, Rmult_1_l|rewrite Rmult_0_l, Rplus_0_l]; reflexivity.
Qed.
Lemma hits_sc c b sel s : @hits c b sel s = sc (prt (spec_of c b)) (fun e => ind (sel e)) s.
Proof. unfold hits, sc. apply len_filter. Qed.
Lemma mass_ind c phi b sel : mass c phi b sel = RSum (fun e => ind (sel e) * q_marginals c phi e) (entries c b).
Proof. apply RSum_filter_ind. Qed.

Lemma entries_nodup c b : NoDup (entries c b).
Proof.
  destruct c; cbn [entries]; try (apply NoDup_map_inj; [congruence|apply indices_nodup]).
  assert (D : forall k (sh : list nat), NoDup (map (fun e => k :: b :: e) (indices sh))) by (intros; apply NoDup_map_inj; [congruence|apply indices_nodup]).
  apply NoDup_app_intro; [apply (D 0%nat)|apply NoDup_app_intro; [apply (D 1%nat)|apply (D 2%nat)|]|].
  - intros e H1 H2. apply in_map_iff in H1 as (? & <- & _). apply in_map_iff in H2 as (? & [=] & _).
  - intros e H1 H2. apply in_map_iff in H1 as (? & <- & _). apply in_app_iff in H2 as [H2|H2]; apply in_map_iff in H2 as (? & [=] & _).
Qed.
Lemma entries_row c b e : In e (entries c b) -> row_of c e = b.
Proof.
  destruct c; cbn [entries row_of]; intro H.
  4: apply in_app_iff in H as [H|H]; [|apply in_app_iff in H as [H|H]].
  all: apply in_map_iff in H as (? & <- & _); reflexivity.
Qed.
Lemma pparts_bound NT T b p : forall i N, pbounded NT T p -> (i + psize p <= N)%nat ->
  incl (pparts NT b i p) (map (fun e => 0%nat :: b :: e) (indices [N; T]) ++
      map (fun e => 1%nat :: b :: e) (indices [NT; (NT + T)%nat; (NT + T)%nat])).
Proof.
  assert (PS : forall q, pbounded NT T q -> (psym NT q < NT + T)%nat) by (intros []; simpl; lia).
  induction p as [t|x l IHl r IHr]; intros i N Hb HN e He; cbn [pparts psize pbounded] in *.
  - destruct He as [<-|[]]. apply in_app_iff; left. apply in_map_iff. exists [i; t]. split; auto. apply indices_in. f2; lia.
  - destruct Hb as (Hx & Hl & Hr). destruct He as [<-|He].
    + apply in_app_iff; right. apply in_map_iff. exists [x; psym NT l; psym NT r]. split; auto. apply indices_in. f2; auto.
    + apply in_app_iff in He as [He|He]; [eapply IHl|eapply IHr]; eauto; lia.
Qed.
Lemma parts_entries c b s : valid c -> row_ok c b -> ok (spec_of c b) s -> incl (prt (spec_of c b) s) (entries c b).
Proof.
  intros V Hb. destruct c as [batch N C ls|batch N K C ls|batch N NT ls|batch N NT T ls|mr batch n lab ls];
    try (intro Hs; eapply parts_in_event; eauto; exact I).
  cbn [spec_of ok prt st entries]. intros (Hs & Hp & Hr). destruct Hb as [Hb _]. cbn [batch_of valid] in *.
  assert (Hle : (1 <= eff_len N (lc_len N ls b) <= N)%nat) by (apply (@eff_len_ok batch); auto; apply V).
  intros e [<-|He].
  - apply in_app_iff; right. apply in_app_iff; right. apply in_map_iff. exists [psym NT s]. split; auto. apply indices_in. f2; auto.
  - rewrite app_assoc. apply in_app_iff; left. revert e He. apply pparts_bound; [exact Hp|lia].
Qed.

Section Mean.
  Variables (c : call) (b : nat) (phi : list nat -> R) (B : R).
  Hypotheses (V : valid c) (HB0 : 0 <= B) (HB : bounded c B phi) (Hb : row_ok c b).
  Let S := spec_of c b.
  Let err := 2 * INR (degree c b) * leak c b B.
  (** a weighted sum of marginals is the mean of the weighted number of uses *)
  Lemma wmass_mean (w : list nat -> R) lo hi : (forall s, ok S s -> lo <= sc (prt S) w s <= hi) ->
    lo - RSum (fun e => Rabs (w e)) (entries c b) * err <= RSum (fun e => w e * q_marginals c phi e) (entries c b)
      <= hi + RSum (fun e => Rabs (w e)) (entries c b) * err.
  Proof.
    intro H. destruct (row_family V Hb) as (F & HF).
    assert (Hl : exists l, Enumerates (ok S) l) by (unfold S; rewrite <- (ir_spec HF); exists (flist F); apply (fenum F)).
    destruct Hl as (l & Hl).
    assert (Hne : l <> []).
    { revert l Hl. unfold S. rewrite <- (ir_spec HF). cbn [ok fspec st]. intros l Hl ->. pose proof (row_perm HF Hl) as P.
      apply Permutation_sym, Permutation_nil in P. apply (ir_nonempty HF P). }
    assert (E : RSum (fun e => w e * marg_spec (prt S) l phi e) (entries c b) = RSum (fun s => prob (prt S) l phi s * sc (prt S) w s) l).
    { unfold marg_spec. transitivity (RSum (fun e => RSum (fun s => prob (prt S) l phi s * (w e * uses (prt S) e s)) l) (entries c b)).
      - apply (Sum_ext R_csr). intro e. rewrite <- RSum_scal. apply (Sum_ext R_csr). intro s. simpl. ring.
      - rewrite (Sum_comm R_csr). apply (Sum_ext_in R_csr). intros s Hs. rewrite RSum_scal. f_equal.
        unfold uses, sc. apply score_event; [apply entries_nodup|]. apply parts_entries; auto. now apply Hl. }
    assert (P0 : forall s, 0 <= prob (prt S) l phi s).
    { intro s. unfold prob. apply Rlt_le, Rdiv_lt_0_compat; [apply exp_pos|now apply ZS_pos]. }
    assert (L : lo <= RSum (fun s => prob (prt S) l phi s * sc (prt S) w s) l <= hi).
    { split.
      - apply Rle_trans with (RSum (fun s => prob (prt S) l phi s * lo) l); [rewrite RSum_scar, prob_sum by auto; lra|].
        apply RSum_le. intros s Hs. apply Rmult_le_compat_l; [apply P0|]. apply H. now apply Hl.
      - apply Rle_trans with (RSum (fun s => prob (prt S) l phi s * hi) l); [|rewrite RSum_scar, prob_sum by auto; lra].
        apply RSum_le. intros s Hs. apply Rmult_le_compat_l; [apply P0|]. apply H. now apply Hl. }
    assert (D : Rabs (RSum (fun e => w e * q_marginals c phi e) (entries c b) - RSum (fun e => w e * marg_spec (prt S) l phi e) (entries c b))
      <= RSum (fun e => Rabs (w e)) (entries c b) * err).
    { rewrite <- RSum_sub, <- RSum_scar. eapply Rle_trans; [apply RSum_abs|]. apply RSum_le. intros e He.
      rewrite <- Rmult_minus_distr_l, Rabs_mult. apply Rmult_le_compat_l; [apply Rabs_pos|].
      apply (@C20_marginals_value c phi B V HB0 HB b l e Hb); auto. now apply entries_row. }
    rewrite E in D. apply Rabs_le_inv in D. lra.
  Qed.
End Mean.
Lemma ind_abs p : Rabs (ind p) = ind p.
Proof. unfold ind. destruct p; [apply Rabs_R1|apply Rabs_R0]. Qed.
Lemma tol_ind c b B sel : tol c b B sel = RSum (fun e => Rabs (ind (sel e))) (entries c b) * (2 * INR (degree c b) * leak c b B).
Proof. unfold tol. rewrite len_filter. f_equal. apply (Sum_ext R_csr). intro. symmetry. apply ind_abs. Qed.
Lemma tol_pos c b B sel : 0 <= tol c b B sel.
Proof.
  unfold tol, leak. apply Rmult_le_pos; [apply pos_INR|]. apply Rmult_le_pos; [pose proof (pos_INR (degree c b)); lra|].
  destruct (zero_free c); [lra|]. apply Rmult_le_pos; [apply pos_INR|apply Rlt_le, exp_pos].
Qed.
(** the sums are exact for the classes without a finite zero *)
Theorem C87_exact c b B sel : zero_free c = true -> tol c b B sel = 0.
Proof. intro H. unfold tol, leak. rewrite H. ring. Qed.
Print Assumptions C87_exact.

(** if every structure uses between lo and hi of the selected parts, the
    selected marginals sum to a number between lo and hi *)
Theorem C87_mass c phi B : valid c -> 0 <= B -> bounded c B phi ->
  forall b sel lo hi, row_ok c b -> (forall s, ok (spec_of c b) s -> lo <= @hits c b sel s <= hi) ->
    lo - tol c b B sel <= mass c phi b sel <= hi + tol c b B sel.
Proof.
  intros V HB0 HB b sel lo hi Hb H. rewrite tol_ind, mass_ind. apply wmass_mean; auto.
  intros s Hs. rewrite <- hits_sc. auto.
Qed.
Print Assumptions C87_mass.
Lemma mass_eq c phi B : valid c -> 0 <= B -> bounded c B phi ->
  forall b sel k, row_ok c b -> (forall s, ok (spec_of c b) s -> @hits c b sel s = k) -> Rabs (mass c phi b sel - k) <= tol c b B sel.
Proof.
  intros V HB0 HB b sel k Hb H. destruct (@C87_mass c phi B V HB0 HB b sel k k Hb) as [H1 H2].
  - intros s Hs. rewrite H by auto. lra.
  - apply Rabs_le. lra.
Qed.
(** if every structure uses equally many parts of two groups of selections, the
    marginals of the two groups have the same sum *)
Theorem C87_balance c phi B : valid c -> 0 <= B -> bounded c B phi ->
  forall b L L', row_ok c b ->
    (forall s, ok (spec_of c b) s -> RSum (fun sel => @hits c b sel s) L = RSum (fun sel => @hits c b sel s) L') ->
    Rabs (RSum (mass c phi b) L - RSum (mass c phi b) L') <= RSum (tol c b B) L + RSum (tol c b B) L'.
Proof.
  intros V HB0 HB b L L' Hb H.
  set (W := fun (K : list (list nat -> bool)) e => RSum (fun sel => ind (sel e)) K).
  assert (EM : forall K, RSum (mass c phi b) K = RSum (fun e => W K e * q_marginals c phi e) (entries c b)).
  { intro K. transitivity (RSum (fun sel => RSum (fun e => ind (sel e) * q_marginals c phi e) (entries c b)) K).
    - apply (Sum_ext R_csr). intro sel. apply mass_ind.
    - rewrite (Sum_comm R_csr). apply (Sum_ext R_csr). intro e. unfold W. apply RSum_scar. }
  assert (EH : forall K s, RSum (fun sel => @hits c b sel s) K = sc (prt (spec_of c b)) (W K) s).
  { intros K s. unfold sc, W. rewrite (Sum_comm R_csr). apply (Sum_ext R_csr). intro sel. apply hits_sc. }
  assert (W0 : forall K e, 0 <= W K e). { intros K e. apply RSum_nonneg. intros sel _. unfold ind. destruct (sel e); lra. }
  set (err := 2 * INR (degree c b) * leak c b B).
  assert (ET : forall K, RSum (tol c b B) K = RSum (W K) (entries c b) * err).
  { intro K. unfold W. rewrite (Sum_comm R_csr), <- RSum_scar. apply (Sum_ext R_csr). intro sel. unfold tol. fold err. now rewrite len_filter. }
  destruct (@wmass_mean c b phi B V HB0 HB Hb (fun e => W L e - W L' e) 0 0) as [H1 H2].
  { intros s Hs. replace (sc (prt (spec_of c b)) (fun e => W L e - W L' e) s) with (sc (prt (spec_of c b)) (W L) s - sc (prt (spec_of c b)) (W L') s).
    - rewrite <- !EH, H by auto. lra.
    - unfold sc. symmetry. apply RSum_sub. }
  fold err in H1, H2. rewrite !EM, !ET, <- RSum_sub.
  assert (E : RSum (fun e => W L e * q_marginals c phi e - W L' e * q_marginals c phi e) (entries c b) =
    RSum (fun e => (W L e - W L' e) * q_marginals c phi e) (entries c b)) by (apply (Sum_ext R_csr); intro; ring).
  rewrite E.
  assert (Q : RSum (fun e => Rabs (W L e - W L' e)) (entries c b) * err <= RSum (W L) (entries c b) * err + RSum (W L') (entries c b) * err).
  { rewrite <- Rmult_plus_distr_r, <- RSum_add. apply Rmult_le_compat_r.
    - unfold err, leak. pose proof (pos_INR (degree c b)). apply Rmult_le_pos; [lra|].
      destruct (zero_free c); [lra|]. apply Rmult_le_pos; [apply pos_INR|apply Rlt_le, exp_pos].
    - apply RSum_le. intros e _. pose proof (W0 L e). pose proof (W0 L' e). apply Rabs_le. lra. }
  apply Rabs_le. lra.
Qed.
Print Assumptions C87_balance.
Lemma RSum_one A (f : A -> R) x : RSum f [x] = f x.
Proof. rewrite RSum_cons. change (RSum f []) with 0. ring. Qed.
Lemma mass_agree c phi B : valid c -> 0 <= B -> bounded c B phi ->
  forall b sel sel', row_ok c b -> (forall s, ok (spec_of c b) s -> @hits c b sel s = @hits c b sel' s) ->
    Rabs (mass c phi b sel - mass c phi b sel') <= tol c b B sel + tol c b B sel'.
Proof.
  intros V HB0 HB b sel sel' Hb H. pose proof (@C87_balance c phi B V HB0 HB b [sel] [sel'] Hb) as G. rewrite !RSum_one in G. apply G.
  intros s Hs. rewrite !RSum_one. auto.
Qed.

(** an entry that no structure of the row uses (a padded position, say) has
    marginal 0 *)
Theorem C87_unused c phi B : valid c -> 0 <= B -> bounded c B phi ->
  forall b e, row_ok c b -> In e (entries c b) -> (forall s, ok (spec_of c b) s -> ~ In e (prt (spec_of c b) s)) ->
    Rabs (q_marginals c phi e) <= 2 * INR (degree c b) * leak c b B.
Proof.
  intros V HB0 HB b e Hb He H.
  destruct (row_family V Hb) as (F & HF).
  assert (Hl : exists l, Enumerates (ok (spec_of c b)) l) by (rewrite <- (ir_spec HF); exists (flist F); apply (fenum F)).
  destruct Hl as (l & Hl).
  pose proof (@C20_marginals_value c phi B V HB0 HB b l e Hb (entries_row _ _ _ He) Hl) as D. cbv zeta in D.
  replace (marg_spec (prt (spec_of c b)) l phi e) with 0 in D; [now rewrite Rminus_0_r in D|].
  symmetry. unfold marg_spec. transitivity (RSum (fun _ : st (spec_of c b) => 0) l).
  - apply (Sum_ext_in R_csr). intros s Hs. unfold uses. rewrite (proj1 (count_occ_not_In _ _ _)); [simpl; ring|]. apply H. now apply Hl.
  - apply (Sum_zero R_csr); reflexivity.
Qed.
Print Assumptions C87_unused.

(** a delta in a sum over a range *)
Lemma RSum_delta k n : RSum (fun x => ind (x =? k)%nat) (seq 0 n) = ind (k <? n)%nat.
Proof.
  induction n as [|n IH]; [reflexivity|]. rewrite seq_S, RSum_app, IH, RSum_cons. cbn [Nat.add]. change (RSum _ []) with 0.
  unfold ind. destruct (Nat.ltb_spec k n), (Nat.ltb_spec k (S n)), (Nat.eqb_spec n k); try lia; lra.
Qed.

(** ** What every structure satisfies *)
(** spec: an entry is an arc between two words, in either direction *)
Definition link (x y : nat) (e : list nat) : bool :=
  ((nth 1 e 0 =? x) && (nth 2 e 0 =? y) || (nth 1 e 0 =? y) && (nth 2 e 0 =? x))%nat%bool.
Lemma hits_chain_step batch N C ls b n s : let c := CLin batch N C ls in valid c -> (n + 1 < lc_len N ls b)%nat -> ok (spec_of c b) s ->
  @hits c b (fun e => nth 1 e 0 =? n)%nat s = 1.
Proof.
  intros c V Hn Hs. rewrite hits_sc.
  pose proof (@C52_chain_step batch N C ls b (fun k => ind (k =? n)%nat) V s Hs) as E. unfold c. rewrite E, RSum_delta.
  unfold ind. destruct (Nat.ltb_spec n (Nat.max 1 (lc_len N ls b) - 1)); [reflexivity|lia].
Qed.
Lemma hits_chain_join batch N C ls b n y s : let c := CLin batch N C ls in valid c -> (n + 2 < lc_len N ls b)%nat -> ok (spec_of c b) s ->
  @hits c b (fun e => (nth 1 e 0 =? n) && (nth 2 e 0 =? y))%nat%bool s = @hits c b (fun e => (nth 1 e 0 =? n + 1) && (nth 3 e 0 =? y))%nat%bool s.
Proof.
  intros c V Hn Hs. rewrite !hits_sc.
  pose proof (@C52_chain_gauge batch N C ls b (fun k z => ind ((k =? n + 1)%nat && (z =? y)%nat)) V) as E. cbv beta in E.
  assert (Z0 : forall z, ind ((0 =? n + 1)%nat && (z =? y)%nat) = 0) by (intro; destruct (Nat.eqb_spec 0 (n + 1)); [lia|reflexivity]).
  assert (Z1 : forall z, ind ((Nat.max 1 (lc_len N ls b) - 1 =? n + 1)%nat && (z =? y)%nat) = 0).
  { intro z. destruct (Nat.eqb_spec (Nat.max 1 (lc_len N ls b) - 1) (n + 1)); [lia|reflexivity]. }
  specialize (E Z0 Z1 s Hs). unfold sc in E. rewrite RSum_sub in E.
  unfold sc, c. rewrite <- (Rminus_diag_uniq _ _ E). apply (Sum_ext R_csr). intro e. do 2 f_equal.
  destruct (Nat.eqb_spec (nth 1 e 0%nat) n), (Nat.eqb_spec (nth 1 e 0%nat + 1) (n + 1)); lia || reflexivity.
Qed.
Lemma hits_semi_cover batch N K C ls b t s : let c := CSemi batch N K C ls in valid c -> (t + 1 < lc_len N ls b)%nat -> ok (spec_of c b) s ->
  @hits c b (fun e => (nth 1 e 0 <=? t) && (t <? nth 1 e 0 + nth 2 e 0))%nat%bool s = 1.
Proof.
  intros c V Ht Hs. rewrite hits_sc.
  pose proof (@C52_semi_position batch N K C ls b (fun m => ind (t <? m)%nat) V s Hs) as E. cbv beta in E.
  transitivity (ind (t <? lc_len N ls b - 1)%nat - ind (t <? 0)%nat).
  - rewrite <- E. unfold sc. apply (Sum_ext R_csr). intro e. unfold ind.
    destruct (Nat.leb_spec (nth 1 e 0%nat) t), (Nat.ltb_spec t (nth 1 e 0%nat + nth 2 e 0%nat)), (Nat.ltb_spec t (nth 1 e 0%nat)); simpl; try lia; lra.
  - unfold ind. destruct (Nat.ltb_spec t (lc_len N ls b - 1)), (Nat.ltb_spec t 0); try lia; lra.
Qed.
Lemma hits_semi_join batch N K C ls b m y s : let c := CSemi batch N K C ls in (0 < m)%nat -> (m + 1 < lc_len N ls b)%nat -> ok (spec_of c b) s ->
  @hits c b (fun e => (nth 1 e 0 + nth 2 e 0 =? m) && (nth 3 e 0 =? y))%nat%bool s = @hits c b (fun e => (nth 1 e 0 =? m) && (nth 4 e 0 =? y))%nat%bool s.
Proof.
  set (ends := fun e : list nat => ((nth 1 e 0 + nth 2 e 0 =? m) && (nth 3 e 0 =? y))%nat%bool). set (starts := fun e : list nat => ((nth 1 e 0 =? m) && (nth 4 e 0 =? y))%nat%bool).
  intros c H0 Hm. destruct s as [c0 l]. intros (_ & _ & Hw). cbn [fst snd] in Hw. rewrite !hits_sc.
  unfold c, sc. cbn [spec_of prt]. unfold segm_parts. cbn [fst snd].
  assert (G : forall l c1 n, RSum (fun e => ind (ends e)) (segs_parts b n c1 l) - RSum (fun e => ind (starts e)) (segs_parts b n c1 l) =
    match l with [] => 0 | _ => ind ((n + widths l =? m)%nat && (snd (last l (0, c1)%nat) =? y)%nat) - ind ((n =? m)%nat && (c1 =? y)%nat) end).
  { clear. induction l as [|[w c2] l IH]; intros c1 n; [unfold Sum; simpl; ring|]. cbn [segs_parts]. rewrite !RSum_cons.
    specialize (IH c2 (n + w)%nat). set (U := RSum (fun e => ind (ends e)) (segs_parts b (n + w) c2 l)) in *.
    set (U' := RSum (fun e => ind (starts e)) (segs_parts b (n + w) c2 l)) in *. unfold ends, starts. cbn [nth].
    transitivity ((U - U') + ind ((n + w =? m)%nat && (c2 =? y)%nat) - ind ((n =? m)%nat && (c1 =? y)%nat)); [ring|]. rewrite IH.
    destruct l as [|[w' c3] l].
    - unfold widths. cbn [map list_sum fold_right fst snd last]. rewrite Nat.add_0_r. ring.
    - replace (n + widths ((w, c2) :: (w', c3) :: l))%nat with (n + w + widths ((w', c3) :: l))%nat by (unfold widths; simpl; lia).
      change (last ((w, c2) :: (w', c3) :: l) (0, c1)%nat) with (last ((w', c3) :: l) (0, c1)%nat).
      replace (last ((w', c3) :: l) (0, c1)%nat) with (last ((w', c3) :: l) (0, c2)%nat); [ring|].
      clear. revert w' c3. induction l as [|[w2 c4] l IH]; intros w' c3; [reflexivity|]. apply IH. }
  specialize (G l c0 0%nat). apply Rminus_diag_uniq. rewrite G. destruct l as [|x l]; [reflexivity|]. cbn [Nat.add]. rewrite Hw.
  destruct (Nat.eqb_spec (lc_len N ls b - 1) m), (Nat.eqb_spec 0 m); try lia. unfold ind. simpl. ring.
Qed.
Lemma hits_tree_word batch N NT ls b i s : let c := CTree batch N NT ls in let n := eff_len N (lc_len N ls b) in valid c -> (i < n)%nat -> ok (spec_of c b) s ->
  @hits c b (fun e => (nth 1 e 0 =? i) && (nth 2 e 0 =? i))%nat%bool s = 1.
Proof.
  intros c n V Hi Hs. rewrite hits_sc.
    pose proof (@C52_tree_words batch N NT ls b (fun k => ind (k =? i)%nat) 0 V s Hs) as E. cbv zeta in E.
    rewrite RSum_delta in E. fold n in E. transitivity (ind (i <? n)%nat + (2 * INR n - 1) * 0).
    + rewrite <- E. unfold sc. apply (Sum_ext R_csr). intro e. unfold ind.
      destruct (Nat.eqb_spec (nth 1 e 0%nat) i), (Nat.eqb_spec (nth 2 e 0%nat) i), (Nat.eqb_spec (nth 1 e 0%nat) (nth 2 e 0%nat)); simpl; try lia; lra.
    + unfold ind. destruct (Nat.ltb_spec i n); [ring|lia].
Qed.
Lemma hits_tree_root batch N NT ls b s : let c := CTree batch N NT ls in let n := eff_len N (lc_len N ls b) in ok (spec_of c b) s ->
  @hits c b (fun e => (nth 1 e 0 =? 0) && (nth 2 e 0 =? n - 1))%nat%bool s = 1.
Proof.
  intros c n [Hs _]. rewrite hits_sc. unfold c, sc. cbn [spec_of prt].
    fold n in Hs. rewrite <- Hs.
    assert (Z : forall t j k i, (i + lsize t <= k \/ j < i)%nat ->
      RSum (fun e => ind ((nth 1 e 0 =? j)%nat && (nth 2 e 0 =? k)%nat)) (lparts b i t) = 0).
    { intros t j k i H. transitivity (RSum (fun _ : list nat => 0) (lparts b i t)); [|apply (Sum_zero R_csr); reflexivity].
      apply (Sum_ext_in R_csr). intros e He. apply lparts_in in He as (p & q & a & -> & ? & ? & ?). cbn [nth].
      destruct (Nat.eqb_spec p j), (Nat.eqb_spec q k); simpl; try reflexivity. lia. }
    destruct s as [a|a l r].
    + cbn [lparts lsize]. rewrite RSum_cons. cbn [nth]. unfold Sum, ind. simpl. ring.
    + pose proof (lsize_pos l). pose proof (lsize_pos r). cbn [lparts lsize]. rewrite RSum_cons, RSum_app. rewrite !Z by lia. cbn [nth Nat.add].
      rewrite !Nat.eqb_refl. unfold ind. simpl. ring.
Qed.
Lemma hits_tree_all batch N NT ls b s : let c := CTree batch N NT ls in let n := eff_len N (lc_len N ls b) in valid c -> ok (spec_of c b) s ->
  @hits c b (fun _ => true) s = 2 * INR n - 1.
Proof.
  intros c n V Hs. rewrite hits_sc.
    pose proof (@C52_tree_words batch N NT ls b (fun k => 0) 1 V s Hs) as E. cbv zeta in E. fold n in E.
    transitivity (RSum (fun _ => 0) (seq 0 n) + (2 * INR n - 1) * 1); [|rewrite RSum_const; ring].
    rewrite <- E. unfold sc. apply (Sum_ext R_csr). intro e. unfold ind. destruct (nth 1 e 0 =? nth 2 e 0)%nat; ring.
Qed.
Lemma hits_tree_cross batch N NT ls b i j i' j' s : let c := CTree batch N NT ls in (i < i' <= j /\ j < j')%nat ->
  @hits c b (fun e => (nth 1 e 0 =? i) && (nth 2 e 0 =? j) || (nth 1 e 0 =? i') && (nth 2 e 0 =? j'))%nat%bool s <= 1.
Proof.
  intros c H. rewrite hits_sc. unfold c, sc. cbn [spec_of prt].
  set (f := fun e : list nat => ind _).
  assert (Z : forall t k, (i < k \/ k + lsize t <= j)%nat -> (i' < k \/ k + lsize t <= j')%nat -> RSum f (lparts b k t) = 0).
  { intros t k G1 G2. transitivity (RSum (fun _ : list nat => 0) (lparts b k t)); [|apply (Sum_zero R_csr); reflexivity].
    apply (Sum_ext_in R_csr). intros e He. apply lparts_in in He as (p & q & a & -> & ? & ? & ?). unfold f. cbn [nth].
    destruct (Nat.eqb_spec p i), (Nat.eqb_spec q j), (Nat.eqb_spec p i'), (Nat.eqb_spec q j'); simpl; try reflexivity; lia. }
  assert (G : forall t k, RSum f (lparts b k t) <= 1).
  { induction t as [a|a l IHl r IHr]; intro k; cbn [lparts].
    - rewrite RSum_cons. change (RSum f []) with 0. unfold f, ind. destruct (_ || _)%bool; lra.
    - pose proof (lsize_pos l). pose proof (lsize_pos r). rewrite RSum_cons, RSum_app.
      assert (F : f [b; k; (k + (lsize l + lsize r) - 1)%nat; a] <= 1 /\
        (f [b; k; (k + (lsize l + lsize r) - 1)%nat; a] = 0 \/ (k = i /\ k + (lsize l + lsize r) - 1 = j)%nat \/ (k = i' /\ k + (lsize l + lsize r) - 1 = j')%nat)).
      { unfold f, ind. cbn [nth]. destruct (Nat.eqb_spec k i), (Nat.eqb_spec (k + (lsize l + lsize r) - 1) j), (Nat.eqb_spec k i'), (Nat.eqb_spec (k + (lsize l + lsize r) - 1) j'); cbn [andb orb]; (split; [lra|]); auto. }
      destruct F as [F1 [F2|F2]].
      + rewrite F2. specialize (IHl k). specialize (IHr (k + lsize l)%nat).
        destruct (le_lt_dec (k + lsize l) i) as [L|L]; [rewrite (Z l k) by lia; lra|].
        destruct (le_lt_dec (k + lsize l) i') as [L'|L']; [rewrite (Z l k) by lia; lra|].
        rewrite (Z r (k + lsize l)%nat) by lia. lra.
      + rewrite (Z l k), (Z r (k + lsize l)%nat) by lia. lra. }
  apply G.
Qed.
Lemma dep_sum mr batch n lab ls b s : ok (spec_of (CDep mr batch n lab ls) b) s ->
  exists h, dep_ok mr (lc_len n ls b) h /\
    forall F : nat -> nat -> R, sc (prt (spec_of (CDep mr batch n lab ls) b)) (fun e => F (nth 1 e 0%nat) (nth 2 e 0%nat)) s =
      RSum (fun k => F (match nth k h 0 with 0 => k | S p => p end)%nat k) (seq 0 (lc_len n ls b)).
Proof.
  destruct lab as [L|]; cbn [spec_of prt ok st].
  - intros [[Hp Hf] Hr]. exists (map fst s). split; [split; auto|]. intro F. destruct Hp as [Hl _]. rewrite <- Hl. unfold sc, ldep_parts. clear.
    assert (G : forall h c, RSum (fun e => F (nth 1 e 0%nat) (nth 2 e 0%nat)) (ldep_parts_from b c h) =
      RSum (fun k => F (match nth k (map fst h) 0 with 0 => c + k | S p => p end)%nat (c + k)%nat) (seq 0 (length (map fst h)))).
    { induction h as [|x h IH]; intro c; [reflexivity|]. cbn [ldep_parts_from map length seq]. rewrite !RSum_cons, IH, <- seq_shift, RSum_map'.
      f_equal.
      - cbn [nth]. rewrite Nat.add_0_r. unfold dep_part. destruct (fst x); reflexivity.
      - apply (Sum_ext R_csr). intro k. cbn [nth]. replace (c + S k)%nat with (S c + k)%nat by lia. reflexivity. }
    apply (G s 0%nat).
  - intros [Hp Hr]. exists s. split; [split; auto|]. intro F. destruct Hp as [Hl _]. rewrite <- Hl. unfold sc, dep_parts. clear.
    assert (G : forall h c, RSum (fun e => F (nth 1 e 0%nat) (nth 2 e 0%nat)) (dep_parts_from b c h) =
      RSum (fun k => F (match nth k h 0 with 0 => c + k | S p => p end)%nat (c + k)%nat) (seq 0 (length h))).
    { induction h as [|x h IH]; intro c; [reflexivity|]. cbn [dep_parts_from length seq]. rewrite !RSum_cons, IH, <- seq_shift, RSum_map'.
      f_equal.
      - cbn [nth]. rewrite Nat.add_0_r. unfold dep_part. destruct x; reflexivity.
      - apply (Sum_ext R_csr). intro k. cbn [nth]. replace (c + S k)%nat with (S c + k)%nat by lia. reflexivity. }
    apply (G s 0%nat).
Qed.
Lemma noself n h k : is_proj n h -> (1 <= k <= n)%nat -> hd_of h k <> k.
Proof.
  intros (_ & H & _) Hk E. destruct (H k Hk) as [_ [t Ht]].
  assert (I : Nat.iter t (hd_of h) k = k) by (clear Ht; induction t as [|t IH]; [reflexivity|]; cbn [Nat.iter nat_rect]; unfold Nat.iter in IH; rewrite IH; exact E).
  lia.
Qed.
Lemma anc_next h x q : anc h x q -> x <> q -> anc h (hd_of h x) q.
Proof. intros [[|t] Ht] Hn; [simpl in Ht; congruence|]. exists t. now rewrite iter_shift in Ht. Qed.
(** two arcs of a projective tree do not cross *)
Lemma no_cross n h k1 k2 x y z w : is_proj n h -> (1 <= k1 <= n)%nat -> (1 <= k2 <= n)%nat -> (x < z < y /\ y < w)%nat ->
  (hd_of h k1 = x /\ k1 = y \/ hd_of h k1 = y /\ k1 = x)%nat -> (hd_of h k2 = z /\ k2 = w \/ hd_of h k2 = w /\ k2 = z)%nat -> False.
Proof.
  intros Hp H1 H2 Ho A1 A2. pose proof (proj_tree Hp) as T. destruct Hp as (Hl & Hh & Hb).
  assert (B1 : anc h z (hd_of h k1)) by (apply Hb; [lia|unfold between; lia]).
  assert (B2 : anc h y (hd_of h k2)) by (apply Hb; [lia|unfold between; lia]).
  assert (Hw : (w <= n)%nat). { destruct (Hh k2 H2). lia. }
  destruct A1 as [[E1 ->]|[E1 ->]], A2 as [[E2 ->]|[E2 ->]]; rewrite E1 in B1; rewrite E2 in B2.
  - apply anc_next in B2; [|lia]. rewrite E1 in B2. pose proof (@anc_antisym n h x z T ltac:(lia) ltac:(lia) B2 B1). lia.
  - apply anc_next in B2; [|lia]. rewrite E1 in B2. apply anc_next in B1; [|lia]. rewrite E2 in B1.
    pose proof (@anc_antisym n h x w T ltac:(lia) ltac:(lia) B2 B1). lia.
  - pose proof (@anc_antisym n h y z T ltac:(lia) ltac:(lia) B2 B1). lia.
  - apply anc_next in B1; [|lia]. rewrite E2 in B1. pose proof (@anc_antisym n h y w T ltac:(lia) ltac:(lia) B2 B1). lia.
Qed.
Lemma RSum_ind_le1 (f : nat -> bool) n : (forall j k, (j < n)%nat -> (k < n)%nat -> f j = true -> f k = true -> j = k) ->
  RSum (fun k => ind (f k)) (seq 0 n) <= 1.
Proof.
  induction n as [|n IH]; intro H; [unfold Sum; simpl; lra|]. rewrite seq_S, RSum_app, RSum_one. cbn [Nat.add].
  destruct (f n) eqn:E.
  - replace (RSum (fun k => ind (f k)) (seq 0 n)) with 0; [unfold ind; lra|]. symmetry. apply (Sum_zero R_csr). intros k Hk. apply in_seq in Hk.
    unfold ind. destruct (f k) eqn:G; [|reflexivity]. pose proof (H k n ltac:(lia) ltac:(lia) G E). lia.
  - unfold ind at 2. rewrite Rplus_0_r. apply IH. intros j k Hj Hk. apply H; lia.
Qed.
Lemma hits_dep_word mr batch n lab ls b m s : let c := CDep mr batch n lab ls in valid c -> (m < lc_len n ls b)%nat -> ok (spec_of c b) s ->
  @hits c b (fun e => nth 2 e 0 =? m)%nat s = 1.
Proof.
  intros c V Hm Hs. rewrite hits_sc.
    pose proof (@C52_dep_word mr batch n lab ls b (fun k => ind (k =? m)%nat) V s Hs) as E. unfold c. rewrite E, RSum_delta.
    unfold ind. destruct (Nat.ltb_spec m (lc_len n ls b)); [reflexivity|lia].
Qed.
Lemma hits_dep_root batch n lab ls b s : let c := CDep false batch n lab ls in ok (spec_of c b) s ->
  @hits c b (fun e => nth 1 e 0 =? nth 2 e 0)%nat s = 1.
Proof.
  intros c Hs. rewrite hits_sc. apply dep_sum in Hs as (h & [Hp Hr] & E).
    unfold c. rewrite (E (fun p k => ind (p =? k)%nat)). specialize (Hr eq_refl). unfold single_root in Hr.
    rewrite <- (proj1 Hp). replace 1 with (INR (count_occ Nat.eq_dec h 0%nat)) by (rewrite Hr; reflexivity).
    assert (NS : forall k, (k < length h)%nat -> nth k h 0%nat <> S k).
    { intros k Hk. apply (@noself _ h (S k) Hp). rewrite (proj1 Hp) in Hk. lia. }
    clear - NS. assert (G : forall c, (forall k, (k < length h)%nat -> nth k h 0%nat <> S (c + k)) ->
      RSum (fun k => ind (match nth k h 0 with 0 => c + k | S p => p end =? c + k)%nat) (seq 0 (length h)) = INR (count_occ Nat.eq_dec h 0%nat)).
    { clear NS. induction h as [|x h IH]; intros c NS; [reflexivity|]. cbn [length seq]. rewrite RSum_cons, <- seq_shift, RSum_map'.
      cbn [nth count_occ].
      assert (R1 : RSum (fun k => ind (match nth k h 0 with 0 => c + S k | S p => p end =? c + S k)%nat) (seq 0 (length h)) = INR (count_occ Nat.eq_dec h 0%nat)).
      { rewrite <- (IH (S c)).
        - apply (Sum_ext R_csr). intro k. replace (c + S k)%nat with (S c + k)%nat by lia. reflexivity.
        - intros k Hk. specialize (NS (S k)). cbn [nth length] in NS. specialize (NS ltac:(lia)). lia. }
      rewrite R1. specialize (NS 0%nat ltac:(simpl; lia)). cbn [nth] in NS. rewrite Nat.add_0_r in *.
      destruct x as [|x]; destruct (Nat.eq_dec _ 0); try lia; unfold ind.
      - rewrite Nat.eqb_refl, S_INR. ring.
      - destruct (Nat.eqb_spec x c); [congruence|]. ring. }
    apply (G 0%nat). exact NS.
Qed.
Lemma hits_dep_cross mr batch n lab ls b s : let c := CDep mr batch n lab ls in ok (spec_of c b) s ->
  (forall x y z w, (x < z < y /\ y < w)%nat -> @hits c b (fun e => link x y e || link z w e)%bool s <= 1) /\
  (forall x k y, (x < k < y)%nat -> @hits c b (fun e => link k k e || link x y e)%bool s <= 1) /\
  (forall x y, x <> y -> @hits c b (link x y) s <= 1).
Proof.
  intros c Hs.
  assert (G : forall sel : nat -> nat -> bool,
    (forall h j k, is_proj (lc_len n ls b) h -> (j < lc_len n ls b)%nat -> (k < lc_len n ls b)%nat ->
      sel (match nth j h 0 with 0 => j | S p => p end)%nat j = true -> sel (match nth k h 0 with 0 => k | S p => p end)%nat k = true -> j = k) ->
    @hits c b (fun e => sel (nth 1 e 0%nat) (nth 2 e 0%nat)) s <= 1).
  { intros sel H. rewrite hits_sc. apply dep_sum in Hs as (h & [Hp _] & E).
    unfold c. rewrite (E (fun p k => ind (sel p k))). apply RSum_ind_le1. intros j k Hj Hk. now apply H. }
  split; [|split].
  - intros x y z w Ho. apply (G (fun p k => ((p =? x) && (k =? y) || (p =? y) && (k =? x)) || ((p =? z) && (k =? w) || (p =? w) && (k =? z)))%nat%bool).
    intros h j k Hp Hj Hk E1 E2. destruct (Nat.eq_dec j k) as [|Hn]; [auto|exfalso].
    assert (T := proj_tree Hp).
    assert (K : forall i, (i < lc_len n ls b)%nat ->
      ((((match nth i h 0 with 0 => i | S p => p end =? x) && (i =? y) || (match nth i h 0 with 0 => i | S p => p end =? y) && (i =? x)) ||
       ((match nth i h 0 with 0 => i | S p => p end =? z) && (i =? w) || (match nth i h 0 with 0 => i | S p => p end =? w) && (i =? z)))%nat%bool = true) ->
      (hd_of h (S i) = S x /\ S i = S y \/ hd_of h (S i) = S y /\ S i = S x) \/ (hd_of h (S i) = S z /\ S i = S w \/ hd_of h (S i) = S w /\ S i = S z)).
    { intros i Hi E. cbn [hd_of]. destruct (nth i h 0%nat) as [|p];
        rewrite !orb_true_iff, !andb_true_iff, !Nat.eqb_eq in E; lia. }
    apply K in E1, E2; auto. clear K.
    assert (CY : forall i i', (i < lc_len n ls b)%nat -> (i' < lc_len n ls b)%nat -> hd_of h (S i) = S i' -> hd_of h (S i') = S i -> i <> i' -> False).
    { intros i i' Hi Hi' F1 F2 Hne. assert (S i = S i'); [|lia]. apply (@anc_antisym _ h (S i) (S i') T); try lia; [exists 1%nat; exact F1|exists 1%nat; exact F2]. }
    destruct E1 as [E1|E1], E2 as [E2|E2].
    + destruct E1 as [[F1 G1]|[F1 G1]], E2 as [[F2 G2]|[F2 G2]]; try lia; injection G1 as ->; injection G2 as ->; [apply (CY y x)|apply (CY x y)]; auto; lia.
    + apply (@no_cross _ h (S j) (S k) (S x) (S y) (S z) (S w) Hp); auto; lia.
    + apply (@no_cross _ h (S k) (S j) (S x) (S y) (S z) (S w) Hp); auto; lia.
    + destruct E1 as [[F1 G1]|[F1 G1]], E2 as [[F2 G2]|[F2 G2]]; try lia; injection G1 as ->; injection G2 as ->; [apply (CY w z)|apply (CY z w)]; auto; lia.
  - intros x r y Ho. apply (G (fun p k => ((p =? r) && (k =? r) || (p =? r) && (k =? r)) || ((p =? x) && (k =? y) || (p =? y) && (k =? x)))%nat%bool).
    intros h j k Hp Hj Hk E1 E2. destruct (Nat.eq_dec j k) as [|Hn]; [auto|exfalso].
    assert (T := proj_tree Hp).
    assert (K : forall i, (i < lc_len n ls b)%nat ->
      ((((match nth i h 0 with 0 => i | S p => p end =? r) && (i =? r) || (match nth i h 0 with 0 => i | S p => p end =? r) && (i =? r)) ||
       ((match nth i h 0 with 0 => i | S p => p end =? x) && (i =? y) || (match nth i h 0 with 0 => i | S p => p end =? y) && (i =? x)))%nat%bool = true) ->
      (hd_of h (S i) = 0%nat /\ S i = S r) \/ (hd_of h (S i) = S x /\ S i = S y \/ hd_of h (S i) = S y /\ S i = S x)).
    { intros i Hi E. pose proof (@noself _ h (S i) Hp ltac:(lia)) as NS. cbn [hd_of] in *. destruct (nth i h 0%nat) as [|p];
        rewrite !orb_true_iff, !andb_true_iff, !Nat.eqb_eq in E; lia. }
    apply K in E1, E2; auto. clear K.
    destruct E1 as [[F1 G1]|E1], E2 as [[F2 G2]|E2].
    + lia.
    + apply (@no_cross _ h (S j) (S k) 0 (S r) (S x) (S y) Hp); auto; lia.
    + apply (@no_cross _ h (S k) (S j) 0 (S r) (S x) (S y) Hp); auto; lia.
    + destruct E1 as [[F1 G1]|[F1 G1]], E2 as [[F2 G2]|[F2 G2]]; try lia; injection G1 as ->; injection G2 as ->;
        assert (S x = S y); try lia; apply (@anc_antisym _ h (S x) (S y) T); try lia; exists 1%nat; auto.
  - intros x y Hxy. apply (G (fun p k => ((p =? x) && (k =? y) || (p =? y) && (k =? x)))%nat%bool).
    intros h j k Hp Hj Hk E1 E2. destruct (Nat.eq_dec j k) as [|Hn]; [auto|exfalso].
    assert (T := proj_tree Hp).
    assert (K : forall i, (i < lc_len n ls b)%nat ->
      (((match nth i h 0 with 0 => i | S p => p end =? x) && (i =? y) || (match nth i h 0 with 0 => i | S p => p end =? y) && (i =? x))%nat%bool = true) ->
      (hd_of h (S i) = S x /\ S i = S y \/ hd_of h (S i) = S y /\ S i = S x)).
    { intros i Hi E. cbn [hd_of]. destruct (nth i h 0%nat) as [|p];
        rewrite !orb_true_iff, !andb_true_iff, !Nat.eqb_eq in E; lia. }
    apply K in E1, E2; auto. clear K.
    destruct E1 as [[F1 G1]|[F1 G1]], E2 as [[F2 G2]|[F2 G2]]; try lia; injection G1 as ->; injection G2 as ->;
      assert (S x = S y); try lia; apply (@anc_antisym _ h (S x) (S y) T); try lia; exists 1%nat; auto.
Qed.
Lemma hits_cfg_root batch N NT T ls b s : let c := CCfg batch N NT T ls in @hits c b (fun e => nth 0 e 0 =? 2)%nat s = 1.
Proof.
  set (root := fun e : list nat => (nth 0 e 0 =? 2)%nat). intros c. rewrite hits_sc. unfold c, sc. cbn [spec_of prt]. unfold parse_parts. rewrite RSum_cons.
    replace (RSum (fun e => ind (root e)) (pparts NT b 0 s)) with 0; [unfold root, ind; simpl; ring|]. symmetry.
    generalize 0%nat at 1. induction s as [t|x l IHl r IHr]; intro i; cbn [pparts].
    + rewrite RSum_one. reflexivity.
    + rewrite RSum_cons, RSum_app, IHl, IHr. unfold root, ind. simpl. ring.
Qed.
Lemma hits_cfg_word batch N NT T ls b i s : let c := CCfg batch N NT T ls in let n := eff_len N (lc_len N ls b) in (i < n)%nat -> ok (spec_of c b) s ->
  @hits c b (fun e => (nth 0 e 0 =? 0) && (nth 2 e 0 =? i))%nat%bool s = 1.
Proof.
  set (word := fun (i : nat) (e : list nat) => ((nth 0 e 0 =? 0) && (nth 2 e 0 =? i))%nat%bool). change (fun e : list nat => ((nth 0 e 0 =? 0) && (nth 2 e 0 =? i))%nat%bool) with (word i).
  intros c n Hi (Hs & _ & _). rewrite hits_sc. unfold c, sc. cbn [spec_of prt]. unfold parse_parts. rewrite RSum_cons.
    assert (G : forall s j, RSum (fun e => ind (word i e)) (pparts NT b j s) = ind ((j <=? i) && (i <? j + psize s))%nat%bool).
    { clear. induction s as [t|x l IHl r IHr]; intro j; cbn [pparts psize].
      - rewrite RSum_one. unfold word, ind. cbn [nth]. destruct (Nat.eqb_spec j i), (Nat.leb_spec j i), (Nat.ltb_spec i (j + 1)); simpl; lia || reflexivity.
      - pose proof (psize_pos l). pose proof (psize_pos r). rewrite RSum_cons, RSum_app, IHl, IHr. unfold word at 1. cbn [nth]. unfold ind. cbn [Nat.eqb andb].
        destruct (Nat.leb_spec j i), (Nat.ltb_spec i (j + psize l)), (Nat.leb_spec (j + psize l) i), (Nat.ltb_spec i (j + psize l + psize r)),
          (Nat.ltb_spec i (j + (psize l + psize r))); simpl; try lia; ring. }
    rewrite G. unfold word at 1. cbn [nth]. fold n in Hs. rewrite Hs. unfold ind. destruct (Nat.leb_spec 0 i), (Nat.ltb_spec i (0 + n)); simpl; try lia; ring.
Qed.
Lemma hits_cfg_rule batch N NT T ls b s : let c := CCfg batch N NT T ls in let n := eff_len N (lc_len N ls b) in ok (spec_of c b) s ->
  @hits c b (fun e => nth 0 e 0 =? 1)%nat s = INR n - 1.
Proof.
  set (rule := fun e : list nat => (nth 0 e 0 =? 1)%nat). intros c n (Hs & _ & _). rewrite hits_sc. unfold c, sc. cbn [spec_of prt]. unfold parse_parts. rewrite RSum_cons.
    assert (G : forall s j, RSum (fun e => ind (rule e)) (pparts NT b j s) = INR (psize s) - 1).
    { clear. induction s as [t|x l IHl r IHr]; intro j; cbn [pparts psize].
      - rewrite RSum_one. unfold rule, ind. simpl. ring.
      - rewrite RSum_cons, RSum_app, IHl, IHr, plus_INR. unfold rule, ind. simpl. ring. }
    rewrite G. fold n in Hs. rewrite Hs. unfold rule, ind. simpl. ring.
Qed.
(** spec: entries of SentCFG by the role of a symbol: root, parent of a rule, left or right child *)
Definition role (k ax A : nat) (e : list nat) : bool := ((nth 0 e 0 =? k) && (nth ax e 0 =? A))%nat%bool.
Lemma hits_cfg_flow batch N NT T ls b s A : let c := CCfg batch N NT T ls in (A < NT)%nat -> ok (spec_of c b) s ->
  RSum (fun sel => @hits c b sel s) [role 1 2 A] = RSum (fun sel => @hits c b sel s) [role 2 2 A; role 1 3 A; role 1 4 A].
Proof.
  set (parent := role 1 2). set (root := role 2 2). set (left := role 1 3). set (right := role 1 4).
  intros c HA (_ & Hp & Hr). rewrite !RSum_cons, !hits_sc. change (RSum _ []) with 0. unfold c, sc. cbn [spec_of prt]. unfold parse_parts. rewrite !RSum_cons.
    assert (G : forall s j, pbounded NT T s -> RSum (fun e => ind (parent A e)) (pparts NT b j s) =
      ind (psym NT s =? A)%nat + RSum (fun e => ind (left A e)) (pparts NT b j s) + RSum (fun e => ind (right A e)) (pparts NT b j s) /\
      RSum (fun e => ind (root A e)) (pparts NT b j s) = 0).
    { clear - HA. induction s as [t|x l IHl r IHr]; intros j Hb; cbn [pparts psym pbounded] in *.
      - rewrite !RSum_one. unfold parent, left, right, root, role, ind. cbn [nth Nat.eqb andb]. destruct (Nat.eqb_spec (NT + t) A); [lia|]. split; [ring|reflexivity].
      - destruct Hb as (Hx & Hl & Hr). destruct (IHl j Hl) as [E1 E2], (IHr (j + psize l)%nat Hr) as [E3 E4].
        rewrite !RSum_cons, !RSum_app, E1, E2, E3, E4.
        change (parent A [1%nat; b; x; psym NT l; psym NT r]) with (x =? A)%nat. change (left A [1%nat; b; x; psym NT l; psym NT r]) with (psym NT l =? A)%nat.
        change (right A [1%nat; b; x; psym NT l; psym NT r]) with (psym NT r =? A)%nat. change (ind (root A [1%nat; b; x; psym NT l; psym NT r])) with 0. split; ring. }
    destruct (G s 0%nat Hp) as [E1 E2]. rewrite E1, E2. change (ind (parent A [2%nat; b; psym NT s])) with 0. change (ind (left A [2%nat; b; psym NT s])) with 0.
    change (ind (right A [2%nat; b; psym NT s])) with 0. change (root A [2%nat; b; psym NT s]) with (psym NT s =? A)%nat. ring.
Qed.
Lemma hits_cfg_preterm batch N NT T ls b s t : let c := CCfg batch N NT T ls in (t < T)%nat -> ok (spec_of c b) s ->
  RSum (fun sel => @hits c b sel s) [role 0 3 t] = RSum (fun sel => @hits c b sel s) [role 1 3 (NT + t)%nat; role 1 4 (NT + t)%nat].
Proof.
  set (term := role 0 3). set (left := role 1 3). set (right := role 1 4).
  intros c Ht (_ & Hp & Hr). rewrite !RSum_cons, !hits_sc. change (RSum _ []) with 0. unfold c, sc. cbn [spec_of prt]. unfold parse_parts. rewrite !RSum_cons.
    assert (G : forall s j, pbounded NT T s -> RSum (fun e => ind (term t e)) (pparts NT b j s) =
      ind (psym NT s =? NT + t)%nat + RSum (fun e => ind (left (NT + t)%nat e)) (pparts NT b j s) + RSum (fun e => ind (right (NT + t)%nat e)) (pparts NT b j s)).
    { clear - Ht. induction s as [u|x l IHl r IHr]; intros j Hb; cbn [pparts psym pbounded] in *.
      - rewrite !RSum_one. unfold term, left, right, role, ind. cbn [nth Nat.eqb andb]. destruct (Nat.eqb_spec (NT + u) (NT + t)), (Nat.eqb_spec u t); try lia; ring.
      - destruct Hb as (Hx & Hl & Hr). rewrite !RSum_cons, !RSum_app, (IHl j Hl), (IHr (j + psize l)%nat Hr).
        change (left (NT + t)%nat [1%nat; b; x; psym NT l; psym NT r]) with (psym NT l =? NT + t)%nat.
        change (right (NT + t)%nat [1%nat; b; x; psym NT l; psym NT r]) with (psym NT r =? NT + t)%nat. change (ind (term t [1%nat; b; x; psym NT l; psym NT r])) with 0.
        destruct (Nat.eqb_spec x (NT + t)); [lia|]. change (ind false) with 0. ring. }
    rewrite (G s 0%nat Hp). change (ind (term t [2%nat; b; psym NT s])) with 0. change (ind (left (NT + t)%nat [2%nat; b; psym NT s])) with 0.
    change (ind (right (NT + t)%nat [2%nat; b; psym NT s])) with 0. destruct (Nat.eqb_spec (psym NT s) (NT + t)); [lia|]. change (ind false) with 0. ring.
Qed.

(** ** LinearChain *)
(** at each step inside the length, the entries sum to 1 *)
Theorem C87_chain_step batch N C ls phi B : let c := CLin batch N C ls in
  valid c -> 0 <= B -> bounded c B phi ->
  forall b n, row_ok c b -> (n + 1 < lc_len N ls b)%nat ->
    let sel e := (nth 1 e 0 =? n)%nat in Rabs (mass c phi b sel - 1) <= tol c b B sel.
Proof.
  intros c V HB0 HB b n Hb Hn sel. apply mass_eq; auto. intros s Hs. now apply hits_chain_step.
Qed.
Print Assumptions C87_chain_step.
(** the label of a word between two steps: read off the step before it or the
    step after it, it has the same probability *)
Theorem C87_chain_join batch N C ls phi B : let c := CLin batch N C ls in
  valid c -> 0 <= B -> bounded c B phi ->
  forall b n y, row_ok c b -> (n + 2 < lc_len N ls b)%nat ->
    let before e := ((nth 1 e 0 =? n) && (nth 2 e 0 =? y))%nat%bool in
    let after e := ((nth 1 e 0 =? n + 1) && (nth 3 e 0 =? y))%nat%bool in
    Rabs (mass c phi b before - mass c phi b after) <= tol c b B before + tol c b B after.
Proof.
  intros c V HB0 HB b n y Hb Hn before after. apply mass_agree; auto. intros s Hs. now apply hits_chain_join.
Qed.
Print Assumptions C87_chain_join.

(** ** SemiMarkov *)
(** every position inside the length is inside exactly one segment *)
Theorem C87_semi_cover batch N K C ls phi B : let c := CSemi batch N K C ls in
  valid c -> 0 <= B -> bounded c B phi ->
  forall b t, row_ok c b -> (t + 1 < lc_len N ls b)%nat ->
    let sel e := ((nth 1 e 0 <=? t) && (t <? nth 1 e 0 + nth 2 e 0))%nat%bool in
    Rabs (mass c phi b sel - 1) <= tol c b B sel.
Proof.
  intros c V HB0 HB b t Hb Ht sel. apply mass_eq; auto. intros s Hs. now apply hits_semi_cover.
Qed.
Print Assumptions C87_semi_cover.
(** a segment with label y ends at an inner boundary as often as a segment
    that follows label y starts there *)
Theorem C87_semi_join batch N K C ls phi B : let c := CSemi batch N K C ls in
  valid c -> 0 <= B -> bounded c B phi ->
  forall b m y, row_ok c b -> (0 < m)%nat -> (m + 1 < lc_len N ls b)%nat ->
    let ends e := ((nth 1 e 0 + nth 2 e 0 =? m) && (nth 3 e 0 =? y))%nat%bool in
    let starts e := ((nth 1 e 0 =? m) && (nth 4 e 0 =? y))%nat%bool in
    Rabs (mass c phi b ends - mass c phi b starts) <= tol c b B ends + tol c b B starts.
Proof.
  intros c V HB0 HB b m y Hb H0 Hm ends starts. apply mass_agree; auto. intros s Hs. now apply hits_semi_join.
Qed.
Print Assumptions C87_semi_join.

(** ** TreeCRF (exact) *)
Lemma exact_eq c phi b sel k : zero_free c = true -> valid c -> row_ok c b ->
  (forall s, ok (spec_of c b) s -> @hits c b sel s = k) -> mass c phi b sel = k.
Proof.
  intros Z V Hb H. assert (HB : bounded c 0 phi) by (left; exact Z).
  pose proof (@mass_eq c phi 0 V ltac:(lra) HB b sel k Hb H) as D. rewrite C87_exact in D by exact Z. apply Rabs_le_inv in D. lra.
Qed.
Lemma exact_le c phi b sel k : zero_free c = true -> valid c -> row_ok c b ->
  (forall s, ok (spec_of c b) s -> @hits c b sel s <= k) -> mass c phi b sel <= k.
Proof.
  intros Z V Hb H. assert (HB : bounded c 0 phi) by (left; exact Z).
  destruct (@C87_mass c phi 0 V ltac:(lra) HB b sel 0 k Hb) as [_ D].
  - intros s Hs. split; [apply pos_INR|auto].
  - rewrite C87_exact in D by exact Z. lra.
Qed.
(** each word is a bracket with one label; so is the whole sentence; a tree
    over n words has 2n-1 brackets *)
Theorem C87_tree batch N NT ls phi : let c := CTree batch N NT ls in valid c ->
  forall b, row_ok c b -> let n := eff_len N (lc_len N ls b) in
    (forall i, (i < n)%nat -> mass c phi b (fun e => (nth 1 e 0 =? i) && (nth 2 e 0 =? i))%nat%bool = 1) /\
    mass c phi b (fun e => (nth 1 e 0 =? 0) && (nth 2 e 0 =? n - 1))%nat%bool = 1 /\
    mass c phi b (fun _ => true) = 2 * INR n - 1.
Proof.
  intros c V b Hb n. split; [|split].
  - intros i Hi. apply exact_eq; auto. intros s Hs. now apply hits_tree_word.
  - apply exact_eq; auto. intros s Hs. now apply hits_tree_root.
  - apply exact_eq; auto. intros s Hs. now apply hits_tree_all.
Qed.
Print Assumptions C87_tree.
(** brackets that cross exclude each other: their probabilities sum to at most 1 *)
Theorem C87_tree_cross batch N NT ls phi : let c := CTree batch N NT ls in valid c ->
  forall b i j i' j', row_ok c b -> (i < i' <= j /\ j < j')%nat ->
    mass c phi b (fun e => (nth 1 e 0 =? i) && (nth 2 e 0 =? j) || (nth 1 e 0 =? i') && (nth 2 e 0 =? j'))%nat%bool <= 1.
Proof.
  intros c V b i j i' j' Hb H. apply exact_le; auto. intros s _. now apply hits_tree_cross.
Qed.
Print Assumptions C87_tree_cross.

(** ** DependencyCRF (exact) *)
(** each word has one head: the entries of its column, over all heads and
    labels, sum to 1; with one root per tree, so do the root arcs *)
Theorem C87_dep mr batch n lab ls phi : let c := CDep mr batch n lab ls in valid c ->
  forall b, row_ok c b ->
    (forall m, (m < lc_len n ls b)%nat -> mass c phi b (fun e => nth 2 e 0 =? m)%nat = 1) /\
    (mr = false -> mass c phi b (fun e => nth 1 e 0 =? nth 2 e 0)%nat = 1).
Proof.
  intros c V b Hb. split.
  - intros m Hm. apply exact_eq; auto. intros s Hs. now apply hits_dep_word.
  - intros ->. apply exact_eq; auto. intros s Hs. now apply hits_dep_root.
Qed.
Print Assumptions C87_dep.

(** arcs that cross exclude each other, and so do the two directions of one
    arc; the arc from the root to k lies above every word before k *)
Theorem C87_dep_cross mr batch n lab ls phi : let c := CDep mr batch n lab ls in valid c ->
  forall b, row_ok c b ->
    (forall x y z w, (x < z < y /\ y < w)%nat -> mass c phi b (fun e => link x y e || link z w e)%bool <= 1) /\
    (forall x k y, (x < k < y)%nat -> mass c phi b (fun e => link k k e || link x y e)%bool <= 1) /\
    (forall x y, x <> y -> mass c phi b (link x y) <= 1).
Proof.
  intros c V b Hb. split; [|split].
  - intros x y z w H. apply exact_le; auto. intros s Hs. now apply (hits_dep_cross _ _ _ _ _ _ _ Hs).
  - intros x k y H. apply exact_le; auto. intros s Hs. now apply (hits_dep_cross _ _ _ _ _ _ _ Hs).
  - intros x y H. apply exact_le; auto. intros s Hs. now apply (hits_dep_cross _ _ _ _ _ _ _ Hs).
Qed.
Print Assumptions C87_dep_cross.

(** ** SentCFG *)
(** one root symbol, one preterminal per word, one rule less than words *)
Theorem C87_cfg batch N NT T ls phi B : let c := CCfg batch N NT T ls in
  valid c -> 0 <= B -> bounded c B phi ->
  forall b, row_ok c b -> let n := eff_len N (lc_len N ls b) in
    let root e := (nth 0 e 0 =? 2)%nat in
    let word i e := ((nth 0 e 0 =? 0) && (nth 2 e 0 =? i))%nat%bool in
    let rule e := (nth 0 e 0 =? 1)%nat in
    Rabs (mass c phi b root - 1) <= tol c b B root /\
    (forall i, (i < n)%nat -> Rabs (mass c phi b (word i) - 1) <= tol c b B (word i)) /\
    Rabs (mass c phi b rule - (INR n - 1)) <= tol c b B rule.
Proof.
  intros c V HB0 HB b Hb n root word rule. split; [|split].
  - apply mass_eq; auto. intros s _. apply hits_cfg_root.
  - intros i Hi. apply mass_eq; auto. intros s Hs. now apply hits_cfg_word.
  - apply mass_eq; auto. intros s Hs. now apply hits_cfg_rule.
Qed.
Print Assumptions C87_cfg.
(** a nonterminal is rewritten as often as it appears as the root or as a child
    of a rule; a preterminal spells a word as often as it is a child of a rule *)
Theorem C87_cfg_flow batch N NT T ls phi B : let c := CCfg batch N NT T ls in
  valid c -> 0 <= B -> bounded c B phi ->
  forall b, row_ok c b ->
    let root := role 2 2 in let parent := role 1 2 in let left := role 1 3 in let right := role 1 4 in let term := role 0 3 in
    (forall A, (A < NT)%nat ->
      Rabs (mass c phi b (parent A) - (mass c phi b (root A) + mass c phi b (left A) + mass c phi b (right A)))
        <= tol c b B (parent A) + (tol c b B (root A) + tol c b B (left A) + tol c b B (right A))) /\
    (forall t, (t < T)%nat ->
      Rabs (mass c phi b (term t) - (mass c phi b (left (NT + t)%nat) + mass c phi b (right (NT + t)%nat)))
        <= tol c b B (term t) + (tol c b B (left (NT + t)%nat) + tol c b B (right (NT + t)%nat))).
Proof.
  intros c V HB0 HB b Hb; cbv zeta. split.
  - intros A HA. pose proof (@C87_balance c phi B V HB0 HB b [role 1 2 A] [role 2 2 A; role 1 3 A; role 1 4 A] Hb) as G.
    rewrite !RSum_cons in G. change (RSum (mass c phi b) []) with 0 in G. change (RSum (tol c b B) []) with 0 in G.
    rewrite !Rplus_0_r, <- !Rplus_assoc in *. apply G. clear G. intros s Hs. now apply hits_cfg_flow.
  - intros t Ht. pose proof (@C87_balance c phi B V HB0 HB b [role 0 3 t] [role 1 3 (NT + t)%nat; role 1 4 (NT + t)%nat] Hb) as G.
    rewrite !RSum_cons in G. change (RSum (mass c phi b) []) with 0 in G. change (RSum (tol c b B) []) with 0 in G.
    rewrite !Rplus_0_r in G. apply G. clear G. intros s Hs. now apply hits_cfg_preterm.
Qed.
Print Assumptions C87_cfg_flow.

(** ** Concrete cases *)
Lemma ex_all c : In c ex_calls -> valid c /\ bounded c 3 ex_phi /\ (forall b, (b < 2)%nat -> row_ok c b).
Proof.
  intro H. pose proof ex_hypotheses as E. rewrite Forall_forall in E. destruct (E c H) as (V & _ & R & HB).
  split; [exact V|]. split; [exact HB|]. intros b Hb. apply (R b Hb).
Qed.
(** chains of 4 and 2 words with 3 labels: the 9 entries of the middle step of
    the first row sum to 1 and both readings of word 1's label agree, up to 1e-27 *)
Example ex_C87_chain : let small := 9 * (2 * 4 * / 10 ^ 30) in
  Rabs (mass ex_lin ex_phi 0 (fun e => nth 1 e 0 =? 1)%nat - 1) <= small /\
  forall y, (y < 3)%nat ->
  Rabs (mass ex_lin ex_phi 0 (fun e => (nth 1 e 0 =? 0) && (nth 2 e 0 =? y))%nat%bool
        - mass ex_lin ex_phi 0 (fun e => (nth 1 e 0 =? 1) && (nth 3 e 0 =? y))%nat%bool) <= small.
Proof.
  intro small. destruct (@ex_all ex_lin ltac:(simpl; auto)) as (V & HB & R). destruct (ex_leak 0) as [L _].
  assert (D : degree ex_lin 0 = 4%nat) by reflexivity.
  assert (T : forall sel k, length (filter sel (entries ex_lin 0)) = k -> (k <= 9)%nat -> tol ex_lin 0 3 sel <= INR k * (2 * 4 * / 10 ^ 30)).
  { intros sel k <- Hk. unfold tol. rewrite D. apply Rmult_le_compat_l; [apply pos_INR|]. simpl INR. lra. }
  split.
  - eapply Rle_trans; [apply (@C87_chain_step 2 4 3 (Some [4; 2]%nat) ex_phi 3 V ltac:(lra) HB 0 1 (R 0%nat ltac:(lia))); vm_compute; lia|].
    eapply Rle_trans; [apply (T _ 9%nat); [reflexivity|lia]|]. unfold small. simpl INR. lra.
  - intros y Hy. eapply Rle_trans; [apply (@C87_chain_join 2 4 3 (Some [4; 2]%nat) ex_phi 3 V ltac:(lra) HB 0 0 y (R 0%nat ltac:(lia))); vm_compute; lia|].
    assert (P : 0 < / 10 ^ 30) by (apply Rinv_0_lt_compat, pow_lt; lra).
    eapply Rle_trans; [apply Rplus_le_compat; apply (T _ 3%nat)|unfold small; simpl INR; lra]; try lia;
      destruct y as [|[|[|y]]]; try lia; reflexivity.
Qed.
(** labelled dependency trees over 4 words with 2 labels, and binary trees over 4 words *)
Example ex_C87_trees :
  mass ex_dep ex_phi 0 (fun e => nth 2 e 0 =? 3)%nat = 1 /\ length (filter (fun e => nth 2 e 0 =? 3)%nat (entries ex_dep 0)) = 8%nat /\
  mass ex_dep ex_phi 0 (fun e => nth 1 e 0 =? nth 2 e 0)%nat = 1 /\
  mass ex_dep ex_phi 0 (fun e => link 0 2 e || link 1 3 e)%bool <= 1 /\
  mass ex_tree ex_phi 1 (fun e => (nth 1 e 0 =? 0) && (nth 2 e 0 =? 3))%nat%bool = 1 /\
  mass ex_tree ex_phi 1 (fun _ => true) = 7 /\
  mass ex_tree ex_phi 1 (fun e => (nth 1 e 0 =? 0) && (nth 2 e 0 =? 2) || (nth 1 e 0 =? 1) && (nth 2 e 0 =? 3))%nat%bool <= 1.
Proof.
  destruct (@ex_all ex_dep ltac:(simpl; auto 6)) as (V & _ & R). destruct (@ex_all ex_tree ltac:(simpl; auto)) as (V' & _ & R').
  destruct (@C87_dep false 2 4 (Some 2%nat) (Some [4; 2]%nat) ex_phi V 0 (R 0%nat ltac:(lia))) as [D1 D2].
  destruct (@C87_dep_cross false 2 4 (Some 2%nat) (Some [4; 2]%nat) ex_phi V 0 (R 0%nat ltac:(lia))) as [D3 _].
  destruct (@C87_tree 2 4 2 (Some [2; 4]%nat) ex_phi V' 1 (R' 1%nat ltac:(lia))) as (_ & T2 & T3).
  split; [apply D1; vm_compute; lia|]. split; [reflexivity|]. split; [now apply D2|]. split; [apply D3; lia|].
  split; [exact T2|]. split; [etransitivity; [exact T3|]; vm_compute eff_len; simpl INR; lra|].
  apply (@C87_tree_cross 2 4 2 (Some [2; 4]%nat) ex_phi V' 1 0 2 1 3 (R' 1%nat ltac:(lia))). lia.
Qed.
(** segmentations and parses: the hypotheses hold for all rows of the examples *)
Example ex_C87_others :
  Rabs (mass ex_semi ex_phi 1 (fun e => (nth 1 e 0 <=? 2) && (2 <? nth 1 e 0 + nth 2 e 0))%nat%bool - 1)
    <= tol ex_semi 1 3 (fun e => (nth 1 e 0 <=? 2) && (2 <? nth 1 e 0 + nth 2 e 0))%nat%bool /\
  Rabs (mass ex_cfg ex_phi 0 (fun e => (nth 0 e 0 =? 0) && (nth 2 e 0 =? 3))%nat%bool - 1)
    <= tol ex_cfg 0 3 (fun e => (nth 0 e 0 =? 0) && (nth 2 e 0 =? 3))%nat%bool.
Proof.
  destruct (@ex_all ex_semi ltac:(simpl; auto)) as (V & HB & R). destruct (@ex_all ex_cfg ltac:(simpl; auto)) as (V' & HB' & R'). split.
  - apply (@C87_semi_cover 2 5 3 2 (Some [3; 5]%nat) ex_phi 3 V ltac:(lra) HB 1 2 (R 1%nat ltac:(lia))). vm_compute. lia.
  - destruct (@C87_cfg 2 4 2 3 (Some [4; 3]%nat) ex_phi 3 V' ltac:(lra) HB' 0 (R' 0%nat ltac:(lia))) as (_ & H & _). apply H. vm_compute. lia.
Qed.
