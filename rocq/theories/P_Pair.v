(** * P_Pair: what kl and cross_entropy read of the other distribution (C71) *)
From Verif Require Import Base Ops Terms Semirings Poly Chain LinearChain SemiMarkov CkyCrf Cky DepSpec DepTree
  Batch Family Approx Grad Sample Dist Purity Degree Shape Api Query Tensor P_Real Pair.
Set Implicit Arguments.
Local Open Scope R_scope.

Lemma cell_bidx0 s : forall e, cell s e = bidx0 s e.
Proof. induction s as [|d s IH]; intros [|i e]; try reflexivity. unfold bidx0 in *. cbn [cell combine map fst snd]. now rewrite IH. Qed.
Lemma cell_ones n s e : cell (repeat 1%nat n ++ s) e = repeat 0%nat (Nat.min n (length e)) ++ cell s (skipn n e).
Proof.
  revert e. induction n as [|n IH]; intros [|i e]; cbn [repeat app cell skipn length Nat.min]; try reflexivity.
  - destruct s; reflexivity.
  - cbn. now rewrite IH.
Qed.
Lemma strip1_spec s : exists n, s = repeat 1%nat n ++ strip1 s.
Proof.
  induction s as [|d s IH]; [exists 0%nat; reflexivity|]. destruct d as [|[|d]]; [exists 0%nat; reflexivity| |exists 0%nat; reflexivity].
  destruct IH as [n E]. exists (S n). cbn [strip1 repeat app]. now rewrite <- E.
Qed.
Lemma compatible_forallb s t : length s = length t ->
  (compatible s t <-> forallb (fun p => (fst p =? snd p)%nat || (fst p =? 1)%nat) (combine s t) = true).
Proof.
  revert t. induction s as [|d s IH]; intros [|e t] L; try discriminate; cbn [combine forallb fst snd].
  - split; [reflexivity|constructor].
  - rewrite Bool.andb_true_iff, <- IH by (cbn in L; lia). split.
    + intro H. inversion H; subst. split; [|auto]. destruct H3 as [->| ->]; [now rewrite Nat.eqb_refl|now rewrite Bool.orb_true_r].
    + intros [H1 H2]. constructor; [|auto]. apply Bool.orb_true_iff in H1 as [H1|H1]; apply Nat.eqb_eq in H1; auto.
Qed.
Lemma compatible_app s1 s2 t : length (s1 ++ s2) = length t ->
  (compatible (s1 ++ s2) t <-> compatible s1 (firstn (length s1) t) /\ compatible s2 (skipn (length s1) t)).
Proof.
  revert t. induction s1 as [|d s IH]; intros t L; cbn [app length firstn skipn].
  - split; [intro; split; [constructor|auto]|tauto].
  - destruct t as [|e t]; [discriminate|]. cbn [firstn skipn]. split.
    + intro H. inversion H; subst. apply IH in H5 as [H5 H6]; [|cbn in L; lia]. split; [constructor; auto|auto].
    + intros [H1 H2]. inversion H1; subst. constructor; [auto|]. apply IH; [cbn in L; lia|auto].
Qed.
Lemma compatible_ones n t : length t = n -> compatible (repeat 1%nat n) t.
Proof. revert t. induction n as [|n IH]; intros [|e t] L; try discriminate; constructor; [now right|]. apply IH. cbn in L. lia. Qed.
(** the assignment, for tensors of the same rank *)
Lemma assign_spec t x : length (shape x) = length t ->
  if expandable (strip1 (shape x)) t then
    compatible (shape x) t /\ exists f, assign t x = Ok f /\ forall e, length e = length t -> f e = dat x (cell (shape x) e)
  else ~ compatible (shape x) t /\ assign t x = Err RuntimeError.
Proof.
  intro L. unfold assign. destruct (strip1_spec (shape x)) as [n E]. set (s := strip1 (shape x)) in *.
  assert (Ln : (length (shape x) = n + length s)%nat) by (rewrite E at 1; now rewrite app_length, repeat_length).
  assert (Hd : (length t - length s = n)%nat) by lia.
  assert (HC : compatible (shape x) t <-> expandable s t = true).
  { rewrite E, compatible_app by (rewrite <- E; auto). rewrite repeat_length. unfold expandable. rewrite Hd, Bool.andb_true_iff.
    rewrite compatible_forallb with (s := s) by (rewrite skipn_length; lia). split.
    - intros [_ H]. split; [apply Nat.leb_le; lia|auto].
    - intros [_ H]. split; [apply compatible_ones; rewrite firstn_length; lia|auto]. }
  destruct (expandable s t).
  - split; [now apply HC|]. eexists. split; [reflexivity|]. intros e He. cbv beta. f_equal. rewrite E at 2. rewrite cell_ones.
    rewrite Nat.min_l by lia. f_equal; [f_equal; lia|]. unfold bidx. rewrite cell_bidx0. f_equal. f_equal. lia.
  - split; [intro H; apply HC in H; discriminate|reflexivity].
Qed.

(** the parts of chains and bracketings have four coordinates *)
Lemma lparts_rank b s : forall i e, In e (lparts b i s) -> length e = 4%nat.
Proof.
  induction s as [a|a l IHl r IHr]; intros i e; cbn [lparts].
  - intros [<-|[]]. reflexivity.
  - intros [<-|H]; [reflexivity|]. apply in_app_iff in H as [H|H]; eauto.
Qed.
Lemma parts_rank c b s e : has_pair_queries c -> In e (prt (spec_of c b) s) -> length e = 4%nat.
Proof.
  destruct c; cbn [has_pair_queries spec_of prt st] in *; try contradiction; intros _.
  - unfold seq_parts. rewrite in_map_iff. intros (n & <- & _). reflexivity.
  - apply lparts_rank.
Qed.
Section Ext.
  Variables (A : Type) (parts : A -> list (list nat)) (l : list A) (psi psi' : list nat -> R).
  Hypothesis H : forall s e, In e (parts s) -> psi e = psi' e.
  Lemma sc_ext s : sc parts psi s = sc parts psi' s.
  Proof. apply (Sum_ext_in R_csr). intros e He. eapply H; eauto. Qed.
  Lemma prob_ext s : prob parts l psi s = prob parts l psi' s.
  Proof. unfold prob, ZS. rewrite sc_ext. f_equal. apply (Sum_ext R_csr). intro. now rewrite sc_ext. Qed.
  Lemma kl_ext phi : kl_spec parts l phi psi = kl_spec parts l phi psi'.
  Proof. apply (Sum_ext R_csr). intro s. now rewrite prob_ext. Qed.
  Lemma cross_ext phi : cross_spec parts l phi psi = cross_spec parts l phi psi'.
  Proof. unfold cross_spec. f_equal. apply (Sum_ext R_csr). intro s. now rewrite prob_ext. Qed.
End Ext.
Lemma pair_rank c : has_pair_queries c -> length (event_shape c) = 3%nat.
Proof. destruct c; cbn; try contradiction; reflexivity. Qed.
Lemma pair_id c r : has_pair_queries c -> pair_call c r = r.
Proof. destruct c; cbn; try contradiction; reflexivity. Qed.
Lemma second_spec p q : has_pair_queries (d_call p) -> length (event_shape (d_call q)) = 3%nat ->
  (compatible (pot_shape q) (pot_shape p) -> exists psi, second p q = Ok psi /\ (forall e, exists e', psi e = d_pot q e') /\
     forall e, length e = 4%nat -> psi e = d_pot q (cell (pot_shape q) e)) /\
  (~ compatible (pot_shape q) (pot_shape p) -> second p q = Err RuntimeError).
Proof.
  intros Hp Hq. assert (L : length (pot_shape q) = length (pot_shape p)) by (unfold pot_shape; cbn [length]; rewrite Hq, (pair_rank _ Hp); reflexivity).
  pose proof (@assign_spec (pot_shape p) {| shape := pot_shape q; dat := d_pot q |} L) as G. cbn [shape dat] in G.
  assert (Es : second p q = assign (pot_shape p) {| shape := pot_shape q; dat := d_pot q |}).
  { unfold second. destruct (d_call q); try reflexivity. discriminate Hq. }
  rewrite Es. split; intro HC.
  - destruct (expandable _ _) eqn:EX in G; [|tauto]. destruct G as (_ & f & Ef & Hf). exists f. split; [auto|]. split.
    + intro e. unfold assign in Ef. cbn [shape dat] in Ef. rewrite EX in Ef. injection Ef as <-. eauto.
    + intros e He. apply Hf. rewrite He. unfold pot_shape. cbn [length]. now rewrite (pair_rank _ Hp).
  - destruct (expandable _ _) in G; tauto.
Qed.

(** C71: the value, for every [other] whose dimensions are those of [self] or one: row b is the
    divergence (cross entropy) from self's distribution to the distribution over self's structures
    that has the potentials of other, cells along a dimension of size one being shared. The
    lengths of other do not occur. *)
Theorem C71_value p q B : valid (d_call p) -> has_pair_queries (d_call p) -> length (event_shape (d_call q)) = 3%nat ->
  compatible (pot_shape q) (pot_shape p) -> 0 <= B -> bounded (d_call p) B (d_pot p) -> bounded (d_call p) B (d_pot q) ->
  exists k x, dist_kl p q = Ok k /\ dist_cross_entropy p q = Ok x /\ length k = batch_of (d_call p) /\ length x = batch_of (d_call p) /\
  forall b l, row_ok (d_call p) b -> let S := spec_of (d_call p) b in Enumerates (ok S) l ->
    let psi := fun e => d_pot q (cell (pot_shape q) e) in
    Rabs (nth b k 0 - kl_spec (prt S) l (d_pot p) psi) <= (2 + 4 * scale (d_call p) B b) * leak (d_call p) b B /\
    Rabs (nth b x 0 - cross_spec (prt S) l (d_pot p) psi) <= (1 + 2 * scale (d_call p) B b) * leak (d_call p) b B.
Proof.
  intros V Hp Hq HC HB0 HB HB'. destruct (proj1 (second_spec p q Hp Hq) HC) as (psi & Es & Hany & Hpsi).
  assert (Hb : bounded (d_call p) B psi) by (destruct HB' as [Z|Z]; [now left|right; intro e; destruct (Hany e) as [e' ->]; auto]).
  destruct (@C19_kl_value (d_call p) (d_pot p) psi B V Hp HB0 HB Hb) as (k & Ek & Lk & Hk).
  destruct (@C18_cross_entropy_value (d_call p) (d_pot p) psi B V Hp HB0 HB Hb) as (x & Ex & Lx & Hx).
  exists k, x. unfold dist_kl, dist_cross_entropy. rewrite Es, Ek, Ex, !pair_id by auto.
  split; [reflexivity|]. split; [reflexivity|]. split; [auto|]. split; [auto|].
  intros b l Hr; cbv zeta; intro Hl.
  assert (HE : forall s e, In e (prt (spec_of (d_call p) b) s) -> psi e = d_pot q (cell (pot_shape q) e)).
  { intros s e He. apply Hpsi. eapply parts_rank; eauto. }
  rewrite <- (kl_ext _ l _ _ HE), <- (cross_ext _ l _ _ HE). split; [now apply Hk|now apply Hx].
Qed.
Print Assumptions C71_value.
(** a dimension that is neither equal nor one raises *)
Theorem C71_mismatch p q : has_pair_queries (d_call p) -> length (event_shape (d_call q)) = 3%nat ->
  ~ compatible (pot_shape q) (pot_shape p) -> dist_kl p q = Err RuntimeError /\ dist_cross_entropy p q = Err RuntimeError.
Proof.
  intros Hp Hq HC. unfold dist_kl, dist_cross_entropy. rewrite (proj2 (second_spec p q Hp Hq) HC), !pair_id by auto. auto.
Qed.
Print Assumptions C71_mismatch.
(** one reference distribution for a whole batch: an other of batch size one is compared
    with every row *)
Theorem C71_one_reference p q B : valid (d_call p) -> has_pair_queries (d_call p) ->
  batch_of (d_call q) = 1%nat -> event_shape (d_call q) = event_shape (d_call p) -> Forall (fun d => (1 < d)%nat) (event_shape (d_call p)) ->
  0 <= B -> bounded (d_call p) B (d_pot p) -> bounded (d_call p) B (d_pot q) ->
  exists k, dist_kl p q = Ok k /\ forall b l, row_ok (d_call p) b -> let S := spec_of (d_call p) b in Enumerates (ok S) l ->
    Rabs (nth b k 0 - kl_spec (prt S) l (d_pot p) (fun e => d_pot q (0%nat :: tl e))) <= (2 + 4 * scale (d_call p) B b) * leak (d_call p) b B.
Proof.
  intros V Hp Hb He Hd HB0 HB HB'.
  assert (HC : compatible (pot_shape q) (pot_shape p)).
  { unfold pot_shape. rewrite Hb, He. constructor; [auto|]. clear. induction (event_shape (d_call p)); constructor; auto. }
  destruct (@C71_value p q B V Hp ltac:(now rewrite He, pair_rank) HC HB0 HB HB') as (k & x & Ek & _ & _ & _ & H).
  exists k. split; [exact Ek|]. intros b l Hr; cbv zeta; intro Hl. destruct (H b l Hr Hl) as [G _].
  erewrite kl_ext; [exact G|]. intros s e Hin. apply (@parts_rank (d_call p) b s e Hp) in Hin. unfold pot_shape. rewrite Hb, He.
  destruct e as [|b' e]; [discriminate|]. cbn [tl cell Nat.eqb]. f_equal. f_equal.
  assert (L : length e = length (event_shape (d_call p))) by (rewrite (pair_rank _ Hp); cbn in Hin; lia). clear -L Hd. revert e L.
  induction Hd as [|d s Hd1 Hd2 IH]; intros [|i e] L; try discriminate; [reflexivity|]. cbn [cell]. destruct (Nat.eqb_spec d 1); [lia|].
  f_equal. apply IH. cbn in L. lia.
Qed.
Print Assumptions C71_one_reference.
(** The lengths of other are ignored: two chains with the same potentials over different
    lengths have divergence zero in every row, although in row 0 no structure of the second uses
    the parts of a structure of the first. *)
Theorem C71_lengths_refuted : exists p q k, valid (d_call p) /\ valid (d_call q) /\ pot_shape p = pot_shape q /\
  dist_kl p q = Ok k /\ (forall b, (b < batch_of (d_call p))%nat -> nth b k 0 = 0) /\
  (forall s s', ok (spec_of (d_call p) 0) s -> ok (spec_of (d_call q) 0) s' -> prt (spec_of (d_call p) 0) s <> prt (spec_of (d_call q) 0) s') /\
  (exists s, ok (spec_of (d_call p) 0) s) /\ (exists s, ok (spec_of (d_call q) 0) s).
Proof.
  set (f := fun _ : list nat => 1).
  set (p := Dist (CLin 2 3 2 (Some [3; 2]%nat)) f). set (q := Dist (CLin 2 3 2 (Some [2; 3]%nat)) f).
  assert (V : valid (d_call p)) by (cbn; repeat split; lia). assert (Vq : valid (d_call q)) by (cbn; repeat split; lia).
  destruct (proj1 (second_spec p q I eq_refl) ltac:(repeat constructor)) as (psi & Es & Hany & _).
  destruct (@C19_kl_laws (d_call p) f psi V I) as (k & x & h & Ek & _ & _ & H).
  exists p, q, k. split; [exact V|]. split; [exact Vq|]. split; [reflexivity|].
  unfold dist_kl. rewrite Es. split; [now rewrite pair_id by exact I|]. split.
  - intros b Hb. apply H; [split; [exact Hb|exact I]|]. intro e. destruct (Hany e) as [e' ->]. reflexivity.
  - split; [|split].
    + intros s s' [L _] [L' _]. cbn in L, L'. cbn [spec_of prt d_call p q]. unfold seq_parts. intro E. apply (f_equal (@length _)) in E.
      rewrite !map_length, !seq_length in E. lia.
    + exists [0; 0; 0]%nat. split; [reflexivity|repeat constructor].
    + exists [0; 0]%nat. split; [reflexivity|repeat constructor].
Qed.
Print Assumptions C71_lengths_refuted.

(** the hypotheses are met: a batch of two chains against a reference of batch size one *)
Example pair_hypotheses : let p := Dist (CLin 2 3 2 (Some [3; 2]%nat)) (fun _ => 1) in let q := Dist (CLin 1 3 2 None) (fun e => INR (nth 3 e 0%nat) - 1) in
  valid (d_call p) /\ has_pair_queries (d_call p) /\ compatible (pot_shape q) (pot_shape p) /\ row_ok (d_call p) 1 /\ Forall (fun d => (1 < d)%nat) (event_shape (d_call p)) /\
  bounded (d_call p) 1 (d_pot p) /\ ~ compatible (pot_shape (Dist (CLin 2 4 2 None) (fun _ => 1))) (pot_shape p).
Proof.
  cbv zeta. cbn. repeat split; try lia; try (repeat constructor; lia).
  - right. intro. rewrite Rabs_R1. lra.
  - intro H. inversion H; subst. inversion H5; subst. lia.
Qed.
