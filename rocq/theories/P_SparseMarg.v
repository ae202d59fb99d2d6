(** * P_SparseMarg: marginals of the sparsemax semiring (C64) *)
From Verif Require Import Base Ops Terms Semirings Poly Chain LinearChain SemiMarkov CkyCrf Cky DepSpec DepTree
  Batch Family Approx Grad Sample Dist Purity Degree Shape Api Query Gumbel KMax Sparse P_Real P_Sample P_Sparse P_Gumbel P_Straight P_NonProj SparseMarg.
Set Implicit Arguments.
Local Open Scope R_scope.

(** ** One row *)
Lemma rsum_le (f g : nat -> R) n : (forall i, (i < n)%nat -> f i <= g i) -> RSum f (seq 0 n) <= RSum g (seq 0 n).
Proof. intro H. apply RSum_le. intros i Hi. apply in_seq in Hi. apply H. lia. Qed.
Section Row.
  Variable v : list R.
  Hypothesis Hv : v <> [].
  Notation w := (project_simplex v).
  Notation ws := (fun i => nth i w 0).
  Lemma w_total : RSum ws (seq 0 (length v)) = 1.
  Proof. destruct (proj_simplex Hv) as (_ & _ & H). change (total w) with (rsum w) in H. rewrite rsum_seq, proj_length in H. exact H. Qed.
  Lemma w_nonneg i : (i < length v)%nat -> 0 <= nth i w 0.
  Proof. intro H. rewrite proj_nth by auto. apply Rmax_r. Qed.
  Lemma w_le1 i : (i < length v)%nat -> nth i w 0 <= 1.
  Proof.
    intro H. rewrite <- w_total. apply (@RSum_single nat ws i); [apply in_seq; lia|].
    intros j Hj. apply in_seq in Hj. apply w_nonneg. lia.
  Qed.
  (** only entries within one of the largest have weight *)
  Lemma support i j : (i < length v)%nat -> (j < length v)%nat -> 0 < nth i w 0 -> nth j v 0 - 1 <= nth i v 0.
  Proof.
    intros Hi Hj Hp. pose proof (w_le1 Hj) as H1. rewrite proj_nth in Hp, H1 by auto.
    pose proof (Rmax_l (nth j v 0 - thr v) 0). unfold Rmax in Hp. destruct (Rle_dec _ _) in Hp; lra.
  Qed.
  Lemma sparse_le M : (forall i, (i < length v)%nat -> nth i v 0 <= M) -> sparse_sum v <= M.
  Proof.
    intro H. unfold sparse_sum. pose proof (sqrt_pos (dotl w w)).
    rewrite (@dotl_seq v w) by now rewrite proj_length.
    assert (RSum (fun i => nth i v 0 * nth i w 0) (seq 0 (length v)) <= M); [|lra].
    replace M with (RSum (fun i => M * nth i w 0) (seq 0 (length v))).
    - apply rsum_le. intros i Hi. apply Rmult_le_compat_r; [now apply w_nonneg|auto].
    - rewrite RSum_scal, w_total. ring.
  Qed.
  Lemma norm_le1 : sqrt (dotl w w) <= 1.
  Proof.
    rewrite <- sqrt_1. apply sqrt_le_1_alt. rewrite dotl_seq, proj_length by auto. rewrite <- w_total.
    apply rsum_le. intros i Hi. pose proof (w_nonneg Hi). pose proof (w_le1 Hi).
    replace (nth i w 0) with (1 * nth i w 0) at 3 by ring. apply Rmult_le_compat_r; auto.
  Qed.
  Lemma sparse_ge j : (j < length v)%nat -> nth j v 0 - 2 <= sparse_sum v.
  Proof.
    intro Hj. unfold sparse_sum. pose proof norm_le1.
    rewrite (@dotl_seq v w) by now rewrite proj_length.
    assert (nth j v 0 - 1 <= RSum (fun i => nth i v 0 * nth i w 0) (seq 0 (length v))); [|lra].
    replace (nth j v 0 - 1) with (RSum (fun i => (nth j v 0 - 1) * nth i w 0) (seq 0 (length v))).
    - apply rsum_le. intros i Hi. pose proof (w_nonneg Hi) as [Hp|<-]; [|lra].
      apply Rmult_le_compat_r; [lra|]. now apply support.
    - rewrite RSum_scal, w_total. ring.
  Qed.
End Row.

(** ** Computation graphs *)
Section Graph.
  Variable phi : list nat -> R.
  Notation sval := (leval (sp_ops NEG) phi).
  Notation w := (w_sparse phi).
  Notation sco := (score phi NEG).
  Lemma map_ne A B (f : A -> B) l : l <> [] -> map f l <> [].
  Proof. destruct l; [contradiction|discriminate]. Qed.
  Lemma sval_nth l i : (i < length l)%nat -> nth i (map sval l) 0 = sval (nth i l TZero).
  Proof.
    intro H. rewrite nth_indep with (d' := sval TZero) by (rewrite map_length; auto). apply (map_nth sval).
  Qed.
  Lemma w_sparse_normal : normal w.
  Proof.
    intros p l Hl. rewrite mapi_seq0. unfold w_sparse, sparse_backward.
    rewrite <- (@w_total (map sval l)) by now apply map_ne. now rewrite map_length.
  Qed.
  Lemma w_sparse_nonneg p l i : (i < length l)%nat -> 0 <= w p l i.
  Proof.
    intro H. unfold w_sparse, sparse_backward. apply w_nonneg. now rewrite map_length.
  Qed.
  Lemma choices_child l t : In t l -> INR (choices t) <= INR (list_max (map choices l)).
  Proof.
    intro H. apply le_INR. assert (G := proj1 (list_max_le (map choices l) _) (le_n _)). rewrite Forall_forall in G. apply G, in_map, H.
  Qed.
  Lemma sval_ge t : twf t -> forall m, In m (expand t) -> sco m - 2 * INR (choices t) <= sval t.
  Proof.
    induction t as [e|e| | |l IH|a b IHa IHb] using term_ind'; intros W m Hm.
    1-4: destruct Hm as [<-|[]]; cbn; unfold Sum; cbn; lra.
    - inversion_clear W as [| | | |? Hn Hf|]. cbn [expand] in Hm. apply in_flat_map in Hm as (t & Ht & Hm).
      rewrite Forall_forall in IH, Hf. pose proof (IH t Ht (Hf t Ht) m Hm) as H1. cbn [choices]. rewrite S_INR.
      pose proof (@choices_child l t Ht) as H2.
      apply (In_nth _ _ TZero) in Ht as (i & Hi & <-).
      assert (H3 := @sparse_ge (map sval l) (map_ne _ Hn) i). rewrite map_length, sval_nth in H3 by auto. specialize (H3 Hi).
      change (sval (TSum l)) with (sparse_sum (map sval l)). cbn [car sp_ops] in *. lra.
    - inversion_clear W as [| | | | |? ? Wa Wb]. cbn [expand] in Hm. apply in_flat_map in Hm as (m1 & H1 & Hm). apply in_map_iff in Hm as (m2 & <- & H2).
      rewrite score_app. cbn [choices]. rewrite plus_INR. pose proof (IHa Wa m1 H1). pose proof (IHb Wb m2 H2).
      change (sval (TMul a b)) with (sval a + sval b). cbn [car sp_ops] in *. lra.
  Qed.
  Lemma sval_le t : twf t -> exists m, In m (expand t) /\ sval t <= sco m.
  Proof.
    induction t as [e|e| | |l IH|a b IHa IHb] using term_ind'; intro W.
    1-4: eexists; split; [now left|]; cbn; unfold Sum; cbn; lra.
    - inversion_clear W as [| | | |? Hn Hf|]. rewrite Forall_forall in IH, Hf.
      assert (X : exists t, In t l /\ forall t', In t' l -> sval t' <= sval t).
      { clear -Hn. induction l as [|x l IHl]; [contradiction|]. destruct l as [|y l].
        - exists x. split; [now left|]. intros t' [<-|[]]. lra.
        - destruct IHl as (t & Ht & Hb); [discriminate|]. destruct (Rle_dec (sval x) (sval t)) as [L|L].
          + exists t. split; [now right|]. intros t' [<-|Ht']; auto.
          + exists x. split; [now left|]. intros t' [<-|Ht']; [lra|]. specialize (Hb t' Ht'). lra. }
      destruct X as (t & Ht & Hb). destruct (IH t Ht (Hf t Ht)) as (m & Hm & Hle). exists m. split.
      + cbn [expand]. apply in_flat_map. eauto.
      + apply Rle_trans with (sval t); auto. change (sval (TSum l)) with (sparse_sum (map sval l)).
        apply sparse_le; [now apply map_ne|]. intros i Hi. rewrite map_length in Hi. rewrite sval_nth by auto. apply Hb, nth_In, Hi.
    - inversion_clear W as [| | | | |? ? Wa Wb]. destruct (IHa Wa) as (m1 & H1 & L1), (IHb Wb) as (m2 & H2 & L2).
      exists (m1 ++ m2). split; [cbn [expand]; apply in_flat_map; exists m1; split; auto; now apply in_map|].
      rewrite score_app. change (sval (TMul a b)) with (sval a + sval b). cbn [car sp_ops] in *. lra.
  Qed.
  Lemma in_concat_mapi A B (f : nat -> A -> list B) d l x : forall k, In x (concat (mapi f k l)) ->
    exists i, (i < length l)%nat /\ In x (f (k + i)%nat (nth i l d)).
  Proof.
    induction l as [|a l IH]; intros k H; [destruct H|]. cbn [mapi concat] in H. apply in_app_or in H as [H|H].
    - exists 0%nat. rewrite Nat.add_0_r. split; [simpl; lia|exact H].
    - destruct (IH _ H) as (i & Hi & Hx). exists (S i). split; [simpl; lia|]. now rewrite Nat.add_succ_r.
  Qed.
  Lemma dist_support t : twf t -> forall p x, In x (dist w p t) ->
    0 <= fst x /\ (0 < fst x -> sval t - INR (choices t) <= sco (snd x)).
  Proof.
    induction t as [e|e| | |l IH|a b IHa IHb] using term_ind'; intros W p x Hx.
    1-4: destruct Hx as [<-|[]]; cbn; unfold Sum; cbn; split; intros; lra.
    - inversion_clear W as [| | | |? Hn Hf|]. cbn [dist] in Hx. apply (in_concat_mapi _ TZero) in Hx as (i & Hi & Hx).
      rewrite Nat.add_0_l in Hx. apply in_map_iff in Hx as (y & <- & Hy). cbn [fst snd].
      rewrite Forall_forall in IH, Hf. pose proof (@nth_In _ i l TZero Hi) as Hin.
      destruct (IH _ Hin (Hf _ Hin) (i :: p) y Hy) as [P1 P2]. pose proof (@w_sparse_nonneg p l i Hi) as Pw. split.
      + now apply Rmult_le_pos.
      + intro Hp. assert (0 < w p l i).
        { destruct Pw as [|Pw]; auto. rewrite <- Pw in Hp. lra. }
        assert (Hy0 : 0 < fst y). { destruct P1 as [|P1]; auto. rewrite <- P1 in Hp. lra. }
        specialize (P2 Hy0). cbn [choices]. rewrite S_INR. pose proof (@choices_child l _ Hin).
        assert (sparse_sum (map sval l) <= sval (nth i l TZero) + 1).
        { apply sparse_le; [now apply map_ne|]. intros j Hj. rewrite map_length in Hj.
          assert (G := @support (map sval l) (map_ne _ Hn) i j). rewrite map_length in G.
          specialize (G Hi Hj H). rewrite !sval_nth in G by auto. rewrite sval_nth by auto. cbn [car sp_ops] in *. lra. }
        change (sval (TSum l)) with (sparse_sum (map sval l)). cbn [car sp_ops] in *. lra.
    - inversion_clear W as [| | | | |? ? Wa Wb]. cbn [dist] in Hx. apply in_flat_map in Hx as (x1 & H1 & Hx). apply in_map_iff in Hx as (x2 & <- & H2).
      destruct (IHa Wa _ x1 H1) as [A1 A2], (IHb Wb _ x2 H2) as [B1 B2]. clear H1 H2. destruct x1 as [u1 m1], x2 as [u2 m2]. cbn [fst snd] in *.
      split; [now apply Rmult_le_pos|].
      intro Hp. assert (0 < u1). { destruct A1 as [|A1]; auto. rewrite <- A1 in Hp. lra. }
      assert (0 < u2). { destruct B1 as [|B1]; auto. rewrite <- B1 in Hp. lra. }
      rewrite score_app. cbn [choices]. rewrite plus_INR. specialize (A2 H). specialize (B2 H0).
      change (sval (TMul a b)) with (sval a + sval b). cbn [car sp_ops] in *. lra.
  Qed.
End Graph.

Lemma sparse_row c phi b e : valid c -> (b < batch_of c)%nat -> row_of c e = b ->
  q_sparse c phi e = bp (w_sparse phi) [] (row_graph c b) 1 e.
Proof.
  intros V Hb He. unfold q_sparse. apply (@RSum_only nat (fun b => bp (w_sparse phi) [] (row_graph c b) 1 e)); [apply seq_NoDup|apply in_seq; lia|].
  intros b' Hb' Hne. apply in_seq in Hb'. assert (Hlt : (b' < batch_of c)%nat) by lia.
  apply (@bp_absent _ (fun e => row_of c e = b')); [now apply graph_wf|now apply graph_inrow|congruence].
Qed.
Lemma list_choice A B (P : A -> B -> Prop) l : (forall x, In x l -> exists y, P x y) -> exists l', Forall2 P l l'.
Proof.
  induction l as [|x l IH]; intro H; [now exists []|]. destruct (H x) as (y & Hy); [now left|].
  destruct IH as (l' & Hl'); [intros; apply H; now right|]. exists (y :: l'). now constructor.
Qed.
Lemma Forall2_sum A B (P : A -> B -> Prop) (f : A -> R) (g : B -> R) l l' : Forall2 P l l' -> (forall x y, P x y -> f x = g y) -> RSum f l = RSum g l'.
Proof. intros H K. induction H as [|x y l l' Hx Hl IH]; [reflexivity|]. now rewrite !RSum_cons, IH, (K _ _ Hx). Qed.
Lemma Forall2_right A B (P : A -> B -> Prop) l l' y : Forall2 P l l' -> In y l' -> exists x, In x l /\ P x y.
Proof. intros H Hy. induction H as [|x z l l' Hx Hl IH]; [destruct Hy|]. destruct Hy as [->|Hy]; [exists x; split; [now left|auto]|]. destruct (IH Hy) as (u & Hu & Hp). exists u. split; [now right|auto]. Qed.

(** ** C64 *)
(** potentials small against the finite zero, the size of the graph taken into account *)
Definition sparse_small (c : call) (b : nat) (phi : list nat -> R) : Prop :=
  zero_free c = true \/ exists B, (forall e, Rabs (phi e) <= B) /\ 3 * INR (choices (row_graph c b)) + 2 * (INR (degree c b) * B) < 100000.

Section Rows.
  Variables (c : call) (phi : list nat -> R) (b : nat) (F : family).
  Hypotheses (V : valid c) (HF : is_row c b F) (HS : sparse_small c b phi).
  Notation t := (row_graph c b).
  Notation w := (w_sparse phi).
  Lemma pure_beats : zero_free c = false -> forall m m', In m (expand t) -> In m' (expand t) -> pure m = false -> pure m' = true ->
    score phi NEG m < score phi NEG m' - 3 * INR (choices t).
  Proof.
    intros Z m m' Hm Hm' Ep Ep'. destruct HS as [|(B & HB & Hlt)]; [congruence|].
    pose proof (@score_spur_le phi NEG B HB NEG_neg m Ep) as Hsp. pose proof (@score_pure_ge phi NEG B HB m' Ep') as Hge.
    pose proof (@HB0 phi B HB) as B0. destruct (ir_bnd HF Z) as [Hdeg _]. apply le_INR in Hdeg. rewrite (ir_graph HF) in Hm, Hm'.
    assert (INR (length m) * B <= INR (degree c b) * B).
    { apply Rmult_le_compat_r; auto. eapply Rle_trans; [apply (@len_le F m Hm)|exact Hdeg]. }
    assert (INR (length m') * B <= INR (degree c b) * B).
    { apply Rmult_le_compat_r; auto. eapply Rle_trans; [apply (@len_le F m' Hm')|exact Hdeg]. }
    unfold NEG in *. lra.
  Qed.
  Lemma a_structure : exists m, In m (expand t) /\ pure m = true.
  Proof.
    destruct (flist F) as [|s0 l0] eqn:El; [now destruct (ir_nonempty HF)|].
    destruct (@structure_is_pure F s0) as (m' & Hm' & Hp' & _); [rewrite El; now left|]. exists m'. now rewrite (ir_graph HF).
  Qed.
  Lemma close_pure m : In m (expand t) -> (forall m', In m' (expand t) -> score phi NEG m' - 3 * INR (choices t) <= score phi NEG m) -> pure m = true.
  Proof.
    intros Hm H. destruct (zero_free c) eqn:Z.
    - apply (@fpure_all F); [now apply (ir_pure HF)|]. now rewrite <- (ir_graph HF).
    - destruct (pure m) eqn:Ep; auto. exfalso. destruct a_structure as (m' & Hm' & Hp').
      pose proof (pure_beats Z m m' Hm Hm' Ep Hp'). specialize (H m' Hm'). lra.
  Qed.
End Rows.

Theorem C64_convex c phi : valid c -> forall b, row_ok c b -> sparse_small c b phi ->
  let S := spec_of c b in let k := INR (choices (row_graph c b)) in
  exists D : list (R * st S),
    (forall x, In x D -> 0 < fst x /\ ok S (snd x) /\ forall s, ok S s -> sc (prt S) phi s - 3 * k <= sc (prt S) phi (snd x)) /\
    RSum fst D = 1 /\
    (forall e, row_of c e = b -> q_sparse c phi e = RSum (fun x => fst x * uses (prt S) e (snd x)) D).
Proof.
  intros V b Hb HS S k. destruct (row_family V Hb) as (F & HF). pose proof (proj1 Hb) as Hlt.
  pose proof (@graph_wf c b V Hlt) as W. unfold S. rewrite <- (ir_spec HF). cbn [ok prt fspec st].
  set (t := row_graph c b) in *. set (d := dist (w_sparse phi) [] t).
  assert (Hd : forall x, In x d -> In (snd x) (expand t)).
  { intros x Hx. rewrite <- (dist_snd (w_sparse phi) t []). now apply in_map. }
  assert (Hs : forall x, In x d -> 0 < fst x -> forall m', In m' (expand t) -> score phi NEG m' - 3 * k <= score phi NEG (snd x)).
  { intros x Hx Hp m' Hm'. destruct (@dist_support phi t W [] x Hx) as [_ H1]. specialize (H1 Hp).
    pose proof (@sval_ge phi t W m' Hm') as H2. cbn [car sp_ops] in *. unfold k. fold t. lra. }
  set (d' := filter (fun x => posb (fst x)) d).
  assert (Hd' : forall x, In x d' -> In x d /\ 0 < fst x).
  { intros x Hx. apply filter_In in Hx as [Hx Hp]. split; auto. unfold posb in Hp. destruct (Rlt_dec 0 (fst x)); [auto|discriminate]. }
  assert (Hz : forall x, In x d -> posb (fst x) = false -> fst x = 0).
  { intros x Hx Hp. destruct (@dist_support phi t W [] x Hx) as [H0 _]. unfold posb in Hp. destruct (Rlt_dec 0 (fst x)); [discriminate|lra]. }
  destruct (@list_choice _ _ (fun (x : R * deriv) (y : R * fst_ F) => fst x = fst y /\ pure (snd x) = true /\ In (snd y) (flist F) /\ Permutation (leaves (snd x)) (fparts F (snd y)) /\
      In x d') d') as (D & HD).
  { intros x Hx. destruct (Hd' x Hx) as [Hx' Hp].
    assert (Ep : pure (snd x) = true) by (apply (close_pure HF HS); [now apply Hd|now apply Hs]).
    destruct (pure_is_structure F (snd x)) as (s & Hsl & HP); [rewrite <- (ir_graph HF); now apply Hd|auto|].
    exists (fst x, s). repeat split; auto. }
  exists D. split; [|split].
  - intros y Hy. destruct (Forall2_right y HD Hy) as (x & Hx & E1 & Ep & Hsl & HP & _). destruct (Hd' x Hx) as [Hx' Hp].
    split; [congruence|]. split; [now apply (fenum F)|]. intros s Hok. apply (fenum F) in Hok.
    destruct (@structure_is_pure F s Hok) as (m' & Hm' & Hp' & HP').
    rewrite <- (@perm_score F phi NEG m' s Hp' HP'), <- (@perm_score F phi NEG (snd x) (snd y) Ep HP).
    apply Hs; auto. unfold t. now rewrite (ir_graph HF).
  - etransitivity; [symmetry; apply (Forall2_sum fst fst HD); tauto|]. rewrite <- (@dist_total (w_sparse phi) t (w_sparse_normal phi) W []). fold d. unfold d'.
    symmetry. apply (@RSum_filter_in). intros x Hx. destruct (posb (fst x)) eqn:E; auto.
  - intros e He. rewrite (@sparse_row c phi b e V Hlt He). fold t. rewrite (@bp_expect (w_sparse phi) t (w_sparse_normal phi) W). fold d. rewrite Rmult_1_l.
    etransitivity; [|apply (Forall2_sum (fun x => fst x * cnt e (snd x)) _ HD)].
    + unfold d'. apply (@RSum_filter_in). intros x Hx. destruct (posb (fst x)) eqn:E; auto. rewrite (Hz x Hx E). apply Rmult_0_l.
    + intros x y (E1 & Ep & _ & HP & _). now rewrite E1, (@perm_cnt F e (snd x) (snd y) Ep HP).
Qed.
Print Assumptions C64_convex.

(** potentials whose structures all score much lower than some structure get exactly zero *)
Theorem C64_prune c phi : valid c -> forall b, row_ok c b -> sparse_small c b phi ->
  let S := spec_of c b in let k := INR (choices (row_graph c b)) in
  forall e s0, row_of c e = b -> ok S s0 ->
    (forall s, ok S s -> In e (prt S s) -> sc (prt S) phi s < sc (prt S) phi s0 - 3 * k) -> q_sparse c phi e = 0.
Proof.
  intros V b Hb HS S k e s0 He H0 H. destruct (@C64_convex c phi V b Hb HS) as (D & HD & _ & HE). rewrite (HE e He).
  etransitivity; [apply (Sum_ext_in R_csr) with (g := fun _ => 0)|rewrite RSum_const; ring].
  intros x Hx. destruct (HD x Hx) as (_ & Hok & Hge). fold S in Hok, Hge. specialize (Hge s0 H0).
  unfold uses. rewrite (proj1 (count_occ_not_In _ _ _)); [apply Rmult_0_r|].
  intro Hin. specialize (H _ Hok Hin). fold k in Hge. lra.
Qed.
Print Assumptions C64_prune.

(** with one structure far ahead of all others the result is that structure *)
Theorem C64_argmax c phi : valid c -> forall b, row_ok c b -> sparse_small c b phi ->
  let S := spec_of c b in let k := INR (choices (row_graph c b)) in
  forall s0, ok S s0 -> (forall s, ok S s -> s <> s0 -> sc (prt S) phi s < sc (prt S) phi s0 - 3 * k) ->
    forall e, row_of c e = b -> q_sparse c phi e = uses (prt S) e s0.
Proof.
  intros V b Hb HS S k s0 H0 H e He. destruct (@C64_convex c phi V b Hb HS) as (D & HD & H1 & HE). rewrite (HE e He).
  fold S in D, HD, H1 |- *.
  etransitivity; [apply (Sum_ext_in R_csr) with (g := fun x : R * st S => fst x * uses (prt S) e s0)|].
  - intros x Hx. destruct (HD x Hx) as (_ & Hok & Hge). specialize (Hge s0 H0). fold k in Hge.
    destruct (Req_dec (uses (prt S) e (snd x)) (uses (prt S) e s0)) as [E|E]; [now rewrite E|].
    assert (Hne : snd x <> s0) by congruence. specialize (H _ Hok Hne). lra.
  - etransitivity; [apply RSum_scar|]. etransitivity; [apply (f_equal (fun u => u * _)); exact H1|]. apply Rmult_1_l.
Qed.
Print Assumptions C64_argmax.

(** the value lies between the best score minus twice the number of sums and the best score *)
Theorem C64_value c phi : valid c -> forall b, row_ok c b -> sparse_small c b phi ->
  let S := spec_of c b in let k := INR (choices (row_graph c b)) in
  (forall s, ok S s -> sc (prt S) phi s - 2 * k <= at_row 0 (q_sparse_value c phi) b) /\
  (exists s, ok S s /\ at_row 0 (q_sparse_value c phi) b <= sc (prt S) phi s).
Proof.
  intros V b Hb HS S k. destruct (row_family V Hb) as (F & HF). pose proof (proj1 Hb) as Hlt.
  pose proof (@graph_wf c b V Hlt) as W.
  assert (E : at_row 0 (q_sparse_value c phi) b = leval (sp_ops NEG) phi (row_graph c b)).
  { rewrite (ir_graph HF), <- frun_leval. apply (q_row (sp_ops NEG) phi 0 HF). }
  rewrite E. unfold S. rewrite <- (ir_spec HF). cbn [ok prt fspec st]. split.
  - intros s Hok. apply (fenum F) in Hok. destruct (@structure_is_pure F s Hok) as (m' & Hm' & Hp' & HP').
    rewrite <- (@perm_score F phi NEG m' s Hp' HP'). apply sval_ge; auto. now rewrite (ir_graph HF).
  - destruct (@sval_le phi _ W) as (m & Hm & Hle). destruct (pure m) eqn:Ep.
    + destruct (pure_is_structure F m) as (s & Hsl & HP); [now rewrite <- (ir_graph HF)|auto|]. exists s. split; [now apply (fenum F)|].
      now rewrite <- (@perm_score F phi NEG m s Ep HP).
    + destruct (zero_free c) eqn:Z.
      * exfalso. rewrite (@fpure_all F) in Ep; [discriminate|now apply (ir_pure HF)|now rewrite <- (ir_graph HF)].
      * destruct (a_structure HF) as (m' & Hm' & Hp'). pose proof (pure_beats HF HS Z m m' Hm Hm' Ep Hp') as Hb'.
        destruct (pure_is_structure F m') as (s & Hsl & HP); [now rewrite <- (ir_graph HF)|auto|]. exists s. split; [now apply (fenum F)|].
        rewrite <- (@perm_score F phi NEG m' s Hp' HP). pose proof (pos_INR (choices (row_graph c b))). cbn [car sp_ops] in *. lra.
Qed.
Print Assumptions C64_value.

(** ** What does not hold *)
Lemma sum_pair x : NEG + 1 <= x -> project_simplex [NEG; x] = [0; 1].
Proof.
  intro H. apply (@proj_char [NEG; x] (x - 1)); [reflexivity| |cbn; lra]. intros i Hi. cbn [length] in Hi.
  destruct i as [|[|i]]; [| |lia]; cbn; [rewrite Rmax_right|rewrite Rmax_left]; lra.
Qed.
Lemma sum_pair_v x : NEG + 1 <= x -> sparse_sum [NEG; x] = x - 1.
Proof.
  intro H. unfold sparse_sum. rewrite sum_pair by auto. unfold dotl. cbn [combine map fst snd rsum fold_right].
  replace (0 * 0 + (1 * 1 + 0)) with 1 by ring. rewrite sqrt_1. ring.
Qed.
(** example: a call *)
Definition one_class : call := CLin 1 2 1 None.
Lemma one_class_graph : row_graph one_class 0 = TSum [TSum [TSum [TZero; TLeaf [0; 0; 0; 0]%nat]]].
Proof.
  unfold row_graph, graphs, run, one_class.
  rewrite (lc_logpartition_run tops (batch := 1) (N := 2) (C := 1) (tens [1; 2 - 1; 1; 1]%nat TLeaf)); [vm_compute; reflexivity| |reflexivity].
  repeat split; lia.
Qed.
Lemma is_seq_pair C s : is_seq C 2 s -> exists i j, s = [i; j] /\ (i < C)%nat /\ (j < C)%nat.
Proof.
  intros [L H]. destruct s as [|i [|j [|? ?]]]; try discriminate. exists i, j. rewrite Forall_forall in H.
  split; [auto|]. split; apply H; simpl; auto.
Qed.
(** a model with a single structure: the value is not its score (every sum of the graph
    subtracts one) *)
Theorem C64_value_refuted x : -90000 <= x -> 
  let S := spec_of one_class 0 in
  (exists s, ok S s /\ (forall s', ok S s' -> s' = s) /\ sc (prt S) (fun _ => x) s = x) /\
  at_row 0 (q_sparse_value one_class (fun _ => x)) 0 = x - 3.
Proof.
  intros Hx S. split.
  - exists [0; 0]%nat. split; [split; [reflexivity|repeat constructor]|]. split.
    + intros s' Hs'. apply (@is_seq_pair 1) in Hs' as (i & j & -> & Hi & Hj). do 2 f_equal; lia.
    + unfold sc, Sum. cbn. lra.
  - assert (V : valid one_class) by (repeat split; simpl; lia). assert (Hb : row_ok one_class 0) by (repeat split; simpl; auto; lia).
    destruct (row_family V Hb) as (F & HF).
    assert (E : at_row 0 (q_sparse_value one_class (fun _ => x)) 0 = leval (sp_ops NEG) (fun _ => x) (row_graph one_class 0)).
    { rewrite (ir_graph HF), <- frun_leval. apply (q_row (sp_ops NEG) (fun _ => x) 0 HF). }
    rewrite E, one_class_graph. cbn [leval map sp_ops ssum szero].
    assert (H := @sum_pair_v x ltac:(unfold NEG; lra)). cbn [leval car sp_ops] in *.
    replace (sparse_sum [NEG; x]) with (x - 1). rewrite !C36_single_score_refuted. ring.
Qed.

(** the unique best structure can get marginal zero: class 0 only pairs with itself *)
Definition five : call := CLin 1 2 5 None.
(** example: potentials *)
Definition lone (e : list nat) : R :=
  match e with
  | [_; _; O; O] => 1/10 | [_; _; O; _] => -10 | [_; _; _; O] => -10 | _ => 0
  end.
(** example: a row of the chart *)
Definition five_row (i : nat) : term := TSum (map (fun j => TSum [TZero; TLeaf [0; 0; i; j]%nat]) (seq 0 5)).
Lemma five_graph : row_graph five 0 = TSum (map five_row (seq 0 5)).
Proof.
  unfold row_graph, graphs, run, five.
  rewrite (lc_logpartition_run tops (batch := 1) (N := 2) (C := 5) (tens [1; 2 - 1; 5; 5]%nat TLeaf)); [vm_compute; reflexivity| |reflexivity].
  repeat split; lia.
Qed.

Lemma flat4 : project_simplex [-11; -1; -1; -1; -1] = [0; 1/4; 1/4; 1/4; 1/4].
Proof.
  apply (@proj_char _ (-5/4)); [reflexivity| |cbn; lra]. intros i Hi. cbn [length] in Hi.
  destruct i as [|[|[|[|[|i]]]]]; [| | | | |lia]; cbn; unfold Rmax; destruct (Rle_dec _ _); lra.
Qed.
Lemma alone : project_simplex [-9/10; -11; -11; -11; -11] = [1; 0; 0; 0; 0].
Proof.
  apply (@proj_char _ (-19/10)); [reflexivity| |cbn; lra]. intros i Hi. cbn [length] in Hi.
  destruct i as [|[|[|[|[|i]]]]]; [| | | | |lia]; cbn; unfold Rmax; destruct (Rle_dec _ _); lra.
Qed.
Lemma top5 : project_simplex [-19/10; -3/2; -3/2; -3/2; -3/2] = [0; 1/4; 1/4; 1/4; 1/4].
Proof.
  apply (@proj_char _ (-7/4)); [reflexivity| |cbn; lra]. intros i Hi. cbn [length] in Hi.
  destruct i as [|[|[|[|[|i]]]]]; [| | | | |lia]; cbn; unfold Rmax; destruct (Rle_dec _ _); lra.
Qed.
Lemma quarter : sqrt (1/4) = 1/2.
Proof. replace (1/4) with ((1/2) * (1/2)) by field. apply sqrt_square. lra. Qed.
Lemma flat4_v : sparse_sum [-11; -1; -1; -1; -1] = -3/2.
Proof.
  unfold sparse_sum. rewrite flat4. unfold dotl. cbn [combine map fst snd rsum fold_right].
  match goal with |- _ - sqrt ?x = _ => replace x with (1/4) by field end. rewrite quarter. field.
Qed.
Lemma alone_v : sparse_sum [-9/10; -11; -11; -11; -11] = -19/10.
Proof.
  unfold sparse_sum. rewrite alone. unfold dotl. cbn [combine map fst snd rsum fold_right].
  match goal with |- _ - sqrt ?x = _ => replace x with 1 by field end. rewrite sqrt_1. field.
Qed.
Lemma cell_v i j : leval (sp_ops NEG) lone (TSum [TZero; TLeaf [0; 0; i; j]%nat]) =
  match j, i with O, O => -9/10 | O, S _ => -11 | S _, O => -11 | _, _ => -1 end.
Proof.
  cbn [leval map sp_ops ssum szero]. change (leval (sp_ops NEG) lone TZero) with NEG. change (leval (sp_ops NEG) lone (TLeaf [0; 0; i; j]%nat)) with (lone [0; 0; i; j]%nat).
  destruct j, i; cbn [lone]; (etransitivity; [apply sum_pair_v; unfold NEG; lra|lra]).
Qed.
Lemma row_v i : (i < 5)%nat -> leval (sp_ops NEG) lone (five_row i) = if (i =? 0)%nat then -19/10 else -3/2.
Proof.
  intro Hi. transitivity (sparse_sum (map (fun j => leval (sp_ops NEG) lone (TSum [TZero; TLeaf [0; 0; i; j]%nat])) (seq 0 5))); [reflexivity|].
  rewrite (map_ext _ _ (cell_v i)). destruct i; cbn [Nat.eqb seq map]; [apply alone_v|apply flat4_v].
Qed.
Theorem C64_best_refuted :
  let S := spec_of five 0 in
  valid five /\ row_ok five 0 /\ sparse_small five 0 lone /\
  exists s, ok S s /\ (forall s', ok S s' -> s' <> s -> sc (prt S) lone s' < sc (prt S) lone s) /\
    (forall e, row_of five e = 0%nat -> In e (prt S s) -> q_sparse five lone e = 0).
Proof.
  assert (V : valid five) by (repeat split; simpl; lia). assert (Hb : row_ok five 0) by (repeat split; simpl; auto; lia).
  intro S. split; [auto|]. split; [auto|]. split.
  { right. exists 10. split.
    - intro e. unfold lone. repeat (match goal with |- context [match ?x with _ => _ end] => destruct x end);
        unfold Rabs; destruct (Rcase_abs _); lra.
    - rewrite five_graph. assert (E : choices (TSum (map five_row (seq 0 5))) = 3%nat) by (vm_compute; reflexivity). rewrite E.
      assert (D : degree five 0 = 1%nat) by (vm_compute; reflexivity). rewrite D. cbn [INR]. lra. }
  exists [0; 0]%nat. split; [split; [reflexivity|repeat constructor]|]. split.
  - intros s' Hs' Hne. apply (@is_seq_pair 5) in Hs' as (i & j & -> & Hi & Hj). unfold sc, Sum. cbn.
    destruct i, j; [congruence| | |]; cbn; lra.
  - intros e He [<-|[]]. rewrite (@sparse_row five lone 0%nat) by (auto; simpl; lia). rewrite five_graph.
    assert (W0 : w_sparse lone [] (map five_row (seq 0 5)) 0%nat = 0).
    { unfold w_sparse, sparse_backward. 
      replace (map (leval (sp_ops NEG) lone) (map five_row (seq 0 5))) with [-19/10; -3/2; -3/2; -3/2; -3/2]; [now rewrite top5|].
      rewrite map_map, (map_ext_in _ (fun i => if (i =? 0)%nat then -19/10 else -3/2)); [reflexivity|].
      intros i Hi. apply in_seq in Hi. apply row_v. lia. }
    cbn [bp]. set (ws := w_sparse lone [] (map five_row (seq 0 5))) in *. rewrite mapi_seq0.
    etransitivity; [apply (Sum_ext_in R_csr) with (g := fun _ => 0)|rewrite RSum_const; ring].
    intros i Hi. apply in_seq in Hi. rewrite map_length, seq_length in Hi.
    destruct i as [|i].
    + rewrite W0, Rmult_0_r. apply bp_zero.
    + destruct i as [|[|[|[|i]]]]; [| | | |lia]; cbn -[w_sparse Rplus Rmult]; ring.
Qed.
Print Assumptions C64_best_refuted.

(** ** The hypotheses are met *)
Definition peaked (e : list nat) : R := match e with [_; _; O; O] => 100 | _ => 0 end.
Example sparse_hypotheses :
  let S := spec_of five 0 in let k := INR (choices (row_graph five 0)) in
  valid five /\ row_ok five 0 /\ sparse_small five 0 peaked /\ k = 3 /\
  exists s0, ok S s0 /\ (forall s, ok S s -> s <> s0 -> sc (prt S) peaked s < sc (prt S) peaked s0 - 3 * k) /\
    q_sparse five peaked [0; 0; 0; 0]%nat = 1 /\ q_sparse five peaked [0; 0; 1; 1]%nat = 0.
Proof.
  assert (V : valid five) by (repeat split; simpl; lia). assert (Hb : row_ok five 0) by (repeat split; simpl; auto; lia).
  intros S k. assert (Hk : k = 3).
  { unfold k. rewrite five_graph. assert (E : choices (TSum (map five_row (seq 0 5))) = 3%nat) by (vm_compute; reflexivity). rewrite E. cbn [INR]. ring. }
  assert (HS : sparse_small five 0 peaked).
  { right. exists 100. split.
    - intro e. unfold peaked. repeat (match goal with |- context [match ?x with _ => _ end] => destruct x end);
        unfold Rabs; destruct (Rcase_abs _); lra.
    - fold k. rewrite Hk. assert (D : degree five 0 = 1%nat) by (vm_compute; reflexivity). rewrite D. cbn [INR]. lra. }
  repeat (split; [assumption|]).
  assert (H0 : ok S [0; 0]%nat) by (split; [reflexivity|repeat constructor]).
  assert (HM : forall s, ok S s -> s <> [0; 0]%nat -> sc (prt S) peaked s < sc (prt S) peaked [0; 0]%nat - 3 * k).
  { rewrite Hk. intros s' Hs' Hne. apply (@is_seq_pair 5) in Hs' as (i & j & -> & Hi & Hj). unfold sc, Sum. cbn.
    destruct i, j; [congruence| | |]; cbn; lra. }
  exists [0; 0]%nat. split; [exact H0|]. split; [exact HM|].
  split; rewrite (@C64_argmax five peaked V 0%nat Hb HS [0; 0]%nat H0 HM); try reflexivity; unfold uses; cbn; lra.
Qed.
