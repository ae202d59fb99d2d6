(** * Dist: the queries of StructDistribution on one batch row, and what they return.

    A row is a [family]; the potentials are reals. The semiring constant [z]
    stands for [NEG] (-1e5) in all theorems of the P_ files. *)
From Verif Require Import Base Ops Terms Poly Semirings Family Approx Grad.
Set Implicit Arguments.
Local Open Scope R_scope.

Section Queries.
  Variable F : family.
  Variable phi : list nat -> R.

  (** distributions.py:207-210 [partition] *)
  Definition d_partition : R := frun F (log_ops NEG) phi.
  (** distributions.py:117-125 [max] *)
  Definition d_max : R := frun F (max_ops NEG) phi.
  (** distributions.py:77-86 [entropy]; unconvert keeps the second component (semirings.py:384-386) *)
  Definition d_entropy : R := snd (frun F (ent_ops NEG) (fun e => ent_convert (phi e))).
  (** distributions.py:88-101 [cross_entropy] *)
  Definition d_cross_entropy (psi : list nat -> R) : R :=
    d_ (frun F (ce_ops NEG) (fun e => kl_convert (phi e) (psi e))).
  (** distributions.py:103-115 [kl] *)
  Definition d_kl (psi : list nat -> R) : R :=
    d_ (frun F (kl_ops NEG) (fun e => kl_convert (phi e) (psi e))).
  (** distributions.py:171-183 [marginals], helpers.py:83-116: autograd of the
      log-partition, run backward on the computation graph *)
  Definition d_marginals (e : list nat) : R := bp (w_soft NEG phi) [] (ft F) 1 e.
  (** distributions.py:127-135 [argmax]: the same backward pass for MaxSemiring;
      [o] gives the index that torch.max returned at each node *)
  Definition d_argmax (o : path -> nat) (e : list nat) : R := bp (w_pick o) [] (ft F) 1 e.
  (** helpers.py:31-34 [score] (semirings.py:110-112 [prod] is the sum) on a
      tensor with the indices [ids] *)
  Definition d_score (ids : list (list nat)) (value : list nat -> R) : R :=
    RSum (fun e => phi e * value e) ids.
  (** distributions.py:56-75 [log_prob] *)
  Definition d_log_prob (ids : list (list nat)) (value : list nat -> R) : R :=
    d_score ids value - d_partition.
End Queries.

(** the choices of torch.max at every node are maximal entries *)
Definition d_argmax_ok (F : family) (phi : list nat -> R) (o : path -> nat) : Prop :=
  argmax_ok NEG phi o [] (ft F).

Lemma NEG_neg : NEG <= 0. Proof. unfold NEG. lra. Qed.
Lemma NEG_abs : Rabs NEG = 100000. Proof. unfold NEG. rewrite Rabs_left; lra. Qed.

(** ** Counting parts *)
Lemma cnt_pure e m : pure m = true ->
  cnt e m = INR (count_occ (list_eq_dec Nat.eq_dec) (leaves m) e).
Proof.
  induction m as [|a m IH]; [reflexivity|]. intro H. cbn in H. apply andb_true_iff in H as [Ha Hm].
  unfold cnt. rewrite RSum_cons. fold (cnt e m). rewrite (IH Hm). destruct a as [e'| |]; try discriminate.
  cbn [leaves acount]. simpl.
  destruct (list_eq_dec Nat.eq_dec e e') as [E|E]; destruct (list_eq_dec Nat.eq_dec e' e) as [E'|E']; try congruence.
  - rewrite S_INR. ring.
  - ring.
Qed.
Lemma cntO_pure e m : pure m = true -> cntO e m = 0.
Proof.
  induction m as [|a m IH]; [reflexivity|]. intro H. cbn in H. apply andb_true_iff in H as [Ha Hm].
  unfold cntO. rewrite RSum_cons. fold (cntO e m). rewrite (IH Hm). destruct a; try discriminate. simpl. ring.
Qed.
Lemma cnt_range e m : 0 <= cnt e m <= INR (length m).
Proof.
  induction m as [|a m IH]; [unfold cnt, Sum; simpl; lra|]. unfold cnt. rewrite RSum_cons. fold (cnt e m).
  cbn [length]. rewrite S_INR. destruct a; simpl; try destruct (list_eq_dec Nat.eq_dec e e0); lra.
Qed.
Lemma cntO_range e m : 0 <= cntO e m <= INR (length m).
Proof.
  induction m as [|a m IH]; [unfold cntO, Sum; simpl; lra|]. unfold cntO. rewrite RSum_cons. fold (cntO e m).
  cbn [length]. rewrite S_INR. destruct a; simpl; try destruct (list_eq_dec Nat.eq_dec e e0); lra.
Qed.

(** [RSum] over the tensor of potential times uses is the score *)
Lemma score_event (phi : list nat -> R) ids parts : NoDup ids -> incl parts ids ->
  RSum (fun e => phi e * INR (count_occ (list_eq_dec Nat.eq_dec) parts e)) ids = RSum phi parts.
Proof.
  intros Hn. induction parts as [|x l IH]; intro Hi.
  - cbn [count_occ]. change (INR 0) with 0. rewrite (Sum_ext R_csr _ (fun _ => 0)) by (intro; ring).
    rewrite RSum_const. unfold Sum; simpl. ring.
  - rewrite RSum_cons. rewrite <- IH by (intros y Hy; apply Hi; right; auto).
    assert (Hx : In x ids) by (apply Hi; left; auto). clear IH Hi.
    induction ids as [|y ids IHi]; [destruct Hx|]. rewrite !RSum_cons. inversion_clear Hn as [|? ? Hy Hn'].
    cbn [count_occ]. destruct (list_eq_dec Nat.eq_dec x y) as [->|E].
    + rewrite S_INR. replace (RSum (fun e => phi e * INR (if list_eq_dec Nat.eq_dec y e then S (count_occ (list_eq_dec Nat.eq_dec) l e)
          else count_occ (list_eq_dec Nat.eq_dec) l e)) ids)
        with (RSum (fun e => phi e * INR (count_occ (list_eq_dec Nat.eq_dec) l e)) ids).
      * ring.
      * apply (Sum_ext_in R_csr). intros e He. destruct (list_eq_dec Nat.eq_dec y e) as [->|]; [contradiction|reflexivity].
    + destruct Hx as [->|Hx]; [congruence|]. cbn [count_occ] in IHi. rewrite IHi by auto. ring.
Qed.

Section Facts.
  Variable F : family.
  Notation t := (ft F).
  Notation fsc := (sc (fparts F)).
  Notation fZ := (ZS (fparts F) (flist F)).

  (** a pure derivation is a structure *)
  Lemma pure_is_structure m : In m (expand t) -> pure m = true ->
    exists s, In s (flist F) /\ Permutation (leaves m) (fparts F s).
  Proof.
    intros Hm Hp. assert (H : In (msort (leaves m)) (map (fun s => msort (fparts F s)) (flist F))).
    { eapply Permutation_in; [apply ft_derivations|].
      apply in_map_iff. exists m. split; auto. apply filter_In; auto. }
    apply in_map_iff in H as (s & E & Hs). exists s. split; auto.
    rewrite <- (msort_perm (leaves m)), <- E. apply msort_perm.
  Qed.
  Lemma structure_is_pure s : In s (flist F) ->
    exists m, In m (expand t) /\ pure m = true /\ Permutation (leaves m) (fparts F s).
  Proof.
    intro Hs. assert (H : In (msort (fparts F s)) (map (fun m => msort (leaves m)) (filter pure (expand t)))).
    { eapply Permutation_in; [apply Permutation_sym, ft_derivations|]. apply in_map_iff. exists s; auto. }
    apply in_map_iff in H as (m & E & Hm). apply filter_In in Hm as [Hm Hp]. exists m. repeat split; auto.
    rewrite <- (msort_perm (leaves m)), E. apply msort_perm.
  Qed.
  Lemma perm_score phi z m s : pure m = true -> Permutation (leaves m) (fparts F s) -> score phi z m = fsc phi s.
  Proof. intros Hp HP. rewrite score_leaves by auto. unfold sc. apply (Sum_perm R_csr). exact HP. Qed.
  Lemma perm_cnt e m s : pure m = true -> Permutation (leaves m) (fparts F s) -> cnt e m = uses (fparts F) e s.
  Proof. intros Hp HP. rewrite cnt_pure by auto. unfold uses. f_equal. now apply Permutation_count_occ. Qed.

  Lemma fpure_all : fpure F -> forall m, In m (expand t) -> pure m = true.
  Proof.
    intros H m Hm. destruct (pure m) eqn:E; auto. assert (K : In m (spur t)).
    { apply filter_In. split; auto. now rewrite E. }
    rewrite H in K. destruct K.
  Qed.

  (** ** partition *)
  Lemma d_partition_ln phi : d_partition F phi = ln (fZ phi + ES F phi NEG).
  Proof. unfold d_partition. rewrite frun_leval, log_value_ln by apply ft_wf. now rewrite ZZ_split. Qed.

  Theorem partition_err phi B : (forall e, Rabs (phi e) <= B) -> flist F <> [] ->
    0 <= d_partition F phi - ln (fZ phi) <= eps F B NEG.
  Proof. intros HB Hl. rewrite d_partition_ln. apply log_err; auto using NEG_neg. Qed.
  Theorem partition_pure phi : fpure F -> d_partition F phi = ln (fZ phi).
  Proof. intro H. rewrite d_partition_ln, fpure_ES by auto. f_equal. ring. Qed.

  (** ** max *)
  (** potentials small against the finite zero, or no zero in the graph *)
  Definition in_range (phi : list nat -> R) : Prop :=
    fpure F \/ exists B, (forall e, Rabs (phi e) <= B) /\ 2 * (INR (fdeg F) * B) < - NEG.

  Lemma best_pure phi m : in_range phi -> flist F <> [] -> In m (expand t) ->
    (forall m', In m' (expand t) -> score phi NEG m' <= score phi NEG m) -> pure m = true.
  Proof.
    intros [Hp|(B & HB & HR)] Hl Hm Hmax; [apply fpure_all; auto|].
    destruct (pure m) eqn:E; auto. exfalso.
    destruct (flist F) as [|s l] eqn:El; [congruence|].
    destruct (@structure_is_pure s) as (m' & Hm' & Hp' & _); [rewrite El; left; auto|].
    pose proof (@score_spur_le phi NEG B HB NEG_neg m E) as H1.
    pose proof (@score_pure_ge phi NEG B HB m' Hp') as H2.
    specialize (Hmax m' Hm').
    pose proof (@len_le F m Hm). pose proof (@len_le F m' Hm').
    pose proof (@HB0 phi B HB).
    assert (INR (length m) * B <= INR (fdeg F) * B) by (apply Rmult_le_compat_r; auto).
    assert (INR (length m') * B <= INR (fdeg F) * B) by (apply Rmult_le_compat_r; auto).
    lra.
  Qed.

  Theorem max_correct phi : in_range phi -> flist F <> [] ->
    is_max (d_max F phi) (map (fsc phi) (flist F)).
  Proof.
    intros HR Hl. unfold d_max. rewrite frun_leval.
    destruct (@max_value phi NEG t (ft_wf F)) as [Hin Hmax].
    apply in_map_iff in Hin as (m & Em & Hm).
    assert (Hbest : forall m', In m' (expand t) -> score phi NEG m' <= score phi NEG m).
    { intros m' Hm'. rewrite Em. apply Hmax, in_map, Hm'. }
    assert (Hp := @best_pure phi m HR Hl Hm Hbest).
    destruct (pure_is_structure m Hm Hp) as (s & Hs & HP).
    rewrite <- Em, (perm_score phi NEG m s Hp HP). split.
    - apply in_map, Hs.
    - intros x Hx. apply in_map_iff in Hx as (s' & <- & Hs').
      destruct (structure_is_pure s' Hs') as (m' & Hm' & Hp' & HP').
      rewrite <- (perm_score phi NEG m' s' Hp' HP'), <- (perm_score phi NEG m s Hp HP). auto.
  Qed.

  (** without any range condition: never below the best structure, never above
      the best structure with some potentials replaced by the constant *)
  Theorem max_lower phi s : In s (flist F) -> fsc phi s <= d_max F phi.
  Proof.
    intro Hs. unfold d_max. rewrite frun_leval. destruct (structure_is_pure s Hs) as (m & Hm & Hp & HP).
    rewrite <- (perm_score phi NEG m s Hp HP). apply (@max_value phi NEG t (ft_wf F)), in_map, Hm.
  Qed.

  (** ** argmax *)
  Theorem argmax_correct phi o : in_range phi -> flist F <> [] -> d_argmax_ok F phi o ->
    exists s, fok F s /\ (forall e, d_argmax F o e = uses (fparts F) e s) /\ fsc phi s = d_max F phi /\
      forall s', fok F s' -> fsc phi s' <= fsc phi s.
  Proof.
    intros HR Hl Ho. pose proof (@picked_max NEG phi o t (ft_wf F) [] Ho) as E.
    pose proof (argmax_inrange _ _ _ _ _ Ho) as Hr. pose proof (picked_in _ _ _ Hr) as Hin.
    destruct (@max_value phi NEG t (ft_wf F)) as [_ Hmax].
    assert (Hp : pure (picked o [] t) = true).
    { apply (@best_pure phi _ HR Hl Hin). intros m' Hm'. rewrite E. apply Hmax, in_map, Hm'. }
    destruct (pure_is_structure _ Hin Hp) as (s & Hs & HP). exists s.
    assert (Es : fsc phi s = d_max F phi).
    { rewrite <- (perm_score phi NEG _ s Hp HP). unfold d_max. rewrite frun_leval. exact E. }
    split; [apply (fenum F); auto|]. split; [|split; auto].
    - intro e. unfold d_argmax. rewrite bp_pick by auto. rewrite (perm_cnt e _ s Hp HP). ring.
    - intros s' Hs'. rewrite Es. apply max_lower, (fenum F), Hs'.
  Qed.

  (** ** entropy, cross entropy, KL *)
  Lemma mean_score phi psi : mean phi NEG t (fun m => ln (pr psi NEG t m)) =
    mean phi NEG t (score psi NEG) - ln (fZ psi + ES F psi NEG).
  Proof.
    transitivity (mean phi NEG t (fun m => score psi NEG m - ln (ZZ psi NEG t))).
    - apply (Sum_ext R_csr). intro m. now rewrite ln_pr by apply ft_wf.
    - rewrite (mean_lin phi NEG t (score psi NEG) (fun _ => ln (ZZ psi NEG t))), mean_const, ZZ_split by apply ft_wf.
      reflexivity.
  Qed.

  Lemma entropy_code phi : d_entropy F phi = ln (fZ phi + ES F phi NEG) - mean phi NEG t (score phi NEG).
  Proof. unfold d_entropy. rewrite frun_leval, ent_value, mean_score by apply ft_wf. ring. Qed.
  Lemma cross_code phi psi : d_cross_entropy F phi psi =
    ln (fZ psi + ES F psi NEG) - mean phi NEG t (score psi NEG).
  Proof. unfold d_cross_entropy. rewrite frun_leval, ce_value, mean_score by apply ft_wf. ring. Qed.
  Theorem kl_code phi psi : d_kl F phi psi = d_cross_entropy F phi psi - d_entropy F phi.
  Proof.
    rewrite entropy_code, cross_code. unfold d_kl. rewrite frun_leval, kl_value by apply ft_wf.
    rewrite (mean_lin phi NEG t (fun m => ln (pr phi NEG t m)) (fun m => ln (pr psi NEG t m))), !mean_score. ring.
  Qed.
  Theorem kl_code_nonneg phi psi : 0 <= d_kl F phi psi.
  Proof. unfold d_kl. rewrite frun_leval, kl_value by apply ft_wf. apply kl_nonneg, ft_wf. Qed.
  Theorem kl_code_self phi psi : (forall e, phi e = psi e) -> d_kl F phi psi = 0.
  Proof.
    intro E. unfold d_kl. rewrite frun_leval, kl_value by apply ft_wf. unfold mean.
    rewrite (Sum_ext R_csr _ (fun _ => 0)).
    - rewrite RSum_const. ring.
    - intro m. replace (pr psi NEG t m) with (pr phi NEG t m); [ring|].
      unfold pr, ZZ. assert (G : forall m, score phi NEG m = score psi NEG m).
      { intro m'. apply (Sum_ext R_csr). intros []; simpl; auto. }
      rewrite G. f_equal. apply (Sum_ext R_csr). intro m'. now rewrite G.
  Qed.

  (** size of any score *)
  Definition bigM (B : R) : R := INR (fdeg F) * (B + 100000).

  Section Err.
    Variables (phi psi : list nat -> R) (B : R).
    Hypothesis HB : forall e, Rabs (phi e) <= B.
    Hypothesis HB' : forall e, Rabs (psi e) <= B.
    Hypothesis Hl : flist F <> [].

    Lemma score_bigM m : In m (expand t) -> Rabs (score psi NEG m) <= bigM B.
    Proof.
      intro Hm. eapply Rle_trans; [apply (@score_abs psi NEG B HB' m)|]. rewrite NEG_abs.
      apply Rmult_le_compat_r; [pose proof (@HB0 psi B HB'); lra|apply len_le, Hm].
    Qed.
    Lemma mean_score_err :
      Rabs (mean phi NEG t (score psi NEG) - avg (fparts F) (flist F) phi (fsc psi)) <= 2 * bigM B * eps F B NEG.
    Proof.
      apply mean_err; auto using NEG_neg, score_bigM.
      - apply (pure_sum2 F (fun x y => exp x * y) phi psi NEG NEG).
      - intros s Hs. destruct (structure_is_pure s Hs) as (m & Hm & Hp & HP).
        rewrite <- (perm_score psi NEG m s Hp HP). apply score_bigM, Hm.
    Qed.
    Theorem cross_err : Rabs (d_cross_entropy F phi psi - cross_spec (fparts F) (flist F) phi psi)
      <= (1 + 2 * bigM B) * eps F B NEG.
    Proof.
      rewrite cross_code, cross_avg by auto.
      pose proof mean_score_err as H1.
      pose proof (@log_err F psi NEG B HB' NEG_neg Hl) as H2.
      apply Rabs_le_inv in H1. apply Rabs_le. lra.
    Qed.
  End Err.

  Theorem entropy_err phi B : (forall e, Rabs (phi e) <= B) -> flist F <> [] ->
    Rabs (d_entropy F phi - entropy_spec (fparts F) (flist F) phi) <= (1 + 2 * bigM B) * eps F B NEG.
  Proof.
    intros HB Hl. rewrite entropy_code, entropy_avg by auto.
    pose proof (@mean_score_err phi phi B HB HB Hl) as H1.
    pose proof (@log_err F phi NEG B HB NEG_neg Hl) as H2.
    apply Rabs_le_inv in H1. apply Rabs_le. lra.
  Qed.
  Theorem kl_err phi psi B : (forall e, Rabs (phi e) <= B) -> (forall e, Rabs (psi e) <= B) -> flist F <> [] ->
    Rabs (d_kl F phi psi - kl_spec (fparts F) (flist F) phi psi) <= (2 + 4 * bigM B) * eps F B NEG.
  Proof.
    intros HB HB' Hl. rewrite kl_code, kl_cross by auto.
    pose proof (@cross_err phi psi B HB HB' Hl) as H1. pose proof (@entropy_err phi B HB Hl) as H2.
    apply Rabs_le_inv in H1, H2. apply Rabs_le. lra.
  Qed.

  (** exact values when no zero occurs in the graph: no bound on the potentials *)
  Section Pure.
    Hypothesis HP : fpure F.
    Hypothesis Hl : flist F <> [].
    Lemma mean_pure phi (f : deriv -> R) (g : fst_ F -> R) :
      (forall m s, pure m = true -> Permutation (leaves m) (fparts F s) -> f m = g s) ->
      RSum (fun m => exp (score phi NEG m) * f m) (filter pure (expand t)) =
        RSum (fun s => exp (fsc phi s) * g s) (flist F) ->
      mean phi NEG t f = RSum (fun s => prob (fparts F) (flist F) phi s * g s) (flist F).
    Proof.
      intros _ H. unfold mean. rewrite RSum_pr by apply ft_wf. rewrite avg_prob. unfold avg.
      rewrite (RSum_split _ pure), H, ZZ_split, fpure_ES by auto. fold (spur t). rewrite HP. 
      replace (RSum (fun m => exp (score phi NEG m) * f m) []) with 0 by reflexivity.
      f_equal; ring.
    Qed.
    Lemma mean_score_pure phi psi : mean phi NEG t (score psi NEG) = avg (fparts F) (flist F) phi (fsc psi).
    Proof.
      rewrite <- avg_prob. apply mean_pure.
      - intros. apply perm_score; auto.
      - apply (pure_sum2 F (fun x y => exp x * y) phi psi NEG NEG).
    Qed.
    Theorem entropy_pure phi : d_entropy F phi = entropy_spec (fparts F) (flist F) phi.
    Proof.
      rewrite entropy_code, entropy_avg, mean_score_pure by auto. rewrite fpure_ES by auto.
      rewrite Rplus_0_r. reflexivity.
    Qed.
    Theorem cross_pure phi psi : d_cross_entropy F phi psi = cross_spec (fparts F) (flist F) phi psi.
    Proof.
      rewrite cross_code, cross_avg, mean_score_pure by auto. rewrite fpure_ES by auto.
      rewrite Rplus_0_r. reflexivity.
    Qed.
    Theorem kl_pure phi psi : d_kl F phi psi = kl_spec (fparts F) (flist F) phi psi.
    Proof. rewrite kl_code, kl_cross, entropy_pure, cross_pure by auto. reflexivity. Qed.
  End Pure.

  (** ** marginals *)
  Lemma marginals_code phi e : d_marginals F phi e = mean phi NEG t (cnt e).
  Proof. unfold d_marginals. rewrite bp_log by apply ft_wf. ring. Qed.

  Lemma cnt_transfer phi e : RSum (fun m => exp (score phi NEG m) * cnt e m) (filter pure (expand t)) =
    RSum (fun s => exp (fsc phi s) * uses (fparts F) e s) (flist F).
  Proof.
    transitivity (RSum (fun m => (fun l => exp (RSum phi l) * INR (count_occ (list_eq_dec Nat.eq_dec) l e)) (leaves m))
                       (filter pure (expand t))).
    - apply (Sum_ext_in R_csr). intros m Hm. apply filter_In in Hm as [_ Hp].
      rewrite score_leaves, cnt_pure by auto. reflexivity.
    - rewrite (pure_transfer F R_csr (fun l => exp (RSum phi l) * INR (count_occ (list_eq_dec Nat.eq_dec) l e))).
      + reflexivity.
      + intros a b HPab. f_equal; [f_equal; apply (Sum_perm R_csr), HPab|f_equal; now apply Permutation_count_occ].
  Qed.

  Theorem marginals_err phi B e : (forall e, Rabs (phi e) <= B) -> flist F <> [] ->
    Rabs (d_marginals F phi e - marg_spec (fparts F) (flist F) phi e) <= 2 * INR (fdeg F) * eps F B NEG.
  Proof.
    intros HB Hl. rewrite marginals_code. unfold marg_spec. rewrite avg_prob.
    apply mean_err; auto using NEG_neg, cnt_transfer.
    - intros m Hm. pose proof (cnt_range e m). pose proof (@len_le F m Hm). rewrite Rabs_right; lra.
    - intros s Hs. destruct (structure_is_pure s Hs) as (m & Hm & Hp & HP).
      rewrite <- (perm_cnt e m s Hp HP). pose proof (cnt_range e m). pose proof (@len_le F m Hm). rewrite Rabs_right; lra.
  Qed.
  Theorem marginals_pure phi e : fpure F -> flist F <> [] ->
    d_marginals F phi e = marg_spec (fparts F) (flist F) phi e.
  Proof.
    intros HP Hl. rewrite marginals_code. unfold marg_spec. apply mean_pure; auto using cnt_transfer.
    intros. apply perm_cnt; auto.
  Qed.

  (** the derivative of the returned log-partition *)
  Theorem partition_derivative phi e :
    derivable_pt_lim (fun x => d_partition F (upd phi e x)) (phi e)
      (d_marginals F phi e - mean phi NEG t (cntO e)).
  Proof.
    assert (H := @log_derivative NEG phi t e (ft_wf F)).
    eapply dlim_ext; [|replace (d_marginals F phi e - mean phi NEG t (cntO e)) with (mean phi NEG t (cntL e)); [exact H|]].
    - intro y. unfold d_partition. now rewrite frun_leval.
    - rewrite marginals_code, <- (mean_lin phi NEG t (cnt e) (cntO e)). apply (Sum_ext R_csr). intro m.
      rewrite cnt_split. f_equal. ring.
  Qed.
  Theorem masked_share phi B e : (forall e, Rabs (phi e) <= B) -> flist F <> [] ->
    0 <= mean phi NEG t (cntO e) <= 2 * INR (fdeg F) * eps F B NEG.
  Proof.
    intros HB Hl. split.
    - apply RSum_nonneg. intros m _. apply Rmult_le_pos; [apply Rlt_le, pr_pos, ft_wf|apply cntO_range].
    - assert (H : Rabs (mean phi NEG t (cntO e) - avg (fparts F) (flist F) phi (fun _ => 0)) <= 2 * INR (fdeg F) * eps F B NEG).
      { apply mean_err; auto using NEG_neg.
        - transitivity 0.
          + transitivity (RSum (fun _ : deriv => 0) (filter pure (expand t))).
            * apply (Sum_ext_in R_csr). intros m Hm. apply filter_In in Hm as [_ Hp]. rewrite cntO_pure by auto. ring.
            * rewrite RSum_const. ring.
          + symmetry. transitivity (RSum (fun _ : fst_ F => 0) (flist F)).
            * apply (Sum_ext R_csr). intro; ring.
            * rewrite RSum_const. ring.
        - intros m Hm. pose proof (cntO_range e m). pose proof (@len_le F m Hm). rewrite Rabs_right; lra.
        - intros s Hs. rewrite Rabs_R0. apply pos_INR. }
      replace (avg (fparts F) (flist F) phi (fun _ => 0)) with 0 in H.
      + apply Rabs_le_inv in H. lra.
      + unfold avg. replace (RSum (fun s => exp (fsc phi s) * 0) (flist F)) with 0; [unfold Rdiv; ring|].
        symmetry. transitivity (RSum (fun _ : fst_ F => 0) (flist F)).
        * apply (Sum_ext R_csr). intro; ring.
        * rewrite RSum_const. ring.
  Qed.

  (** ** log_prob *)
  Theorem log_prob_value phi ids s : NoDup ids -> incl (fparts F s) ids -> flist F <> [] ->
    exp (d_log_prob F phi ids (fun e => uses (fparts F) e s)) =
    prob (fparts F) (flist F) phi s * (fZ phi / (fZ phi + ES F phi NEG)).
  Proof.
    intros Hn Hi Hl. unfold d_log_prob, d_score, uses. rewrite score_event by auto.
    rewrite d_partition_ln. pose proof (ZS_pos (fparts F) phi Hl). pose proof (ES_nonneg F phi NEG).
    unfold Rminus. rewrite exp_plus, exp_Ropp, exp_ln by lra. unfold prob, sc. field. split; lra.
  Qed.
  Theorem log_prob_sum phi ids : NoDup ids -> (forall s, In s (flist F) -> incl (fparts F s) ids) -> flist F <> [] ->
    RSum (fun s => exp (d_log_prob F phi ids (fun e => uses (fparts F) e s))) (flist F) =
    fZ phi / (fZ phi + ES F phi NEG).
  Proof.
    intros Hn Hi Hl.
    rewrite (Sum_ext_in R_csr _ (fun s => prob (fparts F) (flist F) phi s * (fZ phi / (fZ phi + ES F phi NEG)))).
    - rewrite RSum_scar, prob_sum by auto. ring.
    - intros s Hs. apply log_prob_value; auto.
  Qed.
  Lemma norm_share phi B : (forall e, Rabs (phi e) <= B) -> flist F <> [] ->
    1 - eps F B NEG <= fZ phi / (fZ phi + ES F phi NEG) <= 1.
  Proof.
    intros HB Hl. pose proof (ZS_pos (fparts F) phi Hl) as HZ. pose proof (ES_nonneg F phi NEG) as HE.
    pose proof (@share_le F phi NEG B HB NEG_neg Hl) as HS.
    set (Z := fZ phi) in *. set (E := ES F phi NEG) in *.
    assert (0 <= E / Z) by (apply Rmult_le_pos; [auto|apply Rlt_le, Rinv_0_lt_compat, HZ]).
    replace (Z / (Z + E)) with (1 - E / (Z + E)) by (field; lra).
    assert (E / (Z + E) <= E / Z) by (apply Rmult_le_compat_l; auto; apply Rinv_le_contravar; lra).
    assert (0 <= E / (Z + E)) by (apply Rmult_le_pos; [auto|apply Rlt_le, Rinv_0_lt_compat; lra]).
    lra.
  Qed.
End Facts.
