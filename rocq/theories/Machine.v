(** * Machine: the rounding contracts of Round.v for torch's own algorithms *)
From Coq Require Import Reals Lra Lia.
From Verif Require Import Base Ops Terms Semirings Grad Mask Round.
Set Implicit Arguments.
Local Open Scope R_scope.

(** what is assumed of the elementary operations: u is the relative rounding error, s the
    absolute error of an exponential that underflows *)
Definition rnd_acc (u : R) (rnd : R -> R) : Prop := forall x, Rabs (rnd x - x) <= u * Rabs x.
(** assumed of torch.exp (not code of the repository): relative error u, absolute error s *)
Definition exp_acc (u s : R) (fexp : R -> R) : Prop := forall x, 0 <= fexp x /\ Rabs (fexp x - exp x) <= u * exp x + s.
(** assumed of torch.log (not code of the repository): relative error u *)
Definition ln_acc (u : R) (fln : R -> R) : Prop := forall x, 0 < x -> Rabs (fln x - ln x) <= u * Rabs (ln x).

Section Machine.
  Variables (u s : R) (rnd fexp fln : R -> R).
  (** torch.Tensor.__add__ and __mul__ (semirings.py:89-91, 106-108): the exact result, rounded *)
  Definition m_add (x y : R) : R := rnd (x + y).
  (** torch.mul (semirings.py:89-91): the exact product, rounded *)
  Definition m_mul (x y : R) : R := rnd (x * y).
  (** torch.sum (semirings.py:124-126), one addition after the other. Simplification: torch
      may add in another order *)
  Definition m_sum (l : list R) : R := fold_left m_add l 0.
  (** torch.logsumexp (semirings.py:103-104): the logarithm of the sum of exp (x - max), plus max *)
  Definition m_lse (l : list R) : R := m_add (rmax l) (fln (m_sum (map (fun x => fexp (rnd (x - rmax l))) l))).
  (** the factor of its backward pass: exp (x - result) *)
  Definition m_softmax (l : list R) (i : nat) : R := fexp (rnd (nth i l 0 - m_lse l)).

  Hypothesis Hu : 0 <= u <= 1.
  Hypothesis Hs : 0 <= s <= u.
  Hypothesis Hrnd : rnd_acc u rnd.
  Hypothesis Hexp : exp_acc u s fexp.
  Hypothesis Hln : ln_acc u fln.

  Lemma m_add_acc : add_acc u m_add.
  Proof. intros x y. apply Hrnd. Qed.
  Lemma m_mul_acc : mul_acc u m_mul.
  Proof.
    intros x y Hx Hy. unfold m_mul. pose proof (Hrnd (x * y)) as H. assert (0 <= x * y) by now apply Rmult_le_pos.
    rewrite (Rabs_right (x * y)) in H by lra. apply abs2 in H. lra.
  Qed.
  Lemma step_dn k a x S y : 0 <= k -> 0 <= S -> (1 - u) * (a + x) <= y -> (1 - u) * k * (a + (x + S)) <= k * (y + S).
  Proof.
    intros Hk HS Hy. rewrite (Rmult_comm (1 - u)), Rmult_assoc. apply Rmult_le_compat_l; auto.
    assert (0 <= u * S) by (apply Rmult_le_pos; lra). lra.
  Qed.
  Lemma step_up k a x S y : 0 <= k -> 0 <= S -> y <= (1 + u) * (a + x) -> k * (y + S) <= (1 + u) * k * (a + (x + S)).
  Proof.
    intros Hk HS Hy. rewrite (Rmult_comm (1 + u)), Rmult_assoc. apply Rmult_le_compat_l; auto.
    assert (0 <= u * S) by (apply Rmult_le_pos; lra). lra.
  Qed.
  Lemma m_sum_pow l : forall a, 0 <= a -> Forall (Rle 0) l ->
    (1 - u) ^ length l * (a + RSum (fun x => x) l) <= fold_left m_add l a <= (1 + u) ^ length l * (a + RSum (fun x => x) l).
  Proof.
    induction l as [|x l IH]; intros a Ha Hl.
    - unfold Sum. cbn. lra.
    - inversion_clear Hl as [|? ? Hx Hl']. cbn [fold_left length pow]. rewrite RSum_cons.
      pose proof (Hrnd (a + x)) as H. fold (m_add a x) in H. rewrite (Rabs_right (a + x)) in H by lra. apply abs2 in H.
      assert (P : 0 <= RSum (fun x => x) l) by (apply RSum_nonneg; intros y Hy; rewrite Forall_forall in Hl'; now apply Hl').
      assert (L : (1 - u) * (a + x) <= m_add a x <= (1 + u) * (a + x)) by lra.
      assert (A0 : 0 <= m_add a x) by (assert (0 <= (1 - u) * (a + x)) by (apply Rmult_le_pos; lra); lra).
      destruct (IH _ A0 Hl') as [I1 I2].
      assert (Q1 : 0 <= (1 - u) ^ length l) by (apply pow_le; lra). assert (Q2 : 0 <= (1 + u) ^ length l) by (apply pow_le; lra).
      split.
      + eapply Rle_trans; [|exact I1]. apply step_dn; [exact Q1|exact P|apply L].
      + eapply Rle_trans; [exact I2|]. apply step_up; [exact Q2|exact P|apply L].
  Qed.
  Lemma bernoulli n : 1 - INR n * u <= (1 - u) ^ n.
  Proof.
    induction n as [|n IH]; [simpl; lra|]. cbn [pow]. rewrite S_INR. apply Rle_trans with ((1 - u) * (1 - INR n * u)).
    - pose proof (pos_INR n). assert (0 <= u * (INR n * u)) by (apply Rmult_le_pos; [lra|apply Rmult_le_pos; lra]). lra.
    - apply Rmult_le_compat_l; lra.
  Qed.
  Lemma pow_up n : INR n * u <= / 2 -> (1 + u) ^ n <= 1 + 2 * INR n * u.
  Proof.
    intro H. assert (E : (1 + u) ^ n <= exp (INR n * u)).
    { clear H. induction n as [|n IH]; [simpl; rewrite Rmult_0_l, exp_0; lra|]. cbn [pow]. rewrite S_INR. replace ((INR n + 1) * u) with (INR n * u + u) by ring. rewrite exp_plus, Rmult_comm.
      apply Rmult_le_compat; [apply pow_le; lra|lra|exact IH|]. apply exp_ineq1_le. }
    eapply Rle_trans; [exact E|]. set (x := INR n * u) in *. assert (X0 : 0 <= x) by (apply Rmult_le_pos; [apply pos_INR|lra]).
    replace (1 + 2 * INR n * u) with (1 + 2 * x) by (unfold x; ring).
    pose proof (exp_ineq1_le (- x)) as X. pose proof (exp_pos x) as P. assert (M : exp x * exp (- x) = 1) by (rewrite <- exp_plus, Rplus_opp_r; apply exp_0).
    assert (exp x * (1 - x) <= 1) by (rewrite <- M; apply Rmult_le_compat_l; lra).
    apply Rmult_le_reg_r with (1 - x); [lra|]. eapply Rle_trans; [eassumption|]. assert (0 <= x * (1 - 2 * x)) by (apply Rmult_le_pos; lra). lra.
  Qed.
  Lemma m_sum_acc n : INR n * u <= / 2 -> sum_acc n (2 * INR n * u) m_sum.
  Proof.
    intros Hn l Hl Hlen Hp. destruct (@m_sum_pow l 0 (Rle_refl 0) Hp) as [H1 H2]. rewrite Rplus_0_l in H1, H2. fold (m_sum l) in H1, H2.
    apply le_INR in Hlen. assert (Hm : INR (length l) * u <= INR n * u) by (apply Rmult_le_compat_r; lra).
    assert (P : 0 <= RSum (fun x => x) l) by (apply RSum_nonneg; intros y Hy; rewrite Forall_forall in Hp; now apply Hp).
    pose proof (bernoulli (length l)) as B1. pose proof (@pow_up (length l) ltac:(lra)) as B2.
    assert (0 <= INR n * u) by (apply Rmult_le_pos; [apply pos_INR|lra]). split.
    - eapply Rle_trans; [|exact H1]. apply Rmult_le_compat_r; auto. lra.
    - eapply Rle_trans; [exact H2|]. apply Rmult_le_compat_r; auto. lra.
  Qed.

  (** rounding the argument of an exponential *)
  Lemma exp_diff a r d : Rabs (r - a) <= d -> a <= 0 -> r <= 0 -> forall z, a <= - z -> r <= - z -> Rabs (exp r - exp a) <= d * exp (- z).
  Proof.
    intros H Ha Hr z Hz Hz'. apply abs2 in H. assert (X : forall x y, x <= y -> y <= - z -> exp y - exp x <= (y - x) * exp (- z)).
    { intros x y Hxy Hy. replace x with (y + (x - y)) at 1 by ring. rewrite exp_plus. pose proof (exp_ineq1_le (x - y)). pose proof (exp_pos y).
      assert (exp y * (1 - exp (x - y)) <= exp y * (y - x)) by (apply Rmult_le_compat_l; lra).
      assert (exp y * (y - x) <= exp (- z) * (y - x)) by (apply Rmult_le_compat_r; [lra|now apply exp_le]). lra. }
    pose proof (exp_pos (- z)) as P. apply Rabs_le. destruct (Rle_dec a r) as [C|C].
    - pose proof (X a r C Hz'). pose proof (exp_le C). assert ((r - a) * exp (- z) <= d * exp (- z)) by (apply Rmult_le_compat_r; lra). assert (0 <= d * exp (- z)) by (apply Rmult_le_pos; lra). lra.
    - assert (C' : r <= a) by lra. pose proof (X r a C' Hz). pose proof (exp_le C'). assert ((a - r) * exp (- z) <= d * exp (- z)) by (apply Rmult_le_compat_r; lra). assert (0 <= d * exp (- z)) by (apply Rmult_le_pos; lra). lra.
  Qed.
  Lemma term_err a : u <= / 2 -> a <= 0 -> 0 <= fexp (rnd a) /\ Rabs (fexp (rnd a) - exp a) <= 3 * u + s.
  Proof.
    intros Hu2 Ha. pose proof (Hrnd a) as Hr. destruct (Hexp (rnd a)) as [E0 E1]. split; [exact E0|].
    rewrite (Rabs_left1 a) in Hr by lra. set (r := rnd a) in *. set (z := - a * (1 - u)).
    assert (Hr' := abs2 _ _ Hr). assert (P : 0 <= - a * u) by (apply Rmult_le_pos; lra).
    assert (Hz1 : a <= - z) by (unfold z; lra). assert (Hz2 : r <= - z) by (unfold z; lra).
    assert (Z0 : 0 <= z) by (unfold z; apply Rmult_le_pos; lra). assert (R0 : r <= 0) by lra.
    pose proof (exp_diff Hr Ha R0 Hz1 Hz2) as D.
    assert (T : u * - a * exp (- z) <= 2 * u).
    { assert (Z1 : z * exp (- z) <= 1).
      { pose proof (exp_ineq1_le z). pose proof (exp_pos (- z)). assert (exp z * exp (- z) = 1) by (rewrite <- exp_plus, Rplus_opp_r; apply exp_0).
        assert (z * exp (- z) <= exp z * exp (- z)) by (apply Rmult_le_compat_r; lra). lra. }
      assert (A2 : - a <= 2 * z) by (unfold z; assert (0 <= - a * (1 - 2 * u)) by (apply Rmult_le_pos; lra); lra).
      assert (u * - a * exp (- z) <= u * (2 * z) * exp (- z)) by (apply Rmult_le_compat_r; [apply Rlt_le, exp_pos|apply Rmult_le_compat_l; lra]).
      assert (u * (z * exp (- z)) <= u * 1) by (apply Rmult_le_compat_l; lra). lra. }
    assert (E : exp r <= 1) by (rewrite <- exp_0; now apply exp_le).
    assert (u * exp r <= u * 1) by (apply Rmult_le_compat_l; lra).
    apply abs2 in E1, D. apply Rabs_le. lra.
  Qed.
  Lemma ln_close x y d : 0 < x -> 0 <= d <= / 2 -> (1 - d) * x <= y <= (1 + d) * x -> Rabs (ln y - ln x) <= 2 * d.
  Proof.
    intros Hx Hd Hy. assert (Y : 0 < y) by (assert (0 < (1 - d) * x) by (apply Rmult_lt_0_compat; lra); lra).
    apply Rabs_le. split.
    - assert (L : ln ((1 - d) * x) <= ln y) by (apply ln_le; [apply Rmult_lt_0_compat; lra|lra]). rewrite ln_mult in L by lra.
      assert (M : - (2 * d) <= ln (1 - d)); [|lra]. rewrite <- (ln_exp (- (2 * d))). apply ln_le; [apply exp_pos|].
      apply Rmult_le_reg_r with (exp (2 * d)); [apply exp_pos|]. rewrite <- exp_plus, Rplus_opp_l, exp_0.
      pose proof (exp_ineq1_le (2 * d)). apply Rle_trans with ((1 - d) * (1 + 2 * d)); [|apply Rmult_le_compat_l; lra].
      assert (0 <= d * (1 - 2 * d)) by (apply Rmult_le_pos; lra). lra.
    - assert (L : ln y <= ln ((1 + d) * x)) by (apply ln_le; lra). rewrite ln_mult in L by lra.
      pose proof (@ln1p d ltac:(lra)). lra.
  Qed.

  (** torch.logsumexp of at most n numbers *)
  Theorem m_lse_acc n : (1 <= n)%nat -> INR n * u <= / 24 -> lse_acc n (17 * INR n * u) m_lse.
  Proof.
    intros Hn Hnu l Hl Hlen. destruct (rmax_is_max Hl) as [M1 M2]. set (m := rmax l) in *.
    set (S := RSum (fun x => exp (x - m)) l : R). set (es := map (fun x => fexp (rnd (x - m))) l). set (T := RSum (fun x => x) es : R).
    assert (N1 : 1 <= INR n) by (change 1 with (INR 1); now apply le_INR).
    assert (U1 : u <= INR n * u) by (rewrite <- (Rmult_1_l u) at 1; apply Rmult_le_compat_r; lra).
    assert (Hlen' := le_INR _ _ Hlen). assert (Lu : INR (length l) * u <= INR n * u) by (apply Rmult_le_compat_r; lra).
    assert (Hle : forall x, In x l -> x - m <= 0) by (intros x Hx; specialize (M2 x Hx); lra).
    assert (S1 : 1 <= S).
    { unfold S. rewrite <- exp_0 at 1. replace 0 with (m - m) by ring. apply (RSum_single (fun x => exp (x - m))); auto. intros. apply Rlt_le, exp_pos. }
    assert (Sn : S <= INR n).
    { apply Rle_trans with (RSum (fun _ => 1) l); [|rewrite RSum_const; lra]. apply RSum_le. intros x Hx. rewrite <- exp_0. apply exp_le. auto. }
    assert (Pe : Forall (Rle 0) es).
    { apply Forall_forall. intros y Hy. apply in_map_iff in Hy as (x & <- & Hx). apply term_err; [lra|auto]. }
    assert (TS : Rabs (T - S) <= 4 * (INR n * u)).
    { unfold T, es. rewrite RSum_map. unfold S. rewrite <- RSum_sub. eapply Rle_trans; [apply RSum_abs|].
      apply Rle_trans with (RSum (fun _ => 4 * u) l); [|rewrite RSum_const; lra]. apply RSum_le. intros x Hx.
      destruct (@term_err (x - m) ltac:(lra) (Hle x Hx)) as [_ X]. lra. }
    assert (Hes : es <> []) by (unfold es; destruct l; [congruence|discriminate]).
    assert (Les : (length es <= n)%nat) by (unfold es; now rewrite map_length).
    destruct (m_sum_acc (n := n) ltac:(lra) Hes Les Pe) as [F1 F2]. fold T in F1, F2. set (F := m_sum es) in *.
    apply abs2 in TS. set (x := INR n * u) in *. replace (2 * INR n * u) with (2 * x) in F1, F2 by (unfold x; ring).
    assert (X0 : 0 <= x) by (unfold x; apply Rmult_le_pos; lra).
    assert (XS : x <= x * S) by (rewrite <- (Rmult_1_r x) at 1; apply Rmult_le_compat_l; lra).
    assert (T2 : T <= 7 / 6 * S).
    { assert (x * S <= / 24 * S) by (apply Rmult_le_compat_r; lra). lra. }
    assert (XT : x * T <= 7 / 6 * (x * S)) by (replace (7 / 6 * (x * S)) with (x * (7 / 6 * S)) by ring; apply Rmult_le_compat_l; lra).
    assert (FS : (1 - 7 * x) * S <= F <= (1 + 7 * x) * S) by lra.
    pose proof (@ln_close S F (7 * x) ltac:(lra) ltac:(lra) FS) as L1.
    assert (F0 : 0 < F) by (assert (0 < (1 - 7 * x) * S) by (apply Rmult_lt_0_compat; lra); lra).
    pose proof (Hln F0) as L2.
    assert (Ls : 0 <= ln S <= INR n).
    { split; [rewrite <- ln_1; apply ln_le; lra|]. apply Rle_trans with (ln (exp (INR n))); [|rewrite ln_exp; lra].
      apply ln_le; [lra|]. pose proof (exp_ineq1_le (INR n)). lra. }
    assert (Es : lse l = m + ln S).
    { unfold lse, S. rewrite <- (ln_exp m) at 1. rewrite <- ln_mult; [|apply exp_pos|fold S; lra]. f_equal. rewrite <- RSum_scal.
      apply (Sum_ext R_csr). intro y. rewrite <- exp_plus. f_equal. ring. }
    assert (Lf : Rabs (ln F) <= INR n + 1) by (apply abs2 in L1; apply Rabs_le; lra).
    assert (L3 : u * Rabs (ln F) <= 2 * x).
    { apply Rle_trans with (u * (INR n + 1)); [apply Rmult_le_compat_l; lra|]. unfold x in *. lra. }
    assert (L4 : Rabs (fln F - ln S) <= 16 * x) by (apply abs2 in L1, L2; apply Rabs_le; lra).
    unfold m_lse. fold m es F. pose proof (m_add_acc m (fln F)) as L5.
    assert (G : Rabs (m + fln F) <= Rabs (lse l) + 1).
    { rewrite Es. replace (m + fln F) with ((m + ln S) + (fln F - ln S)) by ring. eapply Rle_trans; [apply Rabs_triang|]. lra. }
    assert (L6 : u * Rabs (m + fln F) <= x * (1 + Rabs (lse l))) by (apply Rmult_le_compat; [lra|apply Rabs_pos|exact U1|lra]).
    pose proof (Rabs_pos (lse l)) as A0. assert (L7 : 16 * x <= 16 * x * (1 + Rabs (lse l))) by (rewrite <- (Rmult_1_r (16 * x)) at 1; apply Rmult_le_compat_l; lra).
    replace (17 * INR n * u * (1 + Rabs (lse l))) with (16 * x * (1 + Rabs (lse l)) + x * (1 + Rabs (lse l))) by (unfold x; ring).
    replace (m_add m (fln F) - lse l) with ((m_add m (fln F) - (m + fln F)) + (fln F - ln S)) by (rewrite Es; ring).
    eapply Rle_trans; [apply Rabs_triang|]. lra.
  Qed.

  (** the factors of its backward pass *)
  Definition m_rule (phi : list nat -> R) : rule := fun _ l i => m_softmax (map (fval m_add m_lse phi) l) i.
  Theorem m_rule_acc A phi : u <= / 2 -> w_acc m_add m_lse A phi (2 * u) s m_lse (m_rule phi).
  Proof.
    intros Hu2 p l i t _ Hi. cbv zeta. unfold m_rule, m_softmax.
    replace (nth i (map (fval m_add m_lse phi) l) 0) with (fval m_add m_lse phi t).
    2:{ symmetry. apply nth_error_nth. now apply map_nth_error. }
    set (d := fval m_add m_lse phi t - m_lse (map (fval m_add m_lse phi) l)). pose proof (Hrnd d) as Hr. destruct (Hexp (rnd d)) as [E0 E1].
    split; [exact E0|]. apply abs2 in Hr, E1. pose proof (Rabs_pos d) as D0.
    assert (P : 0 <= u * Rabs d) by (apply Rmult_le_pos; lra). pose proof (exp_pos (rnd d)) as Q. split.
    - assert (X : exp (d - 2 * u * (1 + Rabs d)) <= exp (rnd d) * (1 - u)); [|lra].
      apply Rle_trans with (exp (rnd d) * exp (- (2 * u))).
      + rewrite <- exp_plus. apply exp_le. lra.
      + apply Rmult_le_compat_l; [lra|]. apply Rmult_le_reg_r with (exp (2 * u)); [apply exp_pos|]. rewrite <- exp_plus, Rplus_opp_l, exp_0.
        pose proof (exp_ineq1_le (2 * u)). apply Rle_trans with ((1 - u) * (1 + 2 * u)); [|apply Rmult_le_compat_l; lra].
        assert (0 <= u * (1 - 2 * u)) by (apply Rmult_le_pos; lra). lra.
    - assert (X : exp (rnd d) * (1 + u) <= exp (d + 2 * u * (1 + Rabs d))); [|lra].
      apply Rle_trans with (exp (rnd d) * exp u).
      + apply Rmult_le_compat_l; [lra|]. pose proof (exp_ineq1_le u). lra.
      + rewrite <- exp_plus. apply exp_le. lra.
  Qed.
End Machine.
