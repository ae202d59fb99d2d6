(** * P_MaskNp: non-projective trees with forbidden arcs (C83) *)
From Coq Require Import Reals Lra.
From Verif Require Import Base Ops Terms Semirings Poly Chain DepSpec DepTree Approx Grad Mask MaskGrad P_MaskGrad P_Oracle NpSpec MxR NonProj P_Sparse P_NonProj.
Set Implicit Arguments.
Local Open Scope R_scope.

(** the row of scores handed to deptree_part and deptree_nonproj (distributions.py
    490-509), minus infinity for a forbidden arc *)
Definition ext_row (phi : list nat -> ext) (b i j : nat) : option R := phi [b; i; j].

(** weight of a tree without smoothing *)
Lemma tw_allowed phi b N h : length h = N ->
  RProd (tw 0 (ext_row phi b) h) (seq 0 N) = if forallb (fun e => negb (is_none (phi e))) (dep_parts b h) then exp (sc (dep_parts b) (fin phi) h) else 0.
Proof.
  intros <-. destruct (forallb _ _) eqn:E.
  - rewrite <- (@tw_exp (fin phi) b (length h) h eq_refl). apply (Prod_ext_in R_csr). intros j Hj. unfold tw, real_row, ext_row, fin.
    rewrite allowedb in E. unfold allowed in E. rewrite dep_parts_map in E.
    assert (Q : phi (dep_part b j (nth j h 0%nat) []) <> None) by (apply E, in_map_iff; eauto). unfold dep_part in Q.
    destruct (nth j h 0%nat) as [|k]; cbn [eexp]; [destruct (phi [b; j; j])|destruct (phi [b; k; j])]; congruence || reflexivity.
  - assert (Q : exists e, In e (dep_parts b h) /\ phi e = None).
    { clear -E. induction (dep_parts b h) as [|e l IH]; [discriminate|]. cbn in E. destruct (phi e) eqn:F; cbn in E.
      - destruct (IH E) as (x & Hx & Ex). exists x. split; [right|]; auto.
      - exists e. split; [left|]; auto. }
    destruct Q as (e & He & Ee). rewrite dep_parts_map in He. apply in_map_iff in He as (j & <- & Hj).
    apply (RProd_zero _ _ _ Hj). unfold tw, ext_row. unfold dep_part in Ee. destruct (nth j h 0%nat); rewrite Ee; cbn; lra.
Qed.
Lemma np_xZ multi N phi b l : Enumerates (np_ok multi N) l ->
  RSum (fun h => RProd (tw 0 (ext_row phi b) h) (seq 0 N)) l = xZ (dep_parts b) phi l.
Proof. intro Hl. unfold xZ. apply (Sum_ext_in R_csr). intros h Hh. apply tw_allowed. apply Hl in Hh as [[L _] _]. exact L. Qed.
Lemma xZ_pos A (parts : A -> list (list nat)) phi l : 0 < xZ parts phi l <-> exists s, In s l /\ allowed parts phi s.
Proof.
  unfold xZ. split.
  - intro H. destruct (existsb (fun s => forallb (fun e => negb (is_none (phi e))) (parts s)) l) eqn:E.
    + apply existsb_exists in E as (s & Hs & E). exists s. split; auto. now apply allowedb.
    + exfalso. apply (Rlt_irrefl 0). eapply Rlt_le_trans; [exact H|]. right. transitivity (RSum (fun _ : A => 0) l); [|apply (Sum_0 R_csr)].
      apply (Sum_ext_in R_csr). intros s Hs. destruct (forallb _ _) eqn:F; [|reflexivity].
      exfalso. enough (existsb (fun s => forallb (fun e => negb (is_none (phi e))) (parts s)) l = true) by congruence. apply existsb_exists. eauto.
  - intros (s & Hs & Ha). apply allowedb in Ha.
    apply Rlt_le_trans with (exp (sc parts (fin phi) s)); [apply exp_pos|].
    assert (Q : (if forallb (fun e => negb (is_none (phi e))) (parts s) then exp (sc parts (fin phi) s) else 0) = exp (sc parts (fin phi) s)) by now rewrite Ha.
    rewrite <- Q. apply (RSum_single (fun s => if forallb (fun e => negb (is_none (phi e))) (parts s) then exp (sc parts (fin phi) s) else 0)); auto.
    intros y _. clear. destruct (forallb (fun e => negb (is_none (phi e))) (parts y)); [left; apply exp_pos|apply Rle_refl].
Qed.
Lemma np_singular multi N eps phi l : (multi = false -> (1 <= N)%nat) -> Enumerates (np_ok multi N) l ->
  RSum (fun h => RProd (tw eps phi h) (seq 0 N)) l = 0 -> deptree_nonproj multi N None eps phi = Err RuntimeError.
Proof.
  intros HN Hl HZ. unfold deptree_nonproj. replace (negb multi && Nat.eqb N 0) with false by (destruct multi; [reflexivity|specialize (HN eq_refl); destruct N; [lia|reflexivity]]).
  cbv zeta. rewrite det_npZ, (npZ_None eps phi HN Hl) by auto. destruct (Req_EM_T _ 0); [reflexivity|contradiction].
Qed.

(** C83: without smoothing, exactly the distribution over the allowed trees *)
Theorem C83_exact multi N phi b l : (multi = false -> (1 <= N)%nat) -> Enumerates (np_ok multi N) l ->
  ((exists h, np_ok multi N h /\ allowed (dep_parts b) phi h) ->
     deptree_part multi N None 0 (ext_row phi b) = Ok (Fin (ln (xZ (dep_parts b) phi l))) /\
     exists M, deptree_nonproj multi N None 0 (ext_row phi b) = Ok M /\
       forall i j, (i < N)%nat -> (j < N)%nat -> M i j = cond_marg (dep_parts b) l phi [b; i; j]) /\
  ((forall h, np_ok multi N h -> ~ allowed (dep_parts b) phi h) ->
     deptree_part multi N None 0 (ext_row phi b) = Ok NegInf /\ deptree_nonproj multi N None 0 (ext_row phi b) = Err RuntimeError).
Proof.
  intros HN Hl. pose proof (np_xZ phi b Hl) as EZ. split.
  - intros (h0 & Hh0 & Ha). assert (P : 0 < xZ (dep_parts b) phi l) by (apply xZ_pos; exists h0; split; auto; now apply Hl).
    split.
    + rewrite (@C11_partition multi N 0 _ l HN (Rle_refl 0) Hl), EZ. unfold logval. destruct (Rlt_dec 0 _); [reflexivity|contradiction].
    + destruct (@C12_output multi N 0 (ext_row phi b) l HN Hl) as (M & E & H); [rewrite EZ; lra|]. exists M. split; auto. intros i j Hi Hj. specialize (H i j Hi Hj). rewrite EZ in H.
      apply Rmult_eq_reg_l with (xZ (dep_parts b) phi l); [|lra]. rewrite H. rewrite <- RSum_scal. unfold cond_marg.
      rewrite <- RSum_scal. symmetry. apply RSum_filter_in. intros h Hh. apply Hl in Hh as [T Sr]. pose proof T as [L _].
      rewrite uses_count by (rewrite L; auto). destruct (uses_arc i j h) eqn:U; [|destruct (forallb _ _); ring].
      transitivity (if forallb (fun e => negb (is_none (phi e))) (dep_parts b h) then exp (sc (dep_parts b) (fin phi) h) else 0); [destruct (forallb _ _); [field; lra|ring]|].
      transitivity (RProd (tw 0 (ext_row phi b) h) (seq 0 N)); [symmetry; exact (@tw_allowed phi b N h L)|]. rewrite (@RProd_others (tw 0 (ext_row phi b) h) N j Hj).
      apply (f_equal (fun x => x * RProd (tw 0 (ext_row phi b) h) (others N j))). unfold tw. unfold uses_arc in U. apply Nat.eqb_eq in U. rewrite U.
      destruct (Nat.eqb_spec i j) as [->|]; [reflexivity|apply Rplus_0_r].
  - intro Hno. assert (Z0 : xZ (dep_parts b) phi l = 0).
    { destruct (Rle_lt_or_eq_dec 0 (xZ (dep_parts b) phi l)) as [P|E]; auto.
      - unfold xZ. apply RSum_nonneg. intros s _. destruct (forallb _ _); [left; apply exp_pos|apply Rle_refl].
      - apply xZ_pos in P as (s & Hs & Ha). exfalso. apply (Hno s); auto. now apply Hl. }
    split.
    + rewrite (@C11_partition multi N 0 _ l HN (Rle_refl 0) Hl), EZ, Z0. unfold logval. destruct (Rlt_dec 0 0); [lra|reflexivity].
    + apply np_singular with l; auto. now rewrite EZ.
Qed.
Print Assumptions C83_exact.

(** ** With smoothing (the code's default) *)
Lemma tree_root N h : (1 <= N)%nat -> is_tree N h -> exists j, (j < N)%nat /\ nth j h 0%nat = 0%nat.
Proof.
  intros HN [L H]. destruct (H 1%nat ltac:(lia)) as [_ [t Et]].
  assert (G : forall t k, (1 <= k <= N)%nat -> Nat.iter t (hd_of h) k = 0%nat -> exists j, (j < N)%nat /\ nth j h 0%nat = 0%nat).
  { induction t0 as [|t0 IH]; intros k Hk E; [cbn in E; lia|]. rewrite iter_shift in E. destruct (hd_of h k) eqn:F.
    - destruct k as [|k]; [lia|]. exists k. split; [lia|exact F].
    - apply (IH (S n)); auto. destruct (H k Hk) as [Q _]. lia. }
  apply (G t 1%nat); auto; lia.
Qed.
Lemma hub_pos N c eps phi : 0 < eps -> (c < N)%nat -> phi c c <> None -> forall j, (j < N)%nat -> 0 < tw eps phi (hub N c) j.
Proof.
  intros He Hc Hp j Hj. unfold tw, hub. rewrite nth_map_seq by auto. destruct (Nat.eqb_spec j c) as [->|].
  - destruct (phi c c); [cbn; apply exp_pos|congruence].
  - pose proof (eexp_nonneg (phi c j)). lra.
Qed.
Lemma np_smooth_pos multi N eps phi l : 0 < eps -> Enumerates (np_ok multi N) l -> (exists c, (c < N)%nat /\ phi c c <> None) ->
  0 < RSum (fun h => RProd (tw eps phi h) (seq 0 N)) l.
Proof.
  intros He Hl (c & Hc & Hp). apply Rlt_le_trans with (RProd (tw eps phi (hub N c)) (seq 0 N)).
  - apply RProd_pos. intros j Hj. apply in_seq in Hj. apply hub_pos; auto; lia.
  - apply (RSum_single (fun h => RProd (tw eps phi h) (seq 0 N))); [apply Hl, hub_ok; auto|]. intros y _. apply RProd_nonneg. intros. apply tw_nonneg. lra.
Qed.
Lemma np_smooth_zero multi N eps phi l : (1 <= N)%nat -> Enumerates (np_ok multi N) l -> (forall c, (c < N)%nat -> phi c c = None) ->
  RSum (fun h => RProd (tw eps phi h) (seq 0 N)) l = 0.
Proof.
  intros HN Hl Hp. transitivity (RSum (fun _ : list nat => 0) l); [|apply (Sum_0 R_csr)]. apply (Sum_ext_in R_csr). intros h Hh.
  apply Hl in Hh as [T _]. destruct (tree_root HN T) as (j & Hj & E). apply RProd_zero with j; [apply in_seq; lia|]. unfold tw. rewrite E, Hp by auto. reflexivity.
Qed.
Lemma root_dec N (phi : nat -> nat -> option R) : (exists c, (c < N)%nat /\ phi c c <> None) \/ (forall c, (c < N)%nat -> phi c c = None).
Proof.
  induction N as [|N [(c & Hc & E)|H]]; [right; intros; lia|left; exists c; split; [lia|auto]|].
  destruct (phi N N) eqn:E; [left; exists N; split; [lia|congruence]|]. right. intros c Hc. destruct (Nat.eq_dec c N); [now subst|apply H; lia].
Qed.

(** the partition is -inf, and the marginals raise, exactly when every word is forbidden
    as a root: a word all of whose heads are forbidden goes unnoticed *)
Theorem C83_smoothed_fails multi N eps phi l : (1 <= N)%nat -> 0 < eps -> Enumerates (np_ok multi N) l ->
  (deptree_part multi N None eps phi = Ok NegInf <-> (forall c, (c < N)%nat -> phi c c = None)) /\
  (deptree_nonproj multi N None eps phi = Err RuntimeError <-> (forall c, (c < N)%nat -> phi c c = None)) /\
  ((exists c, (c < N)%nat /\ phi c c <> None) -> exists x M, deptree_part multi N None eps phi = Ok (Fin x) /\ deptree_nonproj multi N None eps phi = Ok M).
Proof.
  intros HN He Hl. rewrite (@C11_partition multi N eps phi l ltac:(auto) ltac:(lra) Hl).
  assert (A : (exists c, (c < N)%nat /\ phi c c <> None) -> exists x M, Ok (logval (RSum (fun h => RProd (tw eps phi h) (seq 0 N)) l)) = Ok (Fin x) /\ deptree_nonproj multi N None eps phi = Ok M).
  { intro H. pose proof (@np_smooth_pos multi N eps phi l He Hl H) as P. destruct (@C12_output multi N eps phi l ltac:(auto) Hl ltac:(lra)) as (M & E & _).
    unfold logval. destruct (Rlt_dec 0 _); [|contradiction]. do 2 eexists. split; [reflexivity|exact E]. }
  split; [|split; auto]; (destruct (root_dec N phi) as [H|H]; [destruct (A H) as (x & M & E1 & E2); destruct H as (c & Hc & H)|]).
  - rewrite E1. split; [discriminate|]. intro Q. now rewrite Q in H.
  - rewrite (np_smooth_zero eps phi HN Hl H). split; auto. intros _. unfold logval. destruct (Rlt_dec 0 0); [lra|reflexivity].
  - rewrite E2. split; [discriminate|]. intro Q. now rewrite Q in H.
  - split; auto. intros _. apply np_singular with l; auto. exact (@np_smooth_zero multi N eps phi l HN Hl H).
Qed.
Print Assumptions C83_smoothed_fails.

(** the trees that use a forbidden arc are counted too: the smoothed partition is above
    the logarithm of the allowed weight, and every tree with a forbidden arc but no
    forbidden root adds at least its smoothed weight *)
Theorem C83_smoothed_partition multi N eps phi b l : (2 <= N)%nat -> 0 < eps -> Enumerates (np_ok multi N) l ->
  (exists c, (c < N)%nat /\ phi [b; c; c] <> None) ->
  exists x, deptree_part multi N None eps (ext_row phi b) = Ok (Fin x) /\ xZ (dep_parts b) phi l < exp x /\
    forall h, np_ok multi N h -> (forall j, (j < N)%nat -> nth j h 0%nat = 0%nat -> phi [b; j; j] <> None) -> ~ allowed (dep_parts b) phi h ->
      xZ (dep_parts b) phi l + RProd (tw eps (ext_row phi b) h) (seq 0 N) <= exp x /\ 0 < RProd (tw eps (ext_row phi b) h) (seq 0 N).
Proof.
  intros HN He Hl Hr. set (Z := RSum (fun h => RProd (tw eps (ext_row phi b) h) (seq 0 N)) l).
  assert (P : 0 < Z) by exact (@np_smooth_pos multi N eps (ext_row phi b) l He Hl Hr).
  exists (ln Z). rewrite exp_ln by auto. rewrite (@C11_partition multi N eps _ l ltac:(lia) ltac:(lra) Hl). fold Z. unfold logval. destruct (Rlt_dec 0 Z); [|contradiction].
  split; [reflexivity|]. rewrite <- (np_xZ phi b Hl).
  assert (Le : forall h, RProd (tw 0 (ext_row phi b) h) (seq 0 N) <= RProd (tw eps (ext_row phi b) h) (seq 0 N)).
  { intro h. apply RProd_le. intros j _. split; [apply tw_nonneg; lra|]. unfold tw. destruct (nth j h 0%nat); lra. }
  assert (Gap : forall h0, In h0 l -> RSum (fun h => RProd (tw 0 (ext_row phi b) h) (seq 0 N)) l + (RProd (tw eps (ext_row phi b) h0) (seq 0 N) - RProd (tw 0 (ext_row phi b) h0) (seq 0 N)) <= Z).
  { intros h0 Hh0. assert (Q : RProd (tw eps (ext_row phi b) h0) (seq 0 N) - RProd (tw 0 (ext_row phi b) h0) (seq 0 N) <= RSum (fun h => RProd (tw eps (ext_row phi b) h) (seq 0 N) - RProd (tw 0 (ext_row phi b) h) (seq 0 N)) l).
    { apply (RSum_single (fun h => RProd (tw eps (ext_row phi b) h) (seq 0 N) - RProd (tw 0 (ext_row phi b) h) (seq 0 N))); auto. intros y _. specialize (Le y). lra. }
    rewrite RSum_sub in Q. fold Z in Q. lra. }
  split.
  - destruct Hr as (c & Hc & Hp). assert (Hin : In (hub N c) l) by (apply Hl, hub_ok; auto). specialize (Gap _ Hin).
    enough (RProd (tw 0 (ext_row phi b) (hub N c)) (seq 0 N) < RProd (tw eps (ext_row phi b) (hub N c)) (seq 0 N)) by lra.
    set (j := if Nat.eqb c 0 then 1%nat else 0%nat). assert (Hj : (j < N)%nat /\ j <> c) by (unfold j; destruct (Nat.eqb_spec c 0); lia). destruct Hj as [Hj Hn].
    rewrite !(RProd_others _ Hj).
    assert (O : 0 < RProd (tw eps (ext_row phi b) (hub N c)) (others N j)).
    { apply RProd_pos. intros k Hk. apply filter_In in Hk as [Hk _]. apply in_seq in Hk. apply hub_pos; auto; lia. }
    assert (O' : RProd (tw 0 (ext_row phi b) (hub N c)) (others N j) <= RProd (tw eps (ext_row phi b) (hub N c)) (others N j)).
    { apply RProd_le. intros k _. split; [apply tw_nonneg; lra|]. unfold tw. destruct (nth k (hub N c) 0%nat); lra. }
    assert (T : tw eps (ext_row phi b) (hub N c) j = tw 0 (ext_row phi b) (hub N c) j + eps).
    { unfold tw, hub. rewrite nth_map_seq by auto. destruct (Nat.eqb_spec j c); [contradiction|]. ring. }
    rewrite T. pose proof (@tw_nonneg 0 (ext_row phi b) (hub N c) j (Rle_refl 0)) as T0.
    apply Rle_lt_trans with (tw 0 (ext_row phi b) (hub N c) j * RProd (tw eps (ext_row phi b) (hub N c)) (others N j)); [apply Rmult_le_compat_l; auto|].
    apply Rmult_lt_compat_r; auto. lra.
  - intros h Hh Hroot Hna. split.
    + specialize (Gap h (proj2 (proj2 Hl h) Hh)). rewrite (@tw_allowed phi b N h) in Gap by apply Hh.
      destruct (forallb _ _) eqn:E; [apply allowedb in E; contradiction|]. lra.
    + apply RProd_pos. intros j Hj. apply in_seq in Hj. unfold tw. destruct (nth j h 0%nat) as [|k] eqn:E.
      * specialize (Hroot j ltac:(lia) E). unfold ext_row. destruct (phi [b; j; j]); [cbn; apply exp_pos|congruence].
      * pose proof (eexp_nonneg (ext_row phi b k j)). lra.
Qed.
Print Assumptions C83_smoothed_partition.

(** forbidden arcs still get probability exactly 0, so the heads of a word sum to less
    than one, and to zero when they are all forbidden *)
Theorem C83_smoothed_marginals multi N eps phi l M : (2 <= N)%nat -> 0 < eps -> Enumerates (np_ok multi N) l ->
  deptree_nonproj multi N None eps phi = Ok M ->
  (forall i j, (i < N)%nat -> (j < N)%nat -> phi i j = None -> M i j = 0) /\
  (forall i j, (i < N)%nat -> (j < N)%nat -> 0 <= M i j) /\
  (forall j, (j < N)%nat -> RSum (fun i => M i j) (seq 0 N) <= 1) /\
  (forall c j, (c < N)%nat -> (j < N)%nat -> c <> j -> phi c c <> None -> RSum (fun i => M i j) (seq 0 N) < 1) /\
  (forall j, (j < N)%nat -> (forall i, (i < N)%nat -> phi i j = None) -> RSum (fun i => M i j) (seq 0 N) = 0).
Proof.
  intros HN He Hl EM. assert (HN' : multi = false -> (1 <= N)%nat) by lia.
  assert (Hroot : exists c, (c < N)%nat /\ phi c c <> None).
  { destruct (root_dec N phi) as [H|H]; auto. destruct (@C83_smoothed_fails multi N eps phi l ltac:(lia) He Hl) as (_ & Q & _). apply Q in H. congruence. }
  set (Z := RSum (fun h => RProd (tw eps phi h) (seq 0 N)) l).
  assert (P : 0 < Z) by exact (@np_smooth_pos multi N eps phi l He Hl Hroot).
  destruct (@C12_output multi N eps phi l HN' Hl) as (M' & E & H); [fold Z; lra|]. rewrite EM in E. injection E as <-. fold Z in H.
  assert (Z0 : forall i j, (i < N)%nat -> (j < N)%nat -> phi i j = None -> M i j = 0).
  { intros i j Hi Hj Hn. specialize (H i j Hi Hj). rewrite Hn in H. cbn [eexp] in H. rewrite Rmult_0_l in H. apply Rmult_integral in H as [H|H]; [lra|auto]. }
  assert (G : forall j h, 0 <= RProd (tw eps phi h) (others N j)) by (intros; apply RProd_nonneg; intros; apply tw_nonneg; lra).
  assert (Col : forall j, (j < N)%nat -> Z * RSum (fun i => M i j) (seq 0 N) = RSum (fun h => RProd (tw eps phi h) (seq 0 N) - (if Nat.eqb (nth j h 0%nat) 0 then 0 else eps * RProd (tw eps phi h) (others N j))) l).
  { intros j Hj. rewrite <- RSum_scal.
    rewrite (Sum_ext_in R_csr _ (fun i => RSum (fun h => if uses_arc i j h then eexp (phi i j) * RProd (tw eps phi h) (others N j) else 0) l)).
    2: { intros i Hi. apply in_seq in Hi. rewrite H by lia. etransitivity; [symmetry; apply RSum_scal|]. symmetry. apply (@RSum_filter_in _ _ (fun h => eexp (phi i j) * RProd (tw eps phi h) (others N j))). reflexivity. }
    rewrite (Sum_comm R_csr). apply (Sum_ext_in R_csr). intros h Hh. assert (T : is_tree N h) by (apply Hl in Hh; exact (proj1 Hh)).
    etransitivity; [exact (@pick_arc N h j (fun i => eexp (phi i j) * RProd (tw eps phi h) (others N j)) T Hj)|]. cbv beta. rewrite (RProd_others (tw eps phi h) Hj).
    set (G0 := RProd (tw eps phi h) (others N j)). unfold tw. destruct (nth j h 0%nat); cbn [Nat.eqb]; ring. }
  assert (Le : forall j, (j < N)%nat -> RSum (fun i => M i j) (seq 0 N) <= 1).
  { intros j Hj. apply Rmult_le_reg_l with Z; auto. rewrite Rmult_1_r, Col by auto. unfold Z. apply RSum_le. intros h _. specialize (G j h).
    destruct (Nat.eqb _ _); [lra|]. assert (0 <= eps * RProd (tw eps phi h) (others N j)) by (apply Rmult_le_pos; lra). lra. }
  split; [exact Z0|]. split; [|split; [exact Le|split]].
  - intros i j Hi Hj. apply Rmult_le_reg_l with Z; auto. rewrite Rmult_0_r, H by auto. apply Rmult_le_pos; [apply eexp_nonneg|]. apply RSum_nonneg. intros h _. apply G.
  - intros c j Hc Hj Hn Hp. apply Rmult_lt_reg_l with Z; auto. rewrite Rmult_1_r, Col by auto. rewrite RSum_sub. fold Z. apply minus_lt.
    apply Rlt_le_trans with (eps * RProd (tw eps phi (hub N c)) (others N j)).
    + apply Rmult_lt_0_compat; auto. apply RProd_pos. intros k Hk. apply filter_In in Hk as [Hk _]. apply in_seq in Hk. apply hub_pos; auto; lia.
    + eapply Rle_trans; [|apply (RSum_single (fun h => if Nat.eqb (nth j h 0%nat) 0 then 0 else eps * RProd (tw eps phi h) (others N j)) (hub N c))].
      * unfold hub at 2. rewrite nth_map_seq by auto. destruct (Nat.eqb_spec j c); [congruence|]. cbn. lra.
      * apply Hl, hub_ok; auto.
      * intros h _. destruct (Nat.eqb _ _); [apply Rle_refl|]. apply Rmult_le_pos; [lra|apply G].
  - intros j Hj Hn. transitivity (RSum (fun _ : nat => 0) (seq 0 N)); [|apply (Sum_0 R_csr)]. apply (Sum_ext_in R_csr). intros i Hi. apply in_seq in Hi. apply Z0; [lia|exact Hj|apply Hn; lia].
Qed.
Print Assumptions C83_smoothed_marginals.

(** an instance: three words, the last one has no allowed head and is no root. Without
    smoothing no tree is left and the code says so; with it the partition is finite and
    the marginals are numbers, all zero for that word. *)
Definition ex_no_head (e : list nat) : ext := if Nat.eqb (nth 2 e 0%nat) 2 then None else Some 0.
Example ex_C83 : exists l, Enumerates (np_ok false 3) l /\
  deptree_part false 3 None 0 (ext_row ex_no_head 0) = Ok NegInf /\
  exists x M, deptree_part false 3 None (/ 100000) (ext_row ex_no_head 0) = Ok (Fin x) /\
    deptree_nonproj false 3 None (/ 100000) (ext_row ex_no_head 0) = Ok M /\ RSum (fun i => M i 2%nat) (seq 0 3) = 0 /\ RSum (fun i => M i 1%nat) (seq 0 3) < 1.
Proof.
  destruct C11_example as (l & Hl & _). exists l. split; auto. split.
  - apply (proj2 (@C83_exact false 3 ex_no_head 0 l ltac:(lia) Hl)). intros h [[L _] _] Ha.
    assert (Q : In (dep_part 0 2 (nth 2 h 0%nat) []) (dep_parts 0 h)) by (rewrite dep_parts_map; apply in_map_iff; exists 2%nat; split; [reflexivity|apply in_seq; lia]).
    apply (Ha _ Q). unfold dep_part, ex_no_head. destruct (nth 2 h 0%nat); reflexivity.
  - assert (Hr : exists c, (c < 3)%nat /\ ext_row ex_no_head 0 c c <> None) by (exists 0%nat; split; [lia|discriminate]).
    destruct (proj2 (proj2 (@C83_smoothed_fails false 3 (/ 100000) (ext_row ex_no_head 0) l ltac:(lia) ltac:(lra) Hl)) Hr) as (x & M & E1 & E2). exists x, M. split; auto. split; auto.
    destruct (@C83_smoothed_marginals false 3 (/ 100000) _ l M ltac:(lia) ltac:(lra) Hl E2) as (_ & _ & _ & H1 & H2). split.
    + apply H2; [lia|reflexivity].
    + apply (H1 0%nat); [lia|lia|lia|discriminate].
Qed.
(** and a row with an allowed tree for the first theorem: only the arc 1 -> 2 is forbidden *)
Example ex_C83_exact : exists l phi, Enumerates (np_ok false 3) l /\ phi [0; 0; 1]%nat = None /\
  exists M, deptree_nonproj false 3 None 0 (ext_row phi 0) = Ok M /\ M 0%nat 1%nat = 0.
Proof.
  destruct C11_example as (l & Hl & _). exists l, (fun e => if Nat.eqb (nth 1 e 0%nat) 0 && Nat.eqb (nth 2 e 0%nat) 1 then None else Some 0). split; auto. split; [reflexivity|].
  match goal with |- context [ext_row ?p 0] => destruct (proj1 (@C83_exact false 3 p 0 l ltac:(lia) Hl)) as (_ & M & E & H) end.
  - exists [3; 3; 0]%nat. split.
    + split; [|right; reflexivity]. split; [reflexivity|]. intros k Hk. destruct k as [|[|[|[|k]]]]; try lia; (split; [cbn; lia|exists 2%nat; reflexivity]).
    + intros e He. cbn in He. destruct He as [<-|[<-|[<-|[]]]]; discriminate.
  - exists M. split; auto. rewrite H by lia. apply cond_marg_forbidden. reflexivity.
Qed.
