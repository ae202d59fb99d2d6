(** * P_Markov: the marginals of a LinearChainCRF are a Markov chain (C92)

    [marginals] of a LinearChainCRF gives the probability of every transition at
    every step.  A tag sequence has the probability of the Markov chain with
    these transitions: the product of the entries it uses, divided by the
    probabilities of the labels of the words between two steps.  So everything
    about the distribution can be read off [marginals] alone.  For all
    potentials, shapes, lengths, rows and sequences. *)
From Coq Require Import Lra.
From Verif Require Import Base Ops Terms Semirings Poly Chain LinearChain SemiMarkov CkyCrf Cky DepSpec DepTree
  Batch Family Approx Grad Sample Dist Purity Degree Shape Api Query Learn P_Real P_Learn P_Train P_Cross P_Local P_Temp P_Classes Grammar.
Set Implicit Arguments.
Local Open Scope R_scope.

(** ** Specification *)
(** spec: the product of the entries of [m] that the sequence [y] of row [b] uses *)
Definition edge_product (m : list nat -> R) (b : nat) (y : list nat) : R :=
  RProd (fun n => m [b; n; nth (n + 1) y 0%nat; nth n y 0%nat]) (seq 0 (length y - 1)).
(** spec: the product, over the words between two steps, of the probability of the word's label *)
Definition node_product (m : list nat -> R) (C b : nat) (y : list nat) : R :=
  RProd (fun n => RSum (fun d => m [b; (n + 1)%nat; d; nth (n + 1) y 0%nat]) (seq 0 C)) (seq 0 (length y - 2)).

(** ** Forward and backward weights *)
Section Walk.
  Variables (C b : nat) (phi : list nat -> R).
  (** proof device: score of the labels [q] that follow label [c] of word [n] *)
  Fixpoint walk (n c : nat) (q : list nat) : R :=
    match q with [] => 0 | d :: q' => phi [b; n; d; c] + walk (n + 1) d q' end.
  Lemma walk_parts q : forall n c, RSum phi (map (fun k => [b; (n + k)%nat; nth (k + 1) (c :: q) 0%nat; nth k (c :: q) 0%nat]) (seq 0 (length q))) = walk n c q.
  Proof.
    induction q as [|d q IH]; intros n c; [reflexivity|]. cbn [length seq map walk]. rewrite RSum_cons, Nat.add_0_r. f_equal. rewrite <- IH, <- seq_shift, map_map. f_equal. apply map_ext. intro k.
    rewrite <- Nat.add_assoc. reflexivity.
  Qed.
  Lemma sc_walk c q : sc (seq_parts b) phi (c :: q) = walk 0 c q.
  Proof. unfold sc, seq_parts. cbn [length]. rewrite Nat.sub_succ, Nat.sub_0_r. apply (walk_parts q 0 c). Qed.
  Lemma walk_app p : forall n a c q, walk n a (p ++ c :: q) = walk n a (p ++ [c]) + walk (n + length p + 1) c q.
  Proof.
    induction p as [|d p IH]; intros n a c q; cbn [app walk length].
    - rewrite Nat.add_0_r. lra.
    - rewrite (IH (n + 1)%nat d c q). replace (n + 1 + length p + 1)%nat with (n + S (length p) + 1)%nat by lia. lra.
  Qed.
  Lemma sc_split p c d q : sc (seq_parts b) phi (p ++ c :: d :: q) = sc (seq_parts b) phi (p ++ [c]) + (phi [b; length p; d; c] + walk (length p + 1) d q).
  Proof.
    destruct p as [|a p]; cbn [app]; rewrite !sc_walk.
    - cbn [walk length]. simpl Nat.add. lra.
    - rewrite walk_app. cbn [walk length]. replace (0 + length p + 1)%nat with (S (length p)) by lia. reflexivity.
  Qed.
  (** proof device: weight of the labels before label [c] of word [n] *)
  Definition fw (n c : nat) : R := RSum (fun p => exp (sc (seq_parts b) phi (p ++ [c]))) (seqs C n).
  (** proof device: weight of the [m] labels after label [c] of word [n] *)
  Definition bw (n m c : nat) : R := RSum (fun q => exp (walk n c q)) (seqs C m).
  Lemma fw_0 c : fw 0 c = 1.
  Proof. unfold fw. cbn [seqs]. rewrite RSum_one. cbn [app]. rewrite sc_walk. apply exp_0. Qed.
  Lemma bw_0 n c : bw n 0 c = 1.
  Proof. unfold bw. cbn [seqs]. rewrite RSum_one. apply exp_0. Qed.
  Lemma bw_S n m c : bw n (S m) c = RSum (fun d => exp (phi [b; n; d; c]) * bw (n + 1) m d) (seq 0 C).
  Proof.
    unfold bw. cbn [seqs]. rewrite (Sum_flat_map R_csr). apply (Sum_ext R_csr). intro d. rewrite (Sum_map R_csr), <- RSum_scal.
    apply (Sum_ext R_csr). intro q. cbn [walk]. apply exp_plus.
  Qed.
  Lemma seqs_app (f : list nat -> R) m n : RSum f (seqs C (n + m)) = RSum (fun p => RSum (fun q => f (p ++ q)) (seqs C m)) (seqs C n).
  Proof.
    revert f. induction n as [|n IH]; intro f; cbn [Nat.add seqs]; [now rewrite RSum_one|].
    rewrite !(Sum_flat_map R_csr). apply (Sum_ext R_csr). intro c. rewrite !(Sum_map R_csr). apply (IH (fun y => f (c :: y))).
  Qed.
  Lemma pick (g : nat -> R) c : (c < C)%nat -> RSum (fun x => ind (c =? x)%nat * g x) (seq 0 C) = g c.
  Proof.
    intro Hc. rewrite (Sum_ext R_csr _ (fun x => ind (x =? c)%nat * g c)).
    - rewrite (Sum_ext R_csr _ (fun x => g c * ind (x =? c)%nat)) by (intro; apply Rmult_comm). rewrite RSum_scal, RSum_delta.
      replace (c <? C)%nat with true by (symmetry; now apply Nat.ltb_lt). apply Rmult_1_r.
    - intro x. rewrite Nat.eqb_sym. destruct (Nat.eqb_spec x c) as [->|]; [reflexivity|]. cbn [ind]. now rewrite !Rmult_0_l.
  Qed.
  Lemma seqs_length n p : In p (seqs C n) -> length p = n.
  Proof. intro H. apply seqs_enum in H. apply H. Qed.
  Lemma edge_value n m c d : (c < C)%nat -> (d < C)%nat ->
    let l := seqs C (n + S (S m)) in
    marg_spec (seq_parts b) l phi [b; n; d; c] = fw n c * (exp (phi [b; n; d; c]) * bw (n + 1) m d) / ZS (seq_parts b) l phi.
  Proof.
    intros Hc Hd l. unfold marg_spec. set (Z := ZS (seq_parts b) l phi). unfold l. rewrite seqs_app.
    transitivity (RSum (fun p => exp (sc (seq_parts b) phi (p ++ [c])) * (exp (phi [b; n; d; c]) * bw (n + 1) m d / Z)) (seqs C n)).
    - apply (Sum_ext_in R_csr). intros p Hp. apply seqs_length in Hp.
      transitivity (RSum (fun c1 => ind (c =? c1)%nat * RSum (fun d1 => ind (d =? d1)%nat * RSum (fun q => exp (sc (seq_parts b) phi (p ++ c1 :: d1 :: q)) / Z) (seqs C m)) (seq 0 C)) (seq 0 C)).
      + cbn [seqs]. rewrite (Sum_flat_map R_csr). apply (Sum_ext R_csr). intro c1. rewrite (Sum_map R_csr), (Sum_flat_map R_csr), <- RSum_scal. apply (Sum_ext R_csr). intro d1.
        rewrite (Sum_map R_csr), <- !RSum_scal. apply (Sum_ext R_csr). intro q. rewrite uses_seq. unfold prob. fold l. fold Z.
        rewrite app_length. cbn [length]. replace (n <? length p + S (S (length q)) - 1)%nat with true by (symmetry; apply Nat.ltb_lt; lia).
        rewrite (app_nth2 p _ 0%nat) by lia. rewrite (app_nth2 p _ 0%nat) by lia. replace (n + 1 - length p)%nat with 1%nat by lia. replace (n - length p)%nat with 0%nat by lia. cbn [nth andb].
        destruct (d =? d1)%nat, (c =? c1)%nat; cbn [andb ind]; simpl; ring.
      + rewrite (pick (fun c1 => RSum (fun d1 => ind (d =? d1)%nat * RSum (fun q => exp (sc (seq_parts b) phi (p ++ c1 :: d1 :: q)) / Z) (seqs C m)) (seq 0 C)) Hc).
        rewrite (pick (fun d1 => RSum (fun q => exp (sc (seq_parts b) phi (p ++ c :: d1 :: q)) / Z) (seqs C m)) Hd).
        unfold bw. rewrite (Sum_ext R_csr _ (fun q => (exp (sc (seq_parts b) phi (p ++ [c])) * exp (phi [b; n; d; c]) * / Z) * exp (walk (n + 1) d q))).
        * rewrite RSum_scal. unfold Rdiv. simpl. ring.
        * intro q. rewrite sc_split, Hp, !exp_plus. unfold Rdiv. simpl. ring.
    - unfold fw. rewrite (Sum_ext R_csr _ (fun p => (exp (phi [b; n; d; c]) * bw (n + 1) m d / Z) * exp (sc (seq_parts b) phi (p ++ [c])))) by (intro; apply Rmult_comm).
      rewrite RSum_scal. unfold Rdiv. simpl. ring.
  Qed.
  Lemma node_value n m c : (c < C)%nat -> let l := seqs C (n + S (S m)) in
    RSum (fun d => marg_spec (seq_parts b) l phi [b; n; d; c]) (seq 0 C) = fw n c * bw n (S m) c / ZS (seq_parts b) l phi.
  Proof.
    intros Hc l. rewrite (Sum_ext_in R_csr _ (fun d => (fw n c / ZS (seq_parts b) l phi) * (exp (phi [b; n; d; c]) * bw (n + 1) m d))).
    - rewrite RSum_scal, bw_S. unfold Rdiv. simpl. ring.
    - intros d Hd. apply in_seq in Hd. unfold l. rewrite edge_value by lia. unfold Rdiv. simpl. ring.
  Qed.
End Walk.

Section Chain.
  Variables (C b len : nat) (phi : list nat -> R).
  Let l := seqs C len.
  Let mg := marg_spec (seq_parts b) l phi.
  Let Z := ZS (seq_parts b) l phi.
  (** proof device: [edge_product] by recursion, from label [c] of word [n] on *)
  Fixpoint edges_from (m : list nat -> R) (n c : nat) (q : list nat) : R :=
    match q with [] => 1 | d :: q' => m [b; n; d; c] * edges_from m (n + 1) d q' end.
  (** proof device: [node_product] by recursion; [q] are the labels from word [n] on *)
  Fixpoint nodes_from (m : list nat -> R) (n : nat) (q : list nat) : R :=
    match q with [] => 1 | d :: q' => match q' with [] => 1 | _ => RSum (fun x => m [b; n; x; d]) (seq 0 C) * nodes_from m (n + 1) q' end end.
  Lemma edges_from_prod m q : forall n c, RProd (fun k => m [b; (n + k)%nat; nth (k + 1) (c :: q) 0%nat; nth k (c :: q) 0%nat]) (seq 0 (length q)) = edges_from m n c q.
  Proof.
    induction q as [|d q IH]; intros n c; [reflexivity|]. cbn [length seq edges_from]. rewrite (Prod_cons R_csr), Nat.add_0_r, <- IH, <- seq_shift, (Prod_map R_csr). cbn [Nat.add nth].
    simpl kmul. f_equal. apply (Prod_ext R_csr). intro k. rewrite <- Nat.add_assoc. reflexivity.
  Qed.
  Lemma nodes_from_prod m q : forall n, RProd (fun k => RSum (fun x => m [b; (n + k)%nat; x; nth k q 0%nat]) (seq 0 C)) (seq 0 (length q - 1)) = nodes_from m n q.
  Proof.
    induction q as [|d q IH]; intros n; [reflexivity|]. destruct q as [|e q]; [reflexivity|].
    specialize (IH (n + 1)%nat). cbn [length] in IH |- *. rewrite Nat.sub_succ, Nat.sub_0_r in IH |- *. cbn [seq].
    change (nodes_from m n (d :: e :: q)) with (RSum (fun x => m [b; n; x; d]) (seq 0 C) * nodes_from m (n + 1) (e :: q)).
    rewrite (Prod_cons R_csr), Nat.add_0_r, <- IH, <- seq_shift, (Prod_map R_csr). cbn [nth].
    simpl kmul. f_equal. apply (Prod_ext R_csr). intro k. rewrite <- Nat.add_assoc. reflexivity.
  Qed.
  Hypothesis HZ : 0 < Z.
  Lemma telescope q : forall n c, q <> [] -> (n + S (length q) = len)%nat -> (c < C)%nat -> Forall (fun d => (d < C)%nat) q ->
    edges_from mg n c q * Z = fw C b phi n c * exp (walk b phi n c q) * nodes_from mg (n + 1) q.
  Proof.
    induction q as [|d q IH]; intros n c Hq Hn Hc F; [congruence|]. pose proof (Forall_inv F) as F1. pose proof (Forall_inv_tail F) as F2. cbv beta in F1. clear Hq.
    cbn [edges_from walk length] in *.
    assert (E : mg [b; n; d; c] = fw C b phi n c * (exp (phi [b; n; d; c]) * bw C b phi (n + 1) (length q) d) / Z).
    { unfold mg, Z, l. rewrite <- Hn. now apply edge_value. }
    destruct q as [|e q].
    - cbn [length] in E. rewrite bw_0 in E. rewrite E. cbn [edges_from nodes_from walk]. rewrite Rplus_0_r. field. lra.
    - assert (Nd : RSum (fun x => mg [b; (n + 1)%nat; x; d]) (seq 0 C) = fw C b phi (n + 1) d * bw C b phi (n + 1) (S (length q)) d / Z).
      { unfold mg, Z, l. replace len with (n + 1 + S (S (length q)))%nat by (cbn [length] in Hn; lia). now apply node_value. }
      change (nodes_from mg (n + 1) (d :: e :: q)) with (RSum (fun x => mg [b; (n + 1)%nat; x; d]) (seq 0 C) * nodes_from mg (n + 1 + 1) (e :: q)).
      rewrite Rmult_assoc, (IH (n + 1)%nat d) by (auto; try discriminate; cbn [length] in *; lia).
      rewrite E, Nd, exp_plus. cbn [length]. field. lra.
  Qed.
  Lemma chain_markov y : (2 <= len)%nat -> is_seq C len y ->
    edge_product mg b y = prob (seq_parts b) l phi y * node_product mg C b y.
  Proof.
    intros H2 [Hy F]. destruct y as [|c q]; [cbn in Hy; lia|]. pose proof (Forall_inv F) as F1. pose proof (Forall_inv_tail F) as F2. cbv beta in F1. cbn [length] in Hy, H2.
    assert (HE : edge_product mg b (c :: q) = edges_from mg 0 c q).
    { unfold edge_product. cbn [length]. rewrite Nat.sub_succ, Nat.sub_0_r. apply (edges_from_prod mg q 0 c). }
    assert (HN : node_product mg C b (c :: q) = nodes_from mg 1 q).
    { unfold node_product. rewrite <- nodes_from_prod. cbn [length]. rewrite Nat.sub_succ. apply (Prod_ext R_csr). intro k.
      rewrite (Nat.add_comm k 1). reflexivity. }
    rewrite HE, HN. apply (Rmult_eq_reg_r Z); [|lra].
    assert (Hq : q <> []) by (intros ->; cbn in Hy; lia).
    rewrite (@telescope q 0 c Hq Hy F1 F2). rewrite fw_0. unfold prob. fold Z. rewrite sc_walk. simpl Nat.add. field. lra.
  Qed.
End Chain.

(** ** Errors of products *)
Lemma prod_close A (f g : A -> R) t s : 0 <= t -> (forall x, In x s -> 0 <= f x <= 1 /\ Rabs (g x - f x) <= t) ->
  0 <= RProd f s <= 1 /\ Rabs (RProd g s - RProd f s) <= (1 + t) ^ length s - 1.
Proof.
  intro Ht. induction s as [|x s IH]; intro H.
  - cbn [length pow]. unfold Prod. cbn [map kprod fold_right]. simpl. split; [lra|]. rewrite Rminus_diag_eq, Rabs_R0 by reflexivity. lra.
  - rewrite !(Prod_cons R_csr). change (@kmul R_csr) with Rmult. destruct (H x (or_introl eq_refl)) as [[F1 F2] G].
    destruct IH as [[P1 P2] Q]; [intros; apply H; now right|]. set (p := RProd f s : R) in *. set (q := RProd g s : R) in *. set (u := f x) in *. set (v := g x) in *. cbn [length pow].
    set (w := (1 + t) ^ length s) in *. clearbody p q u v w. split; [nra|].
    assert (E : v * q - u * p = (v - u) * q + u * (q - p)) by ring. rewrite E.
    assert (Hq : Rabs q <= w) by (replace q with (q - p + p) by ring; eapply Rle_trans; [apply Rabs_triang|]; rewrite (Rabs_right p) by lra; lra).
    eapply Rle_trans; [apply Rabs_triang|]. rewrite !Rabs_mult, (Rabs_right u) by lra.
    pose proof (Rabs_pos (q - p)). pose proof (Rabs_pos (v - u)). pose proof (Rabs_pos q). nra.
Qed.

Lemma node_bound C b len n c phi : (0 < C)%nat -> let m := marg_spec (seq_parts b) (seqs C len) phi in
  0 <= RSum (fun d => m [b; n; d; c]) (seq 0 C) <= 1 /\ forall d, (d < C)%nat -> 0 <= m [b; n; d; c] <= 1.
Proof.
  intros HC m. set (l := seqs C len).
  assert (Hl : l <> []) by (unfold l; induction len as [|k IH]; [discriminate|]; cbn [seqs]; destruct C; [lia|]; cbn [seq flat_map]; destruct (seqs (S C) k); [congruence|discriminate]).
  assert (HP : forall y, 0 <= prob (seq_parts b) l phi y) by (intro y; left; now apply prob_pos).
  assert (H0 : forall d, 0 <= m [b; n; d; c]).
  { intro d. apply RSum_nonneg. intros y _. apply Rmult_le_pos; [apply HP|apply pos_INR]. }
  assert (H1 : RSum (fun d => m [b; n; d; c]) (seq 0 C) <= 1).
  { rewrite <- (prob_sum (seq_parts b) phi Hl). unfold m, marg_spec. fold l. rewrite (Sum_comm R_csr). apply RSum_le. intros y _. rewrite RSum_scal.
    rewrite <- (Rmult_1_r (prob (seq_parts b) l phi y)) at 2. apply Rmult_le_compat_l; [apply HP|].
    rewrite (Sum_ext R_csr _ (fun d => ind ((n <? length y - 1) && (c =? nth n y 0))%nat * ind (d =? nth (n + 1) y 0)%nat)).
    - rewrite RSum_scal, RSum_delta. destruct (_ && _)%bool, (_ <? _)%nat; cbn [ind]; lra.
    - intro d. rewrite uses_seq. destruct (n <? length y - 1)%nat, (c =? nth n y 0)%nat, (d =? nth (n + 1) y 0)%nat; cbn [andb]; unfold ind, P_Train.ind; ring. }
  split; [split; [apply RSum_nonneg; intros; apply H0|exact H1]|]. intros d Hd. split; [apply H0|]. eapply Rle_trans; [|exact H1].
  rewrite <- (RSum_one (fun d => m [b; n; d; c]) d). apply RSum_incl; [intro; apply H0|repeat constructor; intros []|]. intros x [<-|[]]. apply in_seq. lia.
Qed.

Lemma shrink p d k : 0 < p -> p <= 1 -> 0 <= d <= k -> p <= p * exp (- d) + k.
Proof. intros. pose proof (exp_ineq1_le (- d)). nra. Qed.
Lemma sub_le a d : 0 <= a - d -> d <= a.
Proof. lra. Qed.
Lemma exp_le' x y : x <= y -> exp x <= exp y.
Proof. intros [H| ->]; [left; now apply exp_increasing|apply Rle_refl]. Qed.
Lemma close_products (u w p p0 e e0 n n0 d : R) : e0 = p0 * n0 -> 0 <= e0 <= 1 -> Rabs (e - e0) <= u -> 0 <= n0 <= 1 -> Rabs (n - n0) <= w ->
  p <= p0 <= p + d -> p0 <= 1 -> 0 < p -> Rabs (e - p * n) <= u + w + d.
Proof.
  intros HX HE1 HE2 HN1 HN2 HP1 HP2 HPP. replace (e - p * n) with ((e - e0) + (p * (n0 - n) + (p0 - p) * n0)) by (rewrite HX; ring).
  eapply Rle_trans; [apply Rabs_triang|]. eapply Rle_trans; [apply Rplus_le_compat; [exact HE2|apply Rabs_triang]|].
  rewrite !Rabs_mult, (Rabs_right p), (Rabs_right (p0 - p)), (Rabs_right n0), (Rabs_minus_sym n0 n) by lra. pose proof (Rabs_pos (n - n0)). nra.
Qed.
(** ** C92 *)
(** the probability [log_prob] gives a sequence, times the probabilities of the labels of its inner
    words, is the product of the transitions it makes *)
Theorem C92_markov batch N C ls phi B : let c := CLin batch N C ls in
  valid c -> 0 <= B -> (forall e, Rabs (phi e) <= B) ->
  forall b y, (b < batch)%nat -> (2 <= lc_len N ls b)%nat -> is_seq C (lc_len N ls b) y ->
    let t := gtol c b B in let k := lc_len N ls b in
    Rabs (edge_product (q_marginals c phi) b y
        - exp (sc (seq_parts b) phi y - at_row 0 (q_partition c phi) b) * node_product (q_marginals c phi) C b y)
      <= ((1 + t) ^ (k - 1) - 1) + ((1 + INR C * t) ^ (k - 2) - 1) + leak c b B.
Proof.
  intros c V HB0 HB b y Hb Hk Hy t k. assert (Hr : row_ok c b) by (split; [exact Hb|exact I]). assert (HC : (0 < C)%nat) by apply V.
  assert (Hl : Enumerates (ok (spec_of c b)) (seqs C k)) by (cbn [c spec_of ok]; fold k; replace (Nat.max 1 k) with k by lia; apply seqs_enum).
  set (l := seqs C k) in *. pose proof (list_nonempty V Hr Hl) as Hne.
  set (q := q_marginals c phi). set (m := marg_spec (seq_parts b) l phi).
  assert (HM : forall n x z, Rabs (q [b; n; x; z] - m [b; n; x; z]) <= t).
  { intros n x z. exact (@C20_marginals_value c phi B V HB0 (or_intror HB) b l [b; n; x; z] Hr eq_refl Hl). }
  assert (Ht : 0 <= t) by (eapply Rle_trans; [apply Rabs_pos|apply (HM 0%nat 0%nat 0%nat)]).
  pose proof (proj1 Hy) as Ly. fold k in Ly.
  assert (HE : 0 <= edge_product m b y <= 1 /\ Rabs (edge_product q b y - edge_product m b y) <= (1 + t) ^ (k - 1) - 1).
  { unfold edge_product. rewrite Ly. replace ((1 + t) ^ (k - 1)) with ((1 + t) ^ length (seq 0 (k - 1))) by now rewrite seq_length. apply prod_close; [exact Ht|].
    intros n Hn. apply in_seq in Hn. split; [|apply HM]. apply node_bound; [exact HC|]. destruct Hy as [_ F]. rewrite Forall_forall in F. apply F, nth_In. lia. }
  assert (HN : 0 <= node_product m C b y <= 1 /\ Rabs (node_product q C b y - node_product m C b y) <= (1 + INR C * t) ^ (k - 2) - 1).
  { unfold node_product. rewrite Ly. replace ((1 + INR C * t) ^ (k - 2)) with ((1 + INR C * t) ^ length (seq 0 (k - 2))) by now rewrite seq_length.
    apply prod_close; [apply Rmult_le_pos; [apply pos_INR|exact Ht]|]. intros n Hn. split; [apply node_bound; exact HC|]. set (z := nth (n + 1) y 0%nat).
    replace (INR C) with (INR (length (seq 0 C))) by now rewrite seq_length. generalize (seq 0 C). intro s. induction s as [|x s IH].
    - change (RSum (fun d => q [b; (n + 1)%nat; d; z]) []) with 0. change (RSum (fun d => m [b; (n + 1)%nat; d; z]) []) with 0. rewrite Rminus_diag_eq, Rabs_R0 by reflexivity. simpl. lra.
    - rewrite !RSum_cons. cbn [length]. rewrite S_INR. pose proof (HM (n + 1)%nat x z) as Hx. apply Rabs_le_inv in IH, Hx. apply Rabs_le. lra. }
  pose proof (@chain_markov C b k phi (ZS_pos (seq_parts b) phi Hne) y Hk Hy) as HX. fold l in HX. fold m in HX.
  destruct (@C20_partition_value c phi B V HB0 (or_intror HB)) as (v & E & _ & Hv). specialize (Hv b l Hr Hl). cbv zeta in Hv. rewrite E. cbn [at_row].
  change (prt (spec_of c b)) with (seq_parts b) in Hv. set (P := nth b v 0) in *.
  assert (HP : exp (sc (seq_parts b) phi y - P) <= prob (seq_parts b) l phi y <= exp (sc (seq_parts b) phi y - P) + leak c b B /\ prob (seq_parts b) l phi y <= 1).
  { assert (HZ := ZS_pos (seq_parts b) phi Hne). assert (Ep : prob (seq_parts b) l phi y = exp (sc (seq_parts b) phi y - ln (ZS (seq_parts b) l phi))).
    { unfold prob. unfold Rminus. rewrite exp_plus, exp_Ropp, exp_ln by exact HZ. reflexivity. }
    assert (H1 : prob (seq_parts b) l phi y <= 1).
    { rewrite <- (prob_sum (seq_parts b) phi Hne), <- (RSum_one (prob (seq_parts b) l phi) y). apply RSum_incl; [intro; left; now apply prob_pos|repeat constructor; intros []|].
      intros x [<-|[]]. now apply seqs_enum. }
    split; [|exact H1]. split.
    - rewrite Ep. apply exp_le'. apply Rplus_le_compat_l, Ropp_le_contravar. apply sub_le, Hv.
    - set (d := P - ln (ZS (seq_parts b) l phi)) in *.
      assert (E2 : exp (sc (seq_parts b) phi y - P) = prob (seq_parts b) l phi y * exp (- d)) by (rewrite Ep, <- exp_plus; f_equal; unfold d; ring).
      rewrite E2. apply shrink; [now apply prob_pos|exact H1|exact Hv]. }
  destruct HE as [HE1 HE2]. destruct HN as [HN1 HN2]. destruct HP as [HP1 HP2]. pose proof (exp_pos (sc (seq_parts b) phi y - P)) as HPP.
  now apply (@close_products _ _ _ _ _ _ _ _ _ HX HE1 HE2 HN1 HN2 HP1 HP2 HPP).
Qed.
Print Assumptions C92_markov.

(** ** A concrete case: 4 words, 3 labels, the sequence 0 1 2 1 *)
Example ex_C92 : Rabs (edge_product (q_marginals ex_lin ex_phi) 0 [0; 1; 2; 1]%nat
    - exp (sc (seq_parts 0) ex_phi [0; 1; 2; 1]%nat - at_row 0 (q_partition ex_lin ex_phi) 0) * node_product (q_marginals ex_lin ex_phi) 3 0 [0; 1; 2; 1]%nat) <= / 10 ^ 28.
Proof.
  assert (V : valid ex_lin) by (apply (Forall_inv ex_hypotheses)).
  assert (Hy : is_seq 3 4 [0; 1; 2; 1]%nat) by (split; [reflexivity|repeat constructor]).
  eapply Rle_trans; [apply (@C92_markov 2 4 3 (Some [4; 2])%nat ex_phi 3 V ltac:(lra) ex_phi_abs 0 [0; 1; 2; 1]%nat ltac:(lia) ltac:(cbn; lia) Hy)|].
  change (CLin 2 4 3 (Some [4; 2])%nat) with ex_lin. change (lc_len 4 (Some [4; 2])%nat 0) with 4%nat. destruct (ex_leak 0) as [H _].
  assert (H0 : 0 <= leak ex_lin 0 3) by (unfold leak; cbn [zero_free ex_lin]; apply Rmult_le_pos; [apply pos_INR|left; apply exp_pos]).
  assert (E : gtol ex_lin 0 3 = 8 * leak ex_lin 0 3) by (unfold gtol; change (degree ex_lin 0) with 4%nat; simpl INR; ring).
  rewrite E. generalize dependent (leak ex_lin 0 3). intros x H H0 _. simpl INR. simpl Nat.sub. simpl pow in *. 
  assert (Hx : x <= / 1000000000000000000000000000000) by (eapply Rle_trans; [exact H|right; f_equal; lra]).
  replace (/ (10 * _)) with (/ 10000000000000000000000000000) by (f_equal; lra). assert (x * x <= x * / 1000) by (apply Rmult_le_compat_l; lra). assert (x * x * x <= x * x) by nra. nra.
Qed.
(** the value is not trivial: this sequence uses three different steps, one of them unlikely *)
Example ex_C92_sc : sc (seq_parts 0) ex_phi [0; 1; 2; 1]%nat = -1.
Proof. unfold sc. vm_compute seq_parts. unfold ex_phi. rewrite !RSum_cons. cbn [list_sum fold_right Nat.add Nat.even]. change (RSum _ []) with 0. lra. Qed.
