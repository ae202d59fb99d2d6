(** * Properties of the dynamic programs, in every commutative semiring
    (C01-C10, C45). Only statements; proofs are in the model files. *)
From Verif Require Import Base Ops Chain LinearChain SemiMarkov CkyCrf Cky DepSpec DepTree Batch Instances.

(** C01 *)
Theorem C01_linear_chain_sum (S : csr) batch N C edge lengths :
  lc_args batch N C lengths -> shape edge = [batch; N - 1; C; C] ->
  exists v, lc_logpartition (csr_ops S) edge lengths = Ok v /\
  length v = batch /\
  forall b l, b < batch ->
    Enumerates (is_seq C (Nat.max 1 (lc_len N lengths b))) l ->
    nth b v k0 = Sum S (fun y => Prod S (dat edge) (seq_parts b y)) l.
Proof. exact (@lc_logpartition_correct S batch N C edge lengths). Qed.
Print Assumptions C01_linear_chain_sum.

Example C01_instance : lc_args 2 4 3 (Some [4; 2]) /\ shape (demo [2; 3; 3; 3]) = [2; 4 - 1; 3; 3] /\
  lc_logpartition (csr_ops nat_csr) (demo [2; 3; 3; 3]) (Some [4; 2]) = Ok [648; 18] /\
  Sum nat_csr (fun y => Prod nat_csr (dat (demo [2; 3; 3; 3])) (seq_parts 0 y)) (seqs 3 4) = 648.
Proof. split; [repeat split; simpl; lia|]. vm_compute. auto. Qed.

(** C02 *)
Theorem C02_padding_invariant (S : csr) batch N batch' N' C edge edge' lengths lengths' b b' :
  lc_args batch N C lengths -> shape edge = [batch; N - 1; C; C] ->
  lc_args batch' N' C lengths' -> shape edge' = [batch'; N' - 1; C; C] ->
  b < batch -> b' < batch' ->
  lc_len N lengths b = lc_len N' lengths' b' ->
  (forall n i j, n + 1 < lc_len N lengths b -> i < C -> j < C ->
     dat edge [b; n; i; j] = dat edge' [b'; n; i; j]) ->
  exists v v', lc_logpartition (csr_ops S) edge lengths = Ok v /\
    lc_logpartition (csr_ops S) edge' lengths' = Ok v' /\ nth b v k0 = nth b' v' k0.
Proof. exact (@lc_padding_invariant S batch N batch' N' C edge edge' lengths lengths' b b'). Qed.
Print Assumptions C02_padding_invariant.

Example C02_instance :
  lc_args 2 6 2 (Some [6; 3]) /\ lc_args 1 3 2 None /\ lc_len 6 (Some [6; 3]) 1 = lc_len 3 None 0 /\
  exists v, lc_logpartition (csr_ops nat_csr) (demo [2; 5; 2; 2]) (Some [6; 3]) = Ok v /\ nth 1 v 0 = 31.
Proof.
  split; [repeat split; simpl; lia|]. split; [repeat split; simpl; lia|].
  vm_compute. eauto.
Qed.

(** C03: for arbitrary operations, one theorem per structure family *)
Theorem C03_linear_chain_rows (O : ops) (HO : over_zero O) batch batch' N C e e' lengths lengths' b b' d :
  lc_args batch N C lengths -> shape e = [batch; N - 1; C; C] ->
  lc_args batch' N C lengths' -> shape e' = [batch'; N - 1; C; C] ->
  b < batch -> b' < batch' -> lc_len N lengths b = lc_len N lengths' b' -> row_agree e b e' b' ->
  exists v v', lc_logpartition O e lengths = Ok v /\ lc_logpartition O e' lengths' = Ok v' /\
    nth b v d = nth b' v' d.
Proof. exact (@lc_rows O HO batch batch' N C e e' lengths lengths' b b' d). Qed.
Print Assumptions C03_linear_chain_rows.

Theorem C03_semi_markov_rows (O : ops) (HO : over_zero O) batch batch' N K C e e' lengths lengths' b b' d :
  sm_args batch N K C lengths -> shape e = [batch; N - 1; K; C; C] ->
  sm_args batch' N K C lengths' -> shape e' = [batch'; N - 1; K; C; C] ->
  b < batch -> b' < batch' -> lc_len N lengths b = lc_len N lengths' b' -> row_agree e b e' b' ->
  exists v v', sm_logpartition O e lengths = Ok v /\ sm_logpartition O e' lengths' = Ok v' /\
    nth b v d = nth b' v' d.
Proof. exact (@sm_rows O HO batch batch' N K C e e' lengths lengths' b b' d). Qed.
Print Assumptions C03_semi_markov_rows.

Theorem C03_tree_rows (O : ops) batch batch' N NT e e' lengths lengths' b b' d :
  ck_args batch N NT lengths -> shape e = [batch; N; N; NT] ->
  ck_args batch' N NT lengths' -> shape e' = [batch'; N; N; NT] ->
  b < batch -> b' < batch' -> lc_len N lengths b = lc_len N lengths' b' -> row_agree e b e' b' ->
  exists v v', ck_logpartition O e lengths = Ok v /\ ck_logpartition O e' lengths' = Ok v' /\
    nth b v d = nth b' v' d.
Proof. exact (@ck_rows O batch batch' N NT e e' lengths lengths' b b' d). Qed.
Print Assumptions C03_tree_rows.

Theorem C03_cfg_rows (O : ops) batch batch' N NT T te ru ro te' ru' ro' lengths lengths' b b' d :
  cy_args batch N NT T lengths ->
  shape te = [batch; N; T] -> shape ru = [batch; NT; NT + T; NT + T] -> shape ro = [batch; NT] ->
  cy_args batch' N NT T lengths' ->
  shape te' = [batch'; N; T] -> shape ru' = [batch'; NT; NT + T; NT + T] -> shape ro' = [batch'; NT] ->
  b < batch -> b' < batch' -> lc_len N lengths b = lc_len N lengths' b' ->
  row_agree te b te' b' -> row_agree ru b ru' b' -> row_agree ro b ro' b' ->
  exists v v', cy_logpartition O te ru ro lengths = Ok v /\ cy_logpartition O te' ru' ro' lengths' = Ok v' /\
    nth b v d = nth b' v' d.
Proof. exact (@cy_rows O batch batch' N NT T te ru ro te' ru' ro' lengths lengths' b b' d). Qed.
Print Assumptions C03_cfg_rows.

Theorem C03_dependency_rows (O : ops) mr batch batch' n lab j j' e e' lengths lengths' b b' d :
  lab <> Some 0 ->
  dp_args mr batch n lengths ->
  shape e = (match lab with None => [batch; n; n] | Some L => [batch; n; n; L] end) ->
  dp_args mr batch' n lengths' ->
  shape e' = (match lab with None => [batch'; n; n] | Some L => [batch'; n; n; L] end) ->
  b < batch -> b' < batch' -> lc_len n lengths b = lc_len n lengths' b' -> row_agree e b e' b' ->
  exists v v', dp_logpartition O mr j e lengths = Ok v /\ dp_logpartition O mr j' e' lengths' = Ok v' /\
    nth b v d = nth b' v' d.
Proof. exact (@dp_rows O mr batch batch' n lab j j' e e' lengths lengths' b b' d). Qed.
Print Assumptions C03_dependency_rows.

(** two batches that share a row at different places, and differ elsewhere *)
Example C03_instance :
  let e := demo [2; 2; 2; 2] in
  let e' := {| shape := [3; 2; 2; 2];
               dat := fun i => match i with 2 :: t => dat e (1 :: t) | _ => 5 end |} in
  over_zero (csr_ops nat_csr) /\ lc_args 2 3 2 (Some [3; 2]) /\ lc_args 3 3 2 (Some [1; 3; 2]) /\
  row_agree e 1 e' 2 /\ dat e [0; 0; 0; 0] <> dat e' [0; 0; 0; 0].
Proof.
  cbv zeta. split; [intro; reflexivity|]. split; [repeat split; simpl; lia|].
  split; [repeat split; simpl; lia|]. split; [intro; reflexivity|]. vm_compute. lia.
Qed.

(** C04 *)
Theorem C04_semi_markov_sum (S : csr) batch N K C edge lengths :
  sm_args batch N K C lengths -> shape edge = [batch; N - 1; K; C; C] ->
  exists v, sm_logpartition (csr_ops S) edge lengths = Ok v /\
  length v = batch /\
  forall b l, b < batch ->
    Enumerates (is_segm K C (lc_len N lengths b)) l ->
    nth b v k0 = Sum S (fun y => Prod S (dat edge) (segm_parts b y)) l.
Proof. exact (@sm_logpartition_correct S batch N K C edge lengths). Qed.
Print Assumptions C04_semi_markov_sum.

Example C04_instance : sm_args 2 4 3 2 (Some [4; 3]) /\
  exists v, sm_logpartition (csr_ops nat_csr) (demo [2; 3; 3; 2; 2]) (Some [4; 3]) = Ok v /\
  nth 1 v 0 = Sum nat_csr (fun y => Prod nat_csr (dat (demo [2; 3; 3; 2; 2])) (segm_parts 1 y)) (segms 3 2 3) /\
  length (segms 3 2 3) = 12.
Proof. split; [repeat split; simpl; lia|]. vm_compute. eauto. Qed.

(** C05 *)
Theorem C05_scan_is_standard (S : csr) batch N K C edge lengths :
  sm_args batch N K C lengths -> shape edge = [batch; N - 1; K; C; C] ->
  (forall b, b < batch -> 1 <= lc_len N lengths b) ->
  exists v, sm_logpartition (csr_ops S) edge lengths = Ok v /\
            smd_logpartition (csr_ops S) edge lengths = Ok v.
Proof. exact (@smd_agrees S batch N K C edge lengths). Qed.
Print Assumptions C05_scan_is_standard.

(** Without the assumption on the lengths: [_dp_standard] reads a row of length zero as a row of full length
    ([beta[l - 1]] with l = 0 is the last element), which the scan does not. *)
Theorem C05_standard_sum (S : csr) batch N K C edge lengths :
  sm_args batch N K C lengths -> shape edge = [batch; N - 1; K; C; C] ->
  exists v, smd_logpartition (csr_ops S) edge lengths = Ok v /\
  length v = batch /\
  forall b l, b < batch ->
    Enumerates (is_segm K C (match lc_len N lengths b with 0 => N | n => n end)) l ->
    nth b v k0 = Sum S (fun y => Prod S (dat edge) (segm_parts b y)) l.
Proof.
  intros Ha Hs. rewrite (smd_logpartition_run _ _ Ha Hs). eexists; split; [reflexivity|].
  rewrite map_length, seq_length. split; auto. intros b l Hb He. rewrite nth_map_seq by auto.
  destruct Ha as (HN & HK & HC & Hb0 & HL).
  assert (Hle : lc_len N lengths b <= N) by (apply lc_len_le; destruct lengths; tauto).
  set (m := match lc_len N lengths b with 0 => N | n => n end) in *.
  assert (Em : smd_one (csr_ops S) K C N (dat edge) b (lc_len N lengths b) = smd_one (csr_ops S) K C N (dat edge) b m).
  { unfold m, smd_one. destruct (lc_len N lengths b) as [|n]; [|reflexivity]. destruct N as [|N']; [lia|reflexivity]. }
  rewrite Em, smd_one_sum; auto.
  - eapply Sum_enum; [apply segms_enum|exact He].
  - unfold m. destruct (lc_len N lengths b) as [|n]; lia.
Qed.
Print Assumptions C05_standard_sum.
Theorem C05_zero_length_refuted : exists batch N K C edge lengths, sm_args batch N K C lengths /\
  shape edge = [batch; N - 1; K; C; C] /\
  sm_logpartition (csr_ops nat_csr) edge lengths <> smd_logpartition (csr_ops nat_csr) edge lengths.
Proof.
  exists 2, 3, 2, 1, (demo [2; 2; 2; 1; 1]), (Some [3; 0]). split; [repeat split; simpl; lia|]. split; [reflexivity|].
  vm_compute. discriminate.
Qed.
Print Assumptions C05_zero_length_refuted.

Example C05_instance : sm_args 3 4 2 2 (Some [2; 4; 1]) /\
  (forall b, b < 3 -> 1 <= lc_len 4 (Some [2; 4; 1]) b).
Proof. split; [repeat split; simpl; lia|]. intros [|[|[|b]]] H; simpl; lia. Qed.

(** C06 *)
Theorem C06_tree_sum (S : csr) batch N NT edge lengths :
  ck_args batch N NT lengths -> shape edge = [batch; N; N; NT] ->
  exists v, ck_logpartition (csr_ops S) edge lengths = Ok v /\
  length v = batch /\
  forall b l, b < batch -> 1 <= lc_len N lengths b ->
    Enumerates (is_ltree NT (lc_len N lengths b)) l ->
    nth b v k0 = Sum S (fun t => Prod S (dat edge) (lparts b 0 t)) l.
Proof. exact (@ck_logpartition_correct S batch N NT edge lengths). Qed.
Print Assumptions C06_tree_sum.

Example C06_instance : ck_args 2 4 2 (Some [4; 3]) /\
  exists v, ck_logpartition (csr_ops nat_csr) (demo [2; 4; 4; 2]) (Some [4; 3]) = Ok v /\
  nth 1 v 0 = Sum nat_csr (fun t => Prod nat_csr (dat (demo [2; 4; 4; 2])) (lparts 1 0 t)) (ltrees 2 3 3) /\
  length (ltrees 2 3 3) = 64.
Proof. split; [repeat split; simpl; auto; repeat constructor; lia|]. vm_compute. eauto. Qed.

(** C07 *)
Theorem C07_cfg_sum (S : csr) batch N NT T terms rules roots lengths :
  cy_args batch N NT T lengths ->
  shape terms = [batch; N; T] -> shape rules = [batch; NT; NT + T; NT + T] -> shape roots = [batch; NT] ->
  exists v, cy_logpartition (csr_ops S) terms rules roots lengths = Ok v /\
  length v = batch /\
  forall b l, b < batch -> 1 <= lc_len N lengths b ->
    Enumerates (is_parse NT T (lc_len N lengths b)) l ->
    nth b v k0 = Sum S (fun p => Prod S (cy_pot terms rules roots) (parse_parts NT b p)) l.
Proof. exact (@cy_logpartition_correct S batch N NT T terms rules roots lengths). Qed.
Print Assumptions C07_cfg_sum.

Example C07_instance : cy_args 2 3 2 2 (Some [3; 2]) /\
  exists v, cy_logpartition (csr_ops nat_csr) (demo [2; 3; 2]) (demo [2; 2; 4; 4]) (demo [2; 2]) (Some [3; 2]) = Ok v /\
  nth 0 v 0 = Sum nat_csr (fun p => Prod nat_csr (cy_pot (demo [2; 3; 2]) (demo [2; 2; 4; 4]) (demo [2; 2]))
                  (parse_parts 2 0 p)) (parses 2 2 3) /\
  0 < length (parses 2 2 3).
Proof. split; [repeat split; simpl; auto; repeat constructor; lia|]. 
  eexists. split; [vm_compute; reflexivity|]. split; [vm_compute; reflexivity|]. vm_compute; lia.
Qed.

(** C08 (multi-root) *)
Theorem C08_dependency_multiroot_sum (S : csr) junk batch n arcs lengths :
  dp_args true batch n lengths -> shape arcs = [batch; n; n] ->
  exists v, dp_logpartition (csr_ops S) true junk arcs lengths = Ok v /\
  length v = batch /\
  forall b l, b < batch -> Enumerates (is_proj (lc_len n lengths b)) l ->
    nth b v k0 = Sum S (fun h => Prod S (dat arcs) (dep_parts b h)) l.
Proof. exact (@dp_multiroot_correct S junk batch n arcs lengths). Qed.
Print Assumptions C08_dependency_multiroot_sum.

Example C08_instance : dp_args true 2 4 (Some [4; 2]) /\
  exists v, dp_logpartition (csr_ops nat_csr) true 99 (demo [2; 4; 4]) (Some [4; 2]) = Ok v /\
  nth 0 v 0 = Sum nat_csr (fun h => Prod nat_csr (dat (demo [2; 4; 4])) (dep_parts 0 h)) (rights 5 0 4) /\
  length (rights 5 0 4) = 55 /\ is_proj 4 [2; 0; 4; 0].
Proof.
  split; [repeat split; simpl; auto; repeat constructor; lia|].
  eexists. split; [vm_compute; reflexivity|]. split; [vm_compute; reflexivity|].
  split; [reflexivity|]. apply (projs_enum 4). vm_compute. tauto.
Qed.

(** C09 (single root) *)
Theorem C09_dependency_singleroot_sum (S : csr) junk batch n arcs lengths :
  dp_args false batch n lengths -> shape arcs = [batch; n; n] ->
  exists v, dp_logpartition (csr_ops S) false junk arcs lengths = Ok v /\
  length v = batch /\
  forall b l, b < batch -> 1 <= lc_len n lengths b ->
    Enumerates (fun h => is_proj (lc_len n lengths b) h /\ single_root h) l ->
    nth b v k0 = Sum S (fun h => Prod S (dat arcs) (dep_parts b h)) l.
Proof. exact (@dp_singleroot_correct S junk batch n arcs lengths). Qed.
Print Assumptions C09_dependency_singleroot_sum.

Example C09_instance : dp_args false 2 4 (Some [4; 2]) /\
  exists v, dp_logpartition (csr_ops nat_csr) false 99 (demo [2; 4; 4]) (Some [4; 2]) = Ok v /\
  nth 0 v 0 = Sum nat_csr (fun h => Prod nat_csr (dat (demo [2; 4; 4])) (dep_parts 0 h)) (singles 4) /\
  length (singles 4) = 30.
Proof.
  split; [repeat split; simpl; auto; repeat constructor; lia|].
  eexists. split; [vm_compute; reflexivity|]. split; [vm_compute; reflexivity|]. reflexivity.
Qed.

(** C10 (labeled, both root modes) *)
Theorem C10_dependency_labeled_sum (S : csr) multiroot junk batch n L arcs lengths :
  dp_args multiroot batch n lengths -> shape arcs = [batch; n; n; L] ->
  exists v, dp_logpartition (csr_ops S) multiroot junk arcs lengths = Ok v /\
  length v = batch /\
  forall b l, b < batch -> (multiroot = false -> 1 <= lc_len n lengths b) ->
    Enumerates (ldep_ok multiroot (lc_len n lengths b) L) l ->
    nth b v k0 = Sum S (fun h => Prod S (dat arcs) (ldep_parts b h)) l.
Proof. exact (@dp_logpartition_labeled_correct S multiroot junk batch n L arcs lengths). Qed.
Print Assumptions C10_dependency_labeled_sum.

Example C10_instance : dp_args false 1 3 None /\
  dp_logpartition (csr_ops nat_csr) false 99 (demo [1; 3; 3; 2]) None = Ok [426] /\
  Sum nat_csr (fun h => Prod nat_csr (dat (demo [1; 3; 3; 2])) (ldep_parts 0 h))
     (flat_map (labelings 2) (singles 3)) = 426.
Proof. split; [repeat split; simpl; auto|]. vm_compute. auto. Qed.

(** C45: length 0 in a TreeCRF answers for the full sentence (any operations) *)
Theorem C45_tree_length0_is_full (O : ops) batch N NT edge ls b d :
  ck_args batch N NT (Some ls) -> shape edge = [batch; N; N; NT] -> b < batch -> nth b ls 0 = 0 ->
  exists v v', ck_logpartition O edge (Some ls) = Ok v /\ ck_logpartition O edge None = Ok v' /\
    nth b v d = nth b v' d.
Proof. exact (@ck_length0_full_call O batch N NT edge ls b d). Qed.
Print Assumptions C45_tree_length0_is_full.

Example C45_tree_instance : ck_args 2 3 2 (Some [0; 3]) /\
  ck_logpartition (csr_ops nat_csr) (demo [2; 3; 3; 2]) (Some [0; 3]) =
  ck_logpartition (csr_ops nat_csr) (demo [2; 3; 3; 2]) None.
Proof. split; [repeat split; simpl; auto with arith|]. vm_compute. reflexivity. Qed.

(** LinearChain and SemiMarkov reject, with an assertion, exactly the non-square
    transitions and the lengths whose maximum is not N *)
Definition has_max (ls : list nat) (m : nat) : Prop := In m ls /\ forall l, In l ls -> l <= m.
Lemma has_max_list_max ls m : ls <> [] -> has_max ls m <-> list_max ls = m.
Proof.
  intro Hn. assert (H : has_max ls (list_max ls)).
  { split.
    - clear -Hn. induction ls as [|x ls IH]; [congruence|]. simpl. destruct ls as [|y ls].
      + simpl. lia.
      + destruct (Nat.max_dec x (list_max (y :: ls))) as [->| ->]; [now left|right; apply IH; discriminate].
    - intros l Hl. pose proof (list_max_le ls (list_max ls)) as [G _]. specialize (G (le_n _)).
      rewrite Forall_forall in G. now apply G. }
  split; [|intros <-; exact H]. intros [H1 H2]. destruct H as [H3 H4]. specialize (H2 _ H3). specialize (H4 _ H1). lia.
Qed.
Theorem C45_chain_rejects (O : ops) batch N1 C C2 (edge : tensor (car O)) ls :
  shape edge = [batch; N1; C; C2] -> ls <> [] ->
  (lc_logpartition O edge (Some ls) = Err AssertionError <-> ~ (has_max ls (N1 + 1) /\ C = C2)).
Proof.
  intros Hs Hn. rewrite (has_max_list_max ls (N1 + 1) Hn). unfold lc_logpartition. rewrite Hs. unfold lc_check.
  replace (list_max_opt ls) with (Some (list_max ls)) by (destruct ls; [congruence|reflexivity]).
  destruct (list_max ls <=? N1 + 1) eqn:E1; [apply Nat.leb_le in E1|apply Nat.leb_gt in E1; split; [intros _; lia|auto]].
  destruct (list_max ls =? N1 + 1) eqn:E2; [apply Nat.eqb_eq in E2|apply Nat.eqb_neq in E2; split; [intros _; lia|auto]].
  destruct (C =? C2) eqn:E3; [apply Nat.eqb_eq in E3|apply Nat.eqb_neq in E3; split; [intros _; lia|auto]].
  split; [|tauto]. unfold bin_length. destruct (N1 + 1 - 1 =? 0); [discriminate|]. destruct (length ls =? batch); discriminate.
Qed.
Theorem C45_semi_markov_rejects (O : ops) batch N1 K C C2 (edge : tensor (car O)) ls :
  shape edge = [batch; N1; K; C; C2] -> ls <> [] ->
  (sm_logpartition O edge (Some ls) = Err AssertionError <-> ~ (has_max ls (N1 + 1) /\ C = C2)).
Proof.
  intros Hs Hn. rewrite (has_max_list_max ls (N1 + 1) Hn). unfold sm_logpartition. rewrite Hs. unfold sm_check.
  replace (list_max_opt ls) with (Some (list_max ls)) by (destruct ls; [congruence|reflexivity]).
  destruct (list_max ls <=? N1 + 1) eqn:E1; [apply Nat.leb_le in E1|apply Nat.leb_gt in E1; split; [intros _; lia|auto]].
  destruct (list_max ls =? N1 + 1) eqn:E2; [apply Nat.eqb_eq in E2|apply Nat.eqb_neq in E2; split; [intros _; lia|auto]].
  destruct (C =? C2) eqn:E3; [apply Nat.eqb_eq in E3|apply Nat.eqb_neq in E3; split; [intros _; lia|auto]].
  split; [|tauto]. unfold bin_length. destruct (N1 + 1 - 1 =? 0); [discriminate|].
  destruct ((length ls =? batch) && (2 <=? K)); discriminate.
Qed.
Print Assumptions C45_chain_rejects.
Print Assumptions C45_semi_markov_rejects.
Example C45_chain_instance :
  lc_logpartition (csr_ops nat_csr) (demo [2; 3; 2; 2]) (Some [3; 2]) = Err AssertionError /\
  lc_logpartition (csr_ops nat_csr) (demo [2; 3; 2; 2]) (Some [5; 4]) = Err AssertionError /\
  (exists v, lc_logpartition (csr_ops nat_csr) (demo [2; 3; 2; 2]) (Some [1; 4]) = Ok v) /\
  sm_logpartition (csr_ops nat_csr) (demo [2; 3; 2; 2; 1]) (Some [4; 2]) = Err AssertionError.
Proof. vm_compute. repeat split. eexists. reflexivity. Qed.
