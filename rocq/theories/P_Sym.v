(** * P_Sym: symmetries of the five classes (C59).

    Renaming labels, reading the input from the right, and choosing between two
    classes that describe the same structures do not change what the library
    returns, up to the corresponding renaming of the entries. *)
From Verif Require Import Base Ops Terms Semirings Poly Chain LinearChain SemiMarkov CkyCrf Cky DepSpec DepTree
  Batch Family Approx Grad Sample Dist Purity Degree Shape Api Query Dag Codec P_Real P_Oracle Sym SymMaps.
From Coq Require Import ZArith.
Set Implicit Arguments.
Local Open Scope nat_scope.

(** ** Renamings that can be undone on the entries in use *)
Definition undone (S : spec) (sg : list nat -> list nat) : Prop :=
  exists sg', forall s e, ok S s -> In e (prt S s) -> sg' (sg e) = e.
(** [transports], and it applies to every entry used by some structure *)
Record same_model (c1 : call) (b1 : nat) (c2 : call) (b2 : nat) (sg : list nat -> list nat) : Prop := SameModel {
  sm_transports : transports c1 b1 c2 b2 sg;
  sm_entries : forall s e, ok (spec_of c1 b1) s -> In e (prt (spec_of c1 b1) s) -> inj_at (spec_of c1 b1) sg e }.
Lemma undone_inj S sg s e : undone S sg -> ok S s -> In e (prt S s) -> inj_at S sg e.
Proof. intros (sg' & H) Hs He s' e' Hs' He' E. rewrite <- (H s e Hs He), <- (H s' e' Hs' He'). now rewrite E. Qed.
Lemma same_model_intro c1 b1 c2 b2 f g sg : valid c1 -> valid c2 -> row_ok c1 b1 -> row_ok c2 b2 ->
  iso (spec_of c1 b1) (spec_of c2 b2) f g sg -> undone (spec_of c1 b1) sg -> same_model c1 b1 c2 b2 sg.
Proof. intros V1 V2 R1 R2 I U. split; [eapply iso_transports; eauto|]. intros s e Hs He. eapply undone_inj; eauto. Qed.

Lemma seq_part_form C len b y e : is_seq C len y -> In e (seq_parts b y) -> exists n x z, e = [b; n; x; z] /\ n + 1 < len /\ x < C /\ z < C.
Proof.
  intros [L F] He. apply seq_parts_in in He as (n & Hn & ->). rewrite Forall_forall in F. exists n, (nth (n + 1) y 0), (nth n y 0).
  repeat split; [lia| |]; apply F, nth_In; lia.
Qed.
Lemma seg_part_form K C b l : forall n c e, Forall (seg_ok K C) l -> c < C -> In e (segs_parts b n c l) ->
  exists m w x z, e = [b; m; w; x; z] /\ m + w <= n + widths l /\ x < C /\ z < C.
Proof.
  induction l as [|[w c'] l IH]; intros n c e Hl Hc He; [destruct He|]. inversion_clear Hl as [|? ? [A B] Hl']. cbn [fst snd] in *. rewrite widths_cons.
  destruct He as [<-|He]; [exists n, w, c', c; repeat split; auto; lia|].
  destruct (IH (n + w) c' e Hl' B He) as (m & w' & x1 & z1 & -> & H & Hx & Hz). exists m, w', x1, z1. repeat split; auto; lia.
Qed.
Lemma segm_part_form K C len b y e : is_segm K C len y -> In e (segm_parts b y) -> exists m w x z, e = [b; m; w; x; z] /\ m + w <= len - 1 /\ x < C /\ z < C.
Proof. intros (H1 & H2 & H3) He. destruct (seg_part_form _ _ _ H2 H1 He) as (m & w & x & z & -> & H & ?). rewrite H3 in H. exists m, w, x, z. auto. Qed.
Lemma tree_part_form NT b t : forall i e, lbounded NT t -> In e (lparts b i t) -> exists j k a, e = [b; j; k; a] /\ j < i + lsize t /\ k < i + lsize t /\ a < NT.
Proof.
  induction t as [a|a l IHl r IHr]; intros i e B He; simpl in *.
  - destruct He as [<-|[]]. exists i, i, a. repeat split; auto; lia.
  - destruct B as (Ba & Bl & Br). pose proof (lsize_pos l). pose proof (lsize_pos r). destruct He as [<-|He]; [exists i, (i + (lsize l + lsize r) - 1), a; repeat split; auto; lia|].
    apply in_app_iff in He as [He|He]; [destruct (IHl _ _ Bl He) as (j & k & a' & -> & ?)|destruct (IHr _ _ Br He) as (j & k & a' & -> & ?)]; exists j, k, a'; repeat split; lia.
Qed.
Lemma psym_lt NT T p : pbounded NT T p -> psym NT p < NT + T.
Proof. destruct p; simpl; lia. Qed.
Lemma cfg_part_form NT T b p : forall i e, pbounded NT T p -> In e (pparts NT b i p) ->
  (exists j t, e = [0; b; j; t] /\ j < i + psize p /\ t < T) \/ (exists x y z, e = [1; b; x; y; z] /\ x < NT /\ y < NT + T /\ z < NT + T).
Proof.
  induction p as [t|x l IHl r IHr]; intros i e B He; cbn [psize pparts] in *.
  - destruct He as [<-|[]]. left. exists i, t. repeat split; auto; lia.
  - destruct B as (Bx & Bl & Br). destruct He as [<-|He].
    + right. exists x, (psym NT l), (psym NT r). repeat split; auto; eapply psym_lt; eassumption.
    + apply in_app_iff in He as [He|He].
      * destruct (IHl _ _ Bl He) as [(j & t & -> & ?)|?]; [left; exists j, t; repeat split; auto; lia|now right].
      * destruct (IHr _ _ Br He) as [(j & t & -> & ?)|?]; [left; exists j, t; repeat split; auto; lia|now right].
Qed.
Lemma dep_part_form mr n b h e : dep_ok mr n h -> In e (dep_parts b h) -> exists c x, e = dep_part b c x [] /\ c < n /\ x <= n.
Proof.
  intros [P _] He. unfold dep_parts in He. rewrite dep_parts_from_map, (proj1 P) in He. apply in_map_iff in He as (k & <- & Hk). apply in_seq in Hk.
  exists k, (nth k h 0). repeat split; [lia|]. exact (proj_hd_le (S k) P).
Qed.
Lemma ldep_part_form mr n L b h e : ldep_ok mr n L h -> In e (ldep_parts b h) -> exists c x l, e = dep_part b c x [l] /\ c < n /\ x <= n /\ l < L.
Proof.
  intros [[P F] _] He. unfold ldep_parts in He. rewrite ldep_parts_from_map in He. apply in_map_iff in He as (k & <- & Hk). apply in_seq in Hk. cbn [Nat.add] in Hk.
  pose proof (Forall_hd_le P) as F'. rewrite Forall_map in F'. rewrite Forall_forall in F, F'. pose proof (proj1 P) as Len. rewrite map_length in Len.
  exists k, (fst (nth k h (0, 0))), (snd (nth k h (0, 0))). repeat split; [lia|apply F', nth_In; lia|apply F, nth_In; lia].
Qed.
Lemma sym_ext_cancel NT T pi qi rho sig y : perm_of NT pi qi -> perm_of T rho sig -> y < NT + T -> sym_ext NT qi sig (sym_ext NT pi rho y) = y.
Proof.
  intros H H' Hy. unfold sym_ext. destruct (Nat.ltb_spec y NT) as [Lt|Ge].
  - rewrite (proj2 (Nat.ltb_lt (pi y) NT)) by (now apply H). now apply H.
  - replace (NT + rho (y - NT) <? NT) with false by (symmetry; apply Nat.ltb_ge; lia). replace (NT + rho (y - NT) - NT) with (rho (y - NT)) by lia.
    assert (Ht : y - NT < T) by lia. destruct (H' _ Ht) as (_ & _ & -> & _). lia.
Qed.
Lemma dep_rev_cancel n b c x lab : c < n -> x <= n -> dep_rev n (dep_rev n (dep_part b c x lab)) = dep_part b c x lab.
Proof. intros Hc Hx. rewrite dep_rev_part by assumption. rewrite dep_rev_part by (try apply flip_le; lia). rewrite flip_flip by exact Hx. f_equal. lia. Qed.

(** ** Linear chains *)
Section Chains.
  Variables (batch N C : nat) (ls : option (list nat)) (b : nat).
  Hypothesis V : lc_args batch N C ls.
  Hypothesis Hb : b < batch.
  Let c := CLin batch N C ls.
  Let R : row_ok c b.
  Proof. split; [exact Hb|exact I]. Qed.
  Theorem C59_chain_labels pi qi : perm_of C pi qi -> same_model c b c b (lin_lab pi).
  Proof.
    intro H. apply same_model_intro with (f := map pi) (g := map qi); auto; [now apply lin_lab_iso|].
    exists (lin_lab qi). intros y e Hy He. destruct (@seq_part_form _ _ _ _ _ Hy He) as (n & x & z & -> & _ & Hx & Hz). cbn [lin_lab].
    destruct (H x Hx) as (_ & _ & -> & _), (H z Hz) as (_ & _ & -> & _). reflexivity.
  Qed.
  Theorem C59_chain_reversal : same_model c b c b (lin_rev (Nat.max 1 (lc_len N ls b))).
  Proof.
    apply same_model_intro with (f := @rev nat) (g := @rev nat); auto; [apply lin_rev_iso|].
    exists (lin_rev (Nat.max 1 (lc_len N ls b))). intros y e Hy He. destruct (@seq_part_form _ _ _ _ _ Hy He) as (n & x & z & -> & Hn & _). cbn [lin_rev]. do 2 f_equal. lia.
  Qed.
  (** a chain is a semi-Markov model whose segments have width one *)
  Theorem C59_chain_is_semi : same_model c b (CSemi batch N 2 C ls) b lin_semi.
  Proof.
    assert (V2 : valid (CSemi batch N 2 C ls)) by (destruct V as (V1 & V2 & V3); split; [exact V1|]; split; [lia|]; split; [exact V2|]; split; [lia|]; destruct ls; tauto).
    apply same_model_intro with (f := to_segm) (g := of_segm); auto.
    - cbn [spec_of c]. destruct (lc_len N ls b) as [|len]; [exact (lin_semi_iso C b (le_n 1))|]. replace (Nat.max 1 (S len)) with (S len) by lia. apply lin_semi_iso. lia.
    - exists (fun e => match e with [b; n; w; x; y] => [b; n; x; y] | _ => e end). intros y e Hy He. destruct (@seq_part_form _ _ _ _ _ Hy He) as (n & x & z & -> & _). reflexivity.
  Qed.
End Chains.

(** ** Segmentations *)
Section Segmentations.
  Variables (batch N K C : nat) (ls : option (list nat)) (b : nat).
  Hypothesis V : sm_args batch N K C ls.
  Hypothesis Hb : b < batch.
  Let c := CSemi batch N K C ls.
  Let R : row_ok c b.
  Proof. split; [exact Hb|exact I]. Qed.
  Theorem C59_semi_labels pi qi : perm_of C pi qi -> same_model c b c b (semi_lab pi).
  Proof.
    intro H. eapply same_model_intro; auto; [apply (semi_lab_iso K (lc_len N ls b) b H)|].
    exists (semi_lab qi). intros y e Hy He. destruct (@segm_part_form _ _ _ _ _ _ Hy He) as (m & w & x & z & -> & _ & Hx & Hz). cbn [semi_lab].
    destruct (H x Hx) as (_ & _ & -> & _), (H z Hz) as (_ & _ & -> & _). reflexivity.
  Qed.
  Theorem C59_semi_reversal : same_model c b c b (semi_rev (Nat.max 1 (lc_len N ls b))).
  Proof.
    apply same_model_intro with (f := srev) (g := srev); auto.
    - cbn [spec_of c]. destruct (lc_len N ls b) as [|len]; [exact (semi_rev_iso K C b (le_n 1))|]. replace (Nat.max 1 (S len)) with (S len) by lia. apply semi_rev_iso. lia.
    - exists (semi_rev (Nat.max 1 (lc_len N ls b))). intros y e Hy He. destruct (@segm_part_form _ _ _ _ _ _ Hy He) as (m & w & x & z & -> & Hm & _). cbn [semi_rev]. do 2 f_equal. lia.
  Qed.
  (** widths that do not fit the sequence are irrelevant *)
  Theorem C59_semi_wide K' : 2 <= K' -> lc_len N ls b <= K -> lc_len N ls b <= K' -> same_model c b (CSemi batch N K' C ls) b (fun e => e).
  Proof.
    intros HK' H1 H2. assert (V2 : valid (CSemi batch N K' C ls)) by (destruct V as (V1 & V2 & V3); split; [exact V1|]; split; [exact HK'|exact V3]).
    eapply same_model_intro; auto; [apply (semi_wide_iso C b H1 H2)|]. exists (fun e => e). reflexivity.
  Qed.
End Segmentations.

(** ** Binary trees *)
Section Trees.
  Variables (batch N NT : nat) (ls : option (list nat)) (b : nat).
  Hypothesis V : ck_args batch N NT ls.
  Hypothesis Hb : b < batch.
  Let c := CTree batch N NT ls.
  Let R : row_ok c b.
  Proof. split; [exact Hb|exact I]. Qed.
  Theorem C59_tree_labels pi qi : perm_of NT pi qi -> same_model c b c b (tree_lab pi).
  Proof.
    intro H. eapply same_model_intro; auto; [apply (tree_lab_iso (eff_len N (lc_len N ls b)) b H)|].
    exists (tree_lab qi). intros t e [_ Ht] He. destruct (@tree_part_form _ _ _ _ _ Ht He) as (j & k & a & -> & _ & _ & Ha). cbn [tree_lab].
    destruct (H a Ha) as (_ & _ & -> & _). reflexivity.
  Qed.
  Theorem C59_tree_mirror : same_model c b c b (tree_rev (eff_len N (lc_len N ls b))).
  Proof.
    eapply same_model_intro; auto; [apply tree_rev_iso|].
    exists (tree_rev (eff_len N (lc_len N ls b))). intros t e [L Ht] He. destruct (@tree_part_form _ _ _ _ _ Ht He) as (j & k & a & -> & Hj & Hk & _). cbn [tree_rev].
    rewrite L in *. f_equal. f_equal; [lia|]. f_equal. lia.
  Qed.
End Trees.

(** ** Context-free grammars *)
Section Grammars.
  Variables (batch N NT T : nat) (ls : option (list nat)) (b : nat).
  Hypothesis V : cy_args batch N NT T ls.
  Hypothesis Hb : b < batch.
  Hypothesis Hl : 2 <= eff_len N (lc_len N ls b).
  Let c := CCfg batch N NT T ls.
  Let R : row_ok c b.
  Proof. split; [exact Hb|exact Hl]. Qed.
  Theorem C59_cfg_symbols pi qi rho sig : perm_of NT pi qi -> perm_of T rho sig -> same_model c b c b (cfg_lab NT pi rho).
  Proof.
    intros H H'. eapply same_model_intro; auto; [apply (cfg_lab_iso (eff_len N (lc_len N ls b)) b H H')|].
    exists (cfg_lab NT qi sig). intros p e (L & B & Rt) [<-|He].
    - cbn [cfg_lab]. destruct (H _ Rt) as (_ & _ & -> & _). reflexivity.
    - destruct (@cfg_part_form _ _ _ _ _ _ B He) as [(j & t & -> & _ & Ht)|(x & y & z & -> & Hx & Hy & Hz)]; cbn [cfg_lab].
      + destruct (H' _ Ht) as (_ & _ & -> & _). reflexivity.
      + rewrite !(sym_ext_cancel H H') by assumption. destruct (H _ Hx) as (_ & _ & -> & _). reflexivity.
  Qed.
  Theorem C59_cfg_mirror : same_model c b c b (cfg_rev (eff_len N (lc_len N ls b))).
  Proof.
    eapply same_model_intro; auto; [apply cfg_rev_iso|].
    exists (cfg_rev (eff_len N (lc_len N ls b))). intros p e (L & B & Rt) [<-|He]; [reflexivity|].
    destruct (@cfg_part_form _ _ _ _ _ _ B He) as [(j & t & -> & Hj & Ht)|(x & y & z & -> & _)]; cbn [cfg_rev]; [|reflexivity].
    rewrite L in Hj. do 3 f_equal. f_equal. lia.
  Qed.
End Grammars.

(** ** Dependency trees *)
Section Dependencies.
  Variables (mr : bool) (batch n : nat) (ls : option (list nat)) (b : nat).
  Hypothesis V : dp_args mr batch n ls.
  Hypothesis Hb : b < batch.
  Hypothesis Hl : mr = false -> 1 <= lc_len n ls b.
  Let c lab := CDep mr batch n lab ls.
  Let Vc lab : lab <> Some 0 -> valid (c lab).
  Proof. intro. split; assumption. Qed.
  Let R lab : row_ok (c lab) b.
  Proof. split; [exact Hb|]. destruct mr; [exact I|now apply Hl]. Qed.
  Theorem C59_dep_mirror lab : lab <> Some 0 -> same_model (c lab) b (c lab) b (dep_rev (lc_len n ls b)).
  Proof.
    intro Hlab. destruct lab as [L|].
    - eapply same_model_intro; auto; [apply ldep_rev_iso|].
      exists (dep_rev (lc_len n ls b)). intros h e Hh He. destruct (@ldep_part_form _ _ _ _ _ _ Hh He) as (k & x & l & -> & Hk & Hx & _). now apply dep_rev_cancel.
    - eapply same_model_intro; auto; [apply dep_rev_iso|].
      exists (dep_rev (lc_len n ls b)). intros h e Hh He. destruct (@dep_part_form _ _ _ _ _ Hh He) as (k & x & -> & Hk & Hx). now apply dep_rev_cancel.
  Qed.
  Theorem C59_dep_labels L pi qi : 0 < L -> perm_of L pi qi -> same_model (c (Some L)) b (c (Some L)) b (dep_lab pi).
  Proof.
    intros HL H. assert (Hlab : Some L <> Some 0) by (intros [= ->]; lia). eapply same_model_intro; auto; [apply (dep_lab_iso mr (lc_len n ls b) b H)|].
    exists (dep_lab qi). intros h e Hh He. destruct (@ldep_part_form _ _ _ _ _ _ Hh He) as (k & x & l & -> & _ & _ & Hx).
    destruct x; cbn [dep_part dep_lab]; destruct (H _ Hx) as (_ & _ & -> & _); reflexivity.
  Qed.
  Theorem C59_dep_one_label : same_model (c None) b (c (Some 1)) b dep_one.
  Proof.
    eapply same_model_intro; [apply Vc; discriminate|apply Vc; discriminate|apply R|apply R|apply dep_one_iso|].
    exists (@removelast nat). intros h e Hh He. destruct (@dep_part_form _ _ _ _ _ Hh He) as (k & x & -> & _). destruct x; reflexivity.
  Qed.
End Dependencies.
(** ** Instances: a rotation of three labels, a swap of two, and potentials that
    distinguish all entries *)
Definition rot (c : nat) : nat := nth c [1; 2; 0] 3.
(** example: a permutation *)
Definition tor (c : nat) : nat := nth c [2; 0; 1] 3.
(** example: a permutation *)
Definition swap (c : nat) : nat := nth c [1; 0] 2.
Lemma rot_perm : perm_of 3 rot tor.
Proof. intros [|[|[|c]]] H; [cbv; lia..|lia]. Qed.
Lemma swap_perm : perm_of 2 swap swap.
Proof. intros [|[|c]] H; [cbv; lia..|lia]. Qed.
(** example: potentials *)
Definition sy_pot (e : list nat) : nat := fold_left (fun a x => (7 * a + x + 1) mod 11) e 1.
(** example: value of a call *)
Definition val (c : call) (sg : list nat -> list nat) (b : nat) : Z :=
  match run c (csr_ops Z_csr) (fun e => Z.of_nat (sy_pot (sg e))) with Ok v => nth b v 0%Z | _ => 0%Z end.
Example sy_hypotheses : lc_args 2 4 3 (Some [4; 2]) /\ sm_args 2 5 3 2 (Some [3; 5]) /\ ck_args 2 4 2 (Some [2; 4]) /\ cy_args 2 4 2 3 (Some [4; 3])
  /\ dp_args false 2 4 (Some [4; 2]) /\ perm_of 3 rot tor /\ perm_of 2 swap swap.
Proof. split; [|split; [|split; [|split; [|split; [|split; [exact rot_perm|exact swap_perm]]]]]];
  vm_compute; repeat first [lia | reflexivity | discriminate | split | apply Forall_cons | apply Forall_nil]. Qed.
Example sy_chain : (val ex_lin (lin_lab rot) 0 = val ex_lin (fun e => e) 0) /\ (val ex_lin (lin_rev 4) 0 = val ex_lin (fun e => e) 0)
  /\ val ex_lin (fun e => lin_semi e) 0 = val (CSemi 2 4 2 3 (Some [4; 2])) (fun e => e) 0
  (* renaming the target label only, or reversing the positions only, is not a symmetry *)
  /\ val ex_lin (fun e => match e with [b; n; x; y] => [b; n; rot x; y] | _ => e end) 0 <> val ex_lin (fun e => e) 0
  /\ val ex_lin (fun e => match e with [b; n; x; y] => [b; 2 - n; x; y] | _ => e end) 0 <> val ex_lin (fun e => e) 0.
Proof. vm_compute. repeat split; discriminate. Qed.
Example sy_semi : (val ex_semi (semi_lab swap) 1 = val ex_semi (fun e => e) 1) /\ (val ex_semi (semi_rev 5) 1 = val ex_semi (fun e => e) 1)
  /\ (val ex_semi (fun e => e) 0 = val (CSemi 2 5 8 2 (Some [3; 5])) (fun e => e) 0)
  (* row 1 has length 5 > 3: there the wider segments count *)
  /\ val ex_semi (fun e => e) 1 <> val (CSemi 2 5 8 2 (Some [3; 5])) (fun e => e) 1.
Proof. vm_compute. repeat split; discriminate. Qed.
Example sy_tree : val ex_tree (tree_lab swap) 1 = val ex_tree (fun e => e) 1 /\ val ex_tree (tree_rev 4) 1 = val ex_tree (fun e => e) 1 /\ val ex_tree (tree_rev 3) 1 <> val ex_tree (fun e => e) 1.
Proof. vm_compute. repeat split; discriminate. Qed.
Example sy_cfg : val ex_cfg (cfg_lab 2 swap rot) 0 = val ex_cfg (fun e => e) 0 /\ val ex_cfg (cfg_rev 4) 0 = val ex_cfg (fun e => e) 0
  /\ val ex_cfg (fun e => match e with [1; b; x; y; z] => [1; b; x; z; y] | _ => e end) 0 <> val ex_cfg (fun e => e) 0.
Proof. vm_compute. repeat split; discriminate. Qed.
Example sy_dep : val ex_dep (dep_rev 4) 0 = val ex_dep (fun e => e) 0 /\ val ex_dep (dep_lab swap) 0 = val ex_dep (fun e => e) 0
  /\ val (CDep false 2 4 None (Some [4; 2])) dep_one 0 = val (CDep false 2 4 (Some 1) (Some [4; 2])) (fun e => e) 0
  /\ val ex_dep (dep_rev 3) 0 <> val ex_dep (fun e => e) 0.
Proof. vm_compute. repeat split; discriminate. Qed.
Print Assumptions C59_chain_labels.
Print Assumptions C59_chain_reversal.
Print Assumptions C59_chain_is_semi.
Print Assumptions C59_semi_labels.
Print Assumptions C59_semi_reversal.
Print Assumptions C59_semi_wide.
Print Assumptions C59_tree_labels.
Print Assumptions C59_tree_mirror.
Print Assumptions C59_cfg_symbols.
Print Assumptions C59_cfg_mirror.
Print Assumptions C59_dep_mirror.
Print Assumptions C59_dep_labels.
Print Assumptions C59_dep_one_label.
