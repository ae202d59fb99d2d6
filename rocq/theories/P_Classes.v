(** * P_Classes: the classes agree where they describe the same structures (C91)

    A semi-Markov model whose segments have width 1 is a linear chain; a larger
    limit on the width only adds segmentations, and none once every segment
    fits; a tree with one root is a tree; labels that no other potential sees
    can be summed out.  The classes have separate code for each of these, so a
    user who moves from one to the other relies on the answers being the same.
    The theorems are for all potentials, shapes, lengths and rows. *)
From Coq Require Import Lra FunctionalExtensionality.
From Verif Require Import Base Ops Terms Semirings Poly Chain LinearChain SemiMarkov CkyCrf Cky DepSpec DepTree
  Batch Family Approx Grad Sample Dist Purity Degree Shape Api Query Learn P_Real P_Learn P_Cross P_Local P_Temp Grammar P_Oracle.
Set Implicit Arguments.
Local Open Scope R_scope.

(** ** Specification *)
(** spec: every structure of the row [S] is one of the row [S'], up to renaming structures by [f]
    and parts by [g] *)
Definition embeds (S S' : spec) (f : st S -> st S') (g : list nat -> list nat) : Prop :=
  (forall s, ok S s -> ok S' (f s)) /\ (forall s t, ok S s -> ok S t -> f s = f t -> s = t) /\
  (forall s, ok S s -> prt S' (f s) = map g (prt S s)).
(** spec: and the other way round *)
Definition covers (S S' : spec) (f : st S -> st S') : Prop := forall s', ok S' s' -> exists s, ok S s /\ f s = s'.
(** spec: what the finite zero can add to one entry of [marginals]; 0 for TreeCRF and DependencyCRF *)
Definition gtol (c : call) (b : nat) (B : R) : R := 2 * INR (degree c b) * leak c b B.

(** ** Generic part *)
Section Embed.
  Variables (S S' : spec) (f : st S -> st S') (g : list nat -> list nat) (l : list (st S)) (l' : list (st S')) (phi : list nat -> R).
  Hypotheses (HE : embeds S S' f g) (Hl : Enumerates (ok S) l) (Hl' : Enumerates (ok S') l').
  Let psi := fun e => phi (g e).
  Lemma embed_sc s : ok S s -> sc (prt S') phi (f s) = sc (prt S) psi s.
  Proof. intro H. unfold sc. rewrite (proj2 (proj2 HE) s H). exact (Sum_map R_csr phi g (prt S s)). Qed.
  Lemma embed_nodup : NoDup (map f l).
  Proof.
    destruct Hl as [N E]. assert (I : forall s, In s l -> ok S s) by (intros s; apply E). clear Hl E. induction l as [|s u IH]; [constructor|].
    inversion N as [|? ? N1 N2]; subst. cbn [map]. constructor.
    - rewrite in_map_iff. intros (t & Et & Ht). apply N1. replace s with t; [exact Ht|]. apply (proj1 (proj2 HE)); auto; apply I; simpl; auto.
    - apply IH; auto. intros t Ht. apply I. now right.
  Qed.
  Lemma embed_map (h : st S -> R) (h' : st S' -> R) : (forall s, ok S s -> h' (f s) = h s) -> RSum h' (map f l) = RSum h l.
  Proof. intro H. rewrite (Sum_map R_csr). apply (Sum_ext_in R_csr). intros s Hs. apply H. now apply Hl. Qed.
  Lemma embed_Z : ZS (prt S) l psi <= ZS (prt S') l' phi.
  Proof.
    unfold ZS. rewrite <- (embed_map (fun s => exp (sc (prt S) psi s)) (fun s => exp (sc (prt S') phi s))) by (intros; now rewrite embed_sc).
    apply RSum_incl; [intro; left; apply exp_pos|apply embed_nodup|]. intros s' Hs. apply in_map_iff in Hs as (s & <- & Hs). apply Hl', HE. now apply Hl.
  Qed.
  Hypothesis HC : covers S S' f.
  Lemma cover_perm : Permutation (map f l) l'.
  Proof.
    apply NoDup_Permutation; [apply embed_nodup|apply Hl'|]. intro s'. rewrite in_map_iff. split.
    - intros (s & <- & Hs). apply Hl', HE. now apply Hl.
    - intro Hs. apply Hl' in Hs. destruct (HC _ Hs) as (s & H1 & H2). exists s. split; auto. now apply Hl.
  Qed.
  Lemma cover_sum (h : st S -> R) (h' : st S' -> R) : (forall s, ok S s -> h' (f s) = h s) -> RSum h' l' = RSum h l.
  Proof. intro H. rewrite <- (Sum_perm R_csr _ cover_perm). now apply embed_map. Qed.
  Lemma cover_Z : ZS (prt S') l' phi = ZS (prt S) l psi.
  Proof. unfold ZS. apply cover_sum. intros s Hs. now rewrite embed_sc. Qed.
  Lemma cover_prob s : ok S s -> prob (prt S') l' phi (f s) = prob (prt S) l psi s.
  Proof. intro H. unfold prob. now rewrite cover_Z, embed_sc. Qed.
  Lemma cover_entropy : entropy_spec (prt S') l' phi = entropy_spec (prt S) l psi.
  Proof. unfold entropy_spec. f_equal. apply cover_sum. intros s Hs. now rewrite cover_prob. Qed.
  Lemma cover_marg e : (forall x y, g x = g y -> x = y) -> marg_spec (prt S') l' phi (g e) = marg_spec (prt S) l psi e.
  Proof.
    intro Hg. unfold marg_spec. apply cover_sum. intros s Hs. rewrite cover_prob by auto. f_equal. unfold uses. rewrite (proj2 (proj2 HE) s Hs). f_equal.
    induction (prt S s) as [|x p IH]; [reflexivity|]. cbn [map count_occ]. destruct (list_eq_dec Nat.eq_dec (g x) (g e)) as [E|N], (list_eq_dec Nat.eq_dec x e) as [E'|N']; try congruence.
    exfalso. apply N'. now apply Hg.
  Qed.
End Embed.

Section Queries.
  Variables (c c' : call) (b : nat) (f : st (spec_of c b) -> st (spec_of c' b)) (g : list nat -> list nat) (phi : list nat -> R) (B : R).
  Hypotheses (V : valid c) (V' : valid c') (R0 : row_ok c b) (R1 : row_ok c' b) (HB0 : 0 <= B).
  Hypotheses (HB : bounded c B (fun e => phi (g e))) (HB' : bounded c' B phi) (HE : embeds (spec_of c b) (spec_of c' b) f g).
  Let psi := fun e => phi (g e).
  Lemma embed_partition : at_row 0 (q_partition c psi) b <= at_row 0 (q_partition c' phi) b + leak c b B.
  Proof.
    destruct (row_list V R0) as (l & Hl & Hne). destruct (row_list V' R1) as (l' & Hl' & Hne').
    destruct (@C20_partition_value c psi B V HB0 HB) as (v & E & _ & H). destruct (@C20_partition_value c' phi B V' HB0 HB') as (v' & E' & _ & H').
    rewrite E, E'. cbn [at_row]. specialize (H b l R0 Hl). specialize (H' b l' R1 Hl'). cbv zeta in H, H'.
    pose proof (embed_Z phi HE Hl Hl') as Z. fold psi in Z. pose proof (ZS_pos (prt (spec_of c b)) psi Hne) as P.
    assert (L : ln (ZS (prt (spec_of c b)) l psi) <= ln (ZS (prt (spec_of c' b)) l' phi)) by (destruct Z as [Z|Z]; [left; now apply ln_increasing|rewrite Z; lra]).
    lra.
  Qed.
  Lemma embed_max : small c b psi -> small c' b phi -> at_row 0 (q_max c psi) b <= at_row 0 (q_max c' phi) b.
  Proof.
    intros S1 S2. destruct (@C14_max_is_best c psi V) as (v & E & _ & H). destruct (@C14_max_is_best c' phi V') as (v' & E' & _ & H').
    rewrite E, E'. cbn [at_row]. destruct (H b R0 S1) as ((s & Hs & ->) & _). destruct (H' b R1 S2) as (_ & Hm).
    unfold psi. rewrite <- (@embed_sc _ _ f g phi HE s Hs). apply Hm. now apply HE.
  Qed.
  Hypotheses (HC : covers (spec_of c b) (spec_of c' b) f) (Hg : forall x y, g x = g y -> x = y).
  Lemma cover_queries :
    Rabs (at_row 0 (q_partition c' phi) b - at_row 0 (q_partition c psi) b) <= leak c b B + leak c' b B /\
    Rabs (at_row 0 (q_entropy c' phi) b - at_row 0 (q_entropy c psi) b) <= etol c b B + etol c' b B /\
    (small c b psi -> small c' b phi -> at_row 0 (q_max c' phi) b = at_row 0 (q_max c psi) b) /\
    forall e, row_of c e = b -> row_of c' (g e) = b -> Rabs (q_marginals c' phi (g e) - q_marginals c psi e) <= gtol c b B + gtol c' b B.
  Proof.
    destruct (row_list V R0) as (l & Hl & Hne). destruct (row_list V' R1) as (l' & Hl' & Hne'). split; [|split; [|split]].
    - destruct (@C20_partition_value c psi B V HB0 HB) as (v & E & _ & H). destruct (@C20_partition_value c' phi B V' HB0 HB') as (v' & E' & _ & H').
      rewrite E, E'. cbn [at_row]. specialize (H b l R0 Hl). specialize (H' b l' R1 Hl'). cbv zeta in H, H'.
      rewrite (cover_Z phi HE Hl Hl' HC) in H'. fold psi in H'. apply Rabs_le. lra.
    - destruct (@C17_entropy_value c psi B V HB0 HB) as (v & E & _ & H). destruct (@C17_entropy_value c' phi B V' HB0 HB') as (v' & E' & _ & H').
      rewrite E, E'. cbn [at_row]. specialize (H b l R0 Hl). specialize (H' b l' R1 Hl'). cbv zeta in H, H'.
      rewrite (cover_entropy phi HE Hl Hl' HC) in H'. fold psi in H'. fold (etol c b B) in H. fold (etol c' b B) in H'.
      apply Rabs_le_inv in H, H'. apply Rabs_le. lra.
    - intros S1 S2. apply Rle_antisym; [|now apply embed_max].
      destruct (@C14_max_is_best c psi V) as (v & E & _ & H). destruct (@C14_max_is_best c' phi V') as (v' & E' & _ & H').
      rewrite E, E'. cbn [at_row]. destruct (H b R0 S1) as (_ & Hm). destruct (H' b R1 S2) as ((s' & Hs' & ->) & _).
      destruct (HC _ Hs') as (s & Hs & <-). rewrite (@embed_sc _ _ f g phi HE s Hs). now apply Hm.
    - intros e He He'. pose proof (@C20_marginals_value c psi B V HB0 HB b l e R0 He Hl) as H.
      pose proof (@C20_marginals_value c' phi B V' HB0 HB' b l' (g e) R1 He' Hl') as H'. cbv zeta in H, H'.
      rewrite (cover_marg phi HE Hl Hl' HC e Hg) in H'. fold psi in H'. fold (gtol c b B) in H. fold (gtol c' b B) in H'.
      apply Rabs_le_inv in H, H'. apply Rabs_le. lra.
  Qed.
End Queries.

(** ** C91 *)
(** spec: the entry of a SemiMarkovCRF tensor [b, n, 1, c, c'] that plays the role of the entry
    [b, n, c, c'] of a LinearChainCRF *)
Definition width1 (e : list nat) : list nat := firstn 2 e ++ 1%nat :: skipn 2 e.
(** proof device: a tag sequence as a segmentation *)
Definition unit_segm (y : list nat) : segm := (hd 0%nat y, map (pair 1%nat) (tl y)).
Lemma width1_inj x y : width1 x = width1 y -> x = y.
Proof. unfold width1. destruct x as [|? [|? x]], y as [|? [|? y]]; cbn; congruence. Qed.
Lemma unit_parts b n c' y : segs_parts b n c' (map (pair 1%nat) y) = map (fun k => [b; (n + k)%nat; 1%nat; nth (k + 1) (c' :: y) 0%nat; nth k (c' :: y) 0%nat]) (seq 0 (length y)).
Proof.
  revert n c'. induction y as [|c y IH]; intros n c'; [reflexivity|]. cbn [map segs_parts length seq]. f_equal.
  - rewrite Nat.add_0_r. reflexivity.
  - rewrite IH, <- seq_shift, map_map. apply map_ext. intro k. rewrite <- Nat.add_assoc. cbn [Nat.add nth]. reflexivity.
Qed.
Lemma unit_embeds batch N C ls b : let c := CLin batch N C ls in let c' := CSemi batch N 2 C ls in
  embeds (spec_of c b) (spec_of c' b) unit_segm width1 /\ covers (spec_of c b) (spec_of c' b) unit_segm.
Proof.
  intros c c'. cbn [c c' spec_of]. split; [split; [|split]|]; cbn [ok prt st].
  - intros y [L F]. destruct y as [|y0 y]; [cbn [length] in L; lia|]. inversion F as [|? ? F1 F2]; subst. split; [exact F1|]. cbn [unit_segm snd tl]. split.
    + apply Forall_forall. intros s Hs. apply in_map_iff in Hs as (a & <- & Ha). rewrite Forall_forall in F2. split; [cbn; lia|now apply F2].
    + unfold widths. rewrite map_map. cbn [fst]. cbn [length] in L. clear - L. replace (list_sum (map (fun _ => 1%nat) y)) with (length y); [lia|]. clear L. induction y; cbn; auto.
  - intros y z [L F] [L' F'] E. destruct y as [|y0 y]; [cbn [length] in L; lia|]. destruct z as [|z0 z]; [cbn [length] in L'; lia|]. unfold unit_segm in E. cbn [hd tl] in E. injection E as -> E. f_equal.
    clear - E. revert z E. induction y as [|a y IH]; intros [|d z] E; try discriminate; auto. injection E as -> E. f_equal. auto.
  - intros y [L F]. destruct y as [|y0 y]; [cbn [length] in L; lia|]. unfold segm_parts, unit_segm, seq_parts. cbn [fst snd hd tl]. rewrite unit_parts, map_map. cbn [length Nat.sub]. rewrite Nat.sub_0_r. apply map_ext. intro k. reflexivity.
  - intros [y0 l] (H0 & F & W). cbn [fst snd] in *. exists (y0 :: map snd l).
    assert (U : l = map (pair 1%nat) (map snd l)).
    { clear W. induction l as [|[w a] l IH]; [reflexivity|]. inversion F as [|? ? [F1 F2] F3]; subst. cbn [map snd fst] in *. f_equal; [f_equal; lia|auto]. }
    split; [split|].
    + rewrite U in W. unfold widths in W. rewrite map_map in W. cbn [length]. replace (list_sum (map (fun _ => fst (1%nat, _)) _)) with (length (map snd l)) in W; [lia|].
      clear. induction (map snd l); cbn; auto.
    + constructor; [exact H0|]. apply Forall_forall. intros a Ha. apply in_map_iff in Ha as ([w a'] & <- & Ha). rewrite Forall_forall in F. now apply (F _ Ha).
    + unfold unit_segm. cbn [hd tl]. now rewrite <- U.
Qed.
(** segments of width 1 only: the linear chain *)
Theorem C91_semi_chain batch N C ls phi B : let c := CLin batch N C ls in let c' := CSemi batch N 2 C ls in
  valid c -> valid c' -> 0 <= B -> (forall e, Rabs (phi e) <= B) -> let psi e := phi (width1 e) in
  forall b, (b < batch)%nat ->
    Rabs (at_row 0 (q_partition c' phi) b - at_row 0 (q_partition c psi) b) <= leak c b B + leak c' b B /\
    Rabs (at_row 0 (q_entropy c' phi) b - at_row 0 (q_entropy c psi) b) <= etol c b B + etol c' b B /\
    (small c b psi -> small c' b phi -> at_row 0 (q_max c' phi) b = at_row 0 (q_max c psi) b) /\
    forall n y y', Rabs (q_marginals c' phi [b; n; 1%nat; y; y'] - q_marginals c psi [b; n; y; y']) <= gtol c b B + gtol c' b B.
Proof.
  intros c c' V V' HB0 HB psi b Hb. destruct (@unit_embeds batch N C ls b) as [E1 E2].
  destruct (@cover_queries c c' b unit_segm width1 phi B V V' (conj Hb I) (conj Hb I) HB0 (or_intror (fun e => HB (width1 e))) (or_intror HB) E1 E2 width1_inj) as (H1 & H2 & H3 & H4).
  split; [exact H1|]. split; [exact H2|]. split; [exact H3|]. intros n y y'. now apply (H4 [b; n; y; y']).
Qed.
Print Assumptions C91_semi_chain.

(** a larger limit on the width adds segmentations, and changes nothing once every segment fits *)
Theorem C91_semi_width batch N K K' C ls phi B : let c := CSemi batch N K C ls in let c' := CSemi batch N K' C ls in
  valid c -> valid c' -> (K <= K')%nat -> 0 <= B -> (forall e, Rabs (phi e) <= B) ->
  forall b, (b < batch)%nat ->
    at_row 0 (q_partition c phi) b <= at_row 0 (q_partition c' phi) b + leak c b B /\
    (small c b phi -> small c' b phi -> at_row 0 (q_max c phi) b <= at_row 0 (q_max c' phi) b) /\
    ((lc_len N ls b <= K)%nat ->
      Rabs (at_row 0 (q_partition c' phi) b - at_row 0 (q_partition c phi) b) <= leak c b B + leak c' b B /\
      Rabs (at_row 0 (q_entropy c' phi) b - at_row 0 (q_entropy c phi) b) <= etol c b B + etol c' b B /\
      (small c b phi -> small c' b phi -> at_row 0 (q_max c' phi) b = at_row 0 (q_max c phi) b) /\
      forall e, row_of c e = b -> Rabs (q_marginals c' phi e - q_marginals c phi e) <= gtol c b B + gtol c' b B).
Proof.
  intros c c' V V' HK HB0 HB b Hb.
  assert (E : embeds (spec_of c b) (spec_of c' b) (fun s => s) (fun e => e)).
  { split; [|split].
    - intros s (H1 & H2 & H3). split; [exact H1|]. split; [|exact H3]. eapply Forall_impl; [|exact H2]. intros [w a] [Hw Ha]. split; auto. cbn [fst] in *. lia.
    - auto.
    - intros s _. cbn. symmetry. apply map_id. }
  assert (B1 : forall c, bounded c B phi) by (intro; now right).
  split; [|split].
  - exact (embed_partition V V' (conj Hb I) (conj Hb I) HB0 (B1 c) (B1 c') E).
  - intros S1 S2. exact (embed_max V V' (conj Hb I) (conj Hb I) E S1 S2).
  - intro HL. assert (E2 : covers (spec_of c b) (spec_of c' b) (fun s => s)).
    { intros s (H1 & H2 & H3). exists s. split; [|reflexivity]. split; [exact H1|]. split; [|exact H3]. destruct V as (HN & HK2 & _).
      clear - H2 H3 HL HK2. destruct s as [y l]. cbn [snd] in *.
      assert (Q : forall p, In p l -> (fst p <= widths l)%nat).
      { clear. induction l as [|p l IH]; [intros _ []|]. intros q [->|Hq]; unfold widths in *; cbn [map list_sum fold_right]; [lia|]. specialize (IH q Hq). unfold list_sum in IH. lia. }
      rewrite Forall_forall in *. intros p Hp. destruct (H2 p Hp) as [Hw Ha]. specialize (Q p Hp). split; auto. lia. }
    destruct (@cover_queries c c' b (fun s => s) (fun e => e) phi B V V' (conj Hb I) (conj Hb I) HB0 (B1 c) (B1 c') E E2 ltac:(auto)) as (H1 & H2 & H3 & H4).
    split; [exact H1|]. split; [exact H2|]. split; [exact H3|]. intros e He. now apply H4.
Qed.
Print Assumptions C91_semi_width.

(** trees with one root are trees *)
Theorem C91_one_root batch n lab ls phi : let c := CDep false batch n lab ls in let c' := CDep true batch n lab ls in
  valid c -> valid c' -> forall b, row_ok c b ->
    at_row 0 (q_partition c phi) b <= at_row 0 (q_partition c' phi) b /\
    at_row 0 (q_max c phi) b <= at_row 0 (q_max c' phi) b.
Proof.
  intros c c' V V' b Hb. assert (Hb' : row_ok c' b) by (split; [apply Hb|exact I]).
  assert (E : exists f, embeds (spec_of c b) (spec_of c' b) f (fun e => e)).
  { unfold c, c'. destruct lab as [L|]; cbn [spec_of]; exists (fun s => s); (split; [|split]); cbn [ok prt st].
    - intros s [H _]. split; [exact H|discriminate].
    - auto.
    - intros s _. symmetry. apply map_id.
    - intros s [H _]. split; [exact H|discriminate].
    - auto.
    - intros s _. symmetry. apply map_id. }
  destruct E as (f & E). split.
  - pose proof (@embed_partition c c' b f (fun e => e) phi 0 V V' Hb Hb' (Rle_refl 0) (or_introl eq_refl) (or_introl eq_refl) E) as H. change (leak c b 0) with 0 in H. rewrite Rplus_0_r in H. exact H.
  - exact (@embed_max c c' b f (fun e => e) phi V V' Hb Hb' E (or_introl eq_refl) (or_introl eq_refl)).
Qed.
Print Assumptions C91_one_root.

(** ** Labels that no other potential sees *)
(** spec: the call [c0] is the call [c] without its [L] labels; the entry [b, i, j, l] of [c]
    becomes the entry [b, i, j] followed by [tl] (a TreeCRF tensor keeps a label axis of size 1) *)
Inductive unlabels : call -> nat -> list nat -> call -> Prop :=
| unlabels_tree batch N NT ls : unlabels (CTree batch N NT ls) NT [0%nat] (CTree batch N 1 ls)
| unlabels_dep mr batch n L ls : unlabels (CDep mr batch n (Some L) ls) L [] (CDep mr batch n None ls).
Lemma unlabels_valid c L tl c0 : unlabels c L tl c0 -> valid c -> valid c0 /\ (0 < L)%nat /\ zero_free c = true /\ zero_free c0 = true /\
  (forall b, row_ok c b -> row_ok c0 b) /\ (forall b i j l, row_of c [b; i; j; l] = b /\ row_of c0 (b :: i :: j :: tl) = b).
Proof.
  intros [batch N NT ls|mr batch n L' ls] V; cbn in V |- *.
  - destruct V as (V1 & V2 & V3). unfold ck_args. intuition lia.
  - destruct V as (V1 & V2). split; [split; [exact V1|discriminate]|]. split; [destruct L'; [congruence|lia]|]. intuition.
Qed.
Section SumOut.
  Variables (S : csr) (NT b : nat) (pot pot' : list nat -> S).
  Lemma tree_labels : (forall i j, pot' [b; i; j; 0%nat] = Sum S (fun a => pot [b; i; j; a]) (seq 0 NT)) ->
    forall k i, TT S NT b pot i k = TT S 1 b pot' i k.
  Proof.
    intro H. assert (Hr : forall i j, ck_red (csr_ops S) NT pot b i j = ck_red (csr_ops S) 1 pot' b i j).
    { intros i j. rewrite !red_sum. cbn [seq]. rewrite Sum_one. symmetry. apply H. }
    intro k. induction k as [k IH] using lt_wf_ind. intro i. destruct k as [|k]; [now rewrite !TT_0|].
    rewrite !TT_rec by lia. rewrite Hr. f_equal. apply Sum_seq_ext. intros m Hm. now rewrite !IH by lia.
  Qed.
  Lemma dep_labels L : (forall i j, pot' [b; i; j] = Sum S (fun a => pot [b; i; j; a]) (seq 0 L)) ->
    forall h s, Sum S (fun hl => Prod S pot (ldep_parts_from b s hl)) (labelings L h) = Prod S pot' (dep_parts_from b s h).
  Proof.
    intro H. induction h as [|x h IH]; intro s; cbn [labelings dep_parts_from]; [apply Sum_one|].
    rewrite Sum_flat_map, Prod_cons, <- IH.
    replace (pot' (dep_part b s x [])) with (Sum S (fun l => pot (dep_part b s x [l])) (seq 0 L)) by (destruct x; cbn [dep_part]; now rewrite H).
    rewrite Sum_mul. apply Sum_ext. intro l. rewrite Sum_map. apply Sum_ext. intro hl. cbn [ldep_parts_from fst snd]. apply Prod_cons.
  Qed.
End SumOut.
Lemma unlabels_sum c L tl c0 (S : csr) (pot pot' : list nat -> S) b : unlabels c L tl c0 -> valid c -> row_ok c b ->
  (forall i j, pot' (b :: i :: j :: tl) = Sum S (fun l => pot [b; i; j; l]) (seq 0 L)) ->
  forall l l0, Enumerates (ok (spec_of c b)) l -> Enumerates (ok (spec_of c0 b)) l0 ->
  Sum S (fun s => Prod S pot (prt (spec_of c b) s)) l = Sum S (fun s => Prod S pot' (prt (spec_of c0 b) s)) l0.
Proof.
  intros [batch N NT ls|mr batch n L' ls] V Hb H l l0 Hl Hl0; cbn [spec_of ok prt st] in *.
  - destruct V as (V1 & V2 & _). set (k := eff_len N (lc_len N ls b)) in *. assert (Hk : k = Datatypes.S (k - 1)) by (unfold k, eff_len; destruct (Nat.eqb_spec (lc_len N ls b) 0); lia).
    rewrite Hk in Hl, Hl0. rewrite <- (Sum_enum S _ (ltrees_enum NT (le_n _)) Hl), <- (Sum_enum S _ (ltrees_enum 1 (le_n _)) Hl0). now apply (@tree_labels S NT b pot pot').
  - destruct Hb as [Hb Hr]. assert (Hd : mr = false -> (1 <= lc_len n ls b)%nat) by (intros ->; exact Hr).
    rewrite <- (Sum_enum S _ (dep_list_enum Hd) Hl0).
    assert (E : Enumerates (ldep_ok mr (lc_len n ls b) L') (flat_map (labelings L') (dep_list mr (lc_len n ls b)))).
    { eapply Enumerates_ext; [|apply labelings_enum, dep_list_enum, Hd]. intro hl. unfold dep_ok, ldep_ok, is_lproj, lsingle_root. tauto. }
    rewrite <- (Sum_enum S _ E Hl), Sum_flat_map. apply Sum_ext. intro h. now apply (@dep_labels S b pot pot').
Qed.

Theorem C91_labels_semiring c L tl c0 (S : csr) (pot pot' : list nat -> S) : valid c -> unlabels c L tl c0 ->
  (forall b i j, pot' (b :: i :: j :: tl) = Sum S (fun l => pot [b; i; j; l]) (seq 0 L)) ->
  exists v v0, run c (csr_ops S) pot = Ok v /\ run c0 (csr_ops S) pot' = Ok v0 /\
    forall b d, row_ok c b -> nth b v d = nth b v0 d.
Proof.
  intros V U H. destruct (unlabels_valid U V) as (V0 & _ & _ & _ & HR & _).
  destruct (run_ok _ (csr_ops S) pot V) as (v & E & _). destruct (run_ok _ (csr_ops S) pot' V0) as (v0 & E0 & _).
  exists v, v0. split; [exact E|]. split; [exact E0|]. intros b d Hb.
  destruct (row_list V Hb) as (l & Hl & _). destruct (row_list V0 (HR b Hb)) as (l0 & Hl0 & _).
  rewrite (@run_sum _ b S pot d v _ V Hb E Hl), (@run_sum _ b S pot' d v0 _ V0 (HR b Hb) E0 Hl0). apply (@unlabels_sum c L tl c0 S pot pot' b U V Hb (H b) l l0 Hl Hl0).
Qed.
Print Assumptions C91_labels_semiring.
Theorem C91_labels_partition c L tl c0 phi phi' b : valid c -> unlabels c L tl c0 -> row_ok c b ->
  (forall i j, phi' (b :: i :: j :: tl) = ln (RSum (fun l => exp (phi [b; i; j; l])) (seq 0 L))) ->
  at_row 0 (q_partition c phi) b = at_row 0 (q_partition c0 phi') b.
Proof.
  intros V U Hb H. destruct (unlabels_valid U V) as (V0 & HL & Z & Z0 & HR & _). specialize (HR b Hb).
  destruct (row_list V Hb) as (l & Hl & _). destruct (row_list V0 HR) as (l0 & Hl0 & _).
  destruct (@C20_partition_value c phi 0 V (Rle_refl 0) (or_introl Z)) as (v & E & _ & Hv). destruct (@C20_partition_value c0 phi' 0 V0 (Rle_refl 0) (or_introl Z0)) as (v0 & E0 & _ & Hv0).
  rewrite E, E0. cbn [at_row]. specialize (Hv b l Hb Hl). specialize (Hv0 b l0 HR Hl0). cbv zeta in Hv, Hv0. unfold leak in Hv, Hv0. rewrite Z in Hv. rewrite Z0 in Hv0.
  assert (EZ : ZS (prt (spec_of c b)) l phi = ZS (prt (spec_of c0 b)) l0 phi').
  { unfold ZS, sc. rewrite (Sum_ext R_csr _ (fun s => RProd (fun e => exp (phi e)) (prt (spec_of c b) s))) by (intro; apply exp_RSum).
    rewrite (Sum_ext R_csr (fun s => exp (RSum phi' (prt (spec_of c0 b) s))) (fun s => RProd (fun e => exp (phi' e)) (prt (spec_of c0 b) s))) by (intro; apply exp_RSum).
    apply (@unlabels_sum c L tl c0 R_csr (fun e => exp (phi e)) (fun e => exp (phi' e)) b U V Hb); auto.
    intros i j. cbv beta. rewrite H. apply exp_ln. apply RSum_pos; [destruct L; [lia|discriminate]|intros; apply exp_pos]. }
  rewrite EZ in Hv. lra.
Qed.
Print Assumptions C91_labels_partition.

Lemma one_changed (f : nat -> R) (l : nat) (a : R) s : NoDup s -> In l s ->
  RSum (fun m => if Nat.eq_dec m l then a else f m) s = RSum f s - f l + a.
Proof.
  intro N. induction N as [|x s Hx N IH]; intros HI; [destruct HI|]. rewrite !RSum_cons. destruct (Nat.eq_dec x l) as [->|Hn].
  - rewrite (Sum_ext_in R_csr _ f s); [simpl; ring|]. intros m Hm. destruct (Nat.eq_dec m l) as [->|]; [contradiction|reflexivity].
  - destruct HI as [->|HI]; [congruence|]. rewrite (IH HI). simpl. ring.
Qed.
Lemma log_shift (T a : R) : 0 < T -> derivable_pt_lim (fun x => ln (T - exp a + exp x)) a (exp a / T).
Proof.
  intro HT. assert (E : T - exp a + exp a = T) by ring. replace (exp a / T) with (/ (T - exp a + exp a) * (0 + exp a)) by (rewrite E; unfold Rdiv; ring).
  apply (derivable_pt_lim_comp (fun x => T - exp a + exp x) ln).
  - apply (derivable_pt_lim_plus (fun _ => T - exp a) exp); [apply derivable_pt_lim_const|apply derivable_pt_lim_exp].
  - apply derivable_pt_lim_ln. now rewrite E.
Qed.
Lemma log_shift_at (T a : R) : ln (T - exp a + exp a) = ln T.
Proof. f_equal. ring. Qed.
(** the marginal of a labelled part is the marginal of the part without label, times the share of the label *)
Theorem C91_labels_marginals c L tl c0 phi phi' b : valid c -> unlabels c L tl c0 -> row_ok c b ->
  (forall i j, phi' (b :: i :: j :: tl) = ln (RSum (fun l => exp (phi [b; i; j; l])) (seq 0 L))) ->
  forall i j, (forall l, (l < L)%nat -> q_marginals c phi [b; i; j; l]
      = q_marginals c0 phi' (b :: i :: j :: tl) * (exp (phi [b; i; j; l]) / RSum (fun m => exp (phi [b; i; j; m])) (seq 0 L))) /\
    RSum (fun l => q_marginals c phi [b; i; j; l]) (seq 0 L) = q_marginals c0 phi' (b :: i :: j :: tl).
Proof.
  intros V U Hb H i j. destruct (unlabels_valid U V) as (V0 & HL & Z & Z0 & HR & Hrow). specialize (HR b Hb).
  set (T := RSum (fun m => exp (phi [b; i; j; m])) (seq 0 L)).
  assert (HT : 0 < T) by (apply RSum_pos; [destruct L; [lia|discriminate]|intros; apply exp_pos]).
  assert (M : forall l, (l < L)%nat -> q_marginals c phi [b; i; j; l] = q_marginals c0 phi' (b :: i :: j :: tl) * (exp (phi [b; i; j; l]) / T)).
  { intros l Hl. set (e := [b; i; j; l]). set (e0 := b :: i :: j :: tl).
    destruct (@C20_marginals_gradient c phi 0 V (Rle_refl 0) (or_introl Z) b e Hb (proj1 (Hrow b i j l))) as (D & HD & ED).
    destruct (@C20_marginals_gradient c0 phi' 0 V0 (Rle_refl 0) (or_introl Z0) b e0 HR (proj2 (Hrow b i j l))) as (D0 & HD0 & ED0).
    unfold leak in ED, ED0. rewrite Z in ED. rewrite Z0 in ED0.
    replace (q_marginals c phi e) with D by lra. replace (q_marginals c0 phi' e0) with D0 by lra.
    set (h := fun x => ln (T - exp (phi e) + exp x)).
    assert (Hh : h (phi e) = phi' e0) by (unfold h, e0; rewrite H; apply log_shift_at).
    assert (Dh : derivable_pt_lim h (phi e) (exp (phi e) / T)).
    { now apply log_shift. }
    rewrite <- Hh in HD0. apply (uniqueness_limite _ _ _ _ HD).
    eapply dlim_ext; [|exact (derivable_pt_lim_comp h _ _ _ _ Dh HD0)].
    intro x. unfold comp. symmetry. apply (C91_labels_partition (upd phi e x) (upd phi' e0 (h x)) V U Hb). intros i' j'.
    unfold upd, e, e0. destruct (list_eq_dec Nat.eq_dec (b :: i :: j :: tl) (b :: i' :: j' :: tl)) as [E|N].
    - injection E as -> ->. unfold h. f_equal. unfold T. fold e. unfold e.
      rewrite <- (@one_changed (fun m => exp (phi [b; i'; j'; m])) l (exp x) (seq 0 L) (seq_NoDup _ _)) by (apply in_seq; lia).
      apply (Sum_ext R_csr). intro m. destruct (Nat.eq_dec m l) as [->|Hm].
      + now destruct (list_eq_dec Nat.eq_dec [b; i'; j'; l] [b; i'; j'; l]).
      + destruct (list_eq_dec Nat.eq_dec [b; i'; j'; l] [b; i'; j'; m]) as [E|_]; [congruence|reflexivity].
    - rewrite H. f_equal. apply (Sum_ext R_csr). intro m. destruct (list_eq_dec Nat.eq_dec [b; i; j; l] [b; i'; j'; m]) as [E|_]; [congruence|reflexivity]. }
  split; [exact M|].
  rewrite (Sum_ext_in R_csr _ (fun l => q_marginals c0 phi' (b :: i :: j :: tl) * / T * exp (phi [b; i; j; l]))).
  2:{ intros l Hl. apply in_seq in Hl. rewrite M by lia. unfold Rdiv. ring. }
  rewrite RSum_scal. fold T. field. lra.
Qed.
Print Assumptions C91_labels_marginals.

(** spec: the number of words the tensor has room for *)
Definition side (c : call) : nat := match c with CTree _ N _ _ => N | CDep _ _ n _ _ => n | _ => 0%nat end.
(** spec: entropy of the label of the part [b, i, j], in nats *)
Definition label_entropy (L : nat) (phi : list nat -> R) (b i j : nat) : R :=
  let share l := exp (phi [b; i; j; l]) / RSum (fun m => exp (phi [b; i; j; m])) (seq 0 L) in
  - RSum (fun l => share l * ln (share l)) (seq 0 L).
Lemma indices_sum (f : list nat -> R) n sh : RSum f (Query.indices (n :: sh)) = RSum (fun i => RSum (fun e => f (i :: e)) (Query.indices sh)) (seq 0 n).
Proof.
  change (Query.indices (n :: sh)) with (flat_map (fun i => map (cons i) (Query.indices sh)) (seq 0 n)).
  rewrite (Sum_flat_map R_csr). apply (Sum_ext R_csr). intro i. apply (Sum_map R_csr).
Qed.
Lemma unlabels_entries c L tl c0 b (f f0 : list nat -> R) : unlabels c L tl c0 ->
  RSum f (entries c b) = RSum (fun i => RSum (fun j => RSum (fun l => f [b; i; j; l]) (seq 0 L)) (seq 0 (side c))) (seq 0 (side c)) /\
  RSum f0 (entries c0 b) = RSum (fun i => RSum (fun j => f0 (b :: i :: j :: tl)) (seq 0 (side c))) (seq 0 (side c)).
Proof.
  intros [batch N NT ls|mr batch n L' ls]; unfold entries, event_shape; cbn [side]; split;
  (rewrite (Sum_map R_csr), indices_sum; apply (Sum_ext R_csr); intro i; rewrite indices_sum; apply (Sum_ext R_csr); intro j).
  - rewrite indices_sum. apply (Sum_ext R_csr). intro l. exact (RSum_one (fun e => f (b :: i :: j :: l :: e)) []).
  - rewrite indices_sum. cbn [seq]. rewrite RSum_one. exact (RSum_one (fun e => f0 (b :: i :: j :: 0%nat :: e)) []).
  - rewrite indices_sum. apply (Sum_ext R_csr). intro l. exact (RSum_one (fun e => f (b :: i :: j :: l :: e)) []).
  - exact (RSum_one (fun e => f0 (b :: i :: j :: e)) []).
Qed.
Lemma entropy_exact c phi b : valid c -> row_ok c b -> zero_free c = true ->
  at_row 0 (q_entropy c phi) b = at_row 0 (q_partition c phi) b - RSum (fun e => q_marginals c phi e * phi e) (entries c b).
Proof.
  intros V Hb Z. destruct (@C56_entropy_identity c phi 0 V (Rle_refl 0) (or_introl Z)) as (h & p & Eh & Ep & H).
  specialize (H b (entries c b) Hb (entries_nodup _ _) (fun e => @entries_row _ _ e) (fun s Hs => @parts_entries c b s V Hb Hs)). unfold leak in H. rewrite Z, Rmult_0_r in H.
  rewrite Eh, Ep. cbn [at_row]. apply Rminus_diag_uniq. pose proof (Rabs_pos (nth b h 0 - (nth b p 0 - RSum (fun e => q_marginals c phi e * phi e) (entries c b)))) as H0.
  destruct (Req_dec (nth b h 0 - (nth b p 0 - RSum (fun e => q_marginals c phi e * phi e) (entries c b))) 0) as [E|N]; [exact E|]. apply Rabs_pos_lt in N. exfalso. apply (Rlt_not_le _ _ N H).
Qed.
Lemma label_split (m0 T : R) (L : nat) (v : nat -> R) : (0 < L)%nat -> T = RSum (fun l => exp (v l)) (seq 0 L) ->
  RSum (fun l => m0 * (exp (v l) / T) * v l) (seq 0 L) = m0 * ln T + m0 * RSum (fun l => exp (v l) / T * ln (exp (v l) / T)) (seq 0 L).
Proof.
  intros HL HT. assert (HP : 0 < T) by (rewrite HT; apply RSum_pos; [destruct L; [lia|discriminate]|intros; apply exp_pos]).
  rewrite (Sum_ext R_csr _ (fun l => m0 * (exp (v l) / T * ln (exp (v l) / T)) + m0 * ln T / T * exp (v l))).
  - rewrite RSum_add, !RSum_scal, <- HT. assert (E : m0 * ln T / T * T = m0 * ln T) by (field; lra). rewrite E. apply Rplus_comm.
  - intro l. unfold Rdiv. rewrite ln_mult, ln_exp, ln_Rinv by (try apply Rinv_0_lt_compat; try apply exp_pos; exact HP). simpl. ring.
Qed.
(** the entropy of the labels comes on top of the entropy of the structures *)
Theorem C91_labels_entropy c L tl c0 phi phi' b : valid c -> unlabels c L tl c0 -> row_ok c b ->
  (forall i j, phi' (b :: i :: j :: tl) = ln (RSum (fun l => exp (phi [b; i; j; l])) (seq 0 L))) ->
  at_row 0 (q_entropy c phi) b = at_row 0 (q_entropy c0 phi') b +
    RSum (fun i => RSum (fun j => q_marginals c0 phi' (b :: i :: j :: tl) * label_entropy L phi b i j) (seq 0 (side c))) (seq 0 (side c)).
Proof.
  intros V U Hb H. destruct (unlabels_valid U V) as (V0 & HL & Z & Z0 & HR & _). specialize (HR b Hb).
  rewrite (@entropy_exact c phi b V Hb Z), (@entropy_exact c0 phi' b V0 HR Z0), (C91_labels_partition phi phi' V U Hb H).
  rewrite (proj1 (@unlabels_entries c L tl c0 b (fun e => q_marginals c phi e * phi e) (fun _ => 0) U)), (proj2 (@unlabels_entries c L tl c0 b (fun _ => 0) (fun e => q_marginals c0 phi' e * phi' e) U)).
  unfold Rminus. rewrite Rplus_assoc. f_equal.
  assert (G : forall (F G K : nat -> nat -> R) n, (forall i j, F i j = G i j - K i j) ->
    - RSum (fun i => RSum (fun j => F i j) (seq 0 n)) (seq 0 n) = - RSum (fun i => RSum (fun j => G i j) (seq 0 n)) (seq 0 n) + RSum (fun i => RSum (fun j => K i j) (seq 0 n)) (seq 0 n)).
  { intros F G K n HF. rewrite (Sum_ext R_csr _ (fun i => RSum (fun j => G i j) (seq 0 n) - RSum (fun j => K i j) (seq 0 n))).
    - rewrite RSum_sub. simpl. ring.
    - intro i. rewrite <- RSum_sub. apply (Sum_ext R_csr). intro j. apply HF. }
  apply G. intros i j.
  rewrite (Sum_ext_in R_csr _ (fun l => q_marginals c0 phi' (b :: i :: j :: tl) * (exp (phi [b; i; j; l]) / RSum (fun m => exp (phi [b; i; j; m])) (seq 0 L)) * phi [b; i; j; l])).
  - etransitivity; [apply (@label_split (q_marginals c0 phi' (b :: i :: j :: tl)) _ L (fun l => phi [b; i; j; l]) HL eq_refl)|].
    rewrite H. unfold label_entropy. simpl. ring.
  - intros l Hl. apply in_seq in Hl. f_equal. apply (C91_labels_marginals phi phi' V U Hb H i j). lia.
Qed.
Print Assumptions C91_labels_entropy.

Lemma tree_best NT phi phi' b : (forall i j, (exists l, (l < NT)%nat /\ phi' [b; i; j; 0%nat] = phi [b; i; j; l]) /\ forall l, (l < NT)%nat -> phi [b; i; j; l] <= phi' [b; i; j; 0%nat]) ->
  (forall t i, lbounded NT t -> exists t0, lsize t0 = lsize t /\ lbounded 1 t0 /\ RSum phi (lparts b i t) <= RSum phi' (lparts b i t0)) /\
  (forall t0 i, lbounded 1 t0 -> exists t, lsize t = lsize t0 /\ lbounded NT t /\ RSum phi (lparts b i t) = RSum phi' (lparts b i t0)).
Proof.
  intro H. split.
  - induction t as [a|a l IHl r IHr]; intros i Hb.
    + exists (LLeaf 0). cbn [lsize lbounded lparts]. split; [reflexivity|]. split; [lia|]. rewrite !RSum_cons. apply Rplus_le_compat_r. now apply H.
    + destruct Hb as (Ha & Hl & Hr). destruct (IHl i Hl) as (l0 & S1 & B1 & R1). destruct (IHr (i + lsize l)%nat Hr) as (r0 & S2 & B2 & R2).
      exists (LNode 0 l0 r0). cbn [lsize lbounded lparts]. split; [lia|]. split; [auto|]. rewrite !RSum_cons, !RSum_app, S1, S2.
      apply Rplus_le_compat; [now apply H|]. now apply Rplus_le_compat.
  - induction t0 as [a|a l IHl r IHr]; intros i Hb.
    + cbn [lbounded] in Hb. replace a with 0%nat by lia. destruct (proj1 (H i i)) as (m & Hm & E). exists (LLeaf m). cbn [lsize lbounded lparts]. split; [reflexivity|]. split; [exact Hm|].
      rewrite !RSum_cons, E. reflexivity.
    + destruct Hb as (Ha & Hl & Hr). replace a with 0%nat by lia. destruct (IHl i Hl) as (l0 & S1 & B1 & R1). destruct (IHr (i + lsize l)%nat Hr) as (r0 & S2 & B2 & R2).
      destruct (proj1 (H i (i + (lsize l + lsize r) - 1)%nat)) as (m & Hm & E).
      exists (LNode m l0 r0). cbn [lsize lbounded lparts]. split; [lia|]. split; [auto|]. rewrite !RSum_cons, !RSum_app, S1, S2, R1, R2, E. reflexivity.
Qed.
Lemma dep_best L phi phi' b : (forall i j, (exists l, (l < L)%nat /\ phi' [b; i; j] = phi [b; i; j; l]) /\ forall l, (l < L)%nat -> phi [b; i; j; l] <= phi' [b; i; j]) ->
  (forall hl s, Forall (fun p => (snd p < L)%nat) hl -> RSum phi (ldep_parts_from b s hl) <= RSum phi' (dep_parts_from b s (map fst hl))) /\
  (forall h s, exists hl, map fst hl = h /\ Forall (fun p => (snd p < L)%nat) hl /\ RSum phi (ldep_parts_from b s hl) = RSum phi' (dep_parts_from b s h)).
Proof.
  intro H. split.
  - induction hl as [|[x l] hl IH]; intros s F; [apply Rle_refl|]. inversion F as [|? ? F1 F2]; subst. cbn [map fst ldep_parts_from dep_parts_from snd] in *. rewrite !RSum_cons.
    apply Rplus_le_compat; [|now apply IH]. destruct x; now apply H.
  - induction h as [|x h IH]; intro s; [exists []; auto|]. destruct (IH (S s)) as (hl & E & F & R1).
    assert (Q : exists l, (l < L)%nat /\ phi' (dep_part b s x []) = phi (dep_part b s x [l])) by (destruct x; apply H). destruct Q as (l & Hl & El).
    exists ((x, l) :: hl). cbn [map fst ldep_parts_from dep_parts_from snd]. split; [now rewrite E|]. split; [now constructor|]. rewrite !RSum_cons, R1, El. reflexivity.
Qed.
(** the best structure takes the best label of every part *)
Theorem C91_labels_max c L tl c0 phi phi' b : valid c -> unlabels c L tl c0 -> row_ok c b ->
  (forall i j, (exists l, (l < L)%nat /\ phi' (b :: i :: j :: tl) = phi [b; i; j; l]) /\
    forall l, (l < L)%nat -> phi [b; i; j; l] <= phi' (b :: i :: j :: tl)) ->
  at_row 0 (q_max c phi) b = at_row 0 (q_max c0 phi') b.
Proof.
  intros V U Hb H. destruct (unlabels_valid U V) as (V0 & HL & Z & Z0 & HR & _). specialize (HR b Hb).
  destruct (@C14_max_is_best c phi V) as (v & E & _ & Hv). destruct (@C14_max_is_best c0 phi' V0) as (v0 & E0 & _ & Hv0).
  rewrite E, E0. cbn [at_row]. destruct (Hv b Hb (or_introl Z)) as ((s & Hs & Es) & Hm). destruct (Hv0 b HR (or_introl Z0)) as ((s0 & Hs0 & Es0) & Hm0).
  clear E E0 Hv Hv0. destruct U as [batch N NT ls|mr batch n L' ls]; cbn [spec_of ok prt st] in *; unfold sc in *; apply Rle_antisym.
  - rewrite Es. destruct Hs as [Hs1 Hs2]. destruct (proj1 (@tree_best _ _ _ _ H) s 0%nat Hs2) as (t0 & T1 & T2 & T3). eapply Rle_trans; [exact T3|]. apply Hm0. split; congruence.
  - rewrite Es0. destruct Hs0 as [Hs1 Hs2]. destruct (proj2 (@tree_best _ _ _ _ H) s0 0%nat Hs2) as (t & T1 & T2 & <-). apply Hm. split; congruence.
  - rewrite Es. destruct Hs as [[Hs1 Hs2] Hs3]. eapply Rle_trans; [apply (proj1 (@dep_best _ _ _ _ H) s 0%nat Hs2)|]. apply Hm0. split; [exact Hs1|exact Hs3].
  - rewrite Es0. destruct Hs0 as [Hs1 Hs2]. destruct (proj2 (@dep_best _ _ _ _ H) s0 0%nat) as (hl & T1 & T2 & T3). unfold dep_parts. rewrite <- T3. apply Hm.
    unfold ldep_ok, is_lproj, lsingle_root. rewrite T1. auto.
Qed.
Print Assumptions C91_labels_max.

(** ** Concrete calls that meet the hypotheses *)
(** example: a semi-Markov call with segments of width 1, the shape of [ex_lin] *)
Definition ex_unit := CSemi 2 4 2 3 (Some [4; 2])%nat.
(** example: [ex_semi] with segments of up to 6 words *)
Definition ex_wide := CSemi 2 5 7 2 (Some [3; 5])%nat.
(** example: [ex_dep] with any number of roots *)
Definition ex_roots := CDep true 2 4 (Some 2%nat) (Some [4; 2])%nat.
Example ex_C91_calls : valid ex_lin /\ valid ex_unit /\ valid ex_semi /\ valid ex_wide /\ valid ex_dep /\ valid ex_roots /\ valid ex_tree /\
  (forall b, small ex_lin b ex_phi /\ small ex_unit b ex_phi /\ small ex_semi b ex_phi /\ small ex_wide b ex_phi) /\
  (forall b, (b < 2)%nat -> row_ok ex_dep b /\ row_ok ex_tree b).
Proof.
  assert (HS : forall c b, (degree c b <= 8)%nat -> small c b ex_phi).
  { intros c b H. right. exists 3. split; [apply ex_phi_abs|]. apply le_INR in H.
    change 8%nat with (2 * (2 * 2))%nat in H. rewrite !mult_INR in H. simpl INR in H. lra. }
  do 7 (split; [vm_compute; repeat first [lia | reflexivity | discriminate | split | apply Forall_cons | apply Forall_nil]|]). split.
  - intro b. repeat split; apply HS; vm_compute; lia.
  - apply ex_row; (split; (split; [simpl; lia|vm_compute; (exact I || lia)])).
Qed.
(** the two classes find the same best score, and a segment of width 1 of the second word with label 2
    after label 0 has the marginal of that transition *)
Example ex_C91_semi_chain : at_row 0 (q_max ex_unit ex_phi) 0 = at_row 0 (q_max ex_lin (fun e => ex_phi (width1 e))) 0 /\
  Rabs (q_marginals ex_unit ex_phi [0; 1; 1; 2; 0]%nat - q_marginals ex_lin (fun e => ex_phi (width1 e)) [0; 1; 2; 0]%nat) <= gtol ex_lin 0 3 + gtol ex_unit 0 3.
Proof.
  destruct ex_C91_calls as (V1 & V2 & _ & _ & _ & _ & _ & HS & _).
  destruct (@C91_semi_chain 2 4 3 (Some [4; 2])%nat ex_phi 3 V1 V2 ltac:(lra) ex_phi_abs 0 ltac:(lia)) as (_ & _ & H3 & H4). split; [|apply H4].
  apply H3; [|apply HS]. right. exists 3. split; [intro; apply ex_phi_abs|]. unfold degree. replace (INR (2 ^ Nat.log2_up (4 - 1))) with 4 by (simpl; lra). lra.
Qed.
(** the first sentence has 3 words, so widths up to 2 are all it needs; the second has 5 *)
Example ex_C91_semi_width : at_row 0 (q_max ex_wide ex_phi) 0 = at_row 0 (q_max ex_semi ex_phi) 0 /\
  at_row 0 (q_max ex_semi ex_phi) 1 <= at_row 0 (q_max ex_wide ex_phi) 1.
Proof.
  destruct ex_C91_calls as (_ & _ & V1 & V2 & _ & _ & _ & HS & _). split.
  - destruct (@C91_semi_width 2 5 3 7 2 (Some [3; 5])%nat ex_phi 3 V1 V2 ltac:(lia) ltac:(lra) ex_phi_abs 0 ltac:(lia)) as (_ & _ & H).
    destruct H as (_ & _ & H & _); [vm_compute; lia|]. apply H; apply HS.
  - destruct (@C91_semi_width 2 5 3 7 2 (Some [3; 5])%nat ex_phi 3 V1 V2 ltac:(lia) ltac:(lra) ex_phi_abs 1 ltac:(lia)) as (_ & H & _). apply H; apply HS.
Qed.
Example ex_C91_one_root : at_row 0 (q_max ex_dep ex_phi) 1 <= at_row 0 (q_max ex_roots ex_phi) 1.
Proof. destruct ex_C91_calls as (_ & _ & _ & _ & V1 & V2 & _ & _ & HR). apply (@C91_one_root 2 4 (Some 2%nat) (Some [4; 2])%nat ex_phi V1 V2 1). apply (HR 1%nat). lia. Qed.
(** the two labels of every bracket and every arc have potentials 3 and -2 *)
Example ex_C91_labels b i j : ln (RSum (fun l => exp (ex_phi [b; i; j; l])) (seq 0 2)) = ln (exp 3 + exp (-2)) /\
  (exists l, (l < 2)%nat /\ 3 = ex_phi [b; i; j; l]) /\ forall l, (l < 2)%nat -> ex_phi [b; i; j; l] <= 3.
Proof.
  assert (Hp : forall l, ex_phi [b; i; j; l] = if Nat.even (b + i + j + l) then 3 else -2).
  { intro l. unfold ex_phi, list_sum. cbn [fold_right]. rewrite Nat.add_0_r, !Nat.add_assoc. reflexivity. }
  assert (H0 : ex_phi [b; i; j; 0%nat] = if Nat.even (b + i + j) then 3 else -2) by (rewrite Hp, Nat.add_0_r; reflexivity).
  assert (H1 : ex_phi [b; i; j; 1%nat] = if Nat.even (b + i + j) then -2 else 3).
  { rewrite Hp, Nat.add_1_r, Nat.even_succ, <- Nat.negb_even. now destruct (Nat.even (b + i + j)). }
  split; [|split].
  - f_equal. change (exp (ex_phi [b; i; j; 0%nat]) + (exp (ex_phi [b; i; j; 1%nat]) + 0) = exp 3 + exp (-2)). rewrite H0, H1. destruct (Nat.even (b + i + j)); lra.
  - destruct (Nat.even (b + i + j)); [exists 0%nat|exists 1%nat]; split; auto.
  - intros l _. eapply Rle_trans; [apply Rle_abs|apply ex_phi_abs].
Qed.
Example ex_C91_labels_use : let phi' := fun _ => ln (exp 3 + exp (-2)) in
  at_row 0 (q_partition ex_tree ex_phi) 1 = at_row 0 (q_partition (CTree 2 4 1 (Some [2; 4])%nat) phi') 1 /\
  at_row 0 (q_max ex_dep ex_phi) 1 = at_row 0 (q_max (CDep false 2 4 None (Some [4; 2])%nat) (fun _ => 3)) 1 /\
  RSum (fun l => q_marginals ex_dep ex_phi [0; 1; 2; l]%nat) (seq 0 2) = q_marginals (CDep false 2 4 None (Some [4; 2])%nat) phi' [0; 1; 2]%nat.
Proof.
  destruct ex_C91_calls as (_ & _ & _ & _ & V1 & _ & V2 & _ & HR). intro phi'. split; [|split].
  - apply (@C91_labels_partition ex_tree 2 [0%nat] _ ex_phi phi' 1 V2 (unlabels_tree _ _ _ _) (proj2 (HR 1%nat ltac:(lia)))). intros i j. symmetry. apply ex_C91_labels.
  - apply (@C91_labels_max ex_dep 2 [] _ ex_phi (fun _ => 3) 1 V1 (unlabels_dep _ _ _ _ _) (proj1 (HR 1%nat ltac:(lia)))). intros i j. apply ex_C91_labels.
  - apply (@C91_labels_marginals ex_dep 2 [] _ ex_phi phi' 0 V1 (unlabels_dep _ _ _ _ _) (proj1 (HR 0%nat ltac:(lia)))). intros i j. symmetry. apply ex_C91_labels.
Qed.
Example ex_C91_labels_entropy : let phi' := fun _ => ln (exp 3 + exp (-2)) in
  at_row 0 (q_entropy ex_tree ex_phi) 1 = at_row 0 (q_entropy (CTree 2 4 1 (Some [2; 4])%nat) phi') 1 +
    RSum (fun i => RSum (fun j => q_marginals (CTree 2 4 1 (Some [2; 4])%nat) phi' [1; i; j; 0]%nat * label_entropy 2 ex_phi 1 i j) (seq 0 4)) (seq 0 4).
Proof.
  destruct ex_C91_calls as (_ & _ & _ & _ & _ & _ & V2 & _ & HR). intro phi'.
  apply (@C91_labels_entropy ex_tree 2 [0%nat] _ ex_phi phi' 1 V2 (unlabels_tree _ _ _ _) (proj2 (HR 1%nat ltac:(lia)))). intros i j. symmetry. apply ex_C91_labels.
Qed.
