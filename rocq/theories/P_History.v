(** * P_History: C41, what the answers of an object depend on. *)
From Verif Require Import Base Ops Terms Semirings Poly Chain LinearChain SemiMarkov CkyCrf Cky DepSpec DepTree
  Batch Family Approx Grad Sample Dist Purity Degree Shape Api Query History P_Real.
Set Implicit Arguments.
Local Open Scope R_scope.

(** ** Specification: read off the history *)
(** constructor arguments of the objects, in order *)
Definition news (h : list op) : list (call * (list nat -> R)) :=
  flat_map (fun o => match o with New c phi => [(c, phi)] | _ => [] end) h.
(** the [multiroot] argument of the last DependencyCRF constructed *)
Definition last_flag (h : list op) : bool :=
  fold_left (fun f o => match o with New (CDep mr _ _ _ _) _ => mr | _ => f end) h true.
(** operations that read property k of object i *)
Definition reads (o : op) (i : nat) (c : call) (k : key) : Prop :=
  o = Ask i k \/ (k = KPartition /\ (forall a b d e f, c <> CCfg a b d e f) /\ exists b v, o = LogProb i b v).

Section Spec.
  Variable tie : call -> (list nat -> R) -> nat -> path -> nat.
  (** spec: the answer with the flag that holds after a history *)
  Definition at_time (h : list op) (c : call) (phi : list nat -> R) (k : key) : ans := eval tie k (with_flag (last_flag h) c) phi.
  (** every read of the property in h raised *)
  Definition no_value (h : list op) i c phi k : Prop :=
    forall h1 o h2, h = h1 ++ o :: h2 -> reads o i c k -> (i < length (news h1))%nat -> raises (at_time h1 c phi k) = true.
  (** a is the value computed at the first read that did not raise *)
  Definition first_value (h : list op) i c phi k a : Prop :=
    exists h1 o h2, h = h1 ++ o :: h2 /\ reads o i c k /\ (i < length (news h1))%nat /\
      a = at_time h1 c phi k /\ no_value h1 i c phi k /\ raises a = false.

  (** ** Invariant *)
  Definition inv (h : list op) (w : world) : Prop :=
    cur w = last_flag h /\ map (fun o => (oc o, ophi o)) (objs w) = news h /\
    forall i o, nth_error (objs w) i = Some o -> forall k,
      match cache o k with Some a => first_value h i (oc o) (ophi o) k a | None => no_value h i (oc o) (ophi o) k end.

  Lemma news_app h h' : news (h ++ h') = news h ++ news h'.
  Proof. apply flat_map_app. Qed.
  Lemma last_flag_snoc h o : last_flag (h ++ [o]) = match o with New (CDep mr _ _ _ _) _ => mr | _ => last_flag h end.
  Proof. unfold last_flag. now rewrite fold_left_app. Qed.
  Lemma snoc_split (h : list op) o h1 o' h2 : h ++ [o] = h1 ++ o' :: h2 -> (h2 = [] /\ h1 = h /\ o' = o) \/ exists h2', h2 = h2' ++ [o] /\ h = h1 ++ o' :: h2'.
  Proof.
    intro E. destruct h2 as [|x h2] using rev_ind; [left; apply app_inj_tail in E as [-> ->]; auto|]. right. clear IHh2. exists h2.
    change (h ++ [o] = h1 ++ (o' :: h2) ++ [x]) in E. rewrite app_assoc in E. apply app_inj_tail in E as [-> ->]. auto.
  Qed.
  Lemma no_value_snoc h o i c phi k : no_value h i c phi k -> (reads o i c k -> (i < length (news h))%nat -> raises (at_time h c phi k) = true) ->
    no_value (h ++ [o]) i c phi k.
  Proof. intros H H' h1 o' h2 E R L. apply snoc_split in E as [(-> & -> & ->)|(h2' & -> & ->)]; [auto|]. apply (H h1 o' h2'); auto. Qed.
  Lemma first_value_snoc h o i c phi k a : first_value h i c phi k a -> first_value (h ++ [o]) i c phi k a.
  Proof. intros (h1 & o' & h2 & -> & R). exists h1, o', (h2 ++ [o]). rewrite <- app_assoc. cbn. tauto. Qed.

  (** an operation that neither constructs nor reads anything new *)
  Lemma inv_idle h w o : inv h w -> news [o] = [] ->
    (forall i c k, reads o i c k -> forall ob, nth_error (objs w) i = Some ob -> oc ob = c -> cache ob k = None -> raises (at_time h c (ophi ob) k) = true) -> inv (h ++ [o]) w.
  Proof.
    intros (F & N & C) E H. split; [rewrite last_flag_snoc, F; destruct o as [c ?| | |]; try reflexivity; discriminate|]. split; [now rewrite news_app, E, app_nil_r|].
    intros i ob Ho k. specialize (C i ob Ho k). destruct (cache ob k) eqn:Ek; [now apply first_value_snoc|]. apply no_value_snoc; auto. intros R _. eapply H; eauto.
  Qed.
  Lemma inv_new h w c phi : inv h w -> inv (h ++ [New c phi]) (fst (step tie w (New c phi))).
  Proof.
    intros (F & N & C). unfold inv. cbn [step fst objs]. split; [|split].
    - rewrite last_flag_snoc. unfold cur. cbn [flag]. destruct c; try exact F. reflexivity.
    - rewrite map_app, N, news_app. reflexivity.
    - intros i o Ho k. destruct (Nat.lt_ge_cases i (length (objs w))) as [Hi|Hi].
      + rewrite nth_error_app1 in Ho by auto. specialize (C i o Ho k). destruct (cache o k) eqn:Ek; [now apply first_value_snoc|].
        apply no_value_snoc; auto. intros [R|(_ & _ & b & v & R)]; discriminate.
      + rewrite nth_error_app2 in Ho by auto. assert (i - length (objs w) = 0)%nat.
        { destruct (i - length (objs w))%nat as [|m] eqn:Em; auto. destruct m; discriminate. }
        rewrite H in Ho. injection Ho as <-. cbn [cache oc ophi]. intros h1 o' h2 E R L. exfalso.
        apply snoc_split in E as [(-> & -> & ->)|(h2' & -> & ->)]; [destruct R as [R|(_ & _ & b & v & R)]; discriminate|].
        assert (length (news (h1 ++ o' :: h2')) = length (objs w)) by (now rewrite <- N, map_length). rewrite news_app, app_length in H0. lia.
  Qed.
  Lemma nth_error_set l i (o : obj) j : (i < length l)%nat -> nth_error (set_obj i o l) j = if (j =? i)%nat then Some o else nth_error l j.
  Proof.
    intro Hi. unfold set_obj. assert (L : length (firstn i l) = i) by (rewrite firstn_length; lia). destruct (Nat.eqb_spec j i) as [->|Hn].
    - rewrite nth_error_app2 by lia. rewrite L, Nat.sub_diag. reflexivity.
    - destruct (Nat.lt_ge_cases j i).
      + rewrite nth_error_app1 by lia. rewrite <- (firstn_skipn i l) at 2. rewrite nth_error_app1 by lia. reflexivity.
      + rewrite nth_error_app2 by lia. rewrite L. replace (j - i)%nat with (S (j - S i)) by lia. cbn. rewrite <- (firstn_skipn (S i) l) at 2.
        rewrite nth_error_app2 by (rewrite firstn_length; lia). f_equal. rewrite firstn_length. lia.
  Qed.
  Lemma map_set A (f : obj -> A) l i o o' : nth_error l i = Some o -> f o' = f o -> map f (set_obj i o' l) = map f l.
  Proof.
    intros Hi E. unfold set_obj. apply nth_error_split in Hi as (l1 & l2 & -> & <-). rewrite firstn_app, firstn_all, Nat.sub_diag. cbn [firstn]. rewrite app_nil_r.
    replace (skipn (S (length l1)) (l1 ++ o :: l2)) with l2; [rewrite !map_app; cbn; now rewrite E|].
    induction l1; cbn; auto.
  Qed.
  Lemma key_eqb_spec a b : key_eqb a b = true <-> a = b.
  Proof. destruct a, b; cbn; split; congruence. Qed.

  (** a read: the answer, and the invariant afterwards *)
  Lemma inv_get h w i ob k o : inv h w -> nth_error (objs w) i = Some ob -> reads o i (oc ob) k -> news [o] = [] ->
    (forall i' c' k', reads o i' c' k' -> i' = i /\ k' = k) ->
    (first_value (h ++ [o]) i (oc ob) (ophi ob) k (snd (get tie w i ob k)) \/
     snd (get tie w i ob k) = at_time h (oc ob) (ophi ob) k /\ no_value (h ++ [o]) i (oc ob) (ophi ob) k) /\
    inv (h ++ [o]) (fst (get tie w i ob k)).
  Proof.
    intros I Hn R E U. pose proof I as (F & N & C). pose proof (C i ob Hn k) as Ck. unfold get. destruct (cache ob k) as [a|] eqn:Ek; cbn [fst snd].
    - split; [left; now apply first_value_snoc|]. apply inv_idle; auto. intros i' c' k' R' ob' Hn' _ Hc. apply U in R' as [-> ->]. rewrite Hn in Hn'. injection Hn' as <-. congruence.
    - rewrite F. fold (at_time h (oc ob) (ophi ob) k). destruct (raises (at_time h (oc ob) (ophi ob) k)) eqn:Er; cbn [fst snd].
      + split.
        * right. split; auto. apply no_value_snoc; auto.
        * apply inv_idle; auto. intros i' c' k' R' ob' Hn' <- Hc. apply U in R' as [-> ->]. rewrite Hn in Hn'. injection Hn' as <-. exact Er.
      + assert (Hi : (i < length (objs w))%nat) by (apply nth_error_Some; congruence).
        assert (Hl : (i < length (news h))%nat) by (rewrite <- N, map_length; auto).
        assert (FV : first_value (h ++ [o]) i (oc ob) (ophi ob) k (at_time h (oc ob) (ophi ob) k)).
        { exists h, o, []. repeat split; auto. }
        split; [left; exact FV|]. split; [|split].
        * unfold cur. cbn [flag]. fold (cur w). rewrite last_flag_snoc, F. destruct o; try reflexivity. discriminate.
        * cbn [objs]. rewrite (@map_set _ _ _ _ ob) by auto. now rewrite N, news_app, E, app_nil_r.
        * intros j oj Hj k'. cbn [objs] in Hj. rewrite nth_error_set in Hj by auto. destruct (Nat.eqb_spec j i) as [->|Hne].
          -- injection Hj as <-. cbn [cache oc ophi]. destruct (key_eqb k' k) eqn:Ekk; [apply key_eqb_spec in Ekk as ->; exact FV|].
             specialize (C i ob Hn k'). destruct (cache ob k'); [now apply first_value_snoc|]. apply no_value_snoc; auto. intros R' _.
             apply U in R' as [_ ->]. now rewrite (proj2 (key_eqb_spec k k) eq_refl) in Ekk.
          -- specialize (C j oj Hj k'). destruct (cache oj k'); [now apply first_value_snoc|]. apply no_value_snoc; auto. intros R' _.
             apply U in R' as [-> _]. contradiction.
  Qed.
  Lemma uniq_ask i k : forall i' c' k', reads (Ask i k) i' c' k' -> i' = i /\ k' = k.
  Proof. intros i' c' k' [R|(_ & _ & b & v & R)]; [now injection R|discriminate]. Qed.
  Lemma uniq_lp i b v : forall i' c' k', reads (LogProb i b v) i' c' k' -> i' = i /\ k' = KPartition.
  Proof. intros i' c' k' [R|(-> & _ & b' & v' & R)]; [discriminate|now injection R]. Qed.
  Lemma inv_step h w o : inv h w -> inv (h ++ [o]) (fst (step tie w o)).
  Proof.
    intro I. destruct o as [c phi|i k|i b v|i f].
    - now apply inv_new.
    - cbn [step]. destruct (nth_error (objs w) i) as [ob|] eqn:Hn.
      + pose proof (@inv_get h w i ob k (Ask i k) I Hn (or_introl eq_refl) eq_refl (@uniq_ask i k)) as [_ I']. destruct (get tie w i ob k). exact I'.
      + apply inv_idle; auto. intros i' c' k' R ob Ho. apply uniq_ask in R as [-> ->]. cbn [fst] in Ho. rewrite Hn in Ho. discriminate.
    - cbn [step]. destruct (nth_error (objs w) i) as [ob|] eqn:Hn.
      + destruct (oc ob) as [x1 x2 x3 x4|x1 x2 x3 x4 x5|x1 x2 x3 x4|x1 x2 x3 x4 x5|x1 x2 x3 x4 x5] eqn:Eo;
        try (assert (R : reads (LogProb i b v) i (oc ob) KPartition) by (right; rewrite Eo; split; [reflexivity|split; [discriminate|eauto]]);
             pose proof (@inv_get h w i ob KPartition (LogProb i b v) I Hn R eq_refl (@uniq_lp i b v)) as [_ I']; destruct (get tie w i ob KPartition); exact I').
        apply inv_idle; auto. intros i' c' k' R ob' Ho <- Hc. exfalso. pose proof (uniq_lp R) as [-> ->]. cbn [fst] in Ho. rewrite Hn in Ho. injection Ho as <-.
        destruct R as [R|(_ & R & _)]; [discriminate|]. eapply R. exact Eo.
      + apply inv_idle; auto. intros i' c' k' R ob Ho. apply uniq_lp in R as [-> ->]. cbn [fst] in Ho. rewrite Hn in Ho. discriminate.
    - cbn [step]. destruct (nth_error (objs w) i); (apply inv_idle; auto; intros i' c' k' [R|(_ & _ & ? & ? & R)]; discriminate).
  Qed.
  Lemma inv_after h : inv h (after tie h).
  Proof.
    induction h as [|o h IH] using rev_ind.
    - repeat split. intros [|i] ob H; discriminate.
    - unfold after. rewrite fold_left_app. cbn [fold_left]. now apply inv_step.
  Qed.
  Lemma obj_of h i c phi : nth_error (news h) i = Some (c, phi) -> exists ob, nth_error (objs (after tie h)) i = Some ob /\ oc ob = c /\ ophi ob = phi.
  Proof.
    intro E. destruct (inv_after h) as (_ & N & _). rewrite <- N, nth_error_map in E. destruct (nth_error (objs (after tie h)) i) as [ob|]; [|discriminate].
    injection E as E1 E2. exists ob. auto.
  Qed.

  (** C41. The answer of a lazy property is the value of the constructor
      arguments, with [multiroot] replaced by that of the last DependencyCRF
      constructed before the first read that returned *)
  Theorem C41_history h i c phi k : nth_error (news h) i = Some (c, phi) ->
    exists a, answer tie h (Ask i k) = Some a /\
      (first_value (h ++ [Ask i k]) i c phi k a \/ a = at_time h c phi k /\ no_value (h ++ [Ask i k]) i c phi k).
  Proof.
    intro E. destruct (obj_of _ _ E) as (ob & Hn & <- & <-). unfold answer. cbn [step]. rewrite Hn.
    pose proof (@inv_get h _ i ob k (Ask i k) (inv_after h) Hn (or_introl eq_refl) eq_refl (@uniq_ask i k)) as [G _].
    destruct (get tie (after tie h) i ob k) as [w' a]. exists a. split; [reflexivity|exact G].
  Qed.
  Theorem C41_log_prob h i c phi b v : nth_error (news h) i = Some (c, phi) -> (forall a b d e f, c <> CCfg a b d e f) ->
    exists p, answer tie h (LogProb i b v) = Some (ANum (lp_of c phi b v p)) /\
      (first_value (h ++ [LogProb i b v]) i c phi KPartition (AVec p) \/ AVec p = at_time h c phi KPartition /\ no_value (h ++ [LogProb i b v]) i c phi KPartition).
  Proof.
    intros E Hc. destruct (obj_of _ _ E) as (ob & Hn & <- & <-). unfold answer. cbn [step]. rewrite Hn.
    assert (R : reads (LogProb i b v) i (oc ob) KPartition) by (right; eauto).
    pose proof (@inv_get h _ i ob KPartition (LogProb i b v) (inv_after h) Hn R eq_refl (@uniq_lp i b v)) as [G _].
    destruct (get tie (after tie h) i ob KPartition) as [w' a]. cbn [snd] in G.
    assert (X : exists p, a = AVec p).
    { destruct G as [(h1 & o & h2 & _ & _ & _ & -> & _)|[-> _]]; eexists; reflexivity. }
    destruct X as (p & ->). exists p. split; [|exact G]. destruct (oc ob) eqn:Eo; try reflexivity.
  Qed.
  Theorem C41_direct h i c phi f : nth_error (news h) i = Some (c, phi) -> answer tie h (Direct i f) = Some (f (with_flag (last_flag h) c) phi).
  Proof.
    intro E. destruct (obj_of _ _ E) as (ob & Hn & <- & <-). unfold answer. cbn [step]. rewrite Hn. destruct (inv_after h) as (-> & _). reflexivity.
  Qed.
End Spec.

(** ** Consequences *)
Definition same_flag (c : call) (h : list op) : Prop :=
  forall mr b n lab ls phi, In (New (CDep mr b n lab ls) phi) h -> forall mr' b' n' lab' ls', c = CDep mr' b' n' lab' ls' -> mr = mr'.
Lemma with_flag_self c h1 h2 phi : same_flag c (h1 ++ h2) -> In (c, phi) (news h1) -> with_flag (last_flag h1) c = c.
Proof.
  intros H Hi. destruct c as [? ? ? ?|? ? ? ? ?|? ? ? ?|? ? ? ? ?|mr b n lab ls]; try reflexivity. cbn. f_equal.
  assert (G : forall h, (forall mr' b' n' lab' ls' phi', In (New (CDep mr' b' n' lab' ls') phi') h -> mr' = mr) -> In (CDep mr b n lab ls, phi) (news h) -> last_flag h = mr).
  { induction h as [|o h IH] using rev_ind; [intros _ []|]. intros G Hin. rewrite last_flag_snoc. destruct o as [c' phi'|i k|i bb v|i f]; try destruct c' as [? ? ? ?|? ? ? ? ?|? ? ? ?|? ? ? ? ?|mr' b' n' lab' ls'].
    5: { eapply (G mr' b' n' lab' ls' phi'). apply in_or_app. right. now left. }
    all: apply IH; [intros; eapply G; apply in_or_app; left; eauto|]; rewrite news_app in Hin; apply in_app_or in Hin as [Hin|Hin]; auto; cbn in Hin; tauto || (destruct Hin as [Hin|[]]; discriminate). }
  apply G; auto. intros mr' b' n' lab' ls' phi' Hn. eapply H; [apply in_or_app; left; exact Hn|reflexivity].
Qed.
Lemma news_in h i c phi : nth_error (news h) i = Some (c, phi) -> forall h1 h2, h = h1 ++ h2 -> (i < length (news h1))%nat -> In (c, phi) (news h1).
Proof. intros E h1 h2 -> Hi. rewrite news_app, nth_error_app1 in E by auto. eapply nth_error_In. exact E. Qed.

(** an object whose history holds only DependencyCRF objects with its own
    [multiroot], and every object of another class, answers from its own arguments *)
Theorem C41_own_arguments tie h i c phi k : nth_error (news h) i = Some (c, phi) -> same_flag c h ->
  answer tie h (Ask i k) = Some (eval tie k c phi).
Proof.
  intros E Hs. destruct (C41_history tie h i k E) as (a & -> & G). f_equal.
  assert (Ha : exists h1 h2, h = h1 ++ h2 /\ (i < length (news h1))%nat /\ a = at_time tie h1 c phi k).
  { destruct G as [(h1 & o & h2 & Eh & _ & Hi & -> & _)|[-> _]].
    - apply snoc_split in Eh as [(_ & -> & _)|(h2' & _ & ->)]; [exists h, []; rewrite app_nil_r; auto|exists h1, (o :: h2'); auto].
    - exists h, []. rewrite app_nil_r. repeat split; auto. apply nth_error_Some. congruence. }
  destruct Ha as (h1 & h2 & -> & Hi & ->). unfold at_time. erewrite with_flag_self; [reflexivity|exact Hs|]. eapply news_in; eauto.
Qed.
(** an answer that was given once is given again *)
Theorem C41_stable tie h h' i c phi k a : nth_error (news h) i = Some (c, phi) -> answer tie h (Ask i k) = Some a -> raises a = false ->
  answer tie (h ++ Ask i k :: h') (Ask i k) = Some a.
Proof.
  intros E Ea Hr. destruct (C41_history tie h i k E) as (a0 & Ea0 & G). rewrite Ea in Ea0. injection Ea0 as <-.
  assert (FV : first_value tie (h ++ [Ask i k]) i c phi k a).
  { destruct G as [G|[-> Hn]]; [exact G|]. exfalso. rewrite (Hn h (Ask i k) [] eq_refl (or_introl eq_refl)) in Hr; [discriminate|]. apply nth_error_Some. congruence. }
  assert (E' : nth_error (news (h ++ Ask i k :: h')) i = Some (c, phi)).
  { rewrite news_app, nth_error_app1; auto. apply nth_error_Some. congruence. }
  destruct (C41_history tie _ i k E') as (a' & -> & G'). f_equal.
  destruct FV as (h1 & o & h2 & Eh & R & Hi & -> & Hn & _).
  assert (EE : exists t, (h ++ Ask i k :: h') ++ [Ask i k] = h1 ++ o :: t).
  { exists (h2 ++ h' ++ [Ask i k]). rewrite <- app_assoc. cbn. change (Ask i k :: h' ++ [Ask i k]) with ([Ask i k] ++ (h' ++ [Ask i k])). rewrite app_assoc, Eh, <- app_assoc. reflexivity. }
  destruct EE as (t & EE). rewrite EE in G'. destruct G' as [(h1' & o' & h2' & Eh' & R' & Hi' & -> & Hn' & Hr')|[_ Hn']].
  - destruct (lt_eq_lt_dec (length h1) (length h1')) as [[Hl|Hl]|Hl].
    + exfalso. assert (X : exists s, h1' = h1 ++ o :: s).
      { assert (F : firstn (length h1') (h1 ++ o :: t) = h1') by (rewrite Eh', firstn_app, firstn_all, Nat.sub_diag; apply app_nil_r).
        rewrite firstn_app in F. rewrite (firstn_all2 h1) in F by lia. destruct (length h1' - length h1)%nat as [|m] eqn:Em; [lia|]. cbn in F. eauto. }
      destruct X as (s & ->). rewrite (Hn' h1 o s eq_refl R Hi) in Hr. discriminate.
    + enough (h1' = h1) by (subst; reflexivity). apply (f_equal (firstn (length h1))) in Eh'. rewrite firstn_app, firstn_all, Nat.sub_diag in Eh'. cbn in Eh'. rewrite app_nil_r in Eh'. rewrite Hl, firstn_app, firstn_all, Nat.sub_diag in Eh'. cbn in Eh'. now rewrite app_nil_r in Eh'.
    + exfalso. assert (X : exists s, h1 = h1' ++ o' :: s).
      { assert (F : firstn (length h1) (h1' ++ o' :: h2') = h1) by (rewrite <- Eh', firstn_app, firstn_all, Nat.sub_diag; apply app_nil_r).
        rewrite firstn_app in F. rewrite (firstn_all2 h1') in F by lia. destruct (length h1 - length h1')%nat as [|m] eqn:Em; [lia|]. cbn in F. eauto. }
      destruct X as (s & ->). rewrite (Hn h1' o' s eq_refl R' Hi') in Hr'. discriminate.
  - exfalso. rewrite (Hn' h1 o t eq_refl R Hi) in Hr. discriminate.
Qed.

(** ** Interference between DependencyCRF objects *)
Lemma flat_proj n : is_proj n (repeat 0%nat n).
Proof.
  assert (H : forall k, hd_of (repeat 0%nat n) k = 0%nat).
  { intro k. unfold hd_of. destruct k; auto. rewrite ?nth_repeat. reflexivity. }
  split; [apply repeat_length|]. split.
  - intros k _. rewrite H. split; [lia|]. exists 1%nat. cbn. apply H.
  - intros k m _ _. exists 1%nat. cbn. rewrite !H. reflexivity.
Qed.
Lemma flat_not_single n : (2 <= n)%nat -> ~ single_root (repeat 0%nat n).
Proof. intros Hn E. unfold single_root in E. destruct n as [|[|n]]; try lia. cbn in E. lia. Qed.
Lemma fspec_inhabited F S : fspec F = S -> flist F <> [] -> exists s, ok S s.
Proof.
  intros <- H. destruct (flist F) as [|s l] eqn:E; [congruence|]. exists s. apply (fenum F). rewrite E. now left.
Qed.
Lemma partition_multiroot_larger batch n ls phi b : valid (CDep false batch n None ls) -> (b < batch)%nat -> (2 <= lc_len n ls b)%nat ->
  exists v v', q_partition (CDep false batch n None ls) phi = Ok v /\ q_partition (CDep true batch n None ls) phi = Ok v' /\ nth b v 0 < nth b v' 0.
Proof.
  intros V Hb Hl. assert (V' : valid (CDep true batch n None ls)).
  { destruct V as [[_ V] L]. repeat split; auto. discriminate. }
  destruct (@C20_partition_value _ phi 0 V (Rle_refl 0) (or_introl eq_refl)) as (v & E & _ & H).
  destruct (@C20_partition_value _ phi 0 V' (Rle_refl 0) (or_introl eq_refl)) as (v' & E' & _ & H').
  exists v, v'. split; [exact E|]. split; [exact E'|].
  set (len := lc_len n ls b) in *.
  set (l := dep_list true len). assert (Hen : Enumerates (dep_ok true len) l) by (apply dep_list_enum; discriminate).
  set (sr := fun h : list nat => Nat.eqb (count_occ Nat.eq_dec h 0%nat) 1).
  assert (Hen' : Enumerates (dep_ok false len) (filter sr l)).
  { destruct Hen as [Nd Hen]. split; [now apply NoDup_filter|]. intro h. rewrite filter_In, Hen. unfold dep_ok, single_root, sr. rewrite Nat.eqb_eq. intuition discriminate. }
  assert (R1 : row_ok (CDep false batch n None ls) b) by (split; cbn; [auto|fold len; lia]).
  assert (R2 : row_ok (CDep true batch n None ls) b) by (split; cbn; auto).
  specialize (H b (filter sr l) R1 Hen'). specialize (H' b l R2 Hen). unfold leak in H, H'. cbn [zero_free] in H, H'. cbn [spec_of prt] in H, H'.
  assert (Hin : forall h, In h l <-> dep_ok true len h) by apply Hen.
  assert (Z : ZS (dep_parts b) l phi = ZS (dep_parts b) (filter sr l) phi + ZS (dep_parts b) (filter (fun x => negb (sr x)) l) phi) by apply (RSum_split _ sr l).
  assert (P1 : 0 < ZS (dep_parts b) (filter (fun x => negb (sr x)) l) phi).
  { apply ZS_pos. intro X. enough (G : In (repeat 0%nat len) []) by exact G. rewrite <- X. apply filter_In. split.
    - apply Hin. split; [apply flat_proj|discriminate].
    - unfold sr. apply negb_true_iff, Nat.eqb_neq. apply (@flat_not_single len Hl). }
  assert (P2 : 0 < ZS (dep_parts b) (filter sr l) phi).
  { apply ZS_pos. intro X. destruct (row_family V R1) as (F & HF). destruct (fspec_inhabited (ir_spec HF) (ir_nonempty HF)) as (s & Hs).
    apply Hen' in Hs. rewrite X in Hs. exact Hs. }
  assert (ln (ZS (dep_parts b) (filter sr l) phi) < ln (ZS (dep_parts b) l phi)) by (apply ln_increasing; lra).
  change (0 <= nth b v 0 - ln (ZS (dep_parts b) (filter sr l) phi) <= 0) in H. change (0 <= nth b v' 0 - ln (ZS (dep_parts b) l phi) <= 0) in H'. lra.
Qed.

(** constructing any DependencyCRF with multiroot=True strictly raises the
    partition that a single-root object reports afterwards *)
Theorem C41_interference tie batch n ls phi b batch' n' lab' ls' phi' : valid (CDep false batch n None ls) -> (b < batch)%nat -> (2 <= lc_len n ls b)%nat ->
  let alone := [New (CDep false batch n None ls) phi] in
  let other := alone ++ [New (CDep true batch' n' lab' ls') phi'] in
  exists v v', answer tie alone (Ask 0 KPartition) = Some (AVec (Ok v)) /\ answer tie other (Ask 0 KPartition) = Some (AVec (Ok v')) /\ nth b v 0 < nth b v' 0.
Proof.
  intros V Hb Hl. destruct (partition_multiroot_larger phi V Hb Hl) as (v & v' & E & E' & L). exists v, v'.
  split; [|split; [|exact L]].
  - unfold answer, after. cbn -[eval]. unfold get. cbn -[q_partition]. rewrite E. reflexivity.
  - unfold answer, after. cbn -[eval]. unfold get. cbn -[q_partition]. rewrite E'. reflexivity.
Qed.

(** the claim itself is false, in the strongest form: reading the partition
    before and the argmax after such a construction gives a probability above one *)
Definition root10 : list nat -> R := fun e => match e with [_; i; j] => if (i =? j)%nat then 10 else 0 | _ => 0 end.
(** example: a call with a single root *)
Definition one_root : call := CDep false 1 2 None None.
(** example: a call with several roots *)
Definition any_root : call := CDep true 1 2 None None.
Theorem C41_refuted : exists tie h value x,
  (forall b, (b < 1)%nat -> argmax_ok NEG root10 (tie any_root root10 b) [] (row_graph any_root b)) /\
  nth_error (news h) 0 = Some (one_root, root10) /\
  answer tie h (Ask 0 KArgmax) = Some (ATen (Ok value)) /\
  answer tie (h ++ [Ask 0 KArgmax]) (LogProb 0 0 value) = Some (ANum (Ok x)) /\ 1 < exp x.
Proof.
  assert (V : valid any_root) by (repeat split; discriminate). assert (V1 : valid one_root) by (repeat split; [lia|discriminate]).
  destruct (@argmax_exists_batch any_root root10 V) as (o & Ho). exists (fun _ _ => o).
  assert (W : exists v, q_max any_root root10 = Ok v /\ length v = 1%nat) by apply (run_ok any_root (max_ops NEG) root10 V). destruct W as (vm & Em & _).
  destruct (@C20_partition_value _ root10 0 V1 (Rle_refl 0) (or_introl eq_refl)) as (v & E & _ & H).
  exists [New one_root root10; Ask 0 KPartition; New any_root root10], (q_argmax any_root o).
  exists (RSum (fun e => root10 e * q_argmax any_root o e) (map (cons 0%nat) (indices [2;2]%nat)) - nth 0 v 0).
  split; [exact Ho|]. split; [reflexivity|]. 
  split; [|split].
  - unfold answer, after. cbn -[eval]. unfold get. cbn -[q_partition q_max q_argmax indices]. unfold one_root in E. rewrite E.
    cbn -[q_partition q_max q_argmax indices]. unfold any_root in Em. rewrite Em. reflexivity.
  - unfold answer, after. cbn -[eval]. unfold get. cbn -[q_partition q_max q_argmax indices]. unfold one_root in E. rewrite E.
    cbn -[q_partition q_max q_argmax indices]. unfold any_root in Em. rewrite Em. reflexivity.
  - assert (RO : row_ok any_root 0) by (split; cbn; auto). 
    destruct (@C15_argmax_is_optimal any_root root10 o V Ho 0%nat RO (or_introl eq_refl)) as (s & Hs & Hopt & Huse & Hnd).
    assert (Sc : RSum (fun e => root10 e * q_argmax any_root o e) (map (cons 0%nat) (indices [2;2]%nat)) = sc (dep_parts 0) root10 s).
    { etransitivity; [|apply (@score_event root10 (map (cons 0%nat) (indices [2;2]%nat)) (dep_parts 0 s))].
      - apply (Sum_ext_in R_csr). intros e He. apply in_map_iff in He as (e' & <- & _). cbv beta. rewrite Huse by reflexivity. reflexivity.
      - apply NoDup_map_inj; [congruence|apply indices_nodup].
      - apply (@parts_in_event any_root 0 s V RO I Hs). }
    assert (G : 20 <= sc (dep_parts 0) root10 s).
    { specialize (Hopt [0;0]%nat). cbn [spec_of any_root ok prt] in Hopt. eapply Rle_trans; [|apply Hopt].
      - unfold sc. cbn. lra.
      - split; [apply (flat_proj 2)|discriminate]. }
    rewrite Sc. assert (R1 : row_ok one_root 0) by (split; cbn; auto).
    specialize (H 0%nat [[0;1];[2;0]]%nat R1). cbn [spec_of one_root ok prt] in H.
    assert (En : Enumerates (dep_ok false 2) [[0;1];[2;0]]%nat).
    { pose proof (@dep_list_enum false 2 ltac:(lia)) as D. vm_compute in D |- *. exact D. }
    specialize (H En). unfold leak in H. cbn [zero_free] in H.
    assert (Z : ZS (dep_parts 0) [[0;1];[2;0]]%nat root10 = 2 * exp 10).
    { unfold ZS, sc. cbn. rewrite !Rplus_0_r, ?Rplus_0_l. ring. }
    change (0 <= nth 0 v 0 - ln (ZS (dep_parts 0) [[0;1];[2;0]]%nat root10) <= 0) in H. rewrite Z, ln_mult, ln_exp in H by (try apply exp_pos; lra).
    assert (ln 2 < 1). { rewrite <- (ln_exp 1). apply ln_increasing; [lra|]. pose proof (exp_ineq1 1 ltac:(lra)). lra. }
    pose proof (exp_ineq1 (sc (dep_parts 0) root10 s - nth 0 v 0)). rewrite <- exp_0 at 1. apply exp_increasing. lra.
Qed.
