(** * MaskDep: which sums of the dependency and semi-Markov charts can be -inf. *)
From Verif Require Import Base Ops Terms Semirings Poly Chain LinearChain SemiMarkov CkyCrf Cky DepSpec DepTree
  Batch Family Approx Grad Sample Dist Purity Degree Shape Api Query Mask Special.
Set Implicit Arguments.

(** ** The dependency charts, cell by cell *)
Section Charts.
  Variables (O : ops) (N st : nat) (arc : nat -> nat -> car O).
  Notation A := (car O).
  Lemma setA_at k v ch i w : (st <= i)%nat -> (i + k < N)%nat -> w = k -> setA O N st k v ch i w = v i.
  Proof.
    intros H1 H2 ->. unfold setA.
    replace (st <=? i)%nat with true by (symmetry; apply Nat.leb_le; lia).
    replace (i <? N - k)%nat with true by (symmetry; apply Nat.ltb_lt; lia).
    now rewrite Nat.eqb_refl.
  Qed.
  Lemma setA_off k v ch i w : w <> k -> setA O N st k v ch i w = ch i w.
  Proof.
    intro H. unfold setA. replace (w =? k)%nat with false by (symmetry; apply Nat.eqb_neq; lia).
    now rewrite andb_false_r.
  Qed.
  Lemma setB_at k v ch j w : (k + st <= j)%nat -> (j < N)%nat -> w = (N - k - 1)%nat -> setB O N st k v ch j w = v (j - k)%nat.
  Proof.
    intros H1 H2 ->. unfold setB.
    replace (k + st <=? j)%nat with true by (symmetry; apply Nat.leb_le; lia).
    replace (j <? N)%nat with true by (symmetry; apply Nat.ltb_lt; lia).
    now rewrite Nat.eqb_refl.
  Qed.
  Lemma setB_off k v ch j w : w <> (N - k - 1)%nat -> setB O N st k v ch j w = ch j w.
  Proof.
    intro H. unfold setB. replace (w =? N - k - 1)%nat with false by (symmetry; apply Nat.eqb_neq; lia).
    now rewrite andb_false_r.
  Qed.
  (** proof device: properties of the complete spans (left, right), of the sums over the
      splits and of the spans with an open arc, by their two ends *)
  Variables PL PR PX PIL PIR : nat -> nat -> A -> Prop.
  Hypothesis HL0 : forall i, (st <= i)%nat -> (i < N)%nat -> PL i i (sone O).
  Hypothesis HR0 : forall i, (st <= i)%nat -> (i < N)%nat -> PR i i (sone O).
  Hypothesis HX : forall i k a b, (st <= i)%nat -> (i + k < N)%nat -> (0 < k)%nat ->
    (forall m, (m < k)%nat -> PR i (i + m) (a m)) -> (forall m, (m < k)%nat -> PL (i + 1 + m) (i + k) (b m)) -> PX i (i + k) (dot O k a b).
  Hypothesis HIL : forall i k x, (st <= i)%nat -> (i + k < N)%nat -> (0 < k)%nat -> PX i (i + k) x -> PIL i (i + k) (smul O x (arc (i + k) i)).
  Hypothesis HIR : forall i k x, (st <= i)%nat -> (i + k < N)%nat -> (0 < k)%nat -> PX i (i + k) x -> PIR i (i + k) (smul O x (arc i (i + k))).
  Hypothesis HL : forall i k a b, (st <= i)%nat -> (i + k < N)%nat -> (0 < k)%nat ->
    (forall m, (m < k)%nat -> PL i (i + m) (a m)) -> (forall m, (m < k)%nat -> PIL (i + m) (i + k) (b m)) -> PL i (i + k) (dot O k a b).
  Hypothesis HR : forall i k a b, (st <= i)%nat -> (i + k < N)%nat -> (0 < k)%nat ->
    (forall m, (m < k)%nat -> PIR i (i + 1 + m) (a m)) -> (forall m, (m < k)%nat -> PR (i + 1 + m) (i + k) (b m)) -> PR i (i + k) (dot O k a b).
  (** proof device: the cells filled by the widths up to w *)
  Definition dcells (w : nat) (s : dstate A) : Prop :=
    (forall i k, (st <= i)%nat -> (k <= w)%nat -> (i + k < N)%nat -> PL i (i + k) (acl s i k)) /\
    (forall i k, (st <= i)%nat -> (k <= w)%nat -> (i + k < N)%nat -> PR i (i + k) (acr s i k)) /\
    (forall i k, (st <= i)%nat -> (k <= w)%nat -> (i + k < N)%nat -> PL i (i + k) (bcl s (i + k) (N - 1 - k))) /\
    (forall i k, (st <= i)%nat -> (k <= w)%nat -> (i + k < N)%nat -> PR i (i + k) (bcr s (i + k) (N - 1 - k))) /\
    (forall i k, (st <= i)%nat -> (1 <= k <= w)%nat -> (i + k < N)%nat -> PIR i (i + k) (air s i k)) /\
    (forall i k, (st <= i)%nat -> (1 <= k <= w)%nat -> (i + k < N)%nat -> PIL i (i + k) (bil s (i + k) (N - 1 - k))).
  Lemma dcells_init : dcells 0 (dp_init O N).
  Proof.
    unfold dcells, dp_init. cbn [acl acr bcl bcr air bil].
    repeat split; intros; try lia; replace k with 0%nat by lia; unfold fill; rewrite ?Nat.sub_0_r, ?Nat.add_0_r, ?Nat.eqb_refl; auto; [apply HL0|apply HR0|apply HL0|apply HR0]; lia.
  Qed.
  Lemma dcells_step k s : (1 <= k < N)%nat -> dcells (k - 1) s -> dcells k (dp_step O N st arc s k).
  Proof.
    intros Hk (H1 & H2 & H3 & H4 & H5 & H6).
    set (x := fun i => dot O k (fun m => acr s i m) (fun m => bcl s (i + k) (N - k + m))).
    assert (Hx : forall i, (st <= i)%nat -> (i + k < N)%nat -> PX i (i + k) (x i)).
    { intros i Hi HiN. apply HX; try lia; intros m Hm.
      - apply H2; lia.
      - replace (N - k + m)%nat with (N - 1 - (k - 1 - m))%nat by lia. replace (i + k)%nat with (i + 1 + m + (k - 1 - m))%nat by lia. apply H3; lia. }
    set (al := fun i => smul O (x i) (arc (i + k) i)).
    set (ar := fun i => smul O (x i) (arc i (i + k))).
    set (bil' := setB O N st k al (bil s)).
    set (air' := setA O N st k ar (air s)).
    assert (Hbil : forall i w, (st <= i)%nat -> (1 <= w <= k)%nat -> (i + w < N)%nat -> PIL i (i + w) (bil' (i + w) (N - 1 - w))%nat).
    { intros i w Hi Hw HiN. unfold bil'. destruct (Nat.eq_dec w k) as [->|Hne].
      - rewrite setB_at by lia. replace (i + k - k)%nat with i by lia. apply HIL; try lia. apply Hx; lia.
      - rewrite setB_off by lia. apply H6; lia. }
    assert (Hair : forall i w, (st <= i)%nat -> (1 <= w <= k)%nat -> (i + w < N)%nat -> PIR i (i + w) (air' i w)).
    { intros i w Hi Hw HiN. unfold air'. destruct (Nat.eq_dec w k) as [->|Hne].
      - rewrite setA_at by lia. apply HIR; try lia. apply Hx; lia.
      - rewrite setA_off by lia. apply H5; lia. }
    set (nl := fun i => dot O k (fun m => acl s i m) (fun m => bil' (i + k) (N - k - 1 + m))).
    set (nr := fun i => dot O k (fun m => air' i (1 + m)) (fun m => bcr s (i + k) (N - k + m))).
    assert (Hnl : forall i, (st <= i)%nat -> (i + k < N)%nat -> PL i (i + k) (nl i)).
    { intros i Hi HiN. apply HL; try lia; intros m Hm.
      - apply H1; lia.
      - replace (N - k - 1 + m)%nat with (N - 1 - (k - m))%nat by lia. replace (i + k)%nat with (i + m + (k - m))%nat by lia. apply Hbil; lia. }
    assert (Hnr : forall i, (st <= i)%nat -> (i + k < N)%nat -> PR i (i + k) (nr i)).
    { intros i Hi HiN. apply HR; try lia; intros m Hm.
      - replace (i + 1 + m)%nat with (i + (1 + m))%nat by lia. apply Hair; lia.
      - replace (N - k + m)%nat with (N - 1 - (k - 1 - m))%nat by lia. replace (i + k)%nat with (i + 1 + m + (k - 1 - m))%nat by lia. apply H4; lia. }
    unfold dp_step. fold x al ar bil' air' nl nr. unfold dcells. cbn [acl acr bcl bcr air bil].
    split; [|split; [|split; [|split; [|split]]]].
    - intros i w Hi Hw HiN. destruct (Nat.eq_dec w k) as [->|]; [rewrite setA_at by lia; apply Hnl; lia|rewrite setA_off by lia; apply H1; lia].
    - intros i w Hi Hw HiN. destruct (Nat.eq_dec w k) as [->|]; [rewrite setA_at by lia; apply Hnr; lia|rewrite setA_off by lia; apply H2; lia].
    - intros i w Hi Hw HiN. destruct (Nat.eq_dec w k) as [->|]; [rewrite setB_at by lia; replace (i + k - k)%nat with i by lia; apply Hnl; lia|rewrite setB_off by lia; apply H3; lia].
    - intros i w Hi Hw HiN. destruct (Nat.eq_dec w k) as [->|]; [rewrite setB_at by lia; replace (i + k - k)%nat with i by lia; apply Hnr; lia|rewrite setB_off by lia; apply H4; lia].
    - intros i w Hi Hw HiN. apply Hair; lia.
    - intros i w Hi Hw HiN. apply Hbil; lia.
  Qed.
  Lemma dcells_run : (st < N)%nat -> dcells (N - st - 1) (dp_run O N st arc).
  Proof.
    intro HN. unfold dp_run.
    assert (G : forall w, (w < N)%nat -> dcells w (fold_left (dp_step O N st arc) (seq 1 w) (dp_init O N))).
    { induction w; intro Hw; [apply dcells_init|].
      rewrite seq_S, fold_left_app. cbn [fold_left]. apply dcells_step; [lia|].
      replace (1 + w - 1)%nat with w by lia. apply IHw. lia. }
    apply G. lia.
  Qed.
End Charts.

(** ** The values that a call to DepTree computes for one row *)
(** deptree.py:61, 91-120: the label sums of all pairs (labelled case), the complete
    spans of all widths and the spans from the single root, whatever the lengths. The
    left spans of the last width (line 102, N-1 words) are not read again and autograd does
    not visit them. *)
Definition dep_values (mr : bool) (lab : option nat) (n b len : nat) : list term :=
  let N := (n + 1)%nat in let st := if mr then 0%nat else 1%nat in
  let arc := dp_arc tops TZero lab TLeaf b len in
  let s := dp_run tops N st arc in
  match lab with
  | None => []
  | Some _ => flat_map (fun h => map (fun c => arc h c) (seq 0 N)) (seq 0 N)
  end ++
  flat_map (fun i => map (fun k => acr s i k) (seq 1 (N - 1 - i))) (seq st (N - st)) ++
  flat_map (fun i => map (fun k => acl s i k) (seq 1 (Nat.min (N - 1 - i) (N - 2)))) (seq st (N - st)) ++
  (if mr then [] else map (fun w => dp_root tops N arc s w) (seq 1 (N - 1))) ++
  [dp_one tops mr lab n TZero TLeaf b len].

Section DepValues.
  Variables (mr : bool) (lab : option nat) (n b len : nat).
  Notation N := (n + 1)%nat.
  Notation st := (if mr then 0%nat else 1%nat).
  Notation arc := (dp_arc tops TZero lab TLeaf b len).
  Notation s := (dp_run tops N st arc).
  Hypothesis Hn : mr = false -> (1 <= n)%nat.
  Hypothesis Hlen : (len <= n)%nat.
  Lemma in_dep_values t : In t (dep_values mr lab n b len) <->
    (lab <> None /\ exists h c, (h <= n)%nat /\ (c <= n)%nat /\ t = arc h c) \/
    (exists i k, (st <= i)%nat /\ (1 <= k)%nat /\ (i + k <= n)%nat /\ t = acr s i k) \/
    (exists i k, (st <= i)%nat /\ (1 <= k < n)%nat /\ (i + k <= n)%nat /\ t = acl s i k) \/
    (mr = false /\ exists w, (1 <= w <= n)%nat /\ t = dp_root tops N arc s w) \/
    t = dp_one tops mr lab n TZero TLeaf b len.
  Proof.
    unfold dep_values. cbv zeta. rewrite !in_app_iff.
    assert (HS : (st <= 1)%nat) by (destruct mr; lia).
    assert (E1 : In t match lab with None => [] | Some _ => flat_map (fun h => map (fun c => arc h c) (seq 0 N)) (seq 0 N) end <->
      lab <> None /\ exists h c, (h <= n)%nat /\ (c <= n)%nat /\ t = arc h c).
    { destruct lab as [L|].
      - rewrite in_flat_map. split.
        + intros (h & Hh & H). apply in_map_iff in H as (c & <- & Hc). apply in_seq in Hh. apply in_seq in Hc. split; [discriminate|].
          exists h, c. repeat split; lia.
        + intros (_ & h & c & Hh & Hc & ->). exists h. split; [apply in_seq; lia|]. apply in_map_iff. exists c. split; [reflexivity|apply in_seq; lia].
      - split; [intros []|]. intros [H _]. congruence. }
    assert (E2 : In t (flat_map (fun i => map (fun k => acr s i k) (seq 1 (N - 1 - i))) (seq st (N - st))) <->
      exists i k, (st <= i)%nat /\ (1 <= k)%nat /\ (i + k <= n)%nat /\ t = acr s i k).
    { rewrite in_flat_map. split.
      - intros (i & Hi & H). apply in_map_iff in H as (k & <- & Hk). apply in_seq in Hi. apply in_seq in Hk. exists i, k. repeat split; lia.
      - intros (i & k & Hi & Hk & Hik & ->). exists i. split; [apply in_seq; lia|]. apply in_map_iff. exists k. split; [reflexivity|apply in_seq; lia]. }
    assert (E3 : In t (flat_map (fun i => map (fun k => acl s i k) (seq 1 (Nat.min (N - 1 - i) (N - 2)))) (seq st (N - st))) <->
      exists i k, (st <= i)%nat /\ (1 <= k < n)%nat /\ (i + k <= n)%nat /\ t = acl s i k).
    { rewrite in_flat_map. split.
      - intros (i & Hi & H). apply in_map_iff in H as (k & <- & Hk). apply in_seq in Hi. apply in_seq in Hk. exists i, k. repeat split; lia.
      - intros (i & k & Hi & Hk & Hik & ->). exists i. split; [apply in_seq; lia|]. apply in_map_iff. exists k. split; [reflexivity|apply in_seq; lia]. }
    assert (E4 : In t (if mr then [] else map (fun w => dp_root tops N arc s w) (seq 1 (N - 1))) <->
      mr = false /\ exists w, (1 <= w <= n)%nat /\ t = dp_root tops N arc s w).
    { clear Hn HS E1 E2 E3. destruct mr.
      - split; [intros []|]. intros [H _]. discriminate.
      - split.
        + intro H. apply in_map_iff in H as (w & <- & Hw). apply in_seq in Hw. split; [reflexivity|]. exists w. split; [lia|reflexivity].
        + intros (_ & w & Hw & ->). apply in_map_iff. exists w. split; [reflexivity|apply in_seq; lia]. }
    assert (E5 : In t [dp_one tops mr lab n TZero TLeaf b len] <-> t = dp_one tops mr lab n TZero TLeaf b len).
    { split; [intros [<-|[]]; reflexivity|intros ->; now left]. }
    rewrite E1, E2, E3, E4, E5. reflexivity.
  Qed.

  (** a property of terms that the spans have whenever the arcs between neighbours
      have it, and a weaker one that holds of all arcs *)
  Section Two.
    Variables Q P : term -> Prop.
    Hypothesis QP : forall t, Q t -> P t.
    Hypothesis Q1 : Q TOne.
    Hypothesis Pmul : forall x y, P x -> P y -> P (TMul x y).
    Hypothesis Qmul : forall x y, Q x -> Q y -> Q (TMul x y).
    (** one argument of the sum with the strong property is enough *)
    Hypothesis Qsum : forall l t, In t l -> Q t -> (forall u, In u l -> P u) -> Q (TSum l).
    Hypothesis Parc : forall h c, (h <= n)%nat -> (c <= n)%nat -> P (arc h c).
    Hypothesis Qr : forall i, (st <= i)%nat -> (i < n)%nat -> Q (arc i (i + 1)).
    Hypothesis Ql : forall i, (st <= i)%nat -> (i < n)%nat -> Q (arc (i + 1) i).
    Hypothesis Q0 : mr = false -> Q (arc 0 1).
    Lemma Qdot k a c m : (m < k)%nat -> Q (TMul (a m) (c m)) -> (forall u, (u < k)%nat -> P (a u) /\ P (c u)) -> Q (dot tops k a c).
    Proof.
      intros Hm H H'. unfold dot, matmul. cbn [ssum smul tops]. apply Qsum with (TMul (a m) (c m)).
      - apply in_map_iff. exists m. split; [reflexivity|apply in_seq; lia].
      - exact H.
      - intros u Hu. apply in_map_iff in Hu as (k' & <- & Hk). apply in_seq in Hk. apply Pmul; apply H'; lia.
    Qed.
    Lemma dep_cells : dcells tops N st (fun _ _ => Q) (fun _ _ => Q) (fun i j t => P t /\ (j = i + 1 -> Q t)%nat)
      (fun i j t => P t /\ (j = i + 1 -> Q t)%nat) (N - st - 1) s.
    Proof.
      assert (HS : (st <= 1)%nat) by (destruct mr; lia).
      apply dcells_run with (PX := fun _ _ => Q).
      - auto.
      - auto.
      - intros i k a c Hi Hk H0 Ha Hc. apply Qdot with 0%nat; [exact H0|apply Qmul; [apply Ha|apply Hc]; lia|].
        intros u Hu. split; apply QP; auto.
      - intros i k x Hi Hk H0 Hx. split; [apply Pmul; [auto|apply Parc; lia]|]. intro E. replace k with 1%nat by lia.
        apply Qmul; [exact Hx|apply Ql; lia].
      - intros i k x Hi Hk H0 Hx. split; [apply Pmul; [auto|apply Parc; lia]|]. intro E. replace k with 1%nat by lia.
        apply Qmul; [exact Hx|apply Qr; lia].
      - intros i k a c Hi Hk H0 Ha Hc. apply Qdot with (k - 1)%nat; [lia|apply Qmul; [apply Ha; lia|]|].
        + apply (Hc (k - 1)%nat); lia.
        + intros u Hu. split; [apply QP; auto|now apply Hc].
      - intros i k a c Hi Hk H0 Ha Hc. apply Qdot with 0%nat; [lia|apply Qmul; [|apply Hc; lia]|].
        + apply (Ha 0%nat); lia.
        + intros u Hu. split; [now apply Ha|apply QP; auto].
      - destruct mr; [lia|]. specialize (Hn eq_refl). lia.
    Qed.
    Lemma dep_acr0 : Q (acr s 0 0).
    Proof.
      pose proof dep_cells as (_ & H & _). revert H. destruct mr; intro H.
      - apply (H 0%nat 0%nat); lia.
      - assert (G : forall l t, acr t 0%nat 0%nat = TOne -> acr (fold_left (dp_step tops N 1 arc) l t) 0%nat 0%nat = TOne).
        { induction l as [|k l IH]; intros t Ht; [exact Ht|]. cbn [fold_left]. apply IH. unfold dp_step. cbn [acr]. exact Ht. }
        unfold dp_run. rewrite G; [exact Q1|]. reflexivity.
    Qed.
    Lemma dep_root_Q w : mr = false -> (1 <= w <= n)%nat -> Q (dp_root tops N arc s w).
    Proof.
      intros Em Hw. pose proof dep_cells as (H1 & _ & _ & H4 & _). rewrite Em in H1, H4 |- *. unfold dp_root.
      replace (1 <=? w)%nat with true by (symmetry; apply Nat.leb_le; lia).
      replace (w <? N)%nat with true by (symmetry; apply Nat.ltb_lt; lia). cbn [andb].
      assert (HB : forall m, (m < w)%nat -> Q (bcr (dp_run tops N 1 arc) w (N - w + m)%nat)).
      { intros m Hm. replace (N - w + m)%nat with (N - 1 - (w - 1 - m))%nat by lia.
        replace w with (1 + m + (w - 1 - m))%nat at 1 by lia. apply H4; lia. }
      apply Qdot with 0%nat; [lia| |].
      - apply Qmul; [|apply HB; lia]. unfold dp_root_inc. apply Qmul; [apply H1; lia|now apply Q0].
      - intros u Hu. split; [|apply QP, HB, Hu]. unfold dp_root_inc. apply Pmul; [apply QP, H1; lia|apply Parc; lia].
    Qed.
    Lemma dep_one_Q : Q (dp_one tops mr lab n TZero TLeaf b len).
    Proof.
      unfold dp_one. pose proof dep_cells as (_ & H & _). pose proof dep_acr0 as H0. pose proof dep_root_Q as HR. revert H H0 HR. destruct mr; intros H H0 HR.
      - apply (H 0%nat len); lia.
      - destruct len as [|w] eqn:El; [exact H0|]. apply (HR (S w) eq_refl). lia.
    Qed.
    Lemma dep_values_P : forall t, In t (dep_values mr lab n b len) -> P t.
    Proof.
      intros t Ht. apply in_dep_values in Ht as [(_ & h & c & Hh & Hc & ->)|[(i & k & Hi & Hk & Hik & ->)|[(i & k & Hi & Hk & Hik & ->)|[(Em & w & Hw & ->)| ->]]]].
      - apply Parc; lia.
      - apply QP. pose proof dep_cells as (_ & H & _). apply H; destruct mr; lia.
      - apply QP. pose proof dep_cells as (H & _). apply H; destruct mr; lia.
      - apply QP, dep_root_Q; auto.
      - apply QP, dep_one_Q.
    Qed.
  End Two.

  (** the sums of the shortest spans have one argument *)
  Lemma dep_short_r i : (st <= i)%nat -> (i < n)%nat -> exists x y, acr s i 1 = TSum [TMul (TMul x (arc i (i + 1))) y].
  Proof.
    intros Hi Hk. assert (HS : (st <= 1)%nat) by (destruct mr; lia).
    destruct (@dcells_run tops N st arc (fun _ _ _ => True) (fun i j t => j = i + 1 -> exists x y, t = TSum [TMul (TMul x (arc i (i + 1))) y])%nat
      (fun _ _ _ => True) (fun _ _ _ => True) (fun i j t => j = i + 1 -> exists x, t = TMul x (arc i (i + 1)))%nat) as (_ & H & _); auto.
    - intros i' Hi' Hn' E. lia.
    - intros i' k x _ _ _ _ E. exists x. replace k with 1%nat by lia. reflexivity.
    - intros i' k a c _ _ _ Ha _ E. replace k with 1%nat in * by lia. destruct (Ha 0%nat) as (x & Ex); [lia|lia|].
      exists x, (c 0%nat). unfold dot, matmul. cbn. now rewrite Ex.
    - lia.
    - apply (H i 1%nat); lia.
  Qed.
  Lemma dep_short_l i : (st <= i)%nat -> (i < n)%nat -> exists x y, acl s i 1 = TSum [TMul x (TMul y (arc (i + 1) i))].
  Proof.
    intros Hi Hk. assert (HS : (st <= 1)%nat) by (destruct mr; lia).
    destruct (@dcells_run tops N st arc (fun i j t => j = i + 1 -> exists x y, t = TSum [TMul x (TMul y (arc (i + 1) i))])%nat (fun _ _ _ => True)
      (fun _ _ _ => True) (fun i j t => j = i + 1 -> exists x, t = TMul x (arc (i + 1) i))%nat (fun _ _ _ => True)) as (H & _); auto.
    - intros i' Hi' Hn' E. lia.
    - intros i' k x _ _ _ _ E. exists x. replace k with 1%nat by lia. reflexivity.
    - intros i' k a c _ _ _ _ Hc E. replace k with 1%nat in * by lia. destruct (Hc 0%nat) as (x & Ex); [lia|lia|].
      exists (a 0%nat), x. unfold dot, matmul. cbn. rewrite Ex, Nat.add_0_r. reflexivity.
    - lia.
    - apply (H i 1%nat); lia.
  Qed.
  Lemma dep_short_root : mr = false -> exists x y, dp_root tops N arc s 1 = TSum [TMul (TMul x (arc 0 1)) y].
  Proof.
    intro Em. rewrite Em. unfold dp_root. replace (1 <? N)%nat with true by (symmetry; apply Nat.ltb_lt; specialize (Hn Em); lia).
    cbn [Nat.leb andb]. unfold dot, matmul, dp_root_inc. cbn. eauto.
  Qed.
End DepValues.

(** ** The values that a call to SemiMarkov computes for one row *)
(** semimarkov.py:75-86: the entries of all matrices of all rounds of the scan, and the
    result *)
Definition semi_values (K C log_N bin_N b len : nat) : list term :=
  let D := ((K - 1) * C)%nat in
  flat_map (fun r => flat_map (fun M => flat_map (fun i => map (fun j => M i j) (seq 0 D)) (seq 0 D))
    (scan tops D r (sm_chart tops TLeaf C b len bin_N))) (seq 0 (S log_N)) ++
  [sm_one tops K C log_N bin_N TLeaf b len].
Section SemiValues.
  Variable P : term -> Prop.
  Hypothesis HP : resp tops tops (fun t _ => P t).
  (** every potential enters a sum with a class constant (semimarkov.py:62-64) *)
  Hypothesis Hc : forall c x, c = TZero \/ c = TOne -> (exists e, x = TOver e \/ x = TLeaf e) -> P (TSum [c; x]).
  Lemma semi_chart C b len w : Forall2 (Rmat tops tops (fun t _ => P t)) (sm_chart tops TLeaf C b len w) (sm_chart tops TLeaf C b len w).
  Proof.
    unfold sm_chart. generalize 0%nat. induction w as [|w IHw]; intro k; cbn [seq map]; constructor; auto.
    intros i j. unfold sm_cell, fill. cbn [ssum tops szero sone sover]. destruct (j / C =? 0)%nat.
    - apply Hc; [|destruct (len - 1 <=? k)%nat; eauto]. destruct (negb _); auto. destruct (_ && _); auto.
    - destruct (_ && _); [apply (resp_one HP)|apply (resp_zero HP)].
  Qed.
  Lemma semi_values_P K C log_N bin_N b len : (2 <= K)%nat -> (0 < C)%nat -> forall t, In t (semi_values K C log_N bin_N b len) -> P t.
  Proof.
    intros HK HC t Ht. assert (HD : (0 < (K - 1) * C)%nat) by (apply Nat.mul_pos_pos; lia).
    assert (H : forall r, Forall2 (Rmat tops tops (fun t _ => P t)) (scan tops ((K - 1) * C) r (sm_chart tops TLeaf C b len bin_N))
      (scan tops ((K - 1) * C) r (sm_chart tops TLeaf C b len bin_N))).
    { intro r. apply (@resp_scan tops tops _ HP _ r _ _ HD). apply semi_chart. }
    unfold semi_values in Ht. cbv zeta in Ht. apply in_app_iff in Ht as [Ht|[<-|[]]].
    - apply in_flat_map in Ht as (r & _ & Ht). apply in_flat_map in Ht as (M & HM & Ht). apply in_flat_map in Ht as (i & _ & Ht).
      apply in_map_iff in Ht as (j & <- & _). specialize (H r).
      assert (G : forall l l', Forall2 (Rmat tops tops (fun t _ => P t)) l l' -> In M l -> P (M i j)).
      { induction 1 as [|x y l l' Hx _ IH]; intros []; [subst; apply Hx|auto]. }
      apply (G _ _ H HM).
    - unfold sm_one. specialize (H log_N). set (sc := scan _ _ _ _) in *. inversion H as [|M M' l l' HM _ El El']; [apply (resp_zero HP)|].
      apply (@resp_sum2 tops tops _ HP C M M' HC HM).
  Qed.
End SemiValues.
Lemma twf_resp : resp tops tops (fun t _ => twf t).
Proof.
  constructor; try (intros; constructor; auto; fail).
  cbn [ssum tops]. intros l l' Hl H. constructor; [exact Hl|]. clear Hl. induction H; constructor; auto.
Qed.
