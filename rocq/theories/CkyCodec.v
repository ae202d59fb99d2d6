(** * CkyCodec: model of torch_struct/cky.py:155-237 ([to_parts], [_intermediary]) *)
From Coq Require Import ZArith.
From Verif Require Import Base Ops Chain LinearChain SemiMarkov CkyCrf Cky DepSpec DepTree Tensor Codec.
Set Implicit Arguments.
Local Open Scope Z_scope.

(** ** Model *)
(** entries of [left[i]]: (A, j, j-i+1) for the cells (i, j, A) of the cover, in
    order; of [right[j]]: (A, i, j-i+1) (lines 174-175, 214-215). The width may be
    any integer: the cover is not required to be a chart. *)
Definition entry : Type := (nat * nat * Z)%type.
(** cky.py:172, 214: the width [j - i + 1] *)
Definition width (i j : nat) : Z := Z.of_nat j - Z.of_nat i + 1.
(** cky.py:172, 214: [left[i]] *)
Definition lefts (cover : list (list nat)) (i : nat) : list entry :=
  flat_map (fun e => match e with [i'; j; A] => if (i' =? i)%nat then [(A, j, width i' j)] else [] | _ => [] end) cover.
(** cky.py:173, 215: [right[j]] *)
Definition rights (cover : list (list nat)) (j : nat) : list entry :=
  flat_map (fun e => match e with [i; j'; A] => if (j' =? j)%nat then [(A, i, width i j')] else [] | _ => [] end) cover.
(** the test of lines 181 and 228 *)
Definition meets (i j : nat) (l r : entry) : bool :=
  let '(_, k, a) := l in let '(_, k2, b) := r in (k2 =? k + 1)%nat && (a + b =? width i j).
(** lines 178-183: the outer loop goes on after a match, the inner one breaks *)
Definition last_split (cover : list (list nat)) (i j : nat) : option (nat * nat) :=
  fold_left (fun acc l => match find (meets i j l) (rights cover j) with
                          | Some r => Some (fst (fst l), fst (fst r))
                          | None => acc end) (lefts cover i) None.
(** lines 184-186 *)
Definition add1 (t : tensor Z) (i : list nat) : tensor Z := upd t i (dat t i + 1).
(** cky.py:174-185: the loop body for one cell of the cover *)
Definition rule_step (NT S b : nat) (cover : list (list nat)) (rules : tensor Z) (e : list nat) : res (tensor Z) :=
  match e with
  | [i; j; A] =>
      if (i <? j)%nat then
        match last_split cover i j with
        | None => Err AssertionError
        | Some (B, C) => if (A <? NT)%nat && (B <? S)%nat && (C <? S)%nat then Ok (add1 rules [b; A; B; C]) else Err IndexError
        end
      else Ok rules
  | _ => Ok rules (* unreachable: the cover has three columns *)
  end.
(** cky.py:155-187 [to_parts]: [lengths] is indexed at line 165, so None fails
    with TypeError as soon as there is a row. *)
Definition row_tensor (t : tensor Z) (b : nat) : tensor Z := {| shape := tl (shape t); dat := fun i => dat t (b :: i) |}.
(** cky.py:155-187 [to_parts]: the loop over rows and cells *)
Definition cky_to_parts (spans : tensor Z) (NT T : nat) (lengths : option (list nat))
  : res (tensor Z * tensor Z * tensor Z) :=
  match shape spans with
  | [batch; N2; N; Sy] =>
      if negb (Sy =? NT + T)%nat then Err AssertionError else
      loop (fun st b =>
        let '(terms, rules, roots) := st in
        bind (match lengths with None => Err TypeError | Some ls => get_length ls b end) (fun l =>
        (* line 165 *)
        bind (if (N2 =? 0)%nat then Err IndexError else pyix N (Z.of_nat l - 1)) (fun last =>
        let roots := {| shape := shape roots;
              dat := fun i => match i with [b'; A] => if (b' =? b)%nat then dat spans [b; 0%nat; last; A] else dat roots i | _ => dat roots i end |} in
        (* lines 166-168 *)
        bind (if (l <=? Nat.min N2 N)%nat then Ok tt else Err IndexError) (fun _ =>
        let terms := {| shape := shape terms;
              dat := fun i => match i with [b'; n; t] => if (b' =? b)%nat && (n <? l)%nat then dat spans [b; n; n; (NT + t)%nat] else dat terms i | _ => dat terms i end |} in
        (* lines 169-186 *)
        let cover := nonzero (row_tensor spans b) in
        bind (loop (rule_step NT Sy b cover) cover rules) (fun rules => Ok (terms, rules, roots))))))
      (seq 0 batch) (zeros [batch; N; T], zeros [batch; NT; Sy; Sy], zeros [batch; NT])
  | _ => Err ValueError
  end.

(** cky.py:204-237 [_intermediary]: here the first match is kept (line 233-234)
    and entries with k > j are skipped (225-226). One row; the dictionary is a
    function of (i, j). *)
Definition first_split (cover : list (list nat)) (i j : nat) : option (nat * nat * nat) :=
  fold_left (fun acc l =>
    match acc with
    | Some _ => acc
    | None =>
        let '(B, k, _) := l in
        if (j <? k)%nat then None
        else match find (meets i j l) (rights cover j) with Some r => Some (k, B, fst (fst r)) | None => None end
    end) (lefts cover i) None.
(** cky.py:204-237 [_intermediary]: the loop over the cells *)
Definition cky_intermediary (cover : list (list nat)) : res (nat -> nat -> option (nat * nat * nat)) :=
  loop (fun splits e =>
    match e with
    | [i; j; A] =>
        if (i =? j)%nat then Ok splits else
        match first_split cover i j with
        | None => Err AssertionError
        | Some v => Ok (fun i' j' => if (i' =? i)%nat && (j' =? j)%nat then Some v else splits i' j')
        end
    | _ => Ok splits (* unreachable *)
    end) cover (fun _ _ => None).

(** ** Specification: the span chart of a parse tree *)
Fixpoint pspans (NT i : nat) (p : ptree) : list (list nat) :=
  match p with
  | PT t => [[i; i; (NT + t)%nat]]
  | PN x l r => [i; (i + (psize l + psize r) - 1)%nat; x] :: pspans NT i l ++ pspans NT (i + psize l) r
  end.
(** subtree q of p (which starts at i0) occurs at position i *)
Inductive occurs (p : ptree) (i0 : nat) : nat -> ptree -> Prop :=
| occ_here : occurs p i0 i0 p
| occ_l i x l r : occurs p i0 i (PN x l r) -> occurs p i0 i l
| occ_r i x l r : occurs p i0 i (PN x l r) -> occurs p i0 (i + psize l) r.

(** ** Lemmas *)
Lemma pspans_in NT p : forall i e, In e (pspans NT i p) ->
  exists a k s, e = [a; k; s] /\ (i <= a)%nat /\ (a <= k)%nat /\ (k < i + psize p)%nat.
Proof.
  induction p as [t|x l IHl r IHr]; intros i e H; cbn [pspans] in H.
  - destruct H as [<-|[]]. exists i, i, (NT + t)%nat. simpl. lia || (split; [reflexivity|lia]).
  - pose proof (psize_pos l). pose proof (psize_pos r). cbn [psize]. destruct H as [<-|H].
    + do 3 eexists. split; [reflexivity|]. lia.
    + apply in_app_iff in H as [H|H]; [apply IHl in H|apply IHr in H]; destruct H as (a & k & s & -> & H');
        exists a, k, s; split; auto; lia.
Qed.
Lemma pspans_top NT p i : In [i; (i + psize p - 1)%nat; psym NT p] (pspans NT i p).
Proof. destruct p; cbn [pspans psize psym]; left; [|reflexivity]. repeat f_equal. lia. Qed.
Lemma occurs_spans NT p i0 i q : occurs p i0 i q -> incl (pspans NT i q) (pspans NT i0 p).
Proof.
  induction 1; [apply incl_refl| |]; (eapply incl_tran; [|eassumption]); intros e He; cbn [pspans]; right; apply in_app_iff; auto.
Qed.

(** two spans of a tree are disjoint or nested, and a span has one symbol *)
Lemma pspans_laminar NT p : forall i a k s a' k' s',
  In [a; k; s] (pspans NT i p) -> In [a'; k'; s'] (pspans NT i p) ->
  (k < a' \/ k' < a \/ (a <= a' /\ k' <= k) \/ (a' <= a /\ k <= k'))%nat /\
  (a = a' -> k = k' -> s = s').
Proof.
  induction p as [t|x l IHl r IHr]; intros i a k s a' k' s' H H'; cbn [pspans] in H, H'.
  - destruct H as [[= <- <- <-]|[]], H' as [[= <- <- <-]|[]]. split; [lia|auto].
  - pose proof (psize_pos l). pose proof (psize_pos r).
    assert (Bl : forall a k s, In [a; k; s] (pspans NT i l) -> (i <= a <= k /\ k < i + psize l)%nat).
    { intros a0 k0 s0 Hx. apply pspans_in in Hx as (? & ? & ? & [= <- <- <-] & ?). lia. }
    assert (Br : forall a k s, In [a; k; s] (pspans NT (i + psize l) r) -> (i + psize l <= a <= k /\ k < i + psize l + psize r)%nat).
    { intros a0 k0 s0 Hx. apply pspans_in in Hx as (? & ? & ? & [= <- <- <-] & ?). lia. }
    destruct H as [E|H]; [injection E as <- <- <-|]; (destruct H' as [E'|H']; [injection E' as <- <- <-|]).
    + split; [lia|auto].
    + apply in_app_iff in H' as [H'|H']; [apply Bl in H'|apply Br in H']; (split; [lia|intros; lia]).
    + apply in_app_iff in H as [H|H]; [apply Bl in H|apply Br in H]; (split; [lia|intros; lia]).
    + apply in_app_iff in H as [H|H]; apply in_app_iff in H' as [H'|H'].
      * eapply IHl; eauto.
      * apply Bl in H. apply Br in H'. split; [lia|intros; lia].
      * apply Br in H. apply Bl in H'. split; [lia|intros; lia].
      * eapply IHr; eauto.
Qed.
Lemma pspans_nodup NT p : forall i, NoDup (pspans NT i p).
Proof.
  induction p as [t|x l IHl r IHr]; intro i; cbn [pspans]; [repeat constructor; auto|].
  pose proof (psize_pos l). pose proof (psize_pos r). constructor.
  - intro H'. apply in_app_iff in H' as [H'|H']; apply pspans_in in H' as (? & ? & ? & [= <- <- <-] & ?); lia.
  - apply NoDup_app2; auto. intros e H1 H2. apply pspans_in in H1 as (a & k & s & -> & H1).
    apply pspans_in in H2 as (? & ? & ? & [= <- <- <-] & ?). lia.
Qed.

(** the split of a node is the only pair of spans that meet inside it *)
Lemma split_unique NT p i0 i x l r : occurs p i0 i (PN x l r) ->
  let j := (i + (psize l + psize r) - 1)%nat in let m := (i + psize l - 1)%nat in
  In [i; m; psym NT l] (pspans NT i0 p) /\ In [(m + 1)%nat; j; psym NT r] (pspans NT i0 p) /\
  forall k B C, In [i; k; B] (pspans NT i0 p) -> In [(k + 1)%nat; j; C] (pspans NT i0 p) ->
    k = m /\ B = psym NT l /\ C = psym NT r.
Proof.
  intros H j m. pose proof (psize_pos l) as Hl0. pose proof (psize_pos r) as Hr0.
  assert (Hl : In [i; m; psym NT l] (pspans NT i0 p)).
  { eapply occurs_spans; [eapply occ_l; eauto|]. apply pspans_top. }
  assert (Hr : In [(m + 1)%nat; j; psym NT r] (pspans NT i0 p)).
  { eapply occurs_spans; [eapply occ_r; eauto|]. replace (m + 1)%nat with (i + psize l)%nat by lia.
    replace j with (i + psize l + psize r - 1)%nat by lia. apply pspans_top. }
  split; [exact Hl|]. split; [exact Hr|]. intros k B C H1 H2.
  assert (Hk : (i <= k /\ k + 1 <= j)%nat).
  { pose proof (pspans_in _ _ _ _ H1) as (? & ? & ? & [= <- <- <-] & ?).
    pose proof (pspans_in _ _ _ _ H2) as (? & ? & ? & [= <- <- <-] & ?). lia. }
  assert (k = m).
  { destruct (pspans_laminar _ _ _ _ _ _ _ _ _ Hl H2) as [G1 _]. destruct (pspans_laminar _ _ _ _ _ _ _ _ _ Hr H1) as [G2 _]. lia. }
  subst k. split; auto. split.
  - destruct (pspans_laminar _ _ _ _ _ _ _ _ _ H1 Hl) as [_ G]. auto.
  - destruct (pspans_laminar _ _ _ _ _ _ _ _ _ H2 Hr) as [_ G]. auto.
Qed.

Lemma lefts_in cover i A k w : In (A, k, w) (lefts cover i) <-> In [i; k; A] cover /\ w = width i k.
Proof.
  unfold lefts. rewrite in_flat_map. split.
  - intros (e & He & H). destruct e as [|i' [|j' [|A' [|]]]]; try destruct H.
    destruct (Nat.eqb_spec i' i); [|destruct H]. subst. destruct H as [[= -> -> ->]|[]]. auto.
  - intros [H ->]. exists [i; k; A]. split; auto. rewrite Nat.eqb_refl. left; auto.
Qed.
Lemma rights_in cover j A k w : In (A, k, w) (rights cover j) <-> In [k; j; A] cover /\ w = width k j.
Proof.
  unfold rights. rewrite in_flat_map. split.
  - intros (e & He & H). destruct e as [|i' [|j' [|A' [|]]]]; try destruct H.
    destruct (Nat.eqb_spec j' j); [|destruct H]. subst. destruct H as [[= -> -> ->]|[]]. auto.
  - intros [H ->]. exists [k; j; A]. split; auto. rewrite Nat.eqb_refl. left; auto.
Qed.

Section Cover.
  Variables (NT : nat) (p : ptree) (cover : list (list nat)).
  Hypothesis Hcov : forall e, In e cover <-> In e (pspans NT 0 p).

  Section Node.
    Variables (i x : nat) (l r : ptree).
    Hypothesis Hocc : occurs p 0 i (PN x l r).
    Let j := (i + (psize l + psize r) - 1)%nat.
    Let m := (i + psize l - 1)%nat.

    (** a successful inner search finds the right child *)
    Lemma find_split B k w rr : In (B, k, w) (lefts cover i) -> find (meets i j (B, k, w)) (rights cover j) = Some rr ->
      k = m /\ B = psym NT l /\ fst (fst rr) = psym NT r.
    Proof.
      intros Hl Hf. apply find_some in Hf as [Hr Hm]. destruct rr as [[C k2] w2]. cbn [meets fst] in *.
      apply andb_true_iff in Hm as [Hk _]. apply Nat.eqb_eq in Hk. subst k2.
      apply lefts_in in Hl as [Hl _]. apply rights_in in Hr as [Hr _]. rewrite Hcov in Hl, Hr.
      destruct (@split_unique NT p 0 i x l r Hocc) as (_ & _ & U). fold j m in U. destruct (U k B C Hl Hr) as (-> & -> & ->). auto.
    Qed.
    (** and the search from the left child succeeds *)
    Lemma left_entry : exists w rr, In (psym NT l, m, w) (lefts cover i) /\
      find (meets i j (psym NT l, m, w)) (rights cover j) = Some rr.
    Proof.
      destruct (@split_unique NT p 0 i x l r Hocc) as (Hl & Hr & _). fold j m in Hl, Hr.
      rewrite <- Hcov in Hl, Hr. exists (width i m).
      pose proof (psize_pos l). pose proof (psize_pos r).
      assert (In (psym NT r, (m + 1)%nat, width (m + 1) j) (rights cover j)) by (apply rights_in; auto).
      destruct (find (meets i j (psym NT l, m, width i m)) (rights cover j)) as [rr|] eqn:E.
      - exists rr. split; auto. apply lefts_in. auto.
      - exfalso. eapply find_none in E; [|eauto]. cbn [meets] in E. rewrite Nat.eqb_refl in E. cbn [andb] in E.
        apply Z.eqb_neq in E. apply E. unfold width. lia.
    Qed.

    Lemma last_split_ok : last_split cover i j = Some (psym NT l, psym NT r).
    Proof.
      unfold last_split. destruct left_entry as (w & rr & Hin & Hf).
      assert (G : forall ls acc, incl ls (lefts cover i) ->
        (In (psym NT l, m, w) ls \/ acc = Some (psym NT l, psym NT r)) ->
        fold_left (fun acc l => match find (meets i j l) (rights cover j) with
                          | Some r => Some (fst (fst l), fst (fst r)) | None => acc end) ls acc = Some (psym NT l, psym NT r)).
      { induction ls as [|[[B k] w'] ls IH]; intros acc Hi Ha; [destruct Ha as [[]|Ha]; auto|]. cbn [fold_left fst].
        assert (Hi' : incl ls (lefts cover i)) by (intros e He; apply Hi; right; auto).
        apply IH; auto. destruct (find (meets i j (B, k, w')) (rights cover j)) as [rr'|] eqn:E.
        - right. destruct (@find_split B k w' rr') as (_ & -> & ->); auto. apply Hi. left; auto.
        - destruct Ha as [[Ha|Ha]|Ha]; auto. injection Ha as -> -> ->. congruence. }
      apply G; [apply incl_refl|auto].
    Qed.
    Lemma first_split_ok : first_split cover i j = Some (m, psym NT l, psym NT r).
    Proof.
      unfold first_split. destruct left_entry as (w & rr & Hin & Hf).
      pose proof (psize_pos l). pose proof (psize_pos r).
      assert (G : forall ls acc, incl ls (lefts cover i) ->
        (acc = Some (m, psym NT l, psym NT r) \/ acc = None /\ In (psym NT l, m, w) ls) ->
        fold_left (fun acc l =>
          match acc with
          | Some _ => acc
          | None => let '(B, k, _) := l in
             if (j <? k)%nat then None
             else match find (meets i j l) (rights cover j) with Some r => Some (k, B, fst (fst r)) | None => None end
          end) ls acc = Some (m, psym NT l, psym NT r)).
      { induction ls as [|[[B k] w'] ls IH]; intros acc Hi Ha; [destruct Ha as [Ha|[_ []]]; auto|]. cbn [fold_left].
        assert (Hi' : incl ls (lefts cover i)) by (intros e He; apply Hi; right; auto).
        apply IH; auto. destruct Ha as [->|[-> Ha]]; [left; auto|].
        destruct (Nat.ltb_spec j k) as [Hjk|Hjk].
        - right. split; auto. destruct Ha as [Ha|Ha]; auto. injection Ha as _ Ek _. rewrite Ek in Hjk. unfold j, m in Hjk. lia.
        - destruct (find (meets i j (B, k, w')) (rights cover j)) as [rr'|] eqn:E.
          + left. destruct (@find_split B k w' rr') as (-> & -> & ->); auto. apply Hi. left; auto.
          + right. split; auto. destruct Ha as [Ha|Ha]; auto. injection Ha as -> -> ->. congruence. }
      apply G; [apply incl_refl|auto].
    Qed.
  End Node.
End Cover.

(** every wide span of the tree is the span of a node *)
Lemma wide_node NT p i0 : forall i q, occurs p i0 i q -> forall a k s, In [a; k; s] (pspans NT i q) -> (a < k)%nat ->
  exists x l r, occurs p i0 a (PN x l r) /\ k = (a + (psize l + psize r) - 1)%nat /\ s = x.
Proof.
  intros i q. revert i. induction q as [t|x l IHl r IHr]; intros i Ho a k s H Hlt; cbn [pspans] in H.
  - destruct H as [[= <- <- <-]|[]]. lia.
  - destruct H as [[= <- <- <-]|H]; [exists x, l, r; auto|].
    apply in_app_iff in H as [H|H].
    + eapply IHl; eauto. eapply occ_l; eauto.
    + eapply IHr; eauto. eapply occ_r; eauto.
Qed.

Lemma add1_shape l : forall t, shape (fold_left add1 l t) = shape t.
Proof. induction l as [|i l IH]; intro t; [reflexivity|]. cbn [fold_left]. rewrite IH. reflexivity. Qed.
Lemma add1_dat l : forall t j, dat (fold_left add1 l t) j = dat t j + Z.of_nat (count_occ idx_dec l j).
Proof.
  induction l as [|i l IH]; intros t j; [simpl; lia|]. cbn [fold_left count_occ]. rewrite IH. unfold add1, upd. cbn [dat].
  destruct (idx_dec j i) as [E1|E1], (idx_dec i j) as [E2|E2]; try congruence; try rewrite E1; lia.
Qed.
Lemma fold_add1 (g : list nat -> list (list nat)) l : forall t,
  fold_left (fun t e => fold_left add1 (g e) t) l t = fold_left add1 (flat_map g l) t.
Proof.
  induction l as [|e l IH]; intro t; [reflexivity|]. cbn [fold_left flat_map]. rewrite IH, fold_left_app. reflexivity.
Qed.
Lemma count_occ_perm l l' (x : list nat) : Permutation l l' -> count_occ idx_dec l x = count_occ idx_dec l' x.
Proof. intro H. now apply (Permutation_count_occ idx_dec). Qed.

(** the rule used at a span, as recorded by the loop *)
Definition rule_of (b : nat) (cover : list (list nat)) (e : list nat) : list (list nat) :=
  match e with
  | [i; j; A] => if (i <? j)%nat then match last_split cover i j with Some (B, C) => [[b; A; B; C]] | None => [] end else []
  | _ => []
  end.

Section Row.
  Variables (NT T b : nat) (p : ptree) (cover : list (list nat)).
  Hypothesis Hb : pbounded NT T p.
  Hypothesis Hn : NoDup cover.
  Hypothesis Hcov : forall e, In e cover <-> In e (pspans NT 0 p).

  Lemma occurs_bounded i q : occurs p 0 i q -> pbounded NT T q.
  Proof. induction 1; simpl in *; tauto. Qed.

  Lemma row_loop t : loop (rule_step NT (NT + T) b cover) cover t = Ok (fold_left add1 (flat_map (rule_of b cover) cover) t).
  Proof.
    rewrite (@loop_ok _ _ _ (fun t e => fold_left add1 (rule_of b cover e) t)).
    - f_equal. apply fold_add1.
    - intros t0 e He. apply Hcov in He. pose proof He as He2. apply pspans_in in He2 as (i & j & A & -> & Hij).
      unfold rule_step, rule_of. destruct (Nat.ltb_spec i j) as [Hlt|]; [|reflexivity].
      destruct (@wide_node NT p 0 0 p (occ_here p 0) i j A He Hlt) as (x & l & r & Ho & -> & ->).
      rewrite (@last_split_ok NT p cover Hcov i x l r Ho).
      pose proof (occurs_bounded Ho) as (Bx & Bl & Br). apply psym_lt in Bl, Br.
      apply Nat.ltb_lt in Bx, Bl, Br. rewrite Bx, Bl, Br. reflexivity.
  Qed.

  (** counting rules over the spans is counting rules over the tree *)
  Lemma rules_count x y z i q : occurs p 0 i q ->
    count_occ idx_dec (flat_map (rule_of b cover) (pspans NT i q)) [b; x; y; z] = count_occ idx_dec (pparts NT b i q) [1; b; x; y; z]%nat.
  Proof.
    revert i. induction q as [t|x' l IHl r IHr]; intros i Ho; cbn [pspans pparts flat_map].
    - cbn [rule_of]. rewrite Nat.ltb_irrefl. cbn [app count_occ]. destruct (idx_dec _ _) as [E|]; [discriminate E|reflexivity].
    - pose proof (psize_pos l). pose proof (psize_pos r).
      rewrite flat_map_app, !count_occ_app. rewrite IHl by (eapply occ_l; eauto). rewrite IHr by (eapply occ_r; eauto).
      cbn [rule_of]. destruct (Nat.ltb_spec i (i + (psize l + psize r) - 1)); [|lia].
      rewrite (@last_split_ok NT p cover Hcov i x' l r Ho). cbn [count_occ].
      rewrite count_occ_app.
      destruct (idx_dec [b; x'; psym NT l; psym NT r] [b; x; y; z]) as [E|E],
               (idx_dec [1; b; x'; psym NT l; psym NT r]%nat [1; b; x; y; z]%nat) as [E'|E']; try lia; exfalso.
      + apply E'. now injection E as -> -> ->.
      + apply E. now injection E' as -> -> ->.
  Qed.
  Lemma row_rules x y z :
    count_occ idx_dec (flat_map (rule_of b cover) cover) [b; x; y; z] = count_occ idx_dec (pparts NT b 0 p) [1; b; x; y; z]%nat.
  Proof.
    rewrite <- rules_count by constructor. apply count_occ_perm. apply Permutation_flat_map.
    apply NoDup_Permutation; auto. apply pspans_nodup.
  Qed.
End Row.

(** leaves and the root are read off the chart *)
Lemma leaf_count NT T b p : pbounded NT T p -> forall i n t,
  count_occ idx_dec (pspans NT i p) [n; n; (NT + t)%nat] = count_occ idx_dec (pparts NT b i p) [0%nat; b; n; t].
Proof.
  induction p as [t0|x l IHl r IHr]; intros Hb i n t; cbn [pspans pparts count_occ].
  - destruct (idx_dec [i; i; (NT + t0)%nat] [n; n; (NT + t)%nat]) as [E|E], (idx_dec [0%nat; b; i; t0] [0%nat; b; n; t]) as [E'|E']; auto; exfalso.
    + apply E'. injection E as -> _ E. assert (t0 = t) by lia. now subst.
    + apply E. injection E' as -> ->. reflexivity.
  - destruct Hb as (Hx & Hl & Hr). rewrite !count_occ_app, IHl, IHr by auto.
    destruct (idx_dec [i; _; x] [n; n; (NT + t)%nat]) as [E|E]; [injection E as _ _ E; lia|].
    destruct (idx_dec [1%nat; b; x; _; _] _) as [E'|E']; [discriminate E'|reflexivity].
Qed.
Lemma root_count NT p i x : (2 <= psize p)%nat ->
  count_occ idx_dec (pspans NT i p) [i; (i + psize p - 1)%nat; x] = if Nat.eq_dec (psym NT p) x then 1%nat else 0%nat.
Proof.
  destruct p as [t|y l r]; cbn [psize]; [lia|]. intros _. cbn [pspans psym count_occ].
  pose proof (psize_pos l). pose proof (psize_pos r).
  rewrite (proj1 (count_occ_not_In idx_dec _ _)).
  - destruct (idx_dec _ _) as [E|E], (Nat.eq_dec y x) as [E'|E']; auto; exfalso.
    + injection E as ->. auto.
    + subst. auto.
  - intro Hi. apply in_app_iff in Hi as [Hi|Hi]; apply pspans_in in Hi as (? & ? & ? & [= <- <- <-] & ?); lia.
Qed.

Lemma loop_inv S X (f : S -> X -> res S) (P : list X -> S -> Prop) l s0 :
  P [] s0 -> (forall pre x s, (exists post, l = pre ++ x :: post) -> P pre s -> exists s', f s x = Ok s' /\ P (pre ++ [x]) s') ->
  exists s', loop f l s0 = Ok s' /\ P l s'.
Proof.
  intros H0 H. enough (G : forall post pre s, l = pre ++ post -> P pre s -> exists s', loop f post s = Ok s' /\ P l s').
  { apply (G l []); auto. }
  induction post as [|x post IH]; intros pre s E Hp.
  - rewrite app_nil_r in E. subst. exists s. auto.
  - destruct (H pre x s) as (s' & Es & Hp'); [eauto|auto|]. cbn [loop]. rewrite Es. cbn [bind].
    apply (IH (pre ++ [x])); auto. now rewrite <- app_assoc.
Qed.
Lemma seq_split_at n pre x post : seq 0 n = pre ++ x :: post -> x = length pre /\ (x < n)%nat.
Proof.
  intro H. assert (Hx : nth (length pre) (seq 0 n) 0%nat = x) by (rewrite H, app_nth2, Nat.sub_diag by lia; reflexivity).
  assert (length pre < n)%nat.
  { apply (f_equal (@length nat)) in H. rewrite seq_length, app_length in H. cbn [length] in H. lia. }
  rewrite seq_nth in Hx by auto. simpl in Hx. lia.
Qed.

Theorem cky_to_parts_spec spans NT T ls batch N (ps : nat -> ptree) :
  shape spans = [batch; N; N; (NT + T)%nat] -> (batch <= length ls)%nat ->
  (forall b, (b < batch)%nat -> is_parse NT T (nth b ls 0%nat) (ps b) /\ (nth b ls 0 <= N)%nat /\
     represents spans b (map (cons b) (pspans NT 0 (ps b)))) ->
  exists terms rules roots, cky_to_parts spans NT T (Some ls) = Ok (terms, rules, roots) /\
    shape terms = [batch; N; T] /\ shape rules = [batch; NT; (NT + T)%nat; (NT + T)%nat] /\ shape roots = [batch; NT] /\
    forall b, (b < batch)%nat ->
      (forall n t, (n < N)%nat -> (t < T)%nat -> dat terms [b; n; t] = Z.of_nat (count_occ idx_dec (parse_parts NT b (ps b)) [0%nat; b; n; t])) /\
      (forall x y z, dat rules [b; x; y; z] = Z.of_nat (count_occ idx_dec (parse_parts NT b (ps b)) [1%nat; b; x; y; z])) /\
      (forall x, (x < NT)%nat -> dat roots [b; x] = Z.of_nat (count_occ idx_dec (parse_parts NT b (ps b)) [2%nat; b; x])).
Proof.
  intros Hs Hls Hp. unfold cky_to_parts. rewrite Hs, Nat.eqb_refl. cbn [negb].
  set (cov := fun b => nonzero (row_tensor spans b)).
  assert (Hcov : forall b, (b < batch)%nat -> NoDup (cov b) /\ forall e, In e (cov b) <-> In e (pspans NT 0 (ps b))).
  { intros b Hb. destruct (Hp b Hb) as ((Hsz & Hbd & Hsy) & HlN & Hr).
    assert (Hnd : NoDup (indexes [N; N; (NT + T)%nat])).
    { clear. generalize [N; N; (NT + T)%nat]. induction l as [|n sh IH]; cbn [indexes]; [repeat constructor; auto|].
      apply NoDup_flat_map; [apply seq_NoDup| |].
      - intros i _. apply NoDup_map_inj; [congruence|auto].
      - intros i j e _ _ H1 H2. apply in_map_iff in H1 as (? & <- & _). now apply in_map_iff in H2 as (? & [= -> _] & _). }
    split.
    - unfold cov, nonzero. apply NoDup_filter. cbn [row_tensor shape]. rewrite Hs. exact Hnd.
    - intro e. unfold cov. rewrite nonzero_in. cbn [row_tensor shape dat]. rewrite Hs. cbn [tl].
      assert (Hn2 : NoDup (map (cons b) (pspans NT 0 (ps b)))) by (apply NoDup_map_inj; [congruence|apply pspans_nodup]).
      split.
      + intros [Hi Hd]. apply (represents_in Hn2 Hr) in Hd; [|now rewrite Hs].
        apply in_map_iff in Hd as (e' & [= ->] & Hd). exact Hd.
      + intro Hi. pose proof Hi as Hi2. apply pspans_in in Hi2 as (a & k & s & -> & Hak).
        assert (Hsym : (s < NT + T)%nat).
        { clear - Hbd Hi. revert Hi. generalize 0%nat as i. induction (ps b) as [t|x l IHl r IHr]; intros i Hi; cbn [pspans] in Hi.
          - destruct Hi as [[= _ _ <-]|[]]. simpl in Hbd. lia.
          - destruct Hbd as (B1 & B2 & B3). destruct Hi as [[= _ _ <-]|Hi]; [lia|]. apply in_app_iff in Hi as [Hi|Hi]; eauto. }
        assert (B : Forall2 lt [a; k; s] [N; N; (NT + T)%nat]) by (f2; lia).
        split; auto. apply (represents_in Hn2 Hr); [now rewrite Hs|]. apply in_map. exact Hi. }
  set (P := fun (pre : list nat) (st : tensor Z * tensor Z * tensor Z) => let '(terms, rules, roots) := st in
    shape terms = [batch; N; T] /\ shape rules = [batch; NT; (NT + T)%nat; (NT + T)%nat] /\ shape roots = [batch; NT] /\
    (forall b n t, dat terms [b; n; t] = if (b <? length pre)%nat && (n <? nth b ls 0)%nat then dat spans [b; n; n; (NT + t)%nat] else 0) /\
    (forall b x y z, dat rules [b; x; y; z] = if (b <? length pre)%nat then Z.of_nat (count_occ idx_dec (pparts NT b 0 (ps b)) [1%nat; b; x; y; z]) else 0) /\
    (forall b x, dat roots [b; x] = if (b <? length pre)%nat then dat spans [b; 0%nat; (nth b ls 0 - 1)%nat; x] else 0)).
  match goal with |- context [loop ?f ?l ?s0] =>
    destruct (@loop_inv _ _ f P l s0) as ([[terms rules] roots] & E & HP) end.
  - repeat split; intros; reflexivity.
  - intros pre b [[terms rules] roots] [post Epost] (S1 & S2 & S3 & V1 & V2 & V3).
    apply seq_split_at in Epost as [Hpre Hb]. destruct (Hp b Hb) as ((Hsz & Hbd & Hsy) & HlN & Hr).
    destruct (Hcov b Hb) as [Hnd Hc].
    assert (Hl2 : (2 <= nth b ls 0)%nat).
    { rewrite <- Hsz. destruct (ps b) as [t|x l r]; simpl in *; [lia|]. pose proof (psize_pos l). pose proof (psize_pos r). lia. }
    rewrite get_length_ok by lia. cbn [bind]. destruct (Nat.eqb_spec N 0) as [|_]; [lia|].
    rewrite pyix_in by lia. cbn [bind]. replace (Z.to_nat (Z.of_nat (nth b ls 0%nat) - 1)) with (nth b ls 0 - 1)%nat by lia.
    destruct (Nat.leb_spec (nth b ls 0%nat) (Nat.min N N)); [|lia]. cbn [bind].
    fold (cov b). rewrite (@row_loop NT T b (ps b) (cov b) Hbd Hc). cbn [bind].
    eexists. split; [reflexivity|].
    assert (Hlt : forall b', (b' <? S (length pre))%nat = (b' <? length pre)%nat || (b' =? b)%nat).
    { intro b'. destruct (Nat.ltb_spec b' (S (length pre))), (Nat.ltb_spec b' (length pre)), (Nat.eqb_spec b' b); simpl; lia || reflexivity. }
    assert (Hbb : (b <? length pre)%nat = false) by (apply Nat.ltb_ge; lia).
    unfold P. rewrite app_length. cbn [length]. rewrite Nat.add_1_r. cbn [shape dat]. split; [exact S1|]. split; [rewrite add1_shape; exact S2|]. split; [exact S3|]. split; [|split].
    + intros b' n t. rewrite Hlt. destruct (Nat.eqb_spec b' b) as [->|Hne].
      * rewrite orb_true_r. cbn [andb]. destruct (n <? nth b ls 0)%nat; [reflexivity|]. rewrite V1, Hbb. reflexivity.
      * rewrite orb_false_r. cbn [andb]. apply V1.
    + intros b' x y z. rewrite add1_dat, V2, Hlt. destruct (Nat.eqb_spec b' b) as [->|Hne].
      * rewrite orb_true_r, Hbb. rewrite (@row_rules NT b (ps b) (cov b) Hnd Hc). lia.
      * rewrite orb_false_r. rewrite (proj1 (count_occ_not_In idx_dec (flat_map _ _) _)); [apply Z.add_0_r|].
        intro Hi. apply in_flat_map in Hi as (e & _ & Hi). unfold rule_of in Hi.
        destruct e as [|i [|j [|A [|]]]]; try destruct Hi. destruct (i <? j)%nat; [|destruct Hi].
        destruct (last_split (cov b) i j) as [[? ?]|]; [|destruct Hi]. destruct Hi as [Hi|[]]. injection Hi as E1 _. congruence.
    + intros b' x. rewrite Hlt. destruct (Nat.eqb_spec b' b) as [->|Hne].
      * rewrite orb_true_r. reflexivity.
      * rewrite orb_false_r. apply V3.
  - exists terms, rules, roots. split; [exact E|]. destruct HP as (S1 & S2 & S3 & V1 & V2 & V3).
    rewrite seq_length in V1, V2, V3. split; [exact S1|]. split; [exact S2|]. split; [exact S3|].
    intros b Hb. destruct (Hp b Hb) as ((Hsz & Hbd & Hsy) & HlN & Hr).
    assert (Hbb : (b <? batch)%nat = true) by (now apply Nat.ltb_lt).
    assert (Hl2 : (2 <= nth b ls 0)%nat).
    { rewrite <- Hsz. destruct (ps b) as [t|x l r]; simpl in *; [lia|]. pose proof (psize_pos l). pose proof (psize_pos r). lia. }
    assert (Hval : forall i, Forall2 lt i [N; N; (NT + T)%nat] -> dat spans (b :: i) = Z.of_nat (count_occ idx_dec (pspans NT 0 (ps b)) i)).
    { intros i Hi. rewrite Hr by (now rewrite Hs). f_equal. clear. induction (pspans NT 0 (ps b)) as [|e l IH]; [reflexivity|].
      cbn [map count_occ]. rewrite IH. destruct (idx_dec (b :: e) (b :: i)), (idx_dec e i); congruence. }
    unfold parse_parts. cbn [count_occ]. split; [|split].
    + intros n t Hn Ht. rewrite V1, Hbb. cbn [andb]. destruct (idx_dec _ _) as [Ex|_]; [discriminate Ex|].
      destruct (Nat.ltb_spec n (nth b ls 0%nat)) as [Hlt|Hge].
      * rewrite Hval by (f2; lia). f_equal. now apply (@leaf_count NT T b (ps b) Hbd).
      * rewrite <- (@leaf_count NT T b (ps b) Hbd), (proj1 (count_occ_not_In idx_dec _ _)); [reflexivity|].
        intro Hi. apply pspans_in in Hi as (? & ? & ? & [= <- <- <-] & ?). lia.
    + intros x y z. rewrite V2, Hbb. destruct (idx_dec _ _) as [Ex|_]; [discriminate Ex|reflexivity].
    + intros x Hx. rewrite V3, Hbb, Hval by (f2; lia).
      pose proof (@root_count NT (ps b) 0 x) as Hrc. rewrite Hsz in Hrc. cbn [Nat.add] in Hrc. rewrite Hrc by lia.
      rewrite (proj1 (count_occ_not_In idx_dec (pparts NT b 0 (ps b)) _)).
      * destruct (Nat.eq_dec _ _) as [E1|E1], (idx_dec _ _) as [E2|E2]; try reflexivity; exfalso.
        -- apply E2. now rewrite E1.
        -- apply E1. now injection E2.
      * enough (G : forall q i, ~ In [2%nat; b; x] (pparts NT b i q)) by apply G. clear.
        induction q as [t|y l IHl r IHr]; intros i Hi; cbn [pparts] in Hi.
        -- destruct Hi as [Hi|[]]. discriminate Hi.
        -- destruct Hi as [Hi|Hi]; [discriminate Hi|]. apply in_app_iff in Hi as [Hi|Hi]; [eapply IHl|eapply IHr]; eauto.
Qed.

Theorem cky_intermediary_spec NT p cover :
  (forall e, In e cover <-> In e (pspans NT 0 p)) ->
  exists splits, cky_intermediary cover = Ok splits /\
    forall i x l r, occurs p 0 i (PN x l r) ->
      splits i (i + (psize l + psize r) - 1)%nat = Some ((i + psize l - 1)%nat, psym NT l, psym NT r).
Proof.
  intro Hcov. unfold cky_intermediary.
  set (P := fun (pre : list (list nat)) (splits : nat -> nat -> option (nat * nat * nat)) =>
    forall i x l r A, occurs p 0 i (PN x l r) -> In [i; (i + (psize l + psize r) - 1)%nat; A] pre ->
      splits i (i + (psize l + psize r) - 1)%nat = Some ((i + psize l - 1)%nat, psym NT l, psym NT r)).
  match goal with |- context [loop ?f ?l ?s0] => destruct (@loop_inv _ _ f P l s0) as (splits & E & HP) end.
  - intros i x l r A _ [].
  - intros pre e splits [post Epost] HP.
    assert (He : In e cover) by (rewrite Epost; apply in_app_iff; right; left; auto). apply Hcov in He.
    pose proof He as He2. apply pspans_in in He2 as (i & j & A & -> & Hij).
    destruct (Nat.eqb_spec i j) as [->|Hne].
    + exists splits. split; [reflexivity|]. intros i x l r A' Ho Hin. apply in_app_iff in Hin as [Hin|[Hin|[]]]; [eapply HP; eauto|].
      injection Hin as -> Hj _. pose proof (psize_pos l). pose proof (psize_pos r). lia.
    + destruct (@wide_node NT p 0 0 p (occ_here p 0) i j A He ltac:(lia)) as (x & l & r & Ho & -> & ->).
      rewrite (@first_split_ok NT p cover Hcov i x l r Ho). eexists. split; [reflexivity|].
      intros i' x' l' r' A' Ho' Hin. cbv beta.
      destruct (Nat.eqb_spec i' i) as [->|Hn]; cbn [andb].
      * destruct (Nat.eqb_spec (i + (psize l' + psize r') - 1) (i + (psize l + psize r) - 1)) as [Ej|Hn].
        -- destruct (@split_unique NT p 0 i x' l' r' Ho') as (U1 & U2 & _).
           destruct (@split_unique NT p 0 i x l r Ho) as (_ & _ & U).
           cbv zeta in U1, U2, U. rewrite Ej in U2. destruct (U _ _ _ U1 U2) as (-> & -> & ->). reflexivity.
        -- apply in_app_iff in Hin as [Hin|[Hin|[]]]; [eapply HP; eauto|]. injection Hin as Hj. lia.
      * apply in_app_iff in Hin as [Hin|[Hin|[]]]; [eapply HP; eauto|]. injection Hin as Hj. congruence.
  - exists splits. split; [exact E|]. intros i x l r Ho. eapply HP; [exact Ho|]. apply Hcov.
    eapply occurs_spans; [exact Ho|]. left. reflexivity.
Qed.

(** ** cky.py:189-202 [from_parts] *)
(** [roots] is unpacked and not used. Lines 194-200: the loop over n writes the
    cells (i, i+n+1, A) with i < N-n-1 and A < NT; the last statement writes the
    diagonal. Sizes of the right-hand sides that do not match raise (torch
    broadcasting of size-1 dimensions is not modelled). *)
Definition zsum (f : nat -> Z) (n : nat) : Z := fold_right Z.add 0 (map f (seq 0 n)).
(** cky.py:189-202 [from_parts], as described above *)
Definition cky_from_parts (terms rules roots : tensor Z) : res (tensor Z * (nat * nat)) :=
  match shape rules with
  | [batch; N2; N; NT; S2; Sy] =>
      if negb (nth 1 (shape terms) 0 =? N)%nat then Err AssertionError else
      if negb (N2 =? N)%nat || (Sy <? NT)%nat || negb (if idx_dec (shape terms) [batch; N; (Sy - NT)%nat] then true else false) then Err RuntimeError else
      let summed := fun b n i A => zsum (fun B => zsum (fun C => dat rules [b; n; i; A; B; C]) Sy) S2 in
      let spans := fold_left (fun (sp : tensor Z) n =>
        {| shape := shape sp; dat := fun idx => match idx with
             | [b; i; j; A] => if (i <? N - n - 1)%nat && (j =? i + n + 1)%nat && (A <? NT)%nat then summed b n i A else dat sp idx
             | _ => dat sp idx end |}) (seq 0 N) (zeros [batch; N; N; Sy]) in
      Ok ({| shape := shape spans; dat := fun idx => match idx with
             | [b; i; j; A] => if (i =? j)%nat && (NT <=? A)%nat then dat terms [b; i; (A - NT)%nat] else dat spans idx
             | _ => dat spans idx end |}, (NT, (Sy - NT)%nat))
  | _ => Err ValueError
  end.
(** anchored rules of a tree: [width - 2; start; x; left symbol; right symbol] *)
Fixpoint prules (NT i : nat) (p : ptree) : list (list nat) :=
  match p with
  | PT _ => []
  | PN x l r => [(psize l + psize r - 2)%nat; i; x; psym NT l; psym NT r] :: prules NT i l ++ prules NT (i + psize l) r
  end.
(** spec: anchored words of a tree: [position; tag] *)
Fixpoint pterms (i : nat) (p : ptree) : list (list nat) :=
  match p with
  | PT t => [[i; t]]
  | PN _ l r => pterms i l ++ pterms (i + psize l) r
  end.

Lemma zsum_ext f g n : (forall i, (i < n)%nat -> f i = g i) -> zsum f n = zsum g n.
Proof. intro H. unfold zsum. f_equal. apply map_ext_in. intros i Hi. apply H. apply in_seq in Hi. lia. Qed.
Lemma zsum_add f g n : zsum (fun i => f i + g i) n = zsum f n + zsum g n.
Proof. unfold zsum. induction (seq 0 n) as [|x l IH]; cbn; [reflexivity|]. rewrite IH. lia. Qed.
Lemma zsum_zero n : zsum (fun _ => 0) n = 0.
Proof. unfold zsum. induction (seq 0 n) as [|x l IH]; cbn; auto. Qed.
Lemma zsum_delta n k v : (k < n)%nat -> zsum (fun i => if (i =? k)%nat then v else 0) n = v.
Proof.
  intro Hk. unfold zsum. replace n with (k + S (n - S k))%nat by lia. rewrite seq_app, map_app, fold_right_app. cbn [seq map fold_right plus].
  rewrite Nat.eqb_refl.
  assert (H0 : forall l a, ~ In k l -> fold_right Z.add a (map (fun i => if (i =? k)%nat then v else 0) l) = a).
  { induction l as [|x l IH]; intros a Hn; cbn; [reflexivity|]. destruct (Nat.eqb_spec x k) as [->|]; [exfalso; apply Hn; left; auto|].
    rewrite IH; [lia|]. intro; apply Hn; right; auto. }
  rewrite !H0; [lia|..]; intro Hi; apply in_seq in Hi; lia.
Qed.
Lemma rule_sum NT T b p : pbounded NT T p -> forall i a w x,
  zsum (fun B => zsum (fun C => Z.of_nat (count_occ idx_dec (map (cons b) (prules NT i p)) [b; w; a; x; B; C])) (NT + T)) (NT + T) =
  Z.of_nat (count_occ idx_dec (pspans NT i p) [a; (a + w + 1)%nat; x]).
Proof.
  induction p as [t|y l IHl r IHr]; intros Hb i a w x.
  - cbn [prules map pspans]. etransitivity; [apply zsum_ext; intros; apply zsum_zero|]. rewrite zsum_zero.
    symmetry. cbn [count_occ]. destruct (idx_dec _ _) as [E|E]; [injection E; lia|reflexivity].
  - destruct Hb as (Hy & Hl & Hr).
    assert (Hs : forall q, pbounded NT T q -> (psym NT q < NT + T)%nat) by (intros [t|z q1 q2]; cbn; intuition lia).
    pose proof (psize_pos l). pose proof (psize_pos r).
    cbn [prules pspans]. rewrite map_cons, map_app. cbn [count_occ].
    set (v := if (w =? psize l + psize r - 2)%nat && (a =? i)%nat && (x =? y)%nat then 1 else 0).
    transitivity (zsum (fun B => zsum (fun C => (if (C =? psym NT r)%nat then (if (B =? psym NT l)%nat then v else 0) else 0) +
       (Z.of_nat (count_occ idx_dec (map (cons b) (prules NT i l)) [b; w; a; x; B; C]) +
        Z.of_nat (count_occ idx_dec (map (cons b) (prules NT (i + psize l) r)) [b; w; a; x; B; C]))) (NT + T)) (NT + T)).
    { apply zsum_ext. intros B _. apply zsum_ext. intros C _. rewrite count_occ_app. unfold v.
      destruct (idx_dec _ _) as [E|E].
      - injection E as -> -> -> -> ->. rewrite !Nat.eqb_refl. cbn [andb]. lia.
      - destruct (Nat.eqb_spec C (psym NT r)) as [->|]; [|lia]. destruct (Nat.eqb_spec B (psym NT l)) as [->|]; [|lia].
        destruct (Nat.eqb_spec w (psize l + psize r - 2)) as [->|]; [|cbn [andb]; lia].
        destruct (Nat.eqb_spec a i) as [->|]; [|cbn [andb]; lia]. destruct (Nat.eqb_spec x y) as [->|]; [|cbn [andb]; lia].
        exfalso. apply E. reflexivity. }
    transitivity (zsum (fun B => (if (B =? psym NT l)%nat then v else 0) +
       (zsum (fun C => Z.of_nat (count_occ idx_dec (map (cons b) (prules NT i l)) [b; w; a; x; B; C])) (NT + T) +
        zsum (fun C => Z.of_nat (count_occ idx_dec (map (cons b) (prules NT (i + psize l) r)) [b; w; a; x; B; C])) (NT + T))) (NT + T)).
    { apply zsum_ext. intros B _. rewrite !zsum_add. rewrite zsum_delta by auto. reflexivity. }
    rewrite !zsum_add, zsum_delta, IHl, IHr, count_occ_app by auto. unfold v.
    destruct (idx_dec [i; _; y] [a; _; x]) as [E|E].
    + injection E. intros. subst a x. rewrite !Nat.eqb_refl. replace (w =? psize l + psize r - 2)%nat with true; [cbn [andb]; lia|].
      symmetry. apply Nat.eqb_eq. lia.
    + destruct (Nat.eqb_spec w (psize l + psize r - 2)) as [->|]; [|cbn [andb]; lia].
      destruct (Nat.eqb_spec a i) as [->|]; [|cbn [andb]; lia]. destruct (Nat.eqb_spec x y) as [->|]; [|cbn [andb]; lia].
      exfalso. apply E. do 2 f_equal. lia.
Qed.
Lemma term_count NT T b p : pbounded NT T p -> forall i n t,
  count_occ idx_dec (map (cons b) (pterms i p)) [b; n; t] = count_occ idx_dec (pspans NT i p) [n; n; (NT + t)%nat].
Proof.
  induction p as [t0|x l IHl r IHr]; intros Hb i n t; cbn [pterms pspans map].
  - cbn [count_occ]. destruct (idx_dec [b; i; t0] [b; n; t]) as [E|E], (idx_dec [i; i; (NT + t0)%nat] [n; n; (NT + t)%nat]) as [E'|E']; auto; exfalso.
    + apply E'. injection E as -> ->. reflexivity.
    + apply E. injection E' as -> _ E'. assert (t0 = t) by lia. now subst.
  - destruct Hb as (Hx & Hl & Hr). rewrite map_app. cbn [count_occ]. rewrite !count_occ_app, IHl, IHr by auto.
    destruct (idx_dec [i; _; x] [n; n; (NT + t)%nat]) as [E|E]; [injection E as _ _ E; lia|reflexivity].
Qed.
Lemma count_cons b l x : count_occ idx_dec (map (cons b) l) (b :: x) = count_occ idx_dec l x.
Proof.
  induction l as [|y l IH]; [reflexivity|]. cbn [map count_occ]. rewrite IH.
  destruct (idx_dec (b :: y) (b :: x)) as [E|E], (idx_dec y x) as [E'|E']; auto; exfalso; [apply E'; congruence|apply E; congruence].
Qed.
Lemma pspans_kind NT T p : pbounded NT T p -> forall i a k s, In [a; k; s] (pspans NT i p) -> (a < k /\ s < NT)%nat \/ (a = k /\ NT <= s)%nat.
Proof.
  induction p as [t|x l IHl r IHr]; intros Hb i a k s H; cbn [pspans] in H.
  - destruct H as [[= <- <- <-]|[]]. right. lia.
  - destruct Hb as (Hx & Hl & Hr). destruct H as [[= <- <- <-]|H].
    + pose proof (psize_pos l). pose proof (psize_pos r). left. lia.
    + apply in_app_iff in H as [H|H]; [eapply IHl|eapply IHr]; eauto.
Qed.
Theorem cky_from_parts_spec terms rules roots NT T batch N (ps : nat -> ptree) :
  shape terms = [batch; N; T] -> shape rules = [batch; N; N; NT; (NT + T)%nat; (NT + T)%nat] ->
  (forall b, (b < batch)%nat -> pbounded NT T (ps b) /\ (psize (ps b) <= N)%nat /\
     represents terms b (map (cons b) (pterms 0 (ps b))) /\ represents rules b (map (cons b) (prules NT 0 (ps b)))) ->
  exists spans, cky_from_parts terms rules roots = Ok (spans, (NT, T)) /\ shape spans = [batch; N; N; (NT + T)%nat] /\
    forall b, (b < batch)%nat -> represents spans b (map (cons b) (pspans NT 0 (ps b))).
Proof.
  intros Ht Hr Hp. unfold cky_from_parts. rewrite Hr, Ht. cbn [nth]. rewrite !Nat.eqb_refl. cbn [negb orb].
  destruct (Nat.ltb_spec (NT + T) NT) as [Hlt|_]; [lia|]. replace (NT + T - NT)%nat with T by lia.
  destruct (idx_dec [batch; N; T] [batch; N; T]) as [_|Hne]; [|congruence]. cbn [negb orb].
  eexists. split; [reflexivity|].
  set (F := fun (sp : tensor Z) n => _). 
  set (su := fun b n i A => zsum (fun B => zsum (fun C => dat rules [b; n; i; A; B; C]) (NT + T)) (NT + T)).
  assert (Sh : forall l sp, shape (fold_left F l sp) = shape sp) by (induction l as [|n l IH]; intro sp; [reflexivity|]; cbn [fold_left]; rewrite IH; reflexivity).
  assert (Dt : forall k b i j A, (k <= N)%nat -> (i < N)%nat -> (j < N)%nat -> dat (fold_left F (seq 0 k) (zeros [batch; N; N; (NT + T)%nat])) [b; i; j; A] =
     if (i <? j)%nat && (A <? NT)%nat && (j - i - 1 <? k)%nat then su b (j - i - 1)%nat i A else 0).
  { induction k as [|k IH]; intros b i j A Hk Hi Hj.
    - cbn [seq fold_left]. rewrite andb_false_r. reflexivity.
    - rewrite seq_S, fold_left_app. cbn [fold_left plus]. unfold F at 1. cbn [dat]. rewrite IH by lia.
      destruct (Nat.ltb_spec i j), (Nat.ltb_spec A NT), (Nat.eqb_spec j (i + k + 1)), (Nat.ltb_spec i (N - k - 1)), (Nat.ltb_spec (j - i - 1) (S k)), (Nat.ltb_spec (j - i - 1) k);
        cbn [andb]; try lia; auto.
      replace (j - i - 1)%nat with k by lia. reflexivity. }
  split; [cbn [shape]; rewrite Sh; reflexivity|].
  intros b Hb idx Hidx. cbn [shape] in Hidx. rewrite Sh in Hidx. cbn [zeros shape tl] in Hidx.
  inversion Hidx as [|i ? i1 ? Hi H1 E1]; subst. inversion H1 as [|j ? i2 ? Hj H2 E2]; subst. inversion H2 as [|A ? i3 ? HA H3 E3]; subst. inversion H3; subst.
  destruct (Hp b Hb) as (Hbd & Hsz & Rt & Rr). cbn [dat]. rewrite count_cons.
  destruct (Nat.eqb_spec i j) as [->|Hne]; cbn [andb].
  - destruct (Nat.leb_spec NT A) as [HA'|HA'].
    + rewrite (Rt [j; (A - NT)%nat]) by (rewrite Ht; cbn [tl]; repeat constructor; lia).
      rewrite (@term_count NT T b (ps b) Hbd). replace (NT + (A - NT))%nat with A by lia. reflexivity.
    + rewrite Dt by auto. rewrite Nat.ltb_irrefl. cbn [andb]. rewrite (proj1 (count_occ_not_In idx_dec _ _)); [reflexivity|].
      intro Hin. apply (@pspans_kind NT T _ Hbd) in Hin. lia.
  - rewrite Dt by auto. destruct (Nat.ltb_spec i j) as [Hij|Hij]; cbn [andb].
    + destruct (Nat.ltb_spec A NT) as [HA'|HA']; cbn [andb].
      * destruct (Nat.ltb_spec (j - i - 1) N) as [_|Hbad]; [|lia].
        replace j with (i + (j - i - 1) + 1)%nat at 2 by lia. rewrite <- (@rule_sum NT T b (ps b) Hbd 0%nat i (j - i - 1)%nat A). unfold su.
        apply zsum_ext. intros B HB. apply zsum_ext. intros C HC. apply Rr. rewrite Hr. cbn [tl]. repeat constructor; lia.
      * rewrite (proj1 (count_occ_not_In idx_dec _ _)); [reflexivity|]. intro Hin. apply (@pspans_kind NT T _ Hbd) in Hin. lia.
    + rewrite (proj1 (count_occ_not_In idx_dec _ _)); [reflexivity|]. intro Hin. apply (@pspans_kind NT T _ Hbd) in Hin. lia.
Qed.
