(** * NbSplit: [split] of notebooks/Unsupervised_CFG.ipynb *)
From Coq Require Import ZArith Sorted.
From Verif Require Import Base Ops Chain LinearChain SemiMarkov CkyCrf Cky DepSpec DepTree Tensor Codec CkyCodec.
Set Implicit Arguments.

(** ** Model *)
(** the names of the function that outlive an iteration of its loops: [k] (the loop variable of
    line 219), [k_final] (line 223) and [batch_split] (lines 211, 226; the dictionary as a
    function of its keys). Python variables not yet assigned are None.
    Unsupervised_CFG.ipynb:204-228 *)
Record nbst := { nb_k : option nat; nb_final : option nat; nb_dict : nat -> nat -> option nat }.
(** line 219-224: every entry of [left[i]] sets k; the inner loop breaks at the first match.
    Simplification: B and C (line 222) are assigned and never read. *)
Definition nb_inner (cover : list (list nat)) (i j : nat) (s : nbst) : nbst :=
  fold_left (fun s l => let k := Some (snd (fst l)) in
    {| nb_k := k;
       nb_final := match find (meets i j l) (rights cover j) with Some _ => k | None => nb_final s end;
       nb_dict := nb_dict s |}) (lefts cover i) s.
(** lines 216-226, one cell of the cover. [fin] = false is the code (line 226 stores k);
    true stores k_final instead. Reading a name that was never assigned raises
    UnboundLocalError, a NameError. *)
Definition nb_cell (fin : bool) (cover : list (list nat)) (s : nbst) (e : list nat) : res nbst :=
  match e with
  | [i; j; A] =>
      let s := nb_inner cover i j s in
      if (i <? j)%nat then
        match (if fin then nb_final s else nb_k s) with
        | None => Err NameError
        | Some k => Ok {| nb_k := nb_k s; nb_final := nb_final s;
                          nb_dict := fun i' j' => if (i' =? i)%nat && (j' =? j)%nat then Some k else nb_dict s i' j' |}
        end
      else Ok s
  | _ => Err ValueError (* line 213: the spans have three dimensions per row *)
  end.
(** lines 207-227, one row: [left] and [right] have the keys 0..N-1 (lines 209-210, 214-215) *)
Definition nb_row (fin : bool) (N : nat) (s : nbst) (cover : list (list nat)) : res nbst :=
  if forallb (fun e => (nth 0 e 0 <? N)%nat && (nth 1 e 0 <? N)%nat) cover
  then loop (nb_cell fin cover) cover {| nb_k := nb_k s; nb_final := nb_final s; nb_dict := fun _ _ => None |}
  else Err KeyError.
(** lines 204-228 [split]: the names k and k_final live on from row to row *)
Definition nb_split_with (fin : bool) (spans : tensor Z) : res (list (nat -> nat -> option nat)) :=
  match shape spans with
  | batch :: N :: _ =>
      bind (loop (fun '(s, out) b =>
          bind (nb_row fin N s (nonzero (row_tensor spans b))) (fun s' => Ok (s', out ++ [nb_dict s'])))
        (seq 0 batch) ({| nb_k := None; nb_final := None; nb_dict := fun _ _ => None |}, [])) (fun r => Ok (snd r))
  | _ => Err ValueError
  end.
(** Unsupervised_CFG.ipynb:204-228: the code as it is *)
Definition nb_split := nb_split_with false.

(** ** Specification *)
(** row b of the chart is the set of spans of the parse tree p *)
Definition chart_row (NT : nat) (spans : tensor Z) (b : nat) (p : ptree) : Prop :=
  forall e, In e (nonzero (row_tensor spans b)) <-> In e (pspans NT 0 p).
(** last word of the widest constituent of p that starts at word i *)
Definition widest (NT : nat) (p : ptree) (i w : nat) : Prop :=
  (exists A, In [i; w; A] (pspans NT 0 p)) /\ forall k A, In [i; k; A] (pspans NT 0 p) -> (k <= w)%nat.

(** ** Order of [nonzero] *)
Inductive lexlt : list nat -> list nat -> Prop :=
| lex_head a b x y : (a < b)%nat -> lexlt (a :: x) (b :: y)
| lex_tail a x y : lexlt x y -> lexlt (a :: x) (a :: y).
Lemma ssorted_app A (R : A -> A -> Prop) l l' : StronglySorted R l -> StronglySorted R l' ->
  (forall x y, In x l -> In y l' -> R x y) -> StronglySorted R (l ++ l').
Proof.
  intros H1 H2 H. induction H1 as [|a l Hl IH Ha]; [exact H2|]. cbn [app]. constructor.
  - apply IH. intros; apply H; auto. now right.
  - apply Forall_forall. intros y Hy. apply in_app_iff in Hy as [Hy|Hy]; [now apply (proj1 (Forall_forall _ _) Ha)|]. apply H; auto. now left.
Qed.
Lemma ssorted_filter A (R : A -> A -> Prop) f l : StronglySorted R l -> StronglySorted R (filter f l).
Proof.
  induction 1 as [|a l Hl IH Ha]; [constructor|]. cbn [filter]. destruct (f a); auto. constructor; auto.
  apply Forall_forall. intros y Hy. apply filter_In in Hy as [Hy _]. now apply (proj1 (Forall_forall _ _) Ha).
Qed.
Lemma indexes_sorted sh : StronglySorted lexlt (indexes sh).
Proof.
  induction sh as [|n sh IH]; cbn [indexes]; [repeat constructor|].
  generalize 0%nat as a. induction n as [|n IHn]; intro a; [constructor|]. cbn [seq flat_map]. apply ssorted_app; auto.
  - clear - IH. induction IH as [|x l Hl IHl Hx]; [constructor|]. cbn [map]. constructor; auto.
    apply Forall_forall. intros y Hy. apply in_map_iff in Hy as (z & <- & Hz). apply lex_tail. now apply (proj1 (Forall_forall _ _) Hx).
  - intros x y Hx Hy. apply in_map_iff in Hx as (z & <- & Hz). apply in_flat_map in Hy as (a' & Ha' & Hy). apply in_map_iff in Hy as (z' & <- & _).
    apply in_seq in Ha'. apply lex_head. lia.
Qed.
Lemma nonzero_sorted t : StronglySorted lexlt (nonzero t).
Proof. apply ssorted_filter, indexes_sorted. Qed.
Lemma lefts_sorted cover i : StronglySorted lexlt cover -> StronglySorted (fun a b : entry => (snd (fst a) <= snd (fst b))%nat) (lefts cover i).
Proof.
  induction 1 as [|e l Hl IH He]; [constructor|]. unfold lefts. cbn [flat_map]. fold (lefts l i).
  destruct e as [|i' [|j [|A [|]]]]; try exact IH. destruct (Nat.eqb_spec i' i) as [->|]; [|exact IH]. cbn [app]. constructor; auto.
  apply Forall_forall. intros [[A' k'] w'] Hy. apply lefts_in in Hy as [Hy _]. pose proof (proj1 (Forall_forall _ _) He _ Hy) as L. cbn [fst snd].
  inversion L as [? ? ? ? Hlt|? ? ? L']; subst; [lia|]. inversion L'; subst; lia.
Qed.
Lemma ssorted_last A (R : A -> A -> Prop) l x : StronglySorted R (l ++ [x]) -> forall y, In y l -> R y x.
Proof.
  induction l as [|a l IH]; intros H y Hy; [destruct Hy|]. cbn [app] in H. inversion_clear H as [|? ? Hs Ha]. destruct Hy as [<-|Hy]; auto.
  apply (proj1 (Forall_forall _ _) Ha). apply in_app_iff. right. now left.
Qed.

Section Row.
  Variables (NT : nat) (p : ptree) (t : tensor Z).
  Let cover := nonzero t.
  Hypothesis Hcov : forall e, In e cover <-> In e (pspans NT 0 p).

  Lemma inner_dict i j s : nb_dict (nb_inner cover i j s) = nb_dict s.
  Proof. unfold nb_inner. revert s. induction (lefts cover i) as [|l ls IH]; intro s; [reflexivity|]. cbn [fold_left]. now rewrite IH. Qed.
  Lemma inner_k i j A s : In [i; j; A] cover -> exists w, nb_k (nb_inner cover i j s) = Some w /\ widest NT p i w.
  Proof.
    intro H. assert (Hin : In (A, j, width i j) (lefts cover i)) by (apply lefts_in; auto).
    assert (Hs := lefts_sorted i (nonzero_sorted t)). fold cover in Hs. unfold nb_inner.
    assert (Hl : lefts cover i <> []) by (intro E; rewrite E in Hin; destruct Hin).
    destruct (exists_last Hl) as (ls & x & E). rewrite E in *. rewrite fold_left_app. cbn [fold_left nb_k].
    destruct x as [[A0 w] z]. cbn [fst snd]. exists w. split; [reflexivity|].
    assert (Hx : In (A0, w, z) (lefts cover i)) by (rewrite E; apply in_app_iff; right; now left). apply lefts_in in Hx as [Hx _].
    split; [exists A0; now apply Hcov|]. intros k B Hk. apply Hcov in Hk.
    assert (Hk' : In (B, k, width i k) (lefts cover i)) by (apply lefts_in; auto). rewrite E in Hk'. apply in_app_iff in Hk' as [Hk'|[Hk'|[]]].
    - apply (ssorted_last _ _ Hs _ Hk').
    - injection Hk' as _ -> _. lia.
  Qed.
  Lemma inner_final i x l r s : occurs p 0 i (PN x l r) ->
    nb_final (nb_inner cover i (i + (psize l + psize r) - 1) s) = Some (i + psize l - 1)%nat.
  Proof.
    intro Ho. unfold nb_inner. destruct (@left_entry NT p cover Hcov i x l r Ho) as (w & rr & Hin & Hf).
    set (j := (i + (psize l + psize r) - 1)%nat) in *. set (m := (i + psize l - 1)%nat) in *.
    assert (G : forall ls s, incl ls (lefts cover i) -> (In (psym NT l, m, w) ls \/ nb_final s = Some m) ->
      nb_final (fold_left (fun s l => let k := Some (snd (fst l)) in
        {| nb_k := k; nb_final := match find (meets i j l) (rights cover j) with Some _ => k | None => nb_final s end; nb_dict := nb_dict s |}) ls s) = Some m).
    { induction ls as [|[[B k] w'] ls IH]; intros s0 Hi Ha; [destruct Ha as [[]|Ha]; auto|]. cbn [fold_left].
      assert (Hi' : incl ls (lefts cover i)) by (intros e He; apply Hi; right; auto). apply IH; auto. cbn [nb_final fst snd].
      destruct (find (meets i j (B, k, w')) (rights cover j)) as [rr'|] eqn:E.
      - right. destruct (@find_split NT p cover Hcov i x l r Ho B k w' rr') as (-> & _); auto. apply Hi. now left.
      - destruct Ha as [[Ha|Ha]|Ha]; auto. injection Ha as -> -> ->. congruence. }
    apply G; [apply incl_refl|auto].
  Qed.

  (** what one row puts into the dictionary *)
  Definition good (fin : bool) (pre : list (list nat)) (d : nat -> nat -> option nat) : Prop :=
    (forall i x l r A, occurs p 0 i (PN x l r) -> In [i; (i + (psize l + psize r) - 1)%nat; A] pre ->
      exists k, d i (i + (psize l + psize r) - 1)%nat = Some k /\ if fin then k = (i + psize l - 1)%nat else widest NT p i k) /\
    forall i j k, d i j = Some k -> (i < j)%nat /\ exists A, In [i; j; A] pre.
  Lemma row_ok_ fin s0 : (forall i j, nb_dict s0 i j = None) ->
    exists s, loop (nb_cell fin cover) cover s0 = Ok s /\ good fin cover (nb_dict s).
  Proof.
    intro H0. destruct (@loop_inv _ _ (nb_cell fin cover) (fun pre s => good fin pre (nb_dict s)) cover s0) as (s & E & HP).
    - split; [intros i x l r A _ []|]. intros i j k H. rewrite H0 in H. discriminate.
    - intros pre e s [post Epost] [HP HK].
      assert (He : In e cover) by (rewrite Epost; apply in_app_iff; right; left; auto). pose proof He as Hc. apply Hcov in He.
      pose proof He as He2. apply pspans_in in He2 as (i & j & A & -> & Hij). cbn [nb_cell].
      destruct (Nat.ltb_spec i j) as [Hlt|Hge].
      + destruct (@wide_node NT p 0 0 p (occ_here p 0) i j A He ltac:(lia)) as (x & l & r & Ho & -> & ->).
        assert (Hv : exists k, (if fin then nb_final (nb_inner cover i (i + (psize l + psize r) - 1) s) else nb_k (nb_inner cover i (i + (psize l + psize r) - 1) s)) = Some k /\
          if fin then k = (i + psize l - 1)%nat else widest NT p i k).
        { destruct fin; [rewrite (@inner_final i x l r s Ho); eauto|]. destruct (@inner_k i _ _ s Hc) as (w & -> & Hw). eauto. }
        destruct Hv as (k & -> & Hk). eexists. split; [reflexivity|]. cbn [nb_dict]. rewrite inner_dict. split.
        * intros i' x' l' r' A' Ho' Hin.
          destruct (Nat.eqb_spec i' i) as [->|Hn]; cbn [andb].
          -- destruct (Nat.eqb_spec (i + (psize l' + psize r') - 1) (i + (psize l + psize r) - 1)) as [Ej|Hn].
             ++ exists k. split; [reflexivity|]. destruct fin; [|exact Hk].
                destruct (@split_unique NT p 0 i x' l' r' Ho') as (U1 & U2 & _). destruct (@split_unique NT p 0 i x l r Ho) as (_ & _ & U).
                cbv zeta in U1, U2, U. rewrite Ej in U2. destruct (U _ _ _ U1 U2) as (U3 & _). lia.
             ++ apply in_app_iff in Hin as [Hin|[Hin|[]]]; [eapply HP; eauto|]. injection Hin as Hj. lia.
          -- apply in_app_iff in Hin as [Hin|[Hin|[]]]; [eapply HP; eauto|]. injection Hin as Hj. congruence.
        * intros i' j' k' Hd. destruct (Nat.eqb_spec i' i) as [->|Hn]; cbn [andb] in Hd; [destruct (Nat.eqb_spec j' (i + (psize l + psize r) - 1)) as [->|Hn]|].
          -- split; [exact Hlt|]. exists x. apply in_app_iff. right. now left.
          -- destruct (HK _ _ _ Hd) as (H1 & B & H2). split; auto. exists B. apply in_app_iff. now left.
          -- destruct (HK _ _ _ Hd) as (H1 & B & H2). split; auto. exists B. apply in_app_iff. now left.
      + eexists. split; [reflexivity|]. rewrite inner_dict. split.
        * intros i' x' l' r' A' Ho' Hin. apply in_app_iff in Hin as [Hin|[Hin|[]]]; [eapply HP; eauto|].
          injection Hin as -> Hj _. pose proof (psize_pos l'). pose proof (psize_pos r'). lia.
        * intros i' j' k' Hd. destruct (HK _ _ _ Hd) as (H1 & B & H2). split; auto. exists B. apply in_app_iff. now left.
    - eauto.
  Qed.
End Row.

(** ** The whole batch *)
Lemma nb_batch fin spans NT batch N Sy (ps : nat -> ptree) : shape spans = [batch; N; N; Sy] ->
  (forall b, (b < batch)%nat -> chart_row NT spans b (ps b)) ->
  exists out, nb_split_with fin spans = Ok out /\ length out = batch /\
    forall b, (b < batch)%nat -> good NT (ps b) fin (nonzero (row_tensor spans b)) (nth b out (fun _ _ => None)).
Proof.
  intros Hsh Hc. unfold nb_split_with. rewrite Hsh.
  match goal with |- context [loop ?f ?l ?s0] =>
    destruct (@loop_inv _ _ f (fun pre st => length (snd st) = length pre /\ forall b, (b < length pre)%nat ->
      good NT (ps b) fin (nonzero (row_tensor spans b)) (nth b (snd st) (fun _ _ => None))) l s0) as ([s out] & E & HP) end.
  - split; [reflexivity|]. intros b Hb. cbn [length] in Hb. lia.
  - intros pre b [s out] [post Epost] [HL HP]. apply seq_split_at in Epost as [Hb Hlt]. cbn [snd] in *.
    assert (Hk : forallb (fun e => (nth 0 e 0 <? N)%nat && (nth 1 e 0 <? N)%nat) (nonzero (row_tensor spans b)) = true).
    { apply forallb_forall. intros e He. unfold nonzero in He. apply filter_In in He as [He _]. unfold row_tensor in He. cbn [shape] in He. rewrite Hsh in He. cbn [tl] in He.
      cbn [indexes] in He. apply in_flat_map in He as (i & Hi & He). apply in_map_iff in He as (e1 & <- & He). apply in_flat_map in He as (j & Hj & He). apply in_map_iff in He as (e2 & <- & _).
      apply in_seq in Hi, Hj. cbn [nth]. apply andb_true_iff. split; apply Nat.ltb_lt; lia. }
    unfold nb_row. rewrite Hk. destruct (@row_ok_ NT (ps b) (row_tensor spans b) (Hc b Hlt) fin {| nb_k := nb_k s; nb_final := nb_final s; nb_dict := fun _ _ => None |}) as (s' & -> & G); [reflexivity|].
    cbn [bind]. eexists. split; [reflexivity|]. cbn [snd]. rewrite !app_length. cbn [length]. split; [lia|].
    intros b' Hb'. destruct (Nat.eq_dec b' b) as [->|Hne].
    + rewrite app_nth2 by lia. replace (b - length out)%nat with 0%nat by lia. exact G.
    + rewrite app_nth1 by lia. apply HP. lia.
  - rewrite E. cbn [bind snd]. exists out. cbn [snd] in HP. rewrite seq_length in HP. destruct HP as [HL HP]. auto.
Qed.
