(** * P_ListOps (C67): the ListOps data pipeline of examples/tree.py. *)
From Coq Require Import ZArith String.
From Verif Require Import Base Ops CkyCrf Tensor Codec CkyCodec Networkx P_Graph ListOps.
Set Implicit Arguments.
Local Open Scope nat_scope.

(** ** Trees *)
Lemma rcons_n i l : rcons i (RN l) = fcons i l ++ [(i, i + rsize (RN l) - 1, ")"%string)].
Proof. reflexivity. Qed.
(** spec: number of words of some trees *)
Definition fsz (l : list rt) : nat := length (flat_map ryield l).
Lemma rsize_n l : rsize (RN l) = fsz l.
Proof. reflexivity. Qed.
Lemma fsz_cons a l : fsz (a :: l) = rsize a + fsz l.
Proof. unfold fsz, rsize. cbn [flat_map]. now rewrite app_length. Qed.
Lemma branching_n k l : branching k (RN l) -> k <= length l /\ Forall (branching k) l.
Proof. intro H. inversion H. auto. Qed.
Lemma rsize_pos t : branching 1 t -> 1 <= rsize t.
Proof.
  induction t as [w|l IH] using rt_ind'; intro H; [cbn; lia|]. apply branching_n in H as [H1 H2].
  destruct l as [|a l]; [cbn in H1; lia|]. rewrite rsize_n, fsz_cons. inversion IH; inversion H2; subst. specialize (H3 H7). lia.
Qed.
Lemma branching_le k k' t : k' <= k -> branching k t -> branching k' t.
Proof.
  intro Hk. induction t as [w|l IH] using rt_ind'; intro H; [constructor|]. apply branching_n in H as [H1 H2]. constructor; [lia|].
  rewrite Forall_forall in *. auto.
Qed.
Lemma fsz_pos l : Forall (branching 1) l -> length l <= fsz l.
Proof. induction l as [|a l IH]; intro H; [cbn; lia|]. inversion H; subst. rewrite fsz_cons. cbn [length]. pose proof (rsize_pos H2). specialize (IH H3). lia. Qed.

(** ** Reading *)
Definition z3 (s : nat * nat * string) : span := let '(i, j, w) := s in (Z.of_nat i, Z.of_nat j, w).
Lemma plain_n l : plain (RN l) -> Forall plain l.
Proof. unfold plain. cbn [ryield]. induction l as [|a l IH]; intro H; constructor; cbn [flat_map] in H; apply Forall_app in H as [H1 H2]; auto. Qed.
Lemma in_parens_ne w : in_parens w = false -> String.eqb w "(" = false /\ String.eqb w ")" = false.
Proof. unfold in_parens. cbn [existsb]. rewrite !orb_false_iff. tauto. Qed.
Lemma rd_tree t : plain t -> branching 1 t -> forall i sp st,
  loop rd_step (rtext t) {| rcur := Z.of_nat i; rspans := sp; rstack := st |} =
  Ok {| rcur := Z.of_nat (i + rsize t); rspans := sp ++ map z3 (rcons i t); rstack := st |}.
Proof.
  induction t as [w|l IH] using rt_ind'; intros Hp Hb i sp st.
  - unfold plain in Hp. cbn [ryield] in Hp. inversion Hp as [|? ? Hw]; subst. apply in_parens_ne in Hw as [H1 H2].
    cbn [rtext loop]. unfold rd_step. rewrite H1, H2. cbn [bind loop rcur rspans rstack rcons map z3]. do 2 f_equal. unfold rsize. cbn. lia.
  - pose proof (rsize_pos Hb) as Hs. apply plain_n in Hp. apply branching_n in Hb as [_ Hb].
    assert (Hf : forall i sp st, loop rd_step (flat_map rtext l) {| rcur := Z.of_nat i; rspans := sp; rstack := st |} =
      Ok {| rcur := Z.of_nat (i + fsz l); rspans := sp ++ map z3 (fcons i l); rstack := st |}).
    { clear Hs i sp st. induction l as [|a l IHl]; intros i sp st.
      - cbn [flat_map loop fcons map]. rewrite app_nil_r. unfold fsz. cbn. now rewrite Nat.add_0_r.
      - inversion IH; inversion Hp; inversion Hb; subst. cbn [flat_map]. rewrite loop_app, H1 by auto. cbn [bind].
        rewrite IHl by auto. do 2 f_equal; [rewrite fsz_cons; lia|]. cbn [fcons]. now rewrite map_app, app_assoc. }
    cbn [rtext loop]. unfold rd_step at 1. cbn [String.eqb Ascii.eqb Bool.eqb bind rcur rspans rstack].
    rewrite loop_app, Hf. cbn [bind loop]. unfold rd_step. cbn [String.eqb Ascii.eqb Bool.eqb bind rcur rspans rstack].
    do 2 f_equal. rewrite rcons_n, map_app, rsize_n in *. cbn [map z3]. rewrite <- app_assoc. replace (Z.of_nat (i + fsz l) - 1)%Z with (Z.of_nat (i + fsz l - 1)) by lia. reflexivity.
Qed.
Lemma filter_text t : plain t -> filter (fun w => negb (in_parens w)) (rtext t) = ryield t.
Proof.
  induction t as [w|l IH] using rt_ind'; intro Hp.
  - unfold plain in Hp. cbn [ryield] in Hp. inversion Hp as [|? ? Hw]; subst. cbn [rtext filter ryield]. now rewrite Hw.
  - apply plain_n in Hp. cbn [rtext ryield]. cbn [filter]. change (in_parens "(") with true. cbn [negb].
    rewrite filter_app. cbn [filter]. change (in_parens ")") with true. cbn [negb]. rewrite app_nil_r.
    induction l as [|a l IHl]; [reflexivity|]. inversion IH; inversion Hp; subst. cbn [flat_map]. rewrite filter_app, H1, IHl; auto.
Qed.

(** The reader returns the words and the constituents of the bracketed line. *)
Theorem C67_read t : plain t -> branching 1 t -> read_tree (rtext t) = Ok (ryield t, map z3 (rcons 0 t)).
Proof. intros Hp Hb. unfold read_tree. rewrite (rd_tree Hp Hb 0). cbn [bind]. now rewrite filter_text. Qed.
Print Assumptions C67_read.

(** It raises exactly when a prefix of the line closes more brackets than it opens;
    brackets that are never closed go unnoticed. *)
Definition cnt (w : string) (l : list string) : nat := count_occ string_dec l w.
Lemma rd_total toks : forall s, (exists s', loop rd_step toks s = Ok s') <->
  forall n, cnt ")" (firstn n toks) <= length (rstack s) + cnt "(" (firstn n toks).
Proof.
  induction toks as [|w toks IH]; intros [c sp st].
  - split; [intros _ n; rewrite firstn_nil; cbn; lia|]. intros _. eexists. reflexivity.
  - cbn [loop]. unfold rd_step. cbn [rcur rspans rstack].
    destruct (String.eqb_spec w "(") as [->|N1]; [|destruct (String.eqb_spec w ")") as [->|N2]].
    + cbn [bind]. rewrite IH. cbn [rstack length]. split; intros H n.
      * destruct n as [|n]; [cbn; lia|]. specialize (H n). unfold cnt in *. cbn [firstn count_occ].
        destruct (string_dec "(" ")") as [E|_]; [discriminate|]. destruct (string_dec "(" "(") as [_|E]; [lia|congruence].
      * specialize (H (S n)). unfold cnt in *. cbn [firstn count_occ] in H.
        destruct (string_dec "(" ")") as [E|_]; [discriminate|]. destruct (string_dec "(" "(") as [_|E]; [lia|congruence].
    + destruct st as [|t st].
      * split; [intros [s' H]; cbn in H; discriminate|]. intro H. specialize (H 1). cbn in H. lia.
      * cbn [bind]. rewrite IH. cbn [rstack length]. split; intros H n.
        -- destruct n as [|n]; [cbn; lia|]. specialize (H n). unfold cnt in *. cbn [firstn count_occ].
           destruct (string_dec ")" "(") as [E|_]; [discriminate|]. destruct (string_dec ")" ")") as [_|E]; [lia|congruence].
        -- specialize (H (S n)). unfold cnt in *. cbn [firstn count_occ] in H.
           destruct (string_dec ")" "(") as [E|_]; [discriminate|]. destruct (string_dec ")" ")") as [_|E]; [lia|congruence].
    + cbn [bind]. rewrite IH. cbn [rstack]. split; intros H n.
      * destruct n as [|n]; [cbn; lia|]. specialize (H n). unfold cnt in *. cbn [firstn count_occ].
        destruct (string_dec w ")"), (string_dec w "("); (exact H || congruence).
      * specialize (H (S n)). unfold cnt in *. cbn [firstn count_occ] in H.
        destruct (string_dec w ")"), (string_dec w "("); (exact H || congruence).
Qed.
Theorem C67_read_total toks : (exists r, read_tree toks = Ok r) <-> forall n, cnt ")" (firstn n toks) <= cnt "(" (firstn n toks).
Proof.
  pose proof (rd_total toks {| rcur := 0%Z; rspans := []; rstack := [] |}) as H. cbn [rstack length] in H.
  change (forall n, cnt ")" (firstn n toks) <= 0 + cnt "(" (firstn n toks)) with (forall n, cnt ")" (firstn n toks) <= cnt "(" (firstn n toks)) in H.
  rewrite <- H. unfold read_tree. split.
  - intros [r E]. destruct (loop rd_step toks _) as [s|e]; [exists s; reflexivity|discriminate].
  - intros [s ->]. eexists. reflexivity.
Qed.
Print Assumptions C67_read_total.
Theorem C67_unclosed_refuted : exists toks r, read_tree toks = Ok r /\ cnt "(" toks <> cnt ")" toks.
Proof. exists ["("; "a"; "b"]%string. eexists. split; [reflexivity|]. cbn. discriminate. Qed.

(** ** Tensor of the constituents *)
Definition lab (stoi : string -> nat) (s : nat * nat * string) : nat := let '(i, j, w) := s in if i =? j then stoi w + 1 else 0.
(** spec: cell of a constituent in the tensor of trees.py:28-43 *)
Definition cell (stoi : string -> nat) (b : nat) (s : nat * nat * string) : list nat := let '(i, j, w) := s in [b; i; j; lab stoi s].
(** spec: number of words of the longest tree *)
Definition maxsize (ts : list rt) : nat := fold_right Nat.max 0 (map rsize ts).

Lemma rcons_bounds t : branching 1 t -> forall o i j w, In (i, j, w) (rcons o t) -> o <= i /\ i <= j /\ j < o + rsize t.
Proof.
  induction t as [v|l IH] using rt_ind'; intros Hb o i j w H.
  - destruct H as [[= <- <- <-]|[]]. unfold rsize. cbn. lia.
  - pose proof (rsize_pos Hb) as Hs. apply branching_n in Hb as [_ Hb]. rewrite rcons_n in H. apply in_app_iff in H as [H|[[= <- <- <-]|[]]]; [|lia].
    rewrite rsize_n. clear Hs. revert o H. induction l as [|a l IHl]; intros o H; [destruct H|].
    inversion IH; inversion Hb; subst. cbn [fcons] in H. rewrite fsz_cons. apply in_app_iff in H as [H|H].
    + apply H2 in H; [lia|auto].
    + apply IHl in H; auto. lia.
Qed.
Lemma last_span t : branching 1 t -> exists r i w, rev (map z3 (rcons 0 t)) = (Z.of_nat i, Z.of_nat (rsize t - 1), w) :: r.
Proof.
  intro Hb. destruct t as [w|l]; [do 3 eexists; reflexivity|]. rewrite rcons_n, map_app, rev_app_distr. do 3 eexists. reflexivity.
Qed.
Lemma fold_max_Z l : forall x, fold_left Z.max (map (fun t => Z.of_nat (rsize t - 1)) l) (Z.of_nat x) =
  Z.of_nat (fold_right Nat.max x (map (fun t => rsize t - 1) l)).
Proof.
  induction l as [|t l IH]; intro x; [reflexivity|]. cbn [map fold_left fold_right]. rewrite <- Nat2Z.inj_max, IH. f_equal.
  clear. revert x. induction l as [|u l IH]; intro x; [cbn; lia|]. cbn [map fold_right]. rewrite IH. lia.
Qed.
Lemma max_len t ts : Forall (branching 1) (t :: ts) ->
  fold_right Nat.max (rsize t - 1) (map (fun t => rsize t - 1) ts) + 1 = maxsize (t :: ts).
Proof.
  intro H. inversion H as [|? ? Ht Hts]; subst. pose proof (rsize_pos Ht). unfold maxsize. cbn [map fold_right]. clear H.
  induction Hts as [|u l Hu Hl IH]; cbn [map fold_right]; [lia|]. pose proof (rsize_pos Hu). lia.
Qed.
Lemma maxsize_ge ts t : In t ts -> rsize t <= maxsize ts.
Proof. unfold maxsize. induction ts as [|u l IH]; intro H; [destruct H|]. cbn [map fold_right]. destruct H as [->|H]; [lia|]. specialize (IH H). lia. Qed.
Lemma nth_map_nil (ts : list rt) b : nth b (map (fun t => map z3 (rcons 0 t)) ts) [] = match nth_error ts b with Some t => map z3 (rcons 0 t) | None => [] end.
Proof. revert b. induction ts as [|t ts IH]; intros [|b]; cbn; auto. Qed.

(** spec: cells of one row *)
Definition row_cells (stoi : string -> nat) (ts : list rt) (b : nat) : list (list nat) :=
  match nth_error ts b with Some t => map (cell stoi b) (rcons 0 t) | None => [] end.
Lemma post_puts V stoi ts : ts <> [] -> Forall (branching 1) ts ->
  (forall t i j w, In t ts -> In (i, j, w) (rcons 0 t) -> stoi w < 9 + V) ->
  tree_post V stoi (map (fun t => map z3 (rcons 0 t)) ts) =
  Ok (puts 1%Z (flat_map (row_cells stoi ts) (seq 0 (length ts))) (zeros [length ts; maxsize ts; maxsize ts; 10 + V])).
Proof.
  intros Hne Hb Hst. unfold tree_post. rewrite map_length.
  rewrite (mapM_ok _ (fun l : list span => match rev l with [] => 0%Z | (_, j, _) :: _ => j end)).
  2:{ intros l H. apply in_map_iff in H as (t & <- & H). rewrite Forall_forall in Hb. destruct (last_span (Hb t H)) as (r & i & w & E). unfold span in *. rewrite !E. reflexivity. }
  cbn [bind]. rewrite map_map.
  rewrite (map_ext_in _ (fun t => Z.of_nat (rsize t - 1))).
  2:{ intros t H. rewrite Forall_forall in Hb. destruct (last_span (Hb t H)) as (r & i & w & E). unfold span in *. rewrite !E. reflexivity. }
  destruct ts as [|t ts]; [congruence|]. cbn [map]. rewrite fold_max_Z.
  replace (Z.of_nat (fold_right Nat.max (rsize t - 1)%nat (map (fun t0 => (rsize t0 - 1)%nat) ts)) + 1)%Z with (Z.of_nat (maxsize (t :: ts)))
    by (rewrite <- (max_len Hb); lia).
  destruct (Z.ltb_spec (Z.of_nat (maxsize (t :: ts))) 0) as [E|_]; [lia|]. rewrite Nat2Z.id.
  set (us := t :: ts) in *. change (map z3 (rcons 0 t) :: map (fun t0 => map z3 (rcons 0 t0)) ts) with (map (fun t0 => map z3 (rcons 0 t0)) us).
  rewrite (loop_ok _ (fun ret b => puts 1%Z (row_cells stoi us b) ret)).
  - f_equal. generalize (zeros [length us; maxsize us; maxsize us; 10 + V]). induction (seq 0 (length us)) as [|b l IH]; intro z; [reflexivity|].
    cbn [fold_left flat_map]. rewrite IH. now rewrite puts_app.
  - intros ret b Hin. apply in_seq in Hin. rewrite nth_map_nil. unfold row_cells. destruct (nth_error us b) as [u|] eqn:Eu; [|reflexivity].
    apply nth_error_In in Eu. assert (Hbu : branching 1 u) by (rewrite Forall_forall in Hb; auto). pose proof (maxsize_ge us u Eu) as Hmax.
    assert (Hin3 : forall i j w, In (i, j, w) (rcons 0 u) -> i < maxsize us /\ j < maxsize us /\ stoi w < 9 + V).
    { intros i j w H. split; [|split]; [apply (rcons_bounds Hbu) in H; lia|apply (rcons_bounds Hbu) in H; lia|eapply Hst; eauto]. }
    clear Hbu Eu Hin. revert ret. induction (rcons 0 u) as [|[[i j] w] l IH]; intro ret; [reflexivity|].
    cbn [map loop z3]. destruct (Hin3 i j w (or_introl eq_refl)) as (H1 & H2 & H3).
    rewrite !pyix_nat by lia. cbn [bind]. replace (Z.of_nat i =? Z.of_nat j)%Z with (i =? j).
    2:{ destruct (Nat.eqb_spec i j) as [->|N]; [now rewrite Z.eqb_refl|]. symmetry. apply Z.eqb_neq. lia. }
    cbn [cell lab]. destruct (i =? j).
    + replace (Z.of_nat (stoi w) + 1)%Z with (Z.of_nat (stoi w + 1)) by lia. rewrite pyix_nat by lia. cbn [bind]. rewrite IH; [reflexivity|]. intros; apply Hin3; right; auto.
    + cbn [bind]. rewrite IH; [reflexivity|]. intros; apply Hin3; right; auto.
Qed.

(** The batch tensor is as wide as its longest sentence and has a 1 exactly at the
    constituents: (first word, last word, label), label 1 + the word's number for a
    word and 0 for a bracket; everything else, padding included, is 0. *)
Theorem C67_tensor V stoi ts : ts <> [] -> Forall (branching 1) ts ->
  (forall t i j w, In t ts -> In (i, j, w) (rcons 0 t) -> stoi w < 9 + V) ->
  exists ret, tree_post V stoi (map (fun t => map z3 (rcons 0 t)) ts) = Ok ret /\
    shape ret = [length ts; maxsize ts; maxsize ts; 10 + V] /\
    forall b t i j c, nth_error ts b = Some t ->
      (dat ret [b; i; j; c] = 1%Z <-> exists w, In (i, j, w) (rcons 0 t) /\ c = if i =? j then stoi w + 1 else 0) /\
      (dat ret [b; i; j; c] = 0%Z \/ dat ret [b; i; j; c] = 1%Z).
Proof.
  intros Hne Hb Hst. rewrite (post_puts _ Hne Hb Hst). eexists. split; [reflexivity|]. rewrite puts_shape. split; [reflexivity|].
  intros b t i j c Ht. rewrite puts_dat. destruct (in_dec idx_dec _ _) as [H|H]; (split; [|auto]).
  - split; [intros _|reflexivity]. apply in_flat_map in H as (b' & _ & H). unfold row_cells in H.
    destruct (nth_error ts b') as [u|] eqn:Eu; [|destruct H]. apply in_map_iff in H as ([[i' j'] w] & E & H). cbn [cell lab] in E.
    injection E as -> -> -> <-. rewrite Ht in Eu. injection Eu as <-. exists w. auto.
  - cbn [zeros dat]. split; [discriminate|]. intros (w & Hw & ->). destruct H. apply in_flat_map. exists b. split.
    + apply in_seq. assert (b < length ts) by (apply nth_error_Some; congruence). lia.
    + unfold row_cells. rewrite Ht. apply in_map_iff. exists (i, j, w). auto.
Qed.
Print Assumptions C67_tensor.

(** ** Printing *)
Definition pos (d : bool) (s : nat * nat * string) : nat := let '(i, j, _) := s in if d then j else i.
(** spec: number of constituents that start (or end) at word k *)
Definition st (d : bool) (k : nat) (l : list (nat * nat * string)) : nat := length (filter (fun s => pos d s =? k) l).
Lemma st_app d k l l' : st d k (l ++ l') = st d k l + st d k l'.
Proof. unfold st. now rewrite filter_app, app_length. Qed.
Lemma st_none d k l : (forall s, In s l -> pos d s <> k) -> st d k l = 0.
Proof.
  intro H. unfold st. replace (filter _ l) with (@nil (nat * nat * string)); [reflexivity|]. symmetry.
  induction l as [|s l IH]; [reflexivity|]. cbn [filter]. destruct (Nat.eqb_spec (pos d s) k) as [E|E]; [destruct (H s); [left; auto|auto]|].
  apply IH. intros; apply H; right; auto.
Qed.
Lemma fcons_bounds l : Forall (branching 1) l -> forall o i j w, In (i, j, w) (fcons o l) -> o <= i /\ i <= j /\ j < o + fsz l.
Proof.
  induction l as [|a l IH]; intros Hb o i j w H; [destruct H|]. inversion Hb; subst. cbn [fcons] in H. rewrite fsz_cons.
  apply in_app_iff in H as [H|H]; [apply (rcons_bounds H2) in H; lia|apply IH in H; auto; lia].
Qed.
Lemma st_out d k o t : branching 1 t -> k < o \/ o + rsize t <= k -> st d k (rcons o t) = 0.
Proof. intros Hb Hk. apply st_none. intros [[i j] w] H. apply (rcons_bounds Hb) in H. destruct d; cbn [pos]; lia. Qed.
Lemma fst_out d k o l : Forall (branching 1) l -> k < o \/ o + fsz l <= k -> st d k (fcons o l) = 0.
Proof. intros Hb Hk. apply st_none. intros [[i j] w] H. apply (fcons_bounds Hb) in H. destruct d; cbn [pos]; lia. Qed.
Lemma st_node d k o l : 1 <= fsz l -> st d k (rcons o (RN l)) = st d k (fcons o l) + (if k =? (if d then o + fsz l - 1 else o) then 1 else 0).
Proof.
  intro H. rewrite rcons_n, st_app. f_equal. unfold st. cbn [filter pos]. rewrite rsize_n, Nat.eqb_sym. destruct d; destruct (_ =? _); reflexivity.
Qed.
Lemma st_in d k o t : branching 1 t -> o <= k < o + rsize t -> 1 <= st d k (rcons o t).
Proof.
  revert o. induction t as [w|l IH] using rt_ind'; intros o Hb Hk.
  - unfold rsize in Hk. cbn in Hk. unfold st. cbn [rcons filter pos]. assert (k = o) by lia. subst. destruct d; rewrite Nat.eqb_refl; cbn; lia.
  - pose proof (rsize_pos Hb) as Hs. apply branching_n in Hb as [_ Hb]. rewrite rsize_n in *. rewrite st_node by auto. apply Nat.lt_le_trans with (st d k (fcons o l)); [|lia].
    clear Hs. revert o Hk. induction l as [|a l IHl]; intros o Hk; [unfold fsz in Hk; cbn in Hk; lia|]. inversion IH; inversion Hb; subst.
    rewrite fsz_cons in Hk. cbn [fcons]. rewrite st_app. destruct (Nat.lt_ge_cases k (o + rsize a)) as [L|L].
    + specialize (H1 o H5). lia.
    + specialize (IHl H2 H6 (o + rsize a)). lia.
Qed.

(** words with f k brackets before and g k brackets after word k *)
Fixpoint dec (f g : nat -> nat) (o : nat) (ws : list string) : list string :=
  match ws with [] => [] | w :: ws' => repeat "("%string (f o) ++ [w] ++ repeat ")"%string (g o) ++ dec f g (S o) ws' end.
Lemma dec_ext f g f' g' ws : forall o, (forall k, o <= k < o + length ws -> f k = f' k /\ g k = g' k) -> dec f g o ws = dec f' g' o ws.
Proof.
  induction ws as [|w ws IH]; intros o H; [reflexivity|]. cbn [dec length] in *. destruct (H o) as [-> ->]; [lia|]. rewrite IH; [reflexivity|]. intros; apply H; lia.
Qed.
Lemma dec_app f g ws ws' : forall o, dec f g o (ws ++ ws') = dec f g o ws ++ dec f g (o + length ws) ws'.
Proof.
  induction ws as [|w ws IH]; intro o; [cbn; now rewrite Nat.add_0_r|]. cbn [app dec length]. rewrite IH, <- !app_assoc. cbn [app]. rewrite <- !app_assoc.
  now replace (S o + length ws) with (o + S (length ws)) by lia.
Qed.
Lemma dec_open f g o ws : ws <> [] -> dec (fun k => f k + if k =? o then 1 else 0) g o ws = "("%string :: dec f g o ws.
Proof.
  destruct ws as [|w ws]; [congruence|]. intros _. cbn [dec]. rewrite Nat.eqb_refl, Nat.add_comm. cbn [Nat.add repeat app].
  f_equal. f_equal. f_equal. f_equal. apply dec_ext. intros k Hk. destruct (Nat.eqb_spec k o); [lia|]. split; lia.
Qed.
Lemma dec_close f g o ws : ws <> [] -> dec f (fun k => g k + if k =? o + length ws - 1 then 1 else 0) o ws = dec f g o ws ++ [")"%string].
Proof.
  intro H. destruct (exists_last H) as (ws' & w & ->). rewrite !dec_app, app_length. cbn [length dec].
  replace (o + (length ws' + 1) - 1) with (o + length ws') by lia. rewrite Nat.eqb_refl, !app_nil_r.
  rewrite repeat_app. cbn [repeat]. rewrite <- !app_assoc. f_equal. apply dec_ext. intros k Hk.
  destruct (Nat.eqb_spec k (o + length ws')); lia.
Qed.
Lemma dec_zero ws : forall o, dec (fun _ => 0) (fun _ => 0) o ws = ws.
Proof. induction ws as [|w ws IH]; intro o; [reflexivity|]. cbn [dec repeat app]. now rewrite IH. Qed.
Lemma text_dec t : branching 1 t -> forall o, dec (fun k => st false k (rcons o t) - 1) (fun k => st true k (rcons o t) - 1) o (ryield t) = rtext t.
Proof.
  induction t as [w|l IH] using rt_ind'; intros Hb o.
  - cbn [ryield rtext dec rcons]. unfold st. cbn [filter pos]. rewrite Nat.eqb_refl. reflexivity.
  - pose proof (rsize_pos Hb) as Hs. rewrite rsize_n in Hs. apply branching_n in Hb as [_ Hb].
    assert (Hne : flat_map ryield l <> []) by (intro E; unfold fsz in Hs; rewrite E in Hs; cbn in Hs; lia).
    cbn [ryield rtext].
    transitivity (dec (fun k => (st false k (fcons o l) - 1) + if k =? o then 1 else 0)
                      (fun k => (st true k (fcons o l) - 1) + if k =? o + length (flat_map ryield l) - 1 then 1 else 0) o (flat_map ryield l)).
    { apply dec_ext. fold (fsz l). intros k Hk. rewrite !st_node by auto.
      assert (Hin : forall d, 1 <= st d k (fcons o l)).
      { intro d. clear Hne Hs. revert o Hk. induction l as [|a l IHl]; intros o Hk; [unfold fsz in Hk; cbn in Hk; lia|]. inversion IH; inversion Hb; subst.
        rewrite fsz_cons in Hk. cbn [fcons]. rewrite st_app. destruct (Nat.lt_ge_cases k (o + rsize a)) as [L|L].
        - pose proof (@st_in d k o a H5). lia.
        - specialize (IHl H2 H6 (o + rsize a)). lia. }
      pose proof (Hin false). pose proof (Hin true). split; lia. }
    rewrite dec_open, dec_close by auto. f_equal. f_equal. clear Hne Hs. revert o.
    induction l as [|a l IHl]; intro o; [reflexivity|]. inversion IH; inversion Hb; subst. cbn [flat_map]. rewrite dec_app. f_equal.
    + rewrite <- (H1 H5 o). apply dec_ext. fold (rsize a). intros k Hk. cbn [fcons]. rewrite !st_app, !(@fst_out _ k (o + rsize a) l) by (auto; lia). lia.
    + fold (rsize a). rewrite <- (IHl H2 H6 (o + rsize a)). apply dec_ext. intros k Hk. cbn [fcons]. rewrite !st_app, !(@st_out _ k o a) by (auto; lia). split; lia.
Qed.

Lemma show_dec cover out : flat_map (fun i => repeat "("%string (brackets cover 0 i) ++ [nth i out ""%string] ++ repeat ")"%string (brackets cover 1 i))
    (seq 0 (length out)) = dec (brackets cover 0) (brackets cover 1) 0 out.
Proof.
  assert (H : forall pre ws, out = pre ++ ws -> flat_map (fun i => repeat "("%string (brackets cover 0 i) ++ [nth i out ""%string] ++ repeat ")"%string (brackets cover 1 i))
    (seq (length pre) (length ws)) = dec (brackets cover 0) (brackets cover 1) (length pre) ws).
  { intros pre ws. revert pre. induction ws as [|w ws IH]; intros pre ->; [reflexivity|]. cbn [length seq flat_map dec].
    rewrite app_nth2, Nat.sub_diag by lia. cbn [nth]. rewrite <- !app_assoc. f_equal. f_equal. f_equal.
    specialize (IH (pre ++ [w])). rewrite app_length in IH. cbn [length] in IH. rewrite Nat.add_comm in IH. cbn [Nat.add] in IH. apply IH. now rewrite <- app_assoc. }
  apply (H [] out eq_refl).
Qed.

(** distinct constituents, when every bracket has two parts *)
Definition span_ij (s : nat * nat * string) : nat * nat := let '(i, j, _) := s in (i, j).
Lemma rcons_nodup t : branching 2 t -> forall o, NoDup (map span_ij (rcons o t)).
Proof.
  induction t as [w|l IH] using rt_ind'; intros Hb o; [repeat constructor; auto|].
  apply branching_n in Hb as [Hl Hb]. rewrite rcons_n, map_app. assert (Hb1 : Forall (branching 1) l) by (eapply Forall_impl; [|exact Hb]; intros u Hu; apply (@branching_le 2 1); [lia|exact Hu]).
  apply NoDup_app2.
  - clear Hl. revert o. induction l as [|a l IHl]; intro o; [constructor|]. inversion IH; inversion Hb; inversion Hb1; subst. cbn [fcons]. rewrite map_app.
    apply NoDup_app2; auto. intros [i j] Hi Hj. apply in_map_iff in Hi as ([[i1 j1] w1] & E1 & Hi). apply in_map_iff in Hj as ([[i2 j2] w2] & E2 & Hj).
    cbn [span_ij] in E1, E2. injection E1 as -> ->. injection E2 as -> ->. apply (rcons_bounds H9) in Hi. apply (fcons_bounds H10) in Hj. lia.
  - repeat constructor. auto.
  - intros [i j] Hi [[= <- <-]|[]]. apply in_map_iff in Hi as ([[i1 j1] w1] & E1 & Hi). cbn [span_ij] in E1. injection E1 as -> ->.
    rewrite rsize_n in Hi. destruct l as [|a [|a' l]]; cbn [length] in Hl; try lia. inversion Hb1 as [|? ? Ha H']; subst. inversion H' as [|? ? Ha' Hr]; subst.
    pose proof (rsize_pos Ha). pose proof (rsize_pos Ha'). rewrite !fsz_cons in Hi. cbn [fcons] in Hi.
    apply in_app_iff in Hi as [Hi|Hi]; [apply (rcons_bounds Ha) in Hi; lia|]. 
    change (rcons (o + rsize a) a' ++ fcons (o + rsize a + rsize a') l) with (fcons (o + rsize a) (a' :: l)) in Hi. apply (fcons_bounds H') in Hi. lia.
Qed.

(** spec: cell of a constituent in one row *)
Definition cell3 (lbl : nat * nat * string -> nat) (s : nat * nat * string) : list nat := let '(i, j, _) := s in [i; j; lbl s].
Lemma cell3_nodup lbl l : NoDup (map span_ij l) -> NoDup (map (cell3 lbl) l).
Proof.
  induction l as [|[[i j] w] l IH]; intro H; [constructor|]. cbn [map span_ij] in H. inversion H as [|? ? Hn Hd]; subst.
  cbn [map]. constructor; [|auto]. intro HI. apply Hn. apply in_map_iff in HI as ([[i' j'] w'] & E & HI). cbn [cell3] in E. injection E as -> -> _.
  apply in_map_iff. exists (i, j, w'). auto.
Qed.
Lemma filter_map_length A B (f : A -> B) p l : length (filter p (map f l)) = length (filter (fun x => p (f x)) l).
Proof. induction l as [|x l IH]; [reflexivity|]. cbn [map filter]. destruct (p (f x)); cbn [length]; auto. Qed.
Lemma filter_perm_length A (p : A -> bool) l l' : Permutation l l' -> length (filter p l) = length (filter p l').
Proof. induction 1; cbn [filter]; auto; try (destruct (p x); cbn; auto); try (destruct (p y); cbn; auto); congruence. Qed.
(** Printing a tensor whose non-zero cells are the constituents of a tree, whatever
    their labels, gives the bracketed text of the tree; further words are left bare. *)
Lemma show_spec (tr : tensor Z) lbl t pad : branching 2 t ->
  (forall e, Forall2 lt e (shape tr) /\ dat tr e <> 0%Z <-> In e (map (cell3 lbl) (rcons 0 t))) ->
  show_text tr (ryield t ++ pad) = rtext t ++ pad.
Proof.
  intros Hb Hcell. assert (Hb1 : branching 1 t) by (eapply branching_le; [|exact Hb]; lia).
  unfold show_text. rewrite show_dec, dec_app. fold (rsize t). cbn [Nat.add].
  assert (HP : Permutation (nonzero tr) (map (cell3 lbl) (rcons 0 t))).
  { apply NoDup_Permutation.
    - apply NoDup_filter, indexes_nodup.
    - apply cell3_nodup, rcons_nodup, Hb.
    - intro e. rewrite nonzero_in. apply Hcell. }
  assert (E0 : forall k, brackets (nonzero tr) 0 k = st false k (rcons 0 t) - 1).
  { intro k. unfold brackets, st. rewrite (filter_perm_length _ HP), filter_map_length. f_equal. f_equal. apply filter_ext. intros [[i j] w]. reflexivity. }
  assert (E1 : forall k, brackets (nonzero tr) 1 k = st true k (rcons 0 t) - 1).
  { intro k. unfold brackets, st. rewrite (filter_perm_length _ HP), filter_map_length. f_equal. f_equal. apply filter_ext. intros [[i j] w]. reflexivity. }
  f_equal.
  - rewrite <- (text_dec Hb1 0). apply dec_ext. intros k _. auto.
  - etransitivity; [|apply (dec_zero pad (rsize t))]. apply dec_ext. intros k Hk. rewrite E0, E1, !st_out by (auto; lia). auto.
Qed.

Lemma Forall2_lt3 e a b c : Forall2 lt e [a; b; c] -> exists x y z, e = [x; y; z] /\ x < a /\ y < b /\ z < c.
Proof.
  intro H. inversion H as [|x ? e1 ? X1 F1]; subst. inversion F1 as [|y ? e2 ? X2 F2]; subst. inversion F2 as [|z ? e3 ? X3 F3]; subst.
  inversion F3; subst. exists x, y, z. auto.
Qed.

(** Round trip: the lines of a batch, read, put into the batch tensor and printed next
    to their padded words, come back as they were, followed by the padding words. *)
Theorem C67_roundtrip V stoi ts : ts <> [] -> Forall plain ts -> Forall (branching 2) ts ->
  (forall w, stoi w < 9 + V) ->
  exists fields ret, mapM read_tree (map rtext ts) = Ok fields /\ tree_post V stoi (map snd fields) = Ok ret /\
    forall b t pad, nth_error ts b = Some t ->
      exists words spans, nth_error fields b = Some (words, spans) /\ words = ryield t /\
        show_text (trow ret b) (words ++ pad) = rtext t ++ pad.
Proof.
  intros Hne Hp Hb Hst. assert (Hb1 : Forall (branching 1) ts) by (eapply Forall_impl; [|exact Hb]; intros u Hu; apply (@branching_le 2 1); [lia|exact Hu]).
  exists (map (fun t => (ryield t, map z3 (rcons 0 t))) ts).
  destruct (@C67_tensor V stoi ts Hne Hb1) as (ret & E & Hs & Hd); [intros; apply Hst|].
  exists ret. split; [|split].
  - rewrite Forall_forall in Hp, Hb1. clear - Hp Hb1. induction ts as [|t ts IH]; [reflexivity|]. cbn [map mapM].
    rewrite C67_read by (first [apply Hp|apply Hb1]; left; reflexivity). cbn [bind]. rewrite IH by (intros; first [apply Hp|apply Hb1]; right; auto). reflexivity.
  - rewrite map_map. cbn [snd]. exact E.
  - intros b t pad Ht. exists (ryield t), (map z3 (rcons 0 t)). split; [now rewrite nth_error_map, Ht|]. split; [reflexivity|].
    pose proof (nth_error_In _ _ Ht) as Hin. rewrite Forall_forall in Hb, Hb1. apply show_spec with (lbl := lab stoi); [auto|].
    intro e. cbn [trow shape dat]. rewrite Hs. cbn [tl]. split.
    + intros [HF HD]. apply Forall2_lt3 in HF as (i & j & c & -> & H1 & H2 & H3). destruct (Hd b t i j c Ht) as [HI [H0|H0]]; [congruence|].
      apply HI in H0 as (w & Hw & ->). apply in_map_iff. exists (i, j, w). auto.
    + intro H. apply in_map_iff in H as ([[i j] w] & <- & H). cbn [cell3]. pose proof (rcons_bounds (Hb1 t Hin) _ _ _ _ H) as HB.
      pose proof (maxsize_ge ts t Hin) as HM. specialize (Hst w). split.
      * constructor; [lia|constructor; [lia|constructor; [|constructor]]]. unfold lab. destruct (i =? j); lia.
      * destruct (Hd b t i j (lab stoi (i, j, w)) Ht) as [HI _]. assert (dat ret [b; i; j; lab stoi (i, j, w)] = 1%Z) as ->; [|discriminate].
        apply HI. exists w. auto.
Qed.
Print Assumptions C67_roundtrip.

(** With brackets around a single part this fails: a bracket around a bracket is lost,
    and a bracket around a word gives the word a second label (that of ")"). *)
Theorem C67_unary_refuted : exists t V stoi ret words spans, plain t /\ branching 1 t /\ (forall w, stoi w < V) /\
  read_tree (rtext t) = Ok (words, spans) /\ tree_post V stoi [spans] = Ok ret /\ show_text (trow ret 0) words <> rtext t.
Proof.
  exists (RN [RN [RW "a"; RW "b"]]), 1, (fun _ => 0). do 3 eexists. split; [repeat constructor|]. split; [repeat constructor|].
  split; [intro; lia|]. split; [reflexivity|]. split; [reflexivity|]. vm_compute. discriminate.
Qed.
Theorem C67_unary_word_refuted : exists t V stoi ret words spans c1 c2, plain t /\ branching 1 t /\ (forall w, stoi w < V) /\
  read_tree (rtext t) = Ok (words, spans) /\ words = ["a"%string] /\ tree_post V stoi [spans] = Ok ret /\ c1 <> c2 /\
  dat ret [0; 0; 0; c1] = 1%Z /\ dat ret [0; 0; 0; c2] = 1%Z.
Proof.
  exists (RN [RW "a"]), 2, (fun w => if String.eqb w "a" then 1 else 0). do 3 eexists. exists 2, 1. split; [repeat constructor|]. split; [repeat constructor|].
  split; [intro w; destruct (String.eqb w "a"); lia|]. split; [reflexivity|]. split; [reflexivity|]. split; [reflexivity|]. split; [lia|]. split; reflexivity.
Qed.

(** The table of valid_show has the gold tree in the column "Predicted Tree" and the
    model's tree in the column "True Tree". *)
Theorem C67_columns gold argmax_tree b out :
  In ("Predicted Tree"%string, show_text (trow gold b) out) (show_row gold argmax_tree b out) /\
  In ("True Tree"%string, show_text (trow argmax_tree b) out) (show_row gold argmax_tree b out).
Proof. unfold show_row. cbn [combine In]. auto. Qed.
Theorem C67_columns_refuted : exists t u V stoi gold words spans argmax_tree,
  plain t /\ branching 2 t /\ read_tree (rtext t) = Ok (words, spans) /\ tree_post V stoi [spans] = Ok gold /\
  shape argmax_tree = [1; 3; 3; 1] /\ is_ltree 1 3 u /\ represents argmax_tree 0 (lparts 0 0 u) /\
  ~ In ("True Tree"%string, rtext t) (show_row gold argmax_tree 0 words) /\ In ("Predicted Tree"%string, rtext t) (show_row gold argmax_tree 0 words).
Proof.
  exists (RN [RN [RW "a"; RW "b"]; RW "c"]), (LNode 0 (LLeaf 0) (LNode 0 (LLeaf 0) (LLeaf 0))), 1, (fun _ => 0). do 3 eexists.
  exists {| shape := [1; 3; 3; 1]; dat := fun e => Z.of_nat (count_occ idx_dec (lparts 0 0 (LNode 0 (LLeaf 0) (LNode 0 (LLeaf 0) (LLeaf 0)))) e) |}.
  split; [repeat constructor|]. split; [repeat constructor|]. split; [reflexivity|]. split; [reflexivity|]. split; [reflexivity|].
  split; [split; [reflexivity|cbn; lia]|]. split; [intros i _; reflexivity|]. split.
  - vm_compute. intros [E|[E|[E|[]]]]; discriminate.
  - right. left. reflexivity.
Qed.

(** ** Graph of the gold trees *)
(** binary trees over words, as labelled trees: a word's label is 1 + its number, a
    bracket's 0 *)
Inductive as_ltree (stoi : string -> nat) : rt -> ltree -> Prop :=
| al_w w : as_ltree stoi (RW w) (LLeaf (stoi w + 1))
| al_n a b p q : as_ltree stoi a p -> as_ltree stoi b q -> as_ltree stoi (RN [a; b]) (LNode 0 p q).
Lemma as_ltree_branching stoi t u : as_ltree stoi t u -> branching 2 t.
Proof. induction 1; constructor; cbn; auto. Qed.
Lemma as_ltree_size stoi t u : as_ltree stoi t u -> rsize t = lsize u.
Proof. induction 1; [reflexivity|]. rewrite rsize_n, !fsz_cons. unfold fsz. cbn. lia. Qed.
Lemma as_ltree_parts stoi t u : as_ltree stoi t u -> forall b i, Permutation (map (cell stoi b) (rcons i t)) (lparts b i u).
Proof.
  induction 1; intros b0 i.
  - cbn [rcons map cell lab lparts]. rewrite Nat.eqb_refl. reflexivity.
  - assert (Hs : branching 1 (RN [a; b])) by (apply (@branching_le 2 1); [lia|]; apply (as_ltree_branching (al_n H H0))).
    pose proof (rsize_pos (branching_le (Nat.le_succ_diag_r 1) (as_ltree_branching H))) as Ha.
    pose proof (rsize_pos (branching_le (Nat.le_succ_diag_r 1) (as_ltree_branching H0))) as Hb.
    rewrite rcons_n. cbn [fcons]. rewrite rsize_n, !fsz_cons. unfold fsz. cbn [flat_map length]. rewrite app_nil_r, !map_app. cbn [map cell lab lparts].
    destruct (Nat.eqb_spec i (i + (rsize a + (rsize b + 0)) - 1)) as [E|E]; [lia|].
    rewrite (as_ltree_size H), (as_ltree_size H0), Nat.add_0_r in *. rewrite IHas_ltree1, IHas_ltree2.
    symmetry. apply Permutation_cons_append.
Qed.
Lemma as_ltree_bounded stoi t u V : as_ltree stoi t u -> (forall w, stoi w < 9 + V) -> lbounded (10 + V) u.
Proof. intros H Hs. induction H; cbn [lbounded]; [specialize (Hs w); lia|]. split; [lia|auto]. Qed.
Lemma lparts_nodup b u i : NoDup (lparts b i u).
Proof.
  rewrite lparts_nodes. pose proof (lnodes_nodup u i) as H. revert H.
  assert (HI : forall x y, In x (lnodes i u) -> In y (lnodes i u) -> span_of (b, x) = span_of (b, y) -> x = y).
  { intros [i1 q1] [i2 q2] H1 H2 E. unfold span_of in E. injection E as E1 E2 _. subst i2. pose proof (lsize_pos q1). pose proof (lsize_pos q2).
    destruct (lnodes_nested _ _ _ _ _ _ H1 H2) as [L|[L|[L|L]]]; try lia; destruct (lnodes_top _ _ _ _ L) as [_ ->]; try lia; reflexivity. }
  generalize (lnodes i u) HI. induction l as [|x l IH]; intros HJ Hn; [constructor|]. inversion Hn as [|? ? Hx Hl]; subst. cbn [map]. constructor.
  - intro H. apply in_map_iff in H as (y & E & Hy). apply Hx. rewrite (HJ x y); auto; [left; auto|right; auto].
  - apply IH; auto. intros; apply HJ; auto; right; auto.
Qed.

Theorem C67_gold_graph V stoi ts us : ts <> [] -> Forall2 (as_ltree stoi) ts us -> (forall w, stoi w < 9 + V) ->
  exists ret, tree_post V stoi (map (fun t => map z3 (rcons 0 t)) ts) = Ok ret /\
    forall perm, is_argsort (nx_keys (nonzero ret)) perm ->
    exists nodes n_nodes a b label indices topo, to_networkx perm ret = Ok ((n_nodes, a, b, label), indices, topo) /\
      is_graph (maxsize ts) (length ts) (fun r => [nth r us (LLeaf 0)]) nodes n_nodes a b label indices topo.
Proof.
  intros Hne HF Hst.
  assert (Hb1 : Forall (branching 1) ts).
  { clear - HF. induction HF as [|t u ts us H HF IH]; constructor; auto. apply (@branching_le 2 1); [lia|]. eapply as_ltree_branching; eauto. }
  destruct (@C67_tensor V stoi ts Hne Hb1) as (ret & E & Hs & Hd); [intros; apply Hst|].
  exists ret. split; [exact E|]. intros perm Hperm. apply C54_graph with (S := 10 + V); auto.
  intros r Hr. assert (Ht : exists t, nth_error ts r = Some t) by (destruct (nth_error ts r) eqn:En; [eauto|]; apply nth_error_None in En; lia).
  destruct Ht as [t Ht]. assert (Hu : as_ltree stoi t (nth r us (LLeaf 0))).
  { clear - HF Ht. revert r Ht. induction HF as [|t' u ts us H HF IH]; intros [|r] Ht; cbn in *; try discriminate; [congruence|auto]. }
  pose proof (nth_error_In _ _ Ht) as Hin. pose proof (maxsize_ge ts t Hin) as HM. rewrite (as_ltree_size Hu) in HM.
  split; [|split].
  - repeat constructor. eapply as_ltree_bounded; eauto.
  - cbn [fsize]. lia.
  - intros i Hi. rewrite Hs in Hi. cbn [tl] in Hi. apply Forall2_lt3 in Hi as (x & y & z & -> & H1 & H2 & H3).
    cbn [fparts]. rewrite app_nil_r, count_nodup by apply lparts_nodup. destruct (Hd r t x y z Ht) as [HI H01].
    destruct (in_dec idx_dec _ _) as [L|L].
    + apply (Permutation_in _ (Permutation_sym (as_ltree_parts Hu r 0))) in L. apply in_map_iff in L as ([[i j] w] & Ec & L). cbn [cell lab] in Ec.
      injection Ec as -> -> <-. apply HI. exists w. auto.
    + destruct H01 as [H0|H0]; [exact H0|]. exfalso. apply L. apply HI in H0 as (w & Hw & ->).
      apply (Permutation_in _ (as_ltree_parts Hu r 0)). apply in_map_iff. exists (x, y, w). auto.
Qed.
Print Assumptions C67_gold_graph.

(** ** Trees of the model over the words of the sentence *)
(** a tree with the words' labels at the leaves and 0 at the brackets *)
Fixpoint over_words (w : nat -> nat) (i : nat) (u : ltree) : ltree :=
  match u with LLeaf _ => LLeaf (w i + 1) | LNode _ l r => LNode 0 (over_words w i l) (over_words w (i + lsize l) r) end.
(** words behind the end of the sentence *)
Definition loose (w : nat -> nat) (n N : nat) : list ltree := map (fun i => LLeaf (w i + 1)) (seq n (N - n)).
Lemma over_size w u : forall i, lsize (over_words w i u) = lsize u.
Proof. induction u as [a|a l IHl r IHr]; intro i; cbn; auto. Qed.
Lemma over_bounded w V N u : (forall i, i < N -> w i < V) -> forall i, i + lsize u <= N -> lbounded (1 + V) (over_words w i u).
Proof.
  intro Hw. induction u as [a|a l IHl r IHr]; intros i Hi; cbn [over_words lbounded lsize] in *; [specialize (Hw i); lia|].
  split; [lia|]. split; [apply IHl; lia|apply IHr; lia].
Qed.
Lemma over_off w b u x y c : x <> y -> lbounded 1 u -> forall i,
  In [b; x; y; c] (lparts b i (over_words w i u)) <-> c = 0 /\ In [b; x; y; 0] (lparts b i u).
Proof.
  intro N. induction u as [a|a l IHl r IHr]; intros HB i; cbn [over_words lparts lbounded] in *.
  - cbn [In]. split; [intros [[= <- <- <-]|[]]; congruence|intros [_ [[= <- <- <-]|[]]]; congruence].
  - destruct HB as (Ha & Hl & Hr). assert (a = 0) by lia. subst a. cbn [In]. rewrite !in_app_iff, IHl, !over_size by auto. rewrite IHr by auto. split.
    + intros [[= <- <- <-]|[[-> H]|[-> H]]]; auto.
    + intros [-> [[= <- <-]|[H|H]]]; auto.
Qed.
Lemma over_diag w b u x c : forall i, In [b; x; x; c] (lparts b i (over_words w i u)) <-> i <= x < i + lsize u /\ c = w x + 1.
Proof.
  induction u as [a|a l IHl r IHr]; intro i; cbn [over_words lparts lsize].
  - cbn [In]. split; [intros [E|[]]; injection E; intros; subst; split; [lia|auto]|intros [H ->]]. left. assert (x = i) by lia. subst. reflexivity.
  - pose proof (lsize_pos l). pose proof (lsize_pos r). cbn [In]. rewrite !over_size, !in_app_iff, IHl, IHr. split.
    + intros [E|[[H1 ->]|[H1 ->]]]; [injection E; intros; lia|split; [lia|auto]|split; [lia|auto]].
    + intros [H1 ->]. right. destruct (Nat.lt_ge_cases x (i + lsize l)); [left|right]; (split; [lia|auto]).
Qed.
Lemma loose_parts w b k : forall n i c x y, In [b; x; y; c] (fparts b i (map (fun i => LLeaf (w i + 1)) (seq n k))) <->
  x = y /\ i <= x < i + k /\ c = w (n + (x - i)) + 1.
Proof.
  induction k as [|k IH]; intros n i c x y; cbn [seq map fparts lparts app]; [cbn; lia|].
  cbn [In lsize]. rewrite IH. split.
  - intros [[= <- <- <-]|(-> & H & ->)].
    + split; [reflexivity|]. split; [lia|]. do 2 f_equal. lia.
    + split; [reflexivity|]. split; [lia|]. do 2 f_equal. lia.
  - intros (-> & H & ->). destruct (Nat.eq_dec y i) as [->|N].
    + left. rewrite Nat.sub_diag, Nat.add_0_r. reflexivity.
    + right. split; [reflexivity|]. split; [lia|]. do 2 f_equal. lia.
Qed.
Lemma fparts_nodup b ts : forall i, NoDup (fparts b i ts).
Proof.
  induction ts as [|t ts IH]; intro i; [constructor|]. cbn [fparts]. apply NoDup_app2; [apply lparts_nodup|apply IH|].
  intros e H1 H2. rewrite lparts_nodes in H1. rewrite fparts_nodes in H2. apply in_map_iff in H1 as ([x p] & E1 & H1). apply in_map_iff in H2 as ([y q] & E2 & H2).
  apply lnodes_in in H1. apply fnodes_in in H2. rewrite <- E1 in E2. cbn [span_of] in E2. injection E2 as E2 _ _. pose proof (lsize_pos p). lia.
Qed.
Lemma fsize_loose w k : forall n, fsize (map (fun i => LLeaf (w i + 1)) (seq n k)) = k.
Proof. induction k as [|k IH]; intro n; cbn [seq map fsize lsize]; [reflexivity|]. now rewrite IH. Qed.

(** K samples of trees for a batch of sentences, row k * batch + b for sentence b: the
    expanded tensor holds, per row, the sampled tree with the words of its sentence at
    the leaves and the words behind the end as loose leaves. *)
Theorem C67_expand spans words batch N K V (us : nat -> ltree) (len : nat -> nat) :
  1 <= batch -> shape spans = [K * batch; N; N; 1] ->
  (forall b i, b < batch -> i < N -> words b i < V) ->
  (forall r, r < K * batch -> is_ltree 1 (len r) (us r) /\ len r <= N /\ represents spans r (lparts r 0 (us r))) ->
  exists e, expand_spans spans words batch N K V = Ok e /\ shape e = [batch * K; N; N; 1 + V] /\
    forall r, r < batch * K ->
      represents e r (fparts r 0 (over_words (words (r mod batch)) 0 (us r) :: loose (words (r mod batch)) (len r) N)).
Proof.
  intros Hbatch Hs Hw Hu. unfold expand_spans. rewrite Hs, !Nat.eqb_refl. cbn [negb andb].
  replace (forallb _ _) with true.
  2:{ symmetry. apply forallb_forall. intros b Hb. apply forallb_forall. intros i Hi. apply in_seq in Hb, Hi. apply Nat.ltb_lt. apply Hw; lia. }
  cbn [negb]. eexists. split; [reflexivity|]. split; [reflexivity|]. intros r Hr i Hi. cbn [shape tl] in Hi.
  apply Forall2_lt3 in Hi as (x & y & c & -> & H1 & H2 & H3). destruct (Hu r) as ([Hsz HB] & Hlen & HR); [lia|].
  rewrite count_nodup by apply fparts_nodup. cbn [dat]. set (w := words (r mod batch)) in *.
  assert (HIN : In [r; x; y; c] (fparts r 0 (over_words w 0 (us r) :: loose w (len r) N)) <->
     if x =? y then c = w x + 1 else c = 0 /\ In [r; x; y; 0] (lparts r 0 (us r))).
  { cbn [fparts]. rewrite in_app_iff. unfold loose. rewrite loose_parts, over_size, Hsz. cbn [Nat.add].
    destruct (Nat.eqb_spec x y) as [->|N'].
    - rewrite over_diag, Hsz. split.
      + intros [[_ ->]|(_ & Hx & ->)]; [reflexivity|]. do 2 f_equal. lia.
      + intros ->. destruct (Nat.lt_ge_cases y (len r)); [left; split; [lia|auto]|right]. split; [auto|]. split; [lia|]. do 2 f_equal. lia.
    - rewrite over_off by auto. tauto. }
  destruct (Nat.eqb_spec x y) as [->|N'].
  - destruct (Nat.eqb_spec c 0) as [->|C0].
    + destruct (in_dec idx_dec _ _) as [L|L]; [|reflexivity]. apply HIN in L. lia.
    + destruct (Nat.eqb_spec c (w y + 1)) as [E|E]; destruct (in_dec idx_dec _ _) as [L|L]; try reflexivity; exfalso; [apply L, HIN, E|apply E, HIN, L].
  - destruct (Nat.eqb_spec c 0) as [->|C0].
    + rewrite HR by (rewrite Hs; cbn [tl]; repeat (constructor; auto)). rewrite count_nodup by apply lparts_nodup.
      destruct (in_dec idx_dec _ (lparts _ _ _)) as [L|L], (in_dec idx_dec _ (fparts _ _ _)) as [L'|L']; try reflexivity; exfalso; [apply L', HIN; auto|apply L, HIN, L'].
    + destruct (in_dec idx_dec _ _) as [L|L]; [|reflexivity]. apply HIN in L. lia.
Qed.
Print Assumptions C67_expand.
(** Hence to_networkx builds the graph of these trees. *)
Theorem C67_sample_graph spans words batch N K V (us : nat -> ltree) (len : nat -> nat) :
  1 <= batch -> shape spans = [K * batch; N; N; 1] ->
  (forall b i, b < batch -> i < N -> words b i < V) ->
  (forall r, r < K * batch -> is_ltree 1 (len r) (us r) /\ len r <= N /\ represents spans r (lparts r 0 (us r))) ->
  exists e, expand_spans spans words batch N K V = Ok e /\ forall perm, is_argsort (nx_keys (nonzero e)) perm ->
    exists nodes n_nodes a b label indices topo, to_networkx perm e = Ok ((n_nodes, a, b, label), indices, topo) /\
      is_graph N (batch * K) (fun r => over_words (words (r mod batch)) 0 (us r) :: loose (words (r mod batch)) (len r) N)
        nodes n_nodes a b label indices topo.
Proof.
  intros Hbatch Hs Hw Hu. destruct (@C67_expand spans words batch N K V us len Hbatch Hs Hw Hu) as (e & E & Hse & He). exists e. split; [exact E|].
  intros perm Hp. apply C54_graph with (S := 1 + V); auto. intros r Hr. destruct (Hu r) as ([Hsz _] & Hlen & _); [lia|].
  assert (Hmod : r mod batch < batch) by (apply Nat.mod_upper_bound; lia). split; [|split; [|auto]].
  - constructor; [apply over_bounded with (N := N); [auto|lia]|]. apply Forall_forall. intros t Ht. apply in_map_iff in Ht as (i & <- & Hi). apply in_seq in Hi.
    cbn [lbounded]. specialize (Hw (r mod batch) i). lia.
  - cbn [fsize]. unfold loose. rewrite fsize_loose, over_size. lia.
Qed.
Print Assumptions C67_sample_graph.

(** Hypotheses are met: two sentences of different length, with a nested bracket. *)
Example listops_hypotheses :
  let ts := [RN [RW "MAX"; RN [RW "2"; RW "9"]]; RN [RW "4"; RW "7"]]%string in
  let stoi := fun w => String.length w in
  Forall plain ts /\ Forall (branching 2) ts /\ Forall2 (as_ltree stoi) ts
    [LNode 0 (LLeaf 4) (LNode 0 (LLeaf 2) (LLeaf 2)); LNode 0 (LLeaf 2) (LLeaf 2)] /\ maxsize ts = 3.
Proof. cbn zeta. split; [repeat constructor|]. split; [repeat constructor|]. split; [|reflexivity]. repeat (constructor; try apply (al_w String.length)). all: apply (@al_w String.length). Qed.
Example expand_hypotheses :
  let us := fun r => if r =? 0 then LNode 0 (LLeaf 0) (LNode 0 (LLeaf 0) (LLeaf 0)) else if r =? 1 then LNode 0 (LLeaf 0) (LLeaf 0)
     else if r =? 2 then LNode 0 (LNode 0 (LLeaf 0) (LLeaf 0)) (LLeaf 0) else LNode 0 (LLeaf 0) (LLeaf 0) in
  let len := fun r => if Nat.even r then 3 else 2 in
  let spans := {| shape := [2 * 2; 3; 3; 1]; dat := fun e => Z.of_nat (count_occ idx_dec (lparts (hd 0 e) 0 (us (hd 0 e))) e) |} in
  forall r, r < 2 * 2 -> is_ltree 1 (len r) (us r) /\ len r <= 3 /\ represents spans r (lparts r 0 (us r)).
Proof.
  cbn zeta. intros r Hr. split; [|split].
  - do 4 (destruct r as [|r]; [split; [reflexivity|cbn; lia]|]). lia.
  - destruct (Nat.even r); lia.
  - intros i _. reflexivity.
Qed.
