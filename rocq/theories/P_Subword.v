(** * P_Subword (C69): reading CoNLL files and aligning word pieces with words. *)
From Coq Require Import ZArith Ascii String Reals Lra.
From Verif Require Import Base Ops Tensor Codec Semirings Subword.
Set Implicit Arguments.
Local Open Scope nat_scope.

(** ** Reader *)
Definition sent : Type := list (list string).
(** spec: a column of a sentence *)
Definition col (k : nat) (s : sent) : list string := map (fun l => nth k l ""%string) s.
(** sentences, each followed by a blank line *)
Definition file_of (ss : list sent) : list (option (list string)) := flat_map (fun s => map Some s ++ [None]) ss.
Lemma conll_sentence s : Forall (fun l => 7 <= length l) s -> forall ex c,
  fold_left (fun st line => match line with None => (fst st ++ [snd st], ([], [])) | Some l => (fst st, conll_line (snd st) l) end) (map Some s) (ex, c)
  = (ex, (fst c ++ col 1 s, snd c ++ col 6 s)).
Proof.
  induction s as [|l s IH]; intros H ex [c1 c2]; [cbn; now rewrite !app_nil_r|]. inversion H as [|? ? Hl Hs]; subst. cbn [map fold_left fst snd].
  rewrite IH by auto. unfold conll_line. cbn [fst snd col map].
  rewrite (nth_error_nth' l ""%string (n := 1)), (nth_error_nth' l ""%string (n := 6)) by lia. now rewrite <- !app_assoc.
Qed.
Lemma conll_file ss : Forall (Forall (fun l => 7 <= length l)) ss -> forall ex,
  fold_left (fun st line => match line with None => (fst st ++ [snd st], ([], [])) | Some l => (fst st, conll_line (snd st) l) end) (file_of ss) (ex, ([], []))
  = (ex ++ map (fun s => (col 1 s, col 6 s)) ss, ([], [])).
Proof.
  induction ss as [|s ss IH]; intros H ex; [cbn; now rewrite app_nil_r|]. inversion H as [|? ? Hl Hs]; subst. cbn [file_of flat_map].
  rewrite !fold_left_app, conll_sentence by auto. cbn [fold_left fst snd app]. rewrite IH by auto. cbn [map]. now rewrite <- app_assoc.
Qed.
(** A file of sentences, each closed by a blank line, gives the sentences and one
    more example without words. Without the last blank line there is none. *)
Theorem C69_reader ss : Forall (Forall (fun l => 7 <= length l)) ss ->
  read_conll (file_of ss) = map (fun s => (col 1 s, col 6 s)) ss ++ [([], [])].
Proof. intro H. unfold read_conll. now rewrite conll_file. Qed.
Theorem C69_reader_no_blank ss s : Forall (Forall (fun l => 7 <= length l)) (ss ++ [s]) ->
  read_conll (file_of ss ++ map Some s) = map (fun s => (col 1 s, col 6 s)) (ss ++ [s]).
Proof.
  intro H. apply Forall_app in H as [H1 H2]. inversion H2; subst. unfold read_conll. rewrite fold_left_app, conll_file, conll_sentence by auto.
  rewrite map_app. reflexivity.
Qed.
Theorem C69_reader_refuted : exists ss, Forall (Forall (fun l => 7 <= length l)) ss /\ length (read_conll (file_of ss)) <> length ss.
Proof. exists [[["1"; "go"; "_"; "VB"; "VB"; "_"; "0"]]]%string. split; [repeat constructor; cbn; lia|]. cbn. discriminate. Qed.

(** ** token_pre *)
Lemma cont_hashed w : cont w = hashed w.
Proof.
  unfold cont. destruct w as [|a [|b w]]; [reflexivity| |]; cbn [String.prefix hashed];
    destruct (ascii_dec "#"%char a) as [<-|N]; try reflexivity.
  - destruct (ascii_dec "#"%char b) as [<-|N]; [destruct w; reflexivity|].
    cbn [andb]. destruct (Ascii.eqb_spec b "#"%char); [congruence|now rewrite Bool.andb_false_r].
  - destruct (Ascii.eqb_spec a "#"%char); [congruence|reflexivity].
Qed.
(** spec: number of continuation pieces *)
Definition ncont (ps : list string) : nat := length (filter hashed ps).
(** further pieces of a word that are no continuations *)
Definition nplain (ps : list string) : nat := length (filter (fun p => negb (hashed p)) (tl ps)).
(** spec: further pieces that are no continuation *)
Definition skipped (pss : list (list string)) : nat := fold_right Nat.add 0 (map nplain pss).
(** spec: the word index of every piece *)
Fixpoint blocks (j : nat) (pss : list (list string)) : list Z :=
  match pss with [] => [] | ps :: r => Z.of_nat j :: repeat (-1)%Z (ncont ps) ++ blocks (S j) r end.
Lemma total_cons p ps : total (p :: ps) = covers p + total ps.
Proof. reflexivity. Qed.
Lemma tp_rest q ps : forall out c e, (ps = [] -> e = 0) -> (forall k, k < length ps -> total (firstn k ps) < e) -> e <= total ps ->
  loop (tp_step q) ps {| p_out := out; p_cur := c; p_expect := e; p_first := false |} =
  Ok {| p_out := out ++ repeat (-1)%Z (ncont ps); p_cur := c; p_expect := 0; p_first := false |}.
Proof.
  induction ps as [|p ps IH]; intros out c e H0 Hk He.
  - rewrite H0 by auto. cbn. now rewrite app_nil_r.
  - pose proof (Hk 0) as He0. cbn [length firstn] in He0. specialize (He0 ltac:(lia)). unfold total at 1 in He0. cbn in He0.
    cbn [loop]. unfold tp_step. cbn [p_expect p_out p_cur p_first]. destruct (Nat.eqb_spec e 0) as [|_]; [lia|]. cbn [bind p_expect p_out p_cur p_first].
    assert (Hrest : forall k, k < length ps -> total (firstn k ps) < e - covers p).
    { intros k Hl. specialize (Hk (S k)). cbn [firstn length] in Hk. rewrite total_cons in Hk. specialize (Hk ltac:(lia)). lia. }
    assert (Hnil : ps = [] -> e - covers p = 0) by (intros ->; rewrite total_cons in He; unfold total in He; cbn in He; lia).
    rewrite total_cons in He. unfold ncont. cbn [filter]. unfold covers in *. rewrite cont_hashed; destruct (hashed p).
    + rewrite IH by (auto; lia). unfold ncont. cbn [length repeat]. now rewrite <- app_assoc.
    + rewrite IH by (auto; lia). reflexivity.
Qed.
Lemma tp_word q out c x ps f : nth_error q c = Some x -> fits x ps ->
  loop (tp_step q) ps {| p_out := out; p_cur := c; p_expect := 0; p_first := f |} =
  Ok {| p_out := out ++ Z.of_nat (c + 1) :: repeat (-1)%Z (ncont ps); p_cur := c + 1; p_expect := 0; p_first := false |}.
Proof.
  intros Hx [(p & ps' & -> & Hp) Hc Hk Hw]. cbn [loop]. unfold tp_step at 1. cbn [p_expect p_out p_cur p_first]. rewrite Nat.eqb_refl, Hx.
  cbn [bind p_expect p_out p_cur p_first]. rewrite cont_hashed, Hp. rewrite total_cons in Hc. unfold covers at 1 in Hc. rewrite Hp in Hc.
  rewrite tp_rest.
  - unfold ncont. cbn [filter]. rewrite Hp. now rewrite <- app_assoc.
  - intros ->. unfold total in Hc. cbn in Hc. lia.
  - intros k Hl. specialize (Hk (S k)). cbn [firstn length] in Hk. rewrite total_cons in Hk. unfold covers at 1 in Hk. rewrite Hp in Hk. specialize (Hk ltac:(lia) ltac:(lia)). lia.
  - lia.
Qed.
Lemma tp_words q' pss : Forall2 fits q' pss -> forall q out f, (forall k, nth_error q (length q - length q' + k) = nth_error q' k) -> length q' <= length q ->
  exists f', loop (tp_step q) (concat pss) {| p_out := out; p_cur := length q - length q'; p_expect := 0; p_first := f |} =
  Ok {| p_out := out ++ blocks (length q - length q' + 1) pss; p_cur := length q; p_expect := 0; p_first := f' |}.
Proof.
  induction 1 as [|x ps q' pss Hx HF IH]; intros q out f Hq Hl.
  - exists f. cbn. rewrite app_nil_r, Nat.sub_0_r. reflexivity.
  - cbn [concat]. rewrite loop_app. cbn [length] in *. set (c := length q - S (length q')) in *.
    pose proof (Hq 0) as H0. rewrite Nat.add_0_r in H0. rewrite (tp_word _ _ _ _ H0 Hx). cbn [bind].
    destruct (IH q (out ++ Z.of_nat (c + 1) :: repeat (-1)%Z (ncont ps)) false) as [f' E]; [|lia|].
    + intro k. specialize (Hq (S k)). cbn [nth_error] in Hq. rewrite <- Hq. f_equal. unfold c. lia.
    + exists f'. replace (length q - length q') with (c + 1) in E by (unfold c; lia). rewrite E. rewrite <- app_assoc. cbn [app blocks].
      replace (S (c + 1)) with (c + 1 + 1) by lia. reflexivity.
Qed.
(** When every word's pieces cover it, token_pre returns the encoding and, for each
    word, its number at its first piece, -1 for continuations, and nothing at all for
    further pieces that are no continuations. *)
Definition word_index (pss : list (list string)) : list Z := 0%Z :: blocks 1 pss ++ [Z.of_nat (length pss + 1)].
Theorem C69_pre q pss ids : Forall2 fits q pss -> token_pre (concat pss) ids q = Ok (ids, word_index pss).
Proof.
  intro H. unfold token_pre. assert (Hl : length q = length pss) by (clear -H; induction H; cbn; congruence).
  destruct (@tp_words q pss H q [0%Z] true) as [f' E]; [intro k; now rewrite Nat.sub_diag|lia|]. rewrite Nat.sub_diag in E. rewrite E. cbn [bind p_cur p_out].
  rewrite Nat.eqb_refl. cbn [negb]. unfold word_index. rewrite Hl. reflexivity.
Qed.
Print Assumptions C69_pre.

(** where the entry of word w is, and how far that is from its first piece *)
Definition offs (pss : list (list string)) : nat := fold_right Nat.add 0 (map (fun ps => 1 + ncont ps) pss).
(** spec: position of a word in the list of words *)
Definition entry (pss : list (list string)) (w : nat) : nat := match w with 0 => 0 | S k => 1 + offs (firstn k pss) end.
(** spec: position of the first piece of a word *)
Definition start (pss : list (list string)) (w : nat) : nat := match w with 0 => 0 | _ => first_piece pss w end.
Lemma filter_len (A : Type) (f : A -> bool) l : length (filter f l) + length (filter (fun x => negb (f x)) l) = length l.
Proof. induction l as [|x l IH]; [reflexivity|]. cbn. destruct (f x); cbn; lia. Qed.
Lemma entry_start pss w : Forall (fun ps => exists p ps', ps = p :: ps' /\ hashed p = false) pss -> entry pss w + skipped (firstn (w - 1) pss) = start pss w.
Proof.
  intro H. destruct w as [|k]; [cbn; reflexivity|]. cbn [entry start]. unfold first_piece. replace (S k - 1) with k by lia. rewrite <- Nat.add_assoc. f_equal.
  revert k. induction H as [|ps pss (p & ps' & -> & Hp) HF IH]; intros [|k]; [reflexivity|reflexivity|reflexivity|]. cbn [firstn concat]. rewrite app_length, <- IH.
  unfold offs, skipped. cbn [map fold_right]. unfold ncont at 1, nplain at 1. cbn [filter tl length]. rewrite Hp. pose proof (filter_len hashed ps'). lia.
Qed.
Lemma neg_nat w : Z.of_nat w <> (-1)%Z.
Proof. lia. Qed.
Lemma blocks_nth pss : forall j i w, nth_error (blocks j pss) i = Some (Z.of_nat w) <-> exists k, k < length pss /\ w = j + k /\ i = offs (firstn k pss).
Proof.
  induction pss as [|ps pss IH]; intros j i w.
  - cbn [blocks]. split; [destruct i; discriminate|]. intros (k & Hk & _). cbn in Hk. lia.
  - cbn [blocks]. destruct i as [|i].
    + cbn [nth_error]. split.
      * intro E. injection E as E. exists 0. cbn. split; [lia|]. split; [lia|reflexivity].
      * intros (k & Hk & -> & E). destruct k as [|k]; [now rewrite Nat.add_0_r|]. unfold offs in E. cbn in E. lia.
    + cbn [nth_error]. destruct (Nat.lt_ge_cases i (ncont ps)) as [L|L].
      * rewrite nth_error_app1 by (now rewrite repeat_length). rewrite (nth_error_repeat _ L). split.
        -- intro E. injection E as E. lia.
        -- intros (k & Hk & -> & E). destruct k as [|k]; unfold offs in E; cbn [firstn map fold_right] in E; lia.
      * rewrite nth_error_app2 by (now rewrite repeat_length). rewrite repeat_length, IH. split.
        -- intros (k & Hk & -> & E). exists (S k). cbn [length firstn]. split; [lia|]. split; [lia|]. unfold offs in *. cbn [map fold_right]. lia.
        -- intros (k & Hk & -> & E). destruct k as [|k]; [unfold offs in E; cbn in E; lia|]. exists k. cbn [length firstn] in *. split; [lia|]. split; [lia|]. unfold offs in *. cbn [map fold_right] in E. lia.
Qed.
Lemma blocks_length pss : forall j, length (blocks j pss) = offs pss.
Proof. induction pss as [|ps pss IH]; intro j; [reflexivity|]. cbn [blocks length]. rewrite app_length, repeat_length, IH. unfold offs. cbn [map fold_right]. lia. Qed.
Lemma index_nth pss i w : nth_error (word_index pss) i = Some (Z.of_nat w) <-> w <= length pss + 1 /\ i = entry pss w.
Proof.
  unfold word_index. destruct i as [|i].
  - cbn [nth_error]. split.
    + intro E. injection E as E. assert (w = 0) by lia. subst. split; [lia|reflexivity].
    + intros [_ E]. destruct w; [reflexivity|discriminate].
  - cbn [nth_error]. destruct (Nat.lt_ge_cases i (offs pss)) as [L|L].
    + rewrite nth_error_app1 by (now rewrite blocks_length). rewrite blocks_nth. split.
      * intros (k & Hk & -> & ->). split; [lia|]. reflexivity.
      * intros [Hw E]. destruct w as [|k]; [discriminate|]. cbn [entry] in E. injection E as E. exists k. split; [|auto].
        destruct (Nat.lt_ge_cases k (length pss)); auto. rewrite firstn_all2 in E by auto. lia.
    + rewrite nth_error_app2 by (now rewrite blocks_length). rewrite blocks_length. split.
      * intro E. destruct (i - offs pss) as [|d] eqn:Ed; [|destruct d; discriminate]. injection E as E. assert (w = length pss + 1) by lia. subst w. split; [lia|].
        rewrite Nat.add_1_r. cbn [entry]. rewrite firstn_all. lia.
      * intros [Hw E]. destruct w as [|k]; [discriminate|]. cbn [entry] in E. injection E as E.
        assert (k = length pss).
        { destruct (Nat.lt_ge_cases k (length pss)) as [Lk|Lk]; [|lia]. exfalso. rewrite <- (firstn_skipn k pss) in L. unfold offs in L, E. rewrite map_app, fold_right_app in L.
          destruct (skipn k pss) as [|ps r] eqn:Es; [apply (f_equal (@length _)) in Es; rewrite skipn_length in Es; cbn in Es; lia|]. cbn [map fold_right] in L.
          assert (X : forall (l : list nat) n, fold_right Nat.add n l = fold_right Nat.add 0 l + n) by (clear; induction l as [|a l IH]; intro n; cbn; [lia|rewrite IH; lia]).
          rewrite X in L. lia. }
        subst k. rewrite firstn_all in E. subst i. rewrite Nat.sub_diag. cbn [nth_error]. do 2 f_equal. lia.
Qed.
Lemma index_values pss z : In z (word_index pss) -> z = (-1)%Z \/ exists w, z = Z.of_nat w /\ w <= length pss + 1.
Proof.
  unfold word_index. intros [<-|H]; [right; exists 0; split; [reflexivity|lia]|]. apply in_app_iff in H as [H|[<-|[]]]; [|right; eexists; split; [reflexivity|lia]].
  assert (X : forall pss j, In z (blocks j pss) -> z = (-1)%Z \/ exists w, z = Z.of_nat w /\ w < j + length pss).
  { clear. induction pss as [|ps pss IH]; intros j H; [destruct H|]. cbn [blocks] in H. destruct H as [<-|H]; [right; exists j; cbn; split; [auto|lia]|].
    apply in_app_iff in H as [H|H]; [left; now apply repeat_spec in H|]. destruct (IH _ H) as [->|(w & -> & Hw)]; [auto|right; exists w; cbn; split; [auto|lia]]. }
  destruct (X pss 1 H) as [->|(w & -> & Hw)]; [auto|right; exists w; split; [auto|lia]].
Qed.

(** ** token_post *)
(** a sentence: its words, their pieces and the encoding with [CLS] and [SEP] *)
Record example := { e_words : list string; e_pieces : list (list string); e_ids : list Z }.
(** spec: pieces and ids belong to the words *)
Record tokenized (e : example) : Prop := {
  tk_fits : Forall2 fits (e_words e) (e_pieces e);
  tk_ids : length (e_ids e) = length (concat (e_pieces e)) + 2 }.
(** data.py, [token_pre] on an example *)
Definition pre (e : example) : res (list Z * list Z) := token_pre (concat (e_pieces e)) (e_ids e) (e_words e).
(** spec: largest length *)
Definition maxlen (l : list nat) : nat := fold_right Nat.max 0 l.
Lemma zmax_spec l z : In z l -> (forall y, In y l -> (y <= z)%Z) -> zmax l = Ok z.
Proof.
  destruct l as [|x r]; [intros []|]. intros Hi Hu. cbn [zmax]. f_equal.
  assert (G : forall r x, (fold_left Z.max r x = x \/ In (fold_left Z.max r x) r) /\ (x <= fold_left Z.max r x)%Z /\ forall y, In y r -> (y <= fold_left Z.max r x)%Z).
  { clear. induction r as [|a r IH]; intro x; cbn [fold_left In]; [split; [auto|split; [lia|intros y []]]|]. destruct (IH (Z.max x a)) as (A & B & C). split; [|split; [lia|]].
    - destruct A as [A|A]; [|auto]. rewrite A. destruct (Z.max_spec x a) as [[_ ->]|[_ ->]]; auto.
    - intros y [<-|H]; [lia|auto]. }
  destruct (G r x) as (A & B & C). apply Z.le_antisymm.
  - apply Hu. destruct A as [->|A]; cbn; auto.
  - destruct Hi as [<-|Hi]; [auto|apply C; auto].
Qed.
Lemma maxlen_ge l n : In n l -> n <= maxlen l.
Proof. induction l as [|a l IH]; [intros []|]. intros [<-|H]; unfold maxlen in *; cbn [fold_right]; [lia|]. specialize (IH H). lia. Qed.
Lemma maxlen_in l : l <> [] -> In (maxlen l) l.
Proof.
  induction l as [|a l IH]; [congruence|]. intros _. unfold maxlen in *. cbn [fold_right]. destruct l as [|b l]; [cbn; lia|].
  specialize (IH ltac:(discriminate)). destruct (Nat.max_spec a (fold_right Nat.max 0 (b :: l))) as [[_ ->]|[_ ->]]; [right; auto|left; auto].
Qed.
Lemma index_zmax pss : zmax (word_index pss) = Ok (Z.of_nat (length pss + 1)).
Proof.
  apply zmax_spec.
  - unfold word_index. right. apply in_app_iff. right. left. reflexivity.
  - intros y H. destruct (@index_values _ _ H) as [->|(w & -> & Hw)]; lia.
Qed.
Lemma fits_first q pss : Forall2 fits q pss -> Forall (fun ps => exists p ps', ps = p :: ps' /\ hashed p = false) pss.
Proof. induction 1 as [|x ps q pss H HF IH]; constructor; [apply (ft_first H)|auto]. Qed.
Lemma start_le pss w : start pss w <= 1 + length (concat pss).
Proof.
  destruct w as [|k]; cbn [start]; [lia|]. unfold first_piece. rewrite <- (firstn_skipn (S k - 1) pss) at 2. rewrite concat_app, app_length. lia.
Qed.
Lemma entry_lt e w : tokenized e -> entry (e_pieces e) w < length (e_ids e).
Proof.
  intros [HF HL]. pose proof (@entry_start (e_pieces e) w (@fits_first _ _ HF)). pose proof (@start_le (e_pieces e) w). lia.
Qed.
(** the cells written for row b *)
Definition wcells (b : nat) (out : list Z) : list (list nat) :=
  map (fun iw : nat * Z => [b; fst iw; Z.to_nat (snd iw)]) (filter (fun iw => negb (snd iw =? -1)%Z) (combine (seq 0 (length out)) out)).
Lemma combine_seq_in (A : Type) (l : list A) : forall a i x, In (i, x) (combine (seq a (length l)) l) <-> exists k, i = a + k /\ nth_error l k = Some x.
Proof.
  induction l as [|y l IH]; intros a i x; cbn [length seq combine In].
  - split; [intros []|]. intros (k & _ & E). destruct k; discriminate.
  - rewrite IH. split.
    + intros [E|(k & -> & E)]; [injection E as -> ->; exists 0; split; [lia|reflexivity]|exists (S k); split; [lia|auto]].
    + intros (k & -> & E). destruct k as [|k]; [left; cbn in E; injection E as ->; f_equal; lia|right; exists k; split; [lia|auto]].
Qed.
Lemma wcells_in b pss b' i w : In [b'; i; w] (wcells b (word_index pss)) <-> b' = b /\ w <= length pss + 1 /\ i = entry pss w.
Proof.
  unfold wcells. rewrite in_map_iff. split.
  - intros ([i' z] & E & H). apply filter_In in H as [H Hz]. cbn [fst snd] in *. injection E as <- <- <-. split; [auto|].
    apply combine_seq_in in H as (k & -> & H). cbn [Nat.add]. destruct (@index_values _ _ (nth_error_In _ _ H)) as [->|(w & -> & Hw)]; [discriminate|]. rewrite Nat2Z.id.
    now apply index_nth.
  - intros (-> & Hw & Hi). assert (H : nth_error (word_index pss) i = Some (Z.of_nat w)) by (apply index_nth; auto).
    exists (i, Z.of_nat w). cbn [fst snd]. rewrite Nat2Z.id. split; [auto|]. apply filter_In. split; [apply combine_seq_in; exists i; auto|].
    cbn [snd]. destruct (Z.eqb_spec (Z.of_nat w) (-1)); [lia|reflexivity].
Qed.
Lemma write_row b pss len L2 : (forall w, w <= length pss + 1 -> entry pss w < len) -> length pss + 1 < L2 -> forall t,
  loop (fun out2 (iw : nat * Z) => let '(i, w) := iw in
            if (w =? -1)%Z then Ok out2
            else bind (pyix len (Z.of_nat i)) (fun i' => bind (pyix L2 w) (fun w' => Ok (upd out2 [b; i'; w'] 1%Z))))
            (combine (seq 0 (length (word_index pss))) (word_index pss)) t = Ok (puts 1%Z (wcells b (word_index pss)) t).
Proof.
  intros He HL. unfold wcells.
  assert (G : forall l, (forall i z, In (i, z) l -> nth_error (word_index pss) i = Some z) -> forall t,
    loop (fun out2 (iw : nat * Z) => let '(i, w) := iw in
            if (w =? -1)%Z then Ok out2
            else bind (pyix len (Z.of_nat i)) (fun i' => bind (pyix L2 w) (fun w' => Ok (upd out2 [b; i'; w'] 1%Z)))) l t
    = Ok (puts 1%Z (map (fun iw : nat * Z => [b; fst iw; Z.to_nat (snd iw)]) (filter (fun iw => negb (snd iw =? -1)%Z) l)) t)).
  { induction l as [|[i z] l IH]; intros Hl t; [reflexivity|]. cbn [loop filter snd]. pose proof (Hl i z (or_introl eq_refl)) as Hz.
    destruct (Z.eqb_spec z (-1)) as [->|N]; cbn [negb bind].
    - apply IH. intros; apply Hl; right; auto.
    - destruct (@index_values _ _ (nth_error_In _ _ Hz)) as [->|(w & -> & Hw)]; [congruence|]. apply index_nth in Hz as [_ ->].
      rewrite (@pyix_nat len) by (apply He; auto). cbn [bind]. rewrite (@pyix_nat L2) by lia. cbn [bind map fst snd]. rewrite Nat2Z.id.
      rewrite IH by (intros; apply Hl; right; auto). reflexivity. }
  intro t. apply G. intros i z H. apply combine_seq_in in H as (k & -> & H). exact H.
Qed.
Lemma index_nonneg pss : length (filter (fun z => (0 <=? z)%Z) (word_index pss)) = length pss + 2.
Proof.
  assert (X : forall pss j, length (filter (fun z => (0 <=? z)%Z) (blocks j pss)) = length pss).
  { clear. induction pss as [|ps pss IH]; intro j; [reflexivity|]. cbn [blocks filter]. destruct (Z.leb_spec 0 (Z.of_nat j)); [|lia]. cbn [length].
    rewrite filter_app, app_length, IH. assert (Y : forall n, filter (fun z => (0 <=? z)%Z) (repeat (-1)%Z n) = []) by (induction n; cbn; auto). rewrite Y. reflexivity. }
  unfold word_index. cbn [filter]. change (0 <=? 0)%Z with true. cbv iota. cbn [length]. rewrite filter_app, app_length, X. cbn [filter].
  destruct (Z.leb_spec 0 (Z.of_nat (length pss + 1))); [|lia]. cbn [length]. lia.
Qed.
(** The mapper: word w of sentence b (0 is [CLS], n+1 is [SEP]) has a one at its entry
    and zeros elsewhere; the token tensor is the padded encoding. *)
Definition mark (e : example) (i w : nat) : Z := if (w <=? length (e_words e) + 1) && (i =? entry (e_pieces e) w) then 1%Z else 0%Z.
(** example: an empty sentence *)
Definition e0 : example := {| e_words := []; e_pieces := []; e_ids := [] |}.
(** spec: the row of an example *)
Definition row_of (e : example) : list Z * list Z := (e_ids e, word_index (e_pieces e)).
Lemma words_pieces e : tokenized e -> length (e_words e) = length (e_pieces e).
Proof. intros [H _]. induction H; cbn; congruence. Qed.
Theorem C69_mapper es : es <> [] -> Forall tokenized es ->
  exists rows tok m,
    mapM pre es = Ok rows /\ token_post rows = Ok (tok, m, map (fun e => length (e_ids e)) es) /\
    shape tok = [length es; maxlen (map (fun e => length (e_ids e)) es)] /\
    (forall b i, b < length es -> dat tok [b; i] = nth i (e_ids (nth b es e0)) 0%Z) /\
    shape m = [length es; maxlen (map (fun e => length (e_ids e)) es); maxlen (map (fun e => length (e_words e)) es) + 2] /\
    (forall b i w, b < length es -> dat m [b; i; w] = mark (nth b es e0) i w).
Proof.
  intros Hne HF. rewrite Forall_forall in HF. exists (map row_of es).
  set (len := maxlen (map (fun e => length (e_ids e)) es)). set (L2 := maxlen (map (fun e => length (e_words e)) es) + 2).
  assert (Hrow : forall b, b < length es -> nth b (map row_of es) ([], []) = row_of (nth b es e0)).
  { intros b Hb. rewrite (nth_indep _ _ (row_of e0)) by (now rewrite map_length). apply map_nth. }
  assert (Hlen : map (fun l : list Z * list Z => length (fst l)) (map row_of es) = map (fun e => length (e_ids e)) es) by (now rewrite map_map).
  exists {| shape := [length es; len]; dat := fun e => nth (nth 1 e 0) (fst (nth (nth 0 e 0) (map row_of es) ([], []))) 0%Z |}.
  exists (puts 1%Z (flat_map (fun b => wcells b (word_index (e_pieces (nth b es e0)))) (seq 0 (length es))) (zeros [length es; len; L2])).
  split; [|split; [|split; [reflexivity|split; [|split; [apply puts_shape|]]]]].
  - rewrite (mapM_ok _ row_of); [reflexivity|]. intros e He. unfold pre, row_of. apply C69_pre. apply (HF e He).
  - unfold token_post. rewrite Hlen, map_length.
    destruct (map row_of es) as [|r0 rs] eqn:Er; [destruct es; [congruence|discriminate]|]. rewrite <- Er in *. clear r0 rs Er.
    rewrite (mapM_ok _ (fun l : list Z * list Z => Z.of_nat (length (filter (fun z => (0 <=? z)%Z) (snd l))))).
    2:{ intros l Hl. apply in_map_iff in Hl as (e & <- & He). unfold row_of. cbn [snd]. rewrite index_zmax. cbn [bind]. f_equal.
        rewrite index_nonneg. lia. }
    cbn [bind].
    assert (Hz : zmax (map (fun l : list Z * list Z => Z.of_nat (length (filter (fun z => (0 <=? z)%Z) (snd l)))) (map row_of es)) = Ok (Z.of_nat L2)).
    { rewrite map_map.
      assert (E : forall e, In e es -> Z.of_nat (length (filter (fun z => (0 <=? z)%Z) (snd (row_of e)))) = Z.of_nat (length (e_words e) + 2)).
      { intros e He. rewrite (@words_pieces e (HF e He)). unfold row_of. cbn [snd]. rewrite index_nonneg. lia. }
      rewrite (map_ext_in _ _ _ E). apply zmax_spec.
      - assert (I := @maxlen_in (map (fun e => length (e_words e)) es) ltac:(destruct es; [congruence|discriminate])). apply in_map_iff in I as (e & Ee & He).
        apply in_map_iff. exists e. split; [|auto]. unfold L2. rewrite Ee. reflexivity.
      - intros y Hy. apply in_map_iff in Hy as (e & <- & He). unfold L2. pose proof (@maxlen_ge (map (fun e => length (e_words e)) es) (length (e_words e)) ltac:(apply in_map_iff; eauto)). lia. }
    rewrite Hz. cbn [bind]. destruct (Z.ltb_spec (Z.of_nat L2) 0); [lia|]. rewrite Nat2Z.id. fold (maxlen (map (fun e => length (e_ids e)) es)). fold len.
    rewrite (@loop_ok _ _ _ (fun t b => puts 1%Z (wcells b (word_index (e_pieces (nth b es e0)))) t)).
    + cbn [bind]. assert (G : forall l t, fold_left (fun t b => puts 1%Z (wcells b (word_index (e_pieces (nth b es e0)))) t) l t = puts 1%Z (flat_map (fun b => wcells b (word_index (e_pieces (nth b es e0)))) l) t).
      { induction l as [|b l IH]; intro t; [reflexivity|]. cbn [fold_left flat_map]. rewrite IH. unfold puts. now rewrite fold_left_app. }
      rewrite G. reflexivity.
    + intros t b Hb. apply in_seq in Hb. rewrite !Hrow by lia. unfold row_of. cbn [snd]. assert (He : In (nth b es e0) es) by (apply nth_In; lia). apply write_row.
      * intros w Hw. eapply Nat.lt_le_trans; [apply entry_lt, HF; auto|]. apply maxlen_ge. apply in_map_iff. eauto.
      * unfold L2. rewrite <- (@words_pieces _ (HF _ He)).
        pose proof (@maxlen_ge (map (fun e => length (e_words e)) es) (length (e_words (nth b es e0))) ltac:(apply in_map_iff; eauto)). lia.
  - intros b i Hb. cbn [dat nth]. rewrite Hrow by auto. reflexivity.
  - intros b i w Hb. rewrite puts_dat. unfold mark. rewrite (@words_pieces _ (HF _ (nth_In _ _ Hb))).
    destruct (in_dec idx_dec [b; i; w] _) as [H|H]; destruct (Nat.leb_spec w (length (e_pieces (nth b es e0)) + 1)), (Nat.eqb_spec i (entry (e_pieces (nth b es e0)) w)); cbn [andb zeros dat]; try reflexivity; exfalso.
    + apply in_flat_map in H as (b' & _ & H). apply wcells_in in H as (<- & ? & ?). congruence.
    + apply in_flat_map in H as (b' & _ & H). apply wcells_in in H as (<- & ? & ?). lia.
    + apply in_flat_map in H as (b' & _ & H). apply wcells_in in H as (<- & ? & ?). lia.
    + apply H. apply in_flat_map. exists b. split; [apply in_seq; lia|]. apply wcells_in. auto.
Qed.
Print Assumptions C69_mapper.

(** ** Pooling *)
(** The vector of word w is that of the token at its entry; columns past the sentence's
    [SEP] are zero. *)
Theorem C69_pool es x : es <> [] -> Forall tokenized es ->
  exists rows tok m, mapM pre es = Ok rows /\ token_post rows = Ok (tok, m, map (fun e => length (e_ids e)) es) /\
  forall b w h, b < length es -> pool m x b w h =
    if w <=? length (e_words (nth b es e0)) + 1 then x b (entry (e_pieces (nth b es e0)) w) h else 0%R.
Proof.
  intros Hne HF. destruct (@C69_mapper es Hne HF) as (rows & tok & m & Er & Ep & _ & _ & Hs & Hm). exists rows, tok, m. split; [auto|]. split; [auto|].
  intros b w h Hb. unfold pool. rewrite Hs. cbn [nth]. rewrite Forall_forall in HF. pose proof (nth_In es e0 Hb) as He.
  destruct (Nat.leb_spec w (length (e_words (nth b es e0)) + 1)) as [L|L].
  - assert (Hlt : entry (e_pieces (nth b es e0)) w < maxlen (map (fun e => length (e_ids e)) es)).
    { eapply Nat.lt_le_trans; [apply entry_lt, HF; auto|]. apply maxlen_ge. apply in_map_iff. eauto. }
    rewrite (@Sum_single R_csr _ _ (entry (e_pieces (nth b es e0)) w)).
    + rewrite Hm by auto. unfold mark. destruct (Nat.leb_spec w (length (e_words (nth b es e0)) + 1)); [|lia]. rewrite Nat.eqb_refl. cbn [andb]. apply Rmult_1_l.
    + apply seq_NoDup.
    + apply in_seq. lia.
    + intros i _ Hi. rewrite Hm by auto. unfold mark. destruct (Nat.eqb_spec i (entry (e_pieces (nth b es e0)) w)); [congruence|]. rewrite Bool.andb_false_r. apply Rmult_0_l.
  - apply (@Sum_zero R_csr). intros i _. rewrite Hm by auto. unfold mark. destruct (Nat.leb_spec w (length (e_words (nth b es e0)) + 1)); [lia|]. cbn [andb]. apply Rmult_0_l.
Qed.
Lemma skipped_wordpiece pss : Forall wordpiece pss -> skipped pss = 0.
Proof.
  unfold skipped. induction 1 as [|ps pss H HF IH]; [reflexivity|]. cbn [map fold_right]. rewrite IH. unfold nplain, wordpiece in *. rewrite Nat.add_0_r.
  induction H as [|p r Hp HF' IH']; [reflexivity|]. cbn [filter]. now rewrite Hp.
Qed.
(** the entry is too early by the number of plain inner pieces of the earlier words *)
Theorem C69_drift e w : tokenized e -> entry (e_pieces e) w = start (e_pieces e) w - skipped (firstn (w - 1) (e_pieces e)).
Proof. intros [HF _]. pose proof (@entry_start (e_pieces e) w (@fits_first _ _ HF)). lia. Qed.
(** Words cut the WordPiece way are read at their first piece. *)
Theorem C69_aligned es x : es <> [] -> Forall tokenized es -> Forall (fun e => Forall wordpiece (e_pieces e)) es ->
  exists rows tok m, mapM pre es = Ok rows /\ token_post rows = Ok (tok, m, map (fun e => length (e_ids e)) es) /\
  forall b w h, b < length es ->
    (w <= length (e_words (nth b es e0)) + 1 -> pool m x b w h = x b (start (e_pieces (nth b es e0)) w) h) /\
    (length (e_words (nth b es e0)) + 1 < w -> pool m x b w h = 0%R).
Proof.
  intros Hne HF HW. destruct (@C69_pool es x Hne HF) as (rows & tok & m & Er & Ep & H). exists rows, tok, m. split; [auto|]. split; [auto|].
  rewrite Forall_forall in HF, HW. intros b w h Hb. rewrite H by auto. pose proof (nth_In es e0 Hb) as He.
  rewrite C69_drift by auto. rewrite skipped_wordpiece, Nat.sub_0_r.
  - destruct (Nat.leb_spec w (length (e_words (nth b es e0)) + 1)); split; intros; auto; lia.
  - specialize (HW _ He). rewrite Forall_forall in HW |- *. intros ps Hp. apply HW. rewrite <- (firstn_skipn (w - 1) (e_pieces (nth b es e0))). apply in_app_iff. auto.
Qed.
Print Assumptions C69_aligned.

(** ** Where alignment fails *)
(** A word split at punctuation ("can't") makes every later word of the sentence be read
    at an earlier token. *)
Theorem C69_punctuation_refuted : exists e, tokenized e /\ Forall (fun ps => ps <> []) (e_pieces e) /\
  exists x rows tok m, mapM pre [e] = Ok rows /\ token_post rows = Ok (tok, m, [length (e_ids e)]) /\
    pool m x 0 2 0 <> x 0 (start (e_pieces e) 2) 0.
Proof.
  set (e := {| e_words := ["can't"; "go"]; e_pieces := [["can"; "'"; "t"]; ["go"]]; e_ids := [101; 11; 12; 13; 14; 102]%Z |}%string).
  assert (T : tokenized e).
  { constructor; [|reflexivity]. unfold e. cbn [e_words e_pieces]. constructor; [|constructor; [|constructor]].
    - constructor; [do 2 eexists; split; reflexivity|vm_compute; lia| |cbn; lia]. intros k Hk Hk0. destruct k as [|[|[|k]]]; [congruence|vm_compute; lia|vm_compute; lia|cbn in Hk; lia].
    - constructor; [do 2 eexists; split; reflexivity|vm_compute; lia| |cbn; lia]. intros k Hk Hk0. cbn in Hk. lia. }
  exists e. split; [auto|]. split; [repeat constructor; discriminate|].
  destruct (@C69_pool [e] (fun _ i _ => INR i)) as (rows & tok & m & Er & Ep & H); [discriminate|constructor; auto|].
  exists (fun _ i _ => INR i), rows, tok, m. split; [auto|]. split; [exact Ep|]. rewrite H by (cbn; lia). vm_compute. lra.
Qed.
(** A word the tokenizer does not know, longer than "[UNK]", takes the next piece with
    it: the whole sentence is given up and all tokens and entries are zero. *)
Theorem C69_unknown_refuted : exists q pss ids, length pss = length q /\ length ids = length (concat pss) + 2 /\
  token_pre (concat pss) ids q = Ok (repeat 0%Z (length q + 2), repeat 0%Z (length q + 2)) /\ ids <> repeat 0%Z (length q + 2).
Proof.
  exists ["xylophone"; "go"]%string, [["[UNK]"]; ["go"]]%string, [101; 100; 14; 102]%Z. split; [reflexivity|]. split; [reflexivity|]. split; [reflexivity|]. discriminate.
Qed.
(** ** A batch that meets the hypotheses *)
Definition ex_a : example := {| e_words := ["embeddings"; "work"]; e_pieces := [["em"; "##bed"; "##dings"]; ["work"]]; e_ids := [101; 1; 2; 3; 4; 102]%Z |}%string.
(** example: a sentence *)
Definition ex_b : example := {| e_words := ["go"]; e_pieces := [["go"]]; e_ids := [101; 5; 102]%Z |}%string.
Example subword_hypotheses : Forall tokenized [ex_a; ex_b] /\ Forall (fun e => Forall wordpiece (e_pieces e)) [ex_a; ex_b] /\
  word_index (e_pieces ex_a) = [0; 1; -1; -1; 2; 3]%Z /\ start (e_pieces ex_a) 2 = 4 /\ start (e_pieces ex_a) 3 = 5 /\
  Forall (Forall (fun l => 7 <= length l)) [[["1"; "go"; "_"; "VB"; "VB"; "_"; "0"]]; []]%string.
Proof.
  split.
  { constructor; [|constructor; [|constructor]].
    - constructor; [|reflexivity]. cbn [ex_a e_words e_pieces]. constructor; [|constructor; [|constructor]].
      + constructor; [do 2 eexists; split; reflexivity|vm_compute; lia| |cbn; lia]. intros k Hk Hk0. destruct k as [|[|[|k]]]; [congruence|vm_compute; lia|vm_compute; lia|cbn in Hk; lia].
      + constructor; [do 2 eexists; split; reflexivity|vm_compute; lia| |cbn; lia]. intros k Hk Hk0. cbn in Hk. lia.
    - constructor; [|reflexivity]. cbn [ex_b e_words e_pieces]. constructor; [|constructor].
      constructor; [do 2 eexists; split; reflexivity|vm_compute; lia| |cbn; lia]. intros k Hk Hk0. cbn in Hk. lia. }
  split; [repeat constructor|]. split; [reflexivity|]. split; [reflexivity|]. split; [reflexivity|].
  constructor; [|constructor; [|constructor]]; [|constructor]. constructor; [cbn; lia|constructor].
Qed.
