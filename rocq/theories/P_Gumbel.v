(** * P_Gumbel: C42, Gumbel noise. *)
From Verif Require Import Base Ops Terms Semirings Poly Chain LinearChain SemiMarkov CkyCrf Cky DepSpec DepTree
  Batch Family Approx Grad Sample Dist Purity Degree Shape Api Query Dag DagLaw Gumbel P_Real P_Sample.
Set Implicit Arguments.
Local Open Scope R_scope.

(** ** Rows of one call have the same graph, up to the row number *)
Definition set_row (c : call) (b : nat) (e : list nat) : list nat :=
  match c with CCfg _ _ _ _ _ => hd 0%nat e :: b :: tl (tl e) | _ => b :: tl e end.
(** proof device: renaming of the potentials of a graph *)
Fixpoint trename (r : list nat -> list nat) (t : term) : term :=
  match t with
  | TLeaf e => TLeaf (r e)
  | TOver e => TOver (r e)
  | TOne => TOne
  | TZero => TZero
  | TSum l => TSum (map (trename r) l)
  | TMul a b => TMul (trename r a) (trename r b)
  end.
(** proof device: the graph built with renamed potentials *)
Definition tops_r (r : list nat -> list nat) : ops :=
  {| car := term; ssum := TSum; smul := TMul; szero := TZero; sone := TOne; sover := fun e => TOver (r e) |}.
Lemma resp_rename r : resp tops (tops_r r) (fun t t' => t' = trename r t).
Proof.
  split; try reflexivity.
  - intros a a' b b' -> ->. reflexivity.
  - intros l l' _ F. cbn. f_equal. induction F as [|x y l l' E F IH]; [reflexivity|]. cbn. now rewrite E, IH.
Qed.
Lemma cy_one_ops r NT T N b p len : cy_one tops NT T N b p len = cy_one (tops_r r) NT T N b p len.
Proof. reflexivity. Qed.
Lemma dp_one_ops r mr lab n b len : dp_one tops mr lab n TZero TLeaf b len = dp_one (tops_r r) mr lab n TZero TLeaf b len.
Proof. reflexivity. Qed.
Lemma graph_shift c b b' : valid c -> (b < batch_of c)%nat -> (b' < batch_of c)%nat -> len_of c b = len_of c b' ->
  row_graph c b' = trename (set_row c b') (row_graph c b).
Proof.
  intros V Hb Hb' HL. unfold row_graph, graphs.
  destruct c as [batch N C ls|batch N K C ls|batch N NT ls|batch N NT T ls|mr batch n lab ls]; simpl in V, Hb, Hb', HL |- *.
  - rewrite (lc_logpartition_run tops (tens [batch; (N - 1)%nat; C; C] TLeaf) V eq_refl), !nth_map_seq by auto. rewrite HL.
    apply (@resp_lc_one tops (tops_r (fun e => b' :: tl e)) _ (resp_rename _) TLeaf (fun e => TLeaf (b' :: tl e)) (fun _ => eq_refl) C _ _ b _). apply V.
  - rewrite (sm_logpartition_run tops (tens [batch; (N - 1)%nat; K; C; C] TLeaf) V eq_refl), !nth_map_seq by auto. rewrite HL.
    apply (@resp_sm_one tops (tops_r (fun e => b' :: tl e)) _ (resp_rename _) TLeaf (fun e => TLeaf (b' :: tl e)) (fun _ => eq_refl) K C _ _ b _); apply V.
  - rewrite (ck_logpartition_run tops (tens [batch; N; N; NT] TLeaf) V eq_refl), !nth_map_seq by auto. rewrite HL.
    apply (@resp_ck_one tops (tops_r (fun e => b' :: tl e)) _ (resp_rename _) TLeaf (fun e => TLeaf (b' :: tl e)) (fun _ => eq_refl) NT N b _); apply V.
  - rewrite (@cy_logpartition_run tops batch N NT T) by (exact V || reflexivity). rewrite !nth_map_seq by auto. rewrite HL.
    set (p := cy_pot _ _ _). set (r := fun e : list nat => hd 0%nat e :: b' :: tl (tl e)). destruct V as (HN & HNT & HT & _).
    change (cy_one tops NT T N b' p (lc_len N ls b') = trename r (cy_one tops NT T N b p (lc_len N ls b'))).
    rewrite (cy_one_ops r NT T N b' p). transitivity (cy_one (tops_r r) NT T N b (fun e => trename r (p e)) (lc_len N ls b')).
    + apply (@cy_one_row (tops_r r) NT T N p (fun e => trename r (p e)) b' b); auto. intros [|[|k]] i; reflexivity.
    + now apply (@resp_cy_one tops (tops_r r) _ (resp_rename r) p (fun e => trename r (p e)) (fun _ => eq_refl)).
  - destruct V as [V HLb]. rewrite (@dp_logpartition_run tops mr TZero batch n lab) by (exact V || reflexivity). rewrite !nth_map_seq by auto. rewrite HL.
    set (r := fun e : list nat => b' :: tl e).
    change (dp_one tops mr lab n TZero TLeaf b' (lc_len n ls b') = trename r (dp_one tops mr lab n TZero TLeaf b (lc_len n ls b'))).
    rewrite (dp_one_ops r mr lab n b'). transitivity (dp_one (tops_r r) mr lab n TZero (fun e => trename r (TLeaf e)) b (lc_len n ls b')).
    + now apply (@dp_one_row (tops_r r) mr lab n).
    + exact (@resp_dp_one tops (tops_r r) _ (resp_rename _) TLeaf (fun e => trename r (TLeaf e)) (fun _ => eq_refl) mr lab n TZero TZero b (lc_len n ls b') HLb).
Qed.

(** ** The backward pass and renaming *)
Lemma inrow_sum_inv P l : inrow P (TSum l) -> Forall (inrow P) l.
Proof. intro H. apply Forall_forall. intros t Ht m e Hm He. apply (H m e); auto. simpl. apply in_flat_map. eauto. Qed.
Lemma names_app x y : names (x ++ y) = names x ++ names y.
Proof. apply flat_map_app. Qed.
Lemma inrow_mul_inv P a b : twf a -> twf b -> inrow P (TMul a b) -> inrow P a /\ inrow P b.
Proof.
  intros Wa Wb H. pose proof (expand_nonempty Wa) as Na. pose proof (expand_nonempty Wb) as Nb.
  split; intros m e Hm He.
  - destruct (expand b) as [|y l] eqn:E; [congruence|]. apply (H (m ++ y) e); [|rewrite names_app; apply in_or_app; auto].
    simpl. apply in_prods. do 2 eexists. split; [exact Hm|]. split; [rewrite E; now left|reflexivity].
  - destruct (expand a) as [|x l] eqn:E; [congruence|]. apply (H (x ++ m) e); [|rewrite names_app; apply in_or_app; auto].
    simpl. apply in_prods. do 2 eexists. split; [rewrite E; now left|]. split; [exact Hm|reflexivity].
Qed.
Lemma ksum_mapi_zero A (f : nat -> A -> R) l : forall i, (forall j a, In a l -> f j a = 0) -> ksum R_csr (mapi f i l) = 0.
Proof.
  induction l as [|a l IH]; intros i H; [reflexivity|]. cbn [mapi]. change (f i a + ksum R_csr (mapi f (S i) l) = 0).
  rewrite H by now left. rewrite Rplus_0_l. apply IH. intros j b Hb. apply H. now right.
Qed.
Lemma bp_absent w P t e : twf t -> inrow P t -> ~ P e -> forall p x, bp w p t x e = 0.
Proof.
  intros W I He. induction t as [e'|e'| | |l IH|a b IHa IHb] using term_ind'; intros p x; simpl; auto.
  - destruct (list_eq_dec Nat.eq_dec e e') as [->|]; auto. exfalso. apply He. apply (I [AL e'] e'); simpl; auto.
  - destruct (list_eq_dec Nat.eq_dec e e') as [->|]; auto. exfalso. apply He. apply (I [AO e'] e'); simpl; auto.
  - inversion_clear W as [| | | |? Hn Hf|]. apply inrow_sum_inv in I. rewrite Forall_forall in IH, Hf, I.
    apply ksum_mapi_zero. intros j a Ha. apply IH; auto.
  - inversion_clear W. apply inrow_mul_inv in I as [I1 I2]; auto. rewrite IHa, IHb by auto. apply Rplus_0_r.
Qed.

Section Rename.
  Variables (P : list nat -> Prop) (r : list nat -> list nat) (phi : list nat -> R).
  Hypothesis Hphi : forall e, P e -> phi (r e) = phi e.
  Hypothesis Hinj : forall e e', P e -> P e' -> r e = r e' -> e = e'.

  Lemma leval_rename z t : twf t -> inrow P t -> leval (log_ops z) phi (trename r t) = leval (log_ops z) phi t.
  Proof.
    intros W I. induction t as [e'|e'| | |l IH|a b IHa IHb] using term_ind'; cbn [trename leval]; auto.
    - apply Hphi. apply (I [AL e'] e'); simpl; auto.
    - inversion_clear W as [| | | |? Hn Hf|]. apply inrow_sum_inv in I. rewrite Forall_forall in IH, Hf, I. f_equal.
      rewrite map_map. apply map_ext_in. intros a Ha. apply IH; auto.
    - inversion_clear W. apply inrow_mul_inv in I as [I1 I2]; auto. now rewrite IHa, IHb.
  Qed.
  Lemma mapi_map_in A B C (f : nat -> B -> C) (h : A -> B) l : forall i, mapi f i (map h l) = mapi (fun j a => f j (h a)) i l.
  Proof. induction l as [|a l IH]; intro i; cbn; [reflexivity|]. now rewrite IH. Qed.
  Lemma logits_rename temp g p l : Forall twf l -> Forall (inrow P) l ->
    gum_logits temp g phi p (map (trename r) l) = gum_logits temp g phi p l.
  Proof.
    intros W I. unfold gum_logits. rewrite mapi_map_in. apply mapi_ext_nth. intros j a Ha. apply nth_error_In in Ha.
    rewrite Forall_forall in W, I. now rewrite leval_rename by auto.
  Qed.
  Lemma bp_rename am temp g t : twf t -> inrow P t -> forall p x e, P e ->
    bp (w_gum am temp g phi) p (trename r t) x (r e) = bp (w_gum am temp g phi) p t x e.
  Proof.
    intros W I. induction t as [e'|e'| | |l IH|a b IHa IHb] using term_ind'; intros p x e He; cbn [trename bp]; auto.
    - assert (P e') by (apply (I [AL e'] e'); simpl; auto).
      destruct (list_eq_dec Nat.eq_dec (r e) (r e')), (list_eq_dec Nat.eq_dec e e'); auto; exfalso; subst; auto.
    - assert (P e') by (apply (I [AO e'] e'); simpl; auto).
      destruct (list_eq_dec Nat.eq_dec (r e) (r e')), (list_eq_dec Nat.eq_dec e e'); auto; exfalso; subst; auto.
    - inversion_clear W as [| | | |? Hn Hf|]. apply inrow_sum_inv in I. rewrite mapi_map_in. f_equal. apply mapi_ext_nth. intros j a Ha.
      apply nth_error_In in Ha. rewrite Forall_forall in IH. unfold w_gum at 2 4. rewrite logits_rename by auto.
      rewrite Forall_forall in Hf, I. apply IH; auto.
    - inversion_clear W. apply inrow_mul_inv in I as [I1 I2]; auto. rewrite IHa, IHb by auto. reflexivity.
  Qed.
End Rename.

Lemma gumbel_row am temp g c phi b e : valid c -> (b < batch_of c)%nat -> row_of c e = b ->
  q_gumbel am temp g c phi e = bp (w_gum am temp g phi) [] (row_graph c b) 1 e.
Proof.
  intros V Hb He. unfold q_gumbel. apply (@RSum_only nat (fun b => bp (w_gum am temp g phi) [] (row_graph c b) 1 e)); [apply seq_NoDup|apply in_seq; lia|].
  intros b' Hb' Hne. apply in_seq in Hb'. assert (Hlt : (b' < batch_of c)%nat) by lia.
  apply (@bp_absent _ (fun e => row_of c e = b')); [now apply graph_wf|now apply graph_inrow|congruence].
Qed.

(** ** Rows with equal data *)
Lemma expand_rename r t : forall m e, In m (expand (trename r t)) -> In e (names m) -> exists e', e = r e'.
Proof.
  induction t as [e'|e'| | |l IH|a b IHa IHb] using term_ind'; intros m e Hm He; simpl in Hm.
  - destruct Hm as [<-|[]]. simpl in He. destruct He as [<-|[]]. eauto.
  - destruct Hm as [<-|[]]. simpl in He. destruct He as [<-|[]]. eauto.
  - destruct Hm as [<-|[]]. simpl in He. tauto.
  - destruct Hm as [<-|[]]. simpl in He. tauto.
  - apply in_flat_map in Hm as (t & Ht & Hm). apply in_map_iff in Ht as (u & <- & Hu). rewrite Forall_forall in IH. eapply IH; eauto.
  - apply in_prods in Hm as (x & y & Hx & Hy & ->). rewrite names_app in He. apply in_app_or in He as [He|He]; eauto.
Qed.
Lemma set_row_set c b b' e : set_row c b (set_row c b' e) = set_row c b e.
Proof. destruct c; reflexivity. Qed.
Lemma set_row_of c b e : row_of c (set_row c b e) = b.
Proof. destruct c; reflexivity. Qed.
Lemma graph_names c b : valid c -> (b < batch_of c)%nat -> inrow (fun e => set_row c b e = e) (row_graph c b).
Proof.
  intros V Hb m e Hm He. rewrite (@graph_shift c b b V Hb Hb eq_refl) in Hm.
  destruct (@expand_rename _ _ _ _ Hm He) as (e' & ->). apply set_row_set.
Qed.

(** C42. Two rows of a batch with the same length and the same potentials receive
    the same sample, for every noise: they are never independent.
    [set_row c b e = e] says that e indexes an entry of row b. *)
Theorem C42_equal_rows am temp g c phi b b' : valid c -> (b < batch_of c)%nat -> (b' < batch_of c)%nat ->
  len_of c b = len_of c b' -> (forall e, set_row c b e = e -> phi (set_row c b' e) = phi e) ->
  forall e, set_row c b e = e -> q_gumbel am temp g c phi (set_row c b' e) = q_gumbel am temp g c phi e.
Proof.
  intros V Hb Hb' HL Hphi e He.
  rewrite (@gumbel_row am temp g c phi b' _ V Hb' (set_row_of _ _ _)).
  rewrite (@gumbel_row am temp g c phi b e V Hb) by (rewrite <- He; apply set_row_of).
  rewrite (@graph_shift c b b' V Hb Hb' HL).
  apply (@bp_rename (fun e => set_row c b e = e)); auto.
  - intros x y Hx Hy E. rewrite <- Hx, <- Hy, <- (set_row_set c b b' x), <- (set_row_set c b b' y). now rewrite E.
  - now apply graph_wf.
  - now apply graph_names.
Qed.

(** ** The sample is a structure *)
Lemma ln_le x y : 0 < x -> x <= y -> ln x <= ln y.
Proof. intros Hx [H| ->]; [apply Rlt_le, ln_increasing; auto|apply Rle_refl]. Qed.
(** number of alternatives at one sum, at most *)
Fixpoint arity (t : term) : nat :=
  match t with
  | TSum l => Nat.max (length l) (list_max (map arity l))
  | TMul a b => Nat.max (arity a) (arity b)
  | _ => 1
  end.
Lemma arity_child l t : In t l -> (arity t <= arity (TSum l))%nat.
Proof.
  intro H. cbn [arity]. apply Nat.le_trans with (list_max (map arity l)); [|lia].
  assert (G := proj1 (list_max_le (map arity l) _) (le_n _)). rewrite Forall_forall in G. apply G, in_map, H.
Qed.
Lemma arity_pos t : twf t -> (1 <= arity t)%nat.
Proof.
  induction t as [e'|e'| | |l IH|a b IHa IHb] using term_ind'; intro W; cbn [arity]; try lia.
  - inversion_clear W as [| | | |? Hn Hf|]. destruct l; [congruence|cbn [length]; lia].
  - inversion_clear W as [| | | | |? ? Wa Wb]. specialize (IHa Wa). lia.
Qed.
Lemma lse_le v x : v <> [] -> (forall y, In y v -> y <= x) -> lse v <= x + ln (INR (length v)).
Proof.
  intros Hn H. unfold lse. assert (0 < INR (length v)) by (apply lt_0_INR; destruct v; [congruence|simpl; lia]).
  rewrite <- (ln_exp (x + ln (INR (length v)))). rewrite exp_plus, exp_ln by auto. apply ln_le; [now apply RSum_exp_pos|].
  eapply Rle_trans; [apply (@RSum_le _ exp (fun _ => exp x))|].
  - intros y Hy. specialize (H y Hy). destruct H as [H| ->]; [now apply Rlt_le, exp_increasing|lra].
  - rewrite RSum_const. lra.
Qed.

Section Structure.
  Variables (am : list R -> nat) (temp D : R) (g : path -> nat -> R) (phi : list nat -> R) (t : term).
  Hypothesis Ham : index_of am.
  (** the picks, as a function of the path *)
  Definition gpick : path -> nat := fun p => match sub t (rev p) with Some (TSum l) => am (gum_logits temp g phi p l) | _ => 0%nat end.
  Lemma gpick_at p l : sub t (rev p) = Some (TSum l) -> gpick p = am (gum_logits temp g phi p l).
  Proof. intro E. unfold gpick. now rewrite E. Qed.
  Lemma sub_sum s p l j a : s = TSum l -> sub t (rev p) = Some s -> nth_error l j = Some a -> sub t (rev (j :: p)) = Some a.
  Proof. intros -> Hs Ha. simpl. rewrite (sub_app _ _ [j] Hs). simpl. now rewrite Ha. Qed.
  Lemma mapi_len A B (f : nat -> A -> B) l : forall i, length (mapi f i l) = length l.
  Proof. induction l as [|a l IH]; intro i; simpl; auto. Qed.
  Lemma gum_len p l : length (gum_logits temp g phi p l) = length l.
  Proof. apply mapi_len. Qed.
  Lemma gpick_bp s : forall p x e, sub t (rev p) = Some s -> bp (w_gum am temp g phi) p s x e = bp (w_pick gpick) p s x e.
  Proof.
    induction s as [e'|e'| | |l IH|a b IHa IHb] using term_ind'; intros p x e Hs; cbn [bp]; auto.
    - f_equal. apply mapi_ext_nth. intros j a Ha. rewrite Forall_forall in IH.
      replace (w_gum am temp g phi p l (0 + j)%nat) with (w_pick gpick p l (0 + j)%nat) by (unfold w_gum, w_pick; now rewrite (gpick_at _ Hs)).
      apply IH; [eapply nth_error_In, Ha|]. now apply (@sub_sum _ p l j a eq_refl).
    - rewrite IHa, IHb; auto; simpl; [now rewrite (sub_app _ _ [1%nat] Hs)|now rewrite (sub_app _ _ [0%nat] Hs)].
  Qed.
  Lemma gpick_range s : forall p, twf s -> sub t (rev p) = Some s -> inrange gpick p s.
  Proof.
    induction s as [e'|e'| | |l IH|a b IHa IHb] using term_ind'; intros p Ws Hs; simpl; auto.
    - inversion_clear Ws as [| | | |? Hn Hf|]. split.
      + rewrite (gpick_at _ Hs). rewrite <- (gum_len p l). apply Ham. intro E. apply (f_equal (@length R)) in E. rewrite gum_len in E. destruct l; simpl in *; congruence.
      + rewrite fold_and_mapi. intros j a Ha. rewrite Forall_forall in IH, Hf. pose proof (nth_error_In _ _ Ha). apply IH; auto. now apply (@sub_sum _ p l j a eq_refl).
    - inversion_clear Ws. split; [apply IHa|apply IHb]; auto; simpl; [now rewrite (sub_app _ _ [0%nat] Hs)|now rewrite (sub_app _ _ [1%nat] Hs)].
  Qed.

  Hypothesis Hmax : max_index am.
  Hypothesis Htemp : 0 < temp.
  Hypothesis Hg : forall p i, Rabs (g p i) <= D.
  Lemma mapi_nth_error A B (f : nat -> A -> B) l : forall i j, nth_error (mapi f i l) j = option_map (f (i + j)%nat) (nth_error l j).
  Proof. induction l as [|a l IH]; intros i j; destruct j; simpl; auto; rewrite ?Nat.add_0_r; auto. rewrite IH. now rewrite Nat.add_succ_r. Qed.
  (** the softmax probability of what is picked *)
  Lemma gpick_soft p l : l <> [] -> let i := am (gum_logits temp g phi p l) in
    exp (- (2 * D + ln (INR (length l)))) <= w_soft NEG phi p l i.
  Proof.
    intros Hl i. assert (Hn : gum_logits temp g phi p l <> []).
    { intro E. apply (f_equal (@length R)) in E. rewrite gum_len in E. destruct l; simpl in *; congruence. }
    destruct (Hmax Hn) as (x & Hx & _ & Hle). unfold gum_logits in Hx at 1. rewrite mapi_nth_error in Hx. fold i in Hx.
    destruct (nth_error l i) as [s|] eqn:Es; [|discriminate]. injection Hx as Hx. cbn [Nat.add] in Hx.
    unfold w_soft. rewrite (nth_error_nth _ _ _ (map_nth_error (leval (log_ops NEG) phi) _ _ Es)).
    assert (lse (map (leval (log_ops NEG) phi) l) <= (leval (log_ops NEG) phi s + 2 * D) + ln (INR (length l))).
    { replace (length l) with (length (map (leval (log_ops NEG) phi) l)) by apply map_length.
      apply lse_le; [destruct l; simpl in *; congruence|]. intros y Hy. apply in_map_iff in Hy as (u & <- & Hu).
      destruct (In_nth_error _ _ Hu) as [j Hj].
      assert (Hin : In ((leval (log_ops NEG) phi u + g p j) / temp) (gum_logits temp g phi p l)).
      { apply (nth_error_In _ j). unfold gum_logits. rewrite mapi_nth_error, Hj. reflexivity. }
      apply Hle in Hin. rewrite <- Hx in Hin. unfold Rdiv in Hin. apply Rmult_le_reg_r in Hin; [|now apply Rinv_0_lt_compat].
      pose proof (Hg p i) as H1. pose proof (Hg p j) as H2. apply Rabs_le_inv in H1, H2. lra. }
    destruct H as [H|H]; [apply Rlt_le, exp_increasing; lra|apply Req_le; f_equal; lra].
  Qed.
  Lemma gpick_likely d s : 0 <= d -> 0 <= D -> forall p, twf s -> sub t (rev p) = Some s -> 2 * D + ln (INR (arity s)) <= d ->
    exp (- (INR (choices s) * d)) <= pr phi NEG s (picked gpick p s).
  Proof.
    intros Hd HD0. induction s as [e'|e'| | |l IH|a b IHa IHb] using term_ind'; intros p Ws Hs Hda;
      try (cbn [choices]; rewrite (@pr_one NEG phi _ (picked gpick p _)) by reflexivity; change (INR 0) with 0; rewrite Rmult_0_l, Ropp_0, exp_0; lra).
    - pose proof Ws as Ws'. inversion_clear Ws as [| | | |? Hn Hf|]. pose proof (@gpick_range _ p Ws' Hs) as Hr. simpl in Hr. destruct Hr as [Hr _].
      destruct (nth_error l (gpick p)) as [s|] eqn:Es; [|apply nth_error_None in Es; lia].
      rewrite (picked_sum _ _ _ Es). pose proof (nth_error_In _ _ Es) as Hin. rewrite Forall_forall in IH, Hf.
      assert (Hl : (1 <= length l)%nat) by lia.
      assert (Hlen : ln (INR (length l)) <= ln (INR (arity (TSum l)))).
      { apply ln_le; [apply lt_0_INR; lia|apply le_INR; cbn [arity]; lia]. }
      assert (Hch : ln (INR (arity s)) <= ln (INR (arity (TSum l)))).
      { apply ln_le; [apply lt_0_INR; pose proof (arity_pos (Hf s Hin)); lia|apply le_INR, arity_child, Hin]. }
      specialize (IH s Hin (gpick p :: p) (Hf s Hin) (@sub_sum _ p l _ s eq_refl Hs Es) ltac:(lra)).
      pose proof (@gpick_soft p l Hn) as Hw. cbv zeta in Hw. rewrite <- (gpick_at _ Hs) in Hw.
      rewrite (@w_soft_nth NEG phi p l _ s Es (Hf s Hin) Ws') in Hw.
      set (m := picked gpick (gpick p :: p) s) in *.
      replace (pr phi NEG (TSum l) m) with (ZZ phi NEG s / ZZ phi NEG (TSum l) * pr phi NEG s m).
      2:{ unfold pr. pose proof (ZZ_pos phi NEG Ws'). pose proof (ZZ_pos phi NEG (Hf s Hin)). field. split; lra. }
      apply Rle_trans with (exp (- d) * exp (- (INR (choices s) * d))).
      + rewrite <- exp_plus. cbn [choices]. rewrite S_INR.
        assert (Hm : (choices s <= list_max (map choices l))%nat).
        { assert (G := proj1 (list_max_le (map choices l) _) (le_n _)). rewrite Forall_forall in G. apply G, in_map, Hin. }
        apply le_INR in Hm. assert (INR (choices s) * d <= INR (list_max (map choices l)) * d) by (apply Rmult_le_compat_r; auto).
        assert (Hle : - ((INR (list_max (map choices l)) + 1) * d) <= - d + - (INR (choices s) * d)) by lra.
        destruct Hle as [Hle| ->]; [apply Rlt_le, exp_increasing, Hle|apply Rle_refl].
      + apply Rmult_le_compat; auto; try (apply Rlt_le, exp_pos). eapply Rle_trans; [|exact Hw].
        assert (Hle : - d <= - (2 * D + ln (INR (length l)))) by lra.
        destruct Hle as [Hle| ->]; [apply Rlt_le, exp_increasing, Hle|apply Rle_refl].
    - inversion_clear Ws as [| | | | |? ? Wa Wb]. cbn [picked]. rewrite pr_mul by auto. cbn [choices].
      rewrite plus_INR, Rmult_plus_distr_r, Ropp_plus_distr, exp_plus.
      pose proof (arity_pos Wa). pose proof (arity_pos Wb).
      assert (ln (INR (arity a)) <= ln (INR (arity (TMul a b)))) by (apply ln_le; [apply lt_0_INR; lia|apply le_INR; cbn [arity]; lia]).
      assert (ln (INR (arity b)) <= ln (INR (arity (TMul a b)))) by (apply ln_le; [apply lt_0_INR; lia|apply le_INR; cbn [arity]; lia]).
      apply Rmult_le_compat; try (apply Rlt_le, exp_pos); [apply IHa|apply IHb]; auto; try lra; simpl.
      + now rewrite (sub_app _ _ [0%nat] Hs).
      + now rewrite (sub_app _ _ [1%nat] Hs).
  Qed.
End Structure.

(** For every noise: the result is the event of one structure, and no entry
    outside it. For CKY_CRF and DepTree whatever index of the vector [max]
    returns; for the others the noise must be small against the finite zero. *)
Theorem C42_structure am temp g c phi : valid c -> index_of am ->
  forall b, row_ok c b ->
  (zero_free c = true \/
   exists B D, 0 < temp /\ max_index am /\ (forall e, Rabs (phi e) <= B) /\ (forall p i, Rabs (g p i) <= D) /\
     INR (choices (row_graph c b)) * (2 * D + ln (INR (arity (row_graph c b)))) + 2 * (INR (degree c b) * B) < 100000) ->
  let S := spec_of c b in
  exists s, ok S s /\ (forall e, row_of c e = b -> q_gumbel am temp g c phi e = uses (prt S) e s) /\
    (match c with CCfg _ _ _ _ _ => True | _ => NoDup (prt S s) end).
Proof.
  intros V Ham b Hb HR S. destruct (row_family V Hb) as (F & HF). pose proof (proj1 Hb) as Hlt.
  pose proof (@graph_wf c b V Hlt) as W.
  set (o := gpick am temp g phi (row_graph c b)).
  assert (Hr : inrange o [] (row_graph c b)) by (apply gpick_range; auto).
  set (m := picked o [] (row_graph c b)).
  assert (Hm0 : In m (expand (row_graph c b))) by (now apply picked_in).
  assert (Hm : In m (expand (ft F))) by (now rewrite <- (ir_graph HF)).
  assert (Hp : pure m = true).
  { destruct (zero_free c) eqn:Z; [apply (@fpure_all F); auto; now apply (ir_pure HF)|].
    destruct HR as [|(B & D & Ht & Hmax & HB & Hg & Hsum)]; [discriminate|].
    destruct (pure m) eqn:Ep; auto. exfalso.
    set (d := 2 * D + ln (INR (arity (row_graph c b)))) in *.
    assert (HD : 0 <= D) by (eapply Rle_trans; [apply Rabs_pos|apply (Hg [] 0%nat)]).
    assert (Hd : 0 <= d).
    { unfold d. assert (0 <= ln (INR (arity (row_graph c b)))); [|lra]. rewrite <- ln_1. apply ln_le; [lra|].
      change 1 with (INR 1). apply le_INR, arity_pos, W. }
    assert (Hl := @gpick_likely am temp D g phi (row_graph c b) Ham Hmax Ht Hg d (row_graph c b) Hd HD [] W eq_refl (Rle_refl _)).
    fold o in Hl. fold m in Hl. rewrite (ir_graph HF) in Hl, Hsum.
    pose proof (@score_spur_le phi NEG B HB NEG_neg m Ep) as Hsp.
    destruct (flist F) as [|s0 l0] eqn:El; [now apply (ir_nonempty HF)|].
    destruct (@structure_is_pure F s0) as (m' & Hm' & Hp' & _); [rewrite El; now left|].
    pose proof (@score_pure_ge phi NEG B HB m' Hp') as Hge.
    pose proof (@HB0 phi B HB) as B0. destruct (ir_bnd HF Z) as [Hdeg _]. apply le_INR in Hdeg.
    assert (INR (length m) * B <= INR (degree c b) * B).
    { apply Rmult_le_compat_r; auto. eapply Rle_trans; [apply (@len_le F m Hm)|exact Hdeg]. }
    assert (INR (length m') * B <= INR (degree c b) * B).
    { apply Rmult_le_compat_r; auto. eapply Rle_trans; [apply (@len_le F m' Hm')|exact Hdeg]. }
    assert (HZ : exp (score phi NEG m') <= ZZ phi NEG (ft F)).
    { unfold ZZ. apply (@RSum_single deriv (fun x => exp (score phi NEG x)) m'); auto. intros. apply Rlt_le, exp_pos. }
    assert (pr phi NEG (ft F) m <= exp (score phi NEG m - score phi NEG m')).
    { unfold pr, Rminus. rewrite exp_plus, exp_Ropp. apply Rmult_le_compat_l; [apply Rlt_le, exp_pos|].
      apply Rinv_le_contravar; [apply exp_pos|exact HZ]. }
    assert (Hx : exp (- (INR (choices (ft F)) * d)) <= exp (score phi NEG m - score phi NEG m')) by lra.
    assert (Hy : score phi NEG m - score phi NEG m' < - (INR (choices (ft F)) * d)) by (unfold NEG in *; lra).
    apply exp_increasing in Hy. lra. }
  destruct (pure_is_structure F m Hm Hp) as (s & Hsl & HP).
  unfold S. rewrite <- (ir_spec HF). cbn [ok prt fspec]. exists s. split; [now apply (fenum F)|]. split.
  - intros e He. rewrite (@gumbel_row am temp g c phi b e V Hlt He).
    rewrite (@gpick_bp am temp g phi (row_graph c b) (row_graph c b)) by reflexivity. fold o.
    rewrite bp_pick by auto. fold m. rewrite Rmult_1_l. exact (@perm_cnt F e m s Hp HP).
  - assert (K : match c with CCfg _ _ _ _ _ => False | _ => True end -> NoDup (fparts F s)).
    { intro Hc. eapply Permutation_NoDup; [exact HP|]. rewrite <- names_pure by auto. now apply (@graph_multilinear c b V Hlt Hc). }
    destruct c; auto.
Qed.

(** ** The law of the samples *)
Definition chain5 : call := CLin 1 5 2 None.
(** example: all potentials are equal *)
Definition flat : list nat -> R := fun _ => 0.
(** example: the graph of a chain of five positions *)
Definition graph5 : term := Eval vm_compute in lc_one tops 2 2 4 TLeaf 0 5.
Lemma graph5_row : row_graph chain5 0 = graph5.
Proof.
  unfold row_graph, graphs, run, chain5.
  rewrite (lc_logpartition_run tops (batch := 1) (N := 5) (C := 2) (tens [1; 5 - 1; 2; 2]%nat TLeaf)); [vm_compute; reflexivity| |reflexivity].
  repeat split; lia.
Qed.
Section Law.
  Variables (am : list R -> nat) (temp : R) (h : nat -> nat -> R).
  Hypothesis Ham : index_of am.
  Let o := gpick am temp (by_call h) flat graph5.
  Lemma o_lt p l : sub graph5 (rev p) = Some (TSum l) -> length l = 2%nat -> o p = 0%nat \/ o p = 1%nat.
  Proof.
    intros E L. unfold o. rewrite (@gpick_at _ _ _ _ _ _ _ E). assert (H := @Ham (gum_logits temp (by_call h) flat p l)).
    rewrite gum_len, L in H. destruct l; [discriminate|]. specialize (H ltac:(discriminate)). lia.
  Qed.
  (** the middle choices of the two halves see the same logits and the same noise *)
  Definition mid_logits : list R := let x := lse [NEG; 0] + lse [NEG; 0] in [(x + h 4 0)/temp; (x + h 4 1)/temp].
  Lemma mid_pick i j k x : (i < 2)%nat -> (j < 2)%nat -> (k < 2)%nat -> (x < 2)%nat -> o [x; k; j; i] = am mid_logits.
  Proof.
    intros Hi Hj Hk Hx.
    destruct i as [|[|i]]; [| |lia]; (destruct j as [|[|j]]; [| |lia]); (destruct k as [|[|k]]; [| |lia]); (destruct x as [|[|x]]; [| |lia]); reflexivity.
  Qed.
  Lemma cell_names p e' e : In e (names (picked o p (TSum [TZero; TLeaf e']))) -> e = e'.
  Proof.
    cbn [picked mapi concat]. destruct (0 =? o p)%nat, (1 =? o p)%nat; cbn; intuition congruence.
  Qed.
  (** example: a cell of the chart *)
  Definition cell (e : list nat) : term := TSum [TZero; TLeaf e].
  Lemma block_names p e1 e2 e3 e4 e d : o p = d -> (d < 2)%nat -> let l := [TMul (cell e1) (cell e2); TMul (cell e3) (cell e4)] in
    In e (names (picked o p (TSum l))) -> (d = 0%nat /\ (e = e1 \/ e = e2)) \/ (d = 1%nat /\ (e = e3 \/ e = e4)).
  Proof.
    intros E Hd l. destruct d as [|[|d]]; [| |lia].
    - rewrite (@picked_sum o p l (TMul (cell e1) (cell e2))) by now rewrite E. cbn [picked]. rewrite names_app. intro H. left. split; auto.
      apply in_app_or in H as [H|H]; apply cell_names in H; auto.
    - rewrite (@picked_sum o p l (TMul (cell e3) (cell e4))) by now rewrite E. cbn [picked]. rewrite names_app. intro H. right. split; auto.
      apply in_app_or in H as [H|H]; apply cell_names in H; auto.
  Qed.
  Lemma mid_lt : (am mid_logits < 2)%nat.
  Proof. apply (@Ham mid_logits). discriminate. Qed.
  Lemma mids e x y : In e (names (picked o [] graph5)) -> e = [0; 0; x; y]%nat \/ e = [0; 2; x; y]%nat -> x = am mid_logits.
  Proof.
    pose proof mid_lt as Hd.
    destruct (@o_lt [] _ eq_refl eq_refl) as [E0|E0]; unfold graph5; erewrite picked_sum by (rewrite E0; reflexivity); rewrite E0;
    [destruct (@o_lt [0%nat] _ eq_refl eq_refl) as [E1|E1]|destruct (@o_lt [1%nat] _ eq_refl eq_refl) as [E1|E1]];
    (erewrite picked_sum by (rewrite E1; reflexivity)); rewrite E1;
    [destruct (@o_lt [0; 0]%nat _ eq_refl eq_refl) as [E2|E2]|destruct (@o_lt [1; 0]%nat _ eq_refl eq_refl) as [E2|E2]|
     destruct (@o_lt [0; 1]%nat _ eq_refl eq_refl) as [E2|E2]|destruct (@o_lt [1; 1]%nat _ eq_refl eq_refl) as [E2|E2]];
    (erewrite picked_sum by (rewrite E2; reflexivity)); rewrite E2;
    cbn [picked]; rewrite names_app; intros H Hx; apply in_app_or in H as [H|H];
    apply (@block_names _ _ _ _ _ _ (am mid_logits)) in H; auto; try (apply mid_pick; lia);
    destruct H as [[-> [-> | ->]]|[-> [-> | ->]]]; destruct Hx as [Hx|Hx]; injection Hx; intros; subst; congruence.
  Qed.
End Law.

Lemma perm_filter_len A (f : A -> bool) l l' : Permutation l l' -> length (filter f l) = length (filter f l').
Proof. intro P. induction P as [|x l l' P IH|x y l|l l' l'' P1 IH1 P2 IH2]; simpl; auto; repeat destruct (f _); simpl; congruence. Qed.

Lemma C42_law_refuted_at :
  (forall am temp h s, index_of am -> is_seq 2 5 s ->
     (forall e, row_of chain5 e = 0%nat -> q_gumbel am temp (by_call h) chain5 flat e = uses (seq_parts 0) e s) ->
     nth 1 s 0%nat = nth 3 s 0%nat) /\
  (forall l, Enumerates (is_seq 2 5) l ->
     RSum (prob (seq_parts 0) l flat) (filter (fun s => negb (nth 1 s 0 =? nth 3 s 0)%nat) l) = 1 / 2).
Proof.
  assert (V : valid chain5) by (repeat split; simpl; lia). split.
  - intros am temp h s Ham [Hlen Hlt] Hs.
    assert (W : twf graph5) by (rewrite <- graph5_row; apply graph_wf; [exact V|simpl; lia]).
    set (o := gpick am temp (by_call h) flat graph5).
    assert (Hr : inrange o [] graph5) by (apply gpick_range; auto).
    assert (Hin : forall e, row_of chain5 e = 0%nat -> In e (seq_parts 0 s) -> In e (names (picked o [] graph5))).
    { intros e He Hi. destruct (in_dec (list_eq_dec Nat.eq_dec) e (names (picked o [] graph5))) as [|Hn]; auto. exfalso.
      specialize (Hs e He). rewrite (@gumbel_row am temp (by_call h) chain5 flat 0 e V) in Hs by (simpl; auto; lia).
      rewrite graph5_row, (@gpick_bp am temp (by_call h) flat graph5 graph5) in Hs by reflexivity. fold o in Hs.
      rewrite bp_pick, (cnt_names _ _ Hn) in Hs by auto. unfold uses in Hs.
      apply (count_occ_In (list_eq_dec Nat.eq_dec)) in Hi. apply lt_INR in Hi. change (INR 0) with 0 in Hi. lra. }
    transitivity (am (mid_logits temp h)); [|symmetry].
    + apply (@mids am temp h Ham [0; 0; nth 1 s 0; nth 0 s 0]%nat _ (nth 0 s 0%nat)); auto. apply Hin; [reflexivity|].
      unfold seq_parts. rewrite Hlen. apply in_map_iff. exists 0%nat. split; [reflexivity|simpl; auto].
    + apply (@mids am temp h Ham [0; 2; nth 3 s 0; nth 2 s 0]%nat _ (nth 2 s 0%nat)); auto. apply Hin; [reflexivity|].
      unfold seq_parts. rewrite Hlen. apply in_map_iff. exists 2%nat. split; [reflexivity|simpl; auto].
  - intros l Hl. pose proof (Enumerates_perm (seqs_enum 2 5) Hl) as HP.
    assert (Hz : forall s, sc (seq_parts 0) flat s = 0) by (intro s; unfold sc, flat; rewrite RSum_const; ring).
    assert (HZ : ZS (seq_parts 0) l flat = 32).
    { unfold ZS. rewrite (Sum_ext_in R_csr _ (fun _ => 1)) by (intros; now rewrite Hz, exp_0).
      rewrite RSum_const. rewrite <- (Permutation_length HP). change (length (seqs 2 5)) with 32%nat. simpl. lra. }
    rewrite (Sum_ext_in R_csr _ (fun _ => 1 / 32)) by (intros; unfold prob; rewrite Hz, exp_0, HZ; reflexivity).
    rewrite RSum_const. replace (length _) with 16%nat; [simpl; lra|].
    rewrite <- (perm_filter_len (fun s => negb (nth 1 s 0 =? nth 3 s 0)%nat) HP). reflexivity.
Qed.
(** C42. The samples do not follow the CRF: with equal scores the second and the
    fourth label of a chain of five differ with probability 1/2, and in every
    sample of [gumbel_crf], whatever the noise vectors drawn at its calls of
    [sum], they are equal. *)
Theorem C42_law_refuted : exists c phi, valid c /\ row_ok c 0 /\
  (forall am temp h s, index_of am -> is_seq 2 5 s ->
     (forall e, row_of c e = 0%nat -> q_gumbel am temp (by_call h) c phi e = uses (seq_parts 0) e s) ->
     nth 1 s 0%nat = nth 3 s 0%nat) /\
  (forall l, Enumerates (is_seq 2 5) l ->
     RSum (prob (seq_parts 0) l phi) (filter (fun s => negb (nth 1 s 0 =? nth 3 s 0)%nat) l) = 1 / 2).
Proof.
  exists chain5, flat. split; [repeat split; simpl; lia|]. split; [split; [simpl; lia|exact I]|]. apply C42_law_refuted_at.
Qed.
Print Assumptions C42_law_refuted.

(** The temperature does not matter: a sample at one temperature is a sample at
    any other one, with ties broken in some other way; *)
Lemma gum_scale temp temp' g phi p l : 0 < temp -> 0 < temp' ->
  map (Rmult (temp' / temp)) (gum_logits temp' g phi p l) = gum_logits temp g phi p l.
Proof.
  intros Ht Ht'. unfold gum_logits. generalize 0%nat. induction l as [|a l IH]; intro i; cbn [mapi map]; [reflexivity|].
  rewrite IH. f_equal. field. lra.
Qed.
Lemma bp_rule w w' t : (forall p l i, l <> [] -> w p l i = w' p l i) -> twf t -> forall p x e, bp w p t x e = bp w' p t x e.
Proof.
  intros Hw W. induction t as [e'|e'| | |l IH|a b IHa IHb] using term_ind'; intros p x e; cbn [bp]; auto.
  - inversion_clear W as [| | | |? Hn Hf|]. f_equal. apply mapi_ext_nth. intros j a Ha. apply nth_error_In in Ha.
    rewrite Forall_forall in IH, Hf. rewrite Hw by auto. now apply IH; auto.
  - inversion_clear W. rewrite IHa, IHb by auto. reflexivity.
Qed.
Theorem C42_temperature am temp temp' g c phi : valid c -> max_index am -> 0 < temp -> 0 < temp' ->
  exists am', max_index am' /\ forall e, q_gumbel am temp g c phi e = q_gumbel am' temp' g c phi e.
Proof.
  intros V Hm Ht Ht'. assert (Hk : 0 < temp' / temp) by (apply Rdiv_lt_0_compat; auto).
  exists (fun v => am (map (Rmult (temp' / temp)) v)). split.
  - intros v Hv. destruct (Hm (map (Rmult (temp' / temp)) v)) as (x & Hx & Hin & Hle); [destruct v; simpl; congruence|].
    rewrite nth_error_map in Hx. destruct (nth_error v _) as [y|] eqn:E; [|discriminate]. injection Hx as <-.
    exists y. split; [reflexivity|]. split; [eapply nth_error_In, E|]. intros z Hz.
    apply (Rmult_le_reg_l (temp' / temp)); auto. apply Hle. now apply in_map.
  - intro e. apply (Sum_ext_in R_csr). intros b Hb. apply in_seq in Hb. apply bp_rule; [|apply graph_wf; auto; lia].
    intros p l i _. unfold w_gum. now rewrite gum_scale.
Qed.
(** and the same sample, if ties are broken by position alone *)
Theorem C42_temperature_same am temp temp' g c phi e : valid c ->
  (forall v k, 0 < k -> am (map (Rmult k) v) = am v) -> 0 < temp -> 0 < temp' ->
  q_gumbel am temp g c phi e = q_gumbel am temp' g c phi e.
Proof.
  intros V Hm Ht Ht'. assert (Hk : 0 < temp' / temp) by (apply Rdiv_lt_0_compat; auto).
  apply (Sum_ext_in R_csr). intros b Hb. apply in_seq in Hb. apply bp_rule; [|apply graph_wf; auto; lia].
  intros p l i _. unfold w_gum. rewrite <- (@gum_scale temp temp' g phi p l Ht Ht'). now rewrite Hm.
Qed.

(** ** Instances *)
(** the first largest entry *)
Definition first_max (v : list R) : nat :=
  (fix first (u : list R) := match u with [] => 0%nat | x :: u' => if Req_EM_T x (rmax v) then 0%nat else S (first u') end) v.
Lemma first_spec (m : R) (v : list R) : In m v ->
  nth_error v ((fix first (u : list R) := match u with [] => 0%nat | x :: u' => if Req_EM_T x m then 0%nat else S (first u') end) v) = Some m.
Proof. induction v as [|x v IH]; intro H; [destruct H|]. destruct (Req_EM_T x m) as [->|Hne]; [reflexivity|]. apply IH. destruct H; congruence. Qed.
Lemma first_max_ok : max_index first_max.
Proof.
  intros v Hv. destruct (rmax_is_max Hv) as [Hin Hmax]. exists (rmax v). split; [|split; auto]. unfold first_max. now apply first_spec.
Qed.
Lemma max_index_of am : max_index am -> index_of am.
Proof. intros H v Hv. destruct (H v Hv) as (x & Hx & _). apply nth_error_Some. congruence. Qed.
(** example: some noise *)
Definition ex_noise : nat -> nat -> R := fun d i => if Nat.even (d + i) then 1 else -1.
Lemma ex_noise_le p i : Rabs (by_call ex_noise p i) <= 1.
Proof. unfold by_call, ex_noise. destruct (Nat.even _); unfold Rabs; destruct (Rcase_abs _); lra. Qed.
(** the hypotheses of C42_structure hold for this noise on the chain of five, so
    the premise of C42_law_refuted is met; and on a batch of trees *)
Example C42_example_chain : exists s, is_seq 2 5 s /\
  (forall e, row_of chain5 e = 0%nat -> q_gumbel first_max 1 (by_call ex_noise) chain5 flat e = uses (seq_parts 0) e s) /\
  nth 1 s 0%nat = nth 3 s 0%nat.
Proof.
  assert (V : valid chain5) by (repeat split; simpl; lia).
  assert (Hb : row_ok chain5 0) by (split; [simpl; lia|exact I]).
  destruct (@C42_structure first_max 1 (by_call ex_noise) chain5 flat V (max_index_of first_max_ok) 0%nat Hb) as (s & H1 & H2 & _).
  - right. exists 0, 1. split; [lra|]. split; [apply first_max_ok|]. split; [intro; unfold flat; rewrite Rabs_R0; lra|]. split; [apply ex_noise_le|].
    rewrite graph5_row. change (choices graph5) with 9%nat. change (arity graph5) with 2%nat.
    replace (INR 9) with 9 by (simpl; lra). rewrite !Rmult_0_r.
    assert (ln (INR 2) <= 1); [|lra]. rewrite <- (ln_exp 1). apply ln_le; [simpl; lra|]. pose proof (exp_ineq1 1 ltac:(lra)). simpl; lra.
  - exists s. split; [exact H1|]. split; [exact H2|].
    destruct C42_law_refuted_at as [L _]. now apply (L first_max 1 ex_noise s (max_index_of first_max_ok) H1 H2).
Qed.
Example first_max_scale v k : 0 < k -> first_max (map (Rmult k) v) = first_max v.
Proof.
  intro Hk. destruct v as [|x0 v0]; [reflexivity|]. set (v := x0 :: v0).
  assert (E : rmax (map (Rmult k) v) = k * rmax v).
  { assert (Hv : v <> []) by discriminate. destruct (rmax_is_max Hv) as [Hin Hmax].
    destruct (@rmax_is_max (map (Rmult k) v)) as [Hin' Hmax']; [discriminate|].
    apply Rle_antisym; [|apply Hmax', in_map, Hin]. apply in_map_iff in Hin' as (y & <- & Hy).
    apply Rmult_le_compat_l; [lra|auto]. }
  unfold first_max. rewrite E. generalize (rmax v). intro m. clear E. induction v as [|x u IH]; [reflexivity|]. cbn [map].
  destruct (Req_EM_T (k * x) (k * m)) as [H|H], (Req_EM_T x m) as [H'|H']; auto.
  - exfalso. apply H'. apply (Rmult_eq_reg_l k); lra.
  - exfalso. apply H. now rewrite H'.
Qed.
(** example: potentials *)
Definition ex_phi1 (e : list nat) : R := INR (list_sum (tl e)).
(** two rows of ex_tree's shape, same length and same potentials *)
Example C42_example_rows am temp g : forall e, hd 0%nat e = 0%nat -> e <> [] ->
  q_gumbel am temp g (CTree 2 4 2 None) ex_phi1 (1%nat :: tl e) = q_gumbel am temp g (CTree 2 4 2 None) ex_phi1 e.
Proof.
  intros e He Hn. apply (@C42_equal_rows am temp g (CTree 2 4 2 None) ex_phi1 0 1); try (simpl; lia); try reflexivity.
  - repeat split; simpl; lia.
  - destruct e; [congruence|]. simpl in *. now subst.
Qed.
Print Assumptions C42_equal_rows.
Print Assumptions C42_structure.
Print Assumptions C42_temperature.
