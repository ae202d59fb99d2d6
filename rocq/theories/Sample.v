(** * Sample: the sampling semirings of torch_struct/semirings/sample.py *)
From Coq Require Import ZArith.
From Verif Require Import Base Ops Terms Poly Semirings Grad.
Set Implicit Arguments.
Local Open Scope R_scope.

(** ** Finite probability distributions *)
Definition pmf (A : Type) := list (R * A).
(** spec: a certain outcome *)
Definition pret {A} (a : A) : pmf A := [(1, a)].
(** spec: an outcome that depends on an earlier one *)
Definition pbind {A B} (m : pmf A) (f : A -> pmf B) : pmf B :=
  flat_map (fun x => map (fun y => (fst x * fst y, snd y)) (f (snd x))) m.
(** expectation *)
Definition PE {A} (m : pmf A) (f : A -> R) : R := RSum (fun x => fst x * f (snd x)) m.

Lemma PE_ret A (a : A) f : PE (pret a) f = f a.
Proof. unfold PE, Sum; simpl. ring. Qed.
Lemma PE_bind A B (m : pmf A) (k : A -> pmf B) f : PE (pbind m k) f = PE m (fun a => PE (k a) f).
Proof.
  unfold PE, pbind. rewrite RSum_flat_map. apply (Sum_ext R_csr). intro x. rewrite RSum_map.
  rewrite <- RSum_scal. apply (Sum_ext R_csr). intro y. simpl. ring.
Qed.
Lemma PE_ext A (m : pmf A) f g : (forall a, f a = g a) -> PE m f = PE m g.
Proof. intro H. apply (Sum_ext R_csr). intro x. now rewrite H. Qed.

(** a gradient, by cell index (sample.py:12-39) *)
Definition gradv := list nat -> R.
(** spec: a function that only reads the cells of a gradient *)
Definition ext_fun (f : gradv -> R) : Prop := forall a b : gradv, (forall e, a e = b e) -> f a = f b.

(** running several random computations and adding their gradients *)
Fixpoint psum (l : list (pmf gradv)) : pmf gradv :=
  match l with
  | [] => pret (fun _ => 0)
  | m :: l' => pbind m (fun x => pbind (psum l') (fun y => pret (fun e => x e + y e)))
  end.

(** torch.multinomial(softmax, 1): an index with the weights of the rule *)
Definition draw (w : rule) (p : path) (l : list term) : pmf nat :=
  mapi (fun i _ => (w p l i, i)) 0 l.

(** sample.py:12-39, [_SampledLogSumExp.backward], along the whole graph: each
    sum node draws one child and passes the gradient times the one-hot vector to
    all its children (the others get 0, and draw as well). [p]: path of the node. *)
Fixpoint rbp (w : rule) (p : path) (t : term) (g : R) : pmf gradv :=
  match t with
  | TLeaf e' | TOver e' => pret (fun e => if list_eq_dec Nat.eq_dec e e' then g else 0)
  | TOne | TZero => pret (fun _ => 0)
  | TMul a b => pbind (rbp w (0%nat :: p) a g) (fun x =>
                pbind (rbp w (1%nat :: p) b g) (fun y => pret (fun e => x e + y e)))
  | TSum l => pbind (draw w p l) (fun i =>
                psum (mapi (fun j t' => rbp w (j :: p) t' (g * (if (j =? i)%nat then 1 else 0))) 0 l))
  end.

(** a computation that returns the zero gradient *)
Definition null (m : pmf gradv) : Prop := forall f, ext_fun f -> PE m f = f (fun _ => 0).

Lemma ext_shift (f : gradv -> R) (x : gradv) : ext_fun f -> ext_fun (fun y => f (fun e => x e + y e)).
Proof. intros H a b E. apply H. intro e. now rewrite E. Qed.

Lemma psum_null l : Forall null l -> null (psum l).
Proof.
  induction 1 as [|m l Hm Hl IH]; intros f Hf; simpl.
  - apply PE_ret.
  - rewrite PE_bind.
    rewrite (@PE_ext _ m _ f).
    + apply Hm, Hf.
    + intro x. rewrite PE_bind.
      rewrite (@PE_ext _ (psum l) _ (fun y => f (fun e => x e + y e))) by (intro; apply PE_ret).
      rewrite IH by (apply ext_shift, Hf). apply Hf. intro; ring.
Qed.

Lemma psum_one f (Hf : ext_fun f) m : forall k l, nth_error l k = Some m ->
  (forall j a, j <> k -> nth_error l j = Some a -> null a) -> PE (psum l) f = PE m f.
Proof.
  intros k l. revert k. induction l as [|x l IH]; intros [|k] E H; simpl in E; try discriminate.
  - injection E as ->. simpl. rewrite PE_bind. apply PE_ext. intro x. rewrite PE_bind.
    rewrite (@PE_ext _ (psum l) _ (fun y => f (fun e => x e + y e))) by (intro; apply PE_ret).
    rewrite (@psum_null l).
    + apply Hf. intro; ring.
    + apply Forall_forall. intros a Ha. apply In_nth_error in Ha as (j & Hj). apply (H (S j) a); auto.
    + apply ext_shift, Hf.
  - simpl. rewrite PE_bind.
    assert (Nx : null x) by (apply (H 0%nat x); auto).
    transitivity (PE x (fun a => PE (psum l) (fun y => f (fun e => a e + y e)))).
    { apply PE_ext. intro a. rewrite PE_bind. apply PE_ext. intro. apply PE_ret. }
    rewrite Nx.
    + rewrite <- (IH k E).
      * apply PE_ext. intro y. apply Hf. intro; ring.
      * intros j a Hj Ha. apply (H (S j) a); auto.
    + intros a b Eab. apply PE_ext. intro y. apply Hf. intro e. now rewrite Eab.
Qed.

Lemma PE_draw w p l f : PE (draw w p l) f = ksum R_csr (mapi (fun i _ => w p l i * f i) 0 l).
Proof. unfold PE, draw. apply RSum_mapi. Qed.

Lemma PE_dist_total w t p c : normal w -> twf t -> RSum (fun x => fst x * c) (dist w p t) = c.
Proof. intros Hw W. rewrite RSum_scar, dist_total by auto. ring. Qed.

(** The law of the sampled gradient, for every test function. *)
Theorem rbp_law w t : normal w -> twf t -> forall p g f, ext_fun f ->
  PE (rbp w p t g) f = RSum (fun x => fst x * f (fun e => g * cnt e (snd x))) (dist w p t).
Proof.
  intros Hw W. induction t as [e'|e'| | |l IH|a b IHa IHb] using term_ind'; intros p g f Hf.
  1-4: cbn [rbp dist]; rewrite PE_ret; unfold Sum; simpl; rewrite Rplus_0_r, Rmult_1_l; apply Hf; intro e;
       unfold cnt, Sum; simpl; try destruct (list_eq_dec Nat.eq_dec e e'); ring.
  - inversion W as [| | | |? Hn Hf'|]; subst. rewrite Forall_forall in IH, Hf'.
    cbn [rbp dist]. rewrite PE_bind, PE_draw, RSum_concat, RSum_mapi. f_equal.
    apply mapi_ext_nth. intros i t Hi. simpl. assert (Ht := nth_error_In _ _ Hi).
    rewrite RSum_map. cbn [fst snd].
    transitivity (w p l i * RSum (fun x => fst x * f (fun e => g * cnt e (snd x))) (dist w (i :: p) t)).
    2:{ rewrite <- RSum_scal. apply (Sum_ext R_csr). intro; ring. }
    f_equal.
    set (L := mapi (fun j t' => rbp w (j :: p) t' (g * (if (j =? i)%nat then 1 else 0))) 0 l).
    assert (G : forall l' k j, nth_error (mapi (fun j t' => rbp w (j :: p) t' (g * (if (j =? i)%nat then 1 else 0))) k l') j =
        option_map (fun t' => rbp w ((k + j)%nat :: p) t' (g * (if ((k + j) =? i)%nat then 1 else 0))) (nth_error l' j)).
    { clear. induction l' as [|x l' IH]; intros k [|j]; simpl; auto.
      - now rewrite Nat.add_0_r.
      - rewrite IH. replace (k + S j)%nat with (S k + j)%nat by lia. reflexivity. }
    rewrite (@psum_one f Hf (rbp w (i :: p) t (g * 1)) i L).
    + rewrite IH by auto. apply (Sum_ext R_csr). intro x. f_equal. apply Hf. intro; ring.
    + unfold L. rewrite G, Hi. simpl. now rewrite Nat.eqb_refl.
    + intros j m Hj Hm. unfold L in Hm. rewrite G in Hm. destruct (nth_error l j) as [t'|] eqn:E; [|discriminate].
      injection Hm as <-. simpl. apply Nat.eqb_neq in Hj. rewrite Hj.
      assert (Ht' := nth_error_In _ _ E).
      intros h Hh. rewrite IH by auto.
      rewrite (Sum_ext R_csr _ (fun x => fst x * h (fun _ => 0))).
      * apply PE_dist_total; auto.
      * intro x. f_equal. apply Hh. intro; ring.
  - inversion W as [| | | | |? ? Wa Wb]; subst. cbn [rbp dist]. rewrite PE_bind.
    transitivity (PE (rbp w (0%nat :: p) a g) (fun x => PE (rbp w (1%nat :: p) b g) (fun y => f (fun e => x e + y e)))).
    { apply PE_ext. intro x. rewrite PE_bind. apply PE_ext. intro y. apply PE_ret. }
    rewrite IHa; auto.
    + rewrite RSum_flat_map. apply (Sum_ext R_csr). intro x. rewrite IHb by (auto; apply ext_shift, Hf).
      rewrite RSum_map, <- RSum_scal. apply (Sum_ext R_csr). intro y. cbn [fst snd].
      rewrite Rmult_assoc. f_equal. f_equal. apply Hf. intro e. rewrite cnt_app. symmetry; apply Rmult_plus_distr_l.
    + intros u v E. apply PE_ext. intro y. apply Hf. intro e. now rewrite E.
Qed.

(** C23 core: with softmax draws, the sampled gradient is distributed as the
    count vector of a derivation drawn from the Gibbs law *)
Theorem sample_law z phi t p f : twf t -> ext_fun f ->
  PE (rbp (w_soft z phi) p t 1) f = mean phi z t (fun m => f (fun e => cnt e m)).
Proof.
  intros W Hf. rewrite rbp_law by auto using w_soft_normal. rewrite dist_soft by auto. rewrite RSum_map.
  apply (Sum_ext R_csr). intro m. simpl. f_equal. apply Hf. intro; ring.
Qed.

(** ** MultiSampledSemiring *)
Local Close Scope R_scope.
Local Open Scope Z_scope.

(** sample.py:156: bits = 2^1 .. 2^17 *)
Definition bits (i : nat) : Z := 2 ^ (Z.of_nat i + 1).

(** sample.py:195-200 and 222-227: is sample j active in the packed gradient x?
    [on = x % bits[j+1] - x % bits[j]], [final = x % 2] *)
Definition active (x : Z) (j : nat) : bool :=
  negb ((x mod bits (S j) - x mod bits j) + x mod 2 =? 0).

(** sample.py:221-227 [to_discrete(xs, j)] *)
Definition to_discrete (x : Z) (j : nat) : Z := if active x j then 1 else 0.

(** sum over the 16 samples *)
Definition zsum16 (f : nat -> Z) : Z := fold_right Z.add 0 (map f (seq 0 16)).

(** sample.py:171-208 [_MultiSampledLogSumExp.backward] along the graph; the
    choice oracle [o p j] is the j-th of the 16 draws of the node at path p. *)
Fixpoint mbp (o : path -> nat -> nat) (p : path) (t : term) (g : Z) (e : list nat) : Z :=
  match t with
  | TLeaf e' | TOver e' => if list_eq_dec Nat.eq_dec e e' then g else 0
  | TOne | TZero => 0
  | TMul a b => mbp o (0%nat :: p) a g e + mbp o (1%nat :: p) b g e
  | TSum l => fold_right Z.add 0 (mapi (fun i t' => mbp o (i :: p) t'
                (zsum16 (fun j => bits j * (if (o p j =? i)%nat && active g j then 1 else 0))) e) 0 l)
  end.

(** packing of 16 (or n) sample flags *)
Fixpoint pack (b : nat -> bool) (n : nat) : Z :=
  match n with O => 0 | S n' => pack b n' + bits n' * (if b n' then 1 else 0) end.

Lemma bits_S j : bits (S j) = 2 * bits j.
Proof. unfold bits. rewrite Nat2Z.inj_succ, Z.add_succ_l, Z.pow_succ_r by lia. reflexivity. Qed.
Lemma bits_pos j : 0 < bits j.
Proof. apply Z.pow_pos_nonneg; lia. Qed.
Lemma bits_divide j k : (j <= k)%nat -> (bits j | bits k).
Proof.
  induction 1 as [|k H IH]; [apply Z.divide_refl|]. rewrite bits_S. apply Z.divide_mul_r, IH.
Qed.

Lemma pack_range b n : 0 <= pack b n < bits n.
Proof.
  induction n as [|n IH]; cbn [pack]; [unfold bits; simpl; lia|]. rewrite bits_S.
  pose proof (bits_pos n). destruct (b n); lia.
Qed.
Lemma pack_even b n : pack b n mod 2 = 0.
Proof.
  induction n as [|n IH]; [reflexivity|]. cbn [pack].
  destruct (bits_divide (Nat.le_0_l n)) as [q Hq]. change (bits 0) with 2 in Hq.
  rewrite Z.add_mod, IH by lia. rewrite Hq, <- Z.mul_assoc, (Z.mul_comm 2), Z.mul_assoc, Z_mod_mult. reflexivity.
Qed.
Lemma pack_mod b n k : pack b n mod bits k = pack b (Nat.min k n).
Proof.
  induction n as [|n IH]; [rewrite Nat.min_0_r; reflexivity|].
  destruct (Nat.le_gt_cases k n) as [H|H].
  - rewrite Nat.min_l by lia. rewrite Nat.min_l in IH by lia. cbn [pack].
    destruct (bits_divide H) as [q Hq]. rewrite Hq.
    replace (pack b n + q * bits k * (if b n then 1 else 0))
      with (pack b n + (q * (if b n then 1 else 0)) * bits k) by ring.
    rewrite Z_mod_plus_full. exact IH.
  - rewrite Nat.min_r by lia. apply Z.mod_small. pose proof (pack_range b (S n)).
    destruct (bits_divide H) as [q Hq]. pose proof (bits_pos k). pose proof (bits_pos (S n)).
    split; [lia|]. assert (1 <= q) by nia. nia.
Qed.

Lemma active_pack b n j : (j < n)%nat -> active (pack b n) j = b j.
Proof.
  intro H. unfold active. rewrite pack_even, !pack_mod. rewrite !Nat.min_l by lia. cbn [pack].
  pose proof (bits_pos j). destruct (b j); [|rewrite Z.eqb_neq || idtac].
  - apply negb_true_iff, Z.eqb_neq. lia.
  - apply negb_false_iff, Z.eqb_eq. lia.
Qed.
Lemma active_one j : active 1 j = true.
Proof.
  unfold active. assert (H : forall k, 1 mod bits k = 1).
  { intro k. apply Z.mod_small. pose proof (bits_pos k). split; [lia|].
    destruct k; [reflexivity|]. rewrite bits_S. pose proof (bits_pos k). lia. }
  rewrite !H. reflexivity.
Qed.

Lemma zsum16_pack (b : nat -> bool) : zsum16 (fun j => bits j * (if b j then 1 else 0)) = pack b 16.
Proof. unfold zsum16. cbn [map seq fold_right pack]. ring. Qed.

(** integer count *)
Definition zcount (e : list nat) (m : deriv) : Z :=
  fold_right Z.add 0 (map (fun a => match a with
    | AL e' | AO e' => if list_eq_dec Nat.eq_dec e e' then 1 else 0 | AZ => 0 end) m).
Lemma zcount_app e a b : zcount e (a ++ b) = zcount e a + zcount e b.
Proof. unfold zcount. induction a as [|x a IH]; simpl; [reflexivity|]. rewrite IH. ring. Qed.
Lemma zcount_cnt e m : cnt e m = IZR (zcount e m).
Proof.
  induction m as [|a m IH]; [reflexivity|]. unfold cnt, zcount in *. rewrite RSum_cons, IH. cbn [map fold_right].
  rewrite plus_IZR. f_equal. destruct a; simpl; auto; destruct (list_eq_dec Nat.eq_dec e e0); auto.
Qed.
Lemma zcount_nonneg e m : 0 <= zcount e m.
Proof.
  induction m as [|a m IH]; [unfold zcount; simpl; lia|]. unfold zcount in *. cbn [map fold_right].
  destruct a; simpl; try destruct (list_eq_dec Nat.eq_dec e e0); lia.
Qed.

Lemma zsum16_ext f g : (forall j, (j < 16)%nat -> f j = g j) -> zsum16 f = zsum16 g.
Proof. intro H. unfold zsum16. f_equal. apply map_ext_in. intros j Hj. apply in_seq in Hj. apply H. lia. Qed.
Lemma zsum16_add f g : zsum16 (fun j => f j + g j) = zsum16 f + zsum16 g.
Proof. unfold zsum16. cbn [map seq fold_right]. ring. Qed.

Lemma zsum16_zero f : (forall j, (j < 16)%nat -> f j = 0) -> zsum16 f = 0.
Proof. intro H. rewrite (@zsum16_ext f (fun _ => 0)) by auto. reflexivity. Qed.

Lemma zfold_mapi_delta A (f : nat -> A -> Z) l k t : forall i, nth_error l k = Some t ->
  (forall j a, j <> k -> f (i + j)%nat a = 0) -> fold_right Z.add 0 (mapi f i l) = f (i + k)%nat t.
Proof.
  revert k. induction l as [|x l IH]; intros [|k] i E H; simpl in E; try discriminate.
  - injection E as ->. cbn [mapi fold_right]. rewrite Nat.add_0_r.
    assert (Z : fold_right Z.add 0 (mapi f (S i) l) = 0).
    { rewrite (@mapi_ext_nth _ _ _ (fun _ _ => 0)).
      - rewrite mapi_const. clear. induction l; simpl; auto.
      - intros j a Hj. replace (S i + j)%nat with (i + S j)%nat by lia. apply H. lia. }
    rewrite Z. ring.
  - cbn [mapi fold_right]. rewrite (IH k (S i) E).
    + assert (Z := H 0%nat x ltac:(lia)). rewrite Nat.add_0_r in Z. rewrite Z.
      replace (S i + k)%nat with (i + S k)%nat by lia. ring.
    + intros j a Hj. replace (S i + j)%nat with (i + S j)%nat by lia. apply H. lia.
Qed.

Lemma zfold_mapi_sum16 A (h : nat -> A -> nat -> Z) l : forall i,
  fold_right Z.add 0 (mapi (fun k a => zsum16 (h k a)) i l) =
  zsum16 (fun j => fold_right Z.add 0 (mapi (fun k a => h k a j) i l)).
Proof.
  induction l as [|a l IH]; intro i; cbn [mapi fold_right].
  - unfold zsum16. cbn [map seq fold_right]. reflexivity.
  - rewrite IH, <- zsum16_add. reflexivity.
Qed.

Section Packed.
  Variable o : path -> nat -> nat.
  (** the choices of sample j *)
  Definition oj (j : nat) : path -> nat := fun p => o p j.

  (** gradient with the packed flags b *)
  Lemma mbp_pack e t : forall p b, (forall j, (j < 16)%nat -> inrange (oj j) p t) ->
    mbp o p t (pack b 16) e =
    zsum16 (fun j => bits j * ((if b j then 1 else 0) * zcount e (picked (oj j) p t))).
  Proof.
    induction t as [e'|e'| | |l IH|x y IHx IHy] using term_ind'; intros p b Hr.
    - cbn [mbp picked]. unfold zcount. cbn [map fold_right].
      destruct (list_eq_dec Nat.eq_dec e e').
      + rewrite <- zsum16_pack. apply zsum16_ext. intros. ring.
      + unfold zsum16; cbn [map seq fold_right]; ring.
    - cbn [mbp picked]. unfold zcount. cbn [map fold_right].
      destruct (list_eq_dec Nat.eq_dec e e').
      + rewrite <- zsum16_pack. apply zsum16_ext. intros. ring.
      + unfold zsum16; cbn [map seq fold_right]; ring.
    - symmetry. apply zsum16_zero. intros. cbn [picked zcount map fold_right]. unfold zcount. cbn [map fold_right]. ring.
    - symmetry. apply zsum16_zero. intros. unfold zcount. cbn [picked map fold_right]. ring.
    - cbn [mbp].
      rewrite (@mapi_ext_nth _ _ _ (fun i t' => zsum16 (fun j => bits j *
          ((if (o p j =? i)%nat && b j then 1 else 0) * zcount e (picked (oj j) (i :: p) t'))))).
      + rewrite zfold_mapi_sum16. apply zsum16_ext. intros j Hj.
        destruct (Hr j Hj) as [H1 _]. unfold oj in H1.
        destruct (nth_error l (o p j)) as [t|] eqn:E; [|apply nth_error_None in E; lia].
        rewrite (@zfold_mapi_delta _ _ l (o p j) t 0 E).
        * rewrite (picked_sum (oj j) p l E). rewrite Nat.add_0_l, Nat.eqb_refl. reflexivity.
        * intros k a Hk. rewrite Nat.add_0_l.
          replace (o p j =? k)%nat with false by (symmetry; apply Nat.eqb_neq; lia). simpl. ring.
      + intros i t' Hi. rewrite Nat.add_0_l. assert (Ht := nth_error_In _ _ Hi).
        rewrite Forall_forall in IH. rewrite <- (IH t' Ht (i :: p) (fun j => (o p j =? i)%nat && b j)).
        * apply (f_equal (fun g => mbp o (i :: p) t' g e)).
          rewrite <- (zsum16_pack (fun j => (o p j =? i)%nat && b j)).
          apply zsum16_ext. intros j Hj. rewrite active_pack by auto. reflexivity.
        * intros j Hj. destruct (Hr j Hj) as [_ H2]. rewrite fold_and_mapi in H2. apply (H2 _ _ Hi).
    - cbn [mbp picked]. rewrite IHx, IHy, <- zsum16_add.
      + apply zsum16_ext. intros j _. rewrite zcount_app. ring.
      + intros j Hj. apply (Hr j Hj).
      + intros j Hj. apply (Hr j Hj).
  Qed.

  (** occurrences of e that are below no sum node: they get the initial odd gradient 1 *)
  Fixpoint direct (e : list nat) (t : term) : Z :=
    match t with
    | TLeaf e' | TOver e' => if list_eq_dec Nat.eq_dec e e' then 1 else 0
    | TMul a b => direct e a + direct e b
    | _ => 0
    end.

  Lemma mbp_root e t : forall p, (forall j, (j < 16)%nat -> inrange (oj j) p t) ->
    mbp o p t 1 e = direct e t + zsum16 (fun j => bits j * (zcount e (picked (oj j) p t) - direct e t)).
  Proof.
    induction t as [e'|e'| | |l _|x y IHx IHy] using term_ind'; intros p Hr.
    - cbn [mbp picked direct]. unfold zcount, zsum16; cbn [map seq fold_right]. ring.
    - cbn [mbp picked direct]. unfold zcount, zsum16; cbn [map seq fold_right]. ring.
    - cbn [mbp direct]. rewrite zsum16_zero; [reflexivity|]. intros. unfold zcount. cbn [picked map fold_right]. ring.
    - cbn [mbp direct]. rewrite zsum16_zero; [reflexivity|]. intros. unfold zcount. cbn [picked map fold_right]. ring.
    - cbn [direct]. transitivity (mbp o p (TSum l) (pack (fun _ => true) 16) e).
      + cbn [mbp]. apply (f_equal (fold_right Z.add 0)). apply mapi_ext_in. intros i t' _.
        apply (f_equal (fun g => mbp o (i :: p) t' g e)). apply zsum16_ext. intros j Hj.
        rewrite active_one, active_pack by auto. reflexivity.
      + rewrite mbp_pack by auto. rewrite Z.add_0_l. apply zsum16_ext. intros. ring.
    - cbn [mbp picked direct]. rewrite IHx, IHy.
      + transitivity (direct e x + direct e y + (zsum16 (fun j => bits j * (zcount e (picked (oj j) (0%nat :: p) x) - direct e x))
          + zsum16 (fun j => bits j * (zcount e (picked (oj j) (1%nat :: p) y) - direct e y)))); [ring|].
        f_equal. rewrite <- zsum16_add. apply zsum16_ext. intros. rewrite zcount_app. ring.
      + intros j Hj. apply (Hr j Hj).
      + intros j Hj. apply (Hr j Hj).
  Qed.

  Lemma direct_le e t : forall p j, inrange (oj j) p t -> direct e t <= zcount e (picked (oj j) p t).
  Proof.
    induction t as [e'|e'| | |l _|x y IHx IHy] using term_ind'; intros p j Hr.
    - cbn. lia.
    - cbn. lia.
    - cbn. lia.
    - cbn. lia.
    - cbn [direct]. apply zcount_nonneg.
    - cbn [direct picked]. rewrite zcount_app. destruct Hr as [H1 H2].
      specialize (IHx _ _ H1). specialize (IHy _ _ H2). lia.
  Qed.

  (** C24 core: unpacking sample j returns the j-th drawn derivation, when no
      derivation uses the part twice *)
  Theorem unpack t p e j :
    (forall i, (i < 16)%nat -> inrange (oj i) p t) ->
    (forall i, (i < 16)%nat -> zcount e (picked (oj i) p t) <= 1) ->
    (j < 16)%nat ->
    to_discrete (mbp o p t 1 e) j = zcount e (picked (oj j) p t).
  Proof.
    intros Hr H1 Hj. rewrite mbp_root by auto. unfold to_discrete.
    assert (Hd : direct e t = 0 \/ direct e t = 1).
    { pose proof (direct_le e t p 0%nat (Hr 0%nat ltac:(lia))). specialize (H1 0%nat ltac:(lia)).
      assert (0 <= direct e t).
      { clear. induction t; simpl; try destruct (list_eq_dec Nat.eq_dec e e0); lia. } lia. }
    destruct Hd as [Hd|Hd]; rewrite Hd.
    - set (b := fun i => zcount e (picked (oj i) p t) =? 1).
      assert (Hb : forall i, (i < 16)%nat -> zcount e (picked (oj i) p t) = if b i then 1 else 0).
      { intros i Hi. unfold b. specialize (H1 i Hi). pose proof (zcount_nonneg e (picked (oj i) p t)).
        destruct (Z.eqb_spec (zcount e (picked (oj i) p t)) 1); lia. }
      replace (zsum16 (fun j => bits j * (zcount e (picked (oj j) p t) - 0))) with (pack b 16).
      + rewrite Z.add_0_l, active_pack by auto. now rewrite Hb.
      + rewrite <- zsum16_pack. apply zsum16_ext. intros i Hi. rewrite Hb by auto. ring.
    - assert (Hc : forall i, (i < 16)%nat -> zcount e (picked (oj i) p t) = 1).
      { intros i Hi. specialize (H1 i Hi). pose proof (direct_le e t p i (Hr i Hi)). lia. }
      rewrite (Hc j Hj).
      replace (zsum16 (fun j => bits j * (zcount e (picked (oj j) p t) - 1))) with 0.
      + rewrite Z.add_0_r, active_one. reflexivity.
      + transitivity (zsum16 (fun _ => 0)); [reflexivity|]. apply zsum16_ext. intros i Hi. rewrite Hc by auto. ring.
  Qed.
End Packed.
