(** * DagLaw: the law of the samples when every node of a shared graph draws once. *)
From Coq Require Import ZArith.
From Verif Require Import Base Ops Terms Poly Semirings Grad Sample Shape Dag.
Set Implicit Arguments.
Local Open Scope R_scope.

(** ** Independent products *)
(** components 0, ..., n-1 drawn independently; the others are d *)
Fixpoint pind {A} (ms : nat -> pmf A) (d : A) (n : nat) : pmf (nat -> A) :=
  match n with
  | O => pret (fun _ => d)
  | S k => pbind (pind ms d k) (fun v => pbind (ms k) (fun i => pret (fun j => if (j =? k)%nat then i else v j)))
  end.
(** proof device: a function of a choice depends on its values only *)
Definition fext {A} (F : (nat -> A) -> R) : Prop := forall u v, (forall i, u i = v i) -> F u = F v.

Lemma pind_S A ms (d : A) k F :
  PE (pind ms d (S k)) F = PE (pind ms d k) (fun v => PE (ms k) (fun i => F (fun j => if (j =? k)%nat then i else v j))).
Proof. simpl. rewrite PE_bind. apply PE_ext. intro v. rewrite PE_bind. apply PE_ext. intro. apply PE_ret. Qed.
Lemma PE_scal A (m : pmf A) c f : PE m (fun a => c * f a) = c * PE m f.
Proof. unfold PE. rewrite <- RSum_scal. apply (Sum_ext R_csr). intro. ring. Qed.
Lemma PE_scar A (m : pmf A) c f : PE m (fun a => f a * c) = PE m f * c.
Proof. rewrite Rmult_comm, <- PE_scal. apply PE_ext. intro. ring. Qed.
Lemma RProd_S f n : RProd f (seq 0 (S n)) = RProd f (seq 0 n) * f n.
Proof. rewrite seq_S, Prod_app, Prod_one. reflexivity. Qed.

Theorem pind_prod A (ms : nat -> pmf A) d n : forall G,
  PE (pind ms d n) (fun v => RProd (fun j => G j (v j)) (seq 0 n)) = RProd (fun j => PE (ms j) (G j)) (seq 0 n).
Proof.
  induction n as [|n IH]; intro G; [apply PE_ret|]. rewrite pind_S, RProd_S, <- IH, <- PE_scar.
  apply PE_ext. intro v.
  rewrite <- PE_scal. apply PE_ext. intro i. rewrite RProd_S, Nat.eqb_refl. f_equal.
  apply (Prod_ext_in R_csr). intros j Hj. apply in_seq in Hj. destruct (Nat.eqb_spec j n); [lia|reflexivity].
Qed.

(** J samples at every node: the J choice functions are independent, each with
    the law of one draw per node *)
Theorem pind_exchange A (ms : nat -> pmf A) d J n : forall F, (forall j, fext (F j)) ->
  PE (pind (fun k => pind (fun _ => ms k) d J) (fun _ => d) n) (fun o => RProd (fun j => F j (fun k => o k j)) (seq 0 J)) =
  RProd (fun j => PE (pind ms d n) (F j)) (seq 0 J).
Proof.
  induction n as [|n IH]; intros F HF.
  - simpl. rewrite PE_ret. apply (Prod_ext R_csr). intro j. symmetry. apply PE_ret.
  - rewrite pind_S.
    rewrite (@PE_ext _ _ _ (fun o => RProd (fun j => (fun u => PE (ms n) (fun i => F j (fun k => if (k =? n)%nat then i else u k)))
        (fun k => o k j)) (seq 0 J))).
    + rewrite (IH (fun j u => PE (ms n) (fun i => F j (fun k => if (k =? n)%nat then i else u k)))).
      * apply (Prod_ext R_csr). intro j. symmetry. apply pind_S.
      * intros j u v E. apply PE_ext. intro i. apply HF. intro k. destruct (k =? n)%nat; auto.
    + intro o.
      rewrite <- (pind_prod (fun _ => ms n) d J (fun j i => F j (fun k => if (k =? n)%nat then i else o k j))).
      apply PE_ext. intro v. apply (Prod_ext R_csr). intro j. apply HF. intro k. destruct (k =? n)%nat; auto.
Qed.

(** support *)
Definition psupp {A} (P : A -> Prop) (m : pmf A) : Prop := Forall (fun x => P (snd x)) m.
Lemma PE_ext_in A (P : A -> Prop) (m : pmf A) f g : psupp P m -> (forall a, P a -> f a = g a) -> PE m f = PE m g.
Proof.
  intros H E. unfold psupp in H. rewrite Forall_forall in H.
  apply (Sum_ext_in R_csr). intros x Hx. rewrite E; auto.
Qed.
Lemma psupp_ret A (P : A -> Prop) a : P a -> psupp P (pret a).
Proof. intro H. constructor; [exact H|constructor]. Qed.
Lemma psupp_bind A B (P : A -> Prop) (Q : B -> Prop) m k : psupp P m -> (forall a, P a -> psupp Q (k a)) -> psupp Q (pbind m k).
Proof.
  intros H Hk. unfold psupp, pbind in *. rewrite Forall_forall in *. intros y Hy.
  apply in_flat_map in Hy as (x & Hx & Hy). apply in_map_iff in Hy as (y' & <- & Hy). simpl.
  specialize (Hk _ (H x Hx)). rewrite Forall_forall in Hk. now apply Hk.
Qed.
Lemma psupp_pind A (P : nat -> A -> Prop) ms d n : (forall k, P k d) -> (forall k, psupp (P k) (ms k)) ->
  psupp (fun v => forall k, P k (v k)) (pind ms d n).
Proof.
  intros Hd Hm. induction n as [|n IH]; simpl.
  - now apply psupp_ret.
  - eapply psupp_bind; [exact IH|]. intros v Hv. eapply psupp_bind; [apply (Hm n)|]. intros i Hi. apply psupp_ret.
    intro k. simpl. destruct (Nat.eqb_spec k n); subst; auto.
Qed.

(** ** Draws at the nodes *)
Section WLaw.
  Variable g : dag.
  Hypothesis Ht : topo g.
  (** W k i: probability of drawing argument i at node k *)
  Variable W : nat -> nat -> R.
  Local Notation tr := (unf g).

  (** sample.py:18-28 and 173-183: torch.multinomial with the weights of node k, an
      index of an argument *)
  Definition wdraw (k : nat) : pmf nat :=
    match ndof g k with
    | NSum l => mapi (fun i _ => (W k i, i)) 0 l
    | _ => pret 0%nat
    end.
  (** law of the choices of the first n nodes, drawn independently (one multinomial
      per node: sample.py:18-28) *)
  Definition wjoint (n : nat) : pmf (nat -> nat) := pind wdraw 0%nat n.
  (** 16 draws per node (sample.py:175-177: torch.multinomial(..., 16, True)) *)
  Definition wjoint16 (n : nat) : pmf (nat -> nat -> nat) := pind (fun k => pind (fun _ => wdraw k) 0%nat 16) (fun _ => 0%nat) n.

  (** P k m: probability of derivation m of node k. The weights and P fit together
      at the nodes below N. *)
  Variable P : nat -> deriv -> R.
  Variable N : nat.
  Local Notation P_ v := (P v).
  (** Live: the nodes that can be reached by draws of positive weight *)
  Variable Live : nat -> Prop.
  Hypothesis W_total : forall k l, (k < N)%nat -> ndof g k = NSum l -> ksum R_csr (mapi (fun i _ => W k i) 0 l) = 1.
  Hypothesis P_total : forall k, (k < N)%nat -> Live k -> RSum (P k) (expand (tr k)) = 1.
  Hypothesis P_mul : forall k a b, (k < N)%nat -> Live k -> ndof g k = NMul a b -> Live a /\ Live b /\
    forall x y, In x (expand (tr a)) -> In y (expand (tr b)) -> P k (x ++ y) = P a x * P b y.
  Hypothesis P_sum : forall k l i c, (k < N)%nat -> Live k -> ndof g k = NSum l -> nth_error l i = Some c ->
    (Live c /\ forall m, In m (expand (tr c)) -> W k i * P c m = P k m) \/
    (W k i = 0 /\ forall m, In m (expand (tr c)) -> P k m = 0).

  Lemma draw_total k c : (k < N)%nat -> PE (wdraw k) (fun _ => c) = c.
  Proof.
    intro HN. unfold wdraw. destruct (ndof g k) eqn:E; try apply PE_ret.
    unfold PE. rewrite RSum_mapi. cbn [fst snd].
    transitivity (ksum R_csr (mapi (fun i (_ : nat) => @kmul R_csr c (W k i)) 0 l)).
    - f_equal. apply mapi_ext_in. intros. cbn [kmul R_csr]. ring.
    - etransitivity; [apply (ksum_mapi_scale R_csr c (fun i _ => W k i))|].
      pose proof (W_total HN E) as H. cbn [kmul R_csr]. change (K R_csr) with R in *. rewrite H. ring.
  Qed.
  Lemma draw_sum k l f : ndof g k = NSum l ->
    PE (wdraw k) f = ksum R_csr (mapi (fun i _ => W k i * f i) 0 l).
  Proof. intro E. unfold wdraw. rewrite E. unfold PE. now rewrite RSum_mapi. Qed.

  (** functions of the counts *)
  Definition cresp (F : deriv -> R) : Prop := forall a b, (forall e, zcount e a = zcount e b) -> F a = F b.
  Lemma cresp_shift F m : cresp F -> cresp (fun x => F (m ++ x)).
  Proof. intros H a b E. apply H. intro e. rewrite !zcount_app, E. reflexivity. Qed.

  (** independent derivations of the nodes of a list *)
  Fixpoint EXL (L : list nat) (F : deriv -> R) : R :=
    match L with
    | [] => F []
    | v :: L' => RSum (fun m => P_ v m * EXL L' (fun x => F (m ++ x))) (expand (tr v))
    end.
  Lemma EXL_ext L : forall F F', (forall x, F x = F' x) -> EXL L F = EXL L F'.
  Proof.
    induction L as [|v L IH]; intros F F' H; simpl; auto. apply (Sum_ext R_csr). intro m. f_equal. apply IH. intro; apply H.
  Qed.
  Lemma EXL_perm L L' : Permutation L L' -> forall F, cresp F -> EXL L F = EXL L' F.
  Proof.
    induction 1 as [|v L L' HP IH|a b L|L1 L2 L3 H1 IH1 H2 IH2]; intros F HF; simpl; auto.
    - apply (Sum_ext R_csr). intro m. f_equal. apply IH. now apply cresp_shift.
    - transitivity (RSum (fun m => RSum (fun m' => P_ b m * (P_ a m' * EXL L (fun x => F (m ++ m' ++ x)))) (expand (tr a))) (expand (tr b))).
      { apply (Sum_ext R_csr). intro m. rewrite RSum_scal. reflexivity. }
      rewrite (Sum_comm R_csr). apply (Sum_ext R_csr). intro m'. rewrite <- RSum_scal. apply (Sum_ext R_csr). intro m.
      rewrite (EXL_ext L (fun x => F (m ++ m' ++ x)) (fun x => F (m' ++ m ++ x))); [ring|].
      intro x. apply HF. intro e. rewrite !zcount_app. ring.
    - rewrite IH1, IH2; auto.
  Qed.

  (** no potential twice, whatever derivations the nodes of L take beside A *)
  Fixpoint dis (A : deriv) (L : list nat) : Prop :=
    match L with
    | [] => NoDup (names A)
    | v :: L' => forall m, In m (expand (tr v)) -> dis (A ++ m) L'
    end.
  Lemma NoDup_app_l T (a b : list T) : NoDup (a ++ b) -> NoDup a.
  Proof. induction a as [|x a IH]; intro H; [constructor|]. inversion_clear H. constructor; auto. intro. apply H0, in_app_iff. auto. Qed.
  Lemma dis_weak L : forall A A' Q, Permutation (names A) (names A' ++ Q) -> dis A L -> dis A' L.
  Proof.
    induction L as [|v L IH]; intros A A' Q HP H; simpl in *.
    - apply (NoDup_app_l _ Q). eapply Permutation_NoDup; eauto.
    - intros m Hm. apply (IH (A ++ m) (A' ++ m) Q); auto. rewrite !names_app.
      rewrite HP, <- !app_assoc. apply Permutation_app_head, Permutation_app_comm.
  Qed.
  Lemma dis_drop A v L : dis A (v :: L) -> dis A L.
  Proof.
    intro H. destruct (unf_some Ht v) as (m & Hm). specialize (H m Hm). eapply dis_weak; [|exact H].
    rewrite names_app. apply Permutation_refl.
  Qed.
  Lemma dis_perm L L' : Permutation L L' -> forall A, dis A L -> dis A L'.
  Proof.
    induction 1 as [|v L L' HP IH|a b L|L1 L2 L3 H1 IH1 H2 IH2]; intros A H; auto.
    - intros m Hm. apply IH, H, Hm.
    - intros m Hm m' Hm'. specialize (H m' Hm' m Hm). apply (@dis_weak L ((A ++ m') ++ m) _ []); auto.
      rewrite app_nil_r, !names_app, <- !app_assoc. apply Permutation_app_head, Permutation_app_comm.
  Qed.
  Lemma dis_filter p L : forall A, dis A L -> dis A (filter p L).
  Proof.
    induction L as [|v L IH]; intros A H; simpl; auto. destruct (p v).
    - intros m Hm. apply IH, H, Hm.
    - apply IH, (@dis_drop _ v), H.
  Qed.
  Lemma dis_nodup L : forall A, dis A L -> NoDup (names A).
  Proof. induction L as [|v L IH]; intros A H; [exact H|]. apply IH, (@dis_drop _ v), H. Qed.

  (** proof device: the derivations picked at a list of nodes *)
  Definition picks (o : nat -> nat) (L : list nat) : deriv := concat (map (npick g o) L).
  Lemma picks_cons o v L : picks o (v :: L) = npick g o v ++ picks o L.
  Proof. reflexivity. Qed.
  Lemma picks_perm o L L' : Permutation L L' -> forall e, zcount e (picks o L) = zcount e (picks o L').
  Proof.
    induction 1 as [|v L L' HP IH|a b L|L1 L2 L3 H1 IH1 H2 IH2]; intro e; auto.
    - rewrite !picks_cons, !zcount_app, IH. reflexivity.
    - rewrite !picks_cons, !zcount_app. ring.
    - now rewrite IH1.
  Qed.
  Lemma picks_local o o' n L : Forall (fun v => v < n)%nat L -> (forall i, (i < n)%nat -> o i = o' i) -> picks o L = picks o' L.
  Proof.
    intros HL H. unfold picks. f_equal. apply map_ext_in. intros v Hv. rewrite Forall_forall in HL. specialize (HL v Hv).
    apply (npick_local Ht). intros i Hi. apply H. lia.
  Qed.

  (** proof device: no derivation of node k names a potential *)
  Definition nameless (k : nat) : Prop := Forall (fun m => names m = []) (expand (tr k)).
  Lemma nameless_dec k : {nameless k} + {~ nameless k}.
  Proof. apply Forall_dec. intro m. destruct (names m); [left; reflexivity|right; discriminate]. Qed.
  Lemma nameless_count k m e : nameless k -> In m (expand (tr k)) -> zcount e m = 0%Z.
  Proof. intros H Hm. unfold nameless in H. rewrite Forall_forall in H. rewrite zcount_names, H by auto. reflexivity. Qed.
  Lemma EXL_nameless k L : (k < N)%nat -> nameless k -> Forall Live L -> forall F, cresp F -> EXL L F = EXL (filter (fun v => negb (v =? k)%nat) L) F.
  Proof.
    intros HN Hk HA. induction HA as [|v L Hv HA IH]; intros F HF; simpl; auto. destruct (Nat.eqb_spec v k) as [->|]; simpl.
    - transitivity (RSum (fun m => P_ k m * EXL L F) (expand (tr k))).
      + apply (Sum_ext_in R_csr). intros m Hm. f_equal. apply EXL_ext. intro x. apply HF. intro e.
        rewrite zcount_app, (nameless_count m e Hk Hm). ring.
      + rewrite RSum_scar, P_total by auto. rewrite Rmult_1_l. now apply IH.
    - apply (Sum_ext R_csr). intro m. f_equal. apply IH. now apply cresp_shift.
  Qed.
  Lemma picks_nameless k o L e : nameless k -> zcount e (picks o L) = zcount e (picks o (filter (fun v => negb (v =? k)%nat) L)).
  Proof.
    intro Hk. induction L as [|v L IH]; simpl; auto. rewrite picks_cons, zcount_app, IH.
    destruct (Nat.eqb_spec v k) as [->|]; simpl.
    - rewrite (@nameless_count k (npick g o k) e Hk); [ring|]. apply (npick_in Ht). discriminate.
    - now rewrite picks_cons, zcount_app.
  Qed.

  Lemma PE_ksum A (m : pmf A) (f : nat -> nat -> A -> R) l : forall i,
    PE m (fun a => ksum R_csr (mapi (fun j c => f j c a) i l)) = ksum R_csr (mapi (fun j c => PE m (f j c)) i l).
  Proof.
    induction l as [|c l IH]; intro i; simpl.
    - apply (Sum_zero R_csr). intros x _. apply Rmult_0_r.
    - rewrite <- IH. unfold PE at 1 2 3. cbn [kadd R_csr]. rewrite <- RSum_add. apply (Sum_ext R_csr). intro.
      cbn [kadd R_csr]. ring.
  Qed.

  (** proof device: the choice at node k replaced *)
  Definition setk (o : nat -> nat) (k i : nat) : nat -> nat := fun j => if (j =? k)%nat then i else o j.
  Theorem joint_forest n : (n <= N)%nat -> forall L F, cresp F -> Forall Live L -> Forall (fun v => v < n)%nat L -> dis [] L ->
    PE (wjoint n) (fun o => F (picks o L)) = EXL L F.
  Proof.
    induction n as [|k IH0]; intros HN L F HF HA HL HD.
    { destruct L as [|v L]; [apply PE_ret|]. inversion_clear HL. lia. }
    assert (HkN : (k < N)%nat) by lia. assert (IH := IH0 ltac:(lia)).
    assert (Hskip : forall L F, cresp F -> Forall Live L -> Forall (fun v => v < k)%nat L -> dis [] L ->
        PE (wjoint (S k)) (fun o => F (picks o L)) = EXL L F).
    { intros L0 F0 HF0 HA0 HL0 HD0. rewrite <- (IH L0 F0) by auto. unfold wjoint. rewrite pind_S. apply PE_ext. intro o.
      rewrite <- (draw_total (F0 (picks o L0)) HkN). apply PE_ext. intro i. apply (f_equal F0).
      apply (picks_local _ _ HL0). intros j Hj. destruct (Nat.eqb_spec j k); [lia|reflexivity]. }
    assert (Hlt : forall L0, Forall (fun v => v < S k)%nat L0 -> ~ In k L0 -> Forall (fun v => v < k)%nat L0).
    { intros L0 H0 H1. rewrite Forall_forall in *. intros v Hv. specialize (H0 v Hv). assert (v <> k) by congruence. lia. }
    destruct (nameless_dec k) as [Hn|Hn].
    { rewrite (EXL_nameless HkN Hn HA HF). rewrite <- Hskip; auto.
      - apply PE_ext. intro o. apply HF. intro e. now apply picks_nameless.
      - rewrite Forall_forall in *. intros v Hv. apply filter_In in Hv as [Hv _]. auto.
      - apply Hlt.
        + rewrite Forall_forall in *. intros v Hv. apply filter_In in Hv as [Hv _]. auto.
        + intro Hin. apply filter_In in Hin as [_ Hin]. now rewrite Nat.eqb_refl in Hin.
      - now apply dis_filter. }
    destruct (in_dec Nat.eq_dec k L) as [Hin|Hin]; [|apply Hskip; auto].
    apply in_split in Hin as (l1 & l2 & ->).
    assert (HP : Permutation (l1 ++ k :: l2) (k :: l1 ++ l2)) by (symmetry; apply Permutation_middle).
    set (L1 := l1 ++ l2) in *.
    rewrite (EXL_perm HP HF).
    rewrite (@PE_ext _ _ _ (fun o => F (picks o (k :: L1)))) by (intro o; apply HF; intro e; now apply picks_perm).
    assert (HD' : dis [] (k :: L1)) by (eapply dis_perm; eauto).
    assert (HL1 : Forall (fun v => v < k)%nat L1).
    { apply Hlt.
      - rewrite Forall_forall in *. intros v Hv. apply HL. apply (Permutation_in v (Permutation_sym HP)). now right.
      - intro Hk. apply in_split in Hk as (m1 & m2 & E).
        assert (HD2 : dis [] (k :: k :: m1 ++ m2)).
        { eapply dis_perm; [|exact HD']. rewrite E. apply perm_skip. symmetry. apply Permutation_middle. }
        apply Hn. unfold nameless. apply Forall_forall. intros m Hm. specialize (HD2 m Hm m Hm).
        apply dis_nodup in HD2. simpl in HD2. rewrite names_app in HD2. destruct (names m) as [|x nm]; auto.
        exfalso. simpl in HD2. inversion_clear HD2. apply H. apply in_app_iff. right. now left. }
    assert (HA' : Live k /\ Forall Live L1).
    { pose proof (Permutation_Forall HP HA) as H. inversion_clear H. auto. }
    destruct HA' as [Ak HA1]. clear HA HD HL HP.
    assert (Hset : forall o i, picks (setk o k i) L1 = picks o L1).
    { intros o i. apply (picks_local _ _ HL1). intros j Hj. unfold setk. destruct (Nat.eqb_spec j k); [lia|reflexivity]. }
    assert (Hst : forall o i c, (c < k)%nat -> npick g (setk o k i) c = npick g o c).
    { intros o i c Hc. apply (npick_local Ht). intros j Hj. unfold setk. destruct (Nat.eqb_spec j k); [lia|reflexivity]. }
    assert (Hatom : forall m, expand (tr k) = [m] -> (forall o, npick g o k = m) ->
       PE (wjoint (S k)) (fun o => F (picks o (k :: L1))) = EXL (k :: L1) F).
    { intros m Em Hm. cbn [EXL]. rewrite Em. unfold Sum; simpl. rewrite Rplus_0_r. pose proof (P_total HkN Ak) as P1. rewrite Em in P1. unfold Sum in P1; simpl in P1. rewrite Rplus_0_r in P1. rewrite P1, Rmult_1_l.
      rewrite <- Hskip; auto using cresp_shift.
      - apply PE_ext. intro o. now rewrite picks_cons, Hm.
      - now apply dis_drop in HD'. }
    destruct (ndof g k) as [e|e| | |l|a b] eqn:E.
    - apply (Hatom [AL e]); [rewrite (unf_eq Ht); unfold unf_step; now rewrite E|].
      intro o. unfold npick. rewrite (npick_eq Ht). unfold npick_step. now rewrite E.
    - apply (Hatom [AO e]); [rewrite (unf_eq Ht); unfold unf_step; now rewrite E|].
      intro o. unfold npick. rewrite (npick_eq Ht). unfold npick_step. now rewrite E.
    - apply (Hatom []); [rewrite (unf_eq Ht); unfold unf_step; now rewrite E|].
      intro o. unfold npick. rewrite (npick_eq Ht). unfold npick_step. now rewrite E.
    - apply (Hatom [AZ]); [rewrite (unf_eq Ht); unfold unf_step; now rewrite E|].
      intro o. unfold npick. rewrite (npick_eq Ht). unfold npick_step. now rewrite E.
    - unfold wjoint. rewrite pind_S.
      transitivity (PE (wjoint k) (fun o => ksum R_csr (mapi (fun i c => W k i * F (picks o (c :: L1))) 0 l))).
      { apply PE_ext. intro o. rewrite (draw_sum k _ E). f_equal. apply mapi_ext_nth. intros i c Hc. simpl. f_equal.
        change (fun j => if (j =? k)%nat then i else o j) with (setk o k i).
        rewrite !picks_cons, Hset. f_equal. f_equal.
        unfold npick at 1. rewrite (npick_eq Ht). unfold npick_step at 1. rewrite E.
        fold (npick g (setk o k i)). unfold setk at 2. rewrite Nat.eqb_refl.
        rewrite (nth_error_nth _ _ _ Hc). apply Hst. apply (topo_sum Ht k E), (nth_error_In _ _ Hc). }
      rewrite (PE_ksum (wjoint k) (fun i c o => W k i * F (picks o (c :: L1)))).
      assert (Ek : tr k = TSum (map tr l)).
      { rewrite (unf_eq Ht). unfold unf_step. now rewrite E. }
      cbn [EXL]. replace (expand (tr k)) with (flat_map expand (map tr l)) by now rewrite Ek.
      rewrite flat_map_concat_map, map_map, RSum_concat, RSum_map.
      match goal with |- _ = Sum R_csr ?f l => change (Sum R_csr f l) with (ksum R_csr (map f l)) end.
      rewrite <- (mapi_const (fun x => RSum (fun m => P_ k m * EXL L1 (fun x0 => F (m ++ x0))) (expand (tr x))) l 0).
      f_equal. apply mapi_ext_nth. intros i c Hc. simpl. rewrite PE_scal.
      assert (Hck : (c < k)%nat) by (apply (topo_sum Ht k E), (nth_error_In _ _ Hc)).
      destruct (@P_sum k l i c HkN Ak E Hc) as [[Ac HP]|[-> HP]].
      2:{ rewrite Rmult_0_l. symmetry. apply (Sum_zero R_csr). intros m Hm. rewrite (HP m Hm). apply Rmult_0_l. }
      rewrite (IH (c :: L1) F); auto.
      + cbn [EXL]. rewrite <- RSum_scal. apply (Sum_ext_in R_csr). intros m Hm. rewrite <- (HP m Hm). ring.
      + intros m Hm. apply HD'. rewrite Ek. cbn [expand]. apply in_flat_map. exists (tr c).
        split; [apply in_map, (nth_error_In _ _ Hc)|exact Hm].
    - destruct (topo_mul Ht k E) as [Ha Hb]. destruct (P_mul HkN Ak E) as (Aa & Ab & HP).
      assert (Ek : tr k = TMul (tr a) (tr b)).
      { rewrite (unf_eq Ht). unfold unf_step. now rewrite E. }
      transitivity (EXL (a :: b :: L1) F).
      + rewrite <- Hskip; auto.
        * apply PE_ext. intro o. rewrite !picks_cons. unfold npick at 1. rewrite (npick_eq Ht). unfold npick_step. rewrite E.
          fold (npick g o). now rewrite <- app_assoc.
        * intros m Hm m' Hm'. rewrite <- app_assoc. apply HD'. rewrite Ek. cbn [expand]. apply in_prods. eauto.
      + cbn [EXL]. replace (expand (tr k)) with (prods (expand (tr a)) (expand (tr b))) by now rewrite Ek. unfold prods. rewrite RSum_flat_map.
        apply (Sum_ext_in R_csr). intros x Hx. rewrite RSum_map, <- RSum_scal. apply (Sum_ext_in R_csr). intros y Hy.
        rewrite (HP x y Hx Hy). rewrite Rmult_assoc. f_equal. f_equal. apply EXL_ext. intro. now rewrite app_assoc.
  Qed.

  (** one draw per node: the selected derivation has law P *)
  Theorem wjoint_law r F : (r < N)%nat -> Live r -> cresp F -> multilinear (tr r) ->
    PE (wjoint (S r)) (fun o => F (npick g o r)) = RSum (fun m => P r m * F m) (expand (tr r)).
  Proof.
    intros HN Ar HF Hm. rewrite (@PE_ext _ _ _ (fun o => F (picks o [r]))).
    - rewrite joint_forest; auto.
      + cbn [EXL]. apply (Sum_ext R_csr). intro m. now rewrite app_nil_r.
    - intro o. unfold picks. simpl. now rewrite app_nil_r.
  Qed.

  Lemma wjoint16_range n : psupp (fun o => forall j, in_range_at g (nj o j)) (wjoint16 n).
  Proof.
    assert (H : psupp (fun o : nat -> nat -> nat => forall k (j : nat), match ndof g k with NSum l => (o k j < length l)%nat | _ => True end) (wjoint16 n)).
    { apply (@psupp_pind _ (fun k v => forall j : nat, match ndof g k with NSum l => (v j < length l)%nat | _ => True end)).
      - intros k j. destruct (ndof g k) eqn:E; auto. destruct (topo_sum Ht k E) as [H _]. destruct l; [congruence|simpl; lia].
      - intro k. apply (@psupp_pind _ (fun _ i => match ndof g k with NSum l => (i < length l)%nat | _ => True end)).
        + intro j. destruct (ndof g k) eqn:E; auto. destruct (topo_sum Ht k E) as [H _]. destruct l; [congruence|simpl; lia].
        + intros _. unfold wdraw, psupp. destruct (ndof g k) eqn:E; try (constructor; [exact I|constructor]).
          apply Forall_forall. intros x Hx.
          assert (G : forall (l' : list nat) i, In x (mapi (fun i _ => (W k i, i)) i l') -> (i <= snd x < i + length l')%nat).
          { induction l' as [|c l' IH']; intros i Hi; [destruct Hi|]. destruct Hi as [<-|Hi]; simpl; [lia|].
            apply IH' in Hi. lia. }
          apply G in Hx. simpl in Hx. lia. }
    eapply Forall_impl; [|exact H]. intros o Hx j k l E. specialize (Hx k j). rewrite E in Hx. exact Hx.
  Qed.

  (** the 16 unpacked samples are independent and each has law P *)
  Theorem wmulti_law r (F : nat -> (list nat -> Z) -> R) : (r < N)%nat -> Live r -> multilinear (tr r) ->
    (forall j u v, (forall e, u e = v e) -> F j u = F j v) ->
    PE (wjoint16 (S r)) (fun o => RProd (fun j => F j (fun e => to_discrete (dgrad g Z_csr (multi_send o) r e) j)) (seq 0 16)) =
    RProd (fun j => RSum (fun m => P r m * F j (fun e => zcount e m)) (expand (tr r))) (seq 0 16).
  Proof.
    intros HN Ar Hm HF.
    rewrite (PE_ext_in _ (fun o => RProd (fun j => F j (fun e => zcount e (npick g (fun k => o k j) r))) (seq 0 16)) (wjoint16_range (S r))).
    - unfold wjoint16. rewrite (pind_exchange wdraw 0%nat 16 (S r) (fun j u => F j (fun e => zcount e (npick g u r)))).
      + apply (Prod_ext R_csr). intro j. apply (@wjoint_law r (fun m => F j (fun e => zcount e m))); auto.
        intros a b E. apply HF. exact E.
      + intros j u v E. apply HF. intro e. f_equal. apply (npick_local Ht). auto.
    - intros o Ho. apply (Prod_ext_in R_csr). intros j Hj. apply in_seq in Hj. apply HF. intro e.
      apply (@multi_unpack g Ht o Ho r e j Hm). lia.
  Qed.
End WLaw.

(** ** Draws from the softmax *)
Section Law.
  Variable g : dag.
  Hypothesis Ht : topo g.
  Variables (z : R) (phi : list nat -> R).
  Local Notation tr := (unf g).
  Local Notation P_ v := (pr phi z (unf g v)).

  (** sample.py:18-28 and 173-183: torch.multinomial(softmax(logits)) at every node *)
  Definition joint (n : nat) : pmf (nat -> nat) := wjoint g (soft_at g z phi) n.
  (** 16 draws per node (sample.py:175-177: torch.multinomial(..., 16, True)) *)
  Definition joint16 (n : nat) : pmf (nat -> nat -> nat) := wjoint16 g (soft_at g z phi) n.

  Lemma soft_total k l : ndof g k = NSum l -> ksum R_csr (mapi (fun i _ => soft_at g z phi k i) 0 l) = 1.
  Proof.
    intro E. rewrite <- (@w_soft_normal z phi [] (map tr l)).
    - rewrite mapi_map_in. f_equal. apply mapi_ext_in. intros i c _. unfold soft_at, w_soft. rewrite E. cbv zeta.
      rewrite map_map, (map_ext _ _ (fwd_unf Ht (log_ops z) phi)). reflexivity.
    - destruct (topo_sum Ht k E) as [H _]. destruct l; simpl; congruence.
  Qed.
  Lemma pr_one (t : term) m : expand t = [m] -> pr phi z t m = 1.
  Proof.
    intro E. unfold pr, ZZ. rewrite E. unfold Sum; simpl. rewrite Rplus_0_r. apply Rinv_r, Rgt_not_eq, exp_pos.
  Qed.
  Lemma pr_mul a b x y : twf a -> twf b -> pr phi z (TMul a b) (x ++ y) = pr phi z a x * pr phi z b y.
  Proof.
    intros Wa Wb. unfold pr, ZZ. cbn [expand].
    rewrite (Sum_prods R_csr) by (intros; rewrite score_app; apply exp_plus).
    rewrite score_app, exp_plus. cbn [kmul R_csr].
    pose proof (ZZ_pos phi z Wa) as Ha. pose proof (ZZ_pos phi z Wb) as Hb. unfold ZZ in Ha, Hb.
    change (K R_csr) with R in *. field. split; lra.
  Qed.
  Lemma soft_pr k l i c m : ndof g k = NSum l -> nth_error l i = Some c -> soft_at g z phi k i * P_ c m = P_ k m.
  Proof.
    intros E Hc. assert (W := unf_wf Ht k). assert (Ek : tr k = TSum (map tr l)).
    { rewrite (unf_eq Ht). unfold unf_step. now rewrite E. }
    replace (soft_at g z phi k i) with (w_soft z phi [] (map tr l) i).
    - rewrite (@w_soft_nth z phi [] (map tr l) i (tr c)); [|now apply map_nth_error|apply (unf_wf Ht)|now rewrite <- Ek].
      rewrite <- Ek. unfold pr. pose proof (ZZ_pos phi z W). pose proof (ZZ_pos phi z (unf_wf Ht c)). field. split; lra.
    - unfold soft_at, w_soft. rewrite E. cbv zeta. rewrite map_map, (map_ext _ _ (fwd_unf Ht (log_ops z) phi)). reflexivity.
  Qed.

  Lemma pr_nmul k a b x y : ndof g k = NMul a b -> P_ k (x ++ y) = P_ a x * P_ b y.
  Proof.
    intro E. assert (Ek : tr k = TMul (tr a) (tr b)) by (rewrite (unf_eq Ht); unfold unf_step; now rewrite E).
    rewrite Ek. apply pr_mul; apply (unf_wf Ht).
  Qed.
  Lemma joint16_range n : psupp (fun o => forall j, in_range_at g (nj o j)) (joint16 n).
  Proof. apply (wjoint16_range Ht). Qed.
  (** one draw per node: the selected derivation has the Gibbs law *)
  Theorem joint_law r F : cresp F -> multilinear (tr r) ->
    PE (joint (S r)) (fun o => F (npick g o r)) = mean phi z (tr r) F.
  Proof.
    intros HF Hm. apply (@wjoint_law g Ht (soft_at g z phi) (fun v => P_ v) (S r) (fun _ => True)); auto.
    - intros k l _ E. now apply soft_total.
    - intros k _ _. apply pr_sum, (unf_wf Ht).
    - intros k a b _ _ E. repeat split. intros x y _ _. now apply pr_nmul.
    - intros k l i c _ _ E Hc. left. split; [exact I|]. intros m _. now apply (@soft_pr k l i c m).
  Qed.
  (** the 16 unpacked samples are independent and each has the Gibbs law *)
  Theorem multi_law r (F : nat -> (list nat -> Z) -> R) : multilinear (tr r) ->
    (forall j u v, (forall e, u e = v e) -> F j u = F j v) ->
    PE (joint16 (S r)) (fun o => RProd (fun j => F j (fun e => to_discrete (dgrad g Z_csr (multi_send o) r e) j)) (seq 0 16)) =
    RProd (fun j => mean phi z (tr r) (fun m => F j (fun e => zcount e m))) (seq 0 16).
  Proof.
    intros Hm HF. apply (@wmulti_law g Ht (soft_at g z phi) (fun v => P_ v) (S r) (fun _ => True)); auto.
    - intros k l _ E. now apply soft_total.
    - intros k _ _. apply pr_sum, (unf_wf Ht).
    - intros k a b _ _ E. repeat split. intros x y _ _. now apply pr_nmul.
    - intros k l i c _ _ E Hc. left. split; [exact I|]. intros m _. now apply (@soft_pr k l i c m).
  Qed.
End Law.
