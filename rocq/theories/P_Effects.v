(** * C75: queries leave the caller's tensors alone, except for the flag [requires_grad].

    A small static analysis, proved sound for every run (any sizes, any branch, any number of
    rounds, left by an exception anywhere), is evaluated on the transcripts of Effects.v. *)
From Coq Require Import List Lia Bool Arith String.
From Verif Require Import Effects.
Import ListNotations.
Set Implicit Arguments.
Local Open Scope string_scope.

(** ** Specification *)
Section Spec.
  Variable C : Type.
  (** every tensor lies in memory that exists *)
  Definition sound_state (s : st C) : Prop := forall i a, nth_error (objs s) i = Some a -> storage a < List.length (mem s).
  (** nothing that existed before has other contents afterwards *)
  Definition same_contents (s s' : st C) : Prop := forall k v, nth_error (mem s) k = Some v -> nth_error (mem s') k = Some v.
  (** every tensor that existed before is still there, in its memory, and carries the flag iff it
      carried it before or M holds *)
  Definition marks_exactly (M : nat -> Prop) (s s' : st C) : Prop :=
    forall i a, nth_error (objs s) i = Some a ->
      exists a', nth_error (objs s') i = Some a' /\ storage a' = storage a /\ (rgrad a' = true <-> rgrad a = true \/ M i).
  (** the same with some of M only, as after an exception *)
  Definition marks_within (M : nat -> Prop) (s s' : st C) : Prop :=
    forall i a, nth_error (objs s) i = Some a ->
      exists a', nth_error (objs s') i = Some a' /\ storage a' = storage a /\ (rgrad a = true -> rgrad a' = true) /\ (rgrad a' = true -> rgrad a = true \/ M i).
  (** x holds new tensors only, in memory that did not exist before *)
  Definition fresh_in (x : string) (s s' : st C) : Prop :=
    forall i, In i (env s' x) -> List.length (objs s) <= i /\ exists a, nth_error (objs s') i = Some a /\ List.length (mem s) <= storage a.
End Spec.

(** ** Analysis *)
Inductive av := Own | Shared | Caller (ps : list string).
(** analysis: comparison of abstract values *)
Definition av_eqb (a b : av) : bool :=
  match a, b with
  | Own, Own | Shared, Shared => true
  | Caller p, Caller q => if list_eq_dec string_dec p q then true else false
  | _, _ => false
  end.
(** analysis: abstract values of the variables *)
Definition aenv := list (string * av).
(** analysis: value of a variable *)
Fixpoint look (a : aenv) (x : string) : option av := match a with [] => None | (y, v) :: a' => if String.eqb x y then Some v else look a' x end.
(** analysis: a variable is forgotten *)
Fixpoint drop (a : aenv) (x : string) : aenv := match a with [] => [] | (y, v) :: a' => if String.eqb x y then drop a' x else (y, v) :: drop a' x end.
(** analysis: assignment to a variable *)
Definition bindv (a : aenv) (x : string) (v : option av) : aenv := match v with Some w => (x, w) :: drop a x | None => drop a x end.
(** analysis: what both branches agree on *)
Definition join (a b : aenv) : aenv :=
  filter (fun xv => match look a (fst xv), look b (fst xv) with Some u, Some w => av_eqb u w && av_eqb (snd xv) u | _, _ => false end) a.
(** analysis: one state is covered by another *)
Definition below (a b : aenv) : bool := forallb (fun xv => match look b (fst xv) with Some w => av_eqb (snd xv) w | None => false end) a.
(** analysis: value of a list built from two lists *)
Definition catv (u w : option av) : option av :=
  match u, w with
  | Some Own, Some Own => Some Own
  | Some (Caller p), Some (Caller q) => Some (Caller (p ++ q))
  | Some Own, Some Shared | Some Shared, Some Own | Some Shared, Some Shared => Some Shared
  | _, _ => None
  end.
(** analysis: variables in both lists *)
Definition inter (p q : list string) : list string := filter (fun x => existsb (String.eqb x) q) p.
(** analysis: state after a command, tensors that may and that must have been marked *)
Record out := Out { o_env : aenv; o_may : list string; o_must : list string }.
(** analysis: a command that marks nothing *)
Definition quiet (a : aenv) : option out := Some (Out a [] []).
(** analysis of one command of Effects.v *)
Definition a_cmd (c : cmd) (a : aenv) : option out :=
  match c with
  | Nil x | New x => quiet (bindv a x (Some Own))
  | Push x => quiet (bindv a x (match look a x with Some Own => Some Own | Some Shared => Some Shared | _ => None end))
  | View x y => quiet (bindv a x (match look a y with Some Own => Some Own | _ => Some Shared end))
  | Like x y => quiet (bindv a x (match look a y with Some Own => Some Own | Some Shared => Some Shared | _ => None end))
  | Let x y => quiet (bindv a x (look a y))
  | Cat x y z => quiet (bindv a x (catv (look a y) (look a z)))
  | Write x => match look a x with Some Own => quiet a | _ => None end
  | Flag x => match look a x with Some (Own | Shared) => quiet a | Some (Caller ps) => Some (Out a ps ps) | None => None end
  | MayFlag x => match look a x with Some (Own | Shared) => quiet a | _ => None end
  end.
(** analysis of a program of Effects.v *)
Fixpoint ana (p : prog) (a : aenv) : option out :=
  match p with
  | Do c => a_cmd c a
  | Skip | Raise => quiet a
  | Seq p q => match ana p a with None => None | Some o1 =>
      match ana q (o_env o1) with None => None | Some o2 => Some (Out (o_env o2) (o_may o1 ++ o_may o2) (o_must o1 ++ o_must o2)) end end
  | Alt p q => match ana p a, ana q a with
      | Some o1, Some o2 => Some (Out (join (o_env o1) (o_env o2)) (o_may o1 ++ o_may o2) (inter (o_must o1) (o_must o2))) | _, _ => None end
  | Star p => match ana p a with None => None | Some o1 =>
      let i := join a (o_env o1) in
      match ana p i with None => None | Some o2 => if below i (o_env o2) then Some (Out i (o_may o2) []) else None end end
  end.

Lemma av_eqb_eq a b : av_eqb a b = true -> a = b.
Proof. destruct a, b; simpl; try easy. destruct list_eq_dec; congruence. Qed.
Lemma look_drop a x y : look (drop a x) y = if String.eqb y x then None else look a y.
Proof.
  induction a as [|[z v] a IH]; simpl; [now destruct String.eqb|].
  destruct (String.eqb_spec x z) as [->|N]; simpl; rewrite IH.
  - destruct (String.eqb_spec y z); easy.
  - destruct (String.eqb_spec y z) as [->|]; [|easy]. destruct (String.eqb_spec z x); congruence.
Qed.
Lemma look_bindv a x v y : look (bindv a x v) y = if String.eqb y x then v else look a y.
Proof. destruct v; simpl; rewrite look_drop; destruct (String.eqb y x); easy. Qed.
Lemma look_in a x v : look a x = Some v -> In (x, v) a.
Proof. induction a as [|[y w] a IH]; simpl; [easy|]. destruct (String.eqb_spec x y) as [->|]; [intros [= ->]; now left|right; auto]. Qed.
Lemma look_join a b x v : look (join a b) x = Some v -> look a x = Some v /\ look b x = Some v.
Proof.
  intros H%look_in. unfold join in H. apply filter_In in H. destruct H as [_ H]. simpl in H.
  destruct (look a x) as [u|]; [|easy]. destruct (look b x) as [w|]; [|easy].
  apply andb_true_iff in H. destruct H as [H1%av_eqb_eq H2%av_eqb_eq]. subst. easy.
Qed.
Lemma below_look a b x v : below a b = true -> look a x = Some v -> look b x = Some v.
Proof.
  unfold below. rewrite forallb_forall. intros H Hl%look_in. specialize (H _ Hl). simpl in H.
  destruct (look b x); [|easy]. apply av_eqb_eq in H. congruence.
Qed.
Lemma inter_in p q x : In x (inter p q) -> In x p /\ In x q.
Proof.
  unfold inter. rewrite filter_In, existsb_exists. intros [H1 [y [H2 H3]]].
  apply String.eqb_eq in H3. subst. easy.
Qed.

Section Sound.
  Variable C : Type.
  Variable s0 : st C.
  Variable par : string -> nat.
  Hypothesis W : sound_state s0.
  Let nO := List.length (objs s0).
  Let nM := List.length (mem s0).
  (** what is known of the values of the variables *)
  Definition vok (s : st C) (v : av) (l : list nat) : Prop :=
    match v with
    | Own => forall i, In i l -> nO <= i /\ exists a, nth_error (objs s) i = Some a /\ nM <= storage a
    | Shared => forall i, In i l -> nO <= i
    | Caller ps => l = map par ps
    end.
  (** proof device: the state agrees with the analysis *)
  Definition G (a : aenv) (s : st C) : Prop := forall x v, look a x = Some v -> vok s v (env s x).
  (** proof device: what the run has kept and marked *)
  Definition R (may must : list string) (s : st C) : Prop :=
    nO <= List.length (objs s) /\ nM <= List.length (mem s) /\ same_contents s0 s /\
    forall i a, nth_error (objs s0) i = Some a -> exists a', nth_error (objs s) i = Some a' /\ storage a' = storage a /\
      (rgrad a = true -> rgrad a' = true) /\ (rgrad a' = true -> rgrad a = true \/ In i (map par may)) /\ (In i (map par must) -> rgrad a' = true).

  (** new objects and memory at the end of the lists, other objects keep their memory *)
  Definition grows (s s' : st C) : Prop := forall i a, nth_error (objs s) i = Some a -> exists a', nth_error (objs s') i = Some a' /\ storage a' = storage a.
  Lemma vok_grows s s' v l : grows s s' -> vok s v l -> vok s' v l.
  Proof.
    intros Hg. destruct v; simpl; auto. intros H i Hi. destruct (H i Hi) as [H1 [a [H2 H3]]].
    destruct (Hg _ _ H2) as [a' [H4 H5]]. split; [easy|]. exists a'. split; [easy|]. lia.
  Qed.
  Lemma G_upd a s s' x v l : G a s -> grows s s' -> env s' = upd (env s) x l -> (forall w, v = Some w -> vok s' w l) -> G (bindv a x v) s'.
  Proof.
    intros HG Hg He Hv y w. rewrite look_bindv, He. unfold upd. destruct (String.eqb y x); intros H; [auto|].
    eapply vok_grows; [exact Hg|]. now apply HG.
  Qed.
  Lemma nth_app_old {A} (l l' : list A) i a : nth_error l i = Some a -> nth_error (l ++ l') i = Some a.
  Proof. intros H. rewrite nth_error_app1; [easy|]. apply nth_error_Some. congruence. Qed.
  Lemma nth_app_new {A} (l : list A) a : nth_error (l ++ [a]) (List.length l) = Some a.
  Proof. rewrite nth_error_app2, Nat.sub_diag; easy. Qed.
  Lemma grows_app o m e b m' e' : grows (St o m e) (@St C (o ++ [b]) m' e').
  Proof. intros i a H. exists a. split; [|easy]. now apply nth_app_old. Qed.
  Lemma R_app may must o m e b m' e' : R may must (St o m e) -> same_contents (St o m e) (St o m' e') -> List.length m <= List.length m' ->
    R may must (@St C (o ++ [b]) m' e').
  Proof.
    intros [H1 [H2 [H3 H4]]] Hs Hl. simpl in *. split; [simpl; rewrite app_length; simpl; lia|]. split; [simpl; lia|]. split.
    - intros k v Hk. apply Hs. simpl. now apply H3.
    - intros i a Hi. destruct (H4 i a Hi) as [a' [H5 H6]]. exists a'. split; [|easy]. now apply nth_app_old.
  Qed.
  Lemma R_env may must o m e e' : R may must (St o m e) -> R may must (@St C o m e').
  Proof. easy. Qed.
  Lemma same_app o m e v o' e' : same_contents (St o m e) (@St C o' (m ++ [v]) e').
  Proof. intros k w Hk. simpl in *. now apply nth_app_old. Qed.
  Lemma R_weaken may must may' must' s : R may must s -> incl may may' -> incl must' must -> R may' must' s.
  Proof.
    intros [H1 [H2 [H3 H4]]] Hi1 Hi2. split; [easy|]. split; [easy|]. split; [easy|]. intros i a Hi.
    destruct (H4 i a Hi) as [a' [H5 [H6 [H7 [H8 H9]]]]]. exists a'. split; [easy|]. split; [easy|]. split; [easy|]. split.
    - intros Hf. destruct (H8 Hf) as [|Hm]; [now left|right]. revert Hm. apply incl_map, Hi1.
    - intros Hm. apply H9. revert Hm. apply incl_map, Hi2.
  Qed.
  Lemma flags_grows P o o' m e m' e' : flags_only P o o' -> grows (St o m e) (@St C o' m' e').
  Proof. intros [_ H] i a Hi. destruct (H i a Hi) as [f [H1 _]]. now exists (Obj (storage a) f). Qed.
  (** flags put on objects the caller does not have *)
  Lemma R_flags may must P o o' m e m' e' : R may must (St o m e) -> flags_only P o o' ->
    (forall i a, i < nO -> nth_error o i = Some a -> P i a -> storage a < nM -> False) ->
    (forall k v, k < nM -> nth_error m k = Some v -> nth_error m' k = Some v) -> List.length m' = List.length m ->
    R may must (@St C o' m' e').
  Proof.
    intros [H1 [H2 [H3 H4]]] [Hl Hf] HP Hm Hlm. simpl in *. split; [simpl; lia|]. split; [simpl; lia|]. split.
    - intros k v Hk. simpl. apply Hm; [apply nth_error_Some; congruence|]. now apply (H3 k v).
    - intros i a Hi. destruct (H4 i a Hi) as [a' [H5 [H6 [H7 [H8 H9]]]]]. simpl in *.
      destruct (Hf i a' H5) as [f [Hf1 [Hf2 Hf3]]]. exists (Obj (storage a') f). simpl. split; [easy|]. split; [easy|].
      assert (f = rgrad a') as ->.
      { apply Hf3. intros HPi. apply (HP i a'); auto; [apply nth_error_Some; unfold nO; congruence|]. rewrite H6. apply (W i Hi). }
      tauto.
  Qed.

  Lemma step_sound c s s' : step c s s' -> forall a o may must, a_cmd c a = Some o -> G a s -> R may must s ->
    G (o_env o) s' /\ R (may ++ o_may o) (must ++ o_must o) s'.
  Proof.
    intros Hstep a out may must Ha HG HR.
    assert (Hq : forall e, quiet e = Some out -> G e s' -> R may must s' -> G (o_env out) s' /\ R (may ++ o_may out) (must ++ o_must out) s').
    { intros e [= <-] H1 H2. simpl. now rewrite !app_nil_r. }
    assert (HO : nO <= List.length (objs s)) by apply HR. assert (HM : nM <= List.length (mem s)) by apply HR.
    destruct Hstep; simpl in Ha.
    - apply (Hq _ Ha); [|exact HR]. apply (@G_upd _ _ _ x (Some Own) [] HG); [intros i b Hb; now exists b|reflexivity|]. intros w [= <-] i [].
    - apply (Hq _ Ha); [|eapply R_app; [exact HR|apply same_app|rewrite app_length; lia]].
      apply (@G_upd _ _ _ x (Some Own) [List.length o] HG); [apply grows_app|reflexivity|]. intros w [= <-] i [<-|[]]. split; [exact HO|].
      eexists. split; [simpl; apply nth_app_new|exact HM].
    - apply (Hq _ Ha); [|eapply R_app; [exact HR|apply same_app|rewrite app_length; lia]].
      eapply (@G_upd _ _ _ x _ (e x ++ [List.length o]) HG); [apply grows_app|reflexivity|]. intros w Hw.
      assert (Hn : List.length (objs s0) <= List.length o) by exact HO.
      destruct (look a x) as [[| |]|] eqn:E; try easy; injection Hw as <-; specialize (HG x _ E).
      + intros i Hi. apply in_app_or in Hi. destruct Hi as [Hi|[<-|[]]].
        * destruct (HG i Hi) as [H1 [b [H2 H3]]]. split; [easy|]. exists b. split; [|easy]. now apply nth_app_old.
        * split; [exact HO|]. eexists. split; [simpl; apply nth_app_new|exact HM].
      + intros i Hi. apply in_app_or in Hi. destruct Hi as [Hi|[<-|[]]]; [now apply HG|exact HO].
    - apply (Hq _ Ha); [|eapply R_app; [exact HR|intros k v Hk; exact Hk|lia]].
      eapply (@G_upd _ _ _ x _ [List.length o] HG); [apply grows_app|reflexivity|]. intros w Hw.
      destruct (look a y) as [[| |]|] eqn:E; injection Hw as <-; try (intros j [<-|[]]; exact HO).
      intros j [<-|[]]. split; [exact HO|]. eexists. split; [simpl; apply nth_app_new|].
      destruct (HG y _ E i H) as [_ [b [H2 H3]]]. simpl in *. rewrite H0 in H2. injection H2 as <-. exact H3.
    - apply (Hq _ Ha); [|exact HR]. eapply (@G_upd _ _ _ x _ [i] HG); [intros j b Hb; now exists b|reflexivity|]. intros w Hw.
      destruct (look a y) as [[| |]|] eqn:E; try easy; injection Hw as <-; intros j [<-|[]]; now apply (HG y _ E).
    - apply (Hq _ Ha); [|eapply R_app; [exact HR|apply same_app|rewrite app_length; lia]].
      eapply (@G_upd _ _ _ x _ [List.length o] HG); [apply grows_app|reflexivity|]. intros w Hw.
      destruct (look a y) as [[| |]|] eqn:E; try easy; injection Hw as <-; intros j [<-|[]]; [|exact HO].
      split; [exact HO|]. eexists. split; [simpl; apply nth_app_new|exact HM].
    - apply (Hq _ Ha); [|exact HR]. apply (@G_upd _ _ _ x _ (e y) HG); [intros j b Hb; now exists b|reflexivity|]. intros w Hw. now apply (HG y).
    - apply (Hq _ Ha); [|exact HR]. apply (@G_upd _ _ _ x _ (e y ++ e z) HG); [intros j b Hb; now exists b|reflexivity|]. intros w Hw.
      destruct (look a y) as [u|] eqn:E1; [|easy]. destruct (look a z) as [v|] eqn:E2; [|now destruct u].
      pose proof (HG y _ E1) as H1. pose proof (HG z _ E2) as H2. simpl in H1, H2.
      destruct u, v; try easy; injection Hw as <-; simpl in *.
      + intros j Hj. apply in_app_or in Hj. destruct Hj; [now apply H1|now apply H2].
      + intros j Hj. apply in_app_or in Hj. destruct Hj; [now apply H1|now apply H2].
      + intros j Hj. apply in_app_or in Hj. destruct Hj; [now apply H1|now apply H2].
      + intros j Hj. apply in_app_or in Hj. destruct Hj; [now apply H1|now apply H2].
      + now rewrite H1, H2, map_app.
    - destruct (look a x) as [[| |]|] eqn:E; try easy. destruct (HG x _ E i H) as [H4 [b [H5 H6]]]. simpl in *. rewrite H0 in H5. injection H5 as <-.
      apply (Hq _ Ha).
      + intros y w Hy. eapply vok_grows; [eapply flags_grows; exact H3|]. apply (HG y w Hy).
      + eapply R_flags; [exact HR|exact H3| | |exact H1].
        * intros j c _ _ Hs Hlt. simpl in Hs. lia.
        * intros k v Hk Hv. rewrite H2; [exact Hv|]. lia.
    - destruct (look a x) as [[| |ps]|] eqn:E; try easy.
      + apply (Hq _ Ha); [intros y w Hy; eapply vok_grows; [eapply flags_grows; exact H|]; apply (HG y w Hy)|].
        eapply R_flags; [exact HR|exact H| |easy|easy]. intros j b Hj _ Hin _. pose proof (HG x _ E j Hin). simpl in *. lia.
      + apply (Hq _ Ha); [intros y w Hy; eapply vok_grows; [eapply flags_grows; exact H|]; apply (HG y w Hy)|].
        eapply R_flags; [exact HR|exact H| |easy|easy]. intros j b Hj _ Hin _. pose proof (HG x _ E j Hin). simpl in *. lia.
      + injection Ha as <-. simpl. pose proof (HG x _ E) as Hx. simpl in Hx.
        split; [intros y w Hy; eapply vok_grows; [eapply flags_grows; exact H|]; apply (HG y w Hy)|].
        destruct HR as [R1 [R2 [R3 R4]]]. destruct H as [Hl Hf]. simpl in *. split; [simpl; lia|]. split; [easy|]. split; [exact R3|].
        intros i b Hi. destruct (R4 i b Hi) as [b' [H5 [H6 [H7 [H8 H9]]]]]. destruct (Hf i b' H5) as [f [Hf1 [Hf2 Hf3]]].
        exists (Obj (storage b') f). simpl. split; [easy|]. split; [easy|]. split; [auto|]. rewrite !map_app, !in_app_iff. split.
        * intros ->. destruct (in_dec Nat.eq_dec i (e x)) as [Hin|Hn]; [right; right; now rewrite <- Hx|].
          destruct H8 as [|]; [now rewrite <- (Hf3 Hn)|now left|right; now left].
        * intros [Hm|Hm]; [auto|]. apply (H0 i (Obj (storage b') f)); [now rewrite Hx|exact Hf1].
    - destruct (look a x) as [[| |ps]|] eqn:E; try easy.
      + apply (Hq _ Ha); [intros y w Hy; eapply vok_grows; [eapply flags_grows; exact H|]; apply (HG y w Hy)|].
        eapply R_flags; [exact HR|exact H| |easy|easy]. intros j b Hj _ Hin _. pose proof (HG x _ E j Hin). simpl in *. lia.
      + apply (Hq _ Ha); [intros y w Hy; eapply vok_grows; [eapply flags_grows; exact H|]; apply (HG y w Hy)|].
        eapply R_flags; [exact HR|exact H| |easy|easy]. intros j b Hj _ Hin _. pose proof (HG x _ E j Hin). simpl in *. lia.
  Qed.

  (** [exec], read off the analysis *)
  Definition post (d : bool) (o : out) (may must : list string) (s : st C) : Prop :=
    if d then G (o_env o) s /\ R (may ++ o_may o) (must ++ o_must o) s else R (may ++ o_may o) must s.
  Lemma G_join_l a b s : G a s -> G (join a b) s.
  Proof. intros H x v Hx%look_join. now apply H. Qed.
  Lemma G_join_r a b s : G b s -> G (join a b) s.
  Proof. intros H x v Hx%look_join. now apply H. Qed.
  Lemma G_below a b s : below a b = true -> G b s -> G a s.
  Proof. intros Hb H x v Hx. apply H. eapply below_look; eauto. Qed.

  Lemma star_sound p i o2 : (forall s d s' may must, exec p s d s' -> G i s -> R may must s -> post d o2 may must s') -> below i (o_env o2) = true ->
    forall q s d s', exec q s d s' -> q = Star p -> forall may must, incl (o_may o2) may -> G i s -> R may must s -> (d = true -> G i s') /\ R may must s'.
  Proof.
    intros IH Hb q s d s' H. induction H; intros Hq may must Hi HG HR; try discriminate Hq; try (injection Hq as ->).
    - split; [easy|exact HR].
    - split; [auto|exact HR].
    - destruct (IH _ _ _ may must H HG HR) as [G1 R1]. apply IHexec2; auto; [eapply G_below; eauto|].
      eapply R_weaken; [exact R1| |apply incl_appl, incl_refl]. apply incl_app; [apply incl_refl|exact Hi].
    - split; [easy|]. specialize (IH _ _ _ may must H HG HR). simpl in IH. eapply R_weaken; [exact IH| |apply incl_refl]. apply incl_app; [apply incl_refl|exact Hi].
  Qed.

  Lemma ana_sound p : forall a o s d s' may must, ana p a = Some o -> exec p s d s' -> G a s -> R may must s -> post d o may must s'.
  Proof.
    assert (Hinc : forall A (l l' : list A), incl l (l ++ l')) by (intros; apply incl_appl, incl_refl).
    assert (Hraise : forall o may must s, R may must s -> post false o may must s).
    { intros o may must s HR. simpl. eapply R_weaken; [exact HR|apply Hinc|apply incl_refl]. }
    induction p as [c| | |p IHp q IHq|p IHp|p IHp q IHq]; intros a o s d s' may must Ha He HG HR; inversion He; subst; try (now apply Hraise).
    - eapply step_sound; eassumption.
    - injection Ha as <-. simpl. now rewrite !app_nil_r.
    - simpl in Ha. destruct (ana p a) as [o1|] eqn:E1; [|easy]. destruct (ana q (o_env o1)) as [o2|] eqn:E2; [|easy]. injection Ha as <-.
      match goal with X : exec p _ true _, Y : exec q _ _ _ |- _ => destruct (IHp _ _ _ _ _ may must E1 X HG HR) as [G1 R1]; pose proof (IHq _ _ _ _ _ _ _ E2 Y G1 R1) as HQ end. destruct d; simpl in *.
      + now rewrite !app_assoc.
      + rewrite app_assoc. eapply R_weaken; [exact HQ|apply incl_refl|apply Hinc].
    - simpl in Ha. destruct (ana p a) as [o1|] eqn:E1; [|easy]. destruct (ana q (o_env o1)) as [o2|] eqn:E2; [|easy]. injection Ha as <-.
      match goal with X : exec p _ false _ |- _ => pose proof (IHp _ _ _ _ _ may must E1 X HG HR) as HP end. simpl in *. rewrite app_assoc. eapply R_weaken; [exact HP|apply Hinc|apply incl_refl].
    - simpl in Ha. destruct (ana p a) as [o1|] eqn:E1; [|easy]. destruct (ana p (join a (o_env o1))) as [o2|] eqn:E2; [|easy].
      destruct below eqn:Eb; [|easy]. injection Ha as <-. simpl. split; [now apply G_join_l|]. rewrite app_nil_r. eapply R_weaken; [exact HR|apply Hinc|apply incl_refl].
    - simpl in Ha. destruct (ana p a) as [o1|] eqn:E1; [|easy]. destruct (ana p (join a (o_env o1))) as [o2|] eqn:E2; [|easy].
      destruct below eqn:Eb; [|easy]. injection Ha as <-.
      destruct (@star_sound p _ o2 (fun s d s' may must H => IHp _ _ s d s' may must E2 H) Eb _ _ _ _ He eq_refl (may ++ o_may o2)%list must) as [G1 R1];
        [apply incl_appr, incl_refl|now apply G_join_l|eapply R_weaken; [exact HR|apply Hinc|apply incl_refl]|].
      destruct d; simpl; [|exact R1]. rewrite app_nil_r. auto.
    - simpl in Ha. destruct (ana p a) as [o1|] eqn:E1; [|easy]. destruct (ana p (join a (o_env o1))) as [o2|] eqn:E2; [|easy].
      destruct below eqn:Eb; [|easy]. injection Ha as <-.
      destruct (@star_sound p _ o2 (fun s d s' may must H => IHp _ _ s d s' may must E2 H) Eb _ _ _ _ He eq_refl (may ++ o_may o2)%list must) as [G1 R1];
        [apply incl_appr, incl_refl|now apply G_join_l|eapply R_weaken; [exact HR|apply Hinc|apply incl_refl]|]. exact R1.
    - simpl in Ha. destruct (ana p a) as [o1|] eqn:E1; [|easy]. destruct (ana q a) as [o2|] eqn:E2; [|easy]. injection Ha as <-.
      match goal with X : exec p _ _ _ |- _ => pose proof (IHp _ _ _ _ _ may must E1 X HG HR) as HP end. destruct d; simpl in *.
      + destruct HP as [G1 R1]. split; [now apply G_join_l|]. eapply R_weaken; [exact R1| |].
        * rewrite app_assoc. apply Hinc.
        * apply incl_app; [apply Hinc|]. apply incl_appr. intros x Hx. now apply inter_in in Hx.
      + eapply R_weaken; [exact HP| |apply incl_refl]. rewrite app_assoc. apply Hinc.
    - simpl in Ha. destruct (ana p a) as [o1|] eqn:E1; [|easy]. destruct (ana q a) as [o2|] eqn:E2; [|easy]. injection Ha as <-.
      match goal with X : exec q _ _ _ |- _ => pose proof (IHq _ _ _ _ _ may must E2 X HG HR) as HP end. destruct d; simpl in *.
      + destruct HP as [G1 R1]. split; [now apply G_join_r|]. eapply R_weaken; [exact R1| |].
        * apply incl_app; [apply Hinc|]. apply incl_appr, incl_appr, incl_refl.
        * apply incl_app; [apply Hinc|]. apply incl_appr. intros x Hx. now apply inter_in in Hx.
      + eapply R_weaken; [exact HP| |apply incl_refl]. apply incl_app; [apply Hinc|]. apply incl_appr, incl_appr, incl_refl.
  Qed.
End Sound.

(** ** The theorems *)
(** the tensors of the caller (and the constant [bits] of sample.py:156) *)
Definition params : list string := ["phi"; "other"; "terms"; "rules"; "roots"; "lengths"; "bits"; "value";
  "transition"; "emission"; "init"; "observations"; "lengthlaw"; "a"; "b"; "grad_output"].
(** spec: every parameter names one tensor *)
Definition arguments (C : Type) (s : st C) : Prop := forall x, In x params -> exists i, env s x = [i].
(** which of them a query marks *)
Definition marked (c : klass) (q : query) : list string :=
  match c, q with
  | (KLin | KTree), (QCross | QKl) => ["phi"; "other"]
  | (KLin | KSemi | KTree), QCount => []
  | KSemi, (QCross | QKl) => []
  | (KLin | KSemi | KTree), _ => ["phi"]
  | KCfg, (QCross | QKl | QCount | QLogProb) => []
  | KCfg, _ => ["rules"]
  | _, _ => []
  end.
(** spec: tensor i is the value of one of the variables *)
Definition held (C : Type) (s : st C) (xs : list string) (i : nat) : Prop := exists x, In x xs /\ In i (env s x).

(** analysis: the state at the call *)
Definition a0 : aenv := map (fun x => (x, Caller [x])) params.
(** analysis: the program always raises *)
Fixpoint norun (p : prog) : bool :=
  match p with Raise => true | Seq p q => norun p || norun q | Alt p q => norun p && norun q | _ => false end.
Lemma norun_sound C p : norun p = true -> forall s s' : st C, ~ exec p s true s'.
Proof.
  induction p; simpl; intros H s s' He; try easy; inversion He; subst.
  - apply orb_true_iff in H. destruct H; [eapply IHp1|eapply IHp2]; eauto.
  - apply andb_true_iff in H. eapply IHp1; [apply H|]. eassumption.
  - apply andb_true_iff in H. eapply IHp2; [apply H|]. eassumption.
Qed.
(** analysis: inclusion of lists of variables *)
Definition subset (p q : list string) : bool := forallb (fun x => existsb (String.eqb x) q) p.
Lemma subset_incl p q : subset p q = true -> incl p q.
Proof. unfold subset. rewrite forallb_forall. intros H x Hx. specialize (H x Hx). apply existsb_exists in H. destruct H as [y [H1 H2%String.eqb_eq]]. now subst. Qed.
(** the analysis accepts p, with the marks xs *)
Definition accepts (p : prog) (xs : list string) : bool :=
  match ana p a0 with
  | None => false
  | Some o => subset (o_may o) xs && subset xs params && (norun p || (subset xs (o_must o) && match look (o_env o) "ret" with Some Own => true | _ => false end))
  end.
Lemma accepts_sound p xs : accepts p xs = true ->
  forall (C : Type) (s s' : st C) d, sound_state s -> arguments s -> exec p s d s' ->
  same_contents s s' /\ marks_within (held s xs) s s' /\ (d = true -> marks_exactly (held s xs) s s' /\ fresh_in "ret" s s').
Proof.
  unfold accepts. destruct (ana p a0) as [o|] eqn:E; [|easy]. intros H. apply andb_true_iff in H. destruct H as [H H3]. apply andb_true_iff in H.
  destruct H as [H1%subset_incl H2%subset_incl]. intros C s s' d W A He.
  set (par := fun x => hd 0 (env s x)).
  assert (Hp : forall x, In x params -> env s x = [par x]) by (intros x Hx; unfold par; destruct (A x Hx) as [i ->]; reflexivity).
  assert (G0 : G s par a0 s).
  { intros x v Hx%look_in. unfold a0 in Hx. apply in_map_iff in Hx. destruct Hx as [y [[= <- <-] Hy]]. simpl. now apply Hp. }
  assert (R0 : R s par [] [] s).
  { split; [easy|]. split; [easy|]. split; [now intros k v|]. intros i a Hi. exists a. simpl. tauto. }
  pose proof (@ana_sound C s par W p a0 o s d s' [] [] E He G0 R0) as HP.
  assert (Hh : forall i, In i (map par (o_may o)) -> held s xs i).
  { intros i Hi. apply in_map_iff in Hi. destruct Hi as [x [<- Hx]]. exists x. split; [now apply H1|]. rewrite Hp; [now left|]. now apply H2, H1. }
  assert (HR : R s par (o_may o) [] s').
  { destruct d; simpl in HP; [|exact HP]. destruct HP as [_ HP]. eapply R_weaken; [exact HP|apply incl_refl|easy]. }
  destruct HR as [_ [_ [R3 R4]]]. split; [exact R3|]. split.
  - intros i a Hi. destruct (R4 i a Hi) as [a' [Q1 [Q2 [Q3 [Q4 _]]]]]. exists a'. split; [easy|]. split; [easy|]. split; [easy|].
    intros Hf. destruct (Q4 Hf); [now left|right; auto].
  - intros ->. apply orb_true_iff in H3. destruct H3 as [H3|H3]; [now apply norun_sound with (s := s) (s' := s') in H3|].
    apply andb_true_iff in H3. destruct H3 as [H3%subset_incl H4]. destruct HP as [HG [_ [_ [_ HR]]]]. split.
    + intros i a Hi. destruct (HR i a Hi) as [a' [Q1 [Q2 [Q3 [Q4 Q5]]]]]. exists a'. split; [easy|]. split; [easy|]. split.
      * intros Hf. destruct (Q4 Hf); [now left|right; auto].
      * intros [Hf|[x [Hx1 Hx2]]]; [auto|]. apply Q5. rewrite Hp in Hx2 by auto. destruct Hx2 as [<-|[]]. apply in_map. simpl. auto.
    + destruct (look (o_env o) "ret") as [[| |]|] eqn:El; try easy. exact (HG _ _ El).
Qed.

(** C75: every query of every class, for every run of it. Whether it returns or raises, no
    tensor that existed before has other contents or other memory, and only the tensors
    [marked] can have received requires_grad; if it returns, exactly they have it, and the result
    is made of new tensors that share no memory with older ones. *)
Theorem C75_query (C : Type) (c : klass) (q : query) (s s' : st C) (d : bool) :
  sound_state s -> arguments s -> exec (p_query c q) s d s' ->
  same_contents s s' /\ marks_within (held s (marked c q)) s s' /\
  (d = true -> marks_exactly (held s (marked c q)) s s' /\ fresh_in "ret" s s').
Proof. apply accepts_sound. destruct c, q; vm_compute; reflexivity. Qed.

(** the conversions and the two adapters mark nothing and return new tensors, except for span
    trees, whose events are their own compact form *)
Theorem C75_event (C : Type) (c : klass) (s s' : st C) (d : bool) (p : prog) :
  sound_state s -> arguments s -> In p [p_to_event c; p_from_event c; p_hmm; p_hsmm] -> exec p s d s' ->
  same_contents s s' /\ marks_within (fun _ => False) s s' /\
  (d = true -> fresh_in "ret" s s' \/ (c = KTree /\ env s' "ret" = env s "value")).
Proof.
  intros W A Hp He. assert (Hf : forall xs, xs = [] -> marks_within (held s xs) s s' -> marks_within (fun _ => False) s s').
  { intros xs -> H i a Hi. destruct (H i a Hi) as [a' [H1 [H2 [H3 H4]]]]. exists a'. repeat split; auto. intros Hr. destruct (H4 Hr) as [|[x [[] _]]]. now left. }
  assert (Ht : forall p, p = Do (Let "ret" "value") -> exec (Seq p Skip) s d s' -> same_contents s s' /\ marks_within (fun _ => False) s s' /\ (d = true -> env s' "ret" = env s "value")).
  { intros p0 -> H. assert (Hs : same_contents s s /\ marks_within (fun _ => False) s s) by (split; [now intros k v|intros i a Hi; exists a; tauto]).
    inversion H; subst.
    - now split.
    - match goal with X : exec (Do _) _ _ _, Y : exec Skip _ _ _ |- _ => inversion X; subst; inversion Y; subst end.
      all: match goal with X : step _ _ _ |- _ => inversion X; subst end; split; [exact (proj1 Hs)|split; [exact (proj2 Hs)|easy]].
    - match goal with X : exec (Do _) _ _ _ |- _ => inversion X; subst end. now split. }
  assert (Hg : accepts p [] = true -> same_contents s s' /\ marks_within (fun _ => False) s s' /\ (d = true -> fresh_in "ret" s s' \/ c = KTree /\ env s' "ret" = env s "value")).
  { intros Ha. destruct (@accepts_sound p [] Ha C s s' d W A He) as [H1 [H2 H3]]. split; [exact H1|]. split; [now apply (Hf [])|]. intros Hd. left. now apply H3. }
  destruct Hp as [<-|[<-|[<-|[<-|[]]]]].
  - destruct c; try (apply Hg; vm_compute; reflexivity). destruct (Ht _ eq_refl He) as [H1 [H2 H3]]. split; [exact H1|]. split; [exact H2|]. intros Hd. right. auto.
  - destruct c; try (apply Hg; vm_compute; reflexivity). destruct (Ht _ eq_refl He) as [H1 [H2 H3]]. split; [exact H1|]. split; [exact H2|]. intros Hd. right. auto.
  - apply Hg. vm_compute. reflexivity.
  - apply Hg. vm_compute. reflexivity.
Qed.

(** the operations that write in place, and the second semi-Markov program *)
Theorem C75_inner (C : Type) (s s' : st C) (d : bool) (p : prog) :
  sound_state s -> arguments s ->
  In p [p_multi_backward; p_sparse_backward; p_sparsemax_grad; p_accumulate; p_unaccumulate] -> exec p s d s' ->
  same_contents s s' /\ marks_within (fun _ => False) s s' /\ (d = true -> fresh_in "ret" s s').
Proof.
  intros W A Hp He. assert (Ha : accepts p [] = true) by (repeat (destruct Hp as [<-|Hp]; [vm_compute; reflexivity|]); destruct Hp).
  destruct (@accepts_sound p [] Ha C s s' d W A He) as [H1 [H2 H3]]. split; [exact H1|]. split; [|intros Hd; now apply H3].
  intros i a Hi. destruct (H2 i a Hi) as [a' [Q1 [Q2 [Q3 Q4]]]]. exists a'. repeat split; auto. intros Hr. destruct (Q4 Hr) as [|[x [[] _]]]. now left.
Qed.
Theorem C75_standard (C : Type) (k : conv) (s s' : st C) (d : bool) :
  sound_state s -> arguments s -> exec (p_semi_standard k) s d s' ->
  same_contents s s' /\ marks_within (held s ["phi"]) s s' /\ (d = true -> marks_exactly (held s ["phi"]) s s' /\ fresh_in "ret" s s').
Proof. apply accepts_sound. destruct k; vm_compute; reflexivity. Qed.

(** ** Runs *)
(** one run: n rounds of every loop, the first or the second branch of every conditional *)
Definition det (c : cmd) (s : st nat) : option (st nat) :=
  let '(St o m e) := s in
  match c with
  | Nil x => Some (St o m (upd e x []))
  | New x | Like x _ => Some (St (o ++ [Obj (List.length m) false]) (m ++ [0]) (upd e x [List.length o]))
  | Push x => Some (St (o ++ [Obj (List.length m) false]) (m ++ [0]) (upd e x (e x ++ [List.length o])))
  | View x y => match e y with [] => None | i :: _ => match nth_error o i with Some a => Some (St (o ++ [Obj (storage a) false]) m (upd e x [List.length o])) | None => None end end
  | Let x y => Some (St o m (upd e x (e y)))
  | Cat x y z => Some (St o m (upd e x (e y ++ e z)))
  | Write x => match e x with [] => None | i :: _ => match nth_error o i with Some _ => Some s | None => None end end
  | Flag x => Some (St (map (fun ia => if in_dec Nat.eq_dec (fst ia) (e x) then Obj (storage (snd ia)) true else snd ia) (combine (seq 0 (List.length o)) o)) m e)
  | MayFlag _ => Some s
  end.
(** example: a function applied n times *)
Fixpoint rep (n : nat) (f : st nat -> option (st nat)) (s : st nat) : option (st nat) :=
  match n with 0 => Some s | S n' => match f s with None => None | Some s1 => rep n' f s1 end end.
(** example: one run of a program *)
Fixpoint go (n : nat) (b : bool) (p : prog) (s : st nat) : option (st nat) :=
  match p with
  | Do c => det c s | Skip => Some s | Raise => None
  | Seq p q => match go n b p s with None => None | Some s1 => go n b q s1 end
  | Alt p q => if b then go n b p s else go n b q s
  | Star p => rep n (go n b p) s
  end.
Lemma flags_refl P o : flags_only P o o.
Proof. split; [easy|]. intros i [u f] H. exists f. now simpl. Qed.
Lemma nth_flags (l : list nat) o : forall k i a, nth_error o i = Some a ->
  nth_error (map (fun ia => if in_dec Nat.eq_dec (fst ia) l then Obj (storage (snd ia)) true else snd ia) (combine (seq k (List.length o)) o)) i =
  Some (if in_dec Nat.eq_dec (k + i) l then Obj (storage a) true else a).
Proof.
  induction o as [|b o IH]; intros k [|i] a H; simpl in *; try easy.
  - injection H as ->. now rewrite Nat.add_0_r.
  - rewrite (IH (S k) i a H). now rewrite Nat.add_succ_r.
Qed.
Lemma det_step c s s' : det c s = Some s' -> step c s s'.
Proof.
  destruct s as [o m e]. destruct c; simpl; try (intros [= <-]; now constructor).
  - destruct (e y) as [|i l] eqn:E; [easy|]. destruct (nth_error o i) as [a|] eqn:En; [|easy]. intros [= <-]. apply s_view with (i := i); [rewrite E; now left|easy].
  - destruct (e x) as [|i l] eqn:E; [easy|]. destruct (nth_error o i) as [a|] eqn:En; [|easy]. intros [= <-].
    apply s_write with (i := i) (a := a); try easy; [rewrite E; now left|apply flags_refl].
  - intros [= <-]. apply s_flag.
    + split; [rewrite map_length, combine_length, seq_length; lia|]. intros i a H. rewrite (nth_flags (e x) o 0 i H). simpl.
      destruct in_dec as [Hi|Hi]; [exists true; tauto|exists (rgrad a); destruct a; tauto].
    + intros i a Hi H. assert (Hl : i < List.length o). { apply nth_error_Some. intros Hn. apply nth_error_None in Hn.
        assert (H' : nth_error (map (fun ia => if in_dec Nat.eq_dec (fst ia) (e x) then Obj (storage (snd ia)) true else snd ia) (combine (seq 0 (List.length o)) o)) i = None)
          by (apply nth_error_None; rewrite map_length, combine_length, seq_length; lia). congruence. }
      destruct (nth_error o i) as [b|] eqn:Eb; [|apply nth_error_None in Eb; lia]. rewrite (nth_flags (e x) o 0 i Eb) in H. simpl in H.
      destruct in_dec; [|easy]. now injection H as <-.
  - intros [= <-]. apply s_mayflag, flags_refl.
Qed.
Lemma go_exec n b p : forall s s', go n b p s = Some s' -> exec p s true s'.
Proof.
  induction p as [c| | |p IHp q IHq|p IHp|p IHp q IHq]; simpl; intros s s' H; try easy.
  - apply e_do. now apply det_step.
  - injection H as <-. apply e_skip.
  - destruct (go n b p s) as [s1|] eqn:E; [|easy]. eapply e_seq; eauto.
  - revert s H. generalize n at 1 as k. induction k as [|k IH]; simpl; intros s H; [injection H as <-; apply e_star_end|].
    destruct (go n b p s) as [s1|] eqn:E; [|easy]. eapply e_star; eauto.
  - destruct b; [apply e_alt_l|apply e_alt_r]; auto.
Qed.

(** a state in which each argument is a tensor of its own; none requires gradients *)
Fixpoint pos (x : string) (l : list string) : option nat := match l with [] => None | y :: l' => if String.eqb x y then Some 0 else option_map S (pos x l') end.
(** example: a state at the call *)
Definition ex_state : st nat := St (map (fun k => Obj k false) (seq 0 (List.length params))) (seq 0 (List.length params))
  (fun x => match pos x params with Some i => [i] | None => [] end).
Lemma ex_state_ok : sound_state ex_state /\ arguments ex_state.
Proof.
  split.
  - intros i a H. apply nth_error_In in H. cbn in H. repeat (destruct H as [<-|H]; [simpl; lia|]). destruct H.
  - intros x H. cbn in H. repeat (destruct H as [<-|H]; [eexists; reflexivity|]). destruct H.
Qed.
(** the queries that return *)
Definition answers (c : klass) (q : query) : bool :=
  match c, q with
  | KNonProj, (QPartition | QMarginals | QEntropy | QArgmax) => true
  | KNonProj, _ => false
  | (KSemi | KDep | KCfg), (QCross | QKl) => false
  | KCfg, (QCount | QLogProb | QSample) => false
  | _, _ => true
  end.
(** the hypotheses of [C75_query] are met by complete runs of every query that returns, with
    two rounds of every loop, along either branch *)
Example C75_ex_runs c q (b : bool) : answers c q = true -> exists s', go 2 b (p_query c q) ex_state = Some s' /\ sound_state ex_state /\ arguments ex_state /\ exec (p_query c q) ex_state true s'.
Proof.
  intros H. assert (Hg : exists s', go 2 b (p_query c q) ex_state = Some s').
  { destruct (go 2 b (p_query c q) ex_state) as [s'|] eqn:E; [now exists s'|]. exfalso. revert E.
    destruct c, q; try discriminate H; destruct b; vm_compute; discriminate. }
  destruct Hg as [s' Hg]. exists s'. split; [exact Hg|]. split; [apply ex_state_ok|]. split; [apply ex_state_ok|]. exact (go_exec _ _ _ _ Hg).
Qed.
(** the others never return *)
Theorem C75_raises (C : Type) c q (s s' : st C) : answers c q = false -> ~ exec (p_query c q) s true s'.
Proof. intros H. apply norun_sound. destruct c, q; try discriminate H; reflexivity. Qed.

(** "a query leaves the caller's tensors as they are" is false: asking a chain, a semi-Markov or
    a span tree distribution for its partition marks the caller's potentials *)
Theorem C75_untouched_refuted c : In c [KLin; KSemi; KTree] ->
  exists s s' : st nat, sound_state s /\ arguments s /\ exec (p_query c QPartition) s true s' /\
  exists i a a', env s "phi" = [i] /\ nth_error (objs s) i = Some a /\ rgrad a = false /\ nth_error (objs s') i = Some a' /\ rgrad a' = true.
Proof.
  intros Hc. assert (Ha : answers c QPartition = true) by (repeat (destruct Hc as [<-|Hc]; [reflexivity|]); destruct Hc).
  destruct (C75_ex_runs c QPartition true Ha) as [s' [_ [W [A He]]]]. exists ex_state, s'. split; [exact W|]. split; [exact A|]. split; [exact He|].
  destruct (C75_query c QPartition W A He) as [_ [_ H]]. destruct (H eq_refl) as [Hm _]. destruct (Hm 0 (Obj 0 false) eq_refl) as [a' [H1 [_ H2]]].
  exists 0, (Obj 0 false), a'. split; [reflexivity|]. split; [reflexivity|]. split; [reflexivity|]. split; [exact H1|].
  apply H2. right. exists "phi". split; [|now left]. repeat (destruct Hc as [<-|Hc]; [now left|]). destruct Hc.
Qed.
(** complete runs of the programs of [C75_event], [C75_inner] and [C75_standard] from that state *)
Example C75_ex_others (c : klass) (k : conv) (b : bool) (p : prog) :
  In p [p_to_event c; p_from_event c; p_hmm; p_hsmm; p_multi_backward; p_sparse_backward; p_sparsemax_grad; p_accumulate; p_unaccumulate; p_semi_standard k] ->
  c <> KNonProj -> exists s', exec p ex_state true s'.
Proof.
  intros Hp Hc. assert (Hg : match go 2 b p ex_state with Some _ => true | None => false end = true).
  { do 2 (destruct Hp as [<-|Hp]; [destruct c; [| | | | |now elim Hc]; destruct b; vm_compute; reflexivity|]).
    repeat (destruct Hp as [<-|Hp]; [destruct b; try destruct k; vm_compute; reflexivity|]). destruct Hp. }
  destruct (go 2 b p ex_state) as [s'|] eqn:E; [|easy]. exists s'. exact (go_exec _ _ _ _ E).
Qed.
