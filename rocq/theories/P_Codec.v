(** * P_Codec: events of distributions (to_event / from_event) *)
From Coq Require Import ZArith.
From Verif Require Import Base Ops Chain LinearChain SemiMarkov CkyCrf Cky DepSpec DepTree Tensor Codec CkyCodec.
Set Implicit Arguments.
Local Open Scope Z_scope.

(** a matrix given by its rows, for the examples *)
Definition mat (l : list (list Z)) : tensor Z :=
  {| shape := [length l; length (nth 0 l [])]; dat := fun i => nth (nth 1 i 0%nat) (nth (nth 0 i 0%nat) l []) 0 |}.
(** equal on all cells inside the shape *)
Definition same (t u : tensor Z) : Prop := shape t = shape u /\ forall i, Forall2 lt i (shape t) -> dat t i = dat u i.
Lemma represents_same t u batch sh ps : shape t = batch :: sh -> shape u = batch :: sh ->
  (forall b, (b < batch)%nat -> represents t b (ps b)) -> (forall b, (b < batch)%nat -> represents u b (ps b)) -> same t u.
Proof.
  intros Ht Hu H1 H2. split; [congruence|]. intros i Hi. rewrite Ht in Hi. inversion Hi as [|b n i' sh' Hb Hi' E1 E2]; subst.
  rewrite (H1 b Hb i'), (H2 b Hb i'); auto; [now rewrite Hu|now rewrite Ht].
Qed.

(** ** C29: linear chain *)
Theorem C29_chain_to_from s C lengths batch N (ys : nat -> list nat) :
  shape s = [batch; N] -> (1 <= N)%nat -> (batch <= length (row_lengths N batch lengths))%nat ->
  (forall b n, (b < batch)%nat -> (n < N)%nat -> 0 <= dat s [b; n] < Z.of_nat C) ->
  (forall b, (b < batch)%nat -> length (ys b) = nth b (row_lengths N batch lengths) 0%nat /\
     (1 <= length (ys b) <= N)%nat /\ firstn (length (ys b)) (zrow s b) = map Z.of_nat (ys b)) ->
  exists e s', lc_to_parts s C lengths = Ok e /\ (forall b, (b < batch)%nat -> represents e b (seq_parts b (ys b))) /\
    lc_from_parts e = Ok (s', C) /\ shape s' = [batch; N] /\
    forall b, (b < batch)%nat ->
      ((2 <= length (ys b))%nat -> zrow s' b = map Z.of_nat (ys b) ++ repeat 0 (N - length (ys b))) /\
      (length (ys b) = 1%nat -> zrow s' b = repeat 0 N).
Proof.
  intros Hs HN Hl Hr Hy. destruct (@lc_to_parts_spec s C lengths batch N ys Hs HN Hl Hr Hy) as (e & E & She & Rep).
  destruct (@lc_from_parts_spec e batch N C ys She HN) as (s' & E' & Sh' & Z').
  { intros b Hb. destruct (Hy b Hb) as (H1 & H2 & H3). repeat split; auto; try lia.
    apply Forall_forall. intros x Hx. apply (In_nth _ _ 0%nat) in Hx as (n & Hn & <-).
    assert (E1 : dat s [b; n] = Z.of_nat (nth n (ys b) 0%nat)).
    { rewrite <- (@zrow_nth s b n 0) by (rewrite Hs; cbn; lia).
      etransitivity; [|exact (map_nth Z.of_nat (ys b) 0%nat n)]. rewrite <- H3. symmetry.
      rewrite <- (firstn_skipn (length (ys b)) (zrow s b)) at 2. rewrite app_nth1; [reflexivity|].
      rewrite H3, map_length. exact Hn. }
    pose proof (Hr b n Hb ltac:(lia)). lia. }
  exists e, s'. split; [exact E|]. split; [exact Rep|]. split; [exact E'|]. split; [exact Sh'|].
  intros b Hb. rewrite (Z' b Hb). unfold lc_decoded. split; intro H; destruct (Nat.leb_spec (length (ys b)) 1); auto; lia.
Qed.
Print Assumptions C29_chain_to_from.

Theorem C29_chain_from_to e batch N C ls (ys : nat -> list nat) :
  shape e = [batch; (N - 1)%nat; C; C] -> (1 <= N)%nat -> length ls = batch ->
  (forall b, (b < batch)%nat -> is_seq C (nth b ls 0%nat) (ys b) /\ (1 <= nth b ls 0 <= N)%nat /\ represents e b (seq_parts b (ys b))) ->
  exists s e', lc_from_parts e = Ok (s, C) /\ lc_to_parts s C (Some ls) = Ok e' /\ same e e'.
Proof.
  intros She HN Hl Hy.
  destruct (@lc_from_parts_spec e batch N C ys She HN) as (s & E & Sh & Z').
  { intros b Hb. destruct (Hy b Hb) as ([H1 H2] & H3 & H4). rewrite <- H1 in H3. repeat split; auto; lia. }
  set (zs := fun b => if (length (ys b) <=? 1)%nat then [0%nat] else ys b).
  assert (Hpos : forall b, (b < batch)%nat -> (0 < C)%nat).
  { intros b Hb. destruct (Hy b Hb) as ([H1 H2] & H3 & _). destruct (ys b); cbn in H1; [lia|]. inversion H2; subst. lia. }
  assert (Hzl : forall b, (b < batch)%nat -> length (zs b) = nth b ls 0%nat).
  { intros b Hb. destruct (Hy b Hb) as ([H1 H2] & H3 & _). unfold zs. destruct (Nat.leb_spec (length (ys b)) 1); cbn [length]; lia. }
  destruct (@lc_to_parts_spec s C (Some ls) batch N zs Sh HN) as (e' & E' & She' & Rep); [cbn; lia|..].
  - intros b n Hb Hn. rewrite <- (@zrow_nth s b n 0) by (rewrite Sh; exact Hn). rewrite Z' by auto.
    destruct (Hy b Hb) as ([H1 H2] & H3 & _). specialize (Hpos b Hb). unfold lc_decoded. destruct (Nat.leb_spec (length (ys b)) 1).
    + rewrite nth_repeat. lia.
    + destruct (Nat.lt_ge_cases n (length (ys b))) as [Hlt|Hge].
      * rewrite app_nth1 by (rewrite map_length; auto).
        replace (nth n (map Z.of_nat (ys b)) 0) with (Z.of_nat (nth n (ys b) 0%nat)) by (symmetry; exact (map_nth Z.of_nat (ys b) 0%nat n)).
        rewrite Forall_forall in H2. specialize (H2 _ (nth_In _ 0%nat Hlt)). lia.
      * rewrite app_nth2 by (rewrite map_length; auto). rewrite nth_repeat. lia.
  - intros b Hb. destruct (Hy b Hb) as ([H1 H2] & H3 & _). rewrite Z' by auto. split; [cbn; auto|]. rewrite (Hzl b Hb). split; [lia|].
    unfold lc_decoded, zs. destruct (Nat.leb_spec (length (ys b)) 1).
    + replace (nth b ls 0%nat) with 1%nat by lia. destruct N; [lia|]. reflexivity.
    + rewrite firstn_app, map_length, H1, Nat.sub_diag, firstn_O, app_nil_r.
      apply firstn_all2. rewrite map_length. lia.
  - exists s, e'. split; [exact E|]. split; [exact E'|]. eapply represents_same; [exact She|exact She'| |exact Rep].
    intros b Hb. destruct (Hy b Hb) as ([H1 H2] & H3 & H4).
    replace (seq_parts b (zs b)) with (seq_parts b (ys b)); auto. unfold zs.
    destruct (Nat.leb_spec (length (ys b)) 1); [|reflexivity]. unfold seq_parts. replace (length (ys b) - 1)%nat with 0%nat by lia. reflexivity.
Qed.
Print Assumptions C29_chain_from_to.
(** a length-1 row loses its label *)
Theorem C29_single_label_refuted : exists s C e s',
  lc_to_parts s C None = Ok e /\ lc_from_parts e = Ok (s', C) /\ shape s = shape s' /\ zrow s 0 = [1] /\ zrow s' 0 = [0].
Proof. exists (mat [[1]]), 2%nat. do 2 eexists. split; [reflexivity|]. split; [reflexivity|]. repeat split. Qed.
(** two rows of lengths 3 and 2 over 3 labels *)
Example C29_example : exists e s', lc_to_parts (mat [[2;0;1];[1;1;2]]) 3 (Some [3;2]%nat) = Ok e /\
  lc_from_parts e = Ok (s', 3%nat) /\ zrow s' 0 = [2;0;1] /\ zrow s' 1 = [1;1;0] /\ represents e 0 [[0;0;0;2];[0;1;1;0]]%nat.
Proof.
  destruct (@C29_chain_to_from (mat [[2;0;1];[1;1;2]]) 3 (Some [3;2]%nat) 2 3
    (fun b => match b with O => [2;0;1]%nat | _ => [1;1]%nat end)) as (e & s' & E & R & E' & _ & H); try reflexivity; try lia.
  - intros b n Hb Hn. destruct b as [|[|b]]; [..|lia]; destruct n as [|[|[|n]]]; try lia; cbn; lia.
  - intros b Hb. destruct b as [|[|b]]; [..|lia]; (split; [reflexivity|]); cbn [length]; split; try lia; reflexivity.
  - exists e, s'. repeat split; auto.
    + apply (H 0%nat); cbn; lia.
    + apply (H 1%nat); cbn; lia.
    + apply (R 0%nat). lia.
Qed.

(** ** C30: semi-Markov *)
(** every row whose first entry is a label and whose labels follow each other at
    distances below K is encoded as the indicator of a segmentation; decoding
    returns the row, except that a row without a second label loses the first *)
Theorem C30_segments_to_from s C K batch N :
  shape s = [batch; N] -> (1 <= N)%nat -> (forall b, (b < batch)%nat -> sm_row_ok K C (zrow s b)) ->
  exists e s', (forall lengths, sm_to_parts s C K lengths = Ok e) /\
    (forall b, (b < batch)%nat -> exists y len, (1 <= len <= N)%nat /\ is_segm K C len y /\
       zrow s b = segm_code y ++ repeat (-1) (N - len) /\ represents e b (segm_parts b y)) /\
    sm_from_parts e = Ok (s', (C, K)) /\ shape s' = [batch; N] /\
    forall b, (b < batch)%nat ->
      ((exists n, (1 <= n < N)%nat /\ dat s [b; n] <> -1) -> zrow s' b = zrow s b) /\
      ((forall n, (1 <= n < N)%nat -> dat s [b; n] = -1) -> zrow s' b = repeat (-1) N).
Proof.
  intros Hs HN Hr.
  assert (Hzl : forall b, length (zrow s b) = N) by (intro b; rewrite zrow_length, Hs; reflexivity).
  assert (Hy : forall m, (m <= batch)%nat -> exists ys : nat -> segm, forall b, (b < m)%nat ->
    (exists len, (1 <= len <= N)%nat /\ is_segm K C len (ys b)) /\ zrow s b = sm_code N (ys b)).
  { induction m as [|m IH]; intro Hm; [exists (fun _ => (0%nat, [])); lia|]. destruct IH as [ys IH]; [lia|].
    destruct (@sm_row_segm K C _ (Hr m Hm)) as (y & len & H1 & H2 & H3). rewrite Hzl in H1, H3.
    exists (fun b => if (b =? m)%nat then y else ys b). intros b Hb. destruct (Nat.eqb_spec b m) as [->|Hn].
    - split; auto. exists len. auto.
    - apply IH. lia. }
  destruct (Hy batch (le_n _)) as [ys Hys]. clear Hy.
  destruct (@sm_to_parts_spec s K C None batch N ys Hs HN Hys) as (e & E & She & Rep).
  destruct (@sm_from_parts_spec e batch N K C ys She HN) as (s' & E' & Sh' & Z').
  { intros b Hb. destruct (Hys b Hb) as [H1 H2]. auto. }
  exists e, s'. split; [intros; exact E|]. split.
  - intros b Hb. destruct (Hys b Hb) as [(len & H1 & H2) H3]. exists (ys b), len. repeat split; try apply H2; try lia; auto.
    rewrite H3. unfold sm_code. destruct H2 as (_ & _ & H2). do 2 f_equal. lia.
  - split; [exact E'|]. split; [exact Sh'|]. intros b Hb. rewrite (Z' b Hb). destruct (Hys b Hb) as [(len & H1 & H2) H3].
    rewrite H3. unfold sm_decoded. split.
    + intros (n & Hn & Hv). destruct (snd (ys b)) as [|sg l] eqn:El; [|reflexivity]. exfalso. apply Hv.
      rewrite <- (@zrow_nth s b n 0) by (rewrite Hs; cbn; lia). rewrite H3. unfold sm_code, segm_code. rewrite El. cbn [flat_map app widths fold_right map].
      destruct n; [lia|]. cbn [nth]. rewrite nth_indep with (d' := -1).
      * apply nth_repeat.
      * rewrite repeat_length. cbn. lia.
    + intro H. destruct (snd (ys b)) as [|sg l] eqn:El; [reflexivity|]. exfalso.
      destruct H2 as (_ & H2 & Hw). rewrite El in H2, Hw. inversion H2 as [|? ? Hsg Hl2]; subst. destruct sg as [w c]. unfold seg_ok in Hsg. cbn [fst snd] in Hsg.
      pose proof (H w) as Hc. cbn [widths map fold_right fst] in Hw.
      assert (Hww : (w <= len - 1)%nat) by (rewrite <- Hw; unfold widths; cbn; lia).
      specialize (Hc ltac:(lia)). rewrite <- (@zrow_nth s b w 0) in Hc by (rewrite Hs; cbn; lia). rewrite H3 in Hc.
      unfold sm_code, segm_code in Hc. rewrite El in Hc. cbn [flat_map] in Hc. unfold seg_code at 1 in Hc. cbn [fst snd] in Hc.
      destruct w as [|w]; [lia|]. cbn [app nth] in Hc. rewrite <- !app_assoc in Hc.
      rewrite app_nth2 in Hc; rewrite repeat_length in *; [|lia]. replace (w - (S w - 1))%nat with 0%nat in Hc by lia. cbn [nth app] in Hc. lia.
Qed.
Print Assumptions C30_segments_to_from.
(** a first entry -1 is rejected *)
Theorem C30_first_entry s C K lengths batch N b : shape s = [batch; N] -> (1 <= N)%nat -> (b < batch)%nat ->
  (forall b', (b' < b)%nat -> sm_row_ok K C (zrow s b')) -> dat s [b; 0%nat] = -1 -> sm_to_parts s C K lengths = Err AssertionError.
Proof.
  intros Hs HN Hb Hr H0. unfold sm_to_parts. rewrite Hs. destruct (Nat.eqb_spec N 0); [lia|].
  replace (seq 0 batch) with (seq 0 b ++ b :: seq (S b) (batch - S b)).
  2:{ change (b :: seq (S b) (batch - S b)) with (seq (0 + b) (S (batch - S b))). rewrite <- seq_app. f_equal. lia. }
  rewrite loop_app.
  set (s2 := {| shape := [b; N]; dat := dat s |}).
  assert (Hz : forall b', zrow s2 b' = zrow s b') by (intro; unfold zrow; rewrite Hs; reflexivity).
  match goal with |- bind (loop ?f _ ?z) _ = _ => assert (G : exists e, loop f (seq 0 b) z = Ok e) end.
  2:{ destruct G as [e G]. rewrite G. cbn [bind loop]. replace (seq 0 N) with (0%nat :: seq 1 (N - 1)) by (destruct N; [lia|]; cbn [seq]; rewrite Nat.sub_1_r; reflexivity).
      cbn [loop]. unfold sm_to_step at 1. rewrite H0. reflexivity. }
  assert (Gn : forall rows z, (forall b', In b' rows -> (b' < b)%nat) -> exists e,
    loop (fun labels b => bind (loop (sm_to_step s K C b) (seq 0 N) (labels, None)) (fun st => Ok (fst st))) rows z = Ok e).
  { induction rows as [|r rows IH]; intros z Hin; cbn [loop]; [eauto|].
    assert (Gr : exists st, loop (sm_to_step s K C r) (seq 0 N) (z, None) = Ok st).
    { pose proof (Hr r (Hin r (or_introl eq_refl))) as [R0 R]. rewrite zrow_length, Hs in R. cbn [nth] in R.
      assert (V : forall n, (n < N)%nat -> nth n (zrow s r) (-1) = dat s [r; n]) by (intros; apply zrow_nth; rewrite Hs; auto).
      rewrite V in R0 by lia.
      assert (GI : forall k, (k <= N)%nat -> exists st, loop (sm_to_step s K C r) (seq 0 k) (z, None) = Ok st /\
        (k = 0%nat \/ exists m v, snd st = Some (m, v) /\ (m < k)%nat /\ 0 <= v < Z.of_nat C /\ forall m', (m' < k)%nat -> dat s [r; m'] <> -1 -> (m' <= m)%nat)).
      { induction k as [|k IHk]; intro Hk; [exists (z, None); split; [reflexivity|auto]|].
        destruct IHk as ([lab last] & El & Inv); [lia|]. rewrite seq_S, loop_app, El. cbn [bind loop plus].
        unfold sm_to_step. destruct (Z.eqb_spec (dat s [r; k]) (-1)) as [Hv|Hv].
        - destruct (Nat.eqb_spec k 0) as [->|Hk0]; [lia|]. eexists. split; [reflexivity|]. right.
          destruct Inv as [->|(m & v & Em & H1 & H2 & H3)]; [lia|]. cbn [snd] in *. exists m, v. repeat split; auto; try lia.
          intros m' Hm' Hd. destruct (Nat.eq_dec m' k) as [->|]; [contradiction|]. apply H3; auto. lia.
        - destruct (Nat.eqb_spec k 0) as [->|Hk0].
          + exists (lab, Some (0%nat, dat s [r; 0%nat])). split; [destruct last as [[? ?]|]; reflexivity|]. right. cbn [snd].
            exists 0%nat, (dat s [r; 0%nat]). repeat split; auto; try lia.
          + destruct Inv as [->|(m & v & Em & H1 & H2 & H3)]; [lia|]. cbn [snd] in Em. subst last.
            destruct (R k ltac:(lia)) as (Rv & m' & Hm' & Hd); [rewrite V by lia; exact Hv|]. rewrite V in Rv by lia.
            rewrite V in Hd by lia. specialize (H3 m' ltac:(lia) Hd).
            destruct (Nat.leb_spec K (k - m)); [lia|].
            rewrite !pyix_in by lia. cbn [bind]. eexists. split; [reflexivity|]. right. cbn [snd]. exists k, (dat s [r; k]). repeat split; try lia. }
      destruct (GI N (le_n _)) as (st & G & _). eauto. }
    destruct Gr as [st Gr]. rewrite Gr. cbn [bind]. apply IH. intros. apply Hin. right. auto. }
  apply Gn. intros b' Hin. apply in_seq in Hin. lia.
Qed.
Print Assumptions C30_first_entry.
(** the row [1; -1; -1] is admissible and is not recovered *)
Theorem C30_lost_label_refuted : exists s C K e s', sm_row_ok K C (zrow s 0) /\
  sm_to_parts s C K None = Ok e /\ sm_from_parts e = Ok (s', (C, K)) /\ zrow s' 0 <> zrow s 0.
Proof.
  exists (mat [[1;-1;-1]]), 2%nat, 3%nat. do 2 eexists. split; [|split; [reflexivity|split; [reflexivity|]]].
  - split; [cbn; lia|]. cbn [zrow]. intros n Hn H. cbn in Hn. destruct n as [|[|[|n]]]; try lia; now cbn in H.
  - intro H. cbv in H. discriminate H.
Qed.
Example C30_example : exists e s', sm_to_parts (mat [[2;-1;0;1];[1;0;-1;-1]]) 3 3 None = Ok e /\
  sm_from_parts e = Ok (s', (3, 3)%nat) /\ zrow s' 0 = [2;-1;0;1] /\ zrow s' 1 = [1;0;-1;-1] /\
  dat e [0;0;2;0;2]%nat = 1 /\ dat e [0;2;1;1;0]%nat = 1 /\ dat e [0;0;1;0;2]%nat = 0.
Proof.
  destruct (@C30_segments_to_from (mat [[2;-1;0;1];[1;0;-1;-1]]) 3 3 2 4) as (e & s' & E & R & E' & _ & H); try reflexivity; try lia.
  - intros b Hb. destruct b as [|[|b]]; [..|lia]; (split; [cbn; lia|]); intros n Hn H; cbn in Hn;
      destruct n as [|[|[|[|n]]]]; try lia; cbn in H; try congruence; (split; [cbn; lia|]).
    + exists 0%nat. split; [lia|cbn; lia].
    + exists 2%nat. split; [lia|cbn; lia].
    + exists 0%nat. split; [lia|cbn; lia].
  - exists e, s'. split; [apply E|]. split; [exact E'|]. split; [|split; [|repeat split]].
    + apply (H 0%nat); [lia|]. exists 2%nat. split; [lia|]. cbn. lia.
    + apply (H 1%nat); [lia|]. exists 1%nat. split; [lia|]. cbn. lia.
    + specialize (E None). injection E as <-. reflexivity.
    + specialize (E None). injection E as <-. reflexivity.
    + specialize (E None). injection E as <-. reflexivity.
Qed.

(** ** C31: dependency trees *)
Theorem C31_heads_to_from s lengths batch N (hs : nat -> list nat) :
  shape s = [batch; N] -> (batch <= length (row_lengths N batch lengths))%nat ->
  (forall b n, (b < batch)%nat -> (n < N)%nat -> 0 <= dat s [b; n] <= Z.of_nat N) ->
  (forall b, (b < batch)%nat -> heads_ok (hs b) /\ length (hs b) = nth b (row_lengths N batch lengths) 0%nat /\
     (length (hs b) <= N)%nat /\ firstn (length (hs b)) (zrow s b) = map Z.of_nat (hs b)) ->
  exists e s', dp_to_parts s lengths = Ok e /\ (forall b, (b < batch)%nat -> represents e b (dep_parts b (hs b))) /\
    dp_from_parts e = Ok s' /\ shape s' = [batch; N] /\
    (forall b, (b < batch)%nat -> zrow s' b = map Z.of_nat (hs b) ++ repeat 0 (N - length (hs b))) /\
    (* one head for every word in range, none for the others *)
    (forall b c, (b < batch)%nat -> (c < N)%nat ->
       fold_right Z.add 0 (map (fun h => dat e [b; h; c]) (seq 0 N)) = if (c <? length (hs b))%nat then 1 else 0).
Proof.
  intros Hs Hl Hr Hh. destruct (@dp_to_parts_spec s lengths batch N hs Hs Hl Hr Hh) as (e & E & She & Rep).
  destruct (@dp_from_parts_spec e batch N hs She) as (s' & E' & Sh' & Z').
  { intros b Hb. destruct (Hh b Hb) as (H1 & H2 & H3 & H4). auto. }
  exists e, s'. do 5 (split; [assumption|]). intros b c Hb Hc.
  destruct (Hh b Hb) as (H1 & H2 & H3 & H4).
  set (hd := if (c <? length (hs b))%nat then match nth c (hs b) 0%nat with O => c | S h => h end else N).
  assert (Hv : forall h, (h < N)%nat -> dat e [b; h; c] = if (h =? hd)%nat then 1 else 0).
  { intros h Hh'. assert (Hi : Forall2 lt [h; c] (tl (shape e))) by (rewrite She; cbn [tl]; repeat constructor; auto).
    rewrite (Rep b Hb [h; c] Hi), count_nodup by apply dep_parts_nodup.
    assert (Hiff : In [b; h; c] (dep_parts b (hs b)) <-> (h = hd /\ c < length (hs b))%nat).
    { unfold dep_parts. rewrite dep_parts_in. split.
      - intros (c' & Hc' & Ee). unfold dep_part in Ee. cbn [plus] in Ee. unfold hd.
        destruct (nth c' (hs b) 0%nat) as [|k] eqn:En; injection Ee; intros; subst; destruct (Nat.ltb_spec c' (length (hs b))); try lia; rewrite En; auto.
      - intros [-> Hlt]. exists c. split; auto. unfold hd, dep_part. cbn [plus]. destruct (Nat.ltb_spec c (length (hs b))); [|lia].
        destruct (nth c (hs b) 0%nat); reflexivity. }
    destruct (in_dec idx_dec [b; h; c] (dep_parts b (hs b))) as [Hin|Hin]; destruct (Nat.eqb_spec h hd) as [Ehd|Ehd]; auto.
    - apply Hiff in Hin. destruct Hin. contradiction.
    - exfalso. apply Hin, Hiff. split; auto. unfold hd in Ehd. destruct (Nat.ltb_spec c (length (hs b))); lia. }
  assert (Sm : forall m, (m <= N)%nat -> fold_right Z.add 0 (map (fun h => dat e [b; h; c]) (seq 0 m)) = if (hd <? m)%nat then 1 else 0).
  { induction m as [|m IH]; intro Hm; [reflexivity|]. rewrite seq_S, map_app, fold_right_app. cbn [map fold_right plus].
    assert (Fa : forall l x, fold_right Z.add x l = fold_right Z.add 0 l + x) by (induction l as [|a l IHl]; intro x; cbn; [lia|rewrite IHl; lia]).
    rewrite Fa, IH by lia. rewrite (Hv m Hm). destruct (Nat.ltb_spec hd m), (Nat.eqb_spec m hd), (Nat.ltb_spec hd (S m)); lia. }
  rewrite (Sm N (le_n _)). unfold hd. destruct (Nat.ltb_spec c (length (hs b))) as [Hlt|Hge].
  - destruct (H1 c Hlt) as [Hb1 _]. destruct (nth c (hs b) 0%nat) as [|k]; [destruct (Nat.ltb_spec c N)|destruct (Nat.ltb_spec k N)]; lia.
  - rewrite Nat.ltb_irrefl. reflexivity.
Qed.
Print Assumptions C31_heads_to_from.
Theorem C31_heads_from_to e batch N ls (hs : nat -> list nat) :
  shape e = [batch; N; N] -> length ls = batch ->
  (forall b, (b < batch)%nat -> heads_ok (hs b) /\ length (hs b) = nth b ls 0%nat /\ (length (hs b) <= N)%nat /\ represents e b (dep_parts b (hs b))) ->
  exists s e', dp_from_parts e = Ok s /\ dp_to_parts s (Some ls) = Ok e' /\ same e e'.
Proof.
  intros She Hl Hh. destruct (@dp_from_parts_spec e batch N hs She) as (s & E & Sh & Z').
  { intros b Hb. destruct (Hh b Hb) as (H1 & H2 & H3 & H4). auto. }
  destruct (@dp_to_parts_spec s (Some ls) batch N hs Sh) as (e' & E' & She' & Rep); [cbn; lia|..].
  - intros b n Hb Hn. rewrite <- (@zrow_nth s b n 0) by (rewrite Sh; exact Hn). rewrite Z' by auto. destruct (Hh b Hb) as (H1 & H2 & H3 & _).
    destruct (Nat.lt_ge_cases n (length (hs b))) as [Hlt|Hge].
    + rewrite app_nth1 by (rewrite map_length; auto).
      replace (nth n (map Z.of_nat (hs b)) 0) with (Z.of_nat (nth n (hs b) 0%nat)) by (symmetry; exact (map_nth Z.of_nat (hs b) 0%nat n)).
      destruct (H1 n Hlt). lia.
    + rewrite app_nth2 by (rewrite map_length; auto). rewrite nth_repeat. lia.
  - intros b Hb. destruct (Hh b Hb) as (H1 & H2 & H3 & _). rewrite Z' by auto. repeat (split; [auto|]).
    rewrite firstn_app, map_length, Nat.sub_diag, firstn_O, app_nil_r. apply firstn_all2. rewrite map_length. lia.
  - exists s, e'. split; [exact E|]. split; [exact E'|]. eapply represents_same; [exact She|exact She'| |exact Rep].
    intros b Hb. apply (Hh b Hb).
Qed.
Print Assumptions C31_heads_from_to.
(** convert / unconvert of potentials and marginals are inverse *)
Definition C31_unconvert_convert := dunconvert_convert.
(** a word that is its own head becomes a word without head and decodes as a root child *)
Theorem C31_self_loop_refuted : exists s e s', dp_to_parts s None = Ok e /\ dp_from_parts e = Ok s' /\
  zrow s 0 = [1; 1] /\ zrow s' 0 = [0; 1] /\ dat e [0; 0; 0]%nat = 0 /\ dat e [0; 1; 0]%nat = 0.
Proof. exists (mat [[1;1]]). do 2 eexists. split; [reflexivity|]. split; [reflexivity|]. repeat split. Qed.
(** two sentences, of lengths 3 and 2 *)
Example C31_example : exists e s', dp_to_parts (mat [[2;0;2];[0;1;3]]) (Some [3;2]%nat) = Ok e /\
  dp_from_parts e = Ok s' /\ zrow s' 0 = [2;0;2] /\ zrow s' 1 = [0;1;0] /\ represents e 0 [[0;1;0];[0;1;1];[0;1;2]]%nat.
Proof.
  destruct (@C31_heads_to_from (mat [[2;0;2];[0;1;3]]) (Some [3;2]%nat) 2 3
    (fun b => match b with O => [2;0;2]%nat | _ => [0;1]%nat end)) as (e & s' & E & R & E' & _ & H & _); try reflexivity; try (cbn; lia).
  - intros b n Hb Hn. destruct b as [|[|b]]; [..|lia]; destruct n as [|[|[|n]]]; try lia; cbn; lia.
  - intros b Hb. destruct b as [|[|b]]; [..|lia]; (split; [intros c Hc; cbn [length] in Hc; destruct c as [|[|[|c]]]; cbn; lia|]); cbn [length]; (split; [reflexivity|]); split; try lia; reflexivity.
  - exists e, s'. repeat split; auto.
    + apply (H 0%nat); lia.
    + apply (H 1%nat); lia.
    + apply (R 0%nat). lia.
Qed.

(** ** C32: CFG span charts *)
(** the chart of a parse is turned into its words, rule counts and root *)
Definition has_counts (NT T b : nat) (p : ptree) (terms rules roots : tensor Z) : Prop :=
  let n a := Z.of_nat (count_occ idx_dec (parse_parts NT b p) a) in
  (forall i t, (i < nth 1 (shape terms) 0)%nat -> (t < T)%nat -> dat terms [b; i; t] = n [0; b; i; t]%nat) /\
  (forall x y z, dat rules [b; x; y; z] = n [1; b; x; y; z]%nat) /\
  (forall x, (x < NT)%nat -> dat roots [b; x] = n [2; b; x]%nat).
Theorem C32_chart_to_counts spans NT T ls batch N (ps : nat -> ptree) :
  shape spans = [batch; N; N; (NT + T)%nat] -> (batch <= length ls)%nat ->
  (forall b, (b < batch)%nat -> is_parse NT T (nth b ls 0%nat) (ps b) /\ (nth b ls 0 <= N)%nat /\
     represents spans b (map (cons b) (pspans NT 0 (ps b)))) ->
  exists terms rules roots, cky_to_parts spans NT T (Some ls) = Ok (terms, rules, roots) /\
    shape terms = [batch; N; T] /\ shape rules = [batch; NT; (NT + T)%nat; (NT + T)%nat] /\ shape roots = [batch; NT] /\
    forall b, (b < batch)%nat -> has_counts NT T b (ps b) terms rules roots.
Proof.
  intros H1 H2 H3. destruct (@cky_to_parts_spec spans NT T ls batch N ps H1 H2 H3) as (te & ru & ro & E & S1 & S2 & S3 & H).
  exists te, ru, ro. do 4 (split; [assumption|]). intros b Hb. destruct (H b Hb) as (A & B & C). unfold has_counts. rewrite S1. auto.
Qed.
Print Assumptions C32_chart_to_counts.
(** the anchored rules of a parse are turned into its chart, and the chart into its rule counts *)
Theorem C32_anchored_to_counts terms rules roots NT T ls batch N (ps : nat -> ptree) :
  shape terms = [batch; N; T] -> shape rules = [batch; N; N; NT; (NT + T)%nat; (NT + T)%nat] -> (batch <= length ls)%nat ->
  (forall b, (b < batch)%nat -> is_parse NT T (nth b ls 0%nat) (ps b) /\ (nth b ls 0 <= N)%nat /\
     represents terms b (map (cons b) (pterms 0 (ps b))) /\ represents rules b (map (cons b) (prules NT 0 (ps b)))) ->
  exists spans te ru ro, cky_from_parts terms rules roots = Ok (spans, (NT, T)) /\
    (forall b, (b < batch)%nat -> represents spans b (map (cons b) (pspans NT 0 (ps b)))) /\
    cky_to_parts spans NT T (Some ls) = Ok (te, ru, ro) /\
    forall b, (b < batch)%nat -> has_counts NT T b (ps b) te ru ro.
Proof.
  intros Ht Hr Hl Hp. destruct (@cky_from_parts_spec terms rules roots NT T batch N ps Ht Hr) as (spans & E & Sh & R).
  { intros b Hb. destruct (Hp b Hb) as ((Hs & Hbd & _) & Hle & H). split; auto. split; [lia|]. exact H. }
  destruct (@C32_chart_to_counts spans NT T ls batch N ps Sh Hl) as (te & ru & ro & E' & _ & _ & _ & H).
  { intros b Hb. destruct (Hp b Hb) as (H1 & H2 & _). auto. }
  exists spans, te, ru, ro. auto.
Qed.
Print Assumptions C32_anchored_to_counts.
(** every inner node of the tree gets its split point and children *)
Theorem C32_splits spans b NT T n N (p : ptree) :
  tl (shape spans) = [N; N; (NT + T)%nat] -> is_parse NT T n p -> (n <= N)%nat ->
  represents spans b (map (cons b) (pspans NT 0 p)) ->
  exists splits, cky_intermediary (nonzero (row_tensor spans b)) = Ok splits /\
    forall i x l r, occurs p 0 i (PN x l r) ->
      splits i (i + (psize l + psize r) - 1)%nat = Some ((i + psize l - 1)%nat, psym NT l, psym NT r).
Proof.
  intros Hsh (Hsz & Hbd & Hsy) Hn R. apply cky_intermediary_spec. intro e. rewrite nonzero_in. unfold row_tensor. cbn [shape dat].
  assert (Hin : forall e, In e (pspans NT 0 p) -> Forall2 lt e (tl (shape spans))).
  { intros e0 He. pose proof He as He2. apply pspans_in in He2 as (a & k & s & -> & H1 & H2 & H3). rewrite Hsh. repeat constructor; try lia.
    assert (K : forall q, pbounded NT T q -> forall i a k s, In [a; k; s] (pspans NT i q) -> (s < NT + T)%nat).
    { clear. induction q as [t|y l IHl r IHr]; intros Hb i a k s H; cbn [pspans] in H.
      - destruct H as [[= <- <- <-]|[]]. cbn in Hb. lia.
      - destruct Hb as (? & ? & ?). destruct H as [[= <- <- <-]|H]; [lia|]. apply in_app_iff in H as [H|H]; [eapply IHl|eapply IHr]; eauto. }
    eapply K; eauto. }
  split.
  - intros [Hi Hd]. rewrite R in Hd by auto. rewrite count_cons in Hd. apply (count_occ_In idx_dec). lia.
  - intro He. split; [auto|]. rewrite R by auto. rewrite count_cons. apply (count_occ_In idx_dec) in He. lia.
Qed.
Print Assumptions C32_splits.
(** without lengths the conversion fails *)
Theorem C32_lengths_required spans NT T batch N N2 : shape spans = [S batch; N2; N; (NT + T)%nat] ->
  cky_to_parts spans NT T None = Err TypeError.
Proof. intro H. unfold cky_to_parts. rewrite H, Nat.eqb_refl. reflexivity. Qed.
(** a tree with three words, two nonterminals, two preterminals:
    1 -> 0 (0 -> t1 t0) t1 *)
Definition ex_parse : ptree := PN 1 (PN 0 (PT 1) (PT 0)) (PT 1).
(** example: a chart *)
Definition ex_chart : tensor Z :=
  {| shape := [1; 3; 3; 4]%nat; dat := fun i => Z.of_nat (count_occ idx_dec (map (cons 0%nat) (pspans 2 0 ex_parse)) i) |}.
Example C32_example : exists terms rules roots, cky_to_parts ex_chart 2 2 (Some [3%nat]) = Ok (terms, rules, roots) /\
  dat rules [0; 1; 0; 3]%nat = 1 /\ dat rules [0; 0; 3; 2]%nat = 1 /\ dat rules [0; 1; 3; 2]%nat = 0 /\ dat terms [0; 1; 0]%nat = 1 /\ dat roots [0; 1]%nat = 1.
Proof.
  destruct (@C32_chart_to_counts ex_chart 2 2 [3%nat] 1 3 (fun _ => ex_parse)) as (te & ru & ro & E & S1 & _ & _ & H); try reflexivity; try (cbn; lia).
  - intros b Hb. assert (b = 0)%nat as -> by lia. split; [cbn; unfold is_parse; cbn; lia|]. split; [cbn; lia|]. intros i _. reflexivity.
  - destruct (H 0%nat ltac:(lia)) as (A & B & C). rewrite S1 in A. exists te, ru, ro. split; [exact E|].
    rewrite !B, A, C by (cbn; lia). repeat split; reflexivity.
Qed.
Print Assumptions C32_example.
(** instances of the other statements *)
Definition counts (sh : list nat) (b : nat) (parts : list (list nat)) : tensor Z :=
  {| shape := sh; dat := fun i => Z.of_nat (count_occ idx_dec parts i) |}.
Example C32_anchored_example : exists spans te ru ro,
  cky_from_parts (counts [1;3;2]%nat 0 (map (cons 0%nat) (pterms 0 ex_parse))) (counts [1;3;3;2;4;4]%nat 0 (map (cons 0%nat) (prules 2 0 ex_parse))) (zeros []) = Ok (spans, (2, 2)%nat) /\
  cky_to_parts spans 2 2 (Some [3%nat]) = Ok (te, ru, ro) /\ dat ru [0; 1; 0; 3]%nat = 1 /\ dat spans [0; 0; 1; 0]%nat = 1.
Proof.
  destruct (@C32_anchored_to_counts (counts [1;3;2]%nat 0 (map (cons 0%nat) (pterms 0 ex_parse))) (counts [1;3;3;2;4;4]%nat 0 (map (cons 0%nat) (prules 2 0 ex_parse))) (zeros []) 2 2 [3%nat] 1 3 (fun _ => ex_parse))
    as (sp & te & ru & ro & E & R & E' & H); try reflexivity; try (cbn; lia).
  - intros b Hb. assert (b = 0)%nat as -> by lia. split; [cbn; unfold is_parse; cbn; lia|]. split; [cbn; lia|]. split; intros i _; reflexivity.
  - exists sp, te, ru, ro. split; [exact E|]. split; [exact E'|]. destruct (H 0%nat ltac:(lia)) as (_ & B & _). split; [now rewrite B|].
    injection E as <-. reflexivity.
Qed.
Example C32_splits_example : exists splits, cky_intermediary (nonzero (row_tensor ex_chart 0)) = Ok splits /\
  splits 0%nat 2%nat = Some (1, 0, 3)%nat /\ splits 0%nat 1%nat = Some (0, 3, 2)%nat.
Proof.
  destruct (@C32_splits ex_chart 0 2 2 3 3 ex_parse) as (sp & E & H); try reflexivity; [unfold is_parse; cbn; lia|intros i _; reflexivity|].
  exists sp. split; [exact E|]. split.
  - apply (H 0%nat 1%nat (PN 0 (PT 1) (PT 0)) (PT 1)). constructor.
  - apply (H 0%nat 0%nat (PT 1) (PT 0)). eapply occ_l. constructor.
Qed.
Example C29_from_to_example : exists s e', lc_from_parts (counts [1;2;3;3]%nat 0 (seq_parts 0 [2;0]%nat)) = Ok (s, 3%nat) /\
  lc_to_parts s 3 (Some [2%nat]) = Ok e' /\ same (counts [1;2;3;3]%nat 0 (seq_parts 0 [2;0]%nat)) e'.
Proof.
  apply (@C29_chain_from_to _ 1 3 3 [2%nat] (fun _ => [2;0]%nat)); try reflexivity; try lia. intros b Hb. assert (b = 0)%nat as -> by lia.
  split; [split; [reflexivity|repeat constructor; lia]|]. split; [cbn; lia|]. intros i _. reflexivity.
Qed.
Example C31_from_to_example : exists s e', dp_from_parts (counts [1;3;3]%nat 0 (dep_parts 0 [2;0]%nat)) = Ok s /\
  dp_to_parts s (Some [2%nat]) = Ok e' /\ same (counts [1;3;3]%nat 0 (dep_parts 0 [2;0]%nat)) e'.
Proof.
  apply (@C31_heads_from_to _ 1 3 [2%nat] (fun _ => [2;0]%nat)); try reflexivity. intros b Hb. assert (b = 0)%nat as -> by lia.
  split; [intros c Hc; cbn in Hc; destruct c as [|[|c]]; cbn; lia|]. split; [reflexivity|]. split; [cbn; lia|]. intros i _. reflexivity.
Qed.
