(** * P_LogProb: log_prob on whole tensors (C65) *)
From Verif Require Import Base Ops Terms Semirings Poly Chain LinearChain SemiMarkov CkyCrf Cky DepSpec DepTree
  Batch Family Approx Grad Sample Dist Purity Degree Shape Api Query Tensor Shard P_Real P_Sample P_Learn P_Cross LogProb.
Set Implicit Arguments.
Local Open Scope R_scope.

(** ** Layout *)
Lemma seq_blocks p d : seq 0 (d * p) = flat_map (fun i => map (fun k => i * p + k)%nat (seq 0 p)) (seq 0 d).
Proof.
  induction d as [|d IH]; [reflexivity|]. rewrite seq_S, flat_map_app, <- IH. cbn [flat_map]. rewrite app_nil_r, Nat.add_0_l.
  replace (S d * p)%nat with (d * p + p)%nat by lia. rewrite seq_app, Nat.add_0_l. f_equal.
  clear. generalize (d * p)%nat. intro m. induction p as [|p IH] in m |- *; [reflexivity|]. cbn [seq map]. rewrite Nat.add_0_r. f_equal.
  rewrite IH, <- seq_shift, map_map. apply map_ext. intro. lia.
Qed.
Lemma unflat_all sh : map (unflat sh) (seq 0 (prodl sh)) = indices sh.
Proof.
  induction sh as [|d sh IH]; [reflexivity|]. change (prodl (d :: sh)) with (d * prodl sh)%nat. rewrite seq_blocks.
  change (indices (d :: sh)) with (flat_map (fun i => map (cons i) (indices sh)) (seq 0 d)). rewrite <- IH.
  generalize (seq 0 d) as l. induction l as [|i l IHl]; [reflexivity|]. cbn [flat_map]. rewrite map_app, IHl, !map_map. f_equal.
  apply map_ext_in. intros k Hk. apply in_seq in Hk. cbn [unflat].
  rewrite Nat.div_add_l, Nat.div_small, Nat.add_0_r by lia. rewrite Nat.add_comm, Nat.mod_add, Nat.mod_small by lia. reflexivity.
Qed.
Lemma unflat_block s t i k : inr s i -> (k < prodl t)%nat -> unflat (s ++ t) (flat s i * prodl t + k) = i ++ unflat t k.
Proof.
  intros Hi Hk. rewrite <- (flat_unflat t Hk) at 1. rewrite <- (flat_app t (unflat t k) Hi). apply unflat_flat. apply inr_app; auto. now apply inr_unflat.
Qed.
(** the sum over the block of a contiguous tensor is the sum over the remaining indices *)
Lemma block_sum (f : list nat -> R) s t i : inr s i ->
  RSum (fun k => f (unflat (s ++ t) (flat s i * prodl t + k))) (seq 0 (prodl t)) = RSum (fun e => f (i ++ e)) (indices t).
Proof.
  intro Hi. rewrite <- unflat_all, (Sum_map R_csr). apply (Sum_ext_in R_csr). intros k Hk. apply in_seq in Hk. now rewrite unflat_block by (auto; lia).
Qed.
(** ** Broadcasting *)
Lemma bzip_self s : bzip s s = Some s.
Proof. induction s as [|d s IH]; [reflexivity|]. cbn [bzip]. unfold bdim. now rewrite Nat.eqb_refl, IH. Qed.
Lemma bzip_ones s : bzip (repeat 1%nat (length s)) s = Some s.
Proof.
  induction s as [|d s IH]; [reflexivity|]. cbn [length repeat bzip]. rewrite IH. unfold bdim. destruct (Nat.eqb_spec 1 d) as [->|]; reflexivity.
Qed.
Lemma bdim_sym d e x : bdim d e = Some x -> bdim e d = Some x.
Proof.
  unfold bdim. rewrite (Nat.eqb_sym e d). destruct (Nat.eqb_spec d e) as [->|]; auto. destruct (Nat.eqb_spec d 1), (Nat.eqb_spec e 1); subst; auto; congruence.
Qed.
Lemma bzip_sym s t u : bzip s t = Some u -> bzip t s = Some u.
Proof.
  revert t u. induction s as [|d s IH]; intros [|e t] u H; try discriminate; auto. cbn [bzip] in *.
  destruct (bdim d e) eqn:E1; [|discriminate]. destruct (bzip s t) eqn:E2; [|discriminate]. now rewrite (@bdim_sym _ _ _ E1), (IH _ _ E2).
Qed.
Lemma bidx0_self sh e : inr sh e -> bidx0 sh e = e.
Proof.
  unfold bidx0. induction 1 as [|i d e sh H _ IH]; [reflexivity|]. cbn [combine map fst snd]. rewrite IH. destruct (Nat.eqb_spec d 1); [|reflexivity]. f_equal. lia.
Qed.
Lemma bidx_self sh e : inr sh e -> bidx sh e = e.
Proof. intro H. unfold bidx. rewrite (inr_length H), Nat.sub_diag. now apply bidx0_self. Qed.
Lemma firstn_here A (s t : list A) : firstn (length s) (s ++ t) = s.
Proof. rewrite firstn_app, Nat.sub_diag, firstn_all. cbn. apply app_nil_r. Qed.

(** ** C65 *)
Lemma lp_bshape ss B vb d ev : bdim B vb = Some d -> bshape (B :: ev) (ss ++ vb :: ev) = Some (ss ++ d :: ev).
Proof.
  intro Hd. unfold bshape. rewrite app_length. cbn [length]. replace (Nat.max (S (length ev)) (length ss + S (length ev))) with (length ss + S (length ev))%nat by lia.
  unfold padl. rewrite !app_length. cbn [length]. replace (length ss + S (length ev) - S (length ev))%nat with (length ss) by lia. rewrite Nat.sub_diag. cbn [repeat app].
  apply bzip_app; [apply bzip_ones|]. cbn [bzip]. now rewrite Hd, bzip_self.
Qed.
Lemma bidx_row B ev s b e : inr ev e -> bidx (B :: ev) (s ++ b :: e) = (if (B =? 1)%nat then 0%nat else b) :: e.
Proof.
  intro H. pose proof (inr_length H) as L. unfold bidx. rewrite app_length. cbn [length]. rewrite L.
  replace (length s + S (length ev) - S (length ev))%nat with (length s) by lia.
  rewrite skipn_app, Nat.sub_diag, skipn_all. cbn [app skipn]. change (bidx0 (B :: ev) (b :: e)) with ((if (B =? 1)%nat then 0%nat else b) :: bidx0 ev e). now rewrite bidx0_self.
Qed.
Lemma bidx_full ss vb ev s b e : inr ss s -> inr ev e -> bidx (ss ++ vb :: ev) (s ++ b :: e) = s ++ (if (vb =? 1)%nat then 0%nat else b) :: e.
Proof.
  intros Hs He. unfold bidx. rewrite !app_length. cbn [length]. rewrite (inr_length Hs), (inr_length He), Nat.sub_diag. cbn [skipn].
  rewrite bidx0_app by (now rewrite (inr_length Hs)). rewrite bidx0_self by auto. f_equal.
  change (bidx0 (vb :: ev) (b :: e)) with ((if (vb =? 1)%nat then 0%nat else b) :: bidx0 ev e). now rewrite bidx0_self.
Qed.
Lemma prodl_pos s : Forall (lt 0) s -> (0 < prodl s)%nat.
Proof. induction 1 as [|x l H _ IH]; [cbn; lia|]. change (prodl (x :: l)) with (x * prodl l)%nat. nia. Qed.
Lemma bdim_pos B vb d : (0 < B)%nat -> (0 < vb)%nat -> bdim B vb = Some d -> (0 < d)%nat.
Proof. unfold bdim. intros. destruct (B =? vb)%nat; [congruence|]. destruct (B =? 1)%nat; [congruence|]. destruct (vb =? 1)%nat; congruence. Qed.

Lemma score_shape ss B vb d ev phi v : shape v = ss ++ vb :: ev -> Forall (lt 0) ss -> (0 < B)%nat -> (0 < vb)%nat -> bdim B vb = Some d ->
  exists r, t_score {| shape := B :: ev; dat := phi |} v (length (shape v) - length ev) = Ok r /\ shape r = ss ++ [d] /\
    forall s b, inr ss s -> (b < d)%nat ->
      dat r (s ++ [b]) = RSum (fun e => phi ((if (B =? 1)%nat then 0%nat else b) :: e) * dat v (s ++ (if (vb =? 1)%nat then 0%nat else b) :: e)) (indices ev).
Proof.
  intros Ev Hs HB Hv Hd. pose proof (bdim_pos HB Hv Hd) as Pd. unfold t_score, tzip. cbn [shape]. rewrite Ev, (@lp_bshape ss B vb d ev Hd). cbn [shape dat].
  replace (length (ss ++ vb :: ev) - length ev)%nat with (length (ss ++ [d])) by (rewrite !app_length; cbn [length]; lia).
  replace (ss ++ d :: ev) with ((ss ++ [d]) ++ ev) by (now rewrite <- app_assoc). rewrite firstn_here.
  assert (P : (0 < prodl (ss ++ [d]))%nat) by (apply prodl_pos, Forall_app; auto).
  destruct (Nat.eqb_spec (prodl (ss ++ [d])) 0) as [E|_]; [lia|]. rewrite prodl_app, Nat.mul_comm, Nat.mod_mul, Nat.div_mul by lia. cbn [Nat.eqb negb].
  eexists. split; [reflexivity|]. cbn [shape dat]. split; [reflexivity|]. intros s b Hi Hb.
  assert (Hi' : inr (ss ++ [d]) (s ++ [b])) by (apply inr_app; [auto|repeat constructor; auto]).
  rewrite (@block_sum (fun idx => phi (bidx (B :: ev) idx) * dat v (bidx (ss ++ vb :: ev) idx)) (ss ++ [d]) ev (s ++ [b]) Hi').
  apply (Sum_ext_in R_csr). intros e He. apply indices_inr in He. rewrite <- app_assoc. cbn [app]. now rewrite bidx_row, bidx_full by auto.
Qed.

Lemma bdim_again B vb d : bdim B vb = Some d -> bdim d B = Some d.
Proof.
  unfold bdim. destruct (Nat.eqb_spec B vb) as [->|]; [intros [= ->]; now rewrite Nat.eqb_refl|].
  destruct (Nat.eqb_spec B 1) as [->|]; [intros [= ->]|].
  - destruct (Nat.eqb_spec d 1) as [->|]; reflexivity.
  - destruct (Nat.eqb_spec vb 1); [|discriminate]. intros [= ->]. now rewrite Nat.eqb_refl.
Qed.
Lemma sub_bshape ss d B : bdim d B = Some d -> bshape (ss ++ [d]) [B] = Some (ss ++ [d]).
Proof.
  intro H. unfold bshape. rewrite app_length. cbn [length]. replace (Nat.max (length ss + 1) 1) with (length ss + 1)%nat by lia.
  unfold padl. rewrite app_length. cbn [length]. rewrite Nat.sub_diag, Nat.add_sub. cbn [repeat app].
  apply bzip_app; [apply bzip_sym, bzip_ones|]. cbn [bzip]. now rewrite H.
Qed.

(** an event has the shape of the potentials that the dynamic program accepts *)
Theorem C65_event_shape c O p : samples c -> run c O p =
  match c with
  | CLin _ _ _ ls => lc_logpartition O (tens (batch_of c :: event_shape c) p) ls
  | CSemi _ _ _ _ ls => sm_logpartition O (tens (batch_of c :: event_shape c) p) ls
  | CTree _ _ _ ls => ck_logpartition O (tens (batch_of c :: event_shape c) p) ls
  | CDep mr _ _ _ ls => dp_logpartition O mr (szero O) (tens (batch_of c :: event_shape c) p) ls
  | CCfg _ _ _ _ _ => run c O p
  end.
Proof. intro Hc. destruct c as [batch N C ls|batch N K C ls|batch N NT ls|batch N NT T ls|mr batch n [L|] ls]; reflexivity. Qed.

(** any sample dimensions before the batch, batch dimensions of size one broadcast: every
    entry is the score of its event under its row minus the row's log-partition *)
Theorem C65_broadcast c phi v ss vb d : valid c -> samples c -> (0 < batch_of c)%nat ->
  shape v = ss ++ vb :: event_shape c -> Forall (lt 0) ss -> (0 < vb)%nat -> bdim (batch_of c) vb = Some d ->
  exists r, t_log_prob c phi v = Ok r /\ shape r = ss ++ [d] /\
    forall s b, inr ss s -> (b < d)%nat ->
      let row := if (batch_of c =? 1)%nat then 0%nat else b in
      let vrow := if (vb =? 1)%nat then 0%nat else b in
      q_log_prob c phi row (fun e => dat v (s ++ vrow :: tl e)) = Ok (dat r (s ++ [b])).
Proof.
  intros V Hc HB Ev Hs Hv Hd. destruct (@score_shape ss (batch_of c) vb d (event_shape c) phi v Ev Hs HB Hv Hd) as (r & Er & Sr & Hr).
  destruct (run_ok c (log_ops NEG) phi V) as (z & Ez & Lz). change (run c (log_ops NEG) phi) with (q_partition c phi) in Ez.
  assert (EL : t_log_prob c phi v = tzip Rminus r {| shape := [batch_of c]; dat := fun i => nth (hd 0%nat i) z 0 |}).
  { unfold t_log_prob. rewrite Er, Ez. destruct c; try contradiction; reflexivity. }
  rewrite EL. unfold tzip. cbn [shape dat]. rewrite Sr, (@sub_bshape ss d (batch_of c) (@bdim_again _ _ _ Hd)).
  eexists. split; [reflexivity|]. split; [reflexivity|]. intros s b Hi Hb.
  set (row := if (batch_of c =? 1)%nat then 0%nat else b). set (vrow := if (vb =? 1)%nat then 0%nat else b). cbn [dat].
  assert (Hi' : inr (ss ++ [d]) (s ++ [b])) by (apply inr_app; [auto|repeat constructor; auto]).
  rewrite bidx_self by auto. rewrite (@bidx_row (batch_of c) [] s b []) by constructor. cbn [hd]. fold row.
  rewrite Hr by auto. fold row vrow.
  assert (EQ : q_log_prob c phi row (fun e => dat v (s ++ vrow :: tl e)) =
    Ok (RSum (fun e => phi e * dat v (s ++ vrow :: tl e)) (map (cons row) (indices (event_shape c))) - nth row z 0)).
  { unfold q_log_prob. rewrite Ez. destruct c; try contradiction; reflexivity. }
  rewrite EQ. f_equal. f_equal. apply (Sum_map R_csr).
Qed.
Print Assumptions C65_broadcast.

(** a batch of samples of structures: every entry is the log-probability of its structure *)
Theorem C65_events c phi v ss (y : list nat -> forall b, st (spec_of c b)) : valid c -> samples c -> (0 < batch_of c)%nat ->
  shape v = ss ++ batch_of c :: event_shape c -> Forall (lt 0) ss ->
  (forall s b, inr ss s -> (b < batch_of c)%nat -> row_ok c b /\ ok (spec_of c b) (y s b) /\
     forall e, dat v (s ++ b :: e) = uses (prt (spec_of c b)) (b :: e) (y s b)) ->
  exists r, t_log_prob c phi v = Ok r /\ shape r = ss ++ [batch_of c] /\
    forall s b, inr ss s -> (b < batch_of c)%nat ->
      dat r (s ++ [b]) = sc (prt (spec_of c b)) phi (y s b) - at_row 0 (q_partition c phi) b.
Proof.
  intros V Hc HB Ev Hs Hy. assert (Hd : bdim (batch_of c) (batch_of c) = Some (batch_of c)) by (unfold bdim; now rewrite Nat.eqb_refl).
  destruct (@C65_broadcast c phi v ss (batch_of c) (batch_of c) V Hc HB Ev Hs HB Hd) as (r & Er & Sr & Hr).
  exists r. split; [exact Er|]. split; [exact Sr|]. intros s b Hi Hb. specialize (Hr s b Hi Hb). cbv zeta in Hr.
  assert (E1 : (if (batch_of c =? 1)%nat then 0%nat else b) = b) by (destruct (Nat.eqb_spec (batch_of c) 1); [lia|reflexivity]). rewrite E1 in Hr.
  destruct (Hy s b Hi Hb) as (Hok & Hyok & Hv). unfold q_log_prob in Hr.
  destruct (run_ok c (log_ops NEG) phi V) as (z & Ez & Lz). change (run c (log_ops NEG) phi) with (q_partition c phi) in Ez. rewrite Ez in Hr |- *.
  assert (HR : RSum (fun e => phi e * dat v (s ++ b :: tl e)) (map (cons b) (indices (event_shape c))) - nth b z 0 = dat r (s ++ [b])).
  { destruct c; try contradiction; injection Hr; auto. }
  rewrite <- HR. cbn [at_row]. f_equal.
  etransitivity; [|apply (@score_event phi (map (cons b) (indices (event_shape c))) (prt (spec_of c b) (y s b)))].
  - apply (Sum_ext_in R_csr). intros e He. apply in_map_iff in He as (e' & <- & _). cbn [tl]. now rewrite Hv.
  - apply ids_nodup.
  - now apply parts_in_event.
Qed.
Print Assumptions C65_events.

(** batch sizes that do not broadcast raise *)
Theorem C65_mismatch c phi v ss vb : samples c -> shape v = ss ++ vb :: event_shape c -> bdim (batch_of c) vb = None ->
  t_log_prob c phi v = Err RuntimeError.
Proof.
  intros Hc Ev Hd. set (ev := event_shape c) in *.
  assert (E : bshape (batch_of c :: ev) (shape v) = None).
  { rewrite Ev. unfold bshape. rewrite app_length. cbn [length]. replace (Nat.max (S (length ev)) (length ss + S (length ev))) with (length ss + S (length ev))%nat by lia.
    unfold padl. rewrite !app_length. cbn [length]. replace (length ss + S (length ev) - S (length ev))%nat with (length ss) by lia. rewrite Nat.sub_diag. cbn [repeat app].
    clear Ev. induction ss as [|x ss IH]; [cbn [length repeat app bzip]; now rewrite Hd|]. cbn [length repeat app bzip]. rewrite IH. destruct (bdim 1 x); reflexivity. }
  assert (T : t_score {| shape := batch_of c :: ev; dat := phi |} v (length (shape v) - length ev) = Err RuntimeError).
  { unfold t_score, tzip. cbn [shape]. now rewrite E. }
  unfold t_log_prob. fold ev. rewrite T. destruct c; try contradiction; reflexivity.
Qed.
(** no samples at all: the view cannot be inferred *)
Theorem C65_no_samples c phi v ss vb d : samples c -> shape v = ss ++ vb :: event_shape c -> bdim (batch_of c) vb = Some d -> In 0%nat ss ->
  t_log_prob c phi v = Err RuntimeError.
Proof.
  intros Hc Ev Hd H0. set (ev := event_shape c) in *.
  assert (T : t_score {| shape := batch_of c :: ev; dat := phi |} v (length (shape v) - length ev) = Err RuntimeError).
  { unfold t_score, tzip. cbn [shape]. rewrite Ev, (@lp_bshape ss (batch_of c) vb d ev Hd). cbn [shape].
    replace (length (ss ++ vb :: ev) - length ev)%nat with (length (ss ++ [d])) by (rewrite !app_length; cbn [length]; lia).
    replace (ss ++ d :: ev) with ((ss ++ [d]) ++ ev) by (now rewrite <- app_assoc). rewrite firstn_here.
    assert (Z : prodl (ss ++ [d]) = 0%nat).
    { rewrite prodl_app. assert (Z0 : prodl ss = 0%nat); [|lia]. clear -H0. induction ss as [|x ss IH]; [destruct H0|].
      change (prodl (x :: ss)) with (x * prodl ss)%nat. destruct H0 as [->|H0]; [reflexivity|]. rewrite IH by auto. lia. }
    now rewrite Z. }
  unfold t_log_prob. fold ev. rewrite T. destruct c; try contradiction; reflexivity.
Qed.

(** an event without a batch dimension: the scores of all rows are added up *)
Theorem C65_unbatched c phi v : valid c -> samples c -> (0 < batch_of c)%nat -> shape v = event_shape c ->
  exists r, t_log_prob c phi v = Ok r /\ shape r = [batch_of c] /\
    forall b, (b < batch_of c)%nat ->
      dat r [b] = RSum (fun b' => RSum (fun e => phi (b' :: e) * dat v e) (indices (event_shape c))) (seq 0 (batch_of c)) - at_row 0 (q_partition c phi) b.
Proof.
  intros V Hc HB Ev. set (ev := event_shape c) in *. set (B := batch_of c) in *.
  assert (EB : bshape (B :: ev) ev = Some (B :: ev)).
  { unfold bshape. cbn [length]. replace (Nat.max (S (length ev)) (length ev)) with (S (length ev)) by lia. unfold padl. cbn [length].
    rewrite Nat.sub_diag. replace (S (length ev) - length ev)%nat with 1%nat by lia. cbn [repeat app bzip]. rewrite bzip_self. unfold bdim.
    destruct (Nat.eqb_spec B 1) as [->|]; reflexivity. }
  assert (T : exists r, t_score {| shape := B :: ev; dat := phi |} v (length (shape v) - length ev) = Ok r /\ shape r = [] /\
    dat r [] = RSum (fun b' => RSum (fun e => phi (b' :: e) * dat v e) (indices ev)) (seq 0 B)).
  { unfold t_score, tzip. cbn [shape]. rewrite Ev, EB, Nat.sub_diag. cbn [shape firstn prodl fold_right Nat.eqb]. rewrite Nat.mod_1_r, Nat.div_1_r. cbn [Nat.eqb negb].
    eexists. split; [reflexivity|]. split; [reflexivity|]. cbn [dat flat].
    etransitivity; [exact (@block_sum (fun idx => phi (bidx (B :: ev) idx) * dat v (bidx ev idx)) [] (B :: ev) [] (Forall2_nil _))|].
    cbn [app]. rewrite indices_cons. apply (Sum_ext_in R_csr). intros b' Hb'. apply in_seq in Hb'. apply (Sum_ext_in R_csr). intros e He. apply indices_inr in He.
    assert (E0 := @bidx_row B ev [] b' e He). cbn [app] in E0. rewrite E0. f_equal.
    - destruct (Nat.eqb_spec B 1) as [E1|]; [|reflexivity]. f_equal. f_equal. lia.
    - f_equal. unfold bidx. cbn [length]. rewrite (inr_length He). replace (S (length ev) - length ev)%nat with 1%nat by lia. cbn [skipn]. now apply bidx0_self. }
  destruct T as (r & Er & Sr & Dr).
  destruct (run_ok c (log_ops NEG) phi V) as (z & Ez & Lz). change (run c (log_ops NEG) phi) with (q_partition c phi) in Ez.
  assert (EL : t_log_prob c phi v = tzip Rminus r {| shape := [B]; dat := fun i => nth (hd 0%nat i) z 0 |}).
  { unfold t_log_prob. fold ev B. rewrite Er, Ez. destruct c; try contradiction; reflexivity. }
  rewrite EL, Ez. unfold tzip. cbn [shape]. rewrite Sr.
  assert (E2 : bshape [] [B] = Some [B]). { unfold bshape, padl. cbn. unfold bdim. destruct (Nat.eqb_spec B 1) as [->|]; [reflexivity|]. destruct B as [|[|?]]; reflexivity || lia. }
  rewrite E2. eexists. split; [reflexivity|]. split; [reflexivity|]. intros b Hb. cbn [dat at_row]. rewrite <- Dr. f_equal.
  assert (E0 := @bidx_row B [] [] b [] (Forall2_nil _)). cbn [app] in E0. rewrite E0. cbn [hd]. destruct (Nat.eqb_spec B 1) as [E1|]; [|reflexivity]. f_equal. lia.
Qed.
Print Assumptions C65_unbatched.

(** two sentences of one word with one label: passing the only event without the batch
    dimension returns a log-probability of 1 for both rows, which is not the row's
    log-probability (0) *)
Definition two_words : call := CTree 2 1 1 None.
(** example: an event *)
Definition only : tensor R := {| shape := [1; 1; 1]%nat; dat := fun _ => 1 |}.
Lemma two_words_part b : (b < 2)%nat -> at_row 0 (q_partition two_words (fun _ => 1)) b = 1.
Proof.
  intro Hb. assert (V : valid two_words) by (cbn; repeat split; auto; lia).
  assert (Hr : row_ok two_words b) by (unfold row_ok; cbn; lia). destruct (row_family V Hr) as (F & HF).
  rewrite (row_partition HF), <- (ir_graph HF).
  assert (G : row_graph two_words b = TSum [TLeaf [b; 0; 0; 0]%nat]) by (destruct b as [|[|b]]; [vm_compute; reflexivity|vm_compute; reflexivity|lia]).
  rewrite G. cbn. unfold lse. cbn. unfold Sum. cbn. rewrite ?Rplus_0_r, ?ln_exp. reflexivity.
Qed.
Theorem C65_unbatched_refuted :
  valid two_words /\ samples two_words /\ shape only = event_shape two_words /\
  (forall b, (b < 2)%nat -> exists s, ok (spec_of two_words b) s /\ (forall s', ok (spec_of two_words b) s' -> s' = s) /\
     q_log_prob two_words (fun _ => 1) b (fun e => uses (prt (spec_of two_words b)) e s) = Ok 0 /\
     forall e, In e (indices (event_shape two_words)) -> dat only e = uses (prt (spec_of two_words b)) (b :: e) s) /\
  exists r, t_log_prob two_words (fun _ => 1) only = Ok r /\ shape r = [2]%nat /\ forall b, (b < 2)%nat -> dat r [b] = 1.
Proof.
  assert (V : valid two_words) by (cbn; repeat split; auto; lia).
  split; [exact V|]. split; [exact I|]. split; [reflexivity|]. split.
  - intros b Hb. destruct (run_ok two_words (log_ops NEG) (fun _ => 1) V) as (z & Ez & Lz).
    pose proof (two_words_part Hb) as P. unfold q_partition in P. rewrite Ez in P. cbn [at_row] in P.
    exists (LLeaf 0). split; [split; [reflexivity|cbn; lia]|]. split; [|split].
    + intros s' [L Bd]. destruct s' as [a|a l r]; [cbn in Bd; f_equal; lia|]. exfalso. change (eff_len 1 (lc_len 1 None b)) with 1%nat in L.
      assert (Hl : forall t, (1 <= lsize t)%nat) by (induction t; cbn [lsize]; lia). cbn [lsize] in L. pose proof (Hl l). pose proof (Hl r). lia.
    + unfold q_log_prob, two_words, q_partition. fold two_words. rewrite Ez. cbn [res_map]. f_equal. rewrite P.
      unfold uses. cbn [spec_of prt two_words lparts event_shape]. change (indices [1; 1; 1]%nat) with [[0; 0; 0]%nat]. cbn [map]. rewrite RSum_cons. change (RSum _ []) with 0.
      cbn [count_occ]. destruct (list_eq_dec Nat.eq_dec _ _) as [_|Hne]; [cbn [INR]; ring|]. exfalso. apply Hne. reflexivity.
    + intros e He. change (In e [[0; 0; 0]%nat]) in He. destruct He as [<-|[]]. unfold uses. cbn [spec_of prt two_words lparts count_occ dat only].
      destruct (list_eq_dec Nat.eq_dec _ _) as [_|Hne]; [reflexivity|]. exfalso. apply Hne. reflexivity.
  - destruct (@C65_unbatched two_words (fun _ => 1) only V I ltac:(cbn; lia) eq_refl) as (r & Er & Sr & Hr). exists r. split; [exact Er|]. split; [exact Sr|].
    intros b Hb. rewrite Hr by exact Hb. rewrite two_words_part by exact Hb. change (indices (event_shape two_words)) with [[0; 0; 0]%nat]. cbn [batch_of two_words seq].
    rewrite !RSum_cons. change (RSum _ []) with 0. cbn [dat only]. change (RSum _ []) with 0. ring.
Qed.
Print Assumptions C65_unbatched_refuted.
(** the hypotheses of C65_broadcast are met with two sample dimensions and a batch dimension
    of size one *)
Example lp_hypotheses : exists v d, valid two_words /\ samples two_words /\ (0 < batch_of two_words)%nat /\
  shape v = [3; 4]%nat ++ 1%nat :: event_shape two_words /\ Forall (lt 0) [3; 4]%nat /\ bdim (batch_of two_words) 1 = Some d /\
  exists r, t_log_prob two_words (fun _ => 1) v = Ok r /\ shape r = [3; 4; 2]%nat.
Proof.
  assert (V : valid two_words) by (cbn; repeat split; auto; lia).
  exists {| shape := [3; 4; 1; 1; 1; 1]%nat; dat := fun _ => 1 |}, 2%nat. repeat (split; [first [exact V|exact I|reflexivity|cbn; lia|repeat constructor]|]).
  destruct (@C65_broadcast two_words (fun _ => 1) {| shape := [3; 4; 1; 1; 1; 1]%nat; dat := fun _ => 1 |} [3; 4]%nat 1%nat 2%nat V I ltac:(cbn; lia) eq_refl ltac:(repeat constructor) ltac:(lia) eq_refl) as (r & Er & Sr & _).
  exists r. split; [exact Er|exact Sr].
Qed.
