(** * Tensor: shapes, broadcasting, views; [matmul] on whole tensors
    (semirings.py:12-20) and the checkpointed / sharded products
    (torch_struct/semirings/checkpoint.py). *)
From Verif Require Import Base Ops.
Set Implicit Arguments.

(** ** Indices *)
Definition prodl (sh : list nat) : nat := fold_right Nat.mul 1 sh.
(** the index [idx] is inside a tensor of shape [sh] *)
Definition inr (sh idx : list nat) : Prop := Forall2 (fun i d => i < d) idx sh.
(** row-major position of an index, and its inverse (memory layout of a
    contiguous tensor, which is what [view] keeps) *)
Fixpoint flat (sh idx : list nat) : nat :=
  match sh, idx with
  | _ :: sh', i :: idx' => i * prodl sh' + flat sh' idx'
  | _, _ => 0
  end.
(** torch's row-major layout: the index of the n-th entry *)
Fixpoint unflat (sh : list nat) (n : nat) : list nat :=
  match sh with
  | [] => []
  | _ :: sh' => n / prodl sh' :: unflat sh' (n mod prodl sh')
  end.

(** two tensors of the same shape with the same content *)
Definition teq {A} (s t : tensor A) : Prop :=
  shape s = shape t /\ forall idx, inr (shape s) idx -> dat s idx = dat t idx.
(** spec: two calls return equal tensors or raise the same exception *)
Definition reseq {A} (s t : res (tensor A)) : Prop :=
  match s, t with Ok s, Ok t => teq s t | Err e, Err e' => e = e' | _, _ => False end.

Lemma prodl_app s t : prodl (s ++ t) = prodl s * prodl t.
Proof. induction s as [|d s IH]; simpl; [lia|]. rewrite IH. lia. Qed.
Lemma flat_lt sh idx : inr sh idx -> flat sh idx < prodl sh.
Proof. induction 1 as [|i d idx sh H _ IH]; simpl; [lia|]. nia. Qed.
Lemma inr_pos sh idx : inr sh idx -> 0 < prodl sh.
Proof. intro H. apply flat_lt in H. lia. Qed.
Lemma unflat_flat sh idx : inr sh idx -> unflat sh (flat sh idx) = idx.
Proof.
  induction 1 as [|i d idx sh H Hr IH]; simpl; auto. pose proof (flat_lt Hr).
  rewrite Nat.div_add_l, Nat.div_small, Nat.add_0_r by lia. f_equal.
  rewrite Nat.add_comm, Nat.mod_add, Nat.mod_small by lia. auto.
Qed.
Lemma inr_unflat sh n : n < prodl sh -> inr sh (unflat sh n).
Proof.
  revert n. induction sh as [|d sh IH]; simpl; intros n H; constructor.
  - apply Nat.div_lt_upper_bound; nia.
  - apply IH, Nat.mod_upper_bound. nia.
Qed.
Lemma flat_unflat sh n : n < prodl sh -> flat sh (unflat sh n) = n.
Proof.
  revert n. induction sh as [|d sh IH]; simpl; intros n H; [lia|].
  rewrite IH by (apply Nat.mod_upper_bound; nia). rewrite Nat.mul_comm, <- Nat.div_mod; nia.
Qed.
Lemma flat_app s t i j : inr s i -> flat (s ++ t) (i ++ j) = flat s i * prodl t + flat t j.
Proof. induction 1 as [|a d idx sh H _ IH]; simpl; auto. rewrite IH, prodl_app. lia. Qed.
Lemma inr_app s t i j : inr s i -> inr t j -> inr (s ++ t) (i ++ j).
Proof. apply Forall2_app. Qed.
Lemma inr_length sh idx : inr sh idx -> length idx = length sh.
Proof. induction 1; simpl; auto. Qed.
Lemma inr_app_inv s t idx : inr (s ++ t) idx -> exists i j, idx = i ++ j /\ inr s i /\ inr t j.
Proof.
  intro H. apply Forall2_app_inv_r in H as (i & j & H1 & H2 & ->). eauto.
Qed.

(** ** Broadcasting *)
(** torch broadcasting of one dimension *)
Definition bdim (d e : nat) : option nat :=
  if d =? e then Some d else if d =? 1 then Some e else if e =? 1 then Some d else None.
(** torch's broadcasting of shapes of equal rank *)
Fixpoint bzip (s t : list nat) : option (list nat) :=
  match s, t with
  | [], [] => Some []
  | d :: s, e :: t =>
      match bdim d e, bzip s t with Some x, Some l => Some (x :: l) | _, _ => None end
  | _, _ => None
  end.
(** dimensions are aligned at the right, missing ones count as 1 *)
Definition padl (n : nat) (s : list nat) : list nat := repeat 1 (n - length s) ++ s.
(** torch's broadcasting of shapes *)
Definition bshape (s t : list nat) : option (list nat) :=
  let n := Nat.max (length s) (length t) in bzip (padl n s) (padl n t).
(** the cell of an operand of shape [s] used for cell [idx] of the result *)
Definition bidx0 (s idx : list nat) : list nat :=
  map (fun p => if fst p =? 1 then 0 else snd p) (combine s idx).
(** torch's broadcasting: the cell that is read at an index *)
Definition bidx (s idx : list nat) : list nat := bidx0 s (skipn (length idx - length s) idx).

(** torch.transpose(-2, -1) of a shape or of an index *)
Definition swap2 (l : list nat) : list nat :=
  let n := length l - 2 in
  match skipn n l with [x; y] => firstn n l ++ [y; x] | _ => l end.
(** inserting (torch.unsqueeze) and removing a position *)
Definition insert_at (p x : nat) (l : list nat) : list nat := firstn p l ++ x :: skipn p l.
(** a shape or index without its p-th dimension *)
Definition remove_at (p : nat) (l : list nat) : list nat := firstn p l ++ skipn (S p) l.

Section Model.
  Variable O : ops.
  Notation A := (car O).

  (** semirings.py:89-91, 106-108 [mul] of two whole tensors: cell by cell, with
      broadcasting; incompatible shapes raise RuntimeError. *)
  Definition tmul (a b : tensor A) : res (tensor A) :=
    match bshape (shape a) (shape b) with
    | Some sh => Ok {| shape := sh; dat := fun idx =>
        smul O (dat a (bidx (shape a) idx)) (dat b (bidx (shape b) idx)) |}
    | None => Err RuntimeError
    end.
  (** torch.unsqueeze(-k): a dimension of size 1 is inserted so that it is the
      k-th from the end *)
  Definition tunsqueeze (k : nat) (a : tensor A) : res (tensor A) :=
    let r := length (shape a) in
    if k <=? r + 1 then
      Ok {| shape := insert_at (r + 1 - k) 1 (shape a); dat := fun idx => dat a (remove_at (r + 1 - k) idx) |}
    else Err IndexError.
  (** semirings.py:19 [transpose(-2, -1)] *)
  Definition ttranspose (a : tensor A) : tensor A :=
    {| shape := swap2 (shape a); dat := fun idx => dat a (swap2 idx) |}.
  (** [cls.sum(c)]: sum over the last dimension *)
  Definition tsum_last (a : tensor A) : tensor A :=
    {| shape := removelast (shape a);
       dat := fun idx => ssum O (map (fun k => dat a (idx ++ [k])) (seq 0 (last (shape a) 0))) |}.

  (** semirings.py:12-20 [matmul(cls, a, b)], line by line (act_on = -2; the
      loop over [d] runs once). Also 33-36; 128-135, 145-150, 160-165 for
      arguments that are not BandedMatrix objects (genbmm is not modelled).
      Simplification: the leading ssize dimension is inside [car O], so the
      shapes here are the ones without it. *)
  Definition tmatmul (a b : tensor A) : res (tensor A) :=
    match tunsqueeze 1 a, tunsqueeze 3 b with
    | Ok a, Ok b =>
        match tmul a b with
        | Ok c => Ok (tsum_last (ttranspose c))
        | Err e => Err e
        end
    | Err e, _ => Err e
    | _, Err e => Err e
    end.

  (** semirings.py:43-48 [dot(a, b)] *)
  Definition tdot (a b : tensor A) : res (tensor A) :=
    match tunsqueeze 2 a, tunsqueeze 1 b with
    | Ok a, Ok b =>
        match tmatmul a b with
        (* .squeeze(-1).squeeze(-1): both dimensions have size 1 *)
        | Ok c => Ok {| shape := removelast (removelast (shape c)); dat := fun idx => dat c (idx ++ [0; 0]) |}
        | Err e => Err e
        end
    | Err e, _ => Err e
    | _, Err e => Err e
    end.

  (** ** checkpoint.py *)
  (** torch.Tensor.expand to a shape of the same rank *)
  Definition texpand (sh : list nat) (a : tensor A) : res (tensor A) :=
    if (length sh =? length (shape a)) && forallb (fun p => (fst p =? snd p) || (fst p =? 1)) (combine (shape a) sh)
    then Ok {| shape := sh; dat := fun idx => dat a (bidx (shape a) idx) |}
    else Err RuntimeError.
  (** torch.Tensor.view of a contiguous tensor *)
  Definition tview (sh : list nat) (a : tensor A) : res (tensor A) :=
    if prodl sh =? prodl (shape a)
    then Ok {| shape := sh; dat := fun idx => dat a (unflat (shape a) (flat sh idx)) |}
    else Err RuntimeError.
  (** the size that [view(-1, x, y)] infers *)
  Definition infer (a : tensor A) (x y : nat) : nat := prodl (shape a) / (x * y).
  (** [a[p : q]] on the first dimension (Python clips the ends) *)
  Definition tslice (p q : nat) (a : tensor A) : tensor A :=
    match shape a with
    | n :: sh => {| shape := Nat.min q n - p :: sh;
                    dat := fun idx => match idx with i :: idx => dat a (p + i :: idx) | [] => dat a [] end |}
    | [] => a
    end.
  (** [ret[p : q, :] = v] *)
  Definition tassign (p q : nat) (ret v : tensor A) : res (tensor A) :=
    match shape ret, shape v with
    | n :: sh, m :: sh' =>
        if (Nat.min q n - p =? m) && (if list_eq_dec Nat.eq_dec sh sh' then true else false)
        then Ok {| shape := shape ret; dat := fun idx => match idx with
                   | i :: idx' => if (p <=? i) && (i <? q) then dat v (i - p :: idx') else dat ret idx
                   | [] => dat ret idx end |}
        else Err RuntimeError
    | _, _ => Err RuntimeError
    end.
  (** checkpoint.py:17-21 [matmul_size]; [shape[-2]] etc. on rank >= 2 *)
  Definition batch_dims (s : list nat) : list nat := firstn (length s - 2) s.
  (** checkpoint.py:17-21 [shape[-2]] *)
  Definition dim_2 (s : list nat) : nat := nth (length s - 2) s 0.
  (** checkpoint.py:17-21 [shape[-1]] *)
  Definition dim_1 (s : list nat) : nat := nth (length s - 1) s 0.
  (** checkpoint.py:17-21 [matmul_size] *)
  Definition matmul_size (sa sb : list nat) : list nat :=
    map (fun p => Nat.max (fst p) (snd p)) (combine (batch_dims sa) (batch_dims sb)) ++ [dim_2 sa; dim_1 sb].

  Section Shard.
    Variable fn : tensor A -> tensor A -> res (tensor A).
    (** checkpoint.py:144-145 [for p in range(0, n, step)]: [m] is the number of
        rounds left *)
    Fixpoint shard_loop (m p step : nat) (a2 b2 ret : tensor A) : res (tensor A) :=
      match m with
      | 0 => Ok ret
      | S m' =>
          match fn (tslice p (p + step) a2) (tslice p (p + step) b2) with
          | Err e => Err e
          | Ok v =>
              match tassign p (p + step) ret v with
              | Err e => Err e
              | Ok ret => shard_loop m' (p + step) step a2 b2 ret
              end
          end
      end.
    (** the next call runs if the one before did not raise *)
    Definition bind {X Y} (x : res X) (f : X -> res Y) : res Y := match x with Ok x => f x | Err e => Err e end.
    (** checkpoint.py:127-147 [accumulate_] with [preserve = len(size)] *)
    Definition accumulate (a b : tensor A) (size : list nat) (step : nat) : res (tensor A) :=
      if prodl size <? step then fn a b
      else
        let batch := firstn (length size - 2) size in
        let (ai, ak) := (dim_2 (shape a), dim_1 (shape a)) in
        let (bk, bj) := (dim_2 (shape b), dim_1 (shape b)) in
        bind (texpand (batch ++ [ai; ak]) a) (fun a =>
        bind (texpand (batch ++ [bk; bj]) b) (fun b =>
        bind (tview [infer a ai ak; ai; ak] a) (fun a2 =>
        bind (tview [infer b bk bj; bk; bj] b) (fun b2 =>
        (* torch.zeros of that size: every cell is overwritten below *)
        let ret := {| shape := size; dat := fun _ => szero O |} in
        bind (tview [infer ret ai bj; ai; bj] ret) (fun ret =>
        let n := hd 0 (shape ret) in
        bind (shard_loop ((n + step - 1) / step) 0 step a2 b2 ret) (fun ret =>
        tview size ret)))))).
    (** checkpoint.py:74-85 [_Check.forward] *)
    Definition shard_forward (max_size : nat) (a b : tensor A) : res (tensor A) :=
      accumulate a b (matmul_size (shape a) (shape b)) (max_size / (dim_2 (shape b) * dim_1 (shape a)) + 2).
  End Shard.

  (** checkpoint.py:13-14, 103: [prod(max(i, j) for i, j in zip(a.shape, b.shape))] *)
  Definition broadcast_size (a b : tensor A) : nat :=
    prodl (map (fun p => Nat.max (fst p) (snd p)) (combine (shape a) (shape b))).
  (** checkpoint.py:56-67 [CheckpointSemiring(cls, min_size).matmul], forward value
      (25-27); banded matrices not modelled *)
  Definition ckpt_matmul (min_size : nat) (a b : tensor A) : res (tensor A) :=
    if min_size <? broadcast_size a b then tmatmul a b else tmatmul a b.
  (** checkpoint.py:100-107 [CheckpointShardSemiring(cls, max_size, min_size).matmul] *)
  Definition shard_matmul (max_size min_size : nat) (a b : tensor A) : res (tensor A) :=
    if broadcast_size a b <? min_size then tmatmul a b else shard_forward tmatmul max_size a b.
End Model.

(** ** matmul is the sum of products *)
Lemma bzip_length s t u : bzip s t = Some u -> length s = length u /\ length t = length u.
Proof.
  revert t u. induction s as [|d s IH]; intros [|e t] u H; simpl in H; try discriminate.
  - injection H as <-. auto.
  - destruct (bdim d e); [|discriminate]. destruct (bzip s t) eqn:E; [|discriminate]. injection H as <-.
    simpl. destruct (IH _ _ E). auto.
Qed.
Lemma bzip_app s t u s' t' u' : bzip s t = Some u -> bzip s' t' = Some u' -> bzip (s ++ s') (t ++ t') = Some (u ++ u').
Proof.
  revert t u. induction s as [|d s IH]; intros [|e t] u H H'; simpl in H; try discriminate; simpl.
  - injection H as <-. auto.
  - destruct (bdim d e); [|discriminate]. destruct (bzip s t) eqn:E; [|discriminate]. injection H as <-.
    rewrite (IH _ _ E H'). reflexivity.
Qed.
Lemma padl_app n s t : length s <= n -> padl (n + length t) (s ++ t) = padl n s ++ t.
Proof. intro H. unfold padl. rewrite app_length, app_assoc. f_equal. f_equal. f_equal. lia. Qed.
Lemma bshape_app s t u s' t' u' : bshape s t = Some u -> bzip s' t' = Some u' ->
  bshape (s ++ s') (t ++ t') = Some (u ++ u').
Proof.
  intros H H'. destruct (bzip_length _ _ H') as [E1 E2]. unfold bshape. rewrite !app_length.
  replace (Nat.max _ _) with (Nat.max (length s) (length t) + length s') by lia.
  rewrite padl_app by lia. replace (length s') with (length t') by lia. rewrite padl_app by lia.
  apply bzip_app; auto.
Qed.
Lemma bshape_length s t u : bshape s t = Some u -> length u = Nat.max (length s) (length t).
Proof. intro H. apply bzip_length in H as [H _]. unfold padl in H. rewrite app_length, repeat_length in H. lia. Qed.
Lemma bidx0_app s t i j : length s = length i -> bidx0 (s ++ t) (i ++ j) = bidx0 s i ++ bidx0 t j.
Proof.
  revert i. induction s as [|d s IH]; intros [|x i] H; try discriminate; auto. unfold bidx0 in *. simpl.
  f_equal. apply IH. auto.
Qed.
Lemma bidx_app s t i j : length s <= length i -> length t = length j -> bidx (s ++ t) (i ++ j) = bidx s i ++ bidx0 t j.
Proof.
  intros H1 H2. unfold bidx. rewrite !app_length.
  replace (length i + length j - (length s + length t)) with (length i - length s) by lia.
  rewrite skipn_app. replace (length i - length s - length i) with 0 by lia. simpl.
  apply bidx0_app. rewrite skipn_length. lia.
Qed.
Lemma swap2_app l x y : swap2 (l ++ [x; y]) = l ++ [y; x].
Proof.
  unfold swap2. rewrite app_length. simpl length. replace (length l + 2 - 2) with (length l) by lia.
  rewrite skipn_app, skipn_all, Nat.sub_diag, firstn_app, firstn_all, Nat.sub_diag. simpl. now rewrite app_nil_r.
Qed.
Lemma remove_app l x t : remove_at (length l) (l ++ x :: t) = l ++ t.
Proof.
  unfold remove_at. rewrite firstn_app, firstn_all, Nat.sub_diag. simpl firstn. rewrite app_nil_r. f_equal.
  rewrite skipn_app, skipn_all2 by lia. replace (S (length l) - length l) with 1 by lia. reflexivity.
Qed.
Lemma insert_app l x t : insert_at (length l) x (l ++ t) = l ++ x :: t.
Proof.
  unfold insert_at. rewrite firstn_app, firstn_all, Nat.sub_diag. simpl firstn. rewrite app_nil_r. f_equal. f_equal.
  rewrite skipn_app, skipn_all, Nat.sub_diag. reflexivity.
Qed.
Lemma bdim_refl d : bdim d d = Some d.
Proof. unfold bdim. now rewrite Nat.eqb_refl. Qed.
Lemma bdim_one d : bdim d 1 = Some d /\ bdim 1 d = Some d.
Proof. unfold bdim. destruct (d =? 1) eqn:E. apply Nat.eqb_eq in E; subst; auto. split; auto. rewrite Nat.eqb_sym, E. auto. Qed.
Lemma bcell d i : i < d -> (if d =? 1 then 0 else i) = i.
Proof. intro. destruct (d =? 1) eqn:E; auto. apply Nat.eqb_eq in E. lia. Qed.

Section Matmul.
  Variable O : ops.
  Notation A := (car O).
  Variables (sa sb sc : list nat) (I D J : nat) (a b : tensor A).
  Hypothesis Ha : shape a = sa ++ [I; D].
  Hypothesis Hb : shape b = sb ++ [D; J].
  Hypothesis Hc : bshape sa sb = Some sc.

  Theorem tmatmul_spec : exists c, tmatmul O a b = Ok c /\ shape c = sc ++ [I; J] /\
    forall beta i j, inr sc beta -> i < I -> j < J ->
      dat c (beta ++ [i; j]) =
      ssum O (map (fun k => smul O (dat a (bidx sa beta ++ [i; k])) (dat b (bidx sb beta ++ [k; j]))) (seq 0 D)).
  Proof.
    unfold tmatmul, tunsqueeze. rewrite Ha, Hb, !app_length. simpl length.
    replace (1 <=? length sa + 2 + 1) with true by (symmetry; apply Nat.leb_le; lia).
    replace (3 <=? length sb + 2 + 1) with true by (symmetry; apply Nat.leb_le; lia).
    replace (length sa + 2 + 1 - 1) with (length (sa ++ [I; D])) by (rewrite app_length; simpl; lia).
    replace (length sb + 2 + 1 - 3) with (length sb) by lia.
    assert (E1 : insert_at (length (sa ++ [I; D])) 1 (sa ++ [I; D]) = sa ++ [I; D; 1]).
    { rewrite <- (app_nil_r (sa ++ [I; D])) at 2. rewrite insert_app, <- app_assoc. reflexivity. }
    rewrite E1, insert_app. unfold tmul. cbn [shape dat].
    assert (E2 : bzip [I; D; 1] [1; D; J] = Some [I; D; J]).
    { simpl. rewrite bdim_refl. destruct (bdim_one I) as [-> _], (bdim_one J) as [_ ->]. reflexivity. }
    rewrite (bshape_app _ _ _ _ Hc E2). eexists. split; [reflexivity|]. pose proof (bshape_length _ _ Hc) as L.
    unfold tsum_last, ttranspose. cbn [shape dat].
    assert (E3 : swap2 (sc ++ [I; D; J]) = sc ++ [I; J; D]).
    { change [I; D; J] with ([I] ++ [D; J]). rewrite app_assoc, swap2_app, <- app_assoc. reflexivity. }
    rewrite E3. change [I; J; D] with ([I; J] ++ [D]). rewrite app_assoc, removelast_last, last_last. split; auto.
    intros beta i j Hbeta Hi Hj. pose proof (inr_length Hbeta) as L2. f_equal. apply map_ext_in. intros k Hk. apply in_seq in Hk.
    assert (E4 : swap2 ((beta ++ [i; j]) ++ [k]) = beta ++ [i; k; j]).
    { rewrite <- app_assoc. change ([i; j] ++ [k]) with ([i] ++ [j; k]). rewrite app_assoc, swap2_app, <- app_assoc. reflexivity. }
    rewrite E4. f_equal; f_equal.
    - rewrite bidx_app by (simpl; lia). unfold bidx0. cbn [combine map fst snd]. change (if 1 =? 1 then 0 else j) with 0. rewrite !bcell by lia.
      replace (length (sa ++ [I; D])) with (length (bidx sa beta ++ [i; k])).
      + change (bidx sa beta ++ [i; k; 0]) with (bidx sa beta ++ [i; k] ++ [0]).
        rewrite app_assoc, remove_app. apply app_nil_r.
      + rewrite !app_length. unfold bidx, bidx0. rewrite map_length, combine_length, skipn_length. simpl. lia.
    - rewrite bidx_app by (cbn [length]; lia). unfold bidx0. cbn [combine map fst snd]. change (if 1 =? 1 then 0 else i) with 0. rewrite !bcell by lia.
      replace (length sb) with (length (bidx sb beta)).
      + apply remove_app.
      + unfold bidx, bidx0. rewrite map_length, combine_length, skipn_length. lia.
  Qed.
End Matmul.

Section Dot.
  Variable O : ops.
  Notation A := (car O).
  Variables (sa sb sc : list nat) (D : nat) (a b : tensor A).
  Hypothesis Ha : shape a = sa ++ [D].
  Hypothesis Hb : shape b = sb ++ [D].
  Hypothesis Hc : bshape sa sb = Some sc.
  Theorem tdot_spec : exists c, tdot O a b = Ok c /\ shape c = sc /\
    forall beta, inr sc beta ->
      dat c beta = ssum O (map (fun k => smul O (dat a (bidx sa beta ++ [k])) (dat b (bidx sb beta ++ [k]))) (seq 0 D)).
  Proof.
    unfold tdot, tunsqueeze. rewrite Ha, Hb, !app_length. cbn [length].
    replace (2 <=? length sa + 1 + 1) with true by (symmetry; apply Nat.leb_le; lia).
    replace (1 <=? length sb + 1 + 1) with true by (symmetry; apply Nat.leb_le; lia).
    replace (length sa + 1 + 1 - 2) with (length sa) by lia.
    replace (length sb + 1 + 1 - 1) with (length (sb ++ [D])) by (rewrite app_length; simpl; lia).
    rewrite insert_app.
    assert (E1 : insert_at (length (sb ++ [D])) 1 (sb ++ [D]) = sb ++ [D; 1]).
    { rewrite <- (app_nil_r (sb ++ [D])) at 2. rewrite insert_app, <- app_assoc. reflexivity. }
    rewrite E1.
    match goal with |- context [tmatmul O ?x ?y] =>
      destruct (@tmatmul_spec O sa sb sc 1 D 1 x y eq_refl eq_refl Hc) as (c & -> & Sc & Dc) end.
    eexists. split; [reflexivity|]. cbn [shape dat]. rewrite Sc. split.
    - change [1; 1] with ([1] ++ [1]). now rewrite app_assoc, !removelast_last.
    - intros beta Hbeta. rewrite Dc by (auto; lia). cbn [dat]. f_equal. apply map_ext. intro k.
      pose proof (inr_length Hbeta) as L2. pose proof (bshape_length _ _ Hc) as L.
      assert (LB : forall s, length s <= length sc -> length (bidx s beta) = length s).
      { intros s Hs. unfold bidx, bidx0. rewrite map_length, combine_length, skipn_length. lia. }
      f_equal; f_equal.
      + replace (length sa) with (length (bidx sa beta)) by (apply LB; lia). apply remove_app.
      + replace (length (sb ++ [D])) with (length (bidx sb beta ++ [k])) by (rewrite !app_length, LB by lia; reflexivity).
        change [k; 0] with ([k] ++ [0]). rewrite app_assoc, remove_app. apply app_nil_r.
  Qed.
End Dot.

(** ** Sharding *)
Lemma padl_self s : padl (length s) s = s.
Proof. unfold padl. now rewrite Nat.sub_diag. Qed.
Lemma bshape_same s t : length s = length t -> bshape s t = bzip s t.
Proof. intro H. unfold bshape. rewrite <- H, Nat.max_id, padl_self. rewrite H at 1. now rewrite padl_self. Qed.
Lemma bdim_max d e x : 0 < d -> 0 < e -> bdim d e = Some x -> x = Nat.max d e.
Proof.
  unfold bdim. intros Hd He. destruct (d =? e) eqn:E1; [|destruct (d =? 1) eqn:E2; [|destruct (e =? 1) eqn:E3; [|discriminate]]];
  intros [= <-]; [apply Nat.eqb_eq in E1|apply Nat.eqb_eq in E2|apply Nat.eqb_eq in E3]; lia.
Qed.
Lemma bzip_max s t u : Forall (lt 0) s -> Forall (lt 0) t -> bzip s t = Some u ->
  map (fun p => Nat.max (fst p) (snd p)) (combine s t) = u.
Proof.
  intros Hs. revert t u. induction Hs as [|d s Hd _ IH]; intros t u Ht H; destruct t as [|e t]; simpl in *; try discriminate.
  - congruence.
  - inversion_clear Ht. destruct (bdim d e) eqn:E1; [|discriminate]. destruct (bzip s t) eqn:E2; [|discriminate].
    injection H as <-. f_equal; auto. symmetry. apply bdim_max; auto.
Qed.
Lemma bzip_expand s t u : bzip s t = Some u ->
  forallb (fun p => (fst p =? snd p) || (fst p =? 1)) (combine s u) = true /\
  forallb (fun p => (fst p =? snd p) || (fst p =? 1)) (combine t u) = true.
Proof.
  revert t u. induction s as [|d s IH]; intros [|e t] u H; simpl in H; try discriminate.
  - injection H as <-. auto.
  - destruct (bdim d e) eqn:E1; [|discriminate]. destruct (bzip s t) eqn:E2; [|discriminate]. injection H as <-.
    destruct (IH _ _ E2) as [H1 H2]. simpl. rewrite H1, H2, !andb_true_r. unfold bdim in E1.
    destruct (d =? e) eqn:F1; [injection E1 as <-; apply Nat.eqb_eq in F1; subst; rewrite !Nat.eqb_refl; auto|].
    destruct (d =? 1) eqn:F2; [injection E1 as <-; rewrite Nat.eqb_refl, orb_true_r; auto|].
    destruct (e =? 1) eqn:F3; [|discriminate]. injection E1 as <-. rewrite Nat.eqb_refl, orb_true_r; auto.
Qed.

Section Views.
  Lemma flat3 n X Y m i k : flat [n; X; Y] [m; i; k] = m * (X * Y) + (i * Y + k).
  Proof. cbn [flat prodl fold_right]. lia. Qed.
  Lemma view_batch sc X Y m i k : m < prodl sc -> i < X -> k < Y ->
    unflat (sc ++ [X; Y]) (flat [prodl sc; X; Y] [m; i; k]) = unflat sc m ++ [i; k].
  Proof.
    intros Hm Hi Hk.
    assert (E : flat [prodl sc; X; Y] [m; i; k] = flat (sc ++ [X; Y]) (unflat sc m ++ [i; k])).
    { rewrite flat_app by (now apply inr_unflat). rewrite flat_unflat by auto. reflexivity. }
    rewrite E. apply unflat_flat. apply inr_app; [now apply inr_unflat|]. repeat constructor; auto.
  Qed.
  Lemma view_back sc X Y beta i k : inr sc beta -> i < X -> k < Y ->
    unflat [prodl sc; X; Y] (flat (sc ++ [X; Y]) (beta ++ [i; k])) = [flat sc beta; i; k].
  Proof.
    intros Hb Hi Hk.
    assert (E : flat (sc ++ [X; Y]) (beta ++ [i; k]) = flat [prodl sc; X; Y] [flat sc beta; i; k]).
    { rewrite flat_app by auto. reflexivity. }
    rewrite E. apply unflat_flat. repeat constructor; auto. now apply flat_lt.
  Qed.
  Lemma dims_app (s : list nat) x y : batch_dims (s ++ [x; y]) = s /\ dim_2 (s ++ [x; y]) = x /\ dim_1 (s ++ [x; y]) = y.
  Proof.
    unfold batch_dims, dim_2, dim_1. rewrite app_length. simpl length.
    replace (length s + 2 - 2) with (length s) by lia. repeat split.
    - rewrite firstn_app, firstn_all, Nat.sub_diag. apply app_nil_r.
    - rewrite app_nth2, Nat.sub_diag by lia. reflexivity.
    - rewrite app_nth2 by lia. replace (length s + 2 - 1 - length s) with 1 by lia. reflexivity.
  Qed.
End Views.

Section Shard.
  Variable O : ops.
  Notation A := (car O).
  Variables (sa sb sc : list nat) (I D J : nat) (a b : tensor A).
  Hypothesis Ha : shape a = sa ++ [I; D].
  Hypothesis Hb : shape b = sb ++ [D; J].
  Hypothesis Hc : bzip sa sb = Some sc.
  Hypothesis Pa : Forall (lt 0) sa.
  Hypothesis Pb : Forall (lt 0) sb.
  Hypothesis PI : 0 < I.
  Hypothesis PD : 0 < D.
  Hypothesis PJ : 0 < J.

  (** the entry of the plain product at flattened batch position m *)
  Let F m i j := ssum O (map (fun k => smul O (dat a (bidx sa (unflat sc m) ++ [i; k])) (dat b (bidx sb (unflat sc m) ++ [k; j]))) (seq 0 D)).

  Lemma loop_spec step (a2 b2 : tensor A) :
    shape a2 = [prodl sc; I; D] -> shape b2 = [prodl sc; D; J] ->
    (forall m i k, m < prodl sc -> i < I -> k < D -> dat a2 [m; i; k] = dat a (bidx sa (unflat sc m) ++ [i; k])) ->
    (forall m k j, m < prodl sc -> k < D -> j < J -> dat b2 [m; k; j] = dat b (bidx sb (unflat sc m) ++ [k; j])) ->
    forall rounds p ret, shape ret = [prodl sc; I; J] ->
    (forall m i j, m < prodl sc -> m < p -> i < I -> j < J -> dat ret [m; i; j] = F m i j) ->
    exists ret', shard_loop O (tmatmul O) rounds p step a2 b2 ret = Ok ret' /\ shape ret' = [prodl sc; I; J] /\
      forall m i j, m < prodl sc -> m < p + rounds * step -> i < I -> j < J -> dat ret' [m; i; j] = F m i j.
  Proof.
    intros Sa Sb Da Db. induction rounds as [|r IH]; intros p ret Sr Dr; cbn [shard_loop].
    - exists ret. repeat split; auto. intros. apply Dr; auto. lia.
    - set (n := prodl sc) in *. set (w := Nat.min (p + step) n - p).
      assert (S1 : shape (tslice O p (p + step) a2) = [w] ++ [I; D]) by (unfold tslice; rewrite Sa; reflexivity).
      assert (S2 : shape (tslice O p (p + step) b2) = [w] ++ [D; J]) by (unfold tslice; rewrite Sb; reflexivity).
      assert (S3 : bshape [w] [w] = Some [w]) by (rewrite bshape_same by auto; simpl; now rewrite bdim_refl).
      destruct (@tmatmul_spec O [w] [w] [w] I D J _ _ S1 S2 S3) as (v & -> & Sv & Dv).
      unfold tassign. rewrite Sr, Sv. cbn [app]. fold w. rewrite Nat.eqb_refl.
      destruct (list_eq_dec Nat.eq_dec [I; J] [I; J]); [|congruence]. cbn [andb].
      match goal with |- context [shard_loop _ _ _ _ _ _ _ ?x] => destruct (IH (p + step) x) as (ret' & -> & Sr' & Dr') end.
      + cbn. auto.
      + cbn [dat]. intros m i j Hm Hp Hi Hj.
        destruct (p <=? m) eqn:E1; cbn [andb].
        * apply Nat.leb_le in E1. assert (m <? p + step = true) as -> by (apply Nat.ltb_lt; lia).
          change [m - p; i; j] with ([m - p] ++ [i; j]). rewrite Dv; [|repeat constructor; lia|auto|auto].
          unfold F. f_equal. apply map_ext_in. intros k Hk. apply in_seq in Hk.
          assert (B : bidx [w] [m - p] = [m - p]) by (unfold bidx, bidx0; simpl; rewrite bcell by lia; reflexivity).
          rewrite B. unfold tslice. rewrite Sa, Sb. cbn [app dat].
          replace (p + (m - p)) with m by lia. rewrite Da, Db by lia. reflexivity.
        * apply Nat.leb_gt in E1. apply Dr; auto.
      + exists ret'. repeat split; auto. intros. apply Dr'; auto. lia.
  Qed.

  Theorem shard_spec max_size : reseq (shard_forward O (tmatmul O) max_size a b) (tmatmul O a b).
  Proof.
    assert (L := bzip_length _ _ Hc). destruct L as [L1 L2].
    destruct (dims_app sa I D) as (A1 & A2 & A3). destruct (dims_app sb D J) as (B1 & B2 & B3).
    assert (Hc' : bshape sa sb = Some sc) by (rewrite bshape_same by lia; auto).
    destruct (@tmatmul_spec O sa sb sc I D J _ _ Ha Hb Hc') as (c & Ec & Sc & Dc).
    unfold shard_forward. rewrite Ha, Hb. unfold matmul_size. rewrite A1, A2, A3, B1, B2, B3.
    rewrite (bzip_max Pa Pb Hc). set (step := max_size / (D * D) + 2). unfold accumulate.
    destruct (prodl (sc ++ [I; J]) <? step); [rewrite Ec; split; auto|].
    rewrite Ha, Hb, A2, A3, B2, B3. destruct (dims_app sc I J) as (C1 & _ & _). unfold batch_dims in C1. rewrite C1.
    destruct (bzip_expand _ _ Hc) as [X1 X2].
    assert (Cmb : forall s x y, length s = length sc -> combine (s ++ [x; y]) (sc ++ [x; y]) = combine s sc ++ [(x, x); (y, y)]).
    { clear. intros s x y. revert sc. induction s as [|d s IH]; intros [|e u] E; simpl in *; try discriminate; auto. f_equal. auto. }
    unfold texpand at 1. rewrite Ha, !app_length, L1, Nat.eqb_refl, Cmb, forallb_app, X1 by auto. simpl. rewrite !Nat.eqb_refl. simpl.
    unfold texpand at 1. rewrite Hb, !app_length, L2, Nat.eqb_refl, Cmb, forallb_app, X2 by auto. simpl. rewrite !Nat.eqb_refl. simpl.
    unfold infer. cbn [shape]. rewrite !prodl_app. cbn [prodl fold_right]. rewrite !Nat.mul_1_r, !Nat.div_mul by nia.
    fold (prodl sc). unfold tview at 1. cbn [shape dat]. rewrite prodl_app. cbn [prodl fold_right]. rewrite !Nat.mul_1_r.
    fold (prodl sc). rewrite Nat.eqb_refl. cbn [bind].
    unfold tview at 1. cbn [shape dat]. rewrite prodl_app. cbn [prodl fold_right]. rewrite !Nat.mul_1_r.
    fold (prodl sc). rewrite Nat.eqb_refl. cbn [bind].
    unfold tview at 1. cbn [shape dat]. rewrite prodl_app. cbn [prodl fold_right]. rewrite !Nat.mul_1_r.
    fold (prodl sc). rewrite Nat.eqb_refl. cbn [bind hd shape].
    match goal with |- context [shard_loop _ _ ?n 0 _ ?x ?y ?z] =>
      destruct (@loop_spec step x y eq_refl eq_refl) with (rounds := n) (p := 0) (ret := z) as (ret & -> & Sr & Dr) end.
    - cbn [dat]. intros m i k Hm Hi Hk.
      rewrite view_batch by auto. f_equal.
      rewrite bidx_app.
      + f_equal. unfold bidx0. simpl. now rewrite !bcell.
      + rewrite (inr_length (inr_unflat _ Hm)). lia.
      + reflexivity.
    - cbn [dat]. intros m k j Hm Hk Hj.
      rewrite view_batch by auto. f_equal.
      rewrite bidx_app.
      + f_equal. unfold bidx0. simpl. now rewrite !bcell.
      + rewrite (inr_length (inr_unflat _ Hm)). lia.
      + reflexivity.
    - reflexivity.
    - intros. lia.
    - cbn [bind]. unfold tview. rewrite Sr, prodl_app. cbn [prodl fold_right]. rewrite !Nat.mul_1_r. fold (prodl sc).
      rewrite Nat.eqb_refl, Ec. cbn [reseq]. split; [cbn; auto|]. cbn [shape dat]. intros idx Hidx.
      apply inr_app_inv in Hidx as (beta & ij & -> & Hbeta & Hij).
      inversion Hij as [|i ? ij' ? Hi Hij']; subst. inversion Hij' as [|j ? ij'' ? Hj Hij'']; subst. inversion Hij''; subst.
      rewrite view_back by auto. rewrite Dr; auto.
      + unfold F. rewrite unflat_flat by auto. now rewrite Dc.
      + now apply flat_lt.
      + pose proof (flat_lt Hbeta) as Hf. cbn [Nat.add].
        assert (St : step <> 0) by (unfold step; lia).
        pose proof (Nat.mul_succ_div_gt (prodl sc + step - 1) step St). nia.
  Qed.
End Shard.
