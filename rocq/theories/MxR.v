(** * MxR: determinants and inverses of real matrices given by index functions,
    and their expansions over head vectors (specification level; the linear algebra
    primitives [detR] and [invR] stand for torch's det and inverse) *)
From Coq Require Import Reals.
From Verif Require Import Base Ops Terms Semirings Grad DepSpec.
From mathcomp Require Import all_ssreflect fingroup perm all_algebra.
From Verif Require Import MatTree RField NpSpec.
Set Implicit Arguments.
Unset Strict Implicit.

(** ** Torch primitives *)
(** det of the n x n matrix with entries m i j (torch.logdet is its logarithm) *)
Definition detR (n : nat) (m : nat -> nat -> R) : R := (\det (\matrix_(i < n, j < n) (m i j : R)))%R.
(** entries of torch.inverse *)
Definition invR (n : nat) (m : nat -> nat -> R) (i j : nat) : R :=
  match insub i, insub j with Some i', Some j' => (invmx (\matrix_(i < n, j < n) (m i j : R)))%R i' j' | _, _ => R0 end.

Import GRing.Theory.
Lemma mx_ext n (m m' : nat -> nat -> R) : (forall i j, (i < n)%N -> (j < n)%N -> m i j = m' i j) ->
  (\matrix_(i < n, j < n) (m i j : R))%R = (\matrix_(i < n, j < n) (m' i j : R))%R.
Proof. move=> H. apply/matrixP => i j. by rewrite !mxE H. Qed.
Lemma detR_ext n m m' : (forall i j, (i < n)%coq_nat -> (j < n)%coq_nat -> m i j = m' i j) -> detR n m = detR n m'.
Proof. move=> H. rewrite /detR (mx_ext (m' := m')) // => i j /ltP Hi /ltP Hj. exact: H. Qed.
Lemma invR_ext n m m' i j : (forall i j, (i < n)%coq_nat -> (j < n)%coq_nat -> m i j = m' i j) -> invR n m i j = invR n m' i j.
Proof. move=> H. rewrite /invR (mx_ext (m' := m')) // => i' j' /ltP Hi /ltP Hj. exact: H. Qed.

(** ** Conversions *)
Lemma bigR_sum T (s : seq T) (P : pred T) (F : T -> R) : (\sum_(x <- s | P x) F x)%R = RSum F (List.filter P s).
Proof.
elim: s => [|x s IH]; first by rewrite big_nil. rewrite big_cons IH /=. by case: (P x).
Qed.
Lemma bigR_prod T (s : seq T) (P : pred T) (F : T -> R) : (\prod_(x <- s | P x) F x)%R = RProd F (List.filter P s).
Proof.
elim: s => [|x s IH]; first by rewrite big_nil. rewrite big_cons IH /=. by case: (P x).
Qed.
Lemma iota_seq a n : iota a n = List.seq a n.
Proof. elim: n a => [|n IH] a /=; rewrite ?IH //. Qed.
Lemma bigR_ord_sum n (P : pred nat) (F : nat -> R) : (\sum_(i < n | P i) F i)%R = RSum F (List.filter P (List.seq 0 n)).
Proof. rewrite -(big_mkord P F) bigR_sum. by rewrite /index_iota subn0 iota_seq. Qed.
Lemma bigR_ord_prod n (P : pred nat) (F : nat -> R) : (\prod_(i < n | P i) F i)%R = RProd F (List.filter P (List.seq 0 n)).
Proof. rewrite -(big_mkord P F) bigR_prod. by rewrite /index_iota subn0 iota_seq. Qed.
Lemma filter_all T (s : seq T) : List.filter xpredT s = s.
Proof. elim: s => //= x s ->. done. Qed.
Lemma nthE T (d : T) s i : List.nth i s d = nth d s i.
Proof. elim: s i => [|x s IH] [|i] //=. Qed.

Section enc.
Variable n : nat.
Implicit Types f : {ffun 'I_n -> option 'I_n}.
(** conversion: an optional parent as a number, 0 for the root *)
Definition code (o : option 'I_n) : nat := if o is Some i then S i else O.
(** conversion: a parent function as a list of heads *)
Definition enc f : list nat := [seq code (f i) | i <- enum 'I_n].
Lemma enc_nth f (i : 'I_n) : List.nth i (enc f) 0%N = code (f i).
Proof. rewrite nthE /enc (nth_map i) ?size_enum_ord // nth_ord_enum //. Qed.
Lemma enc_length f : length (enc f) = n.
Proof. rewrite /enc. change (size [seq code (f i) | i <- enum 'I_n] = n). by rewrite size_map size_enum_ord. Qed.
Lemma enc_hd f o : hd_of (enc f) (code o) = code (obind f o).
Proof. case: o => [i|] //=. exact: enc_nth. Qed.
Lemma enc_up f k o : Nat.iter k (hd_of (enc f)) (code o) = code (up f k o).
Proof. elim: k => //= k ->. exact: enc_hd. Qed.
Lemma code_inj : injective code.
Proof. move=> [i|] [j|] //= [] /val_inj -> //. Qed.
Lemma enc_inj : injective enc.
Proof.
move=> f g E. apply/ffunP => i. apply: code_inj. by rewrite -!enc_nth E.
Qed.
Lemma up_forever f i t : up f n (Some i) != None -> up f t (Some i) != None.
Proof.
move=> /walk_repeat [a [b [/andP [ab bn] E NN _]]]. elim/ltn_ind: t => t IH.
case: (leqP t n) => tn; first exact: NN.
have bt : (b <= t)%N by apply: leq_trans bn (ltnW tn).
have -> : up f t (Some i) = up f (t - b + a)%N (Some i) by rewrite -{1}(subnK bt) !upD E.
apply: IH. rewrite -{2}(subnK bt) ltn_add2l. exact: ab.
Qed.
Lemma enc_tree f : acyc f <-> is_tree n (enc f).
Proof.
split=> [/forallP ac|[_ H]].
- split; first exact: enc_length. move=> k [/leP k1 /leP kn]. case: k k1 kn => // k _ kn.
  have E : hd_of (enc f) k.+1 = code (f (Ordinal kn)) by rewrite -(enc_nth f (Ordinal kn)).
  split; first by rewrite E; case: (f _) => [i|] /=; apply/leP.
  exists n. have -> : k.+1 = code (Some (Ordinal kn)) by []. by rewrite enc_up (eqP (ac _)).
- apply/forallP => i. apply/negPn/negP => Hi. have [|_ [t Ht]] := H (S i); first by split; apply/leP.
  move: Ht. have -> : S i = code (Some i) by []. rewrite enc_up. case E: (up f t (Some i)) (up_forever t Hi) => //.
Qed.
(** conversion: a list of heads as a parent function *)
Definition dec (h : list nat) : {ffun 'I_n -> option 'I_n} := [ffun i : 'I_n => if List.nth i h 0%N is k.+1 then insub k else None].
Lemma enc_dec h : is_tree n h -> enc (dec h) = h.
Proof.
move=> [L H]. apply: (@List.nth_ext _ _ _ 0%N 0%N); first by rewrite enc_length L.
rewrite enc_length => i /ltP Hi. have := enc_nth (dec h) (Ordinal Hi). rewrite /= => ->. rewrite ffunE /=.
have [|Hh _] := H (S i); first by split; apply/leP. move: Hh => /= /leP. case: (List.nth i h 0%N) => // k Hk. by rewrite insubT.
Qed.
(** spec: all lists of heads that form a tree *)
Definition trees : list (list nat) := List.map enc (List.filter (fun f => acyc f) (index_enum [finType of {ffun 'I_n -> option 'I_n}])).
Lemma In_mem (T : eqType) (x : T) s : List.In x s <-> x \in s.
Proof.
elim: s => [|y s IH] //=. rewrite in_cons. split=> [[->|/IH ->]|/orP [/eqP ->|/IH]]; rewrite ?eqxx ?orbT //; by [left|right].
Qed.
Lemma uniq_NoDup (T : eqType) (s : seq T) : uniq s -> NoDup s.
Proof. elim: s => [|x s IH] /=; first by constructor. move=> /andP [xs /IH]. constructor => //. by rewrite In_mem; apply/negP. Qed.
Lemma trees_enum : Enumerates (is_tree n) trees.
Proof.
split.
- apply: FinFun.Injective_map_NoDup; first by move=> f g; apply: enc_inj. apply: List.NoDup_filter. apply: uniq_NoDup. exact: index_enum_uniq.
- move=> h. rewrite List.in_map_iff. split=> [[f [<- /List.filter_In [_ /enc_tree]]]|H] //.
  exists (dec h). split; first exact: enc_dec. apply/List.filter_In. split; first by apply/In_mem; rewrite mem_index_enum.
  by apply/enc_tree; rewrite enc_dec.
Qed.
Lemma sum_trees (P : pred (list nat)) (G : list nat -> R) :
  (\sum_(f : {ffun 'I_n -> option 'I_n} | acyc f && P (enc f)) G (enc f))%R = RSum G (List.filter P trees).
Proof.
rewrite bigR_sum /trees. elim: (index_enum _) => [|f s IH] //=. case: (acyc f) => //=. case: (P (enc f)) => //=.
by rewrite !Sum_cons IH.
Qed.
Lemma enc_top f z j fuel k : (k <= fuel)%N -> f j = None -> up f k (Some z) = Some j -> top fuel (enc f) (S z) = S j.
Proof.
elim: fuel k z => [|fuel IH] k z.
  rewrite leqn0 => /eqP -> _ [->]. done.
move=> kf fj. case: k kf => [|k] kf.
  move=> [->]. cbn [top]. have -> : hd_of (enc f) (S j) = 0%N by rewrite /= enc_nth fj. done.
rewrite upS /=. case E: (f z) => [z1|]; last by rewrite up_None. move=> H. rewrite enc_nth E /=. exact: (IH k z1).
Qed.
Lemma anc_top f z j : acyc f -> f j = None -> MatTree.anc f j z = (S j == top n (enc f) (S z)).
Proof.
move=> ac fj. apply/idP/eqP => [/existsP [k /eqP Ek]|E].
  symmetry. apply: (@enc_top _ _ _ _ k) => //. exact: ltnW.
have [m /andP [/eqP fm am]] := root_exists z ac. move/existsP: (am) => [k /eqP Ek].
have := @enc_top f z m n k (ltnW (ltn_ord k)) fm Ek. rewrite -E => -[] /val_inj ->. exact: am.
Qed.
Lemma top_root h z : is_tree n h -> (z < n)%coq_nat -> exists j, [/\ (j < n)%coq_nat, List.nth j h 0%N = 0%N & top n h (S z) = S j].
Proof.
move=> H /ltP zn. have ac : acyc (dec h) by apply/enc_tree; rewrite enc_dec.
have [m /andP [/eqP fm am]] := root_exists (Ordinal zn) ac. move/existsP: (am) => [k /eqP Ek].
exists m. split; first by apply/ltP.
  by rewrite -(enc_dec H) enc_nth fm.
have := @enc_top (dec h) (Ordinal zn) m n k (ltnW (ltn_ord k)) fm Ek. by rewrite enc_dec.
Qed.
End enc.

(** ** Expansions over head vectors *)
Definition wtr (A : nat -> nat -> R) (r : nat -> R) (h : list nat) (j : nat) : R :=
  match List.nth j h 0%N with O => r j | S k => A k j end.
(** spec: weight of one head, with the row z of the Laplacian replaced *)
Definition wtr1 (n : nat) (A : nat -> nat -> R) (o r : nat -> R) (z : nat) (h : list nat) (j : nat) : R :=
  match List.nth j h 0%N with O => if Nat.eqb (S j) (top n h (S z)) then r j else o j | S k => A k j end.
(** the matrix of deptree.py:209-217 over functions of two indices *)
Definition lapR (n : nat) (A : nat -> nat -> R) (r : nat -> R) (i j : nat) : R :=
  if Nat.eqb i j then Rplus (r j) (RSum (fun h => A h j) (List.filter (fun h => negb (Nat.eqb h j)) (List.seq 0 n))) else Ropp (A i j).
(** the matrix of deptree.py:219: row z replaced by the root weights *)
Definition lapR1 (n : nat) (A : nat -> nat -> R) (o r : nat -> R) (z i j : nat) : R := if Nat.eqb i z then r j else lapR n A o i j.
(** spec: the words other than j *)
Definition others (n j : nat) : list nat := List.filter (fun k => negb (Nat.eqb k j)) (List.seq 0 n).
Lemma eqbE a b : Nat.eqb a b = (a == b).
Proof. by []. Qed.

Section expansions.
Variables (n : nat) (A : nat -> nat -> R) (o r : nat -> R).
Let A' (i j : 'I_n) : R := A i j.
Let r' (i : 'I_n) : R := r i.
Let o' (i : 'I_n) : R := o i.
Lemma mx_lapR (r0 : nat -> R) : (\matrix_(i < n, j < n) (lapR n A r0 i j : R))%R = lapm A' (fun i => r0 i).
Proof.
apply/matrixP => i j. rewrite !mxE /lapR eqbE. rewrite (inj_eq val_inj). case: (i == j) => //.
congr Rplus. rewrite (bigR_ord_sum n (fun h => h != j) (fun h => A h j)). done.
Qed.
Lemma mx_lapR1 (z : 'I_n) : (\matrix_(i < n, j < n) (lapR1 n A o r z i j : R))%R = lap1 A' o' r' z.
Proof.
apply/matrixP => i j. rewrite [LHS]mxE [RHS]mxE /lapR1 eqbE. rewrite (inj_eq val_inj). case: (i == z) => //.
have /matrixP /(_ i j) := mx_lapR o. by rewrite mxE.
Qed.
Lemma wt_enc (r0 : nat -> R) (f : {ffun 'I_n -> option 'I_n}) (j : 'I_n) : wt A' (fun i => r0 i) j (f j) = wtr A r0 (enc f) j.
Proof. rewrite /wtr enc_nth. by case: (f j). Qed.
Lemma wt1_enc z (f : {ffun 'I_n -> option 'I_n}) (j : 'I_n) : acyc f -> wt1 A' o' r' z f j = wtr1 n A o r z (enc f) j.
Proof. move=> ac. rewrite /wtr1 enc_nth /wt1. case E: (f j) => [h|] //=. by rewrite anc_top. Qed.
Theorem detR_lap : detR n (lapR n A r) = RSum (fun h => RProd (wtr A r h) (List.seq 0 n)) (trees n).
Proof.
rewrite /detR mx_lapR det_lapm -[trees n]filter_all -sum_trees. apply: eq_big => [f|f _]; first by rewrite andbT.
under eq_bigr => j _ do rewrite wt_enc. by rewrite (bigR_ord_prod n xpredT) filter_all.
Qed.
Theorem detR_lap1 z : (z < n)%coq_nat -> detR n (lapR1 n A o r z) = RSum (fun h => RProd (wtr1 n A o r z h) (List.seq 0 n)) (trees n).
Proof.
move=> /ltP zn. rewrite /detR (mx_lapR1 (Ordinal zn)) det_lap1' -[trees n]filter_all -sum_trees. apply: eq_big => [f|f ac]; first by rewrite andbT.
under eq_bigr => j _ do rewrite wt1_enc //. by rewrite (bigR_ord_prod n xpredT) filter_all.
Qed.
Lemma invR_adj m (i j : 'I_n) : detR n m <> R0 -> Rmult (detR n m) (invR n m i j) = ((\adj (\matrix_(i < n, j < n) (m i j : R)))%R i j : R).
Proof.
move=> H. have U : (\matrix_(i < n, j < n) (m i j : R))%R \in unitmx.
  rewrite unitmxE. apply/eqP. exact: H.
rewrite /invR !valK /invmx U mxE. rewrite -/(detR n m). set a := detR n m. set b := (\adj _)%R i j.
have -> : Rmult a (GRing.mul (GRing.inv a) b) = GRing.mul a (GRing.mul (GRing.inv a) b) by []. rewrite mulrA divrr ?mul1r //; apply/eqP; exact: H.
Qed.
Lemma code_eq (x y : option 'I_n) : Nat.eqb (code x) (code y) = (x == y).
Proof. by rewrite eqbE (inj_eq (@code_inj n)). Qed.
Lemma prod_others (F : nat -> R) (j : 'I_n) : (\prod_(k < n | k != j) F k)%R = RProd F (others n j).
Proof. rewrite -(bigR_ord_prod n (fun k => negb (Nat.eqb k j)) F). by apply: eq_bigl => k. Qed.
Theorem invR_arc j h : (j < n)%coq_nat -> (h < n)%coq_nat -> h <> j -> let L := lapR n A r in detR n L <> R0 ->
  Rmult (detR n L) (Rminus (invR n L j j) (invR n L j h)) =
  RSum (fun t => RProd (wtr A r t) (others n j)) (List.filter (fun t => Nat.eqb (List.nth j t 0%N) (S h)) (trees n)).
Proof.
move=> /ltP Hj /ltP Hh hj L HL. pose j' := Ordinal Hj. pose h' := Ordinal Hh.
have := @adj_arc _ n A' r' j' h'. rewrite -mx_lapR => E. rewrite Rmult_minus_distr_l.
have -> := @invR_adj L j' j' HL. have -> := @invR_adj L j' h' HL. etransitivity; first apply: E; first by apply/eqP => -[].
rewrite -sum_trees. apply: eq_big => [f|f _].
  by rewrite (@enc_nth n f j') -(code_eq (f j') (Some h')).
under eq_bigr => k _ do rewrite (wt_enc r). exact: (prod_others (wtr A r (enc f)) j').
Qed.
Theorem invR_root j : (j < n)%coq_nat -> let L := lapR n A r in detR n L <> R0 ->
  Rmult (detR n L) (invR n L j j) =
  RSum (fun t => RProd (wtr A r t) (others n j)) (List.filter (fun t => Nat.eqb (List.nth j t 0%N) 0%N) (trees n)).
Proof.
move=> /ltP Hj L HL. pose j' := Ordinal Hj.
have -> := @invR_adj L j' j' HL. rewrite /L mx_lapR adj_root. rewrite -sum_trees. apply: eq_big => [f|f _].
  by rewrite (@enc_nth n f j') -(code_eq (f j') None).
under eq_bigr => k _ do rewrite (wt_enc r). exact: (prod_others (wtr A r (enc f)) j').
Qed.
Theorem invR1_arc z j h : (z < n)%coq_nat -> (j < n)%coq_nat -> (h < n)%coq_nat -> h <> j -> let L := lapR1 n A o r z in detR n L <> R0 ->
  Rmult (detR n L) (Rminus (if Nat.eqb j z then R0 else invR n L j j) (if Nat.eqb h z then R0 else invR n L j h)) =
  RSum (fun t => RProd (wtr1 n A o r z t) (others n j)) (List.filter (fun t => Nat.eqb (List.nth j t 0%N) (S h)) (trees n)).
Proof.
move=> /ltP Hz /ltP Hj /ltP Hh hj L HL. pose j' := Ordinal Hj. pose h' := Ordinal Hh. pose z' := Ordinal Hz.
have := @adj1_arc _ n A' o' r' z' j' h'. rewrite -(mx_lapR1 z') => E. rewrite Rmult_minus_distr_l.
transitivity (((j' != z')%:R * (\adj (\matrix_(i < n, k < n) (L i k : R))) j' j' - (h' != z')%:R * (\adj (\matrix_(i < n, k < n) (L i k : R))) j' h')%R : R).
  congr Rminus.
  - have -> : Nat.eqb j z = (j' == z') by []. case: (j' == z') => /=; first by rewrite mul0r Rmult_0_r.
    rewrite mul1r. exact: (@invR_adj L j' j' HL).
  - have -> : Nat.eqb h z = (h' == z') by []. case: (h' == z') => /=; first by rewrite mul0r Rmult_0_r.
    rewrite mul1r. exact: (@invR_adj L j' h' HL).
etransitivity; first apply: E; first by apply/eqP => -[].
rewrite -sum_trees. apply: eq_big => [f|f /andP [ac _]].
  by rewrite (@enc_nth n f j') -(code_eq (f j') (Some h')).
under eq_bigr => k _ do rewrite wt1_enc //. exact: (prod_others (wtr1 n A o r z (enc f)) j').
Qed.
Theorem invR1_root z j : (z < n)%coq_nat -> (j < n)%coq_nat -> let L := lapR1 n A o r z in detR n L <> R0 ->
  Rmult (detR n L) (invR n L j z) =
  RSum (fun t => RProd (wtr1 n A o r z t) (others n j)) (List.filter (fun t => Nat.eqb (List.nth j t 0%N) 0%N && Nat.eqb (S j) (top n t (S z))) (trees n)).
Proof.
move=> /ltP Hz /ltP Hj L HL. pose j' := Ordinal Hj. pose z' := Ordinal Hz.
have -> := @invR_adj L j' z' HL. rewrite /L (mx_lapR1 z') adj1_root. rewrite -sum_trees.
apply: eq_big => [f|f /and3P [ac _ _]].
  case: (boolP (acyc f)) => ac //=. rewrite (@enc_nth n f j') -(code_eq (f j') None). case: (f j' =P None) => E.
    rewrite E /=. by rewrite (anc_top z' ac E).
  by move/eqP/negbTE: E; rewrite -code_eq => ->.
under eq_bigr => k _ do rewrite wt1_enc //. exact: (prod_others (wtr1 n A o r z (enc f)) j').
Qed.
End expansions.
(** [invR] is the inverse matrix *)
Lemma invR_spec n m i j : (i < n)%coq_nat -> (j < n)%coq_nat -> detR n m <> R0 ->
  RSum (fun k => Rmult (m i k) (invR n m k j)) (List.seq 0 n) = if Nat.eqb i j then R1 else R0.
Proof.
move=> /ltP Hi /ltP Hj H. set M := (\matrix_(i < n, j < n) (m i j : R))%R.
have U : M \in unitmx by rewrite unitmxE; apply/eqP; exact: H.
have /matrixP /(_ (Ordinal Hi) (Ordinal Hj)) := mulmxV U. rewrite !mxE => E.
transitivity ((Ordinal Hi == Ordinal Hj)%:R%R : R); last by rewrite eqbE -val_eqE; case: eqP.
rewrite -E -[List.seq 0 n]filter_all -(bigR_ord_sum n xpredT). apply: eq_bigr => k _. rewrite mxE. congr Rmult.
by rewrite /invR valK (insubT (fun x => (x < n)%N) Hj).
Qed.
