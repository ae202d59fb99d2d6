(** * MatTree: weighted forests and determinants over any commutative ring
    (the algebra behind deptree.py 192-302; no model definitions here) *)
From mathcomp Require Import all_ssreflect fingroup perm all_algebra.
Set Implicit Arguments.
Unset Strict Implicit.
Unset Printing Implicit Defensive.
Import GRing.Theory.
Local Open Scope ring_scope.

Section expand.
Variables (R : comRingType) (n : nat) (T : finType).
Lemma det_cols (W : T -> 'I_n -> R) (V : T -> 'I_n -> 'I_n -> R) :
  \det (\matrix_(i, j) \sum_(o : T) W o j * V o j i) =
  \sum_(f : {ffun 'I_n -> T}) (\prod_j W (f j) j) * \det (\matrix_(i, j) V (f j) j i).
Proof.
rewrite -det_tr /determinant.
transitivity (\sum_(s : 'S_n) \sum_(f : {ffun 'I_n -> T}) (\prod_j W (f j) j) * ((-1) ^+ s * \prod_j V (f j) j (s j))).
  apply: eq_bigr => s _.
  under eq_bigr => j _ do rewrite !mxE.
  rewrite bigA_distr_bigA big_distrr /=. apply: eq_bigr => f _. by rewrite big_split /= mulrCA.
rewrite exchange_big. apply: eq_bigr => f _. rewrite -big_distrr /=. congr (_ * _).
rewrite -[RHS]det_tr /determinant. apply: eq_bigr => s _. congr (_ * _). apply: eq_bigr => j _. by rewrite !mxE.
Qed.
End expand.

Section forest.
Variable n : nat.
Implicit Types f : {ffun 'I_n -> option 'I_n}.
(** following heads k times; None is the root *)
Definition up f (k : nat) (o : option 'I_n) : option 'I_n := iter k (obind f) o.
(** mathematics: every node reaches the root *)
Definition acyc f : bool := [forall i, up f n (Some i) == None].
(** mathematics: m is an ancestor of i *)
Definition anc f (m i : 'I_n) : bool := [exists k : 'I_n, up f k (Some i) == Some m].
Lemma up_None f k : up f k None = None.
Proof. by elim: k => //= k ->. Qed.
Lemma upS f k o : up f k.+1 o = up f k (obind f o).
Proof. exact: iterSr. Qed.
Lemma upD f a b o : up f (a + b) o = up f a (up f b o).
Proof. exact: iterD. Qed.
Lemma up_ge f a b o : up f a o = None -> (a <= b)%N -> up f b o = None.
Proof. move=> H ab. by rewrite -(subnK ab) upD H up_None. Qed.

Lemma walk_repeat f i : up f n (Some i) != None ->
  exists (a b : nat), [/\ (a < b <= n)%N, up f a (Some i) = up f b (Some i), (forall k, (k <= n)%N -> up f k (Some i) != None) &
    forall k, (a < k < b)%N -> up f k (Some i) != up f a (Some i)].
Proof.
move=> H.
have NN k : (k <= n)%N -> up f k (Some i) != None.
  move=> kn. apply: contraNN H => /eqP E. apply/eqP. exact: (up_ge E).
pose g (k : 'I_n.+1) := odflt i (up f k (Some i)).
have gE (k : 'I_n.+1) : up f k (Some i) = Some (g k).
  rewrite /g. case E: (up f k (Some i)) (NN k (leq_ord k)) => //.
have ninj : ~ injective g.
  move=> ij. have := card_in_imset (D := [set: 'I_n.+1]) (f := g) (in2W ij). rewrite cardsT card_ord => E.
  have := max_card [pred x in g @: [set: 'I_n.+1]]. rewrite card_ord => L.
  have : (n.+1 <= n)%N by rewrite -E; apply: leq_trans L; rewrite leq_eqVlt; apply/orP; left; apply/eqP; apply: eq_card.
  by rewrite ltnn.
have [b Hb] : exists b : nat, (b <= n)%N && [exists a : 'I_n.+1, (a < b)%N && (up f a (Some i) == up f b (Some i))].
  have : ~~ [forall a : 'I_n.+1, forall b : 'I_n.+1, (g a == g b) ==> (a == b)].
    apply/negP => /forallP Q. apply: ninj => a b E. apply/eqP. move: (Q a) => /forallP /(_ b). by rewrite E eqxx.
  rewrite negb_forall => /existsP [a]. rewrite negb_forall => /existsP [b]. rewrite negb_imply => /andP [/eqP E ab].
  case: (ltngtP a b) => [L|L|/val_inj E2].
  - exists b. rewrite -ltnS ltn_ord /=. apply/existsP. exists a. by rewrite L !gE E eqxx.
  - exists a. rewrite -ltnS ltn_ord /=. apply/existsP. exists b. by rewrite L !gE E eqxx.
  - by rewrite E2 eqxx in ab.
pose P b := (b <= n)%N && [exists a : 'I_n.+1, (a < b)%N && (up f a (Some i) == up f b (Some i))].
case: (ex_minnP (ex_intro P b Hb)) => c /andP [cn /existsP [a /andP [ac /eqP E]]] M.
exists a, c. split => //; first by rewrite ac cn.
move=> k /andP [ak kc]. apply/negP => /eqP E2.
have : P k.
  rewrite /P (leq_trans (ltnW kc) cn) /=. apply/existsP. exists a. by rewrite ak E2 eqxx.
by move/M; rewrite leqNgt kc.
Qed.
End forest.

Section det.
Variables (R : comRingType) (n : nat).
Implicit Types f : {ffun 'I_n -> option 'I_n}.
(** column j is e_j - e_(f j), e_j at a root *)
Definition fmx f : 'M[R]_n := \matrix_(i, j) ((i == j)%:R - (f j == Some i)%:R).
Lemma det_acyc f : acyc f -> \det (fmx f) = 1.
Proof.
move=> /forallP ac. rewrite /determinant (bigD1 1%g) //= odd_perm1 expr0 mul1r.
have noself i : f i != Some i.
  apply/negP => /eqP E. have S k : up f k (Some i) = Some i by elim: k => // k IH; rewrite upS /= E.
  by move: (ac i); rewrite S.
rewrite [X in X + _]big1 => [|i _]; last by rewrite mxE perm1 eqxx (negbTE (noself i)) subr0.
rewrite big1 ?addr0 // => s sn1.
have [i0 mi] : exists i0, s i0 != i0.
  apply/existsP. rewrite -negb_forall. apply: contra sn1 => /forallP H. apply/eqP/permP => i. rewrite perm1. exact/eqP.
case: (boolP [forall i, (s i == i) || (f (s i) == Some i)]) => [/forallP Q|]; last first.
  rewrite negb_forall => /existsP [i]. rewrite negb_or => /andP [h1 h2].
  rewrite (bigD1 i) //= mxE eq_sym (negbTE h1) (negbTE h2) subr0 mul0r mulr0 //.
exfalso.
have mv k : s ((s ^+ k)%g i0) != (s ^+ k)%g i0.
  elim: k => [|k IH]; first by rewrite expg0 perm1.
  rewrite expgSr permM. by rewrite (inj_eq perm_inj).
have st k : up f k (Some ((s ^+ k)%g i0)) = Some i0.
  elim: k => [|k IH]; first by rewrite expg0 perm1.
  rewrite upS /= expgSr permM. move: (Q ((s ^+ k)%g i0)) (mv k) => /orP [/eqP E|/eqP ->]; last by rewrite IH.
  by rewrite E eqxx.
by move: (ac ((s ^+ n)%g i0)); rewrite st.
Qed.

Lemma sum_pick (f : nat -> option 'I_n) a b (i : 'I_n) : (a < b)%N -> f a = Some i -> (forall k, (a < k < b)%N -> f k != Some i) ->
  \sum_(a <= k < b) ((f k == Some i)%:R : R) = 1.
Proof.
move=> ab E H. rewrite big_ltn // E eqxx big_nat big1 ?addr0 // => k /andP [ak kb]. by rewrite (negbTE (H k _)) // ak.
Qed.
(** the sum of the columns along a walk telescopes *)
Lemma fmx_walk f i a b : (a <= b)%N -> (forall k, (a <= k < b)%N -> up f k (Some i) != None) ->
  fmx f *m (\col_j \sum_(a <= k < b) (up f k (Some i) == Some j)%:R) =
  \col_j ((up f a (Some i) == Some j)%:R - (up f b (Some i) == Some j)%:R).
Proof.
move=> ab H. apply/matrixP => x y. rewrite !mxE. under eq_bigr => j _ do rewrite !mxE big_distrr /=.
rewrite exchange_big /=. rewrite -[RHS]opprB. rewrite -(telescope_sumr (fun k => (up f k (Some i) == Some x)%:R)) // -sumrN.
apply: eq_big_nat => k kab. rewrite opprB. case E: (up f k (Some i)) (H k kab) => [j|] // _.
rewrite (bigD1 j) //= eqxx mulr1 big1 ?addr0 => [|j' jj']; last by rewrite (inj_eq Some_inj) [j == _]eq_sym (negbTE jj') mulr0.
rewrite (inj_eq Some_inj) [j == x]eq_sym. by rewrite E.
Qed.
Lemma det_null (M : 'M[R]_n) (x : 'cV[R]_n) i : M *m x = 0 -> x i 0 = 1 -> \det M = 0.
Proof.
move=> H H1. have := congr1 (mulmx (\adj M)) H. rewrite mulmxA mul_adj_mx mulmx0 mul_scalar_mx => /matrixP /(_ i 0).
by rewrite !mxE H1 mulr1.
Qed.
Lemma det_cyc f : ~~ acyc f -> \det (fmx f) = 0.
Proof.
rewrite negb_forall => /existsP [i /walk_repeat [a [b [/andP [ab bn] E NN U]]]].
case Ea: (up f a (Some i)) (NN a (leq_trans (ltnW ab) bn)) => [m|] // _.
apply: (@det_null _ (\col_j \sum_(a <= k < b) (up f k (Some i) == Some j)%:R) m).
  rewrite fmx_walk ?(ltnW ab) // => [|k /andP [_ kb]]; last by apply: NN; apply: leq_trans bn; apply: ltnW.
  apply/matrixP => x y. by rewrite !mxE -E subrr.
rewrite mxE. apply: sum_pick => // k kab. by rewrite -Ea; apply: U.
Qed.
Lemma det_fmx f : \det (fmx f) = (acyc f)%:R.
Proof. case: (boolP (acyc f)) => [/det_acyc|/det_cyc] //. Qed.


(** mathematics: no node is its own parent *)
Definition noself f : bool := [forall j, f j != Some j].
Lemma acyc_noself f : acyc f -> noself f.
Proof.
move=> /forallP ac. apply/forallP => i. apply/negP => /eqP E. have S k : up f k (Some i) = Some i by elim: k => // k IH; rewrite upS /= E.
by move: (ac i); rewrite S.
Qed.
Lemma option_sum (F : option 'I_n -> R) : \sum_o F o = F None + \sum_h F (Some h).
Proof.
rewrite (bigD1 None) //=. congr (_ + _).
rewrite (reindex_omap Some id) => [|[h|]//]. by apply: eq_bigl => h; rewrite eqxx.
Qed.
Lemma det_repl (M : 'M[R]_n) (v : 'I_n -> R) m :
  \det (\matrix_(i, j) if j == m then v i else M i j) = \sum_i v i * (\adj M) m i.
Proof.
rewrite (expand_det_col _ m). apply: eq_bigr => i _. rewrite mxE eqxx [in RHS]mxE. congr (_ * _).
rewrite /cofactor. congr (_ * \det _). apply/matrixP => x y. rewrite !mxE.
by rewrite eq_sym (negbTE (neq_lift _ _)).
Qed.
Lemma det_repl_row (M : 'M[R]_n) (v : 'I_n -> R) z :
  \det (\matrix_(i, j) if i == z then v j else M i j) = \sum_j v j * (\adj M) j z.
Proof.
rewrite (expand_det_row _ z). apply: eq_bigr => j _. rewrite mxE eqxx [in RHS]mxE. congr (_ * _).
rewrite /cofactor. congr (_ * \det _). apply/matrixP => x y. rewrite !mxE.
by rewrite eq_sym (negbTE (neq_lift _ _)).
Qed.
Lemma sum_delta (F : 'I_n -> R) z : \sum_i (i == z)%:R * F i = F z.
Proof. rewrite (bigD1 z) //= eqxx mul1r big1 ?addr0 // => i iz. by rewrite (negbTE iz) mul0r. Qed.

(** cofactors of a forest matrix at a root *)
Lemma adj_fmx f m z : f m = None -> (\adj (fmx f)) m z = (acyc f && anc f m z)%:R.
Proof.
move=> fm. case: (boolP (acyc f)) => [ac|nac] /=.
- have Hn : up f n (Some z) = None by move/forallP: ac => /(_ z) /eqP.
  have Hex : exists b, up f b (Some z) == None by exists n; rewrite Hn.
  case: (ex_minnP Hex) => b /eqP Eb M.
  have bn : (b <= n)%N by apply: M; rewrite Hn.
  have NN k : (k < b)%N -> up f k (Some z) != None.
    move=> kb. apply/negP => H. by move: (M k H); rewrite leqNgt kb.
  have Hx := @fmx_walk f z 0 b (leq0n b) (fun k H => NN k (proj2 (andP H))).
  have := congr1 (mulmx (\adj (fmx f))) Hx. rewrite mulmxA mul_adj_mx det_acyc // mul_scalar_mx scale1r => /matrixP /(_ m 0).
  rewrite [X in X = _ -> _]mxE [X in _ = X -> _]mxE Eb. under [X in _ = X -> _]eq_bigr => j _ do rewrite [X in _ * X]mxE /= subr0 (inj_eq Some_inj) [z == j]eq_sym mulrC.
  rewrite sum_delta => <-.
  case: (boolP (anc f m z)) => [/existsP [k /eqP Ek]|].
  + have kb : (k < b)%N.
      rewrite ltnNge; apply/negP => bk. by move: (up_ge Eb bk); rewrite Ek.
    rewrite (@big_cat_nat _ _ _ k) //=; last exact: ltnW.
    rewrite big_nat big1 ?add0r => [|l /andP [_ lk]].
      apply: sum_pick => // l /andP [kl lb]. move: (NN l lb). suff -> : up f l (Some z) = None by [].
      rewrite -(subnK kl) upD. by rewrite -addn1 addnC upD Ek /= fm up_None.
    case: eqP => // El. exfalso. have : up f k (Some z) = None by rewrite -(subnK lk) upD -addn1 addnC upD El /= fm up_None.
    by rewrite Ek.
  + move=> na. rewrite big_nat big1 // => k /andP [_ kb]. case: eqP => // Ek. case/negP: na. apply/existsP.
    exists (Ordinal (leq_trans kb bn)). by rewrite /= Ek.
- move: nac; rewrite negb_forall => /existsP [i /walk_repeat [a [b [/andP [ab bn] E NN U]]]].
  case Ea: (up f a (Some i)) (NN a (leq_trans (ltnW ab) bn)) => [c|] // _.
  have -> : (\adj (fmx f)) m z = \det (\matrix_(i, j) if j == m then (i == z)%:R else fmx f i j).
    by rewrite det_repl sum_delta.
  pose x : 'cV[R]_n := \col_j \sum_(a <= k < b) (up f k (Some i) == Some j)%:R.
  apply: (@det_null _ x c); last first.
    rewrite mxE. apply: sum_pick => // k kab. by rewrite -Ea; apply: U.
  have xm : x m 0 = 0.
    rewrite mxE big_nat big1 // => k /andP [_ kb]. case: eqP => // Ek. have := NN k.+1 (leq_trans kb bn).
    by rewrite /up iterS -/(up f k (Some i)) Ek /= fm.
  have Hx := @fmx_walk f i a b (ltnW ab) (fun k H => NN k (leq_trans (ltnW (proj2 (andP H))) bn)).
  apply/matrixP => u v. move/matrixP: Hx => /(_ u v). rewrite !mxE -E subrr => Hx. rewrite -[RHS]Hx.
  apply: eq_bigr => j _. rewrite ord1 in xm *. rewrite !mxE. case: eqP => // ->.
  move: xm; rewrite mxE => ->. by rewrite !mulr0.
Qed.

(** the Laplacian: heads are rows, children are columns *)
Definition wt (A : 'I_n -> 'I_n -> R) (r : 'I_n -> R) (j : 'I_n) (o : option 'I_n) : R := if o is Some h then A h j else r j.
(** mathematics: the Laplacian of a weighted graph *)
Definition lapm (A : 'I_n -> 'I_n -> R) (r : 'I_n -> R) : 'M[R]_n := \matrix_(i, j) if i == j then r j + \sum_(h | h != j) A h j else - A i j.
(** ... with row z replaced by root weights *)
Definition lap1 (A : 'I_n -> 'I_n -> R) (o r : 'I_n -> R) (z : 'I_n) : 'M[R]_n := \matrix_(i, j) if i == z then r j else lapm A o i j.

Lemma lap_col A r i j : lapm A r i j = \sum_o (if o == Some j then 0 else wt A r j o) * ((i == j)%:R - (o == Some i)%:R).
Proof.
rewrite mxE option_sum /= subr0. case: eqP => [->|ij].
  rewrite mulr1. congr (_ + _). rewrite [RHS](bigD1 j) //= eqxx mul0r add0r. apply: eq_bigr => h hj.
  by rewrite (inj_eq Some_inj) (negbTE hj) subr0 mulr1.
rewrite mulr0 add0r. rewrite (bigD1 i) //= (inj_eq Some_inj). move/eqP/negbTE: (ij) => ->. rewrite eqxx sub0r mulrN mulr1 big1 ?addr0 // => h hi.
by rewrite !(inj_eq Some_inj) (negbTE hi) subr0 mulr0.
Qed.
Theorem det_lapm A r : \det (lapm A r) = \sum_(f : {ffun 'I_n -> option 'I_n} | acyc f) \prod_j wt A r j (f j).
Proof.
have -> : lapm A r = \matrix_(i, j) \sum_o (if o == Some j then 0 else wt A r j o) * ((i == j)%:R - (o == Some i)%:R).
  by apply/matrixP => i j; rewrite [in RHS]mxE lap_col.
rewrite (det_cols (fun o j => if o == Some j then 0 else wt A r j o) (fun o j i => (i == j)%:R - (o == Some i)%:R)).
rewrite [RHS]big_mkcond /=. apply: eq_bigr => f _. rewrite -/(fmx f) det_fmx. case: (boolP (acyc f)) => ac; last by rewrite mulr0.
rewrite mulr1. apply: eq_bigr => j _. by rewrite (negbTE (forallP (acyc_noself ac) j)).
Qed.
(** cofactor of the Laplacian: column m has become e_z *)
Lemma adj_lapm A r m z : (\adj (lapm A r)) m z =
  \sum_(f : {ffun 'I_n -> option 'I_n} | [&& acyc f, f m == None & anc f m z]) \prod_(j | j != m) wt A r j (f j).
Proof.
have -> : (\adj (lapm A r)) m z = \det (\matrix_(i, j) if j == m then (i == z)%:R else lapm A r i j) by rewrite det_repl sum_delta.
have -> : (\matrix_(i, j) if j == m then (i == z)%:R else lapm A r i j) =
  \matrix_(i, j) \sum_o (if j == m then (o == None)%:R else if o == Some j then 0 else wt A r j o) *
     (if j == m then (i == z)%:R else ((i == j)%:R - (o == Some i)%:R)).
  apply/matrixP => i j; rewrite !mxE. case: (j == m); first by rewrite option_sum /= mul1r big1 ?addr0 // => h _; rewrite mul0r.
  by rewrite -lap_col mxE.
rewrite (det_cols (fun o j => if j == m then (o == None)%:R else if o == Some j then 0 else wt A r j o)
  (fun o j i => if j == m then (i == z)%:R else ((i == j)%:R - (o == Some i)%:R))).
rewrite [RHS]big_mkcond /=. apply: eq_bigr => f _. rewrite (bigD1 m) //= eqxx.
case: (f m =P None) => [fm|fm]; last by rewrite !mul0r andbF.
rewrite mul1r. have -> : (\matrix_(i, j) if j == m then (i == z)%:R else ((i == j)%:R - (f j == Some i)%:R)) =
   (\matrix_(i, j) if j == m then (i == z)%:R else fmx f i j) :> 'M[R]_n by apply/matrixP => i j; rewrite !mxE.
rewrite det_repl sum_delta adj_fmx //=. case: (boolP (acyc f)) => ac; last by rewrite mulr0.
case: (anc f m z); last by rewrite mulr0. rewrite mulr1. apply: eq_bigr => j jm.
by rewrite (negbTE jm) (negbTE (forallP (acyc_noself ac) j)).
Qed.
Theorem det_lap1 A o r z : \det (lap1 A o r z) =
  \sum_(f : {ffun 'I_n -> option 'I_n} | acyc f) \sum_(m | (f m == None) && anc f m z) r m * \prod_(j | j != m) wt A o j (f j).
Proof.
rewrite /lap1 det_repl_row. under eq_bigr => m _ do rewrite adj_lapm big_distrr /=.
rewrite (exchange_big_dep (fun f => acyc f)) /= => [|m f _ /and3P [] //]. apply: eq_bigr => f ac.
by apply: eq_bigl => m; rewrite ac.
Qed.

(** forcing the head of j *)
Definition setA (A : 'I_n -> 'I_n -> R) (j h : 'I_n) : 'I_n -> 'I_n -> R := fun h' k => if k == j then (h' == h)%:R else A h' k.
(** mathematics: a root weight set to zero *)
Definition set0 (r : 'I_n -> R) (j : 'I_n) : 'I_n -> R := fun k => if k == j then 0 else r k.
Lemma lapm_set A r j h : h != j ->
  lapm (setA A j h) (set0 r j) = \matrix_(i, k) if k == j then (i == j)%:R - (h == i)%:R else lapm A r i k.
Proof.
move=> hj. apply/matrixP => i k. rewrite !mxE. case: (k =P j) => [->|kj]; last first.
  rewrite /setA /set0. by have -> : (k == j) = false by apply/eqP.
rewrite /setA /set0 eqxx. case: (i =P j) => [->|ij].
  rewrite add0r (negbTE hj) subr0 (bigD1 h) //= eqxx big1 ?addr0 // => h' /andP [_ hh]. by rewrite (negbTE hh).
by rewrite sub0r eq_sym.
Qed.
Lemma wt_set A r j h (f : {ffun 'I_n -> option 'I_n}) (P : pred 'I_n) : P j ->
  \prod_(k | P k) wt (setA A j h) (set0 r j) k (f k) = (f j == Some h)%:R * \prod_(k | P k && (k != j)) wt A r k (f k).
Proof.
move=> Pj. rewrite (bigD1 j) //=. congr (_ * _).
  rewrite /wt /setA /set0 eqxx. by case: (f j) => // h'.
apply: eq_bigr => k /andP [_ kj]. rewrite /wt /setA /set0 (negbTE kj) //.
Qed.
Theorem adj_arc A r j h : h != j -> (\adj (lapm A r)) j j - (\adj (lapm A r)) j h =
  \sum_(f : {ffun 'I_n -> option 'I_n} | acyc f && (f j == Some h)) \prod_(k | k != j) wt A r k (f k).
Proof.
move=> hj. transitivity (\det (lapm (setA A j h) (set0 r j))).
  rewrite lapm_set // det_repl. under eq_bigr => i _ do rewrite mulrBl [h == i]eq_sym. by rewrite sumrB !sum_delta.
rewrite det_lapm [RHS]big_mkcondr /=. apply: eq_bigr => f ac. rewrite (@wt_set _ _ _ _ _ xpredT) //=. by case: (f j == _); rewrite ?mul1r ?mul0r.
Qed.
Lemma anc_self f i : anc f i i.
Proof. apply/existsP. case: n i f => [[]//|n' i f]. by exists ord0. Qed.
Theorem adj_root A r j : (\adj (lapm A r)) j j =
  \sum_(f : {ffun 'I_n -> option 'I_n} | acyc f && (f j == None)) \prod_(k | k != j) wt A r k (f k).
Proof. rewrite adj_lapm. apply: eq_bigl => f. by rewrite anc_self andbT. Qed.

Lemma lap1_set A o r z j h : h != j ->
  lap1 (setA A j h) (set0 o j) (set0 r j) z =
  \matrix_(i, k) if k == j then (if i == z then 0 else (i == j)%:R - (h == i)%:R) else lap1 A o r z i k.
Proof.
move=> hj. apply/matrixP => i k. rewrite [LHS]mxE [RHS]mxE lapm_set // [lap1 A o r z i k]mxE. rewrite [in X in _ = if _ then _ else X]mxE [X in if _ then _ else X]mxE.
rewrite /set0. case: (k =P j) => // _. by rewrite mxE.
Qed.
(** the weight of a forest under row replacement: the root above z weighs r, other roots o *)
Definition wt1 (A : 'I_n -> 'I_n -> R) (o r : 'I_n -> R) (z : 'I_n) f (j : 'I_n) : R :=
  if f j is Some h then A h j else if anc f j z then r j else o j.
Lemma anc_root_uniq f z m m' : f m = None -> f m' = None -> anc f m z -> anc f m' z -> m = m'.
Proof.
move=> fm fm' /existsP [k /eqP Ek] /existsP [k' /eqP Ek'].
wlog L : m m' fm fm' k k' Ek Ek' / (k <= k')%N.
  move=> W. case: (leqP k k') => L; first exact: (W m m' fm fm' k k'). by symmetry; apply: (W m' m fm' fm k' k) => //; apply: ltnW.
move: Ek'. rewrite -(subnK L) upD Ek. case: (k' - k)%N => [[]//|d]. by rewrite upS /= fm up_None.
Qed.
Lemma root_exists f z : acyc f -> exists m, (f m == None) && anc f m z.
Proof.
move=> /forallP /(_ z) /eqP Hn. have Hex : exists b, up f b (Some z) == None by exists n; rewrite Hn.
case: (ex_minnP Hex) => b /eqP Eb M. case: b Eb M => [//|b] Eb M.
have bn : (b < n)%N by apply: M; rewrite Hn.
case E: (up f b (Some z)) => [m|]; last by move: (M b); rewrite E eqxx ltnn => /(_ isT).
exists m. apply/andP; split.
  apply/eqP. by move: Eb; rewrite /up iterS -/(up f b (Some z)) E.
apply/existsP. exists (Ordinal bn). by rewrite /= E.
Qed.
Lemma wt1_prod A o r z f : acyc f ->
  \sum_(m | (f m == None) && anc f m z) r m * \prod_(j | j != m) wt A o j (f j) = \prod_j wt1 A o r z f j.
Proof.
move=> ac. have [m0 Hm] := root_exists z ac. rewrite (big_pred1 m0) => [|m]; last first.
  apply/idP/idP => [/andP [/eqP fm am]|/eqP -> //]. move/andP: Hm => [/eqP fm0 am0]. apply/eqP. exact: (anc_root_uniq fm fm0 am am0).
move/andP: (Hm) => [/eqP fm am]. rewrite [RHS](bigD1 m0) //= {1}/wt1 fm am. congr (_ * _). apply: eq_bigr => j jm.
rewrite /wt /wt1. case E: (f j) => //. case: (boolP (anc f j z)) => // aj. by rewrite (anc_root_uniq E fm aj am) eqxx in jm.
Qed.
Theorem det_lap1' A o r z : \det (lap1 A o r z) = \sum_(f : {ffun 'I_n -> option 'I_n} | acyc f) \prod_j wt1 A o r z f j.
Proof. rewrite det_lap1. apply: eq_bigr => f ac. exact: wt1_prod. Qed.
Theorem adj1_arc A o r z j h : h != j ->
  (j != z)%:R * (\adj (lap1 A o r z)) j j - (h != z)%:R * (\adj (lap1 A o r z)) j h =
  \sum_(f : {ffun 'I_n -> option 'I_n} | acyc f && (f j == Some h)) \prod_(k | k != j) wt1 A o r z f k.
Proof.
move=> hj. transitivity (\det (lap1 (setA A j h) (set0 o j) (set0 r j) z)).
  rewrite lap1_set // det_repl.
  have E i : (if i == z then 0 else (i == j)%:R - (h == i)%:R) = (j != z)%:R * (i == j)%:R - (h != z)%:R * (i == h)%:R :> R.
    rewrite [h == i]eq_sym. case: (i =P z) => [->|iz].
      rewrite [z == j]eq_sym [z == h]eq_sym. by case: (j == z); case: (h == z); rewrite ?mulr0 ?mul0r ?subr0.
    have -> : (j != z)%:R * (i == j)%:R = (i == j)%:R :> R.
      case: (i =P j) => [<-|]; last by rewrite mulr0. by have /eqP/negbTE -> := iz; rewrite mulr1.
    by congr (_ - _); case: (i =P h) => [<-|]; [have /eqP/negbTE -> := iz; rewrite mulr1|rewrite mulr0].
  under [in RHS]eq_bigr => i _ do rewrite E mulrBl -!mulrA. by rewrite sumrB -!big_distrr /= !sum_delta.
rewrite det_lap1' [RHS]big_mkcondr /=. apply: eq_bigr => f ac. rewrite (bigD1 j) //=.
rewrite {1}/wt1. case E: (f j) => [h'|]; last first.
  by rewrite /set0 eqxx if_same mul0r.
rewrite /setA eqxx (inj_eq Some_inj). case: (h' == h); rewrite ?mul0r ?mul1r //. apply: eq_bigr => k kj.
by rewrite /wt1 /set0 (negbTE kj).
Qed.
Theorem adj1_root A o r z j : (\adj (lap1 A o r z)) j z =
  \sum_(f : {ffun 'I_n -> option 'I_n} | [&& acyc f, f j == None & anc f j z]) \prod_(k | k != j) wt1 A o r z f k.
Proof.
transitivity ((\adj (lapm A o)) j z).
  have := det_repl_row (lapm A o) (fun k => (k == j)%:R) z. rewrite sum_delta => <-.
  have := det_repl_row (lap1 A o r z) (fun k => (k == j)%:R) z. rewrite sum_delta => <-.
  congr (\det _). apply/matrixP => x y. rewrite !mxE. by case: (x == z).
rewrite adj_lapm. apply: eq_bigr => f /and3P [ac /eqP fj aj]. apply: eq_bigr => k kj. rewrite /wt /wt1. case E: (f k) => //.
case: (boolP (anc f k z)) => // ak. by rewrite (anc_root_uniq E fj ak aj) eqxx in kj.
Qed.
End det.
