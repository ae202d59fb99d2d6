(** * P_Graph: property C54 (trees as graphs, [CKY.to_networkx]) and C55 (the genbmm
    semirings) *)
From Coq Require Import Reals ZArith Lra.
From Verif Require Import Base Ops Semirings CkyCrf Tensor Codec CkyCodec Networkx Fast.
Set Implicit Arguments.
Local Open Scope nat_scope.

(** ** C54. For every batch of charts that are trees (possibly followed by further trees,
    such as padding leaves) and whatever order argsort chooses among spans of equal
    width, the result is the graph of the trees: see [is_graph]. *)
Theorem C54_graph spans perm N batch S (fs : nat -> list ltree) :
  shape spans = [batch; N; N; S] -> is_argsort (nx_keys (nonzero spans)) perm ->
  (forall r, r < batch -> Forall (lbounded S) (fs r) /\ fsize (fs r) <= N /\ represents spans r (fparts r 0 (fs r))) ->
  exists nodes n_nodes a b label indices topo, to_networkx perm spans = Ok ((n_nodes, a, b, label), indices, topo) /\
    is_graph N batch fs nodes n_nodes a b label indices topo.
Proof. apply to_networkx_spec. Qed.
Print Assumptions C54_graph.

(** Hence the levels of [topo] are a schedule: every node is in exactly one level, and
    every edge goes to a strictly higher level. *)
(** the two edge lists, for a prefix l of the nodes m *)
Local Notation cfrom m := (fun x : node => match x with
   | (r, (i, LNode _ p q)) => [posn (r, (i, p)) m; posn (r, (i + lsize p, q)) m] | _ => [] end).
Local Notation cto m := (fun x : node => match x with (_, (_, LNode _ _ _)) => [posn x m; posn x m] | _ => [] end).
Lemma edges_length (m l : list node) : length (flat_map (cfrom m) l) = length (flat_map (cto m) l).
Proof.
  induction l as [|[r [i [y|y p q]]] l IH]; cbn [flat_map]; [reflexivity|exact IH|]. rewrite !app_length. cbn [length]. now rewrite IH.
Qed.
Lemma edges_in (m l : list node) u v : In (u, v) (combine (flat_map (cfrom m) l) (flat_map (cto m) l)) ->
  exists r i y p q, In (r, (i, LNode y p q)) l /\ v = posn (r, (i, LNode y p q)) m /\
    (u = posn (r, (i, p)) m \/ u = posn (r, (i + lsize p, q)) m).
Proof.
  induction l as [|[r [i [y|y p q]]] l IH]; cbn [flat_map app combine].
  - intros [].
  - intro H. destruct (IH H) as (r' & i' & y' & p' & q' & K1 & K2 & K3). exists r', i', y', p', q'. cbn. auto.
  - intro H. destruct H as [[= <- <-]|[[= <- <-]|H]].
    + exists r, i, y, p, q. cbn. auto.
    + exists r, i, y, p, q. cbn. auto.
    + destruct (IH H) as (r' & i' & y' & p' & q' & K1 & K2 & K3). exists r', i', y', p', q'. cbn. auto.
Qed.
Theorem C54_schedule spans perm N batch S (fs : nat -> list ltree) :
  shape spans = [batch; N; N; S] -> is_argsort (nx_keys (nonzero spans)) perm ->
  (forall r, r < batch -> Forall (lbounded S) (fs r) /\ fsize (fs r) <= N /\ represents spans r (fparts r 0 (fs r))) ->
  exists n_nodes a b label indices topo, to_networkx perm spans = Ok ((Z.of_nat n_nodes, a, b, label), indices, topo) /\
    length topo = N /\ Permutation (concat topo) (seq 0 n_nodes) /\ length a = length b /\
    forall u v, In (u, v) (combine a b) -> exists h h', h < h' < N /\ In u (nth h topo []) /\ In v (nth h' topo []).
Proof.
  intros H1 H2 H3. destruct (@to_networkx_spec spans perm N batch S fs H1 H2 H3) as (nodes & n & a & b & la & ix & tp & E & G).
  exists (length nodes), a, b, la, ix, tp. destruct G as [Gd Gn Gc _ Gf Gt Gp _].
  split; [now rewrite E, Gc|]. split; [now rewrite Gp, map_length, seq_length|].
  assert (Hh : forall x, In x nodes -> nheight x < N).
  { intros [r [i q]] Hx. apply Gn in Hx as [Hr Hx]. pose proof (lheight_lt q). apply fnodes_in in Hx. destruct (H3 r Hr) as (_ & Hs & _). cbn. lia. }
  assert (Inl : forall x, In x nodes -> In (posn x nodes) (nth (nheight x) tp [])).
  { intros x Hx. rewrite Gp. erewrite nth_indep; [|now rewrite map_length, seq_length; apply Hh].
    rewrite (map_nth (fun h => map (fun x => posn x nodes) (filter (fun x => nheight x =? h) nodes)) (seq 0 N) 0), seq_nth by now apply Hh.
    apply (in_map (fun x => posn x nodes)). apply filter_In. split; auto. apply Nat.eqb_refl. }
  split; [|split].
  - (* every node once *)
    assert (Hp : map (fun x => posn x nodes) nodes = seq 0 (length nodes)).
    { apply (nth_ext _ _ 0 0); [now rewrite map_length, seq_length|]. intros k Hk. rewrite map_length in Hk. rewrite seq_nth by auto.
      destruct (nth_error nodes k) as [x|] eqn:Ex; [|apply nth_error_None in Ex; lia].
      assert (X := map_nth_error (fun x => posn x nodes) k nodes Ex). apply nth_error_nth with (d := 0) in X. rewrite X. simpl. now apply posn_nth. }
    rewrite <- Hp. rewrite Gp, <- flat_map_concat_map. apply NoDup_Permutation.
    + apply NoDup_flat_map; [apply seq_NoDup| |].
      * intros h _. apply NoDup_map_inj; [|now apply NoDup_filter]. intros x y Hx Hy Exy. apply filter_In in Hx as [Hx _], Hy as [Hy _].
        apply posn_spec in Hx, Hy. congruence.
      * intros h h' k _ _ Hk Hk'. apply in_map_iff in Hk as (x & Ex & Hx). apply in_map_iff in Hk' as (y & Ey & Hy).
        apply filter_In in Hx as [Hx Fx], Hy as [Hy Fy]. apply Nat.eqb_eq in Fx, Fy. apply posn_spec in Hx, Hy. congruence.
    + rewrite Hp. apply seq_NoDup.
    + intro k. rewrite in_flat_map. split.
      * intros (h & _ & Hk). apply in_map_iff in Hk as (x & <- & Hx). apply filter_In in Hx as [Hx _]. now apply (in_map (fun x => posn x nodes)).
      * intro Hk. apply in_map_iff in Hk as (x & <- & Hx). exists (nheight x). split; [apply in_seq; specialize (Hh x Hx); lia|].
        apply (in_map (fun x => posn x nodes)). apply filter_In. split; auto. apply Nat.eqb_refl.
  - rewrite Gf, Gt. apply edges_length.
  - rewrite Gf, Gt. intros u v Huv. pose proof (edges_in _ _ _ _ Huv) as K.
    destruct K as (r & i & y & p & q & Hx & -> & Hu). pose proof Hx as Hx'. apply Gn in Hx' as [Hr Hx'].
    destruct (fnodes_child _ _ _ _ _ _ Hx') as [Hp Hq].
    destruct Hu as [->| ->]; [exists (lheight p)|exists (lheight q)]; exists (1 + Nat.max (lheight p) (lheight q)); (split; [assert (X := Hh _ Hx); unfold nheight in X; cbn [snd lheight] in X; lia|]).
    + split; [apply (Inl (r, (i, p))); apply Gn; auto|apply (Inl (r, (i, LNode y p q))); auto].
    + split; [apply (Inl (r, (i + lsize p, q))); apply Gn; auto|apply (Inl (r, (i, LNode y p q))); auto].
Qed.
Print Assumptions C54_schedule.

(** Charts with two labels on one span are not trees; the second label silently takes
    the first one as both of its children *)
Definition ex_unary : tensor Z :=
  {| shape := [1; 3; 3; 2]; dat := fun i => if in_dec idx_dec i [[0; 0; 0; 0]; [0; 1; 1; 0]; [0; 0; 1; 0]; [0; 0; 1; 1]] then 1%Z else 0%Z |}.
Theorem C54_two_labels_refuted : exists spans perm n a b label indices topo,
  is_argsort (nx_keys (nonzero spans)) perm /\ to_networkx perm spans = Ok ((n, a, b, label), indices, topo) /\
  combine a b = [(0, 2); (1, 2); (2, 3); (2, 3)].
Proof.
  exists ex_unary, [0; 3; 1; 2]. do 6 eexists. split; [|split; [vm_compute; reflexivity|reflexivity]]. split.
  - replace (length (nx_keys (nonzero ex_unary))) with 4 by (vm_compute; reflexivity). cbn [seq]. constructor.
    change [1; 2; 3] with ([1; 2] ++ [3]). apply (Permutation_middle [1; 2] [] 3).
  - replace (nx_keys (nonzero ex_unary)) with [0; 1; 1; 0]%Z by (vm_compute; reflexivity). cbn [length]. intros p q [H1 H2].
    destruct q as [|[|[|[|q]]]], p as [|[|[|p]]]; cbn; lia.
Qed.
Print Assumptions C54_two_labels_refuted.

(** two rows: ((w0 w1) w2) and (w0 w1) followed by a padding leaf; the order puts spans of
    equal width in an arbitrary order *)
Definition ex_fs (r : nat) : list ltree :=
  if r =? 0 then [LNode 1 (LNode 0 (LLeaf 2) (LLeaf 3)) (LLeaf 2)] else [LNode 0 (LLeaf 3) (LLeaf 3); LLeaf 2].
(** example: a chart *)
Definition ex_spans : tensor Z :=
  {| shape := [2; 3; 3; 4]; dat := fun i => Z.of_nat (count_occ idx_dec (fparts (hd 0 i) 0 (ex_fs (hd 0 i))) i) |}.
Example ex_C54 : exists nodes n_nodes a b label indices topo,
  to_networkx [4; 0; 3; 5; 7; 8; 6; 1; 2] ex_spans = Ok ((n_nodes, a, b, label), indices, topo) /\
  is_graph 3 2 ex_fs nodes n_nodes a b label indices topo /\ indices 0 0 <> None /\ indices 1 2 <> None.
Proof.
  destruct (@C54_graph ex_spans [4; 0; 3; 5; 7; 8; 6; 1; 2] 3 2 4 ex_fs) as (nodes & n & a & b & la & ix & tp & E & G).
  - reflexivity.
  - split.
    + replace (length (nx_keys (nonzero ex_spans))) with 9 by (vm_compute; reflexivity). apply NoDup_Permutation.
      * repeat constructor; cbn; lia.
      * apply seq_NoDup.
      * intro x. cbn. lia.
    + replace (nx_keys (nonzero ex_spans)) with [0; 1; 2; 0; 0; 0; 1; 0; 0]%Z by (vm_compute; reflexivity). cbn [length]. intros p q [H1 H2].
      do 9 (destruct q as [|q]; [do 9 (destruct p as [|p]; [cbn; lia|]); lia|]). lia.
  - intros r Hr. split; [|split].
    + unfold ex_fs. destruct (r =? 0); repeat constructor; cbn; lia.
    + unfold ex_fs. destruct (r =? 0); cbn; lia.
    + intros i Hi. cbn [ex_spans dat hd]. reflexivity.
  - exists nodes, n, a, b, la, ix, tp. split; [exact E|]. split; [exact G|]. split.
    + rewrite (ig_index G) with (t := LNode 1 (LNode 0 (LLeaf 2) (LLeaf 3)) (LLeaf 2)); [discriminate|lia|left; reflexivity].
    + rewrite (ig_index G) with (t := LLeaf 2); [discriminate|lia|right; left; reflexivity].
Qed.

(** ** C55. Given that the genbmm extension computes the batched product ([is_bmm]), the
    Fast classes' matmul is the plain matmul of their sum and mul ... *)
Theorem C55_fast_matmul (O : ops) bmm (a b : tensor (car O)) sa sb sc I D J :
  shape a = sa ++ [I; D] -> shape b = sb ++ [D; J] -> bzip sa sb = Some sc ->
  Forall (lt 0) (shape a) -> Forall (lt 0) (shape b) -> is_bmm O bmm ->
  reseq (fast_matmul O (Some bmm) a b) (tmatmul O a b) /\ reseq (fast_log_matmul O (Some bmm) a b) (tmatmul O a b).
Proof.
  intros Ha Hb Hc Pa Pb Hbmm. rewrite Ha in Pa. rewrite Hb in Pb. apply Forall_app in Pa as [Pa PA]. apply Forall_app in Pb as [Pb PB].
  inversion_clear PA as [|? ? P1 PA']. inversion_clear PA' as [|? ? P2 _]. inversion_clear PB as [|? ? _ PB']. inversion_clear PB' as [|? ? P3 _].
  split; apply (@fast_matmul_spec O sa sb sc I D J a b); auto.
Qed.
Print Assumptions C55_fast_matmul.
(** ... without the extension no product is ever computed ... *)
Theorem C55_no_genbmm (O : ops) (a b : tensor (car O)) :
  fast_log_matmul O None a b = Err NameError /\ forall c, fast_matmul O None a b <> Ok c.
Proof.
  split; [reflexivity|]. intro c. unfold fast_matmul. destruct (fast_broadcast O a b) as [[[a2 b2] size]|e]; cbn; discriminate.
Qed.
Print Assumptions C55_no_genbmm.
(** ... and operands of different ranks, which the plain matmul broadcasts, are rejected
    whatever the extension does *)
Theorem C55_rank_refuted : exists (a b : tensor R) c, tmatmul (log_ops NEG) a b = Ok c /\
  forall bmm, fast_log_matmul (log_ops NEG) (Some bmm) a b = Err RuntimeError.
Proof.
  exists {| shape := [2; 3; 4]; dat := fun _ => 0%R |}, {| shape := [4; 5]; dat := fun _ => 0%R |}. eexists. split; reflexivity.
Qed.
Print Assumptions C55_rank_refuted.

(** the plain product meets the contract; the shapes of [ex_shard] meet the rest *)
Example ex_C55 (O : ops) : is_bmm O (tmatmul O) /\ bzip [2; 1; 3] [2; 4; 1] = Some [2; 4; 3] /\
  Forall (lt 0) ([2; 1; 3] ++ [1; 2]) /\ Forall (lt 0) ([2; 4; 1] ++ [2; 3]).
Proof.
  split; [|repeat split; repeat constructor]. intros n I D J a b Ha Hb.
  destruct (@tmatmul_spec O [n] [n] [n] I D J a b Ha Hb) as (c & E & S & H).
  { rewrite bshape_same by auto. cbn. now rewrite bdim_refl. }
  exists c. split; [exact E|]. split; [exact S|]. intros m i j Hm Hi Hj. change [m; i; j] with ([m] ++ [i; j]).
  rewrite H by (auto; repeat constructor; auto). f_equal. apply map_ext. intro k.
  assert (B : bidx [n] [m] = [m]) by (unfold bidx, bidx0; cbn [length skipn combine map fst snd Nat.sub]; rewrite bcell by lia; reflexivity).
  now rewrite B.
Qed.
