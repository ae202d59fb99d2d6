(** * Ops: the operations a semiring class offers, tensors, Python results.

    Models the interface of torch_struct/semirings/semirings.py:23-82
    (class [Semiring]): the methods [sum], [mul], the constants [zero], [one],
    and the derived [times], [plus], [matmul], [dot], [fill]. *)
From Verif Require Import Base.
Set Implicit Arguments.

(** semirings.py:23-82. The carrier [car] stands for one cell of the leading
    "ssize" dimension (one float for Std/Log/Max, k floats for KMax(k), 2 for
    Entropy, 3 for KL / cross entropy). No law is assumed. *)
Record ops := Ops {
  car : Type;
  ssum : list car -> car;          (* [sum(xs, dim)]: all cells along [dim] *)
  smul : car -> car -> car;        (* [mul(a, b)] *)
  szero : car;                     (* class attribute [zero] *)
  sone : car;                      (* class attribute [one] *)
  (* [lp.data[:] = fill(lp.data, mask, zero)] at the masked cell copied from the
     potential of index [e]: the value becomes [zero], but autograd still routes
     the gradient of the cell to the potential [e] (linearchain.py:76,
     semimarkov.py:59). On values it is constantly [zero]. *)
  sover : list nat -> car
}.

(** Exceptions as values. *)
Inductive pyerr :=
  AssertionError | ValueError | IndexError | AttributeError | TypeError
| RuntimeError | NotImplementedError | NameError | KeyError.
(** result of a Python call: a value, or the exception raised (all of torch_struct) *)
Inductive res (A : Type) := Ok (a : A) | Err (e : pyerr).
Arguments Ok {A}. Arguments Err {A}.

(** Tensors: a shape and the content. Simplification: the content is a total
    function of index lists; models only read indices in range, and every
    theorem that depends on it says so. *)
Record tensor (A : Type) := Tensor { shape : list nat; dat : list nat -> A }.
(** an operation applied to every entry of a tensor (torch elementwise operations) *)
Definition tmap {A B} (f : A -> B) (t : tensor A) : tensor B :=
  {| shape := shape t; dat := fun i => f (dat t i) |}.

Section Ops.
  Variable O : ops.
  Notation A := (car O).

  (** semirings.py:57-63 [times] (variadic): left fold of [mul]. *)
  Definition stimes (x : A) (l : list A) : A := fold_left (smul O) l x.

  (** semirings.py:80-82 [plus(a, b)] = sum of the two-element stack. *)
  Definition splus (a b : A) : A := ssum O [a; b].

  (** semirings.py:12-20 [matmul(cls, a, b)] (also 33-36, 128-135, 145-150,
      160-165): with a : (.., I, D) and b : (.., D, J),
      unsqueeze to (I, D, 1) and (1, D, J), multiply with broadcasting,
      transpose the last two dims and sum the last one.
      Simplification: one batch cell at a time (matmul is batched pointwise);
      [D] is the inner dimension. torch.matmul in StdSemiring is the same sum. *)
  Definition matmul (D : nat) (a b : nat -> nat -> A) : nat -> nat -> A :=
    fun i j => ssum O (map (fun k => smul O (a i k) (b k j)) (seq 0 D)).

  (** semirings.py:43-48 [dot(a, b)]: a row times a column via matmul. *)
  Definition dot (D : nat) (a b : nat -> A) : A :=
    matmul D (fun _ k => a k) (fun k _ => b k) 0 0.

  (** semirings.py:50-55 [fill(c, mask, v)] at one cell. *)
  Definition fill (c : A) (mask : bool) (v : A) : A := if mask then v else c.
End Ops.

(** A lawful commutative semiring seen as a semiring class: [sum] is the
    iterated addition, [zero] and [one] are the true ones. *)
Definition csr_ops (S : csr) : ops :=
  {| car := S; ssum := ksum S; smul := kmul; szero := k0; sone := k1;
     sover := fun _ => k0 |}.

(** Relations between two semiring classes that are respected by all operations
    (sums only along nonempty dimensions). Used to transport a whole dynamic
    program from one semiring to another. *)
Record resp (O1 O2 : ops) (R : car O1 -> car O2 -> Prop) : Prop := {
  resp_zero : R (szero O1) (szero O2);
  resp_one : R (sone O1) (sone O2);
  resp_over : forall e, R (sover O1 e) (sover O2 e);
  resp_mul : forall a a' b b', R a a' -> R b b' -> R (smul O1 a b) (smul O2 a' b');
  resp_sum : forall l l', l <> [] -> Forall2 R l l' -> R (ssum O1 l) (ssum O2 l') }.

Section Resp.
  Variables (O1 O2 : ops) (R : car O1 -> car O2 -> Prop).
  Hypothesis HR : resp O1 O2 R.

  Lemma Forall2_map_seq a n (f : nat -> car O1) (g : nat -> car O2) :
    (forall i, R (f i) (g i)) -> Forall2 R (map f (seq a n)) (map g (seq a n)).
  Proof. intro H. revert a. induction n; simpl; intro a; constructor; auto. Qed.

  Lemma resp_sum_seq a n (f : nat -> car O1) (g : nat -> car O2) :
    0 < n -> (forall i, R (f i) (g i)) ->
    R (ssum O1 (map f (seq a n))) (ssum O2 (map g (seq a n))).
  Proof.
    intros Hn H. apply (resp_sum HR).
    - destruct n; simpl; [lia|discriminate].
    - apply Forall2_map_seq; auto.
  Qed.

  Lemma resp_splus a a' b b' : R a a' -> R b b' -> R (splus O1 a b) (splus O2 a' b').
  Proof. intros. apply (resp_sum HR); [discriminate|]. repeat constructor; auto. Qed.

  Lemma resp_matmul D a a' b b' : 0 < D ->
    (forall i j, R (a i j) (a' i j)) -> (forall i j, R (b i j) (b' i j)) ->
    forall i j, R (matmul O1 D a b i j) (matmul O2 D a' b' i j).
  Proof.
    intros HD Ha Hb i j. apply resp_sum_seq; auto.
    intro k. apply (resp_mul HR); auto.
  Qed.

  Lemma resp_dot D a a' b b' : 0 < D ->
    (forall i, R (a i) (a' i)) -> (forall i, R (b i) (b' i)) ->
    R (dot O1 D a b) (dot O2 D a' b').
  Proof. intros HD Ha Hb. apply resp_matmul; auto. Qed.

  Lemma resp_fill c c' m v v' : R c c' -> R v v' -> R (fill O1 c m v) (fill O2 c' m v').
  Proof. destruct m; auto. Qed.
End Resp.

(** matmul and dot in a lawful semiring are sums of products. *)
Section CsrOps.
  Variable S : csr.
  Lemma matmul_csr D a b i j :
    matmul (csr_ops S) D a b i j = Sum S (fun k => kmul (a i k) (b k j)) (seq 0 D).
  Proof. reflexivity. Qed.
  Lemma dot_csr D a b :
    dot (csr_ops S) D a b = Sum S (fun k => kmul (a k) (b k)) (seq 0 D).
  Proof. reflexivity. Qed.
  Lemma splus_csr a b : splus (csr_ops S) a b = kadd a b.
  Proof. unfold splus; simpl. rewrite (kadd_comm _ b), kadd_0_l. reflexivity. Qed.
End CsrOps.
