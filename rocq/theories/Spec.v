(** Specification vocabulary, independent of the code's own helpers.  Only the
    array type, index validity and numpy broadcasting come from the model. *)
From Coq Require Import Reals.
From Verif Require Import Base Tensor IntervalArith TensorLemmas.
Open Scope R_scope.

(** [u] lies in entry [I] of an array-or-interval [c]. *)
Definition inat (c : coef R) (I : list nat) (u : R) : Prop :=
  match c with
  | Arr t => u = tdata t I
  | Ivl l h => tdata l I <= u <= tdata h I
  end.

(** Every array in [c] has shape [sh]. *)
Definition wfs (sh : list nat) (c : coef R) : Prop :=
  match c with
  | Arr t => tshape t = sh
  | Ivl l h => tshape l = sh /\ tshape h = sh
  end.

(** The array [A] is a possible value of [c]: same shape, entrywise inside. *)
Definition inside (A : tensor R) (c : coef R) : Prop :=
  wfs (tshape A) c /\ forall I, valid (tshape A) I -> inat c I (tdata A I).

(** Lower and upper ends of an array-or-interval. *)
Definition lo (c : coef R) : tensor R := match c with Arr t => t | Ivl l _ => l end.
Definition hi (c : coef R) : tensor R := match c with Arr t => t | Ivl _ h => h end.

(** An interval is non-empty when its ends are ordered (and have one shape). *)
Definition ordered (c : coef R) : Prop :=
  wfs (tshape (lo c)) c /\ forall I, valid (tshape (lo c)) I -> tdata (lo c) I <= tdata (hi c) I.

(** An operation whose every output entry is a sum of products of one entry of
    each argument with non-negative weights: output entry [I] is
    [sum_(w,ia,ib in terms I) w * x[ia] * y[ib]], where the terms depend only on
    the shapes. *)
Fixpoint wsum (L : list (R * (list nat * list nat))) (x y : list nat -> R) : R :=
  match L with
  | [] => 0
  | (w, (ia, ib)) :: L' => w * (x ia * y ib) + wsum L' x y
  end.

Record posop (f : tensor R -> tensor R -> res (tensor R)) (sa sb sc : list nat)
       (terms : list nat -> list (R * (list nat * list nat))) : Prop := {
  pos_val : forall x y z, tshape x = sa -> tshape y = sb -> f x y = Ok z ->
      tshape z = sc /\ forall I, valid sc I -> tdata z I = wsum (terms I) (tdata x) (tdata y);
  pos_idx : forall I, valid sc I ->
      Forall (fun '(w, (ia, ib)) => 0 <= w /\ valid sa ia /\ valid sb ib) (terms I)
}.

(** An operation whose every output entry is the product of one entry of each
    argument. *)
Record prodop (f : tensor R -> tensor R -> res (tensor R)) (sa sb sc : list nat)
       (pa pb : list nat -> list nat) : Prop := {
  prod_val : forall x y z, tshape x = sa -> tshape y = sb -> f x y = Ok z ->
      tshape z = sc /\ forall I, valid sc I -> tdata z I = tdata x (pa I) * tdata y (pb I);
  prod_idx : forall I, valid sc I -> valid sa (pa I) /\ valid sb (pb I)
}.

(** ** Taylor enclosures *)

(** Entry [K] of the [n]-fold outer power of [A], where the index tuples of [A]
    have length [r]: the product of the values of [A] at the [n] consecutive
    blocks of length [r] of [K]. *)
Fixpoint zpow (r : nat) (A : list nat -> R) (n : nat) (K : list nat) : R :=
  match n with
  | O => 1
  | S m => A (firstn r K) * zpow r A m (skipn r K)
  end.

(** The number [<A, z^i>] for an argument of shape [X]: sum over all index tuples
    [J] of [i * X] of [A J * z^i J]. *)
Definition term_value (X : list nat) (z : list nat -> R) (i : nat) (A : list nat -> R) : R :=
  sumi (rep i X) (fun J => A J * zpow (length X) z i J).

(** The degree-[i] coefficient [c] can contribute [v] to entry [s] of the
    output at displacement [z]: [c] has shape [p ++ i * X] for an admissible
    output shape [p], and [v = <A, z^i>] for some [A] inside [c] at (broadcast)
    entry [s]. *)
Definition contributes (P : nat -> list nat -> Prop) (X : list nat) (z : list nat -> R)
           (s : list nat) (i : nat) (c : coef R) (v : R) : Prop :=
  exists p, P i p /\ wfs (p ++ rep i X) c /\
  exists A, (forall J, valid (rep i X) J -> inat c (bidx p s ++ J) (A J)) /\
            v = term_value X z i A.

(** [v] belongs to the set [sum_i <c_i, z^i>] (first coefficient of degree [i]). *)
Fixpoint encl_from (P : nat -> list nat -> Prop) (X : list nat) (z : list nat -> R)
         (s : list nat) (i : nat) (enc : list (coef R)) (v : R) : Prop :=
  match enc with
  | [] => v = 0
  | c :: r => exists u w, contributes P X z s i c u /\ encl_from P X z s (S i) r w /\ v = u + w
  end.

(** The enclosure [enc] contains the array [f] (of shape [S]) at displacement
    [z] (of shape [X]). *)
Definition encloses (P : nat -> list nat -> Prop) (X : list nat) (S : list nat)
           (enc : list (coef R)) (z : list nat -> R) (f : list nat -> R) : Prop :=
  enc <> [] /\ forall s, valid S s -> encl_from P X z s 0 enc (f s).

(** Admissible shapes: any that numpy broadcasts to [S]; or exactly [S]; or
    exactly [S] except for the constant coefficient. *)
Definition bcast (S : list nat) (i : nat) (p : list nat) : Prop := compat p S.
Definition full (S : list nat) (i : nat) (p : list nat) : Prop := p = S.
Definition full_tail (S : list nat) (i : nat) (p : list nat) : Prop :=
  p = S \/ i = 0%nat /\ compat p S.

(** The displacement [z] lies in the interval [tr] of shape [X]. *)
Definition in_region (X : list nat) (tr : tensor R * tensor R) (z : list nat -> R) : Prop :=
  tshape (fst tr) = X /\ tshape (snd tr) = X /\
  forall J, valid X J -> tdata (fst tr) J <= z J <= tdata (snd tr) J.

(** A bilinear operation on arrays of shapes [Sa], [Sb] with result shape [Sc]:
    entry [s] of the result is the sum over [terms s] of [w * u[ia] * v[ib]],
    with non-negative weights. *)
Definition pos_terms (Sa Sb Sc : list nat)
           (terms : list nat -> list (R * (list nat * list nat))) : Prop :=
  forall s, valid Sc s ->
    Forall (fun '(w, (ia, ib)) => 0 <= w /\ valid Sa ia /\ valid Sb ib) (terms s).

(** [pbb] is the pairwise batched version of that operation, as documented for
    [TaylorEnclosureArithmetic.arbitrary_bilinear]
    (enclosure_arithmetic.py:108-127):
    [pbb(u, v, p, q)[s + I + J] == bilinear(u[... + I], v[... + J])[s]]. *)
Definition pairwise_batched (Sa Sb Sc : list nat)
           (terms : list nat -> list (R * (list nat * list nat)))
           (pbb : tensor R -> tensor R -> nat -> nat -> res (tensor R)) : Prop :=
  forall ra rb u v w, tshape u = Sa ++ ra -> tshape v = Sb ++ rb ->
    pbb u v (length ra) (length rb) = Ok w ->
    tshape w = Sc ++ ra ++ rb /\
    forall s I J, valid Sc s -> valid ra I -> valid rb J ->
      tdata w (s ++ I ++ J) =
      wsum (terms s) (fun ia => tdata u (ia ++ I)) (fun ib => tdata v (ib ++ J)).

(** ** Elementwise enclosures *)
(** Shapes of elementwise coefficients accepted for an argument of shape [S]:
    numbers, or arrays of the same rank that broadcast to [S]. *)
Definition ew_shape (S E : list nat) : Prop := E = [] \/ compat E S /\ length E = length S.

(** [v] belongs to [sum_p e_p[s] * d^p] (first coefficient of degree [p]). *)
Fixpoint ew_from (S s : list nat) (p : nat) (e : list (coef R)) (d v : R) : Prop :=
  match e with
  | [] => v = 0
  | c :: r => exists E w u, ew_shape S E /\ wfs E c /\ inat c (bidx E s) w /\
                            ew_from S s (Datatypes.S p) r d u /\ v = w * d ^ p + u
  end.

(** ** Exact interval extensions *)
(** [c] is the exact elementwise range of [op] over [a] and [b]: it contains
    every result and each end of each entry is the entry of some result. *)
Definition exact_for (op : tensor R -> tensor R -> res (tensor R)) (a b c : coef R) : Prop :=
  (forall A B, inside A a -> inside B b -> exists C, op A B = Ok C /\ inside C c) /\
  (forall I, valid (tshape (lo c)) I ->
     (exists A B C, inside A a /\ inside B b /\ op A B = Ok C /\ tdata C I = tdata (lo c) I) /\
     (exists A B C, inside A a /\ inside B b /\ op A B = Ok C /\ tdata C I = tdata (hi c) I)).

(** The same for an operation with one argument. *)
Definition exact_for1 (op : tensor R -> tensor R) (a c : coef R) : Prop :=
  (forall A, inside A a -> inside (op A) c) /\
  (forall I, valid (tshape (lo c)) I ->
     (exists A, inside A a /\ tdata (op A) I = tdata (lo c) I) /\
     (exists A, inside A a /\ tdata (op A) I = tdata (hi c) I)).

(** ** Scalar polynomials *)
(** The value at [z] of the polynomial with coefficients [a] (constant first). *)
Fixpoint poly_value (a : list R) (z : R) : R :=
  match a with [] => 0 | c :: r => c + z * poly_value r z end.
