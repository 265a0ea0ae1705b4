(** Specification vocabulary for one-dimensional functions and enclosures.
    Independent of the model. *)
From Coq Require Import Reals List.
From Coquelicot Require Import Coquelicot.
Import ListNotations.
Open Scope R_scope.

(** An interval of the line (open, closed, bounded or not). *)
Definition convex (D : R -> Prop) := forall x y z, D x -> D z -> x <= y <= z -> D y.
(** The closed interval [a, b]. *)
Definition seg (a b : R) : R -> Prop := fun x => a <= x <= b.
Definition everywhere : R -> Prop := fun _ => True.
Definition positive : R -> Prop := fun x => 0 < x.
Definition negative : R -> Prop := fun x => x < 0.

Definition increasing_on (D : R -> Prop) (f : R -> R) :=
  forall x y, D x -> D y -> x <= y -> f x <= f y.
Definition decreasing_on (D : R -> Prop) (f : R -> R) :=
  forall x y, D x -> D y -> x <= y -> f y <= f x.
Definition even_function (f : R -> R) := forall x, f (- x) = f x.

(** [F 0, F 1, ..., F k] are a function and its first [k] derivatives on [D]. *)
Definition deriv_chain (D : R -> Prop) (F : nat -> R -> R) (k : nat) :=
  forall i x, (i < k)%nat -> D x -> is_derive (F i) x (F (S i) x).

(** c0 + c1 d + c2 d^2 + ... *)
Fixpoint horner (cs : list R) (d : R) : R :=
  match cs with [] => 0 | c :: cs' => c + d * horner cs' d end.

(** [v] is a value of the polynomial whose coefficients are [cs] followed by
    some number of the interval [I], at displacement [d]. *)
Definition encl_value (cs : list R) (I : R * R) (d v : R) :=
  exists c, fst I <= c <= snd I /\ v = horner (cs ++ [c]) d.

(** A degree-[k] enclosure of [f] around [x0], valid for the points of [D]. *)
Definition valid_enclosure (f : R -> R) (x0 : R) (D : R -> Prop) (k : nat)
    (e : list R * (R * R)) :=
  length (fst e) = k /\ forall x, D x -> encl_value (fst e) (snd e) (x - x0) (f x).

(** The Taylor coefficients of orders 0..k. *)
Definition taylor_list (F : nat -> R -> R) (x0 : R) (k : nat) : list R :=
  map (fun i => F i x0 / INR (fact i)) (seq 0 (S k)).

(** The distance condition under which the cap 1e-12 on denominators is
    inactive. *)
Definition cap_ok (k : nat) (x0 x : R) := x = x0 \/ / 10 ^ 12 <= Rabs (x - x0) ^ k.
