(** Specification of "the coefficients are Taylor coefficients" (C66). *)
From Coq Require Import Reals.
From Coquelicot Require Import Coquelicot.
From Verif Require Import Base Tensor IntervalArith TensorLemmas Spec GraphEditor GraphSpec JaxBound JaxSpec.
Open Scope R_scope.

(** Entry [s + J] of the coefficient of degree [i] (its lower end if it is an
    interval), for an argument of shape [X]: the coefficient has shape
    [p ++ i * X], and [s] is read with numpy's broadcasting from [p].  Absent
    coefficients are zero. *)
Definition coefficient_at (X : list nat) (coefs : list (coef R)) (i : nat) (s J : list nat) : R :=
  match nth_error coefs i with
  | Some c => tdata (lo c) (bidx (firstn (length (tshape (lo c)) - i * length X) (tshape (lo c))) s ++ J)
  | None => 0
  end.

(** The value at displacement [z] of entry [s] of the polynomial made of the
    coefficients of degree below [D]. *)
Definition polynomial_part (X : list nat) (coefs : list (coef R)) (D : nat) (s : list nat) (z : list nat -> R) : R :=
  sumn D (fun i => term_value X z i (coefficient_at X coefs i s)).

(** [g t] is entry [s] of the program's output at the point [x0 + t * v], which
    is a point of the region where the program is supported. *)
Definition along (sc : scalars R) (pr : program R) (consts : list (tensor R)) (D : nat)
    (x0 : tensor R) (region : tensor R * tensor R) (s : list nat) (v : list nat -> R) (g : R -> R) (t : R) : Prop :=
  exists x y, in_box x0 region x /\ (forall J, valid (tshape x0) J -> tdata x J = tdata x0 J + t * v J) /\
    supported sc (tshape x0) D pr consts x /\ meaning sc pr consts x = Some [y] /\
    valid (tshape y) s /\ tdata y s = g t.

(** The unit vector of the index [J]. *)
Definition unit_vector (J K : list nat) : R := if shape_eqb J K then 1 else 0.
