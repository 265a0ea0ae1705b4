(** Specification vocabulary for C67-C69. *)
From Coq Require Import Reals.
From Coquelicot Require Import Coquelicot.
From Verif Require Import Base Tensor IntervalArith TensorLemmas GraphEditor JaxBound JaxSpec Notebooks.
Open Scope R_scope.

(** The Jaxpr [pr] with constants [consts] computes the number [v] at the number
    [x], by supported operations (C46). *)
Definition computes (sc : scalars R) (degree : nat) (pr : program R) (consts : list (tensor R)) (x v : R) : Prop :=
  supported sc [] degree pr consts (tscalar x) /\
  exists y, meaning sc pr consts (tscalar x) = Some [y] /\ tshape y = [] /\ tdata y [] = v.

(** [x] is reached from [x0] by [n] updates of the optimizer, none of which
    raises. *)
Inductive reaches {P} (update : @state R P -> res (@state R P)) : @state R P -> nat -> @state R P -> Prop :=
| reaches_0 st : reaches update st 0 st
| reaches_S st n st1 st2 : reaches update st n st1 -> update st1 = Ok st2 -> reaches update st (S n) st2.

(** Floats with NaN ([None]): comparisons with NaN are false, arithmetic on NaN
    gives NaN. *)
Definition float_lt (a b : option R) : bool :=
  match a, b with Some x, Some y => if Rlt_dec x y then true else false | _, _ => false end.
Definition float_half (a : option R) : option R := option_map (fun x => x / 2) a.
Definition float_twice (a : option R) : option R := option_map (fun x => x * 2) a.
