(** Specification for inclusion isotonicity. *)
From Coq Require Import Reals.
From Verif Require Import Base Tensor IntervalArith TensorLemmas Spec JaxBound.
Open Scope R_scope.

(** [c] is narrower than [c'] (or equal): both are plain arrays, or both are
    intervals; all arrays have one shape; the interval [c] is not empty and lies
    inside [c'] at every entry (for plain arrays: the entries are equal). *)
Definition is_arr (c : coef R) : bool := match c with Arr _ => true | Ivl _ _ => false end.
Definition narrower (c c' : coef R) : Prop :=
  is_arr c = is_arr c' /\ wfs (tshape (lo c)) c /\ wfs (tshape (lo c)) c' /\
  forall I, valid (tshape (lo c)) I ->
    tdata (lo c') I <= tdata (lo c) I <= tdata (hi c) I /\ tdata (hi c) I <= tdata (hi c') I.

(** A generator of elementwise enclosures is isotone: a smaller region around
    the same centre (at degree 0: around any centre) gives narrower
    coefficients, whenever both calls return. *)
Definition iso_gen (gen : tensor R -> tensor R * tensor R -> nat -> res (list (coef R))) : Prop :=
  forall S x x' l h l' h' d e e',
    tshape x = S -> tshape x' = S -> tshape l = S -> tshape h = S -> tshape l' = S -> tshape h' = S ->
    (forall s, valid S s -> tdata l' s <= tdata l s /\ tdata h s <= tdata h' s /\
       tdata l s <= tdata x s <= tdata h s /\ tdata l' s <= tdata x' s <= tdata h' s) ->
    (d = 0%nat \/ forall s, valid S s -> tdata x s = tdata x' s) ->
    gen x (l, h) d = Ok e -> gen x' (l', h') d = Ok e' -> Forall2 narrower e e'.
(** The generators a primitive calls are isotone. *)
Definition prim_gens_iso (gs : generators R) (p : prim R) : Prop :=
  match p with
  | elementwise_p e => iso_gen (gen_elem gs e)
  | integer_pow_p y => (y < 0)%Z -> iso_gen (gen_ipow gs y)
  | div_p => iso_gen (gen_ipow gs (-1))
  | pow_p => forall q, exponent gs q = ExpOther -> iso_gen (gen_pow gs q)
  | _ => True
  end.
