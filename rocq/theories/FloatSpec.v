(** The same model with rounding: every sum, difference and product of numbers
    is rounded.  Used by C71 to say what the code computes in floating point. *)
From Coq Require Import Reals.
From Verif Require Import Base Tensor IntervalArith Enclosure TensorLemmas Spec GraphEditor GraphSpec JaxBound JaxSpec.
Open Scope R_scope.

(** [rnd x] is the floating point number nearest to [x] (any format and any
    direction of ties with these properties; overflow to infinity and NaN are
    not modelled). *)
Record rounding (rnd : R -> R) : Prop := Rounding {
  rnd_le : forall x y, x <= y -> rnd x <= rnd y;
  rnd_idem : forall x, rnd (rnd x) = rnd x;
  rnd_opp : forall x, rnd (- x) = - rnd x;
  rnd_1 : rnd 1 = 1 }.

(** The arithmetic of the floating point numbers: exact result, rounded once.
    Negation, minimum, maximum and comparison are exact. *)
Definition NumF (rnd : R -> R) : Num R := {|
  n0 := 0; n1 := 1;
  nadd := fun a b => rnd (a + b); nsub := fun a b => rnd (a - b);
  nmul := fun a b => rnd (a * b); nopp := Ropp; nmin := Rmin; nmax := Rmax;
  nltb := fun a b => if Rlt_dec a b then true else false;
  nofZ := fun z => rnd (IZR z) |}.

(** Every entry is a floating point number. *)
Definition float_array (rnd : R -> R) (t : tensor R) : Prop :=
  forall I, valid (tshape t) I -> rnd (tdata t I) = tdata t I.

(** [sigma] maps floats to floats, and the degree-0 enclosures of [gen] contain
    its values: one coefficient, of the shape of the argument, containing
    [sigma y] for every float [y] of the region. *)
Definition float_generator (rnd : R -> R) (gen : generator R) (sigma : R -> res R) : Prop :=
  (forall y v, rnd y = y -> sigma y = Ok v -> rnd v = v) /\
  forall S x0 l h e, tshape x0 = S -> tshape l = S -> tshape h = S ->
    (forall s, valid S s -> tdata l s <= tdata x0 s <= tdata h s) ->
    gen x0 (l, h) 0%nat = Ok e ->
    exists c, e = [c] /\ wfs S c /\
      forall s y v, valid S s -> tdata l s <= y <= tdata h s -> rnd y = y -> sigma y = Ok v -> inat c s v.

(** The primitives covered, with what is assumed of the scalar functions that
    are not sums and products.  Division is covered only if it is computed as
    a product with the reciprocal. *)
Definition float_prim (rnd : R -> R) (sc : scalars R) (gs : generators R) (p : prim R) : Prop :=
  match p with
  | add_p | sub_p | mul_p | neg_p | convert_element_type_p => True
  | broadcast_in_dim_p _ _ | reshape_p _ | reduce_sum_p _ | reduce_window_sum_p _ | squeeze_p _ | transpose_p _ => True
  | integer_pow_p y => (y < 0)%Z -> float_generator rnd (gen_ipow gs y) (fun x => s_ipow sc x y)
  | elementwise_p e => float_generator rnd (gen_elem gs e) (s_elem sc e)
  | div_p => float_generator rnd (gen_ipow gs (-1)) (fun x => s_ipow sc x (-1)) /\
             (forall x y v, s_div sc x y = Ok v -> exists w, s_ipow sc y (-1) = Ok w /\ v = rnd (x * w))
  | _ => False
  end.

(** The bounds [b] at [x], computed in floating point, are arrays of the shape
    of [y] with [y] in between. *)
Definition float_bounds_at (rnd : R -> R) (b : taylor_bounds_t R) (x y : tensor R) : Prop :=
  exists l h, @tb_lower R (NumF rnd) b x = Ok l /\ @tb_upper R (NumF rnd) b x = Ok h /\
    tshape l = tshape y /\ tshape h = tshape y /\
    forall s, valid (tshape y) s -> tdata l s <= tdata y s <= tdata h s.
