(** What C81 says about the bounds of degree 0. *)
From Coq Require Import Reals List.
From Verif Require Import Base Tensor IntervalArith Enclosure TensorLemmas Spec GraphEditor GraphSpec JaxBound JaxSpec.
Import ListNotations.
Open Scope R_scope.

(** The degree-0 enclosure [gen] returns for a region [l, h] is the exact range
    of [sigma] on it. *)
Definition exact_generator (gen : generator R) (sigma : R -> res R) : Prop :=
  forall S x0 l h e, tshape x0 = S -> tshape l = S -> tshape h = S ->
    (forall s, valid S s -> tdata l s <= tdata x0 s <= tdata h s) ->
    gen x0 (l, h) 0%nat = Ok e ->
    exists c, e = [c] /\ wfs S c /\
      forall s v, valid S s -> (inat c s v <-> exists u, tdata l s <= u <= tdata h s /\ sigma u = Ok v).

(** The primitives covered.  [numbers]: every value in the program is a number. *)
Definition exact_prim (numbers : bool) (sc : scalars R) (gs : generators R) (p : prim R) : Prop :=
  match p with
  | add_p | sub_p | mul_p | neg_p | convert_element_type_p => True
  | broadcast_in_dim_p _ _ | reshape_p _ | squeeze_p _ | transpose_p _ => numbers = false
  | integer_pow_p y => ((2 <= y)%Z -> numbers = true) /\
                       ((y < 0)%Z -> exact_generator (gen_ipow gs y) (fun x => s_ipow sc x y))
  | elementwise_p e => exact_generator (gen_elem gs e) (s_elem sc e)
  | div_p => exact_generator (gen_ipow gs (-1)) (fun x => s_ipow sc x (-1)) /\
             (forall x y v, s_div sc x y = Ok v -> exists w, s_ipow sc y (-1) = Ok w /\ v = x * w)
  | _ => False
  end.

(** Of the operands of each equation, at most one depends on the argument.
    [D]: the variables that do, so far. *)
Definition depends (D : list nat) (v : jvar) : bool := match v with Var n => existsb (Nat.eqb n) D | _ => false end.
Fixpoint one_dependent_operand (D : list nat) (ops : list (op jvar (prim R))) : Prop :=
  match ops with
  | [] => True
  | o :: ops' =>
      match filter (depends D) (oins o) with
      | [] => one_dependent_operand D ops'
      | [_] => one_dependent_operand (flat_map (fun v => match v with Var n => [n] | _ => [] end) (oouts o) ++ D) ops'
      | _ => False
      end
  end.
