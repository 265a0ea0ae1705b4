(** When taylor_bounds is expected to return: specification for C60. *)
From Coq Require Import Reals.
From Verif Require Import Base Tensor IntervalArith Enclosure TensorLemmas Spec GraphEditor GraphSpec JaxBound JaxSpec.
Open Scope R_scope.

(** ** What a generator may do *)
(** [gen] raised [e] at degree [d] for a centre inside a region of its shape. *)
Definition raises (gen : generator R) (d : nat) (e : exn) : Prop :=
  exists S x0 l h, tshape x0 = S /\ tshape l = S /\ tshape h = S /\
    (forall s, valid S s -> tdata l s <= tdata x0 s <= tdata h s) /\ gen x0 (l, h) d = Err e.
(** At degree 0 the result is one interval, at higher degrees it has at least
    two coefficients: it is never taken for a constant. *)
Definition nonconstant (e : enclosure R) (d : nat) : Prop :=
  if (d =? 0)%nat then exists l h, e = [Ivl l h] else (2 <= length e)%nat.
Definition nonconstant_gen (gen : generator R) : Prop :=
  forall S x0 l h d e, tshape x0 = S -> tshape l = S -> tshape h = S ->
    (forall s, valid S s -> tdata l s <= tdata x0 s <= tdata h s) ->
    gen x0 (l, h) d = Ok e -> nonconstant e d.
(** The generators called for a primitive. *)
Inductive calls (gs : generators R) : prim R -> generator R -> Prop :=
| calls_elem e : calls gs (elementwise_p e) (gen_elem gs e)
| calls_ipow y : (y < 0)%Z -> calls gs (integer_pow_p y) (gen_ipow gs y)
| calls_div : calls gs div_p (gen_ipow gs (-1))
| calls_pow q : exponent gs q = ExpOther -> calls gs pow_p (gen_pow gs q).
(** What is assumed of the generators called by a program: valid at degree 0,
    and at the centre at higher degrees; never taken for a constant. *)
Definition fit_generators (sc : scalars R) (gs : generators R) (pr : program R) : Prop :=
  forall o, In o (gops (p_graph pr)) ->
    prim_gens_ok at_centre sc gs (odata o) /\ forall gen, calls gs (odata o) gen -> nonconstant_gen gen.
(** A generator called for one of the equations raised [e] (at the requested
    degree, or at degree 0 to propagate trust regions). *)
Definition generator_raises (gs : generators R) (pr : program R) (D : nat) (e : exn) : Prop :=
  exists o gen d, In o (gops (p_graph pr)) /\ calls gs (odata o) gen /\ (d = D \/ d = 0%nat) /\ raises gen d e.

(** ** Equations that do not raise by themselves *)
(** Evaluated on constants: the primitives made by
    [_register_elementwise_function] cannot be (see C58). *)
Definition evaluable (p : prim R) : Prop :=
  match p with
  | elementwise_p Sigmoid | elementwise_p Softplus | elementwise_p Swish => False
  | _ => True
  end.
(** With a non-constant operand (beyond [result_kind]): no 0-th power; no
    elementwise function, negative power or denominator that is known up to
    broadcasting only and may have fewer axes (see C74); a [pow] exponent that is one constant number, not a
    non-negative integer, and no trust-region propagation; for a vector argument
    and degree > 0 no reshape, transpose, reduce_window_sum, convolution or
    broadcast; a broadcast at degree 1 for affine functions of the argument
    only. *)
Definition accepted (gs : generators R) (X : list nat) (D : nat) (prop : bool) (p : prim R) (ks : list kind) (vs : list (tensor R)) : Prop :=
  match p with
  | integer_pow_p y => y <> 0%Z /\ ((y < 0)%Z -> ~ In KCast ks)
  | elementwise_p _ => ~ In KCast ks
  | div_p => ~ exists k, ks = [k; KCast]
  | pow_p => prop = false /\ exists v1 v2 k1 x, vs = [v1; v2] /\ ks = [k1; KConst] /\ k1 <> KCast /\ to_float v2 = Ok x /\ exponent gs x = ExpOther
  | broadcast_in_dim_p _ _ => D = 0%nat \/ X = [] /\ (D <> 1%nat \/ ks = [KLin])
  | reshape_p _ | transpose_p _ | reduce_window_sum_p _ | conv_p _ => D = 0%nat \/ X = []
  | _ => True
  end.

Section Analysis.
Variables (sc : scalars R) (gs : generators R) (X : list nat) (D : nat) (prop : bool).
(** Follows the evaluation like [analyse]. *)
Fixpoint all_accepted (r : jvar -> option (tensor R)) (k : jvar -> option kind) (l : list (op jvar (prim R))) : Prop :=
  match l with
  | [] => True
  | o :: l' =>
      forall args ks vals kd r' k',
        lookups r (oins o) = Some args -> lookups k (oins o) = Some ks -> prim_bind sc (odata o) args = Ok vals ->
        result_kind X D (odata o) (combine ks (map tshape args)) (map tshape vals) = Some kd ->
        assign jvar_eqb r (oouts o) vals = Some r' -> assign jvar_eqb k (oouts o) (map (fun _ => kd) vals) = Some k' ->
        (if forallb is_const ks then evaluable (odata o) else accepted gs X D prop (odata o) ks args) /\ all_accepted r' k' l'
  end.
End Analysis.

Definition is_var (v : jvar) : bool := match v with Var _ => true | _ => false end.
Definition is_lit (v : jvar) : bool := match v with Lit _ => true | _ => false end.
(** The variables a program defines. *)
Definition defined (pr : program R) : list jvar := gdata (p_graph pr) ++ gins (p_graph pr) ++ flat_map oouts (gops (p_graph pr)).
(** What every Jaxpr satisfies: the constants and the argument are variables,
    no variable is defined twice, nothing is assigned to a literal, and dropped
    variables are neither operands nor the result. *)
Definition wf_program (pr : program R) (consts : list (tensor R)) : Prop :=
  (exists n, gins (p_graph pr) = [Var n]) /\ (exists v, gouts (p_graph pr) = [v] /\ v <> Drop) /\
  Forall (fun v => is_var v = true) (gdata (p_graph pr)) /\ length consts = length (gdata (p_graph pr)) /\
  Forall (fun v => is_lit v = false) (defined pr) /\ NoDup (filter is_var (defined pr)) /\
  (forall o, In o (gops (p_graph pr)) -> ~ In Drop (oins o)).

(** Every equation is accepted (with the argument [x]). *)
Definition accepted_program (sc : scalars R) (gs : generators R) (max_deg : Z) (propagate : bool) (pr : program R) (consts : list (tensor R)) (x : tensor R) : Prop :=
  forall r k,
    assign jvar_eqb (lit_value (p_lits pr)) (gdata (p_graph pr) ++ gins (p_graph pr)) (consts ++ [x]) = Some r ->
    assign jvar_eqb (fun v => match v with Lit _ => Some KConst | _ => None end)
           (gdata (p_graph pr) ++ gins (p_graph pr)) (map (fun _ => KConst) consts ++ [KLin]) = Some k ->
    all_accepted sc gs (tshape x) (Z.to_nat max_deg) (propagate && (0 <? max_deg)%Z) r k (gops (p_graph pr)).
