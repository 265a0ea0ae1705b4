(** Specification of taylor_bounds: the function a program computes, and the
    programs for which the bounds are claimed. *)
From Coq Require Import Reals.
From Verif Require Import Base Tensor IntervalArith Enclosure TensorLemmas Spec GraphEditor GraphSpec JaxBound.
Open Scope R_scope.

(** ** The function computed by a program *)
Definition jvar_eqb (u v : jvar) : bool :=
  match u, v with
  | Var a, Var b => (a =? b)%nat
  | Lit a, Lit b => (a =? b)%nat
  | Drop, Drop => true
  | _, _ => false
  end.
Definition ok_opt {A} (r : res A) : option A := match r with Ok a => Some a | Err _ => None end.
Definition lit_value {T} (lits : nat -> tensor T) (v : jvar) : option (tensor T) :=
  match v with Lit n => Some (lits n) | _ => None end.
(** The graph whose inputs are the constants and the argument. *)
Definition closed_graph {T} (pr : program T) : graph jvar (prim T) unit :=
  @Graph jvar (prim T) unit (gdata (p_graph pr) ++ gins (p_graph pr)) (gouts (p_graph pr)) (gops (p_graph pr)) tt.
(** [meaning sc pr consts x]: the outputs of the program at [x], evaluating one
    equation after the other; None if some equation is undefined at [x]. *)
Definition meaning {T} {N : Num T} (sc : scalars T) (pr : program T) (consts : list (tensor T))
    (x : tensor T) : option (list (tensor T)) :=
  run_graph (fun p args => ok_opt (prim_bind sc p args)) (lit_value (p_lits pr)) jvar_eqb
            (closed_graph pr) (consts ++ [x]).

(** ** Equality of arrays *)
(** Same shape and same entries (entries at invalid indices do not matter). *)
Definition teq {T} (a b : tensor T) : Prop :=
  tshape a = tshape b /\ forall I, valid (tshape a) I -> tdata a I = tdata b I.

Inductive req {A B} (Q : A -> B -> Prop) : res A -> res B -> Prop :=
| req_ok a b : Q a b -> req Q (Ok a) (Ok b)
| req_err e e' : req Q (Err e) (Err e').

(** What is assumed of the functions carried by the opaque primitives: they
    depend on array entries only. *)
Definition opaque_ok (p : prim R) : Prop :=
  match p with
  | jit_p f => forall a a', teq a a' -> req teq (f a) (f a')
  | other_p f => forall l l', Forall2 teq l l' -> req (Forall2 teq) (f l) (f l')
  | _ => True
  end.

(** ** Supported programs *)
(** What is known about a variable:
    - [KConst]: it does not depend on the argument;
    - [KFull]: every coefficient of its enclosure has the variable's full shape;
    - [KTwo]: so, and (at degree >= 1) there are at least two coefficients;
    - [KLin]: so, and (at degree >= 1) there are exactly two, both arrays (the
      variable is an affine function of the argument);
    - [KCast]: the coefficients have the variable's shape only up to broadcasting
      (this happens when operands of different shapes are added);
    - [KRank]: so, but they have as many axes. *)
Inductive kind := KConst | KLin | KTwo | KFull | KRank | KCast.
Definition is_cast (k : kind) : bool := match k with KCast | KRank => true | _ => false end.
Definition is_const (k : kind) : bool := match k with KConst => true | _ => false end.
Definition is_lin (k : kind) : bool := match k with KLin => true | _ => false end.
Definition two (k : kind) : bool := match k with KLin | KTwo => true | _ => false end.
Definition unless_cast (k r : kind) : option kind := if is_cast k then None else Some r.
(** Sums: an operand whose coefficients of degree >= 1 have the shape [so] of the
    result; an operand with two coefficients of shape [so], added to an affine
    function of any shape. *)
Definition aligned (k : kind) (s so : list nat) : bool :=
  match k with KConst => true | KRank | KCast => false | _ => shape_eqb s so end.
Definition same_rank (k : kind) (s so : list nat) : bool :=
  match k with KConst => true | KCast => false | _ => (length s =? length so)%nat end.
Definition covers (k : kind) (s : list nat) (k' : kind) (so : list nat) : bool := two k && shape_eqb s so && is_lin k'.
Definition sum_kind (D : nat) (ka : kind) (sa : list nat) (kb : kind) (sb so : list nat) : kind :=
  if (D =? 0)%nat then KFull
  else if aligned ka sa so && aligned kb sb so || covers ka sa kb so || covers kb sb ka so
  then if (is_const ka || is_lin ka) && (is_const kb || is_lin kb) then KLin
       else if two ka || two kb then KTwo else KFull
  else if same_rank ka sa so && same_rank kb sb so then KRank else KCast.
(** Products and bilinear operations. *)
Definition prod_kind (ka kb : kind) : kind :=
  if is_cast ka || is_cast kb then KCast
  else if is_const ka && is_lin kb || is_lin ka && is_const kb then KLin
  else if two ka || two kb then KTwo else KFull.
(** Elementwise products: an operand of the shape of the result makes all
    coefficients have that shape. *)
Definition mul_kind (ka : kind) (sa : list nat) (kb : kind) (sb so : list nat) : kind :=
  if (is_cast ka || is_cast kb) && (negb (is_cast ka) && shape_eqb sa so || negb (is_cast kb) && shape_eqb sb so)
  then KFull else prod_kind ka kb.
(** Operands of elementwise functions (and of negative powers). *)
Definition unless_cast_array (X : list nat) (k r : kind) : option kind :=
  if is_cast k && negb (length X =? 0)%nat then None else Some r.

(** The kind of the result of an equation, for an argument of shape [X] and
    degree [D], from the kinds and shapes of the operands and the shape of the
    result; None if the combination is not supported:
    - nested [jit] and unregistered primitives applied to the argument;
    - [dot_general] with batch axes and a left operand depending on a vector
      argument;
    - [reshape] for an argument of shape (1,);
    - an operand known up to broadcasting only ([KCast], [KRank]), except in sums,
      products, powers with an exponent >= 0 and quotients, and, if the argument
      is a number, in elementwise functions and powers;
    - [pow] with an exponent array that changes the shape. *)
Definition result_kind {T} (X : list nat) (D : nat) (p : prim T)
    (args : list (kind * list nat)) (outs : list (list nat)) : option kind :=
  if forallb (fun a => is_const (fst a)) args then Some KConst
  else match p, args, outs with
  | add_p, [(ka, sa); (kb, sb)], [so] | sub_p, [(ka, sa); (kb, sb)], [so] => Some (sum_kind D ka sa kb sb so)
  | mul_p, [(ka, sa); (kb, sb)], [so] => Some (mul_kind ka sa kb sb so)
  | div_p, [(ka, sa); (kb, sb)], [so] => unless_cast_array X kb (mul_kind ka sa KFull sb so)
  | neg_p, [(ka, _)], _ => Some ka
  | convert_element_type_p, [(ka, _)], _ => Some ka
  | integer_pow_p y, [(ka, _)], _ =>
      if (y <? 0)%Z then unless_cast_array X ka KFull
      else Some (if two ka && negb (y =? 0)%Z then KTwo else KFull)
  | pow_p, [(ka, sa); _], [so] => if shape_eqb sa so then unless_cast_array X ka KFull else None
  | dot_general_p _ _ lb _, [(ka, _); (kb, _)], _ =>
      if is_cast ka || is_cast kb then None
      else if (length lb =? 0)%nat || (length X =? 0)%nat || (D =? 0)%nat || is_const ka
      then Some (prod_kind ka kb) else None
  | conv_p _, [(ka, _); (kb, _)], _ => if is_cast ka || is_cast kb then None else Some (prod_kind ka kb)
  | reshape_p _, [(ka, _)], _ =>
      if shape_eqb X [1%nat] && negb (D =? 0)%nat then None else unless_cast ka ka
  | elementwise_p _, [(ka, _)], _ => unless_cast_array X ka KFull
  | broadcast_in_dim_p _ _, [(ka, _)], _
  | reduce_sum_p _, [(ka, _)], _
  | reduce_window_sum_p _, [(ka, _)], _
  | squeeze_p _, [(ka, _)], _
  | transpose_p _, [(ka, _)], _ => unless_cast ka ka
  | _, _, _ => None
  end.

(** Arrays with at least one entry. *)
Definition nonempty (sh : list nat) : bool := forallb (fun n => (0 <? n)%nat) sh.

Section Analysis.
Context {T : Type} {N : Num T}.
Variables (sc : scalars T) (X : list nat) (D : nat).
(** Follows the evaluation of the equations ([r]: values, [k]: kinds). *)
Fixpoint analyse (r : jvar -> option (tensor T)) (k : jvar -> option kind)
    (l : list (op jvar (prim T))) : option (jvar -> option kind) :=
  match l with
  | [] => Some k
  | o :: l' =>
      match lookups r (oins o), lookups k (oins o) with
      | Some args, Some ks =>
          match prim_bind sc (odata o) args with
          | Ok vals =>
              if forallb (fun v => nonempty (tshape v)) vals then
                match result_kind X D (odata o) (combine ks (map tshape args)) (map tshape vals),
                      assign jvar_eqb r (oouts o) vals with
                | Some kd, Some r' =>
                    match assign jvar_eqb k (oouts o) (map (fun _ => kd) vals) with
                    | Some k' => analyse r' k' l'
                    | None => None
                    end
                | _, _ => None
                end
              else None
          | Err _ => None
          end
      | _, _ => None
      end
  end.

(** The program evaluates at [x] using supported equations only (this depends
    on the shapes of the arrays, and on [x] only through them). *)
Definition supported (pr : program T) (consts : list (tensor T)) (x : tensor T) : Prop :=
  nonempty (tshape x) = true /\ Forall (fun c => nonempty (tshape c) = true) consts /\
  (forall n, nonempty (tshape (p_lits pr n)) = true) /\
  exists r k k',
    assign jvar_eqb (lit_value (p_lits pr)) (gdata (p_graph pr) ++ gins (p_graph pr)) (consts ++ [x]) = Some r /\
    assign jvar_eqb (fun v => match v with Lit _ => Some KConst | _ => None end)
           (gdata (p_graph pr) ++ gins (p_graph pr)) (map (fun _ => KConst) consts ++ [KLin]) = Some k /\
    analyse r k (gops (p_graph pr)) = Some k'.
End Analysis.

(** ** Enclosure generators *)
(** The generator [gen] is valid for the scalar function [sigma]: if it returns
    coefficients for a centre [x0] inside the region [l, h], there are at most
    degree + 1 of them, only the last may be an interval, and at every entry
    their polynomial in [y - x0] contains [sigma y] for every [y] of the region
    where [sigma] is defined. *)
Definition valid_gen (gen : generator R) (sigma : R -> res R) : Prop :=
  forall S x0 l h d e, tshape x0 = S -> tshape l = S -> tshape h = S ->
    (forall s, valid S s -> tdata l s <= tdata x0 s <= tdata h s) ->
    gen x0 (l, h) d = Ok e ->
    (0 < length e <= d + 1)%nat /\
    (forall i c, (i < d)%nat -> nth_error e i = Some c -> exists t, c = Arr t) /\
    Forall (wfs S) e /\
    forall s y v, valid S s -> tdata l s <= y <= tdata h s -> sigma y = Ok v ->
      ew_from S s 0 e (y - tdata x0 s) v.

Definition valid_generators (sc : scalars R) (gs : generators R) : Prop :=
  (forall e, valid_gen (gen_elem gs e) (s_elem sc e)) /\
  (forall y, (y < 0)%Z -> valid_gen (gen_ipow gs y) (fun x => s_ipow sc x y)) /\
  (forall p, valid_gen (gen_pow gs p) (fun x => s_pow sc x p)) /\
  (forall p, exponent gs p = ExpZero -> forall x v, s_pow sc x p = Ok v -> v = 1) /\
  (forall x y v, s_div sc x y = Ok v -> exists w, s_ipow sc y (-1) = Ok w /\ v = x * w).

(** Validity at the arguments [y] with [Q degree x0 y] only. *)
Definition valid_gen_if (Q : nat -> R -> R -> Prop) (gen : generator R) (sigma : R -> res R) : Prop :=
  forall S x0 l h d e, tshape x0 = S -> tshape l = S -> tshape h = S ->
    (forall s, valid S s -> tdata l s <= tdata x0 s <= tdata h s) ->
    gen x0 (l, h) d = Ok e ->
    (0 < length e <= d + 1)%nat /\
    (forall i c, (i < d)%nat -> nth_error e i = Some c -> exists t, c = Arr t) /\
    Forall (wfs S) e /\
    forall s y v, valid S s -> tdata l s <= y <= tdata h s -> Q d (tdata x0 s) y -> sigma y = Ok v ->
      ew_from S s 0 e (y - tdata x0 s) v.
(** The generators called for a primitive are valid in this sense. *)
Definition prim_gens_ok (Q : nat -> R -> R -> Prop) (sc : scalars R) (gs : generators R) (p : prim R) : Prop :=
  match p with
  | elementwise_p e => valid_gen_if Q (gen_elem gs e) (s_elem sc e)
  | integer_pow_p y => (y < 0)%Z -> valid_gen_if Q (gen_ipow gs y) (fun x => s_ipow sc x y)
  | div_p => valid_gen_if Q (gen_ipow gs (-1)) (fun x => s_ipow sc x (-1)) /\
             (forall x y v, s_div sc x y = Ok v -> exists w, s_ipow sc y (-1) = Ok w /\ v = x * w)
  | pow_p => (forall q, exponent gs q = ExpOther -> valid_gen_if Q (gen_pow gs q) (fun x => s_pow sc x q)) /\
             (forall q, exponent gs q = ExpZero -> forall x v, s_pow sc x q = Ok v -> v = 1)
  | _ => True
  end.
(** Everywhere; at the centre only, except at degree 0. *)
Definition always (d : nat) (x y : R) : Prop := True.
Definition at_centre (d : nat) (x y : R) : Prop := d = 0%nat \/ y = x.

(** ** Points of the region *)
(** [x] has the shape of [x0] and lies between the ends of the region. *)
Definition in_box (x0 : tensor R) (region : tensor R * tensor R) (x : tensor R) : Prop :=
  tshape x = tshape x0 /\ tshape (fst region) = tshape x0 /\ tshape (snd region) = tshape x0 /\
  forall J, valid (tshape x0) J -> tdata (fst region) J <= tdata x J <= tdata (snd region) J.
