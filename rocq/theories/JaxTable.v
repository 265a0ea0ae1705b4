(** Model of the tables of jax_bound.py over the real numbers: the scalar
    functions computed by the jax primitives and the enclosure generators
    registered for them.  [Checked] generators: the registered ones, raising
    where the conditions under which their validity is proved (C35, C37) do not
    hold. *)
From Coq Require Import Reals Lra.
From Verif Require Import Base Tensor IntervalArith Enclosure TensorLemmas Elementwise Primitive JaxBound PropPrimitive NearTable.
Open Scope R_scope.

(** ** Scalar functions (jax documentation; trusted) *)
Definition cbrt (x : R) : R := if Rlt_dec 0 x then Rpower x (1 / 3) else if Rlt_dec x 0 then - Rpower (- x) (1 / 3) else 0.
(** An elementwise primitive at a real number; an exception where the result is
    not a finite number.  [usr n] is the [n]-th primitive added by the user. *)
Definition elem_fun (usr : nat -> R -> res R) (e : elem) (x : R) : res R :=
  match e with
  | Abs => Ok (Rabs x)
  | Cbrt => Ok (cbrt x)
  | Exp => Ok (exp x)
  | Log => if Rlt_dec 0 x then Ok (ln x) else Err NonFinite
  | Logistic | Sigmoid => Ok (1 / (1 + exp (- x)))
  | Rsqrt => if Rlt_dec 0 x then Ok (1 / sqrt x) else Err NonFinite
  | Sqrt => if Rle_dec 0 x then Ok (sqrt x) else Err NonFinite
  | Softplus => Ok (ln (1 + exp x))
  | Swish => Ok (x * (1 / (1 + exp (- x))))
  | User n => usr n x
  end.
Definition scalarsR (usr : nat -> R -> res R) : scalars R :=
  Scalars (fun x y => if Req_EM_T y 0 then Err NonFinite else Ok (x / y))
          py_pow
          (fun x n => if Req_EM_T x 0 then Err NonFinite else Ok (powerRZ x n))
          (elem_fun usr).

(** ** Generators *)
(** The generators are numpy expressions in x0 and the region, hence act on
    each element separately.  Operands of different shapes are not modelled. *)
Definition scalar_gen := R -> R * R -> nat -> res senc.
Definition lift_gen (g : scalar_gen) : generator R := fun x0 tr d =>
  let '(l, h) := tr in
  let S := tshape x0 in
  if shape_eqb (tshape l) S && shape_eqb (tshape h) S then
    es <- mapM (fun I => g (tdata x0 I) (tdata l I, tdata h I) d) (all_idx S) ;;
    Ok (map (fun i => Arr (of_list 0 S (map (fun e : senc => nth i (fst e) 0) es))) (seq 0 d)
        ++ [Ivl (of_list 0 S (map (fun e : senc => fst (snd e)) es))
                (of_list 0 S (map (fun e : senc => snd (snd e)) es))])
  else Err Unmodelled.

(** A final interval with an infinite end is not a pair of real numbers. *)
Definition pow_gen (p : R) : scalar_gen := fun x0 tr d =>
  '(cs, (l, h)) <- pow_enclosure p x0 tr d ;;
  match l, h with Fin a, Fin b => Ok (cs, (a, b)) | _, _ => Err NonFinite end.

(** jax_bound.py:272-292 (the three functions registered with
    [_register_elementwise_function] are the primitives Sigmoid, Softplus and
    Swish). *)
Definition elem_gen (e : elem) : option scalar_gen :=
  match e with
  | Abs => Some abs_enclosure
  | Cbrt => Some (pow_gen (1 / 3))
  | Exp => Some exp_enclosure
  | Log => Some log_enclosure
  | Logistic | Sigmoid => Some sigmoid_enclosure
  | Rsqrt => Some (pow_gen (- (1 / 2)))
  | Sqrt => Some (pow_gen (1 / 2))
  | Softplus => Some softplus_enclosure
  | Swish => Some swish_enclosure
  | User _ => None
  end.
(** [p >= 0 and p == int(p)], enclosure_arithmetic.py:337. *)
Definition exponentR (p : R) : exponent_kind :=
  match is_int p with
  | Some n => if (n =? 0)%Z then ExpZero else if (0 <? n)%Z then ExpPosInt else ExpOther
  | None => ExpOther
  end.
Definition generatorsR (ugen : nat -> generator R) : generators R :=
  Generators (fun e => match e with
                       | User n => ugen n
                       | _ => match elem_gen e with Some g => lift_gen g | None => fun _ _ _ => Err KeyError end
                       end)
             (fun n => lift_gen (pow_gen (IZR n)))
             (fun p => lift_gen (pow_gen p))
             exponentR.

(** ** Checked generators *)
(** [x = x0] or the distance to the power [k] is at least 1e-12. *)
Definition cap_okb (k : nat) (x0 x : R) : bool :=
  if Req_EM_T x x0 then true else if Rle_dec (/ 10 ^ 12) (Rabs (x - x0) ^ k) then true else false.
Definition checked (guard : R -> R * R -> nat -> bool) (g : scalar_gen) : scalar_gen := fun x0 tr d =>
  if cap_okb d x0 (fst tr) && cap_okb d x0 (snd tr) && guard x0 tr d then g x0 tr d else Err Unmodelled.
(** The supported degrees; a positive region for [log]; for [softplus] in
    degree 2 the distance condition at the third point used. *)
Definition clear_ofb (l : list R) (a b : R) : bool :=
  forallb (fun e => (if Req_EM_T e 0 then true else false)
                    || (if Rlt_dec b (e - / 10 ^ 12) then true else false)
                    || (if Rlt_dec (e + / 10 ^ 12) a then true else false)) l.
Definition exact_guard (n : fname) (x0 : R) (tr : R * R) (k : nat) : bool :=
  builtin n k &&
  match n with
  | LOG => if Rlt_dec 0 (fst tr) then true else false
  | SOFTPLUS => if (k =? 2)%nat then cap_okb k x0 (Rmin (Rmax (- x0) (fst tr)) (snd tr)) else true
  | _ => true
  end.
(** Sigmoid, softplus and swish at the degrees whose table lists extrema as
    rounded decimals: the region stays 1e-12 away from each of them. *)
Definition rounded_guard (n : fname) (tr : R * R) (k : nat) : bool :=
  rounded_table n k &&
  match get_function_data (n, k) with
  | Ok d => clear_ofb (local_minima d ++ local_maxima d) (fst tr) (snd tr)
  | Err _ => false
  end.
Definition fun_guard (n : fname) (x0 : R) (tr : R * R) (k : nat) : bool :=
  exact_guard n x0 tr k || rounded_guard n tr k.
(** A positive region; a region touching 0 from above with an exponent > 0 and
    a centre > 0; a negative region with an integer exponent. *)
Definition pow_guard (p : R) (x0 : R) (tr : R * R) (k : nat) : bool :=
  (if Rlt_dec 0 (fst tr) then true else false)
  || ((if Rle_dec 0 (fst tr) then true else false) && (if Rlt_dec 0 p then true else false) && (if Rlt_dec 0 x0 then true else false))
  || ((if Rlt_dec (snd tr) 0 then true else false) && match is_int p with Some _ => true | None => false end).
Definition checked_pow (p : R) : scalar_gen := checked (pow_guard p) (pow_gen p).
Definition checked_elem (e : elem) : option scalar_gen :=
  match e with
  | Abs => Some (checked (fun_guard ABS) abs_enclosure)
  | Cbrt => Some (checked_pow (1 / 3))
  | Exp => Some (checked (fun_guard EXP) exp_enclosure)
  | Log => Some (checked (fun_guard LOG) log_enclosure)
  | Logistic | Sigmoid => Some (checked (fun_guard SIGMOID) sigmoid_enclosure)
  | Rsqrt => Some (checked_pow (- (1 / 2)))
  | Sqrt => Some (checked_pow (1 / 2))
  | Softplus => Some (checked (fun_guard SOFTPLUS) softplus_enclosure)
  | Swish => Some (checked (fun_guard SWISH) swish_enclosure)
  | User _ => None
  end.
Definition checked_generators (ugen : nat -> generator R) : generators R :=
  Generators (fun e => match e with
                       | User n => ugen n
                       | _ => match checked_elem e with Some g => lift_gen g | None => fun _ _ _ => Err KeyError end
                       end)
             (fun n => lift_gen (checked_pow (IZR n)))
             (fun p => lift_gen (checked_pow p))
             exponentR.
