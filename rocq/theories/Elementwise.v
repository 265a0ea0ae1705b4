(** Model of /repo/autobound/elementwise_functions.py over the real numbers.

    The code works elementwise on arrays; the model is the scalar function it
    applies to each element.  [Err NonFinite] stands for an element that numpy
    would make nan or infinite (log of a non-positive number, a negative power
    of 0, ...).  Decimal literals are modelled as the decimal number (the code
    uses the nearest double).  Exact real arithmetic replaces floating point. *)
From Coq Require Import Reals Lra.
From Verif Require Import Base.
Open Scope R_scope.

(** [np.where(c, x, y)] on one element; [c] a comparison of reals. *)
Definition where_ {A B C} (c : {A} + {B}) (x y : C) : C := if c then x else y.

(** elementwise_functions.py:27-48 [FunctionId]: name and derivative order.
    (x_min and x_max are constant for each name and only take part in
    equality.) *)
Inductive fname := ABS | EXP | LOG | SIGMOID | SOFTPLUS | SWISH.
Definition fid := (fname * nat)%type.
(** elementwise_functions.py:45-48 [derivative_id]. *)
Definition derivative_id (f : fid) (k : nat) : fid := (fst f, (snd f + k)%nat).

(** elementwise_functions.py:51-60 [FunctionData]. *)
Record fdata := FData {
  local_minima : list R; local_maxima : list R;
  mono_dec : bool; mono_inc : bool; even_sym : bool }.

(** Python [sorted(l, key=key)] (stable, ascending): insertion sort. *)
Fixpoint insert_by (key : R -> R) (x : R) (l : list R) : list R :=
  match l with
  | [] => [x]
  | y :: l' => if Rle_lt_dec (key y) (key x) then y :: insert_by key x l' else x :: l
  end.
Definition sort_by (key : R -> R) (l : list R) : list R :=
  fold_left (fun acc x => insert_by key x acc) l [].
(** [sorted(l, key=key, reverse=True)]: descending; equal keys keep their order. *)
Definition sort_by_desc (key : R -> R) (l : list R) : list R := sort_by (fun x => - key x) l.

Definition Req_b (x y : R) : bool := if Req_EM_T x y then true else false.
Definition Rle_b (x y : R) : bool := if Rle_dec x y then true else false.
(** [x in l] for a tuple of floats. *)
Definition in_list (x : R) (l : list R) : bool := existsb (Req_b x) l.

(** elementwise_functions.py:62-110 [monotone_over], one element of the
    region; [(decreasing, increasing)].  The loop body for position [i] of
    [sorted_extrema] with previous extremum [prev] (None when i = 0). *)
Fixpoint mono_loop (minima : list R) (a b : R) (prev : option R) (l : list R)
    (dec inc : bool) : bool * bool :=
  match l with
  | [] => (dec, inc)
  | x :: l' =>
      let is_min := in_list x minima in
      let contained := match prev with
                       | None => Rle_b b x
                       | Some p => Rle_b p a && Rle_b b x
                       end in
      let dec1 := if is_min then dec || contained else dec in
      let inc1 := if is_min then inc else inc || contained in
      let last := match l' with [] => true | _ => false end in
      let after := Rle_b x a in
      let dec2 := if last && negb is_min then dec1 || after else dec1 in
      let inc2 := if last && is_min then inc1 || after else inc1 in
      mono_loop minima a b (Some x) l' dec2 inc2
  end.
Definition monotone_over (d : fdata) (a b : R) : bool * bool :=
  mono_loop (local_minima d) a b None
    (sort_by (fun x => x) (local_minima d ++ local_maxima d)) (mono_dec d) (mono_inc d).

(** elementwise_functions.py:262-267 [_sigmoid]. *)
Definition py_sigmoid (x : R) : R :=
  where_ (Rle_lt_dec 0 x) (1 / (1 + exp (- x))) (exp x / (1 + exp x)).

(** elementwise_functions.py:270-290 [_sigmoid_derivative]. *)
Definition sigmoid_derivative (order : nat) (x : R) : res R :=
  let s := py_sigmoid x in
  let sm := py_sigmoid (- x) in
  match order with
  | 0%nat => Ok s
  | 1%nat => Ok (s * sm)
  | 2%nat => Ok (s * sm * (1 - 2 * s))
  | 3%nat => Ok (s * sm * ((1 - 2 * s) ^ 2 - 2 * s * sm))
  | 4%nat => Ok (s * sm * (1 - 2 * s) * ((1 - 2 * s) ^ 2 - 2 * s * sm) +
                 s * sm * (- 4 * (1 - 2 * s) * s * sm - 2 * s * sm * (1 - 2 * s)))
  | _ => Err NotImplementedError
  end.

(** elementwise_functions.py:293-296 [_softplus]; log1p(y) = ln(1 + y). *)
Definition py_softplus (x : R) : R := ln (1 + exp (- Rabs x)) + Rmax x 0.
(** elementwise_functions.py:299-304 [_softplus_derivative]. *)
Definition softplus_derivative (order : nat) (x : R) : res R :=
  match order with 0%nat => Ok (py_softplus x) | S k => sigmoid_derivative k x end.
(** elementwise_functions.py:307-308 [_swish]. *)
Definition py_swish (x : R) : R := x * py_sigmoid x.
(** elementwise_functions.py:311-321 [_swish_derivative]. *)
Definition swish_derivative (order : nat) (x : R) : res R :=
  match order with
  | 0%nat => Ok (py_swish x)
  | S k => u <- sigmoid_derivative k x ;; v <- sigmoid_derivative (S k) x ;;
           Ok (INR (S k) * u + x * v)
  end.

(** numpy [sign]. *)
Definition np_sign (x : R) : R :=
  match total_order_T x 0 with
  | inleft (left _) => -1 | inleft (right _) => 0 | inright _ => 1
  end.

(** elementwise_functions.py:122-151 [get_function].  For sigmoid, softplus
    and swish the exception for an unsupported order is raised when the
    returned callable is called (the [res] of the application here). *)
Definition get_function (f : fid) : res (R -> res R) :=
  let '(name, k) := f in
  match name with
  | ABS => match k with
           | 0%nat => Ok (fun x => Ok (Rabs x))
           | 1%nat => Ok (fun x => Ok (np_sign x))
           | _ => Err NotImplementedError
           end
  | EXP => Ok (fun x => Ok (exp x))
  | LOG => match k with
           | 0%nat => Ok (fun x => if Rlt_dec 0 x then Ok (ln x) else Err NonFinite)
           | S j => let sign := if Nat.even k then -1 else 1 in
                    Ok (fun x => if Req_EM_T x 0 then Err NonFinite
                                 else Ok (sign * INR (fact j) * / (x ^ k)))
           end
  | SIGMOID => Ok (sigmoid_derivative k)
  | SOFTPLUS => Ok (softplus_derivative k)
  | SWISH => Ok (swish_derivative k)
  end.

(** elementwise_functions.py:325-356 [_FUNCTION_DATA]. *)
Definition softplus_data (k : nat) : res fdata :=
  match k with
  | 0%nat => Ok (FData [] [] false true false)
  | 1%nat => Ok (FData [] [] false true false)
  | 2%nat => Ok (FData [] [0] false false true)
  | 3%nat => Ok (FData [1.3169578969249405] [-1.3169578969249423] false false false)
  | 4%nat => Ok (FData [0] [-2.292431669561122; 2.2924316695611195] false false false)
  | 5%nat => Ok (FData [-0.8426329481295408; 3.1443184061547065]
                    [-3.144318406154709; 0.8426329481295388] false false false)
  | _ => Err NotImplementedError
  end.
Definition swish_data (k : nat) : res fdata :=
  match k with
  | 0%nat => Ok (FData [-1.278464542761141] [] false false false)
  | 1%nat => Ok (FData [-2.399357280515326] [2.399357280515324] false false false)
  | 2%nat => Ok (FData [-3.4358409935350243; 3.4358409935350225] [0] false false false)
  | 3%nat => Ok (FData [-4.429235100557346; 1.0319582417807385]
                    [-1.0319582417807402; 4.429235100557342] false false false)
  | 4%nat => Ok (FData [0] [-1.8197756117249821; 1.8197756117249804] false false false)
  | 5%nat => Ok (FData [-0.7177419231466055; 2.5062894864026024]
                    [-2.506289486402605; 0.7177419231466035] false false false)
  | _ => Err NotImplementedError
  end.
Definition abs_data (k : nat) : res fdata :=
  match k with
  | 0%nat => Ok (FData [0] [] false false true)
  | 1%nat => Ok (FData [] [] false true false)
  | _ => Err NotImplementedError
  end.

(** elementwise_functions.py:154-176 [get_function_data]. *)
Definition get_function_data (f : fid) : res fdata :=
  let '(name, k) := f in
  match name with
  | EXP => Ok (FData [] [] false true false)
  | LOG => Ok (FData [] [] (negb (Nat.even k)) (Nat.even k) false)
  | SIGMOID => softplus_data (1 + k)
  | SOFTPLUS => softplus_data k
  | SWISH => swish_data k
  | ABS => abs_data k
  end.

(** elementwise_functions.py:179-200 [get_taylor_polynomial_coefficients]:
    entries for i = start, ..., start + n - 1. *)
Fixpoint taylor_coeffs_from (f : fid) (x0 : R) (start n : nat) : res (list R) :=
  match n with
  | 0%nat => Ok []
  | S m => g <- get_function (derivative_id f start) ;;
           v <- g x0 ;;
           rest <- taylor_coeffs_from f x0 (S start) m ;;
           Ok (v / INR (fact start) :: rest)
  end.
Definition get_taylor_polynomial_coefficients (f : fid) (degree : nat) (x0 : R)
  : res (list R) := taylor_coeffs_from f x0 0 (S degree).

(** The number used to order extrema by [key=f]. *)
Definition key_of (f : R -> res R) (x : R) : R := match f x with Ok v => v | Err _ => 0 end.

(** elementwise_functions.py:203-216 [maximum_value]: recursion on the sorted
    list.  The list passed to the recursive call is already sorted, and a
    stable sort of a sorted list is the list itself, so it is not sorted
    again. *)
Fixpoint max_loop (f : R -> res R) (a b : R) (l : list R) : res R :=
  match l with
  | [] => u <- f a ;; v <- f b ;; Ok (Rmax u v)
  | x :: l' =>
      rest <- max_loop f a b l' ;; fx <- f x ;;
      Ok (if Rle_b a x && Rle_b x b then fx else rest)
  end.
Definition maximum_value (f : R -> res R) (a b : R) (local_maxima : list R) : res R :=
  max_loop f a b (sort_by_desc (key_of f) local_maxima).

(** elementwise_functions.py:219-232 [minimum_value]. *)
Fixpoint min_loop (f : R -> res R) (a b : R) (l : list R) : res R :=
  match l with
  | [] => u <- f a ;; v <- f b ;; Ok (Rmin u v)
  | x :: l' =>
      rest <- min_loop f a b l' ;; fx <- f x ;;
      Ok (if Rle_b a x && Rle_b x b then fx else rest)
  end.
Definition minimum_value (f : R -> res R) (a b : R) (local_minima : list R) : res R :=
  min_loop f a b (sort_by (key_of f) local_minima).

(** elementwise_functions.py:235-259 [_get_range] and [get_range] (the two ends of the
    region separately). *)
Definition get_range (f : fid) (a b : R) : res (R * R) :=
  g <- get_function f ;;
  d <- get_function_data f ;;
  lo <- minimum_value g a b (local_minima d) ;;
  hi <- maximum_value g a b (local_maxima d) ;;
  Ok (lo, hi).
