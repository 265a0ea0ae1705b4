(** Model of /repo/autobound/enclosure_arithmetic.py.
    A TaylorEnclosure is the list of its coefficients.  [as_taylor_enclosure]
    (lines 366-370) only converts numbers to arrays and is the identity here. *)
From Verif Require Import Base Tensor IntervalArith Polynomials.

Section Enc.
Context {T : Type} {N : Num T}.
Notation tensor := (tensor T).
Notation coef := (coef T).

Definition enclosure := list coef.

(** A generator of elementwise enclosures: [get_elementwise_enclosure(x0,
    trust_region, degree, np_like)], enclosure_arithmetic.py:264-270. *)
Definition generator := tensor -> tensor * tensor -> nat -> res (list coef).

Definition zero_c : coef := Arr (tscalar n0).
Definition one_c : coef := Arr (tscalar n1).

(** enclosure_arithmetic.py:373-389 *)
Definition enclose_enclosure (enc : enclosure) (tr : tensor * tensor) (max_degree : nat)
  : res enclosure :=
  if length enc <=? max_degree + 1 then Ok enc
  else
    c <- eval_taylor_enclosure (skipn max_degree enc) (Ivl (fst tr) (snd tr)) ;;
    Ok (firstn max_degree enc ++ [c]).

(** [tuple(map(fun, c)) if isinstance(c, tuple) else fun(c)],
    enclosure_arithmetic.py:400-405 *)
Definition map_coef (f : tensor -> res tensor) (c : coef) : res coef :=
  match c with
  | Arr t => t' <- f t ;; Ok (Arr t')
  | Ivl l h => l' <- f l ;; h' <- f h ;; Ok (Ivl l' h')
  end.
Definition map_over_enclosure (a : enclosure) (f : tensor -> res tensor) : res enclosure :=
  mapM (map_coef f) a.

(** enclosure_arithmetic.py:408-432 *)
Definition elementwise_term_power_coefficient (xnd : nat) (c : coef) (i exponent : nat)
  : res coef :=
  if indim c <? i * xnd then Err ValueError
  else iouter_power c (Z.of_nat exponent) (indim c - i * xnd).

(** enclosure_arithmetic.py:449-475; [v.ndim - q] negative behaves like 0, see
    [expand_dims_at]. *)
Definition pairwise_batched_multiply (u v : tensor) (p q : nat) : res tensor :=
  u' <- expand_dims_at u q (tndim u) ;;
  v' <- expand_dims_at v p (tndim v - q) ;;
  tmul u' v'.

(** enclosure_arithmetic.py:435-446 *)
Definition elementwise_term_product_coefficient (xnd : nat) (c0 c1 : coef) (i j : nat)
  : res coef :=
  ibilinear c0 c1 (fun u v => pairwise_batched_multiply u v (i * xnd) (j * xnd)) true.

(** enclosure_arithmetic.py:478-485 *)
Definition left_broadcasting_multiply (a b : tensor) : res tensor :=
  if tndim b <? tndim a then Err NotImplementedError
  else a' <- expand_dims_at a (tndim b - tndim a) (tndim a) ;; tmul a' b.

(** The state of a [TaylorEnclosureArithmetic] object,
    enclosure_arithmetic.py:57-77. *)
Record arith := mkArith { max_degree : nat; trust_region : tensor * tensor }.

(** enclosure_arithmetic.py:68-77 ([max_degree] is an [int] by typing; a
    negative one is not modelled). *)
Definition make_arith (d : nat) (tr : tensor * tensor) : res arith :=
  if shape_eqb (tshape (fst tr)) (tshape (snd tr)) then Ok (mkArith d tr)
  else Err ValueError.

Section Methods.
Variable A : arith.
Let D := max_degree A.
Let tr := trust_region A.
Let trc : coef := Ivl (fst tr) (snd tr).
Let xnd := tndim (fst tr).

(** enclosure_arithmetic.py:354-356 *)
Definition truncate_if_necessary (a : enclosure) : res enclosure :=
  enclose_enclosure a tr D.

(** enclosure_arithmetic.py:358-363 *)
Definition validate_taylor_enclosure (a : enclosure) : res unit :=
  let xs := tshape (fst tr) in
  foldM (fun _ '(i, c) =>
           let s := ishape c in
           guard (shape_eqb (skipn (length s - i * length xs) s) (rep i xs)) ValueError)
        tt (enumerate a).

(** [get_coefficient], enclosure_arithmetic.py:86-94: pads the shorter list. *)
Fixpoint add_coeffs (a b : enclosure) : res enclosure :=
  match a, b with
  | [], _ => Ok b
  | _, [] => Ok a
  | x :: a', y :: b' => z <- iadd x y ;; r <- add_coeffs a' b' ;; Ok (z :: r)
  end.

(** enclosure_arithmetic.py:79-95 *)
Definition eadd (a b : enclosure) : res enclosure :=
  s <- add_coeffs a b ;; truncate_if_necessary s.

(** [get_term_enclosure_coefficient], enclosure_arithmetic.py:162-205 *)
Definition term_enclosure_coefficient (pbb : tensor -> tensor -> nat -> nat -> res tensor)
           (ai bj : coef) (i j : nat) : res coef :=
  if i + j <=? D then
    ibilinear ai bj (fun y z => pbb y z (i * xnd) (j * xnd)) false
  else
    let excess := i + j - D in
    let ei := Nat.min i excess in
    let ej := excess - ei in
    pi <- iouter_power trc (Z.of_nat ei) 0 ;;
    c0 <- itensordot ai pi (ei * xnd) ;;
    c1 <- (if 0 <? ej then
             pj <- iouter_power trc (Z.of_nat ej) 0 ;; itensordot bj pj (ej * xnd)
           else Ok bj) ;;
    ibilinear c0 c1 (fun y z => pbb y z ((i - ei) * xnd) ((j - ej) * xnd)) false.

(** enclosure_arithmetic.py:97-219 *)
Definition earbitrary_bilinear (a b : enclosure)
           (pbb : tensor -> tensor -> nat -> nat -> res tensor) : res enclosure :=
  foldM (fun out '(i, ai) =>
           foldM (fun out '(j, bj) =>
                    c <- term_enclosure_coefficient pbb ai bj i j ;;
                    add_at iadd out (Nat.min (i + j) D) c)
                 out (enumerate b))
        (repeat zero_c (Nat.min (D + 1) (length a + length b - 1))) (enumerate a).

(** enclosure_arithmetic.py:297-314 *)
Definition emultiply (a b : enclosure) : res enclosure :=
  _ <- validate_taylor_enclosure a ;;
  _ <- validate_taylor_enclosure b ;;
  p <- poly_bilinear iadd zero_c (elementwise_term_product_coefficient xnd) a b ;;
  truncate_if_necessary p.

(** enclosure_arithmetic.py:316-318 *)
Definition enegative (a : enclosure) : res enclosure :=
  truncate_if_necessary (map ineg a).

(** enclosure_arithmetic.py:349-352 *)
Definition esubtract (a b : enclosure) : res enclosure :=
  nb <- enegative b ;; eadd a nb.

(** [a0], enclosure_arithmetic.py:331 *)
Definition left_end (c : coef) : tensor := match c with Arr t => t | Ivl l _ => l end.

(** enclosure_arithmetic.py:320-343, the branch [p >= 0 and p == int(p)] for an
    [int] exponent. *)
Definition epower_nat (a : enclosure) (p : nat) : res enclosure :=
  _ <- validate_taylor_enclosure a ;;
  match a with
  | [] => Err IndexError
  | a0 :: _ =>
      r <- integer_power iadd zero_c (Arr (tones_like (left_end a0)))
             (elementwise_term_product_coefficient xnd)
             (elementwise_term_power_coefficient xnd)
             (fun k c => imul (Arr (tscalar (nofZ k))) c)
             a (Z.of_nat p) ;;
      truncate_if_necessary r
  end.

(** enclosure_arithmetic.py:233-237 *)
Definition interval_left_broadcasting_multiply (a b : coef) : res coef :=
  ibilinear a b left_broadcasting_multiply true.

(** enclosure_arithmetic.py:239-255: the body of the loop over
    [elementwise_enclosure]. *)
Definition compose_term (p : nat) (coefficient : coef) (arg_diff : enclosure)
  : res enclosure :=
  match p with
  | 0 => Ok [coefficient]
  | S _ =>
      poly <- epower_nat arg_diff p ;;
      mapM (fun '(i, t) => if i <? p then Ok zero_c
                           else interval_left_broadcasting_multiply coefficient t)
           (enumerate poly)
  end.

(** enclosure_arithmetic.py:221-257 *)
Definition compose_enclosures (elementwise : list coef) (arg : enclosure) : res enclosure :=
  match elementwise with
  | [] => Err ValueError
  | _ =>
      let arg_diff := zero_c :: skipn 1 arg in
      foldM (fun out '(p, coefficient) =>
               term <- compose_term p coefficient arg_diff ;; eadd out term)
            [zero_c] (enumerate elementwise)
  end.

(** enclosure_arithmetic.py:264-295 *)
Definition elementwise_fun (gen : generator) (arg : enclosure) (arg_tr : option coef)
  : res enclosure :=
  tr0 <- match arg_tr with
         | Some t => Ok t
         | None => d0 <- enclose_enclosure arg tr 0 ;; get_nth d0 0
         end ;;
  let trp := match tr0 with Arr t => (t, t) | Ivl l h => (l, h) end in
  x0c <- get_nth arg 0 ;;
  x0 <- match x0c with
        | Arr t => Ok t
        | Ivl l _ => if D =? 0 then Ok l else Err AssertionError
        end ;;
  ew <- gen x0 trp D ;;
  compose_enclosures ew arg.

(** enclosure_arithmetic.py:320-347 for an [int] exponent of either sign;
    [pow_gen p] stands for [functools.partial(pow_enclosure, p)]. *)
Definition epower (pow_gen : Z -> generator) (a : enclosure) (p : Z) : res enclosure :=
  if (0 <=? p)%Z then epower_nat a (Z.to_nat p)
  else
    _ <- validate_taylor_enclosure a ;;
    elementwise_fun (pow_gen p) a None.

(** enclosure_arithmetic.py:259-262 *)
Definition edivide (pow_gen : Z -> generator) (a b : enclosure) : res enclosure :=
  ib <- epower pow_gen b (-1) ;; emultiply a ib.

End Methods.
End Enc.
Arguments enclosure T : clear implicits.
Arguments generator T : clear implicits.
Arguments arith T : clear implicits.
