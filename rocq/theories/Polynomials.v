(** Model of /repo/autobound/polynomials.py.  As in the code, the functions are
    polymorphic in the coefficient type [F] and take callbacks; a callback may
    raise, hence the [res]. *)
From Verif Require Import Base Tensor IntervalArith.

Section Generic.
Context {F : Type}.
Variables (add : F -> F -> res F) (zero one : F).

(** polynomials.py:28-44.  [i] is the loop index, [zi] the current
    [z_to_the_i]. *)
Fixpoint eval_poly_loop (inner : F -> F -> res F) (outer_power : F -> Z -> res F)
         (z : F) (i : nat) (zi running : F) (cs : list F) : res F :=
  match cs with
  | [] => Ok running
  | c :: cs' =>
      zi' <- (if 0 <? i then outer_power z (Z.of_nat i) else Ok zi) ;;
      term <- inner c zi' ;;
      running' <- add running term ;;
      eval_poly_loop inner outer_power z (S i) zi' running' cs'
  end.

Definition eval_polynomial (cs : list F) (z : F) (inner : F -> F -> res F)
           (outer_power : F -> Z -> res F) : res F :=
  eval_poly_loop inner outer_power z 0 one zero cs.

(** [output[k] = v] on a list; IndexError if out of range. *)
Fixpoint set_nth (l : list F) (k : nat) (v : F) : res (list F) :=
  match l, k with
  | [], _ => Err IndexError
  | _ :: l', 0 => Ok (v :: l')
  | x :: l', S k' => r <- set_nth l' k' v ;; Ok (x :: r)
  end.

Definition get_nth (l : list F) (k : nat) : res F :=
  match nth_error l k with Some v => Ok v | None => Err IndexError end.

(** [output[k] = add(output[k], c)] *)
Definition add_at (out : list F) (k : nat) (c : F) : res (list F) :=
  o <- get_nth out k ;; s <- add o c ;; set_nth out k s.

(** polynomials.py:79-123 *)
Definition poly_bilinear (tp : F -> F -> nat -> nat -> res F) (a b : list F)
  : res (list F) :=
  foldM (fun out '(i, c0) =>
           foldM (fun out '(j, c1) => c <- tp c0 c1 i j ;; add_at out (i + j) c)
                 out (enumerate b))
        (repeat zero (length a + length b - 1)) (enumerate a).

(** polynomials.py:227-242 for non-negative [n], [m]; [k = S k'].  Python's
    [range(min(m+1, n // (k-1) + 1))] is [seq 0 ...]. *)
Fixpoint partitions (n m k' : nat) : list (list nat) :=
  match k' with
  | 0 => if n =? 0 then [[m]] else []
  | S k'' =>
      flat_map (fun z => map (fun p => p ++ [z]) (partitions (n - k' * z) (m - z) k''))
               (seq 0 (Nat.min (m + 1) (n / k' + 1)))
  end.

(** polynomials.py:227-235: argument checks. *)
Definition iter_partitions (n m k : Z) : res (list (list nat)) :=
  if (n <? 0)%Z then Err ValueError
  else if (m <? 0)%Z then Err ValueError
  else if (k <=? 0)%Z then Err ValueError
  else Ok (partitions (Z.to_nat n) (Z.to_nat m) (Z.to_nat (k - 1))).

End Generic.

(** [math.comb(n, k)] by Pascal's rule. *)
Fixpoint comb (n k : nat) : Z :=
  match k, n with
  | 0, _ => 1%Z
  | S _, 0 => 0%Z
  | S k', S n' => (comb n' k' + comb n' (S k'))%Z
  end.

(** polynomials.py:245-252 *)
Fixpoint multinomial_coefficient (ks : list nat) : res Z :=
  match ks with
  | [] => Err ValueError
  | [_] => Ok 1%Z
  | k :: ks' => r <- multinomial_coefficient ks' ;; Ok (comb (list_sum ks) k * r)%Z
  end.

Section Power.
Context {F : Type}.
Variables (add : F -> F -> res F) (zero one : F).
Variables (tp : F -> F -> nat -> nat -> res F)    (* term_product_coefficient *)
          (tpow : F -> nat -> nat -> res F)       (* term_power_coefficient *)
          (smul : Z -> F -> res F).               (* scalar_product *)

(** polynomials.py:209-218: the running product over the parts of [p]. *)
Definition run_product (a : list F) (p : list nat) : res (F * nat) :=
  foldM (fun '(r, w) '(j, pj) =>
           aj <- get_nth a j ;;
           t <- tpow aj j pj ;;
           r' <- tp r t w (j * pj) ;;
           Ok (r', w + j * pj))
        (one, 0) (enumerate p).

(** polynomials.py:204-222 ([sum(p) == exponent] and
    [sum(j*p_j) == i] are asserted by the code; the corresponding facts about
    [partitions] are theorems, so the assertions are omitted). *)
Definition get_coeff (a : list F) (exponent i : nat) : res F :=
  foldM (fun c p =>
           '(r, w) <- run_product a p ;;
           _ <- guard (w =? i) AssertionError ;;
           m <- multinomial_coefficient p ;;
           term <- smul m r ;;
           add c term)
        zero (partitions i exponent (length a - 1)).

(** polynomials.py:126-224.  [output_degree = (len(a)-1)*exponent]; for an empty
    [a] the range is empty, since [exponent >= 1]. *)
Definition integer_power (a : list F) (exponent : Z) : res (list F) :=
  if (exponent <? 0)%Z then Err ValueError
  else if (exponent =? 0)%Z then Ok [one]
  else
    let e := Z.to_nat exponent in
    match a with
    | [] => Ok []
    | _ => mapM (get_coeff a e) (seq 0 (1 + (length a - 1) * e))
    end.
End Power.

Section Enclosures.
Context {T : Type} {N : Num T}.
Notation coef := (coef T).

(** polynomials.py:47-59 *)
Definition eval_elementwise_taylor_enclosure (enc : list coef) (z : coef) : res coef :=
  eval_polynomial iadd (Arr (tscalar n0)) (Arr (tscalar n1)) enc z imul ipower.

(** polynomials.py:68-69: [lambda a, b: tensordot(a, b, ndim(b))] *)
Definition inner_product (a b : coef) : res coef := itensordot a b (indim b).

(** polynomials.py:62-76 *)
Definition eval_taylor_enclosure (enc : list coef) (z : coef) : res coef :=
  eval_polynomial iadd (Arr (tscalar n0)) (Arr (tscalar n1)) enc z
                  inner_product (fun x k => iouter_power x k 0).
End Enclosures.
