(** Model of /repo/autobound/interval_arithmetic.py. *)
From Verif Require Import Base Tensor.

(** [Union[NDArray, Interval]] (types.py:22-31): [isinstance(a, tuple)] selects
    [Ivl].  Tuples of length other than 2 are not modelled. *)
Inductive coef (T : Type) := Arr (t : tensor T) | Ivl (lo hi : tensor T).
Arguments Arr {T} t.
Arguments Ivl {T} lo hi.

Section IA.
Context {T : Type} {N : Num T}.
Notation tensor := (tensor T).
Notation coef := (coef T).

(** interval_arithmetic.py:35-48 *)
Definition iadd (a b : coef) : res coef :=
  match a, b with
  | Ivl a0 a1, Ivl b0 b1 => l <- tadd a0 b0 ;; h <- tadd a1 b1 ;; Ok (Ivl l h)
  | Ivl a0 a1, Arr b => l <- tadd a0 b ;; h <- tadd a1 b ;; Ok (Ivl l h)
  | Arr a, Ivl b0 b1 => l <- tadd a b0 ;; h <- tadd a b1 ;; Ok (Ivl l h)
  | Arr a, Arr b => c <- tadd a b ;; Ok (Arr c)
  end.

(** interval_arithmetic.py:80-81: [a if a_is_interval else (a,)] *)
Definition endpoints (a : coef) : list tensor :=
  match a with Arr t => [t] | Ivl l h => [l; h] end.

(** interval_arithmetic.py:96-97 ([np.maximum(0, x)], [np.minimum(0, x)]; the
    scalar 0 broadcasts to any shape) *)
Definition pos_part (x : tensor) : tensor := tmap (nmax n0) x.
Definition neg_part (x : tensor) : tensor := tmap (nmin n0) x.

Definition op2 := tensor -> tensor -> res tensor.

(** The list comprehension [[bilinear(x, y) for x, y in pairs]] followed by
    [functools.reduce(np.add, ...)], interval_arithmetic.py:124-133. *)
Definition sum_bilinear (f : op2) (pairs : list (tensor * tensor)) : res tensor :=
  l <- mapM (fun p => f (fst p) (snd p)) pairs ;; reduceM tadd l.

(** interval_arithmetic.py:50-134 *)
Definition ibilinear (a b : coef) (f : op2) (assume_product : bool) : res coef :=
  match a, b with
  | Arr x, Arr y => c <- f x y ;; Ok (Arr c)
  | _, _ =>
      if assume_product then
        prods <- mapM (fun p => f (fst p) (snd p))
                      (list_prod (endpoints a) (endpoints b)) ;;
        l <- reduceM tmin prods ;;
        h <- reduceM tmax prods ;;
        Ok (Ivl l h)
      else
        match a, b with
        | Ivl a0 a1, Arr b =>
            let b_pos := pos_part b in let b_neg := neg_part b in
            p <- f a0 b_pos ;; q <- f a1 b_neg ;; l <- tadd p q ;;
            r <- f a1 b_pos ;; s <- f a0 b_neg ;; h <- tadd r s ;;
            Ok (Ivl l h)
        | Arr a, Ivl b0 b1 =>
            let a_pos := pos_part a in let a_neg := neg_part a in
            p <- f a_pos b0 ;; q <- f a_neg b1 ;; l <- tadd p q ;;
            r <- f a_pos b1 ;; s <- f a_neg b0 ;; h <- tadd r s ;;
            Ok (Ivl l h)
        | Ivl u v, Ivl w x =>
            l <- sum_bilinear f [(pos_part u, pos_part w); (pos_part v, neg_part w);
                                 (neg_part u, pos_part x); (neg_part v, neg_part x)] ;;
            h <- sum_bilinear f [(pos_part v, pos_part x); (neg_part v, pos_part w);
                                 (pos_part u, neg_part x); (neg_part u, neg_part w)] ;;
            Ok (Ivl l h)
        | Arr x, Arr y => c <- f x y ;; Ok (Arr c)   (* excluded above *)
        end
  end.

(** interval_arithmetic.py:147-152 *)
Definition imul (a b : coef) : res coef := ibilinear a b tmul true.

(** interval_arithmetic.py:154-155 *)
Definition indim (a : coef) : nat :=
  match a with Arr t => tndim t | Ivl l _ => tndim l end.

(** interval_arithmetic.py:157-163 *)
Definition ineg (a : coef) : coef :=
  match a with Ivl a0 a1 => Ivl (tneg a1) (tneg a0) | Arr a => Arr (tneg a) end.

(** interval_arithmetic.py:241-244 *)
Definition ishape (a : coef) : list nat :=
  match a with Arr t => tshape t | Ivl l _ => tshape l end.

(** interval_arithmetic.py:306-337 *)
Definition ndarray_outer_product (bd : nat) (a b : tensor) : res tensor :=
  if bd =? 0 then ttensordot 0 a b else teinsum_outer bd a b.

(** interval_arithmetic.py:202-211 *)
Definition iouter_product (a b : coef) (bd : nat) : res coef :=
  if (indim a <? bd) || (indim b <? bd) then Err ValueError
  else ibilinear a b (ndarray_outer_product bd) true.

(** The conversion of the boolean [contains_zero] in [(1-contains_zero)*pow0]. *)
Definition b2n (b : bool) : T := if b then n1 else n0.

(** interval_arithmetic.py:213-239 for an integer exponent.  (A fractional
    exponent is modelled by [power_real] in Elementwise.v.)  [a[0]**k] of a plain
    array with [k < 0] is not modelled. *)
Definition ipower (a : coef) (k : Z) : res coef :=
  match a with
  | Ivl a0 a1 =>
      if (k <? 0)%Z then Err NotImplementedError
      else if (k =? 0)%Z then Ok (Arr (tones_like a0))
      else
        let n := Z.to_nat k in
        contains_zero <- tmap2 andb (tmap (fun x => nltb x n0) a0)
                                    (tmap (fun x => nltb n0 x) a1) ;;
        let pow0 := tmap (fun x => npow x n) a0 in
        let pow1 := tmap (fun x => npow x n) a1 in
        masked <- tmap2 (fun c p => nmul (nsub n1 (b2n c)) p) contains_zero pow0 ;;
        l <- reduceM tmin [pow0; pow1; masked] ;;
        h <- tmax pow0 pow1 ;;
        Ok (Ivl l h)
  | Arr a =>
      if (k <? 0)%Z then Err Unmodelled
      else Ok (Arr (tmap (fun x => npow x (Z.to_nat k)) a))
  end.

(** interval_arithmetic.py:285-297 *)
Definition generalized_diag_ndarray (a : tensor) (n : Z) : res tensor :=
  if (n =? 1)%Z then Ok a
  else if (n =? 2)%Z then
    (if tndim a =? 1 then Ok (tdiag a) else Err NotImplementedError)
  else Err NotImplementedError.

(** interval_arithmetic.py:272-282 *)
Definition generalized_diag_interval (a : coef) (n : Z) : res coef :=
  match a with
  | Ivl a0 a1 => l <- generalized_diag_ndarray a0 n ;;
                 h <- generalized_diag_ndarray a1 n ;; Ok (Ivl l h)
  | Arr a => c <- generalized_diag_ndarray a n ;; Ok (Arr c)
  end.

(** The loop interval_arithmetic.py:181-184: [m] further outer products. *)
Fixpoint running_outer (r a : coef) (bd m : nat) : res coef :=
  match m with
  | 0 => Ok r
  | S m' => r' <- iouter_product r a bd ;; running_outer r' a bd m'
  end.

(** interval_arithmetic.py:165-200 *)
Definition iouter_power (a : coef) (k : Z) (bd : nat) : res coef :=
  if (k <? 0)%Z then Err ValueError
  else if (k =? 0)%Z then Ok (Arr (tscalar n1))
  else if indim a =? 0 then ipower a k
  else
    running <- running_outer a a bd (Z.to_nat (k - 1)) ;;
    if negb (bd =? 0) then Ok running
    else
      let ones := tones_like (match a with Arr t => t | Ivl l _ => l end) in
      match generalized_diag_ndarray ones k with
      | Err NotImplementedError => Ok running
      | Err e => Err e
      | Ok eye =>
          diagonal_elements <- ipower a k ;;
          diag <- generalized_diag_interval diagonal_elements k ;;
          off <- imul running (Arr (tmap (fun x => nsub n1 x) eye)) ;;
          iadd off diag
      end.

(** interval_arithmetic.py:246-261 *)
Definition isub (a b : coef) : res coef :=
  match a, b with
  | Ivl a0 a1, Ivl b0 b1 => l <- tsub a0 b1 ;; h <- tsub a1 b0 ;; Ok (Ivl l h)
  | Ivl a0 a1, Arr b => l <- tsub a0 b ;; h <- tsub a1 b ;; Ok (Ivl l h)
  | Arr a, Ivl b0 b1 => l <- tsub a b1 ;; h <- tsub a b0 ;; Ok (Ivl l h)
  | Arr a, Arr b => c <- tsub a b ;; Ok (Arr c)
  end.

(** interval_arithmetic.py:263-270 ([axes == 0] selects the product rule) *)
Definition itensordot (a b : coef) (axes : nat) : res coef :=
  ibilinear a b (ttensordot axes) (axes =? 0).

End IA.
