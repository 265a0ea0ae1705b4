(** Model of /repo/autobound/primitive_enclosures.py over the real numbers, one
    array element at a time (see Elementwise.v for the conventions).  A scalar
    enclosure is the list of coefficients below the degree and the final
    interval. *)
From Coq Require Import Reals Lra.
From Verif Require Import Base Elementwise.
Open Scope R_scope.

Definition senc := (list R * (R * R))%type.

(** [sum(c * (x - x0)**i for i, c in enumerate(cs))], from index [i]. *)
Fixpoint taylor_sum (i : nat) (cs : list R) (d : R) : R :=
  match cs with [] => 0 | c :: cs' => c * d ^ i + taylor_sum (S i) cs' d end.

(** primitive_enclosures.py:277-305 [taylor_remainder_ratio]. *)
Definition taylor_remainder_ratio (x0 : R) (degree : nat) (sigma : R -> res R)
    (coeffs : list R) (x : R) : res R :=
  if negb (length coeffs =? degree + 1)%nat then Err ValueError
  else
    s <- sigma x ;;
    let r_k := s - taylor_sum 0 coeffs (x - x0) in
    let denom := (x - x0) ^ degree in
    Ok (nth degree coeffs 0 + r_k * np_sign denom / Rmax (/ 10 ^ 12) (Rabs denom)).

(** primitive_enclosures.py:203-241 [sharp_enclosure_monotonic_derivative]; the
    two ends of the final interval, not yet forced (pow_enclosure selects among
    them with np.where).  A negative degree is not representable. *)
Definition sharp_ends (x0 : R) (degree : nat) (tr : R * R) (sigma : R -> res R)
    (coeffs : list R) (increasing : bool) : res R * res R :=
  let ratio := taylor_remainder_ratio x0 degree sigma coeffs in
  let '(a, b) := tr in
  if increasing then (ratio a, ratio b) else (ratio b, ratio a).
Definition sharp_enclosure_monotonic_derivative (x0 : R) (degree : nat) (tr : R * R)
    (sigma : R -> res R) (coeffs : list R) (increasing : bool) : res senc :=
  let '(l, h) := sharp_ends x0 degree tr sigma coeffs increasing in
  lo <- l ;; hi <- h ;; Ok (firstn degree coeffs, (lo, hi)).

(** primitive_enclosures.py:188-200 [bounded_derivative_enclosure]. *)
Definition bounded_derivative_enclosure (degree : nat) (coeffs : list R)
    (bound : R * R) : res senc :=
  if negb (length coeffs =? degree)%nat then Err ValueError
  else Ok (firstn degree coeffs,
           (fst bound / INR (fact degree), snd bound / INR (fact degree))).

(** numpy [clip(x, a, b)]. *)
Definition np_clip (x a b : R) : R := Rmin (Rmax x a) b.

(** primitive_enclosures.py:244-274
    [sharp_quadratic_enclosure_even_symmetric_hessian]. *)
Definition sharp_quadratic_enclosure_even_symmetric_hessian (x0 : R) (tr : R * R)
    (sigma : R -> res R) (coeffs : list R) : res senc :=
  let ratio := taylor_remainder_ratio x0 2 sigma coeffs in
  let '(a, b) := tr in
  mx <- ratio (np_clip (- x0) a b) ;;
  ra <- ratio a ;; rb <- ratio b ;;
  Ok (firstn 2 coeffs, (Rmin ra rb, mx)).

(** primitive_enclosures.py:31-91 [get_elementwise_taylor_enclosure]. *)
Definition get_elementwise_taylor_enclosure (f : fid) (x0 : R) (tr : R * R)
    (degree : nat) : res senc :=
  sigma <- get_function f ;;
  let deriv_id := derivative_id f degree in
  data <- get_function_data deriv_id ;;
  if mono_inc data || mono_dec data then
    coeffs <- get_taylor_polynomial_coefficients f degree x0 ;;
    sharp_enclosure_monotonic_derivative x0 degree tr sigma coeffs (mono_inc data)
  else if (degree =? 2)%nat && even_sym data then
    coeffs <- get_taylor_polynomial_coefficients f degree x0 ;;
    sharp_quadratic_enclosure_even_symmetric_hessian x0 tr sigma coeffs
  else
    coeffs <- get_taylor_polynomial_coefficients f degree x0 ;;
    enc_dec <- sharp_enclosure_monotonic_derivative x0 degree tr sigma coeffs false ;;
    enc_inc <- sharp_enclosure_monotonic_derivative x0 degree tr sigma coeffs true ;;
    let '(decreasing, increasing) := monotone_over data (fst tr) (snd tr) in
    range <- get_range deriv_id (fst tr) (snd tr) ;;
    fallback <- bounded_derivative_enclosure degree (removelast coeffs) range ;;
    let endpoint (p : R * R -> R) :=
      if decreasing : bool then p (snd enc_dec)
      else if increasing : bool then p (snd enc_inc) else p (snd fallback) in
    Ok (firstn degree coeffs, (endpoint fst, endpoint snd)).

(** primitive_enclosures.py:94-105. *)
Definition abs_enclosure := get_elementwise_taylor_enclosure (ABS, 0%nat).
Definition exp_enclosure := get_elementwise_taylor_enclosure (EXP, 0%nat).
Definition log_enclosure := get_elementwise_taylor_enclosure (LOG, 0%nat).
Definition sigmoid_enclosure := get_elementwise_taylor_enclosure (SIGMOID, 0%nat).
Definition softplus_enclosure := get_elementwise_taylor_enclosure (SOFTPLUS, 0%nat).
Definition swish_enclosure := get_elementwise_taylor_enclosure (SWISH, 0%nat).

(** [int(p) == p]. *)
Definition is_int (p : R) : option Z :=
  if Req_EM_T (IZR (Int_part p)) p then Some (Int_part p) else None.

(** numpy [x ** p] for floats. *)
Definition py_pow (x p : R) : res R :=
  match is_int p with
  | Some n => if Req_EM_T x 0
              then (if (0 <? n)%Z then Ok 0 else if (n =? 0)%Z then Ok 1 else Err NonFinite)
              else Ok (powerRZ x n)
  | None => if Rlt_dec 0 x then Ok (Rpower x p)
            else if Req_EM_T x 0 then (if Rlt_dec 0 p then Ok 0 else Err NonFinite)
            else Err NonFinite
  end.

(** primitive_enclosures.py:308-326 [_pow_kth_deriv_sign]; the product
    [p * (p-1) * ... * (p-k+1)]. *)
Fixpoint falling (p : R) (k : nat) : R :=
  match k with 0%nat => 1 | S j => falling p j * (p - INR j) end.
Definition sign_Z (z : R) : Z :=
  if Rlt_dec 0 z then 1%Z else if Req_EM_T z 0 then 0%Z else (-1)%Z.
Definition pow_kth_deriv_sign (x_sign : Z) (p : R) (k : nat) : res Z :=
  let c := falling p k in
  if (x_sign =? 1)%Z then Ok (sign_Z c)
  else if (x_sign =? -1)%Z then
    match is_int p with
    | Some n => Ok (sign_Z c * (if Z.even (n - Z.of_nat k) then 1 else -1))%Z
    | None => Err ValueError
    end
  else Err ValueError.

(** primitive_enclosures.py:117-124: Taylor coefficients of x**p at x0, from
    index [i]; [c] is the running product. *)
Fixpoint pow_coeffs (p x0 c : R) (i n : nat) : res (list R) :=
  match n with
  | 0%nat => Ok []
  | S m => v <- py_pow x0 (p - INR i) ;;
           rest <- pow_coeffs p x0 (c * (p - INR i)) (S i) m ;;
           Ok (c * v / INR (fact i) :: rest)
  end.

(** End points of the final interval of pow_enclosure. *)
Inductive ext := Fin (r : R) | MInf | PInf.
Definition fin (r : res R) : res ext := v <- r ;; Ok (Fin v).

(** primitive_enclosures.py:151-181 [interval_endpoint] for one end: [pos],
    [neg] the candidates, [inf_] the infinite end, [comb] minimum or maximum. *)
Definition interval_endpoint (p a b : R) (pos neg : res R) (inf_ : ext)
    (comb : R -> R -> R) : res ext :=
  let if_neg := match is_int p with None => Ok inf_ | Some _ => fin neg end in
  let if_zero := match is_int p with
                 | None => Ok inf_
                 | Some _ => if Rlt_dec p 0 then Ok inf_
                             else u <- pos ;; v <- neg ;; Ok (Fin (comb u v))
                 end in
  if Rle_dec 0 a then fin pos else if Rle_dec b 0 then if_neg else if_zero.

(** primitive_enclosures.py:111-185 [pow_enclosure]. *)
Definition pow_enclosure (p x0 : R) (tr : R * R) (degree : nat)
  : res (list R * (ext * ext)) :=
  coeffs <- pow_coeffs p x0 1 0 (S degree) ;;
  let enc inc := sharp_ends x0 degree tr (fun x => py_pow x p) coeffs inc in
  sp <- pow_kth_deriv_sign 1 p (degree + 1) ;;
  let enc_pos := enc (0 <=? sp)%Z in
  enc_neg <- match is_int p with
             | None => Ok enc_pos                 (* None: never used *)
             | Some _ => sn <- pow_kth_deriv_sign (-1) p (degree + 1) ;;
                         Ok (enc (0 <=? sn)%Z)
             end ;;
  let '(a, b) := tr in
  lo <- interval_endpoint p a b (fst enc_pos) (fst enc_neg) MInf Rmin ;;
  hi <- interval_endpoint p a b (snd enc_pos) (snd enc_neg) PInf Rmax ;;
  Ok (firstn degree coeffs, (lo, hi)).
