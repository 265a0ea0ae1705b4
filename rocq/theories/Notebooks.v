(** Model of the applications shipped with the library:
    /repo/autobound/notebooks/bounding_integrals.ipynb and
    /repo/autobound/notebooks/safe_learning_rates.ipynb (cited below by the line
    numbers of the .ipynb files).  Plotting and prints are not modelled; Python
    floats are numbers of [T]. *)
From Verif Require Import Base Tensor IntervalArith Enclosure GraphEditor JaxBound.

Section Notebooks.
Context {T : Type} {N : Num T}.
Variable sc : scalars T.
Variable gs : generators T.
(** Division of floats ([a / b], [jnp.divide]); never used by the code with a
    zero divisor in a result that is kept. *)
Variable div : T -> T -> T.

(** [float(c)] (bounding_integrals.ipynb:119-122): an array with one entry. *)
Definition to_float (t : tensor T) : res T :=
  if forallb (fun n => n =? 1) (tshape t) then Ok (tdata t (map (fun _ => 0) (tshape t))) else Err TypeError.

(** bounding_integrals.ipynb:68-72 [integrate]. *)
Fixpoint antiderivative (i : nat) (coefficients : list T) (x : T) : T :=
  match coefficients with
  | [] => n0
  | c :: r => nadd (div (nmul c (npow x (i + 1))) (nofZ (Z.of_nat (i + 1)))) (antiderivative (S i) r x)
  end.
Definition integrate (coefficients : list T) (a b : T) : T :=
  nsub (antiderivative 0 coefficients b) (antiderivative 0 coefficients a).

(** bounding_integrals.ipynb:111-124 [integral_bound_v0]; the function [f] is
    given by its (rewritten) Jaxpr and constants. *)
Definition integral_bound_v0 (pr : program T) (consts : list (tensor T)) (a b : T) (degree : Z) : res (T * T) :=
  if negb (degree mod 2 =? 0)%Z then Err NotImplementedError
  else
    let x0 := div (nadd a b) (nofZ 2) in
    bounds <- taylor_bounds sc gs pr consts degree false (tscalar x0) (tscalar a, tscalar b) ;;
    lower <- mapM (fun c => match c with Ivl l _ => to_float l | Arr t => to_float t end) (tb_coefficients bounds) ;;
    upper <- mapM (fun c => match c with Ivl _ h => to_float h | Arr t => to_float t end) (tb_coefficients bounds) ;;
    Ok (integrate lower (nsub a x0) (nsub b x0), integrate upper (nsub a x0) (nsub b x0)).

(** bounding_integrals.ipynb:242-252 [integral_bound_v1]. *)
Definition integral_bound_v1 (pr : program T) (consts : list (tensor T)) (a b : T) (degree num_grid_cells : Z) : res (T * T) :=
  if (num_grid_cells =? 0)%Z then Err Unmodelled (* ZeroDivisionError *)
  else
    let w := div (nsub b a) (nofZ num_grid_cells) in
    foldM (fun s i =>
      let a_i := nadd a (nmul w (nofZ (Z.of_nat i))) in
      let b_i := nadd a_i w in
      r <- integral_bound_v0 pr consts a_i b_i degree ;;
      Ok (nadd (fst s) (fst r), nadd (snd s) (snd r))) (n0, n0) (seq 0 (Z.to_nat num_grid_cells)).

(** safe_learning_rates.ipynb:160-175 [minimize_1d_quadratic] for numbers. *)
Definition minimize_1d_quadratic (c1 c2 : T) (trust_region : T * T) : T :=
  let (a, b) := trust_region in
  let project x := nmin b (nmax a x) in
  let c2_pos_solution := project (div (nopp c1) (nmul (nofZ 2) c2)) in
  let q x := nadd (nmul c1 x) (nmul c2 (npow x 2)) in
  let c2_neg_solution := if nltb (q a) (q b) then a else b in
  let num (p : bool) := if p then n1 else n0 in
  let c2_zero_solution :=
    nadd (nadd (nmul (num (negb (nltb c1 n0) && negb (nltb n0 c1))) (project n0)) (nmul (num (nltb n0 c1)) a)) (nmul (num (nltb c1 n0)) b) in
  let c2_nonzero_solution := if nltb n0 c2 then c2_pos_solution else c2_neg_solution in
  if negb (nltb c2 n0) && negb (nltb n0 c2) then c2_zero_solution else c2_nonzero_solution.

(** safe_learning_rates.ipynb:65-73 [bound_loss] and :201-208
    [safe_learning_rate].  [next_loss] (a function of the learning rate) is given
    by its Jaxpr and constants.  Losses that are not numbers are not modelled. *)
Definition number (t : tensor T) : res T := match tshape t with [] => Ok (tdata t []) | _ => Err Unmodelled end.
Definition bound_loss (next_loss : program T * list (tensor T)) (max_learning_rate : T) : res (taylor_bounds_t T) :=
  taylor_bounds sc gs (fst next_loss) (snd next_loss) 2 false (tscalar n0) (tscalar n0, tscalar max_learning_rate).
Definition safe_learning_rate (next_loss : program T * list (tensor T)) (max_learning_rate : T) : res T :=
  bounds <- bound_loss next_loss max_learning_rate ;;
  if length (tb_coefficients bounds) <? 3 then Err NotImplementedError
  else
    c1 <- match nth_error (tb_coefficients bounds) 1 with Some (Arr t) => number t | _ => Err TypeError end ;;
    f <- tb_final_interval bounds ;;
    c2 <- number (snd f) ;;
    Ok (minimize_1d_quadratic c1 c2 (n0, max_learning_rate)).

(** safe_learning_rates.ipynb:309-315: the next maximum learning rate, for any
    type [F] of floats with a comparison. *)
Definition next_max_eta {F} (lt : F -> F -> bool) (half twice : F -> F) (safe_eta max_eta : F) : F :=
  if lt safe_eta (half max_eta) || lt safe_eta safe_eta then half max_eta else twice max_eta.

(** safe_learning_rates.ipynb:299-316 [saferate_optimizer].  [P] is the type of
    parameters; [update_dir x] is the negated gradient; [move x v eta] is
    [x + eta * v]; [trace x v] is the Jaxpr (with constants) of
    [next_loss(eta) = loss(x + eta * v)]. *)
Section Optimizer.
Context {P : Type}.
Variable update_dir : P -> P.
Variable move : P -> P -> T -> P.
Variable trace : P -> P -> program T * list (tensor T).
Definition state : Type := P * T * T.
Definition init_fun (initial_max_eta : T) (x0 : P) : state := (x0, n0, initial_max_eta).
Definition update_state (st : state) : res state :=
  let '(x, _, max_eta) := st in
  let v := update_dir x in
  safe_eta <- safe_learning_rate (trace x v) max_eta ;;
  let next_x := move x v safe_eta in
  Ok (next_x, safe_eta, next_max_eta nltb (fun t => div t (nofZ 2)) (fun t => nmul t (nofZ 2)) safe_eta max_eta).
Definition get_params (st : state) : P := fst (fst st).
End Optimizer.
End Notebooks.
