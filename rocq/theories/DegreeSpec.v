(** Specification for C70: the degree of a program that computes a polynomial. *)
From Verif Require Import Base Tensor IntervalArith Enclosure GraphEditor GraphSpec JaxBound JaxSpec.

(** A bound on the degree (as a polynomial in the argument) of the result of an
    equation, from the degrees of its operands; None if the result need not be a
    polynomial.  Results computed from constants are constants. *)
Definition result_degree {T} (p : prim T) (ds : list nat) : option nat :=
  if forallb (fun d => d =? 0) ds then Some 0
  else match p, ds with
  | add_p, [a; b] | sub_p, [a; b] => Some (Nat.max a b)
  | mul_p, [a; b] | dot_general_p _ _ _ _, [a; b] | conv_p _, [a; b] => Some (a + b)
  | div_p, [a; 0] => Some a
  | integer_pow_p y, [a] => if (0 <=? y)%Z then Some (a * Z.to_nat y) else None
  | neg_p, [a] | convert_element_type_p, [a] | reshape_p _, [a] | broadcast_in_dim_p _ _, [a]
  | reduce_sum_p _, [a] | reduce_window_sum_p _, [a] | squeeze_p _, [a] | transpose_p _, [a] => Some a
  | _, _ => None
  end.

(** The degrees of the variables, equation by equation. *)
Fixpoint degrees {T} (k : jvar -> option nat) (l : list (op jvar (prim T))) : option (jvar -> option nat) :=
  match l with
  | [] => Some k
  | o :: l' =>
      match lookups k (oins o) with
      | Some ds =>
          match result_degree (odata o) ds with
          | Some d =>
              match assign jvar_eqb k (oouts o) (map (fun _ => d) (oouts o)) with
              | Some k' => degrees k' l'
              | None => None
              end
          | None => None
          end
      | None => None
      end
  end.

(** The argument has degree 1; constants and literals have degree 0. *)
Definition initial_degrees {T} (pr : program T) : option (jvar -> option nat) :=
  assign jvar_eqb (fun v => match v with Lit _ => Some 0 | _ => None end)
         (gdata (p_graph pr) ++ gins (p_graph pr)) (map (fun _ => 0) (gdata (p_graph pr)) ++ [1]).

(** The program computes a polynomial of degree at most [d] in its argument. *)
Definition polynomial_program {T} (pr : program T) (d : nat) : Prop :=
  exists k k' v, initial_degrees pr = Some k /\ degrees k (gops (p_graph pr)) = Some k' /\
    gouts (p_graph pr) = [v] /\ k' v = Some d.
