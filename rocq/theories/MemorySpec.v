(** How many numbers the coefficients of an enclosure hold: specification for
    C79. *)
From Verif Require Import Base Tensor IntervalArith GraphEditor JaxBound.

(** The number of entries of an array. *)
Fixpoint entries (sh : list nat) : nat :=
  match sh with [] => 1 | n :: sh' => n * entries sh' end.
(** An interval holds two arrays. *)
Definition coef_size {T} (c : coef T) : nat :=
  match c with Arr t => entries (tshape t) | Ivl l h => entries (tshape l) + entries (tshape h) end.
Definition total_size {T} (cs : list (coef T)) : nat := fold_right (fun c n => coef_size c + n) 0 cs.
(** 1 + n + ... + n^d *)
Fixpoint powers_sum (n d : nat) : nat := match d with 0 => 1 | S d' => powers_sum n d' + n ^ d end.

(** sum (x ** m), for a vector x. *)
Definition power_sum {T} {N : Num T} (m : nat) : program T :=
  Program (@Graph jvar (prim T) (list jvar) [Var 0] [Var 2]
             [Op (integer_pow_p (Z.of_nat m)) [Var 0] [Var 1]; Op (reduce_sum_p [0]) [Var 1] [Var 2]] [])
          (fun _ => tscalar n0).
