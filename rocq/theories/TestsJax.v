(** Cases of jax_bound_test.py:91-600 that need no transcendental function,
    replayed on the model over Q (tests of fidelity, not property proofs).
    avg_pool is tested without its final division (twice the values). *)
From Coq Require Import QArith.
From Verif Require Import Base Tensor IntervalArith Polynomials Enclosure GraphEditor JaxBound.
Open Scope nat_scope.
Definition shw (t : tensor Q) := (tshape t, map Qred (to_list t)).
Definition shc (c : coef Q) := match c with Arr t => inl (shw t) | Ivl l h => inr (shw l, shw h) end.
Definition she (r : res (enclosure Q)) := match r with Ok c => Ok (map shc c) | Err e => Err e end.
Definition scQ : scalars Q := Scalars (fun x y => Ok (Qdiv x y)) (fun _ _ => Err KeyError) (fun x n => Ok (Qpower x n)) (fun _ _ => Err KeyError).
Definition gsQ : generators Q := Generators (fun _ _ _ _ => Err KeyError) (fun _ _ _ _ => Err KeyError) (fun _ _ _ _ => Err KeyError) (fun _ => ExpOther).
Definition q (n d : positive) : Q := Qmake (Zpos n) d.
Definition sq (x : Q) : tensor Q := of_list 0%Q [] [x].
Definition full_of (s : list nat) (x : Q) : tensor Q := mkT s (fun _ => x).
(** A program with input [Var 0], constants [Var 1], ... and one output. *)
Definition run (ops : list (op jvar (prim Q))) (out : jvar) (consts : list (tensor Q)) (lits : list (tensor Q)) (deg : Z) (prop : bool) (x0 l h : tensor Q) :=
  she (b <- taylor_bounds scQ gsQ
        (Program (@Graph jvar (prim Q) (list jvar) [Var 0] [out] ops (map Var (seq 1 (length consts)))) (fun n => nth n lits (sq 0%Q)))
        consts deg prop x0 (l, h) ;; Ok (tb_coefficients b)).
Definition arrs (l : list (tensor Q)) := she (Ok (map Arr l)).
Definition ivl (l h : tensor Q) := she (Ok [Ivl l h]).

Example identity_0 : run [] (Var 0) [] [] 0 false (sq (1#10)) (sq 0) (sq (1#4)) = ivl (sq 0) (sq (1#4)).
Proof. vm_compute. reflexivity. Qed.
Example identity_1 : run [] (Var 0) [] [] 1 false (sq (314#100)) (sq 0) (sq (1#4)) = arrs [sq (314#100); sq 1].
Proof. vm_compute. reflexivity. Qed.
Example identity_2 : run [] (Var 0) [] [] 2 false (sq (314#100)) (sq 0) (sq (1#4)) = arrs [sq (314#100); sq 1].
Proof. vm_compute. reflexivity. Qed.
Example addition : run [Op add_p [Lit 0; Var 0] [Var 9]] (Var 9) [] [sq 2] 1 false (sq (314#100)) (sq 0) (sq (1#4)) = arrs [sq (514#100); sq 1].
Proof. vm_compute. reflexivity. Qed.
Example addition_prop : run [Op add_p [Lit 0; Var 0] [Var 9]] (Var 9) [] [sq 2] 1 true (sq (314#100)) (sq 0) (sq (1#4)) = arrs [sq (514#100); sq 1].
Proof. vm_compute. reflexivity. Qed.
Example constant : run [] (Lit 0) [] [sq 2] 1 false (sq (1#2)) (sq 0) (sq 1) = arrs [sq 2].
Proof. vm_compute. reflexivity. Qed.
Definition eye3 : tensor Q := of_list 0%Q [3;3] [1;0;0;0;1;0;0;0;1]%Q.
Example constant_prop_1 : run [Op mul_p [Var 1; Var 0] [Var 8]; Op (dot_general_p [1] [0] [] []) [Var 2; Var 8] [Var 9]] (Var 9) [full_of [3] 0%Q; eye3] [] 1 true (sq (1#2)) (sq 0) (sq 1)
  = arrs [full_of [3] 0%Q; full_of [3] 0%Q].
Proof. vm_compute. reflexivity. Qed.
Example multiplication : run [Op mul_p [Lit 0; Var 0] [Var 9]] (Var 9) [] [sq 2] 1 false (sq (314#100)) (sq 0) (sq (1#4)) = arrs [sq (628#100); sq 2].
Proof. vm_compute. reflexivity. Qed.
Example eye : run [] (Var 1) [eye3] [] 0 false (sq (314#100)) (sq 0) (sq (1#4)) = arrs [eye3].
Proof. vm_compute. reflexivity. Qed.
Example matmul_a : run [Op mul_p [Var 0; Var 1] [Var 8]; Op (dot_general_p [1] [0] [] []) [Var 2; Var 8] [Var 9]] (Var 9) [full_of [3] 1%Q; eye3] [] 1 false (sq 1) (sq 0) (sq 2)
  = arrs [full_of [3] 1%Q; full_of [3] 1%Q].
Proof. vm_compute. reflexivity. Qed.
Example matmul_b : run [Op (dot_general_p [1] [0] [] []) [Var 1; Var 0] [Var 9]] (Var 9) [eye3] [] 1 false (full_of [3] 1%Q) (full_of [3] 0%Q) (full_of [3] 2%Q)
  = arrs [full_of [3] 1%Q; eye3].
Proof. vm_compute. reflexivity. Qed.
Example tensordot : run [Op (dot_general_p [0] [0] [] []) [Var 0; Var 1] [Var 9]] (Var 9) [of_list 0%Q [1;2] [6;8]%Q] [] 1 false (full_of [1] 0%Q) (full_of [1] 0%Q) (full_of [1] 1%Q)
  = arrs [full_of [2] 0%Q; of_list 0%Q [2;1] [6;8]%Q].
Proof. vm_compute. reflexivity. Qed.
Example negative : run [Op neg_p [Var 0] [Var 9]] (Var 9) [] [] 0 false (sq (314#100)) (sq 0) (sq 5) = ivl (sq (-5)) (sq 0).
Proof. vm_compute. reflexivity. Qed.
Example minus : run [Op sub_p [Var 0; Lit 0] [Var 9]] (Var 9) [] [sq 1] 0 false (sq (314#100)) (sq 0) (sq 5) = ivl (sq (-1)) (sq 4).
Proof. vm_compute. reflexivity. Qed.
Example broadcast : run [Op (broadcast_in_dim_p [2] []) [Var 0] [Var 9]] (Var 9) [] [] 0 false (sq (314#100)) (sq 0) (sq 5) = ivl (full_of [2] 0%Q) (full_of [2] 5%Q).
Proof. vm_compute. reflexivity. Qed.
Example square_a : run [Op (integer_pow_p 2) [Var 0] [Var 9]] (Var 9) [] [] 0 false (sq 0) (sq (-1#2)) (sq (1#2)) = ivl (sq 0) (sq (1#4)).
Proof. vm_compute. reflexivity. Qed.
Example square_b : run [Op (integer_pow_p 2) [Var 0] [Var 9]] (Var 9) [] [] 2 false (sq 0) (sq 0) (sq 1) = arrs [sq 0; sq 0; sq 1].
Proof. vm_compute. reflexivity. Qed.
Example square_c : run [Op (integer_pow_p 2) [Var 0] [Var 9]] (Var 9) [] [] 2 false (sq (1#2)) (sq 0) (sq 1) = arrs [sq (1#4); sq 1; sq 1].
Proof. vm_compute. reflexivity. Qed.
Example square_b_prop : run [Op (integer_pow_p 2) [Var 0] [Var 9]] (Var 9) [] [] 2 true (sq (1#2)) (sq 0) (sq 1) = arrs [sq (1#4); sq 1; sq 1].
Proof. vm_compute. reflexivity. Qed.
Definition col : tensor Q := of_list 0%Q [2;1] [1;2]%Q.
Example multiply_b : run [Op mul_p [Var 0; Var 1] [Var 9]] (Var 9) [col] [] 2 false (sq (1#2)) (sq 0) (sq 2) = arrs [of_list 0%Q [2;1] [1#2;1]%Q; col].
Proof. vm_compute. reflexivity. Qed.
Example reshape : run [Op mul_p [Var 0; Var 1] [Var 8]; Op (reshape_p [2]) [Var 8] [Var 9]] (Var 9) [col] [] 2 false (sq (1#2)) (sq 0) (sq 2)
  = arrs [of_list 0%Q [2] [1#2;1]%Q; of_list 0%Q [2] [1;2]%Q].
Proof. vm_compute. reflexivity. Qed.
Example sum : run [Op mul_p [Var 0; Var 1] [Var 8]; Op (reduce_sum_p [0;1]) [Var 8] [Var 9]] (Var 9) [col] [] 2 false (sq (1#2)) (sq 0) (sq 2) = arrs [sq (3#2); sq 3].
Proof. vm_compute. reflexivity. Qed.
Example transpose : run [Op mul_p [Var 0; Var 1] [Var 8]; Op (transpose_p [1;0]) [Var 8] [Var 9]] (Var 9) [col] [] 2 false (sq (1#2)) (sq 0) (sq 2)
  = arrs [of_list 0%Q [1;2] [1#2;1]%Q; of_list 0%Q [1;2] [1;2]%Q].
Proof. vm_compute. reflexivity. Qed.
Example squeeze : run [Op mul_p [Var 0; Var 1] [Var 8]; Op (squeeze_p [1]) [Var 8] [Var 9]] (Var 9) [full_of [4;1;2] 1%Q] [] 2 false (sq (1#2)) (sq 0) (sq 2)
  = arrs [full_of [4;2] (1#2)%Q; full_of [4;2] 1%Q].
Proof. vm_compute. reflexivity. Qed.
Definition row : tensor Q := of_list 0%Q [1;4;1] [1;2;3;4]%Q.
Definition w1 := Window 1 1 0 0 1 1.
Example avg_pool_a : run [Op mul_p [Var 0; Var 1] [Var 8]; Op (reduce_window_sum_p [w1; Window 2 1 0 0 1 1; w1]) [Var 8] [Var 9]] (Var 9) [row] [] 2 false (sq (1#2)) (sq 0) (sq 2)
  = arrs [of_list 0%Q [1;3;1] [3#2;5#2;7#2]%Q; of_list 0%Q [1;3;1] [3;5;7]%Q].
Proof. vm_compute. reflexivity. Qed.
Example avg_pool_b : run [Op (integer_pow_p 2) [Var 0] [Var 7]; Op mul_p [Var 7; Var 1] [Var 8]; Op (reduce_window_sum_p [w1; Window 2 1 0 0 1 1; w1]) [Var 8] [Var 9]] (Var 9) [row] [] 2 false (sq 3) (sq 0) (sq 5)
  = arrs [of_list 0%Q [1;3;1] [27;45;63]%Q; of_list 0%Q [1;3;1] [18;30;42]%Q; of_list 0%Q [1;3;1] [3;5;7]%Q].
Proof. vm_compute. reflexivity. Qed.
(** jax.lax.conv_general_dilated(lhs, rhs, [1, 1], 'VALID'). *)
Definition valid_conv := ConvParams [1;1] [(0,0)%Z; (0,0)%Z] [1;1] [1;1] [0;1;2;3] [0;1;2;3] [0;1;2;3] 1 1.
Definition conv_test (sa sb : list nat) :=
  run [Op mul_p [Var 0; Var 1] [Var 7]; Op mul_p [Var 0; Var 2] [Var 8]; Op (conv_p valid_conv) [Var 7; Var 8] [Var 9]] (Var 9) [full_of sa 1%Q; full_of sb 1%Q] [] 2 false (sq 3) (sq 0) (sq 5).
Example conv_general_dilated_a : conv_test [1;1;1;1] [1;1;1;1] = arrs [full_of [1;1;1;1] 9%Q; full_of [1;1;1;1] 6%Q; full_of [1;1;1;1] 1%Q].
Proof. vm_compute. reflexivity. Qed.
Example conv_general_dilated_b : conv_test [1;5;1;1] [1;5;1;1] = arrs [full_of [1;1;1;1] 45%Q; full_of [1;1;1;1] 30%Q; full_of [1;1;1;1] 5%Q].
Proof. vm_compute. reflexivity. Qed.
Example conv_general_dilated_c : conv_test [2;1;5;7] [3;1;1;2] = arrs [full_of [2;3;5;6] 18%Q; full_of [2;3;5;6] 12%Q; full_of [2;3;5;6] 2%Q].
Proof. vm_compute. reflexivity. Qed.
(** Strides, padding, dilations and groups, worked out by hand: the kernel
    (1, 10) over 1 2 3 4. *)
Definition conv1 (c : conv_params) (a b : tensor Q) := match conv_general_dilated c a b with Ok t => Ok (shw t) | Err e => Err e end.
Definition line := of_list 0%Q [1;1;4] [1;2;3;4]%Q.
Definition ker := of_list 0%Q [1;1;2] [1;10]%Q.
Definition c1 s lo hi ld rd := ConvParams [s] [(lo, hi)%Z] [ld] [rd] [0;1;2] [0;1;2] [0;1;2] 1 1.
Example conv_plain : conv1 (c1 1 0 0 1 1) line ker = Ok ([1;1;3], [21;32;43]%Q). Proof. vm_compute. reflexivity. Qed.
Example conv_stride : conv1 (c1 2 0 0 1 1) line ker = Ok ([1;1;2], [21;43]%Q). Proof. vm_compute. reflexivity. Qed.
Example conv_pad : conv1 (c1 1 1 2 1 1) line ker = Ok ([1;1;6], [10;21;32;43;4;0]%Q). Proof. vm_compute. reflexivity. Qed.
Example conv_negative_pad : conv1 (c1 1 (-1) 0 1 1) line ker = Ok ([1;1;2], [32;43]%Q). Proof. vm_compute. reflexivity. Qed.
Example conv_lhs_dilation : conv1 (c1 1 0 0 2 1) line ker = Ok ([1;1;6], [1;20;2;30;3;40]%Q). Proof. vm_compute. reflexivity. Qed.
Example conv_rhs_dilation : conv1 (c1 1 0 0 1 2) line ker = Ok ([1;1;2], [31;42]%Q). Proof. vm_compute. reflexivity. Qed.
(** Channels last; two input features; feature groups; batch groups. *)
Example conv_channels_last :
  conv1 (ConvParams [1] [(0,0)%Z] [1] [1] [0;2;1] [2;1;0] [0;2;1] 1 1) (of_list 0%Q [1;3;2] [1;2;3;4;5;6]%Q) (of_list 0%Q [2;2;1] [1;10;100;1000]%Q)
  = Ok ([1;2;1], [4321;6543]%Q). Proof. vm_compute. reflexivity. Qed.
Example conv_feature_groups :
  conv1 (ConvParams [1] [(0,0)%Z] [1] [1] [0;1;2] [0;1;2] [0;1;2] 2 1) (of_list 0%Q [1;2;2] [1;2;3;4]%Q) (of_list 0%Q [2;1;1] [1;10]%Q)
  = Ok ([1;2;2], [1;2;30;40]%Q). Proof. vm_compute. reflexivity. Qed.
Example conv_batch_groups :
  conv1 (ConvParams [1] [(0,0)%Z] [1] [1] [0;1;2] [0;1;2] [0;1;2] 1 2) (of_list 0%Q [2;1;2] [1;2;3;4]%Q) (of_list 0%Q [2;1;1] [1;10]%Q)
  = Ok ([1;2;2], [1;2;30;40]%Q). Proof. vm_compute. reflexivity. Qed.
(** An array argument: W x convolved with a constant, and the other way round. *)
Definition weights := mkT [1;1;4;2] (fun _ => 1%Q).
Example conv_array_argument :
  run [Op (dot_general_p [3] [0] [] []) [Var 2; Var 0] [Var 8]; Op (conv_p (c1 1 0 0 1 1)) [Var 8; Var 1] [Var 9]] (Var 9) [ker; weights] [] 1 false
      (full_of [2] 1%Q) (full_of [2] 0%Q) (full_of [2] 5%Q) = Err ValueError.
Proof. vm_compute. reflexivity. Qed.
Example conv_array_argument' :
  run [Op (dot_general_p [3] [0] [] []) [Var 2; Var 0] [Var 8]; Op (conv_p (c1 1 0 0 1 1)) [Var 1; Var 8] [Var 9]] (Var 9) [line; weights] [] 1 false
      (full_of [2] 1%Q) (full_of [2] 0%Q) (full_of [2] 5%Q) = Err ValueError.
Proof. vm_compute. reflexivity. Qed.
(** Degree 0: intervals. *)
Example conv_array_argument_degree_0 :
  run [Op (dot_general_p [3] [0] [] []) [Var 2; Var 0] [Var 8]; Op (conv_p (c1 1 0 0 1 1)) [Var 8; Var 1] [Var 9]] (Var 9) [ker; weights] [] 0 false
      (full_of [2] 1%Q) (full_of [2] 0%Q) (full_of [2] 5%Q) = ivl (full_of [1;1;3] 0%Q) (full_of [1;1;3] 110%Q).
Proof. vm_compute. reflexivity. Qed.
