(** Generated by tools/gen_tests.py: unit-test tables of /repo replayed on the
    model (tests of fidelity, not property proofs). *)
From Coq Require Import QArith.
From Verif Require Import Base Tensor IntervalArith Polynomials Enclosure.
Open Scope nat_scope.
Definition shw (t : tensor Q) := (tshape t, map Qred (to_list t)).
Definition shc (c : coef Q) :=
  match c with Arr t => inl (shw t) | Ivl l h => inr (shw l, shw h) end.
Definition shr (r : res (coef Q)) := match r with Ok c => Ok (shc c) | Err e => Err e end.
Definition she (r : res (enclosure Q)) := match r with Ok c => Ok (map shc c) | Err e => Err e end.
Definition ar d lo hi : arith Q := mkArith d (lo, hi).

Example t1 : shr (iadd (Ivl (of_list 0%Q [] [(1 # 1)]) (of_list 0%Q [] [(2 # 1)])) (Ivl (of_list 0%Q [] [(10 # 1)]) (of_list 0%Q [] [(20 # 1)]))) = shr (Ok (Ivl (of_list 0%Q [] [(11 # 1)]) (of_list 0%Q [] [(22 # 1)]))).
Proof. vm_compute. reflexivity. Qed.
Example t2 : shr (iadd (Arr (of_list 0%Q [] [(1 # 1)])) (Ivl (of_list 0%Q [] [(10 # 1)]) (of_list 0%Q [] [(20 # 1)]))) = shr (Ok (Ivl (of_list 0%Q [] [(11 # 1)]) (of_list 0%Q [] [(21 # 1)]))).
Proof. vm_compute. reflexivity. Qed.
Example t3 : shr (iadd (Ivl (of_list 0%Q [] [(1 # 1)]) (of_list 0%Q [] [(2 # 1)])) (Arr (of_list 0%Q [] [(10 # 1)]))) = shr (Ok (Ivl (of_list 0%Q [] [(11 # 1)]) (of_list 0%Q [] [(12 # 1)]))).
Proof. vm_compute. reflexivity. Qed.
Example t4 : shr (iadd (Arr (of_list 0%Q [] [(1 # 1)])) (Arr (of_list 0%Q [] [(10 # 1)]))) = shr (Ok (Arr (of_list 0%Q [] [(11 # 1)]))).
Proof. vm_compute. reflexivity. Qed.
Example t5 : shr (iadd (Arr (of_list 0%Q [] [(10 # 1)])) (Arr (of_list 0%Q [2] [(1 # 1);(2 # 1)]))) = shr (Ok (Arr (of_list 0%Q [2] [(11 # 1);(12 # 1)]))).
Proof. vm_compute. reflexivity. Qed.
Example t6 : shr (iadd (Arr (of_list 0%Q [2] [(1 # 1);(2 # 1)])) (Arr (of_list 0%Q [] [(10 # 1)]))) = shr (Ok (Arr (of_list 0%Q [2] [(11 # 1);(12 # 1)]))).
Proof. vm_compute. reflexivity. Qed.
Example t7 : shr (iadd (Ivl (of_list 0%Q [2] [(1 # 1);(2 # 1)]) (of_list 0%Q [2] [(3 # 1);(4 # 1)])) (Arr (of_list 0%Q [2] [(10 # 1);(20 # 1)]))) = shr (Ok (Ivl (of_list 0%Q [2] [(11 # 1);(22 # 1)]) (of_list 0%Q [2] [(13 # 1);(24 # 1)]))).
Proof. vm_compute. reflexivity. Qed.
Example t8 : shr (iadd (Arr (of_list 0%Q [2] [(10 # 1);(20 # 1)])) (Ivl (of_list 0%Q [2] [(1 # 1);(2 # 1)]) (of_list 0%Q [2] [(3 # 1);(4 # 1)]))) = shr (Ok (Ivl (of_list 0%Q [2] [(11 # 1);(22 # 1)]) (of_list 0%Q [2] [(13 # 1);(24 # 1)]))).
Proof. vm_compute. reflexivity. Qed.
Example t9 : shr (iadd (Ivl (of_list 0%Q [2] [(1 # 1);(2 # 1)]) (of_list 0%Q [2] [(3 # 1);(4 # 1)])) (Ivl (of_list 0%Q [2] [(10 # 1);(20 # 1)]) (of_list 0%Q [2] [(30 # 1);(40 # 1)]))) = shr (Ok (Ivl (of_list 0%Q [2] [(11 # 1);(22 # 1)]) (of_list 0%Q [2] [(33 # 1);(44 # 1)]))).
Proof. vm_compute. reflexivity. Qed.
Example t10 : shr (ibilinear (Ivl (of_list 0%Q [] [(2 # 1)]) (of_list 0%Q [] [(3 # 1)])) (Ivl (of_list 0%Q [] [(5 # 1)]) (of_list 0%Q [] [(7 # 1)])) tmul false) = shr (Ok (Ivl (of_list 0%Q [] [(10 # 1)]) (of_list 0%Q [] [(21 # 1)]))).
Proof. vm_compute. reflexivity. Qed.
Example t11 : shr (ibilinear (Ivl (of_list 0%Q [] [(2 # 1)]) (of_list 0%Q [] [(3 # 1)])) (Ivl (of_list 0%Q [] [(5 # 1)]) (of_list 0%Q [] [(7 # 1)])) tmul true) = shr (Ok (Ivl (of_list 0%Q [] [(10 # 1)]) (of_list 0%Q [] [(21 # 1)]))).
Proof. vm_compute. reflexivity. Qed.
Example t12 : shr (ibilinear (Ivl (of_list 0%Q [] [(-3 # 1)]) (of_list 0%Q [] [(-2 # 1)])) (Ivl (of_list 0%Q [] [(5 # 1)]) (of_list 0%Q [] [(7 # 1)])) tmul false) = shr (Ok (Ivl (of_list 0%Q [] [(-21 # 1)]) (of_list 0%Q [] [(-10 # 1)]))).
Proof. vm_compute. reflexivity. Qed.
Example t13 : shr (ibilinear (Ivl (of_list 0%Q [] [(-2 # 1)]) (of_list 0%Q [] [(3 # 1)])) (Ivl (of_list 0%Q [] [(5 # 1)]) (of_list 0%Q [] [(7 # 1)])) tmul false) = shr (Ok (Ivl (of_list 0%Q [] [(-14 # 1)]) (of_list 0%Q [] [(21 # 1)]))).
Proof. vm_compute. reflexivity. Qed.
Example t14 : shr (ibilinear (Ivl (of_list 0%Q [] [(2 # 1)]) (of_list 0%Q [] [(3 # 1)])) (Ivl (of_list 0%Q [] [(-7 # 1)]) (of_list 0%Q [] [(-5 # 1)])) tmul false) = shr (Ok (Ivl (of_list 0%Q [] [(-21 # 1)]) (of_list 0%Q [] [(-10 # 1)]))).
Proof. vm_compute. reflexivity. Qed.
Example t15 : shr (ibilinear (Ivl (of_list 0%Q [] [(-3 # 1)]) (of_list 0%Q [] [(-2 # 1)])) (Ivl (of_list 0%Q [] [(-7 # 1)]) (of_list 0%Q [] [(-5 # 1)])) tmul false) = shr (Ok (Ivl (of_list 0%Q [] [(10 # 1)]) (of_list 0%Q [] [(21 # 1)]))).
Proof. vm_compute. reflexivity. Qed.
Example t16 : shr (ibilinear (Ivl (of_list 0%Q [] [(-2 # 1)]) (of_list 0%Q [] [(3 # 1)])) (Ivl (of_list 0%Q [] [(-7 # 1)]) (of_list 0%Q [] [(-5 # 1)])) tmul false) = shr (Ok (Ivl (of_list 0%Q [] [(-21 # 1)]) (of_list 0%Q [] [(14 # 1)]))).
Proof. vm_compute. reflexivity. Qed.
Example t17 : shr (ibilinear (Ivl (of_list 0%Q [] [(2 # 1)]) (of_list 0%Q [] [(3 # 1)])) (Ivl (of_list 0%Q [] [(-5 # 1)]) (of_list 0%Q [] [(7 # 1)])) tmul false) = shr (Ok (Ivl (of_list 0%Q [] [(-15 # 1)]) (of_list 0%Q [] [(21 # 1)]))).
Proof. vm_compute. reflexivity. Qed.
Example t18 : shr (ibilinear (Ivl (of_list 0%Q [] [(-3 # 1)]) (of_list 0%Q [] [(-2 # 1)])) (Ivl (of_list 0%Q [] [(-5 # 1)]) (of_list 0%Q [] [(7 # 1)])) tmul false) = shr (Ok (Ivl (of_list 0%Q [] [(-21 # 1)]) (of_list 0%Q [] [(15 # 1)]))).
Proof. vm_compute. reflexivity. Qed.
Example t19 : shr (ibilinear (Ivl (of_list 0%Q [] [(-2 # 1)]) (of_list 0%Q [] [(3 # 1)])) (Ivl (of_list 0%Q [] [(-5 # 1)]) (of_list 0%Q [] [(7 # 1)])) tmul false) = shr (Ok (Ivl (of_list 0%Q [] [(-29 # 1)]) (of_list 0%Q [] [(31 # 1)]))).
Proof. vm_compute. reflexivity. Qed.
Example t20 : shr (ibilinear (Ivl (of_list 0%Q [] [(-2 # 1)]) (of_list 0%Q [] [(3 # 1)])) (Ivl (of_list 0%Q [] [(-5 # 1)]) (of_list 0%Q [] [(7 # 1)])) tmul true) = shr (Ok (Ivl (of_list 0%Q [] [(-15 # 1)]) (of_list 0%Q [] [(21 # 1)]))).
Proof. vm_compute. reflexivity. Qed.
Example t21 : shr (itensordot (Ivl (of_list 0%Q [2] [(2 # 1);(3 # 1)]) (of_list 0%Q [2] [(5 # 1);(7 # 1)])) (Ivl (of_list 0%Q [2] [(11 # 1);(13 # 1)]) (of_list 0%Q [2] [(17 # 1);(19 # 1)])) 1) = shr (Ok (Ivl (of_list 0%Q [] [(61 # 1)]) (of_list 0%Q [] [(218 # 1)]))).
Proof. vm_compute. reflexivity. Qed.
Example t22 : shr (itensordot (Ivl (of_list 0%Q [2;2] [(2 # 1);(0 # 1);(0 # 1);(3 # 1)]) (of_list 0%Q [2;2] [(5 # 1);(0 # 1);(0 # 1);(7 # 1)])) (Ivl (of_list 0%Q [2] [(11 # 1);(13 # 1)]) (of_list 0%Q [2] [(17 # 1);(19 # 1)])) 1) = shr (Ok (Ivl (of_list 0%Q [2] [(22 # 1);(39 # 1)]) (of_list 0%Q [2] [(85 # 1);(133 # 1)]))).
Proof. vm_compute. reflexivity. Qed.
Example t23 : shr (itensordot (Arr (of_list 0%Q [1;3] [(1 # 1);(1 # 1);(1 # 1)])) (Ivl (of_list 0%Q [3] [(0 # 1);(0 # 1);(0 # 1)]) (of_list 0%Q [3] [(1 # 1);(1 # 1);(1 # 1)])) 1) = shr (Ok (Ivl (of_list 0%Q [1] [(0 # 1)]) (of_list 0%Q [1] [(3 # 1)]))).
Proof. vm_compute. reflexivity. Qed.
Example t24 : shr (itensordot (Ivl (of_list 0%Q [1;3] [(0 # 1);(0 # 1);(0 # 1)]) (of_list 0%Q [1;3] [(1 # 1);(1 # 1);(1 # 1)])) (Arr (of_list 0%Q [3] [(1 # 1);(1 # 1);(1 # 1)])) 1) = shr (Ok (Ivl (of_list 0%Q [1] [(0 # 1)]) (of_list 0%Q [1] [(3 # 1)]))).
Proof. vm_compute. reflexivity. Qed.
Example t25 : shr (itensordot (Ivl (of_list 0%Q [1;3] [(0 # 1);(0 # 1);(0 # 1)]) (of_list 0%Q [1;3] [(1 # 1);(1 # 1);(1 # 1)])) (Ivl (of_list 0%Q [3] [(0 # 1);(0 # 1);(0 # 1)]) (of_list 0%Q [3] [(1 # 1);(1 # 1);(1 # 1)])) 1) = shr (Ok (Ivl (of_list 0%Q [1] [(0 # 1)]) (of_list 0%Q [1] [(3 # 1)]))).
Proof. vm_compute. reflexivity. Qed.
Example t26 : shr (itensordot (Arr (of_list 0%Q [] [(2 # 1)])) (Arr (of_list 0%Q [] [(3 # 1)])) 0) = shr (Ok (Arr (of_list 0%Q [] [(6 # 1)]))).
Proof. vm_compute. reflexivity. Qed.
Example t27 : shr (itensordot (Arr (of_list 0%Q [2] [(2 # 1);(3 # 1)])) (Arr (of_list 0%Q [2] [(5 # 1);(7 # 1)])) 0) = shr (Ok (Arr (of_list 0%Q [2;2] [(10 # 1);(14 # 1);(15 # 1);(21 # 1)]))).
Proof. vm_compute. reflexivity. Qed.
Example t28 : shr (itensordot (Arr (of_list 0%Q [2] [(2 # 1);(3 # 1)])) (Arr (of_list 0%Q [2] [(5 # 1);(7 # 1)])) 1) = shr (Ok (Arr (of_list 0%Q [] [(31 # 1)]))).
Proof. vm_compute. reflexivity. Qed.
Example t29 : shr (itensordot (Ivl (of_list 0%Q [] [(-1 # 2)]) (of_list 0%Q [] [(1 # 2)])) (Ivl (of_list 0%Q [] [(-1 # 2)]) (of_list 0%Q [] [(1 # 2)])) 0) = shr (Ok (Ivl (of_list 0%Q [] [(-1 # 4)]) (of_list 0%Q [] [(1 # 4)]))).
Proof. vm_compute. reflexivity. Qed.
Example t30 : shr (generalized_diag_interval (Arr (of_list 0%Q [3] [(1 # 1);(2 # 1);(3 # 1)])) 1) = shr (Ok (Arr (of_list 0%Q [3] [(1 # 1);(2 # 1);(3 # 1)]))).
Proof. vm_compute. reflexivity. Qed.
Example t31 : shr (generalized_diag_interval (Arr (of_list 0%Q [3] [(1 # 1);(2 # 1);(3 # 1)])) 2) = shr (Ok (Arr (of_list 0%Q [3;3] [(1 # 1);(0 # 1);(0 # 1);(0 # 1);(2 # 1);(0 # 1);(0 # 1);(0 # 1);(3 # 1)]))).
Proof. vm_compute. reflexivity. Qed.
Example t32 : shr (imul (Arr (of_list 0%Q [] [(2 # 1)])) (Arr (of_list 0%Q [] [(5 # 1)]))) = shr (Ok (Arr (of_list 0%Q [] [(10 # 1)]))).
Proof. vm_compute. reflexivity. Qed.
Example t33 : shr (imul (Ivl (of_list 0%Q [] [(2 # 1)]) (of_list 0%Q [] [(3 # 1)])) (Arr (of_list 0%Q [] [(5 # 1)]))) = shr (Ok (Ivl (of_list 0%Q [] [(10 # 1)]) (of_list 0%Q [] [(15 # 1)]))).
Proof. vm_compute. reflexivity. Qed.
Example t34 : shr (imul (Arr (of_list 0%Q [] [(2 # 1)])) (Ivl (of_list 0%Q [] [(5 # 1)]) (of_list 0%Q [] [(7 # 1)]))) = shr (Ok (Ivl (of_list 0%Q [] [(10 # 1)]) (of_list 0%Q [] [(14 # 1)]))).
Proof. vm_compute. reflexivity. Qed.
Example t35 : shr (imul (Arr (of_list 0%Q [2] [(2 # 1);(3 # 1)])) (Arr (of_list 0%Q [2] [(5 # 1);(7 # 1)]))) = shr (Ok (Arr (of_list 0%Q [2] [(10 # 1);(21 # 1)]))).
Proof. vm_compute. reflexivity. Qed.
Example t36 : shr (imul (Arr (of_list 0%Q [2] [(2 # 1);(3 # 1)])) (Ivl (of_list 0%Q [] [(5 # 1)]) (of_list 0%Q [] [(7 # 1)]))) = shr (Ok (Ivl (of_list 0%Q [2] [(10 # 1);(15 # 1)]) (of_list 0%Q [2] [(14 # 1);(21 # 1)]))).
Proof. vm_compute. reflexivity. Qed.
Example t37 : shr (imul (Ivl (of_list 0%Q [] [(5 # 1)]) (of_list 0%Q [] [(7 # 1)])) (Arr (of_list 0%Q [2] [(2 # 1);(3 # 1)]))) = shr (Ok (Ivl (of_list 0%Q [2] [(10 # 1);(15 # 1)]) (of_list 0%Q [2] [(14 # 1);(21 # 1)]))).
Proof. vm_compute. reflexivity. Qed.
Example t38 : shr (imul (Ivl (of_list 0%Q [9] [(2 # 1);(-3 # 1);(-2 # 1);(2 # 1);(-3 # 1);(-2 # 1);(2 # 1);(-3 # 1);(-2 # 1)]) (of_list 0%Q [9] [(3 # 1);(-2 # 1);(3 # 1);(3 # 1);(-2 # 1);(3 # 1);(3 # 1);(-2 # 1);(3 # 1)])) (Ivl (of_list 0%Q [9] [(5 # 1);(5 # 1);(5 # 1);(-7 # 1);(-7 # 1);(-7 # 1);(-5 # 1);(-5 # 1);(-5 # 1)]) (of_list 0%Q [9] [(7 # 1);(7 # 1);(7 # 1);(-5 # 1);(-5 # 1);(-5 # 1);(7 # 1);(7 # 1);(7 # 1)]))) = shr (Ok (Ivl (of_list 0%Q [9] [(10 # 1);(-21 # 1);(-14 # 1);(-21 # 1);(10 # 1);(-21 # 1);(-15 # 1);(-21 # 1);(-15 # 1)]) (of_list 0%Q [9] [(21 # 1);(-10 # 1);(21 # 1);(-10 # 1);(21 # 1);(14 # 1);(21 # 1);(15 # 1);(21 # 1)]))).
Proof. vm_compute. reflexivity. Qed.
Example t39 : shr (Ok (ineg (Ivl (of_list 0%Q [] [(1 # 1)]) (of_list 0%Q [] [(2 # 1)])))) = shr (Ok (Ivl (of_list 0%Q [] [(-2 # 1)]) (of_list 0%Q [] [(-1 # 1)]))).
Proof. vm_compute. reflexivity. Qed.
Example t40 : shr (Ok (ineg (Arr (of_list 0%Q [2] [(-1 # 1);(2 # 1)])))) = shr (Ok (Arr (of_list 0%Q [2] [(1 # 1);(-2 # 1)]))).
Proof. vm_compute. reflexivity. Qed.
Example t41 : shr (Ok (ineg (Ivl (of_list 0%Q [2] [(-1 # 1);(2 # 1)]) (of_list 0%Q [2] [(10 # 1);(20 # 1)])))) = shr (Ok (Ivl (of_list 0%Q [2] [(-10 # 1);(-20 # 1)]) (of_list 0%Q [2] [(1 # 1);(-2 # 1)]))).
Proof. vm_compute. reflexivity. Qed.
Example t42 : shr (iouter_power (Ivl (of_list 0%Q [] [(-1 # 1)]) (of_list 0%Q [] [(1 # 1)])) 2 0) = shr (Ok (Ivl (of_list 0%Q [] [(0 # 1)]) (of_list 0%Q [] [(1 # 1)]))).
Proof. vm_compute. reflexivity. Qed.
Example t43 : shr (iouter_power (Ivl (of_list 0%Q [2] [(-1 # 1);(-2 # 1)]) (of_list 0%Q [2] [(3 # 1);(4 # 1)])) 2 0) = shr (Ok (Ivl (of_list 0%Q [2;2] [(0 # 1);(-6 # 1);(-6 # 1);(0 # 1)]) (of_list 0%Q [2;2] [(9 # 1);(12 # 1);(12 # 1);(16 # 1)]))).
Proof. vm_compute. reflexivity. Qed.
Example t44 : shr (iouter_power (Arr (of_list 0%Q [2] [(2 # 1);(3 # 1)])) 2 1) = shr (Ok (Arr (of_list 0%Q [2] [(4 # 1);(9 # 1)]))).
Proof. vm_compute. reflexivity. Qed.
Example t45 : shr (iouter_product (Arr (of_list 0%Q [2] [(2 # 1);(3 # 1)])) (Arr (of_list 0%Q [2] [(5 # 1);(7 # 1)])) 0) = shr (Ok (Arr (of_list 0%Q [2;2] [(10 # 1);(14 # 1);(15 # 1);(21 # 1)]))).
Proof. vm_compute. reflexivity. Qed.
Example t46 : shr (iouter_product (Arr (of_list 0%Q [2] [(2 # 1);(3 # 1)])) (Arr (of_list 0%Q [2] [(5 # 1);(7 # 1)])) 1) = shr (Ok (Arr (of_list 0%Q [2] [(10 # 1);(21 # 1)]))).
Proof. vm_compute. reflexivity. Qed.
Example t47 : shr (iouter_product (Arr (of_list 0%Q [2] [(1 # 1);(2 # 1)])) (Ivl (of_list 0%Q [2] [(3 # 1);(4 # 1)]) (of_list 0%Q [2] [(5 # 1);(6 # 1)])) 0) = shr (Ok (Ivl (of_list 0%Q [2;2] [(3 # 1);(4 # 1);(6 # 1);(8 # 1)]) (of_list 0%Q [2;2] [(5 # 1);(6 # 1);(10 # 1);(12 # 1)]))).
Proof. vm_compute. reflexivity. Qed.
Example t48 : shr (iouter_product (Ivl (of_list 0%Q [2] [(3 # 1);(4 # 1)]) (of_list 0%Q [2] [(5 # 1);(6 # 1)])) (Arr (of_list 0%Q [2] [(1 # 1);(2 # 1)])) 0) = shr (Ok (Ivl (of_list 0%Q [2;2] [(3 # 1);(6 # 1);(4 # 1);(8 # 1)]) (of_list 0%Q [2;2] [(5 # 1);(10 # 1);(6 # 1);(12 # 1)]))).
Proof. vm_compute. reflexivity. Qed.
Example t49 : shr (iouter_product (Ivl (of_list 0%Q [2] [(-1 # 1);(2 # 1)]) (of_list 0%Q [2] [(1 # 1);(2 # 1)])) (Ivl (of_list 0%Q [2] [(3 # 1);(4 # 1)]) (of_list 0%Q [2] [(5 # 1);(6 # 1)])) 0) = shr (Ok (Ivl (of_list 0%Q [2;2] [(-5 # 1);(-6 # 1);(6 # 1);(8 # 1)]) (of_list 0%Q [2;2] [(5 # 1);(6 # 1);(10 # 1);(12 # 1)]))).
Proof. vm_compute. reflexivity. Qed.
Example t50 : shr (ipower (Ivl (of_list 0%Q [] [(-2 # 1)]) (of_list 0%Q [] [(3 # 1)])) 2) = shr (Ok (Ivl (of_list 0%Q [] [(0 # 1)]) (of_list 0%Q [] [(9 # 1)]))).
Proof. vm_compute. reflexivity. Qed.
Example t51 : shr (ipower (Ivl (of_list 0%Q [] [(2 # 1)]) (of_list 0%Q [] [(3 # 1)])) 2) = shr (Ok (Ivl (of_list 0%Q [] [(4 # 1)]) (of_list 0%Q [] [(9 # 1)]))).
Proof. vm_compute. reflexivity. Qed.
Example t52 : shr (ipower (Ivl (of_list 0%Q [] [(-3 # 1)]) (of_list 0%Q [] [(-2 # 1)])) 2) = shr (Ok (Ivl (of_list 0%Q [] [(4 # 1)]) (of_list 0%Q [] [(9 # 1)]))).
Proof. vm_compute. reflexivity. Qed.
Example t53 : shr (ipower (Ivl (of_list 0%Q [] [(-2 # 1)]) (of_list 0%Q [] [(3 # 1)])) 3) = shr (Ok (Ivl (of_list 0%Q [] [(-8 # 1)]) (of_list 0%Q [] [(27 # 1)]))).
Proof. vm_compute. reflexivity. Qed.
Example t54 : shr (ipower (Ivl (of_list 0%Q [] [(2 # 1)]) (of_list 0%Q [] [(3 # 1)])) 3) = shr (Ok (Ivl (of_list 0%Q [] [(8 # 1)]) (of_list 0%Q [] [(27 # 1)]))).
Proof. vm_compute. reflexivity. Qed.
Example t55 : shr (ipower (Ivl (of_list 0%Q [] [(-3 # 1)]) (of_list 0%Q [] [(-2 # 1)])) 3) = shr (Ok (Ivl (of_list 0%Q [] [(-27 # 1)]) (of_list 0%Q [] [(-8 # 1)]))).
Proof. vm_compute. reflexivity. Qed.
Example t56 : shr (ipower (Ivl (of_list 0%Q [3] [(-2 # 1);(2 # 1);(-3 # 1)]) (of_list 0%Q [3] [(3 # 1);(3 # 1);(-2 # 1)])) 2) = shr (Ok (Ivl (of_list 0%Q [3] [(0 # 1);(4 # 1);(4 # 1)]) (of_list 0%Q [3] [(9 # 1);(9 # 1);(9 # 1)]))).
Proof. vm_compute. reflexivity. Qed.
Example t57 : shr (isub (Ivl (of_list 0%Q [] [(10 # 1)]) (of_list 0%Q [] [(20 # 1)])) (Ivl (of_list 0%Q [] [(1 # 1)]) (of_list 0%Q [] [(2 # 1)]))) = shr (Ok (Ivl (of_list 0%Q [] [(8 # 1)]) (of_list 0%Q [] [(19 # 1)]))).
Proof. vm_compute. reflexivity. Qed.
Example t58 : shr (isub (Arr (of_list 0%Q [] [(10 # 1)])) (Ivl (of_list 0%Q [] [(1 # 1)]) (of_list 0%Q [] [(2 # 1)]))) = shr (Ok (Ivl (of_list 0%Q [] [(8 # 1)]) (of_list 0%Q [] [(9 # 1)]))).
Proof. vm_compute. reflexivity. Qed.
Example t59 : shr (isub (Ivl (of_list 0%Q [] [(10 # 1)]) (of_list 0%Q [] [(20 # 1)])) (Arr (of_list 0%Q [] [(1 # 1)]))) = shr (Ok (Ivl (of_list 0%Q [] [(9 # 1)]) (of_list 0%Q [] [(19 # 1)]))).
Proof. vm_compute. reflexivity. Qed.
Example t60 : shr (isub (Arr (of_list 0%Q [] [(10 # 1)])) (Arr (of_list 0%Q [] [(1 # 1)]))) = shr (Ok (Arr (of_list 0%Q [] [(9 # 1)]))).
Proof. vm_compute. reflexivity. Qed.
Example t61 : shr (isub (Arr (of_list 0%Q [] [(10 # 1)])) (Arr (of_list 0%Q [2] [(1 # 1);(2 # 1)]))) = shr (Ok (Arr (of_list 0%Q [2] [(9 # 1);(8 # 1)]))).
Proof. vm_compute. reflexivity. Qed.
Example t62 : shr (isub (Arr (of_list 0%Q [2] [(10 # 1);(20 # 1)])) (Arr (of_list 0%Q [] [(1 # 1)]))) = shr (Ok (Arr (of_list 0%Q [2] [(9 # 1);(19 # 1)]))).
Proof. vm_compute. reflexivity. Qed.
Example t63 : shr (isub (Ivl (of_list 0%Q [2] [(10 # 1);(20 # 1)]) (of_list 0%Q [2] [(30 # 1);(40 # 1)])) (Arr (of_list 0%Q [2] [(1 # 1);(2 # 1)]))) = shr (Ok (Ivl (of_list 0%Q [2] [(9 # 1);(18 # 1)]) (of_list 0%Q [2] [(29 # 1);(38 # 1)]))).
Proof. vm_compute. reflexivity. Qed.
Example t64 : shr (isub (Arr (of_list 0%Q [2] [(10 # 1);(20 # 1)])) (Ivl (of_list 0%Q [2] [(1 # 1);(2 # 1)]) (of_list 0%Q [2] [(3 # 1);(4 # 1)]))) = shr (Ok (Ivl (of_list 0%Q [2] [(7 # 1);(16 # 1)]) (of_list 0%Q [2] [(9 # 1);(18 # 1)]))).
Proof. vm_compute. reflexivity. Qed.
Example t65 : shr (isub (Ivl (of_list 0%Q [2] [(10 # 1);(20 # 1)]) (of_list 0%Q [2] [(30 # 1);(40 # 1)])) (Ivl (of_list 0%Q [2] [(1 # 1);(2 # 1)]) (of_list 0%Q [2] [(3 # 1);(4 # 1)]))) = shr (Ok (Ivl (of_list 0%Q [2] [(7 # 1);(16 # 1)]) (of_list 0%Q [2] [(29 # 1);(38 # 1)]))).
Proof. vm_compute. reflexivity. Qed.
Example t66 : shr (eval_elementwise_taylor_enclosure [(Arr (of_list 0%Q [] [(1 # 1)]))] (Arr (of_list 0%Q [] [(3 # 1)]))) = shr (Ok (Arr (of_list 0%Q [] [(1 # 1)]))).
Proof. vm_compute. reflexivity. Qed.
Example t67 : shr (eval_elementwise_taylor_enclosure [(Arr (of_list 0%Q [] [(1 # 1)])); (Arr (of_list 0%Q [] [(2 # 1)]))] (Arr (of_list 0%Q [] [(3 # 1)]))) = shr (Ok (Arr (of_list 0%Q [] [(7 # 1)]))).
Proof. vm_compute. reflexivity. Qed.
Example t68 : shr (eval_elementwise_taylor_enclosure [(Arr (of_list 0%Q [] [(1 # 1)])); (Arr (of_list 0%Q [] [(2 # 1)])); (Arr (of_list 0%Q [] [(3 # 1)]))] (Arr (of_list 0%Q [] [(3 # 1)]))) = shr (Ok (Arr (of_list 0%Q [] [(34 # 1)]))).
Proof. vm_compute. reflexivity. Qed.
Example t69 : shr (eval_elementwise_taylor_enclosure [(Arr (of_list 0%Q [] [(1 # 1)])); (Arr (of_list 0%Q [] [(2 # 1)])); (Ivl (of_list 0%Q [] [(3 # 1)]) (of_list 0%Q [] [(4 # 1)]))] (Arr (of_list 0%Q [] [(3 # 1)]))) = shr (Ok (Ivl (of_list 0%Q [] [(34 # 1)]) (of_list 0%Q [] [(43 # 1)]))).
Proof. vm_compute. reflexivity. Qed.
Example t70 : shr (eval_elementwise_taylor_enclosure [(Arr (of_list 0%Q [2] [(5 # 1);(7 # 1)]))] (Arr (of_list 0%Q [2] [(-1 # 1);(-2 # 1)]))) = shr (Ok (Arr (of_list 0%Q [2] [(5 # 1);(7 # 1)]))).
Proof. vm_compute. reflexivity. Qed.
Example t71 : shr (eval_elementwise_taylor_enclosure [(Arr (of_list 0%Q [2] [(5 # 1);(7 # 1)])); (Arr (of_list 0%Q [2] [(3 # 1);(4 # 1)]))] (Arr (of_list 0%Q [2] [(-1 # 1);(-2 # 1)]))) = shr (Ok (Arr (of_list 0%Q [2] [(2 # 1);(-1 # 1)]))).
Proof. vm_compute. reflexivity. Qed.
Example t72 : shr (eval_elementwise_taylor_enclosure [(Arr (of_list 0%Q [2] [(5 # 1);(7 # 1)])); (Ivl (of_list 0%Q [2] [(-3 # 1);(-2 # 1)]) (of_list 0%Q [2] [(3 # 1);(4 # 1)]))] (Arr (of_list 0%Q [2] [(-1 # 1);(-2 # 1)]))) = shr (Ok (Ivl (of_list 0%Q [2] [(2 # 1);(-1 # 1)]) (of_list 0%Q [2] [(8 # 1);(11 # 1)]))).
Proof. vm_compute. reflexivity. Qed.
Example t73 : shr (eval_elementwise_taylor_enclosure [(Arr (of_list 0%Q [] [(0 # 1)])); (Arr (of_list 0%Q [] [(0 # 1)])); (Ivl (of_list 0%Q [] [(0 # 1)]) (of_list 0%Q [] [(1 # 1)]))] (Ivl (of_list 0%Q [] [(-1 # 1)]) (of_list 0%Q [] [(1 # 1)]))) = shr (Ok (Ivl (of_list 0%Q [] [(0 # 1)]) (of_list 0%Q [] [(1 # 1)]))).
Proof. vm_compute. reflexivity. Qed.
Example t74 : shr (eval_elementwise_taylor_enclosure [(Arr (of_list 0%Q [] [(0 # 1)])); (Arr (of_list 0%Q [] [(0 # 1)])); (Ivl (of_list 0%Q [] [(-1 # 1)]) (of_list 0%Q [] [(1 # 1)]))] (Ivl (of_list 0%Q [] [(-1 # 1)]) (of_list 0%Q [] [(1 # 1)]))) = shr (Ok (Ivl (of_list 0%Q [] [(-1 # 1)]) (of_list 0%Q [] [(1 # 1)]))).
Proof. vm_compute. reflexivity. Qed.
Example t75 : shr (eval_taylor_enclosure [(Arr (of_list 0%Q [2] [(2 # 1);(3 # 1)])); (Arr (of_list 0%Q [2;2] [(1 # 1);(0 # 1);(0 # 1);(1 # 1)]))] (Arr (of_list 0%Q [2] [(-7 # 1);(5 # 1)]))) = shr (Ok (Arr (of_list 0%Q [2] [(-5 # 1);(8 # 1)]))).
Proof. vm_compute. reflexivity. Qed.
Example t76 : shr (eval_taylor_enclosure [(Arr (of_list 0%Q [2] [(2 # 1);(3 # 1)])); (Ivl (of_list 0%Q [2;2] [(1 # 1);(0 # 1);(0 # 1);(1 # 1)]) (of_list 0%Q [2;2] [(2 # 1);(0 # 1);(0 # 1);(2 # 1)]))] (Arr (of_list 0%Q [2] [(-7 # 1);(5 # 1)]))) = shr (Ok (Ivl (of_list 0%Q [2] [(-12 # 1);(8 # 1)]) (of_list 0%Q [2] [(-5 # 1);(13 # 1)]))).
Proof. vm_compute. reflexivity. Qed.
Example t77 : shr (eval_taylor_enclosure [(Arr (of_list 0%Q [] [(0 # 1)])); (Arr (of_list 0%Q [] [(0 # 1)])); (Ivl (of_list 0%Q [] [(0 # 1)]) (of_list 0%Q [] [(1 # 1)]))] (Ivl (of_list 0%Q [] [(-1 # 1)]) (of_list 0%Q [] [(1 # 1)]))) = shr (Ok (Ivl (of_list 0%Q [] [(0 # 1)]) (of_list 0%Q [] [(1 # 1)]))).
Proof. vm_compute. reflexivity. Qed.
Example t78 : shr (eval_taylor_enclosure [(Arr (of_list 0%Q [] [(0 # 1)])); (Arr (of_list 0%Q [] [(0 # 1)])); (Ivl (of_list 0%Q [] [(-1 # 1)]) (of_list 0%Q [] [(1 # 1)]))] (Ivl (of_list 0%Q [] [(-1 # 1)]) (of_list 0%Q [] [(1 # 1)]))) = shr (Ok (Ivl (of_list 0%Q [] [(-1 # 1)]) (of_list 0%Q [] [(1 # 1)]))).
Proof. vm_compute. reflexivity. Qed.
Example tp1 : poly_bilinear (fun a b => Ok (a + b)%Z) 0%Z (fun a b _ _ => Ok (a * b)%Z) [2;3]%Z [5;7]%Z = Ok [10;29;21]%Z.
Proof. reflexivity. Qed.
Example tp2 : iter_partitions 1 2 3 = Ok [[1;1;0]]. Proof. reflexivity. Qed.
Example tp3 : iter_partitions 2 2 3 = Ok [[0;2;0];[1;0;1]]. Proof. reflexivity. Qed.
Definition ipz := integer_power (fun a b => Ok (a + b)%Z) 0%Z 1%Z (fun a b _ _ => Ok (a * b)%Z)
  (fun c _ j => Ok (c ^ Z.of_nat j)%Z) (fun k c => Ok (k * c)%Z).
Example tp4 : ipz [2;3;5]%Z 0 = Ok [1]%Z. Proof. reflexivity. Qed.
Example tp5 : ipz [2;3;5]%Z 1 = Ok [2;3;5]%Z. Proof. reflexivity. Qed.
Example tp6 : ipz [2;3;5]%Z 2 = Ok [4;12;29;30;25]%Z. Proof. reflexivity. Qed.
Example tp7 : map multinomial_coefficient [[2;0];[1;1];[9;1];[8;2];[5;2;3]] = map Ok [1;2;10;45;2520]%Z.
Proof. vm_compute. reflexivity. Qed.
Example t79 : she (eadd (ar 100 (of_list 0%Q [] [(0 # 1)]) (of_list 0%Q [] [(1 # 4)])) [(Arr (of_list 0%Q [] [(1 # 1)]))] [(Arr (of_list 0%Q [] [(10 # 1)]))]) = she (Ok [(Arr (of_list 0%Q [] [(11 # 1)]))]).
Proof. vm_compute. reflexivity. Qed.
Example t80 : she (eadd (ar 100 (of_list 0%Q [] [(0 # 1)]) (of_list 0%Q [] [(1 # 4)])) [(Arr (of_list 0%Q [] [(1 # 1)])); (Arr (of_list 0%Q [] [(2 # 1)]))] [(Arr (of_list 0%Q [] [(10 # 1)]))]) = she (Ok [(Arr (of_list 0%Q [] [(11 # 1)])); (Arr (of_list 0%Q [] [(2 # 1)]))]).
Proof. vm_compute. reflexivity. Qed.
Example t81 : she (eadd (ar 100 (of_list 0%Q [] [(0 # 1)]) (of_list 0%Q [] [(1 # 4)])) [(Arr (of_list 0%Q [] [(1 # 1)])); (Arr (of_list 0%Q [] [(2 # 1)]))] [(Arr (of_list 0%Q [] [(10 # 1)])); (Arr (of_list 0%Q [] [(20 # 1)]))]) = she (Ok [(Arr (of_list 0%Q [] [(11 # 1)])); (Arr (of_list 0%Q [] [(22 # 1)]))]).
Proof. vm_compute. reflexivity. Qed.
Example t82 : she (eadd (ar 100 (of_list 0%Q [] [(0 # 1)]) (of_list 0%Q [] [(1 # 4)])) [(Arr (of_list 0%Q [] [(1 # 1)]))] [(Arr (of_list 0%Q [] [(10 # 1)])); (Arr (of_list 0%Q [] [(20 # 1)]))]) = she (Ok [(Arr (of_list 0%Q [] [(11 # 1)])); (Arr (of_list 0%Q [] [(20 # 1)]))]).
Proof. vm_compute. reflexivity. Qed.
Example t83 : she (eadd (ar 100 (of_list 0%Q [] [(0 # 1)]) (of_list 0%Q [] [(1 # 4)])) [(Arr (of_list 0%Q [] [(1 # 1)])); (Ivl (of_list 0%Q [] [(2 # 1)]) (of_list 0%Q [] [(3 # 1)]))] [(Arr (of_list 0%Q [] [(10 # 1)])); (Ivl (of_list 0%Q [] [(20 # 1)]) (of_list 0%Q [] [(30 # 1)]))]) = she (Ok [(Arr (of_list 0%Q [] [(11 # 1)])); (Ivl (of_list 0%Q [] [(22 # 1)]) (of_list 0%Q [] [(33 # 1)]))]).
Proof. vm_compute. reflexivity. Qed.
Example t84 : she (eadd (ar 0 (of_list 0%Q [] [(0 # 1)]) (of_list 0%Q [] [(1 # 4)])) [(Arr (of_list 0%Q [] [(1 # 1)])); (Arr (of_list 0%Q [] [(2 # 1)]))] [(Arr (of_list 0%Q [] [(10 # 1)])); (Arr (of_list 0%Q [] [(20 # 1)]))]) = she (Ok [(Ivl (of_list 0%Q [] [(11 # 1)]) (of_list 0%Q [] [(33 # 2)]))]).
Proof. vm_compute. reflexivity. Qed.
Example t85 : she (eadd (ar 100 (of_list 0%Q [2] [(0 # 1);(0 # 1)]) (of_list 0%Q [2] [(1 # 1);(1 # 1)])) [(Arr (of_list 0%Q [2] [(1 # 1);(2 # 1)])); (Arr (of_list 0%Q [2;2] [(3 # 1);(0 # 1);(0 # 1);(3 # 1)]))] [(Arr (of_list 0%Q [2] [(10 # 1);(20 # 1)])); (Arr (of_list 0%Q [2;2] [(30 # 1);(0 # 1);(0 # 1);(30 # 1)]))]) = she (Ok [(Arr (of_list 0%Q [2] [(11 # 1);(22 # 1)])); (Arr (of_list 0%Q [2;2] [(33 # 1);(0 # 1);(0 # 1);(33 # 1)]))]).
Proof. vm_compute. reflexivity. Qed.
Example t86 : she (earbitrary_bilinear (ar 100 (of_list 0%Q [] [(0 # 1)]) (of_list 0%Q [] [(1 # 2)])) [(Arr (of_list 0%Q [1] [(2 # 1)]))] [(Arr (of_list 0%Q [1] [(3 # 1)]))] (fun u v _ _ => tmul u v)) = she (Ok [(Arr (of_list 0%Q [1] [(6 # 1)]))]).
Proof. vm_compute. reflexivity. Qed.
Example t87 : she (compose_enclosures (ar 2 (of_list 0%Q [] [(0 # 1)]) (of_list 0%Q [] [(1 # 2)])) [(Arr (of_list 0%Q [] [(2 # 1)])); (Arr (of_list 0%Q [] [(3 # 1)]))] [(Arr (of_list 0%Q [] [(5 # 1)])); (Arr (of_list 0%Q [] [(7 # 1)]))]) = she (Ok [(Arr (of_list 0%Q [] [(2 # 1)])); (Arr (of_list 0%Q [] [(21 # 1)]))]).
Proof. vm_compute. reflexivity. Qed.
Example t88 : she (compose_enclosures (ar 2 (of_list 0%Q [] [(0 # 1)]) (of_list 0%Q [] [(1 # 2)])) [(Arr (of_list 0%Q [] [(3 # 1)])); (Arr (of_list 0%Q [] [(3 # 1)])); (Ivl (of_list 0%Q [] [(2 # 1)]) (of_list 0%Q [] [(4 # 1)]))] [(Arr (of_list 0%Q [] [(1 # 1)])); (Arr (of_list 0%Q [] [(1 # 1)]))]) = she (Ok [(Arr (of_list 0%Q [] [(3 # 1)])); (Arr (of_list 0%Q [] [(3 # 1)])); (Ivl (of_list 0%Q [] [(2 # 1)]) (of_list 0%Q [] [(4 # 1)]))]).
Proof. vm_compute. reflexivity. Qed.
Example t89 : she (compose_enclosures (ar 2 (of_list 0%Q [] [(-10 # 1)]) (of_list 0%Q [] [(10 # 1)])) [(Arr (of_list 0%Q [] [(1 # 1)])); (Ivl (of_list 0%Q [] [(-1 # 1)]) (of_list 0%Q [] [(1 # 1)]))] [(Arr (of_list 0%Q [] [(-1 # 1)])); (Arr (of_list 0%Q [] [(1 # 1)]))]) = she (Ok [(Arr (of_list 0%Q [] [(1 # 1)])); (Ivl (of_list 0%Q [] [(-1 # 1)]) (of_list 0%Q [] [(1 # 1)]))]).
Proof. vm_compute. reflexivity. Qed.
Example t90 : she (compose_enclosures (ar 2 (of_list 0%Q [3] [(-10 # 1);(-10 # 1);(-10 # 1)]) (of_list 0%Q [3] [(10 # 1);(10 # 1);(10 # 1)])) [(Arr (of_list 0%Q [3] [(1 # 1);(0 # 1);(2 # 1)])); (Ivl (of_list 0%Q [3] [(-1 # 1);(-1 # 1);(-1 # 1)]) (of_list 0%Q [3] [(1 # 1);(1 # 1);(1 # 1)]))] [(Arr (of_list 0%Q [3] [(-1 # 1);(0 # 1);(2 # 1)])); (Arr (of_list 0%Q [3;3] [(1 # 1);(0 # 1);(0 # 1);(0 # 1);(1 # 1);(0 # 1);(0 # 1);(0 # 1);(1 # 1)]))]) = she (Ok [(Arr (of_list 0%Q [3] [(1 # 1);(0 # 1);(2 # 1)])); (Ivl (of_list 0%Q [3;3] [(-1 # 1);(0 # 1);(0 # 1);(0 # 1);(-1 # 1);(0 # 1);(0 # 1);(0 # 1);(-1 # 1)]) (of_list 0%Q [3;3] [(1 # 1);(0 # 1);(0 # 1);(0 # 1);(1 # 1);(0 # 1);(0 # 1);(0 # 1);(1 # 1)]))]).
Proof. vm_compute. reflexivity. Qed.
Example t91 : she (compose_enclosures (ar 2 (of_list 0%Q [1] [(0 # 1)]) (of_list 0%Q [1] [(1 # 1)])) [(Arr (of_list 0%Q [2;3] [(0 # 1);(0 # 1);(0 # 1);(0 # 1);(0 # 1);(0 # 1)])); (Arr (of_list 0%Q [2;3] [(0 # 1);(0 # 1);(0 # 1);(0 # 1);(0 # 1);(0 # 1)]))] [(Arr (of_list 0%Q [2;3] [(0 # 1);(0 # 1);(0 # 1);(0 # 1);(0 # 1);(0 # 1)])); (Arr (of_list 0%Q [2;3;1] [(0 # 1);(0 # 1);(0 # 1);(0 # 1);(0 # 1);(0 # 1)]))]) = she (Ok [(Arr (of_list 0%Q [2;3] [(0 # 1);(0 # 1);(0 # 1);(0 # 1);(0 # 1);(0 # 1)])); (Arr (of_list 0%Q [2;3;1] [(0 # 1);(0 # 1);(0 # 1);(0 # 1);(0 # 1);(0 # 1)]))]).
Proof. vm_compute. reflexivity. Qed.
Example t92 : she (enclose_enclosure [(Arr (of_list 0%Q [] [(2 # 1)]))] ((of_list 0%Q [] [(0 # 1)]),(of_list 0%Q [] [(1 # 2)])) 0) = she (Ok [(Arr (of_list 0%Q [] [(2 # 1)]))]).
Proof. vm_compute. reflexivity. Qed.
Example t93 : she (enclose_enclosure [(Arr (of_list 0%Q [] [(2 # 1)])); (Arr (of_list 0%Q [] [(3 # 1)]))] ((of_list 0%Q [] [(0 # 1)]),(of_list 0%Q [] [(1 # 2)])) 1) = she (Ok [(Arr (of_list 0%Q [] [(2 # 1)])); (Arr (of_list 0%Q [] [(3 # 1)]))]).
Proof. vm_compute. reflexivity. Qed.
Example t94 : she (enclose_enclosure [(Arr (of_list 0%Q [] [(2 # 1)])); (Arr (of_list 0%Q [] [(3 # 1)]))] ((of_list 0%Q [] [(0 # 1)]),(of_list 0%Q [] [(1 # 2)])) 0) = she (Ok [(Ivl (of_list 0%Q [] [(2 # 1)]) (of_list 0%Q [] [(7 # 2)]))]).
Proof. vm_compute. reflexivity. Qed.
Example t95 : she (enclose_enclosure [(Arr (of_list 0%Q [] [(11 # 1)])); (Arr (of_list 0%Q [] [(22 # 1)]))] ((of_list 0%Q [] [(0 # 1)]),(of_list 0%Q [] [(1 # 4)])) 0) = she (Ok [(Ivl (of_list 0%Q [] [(11 # 1)]) (of_list 0%Q [] [(33 # 2)]))]).
Proof. vm_compute. reflexivity. Qed.
Example t96 : she (enclose_enclosure [(Arr (of_list 0%Q [2] [(2 # 1);(3 # 1)])); (Arr (of_list 0%Q [2;2] [(20 # 1);(0 # 1);(0 # 1);(30 # 1)]))] ((of_list 0%Q [2] [(0 # 1);(0 # 1)]),(of_list 0%Q [2] [(1 # 4);(1 # 2)])) 0) = she (Ok [(Ivl (of_list 0%Q [2] [(2 # 1);(3 # 1)]) (of_list 0%Q [2] [(7 # 1);(18 # 1)]))]).
Proof. vm_compute. reflexivity. Qed.
Example t97 : she (emultiply (ar 100 (of_list 0%Q [] [(0 # 1)]) (of_list 0%Q [] [(1 # 2)])) [(Arr (of_list 0%Q [] [(2 # 1)]))] [(Arr (of_list 0%Q [] [(3 # 1)]))]) = she (Ok [(Arr (of_list 0%Q [] [(6 # 1)]))]).
Proof. vm_compute. reflexivity. Qed.
Example t98 : she (emultiply (ar 0 (of_list 0%Q [] [(0 # 1)]) (of_list 0%Q [] [(1 # 2)])) [(Arr (of_list 0%Q [] [(2 # 1)]))] [(Arr (of_list 0%Q [] [(3 # 1)]))]) = she (Ok [(Arr (of_list 0%Q [] [(6 # 1)]))]).
Proof. vm_compute. reflexivity. Qed.
Example t99 : she (emultiply (ar 100 (of_list 0%Q [] [(0 # 1)]) (of_list 0%Q [] [(1 # 2)])) [(Arr (of_list 0%Q [] [(2 # 1)])); (Arr (of_list 0%Q [] [(3 # 1)]))] [(Arr (of_list 0%Q [] [(5 # 1)]))]) = she (Ok [(Arr (of_list 0%Q [] [(10 # 1)])); (Arr (of_list 0%Q [] [(15 # 1)]))]).
Proof. vm_compute. reflexivity. Qed.
Example t100 : she (emultiply (ar 0 (of_list 0%Q [] [(0 # 1)]) (of_list 0%Q [] [(1 # 2)])) [(Arr (of_list 0%Q [] [(2 # 1)])); (Arr (of_list 0%Q [] [(3 # 1)]))] [(Arr (of_list 0%Q [] [(5 # 1)]))]) = she (Ok [(Ivl (of_list 0%Q [] [(10 # 1)]) (of_list 0%Q [] [(35 # 2)]))]).
Proof. vm_compute. reflexivity. Qed.
Example t101 : she (emultiply (ar 0 (of_list 0%Q [] [(0 # 1)]) (of_list 0%Q [] [(1 # 4)])) [(Arr (of_list 0%Q [] [(2 # 1)]))] [(Arr (of_list 0%Q [3] [(1 # 1);(1 # 1);(1 # 1)]))]) = she (Ok [(Arr (of_list 0%Q [3] [(2 # 1);(2 # 1);(2 # 1)]))]).
Proof. vm_compute. reflexivity. Qed.
Example t102 : she (emultiply (ar 2 (of_list 0%Q [] [(-10 # 1)]) (of_list 0%Q [] [(10 # 1)])) [(Arr (of_list 0%Q [] [(0 # 1)]))] [(Ivl (of_list 0%Q [] [(-1 # 1)]) (of_list 0%Q [] [(1 # 1)]))]) = she (Ok [(Ivl (of_list 0%Q [] [(0 # 1)]) (of_list 0%Q [] [(0 # 1)]))]).
Proof. vm_compute. reflexivity. Qed.
Example t103 : she (emultiply (ar 0 (of_list 0%Q [] [(0 # 1)]) (of_list 0%Q [] [(1 # 2)])) [(Arr (of_list 0%Q [2;3] [(1 # 1);(1 # 1);(1 # 1);(1 # 1);(1 # 1);(1 # 1)]))] [(Arr (of_list 0%Q [] [(5 # 1)]))]) = she (Ok [(Arr (of_list 0%Q [2;3] [(5 # 1);(5 # 1);(5 # 1);(5 # 1);(5 # 1);(5 # 1)]))]).
Proof. vm_compute. reflexivity. Qed.
Example t104 : she (emultiply (ar 0 (of_list 0%Q [] [(0 # 1)]) (of_list 0%Q [] [(1 # 2)])) [(Arr (of_list 0%Q [2;3] [(1 # 1);(1 # 1);(1 # 1);(1 # 1);(1 # 1);(1 # 1)]))] [(Arr (of_list 0%Q [3] [(20 # 1);(30 # 1);(50 # 1)]))]) = she (Ok [(Arr (of_list 0%Q [2;3] [(20 # 1);(30 # 1);(50 # 1);(20 # 1);(30 # 1);(50 # 1)]))]).
Proof. vm_compute. reflexivity. Qed.
Example t105 : she (emultiply (ar 100 (of_list 0%Q [] [(0 # 1)]) (of_list 0%Q [] [(1 # 2)])) [(Arr (of_list 0%Q [] [(2 # 1)])); (Arr (of_list 0%Q [] [(3 # 1)]))] [(Arr (of_list 0%Q [] [(0 # 1)])); (Arr (of_list 0%Q [] [(1 # 1)]))]) = she (Ok [(Arr (of_list 0%Q [] [(0 # 1)])); (Arr (of_list 0%Q [] [(2 # 1)])); (Arr (of_list 0%Q [] [(3 # 1)]))]).
Proof. vm_compute. reflexivity. Qed.
Example t106 : she (emultiply (ar 100 (of_list 0%Q [] [(0 # 1)]) (of_list 0%Q [] [(1 # 2)])) [(Arr (of_list 0%Q [] [(2 # 1)])); (Arr (of_list 0%Q [1] [(3 # 1)]))] [(Arr (of_list 0%Q [] [(0 # 1)])); (Arr (of_list 0%Q [] [(1 # 1)]))]) = she (Ok [(Arr (of_list 0%Q [] [(0 # 1)])); (Arr (of_list 0%Q [1] [(2 # 1)])); (Arr (of_list 0%Q [1] [(3 # 1)]))]).
Proof. vm_compute. reflexivity. Qed.
Example t107 : she (emultiply (ar 100 (of_list 0%Q [2] [(0 # 1);(0 # 1)]) (of_list 0%Q [2] [(1 # 1);(1 # 1)])) [(Arr (of_list 0%Q [2] [(0 # 1);(0 # 1)])); (Arr (of_list 0%Q [2;2] [(1 # 1);(0 # 1);(0 # 1);(1 # 1)]))] [(Arr (of_list 0%Q [2] [(0 # 1);(0 # 1)])); (Arr (of_list 0%Q [2;2] [(1 # 1);(0 # 1);(0 # 1);(1 # 1)]))]) = she (Ok [(Arr (of_list 0%Q [2] [(0 # 1);(0 # 1)])); (Arr (of_list 0%Q [2;2] [(0 # 1);(0 # 1);(0 # 1);(0 # 1)])); (Arr (of_list 0%Q [2;2;2] [(1 # 1);(0 # 1);(0 # 1);(0 # 1);(0 # 1);(0 # 1);(0 # 1);(1 # 1)]))]).
Proof. vm_compute. reflexivity. Qed.
Example t108 : she (emultiply (ar 100 (of_list 0%Q [] [(-13 # 1)]) (of_list 0%Q [] [(17 # 1)])) [(Ivl (of_list 0%Q [] [(-1 # 2)]) (of_list 0%Q [] [(1 # 2)]))] [(Ivl (of_list 0%Q [] [(-1 # 2)]) (of_list 0%Q [] [(1 # 2)]))]) = she (Ok [(Ivl (of_list 0%Q [] [(-1 # 4)]) (of_list 0%Q [] [(1 # 4)]))]).
Proof. vm_compute. reflexivity. Qed.
Example t109 : she (enegative (ar 100 (of_list 0%Q [2] [(0 # 1);(0 # 1)]) (of_list 0%Q [2] [(1 # 1);(1 # 1)])) [(Arr (of_list 0%Q [2] [(-1 # 1);(2 # 1)]))]) = she (Ok [(Arr (of_list 0%Q [2] [(1 # 1);(-2 # 1)]))]).
Proof. vm_compute. reflexivity. Qed.
Example t110 : she (enegative (ar 100 (of_list 0%Q [] [(0 # 1)]) (of_list 0%Q [] [(1 # 4)])) [(Arr (of_list 0%Q [] [(1 # 1)])); (Arr (of_list 0%Q [] [(2 # 1)]))]) = she (Ok [(Arr (of_list 0%Q [] [(-1 # 1)])); (Arr (of_list 0%Q [] [(-2 # 1)]))]).
Proof. vm_compute. reflexivity. Qed.
Example t111 : she (enegative (ar 0 (of_list 0%Q [] [(0 # 1)]) (of_list 0%Q [] [(1 # 4)])) [(Arr (of_list 0%Q [] [(1 # 1)])); (Arr (of_list 0%Q [] [(2 # 1)]))]) = she (Ok [(Ivl (of_list 0%Q [] [(-3 # 2)]) (of_list 0%Q [] [(-1 # 1)]))]).
Proof. vm_compute. reflexivity. Qed.
Example t112 : shr ((x <- pairwise_batched_multiply (of_list 0%Q [] [(2 # 1)]) (of_list 0%Q [] [(3 # 1)]) 0 0 ;; Ok (Arr x))) = shr (Ok (Arr (of_list 0%Q [] [(6 # 1)]))).
Proof. vm_compute. reflexivity. Qed.
Example t113 : shr ((x <- pairwise_batched_multiply (of_list 0%Q [2;2] [(0 # 1);(0 # 1);(0 # 1);(0 # 1)]) (of_list 0%Q [2;2] [(0 # 1);(0 # 1);(0 # 1);(0 # 1)]) 1 1 ;; Ok (Arr x))) = shr (Ok (Arr (of_list 0%Q [2;2;2] [(0 # 1);(0 # 1);(0 # 1);(0 # 1);(0 # 1);(0 # 1);(0 # 1);(0 # 1)]))).
Proof. vm_compute. reflexivity. Qed.
Example t114 : shr ((x <- pairwise_batched_multiply (of_list 0%Q [2;3;5] [(0 # 1);(0 # 1);(0 # 1);(0 # 1);(0 # 1);(0 # 1);(0 # 1);(0 # 1);(0 # 1);(0 # 1);(0 # 1);(0 # 1);(0 # 1);(0 # 1);(0 # 1);(0 # 1);(0 # 1);(0 # 1);(0 # 1);(0 # 1);(0 # 1);(0 # 1);(0 # 1);(0 # 1);(0 # 1);(0 # 1);(0 # 1);(0 # 1);(0 # 1);(0 # 1)]) (of_list 0%Q [1;1;7;11] [(0 # 1);(0 # 1);(0 # 1);(0 # 1);(0 # 1);(0 # 1);(0 # 1);(0 # 1);(0 # 1);(0 # 1);(0 # 1);(0 # 1);(0 # 1);(0 # 1);(0 # 1);(0 # 1);(0 # 1);(0 # 1);(0 # 1);(0 # 1);(0 # 1);(0 # 1);(0 # 1);(0 # 1);(0 # 1);(0 # 1);(0 # 1);(0 # 1);(0 # 1);(0 # 1);(0 # 1);(0 # 1);(0 # 1);(0 # 1);(0 # 1);(0 # 1);(0 # 1);(0 # 1);(0 # 1);(0 # 1);(0 # 1);(0 # 1);(0 # 1);(0 # 1);(0 # 1);(0 # 1);(0 # 1);(0 # 1);(0 # 1);(0 # 1);(0 # 1);(0 # 1);(0 # 1);(0 # 1);(0 # 1);(0 # 1);(0 # 1);(0 # 1);(0 # 1);(0 # 1);(0 # 1);(0 # 1);(0 # 1);(0 # 1);(0 # 1);(0 # 1);(0 # 1);(0 # 1);(0 # 1);(0 # 1);(0 # 1);(0 # 1);(0 # 1);(0 # 1);(0 # 1);(0 # 1);(0 # 1)]) 1 2 ;; Ok (Arr x))) = shr (Ok (Arr (of_list 0%Q [2;3;5;7;11] [(0 # 1);(0 # 1);(0 # 1);(0 # 1);(0 # 1);(0 # 1);(0 # 1);(0 # 1);(0 # 1);(0 # 1);(0 # 1);(0 # 1);(0 # 1);(0 # 1);(0 # 1);(0 # 1);(0 # 1);(0 # 1);(0 # 1);(0 # 1);(0 # 1);(0 # 1);(0 # 1);(0 # 1);(0 # 1);(0 # 1);(0 # 1);(0 # 1);(0 # 1);(0 # 1);(0 # 1);(0 # 1);(0 # 1);(0 # 1);(0 # 1);(0 # 1);(0 # 1);(0 # 1);(0 # 1);(0 # 1);(0 # 1);(0 # 1);(0 # 1);(0 # 1);(0 # 1);(0 # 1);(0 # 1);(0 # 1);(0 # 1);(0 # 1);(0 # 1);(0 # 1);(0 # 1);(0 # 1);(0 # 1);(0 # 1);(0 # 1);(0 # 1);(0 # 1);(0 # 1);(0 # 1);(0 # 1);(0 # 1);(0 # 1);(0 # 1);(0 # 1);(0 # 1);(0 # 1);(0 # 1);(0 # 1);(0 # 1);(0 # 1);(0 # 1);(0 # 1);(0 # 1);(0 # 1);(0 # 1);(0 # 1);(0 # 1);(0 # 1);(0 # 1);(0 # 1);(0 # 1);(0 # 1);(0 # 1);(0 # 1);(0 # 1);(0 # 1);(0 # 1);(0 # 1);(0 # 1);(0 # 1);(0 # 1);(0 # 1);(0 # 1);(0 # 1);(0 # 1);(0 # 1);(0 # 1);(0 # 1);(0 # 1);(0 # 1);(0 # 1);(0 # 1);(0 # 1);(0 # 1);(0 # 1);(0 # 1);(0 # 1);(0 # 1);(0 # 1);(0 # 1);(0 # 1);(0 # 1);(0 # 1);(0 # 1);(0 # 1);(0 # 1);(0 # 1);(0 # 1);(0 # 1);(0 # 1);(0 # 1);(0 # 1);(0 # 1);(0 # 1);(0 # 1);(0 # 1);(0 # 1);(0 # 1);(0 # 1);(0 # 1);(0 # 1);(0 # 1);(0 # 1);(0 # 1);(0 # 1);(0 # 1);(0 # 1);(0 # 1);(0 # 1);(0 # 1);(0 # 1);(0 # 1);(0 # 1);(0 # 1);(0 # 1);(0 # 1);(0 # 1);(0 # 1);(0 # 1);(0 # 1);(0 # 1);(0 # 1);(0 # 1);(0 # 1);(0 # 1);(0 # 1);(0 # 1);(0 # 1);(0 # 1);(0 # 1);(0 # 1);(0 # 1);(0 # 1);(0 # 1);(0 # 1);(0 # 1);(0 # 1);(0 # 1);(0 # 1);(0 # 1);(0 # 1);(0 # 1);(0 # 1);(0 # 1);(0 # 1);(0 # 1);(0 # 1);(0 # 1);(0 # 1);(0 # 1);(0 # 1);(0 # 1);(0 # 1);(0 # 1);(0 # 1);(0 # 1);(0 # 1);(0 # 1);(0 # 1);(0 # 1);(0 # 1);(0 # 1);(0 # 1);(0 # 1);(0 # 1);(0 # 1);(0 # 1);(0 # 1);(0 # 1);(0 # 1);(0 # 1);(0 # 1);(0 # 1);(0 # 1);(0 # 1);(0 # 1);(0 # 1);(0 # 1);(0 # 1);(0 # 1);(0 # 1);(0 # 1);(0 # 1);(0 # 1);(0 # 1);(0 # 1);(0 # 1);(0 # 1);(0 # 1);(0 # 1);(0 # 1);(0 # 1);(0 # 1);(0 # 1);(0 # 1);(0 # 1);(0 # 1);(0 # 1);(0 # 1);(0 # 1);(0 # 1);(0 # 1);(0 # 1);(0 # 1);(0 # 1);(0 # 1);(0 # 1);(0 # 1);(0 # 1);(0 # 1);(0 # 1);(0 # 1);(0 # 1);(0 # 1);(0 # 1);(0 # 1);(0 # 1);(0 # 1);(0 # 1);(0 # 1);(0 # 1);(0 # 1);(0 # 1);(0 # 1);(0 # 1);(0 # 1);(0 # 1);(0 # 1);(0 # 1);(0 # 1);(0 # 1);(0 # 1);(0 # 1);(0 # 1);(0 # 1);(0 # 1);(0 # 1);(0 # 1);(0 # 1);(0 # 1);(0 # 1);(0 # 1);(0 # 1);(0 # 1);(0 # 1);(0 # 1);(0 # 1);(0 # 1);(0 # 1);(0 # 1);(0 # 1);(0 # 1);(0 # 1);(0 # 1);(0 # 1);(0 # 1);(0 # 1);(0 # 1);(0 # 1);(0 # 1);(0 # 1);(0 # 1);(0 # 1);(0 # 1);(0 # 1);(0 # 1);(0 # 1);(0 # 1);(0 # 1);(0 # 1);(0 # 1);(0 # 1);(0 # 1);(0 # 1);(0 # 1);(0 # 1);(0 # 1);(0 # 1);(0 # 1);(0 # 1);(0 # 1);(0 # 1);(0 # 1);(0 # 1);(0 # 1);(0 # 1);(0 # 1);(0 # 1);(0 # 1);(0 # 1);(0 # 1);(0 # 1);(0 # 1);(0 # 1);(0 # 1);(0 # 1);(0 # 1);(0 # 1);(0 # 1);(0 # 1);(0 # 1);(0 # 1);(0 # 1);(0 # 1);(0 # 1);(0 # 1);(0 # 1);(0 # 1);(0 # 1);(0 # 1);(0 # 1);(0 # 1);(0 # 1);(0 # 1);(0 # 1);(0 # 1);(0 # 1);(0 # 1);(0 # 1);(0 # 1);(0 # 1);(0 # 1);(0 # 1);(0 # 1);(0 # 1);(0 # 1);(0 # 1);(0 # 1);(0 # 1);(0 # 1);(0 # 1);(0 # 1);(0 # 1);(0 # 1);(0 # 1);(0 # 1);(0 # 1);(0 # 1);(0 # 1);(0 # 1);(0 # 1);(0 # 1);(0 # 1);(0 # 1);(0 # 1);(0 # 1);(0 # 1);(0 # 1);(0 # 1);(0 # 1);(0 # 1);(0 # 1);(0 # 1);(0 # 1);(0 # 1);(0 # 1);(0 # 1);(0 # 1);(0 # 1);(0 # 1);(0 # 1);(0 # 1);(0 # 1);(0 # 1);(0 # 1);(0 # 1);(0 # 1);(0 # 1);(0 # 1);(0 # 1);(0 # 1);(0 # 1);(0 # 1);(0 # 1);(0 # 1);(0 # 1);(0 # 1);(0 # 1);(0 # 1);(0 # 1);(0 # 1);(0 # 1);(0 # 1);(0 # 1);(0 # 1);(0 # 1);(0 # 1);(0 # 1);(0 # 1);(0 # 1);(0 # 1);(0 # 1);(0 # 1);(0 # 1);(0 # 1);(0 # 1);(0 # 1);(0 # 1);(0 # 1);(0 # 1);(0 # 1);(0 # 1);(0 # 1);(0 # 1);(0 # 1);(0 # 1);(0 # 1);(0 # 1);(0 # 1);(0 # 1);(0 # 1);(0 # 1);(0 # 1);(0 # 1);(0 # 1);(0 # 1);(0 # 1);(0 # 1);(0 # 1);(0 # 1);(0 # 1);(0 # 1);(0 # 1);(0 # 1);(0 # 1);(0 # 1);(0 # 1);(0 # 1);(0 # 1);(0 # 1);(0 # 1);(0 # 1);(0 # 1);(0 # 1);(0 # 1);(0 # 1);(0 # 1);(0 # 1);(0 # 1);(0 # 1);(0 # 1);(0 # 1);(0 # 1);(0 # 1);(0 # 1);(0 # 1);(0 # 1);(0 # 1);(0 # 1);(0 # 1);(0 # 1);(0 # 1);(0 # 1);(0 # 1);(0 # 1);(0 # 1);(0 # 1);(0 # 1);(0 # 1);(0 # 1);(0 # 1);(0 # 1);(0 # 1);(0 # 1);(0 # 1);(0 # 1);(0 # 1);(0 # 1);(0 # 1);(0 # 1);(0 # 1);(0 # 1);(0 # 1);(0 # 1);(0 # 1);(0 # 1);(0 # 1);(0 # 1);(0 # 1);(0 # 1);(0 # 1);(0 # 1);(0 # 1);(0 # 1);(0 # 1);(0 # 1);(0 # 1);(0 # 1);(0 # 1);(0 # 1);(0 # 1);(0 # 1);(0 # 1);(0 # 1);(0 # 1);(0 # 1);(0 # 1);(0 # 1);(0 # 1);(0 # 1);(0 # 1);(0 # 1);(0 # 1);(0 # 1);(0 # 1);(0 # 1);(0 # 1);(0 # 1);(0 # 1);(0 # 1);(0 # 1);(0 # 1);(0 # 1);(0 # 1);(0 # 1);(0 # 1);(0 # 1);(0 # 1);(0 # 1);(0 # 1);(0 # 1);(0 # 1);(0 # 1);(0 # 1);(0 # 1);(0 # 1);(0 # 1);(0 # 1);(0 # 1);(0 # 1);(0 # 1);(0 # 1);(0 # 1);(0 # 1);(0 # 1);(0 # 1);(0 # 1);(0 # 1);(0 # 1);(0 # 1);(0 # 1);(0 # 1);(0 # 1);(0 # 1);(0 # 1);(0 # 1);(0 # 1);(0 # 1);(0 # 1);(0 # 1);(0 # 1);(0 # 1);(0 # 1);(0 # 1);(0 # 1);(0 # 1);(0 # 1);(0 # 1);(0 # 1);(0 # 1);(0 # 1);(0 # 1);(0 # 1);(0 # 1);(0 # 1);(0 # 1);(0 # 1);(0 # 1);(0 # 1);(0 # 1);(0 # 1);(0 # 1);(0 # 1);(0 # 1);(0 # 1);(0 # 1);(0 # 1);(0 # 1);(0 # 1);(0 # 1);(0 # 1);(0 # 1);(0 # 1);(0 # 1);(0 # 1);(0 # 1);(0 # 1);(0 # 1);(0 # 1);(0 # 1);(0 # 1);(0 # 1);(0 # 1);(0 # 1);(0 # 1);(0 # 1);(0 # 1);(0 # 1);(0 # 1);(0 # 1);(0 # 1);(0 # 1);(0 # 1);(0 # 1);(0 # 1);(0 # 1);(0 # 1);(0 # 1);(0 # 1);(0 # 1);(0 # 1);(0 # 1);(0 # 1);(0 # 1);(0 # 1);(0 # 1);(0 # 1);(0 # 1);(0 # 1);(0 # 1);(0 # 1);(0 # 1);(0 # 1);(0 # 1);(0 # 1);(0 # 1);(0 # 1);(0 # 1);(0 # 1);(0 # 1);(0 # 1);(0 # 1);(0 # 1);(0 # 1);(0 # 1);(0 # 1);(0 # 1);(0 # 1);(0 # 1);(0 # 1);(0 # 1);(0 # 1);(0 # 1);(0 # 1);(0 # 1);(0 # 1);(0 # 1);(0 # 1);(0 # 1);(0 # 1);(0 # 1);(0 # 1);(0 # 1);(0 # 1);(0 # 1);(0 # 1);(0 # 1);(0 # 1);(0 # 1);(0 # 1);(0 # 1);(0 # 1);(0 # 1);(0 # 1);(0 # 1);(0 # 1);(0 # 1);(0 # 1);(0 # 1);(0 # 1);(0 # 1);(0 # 1);(0 # 1);(0 # 1);(0 # 1);(0 # 1);(0 # 1);(0 # 1);(0 # 1);(0 # 1);(0 # 1);(0 # 1);(0 # 1);(0 # 1);(0 # 1);(0 # 1);(0 # 1);(0 # 1);(0 # 1);(0 # 1);(0 # 1);(0 # 1);(0 # 1);(0 # 1);(0 # 1);(0 # 1);(0 # 1);(0 # 1);(0 # 1);(0 # 1);(0 # 1);(0 # 1);(0 # 1);(0 # 1);(0 # 1);(0 # 1);(0 # 1);(0 # 1);(0 # 1);(0 # 1);(0 # 1);(0 # 1);(0 # 1);(0 # 1);(0 # 1);(0 # 1);(0 # 1);(0 # 1);(0 # 1);(0 # 1);(0 # 1);(0 # 1);(0 # 1);(0 # 1);(0 # 1);(0 # 1);(0 # 1);(0 # 1);(0 # 1);(0 # 1);(0 # 1);(0 # 1);(0 # 1);(0 # 1);(0 # 1);(0 # 1);(0 # 1);(0 # 1);(0 # 1);(0 # 1);(0 # 1);(0 # 1);(0 # 1);(0 # 1);(0 # 1);(0 # 1);(0 # 1);(0 # 1);(0 # 1);(0 # 1);(0 # 1);(0 # 1);(0 # 1);(0 # 1);(0 # 1);(0 # 1);(0 # 1);(0 # 1);(0 # 1);(0 # 1);(0 # 1);(0 # 1);(0 # 1);(0 # 1);(0 # 1);(0 # 1);(0 # 1);(0 # 1);(0 # 1);(0 # 1);(0 # 1);(0 # 1);(0 # 1);(0 # 1);(0 # 1);(0 # 1);(0 # 1);(0 # 1);(0 # 1);(0 # 1);(0 # 1);(0 # 1);(0 # 1);(0 # 1);(0 # 1);(0 # 1);(0 # 1);(0 # 1);(0 # 1);(0 # 1);(0 # 1);(0 # 1);(0 # 1);(0 # 1);(0 # 1);(0 # 1);(0 # 1);(0 # 1);(0 # 1);(0 # 1);(0 # 1);(0 # 1);(0 # 1);(0 # 1);(0 # 1);(0 # 1);(0 # 1);(0 # 1);(0 # 1);(0 # 1);(0 # 1);(0 # 1);(0 # 1);(0 # 1);(0 # 1);(0 # 1);(0 # 1);(0 # 1);(0 # 1);(0 # 1);(0 # 1);(0 # 1);(0 # 1);(0 # 1);(0 # 1);(0 # 1);(0 # 1);(0 # 1);(0 # 1);(0 # 1);(0 # 1);(0 # 1);(0 # 1);(0 # 1);(0 # 1);(0 # 1);(0 # 1);(0 # 1);(0 # 1);(0 # 1);(0 # 1);(0 # 1);(0 # 1);(0 # 1);(0 # 1);(0 # 1);(0 # 1);(0 # 1);(0 # 1);(0 # 1);(0 # 1);(0 # 1);(0 # 1);(0 # 1);(0 # 1);(0 # 1);(0 # 1);(0 # 1);(0 # 1);(0 # 1);(0 # 1);(0 # 1);(0 # 1);(0 # 1);(0 # 1);(0 # 1);(0 # 1);(0 # 1);(0 # 1);(0 # 1);(0 # 1);(0 # 1);(0 # 1);(0 # 1);(0 # 1);(0 # 1);(0 # 1);(0 # 1);(0 # 1);(0 # 1);(0 # 1);(0 # 1);(0 # 1);(0 # 1);(0 # 1);(0 # 1);(0 # 1);(0 # 1);(0 # 1);(0 # 1);(0 # 1);(0 # 1);(0 # 1);(0 # 1);(0 # 1);(0 # 1);(0 # 1);(0 # 1);(0 # 1);(0 # 1);(0 # 1);(0 # 1);(0 # 1);(0 # 1);(0 # 1);(0 # 1);(0 # 1);(0 # 1);(0 # 1);(0 # 1);(0 # 1);(0 # 1);(0 # 1);(0 # 1);(0 # 1);(0 # 1);(0 # 1);(0 # 1);(0 # 1);(0 # 1);(0 # 1);(0 # 1);(0 # 1);(0 # 1);(0 # 1);(0 # 1);(0 # 1);(0 # 1);(0 # 1);(0 # 1);(0 # 1);(0 # 1);(0 # 1);(0 # 1);(0 # 1);(0 # 1);(0 # 1);(0 # 1);(0 # 1);(0 # 1);(0 # 1);(0 # 1);(0 # 1);(0 # 1);(0 # 1);(0 # 1);(0 # 1);(0 # 1);(0 # 1);(0 # 1);(0 # 1);(0 # 1);(0 # 1);(0 # 1);(0 # 1);(0 # 1);(0 # 1);(0 # 1);(0 # 1);(0 # 1);(0 # 1);(0 # 1);(0 # 1);(0 # 1);(0 # 1);(0 # 1);(0 # 1);(0 # 1);(0 # 1);(0 # 1);(0 # 1);(0 # 1);(0 # 1);(0 # 1);(0 # 1);(0 # 1);(0 # 1);(0 # 1);(0 # 1);(0 # 1);(0 # 1);(0 # 1);(0 # 1);(0 # 1);(0 # 1);(0 # 1);(0 # 1);(0 # 1);(0 # 1);(0 # 1);(0 # 1);(0 # 1);(0 # 1);(0 # 1);(0 # 1);(0 # 1);(0 # 1);(0 # 1);(0 # 1);(0 # 1);(0 # 1);(0 # 1);(0 # 1);(0 # 1);(0 # 1);(0 # 1);(0 # 1);(0 # 1);(0 # 1);(0 # 1);(0 # 1);(0 # 1);(0 # 1);(0 # 1);(0 # 1);(0 # 1);(0 # 1);(0 # 1);(0 # 1);(0 # 1);(0 # 1);(0 # 1);(0 # 1);(0 # 1);(0 # 1);(0 # 1);(0 # 1);(0 # 1);(0 # 1);(0 # 1);(0 # 1);(0 # 1);(0 # 1);(0 # 1);(0 # 1);(0 # 1);(0 # 1);(0 # 1);(0 # 1);(0 # 1);(0 # 1);(0 # 1);(0 # 1);(0 # 1);(0 # 1);(0 # 1);(0 # 1);(0 # 1);(0 # 1);(0 # 1);(0 # 1);(0 # 1);(0 # 1);(0 # 1);(0 # 1);(0 # 1);(0 # 1);(0 # 1);(0 # 1);(0 # 1);(0 # 1);(0 # 1);(0 # 1);(0 # 1);(0 # 1);(0 # 1);(0 # 1);(0 # 1);(0 # 1);(0 # 1);(0 # 1);(0 # 1);(0 # 1);(0 # 1);(0 # 1);(0 # 1);(0 # 1);(0 # 1);(0 # 1);(0 # 1);(0 # 1);(0 # 1);(0 # 1);(0 # 1);(0 # 1);(0 # 1);(0 # 1);(0 # 1);(0 # 1);(0 # 1);(0 # 1);(0 # 1);(0 # 1);(0 # 1);(0 # 1);(0 # 1);(0 # 1);(0 # 1);(0 # 1);(0 # 1);(0 # 1);(0 # 1);(0 # 1);(0 # 1);(0 # 1);(0 # 1);(0 # 1);(0 # 1);(0 # 1);(0 # 1);(0 # 1);(0 # 1);(0 # 1);(0 # 1);(0 # 1);(0 # 1);(0 # 1);(0 # 1);(0 # 1);(0 # 1);(0 # 1);(0 # 1);(0 # 1);(0 # 1);(0 # 1);(0 # 1);(0 # 1);(0 # 1);(0 # 1);(0 # 1);(0 # 1);(0 # 1);(0 # 1);(0 # 1);(0 # 1);(0 # 1);(0 # 1);(0 # 1);(0 # 1);(0 # 1);(0 # 1);(0 # 1);(0 # 1);(0 # 1);(0 # 1);(0 # 1);(0 # 1);(0 # 1);(0 # 1);(0 # 1);(0 # 1);(0 # 1);(0 # 1);(0 # 1);(0 # 1);(0 # 1);(0 # 1);(0 # 1);(0 # 1);(0 # 1);(0 # 1);(0 # 1);(0 # 1);(0 # 1);(0 # 1);(0 # 1);(0 # 1);(0 # 1);(0 # 1);(0 # 1);(0 # 1);(0 # 1);(0 # 1);(0 # 1);(0 # 1);(0 # 1);(0 # 1);(0 # 1);(0 # 1);(0 # 1);(0 # 1);(0 # 1);(0 # 1);(0 # 1);(0 # 1);(0 # 1);(0 # 1);(0 # 1);(0 # 1);(0 # 1);(0 # 1);(0 # 1);(0 # 1);(0 # 1);(0 # 1);(0 # 1);(0 # 1);(0 # 1);(0 # 1);(0 # 1);(0 # 1);(0 # 1);(0 # 1);(0 # 1);(0 # 1);(0 # 1);(0 # 1);(0 # 1);(0 # 1);(0 # 1);(0 # 1);(0 # 1);(0 # 1);(0 # 1);(0 # 1);(0 # 1);(0 # 1);(0 # 1);(0 # 1);(0 # 1);(0 # 1);(0 # 1);(0 # 1);(0 # 1);(0 # 1);(0 # 1);(0 # 1);(0 # 1);(0 # 1);(0 # 1);(0 # 1);(0 # 1);(0 # 1);(0 # 1);(0 # 1);(0 # 1);(0 # 1);(0 # 1);(0 # 1);(0 # 1);(0 # 1);(0 # 1);(0 # 1);(0 # 1);(0 # 1);(0 # 1);(0 # 1);(0 # 1);(0 # 1);(0 # 1);(0 # 1);(0 # 1);(0 # 1);(0 # 1);(0 # 1);(0 # 1);(0 # 1);(0 # 1);(0 # 1);(0 # 1);(0 # 1);(0 # 1);(0 # 1);(0 # 1);(0 # 1);(0 # 1);(0 # 1);(0 # 1);(0 # 1);(0 # 1);(0 # 1);(0 # 1);(0 # 1);(0 # 1);(0 # 1);(0 # 1);(0 # 1);(0 # 1);(0 # 1);(0 # 1);(0 # 1);(0 # 1);(0 # 1);(0 # 1);(0 # 1);(0 # 1);(0 # 1);(0 # 1);(0 # 1);(0 # 1);(0 # 1);(0 # 1);(0 # 1);(0 # 1);(0 # 1);(0 # 1);(0 # 1);(0 # 1);(0 # 1);(0 # 1);(0 # 1);(0 # 1);(0 # 1);(0 # 1);(0 # 1);(0 # 1);(0 # 1);(0 # 1);(0 # 1);(0 # 1);(0 # 1);(0 # 1);(0 # 1);(0 # 1);(0 # 1);(0 # 1);(0 # 1);(0 # 1);(0 # 1);(0 # 1);(0 # 1);(0 # 1);(0 # 1);(0 # 1);(0 # 1);(0 # 1);(0 # 1);(0 # 1);(0 # 1);(0 # 1);(0 # 1);(0 # 1);(0 # 1);(0 # 1);(0 # 1);(0 # 1);(0 # 1);(0 # 1);(0 # 1);(0 # 1);(0 # 1);(0 # 1);(0 # 1);(0 # 1);(0 # 1);(0 # 1);(0 # 1);(0 # 1);(0 # 1);(0 # 1);(0 # 1);(0 # 1);(0 # 1);(0 # 1);(0 # 1);(0 # 1);(0 # 1);(0 # 1);(0 # 1);(0 # 1);(0 # 1);(0 # 1);(0 # 1);(0 # 1);(0 # 1);(0 # 1);(0 # 1);(0 # 1);(0 # 1);(0 # 1);(0 # 1);(0 # 1);(0 # 1);(0 # 1);(0 # 1);(0 # 1);(0 # 1);(0 # 1);(0 # 1);(0 # 1);(0 # 1);(0 # 1);(0 # 1);(0 # 1);(0 # 1);(0 # 1);(0 # 1);(0 # 1);(0 # 1);(0 # 1);(0 # 1);(0 # 1);(0 # 1);(0 # 1);(0 # 1);(0 # 1);(0 # 1);(0 # 1);(0 # 1);(0 # 1);(0 # 1);(0 # 1);(0 # 1);(0 # 1);(0 # 1);(0 # 1);(0 # 1);(0 # 1);(0 # 1);(0 # 1);(0 # 1);(0 # 1);(0 # 1);(0 # 1);(0 # 1);(0 # 1);(0 # 1);(0 # 1);(0 # 1);(0 # 1);(0 # 1);(0 # 1);(0 # 1);(0 # 1);(0 # 1);(0 # 1);(0 # 1);(0 # 1);(0 # 1);(0 # 1);(0 # 1);(0 # 1);(0 # 1);(0 # 1);(0 # 1);(0 # 1);(0 # 1);(0 # 1);(0 # 1);(0 # 1);(0 # 1);(0 # 1);(0 # 1);(0 # 1);(0 # 1);(0 # 1);(0 # 1);(0 # 1);(0 # 1);(0 # 1);(0 # 1);(0 # 1);(0 # 1);(0 # 1);(0 # 1);(0 # 1);(0 # 1);(0 # 1);(0 # 1);(0 # 1);(0 # 1);(0 # 1);(0 # 1);(0 # 1);(0 # 1);(0 # 1);(0 # 1);(0 # 1);(0 # 1);(0 # 1);(0 # 1);(0 # 1);(0 # 1);(0 # 1);(0 # 1);(0 # 1);(0 # 1);(0 # 1);(0 # 1);(0 # 1);(0 # 1);(0 # 1);(0 # 1);(0 # 1);(0 # 1);(0 # 1);(0 # 1);(0 # 1);(0 # 1);(0 # 1);(0 # 1);(0 # 1);(0 # 1);(0 # 1);(0 # 1);(0 # 1);(0 # 1);(0 # 1);(0 # 1);(0 # 1);(0 # 1);(0 # 1);(0 # 1);(0 # 1);(0 # 1);(0 # 1);(0 # 1);(0 # 1);(0 # 1);(0 # 1);(0 # 1);(0 # 1);(0 # 1);(0 # 1);(0 # 1);(0 # 1);(0 # 1);(0 # 1);(0 # 1);(0 # 1);(0 # 1);(0 # 1);(0 # 1);(0 # 1);(0 # 1);(0 # 1);(0 # 1);(0 # 1);(0 # 1);(0 # 1);(0 # 1);(0 # 1);(0 # 1);(0 # 1);(0 # 1);(0 # 1);(0 # 1);(0 # 1);(0 # 1);(0 # 1);(0 # 1);(0 # 1);(0 # 1);(0 # 1);(0 # 1);(0 # 1);(0 # 1);(0 # 1);(0 # 1);(0 # 1);(0 # 1);(0 # 1);(0 # 1);(0 # 1);(0 # 1);(0 # 1);(0 # 1);(0 # 1);(0 # 1);(0 # 1);(0 # 1);(0 # 1);(0 # 1);(0 # 1);(0 # 1);(0 # 1);(0 # 1);(0 # 1);(0 # 1);(0 # 1);(0 # 1);(0 # 1);(0 # 1);(0 # 1);(0 # 1);(0 # 1);(0 # 1);(0 # 1);(0 # 1);(0 # 1);(0 # 1);(0 # 1);(0 # 1);(0 # 1);(0 # 1);(0 # 1);(0 # 1);(0 # 1);(0 # 1);(0 # 1);(0 # 1);(0 # 1);(0 # 1);(0 # 1);(0 # 1);(0 # 1);(0 # 1);(0 # 1);(0 # 1);(0 # 1);(0 # 1);(0 # 1);(0 # 1);(0 # 1);(0 # 1);(0 # 1);(0 # 1);(0 # 1);(0 # 1);(0 # 1);(0 # 1);(0 # 1);(0 # 1);(0 # 1);(0 # 1);(0 # 1);(0 # 1);(0 # 1);(0 # 1);(0 # 1);(0 # 1);(0 # 1);(0 # 1);(0 # 1);(0 # 1);(0 # 1);(0 # 1);(0 # 1);(0 # 1);(0 # 1);(0 # 1);(0 # 1);(0 # 1);(0 # 1);(0 # 1);(0 # 1);(0 # 1);(0 # 1);(0 # 1);(0 # 1);(0 # 1);(0 # 1);(0 # 1);(0 # 1);(0 # 1);(0 # 1);(0 # 1);(0 # 1);(0 # 1);(0 # 1);(0 # 1);(0 # 1);(0 # 1);(0 # 1);(0 # 1);(0 # 1);(0 # 1);(0 # 1);(0 # 1);(0 # 1);(0 # 1);(0 # 1);(0 # 1);(0 # 1);(0 # 1);(0 # 1);(0 # 1);(0 # 1);(0 # 1);(0 # 1);(0 # 1);(0 # 1);(0 # 1);(0 # 1);(0 # 1);(0 # 1);(0 # 1);(0 # 1);(0 # 1);(0 # 1);(0 # 1);(0 # 1);(0 # 1);(0 # 1);(0 # 1);(0 # 1);(0 # 1);(0 # 1);(0 # 1);(0 # 1);(0 # 1);(0 # 1);(0 # 1);(0 # 1);(0 # 1);(0 # 1);(0 # 1);(0 # 1);(0 # 1);(0 # 1);(0 # 1);(0 # 1);(0 # 1);(0 # 1);(0 # 1);(0 # 1);(0 # 1);(0 # 1);(0 # 1);(0 # 1);(0 # 1);(0 # 1);(0 # 1);(0 # 1);(0 # 1);(0 # 1);(0 # 1);(0 # 1);(0 # 1);(0 # 1);(0 # 1);(0 # 1);(0 # 1);(0 # 1);(0 # 1);(0 # 1);(0 # 1);(0 # 1);(0 # 1);(0 # 1);(0 # 1);(0 # 1);(0 # 1);(0 # 1);(0 # 1);(0 # 1);(0 # 1);(0 # 1);(0 # 1);(0 # 1);(0 # 1);(0 # 1);(0 # 1);(0 # 1);(0 # 1);(0 # 1);(0 # 1);(0 # 1);(0 # 1);(0 # 1);(0 # 1);(0 # 1);(0 # 1);(0 # 1);(0 # 1);(0 # 1);(0 # 1);(0 # 1);(0 # 1);(0 # 1);(0 # 1);(0 # 1);(0 # 1);(0 # 1);(0 # 1);(0 # 1);(0 # 1);(0 # 1);(0 # 1);(0 # 1);(0 # 1);(0 # 1);(0 # 1);(0 # 1);(0 # 1);(0 # 1);(0 # 1);(0 # 1);(0 # 1);(0 # 1);(0 # 1);(0 # 1);(0 # 1);(0 # 1);(0 # 1);(0 # 1);(0 # 1);(0 # 1);(0 # 1);(0 # 1);(0 # 1);(0 # 1);(0 # 1);(0 # 1);(0 # 1);(0 # 1);(0 # 1);(0 # 1);(0 # 1);(0 # 1);(0 # 1);(0 # 1);(0 # 1);(0 # 1);(0 # 1);(0 # 1);(0 # 1);(0 # 1);(0 # 1);(0 # 1);(0 # 1);(0 # 1);(0 # 1);(0 # 1);(0 # 1);(0 # 1);(0 # 1);(0 # 1);(0 # 1);(0 # 1);(0 # 1);(0 # 1);(0 # 1);(0 # 1);(0 # 1);(0 # 1);(0 # 1);(0 # 1);(0 # 1);(0 # 1);(0 # 1);(0 # 1);(0 # 1);(0 # 1);(0 # 1);(0 # 1);(0 # 1);(0 # 1);(0 # 1);(0 # 1);(0 # 1);(0 # 1);(0 # 1);(0 # 1);(0 # 1);(0 # 1);(0 # 1);(0 # 1);(0 # 1);(0 # 1);(0 # 1);(0 # 1);(0 # 1);(0 # 1);(0 # 1);(0 # 1);(0 # 1);(0 # 1);(0 # 1);(0 # 1);(0 # 1);(0 # 1);(0 # 1);(0 # 1);(0 # 1);(0 # 1);(0 # 1);(0 # 1);(0 # 1);(0 # 1);(0 # 1);(0 # 1);(0 # 1);(0 # 1);(0 # 1);(0 # 1);(0 # 1);(0 # 1);(0 # 1);(0 # 1);(0 # 1);(0 # 1);(0 # 1);(0 # 1);(0 # 1);(0 # 1);(0 # 1);(0 # 1);(0 # 1);(0 # 1);(0 # 1);(0 # 1);(0 # 1);(0 # 1);(0 # 1);(0 # 1);(0 # 1);(0 # 1);(0 # 1);(0 # 1);(0 # 1);(0 # 1);(0 # 1);(0 # 1);(0 # 1);(0 # 1);(0 # 1);(0 # 1);(0 # 1);(0 # 1);(0 # 1);(0 # 1);(0 # 1);(0 # 1);(0 # 1);(0 # 1);(0 # 1);(0 # 1);(0 # 1);(0 # 1);(0 # 1);(0 # 1);(0 # 1);(0 # 1);(0 # 1);(0 # 1);(0 # 1);(0 # 1);(0 # 1);(0 # 1);(0 # 1);(0 # 1);(0 # 1);(0 # 1);(0 # 1);(0 # 1);(0 # 1);(0 # 1);(0 # 1);(0 # 1);(0 # 1);(0 # 1);(0 # 1);(0 # 1);(0 # 1);(0 # 1);(0 # 1);(0 # 1);(0 # 1);(0 # 1);(0 # 1);(0 # 1);(0 # 1);(0 # 1);(0 # 1);(0 # 1);(0 # 1);(0 # 1);(0 # 1);(0 # 1);(0 # 1);(0 # 1);(0 # 1);(0 # 1);(0 # 1);(0 # 1);(0 # 1);(0 # 1);(0 # 1);(0 # 1);(0 # 1);(0 # 1);(0 # 1);(0 # 1);(0 # 1);(0 # 1);(0 # 1);(0 # 1);(0 # 1);(0 # 1);(0 # 1);(0 # 1);(0 # 1);(0 # 1);(0 # 1);(0 # 1);(0 # 1);(0 # 1);(0 # 1);(0 # 1);(0 # 1);(0 # 1);(0 # 1);(0 # 1);(0 # 1);(0 # 1);(0 # 1);(0 # 1);(0 # 1);(0 # 1);(0 # 1);(0 # 1);(0 # 1);(0 # 1);(0 # 1);(0 # 1);(0 # 1);(0 # 1);(0 # 1);(0 # 1);(0 # 1);(0 # 1);(0 # 1);(0 # 1);(0 # 1);(0 # 1);(0 # 1);(0 # 1);(0 # 1);(0 # 1);(0 # 1);(0 # 1);(0 # 1);(0 # 1);(0 # 1);(0 # 1);(0 # 1);(0 # 1);(0 # 1);(0 # 1);(0 # 1);(0 # 1);(0 # 1);(0 # 1);(0 # 1);(0 # 1);(0 # 1);(0 # 1);(0 # 1);(0 # 1);(0 # 1);(0 # 1);(0 # 1);(0 # 1);(0 # 1);(0 # 1);(0 # 1);(0 # 1);(0 # 1);(0 # 1);(0 # 1);(0 # 1);(0 # 1);(0 # 1);(0 # 1);(0 # 1);(0 # 1);(0 # 1);(0 # 1);(0 # 1);(0 # 1);(0 # 1);(0 # 1);(0 # 1);(0 # 1);(0 # 1);(0 # 1);(0 # 1);(0 # 1);(0 # 1);(0 # 1);(0 # 1);(0 # 1);(0 # 1);(0 # 1);(0 # 1);(0 # 1);(0 # 1);(0 # 1);(0 # 1);(0 # 1);(0 # 1);(0 # 1);(0 # 1);(0 # 1);(0 # 1);(0 # 1);(0 # 1);(0 # 1);(0 # 1);(0 # 1);(0 # 1);(0 # 1);(0 # 1);(0 # 1);(0 # 1);(0 # 1);(0 # 1);(0 # 1);(0 # 1);(0 # 1);(0 # 1);(0 # 1);(0 # 1);(0 # 1);(0 # 1);(0 # 1);(0 # 1);(0 # 1);(0 # 1);(0 # 1);(0 # 1);(0 # 1);(0 # 1);(0 # 1);(0 # 1);(0 # 1);(0 # 1);(0 # 1);(0 # 1);(0 # 1);(0 # 1);(0 # 1);(0 # 1);(0 # 1);(0 # 1);(0 # 1);(0 # 1);(0 # 1);(0 # 1);(0 # 1);(0 # 1);(0 # 1);(0 # 1);(0 # 1);(0 # 1);(0 # 1);(0 # 1);(0 # 1);(0 # 1);(0 # 1);(0 # 1);(0 # 1);(0 # 1);(0 # 1);(0 # 1);(0 # 1);(0 # 1);(0 # 1);(0 # 1);(0 # 1);(0 # 1);(0 # 1);(0 # 1);(0 # 1);(0 # 1);(0 # 1);(0 # 1);(0 # 1);(0 # 1);(0 # 1);(0 # 1);(0 # 1);(0 # 1);(0 # 1);(0 # 1);(0 # 1);(0 # 1);(0 # 1);(0 # 1);(0 # 1);(0 # 1);(0 # 1);(0 # 1);(0 # 1);(0 # 1);(0 # 1);(0 # 1);(0 # 1);(0 # 1);(0 # 1);(0 # 1);(0 # 1);(0 # 1);(0 # 1);(0 # 1);(0 # 1);(0 # 1);(0 # 1);(0 # 1);(0 # 1);(0 # 1);(0 # 1);(0 # 1);(0 # 1);(0 # 1);(0 # 1);(0 # 1);(0 # 1);(0 # 1);(0 # 1);(0 # 1);(0 # 1);(0 # 1);(0 # 1);(0 # 1);(0 # 1);(0 # 1);(0 # 1);(0 # 1);(0 # 1);(0 # 1);(0 # 1);(0 # 1);(0 # 1);(0 # 1);(0 # 1);(0 # 1);(0 # 1);(0 # 1);(0 # 1);(0 # 1);(0 # 1);(0 # 1);(0 # 1);(0 # 1);(0 # 1);(0 # 1);(0 # 1);(0 # 1);(0 # 1);(0 # 1);(0 # 1);(0 # 1);(0 # 1);(0 # 1);(0 # 1);(0 # 1);(0 # 1);(0 # 1);(0 # 1);(0 # 1);(0 # 1);(0 # 1);(0 # 1);(0 # 1);(0 # 1);(0 # 1);(0 # 1);(0 # 1);(0 # 1);(0 # 1);(0 # 1);(0 # 1);(0 # 1);(0 # 1);(0 # 1);(0 # 1);(0 # 1);(0 # 1);(0 # 1);(0 # 1);(0 # 1);(0 # 1);(0 # 1);(0 # 1);(0 # 1);(0 # 1);(0 # 1);(0 # 1);(0 # 1);(0 # 1);(0 # 1);(0 # 1);(0 # 1);(0 # 1);(0 # 1);(0 # 1)]))).
Proof. vm_compute. reflexivity. Qed.
Example t115 : she (epower_nat (ar 100 (of_list 0%Q [] [(0 # 1)]) (of_list 0%Q [] [(1 # 1)])) [(Arr (of_list 0%Q [] [(2 # 1)]))] 0) = she (Ok [(Arr (of_list 0%Q [] [(1 # 1)]))]).
Proof. vm_compute. reflexivity. Qed.
Example t116 : she (epower_nat (ar 100 (of_list 0%Q [] [(0 # 1)]) (of_list 0%Q [] [(1 # 1)])) [(Arr (of_list 0%Q [] [(2 # 1)]))] 3) = she (Ok [(Arr (of_list 0%Q [] [(8 # 1)]))]).
Proof. vm_compute. reflexivity. Qed.
Example t117 : she (epower_nat (ar 2 (of_list 0%Q [3] [(0 # 1);(0 # 1);(0 # 1)]) (of_list 0%Q [3] [(1 # 1);(2 # 1);(3 # 1)])) [(Arr (of_list 0%Q [3] [(0 # 1);(0 # 1);(0 # 1)])); (Arr (of_list 0%Q [3;3] [(1 # 1);(0 # 1);(0 # 1);(0 # 1);(1 # 1);(0 # 1);(0 # 1);(0 # 1);(1 # 1)]))] 4) = she (Ok [(Arr (of_list 0%Q [3] [(0 # 1);(0 # 1);(0 # 1)])); (Arr (of_list 0%Q [3;3] [(0 # 1);(0 # 1);(0 # 1);(0 # 1);(0 # 1);(0 # 1);(0 # 1);(0 # 1);(0 # 1)])); (Ivl (of_list 0%Q [3;3;3] [(0 # 1);(0 # 1);(0 # 1);(0 # 1);(0 # 1);(0 # 1);(0 # 1);(0 # 1);(0 # 1);(0 # 1);(0 # 1);(0 # 1);(0 # 1);(0 # 1);(0 # 1);(0 # 1);(0 # 1);(0 # 1);(0 # 1);(0 # 1);(0 # 1);(0 # 1);(0 # 1);(0 # 1);(0 # 1);(0 # 1);(0 # 1)]) (of_list 0%Q [3;3;3] [(1 # 1);(0 # 1);(0 # 1);(0 # 1);(0 # 1);(0 # 1);(0 # 1);(0 # 1);(0 # 1);(0 # 1);(0 # 1);(0 # 1);(0 # 1);(4 # 1);(0 # 1);(0 # 1);(0 # 1);(0 # 1);(0 # 1);(0 # 1);(0 # 1);(0 # 1);(0 # 1);(0 # 1);(0 # 1);(0 # 1);(9 # 1)]))]).
Proof. vm_compute. reflexivity. Qed.
Example t118 : she (epower_nat (ar 100 (of_list 0%Q [3] [(0 # 1);(0 # 1);(0 # 1)]) (of_list 0%Q [3] [(1 # 1);(1 # 1);(1 # 1)])) [(Arr (of_list 0%Q [3] [(1 # 2);(1 # 2);(1 # 2)]))] 0) = she (Ok [(Arr (of_list 0%Q [3] [(1 # 1);(1 # 1);(1 # 1)]))]).
Proof. vm_compute. reflexivity. Qed.
Example t119 : she (epower_nat (ar 100 (of_list 0%Q [2] [(0 # 1);(0 # 1)]) (of_list 0%Q [2] [(1 # 1);(1 # 1)])) [(Arr (of_list 0%Q [3] [(1 # 1);(1 # 1);(1 # 1)])); (Arr (of_list 0%Q [3;2] [(1 # 1);(1 # 1);(1 # 1);(1 # 1);(1 # 1);(1 # 1)]))] 0) = she (Ok [(Arr (of_list 0%Q [3] [(1 # 1);(1 # 1);(1 # 1)]))]).
Proof. vm_compute. reflexivity. Qed.
Example t120 : she (epower_nat (ar 100 (of_list 0%Q [2] [(0 # 1);(0 # 1)]) (of_list 0%Q [2] [(1 # 1);(1 # 1)])) [(Arr (of_list 0%Q [3] [(1 # 1);(1 # 1);(1 # 1)])); (Arr (of_list 0%Q [3;2] [(1 # 1);(1 # 1);(1 # 1);(1 # 1);(1 # 1);(1 # 1)]))] 1) = she (Ok [(Arr (of_list 0%Q [3] [(1 # 1);(1 # 1);(1 # 1)])); (Arr (of_list 0%Q [3;2] [(1 # 1);(1 # 1);(1 # 1);(1 # 1);(1 # 1);(1 # 1)]))]).
Proof. vm_compute. reflexivity. Qed.
Example t121 : she (epower_nat (ar 100 (of_list 0%Q [2] [(0 # 1);(0 # 1)]) (of_list 0%Q [2] [(1 # 1);(1 # 1)])) [(Arr (of_list 0%Q [3] [(1 # 1);(1 # 1);(1 # 1)])); (Arr (of_list 0%Q [3;2] [(1 # 1);(1 # 1);(1 # 1);(1 # 1);(1 # 1);(1 # 1)]))] 2) = she (Ok [(Arr (of_list 0%Q [3] [(1 # 1);(1 # 1);(1 # 1)])); (Arr (of_list 0%Q [3;2] [(2 # 1);(2 # 1);(2 # 1);(2 # 1);(2 # 1);(2 # 1)])); (Arr (of_list 0%Q [3;2;2] [(1 # 1);(1 # 1);(1 # 1);(1 # 1);(1 # 1);(1 # 1);(1 # 1);(1 # 1);(1 # 1);(1 # 1);(1 # 1);(1 # 1)]))]).
Proof. vm_compute. reflexivity. Qed.
Example t122 : she (esubtract (ar 100 (of_list 0%Q [] [(0 # 1)]) (of_list 0%Q [] [(1 # 2)])) [(Arr (of_list 0%Q [] [(1 # 1)])); (Arr (of_list 0%Q [] [(2 # 1)])); (Arr (of_list 0%Q [] [(3 # 1)]))] [(Arr (of_list 0%Q [] [(10 # 1)])); (Arr (of_list 0%Q [] [(20 # 1)]))]) = she (Ok [(Arr (of_list 0%Q [] [(-9 # 1)])); (Arr (of_list 0%Q [] [(-18 # 1)])); (Arr (of_list 0%Q [] [(3 # 1)]))]).
Proof. vm_compute. reflexivity. Qed.
Example t123 : she (esubtract (ar 1 (of_list 0%Q [] [(0 # 1)]) (of_list 0%Q [] [(1 # 2)])) [(Arr (of_list 0%Q [] [(1 # 1)])); (Arr (of_list 0%Q [] [(2 # 1)])); (Arr (of_list 0%Q [] [(3 # 1)]))] [(Arr (of_list 0%Q [] [(10 # 1)])); (Arr (of_list 0%Q [] [(20 # 1)]))]) = she (Ok [(Arr (of_list 0%Q [] [(-9 # 1)])); (Ivl (of_list 0%Q [] [(-18 # 1)]) (of_list 0%Q [] [(-33 # 2)]))]).
Proof. vm_compute. reflexivity. Qed.
Example t124 : shr (elementwise_term_product_coefficient 0 (Arr (of_list 0%Q [] [(2 # 1)])) (Arr (of_list 0%Q [] [(3 # 1)])) 5 7) = shr (Ok (Arr (of_list 0%Q [] [(6 # 1)]))).
Proof. vm_compute. reflexivity. Qed.
Example t125 : shr (elementwise_term_product_coefficient 0 (Ivl (of_list 0%Q [] [(-2 # 1)]) (of_list 0%Q [] [(3 # 1)])) (Ivl (of_list 0%Q [] [(-5 # 1)]) (of_list 0%Q [] [(7 # 1)])) 11 13) = shr (Ok (Ivl (of_list 0%Q [] [(-15 # 1)]) (of_list 0%Q [] [(21 # 1)]))).
Proof. vm_compute. reflexivity. Qed.
Example t126 : shr (elementwise_term_product_coefficient 1 (Arr (of_list 0%Q [2] [(2 # 1);(3 # 1)])) (Arr (of_list 0%Q [2;3] [(5 # 1);(0 # 1);(0 # 1);(0 # 1);(0 # 1);(7 # 1)])) 0 1) = shr (Ok (Arr (of_list 0%Q [2;3] [(10 # 1);(0 # 1);(0 # 1);(0 # 1);(0 # 1);(21 # 1)]))).
Proof. vm_compute. reflexivity. Qed.
Example t127 : shr (elementwise_term_power_coefficient 0 (Arr (of_list 0%Q [] [(2 # 1)])) 3 5) = shr (Ok (Arr (of_list 0%Q [] [(32 # 1)]))).
Proof. vm_compute. reflexivity. Qed.
Example t128 : shr (elementwise_term_power_coefficient 0 (Ivl (of_list 0%Q [] [(-1 # 2)]) (of_list 0%Q [] [(1 # 2)])) 3 2) = shr (Ok (Ivl (of_list 0%Q [] [(0 # 1)]) (of_list 0%Q [] [(1 # 4)]))).
Proof. vm_compute. reflexivity. Qed.
Example t129 : shr (elementwise_term_power_coefficient 1 (Ivl (of_list 0%Q [2] [(-1 # 2);(0 # 1)]) (of_list 0%Q [2] [(1 # 2);(0 # 1)])) 1 2) = shr (Ok (Ivl (of_list 0%Q [2;2] [(0 # 1);(0 # 1);(0 # 1);(0 # 1)]) (of_list 0%Q [2;2] [(1 # 4);(0 # 1);(0 # 1);(0 # 1)]))).
Proof. vm_compute. reflexivity. Qed.
Example t130 : shr (elementwise_term_power_coefficient 5 (Arr (of_list 0%Q [2] [(2 # 1);(3 # 1)])) 0 2) = shr (Ok (Arr (of_list 0%Q [2] [(4 # 1);(9 # 1)]))).
Proof. vm_compute. reflexivity. Qed.
Example t131 : shr ((x <- left_broadcasting_multiply (of_list 0%Q [] [(2 # 1)]) (of_list 0%Q [] [(3 # 1)]) ;; Ok (Arr x))) = shr (Ok (Arr (of_list 0%Q [] [(6 # 1)]))).
Proof. vm_compute. reflexivity. Qed.
Example t132 : shr ((x <- left_broadcasting_multiply (of_list 0%Q [2] [(5 # 1);(5 # 1)]) (of_list 0%Q [2;3] [(7 # 1);(7 # 1);(7 # 1);(7 # 1);(7 # 1);(7 # 1)]) ;; Ok (Arr x))) = shr (Ok (Arr (of_list 0%Q [2;3] [(35 # 1);(35 # 1);(35 # 1);(35 # 1);(35 # 1);(35 # 1)]))).
Proof. vm_compute. reflexivity. Qed.
