(** Concrete cases for C70. *)
From Coq Require Import Reals Lra Psatz QArith Qreals.
From Verif Require Import Base Tensor IntervalArith TensorLemmas Spec GraphEditor GraphSpec JaxTable JaxTableProofs JaxBound JaxSpec PropTable ExamplesJax TestsJax Notebooks NotebookSpec ExamplesNotebooks DegreeSpec.

(** * Over Q *)
Open Scope nat_scope.
(** f(x) = (x**3 - 2 x) / 4 + x**0 * 5 *)
Definition cubic {T} `{Num T} : program T :=
  Program (@Graph jvar (prim T) (list jvar) [Var 0] [Var 7]
     [Op (integer_pow_p 3) [Var 0] [Var 1]; Op mul_p [Lit 2; Var 0] [Var 2]; Op sub_p [Var 1; Var 2] [Var 3]; Op div_p [Var 3; Lit 4] [Var 4];
      Op (integer_pow_p 0) [Var 0] [Var 5]; Op mul_p [Var 5; Lit 5] [Var 6]; Op add_p [Var 4; Var 6] [Var 7]] [])
     (fun n => tscalar (nofZ (Z.of_nat n))).
Example cubic_polynomial : polynomial_program (@cubic Q _) 3.
Proof. do 3 eexists. split; [reflexivity|]. split; [reflexivity|]. split; reflexivity. Qed.
(** A generator for 1/x that is correct at a constant. *)
Definition gsI : generators Q := Generators (gen_elem gsQ) (fun y x0 _ d => let r := tmap (fun x => Qpower x y) x0 in
  Ok (if d =? 0 then [Ivl r r] else [Arr r; Ivl r r])) (gen_pow gsQ) (exponent gsQ).
Definition kinds (r : res (taylor_bounds_t Q)) : list bool := match r with Ok b => map (fun c => match c with Arr _ => true | Ivl _ _ => false end) (tb_coefficients b) | Err _ => [] end.
(** No interval at degrees 3 and 5; a final interval at degree 2. *)
Example cubic_3 : kinds (taylor_bounds scQ gsI cubic [] 3 false (sq 1) (sq 0, sq 2)) = [true; true; true; true].
Proof. vm_compute. reflexivity. Qed.
Example cubic_5 : kinds (taylor_bounds scQ gsI cubic [] 5 false (sq 1) (sq 0, sq 2)) = [true; true; true; true].
Proof. vm_compute. reflexivity. Qed.
Example cubic_2 : kinds (taylor_bounds scQ gsI cubic [] 2 false (sq 1) (sq 0, sq 2)) = [true; true; false].
Proof. vm_compute. reflexivity. Qed.
(** f(x) = (x . x) * (1 . x) for a vector x *)
Definition vec_cubic {T} `{Num T} : program T :=
  Program (@Graph jvar (prim T) (list jvar) [Var 0] [Var 3]
     [Op (dot_general_p [0] [0] [] []) [Var 0; Var 0] [Var 1]; Op (reduce_sum_p [0]) [Var 0] [Var 2]; Op mul_p [Var 1; Var 2] [Var 3]] []) (fun _ => tscalar n0).
Example vec_polynomial : polynomial_program (@vec_cubic Q _) 3.
Proof. do 3 eexists. split; [reflexivity|]. split; [reflexivity|]. split; reflexivity. Qed.
Definition v2 (a b : Q) : tensor Q := of_list 0%Q [2] [a; b].
Example vec_3 : kinds (taylor_bounds scQ gsQ vec_cubic [] 3 false (v2 1 2) (v2 0 1, v2 2 4)) = [true; true; true; true].
Proof. vm_compute. reflexivity. Qed.
Example vec_2 : kinds (taylor_bounds scQ gsQ vec_cubic [] 2 false (v2 1 2) (v2 0 1, v2 2 4)) = [true; true; false].
Proof. vm_compute. reflexivity. Qed.

(** * Over R *)
(** next_loss(eta) = (2 eta - 1)**2 is a program of degree 2; its bounds, its
    integral bounds and its safe learning rate are computed (and by C70 exact). *)
Open Scope R_scope.
Lemma quad_v0 a b : exists r, integral_bound_v0 (scalarsR no_usr) (checked_generators no_ugen) Rdiv (fst quad_next) (snd quad_next) a b 2 = Ok r.
Proof. eexists. reflexivity. Qed.
Lemma quad_v1 a b n : (0 < n)%Z -> exists l u, integral_bound_v1 (scalarsR no_usr) (checked_generators no_ugen) Rdiv (fst quad_next) (snd quad_next) a b 2 n = Ok (l, u).
Proof.
  intros Hn. unfold integral_bound_v1. destruct (Z.eqb_spec n 0) as [|Hz]; [lia|]. generalize (@n0 R _, @n0 R _).
  induction (seq 0 (Z.to_nat n)) as [|i l IH]; intros [s t]; cbn [foldM]; [eauto|]. cbv zeta.
  match goal with |- context [integral_bound_v0 _ _ _ _ _ ?x ?y 2] => destruct (quad_v0 x y) as [r ->] end. cbn [bind]. apply IH.
Qed.
Example C70_nonvacuous : polynomial_program (fst (@quad_next R _)) 2 /\
  (forall t, computes (scalarsR no_usr) 2 (fst quad_next) (snd quad_next) t ((0 + t * 2 - 1) * ((0 + t * 2 - 1) * 1))) /\
  (exists b, taylor_bounds (scalarsR no_usr) (checked_generators no_ugen) (fst quad_next) (snd quad_next) 2 false (tscalar 0) (tscalar 0, tscalar 1) = Ok b /\ length (tb_coefficients b) = 3%nat) /\
  (exists l u, integral_bound_v0 (scalarsR no_usr) (checked_generators no_ugen) Rdiv (fst quad_next) (snd quad_next) 0 1 2 = Ok (l, u)) /\
  (exists l u, integral_bound_v1 (scalarsR no_usr) (checked_generators no_ugen) Rdiv (fst quad_next) (snd quad_next) 0 1 2 3 = Ok (l, u)) /\
  (exists eta, safe_learning_rate (scalarsR no_usr) (checked_generators no_ugen) Rdiv quad_next 1 = Ok eta /\ eta = 1 / 2).
Proof.
  split; [do 3 eexists; split; [reflexivity|]; split; [reflexivity|]; split; reflexivity|].
  split; [intros; apply quad_computes|]. split; [eexists; split; reflexivity|]. split; [destruct (quad_v0 0 1) as [[l u] E]; eauto|]. split; [apply quad_v1; lia|].
  destruct C69_nonvacuous as (eta & _ & H). eauto.
Qed.
