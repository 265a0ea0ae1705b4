(** The function of README.md:29-38, f(x) = al * g(be * x) - ga * x ** 2 with
    al = 1.5, g = exp, be = 3 and ga = 25. *)
From Coq Require Import Reals Lra.
From Verif Require Import Base Tensor IntervalArith Polynomials Enclosure TensorLemmas Spec GraphEditor GraphSpec Elementwise Primitive ElementSpec PropElementwise PropPrimitive
  JaxBound JaxSpec JaxTable ExamplesJax.
Open Scope R_scope.

(** README.md:29, as traced: the jaxpr of [al * g(be * x) - ga * x ** 2]. *)
Definition quickstart (e : elem) (al be ga : R) : program R :=
  Program (@Graph jvar (prim R) (list jvar) [Var 0] [Var 6]
    [Op mul_p [Lit 0; Var 0] [Var 1]; Op (elementwise_p e) [Var 1] [Var 2]; Op mul_p [Lit 1; Var 2] [Var 3];
     Op (integer_pow_p 2) [Var 0] [Var 4]; Op mul_p [Lit 2; Var 4] [Var 5]; Op sub_p [Var 3; Var 5] [Var 6]] [])
    (fun n => tscalar (match n with 0%nat => be | 1%nat => al | _ => ga end)).

Ltac reals := cbv -[lift_gen Rplus Rmult Ropp Rminus Rinv Rdiv Rmin Rmax IZR Rlt_dec Rle_dec Req_EM_T Rle Rlt].
Ltac minmax := unfold Rmin, Rmax in *; repeat match goal with
  | |- context [Rle_dec ?a ?b] => destruct (Rle_dec a b)
  | |- context [Rlt_dec ?a ?b] => destruct (Rlt_dec a b)
  | H : context [Rle_dec ?a ?b] |- _ => destruct (Rle_dec a b)
  end.

Lemma quickstart_runs : forall (sc : scalars R) (gs : generators R) e g al be ga x0 l h g0 g1 rl rh,
  gen_elem gs e = lift_gen g -> l <= x0 <= h ->
  g (be * x0) (Rmin (be * l) (be * h), Rmax (be * l) (be * h)) 2%nat = Ok ([g0; g1], (rl, rh)) ->
  exists c0 c1 cl ch,
    taylor_bounds sc gs (quickstart e al be ga) [] 2 false (tscalar x0) (tscalar l, tscalar h) =
      Ok (TaylorBounds (tscalar x0) (tscalar l, tscalar h) [Arr (mkT [] (fun _ => c0)); Arr (mkT [] (fun _ => c1)); Ivl (mkT [] (fun _ => cl)) (mkT [] (fun _ => ch))]) /\
    c0 = al * g0 - ga * x0 ^ 2 /\ c1 = al * (be * g1) - 2 * ga * x0 /\
    cl = Rmin (al * (be ^ 2 * rl)) (al * (be ^ 2 * rh)) - ga /\ ch = Rmax (al * (be ^ 2 * rl)) (al * (be ^ 2 * rh)) - ga.
Proof.
  intros sc gs e g al be ga x0 l h g0 g1 rl rh Eg Hx E. destruct gs as [ge gi gp ex]. cbn [gen_elem] in Eg.
  do 4 eexists. split.
  - reals. rewrite Eg.
    match goal with |- context [lift_gen g ?x (?l0, ?h0) 2%nat] =>
      rewrite (lift_scalar g x l0 h0 2 [g0; g1] rl rh eq_refl eq_refl eq_refl) end.
    2: { cbn [tdata]. rewrite <- E. f_equal; [ring|].
         match goal with |- context [(1 - ?i) * ((l - x0) * 1)] => set (ind := i) end.
         assert (Hi : 0 <= ind <= 1 /\ (ind <> 0 -> l - x0 < 0)) by (unfold ind; repeat destruct Rlt_dec; split; lra).
         assert (M : Rmin (Rmin ((l - x0) * 1) ((h - x0) * 1)) ((1 - ind) * ((l - x0) * 1)) = l - x0).
         { rewrite !Rmult_1_r. rewrite (Rmin_left (l - x0) (h - x0)) by lra. apply Rmin_left.
           destruct (Req_EM_T ind 0) as [->|N]; [lra|]. nra. }
         rewrite M. rewrite !Rmult_1_r, (Rmax_right (l - x0) (h - x0)) by lra. rewrite !Rplus_0_l.
         f_equal; minmax; lra. }
    reals. reflexivity.
  - split; [ring|]. split; [ring|].
    assert (Q : be * be >= 0) by nra.
    replace (0 + 1 * (1 * 1 * ((0 + be * 1) * ((0 + be * 1) * 1)))) with (be * be) by ring.
    replace (- (0 + ga * (0 + 1 * (1 * 1 * (1 * (1 * 1)))))) with (- ga) by ring.
    replace (be ^ 2 * rl) with (rl * (be * be)) by ring. replace (be ^ 2 * rh) with (rh * (be * be)) by ring.
    set (u := rl * (be * be)). set (v := rh * (be * be)). split; minmax; lra.
Qed.
