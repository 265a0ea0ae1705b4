(** C81 for the registered primitives. *)
From Coq Require Import Reals Lra.
From Verif Require Import Base Tensor IntervalArith Polynomials Enclosure TensorLemmas Spec GraphEditor GraphSpec Elementwise Primitive ElementSpec PropElementwise PropPrimitive
  JaxBound JaxSpec JaxLemmas JaxOps JaxTable JaxTableProofs PropJax ExamplesJax DegreeZero DegreeZeroSpec PropDegreeZero DegreeZeroTable.
Open Scope R_scope.

(** The registered primitives covered by C81.  [swish] is not monotone; its
    extremum is recorded as a rounded decimal. *)
Definition exact_primitive (numbers : bool) (ugen : nat -> generator R) (usr : nat -> R -> res R) (p : prim R) : Prop :=
  match p with
  | add_p | sub_p | mul_p | div_p | neg_p | convert_element_type_p => True
  | broadcast_in_dim_p _ _ | reshape_p _ | squeeze_p _ | transpose_p _ => numbers = false
  | integer_pow_p y => (2 <= y)%Z -> numbers = true
  | elementwise_p Swish => False
  | elementwise_p (User n) => exact_generator (ugen n) (usr n)
  | elementwise_p _ => True
  | _ => False
  end.

Lemma lift_ipow n : (n < 0)%Z -> exact_generator (lift_gen (pow_gen (IZR n))) (ipow_sigma n).
Proof. intros. apply lift_exact, ipow_exact. auto. Qed.
Lemma div_ipow usr x y v : s_div (scalarsR usr) x y = Ok v -> exists w, s_ipow (scalarsR usr) y (-1) = Ok w /\ v = x * w.
Proof.
  cbn [s_div s_ipow scalarsR]. destruct (Req_EM_T y 0) as [|N]; [discriminate|]. intros [= <-]. eexists. split; [reflexivity|].
  cbn. unfold Rdiv. rewrite Pos2Nat.inj_1. cbn [pow]. rewrite Rmult_1_r. reflexivity.
Qed.
Lemma exact_primitive_prim numbers ugen usr p : exact_primitive numbers ugen usr p -> exact_prim numbers (scalarsR usr) (generatorsR ugen) p.
Proof.
  destruct p; cbn [exact_primitive exact_prim]; auto.
  - intros _. split; [exact (lift_ipow (-1) eq_refl)|]. apply div_ipow.
  - intros Hy. split; auto. intros N. exact (lift_ipow y N).
  - destruct e; cbn [generatorsR gen_elem elem_gen scalarsR s_elem elem_fun]; intros HP; try contradiction; try (apply lift_exact);
      auto using abs_exact, cbrt_exact, exp_exact, log_exact, sigmoid_exact, rsqrt_exact, sqrt_exact, softplus_exact.
Qed.

(** C81 for the library's own table: the bounds of degree 0 on a program of the
    registered primitives in which no equation combines two values that depend
    on the argument are the exact range of the program's value. *)
Theorem C81_registered_functions : forall ugen usr pr consts propagate x0 region n numbers b,
  gins (p_graph pr) = [Var n] -> one_dependent_operand [n] (gops (p_graph pr)) ->
  (forall o, In o (gops (p_graph pr)) -> exact_primitive numbers ugen usr (odata o)) ->
  (numbers = true -> tshape x0 = [] /\ Forall (fun c => tshape c = []) consts /\ forall m, tshape (p_lits pr m) = []) ->
  (exists x, in_box x0 region x) ->
  (forall x, in_box x0 region x -> exists y, meaning (scalarsR usr) pr consts x = Some [y]) ->
  taylor_bounds (scalarsR usr) (generatorsR ugen) pr consts 0 propagate x0 region = Ok b ->
  forall x', tshape x' = tshape x0 ->
  exists l h, tb_lower b x' = Ok l /\ tb_upper b x' = Ok h /\ tshape l = tshape h /\
    (forall x y, in_box x0 region x -> meaning (scalarsR usr) pr consts x = Some [y] -> tshape y = tshape l) /\
    forall s v, valid (tshape l) s ->
      (tdata l s <= v <= tdata h s <-> exists x y, in_box x0 region x /\ meaning (scalarsR usr) pr consts x = Some [y] /\ tdata y s = v).
Proof.
  intros ugen usr pr consts propagate x0 region n numbers b EI HO HP. apply (C81_degree_0_bounds_are_the_exact_range _ _ _ _ _ _ _ n numbers); auto.
  intros o Ho. apply exact_primitive_prim. auto.
Qed.

(** ** The registered generators return one coefficient. *)
Lemma lift_one g : one_coefficient (lift_gen g).
Proof.
  intros x0 tr e H. unfold lift_gen in H. destruct tr as [l h]. destruct (_ && _)%bool; [|discriminate]. apply bind_ok in H. destruct H as (es & _ & H). injection H as <-. reflexivity.
Qed.
Theorem C81_registered_independence : forall usr ugen pr consts propagate (x0 x0' : tensor R) region b,
  (forall n, one_coefficient (ugen n)) -> tshape x0' = tshape x0 ->
  taylor_bounds (scalarsR usr) (generatorsR ugen) pr consts 0 propagate x0 region = Ok b ->
  taylor_bounds (scalarsR usr) (generatorsR ugen) pr consts 0 propagate x0' region = Ok (TaylorBounds x0' region (tb_coefficients b)).
Proof.
  intros usr ugen pr consts propagate x0 x0' region b HU. apply C81_degree_0_does_not_depend_on_x0. split; [|split].
  - intros e. destruct e; cbn [generatorsR gen_elem elem_gen]; auto using lift_one.
  - intros p. apply lift_one.
  - intros p. apply lift_one.
Qed.

(** ** A concrete case: (exp x)^2 + 3 over [-1, 1] *)
Definition ex81 : program R :=
  Program (@Graph jvar (prim R) (list jvar) [Var 0] [Var 3]
             [Op (elementwise_p Exp) [Var 0] [Var 1]; Op (integer_pow_p 2) [Var 1] [Var 2]; Op add_p [Var 2; Lit 0] [Var 3]] [])
          (fun _ => tscalar 3).
Lemma exp_at_0 x0 a b : a <= x0 <= b -> exp_enclosure x0 (a, b) 0%nat = Ok ([], (exp a, exp b)).
Proof.
  intros H. assert (E : exists e, exp_enclosure x0 (a, b) 0%nat = Ok e).
  { unfold exp_enclosure, get_elementwise_taylor_enclosure, get_taylor_polynomial_coefficients, sharp_enclosure_monotonic_derivative, sharp_ends. cbn [get_function get_function_data derivative_id bind fst snd Nat.add Nat.even negb mono_inc mono_dec orb taylor_coeffs_from].
    rewrite (ratio0 x0 (fun x => Ok (exp x)) _ a _ eq_refl), (ratio0 x0 (fun x => Ok (exp x)) _ b _ eq_refl). cbn [bind]. eauto. }
  destruct E as [e E]. rewrite E. f_equal. refine (increasing_generator EXP exp _ _ _ _ _ _ H E); [intros d [= <-]; reflexivity|eexists; split; [reflexivity|auto]].
Qed.
Lemma ex81_runs x0 : -1 <= x0 <= 1 -> exists b, taylor_bounds (scalarsR no_usr) (generatorsR no_ugen) ex81 [] 0 false (tscalar x0) (tscalar (-1), tscalar 1) = Ok b.
Proof.
  intros Hx. pose proof (exp_at_0 (-1) (-1) 1 ltac:(lra)) as E.
  cbv -[lift_gen exp_enclosure Rplus Rmult Ropp Rminus Rinv Rdiv Rmin Rmax IZR Rlt_dec Rle Rlt].
  match goal with |- context [lift_gen ?g ?x (?l0, ?h0) 0%nat] =>
    assert (EL : lift_gen g x (l0, h0) 0%nat = Ok (map (fun i => Arr (of_list 0 [] [nth i [] 0])) (seq 0 0) ++ [Ivl (of_list 0 [] [exp (-1)]) (of_list 0 [] [exp 1])])) end.
  { apply lift_scalar; try reflexivity. exact E. }
  rewrite EL. eexists. lazy -[Rplus Rmult Ropp Rminus Rinv Rdiv Rmin Rmax IZR Rlt_dec Rle Rlt exp]. reflexivity.
Qed.
Example C81_nonvacuous : forall x0, -1 <= x0 <= 1 -> exists b,
  one_dependent_operand [0%nat] (gops (p_graph ex81)) /\
  (forall o, In o (gops (p_graph ex81)) -> exact_primitive true no_ugen no_usr (odata o)) /\
  (forall x, in_box (tscalar x0) (tscalar (-1), tscalar 1) x -> exists y, meaning (scalarsR no_usr) ex81 [] x = Some [y] /\ tdata y [] = exp (tdata x []) ^ 2 + 3) /\
  taylor_bounds (scalarsR no_usr) (generatorsR no_ugen) ex81 [] 0 false (tscalar x0) (tscalar (-1), tscalar 1) = Ok b /\
  exists l h, tb_lower b (tscalar 0) = Ok l /\ tb_upper b (tscalar 0) = Ok h /\ tdata l [] = exp (-1) ^ 2 + 3 /\ tdata h [] = exp 1 ^ 2 + 3.
Proof.
  intros x0 Hx. destruct (ex81_runs x0 Hx) as [b Hb]. exists b.
  assert (HO : one_dependent_operand [0%nat] (gops (p_graph ex81))) by exact Logic.I.
  assert (HP : forall o, In o (gops (p_graph ex81)) -> exact_primitive true no_ugen no_usr (odata o)).
  { intros o Ho. simpl in Ho. destruct Ho as [<-|[<-|[<-|[]]]]; cbn; auto. }
  assert (HM : forall x, in_box (tscalar x0) (tscalar (-1), tscalar 1) x -> exists y, meaning (scalarsR no_usr) ex81 [] x = Some [y] /\ tdata y [] = exp (tdata x []) ^ 2 + 3).
  { intros [S d] [SS _]. simpl in SS. subst S. eexists. split; [reflexivity|]. simpl. ring. }
  repeat (split; [assumption|]).
  assert (NE : exists x, in_box (tscalar x0) (tscalar (-1), tscalar 1) x) by (exists (tscalar x0); repeat (split; [reflexivity|]); intros J _; simpl; lra).
  destruct (C81_registered_functions no_ugen no_usr ex81 [] false (tscalar x0) (tscalar (-1), tscalar 1) 0%nat true b eq_refl HO HP) with (x' := tscalar 0) as (l & h & HL & HU & S1 & HS & K); auto.
  { intros x Hx'. destruct (HM x Hx') as (y & Hy & _). eauto. }
  exists l, h. repeat (split; [assumption|]).
  assert (EV : forall u, -1 <= u <= 1 -> in_box (tscalar x0) (tscalar (-1), tscalar 1) (tscalar u)) by (intros u Hu; repeat (split; [reflexivity|]); intros J _; simpl; lra).
  assert (Sl : tshape l = []).
  { destruct (HM _ (EV 0 ltac:(lra))) as (y & Hy & _). rewrite <- (HS _ _ (EV 0 ltac:(lra)) Hy). injection Hy as <-. reflexivity. }
  assert (Vl : valid (tshape l) []) by (rewrite Sl; constructor).
  assert (K' : forall v, tdata l [] <= v <= tdata h [] <-> exists u, -1 <= u <= 1 /\ exp u ^ 2 + 3 = v).
  { intros v. rewrite (K [] v Vl). split.
    - intros (x & y & Hx' & Hy & E). destruct (HM x Hx') as (y' & Hy' & E'). rewrite Hy in Hy'. injection Hy' as <-. exists (tdata x []). destruct Hx' as (Sx & _ & _ & Bx). specialize (Bx [] ltac:(constructor)). simpl in Bx. split; [auto|congruence].
    - intros (u & Hu & E). destruct (HM _ (EV u Hu)) as (y & Hy & E'). simpl in E'. exists (tscalar u), y. split; [auto|]. split; [auto|]. rewrite E'. simpl. exact E. }
  assert (MO : forall u v, u <= v -> exp u ^ 2 + 3 <= exp v ^ 2 + 3).
  { intros u v L. assert (exp u <= exp v) by (destruct L as [L| ->]; [left; apply exp_increasing; auto|lra]). pose proof (exp_pos u). nra. }
  assert (LH : tdata l [] <= tdata h []) by (destruct (proj2 (K' (exp 0 ^ 2 + 3))); [exists 0; split; lra|lra]).
  destruct (proj1 (K' (tdata l [])) ltac:(lra)) as (ul & Hul & El). destruct (proj1 (K' (tdata h [])) ltac:(lra)) as (uh & Huh & Eh).
  destruct (proj2 (K' (exp (-1) ^ 2 + 3)) ltac:(exists (-1); split; lra)) as [A1 A2]. destruct (proj2 (K' (exp 1 ^ 2 + 3)) ltac:(exists 1; split; lra)) as [B1 B2].
  pose proof (MO (-1) ul ltac:(lra)). pose proof (MO uh 1 ltac:(lra)). split; lra.
Qed.

(** ** Limits *)
(** An equation both of whose operands depend on the argument: x - x over
    [0, 1] gets the bounds [-1, 1]. *)
Definition ex81_sub : program R :=
  Program (@Graph jvar (prim R) (list jvar) [Var 0] [Var 1] [Op sub_p [Var 0; Var 0] [Var 1]] []) (fun _ => tscalar 0).
Theorem C81_two_dependent_operands_refuted : exists b l h,
  taylor_bounds (scalarsR no_usr) (generatorsR no_ugen) ex81_sub [] 0 false (tscalar 0) (tscalar 0, tscalar 1) = Ok b /\
  (forall x, in_box (tscalar 0) (tscalar 0, tscalar 1) x -> exists y, meaning (scalarsR no_usr) ex81_sub [] x = Some [y] /\ tdata y [] = 0) /\
  tb_lower b (tscalar 0) = Ok l /\ tb_upper b (tscalar 0) = Ok h /\ tdata l [] = -1 /\ tdata h [] = 1.
Proof.
  do 3 eexists. split; [lazy -[Rplus Rmult Ropp Rminus Rinv Rdiv Rmin Rmax IZR Rlt_dec Rle Rlt]; reflexivity|].
  split; [intros [S d] [SS _]; simpl in SS; subst S; eexists; split; [reflexivity|simpl; ring]|].
  split; [lazy -[Rplus Rmult Ropp Rminus Rinv Rdiv Rmin Rmax IZR Rlt_dec Rle Rlt]; reflexivity|].
  split; [lazy -[Rplus Rmult Ropp Rminus Rinv Rdiv Rmin Rmax IZR Rlt_dec Rle Rlt]; reflexivity|].
  split; rcompute.
Qed.

(** x ** 2 over [-1, 2]: [0, 4] for a number; [-2, 4] for an array of one
    element, because a power of an array multiplies the interval with itself. *)
Definition ex81_pow : program R :=
  Program (@Graph jvar (prim R) (list jvar) [Var 0] [Var 1] [Op (integer_pow_p 2) [Var 0] [Var 1]] []) (fun _ => tscalar 0).
Definition vec1 (a : R) : tensor R := mkT [1]%nat (fun _ => a).
Theorem C81_array_power_refuted :
  (exists b l h,
    taylor_bounds (scalarsR no_usr) (generatorsR no_ugen) ex81_pow [] 0 false (tscalar 0) (tscalar (-1), tscalar 2) = Ok b /\
    tb_lower b (tscalar 0) = Ok l /\ tb_upper b (tscalar 0) = Ok h /\ tdata l [] = 0 /\ tdata h [] = 4) /\
  exists b l h,
    taylor_bounds (scalarsR no_usr) (generatorsR no_ugen) ex81_pow [] 0 false (vec1 0) (vec1 (-1), vec1 2) = Ok b /\
    (forall x, in_box (vec1 0) (vec1 (-1), vec1 2) x -> exists y, meaning (scalarsR no_usr) ex81_pow [] x = Some [y] /\ tshape y = [1%nat] /\ tdata y [0%nat] = tdata x [0%nat] ^ 2) /\
    tb_lower b (vec1 0) = Ok l /\ tb_upper b (vec1 0) = Ok h /\ tdata l [0%nat] = -2 /\ tdata h [0%nat] = 4.
Proof.
  split.
  - do 3 eexists. split; [lazy -[Rplus Rmult Ropp Rminus Rinv Rdiv Rmin Rmax IZR Rlt_dec Rle Rlt]; reflexivity|].
    split; [lazy -[Rplus Rmult Ropp Rminus Rinv Rdiv Rmin Rmax IZR Rlt_dec Rle Rlt]; reflexivity|].
    split; [lazy -[Rplus Rmult Ropp Rminus Rinv Rdiv Rmin Rmax IZR Rlt_dec Rle Rlt]; reflexivity|].
    split; rcompute.
  - do 3 eexists. split; [lazy -[Rplus Rmult Ropp Rminus Rinv Rdiv Rmin Rmax IZR Rlt_dec Rle Rlt]; reflexivity|].
    split; [intros [S d] [SS _]; simpl in SS; subst S; eexists; split; [reflexivity|split; [reflexivity|simpl; ring]]|].
    split; [lazy -[Rplus Rmult Ropp Rminus Rinv Rdiv Rmin Rmax IZR Rlt_dec Rle Rlt]; reflexivity|].
    split; [lazy -[Rplus Rmult Ropp Rminus Rinv Rdiv Rmin Rmax IZR Rlt_dec Rle Rlt]; reflexivity|].
    split; rcompute.
Qed.
