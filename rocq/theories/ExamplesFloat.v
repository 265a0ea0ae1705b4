(** Concrete cases for C71, in IEEE binary32. *)
From Coq Require Import Reals ZArith Lia Lra Psatz.
From Flocq Require Import Core.
From Verif Require Import Base Tensor IntervalArith Polynomials Enclosure TensorLemmas Spec GraphEditor GraphSpec JaxBound JaxSpec FloatSpec FloatProofs PropFloat Binary32.
Open Scope R_scope.

(** ** Numbers *)
Lemma b32_0 : b32 0 = 0.
Proof. apply rnd_0, b32_rounding. Qed.
Lemma b32_int z : (Z.abs z < 16777216)%Z -> b32 (IZR z) = IZR z.
Proof. intros H. pose proof (b32_exact z 0 H ltac:(lia)) as E. simpl in E. rewrite Rmult_1_r in E. auto. Qed.
Definition eps : R := bpow radix2 (-30).
Lemma eps_val : eps = / 1073741824.
Proof. unfold eps. simpl. lra. Qed.
Lemma b32_eps : b32 eps = eps.
Proof. pose proof (b32_exact 1 (-30) ltac:(lia) ltac:(lia)) as E. rewrite Rmult_1_l in E. exact E. Qed.
Lemma b32_1_eps : b32 (1 + eps) = 1.
Proof.
  rewrite (b32_near (1 + eps) 8388608 (-23)); rewrite ?eps_val; [simpl; lra|simpl; lra|lia|]. simpl. unfold Rabs. destruct (Rcase_abs _); lra.
Qed.
Definition big : R := 33554432.
Lemma b32_big : b32 big = big.
Proof. pose proof (b32_exact 1 25 ltac:(lia) ltac:(lia)) as E. simpl in E. rewrite Rmult_1_l in E. exact E. Qed.
Lemma b32_big_1 : b32 (big + 1) = big.
Proof.
  rewrite (b32_near (big + 1) 8388608 2); unfold big; [simpl; lra|simpl; lra|lia|]. simpl. unfold Rabs. destruct (Rcase_abs _); lra.
Qed.
Lemma b32_4_big : b32 (4 - big) = 4 - big.
Proof. pose proof (b32_exact (-8388607) 2 ltac:(lia) ltac:(lia)) as E. simpl in E. replace (4 - big) with (-8388607 * 4) by (unfold big; lra). exact E. Qed.
(** 1/41 and 41 * (1/41) in binary32. *)
Definition r41 : R := 13094412 / 536870912.
Lemma b32_r41 : b32 (/ 41) = r41.
Proof.
  rewrite (b32_near (/ 41) 13094412 (-29)); unfold r41; [simpl; lra|simpl; lra|lia|]. simpl. unfold Rabs. destruct (Rcase_abs _); lra.
Qed.
Lemma b32_r41' : b32 r41 = r41.
Proof. rewrite <- b32_r41. apply (rnd_idem _ b32_rounding). Qed.
Lemma b32_41_r41 : b32 (41 * r41) = 16777215 / 16777216.
Proof.
  rewrite (b32_near (41 * r41) 16777215 (-24)); unfold r41; [simpl; lra|simpl; lra|lia|]. simpl. unfold Rabs. destruct (Rcase_abs _); lra.
Qed.

(** ** Programs *)
Definition sc0 : scalars R := Scalars (fun _ _ => Err Unmodelled) (fun _ _ => Err Unmodelled) (fun _ _ => Err Unmodelled) (fun _ _ => Err Unmodelled).
Definition gs0 : generators R := Generators (fun _ _ _ _ => Err Unmodelled) (fun _ _ _ _ => Err Unmodelled) (fun _ _ _ _ => Err Unmodelled) (fun _ => ExpOther).
Definition one_eq (p : prim R) (args : list jvar) (lit : tensor R) : program R :=
  Program (@Graph jvar (prim R) (list jvar) [Var 0] [Var 1] [Op p args [Var 1]] []) (fun _ => lit).

(** f(x) = x + 2^-30 on [0, 1]: the bounds contain the binary32 values but not
    the real values, because nothing is rounded outward. *)
Theorem C71_real_values_refuted : exists pr x0 region x y b h,
  (forall o, In o (gops (p_graph pr)) -> float_prim b32 sc0 gs0 (odata o)) /\
  in_box x0 region x /\ float_array b32 x /\ (forall n, float_array b32 (p_lits pr n)) /\
  @meaning R NumR sc0 pr [] x = Some [y] /\
  @taylor_bounds R (NumF b32) sc0 gs0 pr [] 0 false x0 region = Ok b /\
  @tb_upper R (NumF b32) b x = Ok h /\ tdata h [] < tdata y [].
Proof.
  exists (one_eq add_p [Var 0; Lit 0] (tscalar eps)), (tscalar 0), (tscalar 0, tscalar 1), (tscalar 1). do 3 eexists.
  split; [intros o [<-|[]]; exact I|]. split; [repeat split; simpl; lra|]. split; [intros J _; apply (b32_int 1); simpl; lia|]. split; [intros n J _; apply b32_eps|].
  split; [reflexivity|]. split; [reflexivity|]. split; [reflexivity|]. simpl.
  rewrite b32_1_eps, !Rplus_0_l, !Rmult_1_r, b32_eps, (b32_int 1), b32_eps by (simpl; lia).
  rewrite Rmax_right by (rewrite eps_val; lra). rewrite (b32_int 1) by (simpl; lia). rewrite eps_val. lra.
Qed.

(** f(x) = x + 1 at degree 1 around 2^25: the float bounds at x = 4 are 4 and 4,
    the float value is 5. *)
Theorem C71_degree_1_refuted : exists pr x0 region x y b l h,
  (forall o, In o (gops (p_graph pr)) -> float_prim b32 sc0 gs0 (odata o)) /\
  in_box x0 region x0 /\ in_box x0 region x /\ float_array b32 x0 /\ float_array b32 x /\ (forall n, float_array b32 (p_lits pr n)) /\
  @meaning R (NumF b32) sc0 pr [] x = Some [y] /\
  @taylor_bounds R (NumF b32) sc0 gs0 pr [] 1 false x0 region = Ok b /\
  @tb_lower R (NumF b32) b x = Ok l /\ @tb_upper R (NumF b32) b x = Ok h /\
  tdata y [] = 5 /\ tdata l [] = 4 /\ tdata h [] = 4.
Proof.
  exists (one_eq add_p [Var 0; Lit 0] (tscalar 1)), (tscalar big), (tscalar 0, tscalar big), (tscalar 4). do 4 eexists.
  split; [intros o [<-|[]]; exact I|]. split; [repeat split; simpl; unfold big; lra|]. split; [repeat split; simpl; unfold big; lra|].
  split; [intros J _; apply b32_big|]. split; [intros J _; apply (b32_int 4); simpl; lia|]. split; [intros n J _; apply (b32_int 1); simpl; lia|].
  split; [reflexivity|]. split; [reflexivity|]. split; [reflexivity|]. split; [reflexivity|].
  assert (E : b32 (b32 (0 + b32 (b32 (big + 1) * 1)) + b32 (1 * b32 (b32 (4 - big) * 1))) = 4).
  { rewrite b32_big_1, Rmult_1_r, b32_big, Rplus_0_l, b32_big, b32_4_big, Rmult_1_r, b32_4_big, Rmult_1_l, b32_4_big.
    replace (big + (4 - big)) with 4 by ring. apply (b32_int 4). simpl. lia. }
  simpl. split; [replace (4 + 1) with 5 by ring; apply (b32_int 5); simpl; lia|]. auto.
Qed.

(** Correctly rounded division and reciprocal, and an interval rule for the
    reciprocal of positive numbers that contains them. *)
Definition recip (x : R) : res R := if Req_EM_T x 0 then Err NonFinite else Ok (b32 (/ x)).
Definition sc1 : scalars R := Scalars (fun x y => if Req_EM_T y 0 then Err NonFinite else Ok (b32 (x / y))) (fun _ _ => Err Unmodelled)
  (fun x y => if (y =? -1)%Z then recip x else Err Unmodelled) (fun _ _ => Err Unmodelled).
Definition recip_gen : generator R := fun x0 tr _ =>
  if forallb (fun s => if Rlt_dec 0 (tdata (fst tr) s) then true else false) (all_idx (tshape (fst tr)))
  then Ok [Ivl (tmap (fun x => b32 (/ x)) (snd tr)) (tmap (fun x => b32 (/ x)) (fst tr))] else Err NonFinite.
Definition gs1 : generators R := Generators (fun _ _ _ _ => Err Unmodelled) (fun _ => recip_gen) (fun _ _ _ _ => Err Unmodelled) (fun _ => ExpOther).
Lemma recip_valid : float_generator b32 recip_gen recip.
Proof.
  split.
  - intros y v _. unfold recip. destruct (Req_EM_T y 0); [discriminate|]. intros [= <-]. apply (rnd_idem _ b32_rounding).
  - intros S x0 l h e S0 Sl Sh HB H. unfold recip_gen in H. simpl in H. destruct (forallb _ _) eqn:E; [|discriminate]. injection H as <-.
    eexists. split; [reflexivity|]. split; [simpl; auto|]. intros s y v Hs Hy _. unfold recip. destruct (Req_EM_T y 0); [discriminate|]. intros [= <-].
    rewrite forallb_forall in E. specialize (E s). rewrite Sl, all_idx_valid in E. specialize (E Hs). destruct (Rlt_dec 0 (tdata l s)); [|discriminate].
    simpl. split; apply (rnd_le _ b32_rounding); apply Rinv_le_contravar; lra.
Qed.
(** f(x) = x / 41 on [0, 41]: a correctly rounded division gives f(41) = 1, but
    the upper bound is the float below 1, since the code multiplies with the
    rounded reciprocal. *)
Theorem C71_division_refuted : exists pr x0 region x y b h,
  (forall o, In o (gops (p_graph pr)) -> odata o = div_p) /\
  (forall u v, v <> 0 -> s_div sc1 u v = Ok (b32 (u / v))) /\
  float_generator b32 (gen_ipow gs1 (-1)) (fun u => s_ipow sc1 u (-1)) /\
  in_box x0 region x /\ float_array b32 x /\ (forall n, float_array b32 (p_lits pr n)) /\
  @meaning R (NumF b32) sc1 pr [] x = Some [y] /\
  @taylor_bounds R (NumF b32) sc1 gs1 pr [] 0 false x0 region = Ok b /\
  @tb_upper R (NumF b32) b x = Ok h /\ tdata h [] < tdata y [].
Proof.
  exists (one_eq div_p [Var 0; Lit 0] (tscalar 41)), (tscalar 0), (tscalar 0, tscalar 41), (tscalar 41).
  assert (D : forall u v, v <> 0 -> s_div sc1 u v = Ok (b32 (u / v))) by (intros u v Hv; simpl; destruct (Req_EM_T v 0); [contradiction|reflexivity]).
  set (u := of_list 0 [] [b32 (41 / 41)]).
  assert (HM : @meaning R (NumF b32) sc1 (one_eq div_p [Var 0; Lit 0] (tscalar 41)) [] (tscalar 41) = Some [u]).
  { unfold meaning, run_graph. cbn. destruct (Req_EM_T 41 0); [lra|]. reflexivity. }
  assert (HT : exists b h, @taylor_bounds R (NumF b32) sc1 gs1 (one_eq div_p [Var 0; Lit 0] (tscalar 41)) [] 0 false (tscalar 0) (tscalar 0, tscalar 41) = Ok b /\
    @tb_upper R (NumF b32) b (tscalar 41) = Ok h /\ tdata h [] = 16777215 / 16777216).
  { assert (ED : forall tr, exists l h, @edivide R (NumF b32) {| max_degree := 0; trust_region := tr |} (fun _ => recip_gen) [Ivl (tscalar 0) (tscalar 41)] [Arr (tscalar 41)] = Ok [Ivl l h] /\ tshape l = [] /\ tshape h = [] /\ tdata l [] = 0 /\ tdata h [] = 16777215 / 16777216).
    { intros tr. unfold edivide, epower, elementwise_fun. cbn -[Rmin Rmax recip_gen]. unfold recip_gen. cbn -[Rmin Rmax]. destruct (Rlt_dec 0 41); [|lra]. cbn -[Rmin Rmax].  do 2 eexists. split; [reflexivity|]. split; [reflexivity|]. split; [reflexivity|]. cbn -[Rmin Rmax].
      rewrite Rplus_0_l, b32_r41, !Rplus_0_l, b32_r41', b32_41_r41, Rmult_0_l, b32_0, (Rmin_left 0 0), !(Rmin_left 0), b32_0, (Rmax_left 0 0), (Rmax_right 0), Rmax_left by lra. split; [reflexivity|].
      rewrite <- b32_41_r41 at 1. rewrite (rnd_idem _ b32_rounding). apply b32_41_r41. }
    edestruct ED as (l & h & Hd & Sl & Sh & Hl & Hh).
    eexists {| tb_x0 := tscalar 0; tb_region := (tscalar 0, tscalar 41); tb_coefficients := [Ivl l h] |}. eexists. split; [|split].
    - unfold taylor_bounds. cbn -[Rmin Rmax edivide]. rewrite Hd. destruct l, h; cbn in Sl, Sh; subst. reflexivity.
    - destruct l, h; cbn in Sl, Sh; subst. reflexivity.
    - destruct l, h; cbn in Sl, Sh; subst. cbn in Hl, Hh |- *. rewrite Hl, Hh, !Rmult_1_r, b32_0, Rplus_0_l. rewrite <- b32_41_r41. rewrite (rnd_idem _ b32_rounding), Rmax_right by (rewrite b32_41_r41; lra). apply (rnd_idem _ b32_rounding). }
  destruct HT as (b & h & Hb & Hh & Eh). exists u, b, h.
  split; [intros o [<-|[]]; reflexivity|]. split; [exact D|]. split; [exact recip_valid|].
  split; [repeat split; simpl; lra|]. split; [intros J _; apply (b32_int 41); simpl; lia|]. split; [intros n J _; apply (b32_int 41); simpl; lia|].
  split; [exact HM|]. split; [exact Hb|]. split; [exact Hh|]. rewrite Eh. unfold u. cbn. replace (41 / 41) with 1 by field. rewrite (b32_int 1) by (simpl; lia). lra.
Qed.

(** f(x) = w . x with w = (1, -1, 2^-30) at x = (1, 1, 1): the dot product, summed
    from left to right, is 2^-30, but both bounds are 0, since the positive and
    the negative weights are summed apart. *)
Definition ones3 : tensor R := of_list 0 [3%nat] [1; 1; 1].
Definition wgt3 : tensor R := of_list 0 [3%nat] [1; -1; eps].
Theorem C71_dot_product_refuted : exists pr x0 region x y b h,
  (forall o, In o (gops (p_graph pr)) -> odata o = dot_general_p [0%nat] [0%nat] [] []) /\
  in_box x0 region x /\ float_array b32 x /\ (forall n, float_array b32 (p_lits pr n)) /\
  @meaning R (NumF b32) sc0 pr [] x = Some [y] /\
  @taylor_bounds R (NumF b32) sc0 gs0 pr [] 0 false x0 region = Ok b /\
  @tb_upper R (NumF b32) b x = Ok h /\ tdata h [] < tdata y [].
Proof.
  assert (B : forall l, tshape l = [3%nat] -> b32 (tdata l [0%nat]) = tdata l [0%nat] -> b32 (tdata l [1%nat]) = tdata l [1%nat] -> b32 (tdata l [2%nat]) = tdata l [2%nat] -> float_array b32 l).
  { intros l S A0 A1 A2 J HJ. rewrite S in HJ. destruct J as [|j [|]]; try (inversion HJ; fail); inversion HJ as [|? ? ? ? Hj HN]; subst; [|inversion HN]. destruct j as [|[|[|]]]; auto; lia. }
  exists (one_eq (dot_general_p [0%nat] [0%nat] [] []) [Var 0; Lit 0] wgt3), ones3, (ones3, ones3), ones3. 
  assert (b1 : b32 1 = 1) by (apply (b32_int 1); simpl; lia).
  do 3 eexists.
  split; [intros o [<-|[]]; reflexivity|]. split; [repeat split; simpl; try lra|]. split; [apply B; simpl; auto|].
  split; [intros n; apply B; simpl; [auto|apply (b32_int 1); simpl; lia|apply (b32_int (-1)); simpl; lia|apply b32_eps]|].
  split; [unfold meaning, run_graph; cbn; reflexivity|]. split; [unfold taylor_bounds; cbn -[Rmin Rmax Rlt_dec]; reflexivity|]. split; [reflexivity|]. cbn -[Rmin Rmax Rlt_dec].
  assert (M : b32 (-1) = -1) by (apply (b32_int (-1)); simpl; lia). pose proof b32_eps as Z. pose proof b32_1_eps as O'. rewrite eps_val in Z, O'.
  rewrite (Rmax_right 0 1), (Rmax_left 0 (-1)), (Rmax_right 0 (/ 1073741824)), (Rmin_left 0 1), (Rmin_right 0 (-1)), (Rmin_left 0 (/ 1073741824)) by lra.
  assert (P : 1 + -1 = 0) by ring.
  repeat first [rewrite Rmult_1_l|rewrite Rmult_0_r|rewrite Rmult_1_r|rewrite Rplus_0_l|rewrite Rplus_0_r|rewrite b1|rewrite b32_0|rewrite M|rewrite Z|rewrite O'|rewrite P].
  rewrite Rmax_left, b32_0 by lra. lra.
Qed.


(** ** C71 is not vacuous: f(x) = sum ((x * x - x) ** 3 + |x|) over a vector of two
    numbers in [-1, 2], in binary32. *)
Definition abs_gen : generator R := fun x0 tr _ =>
  Ok [Ivl (tmap (fun _ => 0) (fst tr)) (mkT (tshape (fst tr)) (fun J => Rmax (Rabs (tdata (fst tr) J)) (Rabs (tdata (snd tr) J))))].
Definition sc2 : scalars R := Scalars (fun _ _ => Err Unmodelled) (fun _ _ => Err Unmodelled) (fun _ _ => Err Unmodelled) (fun _ x => Ok (Rabs x)).
Definition gs2 : generators R := Generators (fun _ => abs_gen) (fun _ _ _ _ => Err Unmodelled) (fun _ _ _ _ => Err Unmodelled) (fun _ => ExpOther).
Lemma abs_valid : float_generator b32 abs_gen (fun x => Ok (Rabs x)).
Proof.
  split.
  - intros y v Hy [= <-]. unfold Rabs. destruct (Rcase_abs y); auto. rewrite (rnd_opp _ b32_rounding), Hy. auto.
  - intros S x0 l h e S0 Sl Sh HB [= <-]. eexists. split; [reflexivity|]. split; [simpl; auto|]. intros s y v Hs Hy _ [= <-].
    simpl. split; [apply Rabs_pos|]. unfold Rmax, Rabs. repeat (destruct (Rcase_abs _)); destruct (Rle_dec _ _); lra.
Qed.
Definition prog71 : program R := Program
  (@Graph jvar (prim R) (list jvar) [Var 0] [Var 6]
     [Op mul_p [Var 0; Var 0] [Var 1]; Op sub_p [Var 1; Var 0] [Var 2]; Op (integer_pow_p 3) [Var 2] [Var 3];
      Op (elementwise_p JaxBound.Abs) [Var 0] [Var 4]; Op add_p [Var 3; Var 4] [Var 5]; Op (reduce_sum_p [0%nat]) [Var 5] [Var 6]] []) (fun _ => tscalar 0).
Definition v2 (a b : R) : tensor R := of_list 0 [2%nat] [a; b].
(** Evaluate one innermost rounding to the integer [z]. *)
Local Ltac round_to z := match goal with |- context [b32 ?e] =>
  match e with context [b32 _] => fail 1 | _ => idtac end;
  replace e with (IZR z) by (unfold Rabs; repeat destruct (Rcase_abs _); lra); rewrite (b32_int z) by (simpl; lia) end.
Theorem C71_nonvacuous : exists x0 region x y b,
  rounding b32 /\ (forall o, In o (gops (p_graph prog71)) -> float_prim b32 sc2 gs2 (odata o)) /\
  in_box x0 region x /\ float_array b32 x /\ x0 <> x /\ tdata (fst region) [0%nat] < tdata (snd region) [0%nat] /\ (forall n, float_array b32 (p_lits prog71 n)) /\
  @meaning R (NumF b32) sc2 prog71 [] x = Some [y] /\
  @taylor_bounds R (NumF b32) sc2 gs2 prog71 [] 0 false x0 region = Ok b /\
  (forall x', tshape x' = tshape x0 -> float_bounds_at b32 b x' y) /\ tdata y [] = 19.
Proof.
  assert (B : forall l, tshape l = [2%nat] -> b32 (tdata l [0%nat]) = tdata l [0%nat] -> b32 (tdata l [1%nat]) = tdata l [1%nat] -> float_array b32 l).
  { intros l S A0 A1 J HJ. rewrite S in HJ. destruct J as [|j [|]]; try (inversion HJ; fail); inversion HJ as [|? ? ? ? Hj HN]; subst; [|inversion HN]. destruct j as [|[|]]; auto; lia. }
  assert (P : forall o, In o (gops (p_graph prog71)) -> float_prim b32 sc2 gs2 (odata o)).
  { intros o [<-|[<-|[<-|[<-|[<-|[<-|[]]]]]]]; try exact I; [intros C; lia|exact abs_valid]. }
  assert (X : in_box (v2 0 0) (v2 (-1) (-1), v2 2 2) (v2 2 (-1))).
  { split; [reflexivity|]. split; [reflexivity|]. split; [reflexivity|]. simpl. intros J HJ. destruct J as [|j [|]]; try (inversion HJ; fail); inversion HJ as [|? ? ? ? Hj HN]; subst; [|inversion HN]. destruct j as [|[|]]; simpl; lra || lia. }
  assert (F : float_array b32 (v2 2 (-1))) by (apply B; simpl; [auto|apply (b32_int 2); simpl; lia|apply (b32_int (-1)); simpl; lia]).
  assert (L : forall n, float_array b32 (p_lits prog71 n)) by (intros n J HJ; apply b32_0).
  assert (HM : exists y, @meaning R (NumF b32) sc2 prog71 [] (v2 2 (-1)) = Some [y] /\ tdata y [] = 19).
  { eexists. split; [unfold meaning, run_graph; cbn; reflexivity|]. cbn.
    assert (I : forall z, (Z.abs z < 16777216)%Z -> b32 (IZR z) = IZR z) by exact b32_int.
    replace (2 * 2) with 4 by ring. rewrite (I 4%Z) by (simpl; lia). replace (4 - 2) with 2 by ring. replace (-1 * -1) with 1 by ring. rewrite (I 1%Z) by (simpl; lia). replace (1 - -1) with 2 by ring.
    rewrite (I 2%Z) by (simpl; lia). change (Pos.to_nat 3) with 3%nat. cbn.
    repeat first [round_to 1%Z|round_to 2%Z|round_to 4%Z|round_to 8%Z|round_to 9%Z|round_to 10%Z|round_to 19%Z]. reflexivity. }
  assert (HB : exists b, @taylor_bounds R (NumF b32) sc2 gs2 prog71 [] 0 false (v2 0 0) (v2 (-1) (-1), v2 2 2) = Ok b) .
  { set (t := @taylor_bounds R (NumF b32) sc2 gs2 prog71 [] 0 false (v2 0 0) (v2 (-1) (-1), v2 2 2)).
    assert (E : match t with Ok _ => true | Err _ => false end = true) by (vm_compute; reflexivity). destruct t as [b|]; [exists b; reflexivity|discriminate]. }
  destruct HM as (y & HM & Ey), HB as (b & HB).
  exists (v2 0 0), (v2 (-1) (-1), v2 2 2), (v2 2 (-1)), y, b.
  split; [exact b32_rounding|]. split; [exact P|]. split; [exact X|]. split; [exact F|]. split; [intros C; apply (f_equal (fun t => tdata t [0%nat])) in C; simpl in C; lra|].
  split; [simpl; lra|]. split; [exact L|]. split; [exact HM|]. split; [exact HB|].
  split; [intros x' Hx'; eapply C71_degree_0_bounds_contain_float_values; [exact b32_rounding|exact P|exact X|exact F|constructor|exact L|exact HM|exact HB|exact Hx']|exact Ey].
Qed.
