(** Property C77: the quadratic bounds of README.md are the best ones. *)
From Coq Require Import Reals Lra.
From Coquelicot Require Import Coquelicot.
From Verif Require Import Base Tensor IntervalArith Polynomials Enclosure TensorLemmas Spec GraphEditor GraphSpec Elementwise Primitive ElementSpec Analysis ElementwiseProofs PropElementwise PrimitiveProofs PropPrimitive
  JaxBound JaxSpec JaxTable ExamplesJax Quickstart.
Open Scope R_scope.

(** ** Specification *)
(** The function bounded, README.md:29. *)
Definition curve (g : R -> R) (al be ga x : R) : R := al * g (be * x) - ga * x ^ 2.
(** [q] is a quadratic that meets [f] at [x0]; its slope there is [a1]. *)
Definition touching (f : R -> R) (x0 a1 a2 x : R) : R := f x0 + a1 * (x - x0) + a2 * (x - x0) ^ 2.
(** [lower] and [upper] are the functions computed by [bounds.lower] and
    [bounds.upper]. *)
Definition computes_bounds (b : taylor_bounds_t R) (lower upper : R -> R) : Prop := forall x, exists l h,
  tb_lower b (tscalar x) = Ok l /\ tb_upper b (tscalar x) = Ok h /\ tshape l = [] /\ tshape h = [] /\
  tdata l [] = lower x /\ tdata h [] = upper x.
(** [lower] and [upper] bound [f] on [l, h] and meet it at [x0], and no quadratic that meets [f] at [x0] and bounds
    it on the region is better anywhere.  At an end point [x0] this is restricted
    to quadratics of slope [f1]. *)
Definition best_quadratics (f : R -> R) (f1 l x0 h : R) (lower upper : R -> R) : Prop :=
  (forall x, l <= x <= h -> lower x <= f x <= upper x) /\
  lower x0 = f x0 /\ upper x0 = f x0 /\
  forall a1 a2, l < x0 < h \/ a1 = f1 ->
    ((forall x, l <= x <= h -> f x <= touching f x0 a1 a2 x) -> forall x, upper x <= touching f x0 a1 a2 x) /\
    ((forall x, l <= x <= h -> touching f x0 a1 a2 x <= f x) -> forall x, touching f x0 a1 a2 x <= lower x).

(** ** Proofs *)
Lemma slope_le f1 cl a1 a2 d : 0 < d -> (forall z, 0 < z <= d -> f1 * z + cl * z ^ 2 <= a1 * z + a2 * z ^ 2) -> f1 <= a1.
Proof.
  intros Hd H. apply Rnot_lt_le. intro L.
  set (k := Rabs (a2 - cl) + 1). assert (K : 0 < k /\ a2 - cl <= k) by (unfold k; split; [assert (P := Rabs_pos (a2 - cl)); lra|assert (P := Rle_abs (a2 - cl)); lra]).
  set (z := Rmin d ((f1 - a1) / (2 * k))).
  assert (Z1 : 0 < (f1 - a1) / (2 * k)) by (apply Rdiv_lt_0_compat; lra).
  assert (Z : 0 < z <= d /\ z <= (f1 - a1) / (2 * k)) by (unfold z; unfold Rmin; destruct Rle_dec; lra).
  assert (E : k * ((f1 - a1) / (2 * k)) = (f1 - a1) / 2) by (field; lra).
  assert (B := H z (proj1 Z)). assert (z * (f1 - a1) <= z * ((a2 - cl) * z)) by (simpl in B; lra).
  assert (f1 - a1 <= (a2 - cl) * z) by (apply (Rmult_le_reg_l z); lra).
  assert ((a2 - cl) * z <= k * z) by (apply Rmult_le_compat_r; lra).
  assert (k * z <= k * ((f1 - a1) / (2 * k))) by (apply Rmult_le_compat_l; lra). lra.
Qed.
Lemma at_centre_below Rm l x0 h lo : (forall eps, 0 < eps -> exists x, l <= x <= h /\ x <> x0 /\ Rabs (Rm x - Rm x0) <= eps) ->
  (forall x, l <= x <= h -> x <> x0 -> Rm x <= lo) -> Rm x0 <= lo.
Proof.
  intros Near H. apply Rnot_lt_le. intro L. destruct (Near ((Rm x0 - lo) / 2)) as (x & Hx & Ne & A); [lra|].
  specialize (H x Hx Ne). apply Rabs_le_between in A. lra.
Qed.
Lemma sq_pos z : z <> 0 -> 0 < z ^ 2.
Proof. intro. replace (z ^ 2) with (z * z) by ring. destruct (Rtotal_order z 0) as [|[|]]; nra. Qed.

Lemma best_upper f Rm f1 l x0 h ch : l < h -> l <= x0 <= h ->
  (forall x, l <= x <= h -> f x = touching f x0 f1 (Rm x) x) ->
  (exists cl, forall x, l <= x <= h -> cl <= Rm x) ->
  (forall eps, 0 < eps -> exists x, l <= x <= h /\ x <> x0 /\ Rabs (Rm x - Rm x0) <= eps) ->
  (exists x, l <= x <= h /\ Rm x = ch) ->
  forall a1 a2, l < x0 < h \/ a1 = f1 ->
  (forall x, l <= x <= h -> f x <= touching f x0 a1 a2 x) -> forall x, touching f x0 f1 ch x <= touching f x0 a1 a2 x.
Proof.
  intros Hlh Hx0 Tay (cl & Bl) Near (xc & Hxc & Exc) a1 a2 Hs B x.
  assert (D : forall x, l <= x <= h -> f1 * (x - x0) + Rm x * (x - x0) ^ 2 <= a1 * (x - x0) + a2 * (x - x0) ^ 2).
  { intros y Hy. specialize (B y Hy). rewrite (Tay y Hy) in B. unfold touching in B. lra. }
  assert (S : a1 = f1).
  { destruct Hs as [Hs|]; [|auto]. apply Rle_antisym.
    - assert (- f1 <= - a1); [|lra].
      apply (slope_le (- f1) cl (- a1) a2 (x0 - l)); [lra|]. intros z Hz.
      assert (D1 := D (x0 - z) ltac:(lra)). replace (x0 - z - x0) with (- z) in D1 by ring.
      assert (B1 := Bl (x0 - z) ltac:(lra)). assert (0 < z ^ 2) by (apply sq_pos; lra).
      replace ((- z) ^ 2) with (z ^ 2) in D1 by ring. nra.
    - apply (slope_le f1 cl a1 a2 (h - x0)); [lra|]. intros z Hz.
      assert (D1 := D (x0 + z) ltac:(lra)). replace (x0 + z - x0) with z in D1 by ring.
      assert (B1 := Bl (x0 + z) ltac:(lra)). assert (0 < z ^ 2) by (apply sq_pos; lra). nra. }
  subst a1.
  assert (A : forall y, l <= y <= h -> y <> x0 -> Rm y <= a2).
  { intros y Hy Ne. assert (P := sq_pos (y - x0) ltac:(lra)). specialize (D y Hy). apply (Rmult_le_reg_r ((y - x0) ^ 2)); lra. }
  assert (C : ch <= a2).
  { rewrite <- Exc. destruct (Req_EM_T xc x0) as [->|Ne]; [|auto]. apply (at_centre_below Rm l x0 h); auto. }
  unfold touching. assert (P : 0 <= (x - x0) ^ 2) by apply pow2_ge_0. nra.
Qed.

Lemma best_lower f Rm f1 l x0 h cl : l < h -> l <= x0 <= h ->
  (forall x, l <= x <= h -> f x = touching f x0 f1 (Rm x) x) ->
  (exists ch, forall x, l <= x <= h -> Rm x <= ch) ->
  (forall eps, 0 < eps -> exists x, l <= x <= h /\ x <> x0 /\ Rabs (Rm x - Rm x0) <= eps) ->
  (exists x, l <= x <= h /\ Rm x = cl) ->
  forall a1 a2, l < x0 < h \/ a1 = f1 ->
  (forall x, l <= x <= h -> touching f x0 a1 a2 x <= f x) -> forall x, touching f x0 a1 a2 x <= touching f x0 f1 cl x.
Proof.
  intros Hlh Hx0 Tay (ch & Bh) Near (xc & Hxc & Exc) a1 a2 Hs B x.
  assert (G := best_upper (fun x => - f x) (fun x => - Rm x) (- f1) l x0 h (- cl) Hlh Hx0).
  assert (Q : touching (fun x => - f x) x0 (- f1) (- cl) x <= touching (fun x => - f x) x0 (- a1) (- a2) x).
  { apply G.
    - intros y Hy. rewrite (Tay y Hy) at 1. unfold touching. ring.
    - exists (- ch). intros y Hy. specialize (Bh y Hy). lra.
    - intros eps He. destruct (Near eps He) as (y & Hy & Ne & A). exists y. split; [auto|]. split; [auto|].
      rewrite <- Rabs_Ropp. replace (- (- Rm y - - Rm x0)) with (Rm y - Rm x0) by ring. auto.
    - exists xc. split; auto. lra.
    - destruct Hs; [auto|right; lra].
    - intros y Hy. specialize (B y Hy). unfold touching in *. lra. }
  unfold touching in *. lra.
Qed.

(** [g] with derivatives [F] on [D], the second one increasing and continuous. *)
Lemma quickstart_best : forall (sc : scalars R) (gs : generators R) e gen (D : R -> Prop) F al be ga x0 l h,
  gen_elem gs e = lift_gen gen -> l < h -> l <= x0 <= h ->
  convex D -> D (be * l) -> D (be * h) -> deriv_chain D F 2 -> increasing_on D (F 2%nat) -> continuity_pt (F 2%nat) (be * x0) ->
  gen (be * x0) (Rmin (be * l) (be * h), Rmax (be * l) (be * h)) 2%nat =
    Ok ([F 0%nat (be * x0); F 1%nat (be * x0)],
        (rho F (be * x0) 2 (Rmin (be * l) (be * h)), rho F (be * x0) 2 (Rmax (be * l) (be * h)))) ->
  let f := curve (F 0%nat) al be ga in
  exists b c0 c1 cl ch,
    taylor_bounds sc gs (quickstart e al be ga) [] 2 false (tscalar x0) (tscalar l, tscalar h) = Ok b /\
    tb_coefficients b = [Arr c0; Arr c1; Ivl cl ch] /\
    (tshape c0 = [] /\ tshape c1 = [] /\ tshape cl = [] /\ tshape ch = []) /\
    tdata c0 [] = f x0 /\ tdata c1 [] = al * (be * F 1%nat (be * x0)) - 2 * ga * x0 /\
    let lower := touching f x0 (tdata c1 []) (tdata cl []) in let upper := touching f x0 (tdata c1 []) (tdata ch []) in
    computes_bounds b lower upper /\
      best_quadratics f (tdata c1 []) l x0 h lower upper /\
      (0 <= al * be -> lower l = f l /\ upper h = f h) /\
      (al * be <= 0 -> upper l = f l /\ lower h = f h).
Proof.
  intros sc gs e gen D F al be ga x0 l h Eg Hlh Hx0 HD Dl Dh HF HM Hc E f.
  destruct (quickstart_runs sc gs e gen al be ga x0 l h _ _ _ _ Eg Hx0 E) as (c0 & c1 & cl & ch & Hb & E0 & E1 & El & Eh).
  do 5 eexists. split; [exact Hb|]. cbn [tb_coefficients]. split; [reflexivity|].
  split; [repeat split|]. cbn [tdata].
  assert (DD : forall x, l <= x <= h -> D (be * x)).
  { intros x Hx. destruct (Rle_dec 0 be); [apply (HD (be * l) _ (be * h)); auto; nra|apply (HD (be * h) _ (be * l)); auto; nra]. }
  split; [unfold f, curve; lra|]. split; [exact E1|].
  pose (Rm := fun x => al * (be ^ 2 * rho F (be * x0) 2 (be * x)) - ga).
  assert (Tay : forall x, f x = touching f x0 c1 (Rm x) x).
  { intro x. assert (T := rho_taylor' F (be * x0) 2 (be * x)). cbn [tpoly] in T. simpl (fact _) in T. simpl (INR _) in T.
    unfold touching, f, curve, Rm. rewrite T, E1. field. }
  assert (RI := rho_increasing 2 D F (be * x0) HD (DD x0 Hx0) HF HM).
  assert (Mono : forall x y, l <= x <= h -> l <= y <= h -> x <= y ->
            (0 <= al * be -> Rm x <= Rm y) /\ (al * be <= 0 -> Rm y <= Rm x)).
  { intros x y Hx Hy L. unfold Rm.
    set (u := rho F (be * x0) 2 (be * x)). set (v := rho F (be * x0) 2 (be * y)).
    assert (P : (0 <= be -> u <= v) /\ (be <= 0 -> v <= u)).
    { split; intro Hbe; apply RI; auto; nra. }
    destruct P as [P1 P2].
    assert (Q : be * u <= be * v). { destruct (Rle_dec 0 be); [specialize (P1 r); nra|specialize (P2 ltac:(lra)); nra]. }
    replace (al * (be ^ 2 * u)) with (al * be * (be * u)) by ring. replace (al * (be ^ 2 * v)) with (al * be * (be * v)) by ring.
    split; intro; nra. }
  assert (Ends : (0 <= al * be -> cl = Rm l /\ ch = Rm h) /\ (al * be <= 0 -> cl = Rm h /\ ch = Rm l)).
  { assert (M := Mono l h ltac:(lra) ltac:(lra) ltac:(lra)). unfold Rm in *. revert M El Eh.
    destruct (Rle_dec 0 be) as [Hb0|Hb0].
    - rewrite (Rmin_left (be * l) (be * h)), (Rmax_right (be * l) (be * h)) by nra.
      set (u := al * _). set (v := al * _). intros [M1 M2] El Eh.
      split; intro S; [specialize (M1 S)|specialize (M2 S)]; minmax; lra.
    - rewrite (Rmin_right (be * l) (be * h)), (Rmax_left (be * l) (be * h)) by nra.
      set (u := al * _). set (v := al * _). intros [M1 M2] El Eh.
      split; intro S; [specialize (M1 S)|specialize (M2 S)]; minmax; lra. }
  assert (Between : forall x, l <= x <= h -> cl <= Rm x <= ch).
  { intros x Hx. assert (M1 := Mono l x ltac:(lra) Hx ltac:(lra)). assert (M2 := Mono x h Hx ltac:(lra) ltac:(lra)).
    destruct Ends as [En1 En2]. destruct (Rle_dec 0 (al * be)) as [S|S].
    - destruct (En1 S) as [-> ->]. split; [apply M1|apply M2]; auto.
    - assert (S' : al * be <= 0) by lra. destruct (En2 S') as [-> ->]. split; [apply M2|apply M1]; auto. }
  assert (Near : forall eps, 0 < eps -> exists x, l <= x <= h /\ x <> x0 /\ Rabs (Rm x - Rm x0) <= eps).
  { intros eps He. set (K := Rabs (al * be ^ 2) + 1).
    assert (HK : 0 < K /\ Rabs (al * be ^ 2) <= K) by (unfold K; assert (P := Rabs_pos (al * be ^ 2)); lra).
    destruct (Hc (eps / K)) as (d & Hd & Hcl). { apply Rdiv_lt_0_compat; lra. }
    set (B := Rabs be + 1). assert (HB : 0 < B /\ Rabs be < B) by (unfold B; assert (P := Rabs_pos be); lra).
    assert (HdB : 0 < d / B) by (apply Rdiv_lt_0_compat; lra).
    assert (Pt : exists x, l <= x <= h /\ x <> x0 /\ Rabs (x - x0) <= d / B).
    { destruct (Rlt_dec x0 h) as [L|L].
      - exists (Rmin h (x0 + d / B)). unfold Rmin. destruct Rle_dec; rewrite Rabs_right; lra.
      - exists (Rmax l (x0 - d / B)). unfold Rmax. destruct Rle_dec; rewrite Rabs_left; lra. }
    destruct Pt as (x & Hx & Ne & Hd2). exists x. split; [auto|]. split; [auto|].
    destruct (rho_lagrange 2 D F (be * x0) (be * x) HD (DD x0 Hx0) (DD x Hx) HF) as (xi & Hxi & Dxi & Exi).
    unfold Rm. rewrite Exi, rho_x0. simpl (fact 2). simpl (INR 2).
    replace (al * (be ^ 2 * (F 2%nat xi / (1 + 1))) - ga - (al * (be ^ 2 * (F 2%nat (be * x0) / (1 + 1))) - ga))
      with (al * be ^ 2 * ((F 2%nat xi - F 2%nat (be * x0)) / 2)) by field.
    assert (A : Rabs ((F 2%nat xi - F 2%nat (be * x0)) / 2) <= eps / K).
    { assert (A0 : Rabs (F 2%nat xi - F 2%nat (be * x0)) <= eps / K).
      { destruct (Req_EM_T xi (be * x0)) as [->|Nx].
        - replace (F 2%nat (be * x0) - F 2%nat (be * x0)) with 0 by ring. rewrite Rabs_R0. left. apply Rdiv_lt_0_compat; lra.
        - left. apply (Hcl xi). split; [split; [exact I|auto]|]. simpl. unfold R_dist.
          apply Rle_lt_trans with (Rabs (be * x - be * x0)).
          + revert Hxi. unfold Rmin, Rmax. destruct (Rle_dec (be * x0) (be * x)); intro.
            * rewrite !Rabs_right by lra. lra.
            * rewrite !Rabs_left1 by lra. lra.
          + replace (be * x - be * x0) with (be * (x - x0)) by ring. rewrite Rabs_mult.
            apply Rle_lt_trans with (Rabs be * (d / B)); [apply Rmult_le_compat_l; [apply Rabs_pos|auto]|].
            replace d with (B * (d / B)) at 2 by (field; lra). apply Rmult_lt_compat_r; lra. }
      unfold Rdiv at 1. rewrite Rabs_mult, (Rabs_right (/ 2)) by lra. assert (P := Rabs_pos (F 2%nat xi - F 2%nat (be * x0))). lra. }
    rewrite Rabs_mult. replace eps with (K * (eps / K)) by (field; lra).
    apply Rmult_le_compat; auto using Rabs_pos; lra. }
  assert (Hcl : exists x, l <= x <= h /\ Rm x = cl).
  { destruct Ends as [En1 En2]. destruct (Rle_dec 0 (al * be)) as [S|S]; [exists l|exists h]; (split; [lra|]); [destruct (En1 S)|destruct (En2 ltac:(lra))]; auto. }
  assert (Hch : exists x, l <= x <= h /\ Rm x = ch).
  { destruct Ends as [En1 En2]. destruct (Rle_dec 0 (al * be)) as [S|S]; [exists h|exists l]; (split; [lra|]); [destruct (En1 S)|destruct (En2 ltac:(lra))]; auto. }
  assert (Hlc : cl <= ch) by (specialize (Between x0 Hx0); lra).
  assert (F0 : f x0 = c0) by (unfold f, curve; lra).
  split; [|split; [|split]].
  - intro x. do 2 eexists. split; [reals; reflexivity|]. split; [reals; reflexivity|]. split; [reflexivity|]. split; [reflexivity|].
    cbn [tdata]. unfold touching. rewrite F0. assert (P : 0 <= (x - x0) ^ 2) by apply pow2_ge_0.
    replace ((x - x0) * ((x - x0) * 1)) with ((x - x0) ^ 2) by ring.
    rewrite Rmin_left, Rmax_right by (apply Rmult_le_compat_r; auto). split; ring.
  - split; [|split; [|split]].
    + intros x Hx. rewrite (Tay x). unfold touching at 1 4. specialize (Between x Hx).
      assert (P : 0 <= (x - x0) ^ 2) by apply pow2_ge_0. unfold touching. nra.
    + unfold touching. ring.
    + unfold touching. ring.
    + intros a1 a2 Hs. split.
      * apply (best_upper f Rm c1 l x0 h ch); auto. exists cl. intros y Hy. apply (Between y Hy).
      * apply (best_lower f Rm c1 l x0 h cl); auto. exists ch. intros y Hy. apply (Between y Hy).
  - intro S. destruct (proj1 Ends S) as [-> ->]. split; symmetry; apply Tay.
  - intro S. destruct (proj2 Ends S) as [-> ->]. split; symmetry; apply Tay.
Qed.

(** A builtin function whose second derivative the table says is increasing. *)
Lemma increasing_value : forall n d x0 a b,
  PropElementwise.supported n 2 = true -> domain n a -> a <= x0 <= b ->
  get_function_data (n, 2%nat) = Ok d -> mono_inc d = true ->
  cap_ok 2 x0 a -> cap_ok 2 x0 b ->
  get_elementwise_taylor_enclosure (n, 0%nat) x0 (a, b) 2%nat = Ok ([Fof n 0 x0; Fof n 1 x0], (rho (Fof n) x0 2 a, rho (Fof n) x0 2 b)).
Proof.
  intros n d x0 a b Sk Da Hx0 Hd Hm Ca Cb.
  assert (Dx : forall x, a <= x <= b -> domain n x).
  { intros x Hx. destruct n; simpl in *; auto; try exact I. unfold positive in *; lra. }
  destruct (Fof_ok n 0 (supported_le n 0 2 (Nat.le_0_l 2) Sk)) as (g & Hg & Hgx).
  unfold get_elementwise_taylor_enclosure. rewrite Hg. cbn [bind].
  unfold derivative_id. cbn [fst snd]. rewrite Nat.add_0_l, Hd. cbn [bind]. rewrite Hm. cbn [orb].
  rewrite taylor_coeffs_ok by auto. cbn [bind].
  rewrite sharp_of_rho by (auto; try (apply Hgx, Dx; lra)). unfold taylor_list. cbn [seq map firstn].
  simpl (fact _). simpl (INR _). unfold Rdiv. rewrite Rinv_1, !Rmult_1_r. reflexivity.
Qed.
Lemma cap_min k x0 a b : cap_ok k x0 a -> cap_ok k x0 b -> cap_ok k x0 (Rmin a b) /\ cap_ok k x0 (Rmax a b).
Proof. intros. unfold Rmin, Rmax. destruct Rle_dec; auto. Qed.
Lemma scaled_between be l x0 h : l <= x0 <= h -> Rmin (be * l) (be * h) <= be * x0 <= Rmax (be * l) (be * h).
Proof.
  intros H. destruct (Rle_dec 0 be) as [B|B].
  - rewrite Rmin_left, Rmax_right by (apply Rmult_le_compat_l; lra). split; apply Rmult_le_compat_l; lra.
  - rewrite Rmin_right, Rmax_left by (apply Rmult_le_compat_neg_l; lra). split; apply Rmult_le_compat_neg_l; lra.
Qed.

(** * C77 *)
(** README.md:26-38 for all numbers: the bounds of al * exp(be * x) - ga * x ** 2. *)
Theorem C77_exp_bounds_best : forall usr ugen al be ga l x0 h,
  l < h -> l <= x0 <= h -> cap_ok 2 (be * x0) (be * l) -> cap_ok 2 (be * x0) (be * h) ->
  let f := curve exp al be ga in
  exists b c0 c1 cl ch,
    taylor_bounds (scalarsR usr) (generatorsR ugen) (quickstart Exp al be ga) [] 2 false (tscalar x0) (tscalar l, tscalar h) = Ok b /\
    tb_coefficients b = [Arr c0; Arr c1; Ivl cl ch] /\
    (tshape c0 = [] /\ tshape c1 = [] /\ tshape cl = [] /\ tshape ch = []) /\
    tdata c0 [] = f x0 /\ tdata c1 [] = al * (be * exp (be * x0)) - 2 * ga * x0 /\
    let lower := touching f x0 (tdata c1 []) (tdata cl []) in let upper := touching f x0 (tdata c1 []) (tdata ch []) in
    computes_bounds b lower upper /\
      best_quadratics f (tdata c1 []) l x0 h lower upper /\
      (0 <= al * be -> lower l = f l /\ upper h = f h) /\
      (al * be <= 0 -> upper l = f l /\ lower h = f h).
Proof.
  intros usr ugen al be ga l x0 h Hlh Hx0 Ca Cb.
  destruct (cap_min _ _ _ _ Ca Cb) as [C1 C2].
  apply (quickstart_best (scalarsR usr) (generatorsR ugen) Exp exp_enclosure everywhere (Fof EXP)); auto; try exact I.
  - exact everywhere_convex.
  - exact (Fof_chain EXP 2 ltac:(discriminate) eq_refl).
  - exact exp_inc.
  - apply derivable_continuous_pt, derivable_pt_exp.
  - apply (increasing_value EXP _ (be * x0) _ _ eq_refl I (scaled_between _ _ _ _ Hx0) eq_refl eq_refl C1 C2).
Qed.

(** The same for log, for a scaled region [be * l, be * h] of positive numbers. *)
Theorem C77_log_bounds_best : forall usr ugen al be ga l x0 h,
  l < h -> l <= x0 <= h -> 0 < be * l -> 0 < be * h -> cap_ok 2 (be * x0) (be * l) -> cap_ok 2 (be * x0) (be * h) ->
  let f := curve ln al be ga in
  exists b c0 c1 cl ch,
    taylor_bounds (scalarsR usr) (generatorsR ugen) (quickstart Log al be ga) [] 2 false (tscalar x0) (tscalar l, tscalar h) = Ok b /\
    tb_coefficients b = [Arr c0; Arr c1; Ivl cl ch] /\
    (tshape c0 = [] /\ tshape c1 = [] /\ tshape cl = [] /\ tshape ch = []) /\
    tdata c0 [] = f x0 /\ tdata c1 [] = al * (be * / (be * x0)) - 2 * ga * x0 /\
    let lower := touching f x0 (tdata c1 []) (tdata cl []) in let upper := touching f x0 (tdata c1 []) (tdata ch []) in
    computes_bounds b lower upper /\
      best_quadratics f (tdata c1 []) l x0 h lower upper /\
      (0 <= al * be -> lower l = f l /\ upper h = f h) /\
      (al * be <= 0 -> upper l = f l /\ lower h = f h).
Proof.
  intros usr ugen al be ga l x0 h Hlh Hx0 Pl Ph Ca Cb.
  destruct (cap_min _ _ _ _ Ca Cb) as [C1 C2].
  assert (HF : deriv_chain positive (Fof LOG) 2) by exact (Fof_chain LOG 2 ltac:(discriminate) eq_refl).
  assert (P0 : 0 < be * x0). { destruct (Rle_dec 0 be); nra. }
  destruct (quickstart_best (scalarsR usr) (generatorsR ugen) Log log_enclosure positive (Fof LOG) al be ga x0 l h)
    as (b & c0 & c1 & cl & ch & Hb & Ec & Sh & E0 & E1 & H); auto.
  - intros x y z Hx Hz L. unfold positive in *. lra.
  - exact (logF_mono 2).
  - apply derivable_continuous_pt. apply ex_derive_Reals_0. eexists. apply (logF_derive 2). exact P0.
  - apply (increasing_value LOG (FData [] [] false true false) (be * x0) _ _ eq_refl).
    + simpl. unfold positive, Rmin. destruct Rle_dec; auto.
    + apply scaled_between; auto.
    + reflexivity.
    + reflexivity.
    + exact C1.
    + exact C2.
  - exists b, c0, c1, cl, ch. split; [exact Hb|]. split; [exact Ec|]. split; [exact Sh|]. split; [exact E0|]. split; [|exact H].
    rewrite E1. cbn [Fof]. unfold logF. simpl. rewrite !Rmult_1_r, Rmult_1_l. reflexivity.
Qed.

(** The numbers of README.md:29-38. *)
Theorem C77_readme : forall usr ugen, exists b c0 c1 cl ch,
  taylor_bounds (scalarsR usr) (generatorsR ugen) (quickstart Exp (3 / 2) 3 25) [] 2 false (tscalar (1 / 2)) (tscalar 0, tscalar 1) = Ok b /\
  tb_coefficients b = [Arr c0; Arr c1; Ivl cl ch] /\
  tdata c0 [] = 3 / 2 * exp (3 / 2) - 25 / 4 /\ tdata c1 [] = 9 / 2 * exp (3 / 2) - 25 /\
  tdata cl [] = 6 + 3 * exp (3 / 2) - 25 /\ tdata ch [] = 6 * exp 3 - 15 * exp (3 / 2) - 25 /\
  exists l h, tb_lower b (tscalar 0) = Ok l /\ tb_upper b (tscalar 1) = Ok h /\
    tdata l [] = 3 / 2 /\ tdata h [] = 3 / 2 * exp 3 - 25.
Proof.
  intros usr ugen.
  destruct (C77_exp_bounds_best usr ugen (3 / 2) 3 25 0 (1 / 2) 1) as (b & c0 & c1 & cl & ch & Hb & Ec & (S0 & S1 & Sl & Sh) & E0 & E1 & Cb & _ & Up & _); try lra.
  { right. rewrite Rabs_left1 by lra. simpl. lra. }
  { right. rewrite Rabs_right by lra. simpl. lra. }
  exists b, c0, c1, cl, ch. split; [exact Hb|]. split; [exact Ec|].
  destruct (Up ltac:(lra)) as [L0 U1].
  unfold curve, touching in E0, E1, L0, U1.
  replace (3 * 0) with 0 in * by ring. replace (3 * 1) with 3 in * by ring. replace (3 * (1 / 2)) with (3 / 2) in * by field. rewrite exp_0 in *.
  split; [lra|]. split; [lra|]. split; [lra|]. split; [lra|].
  destruct (Cb 0) as (l & _ & Hl & _ & _ & _ & Dl & _). destruct (Cb 1) as (_ & h & _ & Hh & _ & _ & _ & Dh).
  exists l, h. split; [exact Hl|]. split; [exact Hh|]. unfold touching, curve in Dl, Dh. replace (3 * (1 / 2)) with (3 / 2) in * by field. split; lra.
Qed.
(** The hypotheses for log are met too. *)
Example C77_nonvacuous : 1 < 2 /\ 1 <= 3 / 2 <= 2 /\ 0 < 1 * 1 /\ 0 < 1 * 2 /\ cap_ok 2 (1 * (3 / 2)) (1 * 1) /\ cap_ok 2 (1 * (3 / 2)) (1 * 2).
Proof. repeat split; try lra; right; [rewrite Rabs_left1 by lra|rewrite Rabs_right by lra]; simpl; lra. Qed.
