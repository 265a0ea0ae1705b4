(** Concrete cases meeting the hypotheses of C21, C46, C52 and C54. *)
From Coq Require Import Reals Lra.
From Verif Require Import Base Tensor IntervalArith Polynomials Enclosure TensorLemmas Spec IntervalProofs PropEnclosure PropDegree GraphEditor GraphSpec Elementwise Primitive ElementSpec PropElementwise PropPrimitive PropPower PropPowerZero
  JaxBound JaxSpec JaxLemmas JaxOps JaxTable JaxTableProofs PropJax PropClear PropTable PropJaxLimits.
Open Scope R_scope.

(** (3 + z) / (3 + z) for -1 <= z <= 1, degree 1. *)
Definition ex21_tr : tensor R * tensor R := (tscalar (-1), tscalar 1).
Definition ex21 : list (coef R) := [Arr (tscalar 3); Arr (tscalar 1)].
Lemma pow_gen_runs x0 a b k : 0 < a -> a <= x0 <= b -> cap_ok k x0 a -> cap_ok k x0 b ->
  exists cs l h, pow_gen (-1) x0 (a, b) k = Ok (cs, (l, h)) /\ length cs = k.
Proof.
  intros. destruct (C37_pow_enclosure_valid_positive (-1) k x0 a b) as (cs & l & h & E & V & _); auto. exists cs, l, h. unfold pow_gen. rewrite E. auto.
Qed.
Ltac no_mm a := lazymatch a with context [Rmin] => fail | context [Rmax] => fail | _ => idtac end.
Ltac rcompute := cbv -[Rplus Rmult Ropp Rminus Rinv Rdiv Rmin Rmax IZR Rlt_dec Rle Rlt];
  repeat match goal with |- context [Rlt_dec ?a ?b] => destruct (Rlt_dec a b); try (exfalso; lra) end;
  repeat match goal with
  | |- context [Rmin ?a ?b] => no_mm a; no_mm b; (rewrite (Rmin_left a b) by lra) || (rewrite (Rmin_right a b) by lra)
  | |- context [Rmax ?a ?b] => no_mm a; no_mm b; (rewrite (Rmax_left a b) by lra) || (rewrite (Rmax_right a b) by lra)
  end; try lra.
Example C21_nonvacuous : exists range c,
  (forall z, -1 <= z <= 1 -> in_region [] ex21_tr (fun _ => z) /\ encloses (full []) [] [] ex21 (fun _ => z) (fun _ => 3 + z)) /\
  enclose_enclosure ex21 ex21_tr 0 = Ok [range] /\
  (forall s, valid [] s -> 0 < tdata (lo range) s /\ cap_ok 1 3 (tdata (lo range) s) /\ cap_ok 1 3 (tdata (hi range) s)) /\
  edivide (mkArith 1 ex21_tr) (fun n => lift_gen (pow_gen (IZR n))) ex21 ex21 = Ok c /\ length c = 2%nat.
Proof.
  assert (ER : exists l h, enclose_enclosure ex21 ex21_tr 0 = Ok [Ivl l h] /\ tshape l = [] /\ tshape h = [] /\ tdata l [] = 2 /\ tdata h [] = 4).
  { do 2 eexists. split; [reflexivity|]. split; [reflexivity|]. split; [reflexivity|]. split; rcompute. }
  destruct ER as (l & h & ER & Sl & Sh & Dl & Dh).
  assert (C1 : cap_ok 1 3 2) by (right; unfold Rabs; destruct Rcase_abs; simpl; lra).
  assert (C2 : cap_ok 1 3 4) by (right; unfold Rabs; destruct Rcase_abs; simpl; lra).
  destruct (pow_gen_runs 3 2 4 1) as (cs & pl & ph & EP & Lcs); auto; try lra.
  destruct cs as [|c0 [|]]; try discriminate.
  exists (Ivl l h).
  assert (EE : exists c, edivide (mkArith 1 ex21_tr) (fun n => lift_gen (pow_gen (IZR n))) ex21 ex21 = Ok c /\ length c = 2%nat).
  { unfold edivide, epower. simpl Z.leb. cbv iota. unfold elementwise_fun. cbn [trust_region max_degree]. rewrite ER.
    cbn [bind get_nth nth_error ex21]. unfold lift_gen. rewrite Sl, Sh.
    change (mapM (fun I => pow_gen (IZR (-1)) (tdata (tscalar 3) I) (tdata l I, tdata h I) 1%nat) (all_idx (tshape (tscalar 3))))
      with (bind (pow_gen (-1) 3 (tdata l [], tdata h []) 1%nat) (fun y => Ok [y])).
    rewrite Dl, Dh, EP. cbn [bind]. eexists. split; [vm_compute; reflexivity|reflexivity]. }
  destruct EE as (c & Ec & Lc). exists c. split; [|split; [exact ER|split; [|split; [exact Ec|exact Lc]]]].
  - intros z Hz. split.
    + split; [reflexivity|]. split; [reflexivity|]. intros J HJ. apply valid_nil in HJ. subst J. exact Hz.
    + split; [discriminate|]. intros s Hs. apply valid_nil in Hs. subst s. simpl. exists 3, z. split; [|split; [|ring]].
      * exists []. split; [reflexivity|]. split; [reflexivity|]. exists (fun _ => 3). split; [intros J _; reflexivity|]. unfold term_value. simpl. ring.
      * exists z, 0. split; [|split; [reflexivity|ring]]. exists []. split; [reflexivity|]. split; [reflexivity|]. exists (fun _ => 1).
        split; [intros J _; reflexivity|]. unfold term_value. simpl. ring.
  - intros s Hs. apply valid_nil in Hs. subst s. simpl. rewrite Dl, Dh. split; [lra|]. auto.
Qed.

(** x * exp x + 1 at 0 over [-1, 1], degree 2. *)
Definition ex46 : program R :=
  Program (@Graph jvar (prim R) (list jvar) [Var 0] [Var 3]
             [Op (elementwise_p Exp) [Var 0] [Var 1]; Op mul_p [Var 1; Var 0] [Var 2]; Op add_p [Var 2; Lit 0] [Var 3]] [])
          (fun _ => tscalar 1).
Definition no_usr : nat -> R -> res R := fun _ _ => Err KeyError.
Definition no_ugen : nat -> generator R := fun _ _ _ _ => Err KeyError.
Lemma no_user_valid n : valid_gen (no_ugen n) (no_usr n).
Proof. intros S x0 l h d e _ _ _ _ H. discriminate. Qed.

Lemma lift_scalar g x0 l h d cs a b : tshape x0 = [] -> tshape l = [] -> tshape h = [] ->
  g (tdata x0 []) (tdata l [], tdata h []) d = Ok (cs, (a, b)) ->
  lift_gen g x0 (l, h) d = Ok (map (fun i => Arr (of_list 0 [] [nth i cs 0])) (seq 0 d) ++ [Ivl (of_list 0 [] [a]) (of_list 0 [] [b])]).
Proof. intros E1 E2 E3 H. unfold lift_gen. rewrite E1, E2, E3. cbn [shape_eqb list_eqb andb all_idx mapM]. simpl. rewrite H. reflexivity. Qed.

Lemma exp_runs k x0 a b : a <= x0 <= b -> cap_ok k x0 a -> cap_ok k x0 b ->
  exists cs l h, checked (fun_guard EXP) exp_enclosure x0 (a, b) k = Ok (cs, (l, h)) /\ length cs = k.
Proof.
  intros Hx Ca Cb. destruct (C35_builtin_enclosures_valid EXP k x0 a b) as ([cs [l h]] & E & V & _); auto; try discriminate; try exact I.
  exists cs, l, h. split; [|exact V]. unfold checked. cbn [fst snd]. rewrite (cap_okb_true _ _ _ Ca), (cap_okb_true _ _ _ Cb). exact E.
Qed.

Lemma ex46_runs : exists b, taylor_bounds (scalarsR no_usr) (checked_generators no_ugen) ex46 [] 2 false (tscalar 0) (tscalar (-1), tscalar 1) = Ok b /\ length (tb_coefficients b) = 3%nat.
Proof.
  destruct (exp_runs 2 0 (-1) 1) as (cs & l & h & E & L); [lra| | |]; try (right; unfold Rabs; destruct Rcase_abs; simpl; lra).
  cbv -[lift_gen checked exp_enclosure fun_guard Rplus Rmult Ropp Rminus Rinv Rdiv Rmin Rmax IZR Rlt_dec Rle Rlt].
  match goal with |- context [lift_gen ?g ?x (?l0, ?h0) 2%nat] =>
    assert (EL : lift_gen g x (l0, h0) 2%nat = Ok (map (fun i => Arr (of_list 0 [] [nth i cs 0])) (seq 0 2) ++ [Ivl (of_list 0 [] [l]) (of_list 0 [] [h])])) end.
  { apply lift_scalar; try reflexivity. cbn [tdata].
    match goal with |- checked _ _ ?u (?v, ?w) _ = _ => replace u with 0 by reflexivity; replace v with (-1); [replace w with 1; [exact E|]|] end; rcompute. }
  rewrite EL. destruct cs as [|c0 [|c1 [|]]]; try discriminate. eexists. split; [vm_compute; reflexivity|reflexivity].
Qed.
Example C46_nonvacuous : forall x, -1 <= x <= 1 -> exists b,
  (forall o, In o (gops (p_graph ex46)) -> opaque_ok (odata o)) /\
  in_box (tscalar 0) (tscalar (-1), tscalar 1) (tscalar 0) /\ in_box (tscalar 0) (tscalar (-1), tscalar 1) (tscalar x) /\
  supported (scalarsR no_usr) [] 2 ex46 [] (tscalar x) /\
  taylor_bounds (scalarsR no_usr) (checked_generators no_ugen) ex46 [] 2 false (tscalar 0) (tscalar (-1), tscalar 1) = Ok b /\
  length (tb_coefficients b) = 3%nat /\
  exists y, meaning (scalarsR no_usr) ex46 [] (tscalar x) = Some [y] /\ tdata y [] = exp x * x + 1.
Proof.
  intros x Hx. destruct ex46_runs as (b & Hb & Lb). exists b. split; [|split; [|split; [|split; [|split; [|split]]]]]; auto.
  - intros o Ho. simpl in Ho. destruct Ho as [<-|[<-|[<-|[]]]]; exact I.
  - split; [reflexivity|]. split; [reflexivity|]. split; [reflexivity|]. intros J _. simpl. lra.
  - split; [reflexivity|]. split; [reflexivity|]. split; [reflexivity|]. intros J _. simpl. lra.
  - split; [reflexivity|]. split; [constructor|]. split; [intros; reflexivity|]. do 3 eexists. split; [reflexivity|]. split; [reflexivity|]. reflexivity.
  - eexists. split; [reflexivity|]. reflexivity.
Qed.

(** swish(x) + 1 at 1 over [-3, 3], degree 2: a degree whose table has rounded
    extrema. *)
Definition ex46_swish : program R :=
  Program (@Graph jvar (prim R) (list jvar) [Var 0] [Var 2]
             [Op (elementwise_p Swish) [Var 0] [Var 1]; Op add_p [Var 1; Lit 0] [Var 2]] [])
          (fun _ => tscalar 1).
Example C46_rounded_nonvacuous : exists b,
  taylor_bounds (scalarsR no_usr) (checked_generators no_ugen) ex46_swish [] 2 false (tscalar 1) (tscalar (-3), tscalar 3) = Ok b /\
  length (tb_coefficients b) = 3%nat.
Proof.
  destruct C35_away_nonvacuous as (Rt & Cl & C1 & C2 & _).
  destruct (C35_valid_away_from_rounding SWISH 2 _ 1 (-3) 3 Rt eq_refl Cl ltac:(lra) C1 C2) as ([cs [l h]] & E & V & _). cbn [fst] in V.
  assert (G : checked (fun_guard SWISH) swish_enclosure 1 (-3, 3) 2%nat = Ok (cs, (l, h))).
  { unfold checked. cbn [fst snd]. rewrite (cap_okb_true _ _ _ C1), (cap_okb_true _ _ _ C2). cbn [andb].
    replace (fun_guard SWISH 1 (-3, 3) 2%nat) with true; [exact E|]. unfold fun_guard, exact_guard, rounded_guard, clear_ofb. cbn.
    repeat (destruct Req_EM_T; [|]; cbn [orb andb]); repeat (destruct Rlt_dec; cbn [orb andb]); try reflexivity; exfalso; lra. }
  cbv -[lift_gen checked swish_enclosure fun_guard Rplus Rmult Ropp Rminus Rinv Rdiv Rmin Rmax IZR Rlt_dec Rle Rlt].
  match goal with |- context [lift_gen ?g ?x (?l0, ?h0) 2%nat] =>
    assert (EL : lift_gen g x (l0, h0) 2%nat = Ok (map (fun i => Arr (of_list 0 [] [nth i cs 0])) (seq 0 2) ++ [Ivl (of_list 0 [] [l]) (of_list 0 [] [h])])) end.
  { apply lift_scalar; try reflexivity. cbn [tdata].
    match goal with |- checked _ _ ?u (?v, ?w) _ = _ => replace u with 1 by reflexivity; replace v with (-3); [replace w with 3; [exact G|]|] end; rcompute. }
  rewrite EL. destruct cs as [|c0 [|c1 [|]]]; try discriminate. eexists. split; [vm_compute; reflexivity|reflexivity].
Qed.

(** x ** 0.5 at 2 over [1, 3], degree 1: bounds without propagation,
    NotImplementedError with it. *)
Definition ex52 (p : R) : program R :=
  Program (@Graph jvar (prim R) (list jvar) [Var 0] [Var 1] [Op pow_p [Var 0; Lit 0] [Var 1]] []) (fun _ => tscalar p).
Lemma pow_runs p x0 a b k : 0 < a -> a <= x0 <= b -> cap_ok k x0 a -> cap_ok k x0 b ->
  exists cs l h, pow_gen p x0 (a, b) k = Ok (cs, (l, h)) /\ length cs = k.
Proof.
  intros. destruct (C37_pow_enclosure_valid_positive p k x0 a b) as (cs & l & h & E & V & _); auto. exists cs, l, h. unfold pow_gen. rewrite E. auto.
Qed.
Lemma exponent_half : exponentR (1 / 2) = ExpOther.
Proof. unfold exponentR. rewrite is_int_None by (intros n H; exact (not_int_half n H)). reflexivity. Qed.
Example C52_nonvacuous :
  (exists b, taylor_bounds (scalarsR no_usr) (generatorsR no_ugen) (ex52 (1 / 2)) [] 1 false (tscalar 2) (tscalar 1, tscalar 3) = Ok b) /\
  taylor_bounds (scalarsR no_usr) (generatorsR no_ugen) (ex52 (1 / 2)) [] 1 true (tscalar 2) (tscalar 1, tscalar 3) = Err NotImplementedError.
Proof.
  destruct (pow_runs (1 / 2) 2 1 3 1) as (cs & l & h & E & L); try lra; try (right; unfold Rabs; destruct Rcase_abs; simpl; lra).
  destruct cs as [|c0 [|]]; try discriminate.
  split; cbv -[lift_gen pow_gen exponentR Rplus Rmult Ropp Rminus Rinv Rdiv Rmin Rmax IZR Rlt_dec Rle Rlt]; rewrite exponent_half.
  - match goal with |- context [lift_gen ?g ?x (?l0, ?h0) 1%nat] =>
      assert (EL : lift_gen g x (l0, h0) 1%nat = Ok (map (fun i => Arr (of_list 0 [] [nth i [c0] 0])) (seq 0 1) ++ [Ivl (of_list 0 [] [l]) (of_list 0 [] [h])])) end.
    { apply lift_scalar; try reflexivity. cbn [tdata].
      match goal with |- pow_gen _ ?u (?v, ?w) _ = _ => replace u with 2 by reflexivity; replace v with 1; [replace w with 3; [exact E|]|] end; rcompute. }
    rewrite EL. eexists. vm_compute. reflexivity.
  - match goal with |- context [lift_gen ?g ?x (?l0, ?h0) 1%nat] =>
      assert (EL : lift_gen g x (l0, h0) 1%nat = Ok (map (fun i => Arr (of_list 0 [] [nth i [c0] 0])) (seq 0 1) ++ [Ivl (of_list 0 [] [l]) (of_list 0 [] [h])])) end.
    { apply lift_scalar; try reflexivity. cbn [tdata].
      match goal with |- pow_gen _ ?u (?v, ?w) _ = _ => replace u with 2 by reflexivity; replace v with 1; [replace w with 3; [exact E|]|] end; rcompute. }
    rewrite EL. vm_compute. reflexivity.
Qed.
(** x ** 2.0 raises TypeError. *)
Example C54_nonvacuous : exponentR 2 = ExpPosInt /\
  taylor_bounds (scalarsR no_usr) (generatorsR no_ugen) (ex52 2) [] 1 false (tscalar 2) (tscalar 1, tscalar 3) = Err TypeError.
Proof.
  assert (E : exponentR 2 = ExpPosInt) by (unfold exponentR; rewrite (is_int_IZR 2); reflexivity). split; [exact E|].
  cbv -[lift_gen pow_gen exponentR Rplus Rmult Ropp Rminus Rinv Rdiv Rmin Rmax IZR Rlt_dec Rle Rlt]. rewrite E. reflexivity.
Qed.

(** The program of C46 with propagated trust regions. *)
Example C47_nonvacuous : exists b,
  taylor_bounds (scalarsR no_usr) (checked_generators no_ugen) ex46 [] 2 true (tscalar 0) (tscalar (-1), tscalar 1) = Ok b /\ length (tb_coefficients b) = 3%nat.
Proof.
  destruct (exp_runs 2 0 (-1) 1) as (cs & l & h & E & L); [lra| | |]; try (right; unfold Rabs; destruct Rcase_abs; simpl; lra).
  destruct (exp_runs 0 (-1) (-1) 1) as (cs' & l' & h' & E' & L'); [lra|left; reflexivity| |]; try (right; simpl; lra).
  destruct cs as [|c0 [|c1 [|]]]; try discriminate. destruct cs'; try discriminate.
  cbv -[lift_gen checked exp_enclosure fun_guard Rplus Rmult Ropp Rminus Rinv Rdiv Rmin Rmax IZR Rlt_dec Rle Rlt].
  match goal with |- context [lift_gen ?g ?x (?l0, ?h0) 2%nat] =>
    assert (EL : lift_gen g x (l0, h0) 2%nat = Ok (map (fun i => Arr (of_list 0 [] [nth i [c0; c1] 0])) (seq 0 2) ++ [Ivl (of_list 0 [] [l]) (of_list 0 [] [h])])) end.
  { apply lift_scalar; try reflexivity. exact E. }
  rewrite EL.
  cbv -[lift_gen checked exp_enclosure fun_guard Rplus Rmult Ropp Rminus Rinv Rdiv Rmin Rmax IZR Rlt_dec Rle Rlt].
  match goal with |- context [lift_gen ?g ?x (?l0, ?h0) 0%nat] =>
    assert (EL0 : lift_gen g x (l0, h0) 0%nat = Ok (map (fun i => Arr (of_list 0 [] [nth i [] 0])) (seq 0 0) ++ [Ivl (of_list 0 [] [l']) (of_list 0 [] [h'])])) end.
  { apply lift_scalar; try reflexivity. exact E'. }
  rewrite EL0. eexists. split; [vm_compute; reflexivity|reflexivity].
Qed.

(** C48: the program of C46 at x0 itself. *)
Example C48_nonvacuous : in_box (tscalar 0) (tscalar (-1), tscalar 1) (tscalar 0) /\ (1 <= 2)%Z /\ supported (scalarsR no_usr) [] 2 ex46 [] (tscalar 0).
Proof. destruct (C46_nonvacuous 0 ltac:(lra)) as (b & _ & H & _ & HS & _). split; [exact H|]. split; [lia|exact HS]. Qed.

(** The enclosure of PropEnclosure.v (an argument of shape (2,)) as bounds. *)
Example C53_nonvacuous : exists r,
  let b := TaylorBounds (mkT [2]%nat (fun _ => 0)) ex_tr ex_enc in
  good_coeffs [] (tshape (tb_x0 b)) (tb_coefficients b) /\ tb_call b (mkT [2]%nat (fun _ => 1)) = Ok r.
Proof.
  eexists. cbv zeta. split.
  - destruct C13_nonvacuous as (r & H & _). exact H.
  - vm_compute. reflexivity.
Qed.
