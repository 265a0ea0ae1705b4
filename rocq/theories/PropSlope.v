(** Property C74: elementwise functions of a sum of an array and a number. *)
From Coq Require Import Reals Lra.
From Verif Require Import Base Tensor IntervalArith Polynomials Enclosure TensorLemmas Spec EnclosureProofs GraphEditor GraphSpec Elementwise Primitive ElementSpec
  JaxBound JaxSpec JaxTable JaxLemmas PropJaxLimits PropShapes Total.
Open Scope R_scope.

(** The primitives computed by composition with a Taylor enclosure of a function
    of one variable, and the generator of that enclosure. *)
Definition composed (gs : generators R) (p : prim R) : option (generator R) :=
  match p with
  | elementwise_p e => Some (gen_elem gs e)
  | integer_pow_p y => if (y <? 0)%Z then Some (gen_ipow gs y) else None
  | _ => None
  end.
(** At degree [D] the generator returns (if at all) two coefficients or more, of
    the shape of its argument. *)
Definition fills (gen : generator R) (D : nat) : Prop :=
  forall x0 tr ew, gen x0 tr D = Ok ew -> exists e0 e1 w, ew = e0 :: e1 :: w /\ wfs (tshape x0) e1.

(** left_broadcasting_multiply refuses a left operand with more axes. *)
Lemma lbm_raises a b sa sb : wfs sa a -> wfs sb b -> (length sb < length sa)%nat ->
  interval_left_broadcasting_multiply a b = Err NotImplementedError.
Proof.
  intros Ha Hb HL.
  assert (K : forall u v : tensor R, tshape u = sa -> tshape v = sb -> left_broadcasting_multiply u v = Err NotImplementedError).
  { intros u v Eu Ev. unfold left_broadcasting_multiply, tndim. rewrite Eu, Ev. rewrite (proj2 (Nat.ltb_lt _ _) HL). reflexivity. }
  unfold interval_left_broadcasting_multiply. destruct a as [u|u u'], b as [v|v v']; simpl in Ha, Hb; cbn [ibilinear endpoints list_prod map app mapM fst snd].
  - rewrite K; auto.
  - rewrite K; tauto.
  - rewrite K; tauto.
  - rewrite K; tauto.
Qed.

Lemma compose_raises X tr D e0 e1 w (t s : tensor R) p sa c : tshape (fst tr) = X -> tshape (snd tr) = X -> (1 <= D)%nat ->
  tshape s = p ++ X -> wfs sa e1 -> (length (tshape s) < length sa)%nat ->
  compose_enclosures (mkArith D tr) (e0 :: e1 :: w) [Arr t; Arr s] = Ok c -> False.
Proof.
  intros H1 H2 HD Hs He HL H. unfold compose_enclosures in H. cbn [skipn] in H. unfold enumerate in H. cbn [enumerate_from foldM] in H.
  apply bind_ok in H. destruct H as (o1 & _ & H). apply bind_ok in H. destruct H as (o2 & H & _).
  cbn [compose_term] in H. apply bind_ok in H. destruct H as (tm & H & _). apply bind_ok in H. destruct H as (poly & HP & H).
  destruct (epower_tot X tr D (conj H1 H2) p (bcast p) (bcast p) (pf_bcast p) [zero_c; Arr s] 1) as (q & Eq & Aq & Lq).
  - intros i q e Hq _. exact Hq.
  - exists zero_c, [Arr s]. split; auto. exists []. split; [apply compat_nil|reflexivity].
  - apply all1_cons; [exists []; split; [apply compat_nil|reflexivity]|]. apply all1_cons; [|apply all1_nil].
    exists p. split; [apply compat_refl|]. simpl. rewrite Hs. unfold rep. simpl. rewrite app_nil_r. reflexivity.
  - lia.
  - rewrite Eq in HP. injection HP as <-. change (1 + (length [zero_c; Arr s] - 1) * 1)%nat with 2%nat in Lq. rewrite Nat.min_l in Lq by lia.
    destruct q as [|q0 [|q1 [|]]]; simpl in Lq; try lia.
    destruct (Aq 1%nat q1 eq_refl) as (p' & Cp & Wq). unfold enumerate in H. cbn [enumerate_from mapM bind] in H.
    change (0 <? 1)%nat with true in H. change (1 <? 1)%nat with false in H. cbv iota in H. cbn [bind] in H.
    rewrite (lbm_raises e1 q1 _ _ He Wq) in H; [discriminate|].
    apply compat_length in Cp. unfold rep. simpl. rewrite Hs in HL. rewrite !app_length in *. simpl. lia.
Qed.

Section Slope.
Variables (sc : scalars R) (gs : generators R).
Variables (ins outs : list jvar) (data : list jvar) (lits : nat -> tensor R) (consts : list (tensor R)).

(** An affine operand whose slope has fewer axes than its value (counting one
    for each axis of the argument): the run raises. *)
Theorem C74_fewer_axes_raises : forall pre post p gen a y max_deg propagate x0 region d ia t s q,
  composed gs p = Some gen -> fills gen (Z.to_nat max_deg) -> (1 <= max_deg)%Z ->
  tshape (fst region) = tshape x0 -> tshape (snd region) = tshape x0 ->
  interpret sc gs (prog ins outs data lits pre) consts max_deg propagate x0 region = Ok d ->
  get_intermediate lits d a = Ok ia -> i_enc ia = [Arr t; Arr s] -> tshape s = q ++ tshape x0 -> (length (tshape s) < length (tshape t))%nat ->
  exists e, taylor_bounds sc gs (prog ins outs data lits (pre ++ Op p [a] [y] :: post)) consts max_deg propagate x0 region = Err e.
Proof.
  intros pre post p gen a y max_deg propagate x0 region d ia t s q HG HF HM R1 R2 HI Ha He Hs HL.
  destruct (interpret_split _ _ _ _ _ _ _ _ (Op p [a] [y] :: post) _ _ _ _ _ HI) as (tr & EI & _ & ER). cbv zeta in ER. cbn [foldM] in ER.
  assert (ST : tshape (fst tr) = tshape x0 /\ tshape (snd tr) = tshape x0).
  { cbn [isub] in EI. apply bind_ok in EI. destruct EI as (l & El & EI). apply bind_ok in EI. destruct EI as (h & Eh & EI). injection EI as <- <-.
    unfold tsub, tmap2 in El, Eh. rewrite R1, bshape_refl in El. rewrite R2, bshape_refl in Eh. injection El as <-. injection Eh as <-. split; reflexivity. }
  set (A := mkArith (Z.to_nat max_deg) tr) in *.
  assert (HP : exists e, pushforward gs A p [ia] = Err e).
  { destruct (pushforward gs A p [ia]) as [r|e] eqn:EP; [exfalso|eauto].
    assert (EF : exists atr, elementwise_fun A gen (i_enc ia) atr = Ok r).
    { destruct p; try discriminate; cbn [composed] in HG; cbn [pushforward] in EP.
      - destruct (y0 <? 0)%Z eqn:Ey; [|discriminate]. injection HG as <-. apply Z.ltb_lt in Ey. unfold epower in EP. rewrite (proj2 (Z.leb_gt _ _) Ey) in EP. apply bind_ok in EP. destruct EP as (_ & _ & EP). eauto.
      - injection HG as <-. eauto. }
    destruct EF as (atr & EF).
    unfold elementwise_fun in EF. apply bind_ok in EF. destruct EF as (tr0 & _ & EF). rewrite He in EF. cbn [get_nth nth_error bind] in EF.
    apply bind_ok in EF. destruct EF as (ew & EG & EF). destruct (HF _ _ _ EG) as (e0 & e1 & w & -> & We).
    exact (compose_raises (tshape x0) tr (Z.to_nat max_deg) e0 e1 w t s q _ r (proj1 ST) (proj2 ST) ltac:(lia) Hs We HL EF). }
  destruct HP as (e & HP). exists e.
  unfold taylor_bounds. rewrite ER. unfold step at 1. cbn [oins odata oouts mapM]. rewrite Ha. cbn [bind existsb]. rewrite (constant_2 _ _ _ _ He). cbn [negb orb]. rewrite HP. reflexivity.
Qed.
End Slope.

(** ** [f (v + x)] for an array [v] and a number [x] *)
(** The two equations (jax inserts no broadcast for an operand of shape ()). *)
Definition vector_plus (p : prim R) : program R :=
  Program (@Graph jvar (prim R) (list jvar) [Var 0] [Var 3] [Op add_p [Var 1; Var 0] [Var 2]; Op p [Var 2] [Var 3]] [Var 1]) (fun _ => tscalar 0).
(** The registered functions of one variable, and negative powers. *)
Definition registered (p : prim R) : Prop :=
  match p with elementwise_p e => elem_gen e <> None | integer_pow_p y => (y < 0)%Z | _ => False end.

Lemma lift_fills g D : (1 <= D)%nat -> fills (lift_gen g) D.
Proof.
  intros HD x0 tr ew H. unfold lift_gen in H. destruct tr as [l h]. destruct (_ && _); [|discriminate]. apply bind_ok in H. destruct H as (es & _ & H). injection H as <-.
  destruct D as [|[|D]]; [lia| |]; cbn [seq map app]; do 3 eexists; (split; [reflexivity|]); [split|]; reflexivity.
Qed.
Lemma registered_fills ugen p D : registered p -> (1 <= D)%nat -> exists gen, composed (generatorsR ugen) p = Some gen /\ fills gen D.
Proof.
  intros HR HD. destruct p; try contradiction; cbn [registered composed] in *.
  - rewrite (proj2 (Z.ltb_lt _ _) HR). eexists. split; [reflexivity|]. apply lift_fills; auto.
  - eexists. split; [reflexivity|]. cbn [gen_elem generatorsR]. destruct e; try (destruct (HR eq_refl); fail); apply lift_fills; auto.
Qed.

Theorem C74_vector_plus_number_raises : forall usr ugen p (v x0 : tensor R) region max_deg propagate,
  registered p -> (1 <= max_deg)%Z -> (1 <= length (tshape v))%nat -> tshape x0 = [] -> tshape (fst region) = [] -> tshape (snd region) = [] ->
  exists e, taylor_bounds (scalarsR usr) (generatorsR ugen) (vector_plus p) [v] max_deg propagate x0 region = Err e.
Proof.
  intros usr ugen p v x0 region max_deg propagate HR HM Hv S0 R1 R2.
  set (pre := [Op add_p [Var 1; Var 0] [Var 2]] : list (op jvar (prim R))).
  destruct (registered_fills ugen p (Z.to_nat max_deg) HR) as (gen & EG & HF); [lia|].
  change (vector_plus p) with (prog [Var 0] [Var 3] [Var 1] (fun _ => tscalar 0) (pre ++ Op p [Var 2] [Var 3] :: [])).
  destruct (taylor_bounds _ _ _ _ _ _ _ _) as [b|e] eqn:EB; [exfalso|eauto].
  assert (HI : exists d ia t, interpret (scalarsR usr) (generatorsR ugen) (prog [Var 0] [Var 3] [Var 1] (fun _ => tscalar 0) pre) [v] max_deg propagate x0 region = Ok d /\
    get_intermediate (fun _ => tscalar 0) d (Var 2) = Ok ia /\ i_enc ia = [Arr t; Arr (tscalar 1)] /\ tshape t = tshape v).
  { unfold taylor_bounds in EB. apply bind_ok in EB. destruct EB as (d2 & EB & _).
    unfold interpret in *. destruct (max_deg <? 0)%Z; [discriminate|]. cbv zeta in *.
    destruct (isub _ _) as [tt0|]; cbn [bind] in *; [|discriminate]. destruct (match tt0 with Arr _ => _ | Ivl _ _ => _ end) as [tr|] eqn:ET; cbn [bind] in *; [|discriminate].
    destruct (make_arith (Z.to_nat max_deg) tr) as [A|] eqn:EA; cbn [bind] in *; [|discriminate]. destruct (make_arith 0 tr) as [A0|]; cbn [bind] in *; [|discriminate].
    assert (HD : max_degree A = Z.to_nat max_deg) by (unfold make_arith in EA; destruct (shape_eqb _ _); [|discriminate]; injection EA as <-; reflexivity).
    unfold identity in *. rewrite S0 in *. cbn [bind] in *. cbn [p_graph gdata gins gops prog p_lits length Nat.eqb guard bind] in *. cbn [combine foldM bind] in *.
    unfold pre in *. cbn [app foldM] in *. apply bind_ok in EB. destruct EB as (d1 & E1 & _). rewrite E1. cbn [bind].
    replace (0 <? Z.to_nat max_deg)%nat with true in E1 by (symmetry; apply Nat.ltb_lt; lia).
    unfold step in E1. cbn [oins mapM get_intermediate dlookup Nat.eqb bind] in E1. cbn [existsb is_constant constant_inter i_enc negb orb odata oouts length Nat.eqb] in E1.
    apply bind_ok in E1. destruct E1 as (os & E2 & E1). apply bind_ok in E2. destruct E2 as (e & E2 & E3). apply bind_ok in E3. destruct E3 as (r & _ & E3). injection E3 as <-.
    cbn [store dlookup Nat.eqb] in E1. apply bind_ok in E1. destruct E1 as (u & _ & E1). injection E1 as <-.
    cbn [pushforward i_enc] in E2. unfold eadd in E2. cbn [add_coeffs iadd] in E2.
    apply bind_ok in E2. destruct E2 as (s & E2 & E3). apply bind_ok in E2. destruct E2 as (c & E2 & E4). apply bind_ok in E2. destruct E2 as (t & E2 & E5). injection E5 as <-. 
    cbn [bind] in E4. injection E4 as <-. unfold truncate_if_necessary, enclose_enclosure in E3. rewrite HD in E3. cbn [length] in E3.
    replace (2 <=? Z.to_nat max_deg + 1)%nat with true in E3 by (symmetry; apply Nat.leb_le; lia). injection E3 as <-.
    do 3 eexists. split; [reflexivity|]. split; [reflexivity|]. split; [reflexivity|].
    unfold tadd, tmap2 in E2. rewrite S0, bshape_nil_r in E2. injection E2 as <-. reflexivity. }
  destruct HI as (d & ia & t & HI & Ha & He & Ht).
  destruct (C74_fewer_axes_raises (scalarsR usr) (generatorsR ugen) [Var 0] [Var 3] [Var 1] (fun _ => tscalar 0) [v] pre [] p gen (Var 2) (Var 3) max_deg propagate x0 region d ia t (tscalar 1) [])
    as (e & K); auto; try congruence.
  - rewrite Ht. cbn. lia.
Qed.

(** softplus (v + x), v = [3, 5], is defined everywhere, and all the hypotheses
    hold. *)
Example C74_nonvacuous : registered (elementwise_p Softplus) /\ registered (integer_pow_p (-1)) /\ tshape two = [2%nat] /\
  forall usr x, exists y, meaning (scalarsR usr) (vector_plus (elementwise_p Softplus)) [two] (tscalar x) = Some [y] /\ tshape y = [2%nat] /\
    tdata y [0%nat] = ln (1 + exp (3 + x)) /\ tdata y [1%nat] = ln (1 + exp (5 + x)).
Proof. split; [discriminate|]. split; [reflexivity|]. split; [reflexivity|]. intros usr x. eexists. split; [reflexivity|]. repeat split. Qed.
