(** Property C72: operations that change the shape of a function of an array,
    and broadcast_in_dim at degree 1. *)
From Coq Require Import Reals Lra.
From Verif Require Import Base Tensor IntervalArith Polynomials Enclosure TensorLemmas Spec IntervalProofs GraphEditor GraphSpec JaxBound JaxSpec JaxLemmas JaxIndex PropJax PropJaxLimits.
Open Scope R_scope.

(** The primitives whose parameters describe every axis of the operand. *)
Definition describes_all_axes (p : prim R) : Prop :=
  match p with
  | broadcast_in_dim_p _ _ | transpose_p _ | reduce_window_sum_p _ => True
  | _ => False
  end.

Section Shapes.
Variables (sc : scalars R) (gs : generators R).
Variables (ins outs : list jvar) (data : list jvar) (lits : nat -> tensor R) (consts : list (tensor R)).

(** One equation whose pushforward fails. *)
Lemma equation_raises pre post p a y max_deg propagate x0 region d ia e :
  interpret sc gs (prog ins outs data lits pre) consts max_deg propagate x0 region = Ok d ->
  get_intermediate lits d a = Ok ia -> is_constant ia = false ->
  (forall A, pushforward gs A p [ia] = Err e) ->
  taylor_bounds sc gs (prog ins outs data lits (pre ++ Op p [a] [y] :: post)) consts max_deg propagate x0 region = Err e.
Proof.
  intros HI Ha NC HP.
  destruct (interpret_split _ _ _ _ _ _ _ _ (Op p [a] [y] :: post) _ _ _ _ _ HI) as (tr & _ & _ & ER). cbv zeta in ER. cbn [foldM] in ER.
  unfold taylor_bounds. rewrite ER. unfold step at 1. cbn [oins odata oouts mapM]. rewrite Ha. cbn [bind existsb]. rewrite NC. cbn [negb orb]. rewrite HP. reflexivity.
Qed.
Lemma constant_2 (ia : inter R) c0 c1 rest : i_enc ia = c0 :: c1 :: rest -> is_constant ia = false.
Proof. intros E. unfold is_constant. rewrite E. destruct c0; reflexivity. Qed.

(** An array argument, degree at least 1, an operand whose second coefficient
    has more axes than the first (as it must, one for each axis of the
    argument): broadcast_in_dim, transpose and reduce_window_sum raise. *)
Theorem C72_array_argument_raises : forall pre post p a y max_deg propagate x0 region d ia c0 c1 rest,
  describes_all_axes p ->
  interpret sc gs (prog ins outs data lits pre) consts max_deg propagate x0 region = Ok d ->
  get_intermediate lits d a = Ok ia -> i_enc ia = c0 :: c1 :: rest -> (length (ishape c0) < length (ishape c1))%nat ->
  exists e, taylor_bounds sc gs (prog ins outs data lits (pre ++ Op p [a] [y] :: post)) consts max_deg propagate x0 region = Err e.
Proof.
  intros pre post p a y max_deg propagate x0 region d ia c0 c1 rest Hp HI Ha He Hs.
  destruct (pushforward gs (mkArith 0 (x0, x0)) p [ia]) as [r|e] eqn:E.
  2:{ exists e. apply (equation_raises pre post p a y max_deg propagate x0 region d ia e HI Ha (constant_2 _ _ _ _ He)). intros A. rewrite <- E. destruct p; simpl in Hp; try contradiction; reflexivity. }
  exfalso.
  assert (G : forall n (g : gather_op) f c r, (forall s o, g_shape g s = Ok o -> length s = n) -> f = gather g -> map_coef f c = Ok r -> length (ishape c) = n).
  { intros n g f c r' Hg -> Hc. destruct c as [t|l h]; simpl in Hc; apply bind_ok in Hc; destruct Hc as (u & Hu & _); unfold gather in Hu; apply bind_ok in Hu; destruct Hu as (o & Ho & _); exact (Hg _ _ Ho). }
  assert (K : forall n, length (ishape c0) = n -> length (ishape c1) = n -> False) by (intros n K0 K1; lia).
  destruct p; simpl in Hp; try contradiction; cbn [pushforward gather_of] in E.
  - unfold push_broadcast in E. rewrite He in E. cbn [bind] in E. apply bind_ok in E. destruct E as (xs & _ & E). unfold enumerate in E. cbn [enumerate_from mapM] in E.
    apply bind_ok in E. destruct E as (e0 & E0 & E). apply bind_ok in E. destruct E as (es & E & _). apply bind_ok in E. destruct E as (e1 & E1 & _).
    assert (L : forall sh s o, g_shape (g_broadcast_in_dim sh bdims) s = Ok o -> length s = length bdims).
    { intros sh s o. simpl. destruct (length bdims =? length s)%nat eqn:Q; [|discriminate]. apply Nat.eqb_eq in Q. auto. }
    exact (K (length bdims) (G _ _ _ _ _ (L _) eq_refl E0) (G _ _ _ _ _ (L _) eq_refl E1)).
  - unfold map_over_enclosure in E. rewrite He in E. cbn [mapM] in E. apply bind_ok in E. destruct E as (e0 & E0 & E). apply bind_ok in E. destruct E as (es & E & _). apply bind_ok in E. destruct E as (e1 & E1 & _).
    assert (L : forall s o, g_shape (g_reduce_window_sum ws) s = Ok o -> length s = length ws).
    { intros s o. simpl. destruct (length ws =? length s)%nat eqn:Q; [|discriminate]. apply Nat.eqb_eq in Q. auto. }
    exact (K (length ws) (G _ _ _ _ _ L eq_refl E0) (G _ _ _ _ _ L eq_refl E1)).
  - unfold map_over_enclosure in E. rewrite He in E. cbn [mapM] in E. apply bind_ok in E. destruct E as (e0 & E0 & E). apply bind_ok in E. destruct E as (es & E & _). apply bind_ok in E. destruct E as (e1 & E1 & _).
    assert (L : forall s o, g_shape (g_transpose perm) s = Ok o -> length s = length perm).
    { intros s o. simpl. destruct (length perm =? length s)%nat eqn:Q; [|discriminate]. apply Nat.eqb_eq in Q. auto. }
    exact (K (length perm) (G _ _ _ _ _ L eq_refl E0) (G _ _ _ _ _ L eq_refl E1)).
Qed.

(** reshape raises too, except for arguments with one entry. *)
Theorem C72_reshape_raises : forall pre post new a y max_deg propagate x0 region d ia c0 c1 rest,
  interpret sc gs (prog ins outs data lits pre) consts max_deg propagate x0 region = Ok d ->
  get_intermediate lits d a = Ok ia -> i_enc ia = c0 :: c1 :: rest ->
  ishape c1 = ishape c0 ++ tshape x0 -> nonempty (ishape c0) = true -> prod (tshape x0) <> 1%nat ->
  exists e, taylor_bounds sc gs (prog ins outs data lits (pre ++ Op (reshape_p new) [a] [y] :: post)) consts max_deg propagate x0 region = Err e.
Proof.
  intros pre post new a y max_deg propagate x0 region d ia c0 c1 rest HI Ha He Hs HN HX.
  destruct (pushforward gs (mkArith 0 (x0, x0)) (reshape_p new) [ia]) as [r|e] eqn:E.
  2:{ exists e. apply (equation_raises pre post _ a y max_deg propagate x0 region d ia e HI Ha (constant_2 _ _ _ _ He)). intros A. rewrite <- E. reflexivity. }
  exfalso. cbn [pushforward gather_of] in E. unfold map_over_enclosure in E. rewrite He in E. cbn [mapM] in E. apply bind_ok in E. destruct E as (e0 & E0 & E). apply bind_ok in E. destruct E as (es & E & _). apply bind_ok in E. destruct E as (e1 & E1 & _).
  assert (G : forall c r, map_coef (gather (g_reshape new)) c = Ok r -> prod (ishape c) = prod new).
  { intros c r' Hc. destruct c as [t|l h]; simpl in Hc; apply bind_ok in Hc; destruct Hc as (u & Hu & _); unfold gather in Hu; apply bind_ok in Hu; destruct Hu as (o & Ho & _); cbn [g_shape g_reshape] in Ho;
      destruct (_ =? _)%nat eqn:Q; try discriminate; apply Nat.eqb_eq in Q; exact Q. }
  pose proof (G _ _ E0) as P0. pose proof (G _ _ E1) as P1. rewrite Hs, prod_app in P1.
  assert (NZ : prod (ishape c0) <> 0%nat).
  { clear -HN. induction (ishape c0) as [|n s IH]; [discriminate|]. simpl in HN. apply andb_prop in HN. destruct HN as [Hn Hs']. apply Nat.ltb_lt in Hn. specialize (IH Hs'). simpl. apply Nat.neq_mul_0. split; [lia|exact IH]. }
  apply HX. apply (Nat.mul_cancel_l _ _ (prod (ishape c0)) NZ). lia.
Qed.

(** Even for an argument that is a number, broadcast_in_dim raises at degree 1
    (the only degree at which the second coefficient is an interval). *)
Theorem C72_broadcast_degree_1_raises : forall pre post shape bdims a y max_deg propagate x0 region d ia c0 l h rest,
  interpret sc gs (prog ins outs data lits pre) consts max_deg propagate x0 region = Ok d ->
  get_intermediate lits d a = Ok ia -> i_enc ia = c0 :: Ivl l h :: rest ->
  taylor_bounds sc gs (prog ins outs data lits (pre ++ Op (broadcast_in_dim_p shape bdims) [a] [y] :: post)) consts max_deg propagate x0 region = Err AttributeError.
Proof.
  intros pre post shape bdims a y max_deg propagate x0 region d ia c0 l h rest HI Ha He.
  apply (equation_raises pre post _ a y max_deg propagate x0 region d ia _ HI Ha (constant_2 _ _ _ _ He)).
  intros A. cbn [pushforward]. unfold push_broadcast. rewrite He. reflexivity.
Qed.
End Shapes.

(** For an argument of shape (1,), at degree 1, a reshape goes through and the
    coefficient of degree 1 gets a wrong shape: w * x reshaped from (3,) to
    (3, 1) is an array of shape (3, 1), but its bounds have shape (3, 3). *)
Definition reshape_prog : program R :=
  Program (@Graph jvar (prim R) (list jvar) [Var 0] [Var 3] [Op mul_p [Var 1; Var 0] [Var 2]; Op (reshape_p [3; 1]%nat) [Var 2] [Var 3]] [Var 1]) (fun _ => tscalar 0).
Theorem C72_reshape_refuted : forall sc gs (w x0 x : tensor R) region, tshape w = [3%nat] -> tshape x0 = [1%nat] -> in_box x0 region x ->
  exists b l h y, taylor_bounds sc gs reshape_prog [w] 1 false x0 region = Ok b /\
    tb_lower b x = Ok l /\ tb_upper b x = Ok h /\ tshape l = [3; 3]%nat /\ tshape h = [3; 3]%nat /\
    meaning sc reshape_prog [w] x = Some [y] /\ tshape y = [3; 1]%nat.
Proof.
  intros sc gs [sw dw] [sx0 d0] [sx dx] [[s1 d1] [s2 d2]] Sw S0 (Sx & S1 & S2 & _). cbn in Sw, S0, Sx, S1, S2. subst sw sx0 sx s1 s2.
  do 4 eexists. split; [unfold taylor_bounds; cbn; reflexivity|]. split; [cbn; reflexivity|]. split; [cbn; reflexivity|]. split; [reflexivity|]. split; [reflexivity|]. split; reflexivity.
Qed.

(** Cases that meet the hypotheses: x (2,) broadcast to (3, 2); x (2,) reshaped to
    (2, 1); x * x broadcast to (2,) at degree 1, for a number x. *)
Definition two : tensor R := mkT [2%nat] (fun I => match I with [0%nat] => 3 | _ => 5 end).
Example C72_nonvacuous : forall sc gs,
  (exists d ia c0 c1 t, interpret sc gs (prog [Var 0] [Var 1] [] (fun _ => tscalar 0) []) [] 2 true two (tneg two, two) = Ok d /\
     get_intermediate (fun _ => tscalar 0) d (Var 0) = Ok ia /\ i_enc ia = [c0; c1] /\ ishape c1 = ishape c0 ++ tshape two /\
     nonempty (ishape c0) = true /\ prod (tshape two) <> 1%nat /\
     (length (ishape c0) < length (ishape c1))%nat /\ describes_all_axes (broadcast_in_dim_p [3; 2]%nat [1%nat]) /\
     gather (g_broadcast_in_dim [3; 2]%nat [1%nat]) two = Ok t /\ tshape t = [3; 2]%nat) /\
  (exists d ia l h c0, interpret sc gs (prog [Var 0] [Var 2] [] (fun _ => tscalar 0) [Op mul_p [Var 0; Var 0] [Var 1]]) [] 1 false (tscalar 1) (tscalar 0, tscalar 2) = Ok d /\
     get_intermediate (fun _ => tscalar 0) d (Var 1) = Ok ia /\ i_enc ia = [c0; Ivl l h]).
Proof.
  intros sc gs. split.
  - do 5 eexists. split; [unfold interpret; cbn; reflexivity|]. split; [reflexivity|]. split; [reflexivity|]. split; [reflexivity|]. split; [reflexivity|].
    split; [cbn; lia|]. split; [cbn; lia|]. split; [exact I|]. split; reflexivity.
  - do 5 eexists. split; [unfold interpret; cbn; reflexivity|]. split; [reflexivity|]. reflexivity.
Qed.
