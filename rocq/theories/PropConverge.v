(** Property C82: one constant for the order of the gap at all centres at once,
    hence the rate at which bounds converge when the region is subdivided. *)
From Coq Require Import Reals Lra Psatz FunctionalExtensionality.
From Coquelicot Require Import Coquelicot.
From Verif Require Import Base Tensor IntervalArith Polynomials Enclosure TensorLemmas Spec IntervalProofs EnclosureProofs PropEnclosure PropDegree GraphEditor GraphSpec
  JaxBound JaxSpec JaxLemmas JaxEval JaxOps JaxRun PropJax PropTaylor Iso IsoSpec IsoMain IsoTable JaxTable JaxTableProofs PropTable PropIso PropGap
  PowerProofs PolyProofs Graded EnclosureOps BilinearProofs Elementwise Primitive Magnitude MagnitudeEnc MagnitudeJax MagnitudeTable Notebooks NotebookSpec PropNotebooks.
Open Scope R_scope.

(** All entries of an array are at most [B] in absolute value (the entries
    outside the shape, which arrays of the model have too, included: an array
    given by the list of its entries is 0 there). *)
Definition entries_within (B : R) (t : tensor R) : Prop := forall J, Rabs (tdata t J) <= B.
Lemma of_list_within B sh l : 0 <= B -> Forall (fun x => Rabs x <= B) l -> entries_within B (of_list 0 sh l).
Proof.
  intros HB H J. cbn [tdata of_list]. generalize (ravel sh J). intros n. revert n. induction H; intros [|n]; simpl nth; auto; rewrite Rabs_R0; auto.
Qed.
Lemma tscalar_within B x : Rabs x <= B -> entries_within B (tscalar x).
Proof. intros H J. exact H. Qed.

(** ** Everything taylor_bounds returns *)
Lemma consts_dom (g : list jvar) consts : forall d d' e, Forall2 (same_fst domi) d d' ->
  foldM (fun d '(v, c) => match v with Var n => Ok ((n, constant_inter c) :: d) | _ => Err Unmodelled end) d (combine g consts) = Ok e ->
  Forall2 (same_fst domi) e (fold_left (fun d '(v, c) => match v with Var n => (n, constant_inter (tmag c)) :: d | _ => d end) (combine g consts) d').
Proof.
  induction (combine g consts) as [|[v c] l IH]; intros d d' e Hd H; cbn [foldM fold_left] in *; [injection H as <-; auto|].
  apply bind_ok in H. destruct H as (d1 & H1 & H). eapply IH; [|exact H]. destruct v; try discriminate. injection H1 as <-.
  constructor; auto. split; [reflexivity|]. apply constant_dom, tmag_dom.
Qed.
Lemma all_bounded sc gs pr consts max_deg propagate sh B : (forall o, In o (gops (p_graph pr)) -> bounded_prim sc gs (odata o)) ->
  exists C, forall x0 region b, tshape x0 = sh -> tshape (fst region) = sh -> tshape (snd region) = sh ->
    entries_within B x0 -> entries_within B (fst region) -> entries_within B (snd region) ->
    taylor_bounds sc gs pr consts max_deg propagate x0 region = Ok b -> Forall2 domc (tb_coefficients b) C.
Proof.
  intros HP. set (T := mkT sh (fun _ => Mag B)).
  assert (DT : forall t, tshape t = sh -> entries_within B t -> dom t T) by (intros t E H; split; [exact E|exact H]).
  set (t' := isub (Ivl T T) (Arr T)). set (tr' := match t' with Ok (Ivl l h) => (l, h) | _ => (T, T) end).
  set (D := Z.to_nat max_deg). set (prop := if (D =? 0)%nat then false else propagate). set (eye := match sh with [n] => mkT [n; n] (fun _ => Mag 1) | _ => mkT [] (fun _ => Mag 1) end).
  set (iv := match gins (p_graph pr) with [Var n] => n | _ => 0%nat end).
  set (i0 := Inter (if (0 <? D)%nat then [Arr T; Arr eye] else [Ivl T T]) (if prop then Some (T, T) else None)).
  set (d0' := fold_left (fun d '(v, c) => match v with Var n => (n, constant_inter (tmag c)) :: d | _ => d end) (combine (gdata (p_graph pr)) consts) []).
  destruct (steps_bd sc gs D prop sh (p_lits pr) tr' (gops (p_graph pr)) HP ((iv, i0) :: d0')) as (d' & Hd').
  set (ov := match gouts (p_graph pr) with [v] => v | _ => Drop end).
  exists (match get_intermediate (fun n => tmag (p_lits pr n)) d' ov with Ok i => i_enc i | Err _ => [] end).
  intros x0 region b S0 S1 S2 W0 W1 W2 H. unfold taylor_bounds in H. apply bind_ok in H. destruct H as (d & Hd & H).
  apply bind_ok in H. destruct H as (v & Hv & H). apply bind_ok in H. destruct H as (i & Hi & H). injection H as <-. cbn [tb_coefficients].
  assert (Ev : v = ov) by (unfold ov; destruct (gouts (p_graph pr)) as [|? [|]]; try discriminate; injection Hv as ->; auto). subst v.
  enough (HD : Forall2 (same_fst domi) d d').
  { pose proof (get_dom (p_lits pr) d d' ov HD i Hi) as (i' & -> & K). apply K. }
  unfold interpret in Hd. destruct (max_deg <? 0)%Z; [discriminate|]. cbv zeta in Hd. fold D in Hd. fold prop in Hd.
  apply bind_ok in Hd. destruct Hd as (t & Ht & Hd). apply bind_ok in Hd. destruct Hd as (tr & Htr & Hd). apply bind_ok in Hd. destruct Hd as (A & HA & Hd). apply bind_ok in Hd. destruct Hd as (A0 & HA0 & Hd).
  apply bind_ok in Hd. destruct Hd as (ey & Hey & Hd). apply bind_ok in Hd. destruct Hd as (? & _ & Hd). apply bind_ok in Hd. destruct Hd as (n & Hn & Hd). apply bind_ok in Hd. destruct Hd as (dc & Hdc & Hd).
  assert (HT : dom2 tr tr').
  { destruct (isub_dom (Ivl (fst region) (snd region)) (Ivl T T) (Arr x0) (Arr T) (conj (DT _ S1 W1) (DT _ S2 W2)) (DT _ S0 W0) t Ht) as (u & Eu & K).
    unfold tr', t'. rewrite Eu. destruct t as [|tl th]; [discriminate|]. injection Htr as <-. destruct u; [contradiction|]. exact K. }
  unfold make_arith in HA, HA0. destruct (shape_eqb _ _) in HA, HA0; try discriminate. injection HA as <-. injection HA0 as <-.
  rewrite S0 in Hd. refine (Hd' tr _ d HT _ Hd).
  constructor; [|exact (consts_dom _ _ [] [] dc (Forall2_nil _) Hdc)].
  split; [cbn; unfold iv; destruct (gins (p_graph pr)) as [|[m| |] [|]]; try discriminate; injection Hn as ->; auto|]. cbn [snd].
  split; cbn [i_enc i_tr i0].
  - destruct (0 <? D)%nat; [|constructor; [split; apply DT; auto|constructor]]. constructor; [apply DT; auto|]. constructor; [|constructor].
    unfold identity in Hey. rewrite S0 in Hey. unfold eye. destruct sh as [|m [|]]; try discriminate; injection Hey as <-; split; auto; intros J; unfold within; simpl.
    + rewrite Rabs_R1. lra.
    + destruct J as [|a1 [|a2 [|a3 J]]]; cbn [tdata]; try destruct (a1 =? a2)%nat; cbn; unfold Rabs; destruct Rcase_abs; lra.
  - destruct prop; [|auto]. split; apply DT; auto.
Qed.

(** ** The gap *)
Lemma sumi_mv sh : forall (f : list nat -> R) (g : list nat -> R), (forall J, f J <= g J) -> sumi sh f <= sumi sh g.
Proof. intros f g H. apply sumi_le. auto. Qed.
Lemma big_bounded X D s : forall C, exists M, 0 <= M /\ forall e, Forall2 domc e C -> big X e D s <= M.
Proof.
  intros C. destruct (nth_error C D) as [c'|] eqn:E.
  - set (K := fun J : list nat => (bidx (firstn (length (tshape (lom c')) - D * length X) (tshape (lom c'))) s ++ J)).
    set (M := sumi (rep D X) (fun J => Rabs (mv (tdata (lom c') (K J))) + Rabs (mv (tdata (him c') (K J))))). exists M. split.
    { unfold M. rewrite <- (sumi_zero (rep D X)). apply sumi_mv. intros J. apply Rplus_le_le_0_compat; apply Rabs_pos. }
    intros e He. unfold big. destruct (nth_error e D) as [c|] eqn:Ec.
    + assert (Dc : domc c c').
      { clear -He E Ec. revert D E Ec. induction He; intros [|D] E Ec; try discriminate; cbn in *; [congruence|eauto]. }
      assert (DL : dom (lo c) (lom c') /\ dom (hi c) (him c')) by (destruct c, c'; try contradiction; cbn in *; tauto). destruct DL as [[SL DL] [_ DH]].
      unfold M, K. rewrite SL. apply sumi_mv. intros J. cbv zeta. unfold within in *. 
      apply Rplus_le_compat; (eapply Rle_trans; [|apply Rle_abs]); auto.
    + unfold M. rewrite <- (sumi_zero (rep D X)). apply sumi_mv. intros J. apply Rplus_le_le_0_compat; apply Rabs_pos.
  - exists 0. split; [lra|]. intros e He. unfold big. destruct (nth_error e D) eqn:Ec; [|lra]. exfalso.
    apply nth_error_None in E. assert (D < length e)%nat by (apply nth_error_Some; congruence). rewrite (Forall2_length' _ _ _ He) in H. lia.
Qed.

(** For a program of primitives that keep bounded values bounded there is one
    constant [M] such that, for all centres and regions with entries at most [B],
    the gap between the bounds at distance r from the centre is at most
    M r^max_deg. *)
Theorem C82_gap_uniform_in_the_centre : forall sc gs pr consts max_deg propagate sh B s,
  (forall o, In o (gops (p_graph pr)) -> prim_gens_ok at_centre sc gs (odata o)) ->
  (forall o, In o (gops (p_graph pr)) -> opaque_ok (odata o)) ->
  (forall o, In o (gops (p_graph pr)) -> bounded_prim sc gs (odata o)) ->
  exists M, 0 <= M /\ forall x0 region b y x r,
    tshape x0 = sh -> in_box x0 region x0 -> entries_within B x0 -> entries_within B (fst region) -> entries_within B (snd region) ->
    supported sc sh (Z.to_nat max_deg) pr consts x0 ->
    taylor_bounds sc gs pr consts max_deg propagate x0 region = Ok b ->
    meaning sc pr consts x0 = Some [y] -> valid (tshape y) s ->
    tshape x = sh -> 0 <= r -> (forall J, valid sh J -> Rabs (tdata x J - tdata x0 J) <= r) ->
    exists l h, tb_lower b x = Ok l /\ tb_upper b x = Ok h /\ tshape l = tshape y /\ tshape h = tshape y /\
      tdata h s - tdata l s <= M * r ^ Z.to_nat max_deg.
Proof.
  intros sc gs pr consts max_deg propagate sh B s HG HO HB.
  destruct (all_bounded sc gs pr consts max_deg propagate sh B HB) as (C & HC).
  destruct (big_bounded sh (Z.to_nat max_deg) s C) as (M & M0 & HM). exists (2 * M). split; [lra|].
  intros x0 region b y x r S0 HI W0 W1 W2 HS H HY Hs Sx Hr Hz. subst sh. 
  destruct (own_gap sc gs pr consts max_deg propagate x0 region b HG HO HI HS H y s x r HY Hs Sx Hr Hz) as (l & h & K1 & K2 & K3 & K4 & K5).
  exists l, h. repeat (split; [assumption|]). eapply Rle_trans; [exact K5|].
  destruct HI as (S1 & S2 & S3 & _).
  assert (HB' : big (tshape x0) (tb_coefficients b) (Z.to_nat max_deg) s <= M) by (apply HM, (HC x0 region b); auto).  
  apply Rmult_le_compat_r; [apply pow_le; auto|]. lra.
Qed.

(** ** With the registered generators *)
(** Primitives defined everywhere. *)
Definition everywhere (usr : nat -> R -> res R) (ugen : nat -> generator R) (p : prim R) : Prop :=
  match p with
  | div_p | pow_p | jit_p _ | other_p _ => False
  | integer_pow_p y => (0 <= y)%Z
  | elementwise_p e => match e with
                       | Abs | Exp | Logistic | Sigmoid | Softplus | Swish => True
                       | User n => gen_bounded (ugen n) /\ fun_bounded (usr n)
                       | _ => False
                       end
  | _ => True
  end.
Lemma logistic_eq x : 1 / (1 + exp (- x)) = py_sigmoid x.
Proof.
  unfold py_sigmoid, where_. destruct (Rle_lt_dec 0 x); auto. rewrite exp_Ropp. pose proof (exp_pos x). field. lra.
Qed.
Lemma softplus_eq x : ln (1 + exp x) = py_softplus x.
Proof.
  unfold py_softplus, Rabs, Rmax. pose proof (exp_pos x). pose proof (exp_pos (- x)). destruct (Rcase_abs x); destruct (Rle_dec x 0); try lra.
  - rewrite Ropp_involutive. ring.
  - assert (x = 0) by lra. subst. rewrite Ropp_0. lra.
  - rewrite <- (ln_exp x) at 3. rewrite <- ln_mult by lra. f_equal. rewrite exp_Ropp. field. lra.
Qed.
Lemma gen_le_bounded g g' : gen_le g g' -> gen_bounded g' -> gen_bounded g.
Proof. intros HL HB d X L H. destruct (HB d X L H) as (C & HC). exists C. intros x l h e H1 H2 H3 H4. apply (HC x l h); auto. Qed.
Lemma everywhere_bounded usr ugen gs p : gens_le gs (generatorsR ugen) -> everywhere usr ugen p -> bounded_prim (scalarsR usr) gs p.
Proof.
  intros HL HE. destruct p; try exact HE. destruct HL as (HL & _). specialize (HL e).
  assert (FB : forall f g, (forall x, f x = g x) -> bb g -> fun_bounded (fun x => Ok (f x))).
  { intros f g E Hg Bd. destruct (Hg Bd) as (M & HM). exists M. intros x v Hx [= <-]. rewrite E. auto. }
  split.
  - apply (gen_le_bounded _ _ HL). destruct e; cbn in HE; try contradiction; cbn [gen_elem generatorsR elem_gen]; try (apply lift_bounded, named_bounded; discriminate). apply HE.
  - destruct e; cbn in HE; try contradiction; cbn [s_elem scalarsR elem_fun].
    + apply (get_function_bounded ABS 0); [discriminate|reflexivity].
    + apply (get_function_bounded EXP 0); [discriminate|reflexivity].
    + apply (FB _ py_sigmoid); [apply logistic_eq|apply bb_sigmoid].
    + apply (FB _ py_sigmoid); [apply logistic_eq|apply bb_sigmoid].
    + apply (FB _ py_softplus); [apply softplus_eq|apply bb_softplus].
    + apply (FB _ (fun x => x * py_sigmoid x)); [intros; rewrite logistic_eq; auto|apply bb_mul; [apply bb_id|apply bb_sigmoid]].
    + apply HE.
Qed.
Theorem C82_registered_functions : forall usr ugen pr consts max_deg propagate sh B s,
  (forall n, valid_gen_if at_centre (ugen n) (usr n)) ->
  (forall o, In o (gops (p_graph pr)) -> opaque_ok (odata o)) ->
  (forall o, In o (gops (p_graph pr)) -> everywhere usr ugen (odata o)) ->
  exists M, 0 <= M /\ forall x0 region b y x r,
    tshape x0 = sh -> in_box x0 region x0 -> entries_within B x0 -> entries_within B (fst region) -> entries_within B (snd region) ->
    supported (scalarsR usr) sh (Z.to_nat max_deg) pr consts x0 ->
    taylor_bounds (scalarsR usr) (guarded_generators ugen) pr consts max_deg propagate x0 region = Ok b ->
    meaning (scalarsR usr) pr consts x0 = Some [y] -> valid (tshape y) s ->
    tshape x = sh -> 0 <= r -> (forall J, valid sh J -> Rabs (tdata x J - tdata x0 J) <= r) ->
    taylor_bounds (scalarsR usr) (generatorsR ugen) pr consts max_deg propagate x0 region = Ok b /\
    exists l h, tb_lower b x = Ok l /\ tb_upper b x = Ok h /\ tshape l = tshape y /\ tshape h = tshape y /\
      tdata h s - tdata l s <= M * r ^ Z.to_nat max_deg.
Proof.
  intros usr ugen pr consts max_deg propagate sh B s HU HO HE.
  destruct (C82_gap_uniform_in_the_centre (scalarsR usr) (guarded_generators ugen) pr consts max_deg propagate sh B s) as (M & M0 & HM); auto.
  - intros o _. apply guarded_gens_ok; auto.
  - intros o Ho. apply (everywhere_bounded usr ugen); auto. apply guarded_generators_le.
  - exists M. split; [exact M0|]. intros x0 region b y x r S0 HI W0 W1 W2 HS H HY Hs Sx Hr Hz.
    split; [exact (taylor_bounds_le _ _ _ (guarded_generators_le ugen) _ _ _ _ _ _ _ H)|]. exact (HM x0 region b y x r S0 HI W0 W1 W2 HS H HY Hs Sx Hr Hz).
Qed.

(** ** Subdivision *)
(** The notebook's integral bounds: the gap is at most M / n^degree for n cells. *)
Lemma scalar_shape sc gs pr consts D prop x0 l h b v :
  (forall o, In o (gops (p_graph pr)) -> prim_gens_ok at_centre sc gs (odata o)) -> (forall o, In o (gops (p_graph pr)) -> opaque_ok (odata o)) ->
  l <= x0 <= h -> computes sc (Z.to_nat D) pr consts x0 v ->
  taylor_bounds sc gs pr consts D prop (tscalar x0) (tscalar l, tscalar h) = Ok b ->
  forall j c, nth_error (tb_coefficients b) j = Some c -> wfs [] c /\ ((exists t, c = Arr t) \/ j = Z.to_nat D).
Proof.
  intros HG HO H0 (HS & y & HM & Sy & _) H.
  assert (B0 : in_box (tscalar x0) (tscalar l, tscalar h) (tscalar x0)) by (repeat split; auto; simpl; lra).
  assert (Z0 : (fun J => tdata (tscalar x0) J - tdata (tscalar x0) J) = (fun _ => 0)) by (apply functional_extensionality; intros J; ring).
  destruct (output_ok_if at_centre _ _ _ _ _ _ _ _ (tscalar x0) _ (or_intror (conj eq_refl Z0)) HG HO B0 B0 HS H) as (y' & k & HM' & _ & _ & NV & _ & (HH & HP & HL & _)).
  rewrite HM in HM'. injection HM' as <-. pose proof (encloses_mono _ _ _ _ _ _ _ (hcast_bcast _) (holds_hcast _ _ _ _ _ HH)) as (Hne & HE).
  rewrite Sy in HE. specialize (HE [] ltac:(constructor)). change (tshape (tscalar x0)) with (@nil nat) in HE.
  intros j c Hj. split.
  - apply encl_from_F2i in HE. destruct HE as (us & HF & _). destruct (nth_error us j) as [u|] eqn:Eu; [|apply nth_error_None in Eu; rewrite <- (F2i_length _ _ _ _ HF) in Eu; apply nth_error_None in Eu; congruence].
    destruct (F2i_nth _ _ _ _ _ _ _ HF Hj Eu) as (p & Cp & W & _). rewrite rep_nil, app_nil_r in W. apply compat_nil_r in Cp. subst p. exact W.
  - assert (Hlt : (j < length (tb_coefficients b))%nat) by (apply nth_error_Some; congruence). destruct (Nat.eq_dec j (Z.to_nat D)); auto. left. apply (HP j); auto. lia.
Qed.
Definition ends_mag (C : list (coef mag)) : R := fold_right (fun c s => Rabs (mv (tdata (lom c) [])) + Rabs (mv (tdata (him c) [])) + s) 0 C.
Lemma ends_mag_nonneg C : 0 <= ends_mag C.
Proof. induction C as [|c C IH]; unfold ends_mag; cbn [fold_right]; [lra|]. fold (ends_mag C). pose proof (Rabs_pos (mv (tdata (lom c) []))). pose proof (Rabs_pos (mv (tdata (him c) []))). lra. Qed.
Lemma antiderivative_gap D z e C : Forall2 domc e C -> forall i ls hs,
  (forall j c, nth_error e j = Some c -> wfs [] c /\ ((exists t, c = Arr t) \/ (i + j)%nat = D)) -> mapM lof e = Ok ls -> mapM hif e = Ok hs ->
  Rabs (antiderivative Rdiv i hs z - antiderivative Rdiv i ls z) <= ends_mag C * Rabs z ^ (D + 1).
Proof.
  assert (ZP : 0 <= Rabs z ^ (D + 1)) by (apply pow_le, Rabs_pos).
  induction 1 as [|c c' e C Hc He IH]; intros i ls hs HP HL HH; cbn [mapM] in HL, HH.
  - injection HL as <-. injection HH as <-. cbn. replace (0 - 0) with 0 by ring. rewrite Rabs_R0. lra.
  - apply bind_ok in HL. destruct HL as (l0 & L0 & HL). apply bind_ok in HL. destruct HL as (ls' & L1 & HL). injection HL as <-.
    apply bind_ok in HH. destruct HH as (h0 & H0 & HH). apply bind_ok in HH. destruct HH as (hs' & H1 & HH). injection HH as <-.
    assert (Q : Rabs (antiderivative Rdiv (S i) hs' z - antiderivative Rdiv (S i) ls' z) <= ends_mag C * Rabs z ^ (D + 1)).
    { apply IH; auto. intros j c2 Hj. destruct (HP (S j) c2 Hj) as [W P]. split; auto. destruct P as [P|P]; auto. right. lia. }
    cbn [antiderivative]. unfold ends_mag. cbn [fold_right]. fold (ends_mag C). change (nofZ ?n) with (IZR n). change nadd with Rplus. change nmul with Rmult.
    set (k := IZR (Z.of_nat (i + 1))). set (P := npow z (i + 1)).
    assert (K1 : 1 <= k) by (unfold k; apply IZR_le; lia). assert (K2 : 0 < / k) by (apply Rinv_0_lt_compat; lra). assert (K3 : / k <= 1) by (rewrite <- Rinv_1; apply Rinv_le_contravar; lra).
    replace (h0 * P / k + antiderivative Rdiv (S i) hs' z - (l0 * P / k + antiderivative Rdiv (S i) ls' z))
      with ((h0 - l0) * P * / k + (antiderivative Rdiv (S i) hs' z - antiderivative Rdiv (S i) ls' z)) by (unfold Rdiv; ring).
    destruct (HP 0%nat c eq_refl) as [W HK].
    assert (E1 : l0 = tdata (lo c) [] /\ h0 = tdata (hi c) []).
    { destruct c as [t|tl th]; cbn [wfs lof hif lo hi] in *; [split; apply to_float_nil; auto|destruct W; split; apply to_float_nil; auto]. } destruct E1 as [-> ->].
    pose proof (Rabs_pos (mv (tdata (lom c') []))) as A1. pose proof (Rabs_pos (mv (tdata (him c') []))) as A2.
    assert (G : Rabs ((tdata (hi c) [] - tdata (lo c) []) * P * / k) <= (Rabs (mv (tdata (lom c') [])) + Rabs (mv (tdata (him c') []))) * Rabs z ^ (D + 1)).
    { destruct HK as [(t & ->)|HK].
      - cbn [lo hi]. rewrite Rminus_diag_eq by auto. rewrite !Rmult_0_l, Rabs_R0. apply Rmult_le_pos; lra.
      - assert (DL : dom (lo c) (lom c') /\ dom (hi c) (him c')) by (destruct c, c'; try contradiction; cbn in *; tauto). destruct DL as [[_ DL] [_ DH]].
        specialize (DL []). specialize (DH []). unfold within in DL, DH.
        assert (EP : Rabs P = Rabs z ^ (D + 1)) by (unfold P; rewrite Nat.add_0_r in HK; subst i; rewrite RPow_abs; f_equal; clear; induction (D + 1)%nat as [|m IH]; cbn [npow pow]; [reflexivity|]; rewrite IH; reflexivity).
        rewrite !Rabs_mult, EP, (Rabs_pos_eq (/ k)) by lra.
        assert (T : Rabs (tdata (hi c) [] - tdata (lo c) []) <= Rabs (mv (tdata (lom c') [])) + Rabs (mv (tdata (him c') []))).
        { pose proof (Rabs_triang (tdata (hi c) []) (- tdata (lo c) [])). rewrite Rabs_Ropp in *. unfold Rminus. pose proof (Rle_abs (mv (tdata (lom c') []))). pose proof (Rle_abs (mv (tdata (him c') []))). lra. }
        pose proof (Rabs_pos (tdata (hi c) [] - tdata (lo c) [])).
        assert (T2 : Rabs (tdata (hi c) [] - tdata (lo c) []) * Rabs z ^ (D + 1) <= (Rabs (mv (tdata (lom c') [])) + Rabs (mv (tdata (him c') []))) * Rabs z ^ (D + 1)) by (apply Rmult_le_compat_r; auto).
        assert (T3 : Rabs (tdata (hi c) [] - tdata (lo c) []) * Rabs z ^ (D + 1) * / k <= Rabs (tdata (hi c) [] - tdata (lo c) []) * Rabs z ^ (D + 1) * 1) by (apply Rmult_le_compat_l; auto; apply Rmult_le_pos; auto).
        lra. }
    eapply Rle_trans; [apply Rabs_triang|]. lra.
Qed.

Theorem C82_integral_bounds_converge : forall sc gs pr consts degree a b,
  (forall o, In o (gops (p_graph pr)) -> prim_gens_ok at_centre sc gs (odata o)) ->
  (forall o, In o (gops (p_graph pr)) -> opaque_ok (odata o)) ->
  (forall o, In o (gops (p_graph pr)) -> bounded_prim sc gs (odata o)) ->
  a <= b -> (forall x, a <= x <= b -> exists v, computes sc (Z.to_nat degree) pr consts x v) ->
  exists M, 0 <= M /\ forall n l u, (0 < n)%Z ->
    integral_bound_v1 sc gs Rdiv pr consts a b degree n = Ok (l, u) -> u - l <= M / IZR n ^ Z.to_nat degree.
Proof.
  intros sc gs pr consts degree a b HG HO HB Hab HC. set (D := Z.to_nat degree).
  set (B := Rmax (Rabs a) (Rabs b)). assert (WB : forall x, a <= x <= b -> Rabs x <= B).
  { intros x Hx. unfold B. pose proof (Rmax_l (Rabs a) (Rabs b)). pose proof (Rmax_r (Rabs a) (Rabs b)). revert H H0. unfold Rabs. repeat destruct Rcase_abs; lra. }
  destruct (all_bounded sc gs pr consts degree false [] B HB) as (C & HCC). set (G := ends_mag C). pose proof (ends_mag_nonneg C : 0 <= G) as G0.
  assert (CELL : forall c d l u, a <= c -> c <= d -> d <= b -> integral_bound_v0 sc gs Rdiv pr consts c d degree = Ok (l, u) -> u - l <= 2 * G * ((d - c) / 2) ^ (D + 1)).
  { intros c d l u Hac Hcd Hdb H. unfold integral_bound_v0 in H. destruct (negb _) in H; [discriminate|].
    apply bind_ok in H. destruct H as (bd & Hb & H). apply bind_ok in H. destruct H as (ls & Hl & H). apply bind_ok in H. destruct H as (hs & Hh & H). injection H as <- <-.
    change (nadd c d) with (c + d) in *. change (nofZ 2) with 2 in *. set (x0 := (c + d) / 2) in *. change (nsub c x0) with (c - x0). change (nsub d x0) with (d - x0).
    assert (Hx0 : c <= x0 <= d) by (unfold x0; lra). destruct (HC x0 ltac:(lra)) as (v & Hv).
    pose proof (scalar_shape sc gs pr consts degree false x0 c d bd v HG HO Hx0 Hv Hb) as SH.
    assert (DC : Forall2 domc (tb_coefficients bd) C) by (apply (HCC (tscalar x0) (tscalar c, tscalar d)); auto; apply tscalar_within; apply WB; lra).
    pose proof (antiderivative_gap D (d - x0) _ _ DC 0%nat ls hs SH Hl Hh) as Q1. pose proof (antiderivative_gap D (c - x0) _ _ DC 0%nat ls hs SH Hl Hh) as Q2.
    replace (Rabs (d - x0)) with ((d - c) / 2) in Q1 by (rewrite Rabs_pos_eq; unfold x0; lra). replace (Rabs (c - x0)) with ((d - c) / 2) in Q2 by (rewrite Rabs_left1; unfold x0; lra).
    fold G in Q1, Q2. unfold integrate. change nsub with Rminus. revert Q1 Q2. generalize (antiderivative Rdiv 0 hs (d - x0)) (antiderivative Rdiv 0 hs (c - x0)) (antiderivative Rdiv 0 ls (d - x0)) (antiderivative Rdiv 0 ls (c - x0)).
    intros p q r s. unfold Rabs. repeat destruct Rcase_abs; lra. }
  exists (2 * G * ((b - a) / 2) ^ (D + 1)). split; [apply Rmult_le_pos; [lra|apply pow_le; lra]|].
  intros n l u Hn H. unfold integral_bound_v1 in H. destruct (Z.eqb_spec n 0) as [|_]; [lia|].
  change (nsub b a) with (b - a) in H. change (nofZ n) with (IZR n) in H. set (w := (b - a) / IZR n) in *.
  assert (Hng : 0 < IZR n) by (apply (IZR_lt 0); auto). assert (Hw : 0 <= w) by (unfold w; apply Rmult_le_pos; [lra|]; apply Rlt_le, Rinv_0_lt_compat; auto).
  assert (HW : w * IZR n = b - a) by (unfold w; field; lra).
  set (F := fun s i => _) in H.
  assert (K : forall m k s r, (k + m <= Z.to_nat n)%nat -> foldM F s (seq k m) = Ok r -> (snd r - fst r) - (snd s - fst s) <= INR m * (2 * G * (w / 2) ^ (D + 1))).
  { assert (HK : forall k, (k <= Z.to_nat n)%nat -> a <= a + w * INR k <= b).
    { intros k Hk. pose proof (pos_INR k). assert (INR k <= IZR n) by (rewrite <- (Z2Nat.id n), <- INR_IZR_INZ by lia; apply le_INR; auto). nra. }
    induction m as [|m IH]; intros k s r Hk Hr.
    - injection Hr as <-. simpl INR. lra.
    - cbn [seq foldM] in Hr. apply bind_ok in Hr. destruct Hr as (s1 & H1 & Hr). specialize (IH (S k) s1 r ltac:(lia) Hr).
      unfold F in H1. cbv zeta in H1. apply bind_ok in H1. destruct H1 as ([l1 u1] & H1 & E1). injection E1 as <-. cbn [fst snd] in *.
      assert (Ek : a + w * INR k + w = a + w * INR (S k)) by (rewrite S_INR; ring).
      assert (H1' : integral_bound_v0 sc gs Rdiv pr consts (a + w * INR k) (a + w * INR (S k)) degree = Ok (l1, u1)) by (rewrite <- Ek, INR_IZR_INZ; exact H1).
      pose proof (HK k ltac:(lia)) as K1. pose proof (HK (S k) ltac:(lia)) as K2.
      apply CELL in H1'; [|lra|lra|lra]. replace (a + w * INR (S k) - (a + w * INR k)) with w in H1' by (rewrite S_INR; ring).
      change (nadd (fst s) l1) with (fst s + l1) in IH. change (nadd (snd s) u1) with (snd s + u1) in IH. rewrite S_INR. lra. }
  specialize (K (Z.to_nat n) 0%nat (0, 0) (l, u) ltac:(lia) H). cbn [fst snd] in K. rewrite INR_IZR_INZ, Z2Nat.id in K by lia.
  replace (2 * G * ((b - a) / 2) ^ (D + 1) / IZR n ^ D) with (IZR n * (2 * G * (w / 2) ^ (D + 1))); [lra|].
  rewrite <- HW. replace (w * IZR n / 2) with (w / 2 * IZR n) by (unfold Rdiv; ring). rewrite Rpow_mult_distr, (pow_add (IZR n)). simpl (IZR n ^ 1). field. apply pow_nonzero. lra.
Qed.

(** With generators that are valid (so that the bounds enclose the integral,
    C67) each end converges to the integral. *)
Theorem C82_integral_error : forall sc gs pr consts degree f a b,
  valid_generators sc gs -> (forall o, In o (gops (p_graph pr)) -> opaque_ok (odata o)) ->
  (forall o, In o (gops (p_graph pr)) -> bounded_prim sc gs (odata o)) ->
  a <= b -> (forall x, a <= x <= b -> computes sc (Z.to_nat degree) pr consts x (f x)) -> ex_RInt f a b ->
  exists M, 0 <= M /\ forall n l u, (0 < n)%Z ->
    integral_bound_v1 sc gs Rdiv pr consts a b degree n = Ok (l, u) ->
    0 <= RInt f a b - l <= M / IZR n ^ Z.to_nat degree /\ 0 <= u - RInt f a b <= M / IZR n ^ Z.to_nat degree.
Proof.
  intros sc gs pr consts degree f a b HV HO HB Hab HC HI.
  destruct (C82_integral_bounds_converge sc gs pr consts degree a b) as (M & M0 & K); auto.
  - intros o _. exact (valid_prim_gens at_centre sc gs (odata o) HV).
  - intros x Hx. exists (f x). auto.
  - exists M. split; [exact M0|]. intros n l u Hn H. pose proof (K n l u Hn H). pose proof (C67_integral_bounds_grid sc gs pr consts degree n f a b l u HV HO Hab Hn HC HI H). lra.
Qed.
