(** Property C75: the gap between the bounds is of order max_deg, with a constant
    that serves for all smaller regions. *)
From Coq Require Import Reals Lra FunctionalExtensionality.
From Verif Require Import Base Tensor IntervalArith Polynomials Enclosure TensorLemmas Spec IntervalProofs EnclosureProofs PropEnclosure PropDegree GraphEditor GraphSpec
  JaxBound JaxSpec JaxLemmas JaxEval JaxOps JaxRun PropJax PropTaylor IsoSpec IsoMain IsoTable JaxTable JaxTableProofs PropTable PropIso.
Open Scope R_scope.

(** One set of bounds. *)
Lemma own_gap sc gs pr consts max_deg propagate x0 region b :
  (forall o, In o (gops (p_graph pr)) -> prim_gens_ok at_centre sc gs (odata o)) ->
  (forall o, In o (gops (p_graph pr)) -> opaque_ok (odata o)) ->
  in_box x0 region x0 -> supported sc (tshape x0) (Z.to_nat max_deg) pr consts x0 ->
  taylor_bounds sc gs pr consts max_deg propagate x0 region = Ok b ->
  forall y s x r, meaning sc pr consts x0 = Some [y] -> valid (tshape y) s -> tshape x = tshape x0 -> 0 <= r -> (forall J, valid (tshape x0) J -> Rabs (tdata x J - tdata x0 J) <= r) ->
    exists l h, tb_lower b x = Ok l /\ tb_upper b x = Ok h /\ tshape l = tshape y /\ tshape h = tshape y /\
      tdata h s - tdata l s <= 2 * big (tshape x0) (tb_coefficients b) (Z.to_nat max_deg) s * r ^ Z.to_nat max_deg.
Proof.
  intros HG HO B0 HS HB y0 s x r HM Hs Sx Hr Hz.
  assert (Z0 : (fun J => tdata x0 J - tdata x0 J) = (fun _ => 0)) by (apply functional_extensionality; intros J; ring).
  destruct (output_ok_if at_centre _ _ _ _ _ _ _ _ x0 _ (or_intror (conj eq_refl Z0)) HG HO B0 B0 HS HB) as (y & k & HM' & E0 & _ & NV & _ & (HH & HP & HL & _)).
  rewrite HM in HM'. injection HM' as <-. rename y0 into y.
  pose proof (holds_hcast _ _ _ _ _ HH) as HC. pose proof (encloses_mono _ _ _ _ _ _ _ (hcast_bcast _) HC) as HC'.
  pose proof (encloses_good _ _ _ _ _ NV HC') as HGd.
  destruct (sub_total x x0 Sx) as (zt & Ez & Sz & Dz). destruct (eval_total _ _ zt _ _ _ NV Sz HC) as (v & Ev & Wv).
  assert (EC : tb_call b x = Ok v) by (unfold tb_call; rewrite E0, Ez; exact Ev).
  destruct (lower_upper _ _ _ EC) as [EL EU]. exists (lo v), (hi v). split; auto. split; auto. split; [apply wfs_lo; auto|]. split; [apply wfs_hi; auto|].
  destruct (C13_eval_ends_attained _ _ _ zt v HGd Sz Ev s Hs) as (p & Cp & Wp & Al & Ah).
  assert (p = tshape y) by (rewrite <- (wfs_lo _ _ Wp); exact (wfs_lo _ _ Wv)). subst p. rewrite (bidx_valid _ _ Hs) in Al, Ah.
  assert (Hz' : forall J, valid (tshape x0) J -> Rabs (tdata zt J) <= r) by (intros J HJ; rewrite Dz; auto).
  pose proof (remainder _ _ _ s _ _ _ Hr Hz' HP HL (Z.to_nat max_deg) 0%nat _ eq_refl Al) as R1.
  pose proof (remainder _ _ _ s _ _ _ Hr Hz' HP HL (Z.to_nat max_deg) 0%nat _ eq_refl Ah) as R2.
  revert R1 R2. set (P := sumn _ _). set (B := big _ _ _ _ * _). intros R1 R2. rewrite Rmult_assoc. fold B.
  revert R1 R2. unfold Rabs. repeat destruct Rcase_abs; lra.
Qed.

(** For every entry [s] there is a constant that bounds the gap at distance r
    from x0 by M r^max_deg, for the bounds over any region inside the first one
    (bounds evaluated at any x, in the region or not). *)
Theorem C75_gap_of_order_max_degree : forall sc gs pr consts max_deg propagate x0 region b,
  (forall o, In o (gops (p_graph pr)) -> prim_gens_ok at_centre sc gs (odata o)) ->
  (forall o, In o (gops (p_graph pr)) -> prim_gens_iso gs (odata o)) ->
  (forall o, In o (gops (p_graph pr)) -> opaque_ok (odata o)) ->
  in_box x0 region x0 -> supported sc (tshape x0) (Z.to_nat max_deg) pr consts x0 ->
  taylor_bounds sc gs pr consts max_deg propagate x0 region = Ok b ->
  forall y s, meaning sc pr consts x0 = Some [y] -> valid (tshape y) s ->
  exists M, 0 <= M /\ forall region' b' x r,
    in_box x0 region' x0 -> inside_box region' region ->
    taylor_bounds sc gs pr consts max_deg propagate x0 region' = Ok b' ->
    tshape x = tshape x0 -> 0 <= r -> (forall J, valid (tshape x0) J -> Rabs (tdata x J - tdata x0 J) <= r) ->
    exists l h, tb_lower b' x = Ok l /\ tb_upper b' x = Ok h /\ tshape l = tshape y /\ tshape h = tshape y /\
      0 <= tdata h s - tdata l s <= M * r ^ Z.to_nat max_deg.
Proof.
  intros sc gs pr consts max_deg propagate x0 region b HG HI HO B0 HS HB y s HM Hs.
  exists (2 * big (tshape x0) (tb_coefficients b) (Z.to_nat max_deg) s). split; [pose proof (big_nonneg (tshape x0) (tb_coefficients b) (Z.to_nat max_deg) s); lra|].
  intros region' b' x r B0' HN HB' Sx Hr Hz.
  destruct (C61_smaller_region_tighter sc gs pr consts max_deg propagate x0 region' region x b' b HG HI HO B0' HN Sx HS HB' HB)
    as (l1 & h1 & l2 & h2 & E1 & E2 & E3 & E4 & S1 & S2 & S3 & K).
  destruct (own_gap sc gs pr consts max_deg propagate x0 region b HG HO B0 HS HB y s x r HM Hs Sx Hr Hz) as (l & h & F1 & F2 & T1 & T2 & G).
  rewrite E3 in F1. injection F1 as ->. rewrite E4 in F2. injection F2 as ->.
  exists l1, h1. split; auto. split; auto. split; [congruence|]. split; [congruence|].
  assert (Hs' : valid (tshape l1) s) by (replace (tshape l1) with (tshape y) by congruence; exact Hs). specialize (K s Hs'). lra.
Qed.

(** With the registered generators, as long as the calls stay within
    [guarded_generators] (C64). *)
Theorem C75_registered_functions : forall usr ugen pr consts max_deg propagate x0 region b,
  (forall n, valid_gen_if at_centre (ugen n) (usr n)) -> (forall n, iso_gen (ugen n)) ->
  (forall o, In o (gops (p_graph pr)) -> opaque_ok (odata o)) ->
  in_box x0 region x0 -> supported (scalarsR usr) (tshape x0) (Z.to_nat max_deg) pr consts x0 ->
  taylor_bounds (scalarsR usr) (guarded_generators ugen) pr consts max_deg propagate x0 region = Ok b ->
  forall y s, meaning (scalarsR usr) pr consts x0 = Some [y] -> valid (tshape y) s ->
  exists M, 0 <= M /\ forall region' b' x r,
    in_box x0 region' x0 -> inside_box region' region ->
    taylor_bounds (scalarsR usr) (guarded_generators ugen) pr consts max_deg propagate x0 region' = Ok b' ->
    tshape x = tshape x0 -> 0 <= r -> (forall J, valid (tshape x0) J -> Rabs (tdata x J - tdata x0 J) <= r) ->
    taylor_bounds (scalarsR usr) (generatorsR ugen) pr consts max_deg propagate x0 region' = Ok b' /\
    exists l h, tb_lower b' x = Ok l /\ tb_upper b' x = Ok h /\ tshape l = tshape y /\ tshape h = tshape y /\
      0 <= tdata h s - tdata l s <= M * r ^ Z.to_nat max_deg.
Proof.
  intros usr ugen pr consts max_deg propagate x0 region b HU HI HO B0 HS HB y s HM Hs.
  destruct (C75_gap_of_order_max_degree (scalarsR usr) (guarded_generators ugen) pr consts max_deg propagate x0 region b) with (y := y) (s := s) as (M & HM' & K); auto.
  - intros o _. apply guarded_gens_ok; auto.
  - intros o _. apply guarded_gens_iso; auto.
  - exists M. split; auto. intros region' b' x r B0' HN HB' Sx Hr Hz.
    split; [exact (taylor_bounds_le _ _ _ (guarded_generators_le ugen) _ _ _ _ _ _ _ HB')|]. eapply K; eauto.
Qed.
