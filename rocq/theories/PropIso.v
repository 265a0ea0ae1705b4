(** Properties C61-C64: shrinking a region never loosens bounds. *)
From Coq Require Import Reals Lra.
From Coquelicot Require Import Coquelicot.
From Verif Require Import Base Tensor IntervalArith Polynomials Enclosure TensorLemmas Spec IntervalProofs GraphEditor GraphSpec
  Elementwise Primitive ElementSpec ElementwiseProofs PropElementwise PropPrimitive NearTable PropNear PropClear PropCentre PropPower PropPowerZero JaxBound JaxSpec JaxOps PropJax JaxTable JaxTableProofs
  IsoSpec Iso IsoEnc IsoMain IsoScalar IsoTable.
Open Scope R_scope.

(** * C61 *)
(** taylor_bounds over a region inside another region, same centre: bounds at
    least as tight, at every array of the shape of x0 (inside the regions or
    not).  For any table of generators that are isotone and exact at their
    centre. *)
Theorem C61_smaller_region_tighter : forall sc gs pr consts max_deg propagate x0 region region' x b b',
  (forall o, In o (gops (p_graph pr)) -> prim_gens_ok at_centre sc gs (odata o)) ->
  (forall o, In o (gops (p_graph pr)) -> prim_gens_iso gs (odata o)) ->
  (forall o, In o (gops (p_graph pr)) -> opaque_ok (odata o)) ->
  in_box x0 region x0 -> inside_box region region' -> tshape x = tshape x0 ->
  supported sc (tshape x0) (Z.to_nat max_deg) pr consts x0 ->
  taylor_bounds sc gs pr consts max_deg propagate x0 region = Ok b ->
  taylor_bounds sc gs pr consts max_deg propagate x0 region' = Ok b' ->
  tighter_at b b' x.
Proof.
  intros sc gs pr consts max_deg propagate x0 region region' x b b' HG HGI HO B0 HN Sx HS H H'.
  destruct (coefs_iso sc gs pr consts max_deg propagate propagate x0 region region' b b' (fun E => E) B0 HN HG HGI HO HS H H') as (E1 & E2 & N & V1 & V2).
  apply bounds_iso; auto; congruence.
Qed.

(** For the registered generators: if no call leaves the functions and regions of
    [guarded_generators] -- i.e. if both runs that check this return -- then the
    code returns the same two objects, and the one for the smaller region is at
    least as tight. *)
Theorem C61_registered_functions : forall usr ugen pr consts max_deg propagate x0 region region' x b b',
  (forall n, valid_gen_if at_centre (ugen n) (usr n)) -> (forall n, iso_gen (ugen n)) ->
  (forall o, In o (gops (p_graph pr)) -> opaque_ok (odata o)) ->
  in_box x0 region x0 -> inside_box region region' -> tshape x = tshape x0 ->
  supported (scalarsR usr) (tshape x0) (Z.to_nat max_deg) pr consts x0 ->
  taylor_bounds (scalarsR usr) (guarded_generators ugen) pr consts max_deg propagate x0 region = Ok b ->
  taylor_bounds (scalarsR usr) (guarded_generators ugen) pr consts max_deg propagate x0 region' = Ok b' ->
  taylor_bounds (scalarsR usr) (generatorsR ugen) pr consts max_deg propagate x0 region = Ok b /\
  taylor_bounds (scalarsR usr) (generatorsR ugen) pr consts max_deg propagate x0 region' = Ok b' /\
  tighter_at b b' x.
Proof.
  intros usr ugen pr consts max_deg propagate x0 region region' x b b' HU HI HO B0 HN Sx HS H H'.
  split; [exact (taylor_bounds_le _ _ _ (guarded_generators_le ugen) _ _ _ _ _ _ _ H)|]. split; [exact (taylor_bounds_le _ _ _ (guarded_generators_le ugen) _ _ _ _ _ _ _ H')|].
  refine (C61_smaller_region_tighter _ _ _ _ _ _ _ _ _ _ _ _ _ _ HO B0 HN Sx HS H H').
  - intros o _. apply guarded_gens_ok; auto.
  - intros o _. apply guarded_gens_iso; auto.
Qed.

(** * C62 *)
(** propagate_trust_regions=True never loosens the bounds (and the region may
    shrink at the same time). *)
Lemma inside_box_refl region : inside_box region region.
Proof. split; [auto|]. split; [auto|]. intros. lra. Qed.
Theorem C62_propagation_never_loosens : forall sc gs pr consts max_deg x0 region x b b',
  (forall o, In o (gops (p_graph pr)) -> prim_gens_ok at_centre sc gs (odata o)) ->
  (forall o, In o (gops (p_graph pr)) -> prim_gens_iso gs (odata o)) ->
  (forall o, In o (gops (p_graph pr)) -> opaque_ok (odata o)) ->
  in_box x0 region x0 -> tshape x = tshape x0 ->
  supported sc (tshape x0) (Z.to_nat max_deg) pr consts x0 ->
  taylor_bounds sc gs pr consts max_deg true x0 region = Ok b ->
  taylor_bounds sc gs pr consts max_deg false x0 region = Ok b' ->
  tighter_at b b' x.
Proof.
  intros sc gs pr consts max_deg x0 region x b b' HG HGI HO B0 Sx HS H H'.
  destruct (coefs_iso sc gs pr consts max_deg true false x0 region region b b' (fun _ => eq_refl) B0 (inside_box_refl region) HG HGI HO HS H H') as (E1 & E2 & N & V1 & V2).
  apply bounds_iso; auto; congruence.
Qed.
Theorem C62_registered_functions : forall usr ugen pr consts max_deg x0 region x b b',
  (forall n, valid_gen_if at_centre (ugen n) (usr n)) -> (forall n, iso_gen (ugen n)) ->
  (forall o, In o (gops (p_graph pr)) -> opaque_ok (odata o)) ->
  in_box x0 region x0 -> tshape x = tshape x0 ->
  supported (scalarsR usr) (tshape x0) (Z.to_nat max_deg) pr consts x0 ->
  taylor_bounds (scalarsR usr) (guarded_generators ugen) pr consts max_deg true x0 region = Ok b ->
  taylor_bounds (scalarsR usr) (guarded_generators ugen) pr consts max_deg false x0 region = Ok b' ->
  taylor_bounds (scalarsR usr) (generatorsR ugen) pr consts max_deg true x0 region = Ok b /\
  taylor_bounds (scalarsR usr) (generatorsR ugen) pr consts max_deg false x0 region = Ok b' /\
  tighter_at b b' x.
Proof.
  intros usr ugen pr consts max_deg x0 region x b b' HU HI HO B0 Sx HS H H'.
  split; [exact (taylor_bounds_le _ _ _ (guarded_generators_le ugen) _ _ _ _ _ _ _ H)|]. split; [exact (taylor_bounds_le _ _ _ (guarded_generators_le ugen) _ _ _ _ _ _ _ H')|].
  refine (C62_propagation_never_loosens _ _ _ _ _ _ _ _ _ _ _ _ HO B0 Sx HS H H').
  - intros o _. apply guarded_gens_ok; auto.
  - intros o _. apply guarded_gens_iso; auto.
Qed.

(** * C63 *)
(** Every operation on intervals of arrays is inclusion isotone. *)
Theorem C63_interval_operations_isotone : forall a a' b b', narrower a a' -> narrower b b' ->
  narrower (ineg a) (ineg a') /\
  (forall c c', iadd a b = Ok c -> iadd a' b' = Ok c' -> narrower c c') /\
  (forall c c', isub a b = Ok c -> isub a' b' = Ok c' -> narrower c c') /\
  (forall c c', imul a b = Ok c -> imul a' b' = Ok c' -> narrower c c') /\
  (forall k c c', ipower a k = Ok c -> ipower a' k = Ok c' -> narrower c c') /\
  (forall k c c', itensordot a b k = Ok c -> itensordot a' b' k = Ok c' -> narrower c c') /\
  (forall bd c c', iouter_product a b bd = Ok c -> iouter_product a' b' bd = Ok c' -> narrower c c') /\
  (forall k bd c c', iouter_power a k bd = Ok c -> iouter_power a' k bd = Ok c' -> narrower c c').
Proof.
  intros a a' b b' Ha Hb. split; [apply ineg_iso; auto|]. split; [apply iadd_iso; auto|]. split; [apply isub_iso; auto|]. split; [apply imul_iso; auto|].
  split; [intros k; apply ipower_iso; auto|]. split; [intros k; apply itensordot_iso; auto|]. split; [intros bd; apply iouter_product_iso; auto|]. intros k bd. apply iouter_power_iso; auto.
Qed.

(** So is the evaluation of an enclosure, in its coefficients and in its argument. *)
Theorem C63_evaluation_isotone : forall cs cs' z z' r r',
  Forall2 narrower cs cs' -> narrower z z' ->
  (eval_taylor_enclosure cs z = Ok r -> eval_taylor_enclosure cs' z' = Ok r' -> narrower r r') /\
  (eval_elementwise_taylor_enclosure cs z = Ok r -> eval_elementwise_taylor_enclosure cs' z' = Ok r' -> narrower r r').
Proof.
  intros cs cs' z z' r r' HC HZ. split.
  - intros H H'. exact (eval_iso cs cs' z z' HC HZ r r' H H').
  - intros H H'. exact (eval_elementwise_iso cs cs' z z' HC HZ r r' H H').
Qed.

(** * C64 *)
(** The enclosures of the elementwise functions: on a smaller region around the
    same centre, the same Taylor coefficients and an interval inside the other
    interval.  Tables with exact extrema: every region (positive for [log]); no
    condition on the distance of the ends from the centre. *)
Theorem C64_elementwise_isotone : forall n k x0 a b a' b' e e',
  builtin n k = true -> domain n a' -> a' <= a -> a <= x0 <= b -> b <= b' ->
  get_elementwise_taylor_enclosure (n, 0%nat) x0 (a, b) k = Ok e ->
  get_elementwise_taylor_enclosure (n, 0%nat) x0 (a', b') k = Ok e' ->
  fst e = fst e' /\ fst (snd e') <= fst (snd e) <= snd (snd e) /\ snd (snd e) <= snd (snd e').
Proof.
  intros n k x0 a b a' b' e e' Hb Da La Hx Lb H H'.
  assert (Da2 : domain n a) by (apply (seg_domain n a' b' Da); unfold seg; lra).
  destruct (exact_form n k x0 a b e Hb Da2 Hx H) as (d & Hd & F1). destruct (exact_form n k x0 a' b' e' Hb Da ltac:(lra) H') as (d' & Hd' & F2).
  rewrite Hd in Hd'. injection Hd' as <-. refine (form_iso _ d x0 a b a' b' k e e' _ F1 F2). split; auto.
Qed.
(** Tables with rounded extrema: regions 1e-12 away from them. *)
Theorem C64_rounded_tables_isotone : forall n k d x0 a b a' b' e e',
  rounded_table n k = true -> get_function_data (n, k) = Ok d ->
  clear_of (local_minima d ++ local_maxima d) a b -> clear_of (local_minima d ++ local_maxima d) a' b' ->
  a' <= a -> a <= x0 <= b -> b <= b' ->
  get_elementwise_taylor_enclosure (n, 0%nat) x0 (a, b) k = Ok e ->
  get_elementwise_taylor_enclosure (n, 0%nat) x0 (a', b') k = Ok e' ->
  fst e = fst e' /\ fst (snd e') <= fst (snd e) <= snd (snd e) /\ snd (snd e) <= snd (snd e').
Proof.
  intros n k d x0 a b a' b' e e' Hr Hd C C' La Hx Lb H H'.
  pose proof (rounded_form n k d x0 a b e Hr Hd C Hx H) as F1. pose proof (rounded_form n k d x0 a' b' e' Hr Hd C' ltac:(lra) H') as F2.
  refine (form_iso _ d x0 a b a' b' k e e' _ F1 F2). split; auto.
Qed.
(** Real powers: positive regions (any exponent), regions touching 0 (exponents
    > 0), negative regions (integer exponents). *)
Theorem C64_powers_isotone : forall p k x0 a b a' b' cs l h cs' l' h',
  (0 < a' \/ (0 <= a' /\ 0 < p /\ 0 < x0) \/ (b' < 0 /\ exists n, p = IZR n)) ->
  a' <= a -> a <= x0 <= b -> b <= b' ->
  pow_enclosure p x0 (a, b) k = Ok (cs, (Fin l, Fin h)) -> pow_enclosure p x0 (a', b') k = Ok (cs', (Fin l', Fin h')) ->
  cs = cs' /\ l' <= l <= h /\ h <= h'.
Proof.
  intros p k x0 a b a' b' cs l h cs' l' h' G La Hx Lb H H'.
  assert (K : inner (cs, (l, h)) (cs', (l', h'))); [|exact K].
  assert (E : pow_gen p x0 (a, b) k = Ok (cs, (l, h))) by (unfold pow_gen; rewrite H; reflexivity).
  assert (E' : pow_gen p x0 (a', b') k = Ok (cs', (l', h'))) by (unfold pow_gen; rewrite H'; reflexivity).
  destruct G as [G | [(G1 & G2 & G3) | (G1 & n & ->)]].
  - apply (sharps_iso (powF p) x0 x0 a b a' b' k); auto; try (apply pow_form_pos; auto); lra.
  - apply (sharps_iso (powF0 p) x0 x0 a b a' b' k); auto; try (apply pow_form_zero; auto); lra.
  - apply (sharps_iso (zpowF n) x0 x0 a b a' b' k); auto; try (apply pow_form_neg; auto); lra.
Qed.
