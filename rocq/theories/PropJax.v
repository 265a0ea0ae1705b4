(** Properties C46, C47, C48, C53: taylor_bounds. *)
From Coq Require Import Reals Lra Psatz FunctionalExtensionality.
From Verif Require Import Base Tensor IntervalArith Polynomials Enclosure TensorLemmas Spec IntervalProofs PowerProofs PolyProofs Graded
  EnclosureOps EnclosureProofs BilinearProofs ComposeProofs PropEnclosure PropDegree GraphEditor GraphSpec JaxBound JaxSpec JaxLemmas JaxIndex JaxGather JaxPush JaxDot JaxOps JaxForward JaxRun JaxEval JaxInit.
Open Scope R_scope.

(** The bounds [b] at [x] are arrays of the shape of [y] with [y] in between. *)
Definition bounds_at (b : taylor_bounds_t R) (x y : tensor R) : Prop :=
  exists l h, tb_lower b x = Ok l /\ tb_upper b x = Ok h /\ tshape l = tshape y /\ tshape h = tshape y /\
    forall s, valid (tshape y) s -> tdata l s <= tdata y s <= tdata h s.

(** What is known about the output. *)
Lemma output_ok_if Q sc gs pr consts max_deg propagate x0 region x b :
  Q = always \/ Q = at_centre /\ (fun J => tdata x J - tdata x0 J) = (fun _ => 0) ->
  (forall o, In o (gops (p_graph pr)) -> prim_gens_ok Q sc gs (odata o)) -> (forall o, In o (gops (p_graph pr)) -> opaque_ok (odata o)) ->
  in_box x0 region x0 -> in_box x0 region x -> supported sc (tshape x0) (Z.to_nat max_deg) pr consts x ->
  taylor_bounds sc gs pr consts max_deg propagate x0 region = Ok b ->
  exists y k, meaning sc pr consts x = Some [y] /\ tb_x0 b = x0 /\ tb_region b = region /\ (exists s, valid (tshape y) s) /\ (0 <= max_deg)%Z /\
    approx k (tshape x0) (Z.to_nat max_deg) (fun J => tdata x J - tdata x0 J) y (tb_coefficients b).
Proof.
  intros HQ HG HO B0 B HS H. unfold taylor_bounds in H.
  apply bind_ok in H. destruct H as (d & Hd & H). apply bind_ok in H. destruct H as (ov & Hov & H). apply bind_ok in H. destruct H as (i & Hi & H). injection H as <-.
  destruct (interpret_ok_if _ _ _ _ _ _ _ _ _ _ _ HQ HG HO B0 B HS Hd) as (r & r' & k' & HM & Hr & Hrun & HI).
  destruct (gouts (p_graph pr)) as [|v [|]] eqn:EO; try discriminate. injection Hov as ->.
  assert (HV : exists y kd, r' ov = Some y /\ arg_ok (tshape x0) (Z.to_nat max_deg) (fun J => tdata x J - tdata x0 J) kd y i).
  { destruct ov as [n|n|]; [| |discriminate].
    - simpl in Hi. destruct (dlookup d n) as [i'|] eqn:E; [|discriminate]. injection Hi as ->. destruct (proj2 HI n i E) as (v & kd & E1 & _ & E3). eauto.
    - destruct (proj1 HI n) as (N1 & E1 & E2). exists (p_lits pr n), KConst. split; auto. exact (get_ok _ _ _ _ _ _ _ _ _ _ _ HI Hi E1 E2). }
  destruct HV as (y & kd & Ey & (Ny & Ay & _)). exists y, kd. split; [|auto 10].
  unfold meaning, run_graph. simpl. rewrite Hr, Hrun, EO. simpl. rewrite Ey. reflexivity.
Qed.

Lemma output_ok sc gs pr consts max_deg propagate x0 region x b :
  valid_generators sc gs -> (forall o, In o (gops (p_graph pr)) -> opaque_ok (odata o)) ->
  in_box x0 region x0 -> in_box x0 region x -> supported sc (tshape x0) (Z.to_nat max_deg) pr consts x ->
  taylor_bounds sc gs pr consts max_deg propagate x0 region = Ok b ->
  exists y k, meaning sc pr consts x = Some [y] /\ tb_x0 b = x0 /\ tb_region b = region /\ (exists s, valid (tshape y) s) /\ (0 <= max_deg)%Z /\
    approx k (tshape x0) (Z.to_nat max_deg) (fun J => tdata x J - tdata x0 J) y (tb_coefficients b).
Proof. intros HG. apply (output_ok_if always); auto. intros o _. exact (valid_prim_gens always sc gs (odata o) HG). Qed.

Lemma sub_total x x0 : tshape x = tshape x0 -> exists z, tsub x x0 = Ok z /\ tshape z = tshape x0 /\ forall J, valid (tshape x0) J -> tdata z J = tdata x J - tdata x0 J.
Proof.
  intros E. destruct (tmap2_total_same (@nsub R _) x x0 (tshape x0) E eq_refl) as (z & Ez & Sz). exists z. split; auto. split; auto.
  intros J HJ. destruct (tmap2_same_ok _ _ _ _ _ Ez E eq_refl) as [_ G]. rewrite G; auto.
Qed.

Lemma call_ok b x0 x y k D : tb_x0 b = x0 -> tshape x = tshape x0 -> (exists s, valid (tshape y) s) ->
  approx k (tshape x0) D (fun J => tdata x J - tdata x0 J) y (tb_coefficients b) ->
  exists r zt, tsub x x0 = Ok zt /\ tshape zt = tshape x0 /\ (forall J, valid (tshape x0) J -> tdata zt J = tdata x J - tdata x0 J) /\
    tb_call b x = Ok r /\ eval_taylor_enclosure (tb_coefficients b) (Arr zt) = Ok r /\ wfs (tshape y) r /\ (forall s, valid (tshape y) s -> inat r s (tdata y s)).
Proof.
  intros E0 ES NV (HH & _). pose proof (holds_hcast _ _ _ _ _ HH) as HE. destruct (sub_total x x0 ES) as (zt & Ez & Sz & Dz).
  destruct (eval_total _ _ zt _ _ _ NV Sz HE) as (r & Er & Wr). exists r, zt. split; auto. split; auto. split; auto.
  split; [unfold tb_call; rewrite E0, Ez; exact Er|]. split; auto. split; auto. intros s Hs.
  destruct (C13_eval_contains _ _ _ (Arr zt) _ _ r (encloses_mono _ _ _ _ _ _ _ (hcast_bcast _) HE) Sz) with (s := s) as (p & Cp & Wp & Ip); auto.
  { intros J HJ. simpl. rewrite Dz; auto. }
  pose proof (wfs_inj _ _ _ Wr Wp). subst p. rewrite (bidx_valid _ _ Hs) in Ip. exact Ip.
Qed.

Lemma lower_upper b x r : tb_call b x = Ok r -> tb_lower b x = Ok (lo r) /\ tb_upper b x = Ok (hi r).
Proof. intros H. unfold tb_lower, tb_upper. rewrite H. destruct r; auto. Qed.

Lemma bounds_ok b x0 x y k D : tb_x0 b = x0 -> tshape x = tshape x0 -> (exists s, valid (tshape y) s) ->
  approx k (tshape x0) D (fun J => tdata x J - tdata x0 J) y (tb_coefficients b) -> bounds_at b x y.
Proof.
  intros E0 ES NV HA. destruct (call_ok b x0 x y k D E0 ES NV HA) as (r & zt & _ & _ & _ & HC & _ & Wr & HI). destruct (lower_upper _ _ _ HC) as [HL HU].
  exists (lo r), (hi r). split; auto. split; auto. split; [apply wfs_lo; auto|]. split; [apply wfs_hi; auto|]. intros s Hs. apply inat_iff. auto.
Qed.

(** * C46 *)
(** Whenever taylor_bounds returns, the program is defined at [x] and its value
    lies between the two bounds, for every point [x] of the region. *)
Theorem C46_taylor_bounds_sound : forall sc gs pr consts max_deg x0 region x b,
  valid_generators sc gs -> (forall o, In o (gops (p_graph pr)) -> opaque_ok (odata o)) ->
  in_box x0 region x0 -> in_box x0 region x ->
  supported sc (tshape x0) (Z.to_nat max_deg) pr consts x ->
  taylor_bounds sc gs pr consts max_deg false x0 region = Ok b ->
  exists y, meaning sc pr consts x = Some [y] /\ bounds_at b x y.
Proof.
  intros sc gs pr consts max_deg x0 region x b HG HO B0 B HS H.
  destruct (output_ok _ _ _ _ _ _ _ _ _ _ HG HO B0 B HS H) as (y & k & HM & E0 & _ & NV & _ & HA). exists y. split; auto.
  eapply bounds_ok; eauto. apply B.
Qed.

(** * C47 *)
Theorem C47_propagation_sound : forall sc gs pr consts max_deg x0 region x b,
  valid_generators sc gs -> (forall o, In o (gops (p_graph pr)) -> opaque_ok (odata o)) ->
  in_box x0 region x0 -> in_box x0 region x ->
  supported sc (tshape x0) (Z.to_nat max_deg) pr consts x ->
  taylor_bounds sc gs pr consts max_deg true x0 region = Ok b ->
  exists y, meaning sc pr consts x = Some [y] /\ bounds_at b x y.
Proof.
  intros sc gs pr consts max_deg x0 region x b HG HO B0 B HS H.
  destruct (output_ok _ _ _ _ _ _ _ _ _ _ HG HO B0 B HS H) as (y & k & HM & E0 & _ & NV & _ & HA). exists y. split; auto.
  eapply bounds_ok; eauto. apply B.
Qed.

(** Every trust region computed for a variable contains the variable's value at
    every point of the region (and the variable does have a value there). *)
Theorem C47_variable_regions_sound : forall sc gs pr consts max_deg x0 region x d,
  valid_generators sc gs -> (forall o, In o (gops (p_graph pr)) -> opaque_ok (odata o)) ->
  in_box x0 region x0 -> in_box x0 region x ->
  supported sc (tshape x0) (Z.to_nat max_deg) pr consts x ->
  interpret sc gs pr consts max_deg true x0 region = Ok d ->
  exists r0 r,
    assign jvar_eqb (lit_value (p_lits pr)) (gdata (p_graph pr) ++ gins (p_graph pr)) (consts ++ [x]) = Some r0 /\
    run (fun p args => ok_opt (prim_bind sc p args)) jvar_eqb r0 (gops (p_graph pr)) = Some r /\
    forall n i l h, dlookup d n = Some i -> i_tr i = Some (l, h) ->
      exists v, r (Var n) = Some v /\ tshape l = tshape v /\ tshape h = tshape v /\
        forall s, valid (tshape v) s -> tdata l s <= tdata v s <= tdata h s.
Proof.
  intros sc gs pr consts max_deg x0 region x d HG HO B0 B HS H.
  destruct (interpret_ok _ _ _ _ _ _ _ _ _ _ HG HO B0 B HS H) as (r & r' & k' & HM & Hr & Hrun & HI).
  exists r, r'. split; auto. split; auto. intros n i l h Hn Htr. destruct (proj2 HI n i Hn) as (v & kd & E1 & _ & (_ & _ & R1)).
  rewrite Htr in R1. destruct R1 as (S1 & S2 & R1 & _). exists v. auto.
Qed.

(** * C48 *)
Lemma sub_self x0 : (fun J => tdata x0 J - tdata x0 J) = (fun _ : list nat => 0).
Proof. apply functional_extensionality. intros J. ring. Qed.

(** It is enough that the generators called are valid at their centre (and at
    degree 0), which does not need the distance condition of C35. *)
Theorem C48_exact_at_x0_centre : forall sc gs pr consts max_deg propagate x0 region b,
  (forall o, In o (gops (p_graph pr)) -> prim_gens_ok at_centre sc gs (odata o)) -> (forall o, In o (gops (p_graph pr)) -> opaque_ok (odata o)) ->
  in_box x0 region x0 -> (1 <= max_deg)%Z ->
  supported sc (tshape x0) (Z.to_nat max_deg) pr consts x0 ->
  taylor_bounds sc gs pr consts max_deg propagate x0 region = Ok b ->
  exists y l h, meaning sc pr consts x0 = Some [y] /\ tb_lower b x0 = Ok l /\ tb_upper b x0 = Ok h /\ teq l y /\ teq h y.
Proof.
  intros sc gs pr consts max_deg propagate x0 region b HG HO B0 HD HS H.
  destruct (output_ok_if at_centre _ _ _ _ _ _ _ _ _ _ (or_intror (conj eq_refl (sub_self x0))) HG HO B0 B0 HS H) as (y & k & HM & E0 & _ & NV & _ & HA).
  destruct (call_ok b x0 x0 y k _ E0 eq_refl NV HA) as (r & zt & Ez & Sz & Dz & HC & HE & Wr & HI). destruct (lower_upper _ _ _ HC) as [HL HU].
  exists y, (lo r), (hi r). split; auto. split; auto. split; auto.
  rewrite sub_self in HA. destruct HA as (HH & PB & _). pose proof (holds_hcast _ _ _ _ _ HH) as HB.
  pose proof (encloses_mono _ _ _ _ _ _ _ (hcast_bcast _) HB) as HB'. pose proof (encloses_good _ _ _ _ _ NV HB') as HGd.
  destruct (tb_coefficients b) as [|c rest] eqn:EC; [destruct HB; congruence|].
  destruct (PB 0%nat c) as [t ->]; [lia|reflexivity|].
  assert (Zz : forall J, valid (tshape x0) J -> tdata zt J = 0) by (intros J HJ; rewrite Dz by auto; ring).
  assert (HV : forall s, valid (tshape y) s -> tdata (lo r) s = tdata y s /\ tdata (hi r) s = tdata y s).
  { intros s Hs. pose proof (proj2 HB' s Hs) as Hy. apply encl_value_at0 in Hy.
    destruct (loop_att (tshape y) (tshape x0) (fun _ => 0) s Hs zt Sz (fun J HJ => eq_sym (Zz J HJ)) (Arr t :: rest) 0 one_c zero_c [] r) as (p & Cp & Wp & (us & Hus & Eu) & (vs & Hvs & Ev)); auto.
    - apply compat_nil.
    - reflexivity.
    - pose proof (wfs_inj _ _ _ Wr Wp). subst p. rewrite (bidx_valid _ _ Hs) in Eu, Ev. simpl in Eu, Ev.
      assert (E1 : encl_from (bcast (tshape y)) (tshape x0) (fun _ => 0) s 0 (Arr t :: rest) (tdata (lo r) s)) by (apply encl_from_F2i; exists us; split; auto; lra).
      assert (E2 : encl_from (bcast (tshape y)) (tshape x0) (fun _ => 0) s 0 (Arr t :: rest) (tdata (hi r) s)) by (apply encl_from_F2i; exists vs; split; auto; lra).
      apply encl_value_at0 in E1, E2. split; congruence. }
  pose proof (wfs_lo _ _ Wr) as SL. pose proof (wfs_hi _ _ Wr) as SH.
  split; (split; [auto|]); intros s Hs; apply HV; congruence.
Qed.

Theorem C48_exact_at_x0 : forall sc gs pr consts max_deg propagate x0 region b,
  valid_generators sc gs -> (forall o, In o (gops (p_graph pr)) -> opaque_ok (odata o)) ->
  in_box x0 region x0 -> (1 <= max_deg)%Z ->
  supported sc (tshape x0) (Z.to_nat max_deg) pr consts x0 ->
  taylor_bounds sc gs pr consts max_deg propagate x0 region = Ok b ->
  exists y l h, meaning sc pr consts x0 = Some [y] /\ tb_lower b x0 = Ok l /\ tb_upper b x0 = Ok h /\ teq l y /\ teq h y.
Proof.
  intros sc gs pr consts max_deg propagate x0 region b HG. apply C48_exact_at_x0_centre. intros o _. exact (valid_prim_gens at_centre sc gs (odata o) HG).
Qed.

Theorem C48_degree_and_plain_coefficients : forall sc gs pr consts max_deg propagate x0 region b,
  valid_generators sc gs -> (forall o, In o (gops (p_graph pr)) -> opaque_ok (odata o)) ->
  in_box x0 region x0 ->
  supported sc (tshape x0) (Z.to_nat max_deg) pr consts x0 ->
  taylor_bounds sc gs pr consts max_deg propagate x0 region = Ok b ->
  (0 < length (tb_coefficients b) <= Z.to_nat max_deg + 1)%nat /\
  forall i l h, nth_error (tb_coefficients b) i = Some (Ivl l h) -> i = Z.to_nat max_deg.
Proof.
  intros sc gs pr consts max_deg propagate x0 region b HG HO B0 HS H.
  destruct (output_ok _ _ _ _ _ _ _ _ _ _ HG HO B0 B0 HS H) as (y & k & HM & E0 & _ & NV & _ & (HH & PB & LB & _)).
  split; [split; [|exact LB]; apply ne_len; exact (proj1 (holds_hcast _ _ _ _ _ HH))|].
  intros i l h Hi. assert (i < length (tb_coefficients b))%nat by (apply nth_error_Some; congruence).
  destruct (Nat.lt_ge_cases i (Z.to_nat max_deg)) as [L|L]; [|lia]. destruct (PB i _ L Hi) as [t Ht]. discriminate.
Qed.

(** * C53 *)
Lemma eval_ordered S X enc zt r : (exists s, valid S s) -> good_coeffs S X enc -> enc <> [] -> tshape zt = X ->
  eval_taylor_enclosure enc (Arr zt) = Ok r -> ordered r /\ compat (tshape (lo r)) S.
Proof.
  intros NV HG Hne Hz H.
  assert (HW : exists p, compat p S /\ wfs p r).
  { destruct NV as [s Hs]. destruct (C13_eval_ends_attained S X enc zt r HG Hz H s Hs) as (p & Cp & Wp & _). eauto. }
  destruct HW as (p & Cp & Wp). rewrite (wfs_lo _ _ Wp). split; auto. split; [rewrite (wfs_lo _ _ Wp); auto|].
  rewrite (wfs_lo _ _ Wp). intros I HI. destruct (bidx_onto _ _ _ Cp NV HI) as (s & Hs & <-).
  assert (HE : encloses (bcast S) X S enc (tdata zt) (fun s => tdata (lo r) (bidx p s))).
  { split; auto. intros s' Hs'. destruct (C13_eval_ends_attained S X enc zt r HG Hz H s' Hs') as (p' & _ & Wp' & E & _). pose proof (wfs_inj _ _ _ Wp Wp'). subst p'. exact E. }
  destruct (C13_eval_contains S X enc (Arr zt) (tdata zt) _ r HE Hz) with (s := s) as (q & _ & Wq & Iq); auto.
  { intros J HJ. reflexivity. }
  pose proof (wfs_inj _ _ _ Wp Wq). subst q. apply inat_iff in Iq. apply Iq.
Qed.

Lemma eval_arr : forall cs i zi (running zc r : coef R), is_arr running -> is_arr zc -> is_arr zi -> Forall is_arr cs ->
  eval_poly_loop iadd inner_product (fun x k => iouter_power x k 0) zc i zi running cs = Ok r -> is_arr r.
Proof.
  induction cs as [|c cs IH]; intros i zi running zc r Hr Hz Hi Hc H; cbn [eval_poly_loop] in H; [injection H as <-; auto|].
  apply bind_ok in H. destruct H as (zi' & Hz' & H). apply bind_ok in H. destruct H as (term & Ht & H). apply bind_ok in H. destruct H as (run' & Hrn & H).
  inversion Hc; subst.
  assert (is_arr zi') by (destruct (0 <? i)%nat; [exact (iouter_power_is_arr _ _ _ _ Hz Hz')|injection Hz' as <-; auto]).
  refine (IH _ zi' run' zc r _ Hz _ _ H); auto. apply (iadd_is_arr _ _ _ Hr) in Hrn; auto. exact (ibil_is_arr _ _ _ _ _ H2 H0 Ht).
Qed.

Theorem C53_accessors_agree : forall b x S r,
  tshape x = tshape (tb_x0 b) -> tb_coefficients b <> [] ->
  good_coeffs S (tshape (tb_x0 b)) (tb_coefficients b) -> (exists s, valid S s) ->
  tb_call b x = Ok r ->
  exists l h,
    tb_lower b x = Ok l /\ tb_upper b x = Ok h /\ tshape l = tshape h /\
    (forall I, valid (tshape l) I -> tdata l I <= tdata h I) /\
    (r = Ivl l h \/ r = Arr l /\ l = h) /\
    (Forall is_arr (tb_coefficients b) -> r = Arr l).
Proof.
  intros b x S r ES Hne HG NV HC. destruct (lower_upper _ _ _ HC) as [HL HU]. exists (lo r), (hi r).
  unfold tb_call in HC. apply bind_ok in HC. destruct HC as (zt & Hz & HC).
  pose proof (tmap2_same_ok _ _ _ _ (tshape (tb_x0 b)) Hz ES eq_refl) as [Sz _].
  destruct (eval_ordered S _ _ zt r NV HG Hne Sz HC) as [[W O] _].
  split; auto. split; auto. split; [symmetry; apply wfs_hi; auto|]. split; auto. split.
  - destruct r; [right|left]; auto.
  - intros HA. unfold eval_taylor_enclosure, eval_polynomial in HC.
    destruct (eval_arr _ _ _ _ _ _ (ex_intro _ _ eq_refl) (ex_intro _ zt eq_refl) (ex_intro _ _ eq_refl) HA HC) as [t ->]. reflexivity.
Qed.
Theorem C53_final_interval : forall (b : taylor_bounds_t R) cs c, tb_coefficients b = cs ++ [c] -> tb_final_interval b = Ok (lo c, hi c).
Proof. intros b cs c E. unfold tb_final_interval. rewrite E, rev_app_distr. destruct c; reflexivity. Qed.
