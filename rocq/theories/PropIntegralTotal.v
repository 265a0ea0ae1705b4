(** C82: for programs made of functions that never raise, the integral bounds of
    the notebook are returned for every number of cells and converge. *)
From Coq Require Import Reals Lra Lia.
From Verif Require Import Base Tensor IntervalArith Enclosure TensorLemmas Spec GraphEditor GraphSpec Elementwise Primitive ElementSpec PropElementwise PropPrimitive PropCentre
  JaxBound JaxSpec JaxLemmas JaxOps JaxRun JaxTable JaxTableProofs IsoTable TotalSpec PropTotal PropTotalTable Notebooks NotebookSpec PropNotebooks MagnitudeJax MagnitudeTable PropConverge.
Open Scope R_scope.

Lemma total_fit usr pr D : (forall o, In o (gops (p_graph pr)) -> total_prim D (odata o)) ->
  fit_generators (scalarsR usr) (total_generators D) pr.
Proof.
  intros HT o Ho. specialize (HT o Ho). split.
  - destruct (odata o); simpl in HT; try contradiction; try exact Logic.I; [simpl; intros; lia|].
    destruct (total_facts usr D e HT) as (HE & HD & B & HB0 & Hv). simpl. rewrite HE, HT. apply lift_valid_if.
    intros z a b k r Hz Hr. unfold upto in Hr. destruct ((k =? D) || (k =? 0))%nat eqn:K; [|discriminate].
    apply orb_prop in K. rewrite !Nat.eqb_eq in K. exact (total_centre (total_name e) _ D HD B HB0 Hv k K z a b r Hz Hr).
  - intros gen Hc. destruct Hc; simpl in HT; try contradiction; [|lia]. destruct (total_facts usr D e HT) as (HE & _). simpl. rewrite HE, HT. apply lift_nonconstant.
Qed.
Lemma total_return usr pr ugen max_deg propagate consts x0 region y :
  (forall o, In o (gops (p_graph pr)) -> total_prim (Z.to_nat max_deg) (odata o)) ->
  (forall o, In o (gops (p_graph pr)) -> opaque_ok (odata o)) -> (0 <= max_deg)%Z -> (length (tshape x0) <= 1)%nat -> in_box x0 region x0 ->
  wf_program pr consts -> supported (scalarsR usr) (tshape x0) (Z.to_nat max_deg) pr consts x0 -> meaning (scalarsR usr) pr consts x0 = Some [y] ->
  accepted_program (scalarsR usr) (generatorsR ugen) max_deg propagate pr consts x0 ->
  exists b, taylor_bounds (scalarsR usr) (total_generators (Z.to_nat max_deg)) pr consts max_deg propagate x0 region = Ok b.
Proof.
  intros HT HO HM HX B0 HW HS HY HA.
  assert (HA' : accepted_program (scalarsR usr) (total_generators (Z.to_nat max_deg)) max_deg propagate pr consts x0) by exact HA.
  pose proof (C60_raises_only_what_generators_raise (scalarsR usr) (total_generators (Z.to_nat max_deg)) pr consts max_deg propagate x0 region y (total_fit usr pr _ HT) HO HM HX B0 HW HS HY HA') as K.
  destruct (taylor_bounds (scalarsR usr) (total_generators (Z.to_nat max_deg)) pr consts max_deg propagate x0 region) as [b|e] eqn:E; [eauto|].
  exfalso. destruct K as (o & gen & d & Ho & Hc & Hd & Hr). specialize (HT o Ho). destruct Hc; simpl in HT; try contradiction; [|lia].
  exact (total_never_raises (Z.to_nat max_deg) e0 d e HT Hd Hr).
Qed.

Lemma foldM_both {A B} (F G : A -> B -> res A) L : (forall s i, In i L -> exists r, F s i = Ok r /\ G s i = Ok r) ->
  forall s, exists r, foldM F s L = Ok r /\ foldM G s L = Ok r.
Proof.
  induction L as [|i L IH]; intros H s; cbn [foldM]; [eauto|].
  destruct (H s i (or_introl eq_refl)) as (r & -> & ->). cbn [bind]. apply IH. intros; apply H; right; auto.
Qed.

Theorem C82_total_programs_converge : forall usr ugen pr consts degree a b,
  (0 <= degree)%Z -> Z.even degree = true -> a <= b ->
  (forall o, In o (gops (p_graph pr)) -> total_prim (Z.to_nat degree) (odata o)) ->
  (forall o, In o (gops (p_graph pr)) -> opaque_ok (odata o)) ->
  (forall o, In o (gops (p_graph pr)) -> everywhere usr ugen (odata o)) ->
  wf_program pr consts ->
  (forall x, a <= x <= b -> (exists v, computes (scalarsR usr) (Z.to_nat degree) pr consts x v) /\
                            accepted_program (scalarsR usr) (generatorsR ugen) degree false pr consts (tscalar x)) ->
  exists M, 0 <= M /\ forall n, (0 < n)%Z -> exists l u,
    integral_bound_v1 (scalarsR usr) (generatorsR ugen) Rdiv pr consts a b degree n = Ok (l, u) /\
    u - l <= M / IZR n ^ Z.to_nat degree.
Proof.
  intros usr ugen pr consts degree a b Hd Ev Hab HT HO HE HW HC. set (D := Z.to_nat degree) in *.
  assert (HG : forall o, In o (gops (p_graph pr)) -> prim_gens_ok at_centre (scalarsR usr) (total_generators D) (odata o)) by (intros o Ho; exact (proj1 (total_fit usr pr D HT o Ho))).
  destruct (C82_integral_bounds_converge (scalarsR usr) (total_generators D) pr consts degree a b HG HO) as (M & M0 & K).
  - intros o Ho. exact (everywhere_bounded usr ugen (total_generators D) (odata o) (total_le D ugen) (HE o Ho)).
  - exact Hab.
  - intros x Hx. exact (proj1 (HC x Hx)).
  - assert (CELL : forall c d, a <= c -> c <= d -> d <= b -> exists p,
      integral_bound_v0 (scalarsR usr) (total_generators D) Rdiv pr consts c d degree = Ok p /\ integral_bound_v0 (scalarsR usr) (generatorsR ugen) Rdiv pr consts c d degree = Ok p).
    { intros c d Hac Hcd Hdb. unfold integral_bound_v0. replace (negb (degree mod 2 =? 0)%Z) with false by (rewrite Zmod_even, Ev; reflexivity).
      change (nadd c d) with (c + d). change (nofZ 2) with 2. cbv zeta. set (x0 := (c + d) / 2). assert (Hx0 : c <= x0 <= d) by (unfold x0; lra).
      destruct (HC x0 ltac:(lra)) as ((v & Hv) & HA). destruct (Hv) as (HS & y & HM & _).
      assert (B0 : in_box (tscalar x0) (tscalar c, tscalar d) (tscalar x0)) by (repeat split; auto; simpl; lra).
      destruct (total_return usr pr ugen degree false consts (tscalar x0) (tscalar c, tscalar d) y HT HO Hd ltac:(simpl; lia) B0 HW HS HM HA) as (bd & Hb). fold D in Hb.
      pose proof (scalar_shape _ _ pr consts degree false x0 c d bd v HG HO Hx0 Hv Hb) as SH.
      rewrite Hb, (taylor_bounds_le _ _ _ (total_le D ugen) _ _ _ _ _ _ _ Hb). cbn [bind]. fold lof hif.
      assert (TF : forall cf, In cf (tb_coefficients bd) -> (exists v, lof cf = Ok v) /\ exists v, hif cf = Ok v).
      { intros cf Hc. apply In_nth_error in Hc. destruct Hc as (j & Hj). destruct (SH j cf Hj) as [W _]. destruct cf as [t|tl th]; cbn [wfs] in W; unfold lof, hif, to_float; [rewrite W; simpl; eauto|]. destruct W as [W1 W2]. rewrite W1, W2. simpl. eauto. }
      destruct (mapM_all_ok lof _ (fun c Hc => proj1 (TF c Hc))) as (ls & ->). destruct (mapM_all_ok hif _ (fun c Hc => proj2 (TF c Hc))) as (hs & ->). cbn [bind]. eauto. }
    exists M. split; [exact M0|]. intros n Hn.
    assert (V : exists r, integral_bound_v1 (scalarsR usr) (total_generators D) Rdiv pr consts a b degree n = Ok r /\ integral_bound_v1 (scalarsR usr) (generatorsR ugen) Rdiv pr consts a b degree n = Ok r).
    { unfold integral_bound_v1. destruct (Z.eqb_spec n 0) as [|_]; [lia|]. cbv zeta.
      change (nsub b a) with (b - a). change (nofZ n) with (IZR n). set (w := (b - a) / IZR n).
      assert (Hng : 0 < IZR n) by (apply (IZR_lt 0); auto). assert (HWn : w * IZR n = b - a) by (unfold w; field; lra).
      assert (Hw : 0 <= w) by (unfold w; apply Rmult_le_pos; [lra|]; apply Rlt_le, Rinv_0_lt_compat; auto).
      apply foldM_both. intros s i Hi. apply in_seq in Hi.
      assert (I1 : 0 <= IZR (Z.of_nat i)) by (apply (IZR_le 0); lia). assert (I2 : IZR (Z.of_nat i) + 1 <= IZR n) by (rewrite <- plus_IZR; apply IZR_le; lia).
      match goal with |- context [integral_bound_v0 _ _ _ _ _ ?c ?d _] => assert (C1 : c = a + w * IZR (Z.of_nat i)) by reflexivity; assert (C2 : d = a + w * IZR (Z.of_nat i) + w) by reflexivity;
        destruct (CELL c d) as (p & P1 & P2); [rewrite C1; nra|rewrite C2, C1; lra|rewrite C2; nra|] end.
      rewrite P1, P2. cbn [bind]. eauto. }
    destruct V as ([l u] & V1 & V2). exists l, u. split; [exact V2|]. exact (K n l u Hn V1).
Qed.
