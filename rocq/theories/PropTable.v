(** C21 and the concrete form of C46-C48: division, and taylor_bounds with the
    registered enclosure generators. *)
From Coq Require Import Reals Lra.
From Verif Require Import Base Tensor IntervalArith Polynomials Enclosure TensorLemmas Spec IntervalProofs PropEnclosure PropDegree GraphEditor GraphSpec Elementwise Primitive ElementSpec PropElementwise PropPrimitive PropPower PropPowerZero
  Graded EnclosureOps EnclosureProofs BilinearProofs ComposeProofs JaxBound JaxSpec JaxLemmas JaxOps JaxForward JaxRun JaxInit PropJax JaxTable JaxTableProofs.
Open Scope R_scope.

(** * C21 *)
Lemma cap_okb_true k x0 x : cap_ok k x0 x -> cap_okb k x0 x = true.
Proof. unfold cap_okb, cap_ok. intros [->|H]; destruct Req_EM_T; auto; try congruence. destruct Rle_dec; auto. Qed.
Lemma mapM_ext' {A B} (f g : A -> res B) l : (forall x, In x l -> f x = g x) -> mapM f l = mapM g l.
Proof. induction l; intros H; cbn [mapM]; auto. rewrite (H a) by (left; auto). rewrite IHl; auto. intros x Hx. apply H. right; auto. Qed.

Lemma checked_recip_eq x0 l h D :
  (forall s, valid (tshape x0) s -> (0 < tdata l s \/ tdata h s < 0) /\ cap_ok D (tdata x0 s) (tdata l s) /\ cap_ok D (tdata x0 s) (tdata h s)) ->
  lift_gen (checked_pow (-1)) x0 (l, h) D = lift_gen (pow_gen (-1)) x0 (l, h) D.
Proof.
  intros H. unfold lift_gen. destruct (_ && _); auto. rewrite (mapM_ext' (fun I => checked_pow (-1) (tdata x0 I) (tdata l I, tdata h I) D) (fun I => pow_gen (-1) (tdata x0 I) (tdata l I, tdata h I) D)); auto.
  intros I HI. apply all_idx_valid in HI. destruct (H I HI) as (Hs & C1 & C2). unfold checked_pow, checked. cbn [fst snd].
  rewrite (cap_okb_true _ _ _ C1), (cap_okb_true _ _ _ C2). cbn [andb]. unfold pow_guard. cbn [fst snd].
  destruct (Rlt_dec 0 (tdata l I)); [reflexivity|]. destruct Hs as [Hs|Hs]; [contradiction|]. destruct (Rlt_dec (tdata h I) 0); [|contradiction].
  rewrite (is_int_IZR (-1)). rewrite orb_true_r. reflexivity.
Qed.

(** [b] encloses [g] with coefficients of full shape; [range] is the range of
    [g] that [divide] derives from [b] (the degree-0 enclosure over the region);
    it excludes 0 at every entry, and its ends are outside the 1e-12 cap around
    the constant term. *)
Theorem C21_division_sound : forall Sf Sg S X tr D z a b f g range c,
  bshape Sf Sg = Some S -> (exists s, valid S s) ->
  in_region X tr z -> in_region X tr (fun _ => 0) ->
  encloses (bcast Sf) X Sf a z f -> encloses (full Sg) X Sg b z g ->
  (length b <= D + 1)%nat -> (forall i u, (i < D)%nat -> nth_error b i = Some u -> exists t, u = Arr t) ->
  enclose_enclosure b tr 0 = Ok [range] ->
  (forall b0 s, hd_error b = Some b0 -> valid Sg s ->
     (0 < tdata (lo range) s \/ tdata (hi range) s < 0) /\
     cap_ok D (tdata (lo b0) s) (tdata (lo range) s) /\ cap_ok D (tdata (lo b0) s) (tdata (hi range) s)) ->
  edivide (mkArith D tr) (fun n => lift_gen (pow_gen (IZR n))) a b = Ok c ->
  encloses (bcast S) X S c z (fun s => f (bidx Sf s) / g (bidx Sg s)) /\
  (Sf = S -> Sg = S -> encloses (full S) X S a z f -> encloses (full S) X S c z (fun s => f s / g s)).
Proof.
  intros Sf Sg S X tr D z a b f g range c HS NS Htr Htr0 Ha Hb Lb Pb Hr Hcap H.
  destruct (bshape_spec _ _ _ HS) as [C1 C2].
  assert (Ng : exists s, valid Sg s) by (destruct NS as [s Hs]; exists (bidx Sg s); exact (bidx_compat_valid _ _ _ C2 Hs)).
  unfold edivide in H. apply bind_ok in H. destruct H as (ib & Hib & H).
  unfold epower in Hib. simpl in Hib. apply bind_ok in Hib. destruct Hib as (u0 & Hu0 & Hib).
  assert (W0 : exists b0 r, b = b0 :: r /\ wfs Sg b0).
  { destruct b as [|b0 r]; [destruct Hb; congruence|]. exists b0, r. split; auto.
    exact (hcast_wfs X Sg b0 r z _ Ng (encloses_mono _ _ _ _ _ _ _ (full_hcast Sg) Hb)). }
  destruct W0 as (b0 & r & -> & W0).
  assert (Hib' : elementwise_fun (mkArith D tr) (lift_gen (checked_pow (-1))) (b0 :: r) None = Ok ib).
  { rewrite <- Hib. unfold elementwise_fun. cbn [trust_region]. rewrite Hr. cbn [bind get_nth nth_error max_degree].
    assert (E : forall x0, tshape x0 = Sg -> (forall s, tdata x0 s = tdata (lo b0) s) -> 
       lift_gen (checked_pow (-1)) x0 (match range with Arr t => (t, t) | Ivl l h => (l, h) end) D = lift_gen (pow_gen (-1)) x0 (match range with Arr t => (t, t) | Ivl l h => (l, h) end) D).
    { intros x0 E1 E2. assert (ER : match range with Arr t => (t, t) | Ivl l h => (l, h) end = (lo range, hi range)) by (destruct range; reflexivity). rewrite ER.
      apply checked_recip_eq. intros s Hs. rewrite E1 in Hs. rewrite E2. exact (Hcap b0 s eq_refl Hs). }
    destruct b0 as [t|l h]; cbn [bind].
    - rewrite E; auto.
    - destruct (D =? 0)%nat; auto. cbn [bind]. rewrite E; auto. apply W0. }
  set (gv := mkT Sg g : tensor R). set (wv := mkT Sg (fun s => / g s) : tensor R).
  assert (HG : valid_gen (lift_gen (checked_pow (-1))) (fun x => if Req_EM_T x 0 then Err NonFinite else Ok (powerRZ x (-1)))).
  { destruct (checked_valid (fun _ _ => Err NonFinite) (fun _ _ _ _ => Err NonFinite)) as (_ & HG & _); [intros n0 S0 x0 l h d e _ _ _ _ HE; discriminate|]. exact (HG (-1)%Z eq_refl). }
  (* 0 is not a value of g *)
  assert (Hne0 : forall s, valid Sg s -> g s <> 0).
  { intros s Hs E0. pose proof (encloses_enclose _ _ _ _ _ _ _ _ _ _ (pf_full Sg) Htr Hb Hr) as H1.
    destruct (single_full X z Sg range _ Ng H1) as [W K1]. specialize (K1 s Hs). apply inat_iff in K1. destruct (Hcap b0 s eq_refl Hs) as ([Q|Q] & _); lra. }
  assert (HW : approx KFull X D z wv ib).
  { refine (elem_ok X tr D z Htr Htr0 always (or_introl eq_refl) (lift_gen (checked_pow (-1))) _ KFull gv wv (b0 :: r) ib None (valid_valid_if _ _ _ HG) _ Ng eq_refl _ (conj Hb (conj Pb (conj Lb (fun _ => proj1 Hb)))) I Hib'); [left; reflexivity|].
    intros s Hs. simpl. destruct (Req_EM_T (g s) 0); [exfalso; exact (Hne0 s Hs e)|]. rewrite Rmult_1_r. reflexivity. }
  destruct HW as (HW & _). simpl in HW.
  assert (HWb : encloses (bcast Sg) X Sg ib z (fun s => / g s)).
  { eapply encloses_mono; [|exact HW]. intros i p ->. apply compat_refl. }
  split.
  - exact (C16_multiply_sound Sf Sg S X tr D a ib z f _ c HS Htr Ha HWb H).
  - intros -> -> Ha'. refine (C16_full_rank S X tr D a ib z f _ c Htr Ha' _ H). eapply encloses_mono; [|exact HW]. intros i p ->. left; reflexivity.
Qed.

(** * C46-C48 for the registered functions *)
(** If no call to a registered generator leaves the conditions under which it is
    valid (C35, C37) -- i.e. if the run that checks them returns -- then the code
    returns the same bounds and they are sound. *)
Theorem C46_registered_functions_sound : forall usr ugen pr consts max_deg propagate x0 region x b,
  (forall n, valid_gen (ugen n) (usr n)) -> (forall o, In o (gops (p_graph pr)) -> opaque_ok (odata o)) ->
  in_box x0 region x0 -> in_box x0 region x ->
  supported (scalarsR usr) (tshape x0) (Z.to_nat max_deg) pr consts x ->
  taylor_bounds (scalarsR usr) (checked_generators ugen) pr consts max_deg propagate x0 region = Ok b ->
  taylor_bounds (scalarsR usr) (generatorsR ugen) pr consts max_deg propagate x0 region = Ok b /\
  exists y, meaning (scalarsR usr) pr consts x = Some [y] /\ bounds_at b x y.
Proof.
  intros usr ugen pr consts max_deg propagate x0 region x b HU HO B0 B HS H. split.
  - exact (taylor_bounds_le _ _ _ (checked_generators_le ugen) _ _ _ _ _ _ _ H).
  - destruct propagate; [exact (C47_propagation_sound _ _ _ _ _ _ _ _ _ (checked_valid usr ugen HU) HO B0 B HS H)|exact (C46_taylor_bounds_sound _ _ _ _ _ _ _ _ _ (checked_valid usr ugen HU) HO B0 B HS H)].
Qed.
