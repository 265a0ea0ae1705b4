(** Inclusion isotonicity of taylor_bounds. *)
From Coq Require Import Reals Lra FunctionalExtensionality.
From Verif Require Import Base Tensor IntervalArith Polynomials Enclosure TensorLemmas Spec IntervalProofs PowerProofs PolyProofs Graded
  EnclosureOps EnclosureProofs BilinearProofs ComposeProofs PropEnclosure PropDegree GraphEditor GraphSpec JaxBound JaxSpec JaxLemmas JaxIndex JaxGather JaxPush JaxDot JaxOps JaxForward JaxRun JaxEval JaxInit PropJax
  IsoSpec Iso IsoEnc IsoJax IsoRun.
Open Scope R_scope.

(** The parts of a run. *)
Lemma interpret_inv sc gs pr consts max_deg prop x0 region d : in_box x0 region x0 -> interpret sc gs pr consts max_deg prop x0 region = Ok d ->
  exists D tl th eye n d0, (0 <= max_deg)%Z /\ D = Z.to_nat max_deg /\
    tshape tl = tshape x0 /\ tshape th = tshape x0 /\
    (forall J, valid (tshape x0) J -> tdata tl J = tdata (fst region) J - tdata x0 J /\ tdata th J = tdata (snd region) J - tdata x0 J) /\
    identity x0 = Ok eye /\ length consts = length (gdata (p_graph pr)) /\ gins (p_graph pr) = [Var n] /\
    foldM (fun d '(v, c) => match v with Var n => Ok ((n, constant_inter c) :: d) | _ => Err Unmodelled end) [] (combine (gdata (p_graph pr)) consts) = Ok d0 /\
    foldM (step sc gs (mkArith D (tl, th)) (mkArith 0 (tl, th)) (if (D =? 0)%nat then false else prop) (tshape x0) (p_lits pr))
      ((n, Inter (if (0 <? D)%nat then [Arr x0; Arr eye] else [Ivl (fst region) (snd region)]) (if (if (D =? 0)%nat then false else prop) then Some region else None)) :: d0)
      (gops (p_graph pr)) = Ok d.
Proof.
  intros (_ & S1 & S2 & _) H. unfold interpret in H. destruct (max_deg <? 0)%Z eqn:EM; [discriminate|]. apply Z.ltb_ge in EM.
  apply bind_ok in H. destruct H as (t & Ht & H). apply bind_ok in H. destruct H as (tr & Htr & H). apply bind_ok in H. destruct H as (AA & HAA & H).
  apply bind_ok in H. destruct H as (AA0 & HAA0 & H). apply bind_ok in H. destruct H as (eye & Heye & H).
  apply bind_ok in H. destruct H as (u0 & Hlen & H). apply bind_ok in H. destruct H as (invar & Hin & H). apply bind_ok in H. destruct H as (d0 & Hd0 & H).
  cbn [isub] in Ht. apply bind_ok in Ht. destruct Ht as (tl & Htl & Ht). apply bind_ok in Ht. destruct Ht as (th & Hth & Ht). injection Ht as <-. injection Htr as <-.
  pose proof (tmap2_same_ok _ _ _ _ (tshape x0) Htl S1 eq_refl) as [Stl Etl]. pose proof (tmap2_same_ok _ _ _ _ (tshape x0) Hth S2 eq_refl) as [Sth Eth].
  unfold make_arith in HAA, HAA0. destruct (shape_eqb _ _) in HAA; [|discriminate]. injection HAA as <-. destruct (shape_eqb _ _) in HAA0; [|discriminate]. injection HAA0 as <-.
  destruct (length consts =? length (gdata (p_graph pr)))%nat eqn:EL; [|discriminate]. apply Nat.eqb_eq in EL.
  destruct (gins (p_graph pr)) as [|[n| |] [|]] eqn:EI; try discriminate. injection Hin as <-.
  exists (Z.to_nat max_deg), tl, th, eye, n, d0. repeat (apply conj; [solve [auto]|]). exact H.
Qed.

(** Nested regions. *)
Definition inside_box (region region' : tensor R * tensor R) : Prop :=
  tshape (fst region') = tshape (fst region) /\ tshape (snd region') = tshape (snd region) /\
  forall s, valid (tshape (fst region)) s -> tdata (fst region') s <= tdata (fst region) s /\ tdata (snd region) s <= tdata (snd region') s.


Lemma consts_const vars : forall cs (d d1 : @dict R), (forall n i, dlookup d n = Some i -> exists t, i = constant_inter t) ->
  foldM (fun d '(v, c) => match v with Var n => Ok ((n, constant_inter c) :: d) | _ => Err Unmodelled end) d (combine vars cs) = Ok d1 ->
  forall n i, dlookup d1 n = Some i -> exists t, i = constant_inter t.
Proof.
  induction vars as [|v vars IH]; intros [|c cs] d d1 Hd H; cbn [combine foldM] in H; try (injection H as <-; auto).
  apply bind_ok in H. destruct H as (d2 & H2 & H). destruct v as [m| |]; try discriminate. injection H2 as <-. refine (IH cs _ _ _ H).
  intros n i Hn. simpl in Hn. destruct (m =? n)%nat; [injection Hn as <-; eauto|eauto].
Qed.

(** The region given by the caller is inside the range of the enclosure of the input. *)
Lemma input_range X x0 eye l h tr t : X = tshape x0 -> (exists s, valid X s) -> identity x0 = Ok eye -> tshape l = X -> tshape h = X -> tshape (fst tr) = X -> tshape (snd tr) = X ->
  (forall s, valid X s -> tdata l s <= tdata x0 s <= tdata h s) -> (forall J, valid X J -> tdata (fst tr) J = tdata l J - tdata x0 J /\ tdata (snd tr) J = tdata h J - tdata x0 J) ->
  forall D, eff (mkArith D tr) [Arr x0; Arr eye] None = Ok t -> ends (Ivl l h) t.
Proof.
  intros EX Hne HI Sl Sh St1 St2 HX Htr D H. unfold eff in H. cbn [tr_coef trust_region] in H. apply bind_ok in H. destruct H as (d0 & Hd0 & Hg). apply get_nth_ok in Hg.
  pose proof (enclose_shape _ _ _ _ Hd0) as (L & _ & _).
  destruct d0 as [|x [|]]; simpl in L, Hg; try discriminate; try lia. injection Hg as ->.
  assert (G : forall y, tshape y = X -> (forall s, valid X s -> tdata l s <= tdata y s <= tdata h s) -> wfs X t /\ forall s, valid X s -> inat t s (tdata y s)).
  { intros y Sy Hy. refine (single_full X (fun J => tdata y J - tdata x0 J) X t (tdata y) Hne _).
    refine (encloses_enclose _ _ _ _ _ _ _ _ _ _ (pf_full X) _ _ Hd0).
    - split; [auto|]. split; [auto|]. intros J HJ. destruct (Htr J HJ) as [-> ->]. specialize (Hy J HJ). lra.
    - pose proof (x0_encloses x0 y eye ltac:(congruence) HI) as E. rewrite Sy, <- EX in E. exact E. }
  destruct (G l Sl) as [W Gl]. { intros s Hs. specialize (HX s Hs). lra. }
  destruct (G h Sh) as [_ Gh]. { intros s Hs. specialize (HX s Hs). lra. }
  apply wfs_iff in W. apply (sub_narrower X). apply sub_ivl; try tauto. simpl. intros s Hs. specialize (Gl s Hs). specialize (Gh s Hs). apply inat_iff in Gl, Gh.
  specialize (HX s Hs). lra.
Qed.

Lemma interpret_iso sc gs pr consts max_deg prop prop' x0 region region' d d' :
  (prop' = true -> prop = true) -> in_box x0 region x0 -> inside_box region region' ->
  (forall o, In o (gops (p_graph pr)) -> prim_gens_ok at_centre sc gs (odata o)) -> (forall o, In o (gops (p_graph pr)) -> prim_gens_iso gs (odata o)) ->
  (forall o, In o (gops (p_graph pr)) -> opaque_ok (odata o)) ->
  supported sc (tshape x0) (Z.to_nat max_deg) pr consts x0 ->
  interpret sc gs pr consts max_deg prop x0 region = Ok d -> interpret sc gs pr consts max_deg prop' x0 region' = Ok d' ->
  exists tr tr' r' k', inv (tshape x0) (Z.to_nat max_deg) (fun _ => 0) (p_lits pr) d r' k' /\ inv (tshape x0) (Z.to_nat max_deg) (fun _ => 0) (p_lits pr) d' r' k' /\
    drel tr tr' (Z.to_nat max_deg) k' d d'.
Proof.
  intros HPP B0 (N1 & N2 & HN) HG HGI HO (HNx & HNc & HNl & r & k & k' & Hr & Hk & HA) H H'.
  assert (B0' : in_box x0 region' x0).
  { destruct B0 as (_ & S1 & S2 & B0). split; [auto|]. split; [congruence|]. split; [congruence|]. intros J HJ. specialize (B0 J HJ). specialize (HN J). rewrite S1 in HN. specialize (HN HJ). lra. }
  destruct (interpret_inv _ _ _ _ _ _ _ _ _ B0 H) as (D & tl & th & eye & n & d0 & HM & ED & Stl & Sth & Et & Heye & EL & EI & Hd0 & HR).
  destruct (interpret_inv _ _ _ _ _ _ _ _ _ B0' H') as (D' & tl' & th' & eye' & n' & d0' & _ & ED' & Stl' & Sth' & Et' & Heye' & _ & EI' & Hd0' & HR').
  rewrite Heye in Heye'. injection Heye' as <-. rewrite EI in EI'. injection EI' as <-. rewrite Hd0 in Hd0'. injection Hd0' as <-. subst D'. rewrite <- ED in *. clear ED.
  destruct B0 as (_ & S1 & S2 & B0). destruct B0' as (_ & S1' & S2' & B0'). set (X := tshape x0) in *.
  assert (R0 : in_region X (tl, th) (fun _ => 0)).
  { split; [auto|]. split; [auto|]. intros J HJ. simpl. destruct (Et J HJ) as [-> ->]. specialize (B0 J HJ). lra. }
  assert (R0' : in_region X (tl', th') (fun _ => 0)).
  { split; [auto|]. split; [auto|]. intros J HJ. simpl. destruct (Et' J HJ) as [-> ->]. specialize (B0' J HJ). lra. }
  assert (HT : regions (tl, th) (tl', th')).
  { apply (sub_narrower X). simpl. apply sub_ivl; auto. intros J HJ. destruct (Et J HJ) as [-> ->]. destruct (Et' J HJ) as [-> ->]. specialize (B0 J HJ).
    specialize (HN J ltac:(congruence)). lra. }
  assert (HTb : regions region region').
  { apply (sub_narrower X). apply sub_ivl; try congruence. intros J HJ. specialize (B0 J HJ). specialize (HN J ltac:(congruence)). lra. }
  assert (NV : exists s, valid X s) by (apply nonempty_valid; auto).
  assert (HInv : forall pp rg, tshape (fst rg) = X -> tshape (snd rg) = X -> (forall J, valid X J -> tdata (fst rg) J <= tdata x0 J <= tdata (snd rg) J) ->
     inv X D (fun _ => 0) (p_lits pr)
     ((n, Inter (if (0 <? D)%nat then [Arr x0; Arr eye] else [Ivl (fst rg) (snd rg)]) (if (if (D =? 0)%nat then false else pp) then Some rg else None)) :: d0) r k).
  { intros pp rg Q1 Q2 BB. rewrite EI in Hr, Hk. rewrite <- (sub_self x0).
    refine (init_ok _ _ _ _ _ n x0 _ (gdata (p_graph pr)) consts [] _ _ d0 r k _ EL HNc Hd0 Hr Hk).
    - split; [auto|]. simpl. split.
      + destruct D as [|D']; [apply x0_approx0; repeat split; auto; apply BB; auto|]. apply x0_approx; auto. lia.
      + destruct (Nat.eqb_spec D 0) as [->|HD]; [exact I|]. destruct pp; [|exact I]. unfold region_ok. destruct rg as [l h]. simpl in *.
        split; auto. split; auto. split; auto. intros c0 rest s Hc Hs. replace (0 <? D)%nat with true in Hc by (symmetry; apply Nat.ltb_lt; lia). injection Hc as <- <-. simpl. auto.
    - split; [|intros m i Hm; discriminate]. intros m. split; [apply HNl|]. split; reflexivity. }
  pose proof (HInv prop region S1 S2 B0) as I0. pose proof (HInv prop' region' S1' S2' B0') as I0'. clear HInv.
  assert (HD0 : drel (tl, th) (tl', th') D k
     ((n, Inter (if (0 <? D)%nat then [Arr x0; Arr eye] else [Ivl (fst region) (snd region)]) (if (if (D =? 0)%nat then false else prop) then Some region else None)) :: d0)
     ((n, Inter (if (0 <? D)%nat then [Arr x0; Arr eye] else [Ivl (fst region') (snd region')]) (if (if (D =? 0)%nat then false else prop') then Some region' else None)) :: d0)).
  { intros m i i' kd Hi Hi' _. simpl in Hi, Hi'. destruct (n =? m)%nat.
    - injection Hi as <-. injection Hi' as <-. assert (EN : nar (if (0 <? D)%nat then [Arr x0; Arr eye] else [Ivl (fst region) (snd region)]) (if (0 <? D)%nat then [Arr x0; Arr eye] else [Ivl (fst region') (snd region')])).
      { destruct (0 <? D)%nat; [repeat constructor; apply narrower_arr_same|constructor; [exact HTb|constructor]]. }
      split; [exact EN|]. split.
      + simpl. intros t t'. destruct (D =? 0)%nat; [discriminate|]. destruct prop; [|discriminate]. destruct prop'; [|discriminate]. intros [= <-] [= <-]. exact HTb.
      + cbn [i_enc i_tr]. destruct (Nat.eqb_spec D 0) as [->|HD]; [apply eff_enclose; auto|]. destruct prop', prop; try (specialize (HPP eq_refl); discriminate).
        * unfold eff. destruct region, region'. apply rel_ok. exact HTb.
        * intros t t' Ht Ht'. replace (0 <? D)%nat with true in * by (symmetry; apply Nat.ltb_lt; lia).
          assert (E2 : ends (Ivl (fst region') (snd region')) t').
          { refine (input_range X x0 eye (fst region') (snd region') (tl', th') t' eq_refl NV Heye S1' S2' Stl' Sth' B0' Et' D Ht'). }
          refine (ends_trans t _ t' _ E2). unfold eff in Ht. destruct region as [l h]. injection Ht as <-. exact HTb.
        * apply eff_enclose; auto.
    - rewrite Hi in Hi'. injection Hi' as <-. destruct (consts_const _ _ _ _ (fun n i (E : dlookup [] n = Some i) => ltac:(discriminate)) Hd0 _ _ Hi) as [t ->]. apply const_irel; auto using teq_refl. }
  pose proof (identity_rank _ _ Heye) as HX.
  assert (HPP' : (if (D =? 0)%nat then false else prop') = true -> (if (D =? 0)%nat then false else prop) = true) by (destruct (D =? 0)%nat; auto).
  pose proof (run_iso X (tl, th) (tl', th') D R0 R0' HT sc gs HX _ _ (p_lits pr) (gops (p_graph pr)) HPP' _ _ r k d d' k' I0 I0' HD0 HG HGI HO HA HR HR') as DD.
  destruct (run_ok X (tl, th) D _ R0 R0 sc gs at_centre (or_intror (conj eq_refl eq_refl)) HX _ (p_lits pr) (gops (p_graph pr)) _ r k d k' I0 HG HO HA HR) as (r1 & Hr1 & F1).
  destruct (run_ok X (tl', th') D _ R0' R0' sc gs at_centre (or_intror (conj eq_refl eq_refl)) HX _ (p_lits pr) (gops (p_graph pr)) _ r k d' k' I0' HG HO HA HR') as (r2 & Hr2 & F2).
  rewrite Hr1 in Hr2. injection Hr2 as <-. exists (tl, th), (tl', th'), r1, k'. auto.
Qed.

(** The bounds [b] are at least as tight as [b'] at [x]: both can be evaluated
    there, all four arrays have one shape, and lower' <= lower <= upper <= upper'
    at every entry. *)
Definition tighter_at (b b' : taylor_bounds_t R) (x : tensor R) : Prop :=
  exists l h l' h', tb_lower b x = Ok l /\ tb_upper b x = Ok h /\ tb_lower b' x = Ok l' /\ tb_upper b' x = Ok h' /\
    tshape h = tshape l /\ tshape l' = tshape l /\ tshape h' = tshape l /\
    forall s, valid (tshape l) s -> tdata l' s <= tdata l s /\ tdata l s <= tdata h s /\ tdata h s <= tdata h' s.

(** The bounds can be evaluated at every array of the shape of x0. *)
Definition evaluable (b : taylor_bounds_t R) : Prop := forall x, tshape x = tshape (tb_x0 b) -> exists r, tb_call b x = Ok r.

Lemma approx_evaluable b k D z y : (exists s, valid (tshape y) s) -> approx k (tshape (tb_x0 b)) D z y (tb_coefficients b) -> evaluable b.
Proof.
  intros NV (HH & _) x Sx. pose proof (holds_hcast _ _ _ _ _ HH) as HE. destruct (sub_total x (tb_x0 b) Sx) as (zt & Ez & Sz & Dz).
  destruct (eval_total _ _ zt _ _ _ NV Sz HE) as (r & Er & Wr). exists r. unfold tb_call. rewrite Ez. exact Er.
Qed.

Lemma coefs_iso sc gs pr consts max_deg prop prop' x0 region region' b b' :
  (prop' = true -> prop = true) -> in_box x0 region x0 -> inside_box region region' ->
  (forall o, In o (gops (p_graph pr)) -> prim_gens_ok at_centre sc gs (odata o)) -> (forall o, In o (gops (p_graph pr)) -> prim_gens_iso gs (odata o)) ->
  (forall o, In o (gops (p_graph pr)) -> opaque_ok (odata o)) ->
  supported sc (tshape x0) (Z.to_nat max_deg) pr consts x0 ->
  taylor_bounds sc gs pr consts max_deg prop x0 region = Ok b -> taylor_bounds sc gs pr consts max_deg prop' x0 region' = Ok b' ->
  tb_x0 b = x0 /\ tb_x0 b' = x0 /\ nar (tb_coefficients b) (tb_coefficients b') /\ evaluable b /\ evaluable b'.
Proof.
  intros HPP B0 HN HG HGI HO HS H H'. unfold taylor_bounds in H, H'.
  apply bind_ok in H, H'. destruct H as (d & Hd & H), H' as (d' & Hd' & H').
  destruct (interpret_iso _ _ _ _ _ _ _ _ _ _ _ _ HPP B0 HN HG HGI HO HS Hd Hd') as (tr & tr' & r & k & I1 & I2 & DD).
  apply bind_ok in H, H'. destruct H as (v & Hv & H), H' as (v' & Hv' & H'). rewrite Hv in Hv'. injection Hv' as <-.
  apply bind_ok in H, H'. destruct H as (i & Hi & H), H' as (i' & Hi' & H'). injection H as <-. injection H' as <-. cbn [tb_x0 tb_coefficients].
  split; auto. split; auto.
  assert (HV : forall dd ii rg, inv (tshape x0) (Z.to_nat max_deg) (fun _ => 0) (p_lits pr) dd r k -> get_intermediate (p_lits pr) dd v = Ok ii ->
     (exists kd, k v = Some kd) /\ evaluable (TaylorBounds x0 rg (i_enc ii))).
  { intros dd ii rg I0 Hii.
    assert (E : exists y kd, r v = Some y /\ k v = Some kd /\ arg_ok (tshape x0) (Z.to_nat max_deg) (fun _ => 0) kd y ii).
    { destruct v as [n|n|]; [| |discriminate].
      - simpl in Hii. destruct (dlookup dd n) as [j|] eqn:E; [|discriminate]. injection Hii as ->. destruct (proj2 I0 n ii E) as (y & kd & E1 & E2 & E3). eauto.
      - destruct (proj1 I0 n) as (N1 & E1 & E2). exists (p_lits pr n), KConst. split; auto. split; auto. exact (get_ok _ _ _ _ _ _ _ _ _ _ _ I0 Hii E1 E2). }
    destruct E as (y & kd & Ey & Ek & (Ny & Ay & _)). split; [eauto|]. exact (approx_evaluable (TaylorBounds x0 rg (i_enc ii)) kd _ _ y Ny Ay). }
  destruct (HV d i region I1 Hi) as [[kd Ek] Ev1]. destruct (HV d' i' region' I2 Hi') as [_ Ev2]. split; [|split; assumption].
  destruct (get_iso tr tr' (Z.to_nat max_deg) _ _ _ _ _ _ DD Ek _ _ Hi Hi') as (G & _). exact G.
Qed.

Lemma bounds_iso b b' x : tb_x0 b = tb_x0 b' -> tshape x = tshape (tb_x0 b) -> evaluable b -> evaluable b' -> nar (tb_coefficients b) (tb_coefficients b') -> tighter_at b b' x.
Proof.
  intros E0 Sx Ev Ev' HN. destruct (Ev x Sx) as (r & Hr). destruct (Ev' x ltac:(rewrite <- E0; exact Sx)) as (r' & Hr').
  destruct (lower_upper _ _ _ Hr) as [HL HU]. destruct (lower_upper _ _ _ Hr') as [HL' HU'].
  unfold tb_call in Hr, Hr'. apply bind_ok in Hr, Hr'. destruct Hr as (z & Hz & Hr), Hr' as (z' & Hz' & Hr'). rewrite <- E0, Hz in Hz'. injection Hz' as <-.
  pose proof (eval_iso _ _ _ _ HN (narrower_arr_same z) _ _ Hr Hr') as N. apply narrower_sub in N. destruct N as (s & _ & W & W' & N).
  apply wfs_iff in W, W'. destruct W as [W1 W2], W' as [W3 W4].
  exists (lo r), (hi r), (lo r'), (hi r'). do 4 (split; [assumption|]). rewrite W1, W2, W3, W4. split; auto. split; auto. split; auto. intros J HJ. specialize (N J HJ). lra.
Qed.
