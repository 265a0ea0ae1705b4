(** The interpreter raises only what a generator raises. *)
From Coq Require Import Reals Lra Psatz.
From Verif Require Import Base Tensor IntervalArith Polynomials Enclosure TensorLemmas Spec IntervalProofs PowerProofs PolyProofs Graded
  EnclosureOps EnclosureProofs BilinearProofs ComposeProofs PropEnclosure PropDegree GraphEditor GraphSpec JaxBound JaxSpec JaxLemmas JaxIndex JaxGather JaxPush JaxDot JaxOps JaxForward JaxEval
  JaxRun JaxInit Total TotalSpec TotalForward.
Open Scope R_scope.

Lemma accepted_0 gs X D p ks vs : accepted gs X D true p ks vs -> accepted gs X 0 true p (map (fun _ => KFull) ks) vs.
Proof.
  assert (F : ~ In KCast (map (fun _ : kind => KFull) ks)) by (intros F; apply in_map_iff in F; destruct F as (? & [=] & _)).
  destruct p; simpl; auto; try tauto.
  - intros _ (k & E). apply F. rewrite E. right. left. auto.
  - intros [[=] _].
Qed.

(** A primitive with a registered function has one result. *)
Lemma one_result sc X D p args ks vals kd : length ks = length args -> forallb is_const ks = false -> prim_bind sc p args = Ok vals ->
  result_kind X D p (combine ks (map tshape args)) (map tshape vals) = Some kd -> exists v, vals = [v].
Proof.
  intros L NC HB HK.
  assert (HE : forallb (fun a : kind * list nat => is_const (fst a)) (combine ks (map tshape args)) = false).
  { rewrite <- NC. clear -L. revert args L. induction ks as [|k ks IH]; intros [|a args] L; simpl in *; try discriminate; auto. rewrite IH; auto. }
  unfold result_kind in HK. rewrite HE in HK.
  destruct args as [|a [|b [|c args]]], ks as [|k1 [|k2 [|k3 ks]]]; simpl in L; try discriminate; try (destruct p; cbn in HK; discriminate);
    destruct p; try (cbn in HK; discriminate); cbn -[gather tmapM tmap2M dot_general] in HB; try discriminate;
    try (destruct (0 <=? y)%Z); try (apply one_ok in HB; destruct HB as (t & _ & ->); eauto); injection HB as <-; eauto.
Qed.

Lemma validate_shapes_tot X Q a : all1 (shp X Q) 0 a -> tot (fun _ => True) (validate_shapes X (a : enclosure R)).
Proof.
  intros H. unfold validate_shapes. apply foldM_tot; auto. intros _ (i, c) _ Hin. apply in_enumerate in Hin. destruct (H i c Hin) as (p & _ & W).
  simpl in W. rewrite (wfs_ishape _ _ W), app_length, rep_length.
  replace (length p + i * length X - i * length X)%nat with (length p) by lia. rewrite skipn_exact by auto.
  replace (shape_eqb _ _) with true by (symmetry; apply shape_eqb_eq; auto). apply tot_ok. auto.
Qed.

Section Run.
Variables (X : list nat) (tr : tensor R * tensor R).
Let z : list nat -> R := fun _ => 0.
Hypothesis Htr : in_region X tr z.
Variables (sc : scalars R) (gs : generators R).
Definition fit (p : prim R) : Prop := prim_gens_ok at_centre sc gs p /\ forall gen, calls gs p gen -> nonconstant_gen gen.
Hypothesis HX : (length X <= 1)%nat.

Lemma args0_tot D ks vs args : argcs D ks vs args -> Forall (fun i : inter R => i_tr i <> None) args ->
  tot (fun args0 => argcs 0 (map (fun _ => KFull) ks) vs args0)
    (mapM (fun i => match i_tr i with Some (l, h) => Ok (Inter [Ivl l h] None) | None => Err AssertionError end) args).
Proof.
  induction 1 as [|k v i ks vs is' H1 H IH]; intros HF; cbn [mapM].
  - apply tot_ok. constructor.
  - inversion HF as [|? ? F1 F2]; subst. destruct (i_tr i) as [[l h]|] eqn:E; [|congruence]. cbn [bind].
    eapply tot_bind; [exact (IH F2)|]. intros a Ha. apply tot_ok. simpl. constructor; auto. simpl. unfold nonconstant. simpl. eauto.
Qed.

Lemma region_or D p ks vs args e v k : (1 <= D)%nat -> fit p -> opaque_ok p -> args_ok X D z ks vs args -> argcs D ks vs args -> Forall (fun i : inter R => i_tr i <> None) args ->
  (exists s, valid (tshape v) s) -> forallb is_const ks = false ->
  prim_bind sc p vs = Ok [v] -> result_kind X D p (combine ks (map tshape vs)) [tshape v] = Some k ->
  accepted gs X D true p ks vs -> approx k X D z v e -> nonconstant e D ->
  okor (bad gs p 0) (fun _ => True) (out_trust_region gs (mkArith 0 tr) p args e).
Proof.
  intros HD [HG HN] HO HA HC HF NV NC HB HK HAcc HE HNC. unfold out_trust_region.
  destruct (args0_tot D ks vs args HC HF) as (args0 & E0 & C0). rewrite E0. cbn [bind].
  pose proof (args0_ok X D z HX _ _ _ _ HA E0) as HA0. destruct (args_length _ _ _ HX _ _ _ HA) as [L1 _].
  assert (HK0 : result_kind X 0 p (combine (map (fun _ => KFull) ks) (map tshape vs)) [tshape v] = Some KFull).
  { eapply result_kind_0; eauto. rewrite map_length. auto. }
  assert (NC0 : forallb is_const (map (fun _ => KFull) ks) = false) by (destruct ks; [discriminate|reflexivity]).
  eapply okor_bind; [exact (pushforward_or X tr Htr sc gs HX 0 true p _ _ _ v KFull HG HN HO HA0 C0 NV NC0 HB HK0 (accepted_0 _ _ _ _ _ _ HAcc))|].
  intros a Ha Na. pose proof (pushforward_ok X tr 0 z Htr Htr sc gs at_centre (or_intror (conj eq_refl eq_refl)) HX p _ _ _ a v KFull HG HO HA0 NV NC0 HB HK0 Ha) as (KA & _ & La).
  destruct Na as (al & ah & ->). destruct (single_full X z (tshape v) _ _ NV KA) as [[Wal Wah] _]. simpl in Wal, Wah.
  pose proof (approx_cast X D k v e NV HE) as HS.
  destruct (enclose_tot X tr (conj (proj1 Htr) (proj1 (proj2 Htr))) (tshape v) _ _ (pf_bcast _) e 0 HS) as (b & Eb & Sb & Lb). cbn [trust_region]. rewrite Eb. cbn [bind].
  destruct (enclose_I e tr b) as (c & -> & bl & bh & ->); auto.
  { right. unfold nonconstant in HNC. destruct (Nat.eqb_spec D 0); [lia|auto]. }
  cbn [get_nth nth_error bind]. specialize (Sb 0%nat _ eq_refl). destruct Sb as (q & Cq & [Wbl Wbh]). simpl in Wbl, Wbh. rewrite app_nil_r in *. unfold bcast in Cq.
  destruct e as [|c0 rest]; [exfalso; unfold nonconstant in HNC; destruct (Nat.eqb_spec D 0); [lia|simpl in HNC; lia]|].
  destruct (proj1 (proj2 HE) 0%nat c0 ltac:(lia) eq_refl) as [t ->].
  pose proof (approx_head X D k v _ _ NV HE) as Wy. simpl in Wy.
  apply tot_okor. unfold intersect_intervals.
  eapply tot_bind with (Q := fun lh => tshape (fst lh) = tshape v /\ tshape (snd lh) = tshape v).
  { eapply tot_bind; [apply (tmap2_tot _ al bl (tshape v) q (tshape v)); auto; apply bshape_compat_r; auto|]. intros l Sl.
    eapply tot_bind; [apply (tmap2_tot _ ah bh (tshape v) q (tshape v)); auto; apply bshape_compat_r; auto|]. intros h Sh. apply tot_ok. auto. }
  intros (l & h) [Sl Sh]. simpl in Sl, Sh. cbn [bind].
  eapply tot_bind; [apply (tmap2_tot_same _ t l (tshape v)); auto|]. intros l' _.
  eapply tot_bind; [apply (tmap2_tot_same _ t h (tshape v)); auto|]. intros h' _. apply tot_ok. auto.
Qed.

Variables (D : nat) (prop : bool).
Hypothesis HP : prop = true -> (1 <= D)%nat.

Definition known (i : inter R) (v : tensor R) (kd : kind) : Prop := argc D kd v (i_enc i) /\ (prop = true -> i_tr i <> None).
(** Every variable with a value is in the dictionary, and those still to be
    defined are not. *)
Definition inv2 (d : dict) (r : jvar -> option (tensor R)) (k : jvar -> option kind) (rest : list jvar) : Prop :=
  (forall n v kd, r (Var n) = Some v -> k (Var n) = Some kd -> exists i, dlookup d n = Some i /\ known i v kd) /\
  (forall n, In (Var n) rest -> dlookup d n = None).

Lemma gets_tot lits d r k rest l : inv X D z lits d r k -> inv2 d r k rest -> forall xs ks, ~ In Drop l -> lookups r l = Some xs -> lookups k l = Some ks ->
  tot (fun args => argcs D ks xs args /\ (prop = true -> Forall (fun i : inter R => i_tr i <> None) args)) (mapM (get_intermediate lits d) l).
Proof.
  intros HI [H2 _]. induction l as [|v l IH]; intros xs ks ND Hx Hk; cbn [mapM]; simpl in Hx, Hk.
  - injection Hx as <-. injection Hk as <-. apply tot_ok. split; auto. constructor.
  - destruct (r v) as [x|] eqn:Er; [|discriminate]. destruct (lookups r l) as [xs'|]; [|discriminate]. injection Hx as <-.
    destruct (k v) as [kd|] eqn:Ek; [|discriminate]. destruct (lookups k l) as [ks'|]; [|discriminate]. injection Hk as <-.
    eapply tot_bind with (Q := fun i => known i x kd).
    { destruct v as [n|n|]; [| |exfalso; apply ND; left; auto].
      - destruct (H2 n x kd Er Ek) as (i & Hi & Kn). simpl. rewrite Hi. apply tot_ok. auto.
      - destruct (proj1 HI n) as (_ & E1 & E2). rewrite E1 in Er. rewrite E2 in Ek. injection Er as <-. injection Ek as <-. apply tot_ok. split; [reflexivity|discriminate]. }
    intros i [K1 K2]. eapply tot_bind; [apply IH; auto; intros HIn; apply ND; right; auto|]. intros is' [Q1 Q2]. apply tot_ok. split; [constructor; auto|]. intros; constructor; auto.
Qed.

Lemma nonconst_exists ks vs args : argcs D ks vs args -> existsb (fun i => negb (is_constant i)) args = negb (forallb is_const ks).
Proof.
  induction 1 as [|k v i ks vs is' H1 H IH]; simpl; auto. rewrite IH.
  assert (E : is_constant i = is_const k).
  { unfold is_constant. destruct k; simpl in *; [rewrite H1; auto|..]; unfold nonconstant in H1; destruct (D =? 0)%nat;
      try (destruct H1 as (l & h & ->); reflexivity); destruct (i_enc i) as [|[|] [|]]; auto; simpl in H1; lia. }
  rewrite E. destruct (is_const k); auto.
Qed.
Lemma consts_tot ks vs args : argcs D ks vs args -> forallb is_const ks = true -> mapM constant_value args = Ok vs.
Proof.
  induction 1 as [|k v i ks vs is' H1 H IH]; simpl; auto. intros E. apply andb_prop in E. destruct E as [E1 E2].
  destruct k; try discriminate. simpl in H1. unfold constant_value at 1. rewrite H1. cbn [bind]. rewrite IH; auto.
Qed.

Lemma store_tot kd : forall outs vs is' d r k r' k' rest, Forall2 (fun i v => known i v kd /\ exists Q, all1 (shp X Q) 0 (i_enc i)) is' vs ->
  inv2 d r k (outs ++ rest) -> Forall (fun v => is_lit v = false) outs -> NoDup (filter is_var (outs ++ rest)) ->
  assign jvar_eqb r outs vs = Some r' -> assign jvar_eqb k outs (map (fun _ => kd) vs) = Some k' ->
  tot (fun d' => inv2 d' r' k' rest) (store X d outs is').
Proof.
  induction outs as [|u outs IH]; intros vs is' d r k r' k' rest HF HI HL ND Hr Hk; destruct HF as [|i v is' vs (K1 & Q & S1) HF]; simpl in Hr, Hk; try discriminate.
  - injection Hr as <-. injection Hk as <-. apply tot_ok. exact HI.
  - inversion HL as [|? ? L1 L2]; subst. destruct HI as [H1 H2]. destruct u as [n|n|]; [|discriminate|]; cbn [store].
    + rewrite (H2 n (or_introl eq_refl)).
      eapply tot_bind; [exact (validate_shapes_tot X Q _ S1)|]. intros _ _.
      simpl in ND. inversion ND as [|? ? N1 N2]; subst. refine (IH vs is' _ _ _ r' k' rest HF _ L2 N2 Hr Hk). split.
      * intros m w kw Hm Km. simpl. simpl in Hm, Km. destruct (n =? m)%nat; [|exact (H1 m w kw Hm Km)]. injection Hm as <-. injection Km as <-. eauto.
      * intros m Hm. simpl. destruct (Nat.eqb_spec n m) as [->|]; [|apply H2; right; auto]. exfalso. apply N1. apply filter_In. auto.
    + refine (IH vs is' _ _ _ r' k' rest HF _ L2 ND Hr Hk). split; [exact H1|]. intros m Hm. apply H2. right; auto.
Qed.

(** A generator called for the primitive raised, at degree [D] or 0. *)
Definition bad2 (p : prim R) (e : exn) : Prop := bad gs p D e \/ bad gs p 0 e.

Lemma step_or lits d r k o args ks vals kd r' k' rest : inv X D z lits d r k -> inv2 d r k (oouts o ++ rest) -> fit (odata o) -> opaque_ok (odata o) ->
  Forall (fun v => is_lit v = false) (oouts o) -> NoDup (filter is_var (oouts o ++ rest)) -> ~ In Drop (oins o) ->
  lookups r (oins o) = Some args -> lookups k (oins o) = Some ks -> prim_bind sc (odata o) args = Ok vals ->
  forallb (fun v => nonempty (tshape v)) vals = true ->
  result_kind X D (odata o) (combine ks (map tshape args)) (map tshape vals) = Some kd ->
  assign jvar_eqb r (oouts o) vals = Some r' -> assign jvar_eqb k (oouts o) (map (fun _ => kd) vals) = Some k' ->
  (if forallb is_const ks then evaluable (odata o) else accepted gs X D prop (odata o) ks args) ->
  okor (bad2 (odata o)) (fun d' => inv2 d' r' k' rest) (step sc gs (mkArith D tr) (mkArith 0 tr) prop X lits d o).
Proof.
  intros HI HI2 HG HO HL ND NDr Hr Hk HB HNv HK Ar Ak HAcc. unfold step.
  destruct (gets_tot lits d r k _ (oins o) HI HI2 args ks NDr Hr Hk) as (ints & Hints & HC & HF). rewrite Hints. cbn [bind].
  pose proof (gets_ok X D z lits d r k _ HI _ _ _ Hints Hr Hk) as HA. destruct (args_length _ _ _ HX _ _ _ HA) as [L1 L2].
  rewrite (nonconst_exists _ _ _ HC).
  destruct (forallb is_const ks) eqn:EC; cbn [negb].
  - rewrite (consts_tot _ _ _ HC EC). cbn [bind].
    assert (HEv : prim_eval sc (odata o) args = Ok vals).
    { rewrite <- HB. destruct (odata o) as [| | | | | | | | | | |e| | | | | | |]; auto. destruct e; simpl in HAcc; tauto. }
    rewrite HEv. cbn [bind]. apply tot_okor. apply (store_tot kd _ vals _ d r k); auto.
    assert (kd = KConst).
    { unfold result_kind in HK. replace (forallb _ _) with true in HK; [congruence|]. symmetry. rewrite <- EC. clear -L1. revert args L1.
      induction ks as [|x ks IH]; intros [|a args] L; simpl in *; try discriminate; auto. rewrite IH; auto. }
    subst kd. clear -HNv. induction vals as [|v vals IH]; simpl; constructor; auto.
    + split; [split; [reflexivity|discriminate]|]. exists (full (tshape v)). intros [|[|i]] c Hc; simpl in Hc; try discriminate. injection Hc as <-.
      exists (tshape v). split; [reflexivity|]. simpl. rewrite app_nil_r. reflexivity.
    + apply IH. simpl in HNv. apply andb_prop in HNv. tauto.
  - destruct (one_result sc X D _ args ks vals kd L1 EC HB HK) as [v ->].
    simpl in HNv. rewrite andb_true_r in HNv. pose proof (nonempty_valid _ HNv) as NV.
    eapply okor_bind with (Q := fun outs => Forall2 (fun i w => known i w kd /\ exists Q, all1 (shp X Q) 0 (i_enc i)) outs [v]).
    2:{ intros outs _ HOut. apply tot_okor. exact (store_tot kd _ _ _ d r k r' k' rest HOut HI2 HL ND Ar Ak). }
    eapply okor_bind.
    { eapply okor_bad; [|exact (pushforward_or X tr Htr sc gs HX D prop _ _ _ _ v kd (proj1 HG) (proj2 HG) HO HA HC NV EC HB HK HAcc)]. intros e He. left. exact He. }
    intros e He Ne. pose proof (pushforward_ok X tr D z Htr Htr sc gs at_centre (or_intror (conj eq_refl eq_refl)) HX _ _ _ _ _ _ _ (proj1 HG) HO HA NV EC HB HK He) as HE.
    assert (LO : length (oouts o) = 1%nat) by (destruct (oouts o) as [|? [|]]; simpl in Ar; try discriminate; auto).
    rewrite LO. cbn [Nat.eqb negb].
    assert (NK : kd <> KConst).
    { intros ->. destruct HE as ((t & -> & _) & _ & _). unfold nonconstant in Ne. destruct (D =? 0)%nat; [destruct Ne as (? & ? & [=])|simpl in Ne; lia]. }
    assert (AC : argc D kd v e) by (destruct kd; auto; congruence).
    assert (SH : exists Q, all1 (shp X Q) 0 e) by (eexists; exact (approx_cast X D kd v e NV HE)).
    destruct prop eqn:EP.
    + cbn [bind]. eapply okor_bind with (Q := fun r => r <> None).
      * eapply okor_bind with (Q := fun _ => True).
        -- eapply okor_bad; [|exact (region_or D _ _ _ _ e v kd (HP eq_refl) HG HO HA HC (HF eq_refl) NV EC HB HK HAcc HE Ne)]. intros x Hx. right. exact Hx.
        -- intros rg _ _. simpl. discriminate.
      * intros rg _ Hrg. simpl. constructor; [|constructor]. simpl. split; auto. split; auto.
    + cbn [bind okor]. constructor; [|constructor]. simpl. split; auto. split; auto. congruence.
Qed.

Lemma run_or lits ops rest : forall d r k k', inv X D z lits d r k -> inv2 d r k (flat_map oouts ops ++ rest) -> (forall o, In o ops -> fit (odata o)) -> (forall o, In o ops -> opaque_ok (odata o)) ->
  Forall (fun v => is_lit v = false) (flat_map oouts ops) -> NoDup (filter is_var (flat_map oouts ops ++ rest)) -> (forall o, In o ops -> ~ In Drop (oins o)) ->
  analyse sc X D r k ops = Some k' -> all_accepted sc gs X D prop r k ops ->
  okor (fun e => exists o, In o ops /\ bad2 (odata o) e)
    (fun d' => forall r', run (fun p args => ok_opt (prim_bind sc p args)) jvar_eqb r ops = Some r' -> inv2 d' r' k' rest)
    (foldM (step sc gs (mkArith D tr) (mkArith 0 tr) prop X lits) d ops).
Proof.
  induction ops as [|o ops IH]; intros d r k k' HI HI2 HG HO HL ND NDr HA HAc; simpl in HA.
  - injection HA as <-. simpl. intros r' [= <-]. exact HI2.
  - cbn [foldM flat_map] in *. rewrite <- app_assoc in HI2, ND. apply Forall_app in HL. destruct HL as [HL1 HL2].
    destruct (lookups r (oins o)) as [args|] eqn:Er; [|discriminate]. destruct (lookups k (oins o)) as [ks|] eqn:Ek; [|discriminate].
    destruct (prim_bind sc (odata o) args) as [vals|] eqn:EB; [|discriminate]. destruct (forallb _ vals) eqn:EN; [|discriminate].
    destruct (result_kind _ _ _ _ _) as [kd|] eqn:EK; [|discriminate]. destruct (assign jvar_eqb r (oouts o) vals) as [r1|] eqn:A1; [|discriminate].
    destruct (assign jvar_eqb k (oouts o) _) as [k1|] eqn:A2; [|discriminate].
    destruct (HAc _ _ _ _ _ _ Er Ek EB EK A1 A2) as [Acc HAc'].
    eapply okor_bind.
    { eapply okor_bad; [|exact (step_or lits d r k o args ks vals kd r1 k1 _ HI HI2 (HG o (or_introl eq_refl)) (HO o (or_introl eq_refl)) HL1 ND (NDr o (or_introl eq_refl)) Er Ek EB EN EK A1 A2 Acc)].
      intros e He. exists o. split; [left; auto|exact He]. }
    intros d1 Hd1 HI1. cbn [run]. unfold run_op. rewrite Er, EB. simpl ok_opt. cbn iota. rewrite A1.
    eapply okor_bad; [|refine (IH d1 r1 k1 k' _ HI1 _ _ HL2 _ _ HA HAc')].
    + intros e (o' & Ho & He). exists o'. split; [right; auto|exact He].
    + exact (step_ok X tr D z Htr Htr sc gs at_centre (or_intror (conj eq_refl eq_refl)) HX prop lits d r k o d1 args ks vals kd r1 k1 HI (proj1 (HG o (or_introl eq_refl))) (HO o (or_introl eq_refl)) Er Ek EB EN EK A1 A2 Hd1).
    + intros o' Ho. apply HG. right; auto.
    + intros o' Ho. apply HO. right; auto.
    + rewrite filter_app in ND. clear -ND. induction (filter is_var (oouts o)) as [|x l IH]; simpl in ND; auto. inversion ND; auto.
    + intros o' Ho. apply NDr. right; auto.
Qed.
End Run.
