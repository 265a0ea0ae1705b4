(** Property C60: taylor_bounds raises only what an enclosure generator raises. *)
From Coq Require Import Reals Lra Psatz.
From Verif Require Import Base Tensor IntervalArith Polynomials Enclosure TensorLemmas Spec IntervalProofs PowerProofs PolyProofs Graded
  EnclosureOps EnclosureProofs BilinearProofs ComposeProofs PropEnclosure PropDegree GraphEditor GraphSpec JaxBound JaxSpec JaxLemmas JaxIndex JaxGather JaxPush JaxDot JaxOps JaxForward JaxEval
  JaxRun JaxInit PropJax Total TotalSpec TotalForward TotalRun.
Open Scope R_scope.

(** Values and kinds are known for the same variables. *)
Definition same_domain {A B} (r : jvar -> option A) (k : jvar -> option B) : Prop := forall v, r v = None <-> k v = None.
Lemma assign_domain {A B} : forall l (xs : list A) (ys : list B) r k r' k', same_domain r k -> assign jvar_eqb r l xs = Some r' ->
  assign jvar_eqb k l ys = Some k' -> same_domain r' k'.
Proof.
  induction l as [|u l IH]; intros [|x xs] [|y ys] r k r' k' H Hr Hk; simpl in *; try discriminate; [injection Hr as <-; injection Hk as <-; auto|].
  refine (IH xs ys _ _ r' k' _ Hr Hk). intros v. destruct (jvar_eqb u v); [split; discriminate|apply H].
Qed.
Lemma analyse_domain sc X D ops : forall r k k' r', same_domain r k -> analyse sc X D r k ops = Some k' ->
  run (fun p args => ok_opt (prim_bind sc p args)) jvar_eqb r ops = Some r' -> same_domain (r' : jvar -> option (tensor R)) k'.
Proof.
  induction ops as [|o ops IH]; intros r k k' r' HD HA HR; simpl in HA, HR; [injection HA as <-; injection HR as <-; auto|].
  unfold run_op in HR. destruct (lookups r (oins o)) as [args|]; [|discriminate]. destruct (lookups k (oins o)) as [ks|]; [|discriminate].
  destruct (prim_bind sc (odata o) args) as [vals|]; [|discriminate]. simpl in HR. destruct (forallb _ vals); [|discriminate].
  destruct (result_kind _ _ _ _ _) as [kd|]; [|discriminate]. destruct (assign jvar_eqb r (oouts o) vals) as [r1|] eqn:A1; [|discriminate].
  destruct (assign jvar_eqb k (oouts o) _) as [k1|] eqn:A2; [|discriminate]. refine (IH r1 k1 k' r' _ HA HR).
  exact (assign_domain _ _ _ _ _ _ _ HD A1 A2).
Qed.

Lemma NoDup_tail {A} (a b : list A) : NoDup (a ++ b) -> NoDup b.
Proof. induction a; simpl; auto. inversion 1; auto. Qed.

(** The constants and the argument. *)
Lemma init_tot D (prop : bool) (i : inter R) n x : argc D KLin x (i_enc i) -> (prop = true -> i_tr i <> None) ->
  forall vars cs d r k r' k' rest, inv2 D prop d r k (vars ++ Var n :: rest) ->
  length cs = length vars -> Forall (fun v => is_var v = true) vars -> NoDup (filter is_var (vars ++ Var n :: rest)) ->
  assign jvar_eqb r (vars ++ [Var n]) (cs ++ [x]) = Some r' -> assign jvar_eqb k (vars ++ [Var n]) (map (fun _ => KConst) cs ++ [KLin]) = Some k' ->
  tot (fun d' => inv2 D prop ((n, i) :: d') r' k' rest)
    (foldM (fun d '(v, c) => match v with Var n => Ok ((n, constant_inter c) :: d) | _ => Err Unmodelled end) d (combine vars cs)).
Proof.
  intros HA HT. induction vars as [|v vars IH]; intros cs d r k r' k' rest [H1 H2] HL HV ND Hr Hk; destruct cs as [|c cs]; simpl in HL; try discriminate.
  - simpl in *. apply tot_ok. injection Hr as <-. injection Hk as <-. inversion ND as [|? ? N1 N2]; subst. split.
    + intros m w kw Hm Km. simpl in *. destruct (n =? m)%nat; [|eauto]. injection Hm as <-. injection Km as <-. exists i. split; auto. split; auto.
    + intros m Hm. simpl. destruct (Nat.eqb_spec n m) as [->|]; [|auto]. exfalso. apply N1, filter_In. auto.
  - inversion HV as [|? ? V1 V2]; subst. destruct v as [m|m|]; try discriminate. cbn [combine foldM bind]. simpl in Hr, Hk, ND. inversion ND as [|? ? N1 N2]; subst.
    refine (IH cs _ _ _ r' k' rest _ ltac:(lia) V2 N2 Hr Hk). split.
    + intros p w kw Hp Kp. simpl in *. destruct (m =? p)%nat; [|eauto]. injection Hp as <-. injection Kp as <-. eexists. split; [reflexivity|]. split; [reflexivity|discriminate].
    + intros p Hp. simpl. destruct (Nat.eqb_spec m p) as [->|]; [|apply H2; right; auto]. exfalso. apply N1, filter_In. auto.
Qed.

Lemma interpret_or sc gs pr consts max_deg propagate x0 region :
  fit_generators sc gs pr -> (forall o, In o (gops (p_graph pr)) -> opaque_ok (odata o)) ->
  (0 <= max_deg)%Z -> (length (tshape x0) <= 1)%nat -> in_box x0 region x0 ->
  wf_program pr consts -> supported sc (tshape x0) (Z.to_nat max_deg) pr consts x0 ->
  accepted_program sc gs max_deg propagate pr consts x0 ->
  okor (generator_raises gs pr (Z.to_nat max_deg))
    (fun d => forall r r', assign jvar_eqb (lit_value (p_lits pr)) (gdata (p_graph pr) ++ gins (p_graph pr)) (consts ++ [x0]) = Some r ->
       run (fun p args => ok_opt (prim_bind sc p args)) jvar_eqb r (gops (p_graph pr)) = Some r' ->
       exists prop k', same_domain r' k' /\ inv2 (Z.to_nat max_deg) prop d r' k' [])
    (interpret sc gs pr consts max_deg propagate x0 region).
Proof.
  intros HG HO HM HX B0 ((n & Hin) & _ & HV & HL & HLit & ND & NDr) (HNx & HNc & HNl & r & k & k' & Hr & Hk & HA) HAcc.
  specialize (HAcc r k Hr Hk). unfold interpret. replace (max_deg <? 0)%Z with false by (symmetry; apply Z.ltb_ge; auto).
  assert (EP : (propagate && (0 <? max_deg)%Z) = (if (Z.to_nat max_deg =? 0)%nat then false else propagate)).
  { destruct (Z.ltb_spec 0 max_deg), (Nat.eqb_spec (Z.to_nat max_deg) 0); try lia; rewrite ?andb_true_r, ?andb_false_r; auto. }
  rewrite EP in HAcc. set (D := Z.to_nat max_deg) in *. clearbody D. clear EP HM.
  set (prop := if (D =? 0)%nat then false else propagate) in *.
  assert (HP : prop = true -> (1 <= D)%nat) by (unfold prop; destruct (Nat.eqb_spec D 0); [discriminate|lia]).
  destruct B0 as (_ & S1 & S2 & B0). destruct region as [rl rh]. simpl in S1, S2, B0. cbn [fst snd isub].
  destruct (tmap2_tot_same (@nsub R _) rl x0 (tshape x0) S1 eq_refl) as (tl & Htl & Stl). destruct (tmap2_tot_same (@nsub R _) rh x0 (tshape x0) S2 eq_refl) as (th & Hth & Sth).
  pose proof (tmap2_same_ok _ _ _ _ (tshape x0) Htl S1 eq_refl) as [_ Etl]. pose proof (tmap2_same_ok _ _ _ _ (tshape x0) Hth S2 eq_refl) as [_ Eth].
  unfold tsub. rewrite Htl. cbn [bind]. rewrite Hth. cbn [bind].
  unfold make_arith. cbn [fst snd]. rewrite Stl, Sth. replace (shape_eqb (tshape x0) (tshape x0)) with true by (symmetry; apply shape_eqb_eq; auto). cbn [bind].
  assert (Heye : exists eye, identity x0 = Ok eye) by (unfold identity; destruct (tshape x0) as [|? [|]]; simpl in HX; try lia; eauto).
  destruct Heye as [eye Heye]. rewrite Heye. cbn [bind].
  rewrite HL, Nat.eqb_refl. cbn [guard bind]. rewrite Hin. cbn [bind].
  assert (R0 : in_region (tshape x0) (tl, th) (fun _ => 0)).
  { split; [auto|]. split; [auto|]. intros J HJ. simpl. rewrite Etl, Eth by auto. simpl. specialize (B0 J HJ). lra. }
  set (xi := Inter (if (0 <? D)%nat then [Arr x0; Arr eye] else [Ivl rl rh]) (if prop then Some (rl, rh) else None)).
  rewrite Hin in Hr, Hk.
  assert (HAi : argc D KLin x0 (i_enc xi)).
  { simpl. unfold nonconstant. destruct D; simpl; [eauto|lia]. }
  assert (HTi : prop = true -> i_tr xi <> None) by (intros E; simpl; rewrite E; discriminate).
  unfold defined in HLit, ND. rewrite Hin in HLit, ND. apply Forall_app in HLit. destruct HLit as [_ HLit]. apply Forall_app in HLit. destruct HLit as [_ HLit].
  destruct (init_tot D prop xi n x0 HAi HTi (gdata (p_graph pr)) consts [] (lit_value (p_lits pr)) (fun v => match v with Lit _ => Some KConst | _ => None end)
              r k (flat_map oouts (gops (p_graph pr)))) as (d0 & Hd0 & I2); auto.
  { split; [intros m v kd Hm; discriminate|auto]. }
  rewrite Hd0. cbn [bind].
  assert (HI : inv (tshape x0) D (fun _ => 0) (p_lits pr) ((n, xi) :: d0) r k).
  { refine (init_ok _ _ _ _ _ n x0 _ (gdata (p_graph pr)) consts [] _ _ d0 r k _ HL HNc Hd0 Hr Hk).
    - split; [apply nonempty_valid; auto|]. simpl.
      assert (EZ : (fun J => tdata x0 J - tdata x0 J) = (fun _ => 0)) by (apply FunctionalExtensionality.functional_extensionality; intros J; ring).
      split.
      + destruct D as [|D'].
        * pose proof (x0_approx0 x0 x0 eye (rl, rh)) as K. rewrite EZ in K. apply K. repeat split; auto; apply B0; auto.
        * pose proof (x0_approx x0 x0 eye (rl, rh) (S D') ltac:(lia) eq_refl Heye) as K. rewrite EZ in K. exact K.
      + destruct prop eqn:EP; [|exact I]. specialize (HP eq_refl). split; auto. split; auto. split; [exact B0|].
        intros c0 rest s Hc Hs. replace (0 <? D)%nat with true in Hc by (symmetry; apply Nat.ltb_lt; lia). injection Hc as <- <-. simpl. auto.
    - split; [|intros m i Hm; discriminate]. intros m. split; [apply HNl|]. split; reflexivity. }
  assert (ND' : NoDup (filter is_var (flat_map oouts (gops (p_graph pr)) ++ []))).
  { rewrite app_nil_r. rewrite !filter_app in ND. apply NoDup_tail in ND. apply NoDup_tail in ND. exact ND. }
  assert (I2' : inv2 D prop ((n, xi) :: d0) r k (flat_map oouts (gops (p_graph pr)) ++ [])) by (rewrite app_nil_r; exact I2).
  eapply okor_bad; [|eapply okor_mono; [|exact (run_or (tshape x0) (tl, th) R0 sc gs HX D prop HP (p_lits pr) (gops (p_graph pr)) [] _ r k k' HI I2' HG HO HLit ND' NDr HA HAcc)]].
  - intros e (o & Ho & [(gen & Hc & He)|(gen & Hc & He)]); exists o, gen; [exists D|exists 0%nat]; auto.
  - intros d Hd K r0 r' E0 Hrun. assert (r0 = r) by congruence. subst r0. exists prop, k'. split; [|exact (K r' Hrun)].
    refine (analyse_domain sc (tshape x0) D (gops (p_graph pr)) r k k' r' _ HA Hrun).
    refine (assign_domain _ _ _ _ _ _ _ _ Hr Hk). intros [m|m|]; simpl; split; auto; discriminate.
Qed.

(** For a well-formed Jaxpr whose equations are supported and accepted, with
    the expansion point inside the region, taylor_bounds either returns or
    raises an exception that a generator of one of the equations raised. *)
Theorem C60_raises_only_what_generators_raise sc gs pr consts max_deg propagate x0 region y :
  fit_generators sc gs pr -> (forall o, In o (gops (p_graph pr)) -> opaque_ok (odata o)) ->
  (0 <= max_deg)%Z -> (length (tshape x0) <= 1)%nat -> in_box x0 region x0 ->
  wf_program pr consts -> supported sc (tshape x0) (Z.to_nat max_deg) pr consts x0 -> meaning sc pr consts x0 = Some [y] ->
  accepted_program sc gs max_deg propagate pr consts x0 ->
  match taylor_bounds sc gs pr consts max_deg propagate x0 region with
  | Ok _ => True
  | Err e => generator_raises gs pr (Z.to_nat max_deg) e
  end.
Proof.
  intros HG HO HM HX B0 HW HS HY HA.
  enough (K : okor (generator_raises gs pr (Z.to_nat max_deg)) (fun _ => True) (taylor_bounds sc gs pr consts max_deg propagate x0 region)).
  { destruct (taylor_bounds _ _ _ _ _ _ _ _); auto. }
  unfold taylor_bounds. eapply okor_bind; [exact (interpret_or sc gs pr consts max_deg propagate x0 region HG HO HM HX B0 HW HS HA)|].
  intros d _ Hd. apply tot_okor. destruct HW as (_ & (v & Hv & ND) & _). rewrite Hv. cbn [bind].
  unfold meaning, run_graph in HY. simpl in HY. destruct (assign _ _ _ _) as [r|] eqn:Er; [|discriminate]. destruct (run _ _ r _) as [r'|] eqn:Er'; [|discriminate].
  rewrite Hv in HY. simpl in HY. destruct (r' v) as [w|] eqn:Ew; [|discriminate].
  destruct (Hd r r' eq_refl Er') as (prop & k' & HD & [H2 _]).
  destruct v as [n|n|]; [| |congruence].
  - destruct (k' (Var n)) as [kd|] eqn:Ek; [|apply HD in Ek; congruence]. destruct (H2 n w kd Ew Ek) as (i & Hi & _). simpl. rewrite Hi. apply tot_ok. auto.
  - apply tot_ok. auto.
Qed.

(** If no generator raises, taylor_bounds returns, and what it returns encloses
    the function on the whole region. *)
Theorem C60_returns_valid_bounds sc gs pr consts max_deg propagate x0 region y :
  valid_generators sc gs -> fit_generators sc gs pr -> (forall o, In o (gops (p_graph pr)) -> opaque_ok (odata o)) ->
  (0 <= max_deg)%Z -> (length (tshape x0) <= 1)%nat -> in_box x0 region x0 ->
  wf_program pr consts -> supported sc (tshape x0) (Z.to_nat max_deg) pr consts x0 -> meaning sc pr consts x0 = Some [y] ->
  accepted_program sc gs max_deg propagate pr consts x0 ->
  (forall e, ~ generator_raises gs pr (Z.to_nat max_deg) e) ->
  exists b, taylor_bounds sc gs pr consts max_deg propagate x0 region = Ok b /\
    forall x, in_box x0 region x -> supported sc (tshape x0) (Z.to_nat max_deg) pr consts x ->
      exists y', meaning sc pr consts x = Some [y'] /\ bounds_at b x y'.
Proof.
  intros HV HG HO HM HX B0 HW HS HY HA HR.
  pose proof (C60_raises_only_what_generators_raise sc gs pr consts max_deg propagate x0 region y HG HO HM HX B0 HW HS HY HA) as K.
  destruct (taylor_bounds sc gs pr consts max_deg propagate x0 region) as [b|e] eqn:E; [|exfalso; exact (HR e K)].
  exists b. split; auto. intros x Bx Sx.
  destruct (output_ok _ _ _ _ _ _ _ _ _ _ HV HO B0 Bx Sx E) as (y' & k & HM' & E0 & _ & NV & _ & HAp).
  exists y'. split; auto. exact (bounds_ok b x0 x y' k _ E0 (proj1 Bx) NV HAp).
Qed.

(** Programs using no elementwise function, division, [pow] or negative power. *)
Definition no_generator (p : prim R) : Prop :=
  match p with
  | elementwise_p _ | div_p | pow_p => False
  | integer_pow_p y => (0 <= y)%Z
  | _ => True
  end.
Theorem C60_polynomials_return sc gs pr consts max_deg propagate x0 region y :
  (forall o, In o (gops (p_graph pr)) -> no_generator (odata o)) -> (forall o, In o (gops (p_graph pr)) -> opaque_ok (odata o)) ->
  (0 <= max_deg)%Z -> (length (tshape x0) <= 1)%nat -> in_box x0 region x0 ->
  wf_program pr consts -> supported sc (tshape x0) (Z.to_nat max_deg) pr consts x0 -> meaning sc pr consts x0 = Some [y] ->
  accepted_program sc gs max_deg propagate pr consts x0 ->
  exists b, taylor_bounds sc gs pr consts max_deg propagate x0 region = Ok b.
Proof.
  intros HR HO HM HX B0 HW HS HY HA.
  assert (NoG : forall o gen, In o (gops (p_graph pr)) -> ~ calls gs (odata o) gen).
  { intros o gen Ho Hc. specialize (HR o Ho). destruct Hc; simpl in HR; auto. lia. }
  assert (HG : fit_generators sc gs pr).
  { intros o Ho. split; [|intros gen Hc; exfalso; exact (NoG o gen Ho Hc)]. specialize (HR o Ho). destruct (odata o); simpl in *; try tauto. lia. }
  pose proof (C60_raises_only_what_generators_raise sc gs pr consts max_deg propagate x0 region y HG HO HM HX B0 HW HS HY HA) as K.
  destruct (taylor_bounds sc gs pr consts max_deg propagate x0 region) as [b|e]; [eauto|].
  destruct K as (o & gen & d & Ho & Hc & _). exfalso. exact (NoG o gen Ho Hc).
Qed.
