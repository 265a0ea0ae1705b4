(** Property C71: the bounds of degree 0 in floating point arithmetic. *)
From Coq Require Import Reals Lra Psatz.
From Verif Require Import Base Tensor IntervalArith Polynomials Enclosure TensorLemmas Spec IntervalProofs
  GraphEditor GraphSpec JaxBound JaxSpec JaxLemmas JaxIndex JaxGather JaxPush JaxDot JaxOps JaxForward JaxRun JaxEval FloatSpec FloatProofs.
Open Scope R_scope.

Lemma init0 rnd lits i n x : inter0 rnd i x -> forall vars cs d r d' r', inv0 rnd lits d r ->
  length cs = length vars -> Forall (float_array rnd) cs ->
  foldM (fun d '(v, c) => match v with Var n => Ok ((n, constant_inter c) :: d) | _ => Err Unmodelled end) d (combine vars cs) = Ok d' ->
  assign jvar_eqb r (vars ++ [Var n]) (cs ++ [x]) = Some r' -> inv0 rnd lits ((n, i) :: d') r'.
Proof.
  intros Hi. induction vars as [|v vars IH]; intros cs d r d' r' HI HL HN HF Hr; destruct cs as [|c cs]; simpl in HL; try discriminate.
  - simpl in *. injection HF as <-. injection Hr as <-. destruct HI as [HLi HV]. split; [intros m; exact (HLi m)|].
    intros m j Hj. simpl in Hj |- *. destruct (n =? m)%nat; [injection Hj as <-; eauto|]. exact (HV m j Hj).
  - inversion HN as [|? ? Nc Ncs]; subst. cbn [combine foldM] in HF. apply bind_ok in HF. destruct HF as (d1 & H1 & HF). destruct v as [m|m|]; try discriminate. injection H1 as <-.
    simpl in Hr. refine (IH cs _ _ d' r' _ _ _ HF Hr); [|lia|auto]. destruct HI as [HLi HV]. split; [intros p; exact (HLi p)|].
    intros p j Hj. simpl in Hj |- *. destruct (m =? p)%nat; [|exact (HV p j Hj)]. injection Hj as <-. exists c. split; auto. apply const0; [apply teq_refl|auto].
Qed.

(** * C71 *)
(** Every operation rounded to nearest (or by any monotone symmetric rounding):
    with max_degree 0, the bounds computed by taylor_bounds contain the value
    the program computes, in the same arithmetic, at every float of the
    region.  (Nothing is rounded outward; the claim holds because rounding is
    monotone.) *)
Theorem C71_degree_0_bounds_contain_float_values : forall rnd sc gs pr consts propagate x0 region x y b,
  rounding rnd -> (forall o, In o (gops (p_graph pr)) -> float_prim rnd sc gs (odata o)) ->
  in_box x0 region x -> float_array rnd x ->
  Forall (float_array rnd) consts -> (forall n, float_array rnd (p_lits pr n)) ->
  @meaning R (NumF rnd) sc pr consts x = Some [y] ->
  @taylor_bounds R (NumF rnd) sc gs pr consts 0 propagate x0 region = Ok b ->
  forall x', tshape x' = tshape x0 -> float_bounds_at rnd b x' y.
Proof.
  intros rnd sc gs pr consts propagate x0 region x y b RR HP (Sx & S1 & S2 & B) Fx Fc Fl HM H x' Sx'.
  unfold taylor_bounds in H. apply bind_ok in H. destruct H as (d & Hd & H). apply bind_ok in H. destruct H as (ov & Hov & H). apply bind_ok in H. destruct H as (i & Hi & H). injection H as <-.
  unfold interpret in Hd. change (0 <? 0)%Z with false in Hd. change (Z.to_nat 0) with 0%nat in Hd. cbn [Nat.eqb Nat.ltb Nat.leb] in Hd.
  apply bind_ok in Hd. destruct Hd as (t & Ht & Hd). apply bind_ok in Hd. destruct Hd as (tr & Htr & Hd). apply bind_ok in Hd. destruct Hd as (AA & HAA & Hd).
  apply bind_ok in Hd. destruct Hd as (AA0 & HAA0 & Hd). apply bind_ok in Hd. destruct Hd as (eye & Heye & Hd).
  apply bind_ok in Hd. destruct Hd as (u0 & Hlen & Hd). apply bind_ok in Hd. destruct Hd as (invar & Hin & Hd). apply bind_ok in Hd. destruct Hd as (d0 & Hd0 & Hd).
  unfold make_arith in HAA, HAA0. destruct (shape_eqb _ _) in HAA; [|discriminate]. injection HAA as <-. destruct (shape_eqb _ _) in HAA0; [|discriminate]. injection HAA0 as <-.
  destruct (length consts =? length (gdata (p_graph pr)))%nat eqn:EL; [|discriminate]. apply Nat.eqb_eq in EL.
  destruct (gins (p_graph pr)) as [|[n| |] [|]] eqn:EI; try discriminate. injection Hin as <-.
  unfold meaning, run_graph in HM. simpl gins in HM. simpl gops in HM. simpl gouts in HM. rewrite EI in HM.
  destruct (assign _ _ _ _) as [r|] eqn:Er; [|discriminate]. destruct (run _ _ r _) as [r'|] eqn:Er'; [|discriminate].
  assert (HI : inv0 rnd (p_lits pr) ((n, Inter [Ivl (fst region) (snd region)] None) :: d0) r).
  { refine (init0 rnd (p_lits pr) _ n x _ (gdata (p_graph pr)) consts [] _ d0 r _ EL Fc Hd0 Er).
    - split; [|split; [exact I|]]; [|intros C; contradiction C; reflexivity]. exists (Ivl (fst region) (snd region)). split; auto. rewrite Sx. split; [simpl; auto|]. split; [intros J HJ; exact (B J HJ)|exact Fx].
    - split; [intros m; reflexivity|intros m j Hm; discriminate]. }
  pose proof (run0 rnd RR tr (p_lits pr) Fl sc gs (tshape x0) (gops (p_graph pr)) _ r d r' HI HP Er' Hd) as HI'.
  destruct (gouts (p_graph pr)) as [|v [|]] eqn:EO; try discriminate. injection Hov as ->. simpl in HM. destruct (r' ov) as [y'|] eqn:Ey; [|discriminate]. injection HM as ->.
  pose proof (get0 rnd (p_lits pr) Fl d r' ov i y HI' Hi Ey) as [HE _].
  apply (call0 rnd RR); auto.
Qed.
