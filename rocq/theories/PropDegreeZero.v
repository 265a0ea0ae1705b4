(** Property C81: bounds of degree 0 are exact when nothing is combined with itself. *)
From Coq Require Import Reals Lra Psatz FunctionalExtensionality.
From Verif Require Import Base Tensor IntervalArith Polynomials Enclosure TensorLemmas Spec IntervalProofs PropArith
  GraphEditor GraphSpec JaxBound JaxSpec JaxLemmas JaxIndex JaxGather JaxPush JaxOps JaxForward JaxRun FloatSpec FloatProofs PropJax DegreeZero DegreeZeroSpec DegreeZeroExact DegreeZeroRun.
Open Scope R_scope.

Notation Run_ sc := (run (fun p args => ok_opt (prim_bind sc p args)) jvar_eqb).
Lemma runE x0 region (NE : exists x, in_box x0 region x) tr numbers sc gs lits xs ops : forall D d r rf d',
  invE x0 region numbers lits D d r -> one_dependent_operand D ops -> (forall o, In o ops -> exact_prim numbers sc gs (odata o)) ->
  (forall x, in_box x0 region x -> Run_ sc (r x) ops = Some (rf x)) ->
  foldM (step sc gs (mkArith 0 tr) (mkArith 0 tr) false xs lits) d ops = Ok d' -> exists D', invE x0 region numbers lits D' d' rf.
Proof.
  induction ops as [|o ops IH]; intros D d r rf d' HI HO HP HR H; cbn [run foldM] in HR, H.
  - injection H as <-. exists D. assert (E : forall x, in_box x0 region x -> r x = rf x) by (intros x Hx; specialize (HR x Hx); congruence).
    destruct HI as [H1 H2 H3 H4]. split.
    + intros x n Hx. rewrite <- (E x Hx). auto.
    + intros n i Hi. destruct (H2 n i Hi) as (y & Y1 & Y2). exists y. split; auto. intros x Hx. rewrite <- (E x Hx). auto.
    + intros n Hn x x' Hx Hx'. rewrite <- (E x Hx), <- (E x' Hx'). auto.
    + intros Hn x v t Hv Hx. rewrite <- (E x Hx). eauto.
  - apply bind_ok in H. destruct H as (d1 & H1 & H).
    set (r1 := fun x => match run_op (fun p args => ok_opt (prim_bind sc p args)) jvar_eqb (r x) o with Some e => e | None => r x end).
    assert (R1 : forall x, in_box x0 region x -> run_op (fun p args => ok_opt (prim_bind sc p args)) jvar_eqb (r x) o = Some (r1 x)).
    { intros x Hx. specialize (HR x Hx). unfold r1. destruct (run_op _ _ (r x) o); [auto|discriminate]. }
    assert (HL : (length (filter (depends D) (oins o)) <= 1)%nat /\ one_dependent_operand (next D o) ops).
    { cbn [one_dependent_operand] in HO. unfold next. destruct (filter (depends D) (oins o)) as [|? [|]]; simpl; [auto|auto|contradiction]. }
    refine (IH (next D o) d1 r1 rf d' _ (proj2 HL) _ _ H); [| intros; apply HP; right; auto |].
    + exact (stepE _ _ NE tr numbers sc gs lits xs D d r r1 o d1 HI (HP o (or_introl eq_refl)) (proj1 HL) R1 H1).
    + intros x Hx. specialize (HR x Hx). rewrite (R1 x Hx) in HR. exact HR.
Qed.

Lemma initE x0 region (NE : exists x, in_box x0 region x) numbers lits i n : interE x0 region i (fun x => x) -> (numbers = true -> tshape x0 = []) ->
  forall vars cs d r d' r', invE x0 region numbers lits [] d (fun _ => r) ->
  length cs = length vars -> (numbers = true -> Forall (fun c => tshape c = []) cs) ->
  foldM (fun d '(v, c) => match v with Var n => Ok ((n, constant_inter c) :: d) | _ => Err Unmodelled end) d (List.combine vars cs) = Ok d' ->
  (forall x, in_box x0 region x -> assign jvar_eqb r (vars ++ [Var n]) (cs ++ [x]) = Some (r' x)) -> invE x0 region numbers lits [n] ((n, i) :: d') r'.
Proof.
  intros Hi H0. induction vars as [|v vars IH]; intros cs d r d' r' HI HL HN HF Hr; destruct cs as [|c cs]; simpl in HL; try discriminate.
  - simpl in HF. injection HF as <-.
    assert (E : forall x, in_box x0 region x -> r' x = fun w => if jvar_eqb (Var n) w then Some x else r w) by (intros x Hx; specialize (Hr x Hx); cbn [app assign] in Hr; injection Hr as Hr; symmetry; exact Hr).
    destruct HI as [H1 H2 H3 H4]. split.
    + intros x m Hx. rewrite (E x Hx). simpl. exact (H1 x m Hx).
    + intros m j Hj. simpl in Hj. destruct (Nat.eqb_spec n m) as [->|Hm].
      * injection Hj as <-. exists (fun x => x). split; auto. intros x Hx. rewrite (E x Hx). simpl. rewrite Nat.eqb_refl. auto.
      * destruct (H2 m j Hj) as (y & Y1 & Y2). exists y. split; auto. intros x Hx. rewrite (E x Hx). simpl. destruct (Nat.eqb_spec n m); [contradiction|]. exact (Y1 x Hx).
    + intros m Hm x x' Hx Hx'. rewrite (E x Hx), (E x' Hx'). simpl. unfold member in Hm. simpl in Hm. rewrite orb_false_r in Hm. rewrite Nat.eqb_sym in Hm. rewrite Hm. auto.
    + intros Hn x v t Hv Hx. rewrite (E x Hx). destruct (jvar_eqb (Var n) v); [intros [= <-]; rewrite (proj1 Hx); auto|exact (H4 Hn x v t Hv Hx)].
  - cbn [List.combine foldM] in HF. apply bind_ok in HF. destruct HF as (d1 & Hd & HF). destruct v as [m|m|]; try discriminate. injection Hd as <-.
    simpl in Hr. refine (IH cs _ _ d' r' _ _ _ HF Hr); [ |lia|intros Hn; specialize (HN Hn); inversion HN; auto].
    destruct HI as [H1 H2 H3 H4]. split.
    + intros x p Hx. simpl. exact (H1 x p Hx).
    + intros p j Hj. simpl in Hj |- *. destruct (m =? p)%nat; [|exact (H2 p j Hj)]. injection Hj as <-. exists (fun _ => c). split; auto. apply constE; auto. intros; apply teq_refl.
    + intros p Hp x x' Hx Hx'. simpl. destruct (m =? p)%nat; auto.
    + intros Hn x v t Hv Hx. cbv beta. destruct (match v with Var b => (m =? b)%nat | _ => false end); [intros K; injection K as <-; exact (Forall_inv (HN Hn))|exact (H4 Hn x v t Hv Hx)].
Qed.

(** Evaluating an enclosure with one coefficient returns it. *)
Lemma call_exact (b : taylor_bounds_t R) x c S : tshape x = tshape (tb_x0 b) -> tb_coefficients b = [c] -> wfs S c ->
  (forall s, valid S s -> exists u, inat c s u) ->
  exists l h, tb_lower b x = Ok l /\ tb_upper b x = Ok h /\ tshape l = S /\ tshape h = S /\
    forall s v, valid S s -> (tdata l s <= v <= tdata h s <-> inat c s v).
Proof.
  intros Sx Ec Wc N0.
  assert (F : float_bounds_at (fun z => z) b x (mkT S (fun s => tdata (lo c) s))).
  { apply (call0 _ id_rounding); auto. exists c. split; auto. split; auto. split; [|intros s Hs; reflexivity].
    intros s Hs. simpl in *. apply inat_iff. destruct (N0 s Hs) as [u Hu]. apply inat_iff in Hu. lra. }
  destruct F as (l & h & HL & HU & S1 & S2 & _). exists l, h. split; [exact HL|]. split; [exact HU|]. split; auto. split; auto. simpl in S1, S2.
  change (@tb_lower R (NumF (fun z => z)) b x) with (@tb_lower R NumR b x) in HL. change (@tb_upper R (NumF (fun z => z)) b x) with (@tb_upper R NumR b x) in HU.
  unfold tb_lower in HL. apply bind_ok in HL. destruct HL as (w & HC & HL). unfold tb_upper in HU. rewrite HC in HU. cbn [bind] in HU. injection HL as HL. injection HU as HU.
  unfold tb_call in HC. apply bind_ok in HC. destruct HC as (z & Hz & HC). rewrite Ec in HC. unfold eval_taylor_enclosure, eval_polynomial in HC. cbn [eval_poly_loop Nat.ltb Nat.leb bind] in HC.
  apply bind_ok in HC. destruct HC as (t & Ht & HC). apply bind_ok in HC. destruct HC as (w' & Hw & HC). injection HC as ->.
  assert (P : wfs S t /\ forall s v, valid S s -> (inat t s v <-> inat c s v)).
  { unfold inner_product, itensordot in Ht. change (indim (Arr (tscalar n1))) with 0%nat in Ht. cbn [Nat.eqb] in Ht.
    destruct (ibil_prod_gen _ _ _ _ _ _ _ _ _ (tensordot0_prodop S []) Wc (eq_refl : wfs [] (Arr (tscalar n1))) Ht) as [W D]. rewrite app_nil_r in *. split; auto.
    intros s v Hs. destruct (D s Hs) as [D1 D2]. rewrite firstn_all2, skipn_all2 in * by (rewrite (valid_length _ _ Hs); auto).
    destruct (N0 s Hs) as [u Hu]. apply inat_iff in Hu. destruct D2 as [(p & q & Hp & Hq & E1) (p' & q' & Hp' & Hq' & E2)]; [lra|simpl; lra|]. simpl in Hq, Hq'. change (@n1 R NumR) with 1 in *. subst q q'. split.
    - intros Hv. apply inat_iff in Hv. rewrite E1, E2 in Hv. apply inat_iff in Hp, Hp'. apply inat_iff. lra.
    - intros Hv. replace v with (v * 1) by ring. apply D1; [auto|simpl; auto]. }
  destruct P as [Wt It]. destruct (zero_add_iff _ _ _ Wt Hw) as [Ww Iw]. intros s v Hs. rewrite <- (It s v Hs), <- (Iw s v Hs), inat_iff.
  subst l h. destruct w as [w|wl wh]; simpl; tauto.
Qed.

(** * C81 *)
(** With max_degree 0, if of the operands of every equation at most one depends
    on the argument, then the bounds returned are, entry by entry, the exact
    range of the function over the region: every number between them is taken,
    and no other. *)
Theorem C81_degree_0_bounds_are_the_exact_range : forall sc gs pr consts propagate x0 region n numbers b,
  gins (p_graph pr) = [Var n] -> one_dependent_operand [n] (gops (p_graph pr)) ->
  (forall o, In o (gops (p_graph pr)) -> exact_prim numbers sc gs (odata o)) ->
  (numbers = true -> tshape x0 = [] /\ Forall (fun c => tshape c = []) consts /\ forall m, tshape (p_lits pr m) = []) ->
  (exists x, in_box x0 region x) ->
  (forall x, in_box x0 region x -> exists y, meaning sc pr consts x = Some [y]) ->
  taylor_bounds sc gs pr consts 0 propagate x0 region = Ok b ->
  forall x', tshape x' = tshape x0 ->
  exists l h, tb_lower b x' = Ok l /\ tb_upper b x' = Ok h /\ tshape l = tshape h /\
    (forall x y, in_box x0 region x -> meaning sc pr consts x = Some [y] -> tshape y = tshape l) /\
    forall s v, valid (tshape l) s ->
      (tdata l s <= v <= tdata h s <-> exists x y, in_box x0 region x /\ meaning sc pr consts x = Some [y] /\ tdata y s = v).
Proof.
  intros sc gs pr consts propagate x0 region n numbers b EI HO HP HN NE HM H x' Sx'.
  unfold taylor_bounds in H. apply bind_ok in H. destruct H as (d & Hd & H). apply bind_ok in H. destruct H as (ov & Hov & H). apply bind_ok in H. destruct H as (i & Hi & H). injection H as <-.
  unfold interpret in Hd. change (0 <? 0)%Z with false in Hd. change (Z.to_nat 0) with 0%nat in Hd. cbn [Nat.eqb Nat.ltb Nat.leb] in Hd.
  apply bind_ok in Hd. destruct Hd as (t & Ht & Hd). apply bind_ok in Hd. destruct Hd as (tr & Htr & Hd). apply bind_ok in Hd. destruct Hd as (AA & HAA & Hd).
  apply bind_ok in Hd. destruct Hd as (AA0 & HAA0 & Hd). apply bind_ok in Hd. destruct Hd as (eye & Heye & Hd).
  apply bind_ok in Hd. destruct Hd as (u0 & Hlen & Hd). apply bind_ok in Hd. destruct Hd as (invar & Hin & Hd). apply bind_ok in Hd. destruct Hd as (d0 & Hd0 & Hd).
  unfold make_arith in HAA, HAA0. destruct (shape_eqb _ _) in HAA; [|discriminate]. injection HAA as <-. destruct (shape_eqb _ _) in HAA0; [|discriminate]. injection HAA0 as <-.
  destruct (length consts =? length (gdata (p_graph pr)))%nat eqn:EL; [|discriminate]. apply Nat.eqb_eq in EL.
  rewrite EI in Hin. injection Hin as <-.
  unfold meaning, run_graph in HM. simpl gins in HM. simpl gops in HM. simpl gouts in HM. rewrite EI in HM.
  set (r0 := lit_value (p_lits pr)) in *.
  set (r := fun x => match assign jvar_eqb r0 (gdata (p_graph pr) ++ [Var n]) (consts ++ [x]) with Some e => e | None => r0 end).
  assert (Er : forall x, in_box x0 region x -> assign jvar_eqb r0 (gdata (p_graph pr) ++ [Var n]) (consts ++ [x]) = Some (r x)).
  { intros x Hx. destruct (HM x Hx) as [y E]. unfold r. destruct (assign _ _ _ _); [auto|discriminate]. }
  set (rf := fun x => match Run_ sc (r x) (gops (p_graph pr)) with Some e => e | None => r0 end).
  assert (Ef : forall x, in_box x0 region x -> Run_ sc (r x) (gops (p_graph pr)) = Some (rf x)).
  { intros x Hx. destruct (HM x Hx) as [y E]. rewrite (Er x Hx) in E. unfold rf. destruct (run _ _ (r x) _); [auto|discriminate]. }
  assert (HI : invE x0 region numbers (p_lits pr) [n] ((n, Inter [Ivl (fst region) (snd region)] None) :: d0) r).
  { refine (initE _ _ NE numbers (p_lits pr) _ n _ (fun Hn => proj1 (HN Hn)) (gdata (p_graph pr)) consts [] r0 d0 r _ EL (fun Hn => proj1 (proj2 (HN Hn))) Hd0 Er).
    - split; [|split; [exact Logic.I|intros C; contradiction C; reflexivity]]. destruct NE as (x1 & Sx1 & S1 & S2 & B1). exists (Ivl (fst region) (snd region)), (tshape x0). split; auto. split; [simpl; auto|].
      split; [intros x Hx; apply Hx|]. intros s v Hs. simpl. split.
      + intros Hv. exists (mkT (tshape x0) (fun J => if list_eq_dec Nat.eq_dec J s then v else tdata x1 J)). split.
        * split; [reflexivity|]. split; auto. split; auto. intros J HJ. simpl. destruct (list_eq_dec _ J s) as [->|_]; auto.
        * simpl. destruct (list_eq_dec _ s s); [auto|contradiction].
      + intros (x & (_ & _ & _ & Bx) & <-). auto.
    - split; [intros x m _; reflexivity|intros m j Hm; discriminate|reflexivity|].
      intros Hn x v t0 Hv _ E. unfold r0, lit_value in E. destruct v; try discriminate. injection E as <-. apply (HN Hn). }
  destruct (runE _ _ NE tr numbers sc gs (p_lits pr) (tshape x0) (gops (p_graph pr)) _ _ r rf d HI HO HP Ef Hd) as [D' HI'].
  destruct (gouts (p_graph pr)) as [|v [|]] eqn:EO; try discriminate. injection Hov as ->.
  destruct (getE _ _ NE numbers (p_lits pr) D' d rf ov i HI' Hi) as (_ & y & Hy & ((c & S & Ec & Wc & Sy & K) & _) & _).
  assert (EM : forall x, in_box x0 region x -> meaning sc pr consts x = Some [y x]).
  { intros x Hx. unfold meaning, run_graph. simpl gins. simpl gops. simpl gouts. rewrite EI. fold r0. rewrite (Er x Hx), (Ef x Hx), EO. simpl. rewrite (Hy x Hx). reflexivity. }
  destruct (call_exact (TaylorBounds x0 region (i_enc i)) x' c S Sx' Ec Wc) as (l & h & HL & HU & S1 & S2 & Q).
  { intros s Hs. destruct NE as [x1 Hx1]. exists (tdata (y x1) s). apply (K s _ Hs). eauto. }
  exists l, h. split; auto. split; auto. split; [congruence|]. split.
  { intros x z Hx Hz. rewrite (EM x Hx) in Hz. injection Hz as <-. rewrite (Sy x Hx). auto. }
  rewrite S1. intros s w Hs. rewrite (Q s w Hs), (K s w Hs). split.
  - intros (x & Hx & <-). exists x, (y x). auto.
  - intros (x & z & Hx & Hz & <-). rewrite (EM x Hx) in Hz. injection Hz as <-. eauto.
Qed.
