(** The interpreter before the first equation, and its result. *)
From Coq Require Import Reals Lra Psatz FunctionalExtensionality.
From Verif Require Import Base Tensor IntervalArith Polynomials Enclosure TensorLemmas Spec IntervalProofs PowerProofs PolyProofs Graded
  EnclosureOps EnclosureProofs BilinearProofs ComposeProofs PropEnclosure PropDegree GraphEditor GraphSpec JaxBound JaxSpec JaxLemmas JaxIndex JaxGather JaxPush JaxDot JaxOps JaxForward JaxRun JaxEval.
Open Scope R_scope.

Lemma sumn_delta n (g : nat -> R) i : (i < n)%nat -> sumn n (fun j => (if (i =? j)%nat then 1 else 0) * g j) = g i.
Proof.
  induction n as [|n IH]; [lia|]. intros Hi. simpl. destruct (Nat.eqb_spec i n) as [->|Hn].
  - assert (E : sumn n (fun j => (if (n =? j)%nat then 1 else 0) * g j) = 0).
    { transitivity (sumn n (fun _ => 0)); [|apply sumn_zero]. apply sumn_ext. intros j Hj. destruct (Nat.eqb_spec n j); [lia|]. simpl. lra. }
    rewrite E. ring.
  - rewrite IH by lia. ring.
Qed.

Lemma x0_encloses x0 x eye : tshape x = tshape x0 -> identity x0 = Ok eye ->
  encloses (full (tshape x)) (tshape x0) (tshape x) [Arr x0; Arr eye] (fun J => tdata x J - tdata x0 J) (tdata x).
Proof.
  intros ES HI. rewrite ES. split; [discriminate|]. intros s Hs. set (z := fun J => tdata x J - tdata x0 J).
  simpl. exists (tdata x0 s), (z s). split; [|split; [|unfold z; ring]].
  - exists (tshape x0). split; [reflexivity|]. split; [simpl; rewrite app_nil_r; reflexivity|]. exists (fun _ => tdata x0 s). split.
    + intros J HJ. apply valid_nil in HJ. subst J. rewrite app_nil_r, (bidx_valid _ _ Hs). reflexivity.
    + unfold term_value. simpl. ring.
  - exists (z s), 0. split; [|split; [reflexivity|ring]]. exists (tshape x0). split; [reflexivity|].
    unfold identity in HI. destruct (tshape x0) as [|n [|]] eqn:EX; [| |discriminate]; injection HI as <-.
    + apply valid_nil in Hs. subst s. split; [reflexivity|]. exists (fun _ => 1). split; [intros J _; reflexivity|]. unfold term_value. simpl. ring.
    + apply valid_cons in Hs. destruct Hs as (i & J' & -> & Hi & HJ'). apply valid_nil in HJ'. subst J'. split; [reflexivity|].
      exists (fun J => match J with [j] => if (i =? j)%nat then 1 else 0 | _ => 0 end). split.
      * intros J HJ. simpl in HJ. apply valid_cons in HJ. destruct HJ as (j & J' & -> & Hj & HJ'). apply valid_nil in HJ'. subst J'.
        rewrite bidx_valid by (constructor; [auto|constructor]). reflexivity.
      * unfold term_value. simpl. rewrite (sumn_ext n _ (fun j => (if (i =? j)%nat then 1 else 0) * z [j])).
        -- rewrite sumn_delta; auto.
        -- intros j Hj. ring.
Qed.

Lemma x0_approx x0 x eye region D : (1 <= D)%nat -> tshape x = tshape x0 -> identity x0 = Ok eye ->
  approx KLin (tshape x0) D (fun J => tdata x J - tdata x0 J) x (if (0 <? D)%nat then [Arr x0; Arr eye] else [Ivl (fst region) (snd region)]).
Proof.
  intros HD ES HI. replace (0 <? D)%nat with true by (symmetry; apply Nat.ltb_lt; lia). split; [exact (x0_encloses x0 x eye ES HI)|]. split; [|split; [simpl; lia|intros _; simpl; eauto]].
  intros i c _ Hc. destruct i as [|[|[|]]]; simpl in Hc; try discriminate; injection Hc as <-; eauto.
Qed.
Lemma x0_approx0 x0 x eye region : in_box x0 region x ->
  approx KLin (tshape x0) 0 (fun J => tdata x J - tdata x0 J) x (if (0 <? 0)%nat then [Arr x0; Arr eye] else [Ivl (fst region) (snd region)]).
Proof.
  intros (E & E1 & E2 & H). simpl. split; [|split; [intros i c Hi; lia|split; [simpl; lia|lia]]]. simpl. rewrite E. apply ivl_encloses; auto.
Qed.

Lemma init_ok X D z lits i n x : arg_ok X D z KLin x i -> forall vars cs d r k d' r' k', inv X D z lits d r k ->
  length cs = length vars -> Forall (fun c => nonempty (tshape c) = true) cs ->
  foldM (fun d '(v, c) => match v with Var n => Ok ((n, constant_inter c) :: d) | _ => Err Unmodelled end) d (combine vars cs) = Ok d' ->
  assign jvar_eqb r (vars ++ [Var n]) (cs ++ [x]) = Some r' -> assign jvar_eqb k (vars ++ [Var n]) (map (fun _ => KConst) cs ++ [KLin]) = Some k' ->
  inv X D z lits ((n, i) :: d') r' k'.
Proof.
  intros Hi. induction vars as [|v vars IH]; intros cs d r k d' r' k' HI HL HN HF Hr Hk; destruct cs as [|c cs]; simpl in HL; try discriminate.
  - simpl in *. injection HF as <-. injection Hr as <-. injection Hk as <-. destruct HI as [HLi HV]. split; [intros m; exact (HLi m)|].
    intros m j Hj. simpl in Hj |- *. destruct (n =? m)%nat; [injection Hj as <-; eauto|]. exact (HV m j Hj).
  - inversion HN as [|? ? Nc Ncs]; subst. cbn [combine foldM] in HF. apply bind_ok in HF. destruct HF as (d1 & H1 & HF). destruct v as [m|m|]; try discriminate. injection H1 as <-.
    simpl in Hr, Hk. refine (IH cs _ _ _ d' r' k' _ _ _ HF Hr Hk); [|lia|auto]. destruct HI as [HLi HV]. split; [intros p; exact (HLi p)|].
    intros p j Hj. simpl in Hj |- *. destruct (m =? p)%nat; [|exact (HV p j Hj)]. injection Hj as <-. exists c, KConst. split; auto. split; auto.
    apply const_arg_ok; [discriminate|apply teq_refl|apply nonempty_valid; auto].
Qed.

Lemma identity_rank (x0 eye : tensor R) : identity x0 = Ok eye -> (length (tshape x0) <= 1)%nat.
Proof. unfold identity. destruct (tshape x0) as [|n [|]]; simpl; try discriminate; lia. Qed.

(** The main lemma: everything known about the final dictionary. *)
Lemma interpret_ok_if Q sc gs pr consts max_deg propagate x0 region x d :
  Q = always \/ Q = at_centre /\ (fun J => tdata x J - tdata x0 J) = (fun _ => 0) ->
  (forall o, In o (gops (p_graph pr)) -> prim_gens_ok Q sc gs (odata o)) -> (forall o, In o (gops (p_graph pr)) -> opaque_ok (odata o)) ->
  in_box x0 region x0 -> in_box x0 region x -> supported sc (tshape x0) (Z.to_nat max_deg) pr consts x ->
  interpret sc gs pr consts max_deg propagate x0 region = Ok d ->
  exists r r' k', (0 <= max_deg)%Z /\
    assign jvar_eqb (lit_value (p_lits pr)) (gdata (p_graph pr) ++ gins (p_graph pr)) (consts ++ [x]) = Some r /\
    run (fun p args => ok_opt (prim_bind sc p args)) jvar_eqb r (gops (p_graph pr)) = Some r' /\
    inv (tshape x0) (Z.to_nat max_deg) (fun J => tdata x J - tdata x0 J) (p_lits pr) d r' k'.
Proof.
  intros HQ HG HO B0 B (HNx & HNc & HNl & r & k & k' & Hr & Hk & HA) H. unfold interpret in H.
  destruct (max_deg <? 0)%Z eqn:EM; [discriminate|]. apply Z.ltb_ge in EM. set (D := Z.to_nat max_deg) in *. clearbody D.
  destruct B0 as (_ & S1 & S2 & B0). destruct B as (Sx & _ & _ & B).
  apply bind_ok in H. destruct H as (t & Ht & H). apply bind_ok in H. destruct H as (tr & Htr & H). apply bind_ok in H. destruct H as (AA & HAA & H).
  apply bind_ok in H. destruct H as (AA0 & HAA0 & H). apply bind_ok in H. destruct H as (eye & Heye & H).
  apply bind_ok in H. destruct H as (u0 & Hlen & H). apply bind_ok in H. destruct H as (invar & Hin & H). apply bind_ok in H. destruct H as (d0 & Hd0 & H).
  cbn [isub] in Ht. apply bind_ok in Ht. destruct Ht as (tl & Htl & Ht). apply bind_ok in Ht. destruct Ht as (th & Hth & Ht). injection Ht as <-. injection Htr as <-.
  pose proof (tmap2_same_ok _ _ _ _ (tshape x0) Htl S1 eq_refl) as [Stl Etl]. pose proof (tmap2_same_ok _ _ _ _ (tshape x0) Hth S2 eq_refl) as [Sth Eth].
  unfold make_arith in HAA, HAA0. destruct (shape_eqb _ _) in HAA; [|discriminate]. injection HAA as <-. destruct (shape_eqb _ _) in HAA0; [|discriminate]. injection HAA0 as <-.
  assert (R0 : in_region (tshape x0) (tl, th) (fun _ => 0)).
  { split; [auto|]. split; [auto|]. intros J HJ. simpl. rewrite Etl, Eth by auto. simpl. specialize (B0 J HJ). lra. }
  assert (RZ : in_region (tshape x0) (tl, th) (fun J => tdata x J - tdata x0 J)).
  { split; [auto|]. split; [auto|]. intros J HJ. simpl. rewrite Etl, Eth by auto. simpl. specialize (B J HJ). lra. }
  destruct (length consts =? length (gdata (p_graph pr)))%nat eqn:EL; [|discriminate]. apply Nat.eqb_eq in EL.
  destruct (gins (p_graph pr)) as [|[n| |] [|]] eqn:EI; try discriminate. injection Hin as <-.
  assert (HI : inv (tshape x0) D (fun J => tdata x J - tdata x0 J) (p_lits pr)
     ((n, Inter (if (0 <? D)%nat then [Arr x0; Arr eye] else [Ivl (fst region) (snd region)]) (if (if (D =? 0)%nat then false else propagate) then Some region else None)) :: d0) r k).
  { refine (init_ok _ _ _ _ _ n x _ (gdata (p_graph pr)) consts [] _ _ d0 r k _ EL HNc Hd0 Hr Hk).
    - split; [apply nonempty_valid; auto|]. simpl. split.
      + destruct D as [|D']; [apply x0_approx0; repeat split; auto; apply B; auto|]. apply x0_approx; auto. lia.
      + destruct (Nat.eqb_spec D 0) as [->|HD]; [exact I|]. destruct propagate; [|exact I]. unfold region_ok. destruct region as [l h]. simpl in *. rewrite Sx.
        split; auto. split; auto. split; auto. intros c0 rest s Hc Hs. replace (0 <? D)%nat with true in Hc by (symmetry; apply Nat.ltb_lt; lia). injection Hc as <- <-. simpl. auto.
    - split; [|intros m i Hm; discriminate]. intros m. split; [apply HNl|]. split; reflexivity. }
  destruct (run_ok (tshape x0) (tl, th) D _ RZ R0 sc gs Q HQ (identity_rank _ _ Heye) _ (p_lits pr) (gops (p_graph pr)) _ r k d k' HI HG HO HA H) as (r' & Hrun & HI').
  exists r, r', k'. auto.
Qed.
Lemma interpret_ok sc gs pr consts max_deg propagate x0 region x d :
  valid_generators sc gs -> (forall o, In o (gops (p_graph pr)) -> opaque_ok (odata o)) ->
  in_box x0 region x0 -> in_box x0 region x -> supported sc (tshape x0) (Z.to_nat max_deg) pr consts x ->
  interpret sc gs pr consts max_deg propagate x0 region = Ok d ->
  exists r r' k', (0 <= max_deg)%Z /\
    assign jvar_eqb (lit_value (p_lits pr)) (gdata (p_graph pr) ++ gins (p_graph pr)) (consts ++ [x]) = Some r /\
    run (fun p args => ok_opt (prim_bind sc p args)) jvar_eqb r (gops (p_graph pr)) = Some r' /\
    inv (tshape x0) (Z.to_nat max_deg) (fun J => tdata x J - tdata x0 J) (p_lits pr) d r' k'.
Proof. intros HG. apply (interpret_ok_if always); auto. intros o _. exact (valid_prim_gens always sc gs (odata o) HG). Qed.
