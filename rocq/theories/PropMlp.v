(** Property C73: the squared error loss of a multi-layer perceptron. *)
From Coq Require Import Reals Lra.
From Verif Require Import Base Tensor IntervalArith Polynomials Enclosure TensorLemmas Spec IntervalProofs GraphEditor GraphSpec Elementwise Primitive ElementSpec
  JaxBound JaxSpec JaxLemmas JaxOps JaxTable JaxTableProofs PropJax PropTable TotalSpec PropTotal PropTotalTable Mlp MlpProofs.
Open Scope R_scope.

(** The program computes the loss. *)
Theorem C73_mlp_meaning : forall usr N x, net_fits (tshape x) N ->
  exists y, meaning (scalarsR usr) (net_program N) (net_consts N) x = Some [y] /\ tshape y = [] /\ tdata y [] = squared_error N x.
Proof.
  intros usr N x HF. destruct (net_runs usr (total_generators 0) (tshape x) 0 false N x HF eq_refl) as (r & k & k' & y & _ & _ & _ & _ & H).
  exists y. exact H.
Qed.

Lemma net_opaque N o : In o (gops (p_graph (net_program N))) -> opaque_ok (odata o).
Proof.
  intros Ho. cbn [gops p_graph net_program] in Ho. pose proof (net_ops_are (n_rows N) (n_layers N) (length (data_consts N)) (length (data_consts N)) (S (length (net_consts N)))) as F.
  rewrite Forall_forall in F. destruct (F o Ho) as [H _]. destruct (odata o); simpl in H |- *; auto; contradiction.
Qed.
Lemma net_total N D o : (forall l e, In l (n_layers N) -> l_act l = Some e -> total_elem D e = true) ->
  In o (gops (p_graph (net_program N))) -> total_prim D (odata o).
Proof.
  intros HA Ho. cbn [gops p_graph net_program] in Ho. pose proof (net_ops_are (n_rows N) (n_layers N) (length (data_consts N)) (length (data_consts N)) (S (length (net_consts N)))) as F.
  rewrite Forall_forall in F. destruct (F o Ho) as [H _]. destruct (odata o); simpl in H |- *; auto; try contradiction; [subst; lia|].
  destruct H as (l & Hl & E). eauto.
Qed.
Lemma layers_nonempty X rows : forall ls d, (0 < d)%nat -> layers_fit X rows d ls -> Forall (fun t => nonempty (tshape t) = true) (flat_map layer_consts ls) /\ (0 < final_size ls d)%nat.
Proof.
  assert (P : forall s p, nonempty s = true -> param_fits X s p -> Forall (fun t => nonempty (tshape t) = true) (param_consts p)).
  { intros s [t|t u] Hs HF; simpl in HF; [subst s; repeat constructor; auto|]. destruct HF as (E1 & E2 & _). repeat constructor; congruence. }
  assert (Q : forall a, (0 < a)%nat -> (0 <? a)%nat = true) by (intros; apply Nat.ltb_lt; auto).
  induction ls as [|l ls IH]; intros d Hd HF; [simpl; auto|]. cbn [layers_fit] in HF. destruct HF as (Ho & Fw & Fb & _ & _ & HF).
  destruct (IH _ Ho HF) as [H1 H2]. split; [|exact H2]. cbn [flat_map]. apply Forall_app. split; auto. unfold layer_consts. apply Forall_app.
  split; [eapply P; [|exact Fw]|eapply P; [|exact Fb]]; simpl; rewrite !Q; auto.
Qed.
Lemma net_supported usr D N x : net_fits (tshape x) N -> supported (scalarsR usr) (tshape x) D (net_program N) (net_consts N) x.
Proof.
  intros HF. destruct (net_runs usr (total_generators 0) (tshape x) D false N x HF eq_refl) as (r & k & k' & y & H1 & H2 & H3 & _).
  destruct HF as (Nr & Hd & HF & Ht & HD). destruct (layers_nonempty _ _ _ _ Hd HF) as [L1 L2].
  assert (Q : forall a, (0 < a)%nat -> nonempty (n_rows N ++ [a]) = true).
  { intros a Ha. rewrite nonempty_app, Nr. simpl. rewrite (proj2 (Nat.ltb_lt 0 a)); auto. }
  split; [|split; [|split; [intros n; reflexivity|exists r, k, k'; auto]]].
  - destruct (n_data N); [destruct HD as (-> & _); reflexivity|]. destruct HD as [-> _]. simpl. rewrite (proj2 (Nat.ltb_lt _ _)); auto.
  - unfold net_consts, data_consts. apply Forall_app. split; [|apply Forall_app; split; [exact L1|repeat constructor; rewrite Ht; auto]].
    destruct (n_data N) as [t|]; [|constructor]. destruct HD as (_ & St & _). repeat constructor. rewrite St. auto.
Qed.

(** The bounds are valid whenever the conditions of the registered enclosures
    (C35) hold in every call: any degree, any activation. *)
Theorem C73_mlp_bounds_valid : forall usr ugen N max_deg propagate x0 region x b,
  (forall n, valid_gen (ugen n) (usr n)) -> net_fits (tshape x0) N -> in_box x0 region x0 -> in_box x0 region x ->
  taylor_bounds (scalarsR usr) (checked_generators ugen) (net_program N) (net_consts N) max_deg propagate x0 region = Ok b ->
  taylor_bounds (scalarsR usr) (generatorsR ugen) (net_program N) (net_consts N) max_deg propagate x0 region = Ok b /\
  exists l h, tb_lower b x = Ok l /\ tb_upper b x = Ok h /\ tshape l = [] /\ tshape h = [] /\ tdata l [] <= squared_error N x <= tdata h [].
Proof.
  intros usr ugen N max_deg propagate x0 region x b HU HF B0 B H.
  assert (Sx : tshape x = tshape x0) by apply B.
  assert (HS : supported (scalarsR usr) (tshape x0) (Z.to_nat max_deg) (net_program N) (net_consts N) x) by (rewrite <- Sx; apply net_supported; rewrite Sx; auto).
  destruct (C46_registered_functions_sound usr ugen _ _ _ _ _ _ x b HU (net_opaque N) B0 B HS H) as (H1 & y & Hy & l & h & Hl & Hh & Sl & Sh & HB).
  split; auto. exists l, h. destruct (C73_mlp_meaning usr N x) as (y' & Hy' & Sy & Vy); [rewrite Sx; auto|].
  rewrite Hy in Hy'. injection Hy' as <-. rewrite Sy in *. split; auto. split; auto. split; auto. split; auto. rewrite <- Vy. apply HB. constructor.
Qed.

(** The total generators are valid at degree 0. *)
Lemma total_valid_0 usr : valid_generators (scalarsR usr) (total_generators 0).
Proof.
  assert (Z : forall sigma, valid_gen (fun _ _ _ => Err Unmodelled) sigma) by (intros sigma S x0 l h d e _ _ _ _ H; discriminate).
  split; [|split; [|split; [|split]]].
  - intros e. cbn [gen_elem total_generators]. destruct (elem_gen e) as [g|] eqn:Eg; [|apply Z]. destruct (total_elem 0 e) eqn:T; [|apply Z].
    destruct (total_facts usr 0 e T) as (HE & HD & B & _ & Hv). rewrite HE in Eg. injection Eg as <-.
    assert (V : valid_gen_if at_centre (lift_gen (upto 0 (get_elementwise_taylor_enclosure (total_name e, 0%nat)))) (s_elem (scalarsR usr) e)).
    { apply lift_valid_if. intros z a b k r Hz Hr. unfold upto in Hr. destruct ((k =? 0) || (k =? 0))%nat eqn:K; [|discriminate].
      apply orb_prop in K. rewrite !Nat.eqb_eq in K. exact (total_centre (total_name e) _ 0 HD B B Hv k K z a b r Hz Hr). }
    intros S x0 l h d en E1 E2 E3 HB HE'. destruct (V S x0 l h d en E1 E2 E3 HB HE') as (V1 & V2 & V3 & V4).
    split; auto. split; auto. split; auto. intros s y v Hs Hy Hsig. apply V4; auto. left.
    unfold lift_gen in HE'. destruct (_ && _); [|discriminate]. apply bind_ok in HE'. destruct HE' as (es & Hes & HE').
    destruct d; auto. exfalso. destruct (all_idx (tshape x0)) as [|I L] eqn:EI.
    + rewrite <- E1 in Hs. apply all_idx_valid in Hs. rewrite EI in Hs. exact Hs.
    + cbn [mapM] in Hes. unfold upto at 1 in Hes. discriminate.
  - intros y _. apply Z.
  - intros p. apply Z.
  - exact (proj1 (proj2 (proj2 (proj2 (checked_valid usr (fun _ _ _ _ => Err Unmodelled) (fun n => Z _)))))).
  - exact (proj2 (proj2 (proj2 (proj2 (checked_valid usr (fun _ _ _ _ => Err Unmodelled) (fun n => Z _)))))).
Qed.

(** With activations that have exact data at degree D (C35: sigmoid up to degree
    1, softplus up to 2, exp at any degree, or none), taylor_bounds returns for
    every network, x0 and region containing x0.  For D >= 1 both bounds are equal to the loss at x0; for
    D = 0 they contain the loss on the whole region. *)
Theorem C73_mlp_bounds_returned : forall usr ugen N D propagate x0 region,
  net_fits (tshape x0) N -> in_box x0 region x0 ->
  (forall l e, In l (n_layers N) -> l_act l = Some e -> total_elem D e = true) ->
  exists b, taylor_bounds (scalarsR usr) (generatorsR ugen) (net_program N) (net_consts N) (Z.of_nat D) propagate x0 region = Ok b /\
    ((1 <= D)%nat -> exists l h, tb_lower b x0 = Ok l /\ tb_upper b x0 = Ok h /\ tshape l = [] /\ tshape h = [] /\ tdata l [] = squared_error N x0 /\ tdata h [] = squared_error N x0) /\
    (D = 0%nat -> forall x, in_box x0 region x ->
       exists l h, tb_lower b x = Ok l /\ tb_upper b x = Ok h /\ tshape l = [] /\ tshape h = [] /\ tdata l [] <= squared_error N x <= tdata h []).
Proof.
  intros usr ugen N D propagate x0 region HF B0 HA.
  destruct (C73_mlp_meaning usr N x0 HF) as (y & Hy & Sy & Vy).
  assert (HX : (length (tshape x0) <= 1)%nat).
  { destruct HF as (_ & _ & _ & _ & HD). destruct (n_data N); [destruct HD as (-> & _)|destruct HD as [-> _]]; simpl; lia. }
  assert (HAcc : forall gs, accepted_program (scalarsR usr) gs (Z.of_nat D) propagate (net_program N) (net_consts N) x0).
  { intros gs r k Er Ek. rewrite Nat2Z.id.
    destruct (net_runs usr gs (tshape x0) D (propagate && (0 <? Z.of_nat D)%Z) N x0 HF eq_refl) as (r' & k' & k'' & y' & H1 & H2 & _ & H4 & _).
    rewrite H1 in Er. injection Er as <-. rewrite H2 in Ek. injection Ek as <-. exact H4. }
  assert (HS : forall x, tshape x = tshape x0 -> supported (scalarsR usr) (tshape x0) (Z.to_nat (Z.of_nat D)) (net_program N) (net_consts N) x).
  { intros x Ex. rewrite <- Ex. apply net_supported. rewrite Ex. exact HF. }
  assert (HT : forall o, In o (gops (p_graph (net_program N))) -> total_prim D (odata o)) by (intros o; apply net_total; auto).
  (* the run with restricted generators *)
  assert (HFit : fit_generators (scalarsR usr) (total_generators D) (net_program N)).
  { intros o Ho. specialize (HT o Ho). split.
    - destruct (odata o); simpl in HT; try contradiction; try exact I; [simpl; intros; lia|].
      destruct (total_facts usr D e HT) as (HE & HD & B & HB0 & Hv). simpl. rewrite HE, HT. apply lift_valid_if.
      intros z a b k r Hz Hr. unfold upto in Hr. destruct ((k =? D) || (k =? 0))%nat eqn:K; [|discriminate].
      apply orb_prop in K. rewrite !Nat.eqb_eq in K. exact (total_centre (total_name e) _ D HD B HB0 Hv k K z a b r Hz Hr).
    - intros gen Hc. destruct Hc; simpl in HT; try contradiction; [|lia]. destruct (total_facts usr D e HT) as (HE & _). simpl. rewrite HE, HT. apply lift_nonconstant. }
  pose proof (C60_raises_only_what_generators_raise (scalarsR usr) (total_generators D) (net_program N) (net_consts N) (Z.of_nat D) propagate x0 region y
    HFit (net_opaque N) (Nat2Z.is_nonneg D) HX B0 (net_wf N) (HS x0 eq_refl) Hy (HAcc _)) as K.
  destruct (taylor_bounds (scalarsR usr) (total_generators D) (net_program N) (net_consts N) (Z.of_nat D) propagate x0 region) as [b|e] eqn:E.
  2:{ exfalso. destruct K as (o & gen & d & Ho & Hc & Hd & Hr). rewrite Nat2Z.id in Hd. specialize (HT o Ho). destruct Hc; simpl in HT; try contradiction; [|lia].
      exact (total_never_raises D e0 d e HT Hd Hr). }
  exists b. split; [exact (taylor_bounds_le _ _ _ (total_le D ugen) _ _ _ _ _ _ _ E)|]. split.
  - intros HD. assert (HD1 : (1 <= Z.of_nat D)%Z) by lia. destruct (C48_exact_at_x0_centre (scalarsR usr) (total_generators D) _ _ _ _ _ _ b (fun o Ho => proj1 (HFit o Ho)) (net_opaque N) B0 HD1 (HS x0 eq_refl) E)
      as (y' & l & h & Hy' & Hl & Hh & [Sl El] & [Sh Eh]).
    rewrite Hy in Hy'. injection Hy' as <-. exists l, h. rewrite Sy in Sl, Sh. split; auto. split; auto. split; auto. split; auto.
    rewrite <- Vy. split; [apply El; rewrite Sl|apply Eh; rewrite Sh]; constructor.
  - intros -> x B. pose proof (total_valid_0 usr) as HV. assert (Sx : tshape x = tshape x0) by apply B.
    assert (HB : exists y, meaning (scalarsR usr) (net_program N) (net_consts N) x = Some [y] /\ bounds_at b x y).
    { destruct propagate; [exact (C47_propagation_sound _ _ _ _ _ _ _ _ _ HV (net_opaque N) B0 B (HS x Sx) E)|exact (C46_taylor_bounds_sound _ _ _ _ _ _ _ _ _ HV (net_opaque N) B0 B (HS x Sx) E)]. }
    destruct HB as (y' & Hy' & l & h & Hl & Hh & Sl & Sh & HB). destruct (C73_mlp_meaning usr N x) as (y2 & Hy2 & Sy2 & Vy2); [rewrite Sx; auto|].
    rewrite Hy' in Hy2. injection Hy2 as ->. rewrite Sy2 in *. exists l, h. split; auto. split; auto. split; auto. split; auto. rewrite <- Vy2. apply HB. constructor.
Qed.
