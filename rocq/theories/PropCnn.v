(** Property C76: the squared error loss of a convolutional neural network. *)
From Coq Require Import Reals Lra.
From Verif Require Import Base Tensor IntervalArith Polynomials Enclosure TensorLemmas Spec IntervalProofs GraphEditor GraphSpec Elementwise Primitive ElementSpec
  JaxBound JaxSpec JaxLemmas JaxOps JaxTable JaxTableProofs PropJax PropTable TotalSpec PropTotal PropTotalTable Mlp MlpProofs PropMlp Cnn CnnProofs.
Open Scope R_scope.

(** ** Programs that compute a function of a number with accepted equations *)
Section Computes.
Variables (usr : nat -> R -> res R) (pr : program R) (consts : list (tensor R)) (f : tensor R -> R).
Hypothesis HC : computes usr pr consts [] f.
Hypothesis HN : Forall (fun c => nonempty (tshape c) = true) consts.
Hypothesis HLit : forall n, nonempty (tshape (p_lits pr n)) = true.
Hypothesis HO : forall o, In o (gops (p_graph pr)) -> opaque_ok (odata o).

Lemma computes_supported D x : tshape x = [] -> supported (scalarsR usr) [] D pr consts x.
Proof.
  intros Sx. destruct (HC (total_generators 0) D false x Sx) as (r & k & k' & y & H1 & H2 & H3 & _).
  split; [rewrite Sx; reflexivity|]. split; auto. split; auto. exists r, k, k'. auto.
Qed.
Lemma computes_meaning x : tshape x = [] -> exists y, meaning (scalarsR usr) pr consts x = Some [y] /\ tshape y = [] /\ tdata y [] = f x.
Proof. intros Sx. destruct (HC (total_generators 0) 0%nat false x Sx) as (r & k & k' & y & _ & _ & _ & _ & H). exists y. exact H. Qed.

Lemma computes_valid ugen max_deg propagate x0 region x b : (forall n, valid_gen (ugen n) (usr n)) -> tshape x0 = [] ->
  in_box x0 region x0 -> in_box x0 region x ->
  taylor_bounds (scalarsR usr) (checked_generators ugen) pr consts max_deg propagate x0 region = Ok b ->
  taylor_bounds (scalarsR usr) (generatorsR ugen) pr consts max_deg propagate x0 region = Ok b /\
  exists l h, tb_lower b x = Ok l /\ tb_upper b x = Ok h /\ tshape l = [] /\ tshape h = [] /\ tdata l [] <= f x <= tdata h [].
Proof.
  intros HU S0 B0 B H. assert (Sx : tshape x = tshape x0) by apply B. rewrite S0 in Sx.
  assert (HS : supported (scalarsR usr) (tshape x0) (Z.to_nat max_deg) pr consts x) by (rewrite S0; apply computes_supported; auto).
  destruct (C46_registered_functions_sound usr ugen _ _ _ _ _ _ x b HU HO B0 B HS H) as (H1 & y & Hy & l & h & Hl & Hh & Sl & Sh & HB).
  split; auto. exists l, h. destruct (computes_meaning x Sx) as (y' & Hy' & Sy & Vy).
  rewrite Hy in Hy'. injection Hy' as <-. rewrite Sy in *. split; auto. split; auto. split; auto. split; auto. rewrite <- Vy. apply HB. constructor.
Qed.

Lemma computes_returned ugen D propagate x0 region : wf_program pr consts -> (forall o, In o (gops (p_graph pr)) -> total_prim D (odata o)) ->
  tshape x0 = [] -> in_box x0 region x0 ->
  exists b, taylor_bounds (scalarsR usr) (generatorsR ugen) pr consts (Z.of_nat D) propagate x0 region = Ok b /\
    ((1 <= D)%nat -> exists l h, tb_lower b x0 = Ok l /\ tb_upper b x0 = Ok h /\ tshape l = [] /\ tshape h = [] /\ tdata l [] = f x0 /\ tdata h [] = f x0) /\
    (D = 0%nat -> forall x, in_box x0 region x ->
       exists l h, tb_lower b x = Ok l /\ tb_upper b x = Ok h /\ tshape l = [] /\ tshape h = [] /\ tdata l [] <= f x <= tdata h []).
Proof.
  intros HW HT S0 B0. destruct (computes_meaning x0 S0) as (y & Hy & Sy & Vy).
  assert (HX : (length (tshape x0) <= 1)%nat) by (rewrite S0; simpl; lia).
  assert (HAcc : forall gs, accepted_program (scalarsR usr) gs (Z.of_nat D) propagate pr consts x0).
  { intros gs r k Er Ek. rewrite Nat2Z.id, S0.
    destruct (HC gs D (propagate && (0 <? Z.of_nat D)%Z) x0 S0) as (r' & k' & k'' & y' & H1 & H2 & _ & H4 & _).
    rewrite H1 in Er. injection Er as <-. rewrite H2 in Ek. injection Ek as <-. exact H4. }
  assert (HS : forall x, tshape x = tshape x0 -> supported (scalarsR usr) (tshape x0) (Z.to_nat (Z.of_nat D)) pr consts x).
  { intros x Ex. rewrite S0 in *. apply computes_supported. exact Ex. }
  assert (HFit : fit_generators (scalarsR usr) (total_generators D) pr).
  { intros o Ho. specialize (HT o Ho). split.
    - destruct (odata o); simpl in HT; try contradiction; try exact I; [simpl; intros; lia|].
      destruct (total_facts usr D e HT) as (HE & HD & B & HB0 & Hv). simpl. rewrite HE, HT. apply lift_valid_if.
      intros z a b k r Hz Hr. unfold upto in Hr. destruct ((k =? D) || (k =? 0))%nat eqn:K; [|discriminate].
      apply orb_prop in K. rewrite !Nat.eqb_eq in K. exact (total_centre (total_name e) _ D HD B HB0 Hv k K z a b r Hz Hr).
    - intros gen Hc. destruct Hc; simpl in HT; try contradiction; [|lia]. destruct (total_facts usr D e HT) as (HE & _). simpl. rewrite HE, HT. apply lift_nonconstant. }
  pose proof (C60_raises_only_what_generators_raise (scalarsR usr) (total_generators D) pr consts (Z.of_nat D) propagate x0 region y
    HFit HO (Nat2Z.is_nonneg D) HX B0 HW (HS x0 eq_refl) Hy (HAcc _)) as K.
  destruct (taylor_bounds (scalarsR usr) (total_generators D) pr consts (Z.of_nat D) propagate x0 region) as [b|e] eqn:E.
  2:{ exfalso. destruct K as (o & gen & d & Ho & Hc & Hd & Hr). rewrite Nat2Z.id in Hd. specialize (HT o Ho). destruct Hc; simpl in HT; try contradiction; [|lia].
      exact (total_never_raises D e0 d e HT Hd Hr). }
  exists b. split; [exact (taylor_bounds_le _ _ _ (total_le D ugen) _ _ _ _ _ _ _ E)|]. split.
  - intros HD. assert (HD1 : (1 <= Z.of_nat D)%Z) by lia. destruct (C48_exact_at_x0_centre (scalarsR usr) (total_generators D) _ _ _ _ _ _ b (fun o Ho => proj1 (HFit o Ho)) HO B0 HD1 (HS x0 eq_refl) E)
      as (y' & l & h & Hy' & Hl & Hh & [Sl El] & [Sh Eh]).
    rewrite Hy in Hy'. injection Hy' as <-. exists l, h. rewrite Sy in Sl, Sh. split; auto. split; auto. split; auto. split; auto.
    rewrite <- Vy. split; [apply El; rewrite Sl|apply Eh; rewrite Sh]; constructor.
  - intros -> x B. pose proof (total_valid_0 usr) as HV. assert (Sx : tshape x = tshape x0) by apply B.
    assert (HB : exists y, meaning (scalarsR usr) pr consts x = Some [y] /\ bounds_at b x y).
    { destruct propagate; [exact (C47_propagation_sound _ _ _ _ _ _ _ _ _ HV HO B0 B (HS x Sx) E)|exact (C46_taylor_bounds_sound _ _ _ _ _ _ _ _ _ HV HO B0 B (HS x Sx) E)]. }
    destruct HB as (y' & Hy' & l & h & Hl & Hh & Sl & Sh & HB). destruct (computes_meaning x) as (y2 & Hy2 & Sy2 & Vy2); [congruence|].
    rewrite Hy' in Hy2. injection Hy2 as ->. rewrite Sy2 in *. exists l, h. split; auto. split; auto. split; auto. split; auto. rewrite <- Vy2. apply HB. constructor.
Qed.
End Computes.

(** ** Convolutional networks *)
Lemma convs_nonempty : forall ls C L, (0 < C)%nat -> convs_fit C L ls -> Forall (fun t => nonempty (tshape t) = true) (flat_map conv_consts ls).
Proof.
  assert (P : forall s p, nonempty s = true -> param_fits [] s p -> Forall (fun t => nonempty (tshape t) = true) (param_consts p)).
  { intros s [t|t u] Hs HF; simpl in HF; [subst s; repeat constructor; auto|]. destruct HF as (E1 & E2 & _). repeat constructor; congruence. }
  induction ls as [|l ls IH]; intros C L HC HF; [constructor|]. cbn [convs_fit] in HF. destruct HF as (Ho & Nw & _ & _ & _ & _ & _ & Fw & Fb & _ & _ & HF).
  cbn [flat_map]. apply Forall_app. split; [|eapply IH; [|exact HF]; auto]. unfold conv_consts. apply Forall_app.
  split; [eapply P; [|exact Fw]|eapply P; [|exact Fb]]; cbn [nonempty forallb]; rewrite !(proj2 (Nat.ltb_lt _ _)) by auto; auto.
Qed.
Lemma cnn_consts_nonempty N : cnn_fits N -> Forall (fun c => nonempty (tshape c) = true) (cnn_consts N).
Proof.
  intros (HBt & HC & HL & Sd & HF & HM & HLs & Ht). pose proof (nonempty_count _ (last_nonempty _ _ _ HC HL HF)) as NC. fold (flat_size N) in NC.
  destruct (layers_nonempty _ _ _ _ NC HLs) as [L1 L2]. unfold cnn_consts. apply Forall_app. split.
  - repeat constructor. rewrite Sd. cbn [nonempty forallb]. rewrite !(proj2 (Nat.ltb_lt _ _)) by auto. exact HL.
  - apply Forall_app. split; [exact (convs_nonempty _ _ _ HC HF)|]. apply Forall_app. split; [exact L1|]. repeat constructor. rewrite Ht. cbn [nonempty forallb]. rewrite !(proj2 (Nat.ltb_lt _ _)) by auto. reflexivity.
Qed.
Lemma cnn_opaque N o : In o (gops (p_graph (cnn_program N))) -> opaque_ok (odata o).
Proof.
  intros Ho. pose proof (cnn_ops_are N (S (length (cnn_consts N)))) as F. rewrite Forall_forall in F. destruct (F o Ho) as [H _].
  destruct (odata o); simpl in H |- *; auto; contradiction.
Qed.

(** The program computes the loss. *)
Theorem C76_cnn_meaning : forall usr N x, cnn_fits N -> tshape x = [] ->
  exists y, meaning (scalarsR usr) (cnn_program N) (cnn_consts N) x = Some [y] /\ tshape y = [] /\ tdata y [] = cnn_loss N x.
Proof. intros usr N x HF Sx. exact (computes_meaning _ _ _ _ (cnn_runs usr N HF) x Sx). Qed.

(** The bounds are valid whenever the conditions of the registered enclosures
    (C35) hold in every call: any degree, any activation. *)
Theorem C76_cnn_bounds_valid : forall usr ugen N max_deg propagate x0 region x b,
  (forall n, valid_gen (ugen n) (usr n)) -> cnn_fits N -> tshape x0 = [] -> in_box x0 region x0 -> in_box x0 region x ->
  taylor_bounds (scalarsR usr) (checked_generators ugen) (cnn_program N) (cnn_consts N) max_deg propagate x0 region = Ok b ->
  taylor_bounds (scalarsR usr) (generatorsR ugen) (cnn_program N) (cnn_consts N) max_deg propagate x0 region = Ok b /\
  exists l h, tb_lower b x = Ok l /\ tb_upper b x = Ok h /\ tshape l = [] /\ tshape h = [] /\ tdata l [] <= cnn_loss N x <= tdata h [].
Proof.
  intros usr ugen N max_deg propagate x0 region x b HU HF S0 B0 B H.
  exact (computes_valid usr _ _ _ (cnn_runs usr N HF) (cnn_consts_nonempty N HF) (fun _ => eq_refl) (cnn_opaque N) ugen max_deg propagate x0 region x b HU S0 B0 B H).
Qed.

(** With activations that have exact data at degree D (C35), taylor_bounds
    returns for every network, x0 and region containing x0. *)
Theorem C76_cnn_bounds_returned : forall usr ugen N D propagate x0 region,
  cnn_fits N -> tshape x0 = [] -> in_box x0 region x0 ->
  (forall l e, In l (f_convs N) -> v_act l = Some e -> total_elem D e = true) ->
  (forall l e, In l (f_layers N) -> l_act l = Some e -> total_elem D e = true) ->
  exists b, taylor_bounds (scalarsR usr) (generatorsR ugen) (cnn_program N) (cnn_consts N) (Z.of_nat D) propagate x0 region = Ok b /\
    ((1 <= D)%nat -> exists l h, tb_lower b x0 = Ok l /\ tb_upper b x0 = Ok h /\ tshape l = [] /\ tshape h = [] /\ tdata l [] = cnn_loss N x0 /\ tdata h [] = cnn_loss N x0) /\
    (D = 0%nat -> forall x, in_box x0 region x ->
       exists l h, tb_lower b x = Ok l /\ tb_upper b x = Ok h /\ tshape l = [] /\ tshape h = [] /\ tdata l [] <= cnn_loss N x <= tdata h []).
Proof.
  intros usr ugen N D propagate x0 region HF S0 B0 HA1 HA2.
  apply (computes_returned usr _ _ _ (cnn_runs usr N HF) (cnn_consts_nonempty N HF) (fun _ => eq_refl) (cnn_opaque N) ugen D propagate x0 region (cnn_wf N)); auto.
  intros o Ho. pose proof (cnn_ops_are N (S (length (cnn_consts N)))) as F. rewrite Forall_forall in F. destruct (F o Ho) as [H _].
  destruct (odata o); simpl in H |- *; auto; try contradiction; [subst; lia|]. destruct H as [(l & Hl & E)|(l & Hl & E)]; eauto.
Qed.
