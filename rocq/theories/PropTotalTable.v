(** C60 for the registered generators. *)
From Coq Require Import Reals Lra.
From Verif Require Import Base Tensor IntervalArith Polynomials Enclosure TensorLemmas Spec IntervalProofs PropEnclosure PropDegree GraphEditor GraphSpec Elementwise Primitive ElementSpec PropElementwise PropPrimitive PropCentre PropPower PropPowerZero
  JaxBound JaxSpec JaxLemmas JaxOps JaxTable JaxTableProofs PropJax PropTable PropJaxLimits TotalSpec PropTotal.
Open Scope R_scope.

Lemma lift_nonconstant g : nonconstant_gen (lift_gen g).
Proof.
  intros S x0 l h d e _ _ _ _ H. unfold lift_gen in H. destruct (_ && _); [|discriminate]. apply bind_ok in H. destruct H as (es & _ & H). injection H as <-.
  unfold nonconstant. destruct d as [|d]; simpl; [eauto|]. rewrite app_length, map_length, seq_length. simpl. lia.
Qed.
Lemma checked_calls ugen p gen : (forall n, nonconstant_gen (ugen n)) -> calls (checked_generators ugen) p gen -> nonconstant_gen gen.
Proof. intros HU H. destruct H; try apply lift_nonconstant. destruct e; simpl; auto; apply lift_nonconstant. Qed.
Lemma registered_calls ugen p gen : (forall n, nonconstant_gen (ugen n)) -> calls (generatorsR ugen) p gen -> nonconstant_gen gen.
Proof. intros HU H. destruct H; try apply lift_nonconstant. destruct e; simpl; auto; apply lift_nonconstant. Qed.

(** With the registered functions: the code returns, or the conditions of C35
    and C37 fail in a call to a registered generator (or that call raises). *)
Theorem C60_registered_functions usr ugen pr consts max_deg propagate x0 region y :
  (forall n, valid_gen (ugen n) (usr n)) -> (forall n, nonconstant_gen (ugen n)) -> (forall o, In o (gops (p_graph pr)) -> opaque_ok (odata o)) ->
  (0 <= max_deg)%Z -> (length (tshape x0) <= 1)%nat -> in_box x0 region x0 ->
  wf_program pr consts -> supported (scalarsR usr) (tshape x0) (Z.to_nat max_deg) pr consts x0 -> meaning (scalarsR usr) pr consts x0 = Some [y] ->
  accepted_program (scalarsR usr) (generatorsR ugen) max_deg propagate pr consts x0 ->
  (exists b, taylor_bounds (scalarsR usr) (generatorsR ugen) pr consts max_deg propagate x0 region = Ok b) \/
  (exists e, generator_raises (checked_generators ugen) pr (Z.to_nat max_deg) e).
Proof.
  intros HU HN HO HM HX B0 HW HS HY HA.
  assert (HF : fit_generators (scalarsR usr) (checked_generators ugen) pr).
  { intros o Ho. split; [|intros gen; apply checked_calls; auto]. apply valid_prim_gens. apply checked_valid. auto. }
  pose proof (C60_raises_only_what_generators_raise (scalarsR usr) (checked_generators ugen) pr consts max_deg propagate x0 region y
    HF HO HM HX B0 HW HS HY) as K.
  assert (HA' : accepted_program (scalarsR usr) (checked_generators ugen) max_deg propagate pr consts x0) by exact HA.
  specialize (K HA'). destruct (taylor_bounds (scalarsR usr) (checked_generators ugen) pr consts max_deg propagate x0 region) as [b|e] eqn:E; [|right; eauto].
  left. exists b. exact (taylor_bounds_le _ _ _ (checked_generators_le ugen) _ _ _ _ _ _ _ E).
Qed.

(** Functions defined everywhere, up to the degree for which the tables hold
    exact data: [exp] at any degree, [abs] and the sigmoid up to degree 1,
    [softplus] up to degree 2. *)
Definition total_elem (D : nat) (e : elem) : bool :=
  match e with
  | Exp => true
  | Abs | Logistic | Sigmoid => (D <=? 1)%nat
  | Softplus => (D <=? 2)%nat
  | _ => false
  end.
(** Programs made of these functions, sums, products, powers with exponent >= 0
    and array operations. *)
Definition total_prim (D : nat) (p : prim R) : Prop :=
  match p with
  | elementwise_p e => total_elem D e = true
  | div_p | pow_p => False
  | integer_pow_p y => (0 <= y)%Z
  | _ => True
  end.
Lemma total_centre n sigma D : (forall y, domain n y) -> builtin n D = true -> builtin n 0 = true -> (forall y v, sigma y = Ok v -> v = textbook n y) ->
  forall d, d = D \/ d = 0%nat -> forall x0 a b e, a <= x0 <= b -> get_elementwise_taylor_enclosure (n, 0%nat) x0 (a, b) d = Ok e ->
  length (fst e) = d /\ forall y v, a <= y <= b -> at_centre d x0 y -> sigma y = Ok v -> encl_value (fst e) (snd e) (y - x0) v.
Proof.
  intros HD HB HB0 Hs d Hd x0 a b e Hx He.
  assert (B : builtin n d = true) by (destruct Hd; subst; auto).
  destruct (C35_always_returns_exact_at_x0 n d x0 a b B (HD a) Hx) as (e' & He' & HL & HV). rewrite He' in He. injection He as <-.
  split; auto. intros y v Hy Q Hv. rewrite (Hs y v Hv). destruct Q as [-> | ->].
  - assert (C : forall x, cap_ok 0 x0 x) by (intros x; right; simpl; lra).
    destruct (C35_builtin_enclosures_valid n 0 x0 a b HB0 (HD a) Hx (C a) (C b) ltac:(discriminate)) as (e2 & H2 & _ & V2).
    rewrite He' in H2. injection H2 as <-. apply V2. exact Hy.
  - replace (x0 - x0) with 0 by ring. exact HV.
Qed.

(** The generators restricted to degrees [D] and 0 and to the functions above. *)
Definition upto (D : nat) (g : scalar_gen) : scalar_gen := fun x0 tr d =>
  if (d =? D)%nat || (d =? 0)%nat then g x0 tr d else Err Unmodelled.
Definition total_generators (D : nat) : generators R :=
  Generators (fun e => match elem_gen e with
                       | Some g => if total_elem D e then lift_gen (upto D g) else fun _ _ _ => Err Unmodelled
                       | None => fun _ _ _ => Err Unmodelled
                       end)
             (fun _ _ _ _ => Err Unmodelled) (fun _ _ _ _ => Err Unmodelled) exponentR.
Lemma upto_le D g : gen_le (lift_gen (upto D g)) (lift_gen g).
Proof. apply lift_le. intros x0 tr d e. unfold upto. destruct (_ || _); [auto|discriminate]. Qed.
Lemma total_le D ugen : gens_le (total_generators D) (generatorsR ugen).
Proof.
  split; [|split; [|split; [|reflexivity]]]; [|intros ? ? ? ? ?; discriminate|intros ? ? ? ? ?; discriminate].
  intros e. simpl. destruct (elem_gen e) as [g|] eqn:E; [|intros ? ? ? ?; discriminate].
  destruct (total_elem D e) eqn:T; [|intros ? ? ? ?; discriminate]. destruct e; try discriminate; apply upto_le.
Qed.
(** The function of the table behind a total elementwise primitive. *)
Definition total_name (e : elem) : fname :=
  match e with Abs => ABS | Logistic | Sigmoid => SIGMOID | Softplus => SOFTPLUS | _ => EXP end.
Lemma total_facts usr D e : total_elem D e = true ->
  elem_gen e = Some (get_elementwise_taylor_enclosure (total_name e, 0%nat)) /\ (forall y, domain (total_name e) y) /\
  builtin (total_name e) D = true /\ builtin (total_name e) 0 = true /\ (forall y v, elem_fun usr e y = Ok v -> v = textbook (total_name e) y).
Proof.
  intros H. destruct e; try discriminate; simpl in H; (split; [reflexivity|]); (split; [intros y; exact I|]); simpl; (split; [auto|]); (split; [reflexivity|]); intros y v E; injection E as <-; reflexivity.
Qed.
Lemma mapM_all_ok {A B} (f : A -> res B) l : (forall a, In a l -> exists b, f a = Ok b) -> exists bs, mapM f l = Ok bs.
Proof.
  induction l as [|a l IH]; intros H; cbn [mapM]; [eauto|]. destruct (H a (or_introl eq_refl)) as [b ->]. cbn [bind].
  destruct IH as [bs ->]; [intros; apply H; right; auto|]. cbn [bind]. eauto.
Qed.
Lemma total_never_raises D e d x : total_elem D e = true -> d = D \/ d = 0%nat -> ~ raises (gen_elem (total_generators D) e) d x.
Proof.
  intros T Hd (S & x0 & l & h & S0 & SL & SH & HB & H). destruct (total_facts (fun _ _ => Err Unmodelled) D e T) as (HE & HD & B & B0 & _).
  simpl in H. rewrite HE, T in H. unfold lift_gen in H. rewrite S0, SL, SH, (proj2 (shape_eqb_eq S S) eq_refl) in H. cbn [andb] in H.
  destruct (mapM_all_ok (fun I => upto D (get_elementwise_taylor_enclosure (total_name e, 0%nat)) (tdata x0 I) (tdata l I, tdata h I) d) (all_idx S)) as [es Hes].
  - intros I HI. apply all_idx_valid in HI. unfold upto. replace ((d =? D) || (d =? 0))%nat with true by (destruct Hd; subst; rewrite Nat.eqb_refl, ?orb_true_r; reflexivity).
    destruct (C35_always_returns_exact_at_x0 (total_name e) d (tdata x0 I) (tdata l I) (tdata h I)) as (r & Hr & _); eauto. destruct Hd; subst; auto.
  - rewrite Hes in H. discriminate.
Qed.

(** A program made of these functions never raises: whatever the region (as
    long as it contains x0), the constants and the composition. *)
Theorem C60_total_functions_return usr ugen pr consts max_deg propagate x0 region y :
  (forall o, In o (gops (p_graph pr)) -> total_prim (Z.to_nat max_deg) (odata o)) -> (forall o, In o (gops (p_graph pr)) -> opaque_ok (odata o)) ->
  (0 <= max_deg)%Z -> (length (tshape x0) <= 1)%nat -> in_box x0 region x0 ->
  wf_program pr consts -> supported (scalarsR usr) (tshape x0) (Z.to_nat max_deg) pr consts x0 -> meaning (scalarsR usr) pr consts x0 = Some [y] ->
  accepted_program (scalarsR usr) (generatorsR ugen) max_deg propagate pr consts x0 ->
  exists b, taylor_bounds (scalarsR usr) (generatorsR ugen) pr consts max_deg propagate x0 region = Ok b.
Proof.
  intros HT HO HM HX B0 HW HS HY HA. set (D := Z.to_nat max_deg) in *.
  assert (HF : fit_generators (scalarsR usr) (total_generators D) pr).
  { intros o Ho. specialize (HT o Ho). split.
    - destruct (odata o); simpl in HT; try contradiction; try exact I; [simpl; intros; lia|].
      destruct (total_facts usr D e HT) as (HE & HD & B & HB0 & Hv). simpl. rewrite HE, HT. apply lift_valid_if.
      intros z a b k r Hz Hr. unfold upto in Hr. destruct ((k =? D) || (k =? 0))%nat eqn:K; [|discriminate].
      apply orb_prop in K. rewrite !Nat.eqb_eq in K. exact (total_centre (total_name e) _ D HD B HB0 Hv k K z a b r Hz Hr).
    - intros gen Hc. destruct Hc; simpl in HT; try contradiction; [|lia]. destruct (total_facts usr D e HT) as (HE & _). simpl. rewrite HE, HT. apply lift_nonconstant. }
  assert (HA' : accepted_program (scalarsR usr) (total_generators D) max_deg propagate pr consts x0) by exact HA.
  pose proof (C60_raises_only_what_generators_raise (scalarsR usr) (total_generators D) pr consts max_deg propagate x0 region y HF HO HM HX B0 HW HS HY HA') as K.
  destruct (taylor_bounds (scalarsR usr) (total_generators D) pr consts max_deg propagate x0 region) as [b|e] eqn:E.
  - exists b. exact (taylor_bounds_le _ _ _ (total_le D ugen) _ _ _ _ _ _ _ E).
  - exfalso. destruct K as (o & gen & d & Ho & Hc & Hd & Hr). specialize (HT o Ho). destruct Hc; simpl in HT; try contradiction; [|lia].
    exact (total_never_raises D e0 d e HT Hd Hr).
Qed.

(** C54 with the registered table: the exponents concerned are the positive
    integers. *)
Theorem C54_positive_integers_raise usr ugen ins outs data lits consts pre post a b y max_deg propagate x0 region d ia ib v n :
  interpret (scalarsR usr) (generatorsR ugen) (prog ins outs data lits pre) consts max_deg propagate x0 region = Ok d ->
  get_intermediate lits d a = Ok ia -> is_constant ia = false ->
  get_intermediate lits d b = Ok ib -> i_enc ib = [Arr v] -> to_float v = Ok (IZR n) -> (0 < n)%Z ->
  forall r, taylor_bounds (scalarsR usr) (generatorsR ugen) (prog ins outs data lits (pre ++ Op pow_p [a; b] [y] :: post)) consts max_deg propagate x0 region <> Ok r.
Proof.
  intros HI Ha HN Hb Eb Hf Hn.
  refine (proj1 (C54_pow_integer_valued_exponent_raises (scalarsR usr) (generatorsR ugen) ins outs data lits consts pre post a b y max_deg propagate x0 region d ia ib v (IZR n) HI Ha HN Hb Eb Hf _)).
  simpl. unfold exponentR. rewrite is_int_IZR. destruct (Z.eqb_spec n 0); [lia|]. destruct (Z.ltb_spec 0 n); [reflexivity|lia].
Qed.
