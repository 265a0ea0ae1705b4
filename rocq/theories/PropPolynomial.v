(** Property C70: programs that compute polynomials of degree at most max_degree
    are bounded exactly. *)
From Coq Require Import Reals Lra Psatz.
From Coquelicot Require Import Coquelicot.
From Verif Require Import Base Tensor IntervalArith Polynomials Enclosure TensorLemmas Spec IntervalProofs PowerProofs PolyProofs Graded
  EnclosureOps EnclosureProofs BilinearProofs ComposeProofs PropEnclosure PropDegree GraphEditor GraphSpec JaxBound JaxSpec JaxLemmas JaxIndex JaxGather JaxPush JaxDot JaxOps JaxForward JaxRun JaxEval JaxInit PropJax
  TaylorSpec PropTaylor Notebooks NotebookSpec PropNotebooks DegreeSpec.
Open Scope nat_scope.

(** At most [d + 1] coefficients, all of them plain arrays. *)
Definition plain_poly {T} (d : nat) (e : enclosure T) : Prop := 0 < length e <= d + 1 /\ forall c, In c e -> is_arr c.

Section Ops.
Context {T : Type} {N : Num T}.
Variables (D : nat) (tr : tensor T * tensor T).
Let A := mkArith D tr.

Lemma plain_poly_below d B (e : enclosure T) : plain_poly d e -> plain_below B e.
Proof. intros [_ H] i c _ Hc. apply H. eapply nth_error_In; eauto. Qed.
Lemma below_plain_poly d (e : enclosure T) : 0 < length e <= d + 1 -> plain_below (d + 1) e -> plain_poly d e.
Proof.
  intros L H. split; auto. intros c Hc. apply In_nth_error in Hc. destruct Hc as [i Hi]. apply (H i); auto.
  assert (i < length e) by (apply nth_error_Some; congruence). lia.
Qed.
Lemma plain_poly_le d d' (e : enclosure T) : d <= d' -> plain_poly d e -> plain_poly d' e.
Proof. intros L [H1 H2]. split; auto; lia. Qed.
Lemma enclose_id (e : enclosure T) : length e <= D + 1 -> truncate_if_necessary A e = Ok e.
Proof. intros H. unfold truncate_if_necessary, enclose_enclosure, A. cbn [max_degree]. apply Nat.leb_le in H. rewrite H. reflexivity. Qed.

Lemma add_pp da db a b c : Nat.max da db <= D -> plain_poly da a -> plain_poly db b -> eadd A a b = Ok c -> plain_poly (Nat.max da db) c.
Proof.
  intros L Ha Hb H. unfold eadd in H. apply bind_ok in H. destruct H as (t & Ht & H). pose proof (add_coeffs_length _ _ _ Ht) as Lt.
  destruct Ha as [La Pa], Hb as [Lb Pb]. rewrite enclose_id in H by lia. injection H as <-. apply below_plain_poly; [lia|].
  set (B := Nat.max da db + 1). pose proof (add_plain (mkArith B tr) a 0 b t) as P. cbn [max_degree] in P. intros i x Hi Hx.
  refine (P _ _ Ht i x Hi Hx); intros j y _ Hy; [apply Pa|apply Pb]; eapply nth_error_In; eauto.
Qed.
Lemma neg_pp d a c : d <= D -> plain_poly d a -> enegative A a = Ok c -> plain_poly d c.
Proof.
  intros L [La Pa] H. unfold enegative in H. rewrite enclose_id in H by (rewrite map_length; lia). injection H as <-. split; [rewrite map_length; auto|].
  intros c Hc. apply in_map_iff in Hc. destruct Hc as (x & <- & Hx). destruct (Pa x Hx) as [t ->]. eexists; reflexivity.
Qed.
Lemma sub_pp da db a b c : Nat.max da db <= D -> plain_poly da a -> plain_poly db b -> esubtract A a b = Ok c -> plain_poly (Nat.max da db) c.
Proof.
  intros L Ha Hb H. unfold esubtract in H. apply bind_ok in H. destruct H as (t & Ht & H). refine (add_pp da db a t c L Ha _ H). refine (neg_pp db b t _ Hb Ht). lia.
Qed.
Lemma bilinear_length (tp : coef T -> coef T -> nat -> nat -> res (coef T)) a b c : poly_bilinear iadd zero_c tp a b = Ok c -> length c = length a + length b - 1.
Proof.
  intros H. unfold poly_bilinear in H. apply foldM_length in H; [rewrite H; apply repeat_length|].
  intros o (i, x) o' H1. apply foldM_length in H1; auto. intros q (j, y) q' H2. apply bind_ok in H2. destruct H2 as (t & _ & H2). eapply add_at_length; eauto.
Qed.
Lemma mul_pp da db a b c : da + db <= D -> plain_poly da a -> plain_poly db b -> emultiply A a b = Ok c -> plain_poly (da + db) c.
Proof.
  intros L [La Pa] [Lb Pb] H. unfold emultiply in H. apply bind_ok in H. destruct H as (_ & _ & H). apply bind_ok in H. destruct H as (_ & _ & H).
  apply bind_ok in H. destruct H as (p & Hp & H). pose proof (bilinear_length _ _ _ _ Hp) as Lp. rewrite enclose_id in H by lia. injection H as <-.
  apply below_plain_poly; [lia|]. refine (scatter_plain (mkArith (da + db + 1) tr) _ (fun i j => i + j) a b _ p _ Hp).
  intros i j x y c' Hx Hy Hk Ht. refine (ibil_is_arr _ _ _ _ _ (Pa x _) (Pb y _) Ht); eapply nth_error_In; eauto.
Qed.
Lemma bil_pp da db a b pbb c : da + db <= D -> plain_poly da a -> plain_poly db b -> earbitrary_bilinear A a b pbb = Ok c -> plain_poly (da + db) c.
Proof.
  intros L [La Pa] [Lb Pb] H. pose proof (ebil_length _ _ _ _ _ H) as Lc. unfold A in Lc. cbn [max_degree] in Lc. apply below_plain_poly; [lia|].
  refine (scatter_plain (mkArith (da + db + 1) tr) _ (fun i j => Nat.min (i + j) D) a b _ c _ H).
  intros i j x y c' Hx Hy _ Ht. assert (i < length a) by (apply nth_error_Some; congruence). assert (j < length b) by (apply nth_error_Some; congruence).
  unfold term_enclosure_coefficient in Ht. destruct (Nat.leb_spec (i + j) (max_degree A)) as [Hle|Hle]; [|unfold A in Hle; cbn [max_degree] in Hle; lia].
  refine (ibil_is_arr _ _ _ _ _ (Pa x _) (Pb y _) Ht); eapply nth_error_In; eauto.
Qed.
Lemma pow_length a n q : a <> [] -> integer_power iadd zero_c (Arr (tones_like (left_end (hd zero_c a)))) (elementwise_term_product_coefficient (tndim (fst tr)))
    (elementwise_term_power_coefficient (tndim (fst tr))) (fun k c => imul (Arr (tscalar (nofZ k))) c) a (Z.of_nat n) = Ok q -> length q = (length a - 1) * n + 1.
Proof.
  intros Hne H. unfold integer_power in H. destruct (Z.ltb_spec (Z.of_nat n) 0); [lia|]. destruct (Z.eqb_spec (Z.of_nat n) 0) as [E|E].
  - assert (n = 0) by lia. subst n. injection H as <-. simpl. lia.
  - destruct a as [|a0 r]; [congruence|]. apply mapM_length in H. rewrite H, seq_length, Nat2Z.id. lia.
Qed.
(** [integer_pow] with exponent 0 needs no assumption. *)
Lemma pow0_pp a c : epower_nat A a 0 = Ok c -> plain_poly 0 c.
Proof.
  intros H. unfold epower_nat in H. apply bind_ok in H. destruct H as (_ & _ & H). destruct a as [|a0 r]; [discriminate|].
  cbn [integer_power Z.of_nat Z.ltb Z.eqb Z.compare bind] in H. rewrite enclose_id in H by (simpl; lia). injection H as <-. split; [simpl; lia|]. intros x [<-|[]]. eexists; reflexivity.
Qed.
Lemma pow_pp d a n c : d * n <= D -> plain_poly d a -> epower_nat A a n = Ok c -> plain_poly (d * n) c.
Proof.
  intros L [La Pa] H. destruct a as [|a0 r]; [simpl in La; lia|].
  assert (H' : epower_nat (mkArith (D + 1) tr) (a0 :: r) n = Ok c /\ length c = (length (a0 :: r) - 1) * n + 1).
  { unfold epower_nat in *. unfold A in H; cbn [trust_region] in H |- *. 
    apply bind_ok in H. destruct H as ([] & Hv & H). assert (Hv' : validate_taylor_enclosure (mkArith (D + 1) tr) (a0 :: r) = Ok tt) by exact Hv. rewrite Hv'. cbn [bind]. apply bind_ok in H. destruct H as (q & Hq & H). rewrite Hq. cbn [bind].
    pose proof (pow_length (a0 :: r) n q ltac:(discriminate) Hq) as Lq.
    assert (Lb : (length (a0 :: r) - 1) * n <= d * n) by (apply Nat.mul_le_mono_r; lia).
    rewrite enclose_id in H by lia. injection H as <-. split; auto.
    unfold truncate_if_necessary, enclose_enclosure. cbn [max_degree]. destruct (Nat.leb_spec (length q) (D + 1 + 1)); [reflexivity|lia]. }
  destruct H' as [H' Lc]. assert (Lb : (length (a0 :: r) - 1) * n <= d * n) by (apply Nat.mul_le_mono_r; lia).
  assert (PB : plain_below (D + 1) (a0 :: r)) by (intros i x _ Hx; apply Pa; eapply nth_error_In; eauto).
  destruct (epower_plain (mkArith (D + 1) tr) _ _ _ H' PB) as [_ P]. cbn [max_degree] in P.
  set (w := (length (a0 :: r) - 1) * n) in *. clearbody w. set (dn := d * n) in *. clearbody dn.
  apply below_plain_poly; [lia|]. intros i x Hi Hx. apply (P i); auto. lia.
Qed.
Lemma map_pp d (a : enclosure T) f c : plain_poly d a -> map_over_enclosure a f = Ok c -> plain_poly d c.
Proof.
  intros [La Pa] H. pose proof (mapM_length _ _ _ H) as L. apply below_plain_poly; [lia|]. eapply map_over_plain; eauto. intros i x _ Hx. apply Pa. eapply nth_error_In; eauto.
Qed.
Lemma broadcast_pp d (a : enclosure T) sh bd c : plain_poly d a -> push_broadcast sh bd a = Ok c -> plain_poly d c.
Proof.
  intros [La Pa] H. unfold push_broadcast in H. apply bind_ok in H. destruct H as (x0 & _ & H). apply bind_ok in H. destruct H as (xs & _ & H).
  pose proof (mapM_length _ _ _ H) as L.
  assert (L' : length (enumerate a) = length a) by (unfold enumerate; generalize 0; clear; induction a; intros; simpl; auto).
  split; [lia|]. intros y Hy. apply In_nth_error in Hy. destruct Hy as [i Hy]. destruct (mapM_nth _ _ _ _ _ H Hy) as ((j, x) & Hx & Hf).
  apply nth_error_In, in_enumerate, nth_error_In in Hx. destruct (Pa x Hx) as [t ->]. simpl in Hf. apply bind_ok in Hf. destruct Hf as (t' & _ & E). injection E as <-. eexists; reflexivity.
Qed.
(** The reciprocal of a constant is a constant. *)
Lemma recip_pp gp t c : 1 <= D -> (forall e, gp (-1)%Z t (t, t) D = Ok e -> plain_below D e) -> epower A gp [Arr t] (-1) = Ok c -> plain_poly 0 c.
Proof.
  intros HD HG H. unfold epower in H. cbn [Z.leb Z.compare] in H. apply bind_ok in H. destruct H as (_ & _ & H). unfold elementwise_fun in H.
  cbn [enclose_enclosure length Nat.leb Nat.add bind get_nth nth_error] in H. apply bind_ok in H. destruct H as (ew & Hew & H). cbn [max_degree A] in Hew. specialize (HG ew Hew).
  unfold compose_enclosures in H. destruct ew as [|e0 ew]; [discriminate|]. cbn [skipn] in H.
  assert (G : forall l k out c, (forall co, k = 0 -> nth_error l 0 = Some co -> is_arr co) -> plain_poly 0 out ->
    foldM (fun out '(p, coefficient) => term <- compose_term A p coefficient [zero_c] ;; eadd A out term) out (enumerate_from k l) = Ok c -> plain_poly 0 c).
  { clear -HD. induction l as [|co l IH]; intros k out c Hk Ho H; cbn [enumerate_from foldM] in H; [injection H as <-; auto|].
    apply bind_ok in H. destruct H as (out' & H1 & H). apply bind_ok in H1. destruct H1 as (term & Ht & H1).
    refine (IH (S k) out' c _ _ H); [intros; lia|]. refine (add_pp 0 0 out term out' _ Ho _ H1); [simpl; lia|].
    destruct k as [|k]; cbn [compose_term] in Ht.
    - injection Ht as <-. split; [simpl; lia|]. intros x [<-|[]]. apply Hk; reflexivity.
    - apply bind_ok in Ht. destruct Ht as (poly & Hp & Ht).
      assert (Z0 : plain_poly 0 [zero_c]) by (split; [simpl; lia|]; intros x [<-|[]]; eexists; reflexivity).
      destruct (pow_pp 0 _ _ _ (Nat.le_0_l D) Z0 Hp) as [Lp Pp]. destruct poly as [|q0 [|]]; simpl in Lp; try lia.
      cbn [enumerate enumerate_from mapM Nat.ltb Nat.leb bind] in Ht. injection Ht as <-. exact Z0. }
  refine (G _ 0 [zero_c] c _ _ H).
  - intros co _ [= <-]. apply (HG 0); [lia|reflexivity].
  - split; [simpl; lia|]. intros x [<-|[]]. eexists; reflexivity.
Qed.
Lemma div_pp gp d a t c : 1 <= D -> d <= D -> plain_poly d a -> (forall e, gp (-1)%Z t (t, t) D = Ok e -> plain_below D e) ->
  edivide A gp a [Arr t] = Ok c -> plain_poly d c.
Proof.
  intros HD L Ha HG H. unfold edivide in H. apply bind_ok in H. destruct H as (ib & Hib & H). pose proof (recip_pp _ _ _ HD HG Hib) as Pb.
  rewrite <- (Nat.add_0_r d). refine (mul_pp d 0 a ib c _ Ha Pb H). lia.
Qed.
End Ops.

(** ** Programs *)
Section Prog.
Context {T : Type} {N : Num T}.
Variables (sc : scalars T) (gs : generators T) (D : nat) (tr : tensor T * tensor T).
Let A := mkArith D tr.
Hypothesis HG : forall t e, gen_ipow gs (-1)%Z t (t, t) D = Ok e -> plain_below D e.

(** What is known about a variable of degree [d]. *)
Definition deg_ok (d : nat) (i : inter T) : Prop := d <= D -> plain_poly d (i_enc i).
Lemma const_deg_ok d v : deg_ok d (constant_inter v : inter T).
Proof. intros _. split; [simpl; lia|]. intros c [<-|[]]. eexists; reflexivity. Qed.
Lemma deg0_const i : deg_ok 0 i -> is_constant i = true.
Proof.
  intros H. destruct (H (Nat.le_0_l D)) as [L P]. unfold is_constant. destruct (i_enc i) as [|c [|]]; simpl in L; try lia. destruct (P c (or_introl eq_refl)) as [t ->]. reflexivity.
Qed.

Lemma push_pp p ds args d e : Forall2 deg_ok ds args -> forallb (fun d => d =? 0) ds = false -> result_degree p ds = Some d ->
  pushforward gs A p args = Ok e -> d <= D -> plain_poly d e.
Proof.
  intros HA HN HD HP L. unfold result_degree in HD. rewrite HN in HD.
  destruct HA as [|d1 i1 ds is1 H1 HA]; [discriminate|]. destruct HA as [|d2 i2 ds is2 H2 HA].
  - destruct p; cbn -[gather] in HD, HP; try discriminate; try (injection HD as <-).
    + exact (neg_pp D tr _ _ _ L (H1 L) HP).
    + destruct (0 <=? y)%Z eqn:EY; [|discriminate]. injection HD as <-. unfold epower in HP. rewrite EY in HP.
      destruct (Z.to_nat y) as [|n] eqn:En; [rewrite Nat.mul_0_r; exact (pow0_pp D tr _ _ HP)|]. refine (pow_pp D tr _ _ _ _ L (H1 _) HP). nia.
    + exact (broadcast_pp _ _ _ _ _ (H1 L) HP).
    + exact (map_pp _ _ _ _ (H1 L) HP).
    + exact (map_pp _ _ _ _ (H1 L) HP).
    + exact (map_pp _ _ _ _ (H1 L) HP).
    + exact (map_pp _ _ _ _ (H1 L) HP).
    + exact (map_pp _ _ _ _ (H1 L) HP).
    + exact (map_pp _ _ _ _ (H1 L) HP).
  - destruct HA; [|destruct p; try discriminate; destruct d2; discriminate].
    destruct p; cbn -[gather] in HD, HP; try discriminate; try (injection HD as <-).
    + refine (add_pp D tr _ _ _ _ _ L (H1 _) (H2 _) HP); lia.
    + refine (sub_pp D tr _ _ _ _ _ L (H1 _) (H2 _) HP); lia.
    + refine (mul_pp D tr _ _ _ _ _ L (H1 _) (H2 _) HP); lia.
    + destruct d2; [|discriminate]. injection HD as <-. pose proof (deg0_const _ H2) as C2. unfold is_constant in C2. destruct (i_enc i2) as [|[t|] [|]]; try discriminate.
      refine (div_pp D tr _ _ _ t _ _ L (H1 L) (HG t) HP). simpl in HN. rewrite andb_true_r in HN. apply Nat.eqb_neq in HN. lia.
    + refine (bil_pp D tr _ _ _ _ _ _ L (H1 _) (H2 _) HP); lia.
    + refine (bil_pp D tr _ _ _ _ _ _ L (H1 _) (H2 _) HP); lia.
Qed.

Definition dinv (d : dict) (k : jvar -> option nat) : Prop :=
  (forall n, k (Lit n) = Some 0) /\ forall n i, dlookup d n = Some i -> exists m, k (Var n) = Some m /\ deg_ok m i.
Lemma dget_ok lits d k v i m : dinv d k -> get_intermediate lits d v = Ok i -> k v = Some m -> deg_ok m i.
Proof.
  intros [HL HV] H Hm. destruct v as [n|n|]; simpl in H; [| |discriminate].
  - destruct (dlookup d n) as [i'|] eqn:E; [|discriminate]. injection H as ->. destruct (HV n i E) as (m' & E1 & E2). rewrite E1 in Hm. injection Hm as <-. exact E2.
  - injection H as <-. apply const_deg_ok.
Qed.
Lemma dgets_ok lits d k l : dinv d k -> forall args ds, mapM (get_intermediate lits d) l = Ok args -> lookups k l = Some ds -> Forall2 deg_ok ds args.
Proof.
  intros HI. induction l as [|v l IH]; intros args ds H Hk; cbn [mapM] in H; simpl in Hk.
  - injection H as <-. injection Hk as <-. constructor.
  - apply bind_ok in H. destruct H as (i & Hi & H). apply bind_ok in H. destruct H as (is' & His & H). injection H as <-.
    destruct (k v) as [m|] eqn:Ek; [|discriminate]. destruct (lookups k l) as [ds'|]; [|discriminate]. injection Hk as <-. constructor; auto. eapply dget_ok; eauto.
Qed.
Lemma dstore_ok m xs : forall outs is' d k d' k', dinv d k -> Forall (deg_ok m) is' -> store xs d outs is' = Ok d' ->
  assign jvar_eqb k outs (map (fun _ => m) outs) = Some k' -> dinv d' k'.
Proof.
  induction outs as [|u outs IH]; intros is' d k d' k' HI HO HS Hk; destruct HO as [|i is' Hi HO]; simpl in *; try discriminate.
  - injection HS as <-. injection Hk as <-. auto.
  - destruct HI as [HL HV]. destruct u as [n|n|]; [|discriminate|].
    + destruct (dlookup d n); [discriminate|]. apply bind_ok in HS. destruct HS as (_ & _ & HS).
      refine (IH _ _ _ _ _ _ HO HS Hk). split; [intros q; exact (HL q)|]. intros q j Hj. simpl in Hj |- *. destruct (n =? q); [injection Hj as <-; eauto|]. exact (HV q j Hj).
    + refine (IH _ _ _ _ _ _ HO HS Hk). split; [intros q; exact (HL q)|exact HV].
Qed.
Lemma all_const ds args : Forall2 deg_ok ds args -> forallb (fun d => d =? 0) ds = true -> existsb (fun i => negb (is_constant i)) args = false.
Proof.
  induction 1 as [|d i ds args H1 H IH]; simpl; intros E; auto. apply andb_prop in E. destruct E as [E1 E2]. apply Nat.eqb_eq in E1. subst d.
  rewrite (deg0_const _ H1), IH; auto.
Qed.
Lemma dstep_ok A0 prop xs lits d k o d' ds m k' : dinv d k -> lookups k (oins o) = Some ds -> result_degree (odata o) ds = Some m ->
  assign jvar_eqb k (oouts o) (map (fun _ => m) (oouts o)) = Some k' -> step sc gs A A0 prop xs lits d o = Ok d' -> dinv d' k'.
Proof.
  intros HI Hk HR Ak H. unfold step in H. apply bind_ok in H. destruct H as (args & Hargs & H). apply bind_ok in H. destruct H as (outs & Houts & H).
  pose proof (dgets_ok _ _ _ _ HI _ _ Hargs Hk) as HA. refine (dstore_ok m _ _ outs _ _ _ _ HI _ H Ak).
  destruct (existsb _ args) eqn:EC.
  - apply bind_ok in Houts. destruct Houts as (e & He & Houts). destruct (negb _) in Houts; [discriminate|]. apply bind_ok in Houts. destruct Houts as (rg & _ & Houts). injection Houts as <-.
    constructor; [|constructor]. intros L. simpl. destruct (forallb (fun d => d =? 0) ds) eqn:EZ; [rewrite (all_const _ _ HA EZ) in EC; discriminate|].
    exact (push_pp _ _ _ _ _ HA EZ HR He L).
  - apply bind_ok in Houts. destruct Houts as (ts & _ & Houts). apply bind_ok in Houts. destruct Houts as (rs & _ & Houts). injection Houts as <-.
    apply Forall_forall. intros i Hi. apply in_map_iff in Hi. destruct Hi as (v & <- & _). apply const_deg_ok.
Qed.
Lemma drun_ok A0 prop xs lits ops : forall d k d' k', dinv d k -> degrees k ops = Some k' -> foldM (step sc gs A A0 prop xs lits) d ops = Ok d' -> dinv d' k'.
Proof.
  induction ops as [|o ops IH]; intros d k d' k' HI HD H; cbn [degrees foldM] in HD, H; [injection HD as <-; injection H as <-; auto|].
  apply bind_ok in H. destruct H as (d1 & H1 & H). destruct (lookups k (oins o)) as [ds|] eqn:Ek; [|discriminate].
  destruct (result_degree _ _) as [m|] eqn:EM; [|discriminate]. destruct (assign jvar_eqb k (oouts o) _) as [k1|] eqn:EA; [|discriminate].
  refine (IH d1 k1 d' k' _ HD H). eapply dstep_ok; eauto.
Qed.
Lemma dinit_ok n i : deg_ok 1 i -> forall vars cs d k d' k', dinv d k -> length cs = length vars ->
  foldM (fun d '(v, c) => match v with Var n => Ok ((n, constant_inter c) :: d) | _ => Err Unmodelled end) d (combine vars cs) = Ok d' ->
  assign jvar_eqb k (vars ++ [Var n]) (map (fun _ => 0) vars ++ [1]) = Some k' -> dinv ((n, i) :: d') k'.
Proof.
  intros Hi. induction vars as [|v vars IH]; intros cs d k d' k' HI HL HF Hk; destruct cs as [|c cs]; simpl in HL; try discriminate.
  - simpl in *. injection HF as <-. injection Hk as <-. destruct HI as [HLi HV]. split; [intros m; exact (HLi m)|].
    intros m j Hj. simpl in Hj |- *. destruct (n =? m); [injection Hj as <-; eauto|]. exact (HV m j Hj).
  - cbn [combine foldM] in HF. apply bind_ok in HF. destruct HF as (d1 & H1 & HF). destruct v as [m|m|]; try discriminate. injection H1 as <-.
    simpl in Hk. refine (IH cs _ _ d' k' _ _ HF Hk); [|lia]. destruct HI as [HLi HV]. split; [intros p; exact (HLi p)|].
    intros p j Hj. simpl in Hj |- *. destruct (m =? p); [|exact (HV p j Hj)]. injection Hj as <-. exists 0. split; auto. apply const_deg_ok.
Qed.
End Prog.

(** Over any numbers (also floating-point ones): a program that computes a
    polynomial of degree d <= max_degree has at most d + 1 coefficients, none of
    which is an interval.  The generator called for a division by a constant is
    assumed to return a plain first coefficient. *)
Theorem C70_polynomials_have_plain_coefficients : forall (T : Type) (N : Num T) (sc : scalars T) gs pr consts max_deg propagate x0 region b d,
  (forall t e, gen_ipow gs (-1)%Z t (t, t) (Z.to_nat max_deg) = Ok e -> plain_below (Z.to_nat max_deg) e) ->
  polynomial_program pr d -> d <= Z.to_nat max_deg ->
  taylor_bounds sc gs pr consts max_deg propagate x0 region = Ok b ->
  0 < length (tb_coefficients b) <= d + 1 /\ forall c, In c (tb_coefficients b) -> exists t, c = Arr t.
Proof.
  intros T N sc gs pr consts max_deg propagate x0 region b d HG (k & k' & v & Hk & HD & EO & Ed) L H. unfold taylor_bounds in H.
  apply bind_ok in H. destruct H as (dc & Hd & H). rewrite EO in H. cbn [bind] in H. apply bind_ok in H. destruct H as (i & Hi & H). injection H as <-. cbn [tb_coefficients].
  unfold interpret in Hd. destruct (max_deg <? 0)%Z; [discriminate|]. set (D := Z.to_nat max_deg) in *. clearbody D.
  apply bind_ok in Hd. destruct Hd as (t & Ht & Hd). apply bind_ok in Hd. destruct Hd as (tr & Htr & Hd). apply bind_ok in Hd. destruct Hd as (AA & HAA & Hd).
  apply bind_ok in Hd. destruct Hd as (AA0 & HAA0 & Hd). apply bind_ok in Hd. destruct Hd as (eye & Heye & Hd).
  apply bind_ok in Hd. destruct Hd as (u0 & Hlen & Hd). apply bind_ok in Hd. destruct Hd as (invar & Hin & Hd). apply bind_ok in Hd. destruct Hd as (d0 & Hd0 & Hd).
  unfold make_arith in HAA. destruct (shape_eqb _ _) in HAA; [|discriminate]. injection HAA as <-.
  destruct (length consts =? length (gdata (p_graph pr))) eqn:EL; [|discriminate]. apply Nat.eqb_eq in EL.
  unfold initial_degrees in Hk. destruct (gins (p_graph pr)) as [|[n| |] [|]] eqn:EI; try discriminate. injection Hin as <-.
  assert (HI : dinv D ((n, Inter (if 0 <? D then [Arr x0; Arr eye] else [Ivl (fst region) (snd region)]) (if (if D =? 0 then false else propagate) then Some region else None)) :: d0) k).
  { refine (dinit_ok D n _ _ (gdata (p_graph pr)) consts [] _ d0 k _ EL Hd0 Hk).
    - intros L1. destruct D; [lia|]. cbn. split; [simpl; lia|]. intros c [<-|[<-|[]]]; eexists; reflexivity.
    - split; [reflexivity|]. intros m j Hj. discriminate. }
  pose proof (drun_ok sc gs D tr HG _ _ _ _ _ _ _ _ _ HI HD Hd) as HI'.
  exact (dget_ok D _ _ _ _ _ _ HI' Hi Ed L).
Qed.

Lemma valid_recip sc gs D t e : valid_generators sc gs -> gen_ipow gs (-1)%Z t (t, t) D = Ok e -> plain_below D e.
Proof.
  intros (_ & H & _) He. destruct (H (-1)%Z ltac:(lia) (tshape t) t t t D e eq_refl eq_refl eq_refl) as (_ & P & _); auto. intros. lra.
Qed.

(** Over the reals both bounds are equal to the function on the whole region. *)
Theorem C70_polynomials_bounded_exactly : forall sc gs pr consts max_deg propagate x0 region x b d,
  valid_generators sc gs -> (forall o, In o (gops (p_graph pr)) -> opaque_ok (odata o)) ->
  in_box x0 region x0 -> in_box x0 region x -> supported sc (tshape x0) (Z.to_nat max_deg) pr consts x ->
  polynomial_program pr d -> d <= Z.to_nat max_deg ->
  taylor_bounds sc gs pr consts max_deg propagate x0 region = Ok b ->
  exists y l h, meaning sc pr consts x = Some [y] /\ tb_lower b x = Ok l /\ tb_upper b x = Ok h /\ teq l y /\ teq h y.
Proof.
  intros sc gs pr consts max_deg propagate x0 region x b d HG HO B0 B HS HP L H.
  destruct (output_ok _ _ _ _ _ _ _ _ _ _ HG HO B0 B HS H) as (y & k & HM & E0 & _ & NV & _ & HA).
  destruct (C70_polynomials_have_plain_coefficients _ _ _ _ _ _ _ _ _ _ _ _ (fun t e => valid_recip sc gs _ t e HG) HP L H) as [Lc Pc].
  destruct (call_ok b x0 x y k _ E0 (proj1 B) NV HA) as (r & zt & _ & _ & _ & HC & HE & Wr & HI). destruct (lower_upper _ _ _ HC) as [HL HU].
  unfold eval_taylor_enclosure, eval_polynomial in HE.
  destruct (eval_arr _ _ _ _ _ _ (ex_intro _ _ eq_refl) (ex_intro _ zt eq_refl) (ex_intro _ _ eq_refl) (proj2 (Forall_forall _ _) Pc) HE) as [t ->].
  exists y, t, t. split; auto. split; auto. split; auto. simpl in Wr.
  assert (HT : teq t y) by (split; [exact Wr|]; rewrite Wr; intros s Hs; specialize (HI s Hs); simpl in HI; lra). auto.
Qed.

(** ** The claims of the notebooks *)
Open Scope R_scope.
Lemma plain_lof_hif (e : enclosure R) : (forall c, In c e -> exists t, c = Arr t) -> mapM lof e = mapM hif e.
Proof.
  induction e as [|c e IH]; intros H; [reflexivity|]. cbn [mapM]. destruct (H c (or_introl eq_refl)) as [t ->]. cbn [lof hif]. destruct (to_float t); [|reflexivity]. cbn [bind].
  rewrite IH by (intros; apply H; right; auto). reflexivity.
Qed.
Lemma v0_same sc gs pr consts a b degree d l u : valid_generators sc gs -> polynomial_program pr d -> (d <= Z.to_nat degree)%nat ->
  integral_bound_v0 sc gs Rdiv pr consts a b degree = Ok (l, u) -> l = u.
Proof.
  intros HG HP L H. unfold integral_bound_v0 in H. destruct (negb _) in H; [discriminate|]. apply bind_ok in H. destruct H as (bd & Hb & H).
  destruct (C70_polynomials_have_plain_coefficients _ _ _ _ _ _ _ _ _ _ _ _ (fun t e => valid_recip sc gs _ t e HG) HP L Hb) as [_ Pc].
  fold lof hif in H. rewrite (plain_lof_hif _ Pc) in H. apply bind_ok in H. destruct H as (ls & Hl & H). rewrite Hl in H. cbn [bind] in H. injection H as <- <-. reflexivity.
Qed.

(** bounding_integrals.ipynb:127-128: the bounds on the integral of a polynomial
    of degree at most [degree] are exact. *)
Theorem C70_integrals_of_polynomials_exact : forall sc gs pr consts degree d f a b l u,
  valid_generators sc gs -> (forall o, In o (gops (p_graph pr)) -> opaque_ok (odata o)) -> a <= b ->
  (forall x, a <= x <= b -> computes sc (Z.to_nat degree) pr consts x (f x)) -> ex_RInt f a b ->
  polynomial_program pr d -> (d <= Z.to_nat degree)%nat ->
  integral_bound_v0 sc gs Rdiv pr consts a b degree = Ok (l, u) ->
  l = RInt f a b /\ u = RInt f a b.
Proof.
  intros sc gs pr consts degree d f a b l u HG HO Hab HC HI HP L H. pose proof (C67_integral_bounds_one_cell _ _ _ _ _ _ _ _ _ _ HG HO Hab HC HI H) as Q.
  pose proof (v0_same _ _ _ _ _ _ _ _ _ _ HG HP L H). lra.
Qed.

(** bounding_integrals.ipynb:255-256: also with any number of grid cells. *)
Theorem C70_integrals_of_polynomials_exact_on_grids : forall sc gs pr consts degree num_grid_cells d f a b l u,
  valid_generators sc gs -> (forall o, In o (gops (p_graph pr)) -> opaque_ok (odata o)) -> a <= b -> (0 < num_grid_cells)%Z ->
  (forall x, a <= x <= b -> computes sc (Z.to_nat degree) pr consts x (f x)) -> ex_RInt f a b ->
  polynomial_program pr d -> (d <= Z.to_nat degree)%nat ->
  integral_bound_v1 sc gs Rdiv pr consts a b degree num_grid_cells = Ok (l, u) ->
  l = RInt f a b /\ u = RInt f a b.
Proof.
  intros sc gs pr consts degree ng d f a b l u HG HO Hab Hn HC HI HP L H. pose proof (C67_integral_bounds_grid _ _ _ _ _ _ _ _ _ _ _ HG HO Hab Hn HC HI H) as Q.
  enough (l = u) by lra. unfold integral_bound_v1 in H. destruct (_ =? _)%Z; [discriminate|].
  assert (G : forall (F : R * R -> nat -> res (R * R)), (forall s i s', F s i = Ok s' -> fst s = snd s -> fst s' = snd s') -> forall is' s s', foldM F s is' = Ok s' -> fst s = snd s -> fst s' = snd s').
  { intros F HF. induction is' as [|i is' IH]; intros s s' Hs Es; cbn [foldM] in Hs; [injection Hs as <-; auto|]. apply bind_ok in Hs. destruct Hs as (s1 & H1 & Hs). eauto. }
  refine (G _ _ _ _ (l, u) H eq_refl). intros s i s' Hs Es. cbv zeta in Hs. apply bind_ok in Hs. destruct Hs as ((l', u') & Hr & Hs). injection Hs as <-. cbn [fst snd].
  rewrite Es. f_equal. exact (v0_same _ _ _ _ _ _ _ _ _ _ HG HP L Hr).
Qed.

(** safe_learning_rates.ipynb:211-212: if the loss along the update direction is
    a polynomial of degree at most 2, the safe learning rate minimises it over
    the admissible rates. *)
Theorem C70_quadratic_losses_are_minimised : forall sc gs next_loss max_learning_rate eta h d,
  valid_generators sc gs -> (forall o, In o (gops (p_graph (fst next_loss))) -> opaque_ok (odata o)) -> 0 <= max_learning_rate ->
  (forall t, 0 <= t <= max_learning_rate -> computes sc 2 (fst next_loss) (snd next_loss) t (h t)) ->
  polynomial_program (fst next_loss) d -> (d <= 2)%nat ->
  safe_learning_rate sc gs Rdiv next_loss max_learning_rate = Ok eta ->
  0 <= eta <= max_learning_rate /\ forall t, 0 <= t <= max_learning_rate -> h eta <= h t.
Proof.
  intros sc gs nl m eta h d HG HO Hm HC HP L H. destruct (safe_rate_inv _ _ _ _ _ h HG HO Hm HC H) as (b & c0 & c1 & c2 & t2 & Hb & EC & S1 & E2 & -> & HU).
  destruct (C70_polynomials_have_plain_coefficients R NumR sc gs _ _ 2 _ _ _ b d (fun t e => valid_recip sc gs _ t e HG) HP L Hb) as [_ Pc]. rewrite EC in Pc.
  destruct (Pc c2 ltac:(simpl; auto)) as [c2' ->]. simpl in E2. subst t2.
  destruct (C68_minimize_1d_quadratic (tdata c1 []) (tdata c2' []) 0 m Hm) as (M1 & M2). split; auto. set (eta := minimize_1d_quadratic _ _ _ _) in *.
  assert (HE : forall t, 0 <= t <= m -> h t = tdata c0 [] + tdata c1 [] * t + tdata c2' [] * t ^ 2).
  { intros t Ht. destruct (scalar_bounds _ _ _ _ 2 _ 0 0 m b t (h t) HG HO (conj (Rle_refl 0) Hm) Ht (HC t Ht) Hb) as (E & _). rewrite EC in E.
    destruct E as (u0 & w0 & (p0 & C0 & W0 & A0 & H0 & ->) & (u1 & w1 & (p1 & C1 & W1 & A1 & H1 & ->) & (u3 & w3 & (p3 & C3 & W3 & A3 & H3 & ->) & Hw & ->) & ->) & ->).
    cbn [encl_from] in Hw. subst w3. rewrite !term_value_scalar. apply compat_nil_r in C0, C1, C3. subst p0 p1 p3.
    specialize (H0 [] ltac:(constructor)). specialize (H1 [] ltac:(constructor)). specialize (H3 [] ltac:(constructor)). simpl in H0, H1, H3 |- *.
    replace (A0 []) with (tdata c0 []) by lra. replace (A1 []) with (tdata c1 []) by lra. replace (A3 []) with (tdata c2' []) by lra. ring. }
  intros t Ht. rewrite (HE eta M1), (HE t Ht). specialize (M2 t Ht). lra.
Qed.
