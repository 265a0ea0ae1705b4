(** Property C80: the centre x0 need not lie in the trust region. *)
From Coq Require Import Reals Lra Psatz FunctionalExtensionality.
From Verif Require Import Base Tensor IntervalArith Polynomials Enclosure TensorLemmas Spec IntervalProofs GraphEditor GraphSpec Elementwise Primitive ElementSpec Analysis ElementwiseProofs PrimitiveProofs PropElementwise PropPrimitive PropPower PropPowerZero
  JaxBound JaxSpec JaxLemmas JaxOps JaxTable JaxTableProofs PropJax PropClear PropTable PropJaxLimits TotalSpec PropTotal ExamplesJax Outside.
Open Scope R_scope.

(** ** Soundness *)
(** As C46 and C47, without the hypothesis that [x0] lies in the region, for
    generators valid without it. *)
Theorem C80_sound_for_any_centre : forall sc gs pr consts max_deg propagate x0 region x b,
  (forall o, In o (gops (p_graph pr)) -> prim_gens_anywhere sc gs (odata o)) -> (forall o, In o (gops (p_graph pr)) -> opaque_ok (odata o)) ->
  in_box x0 region x ->
  supported sc (tshape x0) (Z.to_nat max_deg) pr consts x ->
  taylor_bounds sc gs pr consts max_deg propagate x0 region = Ok b ->
  exists y, meaning sc pr consts x = Some [y] /\ bounds_at b x y.
Proof.
  intros sc gs pr consts max_deg propagate x0 region x b HG HO B HS H.
  destruct (output_ok_any _ _ _ _ _ _ _ _ _ _ HG HO B HS H) as (y & k & HM & E0 & _ & NV & _ & HA). exists y. split; auto.
  eapply bounds_ok; eauto. apply B.
Qed.

(** ** Generators valid for any centre *)
Definition scalar_valid_anywhere (g : scalar_gen) (sigma : R -> res R) : Prop :=
  forall x0 a b k e, a <= b -> g x0 (a, b) k = Ok e ->
    length (fst e) = k /\ forall y v, a <= y <= b -> sigma y = Ok v -> encl_value (fst e) (snd e) (y - x0) v.

Lemma lift_valid_anywhere g sigma : scalar_valid_anywhere g sigma -> valid_gen_anywhere (lift_gen g) sigma.
Proof.
  intros HV S x0 l h d e S0 SL SH HB H. unfold lift_gen in H. rewrite S0, SL, SH in H.
  rewrite (proj2 (shape_eqb_eq S S) eq_refl) in H. cbn [andb] in H. apply bind_ok in H. destruct H as (es & Hes & H). injection H as <-.
  split; [rewrite app_length, map_length, seq_length; simpl; lia|]. split; [|split].
  - intros i c Hi Hc. rewrite nth_error_app1 in Hc by (rewrite map_length, seq_length; auto).
    rewrite nth_error_map in Hc. destruct (nth_error (seq 0 d) i); [|discriminate]. injection Hc as <-. eauto.
  - apply Forall_app. split; [|repeat constructor]. apply Forall_forall. intros c Hc. apply in_map_iff in Hc. destruct Hc as (i & <- & _). reflexivity.
  - intros s y v Hs Hy Hv. destruct (mapM_nth' _ _ _ _ _ Hes (all_idx_nth _ _ Hs)) as (b & Hb & Hg).
    destruct (HV _ _ _ _ _ (HB s Hs) Hg) as [Lb Eb]. destruct (Eb y v Hy Hv) as (c & Hc & ->).
    replace (horner (fst b ++ [c]) (y - tdata x0 s)) with ((y - tdata x0 s) ^ 0 * horner (fst b ++ [c]) (y - tdata x0 s)) by (simpl; ring).
    apply ew_from_list; auto.
    + rewrite <- Lb. clear -Hb. assert (E : forall (l : list R) n, Forall2 (fun (i : nat) w => nth_error (fst b) i = Some w) (seq n (length l)) l -> 
        Forall2 (fun t w => exists u, t = Arr u /\ tshape u = S /\ tdata u s = w) (map (fun i => Arr (of_list 0 S (map (fun e : senc => nth i (fst e) 0) es))) (seq n (length l))) l).
      { intros l n H. induction H; constructor; auto. eexists. split; [reflexivity|]. split; [reflexivity|].
        simpl. rewrite (nth_error_nth _ _ _ (map_nth_error (fun e : senc => nth x (fst e) 0) _ _ Hb)). apply nth_error_nth. auto. }
      apply E. clear. assert (G : forall (l p : list R), Forall2 (fun (i : nat) w => nth_error (p ++ l) i = Some w) (seq (length p) (length l)) l).
      { induction l; intros p; simpl; constructor; [rewrite nth_error_app2, Nat.sub_diag by lia; reflexivity|].
        specialize (IHl (p ++ [a])). rewrite app_length in IHl. simpl in IHl. rewrite Nat.add_1_r in IHl. rewrite <- app_assoc in IHl. exact IHl. }
      exact (G (fst b) []).
    + split; reflexivity.
    + simpl. rewrite (nth_error_nth _ _ _ (map_nth_error (fun e : senc => fst (snd e)) _ _ Hb)), (nth_error_nth _ _ _ (map_nth_error (fun e : senc => snd (snd e)) _ _ Hb)). exact Hc.
Qed.

(** A k-th derivative that is monotone on a domain holding the region and x0. *)
Lemma monotone_anywhere : forall n k d x0 a b,
  PropElementwise.supported n k = true -> domain n a -> domain n x0 -> a <= b ->
  get_function_data (n, k) = Ok d -> mono_inc d || mono_dec d = true ->
  (if mono_inc d then increasing_on (seg a b) (rho (Fof n) x0 k)
   else decreasing_on (seg a b) (rho (Fof n) x0 k)) ->
  cap_ok k x0 a -> cap_ok k x0 b ->
  exists e, get_elementwise_taylor_enclosure (n, 0%nat) x0 (a, b) k = Ok e /\
    valid_enclosure (Fof n 0) x0 (seg a b) k e.
Proof.
  intros n k d x0 a b Sk Da D0 Hab Hd Hm HM Ca Cb.
  assert (Dx : forall x, a <= x <= b -> domain n x).
  { intros x Hx. destruct n; simpl in *; auto; try exact I. unfold positive in *; lra. }
  destruct (Fof_ok n 0 (supported_le n 0 k (Nat.le_0_l k) Sk)) as (g & Hg & Hgx).
  unfold get_elementwise_taylor_enclosure. rewrite Hg. cbn [bind].
  unfold derivative_id. cbn [fst snd]. rewrite Nat.add_0_l, Hd. cbn [bind]. rewrite Hm.
  rewrite taylor_coeffs_ok by auto. cbn [bind].
  destruct (sharp_valid_of_rho (Fof n) k x0 a b g (mono_inc d)) as (e & He & _ & Hv); auto;
    try (apply Hgx, Dx; lra).
  eauto.
Qed.
Lemma smooth_monotone_anywhere : forall n k d x0 a b,
  n <> ABS -> PropElementwise.supported n k = true -> domain n a -> domain n x0 -> a <= b ->
  get_function_data (n, k) = Ok d -> mono_inc d || mono_dec d = true ->
  cap_ok k x0 a -> cap_ok k x0 b ->
  exists e, get_elementwise_taylor_enclosure (n, 0%nat) x0 (a, b) k = Ok e /\
    valid_enclosure (textbook n) x0 (seg a b) k e.
Proof.
  intros n k d x0 a b Hn Sk Da D0 Hab Hd Hm Ca Cb.
  assert (HD : convex (domain n)).
  { intros x y z Hx Hz L. destruct n; simpl in *; auto; try exact I. unfold positive in *; lra. }
  assert (Dx : forall x, seg a b x -> domain n x).
  { intros x Hx. unfold seg in Hx. destruct n; simpl in *; auto; try exact I. unfold positive in *; lra. }
  pose proof (Fof_chain n k Hn Sk) as Chain.
  destruct (Fof_ok n k Sk) as (g & Hg & Hgx).
  destruct (C24_monotone_flags_true n k d g Hd Hg) as (MI & MD & _).
  destruct (monotone_anywhere n k d x0 a b Sk Da D0 Hab Hd Hm) as (e & He & Hv); auto.
  - destruct (mono_inc d) eqn:Ei.
    + intros x y Hx Hy L. apply (rho_increasing k (domain n) (Fof n) x0); auto. intros u w Hu Hw L'. apply (MI eq_refl u w); auto.
    + intros x y Hx Hy L. simpl in Hm. apply (rho_decreasing k (domain n) (Fof n) x0); auto. intros u w Hu Hw L'. apply (MD Hm u w); auto.
  - exists e. split; auto. apply (valid_ext (Fof n 0)); [apply Fof_0|auto].
Qed.

Lemma exp_anywhere : scalar_valid_anywhere (checked (fun_guard EXP) exp_enclosure) (fun x => Ok (exp x)).
Proof.
  intros x0 a b k e Hab H. unfold checked in H. cbn [fst snd] in H.
  destruct (cap_okb k x0 a) eqn:Ca; [|discriminate]. destruct (cap_okb k x0 b) eqn:Cb; [|discriminate]. cbn [andb] in H.
  destruct (fun_guard EXP x0 (a, b) k); [|discriminate]. apply cap_okb_ok in Ca, Cb.
  destruct (smooth_monotone_anywhere EXP k (FData [] [] false true false) x0 a b) as (e' & He & Hv & Hv'); auto; try discriminate; try exact Logic.I.
  unfold exp_enclosure in H. rewrite He in H. injection H as <-. split; auto. intros y v Hy Hs. injection Hs as <-. exact (Hv' y Hy).
Qed.
Lemma log_anywhere : scalar_valid_anywhere (checked (fun_guard LOG) log_enclosure) (fun x => if Rlt_dec 0 x then Ok (ln x) else Err NonFinite).
Proof.
  intros x0 a b k e Hab H. unfold checked in H. cbn [fst snd] in H.
  destruct (cap_okb k x0 a) eqn:Ca; [|discriminate]. destruct (cap_okb k x0 b) eqn:Cb; [|discriminate]. cbn [andb] in H.
  destruct (fun_guard LOG x0 (a, b) k) eqn:G; [|discriminate]. apply cap_okb_ok in Ca, Cb.
  assert (Pa : 0 < a).
  { unfold fun_guard, exact_guard, rounded_guard in G. cbn in G. rewrite orb_false_r in G. destruct (Rlt_dec 0 a); auto. discriminate. }
  assert (P0 : 0 < x0).
  { unfold log_enclosure, get_elementwise_taylor_enclosure in H. cbn [get_function bind derivative_id fst snd Nat.add get_function_data] in H.
    replace (mono_inc _ || mono_dec _) with true in H by (simpl; destruct (Nat.even k); reflexivity).
    apply bind_ok in H. destruct H as (cs & Hcs & _). destruct (Rlt_dec 0 x0) as [|N]; auto. exfalso.
    unfold get_taylor_polynomial_coefficients in Hcs. revert Hcs. cbn -[Rlt_dec]. destruct (Rlt_dec 0 x0); [lra|]. cbn. discriminate. }
  destruct (smooth_monotone_anywhere LOG k (FData [] [] (negb (Nat.even k)) (Nat.even k) false) x0 a b) as (e' & He & Hv & Hv'); auto; try discriminate.
  { simpl. destruct (Nat.even k); reflexivity. }
  unfold log_enclosure in H. rewrite He in H. injection H as <-. split; auto. intros y v Hy Hs. destruct (Rlt_dec 0 y); [|discriminate]. injection Hs as <-. exact (Hv' y Hy).
Qed.

(** [abs]: degree 1 is monotone, degree 0 does not depend on the centre. *)
Lemma abs_anywhere : scalar_valid_anywhere (checked (fun_guard ABS) abs_enclosure) (fun x => Ok (Rabs x)).
Proof.
  intros x0 a b k e Hab H. unfold checked in H. cbn [fst snd] in H.
  destruct (cap_okb k x0 a) eqn:Ca; [|discriminate]. destruct (cap_okb k x0 b) eqn:Cb; [|discriminate]. cbn [andb] in H.
  destruct (fun_guard ABS x0 (a, b) k) eqn:G; [|discriminate]. apply cap_okb_ok in Ca, Cb.
  assert (Lk : (k <= 1)%nat).
  { unfold fun_guard, exact_guard, rounded_guard in G. rewrite andb_true_r in G. destruct k as [|[|k]]; try lia. cbn in G. discriminate. }
  destruct k as [|[|k]]; [| |lia].
  - (* degree 0: as with centre a *)
    assert (Ca' : cap_ok 0 a a) by (left; reflexivity). assert (Cb' : cap_ok 0 a b) by (right; simpl; lra).
    destruct (C35_builtin_enclosures_valid ABS 0 a a b eq_refl Logic.I ltac:(lra) Ca' Cb' ltac:(discriminate)) as (e' & He & Hv & Hv').
    assert (E : abs_enclosure x0 (a, b) 0%nat = get_elementwise_taylor_enclosure (ABS, 0%nat) a (a, b) 0%nat).
    { unfold abs_enclosure, get_elementwise_taylor_enclosure. cbn -[Rabs sharp_enclosure_monotonic_derivative bounded_derivative_enclosure get_range monotone_over].
      unfold sharp_enclosure_monotonic_derivative, sharp_ends, taylor_remainder_ratio. cbn -[Rabs bounded_derivative_enclosure get_range monotone_over np_sign Rmax].
      assert (K : forall u s, u / 1 + (s - (u / 1 * 1 + 0)) * np_sign 1 / Rmax (/ 10 ^ 12) (Rabs 1) = s).
      { intros u s. rewrite np_sign_pos by lra. rewrite (Rabs_right 1) by lra. rewrite Rmax_right; [field|]. simpl. lra. }
      cbn -[Rabs np_sign Rmax] in K. rewrite !K. reflexivity. }
    rewrite E, He in H. injection H as <-. split; auto. intros y v Hy Hs. injection Hs as <-. specialize (Hv' y Hy). destruct (fst e') as [|]; [|discriminate]. destruct Hv' as (c & Hc & Ev). exists c. split; auto. simpl in Ev |- *. rewrite Ev. ring.
  - destruct (monotone_anywhere ABS 1 (FData [] [] false true false) x0 a b) as (e' & He & Hv & Hv'); auto; try exact Logic.I.
    { intros x y Hx Hy L. apply abs_rho_increasing; auto; exact Logic.I. }
    unfold abs_enclosure in H. rewrite He in H. injection H as <-. split; auto. intros y v Hy Hs. injection Hs as <-. pose proof (Hv' y Hy) as K. rewrite Fof_0 in K. exact K.
Qed.

(** [x ** p] with p < 1 not an integer: sqrt, rsqrt, cbrt. *)
Lemma pow_anywhere p sigma : p < 1 -> (forall n, p <> IZR n) ->
  (forall y v, 0 < y -> sigma y = Ok v -> v = Rpower y p) ->
  (forall v, 0 < p -> sigma 0 = Ok v -> v = 0) ->
  scalar_valid_anywhere (checked_pow p) sigma.
Proof.
  intros Lp Np Hp Hz x0 a b k e Hab H. unfold checked_pow, checked in H. cbn [fst snd] in H.
  destruct (cap_okb k x0 a) eqn:Ca; [|discriminate]. destruct (cap_okb k x0 b) eqn:Cb; [|discriminate]. cbn [andb] in H.
  apply cap_okb_ok in Ca, Cb.
  destruct (pow_guard p x0 (a, b) k) eqn:G; [|discriminate]. unfold pow_guard in G. cbn [fst snd] in G.
  assert (NI : is_int p = None).
  { destruct (is_int p) as [n|] eqn:E; auto. apply is_int_Some in E. exfalso. exact (Np n E). }
  rewrite NI, andb_false_r, orb_false_r in G.
  assert (E0 : pow_gen p x0 (a, b) k = Ok e) by exact H. clear H.
  (* the coefficients exist *)
  assert (C0 : exists cs, pow_coeffs p x0 1 0 (S k) = Ok cs).
  { unfold pow_gen, pow_enclosure in E0. apply bind_ok in E0. destruct E0 as (r & Hr & _). apply bind_ok in Hr. destruct Hr as (cs & Hcs & _). eauto. }
  assert (P0 : 0 < x0 \/ x0 = 0 /\ 0 < p /\ k = 0%nat).
  { destruct (Rtotal_order 0 x0) as [L|[E|L]]; auto.
    - subst x0. right. split; auto. destruct C0 as [cs Hcs]. cbn [pow_coeffs] in Hcs. apply bind_ok in Hcs. destruct Hcs as (v & Hv & Hcs).
      assert (Hv' : py_pow 0 p = Ok v) by (rewrite <- Hv; f_equal; simpl; ring). clear Hv.
      assert (Pp : 0 < p).
      { unfold py_pow in Hv'. rewrite NI in Hv'. destruct (Rlt_dec 0 0); [lra|]. destruct (Req_EM_T 0 0); [|lra]. destruct (Rlt_dec 0 p); [auto|discriminate]. }
      split; auto. destruct k as [|k]; auto. exfalso. cbn [pow_coeffs] in Hcs. apply bind_ok in Hcs. destruct Hcs as (r & Hr & _). apply bind_ok in Hr. destruct Hr as (w & Hw & _).
      unfold py_pow in Hw. destruct (is_int (p - INR 1)) as [n|] eqn:En.
      + apply is_int_Some in En. apply (Np (n + 1)%Z). rewrite plus_IZR, <- En. simpl. ring.
      + destruct (Rlt_dec 0 0); [lra|]. destruct (Req_EM_T 0 0); [|lra]. simpl in Hw. destruct (Rlt_dec 0 (p - 1)); [lra|discriminate].
    - exfalso. destruct C0 as [cs Hcs]. cbn [pow_coeffs] in Hcs. apply bind_ok in Hcs. destruct Hcs as (v & Hv & _).
      assert (Hv' : py_pow x0 p = Ok v) by (rewrite <- Hv; f_equal; simpl; ring).
      unfold py_pow in Hv'. rewrite NI in Hv'. destruct (Rlt_dec 0 x0); [lra|]. destruct (Req_EM_T x0 0); [lra|]. discriminate. }
  assert (G' : 0 < a \/ 0 <= a /\ 0 < p).
  { destruct (Rlt_dec 0 a); auto. simpl in G. destruct (Rle_dec 0 a); [|discriminate]. destruct (Rlt_dec 0 p); [auto|discriminate]. }
  clear G. set (inc := (0 <=? sign_Z (falling p (k + 1)))%Z).
  assert (M : if inc then increasing_on positive (powF p k) else decreasing_on positive (powF p k)).
  { assert (Sgn : forall x, positive x -> if inc then 0 <= powF p (S k) x else powF p (S k) x <= 0).
    { intros x Hx. assert (Q := sign_is_nonneg _ _ (powF_sign p (S k) x Hx)).
      unfold inc. replace (k + 1)%nat with (S k) by lia. exact Q. }
    destruct inc.
    - apply increasing_of_derive with (powF p (S k)); auto using positive_convex.
      intros; apply powF_derive; auto.
    - apply decreasing_of_derive with (powF p (S k)); auto using positive_convex.
      intros; apply powF_derive; auto. }
  assert (Main : exists F, pow_coeffs p x0 1 0 (S k) = Ok (taylor_list F x0 k) /\ py_pow a p = Ok (F 0%nat a) /\ py_pow b p = Ok (F 0%nat b) /\
    (if inc then increasing_on (seg a b) (rho F x0 k) else decreasing_on (seg a b) (rho F x0 k)) /\
    forall y v, a <= y <= b -> sigma y = Ok v -> v = F 0%nat y).
  { destruct P0 as [P0|(-> & Pp & ->)].
    - destruct G' as [Pa|[Pa Pp]].
      + exists (powF p). split; [apply pow_coeffs_pos; auto|]. split; [rewrite powF_0; apply py_pow_pos; lra|]. split; [rewrite powF_0; apply py_pow_pos; lra|]. split.
        * assert (Px0 : positive x0) by exact P0. destruct inc; intros x y Hx Hy L.
          -- apply (rho_increasing k positive (powF p) x0 positive_convex Px0 (powF_chain p k) M); unfold seg, positive in *; lra.
          -- apply (rho_decreasing k positive (powF p) x0 positive_convex Px0 (powF_chain p k) M); unfold seg, positive in *; lra.
        * intros y v Hy Hv. rewrite powF_0. apply Hp; auto. lra.
      + exists (powF0 p). split; [rewrite taylor_powF0 by auto; apply pow_coeffs_pos; lra|]. split; [apply py_pow_power0; lra|]. split; [apply py_pow_power0; lra|]. split.
        * assert (Px : positive x0) by exact P0.
          assert (R : if inc then increasing_on (fun x => 0 <= x) (rho (powF0 p) x0 k) else decreasing_on (fun x => 0 <= x) (rho (powF0 p) x0 k)).
          { apply rho_powF0_monotone; auto. destruct inc.
            - exact (rho_increasing k positive (powF p) x0 positive_convex Px (powF_chain p k) M).
            - exact (rho_decreasing k positive (powF p) x0 positive_convex Px (powF_chain p k) M). }
          destruct inc; intros x y Hx Hy L; apply R; unfold seg in *; lra.
        * intros y v Hy Hv. change (powF0 p 0 y) with (power0 p y). unfold power0. destruct (Rlt_dec 0 y); [apply Hp; auto|]. assert (y = 0) by lra. subst y. auto.
    - (* degree 0, centre 0 *)
      assert (Pa : 0 <= a) by lra. exists (powF0 p). split; [|split; [apply py_pow_power0; lra|split; [apply py_pow_power0; lra|split]]].
      + cbn [pow_coeffs]. replace (p - INR 0) with p by (simpl; ring). rewrite py_pow_power0 by lra. cbn [bind]. unfold taylor_list. cbn. change (powF0 p 0 0) with (power0 p 0). do 2 f_equal. field.
      + assert (Ei : inc = true).
        { unfold inc. simpl. unfold sign_Z. destruct Rlt_dec as [|N]; [reflexivity|]. exfalso. apply N. lra. }
        rewrite Ei. assert (E : forall x, rho (powF0 p) 0 0 x = power0 p x).
        { intros x. unfold rho, rem. destruct Req_EM_T; cbn; change (powF0 p 0) with (power0 p); [subst; field|field]. }
        intros x y Hx Hy L. rewrite !E. unfold power0, seg in *. destruct (Rlt_dec 0 x), (Rlt_dec 0 y); try lra.
        * apply Rle_Rpower_l; lra.
        * left. apply exp_pos.
      + intros y v Hy Hv. change (powF0 p 0 y) with (power0 p y). unfold power0. destruct (Rlt_dec 0 y); [apply Hp; auto|]. assert (y = 0) by lra. subst y. auto. }
  destruct Main as (F & H1 & H2 & H3 & H4 & H5).
  assert (Pa : 0 <= a) by lra.
  unfold pow_gen in E0. rewrite (pow_enclosure_nonneg_branch F) in E0 by auto. fold inc in E0.
  destruct (sharp_valid_of_rho F k x0 a b (fun x => Ok (F 0%nat x)) inc) as (e' & He & _ & Hv & Hv'); auto.
  rewrite (sharp_of_rho F) in He by auto. injection He as <-. cbn [bind] in E0.
  destruct inc; cbn [bind] in E0; injection E0 as <-; (split; [apply firstn_taylor_length|]); intros y v Hy Hs; rewrite (H5 y v Hy Hs); exact (Hv' y Hy).
Qed.

(** ** The library's functions *)
(** The primitives concerned: those without a generator, and abs, exp, log,
    sqrt, rsqrt, cbrt. *)
Definition centre_free (p : prim R) : Prop :=
  match p with
  | elementwise_p (Abs | Exp | Log | Sqrt | Rsqrt | Cbrt) => True
  | elementwise_p _ => False
  | _ => no_generator p
  end.

Lemma centre_free_gens usr ugen p : centre_free p -> prim_gens_anywhere (scalarsR usr) (checked_generators ugen) p.
Proof.
  destruct p; simpl; try tauto; try (intros; lia). destruct e; try tauto; intros _; apply lift_valid_anywhere.
  - apply abs_anywhere.
  - apply pow_anywhere; [lra|exact not_int_third| |].
    + intros y v Hy H. injection H as <-. unfold cbrt. destruct Rlt_dec; [reflexivity|contradiction].
    + intros v _ H. injection H as <-. unfold cbrt. destruct (Rlt_dec 0 0); [lra|reflexivity].
  - apply exp_anywhere.
  - apply log_anywhere.
  - apply pow_anywhere; [lra|exact not_int_mhalf| |].
    + intros y v Hy H. simpl in H. destruct Rlt_dec; [|discriminate]. injection H as <-. rewrite Rpower_Ropp.
      replace (1 / 2) with (/ 2) by lra. rewrite Rpower_sqrt by auto. unfold Rdiv. ring.
    + intros v Hp. exfalso. lra.
  - apply pow_anywhere; [lra|exact not_int_half| |].
    + intros y v Hy H. simpl in H. destruct Rle_dec; [|discriminate]. injection H as <-.
      replace (1 / 2) with (/ 2) by lra. rewrite Rpower_sqrt by auto. reflexivity.
    + intros v Hp H. simpl in H. destruct Rle_dec; [|discriminate]. injection H as <-. apply sqrt_0.
Qed.

Theorem C80_centre_free_programs : forall usr ugen pr consts max_deg propagate x0 region x b,
  (forall o, In o (gops (p_graph pr)) -> centre_free (odata o)) -> (forall o, In o (gops (p_graph pr)) -> opaque_ok (odata o)) ->
  in_box x0 region x ->
  supported (scalarsR usr) (tshape x0) (Z.to_nat max_deg) pr consts x ->
  taylor_bounds (scalarsR usr) (checked_generators ugen) pr consts max_deg propagate x0 region = Ok b ->
  taylor_bounds (scalarsR usr) (generatorsR ugen) pr consts max_deg propagate x0 region = Ok b /\
  exists y, meaning (scalarsR usr) pr consts x = Some [y] /\ bounds_at b x y.
Proof.
  intros usr ugen pr consts max_deg propagate x0 region x b HC HO HB HS H. split.
  - exact (taylor_bounds_le _ _ _ (checked_generators_le ugen) _ _ _ _ _ _ _ H).
  - refine (C80_sound_for_any_centre _ _ _ _ _ _ _ _ _ _ _ _ HB HS H).
    + intros o Ho. apply centre_free_gens. auto.
    + exact HO.
Qed.

(** x * exp x + 1 at 0 over [2, 3], degree 2. *)
Example C80_nonvacuous : forall x, 2 <= x <= 3 -> exists b,
  (forall o, In o (gops (p_graph ex46)) -> centre_free (odata o)) /\
  ~ in_box (tscalar 0) (tscalar 2, tscalar 3) (tscalar 0) /\ in_box (tscalar 0) (tscalar 2, tscalar 3) (tscalar x) /\
  supported (scalarsR no_usr) [] 2 ex46 [] (tscalar x) /\
  taylor_bounds (scalarsR no_usr) (checked_generators no_ugen) ex46 [] 2 false (tscalar 0) (tscalar 2, tscalar 3) = Ok b /\
  length (tb_coefficients b) = 3%nat.
Proof.
  intros x Hx. assert (C1 : cap_ok 2 0 2) by (right; unfold Rabs; destruct Rcase_abs; simpl; lra).
  assert (C2 : cap_ok 2 0 3) by (right; unfold Rabs; destruct Rcase_abs; simpl; lra).
  assert (ER : exists cs l h, checked (fun_guard EXP) exp_enclosure 0 (2, 3) 2%nat = Ok (cs, (l, h)) /\ length cs = 2%nat).
  { destruct (smooth_monotone_anywhere EXP 2 (FData [] [] false true false) 0 2 3) as ([cs [l h]] & E & V & _); auto; try discriminate; try exact Logic.I; try lra.
    exists cs, l, h. split; [|exact V]. unfold checked. cbn [fst snd]. rewrite (cap_okb_true _ _ _ C1), (cap_okb_true _ _ _ C2). exact E. }
  destruct ER as (cs & l & h & E & L). destruct cs as [|c0 [|c1 [|]]]; try discriminate. clear L.
  assert (ET : exists b, taylor_bounds (scalarsR no_usr) (checked_generators no_ugen) ex46 [] 2 false (tscalar 0) (tscalar 2, tscalar 3) = Ok b /\ length (tb_coefficients b) = 3%nat).
  { cbv -[lift_gen checked exp_enclosure fun_guard Rplus Rmult Ropp Rminus Rinv Rdiv Rmin Rmax IZR Rlt_dec Rle Rlt].
    match goal with |- context [lift_gen ?g ?x (?l0, ?h0) 2%nat] =>
      assert (EL : lift_gen g x (l0, h0) 2%nat = Ok (map (fun i => Arr (of_list 0 [] [nth i [c0; c1] 0])) (seq 0 2) ++ [Ivl (of_list 0 [] [l]) (of_list 0 [] [h])])) end.
    { apply lift_scalar; try reflexivity. cbn [tdata].
      match goal with |- checked _ _ ?u (?v, ?w) _ = _ => replace u with 0 by reflexivity; replace v with 2; [replace w with 3; [exact E|]|] end; rcompute. }
    rewrite EL. clear EL. eexists. split; [lazy -[Rplus Rmult Ropp Rminus Rinv Rdiv Rmin Rmax IZR Rlt_dec Rle Rlt]; reflexivity|reflexivity]. }
  destruct ET as (b & Hb & Lb). exists b. split; [|split; [|split; [|split; [|split]]]]; auto.
  - intros o Ho. simpl in Ho. destruct Ho as [<-|[<-|[<-|[]]]]; exact Logic.I.
  - intros (_ & _ & _ & HB). specialize (HB [] ltac:(constructor)). simpl in HB. lra.
  - split; [reflexivity|]. split; [reflexivity|]. split; [reflexivity|]. intros J _. simpl. lra.
  - split; [reflexivity|]. split; [constructor|]. split; [intros; reflexivity|]. do 3 eexists. split; [reflexivity|]. split; [reflexivity|]. reflexivity.
Qed.

(** ** The other functions *)
(** 1 / x ** 2 at -1 over [1, 4], degree 1: at 2 the lower bound is 7/16. *)
Definition ex80 : program R :=
  Program (@Graph jvar (prim R) (list jvar) [Var 0] [Var 1] [Op (integer_pow_p (-2)) [Var 0] [Var 1]] []) (fun _ => tscalar 0).
Lemma ex80_gen : pow_gen (-2) (-1) (1, 4) 1%nat = Ok ([1], (0, - (3 / 16))).
Proof.
  assert (C1 : cap_ok 1 (-1) 1) by (right; unfold Rabs; destruct Rcase_abs; simpl; lra).
  assert (C2 : cap_ok 1 (-1) 4) by (right; unfold Rabs; destruct Rcase_abs; simpl; lra).
  unfold pow_gen. rewrite (pow_enclosure_nonneg_branch (zpowF (-2))); try lra; auto.
  - assert (E : sign_Z (falling (-2) (1 + 1)) = 1%Z).
    { unfold sign_Z. simpl. destruct Rlt_dec as [|N]; [reflexivity|]. exfalso. apply N. lra. }
    rewrite E. cbn [Z.leb Z.compare bind].
    assert (E0 : forall x, x <> 0 -> zpowF (-2) 0 x = / (x * x)) by (intros x Hx; unfold zpowF; simpl; field; auto).
    assert (ER : forall x, x <> -1 -> x <> 0 -> rho (zpowF (-2)) (-1) 1 x = (/ (x * x) - 1) / (x + 1)).
    { intros x Hx H0. unfold rho, rem. destruct Req_EM_T; [contradiction|]. cbn. rewrite !E0 by lra. field. split; lra. }
    rewrite !ER by lra. unfold taylor_list. cbn. rewrite E0 by lra.
    replace (/ (-1 * -1) / 1) with 1 by field. replace ((/ (1 * 1) - 1) / (1 + 1)) with 0 by field. replace ((/ (4 * 4) - 1) / (4 + 1)) with (- (3 / 16)) by field. reflexivity.
  - apply (pow_coeffs_int (-2)). lra.
  - etransitivity; [apply (py_pow_int _ (-2)); lra|]. f_equal. unfold zpowF. simpl. field.
  - etransitivity; [apply (py_pow_int _ (-2)); lra|]. f_equal. unfold zpowF. simpl. field.
Qed.
Theorem C80_outside_unsound_refuted : exists b l h y,
  ~ in_box (tscalar (-1)) (tscalar 1, tscalar 4) (tscalar (-1)) /\ in_box (tscalar (-1)) (tscalar 1, tscalar 4) (tscalar 2) /\
  taylor_bounds (scalarsR no_usr) (generatorsR no_ugen) ex80 [] 1 false (tscalar (-1)) (tscalar 1, tscalar 4) = Ok b /\
  meaning (scalarsR no_usr) ex80 [] (tscalar 2) = Some [y] /\
  tb_lower b (tscalar 2) = Ok l /\ tb_upper b (tscalar 2) = Ok h /\
  tdata y [] = 1 / 4 /\ tdata l [] = 7 / 16 /\ tdata h [] = 1.
Proof.
  assert (ET : exists b, taylor_bounds (scalarsR no_usr) (generatorsR no_ugen) ex80 [] 1 false (tscalar (-1)) (tscalar 1, tscalar 4) = Ok b /\
    tb_x0 b = tscalar (-1) /\ exists f0 fl fh, tb_coefficients b = [Arr (mkT [] f0); Ivl (mkT [] fl) (mkT [] fh)] /\ f0 [] = 1 /\ fl [] = - (3 / 16) /\ fh [] = 0).
  { cbv -[lift_gen pow_gen tb_x0 tb_coefficients Rplus Rmult Ropp Rminus Rinv Rdiv Rmin Rmax IZR Rlt_dec Rle Rlt].
    match goal with |- context [lift_gen ?g ?x (?l0, ?h0) 1%nat] =>
      assert (EL : lift_gen g x (l0, h0) 1%nat = Ok (map (fun i => Arr (of_list 0 [] [nth i [1] 0])) (seq 0 1) ++ [Ivl (of_list 0 [] [0]) (of_list 0 [] [- (3 / 16)])])) end.
    { apply lift_scalar; try reflexivity. cbn [tdata].
      match goal with |- pow_gen _ ?u (?v, ?w) _ = _ => replace u with (-1) by reflexivity; replace v with 1; [replace w with 4; [exact ex80_gen|]|] end; rcompute. }
    rewrite EL. clear EL. eexists. split; [lazy -[Rplus Rmult Ropp Rminus Rinv Rdiv Rmin Rmax IZR Rlt_dec Rle Rlt]; reflexivity|]. split; [reflexivity|]. do 3 eexists. split; [reflexivity|].
    split; [|split]; rcompute. }
  destruct ET as ([x0' rg cs] & Hb & Ex & f0 & fl & fh & Ec & E0 & El & Eh). simpl in Ex, Ec. subst x0' cs.
  match type of Hb with _ = Ok ?t => set (b := t) in * end.
  assert (EV : exists l h, tb_lower b (tscalar 2) = Ok l /\ tb_upper b (tscalar 2) = Ok h /\ tdata l [] = 7 / 16 /\ tdata h [] = 1).
  { subst b. clear Hb. do 2 eexists. split; [lazy -[Rplus Rmult Ropp Rminus Rinv Rdiv Rmin Rmax IZR Rlt_dec Rle Rlt]; reflexivity|]. split; [lazy -[Rplus Rmult Ropp Rminus Rinv Rdiv Rmin Rmax IZR Rlt_dec Rle Rlt]; reflexivity|].
    cbn [tdata]. split; rewrite ?E0, ?El, ?Eh; rcompute. }
  destruct EV as (l & h & Hl & Hh & Dl & Dh).
  assert (HM : exists y, meaning (scalarsR no_usr) ex80 [] (tscalar 2) = Some [y] /\ tdata y [] = 1 / 4).
  { cbv -[Rplus Rmult Ropp Rminus Rinv Rdiv IZR Req_EM_T powerRZ]. destruct (Req_EM_T 2 0); [exfalso; lra|]. eexists. split; [reflexivity|]. simpl. field. }
  destruct HM as (y & Hy & Dy). exists b, l, h, y.
  split; [|split; [|split; [exact Hb|auto 10]]].
  - intros (_ & _ & _ & HB). specialize (HB [] ltac:(constructor)). simpl in HB. lra.
  - split; [reflexivity|]. split; [reflexivity|]. split; [reflexivity|]. intros J _. simpl. lra.
Qed.
