(** C35 without the distance condition: the enclosures of the built-in
    functions are always returned, and are exact at the expansion point. *)
From Coq Require Import Reals Lra.
From Coquelicot Require Import Coquelicot.
From Verif Require Import Base Elementwise Primitive ElementSpec Analysis ElementwiseProofs
  PrimitiveProofs EvenHessian PropElementwise PropRange PropPrimitive.
Open Scope R_scope.

(** With or without the cap 1e-12 the ratio lies between its value at x0 and
    the quotient [rho]. *)
Lemma ratio_capped F x0 k sigma x : sigma x = Ok (F O x) ->
  exists r t, taylor_remainder_ratio x0 k sigma (taylor_list F x0 k) x = Ok r /\ 0 <= t <= 1 /\
    r = rho F x0 k x0 + t * (rho F x0 k x - rho F x0 k x0).
Proof.
  intros Hs. destruct (Req_EM_T x x0) as [->|Hne].
  - exists (rho F x0 k x0), 0. split; [apply ratio_rho; auto; left; auto|]. split; [lra|ring].
  - unfold taylor_remainder_ratio. rewrite taylor_list_length. replace (S k =? k + 1)%nat with true by (symmetry; apply Nat.eqb_eq; lia). simpl negb. cbv iota.
    rewrite Hs. cbn [bind]. rewrite taylor_nth, taylor_sum_horner, horner_taylor, pow_O, Rmult_1_l, rho_x0.
    assert (P := pow_nonzero (x - x0) k ltac:(lra)). assert (PA := Rabs_pos_lt _ P).
    set (w := (x - x0) ^ k) in *. set (m := Rmax (/ 10 ^ 12) (Rabs w)).
    assert (Hm : 0 < m) by (unfold m; apply Rlt_le_trans with (Rabs w); [auto|apply Rmax_r]).
    assert (Hwm : Rabs w <= m) by apply Rmax_r.
    eexists. exists (Rabs w / m). split; [reflexivity|]. split.
    + split; [apply Rlt_le; apply Rdiv_lt_0_compat; auto|]. apply (Rmult_le_reg_r m); auto. replace (Rabs w / m * m) with (Rabs w) by (field; lra). lra.
    + assert (E : rho F x0 k x = rem F x0 k x / w) by (unfold rho; destruct (Req_EM_T x x0); [congruence|reflexivity]).
      rewrite E. change (tpoly F x0 (S k) x) with (tpoly F x0 k x + F k x0 / INR (fact k) * w). unfold rem.
      assert (N := INR_fact_neq_0 k). assert (S1 := np_sign_mult w). assert (S2 : np_sign w * w = Rabs w).
      { clear -P. unfold np_sign, Rabs. destruct total_order_T as [[L|L]|L]; destruct Rcase_abs; lra. }
      rewrite <- S2. clearbody m w. field. repeat split; lra.
Qed.
Lemma between_lo c v t : 0 <= t <= 1 -> v <= c -> c + t * (v - c) <= c.
Proof. intros. assert (0 <= t * (c - v)) by (apply Rmult_le_pos; lra). lra. Qed.
Lemma between_hi c v t : 0 <= t <= 1 -> c <= v -> c <= c + t * (v - c).
Proof. intros. assert (0 <= t * (v - c)) by (apply Rmult_le_pos; lra). lra. Qed.

(** The final interval holds the k-th Taylor coefficient. *)
Definition centred (F : nat -> R -> R) (x0 : R) (k : nat) (e : senc) : Prop :=
  fst e = firstn k (taylor_list F x0 k) /\ fst (snd e) <= rho F x0 k x0 <= snd (snd e).
Lemma centred_value F x0 k e : centred F x0 k e -> length (fst e) = k /\ encl_value (fst e) (snd e) 0 (F 0%nat x0).
Proof.
  intros [E H]. rewrite E. split; [apply firstn_taylor_length|]. replace 0 with (x0 - x0) at 1 by ring. apply encl_value_rho. exact H.
Qed.

Lemma sharp_centred F k x0 a b sigma (inc : bool) : a <= x0 <= b ->
  sigma a = Ok (F 0%nat a) -> sigma b = Ok (F 0%nat b) ->
  exists e, sharp_enclosure_monotonic_derivative x0 k (a, b) sigma (taylor_list F x0 k) inc = Ok e /\
    ((if inc then increasing_on (seg a b) (rho F x0 k) else decreasing_on (seg a b) (rho F x0 k)) -> centred F x0 k e).
Proof.
  intros Hx Sa Sb. unfold sharp_enclosure_monotonic_derivative, sharp_ends.
  destruct (ratio_capped F x0 k sigma a Sa) as (ra & ta & Ha & Ta & Ea). destruct (ratio_capped F x0 k sigma b Sb) as (rb & tb & Hb & Tb & Eb).
  assert (La : seg a b a) by (unfold seg; lra). assert (Lb : seg a b b) by (unfold seg; lra). assert (L0 : seg a b x0) by exact Hx.
  destruct inc; rewrite Ha, Hb; cbn [bind]; (eexists; split; [reflexivity|]); intros HM; (split; [reflexivity|]); cbn [fst snd]; rewrite Ea, Eb;
    (split; [apply between_lo|apply between_hi]; auto; apply HM; auto; apply Hx).
Qed.

Lemma monotone_centred n k d x0 a b :
  supported n k = true -> domain n a -> a <= x0 <= b ->
  get_function_data (n, k) = Ok d -> mono_inc d || mono_dec d = true ->
  (if mono_inc d then increasing_on (seg a b) (rho (Fof n) x0 k)
   else decreasing_on (seg a b) (rho (Fof n) x0 k)) ->
  exists e, get_elementwise_taylor_enclosure (n, 0%nat) x0 (a, b) k = Ok e /\ centred (Fof n) x0 k e.
Proof.
  intros Sk Da Hx0 Hd Hm HM.
  assert (Dx : forall x, a <= x <= b -> domain n x).
  { intros x Hx. destruct n; simpl in *; auto; try exact I. unfold positive in *; lra. }
  destruct (Fof_ok n 0 (supported_le n 0 k (Nat.le_0_l k) Sk)) as (g & Hg & Hgx).
  unfold get_elementwise_taylor_enclosure. rewrite Hg. cbn [bind].
  unfold derivative_id. cbn [fst snd]. rewrite Nat.add_0_l, Hd. cbn [bind]. rewrite Hm.
  rewrite taylor_coeffs_ok by auto. cbn [bind].
  destruct (sharp_centred (Fof n) k x0 a b g (mono_inc d)) as (e & He & Hv); auto; try (apply Hgx, Dx; lra). eauto.
Qed.

Lemma fallback_centred n k d x0 a b lo hi :
  supported n k = true -> domain n a -> a <= x0 <= b ->
  get_function_data (n, k) = Ok d -> mono_inc d || mono_dec d = false ->
  (k =? 2)%nat && even_sym d = false ->
  deriv_chain (seg a b) (Fof n) k ->
  turns_at (Fof n k) (local_minima d) (local_maxima d) ->
  get_range (n, k) a b = Ok (lo, hi) -> (forall x, seg a b x -> lo <= Fof n k x <= hi) ->
  exists e, get_elementwise_taylor_enclosure (n, 0%nat) x0 (a, b) k = Ok e /\ centred (Fof n) x0 k e.
Proof.
  intros Sk Da Hx0 Hd Hm He HF HT Hr HR.
  assert (Dx : forall x, a <= x <= b -> domain n x).
  { intros x Hx. destruct n; simpl in *; auto; try exact I. unfold positive in *; lra. }
  destruct (Fof_ok n 0 (supported_le n 0 k (Nat.le_0_l k) Sk)) as (g & Hg & Hgx).
  unfold get_elementwise_taylor_enclosure. rewrite Hg. cbn [bind].
  unfold derivative_id. cbn [fst snd]. rewrite Nat.add_0_l, Hd. cbn [bind]. rewrite Hm, He.
  rewrite taylor_coeffs_ok by auto. cbn [bind].
  destruct (sharp_centred (Fof n) k x0 a b g false) as (ed & Hed & Cd); auto; try (apply Hgx, Dx; lra).
  destruct (sharp_centred (Fof n) k x0 a b g true) as (ei & Hei & Ci); auto; try (apply Hgx, Dx; lra).
  rewrite Hed, Hei. cbn [bind fst snd]. rewrite Hr. cbn [bind].
  assert (HD : convex (seg a b)) by (intros x y z Hx Hz L; unfold seg in *; lra).
  unfold bounded_derivative_enclosure. rewrite removelast_firstn_taylor, firstn_taylor_length, Nat.eqb_refl. cbn [negb bind].
  destruct (monotone_over d a b) as [dec inc] eqn:Mo.
  destruct (C25_monotone_over_sound (Fof n k) d a b dec inc) as [Md Mi]; auto; try lra.
  { intro H. apply orb_false_elim in Hm. destruct Hm; congruence. }
  { intro H. apply orb_false_elim in Hm. destruct Hm; congruence. }
  eexists. split; [reflexivity|]. split; [reflexivity|]. cbn [fst snd]. destruct dec; [|destruct inc].
  - apply Cd. exact (rho_decreasing k (seg a b) (Fof n) x0 HD Hx0 HF (Md eq_refl)).
  - apply Ci. exact (rho_increasing k (seg a b) (Fof n) x0 HD Hx0 HF (Mi eq_refl)).
  - rewrite rho_x0. pose proof (INR_fact_lt_0 k) as P. destruct (HR x0 Hx0). unfold Rdiv.
    split; apply Rmult_le_compat_r; auto; apply Rlt_le, Rinv_0_lt_compat; auto.
Qed.

Lemma even_centred F x0 a b sigma :
  deriv_chain everywhere F 2 -> even_function (F 2%nat) ->
  decreasing_on (fun x => 0 <= x) (F 2%nat) ->
  (forall x, sigma x = Ok (F 0%nat x)) -> a <= x0 <= b ->
  exists e, sharp_quadratic_enclosure_even_symmetric_hessian x0 (a, b) sigma (taylor_list F x0 2) = Ok e /\ centred F x0 2 e.
Proof.
  intros HF He Hd Hs L. unfold sharp_quadratic_enclosure_even_symmetric_hessian.
  destruct (ratio_capped F x0 2 sigma a (Hs a)) as (ra & ta & Ha & Ta & Ea). destruct (ratio_capped F x0 2 sigma b (Hs b)) as (rb & tb & Hb & Tb & Eb).
  destruct (ratio_capped F x0 2 sigma (Rmin (Rmax (- x0) a) b) (Hs _)) as (rc & tc & Hc & Tc & Ec).
  unfold np_clip. rewrite Hc, Ha, Hb. cbn [bind]. eexists. split; [reflexivity|]. split; [reflexivity|]. cbn [fst snd].
  pose proof (unimodal_bounds (rho F x0 2) (- x0) a b x0 (q_unimodal F x0 HF He Hd) L) as [U1 U2].
  split.
  - destruct (Rle_dec (rho F x0 2 a) (rho F x0 2 b)).
    + rewrite Rmin_left in U1 by auto. apply Rle_trans with ra; [apply Rmin_l|]. rewrite Ea. apply between_lo; auto.
    + rewrite Rmin_right in U1 by lra. apply Rle_trans with rb; [apply Rmin_r|]. rewrite Eb. apply between_lo; auto.
  - rewrite Ec. apply between_hi; auto.
Qed.

Theorem C35_always_returns_exact_at_x0 : forall n k x0 a b,
  builtin n k = true -> domain n a -> a <= x0 <= b ->
  exists e, get_elementwise_taylor_enclosure (n, 0%nat) x0 (a, b) k = Ok e /\ length (fst e) = k /\
    encl_value (fst e) (snd e) 0 (textbook n x0).
Proof.
  intros n k x0 a b Hb Da Hx0.
  assert (Sk : supported n k = true).
  { destruct n; simpl in *; auto; try discriminate; apply Nat.leb_le in Hb; apply Nat.leb_le; lia. }
  assert (HS : convex (seg a b)) by (intros x y z Hx Hz L; unfold seg in *; lra).
  assert (Sx0 : seg a b x0) by exact Hx0.
  assert (Dx : forall x, seg a b x -> domain n x).
  { intros x Hx. unfold seg in Hx. destruct n; simpl in *; auto; try exact I. unfold positive in *; lra. }
  assert (Main : exists e, get_elementwise_taylor_enclosure (n, 0%nat) x0 (a, b) k = Ok e /\ centred (Fof n) x0 k e).
  2:{ destruct Main as (e & He & Hv). exists e. split; [auto|]. rewrite <- Fof_0. apply centred_value. auto. }
  assert (Chain : n <> ABS -> deriv_chain (seg a b) (Fof n) k).
  { intros Hn i x Hi Hx. apply (Fof_chain n k Hn Sk); auto. }
  assert (Mon : forall d, n <> ABS -> get_function_data (n, k) = Ok d -> mono_inc d || mono_dec d = true ->
            exists e, get_elementwise_taylor_enclosure (n, 0%nat) x0 (a, b) k = Ok e /\ centred (Fof n) x0 k e).
  { intros d Hn Hd Hm. apply (monotone_centred n k d); auto.
    destruct (Fof_ok n k Sk) as (g & Hg & Hgx).
    destruct (C24_monotone_flags_true n k d g Hd Hg) as (MI & MD & _).
    destruct (mono_inc d) eqn:Ei.
    - apply rho_increasing; auto. intros x y Hx Hy L. apply (MI eq_refl x y); auto.
    - apply rho_decreasing; auto. intros x y Hx Hy L. simpl in Hm. apply (MD Hm x y); auto. }
  destruct n; simpl builtin in Hb; try discriminate; try apply Nat.leb_le in Hb.
  - destruct k as [|[|k]]; [| |lia].
    + destruct (C26_get_range_exact ABS 0 a b eq_refl I ltac:(lra)) as (g & lo & hi & Hg & Hr & HR & _).
      apply (fallback_centred ABS 0 (FData [0] [] false false true) x0 a b lo hi); auto.
      * intros i x Hi; lia.
      * exact abs_turns.
      * intros x Hx. destruct (HR x Hx) as (v & Hv & Hl). injection Hg as <-. injection Hv as <-. exact Hl.
    + apply (monotone_centred ABS 1 (FData [] [] false true false)); auto.
      intros x y Hx Hy L. apply abs_rho_increasing; auto; exact I.
  - apply (Mon (FData [] [] false true false)); auto; discriminate.
  - apply (Mon (FData [] [] (negb (Nat.even k)) (Nat.even k) false)); auto; try discriminate.
    simpl. destruct (Nat.even k); reflexivity.
  - destruct k as [|[|k]]; [| |lia].
    + apply (Mon (FData [] [] false true false)); auto; discriminate.
    + destruct (C26_get_range_exact SIGMOID 1 a b eq_refl I ltac:(lra)) as (g & lo & hi & Hg & Hr & HR & _).
      apply (fallback_centred SIGMOID 1 (FData [] [0] false false true) x0 a b lo hi); auto.
      * apply Chain; discriminate.
      * exact sigmoid1_turns.
      * intros x Hx. destruct (HR x Hx) as (v & Hv & Hl). injection Hg as <-.
        rewrite sigF_ok in Hv by lia. injection Hv as <-. exact Hl.
  - destruct k as [|[|[|k]]]; [| | |lia].
    + apply (Mon (FData [] [] false true false)); auto; discriminate.
    + apply (Mon (FData [] [] false true false)); auto; discriminate.
    + unfold get_elementwise_taylor_enclosure.
      cbn [get_function bind derivative_id fst snd Nat.add get_function_data softplus_data
           mono_inc mono_dec orb Nat.eqb even_sym andb].
      rewrite taylor_coeffs_ok by (reflexivity || exact I). cbn [bind].
      apply (even_centred (Fof SOFTPLUS)); auto; try lra.
      * exact (Fof_chain SOFTPLUS 2 ltac:(discriminate) eq_refl).
      * exact sigF1_even.
      * exact sigF1_dec.
Qed.
