(** Theorems about primitive_enclosures.py, elementwise part (C30-C35). *)
From Coq Require Import Reals Lra.
From Coquelicot Require Import Coquelicot.
From Verif Require Import Base Elementwise Primitive ElementSpec Analysis ElementwiseProofs
  PrimitiveProofs EvenHessian PropElementwise PropRange.
Open Scope R_scope.

(** * C30, C31 *)
Lemma sharp_of_rho : forall F k x0 a b sigma inc,
  sigma a = Ok (F 0%nat a) -> sigma b = Ok (F 0%nat b) ->
  cap_ok k x0 a -> cap_ok k x0 b ->
  sharp_enclosure_monotonic_derivative x0 k (a, b) sigma (taylor_list F x0 k) inc =
  Ok (firstn k (taylor_list F x0 k),
      if inc then (rho F x0 k a, rho F x0 k b) else (rho F x0 k b, rho F x0 k a)).
Proof.
  intros. unfold sharp_enclosure_monotonic_derivative, sharp_ends.
  destruct inc; rewrite (ratio_rho F x0 k sigma a), (ratio_rho F x0 k sigma b) by auto; reflexivity.
Qed.

Lemma sharp_valid_of_rho : forall F k x0 a b sigma (inc : bool),
  sigma a = Ok (F 0%nat a) -> sigma b = Ok (F 0%nat b) ->
  cap_ok k x0 a -> cap_ok k x0 b ->
  (if inc then increasing_on (seg a b) (rho F x0 k) else decreasing_on (seg a b) (rho F x0 k)) ->
  exists e, sharp_enclosure_monotonic_derivative x0 k (a, b) sigma (taylor_list F x0 k) inc = Ok e /\
    fst e = firstn k (taylor_list F x0 k) /\
    valid_enclosure (F 0%nat) x0 (seg a b) k e.
Proof.
  intros F k x0 a b sigma inc Sa Sb Ca Cb H. eexists. split; [apply sharp_of_rho; auto|].
  split; [reflexivity|]. split; [apply firstn_taylor_length|].
  intros x Hx. cbn [fst snd]. apply encl_value_rho.
  assert (Ha : seg a b a) by (unfold seg in *; lra). assert (Hb : seg a b b) by (unfold seg in *; lra).
  destruct Hx as [Hx1 Hx2]. assert (Hx : seg a b x) by (split; auto).
  destruct inc; simpl; split; apply H; auto.
Qed.

(** The enclosure is valid when the k-th derivative is monotone. *)
Theorem C30_sharp_enclosure_valid : forall D F k x0 a b sigma (increasing : bool),
  convex D -> D x0 -> D a -> D b ->
  deriv_chain D F k ->
  (if increasing then increasing_on D (F k) else decreasing_on D (F k)) ->
  (forall x, D x -> sigma x = Ok (F 0%nat x)) ->
  cap_ok k x0 a -> cap_ok k x0 b ->
  exists e, sharp_enclosure_monotonic_derivative x0 k (a, b) sigma (taylor_list F x0 k) increasing = Ok e /\
    valid_enclosure (F 0%nat) x0 (seg a b) k e.
Proof.
  intros D F k x0 a b sigma inc HD D0 Da Db HF HM Hs Ca Cb.
  destruct (sharp_valid_of_rho F k x0 a b sigma inc) as (e & He & _ & Hv); auto.
  - assert (G : forall x, seg a b x -> D x) by (intros x Hx; apply (HD a x b); auto).
    destruct inc.
    + assert (R := rho_increasing k D F x0 HD D0 HF HM). intros x y Hx Hy L. apply R; auto.
    + assert (R := rho_decreasing k D F x0 HD D0 HF HM). intros x y Hx Hy L. apply R; auto.
  - eauto.
Qed.

(** Any interval that makes a valid enclosure with the same lower coefficients
    contains the returned one, and at an end point other than x0 the
    corresponding bound reproduces sigma exactly.  (An end point equal to x0
    needs the k-th derivative to be continuous there.) *)
Theorem C31_sharp_enclosure_sharp : forall D F k x0 a b sigma (increasing : bool),
  convex D -> D x0 -> D a -> D b -> a < b -> a <= x0 <= b ->
  deriv_chain D F k ->
  (if increasing then increasing_on D (F k) else decreasing_on D (F k)) ->
  (forall x, D x -> sigma x = Ok (F 0%nat x)) ->
  continuity_pt (F k) x0 ->
  cap_ok k x0 a -> cap_ok k x0 b ->
  exists cs lo hi,
    sharp_enclosure_monotonic_derivative x0 k (a, b) sigma (taylor_list F x0 k) increasing = Ok (cs, (lo, hi)) /\
    (a <> x0 -> F 0%nat a = horner (cs ++ [if increasing then lo else hi]) (a - x0)) /\
    (b <> x0 -> F 0%nat b = horner (cs ++ [if increasing then hi else lo]) (b - x0)) /\
    forall lo' hi', valid_enclosure (F 0%nat) x0 (seg a b) k (cs, (lo', hi')) -> lo' <= lo /\ hi <= hi'.
Proof.
  intros D F k x0 a b sigma inc HD D0 Da Db Lab Hx0 HF HM Hs Hc Ca Cb.
  exists (firstn k (taylor_list F x0 k)).
  exists (if inc then rho F x0 k a else rho F x0 k b), (if inc then rho F x0 k b else rho F x0 k a).
  assert (G : forall x, seg a b x -> D x) by (intros x Hx; apply (HD a x b); auto).
  assert (Ex : forall x, F 0%nat x = horner (firstn k (taylor_list F x0 k) ++ [rho F x0 k x]) (x - x0)).
  { intro x. rewrite horner_app, horner_taylor_firstn, firstn_taylor_length. apply rho_taylor'. }
  split. { destruct inc; apply (sharp_of_rho F); auto. }
  split; [intros _; rewrite (Ex a) at 1; destruct inc; reflexivity|].
  split; [intros _; rewrite (Ex b) at 1; destruct inc; reflexivity|].
  intros lo' hi' [_ Hv].
  assert (All : forall x, seg a b x -> x <> x0 -> lo' <= rho F x0 k x <= hi').
  { intros x Hx Hne. apply (encl_value_rho_inv F x0 k x (lo', hi')); auto. }
  (* values near x0 *)
  assert (At0 : lo' <= rho F x0 k x0 <= hi').
  { assert (Near : forall eps, 0 < eps -> exists x, seg a b x /\ x <> x0 /\
              Rabs (rho F x0 k x - rho F x0 k x0) <= eps / INR (fact k)).
    { intros eps He. destruct (Hc eps He) as (al & Hal & Hcl).
      assert (Hpt : exists x, seg a b x /\ x <> x0 /\ Rabs (x - x0) < al).
      { destruct (Rlt_dec x0 b) as [Lb|Lb].
        - exists (Rmin b (x0 + al / 2)). unfold seg, Rmin. destruct Rle_dec; rewrite Rabs_right; lra.
        - exists (Rmax a (x0 - al / 2)). unfold seg, Rmax. destruct Rle_dec; rewrite Rabs_left; lra. }
      destruct Hpt as (x & Hx & Hne & Hd). exists x. split; [auto|split; [auto|]].
      destruct (rho_lagrange k D F x0 x HD D0 (G x Hx) HF) as (xi & Hxi & Dxi & E).
      rewrite E, rho_x0.
      replace (F k xi / INR (fact k) - F k x0 / INR (fact k)) with ((F k xi - F k x0) * / INR (fact k))
        by (unfold Rdiv; ring).
      rewrite Rabs_mult, (Rabs_right (/ _)) by (left; apply Rinv_0_lt_compat, INR_fact_pos).
      apply Rmult_le_compat_r; [left; apply Rinv_0_lt_compat, INR_fact_pos|].
      destruct (Req_EM_T xi x0) as [->|Nx].
      - replace (F k x0 - F k x0) with 0 by ring. rewrite Rabs_R0. lra.
      - left. apply (Hcl xi). split; [split; [exact I|auto]|].
        simpl. unfold R_dist. apply Rle_lt_trans with (Rabs (x - x0)); [|auto].
        revert Hxi. unfold Rmin, Rmax. destruct (Rle_dec x0 x); intro.
        + rewrite !Rabs_right by lra. lra.
        + rewrite !Rabs_left1 by lra. lra. }
    assert (P := INR_fact_pos k).
    split; apply Rnot_lt_le; intro Hlt.
    - destruct (Near ((lo' - rho F x0 k x0) / 2 * INR (fact k))) as (x & Hx & Hne & Hd).
      { apply Rmult_lt_0_compat; lra. }
      replace ((lo' - rho F x0 k x0) / 2 * INR (fact k) / INR (fact k)) with ((lo' - rho F x0 k x0) / 2)
        in Hd by (field; lra).
      assert (A := All x Hx Hne). apply Rabs_le_between in Hd. lra.
    - destruct (Near ((rho F x0 k x0 - hi') / 2 * INR (fact k))) as (x & Hx & Hne & Hd).
      { apply Rmult_lt_0_compat; lra. }
      replace ((rho F x0 k x0 - hi') / 2 * INR (fact k) / INR (fact k)) with ((rho F x0 k x0 - hi') / 2)
        in Hd by (field; lra).
      assert (A := All x Hx Hne). apply Rabs_le_between in Hd. lra. }
  assert (Every : forall x, seg a b x -> lo' <= rho F x0 k x <= hi').
  { intros x Hx. destruct (Req_EM_T x x0) as [->|Hne]; auto. }
  assert (Sa : seg a b a) by (unfold seg; lra). assert (Sb : seg a b b) by (unfold seg; lra).
  assert (A := Every a Sa). assert (B := Every b Sb). destruct inc; lra.
Qed.

(** The hypotheses are met, e.g. by exp of every degree on the whole line. *)
Lemma everywhere_convex : convex everywhere.
Proof. intros ? ? ? _ _ _; exact I. Qed.
Example C30_nonvacuous : forall k,
  convex everywhere /\ deriv_chain everywhere (Fof EXP) k /\ increasing_on everywhere (Fof EXP k) /\
  continuity_pt (Fof EXP k) 1 /\ cap_ok k 1 0 /\ cap_ok k 1 2.
Proof.
  intro k. split; [apply everywhere_convex|]. split; [apply (Fof_chain EXP); [discriminate|reflexivity]|].
  split; [exact exp_inc|]. split; [apply derivable_continuous_pt, derivable_pt_exp|].
  split; right; [rewrite Rabs_left by lra|rewrite Rabs_right by lra].
  - replace (- (0 - 1)) with 1 by ring. rewrite pow1. lra.
  - replace (2 - 1) with 1 by ring. rewrite pow1. lra.
Qed.

(** * C32 *)
(** Closer to x0 than the cap, the enclosure of exp is wrong at the end point. *)
Theorem C32_cap_makes_exp_enclosure_invalid_refuted : forall b, 0 < b < / 10 ^ 12 ->
  exists e, exp_enclosure 0 (0, b) 1 = Ok e /\ ~ encl_value (fst e) (snd e) (b - 0) (exp b).
Proof.
  intros b Hb.
  unfold exp_enclosure, get_elementwise_taylor_enclosure.
  cbn [get_function bind derivative_id fst snd get_function_data mono_inc mono_dec orb].
  rewrite taylor_coeffs_ok by (reflexivity || exact I). cbn [bind].
  unfold sharp_enclosure_monotonic_derivative, sharp_ends.
  rewrite (ratio_rho (Fof EXP) 0 1 (fun x => Ok (exp x)) 0) by (reflexivity || (left; reflexivity)).
  cbn [bind].
  eexists. split.
  { unfold taylor_remainder_ratio at 1. rewrite taylor_list_length. cbn [Nat.eqb Nat.add negb bind].
    reflexivity. }
  cbn [fst snd]. intro H.
  apply (encl_value_rho_inv (Fof EXP)) in H; [|lra]. cbn [fst snd] in H. destruct H as [_ H].
  rewrite taylor_sum_horner, horner_taylor, taylor_nth in H.
  unfold rho, rem in H. destruct (Req_EM_T b 0); [lra|].
  simpl tpoly in H. simpl Fof in H. rewrite exp_0 in H. simpl pow in H. simpl INR in H.
  replace ((b - 0) * 1) with b in H by ring.
  rewrite np_sign_pos in H by lra. rewrite (Rabs_right b) in H by lra.
  rewrite Rmax_left in H by (simpl in Hb; lra).
  assert (E : 1 + b < exp b) by (apply exp_ineq1; lra).
  set (r := exp b - 1 - b) in *.
  assert (Hr : 0 < r) by (unfold r; lra).
  replace (exp b - (0 + 1 / 1 * 1)) with (r + b) in H by (unfold r; field).
  replace (1 / 1 + (exp b - 1 * (0 + 1 / 1 * 1 + 1 / 1 * b)) * 1 / / (10 * (10 * (10 * (10 * (10 * (10 * (10 * (10 * (10 * (10 * (10 * (10 * 1)))))))))))))
    with (1 + r * 1000000000000) in H by (unfold r; field).
  assert (K : r / b <= r * 1000000000000).
  { replace ((r + b) / b) with (1 + r / b) in H by (field; lra). lra. }
  assert (K2 : r * 1000000000000 < r / b).
  { apply Rmult_lt_compat_l; [auto|].
    replace 1000000000000 with (/ / 10 ^ 12) by (simpl; field).
    apply Rinv_lt_contravar; [|lra]. apply Rmult_lt_0_compat; lra. }
  lra.
Qed.

(** * C33 *)
Theorem C33_bounded_derivative_enclosure_valid : forall D F k x0 lo hi,
  convex D -> D x0 -> deriv_chain D F k ->
  (forall x, D x -> lo <= F k x <= hi) ->
  exists e, bounded_derivative_enclosure k (firstn k (taylor_list F x0 k)) (lo, hi) = Ok e /\
    valid_enclosure (F 0%nat) x0 D k e.
Proof.
  intros D F k x0 lo hi HD D0 HF HB. unfold bounded_derivative_enclosure.
  rewrite firstn_taylor_length, Nat.eqb_refl. cbn [negb fst snd]. eexists. split; [reflexivity|].
  split; [cbn [fst]; rewrite firstn_firstn, Nat.min_id; apply firstn_taylor_length|].
  intros x Hx. cbn [fst snd]. rewrite firstn_firstn, Nat.min_id. apply encl_value_rho. cbn [fst snd].
  destruct (rho_lagrange k D F x0 x HD D0 Hx HF) as (xi & _ & Dxi & ->).
  assert (P := Rinv_0_lt_compat _ (INR_fact_pos k)). specialize (HB xi Dxi).
  split; apply Rmult_le_compat_r; lra.
Qed.
Theorem C33_bounded_derivative_enclosure_arity : forall k cs bound,
  length cs <> k -> bounded_derivative_enclosure k cs bound = Err ValueError.
Proof.
  intros. unfold bounded_derivative_enclosure.
  apply Nat.eqb_neq in H. rewrite H. reflexivity.
Qed.
Example C33_nonvacuous :
  deriv_chain everywhere (Fof SIGMOID) 1 /\ forall x, everywhere x -> 0 <= Fof SIGMOID 1 x <= 1.
Proof.
  split; [exact (Fof_chain SIGMOID 1 ltac:(discriminate) eq_refl)|].
  intros x _. simpl. unfold sigF, sig_poly. assert (A := sg_pos x). assert (B := sg_lt1 x). nra.
Qed.

(** * C34 *)
Theorem C34_even_hessian_enclosure_valid : forall F x0 a b sigma,
  deriv_chain everywhere F 2 -> even_function (F 2%nat) ->
  decreasing_on (fun x => 0 <= x) (F 2%nat) ->
  (forall x, sigma x = Ok (F 0%nat x)) ->
  a <= b ->
  cap_ok 2 x0 a -> cap_ok 2 x0 b -> cap_ok 2 x0 (Rmin (Rmax (- x0) a) b) ->
  exists e, sharp_quadratic_enclosure_even_symmetric_hessian x0 (a, b) sigma (taylor_list F x0 2) = Ok e /\
    valid_enclosure (F 0%nat) x0 (seg a b) 2 e.
Proof.
  intros F x0 a b sigma HF He Hd Hs L Ca Cb Cc.
  unfold sharp_quadratic_enclosure_even_symmetric_hessian.
  rewrite (ratio_rho F x0 2 sigma a), (ratio_rho F x0 2 sigma b) by auto.
  unfold np_clip. rewrite (ratio_rho F x0 2 sigma (Rmin (Rmax (- x0) a) b)) by auto.
  cbn [bind]. eexists. split; [reflexivity|].
  split; [apply firstn_taylor_length|].
  intros x Hx. cbn [fst snd]. apply encl_value_rho. cbn [fst snd].
  apply unimodal_bounds; [apply q_unimodal; auto|exact Hx].
Qed.
Example C34_nonvacuous :
  deriv_chain everywhere (Fof SOFTPLUS) 2 /\ even_function (Fof SOFTPLUS 2) /\
  decreasing_on (fun x => 0 <= x) (Fof SOFTPLUS 2) /\
  cap_ok 2 1 (-3) /\ cap_ok 2 1 2 /\ cap_ok 2 1 (Rmin (Rmax (- 1) (-3)) 2).
Proof.
  split; [exact (Fof_chain SOFTPLUS 2 ltac:(discriminate) eq_refl)|].
  split; [exact sigF1_even|]. split; [exact sigF1_dec|].
  rewrite Rmax_left, Rmin_left by lra.
  repeat split; right; unfold Rabs; destruct Rcase_abs; simpl; lra.
Qed.

(** * C35 *)
Definition builtin (n : fname) (k : nat) : bool :=
  match n with
  | EXP | LOG => true
  | ABS | SIGMOID => k <=? 1
  | SOFTPLUS => k <=? 2
  | SWISH => false
  end%nat.

(** The last branch of [get_elementwise_taylor_enclosure]: exact extrema and an
    exact range make a valid enclosure. *)
Lemma fallback_valid : forall n k d x0 a b lo hi,
  supported n k = true -> domain n a -> a <= x0 <= b ->
  get_function_data (n, k) = Ok d -> mono_inc d || mono_dec d = false ->
  (k =? 2)%nat && even_sym d = false ->
  deriv_chain (seg a b) (Fof n) k ->
  turns_at (Fof n k) (local_minima d) (local_maxima d) ->
  get_range (n, k) a b = Ok (lo, hi) -> (forall x, seg a b x -> lo <= Fof n k x <= hi) ->
  cap_ok k x0 a -> cap_ok k x0 b ->
  exists e, get_elementwise_taylor_enclosure (n, 0%nat) x0 (a, b) k = Ok e /\
    valid_enclosure (Fof n 0) x0 (seg a b) k e.
Proof.
  intros n k d x0 a b lo hi Sk Da Hx0 Hd Hm He HF HT Hr HR Ca Cb.
  assert (Dx : forall x, a <= x <= b -> domain n x).
  { intros x Hx. destruct n; simpl in *; auto; try exact I. unfold positive in *; lra. }
  destruct (Fof_ok n 0 (supported_le n 0 k (Nat.le_0_l k) Sk)) as (g & Hg & Hgx).
  unfold get_elementwise_taylor_enclosure. rewrite Hg. cbn [bind].
  unfold derivative_id. cbn [fst snd]. rewrite Nat.add_0_l, Hd. cbn [bind]. rewrite Hm, He.
  rewrite taylor_coeffs_ok by auto. cbn [bind].
  rewrite !(sharp_of_rho (Fof n)) by (auto; apply Hgx, Dx; lra). cbn [bind fst snd].
  rewrite Hr. cbn [bind].
  assert (HD : convex (seg a b)) by (intros x y z Hx Hz L; unfold seg in *; lra).
  destruct (C33_bounded_derivative_enclosure_valid (seg a b) (Fof n) k x0 lo hi) as (fb & Efb & Hfb); auto.
  rewrite removelast_firstn_taylor, Efb. cbn [bind].
  destruct (monotone_over d a b) as [dec inc] eqn:Mo.
  destruct (C25_monotone_over_sound (Fof n k) d a b dec inc) as [Md Mi]; auto; try lra.
  { intro H. apply orb_false_elim in Hm. destruct Hm; congruence. }
  { intro H. apply orb_false_elim in Hm. destruct Hm; congruence. }
  assert (Sa : seg a b a) by (unfold seg; lra). assert (Sb : seg a b b) by (unfold seg; lra).
  eexists. split; [reflexivity|].
  split; [apply firstn_taylor_length|].
  intros x Hx. cbn [fst snd]. destruct dec; [|destruct inc].
  - apply encl_value_rho. cbn [fst snd].
    assert (Rd := rho_decreasing k (seg a b) (Fof n) x0 HD Hx0 HF (Md eq_refl)).
    split; apply Rd; auto; apply Hx.
  - apply encl_value_rho. cbn [fst snd].
    assert (Ri := rho_increasing k (seg a b) (Fof n) x0 HD Hx0 HF (Mi eq_refl)).
    split; apply Ri; auto; apply Hx.
  - destruct Hfb as [_ Hfb]. specialize (Hfb x Hx).
    unfold bounded_derivative_enclosure in Efb. rewrite firstn_taylor_length, Nat.eqb_refl in Efb.
    cbn [negb] in Efb. injection Efb as <-. cbn [fst snd] in *.
    rewrite firstn_firstn, Nat.min_id in Hfb. exact Hfb.
Qed.

Lemma abs_rho_increasing : forall x0, increasing_on everywhere (rho (Fof ABS) x0 1).
Proof.
  intros x0.
  assert (Ev : forall x, x <> x0 -> rho (Fof ABS) x0 1 x = (Rabs x - Rabs x0) / (x - x0)).
  { intros x Hne. unfold rho, rem. destruct Req_EM_T; [congruence|]. simpl. field. lra. }
  assert (E0 : rho (Fof ABS) x0 1 x0 = np_sign x0) by (rewrite rho_x0; simpl; field).
  destruct (Rtotal_order x0 0) as [Hn|[Hz|Hp]].
  - assert (A : forall x, x <= 0 -> rho (Fof ABS) x0 1 x = -1).
    { intros x Hx. destruct (Req_EM_T x x0) as [->|Ne]; [rewrite E0; apply np_sign_neg; auto|].
      rewrite Ev by auto. rewrite !Rabs_left1 by lra. field. lra. }
    assert (B : forall x, 0 < x -> rho (Fof ABS) x0 1 x = 1 + 2 * x0 / (x - x0)).
    { intros x Hx. rewrite Ev by lra. rewrite (Rabs_left x0), (Rabs_right x) by lra. field. lra. }
    assert (C : forall x, 0 < x -> -1 <= 1 + 2 * x0 / (x - x0)).
    { intros x Hx. assert (2 * (- x0) / (x - x0) <= 2); [|replace (2 * x0 / (x - x0)) with (- (2 * (- x0) / (x - x0))) by (field; lra); lra].
      apply (Rmult_le_reg_r (x - x0)); [lra|]. replace (2 * - x0 / (x - x0) * (x - x0)) with (2 * - x0) by (field; lra). lra. }
    intros x y _ _ L. destruct (Rle_lt_dec x 0); destruct (Rle_lt_dec y 0); try lra.
    + rewrite !A by auto; lra.
    + rewrite A, B by auto. apply C; auto.
    + rewrite !B by auto. assert (/ (y - x0) <= / (x - x0)) by (apply Rinv_le_contravar; lra).
      unfold Rdiv. assert (0 <= (- x0) * (/ (x - x0) - / (y - x0))) by (apply Rmult_le_pos; lra). lra.
  - subst x0. assert (A : forall x, rho (Fof ABS) 0 1 x = np_sign x).
    { intro x. destruct (Req_EM_T x 0) as [->|Ne]; [auto|]. rewrite Ev by auto.
      rewrite Rabs_R0. destruct (Rlt_dec x 0).
      - rewrite np_sign_neg, Rabs_left by auto. field. auto.
      - rewrite np_sign_pos, Rabs_right by lra. field. auto. }
    intros x y _ _ L. rewrite !A. apply sign_inc; auto; exact I.
  - assert (A : forall x, 0 <= x -> rho (Fof ABS) x0 1 x = 1).
    { intros x Hx. destruct (Req_EM_T x x0) as [->|Ne]; [rewrite E0; apply np_sign_pos; auto|].
      rewrite Ev by auto. rewrite !Rabs_right by lra. field. lra. }
    assert (B : forall x, x < 0 -> rho (Fof ABS) x0 1 x = -1 + 2 * x0 / (x0 - x)).
    { intros x Hx. rewrite Ev by lra. rewrite (Rabs_left x), (Rabs_right x0) by lra. field. lra. }
    assert (C : forall x, x < 0 -> -1 + 2 * x0 / (x0 - x) <= 1).
    { intros x Hx. assert (2 * x0 / (x0 - x) <= 2); [|lra].
      apply (Rmult_le_reg_r (x0 - x)); [lra|]. replace (2 * x0 / (x0 - x) * (x0 - x)) with (2 * x0) by (field; lra). lra. }
    intros x y _ _ L. destruct (Rlt_le_dec x 0); destruct (Rlt_le_dec y 0); try lra.
    + rewrite !B by auto. assert (/ (x0 - x) <= / (x0 - y)) by (apply Rinv_le_contravar; lra).
      unfold Rdiv. assert (0 <= x0 * (/ (x0 - y) - / (x0 - x))) by (apply Rmult_le_pos; lra). lra.
    + rewrite B, A by auto. apply C; auto.
    + rewrite !A by auto; lra.
Qed.

Lemma monotone_branch_valid : forall n k d x0 a b,
  supported n k = true -> domain n a -> a <= x0 <= b ->
  get_function_data (n, k) = Ok d -> mono_inc d || mono_dec d = true ->
  (if mono_inc d then increasing_on (seg a b) (rho (Fof n) x0 k)
   else decreasing_on (seg a b) (rho (Fof n) x0 k)) ->
  cap_ok k x0 a -> cap_ok k x0 b ->
  exists e, get_elementwise_taylor_enclosure (n, 0%nat) x0 (a, b) k = Ok e /\
    valid_enclosure (Fof n 0) x0 (seg a b) k e.
Proof.
  intros n k d x0 a b Sk Da Hx0 Hd Hm HM Ca Cb.
  assert (Dx : forall x, a <= x <= b -> domain n x).
  { intros x Hx. destruct n; simpl in *; auto; try exact I. unfold positive in *; lra. }
  destruct (Fof_ok n 0 (supported_le n 0 k (Nat.le_0_l k) Sk)) as (g & Hg & Hgx).
  unfold get_elementwise_taylor_enclosure. rewrite Hg. cbn [bind].
  unfold derivative_id. cbn [fst snd]. rewrite Nat.add_0_l, Hd. cbn [bind]. rewrite Hm.
  rewrite taylor_coeffs_ok by auto. cbn [bind].
  destruct (sharp_valid_of_rho (Fof n) k x0 a b g (mono_inc d)) as (e & He & _ & Hv); auto;
    try (apply Hgx, Dx; lra).
  eauto.
Qed.

Lemma valid_ext : forall f g x0 D k e, (forall x, f x = g x) ->
  valid_enclosure f x0 D k e -> valid_enclosure g x0 D k e.
Proof. intros f g x0 D k e E [H1 H2]. split; [auto|]. intros x Hx. rewrite <- E. auto. Qed.

Theorem C35_builtin_enclosures_valid : forall n k x0 a b,
  builtin n k = true -> domain n a -> a <= x0 <= b ->
  cap_ok k x0 a -> cap_ok k x0 b ->
  (n = SOFTPLUS -> k = 2%nat -> cap_ok k x0 (Rmin (Rmax (- x0) a) b)) ->
  exists e, get_elementwise_taylor_enclosure (n, 0%nat) x0 (a, b) k = Ok e /\
    valid_enclosure (textbook n) x0 (seg a b) k e.
Proof.
  intros n k x0 a b Hb Da Hx0 Ca Cb Cc.
  assert (Sk : supported n k = true).
  { destruct n; simpl in *; auto; try discriminate; apply Nat.leb_le in Hb; apply Nat.leb_le; lia. }
  assert (HS : convex (seg a b)) by (intros x y z Hx Hz L; unfold seg in *; lra).
  assert (Sx0 : seg a b x0) by exact Hx0.
  assert (Dx : forall x, seg a b x -> domain n x).
  { intros x Hx. unfold seg in Hx. destruct n; simpl in *; auto; try exact I. unfold positive in *; lra. }
  assert (Main : exists e, get_elementwise_taylor_enclosure (n, 0%nat) x0 (a, b) k = Ok e /\
            valid_enclosure (Fof n 0) x0 (seg a b) k e).
  2:{ destruct Main as (e & He & Hv). exists e. split; [auto|]. apply (valid_ext (Fof n 0)); [apply Fof_0|auto]. }
  assert (Chain : n <> ABS -> deriv_chain (seg a b) (Fof n) k).
  { intros Hn i x Hi Hx. apply (Fof_chain n k Hn Sk); auto. }
  assert (Mon : forall d, n <> ABS -> get_function_data (n, k) = Ok d -> mono_inc d || mono_dec d = true ->
            exists e, get_elementwise_taylor_enclosure (n, 0%nat) x0 (a, b) k = Ok e /\
            valid_enclosure (Fof n 0) x0 (seg a b) k e).
  { intros d Hn Hd Hm. apply (monotone_branch_valid n k d); auto.
    destruct (Fof_ok n k Sk) as (g & Hg & Hgx).
    destruct (C24_monotone_flags_true n k d g Hd Hg) as (MI & MD & _).
    destruct (mono_inc d) eqn:Ei.
    - apply rho_increasing; auto. intros x y Hx Hy L.
      apply (MI eq_refl x y); auto.
    - apply rho_decreasing; auto. intros x y Hx Hy L. simpl in Hm.
      apply (MD Hm x y); auto. }
  assert (Bump : forall k', n = SIGMOID /\ k = 1%nat /\ k' = k -> exists e, get_elementwise_taylor_enclosure (n, 0%nat) x0 (a, b) k = Ok e /\
            valid_enclosure (Fof n 0) x0 (seg a b) k e).
  { intros k' (En & Ek & _). subst n k.
    destruct (C26_get_range_exact SIGMOID 1 a b eq_refl I ltac:(lra)) as (g & lo & hi & Hg & Hr & HR & _).
    apply (fallback_valid SIGMOID 1 (FData [] [0] false false true) x0 a b lo hi); auto.
    - apply Chain; discriminate.
    - exact sigmoid1_turns.
    - intros x Hx. destruct (HR x Hx) as (v & Hv & Hl). injection Hg as <-.
      rewrite sigF_ok in Hv by lia. injection Hv as <-. exact Hl. }
  destruct n; simpl builtin in Hb; try discriminate; try apply Nat.leb_le in Hb.
  - destruct k as [|[|k]]; [| |lia].
    + destruct (C26_get_range_exact ABS 0 a b eq_refl I ltac:(lra)) as (g & lo & hi & Hg & Hr & HR & _).
      apply (fallback_valid ABS 0 (FData [0] [] false false true) x0 a b lo hi); auto.
      * intros i x Hi; lia.
      * exact abs_turns.
      * intros x Hx. destruct (HR x Hx) as (v & Hv & Hl). injection Hg as <-. injection Hv as <-. exact Hl.
    + apply (monotone_branch_valid ABS 1 (FData [] [] false true false)); auto.
      intros x y Hx Hy L. apply abs_rho_increasing; auto; exact I.
  - apply (Mon (FData [] [] false true false)); auto; discriminate.
  - apply (Mon (FData [] [] (negb (Nat.even k)) (Nat.even k) false)); auto; try discriminate.
    simpl. destruct (Nat.even k); reflexivity.
  - destruct k as [|[|k]]; [| |lia].
    + apply (Mon (FData [] [] false true false)); auto; discriminate.
    + apply (Bump 1%nat); auto.
  - destruct k as [|[|[|k]]]; [| | |lia].
    + apply (Mon (FData [] [] false true false)); auto; discriminate.
    + apply (Mon (FData [] [] false true false)); auto; discriminate.
    + unfold get_elementwise_taylor_enclosure.
      cbn [get_function bind derivative_id fst snd Nat.add get_function_data softplus_data
           mono_inc mono_dec orb Nat.eqb even_sym andb].
      rewrite taylor_coeffs_ok by (reflexivity || exact I). cbn [bind].
      apply (C34_even_hessian_enclosure_valid (Fof SOFTPLUS)); auto; try lra.
      * exact (Fof_chain SOFTPLUS 2 ltac:(discriminate) eq_refl).
      * exact sigF1_even.
      * exact sigF1_dec.
Qed.

Example C35_nonvacuous : forall n, n <> SWISH ->
  builtin n 1 = true /\ domain n (1/2) /\ cap_ok 1 1 (1/2) /\ cap_ok 1 1 2 /\
  cap_ok 1 1 (Rmin (Rmax (- (1)) (1/2)) 2).
Proof.
  intros n Hn. rewrite Rmax_right, Rmin_left by lra.
  split; [destruct n; reflexivity || congruence|].
  split; [destruct n; simpl; auto; try exact I; unfold positive; lra|].
  repeat split; right; unfold Rabs; destruct Rcase_abs; simpl; lra.
Qed.
