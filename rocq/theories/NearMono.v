(** Functions that are monotone up to a tolerance: their remainder quotients
    are monotone up to the same tolerance divided by k!.  Nothing here mentions
    the model. *)
From Coq Require Import Reals Lra Lia Arith.
From Coquelicot Require Import Coquelicot.
From Verif Require Import ElementSpec Analysis.
Open Scope R_scope.

Definition near_increasing (eps : R) (D : R -> Prop) (f : R -> R) :=
  forall x y, D x -> D y -> x <= y -> f x <= f y + eps.
Definition near_decreasing (eps : R) (D : R -> Prop) (f : R -> R) :=
  forall x y, D x -> D y -> x <= y -> f y <= f x + eps.

(** (x0 + tau d - x0)^(k+1)-scaled quotient as a function of tau. *)
Definition ray (F : nat -> R -> R) (x0 : R) (k : nat) (t : R) (tau : R) : R :=
  if Req_EM_T t x0 then tau ^ S k * (F (S k) x0 / INR (fact (S k)))
  else rem F x0 (S k) (x0 + tau * (t - x0)) / (t - x0) ^ S k.

Lemma pow_derive : forall k tau, is_derive (fun t => t ^ S k) tau (INR (S k) * tau ^ k).
Proof.
  intros. auto_derive; [exact I|]. change (Init.Nat.pred (S k)) with k.
  change (match k with O => 1 | S _ => INR k + 1 end) with (INR (S k)). ring.
Qed.

Lemma ray_derive : forall D F x0 k t tau, deriv_chain D F (S k) -> D (x0 + tau * (t - x0)) ->
  (t = x0 \/ tau <> 0) ->
  is_derive (ray F x0 k t) tau (tau ^ k * rho (shift F) x0 k (x0 + tau * (t - x0))).
Proof.
  intros D F x0 k t tau HF Dt Hn. unfold ray. destruct (Req_EM_T t x0) as [->|Hne].
  - replace (x0 + tau * (x0 - x0)) with x0 by ring. rewrite rho_x0.
    apply is_derive_eq with (INR (S k) * tau ^ k * (F (S k) x0 / INR (fact (S k)))).
    + apply (is_derive_ext (fun tau => (F (S k) x0 / INR (fact (S k))) * tau ^ S k)); [intro; apply Rmult_comm|].
      eapply is_derive_eq; [apply is_derive_scal, pow_derive|ring].
    + unfold shift. rewrite fact_simpl, mult_INR. field.
      split; [apply INR_fact_neq_0|apply not_0_INR; lia].
  - destruct Hn as [Hn|Hn]; [congruence|].
    assert (d0 : t - x0 <> 0) by lra.
    assert (P := pow_nonzero (t - x0) k d0).
    apply is_derive_eq with (/ (t - x0) ^ S k * ((t - x0) * rem (shift F) x0 k (x0 + tau * (t - x0)))).
    + apply (is_derive_ext (fun tau => / (t - x0) ^ S k * rem F x0 (S k) (x0 + tau * (t - x0)))).
      { intro. unfold Rdiv. apply Rmult_comm. }
      apply is_derive_scal.
      apply (is_derive_comp (rem F x0 (S k)) (fun tau => x0 + tau * (t - x0))).
      * apply (rem_derive D); auto.
      * auto_derive; [exact I|ring].
    + unfold rho. destruct (Req_EM_T _ x0) as [E|E].
      { exfalso. assert (tau * (t - x0) = 0) by lra. apply Rmult_integral in H. tauto. }
      replace (x0 + tau * (t - x0) - x0) with (tau * (t - x0)) by ring.
      rewrite Rpow_mult_distr. assert (Q := pow_nonzero tau k Hn). simpl pow. field. auto.
Qed.

Lemma ray_1 : forall F x0 k t, ray F x0 k t 1 = rho F x0 (S k) t.
Proof.
  intros. unfold ray, rho. destruct Req_EM_T; [rewrite pow1; ring|].
  replace (x0 + 1 * (t - x0)) with t by ring. reflexivity.
Qed.
Lemma ray_0 : forall F x0 k t, ray F x0 k t 0 = 0.
Proof.
  intros. unfold ray. destruct Req_EM_T; [rewrite pow_ne_zero by lia; ring|].
  replace (x0 + 0 * (t - x0)) with x0 by ring. rewrite rem_x0. field. apply pow_nonzero; lra.
Qed.
Lemma ray_continuous_0 : forall (D : R -> Prop) F x0 k t, D x0 -> deriv_chain D F (S k) ->
  exists l, is_derive (ray F x0 k t) 0 l.
Proof.
  intros D F x0 k t D0 HF. unfold ray. destruct (Req_EM_T t x0) as [->|Hne].
  - eexists. apply (is_derive_ext (fun tau => (F (S k) x0 / INR (fact (S k))) * tau ^ S k)); [intro; apply Rmult_comm|].
    apply is_derive_scal, pow_derive.
  - eexists. apply (is_derive_ext (fun tau => / (t - x0) ^ S k * rem F x0 (S k) (x0 + tau * (t - x0)))).
    { intro. unfold Rdiv. apply Rmult_comm. }
    apply is_derive_scal.
    apply (is_derive_comp (rem F x0 (S k)) (fun tau => x0 + tau * (t - x0))).
    + apply (rem_derive D); auto. replace (x0 + 0 * (t - x0)) with x0 by ring. auto.
    + auto_derive; [exact I|reflexivity].
Qed.

Theorem rho_near_increasing : forall k D F x0 eps,
  convex D -> D x0 -> deriv_chain D F k -> near_increasing eps D (F k) ->
  near_increasing (eps / INR (fact k)) D (rho F x0 k).
Proof.
  induction k; intros D F x0 eps HD H0 HF HI.
  - intros x y Dx Dy L. rewrite !rho_0. simpl. rewrite Rdiv_1. apply HI; auto.
  - assert (Hr : near_increasing (eps / INR (fact k)) D (rho (shift F) x0 k)).
    { apply IHk; auto. apply chain_shift; auto. }
    intros s t Ds Dt L.
    set (e := eps / INR (fact k)) in *.
    assert (Hn : 0 < INR (S k)) by (apply lt_0_INR; lia).
    assert (Ee : eps / INR (fact (S k)) = e / INR (S k)).
    { unfold e. rewrite fact_simpl, mult_INR. field. split; [apply INR_fact_neq_0|lra]. }
    rewrite Ee.
    set (h := fun tau => ray F x0 k t tau - ray F x0 k s tau + e / INR (S k) * tau ^ S k).
    set (dh := fun tau => tau ^ k * (rho (shift F) x0 k (x0 + tau * (t - x0)) - rho (shift F) x0 k (x0 + tau * (s - x0)) + e)).
    assert (In : forall u tau, D u -> 0 <= tau <= 1 -> D (x0 + tau * (u - x0))).
    { intros u tau Du Ht. destruct (Rle_dec x0 u).
      - assert (A := Rmult_le_pos tau (u - x0) ltac:(lra) ltac:(lra)).
        assert (B := Rmult_le_pos (1 - tau) (u - x0) ltac:(lra) ltac:(lra)).
        apply (HD x0 _ u); auto; lra.
      - assert (A := Rmult_le_pos tau (x0 - u) ltac:(lra) ltac:(lra)).
        assert (B := Rmult_le_pos (1 - tau) (x0 - u) ltac:(lra) ltac:(lra)).
        apply (HD u _ x0); auto; lra. }
    assert (Hd : forall tau, 0 < tau <= 1 -> is_derive h tau (dh tau)).
    { intros tau Ht. unfold h, dh.
      eapply is_derive_eq.
      - apply (is_derive_plus (K := R_AbsRing) (V := R_NormedModule)
                 (fun tau => ray F x0 k t tau - ray F x0 k s tau) (fun tau => e / INR (S k) * tau ^ S k)).
        + apply (is_derive_minus (K := R_AbsRing) (V := R_NormedModule)).
          * apply (ray_derive D); auto; [apply In; auto; lra|right; lra].
          * apply (ray_derive D); auto; [apply In; auto; lra|right; lra].
        + apply is_derive_scal, pow_derive.
      - unfold plus, minus, plus, opp; simpl. unfold Rminus. change (match k with O => 1 | S _ => INR k + 1 end) with (INR (S k)). field. lra. }
    assert (C0 : continuity_pt h 0).
    { destruct (ray_continuous_0 D F x0 k t H0 HF) as (l1 & L1).
      destruct (ray_continuous_0 D F x0 k s H0 HF) as (l2 & L2).
      apply derivable_continuous_pt.
      exists (l1 - l2 + e / INR (S k) * (INR (S k) * 0 ^ k)).
      apply is_derive_Reals. unfold h.
      apply (is_derive_plus (K := R_AbsRing) (V := R_NormedModule)
                 (fun tau => ray F x0 k t tau - ray F x0 k s tau) (fun tau => e / INR (S k) * tau ^ S k)).
      - apply (is_derive_minus (K := R_AbsRing) (V := R_NormedModule)); auto.
      - apply is_derive_scal, pow_derive. }
    assert (H01 : 0 <= h 1 - h 0).
    { destruct (MVT_gen h 0 1 dh) as (c & Hc & E).
      - intros x. rewrite Rmin_left, Rmax_right by lra. intros Hx. apply Hd. lra.
      - intros x. rewrite Rmin_left, Rmax_right by lra. intros Hx.
        destruct (Req_EM_T x 0) as [->|N]; [exact C0|].
        apply derivable_continuous_pt. exists (dh x). apply is_derive_Reals, Hd. lra.
      - rewrite Rmin_left, Rmax_right in Hc by lra. rewrite E. replace (dh c * (1 - 0)) with (dh c) by ring.
        unfold dh. apply Rmult_le_pos; [apply pow_le; lra|].
        assert (X := Hr (x0 + c * (s - x0)) (x0 + c * (t - x0)) (In s c Ds Hc) (In t c Dt Hc) ltac:(nra)). lra. }
    unfold h in H01. rewrite !ray_1, !ray_0, pow1, pow_ne_zero in H01 by lia. lra.
Qed.

Theorem rho_near_decreasing : forall k D F x0 eps,
  convex D -> D x0 -> deriv_chain D F k -> near_decreasing eps D (F k) ->
  near_decreasing (eps / INR (fact k)) D (rho F x0 k).
Proof.
  intros k D F x0 eps HD H0 HF HI x y Dx Dy L.
  assert (X := rho_near_increasing k D (fun i y => - F i y) x0 eps HD H0).
  assert (rho (fun i y => - F i y) x0 k x <= rho (fun i y => - F i y) x0 k y + eps / INR (fact k)).
  { apply X; auto.
    - intros i z Hi Dz. apply (is_derive_opp (K := R_AbsRing) (V := R_NormedModule)). apply HF; auto.
    - intros u v Du Dv Hle. specialize (HI u v Du Dv Hle). lra. }
  rewrite !rho_opp in H. lra.
Qed.
