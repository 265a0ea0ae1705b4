(** The remainder quotient of a function whose second derivative is even and
    decreases away from 0 is unimodal, with its peak at -x0. *)
From Coq Require Import Reals Lra Lia.
From Coquelicot Require Import Coquelicot.
From Verif Require Import ElementSpec Analysis.
Open Scope R_scope.

Definition unimodal (q : R -> R) (p : R) :=
  increasing_on (fun x => x <= p) q /\ decreasing_on (fun x => p <= x) q.

Lemma unimodal_bounds : forall q p a b x,
  unimodal q p -> a <= x <= b ->
  Rmin (q a) (q b) <= q x <= q (Rmin (Rmax p a) b).
Proof.
  intros q p a b x [I D] [La Lb]. split.
  - destruct (Rle_dec x p) as [L|L].
    + apply Rle_trans with (q a); [apply Rmin_l|apply I; lra].
    + apply Rle_trans with (q b); [apply Rmin_r|apply D; lra].
  - unfold Rmin, Rmax. repeat destruct Rle_dec; try (apply D; lra); try (apply I; lra).
    destruct (Rle_dec x p); [apply I|apply D]; lra.
Qed.

Section EvenHessian.
Variable F : nat -> R -> R.
Hypothesis HF : deriv_chain everywhere F 2.
Hypothesis Heven : even_function (F 2%nat).
Hypothesis Hdec : decreasing_on (fun x => 0 <= x) (F 2%nat).

Local Lemma D0 : forall x, derivable_pt_lim (F 0%nat) x (F 1%nat x).
Proof. intro; apply is_derive_Reals, HF; [lia|exact I]. Qed.
Local Lemma D1 : forall x, derivable_pt_lim (F 1%nat) x (F 2%nat x).
Proof. intro; apply is_derive_Reals, HF; [lia|exact I]. Qed.

Lemma hess_inc_neg : increasing_on (fun x => x <= 0) (F 2%nat).
Proof.
  intros x y Hx Hy L. rewrite <- (Heven x), <- (Heven y). apply Hdec; lra.
Qed.

Lemma const_of_zero_derive : forall g x, (forall t, derivable_pt_lim g t 0) -> g x = g 0.
Proof.
  intros g x H. destruct (Rtotal_order x 0) as [L|[->|L]]; auto.
  - destruct (MVT_cor2 g (fun _ => 0) x 0 L) as (c & Hc & _); [intros; apply H|lra].
  - destruct (MVT_cor2 g (fun _ => 0) 0 x L) as (c & Hc & _); [intros; apply H|lra].
Qed.

Lemma grad_odd : forall x, F 1%nat x + F 1%nat (- x) = 2 * F 1%nat 0.
Proof.
  intros. transitivity ((fun t => F 1%nat t + F 1%nat (- t)) 0).
  2:{ simpl. rewrite Ropp_0. ring. }
  apply (const_of_zero_derive (fun t => F 1%nat t + F 1%nat (- t))). intro t.
  apply is_derive_Reals.
  replace 0 with (F 2%nat t + (-1) * F 2%nat (- t)) by (rewrite Heven; ring).
  apply (is_derive_plus (K := R_AbsRing) (V := R_NormedModule)).
  - apply is_derive_Reals, D1.
  - apply (is_derive_comp (K := R_AbsRing) (V := R_NormedModule) (F 1%nat) Ropp).
    + apply is_derive_Reals, D1.
    + auto_derive; [exact I|ring].
Qed.

Lemma fun_even : forall x, F 0%nat x - F 0%nat (- x) = 2 * F 1%nat 0 * x.
Proof.
  intros.
  assert (E : (fun t => F 0%nat t - F 0%nat (- t) - 2 * F 1%nat 0 * t) x
            = (fun t => F 0%nat t - F 0%nat (- t) - 2 * F 1%nat 0 * t) 0).
  2:{ simpl in E. rewrite Ropp_0 in E. lra. }
  apply (const_of_zero_derive (fun t => F 0%nat t - F 0%nat (- t) - 2 * F 1%nat 0 * t)). intro t.
  apply is_derive_Reals.
  apply is_derive_eq with ((F 1%nat t - (-1) * F 1%nat (- t)) - 2 * F 1%nat 0);
    [|assert (X := grad_odd t); lra].
  apply (is_derive_minus (K := R_AbsRing) (V := R_NormedModule)
           (fun t => F 0%nat t - F 0%nat (- t)) (fun t => 2 * F 1%nat 0 * t)).
  - apply (is_derive_minus (K := R_AbsRing) (V := R_NormedModule)).
    + apply is_derive_Reals, D0.
    + apply (is_derive_comp (K := R_AbsRing) (V := R_NormedModule) (F 0%nat) Ropp).
      * apply is_derive_Reals, D0.
      * auto_derive; [exact I|ring].
  - auto_derive; [exact I|ring].
Qed.

Section Center.
Variable x0 : R.
Hypothesis Hx0 : 0 <= x0.

Let E x := (x - x0) * (F 1%nat x + F 1%nat x0) - 2 * (F 0%nat x - F 0%nat x0).
Let dE x := F 1%nat x0 - F 1%nat x + (x - x0) * F 2%nat x.

Lemma E_derive : forall x, derivable_pt_lim E x (dE x).
Proof.
  intros. apply is_derive_Reals. unfold E, dE.
  replace (F 1%nat x0 - F 1%nat x + (x - x0) * F 2%nat x) with
    ((1 * (F 1%nat x + F 1%nat x0) + (x - x0) * F 2%nat x) - 2 * F 1%nat x) by ring.
  apply (is_derive_minus (K := R_AbsRing) (V := R_NormedModule)
     (fun x => (x - x0) * (F 1%nat x + F 1%nat x0)) (fun x => 2 * (F 0%nat x - F 0%nat x0))).
  - apply (is_derive_mult (fun x => x - x0) (fun x => F 1%nat x + F 1%nat x0)).
    + auto_derive; [exact I|ring].
    + replace (F 2%nat x) with (F 2%nat x + 0) by ring.
      apply (is_derive_plus (K := R_AbsRing) (V := R_NormedModule) (F 1%nat) (fun _ => F 1%nat x0)).
      * apply is_derive_Reals, D1.
      * apply (is_derive_const (K := R_AbsRing) (V := R_NormedModule)).
    + intros; apply Rmult_comm.
  - apply is_derive_scal.
    replace (F 1%nat x) with (F 1%nat x - 0) by ring.
    apply (is_derive_minus (K := R_AbsRing) (V := R_NormedModule) (F 0%nat) (fun _ => F 0%nat x0)).
    + apply is_derive_Reals, D0.
    + apply (is_derive_const (K := R_AbsRing) (V := R_NormedModule)).
Qed.

Lemma E_x0 : E x0 = 0. Proof. unfold E; ring. Qed.
Lemma E_mx0 : E (- x0) = 0.
Proof.
  unfold E. assert (A := grad_odd x0). assert (B := fun_even x0).
  replace (F 1%nat (- x0) + F 1%nat x0) with (2 * F 1%nat 0) by lra.
  replace (F 0%nat (- x0) - F 0%nat x0) with (- (2 * F 1%nat 0 * x0)) by lra. ring.
Qed.

Lemma dE_mvt : forall x, x <> x0 -> exists xi, (x0 < xi < x \/ x < xi < x0) /\
  dE x = (x - x0) * (F 2%nat x - F 2%nat xi).
Proof.
  intros x Hne. unfold dE.
  destruct (Rtotal_order x x0) as [L|[L|L]]; [|congruence|].
  - destruct (MVT_cor2 (F 1%nat) (F 2%nat) x x0 L) as (c & Hc & Hc'); [intros; apply D1|].
    exists c; split; [auto|]. lra.
  - destruct (MVT_cor2 (F 1%nat) (F 2%nat) x0 x L) as (c & Hc & Hc'); [intros; apply D1|].
    exists c; split; [auto|]. lra.
Qed.

Lemma E_right : forall x, x0 <= x -> E x <= 0.
Proof.
  intros x L. destruct (Req_EM_T x x0) as [->|Hne]; [rewrite E_x0; lra|].
  destruct (MVT_cor2 E dE x0 x) as (c & Hc & Hc'); [lra|intros; apply E_derive|].
  rewrite E_x0 in Hc.
  destruct (dE_mvt c) as (xi & [B|B] & Ed); [lra| |lra].
  assert (F 2%nat c <= F 2%nat xi) by (apply Hdec; lra).
  assert (0 <= (c - x0) * (F 2%nat xi - F 2%nat c)) by (apply Rmult_le_pos; lra).
  assert (0 <= - dE c * (x - x0)) by (apply Rmult_le_pos; lra). lra.
Qed.

Lemma E_mid : forall x, 0 <= x <= x0 -> 0 <= E x.
Proof.
  intros x L. destruct (Req_EM_T x x0) as [->|Hne]; [rewrite E_x0; lra|].
  destruct (MVT_cor2 E dE x x0) as (c & Hc & Hc'); [lra|intros; apply E_derive|].
  rewrite E_x0 in Hc.
  destruct (dE_mvt c) as (xi & [B|B] & Ed); [lra|lra|].
  assert (F 2%nat xi <= F 2%nat c) by (apply Hdec; lra).
  assert (0 <= (x0 - c) * (F 2%nat c - F 2%nat xi)) by (apply Rmult_le_pos; lra).
  assert (0 <= - dE c * (x0 - x)) by (apply Rmult_le_pos; lra). lra.
Qed.

Lemma dE_dec : forall x y, x <= y -> y <= 0 -> dE y <= dE x.
Proof.
  intros x y L L0. destruct (Req_EM_T x y) as [->|Hne]; [lra|].
  unfold dE. destruct (MVT_cor2 (F 1%nat) (F 2%nat) x y) as (c & Hc & Hc'); [lra|intros; apply D1|].
  assert (F 2%nat x <= F 2%nat c) by (apply hess_inc_neg; lra).
  assert (F 2%nat x <= F 2%nat y) by (apply hess_inc_neg; lra).
  assert (0 <= (y - x) * (F 2%nat c - F 2%nat x)) by (apply Rmult_le_pos; lra).
  assert (0 <= (x0 - y) * (F 2%nat y - F 2%nat x)) by (apply Rmult_le_pos; lra).
  lra.
Qed.

Lemma E_neg : forall x, - x0 <= x <= 0 -> 0 <= E x.
Proof.
  intros x L. destruct (Req_EM_T x (- x0)) as [->|Hne]; [rewrite E_mx0; lra|].
  assert (E00 : 0 <= E 0) by (apply E_mid; lra).
  destruct (Req_EM_T x 0) as [->|Hne0]; [auto|].
  destruct (Rle_lt_dec 0 (E x)) as [|Hn]; [auto|exfalso].
  destruct (MVT_cor2 E dE (- x0) x) as (c & Hc & Hc'); [lra|intros; apply E_derive|].
  destruct (MVT_cor2 E dE x 0) as (c2 & Hd & Hd'); [lra|intros; apply E_derive|].
  rewrite E_mx0 in Hc.
  assert (dE c2 <= dE c) by (apply dE_dec; lra).
  assert (dE c < 0).
  { destruct (Rlt_le_dec (dE c) 0); [auto|]. assert (0 <= dE c * (x - - x0)) by (apply Rmult_le_pos; lra). lra. }
  assert (0 < - dE c2 * (0 - x)) by (apply Rmult_lt_0_compat; lra). lra.
Qed.

Lemma E_left : forall x, x <= - x0 -> E x <= 0.
Proof.
  intros x L. destruct (Req_EM_T x (- x0)) as [->|Hne]; [rewrite E_mx0; lra|].
  destruct (MVT_cor2 E dE x (- x0)) as (c & Hc & Hc'); [lra|intros; apply E_derive|].
  rewrite E_mx0 in Hc.
  assert (0 <= dE c).
  { destruct (Req_EM_T x0 0) as [Z|Z].
    - destruct (dE_mvt c) as (xi & [B|B] & Ed); [lra|lra|].
      assert (F 2%nat c <= F 2%nat xi) by (apply hess_inc_neg; lra).
      rewrite Ed. assert (0 <= (x0 - c) * (F 2%nat xi - F 2%nat c)) by (apply Rmult_le_pos; lra). lra.
    - destruct (MVT_cor2 E dE (- x0) 0) as (c2 & Hd & Hd'); [lra|intros; apply E_derive|].
      rewrite E_mx0 in Hd. assert (0 <= E 0) by (apply E_mid; lra).
      apply Rle_trans with (dE c2); [|apply dE_dec; lra].
      destruct (Rle_lt_dec 0 (dE c2)); [auto|].
      assert (0 < - dE c2 * (0 - - x0)) by (apply Rmult_lt_0_compat; lra). lra. }
  assert (0 <= dE c * (- x0 - x)) by (apply Rmult_le_pos; lra). lra.
Qed.

Let q := rho F x0 2.
Let dq x := E x / (x - x0) ^ 3.

Lemma q_derive : forall x, x <> x0 ->
  derivable_pt_lim (fun s => rem F x0 2 s / (s - x0) ^ 2) x (dq x).
Proof.
  intros x Hne. apply is_derive_Reals.
  replace (dq x) with ((rho (shift F) x0 1 x - INR 2 * rho F x0 2 x) / (x - x0)).
  - apply (rho_derive everywhere F x0 1 x I Hne HF).
  - unfold rho. destruct (Req_EM_T x x0); [congruence|].
    unfold rem, dq, E, shift. simpl. field. lra.
Qed.

Lemma q_eq : forall x, x <> x0 -> q x = rem F x0 2 x / (x - x0) ^ 2.
Proof. intros; unfold q, rho; destruct (Req_EM_T x x0); congruence. Qed.

Lemma q_step : forall s t, s < t -> (t < x0 \/ x0 < s) ->
  exists c, s < c < t /\ q t - q s = dq c * (t - s).
Proof.
  intros s t L H.
  destruct (MVT_cor2 (fun s => rem F x0 2 s / (s - x0) ^ 2) dq s t L) as (c & Hc & Hc').
  { intros; apply q_derive; lra. }
  exists c; split; [auto|]. rewrite !q_eq by lra. exact Hc.
Qed.

Lemma cube_neg : forall y, y < 0 -> y ^ 3 < 0.
Proof. intros. assert (0 < - y * (y * y)) by (apply Rmult_lt_0_compat; [lra|nra]). simpl; lra. Qed.

Lemma q_lagrange : forall x, exists xi, Rmin x0 x <= xi <= Rmax x0 x /\ q x = F 2%nat xi / 2.
Proof.
  intros. destruct (rho_lagrange 2 everywhere F x0 x) as (xi & H & _ & Eq); auto; try exact I.
  { intros ? ? ? _ _ _; exact I. }
  exists xi; split; [auto|]. unfold q; rewrite Eq. simpl. field.
Qed.

Lemma hess_abs : forall x y, Rabs x <= Rabs y -> F 2%nat y <= F 2%nat x.
Proof.
  assert (forall x, F 2%nat x = F 2%nat (Rabs x)).
  { intro x. unfold Rabs. destruct Rcase_abs; [rewrite Heven|]; reflexivity. }
  intros x y L. rewrite (H x), (H y). apply Hdec; auto using Rabs_pos.
Qed.

Lemma q_x0 : q x0 = F 2%nat x0 / 2.
Proof. unfold q; rewrite rho_x0. simpl; field. Qed.

Lemma q_ge_x0 : forall x, x0 <= x -> q x <= q x0.
Proof.
  intros x L. destruct (q_lagrange x) as (xi & H & ->). rewrite q_x0.
  rewrite Rmin_left, Rmax_right in H by lra.
  assert (F 2%nat xi <= F 2%nat x0) by (apply Hdec; lra). lra.
Qed.
Lemma q_le_x0 : forall x, - x0 <= x <= x0 -> q x0 <= q x.
Proof.
  intros x L. destruct (q_lagrange x) as (xi & H & ->). rewrite q_x0.
  rewrite Rmin_right, Rmax_left in H by lra.
  assert (F 2%nat x0 <= F 2%nat xi).
  { apply hess_abs. rewrite (Rabs_right x0) by lra. apply Rabs_le. lra. } lra.
Qed.

Lemma q_unimodal_pos : unimodal q (- x0).
Proof.
  split.
  - intros s t Hs Ht L. destruct (Rtotal_order s t) as [L'|[->|L']]; [|lra|lra].
    destruct (Req_EM_T t x0) as [Et|Nt].
    + (* x0 = 0 = t *)
      destruct (q_lagrange s) as (xi & H & ->). rewrite Et, q_x0.
      rewrite Rmin_right, Rmax_left in H by lra.
      assert (F 2%nat xi <= F 2%nat x0) by (apply hess_inc_neg; lra). lra.
    + destruct (q_step s t L') as (c & Hc & Hq); [lra|].
      assert (0 <= dq c).
      { unfold dq. assert (E c <= 0) by (apply E_left; lra).
        assert ((c - x0) ^ 3 < 0) by (apply cube_neg; lra).
        replace (E c / (c - x0) ^ 3) with ((- E c) / - (c - x0) ^ 3) by (field; lra).
        apply Rle_mult_inv_pos; lra. }
      assert (0 <= dq c * (t - s)) by (apply Rmult_le_pos; lra). lra.
  - assert (A : forall s t, - x0 <= s -> s < t -> (t < x0 \/ x0 < s) -> q t <= q s).
    { intros s t Hs L H. destruct (q_step s t L H) as (c & Hc & Hq).
      assert (dq c <= 0).
      { unfold dq. destruct H as [H|H].
        - assert (0 <= E c) by (destruct (Rle_dec 0 c); [apply E_mid|apply E_neg]; lra).
          assert ((c - x0) ^ 3 < 0) by (apply cube_neg; lra).
          replace (E c / (c - x0) ^ 3) with (- (E c / - (c - x0) ^ 3)) by (field; lra).
          assert (0 <= E c / - (c - x0) ^ 3) by (apply Rle_mult_inv_pos; lra). lra.
        - assert (E c <= 0) by (apply E_right; lra).
          assert (0 < (c - x0) ^ 3) by (apply pow_lt; lra).
          replace (E c / (c - x0) ^ 3) with (- (- E c / (c - x0) ^ 3)) by (field; lra).
          assert (0 <= - E c / (c - x0) ^ 3) by (apply Rle_mult_inv_pos; lra). lra. }
      assert (0 <= - dq c * (t - s)) by (apply Rmult_le_pos; lra). lra. }
    intros s t Hs Ht L. destruct (Rtotal_order s t) as [L'|[->|L']]; [|lra|lra].
    destruct (Rlt_dec t x0); [apply A; lra|].
    destruct (Rlt_dec x0 s); [apply A; lra|].
    apply Rle_trans with (q x0); [apply q_ge_x0|apply q_le_x0]; lra.
Qed.
End Center.
End EvenHessian.

(** Reflection takes the case x0 < 0 to the case x0 > 0. *)
Definition reflect (F : nat -> R -> R) : nat -> R -> R := fun i x => (-1) ^ i * F i (- x).

Lemma reflect_chain : forall F k, deriv_chain everywhere F k -> deriv_chain everywhere (reflect F) k.
Proof.
  intros F k H i x Hi _. unfold reflect.
  replace ((-1) ^ S i * F (S i) (- x)) with ((-1) ^ i * ((-1) * F (S i) (- x))) by (simpl; ring).
  apply is_derive_scal.
  apply (is_derive_comp (K := R_AbsRing) (V := R_NormedModule) (F i) Ropp).
  - apply H; [auto|exact I].
  - auto_derive; [exact I|ring].
Qed.

Lemma tpoly_reflect : forall F x0 k x, tpoly (reflect F) (- x0) k x = tpoly F x0 k (- x).
Proof.
  induction k; intros; [reflexivity|]. cbn [tpoly]. rewrite IHk. f_equal.
  unfold reflect. rewrite Ropp_involutive.
  replace (- x - x0) with ((-1) * (x - - x0)) by ring. rewrite Rpow_mult_distr.
  unfold Rdiv; ring.
Qed.

Lemma pow_m1_sq : forall k, (-1) ^ k * (-1) ^ k = 1.
Proof. induction k; simpl; [ring|]. lra. Qed.

Lemma rho_reflect : forall F x0 k x, rho (reflect F) (- x0) k x = (-1) ^ k * rho F x0 k (- x).
Proof.
  intros. unfold rho. destruct (Req_EM_T x (- x0)) as [->|N]; destruct (Req_EM_T (- _) x0) as [M|M]; try lra.
  - unfold reflect. rewrite Ropp_involutive. unfold Rdiv; ring.
  - unfold rem. rewrite tpoly_reflect.
    replace (reflect F 0 x) with (F 0%nat (- x)) by (unfold reflect; simpl; ring).
    replace (- x - x0) with ((-1) * (x - - x0)) by ring. rewrite Rpow_mult_distr.
    assert (P := pow_nonzero (x - - x0) k ltac:(lra)).
    assert (P1 := pow_nonzero (-1) k ltac:(lra)). field. split; auto.
Qed.

Theorem q_unimodal : forall F x0,
  deriv_chain everywhere F 2 -> even_function (F 2%nat) ->
  decreasing_on (fun x => 0 <= x) (F 2%nat) ->
  unimodal (rho F x0 2) (- x0).
Proof.
  intros F x0 HF He Hd. destruct (Rle_lt_dec 0 x0) as [L|L].
  - apply q_unimodal_pos; auto.
  - assert (U : unimodal (rho (reflect F) (- x0) 2) (- - x0)).
    { apply q_unimodal_pos.
      - apply reflect_chain; auto.
      - intro x. unfold reflect. rewrite !He. reflexivity.
      - intros x y Hx Hy Hxy. unfold reflect. rewrite !He. simpl. assert (Y := Hd x y Hx Hy Hxy). lra.
      - lra. }
    assert (Eq : forall x, rho F x0 2 x = rho (reflect F) (- x0) 2 (- x)).
    { intro x. rewrite rho_reflect, Ropp_involutive. simpl; ring. }
    destruct U as [UI UD]. split; intros x y Hx Hy Hxy; rewrite !Eq.
    + apply UD; lra.
    + apply UI; lra.
Qed.
