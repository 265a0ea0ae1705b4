(** Lemmas about the functions of Elementwise.v: closed forms and derivatives. *)
From Coq Require Import Reals Lra.
From Coquelicot Require Import Coquelicot.
From Verif Require Import Base Elementwise ElementSpec Analysis.
Open Scope R_scope.

(** Logistic function. *)
Definition sg (x : R) : R := / (1 + exp (- x)).

Lemma sg_den : forall x, 0 < 1 + exp (- x).
Proof. intro. assert (H := exp_pos (- x)). lra. Qed.
Lemma sg_pos : forall x, 0 < sg x.
Proof. intro. apply Rinv_0_lt_compat, sg_den. Qed.
Lemma sg_lt1 : forall x, sg x < 1.
Proof.
  intro. unfold sg. rewrite <- Rinv_1. apply Rinv_lt_contravar; assert (H := exp_pos (- x)); lra.
Qed.
Lemma py_sigmoid_sg : forall x, py_sigmoid x = sg x.
Proof.
  intro. unfold py_sigmoid, where_, sg. destruct Rle_lt_dec; [field; assert (H := sg_den x); lra|].
  rewrite exp_Ropp. assert (H := exp_pos x). field. split; lra.
Qed.
Lemma sg_opp : forall x, sg (- x) = 1 - sg x.
Proof.
  intro. unfold sg. rewrite Ropp_involutive, exp_Ropp. assert (H := exp_pos x). field. split; lra.
Qed.
Lemma sg_0 : sg 0 = / 2.
Proof. unfold sg. rewrite Ropp_0, exp_0. f_equal; lra. Qed.
Lemma sg_derive : forall x, is_derive sg x (sg x * (1 - sg x)).
Proof.
  intro. unfold sg. assert (H := sg_den x). auto_derive; [lra|].
  assert (E := exp_pos (- x)). field. lra.
Qed.
Lemma sg_Derive : forall x, Derive sg x = sg x * (1 - sg x).
Proof. intro; apply is_derive_unique, sg_derive. Qed.
Lemma sg_ex : forall x, ex_derive sg x.
Proof. intro; eexists; apply sg_derive. Qed.
Lemma sg_increasing : increasing_on everywhere sg.
Proof.
  apply increasing_of_derive with (fun x => sg x * (1 - sg x)).
  - intros ? ? ? _ _ _; exact I.
  - intros; apply sg_derive.
  - intros x _. assert (A := sg_pos x). assert (B := sg_lt1 x). apply Rmult_le_pos; lra.
Qed.

(** Derivatives of the logistic function as polynomials in its value. *)
Definition sig_poly (k : nat) (s : R) : R :=
  match k with
  | 0%nat => s
  | 1%nat => s * (1 - s)
  | 2%nat => s * (1 - s) * (1 - 2 * s)
  | 3%nat => s * (1 - s) * (1 - 6 * s + 6 * s ^ 2)
  | 4%nat => s * (1 - s) * (1 - 2 * s) * (1 - 12 * s + 12 * s ^ 2)
  | 5%nat => s * (1 - s) * (1 - 30 * s + 150 * s ^ 2 - 240 * s ^ 3 + 120 * s ^ 4)
  | _ => 0
  end.
Definition sigF (k : nat) (x : R) : R := sig_poly k (sg x).

Lemma sigF_ok : forall k x, (k <= 4)%nat -> sigmoid_derivative k x = Ok (sigF k x).
Proof.
  intros k x Hk. unfold sigmoid_derivative, sigF. rewrite !py_sigmoid_sg, sg_opp.
  do 5 (destruct k as [|k]; [f_equal; unfold sig_poly; ring|]). lia.
Qed.
Lemma sigF_err : forall k x, (5 <= k)%nat -> sigmoid_derivative k x = Err NotImplementedError.
Proof. intros k x Hk. do 5 (destruct k as [|k]; [lia|]). reflexivity. Qed.

(** Also order 4 to 5, needed for monotonicity arguments. *)
Lemma sigF_derive : forall k x, (k <= 4)%nat -> is_derive (sigF k) x (sigF (S k) x).
Proof.
  intros k x Hk. unfold sigF.
  do 5 (destruct k as [|k];
    [unfold sig_poly; auto_derive; [repeat split; apply sg_ex|rewrite sg_Derive; ring]|]).
  lia.
Qed.

Lemma softplus_closed : forall x, py_softplus x = ln (1 + exp x).
Proof.
  intro x. unfold py_softplus, Rabs, Rmax. assert (E := exp_pos x). assert (E' := exp_pos (- x)).
  destruct Rcase_abs as [L|L]; destruct Rle_dec as [M|M]; try lra.
  - rewrite Ropp_involutive. ring.
  - assert (x = 0) as -> by lra. rewrite Ropp_0; ring.
  - rewrite <- (ln_exp x) at 2. rewrite <- ln_mult by lra. f_equal.
    rewrite Rmult_plus_distr_r, <- exp_plus. replace (- x + x) with 0 by ring. rewrite exp_0. ring.
Qed.

Lemma softplus_derive : forall x, is_derive py_softplus x (sg x).
Proof.
  intro x. apply (is_derive_ext (fun x => ln (1 + exp x))).
  { intro t. symmetry. apply softplus_closed. }
  assert (E := exp_pos x). auto_derive; [lra|]. unfold sg. rewrite exp_Ropp. field. split; lra.
Qed.

Definition softplusF (k : nat) (x : R) : R :=
  match k with 0%nat => py_softplus x | S j => sigF j x end.
Lemma softplusF_ok : forall k x, (k <= 5)%nat -> softplus_derivative k x = Ok (softplusF k x).
Proof. intros [|k] x Hk; [reflexivity|]. simpl. apply sigF_ok. lia. Qed.
Lemma softplusF_err : forall k x, (6 <= k)%nat -> softplus_derivative k x = Err NotImplementedError.
Proof. intros [|k] x Hk; [lia|]. simpl. apply sigF_err. lia. Qed.
Lemma softplusF_derive : forall k x, (k <= 5)%nat -> is_derive (softplusF k) x (softplusF (S k) x).
Proof.
  intros [|k] x Hk; [apply softplus_derive|]. simpl. apply sigF_derive; lia.
Qed.

Definition swishF (k : nat) (x : R) : R :=
  match k with
  | 0%nat => x * sg x
  | S j => INR (S j) * sigF j x + x * sigF (S j) x
  end.
Lemma swishF_ok : forall k x, (k <= 4)%nat -> swish_derivative k x = Ok (swishF k x).
Proof.
  intros [|k] x Hk.
  - simpl. unfold py_swish. rewrite py_sigmoid_sg. reflexivity.
  - unfold swish_derivative. rewrite !sigF_ok by lia. reflexivity.
Qed.
Lemma swishF_err : forall k x, (5 <= k)%nat -> swish_derivative k x = Err NotImplementedError.
Proof.
  intros [|k] x Hk; [lia|]. unfold swish_derivative. rewrite (sigF_err (S k)) by lia.
  destruct (sigmoid_derivative k x) eqn:E; [reflexivity|]. simpl.
  destruct (le_lt_dec k 4); [rewrite sigF_ok in E by lia; discriminate|].
  rewrite sigF_err in E by lia. congruence.
Qed.
Lemma swishF_derive : forall k x, (k <= 4)%nat -> is_derive (swishF k) x (swishF (S k) x).
Proof.
  intros [|k] x Hk.
  - unfold swishF, sigF, sig_poly. auto_derive; [apply sg_ex|]. rewrite sg_Derive. simpl. ring.
  - unfold swishF.
    apply is_derive_eq with (INR (S k) * sigF (S k) x + (1 * sigF (S k) x + x * sigF (S (S k)) x)).
    2:{ rewrite (S_INR (S k)). ring. }
    apply (is_derive_plus (K := R_AbsRing) (V := R_NormedModule)
             (fun x => INR (S k) * sigF k x) (fun x => x * sigF (S k) x)).
    + apply is_derive_scal. apply sigF_derive; lia.
    + apply (is_derive_mult (fun x => x) (sigF (S k))).
      * auto_derive; [exact I|ring].
      * apply sigF_derive; lia.
      * intros; apply Rmult_comm.
Qed.

(** Natural logarithm. *)
Definition logF (k : nat) (x : R) : R :=
  match k with
  | 0%nat => ln x
  | S j => (if Nat.even (S j) then -1 else 1) * INR (fact j) * / x ^ S j
  end.
Lemma logF_derive : forall k x, 0 < x -> is_derive (logF k) x (logF (S k) x).
Proof.
  intros [|k] x Hx.
  - unfold logF. auto_derive; [auto|]. simpl. field. lra.
  - unfold logF. set (c := (if Nat.even (S k) then -1 else 1) * INR (fact k)).
    apply is_derive_eq with (c * (- (INR (S k) * x ^ k) / (x ^ S k) ^ 2)).
    + apply is_derive_scal.
      apply (is_derive_ext (fun x => / x ^ S k)); [reflexivity|].
      apply (is_derive_inv (fun x => x ^ S k)).
      * auto_derive; [exact I|]. change (Init.Nat.pred (S k)) with k.
        change (match k with O => 1 | S _ => INR k + 1 end) with (INR (S k)). ring.
      * apply pow_nonzero; lra.
    + unfold c. clear c.
      assert (Ev : Nat.even (S (S k)) = negb (Nat.even (S k))).
      { rewrite Nat.even_succ, <- Nat.negb_even. reflexivity. }
      rewrite Ev. rewrite fact_simpl, mult_INR.
      assert (P := pow_nonzero x k ltac:(lra)).
      replace (x ^ S k) with (x * x ^ k) by reflexivity.
      replace (x ^ S (S k)) with (x * (x * x ^ k)) by reflexivity.
      generalize (INR (S k)) (INR (fact k)). intros u v. generalize dependent (x ^ k). intros w P.
      destruct (Nat.even (S k)); simpl negb; cbv iota; field; auto with real; lra.
Qed.

Lemma np_sign_pos : forall x, 0 < x -> np_sign x = 1.
Proof. intros. unfold np_sign. destruct total_order_T as [[|]|]; lra. Qed.
Lemma np_sign_neg : forall x, x < 0 -> np_sign x = -1.
Proof. intros. unfold np_sign. destruct total_order_T as [[|]|]; lra. Qed.
Lemma np_sign_zero : np_sign 0 = 0.
Proof. intros. unfold np_sign. destruct total_order_T as [[|]|]; lra. Qed.
Lemma abs_derive : forall x, x <> 0 -> is_derive Rabs x (np_sign x).
Proof.
  intros x Hx. destruct (Rtotal_order x 0) as [L|[L|L]]; [|congruence|].
  - rewrite np_sign_neg by auto. apply is_derive_Reals. apply (Rabs_derive_2 x); auto.
  - rewrite np_sign_pos by auto. apply is_derive_Reals. apply (Rabs_derive_1 x); auto.
Qed.

(** The functions returned by [get_function], as total functions. *)
Definition Fof (n : fname) (k : nat) (x : R) : R :=
  match n with
  | ABS => match k with 0%nat => Rabs x | _ => np_sign x end
  | EXP => exp x
  | LOG => logF k x
  | SIGMOID => sigF k x
  | SOFTPLUS => softplusF k x
  | SWISH => swishF k x
  end.
