(** Theorems about powers (C36-C38). *)
From Coq Require Import Reals Lra.
From Coquelicot Require Import Coquelicot.
From Verif Require Import Base Elementwise Primitive ElementSpec Analysis PrimitiveProofs PropPrimitive.
Open Scope R_scope.

(** * Derivatives of powers *)
Definition powF (p : R) (k : nat) (x : R) : R := falling p k * Rpower x (p - INR k).
Definition zpowF (n : Z) (k : nat) (x : R) : R :=
  falling (IZR n) k * powerRZ x (n - Z.of_nat k).

Lemma powF_derive : forall p k x, 0 < x -> is_derive (powF p k) x (powF p (S k) x).
Proof.
  intros p k x Hx. unfold powF. cbn [falling].
  apply is_derive_eq with (falling p k * ((p - INR k) * Rpower x (p - INR k - 1))).
  - apply is_derive_scal. apply is_derive_Reals. apply derivable_pt_lim_power; auto.
  - rewrite S_INR. replace (p - (INR k + 1)) with (p - INR k - 1) by ring. ring.
Qed.

Lemma powerRZ_derive : forall n x, x <> 0 ->
  is_derive (fun x => powerRZ x n) x (IZR n * powerRZ x (n - 1)).
Proof.
  intros n x Hx. destruct n as [|q|q].
  - simpl. rewrite Rmult_0_l. apply (is_derive_const (K := R_AbsRing) (V := R_NormedModule)).
  - simpl powerRZ at 1. apply is_derive_eq with (INR (Pos.to_nat q) * x ^ pred (Pos.to_nat q)).
    + apply is_derive_Reals, derivable_pt_lim_pow.
    + assert (E : (Z.pos q - 1 = Z.of_nat (pred (Pos.to_nat q)))%Z).
      { assert (P := Pos2Nat.is_pos q). rewrite <- positive_nat_Z. lia. }
      rewrite E, <- pow_powerRZ. rewrite INR_IZR_INZ, positive_nat_Z. reflexivity.
  - simpl powerRZ at 1.
    assert (P := Pos2Nat.is_pos q). set (m := Pos.to_nat q) in *.
    assert (Pm := pow_nonzero x m Hx).
    apply is_derive_eq with (- (INR m * x ^ pred m) / (x ^ m) ^ 2).
    + apply (is_derive_inv (fun x => x ^ m)); [|auto].
      apply is_derive_Reals, derivable_pt_lim_pow.
    + assert (E : (Z.neg q - 1 = - Z.of_nat (S m))%Z).
      { unfold m. rewrite Nat2Z.inj_succ, positive_nat_Z. lia. }
      rewrite E. assert (E2 : IZR (Z.neg q) = - INR m).
      { unfold m. rewrite INR_IZR_INZ, positive_nat_Z, <- opp_IZR. reflexivity. }
      rewrite E2, powerRZ_neg', <- pow_powerRZ.
      destruct m as [|j]; [lia|]. simpl pred. simpl pow. simpl in Pm.
      assert (x ^ j <> 0) by (apply pow_nonzero; auto). field. auto.
Qed.

Lemma zpowF_derive : forall n k x, x <> 0 -> is_derive (zpowF n k) x (zpowF n (S k) x).
Proof.
  intros n k x Hx. unfold zpowF. cbn [falling].
  apply is_derive_eq with (falling (IZR n) k * (IZR (n - Z.of_nat k) * powerRZ x (n - Z.of_nat k - 1))).
  - apply is_derive_scal. apply powerRZ_derive; auto.
  - rewrite minus_IZR, <- INR_IZR_INZ. replace (n - Z.of_nat (S k))%Z with (n - Z.of_nat k - 1)%Z by lia. ring.
Qed.

Lemma positive_convex : convex positive.
Proof. intros x y z Hx Hz L. unfold positive in *. lra. Qed.
Lemma negative_convex : convex negative.
Proof. intros x y z Hx Hz L. unfold negative in *. lra. Qed.
Lemma powF_chain : forall p k, deriv_chain positive (powF p) k.
Proof. intros p k i x _ Hx. apply powF_derive; auto. Qed.
Lemma zpowF_chain : forall n k, deriv_chain negative (zpowF n) k.
Proof. intros n k i x _ Hx. apply zpowF_derive. unfold negative in Hx. lra. Qed.
Lemma powF_0 : forall p x, powF p 0 x = Rpower x p.
Proof. intros. unfold powF. simpl. rewrite Rminus_0_r. ring. Qed.
Lemma zpowF_0 : forall n x, zpowF n 0 x = powerRZ x n.
Proof. intros. unfold zpowF. simpl. rewrite Z.sub_0_r. ring. Qed.

Lemma is_int_IZR : forall n, is_int (IZR n) = Some n.
Proof.
  intro n. unfold is_int.
  assert (E : Int_part (IZR n) = n).
  { unfold Int_part. rewrite <- (tech_up (IZR n) (n + 1)); [lia| |]; rewrite plus_IZR; lra. }
  rewrite E. destruct Req_EM_T; congruence.
Qed.
Lemma is_int_Some : forall p n, is_int p = Some n -> p = IZR n.
Proof. intros p n. unfold is_int. destruct Req_EM_T; intro H; [injection H as <-; auto|discriminate]. Qed.
Lemma is_int_None : forall p, (forall n, p <> IZR n) -> is_int p = None.
Proof. intros p H. unfold is_int. destruct Req_EM_T as [E|]; [|reflexivity]. exfalso. apply (H (Int_part p)). auto. Qed.
Lemma is_int_None_inv : forall p, is_int p = None -> forall n, p <> IZR n.
Proof. intros p H n ->. rewrite is_int_IZR in H. discriminate. Qed.

(** * C36 *)
Definition sign_is (s : Z) (v : R) :=
  (s = 1%Z /\ 0 < v) \/ (s = 0%Z /\ v = 0) \/ (s = (-1)%Z /\ v < 0).

Lemma sign_Z_is : forall c, sign_is (sign_Z c) c.
Proof.
  intro c. unfold sign_Z, sign_is. destruct Rlt_dec; [left; auto|]. destruct Req_EM_T; [right; left; auto|].
  right; right; split; [auto|lra].
Qed.
Lemma sign_is_mult_pos : forall s c w, sign_is s c -> 0 < w -> sign_is s (c * w).
Proof.
  intros s c w [[-> H]|[[-> H]|[-> H]]] Hw.
  - left. split; [auto|apply Rmult_lt_0_compat; auto].
  - right; left. subst; split; [auto|ring].
  - right; right. split; [auto|]. assert (0 < - c * w) by (apply Rmult_lt_0_compat; lra). lra.
Qed.
Lemma sign_is_opp : forall s c, sign_is s c -> sign_is (- s) (- c).
Proof.
  intros s c [[-> H]|[[-> H]|[-> H]]].
  - right; right; split; [auto|lra].
  - right; left; split; [auto|lra].
  - left; split; [auto|lra].
Qed.

Lemma powerRZ_m1 : forall m, powerRZ (-1) m = if Z.even m then 1 else -1.
Proof.
  assert (N : forall n, (-1) ^ n = if Nat.even n then 1 else -1).
  { induction n; [reflexivity|]. cbn [pow]. rewrite IHn, Nat.even_succ, <- Nat.negb_even.
    destruct (Nat.even n); simpl; ring. }
  assert (Ev : forall q, Z.even (Z.pos q) = Nat.even (Pos.to_nat q)).
  { intro q. rewrite <- (positive_nat_Z q). apply Bool.eq_iff_eq_true.
    rewrite Z.even_spec, Nat.even_spec. split.
    - intros (z & Hz). exists (Z.to_nat z). lia.
    - intros (z & Hz). exists (Z.of_nat z). lia. }
  intros [|q|q].
  - reflexivity.
  - simpl powerRZ. rewrite N, Ev. reflexivity.
  - change (Z.neg q) with (- Z.pos q)%Z. rewrite Z.even_opp. simpl powerRZ. rewrite N, Ev.
    destruct (Nat.even _); field.
Qed.
Lemma powerRZ_neg_sign : forall x m, x < 0 ->
  powerRZ x m = (if Z.even m then 1 else -1) * powerRZ (- x) m.
Proof.
  intros x m Hx. rewrite <- powerRZ_m1, <- powerRZ_mult. f_equal. ring.
Qed.
Lemma powerRZ_pos : forall x m, 0 < x -> 0 < powerRZ x m.
Proof. intros. apply powerRZ_lt. auto. Qed.

(** The sign of powF / zpowF. *)
Lemma powF_sign : forall p k x, 0 < x -> sign_is (sign_Z (falling p k)) (powF p k x).
Proof.
  intros. unfold powF. apply sign_is_mult_pos; [apply sign_Z_is|]. apply exp_pos.
Qed.
Lemma zpowF_sign : forall n k x, x < 0 ->
  sign_is (sign_Z (falling (IZR n) k) * (if Z.even (n - Z.of_nat k) then 1 else -1)) (zpowF n k x).
Proof.
  intros. unfold zpowF. rewrite powerRZ_neg_sign by auto.
  assert (P := powerRZ_pos (- x) (n - Z.of_nat k) ltac:(lra)).
  assert (Sc := sign_Z_is (falling (IZR n) k)).
  destruct (Z.even _).
  - rewrite Z.mul_1_r, Rmult_1_l. apply sign_is_mult_pos; auto.
  - replace (sign_Z (falling (IZR n) k) * -1)%Z with (- sign_Z (falling (IZR n) k))%Z by lia.
    replace (falling (IZR n) k * (-1 * powerRZ (- x) (n - Z.of_nat k)))
      with (- (falling (IZR n) k * powerRZ (- x) (n - Z.of_nat k))) by ring.
    apply sign_is_opp, sign_is_mult_pos; auto.
Qed.

Lemma open_positive : forall x, positive x -> locally x positive.
Proof. intros x Hx. apply (open_gt 0). exact Hx. Qed.
Lemma open_negative : forall x, negative x -> locally x negative.
Proof. intros x Hx. apply (open_lt 0). exact Hx. Qed.

Theorem C36_pow_deriv_sign_positive : forall p k x, 0 < x ->
  exists s v, pow_kth_deriv_sign 1 p k = Ok s /\ is_derive_n (fun x => Rpower x p) k x v /\ sign_is s v.
Proof.
  intros p k x Hx. exists (sign_Z (falling p k)), (powF p k x). split; [reflexivity|]. split.
  - apply (is_derive_n_ext (powF p 0)); [apply powF_0|].
    apply (chain_is_derive_n positive (powF p) k); auto using open_positive, powF_chain.
  - apply powF_sign; auto.
Qed.
Theorem C36_pow_deriv_sign_negative : forall n k x, x < 0 ->
  exists s v, pow_kth_deriv_sign (-1) (IZR n) k = Ok s /\
    is_derive_n (fun x => powerRZ x n) k x v /\ sign_is s v.
Proof.
  intros n k x Hx. do 2 eexists. split.
  { unfold pow_kth_deriv_sign. simpl Z.eqb. cbv iota. rewrite is_int_IZR. reflexivity. }
  split.
  - apply (is_derive_n_ext (zpowF n 0)); [apply zpowF_0|].
    apply (chain_is_derive_n negative (zpowF n) k); auto using open_negative, zpowF_chain.
  - apply zpowF_sign; auto.
Qed.
Theorem C36_pow_deriv_sign_errors : forall p k,
  ((forall n, p <> IZR n) -> pow_kth_deriv_sign (-1) p k = Err ValueError) /\
  (forall s, s <> 1%Z -> s <> (-1)%Z -> pow_kth_deriv_sign s p k = Err ValueError).
Proof.
  intros p k. split.
  - intros H. unfold pow_kth_deriv_sign. simpl Z.eqb. cbv iota. rewrite is_int_None by auto. reflexivity.
  - intros s H1 H2. unfold pow_kth_deriv_sign.
    apply Z.eqb_neq in H1, H2. rewrite H1, H2. reflexivity.
Qed.
(** The second derivative of 1/x is negative for negative x. *)
Example C36_nonvacuous : pow_kth_deriv_sign (-1) (-1) 2 = Ok (-1)%Z.
Proof.
  unfold pow_kth_deriv_sign. simpl Z.eqb. cbv iota. rewrite (is_int_IZR (-1)).
  simpl falling. simpl INR. unfold sign_Z. destruct Rlt_dec as [|H]; [reflexivity|exfalso; lra].
Qed.

(** * C37 *)
Lemma pow_coeffs_gen : forall (p x0 : R) (val : nat -> R) m i,
  (forall j, (i <= j < i + m)%nat -> py_pow x0 (p - INR j) = Ok (val j)) ->
  pow_coeffs p x0 (falling p i) i m
    = Ok (map (fun j => falling p j * val j / INR (fact j)) (seq i m)).
Proof.
  intros p x0 val. induction m; intros i H; [reflexivity|].
  cbn [pow_coeffs seq map]. rewrite H by lia. cbn [bind].
  change (falling p i * (p - INR i)) with (falling p (S i)).
  rewrite IHm; [reflexivity|]. intros j Hj; apply H; lia.
Qed.

Lemma py_pow_pos : forall x p, 0 < x -> py_pow x p = Ok (Rpower x p).
Proof.
  intros x p Hx. unfold py_pow. destruct (is_int p) as [n|] eqn:E.
  - apply is_int_Some in E. destruct Req_EM_T; [lra|]. rewrite E, powerRZ_Rpower by auto. reflexivity.
  - destruct Rlt_dec; [reflexivity|lra].
Qed.
Lemma py_pow_int : forall x n, x <> 0 -> py_pow x (IZR n) = Ok (powerRZ x n).
Proof.
  intros x n Hx. unfold py_pow. rewrite is_int_IZR. destruct Req_EM_T; [contradiction|reflexivity].
Qed.

Lemma pow_coeffs_pos : forall p x0 k, 0 < x0 ->
  pow_coeffs p x0 1 0 (S k) = Ok (taylor_list (powF p) x0 k).
Proof.
  intros. change 1 with (falling p 0).
  rewrite (pow_coeffs_gen p x0 (fun j => Rpower x0 (p - INR j))); [reflexivity|].
  intros; apply py_pow_pos; auto.
Qed.
Lemma pow_coeffs_int : forall n x0 k, x0 <> 0 ->
  pow_coeffs (IZR n) x0 1 0 (S k) = Ok (taylor_list (zpowF n) x0 k).
Proof.
  intros. change 1 with (falling (IZR n) 0).
  rewrite (pow_coeffs_gen (IZR n) x0 (fun j => powerRZ x0 (n - Z.of_nat j))); [reflexivity|].
  intros j _. rewrite INR_IZR_INZ, <- minus_IZR. apply py_pow_int; auto.
Qed.

Lemma sharp_ends_rho : forall F k x0 a b sigma inc,
  sigma a = Ok (F 0%nat a) -> sigma b = Ok (F 0%nat b) ->
  cap_ok k x0 a -> cap_ok k x0 b ->
  sharp_ends x0 k (a, b) sigma (taylor_list F x0 k) inc =
  if inc then (Ok (rho F x0 k a), Ok (rho F x0 k b)) else (Ok (rho F x0 k b), Ok (rho F x0 k a)).
Proof.
  intros. unfold sharp_ends.
  destruct inc; rewrite (ratio_rho F x0 k sigma a), (ratio_rho F x0 k sigma b) by auto; reflexivity.
Qed.

(** The branch taken when the region is non-negative. *)
Lemma pow_enclosure_nonneg_branch : forall F p x0 a b k,
  0 <= a -> pow_coeffs p x0 1 0 (S k) = Ok (taylor_list F x0 k) ->
  py_pow a p = Ok (F 0%nat a) -> py_pow b p = Ok (F 0%nat b) ->
  cap_ok k x0 a -> cap_ok k x0 b ->
  pow_enclosure p x0 (a, b) k =
  Ok (firstn k (taylor_list F x0 k),
      if (0 <=? sign_Z (falling p (k + 1)))%Z then (Fin (rho F x0 k a), Fin (rho F x0 k b))
      else (Fin (rho F x0 k b), Fin (rho F x0 k a))).
Proof.
  intros F p x0 a b k Ha Hc Pa Pb Ca Cb. unfold pow_enclosure. rewrite Hc. cbn [bind].
  unfold pow_kth_deriv_sign at 1. simpl Z.eqb. cbv iota. cbn [bind].
  rewrite !(sharp_ends_rho F) by auto.
  assert (X : exists en, match is_int p with
     | Some _ => sn <- pow_kth_deriv_sign (-1) p (k + 1) ;;
        Ok (sharp_ends x0 k (a, b) (fun x => py_pow x p) (taylor_list F x0 k) (0 <=? sn)%Z)
     | None => Ok (if (0 <=? sign_Z (falling p (k + 1)))%Z
                   then (Ok (rho F x0 k a), Ok (rho F x0 k b)) else (Ok (rho F x0 k b), Ok (rho F x0 k a)))
     end = Ok en).
  { destruct (is_int p) eqn:E; [|eexists; reflexivity].
    unfold pow_kth_deriv_sign. simpl Z.eqb. cbv iota. rewrite E. eexists; reflexivity. }
  destruct X as (en & ->). cbn [bind]. unfold interval_endpoint.
  destruct (Rle_dec 0 a); [|contradiction].
  destruct (0 <=? sign_Z (falling p (k + 1)))%Z; reflexivity.
Qed.

Lemma sign_is_nonneg : forall s v, sign_is s v -> if (0 <=? s)%Z then 0 <= v else v <= 0.
Proof. intros s v [[-> H]|[[-> H]|[-> H]]]; simpl; lra. Qed.

(** x**p for a positive region, any real exponent. *)
Theorem C37_pow_enclosure_valid_positive : forall p k x0 a b,
  0 < a -> a <= x0 <= b -> cap_ok k x0 a -> cap_ok k x0 b ->
  exists cs lo hi, pow_enclosure p x0 (a, b) k = Ok (cs, (Fin lo, Fin hi)) /\
    valid_enclosure (fun x => Rpower x p) x0 (seg a b) k (cs, (lo, hi)).
Proof.
  intros p k x0 a b Ha Hx0 Ca Cb.
  exists (firstn k (taylor_list (powF p) x0 k)).
  set (inc := (0 <=? sign_Z (falling p (k + 1)))%Z).
  exists (if inc then rho (powF p) x0 k a else rho (powF p) x0 k b),
         (if inc then rho (powF p) x0 k b else rho (powF p) x0 k a).
  split.
  - rewrite (pow_enclosure_nonneg_branch (powF p)); auto; try lra.
    + fold inc. destruct inc; reflexivity.
    + apply pow_coeffs_pos; lra.
    + rewrite powF_0. apply py_pow_pos; lra.
    + rewrite powF_0. apply py_pow_pos; lra.
  - apply (valid_ext (powF p 0)); [apply powF_0|].
    assert (M : if inc then increasing_on positive (powF p k) else decreasing_on positive (powF p k)).
    { assert (Sgn : forall x, positive x -> if inc then 0 <= powF p (S k) x else powF p (S k) x <= 0).
      { intros x Hx. assert (Q := sign_is_nonneg _ _ (powF_sign p (S k) x Hx)).
        unfold inc. replace (k + 1)%nat with (S k) by lia. exact Q. }
      destruct inc.
      - apply increasing_of_derive with (powF p (S k)); auto using positive_convex.
        intros; apply powF_derive; auto.
      - apply decreasing_of_derive with (powF p (S k)); auto using positive_convex.
        intros; apply powF_derive; auto. }
    assert (Pos : forall x, seg a b x -> positive x) by (intros x Hx; unfold seg, positive in *; lra).
    assert (Px0 : positive x0) by (unfold positive; lra).
    destruct (sharp_valid_of_rho (powF p) k x0 a b (fun x => Ok (powF p 0 x)) inc) as (e & He & _ & Hv); auto.
    + destruct inc.
      * assert (R := rho_increasing k positive (powF p) x0 positive_convex Px0 (powF_chain p k) M).
        intros x y Hx Hy L. apply R; auto.
      * assert (R := rho_decreasing k positive (powF p) x0 positive_convex Px0 (powF_chain p k) M).
        intros x y Hx Hy L. apply R; auto.
    + rewrite (sharp_of_rho (powF p)) in He by auto. injection He as <-.
      destruct inc; exact Hv.
Qed.

(** The branch for a negative region and an integer exponent. *)
Lemma pow_enclosure_neg_branch : forall F n x0 a b k,
  a < 0 -> b <= 0 -> pow_coeffs (IZR n) x0 1 0 (S k) = Ok (taylor_list F x0 k) ->
  py_pow a (IZR n) = Ok (F 0%nat a) -> py_pow b (IZR n) = Ok (F 0%nat b) ->
  cap_ok k x0 a -> cap_ok k x0 b ->
  pow_enclosure (IZR n) x0 (a, b) k =
  Ok (firstn k (taylor_list F x0 k),
      if (0 <=? sign_Z (falling (IZR n) (k + 1)) * (if Z.even (n - Z.of_nat (k + 1)) then 1 else -1))%Z
      then (Fin (rho F x0 k a), Fin (rho F x0 k b))
      else (Fin (rho F x0 k b), Fin (rho F x0 k a))).
Proof.
  intros F n x0 a b k Ha Hb Hc Pa Pb Ca Cb. unfold pow_enclosure. rewrite Hc. cbn [bind].
  unfold pow_kth_deriv_sign at 1. simpl Z.eqb. cbv iota. cbn [bind].
  rewrite is_int_IZR.
  unfold pow_kth_deriv_sign. simpl Z.eqb. cbv iota. rewrite is_int_IZR. cbn [bind].
  rewrite !(sharp_ends_rho F) by auto. unfold interval_endpoint. rewrite is_int_IZR.
  destruct (Rle_dec 0 a); [lra|]. destruct (Rle_dec b 0); [|lra].
  destruct (0 <=? sign_Z (falling (IZR n) (k + 1)) * (if Z.even (n - Z.of_nat (k + 1)) then 1 else -1))%Z;
    reflexivity.
Qed.

(** x**n for a negative region and an integer exponent. *)
Theorem C37_pow_enclosure_valid_negative : forall n k x0 a b,
  b < 0 -> a <= x0 <= b -> cap_ok k x0 a -> cap_ok k x0 b ->
  exists cs lo hi, pow_enclosure (IZR n) x0 (a, b) k = Ok (cs, (Fin lo, Fin hi)) /\
    valid_enclosure (fun x => powerRZ x n) x0 (seg a b) k (cs, (lo, hi)).
Proof.
  intros n k x0 a b Hb Hx0 Ca Cb.
  exists (firstn k (taylor_list (zpowF n) x0 k)).
  set (inc := (0 <=? sign_Z (falling (IZR n) (k + 1)) * (if Z.even (n - Z.of_nat (k + 1)) then 1 else -1))%Z).
  exists (if inc then rho (zpowF n) x0 k a else rho (zpowF n) x0 k b),
         (if inc then rho (zpowF n) x0 k b else rho (zpowF n) x0 k a).
  split.
  - rewrite (pow_enclosure_neg_branch (zpowF n)); auto; try lra.
    + fold inc. destruct inc; reflexivity.
    + apply pow_coeffs_int; lra.
    + rewrite zpowF_0. apply py_pow_int; lra.
    + rewrite zpowF_0. apply py_pow_int; lra.
  - apply (valid_ext (zpowF n 0)); [apply zpowF_0|].
    assert (M : if inc then increasing_on negative (zpowF n k) else decreasing_on negative (zpowF n k)).
    { assert (Sgn : forall x, negative x -> if inc then 0 <= zpowF n (S k) x else zpowF n (S k) x <= 0).
      { intros x Hx. assert (Q := sign_is_nonneg _ _ (zpowF_sign n (S k) x Hx)).
        unfold inc. replace (k + 1)%nat with (S k) by lia. exact Q. }
      destruct inc.
      - apply increasing_of_derive with (zpowF n (S k)); auto using negative_convex.
        intros x Hx; apply zpowF_derive; unfold negative in Hx; lra.
      - apply decreasing_of_derive with (zpowF n (S k)); auto using negative_convex.
        intros x Hx; apply zpowF_derive; unfold negative in Hx; lra. }
    assert (Neg : forall x, seg a b x -> negative x) by (intros x Hx; unfold seg, negative in *; lra).
    assert (Px0 : negative x0) by (unfold negative; lra).
    destruct (sharp_valid_of_rho (zpowF n) k x0 a b (fun x => Ok (zpowF n 0 x)) inc) as (e & He & _ & Hv); auto.
    + destruct inc.
      * assert (R := rho_increasing k negative (zpowF n) x0 negative_convex Px0 (zpowF_chain n k) M).
        intros x y Hx Hy L. apply R; auto.
      * assert (R := rho_decreasing k negative (zpowF n) x0 negative_convex Px0 (zpowF_chain n k) M).
        intros x y Hx Hy L. apply R; auto.
    + rewrite (sharp_of_rho (zpowF n)) in He by auto. injection He as <-.
      destruct inc; exact Hv.
Qed.

(** Where x**p is undefined or unbounded on part of the region the answer is
    the whole extended line. *)
Theorem C37_pow_enclosure_whole_line : forall p k x0 a b,
  (forall n, p <> IZR n) /\ a < 0 /\ 0 < x0 \/
  (exists n, p = IZR n /\ (n < 0)%Z) /\ a < 0 < b /\ x0 <> 0 ->
  exists cs, pow_enclosure p x0 (a, b) k = Ok (cs, (MInf, PInf)) /\ length cs = k.
Proof.
  intros p k x0 a b [(Hp & Ha & Hx)|((n & -> & Hn) & Hab & Hx)].
  - assert (E := is_int_None p Hp). eexists. unfold pow_enclosure. rewrite pow_coeffs_pos by auto. cbn [bind].
    unfold pow_kth_deriv_sign at 1. simpl Z.eqb. cbv iota. cbn [bind]. rewrite E. cbn [bind].
    unfold interval_endpoint. rewrite E.
    destruct (Rle_dec 0 a); [exfalso; lra|].
    split; [destruct (Rle_dec b 0); reflexivity|apply firstn_taylor_length].
  - eexists. unfold pow_enclosure. rewrite pow_coeffs_int by auto. cbn [bind].
    unfold pow_kth_deriv_sign at 1. simpl Z.eqb. cbv iota. cbn [bind]. rewrite is_int_IZR.
    unfold pow_kth_deriv_sign. simpl Z.eqb. cbv iota. rewrite is_int_IZR. cbn [bind].
    unfold interval_endpoint. rewrite is_int_IZR.
    destruct (Rle_dec 0 a); [exfalso; lra|]. destruct (Rle_dec b 0); [exfalso; lra|].
    destruct (Rlt_dec (IZR n) 0) as [|H]; [|exfalso; apply H, IZR_lt; auto].
    split; [reflexivity|apply firstn_taylor_length].
Qed.

(** * Natural exponents across or touching zero *)
Definition natF (n k : nat) (x : R) : R := falling (INR n) k * x ^ (n - k).

Lemma falling_zero : forall n k, (n < k)%nat -> falling (INR n) k = 0.
Proof.
  intros n k H. induction H; cbn [falling].
  - replace (INR n - INR n) with 0 by ring. ring.
  - rewrite IHle. ring.
Qed.
Lemma falling_pos : forall n k, (k <= n)%nat -> 0 < falling (INR n) k.
Proof.
  intros n k. induction k; intro H; simpl; [lra|]. apply Rmult_lt_0_compat; [apply IHk; lia|].
  assert (INR k < INR n) by (apply lt_INR; lia). lra.
Qed.

Lemma natF_derive : forall n k x, is_derive (natF n k) x (natF n (S k) x).
Proof.
  intros n k x. unfold natF. destruct (le_lt_dec n k) as [L|L].
  - rewrite (falling_zero n (S k)) by lia. replace (n - k)%nat with 0%nat by lia.
    replace (n - S k)%nat with 0%nat by lia. simpl pow.
    rewrite Rmult_0_l. apply (is_derive_const (K := R_AbsRing) (V := R_NormedModule)).
  - apply is_derive_eq with (falling (INR n) k * (INR (n - k) * x ^ pred (n - k))).
    + apply is_derive_scal. apply is_derive_Reals, derivable_pt_lim_pow.
    + cbn [falling]. rewrite minus_INR by lia. replace (pred (n - k)) with (n - S k)%nat by lia. ring.
Qed.
Lemma natF_0 : forall n x, natF n 0 x = x ^ n.
Proof. intros. unfold natF. rewrite Nat.sub_0_r. simpl. ring. Qed.

Lemma py_pow_nat : forall x n, py_pow x (INR n) = Ok (x ^ n).
Proof.
  intros x n. unfold py_pow. rewrite INR_IZR_INZ, is_int_IZR.
  destruct Req_EM_T as [->|Hx].
  - destruct n; [reflexivity|]. rewrite pow_ne_zero by lia. reflexivity.
  - rewrite pow_powerRZ. reflexivity.
Qed.
Lemma pow_coeffs_nat : forall n x0 k, x0 <> 0 \/ (k <= n)%nat ->
  pow_coeffs (INR n) x0 1 0 (S k) = Ok (taylor_list (natF n) x0 k).
Proof.
  intros n x0 k H. change 1 with (falling (INR n) 0).
  destruct H as [H|H].
  - rewrite (pow_coeffs_gen (INR n) x0 (fun j => powerRZ x0 (Z.of_nat n - Z.of_nat j))).
    + f_equal. unfold taylor_list. apply map_ext. intro j. f_equal. unfold natF.
      destruct (le_lt_dec j n) as [L|L].
      * rewrite <- Nat2Z.inj_sub by lia. rewrite <- pow_powerRZ. reflexivity.
      * rewrite falling_zero by auto. ring.
    + intros j _. rewrite !INR_IZR_INZ, <- minus_IZR. apply py_pow_int; auto.
  - rewrite (pow_coeffs_gen (INR n) x0 (fun j => x0 ^ (n - j))); [reflexivity|].
    intros j Hj. rewrite <- minus_INR by lia. apply py_pow_nat.
Qed.

Lemma even_Z_nat : forall m, Z.even (Z.of_nat m) = Nat.even m.
Proof.
  intro m. apply Bool.eq_iff_eq_true. rewrite Z.even_spec, Nat.even_spec. split.
  - intros (z & Hz). exists (Z.to_nat z). lia.
  - intros (z & Hz). exists (Z.of_nat z). lia.
Qed.
Lemma pow_even_nonneg : forall m x, Nat.even m = true -> 0 <= x ^ m.
Proof.
  intros m x H. apply Nat.even_spec in H. destruct H as (j & ->).
  rewrite pow_mult. apply pow_le. apply pow2_ge_0.
Qed.
Lemma pow_odd_nonpos : forall m x, Nat.even m = false -> x <= 0 -> x ^ m <= 0.
Proof.
  intros m x H Hx. destruct m; [discriminate|].
  rewrite Nat.even_succ in H. rewrite <- Nat.negb_even in H. apply negb_false_iff in H.
  simpl. assert (0 <= x ^ m) by (apply pow_even_nonneg; auto). assert (0 <= - x * x ^ m) by (apply Rmult_le_pos; lra). lra.
Qed.

Lemma rho_mono_everywhere : forall n k x0 D, convex D -> D x0 ->
  ((forall x, D x -> 0 <= natF n (S k) x) -> increasing_on D (rho (natF n) x0 k)) /\
  ((forall x, D x -> natF n (S k) x <= 0) -> decreasing_on D (rho (natF n) x0 k)).
Proof.
  intros n k x0 D HD H0.
  assert (Ch : deriv_chain D (natF n) k) by (intros i x _ _; apply natF_derive).
  split; intro H.
  - apply rho_increasing; auto. apply increasing_of_derive with (natF n (S k)); auto.
    intros; apply natF_derive.
  - apply rho_decreasing; auto. apply decreasing_of_derive with (natF n (S k)); auto.
    intros; apply natF_derive.
Qed.

Lemma sign_falling_nat : forall n k,
  sign_Z (falling (INR n) k) = if (k <=? n)%nat then 1%Z else 0%Z.
Proof.
  intros. destruct (k <=? n)%nat eqn:E.
  - apply Nat.leb_le in E. unfold sign_Z. destruct Rlt_dec as [|H]; [reflexivity|]. exfalso. apply H, falling_pos; auto.
  - apply Nat.leb_gt in E. rewrite falling_zero by auto. unfold sign_Z.
    destruct Rlt_dec; [lra|]. destruct Req_EM_T; congruence.
Qed.

(** Natural exponents: any region on one side of 0 (0 included), and regions
    across 0 when the k-th derivative of x**n is monotone on the whole line. *)
Theorem C37_pow_enclosure_valid_natural : forall n k x0 a b,
  a <= x0 <= b -> cap_ok k x0 a -> cap_ok k x0 b ->
  x0 <> 0 \/ (k <= n)%nat ->
  0 <= a \/ b <= 0 \/ (n <= k)%nat \/ Nat.even (n - (k + 1)) = true ->
  exists cs lo hi, pow_enclosure (INR n) x0 (a, b) k = Ok (cs, (Fin lo, Fin hi)) /\
    valid_enclosure (fun x => x ^ n) x0 (seg a b) k (cs, (lo, hi)).
Proof.
  intros n k x0 a b Hx0 Ca Cb Hz Hside.
  assert (Hc := pow_coeffs_nat n x0 k Hz).
  assert (Pa : forall x, py_pow x (INR n) = Ok (natF n 0 x)) by (intro; rewrite natF_0; apply py_pow_nat).
  exists (firstn k (taylor_list (natF n) x0 k)).
  assert (V : forall inc : bool,
     (if inc then increasing_on (seg a b) (rho (natF n) x0 k) else decreasing_on (seg a b) (rho (natF n) x0 k)) ->
     valid_enclosure (fun x => x ^ n) x0 (seg a b) k
       (firstn k (taylor_list (natF n) x0 k),
        ((if inc then rho (natF n) x0 k a else rho (natF n) x0 k b),
         (if inc then rho (natF n) x0 k b else rho (natF n) x0 k a)))).
  { intros inc M. apply (valid_ext (natF n 0)); [apply natF_0|].
    destruct (sharp_valid_of_rho (natF n) k x0 a b (fun x => Ok (natF n 0 x)) inc) as (e & He & _ & Hv); auto.
    rewrite (sharp_of_rho (natF n)) in He by auto. injection He as <-. destruct inc; exact Hv. }
  assert (HS : convex (seg a b)) by (intros x y z Hx Hz' L; unfold seg in *; lra).
  destruct (rho_mono_everywhere n k x0 (seg a b) HS Hx0) as [MI MD].
  assert (Sg : forall x, 0 <= x \/ (n <= k)%nat \/ Nat.even (n - (k + 1)) = true -> 0 <= natF n (S k) x).
  { intros x H. unfold natF. destruct (le_lt_dec (S k) n) as [L|L].
    - apply Rmult_le_pos; [left; apply falling_pos; auto|].
      destruct H as [H|[H|H]]; [apply pow_le; auto|lia|].
      apply pow_even_nonneg. replace (n - S k)%nat with (n - (k + 1))%nat by lia. auto.
    - rewrite falling_zero by auto. lra. }
  destruct (Rle_dec 0 a) as [La|La].
  - exists (rho (natF n) x0 k a), (rho (natF n) x0 k b). split.
    + rewrite (pow_enclosure_nonneg_branch (natF n)); auto.
      rewrite sign_falling_nat. destruct (k + 1 <=? n)%nat; reflexivity.
    + apply (V true). apply MI. intros x Hx. apply Sg. left. unfold seg in Hx. lra.
  - destruct (Rle_dec b 0) as [Lb|Lb].
    + set (inc := (n <=? k)%nat || Nat.even (n - (k + 1))).
      exists (if inc then rho (natF n) x0 k a else rho (natF n) x0 k b),
             (if inc then rho (natF n) x0 k b else rho (natF n) x0 k a). split.
      * rewrite INR_IZR_INZ in *. rewrite (pow_enclosure_neg_branch (natF n)); auto; try lra.
        rewrite <- INR_IZR_INZ, sign_falling_nat. unfold inc.
        destruct (le_lt_dec n k) as [L|L].
        -- replace (k + 1 <=? n)%nat with false by (symmetry; apply Nat.leb_gt; lia).
           replace (n <=? k)%nat with true by (symmetry; apply Nat.leb_le; lia).
           rewrite Z.mul_0_l. reflexivity.
        -- replace (k + 1 <=? n)%nat with true by (symmetry; apply Nat.leb_le; lia).
           replace (n <=? k)%nat with false by (symmetry; apply Nat.leb_gt; lia).
           rewrite <- Nat2Z.inj_sub, even_Z_nat by lia. cbn [orb].
           destruct (Nat.even (n - (k + 1))); reflexivity.
      * apply V. destruct inc eqn:Ei.
        -- apply MI. intros x _. apply Sg. right. unfold inc in Ei. apply orb_prop in Ei.
           destruct Ei as [E|E]; [left; apply Nat.leb_le; auto|right; auto].
        -- apply MD. intros x Hx. unfold inc in Ei. apply orb_false_elim in Ei. destruct Ei as [E1 E2].
           apply Nat.leb_gt in E1. unfold natF.
           assert (x ^ (n - S k) <= 0).
           { apply pow_odd_nonpos; [replace (n - S k)%nat with (n - (k + 1))%nat by lia; auto|unfold seg in Hx; lra]. }
           assert (P := falling_pos n (S k) ltac:(lia)).
           assert (0 <= falling (INR n) (S k) * - x ^ (n - S k)) by (apply Rmult_le_pos; lra). lra.
    + destruct Hside as [H|[H|H]]; [lra|lra|].
      exists (rho (natF n) x0 k a), (rho (natF n) x0 k b). split.
      * unfold pow_enclosure. rewrite Hc. cbn [bind].
        unfold pow_kth_deriv_sign at 1. simpl Z.eqb. cbv iota. cbn [bind].
        rewrite INR_IZR_INZ in *. rewrite is_int_IZR.
        unfold pow_kth_deriv_sign. simpl Z.eqb. cbv iota. rewrite is_int_IZR. cbn [bind].
        rewrite !(sharp_ends_rho (natF n)) by auto.
        unfold interval_endpoint. rewrite is_int_IZR.
        destruct (Rle_dec 0 a); [lra|]. destruct (Rle_dec b 0); [lra|].
        destruct (Rlt_dec (IZR (Z.of_nat n)) 0) as [Hn|_].
        { exfalso. rewrite <- INR_IZR_INZ in Hn. assert (Q := pos_INR n). lra. }
        rewrite <- INR_IZR_INZ, sign_falling_nat.
        assert (G : (0 <=? (if (k + 1 <=? n)%nat then 1 else 0) *
                     (if Z.even (Z.of_nat n - Z.of_nat (k + 1)) then 1 else -1))%Z = true).
        { destruct (le_lt_dec n k) as [L|L].
          - replace (k + 1 <=? n)%nat with false by (symmetry; apply Nat.leb_gt; lia). reflexivity.
          - replace (k + 1 <=? n)%nat with true by (symmetry; apply Nat.leb_le; lia).
            destruct H as [H|H]; [lia|].
            rewrite <- Nat2Z.inj_sub, even_Z_nat, H by lia. reflexivity. }
        rewrite G.
        replace (0 <=? (if (k + 1 <=? n)%nat then 1 else 0))%Z with true
          by (destruct (k + 1 <=? n)%nat; reflexivity).
        cbn [fst snd bind fin]. rewrite Rmin_left, Rmax_left by lra. reflexivity.
      * apply (V true). apply MI. intros x Hx. apply Sg. right; auto.
Qed.

Example C37_nonvacuous : 
  (0 < 1 /\ 1 <= 2 <= 4 /\ cap_ok 3 2 1 /\ cap_ok 3 2 4) /\
  (-1 < 0 /\ -4 <= -2 <= -1 /\ cap_ok 3 (-2) (-4) /\ cap_ok 3 (-2) (-1)).
Proof.
  repeat split; try lra; right; unfold Rabs; destruct Rcase_abs; simpl; lra.
Qed.

(** * C38 *)
Theorem C38_pow_enclosure_across_zero_refuted :
  exists cs lo hi, pow_enclosure 4 1 (-2, 2) 2 = Ok (cs, (Fin lo, Fin hi)) /\
    ~ encl_value cs (lo, hi) (-1 - 1) ((-1) ^ 4).
Proof.
  exists (firstn 2 (taylor_list (natF 4) 1 2)), 3, 11. split.
  - assert (E4 : 4 = INR 4) by (simpl; lra). rewrite E4.
    assert (Pa : forall x, py_pow x (INR 4) = Ok (natF 4 0 x)) by (intro; rewrite natF_0; apply py_pow_nat).
    assert (Ca : cap_ok 2 1 (-2)) by (right; unfold Rabs; destruct Rcase_abs; simpl; lra).
    assert (Cb : cap_ok 2 1 2) by (right; unfold Rabs; destruct Rcase_abs; simpl; lra).
    unfold pow_enclosure. rewrite pow_coeffs_nat by (left; lra). cbn [bind].
    unfold pow_kth_deriv_sign at 1. simpl Z.eqb. cbv iota. cbn [bind].
    assert (I4 : is_int (INR 4) = Some 4%Z) by (rewrite INR_IZR_INZ; apply is_int_IZR).
    rewrite I4. unfold pow_kth_deriv_sign. simpl Z.eqb. cbv iota. rewrite I4. cbn [bind].
    rewrite !(sharp_ends_rho (natF 4)) by auto. rewrite sign_falling_nat.
    unfold interval_endpoint. rewrite I4.
    destruct (Rle_dec 0 (-2)); [lra|]. destruct (Rle_dec 2 0); [lra|].
    destruct (Rlt_dec (INR 4) 0) as [H|_]; [simpl in H; lra|].
    cbn [Nat.leb Nat.add Z.leb Z.of_nat Z.mul Z.sub Z.add Z.even Pos.of_succ_nat fst snd bind].
    simpl Z.leb. cbv iota. cbn [fst snd bind].
    assert (Ra : rho (natF 4) 1 2 (-2) = 3).
    { unfold rho, rem. destruct Req_EM_T; [lra|]. unfold natF. simpl. field. }
    assert (Rb : rho (natF 4) 1 2 2 = 11).
    { unfold rho, rem. destruct Req_EM_T; [lra|]. unfold natF. simpl. field. }
    rewrite Ra, Rb. change (0 <=? 1)%Z with true. change (0 <=? -1)%Z with false. cbn [fst snd bind]. rewrite Rmin_left, Rmax_left by lra. reflexivity.
  - intro H. rewrite <- natF_0 in H. apply encl_value_rho_inv in H; [|lra]. cbn [fst snd] in H.
    assert (R1 : rho (natF 4) 1 2 (-1) = 2).
    { unfold rho, rem. destruct Req_EM_T; [lra|]. unfold natF. simpl. field. }
    rewrite R1 in H. lra.
Qed.
