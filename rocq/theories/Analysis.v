(** Real analysis used for the one-dimensional enclosures: Taylor remainders of
    a chain of derivatives, their quotient by (x - x0)^k, its monotonicity and
    its mean-value form.  Nothing here mentions the model. *)
From Coq Require Import Reals Lra Lia Arith.
From Coquelicot Require Import Coquelicot.
From Verif Require Export ElementSpec.
Open Scope R_scope.

(** Taylor polynomial with the first [k] terms, and the remainder. *)
Fixpoint tpoly (F : nat -> R -> R) (x0 : R) (k : nat) (x : R) : R :=
  match k with
  | O => 0
  | S j => tpoly F x0 j x + F j x0 / INR (fact j) * (x - x0) ^ j
  end.
Definition rem (F : nat -> R -> R) (x0 : R) (k : nat) (x : R) : R := F O x - tpoly F x0 k x.
Definition rho (F : nat -> R -> R) (x0 : R) (k : nat) (x : R) : R :=
  if Req_EM_T x x0 then F k x0 / INR (fact k) else rem F x0 k x / (x - x0) ^ k.

Definition shift (F : nat -> R -> R) : nat -> R -> R := fun i => F (S i).

Lemma INR_fact_pos : forall n, 0 < INR (fact n).
Proof. intro. apply INR_fact_lt_0. Qed.

Lemma tpoly_derive : forall F x0 k x,
  is_derive (tpoly F x0 (S k)) x (tpoly (shift F) x0 k x).
Proof.
  induction k; intros x; simpl tpoly.
  - auto_derive; [exact I|ring].
  - apply (is_derive_plus (K := R_AbsRing) (V := R_NormedModule)
             (fun x => tpoly F x0 (S k) x) (fun x => F (S k) x0 / INR (fact (S k)) * (x - x0) ^ S k)).
    + apply IHk.
    + set (w := INR (fact (S k))). assert (Hw : w = INR (S k) * INR (fact k)) by (unfold w; rewrite fact_simpl, mult_INR; reflexivity).
      clearbody w. auto_derive; [exact I|]. unfold shift.
      replace (Init.Nat.pred (S k)) with k by reflexivity.
      change (match k with O => 1 | S _ => INR k + 1 end) with (INR (S k)).
      rewrite Hw. replace (x + - x0) with (x - x0) by ring.
      assert (N1 := INR_fact_neq_0 k). assert (N2 : INR (S k) <> 0) by (apply not_0_INR; lia).
      generalize dependent (INR (S k)); intros. generalize ((x - x0) ^ k); intro. field. auto.
Qed.

Lemma rem_derive : forall D F x0 k x,
  deriv_chain D F (S k) -> D x ->
  is_derive (rem F x0 (S k)) x (rem (shift F) x0 k x).
Proof.
  intros. unfold rem.
  apply (is_derive_minus (K := R_AbsRing) (V := R_NormedModule)).
  - apply H; [lia|auto].
  - apply tpoly_derive.
Qed.

Lemma tpoly_x0 : forall F x0 k, tpoly F x0 (S k) x0 = F O x0.
Proof.
  induction k; simpl tpoly.
  - simpl; field.
  - simpl tpoly in IHk. rewrite IHk.
    replace (x0 - x0) with 0 by ring. ring.
Qed.
Lemma rem_x0 : forall F x0 k, rem F x0 (S k) x0 = 0.
Proof. intros; unfold rem; rewrite tpoly_x0; ring. Qed.

Lemma chain_shift : forall D F k, deriv_chain D F (S k) -> deriv_chain D (shift F) k.
Proof. intros D F k H i x Hi Hx. apply H; [lia|auto]. Qed.

Lemma is_derive_Reals_fwd : forall f x l, is_derive f x l -> derivable_pt_lim f x l.
Proof. intros; apply is_derive_Reals; auto. Qed.

Lemma is_derive_eq : forall (f : R -> R) (x l l' : R), is_derive f x l -> l = l' -> is_derive f x l'.
Proof. intros; subst; auto. Qed.

(** Strict mean value for the remainder quotient. *)
Lemma rho_mvt : forall D F x0 k t,
  convex D -> D x0 -> D t -> t <> x0 -> deriv_chain D F (S k) ->
  exists xi, ((x0 < xi < t) \/ (t < xi < x0)) /\
    INR (S k) * rho F x0 (S k) t = rho (shift F) x0 k xi.
Proof.
  intros D F x0 k t HD Hx0 Ht Hne HF.
  set (R1 := rem F x0 (S k)).
  set (phi := fun s => R1 t * (s - x0) ^ S k - R1 s * (t - x0) ^ S k).
  set (dphi := fun s => R1 t * (INR (S k) * (s - x0) ^ k) - rem (shift F) x0 k s * (t - x0) ^ S k).
  assert (Hd : forall s, D s -> is_derive phi s (dphi s)).
  { intros s Hs. unfold phi, dphi.
    apply (is_derive_minus (K := R_AbsRing) (V := R_NormedModule)
             (fun s => R1 t * (s - x0) ^ S k) (fun s => R1 s * (t - x0) ^ S k)).
    - auto_derive; [exact I|]. change (Init.Nat.pred (S k)) with k.
      replace (s + - x0) with (s - x0) by ring.
      change (match k with O => 1 | S _ => INR k + 1 end) with (INR (S k)). ring.
    - assert (X := rem_derive D F x0 k s HF Hs). fold R1 in X.
      apply (is_derive_ext (fun s => (t - x0) ^ S k * R1 s)).
      { intros; apply Rmult_comm. }
      replace (rem (shift F) x0 k s * (t - x0) ^ S k) with
        ((t - x0) ^ S k * rem (shift F) x0 k s) by ring.
      apply is_derive_scal. exact X. }
  assert (H0 : phi x0 = 0).
  { unfold phi, R1. rewrite rem_x0. replace (x0 - x0) with 0 by ring.
    rewrite pow_ne_zero by lia. ring. }
  assert (H1 : phi t = 0) by (unfold phi; ring).
  assert (exists xi, ((x0 < xi < t) \/ (t < xi < x0)) /\ dphi xi = 0) as (xi & Hxi & Hz).
  { destruct (Rtotal_order x0 t) as [L|[L|L]]; [|congruence|].
    - destruct (MVT_cor2 phi dphi x0 t L) as (c & Hc & Hc').
      { intros c Hc. apply is_derive_Reals, Hd. apply (HD x0 c t); auto. }
      exists c; split; [auto|]. rewrite H0, H1 in Hc.
      assert (dphi c * (t - x0) = 0) by lra.
      apply Rmult_integral in H. destruct H; [auto|lra].
    - destruct (MVT_cor2 phi dphi t x0 L) as (c & Hc & Hc').
      { intros c Hc. apply is_derive_Reals, Hd. apply (HD t c x0); auto. }
      exists c; split; [auto|]. rewrite H0, H1 in Hc.
      assert (dphi c * (x0 - t) = 0) by lra.
      apply Rmult_integral in H. destruct H; [auto|lra]. }
  exists xi; split; [auto|].
  assert (xi - x0 <> 0) by (destruct Hxi; lra).
  assert (t - x0 <> 0) by lra.
  unfold rho. destruct (Req_EM_T t x0); [congruence|].
  destruct (Req_EM_T xi x0); [lra|].
  fold R1. unfold dphi in Hz.
  assert (P1 := pow_nonzero (xi - x0) k H). assert (P2 := pow_nonzero (t - x0) (S k) H2).
  apply (Rmult_eq_reg_r ((xi - x0) ^ k * (t - x0) ^ S k)); [|apply Rmult_integral_contrapositive_currified; auto].
  transitivity (R1 t * (INR (S k) * (xi - x0) ^ k)).
  - field. auto.
  - transitivity (rem (shift F) x0 k xi * (t - x0) ^ S k); [lra|]. field. auto.
Qed.

Lemma rho_0 : forall F x0 x, rho F x0 0 x = F O x.
Proof. intros; unfold rho. destruct (Req_EM_T x x0); [subst; simpl; field|unfold rem; simpl; field]. Qed.

Lemma rho_x0 : forall F x0 k, rho F x0 k x0 = F k x0 / INR (fact k).
Proof. intros; unfold rho; destruct (Req_EM_T x0 x0); congruence. Qed.

Lemma rho_x0_shift : forall F x0 k, INR (S k) * rho F x0 (S k) x0 = rho (shift F) x0 k x0.
Proof.
  intros. rewrite !rho_x0. unfold shift. rewrite fact_simpl, mult_INR. field.
  split; [apply INR_fact_neq_0|apply not_0_INR; lia].
Qed.

(** Lagrange form: the quotient is the k-th derivative somewhere between. *)
Theorem rho_lagrange : forall k D F x0 x,
  convex D -> D x0 -> D x -> deriv_chain D F k ->
  exists xi, Rmin x0 x <= xi <= Rmax x0 x /\ D xi /\ rho F x0 k x = F k xi / INR (fact k).
Proof.
  induction k; intros D F x0 x HD H0 Hx HF.
  - exists x. split; [split; [apply Rmin_r|apply Rmax_r]|split; [auto|]].
    rewrite rho_0. simpl; field.
  - destruct (Req_EM_T x x0) as [->|Hne].
    + exists x0. split; [split; [apply Rmin_r|apply Rmax_r]|split; [auto|]]. apply rho_x0.
    + destruct (rho_mvt D F x0 k x HD H0 Hx Hne HF) as (s & Hs & E).
      assert (Ds : D s) by (destruct Hs; [apply (HD x0 s x)|apply (HD x s x0)]; auto; lra).
      destruct (IHk D (shift F) x0 s HD H0 Ds (chain_shift _ _ _ HF)) as (xi & Hxi & Dxi & E2).
      exists xi. split; [|split; [auto|]].
      * revert Hxi. unfold Rmin, Rmax. destruct Hs; repeat destruct Rle_dec; lra.
      * rewrite E2 in E. unfold shift in E. rewrite fact_simpl, mult_INR.
        assert (INR (S k) <> 0) by (apply not_0_INR; lia).
        apply (Rmult_eq_reg_l (INR (S k))); [|auto]. rewrite E. field.
        split; [apply INR_fact_neq_0|auto].
Qed.

Lemma rho_derive : forall (D : R -> Prop) F x0 k t,
  D t -> t <> x0 -> deriv_chain D F (S k) ->
  is_derive (fun s => rem F x0 (S k) s / (s - x0) ^ S k) t
    ((rho (shift F) x0 k t - INR (S k) * rho F x0 (S k) t) / (t - x0)).
Proof.
  intros D F x0 k t Dt Hne HF.
  assert (X := rem_derive D F x0 k t HF Dt).
  assert (t - x0 <> 0) by lra.
  assert (P := pow_nonzero (t - x0) k H).
  unfold rho. destruct (Req_EM_T t x0); [congruence|].
  replace ((rem (shift F) x0 k t / (t - x0) ^ k - INR (S k) * (rem F x0 (S k) t / (t - x0) ^ S k)) / (t - x0))
    with ((rem (shift F) x0 k t * (t - x0) ^ S k - rem F x0 (S k) t * (INR (S k) * (t - x0) ^ k)) / ((t - x0) ^ S k) ^ 2).
  2:{ simpl pow. field. auto. }
  apply (is_derive_div (rem F x0 (S k)) (fun s => (s - x0) ^ S k)).
  - exact X.
  - auto_derive; [exact I|]. change (Init.Nat.pred (S k)) with k.
    replace (t + - x0) with (t - x0) by ring.
    change (match k with O => 1 | S _ => INR k + 1 end) with (INR (S k)). ring.
  - simpl; apply Rmult_integral_contrapositive_currified; auto.
Qed.

(** The remainder quotient of a function whose k-th derivative increases is
    itself increasing. *)
Theorem rho_increasing : forall k D F x0,
  convex D -> D x0 -> deriv_chain D F k -> increasing_on D (F k) ->
  increasing_on D (rho F x0 k).
Proof.
  induction k; intros D F x0 HD H0 HF HI.
  - intros x y Dx Dy L. rewrite !rho_0. apply HI; auto.
  - set (r := rho (shift F) x0 k).
    assert (Hr : increasing_on D r).
    { apply IHk; auto. apply chain_shift; auto. }
    set (q := rho F x0 (S k)).
    assert (Hn : 0 < INR (S k)) by (apply lt_0_INR; lia).
    assert (Q0 : INR (S k) * q x0 = r x0) by apply rho_x0_shift.
    assert (Qt : forall t, D t -> t <> x0 ->
              exists xi, D xi /\ ((x0 < xi < t) \/ (t < xi < x0)) /\ INR (S k) * q t = r xi).
    { intros t Dt Ht. destruct (rho_mvt D F x0 k t HD H0 Dt Ht HF) as (xi & Hxi & E).
      exists xi. split; [|split; auto].
      destruct Hxi; [apply (HD x0 xi t)|apply (HD t xi x0)]; auto; lra. }
    assert (Cross1 : forall t, D t -> x0 <= t -> q x0 <= q t).
    { intros t Dt Ht. destruct (Req_EM_T t x0) as [->|Hne]; [lra|].
      destruct (Qt t Dt Hne) as (xi & Dxi & [B|B] & E); [|lra].
      apply (Rmult_le_reg_l (INR (S k))); [auto|]. rewrite E, Q0. apply Hr; auto; lra. }
    assert (Cross2 : forall t, D t -> t <= x0 -> q t <= q x0).
    { intros t Dt Ht. destruct (Req_EM_T t x0) as [->|Hne]; [lra|].
      destruct (Qt t Dt Hne) as (xi & Dxi & [B|B] & E); [lra|].
      apply (Rmult_le_reg_l (INR (S k))); [auto|]. rewrite E, Q0. apply Hr; auto; lra. }
    assert (Side : forall s t, D s -> D t -> s < t -> x0 < s \/ t < x0 -> q s <= q t).
    { intros s t Ds Dt L Hs.
      set (dq := fun u => (r u - INR (S k) * q u) / (u - x0)).
      destruct (MVT_cor2 (fun u => rem F x0 (S k) u / (u - x0) ^ S k) dq s t L) as (c & Hc & Hc').
      { intros c Hc. apply is_derive_Reals. apply (rho_derive D); auto; [apply (HD s c t); auto|lra]. }
      assert (E1 : q s = rem F x0 (S k) s / (s - x0) ^ S k).
      { unfold q, rho. destruct (Req_EM_T s x0); [lra|reflexivity]. }
      assert (E2 : q t = rem F x0 (S k) t / (t - x0) ^ S k).
      { unfold q, rho. destruct (Req_EM_T t x0); [lra|reflexivity]. }
      rewrite <- E1, <- E2 in Hc.
      assert (Dc : D c) by (apply (HD s c t); auto; lra).
      assert (0 <= dq c).
      { unfold dq. destruct (Qt c Dc) as (xi & Dxi & B & E); [lra|]. rewrite E.
        destruct B as [B|B].
        - apply Rle_mult_inv_pos; [|lra]. assert (r xi <= r c) by (apply Hr; auto; lra). lra.
        - replace ((r c - r xi) / (c - x0)) with ((r xi - r c) / (x0 - c)) by (field; lra).
          apply Rle_mult_inv_pos; [|lra]. assert (r c <= r xi) by (apply Hr; auto; lra). lra. }
      assert (0 <= dq c * (t - s)) by (apply Rmult_le_pos; lra). lra. }
    intros s t Ds Dt L.
    destruct (Rtotal_order s t) as [L'|[<-|L']]; [|lra|lra].
    destruct (Rlt_dec x0 s); [apply Side; auto|].
    destruct (Rlt_dec t x0); [apply Side; auto|].
    apply Rle_trans with (q x0); [apply Cross2|apply Cross1]; auto; lra.
Qed.

Lemma tpoly_opp : forall F x0 k x, tpoly (fun i y => - F i y) x0 k x = - tpoly F x0 k x.
Proof. induction k; intros; simpl; [ring|]. rewrite IHk. unfold Rdiv; ring. Qed.

Lemma rho_opp : forall F x0 k x, rho (fun i y => - F i y) x0 k x = - rho F x0 k x.
Proof.
  intros. unfold rho. destruct (Req_EM_T x x0); [unfold Rdiv; ring|].
  unfold rem. rewrite tpoly_opp. unfold Rdiv; ring.
Qed.

Theorem rho_decreasing : forall k D F x0,
  convex D -> D x0 -> deriv_chain D F k -> decreasing_on D (F k) ->
  decreasing_on D (rho F x0 k).
Proof.
  intros k D F x0 HD H0 HF HI x y Dx Dy L.
  assert (X := rho_increasing k D (fun i y => - F i y) x0 HD H0).
  assert (rho (fun i y => - F i y) x0 k x <= rho (fun i y => - F i y) x0 k y).
  { apply X; auto.
    - intros i z Hi Dz. apply (is_derive_opp (K := R_AbsRing) (V := R_NormedModule)). apply HF; auto.
    - intros u v Du Dv Hle. apply Ropp_le_contravar. apply HI; auto. }
  rewrite !rho_opp in H. lra.
Qed.

(** What the quotient is for: the Taylor identity. *)
Lemma rho_taylor : forall F x0 k x, (x = x0 -> (0 < k)%nat) ->
  F O x = tpoly F x0 k x + rho F x0 k x * (x - x0) ^ k.
Proof.
  intros. unfold rho. destruct (Req_EM_T x x0) as [->|Hne].
  - destruct k; [specialize (H eq_refl); lia|]. rewrite tpoly_x0.
    replace (x0 - x0) with 0 by ring. rewrite pow_ne_zero by lia. ring.
  - unfold rem. field. apply pow_nonzero. lra.
Qed.
Lemma rho_taylor' : forall F x0 k x,
  F O x = tpoly F x0 k x + rho F x0 k x * (x - x0) ^ k.
Proof.
  intros. destruct k; [rewrite rho_0; simpl; ring|apply rho_taylor; lia].
Qed.

(** Monotonicity from the sign of a derivative on a convex set. *)
Lemma increasing_of_derive : forall D f df, convex D ->
  (forall x, D x -> is_derive f x (df x)) -> (forall x, D x -> 0 <= df x) -> increasing_on D f.
Proof.
  intros D f df HD Hf Hp x y Dx Dy L.
  destruct (Rtotal_order x y) as [L'|[<-|L']]; [|lra|lra].
  destruct (MVT_cor2 f df x y L') as (c & Hc & Hc').
  { intros c Hc. apply is_derive_Reals, Hf. apply (HD x c y); auto. }
  assert (0 <= df c) by (apply Hp, (HD x c y); auto; lra).
  assert (0 <= df c * (y - x)) by (apply Rmult_le_pos; lra). lra.
Qed.
Lemma decreasing_of_derive : forall D f df, convex D ->
  (forall x, D x -> is_derive f x (df x)) -> (forall x, D x -> df x <= 0) -> decreasing_on D f.
Proof.
  intros D f df HD Hf Hp x y Dx Dy L.
  destruct (Rtotal_order x y) as [L'|[<-|L']]; [|lra|lra].
  destruct (MVT_cor2 f df x y L') as (c & Hc & Hc').
  { intros c Hc. apply is_derive_Reals, Hf. apply (HD x c y); auto. }
  assert (df c <= 0) by (apply Hp, (HD x c y); auto; lra).
  assert (0 <= - df c * (y - x)) by (apply Rmult_le_pos; lra). lra.
Qed.

(** Strict version of [rho_lagrange]. *)
Theorem rho_lagrange_strict : forall k D F x0 x,
  convex D -> D x0 -> D x -> x <> x0 -> deriv_chain D F (S k) ->
  exists xi, (x0 < xi < x \/ x < xi < x0) /\ D xi /\ rho F x0 (S k) x = F (S k) xi / INR (fact (S k)).
Proof.
  induction k; intros D F x0 x HD H0 Hx Hne HF;
    destruct (rho_mvt D F x0 _ x HD H0 Hx Hne HF) as (s & Hs & E);
    assert (Ds : D s) by (destruct Hs; [apply (HD x0 s x)|apply (HD x s x0)]; auto; lra).
  - exists s. split; [auto|split; [auto|]]. rewrite rho_0 in E. unfold shift in E. simpl in *. lra.
  - destruct (IHk D (shift F) x0 s HD H0 Ds ltac:(destruct Hs; lra) (chain_shift _ _ _ HF))
      as (xi & Hxi & Dxi & E2).
    exists xi. split; [destruct Hs, Hxi; lra|split; [auto|]].
    rewrite E2 in E. unfold shift in E. rewrite (fact_simpl (S k)), mult_INR.
    assert (INR (S (S k)) <> 0) by (apply not_0_INR; lia).
    apply (Rmult_eq_reg_l (INR (S (S k)))); [|auto]. rewrite E. field.
    split; [apply INR_fact_neq_0|auto].
Qed.

(** A chain of derivatives on an open set gives the iterated derivatives. *)
Theorem chain_is_derive_n : forall (D : R -> Prop) F k,
  (forall x, D x -> locally x D) -> deriv_chain D F k ->
  forall i x, (i <= k)%nat -> D x -> is_derive_n (F 0%nat) i x (F i x).
Proof.
  intros D F k HO HF.
  assert (H : forall i, (i <= k)%nat -> forall x, D x ->
            Derive_n (F 0%nat) i x = F i x /\ is_derive_n (F 0%nat) i x (F i x)).
  { induction i; intros Hi x Dx.
    - split; reflexivity.
    - assert (IH : forall y, D y -> Derive_n (F 0%nat) i y = F i y) by (intros; apply IHi; auto; lia).
      assert (E : is_derive (Derive_n (F 0%nat) i) x (F (S i) x)).
      { apply (is_derive_ext_loc (F i)).
        - generalize (HO x Dx). apply filter_imp. intros y Dy. symmetry. auto.
        - apply HF; [lia|auto]. }
      split; [|exact E]. simpl. apply is_derive_unique. exact E. }
  intros i x Hi Dx. apply H; auto.
Qed.
