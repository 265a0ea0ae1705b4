(** The places where the second and third derivative of the sigmoid and swish
    with its first two derivatives turn: existence, location to within 1e-12 and
    monotonicity between them.  Nothing here mentions the model. *)
From Coq Require Import Reals Lra Lia Arith.
From Coquelicot Require Import Coquelicot.
From Verif Require Import Base Elementwise ElementSpec Analysis ElementwiseProofs ExpBounds.
Open Scope R_scope.

Definition upto (m : R) : R -> Prop := fun x => x <= m.
Definition from (m : R) : R -> Prop := fun x => m <= x.
Lemma convex_upto : forall m, convex (upto m).
Proof. intros m x y z Hx Hz L. unfold upto in *. lra. Qed.
Lemma convex_from : forall m, convex (from m).
Proof. intros m x y z Hx Hz L. unfold from in *. lra. Qed.
Lemma convex_seg : forall a b, convex (seg a b).
Proof. intros a b x y z Hx Hz L. unfold seg in *. lra. Qed.

Definition del : R := 9 / 10 ^ 13.

Lemma exp_right : forall m l u, l <= exp m <= u -> 0 < l ->
  l * (1 + del) <= exp (m + del) <= u * (1 + del + 2 * del ^ 2).
Proof.
  intros m l u H Hl. rewrite exp_plus.
  assert (A : 1 + del <= exp del) by (left; apply exp_ineq1; unfold del; lra).
  assert (B : exp del <= 1 + del + 2 * del ^ 2).
  { assert (C : 1 + - del <= exp (- del)) by (left; apply exp_ineq1; unfold del; lra).
    rewrite exp_Ropp in C. assert (P := exp_pos del).
    apply (Rmult_le_reg_r (/ exp del)); [apply Rinv_0_lt_compat; auto|]. rewrite Rinv_r by lra.
    apply Rle_trans with ((1 + del + 2 * del ^ 2) * (1 + - del)); [unfold del; lra|].
    apply Rmult_le_compat_l; [unfold del; lra|auto]. }
  assert (P := exp_pos del). split; apply Rmult_le_compat; try lra; unfold del; lra.
Qed.
Lemma exp_left : forall m l u, l <= exp m <= u -> 0 < l ->
  l * (1 - del) <= exp (m - del) <= u * (1 - del + del ^ 2).
Proof.
  intros m l u H Hl. unfold Rminus. rewrite exp_plus.
  assert (A : 1 + - del <= exp (- del)) by (left; apply exp_ineq1; unfold del; lra).
  assert (B : exp (- del) <= 1 + - del + del ^ 2).
  { rewrite exp_Ropp.
    assert (C : 1 + del <= exp del) by (left; apply exp_ineq1; unfold del; lra).
    apply Rle_trans with (/ (1 + del)); [apply Rinv_le_contravar; auto; unfold del; lra|].
    unfold del. lra. }
  assert (P := exp_pos (- del)). split; apply Rmult_le_compat; try lra; unfold del; lra.
Qed.

Lemma root_between : forall (p dp : R -> R) l u, (forall x, is_derive p x (dp x)) -> l < u ->
  p l < 0 -> 0 < p u -> exists m, l <= m <= u /\ p m = 0.
Proof.
  intros p dp l u Hd L Hl Hu.
  destruct (IVT p l u) as (m & Hm & E); auto.
  { intro x. apply derivable_continuous_pt. exists (dp x). apply is_derive_Reals, Hd. }
  exists m. auto.
Qed.

(** v = sigma'. *)
Definition vv (x : R) : R := sg x * (1 - sg x).
Lemma vv_pos : forall x, 0 < vv x.
Proof. intro x. unfold vv. assert (A := sg_pos x). assert (B := sg_lt1 x). apply Rmult_lt_0_compat; lra. Qed.
Lemma sg_E : forall x, sg x = exp x / (1 + exp x).
Proof. intro x. unfold sg. rewrite exp_Ropp. assert (E := exp_pos x). field. split; lra. Qed.

(** cosh-like factors: exp x - c + exp (-x). *)
Definition ch (c x : R) : R := exp x - c + exp (- x).
Lemma ch_even : forall c x, ch c (- x) = ch c x.
Proof. intros. unfold ch. rewrite Ropp_involutive. ring. Qed.
Lemma ch_derive : forall c x, is_derive (ch c) x (exp x - exp (- x)).
Proof. intros. unfold ch. auto_derive; [exact I|ring]. Qed.
Lemma ch_inc : forall c, increasing_on (from 0) (ch c).
Proof.
  intros c. apply increasing_of_derive with (fun x => exp x - exp (- x)).
  - apply convex_from.
  - intros; apply ch_derive.
  - intros x Hx. unfold from in Hx. assert (exp (- x) <= exp x); [|lra].
    destruct (Req_EM_T x 0) as [->|N]; [rewrite Ropp_0; lra|left; apply exp_increasing; lra].
Qed.
Lemma ch_mul : forall c x, ch c x = (exp x * exp x - c * exp x + 1) / exp x.
Proof. intros. unfold ch. rewrite exp_Ropp. assert (E := exp_pos x). field. lra. Qed.
Lemma sig3_ch : forall x, sigF 3 x = vv x * (vv x * ch 4 x).
Proof.
  intro x. unfold sigF, sig_poly, vv. rewrite ch_mul, sg_E. assert (E := exp_pos x). field. lra.
Qed.
Lemma sig4_ch : forall x, sigF 4 x = vv x * (vv x * ch 10 x) * (1 - 2 * sg x).
Proof.
  intro x. unfold sigF, sig_poly, vv. rewrite ch_mul, sg_E. assert (E := exp_pos x). field. lra.
Qed.
Lemma ch_root : forall c m0 l u, l <= exp m0 <= u -> 0 < m0 - del -> 0 < l ->
  (u * (1 - del + del ^ 2)) ^ 2 - c * (u * (1 - del + del ^ 2)) + 1 < 0 ->
  0 < (l * (1 + del)) ^ 2 - c * (l * (1 + del)) + 1 -> c / 2 <= l * (1 - del) ->
  exists m, m0 - del <= m <= m0 + del /\ ch c m = 0.
Proof.
  intros c m0 l u H Hm Hl A B C.
  destruct (exp_left m0 l u H Hl) as [L1 L2]. destruct (exp_right m0 l u H Hl) as [R1 R2].
  assert (D : 0 < del) by (unfold del; lra).
  apply (root_between (ch c) (fun x => exp x - exp (- x))); [intro; apply ch_derive|lra| |].
  - rewrite ch_mul. assert (P := exp_pos (m0 - del)).
    apply (Rmult_lt_reg_r (exp (m0 - del))); [auto|]. unfold Rdiv. rewrite Rmult_assoc, Rinv_l, Rmult_1_r, Rmult_0_l by lra.
    generalize dependent (exp (m0 - del)). intros e L1 L2 P.
    set (U := u * (1 - del + del ^ 2)) in *.
    assert ((U - e) * (U + e - c) >= 0) by (apply Rle_ge, Rmult_le_pos; lra). nra.
  - rewrite ch_mul. assert (P := exp_pos (m0 + del)).
    apply Rdiv_lt_0_compat; [|auto].
    generalize dependent (exp (m0 + del)). intros e R1 R2 P.
    set (V := l * (1 + del)) in *.
    assert (c / 2 <= V) by (unfold V; assert (0 <= l * (2 * del)) by (apply Rmult_le_pos; lra); lra).
    assert ((e - V) * (e + V - c) >= 0) by (apply Rle_ge, Rmult_le_pos; lra). nra.
Qed.

Lemma sg_half_pos : forall x, 0 <= x -> 0 <= 2 * sg x - 1.
Proof. intros x Hx. assert (H := sg_increasing 0 x I I Hx). rewrite sg_0 in H. lra. Qed.
Lemma sg_half_neg : forall x, x <= 0 -> 2 * sg x - 1 <= 0.
Proof. intros x Hx. assert (H := sg_increasing x 0 I I Hx). rewrite sg_0 in H. lra. Qed.

Definition m_sig2 : R := 1.316957896924941.
Definition m_sig3 : R := 2.292431669561121.
Definition m_sw0 : R := 1.278464542761141.
Definition m_sw1 : R := 2.399357280515325.
Definition m_sw2 : R := 3.435840993535023.

(** ** Second derivative of the sigmoid *)
Lemma sig2_extrema : exists m, m_sig2 - del <= m <= m_sig2 + del /\
  increasing_on (upto (- m)) (sigF 2) /\ decreasing_on (seg (- m) m) (sigF 2) /\
  increasing_on (from m) (sigF 2) /\ (forall x, sigF 2 m <= sigF 2 x <= sigF 2 (- m)).
Proof.
  destruct (ch_root 4 m_sig2 _ _ exp_sig2 ltac:(unfold m_sig2, del; lra) ltac:(lra)) as (m & Hm & Em).
  1,2,3: unfold del; lra.
  exists m. split; [auto|].
  assert (M0 : 0 < m) by (unfold m_sig2, del in Hm; lra).
  assert (Pos : forall x, m <= Rabs x -> 0 <= sigF 3 x).
  { intros x Hx. rewrite sig3_ch. assert (P := vv_pos x). apply Rmult_le_pos; [lra|]. apply Rmult_le_pos; [lra|].
    rewrite <- Em. unfold Rabs in Hx. destruct Rcase_abs; [rewrite <- (ch_even 4 x)|]; apply ch_inc; unfold from; lra. }
  assert (Neg : forall x, Rabs x <= m -> sigF 3 x <= 0).
  { intros x Hx. rewrite sig3_ch. assert (P := vv_pos x).
    assert (Q : ch 4 x <= 0).
    { rewrite <- Em. unfold Rabs in Hx. destruct Rcase_abs; [rewrite <- (ch_even 4 x)|]; apply ch_inc; unfold from; lra. }
    assert (0 <= vv x * (vv x * - ch 4 x)) by (apply Rmult_le_pos; [lra|apply Rmult_le_pos; lra]). lra. }
  assert (I1 : increasing_on (upto (- m)) (sigF 2)).
  { apply increasing_of_derive with (sigF 3); [apply convex_upto|intros; apply sigF_derive; lia|].
    intros x Hx. unfold upto in Hx. apply Pos. rewrite Rabs_left1; lra. }
  assert (I2 : decreasing_on (seg (- m) m) (sigF 2)).
  { apply decreasing_of_derive with (sigF 3); [apply convex_seg|intros; apply sigF_derive; lia|].
    intros x Hx. unfold seg in Hx. apply Neg. apply Rabs_le. lra. }
  assert (I3 : increasing_on (from m) (sigF 2)).
  { apply increasing_of_derive with (sigF 3); [apply convex_from|intros; apply sigF_derive; lia|].
    intros x Hx. unfold from in Hx. apply Pos. rewrite Rabs_right; lra. }
  split; [auto|]. split; [auto|]. split; [auto|].
  assert (Low : forall x, 0 <= x -> sigF 2 m <= sigF 2 x).
  { intros x Hx. destruct (Rle_dec x m); [apply I2|apply I3]; unfold seg, from; lra. }
  assert (Up : forall x, x <= 0 -> sigF 2 x <= sigF 2 (- m)).
  { intros x Hx. destruct (Rle_dec x (- m)); [apply I1|apply I2]; unfold seg, upto; lra. }
  assert (S : forall x, sigF 2 x = vv x * - (2 * sg x - 1)) by (intro; unfold sigF, sig_poly, vv; ring).
  assert (Z : sigF 2 0 = 0) by (unfold sigF, sig_poly; rewrite sg_0; field).
  assert (L0 := Low 0 ltac:(lra)). assert (U0 := Up 0 ltac:(lra)). rewrite Z in L0, U0.
  intro x. destruct (Rle_dec 0 x).
  - split; [apply Low; auto|]. apply Rle_trans with 0; [|auto]. rewrite S.
    assert (A := vv_pos x). assert (B := sg_half_pos x r).
    assert (0 <= vv x * (2 * sg x - 1)) by (apply Rmult_le_pos; lra). lra.
  - assert (H : x <= 0) by lra. split; [|apply Up; auto]. apply Rle_trans with 0; [auto|]. rewrite S.
    assert (A := vv_pos x). assert (B := sg_half_neg x H). apply Rmult_le_pos; lra.
Qed.

(** ** Third derivative of the sigmoid *)
Lemma sig3_extrema : exists m, m_sig3 - del <= m <= m_sig3 + del /\
  increasing_on (upto (- m)) (sigF 3) /\ decreasing_on (seg (- m) 0) (sigF 3) /\
  increasing_on (seg 0 m) (sigF 3) /\ decreasing_on (from m) (sigF 3) /\
  (forall x, sigF 3 0 <= sigF 3 x) /\ (forall x, sigF 3 x <= sigF 3 m) /\ (forall x, sigF 3 x <= sigF 3 (- m)).
Proof.
  destruct (ch_root 10 m_sig3 _ _ exp_sig3 ltac:(unfold m_sig3, del; lra) ltac:(lra)) as (m & Hm & Em).
  1,2,3: unfold del; lra.
  exists m. split; [auto|].
  assert (M0 : 0 < m) by (unfold m_sig3, del in Hm; lra).
  assert (Chp : forall x, m <= Rabs x -> 0 <= ch 10 x).
  { intros x Hx. rewrite <- Em. unfold Rabs in Hx. destruct Rcase_abs; [rewrite <- (ch_even 10 x)|]; apply ch_inc; unfold from; lra. }
  assert (Chn : forall x, Rabs x <= m -> ch 10 x <= 0).
  { intros x Hx. rewrite <- Em. unfold Rabs in Hx. destruct Rcase_abs; [rewrite <- (ch_even 10 x)|]; apply ch_inc; unfold from; lra. }
  assert (Sgn : forall x a b, sigF 4 x = vv x * (vv x * a) * b -> 0 <= a * b -> 0 <= sigF 4 x).
  { intros x a b -> Hab. assert (P := vv_pos x). replace (vv x * (vv x * a) * b) with (vv x * vv x * (a * b)) by ring.
    apply Rmult_le_pos; [nra|auto]. }
  assert (Sgn' : forall x a b, sigF 4 x = vv x * (vv x * a) * b -> 0 <= - (a * b) -> sigF 4 x <= 0).
  { intros x a b -> Hab. assert (P := vv_pos x). assert (0 <= vv x * vv x * - (a * b)) by (apply Rmult_le_pos; [nra|auto]). lra. }
  assert (I1 : increasing_on (upto (- m)) (sigF 3)).
  { apply increasing_of_derive with (sigF 4); [apply convex_upto|intros; apply sigF_derive; lia|].
    intros x Hx. unfold upto in Hx. eapply Sgn; [apply sig4_ch|].
    apply Rmult_le_pos; [apply Chp; rewrite Rabs_left1; lra|assert (B := sg_half_neg x ltac:(lra)); lra]. }
  assert (I2 : decreasing_on (seg (- m) 0) (sigF 3)).
  { apply decreasing_of_derive with (sigF 4); [apply convex_seg|intros; apply sigF_derive; lia|].
    intros x Hx. unfold seg in Hx. eapply Sgn'; [apply sig4_ch|].
    rewrite Ropp_mult_distr_l. apply Rmult_le_pos; [assert (A := Chn x ltac:(apply Rabs_le; lra)); lra|assert (B := sg_half_neg x ltac:(lra)); lra]. }
  assert (I3 : increasing_on (seg 0 m) (sigF 3)).
  { apply increasing_of_derive with (sigF 4); [apply convex_seg|intros; apply sigF_derive; lia|].
    intros x Hx. unfold seg in Hx. eapply Sgn; [apply sig4_ch|].
    assert (A := Chn x ltac:(apply Rabs_le; lra)). assert (B := sg_half_pos x ltac:(lra)).
    replace (ch 10 x * (1 - 2 * sg x)) with (- ch 10 x * (2 * sg x - 1)) by ring. apply Rmult_le_pos; lra. }
  assert (I4 : decreasing_on (from m) (sigF 3)).
  { apply decreasing_of_derive with (sigF 4); [apply convex_from|intros; apply sigF_derive; lia|].
    intros x Hx. unfold from in Hx. eapply Sgn'; [apply sig4_ch|].
    assert (A := Chp x ltac:(rewrite Rabs_right; lra)). assert (B := sg_half_pos x ltac:(lra)).
    replace (- (ch 10 x * (1 - 2 * sg x))) with (ch 10 x * (2 * sg x - 1)) by ring. apply Rmult_le_pos; lra. }
  assert (Even : forall x, sigF 3 (- x) = sigF 3 x) by (intro; unfold sigF, sig_poly; rewrite sg_opp; ring).
  assert (Mx : forall x, 0 <= x -> sigF 3 0 <= sigF 3 x <= sigF 3 m).
  { intros x Hx. split.
    - unfold sigF, sig_poly. rewrite sg_0. assert (A := sg_pos x). assert (B := sg_lt1 x). generalize dependent (sg x). intros s A B.
      set (w := s * (1 - s)). assert (0 < w <= / 4).
      { unfold w. split; [apply Rmult_lt_0_compat; lra|]. assert (0 <= (2 * s - 1) ^ 2) by apply pow2_ge_0. lra. }
      replace (w * (1 - 6 * s + 6 * s ^ 2)) with (w * (1 - 6 * w)) by (unfold w; ring).
      assert (0 <= (/ 4 - w) * (6 * w + / 2)) by (apply Rmult_le_pos; lra). lra.
    - destruct (Rle_dec x m); [apply I3|apply I4]; unfold seg, from; lra. }
  do 4 (split; [auto|]). split; [|split]; intro x; [| |rewrite Even]; destruct (Rle_dec 0 x); try solve [apply Mx; auto];
    rewrite <- (Even x); apply Mx; lra.
Qed.

(** ** Swish *)
Lemma swish1_closed : forall x, swishF 1 x = vv x * (1 + exp x + x).
Proof. intro x. unfold swishF, sigF, sig_poly, vv. rewrite sg_E. simpl INR. assert (E := exp_pos x). field. lra. Qed.
Lemma sw0_extrema : exists m, - m_sw0 - del <= m <= - m_sw0 + del /\
  decreasing_on (upto m) (swishF 0) /\ increasing_on (from m) (swishF 0) /\ (forall x, swishF 0 m <= swishF 0 x).
Proof.
  set (p := fun x => 1 + exp x + x).
  assert (Hp : forall x, is_derive p x (exp x + 1)) by (intro x; unfold p; auto_derive; [exact I|ring]).
  assert (Pi : increasing_on everywhere p).
  { apply increasing_of_derive with (fun x => exp x + 1); [intros ? ? ? _ _ _; exact I|auto|].
    intros x _. assert (E := exp_pos x). lra. }
  assert (E0 := exp_sw0). fold m_sw0 in E0.
  assert (exists m, - m_sw0 - del <= m <= - m_sw0 + del /\ p m = 0) as (m & Hm & Em).
  { apply (root_between p (fun x => exp x + 1)); auto; unfold p.
    - unfold del; lra.
    - destruct (exp_right m_sw0 _ _ E0 ltac:(lra)) as [A _].
      replace (- m_sw0 - del) with (- (m_sw0 + del)) by ring. rewrite exp_Ropp.
      assert (B := Rinv_le_contravar (3.59112147666886347695 * (1 + del)) _ ltac:(unfold del; lra) A).
      apply Rle_lt_trans with (1 + / (3.59112147666886347695 * (1 + del)) + - (m_sw0 + del)); [lra|].
      unfold m_sw0, del. lra.
    - destruct (exp_left m_sw0 _ _ E0 ltac:(lra)) as [_ A].
      replace (- m_sw0 + del) with (- (m_sw0 - del)) by ring. rewrite exp_Ropp.
      assert (B := Rinv_le_contravar _ _ (exp_pos (m_sw0 - del)) A).
      apply Rlt_le_trans with (1 + / (3.59112147666886348098 * (1 - del + del ^ 2)) + - (m_sw0 - del)); [|lra].
      unfold m_sw0, del. lra. }
  exists m. split; [auto|].
  assert (I1 : decreasing_on (upto m) (swishF 0)).
  { apply decreasing_of_derive with (swishF 1); [apply convex_upto|intros; apply swishF_derive; lia|].
    intros x Hx. rewrite swish1_closed. fold (p x). assert (A := Pi x m I I Hx). assert (B := vv_pos x).
    assert (0 <= vv x * - p x) by (apply Rmult_le_pos; lra). lra. }
  assert (I2 : increasing_on (from m) (swishF 0)).
  { apply increasing_of_derive with (swishF 1); [apply convex_from|intros; apply swishF_derive; lia|].
    intros x Hx. rewrite swish1_closed. fold (p x). assert (A := Pi m x I I Hx). assert (B := vv_pos x).
    apply Rmult_le_pos; lra. }
  split; [auto|]. split; [auto|]. intro x. destruct (Rle_dec x m); [apply I1|apply I2]; unfold upto, from; lra.
Qed.

Definition p1 (x : R) : R := 2 + x * (1 - 2 * sg x).
Lemma p1_derive : forall x, is_derive p1 x ((1 - 2 * sg x) - 2 * x * vv x).
Proof. intro x. unfold p1, vv. auto_derive; [apply sg_ex|]. rewrite sg_Derive. ring. Qed.
Lemma p1_even : forall x, p1 (- x) = p1 x.
Proof. intro. unfold p1. rewrite sg_opp. ring. Qed.
Lemma p1_dec : decreasing_on (from 0) p1.
Proof.
  apply decreasing_of_derive with (fun x => (1 - 2 * sg x) - 2 * x * vv x); [apply convex_from|intros; apply p1_derive|].
  intros x Hx. unfold from in Hx. assert (A := sg_half_pos x Hx). assert (B := vv_pos x).
  assert (0 <= x * vv x) by (apply Rmult_le_pos; lra). lra.
Qed.
Lemma swish2_closed : forall x, swishF 2 x = vv x * p1 x.
Proof. intro x. unfold swishF, sigF, sig_poly, vv, p1. simpl INR. ring. Qed.
Lemma p1_E : forall x, p1 x = ((2 + x) + exp x * (2 - x)) / (1 + exp x).
Proof. intro x. unfold p1. rewrite sg_E. assert (E := exp_pos x). field. lra. Qed.

Lemma sw1_extrema : exists m, m_sw1 - del <= m <= m_sw1 + del /\
  decreasing_on (upto (- m)) (swishF 1) /\ increasing_on (seg (- m) m) (swishF 1) /\
  decreasing_on (from m) (swishF 1) /\ (forall x, swishF 1 (- m) <= swishF 1 x <= swishF 1 m).
Proof.
  assert (E0 := exp_sw1). fold m_sw1 in E0.
  assert (exists m, m_sw1 - del <= m <= m_sw1 + del /\ - p1 m = 0) as (m & Hm & Em).
  { apply (root_between (fun x => - p1 x) (fun x => - ((1 - 2 * sg x) - 2 * x * vv x))).
    - intro x. apply (is_derive_opp (K := R_AbsRing) (V := R_NormedModule)). apply p1_derive.
    - unfold del; lra.
    - rewrite p1_E. destruct (exp_left m_sw1 _ _ E0 ltac:(lra)) as [_ A]. assert (P := exp_pos (m_sw1 - del)).
      assert (0 < ((2 + (m_sw1 - del)) + exp (m_sw1 - del) * (2 - (m_sw1 - del))) / (1 + exp (m_sw1 - del))); [|lra].
      apply Rdiv_lt_0_compat; [|lra].
      assert (exp (m_sw1 - del) * (m_sw1 - del - 2) <= 11.01609384668385116656 * (1 - del + del ^ 2) * (m_sw1 - del - 2)).
      { apply Rmult_le_compat_r; [unfold m_sw1, del; lra|exact A]. }
      apply Rlt_le_trans with ((2 + (m_sw1 - del)) - 11.01609384668385116656 * (1 - del + del ^ 2) * (m_sw1 - del - 2)); [|lra].
      unfold m_sw1, del. lra.
    - rewrite p1_E. destruct (exp_right m_sw1 _ _ E0 ltac:(lra)) as [A _]. assert (P := exp_pos (m_sw1 + del)).
      replace (- (((2 + (m_sw1 + del)) + exp (m_sw1 + del) * (2 - (m_sw1 + del))) / (1 + exp (m_sw1 + del))))
        with ((exp (m_sw1 + del) * (m_sw1 + del - 2) - (2 + (m_sw1 + del))) / (1 + exp (m_sw1 + del))) by (field; lra).
      apply Rdiv_lt_0_compat; [|lra].
      assert (11.01609384668385114790 * (1 + del) * (m_sw1 + del - 2) <= exp (m_sw1 + del) * (m_sw1 + del - 2)).
      { apply Rmult_le_compat_r; [unfold m_sw1, del; lra|exact A]. }
      apply Rlt_le_trans with (11.01609384668385114790 * (1 + del) * (m_sw1 + del - 2) - (2 + (m_sw1 + del))); [|lra].
      unfold m_sw1, del. lra. }
  exists m. split; [auto|]. assert (Em' : p1 m = 0) by lra. clear Em.
  assert (M0 : 0 < m) by (unfold m_sw1, del in Hm; lra).
  assert (Neg : forall x, m <= Rabs x -> swishF 2 x <= 0).
  { intros x Hx. rewrite swish2_closed. assert (P := vv_pos x).
    assert (p1 x <= 0).
    { rewrite <- Em'. unfold Rabs in Hx. destruct Rcase_abs; [rewrite <- (p1_even x)|]; apply p1_dec; unfold from; lra. }
    assert (0 <= vv x * - p1 x) by (apply Rmult_le_pos; lra). lra. }
  assert (Pos : forall x, Rabs x <= m -> 0 <= swishF 2 x).
  { intros x Hx. rewrite swish2_closed. assert (P := vv_pos x). apply Rmult_le_pos; [lra|].
    rewrite <- Em'. unfold Rabs in Hx. destruct Rcase_abs; [rewrite <- (p1_even x)|]; apply p1_dec; unfold from; lra. }
  assert (I1 : decreasing_on (upto (- m)) (swishF 1)).
  { apply decreasing_of_derive with (swishF 2); [apply convex_upto|intros; apply swishF_derive; lia|].
    intros x Hx. unfold upto in Hx. apply Neg. rewrite Rabs_left1; lra. }
  assert (I2 : increasing_on (seg (- m) m) (swishF 1)).
  { apply increasing_of_derive with (swishF 2); [apply convex_seg|intros; apply swishF_derive; lia|].
    intros x Hx. unfold seg in Hx. apply Pos. apply Rabs_le. lra. }
  assert (I3 : decreasing_on (from m) (swishF 1)).
  { apply decreasing_of_derive with (swishF 2); [apply convex_from|intros; apply swishF_derive; lia|].
    intros x Hx. unfold from in Hx. apply Neg. rewrite Rabs_right; lra. }
  do 3 (split; [auto|]).
  assert (C : forall x, swishF 1 x = sg x + x * vv x) by (intro; unfold swishF, sigF, sig_poly, vv; simpl INR; ring).
  assert (Z : swishF 1 0 = 1 / 2) by (rewrite C, sg_0; field).
  assert (Low : forall x, x <= 0 -> swishF 1 (- m) <= swishF 1 x).
  { intros x Hx. destruct (Rle_dec x (- m)); [apply I1|apply I2]; unfold seg, upto; lra. }
  assert (Up : forall x, 0 <= x -> swishF 1 x <= swishF 1 m).
  { intros x Hx. destruct (Rle_dec x m); [apply I2|apply I3]; unfold seg, from; lra. }
  assert (L0 := Low 0 ltac:(lra)). assert (U0 := Up 0 ltac:(lra)). rewrite Z in L0, U0.
  intro x. destruct (Rle_dec 0 x).
  - split; [|apply Up; auto]. apply Rle_trans with (1 / 2); [auto|]. rewrite C.
    assert (A := vv_pos x). assert (B := sg_half_pos x r). assert (0 <= x * vv x) by (apply Rmult_le_pos; lra). lra.
  - assert (H : x <= 0) by lra. split; [apply Low; auto|]. apply Rle_trans with (1 / 2); [|auto]. rewrite C.
    assert (A := vv_pos x). assert (B := sg_half_neg x H). assert (0 <= - x * vv x) by (apply Rmult_le_pos; lra). lra.
Qed.

(** ** Second derivative of swish *)
Definition tt_ (x : R) : R := 2 * sg x - 1.
Definition p2 (x : R) : R := x * (3 * tt_ x ^ 2 - 1) - 6 * tt_ x.
Lemma swish3_closed : forall x, swishF 3 x = vv x * (p2 x / 2).
Proof. intro x. unfold swishF, sigF, sig_poly, vv, p2, tt_. simpl INR. field. Qed.
Lemma p2_odd : forall x, p2 (- x) = - p2 x.
Proof. intro. unfold p2, tt_. rewrite sg_opp. ring. Qed.
Lemma p2_E : forall x, p2 x = (6 * (1 - exp x ^ 2) + 2 * x * (exp x ^ 2 - 4 * exp x + 1)) / (1 + exp x) ^ 2.
Proof. intro x. unfold p2, tt_. rewrite sg_E. assert (E := exp_pos x). field. lra. Qed.
Lemma p2_derive : forall x, is_derive p2 x (Derive p2 x).
Proof.
  intro x. apply Derive_correct. unfold p2, tt_. auto_derive. repeat split; apply sg_ex.
Qed.
Lemma p2_sign : forall m, 0 < m -> p2 m = 0 ->
  (forall x, 0 <= x <= m -> p2 x <= 0) /\ (forall x, m <= x -> 0 <= p2 x).
Proof.
  intros m M0 Em.
  assert (T0 : 0 < tt_ m).
  { unfold tt_. rewrite sg_E. assert (E := exp_pos m). assert (1 < exp m) by (rewrite <- exp_0; apply exp_increasing; auto).
    replace (2 * (exp m / (1 + exp m)) - 1) with ((exp m - 1) / (1 + exp m)) by (field; lra). apply Rdiv_lt_0_compat; lra. }
  unfold p2 in Em. set (tm := tt_ m) in *.
  assert (Q : 0 < 3 * tm ^ 2 - 1).
  { apply (Rmult_lt_reg_l m); [auto|]. lra. }
  assert (Mono : forall x y, x <= y -> tt_ x <= tt_ y).
  { intros x y L. unfold tt_. assert (X := sg_increasing x y I I L). lra. }
  split.
  - intros x Hx. assert (A := Mono x m ltac:(lra)). fold tm in A.
    assert (B : 0 <= tt_ x) by (apply sg_half_pos; lra).
    unfold p2. set (t := tt_ x) in *.
    apply (Rmult_le_reg_r tm); [auto|]. rewrite Rmult_0_l.
    assert (C : (3 * t ^ 2 - 1) * tm <= (3 * tm ^ 2 - 1) * t).
    { assert (0 <= (tm - t) * (3 * t * tm + 1)) by (apply Rmult_le_pos; [lra|assert (0 <= t * tm) by (apply Rmult_le_pos; lra); lra]). lra. }
    assert (D : x * ((3 * t ^ 2 - 1) * tm) <= x * ((3 * tm ^ 2 - 1) * t)) by (apply Rmult_le_compat_l; lra).
    assert (F : x * ((3 * tm ^ 2 - 1) * t) <= m * ((3 * tm ^ 2 - 1) * t)).
    { apply Rmult_le_compat_r; [apply Rmult_le_pos; lra|lra]. }
    assert (G : m * ((3 * tm ^ 2 - 1) * t) = 6 * tm * t).
    { replace (m * ((3 * tm ^ 2 - 1) * t)) with ((m * (3 * tm ^ 2 - 1)) * t) by ring. f_equal. lra. }
    lra.
  - intros x Hx. assert (A := Mono m x ltac:(lra)). fold tm in A.
    unfold p2. set (t := tt_ x) in *.
    apply (Rmult_le_reg_r tm); [auto|]. rewrite Rmult_0_l.
    assert (C : (3 * tm ^ 2 - 1) * t <= (3 * t ^ 2 - 1) * tm).
    { assert (0 <= (t - tm) * (3 * t * tm + 1)) by (apply Rmult_le_pos; [lra|assert (0 <= t * tm) by (apply Rmult_le_pos; lra); lra]). lra. }
    assert (D : x * ((3 * tm ^ 2 - 1) * t) <= x * ((3 * t ^ 2 - 1) * tm)) by (apply Rmult_le_compat_l; lra).
    assert (F : m * ((3 * tm ^ 2 - 1) * t) <= x * ((3 * tm ^ 2 - 1) * t)).
    { apply Rmult_le_compat_r; [apply Rmult_le_pos; lra|lra]. }
    assert (G : m * ((3 * tm ^ 2 - 1) * t) = 6 * tm * t).
    { replace (m * ((3 * tm ^ 2 - 1) * t)) with ((m * (3 * tm ^ 2 - 1)) * t) by ring. f_equal. lra. }
    lra.
Qed.

Lemma sw2_extrema : exists m, m_sw2 - del <= m <= m_sw2 + del /\
  decreasing_on (upto (- m)) (swishF 2) /\ increasing_on (seg (- m) 0) (swishF 2) /\
  decreasing_on (seg 0 m) (swishF 2) /\ increasing_on (from m) (swishF 2) /\
  (forall x, swishF 2 x <= swishF 2 0) /\ (forall x, swishF 2 m <= swishF 2 x) /\ (forall x, swishF 2 (- m) <= swishF 2 x).
Proof.
  assert (E0 := exp_sw2). fold m_sw2 in E0.
  assert (exists m, m_sw2 - del <= m <= m_sw2 + del /\ p2 m = 0) as (m & Hm & Em).
  { assert (Num : forall x e, p2 x = 2 * ((x - 3) * e * e - 4 * x * e + x + 3) / (1 + exp x) ^ 2 -> True) by auto.
    assert (Pn : forall x, p2 x = 2 * ((x - 3) * exp x ^ 2 - 4 * x * exp x + x + 3) / (1 + exp x) ^ 2).
    { intro x. rewrite p2_E. assert (E := exp_pos x). field. lra. }
    apply (root_between p2 (Derive p2)); [apply p2_derive|unfold del; lra| |].
    - rewrite Pn. destruct (exp_left m_sw2 _ _ E0 ltac:(lra)) as [B A]. assert (P := exp_pos (m_sw2 - del)).
      set (x := m_sw2 - del) in *. set (U := 31.05752075975079405624 * (1 - del + del ^ 2)) in *.
      assert (N : (x - 3) * exp x ^ 2 - 4 * x * exp x + x + 3 < 0).
      { assert (0 <= (U - exp x) * ((x - 3) * (U + exp x) - 4 * x)).
        { apply Rmult_le_pos; [lra|]. assert ((x - 3) * (2 * 31) <= (x - 3) * (U + exp x)).
          - apply Rmult_le_compat_l; [unfold x, m_sw2, del; lra|]. unfold U, del in *. lra.
          - assert (0 <= (x - 3) * (2 * 31) - 4 * x) by (unfold x, m_sw2, del; lra). lra. }
        assert ((x - 3) * U ^ 2 - 4 * x * U + x + 3 < 0) by (unfold x, U, m_sw2, del; lra). nra. }
      assert (0 < 2 * - ((x - 3) * exp x ^ 2 - 4 * x * exp x + x + 3) / (1 + exp x) ^ 2).
      { apply Rdiv_lt_0_compat; [lra|apply pow_lt; lra]. }
      unfold Rdiv in *. lra.
    - rewrite Pn. destruct (exp_right m_sw2 _ _ E0 ltac:(lra)) as [A B]. assert (P := exp_pos (m_sw2 + del)).
      set (x := m_sw2 + del) in *. set (V := 31.05752075975079382094 * (1 + del)) in *.
      apply Rdiv_lt_0_compat; [|apply pow_lt; lra].
      assert (0 <= (exp x - V) * ((x - 3) * (V + exp x) - 4 * x)).
      { apply Rmult_le_pos; [lra|]. assert ((x - 3) * (2 * 31) <= (x - 3) * (V + exp x)).
        - apply Rmult_le_compat_l; [unfold x, m_sw2, del; lra|]. unfold V, del in *. lra.
        - assert (0 <= (x - 3) * (2 * 31) - 4 * x) by (unfold x, m_sw2, del; lra). lra. }
      assert (0 < (x - 3) * V ^ 2 - 4 * x * V + x + 3) by (unfold x, V, m_sw2, del; lra). nra. }
  exists m. split; [auto|].
  assert (M0 : 0 < m) by (unfold m_sw2, del in Hm; lra).
  destruct (p2_sign m M0 Em) as [Neg Pos].
  assert (I3 : decreasing_on (seg 0 m) (swishF 2)).
  { apply decreasing_of_derive with (swishF 3); [apply convex_seg|intros; apply swishF_derive; lia|].
    intros x Hx. rewrite swish3_closed. assert (P := vv_pos x). assert (Q := Neg x Hx).
    assert (0 <= vv x * - (p2 x / 2)) by (apply Rmult_le_pos; lra). lra. }
  assert (I4 : increasing_on (from m) (swishF 2)).
  { apply increasing_of_derive with (swishF 3); [apply convex_from|intros; apply swishF_derive; lia|].
    intros x Hx. rewrite swish3_closed. assert (P := vv_pos x). assert (Q := Pos x Hx). apply Rmult_le_pos; lra. }
  assert (Even : forall x, swishF 2 (- x) = swishF 2 x).
  { intro x. rewrite !swish2_closed, p1_even. unfold vv. rewrite sg_opp. ring. }
  assert (I1 : decreasing_on (upto (- m)) (swishF 2)).
  { intros x y Hx Hy L. unfold upto in *. rewrite <- (Even x), <- (Even y). apply I4; unfold from; lra. }
  assert (I2 : increasing_on (seg (- m) 0) (swishF 2)).
  { intros x y Hx Hy L. unfold seg in *. rewrite <- (Even x), <- (Even y). apply I3; unfold seg; lra. }
  do 4 (split; [auto|]).
  assert (Mn : forall x, 0 <= x -> swishF 2 m <= swishF 2 x <= swishF 2 0).
  { intros x Hx. split; [destruct (Rle_dec x m); [apply I3|apply I4]; unfold seg, from; lra|].
    rewrite !swish2_closed. unfold p1, vv. rewrite sg_0.
    assert (A := sg_half_pos x Hx). assert (B := sg_pos x). assert (C := sg_lt1 x).
    generalize dependent (sg x). intros s A B C.
    assert (0 <= x * (2 * s - 1)) by (apply Rmult_le_pos; lra).
    assert (V1 : 0 < s * (1 - s)) by (apply Rmult_lt_0_compat; lra).
    assert (V2 : s * (1 - s) <= / 4) by (assert (0 <= (2 * s - 1) ^ 2) by apply pow2_ge_0; lra).
    assert (0 <= s * (1 - s) * (x * (2 * s - 1))) by (apply Rmult_le_pos; lra). lra. }
  split; [|split]; intro x; [| |rewrite Even]; destruct (Rle_dec 0 x); try solve [apply Mn; auto];
    rewrite <- (Even x); apply Mn; lra.
Qed.
