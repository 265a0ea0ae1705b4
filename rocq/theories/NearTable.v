(** The tables of extrema list decimal approximations.  For the orders 2, 3 of
    the sigmoid (3, 4 of softplus) and 0, 1, 2 of swish: a function within 2e-12
    of the listed one that turns exactly at the listed places. *)
From Coq Require Import Reals Lra Lia Arith List.
From Coquelicot Require Import Coquelicot.
From Verif Require Import Base Elementwise ElementSpec Analysis ElementwiseProofs PropElementwise Extrema.
Import ListNotations.
Open Scope R_scope.

(** [f] turns exactly at the listed places; minima and maxima are global. *)
Record turning (f : R -> R) (mins maxs : list R) : Prop := {
  t_turns : turns_at f mins maxs;
  t_min : forall m x, In m mins -> f m <= f x;
  t_max : forall m x, In m maxs -> f x <= f m;
  t_nomin : forall a x b, a <= x <= b -> (forall m, In m mins -> ~ (a <= m <= b)) ->
            Rmin (f a) (f b) <= f x;
  t_nomax : forall a x b, a <= x <= b -> (forall m, In m maxs -> ~ (a <= m <= b)) ->
            f x <= Rmax (f a) (f b) }.

Lemma none_between_comm : forall l1 l2 a b, none_between (l1 ++ l2) a b -> none_between (l2 ++ l1) a b.
Proof. intros l1 l2 a b H e He. apply H. apply in_app_iff. apply in_app_iff in He. tauto. Qed.

Lemma turning_opp : forall f mins maxs, turning f mins maxs -> turning (fun x => - f x) maxs mins.
Proof.
  intros f mins maxs [T Mn Mx Nn Nx]. constructor.
  - destruct T as [A B C D]. constructor; intros m a Hm L N; apply none_between_comm in N; intros x y Hx Hy Lxy.
    + assert (X := C m a Hm L N x y Hx Hy Lxy). lra.
    + assert (X := D m a Hm L N x y Hx Hy Lxy). lra.
    + assert (X := A m a Hm L N x y Hx Hy Lxy). lra.
    + assert (X := B m a Hm L N x y Hx Hy Lxy). lra.
  - intros m x Hm. assert (X := Mx m x Hm). lra.
  - intros m x Hm. assert (X := Mn m x Hm). lra.
  - intros a x b H N. assert (X := Nx a x b H N). revert X. unfold Rmin, Rmax. repeat destruct Rle_dec; lra.
  - intros a x b H N. assert (X := Nn a x b H N). revert X. unfold Rmin, Rmax. repeat destruct Rle_dec; lra.
Qed.

Lemma turning_ext : forall f g mins maxs, (forall x, f x = g x) -> turning f mins maxs -> turning g mins maxs.
Proof.
  intros f g mins maxs E [T Mn Mx Nn Nx]. constructor; intros; rewrite <- ?E; eauto.
  destruct T as [A B C D]. constructor; intros m a Hm L N x y Hx Hy Lxy; rewrite <- !E.
  - apply (A m a); auto. - apply (B m a); auto. - apply (C m a); auto. - apply (D m a); auto.
Qed.

(** Moving the turning places by a strictly increasing change of variable. *)
Lemma turning_warp : forall phi f mins maxs, (forall x y, x < y -> phi x < phi y) ->
  turning f (map phi mins) (map phi maxs) -> turning (fun x => f (phi x)) mins maxs.
Proof.
  intros phi f mins maxs Hp [T Mn Mx Nn Nx].
  assert (Hle : forall x y, x <= y -> phi x <= phi y).
  { intros x y [L| ->]; [left; auto|lra]. }
  assert (Hlt : forall x y, phi x < phi y -> x < y).
  { intros x y L. destruct (Rlt_dec x y); auto. assert (phi y <= phi x) by (apply Hle; lra). lra. }
  assert (Hle' : forall x y, phi x <= phi y -> x <= y).
  { intros x y L. destruct (Rle_dec x y); auto. assert (phi y < phi x) by (apply Hp; lra). lra. }
  assert (NB : forall a b, none_between (mins ++ maxs) a b ->
                 none_between (map phi mins ++ map phi maxs) (phi a) (phi b)).
  { intros a b N e He. rewrite <- map_app in He. apply in_map_iff in He. destruct He as (e' & <- & He').
    intros [L1 L2]. apply (N e' He'). auto. }
  assert (NI : forall l a b, (forall m, In m l -> ~ (a <= m <= b)) ->
                 forall m, In m (map phi l) -> ~ (phi a <= m <= phi b)).
  { intros l a b N m Hm. apply in_map_iff in Hm. destruct Hm as (m' & <- & Hm'). intros [L1 L2].
    apply (N m' Hm'). auto. }
  constructor.
  - destruct T as [A B C D]. constructor; intros m a Hm L N x y Hx Hy Lxy; unfold seg in Hx, Hy.
    + apply (A (phi m) (phi a)); auto; [apply in_map; auto|split; apply Hle; lra|split; apply Hle; lra].
    + apply (B (phi m) (phi a)); auto; [apply in_map; auto|split; apply Hle; lra|split; apply Hle; lra].
    + apply (C (phi m) (phi a)); auto; [apply in_map; auto|split; apply Hle; lra|split; apply Hle; lra].
    + apply (D (phi m) (phi a)); auto; [apply in_map; auto|split; apply Hle; lra|split; apply Hle; lra].
  - intros m x Hm. apply Mn. apply in_map; auto.
  - intros m x Hm. apply Mx. apply in_map; auto.
  - intros a x b H N. apply Nn; [split; apply Hle; lra|apply NI; auto].
  - intros a x b H N. apply Nx; [split; apply Hle; lra|apply NI; auto].
Qed.

(** ** The shapes that occur *)
Ltac mono H := apply H; unfold seg, upto, from in *; lra.
Ltac nb N e := assert (~ (e : Prop)) by (apply N; simpl; tauto).

Lemma unimodal_min : forall f m a x b, a <= x <= b ->
  (forall u v, a <= u -> u <= v -> v <= m -> f u <= f v) ->
  (forall u v, m <= u -> u <= v -> v <= b -> f v <= f u) -> Rmin (f a) (f b) <= f x.
Proof.
  intros f m a x b H I D. destruct (Rle_dec x m).
  - apply Rle_trans with (f a); [apply Rmin_l|apply I; lra].
  - apply Rle_trans with (f b); [apply Rmin_r|apply D; lra].
Qed.
Lemma unimodal_max : forall f m a x b, a <= x <= b ->
  (forall u v, a <= u -> u <= v -> v <= m -> f v <= f u) ->
  (forall u v, m <= u -> u <= v -> v <= b -> f u <= f v) -> f x <= Rmax (f a) (f b).
Proof.
  intros f m a x b H I D. destruct (Rle_dec x m).
  - apply Rle_trans with (f a); [apply I; lra|apply Rmax_l].
  - apply Rle_trans with (f b); [apply D; lra|apply Rmax_r].
Qed.

(** max, min *)
Lemma shape_max_min : forall f M m, M < m ->
  increasing_on (upto M) f -> decreasing_on (seg M m) f -> increasing_on (from m) f ->
  (forall x, f m <= f x <= f M) -> turning f [m] [M].
Proof.
  intros f M m L I1 I2 I3 G. constructor.
  - constructor; intros e a [<-|[]] La N; assert (N1 := N M ltac:(simpl; tauto)); assert (N2 := N m ltac:(simpl; tauto));
      intros x y Hx Hy Lxy; unfold seg in *.
    + mono I2. + mono I3. + mono I1. + mono I2.
  - intros e x [<-|[]]. apply G.
  - intros e x [<-|[]]. apply G.
  - intros a x b H N. assert (N1 := N m ltac:(simpl; tauto)). destruct (Rlt_dec b m).
    + apply (unimodal_min f M); auto; intros; [mono I1|mono I2].
    + apply Rle_trans with (f a); [apply Rmin_l|mono I3].
  - intros a x b H N. assert (N1 := N M ltac:(simpl; tauto)). destruct (Rlt_dec b M).
    + apply Rle_trans with (f b); [mono I1|apply Rmax_r].
    + apply (unimodal_max f m); auto; intros; [mono I2|mono I3].
Qed.
(** min, max *)
Lemma shape_min_max : forall f m M, m < M ->
  decreasing_on (upto m) f -> increasing_on (seg m M) f -> decreasing_on (from M) f ->
  (forall x, f m <= f x <= f M) -> turning f [m] [M].
Proof.
  intros f m M L I1 I2 I3 G. apply turning_ext with (fun x => - - f x); [intro; ring|]. apply turning_opp.
  apply shape_max_min; auto; try (intros x y Hx Hy Lxy; apply Ropp_le_contravar).
  - apply I1; auto. - apply I2; auto. - apply I3; auto.
  - intro x. assert (X := G x). lra.
Qed.
(** max, min, max *)
Lemma shape_max_min_max : forall f M1 m M2, M1 < m < M2 ->
  increasing_on (upto M1) f -> decreasing_on (seg M1 m) f -> increasing_on (seg m M2) f ->
  decreasing_on (from M2) f ->
  (forall x, f m <= f x) -> (forall x, f x <= f M1) -> (forall x, f x <= f M2) -> turning f [m] [M1; M2].
Proof.
  intros f M1 m M2 L I1 I2 I3 I4 G1 G2 G3. constructor.
  - constructor; intros e a He La N; simpl in He; assert (N1 := N M1 ltac:(simpl; tauto)); assert (N2 := N m ltac:(simpl; tauto));
      assert (N3 := N M2 ltac:(simpl; tauto)); intros x y Hx Hy Lxy; unfold seg in *.
    + destruct He as [<-|[]]. mono I2.
    + destruct He as [<-|[]]. mono I3.
    + destruct He as [<-|[<-|[]]]; [mono I1|mono I3].
    + destruct He as [<-|[<-|[]]]; [mono I2|mono I4].
  - intros e x [<-|[]]. apply G1.
  - intros e x [<-|[<-|[]]]; auto.
  - intros a x b H N. assert (N1 := N m ltac:(simpl; tauto)). destruct (Rlt_dec b m).
    + apply (unimodal_min f M1); auto; intros; [mono I1|mono I2].
    + apply (unimodal_min f M2); auto; intros; [mono I3|mono I4].
  - intros a x b H N. assert (N1 := N M1 ltac:(simpl; tauto)). assert (N2 := N M2 ltac:(simpl; tauto)).
    destruct (Rlt_dec b M1); [apply Rle_trans with (f b); [mono I1|apply Rmax_r]|].
    destruct (Rlt_dec M2 a); [apply Rle_trans with (f a); [mono I4|apply Rmax_l]|].
    apply (unimodal_max f m); auto; intros; [mono I2|mono I3].
Qed.
Lemma shape_min_max_min : forall f m1 M m2, m1 < M < m2 ->
  decreasing_on (upto m1) f -> increasing_on (seg m1 M) f -> decreasing_on (seg M m2) f ->
  increasing_on (from m2) f ->
  (forall x, f x <= f M) -> (forall x, f m1 <= f x) -> (forall x, f m2 <= f x) -> turning f [m1; m2] [M].
Proof.
  intros f m1 M m2 L I1 I2 I3 I4 G1 G2 G3. apply turning_ext with (fun x => - - f x); [intro; ring|]. apply turning_opp.
  apply shape_max_min_max; auto; try (intros x y Hx Hy Lxy; apply Ropp_le_contravar); try (intro; apply Ropp_le_contravar; auto).
  - apply I1; auto. - apply I2; auto. - apply I3; auto. - apply I4; auto.
Qed.
(** one minimum *)
Lemma shape_min : forall f m, decreasing_on (upto m) f -> increasing_on (from m) f -> turning f [m] [].
Proof.
  intros f m I1 I2.
  assert (G : forall x, f m <= f x) by (intro x; destruct (Rle_dec x m); [mono I1|mono I2]).
  constructor.
  - constructor; intros e a He La N; simpl in He; assert (N1 := N m ltac:(simpl; tauto)); intros x y Hx Hy Lxy; unfold seg in *;
      try contradiction; destruct He as [<-|[]]; [mono I1|mono I2].
  - intros e x [<-|[]]. auto.
  - intros e x [].
  - intros a x b H N. assert (N1 := N m ltac:(simpl; tauto)). destruct (Rlt_dec b m).
    + apply Rle_trans with (f b); [apply Rmin_r|mono I1].
    + apply Rle_trans with (f a); [apply Rmin_l|mono I2].
  - intros a x b H N. apply (unimodal_max f m); auto; intros; [mono I1|mono I2].
Qed.

(** ** The change of variable *)
Definition clamp (x : R) : R := Rmin 1 (Rmax 0 x).
Lemma clamp_range : forall x, 0 <= clamp x <= 1.
Proof. intro x. unfold clamp, Rmin, Rmax. repeat destruct Rle_dec; lra. Qed.
Lemma clamp_step : forall x y, x < y -> 0 <= clamp y - clamp x <= y - x.
Proof. intros x y L. unfold clamp, Rmin, Rmax. repeat destruct Rle_dec; lra. Qed.
Lemma clamp_ge1 : forall x, 1 <= x -> clamp x = 1.
Proof. intros x L. unfold clamp, Rmin, Rmax. repeat destruct Rle_dec; lra. Qed.
Lemma clamp_le0 : forall x, x <= 0 -> clamp x = 0.
Proof. intros x L. unfold clamp, Rmin, Rmax. repeat destruct Rle_dec; lra. Qed.
(** Shifts [x <= -1] by [c1], [x >= 1] by [c2], fixes 0. *)
Definition warp (c1 c2 x : R) : R := x + c2 * clamp x + c1 * clamp (- x).
Lemma warp_inc : forall c1 c2, Rabs c1 <= / 4 -> Rabs c2 <= / 4 -> forall x y, x < y -> warp c1 c2 x < warp c1 c2 y.
Proof.
  intros c1 c2 A B x y L. unfold warp. apply Rabs_le_between in A. apply Rabs_le_between in B.
  assert (C := clamp_step x y L). assert (D := clamp_step (- y) (- x) ltac:(lra)).
  assert (- / 4 * (y - x) <= c2 * (clamp y - clamp x)) by nra.
  assert (- / 4 * (y - x) <= - c1 * (clamp (- x) - clamp (- y))) by nra. lra.
Qed.
Lemma warp_near : forall d c1 c2 x, Rabs c1 <= d -> Rabs c2 <= d -> Rabs (warp c1 c2 x - x) <= d.
Proof.
  intros d c1 c2 x A B. unfold warp. apply Rabs_le_between in A. apply Rabs_le_between in B.
  apply Rabs_le. assert (P := clamp_range x). assert (Q := clamp_range (- x)). destruct (Rle_dec 0 x).
  - rewrite (clamp_le0 (- x)) by lra. nra.
  - rewrite (clamp_le0 x) by lra. nra.
Qed.
Lemma warp_right : forall c1 c2 x, 1 <= x -> warp c1 c2 x = x + c2.
Proof. intros. unfold warp. rewrite clamp_ge1, clamp_le0 by lra. ring. Qed.
Lemma warp_left : forall c1 c2 x, x <= -1 -> warp c1 c2 x = x + c1.
Proof. intros. unfold warp. rewrite clamp_le0, clamp_ge1 by lra. ring. Qed.
Lemma warp_0 : forall c1 c2, warp c1 c2 0 = 0.
Proof. intros. unfold warp. rewrite Ropp_0, clamp_le0 by lra. ring. Qed.

(** ** Slopes *)
Lemma vv_le : forall x, vv x <= / 4.
Proof. intro x. unfold vv. assert (0 <= (2 * sg x - 1) ^ 2) by apply pow2_ge_0. lra. Qed.
Lemma vv_opp : forall x, vv (- x) = vv x.
Proof. intro. unfold vv. rewrite sg_opp. ring. Qed.
Lemma x_vv : forall x, Rabs (x * vv x) <= 1.
Proof.
  assert (P : forall x, 0 <= x -> 0 <= x * vv x <= 1).
  { intros x Hx. assert (A := vv_pos x). split; [apply Rmult_le_pos; lra|].
    unfold vv. rewrite sg_E. assert (E := exp_pos x).
    assert (B : x <= exp x) by (destruct (Req_EM_T x 0) as [->|N]; [rewrite exp_0; lra|assert (X := exp_ineq1 x N); lra]).
    replace (x * (exp x / (1 + exp x) * (1 - exp x / (1 + exp x)))) with (x * exp x / ((1 + exp x) * (1 + exp x))) by (field; lra).
    assert (Pd : 0 < (1 + exp x) * (1 + exp x)) by (apply Rmult_lt_0_compat; lra).
    apply (Rmult_le_reg_r ((1 + exp x) * (1 + exp x))); [auto|]. unfold Rdiv. rewrite Rmult_assoc, Rinv_l by lra. nra. }
  intro x. destruct (Rle_dec 0 x).
  - apply Rabs_le. assert (X := P x r). lra.
  - rewrite <- Rabs_Ropp. replace (- (x * vv x)) with (- x * vv (- x)) by (rewrite vv_opp; ring).
    apply Rabs_le. assert (X := P (- x) ltac:(lra)). lra.
Qed.
Lemma lipschitz : forall f df, (forall x, is_derive f x (df x)) -> (forall x, Rabs (df x) <= 2) ->
  forall x y, Rabs (f x - f y) <= 2 * Rabs (x - y).
Proof.
  intros f df Hd Hb x y.
  destruct (MVT_gen f y x df) as (c & _ & E).
  - intros; apply Hd.
  - intros; apply derivable_continuous_pt; exists (df x0); apply is_derive_Reals, Hd.
  - rewrite E, Rabs_mult. apply Rmult_le_compat_r; [apply Rabs_pos|auto].
Qed.
Ltac slope x := assert (S0 := sg_pos x); assert (S1 := sg_lt1 x); assert (V0 := vv_pos x); assert (V1 := vv_le x);
  assert (XV := x_vv x); apply Rabs_le_between in XV.
Lemma slope_sig3 : forall x, Rabs (sigF 3 x) <= 2.
Proof.
  intro x. slope x. replace (sigF 3 x) with (vv x * (1 - 6 * vv x)) by (unfold sigF, sig_poly, vv; ring).
  apply Rabs_le. clear XV. generalize dependent (vv x). intros. nra.
Qed.
Lemma slope_sig4 : forall x, Rabs (sigF 4 x) <= 2.
Proof.
  intro x. slope x. replace (sigF 4 x) with (vv x * (1 - 12 * vv x) * (1 - 2 * sg x)) by (unfold sigF, sig_poly, vv; ring).
  rewrite Rabs_mult. assert (Rabs (1 - 2 * sg x) <= 1) by (apply Rabs_le; lra).
  assert (Rabs (vv x * (1 - 12 * vv x)) <= 2) by (apply Rabs_le; clear XV; generalize dependent (vv x); intros; nra).
  assert (A := Rabs_pos (vv x * (1 - 12 * vv x))). assert (B := Rabs_pos (1 - 2 * sg x)). nra.
Qed.
Lemma slope_sw1 : forall x, Rabs (swishF 1 x) <= 2.
Proof.
  intro x. slope x. replace (swishF 1 x) with (sg x + x * vv x) by (unfold swishF, sigF, sig_poly, vv; simpl INR; ring).
  apply Rabs_le. lra.
Qed.
Lemma slope_sw2 : forall x, Rabs (swishF 2 x) <= 2.
Proof.
  intro x. slope x. replace (swishF 2 x) with (2 * vv x + (x * vv x) * (1 - 2 * sg x)) by (unfold swishF, sigF, sig_poly, vv; simpl INR; ring).
  apply Rabs_le. generalize dependent (x * vv x). intros w XV.
  assert (- 1 <= w * (1 - 2 * sg x) <= 1) by nra. lra.
Qed.
Lemma slope_sw3 : forall x, Rabs (swishF 3 x) <= 2.
Proof.
  intro x. slope x. replace (swishF 3 x) with (3 * (vv x * (1 - 2 * sg x)) + (x * vv x) * (1 - 6 * vv x)) by (unfold swishF, sigF, sig_poly, vv; simpl INR; ring).
  apply Rabs_le. assert (- / 4 <= vv x * (1 - 2 * sg x) <= / 4) by nra.
  generalize dependent (vv x * (1 - 2 * sg x)). intros q Hq. generalize dependent (x * vv x). intros w XV.
  assert (- 1 <= w * (1 - 6 * vv x) <= 1) by nra. lra.
Qed.

(** ** The tables *)
(** The ids whose listed extrema are decimal approximations of the true ones,
    one minimum value and one maximum value each. *)
Definition rounded_table (n : fname) (k : nat) : bool :=
  match n with
  | SIGMOID => (2 <=? k) && (k <=? 3)
  | SOFTPLUS => (3 <=? k) && (k <=? 4)
  | SWISH => k <=? 2
  | _ => false
  end%nat.
Definition tol : R := 2 / 10 ^ 12.

(** The true extrema: the listed ones, moved by at most 1e-12 (0 is exact). *)
Lemma moved_table : forall n k, rounded_table n k = true ->
  exists d c1 c2, get_function_data (n, k) = Ok d /\ mono_inc d = false /\ mono_dec d = false /\ even_sym d = false /\
    Rabs c1 <= / 10 ^ 12 /\ Rabs c2 <= / 10 ^ 12 /\
    turning (Fof n k) (map (warp c1 c2) (local_minima d)) (map (warp c1 c2) (local_maxima d)).
Proof.
  intros n k H.
  assert (S2 : exists c1 c2, Rabs c1 <= / 10 ^ 12 /\ Rabs c2 <= / 10 ^ 12 /\
      turning (sigF 2) (map (warp c1 c2) [1.3169578969249405]) (map (warp c1 c2) [-1.3169578969249423])).
  { destruct sig2_extrema as (m & Hm & I1 & I2 & I3 & GG). unfold m_sig2, del in Hm.
    exists (1.3169578969249423 - m), (m - 1.3169578969249405). split; [apply Rabs_le; lra|]. split; [apply Rabs_le; lra|].
    cbn [map]. rewrite (warp_right _ _ 1.3169578969249405), (warp_left _ _ (-1.3169578969249423)) by lra.
    replace (1.3169578969249405 + (m - 1.3169578969249405)) with m by ring.
    replace (-1.3169578969249423 + (1.3169578969249423 - m)) with (- m) by lra.
    apply shape_max_min; auto; lra. }
  assert (S3 : exists c1 c2, Rabs c1 <= / 10 ^ 12 /\ Rabs c2 <= / 10 ^ 12 /\
      turning (sigF 3) (map (warp c1 c2) [0]) (map (warp c1 c2) [-2.292431669561122; 2.2924316695611195])).
  { destruct sig3_extrema as (m & Hm & I1 & I2 & I3 & I4 & G1 & G2 & G3). unfold m_sig3, del in Hm.
    exists (2.292431669561122 - m), (m - 2.2924316695611195). split; [apply Rabs_le; lra|]. split; [apply Rabs_le; lra|].
    cbn [map]. rewrite warp_0, (warp_right _ _ 2.2924316695611195), (warp_left _ _ (-2.292431669561122)) by lra.
    replace (2.2924316695611195 + (m - 2.2924316695611195)) with m by ring.
    replace (-2.292431669561122 + (2.292431669561122 - m)) with (- m) by lra.
    apply shape_max_min_max; auto; lra. }
  assert (Fin : forall d F mins maxs, (exists c1 c2, Rabs c1 <= / 10 ^ 12 /\ Rabs c2 <= / 10 ^ 12 /\ turning F (map (warp c1 c2) mins) (map (warp c1 c2) maxs)) ->
     get_function_data (n, k) = Ok d -> mono_inc d = false -> mono_dec d = false -> even_sym d = false -> local_minima d = mins -> local_maxima d = maxs ->
     F = Fof n k ->
     exists d c1 c2, get_function_data (n, k) = Ok d /\ mono_inc d = false /\ mono_dec d = false /\ even_sym d = false /\
       Rabs c1 <= / 10 ^ 12 /\ Rabs c2 <= / 10 ^ 12 /\ turning (Fof n k) (map (warp c1 c2) (local_minima d)) (map (warp c1 c2) (local_maxima d))).
  { intros d F mins maxs (c1 & c2 & A & B & T) E1 E2 E3 E4 E5 E6 E7. exists d, c1, c2. rewrite E5, E6, <- E7. auto 10. }
  destruct n; simpl in H; try discriminate.
  - destruct k as [|[|[|[|k]]]]; try discriminate; [apply (Fin _ _ _ _ S2 eq_refl)|apply (Fin _ _ _ _ S3 eq_refl)]; reflexivity.
  - destruct k as [|[|[|[|[|k]]]]]; try discriminate; [apply (Fin _ _ _ _ S2 eq_refl)|apply (Fin _ _ _ _ S3 eq_refl)]; reflexivity.
  - destruct k as [|[|[|k]]]; try discriminate.
    + assert (S : exists c1 c2, Rabs c1 <= / 10 ^ 12 /\ Rabs c2 <= / 10 ^ 12 /\ turning (swishF 0) (map (warp c1 c2) [-1.278464542761141]) (map (warp c1 c2) [])).
      { destruct sw0_extrema as (m & Hm & I1 & I2 & _). unfold m_sw0, del in Hm.
        exists (m + 1.278464542761141), 0. split; [apply Rabs_le; lra|]. split; [rewrite Rabs_R0; lra|].
        cbn [map]. rewrite warp_left by lra. replace (-1.278464542761141 + (m + 1.278464542761141)) with m by lra.
        apply shape_min; auto. }
      apply (Fin _ _ _ _ S eq_refl); reflexivity.
    + assert (S : exists c1 c2, Rabs c1 <= / 10 ^ 12 /\ Rabs c2 <= / 10 ^ 12 /\ turning (swishF 1) (map (warp c1 c2) [-2.399357280515326]) (map (warp c1 c2) [2.399357280515324])).
      { destruct sw1_extrema as (m & Hm & I1 & I2 & I3 & GG). unfold m_sw1, del in Hm.
        exists (2.399357280515326 - m), (m - 2.399357280515324). split; [apply Rabs_le; lra|]. split; [apply Rabs_le; lra|].
        cbn [map]. rewrite (warp_left _ _ (-2.399357280515326)), (warp_right _ _ 2.399357280515324) by lra.
        replace (2.399357280515324 + (m - 2.399357280515324)) with m by ring.
        replace (-2.399357280515326 + (2.399357280515326 - m)) with (- m) by lra.
        apply shape_min_max; auto; lra. }
      apply (Fin _ _ _ _ S eq_refl); reflexivity.
    + assert (S : exists c1 c2, Rabs c1 <= / 10 ^ 12 /\ Rabs c2 <= / 10 ^ 12 /\ turning (swishF 2) (map (warp c1 c2) [-3.4358409935350243; 3.4358409935350225]) (map (warp c1 c2) [0])).
      { destruct sw2_extrema as (m & Hm & I1 & I2 & I3 & I4 & G1 & G2 & G3). unfold m_sw2, del in Hm.
        exists (3.4358409935350243 - m), (m - 3.4358409935350225). split; [apply Rabs_le; lra|]. split; [apply Rabs_le; lra|].
        cbn [map]. rewrite warp_0, (warp_left _ _ (-3.4358409935350243)), (warp_right _ _ 3.4358409935350225) by lra.
        replace (3.4358409935350225 + (m - 3.4358409935350225)) with m by ring.
        replace (-3.4358409935350243 + (3.4358409935350243 - m)) with (- m) by lra.
        apply shape_min_max_min; auto; lra. }
      apply (Fin _ _ _ _ S eq_refl); reflexivity.
Qed.

Lemma rounded_slope : forall n k, rounded_table n k = true ->
  exists df, (forall x, is_derive (Fof n k) x (df x)) /\ forall x, Rabs (df x) <= 2.
Proof.
  intros n k H. destruct n; simpl in H; try discriminate.
  - destruct k as [|[|[|[|k]]]]; try discriminate; [exists (sigF 3)|exists (sigF 4)]; split; auto using slope_sig3, slope_sig4; intros; apply sigF_derive; lia.
  - destruct k as [|[|[|[|[|k]]]]]; try discriminate; [exists (sigF 3)|exists (sigF 4)]; split; auto using slope_sig3, slope_sig4; intros; [apply (sigF_derive 2)|apply (sigF_derive 3)]; lia.
  - destruct k as [|[|[|k]]]; try discriminate; [exists (swishF 1)|exists (swishF 2)|exists (swishF 3)]; split; auto using slope_sw1, slope_sw2, slope_sw3; intros; apply swishF_derive; lia.
Qed.

Lemma near_table : forall n k, rounded_table n k = true ->
  exists d G, get_function_data (n, k) = Ok d /\ mono_inc d = false /\ mono_dec d = false /\ even_sym d = false /\
    turning G (local_minima d) (local_maxima d) /\ forall x, Rabs (Fof n k x - G x) <= tol.
Proof.
  intros n k H. destruct (moved_table n k H) as (d & c1 & c2 & E & M1 & M2 & Ev & A & B & T). destruct (rounded_slope n k H) as (df & Hd & Hb).
  exists d, (fun x => Fof n k (warp c1 c2 x)). do 4 (split; [auto|]). split.
  - apply turning_warp; auto. apply warp_inc; lra.
  - intro x. eapply Rle_trans; [apply (lipschitz (Fof n k) df); auto|].
    rewrite Rabs_minus_sym. assert (X := warp_near (/ 10 ^ 12) c1 c2 x A B). unfold tol. lra.
Qed.
