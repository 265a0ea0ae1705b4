(** C37, regions that touch 0: x**p for a real exponent p > 0. *)
From Coq Require Import Reals Lra.
From Coquelicot Require Import Coquelicot.
From Verif Require Import Base Elementwise Primitive ElementSpec Analysis PrimitiveProofs PropPrimitive PropPower.
Open Scope R_scope.

(** x**p on x >= 0 for p > 0 (with 0**p = 0). *)
Definition power0 (p x : R) : R := if Rlt_dec 0 x then Rpower x p else 0.
Definition powF0 (p : R) (i : nat) (x : R) : R := match i with 0%nat => power0 p x | S _ => powF p i x end.

Lemma powF0_pos : forall p i x, 0 < x -> powF0 p i x = powF p i x.
Proof.
  intros p [|i] x H; [|reflexivity]. unfold powF0, power0. destruct Rlt_dec; [|contradiction]. symmetry. apply powF_0.
Qed.
Lemma taylor_powF0 : forall p x0 k, 0 < x0 -> taylor_list (powF0 p) x0 k = taylor_list (powF p) x0 k.
Proof. intros. unfold taylor_list. apply map_ext. intros i. rewrite powF0_pos; auto. Qed.
Lemma tpoly_powF0 : forall p x0 k x, 0 < x0 -> tpoly (powF0 p) x0 k x = tpoly (powF p) x0 k x.
Proof. intros p x0 k x H. induction k; simpl tpoly; [reflexivity|]. rewrite IHk. f_equal. f_equal. f_equal. apply (powF0_pos p k x0 H). Qed.
Lemma rho_powF0 : forall p x0 k x, 0 < x0 -> 0 < x -> rho (powF0 p) x0 k x = rho (powF p) x0 k x.
Proof.
  intros. unfold rho, rem. destruct Req_EM_T; [rewrite powF0_pos by auto; reflexivity|]. rewrite tpoly_powF0 by auto. rewrite powF0_pos by auto. reflexivity.
Qed.

Lemma power0_small : forall p e, 0 < p -> 0 < e -> exists d, 0 < d /\ forall y, 0 < y < d -> Rpower y p < e.
Proof.
  intros p e Hp He. exists (Rpower e (/ p)). split; [apply exp_pos|]. intros y [Hy1 Hy2].
  replace e with (Rpower (Rpower e (/ p)) p).
  - apply Rlt_Rpower_l; auto.
  - rewrite Rpower_mult. rewrite Rinv_l by lra. apply Rpower_1; auto.
Qed.
Lemma power0_continuous : forall p, 0 < p -> continuity_pt (power0 p) 0.
Proof.
  intros p Hp e He. destruct (power0_small p e Hp He) as (d & Hd & H). exists d. split; auto.
  intros y [_ Hy]. simpl in *. unfold R_dist in *. rewrite Rminus_0_r in Hy. unfold power0 at 2.
  destruct (Rlt_dec 0 0); [lra|]. rewrite Rminus_0_r. unfold power0. destruct (Rlt_dec 0 y).
  - rewrite Rabs_right by (left; apply exp_pos). apply H. rewrite Rabs_right in Hy by lra. lra.
  - rewrite Rabs_R0. auto.
Qed.
Lemma tpoly_continuous : forall F x0 k x, continuity_pt (tpoly F x0 k) x.
Proof.
  intros F x0 [|k] x.
  - apply continuity_pt_const. intros y z. reflexivity.
  - apply derivable_continuous_pt. exists (tpoly (shift F) x0 k x). apply is_derive_Reals. apply tpoly_derive.
Qed.
Lemma ratio_continuous : forall p x0 k, 0 < p -> 0 < x0 ->
  continuity_pt (fun y => (power0 p y - tpoly (powF p) x0 k y) / (y - x0) ^ k) 0.
Proof.
  intros p x0 k Hp Hx. apply continuity_pt_div.
  - apply continuity_pt_minus; [apply power0_continuous; auto|apply tpoly_continuous].
  - apply derivable_continuous_pt. apply ex_derive_Reals_0. auto_derive. exact I.
  - apply pow_nonzero. lra.
Qed.
Lemma rho_near_zero : forall p x0 k e, 0 < p -> 0 < x0 -> 0 < e ->
  exists d, 0 < d /\ forall y, 0 < y < d -> Rabs (rho (powF0 p) x0 k y - rho (powF0 p) x0 k 0) < e.
Proof.
  intros p x0 k e Hp Hx He. destruct (ratio_continuous p x0 k Hp Hx e He) as (d & Hd & H).
  exists (Rmin d x0). split; [apply Rmin_glb_lt; auto|]. intros y [Hy1 Hy2].
  assert (y < d) by (eapply Rlt_le_trans; [exact Hy2|apply Rmin_l]). assert (y < x0) by (eapply Rlt_le_trans; [exact Hy2|apply Rmin_r]).
  unfold rho, rem. destruct (Req_EM_T y x0); [lra|]. destruct (Req_EM_T 0 x0); [lra|].
  rewrite !tpoly_powF0 by auto. change (powF0 p 0) with (power0 p). apply (H y). split.
  - split; [exact I|lra].
  - simpl. unfold R_dist. rewrite Rminus_0_r, Rabs_right; lra.
Qed.

Lemma rho_powF0_monotone : forall p x0 k (inc : bool), 0 < p -> 0 < x0 ->
  (if inc then increasing_on positive (rho (powF p) x0 k) else decreasing_on positive (rho (powF p) x0 k)) ->
  (if inc then increasing_on (fun x => 0 <= x) (rho (powF0 p) x0 k) else decreasing_on (fun x => 0 <= x) (rho (powF0 p) x0 k)).
Proof.
  intros p x0 k inc Hp Hx M.
  assert (P : forall x y, 0 < x -> x <= y -> if inc then rho (powF0 p) x0 k x <= rho (powF0 p) x0 k y else rho (powF0 p) x0 k y <= rho (powF0 p) x0 k x).
  { intros x y H L. rewrite !rho_powF0 by lra. destruct inc; apply M; auto; unfold positive; lra. }
  assert (Z : forall y, 0 < y -> if inc then rho (powF0 p) x0 k 0 <= rho (powF0 p) x0 k y else rho (powF0 p) x0 k y <= rho (powF0 p) x0 k 0).
  { intros y Hy. destruct inc.
    - apply Rnot_lt_le. intros C. destruct (rho_near_zero p x0 k (rho (powF0 p) x0 k 0 - rho (powF0 p) x0 k y)) as (d & Hd & H); auto; [lra|].
      assert (0 < Rmin d y) by (apply Rmin_glb_lt; auto). assert (Rmin d y <= d) by apply Rmin_l. assert (Rmin d y <= y) by apply Rmin_r.
      specialize (H (Rmin d y / 2) ltac:(lra)). apply Rabs_def2 in H. specialize (P (Rmin d y / 2) y ltac:(lra) ltac:(lra)). simpl in P. lra.
    - apply Rnot_lt_le. intros C. destruct (rho_near_zero p x0 k (rho (powF0 p) x0 k y - rho (powF0 p) x0 k 0)) as (d & Hd & H); auto; [lra|].
      assert (0 < Rmin d y) by (apply Rmin_glb_lt; auto). assert (Rmin d y <= d) by apply Rmin_l. assert (Rmin d y <= y) by apply Rmin_r.
      specialize (H (Rmin d y / 2) ltac:(lra)). apply Rabs_def2 in H. specialize (P (Rmin d y / 2) y ltac:(lra) ltac:(lra)). simpl in P. lra. }
  destruct inc; intros x y H1 H2 L; (destruct (Req_EM_T x 0) as [->|]; [destruct (Req_EM_T y 0) as [->|]; [lra|apply Z; lra]|apply P; lra]).
Qed.

Lemma py_pow_power0 : forall p x, 0 < p -> 0 <= x -> py_pow x p = Ok (power0 p x).
Proof.
  intros p x Hp Hx. unfold power0. destruct (Rlt_dec 0 x); [apply py_pow_pos; auto|]. assert (x = 0) by lra. subst x.
  unfold py_pow. destruct (is_int p) as [m|] eqn:E.
  - apply is_int_Some in E. destruct (Req_EM_T 0 0); [|lra]. assert (0 < m)%Z by (apply lt_IZR; lra). destruct (Z.ltb_spec 0 m); [reflexivity|lia].
  - destruct (Rlt_dec 0 0); [lra|]. destruct (Req_EM_T 0 0); [|lra]. destruct (Rlt_dec 0 p); [reflexivity|lra].
Qed.

Theorem C37_pow_enclosure_valid_touching_zero : forall p k x0 a b,
  0 < p -> 0 <= a -> 0 < x0 -> a <= x0 <= b -> cap_ok k x0 a -> cap_ok k x0 b ->
  exists cs lo hi, pow_enclosure p x0 (a, b) k = Ok (cs, (Fin lo, Fin hi)) /\
    valid_enclosure (fun x => if Rlt_dec 0 x then Rpower x p else 0) x0 (seg a b) k (cs, (lo, hi)).
Proof.
  intros p k x0 a b Hp Ha Px0 Hx0 Ca Cb.
  exists (firstn k (taylor_list (powF0 p) x0 k)).
  set (inc := (0 <=? sign_Z (falling p (k + 1)))%Z).
  exists (if inc then rho (powF0 p) x0 k a else rho (powF0 p) x0 k b),
         (if inc then rho (powF0 p) x0 k b else rho (powF0 p) x0 k a).
  split.
  - rewrite (pow_enclosure_nonneg_branch (powF0 p)); auto; try lra.
    + fold inc. destruct inc; reflexivity.
    + rewrite taylor_powF0 by auto. apply pow_coeffs_pos; lra.
    + apply py_pow_power0; lra.
    + apply py_pow_power0; lra.
  - change (valid_enclosure (powF0 p 0) x0 (seg a b) k
      (firstn k (taylor_list (powF0 p) x0 k), (if inc then rho (powF0 p) x0 k a else rho (powF0 p) x0 k b, if inc then rho (powF0 p) x0 k b else rho (powF0 p) x0 k a))).
    assert (M : if inc then increasing_on positive (powF p k) else decreasing_on positive (powF p k)).
    { assert (Sgn : forall x, positive x -> if inc then 0 <= powF p (S k) x else powF p (S k) x <= 0).
      { intros x Hx. assert (Q := sign_is_nonneg _ _ (powF_sign p (S k) x Hx)).
        unfold inc. replace (k + 1)%nat with (S k) by lia. exact Q. }
      destruct inc.
      - apply increasing_of_derive with (powF p (S k)); auto using positive_convex.
        intros; apply powF_derive; auto.
      - apply decreasing_of_derive with (powF p (S k)); auto using positive_convex.
        intros; apply powF_derive; auto. }
    assert (Px : positive x0) by exact Px0.
    assert (R : if inc then increasing_on (fun x => 0 <= x) (rho (powF0 p) x0 k) else decreasing_on (fun x => 0 <= x) (rho (powF0 p) x0 k)).
    { apply rho_powF0_monotone; auto. destruct inc.
      - exact (rho_increasing k positive (powF p) x0 positive_convex Px (powF_chain p k) M).
      - exact (rho_decreasing k positive (powF p) x0 positive_convex Px (powF_chain p k) M). }
    assert (R' : if inc then increasing_on (seg a b) (rho (powF0 p) x0 k) else decreasing_on (seg a b) (rho (powF0 p) x0 k)).
    { destruct inc; intros x y Hx Hy L; apply R; unfold seg in *; lra. }
    destruct (sharp_valid_of_rho (powF0 p) k x0 a b (fun x => Ok (powF0 p 0 x)) inc) as (e & He & _ & Hv); auto.
    rewrite (sharp_of_rho (powF0 p)) in He by auto. injection He as <-.
    destruct inc; exact Hv.
Qed.
(** Square root on [0, 4] around 1, degree 2. *)
Example C37_touching_zero_nonvacuous : 0 < / 2 /\ 0 <= 0 /\ 0 < 1 /\ 0 <= 1 <= 4 /\ cap_ok 2 1 0 /\ cap_ok 2 1 4.
Proof.
  repeat split; try lra; right; unfold Rabs; destruct Rcase_abs; simpl; lra.
Qed.
