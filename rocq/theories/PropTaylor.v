(** Property C66: below the maximum degree the coefficients returned by
    taylor_bounds are the function's Taylor coefficients at x0. *)
From Coq Require Import Reals Lra Psatz FunctionalExtensionality.
From Coquelicot Require Import Coquelicot.
From Verif Require Import Base Tensor IntervalArith Polynomials Enclosure TensorLemmas Spec IntervalProofs PowerProofs PolyProofs
  EnclosureOps EnclosureProofs BilinearProofs PropEnclosure PropDegree GraphEditor GraphSpec JaxBound JaxSpec JaxLemmas JaxOps JaxInit PropJax TaylorSpec.
Open Scope R_scope.

(** * Sums *)
Lemma sumn_first n (f : nat -> R) : sumn (S n) f = f 0%nat + sumn n (fun k => f (S k)).
Proof. induction n as [|n IH]; [simpl; ring|]. cbn [sumn] in *. rewrite IH. simpl. ring. Qed.
Lemma sumi_abs sh (f : list nat -> R) : Rabs (sumi sh f) <= sumi sh (fun J => Rabs (f J)).
Proof.
  apply Rabs_le. split.
  - replace (- sumi sh (fun J => Rabs (f J))) with (sumi sh (fun J => -1 * Rabs (f J))) by (rewrite sumi_scal; ring).
    apply sumi_le. intros J _. unfold Rabs. destruct Rcase_abs; lra.
  - apply sumi_le. intros J _. apply Rle_abs.
Qed.
Lemma zpow_abs X z r : 0 <= r -> (forall J, valid X J -> Rabs (z J) <= r) -> forall i K, valid (rep i X) K -> Rabs (zpow (length X) z i K) <= r ^ i.
Proof.
  intros Hr Hz. induction i as [|i IH]; intros K HK; cbn [zpow].
  - rewrite Rabs_R1. simpl. lra.
  - cbn [rep] in HK. apply valid_app_inv in HK. destruct HK as (I & J & -> & HI & HJ). pose proof (valid_length _ _ HI).
    rewrite firstn_exact, skipn_exact by auto. rewrite Rabs_mult. cbn [pow]. apply Rmult_le_compat; try apply Rabs_pos; auto.
Qed.
Lemma zpow_scal X z t : forall i K, valid (rep i X) K -> zpow (length X) (fun J => t * z J) i K = t ^ i * zpow (length X) z i K.
Proof.
  induction i as [|i IH]; intros K HK; cbn [zpow pow]; [ring|]. cbn [rep] in HK. apply valid_app_inv in HK. destruct HK as (I & J & -> & HI & HJ). pose proof (valid_length _ _ HI).
  rewrite firstn_exact, skipn_exact by auto. rewrite IH by auto. ring.
Qed.
Lemma zpow_ext X z z' : (forall J, valid X J -> z J = z' J) -> forall i K, valid (rep i X) K -> zpow (length X) z i K = zpow (length X) z' i K.
Proof.
  intros H. induction i as [|i IH]; intros K HK; cbn [zpow]; [reflexivity|]. cbn [rep] in HK. apply valid_app_inv in HK. destruct HK as (I & J & -> & HI & HJ). pose proof (valid_length _ _ HI).
  rewrite firstn_exact, skipn_exact by auto. rewrite IH, H by auto. reflexivity.
Qed.
Lemma term_value_homog X v t i A : term_value X (fun J => t * v J) i A = t ^ i * term_value X v i A.
Proof. unfold term_value. rewrite <- sumi_scal. apply sumi_ext. intros J HJ. rewrite zpow_scal by auto. ring. Qed.
Lemma term_value_zext X z z' i A : (forall J, valid X J -> z J = z' J) -> term_value X z i A = term_value X z' i A.
Proof. intros H. unfold term_value. apply sumi_ext. intros J HJ. rewrite (zpow_ext X z z' H) by auto. reflexivity. Qed.

Lemma skipn_tl {A} i : forall l : list A, skipn (S i) l = tl (skipn i l).
Proof. induction i as [|i IH]; intros [|a l]; auto. exact (IH l). Qed.

(** * The remainder *)
Section Remainder.
Variables (X : list nat) (all : list (coef R)) (D : nat) (s : list nat).
Let T i z := term_value X z i (coefficient_at X all i s).
Definition big : R :=
  match nth_error all D with
  | Some c => sumi (rep D X) (fun J => let K := bidx (firstn (length (tshape (lo c)) - D * length X) (tshape (lo c))) s ++ J in Rabs (tdata (lo c) K) + Rabs (tdata (hi c) K))
  | None => 0
  end.
Lemma big_nonneg : 0 <= big.
Proof.
  unfold big. destruct nth_error; [|lra]. rewrite <- (sumi_zero (rep D X)). apply sumi_le. intros J _. cbv zeta. apply Rplus_le_le_0_compat; apply Rabs_pos.
Qed.
Lemma shape_front p i c : wfs (p ++ rep i X) c -> firstn (length (tshape (lo c)) - i * length X) (tshape (lo c)) = p.
Proof. intros W. rewrite (wfs_lo _ _ W). apply firstn_exact. rewrite app_length, rep_length. lia. Qed.

Lemma plain_term S z i t u : nth_error all i = Some (Arr t) -> contributes (bcast S) X z s i (Arr t) u -> u = T i z.
Proof.
  intros HN (p & _ & W & A & HA & ->). unfold T. apply term_value_ext. intros J HJ. unfold coefficient_at. rewrite HN, (shape_front _ _ _ W). exact (HA J HJ).
Qed.
Lemma last_term S z c u r : 0 <= r -> (forall J, valid X J -> Rabs (z J) <= r) -> nth_error all D = Some c -> contributes (bcast S) X z s D c u -> Rabs u <= big * r ^ D.
Proof.
  intros Hr Hz HN (p & _ & W & A & HA & ->). unfold term_value. eapply Rle_trans; [apply sumi_abs|]. unfold big. rewrite HN, (shape_front _ _ _ W), <- sumi_scal_r.
  apply sumi_le. intros J HJ. cbv zeta. rewrite Rabs_mult. apply Rmult_le_compat; try apply Rabs_pos; [|apply zpow_abs; auto].
  pose proof (HA J HJ) as HI. apply inat_iff in HI. unfold Rabs. repeat destruct Rcase_abs; lra.
Qed.

Lemma remainder S z r : 0 <= r -> (forall J, valid X J -> Rabs (z J) <= r) -> plain_below D all -> (length all <= D + 1)%nat ->
  forall n i v, (i + n = D)%nat -> encl_from (bcast S) X z s i (skipn i all) v -> Rabs (v - sumn n (fun k => T (i + k) z)) <= big * r ^ D.
Proof.
  intros Hr Hz HP HL. pose proof big_nonneg as B0. pose proof (pow_le r D Hr) as Hp. assert (0 <= big * r ^ D) by nra.
  induction n as [|n IH]; intros i v Hi HE.
  - cbn [sumn]. change (@n0 R _) with 0. rewrite Rminus_0_r. assert (i = D) by lia. subst i. destruct (skipn D all) as [|c rest] eqn:E.
    + cbn [encl_from] in HE. subst v. rewrite Rabs_R0. auto.
    + assert (HN : nth_error all D = Some c). { rewrite <- (firstn_skipn D all), E. assert (length (firstn D all) = D). { rewrite firstn_length. pose proof (f_equal (@length _) E) as L. rewrite skipn_length in L. simpl in L. lia. } rewrite nth_error_app2 by lia. rewrite H0, Nat.sub_diag. reflexivity. }
      assert (rest = []). { pose proof (f_equal (@length _) E) as L. rewrite skipn_length in L. simpl in L. destruct rest; auto. simpl in L. lia. } subst rest.
      destruct HE as (u & w & Hu & Hw & ->). cbn [encl_from] in Hw. subst w. rewrite Rplus_0_r. eapply last_term; eauto.
  - rewrite sumn_first. destruct (skipn i all) as [|c rest] eqn:E.
    + cbn [encl_from] in HE. subst v. assert (LL : (length all <= i)%nat). { pose proof (f_equal (@length _) E) as L. rewrite skipn_length in L. simpl in L. lia. }
      assert (HZ : forall j, (i <= j)%nat -> T j z = 0). { intros j Hj. unfold T. rewrite <- (term_value_0 X z j). apply term_value_ext. intros J _. unfold coefficient_at. rewrite (proj2 (nth_error_None all j)) by lia. reflexivity. }
      rewrite HZ by lia. rewrite (sumn_ext n _ (fun _ => 0)) by (intros; apply HZ; lia). rewrite sumn_zero. rewrite Rplus_0_r, Rminus_0_r, Rabs_R0. auto.
    + assert (HN : nth_error all i = Some c). { rewrite <- (firstn_skipn i all), E. assert (length (firstn i all) = i). { rewrite firstn_length. pose proof (f_equal (@length _) E) as L. rewrite skipn_length in L. simpl in L. lia. } rewrite nth_error_app2 by lia. rewrite H0, Nat.sub_diag. reflexivity. }
      assert (ER : rest = skipn (Datatypes.S i) all). { rewrite skipn_tl, E. reflexivity. }
      destruct HE as (u & w & Hu & Hw & ->). destruct (HP i c) as [t ->]; [lia|auto|]. rewrite (plain_term _ _ _ _ _ HN Hu). rewrite Nat.add_0_r.
      rewrite ER in Hw. specialize (IH (Datatypes.S i) w ltac:(lia) Hw).
      rewrite (sumn_ext n _ (fun k => T (Datatypes.S i + k) z)) by (intros k _; f_equal; lia).
      match goal with |- Rabs ?a <= _ => match type of IH with Rabs ?b <= _ => replace a with b by ring end end. exact IH.
Qed.
End Remainder.

(** * C66: the remainder is of order max_deg *)
Theorem C66_polynomial_part_approximates : forall sc gs pr consts max_deg propagate x0 region b,
  valid_generators sc gs -> (forall o, In o (gops (p_graph pr)) -> opaque_ok (odata o)) ->
  in_box x0 region x0 ->
  taylor_bounds sc gs pr consts max_deg propagate x0 region = Ok b ->
  forall s, exists M, 0 <= M /\ forall x y r,
    in_box x0 region x -> supported sc (tshape x0) (Z.to_nat max_deg) pr consts x ->
    meaning sc pr consts x = Some [y] -> valid (tshape y) s ->
    0 <= r -> (forall J, valid (tshape x0) J -> Rabs (tdata x J - tdata x0 J) <= r) ->
    Rabs (tdata y s - polynomial_part (tshape x0) (tb_coefficients b) (Z.to_nat max_deg) s (fun J => tdata x J - tdata x0 J))
      <= M * r ^ Z.to_nat max_deg.
Proof.
  intros sc gs pr consts max_deg propagate x0 region b HG HO B0 H s.
  exists (big (tshape x0) (tb_coefficients b) (Z.to_nat max_deg) s). split; [apply big_nonneg|]. intros x y r B HS HM HV Hr Hz.
  destruct (output_ok _ _ _ _ _ _ _ _ _ _ HG HO B0 B HS H) as (y' & k & HM' & E0 & _ & NV & _ & (HH & HP & HL & _)).
  rewrite HM in HM'. injection HM' as <-. pose proof (encloses_mono _ _ _ _ _ _ _ (hcast_bcast _) (holds_hcast _ _ _ _ _ HH)) as (_ & HE).
  unfold polynomial_part. exact (remainder _ _ _ _ _ _ _ Hr Hz HP HL (Z.to_nat max_deg) 0%nat _ eq_refl (HE s HV)).
Qed.

(** * Polynomials that vanish to high order *)
Lemma poly_value_bound l : exists K, 0 <= K /\ forall t, 0 < t < 1 -> Rabs (poly_value l t) <= K.
Proof.
  induction l as [|c r (K & HK & IH)]; simpl; [exists 0; split; [lra|intros; rewrite Rabs_R0; lra]|].
  exists (Rabs c + K). pose proof (Rabs_pos c). split; [lra|]. intros t Ht. eapply Rle_trans; [apply Rabs_triang|]. rewrite Rabs_mult, (Rabs_right t) by lra. specialize (IH t Ht). pose proof (Rabs_pos (poly_value r t)). nra.
Qed.
Lemma small_zero c : (forall e, 0 < e -> Rabs c <= e) -> c = 0.
Proof. intros H. destruct (Req_dec c 0) as [|N]; auto. pose proof (Rabs_pos_lt c N). specialize (H (Rabs c / 2) ltac:(lra)). lra. Qed.
Lemma poly_vanishes l : (forall e, 0 < e -> exists d, 0 < d /\ forall t, 0 < t < d -> Rabs (poly_value l t) <= e * t ^ (length l - 1)) -> Forall (fun c => c = 0) l.
Proof.
  induction l as [|c r IH]; intros H; [constructor|]. destruct (poly_value_bound r) as (K & HK & HB).
  assert (C0 : c = 0).
  { apply small_zero. intros e He. destruct (H (e / 2) ltac:(lra)) as (d & Hd & Hb).
    set (t := Rmin (Rmin (1 / 2) (d / 2)) (e / (2 * (K + 1)))).
    assert (0 < e / (2 * (K + 1))) by (apply Rdiv_lt_0_compat; lra).
    assert (Ht : 0 < t) by (unfold t; repeat apply Rmin_pos; lra).
    assert (T1 : t <= 1 / 2) by (unfold t; eapply Rle_trans; apply Rmin_l).
    assert (T2 : t <= d / 2) by (unfold t; eapply Rle_trans; [apply Rmin_l|apply Rmin_r]).
    assert (T3 : t <= e / (2 * (K + 1))) by apply Rmin_r.
    specialize (Hb t ltac:(lra)). specialize (HB t ltac:(lra)). simpl poly_value in Hb.
    assert (P1 : t ^ (length (c :: r) - 1) <= 1) by (rewrite <- (pow1 (length (c :: r) - 1)); apply pow_incr; lra).
    assert (P2 : t * K <= e / 2). { apply Rle_trans with (e / (2 * (K + 1)) * (K + 1)); [nra|]. right. field. lra. }
    replace c with ((c + t * poly_value r t) - t * poly_value r t) by ring. eapply Rle_trans; [apply Rabs_triang|]. rewrite Rabs_Ropp, Rabs_mult, (Rabs_right t) by lra.
    pose proof (Rabs_pos (poly_value r t)). nra. }
  constructor; auto. subst c. apply IH. intros e He. destruct (H e He) as (d & Hd & Hb). destruct r as [|c' r'].
  - exists d. split; auto. intros t Ht. simpl. rewrite Rabs_R0. simpl. lra.
  - exists d. split; auto. intros t Ht. specialize (Hb t Ht). simpl poly_value in Hb at 1. rewrite Rplus_0_l, Rabs_mult, (Rabs_right t) in Hb by lra.
    replace (length (0%R :: c' :: r') - 1)%nat with (Datatypes.S (length (c' :: r') - 1)) in Hb by (simpl; lia). cbn [pow] in Hb.
    apply Rmult_le_reg_l with t; [lra|]. eapply Rle_trans; [exact Hb|]. right. ring.
Qed.
Lemma poly_value_sumn l t : poly_value l t = sumn (length l) (fun i => nth i l 0 * t ^ i).
Proof.
  induction l as [|c r IH]; [reflexivity|]. cbn [length poly_value]. rewrite sumn_first, IH. rewrite <- sumn_scal. simpl (nth 0 _ _). simpl (t ^ 0). f_equal; [ring|].
  apply sumn_ext. intros i _. cbn [nth pow]. ring.
Qed.
Lemma sumn_vanishes n (c : nat -> R) : (forall e, 0 < e -> exists d, 0 < d /\ forall t, 0 < t < d -> Rabs (sumn n (fun i => c i * t ^ i)) <= e * t ^ (n - 1)) -> forall i, (i < n)%nat -> c i = 0.
Proof.
  intros H. assert (L : length (map c (seq 0 n)) = n) by (rewrite map_length, seq_length; auto).
  assert (NC : forall i, (i < n)%nat -> nth i (map c (seq 0 n)) 0 = c i) by (intros i Hi; rewrite (nth_indep _ 0 (c 0%nat)) by lia; rewrite map_nth, seq_nth by auto; reflexivity).
  assert (HF : Forall (fun c => c = 0) (map c (seq 0 n))).
  { apply poly_vanishes. intros e He. destruct (H e He) as (d & Hd & Hb). exists d. split; auto. intros t Ht. rewrite poly_value_sumn, L.
    rewrite (sumn_ext n _ (fun i => c i * t ^ i)) by (intros i Hi; rewrite NC by auto; reflexivity). auto. }
  intros i Hi. rewrite <- NC by auto. rewrite Forall_forall in HF. apply HF. apply nth_In. lia.
Qed.

(** * Along a line *)
Lemma sumi_unit X : forall J (f : list nat -> R), valid X J -> sumi X (fun K => unit_vector J K * f K) = f J.
Proof.
  induction X as [|n X IH]; intros J f HJ.
  - apply valid_nil in HJ. subst J. simpl. unfold unit_vector. simpl. ring.
  - apply valid_cons in HJ. destruct HJ as (i & K & -> & Hi & HK). cbn [sumi]. rewrite <- (sumn_delta n (fun j => f (j :: K)) i Hi).
    apply sumn_ext. intros j _. rewrite <- (IH K (fun K => f (j :: K)) HK), <- sumi_scal. apply sumi_ext. intros L _.
    unfold unit_vector, shape_eqb. cbn [list_eqb]. destruct (i =? j)%nat; cbn [andb]; ring.
Qed.
Lemma list_bound (v : list nat -> R) l : exists V, 0 <= V /\ forall J, In J l -> Rabs (v J) <= V.
Proof.
  induction l as [|a l (V & HV & H)]; [exists 0; split; [lra|intros J []]|]. exists (Rabs (v a) + V). pose proof (Rabs_pos (v a)). split; [lra|]. intros J [<-|HJ]; [lra|]. specialize (H J HJ). lra.
Qed.
Section Line.
Variables (sc : scalars R) (gs : generators R) (pr : program R) (consts : list (tensor R)) (max_deg : Z) (propagate : bool)
  (x0 : tensor R) (region : tensor R * tensor R) (b : taylor_bounds_t R).
Hypothesis HG : valid_generators sc gs.
Hypothesis HO : forall o, In o (gops (p_graph pr)) -> opaque_ok (odata o).
Hypothesis B0 : in_box x0 region x0.
Hypothesis HB : taylor_bounds sc gs pr consts max_deg propagate x0 region = Ok b.
Let D := Z.to_nat max_deg.
Variables (s : list nat) (v : list nat -> R).
Definition dir (coefs : list (coef R)) i := term_value (tshape x0) v i (coefficient_at (tshape x0) coefs i s).
Let a := dir (tb_coefficients b).

Lemma line_bound : exists K, 0 <= K /\ forall g t, along sc pr consts D x0 region s v g t -> Rabs (g t - sumn D (fun i => a i * t ^ i)) <= K * Rabs t ^ D.
Proof.
  destruct (C66_polynomial_part_approximates _ _ _ _ _ _ _ _ _ HG HO B0 HB s) as (M & HM & H). destruct (list_bound v (all_idx (tshape x0))) as (V & HV & Hv).
  exists (M * V ^ D). split; [apply Rmult_le_pos; auto; apply pow_le; auto|]. intros g t (x & y & Bx & Ex & Sx & Mx & Vs & <-).
  replace (M * V ^ D * Rabs t ^ D) with (M * (V * Rabs t) ^ D) by (rewrite Rpow_mult_distr; ring).
  rewrite (sumn_ext D _ (fun i => term_value (tshape x0) (fun J => tdata x J - tdata x0 J) i (coefficient_at (tshape x0) (tb_coefficients b) i s))).
  - apply (H x y (V * Rabs t)); auto; [apply Rmult_le_pos; auto; apply Rabs_pos|]. intros J HJ. rewrite Ex by auto. replace (tdata x0 J + t * v J - tdata x0 J) with (v J * t) by ring.
    rewrite Rabs_mult. apply Rmult_le_compat_r; [apply Rabs_pos|]. apply Hv. apply all_idx_valid. auto.
  - intros i _. unfold a, dir. rewrite Rmult_comm, <- term_value_homog. apply term_value_zext. intros J HJ. rewrite Ex by auto. ring.
Qed.

Lemma line_at0 g : (1 <= D)%nat -> along sc pr consts D x0 region s v g 0 -> g 0 = a 0%nat.
Proof.
  intros HD HA. destruct line_bound as (K & _ & H). specialize (H g 0 HA). rewrite Rabs_R0, pow_i, Rmult_0_r in H by lia.
  destruct D as [|n]; [lia|]. rewrite sumn_first in H. rewrite (sumn_ext n _ (fun _ => 0)) in H by (intros; simpl; ring). rewrite sumn_zero in H. simpl in H.
  match type of H with Rabs ?u <= 0 => assert (u = 0) by (apply small_zero; intros; lra) end. lra.
Qed.

Lemma sumn_abs n (c : nat -> R) t : Rabs t <= 1 -> Rabs (sumn n (fun i => c i * t ^ i)) <= sumn n (fun i => Rabs (c i)).
Proof.
  intros Ht. induction n as [|n IH]; [simpl; rewrite Rabs_R0; lra|]. cbn [sumn]. eapply Rle_trans; [apply Rabs_triang|]. apply Rplus_le_compat; auto.
  rewrite Rabs_mult. rewrite <- (Rmult_1_r (Rabs (c n))) at 2. apply Rmult_le_compat_l; [apply Rabs_pos|]. rewrite <- RPow_abs. rewrite <- (pow1 n). apply pow_incr. split; auto. apply Rabs_pos.
Qed.

Lemma line_derive g d : (2 <= D)%nat -> 0 < d -> (forall t, Rabs t < d -> along sc pr consts D x0 region s v g t) -> is_derive g 0 (a 1%nat).
Proof.
  intros HD Hd HA. pose proof (line_at0 g ltac:(lia) (HA 0 ltac:(rewrite Rabs_R0; auto))) as G0. destruct line_bound as (K & HK & H).
  destruct D as [|[|n]] eqn:ED; [lia|lia|]. set (C := sumn n (fun i => Rabs (a (S (S i))))).
  assert (HC : 0 <= C) by (unfold C; rewrite <- (sumn_zero n); apply sumn_le; intros; apply Rabs_pos).
  assert (Q : forall t, Rabs t < d -> Rabs t <= 1 -> Rabs (g t - g 0 - t * a 1%nat) <= (C + K) * (t * t)).
  { intros t T1 T2. specialize (H g t (HA t T1)). rewrite 2 sumn_first in H. rewrite G0.
    set (R2 := sumn n (fun i => a (S (S i)) * t ^ i)). assert (HR : Rabs R2 <= C) by (apply sumn_abs; auto).
    assert (E2 : sumn n (fun k => a (S (S k)) * t ^ S (S k)) = t * t * R2) by (unfold R2; rewrite <- sumn_scal; apply sumn_ext; intros; cbn [pow]; ring).
    rewrite E2 in H. replace (g t - a 0%nat - t * a 1%nat) with ((g t - (a 0%nat * t ^ 0 + (a 1%nat * t ^ 1 + t * t * R2))) + t * t * R2) by (simpl; ring).
    assert (P : Rabs t ^ S (S n) <= t * t). { cbn [pow]. rewrite <- Rmult_assoc, <- Rabs_mult, (Rabs_right (t * t)) by nra. rewrite <- (Rmult_1_r (t * t)) at 2. apply Rmult_le_compat_l; [nra|]. rewrite <- (pow1 n). apply pow_incr. split; auto. apply Rabs_pos. }
    assert (P2 : Rabs (t * t * R2) <= t * t * C) by (rewrite Rabs_mult, (Rabs_right (t * t)) by nra; apply Rmult_le_compat_l; [nra|auto]).
    eapply Rle_trans; [apply Rabs_triang|]. nra. }
  apply is_derive_Reals. intros e He. set (dd := Rmin (Rmin d 1) (e / (C + K + 1))).
  assert (0 < e / (C + K + 1)) by (apply Rdiv_lt_0_compat; lra).
  assert (Hdd : 0 < dd) by (unfold dd; repeat apply Rmin_pos; lra). exists (mkposreal dd Hdd). intros h Hh Lh. simpl in Lh.
  assert (L1 : Rabs h < d) by (eapply Rlt_le_trans; [exact Lh|]; unfold dd; eapply Rle_trans; apply Rmin_l).
  assert (L2 : Rabs h < 1) by (eapply Rlt_le_trans; [exact Lh|]; unfold dd; eapply Rle_trans; [apply Rmin_l|apply Rmin_r]).
  assert (L3 : Rabs h < e / (C + K + 1)) by (eapply Rlt_le_trans; [exact Lh|apply Rmin_r]).
  rewrite Rplus_0_l. specialize (Q h L1 ltac:(lra)). replace ((g h - g 0) / h - a 1%nat) with ((g h - g 0 - h * a 1%nat) / h) by (field; auto).
  unfold Rdiv. rewrite Rabs_mult, Rabs_inv. pose proof (Rabs_pos_lt h Hh) as Hp. apply Rmult_lt_reg_r with (Rabs h); auto. rewrite Rmult_assoc, Rinv_l, Rmult_1_r by lra.
  eapply Rle_lt_trans; [exact Q|]. replace (h * h) with (Rabs h * Rabs h) by (rewrite <- Rabs_mult; apply Rabs_right; nra).
  assert (Rabs h * (C + K + 1) < e). { apply Rmult_lt_reg_r with (/ (C + K + 1)); [apply Rinv_0_lt_compat; lra|]. rewrite Rmult_assoc, Rinv_r, Rmult_1_r by lra. exact L3. }
  nra.
Qed.

Lemma line_coefficients g d (c : nat -> R) n : (n <= D)%nat -> 0 < d -> (forall t, 0 < t < d -> along sc pr consts D x0 region s v g t) ->
  (forall e, 0 < e -> exists dd, 0 < dd /\ forall t, 0 < t < dd -> Rabs (g t - sumn n (fun i => c i * t ^ i)) <= e * t ^ (n - 1)) ->
  forall i, (i < n)%nat -> c i = a i.
Proof.
  intros Hn Hd HA HC i Hi. destruct line_bound as (K & HK & H).
  assert (Z : c i - a i = 0); [|lra]. revert i Hi. refine (sumn_vanishes n (fun i => c i - a i) _). intros e He. destruct (HC (e / 2) ltac:(lra)) as (d1 & Hd1 & H1).
  set (C := sumn (D - n) (fun k => Rabs (a (n + k)%nat))). assert (HC0 : 0 <= C) by (unfold C; rewrite <- (sumn_zero (D - n)); apply sumn_le; intros; apply Rabs_pos).
  set (d2 := Rmin (Rmin d 1) (Rmin d1 (e / (2 * (C + K + 1))))).
  assert (0 < e / (2 * (C + K + 1))) by (apply Rdiv_lt_0_compat; lra).
  exists d2. split; [unfold d2; repeat apply Rmin_pos; lra|]. intros t Ht.
  assert (T1 : d2 <= d) by (unfold d2; eapply Rle_trans; apply Rmin_l). assert (T2 : d2 <= 1) by (unfold d2; eapply Rle_trans; [apply Rmin_l|apply Rmin_r]).
  assert (T3 : d2 <= d1) by (unfold d2; eapply Rle_trans; [apply Rmin_r|apply Rmin_l]). assert (T4 : d2 <= e / (2 * (C + K + 1))) by (unfold d2; eapply Rle_trans; apply Rmin_r).
  destruct n as [|m]; [simpl; rewrite Rabs_R0; lra|]. replace (S m - 1)%nat with m in * by lia.
  specialize (H1 t ltac:(lra)). specialize (H g t (HA t ltac:(lra))). rewrite (Rabs_right t) in H by lra.
  assert (ES : sumn D (fun i => a i * t ^ i) = sumn (S m) (fun i => a i * t ^ i) + t * t ^ m * sumn (D - S m) (fun k => a (S m + k)%nat * t ^ k)).
  { replace D with (S m + (D - S m))%nat at 1 by lia. generalize (D - S m)%nat as q. induction q as [|q IHq]; [simpl; rewrite Nat.add_0_r; simpl; ring|].
    rewrite Nat.add_succ_r. cbn [sumn]. rewrite IHq. change (@nadd R _) with Rplus. cbn [sumn]. change (@nadd R _) with Rplus. rewrite !pow_add. cbn [pow]. ring. }
  rewrite ES in H. set (R2 := sumn (D - S m) (fun k => a (S m + k)%nat * t ^ k)) in *. assert (HR : Rabs R2 <= C) by (apply sumn_abs; rewrite Rabs_right; lra).
  rewrite (sumn_ext (S m) _ (fun i => c i * t ^ i + -1 * (a i * t ^ i))) by (intros; ring). rewrite sumn_plus, sumn_scal.
  set (P := sumn (S m) (fun i => c i * t ^ i)) in *. set (Q := sumn (S m) (fun i => a i * t ^ i)) in *.
  pose proof (pow_lt t m ltac:(lra)) as Hpm.
  assert (PD : t ^ D <= t * t ^ m). { replace D with (S m + (D - S m))%nat by lia. rewrite pow_add. cbn [pow]. rewrite <- (Rmult_1_r (t * t ^ m)) at 2. apply Rmult_le_compat_l; [nra|]. rewrite <- (pow1 (D - S m)). apply pow_incr. lra. }
  replace (P + -1 * Q) with (- (g t - P) + ((g t - (Q + t * t ^ m * R2)) + t * t ^ m * R2)) by ring.
  eapply Rle_trans; [apply Rabs_triang|]. rewrite Rabs_Ropp. apply Rle_trans with (e / 2 * t ^ m + (K * t ^ D + t * t ^ m * C)).
  - apply Rplus_le_compat; auto. eapply Rle_trans; [apply Rabs_triang|]. apply Rplus_le_compat; auto. rewrite Rabs_mult, (Rabs_right (t * t ^ m)) by nra. apply Rmult_le_compat_l; [nra|auto].
  - assert (tb : t * (C + K + 1) <= e / 2). { apply Rle_trans with (e / (2 * (C + K + 1)) * (C + K + 1)); [apply Rmult_le_compat_r; lra|]. right. field. lra. }
    nra.
Qed.
End Line.

(** ** Taylor coefficients *)
(** No differentiability assumed: for max_deg >= 2 the coefficient of degree 1
    is the derivative. *)
Theorem C66_gradient : forall sc gs pr consts max_deg propagate x0 region b,
  valid_generators sc gs -> (forall o, In o (gops (p_graph pr)) -> opaque_ok (odata o)) ->
  in_box x0 region x0 -> (2 <= max_deg)%Z ->
  taylor_bounds sc gs pr consts max_deg propagate x0 region = Ok b ->
  forall s J g d, valid (tshape x0) J -> 0 < d ->
    (forall t, Rabs t < d -> along sc pr consts (Z.to_nat max_deg) x0 region s (unit_vector J) g t) ->
    is_derive g 0 (coefficient_at (tshape x0) (tb_coefficients b) 1 s J).
Proof.
  intros sc gs pr consts max_deg propagate x0 region b HG HO B0 HD HB s J g d HJ Hd HA.
  pose proof (line_derive _ _ _ _ _ _ _ _ _ HG HO B0 HB s (unit_vector J) g d ltac:(lia) Hd HA) as H.
  replace (coefficient_at (tshape x0) (tb_coefficients b) 1 s J) with (dir x0 s (unit_vector J) (tb_coefficients b) 1); auto.
  unfold dir, term_value. rewrite rep_1. rewrite <- (sumi_unit (tshape x0) J (coefficient_at (tshape x0) (tb_coefficients b) 1 s) HJ).
  apply sumi_ext. intros K HK. rewrite zpow_1 by (apply valid_length; auto). ring.
Qed.

Theorem C66_directional_derivative : forall sc gs pr consts max_deg propagate x0 region b,
  valid_generators sc gs -> (forall o, In o (gops (p_graph pr)) -> opaque_ok (odata o)) ->
  in_box x0 region x0 -> (2 <= max_deg)%Z ->
  taylor_bounds sc gs pr consts max_deg propagate x0 region = Ok b ->
  forall s v g d, 0 < d ->
    (forall t, Rabs t < d -> along sc pr consts (Z.to_nat max_deg) x0 region s v g t) ->
    is_derive g 0 (term_value (tshape x0) v 1 (coefficient_at (tshape x0) (tb_coefficients b) 1 s)).
Proof.
  intros sc gs pr consts max_deg propagate x0 region b HG HO B0 HD HB s v g d Hd HA.
  exact (line_derive _ _ _ _ _ _ _ _ _ HG HO B0 HB s v g d ltac:(lia) Hd HA).
Qed.

(** Along a line on which the function is max_deg times differentiable, every
    coefficient below max_deg is the Taylor coefficient; only the points on one
    side need to be in the region. *)
Theorem C66_taylor_coefficients : forall sc gs pr consts max_deg propagate x0 region b,
  valid_generators sc gs -> (forall o, In o (gops (p_graph pr)) -> opaque_ok (odata o)) ->
  in_box x0 region x0 ->
  taylor_bounds sc gs pr consts max_deg propagate x0 region = Ok b ->
  forall s v g d, 0 < d ->
    (forall t, 0 <= t < d -> along sc pr consts (Z.to_nat max_deg) x0 region s v g t) ->
    (forall t k, Rabs t < d -> (k <= Z.to_nat max_deg)%nat -> ex_derive_n g k t) ->
    forall i, (i < Z.to_nat max_deg)%nat ->
      term_value (tshape x0) v i (coefficient_at (tshape x0) (tb_coefficients b) i s) = Derive_n g i 0 / INR (fact i).
Proof.
  intros sc gs pr consts max_deg propagate x0 region b HG HO B0 HB s v g d Hd HA HDv i Hi. set (D := Z.to_nat max_deg) in *.
  symmetry. refine (line_coefficients _ _ _ _ _ _ _ _ _ HG HO B0 HB s v g d (fun i => Derive_n g i 0 / INR (fact i)) D (le_n _) Hd _ _ i Hi).
  { intros t Ht. apply HA. lra. }
  intros e He. destruct D as [|[|n]]; [lia| |].
  - (* continuity *)
    assert (HC : continuous g 0). { apply (ex_derive_continuous g 0). apply (HDv 0 1%nat); [rewrite Rabs_R0; auto|lia]. }
    destruct (HC (fun y => Rabs (y - g 0) < e)) as (dd & Hdd); [exists (mkposreal e He); intros y Hy; exact Hy|].
    exists dd. split; [apply cond_pos|]. intros t Ht. simpl. rewrite Rplus_0_l, Rmult_1_r. specialize (Hdd t). simpl in Hdd. rewrite Rmult_1_r. unfold Rdiv. rewrite Rinv_1, Rmult_1_r. left. apply Hdd. unfold ball; simpl. unfold AbsRing_ball, abs, minus, plus, opp; simpl. rewrite Rabs_right; lra.
  - set (h := Derive_n g (S n)). assert (HC : continuous h 0). { apply (ex_derive_continuous h 0). apply (HDv 0 (S (S n))); [rewrite Rabs_R0; auto|lia]. }
    set (F := INR (fact (S n))). assert (HF : 0 < F) by apply INR_fact_lt_0.
    destruct (HC (fun y => Rabs (y - h 0) < e * F)) as (dd & Hdd); [exists (mkposreal (e * F) ltac:(nra)); intros y Hy; exact Hy|].
    exists (Rmin d dd). split; [apply Rmin_pos; auto; apply cond_pos|]. intros t Ht. pose proof (Rmin_l d dd). pose proof (Rmin_r d dd).
    destruct (Taylor_Lagrange g n 0 t) as (z & Hz & ET); [lra| |].
    { intros u Hu k Hk. apply HDv; [rewrite Rabs_right; lra|lia]. }
    rewrite ET, Rminus_0_r. replace (S (S n) - 1)%nat with (S n) by lia.
    replace (sumn (S (S n)) (fun i => Derive_n g i 0 / INR (fact i) * t ^ i)) with (sum_f_R0 (fun m => t ^ m / INR (fact m) * Derive_n g m 0) n + t ^ S n / F * h 0).
    2:{ change (sumn (S (S n)) ?f) with (sumn (S n) f + f (S n)). f_equal; [|unfold h, F; unfold Rdiv; ring]. clear. induction n as [|n IH]; [simpl; unfold Rdiv; ring|]. cbn [sum_f_R0]. rewrite IH. change (sumn (S (S n)) ?f) with (sumn (S n) f + f (S n)). cbv beta. unfold Rdiv; ring. }
    fold F. fold h.
    match goal with |- Rabs ?u <= _ => replace u with (t ^ S n / F * (h z - h 0)) by ring end.
    assert (Hb : Rabs (h z - h 0) < e * F). { apply Hdd. unfold ball; simpl. unfold AbsRing_ball, abs, minus, plus, opp; simpl. rewrite Rabs_right; lra. }
    pose proof (pow_lt t (S n) ltac:(lra)) as Hp. rewrite Rabs_mult, Rabs_right by (apply Rle_ge; apply Rlt_le; apply Rdiv_lt_0_compat; auto).
    apply Rle_trans with (t ^ S n / F * (e * F)); [apply Rmult_le_compat_l; [apply Rlt_le, Rdiv_lt_0_compat; auto|lra]|]. right. field. lra.
Qed.

(** The coefficients below the smaller of two maximum degrees do not depend on
    the trust region, the maximum degree, the generators or propagation. *)
Theorem C66_coefficients_do_not_depend_on_region : forall sc gs1 gs2 pr consts deg1 deg2 prop1 prop2 x0 region1 region2 b1 b2,
  valid_generators sc gs1 -> valid_generators sc gs2 -> (forall o, In o (gops (p_graph pr)) -> opaque_ok (odata o)) ->
  in_box x0 region1 x0 -> in_box x0 region2 x0 ->
  taylor_bounds sc gs1 pr consts deg1 prop1 x0 region1 = Ok b1 ->
  taylor_bounds sc gs2 pr consts deg2 prop2 x0 region2 = Ok b2 ->
  forall s v g d, 0 < d ->
    (forall t, 0 < t < d -> along sc pr consts (Z.to_nat deg1) x0 region1 s v g t /\ along sc pr consts (Z.to_nat deg2) x0 region2 s v g t) ->
    forall i, (i < Z.to_nat deg1)%nat -> (i < Z.to_nat deg2)%nat ->
      term_value (tshape x0) v i (coefficient_at (tshape x0) (tb_coefficients b1) i s) =
      term_value (tshape x0) v i (coefficient_at (tshape x0) (tb_coefficients b2) i s).
Proof.
  assert (HH : forall sc gs1 gs2 pr consts deg1 deg2 prop1 prop2 x0 region1 region2 b1 b2,
  valid_generators sc gs1 -> valid_generators sc gs2 -> (forall o, In o (gops (p_graph pr)) -> opaque_ok (odata o)) ->
  in_box x0 region1 x0 -> in_box x0 region2 x0 ->
  taylor_bounds sc gs1 pr consts deg1 prop1 x0 region1 = Ok b1 ->
  taylor_bounds sc gs2 pr consts deg2 prop2 x0 region2 = Ok b2 ->
  forall s v g d, 0 < d -> (Z.to_nat deg1 <= Z.to_nat deg2)%nat ->
    (forall t, 0 < t < d -> along sc pr consts (Z.to_nat deg1) x0 region1 s v g t /\ along sc pr consts (Z.to_nat deg2) x0 region2 s v g t) ->
    forall i, (i < Z.to_nat deg1)%nat -> dir x0 s v (tb_coefficients b1) i = dir x0 s v (tb_coefficients b2) i).
  2:{ intros sc gs1 gs2 pr consts deg1 deg2 prop1 prop2 x0 region1 region2 b1 b2 HG1 HG2 HO B1 B2 H1 H2 s v g d Hd HA i Hi1 Hi2.
      destruct (le_ge_dec (Z.to_nat deg1) (Z.to_nat deg2)) as [L|L].
      - exact (HH sc gs1 gs2 pr consts deg1 deg2 prop1 prop2 x0 region1 region2 b1 b2 HG1 HG2 HO B1 B2 H1 H2 s v g d Hd L HA i Hi1).
      - symmetry. refine (HH sc gs2 gs1 pr consts deg2 deg1 prop2 prop1 x0 region2 region1 b2 b1 HG2 HG1 HO B2 B1 H2 H1 s v g d Hd L _ i Hi2). intros t Ht. destruct (HA t Ht); auto. }
  intros sc gs1 gs2 pr consts deg1 deg2 prop1 prop2 x0 region1 region2 b1 b2 HG1 HG2 HO B1 B2 H1 H2 s v g d Hd L HA i Hi.
  refine (line_coefficients _ _ _ _ _ _ _ _ _ HG2 HO B2 H2 s v g d (dir x0 s v (tb_coefficients b1)) (Z.to_nat deg1) L Hd (fun t Ht => proj2 (HA t Ht)) _ i Hi).
  intros e He. destruct (line_bound _ _ _ _ _ _ _ _ _ HG1 HO B1 H1 s v) as (K & HK & H). destruct (Z.to_nat deg1) as [|n]; [lia|].
  assert (0 < e / (K + 1)) by (apply Rdiv_lt_0_compat; lra).
  exists (Rmin d (e / (K + 1))). split; [apply Rmin_pos; auto|]. intros t Ht. pose proof (Rmin_l d (e / (K + 1))). pose proof (Rmin_r d (e / (K + 1))).
  specialize (H g t (proj1 (HA t ltac:(lra)))). eapply Rle_trans; [exact H|]. rewrite Rabs_right by lra. replace (S n - 1)%nat with n by lia. cbn [pow].
  pose proof (pow_lt t n ltac:(lra)). assert (t * (K + 1) <= e). { apply Rle_trans with (e / (K + 1) * (K + 1)); [apply Rmult_le_compat_r; lra|]. right. field. lra. }
  nra.
Qed.
