(** Theorems about get_range and the tables of extrema (C26-C28). *)
From Coq Require Import Reals Lra.
From Coquelicot Require Import Coquelicot.
From Verif Require Import Base Elementwise Primitive ElementSpec Analysis ElementwiseProofs
  PrimitiveProofs PropElementwise.
Open Scope R_scope.

(** * C26 *)
(** The ids whose table is exact: the monotone ones, and those with a single
    extremum that is listed exactly. *)
Definition exact_table (n : fname) (k : nat) : bool :=
  match n with
  | EXP | LOG => true
  | ABS | SIGMOID => k <=? 1
  | SOFTPLUS => k <=? 2
  | SWISH => false
  end%nat.

Lemma exact_supported : forall n k, exact_table n k = true -> supported n k = true.
Proof. intros [] k; simpl; auto; try discriminate; rewrite !Nat.leb_le; lia. Qed.

(** What the answer should be. *)
Definition range_of (g : R -> res R) (a b lo hi : R) :=
  (forall x, a <= x <= b -> exists v, g x = Ok v /\ lo <= v <= hi) /\
  (exists x, a <= x <= b /\ g x = Ok lo) /\ (exists x, a <= x <= b /\ g x = Ok hi).

Lemma range_mono : forall g F a b,
  (forall x, a <= x <= b -> g x = Ok (F x)) -> a <= b ->
  increasing_on (seg a b) F \/ decreasing_on (seg a b) F ->
  range_of g a b (Rmin (F a) (F b)) (Rmax (F a) (F b)).
Proof.
  intros g F a b Hg L H.
  assert (Ea : g a = Ok (F a)) by (apply Hg; lra). assert (Eb : g b = Ok (F b)) by (apply Hg; lra).
  assert (Ha : seg a b a) by (unfold seg; lra). assert (Hb : seg a b b) by (unfold seg; lra).
  repeat split.
  - intros x Hx. exists (F x). split; [auto|].
    destruct H as [H|H]; assert (A := H a x Ha Hx (proj1 Hx)); assert (B := H x b Hx Hb (proj2 Hx)).
    + rewrite Rmin_left, Rmax_right by lra. lra.
    + rewrite Rmin_right, Rmax_left by lra. lra.
  - unfold Rmin. destruct Rle_dec; [exists a|exists b]; split; auto; lra.
  - unfold Rmax. destruct Rle_dec; [exists b|exists a]; split; auto; lra.
Qed.

Lemma bump_range : forall a b, a <= b ->
  exists lo hi, minimum_value (fun x => Ok (sigF 1 x)) a b [] = Ok lo /\
    maximum_value (fun x => Ok (sigF 1 x)) a b [0] = Ok hi /\
    range_of (fun x => Ok (sigF 1 x)) a b lo hi.
Proof.
  intros a b L. unfold minimum_value, maximum_value, sort_by_desc, sort_by. cbn [fold_left insert_by max_loop min_loop bind].
  do 2 eexists. split; [reflexivity|]. split; [reflexivity|].
  destruct (Rle_dec b 0) as [Lb|Lb].
  { replace (if Rle_b a 0 && Rle_b 0 b then sigF 1 0 else Rmax (sigF 1 a) (sigF 1 b))
      with (Rmax (sigF 1 a) (sigF 1 b)).
    - apply (range_mono _ (sigF 1)); auto. left. intros x y Hx Hy Lxy. unfold seg in *.
      apply sigF1_inc; lra.
    - destruct (Req_EM_T b 0) as [->|Nb].
      + rewrite !Rle_b_le by lra. cbn [andb]. apply Rmax_right. apply sigF1_inc; lra.
      + rewrite (Rle_b_gt 0 b) by lra. rewrite andb_false_r. reflexivity. }
  destruct (Rle_dec 0 a) as [La|La].
  { replace (if Rle_b a 0 && Rle_b 0 b then sigF 1 0 else Rmax (sigF 1 a) (sigF 1 b))
      with (Rmax (sigF 1 a) (sigF 1 b)).
    - apply (range_mono _ (sigF 1)); auto. right. intros x y Hx Hy Lxy. unfold seg in *.
      apply sigF1_dec; lra.
    - destruct (Req_EM_T a 0) as [->|Na].
      + rewrite !Rle_b_le by lra. cbn [andb]. apply Rmax_left. apply sigF1_dec; lra.
      + rewrite (Rle_b_gt a 0) by lra. reflexivity. }
  rewrite !Rle_b_le by lra. cbn [andb]. repeat split.
  - intros x Hx. eexists; split; [reflexivity|]. split.
    + destruct (Rle_dec x 0).
      * apply Rle_trans with (sigF 1 a); [apply Rmin_l|apply sigF1_inc; lra].
      * apply Rle_trans with (sigF 1 b); [apply Rmin_r|apply sigF1_dec; lra].
    + destruct (Rle_dec x 0); [apply sigF1_inc; lra|apply sigF1_dec; lra].
  - unfold Rmin. destruct Rle_dec; [exists a|exists b]; split; auto; lra.
  - exists 0. split; auto; lra.
Qed.

Lemma range_ext : forall g g' a b lo hi, (forall x, g x = g' x) ->
  range_of g a b lo hi -> range_of g' a b lo hi.
Proof.
  intros g g' a b lo hi E (A & (x & Hx & B) & (y & Hy & C)). repeat split.
  - intros z Hz. destruct (A z Hz) as (v & Hv & Hl). exists v. rewrite <- E. auto.
  - exists x. rewrite <- E. auto.
  - exists y. rewrite <- E. auto.
Qed.

(** Full statement (C26): for every id.  Proved for the ids with exact tables;
    for the others it is false, see [C27_get_range_misses_values_refuted]. *)
Theorem C26_get_range_exact : forall n k a b,
  exact_table n k = true -> domain n a -> a <= b ->
  exists g lo hi, get_function (n, k) = Ok g /\ get_range (n, k) a b = Ok (lo, hi) /\
    range_of g a b lo hi.
Proof.
  intros n k a b Ht Da L.
  destruct (Fof_ok n k (exact_supported n k Ht)) as (g & Hg & Hgx).
  assert (Dx : forall x, a <= x <= b -> domain n x).
  { intros x Hx. destruct n; simpl in *; auto; try exact I. unfold positive in *; lra. }
  exists g. unfold get_range. rewrite Hg. cbn [bind].
  assert (Mono : forall d, get_function_data (n, k) = Ok d -> local_minima d = [] -> local_maxima d = [] ->
            increasing_on (domain n) (Fof n k) \/ decreasing_on (domain n) (Fof n k) ->
            exists lo hi, Ok g = Ok g /\
              (d <- get_function_data (n, k) ;; lo <- minimum_value g a b (local_minima d) ;;
               hi <- maximum_value g a b (local_maxima d) ;; Ok (lo, hi)) = Ok (lo, hi) /\
              range_of g a b lo hi).
  { intros d Hd E1 E2 M. rewrite Hd. cbn [bind]. rewrite E1, E2.
    unfold minimum_value, maximum_value, sort_by_desc, sort_by. simpl.
    rewrite (Hgx a), (Hgx b) by (apply Dx; lra). simpl.
    do 2 eexists. split; [auto|]. split; [reflexivity|].
    apply (range_mono g (Fof n k)); auto.
    destruct M as [M|M]; [left|right]; intros x y Hx Hy Lxy; apply M; auto. }
  assert (Bump : n = SIGMOID /\ k = 1%nat \/ n = SOFTPLUS /\ k = 2%nat ->
            exists lo hi, Ok g = Ok g /\
              (d <- get_function_data (n, k) ;; lo <- minimum_value g a b (local_minima d) ;;
               hi <- maximum_value g a b (local_maxima d) ;; Ok (lo, hi)) = Ok (lo, hi) /\
              range_of g a b lo hi).
  { intros Hb. assert (Eg : forall x, g x = Ok (sigF 1 x)).
    { intro x. rewrite Hgx by (destruct Hb as [[-> ->]|[-> ->]]; exact I).
      destruct Hb as [[-> ->]|[-> ->]]; reflexivity. }
    assert (Ed : get_function_data (n, k) = Ok (FData [] [0] false false true))
      by (destruct Hb as [[-> ->]|[-> ->]]; reflexivity).
    rewrite Ed. cbn [bind local_minima local_maxima].
    destruct (bump_range a b L) as (lo & hi & H1 & H2 & H3). exists lo, hi. split; [auto|]. split.
    - revert H1 H2. unfold minimum_value, maximum_value, sort_by_desc, sort_by. cbn [fold_left insert_by max_loop min_loop bind].
      rewrite !Eg. cbn [bind]. intros [= <-] [= <-]. reflexivity.
    - apply (range_ext (fun x => Ok (sigF 1 x))); [intro; symmetry; apply Eg|auto]. }
  destruct n; simpl exact_table in Ht; try discriminate; try apply Nat.leb_le in Ht.
  - destruct k as [|[|k]]; [| |lia].
    + simpl. injection Hg as <-. unfold minimum_value, maximum_value, sort_by_desc, sort_by. simpl.
      do 2 eexists. split; [auto|]. split; [reflexivity|]. repeat split.
      * intros x Hx. eexists; split; [reflexivity|].
        destruct (Rle_dec a 0); destruct (Rle_dec 0 b);
          rewrite ?(Rle_b_le a 0), ?(Rle_b_le 0 b), ?(Rle_b_gt a 0), ?(Rle_b_gt 0 b) by lra; simpl;
          unfold Rmin, Rmax, Rabs; repeat destruct Rcase_abs; repeat destruct Rle_dec; lra.
      * destruct (Rle_dec a 0); destruct (Rle_dec 0 b); try (exfalso; lra);
          rewrite ?(Rle_b_le a 0), ?(Rle_b_le 0 b), ?(Rle_b_gt a 0), ?(Rle_b_gt 0 b) by lra; simpl;
          [exists 0; split; [lra|reflexivity]| |]; unfold Rmin; destruct Rle_dec;
          solve [exists a; split; [lra|reflexivity]|exists b; split; [lra|reflexivity]].
      * unfold Rmax; destruct Rle_dec; [exists b|exists a]; split; auto; lra.
    + apply (Mono (FData [] [] false true false)); auto. left. exact sign_inc.
  - apply (Mono (FData [] [] false true false)); auto. left. exact exp_inc.
  - apply (Mono (FData [] [] (negb (Nat.even k)) (Nat.even k) false)); auto.
    assert (X := logF_mono k). destruct (Nat.even k); [left|right]; exact X.
  - destruct k as [|[|k]]; [| |lia].
    + apply (Mono (FData [] [] false true false)); auto. left. exact sg_increasing.
    + apply Bump; auto.
  - destruct k as [|[|[|k]]]; [| | |lia].
    + apply (Mono (FData [] [] false true false)); auto. left. exact softplus_inc.
    + apply (Mono (FData [] [] false true false)); auto. left. exact sg_increasing.
    + apply Bump; auto.
Qed.

Example C26_nonvacuous : exact_table LOG 7 = true /\ domain LOG (1/2) /\ 1/2 <= 3.
Proof. simpl; unfold positive; repeat split; lra. Qed.

(** * Numerical bounds on exp, by hand *)
Lemma exp_pow : forall n y, exp (INR n * y) = exp y ^ n.
Proof.
  induction n; intro y.
  - simpl. rewrite Rmult_0_l. apply exp_0.
  - rewrite S_INR. replace ((INR n + 1) * y) with (y + INR n * y) by ring.
    rewrite exp_plus, IHn. reflexivity.
Qed.
Lemma exp_lower : forall n y, -1 <= y -> (1 + y) ^ n <= exp (INR n * y).
Proof.
  intros. rewrite exp_pow. apply pow_incr. split; [lra|].
  destruct (Req_EM_T y 0) as [->|Hy]; [rewrite exp_0; lra|left; apply exp_ineq1; auto].
Qed.
Lemma exp1_lower : 2.5 <= exp 1.
Proof.
  assert (H := exp_lower 8 (1/8) ltac:(lra)). simpl INR in H.
  replace ((1 + 1 + 1 + 1 + 1 + 1 + 1 + 1) * (1 / 8)) with 1 in H by lra. lra.
Qed.
Lemma exp_nat_lower : forall n, 2.5 ^ n <= exp (INR n).
Proof.
  intro n. replace (INR n) with (INR n * 1) by ring. rewrite exp_pow. apply pow_incr.
  split; [lra|apply exp1_lower].
Qed.
Lemma exp_nat_upper : forall n, exp (INR n) <= 3 ^ n.
Proof.
  intro n. replace (INR n) with (INR n * 1) by ring. rewrite exp_pow. apply pow_incr.
  split; [left; apply exp_pos|apply exp_le_3].
Qed.
Lemma exp_le : forall x y, x <= y -> exp x <= exp y.
Proof. intros x y [L|L]; [left; apply exp_increasing; auto|subst; lra]. Qed.

(** Bounds on the logistic function from bounds on the exponential. *)
Lemma sg_exp : forall x, sg x = exp x / (1 + exp x).
Proof.
  intro x. unfold sg. rewrite exp_Ropp. assert (E := exp_pos x). field. split; lra.
Qed.
Lemma sg_lower : forall x u, 0 < u -> u <= exp x -> u / (1 + u) <= sg x.
Proof.
  intros x u Hu H. rewrite sg_exp.
  apply (Rmult_le_reg_r ((1 + u) * (1 + exp x))); [apply Rmult_lt_0_compat; lra|].
  replace (u / (1 + u) * ((1 + u) * (1 + exp x))) with (u * (1 + exp x)) by (field; lra).
  replace (exp x / (1 + exp x) * ((1 + u) * (1 + exp x))) with (exp x * (1 + u)) by (field; lra).
  nra.
Qed.
Lemma sg_upper : forall x u, exp x <= u -> sg x <= u / (1 + u).
Proof.
  intros x u H. assert (E := exp_pos x). rewrite sg_exp.
  apply (Rmult_le_reg_r ((1 + u) * (1 + exp x))); [apply Rmult_lt_0_compat; lra|].
  replace (u / (1 + u) * ((1 + u) * (1 + exp x))) with (u * (1 + exp x)) by (field; lra).
  replace (exp x / (1 + exp x) * ((1 + u) * (1 + exp x))) with (exp x * (1 + u)) by (field; lra).
  nra.
Qed.

(** * C27 *)
Definition m443 : R := -4.429235100557346.
Definition M103 : R := -1.0319582417807402.

Lemma swish3_val : forall x, swishF 3 x =
  sg x * (1 - sg x) * (3 * (1 - 2 * sg x) + x * (1 - 6 * (sg x * (1 - sg x)))).
Proof. intro. unfold swishF, sigF, sig_poly. simpl. ring. Qed.

Lemma swish3_at_m443 : -0.115 < swishF 3 m443.
Proof.
  rewrite swish3_val. assert (A := sg_pos m443).
  assert (B : sg m443 <= / 40).
  { apply Rle_trans with (/ 39 / (1 + / 39)); [|lra]. apply sg_upper.
    assert (X := exp_nat_lower 4). simpl in X.
    apply Rle_trans with (exp (- (1 + 1 + 1 + 1))); [apply exp_le; unfold m443; lra|].
    rewrite exp_Ropp. apply Rinv_le_contravar; lra. }
  generalize dependent (sg m443). intros s A B. unfold m443.
  set (v := s * (1 - s)). assert (0 < v <= / 40) by (unfold v; nra).
  assert (v * 3 * (1 - 2 * s) >= 0).
  { apply Rle_ge. apply Rmult_le_pos; lra. }
  nra.
Qed.

Lemma sg_range_5_9 : forall x, 1/2 <= x <= 9/10 -> 61/100 <= sg x <= 3/4.
Proof.
  intros x Hx. split.
  - apply Rle_trans with (1.6 / (1 + 1.6)); [lra|]. apply sg_lower; [lra|].
    assert (H := exp_lower 8 (1/16) ltac:(lra)). simpl INR in H.
    replace ((1 + 1 + 1 + 1 + 1 + 1 + 1 + 1) * (1 / 16)) with (1/2) in H by lra.
    apply Rle_trans with (exp (1/2)); [lra|apply exp_le; lra].
  - apply Rle_trans with (3 / (1 + 3)); [|lra]. apply sg_upper.
    apply Rle_trans with (exp 1); [apply exp_le; lra|apply exp_le_3].
Qed.

Lemma swish3_low : forall x, 1/2 <= x <= 9/10 -> swishF 3 x <= -0.12.
Proof.
  intros x Hx. rewrite swish3_val. assert (S := sg_range_5_9 x Hx).
  generalize dependent (sg x). intros s S.
  assert (V : 3/16 <= s * (1 - s)) by nra.
  assert (P : x * (1 - 6 * (s * (1 - s))) <= 0) by nra.
  assert (3 * (1 - 2 * s) <= -0.66) by lra. nra.
Qed.

Ltac dec_b := repeat
  match goal with
  | |- context [Rle_b ?x ?y] =>
      first [rewrite (Rle_b_le x y) by lra | rewrite (Rle_b_gt x y) by lra]
  | |- context [Req_b ?x ?y] => unfold Req_b; destruct (Req_EM_T x y); [lra|]
  end.

Lemma sort2_cases : forall key x y, sort_by key [x; y] = [x; y] \/ sort_by key [x; y] = [y; x].
Proof. intros. unfold sort_by. simpl. destruct Rle_lt_dec; auto. Qed.

Lemma swish3_range : get_range (SWISH, 3%nat) (-5) 0.9 = Ok (swishF 3 m443, swishF 3 M103).
Proof.
  unfold get_range. cbn [get_function bind get_function_data swish_data local_minima local_maxima].
  assert (Hf : forall x, swish_derivative 3 x = Ok (swishF 3 x)) by (intro; apply swishF_ok; lia).
  assert (Hmin : minimum_value (swish_derivative 3) (-5) 0.9 [-4.429235100557346; 1.0319582417807385]
                 = Ok (swishF 3 m443)).
  { unfold minimum_value. destruct (sort2_cases (key_of (swish_derivative 3)) (-4.429235100557346) 1.0319582417807385) as [-> | ->];
      cbn [min_loop]; rewrite !Hf; cbn [bind]; dec_b; reflexivity. }
  assert (Hmax : maximum_value (swish_derivative 3) (-5) 0.9 [-1.0319582417807402; 4.429235100557342]
                 = Ok (swishF 3 M103)).
  { unfold maximum_value, sort_by_desc.
    destruct (sort2_cases (fun x => - key_of (swish_derivative 3) x) (-1.0319582417807402) 4.429235100557342) as [-> | ->];
      cbn [max_loop]; rewrite !Hf; cbn [bind]; dec_b; reflexivity. }
  rewrite Hmin. cbn [bind]. rewrite Hmax. reflexivity.
Qed.

(** get_range of the third derivative of swish over [-5, 0.9] does not contain
    its value at the end point 0.9. *)
Theorem C27_get_range_misses_values_refuted :
  exists lo hi g v, get_range (SWISH, 3%nat) (-5) 0.9 = Ok (lo, hi) /\
    get_function (SWISH, 3%nat) = Ok g /\ g 0.9 = Ok v /\ v < lo.
Proof.
  exists (swishF 3 m443), (swishF 3 M103), (swish_derivative 3), (swishF 3 0.9).
  split; [apply swish3_range|]. split; [reflexivity|]. split; [apply swishF_ok; lia|].
  assert (A := swish3_at_m443). assert (B := swish3_low 0.9 ltac:(lra)). lra.
Qed.

Lemma swish3_not_monotone :
  monotone_over (FData [-4.429235100557346; 1.0319582417807385]
                       [-1.0319582417807402; 4.429235100557342] false false false) (-5) 0.9
  = (false, false).
Proof.
  unfold monotone_over, sort_by. cbn [local_minima local_maxima app fold_left insert_by mono_dec mono_inc].
  repeat (match goal with |- context [Rle_lt_dec ?x ?y] => destruct (Rle_lt_dec x y); [try lra|try lra] end; cbn [insert_by]).
  cbn [mono_loop in_list existsb]. dec_b.
  rewrite ?andb_false_r, ?orb_false_r, ?andb_false_l; simpl.
  repeat match goal with |- context [if ?b then _ else _] => destruct b end; reflexivity.
Qed.

Lemma ratio_exists : forall x0 k cs x sigma v, length cs = (k + 1)%nat -> sigma x = Ok v ->
  exists r, taylor_remainder_ratio x0 k sigma cs x = Ok r.
Proof.
  intros. unfold taylor_remainder_ratio. rewrite H, Nat.eqb_refl. simpl. rewrite H0. simpl.
  eexists; reflexivity.
Qed.

Lemma sharp_exists : forall x0 k a b sigma cs inc u v, length cs = (k + 1)%nat ->
  sigma a = Ok u -> sigma b = Ok v ->
  exists I, sharp_enclosure_monotonic_derivative x0 k (a, b) sigma cs inc = Ok (firstn k cs, I).
Proof.
  intros. destruct (ratio_exists x0 k cs a sigma u H H0) as (ra & Ha).
  destruct (ratio_exists x0 k cs b sigma v H H1) as (rb & Hb).
  unfold sharp_enclosure_monotonic_derivative, sharp_ends. destruct inc; rewrite Ha, Hb; eexists; reflexivity.
Qed.

Lemma removelast_firstn_taylor : forall F x0 k,
  removelast (taylor_list F x0 k) = firstn k (taylor_list F x0 k).
Proof.
  intros. rewrite (taylor_list_firstn F x0 k) at 1. apply removelast_last.
Qed.

(** The degree-3 enclosure of swish at 0.5 over [-5, 0.9] does not contain
    swish(0.9). *)
Theorem C27_swish_enclosure_degree3_invalid_refuted :
  exists e, swish_enclosure 0.5 (-5, 0.9) 3 = Ok e /\
    ~ encl_value (fst e) (snd e) (0.9 - 0.5) (textbook SWISH 0.9).
Proof.
  set (cs := taylor_list (Fof SWISH) 0.5 3).
  assert (Hlen : length cs = (3 + 1)%nat) by (unfold cs; rewrite taylor_list_length; reflexivity).
  assert (Hs : forall x, swish_derivative 0 x = Ok (swishF 0 x)) by (intro; apply swishF_ok; lia).
  destruct (sharp_exists 0.5 3 (-5) 0.9 (swish_derivative 0) cs false _ _ Hlen (Hs _) (Hs _)) as (I1 & E1).
  destruct (sharp_exists 0.5 3 (-5) 0.9 (swish_derivative 0) cs true _ _ Hlen (Hs _) (Hs _)) as (I2 & E2).
  exists (firstn 3 cs, (swishF 3 m443 / INR (fact 3), swishF 3 M103 / INR (fact 3))). split.
  - unfold swish_enclosure, get_elementwise_taylor_enclosure.
    cbn [get_function bind derivative_id fst snd Nat.add get_function_data swish_data
         mono_inc mono_dec orb Nat.eqb andb].
    rewrite taylor_coeffs_ok by (reflexivity || exact I). cbn [bind]. fold cs.
    rewrite E1. cbn [bind]. rewrite E2. cbn [bind].
    rewrite swish3_not_monotone. change (derivative_id (SWISH, 0%nat) 3) with (SWISH, 3%nat). rewrite swish3_range. cbn [bind].
    unfold bounded_derivative_enclosure.
    unfold cs at 1 2. rewrite removelast_firstn_taylor, firstn_taylor_length.
    cbn [Nat.eqb negb bind]. reflexivity.
  - cbn [fst snd]. intro H. rewrite <- Fof_0 in H.
    apply encl_value_rho_inv in H; [|lra]. cbn [fst snd] in H.
    destruct (rho_lagrange 3 everywhere (Fof SWISH) 0.5 0.9) as (xi & Hxi & _ & E).
    { intros ? ? ? _ _ _; exact I. } { exact I. } { exact I. }
    { exact (Fof_chain SWISH 3 ltac:(discriminate) eq_refl). }
    rewrite E in H. rewrite Rmin_left, Rmax_right in Hxi by lra.
    assert (B := swish3_low xi ltac:(lra)). assert (A := swish3_at_m443).
    change (Fof SWISH 3) with (swishF 3) in H. assert (F3 : INR (fact 3) = 6) by (simpl; lra). rewrite F3 in H. lra.
Qed.

(** * C28 *)
Lemma swish4_val : forall x, swishF 4 x =
  sg x * (1 - sg x) * (4 * (1 - 6 * (sg x * (1 - sg x))) +
    x * (1 - 2 * sg x) * (1 - 12 * (sg x * (1 - sg x)))).
Proof. intro. unfold swishF, sigF, sig_poly. simpl. ring. Qed.
Lemma swish5_val : forall x, swishF 5 x =
  sg x * (1 - sg x) * (5 * ((1 - 2 * sg x) * (1 - 12 * (sg x * (1 - sg x)))) +
    x * (1 - 30 * (sg x * (1 - sg x)) + 120 * (sg x * (1 - sg x)) ^ 2)).
Proof. intro. unfold swishF, sigF, sig_poly. simpl. ring. Qed.

Lemma sg_ge6 : forall x, 6 <= x -> 240/241 <= sg x < 1.
Proof.
  intros x Hx. split; [|apply sg_lt1].
  apply Rle_trans with (240 / (1 + 240)); [lra|]. apply sg_lower; [lra|].
  assert (X := exp_nat_lower 6). simpl in X.
  apply Rle_trans with (exp 6); [|apply exp_le; lra].
  replace 6 with (1 + 1 + 1 + 1 + 1 + 1) by lra. lra.
Qed.

Lemma swish5_pos : forall x, 6 <= x -> 0 < swishF 5 x.
Proof.
  intros x Hx. rewrite swish5_val. assert (S := sg_ge6 x Hx). generalize dependent (sg x). intros s S.
  set (v := s * (1 - s)). assert (V : 0 < v <= 1/241) by (unfold v; nra).
  apply Rmult_lt_0_compat; [lra|].
  assert (A : -1 <= (1 - 2 * s) * (1 - 12 * v)) by nra.
  assert (B : 6 * (1 - 30 * v) <= x * (1 - 30 * v + 120 * v ^ 2)).
  { assert (0 <= v ^ 2) by (apply pow2_ge_0). assert (0 <= 1 - 30 * v) by lra.
    apply Rle_trans with (x * (1 - 30 * v)); [nra|]. apply Rmult_le_compat_l; lra. }
  lra.
Qed.

(** The fourth derivative of swish increases on [6, oo) ... *)
Lemma swish4_increasing : forall x y, 6 <= x -> x < y -> swishF 4 x < swishF 4 y.
Proof.
  intros x y Hx L.
  destruct (MVT_cor2 (swishF 4) (swishF 5) x y L) as (c & Hc & Hc').
  { intros; apply is_derive_Reals, swishF_derive; lia. }
  assert (0 < swishF 5 c) by (apply swish5_pos; lra). nra.
Qed.

(** ... but monotone_over calls it decreasing there (at every subregion). *)
Theorem C28_swish4_flagged_decreasing_refuted :
  exists d g, get_function_data (SWISH, 4%nat) = Ok d /\ get_function (SWISH, 4%nat) = Ok g /\
    forall a b, 6 <= a -> a < b ->
      monotone_over d a b = (true, false) /\
      exists u v, g a = Ok u /\ g b = Ok v /\ u < v.
Proof.
  do 2 eexists. split; [reflexivity|]. split; [reflexivity|]. intros a b Ha L. split.
  - unfold monotone_over, sort_by.
    cbn [local_minima local_maxima app fold_left insert_by mono_dec mono_inc].
    repeat (match goal with |- context [Rle_lt_dec ?x ?y] => destruct (Rle_lt_dec x y); [try lra|try lra] end; cbn [insert_by]).
    cbn [mono_loop in_list existsb]. dec_b.
    unfold Req_b. repeat (destruct Req_EM_T; try lra). reflexivity.
  - exists (swishF 4 a), (swishF 4 b). rewrite !swishF_ok by lia.
    repeat split. apply swish4_increasing; lra.
Qed.

(** Hence the degree-4 enclosure of swish at 6 over [6, 10] is empty: it
    contains no value at all, at any displacement. *)
Theorem C28_swish_enclosure_degree4_empty_refuted :
  exists e, swish_enclosure 6 (6, 10) 4 = Ok e /\
    forall d v, ~ encl_value (fst e) (snd e) d v.
Proof.
  set (cs := taylor_list (Fof SWISH) 6 4).
  assert (Hs : forall x, swish_derivative 0 x = Ok (Fof SWISH 0 x)) by (intro; apply swishF_ok; lia).
  assert (Ra : taylor_remainder_ratio 6 4 (swish_derivative 0) cs 6 = Ok (rho (Fof SWISH) 6 4 6)).
  { apply ratio_rho; [apply Hs|left; auto]. }
  assert (Rb : taylor_remainder_ratio 6 4 (swish_derivative 0) cs 10 = Ok (rho (Fof SWISH) 6 4 10)).
  { apply ratio_rho; [apply Hs|right]. rewrite Rabs_right by lra. lra. }
  destruct C28_swish4_flagged_decreasing_refuted as (d & g & Hd & Hg & Hm).
  destruct (Hm 6 10 ltac:(lra) ltac:(lra)) as (Hmo & _).
  assert (Rng : exists r, get_range (SWISH, 4%nat) 6 10 = Ok r).
  { unfold get_range. rewrite Hg. cbn [bind]. rewrite Hd. cbn [bind].
    injection Hg as <-. injection Hd as <-.
    assert (Hf : forall x, swish_derivative 4 x = Ok (swishF 4 x)) by (intro; apply swishF_ok; lia).
    assert (Gmin : forall l, exists r, min_loop (swish_derivative 4) 6 10 l = Ok r).
    { induction l as [|x l (r & Hr)]; cbn [min_loop]; [|rewrite Hr]; rewrite !Hf; eexists; reflexivity. }
    assert (Gmax : forall l, exists r, max_loop (swish_derivative 4) 6 10 l = Ok r).
    { induction l as [|x l (r & Hr)]; cbn [max_loop]; [|rewrite Hr]; rewrite !Hf; eexists; reflexivity. }
    unfold minimum_value, maximum_value.
    edestruct Gmin as (r1 & ->). cbn [bind]. edestruct Gmax as (r2 & ->). eexists; reflexivity. }
  destruct Rng as (rng & Hr).
  exists (firstn 4 cs, (rho (Fof SWISH) 6 4 10, rho (Fof SWISH) 6 4 6)). split.
  - unfold swish_enclosure, get_elementwise_taylor_enclosure.
    unfold derivative_id. cbn [fst snd Nat.add]. rewrite Hd.
    cbn [get_function bind].
    assert (Mf : mono_inc d || mono_dec d = false) by (injection Hd as <-; reflexivity).
    rewrite Mf. cbn [Nat.eqb andb].
    rewrite taylor_coeffs_ok by (reflexivity || exact I). cbn [bind]. fold cs.
    unfold sharp_enclosure_monotonic_derivative, sharp_ends. rewrite Ra, Rb. cbn [bind fst snd].
    rewrite Hmo, Hr. cbn [bind]. unfold bounded_derivative_enclosure.
    unfold cs at 1 2. rewrite removelast_firstn_taylor, firstn_taylor_length.
    cbn [Nat.eqb negb bind]. reflexivity.
  - intros dd v (c & Hc & _). cbn [fst snd] in Hc.
    destruct (rho_lagrange_strict 3 everywhere (Fof SWISH) 6 10) as (xi & [Hxi|Hxi] & _ & E); try lra.
    { intros ? ? ? _ _ _; exact I. } { exact I. } { exact I. }
    { exact (Fof_chain SWISH 4 ltac:(discriminate) eq_refl). }
    rewrite E, rho_x0 in Hc. assert (P := INR_fact_pos 4).
    assert (L := swish4_increasing 6 xi ltac:(lra) ltac:(lra)).
    assert (swishF 4 6 / INR (fact 4) < swishF 4 xi / INR (fact 4)).
    { apply Rmult_lt_compat_r; [apply Rinv_0_lt_compat; auto|auto]. }
    change (Fof SWISH 4) with (swishF 4) in Hc. lra.
Qed.
