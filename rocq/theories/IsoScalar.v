(** Inclusion isotonicity of the elementwise enclosures (primitive_enclosures.py). *)
From Coq Require Import Reals Lra.
From Coquelicot Require Import Coquelicot.
From Verif Require Import Base Elementwise Primitive ElementSpec Analysis ElementwiseProofs
  PrimitiveProofs EvenHessian PropElementwise PropRange PropPrimitive PropCentre PropPower PropPowerZero NearTable PropNear PropClear.
Open Scope R_scope.

(** ** The ratio with the cap 1e-12 *)
Definition capw (k : nat) (x0 x : R) : R := Rabs ((x - x0) ^ k) / Rmax (/ 10 ^ 12) (Rabs ((x - x0) ^ k)).
Definition cr (F : nat -> R -> R) (x0 : R) (k : nat) (x : R) : R := rho F x0 k x0 + capw k x0 x * (rho F x0 k x - rho F x0 k x0).

Lemma ratio_cr F x0 k sigma x : sigma x = Ok (F O x) -> taylor_remainder_ratio x0 k sigma (taylor_list F x0 k) x = Ok (cr F x0 k x).
Proof.
  intros Hs. destruct (Req_EM_T x x0) as [->|Hne].
  - rewrite (ratio_rho F) by (auto; left; auto). unfold cr. f_equal. ring.
  - unfold taylor_remainder_ratio. rewrite taylor_list_length. replace (S k =? k + 1)%nat with true by (symmetry; apply Nat.eqb_eq; lia). simpl negb. cbv iota.
    rewrite Hs. cbn [bind]. rewrite taylor_nth, taylor_sum_horner, horner_taylor, pow_O, Rmult_1_l. unfold cr, capw. rewrite rho_x0.
    assert (P := pow_nonzero (x - x0) k ltac:(lra)). assert (PA := Rabs_pos_lt _ P).
    set (w := (x - x0) ^ k) in *. set (m := Rmax (/ 10 ^ 12) (Rabs w)).
    assert (Hm : 0 < m) by (unfold m; apply Rlt_le_trans with (Rabs w); [auto|apply Rmax_r]).
    assert (E : rho F x0 k x = rem F x0 k x / w) by (unfold rho; destruct (Req_EM_T x x0); [congruence|reflexivity]).
    rewrite E. change (tpoly F x0 (S k) x) with (tpoly F x0 k x + F k x0 / INR (fact k) * w). unfold rem. f_equal.
    assert (N := INR_fact_neq_0 k). assert (S2 : np_sign w * w = Rabs w).
    { clear -P. unfold np_sign, Rabs. destruct total_order_T as [[L|L]|L]; destruct Rcase_abs; lra. }
    rewrite <- S2. clearbody m w. field. repeat split; lra.
Qed.

Lemma capw_range k x0 x : 0 <= capw k x0 x <= 1.
Proof.
  unfold capw. set (w := Rabs _). assert (0 <= w) by apply Rabs_pos. assert (w <= Rmax (/ 10 ^ 12) w) by apply Rmax_r. assert (/ 10 ^ 12 <= Rmax (/ 10 ^ 12) w) by apply Rmax_l.
  assert (P : 0 < / 10 ^ 12) by (apply Rinv_0_lt_compat, pow_lt; lra). set (m := Rmax _ _) in *. clearbody m. split.
  - apply Rmult_le_pos; [auto|]. left. apply Rinv_0_lt_compat. lra.
  - apply (Rmult_le_reg_r m); [lra|]. replace (w / m * m) with w by (field; lra). lra.
Qed.
Lemma capw_mono k x0 x y : Rabs (x - x0) <= Rabs (y - x0) -> capw k x0 x <= capw k x0 y.
Proof.
  intros H. unfold capw. rewrite <- !RPow_abs. assert (L : Rabs (x - x0) ^ k <= Rabs (y - x0) ^ k) by (apply pow_incr; split; [apply Rabs_pos|auto]).
  assert (Z : 0 <= Rabs (x - x0) ^ k) by (apply pow_le, Rabs_pos). set (u := Rabs (x - x0) ^ k) in *. set (v := Rabs (y - x0) ^ k) in *. clearbody u v.
  assert (P : 0 < / 10 ^ 12) by (apply Rinv_0_lt_compat, pow_lt; lra). set (q := / 10 ^ 12) in *. clearbody q. unfold Rmax.
  destruct (Rle_dec q u), (Rle_dec q v); try lra.
  - replace (u / u) with 1 by (field; lra). replace (v / v) with 1 by (field; lra). lra.
  - replace (v / v) with 1 by (field; lra). apply (Rmult_le_reg_r q); [lra|]. replace (u / q * q) with u by (field; lra). lra.
  - apply Rmult_le_compat_r; [left; apply Rinv_0_lt_compat; auto|auto].
Qed.
Lemma cr_0 F x0 x : cr F x0 0 x = F 0%nat x.
Proof.
  assert (E : capw 0 x0 x = 1).
  { unfold capw. simpl pow at 1 3. rewrite Rabs_R1. assert (/ 10 ^ 12 <= 1) by (rewrite <- Rinv_1; apply Rinv_le_contravar; [lra|apply pow_R1_Rle; lra]). rewrite Rmax_right by lra. field. }
  unfold cr. rewrite E, !rho_0. ring.
Qed.
Lemma cr_between F x0 k x lo hi : lo <= rho F x0 k x0 <= hi -> lo <= rho F x0 k x <= hi -> lo <= cr F x0 k x <= hi.
Proof. intros H H'. unfold cr. pose proof (capw_range k x0 x) as T. set (t := capw _ _ _) in *. clearbody t. set (c := rho F x0 k x0) in *. set (v := rho F x0 k x) in *. clearbody c v. nra. Qed.

Lemma scale_lo c u v s t : 0 <= s <= t -> v <= u -> u <= c -> c + t * (v - c) <= c + s * (u - c) <= c.
Proof. intros. nra. Qed.
Lemma scale_hi c u v s t : 0 <= s <= t -> u <= v -> c <= u -> c <= c + s * (u - c) <= c + t * (v - c).
Proof. intros. nra. Qed.
Lemma dist_left x0 x y : y <= x -> x <= x0 -> Rabs (x - x0) <= Rabs (y - x0).
Proof. intros. rewrite !Rabs_left1 by lra. lra. Qed.
Lemma dist_right x0 x y : x0 <= x -> x <= y -> Rabs (x - x0) <= Rabs (y - x0).
Proof. intros. rewrite !Rabs_right by lra. lra. Qed.
Lemma cr_lo F x0 k x y : Rabs (x - x0) <= Rabs (y - x0) -> rho F x0 k y <= rho F x0 k x -> rho F x0 k x <= rho F x0 k x0 -> cr F x0 k y <= cr F x0 k x <= rho F x0 k x0.
Proof. intros. apply scale_lo; auto. split; [apply capw_range|apply capw_mono; auto]. Qed.
Lemma cr_hi F x0 k x y : Rabs (x - x0) <= Rabs (y - x0) -> rho F x0 k x <= rho F x0 k y -> rho F x0 k x0 <= rho F x0 k x -> rho F x0 k x0 <= cr F x0 k x <= cr F x0 k y.
Proof. intros. apply scale_hi; auto. split; [apply capw_range|apply capw_mono; auto]. Qed.

(** ** The two forms of a result *)
Definition sharp_form (F : nat -> R -> R) (x0 : R) (k : nat) (a b : R) (inc : bool) (e : senc) : Prop :=
  fst e = firstn k (taylor_list F x0 k) /\
  if inc then increasing_on (seg a b) (rho F x0 k) /\ snd e = (cr F x0 k a, cr F x0 k b)
  else decreasing_on (seg a b) (rho F x0 k) /\ snd e = (cr F x0 k b, cr F x0 k a).
Definition range_form (F : nat -> R -> R) (x0 : R) (k : nat) (a b : R) (e : senc) : Prop :=
  fst e = firstn k (taylor_list F x0 k) /\ deriv_chain (seg a b) F k /\
  exists u v, seg a b u /\ seg a b v /\ snd e = (F k u / INR (fact k), F k v / INR (fact k)) /\ forall y, seg a b y -> F k u <= F k y <= F k v.

(** [e] is inside [e']. *)
Definition inner (e e' : senc) : Prop := fst e = fst e' /\ fst (snd e') <= fst (snd e) <= snd (snd e) /\ snd (snd e) <= snd (snd e').
Definition nested (x0 a b a' b' : R) : Prop := a' <= a /\ a <= x0 <= b /\ b <= b'.

Lemma sharp_sharp F x0 k a b a' b' inc inc' e e' : nested x0 a b a' b' -> sharp_form F x0 k a b inc e -> sharp_form F x0 k a' b' inc' e' -> inner e e'.
Proof.
  intros (N1 & N2 & N3) [E1 H] [E2 H']. split; [congruence|].
  assert (S1 : seg a b a) by (unfold seg; lra). assert (S2 : seg a b b) by (unfold seg; lra). assert (S0 : seg a b x0) by (unfold seg; lra).
  assert (T1 : seg a' b' a) by (unfold seg; lra). assert (T2 : seg a' b' b) by (unfold seg; lra). assert (T0 : seg a' b' x0) by (unfold seg; lra).
  assert (T3 : seg a' b' a') by (unfold seg; lra). assert (T4 : seg a' b' b') by (unfold seg; lra).
  assert (Da : Rabs (a - x0) <= Rabs (a' - x0)) by (apply dist_left; lra). assert (Db : Rabs (b - x0) <= Rabs (b' - x0)) by (apply dist_right; lra).
  destruct inc'; destruct H' as [M' ->]; cbn [fst snd].
  - pose proof (cr_lo F x0 k a a' Da (M' a' a T3 T1 N1) (M' a x0 T1 T0 ltac:(lra))) as L. pose proof (cr_hi F x0 k b b' Db (M' b b' T2 T4 N3) (M' x0 b T0 T2 ltac:(lra))) as U.
    destruct inc; destruct H as [M ->]; cbn [fst snd]; [lra|].
    assert (Ea : rho F x0 k a = rho F x0 k x0) by (apply Rle_antisym; [apply M'|apply M]; auto; lra).
    assert (Eb : rho F x0 k b = rho F x0 k x0) by (apply Rle_antisym; [apply M|apply M']; auto; lra).
    unfold cr in *. rewrite Ea, Eb in *. lra.
  - pose proof (cr_hi F x0 k a a' Da (M' a' a T3 T1 N1) (M' a x0 T1 T0 ltac:(lra))) as L. pose proof (cr_lo F x0 k b b' Db (M' b b' T2 T4 N3) (M' x0 b T0 T2 ltac:(lra))) as U.
    destruct inc; destruct H as [M ->]; cbn [fst snd]; [|lra].
    assert (Ea : rho F x0 k a = rho F x0 k x0) by (apply Rle_antisym; [apply M|apply M']; auto; lra).
    assert (Eb : rho F x0 k b = rho F x0 k x0) by (apply Rle_antisym; [apply M'|apply M]; auto; lra).
    unfold cr in *. rewrite Ea, Eb in *. lra.
Qed.
Lemma div_fact k u v : u <= v -> u / INR (fact k) <= v / INR (fact k).
Proof. intros H. apply Rmult_le_compat_r; auto. left. apply Rinv_0_lt_compat, INR_fact_pos. Qed.
Lemma sharp_range F x0 k a b a' b' inc e e' : nested x0 a b a' b' -> sharp_form F x0 k a b inc e -> range_form F x0 k a' b' e' -> inner e e'.
Proof.
  unfold inner. intros (N1 & N2 & N3) [E1 H] (E2 & HF & u & v & Hu & Hv & -> & HR). split; [congruence|]. cbn [fst snd].
  assert (S1 : seg a b a) by (unfold seg; lra). assert (S2 : seg a b b) by (unfold seg; lra). assert (S0 : seg a b x0) by (unfold seg; lra).
  assert (T0 : seg a' b' x0) by (unfold seg; lra).
  assert (G : forall y, seg a' b' y -> F k u / INR (fact k) <= cr F x0 k y <= F k v / INR (fact k)).
  { intros y Hy. assert (K : forall y, seg a' b' y -> F k u / INR (fact k) <= rho F x0 k y <= F k v / INR (fact k)).
    { intros z Hz. destruct (rho_lagrange k (seg a' b') F x0 z) as (xi & _ & Dxi & ->); auto.
      - intros p q r Hp Hr L. unfold seg in *. lra.
      - destruct (HR xi Dxi). split; apply div_fact; auto. }
    apply cr_between; apply K; auto. }
  assert (Ga := G a ltac:(unfold seg; lra)). assert (Gb := G b ltac:(unfold seg; lra)).
  destruct inc; destruct H as [M ->]; cbn [fst snd].
  - pose proof (cr_lo F x0 k a a (Rle_refl _) (Rle_refl _) (M a x0 S1 S0 ltac:(lra))). pose proof (cr_hi F x0 k b b (Rle_refl _) (Rle_refl _) (M x0 b S0 S2 ltac:(lra))). lra.
  - pose proof (cr_hi F x0 k a a (Rle_refl _) (Rle_refl _) (M a x0 S1 S0 ltac:(lra))). pose proof (cr_lo F x0 k b b (Rle_refl _) (Rle_refl _) (M x0 b S0 S2 ltac:(lra))). lra.
Qed.
Lemma range_range F x0 k a b a' b' e e' : nested x0 a b a' b' -> range_form F x0 k a b e -> range_form F x0 k a' b' e' -> inner e e'.
Proof.
  unfold inner. intros (N1 & N2 & N3) (E1 & _ & u & v & Hu & Hv & -> & HR) (E2 & _ & u' & v' & Hu' & Hv' & -> & HR'). split; [congruence|]. cbn [fst snd].
  unfold seg in *. destruct (HR' u ltac:(lra)). destruct (HR' v ltac:(lra)). destruct (HR v Hv). split; [split|]; apply div_fact; auto.
Qed.

(** Degree 0: the exact range. *)
Definition exact0 (F : nat -> R -> R) (a b : R) (e : senc) : Prop :=
  fst e = [] /\ exists u v, seg a b u /\ seg a b v /\ snd e = (F 0%nat u, F 0%nat v) /\ forall y, seg a b y -> F 0%nat u <= F 0%nat y <= F 0%nat v.
Lemma sharp_exact0 F x0 a b inc e : a <= x0 <= b -> sharp_form F x0 0 a b inc e -> exact0 F a b e.
Proof.
  intros N [E H]. split; [exact E|]. assert (S1 : seg a b a) by (unfold seg; lra). assert (S2 : seg a b b) by (unfold seg; lra).
  destruct inc; destruct H as [M ->]; rewrite !cr_0.
  - exists a, b. split; [auto|]. split; [auto|]. split; [auto|]. intros y Hy. pose proof (M a y S1 Hy ltac:(unfold seg in *; lra)) as P. pose proof (M y b Hy S2 ltac:(unfold seg in *; lra)) as Q. rewrite !rho_0 in P, Q. lra.
  - exists b, a. split; [auto|]. split; [auto|]. split; [auto|]. intros y Hy. pose proof (M a y S1 Hy ltac:(unfold seg in *; lra)) as P. pose proof (M y b Hy S2 ltac:(unfold seg in *; lra)) as Q. rewrite !rho_0 in P, Q. lra.
Qed.
Lemma range_exact0 F x0 a b e : range_form F x0 0 a b e -> exact0 F a b e.
Proof.
  intros (E & _ & u & v & Hu & Hv & Es & HR). split; [exact E|]. exists u, v. split; [auto|]. split; [auto|]. split; [|auto]. rewrite Es. simpl. f_equal; field.
Qed.
Lemma exact0_inner F a b a' b' e e' : a' <= a -> b <= b' -> exact0 F a b e -> exact0 F a' b' e' -> inner e e'.
Proof.
  unfold inner. intros N1 N3 (E1 & u & v & Hu & Hv & -> & HR) (E2 & u' & v' & Hu' & Hv' & -> & HR'). split; [congruence|]. cbn [fst snd].
  unfold seg in *. specialize (HR' u ltac:(lra)) as P. specialize (HR' v ltac:(lra)). specialize (HR v Hv). lra.
Qed.

(** ** Even Hessian *)
Definition even_form (F : nat -> R -> R) (x0 a b : R) (e : senc) : Prop :=
  fst e = firstn 2 (taylor_list F x0 2) /\ snd e = (Rmin (cr F x0 2 a) (cr F x0 2 b), cr F x0 2 (np_clip (- x0) a b)).
Lemma even_centre F x0 a b : unimodal (rho F x0 2) (- x0) -> a <= x0 <= b -> Rmin (cr F x0 2 a) (cr F x0 2 b) <= rho F x0 2 x0 <= cr F x0 2 (np_clip (- x0) a b).
Proof.
  intros U N. destruct (unimodal_bounds _ _ a b x0 U N) as [U1 U2]. split.
  - destruct (Rle_dec (rho F x0 2 a) (rho F x0 2 b)).
    + rewrite Rmin_left in U1 by auto. apply Rle_trans with (cr F x0 2 a); [apply Rmin_l|]. apply (cr_lo F x0 2 a a); lra.
    + rewrite Rmin_right in U1 by lra. apply Rle_trans with (cr F x0 2 b); [apply Rmin_r|]. apply (cr_lo F x0 2 b b); lra.
  - unfold np_clip. apply (cr_hi F x0 2 _ (Rmin (Rmax (- x0) a) b)); lra.
Qed.
Lemma even_even F x0 a b a' b' e e' : unimodal (rho F x0 2) (- x0) -> nested x0 a b a' b' -> even_form F x0 a b e -> even_form F x0 a' b' e' -> inner e e'.
Proof.
  unfold inner. intros U (N1 & N2 & N3) [E1 ->] [E2 ->]. split; [congruence|]. cbn [fst snd].
  pose proof (even_centre F x0 a b U N2) as C. pose proof (even_centre F x0 a' b' U ltac:(lra)) as C'.
  assert (G : forall p p', (p' <= p <= x0 \/ x0 <= p <= p') -> rho F x0 2 p < rho F x0 2 x0 -> cr F x0 2 p' <= cr F x0 2 p).
  { intros p p' Hp L. apply cr_lo; [destruct Hp; [apply dist_left|apply dist_right]; lra| |lra].
    apply Rnot_lt_le. intros K. destruct U as [Ui Ud]. destruct Hp as [Hp|Hp].
    - destruct (Rle_dec p (- x0)); [specialize (Ui p' p ltac:(lra) ltac:(lra) ltac:(lra)); lra|specialize (Ud p x0 ltac:(lra) ltac:(lra) ltac:(lra)); lra].
    - destruct (Rle_dec p (- x0)); [specialize (Ui x0 p ltac:(lra) ltac:(lra) ltac:(lra)); lra|specialize (Ud p p' ltac:(lra) ltac:(lra) ltac:(lra)); lra]. }
  assert (G' : forall p, rho F x0 2 x0 <= rho F x0 2 p -> rho F x0 2 x0 <= cr F x0 2 p) by (intros p Hp; apply (cr_hi F x0 2 p p); lra).
  split; [split; [|lra]|].
  - apply Rmin_glb.
    + destruct (Rle_lt_dec (rho F x0 2 x0) (rho F x0 2 a)) as [L|L]; [specialize (G' a L); lra|]. eapply Rle_trans; [apply Rmin_l|]. apply G; auto; lra.
    + destruct (Rle_lt_dec (rho F x0 2 x0) (rho F x0 2 b)) as [L|L]; [specialize (G' b L); lra|]. eapply Rle_trans; [apply Rmin_r|]. apply G; auto; lra.
  - pose proof (unimodal_bounds _ _ a b x0 U N2) as [_ U2]. unfold np_clip. set (q := Rmin (Rmax (- x0) a) b) in *. set (q' := Rmin (Rmax (- x0) a') b').
    assert (Q : (q' <= q <= x0 \/ x0 <= q <= q') /\ a <= q <= b /\ a' <= q' <= b').
    { unfold q, q', Rmin, Rmax. repeat destruct Rle_dec; lra. }
    destruct Q as (Q & Qr & Qr'). apply cr_hi; [destruct Q; [apply dist_left|apply dist_right]; lra| |auto].
    destruct (unimodal_bounds _ _ a' b' q U ltac:(lra)) as [_ U3]. exact U3.
Qed.

(** ** monotone_over on a smaller region *)
Lemma Rle_b_spec x y : Rle_b x y = true <-> x <= y.
Proof. unfold Rle_b. destruct Rle_dec; split; auto; discriminate. Qed.
Definition bimp (x y : bool) : Prop := x = true -> y = true.
Lemma bimp_or a b a' b' : bimp a a' -> bimp b b' -> bimp (a || b) (a' || b').
Proof. unfold bimp. destruct a, b, a', b'; simpl; auto. Qed.

Lemma mono_loop_sub mins a b a' b' : a' <= a -> b <= b' -> forall l prev dec inc dec' inc', bimp dec' dec -> bimp inc' inc ->
  bimp (fst (mono_loop mins a' b' prev l dec' inc')) (fst (mono_loop mins a b prev l dec inc)) /\
  bimp (snd (mono_loop mins a' b' prev l dec' inc')) (snd (mono_loop mins a b prev l dec inc)).
Proof.
  intros La Lb. induction l as [|x l IH]; intros prev dec inc dec' inc' Hd Hi; [split; auto|]. cbn [mono_loop].
  assert (C1 : bimp (match prev with None => Rle_b b' x | Some p => Rle_b p a' && Rle_b b' x end) (match prev with None => Rle_b b x | Some p => Rle_b p a && Rle_b b x end)).
  { unfold bimp. destruct prev; [rewrite !andb_true_iff|]; rewrite !Rle_b_spec; lra. }
  assert (C2 : bimp (Rle_b x a') (Rle_b x a)) by (unfold bimp; rewrite !Rle_b_spec; lra).
  apply IH; destruct (in_list x mins), (match l with [] => true | _ => false end); cbn [andb negb]; auto using bimp_or.
Qed.
Lemma monotone_over_sub d a b a' b' dec inc dec' inc' : a' <= a -> b <= b' -> monotone_over d a b = (dec, inc) -> monotone_over d a' b' = (dec', inc') -> bimp dec' dec /\ bimp inc' inc.
Proof.
  intros La Lb H H'. unfold monotone_over in *. pose proof (mono_loop_sub (local_minima d) a b a' b' La Lb (sort_by (fun x => x) (local_minima d ++ local_maxima d)) None (mono_dec d) (mono_inc d) (mono_dec d) (mono_inc d) (fun x => x) (fun x => x)) as G.
  rewrite H, H' in G. exact G.
Qed.
