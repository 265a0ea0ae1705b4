(** Proof of C81: the registered generators return exact ranges at degree 0. *)
From Coq Require Import Reals Lra Psatz Ranalysis5.
From Coquelicot Require Import Coquelicot.
From Verif Require Import Base Tensor IntervalArith Polynomials Enclosure TensorLemmas Spec IntervalProofs GraphEditor GraphSpec Elementwise Primitive ElementSpec Analysis ElementwiseProofs PropPower PropPowerZero
  JaxBound JaxSpec JaxLemmas JaxOps JaxTable JaxTableProofs DegreeZero DegreeZeroSpec.
Open Scope R_scope.

(** A scalar generator that returns the exact range at degree 0. *)
Definition exact_scalar (g : scalar_gen) (sigma : R -> res R) : Prop :=
  forall x0 a b e, a <= x0 <= b -> g x0 (a, b) 0%nat = Ok e ->
    forall v, fst (snd e) <= v <= snd (snd e) <-> exists u, a <= u <= b /\ sigma u = Ok v.

Lemma lift_exact g sigma : exact_scalar g sigma -> exact_generator (lift_gen g) sigma.
Proof.
  intros HV S x0 l h e S0 SL SH HB H. unfold lift_gen in H. rewrite S0, SL, SH in H.
  rewrite (proj2 (shape_eqb_eq S S) eq_refl) in H. cbn [andb] in H. apply bind_ok in H. destruct H as (es & Hes & H). injection H as <-.
  cbn [seq map app]. eexists. split; [reflexivity|]. split; [split; reflexivity|]. intros s v Hs.
  destruct (mapM_nth' _ _ _ _ _ Hes (all_idx_nth _ _ Hs)) as (w & Hw & Hg). rewrite <- (HV _ _ _ _ (HB s Hs) Hg v). simpl.
  rewrite (nth_error_nth _ _ _ (map_nth_error (fun e : senc => fst (snd e)) _ _ Hw)), (nth_error_nth _ _ _ (map_nth_error (fun e : senc => snd (snd e)) _ _ Hw)). tauto.
Qed.

(** At degree 0 the ratio is the function. *)
Lemma ratio0 x0 sigma c x v : sigma x = Ok v -> taylor_remainder_ratio x0 0 sigma [c] x = Ok v.
Proof.
  intros H. unfold taylor_remainder_ratio. rewrite H. cbn [length Nat.add Nat.eqb negb bind pow nth taylor_sum]. f_equal.
  rewrite np_sign_pos by lra. rewrite (Rabs_right 1) by lra. rewrite Rmax_right; [field|]. lra.
Qed.
Lemma ratio0_err x0 sigma c x r : taylor_remainder_ratio x0 0 sigma [c] x = Ok r -> sigma x = Ok r.
Proof.
  intros H. assert (E : exists v, sigma x = Ok v). { unfold taylor_remainder_ratio in H. cbn [length Nat.add Nat.eqb negb] in H. apply bind_ok in H. destruct H as (v & Hv & _). eauto. }
  destruct E as [v E]. rewrite (ratio0 x0 sigma c x v E) in H. congruence.
Qed.

(** Monotone functions. *)
Lemma inc_exact (f : R -> R) (P : R -> Prop) a b : a <= b -> (forall x, a <= x <= b -> P x) ->
  (forall x y, P x -> P y -> x < y -> f x < f y) -> (forall v, f a <= v <= f b -> exists u, P u /\ f u = v) ->
  forall v, f a <= v <= f b <-> exists u, a <= u <= b /\ f u = v.
Proof.
  intros Hab HP HM HS v. assert (Pa : P a) by (apply HP; lra). assert (Pb : P b) by (apply HP; lra). split.
  - intros Hv. destruct (HS v Hv) as (u & Pu & E). exists u. split; auto. split.
    + destruct (Rle_lt_dec a u); auto. specialize (HM u a Pu Pa r). lra.
    + destruct (Rle_lt_dec u b); auto. specialize (HM b u Pb Pu r). lra.
  - intros (u & Hu & <-). assert (Pu : P u) by auto. split.
    + destruct (Req_dec a u) as [->|]; [lra|]. apply Rlt_le, HM; auto. lra.
    + destruct (Req_dec u b) as [->|]; [lra|]. apply Rlt_le, HM; auto. lra.
Qed.
Lemma dec_exact (f : R -> R) (P : R -> Prop) a b : a <= b -> (forall x, a <= x <= b -> P x) ->
  (forall x y, P x -> P y -> x < y -> f y < f x) -> (forall v, f b <= v <= f a -> exists u, P u /\ f u = v) ->
  forall v, f b <= v <= f a <-> exists u, a <= u <= b /\ f u = v.
Proof.
  intros Hab HP HM HS v. pose proof (inc_exact (fun x => - f x) P a b Hab HP) as K. destruct (K) with (v := - v) as [K1 K2].
  - intros x y Hx Hy L. specialize (HM x y Hx Hy L). lra.
  - intros w Hw. destruct (HS (- w)) as (u & Pu & E); [lra|]. exists u. split; auto. lra.
  - split.
    + intros Hv. destruct K1 as (u & Hu & E); [lra|]. exists u. split; auto. lra.
    + intros (u & Hu & E). destruct K2 as [A B]; [exists u; split; auto; lra|]. lra.
Qed.

(** exp, log, sigmoid, softplus: recorded as increasing. *)
Lemma increasing_generator n f : (forall d, get_function_data (n, 0%nat) = Ok d -> mono_inc d = true) -> (exists g, get_function (n, 0%nat) = Ok g /\
    forall a b x0 c, a <= x0 <= b -> g a = Ok c -> forall x, a <= x <= b -> g x = Ok (f x)) ->
  forall x0 a b e, a <= x0 <= b -> get_elementwise_taylor_enclosure (n, 0%nat) x0 (a, b) 0%nat = Ok e -> e = ([], (f a, f b)).
Proof.
  intros HD (g & Hg & HF) x0 a b e Hx H. unfold get_elementwise_taylor_enclosure in H. rewrite Hg in H. cbn [bind derivative_id fst snd Nat.add] in H.
  apply bind_ok in H. destruct H as (d & Hd & H). rewrite (HD d Hd) in H. cbn [orb] in H. apply bind_ok in H. destruct H as (cs & Hcs & H).
  unfold get_taylor_polynomial_coefficients in Hcs. cbn [taylor_coeffs_from] in Hcs. change (derivative_id (n, 0%nat) 0) with (n, 0%nat) in Hcs. rewrite Hg in Hcs. cbn [bind] in Hcs.
  apply bind_ok in Hcs. destruct Hcs as (v & Hv & Hcs). cbn [bind] in Hcs. injection Hcs as <-.
  unfold sharp_enclosure_monotonic_derivative, sharp_ends in H. apply bind_ok in H. destruct H as (lo & Hlo & H). apply bind_ok in H. destruct H as (hi & Hhi & H). injection H as <-.
  apply ratio0_err in Hlo, Hhi. pose proof (HF a b x0 lo Hx Hlo) as K. rewrite (K a) in Hlo by lra. rewrite (K b) in Hhi by lra. cbn [firstn]. congruence.
Qed.

Lemma exp_exact : exact_scalar exp_enclosure (fun x => Ok (exp x)).
Proof.
  intros x0 a b e Hx H v. apply (increasing_generator EXP exp) in H; auto; [subst e|intros d [= <-]; reflexivity|eexists; split; [reflexivity|auto]]. simpl.
  rewrite (inc_exact exp (fun _ => True)); [|lra|auto|intros; apply exp_increasing; auto|].
  - split; intros (u & Hu & E); exists u; split; auto; congruence.
  - intros w Hw. exists (ln w). split; auto. apply exp_ln. pose proof (exp_pos a). lra.
Qed.
Lemma log_exact : exact_scalar log_enclosure (fun x => if Rlt_dec 0 x then Ok (ln x) else Err NonFinite).
Proof.
  intros x0 a b e Hx H v.
  assert (Pa : 0 < a).
  { unfold log_enclosure, get_elementwise_taylor_enclosure in H. cbn [get_function get_function_data derivative_id bind fst snd Nat.add Nat.even negb mono_inc mono_dec orb] in H.
    apply bind_ok in H. destruct H as (cs & Hcs & H). unfold get_taylor_polynomial_coefficients in Hcs. cbn [taylor_coeffs_from derivative_id fst snd Nat.add get_function bind] in Hcs. apply bind_ok in Hcs. destruct Hcs as (w & _ & Hcs). cbn [bind] in Hcs. injection Hcs as <-.
    unfold sharp_enclosure_monotonic_derivative, sharp_ends in H. cbn [Nat.even negb] in H.
    apply bind_ok in H. destruct H as (lo & Hlo & H). apply bind_ok in H. destruct H as (hi & Hhi & H). apply ratio0_err in Hlo, Hhi. destruct (Rlt_dec 0 a); auto. destruct (Rlt_dec 0 b); discriminate. }
  apply (increasing_generator LOG ln) in H; auto; [subst e|intros d [= <-]; reflexivity|].
  2:{ eexists. split; [reflexivity|]. intros a' b' x0' c Hx' Hc x Hx2. cbv beta in *. destruct (Rlt_dec 0 a'); [|discriminate]. destruct (Rlt_dec 0 x); [auto|lra]. }
  simpl. rewrite (inc_exact ln (fun x => 0 < x)); [|lra|intros; lra|intros; apply ln_increasing; auto|].
  - split; intros (u & Hu & E); exists u; split; auto; destruct (Rlt_dec 0 u); try congruence; lra.
  - intros w Hw. exists (exp w). split; [apply exp_pos|apply ln_exp].
Qed.
Lemma sigmoid_increasing x y : x < y -> 1 / (1 + exp (- x)) < 1 / (1 + exp (- y)).
Proof.
  intros L. pose proof (exp_pos (- x)). pose proof (exp_pos (- y)). assert (exp (- y) < exp (- x)) by (apply exp_increasing; lra).
  unfold Rdiv. rewrite !Rmult_1_l. apply Rinv_lt_contravar; [apply Rmult_lt_0_compat; lra|lra].
Qed.
Lemma sigmoid_exact : exact_scalar sigmoid_enclosure (fun x => Ok (1 / (1 + exp (- x)))).
Proof.
  intros x0 a b e Hx H v. apply (increasing_generator SIGMOID (fun x => 1 / (1 + exp (- x)))) in H; auto; [subst e|intros d [= <-]; reflexivity|].
  2:{ eexists. split; [reflexivity|]. intros. unfold sigmoid_derivative. rewrite py_sigmoid_sg. f_equal. unfold sg, Rdiv. ring. }
  simpl fst. simpl snd. rewrite (inc_exact (fun x => 1 / (1 + exp (- x))) (fun _ => True)); [|lra|auto|intros; apply sigmoid_increasing; auto|].
  - split; intros (u & Hu & E); exists u; split; auto; congruence.
  - intros w Hw. pose proof (exp_pos (- a)). pose proof (exp_pos (- b)).
    assert (0 < w). { apply Rlt_le_trans with (1 / (1 + exp (- a))); [|lra]. apply Rdiv_lt_0_compat; lra. }
    assert (w < 1). { apply Rle_lt_trans with (1 / (1 + exp (- b))); [lra|]. apply Rlt_div_l; lra. }
    exists (- ln ((1 - w) / w)). split; auto. rewrite Ropp_involutive, exp_ln by (apply Rdiv_lt_0_compat; lra). field. split; lra.
Qed.
Lemma softplus_exact : exact_scalar softplus_enclosure (fun x => Ok (ln (1 + exp x))).
Proof.
  intros x0 a b e Hx H v. apply (increasing_generator SOFTPLUS (fun x => ln (1 + exp x))) in H; auto; [subst e|intros d [= <-]; reflexivity|].
  2:{ eexists. split; [reflexivity|]. intros. simpl. rewrite softplus_closed. reflexivity. }
  simpl fst. simpl snd. rewrite (inc_exact (fun x => ln (1 + exp x)) (fun _ => True)); [|lra|auto| |].
  - split; intros (u & Hu & E); exists u; split; auto; congruence.
  - intros x y _ _ L. apply ln_increasing; [pose proof (exp_pos x); lra|]. apply exp_increasing in L. lra.
  - intros w Hw. pose proof (exp_pos a). assert (0 < w). { apply Rlt_le_trans with (ln (1 + exp a)); [|lra]. rewrite <- ln_1. apply ln_increasing; lra. }
    assert (1 < exp w) by (rewrite <- exp_0; apply exp_increasing; auto).
    exists (ln (exp w - 1)). split; auto. rewrite exp_ln by lra. replace (1 + (exp w - 1)) with (exp w) by ring. apply ln_exp.
Qed.

Lemma abs_exact : exact_scalar abs_enclosure (fun x => Ok (Rabs x)).
Proof.
  intros x0 a b e Hx H v. unfold abs_enclosure, get_elementwise_taylor_enclosure in H. cbn [get_function get_function_data abs_data derivative_id bind fst snd Nat.add mono_inc mono_dec even_sym orb Nat.eqb andb] in H.
  unfold get_taylor_polynomial_coefficients in H. cbn [taylor_coeffs_from derivative_id fst snd Nat.add get_function bind] in H.
  unfold sharp_enclosure_monotonic_derivative, sharp_ends in H. assert (RR : forall c x, taylor_remainder_ratio x0 0 (fun x => Ok (Rabs x)) [c] x = Ok (Rabs x)) by (intros; apply ratio0; reflexivity).
  rewrite !RR in H. cbn [bind] in H.
  unfold get_range, minimum_value, maximum_value in H. cbn [get_function get_function_data abs_data bind local_minima local_maxima sort_by sort_by_desc fold_left insert_by min_loop max_loop] in H.
  unfold bounded_derivative_enclosure in H. cbn [removelast length Nat.eqb negb bind fst snd firstn] in H.
  unfold monotone_over in H. cbn [local_minima local_maxima app sort_by fold_left insert_by mono_loop mono_dec mono_inc orb andb negb] in H. unfold in_list, Rle_b, Req_b in H. cbn [existsb] in H.
  destruct (Req_EM_T 0 0) as [_|]; [|lra]. cbn [orb andb negb] in H. injection H as <-. cbn [fst snd].
  assert (E : forall l h, (l <= v <= h <-> exists u, a <= u <= b /\ Rabs u = v) -> (l <= v <= h <-> exists u, a <= u <= b /\ Ok (Rabs u) = Ok v)).
  { intros l h ->. split; intros (u & Hu & Ev); exists u; split; auto; congruence. }
  apply E. clear E. destruct (Rle_dec b 0) as [Lb|Lb].
  - rewrite !Rabs_left1 by lra. split.
    + intros Hv. exists (- v). split; [lra|]. rewrite Rabs_left1; lra.
    + intros (u & Hu & <-). rewrite Rabs_left1; lra.
  - destruct (Rle_dec 0 a) as [La|La].
    + rewrite !Rabs_right by lra. split.
      * intros Hv. exists v. split; [lra|]. rewrite Rabs_right; lra.
      * intros (u & Hu & <-). rewrite Rabs_right; lra.
    + unfold Rle_b. destruct (Rle_dec a 0); [|lra]. destruct (Rle_dec 0 b); [|lra]. cbn [andb]. rewrite (Rabs_left a), (Rabs_right b), Rabs_R0 by lra. simpl (INR (fact 0)). split.
      * intros Hv. assert (0 <= v) by lra. assert (v <= Rmax (- a) b) by lra. unfold Rmax in *. destruct Rle_dec.
        -- exists v. split; [lra|]. rewrite Rabs_right; lra.
        -- exists (- v). split; [lra|]. rewrite Rabs_left1; lra.
      * intros (u & Hu & <-). pose proof (Rabs_pos u). assert (Rabs u <= Rmax (- a) b); [|lra]. unfold Rabs, Rmax. destruct Rcase_abs, Rle_dec; lra.
Qed.

(** ** Powers *)
Lemma pow0_nonneg p x0 a b e : 0 <= a <= b -> pow_gen p x0 (a, b) 0%nat = Ok e ->
  exists u v, py_pow a p = Ok u /\ py_pow b p = Ok v /\ snd e = (if Rle_dec 0 p then (u, v) else (v, u)).
Proof.
  intros Ha H. unfold pow_gen in H. apply bind_ok in H. destruct H as ((cs & lo & hi) & H & H').
  unfold pow_enclosure in H. apply bind_ok in H. destruct H as (c & Hc & H). cbn [pow_coeffs] in Hc. apply bind_ok in Hc. destruct Hc as (w & _ & Hc). cbn [bind] in Hc. injection Hc as <-.
  apply bind_ok in H. destruct H as (sp & Hsp & H). unfold pow_kth_deriv_sign in Hsp. cbn [Z.eqb Nat.add falling] in Hsp. injection Hsp as <-.
  apply bind_ok in H. destruct H as (en & _ & H). unfold interval_endpoint in H. destruct (Rle_dec 0 a); [|lra].
  simpl INR in H. replace (1 * (p - 0)) with p in H by ring.
  assert (Es : (0 <=? sign_Z p)%Z = if Rle_dec 0 p then true else false).
  { unfold sign_Z. destruct (Rlt_dec 0 p), (Req_EM_T p 0), (Rle_dec 0 p); try reflexivity; lra. }
  rewrite Es in H. unfold sharp_ends in H. destruct (Rle_dec 0 p); cbn [fst snd] in H;
    apply bind_ok in H; destruct H as (elo & Hlo & H); apply bind_ok in H; destruct H as (ehi & Hhi & H); injection H as <- <- <-;
    apply bind_ok in Hlo; destruct Hlo as (u & Hu & Hlo); injection Hlo as <-; apply bind_ok in Hhi; destruct Hhi as (v & Hv & Hhi); injection Hhi as <-;
    apply ratio0_err in Hu, Hv; cbn [bind] in H'; injection H' as <-; cbn [snd]; eauto 6.
Qed.
Lemma pow0_none p x0 a b e : is_int p = None -> a <= b -> pow_gen p x0 (a, b) 0%nat = Ok e -> 0 <= a.
Proof.
  intros HN Hab H. destruct (Rle_dec 0 a) as [|Na]; auto. exfalso. unfold pow_gen in H. apply bind_ok in H. destruct H as ((cs & lo & hi) & H & H').
  unfold pow_enclosure in H. rewrite HN in H. apply bind_ok in H. destruct H as (c & _ & H). apply bind_ok in H. destruct H as (sp & _ & H). cbn [bind] in H.
  unfold interval_endpoint in H. rewrite HN in H. destruct (Rle_dec 0 a); [lra|]. destruct (Rle_dec b 0); cbn [bind] in H; injection H as <- <- <-; discriminate.
Qed.
Lemma pow0_neg n x0 a b e : (n < 0)%Z -> a < 0 -> a <= b -> pow_gen (IZR n) x0 (a, b) 0%nat = Ok e ->
  b < 0 /\ snd e = if Z.even n then (powerRZ a n, powerRZ b n) else (powerRZ b n, powerRZ a n).
Proof.
  intros Hn Ha Hab H. assert (Ln : IZR n < 0) by (apply IZR_lt; auto). unfold pow_gen in H. apply bind_ok in H. destruct H as ((cs & lo & hi) & H & H').
  unfold pow_enclosure in H. rewrite is_int_IZR in H. apply bind_ok in H. destruct H as (c & Hc & H). cbn [pow_coeffs] in Hc. apply bind_ok in Hc. destruct Hc as (w & _ & Hc). cbn [bind] in Hc. injection Hc as <-.
  apply bind_ok in H. destruct H as (sp & _ & H). apply bind_ok in H. destruct H as (en & Hen & H). apply bind_ok in Hen. destruct Hen as (sn & Hsn & Hen). injection Hen as <-.
  unfold pow_kth_deriv_sign in Hsn. rewrite is_int_IZR in Hsn. cbn [Z.eqb Nat.add falling] in Hsn. injection Hsn as <-.
  simpl INR in H. replace (1 * (IZR n - 0)) with (IZR n) in H by ring.
  assert (Es : sign_Z (IZR n) = (-1)%Z) by (unfold sign_Z; destruct Rlt_dec; [lra|destruct Req_EM_T; [lra|reflexivity]]). rewrite Es in H.
  assert (Ev : Z.even (n - 1) = negb (Z.even n)) by (rewrite Z.even_sub; destruct (Z.even n); reflexivity). rewrite Ev in H.
  unfold interval_endpoint in H. rewrite is_int_IZR in H. destruct (Rle_dec 0 a); [lra|]. destruct (Rle_dec b 0) as [Lb|Lb].
  - assert (Nb : forall r, py_pow b (IZR n) = Ok r -> b < 0).
    { intros r0 Hr. destruct (Req_dec b 0) as [->|]; [|lra]. exfalso. unfold py_pow in Hr. rewrite is_int_IZR in Hr. destruct (Req_EM_T 0 0); [|lra].
      destruct (Z.ltb_spec 0 n); [lia|]. destruct (Z.eqb_spec n 0); [lia|]. discriminate. }
    unfold sharp_ends in H. destruct (Z.even n); cbn [negb Z.mul Z.leb Z.compare fst snd] in H;
      apply bind_ok in H; destruct H as (elo & Hlo & H); apply bind_ok in H; destruct H as (ehi & Hhi & H); injection H as <- <- <-;
      apply bind_ok in Hlo; destruct Hlo as (u & Hu & Hlo); injection Hlo as <-; apply bind_ok in Hhi; destruct Hhi as (v & Hv & Hhi); injection Hhi as <-;
      apply ratio0_err in Hu, Hv; cbn [bind] in H'; injection H' as <-; cbn [snd];
      (assert (b < 0) by eauto); (split; [auto|]); rewrite py_pow_int in Hu, Hv by lra; congruence.
  - destruct (Rlt_dec (IZR n) 0); [|lra]. cbn [bind] in H. injection H as <- <- <-. discriminate.
Qed.

Lemma Rpower_dec p x y : p < 0 -> 0 < x -> 0 < y -> x < y -> Rpower y p < Rpower x p.
Proof. intros Hp Hx Hy L. unfold Rpower. apply exp_increasing. assert (ln x < ln y) by (apply ln_increasing; auto). nra. Qed.
Lemma Rpower_root p v : p <> 0 -> 0 < v -> Rpower (Rpower v (/ p)) p = v.
Proof. intros Hp Hv. rewrite Rpower_mult, Rinv_l by auto. apply Rpower_1; auto. Qed.
Lemma pos_pow_exact p a b : p < 0 -> 0 < a <= b -> forall v, Rpower b p <= v <= Rpower a p <-> exists u, a <= u <= b /\ Rpower u p = v.
Proof.
  intros Hp Ha. apply (dec_exact (fun x => Rpower x p) (fun x => 0 < x)); [lra|intros; lra|intros; apply Rpower_dec; auto|].
  intros v Hv. assert (0 < v) by (pose proof (exp_pos (p * ln b)); unfold Rpower in Hv; lra).
  exists (Rpower v (/ p)). split; [apply exp_pos|]. apply Rpower_root; lra.
Qed.
Definition ipow_sigma (n : Z) (x : R) : res R := if Req_EM_T x 0 then Err NonFinite else Ok (powerRZ x n).
Lemma ipow_sigma_pos n a b v : 0 < a -> (exists u, a <= u <= b /\ Rpower u (IZR n) = v) <-> exists u, a <= u <= b /\ ipow_sigma n u = Ok v.
Proof.
  intros Ha. unfold ipow_sigma. split; intros (u & Hu & E); exists u; (split; [auto|]); destruct (Req_EM_T u 0); try lra; rewrite powerRZ_Rpower in *; auto; try lra; congruence.
Qed.
Lemma ipow_exact n : (n < 0)%Z -> exact_scalar (pow_gen (IZR n)) (ipow_sigma n).
Proof.
  intros Hn x0 a b e Hx H v. assert (Ln : IZR n < 0) by (apply IZR_lt; auto). destruct (Rle_lt_dec 0 a) as [Pa|Na].
  - destruct (pow0_nonneg _ _ _ _ _ (conj Pa (Rle_trans _ _ _ (proj1 Hx) (proj2 Hx))) H) as (u & w & Hu & Hw & ->). destruct (Rle_dec 0 (IZR n)); [lra|]. cbn [fst snd].
    assert (Pa' : 0 < a).
    { destruct Pa as [|<-]; auto. exfalso. unfold py_pow in Hu. rewrite is_int_IZR in Hu. destruct (Req_EM_T 0 0); [|lra]. destruct (Z.ltb_spec 0 n); [lia|]. destruct (Z.eqb_spec n 0); [lia|]. discriminate. }
    rewrite py_pow_pos in Hu, Hw by lra. injection Hu as <-. injection Hw as <-. rewrite (pos_pow_exact (IZR n) a b Ln ltac:(lra)). apply ipow_sigma_pos; auto.
  - destruct (pow0_neg n x0 a b e Hn Na ltac:(lra) H) as [Hb ->].
    assert (PW : forall x, x < 0 -> powerRZ x n = (if Z.even n then 1 else -1) * Rpower (- x) (IZR n)) by (intros x Hx0; rewrite powerRZ_neg_sign, powerRZ_Rpower by lra; reflexivity).
    assert (K : forall w, Rpower (- a) (IZR n) <= w <= Rpower (- b) (IZR n) <-> exists u, a <= u <= b /\ Rpower (- u) (IZR n) = w).
    { intros w. rewrite (pos_pow_exact (IZR n) (- b) (- a) Ln ltac:(lra)). split; intros (u & Hu & E); exists (- u); (split; [lra|]); [rewrite Ropp_involutive; auto|auto]. }
    assert (S : (exists u, a <= u <= b /\ ipow_sigma n u = Ok v) <-> exists u, a <= u <= b /\ (if Z.even n then 1 else -1) * Rpower (- u) (IZR n) = v).
    { unfold ipow_sigma. split; intros (u & Hu & E); exists u; (split; [auto|]); destruct (Req_EM_T u 0); try lra; rewrite PW in * by lra; congruence. }
    rewrite S. destruct (Z.even n); cbn [fst snd]; rewrite !PW by lra.
    + rewrite !Rmult_1_l, K. split; intros (u & Hu & E); exists u; split; auto; lra.
    + split.
      * intros Hv. destruct (proj1 (K (- v))) as (u & Hu & E); [lra|]. exists u. split; auto. lra.
      * intros (u & Hu & E). destruct (proj2 (K (- v))) as [A B]; [exists u; split; auto; lra|]. lra.
Qed.

Lemma sqrt_exact : exact_scalar (pow_gen (1 / 2)) (fun x => if Rle_dec 0 x then Ok (sqrt x) else Err NonFinite).
Proof.
  intros x0 a b e Hx H v. pose proof (is_int_None _ not_int_half) as HN. pose proof (pow0_none _ _ _ _ _ HN (Rle_trans _ _ _ (proj1 Hx) (proj2 Hx)) H) as Pa.
  destruct (pow0_nonneg _ _ _ _ _ (conj Pa (Rle_trans _ _ _ (proj1 Hx) (proj2 Hx))) H) as (u & w & Hu & Hw & ->). destruct (Rle_dec 0 (1 / 2)); [|lra]. cbn [fst snd].
  assert (Q : forall x r, 0 <= x -> py_pow x (1 / 2) = Ok r -> r = sqrt x).
  { intros x r0 Px Hr. rewrite py_pow_power0 in Hr by lra. injection Hr as <-. unfold power0. destruct (Rlt_dec 0 x).
    - replace (1 / 2) with (/ 2) by lra. apply Rpower_sqrt; auto.
    - assert (x = 0) by lra. subst x. rewrite sqrt_0. reflexivity. }
  apply Q in Hu; [|lra]. apply Q in Hw; [|lra]. subst u w. rewrite (inc_exact sqrt (fun x => 0 <= x)); [|lra|intros; lra|intros; apply sqrt_lt_1; auto|].
  - split; intros (u & Hu & E); exists u; (split; [auto|]); destruct (Rle_dec 0 u); try congruence; lra.
  - intros w Hw. assert (0 <= w) by (pose proof (sqrt_pos a); lra). exists (w * w). split; [nra|]. apply sqrt_square; auto.
Qed.
Lemma rsqrt_exact : exact_scalar (pow_gen (- (1 / 2))) (fun x => if Rlt_dec 0 x then Ok (1 / sqrt x) else Err NonFinite).
Proof.
  intros x0 a b e Hx H v. pose proof (is_int_None _ not_int_mhalf) as HN. pose proof (pow0_none _ _ _ _ _ HN (Rle_trans _ _ _ (proj1 Hx) (proj2 Hx)) H) as Pa.
  destruct (pow0_nonneg _ _ _ _ _ (conj Pa (Rle_trans _ _ _ (proj1 Hx) (proj2 Hx))) H) as (u & w & Hu & Hw & ->). destruct (Rle_dec 0 (- (1 / 2))); [lra|]. cbn [fst snd].
  assert (Pa' : 0 < a).
  { destruct Pa as [|<-]; auto. exfalso. unfold py_pow in Hu. rewrite HN in Hu. destruct (Rlt_dec 0 0); [lra|]. destruct (Req_EM_T 0 0); [|lra]. destruct (Rlt_dec 0 (- (1 / 2))); [lra|]. discriminate. }
  rewrite py_pow_pos in Hu, Hw by lra. injection Hu as <-. injection Hw as <-. rewrite (pos_pow_exact (- (1 / 2)) a b ltac:(lra) ltac:(lra)).
  assert (Q : forall x, 0 < x -> Rpower x (- (1 / 2)) = 1 / sqrt x).
  { intros x Px. rewrite Rpower_Ropp. replace (1 / 2) with (/ 2) by lra. rewrite Rpower_sqrt by auto. unfold Rdiv. ring. }
  split; intros (u & Hu & E); exists u; (split; [auto|]); destruct (Rlt_dec 0 u); try lra; rewrite ?Q in * by lra; congruence.
Qed.
Lemma cbrt_exact : exact_scalar (pow_gen (1 / 3)) (fun x => Ok (cbrt x)).
Proof.
  intros x0 a b e Hx H v. pose proof (is_int_None _ not_int_third) as HN. pose proof (pow0_none _ _ _ _ _ HN (Rle_trans _ _ _ (proj1 Hx) (proj2 Hx)) H) as Pa.
  destruct (pow0_nonneg _ _ _ _ _ (conj Pa (Rle_trans _ _ _ (proj1 Hx) (proj2 Hx))) H) as (u & w & Hu & Hw & ->). destruct (Rle_dec 0 (1 / 3)); [|lra]. cbn [fst snd].
  assert (Q : forall x r, 0 <= x -> py_pow x (1 / 3) = Ok r -> r = cbrt x).
  { intros x r0 Px Hr. rewrite py_pow_power0 in Hr by lra. injection Hr as <-. unfold power0, cbrt. destruct (Rlt_dec 0 x); auto. destruct (Rlt_dec x 0); [lra|reflexivity]. }
  apply Q in Hu; [|lra]. apply Q in Hw; [|lra]. subst u w.
  assert (C0 : forall x, 0 <= x -> 0 <= cbrt x) by (intros x Px; unfold cbrt; destruct (Rlt_dec 0 x); [left; apply exp_pos|destruct (Rlt_dec x 0); lra]).
  rewrite (inc_exact cbrt (fun x => 0 <= x)); [|lra|intros; lra| |].
  - split; intros (u & Hu & E); exists u; (split; [auto|]); congruence.
  - intros x y Px Py L. unfold cbrt. destruct (Rlt_dec 0 y); [|lra]. destruct (Rlt_dec 0 x).
    + unfold Rpower. apply exp_increasing. assert (ln x < ln y) by (apply ln_increasing; auto). lra.
    + destruct (Rlt_dec x 0); [lra|]. apply exp_pos.
  - intros w Hw. specialize (C0 a Pa). assert (0 <= w) by lra. destruct (Req_dec w 0) as [->|Nw].
    + exists 0. split; [lra|]. unfold cbrt. destruct (Rlt_dec 0 0); [lra|reflexivity].
    + exists (Rpower w 3). split; [left; apply exp_pos|]. unfold cbrt. destruct (Rlt_dec 0 (Rpower w 3)) as [|N]; [|contradiction N; apply exp_pos].
      rewrite Rpower_mult. replace (3 * (1 / 3)) with 1 by field. apply Rpower_1. lra.
Qed.
