(** The generators of the table for functions defined everywhere keep bounded
    values bounded. *)
From Coq Require Import Reals Lra.
From Verif Require Import Base Tensor IntervalArith Polynomials Enclosure TensorLemmas Spec Iso Magnitude MagnitudeEnc GraphEditor JaxBound MagnitudeJax
  Elementwise Primitive JaxTable JaxTableProofs.
Open Scope R_scope.

(** ** Functions bounded on bounded sets *)
Definition bb (f : R -> R) : Prop := forall B, exists M, forall x, Rabs x <= B -> Rabs (f x) <= M.
Lemma bb_const c : bb (fun _ => c). Proof. intros B. exists (Rabs c). intros. lra. Qed.
Lemma bb_id : bb (fun x => x). Proof. intros B. exists B. auto. Qed.
Lemma bb_add f g : bb f -> bb g -> bb (fun x => f x + g x).
Proof. intros Hf Hg B. destruct (Hf B) as (M & HM), (Hg B) as (N & HN). exists (M + N). intros x Hx. pose proof (Rabs_triang (f x) (g x)). specialize (HM x Hx). specialize (HN x Hx). lra. Qed.
Lemma bb_mul f g : bb f -> bb g -> bb (fun x => f x * g x).
Proof. intros Hf Hg B. destruct (Hf B) as (M & HM), (Hg B) as (N & HN). exists (M * N). intros x Hx. rewrite Rabs_mult. apply Rmult_le_compat; auto using Rabs_pos. Qed.
Lemma bb_opp f : bb f -> bb (fun x => - f x).
Proof. intros Hf B. destruct (Hf B) as (M & HM). exists M. intros x Hx. rewrite Rabs_Ropp. auto. Qed.
Lemma bb_sub f g : bb f -> bb g -> bb (fun x => f x - g x).
Proof. intros Hf Hg. apply (bb_add f (fun x => - g x)); auto. apply bb_opp; auto. Qed.
Lemma bb_pow f n : bb f -> bb (fun x => f x ^ n).
Proof. intros Hf. induction n; simpl; [apply bb_const|apply bb_mul; auto]. Qed.
Lemma sigmoid01 x : 0 <= py_sigmoid x <= 1.
Proof.
  unfold py_sigmoid, where_. pose proof (exp_pos x). pose proof (exp_pos (- x)). destruct (Rle_lt_dec 0 x).
  - split; [apply Rmult_le_pos; [lra|]; apply Rlt_le, Rinv_0_lt_compat; lra|]. apply Rmult_le_reg_r with (1 + exp (- x)); [lra|]. field_simplify; lra.
  - split; [apply Rmult_le_pos; [lra|]; apply Rlt_le, Rinv_0_lt_compat; lra|]. apply Rmult_le_reg_r with (1 + exp x); [lra|]. field_simplify; lra.
Qed.
Lemma bb_sigmoid : bb py_sigmoid.
Proof. intros B. exists 1. intros x _. pose proof (sigmoid01 x). rewrite Rabs_pos_eq; lra. Qed.
Lemma bb_sigmoid' : bb (fun x => py_sigmoid (- x)).
Proof. intros B. exists 1. intros x _. pose proof (sigmoid01 (- x)). rewrite Rabs_pos_eq; lra. Qed.
Lemma bb_softplus : bb py_softplus.
Proof.
  intros B. exists (1 + B). intros x Hx. unfold py_softplus. pose proof (exp_pos (- Rabs x)) as HE.
  assert (E1 : exp (- Rabs x) <= 1). { pose proof (Rabs_pos x) as P. rewrite <- exp_0. destruct P as [P|P]; [left; apply exp_increasing; lra|rewrite <- P; replace (- 0) with 0 by ring; lra]. }
  assert (L0 : 0 <= ln (1 + exp (- Rabs x))). { rewrite <- ln_1. destruct (Rlt_dec 1 (1 + exp (- Rabs x))); [left; apply ln_increasing; lra|lra]. }
  assert (L1 : ln (1 + exp (- Rabs x)) <= exp (- Rabs x)). { rewrite <- (ln_exp (exp (- Rabs x))) at 2. pose proof (exp_ineq1 (exp (- Rabs x)) ltac:(lra)). left. apply ln_increasing; lra. }
  assert (M0 : 0 <= Rmax x 0 <= B). { unfold Rmax. pose proof (Rle_abs x). pose proof (Rabs_pos x). destruct Rle_dec; lra. }
  rewrite Rabs_pos_eq; lra.
Qed.
Lemma fb_ok f : bb f -> fun_bounded (fun x => Ok (f x)).
Proof. intros H B. destruct (H B) as (M & HM). exists M. intros x v Hx [= <-]. auto. Qed.
Lemma fb_err e : fun_bounded (fun _ => Err e). Proof. intros B. exists 0. discriminate. Qed.
Ltac bbs := repeat first [apply bb_sigmoid | apply bb_sigmoid' | apply bb_const | apply bb_id | apply bb_add | apply bb_sub | apply bb_mul | apply bb_opp].
Lemma fb_sigmoid k : fun_bounded (sigmoid_derivative k).
Proof.
  set (s := py_sigmoid). set (m := fun x => py_sigmoid (- x)).
  assert (Q : bb (fun x => (1 - 2 * s x) ^ 2)) by (apply bb_pow; unfold s; bbs).
  destruct k as [|[|[|[|[|k]]]]]; [| | | | |apply fb_err].
  - apply (fb_ok s). unfold s. bbs.
  - apply (fb_ok (fun x => s x * m x)). unfold s, m. bbs.
  - apply (fb_ok (fun x => s x * m x * (1 - 2 * s x))). unfold s, m. bbs.
  - apply (fb_ok (fun x => s x * m x * ((1 - 2 * s x) ^ 2 - 2 * s x * m x))).
    apply bb_mul; [unfold s, m; bbs|]. apply (bb_sub (fun x => (1 - 2 * s x) ^ 2)); [exact Q|unfold s, m; bbs].
  - apply (fb_ok (fun x => s x * m x * (1 - 2 * s x) * ((1 - 2 * s x) ^ 2 - 2 * s x * m x) + s x * m x * (- 4 * (1 - 2 * s x) * s x * m x - 2 * s x * m x * (1 - 2 * s x)))).
    apply bb_add; [|unfold s, m; bbs]. apply bb_mul; [unfold s, m; bbs|]. apply (bb_sub (fun x => (1 - 2 * s x) ^ 2)); [exact Q|unfold s, m; bbs].
Qed.
Lemma bb_exp : bb exp.
Proof.
  intros B. exists (exp B). intros x Hx. pose proof (exp_pos x). rewrite Rabs_pos_eq by lra. pose proof (Rle_abs x).
  destruct (Rle_lt_or_eq_dec x B ltac:(lra)) as [L| ->]; [left; apply exp_increasing; auto|lra].
Qed.
Lemma fb_swish k : fun_bounded (swish_derivative k).
Proof.
  destruct k as [|k]; [apply (fb_ok (fun x => x * py_sigmoid x)); bbs|].
  intros B. destruct (fb_sigmoid k B) as (M & HM), (fb_sigmoid (S k) B) as (N & HN). exists (INR (S k) * M + B * N). intros x v Hx H. cbn [swish_derivative] in H.
  apply bind_ok in H. destruct H as (u & Hu & H). apply bind_ok in H. destruct H as (w & Hw & H). injection H as <-. specialize (HM x u Hx Hu). specialize (HN x w Hx Hw).
  change (match k with 0%nat => 1 | S _ => INR k + 1 end) with (INR (S k)). pose proof (pos_INR (S k)). pose proof (Rabs_triang (INR (S k) * u) (x * w)). rewrite !Rabs_mult, (Rabs_pos_eq (INR (S k))) in * by auto.
  assert (INR (S k) * Rabs u <= INR (S k) * M) by (apply Rmult_le_compat_l; auto). assert (Rabs x * Rabs w <= B * N) by (apply Rmult_le_compat; auto using Rabs_pos). lra.
Qed.
Lemma get_function_bounded n k g : n <> LOG -> get_function (n, k) = Ok g -> fun_bounded g.
Proof.
  intros HN H. destruct n; try congruence; cbn [get_function] in H.
  - destruct k as [|[|k]]; try discriminate; injection H as <-.
    + apply (fb_ok Rabs). intros B. exists B. intros x Hx. rewrite Rabs_Rabsolu. auto.
    + apply (fb_ok np_sign). intros B. exists 1. intros x _. unfold np_sign. destruct (total_order_T x 0) as [[|]|]; unfold Rabs; destruct Rcase_abs; lra.
  - injection H as <-. apply fb_ok, bb_exp.
  - injection H as <-. apply fb_sigmoid.
  - injection H as <-. destruct k as [|k]; [apply (fb_ok py_softplus), bb_softplus|exact (fb_sigmoid k)].
  - injection H as <-. apply fb_swish.
Qed.

(** ** Enclosures of these functions *)
Notation small M := (Forall (fun c => Rabs c <= M)).
Definition senc_small (M : R) (e : senc) : Prop := small M (fst e) /\ Rabs (fst (snd e)) <= M /\ Rabs (snd (snd e)) <= M.
Definition sgen_bounded (g : scalar_gen) : Prop :=
  forall d B, exists M, forall x l h e, Rabs x <= B -> Rabs l <= B -> Rabs h <= B -> g x (l, h) d = Ok e -> senc_small M e.
Lemma small_mono M N (l : list R) : M <= N -> small M l -> small N l.
Proof. intros H. apply Forall_impl. intros; lra. Qed.
Lemma small_firstn M n : forall l : list R, small M l -> small M (firstn n l).
Proof. induction n; intros l H; simpl; [constructor|]. destruct H; constructor; auto. Qed.
Lemma small_nth M n : forall l : list R, 0 <= M -> small M l -> Rabs (nth n l 0) <= M.
Proof. intros l HM H. revert n. induction H; intros [|n]; simpl; auto; rewrite Rabs_R0; auto. Qed.
Lemma coeffs_bounded n B : n <> LOG -> forall m start, exists M, 0 <= M /\ forall x l, Rabs x <= B -> taylor_coeffs_from (n, 0%nat) x start m = Ok l -> small M l.
Proof.
  intros HN. induction m as [|m IH]; intros start.
  - exists 0. split; [lra|]. intros x l _ H. injection H as <-. constructor.
  - destruct (IH (S start)) as (M & M0 & HM). destruct (get_function (derivative_id (n, 0%nat) start)) as [g|e] eqn:EG.
    + destruct (get_function_bounded n (0 + start) g HN EG B) as (N & HG). exists (Rabs N + M). pose proof (Rabs_pos N) as NP. split; [lra|].
      intros x l Hx H. cbn [taylor_coeffs_from] in H. rewrite EG in H. cbn [bind] in H. apply bind_ok in H. destruct H as (v & Hv & H). apply bind_ok in H. destruct H as (r & Hr & H). injection H as <-.
      specialize (HG x v Hx Hv). constructor; [|apply (small_mono M); [lra|eauto]].
      unfold Rdiv. rewrite Rabs_mult. assert (F : 1 <= INR (fact start)) by (apply (le_INR 1), lt_O_fact). rewrite (Rabs_pos_eq (/ INR (fact start))) by (apply Rlt_le, Rinv_0_lt_compat; lra).
      assert (F2 : / INR (fact start) <= 1) by (rewrite <- Rinv_1; apply Rinv_le_contravar; lra). assert (F3 : 0 < / INR (fact start)) by (apply Rinv_0_lt_compat; lra).
      pose proof (Rabs_pos v). pose proof (Rle_abs N). assert (Rabs v * / INR (fact start) <= Rabs v * 1) by (apply Rmult_le_compat_l; auto). lra.
    + exists M. split; auto. intros x l _ H. cbn [taylor_coeffs_from] in H. rewrite EG in H. discriminate.
Qed.
Lemma taylor_sum_small M W : 0 <= M -> forall cs i, exists K, 0 <= K /\ forall cs' d, length cs' = length (cs : list R) -> small M cs' -> Rabs d <= W -> Rabs (taylor_sum i cs' d) <= K.
Proof.
  intros HM. induction cs as [|c cs IH]; intros i.
  - exists 0. split; [lra|]. intros [|c cs'] d L HS Hd; [simpl; rewrite Rabs_R0; lra|discriminate].
  - destruct (IH (S i)) as (K & K0 & HK). exists (M * Rabs W ^ i + K). assert (0 <= Rabs W ^ i) by (apply pow_le, Rabs_pos). split; [assert (0 <= M * Rabs W ^ i) by (apply Rmult_le_pos; auto); lra|].
    intros [|c' cs'] d L HS Hd; [discriminate|]. inversion HS as [|? ? H1 H2]; subst. cbn [taylor_sum]. injection L as L. specialize (HK cs' d L H2 Hd).
    pose proof (Rabs_triang (c' * d ^ i) (taylor_sum (S i) cs' d)). rewrite Rabs_mult, <- RPow_abs in *.
    assert (Rabs c' * Rabs d ^ i <= M * Rabs W ^ i). { apply Rmult_le_compat; auto using Rabs_pos; [apply pow_le, Rabs_pos|]. apply pow_incr. split; [apply Rabs_pos|]. pose proof (Rle_abs W). lra. }
    lra.
Qed.
Lemma ratio_bounded B M sigma d : 0 <= M -> fun_bounded sigma ->
  exists K, 0 <= K /\ forall x0 x cs v, Rabs x0 <= B -> Rabs x <= B -> small M cs -> taylor_remainder_ratio x0 d sigma cs x = Ok v -> Rabs v <= K.
Proof.
  intros HM HF. destruct (HF B) as (N & HN). destruct (taylor_sum_small M (B + B) HM (repeat 0 (d + 1)) 0) as (K & K0 & HK).
  exists (M + (Rabs N + K) * 10 ^ 12). pose proof (Rabs_pos N) as N0. split; [assert (0 <= (Rabs N + K) * 10 ^ 12) by (apply Rmult_le_pos; lra); lra|].
  intros x0 x cs v H0 Hx HS H. unfold taylor_remainder_ratio in H. destruct (length cs =? d + 1)%nat eqn:EL; [|discriminate]. apply Nat.eqb_eq in EL. cbn [negb] in H.
  apply bind_ok in H. destruct H as (s & Hs & H). injection H as <-. specialize (HN x s Hx Hs).
  assert (Hd : Rabs (x - x0) <= B + B). { pose proof (Rabs_triang x (- x0)). rewrite Rabs_Ropp in *. unfold Rminus. lra. }
  specialize (HK cs (x - x0)). rewrite repeat_length in HK. specialize (HK EL HS Hd). set (ts := taylor_sum 0 cs (x - x0)) in *. set (D := Rmax _ _).
  pose proof (small_nth M d cs HM HS) as Hn. set (c := nth d cs 0) in *.
  assert (D1 : / 10 ^ 12 <= D) by apply Rmax_l. assert (P12 : 0 < / 10 ^ 12) by (apply Rinv_0_lt_compat; lra).
  assert (D2 : / D <= 10 ^ 12). { rewrite <- (Rinv_inv (10 ^ 12)). apply Rinv_le_contravar; auto. } assert (D3 : 0 < / D) by (apply Rinv_0_lt_compat; lra).
  assert (SG : Rabs (np_sign ((x - x0) ^ d)) <= 1) by (unfold np_sign; destruct (total_order_T _ 0) as [[|]|]; unfold Rabs; destruct Rcase_abs; lra).
  set (g := np_sign _) in *. pose proof (Rabs_triang c ((s - ts) * g / D)) as T1. unfold Rdiv in *. rewrite !Rabs_mult, (Rabs_pos_eq (/ D)) in T1 by lra.
  pose proof (Rabs_triang s (- ts)) as T2. rewrite Rabs_Ropp in T2. fold (s - ts) in T2. pose proof (Rle_abs N).
  assert (Q : Rabs (s - ts) * Rabs g <= (Rabs N + K) * 1) by (apply Rmult_le_compat; auto using Rabs_pos; lra).
  assert (Q2 : Rabs (s - ts) * Rabs g * / D <= (Rabs N + K) * 1 * 10 ^ 12) by (apply Rmult_le_compat; auto; [apply Rmult_le_pos; apply Rabs_pos|lra]). lra.
Qed.
Lemma bound_loops f B M : (forall x v, Rabs x <= B -> f x = Ok v -> Rabs v <= M) -> forall a b, Rabs a <= B -> Rabs b <= B -> forall l v,
  (max_loop f a b l = Ok v \/ min_loop f a b l = Ok v) -> Rabs v <= M.
Proof.
  intros HF a b Ha Hb. induction l as [|x l IH]; intros v H; cbn [max_loop min_loop] in H.
  - destruct H as [H|H]; apply bind_ok in H; destruct H as (u & Hu & H); apply bind_ok in H; destruct H as (w & Hw & H); injection H as <-; [unfold Rmax|unfold Rmin]; destruct Rle_dec; eauto.
  - assert (HX : forall r fx, (max_loop f a b l = Ok r \/ min_loop f a b l = Ok r) -> f x = Ok fx -> Rabs (if (Rle_b a x && Rle_b x b)%bool then fx else r) <= M).
    { intros r fx Hr Hf. unfold Rle_b. destruct (Rle_dec a x), (Rle_dec x b); cbn [andb]; auto. apply (HF x); auto. revert Ha Hb. unfold Rabs. repeat destruct Rcase_abs; lra. }
    destruct H as [H|H]; apply bind_ok in H; destruct H as (r & Hr & H); apply bind_ok in H; destruct H as (fx & Hf & H); injection H as <-; apply HX; auto.
Qed.
Lemma range_bounded n k B : n <> LOG -> exists M, 0 <= M /\ forall a b l h, Rabs a <= B -> Rabs b <= B -> get_range (n, k) a b = Ok (l, h) -> Rabs l <= M /\ Rabs h <= M.
Proof.
  intros HN. unfold get_range. destruct (get_function (n, k)) as [g|e] eqn:EG; [|exists 0; split; [lra|discriminate]]. cbn [bind].
  destruct (get_function_bounded n k g HN EG B) as (M & HM). exists (Rabs M). split; [apply Rabs_pos|]. intros a b l h Ha Hb H. pose proof (Rle_abs M).
  apply bind_ok in H. destruct H as (dd & _ & H). apply bind_ok in H. destruct H as (lo & Hl & H). apply bind_ok in H. destruct H as (hi & Hh & H). injection H as <- <-.
  split; (eapply Rle_trans; [|eassumption]); eapply (bound_loops g B M HM a b Ha Hb); eauto.
Qed.
Lemma small_removelast M : forall l : list R, small M l -> small M (removelast l).
Proof. induction 1 as [|x l Hx H IH]; simpl; [constructor|]. destruct l; [constructor|constructor; auto]. Qed.
Lemma clip_bounded x a b B : Rabs x <= B -> Rabs a <= B -> Rabs b <= B -> Rabs (np_clip x a b) <= B.
Proof. unfold np_clip, Rmin, Rmax. intros. repeat destruct Rle_dec; auto. Qed.
Lemma named_bounded n : n <> LOG -> sgen_bounded (get_elementwise_taylor_enclosure (n, 0%nat)).
Proof.
  intros HN d B. destruct (coeffs_bounded n B HN (S d) 0) as (M & M0 & HM).
  destruct (get_function (n, 0%nat)) as [sigma|e] eqn:EG; [|exists 0; intros x l h e' _ _ _ H; unfold get_elementwise_taylor_enclosure in H; rewrite EG in H; discriminate].
  pose proof (get_function_bounded n 0 sigma HN EG) as HF. destruct (ratio_bounded B M sigma d M0 HF) as (K & K0 & HK). destruct (ratio_bounded B M sigma 2 M0 HF) as (K2 & K20 & HK2).
  destruct (range_bounded n d B HN) as (N & N0 & HR). exists (M + K + K2 + N). intros x l h e Hx Hl Hh H. unfold get_elementwise_taylor_enclosure in H. rewrite EG in H. cbn [bind] in H.
  apply bind_ok in H. destruct H as (data & _ & H).
  assert (SH : forall cs inc e, small M cs -> sharp_enclosure_monotonic_derivative x d (l, h) sigma cs inc = Ok e -> senc_small (M + K) e).
  { intros cs inc e0 HS H0. unfold sharp_enclosure_monotonic_derivative, sharp_ends in H0.
    destruct inc; apply bind_ok in H0; destruct H0 as (lo & H1 & H0); apply bind_ok in H0; destruct H0 as (hi & H2 & H0); injection H0 as <-;
      apply HK in H1; auto; apply HK in H2; auto; (split; [apply (small_mono M); [lra|apply small_firstn; auto]|]); cbn [fst snd]; lra. }
  assert (UP : forall A e, A <= M + K + K2 + N -> senc_small A e -> senc_small (M + K + K2 + N) e).
  { intros A e0 HA (S1 & S2 & S3). split; [eapply small_mono; eauto|]. lra. }
  destruct (_ || _)%bool; [|destruct (_ && _)%bool eqn:E2].
  - apply bind_ok in H. destruct H as (cs & Hc & H). apply (UP (M + K)); [lra|]. eapply SH; [|exact H]. exact (HM x cs Hx Hc).
  - apply bind_ok in H. destruct H as (cs & Hc & H). apply HM in Hc; auto. unfold sharp_quadratic_enclosure_even_symmetric_hessian in H.
    apply bind_ok in H. destruct H as (mx & H1 & H). apply bind_ok in H. destruct H as (ra & H2 & H). apply bind_ok in H. destruct H as (rb & H3 & H). injection H as <-.
    apply HK2 in H1; auto; [|apply clip_bounded; auto; rewrite Rabs_Ropp; auto]. apply HK2 in H2; auto. apply HK2 in H3; auto.
    split; [apply (small_mono M); [lra|apply (small_firstn M 2); auto]|]. cbn [fst snd]. split; [unfold Rmin; destruct Rle_dec; lra|lra].
  - apply bind_ok in H. destruct H as (cs & Hc & H). apply HM in Hc; auto. apply bind_ok in H. destruct H as (ed & Hed & H). apply bind_ok in H. destruct H as (ei & Hei & H).
    apply SH in Hed; auto. apply SH in Hei; auto. destruct (monotone_over data (fst (l, h)) (snd (l, h))) as [dec inc]. cbn [fst snd] in H.
    apply bind_ok in H. destruct H as (rg & Hrg & H). destruct rg as [r1 r2]. apply HR in Hrg; auto. apply bind_ok in H. destruct H as (fb & Hfb & H). injection H as <-.
    unfold bounded_derivative_enclosure in Hfb. destruct (negb _) in Hfb; [discriminate|]. injection Hfb as <-. destruct Hed as (_ & D1 & D2), Hei as (_ & I1 & I2), Hrg as [R1 R2].
    assert (FB : forall r, Rabs r <= N -> Rabs (r / INR (fact d)) <= N).
    { intros r Hr. unfold Rdiv. rewrite Rabs_mult. assert (F : 1 <= INR (fact d)) by (apply (le_INR 1), lt_O_fact). rewrite (Rabs_pos_eq (/ INR (fact d))) by (apply Rlt_le, Rinv_0_lt_compat; lra).
      assert (F2 : / INR (fact d) <= 1) by (rewrite <- Rinv_1; apply Rinv_le_contravar; lra). assert (F3 : 0 < / INR (fact d)) by (apply Rinv_0_lt_compat; lra). pose proof (Rabs_pos r). assert (Rabs r * / INR (fact d) <= Rabs r * 1) by (apply Rmult_le_compat_l; auto). lra. }
    pose proof (FB _ R1). pose proof (FB _ R2).
    split; [apply (small_mono M); [lra|apply small_firstn; auto]|]. cbn [fst snd]. destruct dec; [lra|]. destruct inc; lra.
Qed.

(** ** Arrays *)
Lemma lift_bounded g : sgen_bounded g -> gen_bounded (lift_gen g).
Proof.
  intros HG d X L H. set (S := tshape X).
  assert (HB : exists B, forall J, In J (all_idx S) -> mv (tdata X J) <= B /\ mv (tdata L J) <= B /\ mv (tdata H J) <= B).
  { generalize (all_idx S). induction l as [|J l (B & IH)]; [exists 0; intros J []|]. set (a := mv (tdata X J)). set (b := mv (tdata L J)). set (c := mv (tdata H J)).
    exists (Rmax B (Rmax a (Rmax b c))). pose proof (Rmax_l B (Rmax a (Rmax b c))). pose proof (Rmax_r B (Rmax a (Rmax b c))). pose proof (Rmax_l a (Rmax b c)). pose proof (Rmax_r a (Rmax b c)). pose proof (Rmax_l b c). pose proof (Rmax_r b c).
    intros K [<-|HK]; [fold a b c; lra|]. specialize (IH K HK). lra. }
  destruct HB as (B & HB). destruct (HG d B) as (M & HM). set (m := Mag (Rabs M)). set (t := mkT S (fun _ => m)).
  exists (map (fun _ => Arr t) (seq 0 d) ++ [Ivl t t]). intros x l h e Hx Hl Hh HE. unfold lift_gen in HE. destruct (_ && _)%bool; [|discriminate].
  apply bind_ok in HE. destruct HE as (es & Hes & HE). injection HE as <-. rewrite (dom_shape _ _ Hx) in *. fold S in Hes |- *.
  assert (SM : Forall (senc_small (Rabs M)) es).
  { assert (G : forall js es, incl js (all_idx S) -> mapM (fun J => g (tdata x J) (tdata l J, tdata h J) d) js = Ok es -> Forall (senc_small (Rabs M)) es).
    { induction js as [|J js IH]; intros es' HI HJ; cbn [mapM] in HJ; [injection HJ as <-; constructor|]. apply bind_ok in HJ. destruct HJ as (e & He & HJ). apply bind_ok in HJ. destruct HJ as (r & Hr & HJ). injection HJ as <-.
      constructor; [|apply IH; auto; intros K HK; apply HI; right; auto].
      pose proof (HB J (HI J (or_introl eq_refl))) as (B1 & B2 & B3). pose proof (proj2 Hx J) as W1. pose proof (proj2 Hl J) as W2. pose proof (proj2 Hh J) as W3. unfold within in *.
      apply HM in He; [|lra|lra|lra]. destruct He as (S1 & S2 & S3). pose proof (Rle_abs M). split; [eapply small_mono; eauto|]. lra. }
    apply (G (all_idx S)); auto. apply incl_refl. }
  pose proof (Rabs_pos M) as MP.
  assert (DT : forall f : senc -> R, (forall e, senc_small (Rabs M) e -> Rabs (f e) <= Rabs M) -> dom (of_list 0 S (map f es)) t).
  { intros f Hf. split; [reflexivity|]. intros J. unfold within. cbn [tdata of_list t mv m]. apply small_nth; auto. clear -SM Hf. induction SM; cbn [map]; constructor; auto. }
  apply Forall2_app.
  - generalize (seq 0 d). intros js. induction js as [|i js IH]; cbn [map]; constructor; auto. cbn [domc]. apply (DT (fun e => nth i (fst e) 0)). intros e (S1 & _). apply small_nth; auto.
  - constructor; [|constructor]. split; [apply (DT (fun e => fst (snd e)))|apply (DT (fun e => snd (snd e)))]; intros e (_ & S1 & S2); auto.
Qed.
