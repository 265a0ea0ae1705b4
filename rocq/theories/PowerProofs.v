(** Interval power, outer products and outer powers. *)
From Coq Require Import Reals Lra Psatz.
From Verif Require Import Base Tensor IntervalArith TensorLemmas Spec IntervalProofs.
Open Scope R_scope.

Lemma npow_pow (x : R) n : npow x n = x ^ n.
Proof. induction n; simpl; [reflexivity|]. rewrite IHn. reflexivity. Qed.

Lemma pow_even_sq x m : x ^ (2 * m) = (x * x) ^ m.
Proof. rewrite pow_mult. f_equal. ring. Qed.

Lemma pow_odd_sq x m : x ^ (2 * m + 1) = x * (x * x) ^ m.
Proof. rewrite pow_add, pow_even_sq. ring. Qed.

Lemma sq_pow_nonneg x m : 0 <= (x * x) ^ m.
Proof. apply pow_le. nra. Qed.

Lemma pow_odd_incr m u v : u <= v -> u ^ (2 * m + 1) <= v ^ (2 * m + 1).
Proof.
  intros H. rewrite !pow_odd_sq.
  pose proof (sq_pow_nonneg u m). pose proof (sq_pow_nonneg v m).
  destruct (Rle_dec 0 u).
  - assert ((u*u)^m <= (v*v)^m) by (apply pow_incr; nra). nra.
  - destruct (Rle_dec 0 v); [nra|].
    assert ((v*v)^m <= (u*u)^m) by (apply pow_incr; nra). nra.
Qed.

Definition rmask (l h p : R) : R := (1 - (if (if Rlt_dec l 0 then true else false) && (if Rlt_dec 0 h then true else false) then 1 else 0)) * p.
Definition pow_lo (n : nat) (l h : R) : R := Rmin (Rmin (l ^ n) (h ^ n)) (rmask l h (l ^ n)).
Definition pow_hi (n : nat) (l h : R) : R := Rmax (l ^ n) (h ^ n).

Lemma Rmin3_cases a b c : exists x, (x = a \/ x = b \/ x = c) /\ Rmin (Rmin a b) c = x.
Proof. unfold Rmin. repeat destruct Rle_dec; eauto 6. Qed.

Lemma pow_range_in n l h u : (1 <= n)%nat -> l <= u <= h -> pow_lo n l h <= u ^ n <= pow_hi n l h.
Proof.
  intros Hn Hu. unfold pow_lo, pow_hi.
  pose proof (Rmin_l (Rmin (l^n) (h^n)) (rmask l h (l^n))) as M1.
  pose proof (Rmin_r (Rmin (l^n) (h^n)) (rmask l h (l^n))) as M2.
  pose proof (Rmin_l (l^n) (h^n)) as M3. pose proof (Rmin_r (l^n) (h^n)) as M4.
  pose proof (Rmax_l (l^n) (h^n)) as M5. pose proof (Rmax_r (l^n) (h^n)) as M6.
  destruct (Nat.Even_or_Odd n) as [[m E]|[m E]].
  - assert (Hsq : forall a b, a * a <= b * b -> a ^ n <= b ^ n).
    { intros a b Hab. rewrite E, !pow_even_sq. apply pow_incr. nra. }
    assert (Hnn : 0 <= u ^ n) by (rewrite E, pow_even_sq; apply sq_pow_nonneg).
    split.
    + assert (EM : l < 0 -> 0 < h -> rmask l h (l^n) = 0).
      { intros. unfold rmask. destruct (Rlt_dec l 0), (Rlt_dec 0 h); simpl; try lra. }
      destruct (Rlt_dec l 0), (Rlt_dec 0 h); try rewrite EM in M2 by auto.
      * rewrite EM by auto. lra.
      * assert (h^n <= u^n) by (apply Hsq; nra). lra.
      * assert (l^n <= u^n) by (apply Hsq; nra). lra.
      * assert (l^n <= u^n) by (apply Hsq; nra). lra.
    + destruct (Rle_dec (u*u) (h*h)).
      * assert (u^n <= h^n) by auto. lra.
      * assert (u < 0) by (destruct (Rle_dec 0 u); [exfalso; nra|lra]).
        assert (u^n <= l^n) by (apply Hsq; nra). lra.
  - rewrite E in *. assert (l^(2*m+1) <= u^(2*m+1) <= h^(2*m+1)) by (split; apply pow_odd_incr; lra). lra.
Qed.

Lemma pow_range_att n l h : (1 <= n)%nat -> l <= h ->
  (exists u, l <= u <= h /\ pow_lo n l h = u ^ n) /\ (exists u, l <= u <= h /\ pow_hi n l h = u ^ n).
Proof.
  intros Hn H. split.
  - unfold pow_lo. destruct (Rmin3_cases (l^n) (h^n) (rmask l h (l^n))) as (x & Hx & ->).
    destruct Hx as [->|[->| ->]]; [exists l; lra | exists h; lra |].
    unfold rmask. destruct (Rlt_dec l 0), (Rlt_dec 0 h); simpl;
      try (exists l; split; [lra|ring]).
    exists 0. split; [lra|]. rewrite pow_i by lia. ring.
  - unfold pow_hi, Rmax. destruct Rle_dec; [exists h|exists l]; lra.
Qed.

Lemma ipower_lohi sh a k c : wfs sh a -> (1 <= k)%Z -> ipower a k = Ok c ->
  wfs sh c /\ ((exists t, c = Arr t) <-> exists t, a = Arr t) /\
  forall I, valid sh I ->
    (a = Arr (lo a) -> tdata (lo c) I = tdata (lo a) I ^ Z.to_nat k) /\
    (a = Ivl (lo a) (hi a) ->
     tdata (lo c) I = pow_lo (Z.to_nat k) (tdata (lo a) I) (tdata (hi a) I) /\
     tdata (hi c) I = pow_hi (Z.to_nat k) (tdata (lo a) I) (tdata (hi a) I)).
Proof.
  intros Ha Hk H. unfold ipower in H. destruct a as [a|a0 a1].
  - destruct (Z.ltb_spec k 0); [lia|]. injection H as <-. simpl in *. split; [auto|].
    split; [split; eauto|]. intros I _. split; [intros _; apply npow_pow | discriminate].
  - destruct (Z.ltb_spec k 0) as [Hk1|Hk1]; [lia|]. destruct (Z.eqb_spec k 0) as [Hk2|Hk2]; [lia|].
    set (n := Z.to_nat k) in *. cbv zeta in H. destruct Ha as [A0 A1].
    apply bind_ok in H. destruct H as (cz & Hcz & H). apply bind_ok in H. destruct H as (mk & Hmk & H).
    apply bind_ok in H. destruct H as (l & Hl & H). apply bind_ok in H. destruct H as (h & Hh & H).
    injection H as <-.
    destruct (tmap2_same_ok andb _ _ _ sh Hcz A0 A1) as [S1 D1].
    destruct (tmap2_same_ok (fun c p => nmul (nsub n1 (b2n c)) p) _ _ _ sh Hmk S1 A0) as [S2 D2].
    simpl in Hl. apply bind_ok in Hl. destruct Hl as (l1 & Hl1 & Hl).
    apply bind_ok in Hl. destruct Hl as (l2 & Hl2 & Hl). injection Hl as <-.
    destruct (tmap2_same_ok nmin _ _ _ sh Hl1 A0 A1) as [S3 D3].
    destruct (tmap2_same_ok nmin _ _ _ sh Hl2 S3 S2) as [S4 D4].
    destruct (tmap2_same_ok nmax _ _ _ sh Hh A0 A1) as [S5 D5].
    split; [split; auto|]. split; [split; intros [? ?]; discriminate|].
    intros I HI. split; [discriminate|]. intros _. simpl.
    rewrite D4, D3, D2, D1, D5 by auto. simpl. rewrite !npow_pow. split; reflexivity.
Qed.

Lemma ipower_in sh a k c I u : wfs sh a -> (1 <= k)%Z -> ipower a k = Ok c -> valid sh I ->
  inat a I u -> inat c I (u ^ Z.to_nat k).
Proof.
  intros Ha Hk H HI Hu. destruct (ipower_lohi _ _ _ _ Ha Hk H) as (Hc & Hiff & D).
  destruct (D I HI) as [D1 D2]. destruct a as [a|a0 a1].
  - destruct (proj2 Hiff (ex_intro _ a eq_refl)) as [t ->]. simpl in *. rewrite D1 by auto. congruence.
  - rewrite inat_iff. destruct (D2 eq_refl) as [-> ->]. simpl in *. apply pow_range_in; auto.
    lia.
Qed.

(** ** Outer product *)
Lemma outer_prodop bs ra rb :
  prodop (ndarray_outer_product (length bs)) (bs ++ ra) (bs ++ rb) (bs ++ ra ++ rb)
    (fun I => firstn (length (bs ++ ra)) I)
    (fun I => firstn (length bs) I ++ skipn (length (bs ++ ra)) I).
Proof.
  destruct bs as [|b0 bs'].
  - simpl. unfold ndarray_outer_product. simpl. apply tensordot0_prodop.
  - set (bs := b0 :: bs'). assert (Hbs : (length bs =? 0)%nat = false) by reflexivity. clearbody bs.
    split.
    + intros x y z Hx Hy H. unfold ndarray_outer_product in H. rewrite Hbs in H.
      unfold teinsum_outer, tndim in H. rewrite Hx, Hy in H. rewrite !firstn_exact in H by auto.
      rewrite zipM_refl in H. dif H E; [|discriminate]. injection H as <-. simpl.
      rewrite !skipn_exact by auto. split; [reflexivity|]. intros I HI.
      apply valid_app_inv in HI. destruct HI as (I1 & I2 & -> & H1 & H2).
      apply valid_app_inv in H2. destruct H2 as (I3 & I4 & -> & H3 & H4).
      pose proof (valid_length _ _ H1) as L1. pose proof (valid_length _ _ H3) as L3.
      rewrite !firstn_exact by auto. rewrite bidx_valid by auto. rewrite (skipn_exact I1) by auto.
      rewrite firstn_exact by (rewrite app_length; lia).
      rewrite (app_assoc I1 I3 I4).
      rewrite firstn_exact by (rewrite !app_length; lia). reflexivity.
    + intros I HI.
      apply valid_app_inv in HI. destruct HI as (I1 & I2 & -> & H1 & H2).
      apply valid_app_inv in H2. destruct H2 as (I3 & I4 & -> & H3 & H4).
      pose proof (valid_length _ _ H1) as L1. pose proof (valid_length _ _ H3) as L3.
      rewrite (firstn_exact I1 (I3 ++ I4) (length bs)) by auto. rewrite (app_assoc I1 I3 I4).
      rewrite firstn_exact, skipn_exact by (rewrite !app_length; lia).
      split; apply valid_app; auto.
Qed.

Lemma iouter_product_spec bs ra rb a b c : wfs (bs ++ ra) a -> wfs (bs ++ rb) b ->
  iouter_product a b (length bs) = Ok c ->
  wfs (bs ++ ra ++ rb) c /\ forall I J K u v, valid bs I -> valid ra J -> valid rb K ->
    inat a (I ++ J) u -> inat b (I ++ K) v -> inat c (I ++ J ++ K) (u * v).
Proof.
  intros Ha Hb H. unfold iouter_product in H. dif H E; [discriminate|].
  destruct (ibil_prod _ _ _ _ _ _ _ _ _ (outer_prodop bs ra rb) Ha Hb H) as [S D]. split; auto.
  intros I J K u v HI HJ HK Hu Hv. pose proof (valid_length _ _ HI). pose proof (valid_length _ _ HJ).
  apply D; [apply valid_app; auto; apply valid_app; auto| |].
  - rewrite (app_assoc I J K), firstn_exact by (rewrite !app_length; lia). auto.
  - rewrite (firstn_exact I) by auto. rewrite (app_assoc I J K), skipn_exact by (rewrite !app_length; lia). auto.
Qed.

(** ** Outer power: the array [x^(I ++ J1 ++ ... ++ Jn)] for one member *)
Lemma zpow_app r A n m I J : length I = (n * r)%nat -> zpow r A (n + m) (I ++ J) = zpow r A n I * zpow r A m J.
Proof.
  revert I; induction n as [|n IH]; intros I HI; simpl in *.
  - apply length_zero_iff_nil in HI. subst. simpl. ring.
  - rewrite firstn_app, skipn_app, HI. replace (r - (r + n * r))%nat with O by lia. simpl. rewrite app_nil_r.
    rewrite IH by (rewrite skipn_length; lia). ring.
Qed.

Lemma zpow_1 r A I : length I = r -> zpow r A 1 I = A I.
Proof. intros <-. simpl. rewrite firstn_all. ring. Qed.

Lemma running_outer_spec bs ra a m : forall r n c, wfs (bs ++ ra) a -> wfs (bs ++ rep n ra) r ->
  (length bs <= length bs)%nat ->
  running_outer r a (length bs) m = Ok c ->
  wfs (bs ++ rep (n + m) ra) c /\
  forall I A, valid bs I -> (forall J, valid ra J -> inat a (I ++ J) (A J)) ->
   (forall K, valid (rep n ra) K -> inat r (I ++ K) (zpow (length ra) A n K)) ->
   (forall K, valid (rep (n + m) ra) K -> inat c (I ++ K) (zpow (length ra) A (n + m) K)).
Proof.
  induction m as [|m IH]; intros r n c Ha Hr _ H; simpl in H.
  - injection H as <-. rewrite Nat.add_0_r. split; auto.
  - apply bind_ok in H. destruct H as (r' & Hr' & H).
    destruct (iouter_product_spec bs (rep n ra) ra r a r' Hr Ha Hr') as [S D].
    assert (E : rep n ra ++ ra = rep (n + 1) ra) by (rewrite rep_app, rep_1; reflexivity).
    rewrite E in S. destruct (IH r' (n + 1)%nat c Ha S (le_n _) H) as [S' D'].
    replace (n + 1 + m)%nat with (n + Datatypes.S m)%nat in * by lia.
    split; auto. intros I A HI HA HK. apply D'; auto. intros K HKv. rewrite <- E in HKv.
    apply valid_app_inv in HKv. destruct HKv as (K1 & K2 & -> & V1 & V2).
    rewrite zpow_app by (rewrite (valid_length _ _ V1), rep_length; lia).
    rewrite zpow_1 by (apply valid_length; auto). apply D; auto.
Qed.

Lemma zpow_nil (A : list nat -> R) n : zpow 0 A n [] = A [] ^ n.
Proof. induction n; simpl; [reflexivity|]. rewrite IHn. reflexivity. Qed.

Lemma wfs_indim sh c : wfs sh c -> indim c = length sh.
Proof. destruct c; simpl; unfold tndim; [intros ->; auto | intros [-> _]; auto]. Qed.

Lemma gdiag_interval_lohi a n c : generalized_diag_interval a n = Ok c ->
  generalized_diag_ndarray (lo a) n = Ok (lo c) /\ generalized_diag_ndarray (hi a) n = Ok (hi c).
Proof. destruct a; simpl; intros H; ok_inv; subst; simpl; auto. Qed.

(** Containment for [outer_power]: if [A] picks, at batch index [I], a value of
    [a] for each remaining index, the product of the picked values lies in the
    result. *)
Lemma iouter_power_spec bs ra a n c : wfs (bs ++ ra) a ->
  iouter_power a (Z.of_nat n) (length bs) = Ok c -> (1 <= n)%nat ->
  wfs (bs ++ rep n ra) c /\
  forall I A, valid bs I -> (forall J, valid ra J -> inat a (I ++ J) (A J)) ->
   forall K, valid (rep n ra) K -> inat c (I ++ K) (zpow (length ra) A n K).
Proof.
  intros Ha H Hn. unfold iouter_power in H.
  destruct (Z.ltb_spec (Z.of_nat n) 0); [lia|]. destruct (Z.eqb_spec (Z.of_nat n) 0); [lia|].
  rewrite (wfs_indim _ _ Ha) in H. destruct (Nat.eqb_spec (length (bs ++ ra)) 0) as [E0|E0].
  - apply length_zero_iff_nil in E0. apply app_eq_nil in E0. destruct E0 as [-> ->]. simpl in Ha.
    assert (Er : rep n (@nil nat) = []) by (clear; induction n; auto). rewrite Er. simpl.
    destruct (ipower_lohi [] a (Z.of_nat n) c Ha ltac:(lia) H) as (S & _). split; auto.
    intros I A HI HA K HK. apply valid_nil in HI, HK. subst. simpl.
    rewrite zpow_nil. specialize (HA [] (Forall2_nil _)). simpl in HA.
    pose proof (ipower_in [] a (Z.of_nat n) c [] (A []) Ha ltac:(lia) H (Forall2_nil _) HA) as G.
    rewrite Nat2Z.id in G. exact G.
  - apply bind_ok in H. destruct H as (running & Hr & H).
    assert (Ha1 : wfs (bs ++ rep 1 ra) a) by (rewrite rep_1; auto).
    replace (Z.to_nat (Z.of_nat n - 1)) with (n - 1)%nat in Hr by lia.
    destruct (running_outer_spec bs ra a (n - 1) a 1%nat running Ha Ha1 (le_n _) Hr) as [S D].
    replace (1 + (n - 1))%nat with n in * by lia.
    assert (D' : forall I A, valid bs I -> (forall J, valid ra J -> inat a (I ++ J) (A J)) ->
       forall K, valid (rep n ra) K -> inat running (I ++ K) (zpow (length ra) A n K)).
    { intros I A HI HA. apply D; auto. intros K. rewrite rep_1. intros HK.
      rewrite zpow_1 by (apply valid_length; auto). auto. }
    clear D. destruct (Nat.eqb_spec (length bs) 0) as [Eb|Eb]; simpl in H.
    2:{ injection H as <-. split; auto. }
    apply length_zero_iff_nil in Eb. subst bs. simpl in *.
    assert (Elo : (match a with Arr t => t | Ivl l _ => l end) = lo a) by (destruct a; reflexivity).
    rewrite Elo in H. clear Elo.
    destruct (generalized_diag_ndarray (tones_like (lo a)) (Z.of_nat n)) as [eye|e] eqn:Eg.
    2:{ destruct e; try discriminate. injection H as <-. split; auto. }
    apply bind_ok in H. destruct H as (de & Hde & H). apply bind_ok in H. destruct H as (dg & Hdg & H).
    apply bind_ok in H. destruct H as (off & Hoff & H).
    destruct (ipower_lohi _ _ (Z.of_nat n) _ Ha ltac:(lia) Hde) as (Sde & _).
    apply gdiag_interval_lohi in Hdg. destruct Hdg as [Gl Gh].
    assert (Slo : tshape (lo a) = ra) by (apply wfs_lo; auto).
    assert (Hcase : (n = 1%nat \/ (n = 2%nat /\ length ra = 1%nat))).
    { unfold generalized_diag_ndarray in Eg. destruct (Z.eqb_spec (Z.of_nat n) 1); [left; lia|].
      destruct (Z.eqb_spec (Z.of_nat n) 2); [|discriminate]. unfold tndim in Eg. simpl in Eg. rewrite Slo in Eg.
      destruct (Nat.eqb_spec (length ra) 1); [right; split; [lia|auto]|discriminate]. }
    destruct Hcase as [->|[-> Hra]].
    + simpl in Eg, Gl, Gh. injection Eg as <-. injection Gl as Gl. injection Gh as Gh.
      assert (Wdg : wfs ra dg).
      { apply wfs_iff. rewrite <- Gl, <- Gh. split; [apply wfs_lo|apply wfs_hi]; auto. }
      assert (S1 : wfs ra running) by (simpl in S; rewrite app_nil_r in S; exact S).
      assert (Weye : wfs ra (Arr (tmap (fun x : R => nsub n1 x) (tones_like (lo a))))) by exact Slo.
      destruct (imul_spec _ _ _ _ _ S1 Weye Hoff) as (so & Eso & Wo & Do).
      rewrite bshape_refl in Eso. injection Eso as <-.
      destruct (iadd_spec _ _ _ _ _ Wo Wdg H) as (sc & Esc & Wc & _). rewrite bshape_refl in Esc. injection Esc as <-.
      simpl. rewrite app_nil_r. split; auto. intros I A HI HA K HK.
      apply valid_nil in HI. subst I. simpl.
      assert (HK1 : valid (rep 1 ra) K) by (rewrite rep_1; auto).
      replace (A (firstn (length ra) K) * 1) with (zpow (length ra) A 1 K * 0 + A K).
      2:{ rewrite zpow_1 by (apply valid_length; auto). rewrite <- (valid_length _ _ HK), firstn_all. ring. }
      apply (iadd_in ra ra off dg c K _ _ Wo Wdg H); rewrite bidx_valid by auto.
      * apply Do; auto; rewrite bidx_valid by auto.
        -- apply (D' [] A); auto. constructor.
        -- simpl. ring.
      * assert (G : inat de K (A K ^ 1)).
        { apply (ipower_in ra a 1 de K (A K)); auto; try lia. apply (HA K HK). }
        rewrite pow_1 in G. rewrite inat_iff in *. rewrite <- Gl, <- Gh. exact G.
    + destruct ra as [|r ra']; [discriminate|]. destruct ra'; [|discriminate]. clear Hra. simpl in S.
      unfold generalized_diag_ndarray in Eg, Gl, Gh. simpl in Eg, Gl, Gh.
      assert (Sl : tshape (lo de) = [r]) by (apply wfs_lo; auto).
      assert (Sh : tshape (hi de) = [r]) by (apply wfs_hi; auto).
      unfold tndim in Eg, Gl, Gh. simpl in Eg. rewrite Slo in Eg. rewrite Sl in Gl. rewrite Sh in Gh.
      simpl in Eg, Gl, Gh. unfold tdiag in Eg, Gl, Gh. simpl in Eg. rewrite Slo in Eg. rewrite Sl in Gl. rewrite Sh in Gh.
      injection Eg as Eg. injection Gl as Gl. injection Gh as Gh.
      assert (Wdg : wfs [r; r] dg) by (apply wfs_iff; rewrite <- Gl, <- Gh; auto).
      assert (Weye : wfs [r; r] (Arr (tmap (fun x : R => nsub n1 x) eye))) by (simpl; rewrite <- Eg; reflexivity).
      destruct (imul_spec _ _ _ _ _ S Weye Hoff) as (so & Eso & Wo & Do).
      rewrite bshape_refl in Eso. injection Eso as <-.
      destruct (iadd_spec _ _ _ _ _ Wo Wdg H) as (sc & Esc & Wc & _). rewrite bshape_refl in Esc. injection Esc as <-.
      simpl. split; auto. intros I A HI HA K HK.
      apply valid_nil in HI. subst I. simpl app.
      pose proof HK as HKv.
      apply valid_cons in HK. destruct HK as (i & J & -> & Hi & HJ).
      apply valid_cons in HJ. destruct HJ as (j & J' & -> & Hj & HJ'). apply valid_nil in HJ'. subst J'.
      simpl (A _ * _). rewrite Rmult_1_r.
      assert (Vi : valid [r] [i]) by (constructor; auto). assert (Vj : valid [r] [j]) by (constructor; auto).
      replace (A [i] * A [j]) with (A [i] * A [j] * (1 - if (i =? j)%nat then 1 else 0) + (if (i =? j)%nat then A [i] ^ 2 else 0)).
      2:{ destruct (Nat.eqb_spec i j); [subst; ring | ring]. }
      apply (iadd_in [r;r] [r;r] off dg c [i;j] _ _ Wo Wdg H); rewrite bidx_valid by auto.
      * apply Do; auto; rewrite bidx_valid by auto.
        -- specialize (D' [] A ltac:(constructor) HA [i; j] HKv). simpl in D'. rewrite Rmult_1_r in D'. exact D'.
        -- simpl. rewrite <- Eg. simpl. reflexivity.
      * rewrite inat_iff. rewrite <- Gl, <- Gh. simpl. destruct (Nat.eqb_spec i j); [|lra].
        apply (proj1 (inat_iff de [i] (A [i] ^ 2))).
        apply (ipower_in [r] a 2 de [i] (A [i])); auto; try lia. apply (HA [i] Vi).
Qed.
