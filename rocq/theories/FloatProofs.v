(** Degree-0 bounds with rounded arithmetic. *)
From Coq Require Import Reals Lra Psatz FunctionalExtensionality.
From Verif Require Import Base Tensor IntervalArith Polynomials Enclosure TensorLemmas Spec IntervalProofs
  GraphEditor GraphSpec JaxBound JaxSpec JaxLemmas JaxIndex JaxGather JaxPush JaxDot JaxOps JaxForward JaxRun JaxEval FloatSpec.
Open Scope R_scope.

Section Float.
Variable rnd : R -> R.
Hypothesis RR : rounding rnd.
#[local] Remove Hints NumR : typeclass_instances.
#[local] Hint Extern 0 (Num R) => exact (NumF rnd) : typeclass_instances.

Lemma rnd_0 : rnd 0 = 0.
Proof. pose proof (rnd_opp _ RR 0) as H. rewrite Ropp_0 in H. lra. Qed.
Lemma rnd_between a b v : a <= v <= b -> rnd v = v -> rnd a <= v <= rnd b.
Proof. intros [H1 H2] E. rewrite <- E. split; apply (rnd_le _ RR); auto. Qed.

(** ** Sums *)
Lemma Fiadd_lohi a b c : iadd a b = Ok c -> tadd (lo a) (lo b) = Ok (lo c) /\ tadd (hi a) (hi b) = Ok (hi c).
Proof. destruct a, b; simpl; intros H; ok_inv; subst; simpl; auto. Qed.
Lemma Fiadd_in sa sb a b c : wfs sa a -> wfs sb b -> iadd a b = Ok c ->
  exists sc, bshape sa sb = Some sc /\ wfs sc c /\ forall I u v, valid sc I -> inat a (bidx sa I) u -> inat b (bidx sb I) v -> inat c I (rnd (u + v)).
Proof.
  intros Ha Hb H. apply Fiadd_lohi in H. destruct H as [HL HH]. apply tmap2_ok in HL, HH. destruct HL as [SL EL], HH as [SH EH].
  apply wfs_iff in Ha, Hb. destruct Ha as [A1 A2], Hb as [B1 B2]. rewrite A1, B1 in SL. rewrite A2, B2 in SH.
  exists (tshape (lo c)). split; auto. split; [apply wfs_iff; split; auto; congruence|]. intros I u v HI Hu Hv. rewrite inat_iff in *.
  rewrite EL, EH. unfold bget. rewrite A1, A2, B1, B2. simpl. split; apply (rnd_le _ RR); lra.
Qed.

(** ** Products *)
Record fprodop (f : op2) (sa sb sc : list nat) (pa pb : list nat -> list nat) : Prop := {
  fprod_val : forall x y z, tshape x = sa -> tshape y = sb -> f x y = Ok z ->
      tshape z = sc /\ forall I, valid sc I -> tdata z I = rnd (tdata x (pa I) * tdata y (pb I));
  fprod_idx : forall I, valid sc I -> valid sa (pa I) /\ valid sb (pb I) }.

Lemma Fibil_prod f sa sb sc pa pb a b c : fprodop f sa sb sc pa pb ->
  wfs sa a -> wfs sb b -> ibilinear a b f true = Ok c ->
  wfs sc c /\ forall I u v, valid sc I -> inat a (pa I) u -> inat b (pb I) v -> inat c I (rnd (u * v)).
Proof.
  intros [PV PI] Ha Hb H.
  assert (Haux : (exists x y, a = Arr x /\ b = Arr y /\ ibilinear a b f true = (c <- f x y ;; Ok (Arr c))) \/
    ibilinear a b f true =
        (prods <- mapM (fun p => f (fst p) (snd p)) (list_prod (endpoints a) (endpoints b)) ;;
        l <- reduceM tmin prods ;; h <- reduceM tmax prods ;; Ok (Ivl l h))).
  { destruct a, b; simpl; eauto 6. }
  destruct Haux as [(x & y & -> & -> & E)|E]; rewrite E in H; clear E.
  - ok_inv. subst. simpl in Ha, Hb. destruct (PV _ _ _ Ha Hb Hb0) as [S D].
    split; [exact S|]. intros I u v HI. specialize (D I HI). simpl. intros -> ->. auto.
  - ok_inv. subst c. rename a0 into prods, a1 into l, a2 into h.
    apply mapM_ok in Hb0.
    apply wfs_iff in Ha, Hb. destruct Ha as [A1 A2], Hb as [B1 B2].
    destruct (endpoints_lohi a) as (Ela & Eha & Ea), (endpoints_lohi b) as (Elb & Ehb & Eb).
    assert (HP : forall z, In z prods -> exists x y, In x (endpoints a) /\ In y (endpoints b) /\ f x y = Ok z).
    { intros z Hz. clear -Hb0 Hz. assert (exists p, In p (list_prod (endpoints a) (endpoints b)) /\ f (fst p) (snd p) = Ok z).
      { revert Hz. induction Hb0 as [|p0 z0 ps zs Hp0 Hps IH]; simpl; [tauto|].
        intros [<-|Hz]; [exists p0; auto|]. destruct (IH Hz) as (p & ? & ?). exists p; auto. }
      destruct H as ((x,y) & Hp & E). apply in_prod_iff in Hp. destruct Hp. exists x, y; auto. }
    assert (HP' : forall x y, In x (endpoints a) -> In y (endpoints b) -> exists z, In z prods /\ f x y = Ok z).
    { intros x y Hx Hy. assert (In (x,y) (list_prod (endpoints a) (endpoints b))) as Hin by (apply in_prod; auto).
      clear -Hb0 Hin. revert Hin. induction Hb0 as [|p z ps zs Hp Hps IH]; simpl; [tauto|]. intros [->|Hin]; [eauto|].
      destruct (IH Hin) as (z' & ? & ?). eauto. }
    assert (HSa : forall x, In x (endpoints a) -> tshape x = sa) by (intros x Hx; destruct (Ea x Hx) as [->| ->]; auto).
    assert (HSb : forall x, In x (endpoints b) -> tshape x = sb) by (intros x Hx; destruct (Eb x Hx) as [->| ->]; auto).
    assert (HS : Forall (fun x => tshape x = sc) prods).
    { apply Forall_forall. intros z Hz. destruct (HP z Hz) as (x & y & Hx & Hy & E). apply (PV x y z (HSa _ Hx) (HSb _ Hy) E). }
    destruct (reduce_tmin _ _ _ HS Hb1) as [Sl Dl]. destruct (reduce_tmax _ _ _ HS Hb2) as [Sh Dh].
    split; [split; auto|]. intros I u v HI. destruct (PI I HI) as [Va Vb].
    destruct (Dl I HI) as [Dl1 _], (Dh I HI) as [Dh1 _].
    rewrite !inat_iff. intros Hu Hv. simpl. split.
    + destruct (corner_le _ _ _ _ _ _ Hu Hv) as (x & y & Hx & Hy & Hxy).
      assert (exists tx, In tx (endpoints a) /\ tdata tx (pa I) = x) as (tx & Htx & <-) by (destruct Hx; subst; eauto).
      assert (exists ty, In ty (endpoints b) /\ tdata ty (pb I) = y) as (ty & Hty & <-) by (destruct Hy; subst; eauto).
      destruct (HP' tx ty Htx Hty) as (z & Hz & E). specialize (Dl1 z Hz).
      destruct (PV tx ty z (HSa _ Htx) (HSb _ Hty) E) as [_ D]. rewrite D in Dl1 by auto. apply (rnd_le _ RR) in Hxy. lra.
    + destruct (corner_ge _ _ _ _ _ _ Hu Hv) as (x & y & Hx & Hy & Hxy).
      assert (exists tx, In tx (endpoints a) /\ tdata tx (pa I) = x) as (tx & Htx & <-) by (destruct Hx; subst; eauto).
      assert (exists ty, In ty (endpoints b) /\ tdata ty (pb I) = y) as (ty & Hty & <-) by (destruct Hy; subst; eauto).
      destruct (HP' tx ty Htx Hty) as (z & Hz & E). specialize (Dh1 z Hz).
      destruct (PV tx ty z (HSa _ Htx) (HSb _ Hty) E) as [_ D]. rewrite D in Dh1 by auto. apply (rnd_le _ RR) in Hxy. lra.
Qed.

Lemma Ftmul_prodop sa sb sc : bshape sa sb = Some sc -> fprodop tmul sa sb sc (bidx sa) (bidx sb).
Proof.
  intros E. split.
  - intros x y z Hx Hy H. apply tmap2_ok in H. rewrite Hx, Hy, E in H. destruct H as [H1 H2].
    split; [congruence|]. intros I _. rewrite H2. unfold bget. rewrite Hx, Hy. reflexivity.
  - intros I HI. apply bshape_spec in E. destruct E. split; eapply bidx_compat_valid; eauto.
Qed.
Lemma Fibil_some f pr sa sb a b c : wfs sa a -> wfs sb b -> ibilinear a b f pr = Ok c ->
  exists x y z, tshape x = sa /\ tshape y = sb /\ f x y = Ok z.
Proof.
  intros Ha Hb H. destruct a as [a|a0 a1], b as [b|b0 b1], pr; simpl in H, Ha, Hb; ok_inv; subst;
    unfold sum_bilinear in *; simpl in *; ok_inv; subst;
    repeat match goal with H : _ /\ _ |- _ => destruct H end;
    match goal with H : f ?x ?y = Ok _ |- _ => exists x, y; eexists; split; [|split]; [| |exact H]; auto end.
Qed.
(** Products of broadcast arrays. *)
Lemma Fimul_in sa sb a b c : wfs sa a -> wfs sb b -> ibilinear a b tmul true = Ok c ->
  exists sc, bshape sa sb = Some sc /\ wfs sc c /\ forall I u v, valid sc I -> inat a (bidx sa I) u -> inat b (bidx sb I) v -> inat c I (rnd (u * v)).
Proof.
  intros Ha Hb H. destruct (Fibil_some _ _ _ _ _ _ _ Ha Hb H) as (x & y & z & Sx & Sy & E). apply tmap2_ok in E. rewrite Sx, Sy in E. destruct E as [E _].
  exists (tshape z). split; auto. exact (Fibil_prod _ _ _ _ _ _ _ _ _ (Ftmul_prodop _ _ _ E) Ha Hb H).
Qed.

(** ** Powers *)
Lemma Fnpow_float x n : rnd (npow x n) = npow x n.
Proof. destruct n; simpl; [apply (rnd_1 _ RR)|apply (rnd_idem _ RR)]. Qed.
Lemma Fnpow_nonneg x n : 0 <= x -> 0 <= npow x n.
Proof. intros H. induction n; simpl; [lra|]. rewrite <- rnd_0. apply (rnd_le _ RR). nra. Qed.
Lemma Fnpow_le x y n : 0 <= x <= y -> npow x n <= npow y n.
Proof.
  intros H. induction n; simpl; [lra|]. apply (rnd_le _ RR). pose proof (Fnpow_nonneg x n (proj1 H)). nra.
Qed.
Lemma Fnpow_opp x n : npow (- x) n = if Nat.even n then npow x n else - npow x n.
Proof.
  induction n; [reflexivity|]. rewrite Nat.even_succ, <- Nat.negb_even. change (npow (- x) (S n)) with (rnd (- x * npow (- x) n)). change (npow x (S n)) with (rnd (x * npow x n)).
  rewrite IHn. destruct (Nat.even n); simpl.
  - rewrite <- (rnd_opp _ RR). f_equal. ring.
  - f_equal. ring.
Qed.
Lemma Fnpow_even x n : Nat.even n = true -> npow x n = npow (Rabs x) n.
Proof. intros E. unfold Rabs. destruct (Rcase_abs x); auto. rewrite Fnpow_opp, E. reflexivity. Qed.
Lemma Fnpow_odd_le x y n : Nat.even n = false -> x <= y -> npow x n <= npow y n.
Proof.
  intros E H. destruct (Rle_dec 0 x) as [Hx|Hx]; [apply Fnpow_le; lra|]. replace x with (- - x) by ring. rewrite (Fnpow_opp (- x)), E.
  destruct (Rle_dec 0 y) as [Hy|Hy].
  - pose proof (Fnpow_nonneg (- x) n). pose proof (Fnpow_nonneg y n). lra.
  - replace y with (- - y) by ring. rewrite (Fnpow_opp (- y)), E. pose proof (Fnpow_le (- y) (- x) n). lra.
Qed.
(** The rule of [ipower] for one entry. *)
Lemma Fpower_entry a0 a1 u n (c : bool) : (1 <= n)%nat -> a0 <= u <= a1 -> c = (nltb a0 0 && nltb 0 a1)%bool ->
  Rmin (Rmin (npow a0 n) (npow a1 n)) (rnd (rnd (1 - b2n c) * npow a0 n)) <= npow u n <= Rmax (npow a0 n) (npow a1 n).
Proof.
  intros Hn Hu ->. set (c := (nltb a0 0 && nltb 0 a1)%bool).
  pose proof (Rmin_l (npow a0 n) (npow a1 n)). pose proof (Rmin_r (npow a0 n) (npow a1 n)).
  pose proof (Rmax_l (npow a0 n) (npow a1 n)). pose proof (Rmax_r (npow a0 n) (npow a1 n)).
  pose proof (Rmin_l (Rmin (npow a0 n) (npow a1 n)) (rnd (rnd (1 - b2n c) * npow a0 n))).
  pose proof (Rmin_r (Rmin (npow a0 n) (npow a1 n)) (rnd (rnd (1 - b2n c) * npow a0 n))).
  destruct (Nat.even n) eqn:E.
  2:{ pose proof (Fnpow_odd_le a0 u n E (proj1 Hu)). pose proof (Fnpow_odd_le u a1 n E (proj2 Hu)). lra. }
  rewrite (Fnpow_even u n E). pose proof (Fnpow_even a0 n E) as E0. pose proof (Fnpow_even a1 n E) as E1. split.
  - destruct (Rle_dec 0 a0) as [G0|G0].
    + rewrite (Rabs_right a0) in E0 by lra. rewrite (Rabs_right u) by lra. pose proof (Fnpow_le a0 u n). lra.
    + destruct (Rle_dec a1 0) as [G1|G1].
      * pose proof (Fnpow_le (Rabs a1) (Rabs u) n). rewrite (Rabs_left1 a1), (Rabs_left1 u) in * by lra. lra.
      * assert (Ec : c = true). { unfold c. simpl. destruct (Rlt_dec a0 0); [|lra]. destruct (Rlt_dec 0 a1); [auto|lra]. }
        rewrite Ec in *. assert (rnd (rnd (1 - b2n true) * npow a0 n) = 0).
        { simpl. replace (1 - 1) with 0 by ring. rewrite rnd_0, Rmult_0_l. apply rnd_0. }
        pose proof (Fnpow_nonneg (Rabs u) n (Rabs_pos u)). lra.
  - assert (Rabs u <= Rabs a0 \/ Rabs u <= Rabs a1) as [K|K].
    { unfold Rabs. destruct (Rcase_abs u), (Rcase_abs a0), (Rcase_abs a1); lra. }
    + pose proof (Fnpow_le (Rabs u) (Rabs a0) n (conj (Rabs_pos u) K)). lra.
    + pose proof (Fnpow_le (Rabs u) (Rabs a1) n (conj (Rabs_pos u) K)). lra.
Qed.

Lemma Fipower_in sh a k c : wfs sh a -> (1 <= k)%Z -> ipower a k = Ok c ->
  wfs sh c /\ forall I u, valid sh I -> inat a I u -> inat c I (npow u (Z.to_nat k)).
Proof.
  intros Ha Hk H. destruct a as [a|a0 a1]; simpl in H, Ha.
  - destruct (k <? 0)%Z; [discriminate|]. injection H as <-. split; [exact Ha|]. intros I u _ ->. reflexivity.
  - destruct Ha as [S0 S1]. destruct (k <? 0)%Z; [discriminate|]. destruct (Z.eqb_spec k 0) as [|_]; [lia|]. set (n := Z.to_nat k) in *.
    apply bind_ok in H. destruct H as (cz & Hcz & H). apply bind_ok in H. destruct H as (mk & Hmk & H).
    apply bind_ok in H. destruct H as (l & Hl & H). apply bind_ok in H. destruct H as (h & Hh & H). injection H as <-.
    pose proof (tmap2_same_ok _ _ _ _ sh Hcz S0 S1) as [Scz Ecz]. pose proof (tmap2_same_ok _ _ _ _ sh Hmk Scz S0) as [Smk Emk].
    pose proof (tmap2_same_ok _ _ _ _ sh Hh S0 S1) as [Sh Eh].
    cbn [reduceM foldM] in Hl. apply bind_ok in Hl. destruct Hl as (l1 & Hl1 & Hl). apply bind_ok in Hl. destruct Hl as (l2 & Hl2 & Hl). injection Hl as ->.
    pose proof (tmap2_same_ok _ _ _ _ sh Hl1 S0 S1) as [Sl1 El1]. pose proof (tmap2_same_ok _ _ _ _ sh Hl2 Sl1 Smk) as [Sl El].
    split; [split; auto|]. intros I u HI Hu. simpl in Hu |- *. rewrite El, Eh, El1, Emk, Ecz by auto. simpl.
    apply Fpower_entry; auto. unfold n. lia.
Qed.

(** Outer products with all axes shared. *)
Lemma Feinsum_prodop sh : fprodop (teinsum_outer (length sh)) sh sh sh (fun I => I) (fun I => I).
Proof.
  split; [|auto]. intros x y z Sx Sy H. unfold teinsum_outer in H. unfold tndim in H. rewrite Sx, Sy, firstn_all, skipn_all, zipM_refl in H.
  destruct (_ && _); [|discriminate]. cbn [app] in H. rewrite ?app_nil_r in H. injection H as <-. split; auto. intros I HI. pose proof (valid_length _ _ HI) as L. cbn [tdata].
  rewrite Nat.sub_diag. cbn [firstn]. rewrite !app_nil_r, <- L, firstn_all, skipn_all, app_nil_r, !bidx_valid by auto. reflexivity.
Qed.
Lemma Fiouter_in sh a b c : wfs sh a -> wfs sh b -> iouter_product a b (length sh) = Ok c -> (1 <= length sh)%nat ->
  wfs sh c /\ forall I u v, valid sh I -> inat a I u -> inat b I v -> inat c I (rnd (u * v)).
Proof.
  intros Ha Hb H HL. unfold iouter_product in H. destruct (_ || _); [discriminate|]. unfold ndarray_outer_product in H.
  destruct (Nat.eqb_spec (length sh) 0); [lia|]. exact (Fibil_prod _ _ _ _ _ _ _ _ _ (Feinsum_prodop sh) Ha Hb H).
Qed.
Lemma Frunning_in sh a : wfs sh a -> (1 <= length sh)%nat -> forall m r c n, wfs sh r -> running_outer r a (length sh) m = Ok c ->
  (forall I u, valid sh I -> inat a I u -> rnd u = u -> inat r I (npow u (S n))) ->
  wfs sh c /\ forall I u, valid sh I -> inat a I u -> rnd u = u -> inat c I (npow u (S (m + n))).
Proof.
  intros Ha HL. induction m as [|m IH]; intros r c n Hr H Hp; cbn [running_outer] in H.
  - injection H as <-. auto.
  - apply bind_ok in H. destruct H as (r' & H1 & H). destruct (Fiouter_in _ _ _ _ Hr Ha H1 HL) as [W1 I1].
    replace (S m + n)%nat with (m + S n)%nat by lia. refine (IH r' c (S n) W1 H _). intros I u HI Hu Fu.
    change (npow u (S (S n))) with (rnd (u * npow u (S n))). rewrite Rmult_comm. auto.
Qed.
Lemma Findim sh c : wfs sh c -> indim (T := R) c = length sh.
Proof. destruct c; simpl; unfold tndim; [intros ->|intros [-> _]]; auto. Qed.
Lemma Fiouter_power_in sh a n c : wfs sh a -> (1 <= n)%nat -> iouter_power a (Z.of_nat n) (length sh) = Ok c ->
  wfs sh c /\ forall I u, valid sh I -> inat a I u -> rnd u = u -> inat c I (npow u n).
Proof.
  intros Ha Hn H. unfold iouter_power in H. rewrite (Findim _ _ Ha) in H. destruct (_ <? 0)%Z; [discriminate|]. destruct (Z.eqb_spec (Z.of_nat n) 0); [lia|].
  destruct (Nat.eqb_spec (length sh) 0) as [E|E].
  - destruct (Fipower_in sh a (Z.of_nat n) c Ha ltac:(lia) H) as [W I]. split; auto. rewrite Nat2Z.id in I. auto.
  - apply bind_ok in H. destruct H as (r & Hr & H). cbn [negb] in H. injection H as <-. replace (Z.to_nat (Z.of_nat n - 1)) with (n - 1)%nat in Hr by lia.
    destruct (Frunning_in sh a Ha ltac:(lia) (n - 1) a r 0 Ha Hr) as [W I].
    + intros I u _ Hu Fu. simpl. rewrite Rmult_1_r, Fu. auto.
    + split; auto. replace (S (n - 1 + 0)) with n in I by lia. auto.
Qed.

(** ** Enclosures of degree 0 *)
(** [enc] is one coefficient of the shape of [v], containing [v]; the entries
    of [v] are floating point numbers. *)
Definition encl0 (enc : enclosure R) (v : tensor R) : Prop :=
  exists c, enc = [c] /\ wfs (tshape v) c /\ (forall I, valid (tshape v) I -> inat c I (tdata v I)) /\ float_array rnd v.

Variable tr : tensor R * tensor R.
Let A := mkArith 0 tr.

Lemma Fzero_add sh c0 c : wfs sh c0 -> iadd zero_c c0 = Ok c ->
  wfs sh c /\ forall I v, valid sh I -> inat c0 I v -> rnd v = v -> inat c I v.
Proof.
  intros W H. destruct (Fiadd_in [] sh zero_c c0 c eq_refl W H) as (sc & E & W' & HI). rewrite bshape_nil_l in E. injection E as <-.
  split; auto. intros I v Hv Hc Fv. specialize (HI I 0 v Hv eq_refl). rewrite (bidx_valid _ _ Hv), Rplus_0_l, Fv in HI. auto.
Qed.

Lemma Ftrunc c e : truncate_if_necessary A [c] = Ok e -> e = [c].
Proof. unfold truncate_if_necessary, enclose_enclosure. simpl. intros [= <-]. auto. Qed.

Lemma add0 ea eb e a b v : encl0 ea a -> encl0 eb b -> eadd A ea eb = Ok e -> tadd a b = Ok v -> encl0 e v.
Proof.
  intros (ca & -> & Wa & Ia & Fa) (cb & -> & Wb & Ib & Fb) H HV. unfold eadd in H. apply bind_ok in H. destruct H as (s & Hs & H).
  cbn [add_coeffs bind] in Hs. apply bind_ok in Hs. destruct Hs as (c & Hc & Hs). injection Hs as <-. apply Ftrunc in H. subst e.
  destruct (Fiadd_in _ _ _ _ _ Wa Wb Hc) as (sc & E & W & I). apply tmap2_ok in HV. destruct HV as [SV EV]. rewrite SV in E. injection E as <-.
  destruct (bshape_spec _ _ _ SV) as [C1 C2]. exists c. split; auto. split; auto. split.
  - intros s Hs. rewrite EV. apply I; auto; [apply Ia|apply Ib]; eapply bidx_compat_valid; eauto.
  - intros s Hs. rewrite EV. apply (rnd_idem _ RR).
Qed.
Lemma neg0 ea e a : encl0 ea a -> enegative A ea = Ok e -> encl0 e (tneg a).
Proof.
  intros (ca & -> & Wa & Ia & Fa) H. unfold enegative in H. apply Ftrunc in H. subst e. exists (ineg ca). split; auto. split; [destruct ca; simpl in *; tauto|].
  split.
  - intros I HI. specialize (Ia I HI). destruct ca; simpl in *; [rewrite Ia; auto|lra].
  - intros I HI. simpl. rewrite (rnd_opp _ RR). f_equal. apply Fa. auto.
Qed.
Lemma sub_neg (a b v : tensor R) : tsub a b = Ok v -> tadd a (tneg b) = Ok v.
Proof.
  unfold tsub, tadd, tmap2. simpl. destruct (bshape (tshape a) (tshape b)); [|discriminate]. intros [= <-]. reflexivity.
Qed.
Lemma sub0 ea eb e a b v : encl0 ea a -> encl0 eb b -> esubtract A ea eb = Ok e -> tsub a b = Ok v -> encl0 e v.
Proof.
  intros Ha Hb H HV. unfold esubtract in H. apply bind_ok in H. destruct H as (nb & Hn & H). apply sub_neg in HV. exact (add0 _ _ _ _ _ _ Ha (neg0 _ _ _ Hb Hn) H HV).
Qed.

Lemma Fexpand_0 (a : tensor R) ax : (ax <= tndim a)%nat -> expand_dims_at a 0 ax = Ok a.
Proof.
  intros H. unfold expand_dims_at. replace (ax <=? tndim a)%nat with true by (symmetry; apply Nat.leb_le; auto). destruct a as [s d]. simpl. f_equal. f_equal.
  - apply firstn_skipn.
  - apply functional_extensionality. intros I. rewrite Nat.add_0_r, firstn_skipn. auto.
Qed.
Lemma Fpbm (x y : tensor R) : pairwise_batched_multiply x y 0 0 = tmul x y.
Proof. unfold pairwise_batched_multiply. rewrite !Fexpand_0 by lia. reflexivity. Qed.
Lemma Fterm_product xnd (a b : coef R) : elementwise_term_product_coefficient xnd a b 0 0 = ibilinear a b tmul true.
Proof.
  unfold elementwise_term_product_coefficient. simpl. f_equal. apply functional_extensionality. intros x. apply functional_extensionality. intros y. apply Fpbm.
Qed.

Lemma emul0 ca cb sa sb e : wfs sa ca -> wfs sb cb -> emultiply A [ca] [cb] = Ok e ->
  exists c sc, e = [c] /\ bshape sa sb = Some sc /\ wfs sc c /\
    forall I u v, valid sc I -> inat ca (bidx sa I) u -> inat cb (bidx sb I) v -> inat c I (rnd (u * v)).
Proof.
  intros Wa Wb H. unfold emultiply in H. apply bind_ok in H. destruct H as (u1 & _ & H). apply bind_ok in H. destruct H as (u2 & _ & H).
  apply bind_ok in H. destruct H as (p & Hp & H). unfold poly_bilinear in Hp. cbn [length Nat.add Nat.sub repeat enumerate enumerate_from foldM bind] in Hp.
  rewrite Fterm_product in Hp. apply bind_ok in Hp. destruct Hp as (p' & Hp & Hp2). injection Hp2 as ->.
  apply bind_ok in Hp. destruct Hp as (p' & Hp & Hp2). injection Hp2 as ->.
  apply bind_ok in Hp. destruct Hp as (c & Hc & Hp). unfold add_at, get_nth in Hp. cbn [nth_error bind] in Hp. apply bind_ok in Hp. destruct Hp as (c' & Hc' & Hp). cbn [set_nth] in Hp. injection Hp as <-.
  apply Ftrunc in H. subst e. destruct (Fimul_in _ _ _ _ _ Wa Wb Hc) as (sc & E & W & I). destruct (Fzero_add _ _ _ W Hc') as [W' I']. exists c', sc. split; auto. split; auto. split; auto.
  intros J u v HJ Hu Hv. apply I'; auto. apply (rnd_idem _ RR).
Qed.
Lemma mul0 ea eb e a b v : encl0 ea a -> encl0 eb b -> emultiply A ea eb = Ok e -> tmul a b = Ok v -> encl0 e v.
Proof.
  intros (ca & -> & Wa & Ia & Fa) (cb & -> & Wb & Ib & Fb) H HV. destruct (emul0 _ _ _ _ _ Wa Wb H) as (c & sc & -> & E & W & I).
  apply tmap2_ok in HV. destruct HV as [SV EV]. rewrite SV in E. injection E as <-. destruct (bshape_spec _ _ _ SV) as [C1 C2]. exists c. split; auto. split; auto.
  split; [|intros s Hs; rewrite EV; apply (rnd_idem _ RR)].
  intros s Hs. rewrite EV. apply I; auto; [apply Ia|apply Ib]; eapply bidx_compat_valid; eauto.
Qed.

Lemma pow0 ea e a n : encl0 ea a -> epower_nat A ea n = Ok e -> encl0 e (tmap (fun x => npow x n) a).
Proof.
  intros (ca & -> & Wa & Ia & Fa) H. unfold epower_nat in H. apply bind_ok in H. destruct H as (u1 & _ & H). apply bind_ok in H. destruct H as (r & Hr & H).
  assert (FV : float_array rnd (tmap (fun x => npow x n) a)) by (intros s Hs; apply Fnpow_float).
  assert (SL : tshape (left_end ca) = tshape a) by (destruct ca; simpl in *; tauto).
  unfold integer_power in Hr. replace (Z.of_nat n <? 0)%Z with false in Hr by (symmetry; apply Z.ltb_ge; lia). destruct (Z.eqb_spec (Z.of_nat n) 0) as [E|E].
  { assert (n = 0)%nat by lia. subst n. injection Hr as <-. apply Ftrunc in H. subst e. exists (Arr (tones_like (left_end ca))). split; auto. split; [simpl; auto|]. split; auto.
    intros s Hs. reflexivity. }
  rewrite Nat2Z.id in Hr. cbn [length Nat.sub Nat.mul Nat.add seq mapM] in Hr. apply bind_ok in Hr. destruct Hr as (c & Hc & Hr). injection Hr as <-. apply Ftrunc in H. subst e.
  unfold get_coeff in Hc. cbn [length Nat.sub partitions Nat.eqb foldM] in Hc.
  apply bind_ok in Hc. destruct Hc as (c1 & Hc & Hc1). injection Hc1 as ->.
  apply bind_ok in Hc. destruct Hc as ((r & w) & Hr & Hc). apply bind_ok in Hc. destruct Hc as (u2 & _ & Hc). apply bind_ok in Hc. destruct Hc as (m & Hm & Hc).
  cbn [multinomial_coefficient] in Hm. injection Hm as <-. apply bind_ok in Hc. destruct Hc as (t & Ht & Hc).
  unfold run_product in Hr. cbn [enumerate enumerate_from foldM] in Hr. apply bind_ok in Hr. destruct Hr as (rw & Hr & Hr2). injection Hr2 as ->.
  unfold get_nth in Hr. cbn [nth_error bind] in Hr. apply bind_ok in Hr. destruct Hr as (pw & Hpw & Hr). apply bind_ok in Hr. destruct Hr as (r' & Hr' & Hr). injection Hr as -> _.
  rewrite Nat.mul_0_l, Fterm_product in Hr'. unfold elementwise_term_power_coefficient in Hpw. rewrite Nat.mul_0_l in Hpw. cbn [Nat.ltb Nat.leb] in Hpw. rewrite Nat.sub_0_r, (Findim _ _ Wa) in Hpw.

  destruct (Fiouter_power_in _ _ _ _ Wa (ltac:(clear -E; lia) : (1 <= n)%nat) Hpw) as [W1 I1].
  destruct (Fimul_in (tshape a) (tshape a) (Arr (tones_like (left_end ca))) _ _ SL W1 Hr') as (sc & Esc & W2 & I2). rewrite bshape_refl in Esc. injection Esc as <-.
  destruct (Fimul_in [] (tshape a) (Arr (tscalar (nofZ 1))) _ _ eq_refl W2 Ht) as (sc & Esc & W3 & I3). rewrite bshape_nil_l in Esc. injection Esc as <-.
  destruct (Fzero_add _ _ _ W3 Hc) as [W4 I4]. exists c. split; auto. split; auto. split; auto. intros s Hs. change (tshape (tmap (fun x => npow x n) a)) with (tshape a) in Hs. apply I4; auto.
  assert (E1 : forall y, rnd y = y -> rnd (1 * y) = y) by (intros y Hy; rewrite Rmult_1_l; auto).
  rewrite <- (E1 (tdata (tmap (fun x => npow x n) a) s)) by (apply FV; auto). apply I3; auto; [simpl; rewrite (rnd_1 _ RR); auto|].
  rewrite (bidx_valid _ _ Hs). rewrite <- (E1 (tdata (tmap (fun x => npow x n) a) s)) by (apply FV; auto). apply I2; auto; [reflexivity|]. rewrite (bidx_valid _ _ Hs). apply I1; auto.
Qed.

(** ** Gathers *)
Lemma Fgather_ok g (u v : tensor R) : gather g u = Ok v -> g_shape g (tshape u) = Ok (tshape v) /\
  forall I, tdata v I = fold_right (fun a b => rnd (a + b)) 0 (map (tdata u) (g_src g (tshape u) I)).
Proof. unfold gather. intros H. apply bind_ok in H. destruct H as (sh & Hs & H). injection H as <-. auto. Qed.
Lemma prod_pos_nonempty (s : list nat) : (0 < prod s)%nat -> nonempty s = true.
Proof. induction s as [|n s IH]; simpl; auto. intros H. destruct n; [lia|]. simpl. apply IH. change (fold_right Nat.mul 1 s)%nat with (prod s) in H. nia. Qed.
Lemma valid_prod_pos (s : list nat) I : valid s I -> (0 < prod s)%nat.
Proof. induction 1 as [|i n I s Hi H IH]; simpl; [lia|]. change (fold_right Nat.mul 1 s)%nat with (prod s). nia. Qed.
Lemma Fsrc_valid (p : prim R) g (a : tensor R) v : gather_of p = Some g -> gather g a = Ok v ->
  forall s, valid (tshape v) s -> Forall (valid (tshape a)) (g_src g (tshape a) s).
Proof.
  intros Hg H s Hs. apply Fgather_ok in H. destruct H as [HS _].
  destruct (existsb (fun _ => true) [tt] && match p with reshape_p _ => true | _ => false end)%bool eqn:EP.
  - destruct p; try discriminate. simpl in Hg. injection Hg as <-. pose proof HS as HS'. simpl in HS'. destruct (_ =? _)%nat eqn:E; [|discriminate]. injection HS' as HS'.
    apply Nat.eqb_eq in E. rewrite HS' in E. pose proof (valid_prod_pos _ _ Hs).
    assert (NE : exists s, valid (tshape a) s) by (apply nonempty_valid, prod_pos_nonempty; lia).
    assert (G : exists v', @gather R NumR (g_reshape new_sizes) a = Ok v' /\ tshape v' = tshape v).
    { unfold gather. rewrite HS. eexists. split; [reflexivity|reflexivity]. }
    destruct G as (v' & G & Sv). refine (gather_src_valid (reshape_p new_sizes) _ a v' eq_refl NE G s _). rewrite Sv. auto.
  - destruct p; simpl in Hg, EP; try discriminate; injection Hg as <-.
    + simpl in HS. destruct (_ && _) eqn:E; [|discriminate]. injection HS as HS. subst shape. simpl. constructor; [|constructor].
      repeat (apply andb_prop in E; destruct E as [E ?]). apply Nat.eqb_eq in E. apply bcast_in_dim_valid with (shape := tshape v); auto. apply forallb_lt_In; auto.
    + simpl in HS. injection HS as HS. rewrite <- HS in Hs. exact (proj1 (lin_convert [] 0 (tshape a)) s Hs).
    + exact (proj1 (lin_reduce_sum [] 0 axes _ _ HS) s Hs).
    + exact (proj1 (lin_window [] 0 ws _ _ HS) s Hs).
    + exact (proj1 (lin_squeeze [] 0 dims _ _ HS) s Hs).
    + exact (proj1 (lin_transpose [] 0 perm _ _ HS) s Hs).
Qed.
Lemma Fgather_float g (u v : tensor R) : gather g u = Ok v -> float_array rnd v.
Proof.
  intros H I HI. apply Fgather_ok in H. destruct H as [_ E]. rewrite E. destruct (map _ _); simpl; [apply rnd_0|apply (rnd_idem _ RR)].
Qed.
Lemma Fsum_le (f g : list nat -> R) l : Forall (fun I => f I <= g I) l ->
  fold_right (fun a b => rnd (a + b)) 0 (map f l) <= fold_right (fun a b => rnd (a + b)) 0 (map g l).
Proof. induction 1; simpl; [lra|]. apply (rnd_le _ RR). lra. Qed.
Lemma gather0 (p : prim R) g ea e a v : gather_of p = Some g -> encl0 ea a -> map_over_enclosure ea (gather g) = Ok e -> gather g a = Ok v -> encl0 e v.
Proof.
  intros Hg (ca & -> & Wa & Ia & Fa) H HV. pose proof (Fsrc_valid p g a v Hg HV) as SV. pose proof (Fgather_float _ _ _ HV) as FV.
  unfold map_over_enclosure in H. cbn [mapM] in H. apply bind_ok in H. destruct H as (c & Hc & H). injection H as <-.
  apply Fgather_ok in HV. destruct HV as [HS HV]. destruct ca as [t|l h]; simpl in Wa; cbn [map_coef] in Hc.
  - apply bind_ok in Hc. destruct Hc as (t' & Ht & Hc). injection Hc as <-. apply Fgather_ok in Ht. destruct Ht as [HSt Ht]. rewrite Wa in *. rewrite HS in HSt. injection HSt as HSt.
    exists (Arr t'). split; auto. split; [simpl; auto|]. split; auto. intros s Hs. simpl. rewrite HV, Ht. f_equal. apply map_ext_in. intros J HJ.
    specialize (SV s Hs). rewrite Forall_forall in SV. apply (Ia J). auto.
  - destruct Wa as [Wl Wh]. apply bind_ok in Hc. destruct Hc as (l' & Hl & Hc). apply bind_ok in Hc. destruct Hc as (h' & Hh & Hc). injection Hc as <-.
    apply Fgather_ok in Hl, Hh. destruct Hl as [HSl Hl], Hh as [HSh Hh]. rewrite Wl in *. rewrite Wh in *. rewrite HS in HSl, HSh. injection HSl as HSl. injection HSh as HSh.
    exists (Ivl l' h'). split; auto. split; [simpl; auto|]. split; auto. intros s Hs. specialize (SV s Hs). simpl. rewrite HV, Hl, Hh.
    split; apply Fsum_le; eapply Forall_impl; [|exact SV| |exact SV]; intros J HJ; apply (Ia J HJ).
Qed.
Lemma broadcast0 shape bdims ea e a v : encl0 ea a -> push_broadcast shape bdims ea = Ok e -> gather (g_broadcast_in_dim shape bdims) a = Ok v -> encl0 e v.
Proof.
  intros Ha H HV. refine (gather0 (broadcast_in_dim_p shape bdims) _ ea e a v eq_refl Ha _ HV). destruct Ha as (ca & -> & _). unfold push_broadcast in H. cbn [bind] in H.
  cbn [enumerate enumerate_from mapM rep] in H. rewrite app_nil_r in H. exact H.
Qed.

(** ** Elementwise functions *)
Lemma Ftmap_ok (f : R -> res R) (u v : tensor R) : tmapM f u = Ok v -> tshape v = tshape u /\ forall s, valid (tshape u) s -> f (tdata u s) = Ok (tdata v s).
Proof. exact (tmapM_ok f u v). Qed.
Lemma Ftmap2M_ok (f : R -> R -> res R) (a b v : tensor R) : tmap2M f a b = Ok v ->
  bshape (tshape a) (tshape b) = Some (tshape v) /\ forall s, valid (tshape v) s -> f (bget a s) (bget b s) = Ok (tdata v s).
Proof. exact (tmap2M_ok f a b v). Qed.

(** What is known about a recorded trust region. *)
Definition region0 (t : option (tensor R * tensor R)) (v : tensor R) : Prop :=
  match t with
  | None => True
  | Some (l, h) => tshape l = tshape v /\ tshape h = tshape v /\ forall s, valid (tshape v) s -> tdata l s = tdata v s /\ tdata h s = tdata v s
  end.

Lemma ew0 gen sigma ea ot e a : float_generator rnd gen sigma -> encl0 ea a ->
  (forall c, ot = Some c -> exists l h t, c = Ivl l h /\ ea = [Arr t] /\ region0 (Some (l, h)) a) ->
  elementwise_fun A gen ea ot = Ok e -> exists c, e = [c] /\ wfs (tshape a) c /\
    forall s v, valid (tshape a) s -> sigma (tdata a s) = Ok v -> inat c s v /\ rnd v = v.
Proof.
  intros HG (ca & -> & Wa & Ia & Fa) HT H. unfold elementwise_fun in H. apply bind_ok in H. destruct H as (tr0 & Htr & H). apply bind_ok in H. destruct H as (x0c & Hx & H).
  unfold get_nth in Hx. cbn [nth_error] in Hx. injection Hx as <-. apply bind_ok in H. destruct H as (x0 & Hx0 & H). apply bind_ok in H. destruct H as (ew & Hew & H).
  set (trp := match tr0 with Arr t => (t, t) | Ivl l h => (l, h) end) in *.
  assert (Ex : x0 = left_end ca) by (destruct ca; simpl in Hx0; injection Hx0 as <-; auto).
  assert (Sx : tshape x0 = tshape a) by (subst x0; destruct ca; simpl in *; tauto).
  assert (HR : tshape (fst trp) = tshape a /\ tshape (snd trp) = tshape a /\
            (forall s, valid (tshape a) s -> tdata (fst trp) s <= tdata a s <= tdata (snd trp) s) /\
            (forall s, valid (tshape a) s -> tdata (fst trp) s <= tdata x0 s <= tdata (snd trp) s)).
  { destruct ot as [c|].
    - injection Htr as <-. destruct (HT c eq_refl) as (l & h & t & -> & Ec & S1 & S2 & E). injection Ec as ->. subst trp x0. simpl in *. split; auto. split; auto.
      split; intros s Hs; destruct (E s Hs) as [-> ->]; [lra|]. rewrite <- (Ia s Hs). lra.
    - unfold enclose_enclosure in Htr. cbn [length Nat.leb Nat.add bind] in Htr. unfold get_nth in Htr. cbn [nth_error] in Htr. injection Htr as <-. subst trp x0.
      destruct ca as [t|l h]; simpl in *.
      + split; auto. split; auto. split; intros s Hs; rewrite ?(Ia s Hs); lra.
      + destruct Wa. split; auto. split; auto. split; intros s Hs; specialize (Ia s Hs); lra. }
  destruct HR as (S1 & S2 & R1 & R2).
  destruct HG as [HF HG]. destruct (HG (tshape a) x0 (fst trp) (snd trp) ew Sx S1 S2 R2) as (c & -> & Wc & HC).
  { rewrite <- surjective_pairing. exact Hew. }
  unfold compose_enclosures in H. cbn [enumerate enumerate_from foldM compose_term bind] in H. apply bind_ok in H. destruct H as (e' & H & H2). injection H2 as ->.
  unfold eadd in H. apply bind_ok in H. destruct H as (s & Hs & H). cbn [add_coeffs] in Hs. apply bind_ok in Hs. destruct Hs as (c' & Hc' & Hs). cbn [bind] in Hs. injection Hs as <-. apply Ftrunc in H. subst e.
  destruct (Fzero_add _ _ _ Wc Hc') as [W' I']. exists c'. split; auto. split; auto.
  intros s v Hs HV. pose proof (HC s (tdata a s) v Hs (R1 s Hs) (Fa s Hs) HV). pose proof (HF _ _ (Fa s Hs) HV). split; auto.
Qed.
Lemma elementwise0 gen sigma ea ot e a v : float_generator rnd gen sigma -> encl0 ea a ->
  (forall c, ot = Some c -> exists l h t, c = Ivl l h /\ ea = [Arr t] /\ region0 (Some (l, h)) a) ->
  elementwise_fun A gen ea ot = Ok e -> tmapM sigma a = Ok v -> encl0 e v.
Proof.
  intros HG Ha HT H HV. destruct (ew0 _ _ _ _ _ _ HG Ha HT H) as (c & -> & W & K). apply Ftmap_ok in HV. destruct HV as [SV EV]. exists c. rewrite SV. split; auto. split; auto.
  split; [|intros s Hs; rewrite SV in Hs]; [intros s Hs|]; exact (proj1 (K s _ Hs (EV s Hs))) || exact (proj2 (K s _ Hs (EV s Hs))).
Qed.
Lemma div0 gp sc ea eb e a b v : float_generator rnd (gp (-1)%Z) (fun x => s_ipow sc x (-1)) ->
  (forall x y v, s_div sc x y = Ok v -> exists w, s_ipow sc y (-1) = Ok w /\ v = rnd (x * w)) ->
  encl0 ea a -> encl0 eb b -> edivide A gp ea eb = Ok e -> tmap2M (s_div sc) a b = Ok v -> encl0 e v.
Proof.
  intros HG HD (ca & -> & Wa & Ia & Fa) Hb H HV. unfold edivide, epower in H. cbn [Z.leb Z.compare] in H. apply bind_ok in H. destruct H as (ib & Hib & H). apply bind_ok in Hib. destruct Hib as (u & _ & Hib).
  apply Ftmap2M_ok in HV. destruct HV as [SV EV]. pose proof (bshape_spec _ _ _ SV) as [C1 C2].
  destruct (ew0 _ _ eb None ib b HG Hb ltac:(discriminate) Hib) as (c & -> & W & K).
  destruct (emul0 _ _ _ _ _ Wa W H) as (c' & sc' & -> & E & W' & I). rewrite SV in E. injection E as <-. exists c'. split; auto. split; auto.
  assert (Q : forall s, valid (tshape v) s -> inat c' s (tdata v s) /\ rnd (tdata v s) = tdata v s).
  { intros s Hs. destruct (HD _ _ _ (EV s Hs)) as (w & Hw & ->). split; [|apply (rnd_idem _ RR)].
    apply I; auto; [apply Ia; eapply bidx_compat_valid; eauto|]. apply K; [eapply bidx_compat_valid; eauto|exact Hw]. }
  split; intros s Hs; apply (Q s Hs).
Qed.

(** ** One equation *)
Definition inter0 (i : inter R) (v : tensor R) : Prop :=
  encl0 (i_enc i) v /\ region0 (i_tr i) v /\ (i_tr i <> None -> exists t, i_enc i = [Arr t]).

Lemma push0 sc gs p args vs e v : float_prim rnd sc gs p -> Forall2 inter0 args vs ->
  pushforward gs A p args = Ok e -> prim_bind sc p vs = Ok [v] -> encl0 e v.
Proof.
  intros HP HA H HV.
  assert (One : forall r : res (tensor R), one_res r = Ok [v] -> r = Ok v) by (intros r Hr; apply one_ok in Hr; destruct Hr as (t & -> & [= ->]); auto).
  destruct HA as [|ia va args vs (Ea & Ra & Ta) HA]; [destruct p; discriminate|].
  assert (TR : forall c, tr_coef (i_tr ia) = Some c -> exists l h t, c = Ivl l h /\ i_enc ia = [Arr t] /\ region0 (Some (l, h)) va).
  { intros c Hc. destruct (i_tr ia) as [[l h]|]; [|discriminate]. injection Hc as <-. destruct Ta as [t Et]; [discriminate|]. exists l, h, t. auto. }
  destruct HA as [|ib vb args vs (Eb & Rb & Tb) HA].
  - destruct p; try discriminate; try contradiction; cbn -[gather tmapM] in H, HV, HP.
    + injection HV as <-. exact (neg0 _ _ _ Ea H).
    + unfold epower in H. destruct (Z.leb_spec 0 y) as [Hy|Hy].
      * injection HV as <-. exact (pow0 _ _ _ _ Ea H).
      * apply bind_ok in H. destruct H as (u & _ & H). refine (elementwise0 _ _ _ _ _ _ _ (HP Hy) Ea _ H (One _ HV)). discriminate.
    + exact (broadcast0 _ _ _ _ _ _ Ea H (One _ HV)).
    + exact (elementwise0 _ _ _ _ _ _ _ HP Ea TR H (One _ HV)).
    + exact (gather0 convert_element_type_p _ _ _ _ _ eq_refl Ea H (One _ HV)).
    + exact (gather0 (reshape_p new_sizes) _ _ _ _ _ eq_refl Ea H (One _ HV)).
    + exact (gather0 (reduce_sum_p axes) _ _ _ _ _ eq_refl Ea H (One _ HV)).
    + exact (gather0 (reduce_window_sum_p ws) _ _ _ _ _ eq_refl Ea H (One _ HV)).
    + exact (gather0 (squeeze_p dims) _ _ _ _ _ eq_refl Ea H (One _ HV)).
    + exact (gather0 (transpose_p perm) _ _ _ _ _ eq_refl Ea H (One _ HV)).
  - destruct HA; [|destruct p; try discriminate; contradiction]. destruct p; try discriminate; try contradiction; cbn -[tmap2M] in H, HV, HP; apply One in HV.
    + exact (add0 _ _ _ _ _ _ Ea Eb H HV).
    + exact (sub0 _ _ _ _ _ _ Ea Eb H HV).
    + exact (mul0 _ _ _ _ _ _ Ea Eb H HV).
    + exact (div0 _ _ _ _ _ _ _ _ (proj1 HP) (proj2 HP) Ea Eb H HV).
Qed.

(** Equations with constant operands only. *)
Lemma Fprim_teq sc gs p args args' vs vs' : float_prim rnd sc gs p -> Forall2 teq args args' ->
  prim_bind sc p args = Ok vs -> prim_bind sc p args' = Ok vs' -> Forall2 teq vs vs'.
Proof.
  intros HP HT H H'.
  assert (One : forall r r', one_res r = Ok vs -> one_res r' = Ok vs' -> (forall t t', r = Ok t -> r' = Ok t' -> teq t t') -> Forall2 teq vs vs').
  { intros r r' K K' G. apply one_ok in K, K'. destruct K as (t & K & ->), K' as (t' & K' & ->). constructor; auto. }
  assert (GT : forall (q : prim R) g (a a' t t' : tensor R), gather_of q = Some g -> teq a a' -> gather g a = Ok t -> gather g a' = Ok t' -> teq t t').
  { intros q g a a' t t' Hg [Sa Ea] K K'. pose proof (Fsrc_valid q g a t Hg K) as SV. apply Fgather_ok in K, K'. destruct K as [K E], K' as [K' E']. rewrite <- Sa in *.
    split; [congruence|]. intros s Hs. rewrite E, E'. f_equal. specialize (SV s Hs). rewrite Forall_forall in SV. apply map_ext_in. intros J HJ. apply Ea; auto. }
  destruct HT as [|a a' l l' Ha HT]; [destruct p; try discriminate; contradiction|].
  destruct HT as [|b b' l l' Hb HT].
  - destruct p; try discriminate; try contradiction; cbn -[gather tmapM] in H, H'.
    + injection H as <-. injection H' as <-. constructor; auto. apply (tmap_teq Ropp); auto.
    + destruct (0 <=? y)%Z.
      * injection H as <-. injection H' as <-. constructor; auto. apply tmap_teq; auto.
      * refine (One _ _ H H' _). intros t t' Ht Ht'. exact (tmapM_teq _ _ _ _ _ Ha Ht Ht').
    + refine (One _ _ H H' _). intros t t' Ht Ht'. exact (GT (broadcast_in_dim_p shape bdims) _ _ _ _ _ eq_refl Ha Ht Ht').
    + refine (One _ _ H H' _). intros t t' Ht Ht'. exact (tmapM_teq _ _ _ _ _ Ha Ht Ht').
    + refine (One _ _ H H' _). intros t t' Ht Ht'. exact (GT convert_element_type_p _ _ _ _ _ eq_refl Ha Ht Ht').
    + refine (One _ _ H H' _). intros t t' Ht Ht'. exact (GT (reshape_p new_sizes) _ _ _ _ _ eq_refl Ha Ht Ht').
    + refine (One _ _ H H' _). intros t t' Ht Ht'. exact (GT (reduce_sum_p axes) _ _ _ _ _ eq_refl Ha Ht Ht').
    + refine (One _ _ H H' _). intros t t' Ht Ht'. exact (GT (reduce_window_sum_p ws) _ _ _ _ _ eq_refl Ha Ht Ht').
    + refine (One _ _ H H' _). intros t t' Ht Ht'. exact (GT (squeeze_p dims) _ _ _ _ _ eq_refl Ha Ht Ht').
    + refine (One _ _ H H' _). intros t t' Ht Ht'. exact (GT (transpose_p perm) _ _ _ _ _ eq_refl Ha Ht Ht').
  - destruct HT; [|destruct p; try discriminate; contradiction].
    destruct p; try discriminate; try contradiction; cbn in H, H'; refine (One _ _ H H' _); intros t t' Ht Ht'.
    + exact (tmap2_teq _ _ _ _ _ _ _ Ha Hb Ht Ht').
    + exact (tmap2_teq _ _ _ _ _ _ _ Ha Hb Ht Ht').
    + exact (tmap2_teq _ _ _ _ _ _ _ Ha Hb Ht Ht').
    + exact (tmap2M_teq _ _ _ _ _ _ _ Ha Hb Ht Ht').
Qed.
Lemma Fprim_float sc gs p args vs : float_prim rnd sc gs p -> Forall (float_array rnd) args -> prim_bind sc p args = Ok vs -> Forall (float_array rnd) vs.
Proof.
  intros HP HA H.
  assert (One : forall r, one_res r = Ok vs -> (forall t, r = Ok t -> float_array rnd t) -> Forall (float_array rnd) vs).
  { intros r K G. apply one_ok in K. destruct K as (t & K & ->). constructor; auto. }
  assert (M : forall f (a t : tensor R), float_array rnd a -> (forall y v, rnd y = y -> f y = Ok v -> rnd v = v) -> tmapM f a = Ok t -> float_array rnd t).
  { intros f a t Fa Hf Ht s Hs. apply Ftmap_ok in Ht. destruct Ht as [S E]. rewrite S in Hs. exact (Hf _ _ (Fa s Hs) (E s Hs)). }
  destruct HA as [|a l Ha HA]; [destruct p; try discriminate; contradiction|].
  destruct HA as [|b l Hb HA].
  - destruct p; try discriminate; try contradiction; cbn -[gather tmapM] in H, HP; try (refine (One _ H _); intros t Ht; exact (Fgather_float _ _ _ Ht)).
    + injection H as <-. constructor; auto. intros s Hs. simpl. rewrite (rnd_opp _ RR). f_equal. apply Ha. auto.
    + destruct (Z.leb_spec 0 y) as [Hy|Hy].
      * injection H as <-. constructor; auto. intros s Hs. apply Fnpow_float.
      * refine (One _ H _). intros t Ht. exact (M _ _ _ Ha (proj1 (HP Hy)) Ht).
    + refine (One _ H _). intros t Ht. exact (M _ _ _ Ha (proj1 HP) Ht).
  - destruct HA; [|destruct p; try discriminate; contradiction].
    destruct p; try discriminate; try contradiction; cbn -[tmap2M] in H, HP; refine (One _ H _); intros t Ht s Hs;
      try (apply tmap2_ok in Ht; destruct Ht as [_ E]; rewrite E; apply (rnd_idem _ RR)).
    apply Ftmap2M_ok in Ht. destruct Ht as [_ E]. destruct (proj2 HP _ _ _ (E s Hs)) as (w & _ & ->). apply (rnd_idem _ RR).
Qed.

Lemma const0 t v : teq t v -> float_array rnd v -> inter0 (constant_inter t) v.
Proof.
  intros [S E] F. split; [|split].
  - exists (Arr t). split; auto. split; [simpl; auto|]. split; auto. intros s Hs. simpl. symmetry. apply E. rewrite S. auto.
  - simpl. split; auto. split; auto. intros s Hs. rewrite <- S in Hs. rewrite E by auto. auto.
  - intros _. exists t. auto.
Qed.

(** ** The interpreter *)
Variable lits : nat -> tensor R.
Hypothesis HL : forall n, float_array rnd (lits n).
Definition inv0 (d : dict) (r : jvar -> option (tensor R)) : Prop :=
  (forall n, r (Lit n) = Some (lits n)) /\
  (forall n i, dlookup d n = Some i -> exists v, r (Var n) = Some v /\ inter0 i v).

Lemma get0 d r v i x : inv0 d r -> get_intermediate lits d v = Ok i -> r v = Some x -> inter0 i x.
Proof.
  intros [HLi HV] H Hr. destruct v as [n|n|]; simpl in H; [| |discriminate].
  - destruct (dlookup d n) as [i'|] eqn:E; [|discriminate]. injection H as ->. destruct (HV n i E) as (v & E1 & E2). congruence.
  - injection H as <-. rewrite HLi in Hr. injection Hr as <-. apply const0; [apply teq_refl|apply HL].
Qed.
Lemma gets0 d r l : inv0 d r -> forall args xs, mapM (get_intermediate lits d) l = Ok args -> lookups r l = Some xs -> Forall2 inter0 args xs.
Proof.
  intros HI. induction l as [|v l IH]; intros args xs H Hx; cbn [mapM] in H; simpl in Hx.
  - injection H as <-. injection Hx as <-. constructor.
  - apply bind_ok in H. destruct H as (i & Hi & H). apply bind_ok in H. destruct H as (is' & His & H). injection H as <-.
    destruct (r v) as [x|] eqn:Er; [|discriminate]. destruct (lookups r l) as [xs'|]; [|discriminate]. injection Hx as <-.
    constructor; auto. eapply get0; eauto.
Qed.
Lemma store0 xs : forall outs vs is' d r d' r', inv0 d r -> Forall2 inter0 is' vs ->
  store xs d outs is' = Ok d' -> assign jvar_eqb r outs vs = Some r' -> inv0 d' r'.
Proof.
  induction outs as [|u outs IH]; intros vs is' d r d' r' HI HO HS Hr; destruct HO as [|i v is' vs Hv HO]; simpl in *; try discriminate.
  - injection HS as <-. injection Hr as <-. auto.
  - destruct u as [n|n|]; [|discriminate|].
    + destruct (dlookup d n); [discriminate|]. apply bind_ok in HS. destruct HS as (_ & _ & HS).
      refine (IH _ _ _ _ _ _ _ HO HS Hr). destruct HI as [HLi HV]. split; [intros m; exact (HLi m)|]. intros m j Hj. simpl in Hj |- *.
      destruct (n =? m)%nat; [injection Hj as <-; eauto|]. exact (HV m j Hj).
    + refine (IH _ _ _ _ _ _ _ HO HS Hr). destruct HI as [HLi HV]. split; [intros m; exact (HLi m)|exact HV].
Qed.
Lemma consts0 args vs ts : Forall2 inter0 args vs -> mapM constant_value args = Ok ts -> Forall2 teq ts vs.
Proof.
  intros H. revert ts. induction H as [|i v is' vs ((c & E & W & K & _) & _) H IH]; intros ts HT; cbn [mapM] in HT.
  - injection HT as <-. constructor.
  - apply bind_ok in HT. destruct HT as (t & Ht & HT). apply bind_ok in HT. destruct HT as (ts' & Hts & HT). injection HT as <-.
    constructor; auto. unfold constant_value in Ht. rewrite E in Ht. destruct c as [t'|]; [|discriminate]. injection Ht as ->. simpl in W. split; auto.
    intros s Hs. symmetry. apply (K s). rewrite <- W. auto.
Qed.
Lemma floats0 args vs : Forall2 inter0 args vs -> Forall (float_array rnd) vs.
Proof. induction 1 as [|i v is' vs ((c & E & W & K & F) & _) H IH]; constructor; auto. Qed.

Lemma Fprim_eval sc p (ts rs : list (tensor R)) : prim_eval sc p ts = Ok rs -> prim_bind sc p ts = Ok rs.
Proof. destruct p; try exact (fun H => H). destruct e; try exact (fun H => H); discriminate. Qed.
Lemma step0 sc gs xs d r o d' r' : inv0 d r -> float_prim rnd sc gs (odata o) ->
  run_op (fun p args => ok_opt (prim_bind sc p args)) jvar_eqb r o = Some r' ->
  step sc gs A A false xs lits d o = Ok d' -> inv0 d' r'.
Proof.
  intros HI HP HR H. unfold run_op in HR. destruct (lookups r (oins o)) as [args|] eqn:Er; [|discriminate].
  destruct (prim_bind sc (odata o) args) as [vals|] eqn:EB; [|discriminate]. simpl in HR.
  unfold step in H. apply bind_ok in H. destruct H as (ints & Hints & H). apply bind_ok in H. destruct H as (outs & Houts & H).
  pose proof (gets0 d r _ HI _ _ Hints Er) as HA.
  refine (store0 xs _ _ _ _ _ _ _ HI _ H HR). destruct (existsb _ ints).
  - apply bind_ok in Houts. destruct Houts as (e & He & Houts). destruct (negb _) eqn:EL in Houts; [discriminate|]. apply negb_false_iff, Nat.eqb_eq in EL. cbn [bind] in Houts. injection Houts as <-.
    destruct vals as [|v [|v' vals]].
    { destruct (oouts o); simpl in *; discriminate. }
    2:{ destruct (oouts o) as [|? [|]]; simpl in *; discriminate. }
    constructor; [|constructor]. split; [exact (push0 _ _ _ _ _ _ _ HP HA He EB)|]. split; [exact I|]. intros C. contradiction C. reflexivity.
  - apply bind_ok in Houts. destruct Houts as (ts & Hts & Houts). apply bind_ok in Houts. destruct Houts as (rs & Hrs & Houts). injection Houts as <-. apply Fprim_eval in Hrs.
    pose proof (Fprim_teq _ _ _ _ _ _ _ HP (consts0 _ _ _ HA Hts) Hrs EB) as HF. pose proof (Fprim_float _ _ _ _ _ HP (floats0 _ _ HA) EB) as FF.
    clear -HF FF RR. induction HF as [|t v ts vs E HF IH]; simpl; constructor; inversion FF; subst; auto. apply const0; auto.
Qed.
Lemma run0 sc gs xs ops : forall d r d' r', inv0 d r -> (forall o, In o ops -> float_prim rnd sc gs (odata o)) ->
  run (fun p args => ok_opt (prim_bind sc p args)) jvar_eqb r ops = Some r' ->
  foldM (step sc gs A A false xs lits) d ops = Ok d' -> inv0 d' r'.
Proof.
  induction ops as [|o ops IH]; intros d r d' r' HI HP HR H; cbn [run foldM] in HR, H.
  - injection HR as <-. injection H as <-. auto.
  - apply bind_ok in H. destruct H as (d1 & H1 & H). destruct (run_op _ _ r o) as [r1|] eqn:E1; [|discriminate].
    refine (IH d1 r1 d' r' _ _ HR H); [|intros; apply HP; right; auto]. exact (step0 sc gs xs d r o d1 r1 HI (HP o (or_introl eq_refl)) E1 H1).
Qed.

(** ** Evaluating the bounds *)
Lemma Ftensordot0 sh : fprodop (ttensordot 0) sh [] sh (fun I => I) (fun _ => []).
Proof.
  split; [|intros I HI; split; [auto|constructor]]. intros x y z Sx Sy H. unfold ttensordot, tndim in H. rewrite Sx, Sy, Nat.sub_0_r, skipn_all, firstn_all in H.
  cbn in H. rewrite app_nil_r in H. injection H as <-. split; auto. intros I HI. cbn [tdata]. rewrite <- (valid_length _ _ HI), firstn_all, app_nil_r, skipn_all. reflexivity.
Qed.
Lemma call0 b x v : tshape x = tshape (tb_x0 b) -> encl0 (tb_coefficients b) v -> float_bounds_at rnd b x v.
Proof.
  intros Sx (c & Ec & Wc & Ic & Fv).
  assert (HZ : exists z, tsub x (tb_x0 b) = Ok z) by (destruct (tmap2_total_same (@nsub R _) x (tb_x0 b) (tshape x) eq_refl (eq_sym Sx)) as (z & Ez & _); eauto). destruct HZ as [z Ez].
  assert (HI : exists t, inner_product c one_c = Ok t).
  { unfold inner_product, itensordot.
    assert (P : forall u : tensor R, exists t, ttensordot 0 u (tscalar 1) = Ok t /\ tshape t = tshape u).
    { intros u. unfold ttensordot, tndim. simpl. rewrite Nat.sub_0_r, skipn_all, firstn_all, app_nil_r. simpl. eexists. split; [reflexivity|]. reflexivity. }
    unfold one_c. change (@n1 R (NumF rnd)) with 1. change (indim (Arr (tscalar 1))) with 0%nat. cbn [Nat.eqb].
    destruct c as [t|l h]; cbn [ibilinear endpoints list_prod mapM map app fst snd].
    - destruct (P t) as (t' & E & _). rewrite E. cbn [bind]. eauto.
    - destruct Wc as [Wl Wh]. destruct (P l) as (l' & El & Sl), (P h) as (h' & Eh & Sh). rewrite El, Eh. cbn [bind reduceM foldM].
      destruct (tmap2_total_same (@nmin R _) l' h' (tshape v)) as (m & Em & _); [congruence|congruence|]. unfold tmin. rewrite Em. cbn [bind].
      destruct (tmap2_total_same (@nmax R _) l' h' (tshape v)) as (m' & Em' & _); [congruence|congruence|]. unfold tmax. rewrite Em'. cbn [bind]. eauto. }
  destruct HI as [t Ht].
  assert (HT : wfs (tshape v) t /\ forall I, valid (tshape v) I -> inat t I (tdata v I)).
  { unfold inner_product, itensordot in Ht. change (indim one_c) with 0%nat in Ht. cbn [Nat.eqb] in Ht. destruct (Fibil_prod _ _ _ _ _ _ _ one_c _ (Ftensordot0 (tshape v)) Wc eq_refl Ht) as [W I]. split; auto.
    intros s Hs. specialize (I s _ 1 Hs (Ic s Hs) eq_refl). rewrite Rmult_1_r, (Fv s Hs) in I. auto. }
  destruct HT as [Wt It].
  assert (HS : exists w, iadd zero_c t = Ok w).
  { destruct t as [t|l h]; simpl; unfold tadd, tmap2; simpl; rewrite !bshape_nil_l; simpl; eauto. }
  destruct HS as [w Hw]. destruct (Fzero_add _ _ _ Wt Hw) as [Ww Iw].
  assert (HC : tb_call b x = Ok w).
  { unfold tb_call. rewrite Ez. cbn [bind]. rewrite Ec. unfold eval_taylor_enclosure, eval_polynomial. cbn [eval_poly_loop Nat.ltb Nat.leb bind].
    change (Arr (tscalar (@n1 R (NumF rnd)))) with (@one_c R (NumF rnd)). change (Arr (tscalar (@n0 R (NumF rnd)))) with (@zero_c R (NumF rnd)). rewrite Ht. cbn [bind]. rewrite Hw. reflexivity. }
  exists (lo w), (hi w). unfold tb_lower, tb_upper. rewrite HC. cbn [bind]. split; [destruct w; auto|]. split; [destruct w; auto|].
  split; [apply wfs_lo; auto|]. split; [apply wfs_hi; auto|]. intros s Hs. apply inat_iff. apply Iw; auto.
Qed.
End Float.
