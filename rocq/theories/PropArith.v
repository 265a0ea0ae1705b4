(** Properties C01-C12: interval arithmetic and polynomials. *)
From Coq Require Import Reals Lra Psatz FunctionalExtensionality.
From Verif Require Import Base Tensor IntervalArith Polynomials TensorLemmas Spec IntervalProofs PowerProofs PolyProofs Graded.
Open Scope R_scope.

(** ** Helpers *)
Lemma inside_lo a : ordered a -> inside (lo a) a.
Proof. intros [W H]. split; auto. intros I HI. apply inat_iff. specialize (H I HI). lra. Qed.

Lemma inside_hi a : ordered a -> inside (hi a) a.
Proof.
  intros [W H]. rewrite <- (wfs_hi _ _ W) in H. split; [rewrite (wfs_hi _ _ W); auto|]. intros I HI. apply inat_iff. specialize (H I HI). lra.
Qed.

Definition upd (t : tensor R) (K : list nat) (u : R) : tensor R :=
  mkT (tshape t) (fun J => if list_eq_dec Nat.eq_dec J K then u else tdata t J).

Lemma inside_upd a K u : ordered a -> inat a K u -> inside (upd (lo a) K u) a /\ tdata (upd (lo a) K u) K = u.
Proof.
  intros Ho Hu. split.
  - split; [apply Ho|]. intros J HJ. simpl in *. destruct list_eq_dec as [->|]; auto. apply inside_lo; auto.
  - simpl. destruct list_eq_dec; congruence.
Qed.

Lemma tmap2_total {T U V} (f : T -> U -> V) a b sa sb sc : tshape a = sa -> tshape b = sb -> bshape sa sb = Some sc ->
  exists c, tmap2 f a b = Ok c.
Proof. intros <- <- H. unfold tmap2. rewrite H. eauto. Qed.

Lemma tmap2_shape_ok {T U V T' U' V'} (f : T -> U -> V) (g : T' -> U' -> V') a b a' b' c :
  tmap2 f a b = Ok c -> tshape a' = tshape a -> tshape b' = tshape b -> exists c', tmap2 g a' b' = Ok c'.
Proof. intros H E1 E2. apply tmap2_ok in H. destruct H as [H _]. eapply tmap2_total; eauto; congruence. Qed.

(** ** C01 *)
Lemma add_exact a b c : ordered a -> ordered b -> iadd a b = Ok c -> exact_for tadd a b c.
Proof.
  intros Ha Hb H. pose proof (iadd_lohi _ _ _ H) as (HL & HH & _). split.
  - intros A B [WA IA] [WB IB].
    destruct (iadd_spec _ _ _ _ _ WA WB H) as (sc & Hsc & Wc & _ & _).
    destruct (tmap2_total (nadd (T:=R)) A B _ _ _ eq_refl eq_refl Hsc) as [C HC]. exists C. split; auto.
    apply tmap2_ok in HC. destruct HC as [E D]. rewrite Hsc in E. injection E as E. split; [rewrite <- E; auto|].
    intros I HI. rewrite D. apply (iadd_in _ _ _ _ _ _ _ _ WA WB H); [apply IA|apply IB];
      pose proof (bshape_spec _ _ _ Hsc) as [C1 C2]; eapply bidx_compat_valid; eauto; congruence.
  - intros I HI. split.
    + exists (lo a), (lo b), (lo c). auto using inside_lo.
    + exists (hi a), (hi b), (hi c). auto using inside_hi.
Qed.

Lemma sub_exact a b c : ordered a -> ordered b -> isub a b = Ok c -> exact_for tsub a b c.
Proof.
  intros Ha Hb H. pose proof (isub_lohi _ _ _ H) as (HL & HH & _). split.
  - intros A B [WA IA] [WB IB].
    destruct (isub_spec _ _ _ _ _ WA WB H) as (sc & Hsc & Wc & _ & _).
    destruct (tmap2_total (nsub (T:=R)) A B _ _ _ eq_refl eq_refl Hsc) as [C HC]. exists C. split; auto.
    apply tmap2_ok in HC. destruct HC as [E D]. rewrite Hsc in E. injection E as E. split; [rewrite <- E; auto|].
    intros I HI. rewrite D. apply (isub_in _ _ _ _ _ _ _ _ WA WB H); [apply IA|apply IB];
      pose proof (bshape_spec _ _ _ Hsc) as [C1 C2]; eapply bidx_compat_valid; eauto; congruence.
  - intros I HI. split.
    + exists (lo a), (hi b), (lo c). auto using inside_lo, inside_hi.
    + exists (hi a), (lo b), (hi c). auto using inside_lo, inside_hi.
Qed.

Lemma neg_exact a : ordered a -> exact_for1 tneg a (ineg a).
Proof.
  intros Ha. destruct (ineg_lohi a) as [EL EH]. split.
  - intros A [WA IA]. split; [apply ineg_wfs; auto|]. intros I HI. apply ineg_in. apply IA. exact HI.
  - intros I HI. rewrite EL, EH. split; [exists (hi a)|exists (lo a)]; auto using inside_lo, inside_hi.
Qed.

Lemma add_defined a b : ordered a -> ordered b ->
  (exists c, iadd a b = Ok c) <-> (exists sh, bshape (tshape (lo a)) (tshape (lo b)) = Some sh).
Proof.
  intros [Wa _] [Wb _]. split.
  - intros [c H]. destruct (iadd_spec _ _ _ _ _ Wa Wb H) as (sc & Hsc & _). eauto.
  - intros [sh Hsh]. pose proof (wfs_hi _ _ Wa) as Ha. pose proof (wfs_hi _ _ Wb) as Hb.
    assert (T : forall x y : tensor R, tshape x = tshape (lo a) -> tshape y = tshape (lo b) -> exists c, tadd x y = Ok c).
    { intros x y Hx Hy. eapply tmap2_total; eauto. }
    destruct a as [x|x0 x1], b as [y|y0 y1]; simpl in *;
      repeat match goal with |- context [tadd ?x ?y] =>
        let c := fresh "c" in let Hc := fresh "Hc" in destruct (T x y) as [c Hc]; [congruence|congruence|]; rewrite Hc; clear Hc; simpl end; eauto.
Qed.

Lemma sub_defined a b : ordered a -> ordered b ->
  (exists c, isub a b = Ok c) <-> (exists sh, bshape (tshape (lo a)) (tshape (lo b)) = Some sh).
Proof.
  intros [Wa _] [Wb _]. split.
  - intros [c H]. destruct (isub_spec _ _ _ _ _ Wa Wb H) as (sc & Hsc & _). eauto.
  - intros [sh Hsh]. pose proof (wfs_hi _ _ Wa) as Ha. pose proof (wfs_hi _ _ Wb) as Hb.
    assert (T : forall x y : tensor R, tshape x = tshape (lo a) -> tshape y = tshape (lo b) -> exists c, tsub x y = Ok c).
    { intros x y Hx Hy. eapply tmap2_total; eauto. }
    destruct a as [x|x0 x1], b as [y|y0 y1]; simpl in *;
      repeat match goal with |- context [tsub ?x ?y] =>
        let c := fresh "c" in let Hc := fresh "Hc" in destruct (T x y) as [c Hc]; [congruence|congruence|]; rewrite Hc; clear Hc; simpl end; eauto.
Qed.

(** C01: add, subtract and negative return the exact elementwise range; they
    succeed exactly on broadcastable shapes; arrays in give arrays out. *)
Theorem C01_add_subtract_negative_exact : forall a b,
  ordered a -> ordered b ->
  (forall c, iadd a b = Ok c -> exact_for tadd a b c) /\
  (forall c, isub a b = Ok c -> exact_for tsub a b c) /\
  exact_for1 tneg a (ineg a) /\
  ((exists c, iadd a b = Ok c) <-> exists sh, bshape (tshape (lo a)) (tshape (lo b)) = Some sh) /\
  ((exists c, isub a b = Ok c) <-> exists sh, bshape (tshape (lo a)) (tshape (lo b)) = Some sh).
Proof.
  intros a b Ha Hb.
  exact (conj (fun c => add_exact a b c Ha Hb) (conj (fun c => sub_exact a b c Ha Hb)
         (conj (neg_exact a Ha) (conj (add_defined a b Ha Hb) (sub_defined a b Ha Hb))))).
Qed.

Theorem C01_plain_arrays : forall x y c,
  (iadd (Arr x) (Arr y) = Ok c <-> exists t, tadd x y = Ok t /\ c = Arr t) /\
  (isub (Arr x) (Arr y) = Ok c <-> exists t, tsub x y = Ok t /\ c = Arr t) /\
  ineg (Arr x) = Arr (tneg x).
Proof.
  intros x y c. simpl. repeat split.
  - intros H. apply bind_ok in H. destruct H as (t & Ht & H). injection H as <-. eauto.
  - intros (t & -> & ->). reflexivity.
  - intros H. apply bind_ok in H. destruct H as (t & Ht & H). injection H as <-. eauto.
  - intros (t & -> & ->). reflexivity.
Qed.

(** Mixed kinds with broadcasting: an interval of shape [2;1] and an array of shape [3]. *)
Definition ex_ivl : coef R := Ivl (mkT [2;1]%nat (fun _ => -1)) (mkT [2;1]%nat (fun I => INR (nth 0 I 0%nat))).
Definition ex_arr : coef R := Arr (mkT [3]%nat (fun I => INR (nth 0 I 0%nat) - 1)).
Lemma ex_ivl_ordered : ordered ex_ivl.
Proof. split; [split; reflexivity|]. simpl. intros I _. pose proof (pos_INR (nth 0 I 0%nat)). lra. Qed.
Lemma ex_arr_ordered : ordered ex_arr.
Proof. split; [reflexivity|]. simpl. intros; lra. Qed.
Example C01_nonvacuous : exists c, iadd ex_ivl ex_arr = Ok c /\ ishape c = [2;3]%nat.
Proof. eexists. split; reflexivity. Qed.

(** ** C02 *)
Lemma mul_exact a b c : ordered a -> ordered b -> imul a b = Ok c -> exact_for tmul a b c.
Proof.
  intros Ha Hb H. destruct Ha as [Wa Oa] eqn:Ea. destruct Hb as [Wb Ob] eqn:Eb.
  destruct (imul_bshape _ _ _ _ _ Wa Wb H) as [sc Hsc].
  destruct (ibil_prod_gen _ _ _ _ _ _ _ _ _ (tmul_prodop _ _ _ Hsc) Wa Wb H) as [Wc D].
  pose proof (bshape_spec _ _ _ Hsc) as [C1 C2]. split.
  - intros A B [WA IA] [WB IB].
    assert (EA : tshape A = tshape (lo a)) by (rewrite <- (wfs_lo _ _ WA); auto).
    assert (EB : tshape B = tshape (lo b)) by (rewrite <- (wfs_lo _ _ WB); auto).
    destruct (tmap2_total (nmul (T:=R)) A B _ _ _ EA EB Hsc) as [C HC]. exists C. split; auto.
    apply tmap2_ok in HC. destruct HC as [E DC]. rewrite EA, EB, Hsc in E. injection E as E. split; [rewrite <- E; auto|].
    intros I HI. rewrite <- E in HI. rewrite DC. unfold bget. rewrite EA, EB. apply (proj1 (D I HI)); [apply IA|apply IB];
      rewrite ?EA, ?EB; eapply bidx_compat_valid; eauto.
  - intros I HI. rewrite (wfs_lo _ _ Wc) in HI.
    assert (Va : valid (tshape (lo a)) (bidx (tshape (lo a)) I)) by (eapply bidx_compat_valid; eauto).
    assert (Vb : valid (tshape (lo b)) (bidx (tshape (lo b)) I)) by (eapply bidx_compat_valid; eauto).
    destruct (proj2 (D I HI) (Oa _ Va) (Ob _ Vb)) as [(u & v & Hu & Hv & E1) (u' & v' & Hu' & Hv' & E2)].
    assert (Q : forall u v, inat a (bidx (tshape (lo a)) I) u -> inat b (bidx (tshape (lo b)) I) v ->
       exists A B C, inside A a /\ inside B b /\ tmul A B = Ok C /\ tdata C I = u * v).
    { intros p q Hp Hq. destruct (inside_upd a _ p Ha Hp) as [I1 V1]. destruct (inside_upd b _ q Hb Hq) as [I2 V2].
      destruct (tmap2_total (nmul (T:=R)) (upd (lo a) (bidx (tshape (lo a)) I) p) (upd (lo b) (bidx (tshape (lo b)) I) q) _ _ sc eq_refl eq_refl Hsc) as [C HC].
      do 3 eexists. split; [exact I1|]. split; [exact I2|]. split; [exact HC|].
      apply tmap2_ok in HC. destruct HC as [_ DC]. rewrite DC. unfold bget.
      change (tshape (upd (lo a) (bidx (tshape (lo a)) I) p)) with (tshape (lo a)).
      change (tshape (upd (lo b) (bidx (tshape (lo b)) I) q)) with (tshape (lo b)). rewrite V1, V2. reflexivity. }
    split; [rewrite E1|rewrite E2]; auto.
Qed.

(** C02: multiply returns the exact elementwise range of the product. *)
Theorem C02_multiply_exact : forall a b c,
  ordered a -> ordered b -> imul a b = Ok c -> exact_for tmul a b c.
Proof. exact mul_exact. Qed.

Example C02_nonvacuous : exists c, imul ex_ivl ex_arr = Ok c /\ ishape c = [2;3]%nat.
Proof. eexists. split; reflexivity. Qed.

(** ** C03 *)
(** C03: the general bilinear rule contains every result, for every operation
    whose entries are sums of products with non-negative weights. *)
Theorem C03_bilinear_contains : forall f sa sb sc terms a b c A B C,
  posop f sa sb sc terms ->
  tshape A = sa -> tshape B = sb -> inside A a -> inside B b ->
  ibilinear a b f false = Ok c -> f A B = Ok C -> inside C c.
Proof.
  intros f sa sb sc T a b c A B C HP EA EB [WA IA] [WB IB] H HC. subst sa sb.
  destruct (ibil_pos _ _ _ _ _ _ _ _ HP WA WB H) as [Wc D].
  destruct HP as [PV PI]. destruct (PV _ _ _ eq_refl eq_refl HC) as [EC DC]. split; [rewrite EC; auto|].
  intros I HI. rewrite EC in HI. rewrite DC by auto. apply D; auto.
Qed.

Lemma itensordot_ok_shapes k a b c sa sb : wfs sa a -> wfs sb b -> itensordot a b k = Ok c ->
  exists s1 sk s2, sa = s1 ++ sk /\ sb = sk ++ s2 /\ length sk = k.
Proof.
  intros Wa Wb H. destruct (ibil_some_ok _ _ _ _ _ _ _ Wa Wb H) as (x & y & z & <- & <- & Hz).
  eapply tensordot_shapes; eauto.
Qed.

(** tensordot over any number of axes inherits it. *)
Theorem C03_tensordot_contains : forall k a b c A B,
  inside A a -> inside B b -> itensordot a b k = Ok c ->
  exists C, ttensordot k A B = Ok C /\ inside C c.
Proof.
  intros k a b c A B [WA IA] [WB IB] H.
  destruct (itensordot_ok_shapes _ _ _ _ _ _ WA WB H) as (s1 & sk & s2 & EA & EB & Hk).
  rewrite EA in WA, IA. rewrite EB in WB, IB.
  destruct (itensordot_spec k s1 sk s2 a b c Hk WA WB H) as [Wc D].
  assert (En : (length (s1 ++ sk) - k)%nat = length s1) by (rewrite app_length; lia).
  unfold ttensordot, tndim. rewrite EA, EB, En, !firstn_exact, !skipn_exact by auto.
  replace ((k <=? length (s1 ++ sk)) && (k <=? length (sk ++ s2)) && shape_eqb sk sk) with true.
  2:{ symmetry. rewrite !andb_true_iff, !Nat.leb_le, !app_length, shape_eqb_eq. repeat split; auto; lia. }
  eexists. split; [reflexivity|]. split; simpl; auto. intros I HI.
  apply valid_app_inv in HI. destruct HI as (I1 & I2 & -> & H1 & H2).
  rewrite firstn_exact, skipn_exact by (symmetry; apply valid_length; auto).
  apply (D (tdata A) (tdata B)); auto.
Qed.

(** matmul of 2x3 by 3x2 interval matrices is an instance. *)
Example C03_nonvacuous :
  let a := Ivl (mkT [2;3]%nat (fun _ => -1)) (mkT [2;3]%nat (fun _ => 2)) in
  let b := Ivl (mkT [3;2]%nat (fun _ => -3)) (mkT [3;2]%nat (fun _ => 1)) in
  inside (mkT [2;3]%nat (fun _ => 1)) a /\ inside (mkT [3;2]%nat (fun _ => 0)) b /\
  exists c, itensordot a b 1 = Ok c /\ ishape c = [2;2]%nat.
Proof.
  split; [|split].
  - split; [split; reflexivity|]. simpl. intros. lra.
  - split; [split; reflexivity|]. simpl. intros. lra.
  - eexists. split; reflexivity.
Qed.

(** ** C04 *)
(** The bilinear operation [(a, b) -> -(a*b)]. *)
Definition neg_mul (x y : tensor R) : res (tensor R) := t <- tmul x y ;; Ok (tneg t).

Definition tscale (k : R) (t : tensor R) : tensor R := tmap (Rmult k) t.

(** Entrywise equality of successful results. *)
Definition same_res (r1 r2 : res (tensor R)) : Prop :=
  match r1, r2 with
  | Ok t1, Ok t2 => tshape t1 = tshape t2 /\ forall I, valid (tshape t1) I -> tdata t1 I = tdata t2 I
  | Err _, Err _ => True
  | _, _ => False
  end.

(** [f] is bilinear on arrays of equal shapes. *)
Definition bilinear_op (f : tensor R -> tensor R -> res (tensor R)) : Prop :=
  (forall x x' y, tshape x = tshape x' -> same_res (s <- tadd x x' ;; f s y) (p <- f x y ;; q <- f x' y ;; tadd p q)) /\
  (forall x y y', tshape y = tshape y' -> same_res (s <- tadd y y' ;; f x s) (p <- f x y ;; q <- f x y' ;; tadd p q)) /\
  (forall k x y, same_res (f (tscale k x) y) (t <- f x y ;; Ok (tscale k t))) /\
  (forall k x y, same_res (f x (tscale k y)) (t <- f x y ;; Ok (tscale k t))).

Lemma tadd_same_eq (x y : tensor R) : tshape x = tshape y ->
  exists c, tadd x y = Ok c /\ tshape c = tshape x /\ forall I, valid (tshape x) I -> tdata c I = tdata x I + tdata y I.
Proof. intros E. destruct (tmap2_same (nadd (T:=R)) x y (tshape x) eq_refl (eq_sym E)) as (c & H1 & H2 & H3). eauto. Qed.

Lemma neg_mul_bilinear : bilinear_op neg_mul.
Proof.
  unfold bilinear_op, neg_mul, tmul, tmap2. repeat split.
  - intros x x' y E. destruct (tadd_same_eq x x' E) as (c & Hc & Sc & Dc). rewrite Hc. simpl. rewrite Sc, <- E.
    destruct (bshape (tshape x) (tshape y)) as [sh|] eqn:Eb; simpl; auto.
    unfold tadd, tmap2. simpl. rewrite bshape_refl. simpl. split; auto. intros I HI. unfold bget. simpl. rewrite Sc, <- E.
    rewrite !(bidx_valid sh I) by auto. rewrite Dc; [ring|]. apply bshape_spec in Eb. destruct Eb. eapply bidx_compat_valid; eauto.
  - intros x y y' E. destruct (tadd_same_eq y y' E) as (c & Hc & Sc & Dc). rewrite Hc. simpl. rewrite Sc, <- E.
    destruct (bshape (tshape x) (tshape y)) as [sh|] eqn:Eb; simpl; auto.
    unfold tadd, tmap2. simpl. rewrite bshape_refl. simpl. split; auto. intros I HI. unfold bget. simpl. rewrite Sc, <- E.
    rewrite !(bidx_valid sh I) by auto. rewrite Dc; [ring|]. apply bshape_spec in Eb. destruct Eb. eapply bidx_compat_valid; eauto.
  - intros k x y. simpl. destruct (bshape (tshape x) (tshape y)) as [sh|] eqn:Eb; simpl; auto. split; auto. intros I HI. unfold bget. simpl. ring.
  - intros k x y. simpl. destruct (bshape (tshape x) (tshape y)) as [sh|] eqn:Eb; simpl; auto. split; auto. intros I HI. unfold bget. simpl. ring.
Qed.

(** C04: the documented claim "applies an arbitrary bilinear operation to two
    intervals" is false: for the bilinear operation [-(a*b)] a result is missed. *)
Theorem C04_arbitrary_bilinear_refuted :
  exists f a b c A B C, bilinear_op f /\ ordered a /\ ordered b /\
    ibilinear a b f false = Ok c /\ inside A a /\ inside B b /\ f A B = Ok C /\ ~ inside C c.
Proof.
  exists neg_mul, (Ivl (tscalar 1) (tscalar 2)), (Ivl (tscalar 1) (tscalar 2)).
  do 4 eexists. split; [exact neg_mul_bilinear|].
  assert (HO : ordered (Ivl (tscalar 1) (tscalar 2))) by (split; [split; reflexivity|]; simpl; intros; lra).
  split; [exact HO|]. split; [exact HO|]. split; [reflexivity|].
  split; [apply (inside_lo _ HO)|]. split; [apply (inside_lo _ HO)|]. split; [reflexivity|].
  intros [_ H]. specialize (H [] (Forall2_nil _)). simpl in H. unfold bget in H. simpl in H.
  unfold Rmax, Rmin in H. repeat destruct Rle_dec; lra.
Qed.

(** ** C05 *)
Definition tpow_n (n : nat) (t : tensor R) : tensor R := tmap (fun x => x ^ n) t.

Lemma power_exact a n c : ordered a -> (1 <= n)%nat -> ipower a (Z.of_nat n) = Ok c -> exact_for1 (tpow_n n) a c.
Proof.
  intros Ha Hn H. destruct Ha as [Wa Oa] eqn:Ea. destruct (ipower_lohi _ _ (Z.of_nat n) _ Wa ltac:(lia) H) as (Wc & Hk & D).
  rewrite Nat2Z.id in D. split.
  - intros A [WA IA]. split; [simpl; rewrite <- (wfs_lo _ _ WA) in *; auto|]. intros I HI. simpl in *.
    rewrite <- (Nat2Z.id n). eapply ipower_in; eauto. lia.
  - intros I HI. rewrite (wfs_lo _ _ Wc) in HI. destruct (D I HI) as [D1 D2].
    destruct a as [t|l h].
    + specialize (D1 eq_refl). assert (Ec : exists t', c = Arr t') by (apply Hk; eauto). destruct Ec as [t' ->].
      simpl in *. split; exists t; (split; [apply (inside_lo _ Ha)|auto]).
    + specialize (D2 eq_refl). destruct D2 as [E1 E2]. simpl in E1, E2.
      destruct (pow_range_att n (tdata l I) (tdata h I) Hn (Oa I HI)) as [(u & Hu & Eu) (v & Hv & Ev)].
      split; [destruct (inside_upd _ I u Ha Hu) as [I1 V1] | destruct (inside_upd _ I v Ha Hv) as [I1 V1]].
      * exists (upd l I u). split; [exact I1|]. change (tdata (tpow_n n (upd l I u)) I) with (tdata (upd l I u) I ^ n).
        change (lo (Ivl l h)) with l in V1. rewrite V1, E1. auto.
      * exists (upd l I v). split; [exact I1|]. change (tdata (tpow_n n (upd l I v)) I) with (tdata (upd l I v) I ^ n).
        change (lo (Ivl l h)) with l in V1. rewrite V1, E2. auto.
Qed.

(** C05: power is the exact range; the zeroth power is ones; negative powers of
    an interval raise NotImplementedError. *)
Theorem C05_power_exact : forall a,
  ordered a ->
  (forall n c, (1 <= n)%nat -> ipower a (Z.of_nat n) = Ok c -> exact_for1 (tpow_n n) a c) /\
  (forall n, (1 <= n)%nat -> exists c, ipower a (Z.of_nat n) = Ok c) /\
  (exists t, ipower a 0 = Ok (Arr t) /\ tshape t = tshape (lo a) /\ forall I, tdata t I = 1) /\
  (forall l h k, a = Ivl l h -> (k < 0)%Z -> ipower a k = Err NotImplementedError).
Proof.
  intros a Ha. split; [|split; [|split]].
  - intros. eapply power_exact; eauto.
  - intros n Hn. destruct Ha as [Wa _]. destruct a as [t|l h]; unfold ipower;
      (destruct (Z.ltb_spec (Z.of_nat n) 0); [lia|]); eauto.
    destruct (Z.eqb_spec (Z.of_nat n) 0); [lia|]. destruct Wa as [El Eh]. simpl in *.
    unfold tmap2, tmin, tmax, tmap2; simpl. rewrite Eh, !bshape_refl. simpl. rewrite ?bshape_refl. simpl.
    unfold tmin, tmap2. simpl. rewrite ?Eh, ?bshape_refl. simpl. rewrite ?bshape_refl. simpl.
    unfold tmax, tmap2. simpl. rewrite ?Eh, ?bshape_refl. simpl. eauto.
  - destruct a; simpl; eauto.
  - intros l h k -> Hk. unfold ipower. destruct (Z.ltb_spec k 0); [auto|lia].
Qed.

Example C05_nonvacuous : exists c, ordered ex_ivl /\ ipower ex_ivl 2 = Ok c /\ tdata (lo c) [1;0]%nat = 0.
Proof.
  eexists. split; [apply ex_ivl_ordered|]. split; [reflexivity|]. simpl. unfold bget; simpl.
  unfold Rmin, Rmax. repeat (destruct Rle_dec || destruct Rlt_dec); simpl in *; lra.
Qed.

(** ** C06 *)
(** C06: outer powers contain the repeated outer product of every member. *)
Theorem C06_outer_power_contains : forall bs ra a n c A,
  tshape A = bs ++ ra -> inside A a -> (1 <= n)%nat ->
  iouter_power a (Z.of_nat n) (length bs) = Ok c ->
  wfs (bs ++ rep n ra) c /\
  forall I K, valid bs I -> valid (rep n ra) K ->
    inat c (I ++ K) (zpow (length ra) (fun J => tdata A (I ++ J)) n K).
Proof.
  intros bs ra a n c A EA [WA IA] Hn H. rewrite EA in *.
  destruct (iouter_power_spec bs ra a n c WA H Hn) as [Wc D]. split; auto.
  intros I K HI HK. apply D; auto. intros J HJ. apply IA. apply valid_app; auto.
Qed.

Theorem C06_zeroth_power : forall a bd, iouter_power a 0 bd = Ok (Arr (tscalar (1 : R))).
Proof. reflexivity. Qed.

Theorem C06_negative_power : forall (a : coef R) n bd, (n < 0)%Z -> iouter_power a n bd = Err ValueError.
Proof. intros a n bd H. unfold iouter_power. destruct (Z.ltb_spec n 0); [auto|lia]. Qed.

Lemma outer_square_diag m l h c : tshape l = [m] -> tshape h = [m] -> iouter_power (Ivl l h) 2 0 = Ok c ->
  wfs [m; m] c /\ forall i, (i < m)%nat -> tdata (lo c) [i; i] = pow_lo 2 (tdata l [i]) (tdata h [i]) /\
     tdata (hi c) [i; i] = pow_hi 2 (tdata l [i]) (tdata h [i]).
Proof.
  intros El Eh H. split.
  { assert (W : wfs ([] ++ [m]) (Ivl l h)) by (split; auto). apply (iouter_power_spec [] [m] _ 2 _ W H). lia. }
  intros i Hi. unfold iouter_power in H. simpl Z.ltb in H. simpl Z.eqb in H. cbv iota in H.
  unfold indim, tndim in H. rewrite El in H. change (length [m] =? 0)%nat with false in H. cbv iota in H.
  change (Z.to_nat (2 - 1)) with 1%nat in H. apply bind_ok in H. destruct H as (run & Hrun & H).
  change (negb (0 =? 0)%nat) with false in H. cbv iota zeta in H.
  unfold generalized_diag_ndarray in H. simpl Z.eqb in H. cbv iota in H. unfold tndim in H. simpl tshape in H.
  rewrite El in H. simpl Nat.eqb in H. cbv iota in H.
  apply bind_ok in H. destruct H as (de & Hde & H). apply bind_ok in H. destruct H as (dg & Hdg & H).
  apply bind_ok in H. destruct H as (off & Hoff & H).
  assert (W : wfs [m] (Ivl l h)) by (split; auto).
  destruct (ipower_lohi _ _ 2%Z _ W ltac:(lia) Hde) as (Wde & _ & D). 
  destruct (D [i] ltac:(repeat constructor; auto)) as [_ D2]. destruct (D2 eq_refl) as [L1 L2]. simpl in L1, L2.
  destruct (gdiag_interval_lohi _ _ _ Hdg) as [G1 G2].
  assert (Gd : forall t, tshape t = [m] -> generalized_diag_ndarray t 2 = Ok (tdiag t)).
  { intros t Et. unfold generalized_diag_ndarray, tndim. rewrite Et. reflexivity. }
  rewrite Gd in G1 by apply (wfs_lo _ _ Wde). rewrite Gd in G2 by apply (wfs_hi _ _ Wde). injection G1 as G1. injection G2 as G2.
  assert (Td : forall t, tshape t = [m] -> tshape (tdiag t) = [m;m]%nat /\ tdata (tdiag t) [i;i] = tdata t [i]).
  { intros t Et. unfold tdiag. rewrite Et. simpl. rewrite Nat.eqb_refl. auto. }
  destruct (Td _ (wfs_lo _ _ Wde)) as [T1 T2]. destruct (Td _ (wfs_hi _ _ Wde)) as [T3 T4].
  assert (Wdg : wfs [m;m] dg) by (apply wfs_iff; rewrite <- G1, <- G2; auto).
  assert (Wrun : wfs [m;m] run).
  { assert (W' : wfs ([] ++ rep 1 [m]) (Ivl l h)) by (split; auto). assert (W2 : wfs ([] ++ [m]) (Ivl l h)) by (split; auto).
    apply (running_outer_spec [] [m] _ 1 _ 1 _ W2 W' ltac:(auto) Hrun). }
  match type of Hoff with imul _ (Arr ?e) = _ => set (eye := e) in * end.
  assert (Weye : wfs [m;m] (Arr eye)).
  { unfold eye. simpl. destruct (Td (tones_like l) El) as [T _]. auto. }
  assert (Eeye : tdata eye [i;i] = 0).
  { unfold eye. simpl. destruct (Td (tones_like l) El) as [_ ->]. simpl. ring. }
  destruct (imul_bshape _ _ _ _ _ Wrun Weye Hoff) as [sc Hsc]. rewrite bshape_refl in Hsc. injection Hsc as <-.
  destruct (ibil_prod_gen _ _ _ _ _ _ _ _ _ (tmul_prodop _ _ _ (bshape_refl [m;m])) Wrun Weye Hoff) as [Woff Doff].
  assert (V : valid [m;m] [i;i]) by (repeat constructor; auto).
  assert (Zoff : tdata (lo off) [i;i] = 0 /\ tdata (hi off) [i;i] = 0).
  { destruct run as [rt|r0 r1].
    - destruct (Doff _ V) as [Da _]. rewrite (bidx_valid _ _ V) in Da.
      apply (ibil_arr _ true) in Hoff. destruct Hoff as (zt & -> & Hz).
      specialize (Da (tdata rt [i;i]) 0 eq_refl (eq_sym Eeye)). simpl in Da. rewrite Rmult_0_r in Da. simpl. split; symmetry; exact Da.
    - unfold imul in Hoff. simpl in Hoff. apply bind_ok in Hoff. destruct Hoff as (prods & Hp & Hoff).
      apply bind_ok in Hoff. destruct Hoff as (ll & Hl & Hoff). apply bind_ok in Hoff. destruct Hoff as (hh & Hh & Hoff). injection Hoff as <-.
      apply bind_ok in Hp. destruct Hp as (p1 & Hp1 & Hp). apply bind_ok in Hp. destruct Hp as (ps & Hps & Hp). injection Hp as <-.
      apply bind_ok in Hps. destruct Hps as (p2 & Hp2 & Hps). injection Hps as <-.
      destruct Wrun as [R1 R2]. simpl in Weye.
      destruct (tmap2_same_ok _ _ _ _ [m;m] Hp1 R1 Weye) as [S1 D1']. destruct (tmap2_same_ok _ _ _ _ [m;m] Hp2 R2 Weye) as [S2 D2'].
      assert (FA : Forall (fun x => tshape x = [m;m]) [p1;p2]) by (repeat constructor; auto).
      destruct (reduce_tmin _ _ _ FA Hl) as [_ Ml]. destruct (reduce_tmax _ _ _ FA Hh) as [_ Mh].
      destruct (Ml _ V) as [_ (x & Hx & Ex)]. destruct (Mh _ V) as [_ (y & Hy & Ey)]. simpl. rewrite Ex, Ey.
      assert (Z1 : tdata p1 [i;i] = 0) by (rewrite D1' by auto; rewrite Eeye; simpl; ring).
      assert (Z2 : tdata p2 [i;i] = 0) by (rewrite D2' by auto; rewrite Eeye; simpl; ring).
      split; [destruct Hx as [<-|[<-|[]]]|destruct Hy as [<-|[<-|[]]]]; auto. }
  destruct (iadd_spec _ _ _ _ _ Woff Wdg H) as (sc & Hsc & Wc & A1 & A2).
  rewrite A1, A2, !(bidx_valid _ _ V). destruct Zoff as [-> ->]. rewrite <- G1, <- G2, T2, T4, L1, L2. split; apply Rplus_0_l.
Qed.

(** For vectors and n = 2 the diagonal is the exact range of the square. *)
Theorem C06_square_diagonal_exact : forall m l h c i,
  tshape l = [m] -> tshape h = [m] -> (i < m)%nat -> tdata l [i] <= tdata h [i] ->
  iouter_power (Ivl l h) 2 0 = Ok c ->
  0 <= tdata (lo c) [i; i] /\
  (forall u, tdata l [i] <= u <= tdata h [i] -> tdata (lo c) [i; i] <= u ^ 2 <= tdata (hi c) [i; i]) /\
  (exists u, tdata l [i] <= u <= tdata h [i] /\ tdata (lo c) [i; i] = u ^ 2) /\
  (exists u, tdata l [i] <= u <= tdata h [i] /\ tdata (hi c) [i; i] = u ^ 2).
Proof.
  intros m l h c i El Eh Hi Hle H. destruct (outer_square_diag m l h c El Eh H) as [_ D]. destruct (D i Hi) as [-> ->].
  destruct (pow_range_att 2 _ _ ltac:(lia) Hle) as [(u & Hu & Eu) Hv]. split; [|split; [|split]]; auto.
  - rewrite Eu. nra.
  - intros w Hw. apply pow_range_in; auto.
  - eauto.
Qed.

Example C06_nonvacuous : exists c,
  iouter_power (Ivl (mkT [2]%nat (fun _ => -1)) (mkT [2]%nat (fun _ => 2))) 2 0 = Ok c /\ ishape c = [2;2]%nat.
Proof. eexists. split; reflexivity. Qed.

(** ** C07 *)
(** C07: batched outer product of arrays: index law, shape, and rejection. *)
Theorem C07_outer_product_index_law : forall bs ra rb x y c,
  tshape x = bs ++ ra -> tshape y = bs ++ rb ->
  iouter_product (Arr x) (Arr y) (length bs) = Ok c ->
  exists t, c = Arr t /\ tshape t = bs ++ ra ++ rb /\
  forall I J K, valid bs I -> valid ra J -> valid rb K ->
    tdata t (I ++ J ++ K) = tdata x (I ++ J) * tdata y (I ++ K).
Proof.
  intros bs ra rb x y c Hx Hy H.
  assert (Ht : exists t, c = Arr t).
  { unfold iouter_product in H. dif H E; [discriminate|]. apply ibil_arr in H. destruct H as (t & -> & _). eauto. }
  destruct Ht as [t ->]. exists t. split; auto.
  destruct (iouter_product_spec bs ra rb (Arr x) (Arr y) _ Hx Hy H) as [W D]. split; [exact W|].
  intros I J K HI HJ HK. symmetry. apply (D I J K _ _ HI HJ HK eq_refl eq_refl).
Qed.

Theorem C07_outer_product_defined : forall bs ra rb (x y : tensor R),
  tshape x = bs ++ ra -> tshape y = bs ++ rb ->
  exists c, iouter_product (Arr x) (Arr y) (length bs) = Ok c.
Proof.
  intros bs ra rb x y Hx Hy. unfold iouter_product. simpl. unfold tndim. rewrite Hx, Hy, !app_length.
  replace ((length bs + length ra <? length bs) || (length bs + length rb <? length bs)) with false.
  2:{ symmetry. apply orb_false_iff. rewrite !Nat.ltb_ge. lia. }
  unfold ndarray_outer_product. destruct (Nat.eqb_spec (length bs) 0) as [E|E].
  - unfold ttensordot, tndim. simpl. rewrite Nat.sub_0_r, skipn_all. simpl. eauto.
  - unfold teinsum_outer, tndim. rewrite Hx, Hy, !firstn_exact, zipM_refl, !app_length by auto.
    replace ((length bs <=? length bs + length ra) && (length bs <=? length bs + length rb)) with true.
    2:{ symmetry. apply andb_true_iff. rewrite !Nat.leb_le. lia. }
    simpl. eauto.
Qed.

Theorem C07_outer_product_rejects : forall (a b : coef R) bd,
  (indim a < bd \/ indim b < bd)%nat -> iouter_product a b bd = Err ValueError.
Proof.
  intros a b bd H. unfold iouter_product. replace ((indim a <? bd) || (indim b <? bd)) with true; auto.
  symmetry. apply orb_true_iff. rewrite !Nat.ltb_lt. auto.
Qed.

Example C07_nonvacuous : exists c,
  iouter_product (Arr (mkT [2;3]%nat (fun _ => 1))) (Arr (mkT [2;4]%nat (fun _ => 2))) 1 = Ok c /\ ishape c = [2;3;4]%nat.
Proof. eexists. split; reflexivity. Qed.
