(** Lemmas about index tuples, broadcasting and finite sums (reals). *)
From Coq Require Import Reals Lra.
From Verif Require Import Base Tensor.
Open Scope nat_scope.

(** The real instance: all theorems about arrays are about this instance, i.e.
    about exact arithmetic. *)
#[export] Instance NumR : Num R := {|
  n0 := 0%R; n1 := 1%R; nadd := Rplus; nsub := Rminus; nmul := Rmult;
  nopp := Ropp; nmin := Rmin; nmax := Rmax;
  nltb := fun a b => if Rlt_dec a b then true else false;
  nofZ := IZR |}.

Lemma bind_ok {A B} (x : res A) (k : A -> res B) b :
  bind x k = Ok b -> exists a, x = Ok a /\ k a = Ok b.
Proof. destruct x; simpl; intros H; [eauto | discriminate]. Qed.

Ltac ok_inv :=
  repeat match goal with
  | H : bind _ _ = Ok _ |- _ =>
      apply bind_ok in H; let a := fresh "a" in let H1 := fresh "Hb" in
      destruct H as (a & H1 & H)
  | H : Ok _ = Ok _ |- _ => injection H as H
  | H : Err _ = Ok _ |- _ => discriminate H
  end.

(** ** Lists *)
Lemma Forall2_length {A B} {P : A -> B -> Prop} {l m} : Forall2 P l m -> length l = length m.
Proof. induction 1; simpl; auto. Qed.

Lemma app_inj_1 {A} (a b c d : list A) : length a = length c -> a ++ b = c ++ d -> a = c /\ b = d.
Proof.
  revert c; induction a as [|x a IH]; intros [|y c]; simpl; intros H E; try discriminate; auto.
  injection E as -> E. injection H as H. destruct (IH c H E) as [-> ->]. auto.
Qed.

Lemma shape_eqb_eq a b : shape_eqb a b = true <-> a = b.
Proof.
  unfold shape_eqb. revert b; induction a as [|x a IH]; intros [|y b]; simpl; try (split; congruence).
  rewrite andb_true_iff, Nat.eqb_eq, IH. split; [intros [-> ->]; reflexivity | intros [= -> ->]; auto].
Qed.

Lemma rep_length {A} n (l : list A) : length (rep n l) = n * length l.
Proof. induction n; simpl; [reflexivity|]. rewrite app_length, IHn. reflexivity. Qed.

Lemma rep_app {A} n m (l : list A) : rep (n + m) l = rep n l ++ rep m l.
Proof. induction n; simpl; [reflexivity|]. rewrite IHn, app_assoc. reflexivity. Qed.

Lemma rep_mul {A} n m (l : list A) : rep (n * m) l = rep n (rep m l).
Proof. induction n; simpl; [reflexivity|]. rewrite rep_app, IHn. reflexivity. Qed.

Lemma rep_1 {A} (l : list A) : rep 1 l = l.
Proof. simpl. apply app_nil_r. Qed.

Lemma firstn_exact {A} (l m : list A) n : n = length l -> firstn n (l ++ m) = l.
Proof. intros ->. rewrite firstn_app, Nat.sub_diag, firstn_all. simpl. apply app_nil_r. Qed.

Lemma skipn_exact {A} (l m : list A) n : n = length l -> skipn n (l ++ m) = m.
Proof. intros ->. rewrite skipn_app, Nat.sub_diag, skipn_all. reflexivity. Qed.

Lemma map2_app {A B C} (f : A -> B -> C) l1 l2 m1 m2 :
  length l1 = length m1 -> map2 f (l1 ++ l2) (m1 ++ m2) = map2 f l1 m1 ++ map2 f l2 m2.
Proof. revert m1; induction l1; intros [|? m1]; simpl; intros; try discriminate; f_equal; auto. Qed.

Lemma map2_length {A B C} (f : A -> B -> C) l m : length (map2 f l m) = Nat.min (length l) (length m).
Proof. revert m; induction l; intros [|? m]; simpl; auto. Qed.

(** ** Valid indices *)
Lemma valid_length sh I : valid sh I -> length I = length sh.
Proof. induction 1; simpl; auto. Qed.

Lemma valid_app s1 s2 I J : valid s1 I -> valid s2 J -> valid (s1 ++ s2) (I ++ J).
Proof. apply Forall2_app. Qed.

Lemma valid_app_inv s1 s2 K : valid (s1 ++ s2) K ->
  exists I J, K = I ++ J /\ valid s1 I /\ valid s2 J.
Proof. intros H. apply Forall2_app_inv_r in H. destruct H as (I & J & H1 & H2 & ->). eauto. Qed.

Lemma valid_nil I : valid [] I <-> I = [].
Proof. split; [inversion 1; reflexivity | intros ->; constructor]. Qed.

Lemma valid_cons n sh I : valid (n :: sh) I <-> exists i J, I = i :: J /\ i < n /\ valid sh J.
Proof. split; [inversion 1; subst; eauto | intros (i & J & -> & ? & ?); constructor; auto]. Qed.

Lemma valid_repeat1 n I : valid (repeat 1 n) I <-> I = repeat 0 n.
Proof.
  revert I; induction n as [|n IH]; intros I; simpl; [apply valid_nil|].
  rewrite valid_cons. split.
  - intros (i & J & -> & ? & HJ). apply IH in HJ. subst. f_equal. lia.
  - intros ->. exists 0, (repeat 0 n). repeat split; auto. apply IH. reflexivity.
Qed.

Lemma all_idx_valid sh I : In I (all_idx sh) <-> valid sh I.
Proof.
  revert I; induction sh as [|n sh IH]; intros I; simpl.
  - rewrite valid_nil. intuition.
  - rewrite in_flat_map, valid_cons. split.
    + intros (i & Hi & H). apply in_map_iff in H. destruct H as (J & <- & HJ).
      apply in_seq in Hi. exists i, J. rewrite <- IH. repeat split; auto; lia.
    + intros (i & J & -> & Hi & HJ). exists i. rewrite in_seq. split; [lia|].
      apply in_map_iff. exists J. rewrite IH. auto.
Qed.

(** ** Broadcasting *)
Definition dimc (x y : nat) : Prop := x = 1 \/ x = y.

(** [compat a b]: shape [a] broadcasts to shape [b]. *)
Definition compat (a b : list nat) : Prop :=
  exists pre b', b = pre ++ b' /\ Forall2 dimc a b'.

Lemma compat_refl a : compat a a.
Proof. exists [], a. split; [reflexivity|]. induction a; constructor; auto. right; reflexivity. Qed.

Lemma compat_nil b : compat [] b.
Proof. exists b, []. rewrite app_nil_r. split; auto. Qed.

Lemma compat_length a b : compat a b -> length a <= length b.
Proof. intros (pre & b' & -> & H). apply Forall2_length in H. rewrite app_length. lia. Qed.

Lemma dimc_trans x y z : dimc x y -> dimc y z -> dimc x z.
Proof. unfold dimc. intuition lia. Qed.

Lemma Forall2_dimc_trans a b c : Forall2 dimc a b -> Forall2 dimc b c -> Forall2 dimc a c.
Proof.
  intros H; revert c; induction H; intros c Hc; inversion Hc; subst; constructor; eauto using dimc_trans.
Qed.

Lemma compat_trans a b c : compat a b -> compat b c -> compat a c.
Proof.
  intros (p & b' & -> & H) (q & c' & -> & K).
  apply Forall2_app_inv_l in K. destruct K as (c1 & c2 & K1 & K2 & ->).
  exists (q ++ c1), c2. rewrite app_assoc. split; [reflexivity|]. eapply Forall2_dimc_trans; eauto.
Qed.

Lemma compat_app a b y z : compat a b -> Forall2 dimc y z -> compat (a ++ y) (b ++ z).
Proof.
  intros (p & b' & -> & H) K. exists p, (b' ++ z). rewrite app_assoc. split; [reflexivity|].
  apply Forall2_app; auto.
Qed.

Lemma compat_same_length a b : length a = length b -> compat a b -> Forall2 dimc a b.
Proof.
  intros HL (p & b' & -> & H). pose proof (Forall2_length H). rewrite app_length in HL.
  destruct p; [exact H | simpl in *; lia].
Qed.

Lemma bidx_app_pre sh pre I : length I = length sh ->
  bidx sh (pre ++ I) = map2 (fun n i => if n =? 1 then 0 else i) sh I.
Proof.
  intros H. unfold bidx. rewrite app_length. replace (length pre + length I - length sh) with (length pre) by lia.
  rewrite skipn_exact; auto.
Qed.

Lemma bidx_same sh I : length I = length sh ->
  bidx sh I = map2 (fun n i => if n =? 1 then 0 else i) sh I.
Proof. intros H. apply (bidx_app_pre sh [] I H). Qed.

Lemma bidx_valid sh I : valid sh I -> bidx sh I = I.
Proof.
  intros H. rewrite bidx_same by (apply valid_length; auto).
  induction H as [|i n I sh Hi HI IH]; simpl; [reflexivity|]. rewrite IH. f_equal.
  destruct (Nat.eqb_spec n 1); lia.
Qed.

Lemma bidx_compat_valid a b I : compat a b -> valid b I -> valid a (bidx a I).
Proof.
  intros (p & b' & -> & H) HI. apply valid_app_inv in HI. destruct HI as (I1 & I2 & -> & _ & HI).
  rewrite bidx_app_pre by (rewrite (valid_length _ _ HI); symmetry; eapply Forall2_length; eauto).
  revert I2 HI; induction H as [|x y a b' Hxy Hab IH]; intros I2 HI.
  - inversion HI; constructor.
  - apply valid_cons in HI. destruct HI as (i & J & -> & Hi & HJ). simpl. constructor; [|apply IH; auto].
    destruct (Nat.eqb_spec x 1); destruct Hxy; lia.
Qed.

Lemma bidx_length a b I : compat a b -> length I = length b -> length (bidx a I) = length a.
Proof.
  intros Hc HI. unfold bidx. rewrite map2_length, skipn_length. apply compat_length in Hc. lia.
Qed.

Lemma bidx_app a b y I J : compat a b -> length I = length b -> length J = length y ->
  bidx (a ++ y) (I ++ J) = bidx a I ++ bidx y J.
Proof.
  intros Hc HI HJ. unfold bidx. rewrite !app_length, HJ.
  replace (length I + length y - (length a + length y)) with (length I - length a) by lia.
  rewrite Nat.sub_diag. simpl.
  rewrite skipn_app.
  replace (length I - length a - length I) with 0 by (apply compat_length in Hc; lia). simpl.
  apply map2_app. rewrite skipn_length. apply compat_length in Hc. lia.
Qed.

Lemma bidx_trans a b c I : compat a b -> compat b c -> length I = length c ->
  bidx a (bidx b I) = bidx a I.
Proof.
  intros (p & b' & -> & H) Hc HI. pose proof Hc as Hc'.
  destruct Hc as (q & c' & -> & K). apply Forall2_app_inv_l in K.
  destruct K as (c1 & c2 & K1 & K2 & ->).
  pose proof (Forall2_length H) as L1. pose proof (Forall2_length K1) as L2. pose proof (Forall2_length K2) as L3.
  rewrite !app_length in HI.
  rewrite <- (firstn_skipn (length q + length c1) I).
  set (I1 := firstn _ I). set (I2 := skipn _ I).
  assert (HL1 : length I1 = length q + length c1) by (unfold I1; rewrite firstn_length; lia).
  assert (HL2 : length I2 = length c2) by (unfold I2; rewrite skipn_length; lia).
  rewrite (bidx_app p (q ++ c1) b').
  2:{ exists q, c1. auto. } 2:{ rewrite app_length; lia. } 2:{ lia. }
  rewrite !bidx_app_pre by (rewrite ?bidx_same, ?map2_length; lia).
  rewrite bidx_same by lia. clearbody I1 I2. clear -H HL2 L3. revert I2 c2 HL2 L3.
  induction H as [|x y a b' Hxy Hab IH]; intros I2 c2 HL2 L3; [reflexivity|].
  destruct I2 as [|i I2]; [reflexivity|]. destruct c2; [discriminate|]. simpl. f_equal.
  - destruct (Nat.eqb_spec x 1); [reflexivity|]. destruct (Nat.eqb_spec y 1); [destruct Hxy; lia | reflexivity].
  - eapply IH; [|injection L3 as L3; exact L3]. injection HL2 as HL2. exact HL2.
Qed.

Lemma bidx_repeat1 n I : length I = n -> bidx (repeat 1 n) I = repeat 0 n.
Proof.
  intros <-. rewrite bidx_same by (rewrite repeat_length; auto).
  induction I; simpl; congruence.
Qed.

Lemma bdim_spec x y d : bdim x y = Some d -> dimc x d /\ dimc y d.
Proof.
  unfold bdim, dimc. destruct (Nat.eqb_spec x y), (Nat.eqb_spec x 1), (Nat.eqb_spec y 1);
    intros [= <-]; subst; intuition.
Qed.

Lemma bdim_least x y d e : bdim x y = Some d -> dimc x e -> dimc y e -> dimc d e.
Proof.
  unfold bdim, dimc. destruct (Nat.eqb_spec x y), (Nat.eqb_spec x 1), (Nat.eqb_spec y 1);
    intros [= <-]; subst; intuition.
Qed.

Lemma bdim_total x y e : dimc x e -> dimc y e -> exists d, bdim x y = Some d.
Proof.
  unfold bdim, dimc. destruct (Nat.eqb_spec x y), (Nat.eqb_spec x 1), (Nat.eqb_spec y 1); intros; eauto; lia.
Qed.

Lemma zipM_spec a b c : zipM a b = Some c -> Forall2 dimc a c /\ Forall2 dimc b c.
Proof.
  revert b c; induction a as [|x a IH]; intros [|y b] c; simpl; try discriminate.
  - intros [= <-]. auto.
  - destruct (bdim x y) eqn:E, (zipM a b) eqn:F; try discriminate. intros [= <-].
    apply bdim_spec in E. apply IH in F. intuition.
Qed.

Lemma zipM_least a b c e : zipM a b = Some c -> Forall2 dimc a e -> Forall2 dimc b e -> Forall2 dimc c e.
Proof.
  revert b c e; induction a as [|x a IH]; intros [|y b] c e; simpl; try discriminate.
  - intros [= <-]; auto.
  - destruct (bdim x y) eqn:E, (zipM a b) eqn:F; try discriminate. intros [= <-] H K.
    inversion H; subst. inversion K; subst. constructor; eauto using bdim_least.
Qed.

Lemma zipM_total a b e : Forall2 dimc a e -> Forall2 dimc b e -> exists c, zipM a b = Some c.
Proof.
  intros H; revert b; induction H as [|x e0 a e Hx Ha IH]; intros b K; inversion K; subst; simpl; eauto.
  destruct (bdim_total x x0 e0) as [d ->]; auto. destruct (IH l) as [c ->]; auto. eauto.
Qed.

Lemma zipM_refl a : zipM a a = Some a.
Proof. induction a; simpl; [reflexivity|]. unfold bdim. rewrite Nat.eqb_refl, IHa. reflexivity. Qed.

Lemma zipM_ones_l n a : length a = n -> zipM (repeat 1 n) a = Some a.
Proof.
  intros <-. induction a; simpl; [reflexivity|]. rewrite IHa. unfold bdim.
  destruct (Nat.eqb_spec 1 a); subst; reflexivity.
Qed.

Lemma zipM_ones_r n a : length a = n -> zipM a (repeat 1 n) = Some a.
Proof.
  intros <-. induction a; simpl; [reflexivity|]. rewrite IHa. unfold bdim.
  destruct (Nat.eqb_spec a 1); [reflexivity|]. reflexivity.
Qed.

Lemma zipM_app a1 a2 b1 b2 : length a1 = length b1 ->
  zipM (a1 ++ a2) (b1 ++ b2) =
  match zipM a1 b1, zipM a2 b2 with Some c, Some d => Some (c ++ d) | _, _ => None end.
Proof.
  revert b1; induction a1 as [|x a1 IH]; intros [|y b1]; simpl; try discriminate.
  - destruct (zipM a2 b2); reflexivity.
  - intros [= H]. rewrite IH by auto. destruct (bdim x y), (zipM a1 b1), (zipM a2 b2); reflexivity.
Qed.

Lemma padl_length n a : length a <= n -> length (padl n a) = n.
Proof. unfold padl. rewrite app_length, repeat_length. lia. Qed.

Lemma bshape_spec a b c : bshape a b = Some c -> compat a c /\ compat b c.
Proof.
  unfold bshape. intros H. apply zipM_spec in H. unfold padl in H. destruct H as [H1 H2].
  apply Forall2_app_inv_l in H1. apply Forall2_app_inv_l in H2.
  destruct H1 as (p & q & _ & H1 & ->). destruct H2 as (p' & q' & _ & H2 & E).
  split; [exists p, q; auto | exists p', q'; auto].
Qed.

Lemma compat_padl a b : compat a b -> Forall2 dimc (padl (length b) a) b.
Proof.
  intros (p & b' & -> & H). unfold padl. pose proof (Forall2_length H) as L. rewrite app_length.
  replace (length p + length b' - length a) with (length p) by lia.
  apply Forall2_app; auto. clear. induction p; simpl; constructor; auto. left; reflexivity.
Qed.

Lemma padl_padl a n m : length a <= n -> n <= m -> padl m (padl n a) = padl m a.
Proof.
  intros H K. unfold padl. rewrite !app_length, !repeat_length. rewrite app_assoc, <- repeat_app.
  f_equal. f_equal. lia.
Qed.

Lemma padl_split m n a : length a <= n -> n <= m -> padl m a = repeat 1 (m - n) ++ padl n a.
Proof. intros. unfold padl. rewrite app_assoc, <- repeat_app. f_equal. f_equal. lia. Qed.

Lemma bshape_least a b c e : bshape a b = Some c -> compat a e -> compat b e -> compat c e.
Proof.
  intros H Ha Hb. pose proof (compat_length _ _ Ha) as La. pose proof (compat_length _ _ Hb) as Lb.
  unfold bshape in H. set (n := Nat.max (length a) (length b)) in *.
  assert (Lc : length c = n).
  { apply zipM_spec in H. destruct H as [H _]. apply Forall2_length in H. rewrite padl_length in H; lia. }
  apply compat_padl in Ha, Hb.
  rewrite (padl_split (length e) n) in Ha by lia. rewrite (padl_split (length e) n) in Hb by lia.
  apply Forall2_app_inv_l in Ha. destruct Ha as (e1 & e2 & A1 & A2 & E).
  apply Forall2_app_inv_l in Hb. destruct Hb as (f1 & f2 & B1 & B2 & E').
  assert (e1 = f1 /\ e2 = f2) as [-> ->].
  { pose proof (Forall2_length A1). pose proof (Forall2_length B1). rewrite E in E'.
    apply app_inj_1 in E'; [destruct E'; auto|lia]. }
  exists f1, f2. split; auto. eapply zipM_least; eauto.
Qed.

Lemma bshape_total a b e : compat a e -> compat b e -> exists c, bshape a b = Some c.
Proof.
  intros Ha Hb. pose proof (compat_length _ _ Ha) as La. pose proof (compat_length _ _ Hb) as Lb.
  unfold bshape. set (n := Nat.max (length a) (length b)).
  apply compat_padl in Ha, Hb.
  rewrite (padl_split (length e) n) in Ha by lia. rewrite (padl_split (length e) n) in Hb by lia.
  apply Forall2_app_inv_l in Ha. destruct Ha as (e1 & e2 & A1 & A2 & E).
  apply Forall2_app_inv_l in Hb. destruct Hb as (f1 & f2 & B1 & B2 & E').
  assert (e1 = f1 /\ e2 = f2) as [-> ->].
  { pose proof (Forall2_length A1). pose proof (Forall2_length B1). rewrite E in E'.
    apply app_inj_1 in E'; [destruct E'; auto|lia]. }
  eapply zipM_total; eauto.
Qed.

Lemma bshape_refl a : bshape a a = Some a.
Proof. unfold bshape, padl. rewrite Nat.max_id, Nat.sub_diag. simpl. apply zipM_refl. Qed.

Lemma bshape_nil_l a : bshape [] a = Some a.
Proof.
  unfold bshape, padl. simpl. rewrite app_nil_r, Nat.sub_0_r, Nat.sub_diag. simpl. apply zipM_ones_l; auto.
Qed.

Lemma bshape_nil_r a : bshape a [] = Some a.
Proof.
  unfold bshape, padl. simpl. rewrite app_nil_r, Nat.max_0_r, Nat.sub_diag, Nat.sub_0_r. simpl. apply zipM_ones_r; auto.
Qed.

Lemma bshape_app a b y z : length y = length z ->
  bshape (a ++ y) (b ++ z) =
  match bshape a b, zipM y z with Some c, Some d => Some (c ++ d) | _, _ => None end.
Proof.
  intros H. unfold bshape, padl. rewrite !app_length, H.
  replace (Nat.max (length a + length z) (length b + length z) - (length a + length z))
    with (Nat.max (length a) (length b) - length a) by lia.
  replace (Nat.max (length a + length z) (length b + length z) - (length b + length z))
    with (Nat.max (length a) (length b) - length b) by lia.
  rewrite !app_assoc. apply zipM_app. rewrite !app_length, !repeat_length. lia.
Qed.

Lemma bshape_compat a b : compat a b -> bshape a b = Some b.
Proof.
  intros H. pose proof (compat_length _ _ H). unfold bshape.
  replace (Nat.max (length a) (length b)) with (length b) by lia.
  replace (padl (length b) b) with b by (unfold padl; rewrite Nat.sub_diag; reflexivity).
  apply compat_padl in H. revert H. generalize (padl (length b) a). intros l K. clear -K.
  induction K as [|x y l b Hxy K IH]; simpl; [reflexivity|]. rewrite IH. unfold bdim.
  destruct Hxy as [->| ->]; [|rewrite Nat.eqb_refl; reflexivity].
  destruct (Nat.eqb_spec 1 y); subst; reflexivity.
Qed.

Lemma bshape_compat_r a b : compat a b -> bshape b a = Some b.
Proof.
  intros H. pose proof (compat_length _ _ H). unfold bshape.
  replace (Nat.max (length b) (length a)) with (length b) by lia.
  replace (padl (length b) b) with b by (unfold padl; rewrite Nat.sub_diag; reflexivity).
  apply compat_padl in H. revert H. generalize (padl (length b) a). intros l K. clear -K.
  induction K as [|x y l b Hxy K IH]; simpl; [reflexivity|]. rewrite IH. unfold bdim.
  destruct Hxy as [->| ->]; [|rewrite Nat.eqb_refl; reflexivity].
  destruct (Nat.eqb_spec y 1); subst; reflexivity.
Qed.

(** ** Binary ufuncs *)
Lemma tmap2_ok {T U V} (f : T -> U -> V) a b c : tmap2 f a b = Ok c ->
  bshape (tshape a) (tshape b) = Some (tshape c) /\
  forall I, tdata c I = f (bget a I) (bget b I).
Proof.
  unfold tmap2. destruct (bshape (tshape a) (tshape b)); [|discriminate]. intros [= <-]. split; reflexivity.
Qed.

Lemma tmap2_same {T U V} (f : T -> U -> V) a b sh : tshape a = sh -> tshape b = sh ->
  exists c, tmap2 f a b = Ok c /\ tshape c = sh /\
    forall I, valid sh I -> tdata c I = f (tdata a I) (tdata b I).
Proof.
  intros Ha Hb. unfold tmap2. rewrite Ha, Hb, bshape_refl. eexists; split; [reflexivity|].
  split; [reflexivity|]. intros I HI. simpl. unfold bget. rewrite Ha, Hb, bidx_valid; auto.
Qed.

Lemma tmap2_same_ok {T U V} (f : T -> U -> V) a b c sh : tmap2 f a b = Ok c ->
  tshape a = sh -> tshape b = sh -> tshape c = sh /\
    forall I, valid sh I -> tdata c I = f (tdata a I) (tdata b I).
Proof.
  intros H Ha Hb. destruct (tmap2_same f a b sh Ha Hb) as (c' & H' & ? & ?).
  rewrite H in H'. injection H' as ->. auto.
Qed.

(** ** Sums *)
Open Scope R_scope.

Lemma sumn_ext n f g : (forall i, (i < n)%nat -> f i = g i) -> sumn n f = sumn (T:=R) n g.
Proof. induction n; simpl; intros H; [reflexivity|]. rewrite IHn, H; auto. Qed.

Lemma sumn_plus n f g : sumn n (fun i => f i + g i) = sumn n f + sumn (T:=R) n g.
Proof. induction n; simpl; [ring|]. rewrite IHn. ring. Qed.

Lemma sumn_scal n c f : sumn n (fun i => c * f i) = c * sumn (T:=R) n f.
Proof. induction n; simpl; [ring|]. rewrite IHn. ring. Qed.

Lemma sumn_le n f g : (forall i, (i < n)%nat -> f i <= g i) -> sumn n f <= sumn (T:=R) n g.
Proof.
  induction n; simpl; intros H; [lra|]. apply Rplus_le_compat; auto.
Qed.

Lemma sumn_zero n : sumn n (fun _ => 0) = 0 :> R.
Proof. induction n; simpl; [reflexivity|]. rewrite IHn. ring. Qed.

Lemma sumi_ext sh f g : (forall I, valid sh I -> f I = g I) -> sumi sh f = sumi (T:=R) sh g.
Proof.
  revert f g; induction sh as [|n sh IH]; simpl; intros f g H.
  - apply H. constructor.
  - apply sumn_ext. intros i Hi. apply IH. intros K HK. apply H. constructor; auto.
Qed.

Lemma sumi_plus sh f g : sumi sh (fun I => f I + g I) = sumi sh f + sumi (T:=R) sh g.
Proof.
  revert f g; induction sh as [|n sh IH]; simpl; intros; [reflexivity|].
  rewrite <- sumn_plus. apply sumn_ext. intros. apply IH.
Qed.

Lemma sumi_scal sh c f : sumi sh (fun I => c * f I) = c * sumi (T:=R) sh f.
Proof.
  revert f; induction sh as [|n sh IH]; simpl; intros; [reflexivity|].
  rewrite <- sumn_scal. apply sumn_ext. intros. apply IH.
Qed.

Lemma sumi_scal_r sh c f : sumi sh (fun I => f I * c) = sumi (T:=R) sh f * c.
Proof. rewrite Rmult_comm, <- sumi_scal. apply sumi_ext. intros. ring. Qed.

Lemma sumi_le sh f g : (forall I, valid sh I -> f I <= g I) -> sumi sh f <= sumi (T:=R) sh g.
Proof.
  revert f g; induction sh as [|n sh IH]; simpl; intros f g H.
  - apply H. constructor.
  - apply sumn_le. intros i Hi. apply IH. intros K HK. apply H. constructor; auto.
Qed.

Lemma sumi_zero sh : sumi sh (fun _ => 0) = 0 :> R.
Proof. induction sh as [|n sh IH]; simpl; [reflexivity|]. rewrite IH. apply sumn_zero. Qed.

Lemma sumi_app s1 s2 f : sumi (s1 ++ s2) f = sumi s1 (fun I => sumi (T:=R) s2 (fun J => f (I ++ J))).
Proof.
  revert f; induction s1 as [|n s1 IH]; intros f; [reflexivity|]. cbn [app sumi].
  apply sumn_ext. intros i Hi. rewrite IH. reflexivity.
Qed.

Lemma sumi_swap s1 s2 f :
  sumi s1 (fun I => sumi s2 (fun J => f I J)) = sumi s2 (fun J => sumi (T:=R) s1 (fun I => f I J)).
Proof.
  revert f; induction s1 as [|n s1 IH]; intros f; [reflexivity|]. cbn [sumi].
  rewrite (sumn_ext n _ (fun i => sumi s2 (fun J => sumi s1 (fun K => f (i :: K) J))))
    by (intros; apply IH).
  induction n; simpl; [symmetry; apply sumi_zero|]. rewrite IHn, <- sumi_plus. reflexivity.
Qed.

Lemma sumi_mult s1 s2 f g :
  sumi s1 f * sumi s2 g = sumi (T:=R) (s1 ++ s2) (fun K => f (firstn (length s1) K) * g (skipn (length s1) K)).
Proof.
  rewrite sumi_app, <- sumi_scal_r. apply sumi_ext. intros I HI. rewrite <- sumi_scal.
  apply sumi_ext. intros J HJ. apply valid_length in HI.
  rewrite firstn_exact, skipn_exact by auto. reflexivity.
Qed.
