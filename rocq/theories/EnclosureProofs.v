(** Soundness of the enclosure arithmetic. *)
From Coq Require Import Reals Lra Psatz.
From Verif Require Import Base Tensor IntervalArith Polynomials Enclosure TensorLemmas Spec IntervalProofs PowerProofs PolyProofs Graded EnclosureOps.
Open Scope R_scope.

(** [encl_from] in terms of lists of contributions. *)
Lemma encl_from_F2i P X z s enc : forall i v,
  encl_from P X z s i enc v <-> exists us, F2i (contributes P X z s) i enc us /\ v = Rsum us.
Proof.
  induction enc as [|c enc IH]; intros i v; simpl.
  - split; [intros ->; exists []; split; [constructor|reflexivity]|].
    intros (us & H & ->). inversion H; reflexivity.
  - split.
    + intros (u & w & Hu & Hw & ->). apply IH in Hw. destruct Hw as (us & Hus & ->).
      exists (u :: us). split; [constructor; auto|reflexivity].
    + intros (us & H & ->). inversion H as [|? ? ? u us' Hu Hus]; subst. exists u, (Rsum us').
      split; auto. split; [|reflexivity]. apply IH. eauto.
Qed.

(** Admissible output-shape predicates and what the proofs need from them. *)
Record prefixes (S : list nat) (P P' : nat -> list nat -> Prop) : Prop := {
  pf_compat : forall i p, P' i p -> compat p S;
  pf_sub : forall i p, P i p -> P' i p;
  pf_nil : P' 0%nat [];
  pf_mul : forall i j a b c, P i a -> P' j b -> bshape a b = Some c -> P (i + j)%nat c;
  pf_add : forall i a b c, P i a -> P i b -> bshape a b = Some c -> P i c;
  pf_down : forall i j p, (j <= i)%nat -> P i p -> P j p
}.

Lemma compat_antisym_join S b c : compat b S -> bshape S b = Some c -> c = S.
Proof. intros Cb H. rewrite (bshape_compat_r _ _ Cb) in H. congruence. Qed.

Lemma compat_antisym_join_l S a c : compat a S -> bshape a S = Some c -> c = S.
Proof. intros Ca H. rewrite (bshape_compat _ _ Ca) in H. congruence. Qed.

Lemma pf_bcast S : prefixes S (bcast S) (bcast S).
Proof.
  unfold bcast. split; auto.
  - apply compat_nil.
  - intros _ _ a b c Ha Hb H. eapply bshape_least; eauto.
  - intros _ a b c Ha Hb H. eapply bshape_least; eauto.
Qed.

Lemma pf_full S : prefixes S (full S) (full_tail S).
Proof.
  unfold full, full_tail. split.
  - intros i p [->|[_ H]]; auto. apply compat_refl.
  - auto.
  - right. split; auto. apply compat_nil.
  - intros i j a b c -> Hb H. eapply compat_antisym_join; [|eauto]. destruct Hb as [->|[_ Hb]]; auto. apply compat_refl.
  - intros i a b c -> -> H. rewrite bshape_refl in H. congruence.
  - auto.
Qed.

Lemma pf_full_tail S : prefixes S (full_tail S) (full_tail S).
Proof.
  assert (HC : forall i p, full_tail S i p -> compat p S).
  { intros i p [->|[_ H]]; auto. apply compat_refl. }
  split.
  - exact HC.
  - auto.
  - right. split; auto. apply compat_nil.
  - intros i j a b c Ha Hb H. pose proof (HC _ _ Ha) as Ca. pose proof (HC _ _ Hb) as Cb.
    destruct Ha as [->|[-> _]]; [left; apply (compat_antisym_join _ _ _ Cb H)|].
    destruct Hb as [->|[-> _]]; [left; apply (compat_antisym_join_l _ _ _ Ca H)|].
    right. split; auto. eapply bshape_least; eauto.
  - intros i a b c Ha Hb H. pose proof (HC _ _ Ha) as Ca. pose proof (HC _ _ Hb) as Cb.
    destruct Ha as [->|[-> _]]; [left; apply (compat_antisym_join _ _ _ Cb H)|].
    right. split; auto. eapply bshape_least; eauto.
  - intros i j p Hj [->|[-> H]]; [left; auto|]. right. split; auto. lia.
Qed.

Section Main.
Variables (S : list nat) (P P' : nat -> list nat -> Prop).
Hypothesis PF : prefixes S P P'.
Variables (X : list nat) (z : list nat -> R) (s : list nat).
Hypothesis Hs : valid S s.

Let G := contributes P X z s.
Let G' := contributes P' X z s.

Lemma G_compat i c v : G i c v -> exists p, P i p /\ compat p S /\ con X z s p i c v.
Proof. intros (p & HP & HC). exists p. split; auto. split; auto. eapply (pf_compat _ _ _ PF), (pf_sub _ _ _ PF); eauto. Qed.

Lemma G_zero_add i b v c : G i b v -> iadd zero_c b = Ok c -> G i c v.
Proof. intros H Hc. apply G_compat in H. destruct H as (p & Hp & Cp & H). exists p. split; auto. eapply con_zero_add; eauto. Qed.

Lemma G_add_zero i b v c : G i b v -> iadd b zero_c = Ok c -> G i c v.
Proof. intros H Hc. apply G_compat in H. destruct H as (p & Hp & Cp & H). exists p. split; auto. eapply con_add_zero; eauto. Qed.

Lemma G_add i a b u v c : G i a u -> G i b v -> iadd a b = Ok c -> G i c (u + v).
Proof.
  intros Ha Hb H. apply G_compat in Ha, Hb. destruct Ha as (p & Hp & Cp & Ha), Hb as (q & Hq & Cq & Hb).
  destruct (con_add _ _ _ _ Hs _ _ _ _ _ _ _ _ Cp Cq Ha Hb H) as (r & Hr & Hc).
  exists r. split; auto. exact (pf_add _ _ _ PF _ _ _ _ Hp Hq Hr).
Qed.

Lemma G_neg i a u : G i a u -> G i (ineg a) (- u).
Proof. intros (p & Hp & Ha). exists p. split; auto. apply con_neg; auto. Qed.

Lemma G_tp i j x y u v c : G i x u -> G' j y v ->
  elementwise_term_product_coefficient (length X) x y i j = Ok c -> G (i + j)%nat c (u * v).
Proof.
  intros Ha Hb H. apply G_compat in Ha. destruct Ha as (p & Hp & Cp & Ha), Hb as (q & Hq & Hb).
  pose proof (pf_compat _ _ _ PF _ _ Hq) as Cq.
  destruct (con_tp _ _ _ _ Hs _ _ _ _ _ _ _ _ _ Cp Cq Ha Hb H) as (r & Hr & Hc).
  exists r. split; auto. exact (pf_mul _ _ _ PF _ _ _ _ _ Hp Hq Hr).
Qed.

Lemma G_sub i c v : G i c v -> G' i c v.
Proof. intros (p & Hp & H). exists p. split; auto. apply (pf_sub _ _ _ PF); auto. Qed.

(** Powers keep the admissible shapes if they are closed under changing the degree. *)
Lemma G_tpow i x u e c : (forall i p e, P i p -> (1 <= e)%nat -> P' (i * e)%nat p) -> G i x u ->
  elementwise_term_power_coefficient (length X) x i e = Ok c -> G' (i * e)%nat c (u ^ e).
Proof.
  intros HE Ha H. apply G_compat in Ha. destruct Ha as (p & Hp & Cp & Ha).
  destruct e as [|e].
  - rewrite Nat.mul_0_r. exists []. split; [apply (pf_nil _ _ _ PF)|]. simpl. apply (con_tpow0 X z s i x c H).
  - exists p. split; [apply HE; auto; lia|]. eapply con_tpow; eauto. lia.
Qed.

Lemma G_smul i k x u c : G i x u -> imul (Arr (tscalar (nofZ k))) x = Ok c -> G i c (IZR k * u).
Proof. intros Ha H. apply G_compat in Ha. destruct Ha as (p & Hp & Cp & Ha). exists p. split; auto. eapply con_smul; eauto. Qed.

Lemma G_contract d k x u w c : G (d + k)%nat x u ->
  wfs (rep k X) w -> (forall K, valid (rep k X) K -> inat w K (zpow (length X) z k K)) ->
  itensordot x w (k * length X) = Ok c -> G d c u.
Proof.
  intros Ha Ww Hw H. apply G_compat in Ha. destruct Ha as (p & Hp & Cp & Ha). exists p.
  split; [eapply (pf_down _ _ _ PF); [|eauto]; lia|]. eapply con_contract; eauto.
Qed.

(** ** Evaluation over the trust region *)
Section Eval.
Variable zc : coef R.
Hypothesis Wzc : wfs X zc.
Hypothesis Hzc : forall J, valid X J -> inat zc J (z J).

Lemma eval_loop_rel d : forall cs i zi running v us r,
  F2i G (d + i) cs us ->
  (i = 0%nat -> zi = one_c) ->
  (running = zero_c /\ v = 0 /\ cs <> [] \/ G d running v) ->
  eval_poly_loop iadd inner_product (fun x k => iouter_power x k 0) zc i zi running cs = Ok r ->
  G d r (v + Rsum us).
Proof.
  induction cs as [|c cs IH]; intros i zi running v us r HF Hi Hrun H; cbn [eval_poly_loop] in H.
  - injection H as <-. inversion HF; subst. simpl. rewrite Rplus_0_r. destruct Hrun as [(_ & _ & Hx)|Hx]; [congruence|auto].
  - apply bind_ok in H. destruct H as (zi' & Hz & H). apply bind_ok in H. destruct H as (term & Ht & H).
    apply bind_ok in H. destruct H as (run' & Hr & H).
    inversion HF as [|? ? ? u us' Hu Hus]; subst.
    assert (Hzi : wfs (rep i X) zi' /\ forall K, valid (rep i X) K -> inat zi' K (zpow (length X) z i K)).
    { apply (point_power _ _ zc); auto. destruct i; simpl in Hz.
      - injection Hz as <-. rewrite (Hi eq_refl). reflexivity.
      - auto. }
    destruct Hzi as [Wz Iz].
    assert (Gt : G d term u).
    { eapply G_contract; eauto. rewrite <- rep_length, <- (wfs_indim _ _ Wz). exact Ht. }
    simpl. rewrite <- Rplus_assoc. eapply (IH (Datatypes.S i)); [| | |exact H].
    + rewrite Nat.add_succ_r. auto.
    + discriminate.
    + right. destruct Hrun as [(-> & -> & _)|Hrun].
      * rewrite Rplus_0_l. eapply G_zero_add; eauto.
      * eapply G_add; eauto.
Qed.

Lemma eval_point_rel d cs us r : F2i G d cs us -> cs <> [] ->
  eval_taylor_enclosure cs zc = Ok r -> G d r (Rsum us).
Proof.
  intros HF Hne H. unfold eval_taylor_enclosure, eval_polynomial in H.
  rewrite <- (Rplus_0_l (Rsum us)). eapply eval_loop_rel; eauto. rewrite Nat.add_0_r. auto.
Qed.

End Eval.

Variable tr : tensor R * tensor R.
Hypothesis Htr : in_region X tr z.

Lemma eval_rel d cs us r : F2i G d cs us -> cs <> [] ->
  eval_taylor_enclosure cs (Ivl (fst tr) (snd tr)) = Ok r -> G d r (Rsum us).
Proof. destruct (region_coef X z tr Htr) as [W H]. apply eval_point_rel; auto. Qed.

Lemma enclose_rel enc us D enc' : F2i G 0 enc us -> enclose_enclosure enc tr D = Ok enc' ->
  exists us', F2i G 0 enc' us' /\ Rsum us' = Rsum us /\ length enc' = Nat.min (length enc) (D + 1) /\
     firstn D enc' = firstn D enc /\ ((length enc <= D + 1)%nat -> enc' = enc) /\ firstn D us' = firstn D us.
Proof.
  intros HF H. unfold enclose_enclosure in H. destruct (Nat.leb_spec (length enc) (D + 1)) as [Hle|Hgt].
  - injection H as <-. exists us. repeat split; auto. lia.
  - apply bind_ok in H. destruct H as (c & Hc & H). injection H as <-.
    destruct (F2i_firstn_skipn _ _ _ _ D HF) as [H1 H2].
    replace (0 + Nat.min D (length enc))%nat with D in H2 by lia.
    assert (Hne : skipn D enc <> []).
    { intros E. apply (f_equal (@length _)) in E. rewrite skipn_length in E. simpl in E. lia. }
    pose proof (eval_rel D _ _ _ H2 Hne Hc) as Gc.
    exists (firstn D us ++ [Rsum (skipn D us)]). split.
    + apply F2i_app; auto. rewrite firstn_length. replace (0 + Nat.min D (length enc))%nat with D by lia.
      constructor; auto. constructor.
    + split.
      * rewrite Rsum_app. simpl. rewrite <- (firstn_skipn D us) at 3. rewrite Rsum_app. ring.
      * rewrite app_length, firstn_length. simpl. split; [lia|].
        rewrite !firstn_app, !firstn_firstn, !firstn_length. rewrite <- (F2i_length _ _ _ _ HF).
        replace (Nat.min D D) with D by lia. replace (D - Nat.min D (length enc))%nat with 0%nat by lia.
        simpl. rewrite !app_nil_r. repeat split; auto. lia.
Qed.

(** ** The operations *)
Lemma add_coeffs_rel a : forall i b us vs c, F2i G i a us -> F2i G i b vs -> add_coeffs a b = Ok c ->
  exists ws, F2i G i c ws /\ Rsum ws = Rsum us + Rsum vs /\ length c = Nat.max (length a) (length b).
Proof.
  induction a as [|x a IH]; intros i b us vs c Ha Hb H; simpl in H.
  - injection H as <-. inversion Ha; subst. exists vs. repeat split; auto. simpl. ring.
  - destruct b as [|y b].
    + injection H as <-. inversion Hb; subst. exists us. repeat split; auto. simpl. ring.
    + apply bind_ok in H. destruct H as (w & Hw & H). apply bind_ok in H. destruct H as (r & Hr & H). injection H as <-.
      inversion Ha; subst. inversion Hb; subst.
      destruct (IH _ _ _ _ _ H4 H6 Hr) as (ws & HF & HS & HL). exists (u + u0 :: ws). split; [|split].
      * constructor; auto. eapply G_add; eauto.
      * simpl. rewrite HS. ring.
      * simpl. rewrite HL. reflexivity.
Qed.

Variable D : nat.
Let A := mkArith D tr.

Lemma length_nonnil {B} (l : list B) : l <> [] <-> (0 < length l)%nat.
Proof. destruct l; simpl; split; try congruence; lia. Qed.

Lemma eadd_rel a b c us vs : F2i G 0 a us -> F2i G 0 b vs -> eadd A a b = Ok c ->
  exists ws, F2i G 0 c ws /\ Rsum ws = Rsum us + Rsum vs /\
    length c = Nat.min (Nat.max (length a) (length b)) (D + 1).
Proof.
  intros Ha Hb H. unfold eadd in H. apply bind_ok in H. destruct H as (t & Ht & H).
  destruct (add_coeffs_rel _ _ _ _ _ _ Ha Hb Ht) as (ws & HF & HS & HL).
  destruct (enclose_rel _ _ _ _ HF H) as (ws' & HF' & HS' & HL' & _). exists ws'. split; auto. split; [congruence|].
  rewrite HL', HL. reflexivity.
Qed.

Lemma map_neg_rel a : forall i us, F2i G i a us -> F2i G i (map ineg a) (map Ropp us).
Proof. induction a; intros i us H; inversion H; subst; simpl; constructor; auto. apply G_neg; auto. Qed.

Lemma Rsum_opp us : Rsum (map Ropp us) = - Rsum us.
Proof. induction us; simpl; [ring|]. rewrite IHus. ring. Qed.

Lemma eneg_rel a c us : F2i G 0 a us -> enegative A a = Ok c ->
  exists ws, F2i G 0 c ws /\ Rsum ws = - Rsum us /\ length c = Nat.min (length a) (D + 1).
Proof.
  intros Ha H. unfold enegative in H. apply map_neg_rel in Ha.
  destruct (enclose_rel _ _ _ _ Ha H) as (ws & HF & HS & HL & _). exists ws. split; auto.
  rewrite HS, Rsum_opp, HL, map_length. auto.
Qed.

Lemma esub_rel a b c us vs : F2i G 0 a us -> F2i G 0 b vs -> esubtract A a b = Ok c ->
  exists ws, F2i G 0 c ws /\ Rsum ws = Rsum us - Rsum vs /\
    length c = Nat.min (Nat.max (length a) (length b)) (D + 1).
Proof.
  intros Ha Hb H. unfold esubtract in H. apply bind_ok in H. destruct H as (nb & Hn & H).
  destruct (eneg_rel _ _ _ Hb Hn) as (ns & HN & HS & HL).
  destruct (eadd_rel _ _ _ _ _ Ha HN H) as (ws & HW & HSW & HLW). exists ws. split; auto. rewrite HSW, HS, HLW, HL.
  split; [ring|lia].
Qed.

Lemma tr_ndim : tndim (fst tr) = length X.
Proof. destruct Htr as (E & _). unfold tndim. rewrite E. reflexivity. Qed.

Lemma emul_rel a b c us vs : F2i G 0 a us -> F2i G' 0 b vs -> a <> [] -> b <> [] -> emultiply A a b = Ok c ->
  exists ws, F2i G 0 c ws /\ Rsum ws = Rsum us * Rsum vs /\
    length c = Nat.min (length a + length b - 1) (D + 1).
Proof.
  intros Ha Hb Na Nb H. unfold emultiply in H. apply bind_ok in H. destruct H as (_ & _ & H).
  apply bind_ok in H. destruct H as (_ & _ & H). apply bind_ok in H. destruct H as (p & Hp & H).
  simpl in Hp. rewrite tr_ndim in Hp.
  destruct (poly_bilinear_rel iadd zero_c G G G' (elementwise_term_product_coefficient (length X)) a b us vs p) with (8 := Hp) as (L & ws & HF & HS); auto.
  - apply G_zero_add.
  - apply G_add.
  - intros. eapply G_tp; eauto.
  - destruct (enclose_rel _ _ _ _ HF H) as (ws' & HF' & HS' & HL' & _). exists ws'. split; auto. split; [congruence|].
    rewrite HL', L. reflexivity.
Qed.

Lemma epower_rel a p c us : (forall i p e, P i p -> (1 <= e)%nat -> P' (i * e)%nat p) ->
  (exists a0 r, a = a0 :: r /\ G 0 (Arr (tones_like (left_end a0))) 1) ->
  F2i G 0 a us -> epower_nat A a p = Ok c ->
  exists ws, F2i G 0 c ws /\ Rsum ws = Rsum us ^ p /\ length c = Nat.min (1 + (length a - 1) * p) (D + 1) /\
    (forall i, (i < D)%nat -> (1 <= p)%nat -> nth i ws 0 = power_coeff us p i \/ (length ws <= i)%nat).
Proof.
  intros HE (a0 & r & -> & Hone) Ha H. unfold epower_nat in H. apply bind_ok in H. destruct H as (t & HV & H). destruct t.
  apply bind_ok in H. destruct H as (q & Hq & H). simpl in Hq. rewrite tr_ndim in Hq.
  destruct p as [|p].
  - unfold integer_power in Hq. simpl in Hq. injection Hq as <-.
    assert (HF : F2i G 0 [Arr (tones_like (left_end a0))] [1]) by (constructor; auto; constructor).
    destruct (enclose_rel _ _ _ _ HF H) as (ws & HF' & HS & HL & _). exists ws. split; auto. simpl in *.
    rewrite HS, HL. split; [ring|]. split; [rewrite Nat.mul_0_r; reflexivity|]. intros; lia.
  - destruct (integer_power_rel iadd zero_c (Arr (tones_like (left_end a0)))
       (elementwise_term_product_coefficient (length X)) (elementwise_term_power_coefficient (length X))
       (fun k c => imul (Arr (tscalar (nofZ k))) c) G G' G_zero_add G_add Hone) with (Ga := G) (us := us) (e := Datatypes.S p)
       (a := a0 :: r) (out := q) as (L & HF & HS); auto.
    + intros. eapply G_tp; eauto.
    + intros. eapply G_tpow; eauto.
    + intros. eapply G_smul; eauto.
    + congruence.
    + lia.
    + destruct (enclose_rel _ _ _ _ HF H) as (ws & HF' & HS' & HL & _ & _ & HN). exists ws. split; auto.
      split; [congruence|]. split; [rewrite HL, L; reflexivity|]. intros i Hi _.
      destruct (Nat.le_gt_cases (length ws) i); [right; auto|]. left.
      pose proof (F2i_length _ _ _ _ HF') as L1. pose proof (F2i_length _ _ _ _ HF) as L2.
      assert (Hn : forall l : list R, nth i (firstn D l) 0 = nth i l 0).
      { clear -Hi. intros l. revert i D Hi. induction l as [|y l IH]; intros [|i] [|D] Hi; simpl; auto; try lia. apply IH. lia. }
      change (max_degree A) with D in HN. rewrite <- (Hn ws), HN, Hn.
      assert (Hil : (i < length (seq 0 (1 + (length (a0 :: r) - 1) * Datatypes.S p)))%nat).
      { rewrite seq_length. rewrite L in HL. lia. }
      rewrite (nth_indep _ 0 (power_coeff us (Datatypes.S p) 0)) by (rewrite map_length; auto).
      rewrite map_nth. rewrite seq_length in Hil. rewrite seq_nth by auto. reflexivity.
Qed.
End Main.
