(** How each array operation used by the enclosure arithmetic acts on the
    contribution of a coefficient to one entry of the output. *)
From Coq Require Import Reals Lra Psatz.
From Verif Require Import Base Tensor IntervalArith Polynomials Enclosure TensorLemmas Spec IntervalProofs PowerProofs PolyProofs.
Open Scope R_scope.

(** ** The pairwise batched product *)
Lemma expand_ok {T} (a : tensor T) n axis b : expand_dims_at a n axis = Ok b ->
  (axis <= tndim a)%nat /\
  tshape b = firstn axis (tshape a) ++ repeat 1%nat n ++ skipn axis (tshape a) /\
  forall I, tdata b I = tdata a (firstn axis I ++ skipn (axis + n) I).
Proof.
  unfold expand_dims_at. destruct (Nat.leb_spec axis (tndim a)); [|discriminate]. intros [= <-]. simpl. auto.
Qed.

Lemma expand_total {T} (a : tensor T) n axis : (axis <= tndim a)%nat -> exists b, expand_dims_at a n axis = Ok b.
Proof. intros H. unfold expand_dims_at. apply Nat.leb_le in H. rewrite H. eauto. Qed.

Definition pbm_a (a : list nat) (nc nri : nat) (I : list nat) : list nat :=
  bidx a (firstn nc I) ++ firstn nri (skipn nc I).
Definition pbm_b (b : list nat) (nc nri : nat) (I : list nat) : list nat :=
  bidx b (firstn nc I) ++ skipn (nc + nri) I.

Lemma pbm_shapes a ri b rj u v w : tshape u = a ++ ri -> tshape v = b ++ rj ->
  pairwise_batched_multiply u v (length ri) (length rj) = Ok w ->
  exists c, bshape a b = Some c /\ tshape w = c ++ ri ++ rj.
Proof.
  intros Hu Hv H. unfold pairwise_batched_multiply in H. ok_inv.
  apply expand_ok in Hb, Hb0. destruct Hb as (_ & S1 & _), Hb0 as (_ & S2 & _).
  apply tmap2_ok in H. destruct H as [H _]. rewrite S1, S2 in H. unfold tndim in H. rewrite Hu, Hv in H.
  rewrite firstn_all, skipn_all, app_nil_r in H.
  replace (length (b ++ rj) - length rj)%nat with (length b) in H by (rewrite app_length; lia).
  rewrite firstn_exact, skipn_exact in H by auto. rewrite <- app_assoc in H.
  rewrite bshape_app in H by (rewrite !app_length, !repeat_length; lia).
  destruct (bshape a b) as [c|] eqn:E; [|discriminate].
  rewrite zipM_app in H by (rewrite repeat_length; auto).
  rewrite zipM_ones_r, zipM_ones_l in H by auto. injection H as <-. exists c. auto.
Qed.

Lemma pbm_prodop a ri b rj c : bshape a b = Some c ->
  prodop (fun u v => pairwise_batched_multiply u v (length ri) (length rj)) (a ++ ri) (b ++ rj) (c ++ ri ++ rj)
         (pbm_a a (length c) (length ri)) (pbm_b b (length c) (length ri)).
Proof.
  intros Hc. pose proof (bshape_spec _ _ _ Hc) as [Ca Cb]. split.
  - intros u v w Hu Hv H. destruct (pbm_shapes _ _ _ _ _ _ _ Hu Hv H) as (c' & Hc' & Sw).
    rewrite Hc in Hc'. injection Hc' as <-. split; auto. intros I HI.
    apply valid_app_inv in HI. destruct HI as (s & I' & -> & Hs & HI). apply valid_app_inv in HI.
    destruct HI as (J & K & -> & HJ & HK). pose proof (valid_length _ _ Hs). pose proof (valid_length _ _ HJ). pose proof (valid_length _ _ HK).
    unfold pbm_a, pbm_b. rewrite !(firstn_exact s), !(skipn_exact s) by auto. rewrite (firstn_exact J) by auto.
    rewrite (app_assoc s J K), (skipn_exact (s ++ J)) by (rewrite app_length; lia). rewrite <- app_assoc.
    unfold pairwise_batched_multiply in H. ok_inv.
    apply expand_ok in Hb, Hb0. destruct Hb as (_ & S1 & D1), Hb0 as (_ & S2 & D2).
    apply tmap2_ok in H. destruct H as [_ H]. rewrite H. unfold bget. rewrite S1, S2, D1, D2. unfold tndim. rewrite Hu, Hv.
    rewrite firstn_all, skipn_all, app_nil_r.
    replace (length (b ++ rj) - length rj)%nat with (length b) by (rewrite app_length; lia).
    rewrite (firstn_exact b), (skipn_exact b) by auto. rewrite <- !app_assoc.
    rewrite (bidx_app a c) by (rewrite ?app_length, ?repeat_length; auto; lia).
    rewrite (bidx_app b c) by (rewrite ?app_length, ?repeat_length; auto; lia).
    rewrite (bidx_app ri ri) by (rewrite ?repeat_length; auto; apply compat_refl).
    rewrite (bidx_app (repeat 1%nat (length ri)) ri).
    2:{ exists [], ri. split; auto. clear. induction ri; simpl; constructor; auto. left; auto. }
    2,3: auto.
    rewrite (bidx_valid ri J), (bidx_valid rj K) by auto. rewrite !bidx_repeat1 by auto.
    pose proof (bidx_length a c s Ca ltac:(auto)). pose proof (bidx_length b c s Cb ltac:(auto)).
    rewrite (app_assoc (bidx a s)), (firstn_exact (bidx a s ++ J)) by (rewrite !app_length; lia).
    rewrite (skipn_all2 (bidx a s ++ J ++ _)) || rewrite (skipn_all2 ((bidx a s ++ J) ++ repeat 0%nat (length rj))).
    2:{ rewrite !app_length, repeat_length. lia. }
    rewrite app_nil_r. rewrite (firstn_exact (bidx b s)) by auto.
    rewrite (app_assoc (bidx b s)), (skipn_exact (bidx b s ++ repeat 0%nat (length ri))) by (rewrite app_length, repeat_length; lia).
    reflexivity.
  - intros I HI. apply valid_app_inv in HI. destruct HI as (s & I' & -> & Hs & HI). apply valid_app_inv in HI.
    destruct HI as (J & K & -> & HJ & HK). pose proof (valid_length _ _ Hs). pose proof (valid_length _ _ HJ).
    unfold pbm_a, pbm_b. rewrite !(firstn_exact s), !(skipn_exact s) by auto. rewrite (firstn_exact J) by auto.
    rewrite (app_assoc s J K), (skipn_exact (s ++ J)) by (rewrite app_length; lia).
    split; apply valid_app; auto; eapply bidx_compat_valid; eauto.
Qed.

(** ** Contributions *)
Section Con.
Variables (X : list nat) (z : list nat -> R) (S s : list nat).
Hypothesis Hs : valid S s.

Definition con (p : list nat) (i : nat) (c : coef R) (v : R) : Prop :=
  wfs (p ++ rep i X) c /\
  exists A, (forall J, valid (rep i X) J -> inat c (bidx p s ++ J) (A J)) /\ v = term_value X z i A.

Lemma contributes_con P i c v : contributes P X z s i c v <-> exists p, P i p /\ con p i c v.
Proof. reflexivity. Qed.

Lemma bidx_join a c : compat a c -> compat c S -> bidx a (bidx c s) = bidx a s.
Proof. intros. eapply bidx_trans; eauto. apply valid_length; auto. Qed.

Lemma con_add a b i x y u v c : compat a S -> compat b S -> con a i x u -> con b i y v -> iadd x y = Ok c ->
  exists q, bshape a b = Some q /\ con q i c (u + v).
Proof.
  intros Ca Cb (Wx & A & HA & ->) (Wy & B & HB & ->) H.
  destruct (iadd_spec _ _ _ _ _ Wx Wy H) as (sc & Hsc & Wc & _ & _).
  rewrite bshape_app, zipM_refl in Hsc by auto. destruct (bshape a b) as [q|] eqn:E; [|discriminate]. injection Hsc as <-.
  exists q. split; auto. split; auto. exists (fun J => A J + B J). split.
  - intros J HJ. pose proof (bshape_spec _ _ _ E) as [C1 C2]. pose proof (bshape_least _ _ _ _ E Ca Cb) as Cq.
    pose proof (bidx_length q S s Cq (valid_length _ _ Hs)) as Lq.
    apply (iadd_in _ _ _ _ _ _ _ _ Wx Wy H).
    + rewrite (bidx_app a q), bidx_join, (bidx_valid _ J) by (auto using valid_length). auto.
    + rewrite (bidx_app b q), bidx_join, (bidx_valid _ J) by (auto using valid_length). auto.
  - unfold term_value. rewrite <- sumi_plus. apply sumi_ext. intros. ring.
Qed.

Lemma con_zero_add a i y v c : compat a S -> con a i y v -> iadd zero_c y = Ok c -> con a i c v.
Proof.
  intros Ca (Wy & B & HB & ->) H.
  assert (W0 : wfs [] (zero_c : coef R)) by reflexivity.
  destruct (iadd_spec _ _ _ _ _ W0 Wy H) as (sc & Hsc & Wc & _ & _).
  rewrite bshape_nil_l in Hsc. injection Hsc as <-. split; auto. exists B. split; auto.
  intros J HJ. rewrite <- (Rplus_0_l (B J)).
  apply (iadd_in _ _ _ _ _ _ _ _ W0 Wy H); [reflexivity|].
  rewrite bidx_valid; [auto|]. apply valid_app; auto. eapply bidx_compat_valid; eauto.
Qed.

Lemma con_add_zero a i y v c : compat a S -> con a i y v -> iadd y zero_c = Ok c -> con a i c v.
Proof.
  intros Ca (Wy & B & HB & ->) H.
  assert (W0 : wfs [] (zero_c : coef R)) by reflexivity.
  destruct (iadd_spec _ _ _ _ _ Wy W0 H) as (sc & Hsc & Wc & _ & _).
  rewrite bshape_nil_r in Hsc. injection Hsc as <-. split; auto. exists B. split; auto.
  intros J HJ. rewrite <- (Rplus_0_r (B J)).
  apply (iadd_in _ _ _ _ _ _ _ _ Wy W0 H); [|reflexivity].
  rewrite bidx_valid; [auto|]. apply valid_app; auto. eapply bidx_compat_valid; eauto.
Qed.

Lemma con_neg a i x u : con a i x u -> con a i (ineg x) (- u).
Proof.
  intros (Wx & A & HA & ->). split; [apply ineg_wfs; auto|]. exists (fun J => - A J). split.
  - intros J HJ. apply ineg_in; auto.
  - unfold term_value. replace (- sumi _ _) with (-1 * sumi (rep i X) (fun J => A J * zpow (length X) z i J)) by ring.
    rewrite <- sumi_scal. apply sumi_ext. intros. ring.
Qed.

Lemma term_value_mult i j A B :
  term_value X z i A * term_value X z j B =
  term_value X z (i + j) (fun K => A (firstn (i * length X) K) * B (skipn (i * length X) K)).
Proof.
  unfold term_value. rewrite sumi_mult, rep_app. apply sumi_ext. intros K HK.
  apply valid_app_inv in HK. destruct HK as (I & J & -> & HI & HJ).
  pose proof (valid_length _ _ HI) as L. rewrite rep_length in L.
  rewrite rep_length, firstn_exact, skipn_exact by auto. rewrite zpow_app by auto. ring.
Qed.

Lemma con_tp a b i j x y u v c : compat a S -> compat b S -> con a i x u -> con b j y v ->
  elementwise_term_product_coefficient (length X) x y i j = Ok c ->
  exists q, bshape a b = Some q /\ con q (i + j) c (u * v).
Proof.
  intros Ca Cb (Wx & A & HA & ->) (Wy & B & HB & ->) H. unfold elementwise_term_product_coefficient in H.
  rewrite <- !rep_length in H.
  destruct (ibil_some_ok _ _ _ _ _ _ _ Wx Wy H) as (x' & y' & z' & Sx & Sy & Hz).
  destruct (pbm_shapes _ _ _ _ _ _ _ Sx Sy Hz) as (q & Hq & _). exists q. split; auto.
  destruct (ibil_prod _ _ _ _ _ _ _ _ _ (pbm_prodop a (rep i X) b (rep j X) q Hq) Wx Wy H) as [Wc D].
  pose proof (bshape_spec _ _ _ Hq) as [C1 C2]. pose proof (bshape_least _ _ _ _ Hq Ca Cb) as Cq.
  split; [rewrite rep_app; auto|]. rewrite term_value_mult. eexists. split; [|reflexivity]. intros K HK. rewrite rep_app in HK.
  assert (Vq : valid q (bidx q s)) by (eapply bidx_compat_valid; eauto).
  pose proof (valid_length _ _ Vq) as Lq.
  apply D; [apply valid_app; auto| |]; apply valid_app_inv in HK; destruct HK as (I & J & -> & HI & HJ);
    pose proof (valid_length _ _ HI) as L; pose proof L as L'; rewrite rep_length in L'.
  - unfold pbm_a. rewrite (firstn_exact (bidx q s)), (skipn_exact (bidx q s)), !(firstn_exact I), bidx_join by auto. auto.
  - unfold pbm_b. rewrite (firstn_exact (bidx q s)), bidx_join by auto.
    rewrite (app_assoc _ I J), !skipn_exact by (rewrite ?app_length; lia). auto.
Qed.

Lemma term_value_pow i A e : (term_value X z i A) ^ e = term_value X z (i * e) (zpow (i * length X) A e).
Proof.
  induction e as [|e IH].
  - rewrite Nat.mul_0_r. unfold term_value. simpl. ring.
  - simpl pow. rewrite IH, term_value_mult. replace (i * Datatypes.S e)%nat with (i + i * e)%nat by lia.
    unfold term_value. apply sumi_ext. intros K HK. rewrite rep_app in HK.
    apply valid_app_inv in HK. destruct HK as (I & J & -> & HI & HJ). simpl zpow.
    reflexivity.
Qed.

Lemma con_tpow a i x u e c : compat a S -> con a i x u -> (1 <= e)%nat ->
  elementwise_term_power_coefficient (length X) x i e = Ok c -> con a (i * e) c (u ^ e).
Proof.
  intros Ca (Wx & A & HA & ->) He H. unfold elementwise_term_power_coefficient in H.
  rewrite (wfs_indim _ _ Wx) in H. dif H E; [discriminate|].
  replace (length (a ++ rep i X) - i * length X)%nat with (length a) in H by (rewrite app_length, rep_length; lia).
  destruct (iouter_power_spec _ _ _ _ _ Wx H He) as [Wc D].
  split; [rewrite Nat.mul_comm, rep_mul; auto|]. rewrite term_value_pow. eexists. split; [|reflexivity].
  intros K HK. rewrite Nat.mul_comm, rep_mul in HK. rewrite <- rep_length. apply D; auto.
  eapply bidx_compat_valid; eauto.
Qed.

Lemma con_tpow0 i x c : elementwise_term_power_coefficient (length X) x i 0 = Ok c -> con [] 0 c 1.
Proof.
  unfold elementwise_term_power_coefficient. intros H. dif H E; [discriminate|].
  unfold iouter_power in H. simpl in H. injection H as <-. split; [reflexivity|].
  exists (fun _ => 1). split; [intros; reflexivity|]. unfold term_value. simpl. ring.
Qed.

Lemma con_smul a i (k : R) x u c : compat a S -> con a i x u -> imul (Arr (tscalar k)) x = Ok c -> con a i c (k * u).
Proof.
  intros Ca (Wx & A & HA & ->) H.
  assert (W0 : wfs [] (Arr (tscalar k))) by reflexivity.
  destruct (imul_spec _ _ _ _ _ W0 Wx H) as (sc & Hsc & Wc & D).
  rewrite bshape_nil_l in Hsc. injection Hsc as <-. split; auto. exists (fun J => k * A J). split.
  - intros J HJ. assert (V : valid (a ++ rep i X) (bidx a s ++ J)) by (apply valid_app; auto; eapply bidx_compat_valid; eauto).
    apply D; auto; [reflexivity|]. rewrite bidx_valid; auto.
  - unfold term_value. rewrite <- sumi_scal. apply sumi_ext. intros. ring.
Qed.

Lemma term_value_split d k A :
  term_value X z (d + k) A = term_value X z d (fun J => sumi (rep k X) (fun K => A (J ++ K) * zpow (length X) z k K)).
Proof.
  unfold term_value. rewrite rep_app, sumi_app. apply sumi_ext. intros I HI. rewrite <- sumi_scal_r.
  apply sumi_ext. intros J HJ. rewrite zpow_app by (rewrite (valid_length _ _ HI), rep_length; auto). ring.
Qed.

Lemma con_contract a d k x u tr w c : compat a S -> con a (d + k) x u ->
  wfs (rep k X) w -> (forall K, valid (rep k X) K -> inat w K (zpow (length X) z k K)) ->
  tr = (k * length X)%nat -> itensordot x w tr = Ok c -> con a d c u.
Proof.
  intros Ca (Wx & A & HA & ->) Ww Hw -> H. rewrite rep_app, app_assoc in Wx.
  rewrite <- (app_nil_r (rep k X)) in Ww.
  destruct (itensordot_loc _ (a ++ rep d X) (rep k X) [] _ _ _ ltac:(apply rep_length) Wx Ww H) as [Wc D].
  rewrite app_nil_r in Wc. split; auto. rewrite term_value_split. eexists. split; [|reflexivity].
  intros J HJ. cbv beta. rewrite <- (app_nil_r (bidx a s ++ J)).
  apply (D (fun K => A (J ++ K)) (fun K => zpow (length X) z k K)).
  - apply valid_app; auto. eapply bidx_compat_valid; eauto.
  - constructor.
  - intros K HK. rewrite <- app_assoc. apply HA. rewrite rep_app. apply valid_app; auto.
  - intros K HK. rewrite app_nil_r. auto.
Qed.

Lemma point_power zc k w : wfs X zc -> (forall J, valid X J -> inat zc J (z J)) ->
  iouter_power zc (Z.of_nat k) 0 = Ok w ->
  wfs (rep k X) w /\ forall K, valid (rep k X) K -> inat w K (zpow (length X) z k K).
Proof.
  intros W HR H. destruct k as [|k].
  - unfold iouter_power in H. simpl in H. injection H as <-. split; [reflexivity|]. intros K HK. reflexivity.
  - destruct (iouter_power_spec [] X _ _ _ W H ltac:(lia)) as [Wc D]. split; auto.
    apply (D [] z); [constructor|]. auto.
Qed.

Lemma region_coef tr : in_region X tr z ->
  wfs X (Ivl (fst tr) (snd tr)) /\ forall J, valid X J -> inat (Ivl (fst tr) (snd tr)) J (z J).
Proof. intros (S1 & S2 & HR). split; [split; auto|exact HR]. Qed.

Lemma region_power tr k w : in_region X tr z -> iouter_power (Ivl (fst tr) (snd tr)) (Z.of_nat k) 0 = Ok w ->
  wfs (rep k X) w /\ forall K, valid (rep k X) K -> inat w K (zpow (length X) z k K).
Proof. intros H. destruct (region_coef tr H). apply point_power; auto. Qed.
End Con.
