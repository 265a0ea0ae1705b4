(** Properties C13-C20 and C22: evaluation of enclosures and enclosure arithmetic. *)
From Coq Require Import Reals Lra Psatz.
From Verif Require Import Base Tensor IntervalArith Polynomials Enclosure TensorLemmas Spec IntervalProofs PowerProofs PolyProofs Graded EnclosureOps EnclosureProofs BilinearProofs ComposeProofs PropArith.
Open Scope R_scope.

(** ** C13 *)
Lemma encloses_eval P P' S X z enc f zc r : prefixes S P P' ->
  wfs X zc -> (forall J, valid X J -> inat zc J (z J)) ->
  encloses P X S enc z f -> eval_taylor_enclosure enc zc = Ok r ->
  forall s, valid S s -> exists p, P 0%nat p /\ wfs p r /\ inat r (bidx p s) (f s).
Proof.
  intros PF Wz Hz [Hne He] H s Hs. specialize (He s Hs). apply encl_from_F2i in He. destruct He as (us & HF & ->).
  destruct (eval_point_rel S P P' PF X z s Hs zc Wz Hz 0 enc us r HF Hne H) as (p & Hp & W & A & HA & ->).
  simpl in W. rewrite app_nil_r in W. exists p. split; auto. split; auto.
  specialize (HA [] ltac:(constructor)). rewrite app_nil_r in HA. unfold term_value. simpl.
  replace (A [] * 1) with (A []) by ring. auto.
Qed.

(** Contracting an interval with a plain array attains both ends. *)
Lemma itensordot_att k s1 sk a y c : length sk = k -> wfs (s1 ++ sk) a -> ordered a -> tshape y = sk ->
  itensordot a (Arr y) k = Ok c -> forall I, valid s1 I ->
  (exists A, (forall K, valid sk K -> inat a (I ++ K) (A K)) /\ tdata (lo c) I = sumi sk (fun K => A K * tdata y K)) /\
  (exists A, (forall K, valid sk K -> inat a (I ++ K) (A K)) /\ tdata (hi c) I = sumi sk (fun K => A K * tdata y K)).
Proof.
  intros Hk Wa [_ Oa] Hy H I HI. rewrite (wfs_lo _ _ Wa) in Oa.
  assert (Wy : wfs (sk ++ []) (Arr y)) by (simpl; rewrite app_nil_r; auto).
  destruct (itensordot_loc k s1 sk [] a (Arr y) c Hk Wa Wy H) as [Wc D].
  unfold itensordot in H. destruct a as [x|l h].
  - apply ibil_arr in H. destruct H as (w & -> & _).
    specialize (D (fun K => tdata x (I ++ K)) (fun K => tdata y K) I [] HI (Forall2_nil _)).
    rewrite app_nil_r in D. simpl in D. simpl lo. simpl hi.
    rewrite <- D by (intros; rewrite ?app_nil_r; reflexivity).
    split; exists (fun K => tdata x (I ++ K)); split; auto; intros; reflexivity.
  - destruct (Nat.eqb_spec k 0) as [->|Hk0].
    + destruct sk; [|discriminate]. rewrite app_nil_r in *.
      destruct (ibil_prod_gen _ _ _ _ _ _ _ _ _ (tensordot0_prodop s1 []) Wa Wy H) as [_ E].
      rewrite app_nil_r in E. destruct (E I HI) as [_ E2]. rewrite firstn_all2, skipn_all2 in E2 by (rewrite (valid_length _ _ HI); auto).
      specialize (E2 (Oa I HI) (Rle_refl _)). destruct E2 as [(u & v & Hu & Hv & ->) (u' & v' & Hu' & Hv' & ->)].
      simpl in Hv, Hv'. subst v v'.
      split; [exists (fun _ => u)|exists (fun _ => u')]; (split; [|simpl; ring]); intros K HK; apply valid_nil in HK; subst K; rewrite app_nil_r; auto.
    + simpl in H. destruct Wa as [L1 L2]. pose proof (tensordot_posop k s1 sk [] Hk) as [PV _]. rewrite !app_nil_r in PV.
      ok_inv. subst c.
      match goal with H1 : ttensordot k l (pos_part y) = Ok ?p, H2 : ttensordot k h (neg_part y) = Ok ?q, H3 : tadd ?p ?q = Ok ?l',
        H4 : ttensordot k h (pos_part y) = Ok ?r, H5 : ttensordot k l (neg_part y) = Ok ?s, H6 : tadd ?r ?s = Ok ?h' |- _ =>
        destruct (PV _ _ _ L1 (Hy : tshape (pos_part y) = _) H1) as [S1 D1];
        destruct (PV _ _ _ L2 (Hy : tshape (neg_part y) = _) H2) as [S2 D2];
        destruct (tadd_same _ _ _ _ H3 S1 S2) as [S3 D3];
        destruct (PV _ _ _ L2 (Hy : tshape (pos_part y) = _) H4) as [S4 D4];
        destruct (PV _ _ _ L1 (Hy : tshape (neg_part y) = _) H5) as [S5 D5];
        destruct (tadd_same _ _ _ _ H6 S4 S5) as [S6 D6] end.
      simpl lo; simpl hi. rewrite D3, D6, D1, D2, D4, D5 by auto. unfold td_terms.
      rewrite <- !(sumi_wsum sk (fun K => firstn (length s1) I ++ K) (fun K => K ++ skipn (length s1) I)).
      rewrite firstn_all2, skipn_all2 by (rewrite (valid_length _ _ HI); auto).
      rewrite <- !sumi_plus.
      assert (OO : forall K, valid sk K -> tdata l (I ++ K) <= tdata h (I ++ K)) by (intros; apply Oa, valid_app; auto).
      split.
      * exists (fun K => if Rle_dec 0 (tdata y K) then tdata l (I ++ K) else tdata h (I ++ K)). split.
        -- intros K HK. specialize (OO K HK). destruct Rle_dec; simpl; lra.
        -- apply sumi_ext. intros K HK. rewrite app_nil_r. simpl. unfold Rmax, Rmin. destruct Rle_dec; try (destruct Rle_dec); try lra.
      * exists (fun K => if Rle_dec 0 (tdata y K) then tdata h (I ++ K) else tdata l (I ++ K)). split.
        -- intros K HK. specialize (OO K HK). destruct Rle_dec; simpl; lra.
        -- apply sumi_ext. intros K HK. rewrite app_nil_r. simpl. unfold Rmax, Rmin. destruct Rle_dec; try (destruct Rle_dec); try lra.
Qed.

Definition is_arr {T} (c : coef T) : Prop := exists t, c = Arr t.

Lemma ibil_is_arr {T} {N : Num T} f pr (a b c : coef T) : is_arr a -> is_arr b -> ibilinear a b f pr = Ok c -> is_arr c.
Proof. intros [x ->] [y ->] H. simpl in H. apply bind_ok in H. destruct H as (t & _ & H). injection H as <-. eexists; eauto. Qed.
Lemma iadd_is_arr {T} {N : Num T} (a b c : coef T) : is_arr a -> is_arr b -> iadd a b = Ok c -> is_arr c.
Proof. intros [x ->] [y ->] H. simpl in H. apply bind_ok in H. destruct H as (t & _ & H). injection H as <-. eexists; eauto. Qed.
Lemma ipower_is_arr {T} {N : Num T} (a : coef T) k c : is_arr a -> ipower a k = Ok c -> is_arr c.
Proof. intros [x ->] H. simpl in H. destruct (k <? 0)%Z; [discriminate|]. injection H as <-. eexists; eauto. Qed.
Lemma running_is_arr {T} {N : Num T} m : forall (r a : coef T) bd c, is_arr r -> is_arr a -> running_outer r a bd m = Ok c -> is_arr c.
Proof.
  induction m; intros r a bd c Hr Ha H; simpl in H; [injection H as <-; auto|].
  apply bind_ok in H. destruct H as (r' & H1 & H). eapply IHm; [|exact Ha|exact H].
  unfold iouter_product in H1. destruct (_ || _); [discriminate|]. exact (ibil_is_arr _ _ _ _ _ Hr Ha H1).
Qed.
Lemma gdiag_is_arr {T} {N : Num T} (a : coef T) n c : is_arr a -> generalized_diag_interval a n = Ok c -> is_arr c.
Proof. intros [x ->] H. simpl in H. apply bind_ok in H. destruct H as (t & _ & H). injection H as <-. eexists; eauto. Qed.
Lemma iouter_power_is_arr {T} {N : Num T} (a : coef T) k bd c : is_arr a -> iouter_power a k bd = Ok c -> is_arr c.
Proof.
  intros Ha H. unfold iouter_power in H. destruct (k <? 0)%Z; [discriminate|]. destruct (k =? 0)%Z; [injection H as <-; eexists; eauto|].
  destruct (_ =? 0)%nat; [eapply ipower_is_arr; eauto|].
  apply bind_ok in H. destruct H as (r & Hr & H). apply running_is_arr in Hr; auto.
  destruct (negb _); [injection H as <-; auto|].
  destruct (generalized_diag_ndarray _ _) as [e|[]]; try discriminate; [|injection H as <-; auto].
  apply bind_ok in H. destruct H as (de & Hde & H). apply bind_ok in H. destruct H as (dg & Hdg & H).
  apply bind_ok in H. destruct H as (off & Hoff & H).
  refine (iadd_is_arr _ _ _ _ _ H).
  - exact (ibil_is_arr _ _ _ _ _ Hr (ex_intro _ _ eq_refl) Hoff).
  - exact (gdiag_is_arr _ _ _ (ipower_is_arr _ _ _ Ha Hde) Hdg).
Qed.

(** [enc] is a list of well-shaped, ordered coefficients for outputs of shape [S]. *)
Definition good_coeffs (S X : list nat) (enc : list (coef R)) : Prop :=
  forall i c, nth_error enc i = Some c -> ordered c /\ exists p, compat p S /\ wfs (p ++ rep i X) c.

Section Attain.
Variables (S X : list nat) (z : list nat -> R) (s : list nat).
Hypothesis Hs : valid S s.
Variable zt : tensor R.
Hypothesis Hzt : tshape zt = X.
Hypothesis Hz : forall J, valid X J -> z J = tdata zt J.
Let G := contributes (bcast S) X z s.

Lemma loop_att : forall cs i zi running q r,
  (forall j c, nth_error cs j = Some c -> ordered c /\ exists p, compat p S /\ wfs (p ++ rep (i + j) X) c) ->
  (i = 0%nat -> zi = one_c) ->
  compat q S -> wfs q running ->
  eval_poly_loop iadd inner_product (fun x k => iouter_power x k 0) (Arr zt) i zi running cs = Ok r ->
  exists p, compat p S /\ wfs p r /\
   (exists us, F2i G i cs us /\ tdata (lo r) (bidx p s) = tdata (lo running) (bidx q s) + Rsum us) /\
   (exists us, F2i G i cs us /\ tdata (hi r) (bidx p s) = tdata (hi running) (bidx q s) + Rsum us).
Proof.
  induction cs as [|c cs IH]; intros i zi running q r Hc Hi Cq Wq H; cbn [eval_poly_loop] in H.
  - injection H as <-. exists q. split; auto. split; auto. split; exists []; (split; [constructor|simpl; ring]).
  - apply bind_ok in H. destruct H as (zi' & Hz' & H). apply bind_ok in H. destruct H as (term & Ht & H).
    apply bind_ok in H. destruct H as (run' & Hr & H).
    destruct (Hc 0%nat c eq_refl) as (Oc & p & Cp & Wc). rewrite Nat.add_0_r in Wc.
    assert (Hpow : iouter_power (Arr zt) (Z.of_nat i) 0 = Ok zi').
    { destruct i; simpl in Hz'; [injection Hz' as <-; rewrite (Hi eq_refl); reflexivity|exact Hz']. }
    destruct (point_power X z (Arr zt) i zi' Hzt Hz Hpow) as [Wz Iz].
    destruct (iouter_power_is_arr _ _ _ _ (ex_intro _ zt eq_refl) Hpow) as [y ->].
    simpl in Wz. unfold inner_product in Ht. simpl in Ht. unfold tndim in Ht. rewrite Wz in Ht.
    assert (Wy : wfs (rep i X ++ []) (Arr y)) by (simpl; rewrite app_nil_r; auto).
    destruct (itensordot_loc _ p (rep i X) [] c (Arr y) term eq_refl Wc Wy Ht) as [Wt _]. rewrite app_nil_r in Wt.
    destruct (itensordot_att _ p (rep i X) c y term eq_refl Wc Oc Wz Ht (bidx p s)) as [(A & HA & EA) (B & HB & EB)].
    { eapply bidx_compat_valid; eauto. }
    destruct (iadd_spec _ _ _ _ _ Wq Wt Hr) as (q' & Hq' & Wr & L & U).
    assert (Cq' : compat q' S) by (eapply bshape_least; eauto).
    pose proof (bshape_spec _ _ _ Hq') as [Q1 Q2].
    destruct (IH (Datatypes.S i) (Arr y) run' q' r) as (p' & Cp' & Wp' & (us & Hus & Eus) & (vs & Hvs & Evs)); auto.
    { intros j c' Hj. specialize (Hc (Datatypes.S j) c' Hj). rewrite Nat.add_succ_r in Hc. exact Hc. }
    { discriminate. }
    exists p'. split; auto. split; auto.
    rewrite L, (bidx_join _ _ Hs _ _ Q1 Cq'), (bidx_join _ _ Hs _ _ Q2 Cq'), EA in Eus.
    rewrite U, (bidx_join _ _ Hs _ _ Q1 Cq'), (bidx_join _ _ Hs _ _ Q2 Cq'), EB in Evs.
    assert (TV : forall A, sumi (rep i X) (fun K => A K * tdata y K) = term_value X z i A).
    { intros A'. unfold term_value. apply sumi_ext. intros K HK. specialize (Iz K HK). simpl in Iz. rewrite Iz. reflexivity. }
    split; [exists (term_value X z i A :: us)|exists (term_value X z i B :: vs)]; (split; [constructor; auto|]).
    + exists p. split; auto. split; auto. exists A. auto.
    + rewrite Eus, TV. simpl. ring.
    + exists p. split; auto. split; auto. exists B. auto.
    + rewrite Evs, TV. simpl. ring.
Qed.
End Attain.

(** C13 (containment): evaluating at a point or an interval contains every value
    of every selection. *)
Theorem C13_eval_contains : forall S X enc zc z f r,
  encloses (bcast S) X S enc z f ->
  wfs X zc -> (forall J, valid X J -> inat zc J (z J)) ->
  eval_taylor_enclosure enc zc = Ok r ->
  forall s, valid S s -> exists p, compat p S /\ wfs p r /\ inat r (bidx p s) (f s).
Proof. intros S X enc zc z f r He Wz Hz H. exact (encloses_eval _ _ _ _ _ _ _ _ _ (pf_bcast S) Wz Hz He H). Qed.

(** The same when every coefficient has the full shape: the result has shape [S]. *)
Theorem C13_eval_contains_full : forall S X enc zc z f r,
  encloses (full S) X S enc z f ->
  wfs X zc -> (forall J, valid X J -> inat zc J (z J)) ->
  eval_taylor_enclosure enc zc = Ok r ->
  forall s, valid S s -> wfs S r /\ inat r s (f s).
Proof.
  intros S X enc zc z f r He Wz Hz H s Hs.
  destruct (encloses_eval _ _ _ _ _ _ _ _ _ (pf_full S) Wz Hz He H s Hs) as (p & Hp & W & I).
  unfold full in Hp. subst p. rewrite (bidx_valid S s Hs) in I. auto.
Qed.

(** C13 (sharpness): at a point both ends are values of selections. *)
Theorem C13_eval_ends_attained : forall S X enc zt r,
  good_coeffs S X enc -> tshape zt = X ->
  eval_taylor_enclosure enc (Arr zt) = Ok r ->
  forall s, valid S s -> exists p, compat p S /\ wfs p r /\
    encl_from (bcast S) X (tdata zt) s 0 enc (tdata (lo r) (bidx p s)) /\
    encl_from (bcast S) X (tdata zt) s 0 enc (tdata (hi r) (bidx p s)).
Proof.
  intros S X enc zt r Hg Hzt H s Hs. unfold eval_taylor_enclosure, eval_polynomial in H.
  destruct (loop_att S X (tdata zt) s Hs zt Hzt (fun _ _ => eq_refl) enc 0 one_c zero_c [] r) as (p & Cp & Wp & (us & Hus & Eu) & (vs & Hvs & Ev)); auto.
  - apply compat_nil.
  - reflexivity.
  - exists p. split; auto. split; auto. simpl in Eu, Ev. split; apply encl_from_F2i; [exists us|exists vs]; split; auto; lra.
Qed.

(** Elementwise enclosures. *)
Lemma ew_compat S E : ew_shape S E -> compat E S.
Proof. intros [->|[H _]]; auto. apply compat_nil. Qed.

Theorem C13_eval_elementwise_contains : forall S s Z zc d e v r,
  valid S s -> compat Z S -> wfs Z zc -> inat zc (bidx Z s) d ->
  ew_from S s 0 e d v ->
  eval_elementwise_taylor_enclosure e zc = Ok r ->
  exists p, compat p S /\ wfs p r /\ inat r (bidx p s) v.
Proof.
  intros S s Z zc d e v r Hs CZ WZ Hd He H. unfold eval_elementwise_taylor_enclosure, eval_polynomial in H.
  assert (G : forall cs i zi running q u v, ew_from S s i cs d v -> (i = 0%nat -> zi = one_c) -> compat q S -> wfs q running ->
     inat running (bidx q s) u ->
     eval_poly_loop iadd imul ipower zc i zi running cs = Ok r -> exists p, compat p S /\ wfs p r /\ inat r (bidx p s) (u + v)).
  { clear He H v e. induction cs as [|c cs IH]; intros i zi running q u v He Hi Cq Wq Hu H; cbn [eval_poly_loop] in H.
    - simpl in He. subst v. injection H as <-. exists q. rewrite Rplus_0_r. auto.
    - apply bind_ok in H. destruct H as (zi' & Hz' & H). apply bind_ok in H. destruct H as (term & Ht & H).
      apply bind_ok in H. destruct H as (run' & Hr & H).
      simpl in He. destruct He as (E & w & v' & HE & Wc & Hw & Hv' & ->). apply ew_compat in HE.
      assert (HZ : exists q, compat q S /\ wfs q zi' /\ inat zi' (bidx q s) (d ^ i)).
      { destruct i.
        - simpl in Hz'. injection Hz' as <-. rewrite (Hi eq_refl). exists []. split; [apply compat_nil|]. split; reflexivity.
        - simpl in Hz'. exists Z. split; auto.
          destruct (ipower_lohi _ _ (Z.of_nat (Datatypes.S i)) _ WZ ltac:(lia) Hz') as (W & _).
          split; auto. rewrite <- (Nat2Z.id (Datatypes.S i)). refine (ipower_in _ _ _ _ _ _ WZ _ Hz' _ Hd); [lia|]. eapply bidx_compat_valid; eauto. }
      destruct HZ as (Q & CQ & WQ & HQ).
      destruct (imul_spec _ _ _ _ _ Wc WQ Ht) as (t & Ht' & Wt & It). pose proof (bshape_spec _ _ _ Ht') as [T1 T2].
      assert (Ct : compat t S) by (eapply bshape_least; eauto).
      specialize (It (bidx t s) w (d ^ i) (bidx_compat_valid _ _ _ Ct Hs)). rewrite !(bidx_join _ _ Hs) in It by auto. specialize (It Hw HQ).
      destruct (iadd_spec _ _ _ _ _ Wq Wt Hr) as (q' & Hq' & Wr & _). pose proof (bshape_spec _ _ _ Hq') as [Q1 Q2].
      assert (Cq' : compat q' S) by (eapply bshape_least; eauto).
      rewrite <- Rplus_assoc. eapply IH; [exact Hv'|discriminate|exact Cq'|exact Wr| |exact H].
      refine (iadd_in _ _ _ _ _ (bidx q' s) _ _ Wq Wt Hr _ _); rewrite (bidx_join _ _ Hs) by auto; auto. }
  destruct (G e 0%nat (Arr (tscalar n1)) (Arr (tscalar n0)) [] 0 v) as (p & Cp & Wp & I); auto.
  - apply compat_nil.
  - reflexivity.
  - reflexivity.
  - exists p. rewrite Rplus_0_l in I. auto.
Qed.

(** Number of coefficients of a successful result. *)
Definition ncoef {T} (r : res (list (coef T))) : option nat := match r with Ok c => Some (length c) | Err _ => None end.
(** f(x) = (x0 + 2 x1) with an interval quadratic coefficient, x of shape (2). *)
Definition ex_enc : list (coef R) :=
  [Arr (tscalar 5); Arr (mkT [2]%nat (fun I => INR (nth 0 I 0%nat) + 1));
   Ivl (mkT [2;2]%nat (fun _ => -1)) (mkT [2;2]%nat (fun _ => 1))].
Example C13_nonvacuous : exists r,
  good_coeffs [] [2]%nat ex_enc /\
  eval_taylor_enclosure ex_enc (Arr (mkT [2]%nat (fun _ => 1))) = Ok r /\ ishape r = [].
Proof.
  eexists. split; [|split; reflexivity].
  intros [|[|[|[|]]]] c [= <-]; (split; [|exists []; split; [apply compat_nil|]; simpl; auto]);
    (split; [simpl; auto|]); simpl; intros; lra.
Qed.

(** ** C14 *)
Lemma encloses_enclose P P' S X z tr enc f D enc' : prefixes S P P' -> in_region X tr z ->
  encloses P X S enc z f -> enclose_enclosure enc tr D = Ok enc' -> encloses P X S enc' z f.
Proof.
  intros PF Htr [Hne He] H. split.
  - unfold enclose_enclosure in H. destruct (_ <=? _)%nat; [injection H as <-; auto|]. apply bind_ok in H. destruct H as (c & _ & H).
    injection H as <-. intros E. apply app_eq_nil in E. destruct E; discriminate.
  - intros s Hs. specialize (He s Hs). apply encl_from_F2i in He. destruct He as (us & HF & ->).
    destruct (enclose_rel S P P' PF X z s Hs tr Htr enc us D enc' HF H) as (us' & HF' & <- & _).
    apply encl_from_F2i. eauto.
Qed.

Lemma enclose_shape {T} {N : Num T} (enc : list (coef T)) tr D enc' : enclose_enclosure enc tr D = Ok enc' ->
  length enc' = Nat.min (length enc) (D + 1) /\ firstn D enc' = firstn D enc /\ ((length enc <= D + 1)%nat -> enc' = enc).
Proof.
  intros H. unfold enclose_enclosure in H. destruct (Nat.leb_spec (length enc) (D + 1)) as [Hle|Hgt].
  - injection H as <-. repeat split; auto. lia.
  - apply bind_ok in H. destruct H as (c & Hc & H). injection H as <-. rewrite app_length, firstn_length. simpl. split; [lia|].
    rewrite firstn_app, firstn_firstn, firstn_length. replace (Nat.min D D) with D by lia.
    replace (D - Nat.min D (length enc))%nat with 0%nat by lia. simpl. rewrite app_nil_r. split; auto. lia.
Qed.

(** C14: lowering the degree keeps everything that is enclosed on the trust
    region, has degree at most [d], is the identity when nothing has to be done
    and never changes a coefficient below [d]. *)
Theorem C14_enclose_enclosure : forall enc tr d enc',
  enclose_enclosure enc tr d = Ok enc' ->
  (length enc' <= d + 1)%nat /\
  ((length enc <= d + 1)%nat -> enc' = enc) /\
  (forall i, (i < d)%nat -> nth_error enc' i = nth_error enc i) /\
  (forall S X z f, in_region X tr z ->
     (encloses (bcast S) X S enc z f -> encloses (bcast S) X S enc' z f) /\
     (encloses (full S) X S enc z f -> encloses (full S) X S enc' z f)).
Proof.
  intros enc tr d enc' H. destruct (enclose_shape _ _ _ _ H) as (L & F & E). split; [lia|]. split; auto. split.
  - intros i Hi. assert (Hn : forall l : list (coef R), nth_error (firstn d l) i = nth_error l i).
    { clear -Hi. revert i Hi. induction d; intros i Hi l; [lia|]. destruct l; auto. destruct i; simpl; auto. apply IHd. lia. }
    rewrite <- (Hn enc'), F, Hn. reflexivity.
  - intros S X z f Htr. split; intros HE.
    + eapply encloses_enclose; eauto. apply pf_bcast.
    + eapply encloses_enclose; eauto. apply pf_full.
Qed.

Definition ex_tr : tensor R * tensor R := (mkT [2]%nat (fun _ => -1), mkT [2]%nat (fun _ => 2)).
Example C14_nonvacuous : exists r z, in_region [2]%nat ex_tr z /\ enclose_enclosure ex_enc ex_tr 1 = Ok r /\ length r = 2%nat /\
  encloses (full []) [2]%nat [] ex_enc z (fun _ => 7).
Proof.
  do 2 eexists. split; [|split; [reflexivity|split; [reflexivity|]]].
  - instantiate (1 := fun _ => 1). split; [reflexivity|]. split; [reflexivity|]. simpl. intros; lra.
  - split; [discriminate|]. intros s Hs. apply valid_nil in Hs. subst s. simpl.
    exists 5, 2. split; [|split; [|lra]].
    + exists []. split; [reflexivity|]. split; [reflexivity|]. exists (fun _ => 5). split; [reflexivity|]. unfold term_value. simpl. ring.
    + exists 3, (-1). split; [|split; [|lra]].
      * exists []. split; [reflexivity|]. split; [reflexivity|]. eexists. split; [intros J _; reflexivity|]. unfold term_value. simpl. ring.
      * exists (-1), 0. split; [|split; [reflexivity|ring]]. exists []. split; [reflexivity|]. split; [split; reflexivity|].
        exists (fun _ => -1/4). split; [intros; simpl; lra|]. unfold term_value. simpl. field.
Qed.

(** ** Broadcasting *)
Lemma encloses_broadcast S S' X enc z f : compat S S' -> encloses (bcast S) X S enc z f ->
  encloses (bcast S') X S' enc z (fun s => f (bidx S s)).
Proof.
  intros C [Hne He]. split; auto. intros s Hs. specialize (He (bidx S s) (bidx_compat_valid _ _ _ C Hs)).
  apply encl_from_F2i in He. destruct He as (us & HF & ->). apply encl_from_F2i. exists us. split; auto.
  eapply F2i_impl; [|exact HF]. intros i c u _ (p & Hp & W & A & HA & ->). unfold bcast in *. exists p. split; [eapply compat_trans; eauto|].
  split; auto. exists A. split; auto. intros J HJ. specialize (HA J HJ). rewrite (bidx_join _ _ Hs) in HA by auto. auto.
Qed.

Lemma encl_binop P P1 P2 S X z c a b f g h :
  (forall s us vs, valid S s -> F2i (contributes P1 X z s) 0 a us -> F2i (contributes P2 X z s) 0 b vs ->
     exists ws, F2i (contributes P X z s) 0 c ws /\ Rsum ws = h (Rsum us) (Rsum vs)) ->
  c <> [] -> encloses P1 X S a z f -> encloses P2 X S b z g -> encloses P X S c z (fun s => h (f s) (g s)).
Proof.
  intros HH Hne [_ Ha] [_ Hb]. split; auto. intros s Hs. specialize (Ha s Hs). specialize (Hb s Hs).
  apply encl_from_F2i in Ha. destruct Ha as (us & HU & ->). apply encl_from_F2i in Hb. destruct Hb as (vs & HV & ->).
  destruct (HH s us vs Hs HU HV) as (ws & HW & <-). apply encl_from_F2i. eauto.
Qed.

(** ** C15 *)
Lemma add_coeffs_length {T} {N : Num T} : forall (a b c : list (coef T)), add_coeffs a b = Ok c -> length c = Nat.max (length a) (length b).
Proof.
  induction a as [|x a IH]; intros b c H; simpl in H; [injection H as <-; auto|].
  destruct b; [injection H as <-; auto|]. ok_inv. subst. simpl. f_equal. eauto.
Qed.
Lemma eadd_length {T} {N : Num T} (A : arith T) a b c : eadd A a b = Ok c -> length c = Nat.min (Nat.max (length a) (length b)) (max_degree A + 1).
Proof. intros H. unfold eadd in H. apply bind_ok in H. destruct H as (t & Ht & H). apply add_coeffs_length in Ht. apply enclose_shape in H. destruct H as [-> _]. rewrite Ht. auto. Qed.
Lemma eneg_length {T} {N : Num T} (A : arith T) a c : enegative A a = Ok c -> length c = Nat.min (length a) (max_degree A + 1).
Proof. intros H. apply enclose_shape in H. destruct H as [-> _]. rewrite map_length. auto. Qed.
Lemma esub_length {T} {N : Num T} (A : arith T) a b c : esubtract A a b = Ok c -> length c = Nat.min (Nat.max (length a) (length b)) (max_degree A + 1).
Proof. intros H. unfold esubtract in H. apply bind_ok in H. destruct H as (t & Ht & H). apply eneg_length in Ht. apply eadd_length in H. rewrite H, Ht. lia. Qed.
Lemma len_ne {B} (l : list B) : (0 < length l)%nat -> l <> [].
Proof. intros H ->. simpl in H. lia. Qed.
Lemma ne_len {B} (l : list B) : l <> [] -> (0 < length l)%nat.
Proof. destruct l; [congruence|simpl; lia]. Qed.

Section AddSub.
Variables (S : list nat) (P P' : nat -> list nat -> Prop).
Hypothesis PF : prefixes S P P'.
Variables (X : list nat) (z : list nat -> R) (tr : tensor R * tensor R) (D : nat).
Hypothesis Htr : in_region X tr z.

Lemma add_sound a b c f g : encloses P X S a z f -> encloses P X S b z g -> eadd (mkArith D tr) a b = Ok c ->
  encloses P X S c z (fun s => f s + g s).
Proof.
  intros Ha Hb H. eapply (encl_binop P P P S X z c a b f g Rplus); eauto.
  - intros s us vs Hs HU HV. destruct (eadd_rel S P P' PF X z s Hs tr Htr D a b c us vs HU HV H) as (ws & HW & HS & _). eauto.
  - apply len_ne. rewrite (eadd_length _ _ _ _ H). destruct Ha as [Ha _]. apply ne_len in Ha. simpl. lia.
Qed.
Lemma sub_sound a b c f g : encloses P X S a z f -> encloses P X S b z g -> esubtract (mkArith D tr) a b = Ok c ->
  encloses P X S c z (fun s => f s - g s).
Proof.
  intros Ha Hb H. eapply (encl_binop P P P S X z c a b f g Rminus); eauto.
  - intros s us vs Hs HU HV. destruct (esub_rel S P P' PF X z s Hs tr Htr D a b c us vs HU HV H) as (ws & HW & HS & _). eauto.
  - apply len_ne. rewrite (esub_length _ _ _ _ H). destruct Ha as [Ha _]. apply ne_len in Ha. simpl. lia.
Qed.
Lemma neg_sound a c f : encloses P X S a z f -> enegative (mkArith D tr) a = Ok c -> encloses P X S c z (fun s => - f s).
Proof.
  intros Ha H. split.
  - apply len_ne. rewrite (eneg_length _ _ _ H). destruct Ha as [Ha _]. apply ne_len in Ha. simpl. lia.
  - intros s Hs. destruct Ha as [_ Ha]. specialize (Ha s Hs). apply encl_from_F2i in Ha. destruct Ha as (us & HU & ->).
    destruct (eneg_rel S P P' PF X z s Hs tr Htr D a c us HU H) as (ws & HW & HS & _). apply encl_from_F2i. eauto.
Qed.
Lemma mul_sound a b c f g : encloses P X S a z f -> encloses P' X S b z g -> emultiply (mkArith D tr) a b = Ok c ->
  encloses P X S c z (fun s => f s * g s).
Proof.
  intros Ha Hb H. pose proof (proj1 Ha) as Na. pose proof (proj1 Hb) as Nb.
  assert (E : forall s us vs, valid S s -> F2i (contributes P X z s) 0 a us -> F2i (contributes P' X z s) 0 b vs ->
     exists ws, F2i (contributes P X z s) 0 c ws /\ Rsum ws = Rsum us * Rsum vs /\ length c = Nat.min (length a + length b - 1) (D + 1)).
  { intros s us vs Hs HU HV. exact (emul_rel S P P' PF X z s Hs tr Htr D a b c us vs HU HV Na Nb H). }
  eapply (encl_binop P P P' S X z c a b f g Rmult); eauto.
  - intros s us vs Hs HU HV. destruct (E s us vs Hs HU HV) as (ws & HW & HS & _). eauto.
  - unfold emultiply in H. ok_inv. apply enclose_shape in H. destruct H as [L _]. apply len_ne. rewrite L.
    assert (Lp : length a2 = (length a + length b - 1)%nat).
    { unfold poly_bilinear in Hb2. apply foldM_length in Hb2.
      - rewrite Hb2, repeat_length. auto.
      - intros o (i, x) o' Ho. apply foldM_length in Ho; auto. intros o1 (j, y) o2 Ho1. apply bind_ok in Ho1. destruct Ho1 as (t & _ & Ho1). eapply add_at_length; eauto. }
    rewrite Lp. apply ne_len in Na, Nb. simpl. lia.
Qed.
End AddSub.

(** C15: sums, differences and negations of enclosed functions are enclosed, with
    numpy broadcasting of the two output shapes. *)
Theorem C15_add_subtract_negative_sound : forall Sf Sg S X tr D a b z f g,
  bshape Sf Sg = Some S -> in_region X tr z ->
  encloses (bcast Sf) X Sf a z f -> encloses (bcast Sg) X Sg b z g ->
  (forall c, eadd (mkArith D tr) a b = Ok c ->
     encloses (bcast S) X S c z (fun s => f (bidx Sf s) + g (bidx Sg s))) /\
  (forall c, esubtract (mkArith D tr) a b = Ok c ->
     encloses (bcast S) X S c z (fun s => f (bidx Sf s) - g (bidx Sg s))) /\
  (forall c, enegative (mkArith D tr) a = Ok c ->
     encloses (bcast Sf) X Sf c z (fun s => - f s)).
Proof.
  intros Sf Sg S X tr D a b z f g HS Htr Ha Hb. apply bshape_spec in HS. destruct HS as [C1 C2].
  pose proof (encloses_broadcast _ _ _ _ _ _ C1 Ha) as Ha'. pose proof (encloses_broadcast _ _ _ _ _ _ C2 Hb) as Hb'.
  split; [|split]; intros c H.
  - exact (add_sound S _ _ (pf_bcast S) X z tr D Htr a b c _ _ Ha' Hb' H).
  - exact (sub_sound S _ _ (pf_bcast S) X z tr D Htr a b c _ _ Ha' Hb' H).
  - exact (neg_sound Sf _ _ (pf_bcast Sf) X z tr D Htr a c _ Ha H).
Qed.

(** Operands of one shape keep coefficients of the full shape. *)
Theorem C15_full_rank : forall S X tr D a b z f g,
  in_region X tr z -> encloses (full S) X S a z f -> encloses (full S) X S b z g ->
  (forall c, eadd (mkArith D tr) a b = Ok c -> encloses (full S) X S c z (fun s => f s + g s)) /\
  (forall c, esubtract (mkArith D tr) a b = Ok c -> encloses (full S) X S c z (fun s => f s - g s)) /\
  (forall c, enegative (mkArith D tr) a = Ok c -> encloses (full S) X S c z (fun s => - f s)).
Proof.
  intros S X tr D a b z f g Htr Ha Hb. split; [|split]; intros c H.
  - exact (add_sound S _ _ (pf_full S) X z tr D Htr a b c _ _ Ha Hb H).
  - exact (sub_sound S _ _ (pf_full S) X z tr D Htr a b c _ _ Ha Hb H).
  - exact (neg_sound S _ _ (pf_full S) X z tr D Htr a c _ Ha H).
Qed.

Example C15_nonvacuous :
  ncoef (eadd (mkArith 2 ex_tr) ex_enc ex_enc) = Some 3%nat /\
  ncoef (esubtract (mkArith 1 ex_tr) ex_enc ex_enc) = Some 2%nat.
Proof. split; vm_compute; reflexivity. Qed.

(** ** C16 *)
(** C16: products of enclosed functions are enclosed (with broadcasting). *)
Theorem C16_multiply_sound : forall Sf Sg S X tr D a b z f g c,
  bshape Sf Sg = Some S -> in_region X tr z ->
  encloses (bcast Sf) X Sf a z f -> encloses (bcast Sg) X Sg b z g ->
  emultiply (mkArith D tr) a b = Ok c ->
  encloses (bcast S) X S c z (fun s => f (bidx Sf s) * g (bidx Sg s)).
Proof.
  intros Sf Sg S X tr D a b z f g c HS Htr Ha Hb H. apply bshape_spec in HS. destruct HS as [C1 C2].
  exact (mul_sound S _ _ (pf_bcast S) X z tr D Htr a b c _ _ (encloses_broadcast _ _ _ _ _ _ C1 Ha) (encloses_broadcast _ _ _ _ _ _ C2 Hb) H).
Qed.

(** The full shape of the first factor is kept when the second has it too, or is
    a constant that broadcasts to it. *)
Theorem C16_full_rank : forall S X tr D a b z f g c,
  in_region X tr z -> encloses (full S) X S a z f -> encloses (full_tail S) X S b z g ->
  emultiply (mkArith D tr) a b = Ok c -> encloses (full S) X S c z (fun s => f s * g s).
Proof. intros S X tr D a b z f g c Htr Ha Hb H. exact (mul_sound S _ _ (pf_full S) X z tr D Htr a b c _ _ Ha Hb H). Qed.

Example C16_nonvacuous : ncoef (emultiply (mkArith 2 ex_tr) ex_enc ex_enc) = Some 3%nat.
Proof. vm_compute. reflexivity. Qed.

(** ** C17 *)
Lemma ones_contributes P X z s a0 v : contributes P X z s 0 a0 v ->
  contributes P X z s 0 (Arr (tones_like (left_end a0))) 1.
Proof.
  intros (p & Hp & W & _). exists p. split; auto. split.
  - simpl. change (left_end a0) with (lo a0). exact (wfs_lo _ _ W).
  - exists (fun _ => 1). split; [intros; reflexivity|]. unfold term_value. simpl. ring.
Qed.

Lemma power_sound S P P' X z tr D a n c f : prefixes S P P' -> (forall i p e, P i p -> (1 <= e)%nat -> P' (i * e)%nat p) ->
  in_region X tr z -> (exists s, valid S s) ->
  encloses P X S a z f -> epower_nat (mkArith D tr) a n = Ok c -> encloses P X S c z (fun s => f s ^ n).
Proof.
  intros PF HE Htr [s0 Hs0] [Hne Ha] H.
  assert (E : forall s, valid S s -> exists ws, F2i (contributes P X z s) 0 c ws /\ Rsum ws = f s ^ n /\
     length c = Nat.min (1 + (length a - 1) * n) (D + 1)).
  { intros s Hs. specialize (Ha s Hs). apply encl_from_F2i in Ha. destruct Ha as (us & HU & ->).
    destruct (epower_rel S P P' PF X z s Hs tr Htr D a n c us HE) as (ws & HW & HS & HL & _); eauto.
    inversion HU as [|? a0 r u us' G0 _]; subst; [congruence|]. exists a0, r. split; auto. eapply ones_contributes; eauto. }
  split.
  - destruct (E s0 Hs0) as (_ & _ & _ & L). apply len_ne. rewrite L. lia.
  - intros s Hs. destruct (E s Hs) as (ws & HW & HS & _). apply encl_from_F2i. eauto.
Qed.

(** C17: non-negative integer powers of enclosed functions are enclosed. *)
Theorem C17_power_sound : forall S X tr D a z f n c,
  in_region X tr z -> (exists s, valid S s) ->
  epower_nat (mkArith D tr) a n = Ok c ->
  (encloses (bcast S) X S a z f -> encloses (bcast S) X S c z (fun s => f s ^ n)) /\
  (encloses (full S) X S a z f -> encloses (full S) X S c z (fun s => f s ^ n)).
Proof.
  intros S X tr D a z f n c Htr Hne H. split; intros Ha.
  - eapply power_sound; eauto; [apply pf_bcast|]. auto.
  - eapply power_sound; eauto; [apply pf_full|]. intros i p e -> _. left. auto.
Qed.

Example C17_nonvacuous : ncoef (epower_nat (mkArith 2 ex_tr) ex_enc 3) = Some 3%nat.
Proof. vm_compute. reflexivity. Qed.

(** ** C18 *)
(** C18: a bilinear operation with non-negative weights, given by its pairwise
    batched version, maps enclosures of f and g to an enclosure of op(f, g). *)
Theorem C18_bilinear_sound : forall Sa Sb Sc terms pbb X tr D a b z f g c,
  pos_terms Sa Sb Sc terms -> pairwise_batched Sa Sb Sc terms pbb ->
  (exists i, valid Sa i) -> (exists j, valid Sb j) ->
  in_region X tr z ->
  encloses (full Sa) X Sa a z f -> encloses (full Sb) X Sb b z g ->
  earbitrary_bilinear (mkArith D tr) a b pbb = Ok c ->
  encloses (full Sc) X Sc c z (fun s => wsum (terms s) f g).
Proof.
  intros Sa Sb Sc terms pbb X tr D a b z f g c HT HB Na Nb Htr Ha Hb H.
  exact (proj2 (ebil_rel Sa Sb Sc terms pbb HT HB Na Nb X z tr D Htr a b c f g Ha Hb H)).
Qed.

(** The elementwise product of vectors of length 2 as a bilinear operation. *)
Definition ew_terms (s : list nat) : list (R * (list nat * list nat)) := [(1, (s, s))].
Example C18_nonvacuous :
  pos_terms [2]%nat [2]%nat [2]%nat ew_terms /\
  pairwise_batched [2]%nat [2]%nat [2]%nat ew_terms pairwise_batched_multiply /\
  let a := [Arr (mkT [2]%nat (fun _ => 1)); Ivl (mkT [2;2]%nat (fun _ => -1)) (mkT [2;2]%nat (fun _ => 1))] in
  ncoef (earbitrary_bilinear (mkArith 1 ex_tr) a a pairwise_batched_multiply) = Some 2%nat.
Proof.
  split; [|split].
  - intros s Hs. repeat constructor; auto. lra.
  - intros ra rb u v w Hu Hv H. destruct (pbm_shapes _ _ _ _ _ _ _ Hu Hv H) as (cc & Hcc & Hw). rewrite bshape_refl in Hcc.
    injection Hcc as <-. split; auto. intros s I J Hs HI HJ.
    destruct (pbm_prodop [2]%nat ra [2]%nat rb [2]%nat (bshape_refl _)) as [PV _].
    destruct (PV _ _ _ Hu Hv H) as [_ D]. rewrite D by (repeat apply valid_app; auto).
    pose proof (valid_length _ _ Hs) as L1. pose proof (valid_length _ _ HI) as L2.
    unfold pbm_a, pbm_b, ew_terms. cbn [wsum]. change (length [2]%nat) with 1%nat in *.
    rewrite (firstn_exact s), (skipn_exact s), (firstn_exact I) by auto.
    rewrite (app_assoc s I J), (skipn_exact (s ++ I)) by (rewrite app_length; lia). rewrite (bidx_valid _ s Hs). ring.
  - vm_compute. reflexivity.
Qed.

(** ** C19 *)
(** The tail of an enclosure whose constant term is the plain array [t]. *)
Lemma encl_tail (P : nat -> list nat -> Prop) S X z s t St rest v : (forall p, P 0%nat p -> compat p S) -> tshape t = St ->
  encl_from P X z s 0 (Arr t :: rest) v ->
  exists us, F2i (contributes P X z s) 1 rest us /\ v = tdata t (bidx St s) + Rsum us.
Proof.
  intros HP Et H. apply encl_from_F2i in H. destruct H as (us & HF & ->). inversion HF as [|? ? ? u us' Hu Hus]; subst.
  exists us'. split; auto. simpl. f_equal. destruct Hu as (p & Hp & W & A & HA & ->). simpl in W. rewrite app_nil_r in W.
  specialize (HA [] ltac:(constructor)). rewrite app_nil_r in HA. simpl in HA. unfold term_value. simpl. rewrite HA, W. ring.
Qed.

Lemma compose_sound_gen S P P' Pt (WE : list nat -> Prop) X tr D z t rest e f g c : prefixes S P P' -> (forall i, (1 <= i)%nat -> P i S) ->
  prefixes S Pt Pt -> (forall i q e, Pt i q -> (1 <= e)%nat -> Pt (i * e)%nat q) ->
  (forall s E q i c w t v r, valid S s -> (1 <= i)%nat -> WE E -> ew_shape S E -> Pt i q -> wfs E c -> inat c (bidx E s) w -> con X z s q i t v ->
     interval_left_broadcasting_multiply c t = Ok r -> con X z s S i r (w * v)) ->
  in_region X tr z -> (length e <= D + 1)%nat -> Forall (fun c => exists E, WE E /\ wfs E c) e ->
  (exists s, valid S s) ->
  (forall c0 r, e = c0 :: r -> exists E, wfs E c0 /\ P 0%nat E) ->
  encloses Pt X S (Arr t :: rest) z f ->
  (forall s, valid S s -> ew_from S s 0 e (f s - tdata t (bidx (tshape t) s)) (g s)) ->
  compose_enclosures (mkArith D tr) e (Arr t :: rest) = Ok c ->
  encloses P X S c z g.
Proof.
  intros PF PS PFt PtE LB Htr HL HWE [s0 Hs0] HE0 [_ Ha] He H.
  assert (E : forall s, valid S s -> exists ws, F2i (contributes P X z s) 0 c ws /\ Rsum ws = g s /\ (1 <= length c <= D + 1)%nat).
  { intros s Hs. destruct (encl_tail Pt S X z s t (tshape t) rest (f s)) with (3 := Ha s Hs) as (us & HU & EU); [|reflexivity|].
    { intros p Hp. exact (pf_compat _ _ _ PFt _ _ Hp). }
    specialize (He s Hs). replace (f s - tdata t (bidx (tshape t) s)) with (Rsum us) in He by lra.
    exact (compose_rel S P P' PF PS X z s Hs tr Htr D Pt WE PFt PtE (fun E q i c w t v r => LB s E q i c w t v r Hs) (Arr t) rest us e (g s) c HU HL HWE HE0 He H). }
  split.
  - destruct (E s0 Hs0) as (_ & _ & _ & L). apply len_ne. lia.
  - intros s Hs. destruct (E s Hs) as (ws & HW & HS & _). apply encl_from_F2i. eauto.
Qed.
Lemma ew_shapes S s : forall e i d v, ew_from S s i e d v -> Forall (fun c => exists E, ew_shape S E /\ wfs E c) e.
Proof. induction e as [|c e IH]; intros i d v H; constructor; destruct H as (E & w & u & H1 & H2 & _ & H4 & _); eauto. Qed.

Lemma compose_sound S P P' X tr D z t rest e f g c : prefixes S P P' -> (forall i, (1 <= i)%nat -> P i S) ->
  in_region X tr z -> (length e <= D + 1)%nat ->
  (exists s, valid S s) ->
  (forall c0 r, e = c0 :: r -> exists E, wfs E c0 /\ P 0%nat E) ->
  encloses (full_tail S) X S (Arr t :: rest) z f ->
  (forall s, valid S s -> ew_from S s 0 e (f s - tdata t (bidx (tshape t) s)) (g s)) ->
  compose_enclosures (mkArith D tr) e (Arr t :: rest) = Ok c ->
  encloses P X S c z g.
Proof.
  intros PF PS Htr HL Hne HE0 Ha He H.
  refine (compose_sound_gen S P P' (full_tail S) (ew_shape S) X tr D z t rest e f g c PF PS (pf_full_tail S) _ _ Htr HL _ Hne HE0 Ha He H).
  - intros i q e0 [->|[-> Hq]] He0; [left; auto|right; auto].
  - intros s E q i c1 w t1 v r Hs Hi _ HE [->|[-> _]] Wc Hw Hcon Hr; [|lia]. exact (con_lbm S X z s Hs E i c1 w t1 v r HE Wc Hw Hcon Hr).
  - destruct Hne as [s Hs]. exact (ew_shapes _ _ _ _ _ _ (He s Hs)).
Qed.
(** A function of a number: coefficients known up to broadcasting. *)
Lemma compose_sound_number S tr D z t rest e f g c : in_region [] tr z -> (length e <= D + 1)%nat -> (exists s, valid S s) -> Forall (wfs S) e ->
  encloses (bcast S) [] S (Arr t :: rest) z f ->
  (forall s, valid S s -> ew_from S s 0 e (f s - tdata t (bidx (tshape t) s)) (g s)) ->
  compose_enclosures (mkArith D tr) e (Arr t :: rest) = Ok c ->
  encloses (full S) [] S c z g.
Proof.
  intros Htr HL Hne HW Ha He H.
  refine (compose_sound_gen S _ _ (bcast S) (fun E => E = S) [] tr D z t rest e f g c (pf_full S) (fun _ _ => eq_refl) (pf_bcast S) (fun _ _ _ H _ => H) _ Htr HL _ Hne _ Ha He H).
  - intros s E q i c1 w t1 v r Hs Hi -> _ Cq Wc Hw Hcon Hr. rewrite (bidx_valid S s Hs) in Hw. exact (con_lbm_number S [] z s Hs q i c1 w t1 v r eq_refl Cq Wc Hw Hcon Hr).
  - eapply Forall_impl; [|exact HW]. intros a Wa. exists S. auto.
  - intros c0 r ->. inversion HW; subst. exists S. split; auto. reflexivity.
Qed.

(** C19: composition with a valid elementwise enclosure [e] of [sigma] about the
    constant term is an enclosure of [sigma o f], provided the non-constant
    coefficients of the argument have the full rank. *)
Theorem C19_compose_sound : forall S X tr D z t rest e f sigma c,
  in_region X tr z -> (exists s, valid S s) ->
  encloses (full_tail S) X S (Arr t :: rest) z f ->
  (length e <= D + 1)%nat ->
  (forall s, valid S s -> ew_from S s 0 e (f s - tdata t (bidx (tshape t) s)) (sigma (f s))) ->
  compose_enclosures (mkArith D tr) e (Arr t :: rest) = Ok c ->
  encloses (full_tail S) X S c z (fun s => sigma (f s)) /\
  (ishape (hd zero_c e) = S -> encloses (full S) X S c z (fun s => sigma (f s))).
Proof.
  intros S X tr D z t rest e f sigma c Htr Hne Ha HL He H.
  assert (W0 : forall c0 r, e = c0 :: r -> exists E, ew_shape S E /\ wfs E c0).
  { intros c0 r ->. destruct Hne as [s Hs]. specialize (He s Hs). simpl in He. destruct He as (E & _ & _ & H1 & H2 & _). eauto. }
  split; [|intros HS].
  - refine (compose_sound S _ _ X tr D z t rest e f _ c (pf_full_tail S) _ Htr HL Hne _ Ha He H).
    + intros; left; auto.
    + intros c0 r E. destruct (W0 c0 r E) as (E0 & H1 & H2). exists E0. split; auto. right. split; auto. apply ew_compat; auto.
  - refine (compose_sound S _ _ X tr D z t rest e f _ c (pf_full S) _ Htr HL Hne _ Ha He H).
    + reflexivity.
    + intros c0 r E. destruct (W0 c0 r E) as (E0 & H1 & H2). exists E0. split; auto. subst e. simpl in HS. rewrite (wfs_ishape _ _ H2) in HS. exact HS.
Qed.

(** For a function of a number the coefficients of the argument may be smaller
    arrays that broadcast, if the elementwise coefficients have the full shape
    (for a function of an array this is unsound, see C20). *)
Theorem C19_compose_number_sound : forall S tr D z t rest e f sigma c,
  in_region [] tr z -> (exists s, valid S s) ->
  encloses (bcast S) [] S (Arr t :: rest) z f ->
  (length e <= D + 1)%nat -> Forall (fun c => ishape c = S) e ->
  (forall s, valid S s -> ew_from S s 0 e (f s - tdata t (bidx (tshape t) s)) (sigma (f s))) ->
  compose_enclosures (mkArith D tr) e (Arr t :: rest) = Ok c ->
  encloses (full S) [] S c z (fun s => sigma (f s)).
Proof.
  intros S tr D z t rest e f sigma c Htr Hne Ha HL HS He H.
  refine (compose_sound_number S tr D z t rest e f _ c Htr HL Hne _ Ha He H).
  destruct Hne as [s Hs]. pose proof (ew_shapes _ _ _ _ _ _ (He s Hs)) as K. clear -HS K.
  induction e as [|c e IH]; constructor; inversion HS; inversion K as [|? ? (E & _ & W)]; subst; auto. rewrite <- (wfs_ishape _ _ W) in W. exact W.
Qed.

(** sigma(y) = y^2 about the constant term 5 of [ex_enc]: 25 + 10 d + d^2. *)
Definition ex_sq : list (coef R) := [Arr (tscalar 25); Arr (tscalar 10); Ivl (tscalar 1) (tscalar 1)].
Example C19_nonvacuous :
  (forall y, ew_from [] [] 0 ex_sq (y - 5) (y ^ 2)) /\
  ncoef (compose_enclosures (mkArith 2 ex_tr) ex_sq ex_enc) = Some 3%nat.
Proof.
  split; [|vm_compute; reflexivity]. intros y. simpl.
  exists [], 25, (10 * (y - 5) + (y - 5)^2). split; [left; auto|]. split; [reflexivity|]. split; [reflexivity|]. split; [|ring].
  exists [], 10, ((y - 5)^2). split; [left; auto|]. split; [reflexivity|]. split; [reflexivity|]. split; [|ring].
  exists [], 1, 0. split; [left; auto|]. split; [split; reflexivity|]. split; [simpl; lra|]. split; [reflexivity|ring].
Qed.

(** ** C20 *)
(** f(x) = v + x.sum() with v = (1, 2) and x of shape (2): the enclosure produced
    by [add] has a degree-1 coefficient of shape (2) instead of (2, 2). *)
Definition c20_v : tensor R := mkT [2]%nat (fun I => INR (nth 0 I 0%nat) + 1).
Definition c20_arg : list (coef R) := [Arr c20_v; Arr (mkT [2]%nat (fun _ => 1))].
(** The exact elementwise Taylor polynomial of y^2 about v. *)
Definition c20_e : list (coef R) :=
  [Arr (tmap (fun y => y * y) c20_v); Arr (tmap (fun y => 2 * y) c20_v); Arr (mkT [2]%nat (fun _ => 1))].
Definition c20_f (z : list nat -> R) (s : list nat) : R := tdata c20_v s + (z [0%nat] + z [1%nat]).
(** C19 for a number: (v + x) ^ 2, the slope of v + x being the array (1). *)
Definition c19_arg : list (coef R) := [Arr c20_v; Arr (mkT [1]%nat (fun _ => 1))].
Example C19_number_nonvacuous :
  (forall z : list nat -> R, encloses (bcast [2]%nat) [] [2]%nat c19_arg z (fun s => (tdata c20_v s + z [])%R)) /\ 
  Forall (fun c => ishape c = [2]%nat) c20_e /\ 
  (forall y s, valid [2]%nat s -> ew_from [2]%nat s 0 c20_e (y - tdata c20_v s) (y ^ 2)) /\ 
  in_region [] (tscalar (-1), tscalar 2) (fun _ => 1) /\ ncoef (compose_enclosures (mkArith 2 (tscalar (-1), tscalar 2)) c20_e c19_arg) = Some 3%nat.
Proof.
  split; [|split; [|split]].
  - intros z. split; [discriminate|]. intros s Hs. simpl. exists (tdata c20_v s), (z []). split; [|split; [|reflexivity]].
    + exists [2]%nat. split; [apply compat_refl|]. split; [reflexivity|]. exists (fun _ => tdata c20_v s). split.
      * intros J HJ. apply valid_nil in HJ. subst J. rewrite app_nil_r, (bidx_valid _ _ Hs). reflexivity.
      * unfold term_value. simpl. ring.
    + exists (z []), 0. split; [|split; [reflexivity|ring]].
      exists [1]%nat. split; [exists [], [2]%nat; split; [reflexivity|constructor; [left; reflexivity|constructor]]|]. split; [reflexivity|]. exists (fun _ => 1). split; [reflexivity|].
      unfold term_value. simpl. ring.
  - repeat constructor.
  - intros y s Hs. assert (W : ew_shape [2]%nat [2]%nat) by (right; split; [apply compat_refl|auto]).
    simpl. set (v := INR (nth 0 s 0%nat) + 1).
    exists [2]%nat, (v * v), (2 * v * (y - v) + (y - v) ^ 2). split; auto. split; [reflexivity|]. rewrite (bidx_valid _ _ Hs). split; [reflexivity|]. split; [|ring].
    exists [2]%nat, (2 * v), ((y - v) ^ 2). split; auto. split; [reflexivity|]. rewrite ?(bidx_valid _ _ Hs). split; [reflexivity|]. split; [|ring].
    exists [2]%nat, 1, 0. split; auto. split; [reflexivity|]. split; [reflexivity|]. split; [reflexivity|ring].
  - split; [|vm_compute; reflexivity]. split; [reflexivity|]. split; [reflexivity|]. simpl. intros. lra.
Qed.

(** C20: all coefficients are plain arrays, the argument encloses f, the
    elementwise enclosure is exact everywhere, the shape check accepts the result;
    and yet the result does not enclose f^2. *)
Theorem C20_compose_rank_deficient_refuted :
  (forall z, encloses (bcast [2]%nat) [2]%nat [2]%nat c20_arg z (c20_f z)) /\
  (forall y s, valid [2]%nat s -> ew_from [2]%nat s 0 c20_e (y - tdata c20_v s) (y ^ 2)) /\
  exists c z, in_region [2]%nat ex_tr z /\
    compose_enclosures (mkArith 2 ex_tr) c20_e c20_arg = Ok c /\
    validate_taylor_enclosure (mkArith 2 ex_tr) c = Ok tt /\
    ~ encloses (bcast [2]%nat) [2]%nat [2]%nat c z (fun s => c20_f z s ^ 2).
Proof.
  split; [|split].
  - intros z. split; [discriminate|]. intros s Hs. simpl. exists (tdata c20_v s), (z [0%nat] + z [1%nat]). split; [|split; [|reflexivity]].
    + exists [2]%nat. split; [apply compat_refl|]. split; [reflexivity|]. exists (fun _ => tdata c20_v s). split.
      * intros J HJ. apply valid_nil in HJ. subst J. rewrite app_nil_r, (bidx_valid _ _ Hs). reflexivity.
      * unfold term_value. simpl. ring.
    + exists (z [0%nat] + z [1%nat]), 0. split; [|split; [reflexivity|ring]].
      exists []. split; [apply compat_nil|]. split; [reflexivity|]. exists (fun _ => 1). split; [reflexivity|].
      unfold term_value. simpl. ring.
  - intros y s Hs. assert (W : ew_shape [2]%nat [2]%nat) by (right; split; [apply compat_refl|auto]).
    simpl. set (v := INR (nth 0 s 0%nat) + 1).
    exists [2]%nat, (v * v), (2 * v * (y - v) + (y - v) ^ 2). split; auto. split; [reflexivity|]. rewrite (bidx_valid _ _ Hs). split; [reflexivity|]. split; [|ring].
    exists [2]%nat, (2 * v), ((y - v) ^ 2). split; auto. split; [reflexivity|]. rewrite ?(bidx_valid _ _ Hs). split; [reflexivity|]. split; [|ring].
    exists [2]%nat, 1, 0. split; auto. split; [reflexivity|]. split; [reflexivity|]. split; [reflexivity|ring].
  - do 2 eexists. split; [|split; [reflexivity|split; [reflexivity|]]].
    + instantiate (1 := fun J => if (nth 0 J 0 =? 0)%nat then 0 else 1). split; [reflexivity|]. split; [reflexivity|].
      simpl. intros J _. destruct (_ =? _)%nat; lra.
    + intros [_ H]. specialize (H [0%nat] ltac:(repeat constructor; auto)). simpl in H.
      destruct H as (u0 & w0 & (p0 & _ & W0 & A0 & H0 & ->) & (u1 & w1 & (p1 & _ & W1 & A1 & H1 & ->) & (u2 & w2 & (p2 & _ & W2 & A2 & H2 & ->) & -> & ->) & ->) & E).
      simpl in W0, W1, W2. rewrite app_nil_r in W0. subst p0.
      assert (p1 = []) as ->. { destruct p1 as [|? [|]]; auto; discriminate. }
      assert (p2 = []) as ->. { destruct p2 as [|? [|? [|]]]; auto; discriminate. }
      simpl in H0, H1, H2. unfold term_value in E. simpl in E.
      specialize (H0 [] ltac:(constructor)). simpl in H0. unfold bget in H0. simpl in H0.
      rewrite H0, !H1, !H2 in E by (repeat constructor). simpl in E. unfold bget, c20_f in E. simpl in E. lra.
Qed.
