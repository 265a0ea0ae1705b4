(** Evaluating a well-shaped enclosure at a point succeeds. *)
From Coq Require Import Reals Lra Psatz.
From Verif Require Import Base Tensor IntervalArith Polynomials Enclosure TensorLemmas Spec IntervalProofs PowerProofs PolyProofs Graded
  EnclosureOps EnclosureProofs BilinearProofs ComposeProofs PropEnclosure PropDegree JaxBound JaxSpec JaxLemmas.
Open Scope R_scope.

Lemma tmap2_total {T U V} (f : T -> U -> V) a b sh : bshape (tshape a) (tshape b) = Some sh -> exists c, tmap2 f a b = Ok c /\ tshape c = sh.
Proof. intros H. unfold tmap2. rewrite H. eexists. split; eauto. Qed.
Lemma tmap2_total_same {T U V} (f : T -> U -> V) (a : tensor T) (b : tensor U) sh : tshape a = sh -> tshape b = sh -> exists c, tmap2 f a b = Ok c /\ tshape c = sh.
Proof. intros E E'. apply tmap2_total. rewrite E, E'. apply bshape_refl. Qed.

Lemma tensordot_total k s1 sk s2 (a b : tensor R) : length sk = k -> tshape a = s1 ++ sk -> tshape b = sk ++ s2 ->
  exists c, ttensordot k a b = Ok c /\ tshape c = s1 ++ s2.
Proof.
  intros Hk Ha Hb. unfold ttensordot, tndim. rewrite Ha, Hb, !app_length, Hk.
  replace (length s1 + k - k)%nat with (length s1) by lia. rewrite skipn_exact, firstn_exact, firstn_exact, skipn_exact by auto.
  replace (k <=? length s1 + k)%nat with true by (symmetry; apply Nat.leb_le; lia).
  replace (k <=? k + length s2)%nat with true by (symmetry; apply Nat.leb_le; lia). replace (shape_eqb sk sk) with true by (symmetry; apply shape_eqb_eq; auto).
  simpl. eexists. split; reflexivity.
Qed.

(** A bilinear operation defined on the shapes involved. *)
Lemma ibil_total f pr sa sb sc (a : coef R) y : wfs sa a -> tshape y = sb ->
  (forall u v, tshape u = sa -> tshape v = sb -> exists w, f u v = Ok w /\ tshape w = sc) -> exists c, ibilinear a (Arr y) f pr = Ok c /\ wfs sc c.
Proof.
  intros Wa Hy Hf. destruct a as [x|l h]; simpl in Wa.
  - destruct (Hf x y Wa Hy) as (w & E & S). exists (Arr w). simpl. rewrite E. auto.
  - destruct Wa as [Wl Wh]. destruct pr.
    + destruct (Hf l y Wl Hy) as (w & E & S). destruct (Hf h y Wh Hy) as (w' & E' & S').
      destruct (tmap2_total_same (@nmin R _) w w' sc S S') as (m & Em & Sm). destruct (tmap2_total_same (@nmax R _) w w' sc S S') as (M & EM & SM).
      exists (Ivl m M). simpl. rewrite E, E'. simpl. unfold tmin, tmax. rewrite Em, EM. simpl. auto.
    + destruct (Hf l (pos_part y) Wl Hy) as (p & Ep & Sp). destruct (Hf h (neg_part y) Wh Hy) as (q & Eq & Sq).
      destruct (Hf h (pos_part y) Wh Hy) as (r & Er & Sr). destruct (Hf l (neg_part y) Wl Hy) as (s & Es & Ss).
      destruct (tmap2_total_same (@nadd R _) p q sc Sp Sq) as (m & Em & Sm). destruct (tmap2_total_same (@nadd R _) r s sc Sr Ss) as (M & EM & SM).
      exists (Ivl m M). cbn [ibilinear]. rewrite Ep, Eq. cbn [bind]. rewrite Er, Es. unfold tadd. cbn [bind]. rewrite Em. cbn [bind]. rewrite EM. cbn [bind]. split; [reflexivity|split; auto].
Qed.
Lemma itensordot_total k s1 sk s2 (a : coef R) y : length sk = k -> wfs (s1 ++ sk) a -> tshape y = sk ++ s2 ->
  exists c, itensordot a (Arr y) k = Ok c /\ wfs (s1 ++ s2) c.
Proof.
  intros Hk Wa Hy. unfold itensordot. refine (ibil_total _ _ _ _ _ _ _ Wa Hy _). intros u v Hu Hv. exact (tensordot_total k s1 sk s2 u v Hk Hu Hv).
Qed.
Lemma iadd_total p q s (a b : coef R) : wfs p a -> wfs q b -> bshape p q = Some s -> exists c, iadd a b = Ok c /\ wfs s c.
Proof.
  intros Wa Wb Hs. destruct a as [x|l h], b as [y|m M]; simpl in Wa, Wb; unfold iadd, tadd.
  - subst. destruct (tmap2_total (@nadd R _) _ _ _ Hs) as (c & E & S). exists (Arr c). rewrite E. auto.
  - destruct Wb as [W1 W2]. assert (H1 := Hs). assert (H2 := Hs). rewrite <- Wa, <- W1 in H1. rewrite <- Wa, <- W2 in H2.
    destruct (tmap2_total (@nadd R _) _ _ _ H1) as (c & E & S). destruct (tmap2_total (@nadd R _) _ _ _ H2) as (c' & E' & S').
    exists (Ivl c c'). rewrite E. cbn [bind]. rewrite E'. cbn [bind]. split; [reflexivity|split; auto].
  - destruct Wa as [W1 W2]. assert (H1 := Hs). assert (H2 := Hs). rewrite <- Wb, <- W1 in H1. rewrite <- Wb, <- W2 in H2.
    destruct (tmap2_total (@nadd R _) _ _ _ H1) as (c & E & S). destruct (tmap2_total (@nadd R _) _ _ _ H2) as (c' & E' & S').
    exists (Ivl c c'). rewrite E. cbn [bind]. rewrite E'. cbn [bind]. split; [reflexivity|split; auto].
  - destruct Wa as [W1 W2], Wb as [W3 W4]. assert (H1 := Hs). assert (H2 := Hs). rewrite <- W1, <- W3 in H1. rewrite <- W2, <- W4 in H2.
    destruct (tmap2_total (@nadd R _) _ _ _ H1) as (c & E & S). destruct (tmap2_total (@nadd R _) _ _ _ H2) as (c' & E' & S').
    exists (Ivl c c'). rewrite E. cbn [bind]. rewrite E'. cbn [bind]. split; [reflexivity|split; auto].
Qed.

Lemma running_total zt m : forall r, exists c, running_outer (Arr r) (Arr zt) 0 m = Ok (Arr (c : tensor R)) /\ tshape c = tshape r ++ rep m (tshape zt).
Proof.
  induction m as [|m IH]; intros r; simpl; [exists r; rewrite app_nil_r; auto|].
  destruct (tensordot_total 0 (tshape r) [] (tshape zt) r zt eq_refl) as (c & E & S); [rewrite app_nil_r; auto|reflexivity|].
  destruct (IH c) as (c' & E' & S').
  assert (EP : iouter_product (Arr r) (Arr zt) 0 = Ok (Arr c)).
  { unfold iouter_product. simpl. unfold ndarray_outer_product. simpl. rewrite E. reflexivity. }
  rewrite EP. simpl. exists c'. rewrite S', S, app_assoc. auto.
Qed.

Lemma outer_power_total zt k : exists y, iouter_power (Arr zt) (Z.of_nat k) 0 = Ok (Arr (y : tensor R)).
Proof.
  unfold iouter_power. destruct (Z.of_nat k <? 0)%Z eqn:E1; [apply Z.ltb_lt in E1; lia|]. destruct (Z.of_nat k =? 0)%Z eqn:E2; [eauto|].
  destruct (indim (Arr zt) =? 0)%nat eqn:E3.
  { simpl. rewrite E1. eauto. }
  destruct (running_total zt (Z.to_nat (Z.of_nat k - 1)) zt) as (r & Er & Sr). rewrite Er. cbn [bind negb Nat.eqb].
  unfold generalized_diag_ndarray. destruct (Z.of_nat k =? 1)%Z eqn:K1.
  - apply Z.eqb_eq in K1. rewrite K1 in *. simpl in Sr. rewrite app_nil_r in Sr. simpl.
    unfold imul. simpl. unfold tmul, tadd.
    destruct (tmap2_total_same (@nmul R _) r (tmap (fun x => nsub n1 x) (tones_like zt)) (tshape zt) Sr eq_refl) as (o & Eo & So).
    change (@nsub R NumR) with Rminus in *. simpl in *. rewrite Eo. simpl.
    unfold tadd. match goal with |- context [tmap2 ?f o ?b] => destruct (tmap2_total_same f o b (tshape zt) So eq_refl) as (o' & Eo' & _) end. rewrite Eo'. simpl. eauto.
  - destruct (Z.of_nat k =? 2)%Z eqn:K2; [|eauto]. apply Z.eqb_eq in K2. rewrite K2 in *. simpl in Sr. rewrite app_nil_r in Sr. unfold tndim. simpl.
    destruct (Nat.eqb_spec (length (tshape zt)) 1) as [L|L]; [|eauto]. destruct zt as [sh dt]. simpl in *. destruct sh as [|n [|]]; simpl in L; try discriminate.
    unfold imul. simpl. unfold tmul, tadd, tndim. simpl. unfold tdiag. simpl.
    match goal with |- context [tmap2 ?f r ?b] => destruct (tmap2_total_same f r b [n; n] Sr eq_refl) as (o & Eo & So) end. simpl in *. rewrite Eo. simpl.
    unfold tadd. match goal with |- context [tmap2 ?f o ?b] => destruct (tmap2_total_same f o b [n; n] So eq_refl) as (o' & Eo' & _) end. rewrite Eo'. simpl. eauto.
Qed.

Lemma loop_total S X zt : tshape zt = X -> forall cs i zi running q,
  (forall j c, nth_error cs j = Some c -> exists p, hcast S (i + j) p /\ wfs (p ++ rep (i + j) X) c) ->
  (i = 0%nat -> zi = one_c) -> (if (i =? 0)%nat then q = [] /\ cs <> [] else q = S) -> wfs q running ->
  exists r, eval_poly_loop iadd inner_product (fun x k => iouter_power x k 0) (Arr zt) i zi running cs = Ok r /\ wfs S r.
Proof.
  intros Hzt. induction cs as [|c cs IH]; intros i zi running q Hc Hi Hq Wq.
  - simpl. exists running. split; auto. destruct (Nat.eqb_spec i 0); [destruct Hq; congruence|]. subst; auto.
  - destruct (Hc 0%nat c eq_refl) as (p & [Cp Hp] & Wc). rewrite Nat.add_0_r in *. cbn [eval_poly_loop].
    destruct (outer_power_total zt i) as (y & Ey).
    assert (EZ : (if (0 <? i)%nat then iouter_power (Arr zt) (Z.of_nat i) 0 else Ok zi) = Ok (Arr y)).
    { destruct i; simpl; [|exact Ey]. rewrite (Hi eq_refl). simpl in Ey. exact Ey. }
    rewrite EZ. cbn [bind]. clear EZ.
    destruct (point_power X (tdata zt) (Arr zt) i (Arr y) Hzt (fun _ _ => eq_refl) Ey) as [Wy _]. simpl in Wy.
    destruct (itensordot_total (length (rep i X)) p (rep i X) [] c y eq_refl Wc) as (t & Et & Wt); [rewrite app_nil_r; auto|].
    unfold inner_product. simpl. unfold tndim. rewrite Wy, Et. cbn [bind]. rewrite app_nil_r in Wt.
    assert (HS : bshape q p = Some S).
    { destruct (Nat.eqb_spec i 0) as [->|Hi'].
      - destruct Hq as [-> _]. rewrite bshape_nil_l. rewrite Hp by auto. reflexivity.
      - subst q. apply bshape_compat_r; auto. }
    destruct (iadd_total q p S _ _ Wq Wt HS) as (r' & Er & Wr). rewrite Er. cbn [bind].
    apply (IH (Datatypes.S i) (Arr y) r' S); [|discriminate|reflexivity|exact Wr].
    intros j c' Hj. specialize (Hc (Datatypes.S j) c' Hj). rewrite Nat.add_succ_r in Hc. exact Hc.
Qed.

Lemma eval_total S X zt enc z f : (exists s, valid S s) -> tshape zt = X -> encloses (hcast S) X S enc z f ->
  exists r, eval_taylor_enclosure enc (Arr zt) = Ok r /\ wfs S r.
Proof.
  intros [s Hs] Hzt [Hne H]. unfold eval_taylor_enclosure, eval_polynomial.
  apply (loop_total S X zt Hzt enc 0 one_c zero_c []); auto; [|split; auto; reflexivity|reflexivity].
  intros j c Hj. simpl. specialize (H s Hs). apply encl_from_F2i in H. destruct H as (us & HF & _).
  assert (exists u, nth_error us j = Some u) as [u Hu].
  { pose proof (F2i_length _ _ _ _ HF). destruct (nth_error us j) eqn:E; eauto. apply nth_error_None in E.
    assert (j < length enc)%nat by (apply nth_error_Some; congruence). lia. }
  destruct (F2i_nth _ _ _ _ _ _ _ HF Hj Hu) as (p & Hp & W & _). exists p. auto.
Qed.
