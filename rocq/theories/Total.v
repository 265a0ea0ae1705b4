(** The enclosure operations never raise on coefficients of matching shapes. *)
From Coq Require Import Reals Lra Psatz.
From Verif Require Import Base Tensor IntervalArith Polynomials Enclosure TensorLemmas Spec IntervalProofs PowerProofs PolyProofs Graded
  EnclosureOps EnclosureProofs ComposeProofs JaxEval.
Open Scope R_scope.

Definition tot {A} (P : A -> Prop) (r : res A) : Prop := exists a, r = Ok a /\ P a.
Lemma tot_bind {A B} (Q : A -> Prop) (P : B -> Prop) r (f : A -> res B) : tot Q r -> (forall a, Q a -> tot P (f a)) -> tot P (bind r f).
Proof. intros (a & -> & Ha) H. exact (H a Ha). Qed.
Lemma tot_ok {A} (P : A -> Prop) a : P a -> tot P (Ok a).
Proof. intros H. exists a. auto. Qed.
Lemma tot_mono {A} (P Q : A -> Prop) r : (forall a, P a -> Q a) -> tot P r -> tot Q r.
Proof. intros H (a & E & Ha). exists a. auto. Qed.

(** ** Bilinear operations on intervals *)
Lemma tmap2_tot {T U V} (f : T -> U -> V) a b sa sb s : tshape a = sa -> tshape b = sb -> bshape sa sb = Some s -> tot (fun c => tshape c = s) (tmap2 f a b).
Proof. intros <- <- H. destruct (tmap2_total f a b s H) as (c & E & S). exists c. auto. Qed.
Lemma tmap2_tot_same {T U V} (f : T -> U -> V) a b s : tshape a = s -> tshape b = s -> tot (fun c => tshape c = s) (tmap2 f a b).
Proof. intros H H'. eapply tmap2_tot; eauto. apply bshape_refl. Qed.

Definition op_tot (f : tensor R -> tensor R -> res (tensor R)) sa sb s :=
  forall u v, tshape u = sa -> tshape v = sb -> tot (fun w => tshape w = s) (f u v).

Lemma reduce_tot (f : R -> R -> R) s : forall (l : list (tensor R)), l <> [] -> Forall (fun t => tshape t = s) l -> tot (fun c => tshape c = s) (reduceM (tmap2 f) l).
Proof.
  intros [|x l] Hn H; [congruence|]. inversion H as [|? ? Hx Hl]; subst. simpl.
  assert (G : forall l (x : tensor R), Forall (fun t => tshape t = tshape x) l -> tot (fun c => tshape c = tshape x) (foldM (tmap2 f) x l)).
  { clear. induction l as [|y l IH]; intros x H; cbn [foldM]; [apply tot_ok; auto|]. inversion H as [|? ? Hy Hl]; subst.
    eapply tot_bind; [apply (tmap2_tot_same f x y (tshape x)); auto|]. intros a Ha. rewrite <- Ha in *. apply IH; auto. }
  apply G. auto.
Qed.
Lemma mapM_tot {A B} (P : A -> B -> Prop) (f : A -> res B) l : (forall x, In x l -> tot (P x) (f x)) -> tot (Forall2 P l) (mapM f l).
Proof.
  induction l as [|x l IH]; intros H; cbn [mapM]; [apply tot_ok; constructor|].
  eapply tot_bind; [apply H; left; auto|]. intros y Hy. eapply tot_bind; [apply IH; intros; apply H; right; auto|]. intros ys Hys. apply tot_ok. constructor; auto.
Qed.
Lemma Forall2_right {A B} (P : B -> Prop) (l : list A) l' : Forall2 (fun _ y => P y) l l' -> Forall P l'.
Proof. induction 1; constructor; auto. Qed.

Lemma ibil_tot f pr sa sb s (a b : coef R) : wfs sa a -> wfs sb b -> op_tot f sa sb s -> tot (wfs s) (ibilinear a b f pr).
Proof.
  intros Wa Wb Hf.
  assert (HA : forall x y, a = Arr x -> b = Arr y -> tot (wfs s) (c <- f x y ;; Ok (Arr c))).
  { intros x y -> ->. eapply tot_bind; [apply Hf; auto|]. intros w Hw. apply tot_ok. exact Hw. }
  assert (HP : tot (wfs s) (prods <- mapM (fun p => f (fst p) (snd p)) (list_prod (endpoints a) (endpoints b)) ;;
        l <- reduceM tmin prods ;; h <- reduceM tmax prods ;; Ok (Ivl l h))).
  { eapply tot_bind; [apply (mapM_tot (fun _ w => tshape w = s))|].
    - intros (u, v) Hin. apply in_prod_iff in Hin. destruct Hin as [Hu Hv]. simpl. apply Hf.
      + destruct a; simpl in *; intuition congruence.
      + destruct b; simpl in *; intuition congruence.
    - intros l Hl. assert (Hne : l <> []).
      { intros ->. destruct a, b; simpl in Hl; inversion Hl. }
      apply Forall2_right in Hl. eapply tot_bind; [apply (reduce_tot _ s l Hne Hl)|]. intros m Hm.
      eapply tot_bind; [apply (reduce_tot _ s l Hne Hl)|]. intros m' Hm'. apply tot_ok. split; auto. }
  assert (H2 : forall u v u' v', tshape u = sa -> tshape u' = sa -> tshape v = sb -> tshape v' = sb ->
     forall (k : tensor R -> res (coef R)) Q, (forall t, tshape t = s -> tot Q (k t)) -> tot Q (p <- f u v ;; q <- f u' v' ;; t <- tadd p q ;; k t)).
  { intros u v u' v' Hu Hu' Hv Hv' k Q Hk. eapply tot_bind; [apply Hf; auto|]. intros p Hp. eapply tot_bind; [apply Hf; auto|]. intros q Hq.
    eapply tot_bind; [apply (tmap2_tot_same (@nadd R _) p q s); auto|]. intros t Ht. auto. }
  assert (H4 : forall l Q (k : tensor R -> res (coef R)), l <> [] -> Forall (fun p => tshape (fst p) = sa /\ tshape (snd p) = sb) l ->
     (forall t, tshape t = s -> tot Q (k t)) -> tot Q (t <- sum_bilinear f l ;; k t)).
  { intros l Q k Hl HF Hk. refine (tot_bind _ _ _ _ _ Hk). unfold sum_bilinear. eapply tot_bind; [apply (mapM_tot (fun _ w => tshape w = s))|].
    - intros p Hp. rewrite Forall_forall in HF. destruct (HF p Hp). apply Hf; auto.
    - intros ts Hts. apply (reduce_tot _ s); [|eapply Forall2_right; eauto]. intros ->. inversion Hts; subst. congruence. }
  destruct a as [x|al ah], b as [y|bl bh].
  - simpl. auto.
  - destruct pr; [exact HP|]. simpl in Wa, Wb. destruct Wb. cbn [ibilinear]. apply H2; auto. intros l Hl. apply H2; auto. intros h Hh. apply tot_ok. split; auto.
  - destruct pr; [exact HP|]. simpl in Wa, Wb. destruct Wa. cbn [ibilinear]. apply H2; auto. intros l Hl. apply H2; auto. intros h Hh. apply tot_ok. split; auto.
  - destruct pr; [exact HP|]. simpl in Wa, Wb. destruct Wa, Wb. cbn [ibilinear].
    apply H4; [discriminate|repeat (constructor; [split; auto|]); constructor|]. intros l Hl.
    apply H4; [discriminate|repeat (constructor; [split; auto|]); constructor|]. intros h Hh. apply tot_ok. split; auto.
Qed.

Lemma iadd_tot p q s (a b : coef R) : wfs p a -> wfs q b -> bshape p q = Some s -> tot (wfs s) (iadd a b).
Proof. intros Ha Hb H. destruct (iadd_total p q s a b Ha Hb H) as (c & E & W). exists c. auto. Qed.

(** ** Powers *)
Lemma ipower_tot s (a : coef R) k : wfs s a -> (0 <= k)%Z -> tot (wfs s) (ipower a k).
Proof.
  intros Wa Hk. destruct a as [x|l h]; unfold ipower; destruct (Z.ltb_spec k 0); try lia.
  - apply tot_ok. exact Wa.
  - destruct Wa as [Wl Wh]. destruct (Z.eqb_spec k 0); [apply tot_ok; exact Wl|]. cbv zeta.
    eapply tot_bind; [apply (tmap2_tot_same andb _ _ s); auto|]. intros cz Hcz.
    eapply tot_bind; [apply (tmap2_tot_same _ _ _ s); auto|]. intros m Hm.
    eapply tot_bind; [apply (reduce_tot _ s); [discriminate|repeat (constructor; auto)]|]. intros lo' Hlo.
    eapply tot_bind; [apply (tmap2_tot_same _ _ _ s); auto|]. intros hi' Hhi. apply tot_ok. split; auto.
Qed.
Lemma outer_tot bs ra rb : op_tot (ndarray_outer_product (length bs)) (bs ++ ra) (bs ++ rb) (bs ++ ra ++ rb).
Proof.
  intros u v Hu Hv. unfold ndarray_outer_product. destruct bs as [|b bs].
  - simpl in *. destruct (tensordot_total 0 ra [] rb u v eq_refl) as (c & E & S); auto; [rewrite app_nil_r; auto|]. exists c. auto.
  - remember (b :: bs) as B eqn:EB. assert ((length B =? 0)%nat = false) as -> by (subst; reflexivity). unfold teinsum_outer, tndim. rewrite Hu, Hv, !firstn_exact, !skipn_exact by auto.
    rewrite !app_length. replace (length B <=? length B + length ra)%nat with true by (symmetry; apply Nat.leb_le; lia).
    replace (length B <=? length B + length rb)%nat with true by (symmetry; apply Nat.leb_le; lia). rewrite zipM_refl. simpl. eexists. split; reflexivity.
Qed.
Lemma iouter_product_tot bs ra rb a b : wfs (bs ++ ra) a -> wfs (bs ++ rb) b -> tot (wfs (bs ++ ra ++ rb)) (iouter_product a b (length bs)).
Proof.
  intros Ha Hb. unfold iouter_product. rewrite (wfs_indim _ _ Ha), (wfs_indim _ _ Hb), !app_length.
  replace (length bs + length ra <? length bs)%nat with false by (symmetry; apply Nat.ltb_ge; lia).
  replace (length bs + length rb <? length bs)%nat with false by (symmetry; apply Nat.ltb_ge; lia). simpl.
  eapply ibil_tot; eauto. apply outer_tot.
Qed.
Lemma running_tot bs ra a m : wfs (bs ++ ra) a -> forall n r, wfs (bs ++ rep n ra) r -> tot (wfs (bs ++ rep (n + m) ra)) (running_outer r a (length bs) m).
Proof.
  intros Ha. induction m as [|m IH]; intros n r Hr; cbn [running_outer].
  - rewrite Nat.add_0_r. apply tot_ok. auto.
  - eapply tot_bind; [apply (iouter_product_tot bs (rep n ra) ra); auto|]. intros r' Hr'.
    replace (rep n ra ++ ra) with (rep (n + 1) ra) in Hr' by (rewrite rep_app, rep_1; reflexivity).
    replace (n + S m)%nat with (n + 1 + m)%nat by lia. apply IH. auto.
Qed.
Lemma imul_same_tot s a b : wfs s a -> wfs s b -> tot (wfs s) (imul a b).
Proof. intros Ha Hb. eapply ibil_tot; eauto. intros u v Hu Hv. apply tmap2_tot_same; auto. Qed.
Lemma gdiag_tot n s (a : coef R) : wfs s a -> (n = 1%Z -> True) -> (n = 1 \/ n = 2)%Z -> (n = 2%Z -> length s = 1%nat) ->
  tot (wfs (if (n =? 1)%Z then s else s ++ s)) (generalized_diag_interval a n).
Proof.
  intros Wa _ Hn Hs. assert (G : forall t : tensor R, tshape t = s -> tot (fun c => tshape c = if (n =? 1)%Z then s else s ++ s) (generalized_diag_ndarray t n)).
  { intros t Ht. unfold generalized_diag_ndarray. destruct Hn as [->| ->]; simpl; [apply tot_ok; auto|]. specialize (Hs eq_refl).
    unfold tndim. rewrite Ht, Hs. simpl. apply tot_ok. unfold tdiag. destruct s as [|m [|]]; try discriminate. rewrite Ht. reflexivity. }
  destruct a as [t|l h]; simpl in Wa; unfold generalized_diag_interval.
  - eapply tot_bind; [apply G; auto|]. intros c Hc. apply tot_ok. exact Hc.
  - destruct Wa. eapply tot_bind; [apply G; auto|]. intros c Hc. eapply tot_bind; [apply G; auto|]. intros c' Hc'. apply tot_ok. split; auto.
Qed.
Lemma iouter_power_tot bs ra a n : wfs (bs ++ ra) a -> (1 <= n)%nat -> tot (wfs (bs ++ rep n ra)) (iouter_power a (Z.of_nat n) (length bs)).
Proof.
  intros Ha Hn. enough (K : tot (fun _ => True) (iouter_power a (Z.of_nat n) (length bs))).
  { destruct K as (c & E & _). exists c. split; auto. exact (proj1 (iouter_power_spec bs ra a n c Ha E Hn)). }
  unfold iouter_power. destruct (Z.ltb_spec (Z.of_nat n) 0); [lia|]. destruct (Z.eqb_spec (Z.of_nat n) 0); [lia|].
  destruct (Nat.eqb_spec (indim a) 0).
  { eapply tot_mono; [|eapply ipower_tot; [exact Ha|lia]]. auto. }
  assert (HR : tot (wfs (bs ++ rep n ra)) (running_outer a a (length bs) (Z.to_nat (Z.of_nat n - 1)))).
  { replace (Z.to_nat (Z.of_nat n - 1)) with (n - 1)%nat by lia. replace n with (1 + (n - 1))%nat at 1 by lia. apply running_tot; auto. rewrite rep_1. auto. }
  eapply tot_bind; [exact HR|]. intros r Hr. destruct bs as [|b bs]; [|apply tot_ok; auto]. simpl in *.
  set (ones := tones_like _). assert (So : tshape ones = ra) by (unfold ones; destruct a; simpl in *; intuition).
  unfold generalized_diag_ndarray. destruct (Z.eqb_spec (Z.of_nat n) 1) as [E1|E1].
  - assert (n = 1%nat) as -> by lia. simpl. rewrite rep_1 in Hr. eapply tot_bind; [exact (ipower_tot ra a 1 Ha ltac:(lia))|]. intros d Hd.
    eapply tot_bind; [exact (gdiag_tot 1 ra d Hd (fun _ => I) (or_introl eq_refl) ltac:(discriminate))|]. simpl. intros d' Hd'.
    eapply tot_bind; [apply (imul_same_tot ra); [exact Hr|exact So]|]. intros o Ho.
    eapply tot_mono; [|apply (iadd_tot ra ra ra); eauto; apply bshape_refl]. auto.
  - destruct (Z.eqb_spec (Z.of_nat n) 2) as [E2|E2]; [|apply tot_ok; auto]. assert (n = 2%nat) as -> by lia. unfold tndim. rewrite So.
    destruct (Nat.eqb_spec (length ra) 1) as [L|L]; [|apply tot_ok; auto]. simpl in Hr. rewrite app_nil_r in Hr.
    eapply tot_bind; [exact (ipower_tot ra a 2 Ha ltac:(lia))|]. intros d Hd.
    eapply tot_bind; [exact (gdiag_tot 2 ra d Hd (fun _ => I) (or_intror eq_refl) (fun _ => L))|]. simpl. intros d' Hd'.
    eapply tot_bind; [apply (imul_same_tot (ra ++ ra)); [exact Hr|]|].
    + simpl. unfold tdiag. destruct ra as [|m [|]]; try discriminate. rewrite So. reflexivity.
    + intros o Ho. eapply tot_mono; [|apply (iadd_tot (ra ++ ra) (ra ++ ra) (ra ++ ra)); eauto; apply bshape_refl]. auto.
Qed.

(** ** Coefficients *)
Section Shape.
Variables (S : list nat) (P P' : nat -> list nat -> Prop).
Hypothesis PF : prefixes S P P'.
Variables (X : list nat).
(** A coefficient of degree [i] with an admissible output shape. *)
Definition shp (Q : nat -> list nat -> Prop) (i : nat) (c : coef R) : Prop := exists p, Q i p /\ wfs (p ++ rep i X) c.

Lemma shp_compat i c : shp P i c -> exists p, P i p /\ compat p S /\ wfs (p ++ rep i X) c.
Proof. intros (p & H & W). exists p. split; auto. split; auto. apply (pf_compat _ _ _ PF) with i, (pf_sub _ _ _ PF). auto. Qed.
Lemma shp_add i a b : shp P i a -> shp P i b -> tot (shp P i) (iadd a b).
Proof.
  intros Ha Hb. apply shp_compat in Ha, Hb. destruct Ha as (p & Hp & Cp & Wa), Hb as (q & Hq & Cq & Wb).
  destruct (bshape_total _ _ _ Cp Cq) as (r & Hr).
  assert (E : bshape (p ++ rep i X) (q ++ rep i X) = Some (r ++ rep i X)) by (rewrite bshape_app by auto; rewrite Hr, zipM_refl; auto).
  refine (tot_mono (wfs (r ++ rep i X)) _ _ _ (iadd_tot _ _ _ _ _ Wa Wb E)). intros c Hc. exists r. split; auto. exact (pf_add _ _ _ PF _ _ _ _ Hp Hq Hr).
Qed.
Lemma shp_zero_add Q i b : shp Q i b -> tot (shp Q i) (iadd zero_c b).
Proof. intros (p & Hp & W). eapply tot_mono; [|apply (iadd_tot [] (p ++ rep i X) (p ++ rep i X)); [reflexivity|exact W|apply bshape_nil_l]]. intros c Hc. exists p. auto. Qed.
Lemma shp_add_zero Q i b : shp Q i b -> tot (shp Q i) (iadd b zero_c).
Proof. intros (p & Hp & W). eapply tot_mono; [|apply (iadd_tot (p ++ rep i X) [] (p ++ rep i X)); [exact W|reflexivity|apply bshape_nil_r]]. intros c Hc. exists p. auto. Qed.
Lemma shp_neg Q i a : shp Q i a -> shp Q i (ineg a).
Proof. intros (p & Hp & W). exists p. split; auto. destruct a; simpl in *; intuition. Qed.

Lemma pbm_tot a ri b rj c : bshape a b = Some c -> op_tot (fun u v => pairwise_batched_multiply u v (length ri) (length rj)) (a ++ ri) (b ++ rj) (c ++ ri ++ rj).
Proof.
  intros Hc u v Hu Hv. unfold pairwise_batched_multiply, expand_dims_at, tndim. rewrite Hu, Hv, !app_length.
  replace (length a + length ri <=? length a + length ri)%nat with true by (symmetry; apply Nat.leb_le; lia).
  replace (length b + length rj - length rj <=? length b + length rj)%nat with true by (symmetry; apply Nat.leb_le; lia). cbn [bind].
  eapply tmap2_tot; try reflexivity. simpl. rewrite <- !app_length. rewrite firstn_all, skipn_all, app_nil_r.
  replace (length (b ++ rj) - length rj)%nat with (length b) by (rewrite app_length; lia). rewrite firstn_exact, skipn_exact by auto. rewrite <- app_assoc.
  rewrite bshape_app by (rewrite !app_length, !repeat_length; lia). rewrite Hc. rewrite zipM_app by (rewrite repeat_length; auto).
  rewrite zipM_ones_r, zipM_ones_l by auto. reflexivity.
Qed.
Lemma rep_len i : length (rep i X) = (i * length X)%nat.
Proof. apply rep_length. Qed.
Lemma shp_tp i j x y : shp P i x -> shp P' j y -> tot (shp P (i + j)) (elementwise_term_product_coefficient (length X) x y i j).
Proof.
  intros Ha (q & Hq & Wb). apply shp_compat in Ha. destruct Ha as (p & Hp & Cp & Wa). pose proof (pf_compat _ _ _ PF _ _ Hq) as Cq.
  destruct (bshape_total _ _ _ Cp Cq) as (r & Hr). unfold elementwise_term_product_coefficient. rewrite <- !rep_len.
  eapply tot_mono; [|eapply ibil_tot; [exact Wa|exact Wb|apply (pbm_tot _ _ _ _ _ Hr)]]. intros c Hc. exists r. rewrite rep_app. split; auto. exact (pf_mul _ _ _ PF _ _ _ _ _ Hp Hq Hr).
Qed.
Lemma shp_tpow i x e : (forall i p e, P i p -> (1 <= e)%nat -> P' (i * e)%nat p) -> shp P i x ->
  tot (shp P' (i * e)) (elementwise_term_power_coefficient (length X) x i e).
Proof.
  intros HE (p & Hp & W). unfold elementwise_term_power_coefficient. rewrite (wfs_indim _ _ W), app_length, rep_len.
  replace (length p + i * length X <? i * length X)%nat with false by (symmetry; apply Nat.ltb_ge; lia).
  replace (length p + i * length X - i * length X)%nat with (length p) by lia. destruct e as [|e].
  - unfold iouter_power. simpl. apply tot_ok. rewrite Nat.mul_0_r. exists []. split; [apply (pf_nil _ _ _ PF)|reflexivity].
  - eapply tot_mono; [|apply (iouter_power_tot p (rep i X)); [exact W|lia]]. intros c Hc. exists p. split; [apply HE; auto; lia|].
    replace (rep (i * Datatypes.S e) X) with (rep (Datatypes.S e) (rep i X)); auto. rewrite Nat.mul_comm. clear. generalize (Datatypes.S e) as n. induction n as [|n IH]; simpl; auto. rewrite IH, <- rep_app. reflexivity.
Qed.
Lemma shp_smul Q i k x : shp Q i x -> tot (shp Q i) (imul (Arr (tscalar k)) x).
Proof.
  intros (p & Hp & W). eapply tot_mono; [|eapply (ibil_tot tmul true [] _ (p ++ rep i X)); [reflexivity|exact W|]].
  - intros c Hc. exists p. auto.
  - intros u v Hu Hv. eapply tmap2_tot; eauto. apply bshape_nil_l.
Qed.
End Shape.

(** ** Loops *)
Section Loops.
Context {F : Type}.
(** [all1 G k a]: [G (k+i) a_i] for all [i]. *)
Definition all1 (G : nat -> F -> Prop) (k : nat) (a : list F) : Prop := forall i c, nth_error a i = Some c -> G (k + i)%nat c.
Lemma all1_nil (G : nat -> F -> Prop) k : all1 G k [].
Proof. intros [|i] c H; discriminate. Qed.
Lemma all1_cons (G : nat -> F -> Prop) k c a : G k c -> all1 G (S k) a -> all1 G k (c :: a).
Proof. intros H Ha [|i] c' Hi; simpl in Hi; [injection Hi as <-; rewrite Nat.add_0_r; auto|]. replace (k + S i)%nat with (S k + i)%nat by lia. auto. Qed.
Lemma all1_inv (G : nat -> F -> Prop) k c a : all1 G k (c :: a) -> G k c /\ all1 G (S k) a.
Proof.
  intros H. split; [specialize (H 0%nat c eq_refl); rewrite Nat.add_0_r in H; auto|]. intros i c' Hi. specialize (H (S i) c' Hi).
  replace (S k + i)%nat with (k + S i)%nat by lia. auto.
Qed.
Lemma all1_mono (G H : nat -> F -> Prop) k a : (forall i c, G i c -> H i c) -> all1 G k a -> all1 H k a.
Proof. intros HI HG i c Hi. auto. Qed.
Lemma all1_F2i (G : nat -> F -> Prop) k a : all1 G k a -> F2i (fun i c _ => G i c) k a (map (fun _ => 0) a).
Proof. revert k. induction a as [|c a IH]; intros k H; simpl; constructor; apply all1_inv in H; destruct H; auto. Qed.
Lemma F2i_all1 (G : nat -> F -> R -> Prop) (H : nat -> F -> Prop) k a us : (forall i c u, G i c u -> H i c) -> F2i G k a us -> all1 H k a.
Proof. intros HI HF. induction HF as [k|k c a u us Hg HF IH]; [apply all1_nil|apply all1_cons; eauto]. Qed.
Lemma all1_app (G : nat -> F -> Prop) k a b : all1 G k a -> all1 G (k + length a) b -> all1 G k (a ++ b).
Proof.
  intros Ha Hb i c Hi. destruct (Nat.lt_ge_cases i (length a)) as [L|L].
  - rewrite nth_error_app1 in Hi by auto. auto.
  - rewrite nth_error_app2 in Hi by auto. specialize (Hb _ _ Hi). replace (k + length a + (i - length a))%nat with (k + i)%nat in Hb by lia. auto.
Qed.
Lemma all1_firstn (G : nat -> F -> Prop) k n a : all1 G k a -> all1 G k (firstn n a).
Proof.
  intros H i c Hi. apply H. clear H. revert i n Hi. induction a as [|x a IH]; intros [|i] [|n] Hi; simpl in *; try discriminate; eauto.
Qed.
Lemma all1_skipn (G : nat -> F -> Prop) k n a : all1 G k a -> all1 G (k + n) (skipn n a).
Proof.
  revert k n. induction a as [|x a IH]; intros k [|n] H; simpl; try apply all1_nil; [rewrite Nat.add_0_r; auto|].
  apply all1_inv in H. replace (k + S n)%nat with (S k + n)%nat by lia. apply IH. apply H.
Qed.

Lemma foldM_tot {A B} (Inv : A -> Prop) (f : A -> B -> res A) l : forall acc, Inv acc -> (forall a x, Inv a -> In x l -> tot Inv (f a x)) -> tot Inv (foldM f acc l).
Proof.
  induction l as [|x l IH]; intros acc H Hf; cbn [foldM]; [apply tot_ok; auto|].
  eapply tot_bind; [apply Hf; [exact H|left; auto]|]. intros a Ha. apply IH; auto. intros a' y Ha' Hy. apply Hf; auto. right; auto.
Qed.

Section Ops.
Variables (add : F -> F -> res F) (zero : F) (G : nat -> F -> Prop).
Hypothesis Hz : forall i b, G i b -> tot (G i) (add zero b).
Hypothesis Hadd : forall i a b, G i a -> G i b -> tot (G i) (add a b).
Definition G0 i c := c = zero \/ G i c.
Lemma add0 i a b : G0 i a -> G i b -> tot (G i) (add a b).
Proof. intros [->|H] Hb; auto. Qed.

Lemma set_nth_tot (l : list F) k v : (k < length l)%nat -> tot (fun l' => length l' = length l /\ nth_error l' k = Some v /\ forall i, i <> k -> nth_error l' i = nth_error l i) (set_nth l k v).
Proof.
  intros H. assert (E : exists l', set_nth l k v = Ok l').
  { revert k H. induction l as [|x l IH]; intros [|k] H; simpl in *; try lia; eauto. destruct (IH k ltac:(lia)) as (l' & ->). simpl. eauto. }
  destruct E as (l' & E). exists l'. split; auto. apply set_nth_ok; auto.
Qed.
Lemma add_at_tot out n k c : length out = n -> all1 G0 0 out -> (k < n)%nat -> G k c -> tot (fun o => length o = n /\ all1 G0 0 o) (add_at add out k c).
Proof.
  intros L H Hk Hc. unfold add_at, get_nth. destruct (nth_error out k) as [o|] eqn:E; [|apply nth_error_None in E; lia]. cbn [bind].
  eapply tot_bind; [apply (add0 k o c); auto; apply (H k o E)|]. intros s Hs. eapply tot_mono; [|apply set_nth_tot; lia].
  simpl. intros l' (L' & N & O). split; [congruence|]. intros i c' Hi. simpl. destruct (Nat.eq_dec i k) as [->|Hne].
  - rewrite N in Hi. injection Hi as <-. right. auto.
  - rewrite O in Hi by auto. apply (H i c' Hi).
Qed.
(** Both product loops: totality, and the length of the result. *)
Lemma pair_tot (term : F -> F -> nat -> nat -> res F) (key : nat -> nat -> nat) n a b :
  (forall i j x y, nth_error a i = Some x -> nth_error b j = Some y -> tot (G (key i j)) (term x y i j)) ->
  (forall i j, (i < length a)%nat -> (j < length b)%nat -> (key i j < n)%nat) ->
  (forall k, (k < n)%nat -> exists i j, (i < length a)%nat /\ (j < length b)%nat /\ key i j = k) ->
  tot (fun o => length o = n /\ all1 G 0 o)
    (foldM (fun out '(i, ai) => foldM (fun out '(j, bj) => c <- term ai bj i j ;; add_at add out (key i j) c) out (enumerate b)) (repeat zero n) (enumerate a)).
Proof.
  intros Ht Hk Hon.
  assert (K : tot (fun o => length o = n /\ all1 G0 0 o)
    (foldM (fun out '(i, ai) => foldM (fun out '(j, bj) => c <- term ai bj i j ;; add_at add out (key i j) c) out (enumerate b)) (repeat zero n) (enumerate a))).
  { apply foldM_tot.
    - rewrite repeat_length. split; auto. intros i c Hi. left. eapply nth_error_repeat; eauto.
    - intros out (i, ai) Hout Hi. apply in_enumerate in Hi. apply foldM_tot; auto. intros out' (j, bj) [L' H'] Hj. apply in_enumerate in Hj.
      eapply tot_bind; [apply Ht; eauto|]. intros c Hc. apply add_at_tot; auto. apply Hk; apply nth_error_Some; congruence. }
  destruct K as (o & E & L & _). exists o. split; auto. split; auto.
  destruct (pair_product add zero (fun i c _ => G i c) (fun i c _ => nth_error a i = Some c) (fun i c _ => nth_error b i = Some c) term key n a b (map (fun _ => 0) a) (map (fun _ => 0) b) o) as (_ & ws & HW & _); auto.
  - intros i x _ c Hx Hc. destruct (Hz i x Hx) as (c' & E' & Hc'). congruence.
  - intros i x y _ _ c Hx Hy Hc. destruct (Hadd i x y Hx Hy) as (c' & E' & Hc'). congruence.
  - intros i j x y _ _ c Hx Hy _ _ Hc. destruct (Ht i j x y Hx Hy) as (c' & E' & Hc'). congruence.
  - apply (all1_F2i (fun i c => nth_error a i = Some c)). intros i c Hi. exact Hi.
  - apply (all1_F2i (fun i c => nth_error b i = Some c)). intros i c Hi. exact Hi.
  - eapply F2i_all1; [|exact HW]. auto.
Qed.
Lemma poly_bilinear_tot (tp : F -> F -> nat -> nat -> res F) (Ga Gb : nat -> F -> Prop) a b : (forall i j x y, Ga i x -> Gb j y -> tot (G (i + j)) (tp x y i j)) ->
  a <> [] -> b <> [] -> all1 Ga 0 a -> all1 Gb 0 b -> tot (fun o => length o = (length a + length b - 1)%nat /\ all1 G 0 o) (poly_bilinear add zero tp a b).
Proof.
  intros Htp Na Nb Ha Hb. apply (pair_tot tp (fun i j => (i + j)%nat)).
  - intros i j x y Hi Hj. apply Htp; [exact (Ha i x Hi)|exact (Hb j y Hj)].
  - intros i j Hi Hj. lia.
  - intros k Hk. destruct a as [|x a]; [congruence|]. destruct b as [|y b]; [congruence|]. simpl in *.
    destruct (Nat.le_gt_cases k (length a)); [exists k, 0%nat; lia|]. exists (length a), (k - length a)%nat. lia.
Qed.

Variables (one : F) (tp : F -> F -> nat -> nat -> res F) (tpow : F -> nat -> nat -> res F) (smul : Z -> F -> res F) (Ga Gp : nat -> F -> Prop).
Hypothesis Hone : G 0 one.
Hypothesis Htp : forall i j x y, G i x -> Gp j y -> tot (G (i + j)) (tp x y i j).
Hypothesis Htpow : forall i x e, Ga i x -> tot (Gp (i * e)) (tpow x i e).
Hypothesis Hsmul : forall i k x, G i x -> tot (G i) (smul k x).

Lemma run_product_tot a p : all1 Ga 0 a -> (length p <= length a)%nat -> tot (fun '(r, w) => w = weight p /\ G w r) (run_product one tp tpow a p).
Proof.
  intros Ha Hp. unfold run_product.
  assert (Gen : forall q k acc, (k + length q <= length a)%nat -> G (snd acc) (fst acc) ->
     tot (fun '(r, w) => w = (snd acc + list_sum (map (fun '(j, x) => (j * x)%nat) (enumerate_from k q)))%nat /\ G w r)
     (foldM (fun '(r, w) '(j, pj) => aj <- get_nth a j ;; t <- tpow aj j pj ;; r' <- tp r t w (j * pj) ;; Ok (r', w + j * pj)%nat) acc (enumerate_from k q))).
  { induction q as [|e q IH]; intros k (r0, w0) Hq Hv; simpl in Hq.
    - simpl. apply tot_ok. simpl in Hv. split; [lia|auto].
    - cbn [enumerate_from foldM]. unfold get_nth at 1. destruct (nth_error a k) as [aj|] eqn:E; [|apply nth_error_None in E; lia]. cbn [bind].
      destruct (Htpow k aj e (Ha k aj E)) as (t & -> & Ht). cbn [bind]. destruct (Htp w0 (k * e) r0 t Hv Ht) as (r' & -> & Hr'). cbn [bind].
      eapply tot_mono; [|apply (IH (S k) (r', (w0 + k * e)%nat)); [lia|exact Hr']]. intros (r, w) [E1 E2]. split; auto.
      cbn [enumerate_from map list_sum fold_right]. simpl in E1. change (list_sum (?x :: ?l)) with (x + list_sum l)%nat. unfold list_sum in *. simpl. lia. }
  apply (Gen p 0%nat (one, 0%nat)); auto.
Qed.
Lemma get_coeff_tot a e i : all1 Ga 0 a -> a <> [] -> (i <= (length a - 1) * e)%nat -> tot (G i) (get_coeff add zero one tp tpow smul a e i).
Proof.
  intros Ha Na Hi. unfold get_coeff. assert (HP : forall p, In p (partitions i e (length a - 1)) -> length p = length a /\ weight p = i).
  { intros p Hp. apply partitions_spec in Hp. destruct a; [congruence|]. simpl in *. lia. }
  pose proof (partitions_nonempty (length a - 1) i e Hi) as Hne. revert HP Hne. generalize (partitions i e (length a - 1)) as ps. intros ps HP Hne.
  assert (Gen : forall ps acc, (acc = zero /\ ps <> [] \/ G i acc) -> (forall p, In p ps -> length p = length a /\ weight p = i) ->
     tot (G i) (foldM (fun c p => '(r, w) <- run_product one tp tpow a p ;; _ <- guard (w =? i)%nat AssertionError ;;
           m <- multinomial_coefficient p ;; term <- smul m r ;; add c term) acc ps)).
  { clear ps HP Hne. induction ps as [|p ps IH]; intros acc Hacc HP; cbn [foldM].
    - apply tot_ok. destruct Hacc as [[_ H]|H]; [congruence|auto].
    - destruct (HP p (or_introl eq_refl)) as [HpL HpW]. destruct (run_product_tot a p Ha ltac:(lia)) as ((r, w) & -> & Ew & Gr). cbn [bind]. rewrite Ew, HpW in Gr.
      rewrite Ew, HpW, Nat.eqb_refl. cbn [guard bind]. rewrite mult_ok by (destruct p; [destruct a; [congruence|discriminate]|discriminate]). cbn [bind].
      destruct (Hsmul i (mult p) r Gr) as (t & -> & Ht). cbn [bind].
      eapply tot_bind; [apply (add0 i acc t); auto; destruct Hacc as [[-> _]|H]; [left|right]; auto|].
      intros acc' H'. apply IH; auto. intros q Hq. apply HP. right; auto. }
  apply Gen; auto.
Qed.
Lemma mapM_seq_tot (f : nat -> res F) n : (forall i, (i < n)%nat -> tot (G i) (f i)) -> tot (fun o => length o = n /\ all1 G 0 o) (mapM f (seq 0 n)).
Proof.
  intros H. assert (Gen : forall m k, (k + m <= n)%nat -> tot (fun o => length o = m /\ all1 G k o) (mapM f (seq k m))).
  { induction m as [|m IH]; intros k Hk; cbn [seq mapM]; [apply tot_ok; split; auto; apply all1_nil|].
    eapply tot_bind; [apply H; lia|]. intros c Hc. eapply tot_bind; [apply IH; lia|]. intros o [L Ho]. apply tot_ok. simpl. split; [lia|apply all1_cons; auto]. }
  apply Gen. lia.
Qed.
Lemma integer_power_tot a e : all1 Ga 0 a -> a <> [] -> (1 <= e)%nat ->
  tot (fun o => length o = (1 + (length a - 1) * e)%nat /\ all1 G 0 o) (integer_power add zero one tp tpow smul a (Z.of_nat e)).
Proof.
  intros Ha Na He. unfold integer_power. destruct (Z.ltb_spec (Z.of_nat e) 0); [lia|]. destruct (Z.eqb_spec (Z.of_nat e) 0); [lia|].
  rewrite Nat2Z.id. cbv zeta.
  enough (K : tot (fun o => length o = (1 + (length a - 1) * e)%nat /\ all1 G 0 o) (mapM (get_coeff add zero one tp tpow smul a e) (seq 0 (1 + (length a - 1) * e)))) by (destruct a; [congruence|exact K]).
  apply mapM_seq_tot. intros i Hi. apply get_coeff_tot; auto. lia.
Qed.
End Ops.
End Loops.

(** ** Enclosures *)
Section Enclosures.
Variables (X : list nat) (tr : tensor R * tensor R) (D : nat).
Hypothesis Htr : tshape (fst tr) = X /\ tshape (snd tr) = X.
Let A := mkArith D tr.
Let trc : coef R := Ivl (fst tr) (snd tr).

Lemma trc_wfs : wfs X trc.
Proof. exact Htr. Qed.
Lemma region_power_tot k : tot (wfs (rep k X)) (iouter_power trc (Z.of_nat k) 0).
Proof.
  destruct k as [|k]; [apply tot_ok; reflexivity|]. apply (iouter_power_tot [] X); [exact trc_wfs|lia].
Qed.
Lemma itensordot_tot k s1 sk (a b : coef R) : length sk = k -> wfs (s1 ++ sk) a -> wfs sk b -> tot (wfs s1) (itensordot a b k).
Proof.
  intros Hk Ha Hb. unfold itensordot. eapply ibil_tot; eauto. intros u v Hu Hv.
  destruct (tensordot_total k s1 sk [] u v Hk Hu) as (c & E & S); [rewrite app_nil_r; auto|]. rewrite app_nil_r in S. exists c. auto.
Qed.

Section P.
Variables (S : list nat) (P P' : nat -> list nat -> Prop).
Hypothesis PF : prefixes S P P'.

Lemma shp_contract d k c w : shp X P (d + k) c -> wfs (rep k X) w -> tot (shp X P d) (itensordot c w (k * length X)).
Proof.
  intros (p & Hp & W) Ww. rewrite rep_app, app_assoc in W. eapply tot_mono; [|apply (itensordot_tot _ (p ++ rep d X) (rep k X)); eauto; apply rep_length].
  intros r Hr. exists p. split; auto. apply (pf_down _ _ _ PF (d + k)); auto. lia.
Qed.
Lemma eval_tot d cs : all1 (shp X P) d cs -> cs <> [] -> tot (shp X P d) (eval_taylor_enclosure cs trc).
Proof.
  intros Hc Hne. unfold eval_taylor_enclosure, eval_polynomial.
  assert (Gen : forall cs i zi running, all1 (shp X P) (d + i) cs -> (i = 0%nat -> zi = one_c) -> (running = zero_c /\ cs <> [] \/ shp X P d running) ->
    tot (shp X P d) (eval_poly_loop iadd inner_product (fun x k => iouter_power x k 0) trc i zi running cs)).
  { clear Hc Hne cs. induction cs as [|c cs IH]; intros i zi running Hc Hi Hr; cbn [eval_poly_loop].
    - apply tot_ok. destruct Hr as [[_ H]|H]; [congruence|auto].
    - apply all1_inv in Hc. destruct Hc as [Hc Hcs].
      eapply tot_bind with (Q := wfs (rep i X)).
      { destruct i; simpl; [apply tot_ok; rewrite Hi by auto; reflexivity|exact (region_power_tot (Datatypes.S i))]. }
      intros zi' Wz. unfold inner_product. rewrite (wfs_indim _ _ Wz), rep_length.
      eapply tot_bind; [apply (shp_contract d i c zi'); auto|]. intros t Ht.
      eapply tot_bind with (Q := shp X P d).
      { destruct Hr as [[-> _]|Hr]; [apply shp_zero_add; auto|eapply shp_add; eauto]. }
      intros run' Hrun. apply IH; [rewrite Nat.add_succ_r; auto|discriminate|auto]. }
  apply Gen; [rewrite Nat.add_0_r; auto|auto|left; split; auto].
Qed.
Lemma enclose_tot enc n : all1 (shp X P) 0 enc -> tot (fun e => all1 (shp X P) 0 e /\ length e = Nat.min (length enc) (n + 1)) (enclose_enclosure enc tr n).
Proof.
  intros H. unfold enclose_enclosure. destruct (Nat.leb_spec (length enc) (n + 1)); [apply tot_ok; split; auto; lia|].
  eapply tot_bind; [apply (eval_tot n); [exact (all1_skipn _ 0 n enc H)|]|].
  - intros E. apply (f_equal (@length _)) in E. rewrite skipn_length in E. simpl in E. lia.
  - intros c Hc. apply tot_ok. split.
    + apply all1_app; [apply all1_firstn; auto|]. rewrite firstn_length. replace (0 + Nat.min n (length enc))%nat with n by lia. apply all1_cons; auto. apply all1_nil.
    + rewrite app_length, firstn_length. simpl. lia.
Qed.
Lemma validate_tot Q a : all1 (shp X Q) 0 a -> tot (fun _ => True) (validate_taylor_enclosure A a).
Proof.
  intros H. unfold validate_taylor_enclosure. apply foldM_tot; auto. intros _ (i, c) _ Hin. apply in_enumerate in Hin. destruct (H i c Hin) as (p & _ & W).
  simpl in W. cbn [trust_region A]. rewrite (proj1 Htr), (wfs_ishape _ _ W), app_length, rep_length.
  replace (length p + i * length X - i * length X)%nat with (length p) by lia. rewrite skipn_exact by auto.
  replace (shape_eqb _ _) with true by (symmetry; apply shape_eqb_eq; auto). apply tot_ok. auto.
Qed.

Lemma add_coeffs_tot : forall a b k, all1 (shp X P) k a -> all1 (shp X P) k b ->
  tot (fun e => all1 (shp X P) k e /\ length e = Nat.max (length a) (length b)) (add_coeffs a b).
Proof.
  induction a as [|x a IH]; intros b k Ha Hb; cbn [add_coeffs].
  - apply tot_ok. auto.
  - destruct b as [|y b]; [apply tot_ok; split; auto; simpl; lia|]. apply all1_inv in Ha, Hb. destruct Ha as [Hx Ha], Hb as [Hy Hb].
    eapply tot_bind; [eapply shp_add; eauto|]. intros c Hc. eapply tot_bind; [apply (IH b (Datatypes.S k)); auto|]. intros r [Hr L]. apply tot_ok. split; [apply all1_cons; auto|simpl; lia].
Qed.
Lemma eadd_tot a b : all1 (shp X P) 0 a -> all1 (shp X P) 0 b ->
  tot (fun e => all1 (shp X P) 0 e /\ length e = Nat.min (Nat.max (length a) (length b)) (D + 1)) (eadd A a b).
Proof.
  intros Ha Hb. unfold eadd. eapply tot_bind; [apply (add_coeffs_tot a b 0); auto|]. intros t [Ht L]. rewrite <- L. apply enclose_tot; auto.
Qed.
Lemma eneg_tot a : all1 (shp X P) 0 a -> tot (fun e => all1 (shp X P) 0 e /\ length e = Nat.min (length a) (D + 1)) (enegative A a).
Proof.
  intros Ha. unfold enegative. rewrite <- (map_length ineg a). apply enclose_tot. intros i c Hi. rewrite nth_error_map in Hi.
  destruct (nth_error a i) as [c'|] eqn:E; [|discriminate]. injection Hi as <-. apply shp_neg. apply (Ha i c' E).
Qed.
Lemma esub_tot a b : all1 (shp X P) 0 a -> all1 (shp X P) 0 b ->
  tot (fun e => all1 (shp X P) 0 e /\ length e = Nat.min (Nat.max (length a) (length b)) (D + 1)) (esubtract A a b).
Proof.
  intros Ha Hb. unfold esubtract. eapply tot_bind; [apply eneg_tot; exact Hb|]. intros nb [Hn L]. eapply tot_mono; [|apply eadd_tot; eauto].
  intros e [He L']. split; auto. lia.
Qed.
Lemma tr_nd : tndim (fst tr) = length X.
Proof. unfold tndim. rewrite (proj1 Htr). auto. Qed.
Lemma emul_tot a b : all1 (shp X P) 0 a -> all1 (shp X P') 0 b -> a <> [] -> b <> [] ->
  tot (fun e => all1 (shp X P) 0 e /\ length e = Nat.min (length a + length b - 1) (D + 1)) (emultiply A a b).
Proof.
  intros Ha Hb Na Nb. unfold emultiply. eapply tot_bind; [apply (validate_tot P a Ha)|]. intros _ _. eapply tot_bind; [apply (validate_tot P' b Hb)|]. intros _ _.
  cbn [trust_region A]. rewrite tr_nd.
  eapply tot_bind; [apply (poly_bilinear_tot iadd zero_c (shp X P)) with (Ga := shp X P) (Gb := shp X P'); auto|].
  - intros; apply shp_zero_add; auto.
  - intros; eapply shp_add; eauto.
  - intros; eapply shp_tp; eauto.
  - intros p [L Hp]. rewrite <- L. apply enclose_tot; auto.
Qed.
Lemma epower_tot a n : (forall i p e, P i p -> (1 <= e)%nat -> P' (i * e)%nat p) ->
  (exists a0 r, a = a0 :: r /\ shp X P 0 (Arr (tones_like (left_end a0)))) -> all1 (shp X P) 0 a -> (1 <= n)%nat ->
  tot (fun e => all1 (shp X P) 0 e /\ length e = Nat.min (1 + (length a - 1) * n) (D + 1)) (epower_nat A a n).
Proof.
  intros HE (a0 & r & -> & Hone) Ha Hn. unfold epower_nat. eapply tot_bind; [apply (validate_tot P _ Ha)|]. intros _ _.
  cbn [trust_region A]. rewrite tr_nd.
  eapply tot_bind; [apply (integer_power_tot iadd zero_c (shp X P)) with (Ga := shp X P) (Gp := shp X P'); auto|].
  - intros; apply shp_zero_add; auto.
  - intros; eapply shp_add; eauto.
  - intros; eapply shp_tp; eauto.
  - intros; eapply shp_tpow; eauto.
  - intros; apply shp_smul; auto.
  - congruence.
  - intros q [L Hq]. rewrite <- L. apply enclose_tot; auto.
Qed.
End P.

Section C.
Variable S : list nat.
Notation full_shp := (shp X (full S)).
(** Shapes of the same rank that broadcast to [S] (from degree 1 on). *)
Definition rk (i : nat) (p : list nat) : Prop := compat p S /\ length p = length S.
Definition rk_tail (i : nat) (p : list nat) : Prop := compat p S /\ ((1 <= i)%nat -> length p = length S).
Lemma pf_rk_tail : prefixes S rk_tail rk_tail.
Proof.
  unfold rk_tail.
  assert (L : forall a b c, compat a S -> compat b S -> bshape a b = Some c -> length a = length S \/ length b = length S -> length c = length S).
  { intros a b c Ca Cb H K. apply bshape_spec in H as H'. destruct H' as [C1 C2]. apply compat_length in C1, C2.
    pose proof (compat_length _ _ (bshape_least _ _ _ _ H Ca Cb)). lia. }
  split; intros.
  - tauto.
  - auto.
  - split; [apply compat_nil|lia].
  - destruct H as [H H'], H0 as [H0 H0']. split; [eapply bshape_least; eauto|]. intros K. apply (L a b c); auto. destruct i; [right; apply H0'; lia|left; apply H'; lia].
  - destruct H as [H H'], H0 as [H0 H0']. split; [eapply bshape_least; eauto|]. intros K. apply (L a b c); auto.
  - destruct H0 as [H0 H0']. split; auto. intros K. apply H0'. lia.
Qed.
Lemma lbm_tot p q : compat p S -> length p = length S -> op_tot left_broadcasting_multiply S (p ++ q) (S ++ q).
Proof.
  intros Cp Lp u v Hu Hv. unfold left_broadcasting_multiply, expand_dims_at, tndim. rewrite Hu, Hv, app_length, Lp.
  replace (length S + length q <? length S)%nat with false by (symmetry; apply Nat.ltb_ge; lia). rewrite Nat.leb_refl. cbn [bind].
  eapply tmap2_tot; [reflexivity|exact Hv|]. simpl. rewrite firstn_all, skipn_all, app_nil_r.
  replace (length S + length q - length S)%nat with (length q) by lia. rewrite bshape_app by (rewrite repeat_length; auto).
  rewrite (bshape_compat_r _ _ Cp), zipM_ones_l by auto. reflexivity.
Qed.

(** Entries of a composition term: zeros below [p]. *)
Definition zshp (p k : nat) (c : coef R) : Prop := (k < p)%nat /\ c = zero_c \/ full_shp k c.
Lemma add_zpad_tot p : forall out i term, all1 full_shp i out -> all1 (zshp p) i term ->
  (forall k, (i + length out <= k < i + length term)%nat -> (p <= k)%nat) ->
  tot (fun e => all1 full_shp i e /\ length e = Nat.max (length out) (length term)) (add_coeffs out term).
Proof.
  induction out as [|x out IH]; intros i term Ho Ht Hk; cbn [add_coeffs].
  - apply tot_ok. split; auto. intros j c Hj. destruct (Ht j c Hj) as [[Hl _]|H]; auto.
    assert (j < length term)%nat by (apply nth_error_Some; congruence). simpl in Hk. specialize (Hk (i + j)%nat). lia.
  - destruct term as [|y term]; [apply tot_ok; split; auto; simpl; lia|]. apply all1_inv in Ho, Ht. destruct Ho as [Hx Ho], Ht as [Hy Ht].
    eapply tot_bind with (Q := full_shp i).
    { destruct Hy as [[_ ->]|Hy]; [apply shp_add_zero; auto|exact (shp_add S _ _ (pf_full S) X i x y Hx Hy)]. }
    intros c Hc. eapply tot_bind; [apply (IH (Datatypes.S i) term); auto|].
    { intros k Hk'. apply Hk. simpl in *. lia. }
    intros r [Hr L]. apply tot_ok. split; [apply all1_cons; auto|simpl; lia].
Qed.
Lemma compose_term_tot p c arg : (1 <= p)%nat -> wfs S c -> all1 (shp X rk) 1 arg ->
  tot (fun t => all1 (zshp p) 0 t /\ length t = Nat.min (1 + length arg * p) (D + 1)) (compose_term A p c (zero_c :: arg)).
Proof.
  intros Hp Wc Ha. unfold compose_term. destruct p as [|p']; [lia|]. set (p := Datatypes.S p') in *.
  assert (Z0 : rk_tail 0 []) by (split; [apply compat_nil|lia]).
  assert (Ha0 : all1 (shp X rk_tail) 0 (zero_c :: arg)).
  { apply all1_cons; [exists []; split; [exact Z0|reflexivity]|].
    eapply all1_mono; [|exact Ha]. intros i c' (q & [H1 H2] & W). exists q. split; auto. split; auto. }
  eapply tot_bind; [apply (epower_tot S _ _ pf_rk_tail (zero_c :: arg) p); auto|].
  { intros i q e [H1 H2] He. split; auto. intros K. apply H2. destruct i; simpl in K; lia. }
  { exists zero_c, arg. split; auto. exists []. split; [exact Z0|reflexivity]. }
  intros poly [Hpoly L]. simpl length in L. rewrite Nat.sub_succ, Nat.sub_0_r in L. rewrite <- L. clear L. revert Hpoly. unfold enumerate.
  generalize 0%nat as k. induction poly as [|t poly IH]; intros k Hk; cbn [enumerate_from mapM].
  - apply tot_ok. split; auto. apply all1_nil.
  - apply all1_inv in Hk. destruct Hk as [Ht Hk].
    eapply tot_bind with (Q := zshp p k).
    { destruct (Nat.ltb_spec k p); [apply tot_ok; left; auto|]. destruct Ht as (q & [Cq Lq] & W). specialize (Lq ltac:(lia)).
      eapply tot_mono; [|eapply ibil_tot; [exact Wc|exact W|apply (lbm_tot q _ Cq Lq)]]. intros r Hr. right. exists S. split; auto. reflexivity. }
    intros y Hy. eapply tot_bind; [apply (IH (Datatypes.S k)); auto|]. intros ys [Hys L]. apply tot_ok. split; [apply all1_cons; auto|simpl; lia].
Qed.
(** Composing with an elementwise enclosure of full shape. *)
Lemma compose_tot a0 arg e : all1 (shp X rk) 1 arg -> (0 < length e <= D + 1)%nat -> Forall (wfs S) e ->
  tot (fun r => all1 full_shp 0 r /\ (1 <= length r)%nat /\ (length e <= 1 \/ arg = [] \/ 2 <= length r)%nat) (compose_enclosures A e (a0 :: arg)).
Proof.
  intros Ha HL HW. unfold compose_enclosures. destruct e as [|e0 e]; [simpl in HL; lia|]. cbn [skipn]. unfold enumerate. cbn [enumerate_from foldM].
  inversion HW as [|? ? W0 HW']; subst. simpl compose_term. cbn [bind].
  assert (E0 : tot (fun out => all1 full_shp 0 out /\ length out = 1%nat) (eadd A [zero_c] [e0])).
  { unfold eadd. cbn [add_coeffs]. eapply tot_bind with (Q := fun l => all1 full_shp 0 l /\ length l = 1%nat).
    - eapply tot_bind; [apply (shp_zero_add X (full S) 0 e0); exists S; split; [reflexivity|simpl; rewrite app_nil_r; auto]|]. intros c Hc. cbn [bind]. apply tot_ok. split; auto. apply all1_cons; auto. apply all1_nil.
    - intros l [Hl L]. unfold truncate_if_necessary. eapply tot_mono; [|apply (enclose_tot S _ _ (pf_full S) l D Hl)]. intros o [Ho Lo]. split; auto. lia. }
  eapply tot_bind; [exact E0|]. intros out [Ho Lo].
  assert (Gen : forall e p out, (1 <= p)%nat -> Forall (wfs S) e -> (p + length e <= D + 1)%nat -> all1 full_shp 0 out -> (1 <= length out <= D + 1)%nat ->
     (arg = [] /\ length out = 1%nat \/ arg <> [] /\ (p <= length out)%nat) ->
     tot (fun r => all1 full_shp 0 r /\ (length out <= length r)%nat /\ (e = [] \/ arg = [] \/ 2 <= length r)%nat)
       (foldM (fun out '(p, coefficient) => term <- compose_term A p coefficient (zero_c :: arg) ;; eadd A out term) out (enumerate_from p e))).
  { clear out Ho Lo E0 HW HW' HL W0 e0 e. induction e as [|c e IH]; intros p out Hp HW HL Ho Lo Hlen; cbn [enumerate_from foldM].
    - apply tot_ok. auto.
    - inversion HW as [|? ? Wc HW']; subst. simpl in HL.
      eapply tot_bind with (Q := fun o => all1 full_shp 0 o /\ (length out <= length o)%nat /\ length o = Nat.min (Nat.max (length out) (1 + length arg * p)) (D + 1)).
      { eapply tot_bind; [apply (compose_term_tot p c arg); auto|]. intros t [Ht Lt]. unfold eadd.
        eapply tot_bind; [apply (add_zpad_tot p out 0 t Ho Ht)|].
        { intros k Hk. simpl in Hk. destruct Hlen as [[-> Hl]|[Hn Hl]]; [|lia]. cbn [length Nat.mul] in Lt. lia. }
        intros s [Hs Ls]. unfold truncate_if_necessary. eapply tot_mono; [|apply (enclose_tot S _ _ (pf_full S) s D Hs)]. intros o [Ho' Lo']. split; auto. cbn [max_degree A] in *. lia. }
      intros o (Ho' & Lo1 & Lo2). eapply tot_mono; [|apply (IH (Datatypes.S p) o); auto; try lia].
      + intros r (Hr & L & K). split; auto. split; [lia|]. destruct arg as [|y arg]; [auto|]. right. right. cbn [length] in Lo2. nia.
      + destruct Hlen as [[-> Hl]|[Hn Hl]]; [left|right]; split; auto; [cbn [length Nat.mul] in Lo2; lia|]. apply length_nonnil in Hn. nia. }
  eapply tot_mono; [|apply (Gen e 1%nat out); auto; simpl in *; try lia].
  - intros r (Hr & L1 & K). split; auto. split; [lia|]. destruct K as [->|K]; auto.
  - destruct arg; [left|right]; split; auto; try congruence. lia.
Qed.
End C.
End Enclosures.
