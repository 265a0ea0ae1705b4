(** Inclusion isotonicity of the enclosure arithmetic. *)
From Coq Require Import Reals Lra.
From Verif Require Import Base Tensor IntervalArith Polynomials Enclosure TensorLemmas Spec IntervalProofs PowerProofs EnclosureOps IsoSpec Iso.
Open Scope R_scope.

Notation nar := (Forall2 narrower).

Section Poly.
Context {F : Type} (P : F -> F -> Prop).
Variables (add : F -> F -> res F) (zero zero' one one' : F).
Hypothesis Hadd : forall a a' b b', P a a' -> P b b' -> rel P (add a b) (add a' b').
Hypothesis Hzero : P zero zero'.
Hypothesis Hone : P one one'.

Lemma eval_poly_rel inner opow : (forall a a' b b', P a a' -> P b b' -> rel P (inner a b) (inner a' b')) ->
  (forall a a' k, P a a' -> rel P (opow a k) (opow a' k)) ->
  forall cs cs' z z', P z z' -> Forall2 P cs cs' -> rel P (eval_polynomial add zero one cs z inner opow) (eval_polynomial add zero' one' cs' z' inner opow).
Proof.
  intros HI HP cs cs' z z' Hz H. unfold eval_polynomial. generalize 0%nat. revert zero zero' one one' Hzero Hone.
  induction H as [|c c' cs cs' Hc H IH]; intros r r' zi zi' Hr Hzi i; cbn [eval_poly_loop]; [apply rel_ok; auto|].
  eapply rel_bind with (Q := P). { destruct (0 <? i)%nat; [apply HP; auto|apply rel_ok; auto]. }
  intros w w' Hw. eapply rel_bind; [apply HI; eauto|]. intros t t' Ht. eapply rel_bind; [apply Hadd; eauto|]. intros s s' Hs. apply IH; auto.
Qed.
Lemma add_at_rel out out' k c c' : Forall2 P out out' -> P c c' -> rel (Forall2 P) (add_at add out k c) (add_at add out' k c').
Proof.
  intros H Hc. unfold add_at. eapply rel_bind; [apply get_nth_rel; eauto|]. intros o o' Ho. eapply rel_bind; [apply Hadd; eauto|].
  intros s s' Hs. apply set_nth_rel; auto.
Qed.
Lemma poly_bilinear_rel tp a a' b b' : (forall x x' y y' i j, P x x' -> P y y' -> rel P (tp x y i j) (tp x' y' i j)) ->
  Forall2 P a a' -> Forall2 P b b' -> rel (Forall2 P) (poly_bilinear add zero tp a b) (poly_bilinear add zero' tp a' b').
Proof.
  intros HT Ha Hb. unfold poly_bilinear. rewrite (Forall2_length' _ _ _ Ha), (Forall2_length' _ _ _ Hb).
  apply (rel_foldM (Forall2 P) (same_fst P)); [apply enumerate_rel; auto| |apply Forall2_repeat; auto].
  intros o o' (i & x) (i' & x') Ho [E Hx]. simpl in E, Hx. subst i'.
  apply (rel_foldM (Forall2 P) (same_fst P)); [apply enumerate_rel; auto| |auto].
  intros u u' (j & y) (j' & y') Hu [E Hy]. simpl in E, Hy. subst j'.
  eapply rel_bind; [apply HT; eauto|]. intros c c' Hc. apply add_at_rel; auto.
Qed.
Lemma run_product_rel tp tpow a a' p : (forall x x' y y' i j, P x x' -> P y y' -> rel P (tp x y i j) (tp x' y' i j)) ->
  (forall x x' i j, P x x' -> rel P (tpow x i j) (tpow x' i j)) -> Forall2 P a a' ->
  rel (fun x y => P (fst x) (fst y) /\ snd x = snd y) (run_product one tp tpow a p) (run_product one' tp tpow a' p).
Proof.
  intros HT HW Ha. unfold run_product.
  apply (rel_foldM (fun x y => P (fst x) (fst y) /\ snd x = snd y) eq); [apply Forall2_refl'; auto| |simpl; auto].
  intros (r & w) (r' & w') (j & pj) (j' & pj') [Hr E] [= <- <-]. simpl in E, Hr. subst w'.
  eapply rel_bind; [apply get_nth_rel; eauto|]. intros x x' Hx. eapply rel_bind; [apply HW; eauto|]. intros t t' Ht.
  eapply rel_bind; [apply HT; eauto|]. intros s s' Hs. apply rel_ok. simpl. auto.
Qed.
Lemma integer_power_rel tp tpow smul a a' e : (forall x x' y y' i j, P x x' -> P y y' -> rel P (tp x y i j) (tp x' y' i j)) ->
  (forall x x' i j, P x x' -> rel P (tpow x i j) (tpow x' i j)) -> (forall k x x', P x x' -> rel P (smul k x) (smul k x')) -> Forall2 P a a' ->
  rel (Forall2 P) (integer_power add zero one tp tpow smul a e) (integer_power add zero' one' tp tpow smul a' e).
Proof.
  intros HT HW HS Ha. unfold integer_power. destruct (e <? 0)%Z; [apply rel_err|]. destruct (e =? 0)%Z; [apply rel_ok; auto|].
  destruct Ha as [|x x' a a' Hx Ha]; [apply rel_ok; auto|]. assert (HA : Forall2 P (x :: a) (x' :: a')) by (constructor; auto).
  replace (length (x' :: a')) with (length (x :: a)) by (eapply Forall2_length'; eauto).
  apply (rel_mapM eq); [apply Forall2_refl'; auto|]. intros i i' <-. unfold get_coeff.
  replace (length (x' :: a')) with (length (x :: a)) by (eapply Forall2_length'; eauto).
  apply (rel_foldM P eq); [apply Forall2_refl'; auto| |auto]. intros c c' p p' Hc <-.
  eapply rel_bind; [apply run_product_rel; eauto|]. intros (r & w) (r' & w') [Hr E]. simpl in Hr, E. subst w'.
  apply (rel_bind eq); [intros u v _ _; destruct u, v; auto|]. intros _ _ _. apply (rel_bind eq); [intros u v H H'; congruence|]. intros m m' <-.
  eapply rel_bind; [apply HS; eauto|]. intros t t' Ht. apply Hadd; auto.
Qed.
End Poly.

Lemma eval_iso cs cs' z z' : nar cs cs' -> narrower z z' -> rel narrower (eval_taylor_enclosure cs z) (eval_taylor_enclosure cs' z').
Proof.
  intros Hc Hz. unfold eval_taylor_enclosure. apply (eval_poly_rel narrower); auto using iadd_iso, narrower_arr_same.
  - intros a a' b b' Ha Hb. unfold inner_product. rewrite (narrower_indim _ _ Hb). apply itensordot_iso; auto.
  - intros a a' k Ha. apply iouter_power_iso; auto.
Qed.
(** The elementwise evaluation. *)
Lemma eval_elementwise_iso cs cs' z z' : nar cs cs' -> narrower z z' -> rel narrower (eval_elementwise_taylor_enclosure cs z) (eval_elementwise_taylor_enclosure cs' z').
Proof. intros Hc Hz. unfold eval_elementwise_taylor_enclosure. apply (eval_poly_rel narrower); auto using iadd_iso, narrower_arr_same, imul_iso, ipower_iso. Qed.

Definition regions (tr tr' : tensor R * tensor R) : Prop := narrower (Ivl (fst tr) (snd tr)) (Ivl (fst tr') (snd tr')).
Lemma enclose_iso a a' tr tr' d : nar a a' -> regions tr tr' -> rel nar (enclose_enclosure a tr d) (enclose_enclosure a' tr' d).
Proof.
  intros Ha Ht. unfold enclose_enclosure. rewrite (Forall2_length' _ _ _ Ha). destruct (_ <=? _)%nat; [apply rel_ok; auto|].
  eapply rel_bind; [apply eval_iso; [apply Forall2_skipn; eauto|exact Ht]|]. intros c c' Hc. apply rel_ok.
  apply Forall2_app; [apply Forall2_firstn; auto|auto].
Qed.

Lemma map_coef_kind f (c c' : coef R) : map_coef f c = Ok c' -> is_arr c' = is_arr c.
Proof. destruct c; simpl; intros H; ok_inv; subst; reflexivity. Qed.

Section Arith.
Variables (A A' : arith R).
Hypothesis HD : max_degree A = max_degree A'.
Hypothesis HT : regions (trust_region A) (trust_region A').

Lemma xnd_eq : tndim (fst (trust_region A)) = tndim (fst (trust_region A')).
Proof. exact (narrower_indim _ _ HT). Qed.
Lemma truncate_iso a a' : nar a a' -> rel nar (truncate_if_necessary A a) (truncate_if_necessary A' a').
Proof. intros. unfold truncate_if_necessary. rewrite HD. apply enclose_iso; auto. Qed.
Lemma add_coeffs_iso a a' b b' : nar a a' -> nar b b' -> rel nar (add_coeffs a b) (add_coeffs a' b').
Proof.
  intros Ha. revert b b'. induction Ha as [|x x' a a' Hx Ha IH]; intros b b' Hb; [apply rel_ok; auto|].
  destruct Hb as [|y y' b b' Hy Hb]; cbn [add_coeffs]; [apply rel_ok; auto|].
  eapply rel_bind; [apply iadd_iso; eauto|]. intros z z' Hz. eapply rel_bind; [apply IH; eauto|]. intros r r' Hr. apply rel_ok; auto.
Qed.
Lemma eadd_iso a a' b b' : nar a a' -> nar b b' -> rel nar (eadd A a b) (eadd A' a' b').
Proof. intros Ha Hb. eapply rel_bind; [apply add_coeffs_iso; eauto|]. intros; apply truncate_iso; auto. Qed.
Lemma enegative_iso a a' : nar a a' -> rel nar (enegative A a) (enegative A' a').
Proof. intros Ha. apply truncate_iso. induction Ha; constructor; auto using ineg_iso. Qed.
Lemma esubtract_iso a a' b b' : nar a a' -> nar b b' -> rel nar (esubtract A a b) (esubtract A' a' b').
Proof. intros Ha Hb. eapply rel_bind; [apply enegative_iso; eauto|]. intros; apply eadd_iso; auto. Qed.
Lemma etp_iso n x x' y y' i j : narrower x x' -> narrower y y' ->
  rel narrower (elementwise_term_product_coefficient n x y i j) (elementwise_term_product_coefficient n x' y' i j).
Proof. intros. apply ibil_prod_iso; auto using pbm_prods. Qed.
Lemma unit_rel (r r' : res unit) : rel eq r r'.
Proof. intros [] [] _ _. auto. Qed.
Lemma emultiply_iso a a' b b' : nar a a' -> nar b b' -> rel nar (emultiply A a b) (emultiply A' a' b').
Proof.
  intros Ha Hb. unfold emultiply. eapply rel_bind; [apply unit_rel|]. intros _ _ _. eapply rel_bind; [apply unit_rel|]. intros _ _ _.
  rewrite xnd_eq. eapply rel_bind; [|intros; apply truncate_iso; eauto].
  apply poly_bilinear_rel; auto using iadd_iso, narrower_arr_same, etp_iso. apply narrower_arr_same.
Qed.
Lemma ebil_iso pbb a a' b b' : (forall p q, sums (fun u v => pbb u v p q)) -> nar a a' -> nar b b' ->
  rel nar (earbitrary_bilinear A a b pbb) (earbitrary_bilinear A' a' b' pbb).
Proof.
  intros HP Ha Hb. unfold earbitrary_bilinear. rewrite HD, (Forall2_length' _ _ _ Ha), (Forall2_length' _ _ _ Hb).
  apply (rel_foldM nar (same_fst narrower)); [apply enumerate_rel; auto| |apply Forall2_repeat, narrower_arr_same].
  intros o o' (i & x) (i' & x') Ho [E Hx]. simpl in E, Hx. subst i'.
  apply (rel_foldM nar (same_fst narrower)); [apply enumerate_rel; auto| |auto].
  intros u u' (j & y) (j' & y') Hu [E Hy]. simpl in E, Hy. subst j'.
  eapply rel_bind with (Q := narrower); [|intros c c' Hc; apply add_at_rel; auto using iadd_iso].
  unfold term_enclosure_coefficient. rewrite HD, xnd_eq. destruct (_ <=? _)%nat; [apply ibil_pos_iso; auto|].
  eapply rel_bind; [apply iouter_power_iso; exact HT|]. intros p p' Hp. eapply rel_bind; [apply itensordot_iso; eauto|]. intros c c' Hc.
  eapply rel_bind with (Q := narrower).
  - destruct (0 <? _)%nat; [|apply rel_ok; auto]. eapply rel_bind; [apply iouter_power_iso; exact HT|]. intros q q' Hq. apply itensordot_iso; eauto.
  - intros d d' Hd. apply ibil_pos_iso; auto.
Qed.
Lemma epower_nat_iso a a' p : nar a a' -> rel nar (epower_nat A a p) (epower_nat A' a' p).
Proof.
  intros Ha. unfold epower_nat. eapply rel_bind; [apply unit_rel|]. intros _ _ _. destruct Ha as [|x x' a a' Hx Ha]; [apply rel_err|].
  rewrite xnd_eq. eapply rel_bind; [|intros; apply truncate_iso; eauto].
  apply integer_power_rel; auto using iadd_iso, narrower_arr_same, etp_iso.
  - apply narrower_arr_same.
  - apply narrower_arr; auto. simpl. destruct Hx as (_ & W & W' & _).
    destruct x as [t|l h], x' as [t'|l' h']; simpl in *; intuition congruence.
  - intros y y' i j Hy. unfold elementwise_term_power_coefficient. rewrite (narrower_indim _ _ Hy). destruct (_ <? _)%nat; [apply rel_err|apply iouter_power_iso; auto].
  - intros k y y' Hy. apply imul_iso; auto using narrower_arr_same.
Qed.
Lemma compose_iso e e' a a' : nar e e' -> nar a a' -> rel nar (compose_enclosures A e a) (compose_enclosures A' e' a').
Proof.
  intros He Ha. unfold compose_enclosures. assert (He' := He). destruct He as [|x x' e e' Hx He]; [apply rel_err|].
  apply (rel_foldM nar (same_fst narrower)); [apply enumerate_rel; auto| |constructor; [apply narrower_arr_same|constructor]].
  intros o o' (p & c) (p' & c') Ho [E Hc]. simpl in E, Hc. subst p'. eapply rel_bind with (Q := nar); [|intros; apply eadd_iso; auto].
  unfold compose_term. destruct p as [|p]; [apply rel_ok; auto|].
  eapply rel_bind; [apply epower_nat_iso; constructor; [apply narrower_arr_same|apply Forall2_skipn; eauto]|]. intros q q' Hq.
  apply (rel_mapM (same_fst narrower)); [apply enumerate_rel; auto|]. intros (i & t) (i' & t') [E Ht]. simpl in E, Ht. subst i'.
  destruct (_ <? _)%nat; [apply rel_ok, narrower_arr_same|]. apply ibil_prod_iso; auto using lbm_prods.
Qed.
End Arith.
