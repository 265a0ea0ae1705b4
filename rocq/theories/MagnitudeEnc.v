(** Magnitudes of enclosures. *)
From Coq Require Import Reals Lra.
From Verif Require Import Base Tensor IntervalArith Polynomials Enclosure TensorLemmas Spec Iso Magnitude.
Open Scope R_scope.

Lemma dome_len {A B} (P : A -> B -> Prop) l l' : Forall2 P l l' -> length l' = length l.
Proof. intros H. symmetry. eapply Forall2_length'; eauto. Qed.

Section Poly.
Context {F G : Type} (P : F -> G -> Prop).
Variables (add : F -> F -> res F) (add' : G -> G -> res G) (zero one : F) (zero' one' : G).
Hypothesis Hadd : forall a a' b b', P a a' -> P b b' -> follows P (add a b) (add' a' b').
Hypothesis Hzero : P zero zero'.
Hypothesis Hone : P one one'.

Lemma eval_poly_f inner inner' opow opow' : (forall a a' b b', P a a' -> P b b' -> follows P (inner a b) (inner' a' b')) ->
  (forall a a' k, P a a' -> follows P (opow a k) (opow' a' k)) ->
  forall cs cs' z z', P z z' -> Forall2 P cs cs' -> follows P (eval_polynomial add zero one cs z inner opow) (eval_polynomial add' zero' one' cs' z' inner' opow').
Proof.
  intros HI HP cs cs' z z' Hz H. unfold eval_polynomial. generalize 0%nat. revert zero zero' one one' Hzero Hone.
  induction H as [|c c' cs cs' Hc H IH]; intros r r' zi zi' Hr Hzi i; cbn [eval_poly_loop]; [apply f_ok; auto|].
  eapply f_bind with (Q := P). { destruct (0 <? i)%nat; [apply HP; auto|apply f_ok; auto]. }
  intros w w' Hw. eapply f_bind; [apply HI; eauto|]. intros t t' Ht. eapply f_bind; [apply Hadd; eauto|]. intros s s' Hs. apply IH; auto.
Qed.
Lemma add_at_f out out' k c c' : Forall2 P out out' -> P c c' -> follows (Forall2 P) (add_at add out k c) (add_at add' out' k c').
Proof.
  intros H Hc. unfold add_at. eapply f_bind; [apply f_get_nth; eauto|]. intros o o' Ho. eapply f_bind; [apply Hadd; eauto|].
  intros s s' Hs. apply f_set_nth; auto.
Qed.
Lemma poly_bilinear_f tp tp' a a' b b' : (forall x x' y y' i j, P x x' -> P y y' -> follows P (tp x y i j) (tp' x' y' i j)) ->
  Forall2 P a a' -> Forall2 P b b' -> follows (Forall2 P) (poly_bilinear add zero tp a b) (poly_bilinear add' zero' tp' a' b').
Proof.
  intros HT Ha Hb. unfold poly_bilinear. rewrite (dome_len _ _ _ Ha), (dome_len _ _ _ Hb).
  apply (f_foldM (Forall2 P) (same_fst P)); [apply enumerate_rel; auto| |apply Forall2_repeat; auto].
  intros o o' (i & x) (i' & x') Ho [E Hx]. simpl in E, Hx. subst i'.
  apply (f_foldM (Forall2 P) (same_fst P)); [apply enumerate_rel; auto| |auto].
  intros u u' (j & y) (j' & y') Hu [E Hy]. simpl in E, Hy. subst j'.
  eapply f_bind; [apply HT; eauto|]. intros c c' Hc. apply add_at_f; auto.
Qed.
Lemma run_product_f tp tp' tpow tpow' a a' p : (forall x x' y y' i j, P x x' -> P y y' -> follows P (tp x y i j) (tp' x' y' i j)) ->
  (forall x x' i j, P x x' -> follows P (tpow x i j) (tpow' x' i j)) -> Forall2 P a a' ->
  follows (fun x y => P (fst x) (fst y) /\ snd x = snd y) (run_product one tp tpow a p) (run_product one' tp' tpow' a' p).
Proof.
  intros HT HW Ha. unfold run_product.
  apply (f_foldM (fun x y => P (fst x) (fst y) /\ snd x = snd y) eq); [apply Forall2_refl'; auto| |simpl; auto].
  intros (r & w) (r' & w') (j & pj) (j' & pj') [Hr E] [= <- <-]. simpl in E, Hr. subst w'.
  eapply f_bind; [apply f_get_nth; eauto|]. intros x x' Hx. eapply f_bind; [apply HW; eauto|]. intros t t' Ht.
  eapply f_bind; [apply HT; eauto|]. intros s s' Hs. apply f_ok. simpl. auto.
Qed.
Lemma integer_power_f tp tp' tpow tpow' smul smul' a a' e : (forall x x' y y' i j, P x x' -> P y y' -> follows P (tp x y i j) (tp' x' y' i j)) ->
  (forall x x' i j, P x x' -> follows P (tpow x i j) (tpow' x' i j)) -> (forall k x x', P x x' -> follows P (smul k x) (smul' k x')) -> Forall2 P a a' ->
  follows (Forall2 P) (integer_power add zero one tp tpow smul a e) (integer_power add' zero' one' tp' tpow' smul' a' e).
Proof.
  intros HT HW HS Ha. unfold integer_power. destruct (e <? 0)%Z; [apply f_err|]. destruct (e =? 0)%Z; [apply f_ok; auto|].
  destruct Ha as [|x x' a a' Hx Ha]; [apply f_ok; auto|]. assert (HA : Forall2 P (x :: a) (x' :: a')) by (constructor; auto).
  replace (length (x' :: a')) with (length (x :: a)) by (eapply Forall2_length'; eauto).
  apply (f_mapM eq); [apply Forall2_refl'; auto|]. intros i i' <-. unfold get_coeff.
  replace (length (x' :: a')) with (length (x :: a)) by (eapply Forall2_length'; eauto).
  apply (f_foldM P eq); [apply Forall2_refl'; auto| |auto]. intros c c' p p' Hc <-.
  eapply f_bind; [apply run_product_f; eauto|]. intros (r & w) (r' & w') [Hr E]. simpl in Hr, E. subst w'.
  eapply f_bind; [apply f_guard|]. intros _ _ _. eapply f_bind; [apply f_same|]. intros m m' <-.
  eapply f_bind; [apply HS; eauto|]. intros t t' Ht. apply Hadd; auto.
Qed.
End Poly.

Lemma zero_dom : domc zero_c zero_c. Proof. apply dom_scalar, w0. Qed.
Lemma one_dom : domc one_c one_c. Proof. apply dom_scalar, w1. Qed.
Lemma eval_dom cs cs' z z' : dome cs cs' -> domc z z' -> follows domc (eval_taylor_enclosure cs z) (eval_taylor_enclosure cs' z').
Proof.
  intros Hc Hz. unfold eval_taylor_enclosure. apply (eval_poly_f domc); auto using iadd_dom, zero_dom, one_dom.
  - intros a a' b b' Ha Hb. unfold inner_product. rewrite (domc_indim _ _ Hb). apply itensordot_dom; auto.
  - intros a a' k Ha. apply iouter_power_dom; auto.
Qed.

Lemma enclose_dom a a' tr tr' d : dome a a' -> dom2 tr tr' -> follows dome (enclose_enclosure a tr d) (enclose_enclosure a' tr' d).
Proof.
  intros Ha Ht. unfold enclose_enclosure. rewrite (dome_len _ _ _ Ha). destruct (_ <=? _)%nat; [apply f_ok; auto|].
  eapply f_bind; [apply eval_dom; [apply Forall2_skipn; eauto|exact Ht]|]. intros c c' Hc. apply f_ok.
  apply Forall2_app; [apply Forall2_firstn; auto|auto].
Qed.
Lemma map_coef_dom f f' c c' : dom_op1 f f' -> domc c c' -> follows domc (map_coef f c) (map_coef f' c').
Proof. intros Hf H. dom_cases c c' H; unfold map_coef; [apply arr_ok|apply ivl_ok]; apply Hf; auto. Qed.
Lemma map_over_dom f f' a a' : dom_op1 f f' -> dome a a' -> follows dome (map_over_enclosure a f) (map_over_enclosure a' f').
Proof. intros Hf H. apply (f_mapM domc); auto. intros; apply map_coef_dom; auto. Qed.

Definition pbb_dom (f : tensor R -> tensor R -> nat -> nat -> res (tensor R)) (f' : tensor mag -> tensor mag -> nat -> nat -> res (tensor mag)) : Prop :=
  forall p q, dom_op (fun u v => f u v p q) (fun u v => f' u v p q).
Lemma pbm_dom : pbb_dom pairwise_batched_multiply pairwise_batched_multiply.
Proof.
  intros p q a a' b b' Ha Hb. unfold pairwise_batched_multiply. rewrite <- (dom_ndim _ _ Ha), <- (dom_ndim _ _ Hb).
  eapply f_bind; [apply dom_expand; eauto|]. intros u u' Hu. eapply f_bind; [apply dom_expand; eauto|]. intros v v' Hv. apply dom_mul; auto.
Qed.
Lemma lbm_dom : dom_op left_broadcasting_multiply left_broadcasting_multiply.
Proof.
  intros a a' b b' Ha Hb. unfold left_broadcasting_multiply. rewrite <- (dom_ndim _ _ Ha), <- (dom_ndim _ _ Hb). destruct (_ <? _)%nat; [apply f_err|].
  eapply f_bind; [apply dom_expand; eauto|]. intros u u' Hu. apply dom_mul; auto.
Qed.

Section Arith.
Variables (A : arith R) (A' : arith mag).
Hypothesis HD : max_degree A = max_degree A'.
Hypothesis HT : dom2 (trust_region A) (trust_region A').

Lemma xnd_dom : tndim (fst (trust_region A)) = tndim (fst (trust_region A')).
Proof. apply dom_ndim, HT. Qed.
Lemma truncate_dom a a' : dome a a' -> follows dome (truncate_if_necessary A a) (truncate_if_necessary A' a').
Proof. intros. unfold truncate_if_necessary. rewrite HD. apply enclose_dom; auto. Qed.
Lemma validate_dom a a' : dome a a' -> follows eq (validate_taylor_enclosure A a) (validate_taylor_enclosure A' a').
Proof.
  intros Ha. unfold validate_taylor_enclosure. rewrite (dom_shape _ _ (proj1 HT)). apply (f_foldM eq (same_fst domc)); [apply enumerate_rel; auto| |auto].
  intros [] [] (i & c) (i' & c') _ [E Hc]. simpl in E, Hc. subst i'. rewrite (domc_ishape _ _ Hc). apply f_guard.
Qed.
Lemma add_coeffs_dom a a' b b' : dome a a' -> dome b b' -> follows dome (add_coeffs a b) (add_coeffs a' b').
Proof.
  intros Ha. revert b b'. induction Ha as [|x x' a a' Hx Ha IH]; intros b b' Hb; [apply f_ok; auto|].
  destruct Hb as [|y y' b b' Hy Hb]; cbn [add_coeffs]; [apply f_ok; auto|].
  eapply f_bind; [apply iadd_dom; eauto|]. intros z z' Hz. eapply f_bind; [apply IH; eauto|]. intros r r' Hr. apply f_ok; auto.
Qed.
Lemma eadd_dom a a' b b' : dome a a' -> dome b b' -> follows dome (eadd A a b) (eadd A' a' b').
Proof. intros Ha Hb. eapply f_bind; [apply add_coeffs_dom; eauto|]. intros; apply truncate_dom; auto. Qed.
Lemma enegative_dom a a' : dome a a' -> follows dome (enegative A a) (enegative A' a').
Proof. intros Ha. apply truncate_dom. induction Ha; constructor; auto using ineg_dom. Qed.
Lemma esubtract_dom a a' b b' : dome a a' -> dome b b' -> follows dome (esubtract A a b) (esubtract A' a' b').
Proof. intros Ha Hb. eapply f_bind; [apply enegative_dom; eauto|]. intros; apply eadd_dom; auto. Qed.
Lemma etp_dom n x x' y y' i j : domc x x' -> domc y y' ->
  follows domc (elementwise_term_product_coefficient n x y i j) (elementwise_term_product_coefficient n x' y' i j).
Proof. intros. apply ibil_dom; auto. apply pbm_dom. Qed.
Lemma emultiply_dom a a' b b' : dome a a' -> dome b b' -> follows dome (emultiply A a b) (emultiply A' a' b').
Proof.
  intros Ha Hb. unfold emultiply. eapply f_bind; [apply validate_dom; eauto|]. intros _ _ _. eapply f_bind; [apply validate_dom; eauto|]. intros _ _ _.
  rewrite xnd_dom. eapply f_bind; [|intros; apply truncate_dom; eauto].
  apply (poly_bilinear_f domc); auto using iadd_dom, etp_dom, zero_dom.
Qed.
Lemma ebil_dom pbb pbb' a a' b b' : pbb_dom pbb pbb' -> dome a a' -> dome b b' ->
  follows dome (earbitrary_bilinear A a b pbb) (earbitrary_bilinear A' a' b' pbb').
Proof.
  intros HP Ha Hb. unfold earbitrary_bilinear. rewrite HD, (dome_len _ _ _ Ha), (dome_len _ _ _ Hb).
  apply (f_foldM dome (same_fst domc)); [apply enumerate_rel; auto| |apply Forall2_repeat, zero_dom].
  intros o o' (i & x) (i' & x') Ho [E Hx]. simpl in E, Hx. subst i'.
  apply (f_foldM dome (same_fst domc)); [apply enumerate_rel; auto| |auto].
  intros u u' (j & y) (j' & y') Hu [E Hy]. simpl in E, Hy. subst j'.
  eapply f_bind with (Q := domc); [|intros c c' Hc; apply add_at_f; auto using iadd_dom].
  unfold term_enclosure_coefficient. rewrite HD, xnd_dom. destruct (_ <=? _)%nat; [apply ibil_dom; auto|].
  eapply f_bind; [apply iouter_power_dom; exact HT|]. intros p p' Hp. eapply f_bind; [apply itensordot_dom; eauto|]. intros c c' Hc.
  eapply f_bind with (Q := domc).
  - destruct (0 <? _)%nat; [|apply f_ok; auto]. eapply f_bind; [apply iouter_power_dom; exact HT|]. intros q q' Hq. apply itensordot_dom; eauto.
  - intros d d' Hd. apply ibil_dom; auto.
Qed.
Lemma left_dom c c' : domc c c' -> dom (left_end c) (left_end c').
Proof. intros H. dom_cases c c' H; auto. Qed.
Lemma epower_nat_dom a a' p : dome a a' -> follows dome (epower_nat A a p) (epower_nat A' a' p).
Proof.
  intros Ha. unfold epower_nat. eapply f_bind; [apply validate_dom; eauto|]. intros _ _ _. destruct Ha as [|x x' a a' Hx Ha]; [apply f_err|].
  rewrite xnd_dom. eapply f_bind; [|intros; apply truncate_dom; eauto].
  apply (integer_power_f domc); auto using iadd_dom, etp_dom, zero_dom.
  - apply dom_ones, left_dom; auto.
  - intros y y' i j Hy. unfold elementwise_term_power_coefficient. rewrite (domc_indim _ _ Hy). destruct (_ <? _)%nat; [apply f_err|apply iouter_power_dom; auto].
  - intros k y y' Hy. apply imul_dom; auto. apply dom_scalar, wZ.
Qed.
Lemma compose_dom e e' a a' : dome e e' -> dome a a' -> follows dome (compose_enclosures A e a) (compose_enclosures A' e' a').
Proof.
  intros He Ha. unfold compose_enclosures. assert (He' := He). destruct He as [|x x' e e' Hx He]; [apply f_err|].
  apply (f_foldM dome (same_fst domc)); [apply enumerate_rel; auto| |constructor; [apply zero_dom|constructor]].
  intros o o' (p & c) (p' & c') Ho [E Hc]. simpl in E, Hc. subst p'. eapply f_bind with (Q := dome); [|intros; apply eadd_dom; auto].
  unfold compose_term. destruct p as [|p]; [apply f_ok; auto|].
  eapply f_bind; [apply epower_nat_dom; constructor; [apply zero_dom|apply Forall2_skipn; eauto]|]. intros q q' Hq.
  apply (f_mapM (same_fst domc)); [apply enumerate_rel; auto|]. intros (i & t) (i' & t') [E Ht]. simpl in E, Ht. subst i'.
  destruct (_ <? _)%nat; [apply f_ok, zero_dom|]. apply ibil_dom; auto. apply lbm_dom.
Qed.
End Arith.
