(** Soundness of [TaylorEnclosureArithmetic.arbitrary_bilinear]. *)
From Coq Require Import Reals Lra Psatz.
From Verif Require Import Base Tensor IntervalArith Polynomials Enclosure TensorLemmas Spec IntervalProofs PowerProofs PolyProofs Graded EnclosureOps EnclosureProofs.
Open Scope R_scope.

Lemma finite_choice {B C} (dec : forall x y : B, {x = y} + {x <> y}) (d : C) (l : list B) (Q : B -> C -> Prop) :
  (forall x, In x l -> exists y, Q x y) -> exists f, forall x, In x l -> Q x (f x).
Proof.
  induction l as [|x l IH]; intros H.
  - exists (fun _ => d). intros x [].
  - destruct IH as [f Hf]; [intros; apply H; right; auto|]. destruct (H x (or_introl eq_refl)) as [y Hy].
    exists (fun t => if dec t x then y else f t). intros t Ht. destruct (dec t x) as [->|Hne]; auto.
    apply Hf. destruct Ht as [->|Ht]; [congruence|auto].
Qed.

Lemma valid_choice {C} (d : C) sh (Q : list nat -> C -> Prop) :
  (forall I, valid sh I -> exists y, Q I y) -> exists f, forall I, valid sh I -> Q I (f I).
Proof.
  intros H. destruct (finite_choice (list_eq_dec Nat.eq_dec) d (all_idx sh) Q) as [f Hf].
  - intros I HI. apply H, all_idx_valid; auto.
  - exists f. intros I HI. apply Hf, all_idx_valid; auto.
Qed.

Lemma term_value_plus X z i A B : term_value X z i (fun J => A J + B J) = term_value X z i A + term_value X z i B.
Proof. unfold term_value. rewrite <- sumi_plus. apply sumi_ext. intros. ring. Qed.

Lemma term_value_scal X z i k A : term_value X z i (fun J => k * A J) = k * term_value X z i A.
Proof. unfold term_value. rewrite <- sumi_scal. apply sumi_ext. intros. ring. Qed.

Lemma term_value_ext X z i A B : (forall J, valid (rep i X) J -> A J = B J) -> term_value X z i A = term_value X z i B.
Proof. intros H. unfold term_value. apply sumi_ext. intros. rewrite H by auto. reflexivity. Qed.

Lemma term_value_0 X z i : term_value X z i (fun _ => 0) = 0.
Proof. unfold term_value. rewrite (sumi_ext _ _ (fun _ => 0)); [apply sumi_zero|]. intros. ring. Qed.

Lemma wsum_term_value X z i j L (AA BB : list nat -> list nat -> R) :
  wsum L (fun ia => term_value X z i (AA ia)) (fun ib => term_value X z j (BB ib)) =
  term_value X z (i + j) (fun K => wsum L (fun ia => AA ia (firstn (i * length X) K)) (fun ib => BB ib (skipn (i * length X) K))).
Proof.
  induction L as [|(w, (ia, ib)) L IH]; simpl.
  - symmetry. apply term_value_0.
  - rewrite IH, term_value_mult, <- term_value_scal, <- term_value_plus. reflexivity.
Qed.

Lemma wsum_ext L x y x' y' :
  (forall w i j, In (w, (i, j)) L -> x i = x' i /\ y j = y' j) -> wsum L x y = wsum L x' y'.
Proof.
  induction L as [|(w, (i, j)) L IH]; simpl; intros H; auto.
  destruct (H w i j (or_introl eq_refl)) as [-> ->]. rewrite IH; auto. intros. eapply H. right. eauto.
Qed.

Lemma wsum_sum_l {B} L (us : B -> list nat -> R) y l :
  wsum L (fun i => Rsum (map (fun b => us b i) l)) y = Rsum (map (fun b => wsum L (us b) y) l).
Proof.
  induction l as [|b l IH]; simpl.
  - induction L as [|(w,(i,j)) L IHL]; simpl; [reflexivity|]. rewrite IHL. ring.
  - rewrite <- IH. clear. induction L as [|(w,(i,j)) L IHL]; simpl; [ring|]. rewrite IHL. ring.
Qed.

Lemma wsum_sum_r {B} L (vs : B -> list nat -> R) x l :
  wsum L x (fun j => Rsum (map (fun b => vs b j) l)) = Rsum (map (fun b => wsum L x (vs b)) l).
Proof.
  induction l as [|b l IH]; simpl.
  - induction L as [|(w,(i,j)) L IHL]; simpl; [reflexivity|]. rewrite IHL. ring.
  - rewrite <- IH. clear. induction L as [|(w,(i,j)) L IHL]; simpl; [ring|]. rewrite IHL. ring.
Qed.

Lemma foldM_length {B C} (f : list B -> C -> res (list B)) l :
  (forall o x o', f o x = Ok o' -> length o' = length o) ->
  forall o o', foldM f o l = Ok o' -> length o' = length o.
Proof.
  intros Hf. induction l as [|x l IH]; intros o o' H; simpl in H; [congruence|].
  apply bind_ok in H. destruct H as (o1 & H1 & H). apply IH in H. rewrite H. eauto.
Qed.

Lemma add_at_length {F} (add : F -> F -> res F) out k c out' : add_at add out k c = Ok out' -> length out' = length out.
Proof.
  unfold add_at. intros H. apply bind_ok in H. destruct H as (o & _ & H). apply bind_ok in H. destruct H as (t & _ & H).
  apply set_nth_ok in H. tauto.
Qed.

Lemma ebil_length {T} {N : Num T} (A : arith T) a b pbb c : earbitrary_bilinear A a b pbb = Ok c ->
  length c = Nat.min (max_degree A + 1) (length a + length b - 1).
Proof.
  intros H. unfold earbitrary_bilinear in H. apply foldM_length in H; [rewrite H; apply repeat_length|].
  intros o (i, x) o' H1. apply foldM_length in H1; auto. intros q (j, y) q' H2.
  apply bind_ok in H2. destruct H2 as (t & _ & H2). eapply add_at_length; eauto.
Qed.

Section Bil.
Variables (Sa Sb Sc : list nat) (terms : list nat -> list (R * (list nat * list nat))).
Variable pbb : tensor R -> tensor R -> nat -> nat -> res (tensor R).
Hypothesis HT : pos_terms Sa Sb Sc terms.
Hypothesis HB : pairwise_batched Sa Sb Sc terms pbb.
Hypothesis Na : exists ia, valid Sa ia.
Hypothesis Nb : exists ib, valid Sb ib.
Variables (X : list nat) (z : list nat -> R).

Definition bterms (nc na : nat) (I : list nat) : list (R * (list nat * list nat)) :=
  map (fun '(w, (ia, ib)) => (w, (ia ++ firstn na (skipn nc I), ib ++ skipn (nc + na) I))) (terms (firstn nc I)).

Lemma wsum_map_terms L (g h : list nat -> list nat) x y :
  wsum (map (fun '(w, (ia, ib)) => (w, (g ia, h ib))) L) x y = wsum L (fun ia => x (g ia)) (fun ib => y (h ib)).
Proof. induction L as [|(w,(i,j)) L IH]; simpl; congruence. Qed.

Lemma pbb_posop ra rb : posop (fun u v => pbb u v (length ra) (length rb)) (Sa ++ ra) (Sb ++ rb) (Sc ++ ra ++ rb)
   (bterms (length Sc) (length ra)).
Proof.
  split.
  - intros x y w Hx Hy H. destruct (HB _ _ _ _ _ Hx Hy H) as [E D]. split; auto. intros I HI.
    apply valid_app_inv in HI. destruct HI as (s & I' & -> & Hs & HI). apply valid_app_inv in HI.
    destruct HI as (J & K & -> & HJ & HK). pose proof (valid_length _ _ Hs). pose proof (valid_length _ _ HJ).
    rewrite D by auto. unfold bterms. rewrite wsum_map_terms.
    rewrite (firstn_exact s), (skipn_exact s), (firstn_exact J) by auto.
    rewrite (app_assoc s J K), (skipn_exact (s ++ J)) by (rewrite app_length; lia). reflexivity.
  - intros I HI. apply valid_app_inv in HI. destruct HI as (s & I' & -> & Hs & HI). apply valid_app_inv in HI.
    destruct HI as (J & K & -> & HJ & HK). pose proof (valid_length _ _ Hs). pose proof (valid_length _ _ HJ).
    unfold bterms. rewrite (firstn_exact s), (skipn_exact s), (firstn_exact J) by auto.
    rewrite (app_assoc s J K), (skipn_exact (s ++ J)) by (rewrite app_length; lia).
    apply Forall_forall. intros (w, (ia, ib)) Hin. apply in_map_iff in Hin. destruct Hin as ((w', (ia', ib')) & [= <- <- <-] & Hin).
    specialize (HT s Hs). rewrite Forall_forall in HT. specialize (HT _ Hin). simpl in HT. destruct HT as (H1 & H2 & H3).
    split; auto. split; apply valid_app; auto.
Qed.

Lemma bil_term i j x y U V c s : valid Sc s ->
  (forall ia, valid Sa ia -> con X z ia Sa i x (U ia)) ->
  (forall ib, valid Sb ib -> con X z ib Sb j y (V ib)) ->
  ibilinear x y (fun u v => pbb u v (i * length X) (j * length X)) false = Ok c ->
  con X z s Sc (i + j) c (wsum (terms s) U V).
Proof.
  intros Hs Hx Hy H.
  assert (Wx : wfs (Sa ++ rep i X) x) by (destruct Na as [ia Hia]; apply (Hx ia Hia)).
  assert (Wy : wfs (Sb ++ rep j X) y) by (destruct Nb as [ib Hib]; apply (Hy ib Hib)).
  destruct (valid_choice (fun _ => 0) Sa (fun ia A => (forall J, valid (rep i X) J -> inat x (bidx Sa ia ++ J) (A J)) /\ U ia = term_value X z i A)) as [AA HA].
  { intros ia Hia. destruct (Hx ia Hia) as (_ & A & HA). eauto. }
  destruct (valid_choice (fun _ => 0) Sb (fun ib B => (forall J, valid (rep j X) J -> inat y (bidx Sb ib ++ J) (B J)) /\ V ib = term_value X z j B)) as [BB HBB].
  { intros ib Hib. destruct (Hy ib Hib) as (_ & B & HBB). eauto. }
  rewrite <- !rep_length in H.
  destruct (ibil_pos_loc _ _ _ _ _ _ _ _ (pbb_posop (rep i X) (rep j X)) Wx Wy H) as [Wc D].
  split; [rewrite rep_app; auto|]. specialize (HT s Hs). rewrite Forall_forall in HT.
  rewrite (wsum_ext _ U V (fun ia => term_value X z i (AA ia)) (fun ib => term_value X z j (BB ib))).
  2:{ intros w ia ib Hin. specialize (HT _ Hin). simpl in HT. destruct HT as (_ & H1 & H2). split; [apply HA | apply HBB]; auto. }
  rewrite wsum_term_value. eexists. split; [|reflexivity]. intros K HK. rewrite rep_app in HK.
  apply valid_app_inv in HK. destruct HK as (I & J & -> & HI & HJ).
  pose proof (valid_length _ _ HI) as L. pose proof L as L'. rewrite rep_length in L'.
  pose proof (valid_length _ _ Hs) as Ls.
  rewrite firstn_exact, skipn_exact by auto. rewrite (bidx_valid Sc s) by auto.
  specialize (D (fun M => AA (firstn (length Sa) M) (skipn (length Sa) M)) (fun M => BB (firstn (length Sb) M) (skipn (length Sb) M)) (s ++ I ++ J)).
  unfold bterms in D.
  rewrite (firstn_exact s), (skipn_exact s), (firstn_exact I) in D by auto.
  rewrite (app_assoc s I J), (skipn_exact (s ++ I)) in D by (rewrite app_length; lia). rewrite <- (app_assoc s I J) in D.
  rewrite (wsum_map_terms (terms s) (fun ia => ia ++ I) (fun ib => ib ++ J)) in D.
  rewrite (wsum_ext _ _ _ (fun ia => AA ia I) (fun ib => BB ib J)) in D.
  2:{ intros w ia ib Hin. specialize (HT _ Hin). simpl in HT. destruct HT as (_ & H1 & H2).
      rewrite !firstn_exact, !skipn_exact by (symmetry; apply valid_length; auto). auto. }
  apply D; [repeat apply valid_app; auto|].
  intros w ia' ib' Hin _ _. apply in_map_iff in Hin. destruct Hin as ((w', (ia, ib)) & [= <- <- <-] & Hin).
  specialize (HT _ Hin). simpl in HT. destruct HT as (_ & H1 & H2).
  rewrite !firstn_exact, !skipn_exact by (symmetry; apply valid_length; auto).
  pose proof (proj1 (HA ia H1) I HI) as Q1. pose proof (proj1 (HBB ib H2) J HJ) as Q2.
  rewrite (bidx_valid Sa ia) in Q1 by auto. rewrite (bidx_valid Sb ib) in Q2 by auto. auto.
Qed.

Variables (tr : tensor R * tensor R) (D : nat).
Hypothesis Htr : in_region X tr z.

Lemma tec_rel i j x y U V c s : valid Sc s ->
  (forall ia, valid Sa ia -> con X z ia Sa i x (U ia)) ->
  (forall ib, valid Sb ib -> con X z ib Sb j y (V ib)) ->
  term_enclosure_coefficient (mkArith D tr) pbb x y i j = Ok c ->
  con X z s Sc (Nat.min (i + j) D) c (wsum (terms s) U V).
Proof.
  intros Hs Hx Hy H. unfold term_enclosure_coefficient in H. simpl in H.
  rewrite (tr_ndim X z tr Htr) in H. destruct (Nat.leb_spec (i + j) D).
  - rewrite Nat.min_l by auto. eapply bil_term; eauto.
  - set (ex := (i + j - D)%nat) in *. set (ei := Nat.min i ex) in *. set (ej := (ex - ei)%nat) in *.
    apply bind_ok in H. destruct H as (pi & Hpi & H). apply bind_ok in H. destruct H as (c0 & Hc0 & H).
    apply bind_ok in H. destruct H as (c1 & Hc1 & H).
    replace (Nat.min (i + j) D) with ((i - ei) + (j - ej))%nat by lia.
    destruct (region_power X z tr _ _ Htr Hpi) as [Wp Ip].
    eapply bil_term; [exact Hs| | |exact H].
    + intros ia Hia. eapply (con_contract X z Sa ia Hia Sa (i - ei) ei); eauto using compat_refl.
      replace (i - ei + ei)%nat with i by lia. auto.
    + intros ib Hib. destruct (Nat.ltb_spec 0 ej) as [Hej|Hej].
      * apply bind_ok in Hc1. destruct Hc1 as (pj & Hpj & Hc1).
        destruct (region_power X z tr _ _ Htr Hpj) as [Wq Iq].
        eapply (con_contract X z Sb ib Hib Sb (j - ej) ej); eauto using compat_refl.
        replace (j - ej + ej)%nat with j by lia. auto.
      * injection Hc1 as <-. replace (j - ej)%nat with j by lia. auto.
Qed.

Lemma Rsum_nth us n : length us = n -> Rsum us = Rsum (map (fun i => nth i us 0) (seq 0 n)).
Proof.
  intros <-. rewrite <- (map_id us) at 1. clear. induction us as [|u us IH]; [reflexivity|].
  simpl. f_equal. rewrite <- seq_shift, map_map. exact IH.
Qed.

Lemma ebil_rel a b c f g : encloses (full Sa) X Sa a z f -> encloses (full Sb) X Sb b z g ->
  earbitrary_bilinear (mkArith D tr) a b pbb = Ok c ->
  length c = Nat.min (D + 1) (length a + length b - 1) /\
  encloses (full Sc) X Sc c z (fun s => wsum (terms s) f g).
Proof.
  intros [Nea Ha] [Neb Hb] H.
  destruct (valid_choice [] Sa (fun ia us => F2i (contributes (full Sa) X z ia) 0 a us /\ f ia = Rsum us)) as [UU HU].
  { intros ia Hia. apply encl_from_F2i. auto. }
  destruct (valid_choice [] Sb (fun ib vs => F2i (contributes (full Sb) X z ib) 0 b vs /\ g ib = Rsum vs)) as [VV HV].
  { intros ib Hib. apply encl_from_F2i. auto. }
  set (U := fun i ia => nth i (UU ia) 0). set (V := fun j ib => nth j (VV ib) 0).
  assert (HUc : forall i x ia, nth_error a i = Some x -> valid Sa ia -> con X z ia Sa i x (U i ia)).
  { intros i x ia Hx Hia. destruct (HU ia Hia) as [HF _]. pose proof (F2i_length _ _ _ _ HF) as L.
    assert (Hlt : (i < length (UU ia))%nat) by (rewrite <- L; apply nth_error_Some; congruence).
    pose proof (F2i_nth _ _ _ _ i x (U i ia) HF Hx (nth_error_nth' _ 0 Hlt)) as (p & Hp & HC).
    unfold full in Hp. subst p. exact HC. }
  assert (HVc : forall i x ia, nth_error b i = Some x -> valid Sb ia -> con X z ia Sb i x (V i ia)).
  { intros i x ia Hx Hia. destruct (HV ia Hia) as [HF _]. pose proof (F2i_length _ _ _ _ HF) as L.
    assert (Hlt : (i < length (VV ia))%nat) by (rewrite <- L; apply nth_error_Some; congruence).
    pose proof (F2i_nth _ _ _ _ i x (V i ia) HF Hx (nth_error_nth' _ 0 Hlt)) as (p & Hp & HC).
    unfold full in Hp. subst p. exact HC. }
  assert (HS : forall s, valid Sc s -> length c = Nat.min (D + 1) (length a + length b - 1) /\
      encl_from (full Sc) X z s 0 c (wsum (terms s) f g)).
  { intros s Hs.
    set (mk := fun p : (nat * coef R) * (nat * coef R) => term_enclosure_coefficient (mkArith D tr) pbb (snd (fst p)) (snd (snd p)) (fst (fst p)) (fst (snd p))).
    set (ky := fun p : (nat * coef R) * (nat * coef R) => Nat.min (fst (fst p) + fst (snd p)) D).
    set (val := fun p : (nat * coef R) * (nat * coef R) => wsum (terms s) (U (fst (fst p))) (V (fst (snd p)))).
    set (n := Nat.min (D + 1) (length a + length b - 1)) in *.
    assert (H' : foldM (fun out x => c <- mk x ;; add_at iadd out (ky x) c) (repeat zero_c n)
                 (list_prod (enumerate a) (enumerate b)) = Ok c).
    { rewrite <- H. unfold earbitrary_bilinear. simpl. fold n.
      etransitivity; [|symmetry; etransitivity; [|apply (foldM_nested (fun out p q =>
         c <- term_enclosure_coefficient (mkArith D tr) pbb (snd p) (snd q) (fst p) (fst q) ;; add_at iadd out (Nat.min (fst p + fst q) D) c))]].
      - reflexivity.
      - apply foldM_ext. intros o (i, ai). apply foldM_ext. intros o' (j, bj). reflexivity. }
    destruct (scatter iadd zero_c (contributes (full Sc) X z s)
        (G_zero_add Sc _ _ (pf_full Sc) X z s Hs) (G_add Sc _ _ (pf_full Sc) X z s Hs) mk ky val n (list_prod (enumerate a) (enumerate b)) c) with (3 := H')
      as (L & ws & HW & HSm).
    - intros ((i, x), (j, y)) c' Hin Hc. apply in_prod_iff in Hin. destruct Hin as [H1 H2].
      apply in_enumerate in H1, H2. exists Sc. split; [reflexivity|].
      unfold mk, ky, val in *. simpl in *. eapply tec_rel; eauto.
    - intros k Hk. unfold n in Hk. rewrite <- Nat.min_r with (n := D) (m := k) by lia.
      destruct (Nat.le_gt_cases k (length a - 1)) as [Hle|Hgt].
      + assert (E1 : exists x, nth_error a k = Some x).
        { destruct (nth_error a k) eqn:E; eauto. apply nth_error_None in E. apply length_nonnil in Nea. lia. }
        assert (E2 : exists y, nth_error b 0 = Some y) by (destruct b; [congruence|simpl; eauto]).
        destruct E1 as [x E1], E2 as [y E2]. exists ((k, x), (0%nat, y)). rewrite in_prod_iff, !in_enumerate. split; auto.
        unfold ky. simpl. lia.
      + assert (E1 : exists x, nth_error a (length a - 1) = Some x).
        { destruct (nth_error a (length a - 1)) eqn:E; eauto. apply nth_error_None in E. apply length_nonnil in Nea. lia. }
        assert (E2 : exists y, nth_error b (k - (length a - 1)) = Some y).
        { destruct (nth_error b (k - (length a - 1))) eqn:E; eauto. apply nth_error_None in E. lia. }
        destruct E1 as [x E1], E2 as [y E2]. exists ((length a - 1, x), (k - (length a - 1), y))%nat. rewrite in_prod_iff, !in_enumerate. split; auto.
        unfold ky. simpl. lia.
    - split; auto. apply encl_from_F2i. exists ws. split; auto. rewrite HSm. unfold val.
      transitivity (Rsum (map (fun p => Rsum (map (fun q => wsum (terms s) (U (fst p)) (V (fst q))) (enumerate b))) (enumerate a))).
      + assert (E : forall p, Rsum (map (fun q => wsum (terms s) (U (fst p)) (V (fst q))) (enumerate b)) = wsum (terms s) (U (@fst nat (coef R) p)) g).
        { intros p. etransitivity; [symmetry; apply (wsum_sum_r (terms s) (fun q => V (fst q)) (U (fst p)) (enumerate b))|].
          apply wsum_ext. intros w ia ib Hin. split; auto. specialize (HT s Hs). rewrite Forall_forall in HT.
          specialize (HT _ Hin). simpl in HT. destruct HT as (_ & _ & Hib). destruct (HV ib Hib) as [HF ->].
          apply enumerate_sum0. apply (F2i_length _ _ _ _ HF). }
        rewrite (Rsum_map_ext _ _ _ (fun p _ => E p)).
        etransitivity; [|apply (wsum_sum_l (terms s) (fun p => U (fst p)) g (enumerate a))].
        apply wsum_ext. intros w ia ib Hin. split; auto. specialize (HT s Hs). rewrite Forall_forall in HT.
        specialize (HT _ Hin). simpl in HT. destruct HT as (_ & Hia & _). destruct (HU ia Hia) as [HF ->].
        symmetry. apply enumerate_sum0. apply (F2i_length _ _ _ _ HF).
      + clear. induction (enumerate a) as [|p l IH]; [reflexivity|]. simpl. rewrite map_app, Rsum_app, IH, map_map. reflexivity. }
  split; [|split; [|intros s Hs; apply (HS s Hs)]].
  - apply ebil_length in H. exact H.
  - apply length_nonnil. rewrite (ebil_length _ _ _ _ _ H). simpl. apply length_nonnil in Nea, Neb. lia.
Qed.
End Bil.
