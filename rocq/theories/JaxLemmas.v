(** Enclosure lemmas used by the proofs about taylor_bounds. *)
From Coq Require Import Reals Lra Psatz.
From Verif Require Import Base Tensor IntervalArith Polynomials Enclosure TensorLemmas Spec IntervalProofs PowerProofs PolyProofs Graded
  EnclosureOps EnclosureProofs BilinearProofs ComposeProofs PropEnclosure PropDegree JaxBound JaxSpec.
Open Scope R_scope.

(** Exactly [S] for the constant coefficient, broadcastable for the others. *)
Definition hcast (S : list nat) (i : nat) (p : list nat) : Prop := compat p S /\ (i = 0%nat -> p = S).

Lemma encloses_mono (P P' : nat -> list nat -> Prop) X S e z f : (forall i p, P i p -> P' i p) -> encloses P X S e z f -> encloses P' X S e z f.
Proof.
  intros HI [Hne H]. split; auto. intros s Hs. specialize (H s Hs). apply encl_from_F2i in H. destruct H as (us & HF & ->).
  apply encl_from_F2i. exists us. split; auto. eapply F2i_impl; [|exact HF]. intros i c u _ (p & Hp & R). exists p. split; auto.
Qed.
Lemma encloses_ext P X S e z f g : (forall s, valid S s -> f s = g s) -> encloses P X S e z f -> encloses P X S e z g.
Proof. intros E [Hne H]. split; auto. intros s Hs. rewrite <- E by auto. auto. Qed.
Lemma full_hcast S i p : full S i p -> hcast S i p.
Proof. intros ->. split; auto. apply compat_refl. Qed.
Lemma hcast_bcast S i p : hcast S i p -> bcast S i p.
Proof. intros [H _]; auto. Qed.
Lemma full_full_tail S i p : full S i p -> full_tail S i p.
Proof. left. auto. Qed.

Lemma wfs_inj c S S' : wfs S c -> wfs S' c -> S = S'.
Proof. destruct c; simpl; [congruence|intros [? ?] [? ?]; congruence]. Qed.

(** The head decides. *)
Lemma encl_head (P P' : nat -> list nat -> Prop) X S c0 r z f :
  (forall i p, P i p -> (i = 0%nat -> p = S) -> P' i p) -> wfs S c0 -> encloses P X S (c0 :: r) z f -> encloses P' X S (c0 :: r) z f.
Proof.
  intros HI W [Hne H]. split; auto. intros s Hs. specialize (H s Hs). apply encl_from_F2i in H. destruct H as (us & HF & ->).
  apply encl_from_F2i. exists us. split; auto. inversion HF as [|? ? ? u us' (p & Hp & Wp & R) Hus]; subst. constructor.
  - exists p. split; [|split; auto]. apply HI; auto. intros _. simpl in Wp. rewrite app_nil_r in Wp. eapply wfs_inj; eauto.
  - eapply F2i_impl; [|exact Hus]. intros i c v Hi (q & Hq & Rq). exists q. split; auto. apply HI; auto. lia.
Qed.
Lemma hcast_of_bcast X S c0 r z f : wfs S c0 -> encloses (bcast S) X S (c0 :: r) z f -> encloses (hcast S) X S (c0 :: r) z f.
Proof. apply encl_head. intros i p Hp H0. split; auto. Qed.
Lemma full_of_tail X S c0 r z f : wfs S c0 -> encloses (full_tail S) X S (c0 :: r) z f -> encloses (full S) X S (c0 :: r) z f.
Proof. apply encl_head. intros i p [->|[-> Hp]] H0; [reflexivity|]. apply H0; auto. Qed.

Lemma hcast_wfs X S c0 r z f : (exists s, valid S s) -> encloses (hcast S) X S (c0 :: r) z f -> wfs S c0.
Proof.
  intros [s Hs] [_ H]. specialize (H s Hs). simpl in H. destruct H as (u & w & (p & [_ Hp] & W & _) & _).
  rewrite Hp in W by auto. simpl in W. rewrite app_nil_r in W. auto.
Qed.
Lemma hcast_single X S e z f : (length e <= 1)%nat -> encloses (hcast S) X S e z f -> encloses (full S) X S e z f.
Proof.
  intros L [Hne H]. split; auto. intros s Hs. specialize (H s Hs). destruct e as [|c [|]]; simpl in L; try lia; [congruence|].
  simpl in *. destruct H as (u & w & (p & [_ Hp] & R) & -> & ->). exists u, 0. split; auto. exists p. split; auto. apply Hp; auto.
Qed.

(** A constant as an enclosure. *)
Lemma const_encloses X S t z f : tshape t = S -> (forall s, valid S s -> f s = tdata t s) -> encloses (full S) X S [Arr t] z f.
Proof.
  intros E H. split; [discriminate|]. intros s Hs. simpl. exists (f s), 0. split; [|split; [reflexivity|ring]].
  exists S. split; [reflexivity|]. split; [simpl; rewrite app_nil_r; auto|]. exists (fun _ => f s). split.
  - intros J HJ. apply valid_nil in HJ. subst J. rewrite app_nil_r, (bidx_valid _ _ Hs). simpl. auto.
  - unfold term_value. simpl. ring.
Qed.
Lemma ivl_encloses X S l h z f : tshape l = S -> tshape h = S -> (forall s, valid S s -> tdata l s <= f s <= tdata h s) -> encloses (full S) X S [Ivl l h] z f.
Proof.
  intros E E' H. split; [discriminate|]. intros s Hs. simpl. exists (f s), 0. split; [|split; [reflexivity|ring]].
  exists S. split; [reflexivity|]. split; [simpl; rewrite app_nil_r; auto|]. exists (fun _ => f s). split.
  - intros J HJ. apply valid_nil in HJ. subst J. rewrite app_nil_r, (bidx_valid _ _ Hs). simpl. auto.
  - unfold term_value. simpl. ring.
Qed.
Lemma arr_value X S t z f : encloses (hcast S) X S [Arr t] z f -> forall s, valid S s -> f s = tdata t s.
Proof.
  intros [_ H] s Hs. specialize (H s Hs). simpl in H. destruct H as (u & w & (p & [_ Hp] & W & A & HA & ->) & -> & ->).
  rewrite Hp in * by auto. specialize (HA [] ltac:(constructor)). rewrite app_nil_r, (bidx_valid _ _ Hs) in HA. simpl in HA.
  unfold term_value. simpl. rewrite HA. ring.
Qed.

(** ** At displacement zero *)
Lemma zpow_0 r n K : (0 < n)%nat -> zpow r (fun _ => 0) n K = 0.
Proof. destruct n; [lia|]. intros _. simpl. ring. Qed.
Lemma term_value_at0 X i A : (0 < i)%nat -> term_value X (fun _ => 0) i A = 0.
Proof.
  intros Hi. unfold term_value. transitivity (sumi (rep i X) (fun _ : list nat => 0)); [|apply sumi_zero]. apply sumi_ext. intros J _. rewrite zpow_0 by auto. ring.
Qed.
(** The value at displacement 0. *)
Lemma encl_value_at0 (P : nat -> list nat -> Prop) X s t rest v : encl_from P X (fun _ => 0) s 0 (Arr t :: rest) v -> v = tdata t (bidx (tshape t) s).
Proof.
  intros (u & w & (p & Hp & W & A & HA & ->) & Hw & ->). simpl in W. rewrite app_nil_r in W. subst p.
  assert (Ew : w = 0).
  { clear -Hw. assert (1 <= 1)%nat as Hi by lia. revert Hi Hw. generalize 1%nat at 2 3. intros i. revert i w.
    induction rest as [|c r IH]; intros i w Hi Hw; simpl in Hw; auto. destruct Hw as (u & w' & (p & Hp & W & A & HA & ->) & Hw & ->).
    rewrite term_value_at0 by lia. rewrite (IH (S i) w'); auto. ring. }
  specialize (HA [] ltac:(constructor)). rewrite app_nil_r in HA. simpl in HA. unfold term_value. simpl. rewrite HA, Ew. ring.
Qed.
(** The constant coefficient is enclosed at displacement 0. *)
Lemma encl_at0 (P : nat -> list nat -> Prop) X S t r z f : (forall p, P 0%nat p -> compat p S) ->
  encloses P X S (Arr t :: r) z f -> encloses P X S (Arr t :: r) (fun _ => 0) (fun s => tdata t (bidx (tshape t) s)).
Proof.
  intros HP [Hne H]. split; auto. intros s Hs. specialize (H s Hs). destruct H as (u & w & (p & Hp & W & A & HA & ->) & Hw & _).
  simpl in W. rewrite app_nil_r in W. subst p.
  exists (tdata t (bidx (tshape t) s)), 0. split; [|split; [|ring]].
  - exists (tshape t). split; auto. split; [simpl; rewrite app_nil_r; auto|]. exists (fun _ => tdata t (bidx (tshape t) s)). split.
    + intros J HJ. apply valid_nil in HJ. subst J. rewrite app_nil_r. reflexivity.
    + unfold term_value. simpl. ring.
  - clear -Hw. revert w Hw. assert (1 <= 1)%nat as Hi by lia. revert Hi. generalize 1%nat at 2 3 4. intros i. revert i.
    induction r as [|c r IH]; intros i Hi w Hw; simpl in *; auto.
    destruct Hw as (u & w' & (p & Hp & W & A & HA & ->) & Hw & ->). exists 0, 0. split; [|split; [|ring]].
    + exists p. split; auto. split; auto. exists A. split; auto. symmetry. apply term_value_at0. lia.
    + eapply IH; eauto.
Qed.

(** ** Ordered coefficients *)
Lemma bidx_onto p S I : compat p S -> (exists s, valid S s) -> valid p I -> exists s, valid S s /\ bidx p s = I.
Proof.
  intros (pre & suf & -> & HF) [s0 Hs0] HI. apply valid_app_inv in Hs0. destruct Hs0 as (s1 & s2 & -> & H1 & H2).
  assert (G : exists J, valid suf J /\ map2 (fun n i => if (n =? 1)%nat then 0%nat else i) p J = I).
  { clear -HF HI H2. revert I s2 HI H2. induction HF as [|x y p suf Hxy HF IH]; intros I s2 HI H2.
    - apply valid_nil in HI. subst. exists []. split; [constructor|reflexivity].
    - apply valid_cons in HI. destruct HI as (i & I' & -> & Hi & HI). apply valid_cons in H2. destruct H2 as (j & J' & -> & Hj & H2).
      destruct (IH _ _ HI H2) as (J & HJ & <-).
      destruct (Nat.eqb_spec x 1) as [->|Hx].
      + exists (j :: J). split; [constructor; auto|]. simpl. f_equal. lia.
      + exists (i :: J). split; [constructor; auto; destruct Hxy; [congruence|subst; auto]|]. simpl.
        destruct (Nat.eqb_spec x 1); [congruence|]. reflexivity. }
  destruct G as (J & HJ & <-). exists (s1 ++ J). split; [apply valid_app; auto|].
  unfold bidx. rewrite skipn_exact; auto. rewrite app_length.
  pose proof (valid_length _ _ HJ). pose proof (Forall2_length HF). lia.
Qed.

Lemma encloses_good S X e z f : (exists s, valid S s) -> encloses (bcast S) X S e z f -> good_coeffs S X e.
Proof.
  intros Hne [_ H] i c Hc. pose proof Hne as [s0 Hs0].
  assert (G : forall s, valid S s -> exists p, compat p S /\ wfs (p ++ rep i X) c /\ exists A, forall J, valid (rep i X) J -> inat c (bidx p s ++ J) (A J)).
  { intros s Hs. specialize (H s Hs). apply encl_from_F2i in H. destruct H as (us & HF & _).
    assert (exists u, nth_error us i = Some u) as [u Hu].
    { pose proof (F2i_length _ _ _ _ HF). destruct (nth_error us i) eqn:E; eauto. apply nth_error_None in E.
      assert (i < length e)%nat by (apply nth_error_Some; congruence). lia. }
    destruct (F2i_nth _ _ _ _ _ _ _ HF Hc Hu) as (p & Hp & W & A & HA & _). exists p. eauto. }
  destruct (G s0 Hs0) as (p & Cp & W & _). split; [|eauto]. split.
  - destruct c; simpl; auto. simpl in W. destruct W as [-> ->]; auto.
  - rewrite (wfs_lo _ _ W). intros I HI. apply valid_app_inv in HI. destruct HI as (I1 & J & -> & HI & HJ).
    destruct (bidx_onto _ _ _ Cp Hne HI) as (s & Hs & <-).
    destruct (G s Hs) as (q & Cq & Wq & A & HA). pose proof (wfs_inj _ _ _ W Wq) as E. apply app_inv_tail in E. subst q.
    specialize (HA J HJ). destruct c; simpl in *; lra.
Qed.

(** ** Operations on enclosures known up to broadcasting *)
Lemma head_of_firstn {B} (D : nat) (l l' : list B) c r : (1 <= D)%nat -> firstn D l' = firstn D l -> l = c :: r -> exists r', l' = c :: r'.
Proof. intros HD E ->. destruct D; [lia|]. destruct l' as [|d l']; simpl in E; [discriminate|]. injection E as -> _. eauto. Qed.

Lemma trunc_hcast S X tr D z f e e' : (exists s, valid S s) -> in_region X tr z -> (1 <= D)%nat \/ (length e <= D + 1)%nat ->
  encloses (hcast S) X S e z f -> enclose_enclosure e tr D = Ok e' -> encloses (hcast S) X S e' z f.
Proof.
  intros Hne Htr HD He H. destruct (enclose_shape _ _ _ _ H) as (L & F & E).
  destruct (Nat.le_gt_cases (length e) (D + 1)) as [Hle|Hgt]; [rewrite E; auto|].
  assert (1 <= D)%nat by lia. destruct e as [|c0 r] eqn:Ee; [destruct He; congruence|].
  destruct (head_of_firstn D _ _ c0 r H0 F eq_refl) as [r' ->].
  apply hcast_of_bcast; [eapply hcast_wfs; eauto|].
  exact (encloses_enclose _ _ _ _ _ _ _ _ _ _ (pf_bcast S) Htr (encloses_mono _ _ _ _ _ _ _ (hcast_bcast S) He) H).
Qed.

Lemma iadd_wfs sa sb s x y c : bshape sa sb = Some s -> wfs sa x -> wfs sb y -> iadd x y = Ok c -> wfs s c.
Proof. intros E Wx Wy H. destruct (iadd_spec _ _ _ _ _ Wx Wy H) as (q & Hq & W & _). congruence. Qed.

Lemma eadd_untruncated {T} {N : Num T} (A : arith T) a b c : (length a <= max_degree A + 1)%nat -> (length b <= max_degree A + 1)%nat ->
  eadd A a b = Ok c -> add_coeffs a b = Ok c.
Proof.
  intros La Lb H. unfold eadd in H. apply bind_ok in H. destruct H as (t & Ht & H). pose proof (add_coeffs_length _ _ _ Ht) as L.
  apply enclose_shape in H. destruct H as (_ & _ & E). rewrite E; auto. lia.
Qed.

Section Ops.
Variables (X : list nat) (tr : tensor R * tensor R) (D : nat) (z : list nat -> R).
Hypothesis Htr : in_region X tr z.
Let A := mkArith D tr.
Variables (Sa Sb S : list nat).
Hypothesis HS : bshape Sa Sb = Some S.
Hypotheses (Na : exists s, valid Sa s) (Nb : exists s, valid Sb s) (NS : exists s, valid S s).

Lemma add_head a b c f g : encloses (hcast Sa) X Sa a z f -> encloses (hcast Sb) X Sb b z g ->
  (length a <= D + 1)%nat -> (length b <= D + 1)%nat -> eadd A a b = Ok c -> exists c0 r, c = c0 :: r /\ wfs S c0.
Proof.
  intros Ha Hb La Lb H. apply eadd_untruncated in H; auto.
  destruct a as [|x a]; [destruct Ha; congruence|]. destruct b as [|y b]; [destruct Hb; congruence|].
  simpl in H. ok_inv. subst. do 2 eexists. split; [reflexivity|].
  refine (iadd_wfs _ _ _ _ _ _ HS _ _ Hb0); [exact (hcast_wfs _ _ _ _ _ _ Na Ha)|exact (hcast_wfs _ _ _ _ _ _ Nb Hb)].
Qed.

Lemma add_hcast a b c f g : encloses (hcast Sa) X Sa a z f -> encloses (hcast Sb) X Sb b z g ->
  (length a <= D + 1)%nat -> (length b <= D + 1)%nat -> eadd A a b = Ok c ->
  encloses (hcast S) X S c z (fun s => f (bidx Sa s) + g (bidx Sb s)).
Proof.
  intros Ha Hb La Lb H. destruct (add_head _ _ _ _ _ Ha Hb La Lb H) as (c0 & r & -> & W).
  apply hcast_of_bcast; auto.
  exact (proj1 (C15_add_subtract_negative_sound Sa Sb S X tr D a b z f g HS Htr (encloses_mono _ _ _ _ _ _ _ (hcast_bcast _) Ha) (encloses_mono _ _ _ _ _ _ _ (hcast_bcast _) Hb)) _ H).
Qed.

Lemma neg_hcast a c f : encloses (hcast Sa) X Sa a z f -> (length a <= D + 1)%nat -> enegative A a = Ok c ->
  encloses (hcast Sa) X Sa c z (fun s => - f s).
Proof.
  intros Ha La H. unfold enegative, truncate_if_necessary in H. destruct (enclose_shape _ _ _ _ H) as (_ & _ & E).
  specialize (E ltac:(rewrite map_length; auto)).
  pose proof (neg_sound Sa _ _ (pf_bcast Sa) X z tr D Htr a c _ (encloses_mono _ _ _ _ _ _ _ (hcast_bcast _) Ha) H) as HN.
  subst c. destruct a as [|x a]; [destruct Ha; congruence|]. simpl in *. apply hcast_of_bcast; auto.
  apply ineg_wfs. exact (hcast_wfs _ _ _ _ _ _ Na Ha).
Qed.

(** Products: any shape predicates closed under the operations. *)
Record pclosed (Pa Pb P : nat -> list nat -> Prop) : Prop := {
  pc_a : forall i p, Pa i p -> compat p Sa;
  pc_b : forall i p, Pb i p -> compat p Sb;
  pc_s : forall i p, P i p -> compat p S;
  pc_mul : forall i j a b c, Pa i a -> Pb j b -> bshape a b = Some c -> P (i + j)%nat c;
  pc_add : forall i a b c, P i a -> P i b -> bshape a b = Some c -> P i c }.

Lemma pc_full : pclosed (full Sa) (full Sb) (full S).
Proof.
  unfold full. split; intros; subst; auto using compat_refl; [congruence|]. rewrite bshape_refl in H1. congruence.
Qed.
Lemma pc_hcast : pclosed (hcast Sa) (hcast Sb) (hcast S).
Proof.
  destruct (bshape_spec _ _ _ HS) as [C1 C2].
  assert (CS : forall a b c, compat a Sa -> compat b Sb -> bshape a b = Some c -> compat c S).
  { intros. eapply bshape_least; eauto; eapply compat_trans; eauto. }
  unfold hcast. split; intros.
  - tauto. - tauto. - tauto.
  - destruct H as [H H'], H0 as [H0 H0']. split; [eapply CS; eauto|]. intros E. rewrite H', H0' in * by lia. congruence.
  - destruct H as [H H'], H0 as [H0 H0']. split; [eapply bshape_least; eauto|]. intros ->. rewrite H', H0' in * by auto.
    rewrite bshape_refl in H1. congruence.
Qed.

Lemma con_bidx a Sx s i x v : compat a Sx -> compat Sx S -> valid S s -> con X z (bidx Sx s) a i x v -> con X z s a i x v.
Proof. intros C1 C2 Hs (W & B & HB & ->). split; auto. exists B. split; auto. intros J HJ. rewrite <- (bidx_join S s Hs a Sx) by auto. auto. Qed.

Lemma product_rel Pa Pb P a b p f g : pclosed Pa Pb P -> encloses Pa X Sa a z f -> encloses Pb X Sb b z g ->
  poly_bilinear iadd zero_c (elementwise_term_product_coefficient (length X)) a b = Ok p ->
  length p = (length a + length b - 1)%nat /\ encloses P X S p z (fun s => f (bidx Sa s) * g (bidx Sb s)).
Proof.
  intros PC [Nea Ha] [Neb Hb] H. destruct (bshape_spec _ _ _ HS) as [C1 C2].
  assert (E : forall s, valid S s -> length p = (length a + length b - 1)%nat /\ exists ws, F2i (contributes P X z s) 0 p ws /\ Rsum ws = f (bidx Sa s) * g (bidx Sb s)).
  { intros s Hs.
    specialize (Ha _ (bidx_compat_valid _ _ _ C1 Hs)). specialize (Hb _ (bidx_compat_valid _ _ _ C2 Hs)).
    apply encl_from_F2i in Ha, Hb. destruct Ha as (us & HU & ->), Hb as (vs & HV & ->).
    refine (poly_bilinear_rel iadd zero_c (contributes P X z s) (contributes Pa X z (bidx Sa s)) (contributes Pb X z (bidx Sb s))
             (elementwise_term_product_coefficient (length X)) a b us vs p _ _ _ Nea Neb HU HV H).
    - intros i y v c (q & Hq & R) Hc. exists q. split; auto. eapply (con_zero_add X z S s); eauto. eapply pc_s; eauto.
    - intros i x y u v c (q & Hq & Rq) (q' & Hq' & Rq') Hc.
      destruct (con_add X z S s Hs q q' i x y u v c (pc_s _ _ _ PC _ _ Hq) (pc_s _ _ _ PC _ _ Hq') Rq Rq' Hc) as (w & Hw & Rw).
      exists w. split; auto. exact (pc_add _ _ _ PC _ _ _ _ Hq Hq' Hw).
    - intros i j x y u v c _ _ (q & Hq & Rq) (q' & Hq' & Rq') Hc.
      pose proof (pc_a _ _ _ PC _ _ Hq) as Cq. pose proof (pc_b _ _ _ PC _ _ Hq') as Cq'.
      apply (con_bidx q Sa s) in Rq; auto. apply (con_bidx q' Sb s) in Rq'; auto.
      destruct (con_tp X z S s Hs q q' i j x y u v c) as (w & Hw & Rw); eauto using compat_trans.
      exists w. split; auto. exact (pc_mul _ _ _ PC _ _ _ _ _ Hq Hq' Hw). }
  destruct NS as [s0 Hs0]. destruct (E s0 Hs0) as [L _]. split; auto. split.
  - apply len_ne. rewrite L. apply ne_len in Nea, Neb. lia.
  - intros s Hs. destruct (E s Hs) as (_ & ws & HW & E'). apply encl_from_F2i. eauto.
Qed.

Lemma mul_full a b c f g : encloses (full Sa) X Sa a z f -> encloses (full Sb) X Sb b z g -> emultiply A a b = Ok c ->
  encloses (full S) X S c z (fun s => f (bidx Sa s) * g (bidx Sb s)).
Proof.
  intros Ha Hb H. unfold emultiply in H. ok_inv. simpl in Hb2. rewrite (tr_ndim X z tr Htr) in Hb2.
  destruct (product_rel _ _ _ _ _ _ _ _ pc_full Ha Hb Hb2) as [_ HP].
  exact (encloses_enclose _ _ _ _ _ _ _ _ _ _ (pf_full S) Htr HP H).
Qed.
(** One operand of the shape of the result. *)
Lemma pc_full_l : Sa = S -> pclosed (full Sa) (hcast Sb) (full S).
Proof.
  intros ES. destruct (bshape_spec _ _ _ HS) as [C1 C2]. unfold full, hcast. split; intros; subst; auto using compat_refl; try tauto.
  - destruct H0 as [H0 _]. rewrite (bshape_compat_r b S) in H1; [congruence|]. eapply compat_trans; eauto.
  - rewrite bshape_refl in H1. congruence.
Qed.
Lemma pc_full_r : Sb = S -> pclosed (hcast Sa) (full Sb) (full S).
Proof.
  intros ES. destruct (bshape_spec _ _ _ HS) as [C1 C2]. unfold full, hcast. split; intros; subst; auto using compat_refl; try tauto.
  - destruct H as [H _]. rewrite (bshape_compat a S) in H1; [congruence|]. eapply compat_trans; eauto.
  - rewrite bshape_refl in H1. congruence.
Qed.
Lemma mul_full_l a b c f g : Sa = S -> encloses (full Sa) X Sa a z f -> encloses (hcast Sb) X Sb b z g -> emultiply A a b = Ok c ->
  encloses (full S) X S c z (fun s => f (bidx Sa s) * g (bidx Sb s)).
Proof.
  intros ES Ha Hb H. unfold emultiply in H. ok_inv. simpl in Hb2. rewrite (tr_ndim X z tr Htr) in Hb2.
  destruct (product_rel _ _ _ _ _ _ _ _ (pc_full_l ES) Ha Hb Hb2) as [_ HP].
  exact (encloses_enclose _ _ _ _ _ _ _ _ _ _ (pf_full S) Htr HP H).
Qed.
Lemma mul_full_r a b c f g : Sb = S -> encloses (hcast Sa) X Sa a z f -> encloses (full Sb) X Sb b z g -> emultiply A a b = Ok c ->
  encloses (full S) X S c z (fun s => f (bidx Sa s) * g (bidx Sb s)).
Proof.
  intros ES Ha Hb H. unfold emultiply in H. ok_inv. simpl in Hb2. rewrite (tr_ndim X z tr Htr) in Hb2.
  destruct (product_rel _ _ _ _ _ _ _ _ (pc_full_r ES) Ha Hb Hb2) as [_ HP].
  exact (encloses_enclose _ _ _ _ _ _ _ _ _ _ (pf_full S) Htr HP H).
Qed.
Lemma mul_hcast a b c f g : encloses (hcast Sa) X Sa a z f -> encloses (hcast Sb) X Sb b z g ->
  (length a <= D + 1)%nat -> (length b <= D + 1)%nat -> emultiply A a b = Ok c ->
  encloses (hcast S) X S c z (fun s => f (bidx Sa s) * g (bidx Sb s)).
Proof.
  intros Ha Hb La Lb H. unfold emultiply in H. ok_inv. simpl in Hb2. rewrite (tr_ndim X z tr Htr) in Hb2.
  destruct (product_rel _ _ _ _ _ _ _ _ pc_hcast Ha Hb Hb2) as [L HP].
  refine (trunc_hcast _ _ _ _ _ _ _ _ NS Htr _ HP H). simpl. destruct D; [right|left]; lia.
Qed.

(** Powers. *)
Lemma pow_full a n c f : encloses (hcast Sa) X Sa a z f -> epower_nat A a n = Ok c ->
  encloses (full Sa) X Sa c z (fun s => f s ^ n).
Proof.
  intros Ha H. unfold epower_nat in H. apply bind_ok in H. destruct H as (u & _ & H).
  destruct a as [|a0 r]; [destruct Ha; congruence|].
  pose proof (hcast_wfs _ _ _ _ _ _ Na Ha) as W0. destruct Ha as [_ Ha].
  apply bind_ok in H. destruct H as (q & Hq & H). simpl in Hq. rewrite (tr_ndim X z tr Htr) in Hq.
  set (one := Arr (tones_like (left_end a0))) in *.
  assert (Wl : tshape (left_end a0) = Sa) by (exact (wfs_lo _ _ W0)).
  assert (H1 : forall s, valid Sa s -> contributes (full Sa) X z s 0 one 1).
  { intros s Hs. exists Sa. split; [reflexivity|]. split; [simpl; rewrite app_nil_r; auto|].
    exists (fun _ => 1). split; [intros; reflexivity|]. unfold term_value. simpl. ring. }
  assert (E : forall s, valid Sa s -> length q = (1 + length r * n)%nat /\ exists ws, F2i (contributes (full Sa) X z s) 0 q ws /\ Rsum ws = f s ^ n).
  { intros s Hs. specialize (Ha s Hs). apply encl_from_F2i in Ha. destruct Ha as (us & HU & ->).
    destruct n as [|n].
    - unfold integer_power in Hq. simpl in Hq. injection Hq as <-. split; [simpl; lia|].
      exists [1]. split; [|simpl; ring]. constructor; [apply H1; auto|constructor].
    - destruct (integer_power_rel iadd zero_c one
       (elementwise_term_product_coefficient (length X)) (elementwise_term_power_coefficient (length X))
       (fun k c => imul (Arr (tscalar (nofZ k))) c) (contributes (full Sa) X z s) (contributes (bcast Sa) X z s) (G_zero_add Sa _ _ (pf_full Sa) X z s Hs) (G_add Sa _ _ (pf_full Sa) X z s Hs) (H1 s Hs)) with
       (Ga := contributes (hcast Sa) X z s) (us := us) (e := Datatypes.S n) (a := a0 :: r) (out := q) as (L & HF & HS'); auto.
      + intros i j x y u0 v c0 (p & Hp & R) (p' & Cp' & R') Hc. unfold full in Hp. subst p.
        destruct (con_tp X z Sa s Hs Sa p' i j x y u0 v c0) as (w & Hw & Rw); auto using compat_refl.
        exists w. split; auto. rewrite (bshape_compat_r _ _ Cp') in Hw. unfold full. congruence.
      + intros i x u0 e c0 (p & [Cp Hp] & R) Hc. destruct e as [|e].
        * rewrite Nat.mul_0_r. exists []. split; [apply compat_nil|]. simpl. exact (con_tpow0 X z s i x c0 Hc).
        * exists p. split; [exact Cp|]. eapply (con_tpow X z Sa s); eauto. lia.
      + intros i k x u0 c0 (p & Hp & R) Hc. unfold full in Hp. subst p. exists Sa. split; [reflexivity|]. eapply (con_smul X z Sa s); eauto using compat_refl.
      + congruence.
      + lia.
      + simpl in L. rewrite Nat.sub_0_r in L. split; auto. eexists. split; [exact HF|exact HS']. }
  destruct Na as [s0 Hs0]. destruct (E s0 Hs0) as [L _].
  assert (HP : encloses (full Sa) X Sa q z (fun s => f s ^ n)).
  { split; [apply len_ne; lia|]. intros s Hs. destruct (E s Hs) as (_ & ws & HW & E'). apply encl_from_F2i. eauto. }
  exact (encloses_enclose _ _ _ _ _ _ _ _ _ _ (pf_full Sa) Htr HP H).
Qed.
End Ops.
