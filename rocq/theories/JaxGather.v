(** Linear operations applied to every coefficient. *)
From Coq Require Import Reals Lra Psatz.
From Verif Require Import Base Tensor IntervalArith Polynomials Enclosure TensorLemmas Spec IntervalProofs PowerProofs PolyProofs Graded
  EnclosureOps EnclosureProofs BilinearProofs PropEnclosure PropDegree JaxBound JaxSpec JaxLemmas.
Open Scope R_scope.

Lemma fold_Rsum (l : list R) : fold_right nadd n0 l = Rsum l.
Proof. reflexivity. Qed.

Section Gather.
Variables (X Su S' : list nat) (z : list nat -> R) (g : nat -> gather_op) (src : list nat -> list (list nat)).
(** [g i] acts on the leading axes of a degree-[i] coefficient. *)
Definition batches (i : nat) : Prop :=
  forall sh, g_shape (g i) (Su ++ rep i X) = Ok sh -> sh = S' ++ rep i X /\
    forall s I, valid S' s -> valid (rep i X) I -> g_src (g i) (Su ++ rep i X) (s ++ I) = map (fun J => J ++ I) (src s).
Hypothesis src_valid : forall s, valid S' s -> Forall (valid Su) (src s).

Lemma gather_contrib s k c c' us : valid S' s -> batches k ->
  wfs (Su ++ rep k X) c ->
  Forall2 (fun J u => contributes (full Su) X z J k c u) (src s) us ->
  map_coef (gather (g k)) c = Ok c' -> contributes (full S') X z s k c' (Rsum us).
Proof.
  intros Hs HB Wc HF H. pose proof (src_valid s Hs) as HV.
  assert (HA : exists As, Forall2 (fun J (A : list nat -> R) => forall I, valid (rep k X) I -> inat c (J ++ I) (A I)) (src s) As /\
                Rsum us = term_value X z k (fun I => Rsum (map (fun A => A I) As))).
  { clear H HB. induction HF as [|J u l us (p & Hp & _ & A & HA & ->) HF IH]; inversion HV; subst.
    - exists []. split; [constructor|]. simpl. rewrite term_value_0. reflexivity.
    - destruct IH as (As & K1 & K2); auto. exists (A :: As). unfold full in Hp. subst p. split.
      + constructor; auto. intros I HI. specialize (HA I HI). rewrite bidx_valid in HA by auto. exact HA.
      + simpl. rewrite K2, <- term_value_plus. reflexivity. }
  destruct HA as (As & HA & ->). clear HF.
  exists S'. split; [reflexivity|]. rewrite (bidx_valid S' s Hs).
  destruct c as [t|l h]; simpl in H, Wc.
  - ok_inv. subst. unfold gather in Hb. ok_inv. rewrite Wc in *. subst. destruct (HB _ Hb0) as [-> HS]. split; [reflexivity|].
    eexists. split; [|reflexivity]. intros I HI. simpl. rewrite HS by auto.
    clear -HA HI. induction HA as [|J A l As H HA IH]; simpl; auto. rewrite (H I HI), IH. reflexivity.
  - destruct Wc as [Wl Wh]. ok_inv. subst. unfold gather in Hb, Hb0. ok_inv. rewrite Wl, Wh in *. subst.
    destruct (HB _ Hb1) as [-> HS]. destruct (HB _ Hb2) as [-> _]. split; [split; reflexivity|].
    eexists. split; [|reflexivity]. intros I HI. simpl. rewrite !HS by auto.
    clear -HA HI. induction HA as [|J A l' As H HA IH]; simpl; [lra|]. specialize (H I HI). simpl in H. lra.
Qed.

Lemma split_sums (P : list nat -> R -> Prop) (Q : list nat -> R -> Prop) l vs :
  Forall2 (fun J v => exists u w, P J u /\ Q J w /\ v = u + w) l vs ->
  exists us ws, Forall2 P l us /\ Forall2 Q l ws /\ Rsum vs = Rsum us + Rsum ws.
Proof.
  induction 1 as [|J v l vs (u & w & HP & HQ & ->) H (us & ws & H1 & H2 & E)].
  - exists [], []. repeat split; simpl; auto. ring.
  - exists (u :: us), (w :: ws). repeat split; simpl; auto. rewrite E. ring.
Qed.

(** Coefficientwise application. *)
Inductive maps_from : nat -> list (coef R) -> list (coef R) -> Prop :=
| mf_nil k : maps_from k [] []
| mf_cons k c c' e e' : map_coef (gather (g k)) c = Ok c' -> maps_from (S k) e e' -> maps_from k (c :: e) (c' :: e').

Lemma maps_encl s e e' k : valid S' s -> (exists J, valid Su J) -> maps_from k e e' ->
  (forall i, (i < length e)%nat -> batches (k + i)) ->
  (forall i c, nth_error e i = Some c -> wfs (Su ++ rep (k + i) X) c) ->
  forall vs, Forall2 (fun J v => encl_from (full Su) X z J k e v) (src s) vs ->
  encl_from (full S') X z s k e' (Rsum vs).
Proof.
  intros Hs Hne HM. induction HM as [k|k c c' e e' Hc HM IH]; intros HB HW vs HF; simpl in *.
  - clear -HF. induction HF; simpl; auto. lra.
  - apply split_sums in HF. destruct HF as (us & ws & H1 & H2 & E). exists (Rsum us), (Rsum ws). split; [|split; auto].
    + eapply gather_contrib; eauto. { specialize (HB 0%nat). rewrite Nat.add_0_r in HB. apply HB. lia. }
      specialize (HW 0%nat c eq_refl). rewrite Nat.add_0_r in HW. auto.
    + apply IH; auto.
      * intros i Hi. specialize (HB (S i)). replace (k + S i)%nat with (S (k + i)) in HB by lia. apply HB. lia.
      * intros i c0 Hi. specialize (HW (S i)). replace (k + S i)%nat with (S (k + i)) in HW by lia. apply HW. auto.
Qed.

Lemma full_wfs e f : (exists J, valid Su J) -> encloses (full Su) X Su e z f -> forall i c, nth_error e i = Some c -> wfs (Su ++ rep i X) c.
Proof.
  intros [J HJ] [_ H] i c Hc. specialize (H J HJ). apply encl_from_F2i in H. destruct H as (us & HF & _).
  assert (exists u, nth_error us i = Some u) as [u Hu].
  { pose proof (F2i_length _ _ _ _ HF). destruct (nth_error us i) eqn:E; eauto. apply nth_error_None in E.
    assert (i < length e)%nat by (apply nth_error_Some; congruence). lia. }
  destruct (F2i_nth _ _ _ _ _ _ _ HF Hc Hu) as (p & Hp & W & _). unfold full in Hp. subst p. exact W.
Qed.

Lemma maps_sound e e' f : (exists J, valid Su J) -> maps_from 0 e e' -> (forall i, (i < length e)%nat -> batches i) ->
  encloses (full Su) X Su e z f -> encloses (full S') X S' e' z (fun s => fold_right nadd n0 (map f (src s))).
Proof.
  intros Hne HM HB He. split.
  - destruct He as [Hn _]. inversion HM; subst; congruence.
  - intros s Hs. change (fold_right nadd n0) with Rsum. eapply maps_encl; eauto.
    + exact (full_wfs e f Hne He).
    + pose proof (src_valid s Hs) as HV. clear -HV He. destruct He as [_ He]. induction HV; simpl; constructor; auto.
Qed.
End Gather.

Lemma map_over_maps g e : forall k e', map_over_enclosure e (gather g) = Ok e' -> maps_from (fun _ => g) k e e'.
Proof.
  induction e as [|c e IH]; intros k e' H; unfold map_over_enclosure in *; cbn [mapM] in H.
  - injection H as <-. constructor.
  - ok_inv. subst. constructor; auto.
Qed.
Lemma enumerate_maps (gi : nat -> gather_op) e : forall k e', mapM (fun '(i, c) => map_coef (gather (gi i)) c) (enumerate_from k e) = Ok e' -> maps_from gi k e e'.
Proof.
  induction e as [|c e IH]; intros k e' H; cbn [enumerate_from mapM] in H.
  - injection H as <-. constructor.
  - ok_inv. subst. constructor; auto.
Qed.
