(** Soundness of [compose_enclosures]. *)
From Coq Require Import Reals Lra Psatz.
From Verif Require Import Base Tensor IntervalArith Polynomials Enclosure TensorLemmas Spec IntervalProofs PowerProofs PolyProofs Graded EnclosureOps EnclosureProofs.
Open Scope R_scope.

(** The first [p] coefficients of the [p]-th power of a polynomial without
    constant term vanish. *)
Lemma weight_ge k p : (k * list_sum p <= list_sum (map (fun '(j, x) => j * x) (enumerate_from k p)))%nat.
Proof.
  revert k; induction p as [|e p IH]; intros k; simpl; [lia|]. specialize (IH (S k)). unfold list_sum in *. simpl in *. nia.
Qed.

Lemma power_coeff_low us p i : (i < p)%nat -> power_coeff (0 :: us) p i = 0.
Proof.
  intros Hi. unfold power_coeff. apply Rsum_zero. intros q Hq. apply partitions_spec in Hq.
  destruct Hq as (L & HS & HW). destruct q as [|e q]; [discriminate|].
  destruct e as [|e].
  - exfalso. unfold weight, enumerate in HW. simpl in HW.
    pose proof (weight_ge 1 q). unfold list_sum in *. simpl in *. lia.
  - simpl. ring.
Qed.

(** Left-broadcasting multiplication. *)
Definition lbm_a (E : list nat) (n : nat) (I : list nat) : list nat := bidx E (firstn n I).

Lemma lbm_prodop S E q : ew_shape S E ->
  prodop left_broadcasting_multiply E (S ++ q) (S ++ q) (lbm_a E (length S)) (fun I => I).
Proof.
  intros HE.
  assert (HC : compat (E ++ repeat 1%nat (length (S ++ q) - length E)) (S ++ q) /\ (length E <= length S)%nat).
  { destruct HE as [->|[HC L]].
    - split; [|simpl; lia]. simpl. rewrite Nat.sub_0_r. exists [], (S ++ q). split; auto. induction (S ++ q); simpl; constructor; auto. left; auto.
    - split; [|lia]. apply compat_app; auto. replace (length (S ++ q) - length E)%nat with (length q) by (rewrite app_length; lia).
      clear. induction q; simpl; constructor; auto. left; auto. }
  destruct HC as [HC HL]. split.
  - intros x y w Hx Hy H. unfold left_broadcasting_multiply in H. dif H Hlt; [discriminate|].
    apply bind_ok in H. destruct H as (x' & Hx' & H). apply expand_ok in Hx'. destruct Hx' as (_ & Sx & Dx).
    unfold tndim in *. rewrite Hx, Hy in *. rewrite firstn_all, skipn_all, app_nil_r in Sx.
    apply tmap2_ok in H. destruct H as [Sw Dw]. rewrite Sx, Hy, (bshape_compat _ _ HC) in Sw. injection Sw as Sw.
    split; auto. intros I HI. rewrite Dw. unfold bget. rewrite Sx, Hy, Dx, (bidx_valid _ I HI).
    apply (f_equal (fun K => tdata x K * tdata y I)). unfold lbm_a. pose proof (valid_length _ _ HI) as LI.
    apply valid_app_inv in HI. destruct HI as (s & J & -> & Hs & HJ). pose proof (valid_length _ _ Hs) as Ls.
    rewrite (firstn_exact s) by auto.
    destruct HE as [->|[HCE LE]].
    + simpl. rewrite Nat.sub_0_r. unfold bidx at 2. simpl. apply skipn_all2.
      rewrite bidx_repeat1, repeat_length by auto. lia.
    + rewrite (bidx_app E S) by (auto; rewrite ?repeat_length, ?app_length, ?(valid_length _ _ HJ); lia).
      assert (Lb : length (bidx E s) = length E) by (eapply bidx_length; eauto).
      rewrite (firstn_exact (bidx E s)) by auto.
      rewrite skipn_all2, app_nil_r; auto. rewrite app_length, Lb.
      rewrite bidx_repeat1 by (rewrite app_length, (valid_length _ _ HJ); lia). rewrite repeat_length. lia.
  - intros I HI. split; auto. apply valid_app_inv in HI. destruct HI as (s & J & -> & Hs & HJ).
    unfold lbm_a. rewrite (firstn_exact s) by (symmetry; apply valid_length; auto).
    destruct HE as [->|[HCE LE]]; [|eapply bidx_compat_valid; eauto]. unfold bidx. simpl. constructor.
Qed.

Section Compose.
Variables (S : list nat) (P P' : nat -> list nat -> Prop).
Hypothesis PF : prefixes S P P'.
Hypothesis PS : forall i, (1 <= i)%nat -> P i S.
Variables (X : list nat) (z : list nat -> R) (s : list nat).
Hypothesis Hs : valid S s.
Variable tr : tensor R * tensor R.
Hypothesis Htr : in_region X tr z.
Variable D : nat.
Let A := mkArith D tr.
Let G := contributes P X z s.

Lemma con_lbm E i c w t v r : ew_shape S E -> wfs E c -> inat c (bidx E s) w -> con X z s S i t v ->
  interval_left_broadcasting_multiply c t = Ok r -> con X z s S i r (w * v).
Proof.
  intros HE Wc Hw (Wt & B & HB & ->) H. unfold interval_left_broadcasting_multiply in H.
  destruct (ibil_prod _ _ _ _ _ _ _ _ _ (lbm_prodop S E (rep i X) HE) Wc Wt H) as [Wr Dr].
  split; auto. exists (fun J => w * B J). split.
  - intros J HJ. rewrite (bidx_valid S s Hs). apply Dr.
    + apply valid_app; auto.
    + unfold lbm_a. rewrite firstn_exact by (symmetry; apply valid_length; auto). auto.
    + rewrite <- (bidx_valid S s Hs). auto.
  - unfold term_value. rewrite <- sumi_scal. apply sumi_ext. intros. ring.
Qed.

(** For a function of a number, coefficients known up to broadcasting will do if
    the elementwise coefficient has the full shape. *)
Lemma con_lbm_number q i c w t v r : X = [] -> compat q S -> wfs S c -> inat c s w -> con X z s q i t v ->
  interval_left_broadcasting_multiply c t = Ok r -> con X z s S i r (w * v).
Proof.
  intros EX Cq Wc Hw (Wt & B & HB & ->) H.
  assert (ER : rep i X = []) by (rewrite EX; clear; induction i; simpl; auto).
  assert (PO : prodop left_broadcasting_multiply S q S (fun I => I) (fun I => bidx q I)).
  { split.
    - intros x y u Hx Hy K. unfold left_broadcasting_multiply in K. dif K Hlt; [discriminate|].
      apply bind_ok in K. destruct K as (x' & Hx' & K). apply expand_ok in Hx'. destruct Hx' as (_ & Sx & Dx).
      unfold tndim in *. rewrite Hx, Hy in *. apply Nat.ltb_ge in Hlt. pose proof (compat_length _ _ Cq) as Lc.
      assert (L : length q = length S) by lia.
      rewrite firstn_all, skipn_all, app_nil_r, L, Nat.sub_diag in Sx. cbn [repeat] in Sx. rewrite app_nil_r in Sx.
      apply tmap2_ok in K. destruct K as [Su Du]. rewrite Sx, Hy, (bshape_compat_r _ _ Cq) in Su. injection Su as Su.
      split; auto. intros I HI. rewrite Du. unfold bget. rewrite Sx, Hy, Dx, (bidx_valid _ I HI).
      apply (f_equal (fun K => tdata x K * tdata y (bidx q I))). rewrite L, Nat.sub_diag, Nat.add_0_r.
      pose proof (valid_length _ _ HI) as LI. rewrite <- LI, firstn_all, skipn_all, app_nil_r. reflexivity.
    - intros I HI. split; auto. eapply bidx_compat_valid; eauto. }
  unfold interval_left_broadcasting_multiply in H. rewrite ER, app_nil_r in Wt.
  destruct (ibil_prod _ _ _ _ _ _ _ _ _ PO Wc Wt H) as [Wr Dr].
  split; [rewrite ER, app_nil_r; auto|]. exists (fun J => w * B J). split.
  - intros J HJ. rewrite (bidx_valid S s Hs). rewrite ER in HJ. specialize (HB J ltac:(rewrite ER; exact HJ)). apply valid_nil in HJ. subst J. rewrite app_nil_r in *.
    apply Dr; auto.
  - unfold term_value. rewrite <- sumi_scal. apply sumi_ext. intros. ring.
Qed.

(** What the coefficients [Pt] of the argument, and the shapes [WE] of the
    elementwise coefficients, have to satisfy. *)
Variables (Pt : nat -> list nat -> Prop) (WE : list nat -> Prop).
Hypothesis PFt : prefixes S Pt Pt.
Hypothesis PtE : forall i q e, Pt i q -> (1 <= e)%nat -> Pt (i * e)%nat q.
Hypothesis LB : forall E q i c w t v r, (1 <= i)%nat -> WE E -> ew_shape S E -> Pt i q -> wfs E c -> inat c (bidx E s) w -> con X z s q i t v ->
  interval_left_broadcasting_multiply c t = Ok r -> con X z s S i r (w * v).
Let Gt := contributes Pt X z s.

(** Entries of a composition term: literal zeros below [p], contributions above. *)
Definition Gz (p k : nat) (c : coef R) (w : R) : Prop :=
  ((k < p)%nat /\ c = zero_c /\ w = 0) \/ G k c w.

Lemma add_zpad p out : forall i term vs ws c, F2i G i out vs -> F2i (Gz p) i term ws ->
  (forall k, (i + length out <= k < i + length term)%nat -> (p <= k)%nat) ->
  add_coeffs out term = Ok c ->
  exists us, F2i G i c us /\ Rsum us = Rsum vs + Rsum ws /\ length c = Nat.max (length out) (length term).
Proof.
  induction out as [|x out IH]; intros i term vs ws c Ho Ht Hk H; simpl in H.
  - injection H as <-. inversion Ho; subst. exists ws. split; [|split; [simpl; ring|reflexivity]].
    eapply F2i_intro; [eapply F2i_length; eauto|]. intros j c u Hc Hu.
    destruct (F2i_nth _ _ _ _ j c u Ht Hc Hu) as [(Hlt & _)|HG]; auto.
    assert (j < length term)%nat by (apply nth_error_Some; congruence). simpl in Hk. specialize (Hk (i + j)%nat). lia.
  - destruct term as [|y term].
    + injection H as <-. inversion Ht; subst. exists vs. split; auto. split; [simpl; ring|reflexivity].
    + apply bind_ok in H. destruct H as (w & Hw & H). apply bind_ok in H. destruct H as (r & Hr & H). injection H as <-.
      inversion Ho as [|? ? ? u us Gx Ho']; subst. inversion Ht as [|? ? ? v ws' Gy Ht']; subst.
      destruct (IH _ _ _ _ r Ho' Ht') with (2 := Hr) as (us' & HF & HS & HL).
      { intros k Hk'. apply Hk. simpl in *. lia. }
      exists (u + v :: us'). split; [|split].
      * constructor; auto. destruct Gy as [(_ & -> & ->)|Gy].
        -- rewrite Rplus_0_r. eapply G_add_zero; eauto.
        -- eapply G_add; eauto.
      * simpl. rewrite HS. ring.
      * simpl. rewrite HL. reflexivity.
Qed.

Lemma Gt_zero : Gt 0 zero_c 0.
Proof.
  exists []. split; [apply (pf_nil _ _ _ PFt)|]. split; [reflexivity|].
  exists (fun _ => 0). split; [reflexivity|]. unfold term_value. simpl. ring.
Qed.

Lemma Gt_one : Gt 0 (Arr (tones_like (left_end (zero_c : coef R)))) 1.
Proof.
  exists []. split; [apply (pf_nil _ _ _ PFt)|]. split; [reflexivity|].
  exists (fun _ => 1). split; [reflexivity|]. unfold term_value. simpl. ring.
Qed.

(** One term of positive degree. *)
Lemma compose_term_rel p E c w arg us term : (1 <= p <= D)%nat -> WE E -> ew_shape S E -> wfs E c -> inat c (bidx E s) w ->
  F2i Gt 1 arg us -> compose_term A p c (zero_c :: arg) = Ok term ->
  exists ws, F2i (Gz p) 0 term ws /\ Rsum ws = w * Rsum us ^ p /\ length term = Nat.min (1 + length arg * p) (D + 1).
Proof.
  intros Hp HWE HE Wc Hw Ha H. unfold compose_term in H. destruct p as [|p']; [lia|]. set (p := Datatypes.S p') in *.
  apply bind_ok in H. destruct H as (poly & Hpoly & H).
  assert (Ha0 : F2i Gt 0 (zero_c :: arg) (0 :: us)) by (constructor; [apply Gt_zero|auto]).
  destruct (epower_rel S _ _ PFt X z s Hs tr Htr D (zero_c :: arg) p poly (0 :: us)) as (ws & HF & HS & HL & HN); auto.
  { exists zero_c, arg. split; auto. apply Gt_one. }
  assert (Hlow : forall i, (i < p)%nat -> (i < length ws)%nat -> nth i ws 0 = 0).
  { intros i Hi Hil. destruct (HN i ltac:(lia) ltac:(lia)) as [->|HX]; [|lia]. apply power_coeff_low; auto. }
  clear HN. simpl in HS. rewrite Rplus_0_l in HS. simpl in HL. rewrite Nat.sub_0_r in HL.
  change (Rsum ws = Rsum us ^ p) in HS.
  assert (Gen : forall l k vs out, F2i Gt k l vs -> (forall i, (k + i < p)%nat -> (i < length vs)%nat -> nth i vs 0 = 0) ->
     mapM (fun '(i, t) => if (i <? p)%nat then Ok zero_c else interval_left_broadcasting_multiply c t) (enumerate_from k l) = Ok out ->
     exists us', F2i (Gz p) k out us' /\ Rsum us' = w * Rsum vs /\ length out = length l).
  { induction l as [|t l IH]; intros k vs out Hl Hv Hm; cbn [enumerate_from mapM] in Hm.
    - injection Hm as <-. inversion Hl; subst. exists []. split; [constructor|]. simpl. split; [ring|auto].
    - apply bind_ok in Hm. destruct Hm as (y & Hy & Hm). apply bind_ok in Hm. destruct Hm as (ys & Hys & Hm). injection Hm as <-.
      inversion Hl as [|? ? ? v vs' Gv Hl']; subst.
      destruct (IH (Datatypes.S k) vs' ys Hl') as (us' & HF' & HS' & HL'); auto.
      { intros i Hi Hil. apply (Hv (Datatypes.S i)); simpl; lia. }
      destruct (Nat.ltb_spec k p) as [Hk|Hk].
      + injection Hy as <-. exists (0 :: us'). split; [constructor; auto; left; auto|]. split; [|simpl; lia].
        simpl. rewrite HS'. assert (Ev : v = 0) by (apply (Hv 0%nat); simpl; lia). rewrite Ev. ring.
      + destruct Gv as (q & Hq & Cv).
        exists (w * v :: us'). split; [constructor; auto; right|split; [simpl; rewrite HS'; ring|simpl; lia]].
        exists S. split; [apply PS; lia|]. eapply LB with (i := k); eauto. lia. }
  destruct (Gen poly 0%nat ws term HF ltac:(simpl; auto) H) as (us' & HF' & HS' & HL').
  exists us'. split; auto. split; [rewrite HS', HS; reflexivity|]. rewrite HL', HL. reflexivity.
Qed.

Lemma compose_loop_rel arg us : F2i Gt 1 arg us -> forall e p out vs v c,
  (1 <= p)%nat -> (p + length e <= D + 1)%nat ->
  F2i G 0 out vs -> (length out <= D + 1)%nat -> ((arg = [] /\ length out = 1%nat) \/ arg <> [] /\ (p <= length out)%nat) ->
  Forall (fun c => exists E, WE E /\ wfs E c) e -> ew_from S s p e (Rsum us) v ->
  foldM (fun out '(p, coefficient) => term <- compose_term A p coefficient (zero_c :: arg) ;; eadd A out term) out (enumerate_from p e) = Ok c ->
  exists ws, F2i G 0 c ws /\ Rsum ws = Rsum vs + v /\ (length out <= length c <= D + 1)%nat.
Proof.
  intros Ha. induction e as [|e0 e IH]; intros p out vs v c Hp HL Ho HoD Hlen HW Hv H; cbn [enumerate_from foldM] in H.
  - injection H as <-. simpl in Hv. subst v. exists vs. split; auto. split; [ring|auto].
  - apply bind_ok in H. destruct H as (out' & H1 & H). apply bind_ok in H1. destruct H1 as (term & Ht & H1).
    simpl in Hv. destruct Hv as (E & w & u & HE & Wc & Hw & Hu & ->). simpl in HL.
    inversion HW as [|? ? (E' & HWE & WE') HW']; subst.
    assert (E' = E) as -> by (rewrite <- (wfs_ishape _ _ Wc), (wfs_ishape _ _ WE'); auto).
    destruct (compose_term_rel p E e0 w arg us term ltac:(lia) HWE HE Wc Hw Ha Ht) as (ws & HF & HS & HLt).
    unfold eadd in H1. apply bind_ok in H1. destruct H1 as (t & Ht1 & H1).
    destruct (add_zpad p out 0 term vs ws t Ho HF) with (2 := Ht1) as (us1 & HF1 & HS1 & HL1).
    { intros k Hk. simpl in Hk. destruct Hlen as [[-> Hl]|[Hn Hl]]; [|lia]. cbn [length] in HLt. lia. }
    destruct (enclose_rel S P P' PF X z s Hs tr Htr _ _ _ _ HF1 H1) as (us2 & HF2 & HS2 & HL2 & _).
    change (max_degree A) with D in HL2.
    destruct (IH (Datatypes.S p) out' us2 u c) as (ws3 & HF3 & HS3 & HL3); auto; try lia.
    { destruct Hlen as [[-> Hl]|[Hn Hl]]; [left|right]; split; auto.
      - rewrite HL2, HL1, HLt. cbn [length]. lia.
      - rewrite HL2, HL1, HLt. apply length_nonnil in Hn. nia. }
    exists ws3. split; auto. split; [rewrite HS3, HS2, HS1, HS; ring|lia].
Qed.

Lemma compose_rel a0 arg us e v c : F2i Gt 1 arg us -> (length e <= D + 1)%nat -> Forall (fun c => exists E, WE E /\ wfs E c) e ->
  (forall c0 r, e = c0 :: r -> exists E, wfs E c0 /\ P 0 E) ->
  ew_from S s 0 e (Rsum us) v ->
  compose_enclosures A e (a0 :: arg) = Ok c ->
  exists ws, F2i G 0 c ws /\ Rsum ws = v /\ (1 <= length c <= D + 1)%nat.
Proof.
  intros Ha HL HWE HE0 Hv H. unfold compose_enclosures in H. destruct e as [|e0 e]; [discriminate|].
  cbn [skipn] in H. unfold enumerate in H. cbn [enumerate_from foldM] in H.
  apply bind_ok in H. destruct H as (out & H1 & H). simpl in H1.
  simpl in Hv. destruct Hv as (E & w & u & HE & Wc & Hw & Hu & ->).
  destruct (HE0 e0 e eq_refl) as (E' & Wc' & HP0).
  assert (E' = E) as -> by (rewrite <- (wfs_ishape _ _ Wc), (wfs_ishape _ _ Wc'); auto).
  assert (G0 : G 0 e0 w).
  { exists E. split; auto. split; [rewrite app_nil_r; auto|]. exists (fun _ => w). split.
    - intros J HJ. apply valid_nil in HJ. subst J. rewrite app_nil_r. auto.
    - unfold term_value. simpl. ring. }
  unfold eadd in H1. simpl in H1. apply bind_ok in H1. destruct H1 as (t & Ht & H1).
  apply bind_ok in Ht. destruct Ht as (t0 & Ht0 & Ht). injection Ht as <-.
  pose proof (G_zero_add S P P' PF X z s Hs _ _ _ _ G0 Ht0) as Gt0.
  assert (HF0 : F2i G 0 [t0] [w]) by (constructor; [exact Gt0|constructor]).
  destruct (enclose_rel S P P' PF X z s Hs tr Htr _ _ _ _ HF0 H1) as (us2 & HF2 & HS2 & HL2 & _).
  change (max_degree A) with D in HL2. cbn [length] in HL2, HL. rewrite Nat.min_l in HL2 by lia.
  inversion HWE as [|? ? _ HWE']; subst.
  destruct (compose_loop_rel arg us Ha e 1%nat out us2 u c) as (ws & HF & HS & HLc); auto; try lia.
  { destruct arg; [left|right]; split; auto; try lia; congruence. }
  exists ws. split; auto. split; [rewrite HS, HS2; simpl; ring|lia].
Qed.
End Compose.
