(** Every pushforward function preserves the relation between a variable's
    enclosure and its value. *)
From Coq Require Import Reals Lra Psatz.
From Verif Require Import Base Tensor IntervalArith Polynomials Enclosure TensorLemmas Spec IntervalProofs PowerProofs PolyProofs Graded
  EnclosureOps EnclosureProofs BilinearProofs ComposeProofs PropEnclosure PropDegree JaxBound JaxSpec JaxLemmas JaxIndex JaxGather JaxPush JaxDot JaxSize.
Open Scope R_scope.

(** ** Partial elementwise functions *)
Lemma flat_map_nth {A B} (g : A -> list B) L l : (forall x, In x l -> length (g x) = L) -> forall i k x, (k < L)%nat -> nth_error l i = Some x ->
  nth_error (flat_map g l) (i * L + k) = nth_error (g x) k.
Proof.
  induction l as [|y l IH]; intros HL i k x Hk Hi; [destruct i; discriminate|]. simpl. destruct i as [|i]; simpl in Hi.
  - injection Hi as <-. simpl. rewrite nth_error_app1; auto. rewrite HL by (left; auto). auto.
  - rewrite nth_error_app2; rewrite HL by (left; auto); [|simpl; lia].
    replace (S i * L + k - L)%nat with (i * L + k)%nat by (simpl; lia). apply IH; auto. intros; apply HL; right; auto.
Qed.
Lemma all_idx_length sh : length (all_idx sh) = prod sh.
Proof.
  induction sh as [|n sh IH]; [reflexivity|]. change (prod (n :: sh)) with (n * prod sh)%nat. cbn [all_idx]. rewrite <- IH.
  rewrite <- (seq_length n 0) at 2. generalize (seq 0 n). induction l as [|i l IHl]; simpl; auto. rewrite app_length, map_length, IHl. auto.
Qed.
Lemma all_idx_nth sh : forall I, valid sh I -> nth_error (all_idx sh) (ravel sh I) = Some I.
Proof.
  induction sh as [|n sh IH]; intros I H; [apply valid_nil in H; subst; reflexivity|].
  apply valid_cons in H. destruct H as (i & J & -> & Hi & HJ). cbn [all_idx ravel]. fold (prod sh).
  rewrite (flat_map_nth _ (prod sh) _) with (x := i).
  - rewrite nth_error_map, IH; auto.
  - intros x _. rewrite map_length. apply all_idx_length.
  - apply ravel_lt; auto.
  - rewrite nth_error_nth' with (d := 0%nat) by (rewrite seq_length; auto). rewrite seq_nth; auto.
Qed.
Lemma mapM_nth' {A B} (f : A -> res B) l : forall l' i x, mapM f l = Ok l' -> nth_error l i = Some x -> exists y, nth_error l' i = Some y /\ f x = Ok y.
Proof.
  induction l; intros l' i x H Hi; cbn [mapM] in H; [destruct i; discriminate|]. ok_inv. subst.
  destruct i; simpl in *; [injection Hi as <-; eauto|eauto].
Qed.
Lemma tmapM_ok {T} {N : Num T} f (u v : tensor T) : tmapM f u = Ok v ->
  tshape v = tshape u /\ forall I, valid (tshape u) I -> f (tdata u I) = Ok (tdata v I).
Proof.
  intros H. unfold tmapM in H. ok_inv. subst. split; [reflexivity|]. intros I HI.
  destruct (mapM_nth' _ _ _ _ _ Hb (all_idx_nth _ _ HI)) as (y & Hy & Hf). simpl. rewrite (nth_error_nth _ _ _ Hy). auto.
Qed.
Lemma tmap2M_ok {T} {N : Num T} f (u w v : tensor T) : tmap2M f u w = Ok v ->
  bshape (tshape u) (tshape w) = Some (tshape v) /\ forall I, valid (tshape v) I -> f (bget u I) (bget w I) = Ok (tdata v I).
Proof.
  intros H. unfold tmap2M in H. destruct (bshape _ _) as [sh|] eqn:E; [|discriminate]. ok_inv. subst. split; [reflexivity|]. intros I HI.
  destruct (mapM_nth' _ _ _ _ _ Hb (all_idx_nth _ _ HI)) as (y & Hy & Hf). simpl. rewrite (nth_error_nth _ _ _ Hy). auto.
Qed.

Lemma nonempty_valid sh : nonempty sh = true -> exists s, valid sh s.
Proof.
  induction sh as [|n sh IH]; simpl; intros H; [exists []; constructor|]. apply andb_prop in H. destruct H as [Hn H].
  destruct (IH H) as [s Hs]. exists (0%nat :: s). constructor; auto. apply Nat.ltb_lt; auto.
Qed.

(** ** A variable's enclosure and its value *)
(** Coefficients with [n] axes (and those of the argument). *)
Definition ranked (X : list nat) (n : nat) (e : enclosure R) : Prop :=
  forall i c, nth_error e i = Some c -> indim c = (n + i * length X)%nat.
Definition holds (k : kind) (X : list nat) (z : list nat -> R) (v : tensor R) (e : enclosure R) : Prop :=
  match k with
  | KConst => exists t, e = [Arr t] /\ teq t v
  | KLin | KTwo | KFull => encloses (full (tshape v)) X (tshape v) e z (tdata v)
  | KRank => encloses (hcast (tshape v)) X (tshape v) e z (tdata v) /\ ranked X (length (tshape v)) e
  | KCast => encloses (hcast (tshape v)) X (tshape v) e z (tdata v)
  end.
Definition approx (k : kind) (X : list nat) (D : nat) (z : list nat -> R) (v : tensor R) (e : enclosure R) : Prop :=
  holds k X z v e /\ plain_below D e /\ (length e <= D + 1)%nat /\ ((1 <= D)%nat -> psize k e).

(** Coefficients of the variable's full shape. *)
Definition shaped (X S : list nat) (e : enclosure R) : Prop := forall i c, nth_error e i = Some c -> wfs (S ++ rep i X) c.
Lemma full_shaped X S e z f : (exists s, valid S s) -> encloses (full S) X S e z f -> shaped X S e.
Proof.
  intros [s Hs] [_ H] i c Hc. specialize (H s Hs). apply encl_from_F2i in H. destruct H as (us & HF & _).
  assert (exists u, nth_error us i = Some u) as [u Hu].
  { pose proof (F2i_length _ _ _ _ HF). destruct (nth_error us i) eqn:E; eauto. apply nth_error_None in E.
    assert (i < length e)%nat by (apply nth_error_Some; congruence). lia. }
  destruct (F2i_nth _ _ _ _ _ _ _ HF Hc Hu) as (p & -> & W & _). exact W.
Qed.
Lemma F2i_impl_nth {F} (G H : nat -> F -> R -> Prop) k a us : (forall i c u, nth_error a i = Some c -> G (k + i)%nat c u -> H (k + i)%nat c u) -> F2i G k a us -> F2i H k a us.
Proof.
  intros HI HF. induction HF as [|k c a u us Hg HF IH]; constructor.
  - specialize (HI 0%nat c u eq_refl). rewrite Nat.add_0_r in HI. auto.
  - apply IH. intros i c' u' Hi. specialize (HI (S i) c' u' Hi). replace (S k + i)%nat with (k + S i)%nat by lia. auto.
Qed.
Lemma shaped_full (P : nat -> list nat -> Prop) X S e z f : shaped X S e -> encloses P X S e z f -> encloses (full S) X S e z f.
Proof.
  intros HS [Hne H]. split; auto. intros s Hs. specialize (H s Hs). apply encl_from_F2i in H. destruct H as (us & HF & ->).
  apply encl_from_F2i. exists us. split; auto. eapply F2i_impl_nth; [|exact HF]. intros i c u Hc (p & Hp & W & B). exists S. split; [reflexivity|].
  pose proof (wfs_inj _ _ _ W (HS i c Hc)) as E. apply app_inv_tail in E. subst p. split; auto.
Qed.
Lemma add_coeffs_nth {T} {N : Num T} : forall (a b c : list (coef T)) i w, add_coeffs a b = Ok c -> nth_error c i = Some w ->
  (exists x y, nth_error a i = Some x /\ nth_error b i = Some y /\ iadd x y = Ok w) \/
  (nth_error a i = Some w /\ (length b <= i)%nat) \/ (nth_error b i = Some w /\ (length a <= i)%nat).
Proof.
  induction a as [|x a IH]; intros b c i w H Hw; simpl in H; [injection H as <-; right; right; split; auto; simpl; lia|].
  destruct b as [|y b]; [injection H as <-; right; left; split; auto; simpl; lia|]. ok_inv. subst c. destruct i as [|i]; simpl in Hw |- *.
  - injection Hw as <-. left. eauto.
  - destruct (IH _ _ _ _ Hb0 Hw) as [?|[[? ?]|[? ?]]]; auto; right; [left|right]; split; auto; lia.
Qed.
(** Adding an affine function to an operand with at least two coefficients of the
    shape of the result. *)
Lemma covered_sum X S sb a b c : bshape S sb = Some S -> bshape sb S = Some S -> shaped X S a -> shaped X sb b ->
  (2 <= length a)%nat -> (length b <= 2)%nat -> add_coeffs a b = Ok c \/ add_coeffs b a = Ok c -> shaped X S c.
Proof.
  intros B1 B2 Ha Hb La Lb H i w Hw.
  assert (BB : forall s t, bshape s t = Some S -> bshape (s ++ rep i X) (t ++ rep i X) = Some (S ++ rep i X)).
  { intros s t E. rewrite bshape_app, E, zipM_refl by auto. reflexivity. }
  destruct H as [H|H]; destruct (add_coeffs_nth _ _ _ _ _ H Hw) as [(x & y & Hx & Hy & HI)|[[Hx L]|[Hx L]]]; try exact (Ha i w Hx);
    try (exfalso; assert (i < length b)%nat by (apply nth_error_Some; congruence); lia).
  - exact (iadd_wfs _ _ _ _ _ _ (BB _ _ B1) (Ha i x Hx) (Hb i y Hy) HI).
  - exact (iadd_wfs _ _ _ _ _ _ (BB _ _ B2) (Hb i x Hx) (Ha i y Hy) HI).
Qed.

Lemma teq_refl {T} (a : tensor T) : teq a a.
Proof. split; auto. Qed.
Lemma teq_sym {T} (a b : tensor T) : teq a b -> teq b a.
Proof. intros [E H]. split; auto. rewrite <- E. intros. symmetry. auto. Qed.

Definition k_full (k : kind) : bool := match k with KLin | KTwo | KFull => true | _ => false end.

Section Fixed.
Variables (X : list nat) (tr : tensor R * tensor R) (D : nat) (z : list nat -> R).
Hypothesis Htr : in_region X tr z.
Let A := mkArith D tr.

Lemma holds_full k v e : is_cast k = false -> holds k X z v e -> encloses (full (tshape v)) X (tshape v) e z (tdata v).
Proof.
  destruct k; simpl; try discriminate; auto. intros _ (t & -> & E & H). apply const_encloses; auto. intros s Hs. symmetry. apply H. rewrite E; auto.
Qed.
Lemma holds_hcast k v e : holds k X z v e -> encloses (hcast (tshape v)) X (tshape v) e z (tdata v).
Proof.
  intros H. destruct k; try exact H; try exact (proj1 H); apply (encloses_mono _ _ _ _ _ _ _ (full_hcast _)); try exact H.
  apply (holds_full KConst); auto.
Qed.
Lemma holds_const k v t : teq t v -> holds k X z v [Arr t].
Proof.
  intros [E H].
  assert (F : encloses (full (tshape v)) X (tshape v) [Arr t] z (tdata v)) by (apply const_encloses; auto; intros; symmetry; apply H; rewrite E; auto).
  pose proof (encloses_mono _ _ _ _ _ _ _ (full_hcast _) F) as F'.
  destruct k; simpl; auto. { exists t. repeat split; auto. } split; auto.
  intros [|[|i]] c Hc; simpl in Hc; try discriminate. injection Hc as <-. simpl. unfold tndim. rewrite E. lia.
Qed.
Lemma holds_ext k v v' e : k <> KConst -> tshape v = tshape v' -> (forall s, valid (tshape v') s -> tdata v s = tdata v' s) -> holds k X z v e -> holds k X z v' e.
Proof.
  intros NK E H. destruct k; [congruence|..]; simpl; rewrite <- E in *; try (apply encloses_ext; auto; fail). intros [H1 H2]. split; auto. eapply encloses_ext; eauto.
Qed.
Lemma hcast_some_wfs S e f : (exists s, valid S s) -> encloses (hcast S) X S e z f -> forall i c, nth_error e i = Some c -> exists s, wfs s c.
Proof.
  intros [s Hs] [_ H] i c Hc. specialize (H s Hs). apply encl_from_F2i in H. destruct H as (us & HF & _).
  assert (exists u, nth_error us i = Some u) as [u Hu].
  { pose proof (F2i_length _ _ _ _ HF). destruct (nth_error us i) eqn:E; eauto. apply nth_error_None in E.
    assert (i < length e)%nat by (apply nth_error_Some; congruence). lia. }
  destruct (F2i_nth _ _ _ _ _ _ _ HF Hc Hu) as (p & _ & W & _). eauto.
Qed.
Lemma holds_arr k v t : (exists s, valid (tshape v) s) -> holds k X z v [Arr t] -> teq t v.
Proof.
  intros Hne H. apply holds_hcast in H. pose proof (hcast_wfs _ _ _ _ _ _ Hne H) as W. simpl in W. split; auto. rewrite W. intros s Hs.
  symmetry. exact (arr_value _ _ _ _ _ H s Hs).
Qed.
Lemma approx_const k v t : (two k = true -> D = 0%nat) -> teq t v -> approx k X D z v [Arr t].
Proof.
  intros H2 H. split; [apply holds_const; auto|]. split; [|split; [simpl; lia|intros HD; destruct k; simpl in *; eauto; try discriminate; specialize (H2 eq_refl); lia]]. intros [|[|i]] c _ Hc; simpl in Hc; try discriminate. injection Hc as <-. eauto.
Qed.

Lemma holds_psize k v e : two k = false -> holds k X z v e -> psize k e.
Proof. destruct k; simpl; try discriminate; intros _ H; try apply H. destruct H as (t & -> & _). eauto. Qed.
Lemma approx_psize k v e : (1 <= D)%nat -> approx k X D z v e -> psize k e.
Proof. intros HD (_ & _ & _ & H). auto. Qed.

(** The result of an operation, from an enclosure with known head. *)
Lemma mk_full v e f : encloses (full (tshape v)) X (tshape v) e z f -> (forall s, valid (tshape v) s -> f s = tdata v s) ->
  degree_le D e /\ plain_below D e -> approx KFull X D z v e.
Proof. intros H E [H1 H2]. split; [exact (encloses_ext _ _ _ _ _ _ _ E H)|]. split; auto. split; auto. intros _. exact (proj1 H). Qed.
Lemma mk_cast v e f : encloses (hcast (tshape v)) X (tshape v) e z f -> (forall s, valid (tshape v) s -> f s = tdata v s) ->
  degree_le D e /\ plain_below D e -> approx KCast X D z v e.
Proof. intros H E [H1 H2]. split; [exact (encloses_ext _ _ _ _ _ _ _ E H)|]. split; auto. split; auto. intros _. exact (proj1 H). Qed.
(** More is known about the number of coefficients. *)
Lemma approx_up k v e : k <> KConst -> is_cast k = false -> approx KFull X D z v e -> ((1 <= D)%nat -> psize k e) -> approx k X D z v e.
Proof. intros N1 N2 (H & P & L & _) HP. split; [destruct k; try congruence; try discriminate; exact H|]. auto. Qed.
Lemma approx_down k v e : is_cast k = false -> approx k X D z v e -> approx KFull X D z v e.
Proof. intros NK (H & P & L & _). pose proof (holds_full _ _ _ NK H) as F. split; [exact F|]. split; auto. split; auto. intros _. exact (proj1 F). Qed.

(** ** Sums *)
Lemma aligned_tail k v e S : compat (tshape v) S -> aligned k (tshape v) S = true -> holds k X z v e ->
  encloses (full_tail S) X S e z (fun s => tdata v (bidx (tshape v) s)).
Proof.
  intros C HA H. destruct k; simpl in HA; try discriminate.
  1: { destruct H as (t & -> & E & H). split; [discriminate|]. intros s Hs. simpl. exists (tdata v (bidx (tshape v) s)), 0. split; [|split; [reflexivity|ring]].
    exists (tshape v). split; [right; auto|]. split; [simpl; rewrite app_nil_r; auto|]. exists (fun _ => tdata v (bidx (tshape v) s)). split.
    + intros J HJ. apply valid_nil in HJ. subst J. rewrite app_nil_r. simpl. symmetry. apply H. rewrite E. eapply bidx_compat_valid; eauto.
    + unfold term_value. simpl. ring. }
  all: apply shape_eqb_eq in HA; simpl in H; subst S; apply (encloses_mono _ _ _ _ _ _ _ (full_full_tail _));
    eapply encloses_ext; [|exact H]; intros s Hs; simpl; rewrite bidx_valid; auto.
Qed.

(** Sums of operands of the same rank. *)
Lemma bshape_rank a b c : bshape a b = Some c -> length a = length b -> length c = length a.
Proof.
  intros H E. unfold bshape in H. rewrite <- E, Nat.max_id in H.
  assert (Z : forall l m r, zipM l m = Some r -> length r = length l).
  { induction l as [|x l IH]; intros [|y m] r Hr; simpl in Hr; try discriminate; [injection Hr as <-; auto|].
    destruct (bdim x y); [|discriminate]. destruct (zipM l m) eqn:Ez; [|discriminate]. injection Hr as <-. simpl. rewrite (IH _ _ Ez). auto. }
  apply Z in H. rewrite H. unfold padl. rewrite Nat.sub_diag. reflexivity.
Qed.
Lemma iadd_indim (a b c : coef R) n : indim a = n -> indim b = n -> iadd a b = Ok c -> indim c = n.
Proof.
  intros Ha Hb H.
  assert (K : forall u w t : tensor R, tndim u = n -> tndim w = n -> tadd u w = Ok t -> tndim t = n).
  { intros u w t Hu Hw Ht. apply tmap2_ok in Ht. destruct Ht as [Ht _]. unfold tndim in *. rewrite (bshape_rank _ _ _ Ht); congruence. }
  destruct a, b; cbn [indim] in Ha, Hb; cbn in H; ok_inv; subst c; cbn [indim]; eauto.
Qed.
Lemma ineg_indim (a : coef R) : (exists s, wfs s a) -> indim (ineg a) = indim a.
Proof. intros [s W]. destruct a; simpl in *; auto. unfold tndim. simpl. destruct W. congruence. Qed.
Lemma ranked_of_full S e f : (exists s, valid S s) -> encloses (full S) X S e z f -> ranked X (length S) e.
Proof. intros Hne H i c Hc. pose proof (full_shaped _ _ _ _ _ Hne H i c Hc) as W. rewrite (wfs_indim _ _ W), app_length, rep_length. lia. Qed.
(** The coefficients of degree >= 1 have [n] axes (besides those of the argument). *)
Definition ranked_tail (n : nat) (e : enclosure R) : Prop := forall i c, (1 <= i)%nat -> nth_error e i = Some c -> indim c = (n + i * length X)%nat.
Lemma same_rank_tail k v e so : (exists s, valid (tshape v) s) -> same_rank k (tshape v) so = true -> holds k X z v e -> ranked_tail (length so) e.
Proof.
  intros Hne HR H i c Hi Hc. destruct k; simpl in HR; try discriminate.
  1: { destruct H as (t & -> & _). destruct i as [|[|]]; try discriminate. lia. }
  all: apply Nat.eqb_eq in HR; rewrite <- HR; first [exact (ranked_of_full _ _ _ Hne H i c Hc)|exact (proj2 H i c Hc)].
Qed.
Lemma ranked_sum n a b c : ranked_tail n a -> ranked_tail n b -> add_coeffs a b = Ok c -> ranked_tail n c.
Proof.
  intros Ha Hb H i w Hi Hw. destruct (add_coeffs_nth _ _ _ _ _ H Hw) as [(x & y & Hx & Hy & HI)|[[Hx L]|[Hx L]]]; eauto.
  exact (iadd_indim _ _ _ _ (Ha i x Hi Hx) (Hb i y Hi Hy) HI).
Qed.
Lemma mk_rank v e f : (exists s, valid (tshape v) s) -> encloses (hcast (tshape v)) X (tshape v) e z f -> (forall s, valid (tshape v) s -> f s = tdata v s) ->
  ranked_tail (length (tshape v)) e -> degree_le D e /\ plain_below D e -> approx KRank X D z v e.
Proof.
  intros Hne H E HR [H1 H2]. split; [split; [exact (encloses_ext _ _ _ _ _ _ _ E H)|]|split; auto; split; auto; intros _; exact (proj1 H)].
  intros [|i] c Hc; [|apply HR; auto; lia]. destruct e as [|c0 r]; [discriminate|]. injection Hc as <-.
  rewrite (wfs_indim _ _ (hcast_wfs _ _ _ _ _ _ Hne H)). lia.
Qed.

Lemma sum_ok op oph a b v c ka kb ea eb :
  (op = eadd A /\ oph = Rplus \/ op = esubtract A /\ oph = Rminus) ->
  (exists s, valid (tshape a) s) -> (exists s, valid (tshape b) s) -> (exists s, valid (tshape v) s) ->
  tmap2 oph a b = Ok v -> is_const ka && is_const kb = false -> approx ka X D z a ea -> approx kb X D z b eb -> op ea eb = Ok c ->
  approx (sum_kind D ka (tshape a) kb (tshape b) (tshape v)) X D z v c.
Proof.
  intros Hop Na Nb NS Hv NC (Ha & Pa & La & Za) (Hb & Pb & Lb & Zb) H.
  destruct (tmap2_ok _ _ _ _ Hv) as (HS & Ev). set (S := tshape v) in *.
  assert (Ev' : forall s, valid S s -> oph (tdata a (bidx (tshape a) s)) (tdata b (bidx (tshape b) s)) = tdata v s) by (intros s _; symmetry; apply Ev).
  destruct (bshape_spec _ _ _ HS) as [Ca Cb].
  pose proof (holds_hcast _ _ _ Ha) as Ha'. pose proof (holds_hcast _ _ _ Hb) as Hb'.
  assert (PD : degree_le D c /\ plain_below D c).
  { destruct Hop as [[-> ->]|[-> ->]]; [exact (eadd_plain A _ _ _ H Pa Pb)|exact (esub_plain A _ _ _ H Pa Pb)]. }
  assert (HC : encloses (hcast S) X S c z (fun s => oph (tdata a (bidx (tshape a) s)) (tdata b (bidx (tshape b) s)))).
  { destruct Hop as [[-> ->]|[-> ->]].
    - exact (add_hcast X tr D z Htr (tshape a) (tshape b) S HS Na Nb ea eb c _ _ Ha' Hb' La Lb H).
    - unfold esubtract in H. apply bind_ok in H. destruct H as (nb & Hnb & H).
      pose proof (neg_hcast X tr D z Htr (tshape b) Nb eb nb _ Hb' Lb Hnb) as HN.
      assert (Ln : (length nb <= D + 1)%nat). { pose proof (eneg_plain A _ _ Hnb Pb) as [L _]. exact L. }
      exact (add_hcast X tr D z Htr (tshape a) (tshape b) S HS Na Nb ea nb c _ _ Ha' HN La Ln H). }
  unfold sum_kind. destruct (D =? 0)%nat eqn:ED.
  { apply Nat.eqb_eq in ED. simpl. eapply mk_full; [|exact Ev'|exact PD]. fold S.
    apply hcast_single; auto. destruct PD as [L _]. unfold degree_le in L. lia. }
  apply Nat.eqb_neq in ED. assert (HD : (1 <= D)%nat) by lia. specialize (Za HD). specialize (Zb HD).
  (* the second operand, negated if this is a subtraction *)
  assert (exists nb, psize kb nb /\ (k_full kb = true -> shaped X (tshape b) nb) /\ (same_rank kb (tshape b) S = true -> ranked_tail (length S) nb) /\ add_coeffs ea nb = Ok c) as (nb & Zn & Wn & Rn & HA).
  { assert (WB : k_full kb = true -> shaped X (tshape b) eb).
    { intros K. apply (full_shaped X _ _ z (tdata b) Nb). destruct kb; try discriminate; exact Hb. }
    destruct Hop as [[-> _]|[-> _]].
    - exists eb. split; auto. split; auto. split; [intros K; exact (same_rank_tail kb b eb S Nb K Hb)|]. exact (eadd_untruncated A _ _ _ La Lb H).
    - unfold esubtract in H. apply bind_ok in H. destruct H as (nb & Hnb & H).
      unfold enegative, truncate_if_necessary in Hnb. destruct (enclose_shape _ _ _ _ Hnb) as (_ & _ & E). specialize (E ltac:(rewrite map_length; auto)). subst nb.
      exists (map ineg eb). split; [apply neg_psize; auto|]. split; [|split].
      + intros K i x Hx. rewrite nth_error_map in Hx. destruct (nth_error eb i) as [y|] eqn:Ey; [|discriminate]. injection Hx as <-. apply ineg_wfs. exact (WB K i y Ey).
      + intros K i x Hi Hx. rewrite nth_error_map in Hx. destruct (nth_error eb i) as [y|] eqn:Ey; [|discriminate]. injection Hx as <-.
        rewrite ineg_indim; [exact (same_rank_tail kb b eb S Nb K Hb i y Hi Ey)|]. exact (hcast_some_wfs _ _ _ Nb Hb' i y Ey).
      + apply (eadd_untruncated A); auto. rewrite map_length. auto. }
  destruct (add_psize A HD ka kb ea nb c Za Zn NC HA) as [PS _].
  set (r := if (is_const ka || is_lin ka) && (is_const kb || is_lin kb) then KLin else if two ka || two kb then KTwo else KFull) in *.
  assert (R1 : r <> KConst /\ is_cast r = false) by (unfold r; repeat match goal with |- context [if ?x then _ else _] => destruct x end; (split; [discriminate|reflexivity])).
  destruct (aligned ka (tshape a) S && aligned kb (tshape b) S) eqn:EA; [|destruct (covers ka (tshape a) kb S) eqn:C1; [|destruct (covers kb (tshape b) ka S) eqn:C2]];
    cbn [orb].
  4: { destruct (same_rank ka (tshape a) S && same_rank kb (tshape b) S) eqn:ER; [|eapply mk_cast; [exact HC|exact Ev'|exact PD]].
       apply andb_prop in ER. destruct ER as [ER1 ER2]. eapply mk_rank; [exact NS|exact HC|exact Ev'| |exact PD].
       exact (ranked_sum _ _ _ _ (same_rank_tail ka a ea S Na ER1 Ha) (Rn ER2) HA). }
  all: apply approx_up; try apply R1; auto; (eapply mk_full; [|exact Ev'|exact PD]); fold S.
  - apply andb_prop in EA. destruct EA as [EA EB].
    pose proof (aligned_tail _ _ _ _ Ca EA Ha) as Ta. pose proof (aligned_tail _ _ _ _ Cb EB Hb) as Tb.
    destruct c as [|c0 r0]; [destruct HC; congruence|].
    apply full_of_tail; [exact (hcast_wfs _ _ _ _ _ _ NS HC)|].
    destruct Hop as [[-> ->]|[-> ->]].
    + exact (add_sound S _ _ (pf_full_tail S) X z tr D Htr _ _ _ _ _ Ta Tb H).
    + exact (sub_sound S _ _ (pf_full_tail S) X z tr D Htr _ _ _ _ _ Ta Tb H).
  - unfold covers in C1. apply andb_prop in C1. destruct C1 as [C1 C3]. apply andb_prop in C1. destruct C1 as [C1 C2]. apply shape_eqb_eq in C2.
    refine (shaped_full _ _ _ _ _ _ (covered_sum X S (tshape b) ea nb c _ _ _ _ (psize_two _ _ C1 Za) _ (or_introl HA)) HC).
    + rewrite <- C2 at 1. exact HS.
    + apply bshape_compat. exact Cb.
    + rewrite <- C2. apply (full_shaped X _ _ z (tdata a) Na). destruct ka; try discriminate; exact Ha.
    + apply Wn. destruct kb; try discriminate; reflexivity.
    + destruct kb; try discriminate. destruct Zn as (t & u & ->). simpl. lia.
  - unfold covers in C2. apply andb_prop in C2. destruct C2 as [C2 C3]. apply andb_prop in C2. destruct C2 as [C2 C4]. apply shape_eqb_eq in C4.
    refine (shaped_full _ _ _ _ _ _ (covered_sum X S (tshape a) nb ea c _ _ _ _ (psize_two _ _ C2 Zn) _ (or_intror HA)) HC).
    + apply bshape_compat_r. exact Ca.
    + apply bshape_compat. exact Ca.
    + rewrite <- C4. apply Wn. destruct kb; try discriminate; reflexivity.
    + apply (full_shaped X _ _ z (tdata a) Na). destruct ka; try discriminate; exact Ha.
    + destruct ka; try discriminate. destruct Za as (t & u & ->). simpl. lia.
Qed.

(** ** Products, negation, powers *)
Lemma mul_ok a b v c ka kb ea eb :
  (exists s, valid (tshape a) s) -> (exists s, valid (tshape b) s) -> (exists s, valid (tshape v) s) ->
  tmul a b = Ok v -> is_const ka && is_const kb = false -> approx ka X D z a ea -> approx kb X D z b eb -> emultiply A ea eb = Ok c ->
  approx (mul_kind ka (tshape a) kb (tshape b) (tshape v)) X D z v c.
Proof.
  intros Na Nb NS Hv NC (Ha & Pa & La & Za) (Hb & Pb & Lb & Zb) H. destruct (tmap2_ok _ _ _ _ Hv) as (HS & Ev).
  assert (Ev' : forall s, valid (tshape v) s -> tdata a (bidx (tshape a) s) * tdata b (bidx (tshape b) s) = tdata v s) by (intros s _; symmetry; apply Ev).
  pose proof (emul_plain A _ _ _ H Pa Pb) as PD.
  assert (PS : (1 <= D)%nat -> psize (prod_kind ka kb) c) by (intros HD; exact (mul_psize A HD ka kb ea eb c (Za HD) (Zb HD) NC H)).
  unfold mul_kind. destruct (is_cast ka || is_cast kb) eqn:E; cbn [andb].
  - destruct (negb (is_cast ka) && shape_eqb (tshape a) (tshape v)) eqn:E1; cbn [orb].
    { apply andb_prop in E1. destruct E1 as [E1 E2]. apply shape_eqb_eq in E2. apply negb_true_iff in E1. eapply mk_full; [|exact Ev'|exact PD].
      exact (mul_full_l X tr D z Htr _ _ _ HS Na NS ea eb c _ _ E2 (holds_full _ _ _ E1 Ha) (holds_hcast _ _ _ Hb) H). }
    destruct (negb (is_cast kb) && shape_eqb (tshape b) (tshape v)) eqn:E2.
    { apply andb_prop in E2. destruct E2 as [E2 E3]. apply shape_eqb_eq in E3. apply negb_true_iff in E2. eapply mk_full; [|exact Ev'|exact PD].
      exact (mul_full_r X tr D z Htr _ _ _ HS Nb NS ea eb c _ _ E3 (holds_hcast _ _ _ Ha) (holds_full _ _ _ E2 Hb) H). }
    unfold prod_kind. rewrite E. eapply mk_cast; [|exact Ev'|exact PD].
    exact (mul_hcast X tr D z Htr _ _ _ HS NS ea eb c _ _ (holds_hcast _ _ _ Ha) (holds_hcast _ _ _ Hb) La Lb H).
  - assert (R1 : prod_kind ka kb <> KConst /\ is_cast (prod_kind ka kb) = false).
    { unfold prod_kind. rewrite E. repeat match goal with |- context [if ?x then _ else _] => destruct x end; (split; [discriminate|reflexivity]). }
    apply orb_false_elim in E. destruct E as [E1 E2]. apply approx_up; try apply R1; auto. eapply mk_full; [|exact Ev'|exact PD].
    refine (mul_full X tr D z Htr _ _ _ HS NS ea eb c _ _ (holds_full _ _ _ _ Ha) (holds_full _ _ _ _ Hb) H).
    + exact E1.
    + exact E2.
Qed.

Lemma neg_ok a c ka ea : ka <> KConst -> (exists s, valid (tshape a) s) -> approx ka X D z a ea -> enegative A ea = Ok c -> approx ka X D z (tneg a) c.
Proof.
  intros NK Na (Ha & Pa & La & Za) H. pose proof (eneg_plain A _ _ H Pa) as PD.
  assert (PS : (1 <= D)%nat -> psize ka c).
  { intros HD. unfold enegative, truncate_if_necessary in H. destruct (enclose_shape _ _ _ _ H) as (_ & _ & E). rewrite E by (rewrite map_length; auto). apply neg_psize; auto. }
  destruct ka; [congruence| | | | |].
  5: { eapply mk_cast; [|intros; reflexivity|exact PD]. exact (neg_hcast X tr D z Htr _ Na _ _ _ Ha La H). }
  4: { destruct Ha as [Ha HR]. eapply mk_rank; [exact Na| |intros; reflexivity| |exact PD]; [exact (neg_hcast X tr D z Htr _ Na _ _ _ Ha La H)|].
       unfold enegative, truncate_if_necessary in H. destruct (enclose_shape _ _ _ _ H) as (_ & _ & E). specialize (E ltac:(rewrite map_length; auto)). subst c.
       intros i x Hi Hx. rewrite nth_error_map in Hx. destruct (nth_error ea i) as [y|] eqn:Ey; [|discriminate]. injection Hx as <-.
       rewrite ineg_indim; [exact (HR i y Ey)|]. exact (hcast_some_wfs _ _ _ Na Ha i y Ey). }
  all: apply approx_up; try discriminate; auto; eapply mk_full; [|intros; reflexivity|exact PD]; exact (neg_sound _ _ _ (pf_full _) X z tr D Htr _ _ _ Ha H).
Qed.

Definition pow_kind (ka : kind) (n : nat) : kind := if two ka && negb (n =? 0)%nat then KTwo else KFull.
Lemma ipow_ok a c ka ea n : (exists s, valid (tshape a) s) -> approx ka X D z a ea -> epower_nat A ea n = Ok c ->
  approx (pow_kind ka n) X D z (tmap (fun x => npow x n) a) c.
Proof.
  intros Na (Ha & Pa & La & Za) H. pose proof (epower_plain A _ _ _ H Pa) as PD.
  apply approx_up; try (unfold pow_kind; destruct (_ && _); [discriminate|discriminate]); try (unfold pow_kind; destruct (_ && _); reflexivity).
  - apply mk_full with (f := fun s => tdata a s ^ n); [|intros s _; symmetry; apply npow_pow|exact PD].
    exact (pow_full X tr D z Htr _ Na _ _ _ _ (holds_hcast _ _ _ Ha) H).
  - intros HD. exact (pow_psize A HD ka ea n c (Za HD) H).
Qed.

(** ** Elementwise functions *)
Lemma single_full S c f : (exists s, valid S s) -> encloses (full S) X S [c] z f -> wfs S c /\ forall s, valid S s -> inat c s (f s).
Proof.
  intros Hne He.
  assert (G : forall s, valid S s -> wfs S c /\ inat c s (f s)).
  { intros s Hs. destruct He as [_ He]. specialize (He s Hs). simpl in He. destruct He as (u & w & (p & Hp & W & B & HB & ->) & -> & ->).
    unfold full in Hp. subst p. simpl in W. rewrite app_nil_r in W. split; auto. specialize (HB [] ltac:(constructor)).
    rewrite app_nil_r, (bidx_valid _ _ Hs) in HB. unfold term_value. simpl. rewrite Rmult_1_r, Rplus_0_r. exact HB. }
  destruct Hne as [s0 Hs0]. split; [apply (G s0 Hs0)|]. intros s Hs. apply (G s Hs).
Qed.
End Fixed.

(** The value over the trust region has the shape of the constant coefficient. *)
Lemma eval_loop_head X z S zc s : valid S s -> wfs X zc -> (forall J, valid X J -> inat zc J (z J)) -> forall cs i zi running us r,
  F2i (contributes (bcast S) X z s) i cs us -> (i = 0%nat -> zi = one_c) -> wfs S running ->
  eval_poly_loop iadd inner_product (fun x k => iouter_power x k 0) zc i zi running cs = Ok r -> wfs S r.
Proof.
  intros Hs Wz Hz. induction cs as [|c cs IH]; intros i zi running us r HF Hi Hrun H; cbn [eval_poly_loop] in H; [injection H as <-; auto|].
  apply bind_ok in H. destruct H as (zi' & Hz' & H). apply bind_ok in H. destruct H as (term & Ht & H). apply bind_ok in H. destruct H as (run' & Hr & H).
  inversion HF as [|? ? ? u us' Hu Hus]; subst.
  assert (wfs (rep i X) zi' /\ forall K, valid (rep i X) K -> inat zi' K (zpow (length X) z i K)) as [Wz' Iz].
  { apply (point_power _ _ zc); auto. destruct i; simpl in Hz'; auto. injection Hz' as <-. rewrite (Hi eq_refl). reflexivity. }
  assert (contributes (bcast S) X z s 0 term u) as (p & Hp & W & _).
  { refine (G_contract S _ _ (pf_bcast S) X z s Hs 0 i c u zi' term Hu Wz' Iz _). rewrite <- rep_length, <- (wfs_indim _ _ Wz'). exact Ht. }
  simpl in W. rewrite app_nil_r in W. unfold bcast in Hp.
  refine (IH (Datatypes.S i) zi' run' us' r Hus _ (iadd_wfs _ _ _ _ _ _ (bshape_compat_r _ _ Hp) Hrun W Hr) H). discriminate.
Qed.
Lemma enclose0_head X tr z S c0 r f d0 : (exists s, valid S s) -> in_region X tr z -> encloses (hcast S) X S (c0 :: r) z f ->
  enclose_enclosure (c0 :: r) tr 0 = Ok d0 -> exists c, d0 = [c] /\ wfs S c.
Proof.
  intros Hne Htr He H. pose proof (hcast_wfs _ _ _ _ _ _ Hne He) as W0. unfold enclose_enclosure in H. destruct (Nat.leb_spec (length (c0 :: r)) (0 + 1)) as [L|L].
  - destruct r; simpl in L; [|lia]. injection H as <-. eauto.
  - apply bind_ok in H. destruct H as (c & Hc & H). injection H as <-. exists c. split; [reflexivity|].
    destruct Hne as [s Hs]. pose proof (proj2 (encloses_mono _ _ _ _ _ _ _ (hcast_bcast S) He) s Hs) as K. apply encl_from_F2i in K. destruct K as (us & HF & _).
    inversion HF as [|? ? ? u us' Hu Hus]; subst. destruct (region_coef X z tr Htr) as [Wz Hz].
    cbn [skipn] in Hc. unfold eval_taylor_enclosure, eval_polynomial in Hc. cbn [eval_poly_loop] in Hc. cbn [Nat.ltb Nat.leb bind] in Hc.
    apply bind_ok in Hc. destruct Hc as (term & Ht & Hc). apply bind_ok in Hc. destruct Hc as (run & Hr & Hc).
    refine (eval_loop_head X z S _ s Hs Wz Hz _ 1 _ run us' c Hus _ _ Hc); [discriminate|].
    assert (contributes (full S) X z s 0 c0 u) as Hu'.
    { destruct Hu as (p & Hp & W & B). exists S. split; [reflexivity|]. simpl in W. rewrite app_nil_r in W. pose proof (wfs_inj _ _ _ W W0). subst p. split; [simpl; rewrite app_nil_r; auto|exact B]. }
    assert (contributes (full S) X z s 0 term u) as Hu2.
    { refine (G_contract S _ _ (pf_full S) X z s Hs 0 0 c0 u one_c term Hu' _ _ Ht); [reflexivity|]. intros K HK. apply valid_nil in HK. subst K. reflexivity. }
    destruct (G_zero_add S _ _ (pf_full S) X z s Hs 0 term u run Hu2 Hr) as (p & -> & W & _). simpl in W. rewrite app_nil_r in W. exact W.
Qed.

Definition region_ok (v : tensor R) (e : enclosure R) (r : option (tensor R * tensor R)) : Prop :=
  match r with
  | None => True
  | Some (l, h) => tshape l = tshape v /\ tshape h = tshape v /\
      (forall s, valid (tshape v) s -> tdata l s <= tdata v s <= tdata h s) /\
      (forall c0 rest s, e = c0 :: rest -> valid (tshape v) s -> tdata l s <= tdata (left_end c0) s <= tdata h s)
  end.

Lemma valid_valid_if Q gen sigma : valid_gen gen sigma -> valid_gen_if Q gen sigma.
Proof. intros H S x0 l h d e E1 E2 E3 HB HE. destruct (H S x0 l h d e E1 E2 E3 HB HE) as (A & B & C & G). split; auto. Qed.
Lemma valid_prim_gens Q sc gs p : valid_generators sc gs -> prim_gens_ok Q sc gs p.
Proof.
  intros (H1 & H2 & H3 & H4 & H5). destruct p; simpl; auto.
  - split; auto. apply valid_valid_if, H2. reflexivity.
  - split; auto. intros q _. apply valid_valid_if, H3.
  - intros. apply valid_valid_if; auto.
  - apply valid_valid_if; auto.
Qed.

Section Elem.
Variables (X : list nat) (tr : tensor R * tensor R) (D : nat) (z : list nat -> R).
Hypothesis Htr : in_region X tr z.
Hypothesis Htr0 : in_region X tr (fun _ => 0).
Let A := mkArith D tr.
Variable Q : nat -> R -> R -> Prop.
Hypothesis HQ : Q = always \/ Q = at_centre /\ z = (fun _ => 0).

Lemma elem_ok gen sigma k u v e c atr : valid_gen_if Q gen sigma -> is_cast k = false \/ X = [] -> (exists s, valid (tshape u) s) ->
  tshape v = tshape u -> (forall s, valid (tshape u) s -> sigma (tdata u s) = Ok (tdata v s)) ->
  approx k X D z u e -> region_ok u e atr -> elementwise_fun A gen e (tr_coef atr) = Ok c -> approx KFull X D z v c.
Proof.
  intros HG NK Hne Sv Ev (He' & Pe & Le & _) HR H. pose proof (holds_hcast X z k u e He') as He. set (S := tshape u) in *.
  assert (HF : encloses (full S) X S e z (tdata u) \/ X = []) by (destruct NK as [NK|NK]; [left; exact (holds_full X z k u e NK He')|auto]). clear He' NK.
  unfold elementwise_fun in H. apply bind_ok in H. destruct H as (tr0 & Htr0' & H). cbv zeta in H.
  set (trp := match tr0 with Arr t => (t, t) | Ivl l h => (l, h) end) in *.
  destruct e as [|c0 r]; [destruct He; congruence|]. cbn [get_nth nth_error bind] in H.
  assert (W0 : wfs S c0) by (exact (hcast_wfs X S c0 r z _ Hne He)).
  assert (HD : (exists t, c0 = Arr t) \/ D = 0%nat /\ exists l h, c0 = Ivl l h /\ r = []).
  { destruct c0 as [t|l h]; [left; eauto|]. destruct (Nat.eq_dec D 0) as [->|ND].
    - right. split; auto. exists l, h. split; auto. destruct r; auto. simpl in Le. lia.
    - exfalso. destruct (Pe 0%nat (Ivl l h)) as [t Ht]; [lia|reflexivity|discriminate]. }
  assert (HT : tshape (fst trp) = S /\ tshape (snd trp) = S /\
      (forall s, valid S s -> tdata (fst trp) s <= tdata u s <= tdata (snd trp) s) /\
      (forall s, valid S s -> tdata (fst trp) s <= tdata (left_end c0) s <= tdata (snd trp) s)).
  { destruct atr as [[l h]|]; cbn [tr_coef] in Htr0'.
    - injection Htr0' as <-. subst trp. simpl. destruct HR as (H1 & H2 & H3 & H4). split; [|split; [|split]]; auto. intros s Hs. exact (H4 c0 r s eq_refl Hs).
    - apply bind_ok in Htr0'. destruct Htr0' as (d0 & Hd0 & Hg). apply get_nth_ok in Hg. cbn [trust_region A] in Hd0.
      destruct HD as [[t ->]|(-> & l & h & -> & ->)].
      + destruct (enclose0_head X tr z S (Arr t) r _ d0 Hne Htr He Hd0) as (x & -> & Wx). simpl in Hg. injection Hg as ->.
        assert (up : forall z' f', in_region X tr z' -> encloses (hcast S) X S (Arr t :: r) z' f' -> encloses (full S) X S [tr0] z' f').
        { intros z' f' Hr' He'. apply hcast_single; [simpl; lia|]. apply hcast_of_bcast; auto.
          exact (encloses_enclose _ _ _ _ _ _ _ _ _ _ (pf_bcast S) Hr' (encloses_mono _ _ _ _ _ _ _ (hcast_bcast S) He') Hd0). }
        pose proof (up _ _ Htr He) as H1.
        assert (He0 : encloses (hcast S) X S (Arr t :: r) (fun _ => 0) (tdata t)).
        { eapply encloses_ext; [|refine (encl_at0 (hcast S) X S t r z (tdata u) _ He); intros p [Hp _]; exact Hp].
          intros s Hs. simpl in W0 |- *. rewrite W0, bidx_valid; auto. }
        pose proof (up _ _ Htr0 He0) as H2.
        destruct (single_full X z S tr0 _ Hne H1) as [W K1]. destruct (single_full X _ S tr0 _ Hne H2) as [_ K2].
        subst trp. destruct tr0 as [y|l h]; simpl in *.
        * split; [|split; [|split]]; auto; intros s Hs; [specialize (K1 s Hs)|specialize (K2 s Hs)]; lra.
        * destruct W. split; [|split; [|split]]; auto.
      + injection Hd0 as <-. injection Hg as <-. subst trp. simpl in W0 |- *. destruct W0 as [W1 W2].
        pose proof (hcast_single X S [Ivl l h] z (tdata u) ltac:(simpl; lia) He) as He1.
        destruct (single_full X z S (Ivl l h) _ Hne He1) as [_ K1]. split; [|split; [|split]]; auto.
        intros s Hs. specialize (K1 s Hs). simpl in K1. lra. }
  destruct HT as (S1 & S2 & Ku & Kc).
  assert (W0' : tshape (left_end c0) = S) by exact (wfs_lo _ _ W0).
  destruct trp as [l h] eqn:Etrp; simpl in S1, S2, Ku, Kc.
  assert (HGen : forall x0 ew, x0 = left_end c0 -> gen x0 (l, h) D = Ok ew ->
     (0 < length ew <= D + 1)%nat /\ plain_below D ew /\ Forall (wfs S) ew /\
     forall s, valid S s -> ew_from S s 0 ew (tdata u s - tdata x0 s) (tdata v s)).
  { intros x0 ew -> Hew. destruct (HG S (left_end c0) l h D ew W0' S1 S2 Kc Hew) as (L & PL & WF & EV). repeat split; auto; try lia.
    intros s Hs. apply EV; auto. destruct HQ as [->|[-> Hz]]; [exact I|]. destruct HD as [[t ->]|[-> _]]; [right|left; auto].
    pose proof (proj2 He s Hs) as K. rewrite Hz in K. apply encl_value_at0 in K. simpl in W0 |- *. rewrite W0, bidx_valid in K; auto. }
  unfold A in H. cbn [max_degree] in H.
  destruct HD as [[t ->]|(-> & l0 & h0 & -> & ->)].
  - cbn [bind] in H. apply bind_ok in H. destruct H as (ew & Hew & H). destruct (HGen t ew eq_refl Hew) as (L & PL & WF & EV).
    pose proof (compose_plain A _ _ _ H PL Pe) as PD. apply (mk_full X D z) with (f := tdata v); auto. rewrite Sv.
    assert (EV' : forall s, valid S s -> ew_from S s 0 ew (tdata u s - tdata t (bidx (tshape t) s)) (tdata v s)).
    { intros s Hs. simpl in W0. rewrite W0, bidx_valid by auto. apply EV; auto. }
    destruct HF as [HF|EX].
    + refine (compose_sound S _ _ X tr D z t r ew (tdata u) (tdata v) c (pf_full S) _ Htr _ Hne _ (encloses_mono _ _ _ _ _ _ _ (full_full_tail S) HF) EV' H).
      * reflexivity.
      * lia.
      * intros c0 r0 ->. inversion WF; subst. exists S. split; auto. reflexivity.
    + revert H. pose proof (encloses_mono _ _ _ _ _ _ _ (hcast_bcast S) He) as HB. pose proof Htr as Htr'. rewrite EX in HB, Htr' |- *. intros H.
      refine (compose_sound_number S tr D z t r ew (tdata u) (tdata v) c Htr' _ Hne WF HB EV' H). lia.
  - cbn [bind Nat.eqb] in H. apply bind_ok in H. destruct H as (ew & Hew & H). destruct (HGen l0 ew eq_refl Hew) as (L & PL & WF & EV).
    change (compose_enclosures (mkArith 0 tr) ew [Ivl l0 h0]) with (compose_enclosures (mkArith 0 tr) ew [Arr l0]) in H.
    assert (P0 : plain_below 0 [Arr l0]) by (intros i x Hi; lia).
    pose proof (compose_plain (mkArith 0 tr) _ _ _ H PL P0) as PD. apply (mk_full X 0 z) with (f := tdata v); auto. rewrite Sv.
    simpl in W0'. assert (He' : encloses (full S) X S [Arr l0] z (tdata l0)) by (apply const_encloses; auto).
    refine (compose_sound S _ _ X tr 0 z l0 [] ew (tdata l0) (tdata v) c (pf_full S) _ Htr _ Hne _ (encloses_mono _ _ _ _ _ _ _ (full_full_tail S) He') _ H).
    + reflexivity.
    + lia.
    + intros c0 r0 ->. inversion WF; subst. exists S. split; auto. reflexivity.
    + intros s Hs. specialize (EV s Hs). destruct ew as [|e0 [|]]; simpl in L; try lia. simpl in EV |- *.
      destruct EV as (E & w & y & H1 & H2 & H3 & H4 & H5). exists E, w, y. repeat split; auto. 
Qed.

(** ** Quotients *)
Lemma div_ok sc gs a b v c ka kb ea eb : prim_gens_ok Q sc gs div_p ->
  (exists s, valid (tshape a) s) -> (exists s, valid (tshape b) s) -> (exists s, valid (tshape v) s) -> is_cast kb = false \/ X = [] ->
  tmap2M (s_div sc) a b = Ok v -> approx ka X D z a ea -> approx kb X D z b eb -> edivide A (gen_ipow gs) ea eb = Ok c ->
  approx (mul_kind ka (tshape a) KFull (tshape b) (tshape v)) X D z v c.
Proof.
  intros HG Na Nb NS NK Hv Ha Hb H. destruct (tmap2M_ok _ _ _ _ Hv) as [HS Ev]. destruct HG as (HG & HDv).
  unfold edivide in H. apply bind_ok in H. destruct H as (ib & Hib & H). unfold epower in Hib. simpl in Hib. apply bind_ok in Hib. destruct Hib as (_ & _ & Hib).
  (* the reciprocal of [b] *)
  set (w := mkT (tshape b) (fun s => match s_ipow sc (tdata b s) (-1) with Ok y => y | Err _ => 0 end) : tensor R).
  destruct (bshape_spec _ _ _ HS) as [Ca Cb].
  assert (Hw : forall s, valid (tshape b) s -> s_ipow sc (tdata b s) (-1) = Ok (tdata w s)).
  { intros s Hs. destruct (bidx_onto _ _ _ Cb NS Hs) as (s' & Hs' & <-). specialize (Ev s' Hs').
    destruct (HDv _ _ _ Ev) as (y & Hy & _). unfold bget in Hy. simpl. rewrite Hy. auto. }
  pose proof (elem_ok _ _ kb b w eb ib None HG NK Nb eq_refl Hw Hb I Hib) as Hw'.
  assert (Hm : exists m, tmul a w = Ok m /\ tshape m = tshape v /\ forall s, valid (tshape v) s -> tdata m s = tdata v s).
  { unfold tmul, tmap2. cbn [tshape w]. rewrite HS. eexists. split; [reflexivity|]. split; [reflexivity|]. intros s Hs. specialize (Ev s Hs).
    destruct (HDv _ _ _ Ev) as (y & Hy & ->). unfold bget in *. simpl. rewrite Hy. reflexivity. }
  destruct Hm as (m & Hm & Sm & Em).
  assert (NM : exists s, valid (tshape m) s) by (rewrite Sm; auto).
  pose proof (mul_ok X tr D z Htr a w m c ka KFull ea ib Na Nb NM Hm (andb_false_r _) Ha Hw' H) as HF.
  rewrite Sm in HF. change (tshape w) with (tshape b) in HF.
  destruct HF as (HF & HP). split; auto.
  eapply holds_ext; eauto. unfold mul_kind, prod_kind. repeat match goal with |- context [if ?x then _ else _] => destruct x end; discriminate.
Qed.

(** ** pow with a constant exponent *)
Lemma pow_ok sc gs a b v c ka kb ea t : prim_gens_ok Q sc gs pow_p ->
  (exists s, valid (tshape a) s) -> (exists s, valid (tshape b) s) -> is_cast ka = false \/ X = [] -> tshape a = tshape v ->
  tmap2M (s_pow sc) a b = Ok v -> approx ka X D z a ea -> approx kb X D z b [Arr t] ->
  (x <- to_float t ;; epower_float gs A ea x) = Ok c -> approx KFull X D z v c.
Proof.
  intros HG Na Nb NK Sv Hv Ha Hb H. destruct (tmap2M_ok _ _ _ _ Hv) as [HS Ev]. destruct HG as (HG & HZ).
  apply bind_ok in H. destruct H as (p & Hp & H).
  pose proof (holds_arr X z kb b t Nb (proj1 Hb)) as [St Et].
  (* every entry of [b] is [p] *)
  assert (Hpb : forall s, valid (tshape b) s -> tdata b s = p).
  { intros s Hs. rewrite <- St in Hs. rewrite <- Et by auto. unfold to_float, to_list in Hp.
    assert (In (tdata t s) (map (tdata t) (all_idx (tshape t)))) as HI by (apply in_map, all_idx_valid; auto).
    destruct (map (tdata t) (all_idx (tshape t))) as [|y [|]]; try discriminate. injection Hp as ->. destruct HI as [<-|[]]. auto. }
  destruct (bshape_spec _ _ _ HS) as [_ Cb].
  assert (Hsig : forall s, valid (tshape a) s -> s_pow sc (tdata a s) p = Ok (tdata v s)).
  { intros s Hs. pose proof Hs as Hs'. rewrite Sv in Hs'. specialize (Ev s Hs'). unfold bget in Ev.
    rewrite bidx_valid in Ev by auto. rewrite Hpb in Ev by (eapply bidx_compat_valid; eauto). exact Ev. }
  unfold epower_float in H. apply bind_ok in H. destruct H as (_ & _ & H). destruct (exponent gs p) eqn:EX; [|discriminate|].
  - destruct (ipow_ok X tr D z Htr a c ka ea 0 Na Ha H) as (HF & P & L & _).
    unfold pow_kind in HF. simpl in HF. rewrite andb_false_r in HF. split; [|split; [auto|split; [auto|intros _; exact (proj1 HF)]]].
    simpl in *. rewrite <- Sv. eapply encloses_ext; [|exact HF]. intros s Hs. simpl. symmetry. apply (HZ p EX (tdata a s)). apply Hsig; auto.
  - exact (elem_ok _ _ ka a v ea c None (HG p EX) NK Na (eq_sym Sv) Hsig Ha I H).
Qed.
End Elem.
