(** Proof of C81: operations of degree 0 return the exact range when at most one
    operand depends on the argument. *)
From Coq Require Import Reals Lra Psatz FunctionalExtensionality.
From Coquelicot Require Import Coquelicot.
From Verif Require Import Base Tensor IntervalArith Polynomials Enclosure TensorLemmas Spec IntervalProofs PowerProofs PropArith
  GraphEditor GraphSpec JaxBound JaxSpec JaxLemmas JaxIndex JaxGather JaxPush JaxOps JaxForward JaxRun FloatSpec FloatProofs DegreeZero DegreeZeroSpec.
Open Scope R_scope.

Lemma id_rounding : rounding (fun x => x).
Proof. split; auto. Qed.

(** Intermediate values. *)
Lemma between (f : R -> R) p q v : continuity f -> f p <= v <= f q -> exists u, Rmin p q <= u <= Rmax p q /\ f u = v.
Proof.
  intros Hc H. destruct (IVT_gen f p q v Hc) as (u & Hu & E); [|exists u; auto].
  rewrite Rmin_left, Rmax_right by lra. exact H.
Qed.
(** The product takes every value between two of its values on a box. *)
Lemma product_between la ha lb hb u v u' v' w : la <= u <= ha -> la <= u' <= ha -> lb <= v <= hb -> lb <= v' <= hb ->
  u * v <= w <= u' * v' -> exists p q, la <= p <= ha /\ lb <= q <= hb /\ w = p * q.
Proof.
  intros Hu Hu' Hv Hv' Hw. set (f := fun t => (u + t * (u' - u)) * (v + t * (v' - v))).
  destruct (between f 0 1 w) as (t & Ht & E).
  - unfold f. reg.
  - unfold f. nra.
  - rewrite Rmin_left, Rmax_right in Ht by lra. exists (u + t * (u' - u)), (v + t * (v' - v)). unfold f in E. split; [nra|]. split; [nra|auto].
Qed.

(** ** Interval operations take every value between the ends *)
Lemma add_iff sa sb a b c : wfs sa a -> wfs sb b -> iadd a b = Ok c ->
  exists sc, bshape sa sb = Some sc /\ wfs sc c /\ forall I v, valid sc I ->
    (exists u, inat a (bidx sa I) u) -> (exists u, inat b (bidx sb I) u) ->
    (inat c I v <-> exists u w, inat a (bidx sa I) u /\ inat b (bidx sb I) w /\ v = u + w).
Proof.
  intros Wa Wb H. destruct (iadd_spec _ _ _ _ _ Wa Wb H) as (sc & E & W & EL & EH). exists sc. split; auto. split; auto.
  intros I v HI (ua & Ha) (ub & Hb). apply inat_iff in Ha, Hb. rewrite inat_iff, EL, EH. split.
  - intros Hv. set (la := tdata (lo a) (bidx sa I)) in *. set (ha := tdata (hi a) (bidx sa I)) in *. set (lb := tdata (lo b) (bidx sb I)) in *. set (hb := tdata (hi b) (bidx sb I)) in *.
    destruct (Rle_dec ha (v - lb)).
    + exists ha, (v - ha). rewrite !inat_iff. fold la ha lb hb. lra.
    + exists (v - lb), lb. rewrite !inat_iff. fold la ha lb hb. lra.
  - intros (u & w & Hu & Hw & ->). apply inat_iff in Hu, Hw. lra.
Qed.
Lemma mul_iff sa sb a b c : wfs sa a -> wfs sb b -> imul a b = Ok c ->
  exists sc, bshape sa sb = Some sc /\ wfs sc c /\ forall I v, valid sc I ->
    (exists u, inat a (bidx sa I) u) -> (exists u, inat b (bidx sb I) u) ->
    (inat c I v <-> exists u w, inat a (bidx sa I) u /\ inat b (bidx sb I) w /\ v = u * w).
Proof.
  intros Wa Wb H. destruct (imul_bshape _ _ _ _ _ Wa Wb H) as [sc E]. exists sc. split; auto.
  destruct (ibil_prod_gen _ _ _ _ _ _ _ _ _ (tmul_prodop _ _ _ E) Wa Wb H) as [W D]. split; auto.
  intros I v HI (ua & Ha) (ub & Hb). apply inat_iff in Ha, Hb. destruct (D I HI) as [D1 D2].
  destruct D2 as [(u & w & Hu & Hw & E1) (u' & w' & Hu' & Hw' & E2)]; [lra|lra|]. split.
  - intros Hv. apply inat_iff in Hv. rewrite E1, E2 in Hv. apply inat_iff in Hu, Hw, Hu', Hw'.
    destruct (product_between _ _ _ _ _ _ _ _ _ Hu Hu' Hw Hw' Hv) as (p & q & Hp & Hq & ->). exists p, q. rewrite !inat_iff. auto.
  - intros (p & q & Hp & Hq & ->). auto.
Qed.
Lemma neg_iff c I v : inat (ineg c) I v <-> inat c I (- v).
Proof. destruct c; simpl; split; intros; lra. Qed.
Lemma pow_iff c n c' v : (1 <= n)%nat -> wfs [] c -> (exists u, inat c [] u) -> ipower c (Z.of_nat n) = Ok c' ->
  wfs [] c' /\ (inat c' [] v <-> exists u, inat c [] u /\ v = u ^ n).
Proof.
  intros Hn W (u0 & Hu0) H.
  assert (Ho : ordered c).
  { split; [rewrite (wfs_lo _ _ W); auto|]. intros J HJ. rewrite (wfs_lo _ _ W) in HJ. inversion HJ; subst. apply inat_iff in Hu0. lra. }
  assert (W' : wfs [] c').
  { exact (proj1 (Fipower_in _ id_rounding [] c (Z.of_nat n) c' W ltac:(lia) H)). }
  split; auto. destruct (power_exact c n c' Ho Hn H) as [P1 P2].
  destruct (P2 []) as [(A & [WA IA] & EA) (B & [WB IB] & EB)]; [rewrite (wfs_lo _ _ W'); constructor|].
  assert (Sh : forall X : tensor R, wfs (tshape X) c -> tshape X = []).
  { intros X HX. destruct c; simpl in W, HX; [congruence|destruct W, HX; congruence]. }
  assert (NA : inat c [] (tdata A [])) by (apply IA; rewrite (Sh A WA); constructor).
  assert (NB : inat c [] (tdata B [])) by (apply IB; rewrite (Sh B WB); constructor).
  change (tdata (tpow_n n A) []) with (tdata A [] ^ n) in EA. change (tdata (tpow_n n B) []) with (tdata B [] ^ n) in EB. split.
  - intros Hv. apply inat_iff in Hv. rewrite <- EA, <- EB in Hv. destruct (between (fun x => x ^ n) _ _ _ (fun x => derivable_continuous_pt _ _ (derivable_pt_pow n x)) Hv) as (u & Hu & E).
    exists u. split; [|auto]. apply inat_iff in NA, NB. apply inat_iff. revert Hu. unfold Rmin, Rmax. destruct (Rle_dec (tdata A []) (tdata B [])); lra.
  - intros (u & Hu & ->). assert (IX : inside (mkT [] (fun _ => u)) c).
    { split; [simpl; auto|]. intros J HJ. simpl in HJ. inversion HJ; subst. exact Hu. }
    destruct (P1 _ IX) as [_ K]. specialize (K [] ltac:(constructor)). exact K.
Qed.
Lemma zero_add_iff sh c0 c : wfs sh c0 -> iadd zero_c c0 = Ok c ->
  wfs sh c /\ forall I v, valid sh I -> (inat c I v <-> inat c0 I v).
Proof.
  intros W H. destruct (iadd_spec [] sh zero_c c0 c eq_refl W H) as (sc & E & W' & EL & EH). rewrite bshape_nil_l in E. injection E as <-.
  split; auto. intros I v HI. rewrite !inat_iff, EL, EH, (bidx_valid _ _ HI). simpl. split; intros; lra.
Qed.

Section Run.
Variables (x0 : tensor R) (region : tensor R * tensor R).
Notation B := (in_box x0 region).
Hypothesis NE : exists x, B x.
Variable tr : tensor R * tensor R.
Let A := mkArith 0 tr.

(** [e] is one coefficient whose entries are the exact ranges of the entries of [y]. *)
Definition exact0 (e : enclosure R) (y : tensor R -> tensor R) : Prop :=
  exists c S, e = [c] /\ wfs S c /\ (forall x, B x -> tshape (y x) = S) /\
    forall s v, valid S s -> (inat c s v <-> exists x, B x /\ tdata (y x) s = v).
Definition fixed (y : tensor R -> tensor R) : Prop := forall x x', B x -> B x' -> y x = y x'.

Lemma combine (P Q : R -> Prop) (f g : tensor R -> R) (op : R -> R -> R) (v : R) :
  (forall u, P u <-> exists x, B x /\ f x = u) -> (forall u, Q u <-> exists x, B x /\ g x = u) ->
  (forall x x', B x -> B x' -> f x = f x') \/ (forall x x', B x -> B x' -> g x = g x') ->
  (exists u w, P u /\ Q w /\ v = op u w) <-> exists x, B x /\ op (f x) (g x) = v.
Proof.
  intros HP HQ HF. split.
  - intros (u & w & Hu & Hw & ->). apply HP in Hu. apply HQ in Hw. destruct Hu as (x & Hx & <-), Hw as (x' & Hx' & <-).
    destruct HF as [HF|HF]; [exists x'; rewrite (HF x' x)|exists x; rewrite (HF x x')]; auto.
  - intros (x & Hx & <-). exists (f x), (g x). split; [apply HP; eauto|]. split; [apply HQ; eauto|auto].
Qed.
Lemma nonempty_entry (P : R -> Prop) (f : tensor R -> R) : (forall u, P u <-> exists x, B x /\ f x = u) -> exists u, P u.
Proof. intros H. destruct NE as [x Hx]. exists (f x). apply H. eauto. Qed.

Lemma trunc_c c e : truncate_if_necessary A [c] = Ok e -> e = [c].
Proof. rewrite trunc1. intros [= <-]. auto. Qed.

Lemma add_exact0 ea eb e a b y : exact0 ea a -> exact0 eb b -> fixed a \/ fixed b -> eadd A ea eb = Ok e ->
  (forall x, B x -> tadd (a x) (b x) = Ok (y x)) -> exact0 e y.
Proof.
  intros (ca & sa & -> & Wa & Sa & Ia) (cb & sb & -> & Wb & Sb & Ib) HF H HY. unfold eadd in H. apply bind_ok in H. destruct H as (s & Hs & H).
  cbn [add_coeffs bind] in Hs. apply bind_ok in Hs. destruct Hs as (c & Hc & Hs). injection Hs as <-. apply trunc_c in H. subst e.
  destruct (add_iff _ _ _ _ _ Wa Wb Hc) as (sc & E & W & I). destruct (bshape_spec _ _ _ E) as [C1 C2]. exists c, sc. split; auto. split; auto.
  assert (EY : forall x, B x -> tshape (y x) = sc /\ forall s, tdata (y x) s = tdata (a x) (bidx sa s) + tdata (b x) (bidx sb s)).
  { intros x Hx. pose proof (HY x Hx) as K. apply tmap2_ok in K. destruct K as [K1 K2]. rewrite (Sa x Hx), (Sb x Hx), E in K1. injection K1 as K1. split; auto.
    intros s. rewrite K2. unfold bget. rewrite (Sa x Hx), (Sb x Hx). reflexivity. }
  split; [intros x Hx; apply EY; auto|]. intros s v Hs.
  assert (Va : valid sa (bidx sa s)) by (eapply bidx_compat_valid; eauto). assert (Vb : valid sb (bidx sb s)) by (eapply bidx_compat_valid; eauto).
  rewrite (I s v Hs (nonempty_entry _ _ (fun u => Ia _ u Va)) (nonempty_entry _ _ (fun u => Ib _ u Vb))).
  rewrite (combine _ _ _ _ Rplus v (fun u => Ia _ u Va) (fun u => Ib _ u Vb)).
  - split; intros (x & Hx & K); exists x; split; auto; [rewrite (proj2 (EY x Hx))|rewrite (proj2 (EY x Hx)) in K]; exact K.
  - destruct HF as [HF|HF]; [left|right]; intros x x' Hx Hx'; rewrite (HF x x' Hx Hx'); reflexivity.
Qed.
Lemma neg_exact0 ea e a : exact0 ea a -> enegative A ea = Ok e -> exact0 e (fun x => tneg (a x)).
Proof.
  intros (ca & sa & -> & Wa & Sa & Ia) H. unfold enegative in H. apply trunc_c in H. subst e. exists (ineg ca), sa. split; auto.
  split; [destruct ca; simpl in *; tauto|]. split; [intros x Hx; exact (Sa x Hx)|]. intros s v Hs. rewrite neg_iff, (Ia s _ Hs).
  split; intros (x & Hx & K); exists x; split; auto; simpl in *; lra.
Qed.
Lemma sub_exact0 ea eb e a b y : exact0 ea a -> exact0 eb b -> fixed a \/ fixed b -> esubtract A ea eb = Ok e ->
  (forall x, B x -> tsub (a x) (b x) = Ok (y x)) -> exact0 e y.
Proof.
  intros Ha Hb HF H HY. unfold esubtract in H. apply bind_ok in H. destruct H as (nb & Hn & H).
  refine (add_exact0 _ _ _ _ _ _ Ha (neg_exact0 _ _ _ Hb Hn) _ H _).
  - destruct HF as [HF|HF]; [left; auto|right]. intros x x' Hx Hx'. rewrite (HF x x' Hx Hx'). reflexivity.
  - intros x Hx. specialize (HY x Hx). revert HY. clear. unfold tsub, tadd, tmap2. simpl. destruct (bshape (tshape (a x)) (tshape (b x))); [|discriminate].
    intros [= <-]. reflexivity.
Qed.

Lemma emul_c ca cb e : emultiply A [ca] [cb] = Ok e -> exists c c', imul ca cb = Ok c /\ iadd zero_c c = Ok c' /\ e = [c'].
Proof.
  intros H. unfold emultiply in H. apply bind_ok in H. destruct H as (u1 & _ & H). apply bind_ok in H. destruct H as (u2 & _ & H).
  apply bind_ok in H. destruct H as (p & Hp & H). unfold poly_bilinear in Hp. cbn [length Nat.add Nat.sub repeat enumerate enumerate_from foldM bind] in Hp.
  rewrite (Fterm_product (fun x => x)) in Hp. apply bind_ok in Hp. destruct Hp as (p' & Hp & Hp2). injection Hp2 as ->.
  apply bind_ok in Hp. destruct Hp as (p' & Hp & Hp2). injection Hp2 as ->.
  apply bind_ok in Hp. destruct Hp as (c & Hc & Hp). unfold add_at, get_nth in Hp. cbn [nth_error bind] in Hp. apply bind_ok in Hp. destruct Hp as (c' & Hc' & Hp). cbn [set_nth] in Hp. injection Hp as <-.
  apply trunc_c in H. subst e. exists c, c'. auto.
Qed.
Lemma mul_exact0 ea eb e a b y : exact0 ea a -> exact0 eb b -> fixed a \/ fixed b -> emultiply A ea eb = Ok e ->
  (forall x, B x -> tmul (a x) (b x) = Ok (y x)) -> exact0 e y.
Proof.
  intros (ca & sa & -> & Wa & Sa & Ia) (cb & sb & -> & Wb & Sb & Ib) HF H HY. destruct (emul_c _ _ _ H) as (c & c' & Hc & Hc' & ->).
  destruct (mul_iff _ _ _ _ _ Wa Wb Hc) as (sc & E & W & I). destruct (bshape_spec _ _ _ E) as [C1 C2]. destruct (zero_add_iff _ _ _ W Hc') as [W' I']. exists c', sc. split; auto. split; auto.
  assert (EY : forall x, B x -> tshape (y x) = sc /\ forall s, tdata (y x) s = tdata (a x) (bidx sa s) * tdata (b x) (bidx sb s)).
  { intros x Hx. pose proof (HY x Hx) as K. apply tmap2_ok in K. destruct K as [K1 K2]. rewrite (Sa x Hx), (Sb x Hx), E in K1. injection K1 as K1. split; auto.
    intros s. rewrite K2. unfold bget. rewrite (Sa x Hx), (Sb x Hx). reflexivity. }
  split; [intros x Hx; apply EY; auto|]. intros s v Hs. rewrite (I' s v Hs).
  assert (Va : valid sa (bidx sa s)) by (eapply bidx_compat_valid; eauto). assert (Vb : valid sb (bidx sb s)) by (eapply bidx_compat_valid; eauto).
  rewrite (I s v Hs (nonempty_entry _ _ (fun u => Ia _ u Va)) (nonempty_entry _ _ (fun u => Ib _ u Vb))).
  rewrite (combine _ _ _ _ Rmult v (fun u => Ia _ u Va) (fun u => Ib _ u Vb)).
  - split; intros (x & Hx & K); exists x; split; auto; [rewrite (proj2 (EY x Hx))|rewrite (proj2 (EY x Hx)) in K]; exact K.
  - destruct HF as [HF|HF]; [left|right]; intros x x' Hx Hx'; rewrite (HF x x' Hx Hx'); reflexivity.
Qed.
(** ** Integer powers *)
Lemma outer_power_iff sh a n c : wfs sh a -> (1 <= n)%nat -> ((2 <= n)%nat -> sh = []) -> iouter_power a (Z.of_nat n) (length sh) = Ok c ->
  wfs sh c /\ forall I v, valid sh I -> (exists u, inat a I u) -> (inat c I v <-> exists u, inat a I u /\ v = u ^ n).
Proof.
  intros Ha Hn Hs H. unfold iouter_power in H. rewrite (Findim _ _ Ha) in H. destruct (Z.ltb_spec (Z.of_nat n) 0); [lia|]. destruct (Z.eqb_spec (Z.of_nat n) 0); [lia|].
  destruct (Nat.eqb_spec (length sh) 0) as [E|E].
  - destruct sh; [|discriminate]. split.
    + destruct (Fipower_in _ id_rounding [] a (Z.of_nat n) c Ha ltac:(lia) H) as [W _]. exact W.
    + intros I v HI Hex. inversion HI; subst. exact (proj2 (pow_iff a n c v Hn Ha Hex H)).
  - destruct n as [|[|n]]; [lia| |]; [|exfalso; apply E; rewrite Hs by lia; auto].
    apply bind_ok in H. destruct H as (r & Hr & H). cbn [negb] in H. injection H as <-. change (Z.to_nat (Z.of_nat 1 - 1)) with 0%nat in Hr. cbn [running_outer] in Hr. injection Hr as <-.
    split; auto. intros I v HI _. split; [intros K; exists v; split; auto; simpl; ring|intros (u & Hu & ->); simpl; rewrite Rmult_1_r; auto].
Qed.
Lemma ones_mul_iff sh (t : tensor R) c c' : tshape t = sh -> (forall I, tdata t I = 1) -> wfs sh c -> imul (Arr t) c = Ok c' ->
  wfs sh c' /\ forall I v, valid sh I -> (exists u, inat c I u) -> (inat c' I v <-> inat c I v).
Proof.
  intros St Et W H. destruct (mul_iff sh sh (Arr t) c c' St W H) as (sc & E & W' & I'). rewrite bshape_refl in E. injection E as <-. split; auto.
  intros I v HI Hex. rewrite (I' I v HI); rewrite ?(bidx_valid _ _ HI); auto; [|exists 1; simpl; auto]. split.
  - intros (u & w & Hu & Hw & ->). simpl in Hu. rewrite Et in Hu. subst u. rewrite Rmult_1_l. auto.
  - intros Hv. exists 1, v. simpl. rewrite Et. split; auto. split; auto. ring.
Qed.
Lemma one_mul_iff sh c c' : wfs sh c -> imul (Arr (tscalar 1)) c = Ok c' ->
  wfs sh c' /\ forall I v, valid sh I -> (exists u, inat c I u) -> (inat c' I v <-> inat c I v).
Proof.
  intros W H. destruct (mul_iff [] sh (Arr (tscalar 1)) c c' eq_refl W H) as (sc & E & W' & I'). rewrite bshape_nil_l in E. injection E as <-. split; auto.
  intros I v HI Hex. rewrite (I' I v HI); rewrite ?(bidx_valid _ _ HI); auto; [|exists 1; simpl; auto]. split.
  - intros (u & w & Hu & Hw & ->). simpl in Hu. subst u. rewrite Rmult_1_l. auto.
  - intros Hv. exists 1, v. simpl. split; auto. split; auto. ring.
Qed.
Lemma npow_pow x n : npow (T := R) x n = x ^ n.
Proof. induction n; simpl; auto. rewrite IHn. auto. Qed.
Lemma pow_exact0 ea e a n : exact0 ea a -> ((2 <= n)%nat -> forall x, B x -> tshape (a x) = []) -> epower_nat A ea n = Ok e ->
  exact0 e (fun x => tmap (fun u => npow u n) (a x)).
Proof.
  intros (ca & sa & -> & Wa & Sa & Ia) Hn H. unfold epower_nat in H. apply bind_ok in H. destruct H as (u1 & _ & H). apply bind_ok in H. destruct H as (r & Hr & H).
  assert (SL : tshape (left_end ca) = sa) by (destruct ca; simpl in *; tauto).
  assert (Hn' : (2 <= n)%nat -> sa = []) by (intros K; destruct NE as [x Hx]; rewrite <- (Sa x Hx); auto).
  unfold integer_power in Hr. replace (Z.of_nat n <? 0)%Z with false in Hr by (symmetry; apply Z.ltb_ge; lia). destruct (Z.eqb_spec (Z.of_nat n) 0) as [E|E].
  { assert (n = 0)%nat by lia. subst n. injection Hr as <-. apply trunc_c in H. subst e. exists (Arr (tones_like (left_end ca))), sa. split; auto. split; [simpl; auto|].
    split; [intros x Hx; exact (Sa x Hx)|]. intros s v Hs. simpl. split; [intros ->; destruct NE as [x Hx]; eauto|intros (x & _ & <-); auto]. }
  rewrite Nat2Z.id in Hr. cbn [length Nat.sub Nat.mul Nat.add seq mapM] in Hr. apply bind_ok in Hr. destruct Hr as (c & Hc & Hr). injection Hr as <-. apply trunc_c in H. subst e.
  unfold get_coeff in Hc. cbn [length Nat.sub partitions Nat.eqb foldM] in Hc.
  apply bind_ok in Hc. destruct Hc as (c1 & Hc & Hc1). injection Hc1 as ->.
  apply bind_ok in Hc. destruct Hc as ((r & w) & Hr & Hc). apply bind_ok in Hc. destruct Hc as (u2 & _ & Hc). apply bind_ok in Hc. destruct Hc as (m & Hm & Hc).
  cbn [multinomial_coefficient] in Hm. injection Hm as <-. apply bind_ok in Hc. destruct Hc as (t & Ht & Hc).
  unfold run_product in Hr. cbn [enumerate enumerate_from foldM] in Hr. apply bind_ok in Hr. destruct Hr as (rw & Hr & Hr2). injection Hr2 as ->.
  unfold get_nth in Hr. cbn [nth_error bind] in Hr. apply bind_ok in Hr. destruct Hr as (pw & Hpw & Hr). apply bind_ok in Hr. destruct Hr as (r' & Hr' & Hr). injection Hr as -> _.
  rewrite Nat.mul_0_l, (Fterm_product (fun x => x)) in Hr'. unfold elementwise_term_power_coefficient in Hpw. rewrite Nat.mul_0_l in Hpw. cbn [Nat.ltb Nat.leb] in Hpw. rewrite Nat.sub_0_r, (Findim _ _ Wa) in Hpw.
  destruct (outer_power_iff _ _ _ _ Wa (ltac:(clear -E; lia) : (1 <= n)%nat) Hn' Hpw) as [W1 I1].
  destruct (ones_mul_iff sa (tones_like (left_end ca)) pw r SL ltac:(intros; destruct ca; reflexivity) W1 Hr') as [W2 I2].
  destruct (one_mul_iff sa _ _ W2 Ht) as [W3 I3]. destruct (zero_add_iff _ _ _ W3 Hc) as [W4 I4].
  exists c, sa. split; auto. split; auto. split; [intros x Hx; exact (Sa x Hx)|]. intros s v Hs.
  pose proof (nonempty_entry _ _ (fun u => Ia s u Hs)) as N0.
  assert (N1 : exists u, inat pw s u) by (destruct N0 as [u Hu]; exists (u ^ n); apply (I1 s _ Hs (ex_intro _ u Hu)); eauto).
  assert (N2 : exists u, inat r s u) by (destruct N1 as [u Hu]; exists u; apply (I2 s u Hs); eauto).
  rewrite (I4 s v Hs), (I3 s v Hs N2), (I2 s v Hs N1), (I1 s v Hs N0). split.
  - intros (u & Hu & ->). apply (Ia s u Hs) in Hu. destruct Hu as (x & Hx & <-). exists x. split; auto. simpl. apply npow_pow.
  - intros (x & Hx & <-). exists (tdata (a x) s). split; [apply Ia; eauto|]. simpl. apply npow_pow.
Qed.

(** ** Reshapes *)
Definition selects (p : prim R) : Prop :=
  match p with broadcast_in_dim_p _ _ | reshape_p _ | squeeze_p _ | transpose_p _ | convert_element_type_p => True | _ => False end.
Lemma selects_one p g sh s : selects p -> gather_of p = Some g -> exists J, g_src g sh s = [J].
Proof. intros HS Hg. destruct p; try contradiction; simpl in Hg; injection Hg as <-; simpl; eauto. Qed.
Lemma gather_exact0 p g ea e a y : selects p -> gather_of p = Some g -> exact0 ea a -> map_over_enclosure ea (gather g) = Ok e ->
  (forall x, B x -> gather g (a x) = Ok (y x)) -> exact0 e y.
Proof.
  intros HS Hg (ca & sa & -> & Wa & Sa & Ia) H HY. unfold map_over_enclosure in H. cbn [mapM] in H. apply bind_ok in H. destruct H as (c & Hc & H). injection H as <-.
  destruct NE as [x1 Hx1]. pose proof (HY x1 Hx1) as H1. apply gather_ok in H1. destruct H1 as [S1 _]. rewrite (Sa x1 Hx1) in S1. set (sy := tshape (y x1)) in *.
  assert (EY : forall x, B x -> tshape (y x) = sy /\ forall s J, g_src g sa s = [J] -> tdata (y x) s = tdata (a x) J).
  { intros x Hx. pose proof (HY x Hx) as K. apply gather_ok in K. destruct K as [K1 K2]. rewrite (Sa x Hx) in *. split; [congruence|]. intros s J HJ. rewrite K2, HJ. simpl. ring. }
  assert (V : forall s J, valid sy s -> g_src g sa s = [J] -> valid sa J).
  { intros s J Hs HJ. pose proof (Fsrc_valid (fun x => x) p g (a x1) (y x1) Hg (HY x1 Hx1) s Hs) as K. rewrite (Sa x1 Hx1), HJ in K. inversion K; auto. }
  assert (EC : wfs sy c /\ forall s J v, g_src g sa s = [J] -> (inat c s v <-> inat ca J v)).
  { destruct ca as [t|l h]; simpl in Wa; cbn [map_coef] in Hc.
    - apply bind_ok in Hc. destruct Hc as (t' & Ht & Hc). injection Hc as <-. apply gather_ok in Ht. destruct Ht as [K1 K2]. rewrite Wa in *. split; [simpl; congruence|].
      intros s J v HJ. simpl. rewrite K2, HJ. simpl. rewrite Rplus_0_r. tauto.
    - destruct Wa as [Wl Wh]. apply bind_ok in Hc. destruct Hc as (l' & Hl & Hc). apply bind_ok in Hc. destruct Hc as (h' & Hh & Hc). injection Hc as <-.
      apply gather_ok in Hl, Hh. destruct Hl as [L1 L2], Hh as [H1 H2]. rewrite Wl in *. rewrite Wh in *. split; [simpl; split; congruence|].
      intros s J v HJ. simpl. rewrite L2, H2, HJ. simpl. rewrite !Rplus_0_r. tauto. }
  destruct EC as [W EC]. exists c, sy. split; auto. split; auto. split; [intros x Hx; apply EY; auto|].
  intros s v Hs. destruct (selects_one p g sa s HS Hg) as [J HJ]. rewrite (EC s J v HJ), (Ia J v (V s J Hs HJ)).
  split; intros (x & Hx & K); exists x; split; auto; [rewrite (proj2 (EY x Hx) s J HJ)|rewrite (proj2 (EY x Hx) s J HJ) in K]; exact K.
Qed.
Lemma broadcast_exact0 shape bdims ea e a y : exact0 ea a -> push_broadcast shape bdims ea = Ok e ->
  (forall x, B x -> gather (g_broadcast_in_dim shape bdims) (a x) = Ok (y x)) -> exact0 e y.
Proof.
  intros Ha H HY. refine (gather_exact0 (broadcast_in_dim_p shape bdims) _ ea e a y Logic.I eq_refl Ha _ HY). destruct Ha as (ca & sa & -> & _). unfold push_broadcast in H. cbn [bind] in H.
  cbn [enumerate enumerate_from mapM rep] in H. rewrite app_nil_r in H. exact H.
Qed.

(** ** Elementwise functions *)
Definition regionE (t : option (tensor R * tensor R)) (y : tensor R -> tensor R) : Prop :=
  match t with
  | None => True
  | Some (l, h) => forall x, B x -> tshape l = tshape (y x) /\ tshape h = tshape (y x) /\
                     forall s, valid (tshape (y x)) s -> tdata l s = tdata (y x) s /\ tdata h s = tdata (y x) s
  end.
Lemma ew_exact0 gen sigma ea ot e a : exact_generator gen sigma -> exact0 ea a ->
  (forall c, ot = Some c -> exists l h t, c = Ivl l h /\ ea = [Arr t] /\ regionE (Some (l, h)) a) ->
  elementwise_fun A gen ea ot = Ok e -> exists c S, e = [c] /\ wfs S c /\ (forall x, B x -> tshape (a x) = S) /\
    forall s v, valid S s -> (inat c s v <-> exists x, B x /\ sigma (tdata (a x) s) = Ok v).
Proof.
  intros HG (ca & sa & -> & Wa & Sa & Ia) HT H. unfold elementwise_fun in H. apply bind_ok in H. destruct H as (tr0 & Htr & H). apply bind_ok in H. destruct H as (x0c & Hx & H).
  unfold get_nth in Hx. cbn [nth_error] in Hx. injection Hx as <-. apply bind_ok in H. destruct H as (c0 & Hc0 & H). apply bind_ok in H. destruct H as (ew & Hew & H).
  set (trp := match tr0 with Arr t => (t, t) | Ivl l h => (l, h) end) in *.
  assert (Ex : c0 = left_end ca) by (destruct ca; simpl in Hc0; injection Hc0 as <-; auto).
  assert (Sx : tshape c0 = sa) by (subst c0; destruct ca; simpl in *; tauto).
  assert (N0 : forall s, valid sa s -> exists u, inat ca s u) by (intros s Hs; exact (nonempty_entry _ _ (fun u => Ia s u Hs))).
  assert (HR : tshape (fst trp) = sa /\ tshape (snd trp) = sa /\
            (forall s u, valid sa s -> (tdata (fst trp) s <= u <= tdata (snd trp) s <-> inat ca s u)) /\
            (forall s, valid sa s -> tdata (fst trp) s <= tdata c0 s <= tdata (snd trp) s)).
  { destruct ot as [c|].
    - injection Htr as <-. destruct (HT c eq_refl) as (l & h & t & -> & Ec & HRg). injection Ec as ->. destruct NE as [x1 Hx1]. destruct (HRg x1 Hx1) as (S1 & S2 & E). rewrite (Sa x1 Hx1) in *. subst trp c0. simpl in *.
      split; auto. split; auto.
      assert (Q : forall s, valid sa s -> tdata t s = tdata (a x1) s) by (intros s Hs; symmetry; apply (Ia s (tdata (a x1) s) Hs); eauto).
      split; intros s; [intros u|]; intros Hs; destruct (E s Hs) as [-> ->]; rewrite (Q s Hs); [split; intros; lra|lra].
    - unfold enclose_enclosure in Htr. cbn [length Nat.leb Nat.add bind] in Htr. unfold get_nth in Htr. cbn [nth_error] in Htr. injection Htr as <-. subst trp c0.
      destruct ca as [t|l h]; simpl in *.
      + split; auto. split; auto. split; [intros s u _; split; intros; lra|]. intros s Hs. lra.
      + destruct Wa. split; auto. split; auto. split; [tauto|]. intros s Hs. destruct (N0 s Hs) as [u Hu]. lra. }
  destruct HR as (S1 & S2 & R1 & R2).
  destruct (HG sa c0 (fst trp) (snd trp) ew Sx S1 S2 R2) as (c & -> & Wc & HC).
  { rewrite <- surjective_pairing. exact Hew. }
  unfold compose_enclosures in H. cbn [enumerate enumerate_from foldM compose_term bind] in H. apply bind_ok in H. destruct H as (e' & H & H2). injection H2 as ->.
  unfold eadd in H. apply bind_ok in H. destruct H as (s & Hs & H). cbn [add_coeffs] in Hs. apply bind_ok in Hs. destruct Hs as (c' & Hc' & Hs). cbn [bind] in Hs. injection Hs as <-. apply trunc_c in H. subst e.
  destruct (zero_add_iff _ _ _ Wc Hc') as [W' I']. exists c', sa. split; auto. split; auto. split; auto.
  intros s v Hs. rewrite (I' s v Hs), (HC s v Hs). split.
  - intros (u & Hu & Hv). apply (R1 s u Hs), (Ia s u Hs) in Hu. destruct Hu as (x & Hx & <-). eauto.
  - intros (x & Hx & Hv). exists (tdata (a x) s). split; auto. apply (R1 s _ Hs), (Ia s _ Hs). eauto.
Qed.
Lemma elementwise_exact0 gen sigma ea ot e a y : exact_generator gen sigma -> exact0 ea a ->
  (forall c, ot = Some c -> exists l h t, c = Ivl l h /\ ea = [Arr t] /\ regionE (Some (l, h)) a) ->
  elementwise_fun A gen ea ot = Ok e -> (forall x, B x -> tmapM sigma (a x) = Ok (y x)) -> exact0 e y.
Proof.
  intros HG Ha HT H HY. destruct (ew_exact0 _ _ _ _ _ _ HG Ha HT H) as (c & S & -> & W & Sa & K). exists c, S. split; auto. split; auto.
  assert (EY : forall x, B x -> tshape (y x) = S /\ forall s, valid S s -> sigma (tdata (a x) s) = Ok (tdata (y x) s)).
  { intros x Hx. destruct (tmapM_ok _ _ _ (HY x Hx)) as [K1 K2]. rewrite (Sa x Hx) in *. auto. }
  split; [intros x Hx; apply EY; auto|]. intros s v Hs. rewrite (K s v Hs).
  split; intros (x & Hx & Q); exists x; split; auto; pose proof (proj2 (EY x Hx) s Hs) as P; congruence.
Qed.
Lemma div_exact0 gp sc ea eb e a b y : exact_generator (gp (-1)%Z) (fun x => s_ipow sc x (-1)) ->
  (forall x y v, s_div sc x y = Ok v -> exists w, s_ipow sc y (-1) = Ok w /\ v = x * w) ->
  exact0 ea a -> exact0 eb b -> fixed a \/ fixed b -> edivide A gp ea eb = Ok e -> (forall x, B x -> tmap2M (s_div sc) (a x) (b x) = Ok (y x)) -> exact0 e y.
Proof.
  intros HG HD (ca & sa & -> & Wa & Sa & Ia) Hb HF H HY. unfold edivide, epower in H. cbn [Z.leb Z.compare] in H. apply bind_ok in H. destruct H as (ib & Hib & H). apply bind_ok in Hib. destruct Hib as (u & _ & Hib).
  destruct (ew_exact0 _ _ eb None ib b HG Hb ltac:(discriminate) Hib) as (cb & sb & -> & Wb & Sb & Ib).
  destruct (emul_c _ _ _ H) as (c & c' & Hc & Hc' & ->).
  destruct (mul_iff _ _ _ _ _ Wa Wb Hc) as (sc' & E & W & I). destruct (bshape_spec _ _ _ E) as [C1 C2]. destruct (zero_add_iff _ _ _ W Hc') as [W' I']. exists c', sc'. split; auto. split; auto.
  assert (EY : forall x, B x -> tshape (y x) = sc' /\ forall s, valid sc' s -> exists w, s_ipow sc (tdata (b x) (bidx sb s)) (-1) = Ok w /\ tdata (y x) s = tdata (a x) (bidx sa s) * w).
  { intros x Hx. destruct (tmap2M_ok _ _ _ _ (HY x Hx)) as [K1 K2]. rewrite (Sa x Hx), (Sb x Hx), E in K1. injection K1 as K1. split; auto.
    intros s Hs. rewrite K1 in Hs. pose proof (K2 s Hs) as Q. unfold bget in Q. rewrite (Sa x Hx), (Sb x Hx) in Q. exact (HD _ _ _ Q). }
  split; [intros x Hx; apply EY; auto|]. intros s v Hs. rewrite (I' s v Hs).
  assert (Va : valid sa (bidx sa s)) by (eapply bidx_compat_valid; eauto). assert (Vb : valid sb (bidx sb s)) by (eapply bidx_compat_valid; eauto).
  set (g := fun x => match s_ipow sc (tdata (b x) (bidx sb s)) (-1) with Ok w => w | Err _ => 0 end).
  assert (Ib' : forall u, inat cb (bidx sb s) u <-> exists x, B x /\ g x = u).
  { intros u'. rewrite (Ib _ u' Vb). unfold g. split; intros (x & Hx & Q); exists x; split; auto; destruct (proj2 (EY x Hx) s Hs) as (w & Hw & _); rewrite Hw in *; [injection Q as <-; auto|subst; auto]. }
  rewrite (I s v Hs (nonempty_entry _ _ (fun u => Ia _ u Va)) (nonempty_entry _ _ Ib')).
  rewrite (combine _ _ _ g Rmult v (fun u => Ia _ u Va) Ib').
  - split; intros (x & Hx & K); exists x; split; auto; destruct (proj2 (EY x Hx) s Hs) as (w & Hw & Ew); unfold g in *; rewrite Hw in *; congruence.
  - destruct HF as [HF|HF]; [left|right]; intros x x' Hx Hx'; unfold g; rewrite (HF x x' Hx Hx'); reflexivity.
Qed.
End Run.
