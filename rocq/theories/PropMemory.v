(** Property C79: the shapes of the coefficients and the numbers they hold. *)
From Coq Require Import Reals Lra Psatz.
From Verif Require Import Base Tensor IntervalArith Polynomials Enclosure TensorLemmas Spec IntervalProofs PowerProofs PolyProofs Graded
  EnclosureOps EnclosureProofs PropEnclosure PropDegree GraphEditor GraphSpec JaxBound JaxSpec JaxLemmas JaxPush JaxSize JaxOps JaxForward JaxRun JaxEval JaxInit
  PropJax TotalSpec PropTotal MemorySpec Primitive JaxTable JaxTableProofs ExamplesJax.
Open Scope nat_scope.

(** * Trailing axes, for any program and any arithmetic *)
Section Shapes.
Context {T : Type} {N : Num T}.
Definition checked_dict (X : list nat) (d : @dict T) : Prop := forall n i, dlookup d n = Some i -> validate_shapes X (i_enc i) = Ok tt.

Lemma validate_const X (t : tensor T) : validate_shapes X [Arr t] = Ok tt.
Proof. unfold validate_shapes. cbn [enumerate enumerate_from foldM Nat.mul]. rewrite Nat.sub_0_r, skipn_all. reflexivity. Qed.
Lemma checked_cons X d n i : checked_dict X d -> validate_shapes X (i_enc i) = Ok tt -> checked_dict X ((n, i) :: d).
Proof. intros Hd Hi m j H. cbn [dlookup] in H. destruct (Nat.eqb_spec n m); [injection H as <-; auto|eapply Hd; eauto]. Qed.
Lemma store_checked X : forall os vs d d', checked_dict X d -> store X d os vs = Ok d' -> checked_dict X d'.
Proof.
  induction os as [|v os IH]; intros [|i vs] d d' Hd H; cbn [store] in H; try discriminate; [injection H as <-; auto|].
  destruct v as [n|n|]; [|discriminate|eauto]. destruct (dlookup d n); [discriminate|]. apply bind_ok in H. destruct H as ([] & Hv & H).
  refine (IH _ _ _ _ H). apply checked_cons; auto.
Qed.
Lemma run_checked sc gs A A0 prop X lits : forall ops d d', checked_dict X d -> foldM (step sc gs A A0 prop X lits) d ops = Ok d' -> checked_dict X d'.
Proof.
  induction ops as [|o ops IH]; intros d d' Hd H; cbn [foldM] in H; [injection H as <-; auto|].
  apply bind_ok in H. destruct H as (d1 & H1 & H). unfold step in H1. apply bind_ok in H1. destruct H1 as (args & _ & H1). apply bind_ok in H1. destruct H1 as (outs & _ & H1).
  exact (IH _ _ (store_checked _ _ _ _ _ Hd H1) H).
Qed.
Lemma consts_checked X : forall l (d d' : @dict T), checked_dict X d ->
  foldM (fun d '(v, c) => match v with Var n => Ok ((n, constant_inter c) :: d) | _ => Err Unmodelled end) d l = Ok d' -> checked_dict X d'.
Proof.
  induction l as [|[v c] l IH]; intros d d' Hd H; cbn [foldM] in H; [injection H as <-; auto|].
  destruct v as [n|n|]; try discriminate. cbn [bind] in H. refine (IH _ _ _ H). apply checked_cons; auto. apply validate_const.
Qed.
Lemma interpret_checked sc gs pr consts md propagate (x0 : tensor T) region d :
  interpret sc gs pr consts md propagate x0 region = Ok d -> checked_dict (tshape x0) d.
Proof.
  intro H. unfold interpret in H. destruct (md <? 0)%Z; [discriminate|].
  apply bind_ok in H. destruct H as (t & Ht & H). apply bind_ok in H. destruct H as (tr & Htr & H). apply bind_ok in H. destruct H as (A & _ & H).
  apply bind_ok in H. destruct H as (A0 & _ & H). apply bind_ok in H. destruct H as (eye & Heye & H). apply bind_ok in H. destruct H as (u & _ & H).
  apply bind_ok in H. destruct H as (n & _ & H). apply bind_ok in H. destruct H as (d0 & Hd0 & H).
  refine (run_checked _ _ _ _ _ _ _ _ _ _ _ H). apply checked_cons.
  - refine (consts_checked _ _ [] _ _ Hd0). intros m j Hm. discriminate.
  - cbn [i_enc]. destruct (0 <? Z.to_nat md).
    + unfold validate_shapes. cbn [enumerate enumerate_from foldM Nat.mul ishape]. rewrite Nat.sub_0_r, skipn_all. cbn [rep shape_eqb list_eqb guard bind].
      unfold identity in Heye. destruct (tshape x0) as [|k [|]]; try discriminate; injection Heye as <-; [reflexivity|].
      cbn. rewrite Nat.eqb_refl. reflexivity.
    + unfold validate_shapes. cbn [enumerate enumerate_from foldM Nat.mul]. rewrite Nat.sub_0_r, skipn_all. reflexivity.
Qed.
Lemma enumerate_nth {A} : forall (l : list A) k i x, nth_error l i = Some x -> In (k + i, x) (enumerate_from k l).
Proof.
  induction l as [|a l IH]; intros k [|i] x H; cbn [nth_error] in H; try discriminate; cbn [enumerate_from].
  - injection H as <-. left. rewrite Nat.add_0_r. reflexivity.
  - right. replace (k + S i) with (S k + i) by lia. auto.
Qed.
Lemma foldM_guard {A} (f : A -> bool) e : forall l, foldM (fun _ x => guard (f x) e) tt l = Ok tt -> forall x, In x l -> f x = true.
Proof.
  induction l as [|a l IH]; intros H x Hx; [destruct Hx|]. cbn [foldM] in H. destruct (f a) eqn:E; cbn [guard bind] in H; [|discriminate].
  destruct Hx as [<-|Hx]; auto.
Qed.
Lemma validated X (a : enclosure T) : validate_shapes X a = Ok tt -> forall i c, nth_error a i = Some c -> exists s, ishape c = s ++ rep i X.
Proof.
  intros H i c Hc. unfold validate_shapes in H.
  assert (K := foldM_guard (fun '(i, c) => shape_eqb (skipn (length (ishape c) - i * length X) (ishape c)) (rep i X)) ValueError (enumerate a)).
  assert (Ef : foldM (fun _ x => guard ((fun '(i, c) => shape_eqb (skipn (length (ishape c) - i * length X) (ishape c)) (rep i X)) x) ValueError) tt (enumerate a) = Ok tt).
  { rewrite <- H. clear. induction (enumerate a) as [|[j c] l IH]; cbn [foldM]; [reflexivity|]. destruct (guard _ _) as [[]|]; cbn [bind]; auto. }
  specialize (K Ef (i, c) (enumerate_nth a 0 i c Hc)). cbn beta iota in K. apply shape_eqb_eq in K.
  exists (firstn (length (ishape c) - i * length X) (ishape c)). rewrite <- K. symmetry. apply firstn_skipn.
Qed.

Theorem C79_trailing_axes : forall (sc : scalars T) gs pr consts max_deg propagate (x0 : tensor T) region b i c,
  taylor_bounds sc gs pr consts max_deg propagate x0 region = Ok b ->
  nth_error (tb_coefficients b) i = Some c ->
  exists s, ishape c = s ++ rep i (tshape x0).
Proof.
  intros sc gs pr consts md propagate x0 region b i c H. unfold taylor_bounds in H.
  apply bind_ok in H. destruct H as (d & Hd & H). apply bind_ok in H. destruct H as (v & _ & H). apply bind_ok in H. destruct H as (j & Hj & H). injection H as <-.
  cbn [tb_coefficients]. apply validated. destruct v as [n|n|]; cbn [get_intermediate] in Hj; try discriminate.
  - destruct (dlookup d n) as [j'|] eqn:E; [|discriminate]. injection Hj as <-. exact (interpret_checked _ _ _ _ _ _ _ _ _ Hd n j' E).
  - injection Hj as <-. apply validate_const.
Qed.
End Shapes.
Print Assumptions C79_trailing_axes.

(** * Numbers *)
Lemma entries_app a b : entries (a ++ b) = entries a * entries b.
Proof. induction a as [|n a IH]; cbn [entries app]; [lia|]. rewrite IH. lia. Qed.
Lemma entries_rep i X : entries (rep i X) = entries X ^ i.
Proof. induction i as [|i IH]; [reflexivity|]. cbn [rep Nat.pow]. rewrite entries_app, IH. reflexivity. Qed.
Lemma entries_pos S s : valid S s -> 1 <= entries S.
Proof.
  unfold valid. induction 1 as [|n i l m H _ IH]; cbn [entries]; [lia|]. nia.
Qed.
Lemma entries_compat p S : (exists s, valid S s) -> compat p S -> entries p <= entries S.
Proof.
  intros [s Hs] (pre & b' & -> & HF). rewrite entries_app.
  apply Forall2_app_inv_r in Hs || apply Forall2_app_inv_l in Hs. destruct Hs as (l1 & l2 & H1 & H2 & _).
  assert (1 <= entries pre) by (eapply entries_pos; eauto). assert (L : entries p <= entries b').
  { clear H1 H. revert l2 H2. induction HF as [|x y p b' Hd HF IH]; intros l2 H2; cbn [entries]; [lia|]. inversion H2; subst.
    specialize (IH _ H4). destruct Hd as [->| ->]; nia. }
  nia.
Qed.
Lemma hcast_shaped X S e z f : (exists s, valid S s) -> encloses (hcast S) X S e z f ->
  forall i c, nth_error e i = Some c -> exists p, compat p S /\ wfs (p ++ rep i X) c.
Proof.
  intros [s Hs] [_ H] i c Hc. specialize (H s Hs). apply encl_from_F2i in H. destruct H as (us & HF & _).
  assert (exists u, nth_error us i = Some u) as [u Hu].
  { pose proof (F2i_length _ _ _ _ HF). destruct (nth_error us i) eqn:E; eauto. apply nth_error_None in E.
    assert (i < length e) by (apply nth_error_Some; congruence). lia. }
  destruct (F2i_nth _ _ _ _ _ _ _ HF Hc Hu) as (p & Hp & W & _). exists p. split; [exact (proj1 Hp)|exact W].
Qed.
Lemma wfs_size sh c : wfs sh c -> coef_size c <= 2 * entries sh /\ (is_arr c -> coef_size c = entries sh).
Proof.
  destruct c as [t|l h]; cbn [wfs coef_size]; [intros ->; lia|intros [-> ->]]. split; [lia|]. intros [t Ht]. discriminate.
Qed.
Lemma total_size_app {T} (a b : list (coef T)) : total_size (a ++ b) = total_size a + total_size b.
Proof. induction a as [|c a IH]; cbn [app total_size fold_right]; [reflexivity|]. fold (total_size (a ++ b)) (total_size a). lia. Qed.
Lemma powers_sum_pos n d : 1 <= powers_sum n d.
Proof. induction d; cbn [powers_sum]; lia. Qed.
Lemma sizes_bound m n : forall (e : list (coef R)) k,
  (forall i c, nth_error e i = Some c -> coef_size c <= m * n ^ (k + i)) -> k = 0 ->
  e <> [] -> total_size e <= m * powers_sum n (length e - 1).
Proof.
  intros e k H ->. induction e as [|c e IH] using rev_ind; [congruence|]. intros _. rewrite total_size_app, app_length. cbn [total_size fold_right length].
  replace (length e + 1 - 1) with (length e) by lia. assert (Hc : coef_size c <= m * n ^ length e).
  { apply (H (length e)). rewrite nth_error_app2, Nat.sub_diag by lia. reflexivity. }
  destruct e as [|c0 e']; [cbn [total_size fold_right length powers_sum Nat.pow] in *; lia|].
  assert (L : total_size (c0 :: e') <= m * powers_sum n (length (c0 :: e') - 1)).
  { apply IH; [|discriminate]. intros i x Hx. apply H. rewrite nth_error_app1; auto. apply nth_error_Some. congruence. }
  assert (E : powers_sum n (length (c0 :: e')) = powers_sum n (length (c0 :: e') - 1) + n ^ length (c0 :: e')).
  { cbn [length]. rewrite Nat.sub_succ, Nat.sub_0_r. reflexivity. }
  rewrite E, Nat.mul_add_distr_l. lia.
Qed.
Lemma powers_sum_mono n d d' : d <= d' -> powers_sum n d <= powers_sum n d'.
Proof. induction 1; cbn [powers_sum]; lia. Qed.

(** All coefficients below the last are arrays, so at most the last counts twice. *)
Theorem C79_size_bound : forall sc gs pr consts max_deg propagate x0 region b,
  valid_generators sc gs -> (forall o, In o (gops (p_graph pr)) -> opaque_ok (odata o)) ->
  in_box x0 region x0 -> supported sc (tshape x0) (Z.to_nat max_deg) pr consts x0 ->
  taylor_bounds sc gs pr consts max_deg propagate x0 region = Ok b ->
  exists y, meaning sc pr consts x0 = Some [y] /\
    let n := entries (tshape x0) in let d := Z.to_nat max_deg in
    (forall i c, nth_error (tb_coefficients b) i = Some c -> exists p, compat p (tshape y) /\ wfs (p ++ rep i (tshape x0)) c) /\
    total_size (tb_coefficients b) <= entries (tshape y) * (powers_sum n d + n ^ d).
Proof.
  intros sc gs pr consts md propagate x0 region b HG HO B0 HS H.
  destruct (output_ok _ _ _ _ _ _ _ _ _ _ HG HO B0 B0 HS H) as (y & k & HM & E0 & _ & NV & _ & (HH & PB & LB & _)).
  exists y. split; [auto|]. cbn zeta. set (n := entries (tshape x0)). set (d := Z.to_nat md) in *. clearbody d.
  pose proof (holds_hcast _ _ _ _ _ HH) as HE. pose proof (hcast_shaped _ _ _ _ _ NV HE) as HW. split; [exact HW|].
  set (cs := tb_coefficients b) in *. clearbody cs. set (m := entries (tshape y)). 
  assert (K : forall i c, nth_error cs i = Some c -> coef_size c <= 2 * (m * n ^ i) /\ (i < d -> coef_size c <= m * n ^ i)).
  { intros i c Hc. destruct (HW i c Hc) as (p & Hp & W). destruct (wfs_size _ _ W) as [K1 K2]. rewrite entries_app, entries_rep in *.
    pose proof (entries_compat _ _ NV Hp) as L. fold m in L. fold n in K1, K2. assert (entries p * n ^ i <= m * n ^ i) by (apply Nat.mul_le_mono_r; auto).
    split; [lia|]. intros Hi. rewrite K2; auto. exact (PB i c Hi Hc). }
  assert (Hne : cs <> []) by exact (proj1 HE).
  destruct cs as [|c cs _] using rev_ind; [congruence|]. rewrite app_length in LB. cbn [length] in LB.
  assert (Kc : coef_size c <= 2 * (m * n ^ length cs) /\ (length cs < d -> coef_size c <= m * n ^ length cs)).
  { apply K. rewrite nth_error_app2, Nat.sub_diag by lia. reflexivity. }
  assert (Kcs : cs <> [] -> total_size cs <= m * powers_sum n (length cs - 1)).
  { intros Hcs. apply (sizes_bound m n cs 0); auto. intros i x Hx. assert (i < length cs) by (apply nth_error_Some; congruence).
    apply (K i x); [rewrite nth_error_app1; auto|lia]. }
  rewrite total_size_app. cbn [total_size fold_right]. rewrite Nat.add_0_r.
  assert (Ks : total_size cs + m * n ^ length cs <= m * powers_sum n (length cs)).
  { destruct cs as [|c0 cs]; [cbn [total_size fold_right length powers_sum Nat.pow]; lia|]. specialize (Kcs ltac:(discriminate)).
    cbn [length] in *. rewrite Nat.sub_succ, Nat.sub_0_r in Kcs. cbn [powers_sum]. lia. }
  destruct (Nat.eq_dec (length cs) d) as [Ed|Nd].
  - rewrite Ed in *. rewrite Nat.mul_add_distr_l. lia.
  - assert (Ld : length cs < d) by lia. destruct Kc as [_ Kc]. specialize (Kc Ld).
    assert (m * powers_sum n (length cs) <= m * powers_sum n d) by (apply Nat.mul_le_mono_l, powers_sum_mono; lia). rewrite Nat.mul_add_distr_l. lia.
Qed.
Print Assumptions C79_size_bound.
(** * A program whose coefficients are all full *)
Section Witness.
Variables (sc : scalars R) (gs : generators R) (m n : nat) (x0 : tensor R) (region : tensor R * tensor R).
Hypothesis Hm : 1 <= m.
Hypothesis Hn : 1 <= n.
Hypothesis HX : tshape x0 = [n].
Hypothesis B0 : in_box x0 region x0.

Lemma power_sum_run propagate b : taylor_bounds sc gs (power_sum m) [] (Z.of_nat m) propagate x0 region = Ok b ->
  exists tr q, in_region [n] tr (fun _ => 0%R) /\ length q = m + 1 /\ epower_nat (mkArith m tr) [Arr x0; Arr (teye n)] m = Ok q /\ map_over_enclosure q (gather (g_reduce_sum [0])) = Ok (tb_coefficients b).
Proof.
  intro H. unfold taylor_bounds in H. apply bind_ok in H. destruct H as (d & Hd & H). cbn [p_graph power_sum gouts bind] in H.
  apply bind_ok in H. destruct H as (j & Hj & H). injection H as <-. cbn [tb_coefficients].
  unfold interpret in Hd. destruct (Z.of_nat m <? 0)%Z; [discriminate|]. rewrite Nat2Z.id in Hd.
  apply bind_ok in Hd. destruct Hd as (t & Ht & Hd). apply bind_ok in Hd. destruct Hd as (tr & Htr & Hd). apply bind_ok in Hd. destruct Hd as (A & HA & Hd).
  apply bind_ok in Hd. destruct Hd as (A0 & _ & Hd). apply bind_ok in Hd. destruct Hd as (eye & Heye & Hd).
  destruct B0 as (_ & Q1 & Q2 & Q). rewrite HX in Q1, Q2, Q.
  cbn [isub] in Ht. apply bind_ok in Ht. destruct Ht as (tl & Htl & Ht). apply bind_ok in Ht. destruct Ht as (th & Hth & Ht). injection Ht as <-. injection Htr as <-.
  pose proof (tmap2_same_ok _ _ _ _ [n] Htl Q1 HX) as [Stl Etl]. pose proof (tmap2_same_ok _ _ _ _ [n] Hth Q2 HX) as [Sth Eth].
  assert (RZ : in_region [n] (tl, th) (fun _ => 0%R)).
  { split; [auto|]. split; [auto|]. intros J HJ. simpl. rewrite Etl, Eth by auto. simpl. specialize (Q J HJ). lra. }
  assert (EA : A = mkArith m (tl, th)). { unfold make_arith in HA. destruct (shape_eqb _ _); [|discriminate]. injection HA as <-. reflexivity. }
  subst A. clear HA.
  unfold identity in Heye. rewrite HX in Heye. injection Heye as <-.
  replace (0 <? m) with true in Hd by (symmetry; apply Nat.ltb_lt; lia).
  cbn [power_sum p_graph p_lits gins gouts gdata gops combine length Nat.eqb guard bind foldM] in Hd.
  apply bind_ok in Hd. destruct Hd as (d1 & H1 & Hd). apply bind_ok in Hd. destruct Hd as (d2 & H2 & Hd). injection Hd as ->.
  unfold step in H1. cbn [oins oouts odata mapM get_intermediate dlookup Nat.eqb bind existsb is_constant i_enc negb orb length] in H1.
  apply bind_ok in H1. destruct H1 as (o1 & H1 & S1). apply bind_ok in H1. destruct H1 as (e1 & P1 & H1). apply bind_ok in H1. destruct H1 as (r1 & _ & H1). injection H1 as <-.
  cbn [store dlookup Nat.eqb] in S1. apply bind_ok in S1. destruct S1 as ([] & _ & S1). injection S1 as <-.
  cbn [pushforward i_enc] in P1. unfold epower in P1. replace (0 <=? Z.of_nat m)%Z with true in P1 by (symmetry; apply Z.leb_le; lia). rewrite Nat2Z.id in P1.
  assert (L1 : length e1 = m + 1).
  { unfold epower_nat in P1. apply bind_ok in P1. destruct P1 as (_ & _ & P1). apply bind_ok in P1. destruct P1 as (q & Hq & P1).
    destruct (enclose_shape _ _ _ _ P1) as (Lq & _). cbn [max_degree] in Lq. rewrite Lq.
    unfold integer_power in Hq. destruct (Z.ltb_spec (Z.of_nat m) 0); [lia|]. destruct (Z.eqb_spec (Z.of_nat m) 0); [lia|].
    apply mapM_length in Hq. rewrite seq_length, Nat2Z.id in Hq. cbn [length] in Hq. lia. }
  unfold step in H2. cbn [oins oouts odata mapM get_intermediate dlookup Nat.eqb bind existsb i_enc negb orb length] in H2.
  assert (NC : is_constant (Inter e1 r1) = false). { unfold is_constant. cbn [i_enc]. destruct e1 as [|[?|] [|]]; cbn [length] in L1; auto; lia. }
  rewrite NC in H2. cbn [negb orb] in H2.
  apply bind_ok in H2. destruct H2 as (o2 & H2 & S2). apply bind_ok in H2. destruct H2 as (e2 & P2 & H2). apply bind_ok in H2. destruct H2 as (r2 & _ & H2). injection H2 as <-.
  cbn [store dlookup Nat.eqb] in S2. apply bind_ok in S2. destruct S2 as ([] & _ & S2). injection S2 as <-.
  cbn [get_intermediate dlookup Nat.eqb] in Hj. injection Hj as <-. cbn [i_enc]. exists (tl, th), e1. split; [auto|]. split; [auto|]. split; [auto|]. exact P2.
Qed.

Lemma drop_after : forall l j, 1 <= j -> drop_axes j [0] l = l.
Proof.
  induction l as [|a l IH]; intros j Hj; cbn [drop_axes]; [reflexivity|]. destruct j as [|j]; [lia|]. cbn [memb Nat.eqb orb]. rewrite IH by lia. reflexivity.
Qed.
Lemma sum_shape s u v : tshape u = n :: s -> gather (g_reduce_sum [0]) u = Ok v -> tshape v = s.
Proof.
  intros E H. unfold gather in H. apply bind_ok in H. destruct H as (sh & Hs & H). injection H as <-. cbn [tshape]. rewrite E in Hs.
  cbn [g_reduce_sum g_shape] in Hs. destruct (_ && _)%bool; [|discriminate]. injection Hs as <-. cbn [drop_axes memb existsb Nat.eqb orb]. apply drop_after. lia.
Qed.
Lemma power_sum_full propagate b : taylor_bounds sc gs (power_sum m) [] (Z.of_nat m) propagate x0 region = Ok b ->
  length (tb_coefficients b) = m + 1 /\ forall i c, nth_error (tb_coefficients b) i = Some c -> wfs (rep i [n]) c.
Proof.
  intro H. destruct (power_sum_run _ _ H) as (tr & q & RZ & Lq & HP & HM). pose proof (mapM_length _ _ _ HM) as LM. split; [lia|].
  assert (NV : exists s, valid [n] s). { exists [0]. constructor; [lia|constructor]. }
  assert (E0 : encloses (hcast [n]) [n] [n] [Arr x0; Arr (teye n)] (fun _ => 0%R) (tdata x0)).
  { assert (Ee : identity x0 = Ok (teye n)) by (unfold identity; rewrite HX; reflexivity).
    pose proof (x0_approx x0 x0 (teye n) region m Hm eq_refl Ee) as (K & _). replace (0 <? m) with true in K by (symmetry; apply Nat.ltb_lt; lia).
    apply holds_hcast in K. rewrite HX in K. replace (fun J => (tdata x0 J - tdata x0 J)%R) with (fun _ : list nat => 0%R) in K; [exact K|].
    apply FunctionalExtensionality.functional_extensionality. intros J. lra. }
  pose proof (pow_full [n] tr m (fun _ => 0%R) RZ [n] NV _ m q _ E0 HP) as EF. pose proof (full_shaped _ _ _ _ _ NV EF) as SH.
  intros i c Hc. destruct (mapM_nth _ _ _ _ _ HM Hc) as (u & Hu & Hf). specialize (SH i u Hu). cbn [app] in SH.
  destruct u as [t|l h]; cbn [map_coef wfs] in Hf, SH.
  - apply bind_ok in Hf. destruct Hf as (v & Hv & Hf). injection Hf as <-. exact (sum_shape _ _ _ SH Hv).
  - apply bind_ok in Hf. destruct Hf as (v & Hv & Hf). apply bind_ok in Hf. destruct Hf as (w & Hw & Hf). injection Hf as <-. destruct SH as [S1 S2].
    split; [exact (sum_shape _ _ _ S1 Hv)|exact (sum_shape _ _ _ S2 Hw)].
Qed.
Lemma power_sum_size propagate b : taylor_bounds sc gs (power_sum m) [] (Z.of_nat m) propagate x0 region = Ok b ->
  n ^ m <= total_size (tb_coefficients b).
Proof.
  intros H. destruct (power_sum_full _ _ H) as [L W]. set (cs := tb_coefficients b) in *. clearbody cs. clear H b.
  destruct cs as [|c cs _] using rev_ind; [cbn [length] in L; lia|]. rewrite app_length in L. cbn [length] in L. rewrite total_size_app. cbn [total_size fold_right].
  assert (Wc : wfs (rep m [n]) c). { apply (W m). rewrite nth_error_app2 by lia. replace (m - length cs) with 0 by lia. reflexivity. }
  assert (E : entries (rep m [n]) = n ^ m) by (rewrite entries_rep; cbn [entries]; rewrite Nat.mul_1_r; reflexivity).
  destruct c as [t|l h]; cbn [wfs coef_size] in *; [rewrite Wc, E; lia|destruct Wc as [-> ->]; rewrite E; lia].
Qed.

Lemma power_prim : prim_bind sc (integer_pow_p (Z.of_nat m)) [x0] = Ok [tmap (fun x => npow x m) x0].
Proof. cbn [prim_bind]. replace (0 <=? Z.of_nat m)%Z with true by (symmetry; apply Z.leb_le; lia). rewrite Nat2Z.id. reflexivity. Qed.
Lemma sum_prim : exists y, tshape y = [] /\ prim_bind sc (reduce_sum_p [0]) [tmap (fun x => npow x m) x0] = Ok [y].
Proof. cbn [prim_bind gather_of]. unfold one_res, gather. cbn [tshape tmap g_reduce_sum g_shape]. rewrite HX. cbn [length forallb Nat.ltb Nat.leb nodupb memb existsb andb negb bind drop_axes Nat.eqb orb]. eexists. split; [|reflexivity]. reflexivity. Qed.
Lemma power_sum_meaning : exists y, tshape y = [] /\ meaning sc (power_sum m) [] x0 = Some [y].
Proof.
  destruct sum_prim as (y & Sy & Ey). exists y. split; [auto|]. unfold meaning, run_graph.
  cbn -[prim_bind Z.of_nat]. rewrite power_prim. cbn -[prim_bind Z.of_nat]. rewrite Ey. reflexivity.
Qed.
Lemma power_sum_supported D : supported sc (tshape x0) D (power_sum m) [] x0.
Proof.
  destruct sum_prim as (y & Sy & Ey). split; [|split; [constructor|split; [reflexivity|]]].
  - rewrite HX. destruct n; [lia|reflexivity].
  - do 3 eexists. split; [reflexivity|]. split; [reflexivity|].
    cbn -[prim_bind Z.of_nat nonempty result_kind]. rewrite power_prim. cbn -[prim_bind Z.of_nat nonempty result_kind].
    replace (nonempty (tshape x0)) with true by (rewrite HX; clear - Hn; destruct n; [lia|reflexivity]).
    cbn -[prim_bind Z.of_nat nonempty Z.ltb Z.eqb]. replace (Z.of_nat m <? 0)%Z with false by (symmetry; apply Z.ltb_ge; lia).
    replace (Z.of_nat m =? 0)%Z with false by (symmetry; apply Z.eqb_neq; lia). cbn -[prim_bind Z.of_nat nonempty Z.ltb Z.eqb].
    rewrite Ey. cbn -[Z.of_nat]. rewrite Sy. reflexivity.
Qed.
Lemma power_sum_accepted propagate : accepted_program sc gs (Z.of_nat m) propagate (power_sum m) [] x0.
Proof.
  destruct sum_prim as (y & Sy & Ey).
  intros r k Hr Hk. injection Hr as <-. injection Hk as <-.
  cbn -[prim_bind Z.of_nat result_kind forallb]. intros a1 ks1 v1 kd1 r1 k1 A1 K1 V1 D1 R1 Q1. injection A1 as <-. injection K1 as <-.
  rewrite power_prim in V1. injection V1 as <-. cbn -[Z.of_nat Z.ltb Z.eqb] in D1. injection R1 as <-. injection Q1 as <-.
  split; [cbn -[Z.of_nat]; split; [lia|intros; lia]|].
  intros a2 ks2 v2 kd2 r2 k2 A2 K2 V2 D2 R2 Q2. cbn in A2, K2. injection A2 as <-. injection K2 as <-.
  split; [|exact Logic.I]. destruct kd1; exact Logic.I.
Qed.
Lemma power_sum_returns propagate : exists b, taylor_bounds sc gs (power_sum m) [] (Z.of_nat m) propagate x0 region = Ok b.
Proof.
  destruct power_sum_meaning as (y & _ & HM).
  refine (C60_polynomials_return sc gs (power_sum m) [] (Z.of_nat m) propagate x0 region y _ _ _ _ B0 _ _ HM _).
  - intros o [<-|[<-|[]]]; cbn [odata no_generator]; [lia|exact Logic.I].
  - intros o [<-|[<-|[]]]; exact Logic.I.
  - lia.
  - rewrite HX. cbn. lia.
  - split; [eexists; reflexivity|]. split; [eexists; split; [reflexivity|discriminate]|]. split; [constructor|]. split; [reflexivity|].
    split; [repeat constructor|]. split; [cbn; repeat constructor; cbn; intuition discriminate|].
    intros o [<-|[<-|[]]]; cbn; intuition discriminate.
  - apply power_sum_supported.
  - apply power_sum_accepted.
Qed.
End Witness.

(** sum (x ** m) at any vector x of any length n is bounded at degree m, and the
    coefficient number i is an array of n ^ i numbers. *)
Theorem C79_power_sum_is_full : forall sc gs m n x0 region propagate, 1 <= m -> 1 <= n -> tshape x0 = [n] -> in_box x0 region x0 ->
  (exists y, tshape y = [] /\ meaning sc (power_sum m) [] x0 = Some [y]) /\
  exists b, taylor_bounds sc gs (power_sum m) [] (Z.of_nat m) propagate x0 region = Ok b /\
    length (tb_coefficients b) = m + 1 /\
    (forall i c, nth_error (tb_coefficients b) i = Some c -> wfs (rep i [n]) c) /\
    n ^ m <= total_size (tb_coefficients b).
Proof.
  intros sc gs m n x0 region propagate Hm Hn HX B0. split; [eapply power_sum_meaning; eauto|].
  destruct (power_sum_returns sc gs m n x0 region Hm Hn HX B0 propagate) as [b Hb]. exists b. split; [auto|].
  destruct (power_sum_full sc gs m n x0 region Hm Hn HX B0 propagate b Hb) as [L W]. split; [auto|]. split; [auto|].
  exact (power_sum_size sc gs m n x0 region Hm Hn HX B0 propagate b Hb).
Qed.

(** README: "the memory requirements are linear in the input dimension": not for
    degrees above 1. *)
Theorem C79_linear_memory_refuted : forall sc gs (m K : nat), 2 <= m -> exists n,
  1 <= n /\ forall x0 region propagate, tshape x0 = [n] -> in_box x0 region x0 ->
  exists b, taylor_bounds sc gs (power_sum m) [] (Z.of_nat m) propagate x0 region = Ok b /\ K * n < total_size (tb_coefficients b).
Proof.
  intros sc gs m K Hm. exists (S K). split; [lia|]. intros x0 region propagate HX B0.
  destruct (C79_power_sum_is_full sc gs m (S K) x0 region propagate ltac:(lia) ltac:(lia) HX B0) as (_ & b & Hb & _ & _ & L). exists b. split; [auto|].
  destruct m as [|[|m]]; [lia|lia|]. assert (1 <= S K ^ m) by (apply Nat.neq_0_lt_0, Nat.pow_nonzero; lia).
  change (S K ^ S (S m)) with (S K * (S K * S K ^ m)) in L. nia.
Qed.
Print Assumptions C79_linear_memory_refuted.

(** The hypotheses of [C79_size_bound] and of [C79_trailing_axes] are met by
    sum (x ** 2) for x of shape (3,): at least 9 and at most 22 numbers. *)
Example C79_nonvacuous : let x0 := mkT [3] (fun _ => 0%R) in let region := (mkT [3] (fun _ => (-1)%R), mkT [3] (fun _ => 1%R)) in
  valid_generators (scalarsR no_usr) (checked_generators no_ugen) /\
  (forall o, In o (gops (p_graph (power_sum 2))) -> opaque_ok (odata o)) /\
  in_box x0 region x0 /\ supported (scalarsR no_usr) (tshape x0) 2 (power_sum 2) [] x0 /\
  exists b, taylor_bounds (scalarsR no_usr) (checked_generators no_ugen) (power_sum 2) [] 2 false x0 region = Ok b /\
    9 <= total_size (tb_coefficients b) <= 22.
Proof.
  cbn zeta. set (x0 := mkT [3] (fun _ => 0%R)). set (region := (mkT [3] (fun _ => (-1)%R), mkT [3] (fun _ => 1%R))).
  assert (HV : valid_generators (scalarsR no_usr) (checked_generators no_ugen)) by (apply checked_valid, no_user_valid).
  assert (HO : forall o, In o (gops (p_graph (@power_sum R _ 2))) -> opaque_ok (odata o)) by (intros o [<-|[<-|[]]]; exact Logic.I).
  assert (B0 : in_box x0 region x0).
  { split; [reflexivity|]. split; [reflexivity|]. split; [reflexivity|]. intros J _. unfold x0, region. cbn [tdata fst snd]. lra. }
  assert (HS : supported (scalarsR no_usr) (tshape x0) 2 (power_sum 2) [] x0) by (apply (power_sum_supported _ 2 3); [lia|lia|reflexivity]).
  repeat (split; [assumption|]).
  destruct (C79_power_sum_is_full (scalarsR no_usr) (checked_generators no_ugen) 2 3 x0 region false ltac:(lia) ltac:(lia) eq_refl B0) as ((y & Sy & HM) & b & Hb & _ & _ & L).
  exists b. split; [exact Hb|]. split; [exact L|].
  destruct (C79_size_bound _ _ _ _ 2%Z _ _ _ b HV HO B0 HS Hb) as (y' & HM' & _ & U). rewrite HM' in HM. injection HM as ->. rewrite Sy in U. exact U.
Qed.
