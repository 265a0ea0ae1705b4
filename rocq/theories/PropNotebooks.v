(** Properties C67 (integral bounds), C68 (minimize_1d_quadratic) and C69 (safe
    learning rates, SafeRate). *)
From Coq Require Import Reals Lra Psatz.
From Coquelicot Require Import Coquelicot.
From Verif Require Import Base Tensor IntervalArith Polynomials Enclosure TensorLemmas Spec IntervalProofs PowerProofs PolyProofs Graded
  EnclosureOps EnclosureProofs BilinearProofs PropEnclosure PropDegree GraphEditor GraphSpec JaxBound JaxSpec JaxLemmas JaxOps JaxInit PropJax
  TaylorSpec PropTaylor Notebooks NotebookSpec.
Open Scope R_scope.

(** * Scalar enclosures *)
Lemma compat_nil_r p : compat p [] -> p = [].
Proof. intros (b & q & E & H). symmetry in E. apply app_eq_nil in E. destruct E as [-> ->]. inversion H. reflexivity. Qed.
Lemma rep_nil i : rep i (@nil nat) = [].
Proof. induction i; auto. Qed.
Lemma zpow_nil_index z i : zpow 0 z i [] = z [] ^ i.
Proof. induction i as [|i IH]; cbn [zpow pow]; [reflexivity|]. simpl firstn. simpl skipn. rewrite IH. reflexivity. Qed.
Lemma term_value_scalar z i A : term_value [] z i A = A [] * z [] ^ i.
Proof. unfold term_value. rewrite rep_nil. cbn [sumi length]. rewrite zpow_nil_index. reflexivity. Qed.

(** The polynomial with coefficients [l] of degree [i] on. *)
Fixpoint pv (i : nat) (l : list R) (z : R) : R := match l with [] => 0 | c :: r => c * z ^ i + pv (S i) r z end.

Definition lof (c : coef R) : res R := match c with Ivl l _ => to_float l | Arr t => to_float t end.
Definition hif (c : coef R) : res R := match c with Ivl _ h => to_float h | Arr t => to_float t end.
Lemma to_float_nil (t : tensor R) v : tshape t = [] -> to_float t = Ok v -> v = tdata t [].
Proof. intros E. unfold to_float. rewrite E. simpl. congruence. Qed.
Lemma even_pow z D : Nat.Even D -> 0 <= z ^ D.
Proof. intros [m ->]. rewrite pow_mult. apply pow_le. simpl. nra. Qed.

Lemma scalar_between z D : Nat.Even D \/ 0 <= z [] -> forall e i v ls hs,
  (forall j c, nth_error e j = Some c -> (exists t, c = Arr t) \/ (i + j)%nat = D) ->
  encl_from (bcast []) [] z [] i e v -> mapM lof e = Ok ls -> mapM hif e = Ok hs -> pv i ls (z []) <= v <= pv i hs (z []).
Proof.
  intros HD. assert (HZ : 0 <= z [] ^ D) by (destruct HD; [apply even_pow|apply pow_le]; auto).
  induction e as [|c e IH]; intros i v ls hs HP HE HL HH.
  - injection HL as <-. injection HH as <-. cbn [encl_from] in HE. subst v. simpl. lra.
  - cbn [mapM] in HL, HH. apply bind_ok in HL. destruct HL as (l0 & L0 & HL). apply bind_ok in HL. destruct HL as (ls' & L1 & HL). injection HL as <-.
    apply bind_ok in HH. destruct HH as (h0 & H0 & HH). apply bind_ok in HH. destruct HH as (hs' & H1 & HH). injection HH as <-.
    destruct HE as (u & w & (p & Cp & W & A & HA & ->) & HE & ->).
    assert (Q := IH (S i) w ls' hs' (fun j c' Hj => match HP (S j) c' Hj with or_introl P => or_introl P | or_intror P => or_intror (eq_trans (plus_n_Sm _ _) P) end) HE L1 H1).
    cbn [pv]. rewrite term_value_scalar. rewrite rep_nil, app_nil_r in W. assert (p = []) by (apply compat_nil_r in Cp; auto). subst p.
    specialize (HA [] ltac:(rewrite rep_nil; constructor)). cbn [bidx app] in HA. apply inat_iff in HA.
    destruct (HP 0%nat c eq_refl) as [[t ->]|E].
    + unfold lof, hif in L0, H0. apply to_float_nil in L0; [|exact W]. apply to_float_nil in H0; [|exact W]. subst l0 h0. simpl in HA. assert (A [] = tdata t []) by lra. rewrite H. lra.
    + rewrite Nat.add_0_r in E. subst i. destruct c as [t|tl th]; unfold lof, hif in L0, H0; cbn [wfs] in W.
      * apply to_float_nil in L0; [|exact W]. apply to_float_nil in H0; [|exact W]. subst l0 h0. simpl in HA. assert (A [] = tdata t []) by lra. rewrite H. lra.
      * apply to_float_nil in L0; [|apply W]. apply to_float_nil in H0; [|apply W]. subst l0 h0. simpl in HA. nra.
Qed.

(** What taylor_bounds says about a function of a number. *)
Lemma scalar_bounds sc gs pr consts D prop x0 l h b x v :
  valid_generators sc gs -> (forall o, In o (gops (p_graph pr)) -> opaque_ok (odata o)) ->
  l <= x0 <= h -> l <= x <= h -> computes sc (Z.to_nat D) pr consts x v ->
  taylor_bounds sc gs pr consts D prop (tscalar x0) (tscalar l, tscalar h) = Ok b ->
  encl_from (bcast []) [] (fun _ => x - x0) [] 0 (tb_coefficients b) v /\
  (forall j c, nth_error (tb_coefficients b) j = Some c -> (exists t, c = Arr t) \/ (0 + j)%nat = Z.to_nat D) /\
  (forall j c, nth_error (tb_coefficients b) j = Some c -> wfs [] c) /\
  (0 < length (tb_coefficients b) <= Z.to_nat D + 1)%nat.
Proof.
  intros HG HO H0 Hx (HS & y & HM & Sy & <-) H.
  assert (Bx : forall x, l <= x <= h -> in_box (tscalar x0) (tscalar l, tscalar h) (tscalar x)) by (intros u Hu; repeat split; auto; simpl; lra).
  destruct (output_ok _ _ _ _ _ _ _ _ _ _ HG HO (Bx _ H0) (Bx _ Hx) HS H) as (y' & k & HM' & _ & _ & NV & _ & (HH & HP & HL)).
  rewrite HM in HM'. injection HM' as <-. pose proof (encloses_mono _ _ _ _ _ _ _ (hcast_bcast _) (holds_hcast _ _ _ _ _ HH)) as (Hne & HE).
  rewrite Sy in HE. specialize (HE [] ltac:(constructor)). change (tshape (tscalar x0)) with (@nil nat) in HE.
  split; [exact HE|]. split; [|split].
  - intros j c Hj. assert (Hlt : (j < length (tb_coefficients b))%nat) by (apply nth_error_Some; congruence). simpl. destruct (Nat.eq_dec j (Z.to_nat D)); auto. left. apply (HP j); auto. lia.
  - intros j c Hj. apply encl_from_F2i in HE. destruct HE as (us & HF & _). destruct (nth_error us j) as [u|] eqn:Eu; [|apply nth_error_None in Eu; rewrite <- (F2i_length _ _ _ _ HF) in Eu; apply nth_error_None in Eu; congruence].
    destruct (F2i_nth _ _ _ _ _ _ _ HF Hj Eu) as (p & Cp & W & _).
    rewrite rep_nil, app_nil_r in W. apply compat_nil_r in Cp. subst p. exact W.
  - split; [|lia]. destruct (tb_coefficients b); [congruence|simpl; lia].
Qed.

(** * C67 *)
Lemma antiderivative_derive l : forall i x, is_derive (antiderivative Rdiv i l) x (pv i l x).
Proof.
  induction l as [|c l IH]; intros i x; cbn [antiderivative pv].
  - apply (is_derive_const (V := R_NormedModule) 0).
  - apply (is_derive_plus (V := R_NormedModule) (fun x => c * npow x (i + 1) / IZR (Z.of_nat (i + 1))) (antiderivative Rdiv (S i) l)); [|apply IH].
    apply is_derive_ext with (f := fun x => c / INR (i + 1) * x ^ (i + 1)).
    { intros t. rewrite <- INR_IZR_INZ. rewrite npow_pow. match goal with |- @eq _ ?a ?b => change (@eq R a b) end. unfold Rdiv. ring. }
    replace (c * x ^ i) with (c / INR (i + 1) * (INR (i + 1) * 1 * x ^ pred (i + 1))).
    2:{ replace (pred (i + 1)) with i by lia. field. apply not_0_INR. lia. }
    apply is_derive_scal. apply is_derive_pow. exact (is_derive_id (K := R_AbsRing) x).
Qed.
Lemma pv_derive l : forall i x, ex_derive (pv i l) x.
Proof.
  induction l as [|c l IH]; intros i x; cbn [pv]; [apply ex_derive_const|]. apply (ex_derive_plus (V := R_NormedModule) (fun x => c * x ^ i)); [|apply IH].
  auto_derive. auto.
Qed.
Lemma integrate_RInt l x0 a b : is_RInt (fun x => pv 0 l (x - x0)) a b (integrate Rdiv l (a - x0) (b - x0)).
Proof.
  refine (is_RInt_derive (V := R_CompleteNormedModule) (fun x => antiderivative Rdiv 0 l (x - x0)) (fun x => pv 0 l (x - x0)) a b _ _).
  - intros x _. evar_last.
    + apply (is_derive_comp (V := R_NormedModule) (antiderivative Rdiv 0 l) (fun x => x - x0) x (pv 0 l (x - x0)) 1); [apply antiderivative_derive|]. auto_derive; auto; ring.
    + exact (Rmult_1_l (pv 0 l (x - x0))).
  - intros x _. apply (ex_derive_continuous (fun x => pv 0 l (x - x0))). apply (ex_derive_comp (pv 0 l) (fun x => x - x0)); [apply pv_derive|]. auto_derive. auto.
Qed.

Theorem C67_integral_bounds_one_cell : forall sc gs pr consts degree f a b l u,
  valid_generators sc gs -> (forall o, In o (gops (p_graph pr)) -> opaque_ok (odata o)) -> a <= b ->
  (forall x, a <= x <= b -> computes sc (Z.to_nat degree) pr consts x (f x)) -> ex_RInt f a b ->
  integral_bound_v0 sc gs Rdiv pr consts a b degree = Ok (l, u) ->
  l <= RInt f a b <= u.
Proof.
  intros sc gs pr consts degree f a b l u HG HO Hab HC HI H. unfold integral_bound_v0 in H.
  destruct (negb _) eqn:EM in H; [discriminate|]. apply Bool.negb_false_iff, Z.eqb_eq in EM.
  apply bind_ok in H. destruct H as (bd & Hb & H). apply bind_ok in H. destruct H as (ls & Hl & H). apply bind_ok in H. destruct H as (hs & Hh & H). injection H as <- <-.
  change (nadd a b) with (a + b) in *. change (nofZ 2) with 2 in *. set (x0 := (a + b) / 2) in *. change (nsub a x0) with (a - x0). change (nsub b x0) with (b - x0).
  assert (Ev : Nat.Even (Z.to_nat degree)).
  { destruct (Z_lt_le_dec degree 0); [exists 0%nat; destruct degree; simpl; lia|]. exists (Z.to_nat (degree / 2)). rewrite <- (Z2Nat.inj_mul 2) by (try apply Z.div_pos; lia). f_equal. apply Z_div_exact_full_2; lia. }
  assert (Hx0 : a <= x0 <= b) by (unfold x0; lra).
  assert (HB : forall x, a <= x <= b -> pv 0 ls (x - x0) <= f x <= pv 0 hs (x - x0)).
  { intros x Hx. destruct (scalar_bounds _ _ _ _ _ _ _ _ _ _ _ _ HG HO Hx0 Hx (HC x Hx) Hb) as (HE & HP & _ & _).
    exact (scalar_between (fun _ => x - x0) _ (or_introl Ev) _ _ _ _ _ HP HE Hl Hh). }
  pose proof (integrate_RInt ls x0 a b) as IL. pose proof (integrate_RInt hs x0 a b) as IH.
  split.
  - apply Rle_trans with (RInt (fun x => pv 0 ls (x - x0)) a b); [right; symmetry; exact (is_RInt_unique _ _ _ _ IL)|]. apply RInt_le; auto; [eexists; eauto|]. intros x Hx. apply HB. lra.
  - apply Rle_trans with (RInt (fun x => pv 0 hs (x - x0)) a b); [|right; exact (is_RInt_unique _ _ _ _ IH)]. apply RInt_le; auto; [eexists; eauto|]. intros x Hx. apply HB. lra.
Qed.

Theorem C67_integral_bounds_grid : forall sc gs pr consts degree num_grid_cells f a b l u,
  valid_generators sc gs -> (forall o, In o (gops (p_graph pr)) -> opaque_ok (odata o)) -> a <= b -> (0 < num_grid_cells)%Z ->
  (forall x, a <= x <= b -> computes sc (Z.to_nat degree) pr consts x (f x)) -> ex_RInt f a b ->
  integral_bound_v1 sc gs Rdiv pr consts a b degree num_grid_cells = Ok (l, u) ->
  l <= RInt f a b <= u.
Proof.
  intros sc gs pr consts degree ng f a b l u HG HO Hab Hn HC HI H. unfold integral_bound_v1 in H. destruct (Z.eqb_spec ng 0) as [|_]; [lia|].
  change (nsub b a) with (b - a) in H. change (nofZ ng) with (IZR ng) in H. set (w := (b - a) / IZR ng) in *.
  assert (Hng : 0 < IZR ng) by (apply (IZR_lt 0); auto). assert (Hw : 0 <= w) by (unfold w; apply Rmult_le_pos; [lra|]; apply Rlt_le, Rinv_0_lt_compat; auto).
  assert (HW : w * IZR ng = b - a) by (unfold w; field; lra).
  set (F := fun s i => _) in H.
  assert (G : forall n k s r, (k + n <= Z.to_nat ng)%nat -> foldM F s (seq k n) = Ok r ->
    fst r - fst s <= RInt f (a + w * INR k) (a + w * INR (k + n)) <= snd r - snd s).
  { assert (HK : forall k, (k <= Z.to_nat ng)%nat -> a <= a + w * INR k <= b).
    { intros k Hk. pose proof (pos_INR k). assert (INR k <= IZR ng) by (rewrite <- (Z2Nat.id ng), <- INR_IZR_INZ by lia; apply le_INR; auto). nra. }
    assert (HE : forall j k, (j <= k)%nat -> (k <= Z.to_nat ng)%nat -> ex_RInt f (a + w * INR j) (a + w * INR k)).
    { intros j k Hj Hk. pose proof (HK j ltac:(lia)). pose proof (HK k Hk). assert (INR j <= INR k) by (apply le_INR; auto).
      apply (ex_RInt_Chasles_1 (V := R_CompleteNormedModule) f (a + w * INR j) (a + w * INR k) b); [split; nra|]. apply (ex_RInt_Chasles_2 (V := R_CompleteNormedModule) f a (a + w * INR j) b); [lra|exact HI]. }
    induction n as [|n IH]; intros k s r Hk Hr.
    - injection Hr as <-. rewrite Nat.add_0_r, RInt_point. unfold zero; simpl. lra.
    - cbn [seq foldM] in Hr. apply bind_ok in Hr. destruct Hr as (s1 & H1 & Hr). specialize (IH (S k) s1 r ltac:(lia) Hr).
      unfold F in H1. cbv zeta in H1. apply bind_ok in H1. destruct H1 as ([l1 u1] & H1 & E1). injection E1 as <-. cbn [fst snd] in *.
      assert (Ek : a + w * INR k + w = a + w * INR (S k)) by (rewrite S_INR; ring).
      assert (H1' : integral_bound_v0 sc gs Rdiv pr consts (a + w * INR k) (a + w * INR (S k)) degree = Ok (l1, u1)) by (rewrite <- Ek, INR_IZR_INZ; exact H1).
      clear H1. rename H1' into H1. change (nadd (fst s) l1) with (fst s + l1) in IH. change (nadd (snd s) u1) with (snd s + u1) in IH.
      pose proof (HK k ltac:(lia)) as K1. pose proof (HK (S k) ltac:(lia)) as K2.
      assert (Q : l1 <= RInt f (a + w * INR k) (a + w * INR (S k)) <= u1).
      { refine (C67_integral_bounds_one_cell _ _ _ _ _ f _ _ _ _ HG HO _ _ (HE k (S k) _ _) H1); try lia; [lra|]. intros x Hx. apply HC. lra. }
      replace (k + S n)%nat with (S k + n)%nat by lia.
      assert (CH : RInt f (a + w * INR k) (a + w * INR (S k + n)) = RInt f (a + w * INR k) (a + w * INR (S k)) + RInt f (a + w * INR (S k)) (a + w * INR (S k + n))).
      { symmetry. refine (RInt_Chasles (V := R_CompleteNormedModule) f _ _ _ (HE _ _ _ _) (HE _ _ _ _)); lia. }
      rewrite CH. lra. }
  specialize (G (Z.to_nat ng) 0%nat (0, 0) (l, u) ltac:(lia) H). cbn [fst snd] in G. rewrite Nat.add_0_l in G. rewrite (INR_IZR_INZ (Z.to_nat ng)), Z2Nat.id in G by lia.
  rewrite HW in G. change (INR 0) with 0 in G. rewrite Rmult_0_r, Rplus_0_r in G. replace (a + (b - a)) with b in G by ring. lra.
Qed.

Theorem C67_odd_degree_raises : forall sc gs pr consts degree a b, Z.odd degree = true ->
  integral_bound_v0 sc gs Rdiv pr consts a b degree = Err NotImplementedError.
Proof.
  intros sc gs pr consts degree a b H. unfold integral_bound_v0. rewrite Zodd_mod in H. apply Zeq_bool_eq in H. rewrite H. reflexivity.
Qed.

(** * C68 *)
Theorem C68_minimize_1d_quadratic : forall c1 c2 a b, a <= b ->
  let m := minimize_1d_quadratic Rdiv c1 c2 (a, b) in
  a <= m <= b /\ forall x, a <= x <= b -> c1 * m + c2 * m ^ 2 <= c1 * x + c2 * x ^ 2.
Proof.
  intros c1 c2 a b Hab. cbv zeta. unfold minimize_1d_quadratic.
  change (@nltb R _) with (fun a b : R => if Rlt_dec a b then true else false). change (@n0 R _) with 0. change (@n1 R _) with 1. change (@nmin R _) with Rmin. change (@nmax R _) with Rmax.
  change (@nadd R _) with Rplus. change (@nmul R _) with Rmult. change (@nopp R _) with Ropp. change (@nofZ R _) with IZR. rewrite ?npow_pow. cbv beta zeta.
  assert (PR : forall x, a <= Rmin b (Rmax a x) <= b /\ (a <= x <= b -> Rmin b (Rmax a x) = x) /\ (x < a -> Rmin b (Rmax a x) = a) /\ (b < x -> Rmin b (Rmax a x) = b)).
  { intros x. unfold Rmin, Rmax. destruct (Rle_dec a x); destruct Rle_dec; repeat split; intros; lra. }
  destruct (Rlt_dec c2 0) as [N2|N2]; cbn [negb andb].
  - (* c2 < 0 *) destruct (Rlt_dec 0 c2); [lra|]. assert (K : forall x, a <= x <= b -> Rmin (c1 * a + c2 * a ^ 2) (c1 * b + c2 * b ^ 2) <= c1 * x + c2 * x ^ 2).
    { intros x Hx. unfold Rmin. destruct (Rle_dec (c1 * a + c2 * a ^ 2) (c1 * b + c2 * b ^ 2)) as [L|L].
      - destruct (Rle_lt_or_eq_dec a b Hab) as [Hlt|<-]; [|assert (x = a) by lra; subst x; lra].
        assert (0 <= c1 + c2 * (a + b)). { apply Rmult_le_reg_l with (b - a); [lra|]. nra. }
        assert (c2 * b <= c2 * x) by (apply Rmult_le_compat_neg_l; lra).
        assert (0 <= (x - a) * (c1 + c2 * (x + a))) by (apply Rmult_le_pos; lra). nra.
      - assert (HL : (b - a) * (c1 + c2 * (a + b)) < 0) by nra. assert (c1 + c2 * (a + b) < 0). { destruct (Rlt_dec (c1 + c2 * (a + b)) 0); auto. assert (0 <= (b - a) * (c1 + c2 * (a + b))) by (apply Rmult_le_pos; lra). lra. }
        assert (c2 * x <= c2 * a) by (apply Rmult_le_compat_neg_l; lra).
        assert (0 <= (b - x) * - (c1 + c2 * (x + b))) by (apply Rmult_le_pos; lra). nra. }
    destruct (Rlt_dec (c1 * a + c2 * a ^ 2) (c1 * b + c2 * b ^ 2)) as [L|L]; (split; [lra|]); intros x Hx; specialize (K x Hx); unfold Rmin in K; destruct Rle_dec; lra.
  - destruct (Rlt_dec 0 c2) as [P2|P2]; cbn [negb andb].
    + (* c2 > 0 *) destruct (PR (- c1 / (2 * c2))) as (P1 & Pin & Pl & Ph). split; auto. intros x Hx. set (v := - c1 / (2 * c2)) in *.
      assert (E1 : c1 = - 2 * c2 * v) by (unfold v; field; lra).
      assert (Q : (Rmin b (Rmax a v) - v) ^ 2 <= (x - v) ^ 2).
      { destruct (Rlt_dec v a); [rewrite Pl by auto; nra|]. destruct (Rlt_dec b v); [rewrite Ph by auto; nra|]. rewrite Pin by lra. replace (v - v) with 0 by ring. pose proof (pow2_ge_0 (x - v)). simpl in *. lra. }
      rewrite E1. nra.
    + (* c2 = 0 *) assert (c2 = 0) by lra. subst c2. destruct (PR 0) as (P1 & _).
      destruct (Rlt_dec c1 0); destruct (Rlt_dec 0 c1); cbn [negb andb]; try lra; rewrite ?Rmult_0_l, ?Rmult_1_l, ?Rplus_0_l, ?Rplus_0_r.
      * split; [lra|]. intros x Hx. nra.
      * split; [lra|]. intros x Hx. nra.
      * assert (c1 = 0) by lra. subst c1. split; [auto|]. intros x Hx. lra.
Qed.

(** * C69 *)
Lemma number_nil (t : tensor R) v : number t = Ok v -> tshape t = [] /\ v = tdata t [].
Proof. unfold number. destruct (tshape t); [|discriminate]. intros [= <-]. auto. Qed.

Lemma safe_rate_inv sc gs nl m eta h : valid_generators sc gs -> (forall o, In o (gops (p_graph (fst nl))) -> opaque_ok (odata o)) -> 0 <= m ->
  (forall t, 0 <= t <= m -> computes sc 2 (fst nl) (snd nl) t (h t)) ->
  safe_learning_rate sc gs Rdiv nl m = Ok eta ->
  exists b c0 c1 c2 t2, taylor_bounds sc gs (fst nl) (snd nl) 2 false (tscalar 0) (tscalar 0, tscalar m) = Ok b /\
    tb_coefficients b = [Arr c0; Arr c1; c2] /\ tshape c1 = [] /\ t2 = hi c2 /\ eta = minimize_1d_quadratic Rdiv (tdata c1 []) (tdata t2 []) (0, m) /\
    forall t, 0 <= t <= m -> h t <= tdata c0 [] + tdata c1 [] * t + tdata t2 [] * t ^ 2.
Proof.
  intros HG HO Hm HC H. unfold safe_learning_rate in H. apply bind_ok in H. destruct H as (b & Hb & H). unfold bound_loss in Hb. change (@n0 R _) with 0 in *.
  destruct (length (tb_coefficients b) <? 3)%nat eqn:EL; [discriminate|]. apply Nat.ltb_ge in EL.
  assert (SB := fun t Ht => scalar_bounds _ _ _ _ 2 _ 0 0 m b t (h t) HG HO (conj (Rle_refl 0) Hm) Ht (HC t Ht) Hb).
  destruct (SB 0 (conj (Rle_refl 0) Hm)) as (_ & HP & HW & HL). change (Z.to_nat 2) with 2%nat in *.
  destruct (tb_coefficients b) as [|c0 [|c1 [|c2 [|]]]] eqn:EC; simpl in EL, HL; try lia.
  destruct (HP 0%nat c0 eq_refl) as [[t0 ->]|]; [|discriminate]. destruct (HP 1%nat c1 eq_refl) as [[t1 ->]|]; [|discriminate].
  cbn [nth_error] in H. apply bind_ok in H. destruct H as (v1 & H1 & H). apply number_nil in H1. destruct H1 as [S1 ->].
  apply bind_ok in H. destruct H as (fi & H2 & H). apply bind_ok in H. destruct H as (v2 & H3 & H). injection H as <-. apply number_nil in H3. destruct H3 as [S2 ->].
  assert (E2 : snd fi = hi c2). { unfold tb_final_interval in H2. rewrite EC in H2. simpl in H2. destruct c2; injection H2 as <-; reflexivity. }
  exists b, t0, t1, c2, (hi c2). rewrite E2. repeat split; auto. intros t Ht. destruct (SB t Ht) as (HE & _ & _ & _).
  assert (HS : forall c, wfs [] c -> exists v w, lof c = Ok v /\ hif c = Ok w /\ v = tdata (lo c) [] /\ w = tdata (hi c) []).
  { intros [s|sl sh] W; cbn [wfs] in W; unfold lof, hif, to_float; simpl; [rewrite W; simpl; eauto 8|]. destruct W as [W1 W2]. rewrite W1, W2. simpl. eauto 8. }
  destruct (HS _ (HW 0%nat _ eq_refl)) as (a0 & d0 & A0 & B0 & -> & ->). destruct (HS _ (HW 1%nat _ eq_refl)) as (a1 & d1 & A1 & B1 & -> & ->). destruct (HS _ (HW 2%nat _ eq_refl)) as (a2 & d2 & A2 & B2 & -> & ->).
  assert (T0 : 0 <= (fun _ : list nat => t - 0) []) by (cbv beta; lra).
  assert (Q := scalar_between (fun _ => t - 0) 2 (or_intror T0) [Arr t0; Arr t1; c2] 0 (h t) [tdata (lo (Arr t0)) []; tdata (lo (Arr t1)) []; tdata (lo c2) []] [tdata (hi (Arr t0)) []; tdata (hi (Arr t1)) []; tdata (hi c2) []] HP HE).
  cbn [mapM] in Q. rewrite A0, A1, A2, B0, B1, B2 in Q. cbn [bind] in Q. specialize (Q eq_refl eq_refl). destruct Q as [_ Q]. simpl in Q. simpl. lra.
Qed.

Lemma safe_rate_at0 sc gs nl m h b c0 c1 c2 : valid_generators sc gs -> (forall o, In o (gops (p_graph (fst nl))) -> opaque_ok (odata o)) -> 0 <= m ->
  (forall t, 0 <= t <= m -> computes sc 2 (fst nl) (snd nl) t (h t)) ->
  taylor_bounds sc gs (fst nl) (snd nl) 2 false (tscalar 0) (tscalar 0, tscalar m) = Ok b -> tb_coefficients b = [Arr c0; Arr c1; c2] -> h 0 = tdata c0 [].
Proof.
  intros HG HO Hm HC Hb EC. destruct (scalar_bounds _ _ _ _ 2 _ 0 0 m b 0 (h 0) HG HO (conj (Rle_refl 0) Hm) (conj (Rle_refl 0) Hm) (HC 0 (conj (Rle_refl 0) Hm)) Hb) as (HE & _ & _ & _).
  rewrite EC in HE. destruct HE as (u & w & (p & Cp & W & A & HA & ->) & (u1 & w1 & (p1 & _ & _ & A1 & _ & ->) & (u2 & w2 & (p2 & _ & _ & A2 & _ & ->) & Hw & ->) & ->) & ->).
  cbn [encl_from] in Hw. subst w2. rewrite !term_value_scalar. apply compat_nil_r in Cp. subst p. rewrite <- (HA []) by constructor. simpl. ring.
Qed.

(** The safe learning rate is admissible and does not increase the loss. *)
Theorem C69_safe_learning_rate : forall sc gs next_loss max_learning_rate eta h,
  valid_generators sc gs -> (forall o, In o (gops (p_graph (fst next_loss))) -> opaque_ok (odata o)) -> 0 <= max_learning_rate ->
  (forall t, 0 <= t <= max_learning_rate -> computes sc 2 (fst next_loss) (snd next_loss) t (h t)) ->
  safe_learning_rate sc gs Rdiv next_loss max_learning_rate = Ok eta ->
  0 <= eta <= max_learning_rate /\ h eta <= h 0.
Proof.
  intros sc gs nl m eta h HG HO Hm HC H. destruct (safe_rate_inv _ _ _ _ _ h HG HO Hm HC H) as (b & c0 & c1 & c2 & t2 & Hb & EC & S1 & _ & -> & HU).
  destruct (C68_minimize_1d_quadratic (tdata c1 []) (tdata t2 []) 0 m Hm) as (M1 & M2). set (eta := minimize_1d_quadratic _ _ _ _) in *. split; auto.
  rewrite (safe_rate_at0 _ _ _ _ _ _ _ _ _ HG HO Hm HC Hb EC). specialize (HU eta M1). specialize (M2 0 ltac:(lra)). simpl in M2, HU. lra.
Qed.

(** If the loss decreases in the update direction to first order, the safe
    learning rate strictly decreases it. *)
Theorem C69_strict_decrease : forall sc gs next_loss max_learning_rate eta h l,
  valid_generators sc gs -> (forall o, In o (gops (p_graph (fst next_loss))) -> opaque_ok (odata o)) -> 0 < max_learning_rate ->
  (forall t, 0 <= t <= max_learning_rate -> computes sc 2 (fst next_loss) (snd next_loss) t (h t)) ->
  safe_learning_rate sc gs Rdiv next_loss max_learning_rate = Ok eta ->
  is_derive h 0 l -> l < 0 ->
  0 < eta /\ h eta < h 0.
Proof.
  intros sc gs nl m eta h l HG HO Hm HC H HD Hl. destruct (safe_rate_inv _ _ _ _ _ h HG HO (Rlt_le _ _ Hm) HC H) as (b & c0 & c1 & c2 & t2 & Hb & EC & S1 & _ & -> & HU).
  assert (E0 := safe_rate_at0 _ _ _ _ _ _ _ _ _ HG HO (Rlt_le _ _ Hm) HC Hb EC).
  assert (E1 : tdata c1 [] = l).
  { assert (B0 : in_box (tscalar 0) (tscalar 0, tscalar m) (tscalar 0)) by (repeat split; auto; simpl; lra).
    assert (Q := line_coefficients _ _ _ _ 2 _ _ _ _ HG HO B0 Hb [] (fun _ => 1) h m (fun i => match i with 0%nat => h 0 | _ => l end) 2 (le_n _) Hm).
    assert (Q1 := Q). clear Q. symmetry. specialize (fun X Y => Q1 X Y 1%nat ltac:(lia)). unfold dir in Q1. rewrite EC in Q1. rewrite term_value_scalar in Q1. unfold coefficient_at in Q1. cbn [nth_error lo] in Q1.
    change (tshape (tscalar 0)) with (@nil nat) in Q1. rewrite S1 in Q1. simpl in Q1. rewrite !Rmult_1_r in Q1. apply Q1.
    - intros t Ht. destruct (HC t ltac:(lra)) as (HS & y & HM & Sy & Vy). exists (tscalar t), y. split; [repeat split; auto; simpl; lra|]. split; [intros J _; simpl; ring|]. split; auto. split; auto. split; auto. rewrite Sy. constructor.
    - intros e He. apply is_derive_Reals in HD. destruct (HD e He) as (d & Hd). exists d. split; [apply cond_pos|]. intros t Ht. specialize (Hd t ltac:(lra) ltac:(rewrite Rabs_right; lra)). rewrite Rplus_0_l in Hd.
      replace (h t - (0 + h 0 + l * (t * 1))) with (((h t - h 0) / t - l) * t) by (field; lra). rewrite Rabs_mult, (Rabs_right t) by lra. replace (t * 1) with t by ring. apply Rmult_le_compat_r; lra. }
  rewrite E1 in *. destruct (C68_minimize_1d_quadratic l (tdata t2 []) 0 m (Rlt_le _ _ Hm)) as (M1 & M2). set (eta := minimize_1d_quadratic _ _ _ _) in *.
  specialize (HU eta M1). set (q := tdata t2 []) in *.
  (* the quadratic is negative somewhere *)
  assert (NEG : l * eta + q * eta ^ 2 < 0).
  { set (s := Rmin m (- l / (2 * (Rabs q + 1)))). pose proof (Rabs_pos q). assert (0 < - l / (2 * (Rabs q + 1))) by (apply Rdiv_lt_0_compat; lra).
    assert (0 < s) by (apply Rmin_pos; auto). assert (s <= m) by apply Rmin_l. assert (s <= - l / (2 * (Rabs q + 1))) by apply Rmin_r.
    specialize (M2 s ltac:(lra)). assert (s * (Rabs q + 1) <= - l / 2). { apply Rle_trans with (- l / (2 * (Rabs q + 1)) * (Rabs q + 1)); [apply Rmult_le_compat_r; lra|]. right. field. lra. }
    assert (q <= Rabs q) by apply Rle_abs. assert (l * s + q * s ^ 2 < 0); [|lra]. simpl. assert (q * s <= Rabs q * s) by (apply Rmult_le_compat_r; lra). assert (l + q * s < 0) by nra. assert (0 < s * - (l + q * s)) by (apply Rmult_lt_0_compat; lra). nra. }
  split; [|lra]. destruct (Rle_lt_or_eq_dec 0 eta (proj1 M1)) as [|E]; auto. rewrite <- E in NEG. simpl in NEG. lra.
Qed.

(** Every update of SafeRate that returns keeps the loss from increasing, for
    any number of steps, and the two rates stay as documented. *)
Theorem C69_saferate_never_increases_the_loss : forall (P : Type) sc gs (update_dir : P -> P) move trace loss,
  valid_generators sc gs ->
  (forall x v o, In o (gops (p_graph (fst (trace x v)))) -> opaque_ok (odata o)) ->
  (forall x v t, 0 <= t -> computes sc 2 (fst (trace x v)) (snd (trace x v)) t (loss (move x v t))) ->
  (forall x v, loss (move x v 0) = loss x) ->
  forall initial_max_eta x0 n st st', 0 < initial_max_eta ->
    reaches (update_state sc gs Rdiv update_dir move trace) (init_fun initial_max_eta x0) n st ->
    update_state sc gs Rdiv update_dir move trace st = Ok st' ->
    loss (get_params st') <= loss (get_params st) /\ loss (get_params st) <= loss x0 /\
    0 <= snd (fst st') <= snd st /\ (snd st' = snd st / 2 /\ snd (fst st') < snd st / 2 \/ snd st' = 2 * snd st /\ snd st / 2 <= snd (fst st')).
Proof.
  intros P sc gs ud mv tr loss HG HO HC H0 m0 x0 n st st' Hm HR HU.
  assert (STEP : forall s s', 0 < snd s -> update_state sc gs Rdiv ud mv tr s = Ok s' ->
    loss (get_params s') <= loss (get_params s) /\ 0 < snd s' /\ 0 <= snd (fst s') <= snd s /\ (snd s' = snd s / 2 /\ snd (fst s') < snd s / 2 \/ snd s' = 2 * snd s /\ snd s / 2 <= snd (fst s'))).
  { intros [[x e] m] s' Hs Hu. cbn [snd fst] in *. unfold update_state in Hu. apply bind_ok in Hu. destruct Hu as (eta & He & Hu). injection Hu as <-.
    destruct (C69_safe_learning_rate _ _ _ _ _ (fun t => loss (mv x (ud x) t)) HG (HO x (ud x)) (Rlt_le _ _ Hs) (fun t Ht => HC x (ud x) t (proj1 Ht)) He) as (R1 & R2). rewrite H0 in R2.
    unfold get_params. cbn [fst snd]. split; auto. unfold next_max_eta. change (@nltb R _) with (fun a b : R => if Rlt_dec a b then true else false). cbv beta. change (nofZ 2) with 2. change (nmul ?a ?b) with (a * b).
    destruct (Rlt_dec eta eta); [lra|]. destruct (Rlt_dec eta (m / 2)); cbn [orb]; (split; [lra|]); (split; [lra|]); [left|right]; lra. }
  assert (INV : 0 < snd st /\ loss (get_params st) <= loss x0).
  { clear HU. remember (init_fun m0 x0) as s0 eqn:E. induction HR as [s|s k s1 s2 HR IH HU]; subst.
    - simpl. split; auto. apply Rle_refl.
    - destruct (IH eq_refl) as (I1 & I2). destruct (STEP _ _ I1 HU) as (S1 & S2 & _). split; auto. lra. }
  destruct INV as (I1 & I2). destruct (STEP _ _ I1 HU) as (S1 & _ & S3 & S4). auto.
Qed.

(** The comment "If safe_eta is NaN, we cut the learning rate in half" is wrong:
    the test [safe_eta > safe_eta] is false for NaN, so the maximum learning rate
    is doubled. *)
Theorem C69_nan_halves_refuted : forall max_eta : R,
  next_max_eta float_lt float_half float_twice None (Some max_eta) = Some (max_eta * 2) /\
  (max_eta <> 0 -> next_max_eta float_lt float_half float_twice None (Some max_eta) <> float_half (Some max_eta)).
Proof. intros m. split; [reflexivity|]. intros Hm H. injection H as H. apply Hm. lra. Qed.
