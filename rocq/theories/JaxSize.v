(** How many coefficients the results of the enclosure operations have, and which
    of them are plain arrays. *)
From Coq Require Import Reals Lra Psatz.
From Verif Require Import Base Tensor IntervalArith Polynomials Enclosure TensorLemmas Spec IntervalProofs PolyProofs Graded
  BilinearProofs PropEnclosure PropDegree JaxBound JaxSpec JaxLemmas JaxPush.
Open Scope nat_scope.

Definition psize {T} (k : kind) (e : list (coef T)) : Prop :=
  match k with
  | KConst => exists t, e = [Arr t]
  | KLin => exists t u, e = [Arr t; Arr u]
  | KTwo => 2 <= length e
  | _ => e <> []
  end.

Section S.
Context {T : Type} {N : Num T}.
Implicit Types a b c e : list (coef T).

Lemma psize_ne k e : psize k e -> e <> [].
Proof. destruct k; simpl; auto; [intros (t & ->)|intros (t & u & ->)|intros H ->; simpl in H; lia]; discriminate. Qed.
Lemma psize_two k e : two k = true -> psize k e -> 2 <= length e.
Proof. destruct k; simpl; try discriminate; auto. intros _ (t & u & ->). simpl. auto. Qed.
Lemma psize_small k e : is_const k || is_lin k = true -> psize k e -> length e = (if is_const k then 1 else 2) /\ plain_below 2 e.
Proof.
  destruct k; simpl; try discriminate; intros _ H.
  - destruct H as (t & ->). split; auto. intros [|[|i]] x _ Hx; simpl in Hx; try discriminate. injection Hx as <-; eauto.
  - destruct H as (t & u & ->). split; auto. intros [|[|[|i]]] x _ Hx; simpl in Hx; try discriminate; injection Hx as <-; eauto.
Qed.
Lemma psize_lin e : length e = 2 -> plain_below 2 e -> psize KLin e.
Proof.
  intros L P. destruct e as [|x [|y [|]]]; try discriminate. destruct (P 0 x) as [t ->]; auto. destruct (P 1 y) as [u ->]; auto. exists t, u. auto.
Qed.

Variable A : arith T.
Let D := max_degree A.
Hypothesis HD : 1 <= D.

Lemma add_psize ka kb a b c : psize ka a -> psize kb b -> is_const ka && is_const kb = false -> add_coeffs a b = Ok c ->
  psize (if (is_const ka || is_lin ka) && (is_const kb || is_lin kb) then KLin else if two ka || two kb then KTwo else KFull) c /\ c <> [].
Proof.
  intros Ha Hb NC H. pose proof (add_coeffs_length _ _ _ H) as L.
  assert (NE : c <> []). { apply psize_ne in Ha. destruct a; [congruence|]. intros ->. cbn [length] in L. lia. }
  split; auto. destruct ((is_const ka || is_lin ka) && (is_const kb || is_lin kb)) eqn:E.
  - apply andb_prop in E. destruct E as [Ea Eb]. destruct (psize_small _ _ Ea Ha) as [La Pa]. destruct (psize_small _ _ Eb Hb) as [Lb Pb].
    apply psize_lin.
    + rewrite L, La, Lb. destruct (is_const ka), (is_const kb); try discriminate; reflexivity.
    + exact (add_plain (mkArith 2 (trust_region A)) a 0 b c Pa Pb H).
  - destruct (two ka || two kb) eqn:E2; [|exact NE]. simpl. rewrite L. apply orb_prop in E2. destruct E2 as [E2|E2].
    + pose proof (psize_two _ _ E2 Ha). lia.
    + pose proof (psize_two _ _ E2 Hb). lia.
Qed.
Lemma neg_psize k a : psize k a -> psize k (map ineg a).
Proof.
  destruct k; simpl; try rewrite map_length; auto; [intros (t & ->)|intros (t & u & ->)| | |]; simpl; eauto; destruct a; simpl; congruence.
Qed.

Lemma poly_bilinear_length tp a b c : poly_bilinear iadd zero_c tp a b = Ok c -> length c = length a + length b - 1.
Proof.
  intros H. unfold poly_bilinear in H. apply foldM_length in H; [rewrite H; apply repeat_length|].
  intros o (i, x) o' Ho. apply foldM_length in Ho; auto. intros o1 (j, y) o2 Ho1. unfold add_at in Ho1. ok_inv. apply set_nth_ok in Ho1. tauto.
Qed.

(** Products. *)
Lemma prod_psize ka kb a b c : psize ka a -> psize kb b -> is_const ka && is_const kb = false ->
  length c = Nat.min (length a + length b - 1) (D + 1) ->
  (length a + length b - 1 <= 2 -> plain_below 2 a -> plain_below 2 b -> plain_below 2 c) ->
  psize (prod_kind ka kb) c.
Proof.
  intros Ha Hb NC L HP. pose proof (psize_ne _ _ Ha) as Na. pose proof (psize_ne _ _ Hb) as Nb.
  assert (1 <= length a) by (destruct a; simpl; [congruence|lia]). assert (1 <= length b) by (destruct b; simpl; [congruence|lia]).
  assert (NE : c <> []) by (intros ->; simpl in L; lia).
  unfold prod_kind. destruct (_ || _) eqn:E0; [exact NE|]. clear E0. destruct (is_const ka && is_lin kb || is_lin ka && is_const kb) eqn:E.
  - assert (Ea : is_const ka || is_lin ka = true) by (destruct (is_const ka), (is_lin ka); auto).
    assert (Eb : is_const kb || is_lin kb = true) by (destruct (is_const kb), (is_lin kb), (is_const ka), (is_lin ka); auto).
    destruct (psize_small _ _ Ea Ha) as [La Pa]. destruct (psize_small _ _ Eb Hb) as [Lb Pb].
    assert (L2 : length a + length b - 1 = 2) by (destruct ka, kb; simpl in *; try discriminate; lia).
    apply psize_lin; [lia|]. apply HP; auto. lia.
  - destruct (two ka || two kb) eqn:E2; [|exact NE]. simpl. apply orb_prop in E2. destruct E2 as [E2|E2].
    + pose proof (psize_two _ _ E2 Ha). lia.
    + pose proof (psize_two _ _ E2 Hb). lia.
Qed.
Lemma mul_psize ka kb a b c : psize ka a -> psize kb b -> is_const ka && is_const kb = false -> emultiply A a b = Ok c -> psize (prod_kind ka kb) c.
Proof.
  intros Ha Hb NC H. unfold emultiply in H. apply bind_ok in H. destruct H as (_ & _ & H). apply bind_ok in H. destruct H as (_ & _ & H).
  apply bind_ok in H. destruct H as (p & Hp & H). pose proof (poly_bilinear_length _ _ _ _ Hp) as L. destruct (enclose_shape _ _ _ _ H) as (L' & _ & E). fold D in L', E.
  apply (prod_psize ka kb a b c); auto; [lia|]. intros L2 Pa Pb. rewrite E by lia.
  eapply (scatter_plain (mkArith 2 (trust_region A)) _ (fun i j => i + j)); [|exact Hp]. intros i j x y c' Hx Hy Hk Ht. simpl in Hk.
  refine (ibil_is_arr _ _ _ _ _ (Pa i x _ Hx) (Pb j y _ Hy) Ht); lia.
Qed.
Lemma bil_psize ka kb a b pbb c : psize ka a -> psize kb b -> is_const ka && is_const kb = false -> earbitrary_bilinear A a b pbb = Ok c -> psize (prod_kind ka kb) c.
Proof.
  intros Ha Hb NC H. pose proof (ebil_length _ _ _ _ _ H) as L. fold D in L. apply (prod_psize ka kb a b c); auto; [lia|]. intros L2 Pa Pb.
  eapply (scatter_plain (mkArith 2 (trust_region A)) _ (fun i j => Nat.min (i + j) (max_degree A))); [|exact H]. intros i j x y c' Hx Hy Hk Ht.
  unfold term_enclosure_coefficient in Ht.
  assert (i < length a) by (apply nth_error_Some; congruence). assert (j < length b) by (apply nth_error_Some; congruence).
  destruct (Nat.leb_spec (i + j) (max_degree A)) as [Hle|]; [|unfold D in *; lia].
  refine (ibil_is_arr _ _ _ _ _ (Pa i x _ Hx) (Pb j y _ Hy) Ht); lia.
Qed.

Lemma pow_psize k a n c : psize k a -> epower_nat A a n = Ok c -> psize (if two k && negb (n =? 0) then KTwo else KFull) c.
Proof.
  intros Ha H. unfold epower_nat in H. apply bind_ok in H. destruct H as (_ & _ & H). destruct a as [|a0 r]; [discriminate|].
  apply bind_ok in H. destruct H as (q & Hq & H). destruct (enclose_shape _ _ _ _ H) as (L' & _ & _). fold D in L'.
  assert (Lq : length q = 1 + length r * n).
  { unfold integer_power in Hq. destruct (_ <? _)%Z; [discriminate|]. destruct (Z.eqb_spec (Z.of_nat n) 0) as [E|E].
    - injection Hq as <-. simpl. replace n with 0 by lia. lia.
    - apply mapM_length in Hq. rewrite seq_length, Nat2Z.id in Hq. cbn [length] in Hq. rewrite Hq. lia. }
  assert (NE : c <> []) by (intros ->; simpl in L'; lia).
  destruct (two k) eqn:E2; [|exact NE]. destruct (Nat.eqb_spec n 0); [exact NE|]. cbn -[Nat.mul Nat.add]. pose proof (psize_two _ _ E2 Ha) as L2. simpl in L2. nia.
Qed.
End S.

Lemma map_coef_is_arr {T} {N : Num T} f (t : tensor T) (c : coef T) : map_coef f (Arr t) = Ok c -> exists u, c = Arr u.
Proof. simpl. destruct (f t); simpl; [intros [= <-]; eauto|discriminate]. Qed.
Lemma map_psize {T} {N : Num T} (f : tensor T -> res (tensor T)) k (a c : list (coef T)) : psize k a -> map_over_enclosure a f = Ok c -> psize k c.
Proof.
  intros Ha H. pose proof (mapM_length _ _ _ H) as L. destruct k; simpl in *.
  - destruct Ha as (t & ->). unfold map_over_enclosure in H. cbn [mapM] in H. apply bind_ok in H. destruct H as (y & Hy & H). cbn [bind] in H. injection H as <-.
    apply map_coef_is_arr in Hy. destruct Hy as (u & ->). eauto.
  - destruct Ha as (t & u & ->). unfold map_over_enclosure in H. cbn [mapM] in H. apply bind_ok in H. destruct H as (y & Hy & H). apply bind_ok in H. destruct H as (ys & Hys & H). injection H as <-.
    apply bind_ok in Hys. destruct Hys as (y' & Hy' & H). cbn [bind] in H. injection H as <-.
    apply map_coef_is_arr in Hy, Hy'. destruct Hy as (? & ->), Hy' as (? & ->). eauto.
  - lia.
  - intros ->. destruct a; [congruence|discriminate].
  - intros ->. destruct a; [congruence|discriminate].
  - intros ->. destruct a; [congruence|discriminate].
Qed.
