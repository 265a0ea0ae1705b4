(** Properties C08-C12: polynomials.py on numbers. *)
From Coq Require Import Reals Lra Psatz.
From Verif Require Import Base Tensor IntervalArith Polynomials TensorLemmas Spec PolyProofs Graded.
Open Scope R_scope.

Lemma scaled_value a z : forall k, Rsum (scaled z k a) = z ^ k * poly_value a z.
Proof. induction a as [|c a IH]; intros k; simpl; [ring|]. rewrite IH. simpl. ring. Qed.
Lemma peval_value a z : peval a z = poly_value a z.
Proof. unfold peval. rewrite scaled_value. simpl. ring. Qed.

(** ** C08 *)
(** C08 (any callbacks): whatever total [add], [inner] and [outer_power] are
    passed, the result is [add(...add(add(zero, <c_0, one>), <c_1, z^1>)..., <c_n, z^n>)]. *)
Theorem C08_eval_polynomial_fold : forall (F : Type) (addf innerf : F -> F -> F) (powf : F -> Z -> F)
  (zero one z : F) (cs : list F),
  eval_polynomial (fun x y => Ok (addf x y)) zero one cs z (fun x y => Ok (innerf x y)) (fun x k => Ok (powf x k)) =
  Ok (fold_left (fun acc '(i, c) => addf acc (innerf c (if (i =? 0)%nat then one else powf z (Z.of_nat i))))
                (combine (seq 0 (length cs)) cs) zero).
Proof.
  intros. unfold eval_polynomial.
  assert (G : forall cs i zi run, (i = 0%nat -> zi = one) ->
    eval_poly_loop (fun x y => Ok (addf x y)) (fun x y => Ok (innerf x y)) (fun x k => Ok (powf x k)) z i zi run cs =
    Ok (fold_left (fun acc '(i, c) => addf acc (innerf c (if (i =? 0)%nat then one else powf z (Z.of_nat i))))
                (combine (seq i (length cs)) cs) run)).
  { induction cs0 as [|c cs0 IH]; intros i zi run Hz; simpl; auto.
    destruct i; simpl.
    - rewrite (Hz eq_refl), IH; [reflexivity|discriminate].
    - rewrite IH; [reflexivity|discriminate]. }
  apply G. reflexivity.
Qed.

Definition radd (x y : R) : res R := Ok (x + y).
Definition rmul (x y : R) : res R := Ok (x * y).
(** [z ** k] for the non-negative exponents that are used. *)
Definition rpow (x : R) (k : Z) : res R := Ok (x ^ Z.to_nat k).

(** C08 (numbers): the usual value of the polynomial. *)
Theorem C08_eval_polynomial_value : forall (a : list R) (z : R),
  eval_polynomial radd 0 1 a z rmul rpow = Ok (poly_value a z).
Proof.
  intros a z. unfold eval_polynomial.
  assert (G : forall a i zi run, (i = 0%nat -> zi = 1) ->
    eval_poly_loop radd rmul rpow z i zi run a = Ok (run + z ^ i * poly_value a z)).
  { induction a0 as [|c a0 IH]; intros i zi run Hz; cbn [eval_poly_loop poly_value].
    - f_equal; ring.
    - assert (E : (if 0 <? i then rpow z (Z.of_nat i) else Ok zi) = Ok (z ^ i)).
      { unfold rpow. rewrite Nat2Z.id. destruct i; simpl; [f_equal; auto|]. reflexivity. }
      rewrite E. cbn [bind]. unfold rmul at 1, radd at 1. cbn [bind]. rewrite IH by discriminate. f_equal. simpl. ring. }
  rewrite G by auto. f_equal. simpl. ring.
Qed.

Example C08_nonvacuous : eval_polynomial radd 0 1 [1; 2; 3] 2 rmul rpow = Ok (1 + 2 * (2 + 2 * (3 + 2 * 0))).
Proof. rewrite C08_eval_polynomial_value. reflexivity. Qed.

(** ** C09 *)
(** The default [term_product_coefficient]. *)
Definition rtp (c0 c1 : R) (i j : nat) : res R := Ok (c0 * c1).
Definition gcoef (z : R) (i : nat) (c v : R) : Prop := v = c * z ^ i.

Lemma F2i_scaled z a : forall k, F2i (gcoef z) k a (scaled z k a).
Proof. induction a; intros k; simpl; constructor; auto. reflexivity. Qed.
Lemma F2i_gcoef z a us : forall k, F2i (gcoef z) k a us -> us = scaled z k a.
Proof. revert us. induction a; intros us k H; inversion H; subst; simpl; auto. f_equal; auto. Qed.

Lemma set_nth_total {F} (l : list F) : forall k v, (k < length l)%nat -> exists l', set_nth l k v = Ok l'.
Proof. induction l; intros [|k] v H; simpl in *; try lia; eauto. destruct (IHl k v ltac:(lia)) as [l' ->]. simpl. eauto. Qed.
Lemma set_nth_len {F} (l : list F) k v l' : set_nth l k v = Ok l' -> length l' = length l.
Proof. intros H. apply set_nth_ok in H. tauto. Qed.

Lemma radd_at_total out k c : (k < length out)%nat -> exists out', add_at radd out k c = Ok out' /\ length out' = length out.
Proof.
  intros H. unfold add_at, get_nth. destruct (nth_error out k) eqn:E; [|apply nth_error_None in E; lia]. simpl.
  destruct (set_nth_total out k (r + c) H) as [l' Hl]. exists l'. split; auto. eapply set_nth_len; eauto.
Qed.

Lemma poly_bilinear_total a b : exists out, poly_bilinear radd 0 rtp a b = Ok out.
Proof.
  unfold poly_bilinear. set (n := (length a + length b - 1)%nat).
  assert (G : forall l out, length out = n -> (forall i c, In (i, c) l -> (i < length a)%nat) ->
    exists out', foldM (fun out '(i, c0) =>
           foldM (fun out '(j, c1) => c <- rtp c0 c1 i j ;; add_at radd out (i + j) c) out (enumerate b)) out l = Ok out').
  { induction l as [|[i c0] l IH]; intros out Ho Hl; [simpl; eauto|]. cbn [foldM].
    assert (Gi : forall m out, length out = n -> (forall j c, In (j, c) m -> (j < length b)%nat) ->
      exists out', foldM (fun out '(j, c1) => c <- rtp c0 c1 i j ;; add_at radd out (i + j) c) out m = Ok out' /\ length out' = n).
    { induction m as [|[j c1] m IHm]; intros o Hlen Hm; [simpl; eauto|]. cbn [foldM]. unfold rtp at 1. cbn [bind].
      pose proof (Hl i c0 (or_introl eq_refl)). pose proof (Hm j c1 (or_introl eq_refl)).
      destruct (radd_at_total o (i + j) (c0 * c1)) as (o' & -> & Ho'); [unfold n in *; lia|]. cbn [bind].
      apply IHm; [congruence|]. intros; eapply Hm; right; eauto. }
    destruct (Gi (enumerate b) out Ho) as (o' & -> & Ho').
    { intros j c H. apply in_enumerate in H. apply nth_error_Some. congruence. }
    cbn [bind]. apply IH; auto. intros; eapply Hl; right; eauto. }
  apply G; [apply repeat_length|]. intros i c H. apply in_enumerate in H. apply nth_error_Some. congruence.
Qed.

(** C09: with the default callbacks the result always exists, has
    [len(a)+len(b)-1] coefficients, and its value at every [z] is the product. *)
Theorem C09_polynomial_product : forall a b : list R, a <> [] -> b <> [] ->
  exists out, poly_bilinear radd 0 rtp a b = Ok out /\
    length out = (length a + length b - 1)%nat /\
    forall z, poly_value out z = poly_value a z * poly_value b z.
Proof.
  intros a b Ha Hb. destruct (poly_bilinear_total a b) as [out H]. exists out. split; auto.
  assert (G : forall z, length out = (length a + length b - 1)%nat /\ poly_value out z = poly_value a z * poly_value b z).
  { intros z. destruct (poly_bilinear_rel radd 0 (gcoef z) (gcoef z) (gcoef z) rtp a b (scaled z 0 a) (scaled z 0 b) out) as (HL & ws & F & E); auto using F2i_scaled.
    - unfold gcoef, radd. intros i b0 v c -> E. injection E as <-. ring.
    - unfold gcoef, radd. intros i a0 b0 u v c -> -> E. injection E as <-. ring.
    - unfold gcoef, rtp. intros i j x y u v c _ _ -> -> E. injection E as <-. rewrite pow_add. ring.
    - split; auto. apply F2i_gcoef in F. subst ws. rewrite !scaled_value in E. simpl in E. lra. }
  split; [apply (G 0)|intros z; apply (G z)].
Qed.

Example C09_nonvacuous : poly_bilinear radd 0 rtp [1; 2] [3; 4; 5] =
  Ok [0 + 1 * 3; 0 + 1 * 4 + 2 * 3; 0 + 1 * 5 + 2 * 4; 0 + 2 * 5].
Proof. reflexivity. Qed.

(** ** C10 *)
(** [sum_j j * p_j], by position. *)
Fixpoint weighted_sum (j : nat) (p : list nat) : nat :=
  match p with [] => 0 | x :: r => j * x + weighted_sum (S j) r end.
Lemma weighted_sum_weight p : weighted_sum 0 p = weight p.
Proof.
  unfold weight, enumerate. enough (G : forall j, weighted_sum j p = list_sum (map (fun '(j, x) => (j * x)%nat) (enumerate_from j p))) by apply G.
  induction p; intros j; simpl; auto.
Qed.

(** C10: the partitions are exactly the tuples required, each once; bad
    arguments raise ValueError. *)
Theorem C10_partitions_exact : forall n m k : Z,
  ((0 <= n)%Z -> (0 <= m)%Z -> (0 < k)%Z ->
   exists ps, iter_partitions n m k = Ok ps /\ NoDup ps /\
     forall p, In p ps <-> Z.of_nat (length p) = k /\ Z.of_nat (list_sum p) = m /\ Z.of_nat (weighted_sum 0 p) = n) /\
  ((n < 0 \/ m < 0 \/ k <= 0)%Z -> iter_partitions n m k = Err ValueError).
Proof.
  intros n m k. split.
  - intros Hn Hm Hk. unfold iter_partitions.
    destruct (Z.ltb_spec n 0); [lia|]. destruct (Z.ltb_spec m 0); [lia|]. destruct (Z.leb_spec k 0); [lia|].
    eexists. split; [reflexivity|]. split; [apply partitions_NoDup|]. intros p. rewrite partitions_spec, weighted_sum_weight. lia.
  - intros H. unfold iter_partitions.
    destruct (Z.ltb_spec n 0); auto. destruct (Z.ltb_spec m 0); auto. destruct (Z.leb_spec k 0); auto. lia.
Qed.

Example C10_nonvacuous : iter_partitions 3 2 3 = Ok [[0; 1; 1]%nat].
Proof. reflexivity. Qed.

(** ** C11 *)
(** C11: multinomial coefficients. *)
Theorem C11_multinomial : forall ks : list nat,
  (ks <> [] -> exists r, multinomial_coefficient ks = Ok r /\
     (r * fold_right (fun k s => Z.of_nat (fact k) * s) 1 ks = Z.of_nat (fact (list_sum ks)))%Z) /\
  (ks = [] -> multinomial_coefficient ks = Err ValueError).
Proof. intros ks. split; [apply multinomial_fact|intros ->; reflexivity]. Qed.

Example C11_nonvacuous : multinomial_coefficient [1; 2; 3]%nat = Ok 60%Z.
Proof. reflexivity. Qed.

(** ** C12 *)
(** The default [term_power_coefficient] and [scalar_product]. *)
Definition rtpow (c : R) (i j : nat) : res R := Ok (c ^ j).
Definition rsmul (k : Z) (c : R) : res R := Ok (IZR k * c).

Lemma run_product_total a p : length p = length a -> exists r, run_product 1 rtp rtpow a p = Ok (r, weight p).
Proof.
  intros H. unfold run_product, enumerate.
  assert (G : forall q k r w, (k + length q <= length a)%nat -> exists r',
     foldM (fun '(r, w) '(j, pj) => aj <- get_nth a j ;; t <- rtpow aj j pj ;;
             r' <- rtp r t w (j * pj) ;; Ok (r', w + j * pj)%nat) (r, w) (enumerate_from k q) =
     Ok (r', (w + list_sum (map (fun '(j, x) => (j * x)%nat) (enumerate_from k q)))%nat)).
  { induction q as [|e q IH]; intros k r w Hk; cbn [enumerate_from foldM map list_sum].
    - exists r. f_equal. f_equal. simpl. lia.
    - unfold get_nth at 1. destruct (nth_error a k) eqn:E; [|apply nth_error_None in E; simpl in Hk; lia].
      cbn [bind]. change (rtpow r0 k e) with (Ok (r0 ^ e)). cbn [bind].
      change (rtp r (r0 ^ e) w (k * e)) with (Ok (r * r0 ^ e)). cbn [bind].
      destruct (IH (S k) (r * r0 ^ e) (w + k * e)%nat) as [r' ->]; [simpl in Hk; lia|]. exists r'. f_equal. f_equal. unfold list_sum. simpl. lia. }
  destruct (G p 0%nat 1 0%nat ltac:(lia)) as [r Hr]. exists r. exact Hr.
Qed.

Lemma get_coeff_total a e i : a <> [] -> exists c, get_coeff radd 0 1 rtp rtpow rsmul a e i = Ok c.
Proof.
  intros Ha. unfold get_coeff.
  assert (G : forall l c, (forall p, In p l -> length p = length a /\ weight p = i) ->
    exists c', foldM (fun c p => '(r, w) <- run_product 1 rtp rtpow a p ;; _ <- guard (w =? i) AssertionError ;;
       m <- multinomial_coefficient p ;; term <- rsmul m r ;; radd c term) c l = Ok c').
  { induction l as [|p l IH]; intros c Hl; [simpl; eauto|]. cbn [foldM].
    destruct (Hl p (or_introl eq_refl)) as [L W]. destruct (run_product_total a p L) as [r ->]. cbn [bind].
    rewrite W, Nat.eqb_refl. cbn [bind guard]. rewrite mult_ok by (intros ->; destruct a; simpl in L; congruence). cbn [bind].
    unfold rsmul at 1, radd at 1. cbn [bind]. apply IH. intros; apply Hl; right; auto. }
  apply G. intros p Hp. apply partitions_spec in Hp. destruct Hp as (L & _ & W). split; auto. destruct a; [congruence|]. simpl in *. lia.
Qed.

Lemma mapM_total {A B} (f : A -> res B) l : (forall x, exists y, f x = Ok y) -> exists ys, mapM f l = Ok ys.
Proof. intros H. induction l; simpl; eauto. destruct (H a) as [y ->]. simpl. destruct IHl as [ys ->]. simpl. eauto. Qed.

(** C12: with the default callbacks, [integer_power a n] always succeeds for
    [n >= 0], has [(len(a)-1)*n+1] coefficients and represents the [n]-th power;
    [n < 0] raises ValueError. *)
Theorem C12_integer_power : forall (a : list R), a <> [] ->
  (forall n : nat, exists out, integer_power radd 0 1 rtp rtpow rsmul a (Z.of_nat n) = Ok out /\
     length out = ((length a - 1) * n + 1)%nat /\
     forall z, poly_value out z = poly_value a z ^ n) /\
  (forall n : Z, (n < 0)%Z -> integer_power radd 0 1 rtp rtpow rsmul a n = Err ValueError).
Proof.
  intros a Ha. split.
  - intros n. destruct n as [|n].
    { exists [1]. split; [reflexivity|]. split; [simpl; lia|]. intros z. simpl. ring. }
    assert (H : exists out, integer_power radd 0 1 rtp rtpow rsmul a (Z.of_nat (S n)) = Ok out).
    { unfold integer_power. destruct (Z.ltb_spec (Z.of_nat (S n)) 0); [lia|]. destruct (Z.eqb_spec (Z.of_nat (S n)) 0); [lia|].
      destruct a; [congruence|]. apply mapM_total. intros i. apply get_coeff_total. discriminate. }
    destruct H as [out H]. exists out. split; auto.
    assert (G : forall z, length out = ((length a - 1) * S n + 1)%nat /\ poly_value out z = poly_value a z ^ S n).
    { intros z. destruct (integer_power_rel radd 0 1 rtp rtpow rsmul (gcoef z) (gcoef z)) with (Ga := gcoef z) (a := a) (us := scaled z 0 a) (e := S n) (out := out) as (HL & F & E); auto using F2i_scaled; try lia.
      - unfold gcoef, radd. intros i b0 v c -> E. injection E as <-. ring.
      - unfold gcoef, radd. intros i a0 b0 u v c -> -> E. injection E as <-. ring.
      - unfold gcoef. simpl. ring.
      - unfold gcoef, rtp. intros i j x y u v c -> -> E. injection E as <-. rewrite pow_add. ring.
      - unfold gcoef, rtpow. intros i x u e c -> E. injection E as <-. rewrite Rpow_mult_distr, pow_mult. ring.
      - unfold gcoef, rsmul. intros i k x u c -> E. injection E as <-. ring.
      - split; [lia|]. apply F2i_gcoef in F. rewrite F in E. rewrite !scaled_value, !pow_O, !Rmult_1_l in E. exact E. }
    split; [apply (G 0)|intros z; apply (G z)].
  - intros n Hn. unfold integer_power. destruct (Z.ltb_spec n 0); [auto|lia].
Qed.

Example C12_nonvacuous : [1; 2; 3] <> [] /\ poly_value [1; 2; 3] 2 ^ 3 = 4913.
Proof. split; [discriminate|]. simpl. ring. Qed.
