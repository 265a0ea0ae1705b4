(** Lemmas relating the scalar model of primitive_enclosures.py to Analysis.v. *)
From Coq Require Import Reals Lra.
From Coquelicot Require Import Coquelicot.
From Verif Require Import Base Elementwise Primitive ElementSpec Analysis.
Open Scope R_scope.

Lemma horner_app : forall cs c d, horner (cs ++ [c]) d = horner cs d + c * d ^ length cs.
Proof. induction cs; intros; simpl; [ring|]. rewrite IHcs; ring. Qed.

Lemma taylor_sum_horner : forall cs i d, taylor_sum i cs d = d ^ i * horner cs d.
Proof.
  induction cs; intros; simpl; [ring|]. rewrite IHcs. simpl. ring.
Qed.

Lemma taylor_list_length : forall F x0 k, length (taylor_list F x0 k) = S k.
Proof. intros; unfold taylor_list; rewrite map_length, seq_length; reflexivity. Qed.

Lemma taylor_list_S : forall F x0 k,
  taylor_list F x0 (S k) = taylor_list F x0 k ++ [F (S k) x0 / INR (fact (S k))].
Proof. intros. unfold taylor_list. rewrite (seq_S (S k)), map_app. reflexivity. Qed.

Lemma taylor_list_firstn : forall F x0 k,
  taylor_list F x0 k = firstn k (taylor_list F x0 k) ++ [F k x0 / INR (fact k)].
Proof.
  intros. destruct k.
  - reflexivity.
  - rewrite taylor_list_S. rewrite firstn_app, taylor_list_length, Nat.sub_diag.
    rewrite firstn_all2 by (rewrite taylor_list_length; lia).
    rewrite firstn_O, app_nil_r. reflexivity.
Qed.

Lemma taylor_list_firstn_S : forall F x0 k,
  firstn (S k) (taylor_list F x0 (S k)) = taylor_list F x0 k.
Proof.
  intros. rewrite taylor_list_S, firstn_app, taylor_list_length, Nat.sub_diag.
  rewrite firstn_all2 by (rewrite taylor_list_length; lia).
  rewrite firstn_O, app_nil_r. reflexivity.
Qed.

Lemma horner_taylor : forall F x0 k x,
  horner (taylor_list F x0 k) (x - x0) = tpoly F x0 (S k) x.
Proof.
  induction k; intros.
  - simpl. field.
  - rewrite taylor_list_S, horner_app, IHk, taylor_list_length.
    change (tpoly F x0 (S (S k)) x) with
      (tpoly F x0 (S k) x + F (S k) x0 / INR (fact (S k)) * (x - x0) ^ S k). reflexivity.
Qed.

Lemma horner_taylor_firstn : forall F x0 k x,
  horner (firstn k (taylor_list F x0 k)) (x - x0) = tpoly F x0 k x.
Proof.
  intros. destruct k; [reflexivity|]. rewrite taylor_list_firstn_S. apply horner_taylor.
Qed.

Lemma firstn_taylor_length : forall F x0 k, length (firstn k (taylor_list F x0 k)) = k.
Proof. intros. rewrite firstn_length, taylor_list_length. lia. Qed.

Lemma taylor_nth : forall F x0 k, nth k (taylor_list F x0 k) 0 = F k x0 / INR (fact k).
Proof.
  intros. rewrite taylor_list_firstn. rewrite app_nth2; rewrite firstn_taylor_length; [|lia].
  rewrite Nat.sub_diag. reflexivity.
Qed.

Lemma np_sign_mult : forall x, np_sign x * Rabs x = x.
Proof.
  intros. unfold np_sign, Rabs. destruct total_order_T as [[L|L]|L]; destruct Rcase_abs; lra.
Qed.
Lemma np_sign_div : forall x, x <> 0 -> np_sign x / Rabs x = / x.
Proof.
  intros. unfold np_sign, Rabs. destruct total_order_T as [[L|L]|L]; destruct Rcase_abs; try lra; field; auto.
Qed.
Lemma np_sign_0 : np_sign 0 = 0.
Proof. unfold np_sign. destruct total_order_T as [[L|L]|L]; lra. Qed.

Lemma ratio_rho : forall F x0 k sigma x,
  sigma x = Ok (F O x) -> cap_ok k x0 x ->
  taylor_remainder_ratio x0 k sigma (taylor_list F x0 k) x = Ok (rho F x0 k x).
Proof.
  intros F x0 k sigma x Hs Hc. unfold taylor_remainder_ratio.
  rewrite taylor_list_length. replace (S k =? k + 1)%nat with true
    by (symmetry; apply Nat.eqb_eq; lia). simpl negb. cbv iota.
  rewrite Hs. cbn [bind]. f_equal.
  rewrite taylor_nth, taylor_sum_horner, horner_taylor. rewrite pow_O, Rmult_1_l.
  unfold rho. destruct (Req_EM_T x x0) as [->|Hne].
  - rewrite tpoly_x0. unfold Rdiv. replace (F 0%nat x0 - F 0%nat x0) with 0 by ring. ring.
  - destruct Hc as [Hc|Hc]; [congruence|].
    assert (P := pow_nonzero (x - x0) k ltac:(lra)).
    rewrite RPow_abs in Hc.
    rewrite Rmax_right by auto.
    replace ((F 0%nat x - tpoly F x0 (S k) x) * np_sign ((x - x0) ^ k) / Rabs ((x - x0) ^ k))
      with ((F 0%nat x - tpoly F x0 (S k) x) * (np_sign ((x - x0) ^ k) / Rabs ((x - x0) ^ k)))
      by (unfold Rdiv; ring).
    rewrite np_sign_div by auto.
    change (tpoly F x0 (S k) x) with (tpoly F x0 k x + F k x0 / INR (fact k) * (x - x0) ^ k).
    unfold rem. assert (N := INR_fact_neq_0 k).
    generalize dependent ((x - x0) ^ k). intros w Hw P. field. auto.
Qed.

(** An interval holding the quotient at [x] encloses the function at [x]. *)
Lemma encl_value_rho : forall F x0 k x I,
  fst I <= rho F x0 k x <= snd I ->
  encl_value (firstn k (taylor_list F x0 k)) I (x - x0) (F O x).
Proof.
  intros. exists (rho F x0 k x). split; [auto|].
  rewrite horner_app, horner_taylor_firstn, firstn_taylor_length. apply rho_taylor'.
Qed.
Lemma encl_value_rho_inv : forall F x0 k x I,
  x <> x0 -> encl_value (firstn k (taylor_list F x0 k)) I (x - x0) (F O x) ->
  fst I <= rho F x0 k x <= snd I.
Proof.
  intros F x0 k x I Hne (c & Hc & E).
  rewrite horner_app, horner_taylor_firstn, firstn_taylor_length in E.
  assert (E2 := rho_taylor' F x0 k x). rewrite E in E2.
  assert (P := pow_nonzero (x - x0) k ltac:(lra)).
  assert (c = rho F x0 k x) by (apply (Rmult_eq_reg_r ((x - x0) ^ k)); auto; lra). subst; auto.
Qed.
