(** Numerical bounds on the exponential at the places where the derivatives of
    the sigmoid, softplus and swish turn; proved by Taylor's formula and
    repeated squaring. *)
From Coq Require Import Reals Lra Lia Arith.
From Coquelicot Require Import Coquelicot.
From Verif Require Import ElementSpec Analysis.
Open Scope R_scope.

Lemma exp_T10 : forall y, 0 <= y <= 1 ->
  let p := 1 + y * (1 + y / 2 * (1 + y / 3 * (1 + y / 4 * (1 + y / 5 * (1 + y / 6 * (1 + y / 7 * (1 + y / 8 * (1 + y / 9)))))))) in
  p + y ^ 10 / 3628800 <= exp y <= p + 3 * y ^ 10 / 3628800.
Proof.
  intros y Hy p.
  destruct (rho_lagrange 10 (fun _ => True) (fun _ => exp) 0 y) as (xi & Hxi & _ & E); auto.
  { intros ? ? ? _ _ _; exact I. }
  { intros i x _ _. auto_derive; [exact I|ring]. }
  assert (T := rho_taylor' (fun _ => exp) 0 10 y). cbv beta in T. rewrite E in T.
  assert (T' : tpoly (fun _ => exp) 0 10 y = p).
  { unfold p. cbn [tpoly]. rewrite exp_0, Rminus_0_r. rewrite !fact_simpl, !mult_INR, !INR_IZR_INZ.
    cbn [fact Z.of_nat Pos.of_succ_nat Pos.succ]. cbn [pow]. field. }
  rewrite T' in T. rewrite T.
  rewrite Rmin_left, Rmax_right in Hxi by lra.
  assert (F : INR (fact 10) = 3628800).
  { rewrite !fact_simpl, !mult_INR, !INR_IZR_INZ. cbn [fact Z.of_nat Pos.of_succ_nat Pos.succ]. lra. }
  rewrite F, Rminus_0_r.
  assert (L : 1 <= exp xi <= 3).
  { split.
    - rewrite <- exp_0. destruct Hxi as [[L|<-] _]; [left; apply exp_increasing; auto|lra].
    - apply Rle_trans with (exp 1); [|apply exp_le_3].
      assert (xi <= 1) by lra. destruct H as [L| ->]; [left; apply exp_increasing; auto|lra]. }
  assert (P : 0 <= y ^ 10) by (apply pow_le; lra).
  clear -L P. revert P. generalize (y ^ 10). intros w P. split; nra.
Qed.

Lemma exp_sq : forall y l u l' u', 0 <= l -> l <= exp y <= u -> l' <= l * l -> u * u <= u' ->
  l' <= exp (2 * y) <= u'.
Proof.
  intros y l u l' u' Hl [A B] C D. replace (2 * y) with (y + y) by ring. rewrite exp_plus. split; nra.
Qed.

(** exp at 1.316957896924941 *)
Lemma exp_sig2 : 3.73205080756934115406 <= exp 1.316957896924941 <= 3.73205080756934115886.
Proof.
  assert (H0 : 1.02079064291139574487 <= exp (1316957896924941 / 64000000000000000) <= 1.02079064291139574488).
  { destruct (exp_T10 (1316957896924941 / 64000000000000000) ltac:(lra)) as [A B]. split; [apply Rle_trans with (2 := A)|apply Rle_trans with (1 := B)]; lra. }
  assert (H1 := exp_sq _ 1.02079064291139574487 1.02079064291139574488 1.04201353665546065987 1.04201353665546065990 ltac:(lra) H0 ltac:(lra) ltac:(lra)).
  assert (H2 := exp_sq _ 1.04201353665546065987 1.04201353665546065990 1.08579221057322105622 1.08579221057322105630 ltac:(lra) H1 ltac:(lra) ltac:(lra)).
  assert (H3 := exp_sq _ 1.08579221057322105622 1.08579221057322105630 1.17894472454148201523 1.17894472454148201541 ltac:(lra) H2 ltac:(lra) ltac:(lra)).
  assert (H4 := exp_sq _ 1.17894472454148201523 1.17894472454148201541 1.38991066352419090628 1.38991066352419090672 ltac:(lra) H3 ltac:(lra) ltac:(lra)).
  assert (H5 := exp_sq _ 1.38991066352419090628 1.38991066352419090672 1.93185165257825662944 1.93185165257825663068 ltac:(lra) H4 ltac:(lra) ltac:(lra)).
  assert (H6 := exp_sq _ 1.93185165257825662944 1.93185165257825663068 3.73205080756934115406 3.73205080756934115886 ltac:(lra) H5 ltac:(lra) ltac:(lra)).
  replace 1.316957896924941 with (2 * (2 * (2 * (2 * (2 * (2 * (1316957896924941 / 64000000000000000))))))) by lra. exact H6.
Qed.

(** exp at 2.292431669561121 *)
Lemma exp_sig3 : 9.89897948556579503869 <= exp 2.292431669561121 <= 9.89897948556579505015.
Proof.
  assert (H0 : 1.03646848252831688033 <= exp (2292431669561121 / 64000000000000000) <= 1.03646848252831688034).
  { destruct (exp_T10 (2292431669561121 / 64000000000000000) ltac:(lra)) as [A B]. split; [apply Rle_trans with (2 := A)|apply Rle_trans with (1 := B)]; lra. }
  assert (H1 := exp_sq _ 1.03646848252831688033 1.03646848252831688034 1.07426691527455191422 1.07426691527455191425 ltac:(lra) H0 ltac:(lra) ltac:(lra)).
  assert (H2 := exp_sq _ 1.07426691527455191422 1.07426691527455191425 1.15404940525350130086 1.15404940525350130094 ltac:(lra) H1 ltac:(lra) ltac:(lra)).
  assert (H3 := exp_sq _ 1.15404940525350130086 1.15404940525350130094 1.33183002976596007591 1.33183002976596007610 ltac:(lra) H2 ltac:(lra) ltac:(lra)).
  assert (H4 := exp_sq _ 1.33183002976596007591 1.33183002976596007610 1.77377122818639810181 1.77377122818639810232 ltac:(lra) H3 ltac:(lra) ltac:(lra)).
  assert (H5 := exp_sq _ 1.77377122818639810181 1.77377122818639810232 3.14626436994188316392 3.14626436994188316574 ltac:(lra) H4 ltac:(lra) ltac:(lra)).
  assert (H6 := exp_sq _ 3.14626436994188316392 3.14626436994188316574 9.89897948556579503869 9.89897948556579505015 ltac:(lra) H5 ltac:(lra) ltac:(lra)).
  replace 2.292431669561121 with (2 * (2 * (2 * (2 * (2 * (2 * (2292431669561121 / 64000000000000000))))))) by lra. exact H6.
Qed.

(** exp at 1.278464542761141 *)
Lemma exp_sw0 : 3.59112147666886347695 <= exp 1.278464542761141 <= 3.59112147666886348098.
Proof.
  assert (H0 : 1.02017686414016637302 <= exp (1278464542761141 / 64000000000000000) <= 1.02017686414016637303).
  { destruct (exp_T10 (1278464542761141 / 64000000000000000) ltac:(lra)) as [A B]. split; [apply Rle_trans with (2 := A)|apply Rle_trans with (1 := B)]; lra. }
  assert (H1 := exp_sq _ 1.02017686414016637302 1.02017686414016637303 1.04076083412686347775 1.04076083412686347778 ltac:(lra) H0 ltac:(lra) ltac:(lra)).
  assert (H2 := exp_sq _ 1.04076083412686347775 1.04076083412686347778 1.08318311385244463383 1.08318311385244463390 ltac:(lra) H1 ltac:(lra) ltac:(lra)).
  assert (H3 := exp_sq _ 1.08318311385244463383 1.08318311385244463390 1.17328565813507803399 1.17328565813507803415 ltac:(lra) H2 ltac:(lra) ltac:(lra)).
  assert (H4 := exp_sq _ 1.17328565813507803399 1.17328565813507803415 1.37659923558546320400 1.37659923558546320438 ltac:(lra) H3 ltac:(lra) ltac:(lra)).
  assert (H5 := exp_sq _ 1.37659923558546320400 1.37659923558546320438 1.89502545541448162283 1.89502545541448162389 ltac:(lra) H4 ltac:(lra) ltac:(lra)).
  assert (H6 := exp_sq _ 1.89502545541448162283 1.89502545541448162389 3.59112147666886347695 3.59112147666886348098 ltac:(lra) H5 ltac:(lra) ltac:(lra)).
  replace 1.278464542761141 with (2 * (2 * (2 * (2 * (2 * (2 * (1278464542761141 / 64000000000000000))))))) by lra. exact H6.
Qed.

(** exp at 2.399357280515325 *)
Lemma exp_sw1 : 11.01609384668385114790 <= exp 2.399357280515325 <= 11.01609384668385116656.
Proof.
  assert (H0 : 1.03820157089855652272 <= exp (95974291220613 / 2560000000000000) <= 1.03820157089855652274).
  { destruct (exp_T10 (95974291220613 / 2560000000000000) ltac:(lra)) as [A B]. split; [apply Rle_trans with (2 := A)|apply Rle_trans with (1 := B)]; lra. }
  assert (H1 := exp_sq _ 1.03820157089855652272 1.03820157089855652274 1.07786250181623048605 1.07786250181623048610 ltac:(lra) H0 ltac:(lra) ltac:(lra)).
  assert (H2 := exp_sq _ 1.07786250181623048605 1.07786250181623048610 1.16178757282154346783 1.16178757282154346795 ltac:(lra) H1 ltac:(lra) ltac:(lra)).
  assert (H3 := exp_sq _ 1.16178757282154346783 1.16178757282154346795 1.34975036436257316624 1.34975036436257316652 ltac:(lra) H2 ltac:(lra) ltac:(lra)).
  assert (H4 := exp_sq _ 1.34975036436257316624 1.34975036436257316652 1.82182604609689902234 1.82182604609689902311 ltac:(lra) H3 ltac:(lra) ltac:(lra)).
  assert (H5 := exp_sq _ 1.82182604609689902234 1.82182604609689902311 3.31905014223706044147 3.31905014223706044428 ltac:(lra) H4 ltac:(lra) ltac:(lra)).
  assert (H6 := exp_sq _ 3.31905014223706044147 3.31905014223706044428 11.01609384668385114790 11.01609384668385116656 ltac:(lra) H5 ltac:(lra) ltac:(lra)).
  replace 2.399357280515325 with (2 * (2 * (2 * (2 * (2 * (2 * (95974291220613 / 2560000000000000))))))) by lra. exact H6.
Qed.

(** exp at 3.435840993535023 *)
Lemma exp_sw2 : 31.05752075975079382094 <= exp 3.435840993535023 <= 31.05752075975079405624.
Proof.
  assert (H0 : 1.05515219324529951186 <= exp (3435840993535023 / 64000000000000000) <= 1.05515219324529951198).
  { destruct (exp_T10 (3435840993535023 / 64000000000000000) ltac:(lra)) as [A B]. split; [apply Rle_trans with (2 := A)|apply Rle_trans with (1 := B)]; lra. }
  assert (H1 := exp_sq _ 1.05515219324529951186 1.05515219324529951198 1.11334615091036588482 1.11334615091036588508 ltac:(lra) H0 ltac:(lra) ltac:(lra)).
  assert (H2 := exp_sq _ 1.11334615091036588482 1.11334615091036588508 1.23953965174692720674 1.23953965174692720732 ltac:(lra) H1 ltac:(lra) ltac:(lra)).
  assert (H3 := exp_sq _ 1.23953965174692720674 1.23953965174692720732 1.53645854825289357988 1.53645854825289358133 ltac:(lra) H2 ltac:(lra) ltac:(lra)).
  assert (H4 := exp_sq _ 1.53645854825289357988 1.53645854825289358133 2.36070487049938930914 2.36070487049938931361 ltac:(lra) H3 ltac:(lra) ltac:(lra)).
  assert (H5 := exp_sq _ 2.36070487049938930914 2.36070487049938931361 5.57292748559953844847 5.57292748559953846958 ltac:(lra) H4 ltac:(lra) ltac:(lra)).
  assert (H6 := exp_sq _ 5.57292748559953844847 5.57292748559953846958 31.05752075975079382094 31.05752075975079405624 ltac:(lra) H5 ltac:(lra) ltac:(lra)).
  replace 3.435840993535023 with (2 * (2 * (2 * (2 * (2 * (2 * (3435840993535023 / 64000000000000000))))))) by lra. exact H6.
Qed.
