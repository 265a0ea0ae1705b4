(** Theorems about elementwise_functions.py (C23-C29). *)
From Coq Require Import Reals Lra Sorted Permutation.
From Coquelicot Require Import Coquelicot.
From Verif Require Import Base Elementwise ElementSpec Analysis ElementwiseProofs.
Open Scope R_scope.

(** * Specification: the textbook functions, their domains, the orders the
    documentation offers. *)
Definition textbook (n : fname) (x : R) : R :=
  match n with
  | ABS => Rabs x
  | EXP => exp x
  | LOG => ln x
  | SIGMOID => 1 / (1 + exp (- x))
  | SOFTPLUS => ln (1 + exp x)
  | SWISH => x * (1 / (1 + exp (- x)))
  end.
Definition domain (n : fname) : R -> Prop := match n with LOG => positive | _ => everywhere end.
Definition smooth_at (n : fname) (k : nat) (x : R) : Prop :=
  match n, k with LOG, _ => 0 < x | ABS, S _ => x <> 0 | _, _ => True end.
Definition supported (n : fname) (k : nat) : bool :=
  match n with
  | ABS => k <=? 1
  | EXP | LOG => true
  | SIGMOID | SWISH => k <=? 4
  | SOFTPLUS => k <=? 5
  end%nat.

(** * Closed forms *)
Lemma Fof_ok : forall n k, supported n k = true ->
  exists g, get_function (n, k) = Ok g /\ forall x, domain n x -> g x = Ok (Fof n k x).
Proof.
  intros n k H. destruct n; unfold supported in H; try apply Nat.leb_le in H; simpl get_function.
  - destruct k as [|[|k]]; [| |lia]; eexists; split; reflexivity.
  - eexists; split; reflexivity.
  - destruct k; (eexists; split; [reflexivity|]); intros x Hx; unfold domain, positive in Hx; cbv beta.
    + destruct Rlt_dec; [reflexivity|lra].
    + destruct Req_EM_T; [lra|]. reflexivity.
  - eexists; split; [reflexivity|]. intros; apply sigF_ok; auto.
  - eexists; split; [reflexivity|]. intros; apply softplusF_ok; auto.
  - eexists; split; [reflexivity|]. intros; apply swishF_ok; auto.
Qed.

Lemma Fof_0 : forall n x, Fof n 0 x = textbook n x.
Proof.
  destruct n; intros x; simpl; auto.
  - unfold sigF, sig_poly, sg. field. assert (H := sg_den x); lra.
  - apply softplus_closed.
  - unfold sg. field. assert (H := sg_den x); lra.
Qed.

Lemma domain_convex : forall n, convex (domain n).
Proof. intros n x y z Hx Hz L. destruct n; simpl in *; auto; unfold positive in *; lra. Qed.

Lemma domain_open : forall n x, domain n x -> locally x (domain n).
Proof.
  intros n x Hx. destruct n; simpl in *; try (apply filter_true).
  apply (open_gt 0). exact Hx.
Qed.

Lemma Fof_derive : forall n k x, supported n (S k) = true -> smooth_at n 1 x ->
  is_derive (Fof n k) x (Fof n (S k) x).
Proof.
  intros n k x H Hx. destruct n; unfold supported in H; try apply Nat.leb_le in H; simpl in Hx.
  - destruct k; [|lia]. simpl. apply abs_derive; auto.
  - apply is_derive_Reals, derivable_pt_lim_exp.
  - apply logF_derive; auto.
  - apply sigF_derive; lia.
  - apply softplusF_derive; lia.
  - apply swishF_derive; lia.
Qed.

Lemma supported_le : forall n i k, (i <= k)%nat -> supported n k = true -> supported n i = true.
Proof. intros [] i k L H; simpl in *; auto; apply Nat.leb_le in H; apply Nat.leb_le; lia. Qed.

Lemma Fof_chain : forall n k, n <> ABS -> supported n k = true -> deriv_chain (domain n) (Fof n) k.
Proof.
  intros n k Hn H i x Hi Dx. apply Fof_derive.
  - apply supported_le with k; auto.
  - destruct n; simpl in *; auto; congruence.
Qed.

(** * C23 *)
(** The callable for order [k] computes the k-th derivative of the textbook
    function. *)
Theorem C23_get_function_is_kth_derivative : forall n k x,
  supported n k = true -> smooth_at n k x ->
  exists g v, get_function (n, k) = Ok g /\ g x = Ok v /\ is_derive_n (textbook n) k x v.
Proof.
  intros n k x H Hx. destruct (Fof_ok n k H) as (g & Hg & Hgx).
  assert (Dx : domain n x) by (destruct n; simpl in *; auto; exact I).
  exists g, (Fof n k x). split; [auto|split; [auto|]].
  apply (is_derive_n_ext (Fof n 0)); [apply Fof_0|].
  assert (Hd : n = ABS \/ n <> ABS) by (destruct n; (left; reflexivity) || (right; discriminate)).
  destruct Hd as [->|Hn].
  - destruct k as [|[|k]]; [reflexivity| |discriminate H].
    simpl. apply (is_derive_ext Rabs); [reflexivity|]. apply abs_derive. exact Hx.
  - apply (chain_is_derive_n (domain n) (Fof n) k); auto using domain_open, Fof_chain.
Qed.

(** Orders outside the offered range raise NotImplementedError. *)
Theorem C23_get_function_unsupported : forall n k x, supported n k = false ->
  (g <- get_function (n, k) ;; g x) = Err NotImplementedError.
Proof.
  intros n k x H. destruct n; unfold supported in H; try discriminate; apply Nat.leb_gt in H.
  - destruct k as [|[|k]]; [lia|lia|reflexivity].
  - simpl. apply sigF_err; lia.
  - simpl. apply softplusF_err; lia.
  - simpl. apply swishF_err; lia.
Qed.

(** The hypotheses are met by every name at order 1 away from 0. *)
Example C23_nonvacuous : forall n, supported n 1 = true /\ smooth_at n 1 2.
Proof. intros []; simpl; split; auto; lra. Qed.

(** * C24 *)
Lemma exp_inc : increasing_on everywhere exp.
Proof.
  intros x y _ _ [L|L]; [left; apply exp_increasing; auto|subst; lra].
Qed.

Lemma logF_mono : forall k,
  if Nat.even k then increasing_on positive (logF k) else decreasing_on positive (logF k).
Proof.
  intro k. assert (Cv : convex positive) by (intros x y z Hx Hz L; unfold positive in *; lra).
  assert (Ev : Nat.even (S k) = negb (Nat.even k)).
  { rewrite Nat.even_succ, <- Nat.negb_even. reflexivity. }
  destruct (Nat.even k) eqn:E.
  - apply increasing_of_derive with (logF (S k)); auto.
    + intros; apply logF_derive; auto.
    + intros x Hx. unfold logF. rewrite Ev. simpl negb. cbv iota.
      rewrite Rmult_1_l. apply Rmult_le_pos; [left; apply INR_fact_pos|].
      left. apply Rinv_0_lt_compat, pow_lt. exact Hx.
  - apply decreasing_of_derive with (logF (S k)); auto.
    + intros; apply logF_derive; auto.
    + intros x Hx. unfold logF. rewrite Ev. simpl negb. cbv iota.
      assert (0 <= INR (fact k) * / x ^ S k).
      { apply Rmult_le_pos; [left; apply INR_fact_pos|].
        left. apply Rinv_0_lt_compat, pow_lt. exact Hx. }
      lra.
Qed.

Lemma softplus_inc : increasing_on everywhere (softplusF 0).
Proof.
  apply increasing_of_derive with sg.
  - intros ? ? ? _ _ _; exact I.
  - intros; apply softplus_derive.
  - intros; left; apply sg_pos.
Qed.

Lemma sign_inc : increasing_on everywhere np_sign.
Proof.
  intros x y _ _ L. unfold np_sign. repeat destruct total_order_T as [[|]|]; lra.
Qed.

Lemma sigF1_even : even_function (sigF 1).
Proof. intro x. unfold sigF, sig_poly. rewrite sg_opp. ring. Qed.

Theorem C24_monotone_flags_true : forall n k d g,
  get_function_data (n, k) = Ok d -> get_function (n, k) = Ok g ->
  (mono_inc d = true -> forall x y u v, domain n x -> domain n y -> x <= y ->
     g x = Ok u -> g y = Ok v -> u <= v) /\
  (mono_dec d = true -> forall x y u v, domain n x -> domain n y -> x <= y ->
     g x = Ok u -> g y = Ok v -> v <= u) /\
  (even_sym d = true -> forall x u v, domain n x -> g x = Ok u -> g (- x) = Ok v -> v = u).
Proof.
  intros n k d g Hd Hg.
  assert (Ho : forall x v, domain n x -> g x = Ok v -> v = Fof n k x).
  { intros x v Dx Hv. destruct (supported n k) eqn:S.
    - destruct (Fof_ok n k S) as (g' & Hg' & Hx). rewrite Hg in Hg'. injection Hg' as <-.
      rewrite Hx in Hv by auto. congruence.
    - assert (X := C23_get_function_unsupported n k x S). rewrite Hg in X. simpl in X. congruence. }
  assert (HI : mono_inc d = true -> increasing_on (domain n) (Fof n k)).
  { intros Hm. destruct n; simpl in Hd.
    - destruct k as [|[|k]]; simpl in Hd; inversion Hd; subst; simpl in Hm; try discriminate.
      exact sign_inc.
    - exact exp_inc.
    - injection Hd as <-. simpl in Hm. assert (X := logF_mono k). rewrite Hm in X. exact X.
    - do 5 (destruct k as [|k]; simpl in Hd; [inversion Hd; subst; simpl in Hm; try discriminate; exact sg_increasing|]).
      discriminate.
    - do 6 (destruct k as [|k]; simpl in Hd; [inversion Hd; subst; simpl in Hm; try discriminate; first [exact softplus_inc|exact sg_increasing]|]).
      discriminate.
    - do 6 (destruct k as [|k]; simpl in Hd; [inversion Hd; subst; simpl in Hm; discriminate|]).
      discriminate. }
  assert (HD : mono_dec d = true -> decreasing_on (domain n) (Fof n k)).
  { intros Hm. destruct n; simpl in Hd.
    - destruct k as [|[|k]]; simpl in Hd; inversion Hd; subst; simpl in Hm; discriminate.
    - injection Hd as <-. discriminate.
    - injection Hd as <-. simpl in Hm. assert (X := logF_mono k).
      destruct (Nat.even k); [discriminate|]. exact X.
    - do 5 (destruct k as [|k]; simpl in Hd; [inversion Hd; subst; simpl in Hm; discriminate|]).
      discriminate.
    - do 6 (destruct k as [|k]; simpl in Hd; [inversion Hd; subst; simpl in Hm; discriminate|]).
      discriminate.
    - do 6 (destruct k as [|k]; simpl in Hd; [inversion Hd; subst; simpl in Hm; discriminate|]).
      discriminate. }
  assert (HE : even_sym d = true -> even_function (Fof n k) /\ n <> LOG).
  { intros Hm. destruct n; simpl in Hd.
    - destruct k as [|[|k]]; simpl in Hd; inversion Hd; subst; simpl in Hm; try discriminate.
      split; [|discriminate]. intro x. apply Rabs_Ropp.
    - injection Hd as <-. discriminate.
    - injection Hd as <-. discriminate.
    - do 5 (destruct k as [|k]; simpl in Hd; [inversion Hd; subst; simpl in Hm; try discriminate; split; first [exact sigF1_even|discriminate]|]).
      discriminate.
    - do 6 (destruct k as [|k]; simpl in Hd; [inversion Hd; subst; simpl in Hm; try discriminate; split; first [exact sigF1_even|discriminate]|]).
      discriminate.
    - do 6 (destruct k as [|k]; simpl in Hd; [inversion Hd; subst; simpl in Hm; discriminate|]).
      discriminate. }
  repeat split.
  - intros Hm x y u v Dx Dy L Hu Hv. rewrite (Ho x u), (Ho y v) by auto. apply HI; auto.
  - intros Hm x y u v Dx Dy L Hu Hv. rewrite (Ho x u), (Ho y v) by auto. apply HD; auto.
  - intros Hm x u v Dx Hu Hv. destruct (HE Hm) as [Ev Nl].
    rewrite (Ho x u), (Ho (- x) v) by (auto; destruct n; simpl; auto; try exact I; congruence). apply Ev.
Qed.

(** The flags are not all false: exp at every order and log at every order are
    flagged. *)
Example C24_nonvacuous : forall k,
  (exists d, get_function_data (EXP, k) = Ok d /\ mono_inc d = true) /\
  (exists d, get_function_data (LOG, k) = Ok d /\ xorb (mono_inc d) (mono_dec d) = true) /\
  (exists d, get_function_data (SIGMOID, 1%nat) = Ok d /\ even_sym d = true).
Proof.
  intro k. repeat split; eexists; (split; [reflexivity|]); simpl; auto.
  destruct (Nat.even k); reflexivity.
Qed.

(** * C29 *)
Lemma taylor_coeffs_from_ok : forall n x0 m start,
  supported n (start + m - 1) = true -> domain n x0 ->
  taylor_coeffs_from (n, 0%nat) x0 start m
    = Ok (map (fun i => Fof n i x0 / INR (fact i)) (seq start m)).
Proof.
  induction m; intros start H Dx; [reflexivity|].
  cbn [taylor_coeffs_from seq map]. unfold derivative_id. cbn [fst snd]. rewrite Nat.add_0_l.
  destruct (Fof_ok n start) as (g & Hg & Hx).
  { apply supported_le with (start + S m - 1)%nat; auto; lia. }
  rewrite Hg. cbn [bind]. rewrite Hx by auto. cbn [bind].
  destruct m.
  - reflexivity.
  - rewrite IHm; [reflexivity| |auto]. replace (S start + S m - 1)%nat with (start + S (S m) - 1)%nat by lia. auto.
Qed.

Lemma taylor_coeffs_ok : forall n d x0, supported n d = true -> domain n x0 ->
  get_taylor_polynomial_coefficients (n, 0%nat) d x0 = Ok (taylor_list (Fof n) x0 d).
Proof.
  intros. unfold get_taylor_polynomial_coefficients, taylor_list. apply taylor_coeffs_from_ok; auto.
  replace (0 + S d - 1)%nat with d by lia. auto.
Qed.

Theorem C29_taylor_coefficients_correct : forall n d x0,
  supported n d = true -> domain n x0 -> (forall i, (i <= d)%nat -> smooth_at n i x0) ->
  exists cs, get_taylor_polynomial_coefficients (n, 0%nat) d x0 = Ok cs /\
    length cs = (d + 1)%nat /\
    forall i, (i <= d)%nat -> exists v, is_derive_n (textbook n) i x0 v /\ nth i cs 0 = v / INR (fact i).
Proof.
  intros n d x0 H Dx Hs. eexists. split; [apply taylor_coeffs_ok; auto|]. split.
  - unfold taylor_list. rewrite map_length, seq_length. lia.
  - intros i Hi. destruct (C23_get_function_is_kth_derivative n i x0) as (g & v & Hg & Hv & Hd).
    { apply supported_le with d; auto. } { auto. }
    exists v. split; [auto|].
    destruct (Fof_ok n i) as (g' & Hg' & Hx); [apply supported_le with d; auto|].
    rewrite Hg in Hg'. injection Hg' as <-. rewrite Hx in Hv by auto. injection Hv as <-.
    unfold taylor_list.
    rewrite (nth_indep _ 0 ((fun i => Fof n i x0 / INR (fact i)) 0%nat))
      by (rewrite map_length, seq_length; lia).
    rewrite (map_nth (fun i => Fof n i x0 / INR (fact i))), seq_nth by lia. reflexivity.
Qed.

Example C29_nonvacuous : supported SWISH 4 = true /\ domain SWISH 3 /\
  forall i, (i <= 4)%nat -> smooth_at SWISH i 3.
Proof. repeat split. Qed.

(** * C25 *)
(** No listed extremum strictly between [a] and [b]. *)
Definition none_between (exts : list R) (a b : R) := forall e, In e exts -> ~ (a < e < b).
(** The lists really are the places where [f] turns: [f] falls into and rises
    out of each listed minimum as far as the next listed extremum, and the
    other way round for maxima. *)
Record turns_at (f : R -> R) (minima maxima : list R) := {
  min_left : forall m a, In m minima -> a <= m -> none_between (minima ++ maxima) a m ->
             decreasing_on (seg a m) f;
  min_right : forall m b, In m minima -> m <= b -> none_between (minima ++ maxima) m b ->
             increasing_on (seg m b) f;
  max_left : forall m a, In m maxima -> a <= m -> none_between (minima ++ maxima) a m ->
             increasing_on (seg a m) f;
  max_right : forall m b, In m maxima -> m <= b -> none_between (minima ++ maxima) m b ->
             decreasing_on (seg m b) f }.

Lemma insert_by_perm : forall key x l, Permutation (x :: l) (insert_by key x l).
Proof.
  induction l; simpl; [auto|]. destruct Rle_lt_dec; [|auto].
  eapply perm_trans; [apply perm_swap|]. constructor; auto.
Qed.
Lemma fold_insert_perm : forall key l acc,
  Permutation (acc ++ l) (fold_left (fun acc x => insert_by key x acc) l acc).
Proof.
  induction l; intros acc; simpl; [rewrite app_nil_r; auto|].
  eapply perm_trans; [|apply IHl].
  eapply perm_trans; [symmetry; apply Permutation_middle|].
  change (a :: acc ++ l) with ((a :: acc) ++ l). apply Permutation_app_tail, insert_by_perm.
Qed.
Lemma sort_by_perm : forall key l, Permutation l (sort_by key l).
Proof. intros. apply (fold_insert_perm key l []). Qed.

Lemma insert_by_sorted : forall key x l,
  StronglySorted (fun u v => key u <= key v) l ->
  StronglySorted (fun u v => key u <= key v) (insert_by key x l).
Proof.
  induction l; intros H; simpl.
  - constructor; constructor.
  - inversion H; subst. destruct Rle_lt_dec.
    + constructor; [auto|]. apply Forall_forall. intros y Hy.
      apply (Permutation_in y (Permutation_sym (insert_by_perm key x l))) in Hy.
      destruct Hy as [<-|Hy]; [auto|]. rewrite Forall_forall in H3; auto.
    + constructor; [auto|]. constructor; [lra|].
      eapply Forall_impl; [|apply H3]. simpl; intros; lra.
Qed.
Lemma sort_by_sorted : forall key l, StronglySorted (fun u v => key u <= key v) (sort_by key l).
Proof.
  intros. unfold sort_by. assert (G : forall l acc, StronglySorted (fun u v => key u <= key v) acc ->
    StronglySorted (fun u v => key u <= key v) (fold_left (fun acc x => insert_by key x acc) l acc)).
  { induction l0; simpl; auto using insert_by_sorted. }
  apply G. constructor.
Qed.

Lemma in_list_In : forall x l, in_list x l = true <-> In x l.
Proof.
  intros. unfold in_list. rewrite existsb_exists. split.
  - intros (y & Hy & E). unfold Req_b in E. destruct Req_EM_T; [subst; auto|discriminate].
  - intro H. exists x. split; [auto|]. unfold Req_b. destruct Req_EM_T; congruence.
Qed.
Lemma Rle_b_true : forall x y, Rle_b x y = true -> x <= y.
Proof. intros. unfold Rle_b in H. destruct Rle_dec; [auto|discriminate]. Qed.
Lemma Rle_b_le : forall x y, x <= y -> Rle_b x y = true.
Proof. intros. unfold Rle_b. destruct Rle_dec; [auto|contradiction]. Qed.
Lemma Rle_b_gt : forall x y, y < x -> Rle_b x y = false.
Proof. intros. unfold Rle_b. destruct Rle_dec; [lra|auto]. Qed.

Lemma mono_on_sub : forall f a b a' b', a <= a' -> b' <= b ->
  (increasing_on (seg a b) f -> increasing_on (seg a' b') f) /\
  (decreasing_on (seg a b) f -> decreasing_on (seg a' b') f).
Proof.
  intros. unfold increasing_on, decreasing_on, seg. split; intros G x y Hx Hy L; apply G; lra.
Qed.

Lemma mono_loop_sound : forall f mins maxs a b, turns_at f mins maxs -> a <= b ->
  forall l prev dec inc dec' inc',
  StronglySorted Rle l ->
  (forall e, In e l -> In e (mins ++ maxs)) ->
  (forall e, In e (mins ++ maxs) -> In e l \/ match prev with None => False | Some p => e <= p end) ->
  match prev with None => True | Some p => forall e, In e l -> p <= e end ->
  (dec = true -> decreasing_on (seg a b) f) -> (inc = true -> increasing_on (seg a b) f) ->
  mono_loop mins a b prev l dec inc = (dec', inc') ->
  (dec' = true -> decreasing_on (seg a b) f) /\ (inc' = true -> increasing_on (seg a b) f).
Proof.
  intros f mins maxs a b T Lab. induction l as [|x l IH]; intros prev dec inc dec' inc' Ss Hl Hp Hpl Hd Hi E.
  - simpl in E. injection E as <- <-. auto.
  - cbn [mono_loop] in E. inversion Ss as [|? ? Ss' Hx]; subst. rewrite Forall_forall in Hx.
    set (im := in_list x mins) in *.
    set (cont := match prev with None => Rle_b b x | Some p => Rle_b p a && Rle_b b x end) in *.
    set (last := match l with [] => true | _ => false end) in *.
    assert (Hx' : In x (mins ++ maxs)) by (apply Hl; left; auto).
    assert (Kmin : im = true -> In x mins) by (intro; apply in_list_In; auto).
    assert (Kmax : im = false -> In x maxs).
    { intro Hn. apply in_app_or in Hx'. destruct Hx' as [Hm|Hm]; [|auto].
      apply in_list_In in Hm. unfold im in Hn. congruence. }
    assert (Kc : cont = true -> b <= x /\ none_between (mins ++ maxs) a x).
    { intro C. unfold cont in C. destruct prev as [p|].
      - apply andb_prop in C. destruct C as [C1 C2]. apply Rle_b_true in C1, C2. split; [auto|].
        intros e He Hb. destruct (Hp e He) as [[->|Hin]|Hle]; try lra. specialize (Hx _ Hin). lra.
      - apply Rle_b_true in C. split; [auto|].
        intros e He Hb. destruct (Hp e He) as [[->|Hin]|[]]; try lra. specialize (Hx _ Hin). lra. }
    assert (Kl : last = true -> x <= a -> none_between (mins ++ maxs) x b).
    { intros La Lx e He Hb. unfold last in La. destruct l; [|discriminate].
      destruct (Hp e He) as [[->|[]]|Hle]; try lra. destruct prev as [p|]; [|auto].
      specialize (Hpl x (or_introl eq_refl)). lra. }
    set (dec2 := if last && negb im then (if im then dec || cont else dec) || Rle_b x a
                 else if im then dec || cont else dec) in *.
    set (inc2 := if last && im then (if im then inc else inc || cont) || Rle_b x a
                 else if im then inc else inc || cont) in *.
    assert (Gd : dec2 = true -> decreasing_on (seg a b) f).
    { unfold dec2. destruct im eqn:Em.
      - rewrite andb_false_r. intro Hor. apply orb_prop in Hor. destruct Hor as [H|H]; [auto|].
        destruct (Kc H) as [Lb N]. apply (mono_on_sub f a x a b); [lra|lra|].
        apply (min_left _ _ _ T); auto; lra.
      - rewrite andb_true_r. destruct last eqn:El; [|auto]. intro Hor. apply orb_prop in Hor.
        destruct Hor as [H|H]; [auto|]. apply Rle_b_true in H.
        apply (mono_on_sub f x b a b); [lra|lra|]. apply (max_right _ _ _ T); auto; lra. }
    assert (Gi : inc2 = true -> increasing_on (seg a b) f).
    { unfold inc2. destruct im eqn:Em.
      - rewrite andb_true_r. destruct last eqn:El; [|auto]. intro Hor. apply orb_prop in Hor.
        destruct Hor as [H|H]; [auto|]. apply Rle_b_true in H.
        apply (mono_on_sub f x b a b); [lra|lra|]. apply (min_right _ _ _ T); auto; lra.
      - rewrite andb_false_r. intro Hor. apply orb_prop in Hor. destruct Hor as [H|H]; [auto|].
        destruct (Kc H) as [Lb N]. apply (mono_on_sub f a x a b); [lra|lra|].
        apply (max_left _ _ _ T); auto; lra. }
    apply (IH (Some x) dec2 inc2); auto.
    + intros e He; apply Hl; right; auto.
    + intros e He. destruct (Hp e He) as [[->|Hin]|Hle]; [right; lra|left; auto|].
      right. destruct prev as [p|]; [|contradiction].
      specialize (Hpl x (or_introl eq_refl)). lra.
Qed.

Theorem C25_monotone_over_sound : forall f d a b dec inc,
  turns_at f (local_minima d) (local_maxima d) -> a <= b ->
  (mono_dec d = true -> decreasing_on (seg a b) f) ->
  (mono_inc d = true -> increasing_on (seg a b) f) ->
  monotone_over d a b = (dec, inc) ->
  (dec = true -> decreasing_on (seg a b) f) /\ (inc = true -> increasing_on (seg a b) f).
Proof.
  intros f d a b dec inc T Lab Hd Hi E. unfold monotone_over in E.
  set (l := local_minima d ++ local_maxima d) in *.
  assert (P := sort_by_perm (fun x => x) l).
  eapply (mono_loop_sound f _ _ a b T Lab (sort_by (fun x => x) l) None (mono_dec d) (mono_inc d) dec inc);
    auto.
  - apply sort_by_sorted.
  - intros e He. apply (Permutation_in e (Permutation_sym P)). auto.
  - intros e He. left. apply (Permutation_in e P). auto.
Qed.

(** Conversely a region without a listed extremum strictly inside is always
    recognised as monotone (when there is at least one listed extremum). *)
Lemma mono_loop_keeps : forall mins a b l prev dec inc dec' inc',
  mono_loop mins a b prev l dec inc = (dec', inc') -> dec || inc = true -> dec' || inc' = true.
Proof.
  induction l as [|x l IH]; intros prev dec inc dec' inc' E H; simpl in E.
  - injection E as <- <-. auto.
  - eapply IH; [exact E|].
    destruct dec, inc; try discriminate;
    destruct (in_list x mins), (match l with [] => true | _ => false end); simpl;
      rewrite ?orb_true_r; auto.
Qed.
Lemma mono_loop_complete : forall mins a b l prev dec inc dec' inc',
  a <= b -> l <> [] -> (forall e, In e l -> ~ (a < e < b)) ->
  match prev with None => True | Some p => p <= a end ->
  mono_loop mins a b prev l dec inc = (dec', inc') -> dec' || inc' = true.
Proof.
  induction l as [|x l IH]; intros prev dec inc dec' inc' L Ne N Hp E; [congruence|].
  cbn [mono_loop] in E.
  destruct (Rle_lt_dec b x) as [Lb|Lb].
  - eapply mono_loop_keeps; [exact E|].
    replace (match prev with Some p => Rle_b p a && Rle_b b x | None => Rle_b b x end) with true.
    2:{ destruct prev; rewrite ?Rle_b_le by auto; reflexivity. }
    destruct (in_list x mins), (match l with [] => true | _ => false end); simpl;
      rewrite ?orb_true_r; auto.
  - assert (Lx : x <= a).
    { destruct (Rle_lt_dec x a); [auto|]. exfalso. apply (N x); [left; auto|lra]. }
    destruct l as [|y l'].
    + cbn [mono_loop] in E. rewrite (Rle_b_le x a) in E by auto.
      injection E as <- <-. destruct (in_list x mins); simpl; rewrite ?orb_true_r; auto.
    + eapply (IH (Some x)); [auto|discriminate| | |exact E].
      * intros e He; apply N; right; auto.
      * exact Lx.
Qed.
Theorem C25_monotone_over_complete : forall d a b dec inc,
  a <= b -> local_minima d ++ local_maxima d <> [] ->
  none_between (local_minima d ++ local_maxima d) a b ->
  monotone_over d a b = (dec, inc) -> dec || inc = true.
Proof.
  intros d a b dec inc L Ne N E. unfold monotone_over in E.
  set (l := local_minima d ++ local_maxima d) in *.
  assert (P := sort_by_perm (fun x => x) l).
  eapply (mono_loop_complete _ _ _ _ None); [exact L| | |exact I|exact E].
  - intro Z. rewrite Z in P. apply Permutation_sym, Permutation_nil in P. congruence.
  - intros e He. apply N. apply (Permutation_in e (Permutation_sym P)). auto.
Qed.

(** The hypothesis holds of tables of the code: |x|, and the logistic bump. *)
Lemma abs_turns : turns_at Rabs [0] [].
Proof.
  split; intros m u [<-|[]] L N x y Hx Hy Lxy || intros m u [];
    unfold seg in *; unfold Rabs; repeat destruct Rcase_abs; lra.
Qed.
Lemma sigF1_inc : increasing_on (fun x => x <= 0) (sigF 1).
Proof.
  apply increasing_of_derive with (sigF 2).
  - intros x y z Hx Hz L; lra.
  - intros; apply sigF_derive; lia.
  - intros x Hx. unfold sigF, sig_poly. assert (A := sg_pos x). assert (B := sg_lt1 x).
    assert (sg x <= / 2) by (rewrite <- sg_0; apply sg_increasing; auto; exact I).
    apply Rmult_le_pos; [apply Rmult_le_pos; lra|lra].
Qed.
Lemma sigF1_dec : decreasing_on (fun x => 0 <= x) (sigF 1).
Proof.
  intros x y Hx Hy L. rewrite <- (sigF1_even x), <- (sigF1_even y). apply sigF1_inc; lra.
Qed.
Lemma sigmoid1_turns : turns_at (sigF 1) [] [0].
Proof.
  split.
  - intros m u [].
  - intros m u [].
  - intros m u [<-|[]] L N x y Hx Hy Lxy. unfold seg in *. apply sigF1_inc; lra.
  - intros m u [<-|[]] L N x y Hx Hy Lxy. unfold seg in *. apply sigF1_dec; lra.
Qed.
Example C25_nonvacuous :
  (exists d, get_function_data (SIGMOID, 1%nat) = Ok d /\
     turns_at (Fof SIGMOID 1) (local_minima d) (local_maxima d) /\
     monotone_over d 1 3 = (true, false) /\ monotone_over d (-1) 3 = (false, false)).
Proof.
  eexists. split; [reflexivity|]. split; [exact sigmoid1_turns|].
  unfold monotone_over, sort_by, local_minima, local_maxima. simpl.
  split.
  - rewrite (Rle_b_le 0 1) by lra. rewrite Rle_b_gt by lra. reflexivity.
  - rewrite !Rle_b_gt by lra. reflexivity.
Qed.
