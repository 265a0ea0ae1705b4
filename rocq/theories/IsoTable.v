(** Inclusion isotonicity of the registered enclosure generators. *)
From Coq Require Import Reals Lra.
From Coquelicot Require Import Coquelicot.
From Verif Require Import Base Tensor IntervalArith Polynomials Enclosure TensorLemmas Spec IntervalProofs JaxBound JaxSpec JaxOps
  Elementwise Primitive ElementSpec Analysis ElementwiseProofs
  PrimitiveProofs EvenHessian PropElementwise PropRange PropPrimitive PropCentre PropPower PropPowerZero NearTable PropNear PropClear
  JaxTable JaxTableProofs IsoSpec Iso IsoScalar.
Open Scope R_scope.

(** ** Guarded generators *)
(** The registered generators (jax_bound.py:272-292), raising outside the
    functions and regions covered below: exact tables (for [log] a positive
    region); rounded tables on regions 1e-12 away from the rounded extrema;
    powers on the regions of [pow_guard].  Unlike [checked_generators] there is
    no condition on the distance of the ends from the centre. *)
Definition exact_region (n : fname) (tr : R * R) (k : nat) : bool :=
  builtin n k && match n with LOG => if Rlt_dec 0 (fst tr) then true else false | _ => true end.
Definition region_guard (n : fname) (x0 : R) (tr : R * R) (k : nat) : bool := exact_region n tr k || rounded_guard n tr k.
Definition guarded (guard : R -> R * R -> nat -> bool) (g : scalar_gen) : scalar_gen := fun x0 tr d => if guard x0 tr d then g x0 tr d else Err Unmodelled.
Definition guarded_pow (p : R) : scalar_gen := guarded (pow_guard p) (pow_gen p).
Definition guarded_elem (e : elem) : option scalar_gen :=
  match e with
  | Abs => Some (guarded (region_guard ABS) abs_enclosure)
  | Cbrt => Some (guarded_pow (1 / 3))
  | Exp => Some (guarded (region_guard EXP) exp_enclosure)
  | Log => Some (guarded (region_guard LOG) log_enclosure)
  | Logistic | Sigmoid => Some (guarded (region_guard SIGMOID) sigmoid_enclosure)
  | Rsqrt => Some (guarded_pow (- (1 / 2)))
  | Sqrt => Some (guarded_pow (1 / 2))
  | Softplus => Some (guarded (region_guard SOFTPLUS) softplus_enclosure)
  | Swish => Some (guarded (region_guard SWISH) swish_enclosure)
  | User _ => None
  end.
Definition guarded_generators (ugen : nat -> generator R) : generators R :=
  Generators (fun e => match e with
                       | User n => ugen n
                       | _ => match guarded_elem e with Some g => lift_gen g | None => fun _ _ _ => Err KeyError end
                       end)
             (fun n => lift_gen (guarded_pow (IZR n)))
             (fun p => lift_gen (guarded_pow p))
             exponentR.

(** ** Results of the functions *)
Lemma sharp_eval F x0 k a b sigma inc : sigma a = Ok (F 0%nat a) -> sigma b = Ok (F 0%nat b) ->
  sharp_enclosure_monotonic_derivative x0 k (a, b) sigma (taylor_list F x0 k) inc = Ok (firstn k (taylor_list F x0 k), if inc then (cr F x0 k a, cr F x0 k b) else (cr F x0 k b, cr F x0 k a)).
Proof.
  intros Ha Hb. unfold sharp_enclosure_monotonic_derivative, sharp_ends. destruct inc; rewrite (ratio_cr F x0 k sigma a Ha), (ratio_cr F x0 k sigma b Hb); reflexivity.
Qed.

(** The shape of a result. *)
Definition fun_form (F : nat -> R -> R) (d : fdata) (x0 a b : R) (k : nat) (e : senc) : Prop :=
  if mono_inc d || mono_dec d then sharp_form F x0 k a b (mono_inc d) e
  else if (k =? 2)%nat && even_sym d then even_form F x0 a b e /\ unimodal (rho F x0 2) (- x0)
  else let '(dec, inc) := monotone_over d a b in
       if dec then sharp_form F x0 k a b false e else if inc then sharp_form F x0 k a b true e else range_form F x0 k a b e.

Lemma seg_domain n a b : domain n a -> forall x, seg a b x -> domain n x.
Proof. intros D x Hx. unfold seg in Hx. destruct n; simpl in *; auto; try exact I. unfold positive in *; lra. Qed.
Lemma mono_form n k d x0 a b e : supported n k = true -> domain n a -> a <= x0 <= b -> get_function_data (n, k) = Ok d -> mono_inc d || mono_dec d = true ->
  (if mono_inc d then increasing_on (seg a b) (rho (Fof n) x0 k) else decreasing_on (seg a b) (rho (Fof n) x0 k)) ->
  get_elementwise_taylor_enclosure (n, 0%nat) x0 (a, b) k = Ok e -> fun_form (Fof n) d x0 a b k e.
Proof.
  intros Sk Da Hx0 Hd Hm HM H. pose proof (seg_domain n a b Da) as Dx.
  destruct (Fof_ok n 0 (supported_le n 0 k (Nat.le_0_l k) Sk)) as (g & Hg & Hgx).
  unfold get_elementwise_taylor_enclosure in H. rewrite Hg in H. cbn [bind] in H.
  unfold derivative_id in H. cbn [fst snd] in H. rewrite Nat.add_0_l, Hd in H. cbn [bind] in H. rewrite Hm in H.
  rewrite taylor_coeffs_ok in H by (auto; apply Dx; exact Hx0). cbn [bind] in H.
  rewrite (sharp_eval (Fof n)) in H by (apply Hgx, Dx; unfold seg; lra). injection H as <-.
  unfold fun_form. rewrite Hm. split; [reflexivity|]. destruct (mono_inc d); auto.
Qed.
Lemma fallback_form n k d x0 a b lo hi u v e : supported n k = true -> domain n a -> a <= x0 <= b ->
  get_function_data (n, k) = Ok d -> mono_inc d || mono_dec d = false -> (k =? 2)%nat && even_sym d = false ->
  deriv_chain (seg a b) (Fof n) k ->
  (forall dec inc, monotone_over d a b = (dec, inc) -> (dec = true -> decreasing_on (seg a b) (Fof n k)) /\ (inc = true -> increasing_on (seg a b) (Fof n k))) ->
  get_range (n, k) a b = Ok (lo, hi) -> (forall x, seg a b x -> lo <= Fof n k x <= hi) -> seg a b u -> Fof n k u = lo -> seg a b v -> Fof n k v = hi ->
  get_elementwise_taylor_enclosure (n, 0%nat) x0 (a, b) k = Ok e -> fun_form (Fof n) d x0 a b k e.
Proof.
  intros Sk Da Hx0 Hd Hm He HF HT Hr HR Su Eu Sv Ev H. pose proof (seg_domain n a b Da) as Dx.
  destruct (Fof_ok n 0 (supported_le n 0 k (Nat.le_0_l k) Sk)) as (g & Hg & Hgx).
  unfold get_elementwise_taylor_enclosure in H. rewrite Hg in H. cbn [bind] in H.
  unfold derivative_id in H. cbn [fst snd] in H. rewrite Nat.add_0_l, Hd in H. cbn [bind] in H. rewrite Hm, He in H.
  rewrite taylor_coeffs_ok in H by (auto; apply Dx; exact Hx0). cbn [bind] in H.
  rewrite !(sharp_eval (Fof n)) in H by (apply Hgx, Dx; unfold seg; lra). cbn [bind fst snd] in H. rewrite Hr in H. cbn [bind] in H.
  assert (HD : convex (seg a b)) by (intros x y z Hx Hz L; unfold seg in *; lra).
  unfold bounded_derivative_enclosure in H. rewrite removelast_firstn_taylor, firstn_taylor_length, Nat.eqb_refl in H. cbn [negb bind] in H.
  unfold fun_form. rewrite Hm, He. destruct (monotone_over d a b) as [dec inc] eqn:Mo. destruct (HT dec inc eq_refl) as [Md Mi]. injection H as <-. cbn [fst snd].
  destruct dec; [|destruct inc].
  - split; [reflexivity|]. split; [|reflexivity]. exact (rho_decreasing k (seg a b) (Fof n) x0 HD Hx0 HF (Md eq_refl)).
  - split; [reflexivity|]. split; [|reflexivity]. exact (rho_increasing k (seg a b) (Fof n) x0 HD Hx0 HF (Mi eq_refl)).
  - split; [reflexivity|]. split; [exact HF|]. exists u, v. split; [auto|]. split; [auto|]. rewrite Eu, Ev. split; [reflexivity|exact HR].
Qed.

Lemma exact_form n k x0 a b e : builtin n k = true -> domain n a -> a <= x0 <= b -> get_elementwise_taylor_enclosure (n, 0%nat) x0 (a, b) k = Ok e ->
  exists d, get_function_data (n, k) = Ok d /\ fun_form (Fof n) d x0 a b k e.
Proof.
  intros Hb Da Hx0 H.
  assert (Sk : supported n k = true).
  { destruct n; simpl in *; auto; try discriminate; apply Nat.leb_le in Hb; apply Nat.leb_le; lia. }
  assert (HS : convex (seg a b)) by (intros x y z Hx Hz L; unfold seg in *; lra).
  assert (Sx0 : seg a b x0) by exact Hx0. pose proof (seg_domain n a b Da) as Dx.
  assert (Chain : n <> ABS -> deriv_chain (seg a b) (Fof n) k).
  { intros Hn i x Hi Hx. apply (Fof_chain n k Hn Sk); auto. }
  assert (Mon : forall d, n <> ABS -> get_function_data (n, k) = Ok d -> mono_inc d || mono_dec d = true -> exists d, get_function_data (n, k) = Ok d /\ fun_form (Fof n) d x0 a b k e).
  { intros d Hn Hd Hm. exists d. split; [auto|]. apply (mono_form n k d); auto.
    destruct (Fof_ok n k Sk) as (g & Hg & Hgx). destruct (C24_monotone_flags_true n k d g Hd Hg) as (MI & MD & _).
    destruct (mono_inc d) eqn:Ei.
    - apply rho_increasing; auto. intros x y Hx Hy L. apply (MI eq_refl x y); auto.
    - apply rho_decreasing; auto. intros x y Hx Hy L. simpl in Hm. apply (MD Hm x y); auto. }
  assert (Turn : forall d, get_function_data (n, k) = Ok d -> mono_inc d || mono_dec d = false -> turns_at (Fof n k) (local_minima d) (local_maxima d) ->
     forall dec inc, monotone_over d a b = (dec, inc) -> (dec = true -> decreasing_on (seg a b) (Fof n k)) /\ (inc = true -> increasing_on (seg a b) (Fof n k))).
  { intros d Hd Hm HT dec inc Mo. apply (C25_monotone_over_sound (Fof n k) d a b dec inc HT); auto; try lra; intros K; apply orb_false_elim in Hm; destruct Hm; congruence. }
  destruct n; simpl builtin in Hb; try discriminate; try apply Nat.leb_le in Hb.
  - destruct k as [|[|k]]; [| |lia].
    + destruct (C26_get_range_exact ABS 0 a b eq_refl I ltac:(lra)) as (g & lo & hi & Hg & Hr & HR & (u & Su & Eu) & (v & Sv & Ev)). injection Hg as <-. injection Eu as Eu. injection Ev as Ev.
      exists (FData [0] [] false false true). split; [reflexivity|]. apply (fallback_form ABS 0 _ x0 a b lo hi u v); auto.
      * intros i x Hi; lia.
      * apply Turn; auto. exact abs_turns.
      * intros x Hx. destruct (HR x Hx) as (w & Hw & Hl). injection Hw as <-. exact Hl.
    + exists (FData [] [] false true false). split; [reflexivity|]. apply (mono_form ABS 1 (FData [] [] false true false)); auto.
      intros x y Hx Hy L. apply abs_rho_increasing; auto; exact I.
  - apply (Mon (FData [] [] false true false)); auto; discriminate.
  - apply (Mon (FData [] [] (negb (Nat.even k)) (Nat.even k) false)); auto; try discriminate.
    simpl. destruct (Nat.even k); reflexivity.
  - destruct k as [|[|k]]; [| |lia].
    + apply (Mon (FData [] [] false true false)); auto; discriminate.
    + destruct (C26_get_range_exact SIGMOID 1 a b eq_refl I ltac:(lra)) as (g & lo & hi & Hg & Hr & HR & (u & Su & Eu) & (v & Sv & Ev)). injection Hg as <-.
      rewrite sigF_ok in Eu, Ev by lia. injection Eu as Eu. injection Ev as Ev.
      exists (FData [] [0] false false true). split; [reflexivity|]. apply (fallback_form SIGMOID 1 _ x0 a b lo hi u v); auto.
      * apply Chain; discriminate.
      * apply Turn; auto. exact sigmoid1_turns.
      * intros x Hx. destruct (HR x Hx) as (w & Hw & Hl). rewrite sigF_ok in Hw by lia. injection Hw as <-. exact Hl.
  - destruct k as [|[|[|k]]]; [| | |lia].
    + apply (Mon (FData [] [] false true false)); auto; discriminate.
    + apply (Mon (FData [] [] false true false)); auto; discriminate.
    + unfold get_elementwise_taylor_enclosure in H.
      cbn [get_function bind derivative_id fst snd Nat.add get_function_data softplus_data
           mono_inc mono_dec orb Nat.eqb even_sym andb] in H.
      rewrite taylor_coeffs_ok in H by (reflexivity || exact I). cbn [bind] in H.
      eexists. split; [reflexivity|]. unfold fun_form. cbn [softplus_data mono_inc mono_dec orb even_sym andb Nat.eqb].
      unfold sharp_quadratic_enclosure_even_symmetric_hessian in H. rewrite !(ratio_cr (Fof SOFTPLUS)) in H by reflexivity. cbn [bind] in H. injection H as <-.
      split; [split; reflexivity|]. apply q_unimodal; [exact (Fof_chain SOFTPLUS 2 ltac:(discriminate) eq_refl)|exact sigF1_even|exact sigF1_dec].
Qed.
Lemma rounded_form n k d x0 a b e : rounded_table n k = true -> get_function_data (n, k) = Ok d -> clear_of (local_minima d ++ local_maxima d) a b -> a <= x0 <= b ->
  get_elementwise_taylor_enclosure (n, 0%nat) x0 (a, b) k = Ok e -> fun_form (Fof n) d x0 a b k e.
Proof.
  intros H Hd C Hx0 He. assert (Sk := rounded_supported n k H).
  assert (Dx : forall x, domain n x) by (intro; apply (rounded_domain n k); auto). assert (Hn : n <> ABS) by (intros ->; discriminate).
  assert (HF : deriv_chain (seg a b) (Fof n) k) by (intros i x Hi Hx; apply (Fof_chain n k Hn Sk i x); auto).
  destruct (moved_table n k H) as (d' & c1 & c2 & Hd' & Mi & Md & Ev & _). rewrite Hd in Hd'. injection Hd' as <-.
  destruct (C26_get_range_exact_away_from_rounding n k d a b H Hd C ltac:(lra)) as (g & lo & hi & Hg & Hr & HR & (u & Su & Eu) & (v & Sv & Ev')).
  destruct (Fof_ok n k Sk) as (g' & Hg' & Hgx). rewrite Hg in Hg'. injection Hg' as <-. rewrite Hgx in Eu, Ev' by auto. injection Eu as Eu. injection Ev' as Ev'.
  apply (fallback_form n k d x0 a b lo hi u v); auto.
  - rewrite Mi, Md. reflexivity.
  - rewrite Ev. apply andb_false_r.
  - intros dec inc Mo. exact (C25_monotone_over_sound_away_from_rounding n k d a b dec inc H Hd ltac:(lra) C Mo).
  - intros x Hx. destruct (HR x Hx) as (w & Hw & Hl). rewrite Hgx in Hw by auto. injection Hw as <-. auto.
Qed.
Lemma guarded_fun_form n x0 a b k e : a <= x0 <= b -> guarded (region_guard n) (get_elementwise_taylor_enclosure (n, 0%nat)) x0 (a, b) k = Ok e ->
  domain n a /\ exists d, get_function_data (n, k) = Ok d /\ fun_form (Fof n) d x0 a b k e.
Proof.
  intros Hx H. unfold guarded in H. destruct (region_guard n x0 (a, b) k) eqn:G; [|discriminate]. unfold region_guard in G. apply orb_prop in G. destruct G as [G|G].
  - unfold exact_region in G. apply andb_prop in G. destruct G as [G1 G2]. cbn [fst snd] in G2.
    assert (Da : domain n a) by (destruct n; try exact I; destruct (Rlt_dec 0 a); [assumption|discriminate]). split; [auto|]. apply exact_form; auto.
  - unfold rounded_guard in G. apply andb_prop in G. destruct G as [G1 G2]. destruct (get_function_data (n, k)) as [d|] eqn:Ed; [|discriminate].
    cbn [fst snd] in G2. apply clear_ofb_ok in G2. split; [apply (rounded_domain n k); auto|]. exists d. split; auto. apply rounded_form; auto.
Qed.

(** ** Isotonicity and validity at the centre *)
Definition scalar_iso (g : scalar_gen) : Prop := forall x x' a b a' b' k e e', a' <= a -> b <= b' -> a <= x <= b -> a' <= x' <= b' -> (k = 0%nat \/ x = x') ->
  g x (a, b) k = Ok e -> g x' (a', b') k = Ok e' -> inner e e'.

Lemma form_exact0 F d x0 a b e : a <= x0 <= b -> fun_form F d x0 a b 0 e -> exact0 F a b e.
Proof.
  intros Hx H. unfold fun_form in H. destruct (_ || _); [eapply sharp_exact0; eauto|]. cbn [Nat.eqb andb] in H. destruct (monotone_over d a b) as [[|] [|]]; first [eapply sharp_exact0; eauto; fail|eapply range_exact0; eauto].
Qed.
Lemma form_iso F d x0 a b a' b' k e e' : nested x0 a b a' b' -> fun_form F d x0 a b k e -> fun_form F d x0 a' b' k e' -> inner e e'.
Proof.
  intros N H H'. unfold fun_form in *. destruct (mono_inc d || mono_dec d); [eapply sharp_sharp; eauto|].
  destruct (_ && _). { destruct H as [H U], H' as [H' _]. eapply even_even; eauto. }
  destruct (monotone_over d a b) as [dec inc] eqn:M. destruct (monotone_over d a' b') as [dec' inc'] eqn:M'.
  destruct N as (N1 & N2 & N3). destruct (monotone_over_sub d a b a' b' dec inc dec' inc' N1 N3 M M') as [Bd Bi]. assert (N : nested x0 a b a' b') by (split; auto).
  destruct dec', inc'; (try (rewrite (Bd eq_refl) in * )); (try (rewrite (Bi eq_refl) in * )); destruct dec; try destruct inc; eauto using sharp_sharp, sharp_range, range_range.
Qed.
Lemma form_centre F d x0 a b k e : a <= x0 <= b -> fun_form F d x0 a b k e -> centred F x0 k e.
Proof.
  intros Hx H. assert (S1 : seg a b a) by (unfold seg; lra). assert (S2 : seg a b b) by (unfold seg; lra). assert (S0 : seg a b x0) by exact Hx.
  assert (Sh : forall inc, sharp_form F x0 k a b inc e -> centred F x0 k e).
  { intros inc [E K]. split; [exact E|]. destruct inc; destruct K as [M ->]; cbn [fst snd].
    - split; [apply (cr_lo F x0 k a a)|apply (cr_hi F x0 k b b)]; try lra; apply M; auto; lra.
    - split; [apply (cr_lo F x0 k b b)|apply (cr_hi F x0 k a a)]; try lra; apply M; auto; lra. }
  unfold fun_form in H. destruct (_ || _); [eauto|]. destruct ((k =? 2)%nat && _) eqn:E2.
  - apply andb_prop in E2. destruct E2 as [E2 _]. apply Nat.eqb_eq in E2. subst k. destruct H as [[E ES] U]. split; [exact E|]. rewrite ES. cbn [fst snd]. apply even_centre; auto.
  - destruct (monotone_over d a b) as [[|] [|]]; eauto. destruct H as (E & _ & u & v & _ & _ & ES & HR). split; [exact E|]. rewrite ES. cbn [fst snd]. rewrite rho_x0.
    destruct (HR x0 S0). split; apply div_fact; auto.
Qed.

Lemma guarded_fun_iso n : scalar_iso (guarded (region_guard n) (get_elementwise_taylor_enclosure (n, 0%nat))).
Proof.
  intros x x' a b a' b' k e e' La Lb Hx Hx' HK H H'.
  destruct (guarded_fun_form _ _ _ _ _ _ Hx H) as (_ & d & Hd & F1). destruct (guarded_fun_form _ _ _ _ _ _ Hx' H') as (_ & d' & Hd' & F2). rewrite Hd in Hd'. injection Hd' as <-.
  destruct HK as [-> | <-].
  - apply form_exact0 in F1, F2; auto. eapply exact0_inner; [| |exact F1|exact F2]; auto.
  - eapply form_iso; [|exact F1|exact F2]. split; auto.
Qed.
Lemma exact0_value F a b e y : exact0 F a b e -> seg a b y -> forall d, encl_value (fst e) (snd e) d (F 0%nat y).
Proof. intros (E & u & v & _ & _ & -> & H) Hy d. rewrite E. exists (F 0%nat y). split; [apply H; auto|]. simpl. ring. Qed.
Lemma guarded_fun_valid n sigma : (forall y v, sigma y = Ok v -> domain n y -> v = textbook n y) ->
  scalar_valid_if at_centre (guarded (region_guard n) (get_elementwise_taylor_enclosure (n, 0%nat))) sigma.
Proof.
  intros Hs x0 a b k e Hx H. destruct (guarded_fun_form _ _ _ _ _ _ Hx H) as (Da & d & Hd & F1). pose proof (form_centre _ _ _ _ _ _ _ Hx F1) as C.
  destruct (centred_value _ _ _ _ C) as [L V]. split; [exact L|]. intros y v Hy HC Hv. rewrite (Hs y v Hv (seg_domain n a b Da y Hy)), <- Fof_0. destruct HC as [-> | ->].
  - apply (exact0_value (Fof n) a b); [exact (form_exact0 _ d x0 a b e Hx F1)|exact Hy].
  - replace (x0 - x0) with 0 by ring. exact V.
Qed.

(** ** Powers *)
Lemma pow_gen_nonneg F p x0 a b k e : 0 <= a -> pow_coeffs p x0 1 0 (S k) = Ok (taylor_list F x0 k) ->
  py_pow a p = Ok (F 0%nat a) -> py_pow b p = Ok (F 0%nat b) -> pow_gen p x0 (a, b) k = Ok e ->
  e = (firstn k (taylor_list F x0 k), if (0 <=? sign_Z (falling p (k + 1)))%Z then (cr F x0 k a, cr F x0 k b) else (cr F x0 k b, cr F x0 k a)).
Proof.
  intros Ha Hc Pa Pb H. unfold pow_gen, pow_enclosure in H. rewrite Hc in H. cbn [bind] in H.
  unfold pow_kth_deriv_sign at 1 in H. simpl Z.eqb in H. cbv iota in H. cbn [bind] in H.
  assert (ES : forall inc, sharp_ends x0 k (a, b) (fun x => py_pow x p) (taylor_list F x0 k) inc = if inc then (Ok (cr F x0 k a), Ok (cr F x0 k b)) else (Ok (cr F x0 k b), Ok (cr F x0 k a))).
  { intros inc. unfold sharp_ends. rewrite (ratio_cr F x0 k (fun x => py_pow x p) a Pa), (ratio_cr F x0 k (fun x => py_pow x p) b Pb). reflexivity. }
  rewrite !ES in H.
  assert (X : exists en, match is_int p with
     | Some _ => sn <- pow_kth_deriv_sign (-1) p (k + 1) ;;
        Ok (sharp_ends x0 k (a, b) (fun x => py_pow x p) (taylor_list F x0 k) (0 <=? sn)%Z)
     | None => Ok (if (0 <=? sign_Z (falling p (k + 1)))%Z then (Ok (cr F x0 k a), Ok (cr F x0 k b)) else (Ok (cr F x0 k b), Ok (cr F x0 k a)))
     end = Ok en).
  { destruct (is_int p) eqn:E; [|eexists; reflexivity].
    unfold pow_kth_deriv_sign. simpl Z.eqb. cbv iota. rewrite E. eexists; reflexivity. }
  destruct X as (en & X). rewrite X in H. cbn [bind] in H. unfold interval_endpoint in H.
  destruct (Rle_dec 0 a); [|contradiction]. destruct (0 <=? sign_Z (falling p (k + 1)))%Z; injection H as <-; reflexivity.
Qed.
Lemma pow_gen_neg F n x0 a b k e : a < 0 -> b <= 0 -> pow_coeffs (IZR n) x0 1 0 (S k) = Ok (taylor_list F x0 k) ->
  py_pow a (IZR n) = Ok (F 0%nat a) -> py_pow b (IZR n) = Ok (F 0%nat b) -> pow_gen (IZR n) x0 (a, b) k = Ok e ->
  e = (firstn k (taylor_list F x0 k), if (0 <=? sign_Z (falling (IZR n) (k + 1)) * (if Z.even (n - Z.of_nat (k + 1)) then 1 else -1))%Z then (cr F x0 k a, cr F x0 k b) else (cr F x0 k b, cr F x0 k a)).
Proof.
  intros Ha Hb Hc Pa Pb H. unfold pow_gen, pow_enclosure in H. rewrite Hc in H. cbn [bind] in H.
  unfold pow_kth_deriv_sign at 1 in H. simpl Z.eqb in H. cbv iota in H. cbn [bind] in H. rewrite is_int_IZR in H.
  unfold pow_kth_deriv_sign in H. simpl Z.eqb in H. cbv iota in H. rewrite is_int_IZR in H. cbn [bind] in H.
  assert (ES : forall inc, sharp_ends x0 k (a, b) (fun x => py_pow x (IZR n)) (taylor_list F x0 k) inc = if inc then (Ok (cr F x0 k a), Ok (cr F x0 k b)) else (Ok (cr F x0 k b), Ok (cr F x0 k a))).
  { intros inc. unfold sharp_ends. rewrite (ratio_cr F x0 k (fun x => py_pow x (IZR n)) a Pa), (ratio_cr F x0 k (fun x => py_pow x (IZR n)) b Pb). reflexivity. }
  rewrite !ES in H. unfold interval_endpoint in H. rewrite is_int_IZR in H.
  destruct (Rle_dec 0 a); [lra|]. destruct (Rle_dec b 0); [|lra].
  destruct (0 <=? sign_Z (falling (IZR n) (k + 1)) * (if Z.even (n - Z.of_nat (k + 1)) then 1 else -1))%Z; injection H as <-; reflexivity.
Qed.

Lemma powF_mono p k x0 : 0 < x0 -> if (0 <=? sign_Z (falling p (k + 1)))%Z then increasing_on positive (rho (powF p) x0 k) else decreasing_on positive (rho (powF p) x0 k).
Proof.
  intros Px. set (inc := (0 <=? sign_Z (falling p (k + 1)))%Z).
  assert (Sgn : forall x, positive x -> if inc then 0 <= powF p (S k) x else powF p (S k) x <= 0).
  { intros x Hx. assert (Q := sign_is_nonneg _ _ (powF_sign p (S k) x Hx)). unfold inc. replace (k + 1)%nat with (S k) by lia. exact Q. }
  destruct inc.
  - apply rho_increasing; auto using positive_convex, powF_chain. apply increasing_of_derive with (powF p (S k)); auto using positive_convex. intros; apply powF_derive; auto.
  - apply rho_decreasing; auto using positive_convex, powF_chain. apply decreasing_of_derive with (powF p (S k)); auto using positive_convex. intros; apply powF_derive; auto.
Qed.
Lemma zpowF_mono n k x0 : x0 < 0 -> if (0 <=? sign_Z (falling (IZR n) (k + 1)) * (if Z.even (n - Z.of_nat (k + 1)) then 1 else -1))%Z then increasing_on negative (rho (zpowF n) x0 k) else decreasing_on negative (rho (zpowF n) x0 k).
Proof.
  intros Px. set (inc := (0 <=? _)%Z).
  assert (Sgn : forall x, negative x -> if inc then 0 <= zpowF n (S k) x else zpowF n (S k) x <= 0).
  { intros x Hx. assert (Q := sign_is_nonneg _ _ (zpowF_sign n (S k) x Hx)). unfold inc. replace (k + 1)%nat with (S k) by lia. exact Q. }
  destruct inc.
  - apply rho_increasing; auto using negative_convex, zpowF_chain. apply increasing_of_derive with (zpowF n (S k)); auto using negative_convex. intros x Hx; apply zpowF_derive; unfold negative in Hx; lra.
  - apply rho_decreasing; auto using negative_convex, zpowF_chain. apply decreasing_of_derive with (zpowF n (S k)); auto using negative_convex. intros x Hx; apply zpowF_derive; unfold negative in Hx; lra.
Qed.

Lemma pow_form_pos p x0 a b k e : 0 < a -> a <= x0 <= b -> pow_gen p x0 (a, b) k = Ok e -> exists inc, sharp_form (powF p) x0 k a b inc e.
Proof.
  intros Ha Hx H. apply (pow_gen_nonneg (powF p)) in H; try lra; [|apply pow_coeffs_pos; lra|rewrite powF_0; apply py_pow_pos; lra|rewrite powF_0; apply py_pow_pos; lra].
  pose proof (powF_mono p k x0 ltac:(lra)) as M. set (inc := (0 <=? _)%Z) in *. exists inc. subst e. split; [reflexivity|]. cbn [snd].
  destruct inc; (split; [|reflexivity]); intros u v Hu Hv L; apply M; unfold seg, positive in *; auto; lra.
Qed.
Lemma pow_form_zero p x0 a b k e : 0 < p -> 0 <= a -> 0 < x0 -> a <= x0 <= b -> pow_gen p x0 (a, b) k = Ok e -> exists inc, sharp_form (powF0 p) x0 k a b inc e.
Proof.
  intros Hp Ha Px Hx H. apply (pow_gen_nonneg (powF0 p)) in H; try lra; [|rewrite taylor_powF0 by auto; apply pow_coeffs_pos; lra|apply py_pow_power0; lra|apply py_pow_power0; lra].
  pose proof (rho_powF0_monotone p x0 k _ Hp Px (powF_mono p k x0 Px)) as M. set (inc := (0 <=? _)%Z) in *. exists inc. subst e. split; [reflexivity|]. cbn [snd].
  destruct inc; (split; [|reflexivity]); intros u v Hu Hv L; apply M; unfold seg in *; auto; lra.
Qed.
Lemma pow_form_neg n x0 a b k e : b < 0 -> a <= x0 <= b -> pow_gen (IZR n) x0 (a, b) k = Ok e -> exists inc, sharp_form (zpowF n) x0 k a b inc e.
Proof.
  intros Hb Hx H. apply (pow_gen_neg (zpowF n)) in H; try lra; [|apply pow_coeffs_int; lra|rewrite zpowF_0; apply py_pow_int; lra|rewrite zpowF_0; apply py_pow_int; lra].
  pose proof (zpowF_mono n k x0 ltac:(lra)) as M. set (inc := (0 <=? _)%Z) in *. exists inc. subst e. split; [reflexivity|]. cbn [snd].
  destruct inc; (split; [|reflexivity]); intros u v Hu Hv L; apply M; unfold seg, negative in *; auto; lra.
Qed.
Lemma pow_guard_cases p x0 a b k : pow_guard p x0 (a, b) k = true -> 0 < a \/ (0 <= a /\ 0 < p /\ 0 < x0) \/ (b < 0 /\ exists n, p = IZR n).
Proof.
  unfold pow_guard. cbn [fst snd]. intros G. destruct (Rlt_dec 0 a); [auto|]. right. simpl in G. apply orb_prop in G. destruct G as [G|G].
  - left. destruct (Rle_dec 0 a); [|discriminate]. destruct (Rlt_dec 0 p); [|discriminate]. destruct (Rlt_dec 0 x0); [|discriminate]. auto.
  - right. destruct (Rlt_dec b 0); [|discriminate]. destruct (is_int p) as [m|] eqn:Ep; [|discriminate]. apply is_int_Some in Ep. eauto.
Qed.
Lemma sharps_iso F x x' a b a' b' k e e' : a' <= a -> b <= b' -> a <= x <= b -> a' <= x' <= b' -> (k = 0%nat \/ x = x') ->
  (exists inc, sharp_form F x k a b inc e) -> (exists inc, sharp_form F x' k a' b' inc e') -> inner e e'.
Proof.
  intros La Lb Hx Hx' HK [inc H] [inc' H']. destruct HK as [-> | <-].
  - apply sharp_exact0 in H, H'; auto. eapply exact0_inner; [| |exact H|exact H']; auto.
  - eapply sharp_sharp; [|exact H|exact H']. split; auto.
Qed.
Lemma guarded_pow_iso p : scalar_iso (guarded_pow p).
Proof.
  intros x x' a b a' b' k e e' La Lb Hx Hx' HK H H'. unfold guarded_pow, guarded in H, H'.
  destruct (pow_guard p x (a, b) k) eqn:G; [|discriminate]. destruct (pow_guard p x' (a', b') k) eqn:G'; [|discriminate]. apply pow_guard_cases in G, G'.
  destruct G' as [G' | [(G1 & G2 & G3) | (G1 & n & ->)]].
  - apply (sharps_iso (powF p) x x' a b a' b' k); auto; apply pow_form_pos; auto; lra.
  - apply (sharps_iso (powF0 p) x x' a b a' b' k); auto; apply pow_form_zero; auto; destruct G as [G | [G | [G _]]]; lra.
  - apply (sharps_iso (zpowF n) x x' a b a' b' k); auto; apply pow_form_neg; auto; lra.
Qed.
Lemma sharp_centre F x0 k a b inc e : a <= x0 <= b -> sharp_form F x0 k a b inc e -> centred F x0 k e.
Proof.
  intros Hx [E K]. split; [exact E|]. assert (S1 : seg a b a) by (unfold seg; lra). assert (S2 : seg a b b) by (unfold seg; lra). assert (S0 : seg a b x0) by exact Hx.
  destruct inc; destruct K as [M ->]; cbn [fst snd].
  - split; [apply (cr_lo F x0 k a a)|apply (cr_hi F x0 k b b)]; try lra; apply M; auto; lra.
  - split; [apply (cr_lo F x0 k b b)|apply (cr_hi F x0 k a a)]; try lra; apply M; auto; lra.
Qed.
Lemma sharp_valid_centre F x0 k a b inc e sigma : a <= x0 <= b -> sharp_form F x0 k a b inc e -> (forall y v, a <= y <= b -> sigma y = Ok v -> v = F 0%nat y) ->
  length (fst e) = k /\ forall y v, a <= y <= b -> at_centre k x0 y -> sigma y = Ok v -> encl_value (fst e) (snd e) (y - x0) v.
Proof.
  intros Hx H Hs. destruct (centred_value _ _ _ _ (sharp_centre _ _ _ _ _ _ _ Hx H)) as [L V]. split; [exact L|]. intros y v Hy HC Hv. rewrite (Hs y v Hy Hv). destruct HC as [-> | ->].
  - apply (exact0_value F a b); [exact (sharp_exact0 _ _ _ _ _ _ Hx H)|exact Hy].
  - replace (x0 - x0) with 0 by ring. exact V.
Qed.
Lemma guarded_pow_valid p sigma : (forall y v, 0 < y -> sigma y = Ok v -> v = Rpower y p) -> (forall v, 0 < p -> sigma 0 = Ok v -> v = 0) ->
  (forall n y v, p = IZR n -> y < 0 -> sigma y = Ok v -> v = powerRZ y n) -> scalar_valid_if at_centre (guarded_pow p) sigma.
Proof.
  intros Hp Hz Hn x0 a b k e Hx H. unfold guarded_pow, guarded in H. destruct (pow_guard p x0 (a, b) k) eqn:G; [|discriminate]. apply pow_guard_cases in G.
  destruct G as [G | [(G1 & G2 & G3) | (G1 & n & ->)]].
  - destruct (pow_form_pos _ _ _ _ _ _ G Hx H) as [inc F]. apply (sharp_valid_centre _ _ _ _ _ _ _ _ Hx F). intros y v Hy Hv. rewrite powF_0. apply Hp; auto. lra.
  - destruct (pow_form_zero _ _ _ _ _ _ G2 G1 G3 Hx H) as [inc F]. apply (sharp_valid_centre _ _ _ _ _ _ _ _ Hx F). intros y v Hy Hv. simpl. unfold power0.
    destruct (Rlt_dec 0 y); [apply Hp; auto|]. assert (y = 0) by lra. subst y. auto.
  - destruct (pow_form_neg _ _ _ _ _ _ G1 Hx H) as [inc F]. apply (sharp_valid_centre _ _ _ _ _ _ _ _ Hx F). intros y v Hy Hv. rewrite zpowF_0. apply Hn; auto. lra.
Qed.

(** ** Arrays *)
Lemma lift_iso g : scalar_iso g -> iso_gen (lift_gen g).
Proof.
  intros HG S x x' l h l' h' d e e' Sx Sx' Sl Sh Sl' Sh' HB HK H H'. unfold lift_gen in H, H'. rewrite Sx, Sl, Sh in H. rewrite Sx', Sl', Sh' in H'.
  rewrite (proj2 (shape_eqb_eq S S) eq_refl) in H, H'. cbn [andb] in H, H'. apply bind_ok in H, H'. destruct H as (es & Hes & H), H' as (es' & Hes' & H'). injection H as <-. injection H' as <-.
  assert (G : forall s, valid S s -> exists i u u', i = ravel S s /\ nth_error es i = Some u /\ nth_error es' i = Some u' /\ inner u u').
  { intros s Hs. destruct (mapM_nth' _ _ _ _ _ Hes (all_idx_nth _ _ Hs)) as (u & Hu & Gu). destruct (mapM_nth' _ _ _ _ _ Hes' (all_idx_nth _ _ Hs)) as (u' & Hu' & Gu').
    exists (ravel S s), u, u'. split; [auto|]. split; [auto|]. split; [auto|]. destruct (HB s Hs) as (B1 & B2 & B3 & B4). refine (HG _ _ _ _ _ _ _ _ _ B1 B2 B3 B4 _ Gu Gu').
    destruct HK as [K|K]; [left; auto|right; auto]. }
  apply Forall2_app.
  - assert (K : forall (f f' : nat -> coef R) is0, (forall i, narrower (f i) (f' i)) -> Forall2 narrower (map f is0) (map f' is0)) by (intros f f' is0 Hf; induction is0; simpl; constructor; auto).
    apply K. intros i. apply narrower_arr; [reflexivity|]. intros s Hs. destruct (G s Hs) as (j & u & u' & -> & Hu & Hu' & E & _). simpl.
    rewrite (nth_error_nth _ _ _ (map_nth_error (fun e : senc => nth i (fst e) 0) _ _ Hu)), (nth_error_nth _ _ _ (map_nth_error (fun e : senc => nth i (fst e) 0) _ _ Hu')). rewrite E. reflexivity.
  - constructor; [|constructor]. apply (sub_narrower S). apply sub_ivl; try reflexivity. intros s Hs. destruct (G s Hs) as (j & u & u' & -> & Hu & Hu' & _ & E). simpl.
    rewrite (nth_error_nth _ _ _ (map_nth_error (fun e : senc => fst (snd e)) _ _ Hu)), (nth_error_nth _ _ _ (map_nth_error (fun e : senc => fst (snd e)) _ _ Hu')).
    rewrite (nth_error_nth _ _ _ (map_nth_error (fun e : senc => snd (snd e)) _ _ Hu)), (nth_error_nth _ _ _ (map_nth_error (fun e : senc => snd (snd e)) _ _ Hu')). exact E.
Qed.

(** ** The table *)
Lemma guarded_gens_ok usr ugen p : (forall n, valid_gen_if at_centre (ugen n) (usr n)) -> prim_gens_ok at_centre (scalarsR usr) (guarded_generators ugen) p.
Proof.
  intros HU. destruct p; simpl; auto.
  - split; [|intros x y v H; destruct Req_EM_T; [discriminate|]; injection H as <-; eexists; split; [reflexivity|]; simpl; rewrite Rmult_1_r; reflexivity].
    apply lift_valid_if. apply guarded_pow_valid.
    + intros x v Hx H. destruct Req_EM_T; [discriminate|]. injection H as <-. exact (powerRZ_Rpower x (-1) Hx).
    + intros v Hp. exfalso. lra.
    + intros m x v E Hx H. destruct Req_EM_T; [discriminate|]. injection H as <-. apply eq_IZR in E. subst; reflexivity.
  - split.
    + intros q _. apply lift_valid_if. apply guarded_pow_valid.
      * intros x v Hx H. rewrite py_pow_pos in H by auto. injection H as <-. reflexivity.
      * intros v Hp H. rewrite py_pow_power0 in H by lra. injection H as <-. unfold power0. destruct (Rlt_dec 0 0); [lra|reflexivity].
      * intros m x v -> Hx H. rewrite py_pow_int in H by lra. injection H as <-. reflexivity.
    + intros q Hp x v H. unfold exponentR in Hp. unfold py_pow in H. destruct (is_int q) as [m|]; [|discriminate].
      destruct (m =? 0)%Z eqn:Em; [|destruct (0 <? m)%Z; discriminate]. apply Z.eqb_eq in Em. rewrite Em in H. simpl in H. destruct Req_EM_T; injection H as <-; reflexivity.
  - intros Hy. apply lift_valid_if. apply guarded_pow_valid.
    + intros x v Hx H. destruct Req_EM_T; [discriminate|]. injection H as <-. rewrite powerRZ_Rpower; auto.
    + intros v Hp. apply lt_IZR in Hp. lia.
    + intros m x v E Hx H. destruct Req_EM_T; [discriminate|]. injection H as <-. apply eq_IZR in E. subst; reflexivity.
  - match goal with |- valid_gen_if _ match ?e with _ => _ end _ => destruct e as [| | | | | | | | | |n] end; [..|apply HU]; simpl; apply lift_valid_if.
    + apply guarded_fun_valid. intros y v H _. injection H as <-. reflexivity.
    + apply guarded_pow_valid.
      * intros y v Hy H. injection H as <-. unfold cbrt. destruct Rlt_dec; [reflexivity|contradiction].
      * intros v _ H. injection H as <-. unfold cbrt. destruct (Rlt_dec 0 0); [lra|reflexivity].
      * intros n y v E. exfalso. exact (not_int_third _ E).
    + apply guarded_fun_valid. intros y v H _. injection H as <-. reflexivity.
    + apply guarded_fun_valid. intros y v H _. simpl in H. destruct Rlt_dec; [|discriminate]. injection H as <-. reflexivity.
    + apply guarded_fun_valid. intros y v H _. injection H as <-. reflexivity.
    + apply guarded_pow_valid.
      * intros y v Hy H. simpl in H. destruct Rlt_dec; [|discriminate]. injection H as <-. rewrite Rpower_Ropp.
        replace (1 / 2) with (/ 2) by lra. rewrite Rpower_sqrt by auto. unfold Rdiv. ring.
      * intros v Hp. exfalso. lra.
      * intros n y v E. exfalso. exact (not_int_mhalf _ E).
    + apply guarded_pow_valid.
      * intros y v Hy H. simpl in H. destruct Rle_dec; [|discriminate]. injection H as <-.
        replace (1 / 2) with (/ 2) by lra. rewrite Rpower_sqrt by auto. reflexivity.
      * intros v Hp H. simpl in H. destruct Rle_dec; [|discriminate]. injection H as <-. apply sqrt_0.
      * intros n y v E. exfalso. exact (not_int_half _ E).
    + apply guarded_fun_valid. intros y v H _. injection H as <-. reflexivity.
    + apply guarded_fun_valid. intros y v H _. injection H as <-. reflexivity.
    + apply guarded_fun_valid. intros y v H _. injection H as <-. reflexivity.
Qed.

Lemma guarded_gens_iso ugen p : (forall n, iso_gen (ugen n)) -> prim_gens_iso (guarded_generators ugen) p.
Proof.
  intros HU. destruct p; simpl; auto; try (intros; apply lift_iso, guarded_pow_iso).
  match goal with |- iso_gen match ?e with _ => _ end => destruct e as [| | | | | | | | | |n] end; [..|apply HU]; simpl; apply lift_iso;
    first [apply guarded_fun_iso|apply guarded_pow_iso].
Qed.

Lemma guarded_le guard g x0 tr d e : guarded guard g x0 tr d = Ok e -> g x0 tr d = Ok e.
Proof. unfold guarded. destruct (guard x0 tr d); [auto|discriminate]. Qed.
Lemma guarded_generators_le ugen : gens_le (guarded_generators ugen) (generatorsR ugen).
Proof.
  split; [|split; [|split; [|reflexivity]]].
  - intros [| | | | | | | | | |n]; [..|intros x0 tr d e H; exact H]; apply lift_le; intros x0 tr d e H; exact (guarded_le _ _ _ _ _ _ H).
  - intros n. apply lift_le. intros x0 tr d e H; exact (guarded_le _ _ _ _ _ _ H).
  - intros n. apply lift_le. intros x0 tr d e H; exact (guarded_le _ _ _ _ _ _ H).
Qed.
Lemma checked_guarded_le ugen : gens_le (checked_generators ugen) (guarded_generators ugen).
Proof.
  assert (P : forall p x0 tr d e, checked_pow p x0 tr d = Ok e -> guarded_pow p x0 tr d = Ok e).
  { intros p x0 tr d e H. unfold checked_pow, checked in H. unfold guarded_pow, guarded. destruct (_ && _) eqn:E; [|discriminate]. apply andb_prop in E. destruct E as [_ ->]. exact H. }
  assert (K : forall n g x0 tr d e, checked (fun_guard n) g x0 tr d = Ok e -> guarded (region_guard n) g x0 tr d = Ok e).
  { intros n g x0 tr d e H. unfold checked in H. unfold guarded. destruct (_ && _) eqn:E; [|discriminate]. apply andb_prop in E. destruct E as [_ E].
    replace (region_guard n x0 tr d) with true; [exact H|]. unfold fun_guard in E. unfold region_guard. apply orb_prop in E. destruct E as [E|E]; [|rewrite E, Bool.orb_true_r; reflexivity].
    unfold exact_guard in E. unfold exact_region. apply andb_prop in E. destruct E as [-> E]. destruct n; try reflexivity. rewrite E. reflexivity. }
  split; [|split; [|split; [|reflexivity]]].
  - intros [| | | | | | | | | |n]; [..|intros x0 tr d e H; exact H]; apply lift_le; first [apply K|apply P].
  - intros n. apply lift_le. apply P.
  - intros n. apply lift_le. apply P.
Qed.
