(** The checked generators are valid, and a run with them that returns is a run
    of the code. *)
From Coq Require Import Reals Lra.
From Verif Require Import Base Tensor IntervalArith Polynomials Enclosure TensorLemmas Spec GraphEditor Elementwise Primitive ElementSpec PropElementwise PropPrimitive PropPower PropPowerZero
  NearTable PropNear PropClear JaxBound JaxSpec JaxLemmas JaxOps JaxTable.
Open Scope R_scope.

(** ** Lifting *)
Definition scalar_valid (g : scalar_gen) (sigma : R -> res R) : Prop :=
  forall x0 a b k e, a <= x0 <= b -> g x0 (a, b) k = Ok e ->
    length (fst e) = k /\ forall y v, a <= y <= b -> sigma y = Ok v -> encl_value (fst e) (snd e) (y - x0) v.
Definition scalar_valid_if (Q : nat -> R -> R -> Prop) (g : scalar_gen) (sigma : R -> res R) : Prop :=
  forall x0 a b k e, a <= x0 <= b -> g x0 (a, b) k = Ok e ->
    length (fst e) = k /\ forall y v, a <= y <= b -> Q k x0 y -> sigma y = Ok v -> encl_value (fst e) (snd e) (y - x0) v.

Lemma ew_from_list S s (ws : list R) : forall i es c d,
  valid S s -> Forall2 (fun t w => exists u, t = Arr u /\ tshape u = S /\ tdata u s = w) es ws ->
  wfs S c -> forall w, inat c s w ->
  ew_from S s i (es ++ [c]) d (d ^ i * horner (ws ++ [w]) d).
Proof.
  induction ws as [|w0 ws IH]; intros i es c d Hs HF Hc w Hw; inversion HF as [|t0 w1 es0 ws1 HT HF' Et Ew]; subst; simpl.
  - exists S, w, 0. split; [right; split; [apply compat_refl|reflexivity]|]. split; auto. rewrite bidx_valid by auto. split; auto. split; auto. ring.
  - destruct HT as (u & -> & Su & Eu). exists S, w0, (d ^ (Datatypes.S i) * horner (ws ++ [w]) d).
    split; [right; split; [apply compat_refl|reflexivity]|]. split; [exact Su|]. rewrite bidx_valid by auto. split; [exact (eq_sym Eu)|]. split; [apply IH; auto|]. simpl. ring.
Qed.

Lemma lift_valid_if Q g sigma : scalar_valid_if Q g sigma -> valid_gen_if Q (lift_gen g) sigma.
Proof.
  intros HV S x0 l h d e S0 SL SH HB H. unfold lift_gen in H. rewrite S0, SL, SH in H.
  rewrite (proj2 (shape_eqb_eq S S) eq_refl) in H. cbn [andb] in H. apply bind_ok in H. destruct H as (es & Hes & H). injection H as <-.
  split; [rewrite app_length, map_length, seq_length; simpl; lia|]. split; [|split].
  - intros i c Hi Hc. rewrite nth_error_app1 in Hc by (rewrite map_length, seq_length; auto).
    rewrite nth_error_map in Hc. destruct (nth_error (seq 0 d) i); [|discriminate]. injection Hc as <-. eauto.
  - apply Forall_app. split; [|repeat constructor]. apply Forall_forall. intros c Hc. apply in_map_iff in Hc. destruct Hc as (i & <- & _). reflexivity.
  - intros s y v Hs Hy HQ Hv. destruct (mapM_nth' _ _ _ _ _ Hes (all_idx_nth _ _ Hs)) as (b & Hb & Hg).
    destruct (HV _ _ _ _ _ (HB s Hs) Hg) as [Lb Eb]. destruct (Eb y v Hy HQ Hv) as (c & Hc & ->).
    replace (horner (fst b ++ [c]) (y - tdata x0 s)) with ((y - tdata x0 s) ^ 0 * horner (fst b ++ [c]) (y - tdata x0 s)) by (simpl; ring).
    apply ew_from_list; auto.
    + rewrite <- Lb. clear -Hb. assert (E : forall (l : list R) n, Forall2 (fun (i : nat) w => nth_error (fst b) i = Some w) (seq n (length l)) l -> 
        Forall2 (fun t w => exists u, t = Arr u /\ tshape u = S /\ tdata u s = w) (map (fun i => Arr (of_list 0 S (map (fun e : senc => nth i (fst e) 0) es))) (seq n (length l))) l).
      { intros l n H. induction H; constructor; auto. eexists. split; [reflexivity|]. split; [reflexivity|].
        simpl. rewrite (nth_error_nth _ _ _ (map_nth_error (fun e : senc => nth x (fst e) 0) _ _ Hb)). apply nth_error_nth. auto. }
      apply E. clear. assert (G : forall (l p : list R), Forall2 (fun (i : nat) w => nth_error (p ++ l) i = Some w) (seq (length p) (length l)) l).
      { induction l; intros p; simpl; constructor; [rewrite nth_error_app2, Nat.sub_diag by lia; reflexivity|].
        specialize (IHl (p ++ [a])). rewrite app_length in IHl. simpl in IHl. rewrite Nat.add_1_r in IHl. rewrite <- app_assoc in IHl. exact IHl. }
      exact (G (fst b) []).
    + split; reflexivity.
    + simpl. rewrite (nth_error_nth _ _ _ (map_nth_error (fun e : senc => fst (snd e)) _ _ Hb)), (nth_error_nth _ _ _ (map_nth_error (fun e : senc => snd (snd e)) _ _ Hb)). exact Hc.
Qed.

Lemma lift_valid g sigma : scalar_valid g sigma -> valid_gen (lift_gen g) sigma.
Proof.
  intros HV. assert (K : valid_gen_if always (lift_gen g) sigma).
  { apply lift_valid_if. intros x0 a b k e Hx He. destruct (HV x0 a b k e Hx He). split; auto. }
  intros S x0 l h d e S0 SL SH HB He. destruct (K S x0 l h d e S0 SL SH HB He) as (K1 & K2 & K3 & K4). split; auto. split; auto. split; auto.
  intros s y v Hs Hy Hv. apply K4; auto. exact I.
Qed.

(** ** Validity of the checked generators *)
Lemma cap_okb_ok k x0 x : cap_okb k x0 x = true -> cap_ok k x0 x.
Proof. unfold cap_okb, cap_ok. destruct Req_EM_T; auto. destruct Rle_dec; auto. discriminate. Qed.

Lemma clear_ofb_ok l a b : clear_ofb l a b = true -> clear_of l a b.
Proof.
  intros H e He. unfold clear_ofb in H. rewrite forallb_forall in H. specialize (H e He).
  destruct Req_EM_T; [auto|]. destruct Rlt_dec; [auto|]. destruct Rlt_dec; [auto|discriminate].
Qed.

Lemma checked_fun_valid n sigma : (forall y v, sigma y = Ok v -> domain n y -> v = textbook n y) ->
  scalar_valid (checked (fun_guard n) (get_elementwise_taylor_enclosure (n, 0%nat))) sigma.
Proof.
  intros Hsig x0 a b k e Hx H. unfold checked in H. cbn [fst snd] in H.
  destruct (cap_okb k x0 a) eqn:Ca; [|discriminate]. destruct (cap_okb k x0 b) eqn:Cb; [|discriminate]. cbn [andb] in H.
  destruct (fun_guard n x0 (a, b) k) eqn:G; [|discriminate]. unfold fun_guard in G. apply orb_prop in G. destruct G as [G|G].
  2:{ unfold rounded_guard in G. apply andb_prop in G. destruct G as [G1 G2]. destruct (get_function_data (n, k)) as [d|] eqn:Ed; [|discriminate].
      cbn [fst snd] in G2. apply clear_ofb_ok in G2. apply cap_okb_ok in Ca, Cb.
      destruct (C35_valid_away_from_rounding n k d x0 a b G1 Ed G2 Hx Ca Cb) as (e' & He & Hv & Hv').
      rewrite He in H. injection H as <-. split; auto. intros y v Hy Hs.
      rewrite (Hsig y v Hs (rounded_domain n k y G1)). apply Hv'. exact Hy. }
  unfold exact_guard in G. apply andb_prop in G. destruct G as [G1 G2]. cbn [fst snd] in G2.
  assert (Da : domain n a) by (destruct n; try exact I; destruct (Rlt_dec 0 a); [assumption|discriminate]).
  destruct (C35_builtin_enclosures_valid n k x0 a b G1 Da Hx) as (e' & He & Hv & Hv').
  - apply cap_okb_ok; auto.
  - apply cap_okb_ok; auto.
  - intros -> ->. simpl in G2. apply cap_okb_ok; auto.
  - rewrite He in H. injection H as <-. split; auto. intros y v Hy Hs.
    assert (Dy : domain n y) by (destruct n; try exact I; simpl in *; unfold positive in *; lra).
    rewrite (Hsig y v Hs Dy). apply Hv'. exact Hy.
Qed.

Lemma checked_pow_valid p sigma :
  (forall y v, 0 < y -> sigma y = Ok v -> v = Rpower y p) ->
  (forall v, 0 < p -> sigma 0 = Ok v -> v = 0) ->
  (forall n y v, p = IZR n -> y < 0 -> sigma y = Ok v -> v = powerRZ y n) ->
  scalar_valid (checked_pow p) sigma.
Proof.
  intros Hp Hz Hn x0 a b k e Hx H. unfold checked_pow, checked in H. cbn [fst snd] in H.
  destruct (cap_okb k x0 a) eqn:Ca; [|discriminate]. destruct (cap_okb k x0 b) eqn:Cb; [|discriminate]. cbn [andb] in H.
  apply cap_okb_ok in Ca, Cb.
  destruct (pow_guard p x0 (a, b) k) eqn:G; [|discriminate]. unfold pow_guard in G. cbn [fst snd] in G.
  assert (E : exists cs lo hi f, pow_enclosure p x0 (a, b) k = Ok (cs, (Fin lo, Fin hi)) /\ valid_enclosure f x0 (seg a b) k (cs, (lo, hi)) /\
              forall y v, a <= y <= b -> sigma y = Ok v -> v = f y).
  { destruct (Rlt_dec 0 a).
    - destruct (C37_pow_enclosure_valid_positive p k x0 a b) as (cs & lo & hi & H1 & H2); auto. exists cs, lo, hi, (fun x => Rpower x p). split; auto. split; auto. intros y v Hy. apply Hp. lra.
    - simpl in G. apply orb_prop in G. destruct G as [G|G].
      + destruct (Rle_dec 0 a); [|discriminate]. destruct (Rlt_dec 0 p); [|discriminate]. destruct (Rlt_dec 0 x0); [|discriminate].
        destruct (C37_pow_enclosure_valid_touching_zero p k x0 a b) as (cs & lo & hi & H1 & H2); auto.
        exists cs, lo, hi, (fun x => if Rlt_dec 0 x then Rpower x p else 0). split; auto. split; auto. intros y v Hy Hv.
        destruct (Rlt_dec 0 y); [apply Hp; auto|]. assert (y = 0) by lra. subst y. auto.
      + destruct (Rlt_dec b 0); [|discriminate]. destruct (is_int p) as [m|] eqn:Ep; [|discriminate]. apply is_int_Some in Ep. subst p.
        destruct (C37_pow_enclosure_valid_negative m k x0 a b) as (cs & lo & hi & H1 & H2); auto.
        exists cs, lo, hi, (fun x => powerRZ x m). split; auto. split; auto. intros y v Hy. apply Hn; auto. lra. }
  destruct E as (cs & lo & hi & f & E1 & [E2 E2'] & E3). unfold pow_gen in H. rewrite E1 in H. cbn [bind] in H. injection H as <-.
  split; auto. intros y v Hy Hv. rewrite (E3 y v Hy Hv). apply E2'. exact Hy.
Qed.

Lemma not_int_third : forall n, 1 / 3 <> IZR n.
Proof. intros m H. assert (1 = 3 * m)%Z by (apply eq_IZR; rewrite mult_IZR; lra). lia. Qed.
Lemma not_int_half : forall n, 1 / 2 <> IZR n.
Proof. intros m H. assert (1 = 2 * m)%Z by (apply eq_IZR; rewrite mult_IZR; lra). lia. Qed.
Lemma not_int_mhalf : forall n, - (1 / 2) <> IZR n.
Proof. intros m H. assert (- 1 = 2 * m)%Z by (apply eq_IZR; rewrite mult_IZR; lra). lia. Qed.

Lemma checked_valid usr ugen : (forall n, valid_gen (ugen n) (usr n)) -> valid_generators (scalarsR usr) (checked_generators ugen).
Proof.
  intros HU. split; [|split; [|split; [|split]]].
  - intros [| | | | | | | | | |n]; [..|apply HU]; simpl; apply lift_valid.
    + apply checked_fun_valid. intros y v H _. injection H as <-. reflexivity.
    + apply checked_pow_valid.
      * intros y v Hy H. injection H as <-. unfold cbrt. destruct Rlt_dec; [reflexivity|contradiction].
      * intros v _ H. injection H as <-. unfold cbrt. destruct (Rlt_dec 0 0); [lra|reflexivity].
      * intros n y v E. exfalso. exact (not_int_third _ E).
    + apply checked_fun_valid. intros y v H _. injection H as <-. reflexivity.
    + apply checked_fun_valid. intros y v H _. simpl in H. destruct Rlt_dec; [|discriminate]. injection H as <-. reflexivity.
    + apply checked_fun_valid. intros y v H _. injection H as <-. reflexivity.
    + apply checked_pow_valid.
      * intros y v Hy H. simpl in H. destruct Rlt_dec; [|discriminate]. injection H as <-. rewrite Rpower_Ropp.
        replace (1 / 2) with (/ 2) by lra. rewrite Rpower_sqrt by auto. unfold Rdiv. ring.
      * intros v Hp. exfalso. lra.
      * intros n y v E. exfalso. exact (not_int_mhalf _ E).
    + apply checked_pow_valid.
      * intros y v Hy H. simpl in H. destruct Rle_dec; [|discriminate]. injection H as <-.
        replace (1 / 2) with (/ 2) by lra. rewrite Rpower_sqrt by auto. reflexivity.
      * intros v Hp H. simpl in H. destruct Rle_dec; [|discriminate]. injection H as <-. apply sqrt_0.
      * intros n y v E. exfalso. exact (not_int_half _ E).
    + apply checked_fun_valid. intros y v H _. injection H as <-. reflexivity.
    + apply checked_fun_valid. intros y v H _. injection H as <-. reflexivity.
    + apply checked_fun_valid. intros y v H _. injection H as <-. reflexivity.
  - intros y Hy. simpl. apply lift_valid. apply checked_pow_valid.
    + intros x v Hx H. destruct Req_EM_T; [discriminate|]. injection H as <-. rewrite powerRZ_Rpower; auto.
    + intros v Hp. apply lt_IZR in Hp. lia.
    + intros m x v E Hx H. destruct Req_EM_T; [discriminate|]. injection H as <-. apply eq_IZR in E. subst; reflexivity.
  - intros p. simpl. apply lift_valid. apply checked_pow_valid.
    + intros x v Hx H. rewrite py_pow_pos in H by auto. injection H as <-. reflexivity.
    + intros v Hp H. rewrite py_pow_power0 in H by lra. injection H as <-. unfold power0. destruct (Rlt_dec 0 0); [lra|reflexivity].
    + intros m x v -> Hx H. rewrite py_pow_int in H by lra. injection H as <-. reflexivity.
  - intros p Hp x v H. simpl in Hp, H. unfold exponentR in Hp. unfold py_pow in H. destruct (is_int p) as [m|]; [|discriminate].
    destruct (m =? 0)%Z eqn:Em; [|destruct (0 <? m)%Z; discriminate]. apply Z.eqb_eq in Em. rewrite Em in H. simpl in H. destruct Req_EM_T; injection H as <-; reflexivity.
  - intros x y v H. simpl in *. destruct Req_EM_T; [discriminate|]. injection H as <-. eexists. split; [reflexivity|]. simpl. rewrite Rmult_1_r. reflexivity.
Qed.

(** ** Runs with checked generators *)
Definition gen_le (g g' : generator R) : Prop := forall x0 tr d e, g x0 tr d = Ok e -> g' x0 tr d = Ok e.
Definition gens_le (gs gs' : generators R) : Prop :=
  (forall e, gen_le (gen_elem gs e) (gen_elem gs' e)) /\ (forall n, gen_le (gen_ipow gs n) (gen_ipow gs' n)) /\
  (forall p, gen_le (gen_pow gs p) (gen_pow gs' p)) /\ (forall p, exponent gs p = exponent gs' p).

Lemma mapM_le {A B} (f f' : A -> res B) l : (forall a b, f a = Ok b -> f' a = Ok b) -> forall r, mapM f l = Ok r -> mapM f' l = Ok r.
Proof.
  intros HF. induction l; intros r H; cbn [mapM] in *; auto. apply bind_ok in H. destruct H as (b & Hb & H). apply bind_ok in H. destruct H as (bs & Hbs & H).
  rewrite (HF _ _ Hb). cbn [bind]. rewrite (IHl _ Hbs). exact H.
Qed.
Lemma foldM_le {A B} (f f' : A -> B -> res A) l : (forall a b c, f a b = Ok c -> f' a b = Ok c) -> forall a r, foldM f a l = Ok r -> foldM f' a l = Ok r.
Proof.
  intros HF. induction l; intros x r H; cbn [foldM] in *; auto. apply bind_ok in H. destruct H as (b & Hb & H). rewrite (HF _ _ _ Hb). cbn [bind]. auto.
Qed.
Lemma lift_le (g g' : scalar_gen) : (forall x0 tr d e, g x0 tr d = Ok e -> g' x0 tr d = Ok e) -> gen_le (lift_gen g) (lift_gen g').
Proof.
  intros HG x0 [l h] d e H. unfold lift_gen in *. destruct (_ && _); [|discriminate]. apply bind_ok in H. destruct H as (es & Hes & H).
  erewrite mapM_le; [exact H| |exact Hes]. simpl. auto.
Qed.
Lemma checked_le guard g x0 tr d e : checked guard g x0 tr d = Ok e -> g x0 tr d = Ok e.
Proof. unfold checked. destruct (_ && _); [auto|discriminate]. Qed.
Lemma checked_generators_le ugen : gens_le (checked_generators ugen) (generatorsR ugen).
Proof.
  split; [|split; [|split; [|reflexivity]]].
  - intros [| | | | | | | | | |n]; [..|intros x0 tr d e H; exact H]; apply lift_le; intros x0 tr d e H; exact (checked_le _ _ _ _ _ _ H).
  - intros n. apply lift_le. intros x0 tr d e H; exact (checked_le _ _ _ _ _ _ H).
  - intros n. apply lift_le. intros x0 tr d e H; exact (checked_le _ _ _ _ _ _ H).
Qed.

Lemma bind_le {A B} (x x' : res A) (k k' : A -> res B) r : (forall a, x = Ok a -> x' = Ok a) -> (forall a b, k a = Ok b -> k' a = Ok b) -> bind x k = Ok r -> bind x' k' = Ok r.
Proof. intros H1 H2 H. apply bind_ok in H. destruct H as (a & Ha & H). rewrite (H1 _ Ha). cbn [bind]. auto. Qed.

Section Le.
Variables (sc : scalars R) (gs gs' : generators R).
Hypothesis HL : gens_le gs gs'.

Lemma elementwise_le A g g' a t e : gen_le g g' -> elementwise_fun A g a t = Ok e -> elementwise_fun A g' a t = Ok e.
Proof.
  intros HG. unfold elementwise_fun. apply bind_le; auto. intros tr0 e1. apply bind_le; auto. intros x0c e2. apply bind_le; auto. intros x0 e3. apply bind_le; auto.
Qed.
Lemma epower_le A a y e : epower A (gen_ipow gs) a y = Ok e -> epower A (gen_ipow gs') a y = Ok e.
Proof.
  unfold epower. destruct (0 <=? y)%Z; auto. apply bind_le; auto. intros _ b. apply elementwise_le. apply HL.
Qed.
Lemma pushforward_le A p args e : pushforward gs A p args = Ok e -> pushforward gs' A p args = Ok e.
Proof.
  destruct p; destruct args as [|i1 [|i2 [|]]]; simpl pushforward; auto.
  - unfold edivide. apply bind_le; auto. apply epower_le.
  - destruct (negb _); auto. apply bind_le; auto. intros v e1. apply bind_le; auto. intros x e2. unfold epower_float. apply bind_le; auto.
    intros _ e3. rewrite (proj2 (proj2 (proj2 HL))). destruct (exponent gs' x); auto. apply elementwise_le. apply HL.
  - apply epower_le.
  - apply elementwise_le. apply HL.
Qed.
Lemma out_trust_region_le A p args e r : out_trust_region gs A p args e = Ok r -> out_trust_region gs' A p args e = Ok r.
Proof. unfold out_trust_region. apply bind_le; auto. intros args0 r0. apply bind_le; auto. apply pushforward_le. Qed.
Lemma step_le A A0 prop xs lits d o d' : step sc gs A A0 prop xs lits d o = Ok d' -> step sc gs' A A0 prop xs lits d o = Ok d'.
Proof.
  unfold step. apply bind_le; auto. intros args d1. apply bind_le; auto. intros outs. destruct (existsb _ _); auto. apply bind_le; [apply pushforward_le|].
  intros e r. destruct (negb _); auto. apply bind_le; auto. intros r1. destruct prop; auto. apply bind_le; auto. apply out_trust_region_le.
Qed.
Lemma interpret_le pr consts m pg x0 rg d : interpret sc gs pr consts m pg x0 rg = Ok d -> interpret sc gs' pr consts m pg x0 rg = Ok d.
Proof.
  unfold interpret. destruct (m <? 0)%Z; auto. apply bind_le; auto. intros t d1. apply bind_le; auto. intros tr d2. apply bind_le; auto. intros A d3. apply bind_le; auto.
  intros A0 d4. apply bind_le; auto. intros eye d5. apply bind_le; auto. intros _ d6. apply bind_le; auto. intros iv d7. apply bind_le; auto. intros d0 d8.
  apply foldM_le. intros a b c. apply step_le.
Qed.
Lemma taylor_bounds_le pr consts m pg x0 rg b : taylor_bounds sc gs pr consts m pg x0 rg = Ok b -> taylor_bounds sc gs' pr consts m pg x0 rg = Ok b.
Proof. unfold taylor_bounds. apply bind_le; auto. apply interpret_le. Qed.
End Le.
