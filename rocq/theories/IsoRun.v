(** Inclusion isotonicity of the interpreter. *)
From Coq Require Import Reals Lra.
From Verif Require Import Base Tensor IntervalArith Polynomials Enclosure TensorLemmas Spec IntervalProofs PowerProofs PolyProofs Graded
  EnclosureOps EnclosureProofs BilinearProofs ComposeProofs PropEnclosure PropDegree GraphEditor GraphSpec JaxBound JaxSpec JaxLemmas JaxIndex JaxGather JaxPush JaxDot JaxOps JaxForward JaxRun JaxEval JaxInit
  IsoSpec Iso IsoEnc IsoJax.
Open Scope R_scope.

(** ** Entrywise order of arrays *)
Definition tle (a b : tensor R) : Prop := tshape a = tshape b /\ forall I, valid (tshape a) I -> tdata a I <= tdata b I.
Lemma tmap2_mono (f : R -> R -> R) a a' b b' : (forall x y u v, x <= y -> u <= v -> f x u <= f y v) -> tle a a' -> tle b b' -> rel tle (tmap2 f a b) (tmap2 f a' b').
Proof.
  intros Hf [Sa La] [Sb Lb] c c' H H'. apply tmap2_ok in H, H'. destruct H as [H E], H' as [H' E']. rewrite <- Sa, <- Sb, H in H'. injection H' as HS.
  destruct (bshape_spec _ _ _ H) as [C1 C2]. split; [auto|]. intros I HI. rewrite E, E'. unfold bget. rewrite <- Sa, <- Sb.
  apply Hf; [apply La|apply Lb]; eapply bidx_compat_valid; eauto.
Qed.
Lemma Rmax_mono x y u v : x <= y -> u <= v -> Rmax x u <= Rmax y v.
Proof. intros. unfold Rmax. repeat destruct Rle_dec; lra. Qed.
Lemma Rmin_mono x y u v : x <= y -> u <= v -> Rmin x u <= Rmin y v.
Proof. intros. unfold Rmin. repeat destruct Rle_dec; lra. Qed.
Lemma ends_trans a b c : ends a b -> ends b c -> ends a c.
Proof.
  unfold ends. intros H K. apply narrower_sub in H, K. destruct H as (s & _ & [W1 W2] & [W3 W4] & N), K as (s' & _ & [V1 V2] & [V3 V4] & M). apply (sub_narrower s). simpl in *.
  assert (E : s' = s) by congruence. rewrite E in M. apply sub_ivl; [congruence|congruence|congruence|congruence|]. intros I HI. specialize (N I HI). specialize (M I HI). lra.
Qed.

Section Fixed.
Variables (X : list nat) (tr tr' : tensor R * tensor R) (D : nat).
Let zero : list nat -> R := fun _ => 0.
Hypothesis Htr : in_region X tr zero.
Hypothesis Htr' : in_region X tr' zero.
Hypothesis HT : regions tr tr'.
Let A := mkArith D tr.
Let A' := mkArith D tr'.
Let A0 := mkArith 0 tr.
Let A0' := mkArith 0 tr'.
Variables (sc : scalars R) (gs : generators R).
Hypothesis HX : (length X <= 1)%nat.

Lemma const_irel t t' k : teq t t' -> irel tr tr' D k (constant_inter t) (constant_inter t').
Proof.
  intros [S E]. split; [constructor; [apply narrower_arr; auto|constructor]|].
  assert (G : narrower (Ivl t t) (Ivl t' t')). { apply (sub_narrower (tshape t)). apply sub_ivl; auto. intros I HI. specialize (E I HI). lra. }
  split; [intros u u' [= <-] [= <-]; exact G|]. apply rel_ok. exact G.
Qed.

Lemma args0_iso ks args args' : irels tr tr' D ks args args' ->
  let f := fun i : inter R => match i_tr i with Some (l, h) => Ok (Inter [Ivl l h] None) | None => Err AssertionError end in
  rel (irels tr tr' 0 (map (fun _ => KFull) ks)) (mapM f args) (mapM f args').
Proof.
  intros H f. induction H as [|k i i' ks is' is'' (H1 & H2 & H3) H IH]; cbn [mapM]; [apply rel_ok; constructor|].
  eapply rel_bind with (Q := irel tr tr' 0 KFull).
  - unfold f. destruct (i_tr i) as [[l h]|]; [|apply rel_err]. destruct (i_tr i') as [[l' h']|]; [|apply rel_err']. apply rel_ok.
    assert (G : nar [Ivl l h] [Ivl l' h']) by (constructor; [exact (H2 _ _ eq_refl eq_refl)|constructor]).
    split; [exact G|]. split; [intros ? ? [=]|]. apply eff_enclose; auto.
  - intros a a' Ha. eapply rel_bind; [exact IH|]. intros r r' Hr. apply rel_ok. constructor; auto.
Qed.

(** The propagated region, and the parts it is made of. *)
Lemma otr_inv (B : arith R) p args e l h : out_trust_region gs B p args e = Ok (l, h) ->
  exists args0 a ra al ah bb rb bl bh y0 re ml mh,
    mapM (fun i => match i_tr i with Some (l, h) => Ok (Inter [Ivl l h] None) | None => Err AssertionError end) args = Ok args0 /\
    pushforward gs B p args0 = Ok a /\ a = Ivl al ah :: ra /\ enclose_enclosure e (trust_region B) 0 = Ok bb /\ bb = Ivl bl bh :: rb /\
    e = Arr y0 :: re /\ tmax al bl = Ok ml /\ tmin ah bh = Ok mh /\ tmin y0 ml = Ok l /\ tmax y0 mh = Ok h.
Proof.
  unfold out_trust_region. intros H. apply bind_ok in H. destruct H as (args0 & Hargs0 & H).
  apply bind_ok in H. destruct H as (a & Ha & H). apply bind_ok in H. destruct H as (b & Hb & H).
  apply bind_ok in H. destruct H as (a0 & Hga & H). apply bind_ok in H. destruct H as (b0 & Hgb & H). apply get_nth_ok in Hga, Hgb.
  apply bind_ok in H. destruct H as ((ml & mh) & Hint & H). apply bind_ok in H. destruct H as (y0 & Hy & H).
  apply bind_ok in H. destruct H as (l' & Hl' & H). apply bind_ok in H. destruct H as (h' & Hh' & H). injection H as <- <-.
  destruct a as [|a1 ra]; [discriminate|]. injection Hga as ->. destruct b as [|b1 rb]; [discriminate|]. injection Hgb as ->.
  destruct e as [|[t|] re]; try discriminate. injection Hy as <-.
  destruct a0 as [|al ah]; [discriminate|]. destruct b0 as [|bl bh]; [discriminate|]. simpl in Hint. ok_inv. subst.
  exists args0, (Ivl al ah :: ra), ra, al, ah, (Ivl bl bh :: rb), rb, bl, bh, t, re, ml, mh. repeat (split; [solve [auto]|]). auto.
Qed.

Lemma otr_iso p ks vs args args' v k e e' : prim_gens_iso gs p -> opaque_ok p -> args_ok X D zero ks vs args -> args_ok X D zero ks vs args' ->
  irels tr tr' D ks args args' -> forallb is_const ks = false -> result_kind X D p (combine ks (map tshape vs)) [v] = Some k -> nar e e' ->
  rel regions (out_trust_region gs A0 p args e) (out_trust_region gs A0' p args' e').
Proof.
  intros HG HO HA HA' HR NC HK HE (l & h) (l' & h') H H'. apply otr_inv in H, H'.
  destruct H as (args0 & a & ra & al & ah & bb & rb & bl & bh & y0 & re & ml & mh & M1 & M2 & -> & M3 & -> & -> & M4 & M5 & M6 & M7).
  destruct H' as (args0' & a' & ra' & al' & ah' & bb' & rb' & bl' & bh' & y0' & re' & ml' & mh' & M1' & M2' & -> & M3' & -> & -> & M4' & M5' & M6' & M7').
  pose proof (args0_iso _ _ _ HR _ _ M1 M1') as HR0.
  pose proof (args0_ok X D zero HX _ _ _ _ HA M1) as HA0. pose proof (args0_ok X D zero HX _ _ _ _ HA' M1') as HA0'.
  destruct (args_length X D zero HX _ _ _ HA) as [L1 _].
  assert (HK0 : result_kind X 0 p (combine (map (fun _ => KFull) ks) (map tshape vs)) [v] = Some KFull) by (eapply result_kind_0; eauto; rewrite map_length; auto).
  assert (NC0 : forallb is_const (map (fun _ => KFull) ks) = false) by (destruct ks; [discriminate|reflexivity]).
  pose proof (pushforward_iso X tr tr' 0 Htr Htr' HT gs HX p _ _ _ _ v KFull HG HO HA0 HA0' HR0 NC0 HK0 _ _ M2 M2') as NA.
  pose proof (enclose_iso _ _ _ _ 0 HE HT _ _ M3 M3') as NB.
  inversion NA as [|? ? ? ? Na _]; subst. inversion NB as [|? ? ? ? Nb _]; subst. inversion HE as [|? ? ? ? Ny _]; subst.
  apply narrower_sub in Na, Nb. destruct Na as (sa & _ & [Wa1 Wa2] & [Wa3 Wa4] & Na), Nb as (sb & _ & [Wb1 Wb2] & [Wb3 Wb4] & Nb). simpl in Na, Nb.
  destruct (narrower_teq _ _ Ny) as [Sy Ey].
  assert (Tl : tle ml' ml).
  { refine (tmap2_mono Rmax al' al bl' bl Rmax_mono _ _ _ _ M4' M4); (split; [congruence|]); intros I HI; [apply Na|apply Nb]; congruence. }
  assert (Th : tle mh mh').
  { refine (tmap2_mono Rmin ah ah' bh bh' Rmin_mono _ _ _ _ M5 M5'); (split; [congruence|]); intros I HI; [apply Na|apply Nb]; congruence. }
  assert (T1 : tle l' l).
  { refine (tmap2_mono Rmin y0' y0 ml' ml Rmin_mono _ Tl _ _ M6' M6). split; [congruence|]. intros I HI. rewrite Ey by congruence. lra. }
  assert (T2 : tle h h').
  { refine (tmap2_mono Rmax y0 y0' mh mh' Rmax_mono _ Th _ _ M7 M7'). split; [congruence|]. intros I HI. rewrite Ey by auto. lra. }
  assert (Smm : tshape ml = tshape mh).
  { apply tmap2_ok in M4, M5. destruct M4 as [M4 _], M5 as [M5 _]. rewrite Wa1, Wb1 in M4. rewrite Wa2, Wb2 in M5. congruence. }
  apply tmap2_ok in M6, M7. destruct M6 as [M6 E6], M7 as [M7 E7]. rewrite <- Smm in M7. rewrite M6 in M7. injection M7 as Slh.
  destruct T1 as [S1 T1], T2 as [S2 T2]. apply (sub_narrower (tshape l)). simpl. apply sub_ivl; try congruence. intros I HI.
  split; [split; [apply T1; congruence|]|apply T2; congruence]. rewrite E6, E7.
  change (@nmin R NumR) with Rmin. change (@nmax R NumR) with Rmax. pose proof (Rmin_l (bget y0 I) (bget ml I)). pose proof (Rmax_l (bget y0 I) (bget mh I)). lra.
Qed.

(** A propagated region is inside the range of the enclosure over the trust region. *)
Lemma otr_range p args e v k l h t : (exists s, valid (tshape v) s) -> approx k X D zero v e -> region_ok v e (Some (l, h)) -> out_trust_region gs A0 p args e = Ok (l, h) ->
  eff A e None = Ok t -> ends (Ivl l h) t.
Proof.
  intros Hne HE HR H Ht. destruct (elem_region X D tr k v e None t Htr Hne HE I Ht) as (c & r & Ec & Sc & _ & S1 & S2 & V).
  destruct HR as (R1 & R2 & R3 & _). apply otr_inv in H.
  destruct H as (args0 & a & ra & al & ah & bb & rb & bl & bh & y0 & re & ml & mh & M1 & M2 & -> & M3 & -> & Ee & M4 & M5 & M6 & M7).
  rewrite Ec in Ee. injection Ee as -> ->. simpl in Sc, V. unfold eff in Ht. cbn [tr_coef A trust_region] in Ht. cbn [A0 trust_region] in M3. rewrite M3 in Ht.
  injection Ht as <-. simpl in S1, S2, V. apply (sub_narrower (tshape v)). simpl. apply sub_ivl; auto. intros s Hs. specialize (R3 s Hs). specialize (V s Hs).
  assert (N : tdata l s <= tdata h s) by lra.
  apply tmap2_ok in M4, M5, M6, M7. destruct M4 as [M4 E4], M5 as [M5 E5], M6 as [M6 E6], M7 as [M7 E7].
  rewrite S1 in M4. rewrite S2 in M5. rewrite Sc, R1 in M6. rewrite Sc, R2 in M7.
  destruct (bshape_spec _ _ _ M4) as [_ C4], (bshape_spec _ _ _ M5) as [_ C5], (bshape_spec _ _ _ M6) as [_ C6], (bshape_spec _ _ _ M7) as [_ C7].
  pose proof (valid_length _ _ Hs) as Ls. rewrite E6, E7 in *. unfold bget in *. rewrite Sc, E4, E5 in *. unfold bget in *. rewrite S1, S2 in *.
  rewrite !(bidx_trans _ _ _ s C4 C6 Ls), !(bidx_trans _ _ _ s C5 C7 Ls), !(bidx_valid _ _ Hs) in *.
  change (@nmin R NumR) with Rmin in *. change (@nmax R NumR) with Rmax in *.
  split; [split|]; auto.
  - apply Rmin_glb; [lra|]. apply Rmax_r.
  - apply Rmax_lub; [lra|]. apply Rmin_r.
Qed.

(** ** The state of the interpreter *)
Definition drel (k : jvar -> option kind) (d d' : @dict R) : Prop :=
  forall n i i' kd, dlookup d n = Some i -> dlookup d' n = Some i' -> k (Var n) = Some kd -> irel tr tr' D kd i i'.

Lemma get_iso lits d d' k v kd : drel k d d' -> k v = Some kd -> rel (irel tr tr' D kd) (get_intermediate lits d v) (get_intermediate lits d' v).
Proof.
  intros HD Hk. destruct v as [n|n|]; simpl; [| |apply rel_err].
  - destruct (dlookup d n) as [i|] eqn:E; [|apply rel_err]. destruct (dlookup d' n) as [i'|] eqn:E'; [|apply rel_err']. apply rel_ok. eapply HD; eauto.
  - apply rel_ok. apply const_irel, teq_refl.
Qed.
Lemma gets_iso lits d d' k l : drel k d d' -> forall ks, lookups k l = Some ks ->
  rel (irels tr tr' D ks) (mapM (get_intermediate lits d) l) (mapM (get_intermediate lits d') l).
Proof.
  intros HD. induction l as [|v l IH]; intros ks Hk; simpl in Hk; cbn [mapM].
  - injection Hk as <-. apply rel_ok. constructor.
  - destruct (k v) as [kd|] eqn:Ek; [|discriminate]. destruct (lookups k l) as [ks'|]; [|discriminate]. injection Hk as <-.
    eapply rel_bind; [eapply get_iso; eauto|]. intros i i' Hi. eapply rel_bind; [apply IH; eauto|]. intros r r' Hr. apply rel_ok. constructor; auto.
Qed.
Lemma store_iso xs kd : forall outs is' is'' d d' k d1 d1' k', drel k d d' -> Forall2 (irel tr tr' D kd) is' is'' ->
  store xs d outs is' = Ok d1 -> store xs d' outs is'' = Ok d1' -> assign jvar_eqb k outs (map (fun _ => kd) is') = Some k' -> drel k' d1 d1'.
Proof.
  induction outs as [|u outs IH]; intros is' is'' d d' k d1 d1' k' HD HI H H' Hk; destruct HI as [|i i' is' is'' Hi HI]; simpl in *; try discriminate.
  - injection H as <-. injection H' as <-. injection Hk as <-. auto.
  - destruct u as [n|n|]; [|discriminate|].
    + destruct (dlookup d n) eqn:En; [discriminate|]. destruct (dlookup d' n); [discriminate|]. apply bind_ok in H, H'. destruct H as (_ & _ & H), H' as (_ & _ & H').
      refine (IH _ _ _ _ _ _ _ _ _ HI H H' Hk). intros m j j' kd' Hj Hj' Hkd. simpl in Hj, Hj', Hkd. destruct (n =? m)%nat.
      * injection Hj as <-. injection Hj' as <-. injection Hkd as <-. auto.
      * eapply HD; eauto.
    + refine (IH _ _ _ _ _ _ _ _ _ HI H H' Hk). intros m j j' kd' Hj Hj' Hkd. simpl in Hkd. eapply HD; eauto.
Qed.
Lemma existsb_const ks args args' : irels tr tr' D ks args args' ->
  existsb (fun i => negb (is_constant i)) args = existsb (fun i => negb (is_constant i)) args'.
Proof. induction 1 as [|k i i' ks l l' (H & _) HR IH]; simpl; auto. rewrite IH, (is_constant_eq i i') by auto. auto. Qed.
Lemma map_const_len {B C E} (c : C) (l : list B) (l' : list E) : length l = length l' -> map (fun _ => c) l = map (fun _ => c) l'.
Proof. revert l'. induction l; intros [|? l'] H; simpl in *; try discriminate; auto. f_equal. apply IHl. lia. Qed.
Lemma assign_length {V W} (eqb : V -> V -> bool) : forall (vs : list V) (xs : list W) (k k' : V -> option W), assign eqb k vs xs = Some k' -> length vs = length xs.
Proof. induction vs as [|v vs IH]; intros [|x xs] k k' H; simpl in *; try discriminate; auto. f_equal. eauto. Qed.
Lemma store_length xs : forall outs is' (d d1 : @dict R), store xs d outs is' = Ok d1 -> length outs = length is'.
Proof.
  induction outs as [|u outs IH]; intros [|i is'] d d1 H; simpl in *; try discriminate; auto. f_equal. destruct u; try discriminate.
  - destruct (dlookup d n); [discriminate|]. apply bind_ok in H. destruct H as (_ & _ & H). eauto.
  - eauto.
Qed.

Lemma step_iso prop prop' lits d d' r k o d1 d1' args ks vals kd r' k' : (prop' = true -> prop = true) -> inv X D zero lits d r k -> inv X D zero lits d' r k -> drel k d d' ->
  prim_gens_ok at_centre sc gs (odata o) -> prim_gens_iso gs (odata o) -> opaque_ok (odata o) ->
  lookups r (oins o) = Some args -> lookups k (oins o) = Some ks -> prim_bind sc (odata o) args = Ok vals ->
  forallb (fun v => nonempty (tshape v)) vals = true ->
  result_kind X D (odata o) (combine ks (map tshape args)) (map tshape vals) = Some kd ->
  assign jvar_eqb r (oouts o) vals = Some r' -> assign jvar_eqb k (oouts o) (map (fun _ => kd) vals) = Some k' ->
  step sc gs A A0 prop X lits d o = Ok d1 -> step sc gs A' A0' prop' X lits d' o = Ok d1' -> drel k' d1 d1'.
Proof.
  intros HPP HI HI' HD HG HGI HO Hr Hk HB HNv HK Ar Ak H H'. unfold step in H, H'.
  apply bind_ok in H, H'. destruct H as (ints & Hints & H), H' as (ints' & Hints' & H').
  apply bind_ok in H, H'. destruct H as (outs & Houts & H), H' as (outs' & Houts' & H').
  pose proof (gets_ok X D zero lits d r k _ HI _ _ _ Hints Hr Hk) as HA. pose proof (gets_ok X D zero lits d' r k _ HI' _ _ _ Hints' Hr Hk) as HA'.
  pose proof (gets_iso lits d d' k _ HD ks Hk _ _ Hints Hints') as HR.
  assert (HOut : Forall2 (irel tr tr' D kd) outs outs').
  { rewrite <- (existsb_const _ _ _ HR) in Houts'. destruct (existsb _ ints) eqn:EC.
    - pose proof (some_nonconst X D zero _ _ _ HA EC) as NC.
      apply bind_ok in Houts, Houts'. destruct Houts as (e & He & Houts), Houts' as (e' & He' & Houts').
      destruct (negb _) eqn:EL in Houts; [discriminate|]. destruct (negb _) in Houts'; [discriminate|]. apply negb_false_iff, Nat.eqb_eq in EL.
      apply bind_ok in Houts, Houts'. destruct Houts as (rg & Hrg & Houts), Houts' as (rg' & Hrg' & Houts'). injection Houts as <-. injection Houts' as <-.
      destruct vals as [|v [|v' vals]].
      { destruct (oouts o); simpl in *; discriminate. }
      2:{ destruct (oouts o) as [|? [|]]; simpl in *; discriminate. }
      simpl in HNv. rewrite andb_true_r in HNv. pose proof (nonempty_valid _ HNv) as NV. cbn [map] in HK.
      pose proof (pushforward_iso X tr tr' D Htr Htr' HT gs HX _ _ _ _ _ _ _ HGI HO HA HA' HR NC HK _ _ He He') as HE.
      assert (AE : approx kd X D zero v e) by (exact (pushforward_ok X tr D zero Htr Htr sc gs at_centre (or_intror (conj eq_refl eq_refl)) HX _ _ _ _ _ _ _ HG HO HA NV NC HB HK He)).
      constructor; [|constructor]. split; [exact HE|]. simpl. split.
      + intros t t' -> ->. destruct prop; [|discriminate]. destruct prop'; [|discriminate].
        apply bind_ok in Hrg, Hrg'. destruct Hrg as (g & Hg & Hrg), Hrg' as (g' & Hg' & Hrg'). injection Hrg as ->. injection Hrg' as ->.
        exact (otr_iso _ _ _ _ _ _ _ _ _ HGI HO HA HA' HR NC HK HE _ _ Hg Hg').
      + destruct prop', prop; try (specialize (HPP eq_refl); discriminate).
        * apply bind_ok in Hrg, Hrg'. destruct Hrg as ((l, h) & Hg & Hrg), Hrg' as ((l', h') & Hg' & Hrg'). injection Hrg as <-. injection Hrg' as <-.
          apply rel_ok. exact (otr_iso _ _ _ _ _ _ _ _ _ HGI HO HA HA' HR NC HK HE _ _ Hg Hg').
        * apply bind_ok in Hrg. destruct Hrg as ((l, h) & Hg & Hrg). injection Hrg as <-. injection Hrg' as <-.
          pose proof (region_step X tr D zero Htr Htr sc gs at_centre (or_intror (conj eq_refl eq_refl)) HX _ _ _ _ _ _ _ _ HG HO HA NV NC HB HK AE Hg) as RO.
          intros t t' Ht Ht'. injection Ht as <-.
          destruct (eff A e None) as [b|] eqn:Eb.
          2:{ exfalso. clear -Hg Eb. apply otr_inv in Hg. destruct Hg as (? & ? & ? & ? & ? & bb & ? & ? & ? & ? & ? & ? & ? & ? & ? & ? & M3 & -> & _).
              unfold eff in Eb. cbn [tr_coef A trust_region] in Eb. cbn [A0 trust_region] in M3. rewrite M3 in Eb. discriminate. }
          pose proof (otr_range _ _ _ _ _ _ _ _ NV AE RO Hg Eb) as E1. refine (ends_trans _ _ _ E1 _).
          exact (eff_enclose tr tr' D HT _ _ HE _ _ Eb Ht').
        * injection Hrg as <-. injection Hrg' as <-. apply eff_enclose; auto.
    - apply bind_ok in Houts, Houts'. destruct Houts as (ts & Hts & Houts), Houts' as (ts' & Hts' & Houts').
      apply bind_ok in Houts, Houts'. destruct Houts as (rs & Hrs & Houts), Houts' as (rs' & Hrs' & Houts'). injection Houts as <-. injection Houts' as <-.
      apply prim_eval_bind in Hrs, Hrs'. pose proof (consts_teq X D zero _ _ _ _ HA Hts) as TT. pose proof (consts_teq X D zero _ _ _ _ HA' Hts') as TT'.
      pose proof (prim_bind_teq sc _ _ _ _ _ HO (consts_nonempty _ _ TT (args_nonempty X D zero _ _ _ HA)) TT Hrs HB) as F1.
      pose proof (prim_bind_teq sc _ _ _ _ _ HO (consts_nonempty _ _ TT' (args_nonempty X D zero _ _ _ HA')) TT' Hrs' HB) as F2.
      clear -F1 F2. revert rs' F2. induction F1 as [|t v ts vs [S E] F1 IH]; intros rs' F2; inversion F2 as [|t' ? ts' ? [S' E'] F2']; subst; simpl; constructor; auto.
      apply const_irel. split; [congruence|]. intros I HI. rewrite E, E' by congruence. auto. }
  refine (store_iso X kd _ _ _ _ _ k _ _ k' HD HOut H H' _). rewrite <- Ak. f_equal. apply map_const_len.
  apply store_length in H. apply assign_length in Ar. congruence.
Qed.

Lemma run_iso prop prop' lits ops : (prop' = true -> prop = true) -> forall d d' r k d1 d1' k', inv X D zero lits d r k -> inv X D zero lits d' r k -> drel k d d' ->
  (forall o, In o ops -> prim_gens_ok at_centre sc gs (odata o)) -> (forall o, In o ops -> prim_gens_iso gs (odata o)) -> (forall o, In o ops -> opaque_ok (odata o)) ->
  analyse sc X D r k ops = Some k' -> foldM (step sc gs A A0 prop X lits) d ops = Ok d1 -> foldM (step sc gs A' A0' prop' X lits) d' ops = Ok d1' -> drel k' d1 d1'.
Proof.
  intros HPP. induction ops as [|o ops IH]; intros d d' r k d1 d1' k' HI HI' HD HG HGI HO HA H H'; simpl in HA, H, H'.
  - injection HA as <-. injection H as <-. injection H' as <-. auto.
  - apply bind_ok in H, H'. destruct H as (d2 & H2 & H), H' as (d2' & H2' & H').
    destruct (lookups r (oins o)) as [args|] eqn:Er; [|discriminate]. destruct (lookups k (oins o)) as [ks|] eqn:Ek; [|discriminate].
    destruct (prim_bind sc (odata o) args) as [vals|] eqn:EB; [|discriminate]. destruct (forallb _ vals) eqn:EN; [|discriminate].
    destruct (result_kind _ _ _ _ _) as [kd|] eqn:EK; [|discriminate]. destruct (assign jvar_eqb r (oouts o) vals) as [r1|] eqn:A1; [|discriminate].
    destruct (assign jvar_eqb k (oouts o) _) as [k1|] eqn:A2; [|discriminate].
    pose proof (step_ok X tr D zero Htr Htr sc gs at_centre (or_intror (conj eq_refl eq_refl)) HX prop lits d r k o d2 args ks vals kd r1 k1 HI (HG o (or_introl eq_refl)) (HO o (or_introl eq_refl)) Er Ek EB EN EK A1 A2 H2) as I1.
    pose proof (step_ok X tr' D zero Htr' Htr' sc gs at_centre (or_intror (conj eq_refl eq_refl)) HX prop' lits d' r k o d2' args ks vals kd r1 k1 HI' (HG o (or_introl eq_refl)) (HO o (or_introl eq_refl)) Er Ek EB EN EK A1 A2 H2') as I2.
    refine (IH d2 d2' r1 k1 d1 d1' k' I1 I2 _ _ _ _ HA H H'); try (intros o' Ho'; first [apply HG|apply HGI|apply HO]; right; auto).
    refine (step_iso prop prop' lits d d' r k o d2 d2' args ks vals kd r1 k1 HPP HI HI' HD _ _ _ Er Ek EB EN EK A1 A2 H2 H2'); [apply HG|apply HGI|apply HO]; left; auto.
Qed.
End Fixed.
