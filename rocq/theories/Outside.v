(** Runs with a centre outside the trust region.  The proofs of JaxOps,
    JaxForward, JaxRun and JaxInit once more, without the hypothesis that the
    centre of an enclosure lies in the region: the generators then have to be
    valid for such a centre too ([valid_gen_anywhere]). *)
From Coq Require Import Reals Lra Psatz FunctionalExtensionality.
From Verif Require Import Base Tensor IntervalArith Polynomials Enclosure TensorLemmas Spec IntervalProofs PowerProofs PolyProofs Graded
  EnclosureOps EnclosureProofs BilinearProofs ComposeProofs PropEnclosure PropDegree GraphEditor GraphSpec JaxBound JaxSpec JaxLemmas JaxIndex JaxGather JaxPush JaxDot ConvIndex ConvProofs JaxSize JaxOps JaxForward JaxRun JaxEval JaxInit PropJax.
Open Scope R_scope.

(** A generator that is valid on the region whether or not the centre [x0]
    belongs to it. *)
Definition valid_gen_anywhere (gen : generator R) (sigma : R -> res R) : Prop :=
  forall S x0 l h d e, tshape x0 = S -> tshape l = S -> tshape h = S ->
    (forall s, valid S s -> tdata l s <= tdata h s) ->
    gen x0 (l, h) d = Ok e ->
    (0 < length e <= d + 1)%nat /\
    (forall i c, (i < d)%nat -> nth_error e i = Some c -> exists t, c = Arr t) /\
    Forall (wfs S) e /\
    forall s y v, valid S s -> tdata l s <= y <= tdata h s -> sigma y = Ok v ->
      ew_from S s 0 e (y - tdata x0 s) v.
(** The generators the pushforward function of a primitive calls. *)
Definition prim_gens_anywhere (sc : scalars R) (gs : generators R) (p : prim R) : Prop :=
  match p with
  | elementwise_p e => valid_gen_anywhere (gen_elem gs e) (s_elem sc e)
  | integer_pow_p y => (y < 0)%Z -> valid_gen_anywhere (gen_ipow gs y) (fun x => s_ipow sc x y)
  | div_p => valid_gen_anywhere (gen_ipow gs (-1)) (fun x => s_ipow sc x (-1)) /\
      (forall x y v, s_div sc x y = Ok v -> exists w, s_ipow sc y (-1) = Ok w /\ v = x * w)
  | pow_p => (forall q, exponent gs q = ExpOther -> valid_gen_anywhere (gen_pow gs q) (fun x => s_pow sc x q)) /\
      (forall q, exponent gs q = ExpZero -> forall x v, s_pow sc x q = Ok v -> v = 1)
  | _ => True
  end.
(** What is known about a propagated region; [region_ok] without its last clause. *)
Definition region_any (v : tensor R) (r : option (tensor R * tensor R)) : Prop :=
  match r with
  | None => True
  | Some (l, h) => tshape l = tshape v /\ tshape h = tshape v /\
      (forall s, valid (tshape v) s -> tdata l s <= tdata v s <= tdata h s)
  end.

Section Elem_any.
Variables (X : list nat) (tr : tensor R * tensor R) (D : nat) (z : list nat -> R).
Hypothesis Htr : in_region X tr z.
Let A := mkArith D tr.

Lemma elem_ok_any gen sigma k u v e c atr : valid_gen_anywhere gen sigma -> is_cast k = false \/ X = [] -> (exists s, valid (tshape u) s) ->
  tshape v = tshape u -> (forall s, valid (tshape u) s -> sigma (tdata u s) = Ok (tdata v s)) ->
  approx k X D z u e -> region_any u atr -> elementwise_fun A gen e (tr_coef atr) = Ok c -> approx KFull X D z v c.
Proof.
  intros HG NK Hne Sv Ev (He' & Pe & Le & _) HR H. pose proof (holds_hcast X z k u e He') as He. set (S := tshape u) in *.
  assert (HF : encloses (full S) X S e z (tdata u) \/ X = []) by (destruct NK as [NK|NK]; [left; exact (holds_full X z k u e NK He')|auto]). clear He' NK.
  unfold elementwise_fun in H. apply bind_ok in H. destruct H as (tr0 & Htr0' & H). cbv zeta in H.
  set (trp := match tr0 with Arr t => (t, t) | Ivl l h => (l, h) end) in *.
  destruct e as [|c0 r]; [destruct He; congruence|]. cbn [get_nth nth_error bind] in H.
  assert (W0 : wfs S c0) by (exact (hcast_wfs X S c0 r z _ Hne He)).
  assert (HD : (exists t, c0 = Arr t) \/ D = 0%nat /\ exists l h, c0 = Ivl l h /\ r = []).
  { destruct c0 as [t|l h]; [left; eauto|]. destruct (Nat.eq_dec D 0) as [->|ND].
    - right. split; auto. exists l, h. split; auto. destruct r; auto. simpl in Le. lia.
    - exfalso. destruct (Pe 0%nat (Ivl l h)) as [t Ht]; [lia|reflexivity|discriminate]. }
  assert (HT : tshape (fst trp) = S /\ tshape (snd trp) = S /\
      (forall s, valid S s -> tdata (fst trp) s <= tdata u s <= tdata (snd trp) s)).
  { destruct atr as [[l h]|]; cbn [tr_coef] in Htr0'.
    - injection Htr0' as <-. subst trp. simpl. destruct HR as (H1 & H2 & H3). split; [|split]; auto.
    - apply bind_ok in Htr0'. destruct Htr0' as (d0 & Hd0 & Hg). apply get_nth_ok in Hg. cbn [trust_region A] in Hd0.
      destruct HD as [[t ->]|(-> & l & h & -> & ->)].
      + destruct (enclose0_head X tr z S (Arr t) r _ d0 Hne Htr He Hd0) as (x & -> & Wx). simpl in Hg. injection Hg as ->.
        assert (up : forall z' f', in_region X tr z' -> encloses (hcast S) X S (Arr t :: r) z' f' -> encloses (full S) X S [tr0] z' f').
        { intros z' f' Hr' He'. apply hcast_single; [simpl; lia|]. apply hcast_of_bcast; auto.
          exact (encloses_enclose _ _ _ _ _ _ _ _ _ _ (pf_bcast S) Hr' (encloses_mono _ _ _ _ _ _ _ (hcast_bcast S) He') Hd0). }
        pose proof (up _ _ Htr He) as H1.
        destruct (single_full X z S tr0 _ Hne H1) as [W K1].
        subst trp. destruct tr0 as [y|l h]; simpl in *.
        * split; [|split]; auto; intros s Hs; specialize (K1 s Hs); lra.
        * destruct W. split; [|split]; auto.
      + injection Hd0 as <-. injection Hg as <-. subst trp. simpl in W0 |- *. destruct W0 as [W1 W2].
        pose proof (hcast_single X S [Ivl l h] z (tdata u) ltac:(simpl; lia) He) as He1.
        destruct (single_full X z S (Ivl l h) _ Hne He1) as [_ K1]. split; [|split]; auto. }
  destruct HT as (S1 & S2 & Ku).
  assert (W0' : tshape (left_end c0) = S) by exact (wfs_lo _ _ W0).
  destruct trp as [l h] eqn:Etrp; simpl in S1, S2, Ku.
  assert (HGen : forall x0 ew, x0 = left_end c0 -> gen x0 (l, h) D = Ok ew ->
     (0 < length ew <= D + 1)%nat /\ plain_below D ew /\ Forall (wfs S) ew /\
     forall s, valid S s -> ew_from S s 0 ew (tdata u s - tdata x0 s) (tdata v s)).
  { intros x0 ew -> Hew. destruct (HG S (left_end c0) l h D ew W0' S1 S2 (fun s Hs => Rle_trans _ _ _ (proj1 (Ku s Hs)) (proj2 (Ku s Hs))) Hew) as (L & PL & WF & EV). repeat split; auto; lia. }
  unfold A in H. cbn [max_degree] in H.
  destruct HD as [[t ->]|(-> & l0 & h0 & -> & ->)].
  - cbn [bind] in H. apply bind_ok in H. destruct H as (ew & Hew & H). destruct (HGen t ew eq_refl Hew) as (L & PL & WF & EV).
    pose proof (compose_plain A _ _ _ H PL Pe) as PD. apply (mk_full X D z) with (f := tdata v); auto. rewrite Sv.
    assert (EV' : forall s, valid S s -> ew_from S s 0 ew (tdata u s - tdata t (bidx (tshape t) s)) (tdata v s)).
    { intros s Hs. simpl in W0. rewrite W0, bidx_valid by auto. apply EV; auto. }
    destruct HF as [HF|EX].
    + refine (compose_sound S _ _ X tr D z t r ew (tdata u) (tdata v) c (pf_full S) _ Htr _ Hne _ (encloses_mono _ _ _ _ _ _ _ (full_full_tail S) HF) EV' H).
      * reflexivity.
      * lia.
      * intros c0 r0 ->. inversion WF; subst. exists S. split; auto. reflexivity.
    + revert H. pose proof (encloses_mono _ _ _ _ _ _ _ (hcast_bcast S) He) as HB. pose proof Htr as Htr'. rewrite EX in HB, Htr' |- *. intros H.
      refine (compose_sound_number S tr D z t r ew (tdata u) (tdata v) c Htr' _ Hne WF HB EV' H). lia.
  - cbn [bind Nat.eqb] in H. apply bind_ok in H. destruct H as (ew & Hew & H). destruct (HGen l0 ew eq_refl Hew) as (L & PL & WF & EV).
    change (compose_enclosures (mkArith 0 tr) ew [Ivl l0 h0]) with (compose_enclosures (mkArith 0 tr) ew [Arr l0]) in H.
    assert (P0 : plain_below 0 [Arr l0]) by (intros i x Hi; lia).
    pose proof (compose_plain (mkArith 0 tr) _ _ _ H PL P0) as PD. apply (mk_full X 0 z) with (f := tdata v); auto. rewrite Sv.
    simpl in W0'. assert (He' : encloses (full S) X S [Arr l0] z (tdata l0)) by (apply const_encloses; auto).
    refine (compose_sound S _ _ X tr 0 z l0 [] ew (tdata l0) (tdata v) c (pf_full S) _ Htr _ Hne _ (encloses_mono _ _ _ _ _ _ _ (full_full_tail S) He') _ H).
    + reflexivity.
    + lia.
    + intros c0 r0 ->. inversion WF; subst. exists S. split; auto. reflexivity.
    + intros s Hs. specialize (EV s Hs). destruct ew as [|e0 [|]]; simpl in L; try lia. simpl in EV |- *.
      destruct EV as (E & w & y & H1 & H2 & H3 & H4 & H5). exists E, w, y. repeat split; auto. 
Qed.

(** ** Quotients *)
Lemma div_ok_any sc gs a b v c ka kb ea eb : prim_gens_anywhere sc gs div_p ->
  (exists s, valid (tshape a) s) -> (exists s, valid (tshape b) s) -> (exists s, valid (tshape v) s) -> is_cast kb = false \/ X = [] ->
  tmap2M (s_div sc) a b = Ok v -> approx ka X D z a ea -> approx kb X D z b eb -> edivide A (gen_ipow gs) ea eb = Ok c ->
  approx (mul_kind ka (tshape a) KFull (tshape b) (tshape v)) X D z v c.
Proof.
  intros HG Na Nb NS NK Hv Ha Hb H. destruct (tmap2M_ok _ _ _ _ Hv) as [HS Ev]. destruct HG as (HG & HDv).
  unfold edivide in H. apply bind_ok in H. destruct H as (ib & Hib & H). unfold epower in Hib. simpl in Hib. apply bind_ok in Hib. destruct Hib as (_ & _ & Hib).
  (* the reciprocal of [b] *)
  set (w := mkT (tshape b) (fun s => match s_ipow sc (tdata b s) (-1) with Ok y => y | Err _ => 0 end) : tensor R).
  destruct (bshape_spec _ _ _ HS) as [Ca Cb].
  assert (Hw : forall s, valid (tshape b) s -> s_ipow sc (tdata b s) (-1) = Ok (tdata w s)).
  { intros s Hs. destruct (bidx_onto _ _ _ Cb NS Hs) as (s' & Hs' & <-). specialize (Ev s' Hs').
    destruct (HDv _ _ _ Ev) as (y & Hy & _). unfold bget in Hy. simpl. rewrite Hy. auto. }
  pose proof (elem_ok_any _ _ kb b w eb ib None HG NK Nb eq_refl Hw Hb I Hib) as Hw'.
  assert (Hm : exists m, tmul a w = Ok m /\ tshape m = tshape v /\ forall s, valid (tshape v) s -> tdata m s = tdata v s).
  { unfold tmul, tmap2. cbn [tshape w]. rewrite HS. eexists. split; [reflexivity|]. split; [reflexivity|]. intros s Hs. specialize (Ev s Hs).
    destruct (HDv _ _ _ Ev) as (y & Hy & ->). unfold bget in *. simpl. rewrite Hy. reflexivity. }
  destruct Hm as (m & Hm & Sm & Em).
  assert (NM : exists s, valid (tshape m) s) by (rewrite Sm; auto).
  pose proof (mul_ok X tr D z Htr a w m c ka KFull ea ib Na Nb NM Hm (andb_false_r _) Ha Hw' H) as HF.
  rewrite Sm in HF. change (tshape w) with (tshape b) in HF.
  destruct HF as (HF & HP). split; auto.
  eapply holds_ext; eauto. unfold mul_kind, prod_kind. repeat match goal with |- context [if ?x then _ else _] => destruct x end; discriminate.
Qed.

(** ** pow with a constant exponent *)
Lemma pow_ok_any sc gs a b v c ka kb ea t : prim_gens_anywhere sc gs pow_p ->
  (exists s, valid (tshape a) s) -> (exists s, valid (tshape b) s) -> is_cast ka = false \/ X = [] -> tshape a = tshape v ->
  tmap2M (s_pow sc) a b = Ok v -> approx ka X D z a ea -> approx kb X D z b [Arr t] ->
  (x <- to_float t ;; epower_float gs A ea x) = Ok c -> approx KFull X D z v c.
Proof.
  intros HG Na Nb NK Sv Hv Ha Hb H. destruct (tmap2M_ok _ _ _ _ Hv) as [HS Ev]. destruct HG as (HG & HZ).
  apply bind_ok in H. destruct H as (p & Hp & H).
  pose proof (holds_arr X z kb b t Nb (proj1 Hb)) as [St Et].
  (* every entry of [b] is [p] *)
  assert (Hpb : forall s, valid (tshape b) s -> tdata b s = p).
  { intros s Hs. rewrite <- St in Hs. rewrite <- Et by auto. unfold to_float, to_list in Hp.
    assert (In (tdata t s) (map (tdata t) (all_idx (tshape t)))) as HI by (apply in_map, all_idx_valid; auto).
    destruct (map (tdata t) (all_idx (tshape t))) as [|y [|]]; try discriminate. injection Hp as ->. destruct HI as [<-|[]]. auto. }
  destruct (bshape_spec _ _ _ HS) as [_ Cb].
  assert (Hsig : forall s, valid (tshape a) s -> s_pow sc (tdata a s) p = Ok (tdata v s)).
  { intros s Hs. pose proof Hs as Hs'. rewrite Sv in Hs'. specialize (Ev s Hs'). unfold bget in Ev.
    rewrite bidx_valid in Ev by auto. rewrite Hpb in Ev by (eapply bidx_compat_valid; eauto). exact Ev. }
  unfold epower_float in H. apply bind_ok in H. destruct H as (_ & _ & H). destruct (exponent gs p) eqn:EX; [|discriminate|].
  - destruct (ipow_ok X tr D z Htr a c ka ea 0 Na Ha H) as (HF & P & L & _).
    unfold pow_kind in HF. simpl in HF. rewrite andb_false_r in HF. split; [|split; [auto|split; [auto|intros _; exact (proj1 HF)]]].
    simpl in *. rewrite <- Sv. eapply encloses_ext; [|exact HF]. intros s Hs. simpl. symmetry. apply (HZ p EX (tdata a s)). apply Hsig; auto.
  - exact (elem_ok_any _ _ ka a v ea c None (HG p EX) NK Na (eq_sym Sv) Hsig Ha I H).
Qed.
End Elem_any.

Section Fixed_any.
Variables (X : list nat) (tr : tensor R * tensor R) (D : nat) (z : list nat -> R).
Hypothesis Htr : in_region X tr z.
Let A := mkArith D tr.
(** ** The table *)
Variables (sc : scalars R) (gs : generators R).
Hypothesis HX : (length X <= 1)%nat.

Definition arg_ok_any (k : kind) (v : tensor R) (i : inter R) : Prop :=
  (exists s, valid (tshape v) s) /\ approx k X D z v (i_enc i) /\ region_any v (i_tr i).

Inductive args_ok_any : list kind -> list (tensor R) -> list (inter R) -> Prop :=
| ao_nil_any : args_ok_any [] [] []
| ao_cons_any k v i ks vs is' : arg_ok_any k v i -> args_ok_any ks vs is' -> args_ok_any (k :: ks) (v :: vs) (i :: is').

Lemma unless_cast_inv k r r' : unless_cast k r = Some r' -> is_cast k = false /\ r' = r.
Proof. destruct k; simpl; intros [= <-]; split; congruence || reflexivity. Qed.
Lemma unless_cast_array_inv Y k r r' : unless_cast_array Y k r = Some r' -> (is_cast k = false \/ Y = []) /\ r' = r.
Proof.
  unfold unless_cast_array. destruct (is_cast k) eqn:E; simpl; intros H.
  - destruct Y; simpl in H; [|discriminate]. injection H as <-. auto.
  - injection H as <-. split; auto.
Qed.
Lemma not_const_1 k : is_const k && true = false -> k <> KConst.
Proof. destruct k; discriminate. Qed.

Lemma pushforward_ok_any p ks vs args e v k : prim_gens_anywhere sc gs p -> opaque_ok p -> args_ok_any ks vs args ->
  (exists s, valid (tshape v) s) -> forallb is_const ks = false ->
  prim_bind sc p vs = Ok [v] -> result_kind X D p (combine ks (map tshape vs)) [tshape v] = Some k ->
  pushforward gs A p args = Ok e -> approx k X D z v e.
Proof.
  intros HG HO HA NV NC HB HK HP.
  assert (HE : forallb (fun a : kind * list nat => is_const (fst a)) (combine ks (map tshape vs)) = false).
  { rewrite <- NC. clear -HA. induction HA; simpl; auto. rewrite IHHA. reflexivity. }
  unfold result_kind in HK. rewrite HE in HK. clear HE.
  inversion HA as [|k1 v1 i1 ks1 vs1 is1 H1 HA1]; subst; [discriminate|].
  inversion HA1 as [|k2 v2 i2 ks2 vs2 is2 H2 HA2]; subst.
  - (* one operand *)
    destruct H1 as (N1 & A1 & R1). simpl in NC. rewrite andb_true_r in NC.
    assert (NK1 : k1 <> KConst) by (destruct k1; discriminate).
    destruct p; cbn -[gather] in HB, HK, HP; try discriminate.
    + (* neg *) injection HK as <-. injection HB as <-. exact (neg_ok X tr D z Htr v1 e k1 _ NK1 N1 A1 HP).
    + (* integer_pow *) unfold epower in HP. destruct (y <? 0)%Z eqn:EN; [destruct (0 <=? y)%Z eqn:EY; [exfalso; apply Z.leb_le in EY; apply Z.ltb_lt in EN; lia|]|].
      2: { assert (EY : (0 <=? y)%Z = true) by (apply Z.leb_le; apply Z.ltb_ge in EN; lia). rewrite EY in HB, HP.
        injection HK as <-. injection HB as <-. pose proof (ipow_ok X tr D z Htr v1 e k1 _ _ N1 A1 HP) as K. unfold pow_kind in K.
        replace (Z.to_nat y =? 0)%nat with (y =? 0)%Z in K; [exact K|]. apply Z.leb_le in EY. destruct (Z.eqb_spec y 0) as [->|]; [reflexivity|]. symmetry. apply Nat.eqb_neq. lia. }
      * apply unless_cast_array_inv in HK. destruct HK as [NK ->]. apply one_res_inv in HB. rename HB into Hb.
        destruct (tmapM_ok _ _ _ Hb) as [Sv Ev].
        apply (elem_ok_any X tr D z Htr (gen_ipow gs y) (fun x => s_ipow sc x y) k1 v1 v (i_enc i1) e None); simpl; auto.
        { apply HG. apply Z.leb_gt in EY. lia. }
        { apply bind_ok in HP. destruct HP as (_ & _ & HP). exact HP. }
    + (* broadcast_in_dim *) apply unless_cast_inv in HK. destruct HK as [NK ->]. apply one_res_inv in HB. rename HB into Hb.
      exact (broadcast_ok X D z _ _ _ _ _ _ _ N1 NK1 NK Hb A1 HP).
    + (* elementwise *) apply unless_cast_array_inv in HK. destruct HK as [NK ->]. apply one_res_inv in HB. rename HB into Hb.
      destruct (tmapM_ok _ _ _ Hb) as [Sv Ev].
      exact (elem_ok_any X tr D z Htr _ _ k1 v1 v (i_enc i1) e (i_tr i1) HG NK N1 Sv Ev A1 R1 HP).
    + (* convert *) injection HK as <-. assert (Hb : gather g_convert v1 = Ok v) by (injection HB as HB; rewrite <- HB; reflexivity). exact (convert_ok X D z _ _ _ _ _ NK1 Hb A1 HP).
    + (* reshape *) destruct (_ && _) eqn:EX in HK; [discriminate|]. apply unless_cast_inv in HK. destruct HK as [NK ->]. apply one_res_inv in HB. rename HB into Hb.
      refine (gather_ok' X D z _ _ _ _ _ _ N1 NK1 NK _ Hb A1 HP). apply lin_reshape; auto.
      * intros ->. simpl in EX. apply negb_false_iff, Nat.eqb_eq in EX. destruct A1 as (_ & _ & L & _). lia.
      * apply gather_ok in Hb. tauto.
    + apply unless_cast_inv in HK. destruct HK as [NK ->]. apply one_res_inv in HB. rename HB into Hb.
      refine (gather_ok' X D z _ _ _ _ _ _ N1 NK1 NK _ Hb A1 HP). apply lin_reduce_sum. apply gather_ok in Hb. tauto.
    + apply unless_cast_inv in HK. destruct HK as [NK ->]. apply one_res_inv in HB. rename HB into Hb.
      refine (gather_ok' X D z _ _ _ _ _ _ N1 NK1 NK _ Hb A1 HP). apply lin_window. apply gather_ok in Hb. tauto.
    + apply unless_cast_inv in HK. destruct HK as [NK ->]. apply one_res_inv in HB. rename HB into Hb.
      refine (gather_ok' X D z _ _ _ _ _ _ N1 NK1 NK _ Hb A1 HP). apply lin_squeeze. apply gather_ok in Hb. tauto.
    + apply unless_cast_inv in HK. destruct HK as [NK ->]. apply one_res_inv in HB. rename HB into Hb.
      refine (gather_ok' X D z _ _ _ _ _ _ N1 NK1 NK _ Hb A1 HP). apply lin_transpose. apply gather_ok in Hb. tauto.
  - inversion HA2 as [|]; subst; [|destruct p; cbn in HK; discriminate].
    destruct H1 as (N1 & A1 & R1). destruct H2 as (N2 & A2 & R2). simpl in NC. rewrite andb_true_r in NC.
    destruct p; cbn -[gather] in HB, HK, HP; try discriminate.
    + (* add *) apply one_res_inv in HB. rename HB into Hb. injection HK as <-.
      exact (sum_ok X tr D z Htr (eadd A) Rplus v1 v2 v e k1 k2 _ _ (or_introl (conj eq_refl eq_refl)) N1 N2 NV Hb NC A1 A2 HP).
    + apply one_res_inv in HB. rename HB into Hb. injection HK as <-.
      exact (sum_ok X tr D z Htr (esubtract A) Rminus v1 v2 v e k1 k2 _ _ (or_intror (conj eq_refl eq_refl)) N1 N2 NV Hb NC A1 A2 HP).
    + apply one_res_inv in HB. rename HB into Hb. injection HK as <-. exact (mul_ok X tr D z Htr v1 v2 v e k1 k2 _ _ N1 N2 NV Hb NC A1 A2 HP).
    + apply unless_cast_array_inv in HK. destruct HK as [NK ->]. apply one_res_inv in HB. rename HB into Hb.
      exact (div_ok_any X tr D z Htr sc gs v1 v2 v e k1 k2 _ _ HG N1 N2 NV NK Hb A1 A2 HP).
    + (* pow *) destruct (shape_eqb _ _) eqn:ES in HK; [|discriminate]. apply shape_eqb_eq in ES. apply unless_cast_array_inv in HK. destruct HK as [NK ->].
      apply one_res_inv in HB. rename HB into Hb. unfold is_constant, constant_value in HP.
      destruct (i_enc i2) as [|[t|] [|]] eqn:E2; simpl in HP; try discriminate.
      exact (pow_ok_any X tr D z Htr sc gs v1 v2 v e k1 k2 _ t HG N1 N2 NK ES Hb A1 A2 HP).
    + (* dot_general *) destruct (is_cast k1 || is_cast k2) eqn:EC; [discriminate|]. apply orb_false_elim in EC. destruct EC as [EC1 EC2].
      destruct (_ || _) eqn:ED in HK; [|discriminate]. injection HK as <-. apply one_res_inv in HB. rename HB into Hb.
      refine (dot_ok' X tr D z Htr lc rc lb rb v1 v2 v e k1 k2 _ _ N1 N2 EC1 EC2 _ Hb NC A1 A2 HP).
      apply orb_prop in ED. destruct ED as [ED|ED].
      * apply orb_prop in ED. destruct ED as [ED|ED].
        -- apply orb_prop in ED. destruct ED as [ED|ED]; apply Nat.eqb_eq in ED; auto.
        -- apply Nat.eqb_eq in ED. right. right. destruct A1 as (_ & _ & L & _). lia.
      * right; right. destruct k1; try discriminate. destruct A1 as ((t & -> & _) & _). simpl. lia.
    + (* conv *) destruct (is_cast k1 || is_cast k2) eqn:EC; [discriminate|]. apply orb_false_elim in EC. destruct EC as [EC1 EC2]. injection HK as <-.
      apply one_res_inv in HB. rename HB into Hb.
      exact (conv_ok X tr D z Htr c v1 v2 v e k1 k2 _ _ N1 N2 EC1 EC2 Hb NC A1 A2 HP).
Qed.
End Fixed_any.

Section Run.
Variables (X : list nat) (tr : tensor R * tensor R) (D : nat) (z : list nat -> R).
Hypothesis Htr : in_region X tr z.
Let A := mkArith D tr.
Let A0 := mkArith 0 tr.
Variables (sc : scalars R) (gs : generators R).
Hypothesis HX : (length X <= 1)%nat.

Lemma args0_ok_any ks vs args args0 : args_ok_any X D z ks vs args ->
  mapM (fun i => match i_tr i with Some (l, h) => Ok (Inter [Ivl l h] None) | None => Err AssertionError end) args = Ok args0 ->
  args_ok_any X 0 z (map (fun _ => KFull) ks) vs args0.
Proof.
  intros H. revert args0. induction H as [|k v i ks vs is' (N1 & A1 & R1) H IH]; intros args0 H0; cbn [mapM] in H0.
  - injection H0 as <-. constructor.
  - apply bind_ok in H0. destruct H0 as (a & Ha & H0). apply bind_ok in H0. destruct H0 as (r & Hr & H0). injection H0 as <-.
    simpl. constructor; auto. destruct (i_tr i) as [[l h]|]; [|discriminate]. injection Ha as <-. destruct R1 as (S1 & S2 & R1).
    split; auto. split; [|exact I]. simpl. split; [|split; [intros i' c Hi; lia|simpl; lia]]. exact (ivl_encloses X (tshape v) l h z _ S1 S2 R1).
Qed.

Lemma args_length_any ks vs args : args_ok_any X D z ks vs args -> length ks = length vs /\ length args = length vs.
Proof. induction 1; simpl; lia. Qed.

Lemma single_bcast S c f s : valid S s -> encloses (bcast S) X S [c] z f -> exists p, compat p S /\ wfs p c /\ inat c (bidx p s) (f s).
Proof.
  intros Hs [_ H]. specialize (H s Hs). simpl in H. destruct H as (u & w & (p & Hp & W & B & HB & ->) & -> & ->).
  exists p. split; [exact Hp|]. simpl in W. rewrite app_nil_r in W. split; auto. specialize (HB [] ltac:(constructor)). rewrite app_nil_r in HB.
  unfold term_value. simpl. rewrite Rmult_1_r, Rplus_0_r. exact HB.
Qed.

Lemma region_step_any p ks vs args e v k r : prim_gens_anywhere sc gs p -> opaque_ok p -> args_ok_any X D z ks vs args -> (exists s, valid (tshape v) s) -> forallb is_const ks = false ->
  prim_bind sc p vs = Ok [v] -> result_kind X D p (combine ks (map tshape vs)) [tshape v] = Some k ->
  approx k X D z v e -> out_trust_region gs A0 p args e = Ok r -> region_any v (Some r).
Proof.
  intros HG HO HA NV NC HB HK HE H. unfold out_trust_region in H.
  apply bind_ok in H. destruct H as (args0 & Hargs0 & H). pose proof (args0_ok_any _ _ _ _ HA Hargs0) as HA0.
  apply bind_ok in H. destruct H as (a & Ha & H). apply bind_ok in H. destruct H as (b & Hb & H).
  apply bind_ok in H. destruct H as (a0 & Hga & H). apply bind_ok in H. destruct H as (b0 & Hgb & H). apply get_nth_ok in Hga, Hgb.
  apply bind_ok in H. destruct H as ((l & h) & Hint & H). apply bind_ok in H. destruct H as (y0 & Hy & H).
  apply bind_ok in H. destruct H as (l' & Hl' & H). apply bind_ok in H. destruct H as (h' & Hh' & H). injection H as <-.
  destruct (args_length_any _ _ _ HA) as [L1 _].
  assert (HK0 : result_kind X 0 p (combine (map (fun _ => KFull) ks) (map tshape vs)) [tshape v] = Some KFull).
  { eapply result_kind_0; eauto. rewrite map_length. auto. }
  assert (NC0 : forallb is_const (map (fun _ => KFull) ks) = false) by (destruct ks; [discriminate|reflexivity]).
  pose proof (pushforward_ok_any X tr 0 z Htr sc gs HX p _ _ _ a v KFull HG HO HA0 NV NC0 HB HK0 Ha) as (KA & _ & La & _).
  destruct a as [|a0' [|]]; simpl in Hga, La; try discriminate; try lia. injection Hga as ->.
  destruct (single_full X z (tshape v) a0 _ NV KA) as [Wa Ka].
  destruct HE as (HE & PE & LE & _). pose proof (holds_hcast X z _ _ _ HE) as HE'.
  pose proof (encloses_enclose _ _ _ _ _ _ _ _ _ _ (pf_bcast (tshape v)) Htr (encloses_mono _ _ _ _ _ _ _ (hcast_bcast _) HE') Hb) as KB.
  pose proof (enclose_shape _ _ _ _ Hb) as (Lb & _ & _).
  destruct b as [|b0' [|]]; simpl in Hgb, Lb; try discriminate; try lia. injection Hgb as ->.
  destruct e as [|c0 rest]; [discriminate|]. destruct c0 as [t|]; [|discriminate]. injection Hy as <-.
  pose proof (hcast_wfs _ _ _ _ _ _ NV HE') as Wy. simpl in Wy.
  destruct a0 as [|al ah]; [discriminate|]. destruct b0 as [|bl bh]; [simpl in Hint; discriminate|].
  simpl in Hint. apply bind_ok in Hint. destruct Hint as (l0 & Hl & Hint). apply bind_ok in Hint. destruct Hint as (h0 & Hh & Hint). injection Hint as -> ->.
  simpl in Wa. destruct Wa as [Wal Wah].
  assert (HP : exists q, compat q (tshape v) /\ tshape bl = q /\ tshape bh = q).
  { destruct NV as [s Hs]. destruct (single_bcast _ _ _ s Hs KB) as (q & Cq & [W1 W2] & _). eauto. }
  destruct HP as (q & Cq & Sbl & Sbh).
  assert (KB' : forall s, valid (tshape v) s -> tdata bl (bidx q s) <= tdata v s <= tdata bh (bidx q s)).
  { intros s Hs. destruct (single_bcast _ _ _ s Hs KB) as (q' & Cq' & [W1 W2] & K). simpl in K. rewrite Sbl in W1. subst q'. exact K. }
  apply tmap2_ok in Hl, Hh, Hl', Hh'. destruct Hl as [Sl El], Hh as [Sh Eh], Hl' as [Sl' El'], Hh' as [Sh' Eh'].
  rewrite Wal, Sbl, (bshape_compat_r _ _ Cq) in Sl. rewrite Wah, Sbh, (bshape_compat_r _ _ Cq) in Sh. injection Sl as Sl. injection Sh as Sh.
  rewrite Wy, <- Sl, bshape_refl in Sl'. rewrite Wy, <- Sh, bshape_refl in Sh'. injection Sl' as Sl'. injection Sh' as Sh'.
  unfold bget in *. rewrite Wal, Sbl in El. rewrite Wah, Sbh in Eh. rewrite Wy, <- Sl in El'. rewrite Wy, <- Sh in Eh'.
  assert (KL : forall s, valid (tshape v) s -> tdata l' s <= tdata v s <= tdata h' s /\ tdata l' s <= tdata t s <= tdata h' s).
  { intros s Hs. rewrite El', Eh', !(bidx_valid _ _ Hs), El, Eh, !(bidx_valid _ _ Hs). specialize (Ka s Hs). specialize (KB' s Hs). simpl in Ka.
    change (@nmin R NumR) with Rmin. change (@nmax R NumR) with Rmax.
    pose proof (Rmin_l (tdata t s) (Rmax (tdata al s) (tdata bl (bidx q s)))). pose proof (Rmin_r (tdata t s) (Rmax (tdata al s) (tdata bl (bidx q s)))).
    pose proof (Rmax_l (tdata t s) (Rmin (tdata ah s) (tdata bh (bidx q s)))). pose proof (Rmax_r (tdata t s) (Rmin (tdata ah s) (tdata bh (bidx q s)))).
    assert (Rmax (tdata al s) (tdata bl (bidx q s)) <= tdata v s) by (apply Rmax_lub; lra).
    assert (tdata v s <= Rmin (tdata ah s) (tdata bh (bidx q s))) by (apply Rmin_glb; lra). lra. }
  split; [congruence|]. split; [congruence|]. intros s Hs. apply KL; auto.
Qed.

(** ** The state of the interpreter *)
Definition inv_any (lits : nat -> tensor R) (d : dict) (r : jvar -> option (tensor R)) (k : jvar -> option kind) : Prop :=
  (forall n, nonempty (tshape (lits n)) = true /\ r (Lit n) = Some (lits n) /\ k (Lit n) = Some KConst) /\
  (forall n i, dlookup d n = Some i -> exists v kd, r (Var n) = Some v /\ k (Var n) = Some kd /\ arg_ok_any X D z kd v i).

Lemma const_arg_ok_any k v t : (two k = true -> D = 0%nat) -> teq t v -> (exists s, valid (tshape v) s) -> arg_ok_any X D z k v (constant_inter t).
Proof.
  intros H2 HT Hne. split; auto. split; [apply approx_const; auto|]. destruct HT as [E H]. simpl. split; auto. split; auto.
  intros s Hs. rewrite <- H by (rewrite E; auto). lra.
Qed.

Lemma get_ok_any lits d r k v i x kd : inv_any lits d r k -> get_intermediate lits d v = Ok i -> r v = Some x -> k v = Some kd -> arg_ok_any X D z kd x i.
Proof.
  intros [HL HV] H Hr Hk. destruct v as [n|n|]; simpl in H; [| |discriminate].
  - destruct (dlookup d n) as [i'|] eqn:E; [|discriminate]. injection H as ->. destruct (HV n i E) as (v & kd' & E1 & E2 & E3). congruence.
  - injection H as <-. destruct (HL n) as (N1 & E1 & E2). rewrite E1 in Hr. rewrite E2 in Hk. injection Hr as <-. injection Hk as <-.
    apply const_arg_ok_any; [discriminate|apply teq_refl|apply nonempty_valid; auto].
Qed.

Lemma gets_ok_any lits d r k l : inv_any lits d r k -> forall args xs ks, mapM (get_intermediate lits d) l = Ok args -> lookups r l = Some xs -> lookups k l = Some ks ->
  args_ok_any X D z ks xs args.
Proof.
  intros HI. induction l as [|v l IH]; intros args xs ks H Hx Hk; cbn [mapM] in H; simpl in Hx, Hk.
  - injection H as <-. injection Hx as <-. injection Hk as <-. constructor.
  - apply bind_ok in H. destruct H as (i & Hi & H). apply bind_ok in H. destruct H as (is' & His & H). injection H as <-.
    destruct (r v) as [x|] eqn:Er; [|discriminate]. destruct (lookups r l) as [xs'|]; [|discriminate]. injection Hx as <-.
    destruct (k v) as [kd|] eqn:Ek; [|discriminate]. destruct (lookups k l) as [ks'|]; [|discriminate]. injection Hk as <-.
    constructor; auto. eapply get_ok_any; eauto.
Qed.

(** Storing the outputs. *)
Inductive outs_ok_any (kd : kind) : list (tensor R) -> list (inter R) -> Prop :=
| oo_nil_any : outs_ok_any kd [] []
| oo_cons_any v i vs is' : arg_ok_any X D z kd v i -> outs_ok_any kd vs is' -> outs_ok_any kd (v :: vs) (i :: is').

Lemma store_ok_any lits kd xs : forall outs vs is' d r k d' r' k', inv_any lits d r k -> outs_ok_any kd vs is' ->
  store xs d outs is' = Ok d' -> assign jvar_eqb r outs vs = Some r' -> assign jvar_eqb k outs (map (fun _ => kd) vs) = Some k' -> inv_any lits d' r' k'.
Proof.
  induction outs as [|u outs IH]; intros vs is' d r k d' r' k' HI HO HS Hr Hk; destruct HO as [|v i vs is' Hv HO]; simpl in *; try discriminate.
  - injection HS as <-. injection Hr as <-. injection Hk as <-. auto.
  - destruct u as [n|n|]; [|discriminate|].
    + destruct (dlookup d n); [discriminate|]. apply bind_ok in HS. destruct HS as (_ & _ & HS).
      refine (IH _ _ _ _ _ _ _ _ _ HO HS Hr Hk). destruct HI as [HL HV]. split; [intros m; exact (HL m)|]. intros m j Hj. simpl in Hj |- *.
      destruct (n =? m)%nat; [injection Hj as <-; eauto|]. exact (HV m j Hj).
    + refine (IH _ _ _ _ _ _ _ _ _ HO HS Hr Hk). destruct HI as [HL HV]. split; [intros m; exact (HL m)|exact HV].
Qed.

Lemma consts_teq_any ks vs args ts : args_ok_any X D z ks vs args -> mapM constant_value args = Ok ts -> Forall2 teq ts vs.
Proof.
  intros H. revert ts. induction H as [|k v i ks vs is' (N1 & A1 & R1) H IH]; intros ts HT; cbn [mapM] in HT.
  - injection HT as <-. constructor.
  - apply bind_ok in HT. destruct HT as (t & Ht & HT). apply bind_ok in HT. destruct HT as (ts' & Hts & HT). injection HT as <-.
    constructor; auto. unfold constant_value in Ht. destruct (i_enc i) as [|[t'|] [|]] eqn:E; try discriminate. injection Ht as ->.
    exact (holds_arr X z k v t N1 (proj1 A1)).
Qed.
Lemma some_nonconst_any ks vs args : args_ok_any X D z ks vs args -> existsb (fun i => negb (is_constant i)) args = true -> forallb is_const ks = false.
Proof.
  induction 1 as [|k v i ks vs is' (N1 & A1 & R1) H IH]; simpl; intros E; [discriminate|]. apply orb_prop in E. destruct E as [E|E].
  - destruct k; auto. destruct A1 as ((t & Et & _) & _). unfold is_constant in E. rewrite Et in E. discriminate.
  - rewrite IH by auto. apply andb_false_r.
Qed.
Lemma two_nonconst_any ks vs args : args_ok_any X D z ks vs args -> existsb two ks = true -> (1 <= D)%nat -> existsb (fun i => negb (is_constant i)) args = true.
Proof.
  intros H K HD. induction H as [|k v i ks vs is' (N1 & A1 & R1) H IH]; simpl in *; [discriminate|]. apply orb_prop in K. destruct K as [K|K]; [|rewrite IH, orb_true_r; auto].
  pose proof (psize_two _ _ K (approx_psize X D z k v _ HD A1)) as L. unfold is_constant. destruct (i_enc i) as [|[t|] [|]]; auto. simpl in L. lia.
Qed.
Lemma consts_nonempty (ts vs : list (tensor R)) : Forall2 teq ts vs -> Forall (fun a => exists s, valid (tshape a) s) vs -> Forall (fun a => exists s, valid (tshape a) s) ts.
Proof. induction 1 as [|t v ts vs [E _] H IH]; intros HN; inversion HN; subst; constructor; auto. rewrite E. auto. Qed.
Lemma args_nonempty_any ks vs args : args_ok_any X D z ks vs args -> Forall (fun a => exists s, valid (tshape a) s) vs.
Proof. induction 1 as [|k v i ks vs is' (N1 & _) H IH]; constructor; auto. Qed.

Lemma prim_eval_bind p ts rs : prim_eval sc p ts = Ok rs -> prim_bind sc p ts = Ok rs.
Proof. destruct p as [| | | | | | | | | | |e| | | | | | |]; try exact (fun H => H). destruct e; try exact (fun H => H); discriminate. Qed.
Lemma step_ok_any prop lits d r k o d' args ks vals kd r' k' : inv_any lits d r k -> prim_gens_anywhere sc gs (odata o) -> opaque_ok (odata o) ->
  lookups r (oins o) = Some args -> lookups k (oins o) = Some ks -> prim_bind sc (odata o) args = Ok vals ->
  forallb (fun v => nonempty (tshape v)) vals = true ->
  result_kind X D (odata o) (combine ks (map tshape args)) (map tshape vals) = Some kd ->
  assign jvar_eqb r (oouts o) vals = Some r' -> assign jvar_eqb k (oouts o) (map (fun _ => kd) vals) = Some k' ->
  step sc gs A A0 prop X lits d o = Ok d' -> inv_any lits d' r' k'.
Proof.
  intros HI HG HO Hr Hk HB HNv HK Ar Ak H. unfold step in H.
  apply bind_ok in H. destruct H as (ints & Hints & H). apply bind_ok in H. destruct H as (outs & Houts & H).
  pose proof (gets_ok_any lits d r k _ HI _ _ _ Hints Hr Hk) as HA.
  assert (HOut : outs_ok_any kd vals outs).
  { destruct (existsb _ ints) eqn:EC.
    - pose proof (some_nonconst_any _ _ _ HA EC) as NC.
      apply bind_ok in Houts. destruct Houts as (e & He & Houts).
      destruct (negb _) eqn:EL in Houts; [discriminate|]. apply negb_false_iff, Nat.eqb_eq in EL.
      apply bind_ok in Houts. destruct Houts as (rg & Hrg & Houts). injection Houts as <-.
      destruct vals as [|v [|v' vals]].
      { destruct (oouts o); simpl in *; discriminate. }
      2:{ destruct (oouts o) as [|? [|]]; simpl in *; discriminate. }
      simpl in HNv. rewrite andb_true_r in HNv. pose proof (nonempty_valid _ HNv) as NV.
      assert (HE : approx kd X D z v e) by (exact (pushforward_ok_any X tr D z Htr sc gs HX _ _ _ _ _ _ _ HG HO HA NV NC HB HK He)).
      constructor; [|constructor]. split; auto. split; [exact HE|]. simpl.
      destruct prop; [|injection Hrg as <-; exact I]. apply bind_ok in Hrg. destruct Hrg as (rg' & Hrg & E). injection E as <-.
      exact (region_step_any _ _ _ _ _ _ _ _ HG HO HA NV NC HB HK HE Hrg).
    - apply bind_ok in Houts. destruct Houts as (ts & Hts & Houts). apply bind_ok in Houts. destruct Houts as (rs & Hrs & Houts). injection Houts as <-.
      apply prim_eval_bind in Hrs. pose proof (consts_teq_any _ _ _ _ HA Hts) as HT.
      pose proof (prim_bind_teq sc _ _ _ _ _ HO (consts_nonempty _ _ HT (args_nonempty_any _ _ _ HA)) HT Hrs HB) as HF.
      assert (H2 : two kd = true -> D = 0%nat).
      { intros K. destruct (Nat.eq_dec D 0) as [E|E]; auto. exfalso.
        assert (two_nonconst' : existsb (fun i => negb (is_constant i)) ints = true).
        { apply (two_nonconst_any _ _ _ HA); [|lia]. refine (result_kind_two _ _ _ _ _ _ _ _ HK K). rewrite map_length. exact (proj1 (args_length_any _ _ _ HA)). }
        congruence. }
      clear -HF HNv H2. induction HF as [|t v ts vs E HF IH]; simpl in *; constructor; apply andb_prop in HNv; destruct HNv as [N1 N2]; auto.
      apply const_arg_ok_any; auto. apply nonempty_valid; auto. }
  exact (store_ok_any lits kd X _ _ _ _ _ _ _ _ _ HI HOut H Ar Ak).
Qed.

Lemma run_ok_any prop lits ops : forall d r k d' k', inv_any lits d r k -> (forall o, In o ops -> prim_gens_anywhere sc gs (odata o)) -> (forall o, In o ops -> opaque_ok (odata o)) ->
  analyse sc X D r k ops = Some k' -> foldM (step sc gs A A0 prop X lits) d ops = Ok d' ->
  exists r', run (fun p args => ok_opt (prim_bind sc p args)) jvar_eqb r ops = Some r' /\ inv_any lits d' r' k'.
Proof.
  induction ops as [|o ops IH]; intros d r k d' k' HI HG HO HA H; simpl in HA, H |- *.
  - injection HA as <-. injection H as <-. eauto.
  - apply bind_ok in H. destruct H as (d1 & H1 & H).
    destruct (lookups r (oins o)) as [args|] eqn:Er; [|discriminate]. destruct (lookups k (oins o)) as [ks|] eqn:Ek; [|discriminate].
    destruct (prim_bind sc (odata o) args) as [vals|] eqn:EB; [|discriminate]. destruct (forallb _ vals) eqn:EN; [|discriminate].
    destruct (result_kind _ _ _ _ _) as [kd|] eqn:EK; [|discriminate]. destruct (assign jvar_eqb r (oouts o) vals) as [r1|] eqn:A1; [|discriminate].
    destruct (assign jvar_eqb k (oouts o) _) as [k1|] eqn:A2; [|discriminate].
    unfold run_op. rewrite Er, EB. simpl. rewrite A1.
    refine (IH d1 r1 k1 d' k' _ _ _ HA H); [|intros; apply HG; right; auto|intros; apply HO; right; auto].
    exact (step_ok_any prop lits d r k o d1 args ks vals kd r1 k1 HI (HG o (or_introl eq_refl)) (HO o (or_introl eq_refl)) Er Ek EB EN EK A1 A2 H1).
Qed.
End Run.

(** ** The whole run *)
Lemma init_ok_any X D z lits i n x : arg_ok_any X D z KLin x i -> forall vars cs d r k d' r' k', inv_any X D z lits d r k ->
  length cs = length vars -> Forall (fun c => nonempty (tshape c) = true) cs ->
  foldM (fun d '(v, c) => match v with Var n => Ok ((n, constant_inter c) :: d) | _ => Err Unmodelled end) d (combine vars cs) = Ok d' ->
  assign jvar_eqb r (vars ++ [Var n]) (cs ++ [x]) = Some r' -> assign jvar_eqb k (vars ++ [Var n]) (map (fun _ => KConst) cs ++ [KLin]) = Some k' ->
  inv_any X D z lits ((n, i) :: d') r' k'.
Proof.
  intros Hi. induction vars as [|v vars IH]; intros cs d r k d' r' k' HI HL HN HF Hr Hk; destruct cs as [|c cs]; simpl in HL; try discriminate.
  - simpl in *. injection HF as <-. injection Hr as <-. injection Hk as <-. destruct HI as [HLi HV]. split; [intros m; exact (HLi m)|].
    intros m j Hj. simpl in Hj |- *. destruct (n =? m)%nat; [injection Hj as <-; eauto|]. exact (HV m j Hj).
  - inversion HN as [|? ? Nc Ncs]; subst. cbn [combine foldM] in HF. apply bind_ok in HF. destruct HF as (d1 & H1 & HF). destruct v as [m|m|]; try discriminate. injection H1 as <-.
    simpl in Hr, Hk. refine (IH cs _ _ _ d' r' k' _ _ _ HF Hr Hk); [|lia|auto]. destruct HI as [HLi HV]. split; [intros p; exact (HLi p)|].
    intros p j Hj. simpl in Hj |- *. destruct (m =? p)%nat; [|exact (HV p j Hj)]. injection Hj as <-. exists c, KConst. split; auto. split; auto.
    apply const_arg_ok_any; [discriminate|apply teq_refl|apply nonempty_valid; auto].
Qed.

Lemma interpret_ok_any sc gs pr consts max_deg propagate x0 region x d :
  (forall o, In o (gops (p_graph pr)) -> prim_gens_anywhere sc gs (odata o)) -> (forall o, In o (gops (p_graph pr)) -> opaque_ok (odata o)) ->
  in_box x0 region x -> supported sc (tshape x0) (Z.to_nat max_deg) pr consts x ->
  interpret sc gs pr consts max_deg propagate x0 region = Ok d ->
  exists r r' k', (0 <= max_deg)%Z /\
    assign jvar_eqb (lit_value (p_lits pr)) (gdata (p_graph pr) ++ gins (p_graph pr)) (consts ++ [x]) = Some r /\
    run (fun p args => ok_opt (prim_bind sc p args)) jvar_eqb r (gops (p_graph pr)) = Some r' /\
    inv_any (tshape x0) (Z.to_nat max_deg) (fun J => tdata x J - tdata x0 J) (p_lits pr) d r' k'.
Proof.
  intros HG HO B (HNx & HNc & HNl & r & k & k' & Hr & Hk & HA) H. unfold interpret in H.
  destruct (max_deg <? 0)%Z eqn:EM; [discriminate|]. apply Z.ltb_ge in EM. set (D := Z.to_nat max_deg) in *. clearbody D.
  destruct B as (Sx & S1 & S2 & B).
  apply bind_ok in H. destruct H as (t & Ht & H). apply bind_ok in H. destruct H as (tr & Htr & H). apply bind_ok in H. destruct H as (AA & HAA & H).
  apply bind_ok in H. destruct H as (AA0 & HAA0 & H). apply bind_ok in H. destruct H as (eye & Heye & H).
  apply bind_ok in H. destruct H as (u0 & Hlen & H). apply bind_ok in H. destruct H as (invar & Hin & H). apply bind_ok in H. destruct H as (d0 & Hd0 & H).
  cbn [isub] in Ht. apply bind_ok in Ht. destruct Ht as (tl & Htl & Ht). apply bind_ok in Ht. destruct Ht as (th & Hth & Ht). injection Ht as <-. injection Htr as <-.
  pose proof (tmap2_same_ok _ _ _ _ (tshape x0) Htl S1 eq_refl) as [Stl Etl]. pose proof (tmap2_same_ok _ _ _ _ (tshape x0) Hth S2 eq_refl) as [Sth Eth].
  unfold make_arith in HAA, HAA0. destruct (shape_eqb _ _) in HAA; [|discriminate]. injection HAA as <-. destruct (shape_eqb _ _) in HAA0; [|discriminate]. injection HAA0 as <-.
  assert (RZ : in_region (tshape x0) (tl, th) (fun J => tdata x J - tdata x0 J)).
  { split; [auto|]. split; [auto|]. intros J HJ. simpl. rewrite Etl, Eth by auto. simpl. specialize (B J HJ). lra. }
  destruct (length consts =? length (gdata (p_graph pr)))%nat eqn:EL; [|discriminate]. apply Nat.eqb_eq in EL.
  destruct (gins (p_graph pr)) as [|[n| |] [|]] eqn:EI; try discriminate. injection Hin as <-.
  assert (HI : inv_any (tshape x0) D (fun J => tdata x J - tdata x0 J) (p_lits pr)
     ((n, Inter (if (0 <? D)%nat then [Arr x0; Arr eye] else [Ivl (fst region) (snd region)]) (if (if (D =? 0)%nat then false else propagate) then Some region else None)) :: d0) r k).
  { refine (init_ok_any _ _ _ _ _ n x _ (gdata (p_graph pr)) consts [] _ _ d0 r k _ EL HNc Hd0 Hr Hk).
    - split; [apply nonempty_valid; auto|]. simpl. split.
      + destruct D as [|D']; [apply x0_approx0; repeat split; auto; apply B; auto|]. apply x0_approx; auto. lia.
      + destruct (Nat.eqb_spec D 0) as [->|HD]; [exact I|]. destruct propagate; [|exact I]. unfold region_any. destruct region as [l h]. simpl in *. rewrite Sx.
        split; auto.
    - split; [|intros m i Hm; discriminate]. intros m. split; [apply HNl|]. split; reflexivity. }
  destruct (run_ok_any (tshape x0) (tl, th) D _ RZ sc gs (identity_rank _ _ Heye) _ (p_lits pr) (gops (p_graph pr)) _ r k d k' HI HG HO HA H) as (r' & Hrun & HI').
  exists r, r', k'. auto.
Qed.
Lemma output_ok_any sc gs pr consts max_deg propagate x0 region x b :
  (forall o, In o (gops (p_graph pr)) -> prim_gens_anywhere sc gs (odata o)) -> (forall o, In o (gops (p_graph pr)) -> opaque_ok (odata o)) ->
  in_box x0 region x -> supported sc (tshape x0) (Z.to_nat max_deg) pr consts x ->
  taylor_bounds sc gs pr consts max_deg propagate x0 region = Ok b ->
  exists y k, meaning sc pr consts x = Some [y] /\ tb_x0 b = x0 /\ tb_region b = region /\ (exists s, valid (tshape y) s) /\ (0 <= max_deg)%Z /\
    approx k (tshape x0) (Z.to_nat max_deg) (fun J => tdata x J - tdata x0 J) y (tb_coefficients b).
Proof.
  intros HG HO B HS H. unfold taylor_bounds in H.
  apply bind_ok in H. destruct H as (d & Hd & H). apply bind_ok in H. destruct H as (ov & Hov & H). apply bind_ok in H. destruct H as (i & Hi & H). injection H as <-.
  destruct (interpret_ok_any _ _ _ _ _ _ _ _ _ _ HG HO B HS Hd) as (r & r' & k' & HM & Hr & Hrun & HI).
  destruct (gouts (p_graph pr)) as [|v [|]] eqn:EO; try discriminate. injection Hov as ->.
  assert (HV : exists y kd, r' ov = Some y /\ arg_ok_any (tshape x0) (Z.to_nat max_deg) (fun J => tdata x J - tdata x0 J) kd y i).
  { destruct ov as [n|n|]; [| |discriminate].
    - simpl in Hi. destruct (dlookup d n) as [i'|] eqn:E; [|discriminate]. injection Hi as ->. destruct (proj2 HI n i E) as (v & kd & E1 & _ & E3). eauto.
    - destruct (proj1 HI n) as (N1 & E1 & E2). exists (p_lits pr n), KConst. split; auto. exact (get_ok_any _ _ _ _ _ _ _ _ _ _ _ HI Hi E1 E2). }
  destruct HV as (y & kd & Ey & (Ny & Ay & _)). exists y, kd. split; [|auto 10].
  unfold meaning, run_graph. simpl. rewrite Hr, Hrun, EO. simpl. rewrite Ey. reflexivity.
Qed.
