(** The pushforward functions, continued: bilinear operations, pass-through
    primitives, and the table as a whole. *)
From Coq Require Import Reals Lra Psatz FunctionalExtensionality.
From Verif Require Import Base Tensor IntervalArith Polynomials Enclosure TensorLemmas Spec IntervalProofs PowerProofs PolyProofs Graded
  EnclosureOps EnclosureProofs BilinearProofs ComposeProofs PropEnclosure PropDegree JaxBound JaxSpec JaxLemmas JaxIndex JaxGather JaxPush JaxDot ConvIndex ConvProofs JaxSize JaxOps.
Open Scope R_scope.

(** ** Bilinear operations *)
Lemma foldM_ext {A B} (f g : A -> B -> res A) l : (forall x b, In b l -> f x b = g x b) -> forall x, foldM f x l = foldM g x l.
Proof.
  induction l as [|b l IH]; intros H x; simpl; auto. rewrite H by (left; auto). destruct (g x b); simpl; auto. apply IH. intros; apply H; right; auto.
Qed.
Lemma enumerate_in {A} (l : list A) : forall k i x, In (i, x) (enumerate_from k l) -> (k <= i < k + length l)%nat.
Proof.
  induction l as [|y l IH]; intros k i x H; simpl in *; [tauto|]. destruct H as [[= <- <-]|H]; [lia|]. apply IH in H. lia.
Qed.
Lemma ebil_congr {T} {N : Num T} (A : arith T) a b pbb pbb' :
  (forall u v i q, (i < length a)%nat -> pbb u v (i * tndim (fst (trust_region A)))%nat q = pbb' u v (i * tndim (fst (trust_region A)))%nat q) ->
  earbitrary_bilinear A a b pbb = earbitrary_bilinear A a b pbb'.
Proof.
  intros H. unfold earbitrary_bilinear. apply foldM_ext. intros o (i, x) Hi. apply enumerate_in in Hi. apply foldM_ext. intros o' (j, y) Hj.
  f_equal. unfold term_enclosure_coefficient. destruct (_ <=? _)%nat.
  - f_equal. apply functional_extensionality; intros u; apply functional_extensionality; intros v. apply H. lia.
  - f_equal. apply functional_extensionality; intros pi. f_equal. apply functional_extensionality; intros c0. f_equal. apply functional_extensionality; intros c1.
    f_equal. apply functional_extensionality; intros u; apply functional_extensionality; intros v. apply H. lia.
Qed.

Lemma one_res_inv {T} (r : res (tensor T)) v : one_res r = Ok [v] -> r = Ok v.
Proof. destruct r; simpl; congruence. Qed.

Section Fixed.
Variables (X : list nat) (tr : tensor R * tensor R) (D : nat) (z : list nat -> R).
Hypothesis Htr : in_region X tr z.
Hypothesis Htr0 : in_region X tr (fun _ => 0).
Let A := mkArith D tr.

Lemma bilinear_ok terms pbb a b v c ka kb ea eb :
  pos_terms (tshape a) (tshape b) (tshape v) terms -> pairwise_batched (tshape a) (tshape b) (tshape v) terms pbb ->
  (exists s, valid (tshape a) s) -> (exists s, valid (tshape b) s) -> is_cast ka = false -> is_cast kb = false ->
  (forall s, valid (tshape v) s -> wsum (terms s) (tdata a) (tdata b) = tdata v s) ->
  is_const ka && is_const kb = false ->
  approx ka X D z a ea -> approx kb X D z b eb -> earbitrary_bilinear A ea eb pbb = Ok c -> approx (prod_kind ka kb) X D z v c.
Proof.
  intros HT HB Na Nb NKa NKb Ev NC (Ha & Pa & La & Za) (Hb & Pb & Lb & Zb) H.
  assert (E : is_cast ka || is_cast kb = false) by (rewrite NKa, NKb; reflexivity).
  apply approx_up; try (unfold prod_kind; rewrite E; repeat match goal with |- context [if ?x then _ else _] => destruct x end; first [discriminate|reflexivity]).
  2: { intros HD. exact (bil_psize A HD ka kb ea eb pbb c (Za HD) (Zb HD) NC H). }
  apply (mk_full X D z) with (f := fun s => wsum (terms s) (tdata a) (tdata b)); auto.
  - exact (C18_bilinear_sound _ _ _ terms pbb X tr D ea eb z _ _ c HT HB Na Nb Htr (holds_full X z ka a ea NKa Ha) (holds_full X z kb b eb NKb Hb) H).
  - exact (ebil_plain A _ _ _ _ H Pa Pb).
Qed.

Lemma dot_ok' lc rc lb rb a b v c ka kb ea eb :
  (exists s, valid (tshape a) s) -> (exists s, valid (tshape b) s) -> is_cast ka = false -> is_cast kb = false ->
  (length lb = 0 \/ length X = 0 \/ length ea <= 1)%nat ->
  dot_general lc rc lb rb a b = Ok v -> is_const ka && is_const kb = false ->
  approx ka X D z a ea -> approx kb X D z b eb -> earbitrary_bilinear A ea eb (dot_pbb lc rc lb rb) = Ok c -> approx (prod_kind ka kb) X D z v c.
Proof.
  intros Na Nb NKa NKb HC Hv NC Ha Hb H. destruct (dot_ok _ _ _ _ _ _ _ Hv) as (HD & Sv & Ev).
  rewrite (ebil_congr A ea eb _ (dot_pbb' lc rc lb rb)) in H.
  - refine (bilinear_ok (dot_terms lc rc lb rb (tshape a) (tshape b)) _ a b v c ka kb ea eb _ _ Na Nb NKa NKb _ NC Ha Hb H); rewrite Sv.
    + apply dot_pos_terms; auto.
    + apply dot_batched; auto.
    + intros s _. symmetry. apply Ev.
  - intros u w i q Hi. unfold dot_pbb'. unfold A. cbn [trust_region]. rewrite (tr_ndim X z tr Htr).
    destruct (Nat.eqb_spec (length lb) 0); [reflexivity|]. destruct (Nat.eqb_spec (i * length X) 0); [reflexivity|]. exfalso. nia.
Qed.

Lemma conv_ok g a b v c ka kb ea eb :
  (exists s, valid (tshape a) s) -> (exists s, valid (tshape b) s) -> is_cast ka = false -> is_cast kb = false ->
  conv_general_dilated g a b = Ok v -> is_const ka && is_const kb = false ->
  approx ka X D z a ea -> approx kb X D z b eb -> earbitrary_bilinear A ea eb (conv_pbb g) = Ok c -> approx (prod_kind ka kb) X D z v c.
Proof.
  intros Na Nb NKa NKb Hv NC Ha Hb H. pose proof (conv_ok_inv _ _ _ _ Hv) as (_ & Sv & Ev).
  refine (bilinear_ok (conv_terms g (tshape a) (tshape b)) _ a b v c ka kb ea eb _ _ Na Nb NKa NKb _ NC Ha Hb H).
  - rewrite Sv. apply conv_pos.
  - apply conv_batched; auto.
  - intros s Hs. symmetry. auto.
Qed.

(** ** Pass-through primitives *)
Lemma convert_coef (P : nat -> list nat -> Prop) s i c c' v : contributes P X z s i c v -> map_coef (gather g_convert) c = Ok c' -> contributes P X z s i c' v.
Proof.
  intros (p & Hp & W & B & HB & ->) H. exists p. split; auto.
  destruct c as [t|l h]; simpl in H, W; injection H as <-.
  - split; auto. exists B. split; auto. intros J HJ. specialize (HB J HJ). simpl in *. lra.
  - split; auto. exists B. split; auto. intros J HJ. specialize (HB J HJ). simpl in *. lra.
Qed.
Lemma convert_encloses (P : nat -> list nat -> Prop) S e e' f : encloses P X S e z f -> map_over_enclosure e (gather g_convert) = Ok e' -> encloses P X S e' z f.
Proof.
  intros [Hne He] H. split.
  - intros ->. apply mapM_length in H. destruct e; [congruence|discriminate].
  - intros s Hs. specialize (He s Hs). revert e' H He. generalize (f s). generalize 0%nat. clear Hne. induction e as [|c e IH]; intros k v e' H He; unfold map_over_enclosure in H; cbn [mapM] in H.
    + injection H as <-. auto.
    + ok_inv. subst. destruct He as (u & w & H1 & H2 & ->). exists u, w. split; [eapply convert_coef; eauto|]. split; auto.
Qed.
Lemma map_over_pd e e' (g : tensor R -> res (tensor R)) : map_over_enclosure e g = Ok e' -> plain_below D e -> (length e <= D + 1)%nat -> degree_le D e' /\ plain_below D e'.
Proof. intros H P L. split; [unfold degree_le; rewrite (mapM_length _ _ _ H); auto|]. eapply map_over_plain; eauto. Qed.

Lemma convert_ok a v c ka ea : ka <> KConst -> gather g_convert a = Ok v -> approx ka X D z a ea -> map_over_enclosure ea (gather g_convert) = Ok c -> approx ka X D z v c.
Proof.
  intros NK Hv (Ha & Pa & La & Za) H. pose proof (map_over_pd _ _ _ H Pa La) as PD. unfold gather in Hv. simpl in Hv. injection Hv as <-.
  assert (PS : (1 <= D)%nat -> psize ka c) by (intros HD; exact (map_psize _ _ _ _ (Za HD) H)).
  destruct ka; [congruence| | | | |].
  4: { destruct Ha as [Ha HR]. split; [split|split; [apply PD|split; [apply PD|exact PS]]].
       - apply encloses_ext with (f := tdata a); [intros; simpl; lra|]. exact (convert_encloses _ _ _ _ _ Ha H).
       - intros i y Hy. destruct (mapM_nth _ _ _ _ _ H Hy) as (x & Hx & Hf). transitivity (indim x); [destruct x; simpl in Hf; injection Hf as <-; reflexivity|exact (HR i x Hx)]. }
  4: { apply mk_cast with (f := tdata a); auto; [|intros; simpl; lra]. exact (convert_encloses _ _ _ _ _ Ha H). }
  all: apply approx_up; try discriminate; auto; apply mk_full with (f := tdata a); auto; [|intros; simpl; lra]; exact (convert_encloses _ _ _ _ _ Ha H).
Qed.

Lemma gather_ok' g a v c ka ea : (exists s, valid (tshape a) s) -> ka <> KConst -> is_cast ka = false -> lin_ok X (length ea) g (tshape a) (tshape v) ->
  gather g a = Ok v -> approx ka X D z a ea -> map_over_enclosure ea (gather g) = Ok c -> approx ka X D z v c.
Proof.
  intros Na NC NK HL Hv (Ha & Pa & La & Za) H. apply approx_up; auto.
  - apply mk_full with (f := tdata v); auto; [|exact (map_over_pd _ _ _ H Pa La)].
    exact (gather_push X g a v ea c z Na Hv HL (holds_full X z ka a ea NK Ha) H).
  - intros HD. exact (map_psize _ _ _ _ (Za HD) H).
Qed.

Lemma enumerate_nth {B} (l : list B) : forall k i j x, nth_error (enumerate_from k l) i = Some (j, x) -> j = (k + i)%nat /\ nth_error l i = Some x.
Proof. induction l as [|w l IH]; intros k [|i] j x Hx; simpl in *; try discriminate; [injection Hx as <- <-; split; auto; lia|]. apply IH in Hx. destruct Hx. split; auto. lia. Qed.
Lemma enumerate_length {B} (l : list B) : forall k, length (enumerate_from k l) = length l.
Proof. induction l; simpl; auto. Qed.
Lemma broadcast_ok sh bd a v c ka ea : (exists s, valid (tshape a) s) -> ka <> KConst -> is_cast ka = false ->
  gather (g_broadcast_in_dim sh bd) a = Ok v -> approx ka X D z a ea -> push_broadcast sh bd ea = Ok c -> approx ka X D z v c.
Proof.
  intros Na NC NK Hv (Ha & Pa & La & Za) H. destruct (broadcast_push X sh bd a v ea c z Na Hv (holds_full X z ka a ea NK Ha) H) as [L HE].
  unfold push_broadcast in H. apply bind_ok in H. destruct H as (x0 & _ & H). apply bind_ok in H. destruct H as (xs & _ & H).
  assert (HN : forall i y, nth_error c i = Some y -> exists f x, nth_error ea i = Some x /\ map_coef f x = Ok y).
  { intros i y Hy. destruct (mapM_nth _ _ _ _ _ H Hy) as ((j, x) & Hx & Hf). apply enumerate_nth in Hx. destruct Hx as [-> Hx]. eauto. }
  apply approx_up; auto.
  - apply mk_full with (f := tdata v); auto. split; [unfold degree_le; lia|].
    intros i y Hi Hy. destruct (HN i y Hy) as (f & x & Hx & Hf). eapply map_coef_arr; eauto.
  - intros HD. specialize (Za HD). pose proof (psize_ne _ _ Za) as NE. destruct ka; simpl; try congruence; try discriminate.
    + destruct (psize_small KLin ea eq_refl Za) as [L2 P2]. apply psize_lin; [simpl in L2; lia|].
      intros i y Hi Hy. destruct (HN i y Hy) as (f & x & Hx & Hf). destruct (P2 i x Hi Hx) as [t ->]. eapply map_coef_is_arr; eauto.
    + simpl in Za. lia.
    + intros ->. destruct ea; [congruence|discriminate].
Qed.

(** ** The table *)
Variables (sc : scalars R) (gs : generators R).
Variable Q : nat -> R -> R -> Prop.
Hypothesis HQ : Q = always \/ Q = at_centre /\ z = (fun _ => 0).
Hypothesis HX : (length X <= 1)%nat.

Definition arg_ok (k : kind) (v : tensor R) (i : inter R) : Prop :=
  (exists s, valid (tshape v) s) /\ approx k X D z v (i_enc i) /\ region_ok v (i_enc i) (i_tr i).

Inductive args_ok : list kind -> list (tensor R) -> list (inter R) -> Prop :=
| ao_nil : args_ok [] [] []
| ao_cons k v i ks vs is' : arg_ok k v i -> args_ok ks vs is' -> args_ok (k :: ks) (v :: vs) (i :: is').

Lemma unless_cast_inv k r r' : unless_cast k r = Some r' -> is_cast k = false /\ r' = r.
Proof. destruct k; simpl; intros [= <-]; split; congruence || reflexivity. Qed.
Lemma unless_cast_array_inv Y k r r' : unless_cast_array Y k r = Some r' -> (is_cast k = false \/ Y = []) /\ r' = r.
Proof.
  unfold unless_cast_array. destruct (is_cast k) eqn:E; simpl; intros H.
  - destruct Y; simpl in H; [|discriminate]. injection H as <-. auto.
  - injection H as <-. split; auto.
Qed.
Lemma not_const_1 k : is_const k && true = false -> k <> KConst.
Proof. destruct k; discriminate. Qed.

Lemma pushforward_ok p ks vs args e v k : prim_gens_ok Q sc gs p -> opaque_ok p -> args_ok ks vs args ->
  (exists s, valid (tshape v) s) -> forallb is_const ks = false ->
  prim_bind sc p vs = Ok [v] -> result_kind X D p (combine ks (map tshape vs)) [tshape v] = Some k ->
  pushforward gs A p args = Ok e -> approx k X D z v e.
Proof.
  intros HG HO HA NV NC HB HK HP.
  assert (HE : forallb (fun a : kind * list nat => is_const (fst a)) (combine ks (map tshape vs)) = false).
  { rewrite <- NC. clear -HA. induction HA; simpl; auto. rewrite IHHA. reflexivity. }
  unfold result_kind in HK. rewrite HE in HK. clear HE.
  inversion HA as [|k1 v1 i1 ks1 vs1 is1 H1 HA1]; subst; [discriminate|].
  inversion HA1 as [|k2 v2 i2 ks2 vs2 is2 H2 HA2]; subst.
  - (* one operand *)
    destruct H1 as (N1 & A1 & R1). simpl in NC. rewrite andb_true_r in NC.
    assert (NK1 : k1 <> KConst) by (destruct k1; discriminate).
    destruct p; cbn -[gather] in HB, HK, HP; try discriminate.
    + (* neg *) injection HK as <-. injection HB as <-. exact (neg_ok X tr D z Htr v1 e k1 _ NK1 N1 A1 HP).
    + (* integer_pow *) unfold epower in HP. destruct (y <? 0)%Z eqn:EN; [destruct (0 <=? y)%Z eqn:EY; [exfalso; apply Z.leb_le in EY; apply Z.ltb_lt in EN; lia|]|].
      2: { assert (EY : (0 <=? y)%Z = true) by (apply Z.leb_le; apply Z.ltb_ge in EN; lia). rewrite EY in HB, HP.
        injection HK as <-. injection HB as <-. pose proof (ipow_ok X tr D z Htr v1 e k1 _ _ N1 A1 HP) as K. unfold pow_kind in K.
        replace (Z.to_nat y =? 0)%nat with (y =? 0)%Z in K; [exact K|]. apply Z.leb_le in EY. destruct (Z.eqb_spec y 0) as [->|]; [reflexivity|]. symmetry. apply Nat.eqb_neq. lia. }
      * apply unless_cast_array_inv in HK. destruct HK as [NK ->]. apply one_res_inv in HB. rename HB into Hb.
        destruct (tmapM_ok _ _ _ Hb) as [Sv Ev].
        apply (elem_ok X tr D z Htr Htr0 Q HQ (gen_ipow gs y) (fun x => s_ipow sc x y) k1 v1 v (i_enc i1) e None); simpl; auto.
        { apply HG. apply Z.leb_gt in EY. lia. }
        { apply bind_ok in HP. destruct HP as (_ & _ & HP). exact HP. }
    + (* broadcast_in_dim *) apply unless_cast_inv in HK. destruct HK as [NK ->]. apply one_res_inv in HB. rename HB into Hb.
      exact (broadcast_ok _ _ _ _ _ _ _ N1 NK1 NK Hb A1 HP).
    + (* elementwise *) apply unless_cast_array_inv in HK. destruct HK as [NK ->]. apply one_res_inv in HB. rename HB into Hb.
      destruct (tmapM_ok _ _ _ Hb) as [Sv Ev].
      exact (elem_ok X tr D z Htr Htr0 Q HQ _ _ k1 v1 v (i_enc i1) e (i_tr i1) HG NK N1 Sv Ev A1 R1 HP).
    + (* convert *) injection HK as <-. assert (Hb : gather g_convert v1 = Ok v) by (injection HB as HB; rewrite <- HB; reflexivity). exact (convert_ok _ _ _ _ _ NK1 Hb A1 HP).
    + (* reshape *) destruct (_ && _) eqn:EX in HK; [discriminate|]. apply unless_cast_inv in HK. destruct HK as [NK ->]. apply one_res_inv in HB. rename HB into Hb.
      refine (gather_ok' _ _ _ _ _ _ N1 NK1 NK _ Hb A1 HP). apply lin_reshape; auto.
      * intros ->. simpl in EX. apply negb_false_iff, Nat.eqb_eq in EX. destruct A1 as (_ & _ & L & _). lia.
      * apply gather_ok in Hb. tauto.
    + apply unless_cast_inv in HK. destruct HK as [NK ->]. apply one_res_inv in HB. rename HB into Hb.
      refine (gather_ok' _ _ _ _ _ _ N1 NK1 NK _ Hb A1 HP). apply lin_reduce_sum. apply gather_ok in Hb. tauto.
    + apply unless_cast_inv in HK. destruct HK as [NK ->]. apply one_res_inv in HB. rename HB into Hb.
      refine (gather_ok' _ _ _ _ _ _ N1 NK1 NK _ Hb A1 HP). apply lin_window. apply gather_ok in Hb. tauto.
    + apply unless_cast_inv in HK. destruct HK as [NK ->]. apply one_res_inv in HB. rename HB into Hb.
      refine (gather_ok' _ _ _ _ _ _ N1 NK1 NK _ Hb A1 HP). apply lin_squeeze. apply gather_ok in Hb. tauto.
    + apply unless_cast_inv in HK. destruct HK as [NK ->]. apply one_res_inv in HB. rename HB into Hb.
      refine (gather_ok' _ _ _ _ _ _ N1 NK1 NK _ Hb A1 HP). apply lin_transpose. apply gather_ok in Hb. tauto.
  - inversion HA2 as [|]; subst; [|destruct p; cbn in HK; discriminate].
    destruct H1 as (N1 & A1 & R1). destruct H2 as (N2 & A2 & R2). simpl in NC. rewrite andb_true_r in NC.
    destruct p; cbn -[gather] in HB, HK, HP; try discriminate.
    + (* add *) apply one_res_inv in HB. rename HB into Hb. injection HK as <-.
      exact (sum_ok X tr D z Htr (eadd A) Rplus v1 v2 v e k1 k2 _ _ (or_introl (conj eq_refl eq_refl)) N1 N2 NV Hb NC A1 A2 HP).
    + apply one_res_inv in HB. rename HB into Hb. injection HK as <-.
      exact (sum_ok X tr D z Htr (esubtract A) Rminus v1 v2 v e k1 k2 _ _ (or_intror (conj eq_refl eq_refl)) N1 N2 NV Hb NC A1 A2 HP).
    + apply one_res_inv in HB. rename HB into Hb. injection HK as <-. exact (mul_ok X tr D z Htr v1 v2 v e k1 k2 _ _ N1 N2 NV Hb NC A1 A2 HP).
    + apply unless_cast_array_inv in HK. destruct HK as [NK ->]. apply one_res_inv in HB. rename HB into Hb.
      exact (div_ok X tr D z Htr Htr0 Q HQ sc gs v1 v2 v e k1 k2 _ _ HG N1 N2 NV NK Hb A1 A2 HP).
    + (* pow *) destruct (shape_eqb _ _) eqn:ES in HK; [|discriminate]. apply shape_eqb_eq in ES. apply unless_cast_array_inv in HK. destruct HK as [NK ->].
      apply one_res_inv in HB. rename HB into Hb. unfold is_constant, constant_value in HP.
      destruct (i_enc i2) as [|[t|] [|]] eqn:E2; simpl in HP; try discriminate.
      exact (pow_ok X tr D z Htr Htr0 Q HQ sc gs v1 v2 v e k1 k2 _ t HG N1 N2 NK ES Hb A1 A2 HP).
    + (* dot_general *) destruct (is_cast k1 || is_cast k2) eqn:EC; [discriminate|]. apply orb_false_elim in EC. destruct EC as [EC1 EC2].
      destruct (_ || _) eqn:ED in HK; [|discriminate]. injection HK as <-. apply one_res_inv in HB. rename HB into Hb.
      refine (dot_ok' lc rc lb rb v1 v2 v e k1 k2 _ _ N1 N2 EC1 EC2 _ Hb NC A1 A2 HP).
      apply orb_prop in ED. destruct ED as [ED|ED].
      * apply orb_prop in ED. destruct ED as [ED|ED].
        -- apply orb_prop in ED. destruct ED as [ED|ED]; apply Nat.eqb_eq in ED; auto.
        -- apply Nat.eqb_eq in ED. right. right. destruct A1 as (_ & _ & L & _). lia.
      * right; right. destruct k1; try discriminate. destruct A1 as ((t & -> & _) & _). simpl. lia.
    + (* conv *) destruct (is_cast k1 || is_cast k2) eqn:EC; [discriminate|]. apply orb_false_elim in EC. destruct EC as [EC1 EC2]. injection HK as <-.
      apply one_res_inv in HB. rename HB into Hb.
      exact (conv_ok c v1 v2 v e k1 k2 _ _ N1 N2 EC1 EC2 Hb NC A1 A2 HP).
Qed.
End Fixed.
