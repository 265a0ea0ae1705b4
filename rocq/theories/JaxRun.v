(** The interpreter preserves the relation between enclosures and values. *)
From Coq Require Import Reals Lra Psatz FunctionalExtensionality.
From Verif Require Import Base Tensor IntervalArith Polynomials Enclosure TensorLemmas Spec IntervalProofs PowerProofs PolyProofs Graded
  EnclosureOps EnclosureProofs BilinearProofs ComposeProofs PropEnclosure PropDegree GraphEditor GraphSpec JaxBound JaxSpec JaxLemmas JaxIndex JaxGather JaxPush JaxDot ConvIndex ConvProofs JaxSize JaxOps JaxForward.
Open Scope R_scope.

(** ** Equal arrays give equal results *)
Lemma tmap2_teq (f : R -> R -> R) a a' b b' v v' : teq a a' -> teq b b' -> tmap2 f a b = Ok v -> tmap2 f a' b' = Ok v' -> teq v v'.
Proof.
  intros [Sa Ea] [Sb Eb] H H'. apply tmap2_ok in H, H'. destruct H as [H E], H' as [H' E']. rewrite Sa, Sb in H. rewrite H in H'. injection H' as HS.
  split; auto. intros s Hs. rewrite E, E'. unfold bget. destruct (bshape_spec _ _ _ H) as [C1 C2]. rewrite Sa, Sb. rewrite Ea, Eb; auto.
  - rewrite Sb. eapply bidx_compat_valid; eauto.
  - rewrite Sa. eapply bidx_compat_valid; eauto.
Qed.
Lemma tmap2M_teq (f : R -> R -> res R) a a' b b' v v' : teq a a' -> teq b b' -> tmap2M f a b = Ok v -> tmap2M f a' b' = Ok v' -> teq v v'.
Proof.
  intros [Sa Ea] [Sb Eb] H H'. apply tmap2M_ok in H, H'. destruct H as [H E], H' as [H' E']. rewrite Sa, Sb in H. rewrite H in H'. injection H' as HS.
  split; auto. intros s Hs. pose proof Hs as Hs'. rewrite HS in Hs'. specialize (E s Hs). specialize (E' s Hs'). unfold bget in *.
  destruct (bshape_spec _ _ _ H) as [C1 C2]. rewrite Sa, Sb, Ea, Eb in E; [congruence| |].
  - rewrite Sb. eapply bidx_compat_valid; eauto.
  - rewrite Sa. eapply bidx_compat_valid; eauto.
Qed.
Lemma tmapM_teq (f : R -> res R) a a' v v' : teq a a' -> tmapM f a = Ok v -> tmapM f a' = Ok v' -> teq v v'.
Proof.
  intros [Sa Ea] H H'. apply tmapM_ok in H, H'. destruct H as [S E], H' as [S' E']. split; [congruence|]. rewrite S. intros s Hs.
  pose proof Hs as Hs'. rewrite Sa in Hs'. specialize (E s Hs). specialize (E' s Hs'). rewrite Ea in E by auto. congruence.
Qed.
Lemma tmap_teq (f : R -> R) a a' : teq a a' -> teq (tmap f a) (tmap f a').
Proof. intros [S E]. split; auto. intros s Hs. simpl in *. rewrite E; auto. Qed.

Lemma gather_src_valid (p : prim R) g (a : tensor R) v : gather_of p = Some g -> (exists s, valid (tshape a) s) -> gather g a = Ok v ->
  forall s, valid (tshape v) s -> Forall (valid (tshape a)) (g_src g (tshape a) s).
Proof.
  intros Hg Na H. destruct (gather_ok _ _ _ H) as [HS _]. destruct p; simpl in Hg; try discriminate; injection Hg as <-.
  - simpl in HS. destruct (_ && _) eqn:E; [|discriminate]. injection HS as HS. subst shape. intros s Hs. simpl. constructor; [|constructor].
    repeat (apply andb_prop in E; destruct E as [E ?]). apply Nat.eqb_eq in E. apply bcast_in_dim_valid with (shape := tshape v); auto. apply forallb_lt_In; auto.
  - simpl in HS. injection HS as HS. rewrite <- HS. exact (proj1 (lin_convert [] 0 (tshape a))).
  - refine (proj1 (lin_reshape [] 0 new_sizes _ _ Na _ _ HS)); simpl; [lia|discriminate].
  - exact (proj1 (lin_reduce_sum [] 0 axes _ _ HS)).
  - exact (proj1 (lin_window [] 0 ws _ _ HS)).
  - exact (proj1 (lin_squeeze [] 0 dims _ _ HS)).
  - exact (proj1 (lin_transpose [] 0 perm _ _ HS)).
Qed.
Lemma gather_teq (p : prim R) g a a' v v' : gather_of p = Some g -> (exists s, valid (tshape a) s) -> teq a a' -> gather g a = Ok v -> gather g a' = Ok v' -> teq v v'.
Proof.
  intros Hg Na [Sa Ea] H H'. pose proof (gather_src_valid p g a v Hg Na H) as HV. apply gather_ok in H, H'. destruct H as [H E], H' as [H' E'].
  rewrite <- Sa in *. split; [congruence|]. intros s Hs. rewrite E, E'. f_equal. specialize (HV s Hs).
  induction HV; simpl; auto. rewrite Ea by auto. f_equal; auto.
Qed.
Lemma wsum_eq sa sb L x x' y y' : Forall (fun '(w, (ia, ib)) => 0 <= w /\ valid sa ia /\ valid sb ib) L ->
  (forall i, valid sa i -> x i = x' i) -> (forall i, valid sb i -> y i = y' i) -> wsum L x y = wsum L x' y'.
Proof. intros H Hx Hy. induction H as [|(w, (ia, ib)) L (_ & H1 & H2) H IH]; simpl; auto. rewrite Hx, Hy, IH; auto. Qed.
Lemma dot_teq lc rc lb rb a a' b b' v v' : teq a a' -> teq b b' -> dot_general lc rc lb rb a b = Ok v -> dot_general lc rc lb rb a' b' = Ok v' -> teq v v'.
Proof.
  intros [Sa Ea] [Sb Eb] H H'. apply dot_ok in H, H'. destruct H as (HD & S & E), H' as (_ & S' & E'). rewrite <- Sa, <- Sb in *. split; [congruence|].
  intros s Hs. rewrite E, E'. rewrite S in Hs. eapply wsum_eq; [exact (dot_pos_terms _ _ _ _ _ _ HD s Hs)| |]; auto.
Qed.
Lemma conv_teq g a a' b b' v v' : teq a a' -> teq b b' -> conv_general_dilated g a b = Ok v -> conv_general_dilated g a' b' = Ok v' -> teq v v'.
Proof.
  intros [Sa Ea] [Sb Eb] H H'. apply conv_ok_inv in H, H'. destruct H as (_ & S & E), H' as (_ & S' & E'). rewrite <- Sa, <- Sb in *. split; [congruence|].
  intros s Hs. rewrite E, E'. rewrite S in Hs. eapply wsum_eq; [exact (conv_pos _ _ _ s Hs)| |]; auto.
Qed.
Lemma req_inv {A B} (Q : A -> B -> Prop) a b : req Q (Ok a) (Ok b) -> Q a b.
Proof. inversion 1; auto. Qed.
Lemma one_ok {T} (r : res (tensor T)) l : one_res r = Ok l -> exists t, r = Ok t /\ l = [t].
Proof. destruct r; simpl; [|discriminate]. intros [= <-]. eauto. Qed.

Lemma prim_bind_teq sc p args args' vs vs' : opaque_ok p -> Forall (fun a => exists s, valid (tshape a) s) args ->
  Forall2 teq args args' -> prim_bind sc p args = Ok vs -> prim_bind sc p args' = Ok vs' -> Forall2 teq vs vs'.
Proof.
  intros HO HN HT H H'.
  assert (One : forall r r', one_res r = Ok vs -> one_res r' = Ok vs' -> (forall t t', r = Ok t -> r' = Ok t' -> teq t t') -> Forall2 teq vs vs').
  { intros r r' K K' G. apply one_ok in K, K'. destruct K as (t & K & ->), K' as (t' & K' & ->). constructor; auto. }
  destruct (match p with other_p _ => true | _ => false end) eqn:EO.
  { destruct p; try discriminate.
    assert (E : prim_bind sc (other_p f) args = f args) by (destruct args as [|? [|? [|]]]; reflexivity).
    assert (E' : prim_bind sc (other_p f) args' = f args') by (destruct args' as [|? [|? [|]]]; reflexivity).
    pose proof (HO args args' HT) as K. rewrite E in H. rewrite E' in H'. rewrite H, H' in K. apply req_inv in K. auto. }
  destruct HT as [|a a' l l' Ha HT]; [destruct p; discriminate|]. inversion HN as [|? ? Na HN']; subst.
  destruct HT as [|b b' l l' Hb HT].
  - destruct p; try discriminate; cbn -[gather tmapM] in H, H'.
    + injection H as <-. injection H' as <-. constructor; auto. apply (tmap_teq Ropp); auto.
    + destruct (0 <=? y)%Z.
      * injection H as <-. injection H' as <-. constructor; auto. apply tmap_teq; auto.
      * refine (One _ _ H H' _). intros t t' Ht Ht'. exact (tmapM_teq _ _ _ _ _ Ha Ht Ht').
    + refine (One _ _ H H' _). intros t t' Ht Ht'. exact (gather_teq (broadcast_in_dim_p shape bdims) _ _ _ _ _ eq_refl Na Ha Ht Ht').
    + refine (One _ _ H H' _). intros t t' Ht Ht'. exact (tmapM_teq _ _ _ _ _ Ha Ht Ht').
    + refine (One _ _ H H' _). intros t t' Ht Ht'. exact (gather_teq convert_element_type_p _ _ _ _ _ eq_refl Na Ha Ht Ht').
    + refine (One _ _ H H' _). intros t t' Ht Ht'. exact (gather_teq (reshape_p new_sizes) _ _ _ _ _ eq_refl Na Ha Ht Ht').
    + refine (One _ _ H H' _). intros t t' Ht Ht'. exact (gather_teq (reduce_sum_p axes) _ _ _ _ _ eq_refl Na Ha Ht Ht').
    + refine (One _ _ H H' _). intros t t' Ht Ht'. exact (gather_teq (reduce_window_sum_p ws) _ _ _ _ _ eq_refl Na Ha Ht Ht').
    + refine (One _ _ H H' _). intros t t' Ht Ht'. exact (gather_teq (squeeze_p dims) _ _ _ _ _ eq_refl Na Ha Ht Ht').
    + refine (One _ _ H H' _). intros t t' Ht Ht'. exact (gather_teq (transpose_p perm) _ _ _ _ _ eq_refl Na Ha Ht Ht').
    + refine (One _ _ H H' _). intros t t' Ht Ht'. pose proof (HO a a' Ha) as K. rewrite Ht, Ht' in K. apply req_inv in K. auto.
  - destruct HT; [|destruct p; discriminate].
    destruct p; try discriminate; cbn in H, H'; refine (One _ _ H H' _); intros t t' Ht Ht'.
    + exact (tmap2_teq _ _ _ _ _ _ _ Ha Hb Ht Ht').
    + exact (tmap2_teq _ _ _ _ _ _ _ Ha Hb Ht Ht').
    + exact (tmap2_teq _ _ _ _ _ _ _ Ha Hb Ht Ht').
    + exact (tmap2M_teq _ _ _ _ _ _ _ Ha Hb Ht Ht').
    + exact (tmap2M_teq _ _ _ _ _ _ _ Ha Hb Ht Ht').
    + exact (dot_teq _ _ _ _ _ _ _ _ _ _ Ha Hb Ht Ht').
    + exact (conv_teq _ _ _ _ _ _ _ Ha Hb Ht Ht').
Qed.

(** ** Kinds at degree 0 *)
Lemma result_kind_0 {T} X D (p : prim T) ks shs outs k : length ks = length shs -> forallb is_const ks = false ->
  result_kind X D p (combine ks shs) outs = Some k -> result_kind X 0 p (combine (map (fun _ => KFull) ks) shs) outs = Some KFull.
Proof.
  intros L NC H. unfold result_kind in *.
  assert (E : forallb (fun a : kind * list nat => is_const (fst a)) (combine ks shs) = false).
  { rewrite <- NC. clear -L. revert shs L. induction ks as [|x ks IH]; intros [|s shs] L; simpl in *; try discriminate; auto. rewrite IH by lia. auto. }
  rewrite E in H.
  assert (E' : forallb (fun a : kind * list nat => is_const (fst a)) (combine (map (fun _ => KFull) ks) shs) = false).
  { destruct ks; [discriminate|]. destruct shs; [discriminate|]. reflexivity. }
  rewrite E'. destruct ks as [|k1 [|k2 [|k3 ks]]], shs as [|s1 [|s2 [|s3 shs]]]; try discriminate; simpl in H |- *; destruct p; try discriminate; simpl; auto;
    repeat match goal with
    | |- context [if ?b then _ else _] => destruct b eqn:?
    | |- context [match ?o with _ => _ end] => destruct o eqn:?
    end; simpl in *; rewrite ?andb_false_r, ?orb_true_r in *; simpl in *; try congruence; try discriminate; auto.
Qed.

(** A result with at least two coefficients comes from an operand with as many. *)
Lemma result_kind_two {T} X D (p : prim T) ks shs outs k : length ks = length shs ->
  result_kind X D p (combine ks shs) outs = Some k -> two k = true -> existsb two ks = true.
Proof.
  intros L H K. unfold result_kind in H. destruct (forallb _ _) eqn:E; [injection H as <-; discriminate|].
  destruct ks as [|k1 [|k2 [|k3 ks]]], shs as [|s1 [|s2 [|s3 shs]]]; try discriminate; destruct p; simpl in H; try discriminate;
    repeat match goal with
    | H : context [if ?b then _ else _] |- _ => destruct b eqn:?
    | H : match ?o with _ => _ end = Some _ |- _ => destruct o eqn:?
    end; try discriminate;
    unfold unless_cast, unless_cast_array, sum_kind, mul_kind, prod_kind in *;
    repeat match goal with H : context [if ?b then _ else _] |- _ => destruct b eqn:? end; try discriminate;
    try (injection H as <-); simpl in *; try discriminate; rewrite ?orb_false_r in *; auto;
    try (destruct k1; try discriminate; auto); try (destruct k2; try discriminate; auto).
Qed.

(** ** One equation *)
Section Run.
Variables (X : list nat) (tr : tensor R * tensor R) (D : nat) (z : list nat -> R).
Hypothesis Htr : in_region X tr z.
Hypothesis Htr0 : in_region X tr (fun _ => 0).
Let A := mkArith D tr.
Let A0 := mkArith 0 tr.
Variables (sc : scalars R) (gs : generators R).
Variable Q : nat -> R -> R -> Prop.
Hypothesis HQ : Q = always \/ Q = at_centre /\ z = (fun _ => 0).
Hypothesis HX : (length X <= 1)%nat.

Lemma args0_ok ks vs args args0 : args_ok X D z ks vs args ->
  mapM (fun i => match i_tr i with Some (l, h) => Ok (Inter [Ivl l h] None) | None => Err AssertionError end) args = Ok args0 ->
  args_ok X 0 z (map (fun _ => KFull) ks) vs args0.
Proof.
  intros H. revert args0. induction H as [|k v i ks vs is' (N1 & A1 & R1) H IH]; intros args0 H0; cbn [mapM] in H0.
  - injection H0 as <-. constructor.
  - apply bind_ok in H0. destruct H0 as (a & Ha & H0). apply bind_ok in H0. destruct H0 as (r & Hr & H0). injection H0 as <-.
    simpl. constructor; auto. destruct (i_tr i) as [[l h]|]; [|discriminate]. injection Ha as <-. destruct R1 as (S1 & S2 & R1 & _).
    split; auto. split; [|exact I]. simpl. split; [|split; [intros i' c Hi; lia|simpl; lia]]. exact (ivl_encloses X (tshape v) l h z _ S1 S2 R1).
Qed.

Lemma args_length ks vs args : args_ok X D z ks vs args -> length ks = length vs /\ length args = length vs.
Proof. induction 1; simpl; lia. Qed.

Lemma single_bcast S c f s : valid S s -> encloses (bcast S) X S [c] z f -> exists p, compat p S /\ wfs p c /\ inat c (bidx p s) (f s).
Proof.
  intros Hs [_ H]. specialize (H s Hs). simpl in H. destruct H as (u & w & (p & Hp & W & B & HB & ->) & -> & ->).
  exists p. split; [exact Hp|]. simpl in W. rewrite app_nil_r in W. split; auto. specialize (HB [] ltac:(constructor)). rewrite app_nil_r in HB.
  unfold term_value. simpl. rewrite Rmult_1_r, Rplus_0_r. exact HB.
Qed.

Lemma region_step p ks vs args e v k r : prim_gens_ok Q sc gs p -> opaque_ok p -> args_ok X D z ks vs args -> (exists s, valid (tshape v) s) -> forallb is_const ks = false ->
  prim_bind sc p vs = Ok [v] -> result_kind X D p (combine ks (map tshape vs)) [tshape v] = Some k ->
  approx k X D z v e -> out_trust_region gs A0 p args e = Ok r -> region_ok v e (Some r).
Proof.
  intros HG HO HA NV NC HB HK HE H. unfold out_trust_region in H.
  apply bind_ok in H. destruct H as (args0 & Hargs0 & H). pose proof (args0_ok _ _ _ _ HA Hargs0) as HA0.
  apply bind_ok in H. destruct H as (a & Ha & H). apply bind_ok in H. destruct H as (b & Hb & H).
  apply bind_ok in H. destruct H as (a0 & Hga & H). apply bind_ok in H. destruct H as (b0 & Hgb & H). apply get_nth_ok in Hga, Hgb.
  apply bind_ok in H. destruct H as ((l & h) & Hint & H). apply bind_ok in H. destruct H as (y0 & Hy & H).
  apply bind_ok in H. destruct H as (l' & Hl' & H). apply bind_ok in H. destruct H as (h' & Hh' & H). injection H as <-.
  destruct (args_length _ _ _ HA) as [L1 _].
  assert (HK0 : result_kind X 0 p (combine (map (fun _ => KFull) ks) (map tshape vs)) [tshape v] = Some KFull).
  { eapply result_kind_0; eauto. rewrite map_length. auto. }
  assert (NC0 : forallb is_const (map (fun _ => KFull) ks) = false) by (destruct ks; [discriminate|reflexivity]).
  pose proof (pushforward_ok X tr 0 z Htr Htr0 sc gs Q HQ HX p _ _ _ a v KFull HG HO HA0 NV NC0 HB HK0 Ha) as (KA & _ & La & _).
  destruct a as [|a0' [|]]; simpl in Hga, La; try discriminate; try lia. injection Hga as ->.
  destruct (single_full X z (tshape v) a0 _ NV KA) as [Wa Ka].
  destruct HE as (HE & PE & LE & _). pose proof (holds_hcast X z _ _ _ HE) as HE'.
  pose proof (encloses_enclose _ _ _ _ _ _ _ _ _ _ (pf_bcast (tshape v)) Htr (encloses_mono _ _ _ _ _ _ _ (hcast_bcast _) HE') Hb) as KB.
  pose proof (enclose_shape _ _ _ _ Hb) as (Lb & _ & _).
  destruct b as [|b0' [|]]; simpl in Hgb, Lb; try discriminate; try lia. injection Hgb as ->.
  destruct e as [|c0 rest]; [discriminate|]. destruct c0 as [t|]; [|discriminate]. injection Hy as <-.
  pose proof (hcast_wfs _ _ _ _ _ _ NV HE') as Wy. simpl in Wy.
  destruct a0 as [|al ah]; [discriminate|]. destruct b0 as [|bl bh]; [simpl in Hint; discriminate|].
  simpl in Hint. apply bind_ok in Hint. destruct Hint as (l0 & Hl & Hint). apply bind_ok in Hint. destruct Hint as (h0 & Hh & Hint). injection Hint as -> ->.
  simpl in Wa. destruct Wa as [Wal Wah].
  assert (HP : exists q, compat q (tshape v) /\ tshape bl = q /\ tshape bh = q).
  { destruct NV as [s Hs]. destruct (single_bcast _ _ _ s Hs KB) as (q & Cq & [W1 W2] & _). eauto. }
  destruct HP as (q & Cq & Sbl & Sbh).
  assert (KB' : forall s, valid (tshape v) s -> tdata bl (bidx q s) <= tdata v s <= tdata bh (bidx q s)).
  { intros s Hs. destruct (single_bcast _ _ _ s Hs KB) as (q' & Cq' & [W1 W2] & K). simpl in K. rewrite Sbl in W1. subst q'. exact K. }
  apply tmap2_ok in Hl, Hh, Hl', Hh'. destruct Hl as [Sl El], Hh as [Sh Eh], Hl' as [Sl' El'], Hh' as [Sh' Eh'].
  rewrite Wal, Sbl, (bshape_compat_r _ _ Cq) in Sl. rewrite Wah, Sbh, (bshape_compat_r _ _ Cq) in Sh. injection Sl as Sl. injection Sh as Sh.
  rewrite Wy, <- Sl, bshape_refl in Sl'. rewrite Wy, <- Sh, bshape_refl in Sh'. injection Sl' as Sl'. injection Sh' as Sh'.
  unfold bget in *. rewrite Wal, Sbl in El. rewrite Wah, Sbh in Eh. rewrite Wy, <- Sl in El'. rewrite Wy, <- Sh in Eh'.
  assert (KL : forall s, valid (tshape v) s -> tdata l' s <= tdata v s <= tdata h' s /\ tdata l' s <= tdata t s <= tdata h' s).
  { intros s Hs. rewrite El', Eh', !(bidx_valid _ _ Hs), El, Eh, !(bidx_valid _ _ Hs). specialize (Ka s Hs). specialize (KB' s Hs). simpl in Ka.
    change (@nmin R NumR) with Rmin. change (@nmax R NumR) with Rmax.
    pose proof (Rmin_l (tdata t s) (Rmax (tdata al s) (tdata bl (bidx q s)))). pose proof (Rmin_r (tdata t s) (Rmax (tdata al s) (tdata bl (bidx q s)))).
    pose proof (Rmax_l (tdata t s) (Rmin (tdata ah s) (tdata bh (bidx q s)))). pose proof (Rmax_r (tdata t s) (Rmin (tdata ah s) (tdata bh (bidx q s)))).
    assert (Rmax (tdata al s) (tdata bl (bidx q s)) <= tdata v s) by (apply Rmax_lub; lra).
    assert (tdata v s <= Rmin (tdata ah s) (tdata bh (bidx q s))) by (apply Rmin_glb; lra). lra. }
  split; [congruence|]. split; [congruence|]. split; [intros s Hs; apply KL; auto|].
  intros c rr s [= <- <-] Hs. simpl. apply KL; auto.
Qed.

(** ** The state of the interpreter *)
Definition inv (lits : nat -> tensor R) (d : dict) (r : jvar -> option (tensor R)) (k : jvar -> option kind) : Prop :=
  (forall n, nonempty (tshape (lits n)) = true /\ r (Lit n) = Some (lits n) /\ k (Lit n) = Some KConst) /\
  (forall n i, dlookup d n = Some i -> exists v kd, r (Var n) = Some v /\ k (Var n) = Some kd /\ arg_ok X D z kd v i).

Lemma const_arg_ok k v t : (two k = true -> D = 0%nat) -> teq t v -> (exists s, valid (tshape v) s) -> arg_ok X D z k v (constant_inter t).
Proof.
  intros H2 HT Hne. split; auto. split; [apply approx_const; auto|]. destruct HT as [E H]. simpl. split; auto. split; auto. split.
  - intros s Hs. rewrite <- H by (rewrite E; auto). lra.
  - intros c0 rest s [= <- <-] Hs. simpl. lra.
Qed.

Lemma get_ok lits d r k v i x kd : inv lits d r k -> get_intermediate lits d v = Ok i -> r v = Some x -> k v = Some kd -> arg_ok X D z kd x i.
Proof.
  intros [HL HV] H Hr Hk. destruct v as [n|n|]; simpl in H; [| |discriminate].
  - destruct (dlookup d n) as [i'|] eqn:E; [|discriminate]. injection H as ->. destruct (HV n i E) as (v & kd' & E1 & E2 & E3). congruence.
  - injection H as <-. destruct (HL n) as (N1 & E1 & E2). rewrite E1 in Hr. rewrite E2 in Hk. injection Hr as <-. injection Hk as <-.
    apply const_arg_ok; [discriminate|apply teq_refl|apply nonempty_valid; auto].
Qed.

Lemma gets_ok lits d r k l : inv lits d r k -> forall args xs ks, mapM (get_intermediate lits d) l = Ok args -> lookups r l = Some xs -> lookups k l = Some ks ->
  args_ok X D z ks xs args.
Proof.
  intros HI. induction l as [|v l IH]; intros args xs ks H Hx Hk; cbn [mapM] in H; simpl in Hx, Hk.
  - injection H as <-. injection Hx as <-. injection Hk as <-. constructor.
  - apply bind_ok in H. destruct H as (i & Hi & H). apply bind_ok in H. destruct H as (is' & His & H). injection H as <-.
    destruct (r v) as [x|] eqn:Er; [|discriminate]. destruct (lookups r l) as [xs'|]; [|discriminate]. injection Hx as <-.
    destruct (k v) as [kd|] eqn:Ek; [|discriminate]. destruct (lookups k l) as [ks'|]; [|discriminate]. injection Hk as <-.
    constructor; auto. eapply get_ok; eauto.
Qed.

(** Storing the outputs. *)
Inductive outs_ok (kd : kind) : list (tensor R) -> list (inter R) -> Prop :=
| oo_nil : outs_ok kd [] []
| oo_cons v i vs is' : arg_ok X D z kd v i -> outs_ok kd vs is' -> outs_ok kd (v :: vs) (i :: is').

Lemma store_ok lits kd xs : forall outs vs is' d r k d' r' k', inv lits d r k -> outs_ok kd vs is' ->
  store xs d outs is' = Ok d' -> assign jvar_eqb r outs vs = Some r' -> assign jvar_eqb k outs (map (fun _ => kd) vs) = Some k' -> inv lits d' r' k'.
Proof.
  induction outs as [|u outs IH]; intros vs is' d r k d' r' k' HI HO HS Hr Hk; destruct HO as [|v i vs is' Hv HO]; simpl in *; try discriminate.
  - injection HS as <-. injection Hr as <-. injection Hk as <-. auto.
  - destruct u as [n|n|]; [|discriminate|].
    + destruct (dlookup d n); [discriminate|]. apply bind_ok in HS. destruct HS as (_ & _ & HS).
      refine (IH _ _ _ _ _ _ _ _ _ HO HS Hr Hk). destruct HI as [HL HV]. split; [intros m; exact (HL m)|]. intros m j Hj. simpl in Hj |- *.
      destruct (n =? m)%nat; [injection Hj as <-; eauto|]. exact (HV m j Hj).
    + refine (IH _ _ _ _ _ _ _ _ _ HO HS Hr Hk). destruct HI as [HL HV]. split; [intros m; exact (HL m)|exact HV].
Qed.

Lemma consts_teq ks vs args ts : args_ok X D z ks vs args -> mapM constant_value args = Ok ts -> Forall2 teq ts vs.
Proof.
  intros H. revert ts. induction H as [|k v i ks vs is' (N1 & A1 & R1) H IH]; intros ts HT; cbn [mapM] in HT.
  - injection HT as <-. constructor.
  - apply bind_ok in HT. destruct HT as (t & Ht & HT). apply bind_ok in HT. destruct HT as (ts' & Hts & HT). injection HT as <-.
    constructor; auto. unfold constant_value in Ht. destruct (i_enc i) as [|[t'|] [|]] eqn:E; try discriminate. injection Ht as ->.
    exact (holds_arr X z k v t N1 (proj1 A1)).
Qed.
Lemma some_nonconst ks vs args : args_ok X D z ks vs args -> existsb (fun i => negb (is_constant i)) args = true -> forallb is_const ks = false.
Proof.
  induction 1 as [|k v i ks vs is' (N1 & A1 & R1) H IH]; simpl; intros E; [discriminate|]. apply orb_prop in E. destruct E as [E|E].
  - destruct k; auto. destruct A1 as ((t & Et & _) & _). unfold is_constant in E. rewrite Et in E. discriminate.
  - rewrite IH by auto. apply andb_false_r.
Qed.
Lemma two_nonconst ks vs args : args_ok X D z ks vs args -> existsb two ks = true -> (1 <= D)%nat -> existsb (fun i => negb (is_constant i)) args = true.
Proof.
  intros H K HD. induction H as [|k v i ks vs is' (N1 & A1 & R1) H IH]; simpl in *; [discriminate|]. apply orb_prop in K. destruct K as [K|K]; [|rewrite IH, orb_true_r; auto].
  pose proof (psize_two _ _ K (approx_psize X D z k v _ HD A1)) as L. unfold is_constant. destruct (i_enc i) as [|[t|] [|]]; auto. simpl in L. lia.
Qed.
Lemma consts_nonempty (ts vs : list (tensor R)) : Forall2 teq ts vs -> Forall (fun a => exists s, valid (tshape a) s) vs -> Forall (fun a => exists s, valid (tshape a) s) ts.
Proof. induction 1 as [|t v ts vs [E _] H IH]; intros HN; inversion HN; subst; constructor; auto. rewrite E. auto. Qed.
Lemma args_nonempty ks vs args : args_ok X D z ks vs args -> Forall (fun a => exists s, valid (tshape a) s) vs.
Proof. induction 1 as [|k v i ks vs is' (N1 & _) H IH]; constructor; auto. Qed.

Lemma prim_eval_bind p ts rs : prim_eval sc p ts = Ok rs -> prim_bind sc p ts = Ok rs.
Proof. destruct p as [| | | | | | | | | | |e| | | | | | |]; try exact (fun H => H). destruct e; try exact (fun H => H); discriminate. Qed.
Lemma step_ok prop lits d r k o d' args ks vals kd r' k' : inv lits d r k -> prim_gens_ok Q sc gs (odata o) -> opaque_ok (odata o) ->
  lookups r (oins o) = Some args -> lookups k (oins o) = Some ks -> prim_bind sc (odata o) args = Ok vals ->
  forallb (fun v => nonempty (tshape v)) vals = true ->
  result_kind X D (odata o) (combine ks (map tshape args)) (map tshape vals) = Some kd ->
  assign jvar_eqb r (oouts o) vals = Some r' -> assign jvar_eqb k (oouts o) (map (fun _ => kd) vals) = Some k' ->
  step sc gs A A0 prop X lits d o = Ok d' -> inv lits d' r' k'.
Proof.
  intros HI HG HO Hr Hk HB HNv HK Ar Ak H. unfold step in H.
  apply bind_ok in H. destruct H as (ints & Hints & H). apply bind_ok in H. destruct H as (outs & Houts & H).
  pose proof (gets_ok lits d r k _ HI _ _ _ Hints Hr Hk) as HA.
  assert (HOut : outs_ok kd vals outs).
  { destruct (existsb _ ints) eqn:EC.
    - pose proof (some_nonconst _ _ _ HA EC) as NC.
      apply bind_ok in Houts. destruct Houts as (e & He & Houts).
      destruct (negb _) eqn:EL in Houts; [discriminate|]. apply negb_false_iff, Nat.eqb_eq in EL.
      apply bind_ok in Houts. destruct Houts as (rg & Hrg & Houts). injection Houts as <-.
      destruct vals as [|v [|v' vals]].
      { destruct (oouts o); simpl in *; discriminate. }
      2:{ destruct (oouts o) as [|? [|]]; simpl in *; discriminate. }
      simpl in HNv. rewrite andb_true_r in HNv. pose proof (nonempty_valid _ HNv) as NV.
      assert (HE : approx kd X D z v e) by (exact (pushforward_ok X tr D z Htr Htr0 sc gs Q HQ HX _ _ _ _ _ _ _ HG HO HA NV NC HB HK He)).
      constructor; [|constructor]. split; auto. split; [exact HE|]. simpl.
      destruct prop; [|injection Hrg as <-; exact I]. apply bind_ok in Hrg. destruct Hrg as (rg' & Hrg & E). injection E as <-.
      exact (region_step _ _ _ _ _ _ _ _ HG HO HA NV NC HB HK HE Hrg).
    - apply bind_ok in Houts. destruct Houts as (ts & Hts & Houts). apply bind_ok in Houts. destruct Houts as (rs & Hrs & Houts). injection Houts as <-.
      apply prim_eval_bind in Hrs. pose proof (consts_teq _ _ _ _ HA Hts) as HT.
      pose proof (prim_bind_teq sc _ _ _ _ _ HO (consts_nonempty _ _ HT (args_nonempty _ _ _ HA)) HT Hrs HB) as HF.
      assert (H2 : two kd = true -> D = 0%nat).
      { intros K. destruct (Nat.eq_dec D 0) as [E|E]; auto. exfalso.
        assert (two_nonconst' : existsb (fun i => negb (is_constant i)) ints = true).
        { apply (two_nonconst _ _ _ HA); [|lia]. refine (result_kind_two _ _ _ _ _ _ _ _ HK K). rewrite map_length. exact (proj1 (args_length _ _ _ HA)). }
        congruence. }
      clear -HF HNv H2. induction HF as [|t v ts vs E HF IH]; simpl in *; constructor; apply andb_prop in HNv; destruct HNv as [N1 N2]; auto.
      apply const_arg_ok; auto. apply nonempty_valid; auto. }
  exact (store_ok lits kd X _ _ _ _ _ _ _ _ _ HI HOut H Ar Ak).
Qed.

Lemma run_ok prop lits ops : forall d r k d' k', inv lits d r k -> (forall o, In o ops -> prim_gens_ok Q sc gs (odata o)) -> (forall o, In o ops -> opaque_ok (odata o)) ->
  analyse sc X D r k ops = Some k' -> foldM (step sc gs A A0 prop X lits) d ops = Ok d' ->
  exists r', run (fun p args => ok_opt (prim_bind sc p args)) jvar_eqb r ops = Some r' /\ inv lits d' r' k'.
Proof.
  induction ops as [|o ops IH]; intros d r k d' k' HI HG HO HA H; simpl in HA, H |- *.
  - injection HA as <-. injection H as <-. eauto.
  - apply bind_ok in H. destruct H as (d1 & H1 & H).
    destruct (lookups r (oins o)) as [args|] eqn:Er; [|discriminate]. destruct (lookups k (oins o)) as [ks|] eqn:Ek; [|discriminate].
    destruct (prim_bind sc (odata o) args) as [vals|] eqn:EB; [|discriminate]. destruct (forallb _ vals) eqn:EN; [|discriminate].
    destruct (result_kind _ _ _ _ _) as [kd|] eqn:EK; [|discriminate]. destruct (assign jvar_eqb r (oouts o) vals) as [r1|] eqn:A1; [|discriminate].
    destruct (assign jvar_eqb k (oouts o) _) as [k1|] eqn:A2; [|discriminate].
    unfold run_op. rewrite Er, EB. simpl. rewrite A1.
    refine (IH d1 r1 k1 d' k' _ _ _ HA H); [|intros; apply HG; right; auto|intros; apply HO; right; auto].
    exact (step_ok prop lits d r k o d1 args ks vals kd r1 k1 HI (HG o (or_introl eq_refl)) (HO o (or_introl eq_refl)) Er Ek EB EN EK A1 A2 H1).
Qed.
End Run.
