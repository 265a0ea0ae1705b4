(** Inclusion isotonicity of the pushforward functions of jax_bound.py. *)
From Coq Require Import Reals Lra.
From Verif Require Import Base Tensor IntervalArith Polynomials Enclosure TensorLemmas Spec IntervalProofs PowerProofs PolyProofs Graded
  EnclosureOps EnclosureProofs BilinearProofs ComposeProofs PropEnclosure PropDegree GraphEditor GraphSpec JaxBound JaxSpec JaxLemmas JaxIndex JaxGather JaxPush JaxDot ConvIndex ConvProofs JaxOps JaxForward JaxRun
  IsoSpec Iso IsoEnc.
Open Scope R_scope.

(** ** Sums of entries *)
Lemma gather_src_ok (p : prim R) g (a v : tensor R) : gather_of p = Some g -> gather g a = Ok v ->
  forall s, valid (tshape v) s -> Forall (valid (tshape a)) (g_src g (tshape a) s).
Proof.
  intros Hg H s Hs. destruct p; try discriminate;
    destruct (gather_ok _ _ _ H) as [HS _]; simpl in Hg; injection Hg as <-.
  - simpl in HS. destruct (_ && _) eqn:E; [|discriminate]. injection HS as HS. subst shape. simpl. constructor; [|constructor].
    repeat (apply andb_prop in E; destruct E as [E ?]). apply Nat.eqb_eq in E. apply bcast_in_dim_valid with (shape := tshape v); auto. apply forallb_lt_In; auto.
  - simpl in HS. injection HS as HS. simpl. rewrite HS. auto.
  - simpl in HS. destruct (Nat.eqb_spec (prod (tshape a)) (prod new_sizes)) as [E|]; [|discriminate]. injection HS as HS; subst new_sizes.
    simpl. constructor; [|constructor]. apply unravel_valid. rewrite E. apply ravel_lt; auto.
  - revert s Hs. exact (proj1 (lin_reduce_sum [] 0 axes _ _ HS)).
  - revert s Hs. exact (proj1 (lin_window [] 0 ws _ _ HS)).
  - revert s Hs. exact (proj1 (lin_squeeze [] 0 dims _ _ HS)).
  - revert s Hs. exact (proj1 (lin_transpose [] 0 perm _ _ HS)).
Qed.
Lemma sum_mono (L : list (list nat)) sh f g : Forall (valid sh) L -> (forall i, valid sh i -> f i <= g i) ->
  fold_right (@nadd R NumR) n0 (map f L) <= fold_right nadd n0 (map g L).
Proof. intros H K. induction H as [|i L Hi H IH]; cbn [map fold_right]; [apply Rle_refl|]. apply Rplus_le_compat; auto. Qed.
Lemma gather_iso (p : prim R) g c c' : gather_of p = Some g -> narrower c c' -> rel narrower (map_coef (gather g) c) (map_coef (gather g) c').
Proof.
  intros Hg Hc b b' H H'. apply narrower_sub in Hc. destruct Hc as (s & K & W & W' & N).
  assert (KK : is_arr b = is_arr b') by (rewrite (map_coef_kind _ _ _ H), (map_coef_kind _ _ _ H'); auto).
  assert (G : gather g (lo c) = Ok (lo b) /\ gather g (hi c) = Ok (hi b)) by (destruct c; simpl in H; ok_inv; subst; auto).
  assert (G' : gather g (lo c') = Ok (lo b') /\ gather g (hi c') = Ok (hi b')) by (destruct c'; simpl in H'; ok_inv; subst; auto).
  destruct G as [G1 G2], G' as [G3 G4]. pose proof (gather_src_ok p g _ _ Hg G1) as V.
  apply gather_ok in G1, G2, G3, G4. rewrite (wfs_lo _ _ W) in *. rewrite (wfs_hi _ _ W) in *. rewrite (wfs_lo _ _ W') in *. rewrite (wfs_hi _ _ W') in *.
  destruct G1 as [S1 D1], G2 as [S2 D2], G3 as [S3 D3], G4 as [S4 D4]. rewrite S1 in S2, S3, S4. injection S2 as S2. injection S3 as S3. injection S4 as S4.
  apply (sub_narrower (tshape (lo b))). split; [auto|]. split; [apply wfs_iff; auto|]. split; [apply wfs_iff; auto|]. intros I HI. specialize (V I HI).
  rewrite D1, D2, D3, D4. split; [split|]; (eapply sum_mono; [exact V|]); intros i Hi; apply N; auto.
Qed.
Lemma gathers_iso (p : prim R) g a a' : gather_of p = Some g -> nar a a' -> rel nar (map_over_enclosure a (gather g)) (map_over_enclosure a' (gather g)).
Proof. intros Hg Ha. apply (rel_mapM narrower); auto. intros. eapply gather_iso; eauto. Qed.
Lemma narrower_left c c' : narrower c c' -> tndim (left_end c) = tndim (left_end c').
Proof. intros (_ & W & W' & _). unfold tndim. destruct c, c'; simpl in *; intuition congruence. Qed.
Lemma push_broadcast_iso sh bd a a' : nar a a' -> rel nar (push_broadcast sh bd a) (push_broadcast sh bd a').
Proof.
  intros Ha. unfold push_broadcast.
  eapply rel_bind with (Q := fun x x' => tndim x = tndim x'); [destruct Ha; [apply rel_err|apply rel_ok; apply narrower_left; auto]|]. intros x x' Hx.
  eapply rel_bind with (Q := eq).
  - destruct Ha as [|c c' a a' Hc Ha]; [apply rel_ok; auto|]. destruct Ha as [|d d' a a' Hd Ha]; [apply rel_ok; auto|].
    pose proof Hd as (K & W & W' & _). destruct d, d'; try discriminate. apply rel_ok. simpl in W, W'. rewrite Hx, W'. auto.
  - intros xs xs' <-. apply (rel_mapM (same_fst narrower)); [apply enumerate_rel; auto|]. intros (i & c) (i' & c') [E Hc]. simpl in E, Hc. subst i'.
    apply (gather_iso (broadcast_in_dim_p (sh ++ rep i xs) bd)); auto.
Qed.

(** ** Bilinear operations *)
(** Reindexing an operand or the result of a sum of products. *)
Definition reindex (g : gather_op) : Prop :=
  forall s s', g_shape g s = Ok s' -> forall I, valid s' I -> exists i, g_src g s I = [i] /\ valid s i.
Lemma reindex_transpose perm : reindex (g_transpose perm).
Proof.
  intros s s' H I HI. simpl in *. eexists. split; [reflexivity|].
  pose proof (gather_src_ok (transpose_p perm) (g_transpose perm) (mkT s (fun _ => 0)) (mkT s' (fun J => fold_right (@nadd R NumR) n0 (map (fun _ => 0) (g_src (g_transpose perm) s J)))) eq_refl) as V.
  unfold gather in V. cbn [tshape tdata] in V. simpl g_shape in V. rewrite H in V. specialize (V eq_refl I HI). inversion V; auto.
Qed.
Lemma reindex_reshape new : reindex (g_reshape new).
Proof.
  intros s s' H I HI. simpl in *. destruct (Nat.eqb_spec (prod s) (prod new)) as [E|]; [|discriminate]. injection H as <-. eexists. split; [reflexivity|].
  apply unravel_valid. rewrite E. apply ravel_lt; auto.
Qed.
Definition shaped (h : tensor R -> res (tensor R)) : Prop :=
  forall x y, h x = Ok y -> exists P, (forall u w, tshape u = tshape x -> h u = Ok w -> tshape w = tshape y /\ forall I, valid (tshape y) I -> tdata w I = tdata u (P I)) /\
    forall I, valid (tshape y) I -> valid (tshape x) (P I).
Lemma shaped_id : shaped (fun x => Ok x).
Proof. intros x y [= <-]. exists (fun I => I). split; auto. intros u w E [= <-]. auto. Qed.
Lemma shaped_gather g : reindex g -> shaped (gather g).
Proof.
  intros HR x y H. apply gather_ok in H. destruct H as [H _]. specialize (HR _ _ H). exists (fun I => hd [] (g_src g (tshape x) I)). split.
  - intros u w E K. apply gather_ok in K. destruct K as [K1 K2]. rewrite E, H in K1. injection K1 as K1. split; [auto|]. intros I HI. destruct (HR I HI) as (i & Hi & _).
    rewrite K2, E, Hi. simpl. lra.
  - intros I HI. destruct (HR I HI) as (i & Hi & V). rewrite Hi. auto.
Qed.
Lemma shaped_bind h k : shaped h -> (forall u y, h u = Ok y -> shaped (k (tshape u))) -> shaped (fun x => t <- h x ;; k (tshape x) t).
Proof.
  intros Hh Hk x y H. apply bind_ok in H. destruct H as (t & Ht & H). destruct (Hh x t Ht) as (P & P1 & P2). destruct (Hk x t Ht t y H) as (Q & Q1 & Q2).
  exists (fun I => P (Q I)). split; [|auto]. intros u w E K. apply bind_ok in K. destruct K as (t' & Ht' & K). destruct (P1 u t' E Ht') as [S1 E1]. rewrite E in K.
  destruct (Q1 t' w S1 K) as [S2 E2]. split; [auto|]. intros I HI. rewrite E2, E1 by auto. reflexivity.
Qed.
Lemma shaped_front n : shaped (move_last_to_front n).
Proof.
  intros x y H. unfold move_last_to_front in H. destruct (n =? 0)%nat eqn:E.
  - destruct (shaped_id x y H) as (P & P1 & P2). exists P. split; auto. intros u w. unfold move_last_to_front. rewrite E. apply P1.
  - destruct (tndim x <? n)%nat eqn:E'; [discriminate|]. set (m := (tndim x - n)%nat) in *.
    pose proof (shaped_bind (gather (g_transpose (seq m n ++ seq 0 m))) (fun s => gather (g_reshape (prod (skipn m s) :: firstn m s)))
      (shaped_gather _ (reindex_transpose _)) (fun u v _ => shaped_gather _ (reindex_reshape _)) x y H) as (P & P1 & P2).
    exists P. split; auto. intros u w Eu. specialize (P1 u w Eu). unfold move_last_to_front. rewrite E. unfold tndim in *. rewrite Eu, E'. rewrite Eu in P1. exact P1.
Qed.
Lemma wsum_map (L : list (R * (list nat * list nat))) (f g : list nat -> list nat) x y :
  wsum (map (fun t => (fst t, (f (fst (snd t)), g (snd (snd t))))) L) x y = wsum L (fun i => x (f i)) (fun i => y (g i)).
Proof. induction L as [|(w & (ia & ib)) L IH]; simpl; auto. rewrite IH. reflexivity. Qed.
Lemma wsum_ext (L : list (R * (list nat * list nat))) sa sb x x' y y' : Forall (fun '(w, (ia, ib)) => 0 <= w /\ valid sa ia /\ valid sb ib) L ->
  (forall i, valid sa i -> x i = x' i) -> (forall i, valid sb i -> y i = y' i) -> wsum L x y = wsum L x' y'.
Proof. apply wsum_eq. Qed.

Lemma conv_sums c p q : sums (fun u v => conv_pbb c u v p q).
Proof.
  intros x y z H. unfold conv_pbb in H. apply bind_ok in H. destruct H as (a & Ha & H). apply bind_ok in H. destruct H as (b & Hb & H). apply bind_ok in H. destruct H as (r & Hr & H).
  destruct (shaped_front p x a Ha) as (PA & PA1 & PA2). destruct (shaped_front q y b Hb) as (PB & PB1 & PB2).
  set (post := fun t : tensor R => if (p =? 0)%nat && (q =? 0)%nat then Ok t else if (p =? 0)%nat || (q =? 0)%nat then Err NotImplementedError
     else u <- gather (g_transpose (seq 2 (tndim t - 2) ++ [0; 1]%nat)) t ;; gather (g_reshape (skipn 2 (tshape t) ++ skipn (tndim x - p) (tshape x) ++ skipn (tndim y - q) (tshape y))) u).
  assert (SP : shaped post).
  { unfold post. destruct ((p =? 0)%nat && (q =? 0)%nat); [apply shaped_id|]. destruct ((p =? 0)%nat || (q =? 0)%nat); [intros ? ? HH; discriminate|].
    intros t w K. pose proof (shaped_bind (gather (g_transpose (seq 2 (tndim t - 2) ++ [0; 1]%nat))) (fun s => gather (g_reshape (skipn 2 s ++ skipn (tndim x - p) (tshape x) ++ skipn (tndim y - q) (tshape y))))
      (shaped_gather _ (reindex_transpose _)) (fun u v _ => shaped_gather _ (reindex_reshape _)) t w K) as (P & P1 & P2).
    exists P. split; auto. intros u v E. specialize (P1 u v E). unfold tndim in *. rewrite E in *. exact P1. }
  destruct (SP r z H) as (PC & PC1 & PC2). pose proof (conv_ok_inv _ _ _ _ Hr) as (_ & Sr & _).
  exists (tshape z), (fun I => map (fun t => (fst t, (PA (fst (snd t)), PB (snd (snd t))))) (conv_terms c (tshape a) (tshape b) (PC I))). split.
  - intros u v w Hu Hv K. unfold conv_pbb in K. apply bind_ok in K. destruct K as (a' & Ha' & K). apply bind_ok in K. destruct K as (b' & Hb' & K). apply bind_ok in K. destruct K as (r' & Hr' & K).
    destruct (PA1 u a' Hu Ha') as [SA EA]. destruct (PB1 v b' Hv Hb') as [SB EB]. apply conv_ok_inv in Hr'. destruct Hr' as (_ & Sr' & Er'). rewrite SA, SB in Sr', Er'.
    destruct (PC1 r' w) as [SC EC]; [congruence| |]. { unfold post. rewrite <- K. unfold tndim. rewrite Hu, Hv. reflexivity. }
    split; [auto|]. intros I HI. rewrite EC, Er', wsum_map by auto. apply (wsum_ext _ (tshape a) (tshape b)); auto.
    apply conv_pos. rewrite <- Sr. auto.
  - intros I HI. apply Forall_map. specialize (PC2 I HI). rewrite Sr in PC2. eapply Forall_impl; [|exact (conv_pos c _ _ _ PC2)].
    intros (w & (ia & ib)) (W & VA & VB). simpl. auto.
Qed.
Lemma dot_sums lc rc lb rb p q : sums (fun u v => dot_pbb lc rc lb rb u v p q).
Proof.
  intros x y z H.
  assert (G : forall u v w, tshape u = tshape x -> tshape v = tshape y -> dot_pbb lc rc lb rb u v p q = Ok w ->
     exists t, dot_general lc rc lb rb u v = Ok t /\ exists perm, perm = (let k := length (dedup (lc ++ lb)) in
        let p_start := (tndim x - p - k)%nat in let n := length (dot_shape lc rc lb rb (tshape x) (tshape y)) in
        seq 0 p_start ++ seq (p_start + p) (n - q - (p_start + p)) ++ seq p_start p ++ seq (n - q) q) /\ gather (g_transpose perm) t = Ok w).
  { intros u v w Hu Hv K. unfold dot_pbb in K. apply bind_ok in K. destruct K as (t & Ht & K). exists t. split; [exact Ht|].
    destruct (dot_ok _ _ _ _ _ _ _ Ht) as (_ & St & _). rewrite Hu, Hv in St. unfold tndim in *. rewrite Hu, St in K.
    repeat (dif K E; [discriminate|]; clear E). eexists. split; [reflexivity|]. exact K. }
  destruct (G x y z eq_refl eq_refl H) as (t & Ht & perm & Ep & Hz). destruct (dot_ok _ _ _ _ _ _ _ Ht) as (HD & St & Et).
  pose proof (gather_src_ok (transpose_p perm) _ _ _ eq_refl Hz) as V. apply gather_ok in Hz. destruct Hz as [Sz _].
  exists (tshape z), (fun I => dot_terms lc rc lb rb (tshape x) (tshape y) (map (fun j => nth (index_of j perm) I 0%nat) (seq 0 (length (tshape t))))). split.
  - intros u v w Hu Hv K. destruct (G u v w Hu Hv K) as (t' & Ht' & perm' & Ep' & Hw). rewrite <- Ep in Ep'. subst perm'.
    destruct (dot_ok _ _ _ _ _ _ _ Ht') as (_ & St' & Et'). rewrite Hu, Hv in St', Et'. apply gather_ok in Hw. destruct Hw as [Sw Ew].
    rewrite St', <- St, Sz in Sw. injection Sw as Sw. split; [auto|]. intros I HI. rewrite Ew. simpl. rewrite Et', St', <- St. lra.
  - intros I HI. specialize (V I HI). simpl in V. inversion V as [|? ? V1 _]; subst. rewrite St in V1 at 1.
    refine (dot_pos_terms _ _ _ _ _ _ HD _ V1).
Qed.

(** ** Elementwise functions *)
(** The region an elementwise function uses for its argument. *)
Definition eff (A : arith R) (e : enclosure R) (atr : option (tensor R * tensor R)) : res (coef R) :=
  match tr_coef atr with Some t => Ok t | None => d0 <- enclose_enclosure e (trust_region A) 0 ;; get_nth d0 0 end.
Definition ends (c c' : coef R) : Prop := narrower (Ivl (lo c) (hi c)) (Ivl (lo c') (hi c')).
Lemma narrower_ends c c' : narrower c c' -> ends c c'.
Proof.
  intros H. apply narrower_sub in H. destruct H as (s & _ & W & W' & N). apply wfs_iff in W, W'. apply (sub_narrower s). apply sub_ivl; tauto.
Qed.

Section Fixed.
Variables (X : list nat) (tr tr' : tensor R * tensor R) (D : nat).
Let zero : list nat -> R := fun _ => 0.
Hypothesis Htr : in_region X tr zero.
Hypothesis Htr' : in_region X tr' zero.
Hypothesis HT : regions tr tr'.
Let A := mkArith D tr.
Let A' := mkArith D tr'.

(** The centre of the call lies in its region. *)
Lemma elem_region B k u e atr t : in_region X B zero -> (exists s, valid (tshape u) s) ->
  approx k X D zero u e -> region_ok u e atr -> eff (mkArith D B) e atr = Ok t ->
  exists c r, e = c :: r /\ tshape (left_end c) = tshape u /\ ((exists v, c = Arr v) \/ D = 0%nat) /\ tshape (lo t) = tshape u /\ tshape (hi t) = tshape u /\
   forall s, valid (tshape u) s -> tdata (lo t) s <= tdata (left_end c) s <= tdata (hi t) s.
Proof.
  intros HB Hne (He & Pe & Le & _) HR H. apply holds_hcast in He. set (S := tshape u) in *.
  destruct e as [|c0 r]; [destruct He; congruence|]. exists c0, r. split; [auto|].
  assert (W0 : wfs S c0) by (exact (hcast_wfs X S c0 r zero _ Hne He)).
  assert (HD : (exists t, c0 = Arr t) \/ D = 0%nat /\ exists l h, c0 = Ivl l h /\ r = []).
  { destruct c0 as [v|l h]; [left; eauto|]. destruct (Nat.eq_dec D 0) as [E|ND].
    - right. split; auto. exists l, h. split; auto. destruct r; auto. simpl in Le. lia.
    - exfalso. destruct (Pe 0%nat (Ivl l h)) as [v Hv]; [lia|reflexivity|discriminate]. }
  split; [exact (wfs_lo _ _ W0)|]. split; [tauto|]. unfold eff in H. destruct atr as [[l h]|]; cbn [tr_coef] in H.
  - injection H as <-. simpl. destruct HR as (H1 & H2 & H3 & H4). split; [|split]; auto. intros s Hs. exact (H4 c0 r s eq_refl Hs).
  - apply bind_ok in H. destruct H as (d0 & Hd0 & Hg). apply get_nth_ok in Hg. cbn [trust_region] in Hd0.
    destruct HD as [[v ->]|(E & l & h & -> & ->)].
    + destruct (enclose0_head X B zero S (Arr v) r _ d0 Hne HB He Hd0) as (x & -> & Wx). simpl in Hg. injection Hg as ->.
      assert (He0 : encloses (hcast S) X S (Arr v :: r) zero (tdata v)).
      { eapply encloses_ext; [|refine (encl_at0 (hcast S) X S v r zero (tdata u) _ He); intros p [Hp _]; exact Hp].
        intros s Hs. simpl in W0 |- *. rewrite W0, bidx_valid; auto. }
      assert (H2 : encloses (full S) X S [t] zero (tdata v)).
      { apply hcast_single; [simpl; lia|]. apply hcast_of_bcast; auto.
        exact (encloses_enclose _ _ _ _ _ _ _ _ _ _ (pf_bcast S) HB (encloses_mono _ _ _ _ _ _ _ (hcast_bcast S) He0) Hd0). }
      destruct (single_full X _ S t _ Hne H2) as [W K2]. apply wfs_iff in W. split; [|split]; try tauto. intros s Hs. apply inat_iff. apply K2; auto.
    + injection Hd0 as <-. injection Hg as <-. simpl in W0 |- *. destruct W0 as [W1 W2].
      pose proof (hcast_single X S [Ivl l h] zero (tdata u) ltac:(simpl; lia) He) as He1.
      destruct (single_full X zero S (Ivl l h) _ Hne He1) as [_ K1]. split; [|split]; auto. intros s Hs. specialize (K1 s Hs). simpl in K1. lra.
Qed.

Lemma eff_enclose e e' : nar e e' -> rel ends (eff A e None) (eff A' e' None).
Proof.
  intros He. unfold eff. cbn [tr_coef A A' trust_region]. eapply rel_bind; [apply enclose_iso; eauto|]. intros d d' Hd.
  eapply rel_mono; [apply narrower_ends|]. apply get_nth_rel; auto.
Qed.

Lemma elementwise_eff (B : arith R) gen e atr c : elementwise_fun B gen e (tr_coef atr) = Ok c ->
  exists t c0 r ew, eff B e atr = Ok t /\ e = c0 :: r /\ gen (left_end c0) (lo t, hi t) (max_degree B) = Ok ew /\ compose_enclosures B ew e = Ok c.
Proof.
  unfold elementwise_fun. intros H. apply bind_ok in H. destruct H as (t & Ht & H). cbv zeta in H. apply bind_ok in H. destruct H as (c0 & Hc & H).
  apply bind_ok in H. destruct H as (x0 & Hx & H). apply bind_ok in H. destruct H as (ew & Hew & H). destruct e as [|c1 r]; [discriminate|].
  cbn [get_nth nth_error] in Hc. injection Hc as ->. exists t, c0, r, ew. split; [exact Ht|]. split; [auto|]. split; [|auto].
  assert (E : x0 = left_end c0) by (destruct c0; [injection Hx as ->; auto|destruct (_ =? _)%nat; [injection Hx as ->; auto|discriminate]]).
  subst x0. destruct t; exact Hew.
Qed.

Lemma elem_iso gen k u e e' atr atr' : iso_gen gen -> (exists s, valid (tshape u) s) ->
  approx k X D zero u e -> approx k X D zero u e' -> region_ok u e atr -> region_ok u e' atr' -> nar e e' ->
  rel ends (eff A e atr) (eff A' e' atr') -> rel nar (elementwise_fun A gen e (tr_coef atr)) (elementwise_fun A' gen e' (tr_coef atr')).
Proof.
  intros HG Hne He He' HR HR' HN HE c c' H H'. apply elementwise_eff in H, H'.
  destruct H as (t & c0 & r & ew & Ht & E & Hg & H), H' as (t' & c0' & r' & ew' & Ht' & E' & Hg' & H').
  destruct (elem_region tr k u e atr t Htr Hne He HR Ht) as (x & rx & Ex & S1 & KD & S2 & S3 & V).
  destruct (elem_region tr' k u e' atr' t' Htr' Hne He' HR' Ht') as (x' & rx' & Ex' & S1' & _ & S2' & S3' & V').
  rewrite E in Ex. injection Ex as <- <-. rewrite E' in Ex'. injection Ex' as <- <-.
  pose proof (HE _ _ Ht Ht') as NT. apply narrower_sub in NT. destruct NT as (S & _ & [Wl _] & _ & NT). simpl in Wl, NT. rewrite S2 in Wl. subst S.
  assert (HN0 : narrower c0 c0') by (subst e e'; inversion HN; auto).
  assert (HW : nar ew ew').
  { refine (HG (tshape u) (left_end c0) (left_end c0') (lo t) (hi t) (lo t') (hi t') D ew ew' S1 S1' S2 S3 S2' S3' _ _ Hg Hg').
    - intros s Hs. specialize (NT s Hs). specialize (V s Hs). specialize (V' s Hs). lra.
    - destruct KD as [[v Ev]|KD]; [right|auto]. subst c0. destruct HN0 as (K & _ & _ & N). destruct c0' as [v'|]; [|discriminate].
      simpl in *. rewrite S1 in N. intros s Hs. specialize (N s Hs). lra. }
  refine (compose_iso A A' eq_refl HT _ _ _ _ HW HN c c' H H').
Qed.

(** ** The table of pushforward functions *)
Variables (sc : scalars R) (gs : generators R).
Hypothesis HX : (length X <= 1)%nat.

Definition irel (k : kind) (i i' : inter R) : Prop :=
  nar (i_enc i) (i_enc i') /\ (forall t t', i_tr i = Some t -> i_tr i' = Some t' -> regions t t') /\
  rel ends (eff A (i_enc i) (i_tr i)) (eff A' (i_enc i') (i_tr i')).
Inductive irels : list kind -> list (inter R) -> list (inter R) -> Prop :=
| irs_nil : irels [] [] []
| irs_cons k i i' ks is' is'' : irel k i i' -> irels ks is' is'' -> irels (k :: ks) (i :: is') (i' :: is'').

Lemma narrower_teq t t' : narrower (Arr t) (Arr t') -> teq t t'.
Proof. intros H. apply narrower_sub in H. destruct H as (s & _ & W & W' & N). simpl in *. split; [congruence|]. rewrite W. intros I HI. specialize (N I HI). lra. Qed.
Lemma is_constant_eq i i' : nar (i_enc i) (i_enc i') -> is_constant i = is_constant i'.
Proof.
  unfold is_constant. intros H. destruct H as [|c c' l l' Hc H]; auto. destruct Hc as (K & _). destruct c, c'; try discriminate; auto. destruct H; auto.
Qed.
Lemma constant_value_rel i i' : nar (i_enc i) (i_enc i') -> rel teq (constant_value i) (constant_value i').
Proof.
  unfold constant_value. intros H v v' Hv Hv'. destruct H as [|c c' l l' Hc H]; [discriminate|]. destruct c, c'; try discriminate; destruct H; try discriminate.
  injection Hv as <-. injection Hv' as <-. apply narrower_teq; auto.
Qed.
Lemma to_float_teq (t t' : tensor R) : teq t t' -> rel eq (to_float t) (to_float t').
Proof.
  intros [S E] x x'. unfold to_float, to_list. rewrite <- S. rewrite (map_ext_in (tdata t') (tdata t)); [intros H H'; congruence|].
  intros I HI. symmetry. apply E. apply all_idx_valid. auto.
Qed.

Lemma eff_none i i' k : irel k i i' -> rel ends (eff A (i_enc i) None) (eff A' (i_enc i') None).
Proof. intros (H & _). apply eff_enclose; auto. Qed.

Lemma pushforward_iso p ks vs args args' v k : prim_gens_iso gs p -> opaque_ok p -> args_ok X D zero ks vs args -> args_ok X D zero ks vs args' -> irels ks args args' ->
  forallb is_const ks = false -> result_kind X D p (combine ks (map tshape vs)) [v] = Some k ->
  rel nar (pushforward gs A p args) (pushforward gs A' p args').
Proof.
  intros HG HO HA HA' HR NC HK.
  assert (HE : forallb (fun a : kind * list nat => is_const (fst a)) (combine ks (map tshape vs)) = false).
  { rewrite <- NC. clear -HA. induction HA; simpl; auto. rewrite IHHA. reflexivity. }
  unfold result_kind in HK. rewrite HE in HK. clear HE.
  inversion HA as [|k1 v1 i1 ks1 vs1 is1 H1 HA1]; subst; [discriminate|].
  inversion HA' as [|? ? i1' ? ? is1' H1' HA1']; subst. inversion HR as [|? ? ? ? ? ? R1 HR1]; subst.
  inversion HA1 as [|k2 v2 i2 ks2 vs2 is2 H2 HA2]; subst.
  - (* one operand *)
    inversion HA1'; subst. inversion HR1; subst.
    destruct H1 as (N1 & A1 & RO1), H1' as (_ & A1' & RO1').
    destruct p; cbn -[gather] in HK |- *; try discriminate.
    + apply enegative_iso; auto; try exact HT. apply R1.
    + unfold epower. destruct (0 <=? y)%Z eqn:EY; [apply epower_nat_iso; auto; try exact HT; apply R1|].
      eapply rel_bind; [apply unit_rel|]. intros _ _ _.
      apply (elem_iso (gen_ipow gs y) k1 v1 (i_enc i1) (i_enc i1') None None); simpl; auto; [apply HG; apply Z.leb_gt in EY; lia|apply R1|eapply eff_none; eauto].
    + apply push_broadcast_iso. apply R1.
    + apply (elem_iso (gen_elem gs e) k1 v1 (i_enc i1) (i_enc i1') (i_tr i1) (i_tr i1')); auto; [apply R1|apply R1].
    + apply (gathers_iso convert_element_type_p); auto. apply R1.
    + apply (gathers_iso (reshape_p new_sizes)); auto. apply R1.
    + apply (gathers_iso (reduce_sum_p axes)); auto. apply R1.
    + apply (gathers_iso (reduce_window_sum_p ws)); auto. apply R1.
    + apply (gathers_iso (squeeze_p dims)); auto. apply R1.
    + apply (gathers_iso (transpose_p perm)); auto. apply R1.
  - inversion HA2 as [|]; subst; [|destruct p; cbn in HK; discriminate].
    inversion HA1' as [|? ? i2' ? ? ? H2' HA2']; subst. inversion HA2'; subst. inversion HR1 as [|? ? ? ? ? ? R2 HR2]; subst. inversion HR2; subst.
    destruct H1 as (N1 & A1 & RO1), H1' as (_ & A1' & RO1'), H2 as (N2 & A2 & RO2), H2' as (_ & A2' & RO2').
    destruct p; cbn -[gather] in HK |- *; try discriminate.
    + apply eadd_iso; auto; try exact HT; [apply R1|apply R2].
    + apply esubtract_iso; auto; try exact HT; [apply R1|apply R2].
    + apply emultiply_iso; auto; try exact HT; [apply R1|apply R2].
    + unfold edivide, epower. cbn [Z.leb Z.compare].
      eapply rel_bind with (Q := nar); [|intros ib ib' Hib; apply emultiply_iso; auto; try exact HT; apply R1].
      eapply rel_bind; [apply unit_rel|]. intros _ _ _.
      apply (elem_iso (gen_ipow gs (-1)) k2 v2 (i_enc i2) (i_enc i2') None None); simpl; auto; [apply R2|eapply eff_none; eauto].
    + destruct (shape_eqb _ _) in HK; [|discriminate].
      rewrite (is_constant_eq i2 i2') by apply R2. destruct (negb _); [apply rel_err|].
      eapply rel_bind; [apply constant_value_rel; apply R2|]. intros t t' Ht. eapply rel_bind; [apply to_float_teq; exact Ht|]. intros q q' <-.
      unfold epower_float. eapply rel_bind; [apply unit_rel|]. intros _ _ _. destruct (exponent gs q) eqn:EQ.
      * apply epower_nat_iso; auto; try exact HT; apply R1.
      * apply rel_err.
      * apply (elem_iso (gen_pow gs q) k1 v1 (i_enc i1) (i_enc i1') None None); simpl; auto; [apply R1|eapply eff_none; eauto].
    + apply ebil_iso; auto; try exact HT; [apply dot_sums|apply R1|apply R2].
    + apply ebil_iso; auto; try exact HT; [apply conv_sums; auto|apply R1|apply R2].
Qed.
End Fixed.
