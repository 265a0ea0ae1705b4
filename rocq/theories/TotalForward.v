(** The pushforward functions raise only what a generator raises. *)
From Coq Require Import Reals Lra Psatz.
From Verif Require Import Base Tensor IntervalArith Polynomials Enclosure TensorLemmas Spec IntervalProofs PowerProofs PolyProofs Graded
  EnclosureOps EnclosureProofs BilinearProofs ComposeProofs PropEnclosure PropDegree GraphEditor GraphSpec JaxBound JaxSpec JaxLemmas JaxIndex JaxGather JaxPush JaxDot ConvIndex ConvProofs JaxOps JaxForward JaxEval JaxSize
  Total TotalSpec.
Open Scope R_scope.

Definition okor {A} (Bad : exn -> Prop) (P : A -> Prop) (r : res A) : Prop := match r with Ok a => P a | Err e => Bad e end.
Lemma okor_bind {A B} Bad (Q : A -> Prop) (P : B -> Prop) r (f : A -> res B) : okor Bad Q r -> (forall a, r = Ok a -> Q a -> okor Bad P (f a)) -> okor Bad P (bind r f).
Proof. destruct r; simpl; auto. Qed.
Lemma okor_mono {A} Bad (P Q : A -> Prop) r : (forall a, r = Ok a -> P a -> Q a) -> okor Bad P r -> okor Bad Q r.
Proof. destruct r; simpl; auto. Qed.
Lemma okor_bad {A} (Bad Bad' : exn -> Prop) (P : A -> Prop) r : (forall e, Bad e -> Bad' e) -> okor Bad P r -> okor Bad' P r.
Proof. destruct r; simpl; auto. Qed.
Lemma tot_okor {A} Bad (P : A -> Prop) r : tot P r -> okor Bad P r.
Proof. intros (a & -> & H). exact H. Qed.

Lemma enumerate_length {A} (l : list A) : forall k, length (enumerate_from k l) = length l.
Proof. induction l; intros k; simpl; auto. Qed.

(** ** Intervals stay intervals *)
Definition isI (c : coef R) : Prop := exists l h, c = Ivl l h.
Lemma iadd_I a b c : iadd a b = Ok c -> isI a \/ isI b -> isI c.
Proof.
  intros H K. destruct a, b; simpl in H; [destruct K as [(? & ? & [=])|(? & ? & [=])]| | |]; ok_inv; subst; eexists; eexists; reflexivity.
Qed.
Lemma ibil_I a b f p c : ibilinear a b f p = Ok c -> isI a \/ isI b -> isI c.
Proof.
  intros H K. destruct a, b; cbn [ibilinear] in H; [destruct K as [(? & ? & [=])|(? & ? & [=])]| | |]; destruct p; ok_inv; subst; eexists; eexists; reflexivity.
Qed.
Lemma ipower_I a k c : ipower a k = Ok c -> isI a -> k <> 0%Z -> isI c.
Proof.
  intros H (l & h & ->) Hk. unfold ipower in H. destruct (k <? 0)%Z; [discriminate|]. destruct (Z.eqb_spec k 0); [congruence|]. ok_inv; subst. eexists; eexists; reflexivity.
Qed.
Lemma iouter_product_I a b n c : iouter_product a b n = Ok c -> isI a \/ isI b -> isI c.
Proof. unfold iouter_product. destruct (_ || _); [discriminate|]. apply ibil_I. Qed.
Lemma running_I a n m : isI a -> forall r c, isI r -> running_outer r a n m = Ok c -> isI c.
Proof.
  intros Ha. induction m as [|m IH]; intros r c Hr H; cbn [running_outer] in H; [injection H as <-; auto|].
  apply bind_ok in H. destruct H as (r' & H1 & H). apply (IH r' c); auto. eapply iouter_product_I; eauto.
Qed.
Lemma iouter_power_I a k n c : iouter_power a k n = Ok c -> isI a -> k <> 0%Z -> isI c.
Proof.
  intros H Ha Hk. unfold iouter_power in H. destruct (k <? 0)%Z; [discriminate|]. destruct (Z.eqb_spec k 0); [congruence|].
  destruct (indim a =? 0)%nat; [eapply ipower_I; eauto|]. apply bind_ok in H. destruct H as (run & Hr & H). pose proof (running_I _ _ _ Ha _ _ Ha Hr) as HI.
  destruct (negb _); [injection H as <-; auto|]. destruct (generalized_diag_ndarray _ k) as [eye|er].
  - ok_inv. eapply iadd_I; eauto. left. eapply ibil_I; eauto.
  - destruct er; try discriminate. injection H as <-. auto.
Qed.
Lemma eval_I tr : isI tr -> forall cs c, (2 <= length cs)%nat -> eval_taylor_enclosure cs tr = Ok c -> isI c.
Proof.
  intros Htr cs c HL H. unfold eval_taylor_enclosure, eval_polynomial in H.
  assert (Gen : forall cs i zi run, isI run \/ (1 <= i)%nat /\ cs <> [] \/ i = 0%nat /\ (2 <= length cs)%nat ->
    eval_poly_loop iadd inner_product (fun x k => iouter_power x k 0) tr i zi run cs = Ok c -> isI c).
  { clear cs HL H. induction cs as [|x cs IH]; intros i zi run HR H; cbn [eval_poly_loop] in H.
    - injection H as <-. destruct HR as [HR|[[_ HR]|[_ HR]]]; auto; [congruence|simpl in HR; lia].
    - apply bind_ok in H. destruct H as (zi' & Hz & H). apply bind_ok in H. destruct H as (t & Ht & H). apply bind_ok in H. destruct H as (r' & Hr & H).
      apply (IH _ _ _) in H; auto. destruct i as [|i].
      + destruct HR as [HR|[[HR _]|[_ HR]]]; [left; eapply iadd_I; eauto|lia|]. right; left. split; [lia|]. intros ->. simpl in HR. lia.
      + left. eapply iadd_I; eauto. right. simpl in Hz. unfold inner_product, itensordot in Ht. eapply ibil_I; eauto. right. eapply iouter_power_I; eauto. lia. }
  apply (Gen cs 0%nat one_c zero_c); auto.
Qed.
Lemma enclose_I enc (tr : tensor R * tensor R) e : nonconstant enc 0 \/ (2 <= length enc)%nat -> enclose_enclosure enc tr 0 = Ok e -> exists c, e = [c] /\ isI c.
Proof.
  intros HL H. unfold enclose_enclosure in H. destruct (Nat.leb_spec (length enc) (0 + 1)).
  - injection H as <-. destruct HL as [(l & h & ->)|HL]; [|lia]. eexists. split; [reflexivity|]. eexists; eexists; reflexivity.
  - apply bind_ok in H. destruct H as (c & Hc & H). injection H as <-. simpl. exists c. split; auto. eapply eval_I; [|exact (ltac:(lia) : (2 <= length enc)%nat)|exact Hc]. eexists; eexists; reflexivity.
Qed.

(** ** Shapes from the relation between enclosure and value *)
Section Fixed.
Variables (X : list nat) (tr : tensor R * tensor R) (D : nat).
Let z : list nat -> R := fun _ => 0.
Hypothesis Htr : in_region X tr z.
Let A := mkArith D tr.
Lemma Hshape : tshape (fst tr) = X /\ tshape (snd tr) = X.
Proof. destruct Htr as (H1 & H2 & _). auto. Qed.

Lemma encl_all1 (P : nat -> list nat -> Prop) S e f : (exists s, valid S s) -> encloses P X S e z f -> all1 (shp X P) 0 e.
Proof.
  intros [s Hs] [_ H]. specialize (H s Hs). apply encl_from_F2i in H. destruct H as (us & HF & _).
  eapply F2i_all1; [|exact HF]. intros i c u (p & Hp & W & _). exists p. auto.
Qed.
Lemma approx_cast k v e : (exists s, valid (tshape v) s) -> approx k X D z v e -> all1 (shp X (bcast (tshape v))) 0 e.
Proof.
  intros N (H & _). apply (encl_all1 _ _ e (tdata v) N). exact (encloses_mono _ _ _ _ _ _ _ (hcast_bcast _) (holds_hcast X z k v e H)).
Qed.
Lemma approx_full k v e : is_cast k = false -> (exists s, valid (tshape v) s) -> approx k X D z v e -> all1 (shp X (full (tshape v))) 0 e.
Proof. intros NK N (H & _). apply (encl_all1 _ _ e (tdata v) N). exact (holds_full X z k v e NK H). Qed.
Lemma approx_rk k v e : k <> KCast -> (exists s, valid (tshape v) s) -> approx k X D z v e -> all1 (shp X (rk (tshape v))) 0 e.
Proof.
  intros NK N H i c Hc. destruct (is_cast k) eqn:K.
  - destruct k; try discriminate; [|congruence]. destruct (approx_cast _ _ _ N H i c Hc) as (p & Hp & W). exists p. split; auto. split; [exact Hp|].
    destruct H as ((_ & HR) & _). specialize (HR i c Hc). rewrite (wfs_indim _ _ W), app_length, rep_length in HR. simpl in HR. lia.
  - destruct (approx_full _ _ _ K N H i c Hc) as (p & Hp & W). exists p. split; auto. rewrite Hp. split; [apply compat_refl|auto].
Qed.
Lemma approx_ne k v e : approx k X D z v e -> e <> [].
Proof. intros (H & _). apply (holds_hcast X z k v e) in H. apply H. Qed.
Lemma approx_head k v c0 e : (exists s, valid (tshape v) s) -> approx k X D z v (c0 :: e) -> wfs (tshape v) c0.
Proof. intros N (H & _). apply (holds_hcast X z k v) in H. eapply hcast_wfs; eauto. Qed.
Lemma approx_len k v e : approx k X D z v e -> (length e <= D + 1)%nat.
Proof. intros (_ & _ & H & _). exact H. Qed.
Lemma shp_le S S' i c : compat S S' -> shp X (bcast S) i c -> shp X (bcast S') i c.
Proof. intros C (p & Hp & W). exists p. split; auto. unfold bcast in *. eapply compat_trans; eauto. Qed.

End Fixed.

(** ** Single coefficients (degree 0) *)
Section Argc.
Variable D : nat.
Definition argc (k : kind) (v : tensor R) (e : enclosure R) : Prop :=
  match k with KConst => e = [Arr v] | _ => nonconstant e D end.
Lemma argc_len k v e : argc k v e -> D = 0%nat -> exists c, e = [c] /\ (k <> KConst -> isI c).
Proof.
  intros H HD. destruct k; unfold argc, nonconstant in H; rewrite ?HD in H; simpl in H; [subst; eexists; split; [reflexivity|congruence]|..]; destruct H as (l & h & ->); eexists; (split; [reflexivity|intros _; exists l, h; reflexivity]).
Qed.
Lemma argc_2 k v e : argc k v e -> (1 <= D)%nat -> k <> KConst -> (2 <= length e)%nat.
Proof. intros H HD HK. destruct k; [congruence|..]; unfold argc, nonconstant in H; replace (D =? 0)%nat with false in H by (symmetry; apply Nat.eqb_neq; lia); auto. Qed.
Lemma argc_1 k v e : argc k v e -> (1 <= length e)%nat.
Proof. destruct k; simpl; [intros ->; simpl; lia|..]; unfold nonconstant; (destruct (D =? 0)%nat; [intros (l & h & ->); simpl; lia|lia]). Qed.
Lemma nonconstant_intro e : (D = 0%nat -> exists c, e = [c] /\ isI c) -> ((1 <= D)%nat -> (2 <= length e)%nat) -> nonconstant e D.
Proof.
  intros H0 H1. unfold nonconstant. destruct (Nat.eqb_spec D 0) as [E|E]; [|apply H1; lia]. destruct (H0 E) as (c & -> & l & h & ->). eauto.
Qed.
End Argc.

Lemma eadd_I tr x y e : eadd (mkArith 0 tr) [x] [y] = Ok e -> isI x \/ isI y -> exists c, e = [c] /\ isI c.
Proof.
  intros H K. unfold eadd in H. cbn [add_coeffs] in H. apply bind_ok in H. destruct H as (l & Hl & H). apply bind_ok in Hl. destruct Hl as (c & Hc & Hl). injection Hl as <-.
  cbn in H. injection H as <-. exists c. split; auto. eapply iadd_I; eauto.
Qed.
Lemma ineg_I x : isI x -> isI (ineg x).
Proof. intros (l & h & ->). eexists; eexists; reflexivity. Qed.
Lemma esub_I tr x y e : esubtract (mkArith 0 tr) [x] [y] = Ok e -> isI x \/ isI y -> exists c, e = [c] /\ isI c.
Proof. intros H K. unfold esubtract in H. simpl in H. apply eadd_I in H; auto. destruct K; [auto|right; apply ineg_I; auto]. Qed.
Lemma eneg_I tr x e : enegative (mkArith 0 tr) [x] = Ok e -> isI x -> exists c, e = [c] /\ isI c.
Proof. intros H K. simpl in H. injection H as <-. eexists; split; [reflexivity|]. apply ineg_I; auto. Qed.
Lemma emul_I tr x y e : emultiply (mkArith 0 tr) [x] [y] = Ok e -> isI x \/ isI y -> exists c, e = [c] /\ isI c.
Proof.
  intros H K. unfold emultiply in H. apply bind_ok in H. destruct H as (_ & _ & H). apply bind_ok in H. destruct H as (_ & _ & H). apply bind_ok in H. destruct H as (p & Hp & H).
  unfold poly_bilinear in Hp. cbn [enumerate enumerate_from foldM length Nat.add Nat.sub repeat] in Hp. ok_inv. subst. unfold add_at in *. cbn [get_nth nth_error bind set_nth Nat.add] in *. ok_inv. subst.
  cbn in H. injection H as <-. eexists. split; [reflexivity|]. eapply iadd_I; eauto. right. eapply ibil_I; eauto.
Qed.
Lemma epow_I tr x n e : (1 <= n)%nat -> epower_nat (mkArith 0 tr) [x] n = Ok e -> isI x -> exists c, e = [c] /\ isI c.
Proof.
  intros Hn H K. unfold epower_nat in H. apply bind_ok in H. destruct H as (_ & _ & H). apply bind_ok in H. destruct H as (p & Hp & H).
  unfold integer_power in Hp. destruct (_ <? 0)%Z; [discriminate|]. destruct (Z.eqb_spec (Z.of_nat n) 0); [lia|]. rewrite Nat2Z.id in Hp. simpl length in Hp. cbn [Nat.sub Nat.mul Nat.add seq mapM] in Hp.
  apply bind_ok in Hp. destruct Hp as (c & Hc & Hp). cbn [bind] in Hp. injection Hp as <-. cbn in H. injection H as <-. exists c. split; auto.
  unfold get_coeff in Hc. cbn [length Nat.sub partitions Nat.eqb foldM] in Hc. apply bind_ok in Hc. destruct Hc as (c' & Hc & E). injection E as <-.
  apply bind_ok in Hc. destruct Hc as ((r, w) & Hr & Hc). apply bind_ok in Hc. destruct Hc as (_ & _ & Hc). apply bind_ok in Hc. destruct Hc as (m & _ & Hc). apply bind_ok in Hc. destruct Hc as (t & Ht & Hc).
  eapply iadd_I; eauto. right. unfold imul in Ht. eapply ibil_I; eauto. right.
  unfold run_product in Hr. cbn [enumerate enumerate_from foldM get_nth nth_error bind] in Hr. ok_inv. subst.
  injection Hr as -> _. unfold elementwise_term_product_coefficient in Hb1. eapply ibil_I; eauto. right.
  unfold elementwise_term_power_coefficient in Hb0. destruct (_ <? _)%nat in Hb0; [discriminate|]. eapply iouter_power_I; eauto.
Qed.
Lemma ebil_I tr x y pbb e : earbitrary_bilinear (mkArith 0 tr) [x] [y] pbb = Ok e -> isI x \/ isI y -> exists c, e = [c] /\ isI c.
Proof.
  intros H K. unfold earbitrary_bilinear in H. cbn [max_degree enumerate enumerate_from foldM length Nat.add Nat.sub Nat.min repeat] in H. ok_inv. subst. unfold add_at in *. cbn [get_nth nth_error bind set_nth Nat.add] in *. ok_inv. subst.
  eexists. split; [reflexivity|]. eapply iadd_I; eauto. right. unfold term_enclosure_coefficient in *. cbn [max_degree Nat.add Nat.leb] in *. eapply ibil_I; eauto.
Qed.
Lemma map_I f (e e' : enclosure R) D : map_over_enclosure e f = Ok e' -> nonconstant e D -> nonconstant e' D.
Proof.
  intros H K. unfold nonconstant in *. destruct (D =? 0)%nat; [|rewrite (mapM_length _ _ _ H); auto]. destruct K as (l & h & ->). unfold map_over_enclosure in H. cbn [mapM map_coef] in H. ok_inv. subst. eauto.
Qed.

(** ** The pushforward functions *)
Lemma tot_ncF Bad (Q : enclosure R -> Prop) D L r : tot (fun e => Q e /\ length e = L) r -> ((1 <= D)%nat -> (2 <= L)%nat) ->
  (D = 0%nat -> forall e, r = Ok e -> exists c, e = [c] /\ isI c) -> okor Bad (fun e => nonconstant e D) r.
Proof.
  intros (e & E & _ & HL) H1 H0. rewrite E in *. simpl. apply nonconstant_intro; [|intros; rewrite HL; auto]. intros E0. apply H0; auto.
Qed.

Section Forward.
Variables (X : list nat) (tr : tensor R * tensor R).
Let z : list nat -> R := fun _ => 0.
Hypothesis Htr : in_region X tr z.
Let HS := Hshape X tr Htr.

Lemma two_const ka kb : is_const ka && is_const kb = false -> ka <> KConst \/ kb <> KConst.
Proof. destruct ka; intros H; [right; destruct kb; discriminate|left; discriminate..]. Qed.

Lemma sum_or D op Bad a b (v : tensor R) ka kb ea eb : (op = eadd (mkArith D tr) \/ op = esubtract (mkArith D tr)) ->
  (exists s, valid (tshape a) s) -> (exists s, valid (tshape b) s) -> bshape (tshape a) (tshape b) = Some (tshape v) ->
  approx ka X D z a ea -> approx kb X D z b eb -> argc D ka a ea -> argc D kb b eb -> is_const ka && is_const kb = false ->
  okor Bad (fun e => nonconstant e D) (op ea eb).
Proof.
  intros Hop Na Nb HB Ha Hb Ca Cb HK. apply two_const in HK. destruct (bshape_spec _ _ _ HB) as [La Lb].
  assert (Wa : all1 (shp X (bcast (tshape v))) 0 ea) by (eapply all1_mono; [intros i c; apply shp_le; exact La|eapply approx_cast; eauto]).
  assert (Wb : all1 (shp X (bcast (tshape v))) 0 eb) by (eapply all1_mono; [intros i c; apply shp_le; exact Lb|eapply approx_cast; eauto]).
  eapply (tot_ncF Bad _ D).
  - destruct Hop as [->| ->]; [exact (eadd_tot X tr D HS _ _ _ (pf_bcast (tshape v)) ea eb Wa Wb)|exact (esub_tot X tr D HS _ _ _ (pf_bcast (tshape v)) ea eb Wa Wb)].
  - intros HD. destruct HK as [HK|HK]; [pose proof (argc_2 _ _ _ _ Ca HD HK)|pose proof (argc_2 _ _ _ _ Cb HD HK)]; lia.
  - intros -> e He. destruct (argc_len _ _ _ _ Ca eq_refl) as (x & -> & Ix). destruct (argc_len _ _ _ _ Cb eq_refl) as (y & -> & Iy).
    assert (isI x \/ isI y) by tauto. destruct Hop as [->| ->]; [eapply eadd_I|eapply esub_I]; eauto.
Qed.

Lemma mul_tot_len D a b (v : tensor R) ka kb ea eb :
  (exists s, valid (tshape a) s) -> (exists s, valid (tshape b) s) -> bshape (tshape a) (tshape b) = Some (tshape v) ->
  approx ka X D z a ea -> approx kb X D z b eb ->
  tot (fun e => True /\ length e = Nat.min (length ea + length eb - 1) (D + 1)) (emultiply (mkArith D tr) ea eb).
Proof.
  intros Na Nb HB Ha Hb. destruct (bshape_spec _ _ _ HB) as [La Lb].
  assert (Wa : all1 (shp X (bcast (tshape v))) 0 ea) by (eapply all1_mono; [intros i c; apply shp_le; exact La|eapply approx_cast; eauto]).
  assert (Wb : all1 (shp X (bcast (tshape v))) 0 eb) by (eapply all1_mono; [intros i c; apply shp_le; exact Lb|eapply approx_cast; eauto]).
  eapply tot_mono; [|apply (emul_tot X tr D HS _ _ _ (pf_bcast (tshape v)) ea eb Wa Wb); eapply approx_ne; eauto]. simpl. tauto.
Qed.
Lemma mul_or D Bad a b (v : tensor R) ka kb ea eb :
  (exists s, valid (tshape a) s) -> (exists s, valid (tshape b) s) -> bshape (tshape a) (tshape b) = Some (tshape v) ->
  approx ka X D z a ea -> approx kb X D z b eb -> argc D ka a ea -> argc D kb b eb -> is_const ka && is_const kb = false ->
  okor Bad (fun e => nonconstant e D) (emultiply (mkArith D tr) ea eb).
Proof.
  intros Na Nb HB Ha Hb Ca Cb HK. apply two_const in HK.
  eapply (tot_ncF Bad _ D); [exact (mul_tot_len D a b v ka kb ea eb Na Nb HB Ha Hb)| |].
  - intros HD. pose proof (argc_1 _ _ _ _ Ca). pose proof (argc_1 _ _ _ _ Cb). destruct HK as [HK|HK]; [pose proof (argc_2 _ _ _ _ Ca HD HK)|pose proof (argc_2 _ _ _ _ Cb HD HK)]; lia.
  - intros -> e He. destruct (argc_len _ _ _ _ Ca eq_refl) as (x & -> & Ix). destruct (argc_len _ _ _ _ Cb eq_refl) as (y & -> & Iy).
    eapply emul_I; eauto. tauto.
Qed.
Lemma neg_or D Bad a ka ea : (exists s, valid (tshape a) s) -> approx ka X D z a ea -> argc D ka a ea -> ka <> KConst ->
  okor Bad (fun e => nonconstant e D) (enegative (mkArith D tr) ea).
Proof.
  intros Na Ha Ca HK. eapply (tot_ncF Bad _ D).
  - apply (eneg_tot X tr D HS _ _ _ (pf_bcast (tshape a)) ea). eapply approx_cast; eauto.
  - intros HD. pose proof (argc_2 _ _ _ _ Ca HD HK). lia.
  - intros -> e He. destruct (argc_len _ _ _ _ Ca eq_refl) as (x & -> & Ix). eapply eneg_I; eauto.
Qed.
Lemma ipow_or D Bad a ka ea n : (1 <= n)%nat -> (exists s, valid (tshape a) s) -> approx ka X D z a ea -> argc D ka a ea -> ka <> KConst ->
  okor Bad (fun e => nonconstant e D) (epower_nat (mkArith D tr) ea n).
Proof.
  intros Hn Na Ha Ca HK. eapply (tot_ncF Bad _ D).
  - apply (epower_tot X tr D HS _ _ _ (pf_bcast (tshape a)) ea n); auto.
    + destruct ea as [|c0 r]; [exfalso; eapply approx_ne; eauto|]. exists c0, r. split; auto. exists (tshape a). split; [apply compat_refl|].
      simpl. rewrite app_nil_r. exact (wfs_lo _ _ (approx_head _ _ _ _ _ _ Na Ha)).
    + eapply approx_cast; eauto.
  - intros HD. pose proof (argc_2 _ _ _ _ Ca HD HK). nia.
  - intros -> e He. destruct (argc_len _ _ _ _ Ca eq_refl) as (x & -> & Ix). eapply epow_I; eauto.
Qed.

(** The region and the centre handed to a generator. *)
Lemma elem_region D k u c0 r atr : (exists s, valid (tshape u) s) -> approx k X D z u (c0 :: r) -> region_ok u (c0 :: r) atr ->
  tot (fun t => exists l h, (match t with Arr x => (x, x) | Ivl l h => (l, h) end) = (l, h) /\ tshape l = tshape u /\ tshape h = tshape u /\
         forall s, valid (tshape u) s -> tdata l s <= tdata (left_end c0) s <= tdata h s)
    (match tr_coef atr with Some t => Ok t | None => d0 <- enclose_enclosure (c0 :: r) tr 0 ;; get_nth d0 0 end).
Proof.
  intros Na Ha HR. set (S := tshape u) in *. destruct atr as [[l h]|]; cbn [tr_coef].
  - apply tot_ok. exists l, h. split; auto. destruct HR as (H1 & H2 & _ & H4). split; auto. split; auto. intros s Hs. apply (H4 c0 r s eq_refl Hs).
  - destruct (enclose_tot X tr HS _ _ _ (pf_bcast S) (c0 :: r) 0 (approx_cast X D k u _ Na Ha)) as (d0 & E & _ & L).
    rewrite E. cbn [bind]. simpl in L. destruct d0 as [|t [|]]; simpl in L; try lia. apply tot_ok.
    pose proof (approx_head _ _ _ _ _ _ Na Ha) as W0. fold S in W0.
    pose proof Ha as (He & Pe & Le). apply (holds_hcast X z k u _) in He. fold S in He.
    assert (up : forall f, encloses (hcast S) X S (c0 :: r) z f -> wfs S t /\ forall s, valid S s -> inat t s (f s)).
    { intros f Hf. destruct (enclose0_head X tr z S c0 r f _ Na Htr Hf E) as (x & [= <-] & Wx).
      apply single_full with (X := X) (z := z); auto. apply hcast_single; [simpl; lia|]. apply hcast_of_bcast; auto.
      exact (encloses_enclose _ _ _ _ _ _ _ _ _ _ (pf_bcast S) Htr (encloses_mono _ _ _ _ _ _ _ (hcast_bcast S) Hf) E). }
    destruct (up _ He) as [W K].
    assert (Kc : forall s, valid S s -> inat t s (tdata (left_end c0) s)).
    { destruct c0 as [x|l h].
      - assert (He0 : encloses (hcast S) X S (Arr x :: r) z (tdata x)).
        { eapply encloses_ext; [|refine (encl_at0 (hcast S) X S x r z (tdata u) _ He); intros p [Hp _]; exact Hp].
          intros s Hs. simpl in W0 |- *. rewrite W0, bidx_valid; auto. }
        exact (proj2 (up _ He0)).
      - assert (D0 : r = []).
        { destruct D as [|D']; [destruct r; auto; simpl in Le; lia|]. destruct (Pe 0%nat (Ivl l h)) as [y Hy]; [lia|reflexivity|discriminate]. }
        subst r. simpl in E. injection E as <-. intros s Hs. specialize (K s Hs). simpl in K |- *. lra. }
    destruct t as [x|l h]; simpl in W |- *.
    + exists x, x. split; auto. split; auto. split; auto. intros s Hs. specialize (Kc s Hs). simpl in Kc. lra.
    + exists l, h. destruct W. split; auto.
Qed.
Lemma elem_or D Q gen sigma k u e atr : valid_gen_if Q gen sigma -> nonconstant_gen gen -> k <> KCast -> (exists s, valid (tshape u) s) ->
  approx k X D z u e -> region_ok u e atr -> argc D k u e ->
  okor (raises gen D) (fun r => all1 (shp X (full (tshape u))) 0 r /\ r <> [] /\ (k <> KConst \/ D = 0%nat -> nonconstant r D)) (elementwise_fun (mkArith D tr) gen e (tr_coef atr)).
Proof.
  intros HV HN NK Na Ha HR HC. set (S := tshape u) in *. destruct e as [|c0 r]; [exfalso; eapply approx_ne; eauto|].
  unfold elementwise_fun. cbn [trust_region max_degree get_nth nth_error bind].
  eapply okor_bind; [apply tot_okor, (elem_region D k u c0 r atr Na Ha HR)|]. intros t _ (l & h & -> & Sl & Sh & HB). cbn [bind]. fold S in Sl, Sh, HB.
  pose proof (approx_head _ _ _ _ _ _ Na Ha) as W0. fold S in W0. pose proof (wfs_lo _ _ W0 : tshape (left_end c0) = S) as W1.
  eapply okor_bind with (Q := fun x0 => x0 = left_end c0).
  { destruct c0 as [x|a b]; [reflexivity|]. destruct D as [|D']; [reflexivity|]. destruct Ha as (_ & Pe & _). destruct (Pe 0%nat (Ivl a b)) as [y Hy]; [lia|reflexivity|discriminate]. }
  intros x0 _ ->.
  assert (G : okor (raises gen D) (fun ew => (0 < length ew <= D + 1)%nat /\ Forall (wfs S) ew /\ nonconstant ew D) (gen (left_end c0) (l, h) D)).
  { destruct (gen (left_end c0) (l, h) D) as [ew|er] eqn:EG; simpl.
    - destruct (HV S _ l h D ew W1 Sl Sh HB EG) as (L & _ & WF & _). split; auto. split; auto. exact (HN S _ l h D ew W1 Sl Sh HB EG).
    - exists S, (left_end c0), l, h. auto. }
  eapply okor_bind; [exact G|]. intros ew _ (L & WF & NC).
  assert (Wr : all1 (shp X (rk S)) 1 r) by (apply (all1_inv _ 0 c0 r), (approx_rk X D k u _ NK Na Ha)).
  destruct (compose_tot X tr D HS S c0 r ew Wr L WF) as (out & EO & WO & L1 & LO). rewrite EO. simpl. split; auto.
  split; [intros ->; simpl in L1; lia|]. intros HK. apply nonconstant_intro.
  - intros ->. unfold nonconstant in NC. simpl in NC. destruct NC as (a & b & ->).
    unfold compose_enclosures in EO. cbn [enumerate enumerate_from foldM compose_term bind] in EO. apply bind_ok in EO. destruct EO as (y & Hy & EO). injection EO as ->. eapply eadd_I; eauto. right. eexists; eexists; reflexivity.
  - intros HD. destruct HK as [HK|HK]; [|lia]. pose proof (argc_2 _ _ _ _ HC HD HK) as L2. unfold nonconstant in NC. replace (D =? 0)%nat with false in NC by (symmetry; apply Nat.eqb_neq; lia).
    destruct LO as [LO|[-> |LO]]; auto; [lia|simpl in L2; lia].
Qed.

(** Quotients *)
Lemma div_or D Q gp sigma a b (v : tensor R) ka kb ea eb : valid_gen_if Q (gp (-1)%Z) sigma -> nonconstant_gen (gp (-1)%Z) ->
  (exists s, valid (tshape a) s) -> (exists s, valid (tshape b) s) -> bshape (tshape a) (tshape b) = Some (tshape v) -> kb <> KCast ->
  approx ka X D z a ea -> approx kb X D z b eb -> argc D ka a ea -> argc D kb b eb -> is_const ka && is_const kb = false ->
  okor (raises (gp (-1)%Z) D) (fun e => nonconstant e D) (edivide (mkArith D tr) gp ea eb).
Proof.
  intros HV HN Na Nb HB NK Ha Hb Ca Cb HK. apply two_const in HK. destruct (bshape_spec _ _ _ HB) as [La Lb]. unfold edivide, epower. cbn [Z.leb Z.compare].
  eapply okor_bind with (Q := fun r => all1 (shp X (full (tshape b))) 0 r /\ r <> [] /\ (kb <> KConst \/ D = 0%nat -> nonconstant r D)).
  { eapply okor_bind; [apply tot_okor, (validate_tot X tr D HS (bcast (tshape b)) eb), (approx_cast X D kb b eb Nb Hb)|]. intros _ _ _.
    exact (elem_or D _ _ sigma kb b eb None HV HN NK Nb Hb I Cb). }
  intros ib _ (Wi & Ni & Hi).
  assert (Wa : all1 (shp X (bcast (tshape v))) 0 ea) by (eapply all1_mono; [intros i c; apply shp_le; exact La|eapply approx_cast; eauto]).
  assert (Wi' : all1 (shp X (bcast (tshape v))) 0 ib) by (eapply all1_mono; [|exact Wi]; intros i c (p & Hp & W); exists p; split; auto; rewrite Hp; exact Lb).
  eapply (tot_ncF _ _ D); [exact (emul_tot X tr D HS _ _ _ (pf_bcast (tshape v)) ea ib Wa Wi' (approx_ne _ _ _ _ _ Ha) Ni)| |].
  - intros HD. pose proof (argc_1 _ _ _ _ Ca). assert (1 <= length ib)%nat by (destruct ib; [congruence|simpl; lia]).
    destruct HK as [HK|HK]; [pose proof (argc_2 _ _ _ _ Ca HD HK); lia|]. specialize (Hi (or_introl HK)). unfold nonconstant in Hi. replace (D =? 0)%nat with false in Hi by (symmetry; apply Nat.eqb_neq; lia). lia.
  - intros -> e He. destruct (argc_len _ _ _ _ Ca eq_refl) as (x & -> & Ix). destruct (Hi (or_intror eq_refl)) as (l & h & ->). eapply emul_I; eauto. right. eexists; eexists; reflexivity.
Qed.

(** Pass-through primitives *)
Lemma gather_tot g (u : tensor R) s : g_shape g (tshape u) = Ok s -> tot (fun w => tshape w = s) (gather g u).
Proof. intros H. unfold gather. rewrite H. cbn [bind]. apply tot_ok. reflexivity. Qed.
Lemma map_coef_tot (f : tensor R -> res (tensor R)) sh c : wfs sh c -> (forall u, tshape u = sh -> tot (fun _ => True) (f u)) -> tot (fun _ => True) (map_coef f c).
Proof.
  intros W H. destruct c as [t|l h]; simpl in W |- *.
  - destruct (H t W) as (y & -> & _). apply tot_ok. auto.
  - destruct W as [W1 W2]. destruct (H l W1) as (y & -> & _). destruct (H h W2) as (y' & -> & _). apply tot_ok. auto.
Qed.
Lemma map_over_tot f e : (forall i c, nth_error e i = Some c -> tot (fun _ => True) (map_coef f c)) -> tot (fun _ => True) (map_over_enclosure (e : enclosure R) f).
Proof.
  intros H. eapply tot_mono; [|apply (mapM_tot (fun _ _ => True))]; auto. intros c Hc. apply In_nth_error in Hc. destruct Hc as [i Hi]. eauto.
Qed.
Lemma gather_or D Bad g k a ea : is_cast k = false -> k <> KConst -> (exists s, valid (tshape a) s) -> approx k X D z a ea -> argc D k a ea ->
  (forall i, (i < length ea)%nat -> exists s', g_shape g (tshape a ++ rep i X) = Ok s') ->
  okor Bad (fun e => nonconstant e D) (map_over_enclosure ea (gather g)).
Proof.
  intros NK NC Na Ha Ca Hg. assert (Nc : nonconstant ea D) by (destruct k; [congruence|exact Ca..]).
  destruct (map_over_tot (gather g) ea) as (e & E & _).
  - intros i c Hi. destruct (approx_full X D k a ea NK Na Ha i c Hi) as (p & -> & W). simpl in W. apply (map_coef_tot _ _ _ W).
    intros u Hu. destruct (Hg i) as [s' Hs]; [apply nth_error_Some; congruence|]. rewrite <- Hu in Hs. eapply tot_mono; [|apply (gather_tot g u s' Hs)]. auto.
  - rewrite E. simpl. eapply map_I; eauto.
Qed.
Lemma convert_or D Bad k (a : tensor R) ea : k <> KConst -> argc D k a ea -> okor Bad (fun e => nonconstant e D) (map_over_enclosure ea (gather g_convert)).
Proof.
  intros NC Ca. assert (Nc : nonconstant ea D) by (destruct k; [congruence|exact Ca..]).
  destruct (map_over_tot (gather g_convert) ea) as (e & E & _).
  - intros i c Hi. destruct c; apply tot_ok; auto.
  - rewrite E. simpl. eapply map_I; eauto.
Qed.
Lemma rep_nil i : rep i (@nil nat) = [].
Proof. induction i; auto. Qed.
Lemma small_rep D k a ea i : approx k X D z a ea -> D = 0%nat \/ X = [] -> (i < length ea)%nat -> rep i X = [].
Proof. intros Ha [H|H] Hi; [|rewrite H; apply rep_nil]. apply approx_len in Ha. replace i with 0%nat by lia. reflexivity. Qed.

Lemma broadcast_or D Bad sh bd k a (v : tensor R) ea : is_cast k = false -> k <> KConst -> (exists s, valid (tshape a) s) -> approx k X D z a ea -> argc D k a ea ->
  D = 0%nat \/ X = [] /\ (D <> 1%nat \/ k = KLin) -> gather (g_broadcast_in_dim sh bd) a = Ok v ->
  okor Bad (fun e => nonconstant e D) (push_broadcast sh bd ea).
Proof.
  intros NK NC Na Ha Ca HD Hv. assert (Nc : nonconstant ea D) by (destruct k; [congruence|exact Ca..]).
  destruct (gather_ok _ _ _ Hv) as [HG _].
  destruct ea as [|c0 r] eqn:Eea; [exfalso; eapply approx_ne; eauto|]. rewrite <- Eea in *.
  pose proof (approx_full X D k a ea NK Na Ha) as Wa.
  assert (W0 : wfs (tshape a) c0). { rewrite Eea in Ha. exact (approx_head _ _ _ _ _ _ Na Ha). }
  assert (K : forall i c, nth_error ea i = Some c -> exists c', map_coef (gather (g_broadcast_in_dim (sh ++ rep i []) bd)) c = Ok c' /\ (isI c -> isI c')).
  { intros i c Hi. destruct (Wa i c Hi) as (p & -> & W). simpl in W.
    assert (Er : rep i X = []) by (eapply small_rep; [exact Ha|tauto|apply nth_error_Some; congruence]). rewrite Er, app_nil_r in W.
    rewrite rep_nil, app_nil_r. destruct (map_coef_tot (gather (g_broadcast_in_dim sh bd)) _ c W) as (c' & E & _).
    - intros u Hu. rewrite <- Hu in HG. eapply tot_mono; [|apply (gather_tot _ u _ HG)]. auto.
    - exists c'. split; auto. intros (l & h & ->). cbn [map_coef] in E. ok_inv. subst. eexists; eexists; reflexivity. }
  assert (EX : push_broadcast sh bd ea = mapM (fun '(i, c) => map_coef (gather (g_broadcast_in_dim (sh ++ rep i []) bd)) c) (enumerate ea)).
  { rewrite Eea. unfold push_broadcast. cbn [bind]. destruct r as [|c1 r]; [reflexivity|].
    destruct HD as [HD|[HX HD]]; [exfalso; apply approx_len in Ha; rewrite Eea, HD in Ha; simpl in Ha; lia|].
    assert (1 <= D)%nat by (apply approx_len in Ha; rewrite Eea in Ha; simpl in Ha; lia).
    assert (EA : exists t, c1 = Arr t).
    { destruct HD as [HD| ->]; [destruct Ha as (_ & Pe & _); apply (Pe 1%nat c1); [lia|rewrite Eea; reflexivity]|].
      destruct Ha as (_ & _ & _ & Pz). specialize (Pz ltac:(lia)). destruct Pz as (t & u & E). rewrite Eea in E. injection E as _ -> _. eauto. }
    destruct EA as [t ->]. cbn [bind].
    destruct (Wa 1%nat (Arr t)) as (p & -> & W); [rewrite Eea; reflexivity|]. simpl in W. rewrite HX in W. simpl in W. rewrite app_nil_r in W.
    assert (Es : skipn (tndim (left_end c0)) (tshape t) = []).
    { unfold tndim. pose proof (wfs_lo _ _ W0) as W0'. change (left_end c0) with (lo c0). rewrite W0', W. apply skipn_all. }
    rewrite Es. reflexivity. }
  rewrite EX. destruct (mapM_tot (fun _ _ => True) (fun '(i, c) => map_coef (gather (g_broadcast_in_dim (sh ++ rep i []) bd)) c) (enumerate ea)) as (e & E & _).
  - intros (i, c) Hi. apply in_enumerate in Hi. destruct (K i c Hi) as (c' & E & _). exists c'. auto.
  - rewrite E. simpl. unfold nonconstant in *. destruct (D =? 0)%nat.
    + destruct Nc as (l & h & El). rewrite El in E. cbn [enumerate enumerate_from mapM] in E. destruct (K 0%nat (Ivl l h)) as (c' & Ec & Hc); [rewrite El; reflexivity|].
      rewrite Ec in E. cbn [bind] in E. injection E as <-. destruct Hc as (l' & h' & ->); [eexists; eexists; reflexivity|]. eauto.
    + rewrite (mapM_length _ _ _ E). unfold enumerate. rewrite enumerate_length. auto.
Qed.

(** Bilinear operations *)
Lemma ebil_or D Bad pbb Sa Sb Sc a b ka kb ea eb : tshape a = Sa -> tshape b = Sb ->
  (exists s, valid Sa s) -> (exists s, valid Sb s) -> is_cast ka = false -> is_cast kb = false ->
  approx ka X D z a ea -> approx kb X D z b eb -> argc D ka a ea -> argc D kb b eb -> is_const ka && is_const kb = false ->
  (forall i j, (i < length ea)%nat -> (j < length eb)%nat -> op_tot (fun u v => pbb u v (i * length X)%nat (j * length X)%nat) (Sa ++ rep i X) (Sb ++ rep j X) (Sc ++ rep i X ++ rep j X)) ->
  okor Bad (fun e => nonconstant e D) (earbitrary_bilinear (mkArith D tr) ea eb pbb).
Proof.
  intros <- <- Na Nb NKa NKb Ha Hb Ca Cb HK Hop. apply two_const in HK.
  pose proof (approx_full X D ka a ea NKa Na Ha) as Wa. pose proof (approx_full X D kb b eb NKb Nb Hb) as Wb.
  pose proof (argc_1 _ _ _ _ Ca) as L1. pose proof (argc_1 _ _ _ _ Cb) as L2.
  assert (T : tot (fun e => length e = Nat.min (D + 1) (length ea + length eb - 1) /\ all1 (shp X (full Sc)) 0 e) (earbitrary_bilinear (mkArith D tr) ea eb pbb)).
  { unfold earbitrary_bilinear. cbn [max_degree].
    apply (pair_tot iadd zero_c (shp X (full Sc)) (fun i b H => shp_zero_add X (full Sc) i b H) (fun i a b => shp_add Sc _ _ (pf_full Sc) X i a b)
      (term_enclosure_coefficient (mkArith D tr) pbb) (fun i j => Nat.min (i + j) D)).
    - intros i j x y Hx Hy. destruct (Wa i x Hx) as (p & -> & Wx). destruct (Wb j y Hy) as (q & -> & Wy). simpl in Wx, Wy.
      assert (Li : (i < length ea)%nat) by (apply nth_error_Some; congruence). assert (Lj : (j < length eb)%nat) by (apply nth_error_Some; congruence).
      unfold term_enclosure_coefficient. cbn [max_degree trust_region]. rewrite (tr_nd X tr HS). destruct (Nat.leb_spec (i + j) D) as [Hle|Hgt].
      + eapply tot_mono; [|apply (ibil_tot _ _ _ _ _ _ _ Wx Wy (Hop i j Li Lj))]. intros r Hr. exists Sc. split; [reflexivity|].
        rewrite Nat.min_l by lia. rewrite rep_app. exact Hr.
      + cbv zeta. set (ex := (i + j - D)%nat). set (ei := Nat.min i ex). set (ej := (ex - ei)%nat).
        eapply tot_bind; [apply (region_power_tot X tr HS ei)|]. intros pi Wpi.
        eapply tot_bind with (Q := wfs (tshape a ++ rep (i - ei) X)).
        { apply (itensordot_tot _ _ (rep ei X)); [apply rep_len| |exact Wpi]. rewrite <- app_assoc, <- rep_app. replace (i - ei + ei)%nat with i by lia. exact Wx. }
        intros c0 W0. eapply tot_bind with (Q := wfs (tshape b ++ rep (j - ej) X)).
        { destruct (Nat.ltb_spec 0 ej) as [Hej|Hej]; [|apply tot_ok; replace (j - ej)%nat with j by lia; exact Wy].
          eapply tot_bind; [apply (region_power_tot X tr HS ej)|]. intros pj Wpj. apply (itensordot_tot _ _ (rep ej X)); [apply rep_len| |exact Wpj].
          rewrite <- app_assoc, <- rep_app. replace (j - ej + ej)%nat with j by lia. exact Wy. }
        intros c1 W1. eapply tot_mono; [|apply (ibil_tot _ _ _ _ _ _ _ W0 W1 (Hop (i - ei)%nat (j - ej)%nat ltac:(lia) ltac:(lia)))].
        intros r Hr. exists Sc. split; [reflexivity|]. rewrite Nat.min_r by lia. replace (rep D X) with (rep (i - ei) X ++ rep (j - ej) X); auto.
        rewrite <- rep_app. f_equal. lia.
    - intros i j Hi Hj. lia.
    - intros k Hk. destruct (Nat.le_gt_cases k (length ea - 1)).
      + exists k, 0%nat. repeat split; lia.
      + exists (length ea - 1)%nat, (k - (length ea - 1))%nat. repeat split; lia. }
  eapply (tot_ncF _ (all1 (shp X (full Sc)) 0) D (Nat.min (D + 1) (length ea + length eb - 1))).
  - eapply tot_mono; [|exact T]. simpl. tauto.
  - intros HD. destruct HK as [HK|HK]; [pose proof (argc_2 _ _ _ _ Ca HD HK)|pose proof (argc_2 _ _ _ _ Cb HD HK)]; lia.
  - intros -> e He. destruct (argc_len _ _ _ _ Ca eq_refl) as (x & -> & Ix). destruct (argc_len _ _ _ _ Cb eq_refl) as (y & -> & Iy).
    eapply ebil_I; eauto. tauto.
Qed.

Lemma NoDup_nodupb l : NoDup l -> nodupb l = true.
Proof. induction 1; simpl; auto. rewrite IHNoDup, andb_true_r. apply negb_true_iff. apply memb_false. auto. Qed.
Lemma forallb_lt n l : (forall a, In a l -> (a < n)%nat) -> forallb (fun j => (j <? n)%nat) l = true.
Proof. intros H. apply forallb_forall. intros x Hx. apply Nat.ltb_lt; auto. Qed.
Lemma shape_eqb_true a b : a = b -> shape_eqb a b = true.
Proof. apply shape_eqb_eq. Qed.
Lemma dot_pbb_tot lc rc lb rb Sa Sb ra rb' : dot_dims_ok lc rc lb rb Sa Sb -> (length lb = 0 \/ length ra = 0)%nat ->
  op_tot (fun u v => dot_pbb lc rc lb rb u v (length ra) (length rb')) (Sa ++ ra) (Sb ++ rb') (dot_shape lc rc lb rb Sa Sb ++ ra ++ rb').
Proof.
  intros HD HC u v Hu Hv.
  enough (K : exists w, dot_pbb lc rc lb rb u v (length ra) (length rb') = Ok w).
  { destruct K as [w Hw]. exists w. split; auto.
    apply (dot_batched lc rc lb rb Sa Sb HD ra rb' u v w Hu Hv). unfold dot_pbb'.
    replace (_ || _) with true; auto. symmetry. apply orb_true_iff. rewrite !Nat.eqb_eq. auto. }
  pose proof HD as (HA & HB & NA & NB & E1 & E2).
  assert (Ht : exists t, dot_general lc rc lb rb u v = Ok t).
  { unfold dot_general. rewrite Hu, Hv.
    rewrite !forallb_lt, !NoDup_nodupb by (auto; intros x Hx; rewrite app_length; first [apply HA in Hx|apply HB in Hx]; lia).
    rewrite !map_nth_app by (intros x Hx; first [apply HA; apply in_or_app; tauto|apply HB; apply in_or_app; tauto]).
    rewrite !shape_eqb_true by auto. simpl. eauto. }
  destruct Ht as [t Ht]. destruct (dot_ok _ _ _ _ _ _ _ Ht) as (_ & St & _). rewrite Hu, Hv in St. unfold dot_shape in St.
  rewrite !drop_axes_app in St by auto. unfold dot_pbb. rewrite Ht. cbn [bind].
  set (fa := drop_axes 0 (lb ++ lc) Sa) in *. set (fb := drop_axes 0 (rb ++ rc) Sb) in *.
  assert (Lfa : (length fa + (length lb + length lc) = length Sa)%nat).
  { unfold fa. rewrite <- app_length. apply length_drop_axes; auto. intros x Hx. apply HA in Hx. lia. }
  assert (Lk : length (dedup (lc ++ lb)) = (length lc + length lb)%nat).
  { rewrite dedup_length, app_length; auto. apply (Permutation.Permutation_NoDup (l := lb ++ lc)); auto. apply Permutation.Permutation_app_comm. }
  unfold tndim. rewrite Lk, Hu, St. rewrite !app_length, map_length.
  destruct (Nat.ltb_spec (length Sa + length ra) (length ra + (length lc + length lb))); [lia|].
  replace (length Sa + length ra - length ra - (length lc + length lb))%nat with (length fa) by lia.
  set (n := (length lb + (length fa + length ra + (length fb + length rb')))%nat) in *. assert (En : n = (length lb + (length fa + length ra + (length fb + length rb')))%nat) by reflexivity. clearbody n.
  destruct (Nat.ltb_spec n (length fa + length ra + length rb')); [lia|].
  set (perm := seq 0 (length fa) ++ seq (length fa + length ra) (n - length rb' - (length fa + length ra)) ++ seq (length fa) (length ra) ++ seq (n - length rb') (length rb')).
  assert (Lp : length perm = n) by (unfold perm; rewrite !app_length, !seq_length; lia).
  assert (Ip : forall j, In j perm -> (j < n)%nat) by (intros j; unfold perm; rewrite !in_app_iff, !in_seq; lia).
  assert (Np : NoDup perm).
  { apply (@NoDup_incl_NoDup nat (seq 0 n)); [apply seq_NoDup|rewrite seq_length; lia|]. intros j Hj. apply in_seq in Hj. unfold perm. rewrite !in_app_iff, !in_seq.
    destruct (Nat.lt_ge_cases j (length fa)); [lia|]. destruct (Nat.lt_ge_cases j (length fa + length ra)); [lia|]. destruct (Nat.lt_ge_cases j (n - length rb')); lia. }
  rewrite dedup_length, Lp, Nat.eqb_refl by auto. cbn [negb].
  unfold gather. cbn [g_shape g_transpose]. rewrite Lp, St, !app_length, map_length, En, Nat.eqb_refl, forallb_lt, NoDup_nodupb by (auto; intros j Hj; apply Ip in Hj; lia).
  simpl. eauto.
Qed.

Lemma conv_or D Bad g a b v ka kb ea eb :
  (exists s, valid (tshape a) s) -> (exists s, valid (tshape b) s) -> is_cast ka = false -> is_cast kb = false -> conv_general_dilated g a b = Ok v ->
  approx ka X D z a ea -> approx kb X D z b eb -> argc D ka a ea -> argc D kb b eb -> is_const ka && is_const kb = false ->
  D = 0%nat \/ X = [] ->
  okor Bad (fun e => nonconstant e D) (earbitrary_bilinear (mkArith D tr) ea eb (conv_pbb g)).
Proof.
  intros Na Nb NKa NKb Hv Ha Hb Ca Cb HK HD.
  apply (ebil_or D Bad (conv_pbb g) (tshape a) (tshape b) (conv_out g (tshape a) (tshape b)) a b ka kb ea eb); auto.
  intros i j Hi Hj. rewrite (small_rep D ka a ea i Ha HD Hi), (small_rep D kb b eb j Hb HD Hj), !app_nil_r.
  assert (E : (i * length X = 0 /\ j * length X = 0)%nat).
  { destruct HD as [HD|HD]; [apply approx_len in Ha, Hb; nia|rewrite HD; simpl; lia]. }
  destruct E as [E1 E2]. rewrite E1, E2. intros u w Hu Hw. destruct (conv_total g a b v u w Hv Hu Hw) as [t Ht]. exists t. unfold conv_pbb. rewrite !front_0. cbn [bind]. rewrite Ht. split; auto.
  exact (proj1 (pos_val _ _ _ _ _ (conv_posop g (tshape a) (tshape b)) u w t Hu Hw Ht)).
Qed.

(** ** The table *)
Variables (sc : scalars R) (gs : generators R).
Hypothesis HX : (length X <= 1)%nat.

Inductive argcs (D : nat) : list kind -> list (tensor R) -> list (inter R) -> Prop :=
| ac_nil : argcs D [] [] []
| ac_cons k v i ks vs is' : argc D k v (i_enc i) -> argcs D ks vs is' -> argcs D (k :: ks) (v :: vs) (i :: is').

Definition bad (p : prim R) (D : nat) (e : exn) : Prop := exists gen, calls gs p gen /\ raises gen D e.

Lemma g_reduce_app axes S r s : g_shape (g_reduce_sum axes) S = Ok s -> exists s', g_shape (g_reduce_sum axes) (S ++ r) = Ok s'.
Proof.
  simpl. destruct (_ && _) eqn:E; [|discriminate]. intros _. apply andb_prop in E. destruct E as [E1 E2]. rewrite E2, andb_true_r.
  rewrite forallb_lt by (intros x Hx; rewrite app_length; pose proof (forallb_lt_In _ _ E1 _ Hx); lia). eauto.
Qed.
Lemma g_squeeze_app dims S r s : g_shape (g_squeeze dims) S = Ok s -> exists s', g_shape (g_squeeze dims) (S ++ r) = Ok s'.
Proof.
  simpl. destruct (_ && _) eqn:E; [|discriminate]. intros _. apply andb_prop in E. destruct E as [E1 E2]. rewrite E2, andb_true_r.
  replace (forallb _ dims) with true; [eauto|]. symmetry. apply forallb_forall. intros x Hx. rewrite forallb_forall in E1. specialize (E1 x Hx).
  apply andb_prop in E1. destruct E1 as [L N]. apply Nat.ltb_lt in L. rewrite app_nth1 by auto. rewrite N, andb_true_r. apply Nat.ltb_lt. rewrite app_length. lia.
Qed.

Lemma pushforward_or D prop p ks vs args v k : prim_gens_ok at_centre sc gs p -> (forall gen, calls gs p gen -> nonconstant_gen gen) -> opaque_ok p -> args_ok X D z ks vs args -> argcs D ks vs args ->
  (exists s, valid (tshape v) s) -> forallb is_const ks = false ->
  prim_bind sc p vs = Ok [v] -> result_kind X D p (combine ks (map tshape vs)) [tshape v] = Some k ->
  accepted gs X D prop p ks vs -> okor (bad p D) (fun e => nonconstant e D) (pushforward gs (mkArith D tr) p args).
Proof.
  intros HG HN HO HA HAc NV NC HB HK HAcc.
  assert (HE : forallb (fun a : kind * list nat => is_const (fst a)) (combine ks (map tshape vs)) = false).
  { rewrite <- NC. clear -HA. induction HA; simpl; auto. rewrite IHHA. reflexivity. }
  unfold result_kind in HK. rewrite HE in HK. clear HE.
  inversion HA as [|k1 v1 i1 ks1 vs1 is1 H1 HA1]; subst; [discriminate|].
  inversion HAc as [|? ? ? ? ? ? C1 HAc1]; subst.
  inversion HA1 as [|k2 v2 i2 ks2 vs2 is2 H2 HA2]; subst.
  - destruct H1 as (N1 & A1 & R1). simpl in NC. rewrite andb_true_r in NC.
    assert (NK1 : k1 <> KConst) by (destruct k1; discriminate).
    destruct p; cbn -[gather] in HB, HK; try discriminate.
    + exact (neg_or D _ v1 k1 _ N1 A1 C1 NK1).
    + (* integer_pow *) destruct HAcc as [Hy HAcc]. cbn [pushforward]. unfold epower. destruct (0 <=? y)%Z eqn:EY.
      * apply Z.leb_le in EY. apply (ipow_or D _ v1 k1); auto. lia.
      * apply Z.leb_gt in EY. assert (NK : k1 <> KCast) by (intros ->; apply HAcc; [lia|left; auto]).
        eapply okor_bind; [apply tot_okor, (validate_tot X tr D HS (bcast (tshape v1)) _), (approx_cast X D k1 v1 _ N1 A1)|]. intros _ _ _.
        eapply okor_bad; [|eapply okor_mono; [|exact (elem_or D _ (gen_ipow gs y) (fun x => s_ipow sc x y) k1 v1 _ None (HG EY) (HN _ (calls_ipow gs y EY)) NK N1 A1 I C1)]].
        -- intros er Her. exists (gen_ipow gs y). split; auto. constructor; auto.
        -- intros r _ (_ & _ & H). apply H. auto.
    + (* broadcast *) apply unless_cast_inv in HK. destruct HK as [NK _]. apply one_res_inv in HB. refine (broadcast_or D _ _ _ k1 v1 v _ NK NK1 N1 A1 C1 _ HB); destruct HAcc as [HAcc|[HAcc [HA'|HA']]]; [auto|auto|injection HA' as ->; auto].
    + (* elementwise *) assert (NK : k1 <> KCast) by (intros ->; apply HAcc; left; auto). cbn [pushforward].
      eapply okor_bad; [|eapply okor_mono; [|exact (elem_or D _ (gen_elem gs e) _ k1 v1 _ (i_tr i1) HG (HN _ (calls_elem gs e)) NK N1 A1 R1 C1)]].
      * intros er Her. exists (gen_elem gs e). split; auto. constructor.
      * intros r _ (_ & _ & H). apply H. auto.
    + exact (convert_or D _ k1 v1 _ NK1 C1).
    + destruct (_ && _) in HK; [discriminate|]. apply unless_cast_inv in HK. destruct HK as [NK _]. apply one_res_inv in HB. apply gather_ok in HB. destruct HB as [HB _].
      apply (gather_or D _ _ k1 v1); auto. intros i Hi. rewrite (small_rep D k1 v1 _ i A1 HAcc Hi), app_nil_r. eauto.
    + apply unless_cast_inv in HK. destruct HK as [NK _]. apply one_res_inv in HB. apply gather_ok in HB. destruct HB as [HB _].
      apply (gather_or D _ (g_reduce_sum axes) k1 v1); auto. intros i Hi. eapply g_reduce_app; eauto.
    + apply unless_cast_inv in HK. destruct HK as [NK _]. apply one_res_inv in HB. apply gather_ok in HB. destruct HB as [HB _].
      apply (gather_or D _ _ k1 v1); auto. intros i Hi. rewrite (small_rep D k1 v1 _ i A1 HAcc Hi), app_nil_r. eauto.
    + apply unless_cast_inv in HK. destruct HK as [NK _]. apply one_res_inv in HB. apply gather_ok in HB. destruct HB as [HB _].
      apply (gather_or D _ (g_squeeze dims) k1 v1); auto. intros i Hi. eapply g_squeeze_app; eauto.
    + apply unless_cast_inv in HK. destruct HK as [NK _]. apply one_res_inv in HB. apply gather_ok in HB. destruct HB as [HB _].
      apply (gather_or D _ _ k1 v1); auto. intros i Hi. rewrite (small_rep D k1 v1 _ i A1 HAcc Hi), app_nil_r. eauto.
  - inversion HA2 as [|]; subst; [|destruct p; cbn in HK; discriminate].
    inversion HAc1 as [|? ? ? ? ? ? C2 HAc2]; subst.
    destruct H1 as (N1 & A1 & R1). destruct H2 as (N2 & A2 & R2). cbn [forallb] in NC. rewrite andb_true_r in NC.
    destruct p; cbn -[gather] in HB, HK; try discriminate.
    + apply one_res_inv in HB. apply tmap2_ok in HB. destruct HB as [HB _]. exact (sum_or D _ _ v1 v2 v k1 k2 _ _ (or_introl eq_refl) N1 N2 HB A1 A2 C1 C2 NC).
    + apply one_res_inv in HB. apply tmap2_ok in HB. destruct HB as [HB _]. exact (sum_or D _ _ v1 v2 v k1 k2 _ _ (or_intror eq_refl) N1 N2 HB A1 A2 C1 C2 NC).
    + apply one_res_inv in HB. apply tmap2_ok in HB. destruct HB as [HB _]. exact (mul_or D _ v1 v2 v k1 k2 _ _ N1 N2 HB A1 A2 C1 C2 NC).
    + assert (NK : k2 <> KCast) by (intros ->; apply HAcc; eauto). apply one_res_inv in HB. apply tmap2M_ok in HB. destruct HB as [HB _].
      eapply okor_bad; [|exact (div_or D _ (gen_ipow gs) (fun x => s_ipow sc x (-1)) v1 v2 v k1 k2 _ _ (proj1 HG) (HN _ (calls_div gs)) N1 N2 HB NK A1 A2 C1 C2 NC)].
      intros er Her. exists (gen_ipow gs (-1)). split; auto. constructor.
    + (* pow *) destruct (shape_eqb _ _) in HK; [|discriminate].
      destruct HAcc as (_ & w1 & w2 & k1' & x & E1 & E2 & NK & Hf & Hx). injection E1 as <- <-. injection E2 as <- ->. simpl in C2.
      cbn [pushforward]. unfold is_constant, constant_value. rewrite C2. cbn [negb bind]. rewrite Hf. cbn [bind]. unfold epower_float.
      assert (NK1 : k1 <> KConst) by (destruct k1; discriminate).
      eapply okor_bind; [apply tot_okor, (validate_tot X tr D HS (bcast (tshape v1)) _), (approx_cast X D k1 v1 _ N1 A1)|]. intros _ _ _. rewrite Hx.
      eapply okor_bad; [|eapply okor_mono; [|exact (elem_or D _ (gen_pow gs x) _ k1 v1 _ None (proj1 HG x Hx) (HN _ (calls_pow gs x Hx)) NK N1 A1 I C1)]].
      * intros er Her. exists (gen_pow gs x). split; auto. constructor; auto.
      * intros r _ (_ & _ & H). apply H. auto.
    + (* dot *) destruct (is_cast k1 || is_cast k2) eqn:EC; [discriminate|]. apply orb_false_elim in EC. destruct EC as [EC1 EC2].
      destruct (_ || _) eqn:ED in HK; [|discriminate]. apply one_res_inv in HB. destruct (dot_ok _ _ _ _ _ _ _ HB) as (HDm & _ & _).
      apply (ebil_or D _ _ (tshape v1) (tshape v2) (dot_shape lc rc lb rb (tshape v1) (tshape v2)) v1 v2 k1 k2); auto; try (intros ->; discriminate).
      intros i j Hi Hj. rewrite <- !rep_len. apply dot_pbb_tot; auto. rewrite rep_len.
      apply orb_prop in ED. destruct ED as [ED|ED].
      * apply orb_prop in ED. destruct ED as [ED|ED].
        -- apply orb_prop in ED. destruct ED as [ED|ED]; apply Nat.eqb_eq in ED; auto. rewrite ED. right. lia.
        -- apply Nat.eqb_eq in ED. right. apply approx_len in A1. nia.
      * right. destruct k1; try discriminate. simpl in C1. rewrite C1 in Hi. simpl in Hi. nia.
    + destruct (is_cast k1 || is_cast k2) eqn:EC; [discriminate|]. apply orb_false_elim in EC. destruct EC as [EC1 EC2]. apply one_res_inv in HB.
      apply (conv_or D _ c v1 v2 v k1 k2); auto; intros ->; discriminate.
Qed.
End Forward.
