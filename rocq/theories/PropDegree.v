(** Property C22: degree bound and plain lower coefficients. *)
From Coq Require Import Reals Lra Psatz.
From Verif Require Import Base Tensor IntervalArith Polynomials Enclosure TensorLemmas Spec IntervalProofs PolyProofs Graded BilinearProofs PropEnclosure.
Open Scope nat_scope.

(** At most [D+1] coefficients. *)
Definition degree_le {T} (D : nat) (enc : list (coef T)) : Prop := length enc <= D + 1.
(** Every coefficient below [D] is a plain array. *)
Definition plain_below {T} (D : nat) (enc : list (coef T)) : Prop :=
  forall i c, i < D -> nth_error enc i = Some c -> exists t, c = Arr t.

Section S.
Context {T : Type} {N : Num T}.
Variable A : arith T.
Let D := max_degree A.
Notation coef := (coef T).

Lemma nth_firstn (l : list coef) i : i < D -> nth_error (firstn D l) i = nth_error l i.
Proof. generalize D. clear. intros n. revert l i. induction n as [|n IHn]; intros l i Hi; [lia|]. destruct l; auto. destruct i; simpl; auto. apply IHn. lia. Qed.

Lemma enclose_plain enc tr enc' : enclose_enclosure enc tr D = Ok enc' -> plain_below D enc -> degree_le D enc' /\ plain_below D enc'.
Proof.
  intros H HP. destruct (enclose_shape _ _ _ _ H) as (L & F & _). split; [unfold degree_le; lia|].
  intros i c Hi Hc. rewrite <- nth_firstn, F, nth_firstn in Hc by auto. eauto.
Qed.

Lemma add_plain a : forall k b c, (forall i x, k + i < D -> nth_error a i = Some x -> is_arr x) ->
  (forall i x, k + i < D -> nth_error b i = Some x -> is_arr x) -> add_coeffs a b = Ok c ->
  forall i x, k + i < D -> nth_error c i = Some x -> is_arr x.
Proof.
  induction a as [|x a IH]; intros k b c Ha Hb H; simpl in H; [injection H as <-; auto|].
  destruct b as [|y b]; [injection H as <-; auto|]. apply bind_ok in H. destruct H as (w & Hw & H). apply bind_ok in H. destruct H as (r & Hr & H). injection H as <-.
  intros [|i] v Hi Hv; simpl in Hv.
  - injection Hv as <-. exact (iadd_is_arr _ _ _ (Ha 0 x Hi eq_refl) (Hb 0 y Hi eq_refl) Hw).
  - refine (IH (S k) b r _ _ Hr i v _ Hv); [| |lia]; intros j u Hj Hu; [apply (Ha (S j))|apply (Hb (S j))]; auto; lia.
Qed.

Lemma eadd_plain a b c : eadd A a b = Ok c -> plain_below D a -> plain_below D b -> degree_le D c /\ plain_below D c.
Proof.
  intros H Ha Hb. unfold eadd in H. apply bind_ok in H. destruct H as (t & Ht & H). eapply enclose_plain; eauto.
  exact (add_plain a 0 b t Ha Hb Ht).
Qed.

Lemma eneg_plain a c : enegative A a = Ok c -> plain_below D a -> degree_le D c /\ plain_below D c.
Proof.
  intros H Ha. eapply enclose_plain; eauto. intros i x Hi Hx. rewrite nth_error_map in Hx.
  destruct (nth_error a i) as [y|] eqn:E; [|discriminate]. injection Hx as <-. destruct (Ha i y Hi E) as [t ->]. eexists; reflexivity.
Qed.

Lemma esub_plain a b c : esubtract A a b = Ok c -> plain_below D a -> plain_below D b -> degree_le D c /\ plain_below D c.
Proof.
  intros H Ha Hb. unfold esubtract in H. apply bind_ok in H. destruct H as (t & Ht & H). eapply eadd_plain; eauto.
  eapply eneg_plain; eauto.
Qed.

Lemma add_at_plain out k c out' : add_at iadd out k c = Ok out' -> plain_below D out -> (k < D -> is_arr c) -> plain_below D out'.
Proof.
  intros H Ho Hc i x Hi Hx. unfold add_at in H. apply bind_ok in H. destruct H as (o & Ho' & H). apply bind_ok in H. destruct H as (s & Hs & H).
  apply get_nth_ok in Ho'. apply set_nth_ok in H. destruct H as (_ & H1 & H2).
  destruct (Nat.eq_dec i k) as [->|Hne].
  - rewrite H1 in Hx. injection Hx as <-. exact (iadd_is_arr _ _ _ (Ho _ _ Hi Ho') (Hc Hi) Hs).
  - rewrite H2 in Hx by auto. eauto.
Qed.

Lemma repeat_plain n : plain_below D (repeat (zero_c : coef) n).
Proof. intros i c _ H. apply nth_error_repeat in H. subst c. eexists; reflexivity. Qed.

(** Double loops adding into [out[key i j]]. *)
Lemma scatter_plain (term : coef -> coef -> nat -> nat -> res coef) key (a b : list coef) n out :
  (forall i j x y c, nth_error a i = Some x -> nth_error b j = Some y -> key i j < D -> term x y i j = Ok c -> is_arr c) ->
  foldM (fun out '(i, ai) => foldM (fun out '(j, bj) => c <- term ai bj i j ;; add_at iadd out (key i j) c) out (enumerate b))
        (repeat zero_c n) (enumerate a) = Ok out -> plain_below D out.
Proof.
  intros HT.
  assert (G : forall l o o', plain_below D o -> (forall i x, In (i, x) l -> nth_error a i = Some x) ->
    foldM (fun out '(i, ai) => foldM (fun out '(j, bj) => c <- term ai bj i j ;; add_at iadd out (key i j) c) out (enumerate b)) o l = Ok o' -> plain_below D o').
  { induction l as [|[i x] l IH]; intros o o' Ho Hl H; cbn [foldM] in H; [injection H as <-; auto|].
    apply bind_ok in H. destruct H as (o1 & H1 & H). eapply IH; [| |exact H]; [|intros; apply Hl; right; auto].
    assert (Gi : forall m o o', plain_below D o -> (forall j y, In (j, y) m -> nth_error b j = Some y) ->
      foldM (fun out '(j, bj) => c <- term x bj i j ;; add_at iadd out (key i j) c) o m = Ok o' -> plain_below D o').
    { induction m as [|[j y] m IHm]; intros o2 o3 Ho2 Hm H2; cbn [foldM] in H2; [injection H2 as <-; auto|].
      apply bind_ok in H2. destruct H2 as (o4 & H4 & H2). eapply IHm; [| |exact H2]; [|intros; apply Hm; right; auto].
      apply bind_ok in H4. destruct H4 as (c & Hc & H4). eapply add_at_plain; eauto.
      intros Hk. refine (HT i j x y c _ _ Hk Hc); [apply Hl; left; auto|apply Hm; left; auto]. }
    eapply Gi; [exact Ho| |exact H1]. intros j y Hj. apply in_enumerate in Hj. auto. }
  intros H. eapply G; [apply repeat_plain| |exact H]. intros i x Hi. apply in_enumerate in Hi. auto.
Qed.

Lemma emul_plain a b c : emultiply A a b = Ok c -> plain_below D a -> plain_below D b -> degree_le D c /\ plain_below D c.
Proof.
  intros H Ha Hb. unfold emultiply in H. apply bind_ok in H. destruct H as (_ & _ & H). apply bind_ok in H. destruct H as (_ & _ & H).
  apply bind_ok in H. destruct H as (p & Hp & H). eapply enclose_plain; eauto.
  eapply (scatter_plain _ (fun i j => i + j)); [|exact Hp]. intros i j x y c' Hx Hy Hk Ht.
  refine (ibil_is_arr _ _ _ _ _ (Ha i x _ Hx) (Hb j y _ Hy) Ht); lia.
Qed.

Lemma ebil_plain a b pbb c : earbitrary_bilinear A a b pbb = Ok c -> plain_below D a -> plain_below D b -> degree_le D c /\ plain_below D c.
Proof.
  intros H Ha Hb. split.
  - unfold degree_le. rewrite (ebil_length _ _ _ _ _ H). unfold D. lia.
  - eapply (scatter_plain _ (fun i j => Nat.min (i + j) (max_degree A))); [|exact H]. intros i j x y c' Hx Hy Hk Ht. unfold D in Hk.
    unfold term_enclosure_coefficient in Ht. destruct (Nat.leb_spec (i + j) (max_degree A)) as [Hle|]; [|lia].
    refine (ibil_is_arr _ _ _ _ _ (Ha i x _ Hx) (Hb j y _ Hy) Ht); unfold D; lia.
Qed.

Lemma run_product_plain one xnd a p r w : is_arr one -> plain_below D a ->
  run_product one (elementwise_term_product_coefficient xnd) (elementwise_term_power_coefficient xnd) a p = Ok (r, w) ->
  w < D -> is_arr r.
Proof.
  intros H1 Ha. unfold run_product, enumerate.
  assert (G : forall q k acc r w,
     foldM (fun '(r, w) '(j, pj) => aj <- get_nth a j ;; t <- elementwise_term_power_coefficient xnd aj j pj ;;
             r' <- elementwise_term_product_coefficient xnd r t w (j * pj) ;; Ok (r', w + j * pj)) acc (enumerate_from k q) = Ok (r, w) ->
     w < D -> (snd acc < D -> is_arr (fst acc)) -> snd acc <= w /\ is_arr r).
  { induction q as [|e q IH]; intros k (r0, w0) r' w' H Hw Hr; cbn [enumerate_from foldM] in H.
    - injection H as <- <-. simpl in *. auto.
    - apply bind_ok in H. destruct H as ((r1, w1) & Hf & H). destruct (IH _ _ _ _ H Hw) as [L R].
      + simpl. intros Hw1. apply bind_ok in Hf. destruct Hf as (aj & Haj & Hf). apply get_nth_ok in Haj.
        apply bind_ok in Hf. destruct Hf as (t & Ht & Hf). apply bind_ok in Hf. destruct Hf as (r1' & Hr1 & Hf). injection Hf as <- <-.
        simpl in Hr. refine (ibil_is_arr _ _ _ _ _ (Hr ltac:(lia)) _ Hr1).
        unfold elementwise_term_power_coefficient in Ht. destruct (_ <? _); [discriminate|].
        destruct e as [|e].
        * unfold iouter_power in Ht. simpl in Ht. injection Ht as <-. eexists; reflexivity.
        * refine (iouter_power_is_arr _ _ _ _ (Ha k aj _ Haj) Ht). nia.
      + split; auto. apply bind_ok in Hf. destruct Hf as (aj & Haj & Hf). apply bind_ok in Hf. destruct Hf as (t & Ht & Hf).
        apply bind_ok in Hf. destruct Hf as (r1' & Hr1 & Hf). injection Hf as <- <-. simpl in *. lia. }
  intros H Hw. eapply (G p 0 (one, 0)); eauto.
Qed.

Lemma epower_plain a n c : epower_nat A a n = Ok c -> plain_below D a -> degree_le D c /\ plain_below D c.
Proof.
  intros H Ha. unfold epower_nat in H. apply bind_ok in H. destruct H as (_ & _ & H). destruct a as [|a0 r]; [discriminate|].
  apply bind_ok in H. destruct H as (q & Hq & H). eapply enclose_plain; eauto. clear H.
  unfold integer_power in Hq. destruct (_ <? _)%Z; [discriminate|]. destruct (_ =? _)%Z.
  - injection Hq as <-. intros [|[|]] x Hi [= <-]. eexists; reflexivity.
  - set (e := Z.to_nat (Z.of_nat n)) in *. intros i x Hi Hx.
    apply mapM_ok in Hq. 
    assert (Hg : get_coeff iadd zero_c (Arr (tones_like (left_end a0))) (elementwise_term_product_coefficient (tndim (fst (trust_region A))))
              (elementwise_term_power_coefficient (tndim (fst (trust_region A)))) (fun k c => imul (Arr (tscalar (nofZ k))) c) (a0 :: r) e i = Ok x).
    { assert (GG : forall l k ys (f : nat -> res coef), Forall2 (fun x y => f x = Ok y) (seq k l) ys -> nth_error ys i = Some x -> f (k + i) = Ok x).
      { clear. revert i. intros i l. revert i. induction l; intros i k ys f HF Hy; inversion HF; subst; [destruct i; discriminate|].
        destruct i; simpl in Hy; [injection Hy as <-; rewrite Nat.add_0_r; auto|]. rewrite Nat.add_succ_r. eapply (IHl i (S k)); eauto. }
      exact (GG _ _ _ _ Hq Hx). }
    clear Hq. unfold get_coeff in Hg.
    set (F := fun (c : coef) (p : list nat) => _) in Hg.
    assert (G : forall l c c', is_arr c -> foldM F c l = Ok c' -> is_arr c').
    { induction l as [|p l IH]; intros c1 c2 Hc1 H; cbn [foldM] in H; [injection H as <-; auto|].
      apply bind_ok in H. destruct H as (c3 & H3 & H). eapply IH; [|exact H]. unfold F in H3.
      apply bind_ok in H3. destruct H3 as ((rr, w) & Hr & H3). apply bind_ok in H3. destruct H3 as (u & Hgd & H3).
      unfold guard in Hgd. destruct (Nat.eqb_spec w i) as [->|]; [|discriminate].
      apply bind_ok in H3. destruct H3 as (m & _ & H3). apply bind_ok in H3. destruct H3 as (term & Ht & H3).
      refine (iadd_is_arr _ _ _ Hc1 _ H3). refine (ibil_is_arr _ _ _ _ _ (ex_intro _ _ eq_refl) _ Ht).
      eapply run_product_plain; [|exact Ha|exact Hr|exact Hi]. eexists; reflexivity. }
    eapply G; [|exact Hg]. eexists; reflexivity.
Qed.

Lemma compose_term_plain p co rest term : compose_term A p co (zero_c :: rest) = Ok term -> (p < D -> is_arr co) ->
  plain_below D (zero_c :: rest) -> plain_below D term.
Proof.
  intros H Hco Ha. unfold compose_term in H. destruct p as [|p].
  - injection H as <-. intros [|[|]] x Hi [= <-]. exact (Hco Hi).
  - apply bind_ok in H. destruct H as (poly & Hp & H). destruct (epower_plain _ _ _ Hp Ha) as [_ HP].
    intros i x Hi Hx.
    assert (G : forall l k ys, mapM (fun '(i, t) => if i <? S p then Ok zero_c else interval_left_broadcasting_multiply co t) (enumerate_from k l) = Ok ys ->
       forall i x, nth_error ys i = Some x -> (k + i < S p /\ x = zero_c) \/ (S p <= k + i /\ exists t, nth_error l i = Some t /\ interval_left_broadcasting_multiply co t = Ok x)).
    { clear. induction l as [|t l IH]; intros k ys H i x Hx; cbn [enumerate_from mapM] in H; [injection H as <-; destruct i; discriminate|].
      apply bind_ok in H. destruct H as (y & Hy & H). apply bind_ok in H. destruct H as (ys' & Hys & H). injection H as <-.
      destruct i as [|i]; simpl in Hx.
      - injection Hx as <-. rewrite Nat.add_0_r. destruct (Nat.ltb_spec k (S p)); [injection Hy as <-; auto|]. right. split; auto. exists t. auto.
      - destruct (IH _ _ Hys i x Hx) as [[L E]|[L (t' & E1 & E2)]]; [left; split; auto; lia|right; split; [lia|]]. exists t'. auto. }
    destruct (G _ _ _ H i x Hx) as [[_ ->]|[L (t & E1 & E2)]]; [eexists; reflexivity|].
    refine (ibil_is_arr _ _ _ _ _ (Hco _) (HP i t Hi E1) E2). simpl in L. lia.
Qed.

Lemma compose_plain e arg c : compose_enclosures A e arg = Ok c -> plain_below D e -> plain_below D arg -> degree_le D c /\ plain_below D c.
Proof.
  intros H He Ha. unfold compose_enclosures in H. destruct e as [|e0 e1] eqn:Ee; [discriminate|]. rewrite <- Ee in *. clear Ee.
  assert (Hd : plain_below D (zero_c :: skipn 1 arg)).
  { intros [|i] x Hi Hx; simpl in Hx; [injection Hx as <-; eexists; reflexivity|]. destruct arg; [destruct i; discriminate|]. apply (Ha (S i) x Hi Hx). }
  assert (G : forall l k out c, (forall i x, k + i < D -> nth_error l i = Some x -> is_arr x) -> degree_le D out /\ plain_below D out ->
    foldM (fun out '(p, coefficient) => term <- compose_term A p coefficient (zero_c :: skipn 1 arg) ;; eadd A out term) out (enumerate_from k l) = Ok c ->
    degree_le D c /\ plain_below D c).
  { induction l as [|co l IH]; intros k out c' Hl Ho H'; cbn [enumerate_from foldM] in H'; [injection H' as <-; auto|].
    apply bind_ok in H'. destruct H' as (out' & H1 & H'). apply bind_ok in H1. destruct H1 as (term & Ht & H1).
    eapply IH; [| |exact H'].
    - intros i x Hi Hx. apply (Hl (S i)); auto. lia.
    - eapply eadd_plain; [exact H1|apply Ho|]. eapply compose_term_plain; eauto. intros Hk. apply (Hl 0); auto. lia. }
  eapply G; [|split|exact H].
  - simpl. exact He.
  - unfold degree_le. simpl. lia.
  - intros [|[|]] x Hi [= <-]. eexists; reflexivity.
Qed.

Lemma elementwise_plain gen arg atr c : (forall x0 tr e, gen x0 tr D = Ok e -> plain_below D e) ->
  elementwise_fun A gen arg atr = Ok c -> plain_below D arg -> degree_le D c /\ plain_below D c.
Proof.
  intros Hg H Ha. unfold elementwise_fun in H. ok_inv. eapply compose_plain; eauto.
Qed.

Lemma edivide_plain pow_gen a b c : (forall p x0 tr e, pow_gen p x0 tr D = Ok e -> plain_below D e) ->
  edivide A pow_gen a b = Ok c -> plain_below D a -> plain_below D b -> degree_le D c /\ plain_below D c.
Proof.
  intros Hg H Ha Hb. unfold edivide in H. apply bind_ok in H. destruct H as (ib & Hib & H).
  eapply emul_plain; eauto. unfold epower in Hib. simpl in Hib. apply bind_ok in Hib. destruct Hib as (_ & _ & Hib).
  eapply elementwise_plain; eauto.
Qed.
End S.

(** C22: every operation returns at most [max_degree+1] coefficients, all but the
    last of which are plain arrays when this holds for the arguments (and for the
    elementwise enclosures that are composed in). *)
Theorem C22_degree_and_plain_coefficients : forall (A : arith R),
  let D := max_degree A in
  let good e := degree_le D e /\ plain_below D e in
  (forall a b c, plain_below D a -> plain_below D b -> eadd A a b = Ok c -> good c) /\
  (forall a b c, plain_below D a -> plain_below D b -> esubtract A a b = Ok c -> good c) /\
  (forall a c, plain_below D a -> enegative A a = Ok c -> good c) /\
  (forall a b c, plain_below D a -> plain_below D b -> emultiply A a b = Ok c -> good c) /\
  (forall a n c, plain_below D a -> epower_nat A a n = Ok c -> good c) /\
  (forall a b pbb c, plain_below D a -> plain_below D b -> earbitrary_bilinear A a b pbb = Ok c -> good c) /\
  (forall e a c, plain_below D e -> plain_below D a -> compose_enclosures A e a = Ok c -> good c) /\
  (forall gen a atr c, (forall x0 tr e, gen x0 tr D = Ok e -> plain_below D e) ->
     plain_below D a -> elementwise_fun A gen a atr = Ok c -> good c) /\
  (forall pow_gen a b c, (forall p x0 tr e, pow_gen p x0 tr D = Ok e -> plain_below D e) ->
     plain_below D a -> plain_below D b -> edivide A pow_gen a b = Ok c -> good c).
Proof.
  intros A D good. unfold good, D. split; [|split; [|split; [|split; [|split; [|split; [|split; [|split]]]]]]]; intros.
  - eapply eadd_plain; eauto.
  - eapply esub_plain; eauto.
  - eapply eneg_plain; eauto.
  - eapply emul_plain; eauto.
  - eapply epower_plain; eauto.
  - eapply ebil_plain; eauto.
  - eapply compose_plain; eauto.
  - eapply elementwise_plain; eauto.
  - eapply edivide_plain; eauto.
Qed.

(** [ex_enc] (two arrays, then an interval) satisfies the hypothesis for degree 2,
    and its square has an interval only in the last place. *)
Example C22_nonvacuous : plain_below 2 ex_enc /\ ncoef (emultiply (mkArith 2 ex_tr) ex_enc ex_enc) = Some 3.
Proof.
  split; [|vm_compute; reflexivity]. intros [|[|i]] c Hi H; try lia; injection H as <-; eexists; reflexivity.
Qed.
