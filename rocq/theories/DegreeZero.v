(** Bounds of degree 0 do not depend on [x0], in any arithmetic. *)
From Verif Require Import Base Tensor IntervalArith Polynomials Enclosure TensorLemmas GraphEditor JaxBound.

Section Any.
Context {T : Type} {N : Num T}.
Variables tr tr' : tensor T * tensor T.
Hypothesis ST : tshape (fst tr) = tshape (fst tr').
Let A := mkArith 0 tr.
Let A' := mkArith 0 tr'.

(** A generator that returns one coefficient at degree 0. *)
Definition one_coefficient (gen : generator T) : Prop :=
  forall x0 reg e, gen x0 reg 0%nat = Ok e -> length e = 1%nat.
Definition one (e : enclosure T) : Prop := exists c, e = [c].
Lemma len1 {X} (e : list X) : length e = 1%nat -> exists c, e = [c].
Proof. destruct e as [|c [|]]; simpl; try discriminate. eauto. Qed.

Lemma trunc1 (B : arith T) c : truncate_if_necessary B [c] = Ok [c].
Proof. unfold truncate_if_necessary, enclose_enclosure. simpl. rewrite Nat.add_comm. reflexivity. Qed.

Lemma add1 a b e : one a -> one b -> eadd A a b = Ok e -> one e /\ eadd A' a b = Ok e.
Proof.
  intros [x ->] [y ->] H. unfold eadd in *. cbn [add_coeffs] in *. destruct (iadd x y) as [z|]; [|discriminate]. cbn [bind] in *.
  rewrite trunc1 in H |- *. injection H as <-. split; auto. eexists; eauto.
Qed.
Lemma neg1 a e : one a -> enegative A a = Ok e -> one e /\ enegative A' a = Ok e.
Proof. intros [x ->] H. unfold enegative in *. cbn [map] in *. rewrite trunc1 in H |- *. injection H as <-. split; auto. eexists; eauto. Qed.
Lemma sub1 a b e : one a -> one b -> esubtract A a b = Ok e -> one e /\ esubtract A' a b = Ok e.
Proof.
  intros Ha Hb H. unfold esubtract in *. apply bind_ok in H. destruct H as (nb & Hn & H). destruct (neg1 _ _ Hb Hn) as [O1 ->]. apply add1; auto.
Qed.
Lemma validate1 a : validate_taylor_enclosure A' a = validate_taylor_enclosure A a.
Proof. unfold validate_taylor_enclosure. cbn [trust_region A A']. rewrite <- ST. reflexivity. Qed.
Lemma xnd1 : tndim (fst tr') = tndim (fst tr).
Proof. unfold tndim. rewrite ST. auto. Qed.
Lemma add_at1 a c e i : one a -> add_at iadd a i c = Ok e -> one e.
Proof.
  intros [x ->] H. unfold add_at in H. apply bind_ok in H. destruct H as (u & _ & H). apply bind_ok in H. destruct H as (w & _ & H).
  destruct i as [|i]; cbn [set_nth] in H; [injection H as <-; eexists; eauto|]. discriminate.
Qed.
Lemma mul1 a b e : one a -> one b -> emultiply A a b = Ok e -> one e /\ emultiply A' a b = Ok e.
Proof.
  intros [x ->] [y ->] H. unfold emultiply in *. rewrite !validate1. cbn [trust_region A A'] in *. rewrite xnd1.
  destruct (validate_taylor_enclosure A [x]); [|discriminate]. destruct (validate_taylor_enclosure A [y]); [|discriminate]. cbn [bind] in *.
  apply bind_ok in H. destruct H as (p & Hp & H). rewrite Hp. cbn [bind].
  assert (Op : one p).
  { unfold poly_bilinear in Hp. cbn [length Nat.add Nat.sub repeat enumerate enumerate_from foldM] in Hp.
    apply bind_ok in Hp. destruct Hp as (p1 & Hp & Hq). injection Hq as ->. apply bind_ok in Hp. destruct Hp as (p1 & Hp & Hq). injection Hq as ->.
    apply bind_ok in Hp. destruct Hp as (c & _ & Hp). eapply add_at1; eauto. eexists; eauto. }
  destruct Op as [c ->]. rewrite trunc1 in H |- *. injection H as <-. split; auto. eexists; eauto.
Qed.
Lemma pow1 a n e : one a -> epower_nat A a n = Ok e -> one e /\ epower_nat A' a n = Ok e.
Proof.
  intros [x ->] H. unfold epower_nat in *. rewrite !validate1. cbn [trust_region A A'] in *. rewrite xnd1.
  destruct (validate_taylor_enclosure A [x]); [|discriminate]. cbn [bind] in *.
  apply bind_ok in H. destruct H as (p & Hp & H). rewrite Hp. cbn [bind].
  assert (Op : one p).
  { unfold integer_power in Hp. destruct (_ <? 0)%Z; [discriminate|]. destruct (_ =? 0)%Z; [injection Hp as <-; eexists; eauto|].
    cbn [length Nat.sub Nat.mul] in Hp. rewrite ?Nat.mul_0_r, ?Nat.mul_0_l in Hp. cbn [Nat.add seq mapM] in Hp. apply bind_ok in Hp. destruct Hp as (c & _ & Hp). injection Hp as <-. eexists; eauto. }
  destruct Op as [c ->]. rewrite trunc1 in H |- *. injection H as <-. split; auto. eexists; eauto.
Qed.
Lemma bil1 f a b e : one a -> one b -> earbitrary_bilinear A a b f = Ok e -> one e /\ earbitrary_bilinear A' a b f = Ok e.
Proof.
  intros [x ->] [y ->] H. unfold earbitrary_bilinear in *. cbn [max_degree A A'] in *. cbn [length Nat.add Nat.sub Nat.min repeat enumerate enumerate_from foldM] in *.
  unfold term_enclosure_coefficient in *. cbn [max_degree trust_region A A' Nat.add Nat.leb Nat.mul Nat.min] in *.
  destruct (ibilinear x y _ false) as [c|]; [|discriminate]. cbn [bind] in *.
  assert (Oe : one e).
  { apply bind_ok in H. destruct H as (p1 & Hp & Hq). injection Hq as ->. apply bind_ok in Hp. destruct Hp as (p1 & Hp & Hq). injection Hq as ->.
    eapply add_at1; eauto. eexists; eauto. }
  split; auto.
Qed.
Lemma fun1 gen a t e : one_coefficient gen -> one a -> elementwise_fun A gen a t = Ok e -> one e /\ elementwise_fun A' gen a t = Ok e.
Proof.
  intros HG [x ->] H. unfold elementwise_fun in *. cbn [max_degree A A'] in *.
  assert (E : (d0 <- enclose_enclosure [x] (trust_region A') 0 ;; get_nth d0 0) = (d0 <- enclose_enclosure [x] (trust_region A) 0 ;; get_nth d0 0)) by reflexivity.
  cbn [trust_region A A'] in *. rewrite E. clear E.
  apply bind_ok in H. destruct H as (t0 & -> & H). cbn [bind]. apply bind_ok in H. destruct H as (xc & -> & H). cbn [bind]. apply bind_ok in H. destruct H as (x0 & -> & H). cbn [bind].
  apply bind_ok in H. destruct H as (ew & Hew & H). rewrite Hew. cbn [bind]. apply HG in Hew. apply len1 in Hew. destruct Hew as [c ->].
  unfold compose_enclosures in *. cbn [enumerate enumerate_from foldM compose_term bind] in *.
  destruct (eadd A [zero_c] [c]) as [e'|] eqn:Ee; [|discriminate]. injection H as ->. destruct (add1 [zero_c] [c] e) as [O1 O2]; auto; try (eexists; reflexivity). rewrite O2. auto.
Qed.
Lemma ipow1 pg a p e : one_coefficient (pg p) -> one a -> epower A pg a p = Ok e -> one e /\ epower A' pg a p = Ok e.
Proof.
  intros HG Ha H. unfold epower in *. destruct (0 <=? p)%Z; [apply pow1; auto|]. rewrite validate1. destruct (validate_taylor_enclosure A a); [|discriminate]. apply fun1; auto.
Qed.
Lemma map1 f (a e : enclosure T) : one a -> map_over_enclosure a f = Ok e -> one e.
Proof. intros [x ->] H. unfold map_over_enclosure in H. cbn [mapM] in H. apply bind_ok in H. destruct H as (c & _ & H). injection H as <-. eexists; eauto. Qed.

(** The generators of a table. *)
Definition one_coefficients (gs : generators T) : Prop :=
  (forall e, one_coefficient (gen_elem gs e)) /\ (forall p, one_coefficient (gen_ipow gs p)) /\ (forall p, one_coefficient (gen_pow gs p)).

Lemma push1 gs p args e : one_coefficients gs -> Forall (fun i => one (i_enc i)) args ->
  pushforward gs A p args = Ok e -> one e /\ pushforward gs A' p args = Ok e.
Proof.
  intros (G1 & G2 & G3) HA H.
  destruct HA as [|a args Oa HA]; [destruct p; discriminate|]. destruct HA as [|b args Ob HA].
  - destruct p; try discriminate; cbn -[gather] in *; try (split; [exact (map1 _ _ _ Oa H)|exact H]).
    + apply neg1; auto.
    + apply ipow1; auto.
    + split; auto. unfold push_broadcast in H. destruct Oa as [x Ea]. rewrite Ea in H. cbn [bind enumerate enumerate_from mapM] in H. apply bind_ok in H. destruct H as (c & _ & H). injection H as <-. eexists; eauto.
    + apply fun1; auto.
  - destruct HA as [|c args Oc HA]; [|destruct p; discriminate]. destruct p; try discriminate; cbn in *.
    + apply add1; auto.
    + apply sub1; auto.
    + apply mul1; auto.
    + unfold edivide in *. apply bind_ok in H. destruct H as (ib & Hib & H). destruct (ipow1 _ _ _ _ (G2 _) Ob Hib) as [O1 ->]. apply mul1; auto.
    + destruct (is_constant b); [|discriminate]. cbn [negb] in *. apply bind_ok in H. destruct H as (v & -> & H). cbn [bind]. apply bind_ok in H. destruct H as (w & -> & H). cbn [bind].
      unfold epower_float in *. rewrite validate1. destruct (validate_taylor_enclosure A (i_enc a)); [|discriminate]. cbn [bind] in *.
      destruct (exponent gs w); [apply pow1; auto|discriminate|apply fun1; auto].
    + apply bil1; auto.
    + apply bil1; auto.
Qed.

Definition ones (d : dict (T := T)) : Prop := forall n i, dlookup d n = Some i -> one (i_enc i).
Lemma store1 xs : forall outs vals d d', ones d -> Forall (fun i => one (i_enc i)) vals -> store xs d outs vals = Ok d' -> ones d'.
Proof.
  induction outs as [|u outs IH]; intros vals d d' Hd HV H; destruct HV as [|i vals Hi HV]; simpl in H; try discriminate; [injection H as <-; auto|].
  destruct u as [n|n|]; [|discriminate|].
  - destruct (dlookup d n); [discriminate|]. apply bind_ok in H. destruct H as (u & _ & H). refine (IH _ _ _ _ HV H).
    intros m j Hj. simpl in Hj. destruct (n =? m)%nat; [injection Hj as <-; auto|exact (Hd m j Hj)].
  - exact (IH _ _ _ Hd HV H).
Qed.
Lemma get1 lits d v i : ones d -> get_intermediate lits d v = Ok i -> one (i_enc i).
Proof.
  intros Hd H. destruct v as [n|n|]; simpl in H; [|injection H as <-; simpl; eexists; eauto|discriminate].
  destruct (dlookup d n) as [j|] eqn:E; [|discriminate]. injection H as ->. eauto.
Qed.
Lemma gets1 lits d l : ones d -> forall args, mapM (get_intermediate lits d) l = Ok args -> Forall (fun i => one (i_enc i)) args.
Proof.
  intros Hd. induction l as [|v l IH]; intros args H; cbn [mapM] in H; [injection H as <-; constructor|].
  apply bind_ok in H. destruct H as (i & Hi & H). apply bind_ok in H. destruct H as (is' & His & H). injection H as <-. constructor; auto. eapply get1; eauto.
Qed.
Lemma step1 sc gs B B' xs lits d o d' : one_coefficients gs -> ones d ->
  step sc gs A B false xs lits d o = Ok d' -> ones d' /\ step sc gs A' B' false xs lits d o = Ok d'.
Proof.
  intros HG Hd H. unfold step in *. apply bind_ok in H. destruct H as (args & Ha & H). rewrite Ha. cbn [bind]. pose proof (gets1 _ _ _ Hd _ Ha) as HA.
  apply bind_ok in H. destruct H as (outs & Ho & H). destruct (existsb _ args).
  - apply bind_ok in Ho. destruct Ho as (e & He & Ho). destruct (push1 _ _ _ _ HG HA He) as [Oe ->]. cbn [bind] in *.
    destruct (negb _); [discriminate|]. cbn [bind] in *. injection Ho as <-. split; auto. refine (store1 _ _ _ _ _ Hd _ H). constructor; auto.
  - rewrite Ho. cbn [bind]. split; auto. refine (store1 _ _ _ _ _ Hd _ H). apply bind_ok in Ho. destruct Ho as (ts & _ & Ho). apply bind_ok in Ho. destruct Ho as (rs & _ & Ho). injection Ho as <-.
    apply Forall_forall. intros i Hi. apply in_map_iff in Hi. destruct Hi as (t & <- & _). simpl. eexists; eauto.
Qed.
Lemma run1 sc gs B B' xs lits ops : one_coefficients gs -> forall d d', ones d ->
  foldM (step sc gs A B false xs lits) d ops = Ok d' -> foldM (step sc gs A' B' false xs lits) d ops = Ok d'.
Proof.
  intros HG. induction ops as [|o ops IH]; intros d d' Hd H; cbn [foldM] in *; auto.
  apply bind_ok in H. destruct H as (d1 & H1 & H). destruct (step1 _ _ _ B' _ _ _ _ _ HG Hd H1) as [O1 ->]. cbn [bind]. auto.
Qed.
End Any.

(** [identity] depends on the shape only; so does the success of [isub]. *)
Lemma identity_shape {T} {N : Num T} (x y : tensor T) : tshape x = tshape y -> identity x = identity y.
Proof. intros E. unfold identity. rewrite E. reflexivity. Qed.

(** In any arithmetic: the bounds of degree 0 for [x0] are those for [x0']. *)
Theorem C81_degree_0_does_not_depend_on_x0 : forall {T} {N : Num T} sc gs pr consts propagate (x0 x0' : tensor T) region b,
  one_coefficients gs -> tshape x0' = tshape x0 ->
  taylor_bounds sc gs pr consts 0 propagate x0 region = Ok b ->
  taylor_bounds sc gs pr consts 0 propagate x0' region = Ok (TaylorBounds x0' region (tb_coefficients b)).
Proof.
  intros T N sc gs pr consts propagate x0 x0' region b HG S H. unfold taylor_bounds in *.
  apply bind_ok in H. destruct H as (d & Hd & H). apply bind_ok in H. destruct H as (ov & Hov & H). apply bind_ok in H. destruct H as (i & Hi & H). injection H as <-.
  assert (E : interpret sc gs pr consts 0 propagate x0' region = Ok d).
  { unfold interpret in *. change (0 <? 0)%Z with false in *. change (Z.to_nat 0) with 0%nat in *. cbn [Nat.eqb Nat.ltb Nat.leb] in *.
    rewrite S, (identity_shape x0' x0 S).
    apply bind_ok in Hd. destruct Hd as (t & Ht & Hd). apply bind_ok in Hd. destruct Hd as (tr & Htr & Hd).
    apply bind_ok in Hd. destruct Hd as (AA & HAA & Hd). apply bind_ok in Hd. destruct Hd as (AA0 & HAA0 & Hd).
    cbn [isub] in *. unfold tsub, tmap2 in *. rewrite S.
    destruct (bshape (tshape (fst region)) (tshape x0)) as [s1|]; [|discriminate]. cbn [bind] in *.
    destruct (bshape (tshape (snd region)) (tshape x0)) as [s2|]; [|discriminate]. cbn [bind] in *.
    injection Ht as <-. injection Htr as <-. unfold make_arith in *. cbn [fst snd tshape] in *. destruct (shape_eqb s1 s2); [|discriminate]. cbn [bind].
    injection HAA as <-. injection HAA0 as <-.
    apply bind_ok in Hd. destruct Hd as (eye & -> & Hd). cbn [bind]. apply bind_ok in Hd. destruct Hd as (u & -> & Hd). cbn [bind].
    apply bind_ok in Hd. destruct Hd as (inv & -> & Hd). cbn [bind]. apply bind_ok in Hd. destruct Hd as (d0 & Hd0 & Hd). rewrite Hd0. cbn [bind].
    refine (run1 _ _ _ sc gs _ _ _ _ _ HG _ _ _ Hd); [reflexivity|].
    assert (O0 : forall l d1 d2, ones d1 -> foldM (fun d '(v, c) => match v with Var n => Ok ((n, constant_inter c) :: d) | _ => Err Unmodelled end) d1 l = Ok d2 -> ones (T := T) d2).
    { clear. induction l as [|(v, c) l IH]; intros d1 d2 H1 H; cbn [foldM] in H; [injection H as <-; auto|]. destruct v; try discriminate. cbn [bind] in H. refine (IH _ _ _ H).
      intros m j Hj. simpl in Hj. destruct (_ =? m)%nat; [injection Hj as <-; simpl; eexists; eauto|exact (H1 m j Hj)]. }
    intros m j Hj. simpl in Hj. destruct (inv =? m)%nat; [injection Hj as <-; simpl; eexists; eauto|]. refine (O0 _ _ _ _ Hd0 m j Hj). intros ? ? K. discriminate. }
  rewrite E. cbn [bind]. rewrite Hov. cbn [bind]. rewrite Hi. reflexivity.
Qed.
