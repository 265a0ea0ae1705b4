(** Property C78: the order of the equations, unused equations, the names of
    the variables and whether a constant is a literal do not matter. *)
From Coq Require Import Permutation.
From Verif Require Import Base Tensor Enclosure GraphEditor JaxBound ScheduleSpec.

Section Schedule.
Context {T : Type} {N : Num T}.
Variable sc : scalars T.
Variable gs : generators T.

(** The part of [step] between the lookup and the store. *)
Definition compute (A A0 : arith T) (prop : bool) (o : op jvar (prim T)) (args : list (inter T)) : res (list (inter T)) :=
  if existsb (fun i => negb (is_constant i)) args then
    e <- pushforward gs A (odata o) args ;;
    if negb (length (oouts o) =? 1) then Err Unmodelled else
    r <- (if prop then r <- out_trust_region gs A0 (odata o) args e ;; Ok (Some r) else Ok None) ;;
    Ok [Inter e r]
  else
    vals <- mapM constant_value args ;;
    res <- prim_eval sc (odata o) vals ;;
    Ok (map constant_inter res).
Lemma step_compute A A0 prop xs lits d o :
  step sc gs A A0 prop xs lits d o =
  (args <- mapM (get_intermediate lits d) (oins o) ;; outs <- compute A A0 prop o args ;; store xs d (oouts o) outs).
Proof. reflexivity. Qed.
Lemma compute_data A A0 prop o o' args : odata o = odata o' -> length (oouts o) = length (oouts o') ->
  compute A A0 prop o args = compute A A0 prop o' args.
Proof. intros E1 E2. unfold compute. rewrite E1, E2. reflexivity. Qed.

Section Run.
Variables (A A0 : arith T) (prop : bool) (xs : list nat) (lits : nat -> tensor T).
Notation stp := (step sc gs A A0 prop xs lits).

Definition sub (d e : dict) : Prop := forall n (i : inter T), dlookup d n = Some i -> dlookup e n = Some i.
Lemma sub_refl d : sub d d.
Proof. intros n i H. exact H. Qed.
Lemma sub_trans d e f : sub d e -> sub e f -> sub d f.
Proof. intros H1 H2 n i H. apply H2, H1, H. Qed.

(** The outputs of an equation are in the dictionary. *)
Inductive stored (d : dict) : list jvar -> list (inter T) -> Prop :=
| st_nil : stored d [] []
| st_drop : forall os i is, stored d os is -> stored d (Drop :: os) (i :: is)
| st_var : forall n os i is, dlookup d n = Some i -> validate_shapes xs (i_enc i) = Ok tt -> stored d os is ->
    stored d (Var n :: os) (i :: is).

Lemma store_stored : forall os is d d', store xs d os is = Ok d' -> sub d d' /\ stored d' os is.
Proof.
  induction os as [|v os IH]; intros [|i is] d d' H; cbn [store] in H; try discriminate.
  - injection H as <-. split; [apply sub_refl|constructor].
  - destruct v as [n|n|]; [|discriminate|].
    + destruct (dlookup d n) eqn:E; [discriminate|]. destruct (validate_shapes xs (i_enc i)) as [[]|] eqn:Ev; [|discriminate].
      cbn [bind] in H. destruct (IH _ _ _ H) as [S1 S2].
      assert (L : dlookup d' n = Some i) by (apply S1; cbn [dlookup]; rewrite Nat.eqb_refl; reflexivity).
      split; [|constructor; auto].
      intros m j Hm. apply S1. cbn [dlookup]. destruct (Nat.eqb_spec n m) as [->|]; [congruence|auto].
    + destruct (IH _ _ _ H) as [S1 S2]. split; [auto|constructor; auto].
Qed.
Lemma get_sub d e v i : sub d e -> get_intermediate lits d v = Ok i -> get_intermediate lits e v = Ok i.
Proof.
  intros S. destruct v as [n|n|]; cbn [get_intermediate]; auto. destruct (dlookup d n) eqn:E; [|discriminate].
  rewrite (S _ _ E). auto.
Qed.
Lemma gets_sub d e : sub d e -> forall vs l, mapM (get_intermediate lits d) vs = Ok l -> mapM (get_intermediate lits e) vs = Ok l.
Proof.
  intro S. induction vs as [|v vs IH]; cbn [mapM]; auto. intros l H.
  destruct (get_intermediate lits d v) eqn:E; [|discriminate]. cbn [bind] in H.
  rewrite (get_sub d e v _ S E). cbn [bind]. destruct (mapM (get_intermediate lits d) vs) eqn:E2; [|discriminate].
  rewrite (IH _ eq_refl). auto.
Qed.
Lemma stored_sub d e os is : sub d e -> stored d os is -> stored e os is.
Proof. intros S. induction 1; constructor; auto. Qed.

(** What a finished run knows about each of its equations. *)
Definition explained (d : dict) (o : op jvar (prim T)) : Prop :=
  exists args outs, mapM (get_intermediate lits d) (oins o) = Ok args /\ compute A A0 prop o args = Ok outs /\ stored d (oouts o) outs.
Lemma step_explained d d' o : stp d o = Ok d' -> sub d d' /\ explained d' o.
Proof.
  rewrite step_compute. intro H. destruct (mapM (get_intermediate lits d) (oins o)) as [args|] eqn:E; [|discriminate]. cbn [bind] in H.
  destruct (compute A A0 prop o args) as [outs|] eqn:Ec; [|discriminate]. cbn [bind] in H.
  destruct (store_stored _ _ _ _ H) as [S1 S2]. split; [auto|]. exists args, outs.
  split; [apply (gets_sub d); auto|]. auto.
Qed.
Lemma explained_sub d e o : sub d e -> explained d o -> explained e o.
Proof. intros S (args & outs & H1 & H2 & H3). exists args, outs. split; [apply (gets_sub d); auto|]. split; [auto|]. apply (stored_sub d); auto. Qed.
Lemma run_explained : forall ops d d', foldM stp d ops = Ok d' -> sub d d' /\ forall o, In o ops -> explained d' o.
Proof.
  induction ops as [|o ops IH]; intros d d' H; cbn [foldM] in H.
  - injection H as <-. split; [apply sub_refl|intros o []].
  - destruct (stp d o) as [e|] eqn:E; [|discriminate]. cbn [bind] in H. destruct (step_explained _ _ _ E) as [S1 X1].
    destruct (IH _ _ H) as [S2 X2]. split; [eapply sub_trans; eauto|]. intros o' [<-|Ho]; [apply (explained_sub e); auto|auto].
Qed.

(** Storing values that the finished run has too. *)
Lemma store_within fin : forall os is d d', sub d fin -> stored fin os is -> store xs d os is = Ok d' -> sub d' fin.
Proof.
  induction os as [|v os IH]; intros [|i is] d d' S H E; cbn [store] in E; try discriminate.
  - injection E as <-. auto.
  - inversion H; subst.
    + eapply IH; eauto.
    + destruct (dlookup d n) eqn:En; [discriminate|]. destruct (validate_shapes xs (i_enc i)) as [[]|] eqn:Ev; [|discriminate].
      cbn [bind] in E. apply (IH is ((n, i) :: d) d'); auto.
      intros m j Hm. cbn [dlookup] in Hm. destruct (Nat.eqb_spec n m) as [->|]; [congruence|auto].
Qed.
Lemma run_within fin : forall ops d d', sub d fin -> (forall o, In o ops -> explained fin o) -> foldM stp d ops = Ok d' -> sub d' fin.
Proof.
  induction ops as [|o ops IH]; intros d d' S X H; cbn [foldM] in H.
  - injection H as <-. auto.
  - destruct (stp d o) as [e|] eqn:E; [|discriminate]. cbn [bind] in H. apply (IH e d'); auto using in_cons.
    rewrite step_compute in E. destruct (X o (in_eq _ _)) as (args & outs & H1 & H2 & H3).
    destruct (mapM (get_intermediate lits d) (oins o)) as [args'|] eqn:E1; [|discriminate]. cbn [bind] in E.
    assert (args' = args) by (apply (gets_sub d fin S) in E1; congruence). subst args'. rewrite H2 in E. cbn [bind] in E.
    apply (store_within fin (oouts o) outs d); auto.
Qed.

(** ... and they can be stored if they are new. *)
Definition has (d : dict) (v : jvar) : Prop := exists n (i : inter T), v = Var n /\ dlookup d n = Some i.
Lemma store_new fin : forall os is d, stored fin os is -> (forall n, In (Var n) os -> dlookup d n = None) -> NoDup (filter variable os) ->
  exists d', store xs d os is = Ok d' /\ (forall v, has d' v <-> has d v \/ (variable v = true /\ In v os)).
Proof.
  induction os as [|v os IH]; intros is d H Hn Nd; inversion H; subst; cbn [store].
  - exists d. split; [reflexivity|]. intro v. split; [auto|]. intros [|[_ []]]. auto.
  - destruct (IH is0 d) as (d' & E & K); auto. { intros n Hv. apply Hn. right. auto. }
    exists d'. split; [auto|]. intro v. rewrite K. split; [intros [|[]]; [auto|right; split; auto; right; auto]|].
    intros [|[Hv [<-|]]]; [auto|discriminate|auto].
  - rewrite (Hn n (in_eq _ _)). match goal with H : validate_shapes _ _ = _ |- _ => rewrite H end. cbn [bind].
    cbn [filter variable] in Nd. inversion Nd; subst.
    destruct (IH is0 ((n, i) :: d)) as (d' & E & K); auto.
    { intros m Hm. cbn [dlookup]. destruct (Nat.eqb_spec n m) as [->|].
      - exfalso. match goal with H : ~ In _ (filter _ _) |- _ => apply H end. apply filter_In. auto.
      - apply Hn. right. auto. }
    exists d'. split; [auto|]. intro v. rewrite K. unfold has. split.
    + intros [(m & j & -> & Hm)|[Hv Hi]]; [|right; split; auto; right; auto].
      cbn [dlookup] in Hm. destruct (Nat.eqb_spec n m) as [->|]; [right; split; auto; left; auto|left; exists m, j; auto].
    + intros [(m & j & -> & Hm)|[Hv [<-|Hi]]].
      * left. exists m, j. split; [auto|]. cbn [dlookup]. destruct (Nat.eqb_spec n m) as [->|]; [rewrite (Hn m (in_eq _ _)) in Hm; discriminate|auto].
      * left. exists n, i. split; [auto|]. cbn [dlookup]. rewrite Nat.eqb_refl. auto.
      * right. auto.
Qed.
Lemma gets_defined fin d : sub d fin -> forall vs l, mapM (get_intermediate lits fin) vs = Ok l ->
  (forall v, In v vs -> (exists n, v = Lit n) \/ has d v) -> mapM (get_intermediate lits d) vs = Ok l.
Proof.
  intro S. induction vs as [|v vs IH]; cbn [mapM]; auto. intros l H D.
  destruct (get_intermediate lits fin v) as [i|] eqn:E; [|discriminate]. cbn [bind] in H.
  assert (G : get_intermediate lits d v = Ok i).
  { destruct (D v (in_eq _ _)) as [(n & ->)|(n & j & -> & Hj)]; [exact E|]. cbn [get_intermediate] in *. rewrite Hj. rewrite (S _ _ Hj) in E. auto. }
  rewrite G. cbn [bind]. destruct (mapM (get_intermediate lits fin) vs) eqn:E2; [|discriminate].
  rewrite (IH _ eq_refl) by (intros; apply D; right; auto). auto.
Qed.
Lemma run_schedule fin : forall ops d known, sub d fin -> (forall v, variable v = true -> (has d v <-> In v known)) ->
  (forall o, In o ops -> explained fin o) -> schedule known ops ->
  exists d', foldM stp d ops = Ok d' /\ (forall v, variable v = true -> (has d' v <-> In v (known_after known ops))).
Proof.
  induction ops as [|o ops IH]; intros d known S K X Sch; cbn [foldM].
  - exists d. split; [reflexivity|]. intros v Hv. unfold known_after. cbn [flat_map]. rewrite app_nil_r. auto.
  - destruct Sch as (Si & So & Nd & Sch). destruct (X o (in_eq _ _)) as (args & outs & H1 & H2 & H3).
    assert (E1 : mapM (get_intermediate lits d) (oins o) = Ok args).
    { apply (gets_defined fin d); auto. intros v Hv. destruct (Si v Hv) as [|[Vv Iv]]; [auto|]. right. apply K; auto. }
    destruct (store_new fin (oouts o) outs d H3) as (d1 & E2 & K1).
    { intros n Hn. destruct (dlookup d n) as [i|] eqn:E; [|reflexivity]. exfalso. apply (So (Var n)); auto. apply K; [auto|]. exists n, i. auto. }
    { auto. }
    assert (E3 : stp d o = Ok d1) by (rewrite step_compute, E1; cbn [bind]; rewrite H2; exact E2).
    rewrite E3. cbn [bind].
    destruct (IH d1 (known ++ oouts o)) as (d' & E4 & K4).
    + apply (store_within fin (oouts o) outs d); auto.
    + intros v Hv. rewrite K1, K by auto. rewrite in_app_iff. tauto.
    + auto using in_cons.
    + auto.
    + exists d'. split; [auto|]. intros v Hv. rewrite K4 by auto. unfold known_after. cbn [flat_map]. rewrite !in_app_iff. tauto.
Qed.
End Run.

(** The run starts from the constants and the argument. *)
Definition add_consts (d : dict) (l : list (jvar * tensor T)) : res (@dict T) :=
  foldM (fun d '(v, c) => match v with Var n => Ok ((n, constant_inter c) :: d) | _ => Err Unmodelled end) d l.
Lemma add_consts_has : forall l d d', add_consts d l = Ok d' -> forall v, has d' v <-> has d v \/ (variable v = true /\ In v (map fst l)).
Proof.
  unfold add_consts. induction l as [|[u c] l IH]; intros d d' H v; cbn [foldM] in H.
  - injection H as <-. cbn [map In]. tauto.
  - destruct u as [n|n|]; try discriminate. cbn [bind] in H. rewrite (IH _ _ H). cbn [map fst In]. unfold has. split.
    + intros [(m & j & -> & Hm)|]; [|tauto]. cbn [dlookup] in Hm. destruct (Nat.eqb_spec n m) as [->|].
      * right. auto.
      * left. exists m, j. auto.
    + intros [(m & j & -> & Hm)|[Hv [<-|Hi]]]; [| |tauto].
      * left. destruct (Nat.eqb_spec n m) as [->|].
        { exists m, (constant_inter c). split; [auto|]. cbn [dlookup]. rewrite Nat.eqb_refl. auto. }
        { exists m, j. split; [auto|]. cbn [dlookup]. destruct (Nat.eqb_spec n m); [contradiction|auto]. }
      * left. exists n, (constant_inter c). split; [auto|]. cbn [dlookup]. rewrite Nat.eqb_refl. auto.
Qed.
Lemma interpret_ok pr consts md propagate x0 region d : interpret sc gs pr consts md propagate x0 region = Ok d ->
  exists A A0 prop d1,
    (forall v, variable v = true -> (has d1 v <-> In v (gdata (p_graph pr) ++ gins (p_graph pr)))) /\
    forall ops outs, interpret sc gs (Program (@Graph jvar (prim T) (list jvar) (gins (p_graph pr)) outs ops (gdata (p_graph pr))) (p_lits pr)) consts md propagate x0 region =
      foldM (step sc gs A A0 prop (tshape x0) (p_lits pr)) d1 ops.
Proof.
  unfold interpret. cbn [p_graph gins gouts gops gdata p_lits]. intro H.
  destruct (md <? 0)%Z; [discriminate|].
  match type of H with bind ?x _ = _ => destruct x as [t|] end; [|discriminate]. cbn [bind] in *.
  match type of H with bind ?x _ = _ => destruct x as [tr|] end; [|discriminate]. cbn [bind] in *.
  match type of H with bind ?x _ = _ => destruct x as [A|] end; [|discriminate]. cbn [bind] in *.
  match type of H with bind ?x _ = _ => destruct x as [A0|] end; [|discriminate]. cbn [bind] in *.
  match type of H with bind ?x _ = _ => destruct x as [eye|] end; [|discriminate]. cbn [bind] in *.
  destruct (length consts =? length (gdata (p_graph pr))) eqn:El; [|discriminate]. cbn [guard bind] in *.
  destruct (gins (p_graph pr)) as [|[n|n|] [|]] eqn:Ei; try discriminate. cbn [bind] in *.
  match type of H with bind ?x _ = _ => destruct x as [d0|] eqn:E0 end; [|discriminate]. cbn [bind] in *.
  do 4 eexists. split; [|intros; reflexivity].
  intros v Hv. apply Nat.eqb_eq in El.
  assert (K := add_consts_has _ [] d0 E0 v).
  assert (M : map fst (combine (gdata (p_graph pr)) consts) = gdata (p_graph pr)).
  { clear - El. revert consts El. induction (gdata (p_graph pr)) as [|a l IH]; intros [|b consts]; simpl; intro; try lia; auto. f_equal. apply IH. lia. }
  rewrite M in K. rewrite in_app_iff. unfold has in *. cbn [dlookup]. split.
  - intros (m & j & -> & Hm). destruct (Nat.eqb_spec n m) as [->|]; [right; left; auto|].
    left. destruct (proj1 K) as [(k & i & _ & F)|[_ F]]; [exists m, j; auto|discriminate|exact F].
  - intros [Hi|[<-|[]]].
    + destruct (proj2 K) as (m & j & -> & Hm); [auto|]. exists m. destruct (Nat.eqb_spec n m) as [->|]; eauto.
    + exists n. rewrite Nat.eqb_refl. eauto.
Qed.

Lemma program_eta (p : program T) : p = Program (@Graph jvar (prim T) (list jvar) (gins (p_graph p)) (gouts (p_graph p)) (gops (p_graph p)) (gdata (p_graph p))) (p_lits p).
Proof. destruct p as [[] ]. reflexivity. Qed.

(** If [p] returns bounds, then some of its equations, in any order, return the
    same bounds if they return at all, and they return if each variable is
    defined once and before its uses. *)
Theorem C78_order_and_unused_equations : forall (p q : program T) consts max_deg propagate x0 region b,
  part_of p q ->
  taylor_bounds sc gs p consts max_deg propagate x0 region = Ok b ->
  (forall b', taylor_bounds sc gs q consts max_deg propagate x0 region = Ok b' -> b' = b) /\
  (executable q -> taylor_bounds sc gs q consts max_deg propagate x0 region = Ok b).
Proof.
  intros p q consts md pg x0 region b (Ei & Eo & Ed & El & Sub) H.
  unfold taylor_bounds in H. destruct (interpret sc gs p consts md pg x0 region) as [fin|] eqn:EI; [|discriminate]. cbn [bind] in H.
  destruct (interpret_ok _ _ _ _ _ _ _ EI) as (A & A0 & prop & d1 & K1 & R).
  assert (Rp := R (gops (p_graph p)) (gouts (p_graph p))). rewrite <- program_eta, EI in Rp. symmetry in Rp.
  assert (Rq := R (gops (p_graph q)) (gouts (p_graph q))). rewrite <- Ei, <- Ed, <- El, <- program_eta in Rq.
  destruct (run_explained A A0 prop (tshape x0) (p_lits p) _ _ _ Rp) as [S X].
  assert (Xq : forall o, In o (gops (p_graph q)) -> explained A A0 prop (tshape x0) (p_lits p) fin o) by auto.
  unfold taylor_bounds. rewrite Rq, Eo, El.
  destruct (gouts (p_graph p)) as [|v [|]] eqn:Eout; try discriminate. cbn [bind] in *.
  destruct (get_intermediate (p_lits p) fin v) as [i|] eqn:Eg; [|discriminate]. cbn [bind] in H. injection H as <-.
  assert (Fin : forall d' j, foldM (step sc gs A A0 prop (tshape x0) (p_lits p)) d1 (gops (p_graph q)) = Ok d' ->
            get_intermediate (p_lits p) d' v = Ok j -> j = i).
  { intros d' j F G. assert (S' := run_within A A0 prop (tshape x0) (p_lits p) fin _ _ _ S Xq F). apply (get_sub (p_lits p) d' fin v j S') in G. congruence. }
  split.
  - intros b' Hb'. destruct (foldM (step sc gs A A0 prop (tshape x0) (p_lits p)) d1 (gops (p_graph q))) as [d'|] eqn:F; cbn [bind] in Hb'; [|discriminate].
    destruct (get_intermediate (p_lits p) d' v) as [j|] eqn:G; cbn [bind] in Hb'; [|discriminate]. injection Hb' as <-.
    rewrite (Fin d' j eq_refl G). reflexivity.
  - intros [Sch Out]. rewrite Ed, Ei in Sch, Out.
    destruct (run_schedule A A0 prop (tshape x0) (p_lits p) fin (gops (p_graph q)) d1 _ S K1 Xq Sch) as (d' & F & K').
    rewrite F. cbn [bind].
    assert (G : exists j, get_intermediate (p_lits p) d' v = Ok j).
    { destruct (Out v) as [(n & ->)|[Hv Hk]]; [rewrite Eo; left; auto|eexists; reflexivity|].
      apply K' in Hk; auto. destruct Hk as (n & j & -> & Hj). exists j. cbn [get_intermediate]. rewrite Hj. auto. }
    destruct G as (j & G). rewrite G. cbn [bind]. rewrite (Fin d' j F G). reflexivity.
Qed.

(** Two executable orders of the same equations. *)
Theorem C78_any_schedule : forall (p q : program T) consts max_deg propagate x0 region b,
  gins (p_graph q) = gins (p_graph p) -> gouts (p_graph q) = gouts (p_graph p) -> gdata (p_graph q) = gdata (p_graph p) -> p_lits q = p_lits p ->
  Permutation (gops (p_graph p)) (gops (p_graph q)) -> executable p -> executable q ->
  (taylor_bounds sc gs p consts max_deg propagate x0 region = Ok b <-> taylor_bounds sc gs q consts max_deg propagate x0 region = Ok b).
Proof.
  intros p q consts md pg x0 region b Ei Eo Ed El Pm Xp Xq. split; intro H.
  - apply (C78_order_and_unused_equations p q); auto. repeat split; auto. intros o Ho. apply (Permutation_in o (Permutation_sym Pm)). auto.
  - apply (C78_order_and_unused_equations q p); auto. repeat split; auto. intros o Ho. apply (Permutation_in o Pm). auto.
Qed.
End Schedule.

Section Names.
Context {T : Type} {N : Num T}.
Variable sc : scalars T.
Variable gs : generators T.
Variables (name : nat -> nat) (hoist : nat -> option nat) (new : list nat) (vals : list (tensor T)) (occ : nat -> Prop) (lits : nat -> tensor T).
Hypothesis inj : forall n m, occ n -> occ m -> name n = name m -> n = m.
Hypothesis fresh : forall n c, occ n -> In c new -> name n <> c.
Hypothesis hoisted : forall k c, hoist k = Some c -> In c new.

Definition named (d d' : @dict T) : Prop := forall n, occ n -> dlookup d' (name n) = dlookup d n.
Definition literal (d' : @dict T) : Prop := forall k c, hoist k = Some c -> dlookup d' c = Some (constant_inter (lits k)).
Definition okv (v : jvar) : Prop := forall n, v = Var n -> occ n.
Definition both {X} (r : X -> X -> Prop) (a b : res X) : Prop :=
  match a, b with Ok x, Ok y => r x y | Err e, Err f => e = f | _, _ => False end.

Lemma named_cons d d' n i : named d d' -> occ n -> named ((n, i) :: d) ((name n, i) :: d').
Proof.
  intros R On m Om. cbn [dlookup]. destruct (Nat.eqb_spec n m) as [->|Ne]; [rewrite Nat.eqb_refl; auto|].
  destruct (Nat.eqb_spec (name n) (name m)) as [E|]; [destruct Ne; apply inj; auto|auto].
Qed.
Lemma literal_cons d' n i : literal d' -> occ n -> literal ((name n, i) :: d').
Proof.
  intros L On k c Hk. cbn [dlookup]. destruct (Nat.eqb_spec (name n) c) as [E|]; [destruct (fresh n c On (hoisted k c Hk) E)|]. apply (L k c Hk).
Qed.
Lemma get_named d d' v : named d d' -> literal d' -> okv v ->
  get_intermediate lits d' (new_operand name hoist v) = get_intermediate lits d v.
Proof.
  intros R L O. destruct v as [n|k|]; cbn [new_operand get_intermediate].
  - rewrite R by (apply O; auto). reflexivity.
  - destruct (hoist k) as [c|] eqn:E; cbn [get_intermediate]; [|reflexivity]. rewrite (L k c E). reflexivity.
  - reflexivity.
Qed.
Lemma gets_named d d' : named d d' -> literal d' -> forall vs, Forall okv vs ->
  mapM (get_intermediate lits d') (map (new_operand name hoist) vs) = mapM (get_intermediate lits d) vs.
Proof. intros R L. induction 1 as [|v vs O _ IH]; cbn [map mapM]; [reflexivity|]. rewrite (get_named d d' v R L O), IH. reflexivity. Qed.
Lemma store_named xs : forall os is d d', named d d' -> literal d' -> Forall okv os ->
  both (fun d d' => named d d' /\ literal d') (store xs d os is) (store xs d' (map (new_output name) os) is).
Proof.
  induction os as [|v os IH]; intros [|i is] d d' R L O; cbn [map store].
  - simpl. auto.
  - simpl. auto.
  - simpl. auto.
  - inversion O as [|? ? Ov Os]; subst. destruct v as [n|n|]; cbn [new_output].
    + assert (On : occ n) by (apply Ov; auto). rewrite (R n On). destruct (dlookup d n); [simpl; auto|].
      destruct (validate_shapes xs (i_enc i)) as [[]|]; cbn [bind]; [|simpl; auto].
      apply IH; auto using named_cons, literal_cons.
    + simpl. auto.
    + apply IH; auto.
Qed.
Definition new_op (o : op jvar (prim T)) : op jvar (prim T) :=
  Op (odata o) (map (new_operand name hoist) (oins o)) (map (new_output name) (oouts o)).
Lemma run_named A A0 prop xs : forall ops d d', named d d' -> literal d' ->
  Forall (fun o => Forall okv (oins o) /\ Forall okv (oouts o)) ops ->
  both (fun d d' => named d d' /\ literal d') (foldM (step sc gs A A0 prop xs lits) d ops) (foldM (step sc gs A A0 prop xs lits) d' (map new_op ops)).
Proof.
  induction ops as [|o ops IH]; intros d d' R L O; cbn [map foldM]; [simpl; auto|].
  inversion O as [|? ? [Oi Oo] Os]; subst.
  assert (S : both (fun d d' => named d d' /\ literal d') (step sc gs A A0 prop xs lits d o) (step sc gs A A0 prop xs lits d' (new_op o))).
  { rewrite !step_compute. cbn [new_op oins oouts]. rewrite (gets_named d d' R L) by auto.
    destruct (mapM (get_intermediate lits d) (oins o)) as [args|]; cbn [bind]; [|simpl; auto].
    rewrite (compute_data sc gs A A0 prop (new_op o) o args) by (reflexivity || (cbn [new_op oouts]; rewrite map_length; reflexivity)).
    destruct (compute sc gs A A0 prop o args) as [outs|]; cbn [bind]; [|simpl; auto].
    apply store_named; auto. }
  destruct (step sc gs A A0 prop xs lits d o) as [e|], (step sc gs A A0 prop xs lits d' (new_op o)) as [e'|]; simpl in S; try contradiction.
  - cbn [bind]. apply IH; tauto || auto.
  - subst. simpl. auto.
Qed.

Lemma consts_named : forall l d d', named d d' -> Forall (fun vc => okv (fst vc)) l ->
  both named (add_consts d l) (add_consts d' (map (fun vc => (new_output name (fst vc), snd vc)) l)).
Proof.
  unfold add_consts. induction l as [|[v c] l IH]; intros d d' R O; cbn [map foldM]; [simpl; auto|].
  inversion O as [|? ? Ov Os]; subst. cbn [fst snd] in *. destruct v as [n|n|]; cbn [new_output]; [|simpl; auto|simpl; auto].
  cbn [bind]. apply IH; auto. apply named_cons; auto.
Qed.
Lemma add_new : forall l (ts : list (tensor T)) d, length l = length ts -> NoDup l -> exists d',
  add_consts d (combine (map Var l) ts) = Ok d' /\
  (forall n, ~ In n l -> dlookup d' n = dlookup d n) /\
  (forall j c t, nth_error l j = Some c -> nth_error ts j = Some t -> dlookup d' c = Some (constant_inter t)).
Proof.
  unfold add_consts. induction l as [|a l IH]; intros [|t ts] d E Nd; try discriminate; cbn [map combine foldM].
  - exists d. split; [auto|]. split; [auto|]. intros [|j] c t; discriminate.
  - inversion Nd; subst. injection E as E. cbn [bind]. destruct (IH ts ((a, constant_inter t) :: d) E) as (d' & H1' & H2' & H3'); auto.
    exists d'. split; [auto|]. split.
    + intros n Hn. rewrite H2' by (intro; apply Hn; right; auto). cbn [dlookup]. destruct (Nat.eqb_spec a n) as [->|]; [destruct Hn; left; auto|auto].
    + intros [|j] c u Hc Hu; cbn [nth_error] in *; [|eauto]. injection Hc as <-. injection Hu as <-.
      rewrite H2' by auto. cbn [dlookup]. rewrite Nat.eqb_refl. auto.
Qed.
End Names.

Lemma combine_app_eq {X Y} : forall (a : list X) (b : list Y) c d, length a = length b -> combine (a ++ c) (b ++ d) = combine a b ++ combine c d.
Proof. induction a as [|x a IH]; intros [|y b] c d H; simpl in *; try discriminate; auto. f_equal. apply IH. lia. Qed.
Lemma combine_map_fst {X X' Y} (f : X -> X') : forall a (b : list Y), combine (map f a) b = map (fun vc => (f (fst vc), snd vc)) (combine a b).
Proof. induction a as [|x a IH]; intros [|y b]; simpl; auto. f_equal. auto. Qed.
Lemma foldM_app_split {X Y} (f : X -> Y -> res X) : forall l m x, foldM f x (l ++ m) = (y <- foldM f x l ;; foldM f y m).
Proof. induction l as [|a l IH]; intros m x; cbn [app foldM bind]; [reflexivity|]. destruct (f x a); cbn [bind]; auto. Qed.

(** New names for the variables (different ones for different variables), and
    constants in place of literals of the same value: the same bounds, or the
    same exception. *)
Theorem C78_names_and_literals : forall {T} {N : Num T} sc gs (p : program T) name hoist new vals consts max_deg propagate x0 region,
  (forall n m, occurs p n -> occurs p m -> name n = name m -> n = m) ->
  (forall n, occurs p n -> ~ In (name n) new) -> NoDup new -> length new = length vals ->
  (forall k c, hoist k = Some c -> exists j, nth_error new j = Some c /\ nth_error vals j = Some (p_lits p k)) ->
  taylor_bounds sc gs (rewritten name hoist new p) (consts ++ vals) max_deg propagate x0 region =
  taylor_bounds sc gs p consts max_deg propagate x0 region.
Proof.
  intros T N sc gs p name hoist new vals consts md pg x0 region Inj Fr Nd Ln Ho.
  destruct p as [[ins outs ops data] lits]. cbn [p_lits] in Ho.
  unfold rewritten. cbn [p_graph gins gouts gops gdata p_lits].
  set (p := Program (@Graph jvar (prim T) (list jvar) ins outs ops data) lits) in *.
  assert (Odata : Forall (okv (occurs p)) data).
  { apply Forall_forall. intros v Hv n ->. unfold occurs. apply in_or_app. left. exact Hv. }
  assert (Oins : Forall (okv (occurs p)) ins).
  { apply Forall_forall. intros v Hv n ->. unfold occurs. do 1 (apply in_or_app; right). apply in_or_app. left. exact Hv. }
  assert (Oouts : Forall (okv (occurs p)) outs).
  { apply Forall_forall. intros v Hv n ->. unfold occurs. do 2 (apply in_or_app; right). apply in_or_app. left. exact Hv. }
  assert (Oops : Forall (fun o => Forall (okv (occurs p)) (oins o) /\ Forall (okv (occurs p)) (oouts o)) ops).
  { apply Forall_forall. intros o Hop. split; apply Forall_forall; intros v Hv n ->; unfold occurs; do 3 (apply in_or_app; right);
      apply in_flat_map; exists o; (split; [exact Hop|]); apply in_or_app; auto. }
  assert (Hin : forall k c, hoist k = Some c -> In c new).
  { intros k c Hk. destruct (Ho k c Hk) as (j & Hj & _). apply (nth_error_In _ _ Hj). }
  assert (Fr2 : forall n c, occurs p n -> In c new -> name n <> c) by (intros n c On Hc <-; exact (Fr n On Hc)).
  set (rel := fun d d' : @dict T => named name (occurs p) d d' /\ literal hoist lits d').
  assert (Main : both rel (interpret sc gs p consts md pg x0 region)
    (interpret sc gs (Program (@Graph jvar (prim T) (list jvar) (map (new_output name) ins) (map (new_operand name hoist) outs)
       (map (new_op name hoist) ops) (map (new_output name) data ++ map Var new)) lits) (consts ++ vals) md pg x0 region)).
  { unfold interpret, p. cbn [p_graph gins gouts gops gdata p_lits]. destruct (md <? 0)%Z; [simpl; auto|].
    destruct (IntervalArith.isub _ _) as [t|]; cbn [bind]; [|simpl; auto].
    match goal with |- both _ (bind ?x _) _ => destruct x as [tr|] end; cbn [bind]; [|simpl; auto].
    destruct (make_arith (Z.to_nat md) tr) as [A|]; cbn [bind]; [|simpl; auto].
    destruct (make_arith 0 tr) as [A0|]; cbn [bind]; [|simpl; auto].
    destruct (identity x0) as [eye|]; cbn [bind]; [|simpl; auto].
    rewrite !app_length, !map_length, <- Ln.
    replace (length consts + length new =? length data + length new) with (length consts =? length data)
      by (destruct (Nat.eqb_spec (length consts) (length data)), (Nat.eqb_spec (length consts + length new) (length data + length new)); auto; lia).
    destruct (Nat.eqb_spec (length consts) (length data)) as [El|]; cbn [guard bind]; [|simpl; auto].
    destruct ins as [|[n|n|] [|? ?]]; cbn [map new_output bind]; try (simpl; auto; fail).
    rewrite combine_app_eq by (rewrite map_length; auto). rewrite combine_map_fst, foldM_app_split.
    assert (Od : Forall (fun vc : jvar * tensor T => okv (occurs p) (fst vc)) (combine data consts)).
    { apply Forall_forall. intros [v c] Hv. apply in_combine_l in Hv. exact (proj1 (Forall_forall _ _) Odata v Hv). }
    assert (C := consts_named name (occurs p) Inj (combine data consts) [] [] (fun n _ => eq_refl) Od).
    unfold add_consts in C.
    destruct (foldM _ [] (combine data consts)) as [d0|] eqn:E0;
      destruct (foldM _ [] (map _ (combine data consts))) as [d0'|] eqn:E0'; simpl in C; try contradiction; cbn [bind]; [|simpl; auto].
    destruct (add_new new vals d0' Ln Nd) as (d1' & E1 & K1 & K2). unfold add_consts in E1. rewrite E1. cbn [bind].
    assert (On : occurs p n). { inversion Oins as [|? ? X _]; subst. apply X. auto. }
    apply run_named with (occ := occurs p) (new := new); auto.
    - apply named_cons; auto. intros m Om. rewrite K1 by (intro Hm; exact (Fr m Om Hm)). apply C. auto.
    - apply literal_cons with (occ := occurs p) (new := new); auto. intros k c Hk. destruct (Ho k c Hk) as (j & Hj & Hv). apply (K2 j c _ Hj Hv). }
  unfold taylor_bounds. fold (@new_op T name hoist).
  match goal with |- bind ?a _ = bind ?b _ => change (both rel b a) in Main; destruct b as [d|], a as [d'|]; simpl in Main; try contradiction end; cbn [bind]; [|subst; reflexivity].
  unfold p. cbn [p_graph gouts p_lits]. destruct outs as [|v [|]]; cbn [map bind]; auto.
  destruct Main as [R L]. rewrite (get_named name hoist (occurs p) lits d d' v R L); [reflexivity|]. inversion Oouts; auto.
Qed.

(** A case: a(x) = x + 1, b(x) = x * 2, the result a * b and an unused b + b;
    in another order and without it; and with other names and the literals as
    constants. *)
Section Case.
Context {T : Type} {N : Num T} (one two : tensor T).
Definition lits78 (n : nat) : tensor T := match n with 0 => one | _ => two end.
Definition eqs78 : list (op jvar (prim T)) :=
  [Op add_p [Var 0; Lit 0] [Var 1]; Op mul_p [Var 0; Lit 1] [Var 2]; Op add_p [Var 2; Var 2] [Var 3]; Op mul_p [Var 1; Var 2] [Var 4]].
Definition prog78 (ops : list (op jvar (prim T))) : program T :=
  Program (@Graph jvar (prim T) (list jvar) [Var 0] [Var 4] ops []) lits78.
Definition eqs78' : list (op jvar (prim T)) :=
  [Op mul_p [Var 0; Lit 1] [Var 2]; Op add_p [Var 0; Lit 0] [Var 1]; Op mul_p [Var 1; Var 2] [Var 4]].
Example C78_nonvacuous : part_of (prog78 eqs78) (prog78 eqs78') /\ executable (prog78 eqs78') /\ executable (prog78 eqs78).
Proof.
  split; [repeat split; intros o Ho; cbn in Ho |- *; intuition|].
  split; (split; [cbn; repeat split; intros; repeat match goal with
    | H : _ \/ _ |- _ => destruct H | H : False |- _ => destruct H | H : _ = _ |- _ => subst | |- ~ _ => intro end;
    try discriminate; try (left; eexists; reflexivity); try (right; cbn; tauto); repeat constructor; cbn; try tauto; intuition discriminate
  |intros v [<-|[]]; right; cbn; tauto]).
Qed.
Definition name78 (n : nat) : nat := 10 - n.
Definition hoist78 (k : nat) : option nat := match k with 0 => Some 20 | 1 => Some 21 | _ => None end.
Example C78_names_nonvacuous :
  (forall n m, occurs (prog78 eqs78) n -> occurs (prog78 eqs78) m -> name78 n = name78 m -> n = m) /\
  (forall n, occurs (prog78 eqs78) n -> ~ In (name78 n) [20; 21]) /\
  (forall k c, hoist78 k = Some c -> exists j, nth_error [20; 21] j = Some c /\ nth_error [one; two] j = Some (p_lits (prog78 eqs78) k)) /\
  gops (p_graph (rewritten name78 hoist78 [20; 21] (prog78 eqs78))) =
    [Op add_p [Var 10; Var 20] [Var 9]; Op mul_p [Var 10; Var 21] [Var 8]; Op add_p [Var 8; Var 8] [Var 7]; Op mul_p [Var 9; Var 8] [Var 6]].
Proof.
  assert (B : forall n, occurs (prog78 eqs78) n -> n <= 4).
  { intros n H. unfold occurs in H. cbn in H. repeat destruct H as [H|H]; try discriminate; try (injection H as <-; lia); destruct H. }
  split; [intros n m Hn Hm; apply B in Hn, Hm; unfold name78; lia|].
  split; [intros n Hn [E|[E|[]]]; unfold name78 in E; lia|].
  split; [|reflexivity].
  intros [|[|k]] c H; try discriminate; injection H as <-; [exists 0|exists 1]; auto.
Qed.
End Case.
