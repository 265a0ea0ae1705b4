(** Proof of C81: running a program with enclosures that hold exact ranges. *)
From Coq Require Import Reals Lra Psatz FunctionalExtensionality.
From Verif Require Import Base Tensor IntervalArith Polynomials Enclosure TensorLemmas Spec IntervalProofs PropArith
  GraphEditor GraphSpec JaxBound JaxSpec JaxLemmas JaxIndex JaxGather JaxPush JaxOps JaxForward JaxRun FloatSpec FloatProofs PropJax DegreeZero DegreeZeroSpec DegreeZeroExact.
Open Scope R_scope.

(** A table without generators, to reuse what FloatProofs says about primitives. *)
Definition err_generators : generators R :=
  @Generators R (fun _ _ _ _ => Err ValueError) (fun _ _ _ _ => Err ValueError) (fun _ _ _ _ => Err ValueError) (fun _ => ExpOther).
Lemma exact_float numbers sc gs p : exact_prim numbers sc gs p -> float_prim (fun x => x) sc err_generators p.
Proof.
  destruct p; simpl; intros H; try contradiction; auto.
  - destruct H as [_ H]. split; [split; auto; discriminate|exact H].
  - intros _. split; auto. discriminate.
  - split; auto. discriminate.
Qed.
Lemma exact_one numbers sc gs p vs l : exact_prim numbers sc gs p -> prim_bind sc p vs = Ok l -> exists v, l = [v].
Proof.
  assert (One : forall r : res (tensor R), one_res r = Ok l -> exists v, l = [v]) by (intros r Hr; apply one_ok in Hr; destruct Hr as (t & _ & ->); eauto).
  intros HP H. destruct vs as [|a vs]; [destruct p; try discriminate; contradiction|]. destruct vs as [|b vs].
  - destruct p; try discriminate; try contradiction; cbn -[gather tmapM] in H; eauto; try (injection H as <-; eauto).
    destruct (0 <=? y)%Z; eauto. injection H as <-. eauto.
  - destruct vs; [|destruct p; try discriminate; contradiction]. destruct p; try discriminate; try contradiction; cbn -[tmap2M] in H; eauto.
Qed.

Section Run.
Variables (x0 : tensor R) (region : tensor R * tensor R).
Notation B := (in_box x0 region).
Hypothesis NE : exists x, B x.
Variable tr : tensor R * tensor R.
Let A := mkArith 0 tr.
Notation exact0 := (exact0 x0 region).
Notation fixed := (fixed x0 region).
Notation regionE := (regionE x0 region).

Definition interE (i : inter R) (y : tensor R -> tensor R) : Prop :=
  exact0 (i_enc i) y /\ regionE (i_tr i) y /\ (i_tr i <> None -> exists t, i_enc i = [Arr t]).
Lemma constE t y : (forall x, B x -> teq t (y x)) -> interE (constant_inter t) y.
Proof.
  intros H. split; [|split].
  - exists (Arr t), (tshape t). split; auto. split; [simpl; auto|]. split; [intros x Hx; symmetry; apply (H x Hx)|].
    intros s v Hs. simpl. split; [intros ->|intros (x & Hx & <-)].
    + destruct NE as [x Hx]. exists x. split; auto. symmetry. apply (proj2 (H x Hx)). auto.
    + symmetry. apply (proj2 (H x Hx)). auto.
  - simpl. intros x Hx. destruct (H x Hx) as [S E]. split; auto. split; auto. intros s Hs. rewrite <- S in Hs. rewrite E by auto. auto.
  - intros _. exists t. auto.
Qed.
Lemma constantE i y t : interE i y -> constant_value i = Ok t -> forall x, B x -> teq t (y x).
Proof.
  intros ((c & S & E & W & Sy & K) & _) H x Hx. unfold constant_value in H. rewrite E in H. destruct c as [t'|]; [|discriminate]. injection H as ->. simpl in W.
  split; [rewrite Sy by auto; auto|]. rewrite W. intros s Hs. symmetry. apply (K s _ Hs). eauto.
Qed.
Lemma exact0_ext e y y' : (forall x, B x -> y x = y' x) -> exact0 e y -> exact0 e y'.
Proof.
  intros H (c & S & E & W & Sy & K). exists c, S. split; auto. split; auto. split; [intros x Hx; rewrite <- H; auto|].
  intros s v Hs. rewrite (K s v Hs). split; intros (x & Hx & Q); exists x; split; auto; [rewrite <- H|rewrite H]; auto.
Qed.

Variables (numbers : bool) (sc : scalars R) (gs : generators R).
Lemma pushE p args ys e y : exact_prim numbers sc gs p -> Forall2 interE args ys ->
  (forall a b, ys = [a; b] -> fixed a \/ fixed b) ->
  (numbers = true -> forall x a, B x -> In a ys -> tshape (a x) = []) ->
  pushforward gs A p args = Ok e -> (forall x, B x -> prim_bind sc p (map (fun a => a x) ys) = Ok [y x]) -> exact0 e y.
Proof.
  intros HP HA HF HN H HV.
  assert (One : forall (r : tensor R -> res (tensor R)), (forall x, B x -> one_res (r x) = Ok [y x]) -> forall x, B x -> r x = Ok (y x)).
  { intros r Hr x Hx. specialize (Hr x Hx). apply one_ok in Hr. destruct Hr as (t & -> & [= ->]); auto. }
  destruct HA as [|ia a args ys (Ea & Ra & Ta) HA]; [destruct p; discriminate|].
  assert (TR : forall c, tr_coef (i_tr ia) = Some c -> exists l h t, c = Ivl l h /\ i_enc ia = [Arr t] /\ regionE (Some (l, h)) a).
  { intros c Hc. destruct (i_tr ia) as [[l h]|]; [|discriminate]. injection Hc as <-. destruct Ta as [t Et]; [discriminate|]. exists l, h, t. auto. }
  destruct HA as [|ib b args ys (Eb & Rb & Tb) HA].
  - destruct p; try discriminate; try contradiction; cbn -[gather tmapM] in H, HV, HP.
    + apply (exact0_ext _ (fun x => tneg (a x))); [intros x Hx; specialize (HV x Hx); congruence|]. exact (neg_exact0 _ _ _ _ _ _ Ea H).
    + destruct HP as [HP1 HP2]. unfold epower in H. destruct (Z.leb_spec 0 y0) as [Hy|Hy].
      * apply (exact0_ext _ (fun x => tmap (fun u => npow u (Z.to_nat y0)) (a x))); [intros x Hx; specialize (HV x Hx); congruence|].
        refine (pow_exact0 _ _ NE _ _ _ _ _ Ea _ H). intros Hn x Hx. apply (HN (HP1 ltac:(lia)) x); simpl; auto.
      * apply bind_ok in H. destruct H as (u & _ & H). refine (elementwise_exact0 _ _ NE _ _ _ _ _ _ _ _ (HP2 Hy) Ea _ H (One _ HV)). discriminate.
    + exact (broadcast_exact0 _ _ NE _ _ _ _ _ _ Ea H (One _ HV)).
    + exact (elementwise_exact0 _ _ NE _ _ _ _ _ _ _ _ HP Ea TR H (One _ HV)).
    + exact (gather_exact0 _ _ NE convert_element_type_p _ _ _ _ _ Logic.I eq_refl Ea H (One _ HV)).
    + exact (gather_exact0 _ _ NE (reshape_p new_sizes) _ _ _ _ _ Logic.I eq_refl Ea H (One _ HV)).
    + exact (gather_exact0 _ _ NE (squeeze_p dims) _ _ _ _ _ Logic.I eq_refl Ea H (One _ HV)).
    + exact (gather_exact0 _ _ NE (transpose_p perm) _ _ _ _ _ Logic.I eq_refl Ea H (One _ HV)).
  - destruct HA; [|destruct p; try discriminate; contradiction]. specialize (HF a b eq_refl).
    destruct p; try discriminate; try contradiction; cbn -[tmap2M] in H, HV, HP.
    + exact (add_exact0 _ _ NE _ _ _ _ _ _ _ Ea Eb HF H (One _ HV)).
    + exact (sub_exact0 _ _ NE _ _ _ _ _ _ _ Ea Eb HF H (One _ HV)).
    + exact (mul_exact0 _ _ NE _ _ _ _ _ _ _ Ea Eb HF H (One _ HV)).
    + exact (div_exact0 _ _ NE _ _ _ _ _ _ _ _ _ (proj1 HP) (proj2 HP) Ea Eb HF H (One _ HV)).
Qed.

Variable lits : nat -> tensor R.
Definition member (D : list nat) (n : nat) : bool := existsb (Nat.eqb n) D.
Record invE (D : list nat) (d : dict) (r : tensor R -> jvar -> option (tensor R)) : Prop := {
  E_lit : forall x n, B x -> r x (Lit n) = Some (lits n);
  E_var : forall n i, dlookup d n = Some i -> exists y, (forall x, B x -> r x (Var n) = Some (y x)) /\ interE i y;
  E_fix : forall n, member D n = false -> forall x x', B x -> B x' -> r x (Var n) = r x' (Var n);
  E_num : numbers = true -> forall x v t, v <> Drop -> B x -> r x v = Some t -> tshape t = [] }.

Lemma getE D d r v i : invE D d r -> get_intermediate lits d v = Ok i ->
  v <> Drop /\ exists y, (forall x, B x -> r x v = Some (y x)) /\ interE i y /\ (depends D v = false -> fixed y).
Proof.
  intros HI H. destruct v as [n|n|]; simpl in H; [| |discriminate]; (split; [discriminate|]).
  - destruct (dlookup d n) as [i'|] eqn:E; [|discriminate]. injection H as ->. destruct (E_var _ _ _ HI n i E) as (y & E1 & E2).
    exists y. split; auto. split; auto. intros HD x x' Hx Hx'. pose proof (E_fix _ _ _ HI n HD x x' Hx Hx') as Q. rewrite (E1 x Hx), (E1 x' Hx') in Q. congruence.
  - injection H as <-. exists (fun _ => lits n). split; [intros x Hx; apply (E_lit _ _ _ HI); auto|]. split; [apply constE; intros; apply teq_refl|]. intros _ x x' _ _. reflexivity.
Qed.
Lemma getsE D d r l : invE D d r -> forall args, mapM (get_intermediate lits d) l = Ok args ->
  ~ In Drop l /\ exists ys, (forall x, B x -> lookups (r x) l = Some (map (fun y => y x) ys)) /\ Forall2 interE args ys /\
    Forall2 (fun v y => depends D v = false -> fixed y) l ys.
Proof.
  intros HI. induction l as [|v l IH]; intros args H; cbn [mapM] in H.
  - injection H as <-. split; auto. exists []. split; [auto|split; constructor].
  - apply bind_ok in H. destruct H as (i & Hi & H). apply bind_ok in H. destruct H as (is' & His & H). injection H as <-.
    destruct (getE _ _ _ _ _ HI Hi) as (ND & y & E1 & E2 & E3). destruct (IH _ His) as (ND' & ys & F1 & F2 & F3).
    split; [intros [K|K]; [congruence|auto]|]. exists (y :: ys). split; [|split; constructor; auto]. intros x Hx. simpl. rewrite (E1 x Hx), (F1 x Hx). reflexivity.
Qed.
Lemma fixedE D l ys : Forall2 (fun v y => depends D v = false -> fixed y) l ys -> filter (depends D) l = [] -> Forall fixed ys.
Proof.
  induction 1 as [|v y l ys H HF IH]; intros E; simpl in E; constructor; destruct (depends D v) eqn:Ed; try discriminate; auto.
Qed.
Lemma one_fixed D l ys a b : Forall2 (fun v y => depends D v = false -> fixed y) l ys -> ys = [a; b] -> (length (filter (depends D) l) <= 1)%nat -> fixed a \/ fixed b.
Proof.
  intros H -> L. inversion H as [|u ? l1 ? Hu H1]; subst. inversion H1 as [|w ? l2 ? Hw H2]; subst. inversion H2; subst. simpl in L.
  destruct (depends D u) eqn:Eu; auto. destruct (depends D w) eqn:Ew; auto. simpl in L. lia.
Qed.
Lemma consts_all args ys ts : Forall2 interE args ys -> mapM constant_value args = Ok ts -> forall x, B x -> Forall2 teq ts (map (fun y => y x) ys).
Proof.
  intros H. revert ts. induction H as [|i y is' ys Hi H IH]; intros ts HT x Hx; cbn [mapM] in HT.
  - injection HT as <-. constructor.
  - apply bind_ok in HT. destruct HT as (t & Ht & HT). apply bind_ok in HT. destruct HT as (ts' & Hts & HT). injection HT as <-.
    simpl. constructor; [eapply constantE; eauto|exact (IH _ Hts x Hx)].
Qed.

Notation RunOp := (run_op (fun p args => ok_opt (prim_bind sc p args)) jvar_eqb).
(** Dependent variables after an equation. *)
Definition next (D : list nat) (o : op jvar (prim R)) : list nat :=
  match filter (depends D) (oins o) with
  | [] => D
  | _ => flat_map (fun v => match v with Var n => [n] | _ => [] end) (oouts o) ++ D
  end.
Lemma scalar_prim p vs v : numbers = true -> exact_prim numbers sc gs p -> Forall (fun t => tshape t = []) vs -> prim_bind sc p vs = Ok [v] -> tshape v = [].
Proof.
  intros Hnum HP HA H.
  assert (One : forall r : res (tensor R), one_res r = Ok [v] -> r = Ok v) by (intros r Hr; apply one_ok in Hr; destruct Hr as (t & -> & [= ->]); auto).
  assert (M : forall f (a : tensor R), tshape a = [] -> tmapM f a = Ok v -> tshape v = []) by (intros f a Sa Hv; apply tmapM_ok in Hv; destruct Hv as [S _]; congruence).
  destruct HA as [|a vs Sa HA]; [destruct p; try discriminate; contradiction|]. destruct HA as [|b vs Sb HA].
  - destruct p; try discriminate; try contradiction; simpl in HP; cbn -[gather tmapM] in H; try congruence.
    + injection H as <-. exact Sa.
    + destruct (0 <=? y)%Z; [injection H as <-; exact Sa|]. apply One in H. eapply M; eauto.
    + apply One in H. eapply M; eauto.
    + apply One in H. unfold gather in H. rewrite Sa in H. simpl in H. injection H as <-. reflexivity.
  - destruct HA; [|destruct p; try discriminate; contradiction].
    destruct p; try discriminate; try contradiction; cbn -[tmap2M] in H; apply One in H.
    + unfold tadd in H. apply tmap2_ok in H. destruct H as [S _]. rewrite Sa, Sb in S. injection S as S. auto.
    + unfold tsub in H. apply tmap2_ok in H. destruct H as [S _]. rewrite Sa, Sb in S. injection S as S. auto.
    + unfold tmul in H. apply tmap2_ok in H. destruct H as [S _]. rewrite Sa, Sb in S. injection S as S. auto.
    + apply tmap2M_ok in H. destruct H as [S _]. rewrite Sa, Sb in S. injection S as S. auto.
Qed.

Lemma stepE xs D d r r' o d' : invE D d r -> exact_prim numbers sc gs (odata o) -> (length (filter (depends D) (oins o)) <= 1)%nat ->
  (forall x, B x -> RunOp (r x) o = Some (r' x)) ->
  step sc gs A A false xs lits d o = Ok d' -> invE (next D o) d' r'.
Proof.
  intros HI HP HL HR H. unfold step in H. apply bind_ok in H. destruct H as (ints & Hints & H). apply bind_ok in H. destruct H as (outs & Houts & H).
  destruct (getsE _ _ _ _ HI _ Hints) as (ND & ys & Y1 & Y2 & Y3).
  set (y := fun x => match prim_bind sc (odata o) (map (fun a => a x) ys) with Ok (v :: _) => v | _ => tscalar 0 end).
  assert (HV : forall x, B x -> prim_bind sc (odata o) (map (fun a => a x) ys) = Ok [y x] /\ assign jvar_eqb (r x) (oouts o) [y x] = Some (r' x)).
  { intros x Hx. specialize (HR x Hx). unfold run_op in HR. rewrite (Y1 x Hx) in HR. unfold y. destruct (prim_bind sc (odata o) (map (fun a => a x) ys)) as [l|] eqn:E; [|discriminate].
    destruct (exact_one _ _ _ _ _ _ HP E) as [v ->]. simpl in HR. auto. }
  destruct NE as [x1 Hx1].
  assert (HO : exists u, oouts o = [u]).
  { destruct (HV x1 Hx1) as [_ E]. destruct (oouts o) as [|u [|]]; simpl in E; try discriminate; eauto. }
  destruct HO as [u Eu]. rewrite Eu in *.
  assert (HN : numbers = true -> forall x a, B x -> In a ys -> tshape (a x) = []).
  { intros Hn x a Hx Ha. pose proof (Y1 x Hx) as Q. clear -HI Hn Hx Ha Q ND. revert ys Ha Q. induction (oins o) as [|v l IH]; intros ys Ha Q; destruct ys as [|a' ys]; simpl in Q; try contradiction.
    - discriminate.
    - destruct (r x v) as [t|] eqn:Erv; [|discriminate]. destruct (lookups (r x) l) as [ts|] eqn:El; [|discriminate]. injection Q as -> Q.
      destruct Ha as [->|Ha]; [exact (E_num _ _ _ HI Hn x v _ ltac:(intros ->; apply ND; left; auto) Hx Erv)|].
      refine (IH _ ys Ha _); [intros K; apply ND; right; auto|congruence]. }
  assert (HE : exists i, outs = [i] /\ interE i y).
  { destruct (existsb _ ints).
    - apply bind_ok in Houts. destruct Houts as (e & He & Houts). cbn [length Nat.eqb negb bind] in Houts. injection Houts as <-.
      exists (Inter e None). split; auto. split; [|split; [exact Logic.I|intros C; contradiction C; reflexivity]].
      refine (pushE _ _ _ _ _ HP Y2 _ HN He (fun x Hx => proj1 (HV x Hx))). intros a b Eab. eapply one_fixed; eauto.
    - apply bind_ok in Houts. destruct Houts as (ts & Hts & Houts). apply bind_ok in Houts. destruct Houts as (rs & Hrs & Houts). injection Houts as <-. apply (Fprim_eval (fun z => z)) in Hrs.
      destruct (exact_one _ _ _ _ _ _ HP Hrs) as [t ->]. exists (constant_inter t). split; auto. apply constE. intros x Hx.
      pose proof (Fprim_teq (fun z => z) _ _ _ _ _ _ _ (exact_float _ _ _ _ HP) (consts_all _ _ _ Y2 Hts x Hx) Hrs (proj1 (HV x Hx))) as HF. inversion HF; auto. }
  destruct HE as (i & -> & HE).
  assert (HY : filter (depends D) (oins o) = [] -> fixed y).
  { intros E x x' Hx Hx'. unfold y. pose proof (fixedE _ _ _ Y3 E) as F. replace (map (fun a => a x') ys) with (map (fun a => a x) ys); auto.
    apply map_ext_in. intros a Ha. rewrite Forall_forall in F. apply F; auto. }
  assert (HS : numbers = true -> forall x, B x -> tshape (y x) = []).
  { intros Hn x Hx. refine (scalar_prim _ _ _ Hn HP _ (proj1 (HV x Hx))). apply Forall_forall. intros t Ht. apply in_map_iff in Ht. destruct Ht as (a & <- & Ha). auto. }
  assert (HR' : forall x, B x -> r' x = fun w => if jvar_eqb u w then Some (y x) else r x w).
  { intros x Hx. destruct (HV x Hx) as [_ E]. simpl in E. injection E as <-. reflexivity. }
  cbn [store] in H. destruct u as [n|n|]; [|discriminate|].
  - destruct (dlookup d n) eqn:Ed; [discriminate|]. apply bind_ok in H. destruct H as (u0 & _ & H). injection H as <-. split.
    + intros x m Hx. rewrite (HR' x Hx). apply (E_lit _ _ _ HI); auto.
    + intros m j Hj. simpl in Hj. destruct (Nat.eqb_spec n m) as [->|Hm].
      * injection Hj as <-. exists y. split; auto. intros x Hx. rewrite (HR' x Hx). simpl. rewrite Nat.eqb_refl. auto.
      * destruct (E_var _ _ _ HI m j Hj) as (z & Z1 & Z2). exists z. split; auto. intros x Hx. rewrite (HR' x Hx). simpl. destruct (Nat.eqb_spec n m); [contradiction|]. auto.
    + intros m Hm x x' Hx Hx'. rewrite (HR' x Hx), (HR' x' Hx'). simpl. unfold next in Hm. rewrite Eu in Hm. simpl in Hm. destruct (Nat.eqb_spec n m) as [->|Hnm].
      * destruct (filter (depends D) (oins o)) eqn:Ef; [rewrite (HY eq_refl x x' Hx Hx'); auto|]. unfold member in Hm. simpl in Hm. rewrite Nat.eqb_refl in Hm. discriminate.
      * apply (E_fix _ _ _ HI); auto. destruct (filter (depends D) (oins o)); auto. unfold member in Hm |- *. simpl in Hm. apply orb_false_iff in Hm. tauto.
    + intros Hn x v t Hv Hx. rewrite (HR' x Hx). destruct (jvar_eqb (Var n) v); [intros [= <-]; auto|apply (E_num _ _ _ HI Hn x v t Hv Hx)].
  - injection H as <-. split.
    + intros x m Hx. rewrite (HR' x Hx). apply (E_lit _ _ _ HI); auto.
    + intros m j Hj. destruct (E_var _ _ _ HI m j Hj) as (z & Z1 & Z2). exists z. split; auto. intros x Hx. rewrite (HR' x Hx). simpl. auto.
    + intros m Hm x x' Hx Hx'. rewrite (HR' x Hx), (HR' x' Hx'). simpl. apply (E_fix _ _ _ HI); auto. unfold next in Hm. rewrite Eu in Hm. simpl in Hm. destruct (filter (depends D) (oins o)); auto.
    + intros Hn x v t Hv Hx. rewrite (HR' x Hx). destruct v as [m|m|]; [| |contradiction Hv; reflexivity]; simpl; apply (E_num _ _ _ HI Hn x _ t Hv Hx).
Qed.
End Run.
