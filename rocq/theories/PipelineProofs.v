(** Lemmas about the rewriting pipeline. *)
From Coq Require Import Reals.
From Verif Require Import Base Tensor Enclosure GraphEditor GraphSpec GraphProofs PropGraph JaxprEditor JaxprSpec JaxprProofs
  JaxBound JaxSpec JaxPipeline PipelineSpec.
Open Scope nat_scope.

Lemma lit_decode_code x : lit_decode (lit_code x) = x.
Proof.
  unfold lit_decode, lit_code. destruct x as [|p|p]; [reflexivity| |].
  - rewrite Nat.even_mul. simpl orb. cbv iota. rewrite Nat.div2_double. apply positive_nat_Z.
  - rewrite Nat.even_add, Nat.even_mul. simpl. rewrite Nat.add_0_r.
    replace (Pos.to_nat p + Pos.to_nat p + 1) with (S (2 * Pos.to_nat p)) by lia.
    rewrite Nat.div2_succ_double. rewrite positive_nat_Z. reflexivity.
Qed.

(** ** A call rule changes equations one by one *)
Section Call.
Variables (d d' : eqn_data) (a b : ivar).
Hypothesis (Va : exists c x, a = IVar c x) (Vb : exists c x, b = IVar c x) (Nab : a <> b).

Definition gcall (o : op ivar eqn_data) : bool :=
  match oins o, oouts o with
  | [IVar _ _], [IVar _ _] => eqn_data_eqb d (odata o)
  | _, _ => false
  end.
Definition gchange (o : op ivar eqn_data) : op ivar eqn_data :=
  if gcall o then Op d' (oins o) (oouts o) else o.

Lemma call_match_inv here mu : is_match eqn_data_eqb can_bind [Op d [a] [b]] here mu ->
  exists o, here = [o] /\ gcall o = true /\ oins o = [mu a] /\ oouts o = [mu b].
Proof.
  intros [F Hb]. inversion F as [|? o ? ? (Hd & Hi & Ho) F']; subst. inversion F'; subst. exists o. split; [reflexivity|].
  simpl in Hd, Hi, Ho. unfold gcall. rewrite <- Hi, <- Ho.
  assert (Ba : can_bind a (mu a) = true) by (apply Hb; eexists; split; [left; reflexivity|simpl; auto]).
  assert (Bb : can_bind b (mu b) = true) by (apply Hb; eexists; split; [left; reflexivity|simpl; auto]).
  destruct Va as (ca & xa & ->), Vb as (cb & xb & ->). simpl in Ba, Bb.
  destruct (mu (IVar ca xa)); [|discriminate]. destruct (mu (IVar cb xb)); [|discriminate]. auto.
Qed.
Lemma call_match o : gcall o = true -> exists mu, is_match eqn_data_eqb can_bind [Op d [a] [b]] [o] mu.
Proof.
  unfold gcall. destruct o as [od oi oo]. simpl.
  destruct oi as [|[cu xu|] [|]]; try discriminate. destruct oo as [|[cv xv|] [|]]; try discriminate. intro Hd.
  exists (fun u => if ivar_eqb u a then IVar cu xu else IVar cv xv).
  assert (Ea : ivar_eqb a a = true) by (destruct (ivar_eqb_spec a a); congruence).
  assert (Eb : ivar_eqb b a = false) by (destruct (ivar_eqb_spec b a); congruence).
  split.
  - constructor; [|constructor]. split; [exact Hd|]. simpl. rewrite Ea, Eb. auto.
  - intros u (o & [<-|[]] & Hu). simpl in Hu. destruct Va as (ca & xa & Va'), Vb as (cb & xb & Vb').
    destruct Hu as [<-|[<-|[]]]; rewrite ?Ea, ?Eb; [rewrite Va'|rewrite Vb']; reflexivity.
Qed.

Lemma call_rewrites ops out :
  rewrites eqn_data_eqb can_bind [Op d [a] [b]] [Op d' [a] [b]] ops out -> out = map gchange ops.
Proof.
  induction 1 as [|here rest out mu Nh M Hid R IH|o rest out No R IH]; [reflexivity| |].
  - destruct (call_match_inv _ _ M) as (o & -> & G & Ei & Eo). subst out. simpl. f_equal.
    unfold gchange, rename_op. rewrite G. simpl. rewrite Ei, Eo. reflexivity.
  - subst out. simpl. f_equal. unfold gchange. destruct (gcall o) eqn:G; [|reflexivity].
    exfalso. destruct (call_match o G) as (mu & M). exact (No [o] rest mu eq_refl M).
Qed.
End Call.

(** ** From the graph back to a Jaxpr, with shared dropped outputs *)
Section Back.
Variables (start : nat) (U : Z -> aval -> Prop).
Definition b_inv (st : gstate) : Prop :=
  start <= snd st /\
  (forall c w, c2v (fst st) c = Some w -> vcount w = c /\ start <= vid w < snd st /\ U c (vaval w)) /\
  (forall c d w u, c2v (fst st) c = Some w -> c2v (fst st) d = Some u -> vid w = vid u -> c = d).
Definition known (u : ivar) : Prop := match u with IVar c x => U c x | ILit _ _ => True end.
Definition back (st : gstate) (u : ivar) (a : atom) : Prop :=
  match u with
  | IVar c _ => exists w, c2v (fst st) c = Some w /\ a = AVar w
  | ILit x b => exists i, a = ALit i x b
  end.
Lemma back_ext st st' u a : st_ext st st' -> back st u a -> back st' u a.
Proof. intro E. destruct u; simpl; [|auto]. intros (w & A & B). exists w. split; auto. Qed.
Lemma b_atom st u : b_inv st -> known u ->
  let '(a, st') := to_atom st u in b_inv st' /\ st_ext st st' /\ back st' u a.
Proof.
  intros (I0 & I1 & I2) K. destruct st as [m n]. simpl in *. destruct u as [c x|z x]; simpl.
  - destruct (c2v m c) as [w|] eqn:L.
    + split; [exact (conj I0 (conj I1 I2))|]. split; [intros e u H; exact H|]. exists w. auto.
    + assert (L' := fun e => c2v_app m c (MkVar n c x) e L).
      split; [|split].
      * split; [simpl; lia|]. split.
        -- intros e w H. simpl in H. rewrite L' in H. destruct (Z.eqb_spec c e) as [<-|].
           ++ injection H as <-. simpl. split; [reflexivity|]. split; [lia|exact K].
           ++ destruct (I1 _ _ H) as (A & B & D). simpl. split; [auto|]. split; [lia|auto].
        -- intros e f w u Hw Hu E. simpl in Hw, Hu. rewrite L' in Hw, Hu.
           destruct (Z.eqb_spec c e) as [<-|], (Z.eqb_spec c f) as [<-|]; auto.
           ++ injection Hw as <-. apply I1 in Hu. simpl in E. lia.
           ++ injection Hu as <-. apply I1 in Hw. simpl in E. lia.
           ++ now apply I2 with w u.
      * intros e w Hw. simpl in *. rewrite L'. destruct (Z.eqb_spec c e) as [<-|]; congruence.
      * exists (MkVar n c x). simpl. rewrite L', Z.eqb_refl. auto.
  - split; [split; [simpl; lia|split; [|exact I2]]|split; [intros c w Hw; exact Hw|simpl; eauto]].
    intros c w H. destruct (I1 _ _ H) as (A & B & D). simpl. split; [auto|]. split; [lia|auto].
Qed.
Lemma b_atoms l : forall st, b_inv st -> (forall u, In u l -> known u) ->
  let '(l', st') := to_atoms st l in b_inv st' /\ st_ext st st' /\ Forall2 (back st') l l'.
Proof.
  induction l as [|u l IH]; intros st I K; simpl.
  - split; [exact I|split; [intros c w H; exact H|constructor]].
  - assert (A := b_atom st u I (K u (or_introl eq_refl))). destruct (to_atom st u) as [a' st1]. destruct A as (I1 & E1 & C1).
    assert (B := IH st1 I1 (fun v Hv => K v (or_intror Hv))). destruct (to_atoms st1 l) as [l' st2]. destruct B as (I2 & E2 & C2).
    split; [exact I2|]. split; [intros c w H; apply E2, E1, H|].
    constructor; [now apply back_ext with st1|assumption].
Qed.
Definition back_op (st : gstate) (o : op ivar eqn_data) (e : eqn) : Prop :=
  edata e = odata o /\ Forall2 (back st) (oins o) (eqn_reads e) /\ Forall2 (back st) (oouts o) (eqn_writes e).
Lemma back_op_ext st st' o e : st_ext st st' -> back_op st o e -> back_op st' o e.
Proof.
  intros E (A & B & C). split; [exact A|].
  split; [apply Forall2_imp with (2 := B)|apply Forall2_imp with (2 := C)]; intros; eapply back_ext; eauto.
Qed.
Lemma b_eqns l : forall st, b_inv st -> (forall o u, In o l -> In u (oins o ++ oouts o) -> known u) ->
  let '(l', st') := to_eqns st l in b_inv st' /\ st_ext st st' /\ Forall2 (back_op st') l l'.
Proof.
  induction l as [|o l IH]; intros st I K; simpl.
  - split; [exact I|split; [intros c w H; exact H|constructor]].
  - assert (A := b_atoms (oins o) st I (fun u Hu => K o u (or_introl eq_refl) (in_or_app _ _ _ (or_introl Hu)))). destruct (to_atoms st (oins o)) as [a' st1]. destruct A as (I1 & E1 & C1).
    assert (B := b_atoms (oouts o) st1 I1 (fun u Hu => K o u (or_introl eq_refl) (in_or_app _ _ _ (or_intror Hu)))). destruct (to_atoms st1 (oouts o)) as [b' st2]. destruct B as (I2 & E2 & C2).
    assert (R := IH st2 I2 (fun o' u Ho Hu => K o' u (or_intror Ho) Hu)). destruct (to_eqns st2 l) as [es' st3]. destruct R as (I3 & E3 & C3).
    split; [exact I3|]. split; [intros c w H; apply E3, E2, E1, H|].
    constructor; [|assumption]. split; [destruct (odata o); reflexivity|]. simpl. split.
    + apply Forall2_imp with (2 := C1). intros x y. apply back_ext. intros c w H; apply E3, E2, H.
    + apply Forall2_imp with (2 := C2). intros x y. apply back_ext. exact E3.
Qed.

Lemma graph_to_jaxpr_back (h : jgraph) :
  (forall u, In u (gins h) \/ In u (gouts h) \/ In u (gdata h) -> known u) ->
  (forall o u, In o (gops h) -> In u (oins o ++ oouts o) -> known u) ->
  exists st, b_inv st /\
  let j := graph_to_jaxpr start h in
  Forall2 (back st) (gdata h) (jconst j) /\ Forall2 (back st) (gins h) (jins j) /\
  Forall2 (back st) (gouts h) (jouts j) /\ Forall2 (back_op st) (gops h) (jeqns j).
Proof.
  intros K Ko. unfold graph_to_jaxpr.
  assert (I0 : b_inv ([], start)) by (repeat split; simpl; try lia; try discriminate).
  assert (A := b_eqns (gops h) ([], start) I0 Ko). destruct (to_eqns ([], start) (gops h)) as [es st1]. destruct A as (I1 & E1 & C1).
  assert (A := b_atoms (gins h) st1 I1 (fun u Hu => K u ltac:(auto))). destruct (to_atoms st1 (gins h)) as [is_ st2]. destruct A as (I2 & E2 & C2).
  assert (A := b_atoms (gouts h) st2 I2 (fun u Hu => K u ltac:(auto))). destruct (to_atoms st2 (gouts h)) as [os st3]. destruct A as (I3 & E3 & C3).
  assert (A := b_atoms (gdata h) st3 I3 (fun u Hu => K u ltac:(auto))). destruct (to_atoms st3 (gdata h)) as [cs st4]. destruct A as (I4 & E4 & C4).
  exists st4. split; [exact I4|]. simpl.
  assert (X1 : st_ext st1 st4) by (intros c w H; apply E4, E3, E2, H).
  assert (X2 : st_ext st2 st4) by (intros c w H; apply E4, E3, H).
  split; [exact C4|]. split; [apply Forall2_imp with (2 := C2); intros x y Hxy; exact (back_ext _ _ _ _ X2 Hxy)|].
  split; [apply Forall2_imp with (2 := C3); intros x y Hxy; exact (back_ext _ _ _ _ E4 Hxy)|].
  apply Forall2_imp with (2 := C1). intros x y Hxy; exact (back_op_ext _ _ _ _ X1 Hxy).
Qed.
End Back.

(** ** One rule *)
Lemma Forall2_map_l {A B C} (R : B -> C -> Prop) (f : A -> B) l l' :
  Forall2 R (map f l) l' <-> Forall2 (fun a c => R (f a) c) l l'.
Proof.
  revert l'. induction l as [|x l IH]; intros l'; simpl; split; intro H; inversion H; subst; constructor; auto; now apply IH.
Qed.
Lemma Forall2_In_l {A B} (R : A -> B -> Prop) l l' a : Forall2 R l l' -> In a l -> exists b, In b l' /\ R a b.
Proof. induction 1 as [|x y l l' H F IH]; intros []; [subst; exists y; simpl; auto|]. destruct (IH H0) as (b & I & Q). exists b. simpl; auto. Qed.
Lemma Forall2_In_r {A B} (R : A -> B -> Prop) l l' b : Forall2 R l l' -> In b l' -> exists a, In a l /\ R a b.
Proof. induction 1 as [|x y l l' H F IH]; intros []; [subst; exists x; simpl; auto|]. destruct (IH H0) as (a & I & Q). exists a. simpl; auto. Qed.

Definition one_rule (d d' : eqn_data) (e : eqn) : eqn_data := if is_call d e then d' else edata e.

Lemma jatoms_in j a : In a (jatoms j) <->
  In a (jins j) \/ In a (jconst j) \/ In a (jouts j) \/ exists e, In e (jeqns j) /\ (In a (eqn_reads e) \/ In a (eqn_writes e)).
Proof.
  unfold jatoms. rewrite !in_app_iff, in_flat_map.
  assert (E : (exists e, In e (jeqns j) /\ In a (eqn_atoms e)) <-> exists e, In e (jeqns j) /\ (In a (eqn_reads e) \/ In a (eqn_writes e))).
  { split; intros (e & I & H); exists e; (split; [exact I|]); destruct e; simpl in *; apply in_app_iff; exact H. }
  rewrite E. tauto.
Qed.

Lemma jreplace_call fuel next r d d' j res : call_rule r d d' ->
  jreplace fuel next (rpattern r) (rreplacement r) j = Some res ->
  res = Ok (graph_to_jaxpr next
    (Graph _ (map (to_ivar 0) (jins j)) (map (to_ivar 0) (jouts j))
       (map (gchange d d') (gops (jaxpr_to_graph j 0))) (map (to_ivar 0) (jconst j)))).
Proof.
  intros C H. destruct C as [p q p' q' a b a' b' Nab Nab']. unfold jreplace in H. simpl rpattern in H. simpl rreplacement in H.
  remember (jaxpr_to_graph j 0) as gj eqn:Egj.
  unfold call_jaxpr in H. cbn [jins jouts jconst length Nat.eqb negb orb] in H.
  match type of H with context [match map ivar_count ?l with _ => _ end] => destruct (map ivar_count l) as [|c cs] eqn:Ec end; [discriminate|].
  set (off := (fold_left Z.max cs c + 1)%Z) in *.
  cbn [jaxpr_to_graph gops gins gouts map combine app fold_left jeqns jins jouts to_ivar] in H.
  set (ia := IVar (vcount a + 0) (vaval a)) in *. set (ib := IVar (vcount b + 0) (vaval b)) in *.
  set (ia' := IVar (vcount a' + off) (vaval a')) in *. set (ib' := IVar (vcount b' + off) (vaval b')) in *.
  assert (Eab' : ivar_eqb ia' ib' = false).
  { destruct (ivar_eqb_spec ia' ib') as [E|E]; [|reflexivity]. exfalso. unfold ia', ib' in E. injection E as E _. lia. }
  assert (Eaa' : ivar_eqb ia' ia' = true) by (destruct (ivar_eqb_spec ia' ia'); congruence).
  assert (Ebb' : ivar_eqb ib' ib' = true) by (destruct (ivar_eqb_spec ib' ib'); congruence).
  unfold subs, vget in H. cbn [vset vlookup odata oins oouts map] in H. rewrite Eab' in H. cbn [vlookup] in H.
  rewrite Eaa', Eab', Ebb' in H.
  match type of H with context [GraphEditor.replace ?a ?b ?c ?d ?e ?f ?g] => destruct (GraphEditor.replace a b c d e f g) as [h|] eqn:E end; [|discriminate].
  injection H as <-.
  destruct (C40_replace_is_greedy_rewriting _ _ _ _ _ ivar_eqb_spec _ _ _ _ _ _ E) as (Ei & Eo & Ed & Rw).
  apply call_rewrites in Rw; [|unfold ia; eauto|unfold ib; eauto|].
  2:{ intro X. unfold ia, ib in X. injection X as X _. lia. }
  f_equal. f_equal. destruct h as [hi ho hops hd]. subst gj. simpl in *. subst. reflexivity.
Qed.

Lemma gcall_is_call d e : gcall d (match e with Eqn p q a b => Op (EqnData p q) (map (to_ivar 0) a) (map (to_ivar 0) b) end) = is_call d e.
Proof.
  destruct e as [p q a b]. unfold gcall, is_call. simpl.
  destruct a as [|[v|] [|]]; try reflexivity; destruct b as [|[w|] [|]]; reflexivity.
Qed.


(** The avals a count is used with. *)
Definition used_with (j : jaxpr) (c : Z) (x : aval) : Prop := exists v, In (AVar v) (jatoms j) /\ vcount v = c /\ vaval v = x.
Lemma known_atom j a : In a (jatoms j) -> known (used_with j) (to_ivar 0 a).
Proof. destruct a as [v|]; simpl; [|auto]. intro H. exists v. rewrite Z.add_0_r. auto. Qed.

Lemma back_new start j st a a' : traced j -> b_inv start (used_with j) st -> In a (jatoms j) ->
  back st (to_ivar 0 a) a' -> atom_new a a'.
Proof.
  intros T (_ & I1 & _) Ha. destruct a as [v|i x b]; simpl.
  - rewrite Z.add_0_r. intros (w & H & ->). destruct (I1 _ _ H) as (A & _ & u & Hu & B & C). split; [exact A|].
    intro N. rewrite <- C. f_equal. symmetry. apply (tr_count j T); auto; congruence.
  - intros (i' & ->). auto.
Qed.

Lemma rule_new fuel next r d d' j j' : call_rule r d d' -> traced j ->
  jreplace fuel next (rpattern r) (rreplacement r) j = Some (Ok j') ->
  jaxpr_new (one_rule d d') j j' /\ traced j'.
Proof.
  intros C T H. assert (E := jreplace_call _ _ _ _ _ _ _ C H). injection E as E.
  match type of E with _ = graph_to_jaxpr next ?g => destruct (graph_to_jaxpr_back next (used_with j) g) as (st & IV & Bc & Bi & Bo & Be) end.
  { cbn [gins gouts gdata]. intros u Hu. rewrite !in_map_iff in Hu.
    destruct Hu as [(a & <- & Ha)|[(a & <- & Ha)|(a & <- & Ha)]]; apply known_atom, jatoms_in; auto. }
  { cbn [gops jaxpr_to_graph]. intros o u Ho Hu. rewrite map_map in Ho. apply in_map_iff in Ho. destruct Ho as ([p q a b] & <- & He).
    assert (Hu' : In u (map (to_ivar 0) a ++ map (to_ivar 0) b)) by (unfold gchange in Hu; destruct gcall; exact Hu).
    rewrite <- map_app in Hu'. apply in_map_iff in Hu'. destruct Hu' as (x & <- & Hx). apply in_app_iff in Hx.
    apply known_atom, jatoms_in. right. right. right. exists (Eqn p q a b). auto. }
  rewrite <- E in Bc, Bi, Bo, Be. clear E H.
  cbn [gdata gins gouts gops jaxpr_to_graph] in Bc, Bi, Bo, Be. rewrite Forall2_map_l in Bc, Bi, Bo. rewrite map_map, Forall2_map_l in Be.
  assert (Ops : Forall2 (fun e e' => edata e' = one_rule d d' e /\ Forall2 (fun a => back st (to_ivar 0 a)) (eqn_reads e) (eqn_reads e') /\
             Forall2 (fun a => back st (to_ivar 0 a)) (eqn_writes e) (eqn_writes e'))
     (jeqns j) (jeqns j')).
  { apply Forall2_imp with (2 := Be). intros e e' (Hd & Hi & Ho). unfold one_rule. unfold gchange in Hd, Hi, Ho.
    rewrite gcall_is_call in Hd, Hi, Ho. destruct e as [p q a b]. destruct (is_call d (Eqn p q a b)); simpl in *;
      rewrite Forall2_map_l in Hi, Ho; auto. }
  assert (Imp : forall l l', (forall a, In a l -> In a (jatoms j)) -> Forall2 (fun a c => back st (to_ivar 0 a) c) l l' -> Forall2 atom_new l l').
  { intros l l' Hl F. induction F as [|x y l l' Hxy F IH]; constructor.
    - apply (back_new next j st); auto. apply Hl. now left.
    - apply IH. intros a Ha. apply Hl. now right. }
  assert (Eq : Forall2 (eqn_new (one_rule d d')) (jeqns j) (jeqns j')).
  { assert (Q : forall l l', (forall e, In e l -> In e (jeqns j)) ->
      Forall2 (fun e e' => edata e' = one_rule d d' e /\ Forall2 (fun a => back st (to_ivar 0 a)) (eqn_reads e) (eqn_reads e') /\
             Forall2 (fun a => back st (to_ivar 0 a)) (eqn_writes e) (eqn_writes e')) l l' -> Forall2 (eqn_new (one_rule d d')) l l').
    { intros l l' Hl F. induction F as [|x y l l' (H1 & H2 & H3) F IH]; constructor.
      - split; [exact H1|]. assert (Hx := Hl x (or_introl eq_refl)).
        split; apply Imp; auto; intros a Ha; apply jatoms_in; right; right; right; exists x; auto.
      - apply IH. intros e He. apply Hl. now right. }
    apply Q; auto. }
  assert (Back : forall a', In a' (jatoms j') -> exists a, In a (jatoms j) /\ back st (to_ivar 0 a) a').
  { intros a' Ha. apply jatoms_in in Ha. destruct Ha as [Ha|[Ha|[Ha|(e' & He & Ha)]]].
    - destruct (Forall2_In_r _ _ _ _ Bi Ha) as (a & I & B). exists a. split; [apply jatoms_in|]; auto.
    - destruct (Forall2_In_r _ _ _ _ Bc Ha) as (a & I & B). exists a. split; [apply jatoms_in|]; auto.
    - destruct (Forall2_In_r _ _ _ _ Bo Ha) as (a & I & B). exists a. split; [apply jatoms_in|]; auto.
    - destruct (Forall2_In_r _ _ _ _ Ops He) as (e & Ie & _ & Fr & Fw).
      destruct Ha as [Ha|Ha]; [destruct (Forall2_In_r _ _ _ _ Fr Ha) as (a & I & B)|destruct (Forall2_In_r _ _ _ _ Fw Ha) as (a & I & B)];
        exists a; (split; [apply jatoms_in; right; right; right; exists e; auto|exact B]). }
  assert (Var : forall v', In (AVar v') (jatoms j') -> c2v (fst st) (vcount v') = Some v').
  { intros v' Hv. destruct (Back _ Hv) as (a & Ha & B). destruct a as [v|]; simpl in B.
    - destruct B as (w & Hw & X). injection X as ->. rewrite Z.add_0_r in Hw. destruct IV as (_ & I1 & _). destruct (I1 _ _ Hw) as (X & _). rewrite X. exact Hw.
    - destruct B as (i & X). discriminate. }
  split.
  - split; [apply Imp; auto; intros a Ha; apply jatoms_in; auto|]. split; [apply Imp; auto; intros a Ha; apply jatoms_in; auto|].
    split; [apply Imp; auto; intros a Ha; apply jatoms_in; auto|]. exact Eq.
  - split.
    + intros a' Ha. unfold binders in Ha. rewrite !in_app_iff, in_flat_map in Ha.
      assert (X : forall l l', Forall2 (fun a c => back st (to_ivar 0 a) c) l l' -> (forall a, In a l -> In a (binders j)) -> In a' l' -> exists v, a' = AVar v).
      { intros l l' F Hl Ha'. destruct (Forall2_In_r _ _ _ _ F Ha') as (a & I & B). destruct (tr_bind j T a (Hl a I)) as (v & ->).
        simpl in B. destruct B as (w & _ & ->). eauto. }
      destruct Ha as [Ha|[Ha|(e' & He & Ha)]].
      * apply (X _ _ Bi); auto. intros a I. unfold binders. rewrite !in_app_iff; auto.
      * apply (X _ _ Bc); auto. intros a I. unfold binders. rewrite !in_app_iff; auto.
      * destruct (Forall2_In_r _ _ _ _ Ops He) as (e & Ie & _ & _ & Fw). apply (X _ _ Fw).
        -- intros a I. unfold binders. rewrite !in_app_iff, in_flat_map. right. right. exists e. auto.
        -- destruct e'; exact Ha.
    + intros v w Hv Hw E. apply Var in Hv, Hw. destruct IV as (_ & _ & I2).
      assert (X := I2 _ _ _ _ Hv Hw E). rewrite X in Hv. congruence.
    + intros v w Hv Hw E _. apply Var in Hv, Hw. rewrite E in Hv. congruence.
    + intros v' Hv. unfold reads in Hv. rewrite in_app_iff, in_flat_map in Hv.
      assert (X : forall l l', Forall2 atom_new l l' -> (forall a, In a l -> In a (reads j)) -> In (AVar v') l' -> vcount v' <> (-1)%Z).
      { intros l l' F Hl Ha'. destruct (Forall2_In_r _ _ _ _ F Ha') as (a & I & B). destruct a as [v|]; [|destruct B].
        destruct B as [-> _]. exact (tr_read j T v (Hl _ I)). }
      destruct Hv as [(e' & He & Hv)|Hv].
      * destruct (Forall2_In_r _ _ _ _ Eq He) as (e & Ie & _ & Fr & _). apply (X _ _ Fr); auto.
        intros a I. unfold reads. rewrite in_app_iff, in_flat_map. eauto.
      * assert (Fo : Forall2 atom_new (jouts j) (jouts j')) by (apply Imp; auto; intros a Ha; apply jatoms_in; auto).
        apply (X _ _ Fo); auto. intros a I. unfold reads. rewrite in_app_iff; auto.
Qed.

(** ** All rules *)
Lemma is_call_new d e e' : edata e' = edata e -> Forall2 atom_new (eqn_reads e) (eqn_reads e') ->
  Forall2 atom_new (eqn_writes e) (eqn_writes e') -> is_call d e' = is_call d e.
Proof.
  destruct e as [p q a b], e' as [p' q' a' b']. simpl. intros E Fa Fb. injection E as -> ->.
  assert (S : forall l l', Forall2 atom_new l l' ->
     match l, l' with [AVar _], [AVar _] => True | [AVar _], _ => False | _, [AVar _] => False | _, _ => True end).
  { intros l l' F. inversion F as [|x y l1 l1' Hxy F1]; subst; [exact I|]. inversion F1; subst; destruct x, y; simpl in Hxy; try tauto; auto. }
  assert (Sa := S _ _ Fa). assert (Sb := S _ _ Fb).
  destruct a as [|[?|? ? ?] [|? ?]], a' as [|[?|? ? ?] [|? ?]]; simpl in Sa; try tauto; try reflexivity.
  destruct b as [|[?|? ? ?] [|? ?]], b' as [|[?|? ? ?] [|? ?]]; simpl in Sb; try tauto; reflexivity.
Qed.
Lemma recall_new rs : forall e e', edata e' = edata e -> Forall2 atom_new (eqn_reads e) (eqn_reads e') ->
  Forall2 atom_new (eqn_writes e) (eqn_writes e') -> recall rs e' = recall rs e.
Proof.
  induction rs as [|[d d'] rs IH]; intros e e' E Fa Fb; simpl; [exact E|].
  destruct e as [p q a b], e' as [p' q' a' b']. rewrite (is_call_new d (Eqn p q a b) (Eqn p' q' a' b') E Fa Fb).
  destruct (is_call d (Eqn p q a b)); apply IH; auto.
Qed.
Lemma atom_new_refl a : atom_new a a. Proof. destruct a; simpl; auto. Qed.
Lemma atom_new_trans a b c : atom_new a b -> atom_new b c -> atom_new a c.
Proof.
  destruct a, b, c; simpl; try tauto.
  - intros [E1 E2] [E3 E4]. split; [congruence|]. intro N. rewrite E4 by congruence. auto.
  - intros [-> ->] [-> ->]. auto.
Qed.
Lemma Forall2_trans {A} (R : A -> A -> Prop) l1 l2 l3 : (forall a b c, R a b -> R b c -> R a c) ->
  Forall2 R l1 l2 -> Forall2 R l2 l3 -> Forall2 R l1 l3.
Proof.
  intros T F. revert l3. induction F as [|x y l1 l2 H F IH]; intros l3 G; inversion G; subst; constructor; eauto.
Qed.

Definition call_rules (rs : list rule) (ds : list (eqn_data * eqn_data)) : Prop :=
  Forall2 (fun r p => call_rule r (fst p) (snd p)) rs ds.

Lemma rewrite_new fuel next rs ds : call_rules rs ds -> forall j j', traced j ->
  rewrite_jaxpr fuel next rs j = Some (Ok j') -> jaxpr_new (recall ds) j j' /\ traced j'.
Proof.
  induction 1 as [|r [d d'] rs ds C F IH]; intros j j' T H; simpl in H.
  - injection H as <-. split; [|exact T].
    split; [apply Forall2_refl_, atom_new_refl|]. split; [apply Forall2_refl_, atom_new_refl|]. split; [apply Forall2_refl_, atom_new_refl|].
    apply Forall2_refl_. intro e. split; [reflexivity|]. split; apply Forall2_refl_, atom_new_refl.
  - destruct (jreplace fuel next (rpattern r) (rreplacement r) j) as [[j1|]|] eqn:E; try discriminate.
    destruct (rule_new _ _ _ _ _ _ _ C T E) as [(Nc & Ni & No & Ne) T1].
    destruct (IH j1 j' T1 H) as [(Nc' & Ni' & No' & Ne') T']. split; [|exact T'].
    split; [eapply Forall2_trans; eauto using atom_new_trans|]. split; [eapply Forall2_trans; eauto using atom_new_trans|].
    split; [eapply Forall2_trans; eauto using atom_new_trans|].
    clear -Ne Ne'. revert Ne'. generalize (jeqns j') as l3. induction Ne as [|e e1 l l1 (H1 & H2 & H3) F IH]; intros l3 G; inversion G as [|? e2 ? l3' (G1 & G2 & G3) G']; subst; constructor; auto.
    split; [|split; [eapply Forall2_trans; eauto using atom_new_trans|eapply Forall2_trans; eauto using atom_new_trans]].
    rewrite G1. unfold one_rule in H1. destruct e as [p q a b]. cbn [recall]. simpl fst in H1; simpl snd in H1.
    destruct (is_call d (Eqn p q a b)).
    + apply recall_new; simpl in *; auto. destruct d'; exact H1.
    + apply recall_new; auto.
Qed.

(** ** Termination *)
Lemma rewrite_terminates next rs ds : call_rules rs ds -> forall j fuel, length (jeqns j) < fuel ->
  exists j', rewrite_jaxpr fuel next rs j = Some (Ok j').
Proof.
  induction 1 as [|r [d d'] rs ds C F IH]; intros j fuel L; simpl; [eauto|].
  assert (X : exists res, jreplace fuel next (rpattern r) (rreplacement r) j = Some res).
  { destruct C as [p q p' q' a b a' b' Nab Nab']. unfold jreplace. simpl rpattern. simpl rreplacement.
    remember (jaxpr_to_graph j 0) as gj eqn:Egj.
    unfold call_jaxpr. cbn [jins jouts jconst length Nat.eqb negb orb].
    match goal with |- context [match map ivar_count ?l with _ => _ end] => destruct (map ivar_count l) as [|c cs] eqn:Ec end; [eauto|].
    unfold GraphEditor.replace.
    match goal with |- context [GraphEditor.replace_run _ _ _ ?p ?r ?o ?cb _] =>
      destruct (replace_run_rewrites ivar_eqb eqn_data_eqb ivar_eqb_spec cb p r o) with (n := fuel - 1) (i := 0) (out := @nil (op ivar eqn_data)) as (out & E & _) end.
    - discriminate.
    - subst gj. simpl. rewrite map_length. lia.
    - lia.
    - replace (S (fuel - 1)) with fuel in E by lia. rewrite E. eauto. }
  destruct X as (res & E). rewrite E. assert (E' := jreplace_call _ _ _ _ _ _ _ C E). rewrite E'. apply IH.
  match goal with |- context [graph_to_jaxpr next ?g] => destruct (graph_to_jaxpr_back next (fun _ _ => True) g) as (st & _ & _ & _ & _ & Be) end.
  { intros [] _; exact I. } { intros ? [] _ _; exact I. }
  apply Forall2_len in Be. rewrite <- Be. simpl. rewrite !map_length. exact L.
Qed.
