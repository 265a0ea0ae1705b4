(** Lemmas about jaxpr_editor.replace for general patterns. *)
From Verif Require Import Base GraphEditor GraphSpec GraphProofs PropGraph JaxprEditor JaxprSpec JaxprProofs
  PipelineSpec PipelineProofs ReplaceSpec.
Open Scope nat_scope.

(** ** Two programs over corresponding variables *)
Definition both {A B} (Q : A -> B -> Prop) (x : option A) (y : option B) : Prop :=
  match x, y with Some a, Some b => Q a b | None, None => True | _, _ => False end.

Section Sim2.
Context {V1 V2 D X : Type} (eq1 : V1 -> V1 -> bool) (eq2 : V2 -> V2 -> bool).
Hypothesis (R1 : forall u v, reflect (u = v) (eq1 u v)) (R2 : forall u v, reflect (u = v) (eq2 u v)).
Variables (P W : V1 -> V2 -> Prop) (sem : D -> list X -> option (list X)).
Hypothesis PW : forall u u' v v', P u u' -> W v v' -> (u = v <-> u' = v').
Definition agree2 (r : V1 -> option X) (r' : V2 -> option X) : Prop := forall u u', P u u' -> r u = r' u'.
Lemma lookups_sim2 r r' l l' : agree2 r r' -> Forall2 P l l' -> lookups r l = lookups r' l'.
Proof. intros A F. induction F as [|u u' l l' H F IH]; simpl; [reflexivity|]. rewrite (A _ _ H), IH. reflexivity. Qed.
Lemma assign_sim2 l l' : Forall2 W l l' -> forall xs r r', agree2 r r' ->
  both agree2 (assign eq1 r l xs) (assign eq2 r' l' xs).
Proof.
  induction 1 as [|v v' l l' H F IH]; intros [|x xs] r r' A; simpl; auto. apply IH.
  intros u u' Hu. destruct (R1 v u) as [<-|N], (R2 v' u') as [<-|N']; auto.
  - exfalso. apply N'. symmetry. apply (PW v u' v v'); auto.
  - exfalso. apply N. symmetry. apply (PW u v' v v'); auto.
Qed.
Definition op_sim2 (o : op V1 D) (o' : op V2 D) : Prop :=
  Forall2 P (oins o) (oins o') /\ Forall2 W (oouts o) (oouts o') /\ odata o' = odata o.
Lemma run_sim2 l l' : Forall2 op_sim2 l l' -> forall r r', agree2 r r' ->
  both agree2 (run sem eq1 r l) (run sem eq2 r' l').
Proof.
  induction 1 as [|o o' l l' (Hi & Ho & Hs) F IH]; intros r r' A; simpl; auto.
  unfold run_op. rewrite <- (lookups_sim2 r r' _ _ A Hi), Hs.
  destruct (lookups r (oins o)) as [args|]; simpl; auto.
  destruct (sem (odata o) args) as [vals|]; simpl; auto.
  assert (S := assign_sim2 _ _ Ho vals r r' A).
  destruct (assign eq1 r (oouts o) vals) as [r2|], (assign eq2 r' (oouts o') vals) as [r2'|]; simpl in S; try tauto.
  apply IH. exact S.
Qed.
Lemma graph_sim2 {G1 G2} (g : graph V1 D G1) (g' : graph V2 D G2) c c' xs :
  agree2 c c' -> Forall2 W (gins g) (gins g') -> Forall2 P (gouts g) (gouts g') -> Forall2 op_sim2 (gops g) (gops g') ->
  run_graph sem c eq1 g xs = run_graph sem c' eq2 g' xs.
Proof.
  intros A Fi Fo Fe. unfold run_graph. assert (S := assign_sim2 _ _ Fi xs c c' A).
  destruct (assign eq1 c (gins g) xs) as [r|], (assign eq2 c' (gins g') xs) as [r'|]; simpl in S; try tauto.
  assert (S' := run_sim2 _ _ Fe r r' S).
  destruct (run sem eq1 r (gops g)) as [r1|], (run sem eq2 r' (gops g')) as [r1'|]; simpl in S'; try tauto.
  apply lookups_sim2; auto.
Qed.
End Sim2.

(** ** Running, liveness and definedness *)
Section Live.
Context {V D X : Type} (veqb : V -> V -> bool) (R : forall u v, reflect (u = v) (veqb u v)).
Variables (sem : D -> list X -> option (list X)).
Notation run := (run sem veqb).
Lemma run_live l : forall (N : V -> Prop) (r s : @env V X) r1, (forall u, live (D := D) l N u -> r u = s u) ->
  run r l = Some r1 -> exists s1, run s l = Some s1 /\ forall u, N u -> r1 u = s1 u.
Proof.
  induction l as [|o l IH]; intros N r s r1 A H; simpl in *.
  - injection H as <-. eauto.
  - destruct (run_op sem veqb r o) as [r2|] eqn:E; [|discriminate].
    destruct (run_op_agree veqb R sem r (live l N) o r s r2) as (s2 & -> & A2); auto.
    apply (IH N r2); auto.
Qed.
Lemma lookups_defined (r : @env V X) l xs u : lookups r l = Some xs -> In u l -> exists x, r u = Some x.
Proof.
  revert xs. induction l as [|v l IH]; intros xs H []; simpl in H.
  - subst. destruct (r u); [eauto|discriminate].
  - destruct (r v); [|discriminate]. destruct (lookups r l) eqn:E; [|discriminate]. eapply IH; eauto.
Qed.
Lemma lookups_some (r : @env V X) l : (forall u, In u l -> exists x, r u = Some x) -> exists xs, lookups r l = Some xs.
Proof.
  induction l as [|v l IH]; intro H; simpl; [eauto|].
  destruct (H v (or_introl eq_refl)) as (x & ->). destruct IH as (xs & ->); [intros u Hu; apply H; now right|eauto].
Qed.
Lemma live_defined l : forall (N : V -> Prop) (r : @env V X) r1, run r l = Some r1 ->
  (forall u, N u -> exists x, r1 u = Some x) -> forall u, live (D := D) l N u -> exists x, r u = Some x.
Proof.
  induction l as [|o l IH]; intros N r r1 H Hn u L; simpl in *.
  - injection H as <-. auto.
  - unfold run_op in H. destruct (lookups r (oins o)) as [args|] eqn:E; [|discriminate].
    destruct (sem (odata o) args) as [vals|]; [|discriminate].
    destruct (assign veqb r (oouts o) vals) as [r2|] eqn:A; [|discriminate].
    destruct L as [L|[L Nw]]; [eapply lookups_defined; eauto|].
    destruct (IH N r2 r1 H Hn u L) as (x & Hx). exists x. rewrite <- Hx. symmetry.
    apply (assign_get veqb R r r (oouts o) r vals r2); auto.
Qed.
Lemma assign_defined l : forall (r : @env V X) xs r1 u, assign veqb r l xs = Some r1 ->
  In u l \/ (exists x, r u = Some x) -> exists x, r1 u = Some x.
Proof.
  induction l as [|v l IH]; intros r [|x xs] r1 u H Hu; simpl in *; try discriminate.
  - injection H as <-. tauto.
  - apply (IH _ _ _ u H). destruct (R v u) as [->|N]; [right; eauto|]. destruct Hu as [[Hu|Hu]|Hu]; [congruence|auto|auto].
Qed.
Lemma written_defined l : forall (r : @env V X) r1, run r l = Some r1 -> forall u,
  written (D := D) l u \/ (exists x, r u = Some x) -> exists x, r1 u = Some x.
Proof.
  induction l as [|o l IH]; intros r r1 H u Hu; simpl in *.
  - injection H as <-. destruct Hu as [(o & [] & _)|Hu]; auto.
  - unfold run_op in H. destruct (lookups r (oins o)) as [args|] eqn:E; [|discriminate].
    destruct (sem (odata o) args) as [vals|]; [|discriminate].
    destruct (assign veqb r (oouts o) vals) as [r2|] eqn:A; [|discriminate].
    apply (IH r2 r1 H). destruct Hu as [(o' & [<-|Ho] & Hu)|Hu].
    + right. eapply assign_defined; eauto.
    + left. exists o'. auto.
    + right. eapply assign_defined; eauto.
Qed.
Lemma live_read l (N : V -> Prop) : forall o u, In o l -> In u (oins o) -> ~ written (D := D) l u -> live l N u.
Proof.
  induction l as [|o l IH]; intros o' u []; intros Hu Nw; simpl.
  - subst. now left.
  - right. split; [eapply IH; eauto; intros (q & Q1 & Q2); apply Nw; exists q; split; [now right|auto]|].
    intro Q. apply Nw. exists o. split; [now left|auto].
Qed.
Lemma live_reads l (N : V -> Prop) : forall u, live (D := D) l N u -> (exists o, In o l /\ In u (oins o)) \/ N u.
Proof.
  induction l as [|o l IH]; intros u H; simpl in *; [auto|]. destruct H as [H|[H _]]; [left; eauto|].
  destruct (IH u H) as [(q & Q1 & Q2)|Q]; [left; eauto|auto].
Qed.
(** After assigning fresh distinct variables their values can be looked up. *)
Lemma assign_lookups l : NoDup l -> forall (r : @env V X) xs, length l = length xs ->
  exists r1, assign veqb r l xs = Some r1 /\ lookups r1 l = Some xs /\ forall u, ~ In u l -> r1 u = r u.
Proof.
  induction 1 as [|v l Nv Nd IH]; intros r [|x xs] L; simpl in *; try discriminate.
  - exists r. auto.
  - destruct (IH (fun w => if veqb v w then Some x else r w) xs) as (r1 & E1 & E2 & E3); [lia|].
    exists r1. split; [exact E1|]. rewrite E2, (E3 v Nv). destruct (R v v) as [_|]; [|congruence].
    split; [reflexivity|]. intros u Hu. rewrite E3 by tauto. destruct (R v u); tauto.
Qed.
End Live.
Lemma lookups_eq {V X} (r s : V -> option X) l xs : lookups r l = Some xs -> lookups s l = Some xs -> forall u, In u l -> r u = s u.
Proof.
  revert xs. induction l as [|v l IH]; intros xs H1 H2 u []; simpl in *.
  - subst. destruct (r u), (s u), (lookups r l), (lookups s l); try discriminate. congruence.
  - destruct (r v), (s v), (lookups r l) as [ys|] eqn:E1, (lookups s l) as [ys'|] eqn:E2; try discriminate.
    apply (IH ys); auto. congruence.
Qed.

(** ** Objects and intermediate variables *)
Definition ilit {X} (litv : Z -> X) (u : ivar) : option X :=
  match u with IVar _ _ => None | ILit x _ => Some (litv x) end.
Definition iop (off : Z) (e : eqn) : op ivar eqn_data :=
  Op (edata e) (map (to_ivar off) (eqn_reads e)) (map (to_ivar off) (eqn_writes e)).
Lemma jaxpr_ops j off : gops (jaxpr_to_graph j off) = map (iop off) (jeqns j).
Proof. simpl. apply map_ext. intros [p q a b]. reflexivity. Qed.
Definition igraph (off : Z) (j : jaxpr) : graph ivar eqn_data unit :=
  Graph unit (map (to_ivar off) (jconst j ++ jins j)) (map (to_ivar off) (jouts j)) (map (iop off) (jeqns j)) tt.

Lemma reads_jatoms j a : In a (reads j) -> In a (jatoms j).
Proof.
  intro H. unfold reads in H. rewrite in_app_iff, in_flat_map in H. apply jatoms_in.
  destruct H as [(e & He & H)|H]; [right; right; right; exists e; auto|auto].
Qed.
Lemma binders_in j a : In a (binders j) <-> In a (jins j) \/ In a (jconst j) \/ In a (writes (jeqns j)).
Proof. unfold binders. rewrite !in_app_iff. reflexivity. Qed.
Lemma writes_in es a : In a (writes es) <-> exists e, In e es /\ In a (eqn_writes e).
Proof. apply in_flat_map. Qed.
Lemma binders_jatoms j a : In a (binders j) -> In a (jatoms j).
Proof.
  rewrite binders_in, writes_in. intro H. apply jatoms_in.
  destruct H as [H|[H|(e & He & H)]]; auto. right. right. right. exists e. auto.
Qed.
Lemma eqn_read_in j e a : In e (jeqns j) -> In a (eqn_reads e) -> In a (reads j).
Proof. intros He Ha. unfold reads. rewrite in_app_iff, in_flat_map. eauto. Qed.
Lemma eqn_write_in j e a : In e (jeqns j) -> In a (eqn_writes e) -> In a (binders j).
Proof. intros He Ha. rewrite binders_in, writes_in. eauto. Qed.

Lemma to_ivar_inj j off v b : traced j -> In (AVar v) (jatoms j) -> In b (jatoms j) -> vcount v <> (-1)%Z ->
  to_ivar off (AVar v) = to_ivar off b -> b = AVar v.
Proof.
  intros T Hv Hb Nv E. destruct b as [w|]; simpl in E; [|discriminate]. injection E as E _. f_equal. symmetry.
  apply (tr_count j T); auto. lia.
Qed.

Lemma eval_igraph {X} (sem : eqn_data -> list X -> option (list X)) litv j off xs : traced j ->
  eval_jaxpr sem litv j xs = run_graph sem (ilit litv) ivar_eqb (igraph off j) xs.
Proof.
  intro T. unfold eval_jaxpr.
  set (P := fun a u => In a (reads j) /\ u = to_ivar off a). set (W := fun a u => In a (binders j) /\ u = to_ivar off a).
  assert (M : forall (Q : atom -> Prop) l, (forall a, In a l -> Q a) -> Forall2 (fun a u => Q a /\ u = to_ivar off a) l (map (to_ivar off) l)).
  { intros Q l. induction l as [|a l IH]; intro H; constructor; [split; [apply H; now left|reflexivity]|].
    apply IH. intros b Hb. apply H. now right. }
  apply (graph_sim2 atom_eqb ivar_eqb atom_eqb_spec ivar_eqb_spec P W sem).
  - intros u u' v v' [Hu ->] [Hv ->]. destruct (tr_bind j T v Hv) as (w & ->). split; [congruence|]. intro E.
    destruct u as [z|]; simpl in E; [|discriminate]. assert (Nz := tr_read j T z Hu). symmetry.
    apply (to_ivar_inj j off z (AVar w) T); auto using reads_jatoms, binders_jatoms.
  - intros u u' [_ ->]. destruct u; reflexivity.
  - simpl. apply M. intros a Ha. rewrite binders_in. apply in_app_iff in Ha. tauto.
  - simpl. apply M. intros a Ha. unfold reads. rewrite in_app_iff. auto.
  - simpl. assert (Q : forall l, (forall e, In e l -> In e (jeqns j)) -> Forall2 (op_sim2 P W) (map eqn_op l) (map (iop off) l)).
    { induction l as [|e l IH]; intro H; constructor.
      - assert (He := H e (or_introl eq_refl)). split; [|split; [|reflexivity]]; apply M; intros a Ha; eauto using eqn_read_in, eqn_write_in.
      - apply IH. intros b Hb. apply H. now right. }
    apply Q. auto.
Qed.

(** Distinct objects give distinct intermediate variables. *)
Lemma nodup_ivars j off l : traced j -> (forall a, In a l -> exists v, a = AVar v /\ vcount v <> (-1)%Z /\ In a (jatoms j)) ->
  NoDup l -> NoDup (map (to_ivar off) l).
Proof.
  intros T H N. induction N as [|a l Na N IH]; simpl; constructor.
  - intro I. apply in_map_iff in I. destruct I as (b & E & Hb).
    destruct (H a (or_introl eq_refl)) as (v & -> & Nv & Hv). destruct (H b (or_intror Hb)) as (w & -> & Nw & Hw).
    symmetry in E. apply (to_ivar_inj j off v (AVar w) T Hv Hw Nv) in E. congruence.
  - apply IH. intros b Hb. apply H. now right.
Qed.
Lemma NoDup_app {A} (l l' : list A) : NoDup (l ++ l') <-> NoDup l /\ NoDup l' /\ forall a, In a l -> ~ In a l'.
Proof.
  induction l as [|a l IH]; simpl; [split; [intro; split; [constructor|split; [auto|tauto]]|tauto]|].
  split.
  - intro H. inversion H as [|x y Nx Ny]; subst. apply IH in Ny. destruct Ny as (A1 & A2 & A3). rewrite in_app_iff in Nx.
    split; [constructor; tauto|]. split; [exact A2|]. intros b [<-|Hb]; [tauto|auto].
  - intros (A1 & A2 & A3). inversion A1; subst. constructor; [|apply IH; split; [auto|split; [auto|intros b Hb; apply A3; auto]]].
    rewrite in_app_iff. intros [Q|Q]; [auto|exact (A3 a (or_introl eq_refl) Q)].
Qed.
Lemma nodup_inj {A B} (f : A -> B) l x y : NoDup (map f l) -> In x l -> In y l -> f x = f y -> x = y.
Proof.
  induction l as [|a l IH]; simpl; intros N Hx Hy E; [tauto|]. inversion N as [|? ? Na N']; subst.
  destruct Hx as [<-|Hx], Hy as [<-|Hy]; auto.
  - exfalso. apply Na. rewrite E. now apply in_map.
  - exfalso. apply Na. rewrite <- E. now apply in_map.
Qed.

(** ** The renaming of the replacement *)
Definition is_lit (u : ivar) : Prop := match u with ILit _ _ => True | IVar _ _ => False end.
Lemma scoped_interface j : scoped j -> jconst j = [] ->
  NoDup (jins j ++ jouts j) /\
  (forall a, In a (jins j ++ jouts j) -> exists v, a = AVar v /\ vcount v <> (-1)%Z /\ In a (jatoms j)).
Proof.
  intros S Ec. assert (N := sc_once j S). unfold binders in N. rewrite Ec in N. simpl in N. apply NoDup_app in N. destruct N as (N1 & N2 & N3).
  split.
  - apply NoDup_app. split; [exact N1|]. split; [exact (sc_outs j S)|]. intros a Ha Hb. exact (N3 a Ha (sc_out j S a Hb)).
  - intros a Ha. assert (B : In a (binders j)).
    { rewrite binders_in. apply in_app_iff in Ha. destruct Ha as [Ha|Ha]; [auto|]. right. right. exact (sc_out j S a Ha). }
    destruct (tr_bind j (sc_traced j S) a B) as (v & ->). exists v. assert (Q := binders_jatoms _ _ B). split; [reflexivity|].
    split; [exact (sc_kept j S v Q)|exact Q].
Qed.
Lemma fold_vset_lookup l : NoDup (map fst l) -> forall m u,
  vlookup ivar_eqb (fold_left (fun m '(u, v) => vset ivar_eqb m u v) l m) u =
  match vlookup ivar_eqb l u with Some v => Some v | None => vlookup ivar_eqb m u end.
Proof.
  induction l as [|[k v] l IH]; intros N m u; simpl; [reflexivity|]. inversion N as [|? ? Nk N']; subst. rewrite (IH N').
  rewrite (vlookup_vset ivar_eqb ivar_eqb_spec).
  destruct (vlookup ivar_eqb l u) as [w|] eqn:E; [|destruct (ivar_eqb k u); reflexivity].
  destruct (ivar_eqb_spec k u) as [->|]; [|reflexivity].
  apply (vlookup_In ivar_eqb ivar_eqb_spec) in E. contradiction.
Qed.
Lemma combine_app {A B} (a b : list A) (c d : list B) : length a = length c ->
  combine (a ++ b) (c ++ d) = combine a c ++ combine b d.
Proof. revert c. induction a as [|x a IH]; intros [|y c] H; simpl in *; try discriminate; [reflexivity|]. f_equal. apply IH. lia. Qed.
Lemma combine_fst {A B} (l : list A) (l' : list B) : length l = length l' -> map fst (combine l l') = l.
Proof. revert l'. induction l as [|a l IH]; intros [|b l'] H; simpl in *; try discriminate; [reflexivity|]. f_equal. apply IH. lia. Qed.
Lemma vget_combine ks vs : NoDup ks -> length ks = length vs -> map (vget ivar_eqb (combine ks vs)) ks = vs.
Proof.
  revert vs. induction ks as [|k ks IH]; intros [|v vs] N L; simpl in *; try discriminate; [reflexivity|].
  inversion N as [|? ? Nk N']; subst. f_equal.
  - unfold vget. simpl. destruct (ivar_eqb_spec k k); [reflexivity|congruence].
  - rewrite <- (IH vs N') at 2 by lia. apply map_ext_in. intros u Hu. unfold vget. simpl.
    destruct (ivar_eqb_spec k u) as [->|]; [contradiction|reflexivity].
Qed.

Lemma closed_read es : forall bound outs, closed_eqns bound es outs -> forall e v, In e es -> In (AVar v) (eqn_reads e) ->
  In (AVar v) bound \/ In (AVar v) (writes es).
Proof.
  induction es as [|e es IH]; intros bound outs C e' v He Hv; simpl in *; [tauto|]. destruct C as [C1 C2].
  destruct He as [<-|He]; [left; auto|]. destruct (IH _ _ C2 e' v He Hv) as [Q|Q].
  - apply in_app_iff in Q. destruct Q as [Q|Q]; [auto|]. right. apply in_app_iff. auto.
  - right. apply in_app_iff. auto.
Qed.

Section Rep.
Variables (pat rep : jaxpr) (off : Z).
Hypothesis (Sp : scoped pat) (Sr : scoped rep) (Cp : jconst pat = []) (Cr : jconst rep = []).
Hypothesis (Li : length (jins pat) = length (jins rep)) (Lo : length (jouts pat) = length (jouts rep)).
Hypothesis Only : forall a, In a (writes (jeqns rep)) -> In a (jouts rep).
Definition rep_map : vmap ivar :=
  fold_left (fun m '(u, v) => vset ivar_eqb m u v)
    (combine (map (to_ivar off) (jins rep)) (map (to_ivar 0) (jins pat)) ++
     combine (map (to_ivar off) (jouts rep)) (map (to_ivar 0) (jouts pat))) [].
Notation ren := (vget ivar_eqb rep_map).
Notation ks := (map (to_ivar off) (jins rep ++ jouts rep)).
Notation vs := (map (to_ivar 0) (jins pat ++ jouts pat)).

Lemma ks_nodup : NoDup ks.
Proof. destruct (scoped_interface rep Sr Cr) as [N V]. exact (nodup_ivars rep off _ (sc_traced rep Sr) V N). Qed.
Lemma vs_nodup : NoDup vs.
Proof. destruct (scoped_interface pat Sp Cp) as [N V]. exact (nodup_ivars pat 0 _ (sc_traced pat Sp) V N). Qed.
Lemma ren_combine u : ren u = vget ivar_eqb (combine ks vs) u.
Proof.
  assert (N := ks_nodup).
  unfold vget, rep_map. rewrite <- combine_app by (rewrite !map_length; lia). rewrite <- !map_app.
  rewrite fold_vset_lookup; [|rewrite combine_fst; [exact N|rewrite !map_length, !app_length; lia]].
  destruct (vlookup ivar_eqb (combine ks vs) u); reflexivity.
Qed.
Lemma ren_keys : map ren ks = vs.
Proof.
  rewrite <- (vget_combine ks vs ks_nodup) by (rewrite !map_length, !app_length; lia).
  apply map_ext. exact ren_combine.
Qed.
Lemma ren_ins : map ren (map (to_ivar off) (jins rep)) = map (to_ivar 0) (jins pat).
Proof.
  assert (E := ren_keys). rewrite !map_app in E.
  assert (L : length (map ren (map (to_ivar off) (jins rep))) = length (map (to_ivar 0) (jins pat))) by (rewrite !map_length; lia).
  revert E L. generalize (map ren (map (to_ivar off) (jins rep))) as a, (map (to_ivar 0) (jins pat)) as b.
  intros a b. revert b. induction a as [|x a IH]; intros [|y b] E L; simpl in *; try discriminate; [reflexivity|].
  injection E as -> E. f_equal. apply IH; [exact E|lia].
Qed.
Lemma ren_outs : map ren (map (to_ivar off) (jouts rep)) = map (to_ivar 0) (jouts pat).
Proof. assert (E := ren_keys). rewrite !map_app, ren_ins in E. now apply app_inv_head in E. Qed.
Lemma ren_other u : ~ In u ks -> ren u = u.
Proof.
  intro N. rewrite ren_combine. unfold vget. destruct (vlookup ivar_eqb (combine ks vs) u) eqn:E; [|reflexivity].
  apply (vlookup_In ivar_eqb ivar_eqb_spec) in E. rewrite combine_fst in E by (rewrite !map_length, !app_length; lia). contradiction.
Qed.
Lemma ren_inj u v : In u ks -> In v ks -> ren u = ren v -> u = v.
Proof. intros. apply (nodup_inj ren ks); auto. rewrite ren_keys. exact vs_nodup. Qed.
Lemma ren_in u : In u ks -> In (ren u) vs.
Proof. intro H. rewrite <- ren_keys. now apply in_map. Qed.
Lemma ks_var u : In u ks -> ~ is_lit u.
Proof.
  intro H. apply in_map_iff in H. destruct H as (a & <- & Ha). destruct (scoped_interface rep Sr Cr) as [_ V].
  destruct (V a Ha) as (v & -> & _). simpl. tauto.
Qed.
Lemma vs_var u : In u vs -> ~ is_lit u.
Proof.
  intro H. apply in_map_iff in H. destruct H as (a & <- & Ha). destruct (scoped_interface pat Sp Cp) as [_ V].
  destruct (V a Ha) as (v & -> & _). simpl. tauto.
Qed.
Lemma ren_lit u : is_lit u -> ren u = u.
Proof. intro H. apply ren_other. intro Q. exact (ks_var u Q H). Qed.
Lemma rep_read_in e a : In e (jeqns rep) -> In a (eqn_reads e) -> is_lit (to_ivar off a) \/ In (to_ivar off a) ks.
Proof.
  intros He Ha. destruct a as [v|]; [right|left; exact I]. apply in_map.
  destruct (closed_read _ _ _ (sc_closed rep Sr) e v He Ha) as [Q|Q]; apply in_app_iff; auto.
Qed.
Lemma rep_write_in e a : In e (jeqns rep) -> In a (eqn_writes e) -> In (to_ivar off a) (map (to_ivar off) (jouts rep)).
Proof. intros He Ha. apply in_map. apply Only, writes_in. eauto. Qed.

Definition rep_ops : list (op ivar eqn_data) := map (subs ivar_eqb rep_map) (map (iop off) (jeqns rep)).
Definition rep_graph : graph ivar eqn_data unit :=
  Graph unit (map (to_ivar 0) (jins pat)) (map (to_ivar 0) (jouts pat)) rep_ops tt.

Lemma rep_graph_eval {X} (sem : eqn_data -> list X -> option (list X)) litv xs :
  run_graph sem (ilit litv) ivar_eqb (igraph off rep) xs = run_graph sem (ilit litv) ivar_eqb rep_graph xs.
Proof.
  set (P := fun u u' => (is_lit u \/ In u ks) /\ u' = ren u). set (W := fun u u' => In u ks /\ u' = ren u).
  assert (M : forall (Q : ivar -> Prop) l, (forall a, In a l -> Q a) -> Forall2 (fun a u => Q a /\ u = ren a) l (map ren l)).
  { intros Q l. induction l as [|a l IH]; intro H; constructor; [split; [apply H; now left|reflexivity]|].
    apply IH. intros b Hb. apply H. now right. }
  apply (graph_sim2 ivar_eqb ivar_eqb ivar_eqb_spec ivar_eqb_spec P W sem).
  - intros u u' v v' [Hu ->] [Hv ->]. split; [congruence|]. destruct Hu as [Hu|Hu]; [|apply ren_inj; auto].
    intro E. exfalso. rewrite (ren_lit u Hu) in E. apply (vs_var u); [|exact Hu]. rewrite E. now apply ren_in.
  - intros u u' [[Hu|Hu] ->]; [rewrite ren_lit by auto; reflexivity|].
    assert (Q := ks_var u Hu). assert (Q' := vs_var _ (ren_in u Hu)). destruct u; simpl in Q; [|tauto]. destruct (ren _); simpl in Q'; [reflexivity|tauto].
  - simpl. rewrite Cr. simpl. rewrite <- ren_ins. apply M. intros a Ha. rewrite map_app. apply in_app_iff. auto.
  - simpl. rewrite <- ren_outs. apply M. intros a Ha. right. rewrite map_app. apply in_app_iff. auto.
  - simpl. unfold rep_ops.
    assert (Q : forall l, (forall e, In e l -> In e (jeqns rep)) -> Forall2 (op_sim2 P W) (map (iop off) l) (map (subs ivar_eqb rep_map) (map (iop off) l))).
    { induction l as [|e l IH]; intro H; constructor.
      - assert (He := H e (or_introl eq_refl)). split; [|split; [|reflexivity]]; simpl; apply M; intros a Ha; apply in_map_iff in Ha; destruct Ha as (b & <- & Hb).
        + eauto using rep_read_in.
        + rewrite map_app. apply in_app_iff. right. eauto using rep_write_in.
      - apply IH. intros b Hb. apply H. now right. }
    apply Q. auto.
Qed.

Lemma rep_written v : written rep_ops v -> In v (map (to_ivar 0) (jouts pat)).
Proof.
  intros (o & Ho & Hv). unfold rep_ops in Ho. rewrite map_map in Ho. apply in_map_iff in Ho. destruct Ho as (e & <- & He).
  simpl in Hv. apply in_map_iff in Hv. destruct Hv as (u & <- & Hu). apply in_map_iff in Hu. destruct Hu as (a & <- & Ha).
  rewrite <- ren_outs. apply in_map. eauto using rep_write_in.
Qed.
Lemma rep_occurs v : occurs rep_ops v -> is_lit v \/ In v vs.
Proof.
  intros (o & Ho & Hv). unfold rep_ops in Ho. rewrite map_map in Ho. apply in_map_iff in Ho. destruct Ho as (e & <- & He).
  unfold op_vars in Hv. simpl in Hv. apply in_app_iff in Hv. destruct Hv as [Hv|Hv]; apply in_map_iff in Hv; destruct Hv as (u & <- & Hu); apply in_map_iff in Hu; destruct Hu as (a & <- & Ha).
  - destruct (rep_read_in e a He Ha) as [Q|Q]; [left; now rewrite ren_lit|right; now apply ren_in].
  - right. apply ren_in. rewrite map_app. apply in_app_iff. right. eauto using rep_write_in.
Qed.
End Rep.

(** ** The pattern *)
Lemma pat_written j off : traced j -> forall v, written (map (iop off) (jeqns j)) v <-> In v (map (to_ivar off) (writes (jeqns j))).
Proof.
  intros T v. split.
  - intros (o & Ho & Hv). apply in_map_iff in Ho. destruct Ho as (e & <- & He). simpl in Hv. apply in_map_iff in Hv. destruct Hv as (a & <- & Ha).
    apply in_map. apply writes_in. eauto.
  - intro H. apply in_map_iff in H. destruct H as (a & <- & Ha). apply writes_in in Ha. destruct Ha as (e & He & Ha).
    exists (iop off e). split; [now apply in_map|]. simpl. now apply in_map.
Qed.
Lemma closed_live off es : forall bound outs, closed_eqns bound es outs -> forall u,
  live (map (iop off) es) (fun u => In u (map (to_ivar off) outs)) u -> is_lit u \/ In u (map (to_ivar off) bound).
Proof.
  assert (G : forall l bound u, (forall v, In (AVar v) l -> In (AVar v) bound) -> In u (map (to_ivar off) l) -> is_lit u \/ In u (map (to_ivar off) bound)).
  { intros l bound u H Hu. apply in_map_iff in Hu. destruct Hu as (a & <- & Ha). destruct a as [v|]; [right; apply in_map; auto|left; exact I]. }
  induction es as [|e es IH]; intros bound outs C u L; simpl in *; [eauto|]. destruct C as [C1 C2].
  destruct L as [L|[L N]]; [eauto|]. destruct (IH _ _ C2 u L) as [Q|Q]; [auto|].
  rewrite map_app in Q. apply in_app_iff in Q. tauto.
Qed.

Section Same.
Context {X : Type} (sem : eqn_data -> list X -> option (list X)) (litv : Z -> X).
Variables (pat rep : jaxpr) (off : Z).
Hypothesis (Gp : good_pattern pat) (Gr : good_replacement rep) (Cp : jconst pat = []) (Cr : jconst rep = []).
Hypothesis (Li : length (jins pat) = length (jins rep)) (Lo : length (jouts pat) = length (jouts rep)).
Hypothesis Same : forall xs ys, eval_jaxpr sem litv pat xs = Some ys -> eval_jaxpr sem litv rep xs = Some ys.
Notation P := (map (iop 0) (jeqns pat)).
Notation ins := (map (to_ivar 0) (jins pat)).
Notation outs := (map (to_ivar 0) (jouts pat)).

Lemma ins_not_written u : In u ins -> ~ written P u.
Proof.
  destruct Gp as [S _]. intros Hu W. apply (pat_written pat 0 (sc_traced pat S)) in W.
  apply in_map_iff in Hu, W. destruct Hu as (a & <- & Ha), W as (b & E & Hb).
  assert (Ba : In a (binders pat)) by (rewrite binders_in; auto). assert (Bb : In b (binders pat)) by (rewrite binders_in; auto).
  destruct (tr_bind pat (sc_traced pat S) a Ba) as (v & ->).
  symmetry in E. apply (to_ivar_inj pat 0 v b (sc_traced pat S)) in E; auto using binders_jatoms.
  - subst b. assert (N := sc_once pat S). unfold binders in N. rewrite Cp in N. simpl in N. apply NoDup_app in N. destruct N as (_ & _ & N). exact (N _ Ha Hb).
  - apply (sc_kept pat S). now apply binders_jatoms.
Qed.
Lemma ins_live N u : In u ins -> live P N u.
Proof.
  intro Hu. assert (W := ins_not_written u Hu). apply in_map_iff in Hu. destruct Hu as (a & <- & Ha).
  destruct Gp as [_ R]. destruct (R a Ha) as (e & He & Hr).
  apply (live_read P N (iop 0 e)); [now apply in_map|simpl; now apply in_map|exact W].
Qed.
Lemma outs_written v : In v outs -> written P v.
Proof.
  destruct Gp as [S _]. intro H. apply (pat_written pat 0 (sc_traced pat S)). apply in_map_iff in H. destruct H as (a & <- & Ha).
  apply in_map. exact (sc_out pat S a Ha).
Qed.
Lemma same_ops : same_function sem (ilit litv) ivar_eqb ins outs P (rep_ops pat rep off).
Proof.
  destruct Gp as [Sp _]. destruct Gr as [Sr Only]. intros r r' Ok Ok' Ag r1 Hr.
  assert (Nd : NoDup ins) by (assert (N := vs_nodup pat Sp Cp); rewrite map_app in N; apply NoDup_app in N; tauto).
  (* the inputs have values *)
  destruct (lookups_some r ins) as (xs & Lx).
  { intros u Hu. apply (live_defined ivar_eqb ivar_eqb_spec sem P (fun _ => False) r r1 Hr); [tauto|]. now apply ins_live. }
  assert (Len : length ins = length xs).
  { clear -Lx. revert xs Lx. induction ins as [|u l IH]; intros xs Lx; simpl in Lx; [injection Lx as <-; reflexivity|].
    destruct (r u); [|discriminate]. destruct (lookups r l); [|discriminate]. injection Lx as <-. simpl. f_equal. auto. }
  destruct (assign_lookups ivar_eqb ivar_eqb_spec ins Nd (ilit litv) xs Len) as (r0 & E0 & L0 & O0).
  assert (A0 : forall u, In u ins -> r u = r0 u) by (exact (lookups_eq _ _ _ _ Lx L0)).
  assert (NoLit : forall u, In u ins -> ~ is_lit u).
  { intros u Hu. apply (vs_var pat Sp Cp). rewrite map_app. apply in_app_iff. auto. }
  assert (Lit : forall q u, env_ok (ilit litv) q -> is_lit u -> r0 u = q u).
  { intros q u Oq Hu. rewrite O0 by (intro Q; exact (NoLit u Q Hu)). destruct u as [|z b]; [destruct Hu|]. simpl. symmetry. apply Oq. reflexivity. }
  (* the pattern run on its inputs alone *)
  destruct (run_live ivar_eqb ivar_eqb_spec sem P (fun u => In u outs) r r0 r1) as (q1 & R1 & A1); [|exact Hr|].
  { intros u L. destruct (closed_live 0 _ _ _ (sc_closed pat Sp) u L) as [Q|Q]; [symmetry; auto|auto]. }
  destruct (lookups_some q1 outs) as (ys & Ly).
  { intros u Hu. rewrite <- A1 by exact Hu. apply (written_defined ivar_eqb ivar_eqb_spec sem P r r1 Hr). left. now apply outs_written. }
  assert (EP : eval_jaxpr sem litv pat xs = Some ys).
  { rewrite (eval_igraph sem litv pat 0 xs (sc_traced pat Sp)). unfold run_graph, igraph. cbn [gins gouts gops]. rewrite Cp. simpl app. rewrite E0, R1. exact Ly. }
  apply Same in EP. rewrite (eval_igraph sem litv rep off xs (sc_traced rep Sr)) in EP.
  rewrite (rep_graph_eval pat rep off Sp Sr Cp Cr Li Lo Only) in EP. unfold run_graph, rep_graph in EP. cbn [gins gouts gops] in EP. rewrite E0 in EP.
  destruct (run sem ivar_eqb r0 (rep_ops pat rep off)) as [q2|] eqn:R2; [|discriminate].
  (* the replacement run in the other environment *)
  destruct (run_live ivar_eqb ivar_eqb_spec sem (rep_ops pat rep off) (fun u => In u outs) r0 r' q2) as (r1' & R1' & A2); [|exact R2|].
  { intros u L. destruct (live_defined ivar_eqb ivar_eqb_spec sem _ (fun u => In u outs) r0 q2 R2) with (u := u) as (x & Hx); [|exact L|].
    - intros v Hv. eapply lookups_defined; eauto.
    - destruct (in_veqb_dec ivar_eqb ivar_eqb_spec u ins) as [Iu|Iu]; [rewrite <- A0 by exact Iu; auto|].
      apply Lit; [exact Ok'|]. rewrite O0 in Hx by exact Iu. destruct u; [discriminate|exact I]. }
  exists r1'. split; [exact R1'|]. intros v Hv. rewrite A1, <- A2 by exact Hv. exact (lookups_eq _ _ _ _ Ly EP v Hv).
Qed.
End Same.

(** ** Matches seen on objects *)
Lemma combine_image {A B} (f : A -> B) (mu : B -> B) l l' : map mu (map f l) = map f l' ->
  length l = length l' /\ (forall a b, In (a, b) (combine l l') -> mu (f a) = f b) /\
  (forall a, In a l -> exists b, In (a, b) (combine l l')) /\
  (forall a b, In (a, b) (combine l l') -> In a l /\ In b l').
Proof.
  revert l'. induction l as [|x l IH]; intros [|y l'] E; simpl in *; try discriminate.
  - split; [reflexivity|]. repeat split; intros; tauto.
  - injection E as E1 E2. destruct (IH l' E2) as (L & A0 & C & D). split; [congruence|]. split; [|split].
    + intros a b [H|H]; [injection H as <- <-; exact E1|auto].
    + intros a [<-|H]; [exists y; auto|]. destruct (C a H) as (b & Hb). exists b. auto.
    + intros a b [H|H]; [injection H as <- <-; auto|]. destruct (D a b H). auto.
Qed.
Lemma match_transfer pes hes mu : is_match eqn_data_eqb can_bind (map (iop 0) pes) (map (iop 0) hes) mu ->
  match_at pes hes /\
  (forall a b, In (a, b) (bindings pes hes) -> mu (to_ivar 0 a) = to_ivar 0 b) /\
  (forall e a, In e pes -> In a (eqn_reads e) -> exists b, In (a, b) (bindings pes hes)) /\
  (forall a, In a (writes pes) -> exists b, In (a, b) (bindings pes hes) /\ In b (writes hes)) /\
  map mu (map (to_ivar 0) (writes pes)) = map (to_ivar 0) (writes hes) /\
  (forall a b, In (a, b) (bindings pes hes) -> exists e, In e hes /\ (In b (eqn_reads e) \/ In b (eqn_writes e))).
Proof.
  intros [F B].
  assert (G : Forall2 (fun p e => eqn_data_eqb (edata p) (edata e) = true /\
     map mu (map (to_ivar 0) (eqn_reads p)) = map (to_ivar 0) (eqn_reads e) /\
     map mu (map (to_ivar 0) (eqn_writes p)) = map (to_ivar 0) (eqn_writes e)) pes hes).
  { clear B. revert hes F. induction pes as [|p pes IH]; intros [|e hes] F; inversion F as [|? ? ? ? H F']; subst; constructor; [exact H|auto]. }
  clear F. assert (Occ : forall a b, In (a, b) (bindings pes hes) ->
     mu (to_ivar 0 a) = to_ivar 0 b /\ (exists e, In e pes /\ (In a (eqn_reads e) \/ In a (eqn_writes e))) /\
     exists e, In e hes /\ (In b (eqn_reads e) \/ In b (eqn_writes e))).
  { clear B. induction G as [|p e pes hes (H1 & H2 & H3) G IH]; intros a b H; [destruct H|].
    unfold bindings in H. simpl in H. apply in_app_iff in H. destruct H as [H|H].
    - unfold eqn_pairs in H. simpl in H. apply combine_image in H2, H3. destruct H2 as (_ & A2 & _ & D2), H3 as (_ & A3 & _ & D3).
      apply in_app_iff in H. destruct H as [H|H].
      + split; [auto|]. destruct (D2 _ _ H). split; [exists p|exists e]; simpl; auto.
      + split; [auto|]. destruct (D3 _ _ H). split; [exists p|exists e]; simpl; auto.
    - destruct (IH a b H) as (Q1 & (p' & Q2 & Q3) & e' & Q4 & Q5). split; [exact Q1|]. split; [exists p'|exists e']; simpl; auto. }
  assert (Cb : forall a b, In (a, b) (bindings pes hes) -> can_bind (to_ivar 0 a) (to_ivar 0 b) = true).
  { intros a b H. destruct (Occ a b H) as (E & (p & Hp & Ha) & _). rewrite <- E. apply B. exists (iop 0 p). split; [now apply in_map|].
    unfold op_vars. simpl. rewrite <- map_app. apply in_map. apply in_app_iff. exact Ha. }
  split; [split; [|split]|split; [|split; [|split; [|split]]]].
  - clear -G. induction G as [|p e pes hes (H1 & H2 & H3) G IH]; constructor; [|exact IH].
    apply eqn_data_eqb_iff in H1. apply combine_image in H2, H3. tauto.
  - intros a b H. assert (Q := Cb a b H). destruct a, b; simpl in Q; try discriminate; auto. now apply Z.eqb_eq in Q.
  - intros v w w' H H'. destruct (Occ _ _ H) as (E & _), (Occ _ _ H') as (E' & _). rewrite E in E'. simpl in E'. injection E' as E1 E2. split; [lia|exact E2].
  - intros a b H. apply (Occ a b H).
  - clear Occ Cb B. induction G as [|p e pes hes (H1 & H2 & H3) G IH]; intros e' a He Ha; [destruct He|]. simpl in He.
    unfold bindings. simpl. destruct He as [<-|He].
    + apply combine_image in H2. destruct H2 as (_ & _ & C & _). destruct (C a Ha) as (b & Hb). exists b. unfold eqn_pairs. rewrite !in_app_iff. simpl. auto.
    + destruct (IH e' a He Ha) as (b & Hb). exists b. rewrite in_app_iff. auto.
  - clear Occ Cb B. induction G as [|p e pes hes (H1 & H2 & H3) G IH]; intros a Ha; [destruct Ha|]. simpl in Ha. apply in_app_iff in Ha.
    unfold bindings. simpl. destruct Ha as [Ha|Ha].
    + apply combine_image in H3. destruct H3 as (_ & _ & C & D). destruct (C a Ha) as (b & Hb). exists b. unfold eqn_pairs. rewrite !in_app_iff. simpl.
      split; [auto|]. left. apply (D a b Hb).
    + destruct (IH a Ha) as (b & Hb & Hw). exists b. rewrite !in_app_iff. auto.
  - clear Occ Cb B. induction G as [|p e pes hes (H1 & H2 & H3) G IH]; simpl; [reflexivity|]. rewrite !map_app, H3, IH. reflexivity.
  - intros a b H. apply (Occ a b H).
Qed.

(** ** Clean occurrences are safe to rewrite *)
Lemma filter_all {A} (f : A -> bool) l : (forall a, In a l -> f a = true) -> filter f l = l.
Proof.
  induction l as [|a l IH]; intro H; simpl; [reflexivity|]. rewrite (H a (or_introl eq_refl)). f_equal. apply IH. intros b Hb. apply H. now right.
Qed.
Section Safe.
Variables (pat rep subj : jaxpr) (off : Z).
Hypothesis (Gp : good_pattern pat) (Gr : good_replacement rep) (Cp : jconst pat = []) (Cr : jconst rep = []).
Hypothesis (Li : length (jins pat) = length (jins rep)) (Lo : length (jouts pat) = length (jouts rep)).
Hypothesis (Gs : good_subject subj) (Cl : all_clean pat subj).
Notation P := (map (iop 0) (jeqns pat)).
Notation R := (rep_ops pat rep off).
Notation ins := (map (to_ivar 0) (jins pat)).
Notation outs := (map (to_ivar 0) (jouts pat)).
Notation vs := (map (to_ivar 0) (jins pat ++ jouts pat)).

(** What a match gives. *)
Record found (before here after : list eqn) (mu : ivar -> ivar) : Prop := {
  f_split : jeqns subj = before ++ here ++ after;
  f_match : is_match eqn_data_eqb can_bind P (map (iop 0) here) mu;
  f_outside : forall u, ~ occurs P u -> mu u = u }.

Lemma find_match before here after mu :
  map (iop 0) (jeqns subj) = before ++ here ++ after -> is_match eqn_data_eqb can_bind P here mu ->
  (forall u, ~ occurs P u -> mu u = u) ->
  exists b h a, before = map (iop 0) b /\ here = map (iop 0) h /\ after = map (iop 0) a /\ found b h a mu.
Proof.
  intros E M O. apply map_eq_app in E. destruct E as (b & r & E1 & E2 & E3). apply map_eq_app in E3. destruct E3 as (h & a & E4 & E5 & E6).
  subst. exists b, h, a. repeat (split; [reflexivity|]). constructor; auto.
Qed.

Section Found.
Variables (before here after : list eqn) (mu : ivar -> ivar).
Hypothesis F : found before here after mu.
Let E := f_split _ _ _ _ F.
Let M := match_transfer _ _ _ (f_match _ _ _ _ F).
Lemma here_in e : In e here -> In e (jeqns subj).
Proof. intro H. rewrite E, !in_app_iff. auto. Qed.
Lemma clean_here : clean pat here after (jouts subj).
Proof. exact (Cl before here after E (proj1 M)). Qed.
(** The image of a variable of the pattern. *)
Lemma image v b : In (AVar v, b) (bindings (jeqns pat) here) ->
  exists w, b = AVar w /\ mu (to_ivar 0 (AVar v)) = to_ivar 0 (AVar w) /\ vcount w <> (-1)%Z /\ In (AVar w) (jatoms subj).
Proof.
  intro H. destruct M as ((_ & K & _) & Im & _ & _ & _ & In_). assert (Q := K _ _ H). destruct b as [w|]; [|destruct Q].
  exists w. split; [reflexivity|]. split; [exact (Im _ _ H)|]. destruct clean_here as (_ & _ & C). split; [exact (C _ _ H)|].
  destruct (In_ _ _ H) as (e & He & Hb). apply jatoms_in. right. right. right. exists e. split; [now apply here_in|exact Hb].
Qed.
Lemma same_image w w' : vcount w <> (-1)%Z -> In (AVar w) (jatoms subj) -> In (AVar w') (jatoms subj) ->
  to_ivar 0 (AVar w) = to_ivar 0 (AVar w') -> w' = w.
Proof. intros Nw Hw Hw' Q. assert (X := to_ivar_inj subj 0 w (AVar w') (proj1 Gs) Hw Hw' Nw Q). congruence. Qed.
Lemma here_nodup : NoDup (map mu (map (to_ivar 0) (writes (jeqns pat)))).
Proof.
  destruct M as (_ & Im & _ & Wr & Mw & _). rewrite Mw.
  assert (K : forall b, In b (writes here) -> exists w, b = AVar w /\ vcount w <> (-1)%Z /\ In b (jatoms subj)).
  { intros b Hb. assert (Bb : In b (binders subj)).
    { rewrite binders_in, E. right. right. unfold writes in *. rewrite !flat_map_app, !in_app_iff. auto. }
    destruct (tr_bind subj (proj1 Gs) b Bb) as (w & ->). exists w. split; [reflexivity|]. split; [|now apply binders_jatoms].
    assert (I : In (to_ivar 0 (AVar w)) (map mu (map (to_ivar 0) (writes (jeqns pat))))) by (rewrite Mw; now apply in_map).
    apply in_map_iff in I. destruct I as (u & Eu & Hu). apply in_map_iff in Hu. destruct Hu as (a & <- & Ha).
    destruct (Wr a Ha) as (b' & Hb' & _). assert (Ba : In a (binders pat)) by (rewrite binders_in; auto).
    destruct (tr_bind pat (sc_traced pat (proj1 Gp)) a Ba) as (v & ->).
    destruct (image v b' Hb') as (w' & -> & E1 & Nw & _). rewrite E1 in Eu. simpl in Eu. injection Eu as Eu _. lia. }
  assert (N := proj2 Gs). unfold binders in N. rewrite E in N. rewrite !flat_map_app, !filter_app in N.
  rewrite !NoDup_app in N. destruct N as (_ & (_ & (_ & (N & _ & _) & _) & _) & _).
  apply (nodup_ivars subj 0 _ (proj1 Gs) K).
  match type of N with NoDup (filter kept ?l) => change l with (writes here) in N end. rewrite filter_all in N; [exact N|].
  intros a Ha. destruct (K a Ha) as (w & -> & Nw & _). simpl. rewrite (proj2 (Z.eqb_neq _ _) Nw). reflexivity.
Qed.
(** Variables of the pattern are inputs or written. *)
Lemma pat_atom e a : In e (jeqns pat) -> In a (eqn_reads e) \/ In a (eqn_writes e) ->
  (exists i x b, a = ALit i x b) \/ In a (jins pat) \/ In a (writes (jeqns pat)).
Proof.
  intros He [Ha|Ha].
  - destruct a as [v|]; [right|left; eauto]. exact (closed_read _ _ _ (sc_closed pat (proj1 Gp)) e v He Ha).
  - right. right. apply writes_in. eauto.
Qed.
Lemma occurs_atom u : occurs P u -> exists e a, In e (jeqns pat) /\ (In a (eqn_reads e) \/ In a (eqn_writes e)) /\ u = to_ivar 0 a.
Proof.
  intros (o & Ho & Hu). apply in_map_iff in Ho. destruct Ho as (e & <- & He). unfold op_vars in Hu. simpl in Hu. rewrite <- map_app in Hu.
  apply in_map_iff in Hu. destruct Hu as (a & <- & Ha). apply in_app_iff in Ha. eauto.
Qed.
Lemma mu_lit u : is_lit u -> is_lit (mu u).
Proof.
  intro H. destruct (in_veqb_dec ivar_eqb ivar_eqb_spec u (flat_map op_vars P)) as [I|I].
  - apply in_flat_map in I. assert (Bd := proj2 (f_match _ _ _ _ F)). assert (Q := Bd u I). destruct u; [destruct H|]. simpl in Q.
    destruct (mu _); [discriminate|exact Logic.I].
  - rewrite (f_outside _ _ _ _ F); [exact H|]. intro Q. apply I, in_flat_map. exact Q.
Qed.
Lemma var_image v : In (AVar v) (jins pat) \/ In (AVar v) (writes (jeqns pat)) ->
  exists w, mu (to_ivar 0 (AVar v)) = to_ivar 0 (AVar w) /\ vcount w <> (-1)%Z /\ In (AVar w) (jatoms subj) /\
    In (AVar v, AVar w) (bindings (jeqns pat) here) /\ (In (AVar v) (writes (jeqns pat)) -> In (AVar w) (writes here)).
Proof.
  intro H. destruct M as (_ & _ & Rd & Wr & _).
  assert (Q : In (AVar v) (writes (jeqns pat)) \/ ~ In (AVar v) (writes (jeqns pat))).
  { destruct (in_dec (fun a b => reflect_dec _ _ (atom_eqb_spec a b)) (AVar v) (writes (jeqns pat))); auto. }
  destruct Q as [Q|Q].
  - destruct (Wr _ Q) as (b & Hb & Hw). destruct (image v b Hb) as (w & -> & E1 & N1 & J1). exists w. auto 6.
  - destruct H as [H|H]; [|contradiction]. destruct (proj2 Gp _ H) as (e & He & Hr). destruct (Rd e _ He Hr) as (b & Hb).
    destruct (image v b Hb) as (w & -> & E1 & N1 & J1). exists w. repeat (split; [auto|]). intro; contradiction.
Qed.
Lemma mu_distinct v u : written P v -> (is_lit u \/ In u ins \/ written P u) -> u <> v -> mu u <> mu v.
Proof.
  intros Wv Hu Ne Q. assert (Tp := sc_traced pat (proj1 Gp)).
  apply (pat_written pat 0 Tp) in Wv. assert (Wv' := Wv). apply in_map_iff in Wv. destruct Wv as (a & <- & Ha).
  assert (Ba : In a (binders pat)) by (rewrite binders_in; auto). destruct (tr_bind pat Tp a Ba) as (x & ->).
  destruct (var_image x (or_intror Ha)) as (w & E1 & N1 & J1 & B1 & W1).
  destruct Hu as [Hu|[Hu|Hu]].
  - apply mu_lit in Hu. rewrite Q, E1 in Hu. exact Hu.
  - apply in_map_iff in Hu. destruct Hu as (b & <- & Hb). assert (Bb : In b (binders pat)) by (rewrite binders_in; auto).
    destruct (tr_bind pat Tp b Bb) as (y & ->). destruct (var_image y (or_introl Hb)) as (z & E2 & N2 & J2 & B2 & W2).
    rewrite E1, E2 in Q. apply same_image in Q; auto. subst z.
    destruct clean_here as (C & _). exact (C y w Hb B2 (W1 Ha)).
  - apply (pat_written pat 0 Tp) in Hu. apply Ne. exact (nodup_inj mu _ _ _ here_nodup Hu Wv' Q).
Qed.
Lemma vs_cases u : In u vs -> In u ins \/ written P u.
Proof.
  intro H. rewrite map_app in H. apply in_app_iff in H. destruct H as [H|H]; [auto|]. right. now apply outs_written.
Qed.
Lemma found_safe {X} (litv : Z -> X) :
  safe_match (ilit litv) outs P R mu (live (map (iop 0) after) (fun u => In u (map (to_ivar 0) (jouts subj)))).
Proof.
  assert (Tp := sc_traced pat (proj1 Gp)). destruct Gr as [Sr Only].
  assert (Wr : forall v, written R v -> In v outs) by (apply rep_written; auto).
  split; [|split; [|split; [|split]]].
  - intros v u Wv Ou. apply mu_distinct; [exact Wv|]. destruct (occurs_atom u Ou) as (e & a & He & Ha & ->).
    destruct (pat_atom e a He Ha) as [(i & x & b & ->)|[Q|Q]]; [left; exact I|right; left; now apply in_map|].
    right. right. apply (pat_written pat 0 Tp). now apply in_map.
  - intros v u Wv Ou. apply mu_distinct; [apply outs_written; auto|].
    assert (Q : is_lit u \/ In u vs).
    { destruct Ou as [Ou|Ou]; [apply (rep_occurs pat rep off); auto|]. right. rewrite map_app. apply in_app_iff. auto. }
    destruct Q as [Q|Q]; [auto|]. right. now apply vs_cases.
  - intros v Wv Nv L. apply (pat_written pat 0 Tp) in Wv. apply in_map_iff in Wv. destruct Wv as (a & <- & Ha).
    assert (Ba : In a (binders pat)) by (rewrite binders_in; auto). destruct (tr_bind pat Tp a Ba) as (x & ->).
    destruct (var_image x (or_intror Ha)) as (w & E1 & N1 & J1 & B1 & W1). rewrite E1 in L.
    destruct clean_here as (_ & C & _). apply (C x w Ha); [intro Q; apply Nv; now apply in_map|exact B1|].
    assert (In_ : exists b, In b (flat_map eqn_reads after ++ jouts subj) /\ to_ivar 0 (AVar w) = to_ivar 0 b).
    { destruct (live_reads _ _ _ L) as [(o & Ho & Hu)|Hu].
      - apply in_map_iff in Ho. destruct Ho as (e & <- & He). simpl in Hu. apply in_map_iff in Hu. destruct Hu as (b & Eb & Hb).
        exists b. rewrite in_app_iff, in_flat_map. split; [left; eauto|auto].
      - apply in_map_iff in Hu. destruct Hu as (b & Eb & Hb). exists b. rewrite in_app_iff. auto. }
    destruct In_ as (b & Hb & Eb).
    assert (Jb : In b (jatoms subj)).
    { apply reads_jatoms. unfold reads. rewrite E, !flat_map_app, !in_app_iff. apply in_app_iff in Hb. tauto. }
    rewrite <- (to_ivar_inj subj 0 w b (proj1 Gs) J1 Jb N1 Eb). exact Hb.
  - intros v Wv Nv. destruct Nv. auto.
  - intros v Wv. apply Wr in Wv. apply in_map_iff in Wv. destruct Wv as (a & <- & Ha). assert (Wa := sc_out pat (proj1 Gp) a Ha).
    assert (Ba : In a (binders pat)) by (rewrite binders_in; auto). destruct (tr_bind pat Tp a Ba) as (x & ->).
    destruct (var_image x (or_intror Wa)) as (w & E1 & _). rewrite E1. reflexivity.
Qed.
(** The operations put in place of the match use variables of the subject. *)
Lemma found_used o u : In o R -> In u (op_vars (rename_op mu o)) ->
  is_lit u \/ exists w, u = to_ivar 0 (AVar w) /\ vcount w <> (-1)%Z /\ In (AVar w) (jatoms subj).
Proof.
  intros Ho Hu. destruct Gr as [Sr Only]. unfold op_vars, rename_op in Hu. simpl in Hu. rewrite <- map_app in Hu. apply in_map_iff in Hu. destruct Hu as (v & <- & Hv).
  assert (Ov : occurs R v) by (exists o; auto). apply rep_occurs in Ov; auto. destruct Ov as [Q|Q]; [left; now apply mu_lit|]. right.
  apply in_map_iff in Q. destruct Q as (a & <- & Ha). destruct (scoped_interface pat (proj1 Gp) Cp) as [_ V]. destruct (V a Ha) as (x & -> & _).
  destruct (var_image x) as (w & E1 & N1 & J1 & _); [|eauto]. apply in_app_iff in Ha. destruct Ha as [Ha|Ha]; [auto|right; exact (sc_out pat (proj1 Gp) _ Ha)].
Qed.
Lemma found_outs o u : In o R -> In u (oouts (rename_op mu o)) -> ~ is_lit u.
Proof.
  intros Ho Hu. destruct Gr as [Sr Only]. simpl in Hu. apply in_map_iff in Hu. destruct Hu as (v & <- & Hv).
  assert (Wv : written R v) by (exists o; auto). apply rep_written in Wv; auto.
  apply in_map_iff in Wv. destruct Wv as (a & <- & Ha). assert (Wa := sc_out pat (proj1 Gp) a Ha).
  assert (Ba : In a (binders pat)) by (rewrite binders_in; auto). destruct (tr_bind pat (sc_traced pat (proj1 Gp)) a Ba) as (x & ->).
  destruct (var_image x (or_intror Wa)) as (w & E1 & _). rewrite E1. simpl. tauto.
Qed.
End Found.
End Safe.
