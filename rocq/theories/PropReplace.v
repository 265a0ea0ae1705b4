(** C59: jaxpr_editor.replace preserves what a Jaxpr computes, for patterns and
    replacements of any length. *)
From Verif Require Import Base GraphEditor GraphSpec GraphProofs PropGraph JaxprEditor JaxprSpec JaxprProofs
  PipelineSpec PipelineProofs ReplaceSpec ReplaceProofs.
Open Scope nat_scope.

(** Where the operations of a rewritten sequence come from. *)
Lemma rewrites_in {V D} (deqb : D -> D -> bool) cb (p r : list (op V D)) ops out : rewrites deqb cb p r ops out ->
  forall pre, forall o, In o out -> In o ops \/
  exists before here after mu q, pre ++ ops = before ++ here ++ after /\ is_match deqb cb p here mu /\
    (forall u, ~ occurs p u -> mu u = u) /\ In q r /\ o = rename_op mu q.
Proof.
  induction 1 as [|here rest out mu Hne Hm Hid Hrw IH|x rest out Hno Hrw IH]; intros pre o Ho.
  - destruct Ho.
  - apply in_app_iff in Ho. destruct Ho as [Ho|Ho].
    + right. apply in_map_iff in Ho. destruct Ho as (q & <- & Hq). exists pre, here, rest, mu, q. auto.
    + destruct (IH (pre ++ here) o Ho) as [Q|Q]; [left; apply in_app_iff; auto|right]. rewrite <- app_assoc in Q. exact Q.
  - destruct Ho as [<-|Ho]; [left; now left|].
    destruct (IH (pre ++ [x]) o Ho) as [Q|Q]; [left; now right|right]. rewrite <- app_assoc in Q. exact Q.
Qed.

Section Back2.
(** Evaluating the Jaxpr made from a graph. *)
Context {X : Type} (sem : eqn_data -> list X -> option (list X)) (litv : Z -> X).
Variables (subj : jaxpr) (h : jgraph) (next : nat).
Hypothesis T : traced subj.
(** [u] is a literal or a variable of the subject (one that is not dropped). *)
Definition of_subject (u : ivar) : Prop :=
  is_lit u \/ exists w, u = to_ivar 0 (AVar w) /\ In (AVar w) (jatoms subj).
Definition readable (u : ivar) : Prop :=
  is_lit u \/ exists w, u = to_ivar 0 (AVar w) /\ In (AVar w) (jatoms subj) /\ vcount w <> (-1)%Z.
Hypothesis Hw : forall u, In u (gdata h) \/ In u (gins h) \/ (exists o, In o (gops h) /\ In u (oouts o)) -> of_subject u /\ ~ is_lit u.
Hypothesis Hr : forall u, In u (gouts h) \/ (exists o, In o (gops h) /\ In u (oins o)) -> readable u.

Lemma of_subject_known u : of_subject u -> known (used_with subj) u.
Proof. intros [H|(w & -> & Hw0)]; [destruct u; [destruct H|exact I]|]. now apply known_atom. Qed.
Lemma readable_of u : readable u -> of_subject u.
Proof. intros [H|(w & E & H & _)]; [left; exact H|right; eauto]. Qed.

Lemma eval_back xs : eval_jaxpr sem litv (graph_to_jaxpr next h) xs =
  run_graph sem (ilit litv) ivar_eqb (Graph unit (gdata h ++ gins h) (gouts h) (gops h) tt) xs.
Proof.
  destruct (graph_to_jaxpr_back next (used_with subj) h) as (st & (_ & I1 & I2) & Bc & Bi & Bo & Be).
  { intros u Hu. apply of_subject_known. destruct Hu as [Hu|[Hu|Hu]]; [apply Hw; auto|apply readable_of, Hr; auto|apply Hw; auto]. }
  { intros o u Ho Hu. apply of_subject_known. apply in_app_iff in Hu. destruct Hu as [Hu|Hu]; [apply readable_of, Hr; eauto|apply Hw; eauto 6]. }
  symmetry. unfold eval_jaxpr.
  set (P := fun u a => readable u /\ back st u a). set (W := fun u a => (of_subject u /\ ~ is_lit u) /\ back st u a).
  assert (M : forall (Q : ivar -> Prop) l l', (forall u, In u l -> Q u) -> Forall2 (back st) l l' -> Forall2 (fun u a => Q u /\ back st u a) l l').
  { intros Q l l' H F. induction F as [|u a l l' Hu F IH]; constructor; [split; [apply H; now left|exact Hu]|]. apply IH. intros v Hv. apply H. now right. }
  apply (graph_sim2 ivar_eqb atom_eqb ivar_eqb_spec atom_eqb_spec P W sem).
  - intros u a v b [Ru Bu] [[Ov Lv] Bv]. destruct Ov as [Ov|(w & -> & Jw)]; [contradiction|].
    simpl in Bv. destruct Bv as (y & Cy & ->). destruct Ru as [Ru|(z & -> & Jz & Nz)].
    + destruct u; [destruct Ru|]. simpl in Bu. destruct Bu as (i & ->). split; discriminate.
    + simpl in Bu. destruct Bu as (x & Cx & ->). rewrite Z.add_0_r in Cx, Cy. simpl. rewrite !Z.add_0_r. split; intro E.
      * injection E as E _. rewrite <- E in Cy. congruence.
      * injection E as E. subst y. destruct (I1 _ _ Cx) as (E1 & _), (I1 _ _ Cy) as (E2 & _).
        assert (z = w) by (apply (tr_count subj T); auto; congruence). subst w. reflexivity.
  - intros u a [_ Bu]. destruct u; simpl in Bu; [destruct Bu as (w & _ & ->)|destruct Bu as (i & ->)]; reflexivity.
  - simpl. apply M; [|now apply Forall2_app]. intros u Hu. apply in_app_iff in Hu. apply Hw. tauto.
  - simpl. apply M; [|exact Bo]. intros u Hu. apply Hr. auto.
  - simpl.
    assert (G : forall l l', (forall o, In o l -> In o (gops h)) -> Forall2 (back_op st) l l' -> Forall2 (op_sim2 P W) l (map eqn_op l')).
    { intros l l' Hl F. induction F as [|o e l l' (H1 & H2 & H3) F IH]; constructor.
      - assert (Ho := Hl o (or_introl eq_refl)). split; [|split; [|exact H1]]; simpl; apply M; auto; intros u Hu; [apply Hr|apply Hw]; eauto 6.
      - apply IH. intros q Hq. apply Hl. now right. }
    apply G; auto.
Qed.
End Back2.

(** C59. If the replacement computes what the pattern computes (wherever the
    pattern computes something), and every occurrence of the pattern in the
    subject is clean, then the rewritten Jaxpr computes what the subject
    computes: for any pattern, replacement and subject, any number of
    occurrences, any meaning of the operations that respects the comparison
    of equations. *)
Theorem C59_replace_preserves_function : forall (X : Type) (sem : eqn_data -> list X -> option (list X)) (litv : Z -> X)
    (pattern replacement subject result : jaxpr) fuel next,
  (forall d d', data_rel d d' -> sem d = sem d') ->
  good_pattern pattern -> good_replacement replacement -> good_subject subject ->
  all_clean pattern subject ->
  (forall xs ys, eval_jaxpr sem litv pattern xs = Some ys -> eval_jaxpr sem litv replacement xs = Some ys) ->
  jreplace fuel next pattern replacement subject = Some (Ok result) ->
  forall args ys, eval_jaxpr sem litv subject args = Some ys -> eval_jaxpr sem litv result args = Some ys.
Proof.
  intros X sem litv pat rep subj res fuel next Hd0 Gp Gr Gs Cl Same H args ys Hs.
  assert (Hd : forall d d', eqn_data_eqb d d' = true -> sem d = sem d') by (intros d d' Q; now apply Hd0, eqn_data_eqb_iff).
  unfold jreplace in H.
  destruct (Nat.eqb_spec (length (jins pat)) (length (jins rep))) as [Li|]; [|discriminate].
  destruct (Nat.eqb_spec (length (jouts pat)) (length (jouts rep))) as [Lo|]; [|discriminate].
  destruct (Nat.eqb_spec (length (jconst pat)) 0) as [Cp|]; [|discriminate].
  destruct (Nat.eqb_spec (length (jconst rep)) 0) as [Cr|]; [|discriminate].
  apply length_zero_iff_nil in Cp, Cr. cbn [negb orb] in H.
  match type of H with context [match map ivar_count ?l with _ => _ end] => destruct (map ivar_count l) as [|c cs]; [discriminate|] end.
  set (off := (fold_left Z.max cs c + 1)%Z) in *.
  match type of H with context [GraphEditor.replace ?a ?b ?c ?d ?e ?f ?g] => destruct (GraphEditor.replace a b c d e f g) as [h|] eqn:E end; [|discriminate].
  injection H as <-. rewrite !jaxpr_ops in E.
  change (map (subs ivar_eqb _) (map (iop off) (jeqns rep))) with (rep_ops pat rep off) in E.
  destruct (C40_replace_is_greedy_rewriting _ _ _ _ _ ivar_eqb_spec _ _ _ _ _ _ E) as (Ei & Eo & Ed & Rw).
  cbn [jaxpr_to_graph gins gouts gdata] in Ei, Eo, Ed. rewrite jaxpr_ops in Rw.
  assert (Tr := proj1 Gs).
  (* the graph is rewritten correctly *)
  assert (E' : GraphEditor.replace ivar_eqb eqn_data_eqb fuel (map (iop 0) (jeqns pat)) (rep_ops pat rep off) (igraph 0 subj) can_bind
               = Some (Graph unit (gdata h ++ gins h) (gouts h) (gops h) tt)).
  { unfold GraphEditor.replace in E |- *. rewrite jaxpr_ops in E. cbn [igraph gops gins gouts gdata].
    match type of E with match ?r with _ => _ end = _ => destruct r as [out|]; [|discriminate] end.
    injection E as <-. cbn [gops gins gouts gdata jaxpr_to_graph]. rewrite <- map_app. reflexivity. }
  assert (Hsub : forall u, written (map (iop 0) (jeqns subj)) u \/ In u (map (to_ivar 0) (jconst subj ++ jins subj)) -> exists w, u = to_ivar 0 (AVar w) /\ In (AVar w) (jatoms subj)).
  { intros u Hu. assert (Q : exists a, In a (binders subj) /\ u = to_ivar 0 a).
    { destruct Hu as [Hu|Hu]; [apply (pat_written subj 0 Tr) in Hu|]; apply in_map_iff in Hu; destruct Hu as (a & <- & Ha); exists a; (split; [|reflexivity]); rewrite binders_in; [auto|].
      apply in_app_iff in Ha. tauto. }
    destruct Q as (a & Ba & ->). destruct (tr_bind subj Tr a Ba) as (w & ->). exists w. auto using binders_jatoms. }
  rewrite (eval_igraph sem litv subj 0 args Tr) in Hs.
  assert (Hr : run_graph sem (ilit litv) ivar_eqb (Graph unit (gdata h ++ gins h) (gouts h) (gops h) tt) args = Some ys).
  { refine (C42_replace_preserves_meaning _ _ _ _ _ _ sem (ilit litv) ivar_eqb_spec Hd can_bind (map (to_ivar 0) (jins pat)) (map (to_ivar 0) (jouts pat)) _ _ _ _ _ _ _ _ _ _ _ E' args ys Hs).
    - intros u v B x Hx. destruct u as [|z b]; [discriminate|]. simpl in B. destruct v as [|z' b']; [discriminate|].
      apply Z.eqb_eq in B. subst z'. exact Hx.
    - intros u Hu. apply ins_live; auto.
    - intros v Hv. apply outs_written; auto.
    - apply same_ops; auto.
    - cbn [igraph gops gins]. intros v Hv. destruct (Hsub v Hv) as (w & -> & _). reflexivity.
    - cbn [igraph gops gouts]. intros b g a mu Eg Mg Og.
      destruct (find_match pat subj b g a mu Eg Mg Og) as (b0 & g0 & a0 & -> & -> & -> & F).
      exact (found_safe pat rep subj off Gp Gr Cr Li Lo Gs Cl b0 g0 a0 mu F litv). }
  rewrite (eval_back sem litv subj h next Tr); [exact Hr| |].
  - intros u Hu. assert (Q : (exists w, u = to_ivar 0 (AVar w) /\ In (AVar w) (jatoms subj)) -> of_subject subj u /\ ~ is_lit u).
    { intros (w & -> & Jw). split; [right; eauto|simpl; tauto]. }
    destruct Hu as [Hu|[Hu|(o & Ho & Hu)]].
    + apply Q, Hsub. right. rewrite map_app. apply in_app_iff. left. rewrite <- Ed. exact Hu.
    + apply Q, Hsub. right. rewrite map_app. apply in_app_iff. right. rewrite <- Ei. exact Hu.
    + destruct (rewrites_in _ _ _ _ _ _ Rw [] o Ho) as [Oo|(b & g & a & mu & q & Eg & Mg & Og & Hq & ->)].
      * apply Q, Hsub. left. exists o. auto.
      * destruct (find_match pat subj b g a mu Eg Mg Og) as (b0 & g0 & a0 & -> & -> & -> & F).
        assert (NL := found_outs pat rep subj off Gp Gr Cr Li Lo Cl b0 g0 a0 mu F q u Hq Hu).
        destruct (found_used pat rep subj off Gp Gr Cp Cr Li Lo Cl b0 g0 a0 mu F q u Hq) as [L|(w & -> & _ & Jw)].
        { unfold op_vars. apply in_app_iff. auto. } { contradiction. } { apply Q. eauto. }
  - assert (Rd : forall a, In a (reads subj) -> readable subj (to_ivar 0 a)).
    { intros a Ha. destruct a as [v|]; [right|left; exact I]. exists v. split; [reflexivity|]. split; [now apply reads_jatoms|exact (tr_read subj Tr v Ha)]. }
    intros u [Hu|(o & Ho & Hu)].
    + rewrite Eo in Hu. apply in_map_iff in Hu. destruct Hu as (a & <- & Ha). apply Rd. unfold reads. apply in_app_iff. auto.
    + destruct (rewrites_in _ _ _ _ _ _ Rw [] o Ho) as [Oo|(b & g & a & mu & q & Eg & Mg & Og & Hq & ->)].
      * apply in_map_iff in Oo. destruct Oo as (e & <- & He). simpl in Hu. apply in_map_iff in Hu. destruct Hu as (a & <- & Ha). apply Rd. eapply eqn_read_in; eauto.
      * destruct (find_match pat subj b g a mu Eg Mg Og) as (b0 & g0 & a0 & -> & -> & -> & F).
        destruct (found_used pat rep subj off Gp Gr Cp Cr Li Lo Cl b0 g0 a0 mu F q u Hq) as [L|(w & -> & Nw & Jw)].
        { unfold op_vars. apply in_app_iff. auto. } { left. exact L. } { right. eauto. }
Qed.
Print Assumptions C59_replace_preserves_function.

(** ** A concrete case: [b = mul a 2; c = sub b a] (primitives 1, 2) is replaced
    by [c = copy a] (primitive 3), twice. *)
Definition ax : aval := Aval 0 [] false.
Definition va (n : nat) : atom := AVar (MkVar n (Z.of_nat n) ax).
Definition li (n : nat) (x : Z) : atom := ALit n x ax.
Definition ex59_pat : jaxpr := Jaxpr [] [va 1] [va 3] [Eqn 1 [] [va 1; li 9 2] [va 2]; Eqn 2 [] [va 2; va 1] [va 3]].
Definition ex59_rep : jaxpr := Jaxpr [] [va 1] [va 2] [Eqn 3 [] [va 1] [va 2]].
Definition ex59_subj : jaxpr := Jaxpr [va 20] [va 21] [va 26]
  [Eqn 1 [] [va 21; li 30 2] [va 22]; Eqn 2 [] [va 22; va 21] [va 23];
   Eqn 1 [] [va 23; li 31 2] [va 24]; Eqn 2 [] [va 24; va 23] [va 25];
   Eqn 1 [] [va 25; va 20] [va 26]].
Definition ex59_sem (d : eqn_data) (xs : list Z) : option (list Z) :=
  match eprim d, xs with
  | 1, [x; y] => Some [(x * y)%Z]
  | 2, [x; y] => Some [(x - y)%Z]
  | 3, [x] => Some [x]
  | _, _ => None
  end.
Ltac all_atoms := repeat match goal with H : In _ _ |- _ => simpl in H end; intuition (subst; simpl in *; try congruence).
Lemma va_traced j : (forall a, In a (binders j) -> exists n, a = va n) ->
  (forall a, In a (jatoms j) -> (exists n, a = va n) \/ exists n x, a = li n x) -> traced j.
Proof.
  intros B A. assert (K : forall v, In (AVar v) (jatoms j) -> exists n, v = MkVar n (Z.of_nat n) ax).
  { intros v Hv. destruct (A _ Hv) as [(n & E)|(n & x & E)]; [injection E as ->; eauto|discriminate]. }
  split.
  - intros a Ha. destruct (B a Ha) as (n & ->). unfold va. eauto.
  - intros v w Hv Hw E. destruct (K v Hv) as (n & ->), (K w Hw) as (m & ->). simpl in E. now subst.
  - intros v w Hv Hw E _. destruct (K v Hv) as (n & ->), (K w Hw) as (m & ->). simpl in E. apply Nat2Z.inj in E. now subst.
  - intros v Hv. apply reads_jatoms in Hv. destruct (K v Hv) as (n & ->). simpl. lia.
Qed.
Lemma va_kept j : (forall a, In a (jatoms j) -> (exists n, a = va n) \/ exists n x, a = li n x) ->
  forall v, In (AVar v) (jatoms j) -> vcount v <> (-1)%Z.
Proof. intros A v Hv. destruct (A _ Hv) as [(n & E)|(n & x & E)]; [injection E as ->; simpl; lia|discriminate]. Qed.
Ltac each := simpl; intros a Ha; repeat (destruct Ha as [<-|Ha]; [eauto|]); try (destruct Ha).
Ltac cases59 := repeat match goal with
  | H : _ \/ _ |- _ => destruct H as [H|H]
  | H : False |- _ => destruct H
  | H : (_, _) = (_, _) |- _ => injection H as; subst
  | H : AVar _ = AVar _ |- _ => injection H as; subst
  | |- ~ _ => intro
  | |- _ <> _ => intro
  end; simpl in *; try discriminate; try tauto; try congruence.
Ltac nodup := simpl; repeat constructor; simpl; intuition discriminate.

Theorem C59_nonvacuous :
  (forall d d', data_rel d d' -> ex59_sem d = ex59_sem d') /\
  good_pattern ex59_pat /\ good_replacement ex59_rep /\ good_subject ex59_subj /\
  all_clean ex59_pat ex59_subj /\
  (forall xs ys, eval_jaxpr ex59_sem (fun x => x) ex59_pat xs = Some ys -> eval_jaxpr ex59_sem (fun x => x) ex59_rep xs = Some ys) /\
  exists res, jreplace 10 100 ex59_pat ex59_rep ex59_subj = Some (Ok res) /\ length (jeqns res) = 3 /\
    eval_jaxpr ex59_sem (fun x => x) ex59_subj [5; 7]%Z = Some [35]%Z /\
    eval_jaxpr ex59_sem (fun x => x) res [5; 7]%Z = Some [35]%Z.
Proof.
  assert (Ap : forall a, In a (jatoms ex59_pat) -> (exists n, a = va n) \/ exists n x, a = li n x) by (each).
  assert (Ar : forall a, In a (jatoms ex59_rep) -> (exists n, a = va n) \/ exists n x, a = li n x) by (each).
  assert (As : forall a, In a (jatoms ex59_subj) -> (exists n, a = va n) \/ exists n x, a = li n x) by (each).
  split; [|split; [|split; [|split; [|split; [|split]]]]].
  - intros [p q] [p' q'] [H _]. simpl in H. subst. reflexivity.
  - split; [split|].
    + apply va_traced; [each|exact Ap].
    + nodup.
    + apply va_kept, Ap.
    + simpl. repeat split; intros v H; unfold li in H; intuition (try discriminate).
    + nodup.
    + each; simpl; auto 6.
    + each; eexists; (split; [left; reflexivity|simpl; auto]).
  - split; [split|].
    + apply va_traced; [each|exact Ar].
    + nodup.
    + apply va_kept, Ar.
    + simpl. repeat split; intros v H; unfold li in H; intuition (try discriminate).
    + nodup.
    + each; simpl; auto 6.
    + each; simpl; auto 6.
  - split; [apply va_traced; [each|exact As]|]. nodup.
  - intros before here after E (F & K & _).
    inversion F as [|? e1 ? l1 (D1 & L1 & M1) F1]; subst. inversion F1 as [|? e2 ? l2 (D2 & L2 & M2) F2]; subst. inversion F2; subst. clear F F1 F2.
    simpl in E.
    assert (S : (e1 :: [e2]) ++ after = skipn (length before) (jeqns ex59_subj)).
    { simpl jeqns. rewrite E. clear. induction before; simpl; auto. }
    assert (Lb : length before < 4).
    { apply (f_equal (@length eqn)) in E. rewrite app_length in E. simpl in E. lia. }
    destruct (length before) as [|[|[|[|n]]]]; simpl in S; [| | | |lia]; injection S as -> -> ->.
    + clear -Ap. split; [|split]; simpl; unfold va, li; intros; cases59.
    + destruct D1 as [D1 _]. discriminate D1.
    + clear -Ap. split; [|split]; simpl; unfold va, li; intros; cases59.
    + destruct D1 as [D1 _]. discriminate D1.
  - intros xs ys H. destruct xs as [|x [|? ?]]; try discriminate. cbn in H |- *. injection H as <-. do 2 f_equal. lia.
  - eexists. split; [reflexivity|]. split; [reflexivity|]. split; reflexivity.
Qed.

(** The conditions matter.  (b) [b] is also an output of the subject: the result
    no longer computes it.  (No condition of [clean] is checked by the code.) *)
Theorem C59_intermediate_used_later_refuted :
  let subj := Jaxpr [] [va 21] [va 23; va 22] [Eqn 1 [] [va 21; li 30 2] [va 22]; Eqn 2 [] [va 22; va 21] [va 23]] in
  exists res, jreplace 10 100 ex59_pat ex59_rep subj = Some (Ok res) /\
    eval_jaxpr ex59_sem (fun x => x) subj [5]%Z = Some [5; 10]%Z /\
    eval_jaxpr ex59_sem (fun x => x) res [5]%Z = None.
Proof. eexists. split; [reflexivity|]. split; reflexivity. Qed.

(** The replacement computes a result it does not return, a dropped output (its
    count is -1): after renumbering, the dropped output has the count of the
    last variable of the pattern, here the output [b], and the rewritten Jaxpr
    returns the dropped result instead. *)
Definition ex59_drop_sem (d : eqn_data) (xs : list Z) : option (list Z) :=
  match eprim d, xs with
  | 1, [x] => Some [(x * 10)%Z]
  | 2, [x] => Some [(x * 10)%Z; (x + 1)%Z]      (* quotient-and-remainder like *)
  | _, _ => None
  end.
Theorem C59_dropped_result_captures_refuted :
  let pat := Jaxpr [] [va 1] [va 2] [Eqn 1 [] [va 1] [va 2]] in
  let rep := Jaxpr [] [va 1] [va 2] [Eqn 2 [] [va 1] [va 2; AVar (MkVar 3 (-1) ax)]] in
  let subj := Jaxpr [] [va 1] [va 2] [Eqn 1 [] [va 1] [va 2]] in
  exists res, jreplace 10 100 pat rep subj = Some (Ok res) /\
    eval_jaxpr ex59_drop_sem (fun x => x) pat [5]%Z = Some [50]%Z /\
    eval_jaxpr ex59_drop_sem (fun x => x) rep [5]%Z = Some [50]%Z /\
    eval_jaxpr ex59_drop_sem (fun x => x) subj [5]%Z = Some [50]%Z /\
    eval_jaxpr ex59_drop_sem (fun x => x) res [5]%Z = Some [6]%Z.
Proof. eexists. repeat split; reflexivity. Qed.
