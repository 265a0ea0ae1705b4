(** C55-C57: rewriting the Jaxpr and bounding the result. *)
From Coq Require Import Reals Lra.
From Verif Require Import Base Tensor IntervalArith Enclosure TensorLemmas Spec GraphEditor GraphSpec GraphProofs JaxprEditor JaxprSpec JaxprProofs
  JaxBound JaxSpec JaxTable PropJax JaxTableProofs PropTable PropJaxLimits JaxPipeline PipelineSpec PipelineProofs ReplaceSpec ReplaceProofs.
Open Scope nat_scope.

(** ** Evaluating a Jaxpr and its rewritten copy *)
Lemma jvar_eqb_refl_spec u v : reflect (u = v) (jvar_eqb u v).
Proof.
  destruct u as [a|a|], v as [b|b|]; simpl; try (constructor; congruence).
  - destruct (Nat.eqb_spec a b); constructor; congruence.
  - destruct (Nat.eqb_spec a b); constructor; congruence.
Qed.

Section Sim.
Context {X : Type}.
(** Pairs of variables read, written in the two programs. *)
Variables (P W : jvar -> jvar -> Prop).
Hypothesis PW : forall u u' v v', P u u' -> W v v' -> (u = v <-> u' = v').
Definition agree (r r' : jvar -> option X) : Prop := forall u u', P u u' -> r u = r' u'.
Lemma lookups_sim r r' l l' : agree r r' -> Forall2 P l l' -> lookups r l = lookups r' l'.
Proof. intros A F. induction F as [|u u' l l' H F IH]; simpl; [reflexivity|]. rewrite (A _ _ H), IH. reflexivity. Qed.
Lemma assign_sim l l' : Forall2 W l l' -> forall xs r r' r1, agree r r' -> assign jvar_eqb r l xs = Some r1 ->
  exists r1', assign jvar_eqb r' l' xs = Some r1' /\ agree r1 r1'.
Proof.
  induction 1 as [|v v' l l' H F IH]; intros [|x xs] r r' r1 A E; simpl in *; try discriminate.
  - injection E as <-. eauto.
  - apply IH with (r' := fun w => if jvar_eqb v' w then Some x else r' w) in E; [exact E|].
    intros u u' Hu. destruct (jvar_eqb_refl_spec v u) as [<-|N], (jvar_eqb_refl_spec v' u') as [<-|N']; auto.
    + exfalso. apply N'. symmetry. apply (PW v u' v v'); auto.
    + exfalso. apply N. symmetry. apply (PW u v' v v'); auto.
Qed.
Definition op_sim {D} (o o' : op jvar D) : Prop :=
  Forall2 P (oins o) (oins o') /\ Forall2 W (oouts o) (oouts o') /\ odata o' = odata o.
Lemma lookups_length (r : jvar -> option X) l xs : lookups r l = Some xs -> length xs = length l.
Proof.
  revert xs. induction l as [|u l IH]; intros xs H; simpl in H; [injection H as <-; reflexivity|].
  destruct (r u); [|discriminate]. destruct (lookups r l); [|discriminate]. injection H as <-. simpl. f_equal. auto.
Qed.
Lemma run_sim {D} (sem : D -> list X -> option (list X)) l l' : Forall2 op_sim l l' -> forall r r' r1, agree r r' -> run sem jvar_eqb r l = Some r1 ->
  exists r1', run sem jvar_eqb r' l' = Some r1' /\ agree r1 r1'.
Proof.
  induction 1 as [|o o' l l' (Hi & Ho & Hs) F IH]; intros r r' r1 A E; simpl in *.
  - injection E as <-. eauto.
  - unfold run_op in *. rewrite <- (lookups_sim r r' _ _ A Hi), Hs.
    destruct (lookups r (oins o)) as [args|] eqn:L; [|discriminate].
    destruct (sem (odata o) args) as [vals|] eqn:S; [|discriminate].
    destruct (assign jvar_eqb r (oouts o) vals) as [r2|] eqn:E2; [|discriminate].
    destruct (assign_sim _ _ Ho vals r r' r2 A E2) as (r2' & -> & A2). eauto.
Qed.
End Sim.

Lemma analyse_sim {T} {N : Num T} (P W : jvar -> jvar -> Prop) (PW : forall u u' v v', P u u' -> W v v' -> (u = v <-> u' = v')) sc X D l l' :
  Forall2 (op_sim P W (D := prim T)) l l' -> forall r r' k k' k1, agree P r r' -> agree P k k' -> analyse sc X D r k l = Some k1 ->
  exists k1', analyse sc X D r' k' l' = Some k1'.
Proof.
  induction 1 as [|o o' l l' (Hi & Ho & Hs) F IH]; intros r r' k k' k1 A B E; simpl in *; [eauto|].
  rewrite <- (lookups_sim P r r' _ _ A Hi), <- (lookups_sim P k k' _ _ B Hi), Hs.
  destruct (lookups r (oins o)) as [args|]; [|discriminate]. destruct (lookups k (oins o)) as [ks|]; [|discriminate].
  destruct (prim_bind sc (odata o) args) as [vals|]; [|discriminate]. destruct (forallb _ vals); [|discriminate].
  destruct (result_kind _ _ _ _ _) as [kd|]; [|discriminate].
  destruct (assign jvar_eqb r (oouts o) vals) as [r1|] eqn:E1; [|discriminate].
  destruct (assign jvar_eqb k (oouts o) _) as [k2|] eqn:E2; [|discriminate].
  destruct (assign_sim P W PW _ _ Ho _ r r' r1 A E1) as (r1' & -> & A1).
  destruct (assign_sim P W PW _ _ Ho _ k k' k2 B E2) as (k2' & -> & B1). eauto.
Qed.

(** The variables of a Jaxpr and of its copy correspond. *)
Lemma new_related {T} (interp : eqn_data -> prim T) f j j' : traced j -> traced j' -> jaxpr_new f j j' ->
  exists P W : jvar -> jvar -> Prop,
    (forall u u' v v', P u u' -> W v v' -> (u = v <-> u' = v')) /\
    (forall u u', P u u' -> (exists n, u = Lit n /\ u' = Lit n) \/ ((forall n, u <> Lit n) /\ (forall n, u' <> Lit n))) /\
    Forall2 W (map jvar_of (jconst j) ++ map jvar_of (jins j)) (map jvar_of (jconst j') ++ map jvar_of (jins j')) /\
    Forall2 P (map jvar_of (jouts j)) (map jvar_of (jouts j')) /\
    Forall2 (op_sim P W) (map (program_op interp) (jeqns (with_data f j))) (map (program_op interp) (jeqns j')).
Proof.
  intros T0 T1 (Nc & Ni & No & Ne).
  set (Rd := fun a a' => In a (reads j) /\ In a' (reads j') /\ atom_new a a').
  set (Wr := fun a a' => In a (binders j) /\ In a' (binders j') /\ atom_new a a').
  set (P := fun u u' => exists a a', Rd a a' /\ u = jvar_of a /\ u' = jvar_of a').
  set (W := fun u u' => exists a a', Wr a a' /\ u = jvar_of a /\ u' = jvar_of a').
  assert (Sub1 : forall j a, In a (reads j) -> In a (jatoms j)).
  { intros k a Ha. unfold reads in Ha. rewrite in_app_iff, in_flat_map in Ha. apply jatoms_in. destruct Ha as [(e & He & Ha)|Ha]; auto.
    right. right. right. exists e. auto. }
  assert (Sub2 : forall j a, In a (binders j) -> In a (jatoms j)).
  { intros k a Ha. unfold binders in Ha. rewrite !in_app_iff, in_flat_map in Ha. apply jatoms_in. destruct Ha as [Ha|[Ha|(e & He & Ha)]]; auto.
    right. right. right. exists e. split; auto. }
  assert (PW : forall u u' v v', P u u' -> W v v' -> (u = v <-> u' = v')).
  { intros u u' v v' (a & a' & (Ra & Ra' & Na) & -> & ->) (b & b' & (Wb & Wb' & Nb) & -> & ->).
    destruct (tr_bind j T0 b Wb) as (w & ->). destruct (tr_bind j' T1 b' Wb') as (w' & ->).
    destruct a as [v|i1 x1 b1], a' as [v'|i1' x1' b1']; simpl in Na; try tauto.
    - destruct Na as [Cv _], Nb as [Cw _]. assert (Nv := tr_read j T0 v Ra). assert (Nv' := tr_read j' T1 v' Ra').
      assert (Q := tr_count j T0 v w (Sub1 _ _ Ra) (Sub2 _ _ Wb)). assert (Q' := tr_count j' T1 v' w' (Sub1 _ _ Ra') (Sub2 _ _ Wb')).
      assert (Q1 := tr_id j T0 v w (Sub1 _ _ Ra) (Sub2 _ _ Wb)). assert (Q1' := tr_id j' T1 v' w' (Sub1 _ _ Ra') (Sub2 _ _ Wb')).
      simpl. rewrite (proj2 (Z.eqb_neq _ _) Nv), (proj2 (Z.eqb_neq _ _) Nv').
      destruct (Z.eqb_spec (vcount w) (-1)) as [D|D]; destruct (Z.eqb_spec (vcount w') (-1)) as [D'|D']; try congruence; split; intro E; try discriminate; injection E as E.
      + f_equal. apply Q1 in E. subst w. f_equal. apply Q'; congruence.
      + f_equal. apply Q1' in E. subst w'. f_equal. apply Q; congruence.
    - simpl. split; intro E; destruct Z.eqb; discriminate. }
  assert (MP : forall l l', Forall2 atom_new l l' -> (forall a, In a l -> In a (reads j)) -> (forall a, In a l' -> In a (reads j')) -> Forall2 P (map jvar_of l) (map jvar_of l')).
  { intros l l' F. induction F as [|a a' l l' Ha F IH]; intros H1 H2; simpl; constructor.
    - exists a, a'. split; [|auto]. split; [apply H1; now left|]. split; [apply H2; now left|exact Ha].
    - apply IH; intros b Hb; [apply H1|apply H2]; now right. }
  assert (MW : forall l l', Forall2 atom_new l l' -> (forall a, In a l -> In a (binders j)) -> (forall a, In a l' -> In a (binders j')) -> Forall2 W (map jvar_of l) (map jvar_of l')).
  { intros l l' F. induction F as [|a a' l l' Ha F IH]; intros H1 H2; simpl; constructor.
    - exists a, a'. split; [|auto]. split; [apply H1; now left|]. split; [apply H2; now left|exact Ha].
    - apply IH; intros b Hb; [apply H1|apply H2]; now right. }
  exists P, W. split; [exact PW|]. split.
  { intros u u' (a & a' & (_ & _ & Na) & -> & ->). destruct a as [v|i1 x1 b1], a' as [v'|i1' x1' b1']; simpl in Na; try tauto.
    - right. split; intro n; unfold jvar_of; [destruct (vcount v =? -1)%Z|destruct (vcount v' =? -1)%Z]; discriminate.
    - destruct Na as [-> _]. left. eexists. split; reflexivity. }
  split; [apply Forall2_app; apply MW; auto; intros a Ha; unfold binders; rewrite !in_app_iff; auto|].
  split; [apply MP; auto; intros z Hz; unfold reads; rewrite in_app_iff; auto|].
  assert (Q : forall l l', Forall2 (eqn_new f) l l' -> (forall e, In e l -> In e (jeqns j)) -> (forall e, In e l' -> In e (jeqns j')) ->
      Forall2 (op_sim P W) (map (program_op interp) (map (eqn_with f) l)) (map (program_op interp) l')).
  { intros l l' F. induction F as [|e e' l l' (H1 & H2 & H3) F IH]; intros Hl Hl'; simpl; constructor.
    - assert (He := Hl e (or_introl eq_refl)). assert (He' := Hl' e' (or_introl eq_refl)).
      destruct e as [p q a b], e' as [p' q' a' b']. simpl in H1, H2, H3. split; [|split].
      + apply MP; auto; intros z Hz; unfold reads; rewrite in_app_iff, in_flat_map; left; [exists (Eqn p q a b)|exists (Eqn p' q' a' b')]; auto.
      + apply MW; auto; intros z Hz; unfold binders; rewrite !in_app_iff, in_flat_map; right; right; [exists (Eqn p q a b)|exists (Eqn p' q' a' b')]; auto.
      + simpl. rewrite H1. destruct (f (Eqn p q a b)); reflexivity.
    - apply IH; intros z Hz; [apply Hl|apply Hl']; now right. }
  apply Q; auto.
Qed.

Lemma agree_lits {X} (P : jvar -> jvar -> Prop) (g : nat -> X) :
  (forall u u', P u u' -> (exists n, u = Lit n /\ u' = Lit n) \/ ((forall n, u <> Lit n) /\ (forall n, u' <> Lit n))) ->
  agree P (fun v => match v with Lit n => Some (g n) | _ => None end) (fun v => match v with Lit n => Some (g n) | _ => None end).
Proof.
  intros H u u' Hu. destruct (H u u' Hu) as [(n & -> & ->)|[A B]]; [reflexivity|].
  destruct u as [?|n|]; [|destruct (A n eq_refl)|]; destruct u' as [?|n'|]; try reflexivity; destruct (B n' eq_refl).
Qed.

Lemma meaning_renamed {T} {N : Num T} (sc : scalars T) interp litv f j j' consts x ys :
  traced j -> traced j' -> jaxpr_new f j j' ->
  meaning sc (program_of interp litv (with_data f j)) consts x = Some ys ->
  meaning sc (program_of interp litv j') consts x = Some ys.
Proof.
  intros T0 T1 HN H. destruct (new_related interp f j j' T0 T1 HN) as (P & W & PW & PL & FW & FP & FO).
  unfold meaning, run_graph in *. cbn [closed_graph program_of p_graph p_lits gins gouts gops gdata with_data jconst jins jouts] in *.
  assert (A0 := agree_lits P (fun n => litv (lit_decode n)) PL).
  destruct (assign jvar_eqb (lit_value (fun n => litv (lit_decode n))) (map jvar_of (jconst j) ++ map jvar_of (jins j)) (consts ++ [x])) as [r|] eqn:E; [|discriminate].
  destruct (assign_sim P W PW _ _ FW _ _ (lit_value (fun n => litv (lit_decode n))) r A0 E) as (r' & -> & A1).
  match type of H with context [run ?s _ r ?l] => destruct (run s jvar_eqb r l) as [r1|] eqn:E1; [|discriminate] end.
  destruct (run_sim P W PW _ _ _ FO r r' r1 A1 E1) as (r1' & -> & A2).
  rewrite <- (lookups_sim P r1 r1' _ _ A2 FP). exact H.
Qed.

Lemma supported_renamed {T} {N : Num T} (sc : scalars T) X D interp litv f j j' consts x :
  traced j -> traced j' -> jaxpr_new f j j' ->
  supported sc X D (program_of interp litv (with_data f j)) consts x ->
  supported sc X D (program_of interp litv j') consts x.
Proof.
  intros T0 T1 HN (H1 & H2 & H3 & r & k & k' & H4 & H5 & H6). destruct (new_related interp f j j' T0 T1 HN) as (P & W & PW & PL & FW & FP & FO).
  split; [exact H1|]. split; [exact H2|]. split; [exact H3|].
  cbn [program_of p_graph p_lits gins gouts gops gdata with_data jconst jins jouts] in *.
  assert (A0 := agree_lits P (fun n => litv (lit_decode n)) PL). assert (B0 := agree_lits P (fun n => KConst) PL).
  destruct (assign_sim P W PW _ _ FW _ _ (lit_value (fun n => litv (lit_decode n))) r A0 H4) as (r' & E' & A1).
  destruct (assign_sim P W PW _ _ FW _ _ _ k B0 H5) as (k1 & E1 & B1).
  destruct (analyse_sim P W PW sc X D _ _ FO r r' k k1 k' A1 B1 H6) as (k1' & E2). eauto 7.
Qed.

(** Changing the data of equations to data computing (at least) the same. *)
Lemma run_weaken {X D} (sem : D -> list X -> option (list X)) l l' :
  Forall2 (fun o o' : op jvar D => oins o' = oins o /\ oouts o' = oouts o /\
     forall args ys, length args = length (oins o) -> sem (odata o) args = Some ys -> sem (odata o') args = Some ys) l l' ->
  forall r r1, run sem jvar_eqb r l = Some r1 -> run sem jvar_eqb r l' = Some r1.
Proof.
  induction 1 as [|o o' l l' (H1 & H2 & H3) F IH]; intros r r1 E; simpl in *; [exact E|].
  unfold run_op in *. rewrite H1, H2. destruct (lookups r (oins o)) as [args|] eqn:L; [|discriminate].
  destruct (sem (odata o) args) as [vals|] eqn:S; [|discriminate]. rewrite (H3 args vals (lookups_length _ _ _ L) S).
  destruct (assign jvar_eqb r (oouts o) vals) as [r2|]; [|discriminate]. auto.
Qed.
Lemma meaning_weaken {T} {N : Num T} (sc : scalars T) interp litv f j consts x ys :
  (forall e args vs, In e (jeqns j) -> length args = length (eqn_reads e) ->
     prim_bind sc (interp (edata e)) args = Ok vs -> prim_bind sc (interp (f e)) args = Ok vs) ->
  meaning sc (program_of interp litv j) consts x = Some ys ->
  meaning sc (program_of interp litv (with_data f j)) consts x = Some ys.
Proof.
  intros Hf H. unfold meaning, run_graph in *. cbn [closed_graph program_of p_graph p_lits gins gouts gops gdata with_data jconst jins jouts jeqns] in *.
  destruct (assign jvar_eqb _ _ _) as [r|]; [|discriminate].
  match type of H with context [run ?s _ r ?l] => destruct (run s jvar_eqb r l) as [r1|] eqn:E1; [|discriminate] end.
  erewrite run_weaken; [exact H| |exact E1].
  assert (G : forall l, (forall e, In e l -> In e (jeqns j)) -> Forall2 (fun o o' : op jvar (prim T) => oins o' = oins o /\ oouts o' = oouts o /\
     forall args ys, length args = length (oins o) -> ok_opt (prim_bind sc (odata o) args) = Some ys -> ok_opt (prim_bind sc (odata o') args) = Some ys)
     (map (program_op interp) l) (map (program_op interp) (map (eqn_with f) l))).
  { induction l as [|[p q a b] l IH]; intro Hl; constructor.
    - split; [reflexivity|]. split; [reflexivity|]. simpl. intros args vs L S. rewrite map_length in L.
      destruct (prim_bind sc (interp (EqnData p q)) args) as [vs'|] eqn:B; [|discriminate]. injection S as ->.
      assert (Q := Hf (Eqn p q a b) args vs (Hl _ (or_introl eq_refl)) L B).
      destruct (f (Eqn p q a b)); simpl. rewrite Q. reflexivity.
    - apply IH. intros e He. apply Hl. now right. }
  apply G. auto.
Qed.

(** ** The program handed to the interpreter computes what the Jaxpr computes *)
Lemma run_map_data {V D D' X} (h : D -> D') (sem : D' -> list X -> option (list X)) (veqb : V -> V -> bool) l : forall r,
  run sem veqb r (map (fun o => Op (h (odata o)) (oins o) (oouts o)) l) = run (fun d => sem (h d)) veqb r l.
Proof. induction l as [|o l IH]; intro r; [reflexivity|]. simpl. unfold run_op. simpl. destruct (lookups r (oins o)) as [args|]; [|reflexivity]. destruct (sem (h (odata o)) args) as [vs|]; [|reflexivity]. destruct (assign veqb r (oouts o) vs); auto. Qed.

(** The meaning of an equation: the primitive it binds. *)
Definition eqn_sem {T} {N : Num T} (sc : scalars T) (interp : eqn_data -> prim T) (d : eqn_data) (args : list (tensor T)) : option (list (tensor T)) :=
  ok_opt (prim_bind sc (interp d) args).
Lemma eval_meaning {T} {N : Num T} (sc : scalars T) interp litv j consts x : traced j ->
  eval_jaxpr (eqn_sem sc interp) litv j (consts ++ [x]) = meaning sc (program_of interp litv j) consts x.
Proof.
  intro TJ. unfold eval_jaxpr, meaning.
  set (jop := fun e => Op (edata e) (map jvar_of (eqn_reads e)) (map jvar_of (eqn_writes e))).
  transitivity (run_graph (eqn_sem sc interp) (lit_value (fun n => litv (lit_decode n))) jvar_eqb
                  (Graph unit (map jvar_of (jconst j ++ jins j)) (map jvar_of (jouts j)) (map jop (jeqns j)) tt) (consts ++ [x])).
  - set (P := fun a u => In a (reads j) /\ u = jvar_of a). set (W := fun a u => In a (binders j) /\ u = jvar_of a).
    assert (M : forall (Q : atom -> Prop) l, (forall a, In a l -> Q a) -> Forall2 (fun a u => Q a /\ u = jvar_of a) l (map jvar_of l)).
    { intros Q l. induction l as [|a l IH]; intro H; constructor; [split; [apply H; now left|reflexivity]|].
      apply IH. intros b Hb. apply H. now right. }
    apply (graph_sim2 atom_eqb jvar_eqb atom_eqb_spec jvar_eqb_refl_spec P W (eqn_sem sc interp)).
    + intros u u' v v' [Hu ->] [Hv ->]. destruct (tr_bind j TJ v Hv) as (w & ->). split; [congruence|]. intro E.
      destruct u as [z|]; simpl in E; [|destruct Z.eqb; discriminate]. assert (Nz := tr_read j TJ z Hu).
      rewrite (proj2 (Z.eqb_neq _ _) Nz) in E. destruct (vcount w =? -1)%Z; [discriminate|]. injection E as E. f_equal.
      apply (tr_id j TJ); auto using reads_jatoms, binders_jatoms.
    + intros u u' [_ ->]. destruct u as [v|i z a]; simpl; [destruct Z.eqb; reflexivity|]. rewrite lit_decode_code. reflexivity.
    + simpl. apply M. intros a Ha. rewrite binders_in. apply in_app_iff in Ha. tauto.
    + simpl. apply M. intros a Ha. unfold reads. rewrite in_app_iff. auto.
    + simpl. assert (Q : forall l, (forall e, In e l -> In e (jeqns j)) -> Forall2 (op_sim2 P W) (map eqn_op l) (map jop l)).
      { induction l as [|e l IH]; intro H; constructor.
        - assert (He := H e (or_introl eq_refl)). split; [|split; [|reflexivity]]; apply M; intros a Ha; eauto using eqn_read_in, eqn_write_in.
        - apply IH. intros b Hb. apply H. now right. }
      apply Q. auto.
  - unfold run_graph. cbn [closed_graph program_of p_graph p_lits gins gouts gops gdata]. rewrite map_app.
    destruct (assign jvar_eqb _ _ _) as [r|]; [|reflexivity].
    replace (map (program_op interp) (jeqns j)) with (map (fun o => Op (interp (odata o)) (oins o) (oouts o)) (map jop (jeqns j)))
      by (rewrite map_map; apply map_ext; intros [p q a b]; reflexivity).
    rewrite run_map_data. reflexivity.
Qed.

(** * C55: bounding the rewritten Jaxpr bounds the original function *)
Lemma recall_same {T} {N : Num T} (sc : scalars T) interp ds :
  (forall d d' p q, In (d, d') ds -> eqn_data_eqb d (EqnData p q) = true -> same_unary sc (interp (EqnData p q)) (interp d')) ->
  forall e args vs, length args = length (eqn_reads e) ->
    prim_bind sc (interp (edata e)) args = Ok vs -> prim_bind sc (interp (recall ds e)) args = Ok vs.
Proof.
  induction ds as [|[d d'] ds IH]; intros Hs e args vs L H; [exact H|]. destruct e as [p q a b]. cbn [recall].
  assert (Hs' : forall d d' p q, In (d, d') ds -> eqn_data_eqb d (EqnData p q) = true -> same_unary sc (interp (EqnData p q)) (interp d'))
    by (intros; eapply Hs; [right; eassumption|assumption]).
  destruct (is_call d (Eqn p q a b)) eqn:C; [|apply IH; auto].
  unfold is_call in C. destruct a as [|[u|? ? ?] [|? ?]]; try discriminate. destruct b as [|[w|? ? ?] [|? ?]]; try discriminate.
  destruct args as [|t [|? ?]]; try discriminate. apply IH; auto. simpl edata.
  destruct d' as [p' q']. exact (Hs d (EqnData p' q') p q (or_introl eq_refl) C t vs H).
Qed.

Lemma new_ops {T} (interp : eqn_data -> prim T) litv (Q : prim T -> Prop) f j j' : jaxpr_new f j j' ->
  (forall e, In e (jeqns j) -> Q (interp (f e))) ->
  forall o, In o (gops (p_graph (program_of interp litv j'))) -> Q (odata o).
Proof.
  intros (_ & _ & _ & Ne) H o Ho. simpl in Ho. apply in_map_iff in Ho. destruct Ho as (e' & <- & He').
  revert H He'. induction Ne as [|e e1 l l1 (E & _) F IH]; intros H He'; simpl in *; [tauto|].
  destruct He' as [->|He']; [|apply IH; auto]. destruct e' as [p q a b]. simpl in *. rewrite E. auto.
Qed.

Lemma jaxpr_bounds interp litv sc gs fuel next rs ds j consts max_deg propagate x0 region b :
  call_rules rs ds -> traced j ->
  bound_jaxpr interp litv sc gs fuel next rs j consts max_deg propagate x0 region = Some (Ok b) ->
  exists j', jaxpr_new (recall ds) j j' /\ traced j' /\
    taylor_bounds sc gs (program_of interp litv j') consts max_deg propagate x0 region = Ok b.
Proof.
  intros HR HT H. unfold bound_jaxpr in H. destruct (max_deg <? 0)%Z; [discriminate|].
  destruct (rewrite_jaxpr fuel next rs j) as [[j'|]|] eqn:E; try discriminate. injection H as H.
  destruct (rewrite_new _ _ _ _ HR j j' HT E). eauto.
Qed.

Theorem C55_rewritten_bounds_sound : forall interp litv sc gs fuel next rs ds j consts max_deg propagate x0 region x y b,
  call_rules rs ds -> traced j ->
  (forall d d' p q, In (d, d') ds -> data_rel d (EqnData p q) -> same_unary sc (interp (EqnData p q)) (interp d')) ->
  valid_generators sc gs -> (forall e, In e (jeqns j) -> opaque_ok (interp (recall ds e))) ->
  in_box x0 region x0 -> in_box x0 region x ->
  supported sc (tshape x0) (Z.to_nat max_deg) (program_of interp litv (with_data (recall ds) j)) consts x ->
  bound_jaxpr interp litv sc gs fuel next rs j consts max_deg propagate x0 region = Some (Ok b) ->
  eval_jaxpr (eqn_sem sc interp) litv j (consts ++ [x]) = Some [y] ->
  bounds_at b x y.
Proof.
  intros interp litv sc gs fuel next rs ds j consts max_deg propagate x0 region x y b HR HT HS0 HG HO B0 B Hs H HM.
  rewrite eval_meaning in HM by exact HT.
  assert (HS : forall d d' p q, In (d, d') ds -> eqn_data_eqb d (EqnData p q) = true -> same_unary sc (interp (EqnData p q)) (interp d'))
    by (intros d d' p q Hi Q; apply (HS0 d d' p q Hi); now apply eqn_data_eqb_iff).
  destruct (jaxpr_bounds _ _ _ _ _ _ _ _ _ _ _ _ _ _ _ HR HT H) as (j' & HN & HT' & Hb).
  assert (HM' : meaning sc (program_of interp litv j') consts x = Some [y]).
  { apply (meaning_renamed sc interp litv (recall ds) j j'); auto. apply meaning_weaken; auto.
    intros e args vs _ L E. apply recall_same; auto. }
  assert (Hs' := supported_renamed sc _ _ interp litv _ j j' consts x HT HT' HN Hs).
  assert (HO' := new_ops interp litv opaque_ok _ j j' HN HO).
  assert (X : exists y, meaning sc (program_of interp litv j') consts x = Some [y] /\ bounds_at b x y).
  { destruct propagate; [eapply C47_propagation_sound|eapply C46_taylor_bounds_sound]; eauto. }
  destruct X as (y' & E & HB). rewrite HM' in E. injection E as <-. exact HB.
Qed.

(** With the enclosures and functions of the library. *)
Theorem C55_registered_functions_sound : forall interp litv usr ugen fuel next rs ds j consts max_deg propagate x0 region x y b,
  call_rules rs ds -> traced j ->
  (forall d d' p q, In (d, d') ds -> data_rel d (EqnData p q) ->
     same_unary (scalarsR usr) (interp (EqnData p q)) (interp d')) ->
  (forall n, valid_gen (ugen n) (usr n)) -> (forall e, In e (jeqns j) -> opaque_ok (interp (recall ds e))) ->
  in_box x0 region x0 -> in_box x0 region x ->
  supported (scalarsR usr) (tshape x0) (Z.to_nat max_deg) (program_of interp litv (with_data (recall ds) j)) consts x ->
  bound_jaxpr interp litv (scalarsR usr) (checked_generators ugen) fuel next rs j consts max_deg propagate x0 region = Some (Ok b) ->
  eval_jaxpr (eqn_sem (scalarsR usr) interp) litv j (consts ++ [x]) = Some [y] ->
  bound_jaxpr interp litv (scalarsR usr) (generatorsR ugen) fuel next rs j consts max_deg propagate x0 region = Some (Ok b) /\
  bounds_at b x y.
Proof.
  intros interp litv usr ugen fuel next rs ds j consts max_deg propagate x0 region x y b HR HT HS HU HO B0 B Hs H HM. split.
  - unfold bound_jaxpr in *. destruct (max_deg <? 0)%Z; [discriminate|].
    destruct (rewrite_jaxpr fuel next rs j) as [[j'|]|]; try discriminate. injection H as H. f_equal.
    exact (taylor_bounds_le _ _ _ (checked_generators_le ugen) _ _ _ _ _ _ _ H).
  - exact (C55_rewritten_bounds_sound interp litv _ _ fuel next rs ds j consts max_deg propagate x0 region x y b HR HT HS (checked_valid usr ugen HU) HO B0 B Hs H HM).
Qed.

(** * C56: rewriting changes exactly the calls of the registered functions *)
(** What the comparison calls a call of [d]: one variable in, one variable out,
    the same primitive and equal parameters. *)
Theorem C56_calls_are_calls : forall d e,
  is_call d e = true <-> exists p q a b, e = Eqn p q [AVar a] [AVar b] /\ data_rel d (EqnData p q).
Proof.
  intros d [p q a b]. split.
  - intro H. unfold is_call in H. destruct a as [|[u|? ? ?] [|? ?]]; try discriminate. destruct b as [|[w|? ? ?] [|? ?]]; try discriminate.
    exists p, q, u, w. split; [reflexivity|]. now apply eqn_data_eqb_iff.
  - intros (p' & q' & u & w & E & H). injection E as -> -> -> ->. simpl. now apply eqn_data_eqb_iff.
Qed.
Theorem C56_rewriting_changes_exactly_calls : forall fuel next rs ds j,
  call_rules rs ds -> traced j -> length (jeqns j) < fuel ->
  exists j', rewrite_jaxpr fuel next rs j = Some (Ok j') /\ jaxpr_new (recall ds) j j' /\ traced j'.
Proof.
  intros fuel next rs ds j HR HT L. destruct (rewrite_terminates next rs ds HR j fuel L) as (j' & E).
  exists j'. split; [exact E|]. exact (rewrite_new _ _ _ _ HR j j' HT E).
Qed.

Lemma recall_not ds : (forall d d' e e', In (d, d') ds -> In (e, e') ds -> eqn_data_eqb e d' = false) ->
  forall l, incl l ds -> forall e, 
    (exists d d', In (d, d') ds /\ recall l e = d') \/ (recall l e = edata e /\ forall d d', In (d, d') l -> is_call d e = false).
Proof.
  intros HN l. induction l as [|[d d'] l IH]; intros I e; [right; split; [reflexivity|intros ? ? []]|].
  destruct e as [p q a b]. cbn [recall]. assert (I' : incl l ds) by (intros z Hz; apply I; now right).
  destruct (is_call d (Eqn p q a b)) eqn:C.
  - destruct (IH I' (Eqn (eprim d') (eparams d') a b)) as [X|[X _]]; [auto|]. left. exists d, d'. split; [apply I; now left|]. rewrite X. destruct d'; reflexivity.
  - destruct (IH I' (Eqn p q a b)) as [X|[X Y]]; [auto|]. right. split; [exact X|]. intros e e' [E|Hin]; [injection E as <- <-; exact C|eauto].
Qed.

(** No call of a registered function is left (if no replacement is itself such a
    call), so rewriting again changes nothing. *)
Theorem C56_no_call_left : forall fuel next rs ds j j',
  call_rules rs ds -> traced j -> rewrite_jaxpr fuel next rs j = Some (Ok j') ->
  (forall d d' e e', In (d, d') ds -> In (e, e') ds -> ~ data_rel e d') ->
  (forall d d' e', In (d, d') ds -> In e' (jeqns j') -> is_call d e' = false) /\
  forall fuel next j'', rewrite_jaxpr fuel next rs j' = Some (Ok j'') -> jaxpr_new edata j' j''.
Proof.
  intros fuel next rs ds j j' HR HT E HN0.
  assert (HN : forall d d' e e', In (d, d') ds -> In (e, e') ds -> eqn_data_eqb e d' = false).
  { intros d d' e e' H1 H2. destruct (eqn_data_eqb e d') eqn:Q; [|reflexivity]. apply eqn_data_eqb_iff in Q. destruct (HN0 d d' e e' H1 H2 Q). }
  destruct (rewrite_new _ _ _ _ HR j j' HT E) as [(_ & _ & _ & Ne) HT'].
  assert (A : forall d d' e', In (d, d') ds -> In e' (jeqns j') -> is_call d e' = false).
  { intros d d' e' Hd He'. assert (X : exists e, eqn_new (recall ds) e e').
    { clear -Ne He'. induction Ne as [|e e1 l l1 H F IH]; simpl in He'; [tauto|]. destruct He' as [<-|He']; eauto. }
    destruct X as (e & E1 & F1 & F2).
    destruct (recall_not ds HN ds (fun z H => H) e) as [(f & f' & Hf & Ef)|[Ef Hn]].
    - unfold is_call. destruct e' as [p q a b]. destruct a as [|[?|? ? ?] [|? ?]]; try reflexivity. destruct b as [|[?|? ? ?] [|? ?]]; try reflexivity.
      simpl in E1. rewrite E1, Ef. exact (HN f f' d d' Hf Hd).
    - rewrite (is_call_new d e e'); [eauto|congruence|exact F1|exact F2]. }
  split; [exact A|]. intros fuel' next' j'' E''. destruct (rewrite_new _ _ _ _ HR j' j'' HT' E'') as [(Nc & Ni & No & Ne') _].
  split; [exact Nc|]. split; [exact Ni|]. split; [exact No|].
  assert (B : forall e', In e' (jeqns j') -> recall ds e' = edata e').
  { intros e' He'. destruct (recall_not ds HN ds (fun z H => H) e') as [(f & f' & Hf & Ef)|[Ef _]]; [|exact Ef].
    clear -A He' HN. assert (I : incl ds ds) by (intros z Hz; exact Hz). revert I. generalize ds at 1 3 as l. 
    induction l as [|[d d'] l IH]; intro I; [reflexivity|]. destruct e' as [p q a b]. cbn [recall].
    rewrite (A d d' (Eqn p q a b) (I _ (or_introl eq_refl)) He'). apply IH. intros z Hz. apply I. now right. }
  clear -B Ne'. induction Ne' as [|e e1 l l1 (H1 & H2) F IH]; constructor.
  - split; [|exact H2]. rewrite H1. apply B. now left.
  - apply IH. intros z Hz. apply B. now right.
Qed.

(** * C57: the registry *)
Section Registry.
Context {G : Type}.
Implicit Types r : registry G.
Theorem C57_function_registered_once : forall r name pattern a b (g : G),
  (In name (prim_names r) -> register_elementwise_function r name pattern a b g = Err ValueError) /\
  (~ In name (prim_names r) -> exists r', register_elementwise_function r name pattern a b g = Ok r' /\ In name (prim_names r')).
Proof.
  intros r name pattern a b g. unfold register_elementwise_function. split; intro H.
  - rewrite (proj2 (existsb_exists _ _)); [reflexivity|]. exists name. split; [exact H|apply Nat.eqb_refl].
  - destruct (existsb (Nat.eqb name) (prim_names r)) eqn:E.
    + apply existsb_exists in E. destruct E as (n & Hn & E). apply Nat.eqb_eq in E. subst n. tauto.
    + eexists. split; [reflexivity|]. simpl. now left.
Qed.

Lemma dict_get_set d k (v : G) k' : dict_get (dict_set d k v) k' = if k =? k' then Some v else dict_get d k'.
Proof.
  induction d as [|[k1 v1] d IH]; simpl; [reflexivity|]. destruct (Nat.eqb_spec k1 k) as [->|N]; simpl; [destruct (k =? k'); reflexivity|].
  destruct (Nat.eqb_spec k1 k') as [->|N']; [rewrite (proj2 (Nat.eqb_neq k k')) by congruence; reflexivity|exact IH].
Qed.
Lemma do_calls_grow (cs : list (reg_call G)) : forall r, (exists rs, rewrite_rules (do_calls r cs) = rewrite_rules r ++ rs) /\
  incl (prim_names r) (prim_names (do_calls r cs)) /\ next_prim r <= next_prim (do_calls r cs) /\
  (forall p, p < next_prim r -> (forall c, In c cs -> leaves p c) -> dict_get (enclosures (do_calls r cs)) p = dict_get (enclosures r) p).
Proof.
  induction cs as [|c cs IH]; intro r; simpl.
  - split; [exists []; now rewrite app_nil_r|]. split; [apply incl_refl|]. split; [lia|]. auto.
  - destruct (IH (do_call r c)) as ((rs & H1) & H2 & H3 & H4). fold (do_calls (do_call r c) cs).
    assert (X : (exists rs, rewrite_rules (do_call r c) = rewrite_rules r ++ rs) /\ incl (prim_names r) (prim_names (do_call r c)) /\
      next_prim r <= next_prim (do_call r c) /\ forall p, p < next_prim r -> leaves p c -> dict_get (enclosures (do_call r c)) p = dict_get (enclosures r) p).
    { destruct c as [name pattern a b g|p g]; simpl.
      - unfold register_elementwise_function. destruct existsb; simpl.
        + split; [exists []; now rewrite app_nil_r|]. split; [apply incl_refl|]. split; [lia|]. auto.
        + split; [eauto|]. split; [apply incl_tl, incl_refl|]. split; [lia|]. intros p Hp _. rewrite dict_get_set, (proj2 (Nat.eqb_neq _ _)) by lia. reflexivity.
      - split; [exists []; now rewrite app_nil_r|]. split; [apply incl_refl|]. split; [lia|]. intros p' Hp Hl. rewrite dict_get_set, (proj2 (Nat.eqb_neq _ _)) by auto. reflexivity. }
    destruct X as ((rs' & X1) & X2 & X3 & X4). split; [exists (rs' ++ rs); rewrite H1, X1, app_assoc; reflexivity|].
    split; [eapply incl_tran; eauto|]. split; [lia|]. intros p Hp Hl. rewrite H4, X4; auto; lia.
Qed.

(** After any history: rules stay in the order of registration; a function that
    was registered successfully stays rewritten to its own primitive, whose
    enclosure is the registered one unless the primitive is registered again;
    the last registration of a primitive wins. *)
Theorem C57_registered_function_is_used : forall r cs1 name pattern a b (g : G) cs2,
  let r1 := do_calls r cs1 in
  let p := next_prim r1 in
  let r2 := do_calls r (cs1 ++ RegFunction name pattern a b g :: cs2) in
  ~ In name (prim_names r1) ->
  (exists rs, rewrite_rules r2 = rewrite_rules r1 ++ Rule pattern (call_jaxpr p [] a b) :: rs) /\
  In name (prim_names r2) /\
  ((forall c, In c cs2 -> leaves p c) -> dict_get (enclosures r2) p = Some g).
Proof.
  intros r cs1 name pattern a b g cs2 r1 p r2 Hn. unfold r2, do_calls. rewrite fold_left_app. cbn [fold_left]. fold (do_calls r cs1). fold r1.
  set (r1' := do_call r1 (RegFunction name pattern a b g)). fold (do_calls r1' cs2).
  destruct (do_calls_grow cs2 r1') as ((rs & H1) & H2 & H3 & H4).
  assert (E : register_elementwise_function r1 name pattern a b g = Ok (register_elementwise_primitive
    (Registry (name :: prim_names r1) (rewrite_rules r1 ++ [Rule pattern (call_jaxpr p [] a b)]) (enclosures r1) (S p)) p g)).
  { unfold register_elementwise_function. destruct (existsb (Nat.eqb name) (prim_names r1)) eqn:X; [|reflexivity].
    apply existsb_exists in X. destruct X as (n & Hn' & X). apply Nat.eqb_eq in X. subst n. tauto. }
  assert (E1 : r1' = register_elementwise_primitive
    (Registry (name :: prim_names r1) (rewrite_rules r1 ++ [Rule pattern (call_jaxpr p [] a b)]) (enclosures r1) (S p)) p g).
  { unfold r1'. simpl. rewrite E. reflexivity. }
  split; [|split].
  - exists rs. rewrite H1, E1. simpl. rewrite <- app_assoc. reflexivity.
  - apply H2. rewrite E1. now left.
  - intro Hl. rewrite H4; [| rewrite E1; simpl; lia|exact Hl]. rewrite E1. simpl. rewrite dict_get_set, Nat.eqb_refl. reflexivity.
Qed.
Theorem C57_last_registration_wins : forall r cs1 p (g : G) cs2,
  p < next_prim (do_calls r cs1) -> (forall c, In c cs2 -> leaves p c) ->
  dict_get (enclosures (do_calls r (cs1 ++ RegPrimitive p g :: cs2))) p = Some g.
Proof.
  intros r cs1 p g cs2 Hp Hl. unfold do_calls. rewrite fold_left_app. cbn [fold_left do_call]. fold (do_calls r cs1).
  match goal with |- context [fold_left do_call cs2 ?r'] => fold (do_calls r' cs2); destruct (do_calls_grow cs2 r') as (_ & _ & _ & H4) end.
  rewrite H4; [|exact Hp|exact Hl]. simpl. rewrite dict_get_set, Nat.eqb_refl. reflexivity.
Qed.
End Registry.

(** * C58: a rewritten call of a constant *)
(** The primitives introduced by rewriting have no evaluation rule: when the
    operand of such a call does not depend on x, the bounds cannot be computed.
    [pre] are the equations before the call, [d] their enclosures. *)
Theorem C58_constant_argument_raises : forall sc gs ins outs data lits consts pre f u os post max_deg propagate x0 region d i,
  In f [Sigmoid; Softplus; Swish] ->
  interpret sc gs (prog ins outs data lits pre) consts max_deg propagate x0 region = Ok d ->
  get_intermediate lits d u = Ok i -> is_constant i = true ->
  taylor_bounds sc gs (prog ins outs data lits (pre ++ Op (elementwise_p f) [u] os :: post)) consts max_deg propagate x0 region
    = Err NotImplementedError.
Proof.
  intros sc gs ins outs data lits consts pre f u os post max_deg propagate x0 region d i Hf H Hu Hi.
  destruct (interpret_split sc gs ins outs data lits consts pre (Op (elementwise_p f) [u] os :: post) _ _ _ _ _ H) as (tr & _ & _ & E). cbv zeta in E.
  unfold taylor_bounds. rewrite E. cbn [foldM]. unfold step at 1. cbn [oins odata oouts mapM]. rewrite Hu. cbn [bind existsb].
  rewrite Hi. cbn [negb orb mapM]. unfold constant_value. unfold is_constant in Hi.
  destruct (i_enc i) as [|[v|] [|? ?]]; try discriminate. cbn [bind mapM].
  destruct Hf as [<-|[<-|[<-|[]]]]; reflexivity.
Qed.
