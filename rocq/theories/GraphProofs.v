(** Proofs about the graph editor. *)
From Verif Require Import Base GraphEditor GraphSpec.

Section Proofs.
Context {V D : Type} (veqb : V -> V -> bool) (deqb : D -> D -> bool).
Hypothesis veqb_spec : forall u v, reflect (u = v) (veqb u v).

Notation vlookup := (vlookup veqb).
Notation vset := (vset veqb).
Notation vget := (vget veqb).
Notation bind_pairs := (bind_pairs veqb).
Notation match_loop := (match_loop veqb deqb).
Notation gmatch := (gmatch veqb deqb).

Lemma vlookup_In (m : vmap V) u v : vlookup m u = Some v -> In u (map fst m).
Proof.
  induction m as [|[a b] m IH]; simpl; [discriminate|].
  destruct (veqb_spec a u); [left; assumption | right; auto].
Qed.

Lemma vlookup_None (m : vmap V) u : vlookup m u = None -> ~ In u (map fst m).
Proof.
  induction m as [|[a b] m IH]; simpl; [tauto|].
  destruct (veqb_spec a u); [discriminate|]. intros H [E|E]; [congruence|]. now apply IH.
Qed.

Lemma vset_fresh (m : vmap V) u v : vlookup m u = None -> vset m u v = m ++ [(u, v)].
Proof.
  induction m as [|[a b] m IH]; simpl; [reflexivity|].
  destruct (veqb_spec a u); [discriminate|]. intro H. now rewrite IH.
Qed.

Lemma vlookup_vset (m : vmap V) u v w :
  vlookup (vset m u v) w = if veqb u w then Some v else vlookup m w.
Proof.
  induction m as [|[a b] m IH]; simpl.
  - reflexivity.
  - destruct (veqb_spec a u) as [->|N]; simpl.
    + destruct (veqb_spec u w); reflexivity.
    + rewrite IH. destruct (veqb_spec a w) as [->|]; [|reflexivity].
      destruct (veqb_spec u w) as [->|]; [congruence|reflexivity].
Qed.

Lemma nodup_vset (m : vmap V) u v :
  vlookup m u = None -> NoDup (map fst m) -> NoDup (map fst (vset m u v)).
Proof.
  intros H N. rewrite vset_fresh by assumption. rewrite map_app. simpl.
  apply NoDup_rev in N. rewrite <- (rev_involutive (map fst m ++ [u])).
  apply NoDup_rev. rewrite rev_app_distr. simpl. constructor; [|assumption].
  rewrite <- in_rev. now apply vlookup_None.
Qed.

Lemma bind_pairs_sound cb l : forall m m', NoDup (map fst m) ->
  bind_pairs cb m l = Some m' ->
  NoDup (map fst m') /\
  (forall u v, vlookup m u = Some v -> vlookup m' u = Some v) /\
  (forall u v, In (u, v) l -> vlookup m' u = Some v) /\
  (forall u, In u (map fst m') <-> In u (map fst m) \/ In u (map fst l)) /\
  (forall u v, vlookup m' u = Some v -> vlookup m u = Some v \/ cb u v = true).
Proof.
  induction l as [|[u v] l IH]; simpl; intros m m' N H.
  - injection H as <-. repeat split; auto; try tauto.
  - destruct (vlookup m u) as [w|] eqn:E.
    + destruct (veqb_spec w v) as [->|]; [|discriminate].
      destruct (IH _ _ N H) as (A & B & C & K & F). repeat split; auto.
      * intros u' v' [Q|Q]; [injection Q as <- <-; auto | auto].
      * intro Q. apply K in Q. tauto.
      * intros [Q|[<-|Q]]; apply K; auto. left. now apply vlookup_In with v.
    + destruct (cb u v) eqn:Ec; [|discriminate].
      destruct (IH _ _ (nodup_vset _ _ v E N) H) as (A & B & C & K & F).
      repeat split; auto.
      * intros u' v' Q. apply B. rewrite vlookup_vset.
        destruct (veqb_spec u u') as [->|]; congruence.
      * intros u' v' [Q|Q]; [|auto]. injection Q as <- <-. apply B.
        rewrite vlookup_vset. destruct (veqb_spec u u); congruence.
      * intro Q. apply K in Q. rewrite vset_fresh, map_app in Q by assumption.
        rewrite in_app_iff in Q. simpl in Q. tauto.
      * intro Q. apply K. rewrite vset_fresh, map_app by assumption.
        rewrite in_app_iff. simpl. tauto.
      * intros u' v' Q. destruct (F _ _ Q) as [Q'|Q']; [|auto].
        rewrite vlookup_vset in Q'. destruct (veqb_spec u u') as [->|]; [|auto].
        injection Q' as <-. auto.
Qed.

Definition agrees (m : vmap V) (mu : V -> V) := forall u v, vlookup m u = Some v -> mu u = v.

Lemma bind_pairs_complete cb mu l : forall m, agrees m mu ->
  (forall u v, In (u, v) l -> mu u = v /\ cb u v = true) ->
  exists m', bind_pairs cb m l = Some m' /\ agrees m' mu.
Proof.
  induction l as [|[u v] l IH]; simpl; intros m A H; [eauto|].
  destruct (H u v (or_introl eq_refl)) as [E C].
  destruct (vlookup m u) as [w|] eqn:L.
  - rewrite <- (A _ _ L), E. destruct (veqb_spec v v); [|congruence]. apply IH; auto.
  - rewrite C. apply IH; [|auto]. intros u' v' Q. rewrite vlookup_vset in Q.
    destruct (veqb_spec u u') as [<-|]; [congruence | auto].
Qed.

Lemma in_combine_map {A B} (f : A -> B) (l : list A) u v :
  In (u, v) (combine l (map f l)) -> f u = v /\ In u l.
Proof.
  induction l as [|a l IH]; simpl; [tauto|].
  intros [H|H]; [injection H as <- <-; auto | destruct (IH H); auto].
Qed.

Lemma fst_combine {A B} (l : list A) (m : list B) :
  length l = length m -> map fst (combine l m) = l.
Proof.
  revert m; induction l as [|a l IH]; intros [|b m]; simpl; intro H; try discriminate; auto.
  f_equal. apply IH. congruence.
Qed.

Lemma map_lookup (m : vmap V) l l' : length l = length l' ->
  (forall u v, In (u, v) (combine l l') -> vlookup m u = Some v) ->
  map (vget m) l = l'.
Proof.
  revert l'; induction l as [|a l IH]; intros [|b l'] L H; simpl in *; try discriminate; auto.
  f_equal; [unfold GraphEditor.vget; now rewrite (H a b) by auto | apply IH; auto].
Qed.

Lemma match_loop_sound cb (p : list (op V D)) : forall s m m', length p = length s -> NoDup (map fst m) ->
  match_loop cb m (combine p s) = Some m' ->
  NoDup (map fst m') /\
  (forall u v, vlookup m u = Some v -> vlookup m' u = Some v) /\
  Forall2 (instance_of deqb (vget m')) p s /\
  (forall u, In u (map fst m') <-> In u (map fst m) \/ occurs p u) /\
  (forall u v, vlookup m' u = Some v -> vlookup m u = Some v \/ cb u v = true).
Proof.
  induction p as [|o p IH]; intros [|o' s] m m' L N H; simpl in *; try discriminate.
  - injection H as <-. repeat split; auto. intros [Q|(x & [] & _)]; auto.
  - destruct (negb _ || negb _) eqn:G; [discriminate|].
    apply orb_false_iff in G. destruct G as [G1 G2].
    apply negb_false_iff, Nat.eqb_eq in G1. apply negb_false_iff, Nat.eqb_eq in G2.
    destruct (deqb (odata o) (odata o')) eqn:Ed; simpl in H; [|discriminate].
    destruct (bind_pairs cb m _) as [m1|] eqn:B; [|discriminate].
    destruct (bind_pairs_sound _ _ _ _ N B) as (N1 & E1 & P1 & K1 & C1).
    injection L as L.
    destruct (IH _ _ _ L N1 H) as (N2 & E2 & P2 & K2 & C2).
    repeat split; auto.
    + constructor; [|assumption]. unfold instance_of. split; [assumption|]. split.
      * apply map_lookup; [assumption|]. intros u v Q. apply E2, P1, in_or_app; auto.
      * apply map_lookup; [assumption|]. intros u v Q. apply E2, P1, in_or_app; auto.
    + intro Q. apply K2 in Q. destruct Q as [Q|(x & Q1 & Q2)].
      * apply K1 in Q. destruct Q as [Q|Q]; [auto|]. right.
        rewrite map_app, !fst_combine in Q by assumption. exists o. split; [now left|exact Q].
      * right. exists x. split; [now right|exact Q2].
    + intro Q. apply K2. destruct Q as [Q|(x & [<-|Q1] & Q2)].
      * left. apply K1. now left.
      * left. apply K1. right. rewrite map_app, !fst_combine by assumption. exact Q2.
      * right. exists x. auto.
    + intros u v Q. destruct (C2 _ _ Q) as [Q'|Q']; [|auto]. auto.
Qed.

Lemma match_loop_complete cb mu (p : list (op V D)) : forall s m, agrees m mu ->
  Forall2 (instance_of deqb mu) p s ->
  (forall u, occurs p u -> cb u (mu u) = true) ->
  exists m', match_loop cb m (combine p s) = Some m' /\ agrees m' mu.
Proof.
  induction p as [|o p IH]; intros s m A F C; inversion F as [|? o' ? s' Ho Hp]; subst; simpl.
  - eauto.
  - destruct Ho as (Hd & Hi & Ho). rewrite <- Hi, <- Ho, !map_length, !Nat.eqb_refl, Hd. simpl.
    destruct (bind_pairs_complete cb mu
      (combine (oins o) (map mu (oins o)) ++ combine (oouts o) (map mu (oouts o))) m A)
      as (m1 & -> & A1).
    + intros u v Q. apply in_app_iff in Q.
      assert (Q' : mu u = v /\ In u (op_vars o)).
      { destruct Q as [Q|Q]; apply in_combine_map in Q; destruct Q; split; auto;
          apply in_or_app; auto. }
      destruct Q' as [<- Q']. split; [reflexivity|]. apply C. exists o. split; [now left|assumption].
    + apply IH; auto. intros u (x & Q1 & Q2). apply C. exists x. split; [now right|assumption].
Qed.

Lemma is_match_length cb (p s : list (op V D)) mu : is_match deqb cb p s mu -> length p = length s.
Proof. intros [F _]. induction F; simpl; congruence. Qed.

(** The whole of [match]. *)
Lemma gmatch_spec cb (p s : list (op V D)) :
  match gmatch p s cb with
  | Some m =>
      is_match deqb cb p s (vget m) /\ NoDup (map fst m) /\
      (forall u, In u (map fst m) <-> occurs p u) /\
      (forall mu, is_match deqb cb p s mu -> forall u, occurs p u -> mu u = vget m u)
  | None => forall mu, ~ is_match deqb cb p s mu
  end.
Proof.
  unfold GraphEditor.gmatch.
  destruct (length p =? length s) eqn:L; simpl.
  2:{ intros mu H. apply is_match_length in H. apply Nat.eqb_neq in L. contradiction. }
  apply Nat.eqb_eq in L.
  destruct (match_loop cb [] (combine p s)) as [m|] eqn:M.
  - destruct (match_loop_sound cb p s [] m L (NoDup_nil _) M) as (N & _ & F & K & C).
    assert (K' : forall u, In u (map fst m) <-> occurs p u).
    { intro u. rewrite K. simpl. tauto. }
    split; [split; [assumption|]|split; [assumption|split; [assumption|]]].
    + intros u Ou. apply K' in Ou. unfold GraphEditor.vget.
      destruct (vlookup m u) as [v|] eqn:Q; [|apply vlookup_None in Q; contradiction].
      destruct (C _ _ Q) as [Q'|Q']; [discriminate|assumption].
    + intros mu [Fm Cm] u Ou.
      destruct (match_loop_complete cb mu p s [] ltac:(discriminate) Fm Cm) as (m' & M' & A).
      rewrite M in M'. injection M' as <-. apply K' in Ou. unfold GraphEditor.vget.
      destruct (vlookup m u) as [v|] eqn:Q; [now apply A|apply vlookup_None in Q; contradiction].
  - intros mu [Fm Cm].
    destruct (match_loop_complete cb mu p s [] ltac:(discriminate) Fm Cm) as (m' & M' & A).
    congruence.
Qed.

Lemma subs_rename m (o : op V D) : subs veqb m o = rename_op (vget m) o.
Proof. reflexivity. Qed.

Lemma skipn_skipn' {A} (l : list A) : forall a b, skipn a (skipn b l) = skipn (b + a) l.
Proof.
  induction l as [|x l IH]; intros a [|b]; simpl; try reflexivity; [now rewrite !skipn_nil|apply IH].
Qed.

(** ** The loop of [replace] *)
Notation replace_run := (replace_run veqb deqb).
Notation replace_step := (replace_step veqb deqb).

Lemma vget_outside cb p s m : gmatch p s cb = Some m ->
  forall u, ~ occurs p u -> vget m u = u.
Proof.
  intros H u Ou. pose proof (gmatch_spec cb p s) as G. rewrite H in G.
  destruct G as (_ & _ & K & _). unfold GraphEditor.vget.
  destruct (vlookup m u) as [v|] eqn:Q; [|reflexivity].
  apply vlookup_In in Q. apply K in Q. contradiction.
Qed.

Lemma replace_run_rewrites cb p r ops : p <> [] ->
  forall n i out, length ops - i <= n -> i <= length ops ->
  exists out', replace_run (S n) p r ops cb (i, out) = Some (out ++ out') /\
    rewrites deqb cb p r (skipn i ops) out'.
Proof.
  intro Np. assert (Lp : 1 <= length p) by (destruct p; simpl; [congruence|lia]).
  induction n as [|n IH]; intros i out Hn Hi.
  - assert (i = length ops) by lia. subst i. exists []. split.
    + simpl. rewrite Nat.ltb_irrefl, app_nil_r. reflexivity.
    + rewrite skipn_all. constructor.
  - destruct (Nat.eq_dec i (length ops)) as [->|Ne].
    { exists []. split.
      + simpl. rewrite Nat.ltb_irrefl, app_nil_r. reflexivity.
      + rewrite skipn_all. constructor. }
    assert (Hlt : i < length ops) by lia.
    destruct (nth_error ops i) as [o|] eqn:No; [|apply nth_error_None in No; lia].
    assert (Sk : skipn i ops = o :: skipn (S i) ops).
    { clear -No. revert i No. induction ops as [|a ops IHo]; intros [|i] No; simpl in *; try discriminate.
      - now injection No as ->.
      - now apply IHo. }
    pose proof (gmatch_spec cb p (firstn (length p) (skipn i ops))) as G.
    assert (Step : replace_run (S (S n)) p r ops cb (i, out) =
      match gmatch p (firstn (length p) (skipn i ops)) cb with
      | Some m => replace_run (S n) p r ops cb (i + length p, out ++ map (subs veqb m) r)
      | None => replace_run (S n) p r ops cb (i + 1, out ++ [o])
      end).
    { change (replace_run (S (S n)) p r ops cb (i, out)) with
        (match replace_step p r ops cb (i, out) with
         | inr out0 => Some out0
         | inl st' => replace_run (S n) p r ops cb st' end).
      unfold GraphEditor.replace_step. rewrite (proj2 (Nat.ltb_lt _ _) Hlt), No.
      destruct (gmatch p (firstn (length p) (skipn i ops)) cb); reflexivity. }
    rewrite Step. clear Step.
    destruct (gmatch p (firstn (length p) (skipn i ops)) cb) as [m|] eqn:M.
    + destruct G as (G & _).
      pose proof (is_match_length _ _ _ _ G) as Lm. rewrite firstn_length, skipn_length in Lm.
      destruct (IH (i + length p) (out ++ map (subs veqb m) r)) as (out' & R1 & R2); [lia|lia|].
      exists (map (subs veqb m) r ++ out'). split; [rewrite app_assoc; exact R1|].
      rewrite <- (firstn_skipn (length p) (skipn i ops)).
      rewrite skipn_skipn'.
      apply (rw_match deqb cb p r _ _ _ (vget m)).
      * intro Q. apply (f_equal (@length _)) in Q. rewrite firstn_length, skipn_length in Q.
        simpl in Q. lia.
      * exact G.
      * exact (vget_outside cb p _ m M).
      * exact R2.
    + destruct (IH (i + 1) (out ++ [o])) as (out' & R1 & R2); [lia|lia|].
      exists (o :: out'). split; [rewrite <- app_assoc in R1; exact R1|].
      rewrite Sk. apply rw_keep; [|rewrite <- (Nat.add_1_r i); exact R2].
      intros here after mu E Hm.
      apply (G mu). replace (firstn (length p) (skipn i ops)) with here; [exact Hm|].
      rewrite Sk, E, (is_match_length _ _ _ _ Hm), firstn_app, firstn_all, Nat.sub_diag.
      simpl. now rewrite app_nil_r.
Qed.

(** Fuel is irrelevant once the loop has stopped. *)
Lemma replace_run_mono cb p r ops : forall n st out k,
  replace_run n p r ops cb st = Some out -> replace_run (n + k) p r ops cb st = Some out.
Proof.
  induction n as [|n IH]; intros st out k; simpl; [discriminate|].
  destruct (replace_step p r ops cb st) as [st'|o]; auto.
Qed.

Lemma replace_run_det cb p r ops n k st o1 o2 :
  replace_run n p r ops cb st = Some o1 -> replace_run k p r ops cb st = Some o2 -> o1 = o2.
Proof.
  intros H1 H2. apply (replace_run_mono _ _ _ _ _ _ _ k) in H1.
  apply (replace_run_mono _ _ _ _ _ _ _ n) in H2. rewrite Nat.add_comm in H2. congruence.
Qed.

Lemma replace_run_empty cb r ops : ops <> [] -> forall n out,
  replace_run n [] r ops cb (0, out) = None.
Proof.
  intro N. destruct ops as [|o ops]; [congruence|].
  induction n as [|n IH]; intro out; [reflexivity|]. simpl. apply IH.
Qed.

(** ** Meaning *)
Context {X : Type} (sem : D -> list X -> option (list X)) (const : V -> option X).
Notation run := (run sem veqb).
Notation run_op := (run_op sem veqb).
Notation assign := (@assign V X veqb).

Lemma assign_get (r : @env V X) l : forall r0 xs r1, (forall w, r0 w = r w) -> assign r0 l xs = Some r1 ->
  length l = length xs /\ (forall w, ~ In w l -> r1 w = r w).
Proof.
  revert r. induction l as [|u l IH]; intros r r0 [|x xs] r1 E H; simpl in *; try discriminate.
  - injection H as <-. auto.
  - destruct (IH _ _ _ _ (fun w => eq_refl) H) as [L G]. split; [congruence|].
    intros w N. rewrite G by tauto. destruct (veqb_spec u w); [tauto|apply E].
Qed.

(** Two environments written with the same values, through renamings that do
    not confuse the written variables with the observed ones. *)
Lemma assign_sim (mu : V -> V) (obs : V -> Prop) l : forall (r s : @env V X) xs r1,
  (forall u, In u l -> obs u) ->
  (forall v u, In v l -> obs u -> u <> v -> mu u <> mu v) ->
  (forall u, obs u -> r u = s (mu u)) ->
  assign r l xs = Some r1 ->
  exists s1, assign s (map mu l) xs = Some s1 /\
    (forall u, obs u -> r1 u = s1 (mu u)).
Proof.
  induction l as [|v l IH]; intros r s [|x xs] r1 Ob In_ Ag H; simpl in *; try discriminate.
  - injection H as <-. eauto.
  - apply (IH _ (fun w => if veqb (mu v) w then Some x else s w)) in H.
    + exact H.
    + intros; apply Ob; auto.
    + intros v' u Hv; apply In_; auto.
    + intros u Hu. destruct (veqb_spec v u) as [->|N].
      * destruct (veqb_spec (mu u) (mu u)); congruence.
      * destruct (veqb_spec (mu v) (mu u)) as [E|]; [|now apply Ag].
        exfalso. apply (In_ v u); auto.
Qed.

Lemma lookups_ext {r s : @env V X} l l' : map r l = map s l' -> lookups r l = lookups s l'.
Proof.
  revert l'; induction l as [|u l IH]; intros [|u' l'] H; simpl in *; try discriminate; auto.
  injection H as H1 H2. rewrite H1, (IH _ H2). reflexivity.
Qed.

(** Running a renamed sequence. *)
Lemma run_sim (mu : V -> V) (obs : V -> Prop) l : forall (r s : @env V X) r1,
  (forall u, occurs l u -> obs u) ->
  (forall v u, written l v -> obs u -> u <> v -> mu u <> mu v) ->
  (forall u, obs u -> r u = s (mu u)) ->
  run r l = Some r1 ->
  exists s1, run s (map (rename_op mu) l) = Some s1 /\
    (forall u, obs u -> r1 u = s1 (mu u)).
Proof.
  induction l as [|o l IH]; intros r s r1 Ob In_ Ag H; simpl in *.
  - injection H as <-. eauto.
  - destruct (run_op r o) as [r'|] eqn:E; [|discriminate].
    unfold GraphSpec.run_op in E |- *. simpl.
    assert (Oo : forall u, In u (op_vars o) -> obs u).
    { intros u Q. apply Ob. exists o. split; [now left|assumption]. }
    assert (Lk : lookups r (oins o) = lookups s (map mu (oins o))).
    { apply lookups_ext. rewrite map_map. apply map_ext_in. intros u Q. apply Ag, Oo, in_or_app; auto. }
    rewrite <- Lk.
    destruct (lookups r (oins o)) as [args|]; [|discriminate].
    destruct (sem (odata o) args) as [vals|]; [|discriminate].
    destruct (assign_sim mu obs (oouts o) r s vals r') as (s' & -> & Ag'); auto.
    + intros u Q. apply Oo, in_or_app; auto.
    + intros v u Q. apply In_. exists o. split; [now left|assumption].
    + apply (IH r'); auto.
      * intros u (x & Q1 & Q2). apply Ob. exists x. split; [now right|assumption].
      * intros v u (x & Q1 & Q2). apply In_. exists x. split; [now right|assumption].
Qed.

Lemma run_unwritten l : forall (r r1 : @env V X), run r l = Some r1 ->
  forall w, ~ written l w -> r1 w = r w.
Proof.
  induction l as [|o l IH]; intros r r1 H w N; simpl in H; [now injection H as <-|].
  destruct (run_op r o) as [r'|] eqn:E; [|discriminate].
  rewrite (IH _ _ H w).
  - unfold GraphSpec.run_op in E. destruct (lookups r (oins o)) as [args|]; [|discriminate].
    destruct (sem (odata o) args) as [vals|]; [|discriminate].
    destruct (assign_get r _ _ _ _ (fun w => eq_refl) E) as [_ G].
    apply G. intro Q. apply N. exists o. split; [now left|assumption].
  - intros (x & Q1 & Q2). apply N. exists x. split; [now right|assumption].
Qed.

(** Running depends only on live variables. *)
Lemma assign_agree (P : V -> Prop) l : forall (r s : @env V X) xs r1,
  (forall u, P u -> ~ In u l -> r u = s u) ->
  assign r l xs = Some r1 ->
  exists s1, assign s l xs = Some s1 /\ (forall u, P u -> r1 u = s1 u).
Proof.
  induction l as [|v l IH]; intros r s [|x xs] r1 Ag H; simpl in *; try discriminate.
  - injection H as <-. exists s. split; [reflexivity|]. intros u Q. now apply Ag.
  - apply (IH _ (fun w => if veqb v w then Some x else s w)) in H; [exact H|].
    intros u Q N. destruct (veqb_spec v u); [reflexivity|]. apply Ag; tauto.
Qed.

Lemma run_op_agree (P : V -> Prop) o (r s : @env V X) r1 :
  (forall u, In u (oins o) -> r u = s u) ->
  (forall u, P u -> ~ In u (oouts o) -> r u = s u) ->
  run_op r o = Some r1 ->
  exists s1, run_op s o = Some s1 /\ (forall u, P u -> r1 u = s1 u).
Proof.
  unfold GraphSpec.run_op. intros Hi Ho H.
  rewrite <- (lookups_ext (r := r) (s := s) (oins o) (oins o)) by now apply map_ext_in.
  destruct (lookups r (oins o)) as [args|]; [|discriminate].
  destruct (sem (odata o) args) as [vals|]; [|discriminate].
  now apply (assign_agree P (oouts o) r s vals r1).
Qed.

Lemma live_mono l (P Q : V -> Prop) : (forall u, P u -> Q u) ->
  forall u, live (D := D) l P u -> live l Q u.
Proof.
  intro H. induction l as [|o l IH]; simpl; [auto|]. intros u [A|[A B]]; auto.
Qed.

Lemma live_app l1 l2 (P : V -> Prop) u : live (D := D) (l1 ++ l2) P u <-> live l1 (live l2 P) u.
Proof.
  revert u; induction l1 as [|o l1 IH]; simpl; [tauto|]. intro u. rewrite IH. tauto.
Qed.

Lemma live_needed l (P : V -> Prop) u : P u -> ~ written l u -> live (D := D) l P u.
Proof.
  induction l as [|o l IH]; simpl; [auto|]. intros HP Hw. right. split.
  - apply IH; [assumption|]. intros (x & A & B). apply Hw. exists x. split; [now right|assumption].
  - intro A. apply Hw. exists o. split; [now left|assumption].
Qed.

Lemma run_app l1 l2 (r : @env V X) : run r (l1 ++ l2) =
  match run r l1 with Some r' => run r' l2 | None => None end.
Proof.
  revert r; induction l1 as [|o l1 IH]; intro r; simpl; [reflexivity|].
  destruct (run_op r o); auto.
Qed.

Lemma run_op_data o o' (r : @env V X) :
  sem (odata o) = sem (odata o') -> oins o = oins o' -> oouts o = oouts o' ->
  run_op r o = run_op r o'.
Proof. unfold GraphSpec.run_op. intros -> -> ->. reflexivity. Qed.

Hypothesis deqb_sem : forall d d', deqb d d' = true -> sem d = sem d'.

Lemma run_instance (mu : V -> V) (p s : list (op V D)) : Forall2 (instance_of deqb mu) p s ->
  forall (r : @env V X), run r s = run r (map (rename_op mu) p).
Proof.
  induction 1 as [|o o' p s (Hd & Hi & Ho) F IH]; intro r; simpl; [reflexivity|].
  rewrite (run_op_data o' (rename_op mu o)) by (simpl; symmetry; auto).
  destruct (run_op r (rename_op mu o)); auto.
Qed.

Lemma live_instance (mu : V -> V) (p s : list (op V D)) (P : V -> Prop) : Forall2 (instance_of deqb mu) p s ->
  forall u, live s P u <-> live (map (rename_op mu) p) P u.
Proof.
  induction 1 as [|o o' p s (Hd & Hi & Ho) F IH]; intro u; simpl; [tauto|].
  rewrite <- Hi, <- Ho, IH. tauto.
Qed.

Lemma written_instance (mu : V -> V) (p s : list (op V D)) : Forall2 (instance_of deqb mu) p s ->
  forall w, written s w <-> exists v, written p v /\ mu v = w.
Proof.
  induction 1 as [|o o' p s (Hd & Hi & Ho) F IH]; intro w.
  - split; [intros (x & [] & _)|intros (v & (x & [] & _) & _)].
  - split.
    + intros (x & [<-|Q1] & Q2).
      * rewrite <- Ho in Q2. apply in_map_iff in Q2. destruct Q2 as (v & <- & Q2).
        exists v. split; [exists o; split; [now left|assumption]|reflexivity].
      * destruct (proj1 (IH w)) as (v & (y & A & B) & C); [exists x; auto|].
        exists v. split; [exists y; split; [now right|assumption]|assumption].
    + intros (v & (x & [<-|Q1] & Q2) & <-).
      * exists o'. split; [now left|]. rewrite <- Ho. now apply in_map.
      * destruct (proj2 (IH (mu v))) as (y & A & B); [exists v; split; [exists x; auto|reflexivity]|].
        exists y. split; [now right|assumption].
Qed.

Lemma written_rename (mu : V -> V) l w : written (map (rename_op (D := D) mu) l) w <->
  exists v, written l v /\ mu v = w.
Proof.
  split.
  - intros (x & Q1 & Q2). apply in_map_iff in Q1. destruct Q1 as (o & <- & Q1). simpl in Q2.
    apply in_map_iff in Q2. destruct Q2 as (v & <- & Q2). exists v. split; [exists o; auto|reflexivity].
  - intros (v & (o & Q1 & Q2) & <-). exists (rename_op mu o). split; [now apply in_map|now apply in_map].
Qed.

(** A variable read by a pattern before being written is, after renaming,
    read before being written (no matter what else is needed), provided its
    image is not the image of an earlier written variable. *)
Lemma live_rename (mu : V -> V) l (P P' : V -> Prop) u :
  live (D := D) l P u ->
  (P u -> P' (mu u)) ->
  (forall v, written l v -> v <> u -> mu u <> mu v) ->
  live (map (rename_op mu) l) P' (mu u).
Proof.
  induction l as [|o l IH]; simpl; intros H HP N; [auto|].
  destruct H as [H|[H1 H2]]; [left; now apply in_map|]. right. split.
  - apply IH; auto. intros v (x & A & B) C. apply N; [|assumption]. exists x. split; [now right|assumption].
  - intro Q. apply in_map_iff in Q. destruct Q as (v & E & Q). apply (N v).
    + exists o. split; [now left|assumption].
    + intros ->. contradiction.
    + congruence.
Qed.

Lemma assign_sim_rev (mu : V -> V) (obs : V -> Prop) l : forall (r s : @env V X) xs s1,
  (forall u, In u l -> obs u) ->
  (forall v u, In v l -> obs u -> u <> v -> mu u <> mu v) ->
  (forall u, obs u -> r u = s (mu u)) ->
  assign s (map mu l) xs = Some s1 ->
  exists r1, assign r l xs = Some r1 /\
    (forall u, obs u -> r1 u = s1 (mu u)).
Proof.
  induction l as [|v l IH]; intros r s [|x xs] s1 Ob In_ Ag H; simpl in *; try discriminate.
  - injection H as <-. eauto.
  - apply (IH (fun w => if veqb v w then Some x else r w)) in H.
    + exact H.
    + intros; apply Ob; auto.
    + intros v' u Hv; apply In_; auto.
    + intros u Hu. destruct (veqb_spec v u) as [->|N].
      * destruct (veqb_spec (mu u) (mu u)); congruence.
      * destruct (veqb_spec (mu v) (mu u)) as [E|]; [|now apply Ag].
        exfalso. apply (In_ v u); auto.
Qed.

Lemma run_sim_rev (mu : V -> V) (obs : V -> Prop) l : forall (r s : @env V X) s1,
  (forall u, occurs l u -> obs u) ->
  (forall v u, written l v -> obs u -> u <> v -> mu u <> mu v) ->
  (forall u, obs u -> r u = s (mu u)) ->
  run s (map (rename_op mu) l) = Some s1 ->
  exists r1, run r l = Some r1 /\
    (forall u, obs u -> r1 u = s1 (mu u)).
Proof.
  induction l as [|o l IH]; intros r s s1 Ob In_ Ag H; simpl in *.
  - injection H as <-. eauto.
  - destruct (run_op s (rename_op mu o)) as [s'|] eqn:E; [|discriminate].
    unfold GraphSpec.run_op in E |- *. simpl in E.
    assert (Oo : forall u, In u (op_vars o) -> obs u).
    { intros u Q. apply Ob. exists o. split; [now left|assumption]. }
    assert (Lk : lookups r (oins o) = lookups s (map mu (oins o))).
    { apply lookups_ext. rewrite map_map. apply map_ext_in. intros u Q. apply Ag, Oo, in_or_app; auto. }
    rewrite <- Lk in E.
    destruct (lookups r (oins o)) as [args|]; [|discriminate].
    destruct (sem (odata o) args) as [vals|]; [|discriminate].
    destruct (assign_sim_rev mu obs (oouts o) r s vals s') as (r' & -> & Ag'); auto.
    + intros u Q. apply Oo, in_or_app; auto.
    + intros v u Q. apply In_. exists o. split; [now left|assumption].
    + apply (IH r' s'); auto.
      * intros u (x & Q1 & Q2). apply Ob. exists x. split; [now right|assumption].
      * intros v u (x & Q1 & Q2). apply In_. exists x. split; [now right|assumption].
Qed.

Lemma in_veqb_dec (w : V) l : {In w l} + {~ In w l}.
Proof.
  apply in_dec. intros u v. destruct (veqb_spec u v); [left|right]; assumption.
Qed.

(** Rewriting all matched segments preserves the values still needed. *)
Context (cb : V -> V -> bool) (pattern replacement : list (op V D)) (ins outs : list V).

Lemma rewrites_preserve (N : V -> Prop) :
  (forall u v, cb u v = true -> forall x, const u = Some x -> const v = Some x) ->
  (forall u, In u ins -> live pattern (fun _ => False) u) ->
  (forall v, In v outs -> written pattern v) ->
  same_function sem const veqb ins outs pattern replacement ->
  forall ops out, rewrites deqb cb pattern replacement ops out ->
  (forall v, written ops v -> const v = None) ->
  (forall before here after mu, ops = before ++ here ++ after ->
     is_match deqb cb pattern here mu -> (forall u, ~ occurs pattern u -> mu u = u) ->
     safe_match const outs pattern replacement mu (live after N)) ->
  forall (r s : @env V X) r1, env_ok const r -> env_ok const s ->
  (forall u, live ops N u -> r u = s u) ->
  run r ops = Some r1 ->
  exists s1, run s out = Some s1 /\ (forall u, N u -> r1 u = s1 u).
Proof.
  intros Hcb Hins Houts Hsf ops out Hrw.
  induction Hrw as [|here rest out mu Hne Hm Hid Hrw IH|o rest out Hno Hrw IH];
    intros Hc Hsafe r s r1 Er Es Ag Hr.
  - simpl in *. injection Hr as <-. eauto.
  - destruct (Hsafe [] here rest mu eq_refl Hm Hid) as (S1 & S2 & S3 & S4 & S5).
    destruct Hm as [Hm Hb].
    rewrite run_app in Hr. destruct (run r here) as [r'|] eqn:Hh; [|discriminate].
    rewrite (run_instance mu pattern here Hm) in Hh.
    assert (Emu : forall q : @env V X, env_ok const q -> env_ok const (fun u => q (mu u))).
    { intros q Eq u x Cu.
      destruct (in_veqb_dec u (flat_map op_vars pattern)) as [I|I].
      - apply in_flat_map in I. destruct I as (o & I1 & I2).
        apply Eq, (Hcb u); [apply Hb; exists o; auto | assumption].
      - rewrite Hid; [now apply Eq|]. intros (o & I1 & I2). apply I, in_flat_map. eauto. }
    destruct (run_sim_rev mu (occurs pattern) pattern (fun u => r (mu u)) r r')
      as (rp1 & Hp & Agp); auto.
    destruct (Hsf (fun u => r (mu u)) (fun u => s (mu u))
                (Emu r Er) (Emu s Es)) with (r1 := rp1)
      as (sp1 & Hsp & Ago).
    { intros u Iu. apply Ag. apply live_app.
      apply (live_instance mu pattern here _ Hm).
      apply (live_rename mu pattern (fun _ => False)); [now apply Hins|tauto|].
      intros v Wv Nv. apply S1; auto. clear -Iu Hins.
      specialize (Hins u Iu). revert Hins. generalize pattern as l.
      induction l as [|o l IHl]; simpl; [tauto|]. intros [A|[A B]].
      - exists o. split; [now left|]. apply in_or_app; auto.
      - destruct (IHl A) as (x & C & E). exists x. split; [now right|assumption]. }
    { exact Hp. }
    destruct (run_sim mu (fun u => occurs replacement u \/ In u outs) replacement
                (fun u => s (mu u)) s sp1) as (s' & Hs' & Ags); auto.
    assert (Ag' : forall w, live rest N w -> r' w = s' w).
    { intros w Lw.
      destruct (in_veqb_dec w (map mu outs)) as [I|I].
      - apply in_map_iff in I. destruct I as (v & <- & Iv).
        rewrite <- Ags by (right; exact Iv). rewrite <- Ago by exact Iv.
        symmetry. apply Agp. destruct (Houts v Iv) as (o & A & B).
        exists o. split; [assumption|]. apply in_or_app; auto.
      - assert (W1 : ~ written (map (rename_op mu) pattern) w).
        { intro W. apply written_rename in W. destruct W as (v & Wv & <-).
          apply (S3 v Wv); [|exact Lw]. intro Q. apply I. now apply in_map. }
        rewrite (run_unwritten _ _ _ Hh w W1).
        rewrite (run_unwritten _ _ _ Hs' w).
        + apply Ag. apply live_app. apply live_needed; [exact Lw|].
          intro W. apply W1. apply (written_instance mu pattern here Hm) in W.
          apply written_rename. exact W.
        + intro W. apply written_rename in W. destruct W as (v & Wv & <-).
          apply (S4 v Wv); [|exact Lw]. intro Q. apply I. now apply in_map. }
    destruct (IH) with (r := r') (s := s') (r1 := r1) as (s1 & Hs1 & Hn); auto.
    + intros v (o & A & B). apply Hc. exists o. split; [apply in_or_app; now right|assumption].
    + intros before here' after mu' E. apply (Hsafe (here ++ before)).
      rewrite E, !app_assoc. reflexivity.
    + intros u x Cu. rewrite (run_unwritten _ _ _ Hh u); [now apply Er|].
      intro W. apply written_rename in W. apply (written_instance mu pattern here Hm) in W.
      rewrite (Hc u) in Cu; [discriminate|]. destruct W as (o & A & B). exists o.
      split; [apply in_or_app; now left|assumption].
    + intros u x Cu. rewrite (run_unwritten _ _ _ Hs' u); [now apply Es|].
      intro W. apply written_rename in W. destruct W as (v & Wv & <-).
      rewrite (S5 v Wv) in Cu. discriminate.
    + exists s1. split; [|exact Hn]. rewrite run_app, Hs'. exact Hs1.
  - simpl in Hr. destruct (run_op r o) as [r'|] eqn:Ho; [|discriminate].
    destruct (run_op_agree (live rest N) o r s r') as (s' & Hs' & Ag'); auto.
    { intros u I. apply Ag. simpl. now left. }
    { intros u L I. apply Ag. simpl. now right. }
    assert (Keep : forall (q q' : @env V X), env_ok const q -> run_op q o = Some q' -> env_ok const q').
    { intros q q' Eq Hq u x Cu. unfold GraphSpec.run_op in Hq.
      destruct (lookups q (oins o)) as [args|]; [|discriminate].
      destruct (sem (odata o) args) as [vals|]; [|discriminate].
      destruct (assign_get q _ _ _ _ (fun w => eq_refl) Hq) as [_ G].
      rewrite G; [now apply Eq|]. intro I. rewrite (Hc u) in Cu; [discriminate|].
      exists o. split; [now left|assumption]. }
    destruct (IH) with (r := r') (s := s') (r1 := r1) as (s1 & Hs1 & Hn); auto.
    + intros v (x & A & B). apply Hc. exists x. split; [now right|assumption].
    + intros before here' after mu' E. apply (Hsafe (o :: before)). now rewrite E.
    + now apply (Keep r).
    + now apply (Keep s).
    + exists s1. split; [|exact Hn]. simpl. rewrite Hs'. exact Hs1.
Qed.
End Proofs.
