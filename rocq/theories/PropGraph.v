(** Property theorems C39 - C42: graph matching and rewriting. *)
From Verif Require Import Base GraphEditor GraphSpec GraphProofs.

(** C39. [match] finds the mapping whenever there is one, it is the only one,
    and it binds exactly the variables of the pattern. *)
Theorem C39_match_correct :
  forall (V D : Type) (veqb : V -> V -> bool) (deqb : D -> D -> bool),
  (forall u v, reflect (u = v) (veqb u v)) ->
  forall (can_bind : V -> V -> bool) (pattern subject : list (op V D)),
  match gmatch veqb deqb pattern subject can_bind with
  | Some m =>
      is_match deqb can_bind pattern subject (vget veqb m) /\
      NoDup (map fst m) /\
      (forall u, In u (map fst m) <-> occurs pattern u) /\
      (forall mu, is_match deqb can_bind pattern subject mu ->
         forall u, occurs pattern u -> mu u = vget veqb m u)
  | None => forall mu, ~ is_match deqb can_bind pattern subject mu
  end.
Proof. intros V D veqb deqb R cb p s. exact (gmatch_spec veqb deqb R cb p s). Qed.
Print Assumptions C39_match_correct.

(** C40. The loop computes the greedy left-to-right rewriting of the operations
    and leaves inputs, outputs and data alone. *)
Theorem C40_replace_is_greedy_rewriting :
  forall (V D G : Type) (veqb : V -> V -> bool) (deqb : D -> D -> bool),
  (forall u v, reflect (u = v) (veqb u v)) ->
  forall (can_bind : V -> V -> bool) (pattern replacement : list (op V D))
         (subject result : graph V D G) fuel,
  replace veqb deqb fuel pattern replacement subject can_bind = Some result ->
  gins result = gins subject /\ gouts result = gouts subject /\
  gdata result = gdata subject /\
  rewrites deqb can_bind pattern replacement (gops subject) (gops result).
Proof.
  intros V D G veqb deqb R cb p r subj res fuel H. unfold replace in H.
  destruct (replace_run _ _ fuel p r (gops subj) cb (0, [])) as [out|] eqn:E; [|discriminate].
  injection H as <-. simpl. repeat split.
  destruct p as [|o p].
  - destruct (gops subj) as [|o' ops] eqn:Eo.
    + destruct fuel; simpl in E; [discriminate|]. injection E as <-. constructor.
    + rewrite (replace_run_empty veqb deqb) in E by discriminate. discriminate.
  - destruct (replace_run_rewrites veqb deqb R cb (o :: p) r (gops subj) ltac:(discriminate)
                (length (gops subj)) 0 []) as (out' & E1 & E2); [lia|lia|].
    simpl in E2. rewrite (replace_run_det _ _ _ _ _ _ _ _ _ _ _ E E1). exact E2.
Qed.
Print Assumptions C40_replace_is_greedy_rewriting.

(** What the graph's intermediate variables are (graph_editor.py:53-59); the
    Jaxpr rewriting numbers its new variables above all of them. *)
Theorem C40_intermediate_variables :
  forall (V D G : Type) (g : graph V D G) (v : V),
  In v (intermediate_variables g) <->
  In v (gins g) \/ In v (gouts g) \/
  exists o, In o (gops g) /\ (In v (oins o) \/ In v (oouts o)).
Proof.
  intros V D G g v. unfold intermediate_variables. rewrite !in_app_iff, in_flat_map.
  split.
  - intros [H|[H|(o & Ho & H)]]; [now left|now right; left|right; right].
    exists o. split; [exact Ho|]. now apply in_app_iff.
  - intros [H|[H|(o & Ho & H)]]; [now left|now right; left|right; right].
    exists o. split; [exact Ho|]. now apply in_app_iff.
Qed.
Print Assumptions C40_intermediate_variables.

(** The greedy rewriting is unique (for a non-empty pattern), so C40 pins down
    the result. *)
Theorem C40_rewriting_deterministic :
  forall (V D : Type) (veqb : V -> V -> bool) (deqb : D -> D -> bool),
  (forall u v, reflect (u = v) (veqb u v)) ->
  forall (can_bind : V -> V -> bool) (pattern replacement ops o1 o2 : list (op V D)),
  rewrites deqb can_bind pattern replacement ops o1 ->
  rewrites deqb can_bind pattern replacement ops o2 -> o1 = o2.
Proof.
  intros V D veqb deqb R cb p r ops o1 o2 H1. revert o2.
  assert (Same : forall here mu mu', is_match deqb cb p here mu -> is_match deqb cb p here mu' ->
     (forall u, ~ occurs p u -> mu u = u) -> (forall u, ~ occurs p u -> mu' u = u) ->
     forall u, mu u = mu' u).
  { intros here mu mu' A B C E u. pose proof (gmatch_spec veqb deqb R cb p here) as S.
    destruct (gmatch veqb deqb p here cb) as [m|]; [|now apply S in A].
    destruct S as (_ & _ & K & S).
    destruct (in_veqb_dec veqb R u (map fst m)) as [I|I].
    - apply K in I. rewrite (S _ A u I), (S _ B u I). reflexivity.
    - rewrite C, E; [reflexivity| |]; intro Q; apply I, K, Q. }
  induction H1 as [|here rest out mu Hne Hm Hid Hrw IH|o rest out Hno Hrw IH]; intros o2 H2.
  - remember (@nil (op V D)) as e eqn:Ee in H2.
    destruct H2 as [|here rest out mu Hne Hm Hid Hrw|o rest out Hno Hrw]; [reflexivity| |discriminate].
    apply app_eq_nil in Ee. destruct Ee as [Ee _]. contradiction.
  - inversion H2 as [E1 E2|here' rest' out' mu' Hne' Hm' Hid' Hrw' E1 E2|o rest' out' Hno' Hrw' E1 E2].
    + symmetry in E1. apply app_eq_nil in E1. destruct E1 as [E1 _]. now rewrite E1 in Hne.
    + assert (L : length here = length here').
      { rewrite <- (is_match_length deqb _ _ _ _ Hm). apply (is_match_length deqb _ _ _ _ Hm'). }
      assert (E : here' = here /\ rest' = rest).
      { clear -E1 L. revert here' L E1. induction here as [|a here IHh]; intros [|b here'] L E;
          simpl in *; try discriminate; [auto|].
        injection E as -> E. destruct (IHh here') as [-> ->]; auto. }
      destruct E as [-> ->]. f_equal; [|now apply IH].
      apply map_ext. intros [d i u]. unfold rename_op; simpl.
      f_equal; apply map_ext; intro w; exact (Same here mu mu' Hm Hm' Hid Hid' w).
    + exfalso. apply (Hno' here rest mu); auto.
  - inversion H2 as [|here' rest' out' mu' Hne' Hm' Hid' Hrw' E1 E2|o' rest' out' Hno' Hrw' E1 E2]; subst.
    + exfalso. apply (Hno here' rest' mu'); auto.
    + f_equal. now apply IH.
Qed.
Print Assumptions C40_rewriting_deterministic.

(** C41. Non-empty patterns: the loop always stops (within [length ops + 1]
    tests).  Empty pattern, non-empty subject: it never stops. *)
Theorem C41_replace_terminates_iff :
  forall (V D G : Type) (veqb : V -> V -> bool) (deqb : D -> D -> bool),
  (forall u v, reflect (u = v) (veqb u v)) ->
  forall (can_bind : V -> V -> bool) (pattern replacement : list (op V D))
         (subject : graph V D G),
  (exists fuel result,
     replace veqb deqb fuel pattern replacement subject can_bind = Some result)
  <-> (pattern <> [] \/ gops subject = []).
Proof.
  intros V D G veqb deqb R cb p r subj. split.
  - intros (fuel & res & H). destruct p as [|o p]; [|left; discriminate].
    destruct (gops subj) as [|o ops] eqn:Eo; [now right|]. exfalso.
    unfold replace in H. rewrite Eo, (replace_run_empty veqb deqb) in H by discriminate.
    discriminate.
  - intros [Hp|Hs].
    + destruct (replace_run_rewrites veqb deqb R cb p r (gops subj) Hp
                  (length (gops subj)) 0 []) as (out' & E1 & _); [lia|lia|].
      exists (S (length (gops subj))). unfold replace. rewrite E1. eauto.
    + exists 1. unfold replace. simpl. rewrite Hs. simpl. eauto.
Qed.
Print Assumptions C41_replace_terminates_iff.

(** C42. If pattern and replacement compute the same function of their inputs
    and every match in the subject is safe to rewrite, then the rewritten graph
    computes what the subject computed. *)
Theorem C42_replace_preserves_meaning :
  forall (V D G X : Type) (veqb : V -> V -> bool) (deqb : D -> D -> bool)
         (sem : D -> list X -> option (list X)) (const : V -> option X),
  (forall u v, reflect (u = v) (veqb u v)) ->
  (forall d d', deqb d d' = true -> sem d = sem d') ->
  forall (can_bind : V -> V -> bool) (ins outs : list V)
         (pattern replacement : list (op V D)) (subject result : graph V D G) fuel,
  (forall u v, can_bind u v = true -> forall x, const u = Some x -> const v = Some x) ->
  (* the pattern reads all its inputs and computes all its outputs *)
  (forall u, In u ins -> live pattern (fun _ => False) u) ->
  (forall v, In v outs -> written pattern v) ->
  same_function sem const veqb ins outs pattern replacement ->
  (* literals of the subject are never assigned *)
  (forall v, written (gops subject) v \/ In v (gins subject) -> const v = None) ->
  (forall before here after mu, gops subject = before ++ here ++ after ->
     is_match deqb can_bind pattern here mu ->
     (forall u, ~ occurs pattern u -> mu u = u) ->
     safe_match const outs pattern replacement mu
       (live after (fun u => In u (gouts subject)))) ->
  replace veqb deqb fuel pattern replacement subject can_bind = Some result ->
  forall xs ys, run_graph sem const veqb subject xs = Some ys ->
    run_graph sem const veqb result xs = Some ys.
Proof.
  intros V D G X veqb deqb sem const R Hd cb ins outs p r subj res fuel
    Hcb Hins Houts Hsf Hc Hsafe H xs ys Hrun.
  destruct (C40_replace_is_greedy_rewriting V D G veqb deqb R cb p r subj res fuel H)
    as (Ei & Eo & _ & Hrw).
  unfold run_graph in *. rewrite Ei, Eo.
  destruct (assign veqb const (gins subj) xs) as [r0|] eqn:A; [|discriminate].
  destruct (run sem veqb r0 (gops subj)) as [r1|] eqn:E; [|discriminate].
  assert (Ok0 : env_ok const r0).
  { intros u x Cu. destruct (assign_get veqb R const const _ _ _ _ (fun w => eq_refl) A) as [_ Q].
    rewrite Q; [exact Cu|]. intro I. rewrite (Hc u) in Cu by now right. discriminate. }
  destruct (rewrites_preserve veqb deqb R sem const Hd cb p r ins outs
              (fun u => In u (gouts subj)) Hcb Hins Houts Hsf _ _ Hrw
              (fun v W => Hc v (or_introl W)) Hsafe r0 r0 r1 Ok0 Ok0 (fun _ _ => eq_refl) E)
    as (s1 & -> & Ag).
  rewrite <- (lookups_ext (r := r1) (s := s1) (gouts subj) (gouts subj)); [exact Hrun|].
  now apply map_ext_in.
Qed.
Print Assumptions C42_replace_preserves_meaning.

(** ** Concrete cases.  Variables are numbers, from 100 on they stand for
    literals; operations on integers. *)
Definition ex_const (v : nat) : option Z :=
  if v <? 100 then None else Some (Z.of_nat (v - 100)).
Definition ex_sem (d : nat) (a : list Z) : option (list Z) :=
  match d, a with
  | 0, [x; y] => Some [(x + y)%Z]
  | 1, [x; y] => Some [(x * y)%Z]
  | 2, [x] => Some [(- x)%Z]
  | 3, [x; y] => Some [(x - y)%Z]
  | _, _ => None
  end.
Definition ex_bind (u v : nat) : bool :=
  if u <? 100 then v <? 100 else v =? u.
(** pattern: y = -x; z = w + y.   replacement: z = w - x. *)
Definition ex_pat : list (op nat nat) := [Op 2 [0] [1]; Op 0 [2; 1] [3]].
Definition ex_rep : list (op nat nat) := [Op 3 [2; 0] [3]].
Definition ex_subj : graph nat nat unit :=
  Graph unit [10; 11] [15]
    [Op 1 [10; 102] [14]; Op 2 [14] [12]; Op 0 [11; 12] [13]; Op 1 [13; 13] [15]] tt.

Example ex_match :
  gmatch Nat.eqb Nat.eqb ex_pat [Op 2 [14] [12]; Op 0 [11; 12] [13]] ex_bind
  = Some [(0, 14); (1, 12); (2, 11); (3, 13)].
Proof. reflexivity. Qed.
Example ex_no_match :
  gmatch Nat.eqb Nat.eqb ex_pat [Op 2 [14] [12]; Op 0 [12; 11] [13]] ex_bind = None.
Proof. reflexivity. Qed.

Example ex_replace :
  replace Nat.eqb Nat.eqb 5 ex_pat ex_rep ex_subj ex_bind =
  Some (Graph unit [10; 11] [15]
    [Op 1 [10; 102] [14]; Op 3 [11; 14] [13]; Op 1 [13; 13] [15]] tt).
Proof. reflexivity. Qed.

Lemma ex_same : same_function ex_sem ex_const Nat.eqb [0; 2] [3] ex_pat ex_rep.
Proof.
  intros r r' _ _ Ag r1. simpl. unfold run_op. simpl.
  rewrite <- (Ag 0), <- (Ag 2) by (simpl; auto).
  destruct (r 0) as [x|]; simpl; [|discriminate].
  destruct (r 2) as [w|]; simpl; [|discriminate].
  intros [= <-]. eexists. split; [reflexivity|]. intros v [<-|[]]. simpl. f_equal.
Qed.

Lemma ex_safe : forall before here after mu,
  gops ex_subj = before ++ here ++ after ->
  is_match Nat.eqb ex_bind ex_pat here mu ->
  (forall u, ~ occurs ex_pat u -> mu u = u) ->
  safe_match ex_const [3] ex_pat ex_rep mu (live after (fun u => In u (gouts ex_subj))).
Proof.
  intros before here after mu E [F _] _.
  inversion F as [|? o1 ? s1 (D1 & I1 & O1) F1 E1 E2]; subst.
  inversion F1 as [|? o2 ? s2 (D2 & I2 & O2) F2 E1 E2]; subst.
  inversion F2; subst.
  apply Nat.eqb_eq in D1. apply Nat.eqb_eq in D2. simpl in *.
  destruct o1 as [d1 i1 u1], o2 as [d2 i2 u2]. simpl in *. subst.
  destruct before as [|b0 before]; [discriminate E|].
  injection E as Eb E. clear Eb.
  destruct before as [|b1 before]; simpl in E.
  2:{ injection E as Eb E. destruct before as [|b2 before]; [discriminate E|].
      injection E as Eb2 E. destruct before as [|b3 before]; [discriminate E|].
      injection E as Eb3 E. destruct before; discriminate E. }
  injection E as M0 M1 M2 M1' M3 Ea. subst after.
  unfold safe_match, written, occurs. repeat split.
  - intros v u (o & [<-|[<-|[]]] & Hv) (o' & [<-|[<-|[]]] & Hu); simpl in Hv, Hu;
      intuition (subst; congruence).
  - intros v u (o & [<-|[]] & Hv) Hu; simpl in Hv.
    assert (u = 2 \/ u = 0 \/ u = 3).
    { destruct Hu as [(o' & [<-|[]] & Hu)|Hu]; simpl in Hu; intuition (subst; congruence). }
    intuition (subst; congruence).
  - intros v (o & [<-|[<-|[]]] & Hv) Ni; simpl in *; intuition (subst; congruence).
  - intros v (o & [<-|[]] & Hv) Ni; simpl in *; intuition (subst; congruence).
  - intros v (o & [<-|[]] & Hv); simpl in *. destruct Hv as [<-|[]].
    rewrite <- M3. reflexivity.
Qed.

Example C42_hypotheses_met :
  (forall u v, ex_bind u v = true -> forall x, ex_const u = Some x -> ex_const v = Some x) /\
  (forall u, In u [0; 2] -> live ex_pat (fun _ => False) u) /\
  (forall v, In v [3] -> written ex_pat v) /\
  (forall v, written (gops ex_subj) v \/ In v (gins ex_subj) -> ex_const v = None) /\
  run_graph ex_sem ex_const Nat.eqb ex_subj [5; 7]%Z = Some [9%Z].
Proof.
  repeat split.
  - intros u v H x Hx. unfold ex_bind, ex_const in *.
    destruct (u <? 100) eqn:Eu; [discriminate|]. apply Nat.eqb_eq in H. subst. now rewrite Eu.
  - intros u [<-|[<-|[]]]; simpl; intuition discriminate.
  - intros v [<-|[]]. exists (Op 0 [2; 1] [3]). simpl. auto.
  - intros v [(o & [<-|[<-|[<-|[<-|[]]]]] & Hv)|Hv]; simpl in Hv; intuition (subst; reflexivity).
Qed.

(** The side conditions of C42 are needed: the code checks none of them.
    (a) A matched internal variable that is also an output of the graph is no
    longer computed. *)
Theorem C42_internal_variable_needed_refuted :
  let g := Graph unit [10; 11] [13; 12] [Op 2 [10] [12]; Op 0 [11; 12] [13]] tt in
  exists g', replace Nat.eqb Nat.eqb 5 ex_pat ex_rep g ex_bind = Some g' /\
    run_graph ex_sem ex_const Nat.eqb g [5; 7]%Z = Some [2; -5]%Z /\
    run_graph ex_sem ex_const Nat.eqb g' [5; 7]%Z = None.
Proof. eexists. repeat split; reflexivity. Qed.

(** (b) A pattern input bound to a variable computed inside the match: pattern
    [y = -x; z = -u] with inputs x, u and outputs y, z, replaced by the same two
    operations in the other order. *)
Definition two_neg : list (op nat nat) := [Op 2 [0] [1]; Op 2 [2] [3]].
Definition two_neg' : list (op nat nat) := [Op 2 [2] [3]; Op 2 [0] [1]].
Lemma two_neg_same : same_function ex_sem ex_const Nat.eqb [0; 2] [1; 3] two_neg two_neg'.
Proof.
  intros r r' _ _ Ag r1.
  pose proof (Ag 0 ltac:(simpl; auto)) as A0. pose proof (Ag 2 ltac:(simpl; auto)) as A2.
  simpl. unfold run_op. simpl.
  destruct (r 0) as [x|]; simpl; [|discriminate].
  destruct (r 2) as [w|]; simpl; [|discriminate].
  intros [= <-]. rewrite <- A2. simpl. rewrite <- A0. simpl.
  eexists. split; [reflexivity|]. intros v [<-|[<-|[]]]; reflexivity.
Qed.
Theorem C42_input_bound_inside_match_refuted :
  let g := Graph unit [10] [12] [Op 2 [10] [11]; Op 2 [11] [12]] tt in
  exists g', replace Nat.eqb Nat.eqb 5 two_neg two_neg' g ex_bind = Some g' /\
    run_graph ex_sem ex_const Nat.eqb g [5]%Z = Some [5]%Z /\
    run_graph ex_sem ex_const Nat.eqb g' [5]%Z = None.
Proof. eexists. repeat split; reflexivity. Qed.

(** (c) A replacement with an internal variable that the subject uses: x + x
    becomes t = -x; z = x - t with internal variable t = 11. *)
Definition dbl : list (op nat nat) := [Op 0 [0; 0] [1]].
Definition dbl' : list (op nat nat) := [Op 2 [0] [11]; Op 3 [0; 11] [1]].
Lemma dbl_same : same_function ex_sem ex_const Nat.eqb [0] [1] dbl dbl'.
Proof.
  intros r r' _ _ Ag r1.
  pose proof (Ag 0 ltac:(simpl; auto)) as A0.
  simpl. unfold run_op. simpl.
  destruct (r 0) as [x|]; simpl; [|discriminate].
  intros [= <-]. rewrite <- A0. simpl. rewrite <- A0. simpl.
  eexists. split; [reflexivity|]. intros v [<-|[]]; simpl. f_equal. lia.
Qed.
Theorem C42_replacement_variable_captured_refuted :
  let g := Graph unit [10; 11] [13] [Op 0 [10; 10] [12]; Op 1 [12; 11] [13]] tt in
  exists g', replace Nat.eqb Nat.eqb 5 dbl dbl' g ex_bind = Some g' /\
    run_graph ex_sem ex_const Nat.eqb g [5; 7]%Z = Some [70]%Z /\
    run_graph ex_sem ex_const Nat.eqb g' [5; 7]%Z = Some [-50]%Z.
Proof. eexists. repeat split; reflexivity. Qed.
