(** Property theorems C43 - C45: Jaxpr rewriting, conversion, comparison. *)
From Verif Require Import Base GraphEditor GraphSpec JaxprEditor JaxprSpec GraphProofs JaxprProofs.

(** ** C44 *)
(** Converting to a graph and back copies the Jaxpr: same equations,
    parameters, literals, constvars, invars and outvars; variable objects are
    new but renamed one to one (different variables stay different objects),
    with the same count and aval. Hypothesis: as in every traced Jaxpr, the
    counts of its variables are distinct. *)
Theorem C44_graph_round_trip : forall (j : jaxpr) (next : nat),
  (forall v w, In (AVar v) (jatoms j) -> In (AVar w) (jatoms j) ->
     vcount v = vcount w -> v = w) ->
  exists rho : var -> var,
    jaxpr_copy rho j (graph_to_jaxpr next (jaxpr_to_graph j 0)) /\
    (forall v w, In (AVar v) (jatoms j) -> In (AVar w) (jatoms j) ->
       vid (rho v) = vid (rho w) -> v = w) /\
    (forall v, In (AVar v) (jatoms j) -> next <= vid (rho v)).
Proof. intros j next H. exact (round_trip j next H). Qed.
Print Assumptions C44_graph_round_trip.

(** ** C45 *)
(** The comparison answers True exactly when a renaming of variables turns one
    Jaxpr into the other (see [jequiv] for what is ignored). *)
Theorem C45_comparison_decides : forall ignore_shape j0 j1,
  same_jaxpr ignore_shape j0 j1 = Ok true <-> jequiv ignore_shape j0 j1.
Proof. intros ign j0 j1. exact (proj1 same_jaxpr_iff j0 ign j1). Qed.
Print Assumptions C45_comparison_decides.

(** When every variable of [j0] is bound in it and [j1] binds distinct
    variables, a True answer comes with an injective renaming of variables to
    variables. *)
Theorem C45_true_gives_injective_renaming : forall ignore_shape j0 j1,
  same_jaxpr ignore_shape j0 j1 = Ok true ->
  (forall v, In (AVar v) (jatoms j0) -> In (AVar v) (binders j0)) ->
  (forall a, In a (binders j1) -> exists w, a = AVar w) ->
  NoDup (binders j1) ->
  exists rho : var -> var,
    (forall v w, In (AVar v) (jatoms j0) -> In (AVar w) (jatoms j0) ->
       rho v = rho w -> v = w) /\
    Forall2 (atom_rel ignore_shape (fun v => AVar (rho v))) (jins j0) (jins j1) /\
    Forall2 (atom_rel ignore_shape (fun v => AVar (rho v))) (jconst j0) (jconst j1) /\
    Forall2 (atom_rel ignore_shape (fun v => AVar (rho v))) (jouts j0) (jouts j1) /\
    Forall2 (eqn_rel ignore_shape (fun v => AVar (rho v))) (jeqns j0) (jeqns j1).
Proof.
  intros ign j0 j1 H. apply jequiv_renaming. now apply C45_comparison_decides.
Qed.
Print Assumptions C45_true_gives_injective_renaming.

(** Every renaming that keeps avals is accepted, whatever is nested in the
    parameters ([dicts_ok]: parameter names are distinct, as in any dict). *)
Theorem C45_renamings_accepted : forall ignore_shape j (rho : var -> var),
  dicts_ok j -> (forall v, vaval (rho v) = vaval v) ->
  same_jaxpr ignore_shape j (ren_jaxpr rho j) = Ok true.
Proof.
  intros ign j rho H Hr. apply C45_comparison_decides. now apply (proj1 jequiv_rename).
Qed.
Print Assumptions C45_renamings_accepted.

(** ** Concrete Jaxprs.  Primitives: 0 add, 1 mul, 2 neg, 3 sub; all avals are
    scalar float32 (dtype 7). *)
Definition f32 : aval := Aval 7 [] false.
Definition cv (i : nat) : atom := AVar (MkVar i (Z.of_nat i) f32).
Definition eq_ (p : nat) (a b : list atom) : eqn := Eqn p [(5, POpaque 3)] a b.
Definition jsem (d : eqn_data) (a : list Z) : option (list Z) :=
  match eprim d, a with
  | 0, [x; y] => Some [(x + y)%Z]
  | 1, [x; y] => Some [(x * y)%Z]
  | 2, [x] => Some [(- x)%Z]
  | 3, [x; y] => Some [(x - y)%Z]
  | _, _ => None
  end.

Definition ex_j : jaxpr := (* 2 * (x + y) with a literal *)
  Jaxpr [] [cv 0; cv 1] [cv 3] [eq_ 0 [cv 0; cv 1] [cv 2]; eq_ 1 [ALit 90 2 f32; cv 2] [cv 3]].
Example C44_nonvacuous :
  (forall v w, In (AVar v) (jatoms ex_j) -> In (AVar w) (jatoms ex_j) ->
     vcount v = vcount w -> v = w) /\
  jeqns (graph_to_jaxpr 40 (jaxpr_to_graph ex_j 0)) =
    [eq_ 0 [AVar (MkVar 40 0 f32); AVar (MkVar 41 1 f32)] [AVar (MkVar 42 2 f32)];
     eq_ 1 [ALit 43 2 f32; AVar (MkVar 42 2 f32)] [AVar (MkVar 44 3 f32)]].
Proof.
  split; [|reflexivity]. intros v w Iv Iw E.
  simpl in Iv, Iw. unfold cv in Iv, Iw.
  repeat (destruct Iv as [Iv|Iv]; [injection Iv as <- || discriminate Iv|]); try contradiction;
  repeat (destruct Iw as [Iw|Iw]; [injection Iw as <- || discriminate Iw|]); try contradiction;
  simpl in E; try discriminate E; reflexivity.
Qed.

Example C45_nonvacuous :
  same_jaxpr false ex_j (graph_to_jaxpr 40 (jaxpr_to_graph ex_j 0)) = Ok true /\
  same_jaxpr false ex_j (Jaxpr [] [cv 0; cv 1] [cv 3]
    [eq_ 0 [cv 0; cv 0] [cv 2]; eq_ 1 [ALit 90 2 f32; cv 2] [cv 3]]) = Ok false /\
  NoDup (binders ex_j) /\ dicts_ok ex_j.
Proof.
  split; [reflexivity|]. split; [reflexivity|]. split.
  - simpl. repeat constructor; simpl; intuition discriminate.
  - repeat constructor; simpl; intuition.
Qed.

(** The constants of closed Jaxprs are not compared (the code has a TODO), nor
    are Python functions: "equal" Jaxprs can compute different things. *)
Theorem C45_closed_consts_ignored_refuted :
  let inner := Jaxpr [cv 0] [cv 1] [cv 2] [eq_ 0 [cv 0; cv 1] [cv 2]] in
  same_jaxpr false
    (Jaxpr [] [cv 0] [cv 1] [Eqn 9 [(2, PClosed inner [1%Z])] [cv 0] [cv 1]])
    (Jaxpr [] [cv 0] [cv 1] [Eqn 9 [(2, PClosed inner [5%Z])] [cv 0] [cv 1]]) = Ok true /\
  same_jaxpr false
    (Jaxpr [] [cv 0] [cv 1] [Eqn 9 [(2, PFun 1)] [cv 0] [cv 1]])
    (Jaxpr [] [cv 0] [cv 1] [Eqn 9 [(2, PFun 5)] [cv 0] [cv 1]]) = Ok true.
Proof. split; reflexivity. Qed.

(** ** C43 *)
(** x + x, and x - (-x) with an internal variable. *)
Definition cap_pat : jaxpr := Jaxpr [] [cv 0] [cv 1] [eq_ 0 [cv 0; cv 0] [cv 1]].
Definition cap_rep : jaxpr :=
  Jaxpr [] [cv 0] [cv 2] [eq_ 2 [cv 0] [cv 1]; eq_ 3 [cv 0; cv 1] [cv 2]].
(** (x + x) * (x * y)^2, with its variables numbered consecutively. *)
Definition cap_subj : jaxpr :=
  Jaxpr [] [cv 0; cv 1] [cv 5]
    [eq_ 1 [cv 0; cv 1] [cv 2]; eq_ 1 [cv 2; cv 2] [cv 3];
     eq_ 0 [cv 0; cv 0] [cv 4]; eq_ 1 [cv 4; cv 3] [cv 5]].

Lemma cap_same : forall xs, run_jaxpr jsem cap_pat xs = run_jaxpr jsem cap_rep xs.
Proof.
  intros [|x [|y xs]]; try reflexivity.
  unfold run_jaxpr, run_graph. simpl. unfold run_op. simpl. do 2 f_equal. lia.
Qed.

(** Pattern and replacement compute the same function, the pattern occurs once
    in the subject and its only internal variable is not used elsewhere; the
    rewritten Jaxpr nevertheless computes something else: the replacement's
    internal variable got the number of a live variable of the subject. *)
Theorem C43_replace_captures_variable_refuted :
  exists pattern replacement subject result xs ys ys',
    (forall xs, run_jaxpr jsem pattern xs = run_jaxpr jsem replacement xs) /\
    NoDup (binders subject) /\
    jreplace 10 100 pattern replacement subject = Some (Ok result) /\
    run_jaxpr jsem subject xs = Some ys /\
    run_jaxpr jsem result xs = Some ys' /\ ys <> ys'.
Proof.
  exists cap_pat, cap_rep, cap_subj.
  eexists. exists [5; 7]%Z, [12250]%Z, [-50]%Z.
  split; [exact cap_same|]. split.
  { simpl. repeat constructor; simpl; intuition discriminate. }
  split; [reflexivity|]. split; [reflexivity|]. split; [reflexivity|]. discriminate.
Qed.
Print Assumptions C43_replace_captures_variable_refuted.

(** Error branches of replace. *)
Example replace_errors :
  jreplace 5 100 cap_pat cap_subj cap_subj = Some (Err ValueError) /\
  jreplace 5 100 (Jaxpr [cv 7] [cv 0] [cv 1] []) cap_pat cap_subj = Some (Err NotImplementedError) /\
  jreplace 5 100 (Jaxpr [] [] [] []) (Jaxpr [] [] [] []) cap_subj = Some (Err ValueError).
Proof. repeat split; reflexivity. Qed.
