(** Specification of graph matching and rewriting, independent of the loops of
    graph_editor.py. *)
From Verif Require Import Base GraphEditor.

Section Spec.
Context {V D : Type} (deqb : D -> D -> bool).

Definition op_vars (o : op V D) : list V := oins o ++ oouts o.

(** [u] occurs in some operation of [l]. *)
Definition occurs (l : list (op V D)) (u : V) : Prop :=
  exists o, In o l /\ In u (op_vars o).

(** Applying a total renaming to an operation. *)
Definition rename_op (mu : V -> V) (o : op V D) : op V D :=
  Op (odata o) (map mu (oins o)) (map mu (oouts o)).

(** [p] renamed by [mu] equals [s] (Python dataclass equality). *)
Definition instance_of (mu : V -> V) (p s : op V D) : Prop :=
  deqb (odata p) (odata s) = true /\
  map mu (oins p) = oins s /\ map mu (oouts p) = oouts s.

(** [mu] maps the pattern onto the subject and only uses allowed bindings. *)
Definition is_match (can_bind : V -> V -> bool) (pattern subject : list (op V D))
    (mu : V -> V) : Prop :=
  Forall2 (instance_of mu) pattern subject /\
  forall u, occurs pattern u -> can_bind u (mu u) = true.

(** Greedy left-to-right rewriting. A prefix that matches is replaced as a
    whole (the variables of the replacement that do not occur in the pattern
    are left alone); an operation at which no match starts is kept. *)
Inductive rewrites (can_bind : V -> V -> bool) (pattern replacement : list (op V D))
  : list (op V D) -> list (op V D) -> Prop :=
| rw_nil : rewrites can_bind pattern replacement [] []
| rw_match : forall here rest out mu,
    here <> [] ->
    is_match can_bind pattern here mu ->
    (forall u, ~ occurs pattern u -> mu u = u) ->
    rewrites can_bind pattern replacement rest out ->
    rewrites can_bind pattern replacement (here ++ rest)
      (map (rename_op mu) replacement ++ out)
| rw_keep : forall o rest out,
    (forall here after mu, o :: rest = here ++ after ->
       ~ is_match can_bind pattern here mu) ->
    rewrites can_bind pattern replacement rest out ->
    rewrites can_bind pattern replacement (o :: rest) (o :: out).

(** ** Meaning of a graph

    [sem d args] is the meaning of an operation; an environment gives a value
    to some variables; [const] gives the value of the variables that stand for
    literals (None for ordinary variables). *)
Context {X : Type} (sem : D -> list X -> option (list X)) (const : V -> option X)
  (veqb : V -> V -> bool).

Definition env := V -> option X.
Fixpoint lookups (r : env) (l : list V) : option (list X) :=
  match l with
  | [] => Some []
  | u :: l' => match r u, lookups r l' with
               | Some x, Some xs => Some (x :: xs)
               | _, _ => None
               end
  end.
Fixpoint assign (r : env) (l : list V) (xs : list X) : option env :=
  match l, xs with
  | [], [] => Some r
  | u :: l', x :: xs' => assign (fun w => if veqb u w then Some x else r w) l' xs'
  | _, _ => None
  end.
Definition run_op (r : env) (o : op V D) : option env :=
  match lookups r (oins o) with
  | None => None
  | Some args => match sem (odata o) args with
                 | None => None
                 | Some vals => assign r (oouts o) vals
                 end
  end.
Fixpoint run (r : env) (l : list (op V D)) : option env :=
  match l with
  | [] => Some r
  | o :: l' => match run_op r o with None => None | Some r' => run r' l' end
  end.
(** The function computed by a graph. *)
Definition run_graph {G} (g : graph V D G) (xs : list X) : option (list X) :=
  match assign const (gins g) xs with
  | None => None
  | Some r => match run r (gops g) with
              | None => None
              | Some r' => lookups r' (gouts g)
              end
  end.

Definition env_ok (r : env) : Prop :=
  forall u x, const u = Some x -> r u = Some x.

(** Pattern and replacement compute the same values for the variables [outs]
    from the values of the variables [ins] alone. *)
Definition same_function (ins outs : list V) (pattern replacement : list (op V D)) :=
  forall r r', env_ok r -> env_ok r' -> (forall u, In u ins -> r u = r' u) ->
  forall r1, run r pattern = Some r1 ->
  exists r1', run r' replacement = Some r1' /\
    forall v, In v outs -> r1 v = r1' v.

(** Variables read by [l] before being written, or still needed afterwards. *)
Fixpoint live (l : list (op V D)) (needed : V -> Prop) : V -> Prop :=
  match l with
  | [] => needed
  | o :: l' => fun u => In u (oins o) \/ (live l' needed u /\ ~ In u (oouts o))
  end.
Definition written (l : list (op V D)) (u : V) : Prop :=
  exists o, In o l /\ In u (oouts o).

(** A match [mu] can be rewritten safely when the variables in [needed] are
    needed after it: renaming does not merge a written variable with another
    one (in the pattern, e.g. no pattern input is bound to a variable computed
    by the matched operations; nor in the replacement), the matched internal
    variables are not needed afterwards, and the internal variables of the
    replacement are not needed afterwards either (they are fresh). *)
Definition safe_match (outs : list V) (pattern replacement : list (op V D))
    (mu : V -> V) (needed : V -> Prop) : Prop :=
  (forall v u, written pattern v -> occurs pattern u -> u <> v -> mu u <> mu v) /\
  (forall v u, written replacement v -> occurs replacement u \/ In u outs ->
     u <> v -> mu u <> mu v) /\
  (forall v, written pattern v -> ~ In v outs -> ~ needed (mu v)) /\
  (forall v, written replacement v -> ~ In v outs -> ~ needed (mu v)) /\
  (forall v, written replacement v -> const (mu v) = None).
End Spec.
