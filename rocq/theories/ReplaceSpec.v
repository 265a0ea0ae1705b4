(** Specification for jaxpr_editor.replace with patterns and replacements of any
    length: what a Jaxpr computes, and when rewriting is safe.  Nothing here
    mentions counts-to-variables dictionaries, offsets or graphs of
    intermediate variables. *)
From Verif Require Import Base GraphEditor GraphSpec JaxprEditor JaxprSpec PipelineSpec.

(** ** What a Jaxpr computes *)
Section Eval.
Context {X : Type} (sem : eqn_data -> list X -> option (list X)) (litv : Z -> X).
(** The value of a literal is known; variables are objects. *)
Definition atom_const (a : atom) : option X :=
  match a with AVar _ => None | ALit _ x _ => Some (litv x) end.
Definition eqn_op (e : eqn) : op atom eqn_data := Op (edata e) (eqn_reads e) (eqn_writes e).
Definition atom_graph (j : jaxpr) : graph atom eqn_data unit :=
  Graph unit (jconst j ++ jins j) (jouts j) (map eqn_op (jeqns j)) tt.
(** Bind constants and inputs, run the equations in order, read the outputs. *)
Definition eval_jaxpr (j : jaxpr) (args : list X) : option (list X) :=
  run_graph sem atom_const atom_eqb (atom_graph j) args.
End Eval.

(** ** Well-formed patterns and replacements *)
(** Every variable is bound before it is read or returned. *)
Fixpoint closed_eqns (bound : list atom) (es : list eqn) (outs : list atom) : Prop :=
  match es with
  | [] => forall v, In (AVar v) outs -> In (AVar v) bound
  | e :: es' => (forall v, In (AVar v) (eqn_reads e) -> In (AVar v) bound) /\
                closed_eqns (bound ++ eqn_writes e) es' outs
  end.
Definition writes (es : list eqn) : list atom := flat_map eqn_writes es.

(** Common to pattern and replacement: no constants, each variable is bound
    once, nothing is dropped, everything is bound before use, the outputs are
    distinct and computed by the equations. *)
Record scoped (j : jaxpr) : Prop := {
  sc_traced : traced j;
  sc_once : NoDup (binders j);
  sc_kept : forall v, In (AVar v) (jatoms j) -> vcount v <> (-1)%Z;
  sc_closed : closed_eqns (jins j) (jeqns j) (jouts j);
  sc_outs : NoDup (jouts j);
  sc_out : forall a, In a (jouts j) -> In a (writes (jeqns j)) }.
(** The pattern also reads all its inputs. *)
Definition good_pattern (j : jaxpr) : Prop :=
  scoped j /\ forall a, In a (jins j) -> exists e, In e (jeqns j) /\ In a (eqn_reads e).
(** The replacement computes nothing but its outputs (its other variables would
    be shared between all the places it is inserted, see C43). *)
Definition good_replacement (j : jaxpr) : Prop :=
  scoped j /\ forall a, In a (writes (jeqns j)) -> In a (jouts j).

(** ** Occurrences of a pattern *)
(** What the atoms of the pattern stand for in the equations [here]. *)
Definition eqn_pairs (pe : eqn * eqn) : list (atom * atom) :=
  combine (eqn_reads (fst pe)) (eqn_reads (snd pe)) ++ combine (eqn_writes (fst pe)) (eqn_writes (snd pe)).
Definition bindings (pat here : list eqn) : list (atom * atom) := flat_map eqn_pairs (combine pat here).
(** [here] is an instance of the pattern: same operations, a variable for each
    variable (the same one everywhere), a literal of the same value for each
    literal. *)
Definition match_at (pat here : list eqn) : Prop :=
  Forall2 (fun p e => data_rel (edata p) (edata e) /\
             length (eqn_reads p) = length (eqn_reads e) /\
             length (eqn_writes p) = length (eqn_writes e)) pat here /\
  (forall a b, In (a, b) (bindings pat here) ->
     match a, b with
     | AVar _, AVar _ => True
     | ALit _ x _, ALit _ y _ => x = y
     | _, _ => False
     end) /\
  (forall v w w', In (AVar v, AVar w) (bindings pat here) -> In (AVar v, AVar w') (bindings pat here) ->
     vcount w = vcount w' /\ vaval w = vaval w').
(** An occurrence can be replaced: (a) no input of the pattern stands for a
    variable computed inside the occurrence; (b) intermediate results of the
    occurrence are not used later; (c) it has no dropped result. *)
Definition clean (pat : jaxpr) (here after : list eqn) (outs : list atom) : Prop :=
  (forall v w, In (AVar v) (jins pat) -> In (AVar v, AVar w) (bindings (jeqns pat) here) ->
     ~ In (AVar w) (writes here)) /\
  (forall v w, In (AVar v) (writes (jeqns pat)) -> ~ In (AVar v) (jouts pat) ->
     In (AVar v, AVar w) (bindings (jeqns pat) here) ->
     ~ In (AVar w) (flat_map eqn_reads after ++ outs)) /\
  (forall v w, In (AVar v, AVar w) (bindings (jeqns pat) here) -> vcount w <> (-1)%Z).
Definition all_clean (pat subject : jaxpr) : Prop :=
  forall before here after, jeqns subject = before ++ here ++ after ->
  match_at (jeqns pat) here -> clean pat here after (jouts subject).

(** The subject: as traced by jax; dropped outputs apart, a variable is bound once. *)
Definition kept (a : atom) : bool := match a with AVar v => negb (vcount v =? -1)%Z | ALit _ _ _ => true end.
Definition good_subject (j : jaxpr) : Prop := traced j /\ NoDup (filter kept (binders j)).
