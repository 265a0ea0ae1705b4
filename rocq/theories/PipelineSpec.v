(** Specification for the rewriting pipeline of taylor_bounds. *)
From Coq Require Import Reals.
From Verif Require Import Base Tensor Enclosure GraphEditor JaxprEditor JaxprSpec JaxBound JaxPipeline.

(** Atoms that are read: operands of equations and outputs of the Jaxpr. *)
Definition eqn_reads (e : eqn) : list atom := match e with Eqn _ _ a _ => a end.
Definition eqn_writes (e : eqn) : list atom := match e with Eqn _ _ _ b => b end.
Definition reads (j : jaxpr) : list atom := flat_map eqn_reads (jeqns j) ++ jouts j.

(** What [jax.make_jaxpr] guarantees: only variables are bound; variable objects
    are identified by their count, except that all dropped outputs carry -1; a
    dropped output is never read. *)
Record traced (j : jaxpr) : Prop := {
  tr_bind : forall a, In a (binders j) -> exists v, a = AVar v;
  tr_id : forall v w, In (AVar v) (jatoms j) -> In (AVar w) (jatoms j) -> vid v = vid w -> v = w;
  tr_count : forall v w, In (AVar v) (jatoms j) -> In (AVar w) (jatoms j) ->
    vcount v = vcount w -> vcount v <> (-1)%Z -> v = w;
  tr_read : forall v, In (AVar v) (reads j) -> vcount v <> (-1)%Z }.

(** A rule that replaces a call [b = d a] by a call [b = d' a]. *)
Inductive call_rule : rule -> eqn_data -> eqn_data -> Prop :=
| call_rule_intro : forall p q p' q' a b a' b',
    vcount a <> vcount b -> vcount a' <> vcount b' ->
    call_rule (Rule (call_jaxpr p q a b) (call_jaxpr p' q' a' b')) (EqnData p q) (EqnData p' q').

(** Equation [e] is a call of [d]: one variable in, one variable out, and the
    comparison of equation data says it is the pattern. *)
Definition is_call (d : eqn_data) (e : eqn) : bool :=
  match e with
  | Eqn p q [AVar _] [AVar _] => eqn_data_eqb d (EqnData p q)
  | _ => false
  end.
Definition edata (e : eqn) : eqn_data := match e with Eqn p q _ _ => EqnData p q end.
(** The data an equation has after applying the rules in order. *)
Fixpoint recall (rules : list (eqn_data * eqn_data)) (e : eqn) : eqn_data :=
  match rules with
  | [] => edata e
  | (d, d') :: rules' =>
      match e with Eqn p q a b =>
        if is_call d e then recall rules' (Eqn (eprim d') (eparams d') a b) else recall rules' e
      end
  end.

(** [j'] is [j] with other variable and literal objects (counts, literal values
    and, except for dropped outputs, avals are the same; in a [traced] Jaxpr the
    count says which variable it is) and the data of every equation changed to
    what [f] says; everything else is the same. *)
Definition atom_new (a a' : atom) : Prop :=
  match a, a' with
  | AVar v, AVar v' => vcount v' = vcount v /\ (vcount v <> (-1)%Z -> vaval v' = vaval v)
  | ALit _ x b, ALit _ x' b' => x' = x /\ b' = b
  | _, _ => False
  end.
Definition eqn_new (f : eqn -> eqn_data) (e e' : eqn) : Prop :=
  edata e' = f e /\ Forall2 atom_new (eqn_reads e) (eqn_reads e') /\
  Forall2 atom_new (eqn_writes e) (eqn_writes e').
Definition jaxpr_new (f : eqn -> eqn_data) (j j' : jaxpr) : Prop :=
  Forall2 atom_new (jconst j) (jconst j') /\ Forall2 atom_new (jins j) (jins j') /\
  Forall2 atom_new (jouts j) (jouts j') /\ Forall2 (eqn_new f) (jeqns j) (jeqns j').

(** The Jaxpr with the data of every equation changed to what [f] says. *)
Definition eqn_with (f : eqn -> eqn_data) (e : eqn) : eqn :=
  match e with Eqn _ _ a b => Eqn (eprim (f e)) (eparams (f e)) a b end.
Definition with_data (f : eqn -> eqn_data) (j : jaxpr) : jaxpr :=
  Jaxpr (jconst j) (jins j) (jouts j) (map (eqn_with f) (jeqns j)).

(** Two primitives compute the same function of one array. *)
Definition same_unary {T} {N : Num T} (sc : scalars T) (p p' : prim T) : Prop :=
  forall x ys, prim_bind sc p [x] = Ok ys -> prim_bind sc p' [x] = Ok ys.

(** A history of registrations; a call that raises leaves the registry as it is
    and the program goes on. *)
Inductive reg_call (G : Type) :=
| RegFunction (name : nat) (pattern : jaxpr) (a b : var) (g : G)
| RegPrimitive (p : nat) (g : G).
Arguments RegFunction {G}. Arguments RegPrimitive {G}.
Definition do_call {G} (r : registry G) (c : reg_call G) : registry G :=
  match c with
  | RegFunction name pattern a b g =>
      match register_elementwise_function r name pattern a b g with Ok r' => r' | Err _ => r end
  | RegPrimitive p g => register_elementwise_primitive r p g
  end.
Definition do_calls {G} (r : registry G) (cs : list (reg_call G)) : registry G := fold_left do_call cs r.
(** The call does not register primitive [p] explicitly. *)
Definition leaves {G} (p : nat) (c : reg_call G) : Prop :=
  match c with RegPrimitive p' _ => p' <> p | _ => True end.
