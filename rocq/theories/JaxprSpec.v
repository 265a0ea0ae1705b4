(** Specification for the Jaxpr comparison and conversions. *)
From Verif Require Import Base GraphEditor GraphSpec JaxprEditor.

(** [sigma] (a renaming of variables) turns atom [a0] into [a1]; literals only
    have to carry the same value. *)
Definition atom_rel (ign : bool) (sigma : var -> atom) (a0 a1 : atom) : Prop :=
  match a0 with
  | AVar v => sigma v = a1 /\ dtype (vaval v) = dtype (atom_aval a1) /\
              (ign = false -> ashape (vaval v) = ashape (atom_aval a1))
  | ALit _ x _ => exists i b, a1 = ALit i x b
  end.

(** Two Jaxprs are equal up to a renaming of variables, ignoring the two
    ignored parameters (0: 'weak_type', 1: 'jvp_jaxpr_fun'), the identity of Python functions, the constants of
    closed Jaxprs, and the shapes of nested Jaxprs. *)
Inductive jequiv : bool -> jaxpr -> jaxpr -> Prop :=
| jequiv_intro : forall ign sigma c0 i0 o0 e0 c1 i1 o1 e1,
    Forall2 (atom_rel ign sigma) c0 c1 ->
    Forall2 (atom_rel ign sigma) i0 i1 ->
    Forall2 (atom_rel ign sigma) o0 o1 ->
    Forall2 (eqn_rel ign sigma) e0 e1 ->
    jequiv ign (Jaxpr c0 i0 o0 e0) (Jaxpr c1 i1 o1 e1)
with eqn_rel : bool -> (var -> atom) -> eqn -> eqn -> Prop :=
| eqn_rel_intro : forall ign sigma p q0 q1 a0 a1 b0 b1,
    (forall k, In k (map fst q0) <-> In k (map fst q1)) ->
    Forall (param_rel q1) q0 ->
    Forall2 (atom_rel ign sigma) a0 a1 ->
    Forall2 (atom_rel ign sigma) b0 b1 ->
    eqn_rel ign sigma (Eqn p q0 a0 b0) (Eqn p q1 a1 b1)
with param_rel : list (nat * pval) -> nat * pval -> Prop :=
| param_ignored : forall q1 k v0, k = 0 \/ k = 1 -> param_rel q1 (k, v0)
| param_same : forall q1 k v0 v1, plookup k q1 = Some v1 -> pval_rel v0 v1 ->
    param_rel q1 (k, v0)
with pval_rel : pval -> pval -> Prop :=
| pval_opaque : forall z, pval_rel (POpaque z) (POpaque z)
| pval_closed : forall j0 j1 c0 c1, jequiv true j0 j1 ->
    pval_rel (PClosed j0 c0) (PClosed j1 c1)
| pval_open : forall j0 j1, jequiv true j0 j1 -> pval_rel (POpen j0) (POpen j1)
| pval_fun : forall f g, pval_rel (PFun f) (PFun g).

(** Two equations carry the same data: the same primitive, the same parameter
    names, and parameter values related as above. *)
Definition data_rel (d0 d1 : eqn_data) : Prop :=
  eprim d0 = eprim d1 /\
  (forall k, In k (map fst (eparams d0)) <-> In k (map fst (eparams d1))) /\
  Forall (param_rel (eparams d1)) (eparams d0).

(** Applying a renaming of variables to a Jaxpr (params untouched). *)
Definition ren_atom (rho : var -> var) (a : atom) : atom :=
  match a with AVar v => AVar (rho v) | ALit i x a => ALit i x a end.
Definition ren_eqn (rho : var -> var) (e : eqn) : eqn :=
  match e with Eqn p q a b => Eqn p q (map (ren_atom rho) a) (map (ren_atom rho) b) end.
Definition ren_jaxpr (rho : var -> var) (j : jaxpr) : jaxpr :=
  match j with Jaxpr c i o e =>
    Jaxpr (map (ren_atom rho) c) (map (ren_atom rho) i) (map (ren_atom rho) o)
          (map (ren_eqn rho) e) end.

(** Atoms of the equations, of a Jaxpr; binding positions. *)
Definition eqn_atoms (e : eqn) : list atom := match e with Eqn _ _ a b => a ++ b end.
Definition jatoms (j : jaxpr) : list atom :=
  jins j ++ jconst j ++ jouts j ++ flat_map eqn_atoms (jeqns j).
Definition binders (j : jaxpr) : list atom :=
  jins j ++ jconst j ++ flat_map (fun e => match e with Eqn _ _ _ b => b end) (jeqns j).

(** [a1] is a copy of [a0] in which variable objects are renamed by [rho] and
    literal objects are new; counts, avals and values are kept. *)
Definition atom_copy (rho : var -> var) (a0 a1 : atom) : Prop :=
  match a0 with
  | AVar v => a1 = AVar (rho v) /\ vcount (rho v) = vcount v /\ vaval (rho v) = vaval v
  | ALit _ x b => exists i, a1 = ALit i x b
  end.
Definition eqn_copy (rho : var -> var) (e0 e1 : eqn) : Prop :=
  match e0, e1 with
  | Eqn p0 q0 a0 b0, Eqn p1 q1 a1 b1 =>
      p1 = p0 /\ q1 = q0 /\ Forall2 (atom_copy rho) a0 a1 /\ Forall2 (atom_copy rho) b0 b1
  end.
Definition jaxpr_copy (rho : var -> var) (j0 j1 : jaxpr) : Prop :=
  Forall2 (atom_copy rho) (jconst j0) (jconst j1) /\
  Forall2 (atom_copy rho) (jins j0) (jins j1) /\
  Forall2 (atom_copy rho) (jouts j0) (jouts j1) /\
  Forall2 (eqn_copy rho) (jeqns j0) (jeqns j1).

(** The function computed by a Jaxpr without constvars, through its graph. *)
Definition lit_value (u : ivar) : option Z :=
  match u with IVar _ _ => None | ILit x _ => Some x end.
Definition run_jaxpr (sem : eqn_data -> list Z -> option (list Z)) (j : jaxpr)
    (xs : list Z) : option (list Z) :=
  run_graph sem lit_value ivar_eqb (jaxpr_to_graph j 0) xs.
