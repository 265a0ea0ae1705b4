(** Specification for C78: which changes of a Jaxpr leave its meaning as it is. *)
From Verif Require Import Base Tensor GraphEditor JaxBound.

Definition variable (v : jvar) : bool := match v with Var _ => true | _ => false end.

(** Equations can be executed in this order: operands are literals or variables
    known before, and every output variable is new. *)
Fixpoint schedule {D} (known : list jvar) (ops : list (op jvar D)) : Prop :=
  match ops with
  | [] => True
  | o :: ops' =>
      (forall v, In v (oins o) -> (exists n, v = Lit n) \/ (variable v = true /\ In v known)) /\
      (forall v, In v (oouts o) -> variable v = true -> ~ In v known) /\
      NoDup (filter variable (oouts o)) /\
      schedule (known ++ oouts o) ops'
  end.
(** The variables known after executing the equations. *)
Definition known_after {D} (known : list jvar) (ops : list (op jvar D)) : list jvar :=
  known ++ flat_map (@oouts _ _) ops.

(** [q] consists of some of the equations of [p], in any order; the same
    argument, constants, literals and result. *)
Definition part_of {T} (p q : program T) : Prop :=
  gins (p_graph q) = gins (p_graph p) /\ gouts (p_graph q) = gouts (p_graph p) /\ gdata (p_graph q) = gdata (p_graph p) /\
  p_lits q = p_lits p /\ (forall o, In o (gops (p_graph q)) -> In o (gops (p_graph p))).

(** [p] can be executed in the order in which it is written. *)
Definition executable {T} (p : program T) : Prop :=
  let known := gdata (p_graph p) ++ gins (p_graph p) in
  schedule known (gops (p_graph p)) /\
  forall v, In v (gouts (p_graph p)) -> (exists n, v = Lit n) \/ (variable v = true /\ In v (known_after known (gops (p_graph p)))).

(** The variables that occur in a program. *)
Definition occurs {T} (p : program T) (n : nat) : Prop :=
  In (Var n) (gdata (p_graph p) ++ gins (p_graph p) ++ gouts (p_graph p) ++
              flat_map (fun o => oins o ++ oouts o) (gops (p_graph p))).

(** [name] gives the new name of each variable; [hoist] the constant that takes
    the place of a literal, if any. *)
Definition new_operand (name : nat -> nat) (hoist : nat -> option nat) (v : jvar) : jvar :=
  match v with
  | Var n => Var (name n)
  | Lit n => match hoist n with Some c => Var c | None => Lit n end
  | Drop => Drop
  end.
Definition new_output (name : nat -> nat) (v : jvar) : jvar :=
  match v with Var n => Var (name n) | _ => v end.
Definition rewritten {T} (name : nat -> nat) (hoist : nat -> option nat) (new : list nat) (p : program T) : program T :=
  let g := p_graph p in
  Program (@Graph jvar (prim T) (list jvar) (map (new_output name) (gins g)) (map (new_operand name hoist) (gouts g))
                 (map (fun o => Op (odata o) (map (new_operand name hoist) (oins o)) (map (new_output name) (oouts o))) (gops g))
                 (map (new_output name) (gdata g) ++ map Var new))
          (p_lits p).
