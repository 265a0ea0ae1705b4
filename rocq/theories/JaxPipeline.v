(** Model of the front half of /repo/autobound/jax/jax_bound.py: the registry of
    elementwise functions, the rewriting of the Jaxpr, and the hand-over of the
    rewritten Jaxpr to the interpreter of JaxBound.v. *)
From Verif Require Import Base Tensor Enclosure GraphEditor JaxprEditor JaxBound.

(** ** The Jaxpr seen by the interpreter *)
(** The interpreter looks variables up by object identity and skips outputs with
    [count == -1] (jax_bound.py:207-209); a literal contributes its value. *)
Definition lit_code (x : Z) : nat :=
  match x with Z0 => 0 | Zpos p => 2 * Pos.to_nat p | Zneg p => 2 * Pos.to_nat p + 1 end.
Definition lit_decode (n : nat) : Z :=
  if Nat.even n then Z.of_nat (Nat.div2 n) else (- Z.of_nat (Nat.div2 n))%Z.
Definition jvar_of (a : atom) : jvar :=
  match a with
  | AVar v => if (vcount v =? -1)%Z then Drop else Var (vid v)
  | ALit _ x _ => Lit (lit_code x)
  end.

Section Program.
Context {T : Type}.
(** [interp]: the primitive an equation binds, with its parameters; [litv]: the
    array a literal stands for. *)
Variables (interp : eqn_data -> prim T) (litv : Z -> tensor T).
Definition program_op (e : eqn) : op jvar (prim T) :=
  match e with Eqn p q a b => Op (interp (EqnData p q)) (map jvar_of a) (map jvar_of b) end.
Definition program_of (j : jaxpr) : program T :=
  Program (@Graph jvar (prim T) (list jvar) (map jvar_of (jins j)) (map jvar_of (jouts j))
             (map program_op (jeqns j)) (map jvar_of (jconst j)))
          (fun n => litv (lit_decode n)).
End Program.

(** ** Rewriting *)
(** jax_bound.py:244-251: a rule is a pair (pattern, replacement). *)
Record rule := Rule { rpattern : jaxpr; rreplacement : jaxpr }.

(** jax_bound.py:307-313 [_rewrite_jaxpr].  [next] is the identity of the next
    object created (each [replace] builds all its variables anew); [fuel]
    bounds the loop inside [replace] (None: still running). *)
Fixpoint rewrite_jaxpr (fuel next : nat) (rules : list rule) (j : jaxpr) : option (res jaxpr) :=
  match rules with
  | [] => Some (Ok j)
  | r :: rules' =>
      match jreplace fuel next (rpattern r) (rreplacement r) j with
      | None => None
      | Some (Err e) => Some (Err e)
      | Some (Ok j1) => rewrite_jaxpr fuel next rules' j1
      end
  end.

(** The Jaxpr [{ lambda ; a. let b = p[q] a in (b,) }]: what [jax.make_jaxpr] gives
    for a jitted function of one array (p is jit, the function is in q) and for
    [Primitive.bind] (jax_bound.py:269). *)
Definition call_jaxpr (p : nat) (q : list (nat * pval)) (a b : var) : jaxpr :=
  Jaxpr [] [AVar a] [AVar b] [Eqn p q [AVar a] [AVar b]].

(** jax_bound.py:89-202 [bound_fun]: the Jaxpr is rewritten, then interpreted (by
    [taylor_bounds] of JaxBound.v, which also raises for a negative degree:
    lines 83-84, before the Jaxpr is built). *)
Definition bound_jaxpr {T} {N : Num T} (interp : eqn_data -> prim T) (litv : Z -> tensor T)
    (sc : scalars T) (gs : generators T) (fuel next : nat) (rules : list rule) (j : jaxpr)
    (consts : list (tensor T)) (max_deg : Z) (propagate : bool) (x0 : tensor T)
    (region : tensor T * tensor T) : option (res (@taylor_bounds_t T)) :=
  if (max_deg <? 0)%Z then Some (Err ValueError)
  else match rewrite_jaxpr fuel next rules j with
       | None => None
       | Some (Err e) => Some (Err e)
       | Some (Ok j') =>
           Some (taylor_bounds sc gs (program_of interp litv j') consts max_deg propagate x0 region)
       end.

(** ** The registry *)
(** jax_bound.py:240-271.  Names of functions, Jaxprs of functions and enclosure
    generators are given; a new primitive is the next object of class
    Primitive, numbered by [next_prim]. *)
Section Registry.
Context {G : Type}.
Record registry := Registry {
  prim_names : list nat;                    (* _PRIMITIVE_NAMES *)
  rewrite_rules : list rule;                (* _JAXPR_REWRITE_RULES *)
  enclosures : list (nat * G);              (* _ELEMENTWISE_PRIMITIVE_ENCLOSURES *)
  next_prim : nat }.

(** [d[k] = v] on a dict. *)
Fixpoint dict_set (d : list (nat * G)) (k : nat) (v : G) : list (nat * G) :=
  match d with
  | [] => [(k, v)]
  | (k', v') :: d' => if k' =? k then (k, v) :: d' else (k', v') :: dict_set d' k v
  end.
Fixpoint dict_get (d : list (nat * G)) (k : nat) : option G :=
  match d with
  | [] => None
  | (k', v) :: d' => if k' =? k then Some v else dict_get d' k
  end.

(** jax_bound.py:227-237 [register_elementwise_primitive]. *)
Definition register_elementwise_primitive (r : registry) (p : nat) (g : G) : registry :=
  Registry (prim_names r) (rewrite_rules r) (dict_set (enclosures r) p g) (next_prim r).

(** jax_bound.py:254-271 [_register_elementwise_function].  [pattern] is
    [jax.make_jaxpr(f)(0.).jaxpr]; [a], [b] are the variables of
    [jax.make_jaxpr(p.bind)(0.).jaxpr].  The registry when an exception is
    raised is the old one. *)
Definition register_elementwise_function (r : registry) (name : nat) (pattern : jaxpr) (a b : var) (g : G)
  : res registry :=
  if existsb (Nat.eqb name) (prim_names r) then Err ValueError
  else
    let p := next_prim r in
    Ok (register_elementwise_primitive
          (Registry (name :: prim_names r)
                    (rewrite_rules r ++ [Rule pattern (call_jaxpr p [] a b)])
                    (enclosures r) (S p)) p g).
End Registry.
Arguments registry : clear implicits.
