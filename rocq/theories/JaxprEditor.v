(** Model of /repo/autobound/jax/jaxpr_editor.py.

    Jaxprs are jax objects; only what the code looks at is kept: variables
    (object identity, [count], [aval]), literals (object identity, [val],
    [aval]), equations (primitive, params, invars, outvars).  Equation effects
    are not kept ([_graph_to_jaxpr] drops them).  Numbers stand for primitives,
    parameter names, dtypes and opaque parameter values.  A literal's [val] is
    an integer (Python [==] on it is equality). *)
From Verif Require Import Base GraphEditor.

Record aval := Aval { dtype : nat; ashape : list nat; weak : bool }.
Record var := MkVar { vid : nat; vcount : Z; vaval : aval }.
Inductive atom :=
| AVar (v : var)
| ALit (lid : nat) (val : Z) (a : aval).

Inductive jaxpr :=
| Jaxpr (constvars invars outvars : list atom) (eqns : list eqn)
with eqn :=
| Eqn (prim : nat) (params : list (nat * pval)) (eins eouts : list atom)
with pval :=
| POpaque (z : Z)                              (* compared with != *)
| PClosed (j : jaxpr) (consts : list Z)        (* ClosedJaxpr *)
| POpen (j : jaxpr)                            (* Jaxpr *)
| PFun (f : Z).                                (* a Python function *)

Definition jconst j := match j with Jaxpr c _ _ _ => c end.
Definition jins j := match j with Jaxpr _ i _ _ => i end.
Definition jouts j := match j with Jaxpr _ _ o _ => o end.
Definition jeqns j := match j with Jaxpr _ _ _ e => e end.

Definition aval_eqb (a b : aval) : bool :=
  (dtype a =? dtype b) && shape_eqb (ashape a) (ashape b) && Bool.eqb (weak a) (weak b).
(** Var and Literal objects compare by identity: same object, same fields. *)
Definition var_eqb (v w : var) : bool :=
  (vid v =? vid w) && (vcount v =? vcount w)%Z && aval_eqb (vaval v) (vaval w).
Definition atom_eqb (a b : atom) : bool :=
  match a, b with
  | AVar v, AVar w => var_eqb v w
  | ALit i x a, ALit k y b => (i =? k) && (x =? y)%Z && aval_eqb a b
  | _, _ => false
  end.
Definition atom_aval (a : atom) : aval :=
  match a with AVar v => vaval v | ALit _ _ a => a end.

(** jaxpr_editor.py:239-240 [_match_avals]. *)
Definition match_avals (a0 a1 : aval) (ignore_shape : bool) : bool :=
  (dtype a0 =? dtype a1) && (ignore_shape || shape_eqb (ashape a0) (ashape a1)).

(** jaxpr_editor.py:243-251 [_equiv_literals].  jax's Literal class has no
    attribute [dtype] or [shape] (its slots are val, aval, hash), so both
    [getattr(.., None)] give None and only the values are compared. *)
Definition equiv_literals (v0 v1 : Z) : bool := (v0 =? v1)%Z.

(** jaxpr_editor.py:259-276 [check]; [None] is False, [Some m] is True with
    the updated [var_map]. *)
Fixpoint vm_lookup (m : list (var * atom)) (v : var) : option atom :=
  match m with
  | [] => None
  | (w, a) :: m' => if var_eqb w v then Some a else vm_lookup m' v
  end.
Definition check (ign : bool) (m : list (var * atom)) (v0 v1 : atom)
  : option (list (var * atom)) :=
  match v0 with
  | ALit _ x _ =>
      match v1 with
      | ALit _ y _ => if equiv_literals x y then Some m else None
      | AVar _ => None
      end
  | AVar v =>
      match vm_lookup m v with
      | None => if match_avals (vaval v) (atom_aval v1) ign
                then Some (m ++ [(v, v1)]) else None
      | Some a => if atom_eqb a v1 then Some m else None
      end
  end.
Fixpoint check_all (ign : bool) (m : list (var * atom)) (l : list (atom * atom))
  : option (list (var * atom)) :=
  match l with
  | [] => Some m
  | (v0, v1) :: l' =>
      match check ign m v0 v1 with None => None | Some m' => check_all ign m' l' end
  end.

(** jaxpr_editor.py:211 [_JAXPR_EQN_PARAMS_TO_IGNORE]: parameter name 0 is
    'weak_type', 1 is 'jvp_jaxpr_fun'. *)
Definition ignored (k : nat) : bool := (k =? 0) || (k =? 1).

Fixpoint plookup (k : nat) (q : list (nat * pval)) : option pval :=
  match q with
  | [] => None
  | (k', v) :: q' => if k' =? k then Some v else plookup k q'
  end.
Definition same_keys (q0 q1 : list (nat * pval)) : bool :=
  forallb (fun '(k, _) => existsb (fun '(k', _) => k' =? k) q1) q0 &&
  forallb (fun '(k, _) => existsb (fun '(k', _) => k' =? k) q0) q1.

(** jaxpr_editor.py:218-236: the loop of [_jaxpr_eqn_params_equiv]; [pe]
    compares two values. *)
Definition params_loop (pe : pval -> pval -> res bool) (q1 : list (nat * pval)) :=
  fix go (q0 : list (nat * pval)) : res bool :=
    match q0 with
    | [] => Ok true
    | (k, v0) :: q0' =>
        if ignored k then go q0'
        else match plookup k q1 with
             | None => Err KeyError
             | Some v1 => b <- pe v0 v1 ;; if b : bool then go q0' else Ok false
             end
    end.
(** jaxpr_editor.py:214-236 [_jaxpr_eqn_params_equiv]. *)
Definition params_equiv_with (pe : pval -> pval -> res bool)
    (q0 q1 : list (nat * pval)) : res bool :=
  if negb (same_keys q0 q1) then Ok false else params_loop pe q1 q0.

(** jaxpr_editor.py:290-301: the loop over equations; [pq] compares
    the params of two equations. *)
Definition eqns_loop (ign : bool)
    (pq : list (nat * pval) -> list (nat * pval) -> res bool) :=
  fix go (e0 : list eqn) (m : list (var * atom)) (e1 : list eqn) : res bool :=
    match e0, e1 with
    | Eqn p0 q0 a0 b0 :: e0', Eqn p1 q1 a1 b1 :: e1' =>
        if negb (p0 =? p1) then Ok false else
        b <- pq q0 q1 ;;
        if negb b then Ok false else
        if negb (length a0 =? length a1) || negb (length b0 =? length b1)
        then Ok false else
        match check_all ign m (combine a0 a1 ++ combine b0 b1) with
        | None => Ok false
        | Some m' => go e0' m' e1'
        end
    | _, _ => Ok true
    end.

(** jaxpr_editor.py:254-303 [_same_jaxpr_up_to_variable_renaming] and the
    comparison of parameter values (222-235).  A ClosedJaxpr compared with
    something without [.jaxpr], or a Jaxpr compared with something that is not
    one, raises AttributeError. *)
Fixpoint same_jaxpr (ign : bool) (j0 j1 : jaxpr) {struct j0} : res bool :=
  match j0, j1 with
  | Jaxpr c0 i0 o0 e0, Jaxpr c1 i1 o1 e1 =>
      if negb (length c0 =? length c1) || negb (length i0 =? length i1) ||
         negb (length o0 =? length o1) || negb (length e0 =? length e1)
      then Ok false else
      match check_all ign [] (combine i0 i1 ++ combine c0 c1 ++ combine o0 o1) with
      | None => Ok false
      | Some m => eqns_loop ign (params_equiv_with pval_equiv) e0 m e1
      end
  end
with pval_equiv (v0 v1 : pval) {struct v0} : res bool :=
  match v0 with
  | PClosed j0 _ =>
      match v1 with PClosed j1 _ => same_jaxpr true j0 j1 | _ => Err AttributeError end
  | POpen j0 =>
      match v1 with POpen j1 => same_jaxpr true j0 j1 | _ => Err AttributeError end
  | PFun _ => match v1 with PFun _ => Ok true | _ => Ok false end
  | POpaque x => match v1 with POpaque y => Ok (x =? y)%Z | _ => Ok false end
  end.
Definition params_equiv := params_equiv_with pval_equiv.

(** jaxpr_editor.py:113-121: intermediate variables of graphs. *)
Inductive ivar := IVar (count : Z) (a : aval) | ILit (val : Z) (a : aval).
Definition ivar_eqb (u v : ivar) : bool :=
  match u, v with
  | IVar c a, IVar d b => (c =? d)%Z && aval_eqb a b
  | ILit c a, ILit d b => (c =? d)%Z && aval_eqb a b
  | _, _ => false
  end.

(** jaxpr_editor.py:94-109 [_EqnData] and its [__eq__]; an exception raised by
    the comparison is treated as "different" here (see [params_equiv] for the
    comparison with exceptions). *)
Record eqn_data := EqnData { eprim : nat; eparams : list (nat * pval) }.
Definition eqn_data_eqb (d0 d1 : eqn_data) : bool :=
  (eprim d0 =? eprim d1) &&
  match params_equiv (eparams d0) (eparams d1) with Ok b => b | Err _ => false end.

Definition jgraph := graph ivar eqn_data (list ivar).

(** jaxpr_editor.py:137-148 [get_intermediate_variable]. *)
Definition to_ivar (offset : Z) (a : atom) : ivar :=
  match a with
  | AVar v => IVar (vcount v + offset) (vaval v)
  | ALit _ x a => ILit x a
  end.

(** jaxpr_editor.py:124-165 [_jaxpr_to_graph]. *)
Definition jaxpr_to_graph (j : jaxpr) (offset : Z) : jgraph :=
  Graph _ (map (to_ivar offset) (jins j)) (map (to_ivar offset) (jouts j))
    (map (fun e => match e with Eqn p q a b =>
            Op (EqnData p q) (map (to_ivar offset) a) (map (to_ivar offset) b) end)
         (jeqns j))
    (map (to_ivar offset) (jconst j)).

(** jaxpr_editor.py:168-199 [_graph_to_jaxpr].  The state is the dict
    [count_to_var] and the identity of the next object to be created. *)
Definition gstate := (list (Z * var) * nat)%type.
Fixpoint c2v (m : list (Z * var)) (c : Z) : option var :=
  match m with
  | [] => None
  | (d, v) :: m' => if (d =? c)%Z then Some v else c2v m' c
  end.
(** jaxpr_editor.py:172-183 [vertex_to_var_or_literal]. *)
Definition to_atom (st : gstate) (u : ivar) : atom * gstate :=
  let '(m, n) := st in
  match u with
  | IVar c a =>
      match c2v m c with
      | Some v => (AVar v, st)
      | None => let v := MkVar n c a in (AVar v, (m ++ [(c, v)], S n))
      end
  | ILit x a => (ALit n x a, (m, S n))
  end.
Fixpoint to_atoms (st : gstate) (l : list ivar) : list atom * gstate :=
  match l with
  | [] => ([], st)
  | u :: l' => let '(a, st1) := to_atom st u in
               let '(as_, st2) := to_atoms st1 l' in (a :: as_, st2)
  end.
Fixpoint to_eqns (st : gstate) (l : list (op ivar eqn_data)) : list eqn * gstate :=
  match l with
  | [] => ([], st)
  | o :: l' =>
      let '(a, st1) := to_atoms st (oins o) in
      let '(b, st2) := to_atoms st1 (oouts o) in
      let '(es, st3) := to_eqns st2 l' in
      (Eqn (eprim (odata o)) (eparams (odata o)) a b :: es, st3)
  end.
Definition graph_to_jaxpr (next : nat) (h : jgraph) : jaxpr :=
  let '(es, st1) := to_eqns ([], next) (gops h) in
  let '(i, st2) := to_atoms st1 (gins h) in
  let '(o, st3) := to_atoms st2 (gouts h) in
  let '(c, _) := to_atoms st3 (gdata h) in
  Jaxpr c i o es.

(** jaxpr_editor.py:202-207 [_can_bind]. *)
Definition can_bind (u v : ivar) : bool :=
  match u with
  | IVar _ _ => match v with IVar _ _ => true | ILit _ _ => false end
  | ILit x _ => match v with ILit y _ => (x =? y)%Z | IVar _ _ => false end
  end.

(** jaxpr_editor.py:26-91 [replace].  [fuel] bounds the loop of
    graph_editor.replace (None: still running). *)
Definition ivar_count (u : ivar) : Z := match u with IVar c _ => c | ILit _ _ => -1 end.
Definition jreplace (fuel next : nat) (pattern replacement subject : jaxpr)
  : option (res jaxpr) :=
  if negb (length (jins pattern) =? length (jins replacement)) then Some (Err ValueError)
  else if negb (length (jouts pattern) =? length (jouts replacement)) then Some (Err ValueError)
  else if negb (length (jconst pattern) =? 0) || negb (length (jconst replacement) =? 0)
  then Some (Err NotImplementedError)
  else
    let pg := jaxpr_to_graph pattern 0 in
    match map ivar_count (intermediate_variables pg) with
    | [] => Some (Err ValueError)               (* max() of an empty sequence *)
    | c :: cs =>
        let max_count := fold_left Z.max cs c in
        let rg := jaxpr_to_graph replacement (max_count + 1) in
        let imap := fold_left (fun m '(u, v) => vset ivar_eqb m u v)
                      (combine (gins rg) (gins pg) ++ combine (gouts rg) (gouts pg)) [] in
        match GraphEditor.replace ivar_eqb eqn_data_eqb fuel (gops pg)
                (map (subs ivar_eqb imap) (gops rg)) (jaxpr_to_graph subject 0) can_bind with
        | None => None
        | Some h => Some (Ok (graph_to_jaxpr next h))
        end
    end.
