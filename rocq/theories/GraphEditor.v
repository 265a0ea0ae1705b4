(** Model of /repo/autobound/graph_editor.py.

    A variable is any type with a decidable equality ([veqb], Python's [==] on
    hashables); operation data is any type with a Python [==] ([deqb], which
    need not be an equivalence: jaxpr_editor supplies its own). *)
From Verif Require Import Base.

Section Graph.
Context {V D : Type} (veqb : V -> V -> bool) (deqb : D -> D -> bool).

(** graph_editor.py:33-37 [class Operation]. *)
Record op := Op { odata : D; oins : list V; oouts : list V }.

(** graph_editor.py:46-51 [class ComputationGraph]; [data] is [G]. *)
Record graph {G : Type} := Graph {
  gins : list V; gouts : list V; gops : list op; gdata : G }.
Arguments graph : clear implicits.

(** Python dicts, in insertion order: [u in m], [m[u]], [m.get(u, u)]. *)
Definition vmap := list (V * V).
Fixpoint vlookup (m : vmap) (u : V) : option V :=
  match m with
  | [] => None
  | (a, b) :: m' => if veqb a u then Some b else vlookup m' u
  end.
Definition vget (m : vmap) (u : V) : V :=
  match vlookup m u with Some v => v | None => u end.
(** [m[u] = v] (overwrites in place). *)
Fixpoint vset (m : vmap) (u v : V) : vmap :=
  match m with
  | [] => [(u, v)]
  | (a, b) :: m' => if veqb a u then (a, v) :: m' else (a, b) :: vset m' u v
  end.

(** graph_editor.py:39-42 [Operation.subs]. *)
Definition subs (m : vmap) (o : op) : op :=
  Op (odata o) (map (vget m) (oins o)) (map (vget m) (oouts o)).

(** graph_editor.py:53-59 [intermediate_variables]; a list instead of a set. *)
Definition intermediate_variables {G} (g : graph G) : list V :=
  gins g ++ gouts g ++ flat_map (fun o => oins o ++ oouts o) (gops g).

(** graph_editor.py:95-104: the inner loop of [match] over
    [chain(zip(inputs), zip(outputs))]. *)
Fixpoint bind_pairs (can_bind : V -> V -> bool) (m : vmap) (l : list (V * V))
  : option vmap :=
  match l with
  | [] => Some m
  | (u, v) :: l' =>
      match vlookup m u with
      | Some w => if veqb w v then bind_pairs can_bind m l' else None
      | None => if can_bind u v then bind_pairs can_bind (vset m u v) l' else None
      end
  end.

(** graph_editor.py:90-104: the loop [for p, s in zip(pattern, subject)]. *)
Fixpoint match_loop (can_bind : V -> V -> bool) (m : vmap)
    (l : list (op * op)) : option vmap :=
  match l with
  | [] => Some m
  | (p, s) :: l' =>
      if negb (length (oins p) =? length (oins s)) ||
         negb (length (oouts p) =? length (oouts s)) then None
      else if negb (deqb (odata p) (odata s)) then None
      else match bind_pairs can_bind m
                   (combine (oins p) (oins s) ++ combine (oouts p) (oouts s)) with
           | None => None
           | Some m' => match_loop can_bind m' l'
           end
  end.

(** graph_editor.py:62-105 [match]. *)
Definition gmatch (pattern subject : list op) (can_bind : V -> V -> bool)
  : option vmap :=
  if negb (length pattern =? length subject) then None
  else match_loop can_bind [] (combine pattern subject).

(** graph_editor.py:133-144: the state of the [while] loop is (i,
    output_operations); one test-and-iteration of the loop either leaves it
    ([inr out]) or gives the next state. *)
Definition replace_step (pattern replacement ops : list op)
    (can_bind : V -> V -> bool) (st : nat * list op)
  : (nat * list op) + list op :=
  let '(i, out) := st in
  if i <? length ops then
    let subgraph := firstn (length pattern) (skipn i ops) in
    match gmatch pattern subgraph can_bind with
    | Some m => inl (i + length pattern, out ++ map (subs m) replacement)
    | None =>
        match nth_error ops i with
        | Some o => inl (i + 1, out ++ [o])
        | None => inl (i + 1, out)      (* unreachable: i < length ops *)
        end
    end
  else inr out.

(** Running the loop for at most [fuel] tests; [None] when still running. *)
Fixpoint replace_run (fuel : nat) (pattern replacement ops : list op)
    (can_bind : V -> V -> bool) (st : nat * list op) : option (list op) :=
  match fuel with
  | 0 => None
  | S f => match replace_step pattern replacement ops can_bind st with
           | inr out => Some out
           | inl st' => replace_run f pattern replacement ops can_bind st'
           end
  end.

(** graph_editor.py:108-151 [replace]; [None] means "still running after
    [fuel] loop tests". *)
Definition replace {G} (fuel : nat) (pattern replacement : list op)
    (subject : graph G) (can_bind : V -> V -> bool) : option (graph G) :=
  match replace_run fuel pattern replacement (gops subject) can_bind (0, []) with
  | None => None
  | Some out => Some (Graph G (gins subject) (gouts subject) out (gdata subject))
  end.
End Graph.
Arguments op : clear implicits.
Arguments graph : clear implicits.
Arguments vmap : clear implicits.
