(** Base definitions: Python exceptions as values, the scalar interface, small
    list utilities.  Nothing here models a particular function of /repo; the
    [exn] type lists the exception classes raised by the code. *)
From Coq Require Export List Arith ZArith Lia Bool.
From Coq Require Import QArith Qminmax.
Export ListNotations.
Open Scope nat_scope.

(** Exceptions raised by the Python code (messages are dropped).
    [NonFinite]: the real code would produce nan or +-inf from finite numbers;
    the model stops there.  [Unmodelled]: a branch deliberately left out. *)
Inductive exn :=
| ValueError | NotImplementedError | AssertionError | TypeError
| AttributeError | KeyError | IndexError | NonFinite | Unmodelled.

Definition exn_eqb (a b : exn) : bool :=
  match a, b with
  | ValueError, ValueError | NotImplementedError, NotImplementedError
  | AssertionError, AssertionError | TypeError, TypeError
  | AttributeError, AttributeError | KeyError, KeyError
  | IndexError, IndexError | NonFinite, NonFinite | Unmodelled, Unmodelled => true
  | _, _ => false
  end.

Inductive res (A : Type) := Ok (a : A) | Err (e : exn).
Arguments Ok {A} a.
Arguments Err {A} e.

Definition bind {A B} (x : res A) (k : A -> res B) : res B :=
  match x with Ok a => k a | Err e => Err e end.

Declare Scope res_scope.
Notation "x <- e ;; k" := (bind e (fun x => k))
  (at level 61, e at next level, right associativity) : res_scope.
Notation "' p <- e ;; k" := (bind e (fun p => k))
  (at level 61, p pattern, e at next level, right associativity) : res_scope.
Open Scope res_scope.

Fixpoint mapM {A B} (f : A -> res B) (l : list A) : res (list B) :=
  match l with
  | [] => Ok []
  | x :: l' => y <- f x ;; ys <- mapM f l' ;; Ok (y :: ys)
  end.

(** [functools.reduce(f, l, init)] and Python [for] loops. *)
Fixpoint foldM {A B} (f : A -> B -> res A) (acc : A) (l : list B) : res A :=
  match l with
  | [] => Ok acc
  | x :: l' => acc' <- f acc x ;; foldM f acc' l'
  end.

(** [functools.reduce(f, l)] without initial value (TypeError on []). *)
Definition reduceM {A} (f : A -> A -> res A) (l : list A) : res A :=
  match l with [] => Err TypeError | x :: l' => foldM f x l' end.

(** Python [enumerate]. *)
Fixpoint enumerate_from {A} (i : nat) (l : list A) : list (nat * A) :=
  match l with [] => [] | x :: l' => (i, x) :: enumerate_from (S i) l' end.
Definition enumerate {A} (l : list A) := enumerate_from 0 l.

(** Python tuple repetition [n * t]. *)
Fixpoint rep {A} (n : nat) (l : list A) : list A :=
  match n with 0 => [] | S m => l ++ rep m l end.

Fixpoint map2 {A B C} (f : A -> B -> C) (l : list A) (m : list B) : list C :=
  match l, m with
  | x :: l', y :: m' => f x y :: map2 f l' m'
  | _, _ => []
  end.

Fixpoint list_eqb {A} (eqb : A -> A -> bool) (l m : list A) : bool :=
  match l, m with
  | [], [] => true
  | x :: l', y :: m' => eqb x y && list_eqb eqb l' m'
  | _, _ => false
  end.

Definition shape_eqb : list nat -> list nat -> bool := list_eqb Nat.eqb.

Definition is_ok {A} (r : res A) : bool := match r with Ok _ => true | Err _ => false end.

(** Assertions and guards of the code. *)
Definition guard (b : bool) (e : exn) : res unit := if b then Ok tt else Err e.

(** The scalar operations used by the array code, so that one model runs on
    rationals (tests) and is reasoned about on reals (theorems). *)
Class Num (T : Type) := {
  n0 : T; n1 : T;
  nadd : T -> T -> T; nsub : T -> T -> T; nmul : T -> T -> T; nopp : T -> T;
  nmin : T -> T -> T; nmax : T -> T -> T;
  nltb : T -> T -> bool;
  nofZ : Z -> T
}.

(** [x ** n] for a non-negative integer [n]. *)
Fixpoint npow {T} `{Num T} (x : T) (n : nat) : T :=
  match n with 0 => n1 | S m => nmul x (npow x m) end.

#[export] Instance NumZ : Num Z := {|
  n0 := 0%Z; n1 := 1%Z; nadd := Z.add; nsub := Z.sub; nmul := Z.mul;
  nopp := Z.opp; nmin := Z.min; nmax := Z.max; nltb := Z.ltb;
  nofZ := fun z => z |}.

#[export] Instance NumQ : Num Q := {|
  n0 := 0%Q; n1 := 1%Q;
  nadd := fun a b => Qred (a + b); nsub := fun a b => Qred (a - b);
  nmul := fun a b => Qred (a * b); nopp := fun a => Qred (- a);
  nmin := fun a b => if Qle_bool a b then a else b;
  nmax := fun a b => if Qle_bool a b then b else a;
  nltb := fun a b => negb (Qle_bool b a);
  nofZ := inject_Z |}.
