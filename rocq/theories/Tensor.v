(** n-dimensional arrays.  This file models the part of numpy / jax.numpy the
    repository calls (the [NumpyLike] protocol, /repo/autobound/types.py:228-681);
    the semantics is numpy's documented one, and is part of the trusted base. *)
From Verif Require Import Base.

(** An array is a shape and a function from index tuples to scalars; values at
    indices outside the shape are irrelevant. *)
Record tensor (T : Type) := mkT { tshape : list nat; tdata : list nat -> T }.
Arguments mkT {T} tshape tdata.
Arguments tshape {T} t.
Arguments tdata {T} t _.

Definition tndim {T} (t : tensor T) : nat := length (tshape t).

(** Valid index tuples of a shape. *)
Definition valid (sh idx : list nat) : Prop := Forall2 (fun i n => i < n) idx sh.

(** All index tuples of a shape in row-major order. *)
Fixpoint all_idx (sh : list nat) : list (list nat) :=
  match sh with
  | [] => [[]]
  | n :: sh' => flat_map (fun i => map (cons i) (all_idx sh')) (seq 0 n)
  end.

Definition to_list {T} (t : tensor T) : list T := map (tdata t) (all_idx (tshape t)).

(** Position of an index tuple in row-major order. *)
Fixpoint ravel (sh idx : list nat) : nat :=
  match sh, idx with
  | _ :: sh', i :: idx' => i * fold_right Nat.mul 1 sh' + ravel sh' idx'
  | _, _ => 0
  end.

(** The array with the given shape and row-major contents. *)
Definition of_list {T} (d : T) (sh : list nat) (l : list T) : tensor T :=
  mkT sh (fun idx => nth (ravel sh idx) l d).

(** A 0-dimensional array; Python numbers are treated as such
    ([NDArrayLike], types.py:81). *)
Definition tscalar {T} (x : T) : tensor T := mkT [] (fun _ => x).

(** ** Broadcasting (numpy's rule: align shapes on the right). *)
Definition padl (n : nat) (sh : list nat) : list nat := repeat 1 (n - length sh) ++ sh.

Definition bdim (a b : nat) : option nat :=
  if a =? b then Some a else if a =? 1 then Some b else if b =? 1 then Some a else None.

Fixpoint zipM (l m : list nat) : option (list nat) :=
  match l, m with
  | [], [] => Some []
  | a :: l', b :: m' =>
      match bdim a b, zipM l' m' with
      | Some d, Some r => Some (d :: r)
      | _, _ => None
      end
  | _, _ => None
  end.

(** [np.broadcast_shapes]. *)
Definition bshape (a b : list nat) : option (list nat) :=
  let n := Nat.max (length a) (length b) in zipM (padl n a) (padl n b).

(** Index into shape [sh] used for index [idx] of a broadcast result. *)
Definition bidx (sh idx : list nat) : list nat :=
  map2 (fun n i => if n =? 1 then 0 else i) sh (skipn (length idx - length sh) idx).

Definition bget {T} (t : tensor T) (idx : list nat) : T := tdata t (bidx (tshape t) idx).

Definition tmap {T U} (f : T -> U) (t : tensor T) : tensor U :=
  mkT (tshape t) (fun I => f (tdata t I)).

(** A binary ufunc: [np.add], [np.multiply], [np.minimum], ... *)
Definition tmap2 {T U V} (f : T -> U -> V) (a : tensor T) (b : tensor U) : res (tensor V) :=
  match bshape (tshape a) (tshape b) with
  | Some sh => Ok (mkT sh (fun I => f (bget a I) (bget b I)))
  | None => Err ValueError
  end.

(** [expand_multiple_dims(a, n, axis)], /repo/autobound/enclosure_arithmetic.py:392-397:
    [a[(colon,)*axis + (None,)*n + (...,)]].  A negative [axis] gives
    [(colon,)*axis == ()], i.e. the same as 0; natural subtraction at the call
    sites does the same.  IndexError if [axis] exceeds the rank. *)
Definition expand_dims_at {T} (a : tensor T) (n axis : nat) : res (tensor T) :=
  if axis <=? tndim a
  then Ok (mkT (firstn axis (tshape a) ++ repeat 1 n ++ skipn axis (tshape a))
               (fun I => tdata a (firstn axis I ++ skipn (axis + n) I)))
  else Err IndexError.

Section Numeric.
Context {T : Type} {N : Num T}.

Fixpoint sumn (n : nat) (f : nat -> T) : T :=
  match n with 0 => n0 | S m => nadd (sumn m f) (f m) end.

(** Sum over all index tuples of a shape. *)
Fixpoint sumi (sh : list nat) (f : list nat -> T) : T :=
  match sh with
  | [] => f []
  | n :: sh' => sumn n (fun i => sumi sh' (fun K => f (i :: K)))
  end.

Definition tadd := tmap2 (nadd (T := T)).
Definition tsub := tmap2 (nsub (T := T)).
Definition tmul := tmap2 (nmul (T := T)).
Definition tmin := tmap2 (nmin (T := T)).
Definition tmax := tmap2 (nmax (T := T)).
Definition tneg : tensor T -> tensor T := tmap nopp.

(** [np.ones_like]. *)
Definition tones_like (a : tensor T) : tensor T := mkT (tshape a) (fun _ => n1).

(** [np.tensordot(a, b, axes=k)] for an integer [k]: contracts the last [k]
    axes of [a] with the first [k] axes of [b]; ValueError on mismatch. *)
Definition ttensordot (k : nat) (a b : tensor T) : res (tensor T) :=
  let na := tndim a - k in
  if (k <=? tndim a) && (k <=? tndim b)
     && shape_eqb (skipn na (tshape a)) (firstn k (tshape b))
  then Ok (mkT (firstn na (tshape a) ++ skipn k (tshape b))
               (fun I => sumi (firstn k (tshape b))
                  (fun K => nmul (tdata a (firstn na I ++ K))
                                 (tdata b (K ++ skipn na I)))))
  else Err ValueError.

(** [np.einsum] for the equation built by [_ndarray_outer_product]
    (/repo/autobound/interval_arithmetic.py:329-337): the first [bd] axes are
    shared, the remaining axes of [a] come first, then those of [b].  Shared
    axes may broadcast if one of them has size 1.  The limit of einsum to a
    fixed alphabet of axis letters is not modelled. *)
Definition teinsum_outer (bd : nat) (a b : tensor T) : res (tensor T) :=
  let ba := firstn bd (tshape a) in
  let bb := firstn bd (tshape b) in
  if (bd <=? tndim a) && (bd <=? tndim b) then
    match zipM ba bb with
    | Some sh =>
        Ok (mkT (sh ++ skipn bd (tshape a) ++ skipn bd (tshape b))
             (fun I =>
                let ib := firstn bd I in
                let ia := firstn (tndim a - bd) (skipn bd I) in
                let ic := skipn (tndim a) I in
                nmul (tdata a (bidx ba ib ++ ia)) (tdata b (bidx bb ib ++ ic))))
    | None => Err ValueError
    end
  else Err ValueError.

(** [np.diag] of a 1-dimensional array. *)
Definition tdiag (a : tensor T) : tensor T :=
  match tshape a with
  | [n] => mkT [n; n] (fun I => match I with
                                | [i; j] => if i =? j then tdata a [i] else n0
                                | _ => n0
                                end)
  | _ => a
  end.

(** [np.eye(n)]. *)
Definition teye (n : nat) : tensor T :=
  mkT [n; n] (fun I => match I with
                       | [i; j] => if i =? j then n1 else n0
                       | _ => n0
                       end).
End Numeric.
