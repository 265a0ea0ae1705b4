(** Model of /repo/autobound/jax/jax_bound.py.

    A Jaxpr is the computation graph that jaxpr_editor builds from it
    ([graph] of GraphEditor.v): variables are numbers, literals are numbers
    looked up in a table, equation data is the primitive with its parameters.
    The arrays are those of Tensor.v; their elements are of type [T].  dtypes,
    effects, and the tracing done by [jax.make_jaxpr] are not modelled. *)
From Verif Require Import Base Tensor IntervalArith Polynomials Enclosure GraphEditor.

(** ** The jax.lax primitives (semantics: jax documentation; trusted) *)

(** Position of [j] in [l] (its length if absent). *)
Fixpoint index_of (j : nat) (l : list nat) : nat :=
  match l with [] => 0 | x :: l' => if x =? j then 0 else S (index_of j l') end.
Definition memb (j : nat) (l : list nat) : bool := existsb (Nat.eqb j) l.
Fixpoint nodupb (l : list nat) : bool :=
  match l with [] => true | x :: l' => negb (memb x l') && nodupb l' end.
Definition prod (sh : list nat) : nat := fold_right Nat.mul 1 sh.

(** The index tuple of length [n] whose entries on [axes] come from [K] and
    whose other entries are those of [I] in order (axes [j], [j+1], ...). *)
Fixpoint fill (j n : nat) (axes K I : list nat) : list nat :=
  match n with
  | 0 => []
  | S m => if memb j axes then nth (index_of j axes) K 0 :: fill (S j) m axes K I
           else hd 0 I :: fill (S j) m axes K (tl I)
  end.
(** The entries of [l] (axes [j], [j+1], ...) not on [axes]. *)
Fixpoint drop_axes (j : nat) (axes l : list nat) : list nat :=
  match l with
  | [] => []
  | x :: l' => if memb j axes then drop_axes (S j) axes l' else x :: drop_axes (S j) axes l'
  end.
(** The index tuple at row-major position [k]. *)
Fixpoint unravel (sh : list nat) (k : nat) : list nat :=
  match sh with
  | [] => []
  | _ :: sh' => k / prod sh' :: unravel sh' (k mod prod sh')
  end.

(** An operation whose output entries are sums of input entries: the output
    shape (or an exception) and the input indices added up for an output
    index, both functions of the input shape. *)
Record gather_op := Gather {
  g_shape : list nat -> res (list nat);
  g_src : list nat -> list nat -> list (list nat) }.

(** lax.convert_element_type between floating point types. *)
Definition g_convert : gather_op := Gather (fun s => Ok s) (fun _ I => [I]).
(** lax.reshape. *)
Definition g_reshape (new : list nat) : gather_op :=
  Gather (fun s => if prod s =? prod new then Ok new else Err TypeError)
         (fun s I => [unravel s (ravel new I)]).
(** lax.reduce_sum. *)
Definition g_reduce_sum (axes : list nat) : gather_op :=
  Gather (fun s => if forallb (fun j => j <? length s) axes && nodupb axes
                   then Ok (drop_axes 0 axes s) else Err ValueError)
         (fun s I => map (fun K => fill 0 (length s) axes K I)
                         (all_idx (map (fun j => nth j s 0) axes))).
(** lax.squeeze. *)
Definition g_squeeze (dims : list nat) : gather_op :=
  Gather (fun s => if forallb (fun j => (j <? length s) && (nth j s 0 =? 1)) dims && nodupb dims
                   then Ok (drop_axes 0 dims s) else Err ValueError)
         (fun s I => [fill 0 (length s) dims [] I]).
(** lax.transpose. *)
Definition g_transpose (perm : list nat) : gather_op :=
  Gather (fun s => if (length perm =? length s) && forallb (fun j => j <? length s) perm && nodupb perm
                   then Ok (map (fun j => nth j s 0) perm) else Err TypeError)
         (fun s I => [map (fun j => nth (index_of j perm) I 0) (seq 0 (length s))]).
(** lax.broadcast_in_dim. *)
Fixpoint increasing (l : list nat) : bool :=
  match l with
  | x :: (y :: _) as l' => (x <? y) && increasing l'
  | _ => true
  end.
Definition g_broadcast_in_dim (shape bdims : list nat) : gather_op :=
  Gather (fun s => if (length bdims =? length s) && increasing bdims
                      && forallb (fun j => j <? length shape) bdims
                      && forallb (fun '(n, j) => (n =? 1) || (n =? nth j shape 0)) (combine s bdims)
                   then Ok shape else Err TypeError)
         (fun s I => [map (fun '(n, j) => if n =? 1 then 0 else nth j I 0) (combine s bdims)]).
(** lax.reduce_window_sum, one axis: (window, stride, pad_lo, pad_hi,
    base_dilation, window_dilation). *)
Record window := Window { w_dim : nat; w_stride : nat; w_lo : nat; w_hi : nat; w_base : nat; w_dil : nat }.
Definition w_out (n : nat) (w : window) : nat :=
  let padded := w_lo w + ((n - 1) * w_base w + (if n =? 0 then 0 else 1)) + w_hi w in
  let span := (w_dim w - 1) * w_dil w + 1 in
  if padded <? span then 0 else (padded - span) / w_stride w + 1.
(** Input positions seen by output position [i]. *)
Definition w_src (n : nat) (w : window) (i : nat) : list nat :=
  flat_map (fun k =>
      let p := i * w_stride w + k * w_dil w in
      if p <? w_lo w then []
      else let q := p - w_lo w in
           if (q mod w_base w =? 0) && (q / w_base w <? n) then [q / w_base w] else [])
    (seq 0 (w_dim w)).
Fixpoint w_srcs (s : list nat) (ws : list window) (I : list nat) : list (list nat) :=
  match s, ws, I with
  | n :: s', w :: ws', i :: I' =>
      flat_map (fun p => map (cons p) (w_srcs s' ws' I')) (w_src n w i)
  | _, _, _ => [[]]
  end.
Definition g_reduce_window_sum (ws : list window) : gather_op :=
  Gather (fun s => if (length ws =? length s)
                      && forallb (fun w => (0 <? w_dim w) && (0 <? w_stride w) && (0 <? w_base w) && (0 <? w_dil w)) ws
                   then Ok (map2 w_out s ws) else Err ValueError)
         (fun s I => w_srcs s ws I).

(** lax.conv_general_dilated: the parameters of the primitive.  A specification
    lists the axes (batch, feature, spatial...) of the left operand, (output
    feature, input feature, spatial...) of the right one and (batch, feature,
    spatial...) of the result. *)
Record conv_params := ConvParams {
  c_strides : list nat; c_padding : list (Z * Z); c_lhs_dilation : list nat; c_rhs_dilation : list nat;
  c_lhs_spec : list nat; c_rhs_spec : list nat; c_out_spec : list nat;
  c_feature_groups : nat; c_batch_groups : nat }.
Definition is_perm (l : list nat) : bool := forallb (fun j => j <? length l) l && nodupb l.
(** From the axes of an array to the order of a specification, and back. *)
Definition to_spec (spec l : list nat) : list nat := map (fun j => nth j l 0) spec.
Definition from_spec (spec l : list nat) : list nat := map (fun j => nth (index_of j spec) l 0) (seq 0 (length spec)).
(** Size of an axis with [d - 1] holes between entries; size of the result. *)
Definition dilated (n d : nat) : nat := if n =? 0 then 0 else (n - 1) * d + 1.
(** One spatial axis: sizes of the operands, stride, padding, dilations. *)
Record conv_axis := ConvAxis { x_lhs : nat; x_rhs : nat; x_stride : nat; x_pad : Z * Z; x_ldil : nat; x_rdil : nat }.
Definition x_padded (x : conv_axis) : Z := (Z.of_nat (dilated (x_lhs x) (x_ldil x)) + fst (x_pad x) + snd (x_pad x))%Z.
Definition x_out (x : conv_axis) : nat :=
  let window := Z.of_nat (dilated (x_rhs x) (x_rdil x)) in
  if (x_padded x <? window)%Z then 0 else Z.to_nat ((x_padded x - window) / Z.of_nat (x_stride x)) + 1.
Definition x_valid (x : conv_axis) : bool := (0 <? x_stride x) && (0 <? x_ldil x) && (0 <? x_rdil x) && (0 <=? x_padded x)%Z.
(** The positions (in the left operand, in the kernel) multiplied with each
    other for position [i] of the result. *)
Definition x_src (x : conv_axis) (i : nat) : list (nat * nat) :=
  flat_map (fun k =>
      let q := (Z.of_nat (i * x_stride x + k * x_rdil x) - fst (x_pad x))%Z in
      if (0 <=? q)%Z && (q mod Z.of_nat (x_ldil x) =? 0)%Z && (q / Z.of_nat (x_ldil x) <? Z.of_nat (x_lhs x))%Z
      then [(Z.to_nat (q / Z.of_nat (x_ldil x)), k)] else [])
    (seq 0 (x_rhs x)).
Fixpoint x_srcs (xs : list conv_axis) (I : list nat) : list (list nat * list nat) :=
  match xs, I with
  | x :: xs', i :: I' =>
      flat_map (fun '(p, k) => map (fun '(P, K) => (p :: P, k :: K)) (x_srcs xs' I')) (x_src x i)
  | _, _ => [([], [])]
  end.
Fixpoint x_axes (L K strides : list nat) (pads : list (Z * Z)) (ld rd : list nat) : option (list conv_axis) :=
  match L, K, strides, pads, ld, rd with
  | [], [], [], [], [], [] => Some []
  | l :: L', k :: K', s :: strides', p :: pads', a :: ld', b :: rd' =>
      match x_axes L' K' strides' pads' ld' rd' with
      | Some xs => Some (ConvAxis l k s p a b :: xs)
      | None => None
      end
  | _, _, _, _, _, _ => None
  end.
(** Everything decided by the shapes: sizes of the batch and feature axes, the
    spatial axes.  Operands of different ranks raise ValueError; the other
    invalid parameters raise ValueError or TypeError (not distinguished). *)
Record conv_dims := ConvDims { d_batch : nat; d_out : nat; d_in : nat; d_axes : list conv_axis }.
Definition conv_check (c : conv_params) (sa sb : list nat) : res conv_dims :=
  if negb (length sa =? length sb) then Err ValueError
  else if negb ((length (c_lhs_spec c) =? length sa) && (length (c_rhs_spec c) =? length sa) && (length (c_out_spec c) =? length sa)
                && is_perm (c_lhs_spec c) && is_perm (c_rhs_spec c) && is_perm (c_out_spec c)
                && (0 <? c_feature_groups c) && (0 <? c_batch_groups c)) then Err ValueError
  else match to_spec (c_lhs_spec c) sa, to_spec (c_rhs_spec c) sb with
       | B :: C :: L, F :: G :: K =>
           match x_axes L K (c_strides c) (c_padding c) (c_lhs_dilation c) (c_rhs_dilation c) with
           | Some xs =>
               if (C =? G * c_feature_groups c) && (F mod c_feature_groups c =? 0)
                  && (B mod c_batch_groups c =? 0) && (F mod c_batch_groups c =? 0)
                  && ((c_feature_groups c =? 1) || (c_batch_groups c =? 1)) && forallb x_valid xs
               then Ok (ConvDims B F G xs) else Err ValueError
           | None => Err ValueError
           end
       | _, _ => Err ValueError
       end.
Definition conv_shape (c : conv_params) (d : conv_dims) : list nat :=
  from_spec (c_out_spec c) (d_batch d / c_batch_groups c :: d_out d :: map x_out (d_axes d)).
(** The pairs of entries multiplied and added up for an entry of the result.
    Output features come in groups; group [g] uses the [g]-th block of input
    features, or the [g]-th block of the batch. *)
Definition conv_src (c : conv_params) (d : conv_dims) (I : list nat) : list (list nat * list nat) :=
  match to_spec (c_out_spec c) I with
  | n :: o :: i =>
      let fg := o / (d_out d / c_feature_groups c) in
      let bg := o / (d_out d / c_batch_groups c) in
      flat_map (fun k => map (fun '(P, K) =>
          (from_spec (c_lhs_spec c) (bg * (d_batch d / c_batch_groups c) + n :: fg * d_in d + k :: P),
           from_spec (c_rhs_spec c) (o :: k :: K))) (x_srcs (d_axes d) i)) (seq 0 (d_in d))
  | _ => []
  end.

(** Elementwise primitives with a registered enclosure (jax_bound.py:267-284);
    [User n] is one added by [register_elementwise_primitive]. *)
Inductive elem := Abs | Cbrt | Exp | Log | Logistic | Rsqrt | Sqrt | Sigmoid | Softplus | Swish | User (n : nat).

Inductive jvar := Var (n : nat) | Lit (n : nat) | Drop.

Section Jax.
Context {T : Type} {N : Num T}.
Notation tensor := (tensor T).
Notation coef := (coef T).
Notation enclosure := (enclosure T).
Notation generator := (generator T).

Definition gather (g : gather_op) (u : tensor) : res tensor :=
  sh <- g_shape g (tshape u) ;;
  Ok (mkT sh (fun I => fold_right nadd n0 (map (tdata u) (g_src g (tshape u) I)))).

(** lax.dot_general with dimension_numbers ((lc, rc), (lb, rb)): the output
    axes are the batch axes, the other axes of [a], the other axes of [b]. *)
Definition dot_general (lc rc lb rb : list nat) (a b : tensor) : res tensor :=
  let sa := tshape a in let sb := tshape b in
  let ba := map (fun j => nth j sa 0) lb in
  let ca := map (fun j => nth j sa 0) lc in
  let fa := drop_axes 0 (lb ++ lc) sa in
  if forallb (fun j => j <? length sa) (lb ++ lc) && forallb (fun j => j <? length sb) (rb ++ rc)
     && nodupb (lb ++ lc) && nodupb (rb ++ rc)
     && shape_eqb ba (map (fun j => nth j sb 0) rb) && shape_eqb ca (map (fun j => nth j sb 0) rc)
  then Ok (mkT (ba ++ fa ++ drop_axes 0 (rb ++ rc) sb)
             (fun I => let B := firstn (length lb) I in
                       let Ia := firstn (length fa) (skipn (length lb) I) in
                       let Ib := skipn (length lb + length fa) I in
                       sumi ca (fun K => nmul (tdata a (fill 0 (length sa) (lb ++ lc) (B ++ K) Ia))
                                              (tdata b (fill 0 (length sb) (rb ++ rc) (B ++ K) Ib)))))
  else Err TypeError.

Definition conv_general_dilated (c : conv_params) (a b : tensor) : res tensor :=
  d <- conv_check c (tshape a) (tshape b) ;;
  Ok (mkT (conv_shape c d) (fun I => fold_right nadd n0 (map (fun '(ia, ib) => nmul (tdata a ia) (tdata b ib)) (conv_src c d I)))).

(** The primitives.  [jit_p] and [other_p] carry the function they compute (for
    fixed parameters); [jit_p] is restricted to one operand and one result. *)
Inductive prim :=
| add_p | sub_p | mul_p | div_p | neg_p | pow_p
| integer_pow_p (y : Z)
| dot_general_p (lc rc lb rb : list nat)
| conv_p (c : conv_params)
| broadcast_in_dim_p (shape bdims : list nat)
| elementwise_p (e : elem)
| convert_element_type_p
| reshape_p (new_sizes : list nat)
| reduce_sum_p (axes : list nat)
| reduce_window_sum_p (ws : list window)
| squeeze_p (dims : list nat)
| transpose_p (perm : list nat)
| jit_p (f : tensor -> res tensor)
| other_p (f : list tensor -> res (list tensor)).

(** Scalar functions the arithmetic of [T] does not provide: x / y, x ** y, the
    elementwise primitives, x ** n for a negative integer n. *)
Record scalars := Scalars {
  s_div : T -> T -> res T;
  s_pow : T -> T -> res T;
  s_ipow : T -> Z -> res T;
  s_elem : elem -> T -> res T }.

Variable sc : scalars.

(** Applying a partial scalar function to every element. *)
Definition tmapM (f : T -> res T) (u : tensor) : res tensor :=
  l <- mapM (fun I => f (tdata u I)) (all_idx (tshape u)) ;;
  Ok (of_list n0 (tshape u) l).
Definition tmap2M (f : T -> T -> res T) (u v : tensor) : res tensor :=
  match bshape (tshape u) (tshape v) with
  | None => Err ValueError
  | Some sh => l <- mapM (fun I => f (bget u I) (bget v I)) (all_idx sh) ;;
               Ok (of_list n0 sh l)
  end.

Definition gather_of (p : prim) : option gather_op :=
  match p with
  | broadcast_in_dim_p sh bd => Some (g_broadcast_in_dim sh bd)
  | convert_element_type_p => Some g_convert
  | reshape_p new => Some (g_reshape new)
  | reduce_sum_p axes => Some (g_reduce_sum axes)
  | reduce_window_sum_p ws => Some (g_reduce_window_sum ws)
  | squeeze_p dims => Some (g_squeeze dims)
  | transpose_p perm => Some (g_transpose perm)
  | _ => None
  end.

Definition one_res (r : res tensor) : res (list tensor) := t <- r ;; Ok [t].

(** [eqn.primitive.bind( *args, **params )]. *)
Definition prim_bind (p : prim) (args : list tensor) : res (list tensor) :=
  match p, args with
  | add_p, [a; b] => one_res (tadd a b)
  | sub_p, [a; b] => one_res (tsub a b)
  | mul_p, [a; b] => one_res (tmul a b)
  | div_p, [a; b] => one_res (tmap2M (s_div sc) a b)
  | neg_p, [a] => Ok [tneg a]
  | pow_p, [a; b] => one_res (tmap2M (s_pow sc) a b)
  | integer_pow_p y, [a] =>
      if (0 <=? y)%Z then Ok [tmap (fun x => npow x (Z.to_nat y)) a]
      else one_res (tmapM (fun x => s_ipow sc x y) a)
  | dot_general_p lc rc lb rb, [a; b] => one_res (dot_general lc rc lb rb a b)
  | conv_p c, [a; b] => one_res (conv_general_dilated c a b)
  | elementwise_p e, [a] => one_res (tmapM (s_elem sc e) a)
  | jit_p f, [a] => one_res (f a)
  | other_p f, _ => f args
  | _, [a] => match gather_of p with
              | Some g => one_res (gather g a)
              | None => Err TypeError
              end
  | _, _ => Err TypeError
  end.

(** [eqn.primitive.bind] on concrete arrays, as called for an equation without
    non-constant operands (jax_bound.py:189-191).  The primitives created by
    [_register_elementwise_function] (jax_bound.py:264-266) define an abstract
    evaluation rule only, so evaluating them raises NotImplementedError. *)
Definition prim_eval (p : prim) (args : list tensor) : res (list tensor) :=
  match p with
  | elementwise_p Sigmoid | elementwise_p Softplus | elementwise_p Swish => Err NotImplementedError
  | _ => prim_bind p args
  end.

(** ** Pushforward functions *)

(** jax_bound.py:322-337 [_IntermediateEnclosure]. *)
Record inter := Inter { i_enc : enclosure; i_tr : option (tensor * tensor) }.
Definition is_constant (i : inter) : bool :=
  match i_enc i with [Arr _] => true | _ => false end.
Definition constant_value (i : inter) : res tensor :=
  match i_enc i with [Arr v] => Ok v | _ => Err ValueError end.

(** jax_bound.py:363-365 *)
Definition constant_inter (v : tensor) : inter := Inter [Arr v] (Some (v, v)).

(** jax_bound.py:340-360 [_broadcast_in_dim_pushforward_fun].  [i*x_shape] is
    repetition of a tuple.  AttributeError: an interval has no [.shape]. *)
Definition push_broadcast (shape bdims : list nat) (enc : enclosure) : res enclosure :=
  x0 <- match enc with [] => Err IndexError | c :: _ => Ok (left_end c) end ;;
  x_shape <- match enc with
             | _ :: Arr c1 :: _ => Ok (skipn (tndim x0) (tshape c1))
             | _ :: Ivl _ _ :: _ => Err AttributeError
             | _ => Ok []
             end ;;
  mapM (fun '(i, c) => map_coef (gather (g_broadcast_in_dim (shape ++ rep i x_shape) bdims)) c)
       (enumerate enc).

(** jax_bound.py:379-384 [move_last_n_dims_to_front]. *)
Definition move_last_to_front (n : nat) (x : tensor) : res tensor :=
  if n =? 0 then Ok x
  else if tndim x <? n then Err ValueError
  else let m := tndim x - n in
       t <- gather (g_transpose (seq m n ++ seq 0 m)) x ;;
       gather (g_reshape (prod (skipn m (tshape x)) :: firstn m (tshape x))) t.
(** jax_bound.py:376-396 [pairwise_batched_bilinear]. *)
Definition conv_pbb (c : conv_params) (a b : tensor) (p q : nat) : res tensor :=
  a' <- move_last_to_front p a ;;
  b' <- move_last_to_front q b ;;
  r <- conv_general_dilated c a' b' ;;
  if (p =? 0) && (q =? 0) then Ok r
  else if (p =? 0) || (q =? 0) then Err NotImplementedError
  else t <- gather (g_transpose (seq 2 (tndim r - 2) ++ [0; 1])) r ;;
       gather (g_reshape (skipn 2 (tshape r) ++ skipn (tndim a - p) (tshape a) ++ skipn (tndim b - q) (tshape b))) t.

(** jax_bound.py:404-428; [a_contracting_dims] collects the contracting and the
    batch axes of the left operand (first components of both pairs of
    dimension_numbers). *)
Definition dedup (l : list nat) : list nat := nodup Nat.eq_dec l.
Definition dot_pbb (lc rc lb rb : list nat) (a b : tensor) (p q : nat) : res tensor :=
  transposed_output <- dot_general lc rc lb rb a b ;;
  let k := length (dedup (lc ++ lb)) in
  if tndim a <? p + k then Err AssertionError
  else
    let p_start := tndim a - p - k in
    let n := tndim transposed_output in
    if n <? p_start + p + q then Err AssertionError
    else
      let perm := seq 0 p_start ++ seq (p_start + p) (n - q - (p_start + p))
                  ++ seq p_start p ++ seq (n - q) q in
      if negb (length (dedup perm) =? n) then Err AssertionError
      else gather (g_transpose perm) transposed_output.

(** What [p >= 0 and p == int(p)] (and then [p == 0]) say about a float
    exponent. *)
Inductive exponent_kind := ExpZero | ExpPosInt | ExpOther.

(** The enclosure generators: the table [_ELEMENTWISE_PRIMITIVE_ENCLOSURES]
    (jax_bound.py:267-284), [functools.partial(pow_enclosure, p)] for an int or
    float [p]. *)
Record generators := Generators {
  gen_elem : elem -> generator;
  gen_ipow : Z -> generator;
  gen_pow : T -> generator;
  exponent : T -> exponent_kind }.

Variable gs : generators.

(** enclosure_arithmetic.py:320-347 for a float exponent: [range] rejects the
    float [(len(a)-1)*exponent] (polynomials.py:222-224) unless the exponent is
    0. *)
Definition epower_float (A : arith T) (a : enclosure) (p : T) : res enclosure :=
  _ <- validate_taylor_enclosure A a ;;
  match exponent gs p with
  | ExpZero => epower_nat A a 0
  | ExpPosInt => Err TypeError
  | ExpOther => elementwise_fun A (gen_pow gs p) a None
  end.

(** [float(v)] for an array with one element. *)
Definition to_float (v : tensor) : res T :=
  match to_list v with [x] => Ok x | _ => Err TypeError end.

Definition tr_coef (t : option (tensor * tensor)) : option coef :=
  match t with Some (l, h) => Some (Ivl l h) | None => None end.

(** jax_bound.py:462-504 [_pushforward_funs]: the function registered for a
    primitive applied to its arguments; NotImplementedError when there is none
    (jax_bound.py:143-145). *)
Definition pushforward (A : arith T) (p : prim) (args : list inter) : res enclosure :=
  match p, args with
  | add_p, [a; b] => eadd A (i_enc a) (i_enc b)
  | sub_p, [a; b] => esubtract A (i_enc a) (i_enc b)
  | mul_p, [a; b] => emultiply A (i_enc a) (i_enc b)
  | div_p, [a; b] => edivide A (gen_ipow gs) (i_enc a) (i_enc b)
  | neg_p, [a] => enegative A (i_enc a)
  | pow_p, [a; b] =>
      if negb (is_constant b) then Err NotImplementedError
      else v <- constant_value b ;; e <- to_float v ;; epower_float A (i_enc a) e
  | integer_pow_p y, [a] => epower A (gen_ipow gs) (i_enc a) y
  | dot_general_p lc rc lb rb, [a; b] =>
      earbitrary_bilinear A (i_enc a) (i_enc b) (dot_pbb lc rc lb rb)
  | conv_p c, [a; b] => earbitrary_bilinear A (i_enc a) (i_enc b) (conv_pbb c)
  | elementwise_p e, [a] => elementwise_fun A (gen_elem gs e) (i_enc a) (tr_coef (i_tr a))
  | broadcast_in_dim_p shape bdims, [a] => push_broadcast shape bdims (i_enc a)
  | jit_p f, [a] => map_over_enclosure (i_enc a) f
  | other_p _, _ => Err NotImplementedError
  | _, [a] => match gather_of p with        (* jax_bound.py:446-452 *)
              | Some g => map_over_enclosure (i_enc a) (gather g)
              | None => Err TypeError
              end
  | _, _ => Err TypeError
  end.

(** jax_bound.py:439-443 [_intersect_intervals].  A plain array in the place of
    an interval has a length other than 2 (or no length); length 2 is not
    modelled. *)
Definition intersect_intervals (a b : coef) : res (tensor * tensor) :=
  match a, b with
  | Ivl a0 a1, Ivl b0 b1 => l <- tmax a0 b0 ;; h <- tmin a1 b1 ;; Ok (l, h)
  | _, _ => Err ValueError
  end.

(** ** The interpreter *)
Definition dict := list (nat * inter).
Fixpoint dlookup (d : dict) (n : nat) : option inter :=
  match d with [] => None | (m, i) :: d' => if m =? n then Some i else dlookup d' n end.

(** A Jaxpr and the values of its literals; [gdata] holds the constvars. *)
Record program := Program { p_graph : graph jvar prim (list jvar); p_lits : nat -> tensor }.

(** jax_bound.py:128-134 [get_intermediate]. *)
Definition get_intermediate (lits : nat -> tensor) (d : dict) (v : jvar) : res inter :=
  match v with
  | Var n => match dlookup d n with Some i => Ok i | None => Err KeyError end
  | Lit n => Ok (constant_inter (lits n))
  | Drop => Err KeyError
  end.

(** jax_bound.py:507-511 [_validate_taylor_enclosure]. *)
Definition validate_shapes (xs : list nat) (a : enclosure) : res unit :=
  foldM (fun _ '(i, c) =>
           let s := ishape c in
           guard (shape_eqb (skipn (length s - i * length xs) s) (rep i xs)) ValueError)
        tt (enumerate a).

(** jax_bound.py:150-185: the trust region of an output variable. *)
Definition out_trust_region (A0 : arith T) (p : prim) (args : list inter) (enc : enclosure)
  : res (tensor * tensor) :=
  args0 <- mapM (fun i => match i_tr i with
                          | Some (l, h) => Ok (Inter [Ivl l h] None)
                          | None => Err AssertionError
                          end) args ;;
  a <- pushforward A0 p args0 ;;
  b <- enclose_enclosure enc (trust_region A0) 0 ;;
  a0 <- get_nth a 0 ;;
  b0 <- get_nth b 0 ;;
  '(l, h) <- intersect_intervals a0 b0 ;;
  y0 <- match enc with Arr t :: _ => Ok t | Ivl _ _ :: _ => Err Unmodelled | [] => Err IndexError end ;;
  l' <- tmin y0 l ;;
  h' <- tmax y0 h ;;
  Ok (l', h').

(** jax_bound.py:207-215: storing the outputs. *)
Fixpoint store (xs : list nat) (d : dict) (outs : list jvar) (vals : list inter) : res dict :=
  match outs, vals with
  | [], [] => Ok d
  | v :: outs', i :: vals' =>
      match v with
      | Drop => store xs d outs' vals'
      | Lit _ => Err Unmodelled
      | Var n =>
          match dlookup d n with
          | Some _ => Err AssertionError
          | None => _ <- validate_shapes xs (i_enc i) ;; store xs ((n, i) :: d) outs' vals'
          end
      end
  | _, _ => Err AssertionError
  end.

(** jax_bound.py:136-215: one iteration of the loop over equations.  A
    primitive with a registered function has one output variable. *)
Definition step (A A0 : arith T) (prop : bool) (xs : list nat) (lits : nat -> tensor)
           (d : dict) (o : op jvar prim) : res dict :=
  args <- mapM (get_intermediate lits d) (oins o) ;;
  outs <- (if existsb (fun i => negb (is_constant i)) args then
             e <- pushforward A (odata o) args ;;
             if negb (length (oouts o) =? 1) then Err Unmodelled else
             r <- (if prop then r <- out_trust_region A0 (odata o) args e ;; Ok (Some r)
                   else Ok None) ;;
             Ok [Inter e r]
           else
             vals <- mapM constant_value args ;;
             res <- prim_eval (odata o) vals ;;
             Ok (map constant_inter res)) ;;
  store xs d (oouts o) outs.

(** jax_bound.py:32-58 [TaylorBounds] (the callable [f] is dropped). *)
Record taylor_bounds_t := TaylorBounds {
  tb_x0 : tensor; tb_region : tensor * tensor; tb_coefficients : enclosure }.
Definition tb_call (b : taylor_bounds_t) (x : tensor) : res coef :=
  z <- tsub x (tb_x0 b) ;; eval_taylor_enclosure (tb_coefficients b) (Arr z).
Definition tb_final_interval (b : taylor_bounds_t) : res (tensor * tensor) :=
  match rev (tb_coefficients b) with
  | [] => Err IndexError
  | Ivl l h :: _ => Ok (l, h)
  | Arr c :: _ => Ok (c, c)
  end.
Definition tb_lower (b : taylor_bounds_t) (x : tensor) : res tensor :=
  r <- tb_call b x ;; Ok (match r with Ivl l _ => l | Arr t => t end).
Definition tb_upper (b : taylor_bounds_t) (x : tensor) : res tensor :=
  r <- tb_call b x ;; Ok (match r with Ivl _ h => h | Arr t => t end).

(** jax_bound.py:111-117: the derivative of the input. *)
Definition identity (x0 : tensor) : res tensor :=
  match tshape x0 with
  | [] => Ok (tscalar n1)
  | [n] => Ok (teye n)
  | _ => Err NotImplementedError
  end.

(** jax_bound.py:93-219 [bound_fun] for the (already rewritten) Jaxpr [pr] with
    constants [consts], up to the last equation: the final
    [var_to_intermediate]. *)
Definition interpret (pr : program) (consts : list tensor) (max_deg : Z) (propagate : bool)
           (x0 : tensor) (region : tensor * tensor) : res dict :=
  if (max_deg <? 0)%Z then Err ValueError
  else
    let D := Z.to_nat max_deg in
    let prop := if D =? 0 then false else propagate in
    t <- isub (Ivl (fst region) (snd region)) (Arr x0) ;;
    tr <- match t with Ivl l h => Ok (l, h) | Arr _ => Err Unmodelled end ;;
    A <- make_arith D tr ;;
    A0 <- make_arith 0 tr ;;
    eye <- identity x0 ;;
    let x0_enclosure := if 0 <? D then [Arr x0; Arr eye] else [Ivl (fst region) (snd region)] in
    let g := p_graph pr in
    _ <- guard (length consts =? length (gdata g)) AssertionError ;;
    invar <- match gins g with [Var n] => Ok n | _ => Err AssertionError end ;;
    d0 <- foldM (fun d '(v, c) =>
             match v with Var n => Ok ((n, constant_inter c) :: d) | _ => Err Unmodelled end)
             [] (combine (gdata g) consts) ;;
    let d1 := (invar, Inter x0_enclosure (if prop then Some region else None)) :: d0 in
    foldM (step A A0 prop (tshape x0) (p_lits pr)) d1 (gops g).

(** jax_bound.py:61-223 [taylor_bounds(f, max_degree, propagate)(x0, region)]. *)
Definition taylor_bounds (pr : program) (consts : list tensor) (max_deg : Z) (propagate : bool)
           (x0 : tensor) (region : tensor * tensor) : res taylor_bounds_t :=
  d <- interpret pr consts max_deg propagate x0 region ;;
  outvar <- match gouts (p_graph pr) with [v] => Ok v | _ => Err AssertionError end ;;
  i <- get_intermediate (p_lits pr) d outvar ;;
  Ok (TaylorBounds x0 region (i_enc i)).

End Jax.
Arguments prim T : clear implicits.
Arguments scalars T : clear implicits.
Arguments generators T : clear implicits.
Arguments program T : clear implicits.
Arguments inter T : clear implicits.
Arguments taylor_bounds_t T : clear implicits.
