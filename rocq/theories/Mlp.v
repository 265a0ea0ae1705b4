(** Multi-layer perceptrons with squared error loss (the functions README.md:97-98
    says are supported), as mathematical functions and as Jaxprs: specification
    for C73. *)
From Coq Require Import Reals.
From Verif Require Import Base Tensor TensorLemmas Spec GraphEditor GraphSpec JaxBound JaxSpec JaxTable.
Open Scope R_scope.

(** A parameter: an array, or an array [t + x * u] that moves with the
    argument [x] (for example with a learning rate). *)
Inductive param := Fixed (t : tensor R) | Moving (t u : tensor R).
(** [h |-> act (h W + b)], or [h |-> h W + b] without activation. *)
Record layer := Layer { l_w : param; l_b : param; l_act : option elem }.
(** The activations: functions defined for every number. *)
Definition activation (e : elem) : bool :=
  match e with Abs | Exp | Logistic | Sigmoid | Softplus | Swish => true | _ => false end.
Definition act_fun (a : option elem) (x : R) : R :=
  match a with
  | None => x
  | Some Abs => Rabs x
  | Some Exp => exp x
  | Some Logistic | Some Sigmoid => 1 / (1 + exp (- x))
  | Some Softplus => ln (1 + exp x)
  | Some Swish => x * (1 / (1 + exp (- x)))
  | Some _ => 0
  end.
(** A network with its data: the input is [n_data], or the argument itself if
    there is none; [n_rows] is the shape of the batch ([[]]: one example). *)
Record net := Net { n_rows : list nat; n_in : nat; n_data : option (tensor R); n_layers : list layer; n_target : tensor R }.

(** ** The function *)
Definition param_value (p : param) (x : tensor R) (I : list nat) : R :=
  match p with Fixed t => tdata t I | Moving t u => tdata t I + tdata x [] * tdata u I end.
Fixpoint sum_below (n : nat) (f : nat -> R) : R := match n with O => 0 | S m => sum_below m f + f m end.
Definition layer_value (l : layer) (d : nat) (x : tensor R) (h : list nat -> nat -> R) : list nat -> nat -> R :=
  fun I j => act_fun (l_act l) (sum_below d (fun i => h I i * param_value (l_w l) x [i; j]) + param_value (l_b l) x [j]).
(** The number of outputs of a layer. *)
Definition out_size (l : layer) : nat := match l_w l with Fixed t | Moving t _ => nth 1 (tshape t) 0%nat end.
Fixpoint forward (ls : list layer) (d : nat) (x : tensor R) (h : list nat -> nat -> R) : list nat -> nat -> R :=
  match ls with [] => h | l :: ls' => forward ls' (out_size l) x (layer_value l d x h) end.
Fixpoint final_size (ls : list layer) (d : nat) : nat := match ls with [] => d | l :: ls' => final_size ls' (out_size l) end.
(** The sum over the examples [I] and outputs [j] of (output - target)^2. *)
Definition squared_error (N : net) (x : tensor R) : R :=
  let h0 := fun I i => match n_data N with Some t => tdata t (I ++ [i]) | None => tdata x (I ++ [i]) end in
  fold_right Rplus 0 (map (fun I => sum_below (final_size (n_layers N) (n_in N))
                                      (fun j => (forward (n_layers N) (n_in N) x h0 I j - tdata (n_target N) (I ++ [j])) ^ 2)) (all_idx (n_rows N))).

(** ** Shapes that fit *)
(** Parameters of shape [s]; only a function of a number has moving ones. *)
Definition param_fits (X s : list nat) (p : param) : Prop :=
  match p with Fixed t => tshape t = s | Moving t u => tshape t = s /\ tshape u = s /\ X = [] end.
Definition is_moving (p : param) : Prop := match p with Moving _ _ => True | Fixed _ => False end.
(** In a batch, if the biases move and the weights do not, the slope of h W + b
    has fewer rows than its value; then an activation or the loss must follow. *)
Fixpoint layers_fit (X rows : list nat) (d : nat) (ls : list layer) : Prop :=
  match ls with
  | [] => True
  | l :: ls' => (0 < out_size l)%nat /\ param_fits X [d; out_size l] (l_w l) /\ param_fits X [out_size l] (l_b l) /\
                (rows = [] \/ ~ is_moving (l_b l) \/ is_moving (l_w l) \/ l_act l <> None \/ ls' = []) /\
                match l_act l with Some e => activation e = true | None => True end /\ layers_fit X rows (out_size l) ls'
  end.
(** The argument is a number and the input is data, with a moving parameter in
    the first layer; or the argument is the input. *)
Definition net_fits (X : list nat) (N : net) : Prop :=
  nonempty (n_rows N) = true /\ (0 < n_in N)%nat /\ layers_fit X (n_rows N) (n_in N) (n_layers N) /\
  tshape (n_target N) = n_rows N ++ [final_size (n_layers N) (n_in N)] /\
  match n_data N with
  | Some t => X = [] /\ tshape t = n_rows N ++ [n_in N] /\
              match n_layers N with [] => False | l :: _ => is_moving (l_w l) \/ is_moving (l_b l) end
  | None => X = [n_in N] /\ n_rows N = []
  end.

(** ** The Jaxpr *)
(** [x] is variable 0, the constants are variables 1, 2, ...; [c] is the number
    of constants used so far and [n] the next free variable. *)
Definition param_consts (p : param) : list (tensor R) := match p with Fixed t => [t] | Moving t u => [t; u] end.
Definition param_ops (p : param) (c n : nat) : list (op jvar (prim R)) :=
  match p with
  | Fixed _ => []
  | Moving _ _ => [Op mul_p [Var 0; Var (S (S c))] [Var n]; Op add_p [Var (S c); Var n] [Var (S n)]]
  end.
Definition param_var (p : param) (c n : nat) : nat := match p with Fixed _ => S c | Moving _ _ => S n end.
Definition param_size (p : param) : nat := match p with Fixed _ => 0 | Moving _ _ => 2 end.
Definition layer_consts (l : layer) : list (tensor R) := param_consts (l_w l) ++ param_consts (l_b l).
(** The bias is broadcast to the shape (1, ..., 1, k), as jnp.add does for
    operands of different ranks; for one example there is nothing to do. *)
Definition bias_size (rows : list nat) : nat := match rows with [] => 0 | _ => 1 end.
Definition bias_ops (rows : list nat) (o b n : nat) : list (op jvar (prim R)) :=
  match rows with
  | [] => []
  | _ => [Op (broadcast_in_dim_p (repeat 1%nat (length rows) ++ [o]) [length rows]) [Var b] [Var n]]
  end.
Definition bias_var (rows : list nat) (b n : nat) : nat := match rows with [] => b | _ => n end.
Definition layer_ops (rows : list nat) (l : layer) (h c n : nat) : list (op jvar (prim R)) :=
  let m := length rows in
  let cb := (c + length (param_consts (l_w l)))%nat in
  let nb := (n + param_size (l_w l))%nat in
  let n1 := (nb + param_size (l_b l))%nat in
  let n2 := (n1 + 1 + bias_size rows)%nat in
  param_ops (l_w l) c n ++ param_ops (l_b l) cb nb ++
  [Op (dot_general_p [m] [0%nat] [] []) [Var h; Var (param_var (l_w l) c n)] [Var n1]] ++
  bias_ops rows (out_size l) (param_var (l_b l) cb nb) (n1 + 1) ++
  [Op add_p [Var n1; Var (bias_var rows (param_var (l_b l) cb nb) (n1 + 1))] [Var n2]] ++
  match l_act l with Some e => [Op (elementwise_p e) [Var n2] [Var (n2 + 1)]] | None => [] end.
Definition layer_size (rows : list nat) (l : layer) : nat :=
  (param_size (l_w l) + param_size (l_b l) + 2 + bias_size rows + match l_act l with Some _ => 1 | None => 0 end)%nat.
(** (y - target) ** 2, summed. *)
Definition loss_ops (m h c n : nat) : list (op jvar (prim R)) :=
  [Op sub_p [Var h; Var (S c)] [Var n]; Op (integer_pow_p 2) [Var n] [Var (S n)]; Op (reduce_sum_p (seq 0 (m + 1))) [Var (S n)] [Var (S (S n))]].
Fixpoint net_ops (rows : list nat) (ls : list layer) (h c n : nat) : list (op jvar (prim R)) :=
  match ls with
  | [] => loss_ops (length rows) h c n
  | l :: ls' => layer_ops rows l h c n ++ net_ops rows ls' (n + layer_size rows l - 1)%nat (c + length (layer_consts l))%nat (n + layer_size rows l)%nat
  end.
Fixpoint net_size (rows : list nat) (ls : list layer) : nat := match ls with [] => 3%nat | l :: ls' => (layer_size rows l + net_size rows ls')%nat end.
Definition data_consts (N : net) : list (tensor R) := match n_data N with Some t => [t] | None => [] end.
Definition net_consts (N : net) : list (tensor R) := data_consts N ++ flat_map layer_consts (n_layers N) ++ [n_target N].
Definition net_program (N : net) : program R :=
  let m := length (net_consts N) in
  let c0 := length (data_consts N) in
  Program (@Graph jvar (prim R) (list jvar) [Var 0] [Var (m + net_size (n_rows N) (n_layers N))%nat]
             (net_ops (n_rows N) (n_layers N) c0 c0 (S m)) (map Var (seq 1 m))) (fun _ => tscalar 0).
