(** Convolutional neural networks with squared error loss (README.md:97-98 says
    that bounding it is supported), as mathematical functions and as Jaxprs:
    specification for C76.  Not code of the repository: the Jaxpr stands for
    JAX's trace of a user's program. *)
From Coq Require Import Reals ZArith.
From Verif Require Import Base Tensor TensorLemmas Spec GraphEditor GraphSpec JaxBound JaxSpec JaxTable Mlp.
Open Scope R_scope.

(** A convolution with a kernel of shape (outputs, channels, window...), strides
    and zero padding (before, after) along each spatial axis, then a bias for
    each output channel and an activation. *)
Record conv_layer := ConvLayer { v_k : param; v_b : param; v_strides : list nat; v_pads : list (Z * Z); v_act : option elem }.
Definition kernel_shape (l : conv_layer) : list nat := match v_k l with Fixed t | Moving t _ => tshape t end.
Definition channels_out (l : conv_layer) : nat := nth 0 (kernel_shape l) 0%nat.
Definition window_shape (l : conv_layer) : list nat := skipn 2 (kernel_shape l).
(** A batch of images, [f_batch] of [f_channels] channels and size [f_size];
    convolutions; the result is flattened for the layers of a perceptron. *)
Record cnn := Cnn { f_batch : nat; f_channels : nat; f_size : list nat; f_data : tensor R;
                    f_convs : list conv_layer; f_layers : list layer; f_target : tensor R }.

(** ** The function *)
Definition sum_over (s : list nat) (f : list nat -> R) : R := fold_right Rplus 0 (map f (all_idx s)).
(** The entry of [f] at position [p], 0 outside of the image of size [L]. *)
Fixpoint padded_at (L : list nat) (f : list nat -> R) (p : list Z) : R :=
  match L, p with
  | l :: L', z :: p' => if ((0 <=? z) && (z <? Z.of_nat l))%Z%bool then padded_at L' (fun P => f (Z.to_nat z :: P)) p' else 0
  | _, _ => f []
  end.
(** The position under entry [K] of the window, for position [Q] of the result. *)
Fixpoint position (strides : list nat) (pads : list (Z * Z)) (Q K : list nat) : list Z :=
  match strides, pads, Q, K with
  | s :: strides', pad :: pads', i :: Q', k :: K' => (Z.of_nat i * Z.of_nat s + Z.of_nat k - fst pad)%Z :: position strides' pads' Q' K'
  | _, _, _, _ => []
  end.
(** Images are functions of an index (image, channel, position...). *)
Definition conv_value (l : conv_layer) (C : nat) (L : list nat) (x : tensor R) (h : list nat -> R) : list nat -> R :=
  fun J => match J with
  | n :: o :: Q =>
      act_fun (v_act l)
        (sum_below C (fun c => sum_over (window_shape l) (fun K =>
           padded_at L (fun P => h (n :: c :: P)) (position (v_strides l) (v_pads l) Q K) * param_value (v_k l) x (o :: c :: K)))
         + param_value (v_b l) x [o])
  | _ => 0
  end.
(** The number of positions of a window of size [k] along an axis of size [l]. *)
Definition positions (l k s : nat) (pad : Z * Z) : nat := Z.to_nat ((Z.of_nat l + fst pad + snd pad - Z.of_nat k) / Z.of_nat s + 1).
Fixpoint sizes_out (L K strides : list nat) (pads : list (Z * Z)) : list nat :=
  match L, K, strides, pads with
  | l :: L', k :: K', s :: strides', pad :: pads' => positions l k s pad :: sizes_out L' K' strides' pads'
  | _, _, _, _ => []
  end.
Definition size_out (l : conv_layer) (L : list nat) : list nat := sizes_out L (window_shape l) (v_strides l) (v_pads l).
Fixpoint images (ls : list conv_layer) (C : nat) (L : list nat) (x : tensor R) (h : list nat -> R) : list nat -> R :=
  match ls with [] => h | l :: ls' => images ls' (channels_out l) (size_out l L) x (conv_value l C L x h) end.
(** The number of channels and the size of the last images. *)
Fixpoint last_shape (ls : list conv_layer) (C : nat) (L : list nat) : list nat :=
  match ls with [] => C :: L | l :: ls' => last_shape ls' (channels_out l) (size_out l L) end.
(** The features of image [n]: the entries of its last images in row-major order. *)
Definition features (N : cnn) (x : tensor R) : list nat -> nat -> R :=
  fun I j => images (f_convs N) (f_channels N) (f_size N) x (tdata (f_data N))
                    (nth 0 I 0%nat :: nth j (all_idx (last_shape (f_convs N) (f_channels N) (f_size N))) []).
Definition flat_size (N : cnn) : nat := length (all_idx (last_shape (f_convs N) (f_channels N) (f_size N))).
Definition cnn_loss (N : cnn) (x : tensor R) : R :=
  sum_over [f_batch N] (fun I => sum_below (final_size (f_layers N) (flat_size N))
    (fun j => (forward (f_layers N) (flat_size N) x (features N x) I j - tdata (f_target N) (I ++ [j])) ^ 2)).

(** ** Shapes that fit *)
Fixpoint convs_fit (C : nat) (L : list nat) (ls : list conv_layer) : Prop :=
  match ls with
  | [] => True
  | l :: ls' =>
      (0 < channels_out l)%nat /\ nonempty (window_shape l) = true /\ length (window_shape l) = length L /\
      length (v_strides l) = length L /\ length (v_pads l) = length L /\ nonempty (v_strides l) = true /\ nonempty (size_out l L) = true /\
      param_fits [] (channels_out l :: C :: window_shape l) (v_k l) /\ param_fits [] [channels_out l] (v_b l) /\
      (~ is_moving (v_b l) \/ is_moving (v_k l) \/ v_act l <> None) /\
      match v_act l with Some e => activation e = true | None => True end /\ convs_fit (channels_out l) (size_out l L) ls'
  end.
(** A function of a number, on which the first layer depends. *)
Definition cnn_fits (N : cnn) : Prop :=
  (0 < f_batch N)%nat /\ (0 < f_channels N)%nat /\ nonempty (f_size N) = true /\ tshape (f_data N) = f_batch N :: f_channels N :: f_size N /\
  convs_fit (f_channels N) (f_size N) (f_convs N) /\
  match f_convs N with [] => False | l :: _ => is_moving (v_k l) \/ is_moving (v_b l) end /\
  layers_fit [] [f_batch N] (flat_size N) (f_layers N) /\ tshape (f_target N) = [f_batch N; final_size (f_layers N) (flat_size N)].

(** ** The Jaxpr *)
(** [lax.conv_general_dilated] with batch and channels first. *)
Definition conv_prim (sp : nat) (l : conv_layer) : prim R :=
  conv_p (ConvParams (v_strides l) (v_pads l) (repeat 1%nat sp) (repeat 1%nat sp) (seq 0 (sp + 2)) (seq 0 (sp + 2)) (seq 0 (sp + 2)) 1 1).
Definition conv_consts (l : conv_layer) : list (tensor R) := param_consts (v_k l) ++ param_consts (v_b l).
(** The bias is broadcast to the shape (1, outputs, 1, ...). *)
Definition conv_ops (sp : nat) (l : conv_layer) (h c n : nat) : list (op jvar (prim R)) :=
  let cb := (c + length (param_consts (v_k l)))%nat in
  let nb := (n + param_size (v_k l))%nat in
  let n1 := (nb + param_size (v_b l))%nat in
  param_ops (v_k l) c n ++ param_ops (v_b l) cb nb ++
  [Op (conv_prim sp l) [Var h; Var (param_var (v_k l) c n)] [Var n1];
   Op (broadcast_in_dim_p (1%nat :: channels_out l :: repeat 1%nat sp) [1%nat]) [Var (param_var (v_b l) cb nb)] [Var (n1 + 1)];
   Op add_p [Var n1; Var (n1 + 1)] [Var (n1 + 2)]] ++
  match v_act l with Some e => [Op (elementwise_p e) [Var (n1 + 2)] [Var (n1 + 3)]] | None => [] end.
Definition conv_size (l : conv_layer) : nat := (param_size (v_k l) + param_size (v_b l) + 3 + match v_act l with Some _ => 1 | None => 0 end)%nat.
Fixpoint convs_ops (sp : nat) (ls : list conv_layer) (h c n : nat) : list (op jvar (prim R)) :=
  match ls with [] => [] | l :: ls' => conv_ops sp l h c n ++ convs_ops sp ls' (n + conv_size l - 1)%nat (c + length (conv_consts l))%nat (n + conv_size l)%nat end.
Definition convs_size (ls : list conv_layer) : nat := fold_right (fun l s => (conv_size l + s)%nat) 0%nat ls.
Definition cnn_consts (N : cnn) : list (tensor R) := [f_data N] ++ flat_map conv_consts (f_convs N) ++ flat_map layer_consts (f_layers N) ++ [f_target N].
Definition cnn_ops (N : cnn) (n : nat) : list (op jvar (prim R)) :=
  let n' := (n + convs_size (f_convs N))%nat in
  convs_ops (length (f_size N)) (f_convs N) 1 1 n ++
  [Op (reshape_p [f_batch N; flat_size N]) [Var (n' - 1)] [Var n']] ++
  net_ops [f_batch N] (f_layers N) n' (1 + length (flat_map conv_consts (f_convs N))) (n' + 1).
Definition cnn_size (N : cnn) : nat := (convs_size (f_convs N) + 1 + net_size [f_batch N] (f_layers N))%nat.
Definition cnn_program (N : cnn) : program R :=
  let m := length (cnn_consts N) in
  Program (@Graph jvar (prim R) (list jvar) [Var 0] [Var (m + cnn_size N)%nat] (cnn_ops N (S m)) (map Var (seq 1 m))) (fun _ => tscalar 0).
