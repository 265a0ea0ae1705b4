(** Specification of convolutions (lax.conv_general_dilated): no sliding, no
    enumeration of positions, only which entries meet. *)
From Coq Require Import Reals ZArith.
From Verif Require Import Base Tensor TensorLemmas JaxBound.
Open Scope R_scope.

(** Along one spatial axis, entry [p] of the left operand (after inserting
    [x_ldil - 1] holes between entries and padding) is under entry [k] of the
    kernel (with [x_rdil - 1] holes between entries) when the window has been
    moved [i] strides. *)
Definition meets (x : conv_axis) (i p k : nat) : Prop :=
  (fst (x_pad x) + Z.of_nat p * Z.of_nat (x_ldil x) = Z.of_nat i * Z.of_nat (x_stride x) + Z.of_nat k * Z.of_nat (x_rdil x))%Z.
Definition meets_dec x i p k : {meets x i p k} + {~ meets x i p k} := Z.eq_dec _ _.
(** 1 if the entries meet along every axis, else 0. *)
Fixpoint together (xs : list conv_axis) (I P K : list nat) : R :=
  match xs, I, P, K with
  | x :: xs', i :: I', p :: P', k :: K' => (if meets_dec x i p k then 1 else 0) * together xs' I' P' K'
  | _, _, _, _ => 1
  end.
(** Entry (batch [n], feature [o], position [I]) of the result: the sum over
    the input features of the group of [o], all positions [P] of the left
    operand and all positions [K] of the kernel, of the products of the entries
    that meet. *)
Definition conv_entry (c : conv_params) (d : conv_dims) (a b : list nat -> R) (n o : nat) (I : list nat) : R :=
  sumn (d_in d) (fun k =>
    sumi (map x_lhs (d_axes d)) (fun P => sumi (map x_rhs (d_axes d)) (fun K =>
      together (d_axes d) I P K *
      (a (from_spec (c_lhs_spec c) (o / (d_out d / c_batch_groups c) * (d_batch d / c_batch_groups c) + n :: o / (d_out d / c_feature_groups c) * d_in d + k :: P)%nat)
       * b (from_spec (c_rhs_spec c) (o :: k :: K)%nat))))).
