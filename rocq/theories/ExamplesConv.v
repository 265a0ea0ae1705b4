(** Concrete cases for C65. *)
From Coq Require Import Reals Lra ZArith.
From Verif Require Import Base Tensor IntervalArith Polynomials Enclosure TensorLemmas Spec GraphEditor GraphSpec JaxBound JaxSpec JaxTable PropJaxLimits ConvSpec PropConv PropClear JaxTableProofs ExamplesJax.
Open Scope R_scope.

Definition ones (s : list nat) : tensor R := mkT s (fun _ => 1).
Definition plain1 : conv_params := ConvParams [1]%nat [(0, 0)%Z] [1]%nat [1]%nat [0; 1; 2]%nat [0; 1; 2]%nat [0; 1; 2]%nat 1 1.
(** x (1 1 1 1) convolved with x (1 1), x a number: 2 x^2 (1 1 1). *)
Definition ex65 : program R :=
  Program (@Graph jvar (prim R) (list jvar) [Var 0] [Var 5]
             [Op mul_p [Var 0; Var 1] [Var 3]; Op mul_p [Var 0; Var 2] [Var 4]; Op (conv_p plain1) [Var 3; Var 4] [Var 5]] [Var 1; Var 2])
          (fun _ => tscalar 0).
Definition ex65_consts := [ones [1; 1; 4]%nat; ones [1; 1; 2]%nat].
Example C65_scalar_argument_nonvacuous : forall x, 0 <= x <= 5 -> exists b,
  (forall o, In o (gops (p_graph ex65)) -> opaque_ok (odata o)) /\
  in_box (tscalar 3) (tscalar 0, tscalar 5) (tscalar 3) /\ in_box (tscalar 3) (tscalar 0, tscalar 5) (tscalar x) /\
  supported (scalarsR no_usr) [] 2 ex65 ex65_consts (tscalar x) /\
  taylor_bounds (scalarsR no_usr) (checked_generators no_ugen) ex65 ex65_consts 2 false (tscalar 3) (tscalar 0, tscalar 5) = Ok b /\
  map (fun c => tshape (lo c)) (tb_coefficients b) = [[1; 1; 3]; [1; 1; 3]; [1; 1; 3]]%nat /\
  exists y, meaning (scalarsR no_usr) ex65 ex65_consts (tscalar x) = Some [y] /\ tshape y = [1; 1; 3]%nat /\ tdata y [0; 0; 2]%nat = 2 * (x * x).
Proof.
  intros x Hx. eexists. split; [|split; [|split; [|split; [|split; [vm_compute; reflexivity|split; [reflexivity|]]]]]].
  - intros o Ho. simpl in Ho. destruct Ho as [<-|[<-|[<-|[]]]]; exact I.
  - split; [reflexivity|]. split; [reflexivity|]. split; [reflexivity|]. intros J _. simpl. lra.
  - split; [reflexivity|]. split; [reflexivity|]. split; [reflexivity|]. intros J _. simpl. lra.
  - split; [reflexivity|]. split; [repeat constructor|]. split; [intros; reflexivity|]. do 3 eexists. split; [reflexivity|]. split; [reflexivity|]. reflexivity.
  - eexists. split; [vm_compute; reflexivity|]. split; [reflexivity|]. cbv -[Rplus Rmult IZR]. ring.
Qed.

(** W x convolved with (1 1), x of shape [2], degree 1. *)
Definition ex65a_pre : list (op jvar (prim R)) := [Op (dot_general_p [3] [0] [] [])%nat [Var 1; Var 0] [Var 3]].
Definition ex65a_consts := [ones [1; 1; 4; 2]%nat; ones [1; 1; 2]%nat].
Example C65_array_argument_nonvacuous : exists d ia ib,
  interpret (scalarsR no_usr) (checked_generators no_ugen) (prog [Var 0] [Var 4] [Var 1; Var 2] (fun _ => tscalar 0) ex65a_pre) ex65a_consts 1 false (ones [2]%nat) (ones [2]%nat, ones [2]%nat) = Ok d /\
  get_intermediate (fun _ => tscalar 0) d (Var 3) = Ok ia /\ get_intermediate (fun _ => tscalar 0) d (Var 2) = Ok ib /\
  length (i_enc ia) = 2%nat /\ length (i_enc ib) = 1%nat /\
  (** the convolution itself accepts the operands *)
  (exists v, conv_general_dilated plain1 (lo (nth 0 (i_enc ia) (Arr (tscalar 0)))) (lo (nth 0 (i_enc ib) (Arr (tscalar 0)))) = Ok v /\ tshape v = [1; 1; 3]%nat) /\
  taylor_bounds (scalarsR no_usr) (checked_generators no_ugen) (prog [Var 0] [Var 4] [Var 1; Var 2] (fun _ => tscalar 0) (ex65a_pre ++ [Op (conv_p plain1) [Var 3; Var 2] [Var 4]]))
    ex65a_consts 1 false (ones [2]%nat) (ones [2]%nat, ones [2]%nat) = Err ValueError.
Proof.
  do 3 eexists. split; [vm_compute; reflexivity|]. split; [vm_compute; reflexivity|]. split; [vm_compute; reflexivity|].
  split; [reflexivity|]. split; [reflexivity|]. split; [eexists; split; [vm_compute; reflexivity|reflexivity]|]. vm_compute. reflexivity.
Qed.

(** A convolution with stride 2, left dilation 3 and padding (1, -1). *)
Definition strided : conv_params := ConvParams [2]%nat [(1, -1)%Z] [3]%nat [1]%nat [0; 1; 2]%nat [0; 1; 2]%nat [0; 1; 2]%nat 1 1.
Example C65_value_nonvacuous : forall a b c u v, exists t,
  conv_general_dilated strided (of_list 0 [1; 1; 3]%nat [a; b; c]) (of_list 0 [1; 1; 2]%nat [u; v]) = Ok t /\ tshape t = [1; 1; 3]%nat /\
  tdata t [0; 0; 0]%nat = a * v /\ tdata t [0; 0; 1]%nat = 0 /\ tdata t [0; 0; 2]%nat = b * u.
Proof.
  intros. eexists. split; [vm_compute; reflexivity|]. split; [reflexivity|]. repeat split; cbv -[Rplus Rmult IZR]; ring.
Qed.
