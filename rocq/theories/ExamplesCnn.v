(** Networks that meet the hypotheses of C76. *)
From Coq Require Import Reals Lra.
From Verif Require Import Base Tensor IntervalArith Polynomials Enclosure TensorLemmas Spec GraphEditor GraphSpec Elementwise Primitive ElementSpec PropElementwise PropPrimitive
  JaxBound JaxSpec JaxOps JaxTable JaxTableProofs PropJax PropTable PropTotalTable ExamplesJax Mlp MlpProofs PropMlp ExamplesMlp Cnn CnnProofs PropCnn.
Open Scope R_scope.

(** Two images of 3 x 4 pixels with 2 channels; a convolution with 3 moving
    kernels of 2 x 2, strides (1, 2), padding, softplus; a convolution without
    padding, with fixed kernel and moving bias, softplus; two layers. *)
Definition ex_cnn : cnn :=
  Cnn 2 2 [3; 4]%nat (arr [2; 2; 3; 4]%nat (fun I => INR (nth 2 I 0%nat) - INR (nth 3 I 0%nat)))
      [ConvLayer (Moving (arr [3; 2; 2; 2]%nat (fun I => INR (nth 0 I 0%nat))) (arr [3; 2; 2; 2]%nat (fun _ => -1))) (Fixed (arr [3]%nat (fun _ => 1))) [1; 2]%nat [(1, 0); (1, 1)]%Z (Some Softplus);
       ConvLayer (Fixed (arr [2; 3; 1; 2]%nat (fun _ => 3))) (Moving (arr [2]%nat (fun _ => 1)) (arr [2]%nat (fun _ => 5))) [1; 1]%nat [(0, 0); (0, 0)]%Z (Some Softplus)]
      [Layer (Fixed (arr [12; 3]%nat (fun I => INR (nth 0 I 0%nat)))) (Moving (arr [3]%nat (fun _ => 1)) (arr [3]%nat (fun _ => 2))) (Some Softplus);
       Layer (Fixed (arr [3; 1]%nat (fun I => INR (nth 0 I 0%nat)))) (Fixed (arr [1]%nat (fun _ => 0))) None]
      (arr [2; 1]%nat (fun _ => 4)).
(** One row (5, 7), padded on the left, and the moving kernel (1, x): the images
    are (5 x, 5 + 7 x), flattened and compared with (1, 2). *)
Definition ex_row : cnn :=
  Cnn 1 1 [2]%nat (arr [1; 1; 2]%nat (fun I => match nth 2 I 0%nat with 0%nat => 5 | _ => 7 end))
      [ConvLayer (Moving (arr [1; 1; 2]%nat (fun I => match nth 2 I 0%nat with 0%nat => 1 | _ => 0 end)) (arr [1; 1; 2]%nat (fun I => match nth 2 I 0%nat with 0%nat => 0 | _ => 1 end)))
                 (Fixed (arr [1]%nat (fun _ => 0))) [1]%nat [(1, 0)]%Z None]
      [] (arr [1; 2]%nat (fun I => match nth 1 I 0%nat with 0%nat => 1 | _ => 2 end)).
(** One pixel, one exponential unit: the loss is (exp x - 2)^2. *)
Definition ex_pixel : cnn :=
  Cnn 1 1 [1]%nat (arr [1; 1; 1]%nat (fun _ => 1))
      [ConvLayer (Moving (arr [1; 1; 1]%nat (fun _ => 0)) (arr [1; 1; 1]%nat (fun _ => 1))) (Fixed (arr [1]%nat (fun _ => 0))) [1]%nat [(0, 0)]%Z (Some Exp)]
      [] (arr [1; 1]%nat (fun _ => 2)).

Lemma lift_pixel g x0 l h d cs a b : tshape x0 = [1; 1; 1]%nat -> tshape l = [1; 1; 1]%nat -> tshape h = [1; 1; 1]%nat ->
  g (tdata x0 [0; 0; 0]%nat) (tdata l [0; 0; 0]%nat, tdata h [0; 0; 0]%nat) d = Ok (cs, (a, b)) ->
  lift_gen g x0 (l, h) d = Ok (map (fun i => Arr (of_list 0 [1; 1; 1]%nat [nth i cs 0])) (seq 0 d) ++ [Ivl (of_list 0 [1; 1; 1]%nat [a]) (of_list 0 [1; 1; 1]%nat [b])]).
Proof. intros E1 E2 E3 H. unfold lift_gen. rewrite E1, E2, E3. cbn [shape_eqb list_eqb andb all_idx mapM seq flat_map map app]. simpl. rewrite H. reflexivity. Qed.

Lemma ex_pixel_runs : exists b, taylor_bounds (scalarsR no_usr) (checked_generators no_ugen) (cnn_program ex_pixel) (cnn_consts ex_pixel) 1 false (tscalar 0) (tscalar (-1), tscalar 1) = Ok b /\ length (tb_coefficients b) = 2%nat.
Proof.
  destruct (exp_runs 1 0 (-1) 1) as (cs & l & h & E & L); [lra| | |]; try (right; unfold Rabs; destruct Rcase_abs; simpl; lra).
  assert (G : match taylor_bounds (scalarsR no_usr) (checked_generators no_ugen) (cnn_program ex_pixel) (cnn_consts ex_pixel) 1 false (tscalar 0) (tscalar (-1), tscalar 1) with
    Ok b => (length (tb_coefficients b) =? 2)%nat | Err _ => false end = true).
  { cbv -[lift_gen checked exp_enclosure fun_guard Rplus Rmult Ropp Rminus Rinv Rdiv Rmin Rmax IZR Rlt_dec Rle Rlt].
    match goal with |- context [lift_gen ?g ?x (?l0, ?h0) ?n] =>
      assert (EL : lift_gen g x (l0, h0) n = Ok (map (fun i => Arr (of_list 0 [1; 1; 1]%nat [nth i cs 0])) (seq 0 1) ++ [Ivl (of_list 0 [1; 1; 1]%nat [l]) (of_list 0 [1; 1; 1]%nat [h])])) end.
    { apply lift_pixel; try reflexivity. cbn [tdata].
      match goal with |- checked _ _ ?u (?v, ?w) _ = _ => assert (Eu : u = 0) by rcompute; assert (Ev : v = -1) by rcompute; assert (Ew : w = 1) by rcompute; rewrite Ev, Ew, Eu; exact E end. }
    rewrite EL. destruct cs as [|c0 [|]]; try discriminate. vm_compute. reflexivity. }
  destruct (taylor_bounds _ _ _ _ _ _ _ _) as [b|] in G |- *; [|discriminate]. exists b. split; [reflexivity|]. apply Nat.eqb_eq. exact G.
Qed.

Example C76_nonvacuous :
  cnn_fits ex_cnn /\ (forall l e, In l (f_convs ex_cnn) -> v_act l = Some e -> total_elem 2 e = true) /\ (forall l e, In l (f_layers ex_cnn) -> l_act l = Some e -> total_elem 2 e = true) /\
  cnn_fits ex_row /\ (forall x, cnn_loss ex_row (tscalar x) = (5 * x - 1) ^ 2 + (5 + 7 * x - 2) ^ 2) /\
  cnn_fits ex_pixel /\ (exists b, taylor_bounds (scalarsR no_usr) (checked_generators no_ugen) (cnn_program ex_pixel) (cnn_consts ex_pixel) 1 false (tscalar 0) (tscalar (-1), tscalar 1) = Ok b /\ length (tb_coefficients b) = 2%nat).
Proof.
  split; [|split; [|split; [|split; [|split; [|split]]]]].
  - unfold cnn_fits. cbn. repeat split; auto; try lia; try tauto; first [left; intros []; fail|right; right; discriminate|right; right; left; discriminate|right; right; right; left; discriminate].
  - intros l e [<-|[<-|[]]] H; cbn in H; injection H as <-; reflexivity.
  - intros l e [<-|[<-|[]]] H; cbn in H; try discriminate. injection H as <-. reflexivity.
  - unfold cnn_fits. cbn. repeat split; auto; try lia; tauto.
  - intros x. cbv -[Rplus Rmult Ropp Rminus IZR]. ring.
  - unfold cnn_fits. cbn. repeat split; auto; try lia; tauto.
  - exact ex_pixel_runs.
Qed.
