(** Networks that meet the hypotheses of C73. *)
From Coq Require Import Reals Lra.
From Verif Require Import Base Tensor IntervalArith Polynomials Enclosure TensorLemmas Spec GraphEditor GraphSpec Elementwise Primitive ElementSpec PropElementwise PropPrimitive
  JaxBound JaxSpec JaxOps JaxTable JaxTableProofs PropJax PropTable PropTotalTable ExamplesJax Mlp MlpProofs PropMlp.
Open Scope R_scope.

(** Two examples of two features, 3 softplus units, one linear output; the
    parameters move with the argument (a learning rate), except the last weights. *)
Definition arr (s : list nat) (f : list nat -> R) : tensor R := mkT s f.
Definition ex_net : net :=
  Net [2%nat] 2 (Some (arr [2; 2]%nat (fun I => INR (nth 0 I 0%nat) - INR (nth 1 I 0%nat))))
      [Layer (Moving (arr [2; 3]%nat (fun I => INR (nth 1 I 0%nat))) (arr [2; 3]%nat (fun _ => -1))) (Moving (arr [3]%nat (fun _ => 1)) (arr [3]%nat (fun _ => 2))) (Some Softplus);
       Layer (Fixed (arr [3; 1]%nat (fun I => INR (nth 0 I 0%nat)))) (Moving (arr [1]%nat (fun _ => 1)) (arr [1]%nat (fun _ => 2))) None]
      (arr [2; 1]%nat (fun _ => 4)).
(** A function of its input: two features, a sigmoid layer and an output layer. *)
Definition ex_input_net : net :=
  Net [] 2 None
      [Layer (Fixed (arr [2; 2]%nat (fun I => INR (nth 1 I 0%nat) + 1))) (Fixed (arr [2]%nat (fun _ => 0))) (Some Sigmoid);
       Layer (Fixed (arr [2; 1]%nat (fun _ => 3))) (Fixed (arr [1]%nat (fun _ => -2))) None]
      (arr [1]%nat (fun _ => 1)).
(** One exponential unit: the loss is (exp x - 2)^2. *)
Definition ex_unit : net :=
  Net [] 1 (Some (arr [1]%nat (fun _ => 1))) [Layer (Moving (arr [1; 1]%nat (fun _ => 0)) (arr [1; 1]%nat (fun _ => 1))) (Fixed (arr [1]%nat (fun _ => 0))) (Some Exp)] (arr [1]%nat (fun _ => 2)).

Lemma lift_one g x0 l h d cs a b : tshape x0 = [1%nat] -> tshape l = [1%nat] -> tshape h = [1%nat] ->
  g (tdata x0 [0%nat]) (tdata l [0%nat], tdata h [0%nat]) d = Ok (cs, (a, b)) ->
  lift_gen g x0 (l, h) d = Ok (map (fun i => Arr (of_list 0 [1%nat] [nth i cs 0])) (seq 0 d) ++ [Ivl (of_list 0 [1%nat] [a]) (of_list 0 [1%nat] [b])]).
Proof. intros E1 E2 E3 H. unfold lift_gen. rewrite E1, E2, E3. cbn [shape_eqb list_eqb andb all_idx mapM seq flat_map map app]. simpl. rewrite H. reflexivity. Qed.

Lemma ex_unit_runs : exists b, taylor_bounds (scalarsR no_usr) (checked_generators no_ugen) (net_program ex_unit) (net_consts ex_unit) 1 false (tscalar 0) (tscalar (-1), tscalar 1) = Ok b /\ length (tb_coefficients b) = 2%nat.
Proof.
  destruct (exp_runs 1 0 (-1) 1) as (cs & l & h & E & L); [lra| | |]; try (right; unfold Rabs; destruct Rcase_abs; simpl; lra).
  assert (G : match taylor_bounds (scalarsR no_usr) (checked_generators no_ugen) (net_program ex_unit) (net_consts ex_unit) 1 false (tscalar 0) (tscalar (-1), tscalar 1) with
    Ok b => (length (tb_coefficients b) =? 2)%nat | Err _ => false end = true).
  { cbv -[lift_gen checked exp_enclosure fun_guard Rplus Rmult Ropp Rminus Rinv Rdiv Rmin Rmax IZR Rlt_dec Rle Rlt].
    match goal with |- context [lift_gen ?g ?x (?l0, ?h0) ?n] =>
      assert (EL : lift_gen g x (l0, h0) n = Ok (map (fun i => Arr (of_list 0 [1%nat] [nth i cs 0])) (seq 0 1) ++ [Ivl (of_list 0 [1%nat] [l]) (of_list 0 [1%nat] [h])])) end.
    { apply lift_one; try reflexivity. cbn [tdata].
      match goal with |- checked _ _ ?u (?v, ?w) _ = _ => assert (Eu : u = 0) by rcompute; assert (Ev : v = -1) by rcompute; assert (Ew : w = 1) by rcompute; rewrite Ev, Ew, Eu; exact E end. }
    rewrite EL. destruct cs as [|c0 [|]]; try discriminate. vm_compute. reflexivity. }
  destruct (taylor_bounds _ _ _ _ _ _ _ _) as [b|] in G |- *; [|discriminate]. exists b. split; [reflexivity|]. apply Nat.eqb_eq. exact G.
Qed.

Example C73_nonvacuous :
  net_fits [] ex_net /\ (forall l e, In l (n_layers ex_net) -> l_act l = Some e -> total_elem 2 e = true) /\
  net_fits [2%nat] ex_input_net /\ (forall l e, In l (n_layers ex_input_net) -> l_act l = Some e -> total_elem 1 e = true) /\
  (forall x, squared_error ex_unit (tscalar x) = (exp x - 2) ^ 2) /\ net_fits [] ex_unit /\
  (exists b, taylor_bounds (scalarsR no_usr) (checked_generators no_ugen) (net_program ex_unit) (net_consts ex_unit) 1 false (tscalar 0) (tscalar (-1), tscalar 1) = Ok b /\ length (tb_coefficients b) = 2%nat).
Proof.
  split; [|split; [|split; [|split; [|split; [|split]]]]].
  - unfold net_fits. cbn. repeat split; auto; try lia; tauto.
  - intros l e [<-|[<-|[]]] H; cbn in H; try discriminate. injection H as <-. reflexivity.
  - unfold net_fits. cbn. repeat split; auto; try lia; tauto.
  - intros l e [<-|[<-|[]]] H; cbn in H; try discriminate. injection H as <-. reflexivity.
  - intros x. unfold squared_error. cbn [n_data ex_unit n_layers n_in n_target n_rows all_idx map fold_right final_size out_size l_w tshape arr nth sum_below forward layer_value l_act act_fun l_b param_value tdata app tscalar].
    replace (0 + 1 * (0 + x * 1) + 0) with x by ring. ring.
  - unfold net_fits. cbn. repeat split; auto; try lia; tauto.
  - exact ex_unit_runs.
Qed.
