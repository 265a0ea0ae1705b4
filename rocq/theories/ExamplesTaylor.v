(** A concrete case meeting the hypotheses of C66: x * exp x + 1 at 0 over
    [-1, 1], degree 2. *)
From Coq Require Import Reals Lra Psatz.
From Coquelicot Require Import Coquelicot.
From Verif Require Import Base Tensor IntervalArith TensorLemmas Spec GraphEditor GraphSpec JaxTable JaxTableProofs JaxBound JaxSpec PropTable ExamplesJax TaylorSpec PropTaylor.
Open Scope R_scope.

Lemma ex66_along t : Rabs t < 1 -> along (scalarsR no_usr) ex46 [] 2 (tscalar 0) (tscalar (-1), tscalar 1) [] (fun _ => 1) (fun t => exp t * t + 1) t.
Proof.
  intros Ht. apply Rabs_def2 in Ht. destruct (C46_nonvacuous t ltac:(lra)) as (b & _ & _ & B & S & _ & _ & y & M & V).
  exists (tscalar t), y. split; auto. split; [intros J _; simpl; ring|]. split; auto. split; auto. split; [|exact V].
  unfold meaning in M. cbn in M. injection M as <-. simpl. constructor.
Qed.

Example C66_nonvacuous : exists b,
  taylor_bounds (scalarsR no_usr) (checked_generators no_ugen) ex46 [] 2 false (tscalar 0) (tscalar (-1), tscalar 1) = Ok b /\
  (forall t, Rabs t < 1 -> along (scalarsR no_usr) ex46 [] 2 (tscalar 0) (tscalar (-1), tscalar 1) [] (unit_vector []) (fun t => exp t * t + 1) t) /\
  coefficient_at [] (tb_coefficients b) 1 [] [] = 1.
Proof.
  destruct ex46_runs as (b & Hb & _). exists b. split; auto.
  assert (HA : forall t, Rabs t < 1 -> along (scalarsR no_usr) ex46 [] 2 (tscalar 0) (tscalar (-1), tscalar 1) [] (unit_vector []) (fun t => exp t * t + 1) t).
  { intros t Ht. destruct (ex66_along t Ht) as (x & y & B & E & R). exists x, y. split; auto. split; auto. intros J HJ. rewrite E by auto. apply valid_nil in HJ. subst J. unfold unit_vector. simpl. ring. }
  split; auto.
  assert (H : is_derive (fun t => exp t * t + 1) 0 (coefficient_at [] (tb_coefficients b) 1 [] [])).
  { destruct (C46_nonvacuous 0 ltac:(lra)) as (_ & HO & B & _).
    refine (C66_gradient _ _ _ _ 2 _ _ _ b (checked_valid no_usr no_ugen no_user_valid) HO B ltac:(lia) Hb [] [] _ 1 _ ltac:(lra) HA). constructor. }
  assert (H1 : is_derive (fun t => exp t * t + 1) 0 1) by (auto_derive; auto; rewrite exp_0; ring).
  rewrite <- (is_derive_unique _ _ _ H). apply is_derive_unique. exact H1.
Qed.
