(** Concrete cases meeting the hypotheses of C61-C64, C75. *)
From Coq Require Import Reals Lra.
From Verif Require Import Base Tensor IntervalArith Enclosure TensorLemmas Spec GraphEditor GraphSpec Elementwise Primitive ElementSpec PropElementwise PropPrimitive PropPower PropClear
  PropJax PropTable JaxBound JaxSpec JaxTable JaxTableProofs IsoSpec Iso IsoMain IsoTable PropIso PropGap ExamplesJax.
Open Scope R_scope.

Lemma no_user_centre n : valid_gen_if at_centre (no_ugen n) (no_usr n).
Proof. intros S x0 l h d e _ _ _ _ H. discriminate. Qed.
Lemma no_user_iso n : iso_gen (no_ugen n).
Proof. intros S x x' l h l' h' d e e' _ _ _ _ _ _ _ _ H. discriminate. Qed.

(** x * exp x + 1 at 0, degree 2, over [-2, 2]. *)
Lemma ex46_wide : exists b, taylor_bounds (scalarsR no_usr) (checked_generators no_ugen) ex46 [] 2 false (tscalar 0) (tscalar (-2), tscalar 2) = Ok b.
Proof.
  destruct (exp_runs 2 0 (-2) 2) as (cs & l & h & E & L); [lra| | |]; try (right; unfold Rabs; destruct Rcase_abs; simpl; lra).
  cbv -[lift_gen checked exp_enclosure fun_guard Rplus Rmult Ropp Rminus Rinv Rdiv Rmin Rmax IZR Rlt_dec Rle Rlt].
  match goal with |- context [lift_gen ?g ?x (?l0, ?h0) 2%nat] =>
    assert (EL : lift_gen g x (l0, h0) 2%nat = Ok (map (fun i => Arr (of_list 0 [] [nth i cs 0])) (seq 0 2) ++ [Ivl (of_list 0 [] [l]) (of_list 0 [] [h])])) end.
  { apply lift_scalar; try reflexivity. cbn [tdata].
    match goal with |- checked _ _ ?u (?v, ?w) _ = _ => replace u with 0 by reflexivity; replace v with (-2); [replace w with 2; [exact E|]|] end; rcompute. }
  rewrite EL. destruct cs as [|c0 [|c1 [|]]]; try discriminate. eexists. vm_compute. reflexivity.
Qed.
Lemma ex46_opaque : forall o, In o (gops (p_graph ex46)) -> opaque_ok (odata o).
Proof. intros o Ho. simpl in Ho. destruct Ho as [<-|[<-|[<-|[]]]]; exact I. Qed.

Example C61_nonvacuous : exists b b',
  in_box (tscalar 0) (tscalar (-1), tscalar 1) (tscalar 0) /\ inside_box (tscalar (-1), tscalar 1) (tscalar (-2), tscalar 2) /\
  supported (scalarsR no_usr) [] 2 ex46 [] (tscalar 0) /\
  taylor_bounds (scalarsR no_usr) (guarded_generators no_ugen) ex46 [] 2 false (tscalar 0) (tscalar (-1), tscalar 1) = Ok b /\
  taylor_bounds (scalarsR no_usr) (guarded_generators no_ugen) ex46 [] 2 false (tscalar 0) (tscalar (-2), tscalar 2) = Ok b' /\
  length (tb_coefficients b) = 3%nat /\ forall x, tighter_at b b' (tscalar x).
Proof.
  destruct ex46_runs as (b & Hb & Lb). destruct ex46_wide as (b' & Hb').
  apply (taylor_bounds_le _ _ _ (checked_guarded_le no_ugen)) in Hb, Hb'. exists b, b'. destruct C48_nonvacuous as (B0 & _ & HS).
  assert (HN : inside_box (tscalar (-1), tscalar 1) (tscalar (-2), tscalar 2)) by (split; [reflexivity|]; split; [reflexivity|]; intros s _; simpl; lra).
  do 6 (split; [assumption|]). intros x.
  exact (proj2 (proj2 (C61_registered_functions no_usr no_ugen ex46 [] 2 false (tscalar 0) _ _ (tscalar x) b b' no_user_centre no_user_iso ex46_opaque B0 HN eq_refl HS Hb Hb'))).
Qed.
Example C62_nonvacuous : exists b b',
  taylor_bounds (scalarsR no_usr) (guarded_generators no_ugen) ex46 [] 2 true (tscalar 0) (tscalar (-1), tscalar 1) = Ok b /\
  taylor_bounds (scalarsR no_usr) (guarded_generators no_ugen) ex46 [] 2 false (tscalar 0) (tscalar (-1), tscalar 1) = Ok b' /\
  length (tb_coefficients b) = 3%nat /\ forall x, tighter_at b b' (tscalar x).
Proof.
  destruct C47_nonvacuous as (b & Hb & Lb). destruct ex46_runs as (b' & Hb' & _).
  apply (taylor_bounds_le _ _ _ (checked_guarded_le no_ugen)) in Hb, Hb'. exists b, b'. destruct C48_nonvacuous as (B0 & _ & HS).
  do 3 (split; [assumption|]). intros x.
  exact (proj2 (proj2 (C62_registered_functions no_usr no_ugen ex46 [] 2 (tscalar 0) _ (tscalar x) b b' no_user_centre no_user_iso ex46_opaque B0 eq_refl HS Hb Hb'))).
Qed.

(** [1, 2] * [-1, 3] against [0, 2] * [-2, 3]. *)
Example C63_nonvacuous : exists c c',
  narrower (Ivl (tscalar 1) (tscalar 2)) (Ivl (tscalar 0) (tscalar 2)) /\ narrower (Ivl (tscalar (-1)) (tscalar 3)) (Ivl (tscalar (-2)) (tscalar 3)) /\
  imul (Ivl (tscalar 1) (tscalar 2)) (Ivl (tscalar (-1)) (tscalar 3)) = Ok c /\ imul (Ivl (tscalar 0) (tscalar 2)) (Ivl (tscalar (-2)) (tscalar 3)) = Ok c' /\
  tdata (lo c) [] = -2 /\ tdata (lo c') [] = -4.
Proof.
  do 2 eexists. split; [apply (sub_narrower []); apply sub_ivl; try reflexivity; intros I _; simpl; lra|]. split; [apply (sub_narrower []); apply sub_ivl; try reflexivity; intros I _; simpl; lra|].
  split; [reflexivity|]. split; [reflexivity|]. split; rcompute.
Qed.
Example C64_nonvacuous : exists e e',
  builtin SOFTPLUS 2 = true /\ get_elementwise_taylor_enclosure (SOFTPLUS, 0%nat) 1 (0, 2) 2 = Ok e /\ get_elementwise_taylor_enclosure (SOFTPLUS, 0%nat) 1 (-3, 4) 2 = Ok e'.
Proof.
  destruct (PropCentre.C35_always_returns_exact_at_x0 SOFTPLUS 2 1 0 2) as (e & H & _); try exact I; try reflexivity; [lra|].
  destruct (PropCentre.C35_always_returns_exact_at_x0 SOFTPLUS 2 1 (-3) 4) as (e' & H' & _); try exact I; try reflexivity; [lra|]. exists e, e'. auto.
Qed.

(** x * exp x + 1 at 0, degree 2, regions [-2, 2] and [-1, 1]: the gap of the
    second bounds is at most M x^2. *)
Example C75_nonvacuous : exists b b' M, 
  taylor_bounds (scalarsR no_usr) (guarded_generators no_ugen) ex46 [] 2 false (tscalar 0) (tscalar (-2), tscalar 2) = Ok b /\
  in_box (tscalar 0) (tscalar (-2), tscalar 2) (tscalar 0) /\ inside_box (tscalar (-1), tscalar 1) (tscalar (-2), tscalar 2) /\
  supported (scalarsR no_usr) [] 2 ex46 [] (tscalar 0) /\
  taylor_bounds (scalarsR no_usr) (guarded_generators no_ugen) ex46 [] 2 false (tscalar 0) (tscalar (-1), tscalar 1) = Ok b' /\
  forall x, exists l h, tb_lower b' (tscalar x) = Ok l /\ tb_upper b' (tscalar x) = Ok h /\ tdata h [] - tdata l [] <= M * Rabs x ^ 2.
Proof.
  destruct C61_nonvacuous as (b' & b & B0' & HN & HS & Hb' & Hb & _ & HT). exists b, b'.
  assert (B0 : in_box (tscalar 0) (tscalar (-2), tscalar 2) (tscalar 0)) by (split; [reflexivity|]; split; [reflexivity|]; split; [reflexivity|]; intros s _; simpl; lra).
  destruct (C75_registered_functions no_usr no_ugen ex46 [] 2 false (tscalar 0) _ b no_user_centre no_user_iso ex46_opaque B0 HS Hb _ [] eq_refl) as (M & _ & K); [constructor|].
  exists M. do 5 (split; [assumption|]). intros x.
  destruct (K _ b' (tscalar x) (Rabs x) B0' HN Hb' eq_refl (Rabs_pos x)) as (_ & l & h & E1 & E2 & _ & _ & G).
  - intros J _. cbn. rewrite Rminus_0_r. lra.
  - exists l, h. split; auto. split; auto. exact (proj2 G).
Qed.
