(** C35 for the functions the module exports, one by one. *)
From Coq Require Import Reals Lra Lia.
From Verif Require Import Base Tensor IntervalArith Enclosure Elementwise Primitive ElementSpec PropElementwise PropPrimitive NearTable PropNear.
Open Scope R_scope.

(** primitive_enclosures.py:94-105 [abs_enclosure], [exp_enclosure], [log_enclosure],
    [sigmoid_enclosure], [softplus_enclosure], [swish_enclosure]: each is for the
    function it is named after. *)
Theorem C35_exported_enclosures : forall k x0 a b, a <= x0 <= b -> cap_ok k x0 a -> cap_ok k x0 b ->
  let encloses enclosure f := exists e, enclosure x0 (a, b) k = Ok e /\ valid_enclosure f x0 (seg a b) k e in
  let encloses_within eps enclosure f := exists e, enclosure x0 (a, b) k = Ok e /\ valid_enclosure f x0 (seg a b) k (widen (eps / INR (fact k)) e) in
  ((k <= 1)%nat -> encloses abs_enclosure Rabs) /\
  encloses exp_enclosure exp /\
  (0 < a -> encloses log_enclosure ln) /\
  ((k <= 1)%nat -> encloses sigmoid_enclosure (fun x => 1 / (1 + exp (- x)))) /\
  ((2 <= k <= 3)%nat -> encloses_within (4 / 10 ^ 12) sigmoid_enclosure (fun x => 1 / (1 + exp (- x)))) /\
  ((k <= 1)%nat -> encloses softplus_enclosure (fun x => ln (1 + exp x))) /\
  (k = 2%nat -> cap_ok k x0 (Rmin (Rmax (- x0) a) b) -> encloses softplus_enclosure (fun x => ln (1 + exp x))) /\
  ((3 <= k <= 4)%nat -> encloses_within (4 / 10 ^ 12) softplus_enclosure (fun x => ln (1 + exp x))) /\
  ((k <= 2)%nat -> encloses_within (4 / 10 ^ 12) swish_enclosure (fun x => x * (1 / (1 + exp (- x))))).
Proof.
  intros k x0 a b Hx Ca Cb. cbv zeta.
  assert (E : forall n, builtin n k = true -> domain n a -> (n = SOFTPLUS -> k = 2%nat -> cap_ok k x0 (Rmin (Rmax (- x0) a) b)) -> 
    exists e, get_elementwise_taylor_enclosure (n, 0%nat) x0 (a, b) k = Ok e /\ valid_enclosure (textbook n) x0 (seg a b) k e).
  { intros n H1 H2 H3. apply C35_builtin_enclosures_valid; auto. }
  assert (W : forall n, rounded_table n k = true -> exists e, get_elementwise_taylor_enclosure (n, 0%nat) x0 (a, b) k = Ok e /\ valid_enclosure (textbook n) x0 (seg a b) k (widen (4 / 10 ^ 12 / INR (fact k)) e)).
  { intros n H1. apply C35_enclosures_valid_within_rounding; auto. }
  split; [|split; [|split; [|split; [|split; [|split; [|split; [|split]]]]]]]; intros.
  - apply (E ABS); try discriminate; try exact Logic.I. apply Nat.leb_le. auto.
  - apply (E EXP); try discriminate; try exact Logic.I. reflexivity.
  - apply (E LOG); try discriminate; [reflexivity|assumption].
  - apply (E SIGMOID); try discriminate; try exact Logic.I. apply Nat.leb_le. auto.
  - apply (W SIGMOID). cbn [rounded_table]. apply andb_true_intro. split; apply Nat.leb_le; lia.
  - apply (E SOFTPLUS); try exact Logic.I; [apply Nat.leb_le; lia|intros; lia].
  - apply (E SOFTPLUS); try exact Logic.I; [apply Nat.leb_le; lia|auto].
  - apply (W SOFTPLUS). cbn [rounded_table]. apply andb_true_intro. split; apply Nat.leb_le; lia.
  - apply (W SWISH). apply Nat.leb_le. auto.
Qed.
(** softplus, degree 2, at 1 over [0, 2]: away from the cap. *)
Example C35_exported_nonvacuous : exists e, softplus_enclosure 1 (0, 2) 2 = Ok e /\ valid_enclosure (fun x => ln (1 + exp x)) 1 (seg 0 2) 2 e.
Proof.
  assert (K : forall y, y = 0 \/ y = 2 -> cap_ok 2 1 y) by (intros y [-> | ->]; right; unfold Rabs; destruct Rcase_abs; simpl; lra).
  destruct (C35_exported_enclosures 2 1 0 2) as (_ & _ & _ & _ & _ & _ & H & _); [lra|apply K; auto|apply K; auto|].
  apply H; [reflexivity|]. apply K. left. unfold Rmax, Rmin. repeat destruct Rle_dec; lra.
Qed.
