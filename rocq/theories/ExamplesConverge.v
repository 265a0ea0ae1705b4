(** Concrete cases meeting the hypotheses of C82. *)
From Coq Require Import Reals Lra Lia.
From Coquelicot Require Import Coquelicot.
From Verif Require Import Base Tensor IntervalArith Enclosure TensorLemmas Spec GraphEditor GraphSpec Elementwise Primitive ElementSpec PropElementwise PropPrimitive PropPower PropClear
  PropJax PropTable JaxBound JaxSpec JaxTable JaxTableProofs IsoSpec Iso IsoMain IsoTable PropIso PropGap ExamplesJax ExamplesIso Notebooks NotebookSpec PropNotebooks Magnitude MagnitudeEnc MagnitudeJax MagnitudeTable PropConverge.
Open Scope R_scope.

Lemma ex46_everywhere : forall o, In o (gops (p_graph ex46)) -> everywhere no_usr no_ugen (odata o).
Proof. intros o Ho. simpl in Ho. destruct Ho as [<-|[<-|[<-|[]]]]; exact I. Qed.

(** x * exp x + 1, degree 2: one M for every centre in [-1, 1] and every region
    in [-1, 1]; the run at centre 0 over [-1, 1] is one of those it covers. *)
Example C82_nonvacuous : exists M b,
  taylor_bounds (scalarsR no_usr) (guarded_generators no_ugen) ex46 [] 2 false (tscalar 0) (tscalar (-1), tscalar 1) = Ok b /\
  entries_within 1 (tscalar 0) /\ entries_within 1 (tscalar (-1)) /\ entries_within 1 (tscalar 1) /\
  supported (scalarsR no_usr) [] 2 ex46 [] (tscalar 0) /\
  forall x, exists l h, tb_lower b (tscalar x) = Ok l /\ tb_upper b (tscalar x) = Ok h /\ tdata h [] - tdata l [] <= M * Rabs x ^ 2.
Proof.
  destruct C61_nonvacuous as (b & b' & B0 & HN & HS & Hb & _). destruct (C46_nonvacuous 0 ltac:(lra)) as (_ & _ & _ & _ & _ & _ & _ & y & My & _).
  destruct (C82_registered_functions no_usr no_ugen ex46 [] 2 false [] 1 [] no_user_centre ex46_opaque ex46_everywhere) as (M & _ & K).
  exists M, b. split; [exact Hb|].
  assert (W : forall v, Rabs v <= 1 -> entries_within 1 (tscalar v)) by (intros v Hv J; exact Hv).
  assert (W0 : entries_within 1 (tscalar 0)) by (apply W; rewrite Rabs_R0; lra).
  assert (W1 : entries_within 1 (tscalar (-1))) by (apply W; unfold Rabs; destruct Rcase_abs; lra).
  assert (W2 : entries_within 1 (tscalar 1)) by (apply W; unfold Rabs; destruct Rcase_abs; lra).
  do 4 (split; [assumption|]). intros x.
  destruct (K (tscalar 0) (tscalar (-1), tscalar 1) b y (tscalar x) (Rabs x) eq_refl B0 W0 W1 W2 HS Hb My) as (_ & l & h & E1 & E2 & _ & _ & G); try reflexivity.
  - unfold meaning in My. cbn in My. injection My as <-. exact (Forall2_nil _).
  - apply Rabs_pos.
  - intros J _. cbn. rewrite Rminus_0_r. lra.
  - exists l, h. auto.
Qed.

Definition cube : program R := Program (@Graph jvar (prim R) (list jvar) [Var 0] [Var 1] [Op (integer_pow_p 3) [Var 0] [Var 1]] []) (fun _ => tscalar 0).
Lemma cube_cell : forall a b, exists l u, integral_bound_v0 (scalarsR no_usr) (guarded_generators no_ugen) Rdiv cube [] a b 2 = Ok (l, u).
Proof.
  intros a b. do 2 eexists. lazy -[Rplus Rmult Ropp Rminus Rinv Rdiv Rmin Rmax IZR Rlt_dec]. reflexivity.
Qed.
Lemma cube_runs : forall a b n, (0 < n)%Z -> exists l u, integral_bound_v1 (scalarsR no_usr) (guarded_generators no_ugen) Rdiv cube [] a b 2 n = Ok (l, u).
Proof.
  intros a b n Hn. unfold integral_bound_v1. destruct (Z.eqb_spec n 0) as [->|_]; [lia|]. cbv zeta.
  generalize (seq 0 (Z.to_nat n)). generalize (@n0 R _) at 1. generalize (@n0 R _). intros s1 s0 L. revert s0 s1.
  induction L as [|i L IH]; intros s0 s1; [exists s0, s1; reflexivity|]. cbn [foldM].
  match goal with |- context [integral_bound_v0 _ _ _ _ _ ?p ?q _] => destruct (cube_cell p q) as (l & u & E) end.
  rewrite E. cbn [bind fst snd]. apply IH.
Qed.
Lemma cube_computes : forall x, computes (scalarsR no_usr) 2 cube [] x (x * (x * (x * 1))).
Proof.
  intros x. split.
  - split; [reflexivity|]. split; [constructor|]. split; [reflexivity|]. do 3 eexists. split; [reflexivity|]. split; [reflexivity|].
    lazy -[Rplus Rmult Ropp Rminus Rinv Rdiv Rmin Rmax IZR Rlt_dec]. reflexivity.
  - eexists. split; [lazy -[Rplus Rmult Ropp Rminus Rinv Rdiv Rmin Rmax IZR Rlt_dec]; reflexivity|]. split; [reflexivity|]. cbn. try ring.
Qed.

(** x^3 over [a, b] in cells of degree 2: every subdivision runs, and the two
    bounds of the integral approach each other like 1 / n^2. *)
Example C82_nonvacuous_integral : forall a b, a <= b -> exists M, forall n, (0 < n)%Z -> exists l u,
  integral_bound_v1 (scalarsR no_usr) (guarded_generators no_ugen) Rdiv cube [] a b 2 n = Ok (l, u) /\ u - l <= M / IZR n ^ 2.
Proof.
  intros a b Hab.
  assert (G : forall o, In o (gops (p_graph cube)) -> odata o = integer_pow_p 3) by (intros o Ho; simpl in Ho; destruct Ho as [<-|[]]; reflexivity).
  destruct (C82_integral_bounds_converge (scalarsR no_usr) (guarded_generators no_ugen) cube [] 2 a b) as (M & _ & K).
  - intros o _. apply guarded_gens_ok. exact no_user_centre.
  - intros o Ho. rewrite (G o Ho). exact I.
  - intros o Ho. rewrite (G o Ho). simpl. lia.
  - exact Hab.
  - intros x _. eexists. apply cube_computes.
  - exists M. intros n Hn. destruct (cube_runs a b n Hn) as (l & u & E). exists l, u. split; [exact E|]. exact (K n l u Hn E).
Qed.
Lemma cube_runs_checked : forall a b n, (0 < n)%Z -> exists l u, integral_bound_v1 (scalarsR no_usr) (checked_generators no_ugen) Rdiv cube [] a b 2 n = Ok (l, u).
Proof.
  intros a b n Hn. unfold integral_bound_v1. destruct (Z.eqb_spec n 0) as [->|_]; [lia|]. cbv zeta.
  generalize (seq 0 (Z.to_nat n)). generalize (@n0 R _) at 1. generalize (@n0 R _). intros s1 s0 L. revert s0 s1.
  induction L as [|i L IH]; intros s0 s1; [exists s0, s1; reflexivity|]. cbn [foldM].
  match goal with |- context [integral_bound_v0 _ _ _ _ _ ?p ?q _] => assert (E : exists l u, integral_bound_v0 (scalarsR no_usr) (checked_generators no_ugen) Rdiv cube [] p q 2 = Ok (l, u)) end.
  { do 2 eexists. lazy -[Rplus Rmult Ropp Rminus Rinv Rdiv Rmin Rmax IZR Rlt_dec]. reflexivity. }
  destruct E as (l & u & E). rewrite E. cbn [bind fst snd]. apply IH.
Qed.
(** ... and each of them approaches the integral. *)
Example C82_nonvacuous_error : forall a b, a <= b -> exists M, forall n, (0 < n)%Z -> exists l u,
  integral_bound_v1 (scalarsR no_usr) (checked_generators no_ugen) Rdiv cube [] a b 2 n = Ok (l, u) /\
  0 <= RInt (fun x => x * (x * (x * 1))) a b - l <= M / IZR n ^ 2 /\ 0 <= u - RInt (fun x => x * (x * (x * 1))) a b <= M / IZR n ^ 2.
Proof.
  intros a b Hab.
  assert (G : forall o, In o (gops (p_graph cube)) -> odata o = integer_pow_p 3) by (intros o Ho; simpl in Ho; destruct Ho as [<-|[]]; reflexivity).
  destruct (C82_integral_error (scalarsR no_usr) (checked_generators no_ugen) cube [] 2 (fun x => x * (x * (x * 1))) a b) as (M & _ & K).
  - exact (checked_valid no_usr no_ugen no_user_valid).
  - intros o Ho. rewrite (G o Ho). exact I.
  - intros o Ho. rewrite (G o Ho). simpl. lia.
  - exact Hab.
  - intros x _. apply cube_computes.
  - apply (ex_RInt_continuous (V := R_CompleteNormedModule)). intros x _. apply (ex_derive_continuous (fun x => x * (x * (x * 1)))). auto_derive. auto.
  - exists M. intros n Hn. destruct (cube_runs_checked a b n Hn) as (l & u & E). exists l, u. split; [exact E|]. exact (K n l u Hn E).
Qed.
