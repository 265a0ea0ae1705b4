(** A concrete case meeting the hypotheses of C82_total_programs_converge:
    x * exp x + 1 over [a, b], degree 2. *)
From Coq Require Import Reals Lra Lia.
From Verif Require Import Base Tensor IntervalArith Enclosure TensorLemmas Spec GraphEditor GraphSpec Elementwise Primitive ElementSpec PropElementwise PropPrimitive
  JaxBound JaxSpec JaxLemmas JaxTable JaxTableProofs TotalSpec PropTotal PropTotalTable Notebooks NotebookSpec ExamplesJax ExamplesIso PropConverge PropIntegralTotal.
Open Scope R_scope.

Example C82_nonvacuous_total : forall a b, -1 <= a <= b -> b <= 1 -> exists M, forall n, (0 < n)%Z -> exists l u,
  integral_bound_v1 (scalarsR no_usr) (generatorsR no_ugen) Rdiv ex46 [] a b 2 n = Ok (l, u) /\ u - l <= M / IZR n ^ 2.
Proof.
  intros a b Ha Hb.
  destruct (C82_total_programs_converge no_usr no_ugen ex46 [] 2 a b) as (M & _ & K); try lia; try lra; try reflexivity.
  - intros o Ho. simpl in Ho. destruct Ho as [<-|[<-|[<-|[]]]]; simpl; auto.
  - exact ex46_opaque.
  - intros o Ho. simpl in Ho. destruct Ho as [<-|[<-|[<-|[]]]]; exact Logic.I.
  - split; [eexists; reflexivity|]. split; [eexists; split; [reflexivity|discriminate]|]. split; [constructor|]. split; [reflexivity|].
    split; [repeat constructor|]. split; [simpl; repeat constructor; simpl; intuition discriminate|].
    intros o Ho. simpl in Ho. destruct Ho as [<-|[<-|[<-|[]]]]; simpl; intuition discriminate.
  - intros x Hx. split.
    + destruct (C46_nonvacuous x ltac:(lra)) as (bd & _ & _ & _ & S & _ & _ & y & My & V). exists (exp x * x + 1). split; auto. exists y. split; auto. split; auto. unfold meaning in My. cbn in My. injection My as <-. reflexivity.
    + intros r k Hr Hk. injection Hr as <-. injection Hk as <-.
      simpl. intros a1 ks1 v1 kd1 r1 k1 A1 K1 V1 D1 R1 Q1. injection A1 as <-. injection K1 as <-. 
      cbv -[Rplus Rmult Rdiv exp ln IZR Rinv Ropp] in V1. injection V1 as <-. injection D1 as <-. injection R1 as <-. injection Q1 as <-. split; [first [exact Logic.I|simpl; intuition discriminate]|].
      intros a2 ks2 v2 kd2 r2 k2 A2 K2 V2 D2 R2 Q2. injection A2 as <-. injection K2 as <-.
      cbv -[Rplus Rmult Rdiv exp ln IZR Rinv Ropp] in V2. injection V2 as <-. injection D2 as <-. injection R2 as <-. injection Q2 as <-. split; [first [exact Logic.I|simpl; intuition discriminate]|].
      intros a3 ks3 v3 kd3 r3 k3 A3 K3 V3 D3 R3 Q3. injection A3 as <-. injection K3 as <-. split; [first [exact Logic.I|simpl; intuition discriminate]|exact Logic.I].
  - exists M. exact K.
Qed.
