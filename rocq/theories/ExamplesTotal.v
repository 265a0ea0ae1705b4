(** A concrete program meeting the hypotheses of C60:
    exp (sum (softplus (x) * x)) + 1 for x of shape (2,), degree 2, with
    propagation of trust regions. *)
From Coq Require Import Reals Lra.
From Verif Require Import Base Tensor IntervalArith Polynomials Enclosure TensorLemmas Spec GraphEditor GraphSpec Elementwise Primitive
  JaxBound JaxSpec JaxTable TotalSpec PropTotal PropTotalTable ExamplesJax.
Open Scope R_scope.

Definition ex60 : program R :=
  Program (@Graph jvar (prim R) (list jvar) [Var 0] [Var 4]
             [Op (elementwise_p Softplus) [Var 0] [Var 1]; Op (dot_general_p [0%nat] [0%nat] [] []) [Var 1; Var 0] [Var 2];
              Op (elementwise_p Exp) [Var 2] [Var 3]; Op add_p [Var 3; Lit 0] [Var 4]] [])
          (fun _ => tscalar 1).
Definition ex60_x0 : tensor R := mkT [2%nat] (fun I => if list_eqb Nat.eqb I [0%nat] then 1 / 2 else 0).
Definition ex60_region : tensor R * tensor R := (mkT [2%nat] (fun _ => -1), mkT [2%nat] (fun _ => 1)).

Example C60_nonvacuous :
  (forall o, In o (gops (p_graph ex60)) -> total_prim 2 (odata o)) /\ (forall o, In o (gops (p_graph ex60)) -> opaque_ok (odata o)) /\
  in_box ex60_x0 ex60_region ex60_x0 /\ wf_program ex60 [] /\ supported (scalarsR no_usr) [2%nat] 2 ex60 [] ex60_x0 /\
  accepted_program (scalarsR no_usr) (generatorsR no_ugen) 2 true ex60 [] ex60_x0 /\
  exists y, meaning (scalarsR no_usr) ex60 [] ex60_x0 = Some [y] /\ tdata y [] = exp (ln (1 + exp (1 / 2)) * (1 / 2) + ln (1 + exp 0) * 0) + 1.
Proof.
  split; [|split; [|split; [|split; [|split; [|split]]]]].
  - intros o Ho. simpl in Ho. destruct Ho as [<-|[<-|[<-|[<-|[]]]]]; simpl; auto.
  - intros o Ho. simpl in Ho. destruct Ho as [<-|[<-|[<-|[<-|[]]]]]; exact I.
  - split; [reflexivity|]. split; [reflexivity|]. split; [reflexivity|]. intros J _. simpl. destruct (list_eqb _ _ _); lra.
  - split; [eexists; reflexivity|]. split; [eexists; split; [reflexivity|discriminate]|]. split; [constructor|]. split; [reflexivity|].
    split; [repeat constructor|]. split; [simpl; repeat constructor; simpl; intuition discriminate|].
    intros o Ho. simpl in Ho. destruct Ho as [<-|[<-|[<-|[<-|[]]]]]; simpl; intuition discriminate.
  - split; [reflexivity|]. split; [constructor|]. split; [intros; reflexivity|]. do 3 eexists. split; [reflexivity|]. split; [reflexivity|]. reflexivity.
  - intros r k Hr Hk. injection Hr as <-. injection Hk as <-.
    simpl. intros a1 ks1 v1 kd1 r1 k1 A1 K1 V1 D1 R1 Q1. injection A1 as <-. injection K1 as <-. 
    cbv -[Rplus Rmult Rdiv exp ln IZR Rinv Ropp] in V1. injection V1 as <-. injection D1 as <-. injection R1 as <-. injection Q1 as <-. split; [first [exact I|simpl; intuition discriminate]|].
    intros a2 ks2 v2 kd2 r2 k2 A2 K2 V2 D2 R2 Q2. injection A2 as <-. injection K2 as <-.
    cbv -[Rplus Rmult Rdiv exp ln IZR Rinv Ropp] in V2. injection V2 as <-. injection D2 as <-. injection R2 as <-. injection Q2 as <-. split; [first [exact I|simpl; intuition discriminate]|].
    intros a3 ks3 v3 kd3 r3 k3 A3 K3 V3 D3 R3 Q3. injection A3 as <-. injection K3 as <-.
    cbv -[Rplus Rmult Rdiv exp ln IZR Rinv Ropp] in V3. injection V3 as <-. injection D3 as <-. injection R3 as <-. injection Q3 as <-. split; [first [exact I|simpl; intuition discriminate]|].
    intros a4 ks4 v4 kd4 r4 k4 A4 K4 V4 D4 R4 Q4. injection A4 as <-. injection K4 as <-. split; [first [exact I|simpl; intuition discriminate]|exact I].
  - eexists. split; [reflexivity|]. cbv -[Rplus Rmult Rdiv exp ln IZR Rinv]. rewrite Rplus_0_l. reflexivity.
Qed.
