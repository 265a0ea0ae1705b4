(** Concrete cases for C55-C58. *)
From Coq Require Import Reals Lra String.
From Verif Require Import Base Tensor IntervalArith Polynomials Enclosure Elementwise Primitive TensorLemmas Spec ElementSpec GraphEditor GraphSpec JaxprEditor JaxprSpec
  JaxBound JaxSpec JaxTable PropJax JaxTableProofs PropTable ExamplesJax JaxPipeline PipelineSpec PipelineProofs ReplaceSpec PropPipeline.
Open Scope R_scope.

(** let b = jit[exp] a; c = mul b a; d = add c 1 in d, and the rule that replaces
    jit[exp] (primitive 0) by the elementwise primitive 9. *)
Definition ex_av : aval := Aval 0 [] false.
Definition ex_v (n : nat) : var := MkVar n (Z.of_nat n) ex_av.
Definition ex55 : jaxpr :=
  Jaxpr [] [AVar (ex_v 0)] [AVar (ex_v 3)]
    [Eqn 0 [] [AVar (ex_v 0)] [AVar (ex_v 1)]; Eqn 1 [] [AVar (ex_v 1); AVar (ex_v 0)] [AVar (ex_v 2)];
     Eqn 2 [] [AVar (ex_v 2); ALit 7 1 ex_av] [AVar (ex_v 3)]].
Definition ex55_interp (d : eqn_data) : prim R :=
  match eprim d with
  | 0%nat => jit_p (tmapM (s_elem (scalarsR no_usr) Exp))
  | 1%nat => mul_p
  | 2%nat => add_p
  | 9%nat => elementwise_p Exp
  | 10%nat => elementwise_p Softplus
  | 11%nat => jit_p (tmapM (s_elem (scalarsR no_usr) Softplus))
  | _ => neg_p
  end.
Definition ex55_rule : rule := Rule (call_jaxpr 0 [] (ex_v 20) (ex_v 21)) (call_jaxpr 9 [] (ex_v 30) (ex_v 31)).
Definition ex55_ds : list (eqn_data * eqn_data) := [(EqnData 0 [], EqnData 9 [])].
Lemma ex55_call_rules : call_rules [ex55_rule] ex55_ds.
Proof. constructor; [|constructor]. apply call_rule_intro; discriminate. Qed.
Lemma ex55_traced : traced ex55.
Proof.
  constructor.
  - simpl. intuition (subst; eauto).
  - simpl. intros v w Hv Hw E. intuition (try discriminate); repeat match goal with H : AVar _ = AVar _ |- _ => injection H as <- end; try discriminate; reflexivity.
  - simpl. intros v w Hv Hw E N. intuition (try discriminate); repeat match goal with H : AVar _ = AVar _ |- _ => injection H as <- end; try discriminate; reflexivity.
  - simpl. intros v Hv. intuition (try discriminate); repeat match goal with H : AVar _ = AVar _ |- _ => injection H as <- end; discriminate.
Qed.
Lemma ex55_runs : exists b,
  bound_jaxpr ex55_interp (fun x => tscalar (IZR x)) (scalarsR no_usr) (checked_generators no_ugen) 10 100 [ex55_rule] ex55 [] 2 false
    (tscalar 0) (tscalar (-1), tscalar 1) = Some (Ok b) /\ length (tb_coefficients b) = 3%nat.
Proof.
  destruct (exp_runs 2 0 (-1) 1) as (cs & l & h & E & L); [lra| | |]; try (right; unfold Rabs; destruct Rcase_abs; simpl; lra).
  unfold bound_jaxpr. match goal with |- context [rewrite_jaxpr ?a ?b ?c ?d] => let t := eval vm_compute in (rewrite_jaxpr a b c d) in change (rewrite_jaxpr a b c d) with t end.
  cbv -[lift_gen checked exp_enclosure fun_guard Rplus Rmult Ropp Rminus Rinv Rdiv Rmin Rmax IZR Rlt_dec Rle Rlt].
  match goal with |- context [lift_gen ?g ?x (?l0, ?h0) 2%nat] =>
    assert (EL : lift_gen g x (l0, h0) 2%nat = Ok (map (fun i => Arr (of_list 0 [] [nth i cs 0])) (seq 0 2) ++ [Ivl (of_list 0 [] [l]) (of_list 0 [] [h])])) end.
  { apply lift_scalar; try reflexivity. cbn [tdata].
    match goal with |- checked _ _ ?u (?v, ?w) _ = _ => replace u with 0 by reflexivity; replace v with (-1); [replace w with 1; [exact E|]|] end; rcompute. }
  rewrite EL. destruct cs as [|c0 [|c1 [|]]]; try discriminate. eexists. split; [vm_compute; reflexivity|reflexivity].
Qed.
Example C55_nonvacuous : forall x, -1 <= x <= 1 -> exists b y,
  call_rules [ex55_rule] ex55_ds /\ traced ex55 /\
  (forall d d' p q, In (d, d') ex55_ds -> data_rel d (EqnData p q) ->
     same_unary (scalarsR no_usr) (ex55_interp (EqnData p q)) (ex55_interp d')) /\
  (forall e, In e (jeqns ex55) -> opaque_ok (ex55_interp (recall ex55_ds e))) /\
  in_box (tscalar 0) (tscalar (-1), tscalar 1) (tscalar 0) /\ in_box (tscalar 0) (tscalar (-1), tscalar 1) (tscalar x) /\
  supported (scalarsR no_usr) [] 2 (program_of ex55_interp (fun x => tscalar (IZR x)) (with_data (recall ex55_ds) ex55)) [] (tscalar x) /\
  bound_jaxpr ex55_interp (fun x => tscalar (IZR x)) (scalarsR no_usr) (checked_generators no_ugen) 10 100 [ex55_rule] ex55 [] 2 false
    (tscalar 0) (tscalar (-1), tscalar 1) = Some (Ok b) /\ length (tb_coefficients b) = 3%nat /\
  eval_jaxpr (eqn_sem (scalarsR no_usr) ex55_interp) (fun x => tscalar (IZR x)) ex55 [tscalar x] = Some [y] /\ tdata y [] = exp x * x + 1.
Proof.
  intros x Hx. destruct ex55_runs as (b & Hb & Lb). exists b. eexists.
  split; [exact ex55_call_rules|]. split; [exact ex55_traced|]. split; [|split; [|split; [|split; [|split; [|split; [exact Hb|split; [exact Lb|split; [reflexivity|reflexivity]]]]]]]].
  - intros d d' p q [E|[]] H. injection E as <- <-. destruct H as [H _]. simpl in H. subst p. intros u ys Hu. exact Hu.
  - intros e He. simpl in He. destruct He as [<-|[<-|[<-|[]]]]; exact I.
  - split; [reflexivity|]. split; [reflexivity|]. split; [reflexivity|]. intros J _. simpl. lra.
  - split; [reflexivity|]. split; [reflexivity|]. split; [reflexivity|]. intros J _. simpl. lra.
  - split; [reflexivity|]. split; [constructor|]. split; [intros; reflexivity|]. do 3 eexists. split; [reflexivity|]. split; [reflexivity|]. reflexivity.
Qed.

Example C56_nonvacuous : exists j',
  rewrite_jaxpr 10 100 [ex55_rule] ex55 = Some (Ok j') /\ map edata (jeqns j') = [EqnData 9 []; EqnData 1 []; EqnData 2 []] /\
  (forall d d' e e', In (d, d') ex55_ds -> In (e, e') ex55_ds -> ~ data_rel e d').
Proof.
  eexists. split; [vm_compute; reflexivity|]. split; [reflexivity|].
  intros d d' e e' [E|[]] [F|[]]. injection E as <- <-. injection F as <- <-. intros [H _]. discriminate H.
Qed.

Example C57_nonvacuous :
  let r := Registry [] [] [(0, "abs"%string); (1, "exp"%string)]%nat 7 in
  let r' := do_calls r [RegFunction 0 ex55 (ex_v 0) (ex_v 1) "sigmoid"%string; RegFunction 1 ex55 (ex_v 0) (ex_v 1) "softplus"%string;
                        RegFunction 0 ex55 (ex_v 0) (ex_v 1) "again"%string; RegPrimitive 1 "exp2"%string] in
  prim_names r' = [1; 0]%nat /\ length (rewrite_rules r') = 2%nat /\
  map (dict_get (enclosures r')) [0; 1; 7; 8; 9]%nat = [Some "abs"%string; Some "exp2"%string; Some "sigmoid"%string; Some "softplus"%string; None].
Proof. split; [reflexivity|]. split; reflexivity. Qed.

(** x + softplus(c) for an array constant c: the function has a value everywhere,
    taylor_bounds raises whatever the degree and region. *)
Definition ex58 : jaxpr :=
  Jaxpr [AVar (ex_v 5)] [AVar (ex_v 0)] [AVar (ex_v 2)]
    [Eqn 11 [] [AVar (ex_v 5)] [AVar (ex_v 1)]; Eqn 2 [] [AVar (ex_v 0); AVar (ex_v 1)] [AVar (ex_v 2)]].
Definition ex58_rule : rule := Rule (call_jaxpr 11 [] (ex_v 20) (ex_v 21)) (call_jaxpr 10 [] (ex_v 30) (ex_v 31)).
Theorem C58_sum_with_constant_softplus_refuted : forall gs max_deg propagate x0 l h c x, (0 <= max_deg)%Z ->
  bound_jaxpr ex55_interp (fun x => tscalar (IZR x)) (scalarsR no_usr) gs 10 100 [ex58_rule] ex58 [tscalar c] max_deg propagate
    (tscalar x0) (tscalar l, tscalar h) = Some (Err NotImplementedError) /\
  exists y, eval_jaxpr (eqn_sem (scalarsR no_usr) ex55_interp) (fun x => tscalar (IZR x)) ex58 [tscalar c; tscalar x] = Some [y] /\
    tdata y [] = x + ln (1 + exp c).
Proof.
  intros gs max_deg propagate x0 l h c x Hd. split.
  - unfold bound_jaxpr. rewrite (proj2 (Z.ltb_ge _ _) Hd).
    match goal with |- context [rewrite_jaxpr ?a ?b ?c ?d] => let t := eval vm_compute in (rewrite_jaxpr a b c d) in change (rewrite_jaxpr a b c d) with t end.
    f_equal. unfold taylor_bounds, interpret. rewrite (proj2 (Z.ltb_ge _ _) Hd). destruct (Z.to_nat max_deg =? 0)%nat, propagate; reflexivity.
  - eexists. split; [reflexivity|]. reflexivity.
Qed.
