(** Properties C49-C52 and C54: where taylor_bounds is unsound or raises. *)
From Coq Require Import Reals Lra.
From Verif Require Import Base Tensor IntervalArith Polynomials Enclosure TensorLemmas Spec IntervalProofs PropEnclosure GraphEditor GraphSpec JaxBound JaxSpec JaxLemmas JaxDot JaxOps PropJax.
Open Scope R_scope.

(** * C49: nested jit *)
(** jit(x -> x * x), one equation. *)
Definition jit_square : program R :=
  Program (@Graph jvar (prim R) (list jvar) [Var 0] [Var 1] [Op (jit_p (fun t => tmul t t)) [Var 0] [Var 1]] []) (fun _ => tscalar 0).
(** The function carried by the equation depends on array entries only; x0 and x
    are in the region; the code returns bounds and they exclude the value. *)
Theorem C49_jit_unsound_refuted : forall sc gs propagate,
  exists x b y, opaque_ok (jit_p (fun t : tensor R => tmul t t)) /\
    in_box (tscalar 0) (tscalar 0, tscalar 1) (tscalar 0) /\ in_box (tscalar 0) (tscalar 0, tscalar 1) x /\
    taylor_bounds sc gs jit_square [] 1 propagate (tscalar 0) (tscalar 0, tscalar 1) = Ok b /\
    meaning sc jit_square [] x = Some [y] /\ tdata y [] = tdata x [] * tdata x [] /\ ~ bounds_at b x y.
Proof.
  intros sc gs propagate. exists (tscalar (1 / 2)).
  assert (E : exists b, taylor_bounds sc gs jit_square [] 1 propagate (tscalar 0) (tscalar 0, tscalar 1) = Ok b /\
              exists r, tb_upper b (tscalar (1 / 2)) = Ok r /\ tb_lower b (tscalar (1 / 2)) = Ok r /\ tdata r [] = 1 / 2).
  { destruct propagate; (eexists; split; [cbv -[Rplus Rmult Ropp Rminus Rinv Rdiv Rmin Rmax IZR Rlt_dec Rle Rlt]; reflexivity|]);
    (eexists; split; [cbv -[Rplus Rmult Ropp Rminus Rinv Rdiv Rmin Rmax IZR Rlt_dec Rle Rlt]; reflexivity|]); (split; [reflexivity|]); cbn; lra. }
  destruct E as (b & Hb & r & Hu & Hl & Hr). exists b. eexists. split; [|split; [|split; [|split; [exact Hb|split; [reflexivity|split; [reflexivity|]]]]]].
  - intros a a' [E1 E2]. unfold tmul, tmap2. rewrite <- E1. destruct (bshape (tshape a) (tshape a)) as [s|] eqn:ES; constructor.
    destruct (bshape_spec _ _ _ ES) as [C _]. split; [reflexivity|]. intros I HI. cbn [tdata tshape] in *. unfold bget. rewrite <- E1. rewrite E2; auto. exact (bidx_compat_valid _ _ _ C HI).
  - split; [reflexivity|]. split; [reflexivity|]. split; [reflexivity|]. intros J _. simpl. lra.
  - split; [reflexivity|]. split; [reflexivity|]. split; [reflexivity|]. intros J _. simpl. lra.
  - intros (l & h & Hl' & Hh & _ & _ & HB). rewrite Hl in Hl'. injection Hl' as <-. specialize (HB [] ltac:(constructor)). cbn in HB. rewrite Hr in HB. lra.
Qed.
(** jit(x -> -x) at degree 0: the ends of the final interval come out in reverse
    order. *)
Definition jit_negate : program R :=
  Program (@Graph jvar (prim R) (list jvar) [Var 0] [Var 1] [Op (jit_p (fun t => Ok (tneg t))) [Var 0] [Var 1]] []) (fun _ => tscalar 0).
Theorem C49_jit_reversed_refuted : forall sc gs, exists b l h,
  taylor_bounds sc gs jit_negate [] 0 false (tscalar 0) (tscalar 0, tscalar 1) = Ok b /\
  tb_final_interval b = Ok (l, h) /\ tdata h [] < tdata l [].
Proof.
  intros sc gs. do 3 eexists. split; [reflexivity|]. split; [reflexivity|]. cbn. lra.
Qed.

(** * C50: dot_general *)
(** Without batch axes, or with no derivative axes on the left operand, the rule
    obeys the documented index law: entry [s + I + J] of the result is entry [s]
    of the dot_general of the slices [u[... + I]] and [v[... + J]]. *)
Theorem C50_index_law : forall lc rc lb rb Sa Sb ra rb' (u v w t : tensor R) I J,
  lb = [] \/ ra = [] -> tshape u = Sa ++ ra -> tshape v = Sb ++ rb' ->
  dot_pbb lc rc lb rb u v (length ra) (length rb') = Ok w -> valid ra I -> valid rb' J ->
  dot_general lc rc lb rb (mkT Sa (fun s => tdata u (s ++ I))) (mkT Sb (fun s => tdata v (s ++ J))) = Ok t ->
  tshape w = tshape t ++ ra ++ rb' /\ forall s, valid (tshape t) s -> tdata w (s ++ I ++ J) = tdata t s.
Proof.
  intros lc rc lb rb Sa Sb ra rb' u v w t I J HC Hu Hv Hw HI HJ Ht.
  destruct (dot_ok _ _ _ _ _ _ _ Ht) as (HD & St & Et). cbn [tshape] in HD, St.
  destruct (dot_batched lc rc lb rb Sa Sb HD ra rb' u v w Hu Hv) as [Sw Ew].
  { unfold dot_pbb'. destruct HC as [-> | ->]; simpl length in *; [exact Hw|]. rewrite orb_true_r. exact Hw. }
  rewrite St. split; [exact Sw|]. intros s Hs. rewrite Ew by auto. rewrite Et. reflexivity.
Qed.
Example C50_nonvacuous : exists w t, 
  dot_pbb [1]%nat [0]%nat [] [] (mkT [2; 3; 4]%nat (fun _ => 1)) (mkT [3; 5]%nat (fun _ => 1)) 1 1 = Ok w /\ tshape w = [2; 4; 5]%nat /\
  dot_general [1]%nat [0]%nat [] [] (mkT [2; 3]%nat (fun _ => 1)) (mkT [3]%nat (fun _ => 1)) = Ok t /\ tshape t = [2]%nat.
Proof. do 2 eexists. split; [reflexivity|]. split; [reflexivity|]. split; reflexivity. Qed.

(** (M x) * 1 written with a batched dot_general, where M = [[0, 1], [0, 0]]:
    the derivative M comes out transposed. *)
Definition vec2 (a b : R) : tensor R := mkT [2]%nat (fun I => match I with [0%nat] => a | _ => b end).
Definition batched_dot : program R :=
  Program (@Graph jvar (prim R) (list jvar) [Var 0] [Var 2]
             [Op (dot_general_p [1]%nat [0]%nat [] []) [Lit 0; Var 0] [Var 1]; Op (dot_general_p [] [] [0]%nat [0]%nat) [Var 1; Lit 1] [Var 2]] [])
          (fun n => match n with 0%nat => mkT [2; 2]%nat (fun I => match I with [0%nat; 1%nat] => 1 | _ => 0 end) | _ => vec2 1 1 end).
Theorem C50_batched_dot_unsound_refuted : forall sc gs, exists b y,
  let x0 := vec2 0 0 in let region := (vec2 0 0, vec2 1 1) in let x := vec2 0 1 in
    in_box x0 region x0 /\ in_box x0 region x /\
    taylor_bounds sc gs batched_dot [] 1 false x0 region = Ok b /\
    meaning sc batched_dot [] x = Some [y] /\ tshape y = [2]%nat /\ tdata y [0]%nat = 1 /\ tdata y [1]%nat = 0 /\ ~ bounds_at b x y.
Proof.
  intros sc gs.
  assert (E : exists b, taylor_bounds sc gs batched_dot [] 1 false (vec2 0 0) (vec2 0 0, vec2 1 1) = Ok b /\
              exists r, tb_upper b (vec2 0 1) = Ok r /\ tdata r [0]%nat = 0).
  { eexists. split; [vm_compute; reflexivity|]. eexists. split; [vm_compute; reflexivity|]. cbv -[Rplus Rmult Ropp Rminus Rinv Rdiv Rmin Rmax IZR Rlt_dec Rle Rlt]. lra. }
  destruct E as (b & Hb & r & Hu & Hr). exists b. eexists. cbv zeta. split; [|split; [|split; [exact Hb|split; [reflexivity|split; [reflexivity|split; [|split]]]]]].
  - split; [reflexivity|]. split; [reflexivity|]. split; [reflexivity|]. intros J _. simpl. destruct J as [|[|] [|]]; lra.
  - split; [reflexivity|]. split; [reflexivity|]. split; [reflexivity|]. intros J _. simpl. destruct J as [|[|] [|]]; lra.
  - cbn. lra.
  - cbn. lra.
  - intros (l & h & Hl & Hh & _ & _ & HB). rewrite Hu in Hh. injection Hh as <-. specialize (HB [0]%nat ltac:(repeat constructor)). cbn in HB. rewrite Hr in HB. lra.
Qed.

(** * C51: sum(c + x) for x of shape (1,) and c = (0, 0, 0) *)
Definition vec1 (a : R) : tensor R := mkT [1]%nat (fun _ => a).
Definition broadcast_sum : program R :=
  Program (@Graph jvar (prim R) (list jvar) [Var 0] [Var 2] [Op add_p [Lit 0; Var 0] [Var 1]; Op (reduce_sum_p [0]%nat) [Var 1] [Var 2]] [])
          (fun _ => mkT [3]%nat (fun _ => 0)).
Theorem C51_broadcast_sum_unsound_refuted : forall sc gs, exists b y,
  let x0 := vec1 0 in let region := (vec1 0, vec1 1) in let x := vec1 1 in
    in_box x0 region x0 /\ in_box x0 region x /\
    taylor_bounds sc gs broadcast_sum [] 1 false x0 region = Ok b /\
    meaning sc broadcast_sum [] x = Some [y] /\ tshape y = [] /\ tdata y [] = 3 /\
    (exists l h, tb_lower b x = Ok l /\ tb_upper b x = Ok h /\ tdata l [] = 1 /\ tdata h [] = 1).
Proof.
  intros sc gs.
  assert (E : exists b, taylor_bounds sc gs broadcast_sum [] 1 false (vec1 0) (vec1 0, vec1 1) = Ok b /\
              exists l h, tb_lower b (vec1 1) = Ok l /\ tb_upper b (vec1 1) = Ok h /\ tdata l [] = 1 /\ tdata h [] = 1).
  { eexists. split; [vm_compute; reflexivity|]. do 2 eexists. split; [vm_compute; reflexivity|]. split; [vm_compute; reflexivity|].
    split; cbv -[Rplus Rmult Ropp Rminus Rinv Rdiv Rmin Rmax IZR Rlt_dec Rle Rlt]; lra. }
  destruct E as (b & Hb & E). exists b. eexists. cbv zeta. split; [|split; [|split; [exact Hb|split; [reflexivity|split; [reflexivity|split; [|exact E]]]]]].
  - split; [reflexivity|]. split; [reflexivity|]. split; [reflexivity|]. intros J _. simpl. lra.
  - split; [reflexivity|]. split; [reflexivity|]. split; [reflexivity|]. intros J _. simpl. lra.
  - cbn. lra.
Qed.

(** * C52, C54: lax.pow *)
Section Pow.
Variables (sc : scalars R) (gs : generators R).
Variables (ins outs : list jvar) (data : list jvar) (lits : nat -> tensor R) (consts : list (tensor R)).
(** A program with the given inputs, outputs and literals. *)
Definition prog (ops : list (op jvar (prim R))) : program R :=
  Program (@Graph jvar (prim R) (list jvar) ins outs ops data) lits.

Lemma foldM_split {S B} (f : S -> B -> res S) l1 l2 : forall s, foldM f s (l1 ++ l2) = (s' <- foldM f s l1 ;; foldM f s' l2).
Proof. induction l1; intros s; cbn [foldM app]; [reflexivity|]. destruct (f s a); cbn [bind]; auto. Qed.


Lemma interpret_split pre post max_deg propagate x0 region d : interpret sc gs (prog pre) consts max_deg propagate x0 region = Ok d ->
  exists tr, isub (Ivl (fst region) (snd region)) (Arr x0) = Ok (Ivl (fst tr) (snd tr)) /\ (0 <= max_deg)%Z /\
    let prop := if (Z.to_nat max_deg =? 0)%nat then false else propagate in
    interpret sc gs (prog (pre ++ post)) consts max_deg propagate x0 region =
    foldM (step sc gs (mkArith (Z.to_nat max_deg) tr) (mkArith 0 tr) prop (tshape x0) lits) d post.
Proof.
  unfold interpret. destruct (max_deg <? 0)%Z eqn:EM; [discriminate|]. apply Z.ltb_ge in EM. cbv zeta.
  destruct (isub _ _) as [[t|l h]|e] eqn:EI; cbn [bind]; try discriminate. intros H. exists (l, h). split; [reflexivity|]. split; auto.
  assert (HA : forall D A, make_arith D (l, h) = Ok A -> A = mkArith D (l, h)).
  { intros D A HA. unfold make_arith in HA. destruct (shape_eqb _ _); [|discriminate]. injection HA as <-. reflexivity. }
  destruct (make_arith (Z.to_nat max_deg) (l, h)) as [A|] eqn:E1; cbn [bind] in *; [|discriminate].
  destruct (make_arith 0 (l, h)) as [A0|] eqn:E2; cbn [bind] in *; [|discriminate].
  apply HA in E1, E2. subst A A0. destruct (identity x0) as [eye|]; cbn [bind] in *; [|discriminate].
  cbn [p_graph gdata gins gops prog p_lits] in *. destruct (guard _ _); cbn [bind] in *; [|discriminate].
  destruct (match ins with [Var n] => Ok n | _ => Err AssertionError end); cbn [bind] in *; [|discriminate].
  destruct (foldM _ [] (combine data consts)) as [d0|]; cbn [bind] in *; [|discriminate].
  rewrite foldM_split, H. reflexivity.
Qed.
(** Under propagation every variable has a trust region. *)
Definition has_tr (d : dict) : Prop := forall n (i : inter R), dlookup d n = Some i -> i_tr i <> None.
Lemma store_tr xs os : forall d vals d', has_tr d -> Forall (fun i : inter R => i_tr i <> None) vals -> store xs d os vals = Ok d' -> has_tr d'.
Proof.
  induction os as [|v os IH]; intros d [|i vals] d' Hd Hv H; simpl in H; try discriminate; [injection H as <-; auto|].
  inversion Hv; subst. destruct v as [n|n|]; [|discriminate|eauto].
  destruct (dlookup d n) eqn:E; [discriminate|]. apply bind_ok in H. destruct H as (? & _ & H). refine (IH _ vals d' _ H3 H).
  intros m j Hm. simpl in Hm. destruct (n =? m)%nat; [injection Hm as <-; auto|eauto].
Qed.
Lemma get_tr d v i : has_tr d -> get_intermediate lits d v = Ok i -> i_tr i <> None.
Proof.
  intros Hd H. destruct v as [n|n|]; simpl in H; [|injection H as <-; discriminate|discriminate].
  destruct (dlookup d n) eqn:E; [|discriminate]. injection H as <-. eauto.
Qed.
Lemma step_tr A A0 xs d o d' : has_tr d -> step sc gs A A0 true xs lits d o = Ok d' -> has_tr d'.
Proof.
  intros Hd H. unfold step in H. apply bind_ok in H. destruct H as (args & Ha & H). apply bind_ok in H. destruct H as (vals & Hv & H).
  refine (store_tr _ _ _ _ _ Hd _ H). destruct (existsb _ _).
  - apply bind_ok in Hv. destruct Hv as (e & _ & Hv). destruct (negb _); [discriminate|]. apply bind_ok in Hv. destruct Hv as (r & Hr & Hv). injection Hv as <-.
    apply bind_ok in Hr. destruct Hr as (r' & _ & Hr). injection Hr as <-. constructor; [discriminate|constructor].
  - apply bind_ok in Hv. destruct Hv as (vs & _ & Hv). apply bind_ok in Hv. destruct Hv as (rs & _ & Hv). injection Hv as <-.
    apply Forall_forall. intros i Hi. apply in_map_iff in Hi. destruct Hi as (t & <- & _). discriminate.
Qed.
Lemma fold_tr A A0 xs l : forall d d', has_tr d -> foldM (step sc gs A A0 true xs lits) d l = Ok d' -> has_tr d'.
Proof. induction l; intros d d' Hd H; cbn [foldM] in H; [injection H as <-; auto|]. apply bind_ok in H. destruct H as (d1 & H1 & H). eauto using step_tr. Qed.
Lemma interpret_tr pre max_deg x0 region d : (1 <= max_deg)%Z -> interpret sc gs (prog pre) consts max_deg true x0 region = Ok d -> has_tr d.
Proof.
  intros HM H. unfold interpret in H. destruct (max_deg <? 0)%Z; [discriminate|]. cbv zeta in H.
  assert (EM : (Z.to_nat max_deg =? 0)%nat = false) by (apply Nat.eqb_neq; lia). rewrite EM in H.
  apply bind_ok in H. destruct H as (? & _ & H). apply bind_ok in H. destruct H as (? & _ & H). apply bind_ok in H. destruct H as (? & _ & H). apply bind_ok in H. destruct H as (? & _ & H).
  apply bind_ok in H. destruct H as (? & _ & H). apply bind_ok in H. destruct H as (? & _ & H). apply bind_ok in H. destruct H as (iv & _ & H). apply bind_ok in H. destruct H as (d0 & Hd0 & H).
  cbn [p_graph gdata gins gops prog p_lits] in *. refine (fold_tr _ _ _ _ _ _ _ H).
  assert (T0 : has_tr d0).
  { assert (G : forall l d, has_tr d -> foldM (fun d '(v, c) => match v with Var n => Ok ((n, constant_inter c) :: d) | _ => Err Unmodelled end) d l = Ok d0 -> has_tr d0).
    { induction l as [|[v c] l IH]; intros e He HF; cbn [foldM] in HF; [injection HF as <-; auto|]. destruct v; try discriminate. cbn [bind] in HF. refine (IH _ _ HF).
      intros m j Hm. simpl in Hm. destruct (n =? m)%nat; [injection Hm as <-; discriminate|eauto]. }
    apply (G _ [] ltac:(intros n i Hn; discriminate) Hd0). }
  intros n i Hn. simpl in Hn. destruct (iv =? n)%nat; [injection Hn as <-; discriminate|eauto].
Qed.

Lemma pow_step_propagated A A0 xs d a b y : forall ia ib, has_tr d ->
  get_intermediate lits d a = Ok ia -> get_intermediate lits d b = Ok ib -> is_constant ia = false ->
  step sc gs A A0 true xs lits d (Op pow_p [a; b] [y]) = (_ <- pushforward gs A pow_p [ia; ib] ;; Err NotImplementedError).
Proof.
  intros ia ib Hd Ha Hb HN. unfold step. cbn [oins odata oouts mapM]. rewrite Ha, Hb. cbn [bind existsb]. rewrite HN. cbn [negb orb].
  destruct (pushforward gs A pow_p [ia; ib]) as [e|e]; cbn [bind]; [|reflexivity]. cbn [length Nat.eqb negb].
  unfold out_trust_region. cbn [mapM]. pose proof (get_tr _ _ _ Hd Ha) as Ta. pose proof (get_tr _ _ _ Hd Hb) as Tb.
  destruct (i_tr ia) as [[la ha]|]; [|congruence]. destruct (i_tr ib) as [[l2 h2]|]; [|congruence]. reflexivity.
Qed.

(** [pre] is the part of the program before an equation y = pow(a, b) whose base
    depends on the argument.  With propagation the call never returns bounds;
    if the first [pre] equations and the enclosure of the power itself go
    through, it raises NotImplementedError. *)
Theorem C52_pow_with_propagation_raises : forall pre post a b y max_deg x0 region d ia,
  (1 <= max_deg)%Z -> interpret sc gs (prog pre) consts max_deg true x0 region = Ok d ->
  get_intermediate lits d a = Ok ia -> is_constant ia = false ->
  (forall r, taylor_bounds sc gs (prog (pre ++ Op pow_p [a; b] [y] :: post)) consts max_deg true x0 region <> Ok r) /\
  (forall tr ib e, isub (Ivl (fst region) (snd region)) (Arr x0) = Ok (Ivl (fst tr) (snd tr)) ->
     get_intermediate lits d b = Ok ib -> pushforward gs (mkArith (Z.to_nat max_deg) tr) pow_p [ia; ib] = Ok e ->
     taylor_bounds sc gs (prog (pre ++ Op pow_p [a; b] [y] :: post)) consts max_deg true x0 region = Err NotImplementedError).
Proof.
  intros pre post a b y max_deg x0 region d ia HM HI Ha HN. pose proof (interpret_tr _ _ _ _ _ HM HI) as HT.
  destruct (interpret_split _ (Op pow_p [a; b] [y] :: post) _ _ _ _ _ HI) as (tr & Etr & _ & ER). cbv zeta in ER.
  assert (EM : (Z.to_nat max_deg =? 0)%nat = false) by (apply Nat.eqb_neq; lia). rewrite EM in ER. cbn [foldM] in ER.
  split.
  - intros r Hr. unfold taylor_bounds in Hr. rewrite ER in Hr. destruct (get_intermediate lits d b) as [ib|e] eqn:Hb.
    + rewrite (pow_step_propagated _ _ _ _ _ _ _ ia ib HT Ha Hb HN) in Hr. destruct (pushforward _ _ _ _); discriminate.
    + unfold step in Hr. cbn [oins mapM] in Hr. rewrite Ha, Hb in Hr. discriminate.
  - intros tr' ib e Etr' Hb Hp. rewrite Etr in Etr'. assert (ET : tr = tr') by (destruct tr, tr'; simpl in Etr'; injection Etr' as -> ->; reflexivity). subst tr'.
    unfold taylor_bounds. rewrite ER, (pow_step_propagated _ _ _ _ _ _ _ ia ib HT Ha Hb HN), Hp. reflexivity.
Qed.

(** lax.pow with a positive integer-valued (floating point) exponent. *)
Theorem C54_pow_integer_valued_exponent_raises : forall pre post a b y max_deg propagate x0 region d ia ib v p,
  interpret sc gs (prog pre) consts max_deg propagate x0 region = Ok d ->
  get_intermediate lits d a = Ok ia -> is_constant ia = false ->
  get_intermediate lits d b = Ok ib -> i_enc ib = [Arr v] -> to_float v = Ok p -> exponent gs p = ExpPosInt ->
  (forall r, taylor_bounds sc gs (prog (pre ++ Op pow_p [a; b] [y] :: post)) consts max_deg propagate x0 region <> Ok r) /\
  (forall tr, isub (Ivl (fst region) (snd region)) (Arr x0) = Ok (Ivl (fst tr) (snd tr)) ->
     validate_taylor_enclosure (mkArith (Z.to_nat max_deg) tr) (i_enc ia) = Ok tt ->
     taylor_bounds sc gs (prog (pre ++ Op pow_p [a; b] [y] :: post)) consts max_deg propagate x0 region = Err TypeError).
Proof.
  intros pre post a b y max_deg propagate x0 region d ia ib v p HI Ha HN Hb Eb Hf Hp.
  destruct (interpret_split _ (Op pow_p [a; b] [y] :: post) _ _ _ _ _ HI) as (tr & Etr & _ & ER). cbv zeta in ER. cbn [foldM] in ER.
  assert (EP : pushforward gs (mkArith (Z.to_nat max_deg) tr) pow_p [ia; ib] = (_ <- validate_taylor_enclosure (mkArith (Z.to_nat max_deg) tr) (i_enc ia) ;; Err TypeError)).
  { cbn [pushforward]. unfold is_constant, constant_value. rewrite Eb. cbn [negb bind]. rewrite Hf. cbn [bind]. unfold epower_float. rewrite Hp. reflexivity. }
  assert (ES : forall A0 prop xs, step sc gs (mkArith (Z.to_nat max_deg) tr) A0 prop xs lits d (Op pow_p [a; b] [y]) = (_ <- validate_taylor_enclosure (mkArith (Z.to_nat max_deg) tr) (i_enc ia) ;; Err TypeError)).
  { intros A0 prop xs. unfold step. cbn [oins odata oouts mapM]. rewrite Ha, Hb. cbn [bind existsb]. rewrite HN. cbn [negb orb]. rewrite EP. destruct (validate_taylor_enclosure _ _); reflexivity. }
  rewrite ES in ER. unfold taylor_bounds. rewrite ER. split.
  - intros r. destruct (validate_taylor_enclosure _ _); discriminate.
  - intros tr' Etr' HV. rewrite Etr in Etr'. assert (ET : tr = tr') by (destruct tr, tr'; simpl in Etr'; injection Etr' as -> ->; reflexivity). subst tr'. rewrite HV. reflexivity.
Qed.
End Pow.
