(** The assertions of the notebooks replayed over Q (tests of fidelity) and
    concrete cases meeting the hypotheses of C67-C69. *)
From Coq Require Import Reals Lra Psatz QArith Qreals.
From Coquelicot Require Import Coquelicot.
From Verif Require Import Base Tensor IntervalArith TensorLemmas Spec GraphEditor GraphSpec JaxTable JaxTableProofs JaxBound JaxSpec PropTable ExamplesJax TestsJax Notebooks NotebookSpec PropNotebooks.

(** * Over Q *)
Definition qdiv (a b : Q) : Q := Qred (Qdiv a b).
Definition qshow (r : res (Q * Q)) := match r with Ok (a, b) => Ok (Qred a, Qred b) | Err e => Err e end.
(** bounding_integrals.ipynb: integrate([2.], 0., 3.) == 6, integrate([2., 3.], 0., 3.) == 6 + 4.5*3 *)
Example integrate_a : Qred (integrate qdiv [2%Q] 0%Q 3%Q) = 6%Q.
Proof. reflexivity. Qed.
Example integrate_b : Qred (integrate qdiv [2%Q; 3%Q] 0%Q 3%Q) = (39 # 2)%Q.
Proof. reflexivity. Qed.
Definition square : program Q := Program (@Graph jvar (prim Q) (list jvar) [Var 0] [Var 1] [Op (integer_pow_p 2) [Var 0] [Var 1]] []) (fun _ => sq 0%Q).
Example integral_v0 : qshow (integral_bound_v0 scQ gsQ qdiv square [] 0%Q 1%Q 2) = Ok (1 # 3, 1 # 3)%Q.
Proof. vm_compute. reflexivity. Qed.
Example integral_v0_degree_0 : qshow (integral_bound_v0 scQ gsQ qdiv square [] 0%Q 1%Q 0) = Ok (0 # 1, 1 # 1)%Q.
Proof. vm_compute. reflexivity. Qed.
Example integral_v1 : qshow (integral_bound_v1 scQ gsQ qdiv square [] 0%Q 1%Q 2 1) = Ok (1 # 3, 1 # 3)%Q.
Proof. vm_compute. reflexivity. Qed.
Example integral_v1_cells : qshow (integral_bound_v1 scQ gsQ qdiv square [] 0%Q 1%Q 0 2) = Ok (1 # 8, 5 # 8)%Q.
Proof. vm_compute. reflexivity. Qed.
(** safe_learning_rates.ipynb: minimize_1d_quadratic(-1., 2., (0., 1.)) == .25 *)
Example minimize_a : minimize_1d_quadratic qdiv (-1)%Q 2%Q (0%Q, 1%Q) = (1 # 4)%Q.
Proof. reflexivity. Qed.
(** loss = (x - 1)**2, x0 = 0, update_dir = 2: the safe rate leads to the minimum. *)
Definition quad_next {T} `{Num T} : program T * list (tensor T) :=
  (Program (@Graph jvar (prim T) (list jvar) [Var 0] [Var 4]
     [Op mul_p [Var 0; Lit 0] [Var 1]; Op add_p [Lit 1; Var 1] [Var 2]; Op sub_p [Var 2; Lit 2] [Var 3]; Op (integer_pow_p 2) [Var 3] [Var 4]] [])
     (fun n => tscalar (nofZ (match n with O => 2 | 1%nat => 0 | _ => 1 end)%Z)), []).
Example safe_rate_quadratic : safe_learning_rate scQ gsQ qdiv quad_next (1000000000000)%Q = Ok (1 # 2)%Q.
Proof. vm_compute. reflexivity. Qed.
(** loss = (x - 3)**4, x0 = 0, update_dir = 108, first step of SafeRate. *)
Definition quartic_next {T} `{Num T} : program T * list (tensor T) :=
  (Program (@Graph jvar (prim T) (list jvar) [Var 0] [Var 4]
     [Op mul_p [Var 0; Lit 0] [Var 1]; Op add_p [Lit 1; Var 1] [Var 2]; Op sub_p [Var 2; Lit 2] [Var 3]; Op (integer_pow_p 4) [Var 3] [Var 4]] [])
     (fun n => tscalar (nofZ (match n with O => 108 | 1%nat => 0 | _ => 3 end)%Z)), []).
Example safe_rate_quartic : safe_learning_rate scQ gsQ qdiv quartic_next (1 # 50)%Q = Ok (625 # 73332)%Q.
Proof. vm_compute. reflexivity. Qed.

(** * Over R *)
Open Scope R_scope.
(** The integral of x * exp x + 1 over [-1, 1]. *)
Example C67_nonvacuous : exists l u,
  (forall x, -1 <= x <= 1 -> computes (scalarsR no_usr) 2 ex46 [] x (exp x * x + 1)) /\ ex_RInt (fun x => exp x * x + 1) (-1) 1 /\
  integral_bound_v0 (scalarsR no_usr) (checked_generators no_ugen) Rdiv ex46 [] (-1) 1 2 = Ok (l, u).
Proof.
  assert (HC : forall x, -1 <= x <= 1 -> computes (scalarsR no_usr) 2 ex46 [] x (exp x * x + 1)).
  { intros x Hx. destruct (C46_nonvacuous x Hx) as (b & _ & _ & _ & S & _ & _ & y & M & V). split; auto. exists y. split; auto. split; auto. unfold meaning in M. cbn in M. injection M as <-. reflexivity. }
  destruct ex46_runs as (b & Hb & Lb). destruct (C46_nonvacuous 0 ltac:(lra)) as (_ & HO & _).
  assert (SB := scalar_bounds _ _ _ _ 2 _ 0 (-1) 1 b 0 _ (checked_valid no_usr no_ugen no_user_valid) HO ltac:(lra) ltac:(lra) (HC 0 ltac:(lra)) Hb).
  destruct SB as (_ & _ & HW & _).
  assert (TF : forall c, In c (tb_coefficients b) -> (exists v, lof c = Ok v) /\ exists v, hif c = Ok v).
  { intros c Hc. apply In_nth_error in Hc. destruct Hc as (j & Hj). specialize (HW j c Hj). destruct c as [t|tl th]; cbn [wfs] in HW; unfold lof, hif, to_float; [rewrite HW; simpl; eauto|]. destruct HW as [W1 W2]. rewrite W1, W2. simpl. eauto. }
  assert (MM : forall (g : coef R -> res R) e, (forall c, In c e -> exists v, g c = Ok v) -> exists vs, mapM g e = Ok vs).
  { intros g e. induction e as [|c e IH]; intros H; [exists []; reflexivity|]. destruct (H c (or_introl eq_refl)) as (v & Hv). destruct IH as (vs & Hvs); [intros; apply H; right; auto|]. exists (v :: vs). simpl. rewrite Hv. simpl. rewrite Hvs. reflexivity. }
  destruct (MM lof _ (fun c Hc => proj1 (TF c Hc))) as (ls & Hl). destruct (MM hif _ (fun c Hc => proj2 (TF c Hc))) as (hs & Hh).
  eexists. eexists. split; auto. split.
  - apply (ex_RInt_continuous (V := R_CompleteNormedModule)). intros x _. apply (ex_derive_continuous (fun x => exp x * x + 1)). auto_derive. auto.
  - unfold integral_bound_v0. change (negb (2 mod 2 =? 0)%Z) with false. cbv iota. change (nadd (-1) 1) with (-1 + 1). change (nofZ 2) with 2. replace ((-1 + 1) / 2) with 0 by field.
    rewrite Hb. cbn [bind]. fold lof hif. rewrite Hl. cbn [bind]. rewrite Hh. reflexivity.
Qed.

(** (x - 1)**2 from x = 0 in direction 2. *)
Lemma quad_computes t : computes (scalarsR no_usr) 2 (fst quad_next) (snd quad_next) t ((0 + t * 2 - 1) * ((0 + t * 2 - 1) * 1)).
Proof.
  split; [split; [reflexivity|]; split; [constructor|]; split; [intros; reflexivity|]; do 3 eexists; split; [reflexivity|]; split; reflexivity|].
  eexists. split; [reflexivity|]. split; reflexivity.
Qed.
Example C69_nonvacuous : exists eta, (forall t, 0 <= t <= 1 -> computes (scalarsR no_usr) 2 (fst quad_next) (snd quad_next) t ((0 + t * 2 - 1) * ((0 + t * 2 - 1) * 1))) /\
  safe_learning_rate (scalarsR no_usr) (checked_generators no_ugen) Rdiv quad_next 1 = Ok eta /\ eta = 1 / 2.
Proof.
  eexists. split; [intros; apply quad_computes|]. split; [reflexivity|].
  rcompute.
Qed.

(** SafeRate on the loss (x - 1)**2: every update returns. *)
Definition sr_loss (x : R) : R := (x - 1) * ((x - 1) * 1).
Definition sr_dir (x : R) : R := - (2 * (x - 1)).
Definition sr_move (x v t : R) : R := x + t * v.
Definition sr_trace (x v : R) : program R * list (tensor R) :=
  (Program (@Graph jvar (prim R) (list jvar) [Var 0] [Var 4]
     [Op mul_p [Var 0; Var 6] [Var 1]; Op add_p [Var 5; Var 1] [Var 2]; Op sub_p [Var 2; Lit 0] [Var 3]; Op (integer_pow_p 2) [Var 3] [Var 4]] [Var 5; Var 6])
     (fun _ => tscalar 1), [tscalar x; tscalar v]).
Example C69_saferate_nonvacuous :
  (forall x v t, computes (scalarsR no_usr) 2 (fst (sr_trace x v)) (snd (sr_trace x v)) t (sr_loss (sr_move x v t))) /\
  (forall x v o, In o (gops (p_graph (fst (sr_trace x v)))) -> opaque_ok (odata o)) /\
  (forall x v, sr_loss (sr_move x v 0) = sr_loss x) /\
  (forall st, exists st', update_state (scalarsR no_usr) (checked_generators no_ugen) Rdiv sr_dir sr_move sr_trace st = Ok st') /\
  forall n x0 m, exists st, reaches (update_state (scalarsR no_usr) (checked_generators no_ugen) Rdiv sr_dir sr_move sr_trace) (init_fun m x0) n st.
Proof.
  assert (U : forall st, exists st', update_state (scalarsR no_usr) (checked_generators no_ugen) Rdiv sr_dir sr_move sr_trace st = Ok st').
  { intros [[x e] m]. unfold update_state, safe_learning_rate. 
    match goal with |- context [bound_loss ?a ?b ?c ?d] => assert (HB : exists r, bound_loss a b c d = Ok r /\ exists c0 c1 c2, tb_coefficients r = [Arr c0; Arr c1; Arr c2] /\ tshape c1 = [] /\ tshape c2 = []) end.
    { eexists. split; [reflexivity|]. do 3 eexists. split; [reflexivity|]. split; reflexivity. }
    destruct HB as (r & HB & c0 & c1 & c2 & EC & S1 & S2). rewrite HB. cbn [bind]. rewrite EC. cbn [length Nat.ltb Nat.leb nth_error].
    unfold tb_final_interval, number. rewrite EC, S1. cbn [rev app bind snd]. rewrite S2. cbn [bind]. eexists. reflexivity. }
  split; [|split; [|split; [|split]]].
  - intros x v t. split; [split; [reflexivity|]; split; [repeat constructor|]; split; [intros; reflexivity|]; do 3 eexists; split; [reflexivity|]; split; reflexivity|].
    eexists. split; [reflexivity|]. split; reflexivity.
  - intros x v o Ho. simpl in Ho. destruct Ho as [<-|[<-|[<-|[<-|[]]]]]; exact I.
  - intros x v. unfold sr_move. rewrite Rmult_0_l, Rplus_0_r. reflexivity.
  - exact U.
  - induction n as [|n IH]; intros x0 m; [eexists; constructor|]. destruct (IH x0 m) as (st & Hst). destruct (U st) as (st' & Hst'). exists st'. econstructor; eauto.
Qed.
