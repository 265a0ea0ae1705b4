(** Proofs about the Jaxpr editor. *)
From Verif Require Import Base GraphEditor GraphSpec GraphProofs JaxprEditor JaxprSpec.

(** ** Equality tests *)
Lemma list_eqb_spec {A} (eqb : A -> A -> bool) :
  (forall a b, reflect (a = b) (eqb a b)) ->
  forall l m, reflect (l = m) (list_eqb eqb l m).
Proof.
  intros H. induction l as [|a l IH]; intros [|b m]; simpl; try (constructor; congruence).
  destruct (H a b) as [->|N]; simpl; [|constructor; congruence].
  destruct (IH m) as [->|N]; constructor; congruence.
Qed.
Lemma nat_eqb_spec a b : reflect (a = b) (a =? b).
Proof. apply Nat.eqb_spec. Qed.
Lemma aval_eqb_spec a b : reflect (a = b) (aval_eqb a b).
Proof.
  destruct a as [d s w], b as [d' s' w']. unfold aval_eqb; simpl.
  destruct (Nat.eqb_spec d d') as [->|]; simpl; [|constructor; congruence].
  destruct (list_eqb_spec Nat.eqb nat_eqb_spec s s') as [->|]; unfold shape_eqb in *; simpl.
  - unfold shape_eqb. destruct (list_eqb_spec Nat.eqb nat_eqb_spec s' s'); [|congruence]. simpl.
    destruct (eqb_spec w w') as [->|]; constructor; congruence.
  - unfold shape_eqb. destruct (list_eqb_spec Nat.eqb nat_eqb_spec s s'); [congruence|]. simpl.
    constructor; congruence.
Qed.
Lemma var_eqb_spec a b : reflect (a = b) (var_eqb a b).
Proof.
  destruct a as [i c a], b as [j d b]. unfold var_eqb; simpl.
  destruct (Nat.eqb_spec i j) as [->|]; simpl; [|constructor; congruence].
  destruct (Z.eqb_spec c d) as [->|]; simpl; [|constructor; congruence].
  destruct (aval_eqb_spec a b) as [->|]; constructor; congruence.
Qed.
Lemma atom_eqb_spec a b : reflect (a = b) (atom_eqb a b).
Proof.
  destruct a as [v|i x a], b as [w|j y b]; simpl; try (constructor; congruence).
  - destruct (var_eqb_spec v w) as [->|]; constructor; congruence.
  - destruct (Nat.eqb_spec i j) as [->|]; simpl; [|constructor; congruence].
    destruct (Z.eqb_spec x y) as [->|]; simpl; [|constructor; congruence].
    destruct (aval_eqb_spec a b) as [->|]; constructor; congruence.
Qed.
Lemma ivar_eqb_spec a b : reflect (a = b) (ivar_eqb a b).
Proof.
  destruct a as [x a|x a], b as [y b|y b]; simpl; try (constructor; congruence);
    (destruct (Z.eqb_spec x y) as [->|]; simpl; [|constructor; congruence];
     destruct (aval_eqb_spec a b) as [->|]; constructor; congruence).
Qed.

(** ** Nested induction *)
Section Jind.
Variables (P : jaxpr -> Prop) (Q : pval -> Prop).
Definition eqn_all (e : eqn) : Prop := match e with Eqn _ q _ _ => Forall (fun kv => Q (snd kv)) q end.
Hypothesis HJ : forall c i o e, Forall eqn_all e -> P (Jaxpr c i o e).
Hypothesis HO : forall z, Q (POpaque z).
Hypothesis HC : forall j c, P j -> Q (PClosed j c).
Hypothesis HN : forall j, P j -> Q (POpen j).
Hypothesis HF : forall f, Q (PFun f).
Fixpoint jaxpr_nind (j : jaxpr) : P j :=
  match j with
  | Jaxpr c i o e =>
      HJ c i o e ((fix go (e : list eqn) : Forall eqn_all e :=
        match e with
        | [] => Forall_nil _
        | x :: e' => Forall_cons x
            (match x as x0 return eqn_all x0 with Eqn p q a b =>
               (fix gq (q : list (nat * pval)) : Forall (fun kv => Q (snd kv)) q :=
                  match q with
                  | [] => Forall_nil _
                  | kv :: q' => Forall_cons kv
                      (match kv as kv0 return Q (snd kv0) with (k, v) => pval_nind v end) (gq q')
                  end) q end)
            (go e')
        end) e)
  end
with pval_nind (v : pval) : Q v :=
  match v with
  | POpaque z => HO z
  | PClosed j c => HC j c (jaxpr_nind j)
  | POpen j => HN j (jaxpr_nind j)
  | PFun f => HF f
  end.
End Jind.

(** ** The variable map of [check] *)
Lemma match_avals_spec a b ign : match_avals a b ign = true <->
  dtype a = dtype b /\ (ign = false -> ashape a = ashape b).
Proof.
  unfold match_avals. rewrite andb_true_iff, orb_true_iff, Nat.eqb_eq.
  unfold shape_eqb. destruct (list_eqb_spec Nat.eqb nat_eqb_spec (ashape a) (ashape b)) as [E|N].
  - tauto.
  - split; intros [A B]; (split; [assumption|]).
    + intros ->. destruct B; discriminate.
    + left. destruct ign; [reflexivity|]. exfalso. auto.
Qed.

Definition mrel (ign : bool) (m : list (var * atom)) (a0 a1 : atom) : Prop :=
  match a0 with
  | AVar v => vm_lookup m v = Some a1 /\ match_avals (vaval v) (atom_aval a1) ign = true
  | ALit _ x _ => exists i b, a1 = ALit i x b
  end.
Definition mext (m m' : list (var * atom)) : Prop :=
  forall v a, vm_lookup m v = Some a -> vm_lookup m' v = Some a.
Definition mgood (ign : bool) (m : list (var * atom)) : Prop :=
  forall v a, vm_lookup m v = Some a -> match_avals (vaval v) (atom_aval a) ign = true.
Definition msigma (m : list (var * atom)) (v : var) : atom :=
  match vm_lookup m v with Some a => a | None => AVar v end.
Definition magree (m : list (var * atom)) (s : var -> atom) : Prop :=
  forall v a, vm_lookup m v = Some a -> s v = a.

Lemma vm_lookup_app m v a w :
  vm_lookup m v = None ->
  vm_lookup (m ++ [(v, a)]) w = if var_eqb v w then Some a else vm_lookup m w.
Proof.
  induction m as [|[u b] m IH]; simpl; intro H; [reflexivity|].
  destruct (var_eqb_spec u v) as [->|N]; [discriminate|].
  destruct (var_eqb_spec u w) as [->|]; [|now apply IH].
  destruct (var_eqb_spec v w); congruence.
Qed.

Lemma mrel_ext ign m m' a0 a1 : mext m m' -> mrel ign m a0 a1 -> mrel ign m' a0 a1.
Proof. intros E. destruct a0; simpl; [|auto]. intros [A B]; auto. Qed.

Lemma mrel_atom_rel ign m a0 a1 : mrel ign m a0 a1 -> atom_rel ign (msigma m) a0 a1.
Proof.
  destruct a0 as [v|]; simpl; [|auto]. intros [A B]. unfold msigma. rewrite A.
  split; [reflexivity|]. now apply match_avals_spec.
Qed.

Lemma check_sound ign m a0 a1 m' : mgood ign m -> check ign m a0 a1 = Some m' ->
  mgood ign m' /\ mext m m' /\ mrel ign m' a0 a1.
Proof.
  intro G. destruct a0 as [v|i x b]; simpl.
  - destruct (vm_lookup m v) as [a|] eqn:L.
    + destruct (atom_eqb_spec a a1) as [->|]; [|discriminate]. intros [= <-].
      repeat split; auto. intros ? ?; auto.
    + destruct (match_avals _ _ ign) eqn:M; [|discriminate]. intros [= <-].
      assert (LA := vm_lookup_app m v a1).
      repeat split.
      * intros w a. rewrite LA by assumption. destruct (var_eqb_spec v w) as [<-|]; [|apply G].
        intros [= <-]. exact M.
      * intros w a Hw. rewrite LA by assumption. destruct (var_eqb_spec v w) as [<-|]; congruence.
      * rewrite LA by assumption. destruct (var_eqb_spec v v); congruence.
  - destruct a1 as [|k y c]; [discriminate|]. unfold equiv_literals.
    destruct (Z.eqb_spec x y) as [->|]; [|discriminate]. intros [= <-].
    repeat split; eauto. intros ? ?; auto.
Qed.

Lemma check_all_sound ign l : forall m m', mgood ign m -> check_all ign m l = Some m' ->
  mgood ign m' /\ mext m m' /\ Forall (fun p => mrel ign m' (fst p) (snd p)) l.
Proof.
  induction l as [|[a0 a1] l IH]; simpl; intros m m' G H.
  - injection H as <-. repeat split; auto. intros ? ?; auto.
  - destruct (check ign m a0 a1) as [m1|] eqn:C; [|discriminate].
    destruct (check_sound _ _ _ _ _ G C) as (G1 & E1 & R1).
    destruct (IH _ _ G1 H) as (G2 & E2 & R2).
    repeat split; auto.
    + intros v a A. apply E2, E1, A.
    + constructor; [simpl; now apply mrel_ext with m1|assumption].
Qed.

Lemma check_complete ign s m a0 a1 : magree m s -> atom_rel ign s a0 a1 ->
  exists m', check ign m a0 a1 = Some m' /\ magree m' s.
Proof.
  intro G. destruct a0 as [v|i x b]; simpl.
  - intros [E A]. destruct (vm_lookup m v) as [a|] eqn:L.
    + rewrite (G _ _ L) in E. subst. destruct (atom_eqb_spec a1 a1); [|congruence]. eauto.
    + rewrite (proj2 (match_avals_spec _ _ _) A). eexists. split; [reflexivity|].
      intros w a. rewrite vm_lookup_app by assumption.
      destruct (var_eqb_spec v w) as [<-|]; [|apply G]. congruence.
  - intros (k & c & ->). unfold equiv_literals. rewrite Z.eqb_refl. eauto.
Qed.

Lemma check_all_complete ign s l : forall m, magree m s ->
  Forall (fun p => atom_rel ign s (fst p) (snd p)) l ->
  exists m', check_all ign m l = Some m' /\ magree m' s.
Proof.
  induction l as [|[a0 a1] l IH]; simpl; intros m G F; [eauto|].
  inversion F as [|? ? F1 F2]; subst.
  destruct (check_complete ign s m a0 a1 G F1) as (m1 & -> & G1). now apply IH.
Qed.

Lemma Forall_combine {A B} (R : A -> B -> Prop) l l' : length l = length l' ->
  (Forall (fun p => R (fst p) (snd p)) (combine l l') <-> Forall2 R l l').
Proof.
  revert l'; induction l as [|a l IH]; intros [|b l'] L; simpl in *; try discriminate.
  - split; constructor.
  - injection L as L. split; intro H; inversion H; subst; constructor; auto; now apply IH.
Qed.

Lemma Forall2_len {A B} (R : A -> B -> Prop) l l' : Forall2 R l l' -> length l = length l'.
Proof. induction 1; simpl; congruence. Qed.

Lemma Forall2_imp {A B} (R S : A -> B -> Prop) l l' :
  (forall a b, R a b -> S a b) -> Forall2 R l l' -> Forall2 S l l'.
Proof. intros H; induction 1; constructor; auto. Qed.

(** ** The comparison decides [jequiv] *)
Lemma existsb_keys k (q : list (nat * pval)) :
  existsb (fun '(k', _) => k' =? k) q = true <-> In k (map fst q).
Proof.
  induction q as [|[k' v] q IH]; simpl; [split; [discriminate|tauto]|].
  rewrite orb_true_iff, Nat.eqb_eq, IH. tauto.
Qed.
Lemma same_keys_spec q0 q1 : same_keys q0 q1 = true <->
  (forall k, In k (map fst q0) <-> In k (map fst q1)).
Proof.
  unfold same_keys. rewrite andb_true_iff, !forallb_forall. split.
  - intros [A B] k. split; intro H; apply in_map_iff in H; destruct H as ((k', v) & <- & H);
      apply existsb_keys; [apply (A _ H)|apply (B _ H)].
  - intro H. split; intros (k, v) I; apply existsb_keys, H; apply in_map_iff; exists (k, v); auto.
Qed.

Lemma ignored_iff k : ignored k = true <-> k = 0 \/ k = 1.
Proof. unfold ignored. rewrite orb_true_iff, !Nat.eqb_eq. tauto. Qed.

Lemma params_loop_iff q1 q0 :
  Forall (fun kv => forall v1, pval_equiv (snd kv) v1 = Ok true <-> pval_rel (snd kv) v1) q0 ->
  (params_loop pval_equiv q1 q0 = Ok true <-> Forall (param_rel q1) q0).
Proof.
  induction 1 as [|[k v0] q0 Hv Hq IH]; simpl; [split; [constructor|reflexivity]|].
  simpl in Hv. destruct (ignored k) eqn:I.
  - rewrite IH. split; intro H; [constructor; [apply param_ignored; now apply ignored_iff|assumption]|now inversion H].
  - destruct (plookup k q1) as [v1|] eqn:L.
    + split.
      * intro H. destruct (pval_equiv v0 v1) as [b|] eqn:E; simpl in H; [|discriminate].
        destruct b; [|discriminate]. constructor; [|now apply IH].
        apply param_same with v1; [assumption|]. now apply Hv.
      * intro H. inversion H as [|? ? H1 H2]; subst.
        inversion H1 as [? ? ? I'|? ? ? v1' L' R']; subst; [apply ignored_iff in I'; congruence|].
        rewrite L in L'. injection L' as <-. apply Hv in R'. rewrite R'. simpl. now apply IH.
    + split; [discriminate|]. intro H. inversion H as [|? ? H1 H2]; subst.
      inversion H1 as [? ? ? I'|]; subst; [apply ignored_iff in I'|]; congruence.
Qed.

Lemma eqns_loop_iff ign e0 :
  Forall (eqn_all (fun v0 => forall v1, pval_equiv v0 v1 = Ok true <-> pval_rel v0 v1)) e0 ->
  forall e1, length e0 = length e1 -> forall m, mgood ign m ->
  (eqns_loop ign (params_equiv_with pval_equiv) e0 m e1 = Ok true ->
     exists m', mext m m' /\ Forall2 (eqn_rel ign (msigma m')) e0 e1) /\
  (forall s, magree m s -> Forall2 (eqn_rel ign s) e0 e1 ->
     eqns_loop ign (params_equiv_with pval_equiv) e0 m e1 = Ok true).
Proof.
  induction 1 as [|[p0 q0 a0 b0] e0 Hq He IH]; intros [|[p1 q1 a1 b1] e1] L m G;
    simpl in L; try discriminate.
  - simpl. split; [|reflexivity]. intros _. exists m. split; [intros ? ?; auto|constructor].
  - injection L as L. simpl eqns_loop. split.
    + destruct (Nat.eqb_spec p0 p1) as [->|]; simpl; [|discriminate].
      unfold params_equiv_with at 1.
      destruct (same_keys q0 q1) eqn:K; simpl; [|discriminate].
      destruct (params_loop pval_equiv q1 q0) as [b|] eqn:E; simpl; [|discriminate].
      destruct b; simpl; [|discriminate].
      destruct (Nat.eqb_spec (length a0) (length a1)) as [La|]; simpl; [|discriminate].
      destruct (Nat.eqb_spec (length b0) (length b1)) as [Lb|]; simpl; [|discriminate].
      destruct (check_all ign m _) as [m1|] eqn:C; [|discriminate].
      intro H. destruct (check_all_sound _ _ _ _ G C) as (G1 & E1 & R1).
      destruct (proj1 (IH e1 L m1 G1) H) as (m' & E2 & R2).
      exists m'. split; [intros v a A; apply E2, E1, A|]. constructor; [|assumption].
      apply Forall_app in R1. destruct R1 as [Ra Rb].
      apply Forall_combine in Ra; [|assumption]. apply Forall_combine in Rb; [|assumption].
      assert (T : forall x y, mrel ign m1 x y -> atom_rel ign (msigma m') x y).
      { intros x y A. apply mrel_atom_rel, mrel_ext with m1; assumption. }
      constructor.
      * now apply same_keys_spec.
      * now apply params_loop_iff.
      * now apply Forall2_imp with (2 := Ra).
      * now apply Forall2_imp with (2 := Rb).
    + intros s A F. inversion F as [|? ? ? ? F1 F2]; subst.
      inversion F1 as [? ? ? ? ? ? ? ? ? K P Fa Fb]; subst.
      rewrite Nat.eqb_refl. simpl.
      unfold params_equiv_with at 1.
      rewrite (proj2 (same_keys_spec q0 q1) K). simpl.
      rewrite (proj2 (params_loop_iff q1 q0 Hq) P). simpl.
      rewrite (Forall2_len _ _ _ Fa), (Forall2_len _ _ _ Fb), !Nat.eqb_refl. simpl.
      destruct (check_all_complete ign s (combine a0 a1 ++ combine b0 b1) m A) as (m1 & C & A1).
      { apply Forall_app. split; (apply Forall_combine; [now apply Forall2_len in Fa, Fb|assumption]). }
      rewrite C. destruct (check_all_sound _ _ _ _ G C) as (G1 & _).
      now apply (IH e1 L m1 G1) with s.
Qed.

Lemma same_jaxpr_iff :
  (forall j0 ign j1, same_jaxpr ign j0 j1 = Ok true <-> jequiv ign j0 j1) /\
  (forall v0 v1, pval_equiv v0 v1 = Ok true <-> pval_rel v0 v1).
Proof.
  assert (HJ : forall c i o e,
    Forall (eqn_all (fun v0 => forall v1, pval_equiv v0 v1 = Ok true <-> pval_rel v0 v1)) e ->
    forall ign j1, same_jaxpr ign (Jaxpr c i o e) j1 = Ok true <-> jequiv ign (Jaxpr c i o e) j1).
  { intros c0 i0 o0 e0 He ign [c1 i1 o1 e1]. simpl same_jaxpr. split.
    - destruct (Nat.eqb_spec (length c0) (length c1)) as [Lc|]; simpl; [|discriminate].
      destruct (Nat.eqb_spec (length i0) (length i1)) as [Li|]; simpl; [|discriminate].
      destruct (Nat.eqb_spec (length o0) (length o1)) as [Lo|]; simpl; [|discriminate].
      destruct (Nat.eqb_spec (length e0) (length e1)) as [Le|]; simpl; [|discriminate].
      destruct (check_all ign [] _) as [m|] eqn:C; [|discriminate]. intro H.
      destruct (check_all_sound ign _ [] m ltac:(intros ? ?; discriminate) C) as (G & _ & R).
      destruct (proj1 (eqns_loop_iff ign e0 He e1 Le m G) H) as (m' & E & F).
      apply Forall_app in R. destruct R as [Ri R]. apply Forall_app in R. destruct R as [Rc Ro].
      apply Forall_combine in Ri; [|assumption]. apply Forall_combine in Rc; [|assumption].
      apply Forall_combine in Ro; [|assumption].
      assert (T : forall x y, mrel ign m x y -> atom_rel ign (msigma m') x y).
      { intros x y A. apply mrel_atom_rel, mrel_ext with m; assumption. }
      apply jequiv_intro with (msigma m').
      + now apply Forall2_imp with (2 := Rc).
      + now apply Forall2_imp with (2 := Ri).
      + now apply Forall2_imp with (2 := Ro).
      + exact F.
    - intro H. inversion H as [? s ? ? ? ? ? ? ? ? Fc Fi Fo Fe]; subst.
      rewrite (Forall2_len _ _ _ Fc), (Forall2_len _ _ _ Fi), (Forall2_len _ _ _ Fo),
        (Forall2_len _ _ _ Fe), !Nat.eqb_refl. simpl.
      destruct (check_all_complete ign s
        (combine i0 i1 ++ combine c0 c1 ++ combine o0 o1) [] ltac:(intros ? ?; discriminate))
        as (m & C & A).
      { apply Forall_app. split; [|apply Forall_app; split];
          (apply Forall_combine; [now apply Forall2_len in Fi, Fc, Fo|assumption]). }
      rewrite C.
      destruct (check_all_sound ign _ [] m ltac:(intros ? ?; discriminate) C) as (G & _).
      apply (eqns_loop_iff ign e0 He e1 (Forall2_len _ _ _ Fe) m G) with s; assumption. }
  assert (HO : forall z v1, pval_equiv (POpaque z) v1 = Ok true <-> pval_rel (POpaque z) v1).
  { intros z v1. split.
    - destruct v1; simpl; try discriminate. intros [= H]. apply Z.eqb_eq in H. subst. constructor.
    - inversion 1. simpl. now rewrite Z.eqb_refl. }
  assert (HC : forall j c, (forall ign j1, same_jaxpr ign j j1 = Ok true <-> jequiv ign j j1) ->
    forall v1, pval_equiv (PClosed j c) v1 = Ok true <-> pval_rel (PClosed j c) v1).
  { intros j c IH v1. split.
    - destruct v1; simpl; try discriminate. intro H. constructor. now apply IH.
    - inversion 1; subst. simpl. now apply IH. }
  assert (HN : forall j, (forall ign j1, same_jaxpr ign j j1 = Ok true <-> jequiv ign j j1) ->
    forall v1, pval_equiv (POpen j) v1 = Ok true <-> pval_rel (POpen j) v1).
  { intros j IH v1. split.
    - destruct v1; simpl; try discriminate. intro H. constructor. now apply IH.
    - inversion 1; subst. simpl. now apply IH. }
  assert (HF : forall f v1, pval_equiv (PFun f) v1 = Ok true <-> pval_rel (PFun f) v1).
  { intros f v1. split; [destruct v1; simpl; try discriminate; constructor|now inversion 1]. }
  split.
  - exact (jaxpr_nind _ _ HJ HO HC HN HF).
  - exact (pval_nind _ _ HJ HO HC HN HF).
Qed.

Lemma eqn_data_eqb_iff d0 d1 : eqn_data_eqb d0 d1 = true <-> data_rel d0 d1.
Proof.
  destruct d0 as [p0 q0], d1 as [p1 q1]. unfold eqn_data_eqb, data_rel, params_equiv, params_equiv_with. cbn [eprim eparams].
  assert (Hq : Forall (fun kv => forall v1, pval_equiv (snd kv) v1 = Ok true <-> pval_rel (snd kv) v1) q0)
    by (apply Forall_forall; intros; apply same_jaxpr_iff).
  rewrite andb_true_iff, Nat.eqb_eq, <- same_keys_spec, <- (params_loop_iff q1 q0 Hq).
  destruct (same_keys q0 q1); cbn [negb].
  - split; intros [H1 H2]; (split; [exact H1|]).
    + split; [reflexivity|]. destruct (params_loop pval_equiv q1 q0); congruence.
    + destruct H2 as [_ ->]. reflexivity.
  - split; [intros [_ H]; discriminate|]. intros (_ & H & _). discriminate.
Qed.

(** Reflexivity. *)
Lemma atom_rel_refl ign a : atom_rel ign AVar a a.
Proof. destruct a as [v|i x b]; simpl; [auto|eauto]. Qed.
Lemma Forall2_refl_ {A} (R : A -> A -> Prop) l : (forall a, R a a) -> Forall2 R l l.
Proof. intro H; induction l; constructor; auto. Qed.
Definition uniq_keys_eqn (e : eqn) := match e with Eqn _ q _ _ => NoDup (map fst q) end.
Inductive dicts_ok : jaxpr -> Prop :=
| dicts_ok_intro : forall c i o e, Forall eqn_ok e -> dicts_ok (Jaxpr c i o e)
with eqn_ok : eqn -> Prop :=
| eqn_ok_intro : forall p q a b, NoDup (map fst q) -> Forall (fun kv => pval_ok (snd kv)) q ->
    eqn_ok (Eqn p q a b)
with pval_ok : pval -> Prop :=
| pok_opaque : forall z, pval_ok (POpaque z)
| pok_closed : forall j c, dicts_ok j -> pval_ok (PClosed j c)
| pok_open : forall j, dicts_ok j -> pval_ok (POpen j)
| pok_fun : forall f, pval_ok (PFun f).

Lemma plookup_nodup q k v : NoDup (map fst q) -> In (k, v) q -> plookup k q = Some v.
Proof.
  induction q as [|[k' v'] q IH]; simpl; [tauto|]. intros N [E|I]; inversion N; subst.
  - injection E as -> ->. now rewrite Nat.eqb_refl.
  - destruct (Nat.eqb_spec k' k) as [->|]; [|auto]. exfalso. apply H1, in_map_iff. exists (k, v); auto.
Qed.

Lemma params_refl q : NoDup (map fst q) -> Forall (fun kv => pval_rel (snd kv) (snd kv)) q ->
  Forall (param_rel q) q.
Proof.
  intros N F. rewrite Forall_forall in F |- *. intros [k v] I.
  apply param_same with v; [now apply plookup_nodup|]. apply (F (k, v) I).
Qed.

Lemma jequiv_rename : (forall j, dicts_ok j -> forall ign (rho : var -> var),
   (forall v, vaval (rho v) = vaval v) -> jequiv ign j (ren_jaxpr rho j)) /\
  (forall v, pval_ok v -> pval_rel v v).
Proof.
  assert (HJ : forall c i o e,
    Forall (eqn_all (fun v => pval_ok v -> pval_rel v v)) e -> dicts_ok (Jaxpr c i o e) ->
    forall ign (rho : var -> var), (forall v, vaval (rho v) = vaval v) ->
    jequiv ign (Jaxpr c i o e) (ren_jaxpr rho (Jaxpr c i o e))).
  { intros c i o e He Ok ign rho Hr. inversion Ok as [? ? ? ? Oe]; subst.
    assert (T : forall l, Forall2 (atom_rel ign (fun v => AVar (rho v))) l (map (ren_atom rho) l)).
    { induction l as [|[v|k x b] l IH]; simpl; constructor; auto; simpl; [|eauto].
      rewrite Hr. auto. }
    simpl. apply jequiv_intro with (fun v => AVar (rho v)); auto. clear Ok.
    induction He as [|[p q a b] e Hq He IH]; simpl; constructor; inversion Oe as [|? ? O1 O2]; subst; auto.
    inversion O1 as [? ? ? ? N F]; subst. constructor; auto; [tauto|].
    apply params_refl; [assumption|]. simpl in Hq. rewrite Forall_forall in *. auto. }
  assert (HC : forall j c, (dicts_ok j -> forall ign (rho : var -> var),
    (forall v, vaval (rho v) = vaval v) -> jequiv ign j (ren_jaxpr rho j)) ->
    pval_ok (PClosed j c) -> pval_rel (PClosed j c) (PClosed j c)).
  { intros j c IH Ok. inversion Ok; subst. constructor.
    assert (E : ren_jaxpr (fun v => v) j = j).
    { assert (A : forall l, map (ren_atom (fun v => v)) l = l).
      { induction l as [|[]]; simpl; congruence. }
      destruct j as [c0 i0 o0 e0]; simpl. rewrite !A. f_equal.
      clear -A. induction e0 as [|[]]; simpl; rewrite ?A; congruence. }
    rewrite <- E at 2. now apply IH. }
  assert (HN : forall j, (dicts_ok j -> forall ign (rho : var -> var),
    (forall v, vaval (rho v) = vaval v) -> jequiv ign j (ren_jaxpr rho j)) ->
    pval_ok (POpen j) -> pval_rel (POpen j) (POpen j)).
  { intros j IH Ok. inversion Ok; subst.
    specialize (HC j [] IH). assert (pval_rel (PClosed j []) (PClosed j [])) as H.
    { apply HC. now constructor. }
    inversion H; subst. now constructor. }
  split.
  - exact (jaxpr_nind _ _ HJ (fun z _ => pval_opaque z) HC HN (fun f _ => pval_fun f f)).
  - exact (pval_nind _ _ HJ (fun z _ => pval_opaque z) HC HN (fun f _ => pval_fun f f)).
Qed.

(** ** A true answer is a genuine renaming *)
Lemma inj_of_nodup ign sigma l0 l1 : Forall2 (atom_rel ign sigma) l0 l1 -> NoDup l1 ->
  forall v w, In (AVar v) l0 -> In (AVar w) l0 -> sigma v = sigma w -> v = w.
Proof.
  induction 1 as [|a0 a1 l0 l1 H F IH]; intros N v w Iv Iw E; [destruct Iv|].
  inversion N as [|? ? N1 N2]; subst.
  assert (T : forall u, In (AVar u) l0 -> In (sigma u) l1).
  { clear -F. induction F as [|a0 a1 l0 l1 H F IH]; intros u I; [destruct I|].
    destruct I as [->|I]; [|right; auto]. left. simpl in H. symmetry. tauto. }
  destruct Iv as [->|Iv], Iw as [Ew|Iw].
  - congruence.
  - exfalso. apply N1. simpl in H. destruct H as [<- _]. rewrite E. auto.
  - subst a0. exfalso. apply N1. simpl in H. destruct H as [<- _]. rewrite <- E. auto.
  - now apply IH.
Qed.

Lemma Forall2_app_ {A B} (R : A -> B -> Prop) a b c d :
  Forall2 R a c -> Forall2 R b d -> Forall2 R (a ++ b) (c ++ d).
Proof. induction 1; simpl; auto. Qed.

Lemma eqn_rel_binders ign s e0 e1 : Forall2 (eqn_rel ign s) e0 e1 ->
  Forall2 (atom_rel ign s) (flat_map (fun e => match e with Eqn _ _ _ b => b end) e0)
                           (flat_map (fun e => match e with Eqn _ _ _ b => b end) e1).
Proof.
  induction 1 as [|a b e0 e1 H F IH]; simpl; [constructor|].
  apply Forall2_app_; [|assumption]. inversion H; subst. assumption.
Qed.

Lemma atom_rel_to_var ign s (l0 l1 : list atom) :
  Forall2 (atom_rel ign s) l0 l1 -> (forall a, In a l1 -> exists w, a = AVar w) ->
  forall v, In (AVar v) l0 -> exists w, s v = AVar w.
Proof.
  induction 1 as [|a0 a1 l0 l1 H F IH]; intros Hv v I; [destruct I|].
  destruct I as [->|I].
  - simpl in H. destruct H as [-> _]. apply Hv. now left.
  - apply IH; [|assumption]. intros a Ia. apply Hv. now right.
Qed.

Definition var_of (a : atom) (d : var) : var := match a with AVar w => w | _ => d end.

Lemma atom_rel_change ign s s' a0 a1 :
  (forall v, a0 = AVar v -> s' v = s v) -> atom_rel ign s a0 a1 -> atom_rel ign s' a0 a1.
Proof. destruct a0 as [v|]; simpl; [|auto]. intros H. now rewrite (H v eq_refl). Qed.

Lemma Forall2_change ign s s' l0 l1 :
  (forall v, In (AVar v) l0 -> s' v = s v) ->
  Forall2 (atom_rel ign s) l0 l1 -> Forall2 (atom_rel ign s') l0 l1.
Proof.
  intros H F. induction F as [|a0 a1 l0 l1 H1 F IH]; constructor.
  - apply atom_rel_change with s; [|assumption]. intros v ->. apply H. now left.
  - apply IH. intros v I. apply H. now right.
Qed.

Lemma jequiv_renaming ign j0 j1 :
  jequiv ign j0 j1 ->
  (forall v, In (AVar v) (jatoms j0) -> In (AVar v) (binders j0)) ->
  (forall a, In a (binders j1) -> exists w, a = AVar w) ->
  NoDup (binders j1) ->
  exists rho : var -> var,
    (forall v w, In (AVar v) (jatoms j0) -> In (AVar w) (jatoms j0) -> rho v = rho w -> v = w) /\
    Forall2 (atom_rel ign (fun v => AVar (rho v))) (jins j0) (jins j1) /\
    Forall2 (atom_rel ign (fun v => AVar (rho v))) (jconst j0) (jconst j1) /\
    Forall2 (atom_rel ign (fun v => AVar (rho v))) (jouts j0) (jouts j1) /\
    Forall2 (eqn_rel ign (fun v => AVar (rho v))) (jeqns j0) (jeqns j1).
Proof.
  intros H Hb Hv N. inversion H as [? s c0 i0 o0 e0 c1 i1 o1 e1 Fc Fi Fo Fe]; subst. simpl in *.
  unfold binders, jatoms in *; simpl in *.
  assert (FB : Forall2 (atom_rel ign s)
     (i0 ++ c0 ++ flat_map (fun e => match e with Eqn _ _ _ b => b end) e0)
     (i1 ++ c1 ++ flat_map (fun e => match e with Eqn _ _ _ b => b end) e1)).
  { apply Forall2_app_; [assumption|]. apply Forall2_app_; [assumption|].
    now apply eqn_rel_binders. }
  exists (fun v => var_of (s v) v).
  assert (Same : forall v, In (AVar v) (i0 ++ c0 ++ o0 ++ flat_map eqn_atoms e0) ->
     AVar (var_of (s v) v) = s v).
  { intros v I. destruct (atom_rel_to_var ign s _ _ FB Hv v (Hb v I)) as (w & ->). reflexivity. }
  repeat split.
  - intros v w Iv Iw E. apply (inj_of_nodup ign s _ _ FB N); auto.
    rewrite <- (Same v Iv), <- (Same w Iw). now f_equal.
  - apply Forall2_change with s; [|assumption]. intros v I. apply Same. rewrite !in_app_iff. auto.
  - apply Forall2_change with s; [|assumption]. intros v I. apply Same. rewrite !in_app_iff. auto.
  - apply Forall2_change with s; [|assumption]. intros v I. apply Same. rewrite !in_app_iff. auto.
  - assert (Se : forall v, In (AVar v) (flat_map eqn_atoms e0) -> AVar (var_of (s v) v) = s v).
    { intros v I. apply Same. rewrite !in_app_iff. auto. }
    clear -Se Fe. induction Fe as [|x y e0 e1 H1 F IH]; constructor.
    + inversion H1 as [? ? p q0 q1 a0 a1 b0 b1 K P Fa Fb]; subst. constructor; auto.
      * apply Forall2_change with s; [|assumption]. intros v I. apply Se. simpl.
        rewrite !in_app_iff. auto.
      * apply Forall2_change with s; [|assumption]. intros v I. apply Se. simpl.
        rewrite !in_app_iff. auto.
    + apply IH. intros v I. apply Se. simpl. rewrite in_app_iff. auto.
Qed.

(** ** Round trip *)
Section RoundTrip.
Variables (j : jaxpr) (start : nat).
Hypothesis counts_unique : forall v w,
  In (AVar v) (jatoms j) -> In (AVar w) (jatoms j) -> vcount v = vcount w -> v = w.

Definition st_inv (st : gstate) : Prop :=
  start <= snd st /\
  (forall c w, c2v (fst st) c = Some w ->
     vcount w = c /\ start <= vid w < snd st /\
     exists v, In (AVar v) (jatoms j) /\ vcount v = c /\ vaval w = vaval v) /\
  (forall c d w u, c2v (fst st) c = Some w -> c2v (fst st) d = Some u -> vid w = vid u -> c = d).
Definition st_ext (st st' : gstate) : Prop :=
  forall c w, c2v (fst st) c = Some w -> c2v (fst st') c = Some w.
Definition copied (st : gstate) (a0 a1 : atom) : Prop :=
  match a0 with
  | AVar v => exists w, c2v (fst st) (vcount v) = Some w /\ a1 = AVar w /\
                        vcount w = vcount v /\ vaval w = vaval v
  | ALit _ x b => exists i, a1 = ALit i x b
  end.

Lemma copied_ext st st' a0 a1 : st_ext st st' -> copied st a0 a1 -> copied st' a0 a1.
Proof.
  intros E. destruct a0 as [v|]; simpl; [|auto]. intros (w & A & B). exists w. split; auto.
Qed.

Lemma c2v_app m c v d : c2v m c = None ->
  c2v (m ++ [(c, v)]) d = if (c =? d)%Z then Some v else c2v m d.
Proof.
  induction m as [|[e u] m IH]; simpl; intro H; [reflexivity|].
  destruct (Z.eqb_spec e c) as [->|]; [discriminate|].
  destruct (Z.eqb_spec e d) as [->|]; [|now apply IH].
  destruct (Z.eqb_spec c d); congruence.
Qed.

Lemma to_atom_spec st a : st_inv st -> In a (jatoms j) ->
  let '(a', st') := to_atom st (to_ivar 0 a) in
  st_inv st' /\ st_ext st st' /\ copied st' a a'.
Proof.
  intros (I0 & I1 & I2) Ia. destruct st as [m n]. simpl in *.
  destruct a as [v|i x b]; simpl; rewrite ?Z.add_0_r.
  - destruct (c2v m (vcount v)) as [w|] eqn:L.
    + split; [exact (conj I0 (conj I1 I2))|]. split; [intros c u H; exact H|]. simpl.
      exists w. destruct (I1 _ _ L) as (A & B & u & Iu & C & E). repeat split; auto.
      rewrite E. f_equal. apply counts_unique; auto.
    + assert (L' := fun d => c2v_app m (vcount v) (MkVar n (vcount v) (vaval v)) d L).
      assert (I1' : forall c w, c2v (m ++ [(vcount v, MkVar n (vcount v) (vaval v))]) c = Some w ->
        vcount w = c /\ start <= vid w < S n /\
        exists u, In (AVar u) (jatoms j) /\ vcount u = c /\ vaval w = vaval u).
      { intros c w H. rewrite L' in H. destruct (Z.eqb_spec (vcount v) c) as [<-|].
        - injection H as <-. simpl. repeat split; try lia. eauto.
        - destruct (I1 _ _ H) as (A & B & C). repeat split; auto; lia. }
      split; [|split]; [split; [simpl; lia|split; [exact I1'|]]| |].
      * intros c d w u Hw Hu E. rewrite L' in Hw, Hu.
        destruct (Z.eqb_spec (vcount v) c) as [<-|], (Z.eqb_spec (vcount v) d) as [<-|]; auto; simpl in *.
        -- injection Hw as <-. apply I1 in Hu. simpl in E. lia.
        -- injection Hu as <-. apply I1 in Hw. simpl in E. lia.
        -- now apply I2 with w u.
      * intros c w Hw. simpl in *. rewrite L'.
        destruct (Z.eqb_spec (vcount v) c) as [<-|]; congruence.
      * exists (MkVar n (vcount v) (vaval v)). simpl. rewrite L', Z.eqb_refl. auto.
  - split; [split; [simpl; lia|split; [|exact I2]]|split; [intros c w Hw; exact Hw|simpl; eauto]].
    intros c w H. destruct (I1 _ _ H) as (A & B & C). simpl. repeat split; auto; lia.
Qed.

Lemma to_atoms_spec l : forall st, st_inv st -> (forall a, In a l -> In a (jatoms j)) ->
  let '(l', st') := to_atoms st (map (to_ivar 0) l) in
  st_inv st' /\ st_ext st st' /\ Forall2 (copied st') l l'.
Proof.
  induction l as [|a l IH]; intros st I Hl; simpl.
  - split; [exact I|split; [intros c w H; exact H|constructor]].
  - assert (A := to_atom_spec st a I (Hl a (or_introl eq_refl))).
    destruct (to_atom st (to_ivar 0 a)) as [a' st1]. destruct A as (I1 & E1 & C1).
    assert (B := IH st1 I1 (fun b Ib => Hl b (or_intror Ib))).
    destruct (to_atoms st1 (map (to_ivar 0) l)) as [l' st2]. destruct B as (I2 & E2 & C2).
    split; [exact I2|]. split; [intros c w H; apply E2, E1, H|].
    constructor; [now apply copied_ext with st1|assumption].
Qed.

Definition eqn_copied (st : gstate) (e0 e1 : eqn) : Prop :=
  match e0, e1 with
  | Eqn p0 q0 a0 b0, Eqn p1 q1 a1 b1 =>
      p1 = p0 /\ q1 = q0 /\ Forall2 (copied st) a0 a1 /\ Forall2 (copied st) b0 b1
  end.

Lemma to_eqns_spec es : forall st, st_inv st ->
  (forall a, In a (flat_map eqn_atoms es) -> In a (jatoms j)) ->
  let '(es', st') := to_eqns st (map (fun e => match e with Eqn p q a b =>
            Op (EqnData p q) (map (to_ivar 0) a) (map (to_ivar 0) b) end) es) in
  st_inv st' /\ st_ext st st' /\ Forall2 (eqn_copied st') es es'.
Proof.
  induction es as [|[p q a b] es IH]; intros st I Hl; simpl.
  - split; [exact I|split; [intros c w H; exact H|constructor]].
  - assert (A := to_atoms_spec a st I). simpl in Hl.
    destruct (to_atoms st (map (to_ivar 0) a)) as [a' st1].
    destruct A as (I1 & E1 & C1); [intros x Ix; apply Hl; rewrite !in_app_iff; auto|].
    assert (B := to_atoms_spec b st1 I1).
    destruct (to_atoms st1 (map (to_ivar 0) b)) as [b' st2].
    destruct B as (I2 & E2 & C2); [intros x Ix; apply Hl; rewrite !in_app_iff; auto|].
    assert (R := IH st2 I2).
    destruct (to_eqns st2 _) as [es' st3].
    destruct R as (I3 & E3 & C3); [intros x Ix; apply Hl; rewrite !in_app_iff; auto|].
    split; [exact I3|]. split; [intros c w H; apply E3, E2, E1, H|].
    constructor; [|assumption]. simpl. repeat split.
    + apply Forall2_imp with (2 := C1). intros x y. apply copied_ext. intros c w H; apply E3, E2, H.
    + apply Forall2_imp with (2 := C2). intros x y. apply copied_ext. exact E3.
Qed.

Lemma copied_copy st a0 a1 : copied st a0 a1 ->
  atom_copy (fun v => match c2v (fst st) (vcount v) with Some w => w | None => v end) a0 a1.
Proof.
  destruct a0 as [v|]; simpl; [|auto]. intros (w & -> & -> & A & B). auto.
Qed.

Lemma round_trip : exists rho : var -> var,
  jaxpr_copy rho j (graph_to_jaxpr start (jaxpr_to_graph j 0)) /\
  (forall v w, In (AVar v) (jatoms j) -> In (AVar w) (jatoms j) ->
     vid (rho v) = vid (rho w) -> v = w) /\
  (forall v, In (AVar v) (jatoms j) -> start <= vid (rho v)).
Proof.
  unfold graph_to_jaxpr, jaxpr_to_graph. cbn [gops gins gouts gdata].
  assert (I0 : st_inv ([], start)).
  { repeat split; simpl; try lia; try discriminate. }
  assert (A := to_eqns_spec (jeqns j) ([], start) I0).
  destruct (to_eqns ([], start) _) as [es st1].
  destruct A as (I1 & E1 & C1); [intros x Ix; unfold jatoms; rewrite !in_app_iff; auto|].
  assert (A := to_atoms_spec (jins j) st1 I1).
  destruct (to_atoms st1 _) as [is_ st2].
  destruct A as (I2 & E2 & C2); [intros x Ix; unfold jatoms; rewrite !in_app_iff; auto|].
  assert (A := to_atoms_spec (jouts j) st2 I2).
  destruct (to_atoms st2 _) as [os st3].
  destruct A as (I3 & E3 & C3); [intros x Ix; unfold jatoms; rewrite !in_app_iff; auto|].
  assert (A := to_atoms_spec (jconst j) st3 I3).
  destruct (to_atoms st3 _) as [cs st4].
  destruct A as (I4 & E4 & C4); [intros x Ix; unfold jatoms; rewrite !in_app_iff; auto|].
  exists (fun v => match c2v (fst st4) (vcount v) with Some w => w | None => v end).
  assert (X1 : st_ext st1 st4) by (intros c w H; apply E4, E3, E2, H).
  assert (X2 : st_ext st2 st4) by (intros c w H; apply E4, E3, H).
  assert (Found : forall v, In (AVar v) (jatoms j) -> exists w, c2v (fst st4) (vcount v) = Some w).
  { assert (T : forall st l l', st_ext st st4 -> Forall2 (copied st) l l' ->
       forall v, In (AVar v) l -> exists w, c2v (fst st4) (vcount v) = Some w).
    { intros st l l' X F v. induction F as [|a0 a1 l l' H F IH]; [intros []|].
      intros [->|Iv]; [|auto]. simpl in H. destruct H as (w & H & _). exists w. now apply X. }
    intros v Iv. unfold jatoms in Iv. rewrite !in_app_iff in Iv.
    destruct Iv as [Iv|[Iv|[Iv|Iv]]].
    - now apply (T st2 _ _ X2 C2).
    - apply (T st4 _ _ ltac:(intros ? ?; auto) C4); auto.
    - now apply (T st3 _ _ E4 C3).
    - clear -C1 Iv T X1. induction C1 as [|[p q a b] [p' q' a' b'] es es' H F IH]; [destruct Iv|].
      simpl in Iv, H. destruct H as (_ & _ & Fa & Fb). rewrite !in_app_iff in Iv.
      destruct Iv as [[Iv|Iv]|Iv]; [now apply (T st1 _ _ X1 Fa)|now apply (T st1 _ _ X1 Fb)|auto]. }
  split; [|split].
  - unfold jaxpr_copy. simpl. repeat split.
    + apply Forall2_imp with (2 := C4). apply copied_copy.
    + apply Forall2_imp with (2 := C2). intros x y H. apply copied_copy, copied_ext with st2; auto.
    + apply Forall2_imp with (2 := C3). intros x y H. apply copied_copy, copied_ext with st3; auto.
    + apply Forall2_imp with (2 := C1). intros [p q a b] [p' q' a' b'] (-> & -> & Fa & Fb).
      simpl. repeat split.
      * apply Forall2_imp with (2 := Fa). intros x y H. apply copied_copy, copied_ext with st1; auto.
      * apply Forall2_imp with (2 := Fb). intros x y H. apply copied_copy, copied_ext with st1; auto.
  - intros v w Iv Iw. destruct (Found v Iv) as (x & Ex), (Found w Iw) as (y & Ey).
    rewrite Ex, Ey. intro E. apply counts_unique; auto.
    destruct I4 as (_ & _ & I4). now apply I4 with x y.
  - intros v Iv. destruct (Found v Iv) as (x & Ex). rewrite Ex.
    destruct I4 as (_ & I4 & _). apply I4 in Ex. lia.
Qed.
End RoundTrip.
