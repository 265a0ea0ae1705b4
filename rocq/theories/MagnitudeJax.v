(** Magnitudes (Magnitude.v) of the values of a run of jax_bound.py: for every
    bound on the inputs there is one bound on everything that is computed. *)
From Coq Require Import Reals Lra.
From Verif Require Import Base Tensor IntervalArith Polynomials Enclosure TensorLemmas Spec Iso Magnitude MagnitudeEnc GraphEditor JaxBound.
Open Scope R_scope.

(** ** The bilinear primitives *)
Lemma gather_dom g : dom_op1 (gather g) (gather g).
Proof.
  intros a a' [E H]. unfold gather. rewrite <- E. destruct (g_shape g (tshape a)); [|apply f_err]. apply f_ok. split; [reflexivity|].
  intros J. cbn [tdata]. apply wfold. auto.
Qed.
Lemma dot_dom lc rc lb rb : dom_op (dot_general lc rc lb rb) (dot_general lc rc lb rb).
Proof.
  intros a a' b b' [Ea Ha] [Eb Hb]. unfold dot_general. rewrite <- Ea, <- Eb. cbv zeta. match goal with |- context [if ?c then _ else _] => destruct c end; [|apply f_err].
  apply f_ok. split; [reflexivity|]. intros J. cbn [tdata]. apply wsumi. intros K. apply wmul; auto.
Qed.
Lemma conv_dom c : dom_op (conv_general_dilated c) (conv_general_dilated c).
Proof.
  intros a a' b b' [Ea Ha] [Eb Hb]. unfold conv_general_dilated. rewrite <- Ea, <- Eb. destruct (conv_check c (tshape a) (tshape b)); [|apply f_err].
  cbn [bind]. apply f_ok. split; [reflexivity|]. intros J. cbn [tdata]. apply wfold. intros (ia & ib). apply wmul; auto.
Qed.
Lemma move_dom n : dom_op1 (move_last_to_front n) (move_last_to_front n).
Proof.
  intros a a' Ha. pose proof Ha as [E _]. unfold move_last_to_front, tndim. rewrite <- E. destruct (n =? 0)%nat; [apply f_ok; auto|]. destruct (_ <? _)%nat; [apply f_err|]. cbv zeta.
  eapply f_bind; [apply gather_dom; exact Ha|]. intros t t' Ht. apply gather_dom; auto.
Qed.
Lemma conv_pbb_dom c : pbb_dom (conv_pbb c) (conv_pbb c).
Proof.
  intros p q a a' b b' Ha Hb. unfold conv_pbb. eapply f_bind; [apply move_dom; exact Ha|]. intros u u' Hu. eapply f_bind; [apply move_dom; exact Hb|]. intros v v' Hv.
  eapply f_bind; [apply conv_dom; eauto|]. intros r r' Hr. destruct (_ && _)%bool; [apply f_ok; auto|]. destruct (_ || _)%bool; [apply f_err|].
  pose proof Hr as [Er _]. pose proof Ha as [Ea _]. pose proof Hb as [Eb _]. unfold tndim. rewrite <- Er, <- Ea, <- Eb.
  eapply f_bind; [apply gather_dom; exact Hr|]. intros t t' Ht. apply gather_dom; auto.
Qed.
Lemma dot_pbb_dom lc rc lb rb : pbb_dom (dot_pbb lc rc lb rb) (dot_pbb lc rc lb rb).
Proof.
  intros p q a a' b b' Ha Hb. unfold dot_pbb. eapply f_bind; [apply dot_dom; eauto|]. intros t t' Ht. cbv zeta.
  pose proof Ht as [Et _]. pose proof Ha as [Ea _]. unfold tndim. rewrite <- Et, <- Ea. destruct (_ <? _)%nat; [apply f_err|]. destruct (_ <? _)%nat; [apply f_err|].
  destruct (negb _); [apply f_err|]. apply gather_dom; auto.
Qed.
Lemma push_broadcast_dom shape bdims e e' : dome e e' -> follows dome (push_broadcast shape bdims e) (push_broadcast shape bdims e').
Proof.
  intros H. unfold push_broadcast.
  eapply f_bind with (Q := dom). { destruct H as [|c c' r r' Hc H]; [apply f_err|]. apply f_ok, left_dom; auto. }
  intros x x' Hx. eapply f_bind with (Q := eq).
  { destruct H as [|c c' r r' Hc H]; [apply f_same|]. destruct H as [|c1 c1' r r' Hc1 H]; [apply f_same|].
    dom_cases c1 c1' Hc1; [|apply f_err]. destruct Hc1 as [E _]. destruct Hx as [Ex _]. unfold tndim. rewrite Ex, E. apply f_same. }
  intros xs xs' <-. apply (f_mapM (same_fst domc)); [apply enumerate_rel; auto|].
  intros (i & c) (i' & c') [E Hc]. cbn [fst snd] in *. subst i'. apply map_coef_dom; auto. apply gather_dom.
Qed.

(** ** One bound for a family of computations *)
Definition bd {I A B} (S : I -> Prop) (Q : A -> B -> Prop) (r : I -> res A) : Prop := exists b, forall i a, S i -> r i = Ok a -> Q a b.
Lemma bd_bind {I A B C E} (S : I -> Prop) (Q : A -> B -> Prop) (P : C -> E -> Prop) r f :
  bd S Q r -> (forall b, bd (fun p => S (fst p) /\ Q (snd p) b) P (fun p => f (fst p) (snd p))) -> bd S P (fun i => bind (r i) (f i)).
Proof.
  intros (b & Hb) K. destruct (K b) as (c & Hc). exists c. intros i a Hi H. apply bind_ok in H. destruct H as (x & Hx & H).
  apply (Hc (i, x)); auto. split; auto. apply (Hb i x Hi Hx).
Qed.
Lemma bd_fol {I A B} (S : I -> Prop) (Q : A -> B -> Prop) r r' (d : B) : (forall i, S i -> follows Q (r i) r') -> bd S Q r.
Proof.
  intros H. destruct r' as [b|e] eqn:E.
  - exists b. intros i a Hi Ha. destruct (H i Hi a Ha) as (b' & [= <-] & K). exact K.
  - exists d. intros i a Hi Ha. destruct (H i Hi a Ha) as (b' & K & _). discriminate.
Qed.
Lemma bd_sub {I A B} (S S' : I -> Prop) (Q : A -> B -> Prop) r : (forall i, S' i -> S i) -> bd S Q r -> bd S' Q r.
Proof. intros H (b & Hb). exists b. intros i a Hi Ha. apply (Hb i a); auto. Qed.

(** ** Elementwise functions *)
Definition gen_bounded (gen : generator R) : Prop :=
  forall d X L H, exists C, forall x l h e, dom x X -> dom l L -> dom h H -> gen x (l, h) d = Ok e -> dome e C.
Definition fun_bounded (f : R -> res R) : Prop := forall B, exists M, forall x v, Rabs x <= B -> f x = Ok v -> Rabs v <= M.

Definition domo (t : option (coef R)) (t' : option (coef mag)) : Prop :=
  match t, t' with Some c, Some c' => domc c c' | None, None => True | _, _ => False end.
Definition lom {T} (c : coef T) : tensor T := match c with Arr t => t | Ivl l _ => l end.
Definition him {T} (c : coef T) : tensor T := match c with Arr t => t | Ivl _ h => h end.
Lemma elementwise_bd gen D tr' a' t' : gen_bounded gen ->
  bd (fun '(tr, a, t) => dom2 tr tr' /\ dome a a' /\ domo t t') dome (fun '(tr, a, t) => elementwise_fun (mkArith D tr) gen a t).
Proof.
  intros HG.
  assert (B1 : bd (fun '(tr, a, t) => dom2 tr tr' /\ dome a a' /\ domo t t') domc (fun '(tr, a, t) =>
            match t with Some t => Ok t | None => d0 <- enclose_enclosure a (trust_region (mkArith D tr)) 0 ;; get_nth d0 0 end)).
  { apply (bd_fol _ _ _ (match t' with Some t => Ok t | None => d0 <- enclose_enclosure a' tr' 0 ;; get_nth d0 0 end) zero_c).
    intros ((tr & a) & t) (H1 & H2 & H3). unfold domo in H3. destruct t, t'; try contradiction; [apply f_ok; auto|].
    eapply f_bind; [apply enclose_dom; eauto|]. intros. apply f_get_nth; auto. }
  destruct B1 as (T & HT). destruct a' as [|a0 a'].
  { exists []. intros ((tr & a) & t) c (H1 & H2 & H3) H. inversion H2; subst. unfold elementwise_fun in H. apply bind_ok in H. destruct H as (x & _ & H). discriminate. }
  destruct (HG D (left_end a0) (lom T) (him T)) as (C & HC).
  destruct (bd_fol (fun '(tr, ew, a) => dom2 tr tr' /\ dome ew C /\ dome a (a0 :: a')) dome (fun '(tr, ew, a) => compose_enclosures (mkArith D tr) ew a)
             (compose_enclosures (mkArith D tr') C (a0 :: a')) []) as (E & HE).
  { intros ((tr & ew) & a) (K1 & K2 & K3). apply compose_dom; auto. }
  exists E. intros ((tr & a) & t) c (H1 & H2 & H3) H. unfold elementwise_fun in H. apply bind_ok in H. destruct H as (t0 & Ht & H). cbv zeta in H.
  apply bind_ok in H. destruct H as (c0 & Hc & H). apply bind_ok in H. destruct H as (x0 & Hx & H). apply bind_ok in H. destruct H as (ew & Hew & H).
  specialize (HT (tr, a, t) t0 (conj H1 (conj H2 H3)) Ht). inversion H2 as [|x y r r' Hxy Hr]; subst. injection Hc as <-.
  assert (E0 : x0 = left_end x) by (destruct x; [injection Hx as ->; auto|destruct (_ =? _)%nat; [injection Hx as ->; auto|discriminate]]).
  subst x0. apply (HE (tr, ew, x :: r)); auto. split; auto. split; [|auto].
  assert (HH : exists l h, gen (left_end x) (l, h) D = Ok ew /\ dom l (lom T) /\ dom h (him T)).
  { destruct t0 as [v|l h], T as [v'|l' h']; try contradiction; cbn in HT; [exists v, v|exists l, h]; cbn [lom him]; tauto. }
  destruct HH as (l & h & K1 & K2 & K3). exact (HC _ _ _ _ (left_dom _ _ Hxy) K2 K3 K1).
Qed.

(** ** Pushforward functions *)
Record domi (i : inter R) (i' : inter mag) : Prop := {
  di_enc : dome (i_enc i) (i_enc i');
  di_tr : match i_tr i, i_tr i' with Some t, Some t' => dom2 t t' | None, None => True | _, _ => False end }.

(** The primitives that keep bounded values bounded. *)
Definition bounded_prim (sc : scalars R) (gs : generators R) (p : prim R) : Prop :=
  match p with
  | div_p | pow_p | jit_p _ | other_p _ => False
  | integer_pow_p y => (0 <= y)%Z
  | elementwise_p e => gen_bounded (gen_elem gs e) /\ fun_bounded (s_elem sc e)
  | _ => True
  end.

Lemma map_bd (D : nat) tr' f f' args' (gs : generators R) : dom_op1 f f' ->
  bd (fun '(tr, args) => dom2 tr tr' /\ Forall2 domi args args') dome
     (fun '(tr, args) => match args with [a] => map_over_enclosure (i_enc a) f | _ => Err TypeError end).
Proof.
  intros Hf. apply (bd_fol _ _ _ (match args' with [a] => map_over_enclosure (i_enc a) f' | _ => Err TypeError end) []).
  intros (tr & args) [H1 H2]. destruct H2 as [|a a' r r' Ha H2]; [apply f_err|]. destruct H2; [|apply f_err]. apply map_over_dom; auto. apply Ha.
Qed.

Lemma pushforward_bd sc gs D tr' p args' : bounded_prim sc gs p ->
  bd (fun '(tr, args) => dom2 tr tr' /\ Forall2 domi args args') dome (fun '(tr, args) => pushforward gs (mkArith D tr) p args).
Proof.
  intros HP. set (A' := mkArith D tr').
  assert (U : forall f f' , (forall tr a a', dom2 tr tr' -> domi a a' -> follows dome (f tr a) (f' a')) ->
      bd (fun '(tr, args) => dom2 tr tr' /\ Forall2 domi args args') dome (fun '(tr, args) => match args with [a] => f tr a | _ => Err TypeError end)).
  { intros f f' Hf. apply (bd_fol _ _ _ (match args' with [a] => f' a | _ => Err TypeError end) []).
    intros (tr & args) [H1 H2]. destruct H2 as [|a a' r r' Ha H2]; [apply f_err|]. destruct H2; [|apply f_err]. apply Hf; auto. }
  assert (V : forall f f' , (forall tr a a' b b', dom2 tr tr' -> domi a a' -> domi b b' -> follows dome (f tr a b) (f' a' b')) ->
      bd (fun '(tr, args) => dom2 tr tr' /\ Forall2 domi args args') dome (fun '(tr, args) => match args with [a; b] => f tr a b | _ => Err TypeError end)).
  { intros f f' Hf. apply (bd_fol _ _ _ (match args' with [a; b] => f' a b | _ => Err TypeError end) []).
    intros (tr & args) [H1 H2]. destruct H2 as [|a a' r r' Ha H2]; [apply f_err|]. destruct H2 as [|b b' r r' Hb H2]; [apply f_err|]. destruct H2; [|apply f_err]. apply Hf; auto. }
  assert (EXT : forall f, bd (fun '(tr, args) => dom2 tr tr' /\ Forall2 domi args args') dome f -> (forall tr args e, pushforward gs (mkArith D tr) p args = Ok e -> f (tr, args) = Ok e) ->
      bd (fun '(tr, args) => dom2 tr tr' /\ Forall2 domi args args') dome (fun '(tr, args) => pushforward gs (mkArith D tr) p args)).
  { intros f (b & Hb) HE. exists b. intros (tr & args) a Hi Ha. apply (Hb (tr, args)); auto. }
  destruct p; cbn in HP; try contradiction.
  - refine (EXT _ (V (fun tr a b => eadd (mkArith D tr) (i_enc a) (i_enc b)) (fun a b => eadd A' (i_enc a) (i_enc b)) _) _).
    + intros tr a a' b b' HT Ha Hb. apply eadd_dom; auto; [apply Ha|apply Hb].
    + intros tr args e H. destruct args as [|a [|b [|]]]; try discriminate; exact H.
  - refine (EXT _ (V (fun tr a b => esubtract (mkArith D tr) (i_enc a) (i_enc b)) (fun a b => esubtract A' (i_enc a) (i_enc b)) _) _).
    + intros tr a a' b b' HT Ha Hb. apply esubtract_dom; auto; [apply Ha|apply Hb].
    + intros tr args e H. destruct args as [|a [|b [|]]]; try discriminate; exact H.
  - refine (EXT _ (V (fun tr a b => emultiply (mkArith D tr) (i_enc a) (i_enc b)) (fun a b => emultiply A' (i_enc a) (i_enc b)) _) _).
    + intros tr a a' b b' HT Ha Hb. apply emultiply_dom; auto; [apply Ha|apply Hb].
    + intros tr args e H. destruct args as [|a [|b [|]]]; try discriminate; exact H.
  - refine (EXT _ (U (fun tr a => enegative (mkArith D tr) (i_enc a)) (fun a => enegative A' (i_enc a)) _) _).
    + intros tr a a' HT Ha. apply enegative_dom; auto; apply Ha.
    + intros tr args e H. destruct args as [|a [|b [|]]]; try discriminate; exact H.
  - refine (EXT _ (U (fun tr a => epower_nat (mkArith D tr) (i_enc a) (Z.to_nat y)) (fun a => epower_nat A' (i_enc a) (Z.to_nat y)) _) _).
    + intros tr a a' HT Ha. apply epower_nat_dom; auto; apply Ha.
    + intros tr args e H. apply Z.leb_le in HP. destruct args as [|a [|b [|]]]; try discriminate. cbn [pushforward] in H. unfold epower in H. rewrite HP in H. exact H.
  - refine (EXT _ (V (fun tr a b => earbitrary_bilinear (mkArith D tr) (i_enc a) (i_enc b) (dot_pbb lc rc lb rb)) (fun a b => earbitrary_bilinear A' (i_enc a) (i_enc b) (dot_pbb lc rc lb rb)) _) _).
    + intros tr a a' b b' HT Ha Hb. apply ebil_dom; auto; [apply dot_pbb_dom|apply Ha|apply Hb].
    + intros tr args e H. destruct args as [|a [|b [|]]]; try discriminate; exact H.
  - refine (EXT _ (V (fun tr a b => earbitrary_bilinear (mkArith D tr) (i_enc a) (i_enc b) (conv_pbb c)) (fun a b => earbitrary_bilinear A' (i_enc a) (i_enc b) (conv_pbb c)) _) _).
    + intros tr a a' b b' HT Ha Hb. apply ebil_dom; auto; [apply conv_pbb_dom|apply Ha|apply Hb].
    + intros tr args e H. destruct args as [|a [|b [|]]]; try discriminate; exact H.
  - refine (EXT _ (U (fun tr a => push_broadcast shape bdims (i_enc a)) (fun a => push_broadcast shape bdims (i_enc a)) _) _).
    + intros tr a a' HT Ha. apply push_broadcast_dom; auto; apply Ha.
    + intros tr args e H. destruct args as [|a [|b [|]]]; try discriminate; exact H.
  - destruct HP as [HG _]. destruct args' as [|a' [|b' args']].
    1: { exists []. intros (tr & args) a [H1 H2] H. inversion H2; subst. discriminate. }
    2: { exists []. intros (tr & args) a [H1 H2] H. inversion H2 as [|? ? ? ? _ H3]; subst. inversion H3; subst. discriminate. }
    destruct (elementwise_bd (gen_elem gs e) D tr' (i_enc a') (tr_coef (i_tr a')) HG) as (C & HC). exists C.
    intros (tr & args) c [H1 H2] H. inversion H2 as [|a ? ? ? Ha Hr]; subst. inversion Hr; subst. apply (HC (tr, i_enc a, tr_coef (i_tr a)) c); [|exact H].
    split; auto. split; [apply Ha|]. pose proof (di_tr _ _ Ha) as K. destruct (i_tr a) as [[l h]|], (i_tr a') as [[l' h']|]; cbn; auto.
  - refine (EXT _ (map_bd D tr' _ _ args' gs (gather_dom g_convert)) _). intros tr args e H. destruct args as [|a [|b [|]]]; try discriminate; exact H.
  - refine (EXT _ (map_bd D tr' _ _ args' gs (gather_dom (g_reshape new_sizes))) _). intros tr args e H. destruct args as [|a [|b [|]]]; try discriminate; exact H.
  - refine (EXT _ (map_bd D tr' _ _ args' gs (gather_dom (g_reduce_sum axes))) _). intros tr args e H. destruct args as [|a [|b [|]]]; try discriminate; exact H.
  - refine (EXT _ (map_bd D tr' _ _ args' gs (gather_dom (g_reduce_window_sum ws))) _). intros tr args e H. destruct args as [|a [|b [|]]]; try discriminate; exact H.
  - refine (EXT _ (map_bd D tr' _ _ args' gs (gather_dom (g_squeeze dims))) _). intros tr args e H. destruct args as [|a [|b [|]]]; try discriminate; exact H.
  - refine (EXT _ (map_bd D tr' _ _ args' gs (gather_dom (g_transpose perm))) _). intros tr args e H. destruct args as [|a [|b [|]]]; try discriminate; exact H.
Qed.

(** ** The interpreter *)
Definition tmag (t : tensor R) : tensor mag := mkT (tshape t) (fun J => Mag (Rabs (tdata t J))).
Lemma tmag_dom t : dom t (tmag t). Proof. split; [reflexivity|]. intros J. unfold within. simpl. lra. Qed.
Lemma constant_dom v v' : dom v v' -> domi (constant_inter v) (constant_inter v').
Proof. intros H. split; cbn; [constructor; [exact H|constructor]|split; auto]. Qed.
Notation domd := (Forall2 (same_fst domi)).
Lemma dlookup_dom d d' n : domd d d' -> match dlookup d n, dlookup d' n with Some i, Some i' => domi i i' | None, None => True | _, _ => False end.
Proof.
  intros H. induction H as [|(m & i) (m' & i') d d' [E Hi] H IH]; simpl; auto. simpl in E, Hi. subst m'. destruct (m =? n)%nat; auto.
Qed.
Lemma get_dom lits d d' v : domd d d' -> follows domi (get_intermediate lits d v) (get_intermediate (fun n => tmag (lits n)) d' v).
Proof.
  intros H. destruct v as [n|n|]; simpl; [|apply f_ok, constant_dom, tmag_dom|apply f_err].
  pose proof (dlookup_dom _ _ n H). destruct (dlookup d n), (dlookup d' n); try contradiction; [apply f_ok; auto|apply f_err].
Qed.
Lemma is_constant_dom i i' : domi i i' -> is_constant i = is_constant i'.
Proof.
  intros [H _]. unfold is_constant. destruct H as [|c c' l l' Hc H]; auto. destruct c, c'; try contradiction; auto. destruct H; auto.
Qed.
Lemma constant_value_dom i i' : domi i i' -> follows dom (constant_value i) (constant_value i').
Proof.
  intros [H _]. unfold constant_value. destruct H as [|c c' l l' Hc H]; [apply f_err|]. dom_cases c c' Hc; destruct H; try apply f_err. apply f_ok. exact Hc.
Qed.

(** The trust region of an output. *)
Lemma out_region_bd sc gs tr' p args' enc' : bounded_prim sc gs p ->
  bd (fun '(tr, args, enc) => dom2 tr tr' /\ Forall2 domi args args' /\ dome enc enc') dom2 (fun '(tr, args, enc) => out_trust_region gs (mkArith 0 tr) p args enc).
Proof.
  intros HP.
  set (m' := mapM (fun i : inter mag => match i_tr i with Some (l, h) => Ok (Inter [Ivl l h] None) | None => Err AssertionError end) args').
  set (args0' := match m' with Ok a => a | Err _ => [] end).
  destruct (pushforward_bd sc gs 0 tr' p args0' HP) as (A & HA).
  destruct (bd_fol (fun '(tr, a, enc) => dom2 tr tr' /\ dome a A /\ dome enc enc') dom2 (fun '(tr, a, enc) =>
      b <- enclose_enclosure enc tr 0 ;; a0 <- get_nth a 0 ;; b0 <- get_nth b 0 ;; '(l, h) <- intersect_intervals a0 b0 ;;
      y0 <- match enc with Arr t :: _ => Ok t | Ivl _ _ :: _ => Err Unmodelled | [] => Err IndexError end ;; l' <- tmin y0 l ;; h' <- tmax y0 h ;; Ok (l', h'))
      (b <- enclose_enclosure enc' tr' 0 ;; a0 <- get_nth A 0 ;; b0 <- get_nth b 0 ;; '(l, h) <- intersect_intervals a0 b0 ;;
      y0 <- match enc' with Arr t :: _ => Ok t | Ivl _ _ :: _ => Err Unmodelled | [] => Err IndexError end ;; l' <- tmin y0 l ;; h' <- tmax y0 h ;; Ok (l', h'))
      (tmag (tscalar 0), tmag (tscalar 0))) as (B & HB).
  { intros ((tr & a) & enc) (K1 & K2 & K3). eapply f_bind; [apply enclose_dom; eauto|]. intros b b' Hb. eapply f_bind; [apply f_get_nth; eauto|]. intros a0 a0' Ha0.
    eapply f_bind; [apply f_get_nth; eauto|]. intros b0 b0' Hb0.
    eapply f_bind with (Q := dom2).
    { unfold intersect_intervals. dom_cases a0 a0' Ha0; [apply f_err|]. dom_cases b0 b0' Hb0; [apply f_err|]. eapply f_bind; [apply dom_max; eauto|]. intros u u' Hu. eapply f_bind; [apply dom_min; eauto|]. intros v v' Hv. apply f_ok. split; auto. }
    intros (l & h) (l' & h') [Hl Hh]. cbn [fst snd] in Hl, Hh.
    eapply f_bind with (Q := dom). { destruct K3 as [|c c' e e' Hc K3]; [apply f_err|]. dom_cases c c' Hc; [apply f_ok; exact Hc|apply f_err]. }
    intros y y' Hy. eapply f_bind; [apply dom_min; eauto|]. intros u u' Hu. eapply f_bind; [apply dom_max; eauto|]. intros v v' Hv. apply f_ok. split; auto. }
  exists B. intros ((tr & args) & enc) r (H1 & H2 & H3) H. unfold out_trust_region in H. apply bind_ok in H. destruct H as (args0 & Ha & H). apply bind_ok in H. destruct H as (a & Hp & H).
  apply (HB (tr, a, enc) r); [|exact H]. split; auto. split; [|auto]. apply (HA (tr, args0) a); [|exact Hp]. split; auto.
  assert (F : follows (Forall2 domi) (mapM (fun i : inter R => match i_tr i with Some (l, h) => Ok (Inter [Ivl l h] None) | None => Err AssertionError end) args) m').
  { apply (f_mapM domi); auto. intros i i' [_ Hi]. destruct (i_tr i) as [[l h]|], (i_tr i') as [[l' h']|]; try contradiction; [|apply f_err]. apply f_ok. destruct Hi.
    split; cbn; auto. constructor; [split; auto|constructor]. }
  destruct (F _ Ha) as (b & Eb & K). unfold args0'. rewrite Eb. exact K.
Qed.

(** Evaluation on constants. *)
Lemma tmapM_bd f v' : fun_bounded f -> exists w', forall v w, dom v v' -> tmapM f v = Ok w -> dom w w'.
Proof.
  intros HF.
  assert (G : forall (l : list (list nat)) , exists ms : list mag, forall v ws, dom v v' -> mapM (fun J => f (tdata v J)) l = Ok ws -> Forall2 within ws ms).
  { induction l as [|J l (ms & IH)].
    - exists []. intros v ws _ H. injection H as <-. constructor.
    - destruct (HF (mv (tdata v' J))) as (M & HM). exists (Mag M :: ms). intros v ws Hv H. cbn [mapM] in H. apply bind_ok in H. destruct H as (w & Hw & H). apply bind_ok in H. destruct H as (wr & Hr & H). injection H as <-.
      constructor; [|apply (IH v); auto]. unfold within. simpl. apply (HM (tdata v J)); auto. apply (proj2 Hv). }
  destruct (G (all_idx (tshape v'))) as (ms & Hms). exists (of_list n0 (tshape v') ms). intros v w Hv H. unfold tmapM in H. apply bind_ok in H. destruct H as (ws & Hws & H). injection H as <-.
  rewrite (dom_shape _ _ Hv) in *. specialize (Hms v ws Hv Hws). split; [reflexivity|]. intros J. cbn [tdata of_list]. 
  generalize (ravel (tshape v') J). intros n. clear Hws. revert n. induction Hms as [|x y l l' Hxy Hms IH]; intros [|n]; simpl nth; try apply w0; try exact Hxy; apply IH.
Qed.
Lemma prim_eval_bd sc gs p vals' : bounded_prim sc gs p -> exists r', forall vals r, Forall2 dom vals vals' -> prim_eval sc p vals = Ok r -> Forall2 dom r r'.
Proof.
  intros HP.
  assert (O : forall f f', (forall vals, Forall2 dom vals vals' -> follows dom (f vals) f') -> (forall vals r, prim_eval sc p vals = Ok r -> one_res (f vals) = Ok r) ->
     exists r', forall vals r, Forall2 dom vals vals' -> prim_eval sc p vals = Ok r -> Forall2 dom r r').
  { intros f f' H K. exists (match f' with Ok t => [t] | Err _ => [] end). intros vals r Hv Hr. apply K in Hr. unfold one_res in Hr. apply bind_ok in Hr. destruct Hr as (t & Ht & Hr). injection Hr as <-.
    destruct (H vals Hv t Ht) as (t' & -> & Hd). constructor; auto. }
  assert (U : forall (g : tensor R -> res (tensor R)) g', dom_op1 g g' -> (forall vals r, prim_eval sc p vals = Ok r -> exists a, vals = [a] /\ one_res (g a) = Ok r) ->
     exists r', forall vals r, Forall2 dom vals vals' -> prim_eval sc p vals = Ok r -> Forall2 dom r r').
  { intros g g' Hg K. apply (O (fun v => match v with [a] => g a | _ => Err TypeError end) (match vals' with [a] => g' a | _ => Err TypeError end)).
    - intros vals Hv. destruct Hv as [|a a' r r' Ha Hv]; [apply f_err|]. destruct Hv; [apply Hg; auto|apply f_err].
    - intros vals r Hr. destruct (K vals r Hr) as (a & -> & E). exact E. }
  assert (V : forall (g : tensor R -> tensor R -> res (tensor R)) g', dom_op g g' -> (forall vals r, prim_eval sc p vals = Ok r -> exists a b, vals = [a; b] /\ one_res (g a b) = Ok r) ->
     exists r', forall vals r, Forall2 dom vals vals' -> prim_eval sc p vals = Ok r -> Forall2 dom r r').
  { intros g g' Hg K. apply (O (fun v => match v with [a; b] => g a b | _ => Err TypeError end) (match vals' with [a; b] => g' a b | _ => Err TypeError end)).
    - intros vals Hv. destruct Hv as [|a a' r r' Ha Hv]; [apply f_err|]. destruct Hv as [|b b' r r' Hb Hv]; [apply f_err|]. destruct Hv; [apply Hg; auto|apply f_err].
    - intros vals r Hr. destruct (K vals r Hr) as (a & b & -> & E). exact E. }
  destruct p; cbn in HP; try contradiction.
  1: apply (V _ _ dom_add). 2: apply (V _ _ dom_sub). 3: apply (V _ _ dom_mul).
  1-3: intros vals r H; destruct vals as [|a [|b [|]]]; try discriminate; exists a, b; split; auto; exact H.
  - apply (U (fun a => Ok (tneg a)) (fun a => Ok (tneg a))); [intros a a' Ha; apply f_ok, dom_neg; auto|].
    intros vals r H; destruct vals as [|a [|b [|]]]; try discriminate; exists a; split; auto; exact H.
  - apply (U (fun a => Ok (tmap (fun x => npow x (Z.to_nat y)) a)) (fun a => Ok (tmap (fun x => npow x (Z.to_nat y)) a))); [intros a a' Ha; apply f_ok, dom_tmap; auto; intros; apply wpow; auto|].
    intros vals r H; destruct vals as [|a [|b [|]]]; try discriminate. exists a. split; auto. cbn [prim_eval prim_bind] in H. apply Z.leb_le in HP. rewrite HP in H. exact H.
  - apply (V _ _ (dot_dom lc rc lb rb)). intros vals r H; destruct vals as [|a [|b [|]]]; try discriminate; exists a, b; split; auto; exact H.
  - apply (V _ _ (conv_dom c)). intros vals r H; destruct vals as [|a [|b [|]]]; try discriminate; exists a, b; split; auto; exact H.
  - apply (U _ _ (gather_dom (g_broadcast_in_dim shape bdims))). intros vals r H; destruct vals as [|a [|b [|]]]; try discriminate; exists a; split; auto; exact H.
  - destruct HP as [_ HF]. destruct vals' as [|v' [|]].
    1: { exists []. intros vals r Hv H. inversion Hv; subst. destruct e; discriminate. }
    2: { exists []. intros vals r Hv H. inversion Hv as [|? ? ? ? _ Hv2]; subst. inversion Hv2; subst. destruct e; discriminate. }
    destruct (tmapM_bd _ v' HF) as (w' & Hw). exists [w']. intros vals r Hv H. inversion Hv as [|v ? ? ? Hv1 Hv2]; subst. inversion Hv2; subst.
    assert (H' : one_res (tmapM (s_elem sc e) v) = Ok r) by (destruct e; try discriminate; exact H). unfold one_res in H'. apply bind_ok in H'. destruct H' as (t & Ht & H'). injection H' as <-.
    constructor; auto. apply (Hw v); auto.
  - apply (U _ _ (gather_dom g_convert)). intros vals r H; destruct vals as [|a [|b [|]]]; try discriminate; exists a; split; auto; exact H.
  - apply (U _ _ (gather_dom (g_reshape new_sizes))). intros vals r H; destruct vals as [|a [|b [|]]]; try discriminate; exists a; split; auto; exact H.
  - apply (U _ _ (gather_dom (g_reduce_sum axes))). intros vals r H; destruct vals as [|a [|b [|]]]; try discriminate; exists a; split; auto; exact H.
  - apply (U _ _ (gather_dom (g_reduce_window_sum ws))). intros vals r H; destruct vals as [|a [|b [|]]]; try discriminate; exists a; split; auto; exact H.
  - apply (U _ _ (gather_dom (g_squeeze dims))). intros vals r H; destruct vals as [|a [|b [|]]]; try discriminate; exists a; split; auto; exact H.
  - apply (U _ _ (gather_dom (g_transpose perm))). intros vals r H; destruct vals as [|a [|b [|]]]; try discriminate; exists a; split; auto; exact H.
Qed.

(** One equation. *)
Fixpoint mstore (d : list (nat * inter mag)) (outs : list jvar) (vals : list (inter mag)) : list (nat * inter mag) :=
  match outs, vals with
  | v :: outs', i :: vals' => mstore (match v with Var n => (n, i) :: d | _ => d end) outs' vals'
  | _, _ => d
  end.
Lemma store_dom xs outs : forall d d' vals vals' e, domd d d' -> Forall2 domi vals vals' -> store xs d outs vals = Ok e -> domd e (mstore d' outs vals').
Proof.
  induction outs as [|v outs IH]; intros d d' vals vals' e Hd Hv H; destruct Hv as [|i i' vals vals' Hi Hv]; try discriminate.
  - injection H as <-. exact Hd.
  - cbn [store mstore] in *. destruct v as [n|n|]; [|discriminate|eapply IH; eauto].
    destruct (dlookup d n); [discriminate|]. apply bind_ok in H. destruct H as (? & _ & H). eapply IH; [|exact Hv|exact H]. constructor; auto. split; auto.
Qed.
Lemma step_bd sc gs D prop xs lits tr' o d' : bounded_prim sc gs (odata o) ->
  exists e', forall tr d e, dom2 tr tr' -> domd d d' -> step sc gs (mkArith D tr) (mkArith 0 tr) prop xs lits d o = Ok e -> domd e e'.
Proof.
  intros HP. set (m' := mapM (get_intermediate (fun n => tmag (lits n)) d') (oins o)). set (args' := match m' with Ok a => a | Err _ => [] end).
  destruct (pushforward_bd sc gs D tr' (odata o) args' HP) as (E & HE).
  destruct (out_region_bd sc gs tr' (odata o) args' E HP) as (T & HT).
  set (cv := mapM constant_value args'). destruct (prim_eval_bd sc gs (odata o) (match cv with Ok a => a | Err _ => [] end) HP) as (rs & Hrs).
  exists (mstore d' (oouts o) (if existsb (fun i => negb (is_constant i)) args' then [Inter E (if prop then Some T else None)] else map constant_inter rs)).
  intros tr d e Ht Hd H. unfold step in H. apply bind_ok in H. destruct H as (args & Ha & H). apply bind_ok in H. destruct H as (outs & Ho & H).
  assert (HA : Forall2 domi args args').
  { assert (F : follows (Forall2 domi) (mapM (get_intermediate lits d) (oins o)) m'). { apply (f_mapM eq); [apply Forall2_refl'; auto|]. intros v v' <-. apply get_dom; auto. }
    destruct (F _ Ha) as (b & Eb & K). unfold args'. rewrite Eb. exact K. }
  assert (EC : existsb (fun i => negb (is_constant i)) args = existsb (fun i => negb (is_constant i)) args').
  { clear -HA. induction HA; cbn [existsb]; auto. rewrite IHHA. f_equal. f_equal. apply is_constant_dom; auto. }
  refine (store_dom xs (oouts o) d d' outs _ e Hd _ H). rewrite <- EC. destruct (existsb _ args).
  - apply bind_ok in Ho. destruct Ho as (en & He & Ho). destruct (negb _); [discriminate|]. apply bind_ok in Ho. destruct Ho as (r & Hr & Ho). injection Ho as <-.
    assert (HE' : dome en E) by (apply (HE (tr, args)); auto).
    constructor; [|constructor]. split; cbn; auto. destruct prop.
    + apply bind_ok in Hr. destruct Hr as (r0 & Hr & Hr'). injection Hr' as <-. apply (HT (tr, args, en) r0); auto.
    + injection Hr as <-. auto.
  - apply bind_ok in Ho. destruct Ho as (vals & Hv & Ho). apply bind_ok in Ho. destruct Ho as (rr & Hr & Ho). injection Ho as <-.
    assert (HV : Forall2 dom vals (match cv with Ok a => a | Err _ => [] end)).
    { assert (F : follows (Forall2 dom) (mapM constant_value args) cv) by (apply (f_mapM domi); auto; intros; apply constant_value_dom; auto).
      destruct (F _ Hv) as (b & Eb & K). rewrite Eb. exact K. }
    specialize (Hrs vals rr HV Hr). clear -Hrs. induction Hrs; cbn [map]; constructor; auto using constant_dom.
Qed.

(** All equations. *)
Lemma steps_bd sc gs D prop xs lits tr' ops : (forall o, In o ops -> bounded_prim sc gs (odata o)) -> forall d',
  exists e', forall tr d e, dom2 tr tr' -> domd d d' -> foldM (step sc gs (mkArith D tr) (mkArith 0 tr) prop xs lits) d ops = Ok e -> domd e e'.
Proof.
  induction ops as [|o ops IH]; intros HP d'.
  - exists d'. intros tr d e _ Hd H. injection H as <-. exact Hd.
  - destruct (step_bd sc gs D prop xs lits tr' o d') as (d1 & H1); [apply HP; left; auto|]. destruct (IH (fun o' Ho => HP o' (or_intror Ho)) d1) as (e' & H2). exists e'.
    intros tr d e Ht Hd H. cbn [foldM] in H. apply bind_ok in H. destruct H as (dm & Hm & H). eapply H2; eauto.
Qed.
