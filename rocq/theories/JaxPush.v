(** Soundness of the pushforward function of every primitive. *)
From Coq Require Import Reals Lra Psatz.
From Verif Require Import Base Tensor IntervalArith Polynomials Enclosure TensorLemmas Spec IntervalProofs PowerProofs PolyProofs Graded
  EnclosureOps EnclosureProofs BilinearProofs ComposeProofs PropEnclosure PropDegree JaxBound JaxSpec JaxLemmas JaxIndex JaxGather.
Open Scope R_scope.

(** ** Pass-through primitives *)
Lemma rep_nil_cases (X : list nat) i n m : length (X) = n -> m = (m + length (rep i X))%nat -> rep i X = [].
Proof. intros _ H. assert (length (rep i X) = 0%nat) by lia. destruct (rep i X); [auto|discriminate]. Qed.

Definition lin_ok (X : list nat) (L : nat) (g : gather_op) (Su S' : list nat) : Prop :=
  (forall s, valid S' s -> Forall (valid Su) (g_src g Su s)) /\
  (forall i, (i < L)%nat -> batches X Su S' (fun _ => g) (g_src g Su) i).

Lemma batches0 X Su S' g : g_shape g Su = Ok S' -> batches X Su S' (fun _ => g) (g_src g Su) 0.
Proof.
  intros H sh Hsh. simpl in *. rewrite app_nil_r in *. split; [congruence|]. intros s I _ HI. apply valid_nil in HI. subst I. rewrite !app_nil_r.
  symmetry. erewrite map_ext; [apply map_id|]. intros; apply app_nil_r.
Qed.
Lemma batches_nil X Su S' g i : g_shape g Su = Ok S' -> rep i X = [] -> batches X Su S' (fun _ => g) (g_src g Su) i.
Proof. intros H E sh Hsh. rewrite E in *. exact (batches0 X Su S' g H sh Hsh). Qed.

Lemma lin_convert X L Su : lin_ok X L g_convert Su Su.
Proof.
  split; [intros s Hs; repeat constructor; auto|]. intros i _ sh H. simpl in *. injection H as <-. split; auto.
Qed.
Lemma lin_reduce_sum X L axes Su S' : g_shape (g_reduce_sum axes) Su = Ok S' -> lin_ok X L (g_reduce_sum axes) Su S'.
Proof.
  intros H. simpl in H. destruct (_ && _) eqn:E; [|discriminate]. injection H as <-. apply andb_prop in E. destruct E as [E _].
  pose proof (forallb_lt_In _ _ E) as HA. split.
  - intros s Hs. simpl. apply Forall_forall. intros J HJ. apply in_map_iff in HJ. destruct HJ as (K & <- & HK). apply all_idx_valid in HK.
    apply fill_valid; auto. apply K_bound; auto.
  - intros i _ sh Hsh. cbn [g_shape g_src g_reduce_sum] in *. destruct (_ && _); [|discriminate]. injection Hsh as <-.
    rewrite drop_axes_app by auto. split; auto. intros s I Hs HI. rewrite map_nth_app by auto. rewrite map_map. apply map_ext. intros K.
    rewrite app_length. apply fill_app; auto using valid_length.
Qed.
Lemma lin_squeeze X L dims Su S' : g_shape (g_squeeze dims) Su = Ok S' -> lin_ok X L (g_squeeze dims) Su S'.
Proof.
  intros H. simpl in H. destruct (_ && _) eqn:E; [|discriminate]. injection H as <-. apply andb_prop in E. destruct E as [E _].
  rewrite forallb_forall in E.
  assert (HA : forall a, In a dims -> (a < length Su)%nat) by (intros a Ha; apply E, andb_prop in Ha; destruct Ha as [Ha _]; apply Nat.ltb_lt; auto).
  split.
  - intros s Hs. simpl. constructor; [|constructor]. apply fill_valid; auto. intros i Hi Ha. simpl in *.
    apply E, andb_prop in Ha. destruct Ha as [_ Ha]. apply Nat.eqb_eq in Ha. rewrite Ha. destruct (index_of i dims); simpl; lia.
  - intros i _ sh Hsh. cbn [g_shape g_src g_squeeze] in *. destruct (_ && _); [|discriminate]. injection Hsh as <-.
    rewrite drop_axes_app by auto. split; auto. intros s I Hs HI. simpl. f_equal.
    rewrite app_length. apply fill_app; auto using valid_length.
Qed.
Lemma lin_transpose X L perm Su S' : g_shape (g_transpose perm) Su = Ok S' -> lin_ok X L (g_transpose perm) Su S'.
Proof.
  intros H. pose proof H as H0. simpl in H. destruct (_ && _) eqn:E; [|discriminate]. injection H as <-. apply andb_prop in E. destruct E as [E E2].
  apply andb_prop in E. destruct E as [E0 E1]. apply Nat.eqb_eq in E0. split.
  - intros s Hs. simpl. constructor; [|constructor]. apply transpose_valid; auto using nodupb_NoDup. apply forallb_lt_In; auto.
  - intros i _ sh Hsh. pose proof Hsh as Hsh0. simpl in Hsh. destruct (_ && _) eqn:E' in Hsh; [|discriminate]. apply andb_prop in E'. destruct E' as [E' _].
    apply andb_prop in E'. destruct E' as [E' _]. apply Nat.eqb_eq in E'. rewrite app_length in E'.
    refine (batches_nil X Su _ _ i H0 _ sh Hsh0). eapply rep_nil_cases; eauto. rewrite <- E' at 1. rewrite E0. reflexivity.
Qed.
Lemma lin_window X L ws Su S' : g_shape (g_reduce_window_sum ws) Su = Ok S' -> lin_ok X L (g_reduce_window_sum ws) Su S'.
Proof.
  intros H. pose proof H as H0. simpl in H. destruct (_ && _) eqn:E; [|discriminate]. injection H as <-. apply andb_prop in E. destruct E as [E E2].
  apply Nat.eqb_eq in E. split.
  - intros s Hs. simpl. apply w_srcs_valid; auto. apply valid_length in Hs. rewrite map2_length in Hs. lia.
  - intros i _ sh Hsh. pose proof Hsh as Hsh0. simpl in Hsh. destruct (_ && _) eqn:E' in Hsh; [|discriminate]. apply andb_prop in E'. destruct E' as [E' _].
    apply Nat.eqb_eq in E'. rewrite app_length in E'.
    refine (batches_nil X Su _ _ i H0 _ sh Hsh0). eapply rep_nil_cases; eauto. rewrite <- E' at 1. rewrite E. reflexivity.
Qed.
Lemma lin_reshape X L new Su S' : (exists s, valid Su s) -> (length X <= 1)%nat -> (X = [1%nat] -> (L <= 1)%nat) ->
  g_shape (g_reshape new) Su = Ok S' -> lin_ok X L (g_reshape new) Su S'.
Proof.
  intros [s0 Hs0] LX HX H. pose proof H as H0. simpl in H. destruct (Nat.eqb_spec (prod Su) (prod new)) as [E|]; [|discriminate]. injection H as <-.
  pose proof (prod_pos _ _ Hs0) as HP. split.
  - intros s Hs. simpl. constructor; [|constructor]. apply unravel_valid. rewrite E. apply ravel_lt; auto.
  - intros i Hi sh Hsh. pose proof Hsh as Hsh0. simpl in Hsh. destruct (Nat.eqb_spec (prod (Su ++ rep i X)) (prod new)) as [E'|]; [|discriminate].
    rewrite prod_app, <- E in E'. assert (E1 : prod (rep i X) = 1%nat) by nia.
    refine (batches_nil X Su _ _ i H0 _ sh Hsh0).
    destruct i as [|i]; auto. destruct X as [|n [|]]; simpl in LX; try lia.
    + clear. simpl. induction i; simpl; auto.
    + simpl in E1. change (n * prod (rep i [n]) = 1)%nat in E1. apply Nat.eq_mul_1 in E1. destruct E1 as [-> _]. specialize (HX eq_refl). lia.
Qed.

Lemma gather_ok {T} {N : Num T} g (u v : tensor T) : gather g u = Ok v ->
  g_shape g (tshape u) = Ok (tshape v) /\ forall I, tdata v I = fold_right nadd n0 (map (tdata u) (g_src g (tshape u) I)).
Proof. intros H. unfold gather in H. ok_inv. subst. split; auto. Qed.

Lemma gather_push X g u v e e' z : (exists s, valid (tshape u) s) -> gather g u = Ok v ->
  lin_ok X (length e) g (tshape u) (tshape v) ->
  encloses (full (tshape u)) X (tshape u) e z (tdata u) -> map_over_enclosure e (gather g) = Ok e' ->
  encloses (full (tshape v)) X (tshape v) e' z (tdata v).
Proof.
  intros Hne Hg [H1 H2] He H. destruct (gather_ok _ _ _ Hg) as [Hs Hd].
  eapply encloses_ext; [intros s Hv; symmetry; apply Hd|].
  exact (maps_sound X (tshape u) (tshape v) z (fun _ => g) (g_src g (tshape u)) H1 e e' _ Hne (map_over_maps _ _ 0 _ H) H2 He).
Qed.

Lemma mapM_length {A B} (f : A -> res B) l : forall l', mapM f l = Ok l' -> length l' = length l.
Proof. induction l; intros l' H; cbn [mapM] in H; [injection H as <-; auto|]. ok_inv. subst. simpl. f_equal. auto. Qed.
Lemma mapM_nth {A B} (f : A -> res B) l : forall l' i y, mapM f l = Ok l' -> nth_error l' i = Some y -> exists x, nth_error l i = Some x /\ f x = Ok y.
Proof.
  induction l; intros l' i y H Hi; cbn [mapM] in H; [injection H as <-; destruct i; discriminate|]. ok_inv. subst.
  destruct i; simpl in *; [injection Hi as <-; eauto|eauto].
Qed.
Lemma map_coef_arr {T} f (c c' : coef T) : map_coef f c = Ok c' -> (exists t, c = Arr t) -> exists t, c' = Arr t.
Proof. intros H [t ->]. simpl in H. ok_inv. subst. eauto. Qed.
Lemma map_over_plain {T} f (e e' : list (coef T)) D : map_over_enclosure e f = Ok e' -> plain_below D e -> plain_below D e'.
Proof.
  intros H HP i c Hi Hc. destruct (mapM_nth _ _ _ _ _ H Hc) as (x & Hx & Hf). eapply map_coef_arr; eauto.
Qed.

(** broadcast_in_dim. *)
Lemma broadcast_push X shape bd u v e e' z : (exists s, valid (tshape u) s) -> gather (g_broadcast_in_dim shape bd) u = Ok v ->
  encloses (full (tshape u)) X (tshape u) e z (tdata u) -> push_broadcast shape bd e = Ok e' ->
  length e' = length e /\ encloses (full (tshape v)) X (tshape v) e' z (tdata v).
Proof.
  intros Hne Hg He H. destruct (gather_ok _ _ _ Hg) as [Hs Hd]. set (Su := tshape u) in *.
  pose proof Hs as Hs0. cbn [g_shape g_broadcast_in_dim] in Hs. destruct (_ && _) eqn:E; [|discriminate]. injection Hs as Hs.
  apply andb_prop in E. destruct E as [E E3]. apply andb_prop in E. destruct E as [E E2]. apply andb_prop in E. destruct E as [E1 _].
  apply Nat.eqb_eq in E1. pose proof (forallb_lt_In _ _ E2) as HA.
  unfold push_broadcast in H. apply bind_ok in H. destruct H as (x0 & Hx0 & H). apply bind_ok in H. destruct H as (xs & Hxs & H).
  pose proof (full_wfs X Su z e _ Hne He) as HW.
  assert (Hx : (1 < length e)%nat -> xs = X).
  { destruct e as [|c0 [|c1 e]]; simpl; try lia. intros _. injection Hx0 as <-.
    pose proof (HW 0%nat c0 eq_refl) as W0. pose proof (HW 1%nat c1 eq_refl) as W1. simpl in W0, W1. rewrite !app_nil_r in *.
    destruct c1 as [t|]; [|discriminate]. injection Hxs as <-. simpl in W1. rewrite W1. unfold tndim.
    change (left_end c0) with (lo c0). rewrite (wfs_lo _ _ W0). apply skipn_exact. auto. }
  split; [apply mapM_length in H; rewrite H; clear; unfold enumerate; generalize 0%nat; induction e; simpl; auto|].
  eapply encloses_ext; [intros s Hv; symmetry; apply Hd|].
  apply (maps_sound X Su (tshape v) z (fun i => g_broadcast_in_dim (shape ++ rep i xs) bd) (g_src (g_broadcast_in_dim shape bd) Su)) with (e := e); auto.
  - intros s Hv. simpl. constructor; [|constructor]. apply bcast_in_dim_valid with (shape := shape); auto. rewrite Hs. auto.
  - apply (enumerate_maps (fun i => g_broadcast_in_dim (shape ++ rep i xs) bd)). exact H.
  - intros i Hi sh Hsh. cbn [g_shape g_broadcast_in_dim] in Hsh. destruct (_ && _) eqn:E' in Hsh; [|discriminate]. injection Hsh as <-.
    apply andb_prop in E'. destruct E' as [E' _]. apply andb_prop in E'. destruct E' as [E' _]. apply andb_prop in E'. destruct E' as [E' _].
    apply Nat.eqb_eq in E'. rewrite app_length in E'.
    assert (EX : rep i X = []) by (eapply rep_nil_cases; eauto; rewrite <- E' at 1; rewrite E1; reflexivity).
    assert (Exs : rep i xs = []).
    { destruct i as [|i]; auto. rewrite Hx by lia. auto. }
    rewrite EX, Exs, !app_nil_r. split; auto. intros s I _ HI. apply valid_nil in HI. subst I. simpl. rewrite !app_nil_r. reflexivity.
Qed.
