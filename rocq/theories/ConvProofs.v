(** Convolutions are sums of products of entries. *)
From Coq Require Import Reals Lra FunctionalExtensionality.
From Verif Require Import Base Tensor IntervalArith Polynomials Enclosure TensorLemmas Spec IntervalProofs EnclosureOps JaxBound JaxSpec JaxLemmas JaxIndex JaxGather JaxPush JaxDot ConvIndex.
Open Scope R_scope.

Definition conv_out (c : conv_params) (sa sb : list nat) : list nat :=
  match conv_check c sa sb with Ok d => conv_shape c d | Err _ => [] end.
Definition conv_terms (c : conv_params) (sa sb s : list nat) : list (R * (list nat * list nat)) :=
  match conv_check c sa sb with Ok d => map (fun K => (1, (fst K, snd K))) (conv_src c d s) | Err _ => [] end.

Lemma conv_ok_inv c (a b v : tensor R) : conv_general_dilated c a b = Ok v ->
  (exists d, conv_check c (tshape a) (tshape b) = Ok d) /\ tshape v = conv_out c (tshape a) (tshape b) /\
  forall s, tdata v s = wsum (conv_terms c (tshape a) (tshape b) s) (tdata a) (tdata b).
Proof.
  unfold conv_general_dilated, conv_out, conv_terms. intros H. apply bind_ok in H. destruct H as (d & Hd & H). rewrite Hd. injection H as <-.
  split; [eauto|]. split; [auto|]. intros s. cbn [tdata]. rewrite fold_Rsum, wsum_sumi. f_equal. apply map_ext. intros (ia & ib). reflexivity.
Qed.
Lemma conv_pos c sa sb : pos_terms sa sb (conv_out c sa sb) (conv_terms c sa sb).
Proof.
  intros s Hs. unfold conv_out, conv_terms in *. destruct (conv_check c sa sb) as [d|] eqn:E; [|constructor].
  pose proof (conv_src_ok c sa sb d s E Hs) as H. apply Forall_map. eapply Forall_impl; [|exact H]. intros (ia & ib) [H1 H2]. simpl. split; [lra|auto].
Qed.
Lemma conv_posop c sa sb : posop (conv_general_dilated c) sa sb (conv_out c sa sb) (conv_terms c sa sb).
Proof.
  split; [|apply conv_pos]. intros x y z Hx Hy H. apply conv_ok_inv in H. destruct H as (_ & S & E). rewrite Hx, Hy in *. auto.
Qed.
(** Whether it raises depends on the shapes only. *)
Lemma conv_total c (a b v u w : tensor R) : conv_general_dilated c a b = Ok v -> tshape u = tshape a -> tshape w = tshape b -> exists t, conv_general_dilated c u w = Ok t.
Proof.
  intros H Hu Hw. apply conv_ok_inv in H. destruct H as ((d & Hd) & _ & _). unfold conv_general_dilated. rewrite Hu, Hw, Hd. simpl. eauto.
Qed.
Lemma conv_rank c sa sb d : conv_check c sa sb = Ok d -> length (c_lhs_spec c) = length sa /\ length sa = length sb.
Proof.
  unfold conv_check. destruct (Nat.eqb_spec (length sa) (length sb)) as [EL|]; [|discriminate]. cbn [negb].
  match goal with |- context [negb ?x] => destruct x eqn:E; [|discriminate] end.
  repeat (apply andb_prop in E; let E' := fresh "E" in destruct E as [E E']). apply Nat.eqb_eq in E. auto.
Qed.

Lemma front_rank n (x y : tensor R) : move_last_to_front n x = Ok y -> n <> 0%nat -> length (tshape y) = S (length (tshape x) - n).
Proof.
  unfold move_last_to_front. intros H Hn. destruct (Nat.eqb_spec n 0); [congruence|]. destruct (Nat.ltb_spec (tndim x) n); [discriminate|].
  apply bind_ok in H. destruct H as (t & Ht & H). apply gather_ok in H. destruct H as [H _]. cbn [g_shape g_reshape] in H. destruct (_ =? _)%nat; [|discriminate].
  injection H as H. rewrite <- H. cbn [length]. rewrite firstn_length. unfold tndim. f_equal. lia.
Qed.
Lemma front_0 (x : tensor R) : move_last_to_front 0 x = Ok x.
Proof. reflexivity. Qed.

(** With batch axes the operands have a rank the parameters do not allow. *)
Lemma conv_pbb_raises c (a b v u w : tensor R) ra rb t : conv_general_dilated c a b = Ok v -> tshape u = tshape a ++ ra -> tshape w = tshape b ++ rb ->
  conv_pbb c u w (length ra) (length rb) = Ok t -> ra = [] /\ rb = [].
Proof.
  intros Hv Hu Hw H. apply conv_ok_inv in Hv. destruct Hv as ((d & Hd) & _ & _). apply conv_rank in Hd. destruct Hd as [R1 R2].
  unfold conv_pbb in H. apply bind_ok in H. destruct H as (u' & Hu' & H). apply bind_ok in H. destruct H as (w' & Hw' & H). apply bind_ok in H. destruct H as (r & Hr & _).
  apply conv_ok_inv in Hr. destruct Hr as ((d' & Hd') & _ & _). apply conv_rank in Hd'. destruct Hd' as [R3 R4].
  assert (Gu : length ra <> 0%nat -> length (tshape u') = S (length (tshape a))) by (intros N; rewrite (front_rank _ _ _ Hu' N), Hu, app_length; lia).
  assert (Gw : length rb <> 0%nat -> length (tshape w') = S (length (tshape b))) by (intros N; rewrite (front_rank _ _ _ Hw' N), Hw, app_length; lia).
  split; [destruct ra as [|]; [auto|]; exfalso; cbn [length] in Gu|destruct rb as [|]; [auto|]; exfalso; cbn [length] in Gw]; lia.
Qed.
Lemma conv_batched c a b v : conv_general_dilated c a b = Ok v ->
  pairwise_batched (tshape a) (tshape b) (tshape v) (conv_terms c (tshape a) (tshape b)) (conv_pbb c).
Proof.
  intros Hv ra rb u w t Hu Hw Ht. destruct (conv_pbb_raises c a b v u w ra rb t Hv Hu Hw Ht) as [-> ->]. rewrite !app_nil_r in *.
  apply conv_ok_inv in Hv. destruct Hv as (_ & Sv & _). unfold conv_pbb in Ht. cbn [length Nat.eqb andb] in Ht. rewrite !front_0 in Ht. cbn [bind] in Ht. apply bind_ok in Ht. destruct Ht as (r & Hr & Ht).
  injection Ht as <-. apply conv_ok_inv in Hr. destruct Hr as (_ & Sr & Er). rewrite Hu, Hw in *. split; [congruence|].
  intros s I J Hs HI HJ. apply valid_nil in HI, HJ. subst. simpl. rewrite app_nil_r, Er.
  assert (EE : forall (x : list nat -> R), (fun i => x (i ++ [])) = x) by (intros x; apply functional_extensionality; intros; rewrite app_nil_r; auto).
  rewrite !EE. reflexivity.
Qed.
