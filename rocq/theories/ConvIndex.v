(** Indices used by a convolution. *)
From Coq Require Import ZArith.
From Verif Require Import Base Tensor TensorLemmas JaxBound JaxIndex.

Lemma is_perm_spec l : is_perm l = true -> (forall j, In j l -> j < length l) /\ NoDup l.
Proof. unfold is_perm. intros H. apply andb_prop in H. destruct H as [H1 H2]. split; [apply forallb_lt_In; auto|apply nodupb_NoDup; auto]. Qed.

Lemma nth_map_seq (f : nat -> nat) n k : k < n -> nth k (map f (seq 0 n)) 0 = f k.
Proof. intros H. rewrite nth_indep with (d' := f 0) by (rewrite map_length, seq_length; auto). rewrite map_nth, seq_nth by auto. auto. Qed.
Lemma nth_to_spec spec l k : k < length spec -> nth k (to_spec spec l) 0 = nth (nth k spec 0) l 0.
Proof. intros H. unfold to_spec. rewrite nth_indep with (d' := nth 0 l 0) by (rewrite map_length; auto). exact (map_nth (fun j => nth j l 0) spec 0 k). Qed.
Lemma from_spec_length spec l : length (from_spec spec l) = length spec.
Proof. unfold from_spec. rewrite map_length, seq_length. auto. Qed.
Lemma to_spec_length spec l : length (to_spec spec l) = length spec.
Proof. unfold to_spec. rewrite map_length. auto. Qed.

Lemma to_spec_valid spec L I : is_perm spec = true -> length L = length spec -> valid (from_spec spec L) I -> valid L (to_spec spec I).
Proof.
  intros HP HL HV. apply is_perm_spec in HP. destruct HP as [H1 H2]. apply valid_nth; [rewrite to_spec_length; auto|]. intros k Hk. rewrite HL in Hk.
  rewrite nth_to_spec by auto. assert (J : nth k spec 0 < length spec) by (apply H1, nth_In; auto).
  pose proof (valid_nth_lt _ _ (nth k spec 0) HV) as V. rewrite from_spec_length in V. specialize (V J).
  unfold from_spec in V. rewrite nth_map_seq, index_of_nth in V by auto. auto.
Qed.
Lemma from_spec_valid spec S l : is_perm spec = true -> length S = length spec -> valid (to_spec spec S) l -> valid S (from_spec spec l).
Proof.
  intros HP HL HV. apply is_perm_spec in HP. destruct HP as [H1 H2]. apply valid_nth; [rewrite from_spec_length; auto|]. intros j Hj. rewrite HL in Hj.
  unfold from_spec. rewrite nth_map_seq by auto. assert (J : In j spec) by (apply (perm_all spec (length spec)); auto).
  pose proof (index_of_lt j spec J) as LT. pose proof (valid_nth_lt _ _ (index_of j spec) HV) as V. rewrite to_spec_length in V. specialize (V LT).
  rewrite nth_to_spec, nth_index_of in V by auto. auto.
Qed.

Lemma x_src_ok x i p k : In (p, k) (x_src x i) -> p < x_lhs x /\ k < x_rhs x.
Proof.
  unfold x_src. intros H. apply in_flat_map in H. destruct H as (k' & Hk & H). apply in_seq in Hk. cbv zeta in H.
  destruct (_ && _)%bool eqn:E in H; [|destruct H]. destruct H as [H|[]]. injection H as H ->. split; [|lia]. subst p.
  apply andb_prop in E. destruct E as [E E3]. apply andb_prop in E. destruct E as [E1 _]. apply Z.leb_le in E1. apply Z.ltb_lt in E3.
  set (q := (Z.of_nat _ - _)%Z) in *.
  assert (0 <= q / Z.of_nat (x_ldil x))%Z.
  { destruct (x_ldil x) eqn:D; [simpl; rewrite Zdiv_0_r; lia|]. apply Z.div_pos; lia. }
  lia.
Qed.
Lemma x_srcs_ok xs : forall i, length i = length xs -> Forall (fun '(P, K) => valid (map x_lhs xs) P /\ valid (map x_rhs xs) K) (x_srcs xs i).
Proof.
  induction xs as [|x xs IH]; intros [|i I] HL; try discriminate.
  - constructor; auto. split; constructor.
  - simpl. rewrite Forall_forall. intros (P & K) H. apply in_flat_map in H. destruct H as ((p & k) & H1 & H2). apply x_src_ok in H1. destruct H1 as [H1 H3].
    apply in_map_iff in H2. destruct H2 as ((P' & K') & E & H2). injection E as <- <-. injection HL as HL. specialize (IH I HL). rewrite Forall_forall in IH.
    specialize (IH _ H2). simpl in IH. destruct IH. split; constructor; auto.
Qed.
Lemma x_axes_ok L : forall K st pads ld rd xs, x_axes L K st pads ld rd = Some xs -> L = map x_lhs xs /\ K = map x_rhs xs.
Proof.
  induction L as [|l L IH]; intros K st pads ld rd xs H; destruct K, st, pads, ld, rd; simpl in H; try discriminate.
  - injection H as <-. auto.
  - destruct (x_axes L K st pads ld rd) as [xs'|] eqn:E; [|discriminate]. injection H as <-. apply IH in E. destruct E. simpl. split; congruence.
Qed.

Lemma block O g o : 0 < g -> O mod g = 0 -> o < O -> o / (O / g) < g.
Proof.
  intros Hg HM Ho. assert (E : O = g * (O / g)) by (apply Nat.div_exact; lia).
  assert (0 < O / g) by (destruct (O / g); [lia|lia]). apply Nat.div_lt_upper_bound; [lia|]. rewrite Nat.mul_comm, <- E. auto.
Qed.

(** Every product formed uses entries inside the operands. *)
Lemma conv_src_ok c sa sb d I : conv_check c sa sb = Ok d -> valid (conv_shape c d) I ->
  Forall (fun '(ia, ib) => valid sa ia /\ valid sb ib) (conv_src c d I).
Proof.
  unfold conv_check. intros H HV. destruct (Nat.eqb_spec (length sa) (length sb)) as [EL|]; [|discriminate]. cbn [negb] in H.
  match type of H with context [negb ?x] => destruct x eqn:E; [|discriminate] end. cbn [negb] in H.
  repeat (apply andb_prop in E; let E' := fresh "E" in destruct E as [E E']). apply Nat.eqb_eq in E. apply Nat.eqb_eq in E5. apply Nat.eqb_eq in E6. apply Nat.ltb_lt in E0, E1.
  destruct (to_spec (c_lhs_spec c) sa) as [|B [|C L]] eqn:EA; try discriminate. destruct (to_spec (c_rhs_spec c) sb) as [|F [|G K]] eqn:EB; try discriminate.
  destruct (x_axes _ _ _ _ _ _) as [xs|] eqn:EX; [|discriminate].
  match type of H with context [if ?x then _ else _] => destruct x eqn:EC; [|discriminate] end. injection H as <-.
  repeat (apply andb_prop in EC; let E' := fresh "EC" in destruct EC as [EC E']). apply Nat.eqb_eq in EC, EC4, EC3, EC2.
  destruct (x_axes_ok _ _ _ _ _ _ _ EX) as [XL XK]. unfold conv_shape in HV. cbn [d_batch d_out d_axes] in HV.
  assert (LL : length xs + 2 = length sa). { pose proof (to_spec_length (c_lhs_spec c) sa) as T. rewrite EA, XL in T. simpl in T. rewrite map_length in T. lia. }
  apply to_spec_valid in HV; auto; [|simpl; rewrite map_length; lia]. unfold conv_src. destruct (to_spec (c_out_spec c) I) as [|n [|o i]]; [inversion HV|inversion HV as [|? ? ? ? ? HV']; inversion HV'|].
  inversion HV as [|? ? ? ? Hn HV']; subst. inversion HV' as [|? ? ? ? Ho Hi]; subst. cbn [d_batch d_out d_in d_axes].
  assert (Li : length i = length xs) by (apply valid_length in Hi; rewrite map_length in Hi; auto).
  rewrite Forall_forall. intros (ia & ib) H. apply in_flat_map in H. destruct H as (k & Hk & H). apply in_seq in Hk. apply in_map_iff in H. destruct H as ((P & Q) & E' & H).
  injection E' as <- <-. pose proof (x_srcs_ok xs i Li) as FS. rewrite Forall_forall in FS. specialize (FS _ H). simpl in FS. destruct FS as [F1 F2].
  split; apply from_spec_valid; auto; try lia; [rewrite EA|rewrite EB].
  - constructor; [|constructor; auto].
    + pose proof (block F (c_batch_groups c) o E0 EC2 Ho). assert (B = c_batch_groups c * (B / c_batch_groups c)) by (apply Nat.div_exact; lia). nia.
    + pose proof (block F (c_feature_groups c) o E1 EC4 Ho). nia.
  - constructor; [auto|constructor; [lia|auto]].
Qed.
