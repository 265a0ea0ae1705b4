(** Index arithmetic of the jax.lax primitives. *)
From Verif Require Import Base Tensor TensorLemmas JaxBound JaxSpec.

Lemma memb_In j l : memb j l = true <-> In j l.
Proof. unfold memb. rewrite existsb_exists. split; [intros (x & H & E); apply Nat.eqb_eq in E; subst; auto|intros H; exists j; rewrite Nat.eqb_refl; auto]. Qed.
Lemma memb_false j l : memb j l = false <-> ~ In j l.
Proof. rewrite <- memb_In. destruct (memb j l); split; congruence. Qed.
Lemma nodupb_NoDup l : nodupb l = true -> NoDup l.
Proof.
  induction l; simpl; [constructor|]. intros H. apply andb_prop in H. destruct H as [H1 H2]. constructor; auto.
  apply negb_true_iff, memb_false in H1. auto.
Qed.
Lemma index_of_lt j l : In j l -> index_of j l < length l.
Proof. induction l; simpl; [tauto|]. intros H. destruct (Nat.eqb_spec a j); [lia|]. destruct H; [congruence|]. apply IHl in H. lia. Qed.
Lemma nth_index_of j l d : In j l -> nth (index_of j l) l d = j.
Proof. induction l; simpl; [tauto|]. intros H. destruct (Nat.eqb_spec a j); auto. destruct H; [congruence|]. auto. Qed.
Lemma index_of_app1 j l m : In j l -> index_of j (l ++ m) = index_of j l.
Proof. induction l; simpl; [tauto|]. intros H. destruct (Nat.eqb_spec a j); auto. destruct H; [congruence|]. f_equal. auto. Qed.
Lemma index_of_app2 j l m : ~ In j l -> index_of j (l ++ m) = length l + index_of j m.
Proof. induction l; simpl; auto. intros H. destruct (Nat.eqb_spec a j); [tauto|]. rewrite IHl by tauto. auto. Qed.
Lemma index_of_nth l k : NoDup l -> k < length l -> index_of (nth k l 0) l = k.
Proof.
  intros H; revert k; induction H as [|x l Hx H IH]; intros [|k] Hk; simpl in *; try lia.
  - rewrite Nat.eqb_refl; auto.
  - destruct (Nat.eqb_spec x (nth k l 0)) as [E|_]; [|rewrite IH; auto; lia]. exfalso. apply Hx. rewrite E. apply nth_In. lia.
Qed.
Lemma forallb_lt_In n l : forallb (fun j => j <? n) l = true -> forall a, In a l -> a < n.
Proof. intros H a Ha. rewrite forallb_forall in H. apply H in Ha. apply Nat.ltb_lt in Ha. auto. Qed.

(** ** drop_axes and fill *)
Lemma drop_axes_app j axes l r : (forall a, In a axes -> a < j + length l) -> drop_axes j axes (l ++ r) = drop_axes j axes l ++ r.
Proof.
  revert j; induction l as [|x l IH]; intros j H; simpl in *.
  - revert j H. induction r as [|y r IH]; intros j H; simpl; auto.
    destruct (memb j axes) eqn:E; [apply memb_In, H in E; lia|]. f_equal. apply IH. intros a Ha. apply H in Ha. lia.
  - rewrite IH by (intros a Ha; apply H in Ha; lia). destruct (memb j axes); auto.
Qed.
Lemma fill_app axes K l m : forall j s I, (forall a, In a axes -> a < j + length l) -> length s = length (drop_axes j axes l) -> length I = m ->
  fill j (length l + m) axes K (s ++ I) = fill j (length l) axes K s ++ I.
Proof.
  induction l as [|x l IH]; intros j s I H Ls LI; cbn [length] in *.
  - simpl in Ls. destruct s; [|discriminate]. simpl. revert j I LI H. induction m as [|m IHm]; intros j I LI H; simpl.
    + destruct I; [auto|discriminate].
    + destruct (memb j axes) eqn:E; [apply memb_In, H in E; lia|]. destruct I as [|i I]; [discriminate|]. simpl in *. f_equal.
      apply IHm; [lia|]. intros a Ha. apply H in Ha. lia.
  - simpl. simpl in Ls. destruct (memb j axes) eqn:E.
    + simpl. f_equal. apply IH; auto. intros a Ha. apply H in Ha. lia.
    + destruct s as [|i s]; [discriminate|]. simpl in *. f_equal. apply IH; auto. intros a Ha. apply H in Ha. lia.
Qed.
Lemma fill_length j n axes K I : length (fill j n axes K I) = n.
Proof. revert j I; induction n; intros; simpl; auto. destruct (memb j axes); simpl; auto. Qed.
Lemma fill_valid axes K l : forall j s, (forall i, i < length l -> In (j + i) axes -> nth (index_of (j + i) axes) K 0 < nth i l 0) ->
  valid (drop_axes j axes l) s -> valid l (fill j (length l) axes K s).
Proof.
  induction l as [|x l IH]; intros j s HK Hs; simpl in *; [constructor|].
  assert (HK' : forall i, i < length l -> In (S j + i) axes -> nth (index_of (S j + i) axes) K 0 < nth i l 0).
  { intros i Hi Ha. specialize (HK (S i)). replace (j + S i) with (S j + i) in HK by lia. apply HK; auto. lia. }
  destruct (memb j axes) eqn:E.
  - constructor; [|apply IH; auto]. apply memb_In in E. specialize (HK 0). rewrite Nat.add_0_r in HK. apply HK; auto. lia.
  - apply valid_cons in Hs. destruct Hs as (i & s' & -> & Hi & Hs). simpl. constructor; [auto|apply IH; auto].
Qed.
Lemma K_bound axes Su K : (forall a, In a axes -> a < length Su) -> valid (map (fun j => nth j Su 0) axes) K ->
  forall i, i < length Su -> In (0 + i) axes -> nth (index_of (0 + i) axes) K 0 < nth i Su 0.
Proof.
  intros HA HK i Hi Ha. simpl in *. pose proof (index_of_lt _ _ Ha) as L. pose proof (nth_index_of i axes 0 Ha) as E.
  unfold valid in HK. assert (G : forall k, k < length axes -> nth k K 0 < nth k (map (fun j => nth j Su 0) axes) 0).
  { clear -HK. remember (map (fun j => nth j Su 0) axes) as M. assert (LM : length M = length axes) by (subst; apply map_length).
    rewrite <- LM. clear HeqM LM. induction HK; intros [|k] Hk; simpl in *; try lia. apply IHHK. lia. }
  specialize (G _ L). rewrite (nth_indep (map _ _) 0 (nth 0 Su 0)) in G by (rewrite map_length; auto).
  rewrite (map_nth (fun j => nth j Su 0)) in G. rewrite E in G. exact G.
Qed.
Lemma map_nth_app axes (Su r : list nat) : (forall a, In a axes -> a < length Su) -> map (fun j => nth j (Su ++ r) 0) axes = map (fun j => nth j Su 0) axes.
Proof. intros H. apply map_ext_in. intros a Ha. apply app_nth1. auto. Qed.

(** ** ravel and unravel *)
Lemma prod_app a b : prod (a ++ b) = prod a * prod b.
Proof. unfold prod. induction a; simpl; [lia|]. rewrite IHa. lia. Qed.
Lemma prod_pos sh I : valid sh I -> 0 < prod sh.
Proof. induction 1; simpl; [unfold prod; simpl; lia|]. change (0 < y * prod l'). nia. Qed.
Lemma ravel_lt sh : forall I, valid sh I -> ravel sh I < prod sh.
Proof.
  induction sh as [|n sh IH]; intros I H; simpl; [unfold prod; simpl; lia|].
  apply valid_cons in H. destruct H as (i & J & -> & Hi & HJ). specialize (IH _ HJ). change (i * prod sh + ravel sh J < n * prod sh). nia.
Qed.
Lemma unravel_valid sh : forall k, k < prod sh -> valid sh (unravel sh k).
Proof.
  induction sh as [|n sh IH]; intros k H; simpl; [constructor|]. change (k < n * prod sh) in H.
  assert (prod sh <> 0) by (intros E; rewrite E in H; lia).
  constructor; [apply Nat.div_lt_upper_bound; lia|]. apply IH. apply Nat.mod_upper_bound. auto.
Qed.
Lemma ravel_unravel sh : forall k, k < prod sh -> ravel sh (unravel sh k) = k.
Proof.
  induction sh as [|n sh IH]; intros k H; simpl; [unfold prod in H; simpl in H; lia|]. change (k < n * prod sh) in H.
  assert (prod sh <> 0) by (intros E; rewrite E in H; lia). rewrite IH by (apply Nat.mod_upper_bound; auto).
  change (fold_right Nat.mul 1 sh) with (prod sh). rewrite (Nat.div_mod k (prod sh)) at 3 by auto. lia.
Qed.

(** ** transpose *)
Lemma perm_all perm n : length perm = n -> (forall a, In a perm -> a < n) -> NoDup perm -> forall j, j < n -> In j perm.
Proof.
  intros L H ND j Hj. assert (incl (seq 0 n) perm).
  { apply NoDup_length_incl; auto; [rewrite seq_length; lia|]. intros a Ha. apply in_seq. apply H in Ha. lia. }
  apply H0. apply in_seq. lia.
Qed.
Lemma valid_nth sh I : length I = length sh -> (forall k, k < length sh -> nth k I 0 < nth k sh 0) -> valid sh I.
Proof.
  revert I; induction sh as [|n sh IH]; intros [|i I] L H; simpl in *; try lia; [constructor|]. constructor.
  - apply (H 0). lia.
  - apply IH; [lia|]. intros k Hk. apply (H (S k)). lia.
Qed.
Lemma valid_nth_lt sh I k : valid sh I -> k < length sh -> nth k I 0 < nth k sh 0.
Proof. intros H; revert k; induction H; intros [|k] Hk; simpl in *; try lia. apply IHForall2. lia. Qed.
Lemma transpose_valid perm Su s : length perm = length Su -> (forall a, In a perm -> a < length Su) -> NoDup perm ->
  valid (map (fun j => nth j Su 0) perm) s -> valid Su (map (fun j => nth (index_of j perm) s 0) (seq 0 (length Su))).
Proof.
  intros L H ND Hs. apply valid_nth; [rewrite map_length, seq_length; auto|]. intros k Hk.
  rewrite (nth_indep (map _ _) 0 (nth (index_of 0 perm) s 0)) by (rewrite map_length, seq_length; auto).
  rewrite (map_nth (fun j => nth (index_of j perm) s 0)), seq_nth by auto. simpl.
  pose proof (perm_all perm _ L H ND k Hk) as Hin. pose proof (index_of_lt _ _ Hin) as Hlt.
  pose proof (valid_nth_lt _ _ (index_of k perm) Hs ltac:(rewrite map_length; auto)) as G.
  rewrite (nth_indep (map _ _) 0 (nth 0 Su 0)) in G by (rewrite map_length; auto). rewrite (map_nth (fun j => nth j Su 0)), nth_index_of in G by auto. auto.
Qed.

(** ** reduce_window_sum *)
Lemma w_src_lt n w i p : In p (w_src n w i) -> p < n.
Proof.
  unfold w_src. rewrite in_flat_map. intros (k & _ & H). destruct (_ <? _); [destruct H|].
  destruct (_ && _) eqn:E; [|destruct H]. apply andb_prop in E. destruct E as [_ E]. apply Nat.ltb_lt in E. destruct H as [<-|[]]. auto.
Qed.
Lemma w_srcs_valid Su : forall ws s, length ws = length Su -> length s = length Su -> Forall (valid Su) (w_srcs Su ws s).
Proof.
  induction Su as [|n Su IH]; intros [|w ws] [|i s] L L'; simpl in *; try discriminate; [constructor; [constructor|constructor]|].
  apply Forall_forall. intros J HJ. apply in_flat_map in HJ. destruct HJ as (p & Hp & HJ). apply in_map_iff in HJ.
  destruct HJ as (K & <- & HK). constructor; [eapply w_src_lt; eauto|].
  specialize (IH ws s ltac:(lia) ltac:(lia)). rewrite Forall_forall in IH. apply IH; auto.
Qed.

(** ** broadcast_in_dim *)
Lemma bcast_in_dim_valid shape s : forall Su bdims, length bdims = length Su -> (forall a, In a bdims -> a < length shape) ->
  forallb (fun '(n, j) => (n =? 1) || (n =? nth j shape 0)) (combine Su bdims) = true -> valid shape s ->
  valid Su (map (fun '(n, j) => if n =? 1 then 0 else nth j s 0) (combine Su bdims)).
Proof.
  induction Su as [|n Su IH]; intros [|j bd] L HA HF Hs; simpl in *; try discriminate; [constructor|].
  apply andb_prop in HF. destruct HF as [H1 H2]. constructor; [|apply IH; auto].
  destruct (Nat.eqb_spec n 1); [lia|]. simpl in H1. apply Nat.eqb_eq in H1. rewrite H1.
  apply valid_nth_lt; auto. 
Qed.
