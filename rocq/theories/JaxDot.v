(** dot_general and convolutions. *)
From Coq Require Import Reals Lra Psatz.
From Verif Require Import Base Tensor IntervalArith Polynomials Enclosure TensorLemmas Spec IntervalProofs PowerProofs PolyProofs Graded
  EnclosureOps EnclosureProofs BilinearProofs ComposeProofs PropEnclosure PropDegree JaxBound JaxSpec JaxLemmas JaxIndex JaxGather.
Open Scope R_scope.

Lemma sumn_Rsum n (f : nat -> R) : sumn n f = Rsum (map f (seq 0 n)).
Proof. induction n; simpl sumn; auto. rewrite seq_S, map_app, Rsum_app, IHn. simpl. ring. Qed.
Lemma sumi_Rsum sh (f : list nat -> R) : sumi sh f = Rsum (map f (all_idx sh)).
Proof.
  revert f; induction sh as [|n sh IH]; intros f; simpl; [ring|]. rewrite sumn_Rsum, Rsum_flat_map. apply Rsum_map_ext. intros i _.
  rewrite IH, map_map. reflexivity.
Qed.
Lemma wsum_sumi {B} (l : list B) (p q : B -> list nat) x y : wsum (map (fun K => (1, (p K, q K))) l) x y = Rsum (map (fun K => x (p K) * y (q K)) l).
Proof. induction l; simpl; auto. rewrite IHl. unfold Rsum; simpl. ring. Qed.

(** ** Transposition by blocks *)
Lemma map_nth_seq (L : list nat) k m : (k + m <= length L)%nat -> map (fun j => nth j L 0%nat) (seq k m) = firstn m (skipn k L).
Proof.
  revert k; induction m as [|m IH]; intros k H; [reflexivity|]. cbn [seq map]. rewrite IH by lia.
  assert (E : skipn k L = nth k L 0%nat :: skipn (S k) L).
  { clear -H. revert L H. induction k; intros [|x L] H; simpl in *; try lia; auto. rewrite IHk by lia. destruct L; reflexivity. }
  rewrite E. reflexivity.
Qed.
Lemma transpose_src (perm out idx : list nat) n : length idx = n -> (forall j, (j < n)%nat -> In j perm) ->
  out = map (fun j => nth j idx 0%nat) perm -> map (fun j => nth (index_of j perm) out 0%nat) (seq 0 n) = idx.
Proof.
  intros L HA ->. apply nth_ext with (d := 0%nat) (d' := 0%nat); [rewrite map_length, seq_length; auto|].
  intros k Hk. rewrite map_length, seq_length in Hk.
  rewrite (nth_indep (map _ (seq 0 n)) 0%nat (nth (index_of 0%nat perm) (map (fun j => nth j idx 0%nat) perm) 0%nat)) by (rewrite map_length, seq_length; auto).
  rewrite (map_nth (fun j => nth (index_of j perm) (map (fun j => nth j idx 0%nat) perm) 0%nat)), seq_nth by auto. simpl.
  specialize (HA k Hk). rewrite (nth_indep (map _ perm) 0%nat (nth 0 idx 0%nat)) by (rewrite map_length; apply index_of_lt; auto).
  rewrite (map_nth (fun j => nth j idx 0%nat)), nth_index_of; auto.
Qed.

Definition block_perm (a b c d : nat) : list nat := seq 0 a ++ seq (a + b) c ++ seq a b ++ seq (a + b + c) d.
Lemma block_perm_in a b c d j : (j < a + b + c + d)%nat -> In j (block_perm a b c d).
Proof.
  intros H. unfold block_perm. rewrite !in_app_iff, !in_seq.
  destruct (Nat.lt_ge_cases j a); [left; lia|]. destruct (Nat.lt_ge_cases j (a + b)); [right; right; left; lia|].
  destruct (Nat.lt_ge_cases j (a + b + c)); [right; left; lia|]. right; right; right; lia.
Qed.
Lemma block_perm_map (a b c d : list nat) : map (fun j => nth j (a ++ b ++ c ++ d) 0%nat) (block_perm (length a) (length b) (length c) (length d)) = a ++ c ++ b ++ d.
Proof.
  unfold block_perm. rewrite !map_app, !map_nth_seq by (rewrite !app_length; lia). f_equal; [|f_equal; [|f_equal]].
  - simpl. apply firstn_exact. auto.
  - rewrite (app_assoc a b), skipn_exact by (rewrite app_length; auto). apply firstn_exact; auto.
  - rewrite skipn_exact by auto. apply firstn_exact; auto.
  - rewrite !(app_assoc _ _ d), (app_assoc a b), skipn_exact by (rewrite !app_length; lia). apply firstn_all.
Qed.

(** ** dot_general *)
Section Dot.
Variables lc rc lb rb : list nat.
Definition dot_shape (Sa Sb : list nat) : list nat :=
  map (fun j => nth j Sa 0%nat) lb ++ drop_axes 0 (lb ++ lc) Sa ++ drop_axes 0 (rb ++ rc) Sb.
Definition dot_terms (Sa Sb s : list nat) : list (R * (list nat * list nat)) :=
  let fa := length (drop_axes 0 (lb ++ lc) Sa) in
  let B := firstn (length lb) s in
  let Ia := firstn fa (skipn (length lb) s) in
  let Ib := skipn (length lb + fa) s in
  map (fun K => (1, (fill 0 (length Sa) (lb ++ lc) (B ++ K) Ia, fill 0 (length Sb) (rb ++ rc) (B ++ K) Ib)))
      (all_idx (map (fun j => nth j Sa 0%nat) lc)).
Definition dot_dims_ok (Sa Sb : list nat) : Prop :=
  (forall a, In a (lb ++ lc) -> (a < length Sa)%nat) /\ (forall a, In a (rb ++ rc) -> (a < length Sb)%nat) /\
  NoDup (lb ++ lc) /\ NoDup (rb ++ rc) /\
  map (fun j => nth j Sa 0%nat) lb = map (fun j => nth j Sb 0%nat) rb /\
  map (fun j => nth j Sa 0%nat) lc = map (fun j => nth j Sb 0%nat) rc.

Lemma dot_ok (a b t : tensor R) : dot_general lc rc lb rb a b = Ok t ->
  dot_dims_ok (tshape a) (tshape b) /\ tshape t = dot_shape (tshape a) (tshape b) /\
  forall I, tdata t I = wsum (dot_terms (tshape a) (tshape b) I) (tdata a) (tdata b).
Proof.
  intros H. unfold dot_general in H. destruct (_ && _) eqn:E in H; [|discriminate]. injection H as <-.
  repeat (apply andb_prop in E; destruct E as [E ?]). split; [|split; [reflexivity|]].
  - apply shape_eqb_eq in H, H0. split; [|split; [|split; [|split; [|split; auto]]]].
    + intros a0 Ha. exact (forallb_lt_In _ _ E _ Ha).
    + intros a0 Ha. exact (forallb_lt_In _ _ H3 _ Ha).
    + apply nodupb_NoDup; auto.
    + apply nodupb_NoDup; auto.
  - intros I. cbn [tdata]. rewrite sumi_Rsum. unfold dot_terms. rewrite wsum_sumi. reflexivity.
Qed.

Lemma length_drop_axes axes l : forall j, NoDup axes -> (forall a, In a axes -> (j <= a < j + length l)%nat) ->
  (length (drop_axes j axes l) + length axes = length l)%nat.
Proof.
  assert (G : forall l j, (length (drop_axes j axes l) + length (filter (fun a => memb a axes) (seq j (length l))) = length l)%nat).
  { clear l. induction l as [|x l IH]; intros j; simpl; auto. specialize (IH (S j)). destruct (memb j axes); simpl; lia. }
  intros j ND HA. rewrite <- (G l j). f_equal.
  apply Permutation.Permutation_length. apply Permutation.NoDup_Permutation; auto; [apply NoDup_filter, seq_NoDup|].
  intros a. rewrite filter_In, memb_In, in_seq. split; [intros H; auto|tauto].
Qed.

Variables Sa Sb : list nat.
Hypothesis HD : dot_dims_ok Sa Sb.

Lemma dot_pos_terms : pos_terms Sa Sb (dot_shape Sa Sb) (dot_terms Sa Sb).
Proof.
  destruct HD as (HA & HB & _ & _ & E1 & E2). intros s Hs. unfold dot_shape in Hs.
  apply valid_app_inv in Hs. destruct Hs as (B & s' & -> & VB & Hs). apply valid_app_inv in Hs. destruct Hs as (sa & sb & -> & Va & Vb).
  pose proof (valid_length _ _ VB) as LB. rewrite map_length in LB. pose proof (valid_length _ _ Va) as La.
  unfold dot_terms. rewrite firstn_exact, (skipn_exact B), firstn_exact by auto.
  rewrite (app_assoc B sa), skipn_exact by (rewrite app_length; lia).
  apply Forall_forall. intros (w, (ia, ib)) H. apply in_map_iff in H. destruct H as (K & [= <- <- <-] & HK). apply all_idx_valid in HK.
  split; [lra|]. split; apply fill_valid; auto; apply K_bound; auto; rewrite map_app.
  - apply valid_app; auto.
  - rewrite <- E1, <- E2. apply valid_app; auto.
Qed.

Lemma dedup_length l : NoDup l -> length (dedup l) = length l.
Proof. intros H. unfold dedup. rewrite nodup_fixed_point; auto. Qed.

(** The pairwise batched version, where it is used correctly. *)
Definition dot_pbb' (a b : tensor R) (p q : nat) : res (tensor R) :=
  if (length lb =? 0)%nat || (p =? 0)%nat then dot_pbb lc rc lb rb a b p q else Err TypeError.

Lemma dot_batched : pairwise_batched Sa Sb (dot_shape Sa Sb) (dot_terms Sa Sb) dot_pbb'.
Proof.
  intros ra rb' u v w Hu Hv H. unfold dot_pbb' in H. destruct (_ || _) eqn:EC; [|discriminate].
  unfold dot_pbb in H. apply bind_ok in H. destruct H as (t & Ht & H).
  destruct (dot_ok _ _ _ Ht) as (HD' & St & Dt). rewrite Hu, Hv in *.
  pose proof HD as (HA & HB & NA & NB & E1 & E2).
  unfold dot_shape in St. rewrite !drop_axes_app in St by auto. rewrite map_nth_app in St by (intros; apply HA, in_or_app; auto).
  set (ba := map (fun j => nth j Sa 0%nat) lb) in *. set (fa := drop_axes 0 (lb ++ lc) Sa) in *. set (fb := drop_axes 0 (rb ++ rc) Sb) in *.
  assert (Lfa : (length fa + (length lb + length lc) = length Sa)%nat).
  { unfold fa. rewrite <- app_length. apply length_drop_axes; auto. intros a Ha. apply HA in Ha. lia. }
  assert (Lk : length (dedup (lc ++ lb)) = (length lc + length lb)%nat).
  { rewrite dedup_length, app_length; auto. apply (Permutation.Permutation_NoDup (l := lb ++ lc)); auto. apply Permutation.Permutation_app_comm. }
  unfold tndim in H. rewrite Lk, Hu, St in H. rewrite !app_length in H.
  destruct (_ <? _)%nat eqn:G1 in H; [discriminate|]. clear G1.
  destruct (_ <? _)%nat eqn:G2 in H; [discriminate|]. apply Nat.ltb_ge in G2.
  destruct (negb _) in H; [discriminate|].
  replace (length Sa + length ra - length ra - (length lc + length lb))%nat with (length fa) in * by lia.
  assert (Lba : length ba = length lb) by (unfold ba; apply map_length).
  set (n := (length ba + (length fa + length ra + (length fb + length rb')))%nat) in *.
  assert (En : n = (length ba + (length fa + length ra + (length fb + length rb')))%nat) by reflexivity. clearbody n.
  (* the values *)
  assert (Hval : forall B sa sb I J, valid ba B -> valid fa sa -> valid fb sb -> valid ra I -> valid rb' J ->
     tdata t (B ++ (sa ++ I) ++ sb ++ J) = wsum (dot_terms Sa Sb (B ++ sa ++ sb)) (fun ia => tdata u (ia ++ I)) (fun ib => tdata v (ib ++ J))).
  { intros B sa sb I J VB Va Vb HI HJ. rewrite Dt. unfold dot_terms. rewrite drop_axes_app by auto. fold fa.
    pose proof (valid_length _ _ VB) as LB. rewrite Lba in LB.
    pose proof (valid_length _ _ Va). pose proof (valid_length _ _ Vb). pose proof (valid_length _ _ HI). pose proof (valid_length _ _ HJ).
    rewrite (firstn_exact B), (skipn_exact B) by auto. rewrite (firstn_exact (sa ++ I)) by (rewrite !app_length; lia).
    rewrite (app_assoc B (sa ++ I)), (skipn_exact (B ++ sa ++ I)) by (rewrite !app_length; lia).
    rewrite (firstn_exact B), (skipn_exact B), (firstn_exact sa) by auto.
    rewrite (app_assoc B sa), (skipn_exact (B ++ sa)) by (rewrite !app_length; lia).
    rewrite map_nth_app by (intros; apply HA, in_or_app; auto).
    rewrite !wsum_sumi. apply Rsum_map_ext. intros K _. rewrite !app_length, !fill_app by auto. reflexivity. }
  apply orb_prop in EC. destruct (Nat.eqb_spec (length lb) 0) as [Elb|Nlb].
  - (* no batch axes *)
    assert (Eba : ba = []) by (destruct ba; [auto|simpl in Lba; lia]).
    unfold dot_shape. fold ba fa fb. rewrite Eba in *. cbn [app length] in *.
    replace (seq 0 (length fa) ++ _) with (block_perm (length fa) (length ra) (length fb) (length rb')) in H.
    2:{ unfold block_perm. 
        replace (n - length rb' - (length fa + length ra))%nat with (length fb) by lia.
        replace (n - length rb')%nat with (length fa + length ra + length fb)%nat by lia. reflexivity. }
    unfold gather in H. apply bind_ok in H. destruct H as (sh & Hsh & H). injection H as <-.
    cbn [g_shape g_transpose] in Hsh. destruct (_ && _) in Hsh; [|discriminate]. injection Hsh as <-. cbn [tshape tdata].
    rewrite St, <- !app_assoc, block_perm_map. split; [reflexivity|].
    intros s I J Hs HI HJ. apply valid_app_inv in Hs. destruct Hs as (sa & sb & -> & Va & Vb).
    pose proof (valid_length _ _ Va) as L1. pose proof (valid_length _ _ Vb) as L2. pose proof (valid_length _ _ HI) as L3. pose proof (valid_length _ _ HJ) as L4.
    specialize (Hval [] sa sb I J (Forall2_nil _) Va Vb HI HJ). cbn [app] in Hval. rewrite <- Hval.
    cbn [g_src g_transpose].
    rewrite (transpose_src (block_perm (length fa) (length ra) (length fb) (length rb')) ((sa ++ sb) ++ I ++ J) ((sa ++ I) ++ sb ++ J)).
    + simpl. ring.
    + rewrite !app_length. lia.
    + intros j Hj. apply block_perm_in. rewrite !app_length in Hj. lia.
    + rewrite <- L1, <- L2, <- L3, <- L4, <- !app_assoc, block_perm_map. reflexivity.
  - (* the left operand is constant *)
    assert (Hra : ra = []). { destruct EC as [EC|EC]; [discriminate|]. apply Nat.eqb_eq in EC. destruct ra; [auto|discriminate]. }
    subst ra. cbn [length app] in *. rewrite ?app_nil_r, ?Nat.add_0_r in *.
    replace (seq 0 (length fa) ++ _) with (seq 0 n) in H.
    2:{ change (seq (length fa) 0) with (@nil nat). cbn [app].
        replace (seq (n - length rb') (length rb')) with (seq (length fa + (n - length rb' - length fa)) (length rb')) by (f_equal; lia).
        rewrite <- seq_app, <- (seq_app (length fa) _ 0). f_equal. lia. }
    unfold gather in H. apply bind_ok in H. destruct H as (sh & Hsh & H). injection H as <-.
    cbn [g_shape g_transpose] in Hsh. destruct (_ && _) in Hsh; [|discriminate]. injection Hsh as <-. cbn [tshape tdata].
    assert (Ln : length (ba ++ fa ++ fb ++ rb') = n) by (rewrite !app_length; lia).
    rewrite St. rewrite map_nth_seq by lia. cbn [skipn]. rewrite <- Ln at 1. rewrite firstn_all. unfold dot_shape. fold ba fa fb.
    split; [rewrite <- !app_assoc; reflexivity|].
    intros s I J Hs HI HJ. apply valid_nil in HI. subst I.
    apply valid_app_inv in Hs. destruct Hs as (B & s' & -> & VB & Hs). apply valid_app_inv in Hs. destruct Hs as (sa & sb & -> & Va & Vb).
    rewrite <- (Hval B sa sb [] J VB Va Vb (Forall2_nil _) HJ).
    pose proof (valid_length _ _ VB) as L0. pose proof (valid_length _ _ Va) as L1. pose proof (valid_length _ _ Vb) as L2. pose proof (valid_length _ _ HJ) as L4.
    cbn [g_src g_transpose].
    rewrite (transpose_src (seq 0 n) ((B ++ sa ++ sb) ++ [] ++ J) (B ++ (sa ++ []) ++ sb ++ J)).
    + simpl. ring.
    + rewrite app_nil_r, !app_length. lia.
    + intros j Hj. apply in_seq. rewrite Ln in Hj. lia.
    + rewrite map_nth_seq by (rewrite app_nil_r, !app_length; lia). cbn [skipn app]. rewrite app_nil_r, <- !app_assoc.
      symmetry. replace n with (length (B ++ sa ++ sb ++ J)) by (rewrite !app_length; lia). apply firstn_all.
Qed.
End Dot.
