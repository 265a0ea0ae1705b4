(** Theorems about the tables of rounded extrema: get_range (C26, C27) and the
    enclosures built from it (C35), up to the rounding of the tables. *)
From Coq Require Import Reals Lra Permutation.
From Coquelicot Require Import Coquelicot.
From Verif Require Import Base Elementwise Primitive ElementSpec Analysis ElementwiseProofs
  PrimitiveProofs PropElementwise PropRange PropPrimitive NearMono Extrema NearTable.
Open Scope R_scope.

(** * C26 *)
(** Both ends are values on the region; every value on the region is between
    them, give or take [eps]. *)
Definition range_within (eps : R) (g : R -> res R) (a b lo hi : R) :=
  (forall x, a <= x <= b -> exists v, g x = Ok v /\ lo - eps <= v <= hi + eps) /\
  (exists x, a <= x <= b /\ g x = Ok lo) /\ (exists x, a <= x <= b /\ g x = Ok hi).

Lemma min_loop_cases : forall g F a b l, (forall x, g x = Ok (F x)) ->
  exists v, min_loop g a b l = Ok v /\
    ((exists m, In m l /\ a <= m <= b /\ v = F m) \/
     ((forall m, In m l -> ~ (a <= m <= b)) /\ v = Rmin (F a) (F b))).
Proof.
  intros g F a b l Hg. induction l as [|x l IH]; simpl.
  - rewrite !Hg. cbn [bind]. eexists. split; [reflexivity|]. right. split; [intros m []|reflexivity].
  - destruct IH as (v & -> & IH). rewrite Hg. cbn [bind]. eexists. split; [reflexivity|].
    unfold Rle_b. destruct (Rle_dec a x) as [L1|L1]; destruct (Rle_dec x b) as [L2|L2]; simpl.
    + left. exists x. auto.
    + destruct IH as [(m & Hm & Hr & E)|[N E]]; [left; exists m; auto|right; split; auto].
      intros m [<-|Hm]; [lra|auto].
    + destruct IH as [(m & Hm & Hr & E)|[N E]]; [left; exists m; auto|right; split; auto].
      intros m [<-|Hm]; [lra|auto].
    + destruct IH as [(m & Hm & Hr & E)|[N E]]; [left; exists m; auto|right; split; auto].
      intros m [<-|Hm]; [lra|auto].
Qed.
Lemma max_loop_cases : forall g F a b l, (forall x, g x = Ok (F x)) ->
  exists v, max_loop g a b l = Ok v /\
    ((exists m, In m l /\ a <= m <= b /\ v = F m) \/
     ((forall m, In m l -> ~ (a <= m <= b)) /\ v = Rmax (F a) (F b))).
Proof.
  intros g F a b l Hg. induction l as [|x l IH]; simpl.
  - rewrite !Hg. cbn [bind]. eexists. split; [reflexivity|]. right. split; [intros m []|reflexivity].
  - destruct IH as (v & -> & IH). rewrite Hg. cbn [bind]. eexists. split; [reflexivity|].
    unfold Rle_b. destruct (Rle_dec a x) as [L1|L1]; destruct (Rle_dec x b) as [L2|L2]; simpl.
    + left. exists x. auto.
    + destruct IH as [(m & Hm & Hr & E)|[N E]]; [left; exists m; auto|right; split; auto].
      intros m [<-|Hm]; [lra|auto].
    + destruct IH as [(m & Hm & Hr & E)|[N E]]; [left; exists m; auto|right; split; auto].
      intros m [<-|Hm]; [lra|auto].
    + destruct IH as [(m & Hm & Hr & E)|[N E]]; [left; exists m; auto|right; split; auto].
      intros m [<-|Hm]; [lra|auto].
Qed.
Lemma sort_by_in : forall key l x, In x (sort_by key l) <-> In x l.
Proof.
  intros key l x. assert (P := fold_insert_perm key l []). simpl in P. fold (sort_by key l) in P.
  split; intro H; [apply Permutation_in with (1 := Permutation_sym P)|apply Permutation_in with (1 := P)]; auto.
Qed.

Lemma range_near : forall g F G mins maxs eps a b, (forall x, g x = Ok (F x)) ->
  turning G mins maxs -> (forall x, Rabs (F x - G x) <= eps) -> a <= b ->
  exists lo hi, minimum_value g a b mins = Ok lo /\ maximum_value g a b maxs = Ok hi /\
    range_within (2 * eps) g a b lo hi.
Proof.
  intros g F G mins maxs eps a b Hg T Hn L.
  assert (Nr : forall x, G x - eps <= F x <= G x + eps).
  { intro x. assert (X := Hn x). apply Rabs_le_between in X. lra. }
  unfold minimum_value, maximum_value, sort_by_desc.
  destruct (min_loop_cases g F a b (sort_by (key_of g) mins) Hg) as (lo & Elo & Clo).
  destruct (max_loop_cases g F a b (sort_by (fun x => - key_of g x) maxs) Hg) as (hi & Ehi & Chi).
  exists lo, hi. split; [auto|]. split; [auto|].
  assert (Lo : (forall x, a <= x <= b -> lo - 2 * eps <= F x) /\ exists x, a <= x <= b /\ g x = Ok lo).
  { destruct Clo as [(m & Hm & Hr & ->)|[N ->]].
    - apply sort_by_in in Hm. split; [|exists m; auto].
      intros x Hx. assert (X := t_min _ _ _ T m x Hm). assert (A := Nr x). assert (B := Nr m). lra.
    - split.
      + intros x Hx. assert (X := t_nomin _ _ _ T a x b Hx).
        specialize (X ltac:(intros m Hm; apply N, sort_by_in; auto)).
        assert (A := Nr x). assert (B := Nr a). assert (C := Nr b).
        revert X. unfold Rmin. repeat destruct Rle_dec; lra.
      + unfold Rmin. destruct Rle_dec; [exists a|exists b]; split; auto; lra. }
  assert (Hi : (forall x, a <= x <= b -> F x <= hi + 2 * eps) /\ exists x, a <= x <= b /\ g x = Ok hi).
  { destruct Chi as [(m & Hm & Hr & ->)|[N ->]].
    - apply sort_by_in in Hm. split; [|exists m; auto].
      intros x Hx. assert (X := t_max _ _ _ T m x Hm). assert (A := Nr x). assert (B := Nr m). lra.
    - split.
      + intros x Hx. assert (X := t_nomax _ _ _ T a x b Hx).
        specialize (X ltac:(intros m Hm; apply N, sort_by_in; auto)).
        assert (A := Nr x). assert (B := Nr a). assert (C := Nr b).
        revert X. unfold Rmax. repeat destruct Rle_dec; lra.
      + unfold Rmax. destruct Rle_dec; [exists b|exists a]; split; auto; lra. }
  split; [|split; [apply Lo|apply Hi]]. intros x Hx. exists (F x). split; [auto|].
  split; [apply Lo|apply Hi]; auto.
Qed.

Lemma rounded_supported : forall n k, rounded_table n k = true -> supported n k = true.
Proof. intros [] k; simpl; auto; try discriminate; rewrite ?andb_true_iff, ?Nat.leb_le; lia. Qed.
Lemma rounded_domain : forall n k x, rounded_table n k = true -> domain n x.
Proof. intros [] k x; simpl; try discriminate; intros; exact I. Qed.

(** The answer of get_range is right up to the rounding of the tables. *)
Theorem C26_get_range_within_rounding : forall n k a b,
  rounded_table n k = true -> a <= b ->
  exists g lo hi, get_function (n, k) = Ok g /\ get_range (n, k) a b = Ok (lo, hi) /\
    range_within (4 / 10 ^ 12) g a b lo hi.
Proof.
  intros n k a b H L.
  destruct (Fof_ok n k (rounded_supported n k H)) as (g & Hg & Hgx).
  assert (Hx : forall x, g x = Ok (Fof n k x)) by (intro x; apply Hgx, (rounded_domain n k); auto).
  destruct (near_table n k H) as (d & G & Hd & _ & _ & _ & T & E).
  destruct (range_near g (Fof n k) G _ _ tol a b Hx T E L) as (lo & hi & H1 & H2 & H3).
  exists g, lo, hi. split; [auto|]. split.
  - unfold get_range. rewrite Hg. cbn [bind]. rewrite Hd. cbn [bind]. rewrite H1. cbn [bind]. rewrite H2. reflexivity.
  - replace (4 / 10 ^ 12) with (2 * tol) by (unfold tol; lra). exact H3.
Qed.
Example C26_within_nonvacuous : rounded_table SWISH 2 = true /\ -5 <= 0.9.
Proof. split; [reflexivity|lra]. Qed.

(** ** The tables that are wrong *)
Lemma sigF4_val : forall x, sigF 4 x =
  sg x * (1 - sg x) * (1 - 2 * sg x) * (1 - 12 * (sg x * (1 - sg x))).
Proof. intro. unfold sigF, sig_poly. simpl. ring. Qed.

Lemma sig4_range : forall n k, (n, k) = (SIGMOID, 4%nat) \/ (n, k) = (SOFTPLUS, 5%nat) ->
  get_range (n, k) (-0.5) 4 = Ok (sigF 4 3.1443184061547065, sigF 4 0.8426329481295388).
Proof.
  intros n k H.
  assert (Hf : forall x, sigmoid_derivative 4 x = Ok (sigF 4 x)) by (intro; apply sigF_ok; lia).
  assert (Hmin : minimum_value (sigmoid_derivative 4) (-0.5) 4 [-0.8426329481295408; 3.1443184061547065]
                 = Ok (sigF 4 3.1443184061547065)).
  { unfold minimum_value. destruct (sort2_cases (key_of (sigmoid_derivative 4)) (-0.8426329481295408) 3.1443184061547065) as [-> | ->];
      cbn [min_loop]; rewrite !Hf; cbn [bind]; dec_b; reflexivity. }
  assert (Hmax : maximum_value (sigmoid_derivative 4) (-0.5) 4 [-3.144318406154709; 0.8426329481295388]
                 = Ok (sigF 4 0.8426329481295388)).
  { unfold maximum_value, sort_by_desc.
    destruct (sort2_cases (fun x => - key_of (sigmoid_derivative 4) x) (-3.144318406154709) 0.8426329481295388) as [-> | ->];
      cbn [max_loop]; rewrite !Hf; cbn [bind]; dec_b; reflexivity. }
  destruct H as [E|E]; injection E as -> ->; unfold get_range.
  - cbn [get_function bind get_function_data softplus_data local_minima local_maxima Nat.add].
    rewrite Hmin. cbn [bind]. rewrite Hmax. reflexivity.
  - change (get_function (SOFTPLUS, 5%nat)) with (Ok (sigmoid_derivative 4)).
    cbn [bind get_function_data softplus_data local_minima local_maxima].
    rewrite Hmin. cbn [bind]. rewrite Hmax. reflexivity.
Qed.
Lemma sig4_misses : sigF 4 (-0.5) < sigF 4 3.1443184061547065 - 1 / 1000.
Proof.
  assert (A : sigF 4 (-0.5) <= - 1 / 25).
  { rewrite sigF4_val. replace (-0.5) with (- (1/2)) by lra. rewrite sg_opp.
    assert (S := sg_range_5_9 (1/2) ltac:(lra)). generalize dependent (sg (1/2)). intros s S.
    replace (1 - (1 - s)) with s by ring. rewrite (Rmult_comm (1 - s) s).
    assert (V : 3/16 <= s * (1 - s)) by nra. set (v := s * (1 - s)) in *.
    assert (X : 22/100 * (5/4) <= (1 - 2 * (1 - s)) * (12 * v - 1)) by (apply Rmult_le_compat; lra).
    assert (Y : 3/16 * (22/100 * (5/4)) <= v * ((1 - 2 * (1 - s)) * (12 * v - 1))) by (apply Rmult_le_compat; lra).
    replace (v * (1 - 2 * (1 - s)) * (1 - 12 * v)) with (- (v * ((1 - 2 * (1 - s)) * (12 * v - 1)))) by ring. lra. }
  assert (B : - / 48 <= sigF 4 3.1443184061547065).
  { rewrite sigF4_val.
    assert (S : 1/2 <= sg 3.1443184061547065).
    { apply Rle_trans with (1 / (1 + 1)); [lra|]. apply sg_lower; [lra|].
      rewrite <- exp_0. apply exp_le. lra. }
    assert (U := sg_lt1 3.1443184061547065). generalize dependent (sg 3.1443184061547065). intros s S U.
    set (v := s * (1 - s)).
    assert (X : v * (1 - 12 * v) <= / 48) by (assert (0 <= (v - / 24) ^ 2) by apply pow2_ge_0; nra).
    replace (v * (1 - 2 * s) * (1 - 12 * v)) with (- ((2 * s - 1) * (v * (1 - 12 * v)))) by ring.
    destruct (Rle_dec 0 (v * (1 - 12 * v))); nra. }
  lra.
Qed.

Lemma swish4_range : exists hi, get_range (SWISH, 4%nat) 4 10 = Ok (Rmin (swishF 4 4) (swishF 4 10), hi).
Proof.
  assert (Hf : forall x, swish_derivative 4 x = Ok (swishF 4 x)) by (intro; apply swishF_ok; lia).
  unfold get_range. cbn [get_function bind get_function_data swish_data local_minima local_maxima].
  assert (Hmin : minimum_value (swish_derivative 4) 4 10 [0] = Ok (Rmin (swishF 4 4) (swishF 4 10))).
  { unfold minimum_value, sort_by. cbn [fold_left insert_by min_loop]. rewrite !Hf. cbn [bind]. dec_b. reflexivity. }
  assert (Hmax : exists hi, maximum_value (swish_derivative 4) 4 10 [-1.8197756117249821; 1.8197756117249804] = Ok hi).
  { unfold maximum_value, sort_by_desc.
    destruct (sort2_cases (fun x => - key_of (swish_derivative 4) x) (-1.8197756117249821) 1.8197756117249804) as [-> | ->];
      cbn [max_loop]; rewrite !Hf; cbn [bind]; eexists; reflexivity. }
  destruct Hmax as (hi & Hmax). exists hi. rewrite Hmin. cbn [bind]. rewrite Hmax. reflexivity.
Qed.
Lemma sg_above : forall x n, INR n <= x -> 2.5 ^ n / (1 + 2.5 ^ n) <= sg x.
Proof.
  intros x n H. apply sg_lower; [apply pow_lt; lra|].
  apply Rle_trans with (exp (INR n)); [apply exp_nat_lower|apply exp_le; auto].
Qed.
Lemma swish4_misses : swishF 4 6 < Rmin (swishF 4 4) (swishF 4 10) - 1 / 1000.
Proof.
  assert (A : 0 <= swishF 4 4).
  { rewrite swish4_val. assert (S := sg_above 4 4 ltac:(simpl; lra)). assert (U := sg_lt1 4).
    simpl in S. generalize dependent (sg 4). intros s S U. assert (S' : 39/40 <= s) by lra. clear S.
    set (v := s * (1 - s)). assert (V : 0 <= v <= 1/40) by (unfold v; nra).
    apply Rmult_le_pos; [lra|]. assert ((2 * s - 1) * (1 - 12 * v) <= 1 * (1 - 12 * v)) by (apply Rmult_le_compat_r; lra).
    lra. }
  assert (B : - 1 / 1250 <= swishF 4 10).
  { rewrite swish4_val. assert (S := sg_above 10 10 ltac:(simpl; lra)). assert (U := sg_lt1 10).
    simpl in S. generalize dependent (sg 10). intros s S U. assert (S' : 9500/9501 <= s) by lra. clear S.
    set (v := s * (1 - s)). assert (V : 0 <= v <= 1/9501) by (unfold v; nra).
    assert (X : -7 <= 4 * (1 - 6 * v) + 10 * (1 - 2 * s) * (1 - 12 * v)).
    { assert ((2 * s - 1) * (1 - 12 * v) <= 1 * 1) by (apply Rmult_le_compat; lra). lra. }
    assert (v * (-7) <= v * (4 * (1 - 6 * v) + 10 * (1 - 2 * s) * (1 - 12 * v))) by (apply Rmult_le_compat_l; lra).
    lra. }
  assert (C : swishF 4 6 <= - 2 / 1000).
  { rewrite swish4_val. assert (S := sg_ge6 6 ltac:(lra)).
    assert (U : sg 6 <= 729 / (1 + 729)).
    { apply sg_upper. assert (X := exp_nat_upper 6). simpl in X.
      replace 6 with (1 + 1 + 1 + 1 + 1 + 1) at 1 by lra. lra. }
    generalize dependent (sg 6). intros s [S _] U.
    set (v := s * (1 - s)). assert (V : 136/100000 <= v <= 1/241) by (unfold v; nra).
    assert (X : 4 * (1 - 6 * v) + 6 * (1 - 2 * s) * (1 - 12 * v) <= - 16/10).
    { assert (239/241 * (229/241) <= (2 * s - 1) * (1 - 12 * v)) by (apply Rmult_le_compat; lra). lra. }
    assert (v * (4 * (1 - 6 * v) + 6 * (1 - 2 * s) * (1 - 12 * v)) <= v * (- 16/10)) by (apply Rmult_le_compat_l; lra).
    lra. }
  unfold Rmin. destruct Rle_dec; lra.
Qed.

(** The ids whose table is wrong by far more than rounding. *)
Definition wrong_table (n : fname) (k : nat) : bool :=
  match n with
  | SIGMOID => k =? 4
  | SOFTPLUS => k =? 5
  | SWISH => (k =? 3) || (k =? 4)
  | _ => false
  end%nat.

Theorem C26_remaining_tables_wrong_refuted : forall n k, wrong_table n k = true ->
  exists a b x g lo hi v, get_range (n, k) a b = Ok (lo, hi) /\ a <= x <= b /\
    get_function (n, k) = Ok g /\ g x = Ok v /\ v < lo - 1 / 1000.
Proof.
  intros n k H. destruct n; simpl in H; try discriminate.
  - apply Nat.eqb_eq in H. subst. exists (-0.5), 4, (-0.5).
    exists (sigmoid_derivative 4), (sigF 4 3.1443184061547065), (sigF 4 0.8426329481295388), (sigF 4 (-0.5)).
    split; [apply sig4_range; auto|]. split; [lra|]. split; [reflexivity|]. split; [apply sigF_ok; lia|apply sig4_misses].
  - apply Nat.eqb_eq in H. subst. exists (-0.5), 4, (-0.5).
    exists (sigmoid_derivative 4), (sigF 4 3.1443184061547065), (sigF 4 0.8426329481295388), (sigF 4 (-0.5)).
    split; [apply sig4_range; auto|]. split; [lra|]. split; [reflexivity|]. split; [apply sigF_ok; lia|apply sig4_misses].
  - apply orb_prop in H. destruct H as [H|H]; apply Nat.eqb_eq in H; subst.
    + exists (-5), 0.9, 0.9, (swish_derivative 3), (swishF 3 m443), (swishF 3 M103), (swishF 3 0.9).
      split; [apply swish3_range|]. split; [lra|]. split; [reflexivity|]. split; [apply swishF_ok; lia|].
      assert (A := swish3_at_m443). assert (B := swish3_low 0.9 ltac:(lra)). lra.
    + destruct swish4_range as (hi & E).
      exists 4, 10, 6, (swish_derivative 4), (Rmin (swishF 4 4) (swishF 4 10)), hi, (swishF 4 6).
      split; [exact E|]. split; [lra|]. split; [reflexivity|]. split; [apply swishF_ok; lia|apply swish4_misses].
Qed.
Example C26_wrong_nonvacuous : wrong_table SWISH 4 = true. Proof. reflexivity. Qed.

(** Everything else raises. *)
Lemma min_loop_err : forall g a b l, (forall x, g x = Err NotImplementedError) ->
  min_loop g a b l = Err NotImplementedError.
Proof. intros g a b l H. induction l; simpl; rewrite ?IHl, ?H; reflexivity. Qed.

Theorem C26_unsupported_raises : forall n k a b, supported n k = false ->
  get_range (n, k) a b = Err NotImplementedError.
Proof.
  intros n k a b H. unfold get_range.
  destruct n; simpl in H; try discriminate; apply Nat.leb_gt in H.
  - do 2 (destruct k as [|k]; [lia|]). reflexivity.
  - do 5 (destruct k as [|k]; [lia|]). reflexivity.
  - do 6 (destruct k as [|k]; [lia|]). reflexivity.
  - do 5 (destruct k as [|k]; [lia|]). cbn [get_function bind get_function_data].
    destruct k as [|k]; [|reflexivity]. cbn [swish_data bind local_minima].
    unfold minimum_value. rewrite min_loop_err; [reflexivity|]. intro x. apply swishF_err. lia.
Qed.
Example C26_unsupported_nonvacuous : supported SWISH 5 = false. Proof. reflexivity. Qed.

(** The whole of C26: every id is of one of four kinds, disjoint from each
    other, and get_range does what the kind says. *)
Inductive table_kind := exact | rounded | wrong | absent.
Definition kind (n : fname) (k : nat) : table_kind :=
  match n with
  | EXP | LOG => exact
  | ABS => if k <=? 1 then exact else absent
  | SIGMOID => if k <=? 1 then exact else if k <=? 3 then rounded else if k =? 4 then wrong else absent
  | SOFTPLUS => if k <=? 2 then exact else if k <=? 4 then rounded else if k =? 5 then wrong else absent
  | SWISH => if k <=? 2 then rounded else if k <=? 4 then wrong else absent
  end%nat.

Lemma range_of_within : forall g a b lo hi, range_of g a b lo hi <-> range_within 0 g a b lo hi.
Proof.
  intros. unfold range_of, range_within.
  split; (intros [A B]; split; [|exact B]); intros x Hx; destruct (A x Hx) as (v & E & L); exists v; split; auto; lra.
Qed.

Theorem C26_get_range_classified : forall n k,
  match kind n k with
  | exact => forall a b, domain n a -> a <= b ->
      exists g lo hi, get_function (n, k) = Ok g /\ get_range (n, k) a b = Ok (lo, hi) /\
        range_within 0 g a b lo hi
  | rounded => forall a b, a <= b ->
      exists g lo hi, get_function (n, k) = Ok g /\ get_range (n, k) a b = Ok (lo, hi) /\
        range_within (4 / 10 ^ 12) g a b lo hi
  | wrong => exists a b g lo hi x v, a <= x <= b /\ get_function (n, k) = Ok g /\
        get_range (n, k) a b = Ok (lo, hi) /\ g x = Ok v /\ v < lo - 1 / 1000
  | absent => forall a b, get_range (n, k) a b = Err NotImplementedError
  end.
Proof.
  intros n k.
  assert (W : wrong_table n k = true -> exists a b g lo hi x v, a <= x <= b /\ get_function (n, k) = Ok g /\
        get_range (n, k) a b = Ok (lo, hi) /\ g x = Ok v /\ v < lo - 1 / 1000).
  { intro H. destruct (C26_remaining_tables_wrong_refuted n k H) as (a & b & x & g & lo & hi & v & H1 & H2 & H3 & H4 & H5).
    exists a, b, g, lo, hi, x, v. auto. }
  assert (Ex : exact_table n k = true -> forall a b, domain n a -> a <= b ->
      exists g lo hi, get_function (n, k) = Ok g /\ get_range (n, k) a b = Ok (lo, hi) /\
        range_within 0 g a b lo hi).
  { intros H a b Ha L. destruct (C26_get_range_exact n k a b H Ha L) as (g & lo & hi & H1 & H2 & H3).
    exists g, lo, hi. split; [auto|]. split; [auto|]. apply range_of_within; auto. }
  assert (Ro : rounded_table n k = true -> forall a b, a <= b ->
      exists g lo hi, get_function (n, k) = Ok g /\ get_range (n, k) a b = Ok (lo, hi) /\
        range_within (4 / 10 ^ 12) g a b lo hi) by (intros H a b L; apply C26_get_range_within_rounding; auto).
  assert (Un : supported n k = false -> forall a b, get_range (n, k) a b = Err NotImplementedError)
    by (intros H a b; apply C26_unsupported_raises; auto).
  destruct n; cbn [kind]; simpl in Ex, Ro, W, Un; auto.
  - destruct (k <=? 1)%nat eqn:E; auto.
  - destruct (k <=? 1)%nat eqn:E1; auto. destruct (k <=? 3)%nat eqn:E2.
    + apply Ro. apply Nat.leb_gt in E1. destruct k as [|[|k]]; try lia; auto.
    + destruct (k =? 4)%nat eqn:E3; auto. apply Un. apply Nat.leb_gt in E2. apply Nat.eqb_neq in E3. apply Nat.leb_gt. lia.
  - destruct (k <=? 2)%nat eqn:E1; auto. destruct (k <=? 4)%nat eqn:E2.
    + apply Ro. apply Nat.leb_gt in E1. destruct k as [|[|[|k]]]; try lia; auto.
    + destruct (k =? 5)%nat eqn:E3; auto. apply Un. apply Nat.leb_gt in E2. apply Nat.eqb_neq in E3. apply Nat.leb_gt. lia.
  - destruct (k <=? 2)%nat eqn:E1; auto. destruct (k <=? 4)%nat eqn:E2.
    + apply W. apply Nat.leb_gt in E1. apply Nat.leb_le in E2.
      destruct k as [|[|[|[|[|k]]]]]; try lia; auto.
    + apply Un. auto.
Qed.

(** * C35 *)
(** An enclosure with its final interval widened by [eps] on both sides. *)
Definition widen (eps : R) (e : senc) : senc := (fst e, (fst (snd e) - eps, snd (snd e) + eps)).

Lemma near_of_close : forall F G eps D, (forall x, Rabs (F x - G x) <= eps) ->
  (increasing_on D G -> near_increasing (2 * eps) D F) /\ (decreasing_on D G -> near_decreasing (2 * eps) D F).
Proof.
  intros F G eps D H.
  assert (Nr : forall x, G x - eps <= F x <= G x + eps).
  { intro x. assert (X := H x). apply Rabs_le_between in X. lra. }
  split; intros M x y Dx Dy L; specialize (M x y Dx Dy L); assert (A := Nr x); assert (B := Nr y); lra.
Qed.

Theorem C35_enclosures_valid_within_rounding : forall n k x0 a b,
  rounded_table n k = true -> a <= x0 <= b -> cap_ok k x0 a -> cap_ok k x0 b ->
  exists e, get_elementwise_taylor_enclosure (n, 0%nat) x0 (a, b) k = Ok e /\
    valid_enclosure (textbook n) x0 (seg a b) k (widen (4 / 10 ^ 12 / INR (fact k)) e).
Proof.
  intros n k x0 a b H Hx0 Ca Cb.
  assert (Sk := rounded_supported n k H).
  assert (Dx : forall x, domain n x) by (intro; apply (rounded_domain n k); auto).
  assert (Hn : n <> ABS) by (intros ->; discriminate).
  assert (HF : deriv_chain (seg a b) (Fof n) k) by (intros i x Hi Hx; apply (Fof_chain n k Hn Sk i x); auto).
  destruct (near_table n k H) as (d & G & Hd & Mi & Md & Ev & T & E).
  destruct (Fof_ok n k Sk) as (g & Hg & Hgx).
  destruct (range_near g (Fof n k) G _ _ tol a b ltac:(auto) T E ltac:(lra)) as (lo & hi & H1 & H2 & H3).
  assert (Hr : get_range (n, k) a b = Ok (lo, hi)).
  { unfold get_range. rewrite Hg. cbn [bind]. rewrite Hd. cbn [bind]. rewrite H1. cbn [bind]. rewrite H2. reflexivity. }
  assert (HR : forall x, seg a b x -> lo - 2 * tol <= Fof n k x <= hi + 2 * tol).
  { intros x Hx. destruct H3 as (A & _). destruct (A x Hx) as (v & Ev' & Hv). rewrite Hgx in Ev' by auto. injection Ev' as <-. auto. }
  destruct (Fof_ok n 0 (supported_le n 0 k (Nat.le_0_l k) Sk)) as (g0 & Hg0 & Hgx0).
  assert (HD : convex (seg a b)) by (intros x y z Hx Hz L; unfold seg in *; lra).
  assert (Sa : seg a b a) by (unfold seg; lra). assert (Sb : seg a b b) by (unfold seg; lra).
  assert (Main : exists e, get_elementwise_taylor_enclosure (n, 0%nat) x0 (a, b) k = Ok e /\
            valid_enclosure (Fof n 0) x0 (seg a b) k (widen (2 * tol / INR (fact k)) e)).
  2:{ destruct Main as (e & He & Hv). exists e. split; [auto|]. apply (valid_ext (Fof n 0)); [apply Fof_0|].
      replace (4 / 10 ^ 12) with (2 * tol) by (unfold tol; lra). exact Hv. }
  unfold get_elementwise_taylor_enclosure. rewrite Hg0. cbn [bind].
  unfold derivative_id. cbn [fst snd]. rewrite Nat.add_0_l, Hd. cbn [bind]. rewrite Mi, Md, Ev, andb_false_r. cbn [orb].
  rewrite taylor_coeffs_ok by auto. cbn [bind].
  rewrite !(sharp_of_rho (Fof n)) by (auto; apply Hgx0, Dx; lra). cbn [bind fst snd].
  rewrite Hr. cbn [bind].
  rewrite removelast_firstn_taylor. unfold bounded_derivative_enclosure. rewrite firstn_taylor_length, Nat.eqb_refl. cbn [negb bind fst snd].
  destruct (monotone_over d a b) as [dec inc] eqn:Mo.
  destruct (C25_monotone_over_sound G d a b dec inc) as [Gd Gi]; auto; try lra; try congruence.
  { apply T. }
  destruct (near_of_close (Fof n k) G tol (seg a b) E) as [Ni Nd].
  eexists. split; [reflexivity|].
  split; [cbn [widen fst]; apply firstn_taylor_length|].
  intros x Hx. unfold widen. cbn [fst snd]. assert (Pf := INR_fact_pos k).
  destruct dec; [|destruct inc].
  - apply encl_value_rho. cbn [fst snd].
    assert (Rd := rho_near_decreasing k (seg a b) (Fof n) x0 _ HD Hx0 HF (Nd (Gd eq_refl))).
    assert (A := Rd a x Sa Hx (proj1 Hx)). assert (B := Rd x b Hx Sb (proj2 Hx)). lra.
  - apply encl_value_rho. cbn [fst snd].
    assert (Ri := rho_near_increasing k (seg a b) (Fof n) x0 _ HD Hx0 HF (Ni (Gi eq_refl))).
    assert (A := Ri a x Sa Hx (proj1 Hx)). assert (B := Ri x b Hx Sb (proj2 Hx)). lra.
  - apply encl_value_rho. cbn [fst snd].
    destruct (rho_lagrange k (seg a b) (Fof n) x0 x HD Hx0 Hx HF) as (xi & _ & Dxi & ->).
    assert (Q := HR xi Dxi). unfold Rdiv.
    replace (lo * / INR (fact k) - 2 * tol * / INR (fact k)) with ((lo - 2 * tol) * / INR (fact k)) by ring.
    replace (hi * / INR (fact k) + 2 * tol * / INR (fact k)) with ((hi + 2 * tol) * / INR (fact k)) by ring.
    split; apply Rmult_le_compat_r; try apply Q; left; apply Rinv_0_lt_compat; auto.
Qed.
Example C35_within_nonvacuous : rounded_table SWISH 2 = true /\ -1 <= 0.5 <= 3 /\ cap_ok 2 0.5 (-1) /\ cap_ok 2 0.5 3.
Proof.
  split; [reflexivity|]. split; [lra|]. unfold cap_ok.
  split; right; [rewrite Rabs_left by lra|rewrite Rabs_right by lra]; lra.
Qed.
