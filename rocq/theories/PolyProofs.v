(** Proofs about the polynomial model: partitions, multinomials, products,
    integer powers. *)
From Coq Require Import Reals Lra Psatz Permutation Factorial.
From Verif Require Import Base Tensor IntervalArith TensorLemmas Polynomials.
Open Scope nat_scope.

(** ** Partitions *)
(** [sum_j j * p_j]. *)
Definition weight (p : list nat) : nat := list_sum (map (fun '(j, x) => j * x) (enumerate p)).

Lemma enumerate_from_app {A} k (l m : list A) :
  enumerate_from k (l ++ m) = enumerate_from k l ++ enumerate_from (k + length l) m.
Proof.
  revert k; induction l as [|x l IH]; intros k; simpl; [rewrite Nat.add_0_r; reflexivity|].
  rewrite IH. do 3 f_equal. lia.
Qed.

Lemma enumerate_from_length {A} k (l : list A) : length (enumerate_from k l) = length l.
Proof. revert k; induction l; intros; simpl; auto. Qed.

Lemma list_sum_app' l m : list_sum (l ++ m) = list_sum l + list_sum m.
Proof. induction l; simpl; lia. Qed.

Lemma weight_snoc p z : weight (p ++ [z]) = weight p + length p * z.
Proof. unfold weight, enumerate. rewrite enumerate_from_app, map_app, list_sum_app'. simpl. lia. Qed.

Lemma partitions_spec k' : forall n m p, In p (partitions n m k') <->
  length p = S k' /\ list_sum p = m /\ weight p = n.
Proof.
  induction k' as [|k'' IH]; intros n m p.
  - simpl. destruct (Nat.eqb_spec n 0) as [->|Hn].
    + split.
      * intros [<-|[]]. unfold weight. simpl. lia.
      * intros (HL & HS & HW). destruct p as [|x [|y p]]; try discriminate. simpl in HS.
        left. f_equal. lia.
    + split; [intros []|]. intros (HL & HS & HW). destruct p as [|x [|y p]]; try discriminate.
      unfold weight in HW. simpl in HW. lia.
  - cbn [partitions]. rewrite in_flat_map. split.
    + intros (z & Hz & Hp). apply in_map_iff in Hp. destruct Hp as (q & <- & Hq).
      apply IH in Hq. destruct Hq as (HL & HS & HW). apply in_seq in Hz.
      rewrite app_length, list_sum_app', weight_snoc, HL, HS, HW. simpl length. simpl list_sum.
      assert (Hzn : S k'' * z <= n).
      { assert (z <= n / S k'') by lia. transitivity (S k'' * (n / S k'')); [nia|]. apply Nat.mul_div_le. lia. }
      lia.
    + intros (HL & HS & HW).
      destruct (exists_last (l := p) ltac:(destruct p; discriminate)) as (q & z & ->).
      rewrite app_length in HL. simpl in HL. rewrite list_sum_app' in HS. simpl in HS.
      rewrite weight_snoc in HW. assert (Hq : length q = S k'') by lia. rewrite Hq in HW.
      exists z. split.
      * apply in_seq. assert (z <= n / S k'') by (apply Nat.div_le_lower_bound; lia). lia.
      * apply in_map_iff. exists q. split; auto. apply IH. lia.
Qed.

Lemma NoDup_app_intro {A} (l m : list A) : NoDup l -> NoDup m -> (forall x, In x l -> ~ In x m) -> NoDup (l ++ m).
Proof.
  induction l as [|x l IH]; simpl; intros Hl Hm H; auto. inversion Hl; subst. constructor.
  - rewrite in_app_iff. intros [?|?]; [auto|]. eapply H; eauto.
  - apply IH; auto.
Qed.

Lemma NoDup_flat_map {A B} (f : A -> list B) l :
  NoDup l -> (forall x, In x l -> NoDup (f x)) ->
  (forall x y b, In x l -> In y l -> In b (f x) -> In b (f y) -> x = y) -> NoDup (flat_map f l).
Proof.
  induction l as [|x l IH]; simpl; intros Hl Hf Hd; [constructor|]. inversion Hl; subst.
  apply NoDup_app_intro; [apply Hf; auto | apply IH; auto; intros; eapply Hd; eauto |].
  intros b Hb Hb'. apply in_flat_map in Hb'. destruct Hb' as (y & Hy & Hby).
  assert (x = y) by (eapply Hd; eauto). subst. auto.
Qed.

Lemma partitions_NoDup k' : forall n m, NoDup (partitions n m k').
Proof.
  induction k' as [|k'' IH]; intros n m.
  - simpl. destruct (n =? 0); repeat constructor. intros [].
  - cbn [partitions]. apply NoDup_flat_map.
    + apply seq_NoDup.
    + intros z _. apply FinFun.Injective_map_NoDup; auto. intros a b H. apply app_inj_tail in H. destruct H; congruence.
    + intros x y b _ _ Hx Hy. apply in_map_iff in Hx, Hy. destruct Hx as (p & <- & _), Hy as (q & H & _).
      apply app_inj_tail in H. destruct H; congruence.
Qed.

Lemma partitions_nonempty k' : forall n m, n <= k' * m -> partitions n m k' <> [].
Proof.
  assert (G : forall k' n m, n <= k' * m -> exists p, length p = S k' /\ list_sum p = m /\ weight p = n).
  { induction k'0 as [|k'' IH]; intros n m H.
    - exists [m]. unfold weight. simpl. lia.
    - set (z := Nat.min m (n / S k'')).
      assert (Hz : S k'' * z <= n).
      { assert (z <= n / S k'') by lia. transitivity (S k'' * (n / S k'')); [nia|]. apply Nat.mul_div_le. lia. }
      assert (Hr : n - S k'' * z <= k'' * (m - z)).
      { destruct (Nat.le_gt_cases (n / S k'') m) as [Hc|Hc].
        - assert (z = n / S k'') as E by lia.
          pose proof (Nat.div_mod n (S k'') ltac:(lia)) as Hdm.
          pose proof (Nat.mod_upper_bound n (S k'') ltac:(lia)). rewrite <- E in Hdm.
          destruct (Nat.eq_dec z m) as [Ezm|Ezm]; [rewrite Ezm in *; nia|].
          assert (1 <= m - z) by lia. nia.
        - assert (z = m) by lia. nia. }
      destruct (IH _ _ Hr) as (p & HL & HS & HW). exists (p ++ [z]).
      rewrite app_length, list_sum_app', weight_snoc, HL, HS, HW. simpl length. simpl list_sum. lia. }
  intros n m H. destruct (G _ _ _ H) as (p & Hp). apply partitions_spec in Hp. intros E. rewrite E in Hp. exact Hp.
Qed.

(** ** Binomial and multinomial coefficients *)
Definition zfact (n : nat) : Z := Z.of_nat (fact n).

Lemma zfact_pos n : (0 < zfact n)%Z.
Proof. unfold zfact. pose proof (lt_O_fact n). lia. Qed.

Lemma zfact_S n : zfact (S n) = (Z.of_nat (S n) * zfact n)%Z.
Proof. unfold zfact. rewrite <- Nat2Z.inj_mul. reflexivity. Qed.

Lemma comb_gt n : forall k, n < k -> comb n k = 0%Z.
Proof.
  induction n as [|n IH]; intros [|k] H; simpl; try lia. rewrite !IH by lia. reflexivity.
Qed.

Lemma comb_fact n : forall k, k <= n -> (comb n k * (zfact k * zfact (n - k)) = zfact n)%Z.
Proof.
  induction n as [|n IH]; intros [|k] H.
  - reflexivity.
  - lia.
  - simpl comb. rewrite Nat.sub_0_r. change (zfact 0) with 1%Z. lia.
  - change (comb (S n) (S k)) with (comb n k + comb n (S k))%Z. replace (S n - S k) with (n - k) by lia.
    rewrite (zfact_S n). destruct (Nat.eq_dec k n) as [->|Hk].
    + rewrite (comb_gt n (S n)) by lia. pose proof (IH n (le_n _)) as E. rewrite Nat.sub_diag in *.
      rewrite (zfact_S n). nia.
    + pose proof (IH k ltac:(lia)) as E1. pose proof (IH (S k) ltac:(lia)) as E2.
      replace (n - k) with (S (n - S k)) in * by lia.
      rewrite zfact_S in E1. rewrite (zfact_S k) in E2. rewrite (zfact_S k), (zfact_S (n - S k)).
      replace ((comb n k + comb n (S k)) * (Z.of_nat (S k) * zfact k * (Z.of_nat (S (n - S k)) * zfact (n - S k))))%Z
        with (Z.of_nat (S k) * (comb n k * (zfact k * (Z.of_nat (S (n - S k)) * zfact (n - S k)))) +
              Z.of_nat (S (n - S k)) * (comb n (S k) * (Z.of_nat (S k) * zfact k * zfact (n - S k))))%Z by ring.
      rewrite E1, E2. replace (Z.of_nat (S n)) with (Z.of_nat (S k) + Z.of_nat (S (n - S k)))%Z by lia. ring.
Qed.

Definition fact_prod (ks : list nat) : Z := fold_right (fun k s => zfact k * s)%Z 1%Z ks.

Lemma multinomial_fact ks : ks <> [] -> exists r, multinomial_coefficient ks = Ok r /\
  (r * fact_prod ks = zfact (list_sum ks))%Z.
Proof.
  induction ks as [|k ks IH]; intros H; [congruence|]. destruct ks as [|k2 ks'].
  - exists 1%Z. split; [reflexivity|]. unfold fact_prod. cbn [fold_right list_sum]. rewrite Nat.add_0_r. lia.
  - destruct IH as (r & Hr & E); [discriminate|]. set (ks := k2 :: ks') in *.
    assert (Hm : multinomial_coefficient (k :: ks) = (r <- multinomial_coefficient ks;; Ok (comb (list_sum (k :: ks)) k * r)%Z)) by reflexivity.
    rewrite Hm, Hr. cbn [bind]. eexists; split; [reflexivity|].
    change (fact_prod (k :: ks)) with (zfact k * fact_prod ks)%Z.
    change (list_sum (k :: ks)) with (k + list_sum ks). clearbody ks.
    pose proof (comb_fact (k + list_sum ks) k ltac:(lia)) as C.
    replace (k + list_sum ks - k) with (list_sum ks) in C by lia. rewrite <- E in C. rewrite <- C. ring.
Qed.

Definition mult (ks : list nat) : Z := match multinomial_coefficient ks with Ok r => r | Err _ => 0%Z end.

Lemma mult_ok ks : ks <> [] -> multinomial_coefficient ks = Ok (mult ks).
Proof. intros H. destruct (multinomial_fact ks H) as (r & Hr & _). unfold mult. rewrite Hr. reflexivity. Qed.

Lemma mult_fact ks : ks <> [] -> (mult ks * fact_prod ks = zfact (list_sum ks))%Z.
Proof. intros H. destruct (multinomial_fact ks H) as (r & Hr & E). unfold mult. rewrite Hr. exact E. Qed.

Lemma fact_prod_pos ks : (0 < fact_prod ks)%Z.
Proof.
  unfold fact_prod. induction ks; cbn [fold_right]; [lia|]. pose proof (zfact_pos a). apply Z.mul_pos_pos; auto.
Qed.

Lemma fact_prod_snoc p z : fact_prod (p ++ [z]) = (fact_prod p * zfact z)%Z.
Proof.
  unfold fact_prod. induction p; cbn [fold_right app]; [lia|]. rewrite IHp. ring.
Qed.

Lemma mult_snoc p z : p <> [] -> mult (p ++ [z]) = (comb (list_sum p + z) z * mult p)%Z.
Proof.
  intros Hp. assert (Hp' : p ++ [z] <> []) by (destruct p; discriminate).
  pose proof (mult_fact _ Hp) as E1. pose proof (mult_fact _ Hp') as E2.
  rewrite fact_prod_snoc, list_sum_app' in E2. simpl list_sum in E2. rewrite Nat.add_0_r in E2.
  pose proof (comb_fact (list_sum p + z) z ltac:(lia)) as C. replace (list_sum p + z - z) with (list_sum p) in C by lia.
  rewrite <- E1 in C. rewrite <- C in E2. pose proof (fact_prod_pos p). pose proof (zfact_pos z).
  apply (Z.mul_reg_r _ _ (fact_prod p * zfact z)); [nia|]. rewrite E2. ring.
Qed.

(** ** The multinomial theorem over the reals *)
Open Scope R_scope.

Definition Rsum (l : list R) : R := fold_right Rplus 0 l.

Lemma Rsum_app l m : Rsum (l ++ m) = Rsum l + Rsum m.
Proof. induction l; simpl; [ring|]. rewrite IHl. ring. Qed.

Lemma Rsum_map_ext {A} (f g : A -> R) l : (forall x, In x l -> f x = g x) -> Rsum (map f l) = Rsum (map g l).
Proof. induction l; simpl; intros H; [reflexivity|]. rewrite H, IHl; auto. Qed.

Lemma Rsum_map_scal {A} c (f : A -> R) l : Rsum (map (fun x => c * f x) l) = c * Rsum (map f l).
Proof. induction l; simpl; [ring|]. rewrite IHl. ring. Qed.

Lemma Rsum_map_plus {A} (f g : A -> R) l : Rsum (map (fun x => f x + g x) l) = Rsum (map f l) + Rsum (map g l).
Proof. induction l; simpl; [ring|]. rewrite IHl. ring. Qed.

Lemma Rsum_flat_map {A B} (f : B -> R) (g : A -> list B) l :
  Rsum (map f (flat_map g l)) = Rsum (map (fun x => Rsum (map f (g x))) l).
Proof. induction l; simpl; [reflexivity|]. rewrite map_app, Rsum_app, IHl. reflexivity. Qed.

Lemma Rsum_perm l m : Permutation l m -> Rsum l = Rsum m.
Proof. induction 1; simpl; lra. Qed.

Lemma Rsum_zero {A} (f : A -> R) l : (forall x, In x l -> f x = 0) -> Rsum (map f l) = 0.
Proof. induction l; simpl; intros H; [reflexivity|]. rewrite H, IHl; auto. ring. Qed.

(** [prod_j a_j ^ p_j] *)
Fixpoint ppow (a : list R) (p : list nat) : R :=
  match a, p with
  | x :: a', e :: p' => x ^ e * ppow a' p'
  | _, _ => 1
  end.

Lemma ppow_snoc a x p e : length a = length p -> ppow (a ++ [x]) (p ++ [e]) = ppow a p * x ^ e.
Proof.
  revert p; induction a as [|y a IH]; intros [|q p]; simpl; try discriminate; intros H; [ring|].
  rewrite IH by auto. ring.
Qed.

Lemma seq_S0 n : seq 0 (S n) = 0%nat :: map S (seq 0 n).
Proof. simpl. rewrite seq_shift. reflexivity. Qed.

Lemma binomial x y m : (x + y) ^ m =
  Rsum (map (fun q => IZR (comb m q) * (x ^ (m - q) * y ^ q)) (seq 0 (m + 1))).
Proof.
  induction m as [|m IH].
  - simpl. ring.
  - replace (S m + 1)%nat with (S (m + 1)) by lia.
    rewrite seq_S0. cbn [map Rsum fold_right]. fold (Rsum). rewrite map_map.
    change (fold_right Rplus 0) with Rsum.
    transitivity (x * (x + y) ^ m + y * (x + y) ^ m); [simpl; ring|]. rewrite IH.
    rewrite <- !Rsum_map_scal.
    (* right side: split comb (S m) (S q) *)
    rewrite (Rsum_map_ext (fun q => IZR (comb (S m) (S q)) * (x ^ (S m - S q) * y ^ S q))
      (fun q => IZR (comb m q) * (x ^ (m - q) * y ^ S q) + IZR (comb m (S q)) * (x ^ (m - q) * y ^ S q))).
    2:{ intros q _. change (comb (S m) (S q)) with (comb m q + comb m (S q))%Z. rewrite plus_IZR.
        change (S m - S q)%nat with (m - q)%nat. ring. }
    rewrite Rsum_map_plus.
    assert (E1 : Rsum (map (fun q => y * (IZR (comb m q) * (x ^ (m - q) * y ^ q))) (seq 0 (m + 1)))
       = Rsum (map (fun q => IZR (comb m q) * (x ^ (m - q) * y ^ S q)) (seq 0 (m + 1)))).
    { apply Rsum_map_ext. intros q _. simpl. ring. }
    assert (E2 : Rsum (map (fun q => x * (IZR (comb m q) * (x ^ (m - q) * y ^ q))) (seq 0 (m + 1)))
       = x ^ S m + Rsum (map (fun q => IZR (comb m (S q)) * (x ^ (m - q) * y ^ S q)) (seq 0 (m + 1)))).
    { replace (m + 1)%nat with (S m) by lia. rewrite seq_S0 at 1. cbn [map]. rewrite map_map.
      change (Rsum (?a :: ?l)) with (a + Rsum l). rewrite Nat.sub_0_r.
      replace (IZR (comb m 0)) with 1 by (destruct m; reflexivity).
      rewrite seq_S, map_app, Rsum_app. cbn [map plus Rsum fold_right].
      rewrite (comb_gt m (S m)) by lia.
      replace (x * (1 * (x ^ m * y ^ 0))) with (x ^ S m) by (simpl; ring).
      rewrite (Rsum_map_ext (fun q => x * (IZR (comb m (S q)) * (x ^ (m - S q) * y ^ S q)))
        (fun q => IZR (comb m (S q)) * (x ^ (m - q) * y ^ S q))).
      - simpl. ring.
      - intros q Hq. apply in_seq in Hq. replace (m - q)%nat with (S (m - S q)) by lia. simpl. ring. }
    rewrite E1, E2. simpl comb. rewrite Nat.sub_0_r. simpl. ring.
Qed.

(** All length-[S k'] tuples with sum [m]. *)
Fixpoint comps (m k' : nat) : list (list nat) :=
  match k' with
  | O => [[m]]
  | S k'' => flat_map (fun z => map (fun p => p ++ [z]) (comps (m - z) k'')) (seq 0 (m + 1))
  end.

Lemma comps_spec k' : forall m p, In p (comps m k') <-> length p = S k' /\ list_sum p = m.
Proof.
  induction k' as [|k'' IH]; intros m p.
  - simpl. split.
    + intros [<-|[]]. simpl. lia.
    + intros [HL HS]. destruct p as [|x [|y p]]; try discriminate. simpl in HS. left. f_equal. lia.
  - cbn [comps]. rewrite in_flat_map. split.
    + intros (z & Hz & Hp). apply in_map_iff in Hp. destruct Hp as (q & <- & Hq). apply IH in Hq.
      apply in_seq in Hz. rewrite app_length, list_sum_app'. simpl. lia.
    + intros (HL & HS).
      destruct (exists_last (l := p) ltac:(destruct p; discriminate)) as (q & z & ->).
      rewrite app_length in HL. simpl in HL. rewrite list_sum_app' in HS. simpl in HS.
      exists z. split; [apply in_seq; lia|]. apply in_map_iff. exists q. split; auto. apply IH. lia.
Qed.

Lemma comps_NoDup k' : forall m, NoDup (comps m k').
Proof.
  induction k' as [|k'' IH]; intros m.
  - simpl. repeat constructor. intros [].
  - cbn [comps]. apply NoDup_flat_map.
    + apply seq_NoDup.
    + intros z _. apply FinFun.Injective_map_NoDup; auto. intros a b H. apply app_inj_tail in H. destruct H; congruence.
    + intros x y b _ _ Hx Hy. apply in_map_iff in Hx, Hy. destruct Hx as (p & <- & _), Hy as (q & H & _).
      apply app_inj_tail in H. destruct H; congruence.
Qed.

Lemma multinomial_comps a k' : length a = S k' -> forall m,
  (Rsum a) ^ m = Rsum (map (fun p => IZR (mult p) * ppow a p) (comps m k')).
Proof.
  revert a; induction k' as [|k'' IH]; intros a Ha m.
  - destruct a as [|x [|y a]]; try discriminate. simpl. rewrite Rplus_0_r. unfold mult. simpl. ring.
  - destruct (exists_last (l := a) ltac:(destruct a; discriminate)) as (b & x & ->).
    rewrite app_length in Ha. simpl in Ha. assert (Hb : length b = S k'') by lia.
    rewrite Rsum_app. simpl (Rsum [x]). rewrite Rplus_0_r. rewrite binomial. cbn [comps].
    rewrite Rsum_flat_map. apply Rsum_map_ext. intros q Hq. apply in_seq in Hq. rewrite map_map.
    rewrite (IH b Hb). rewrite <- Rmult_assoc. rewrite (Rmult_comm _ (x ^ q)).
    rewrite <- Rsum_map_scal, <- Rsum_map_scal. apply Rsum_map_ext. intros p Hp.
    apply comps_spec in Hp. destruct Hp as [HL HS].
    rewrite ppow_snoc by lia. rewrite mult_snoc by (destruct p; discriminate).
    rewrite HS. replace (m - q + q)%nat with m by lia. rewrite mult_IZR. ring.
Qed.

Lemma weight_le p k' : length p = S k' -> (weight p <= k' * list_sum p)%nat.
Proof.
  revert p. induction k' as [|k'' IH]; intros p HL.
  - destruct p as [|x [|y p]]; try discriminate. unfold weight. simpl. lia.
  - destruct (exists_last (l := p) ltac:(destruct p; discriminate)) as (q & z & ->).
    rewrite app_length in HL. simpl in HL. assert (Hq : length q = S k'') by lia.
    rewrite weight_snoc, list_sum_app'. specialize (IH q Hq). simpl list_sum. rewrite Hq. nia.
Qed.

Lemma partitions_perm k' m :
  Permutation (flat_map (fun n => partitions n m k') (seq 0 (1 + k' * m))) (comps m k').
Proof.
  apply NoDup_Permutation.
  - apply NoDup_flat_map; [apply seq_NoDup | intros; apply partitions_NoDup |].
    intros x y b _ _ Hx Hy. apply partitions_spec in Hx, Hy. lia.
  - apply comps_NoDup.
  - intros p. rewrite in_flat_map, comps_spec. split.
    + intros (n & _ & Hp). apply partitions_spec in Hp. tauto.
    + intros [HL HS]. exists (weight p). split; [|apply partitions_spec; auto].
      apply in_seq. pose proof (weight_le p k' HL). subst m. lia.
Qed.

(** The coefficient of degree [n] of the power (before multiplying by [z^n]). *)
Definition power_coeff (a : list R) (m n : nat) : R :=
  Rsum (map (fun p => IZR (mult p) * ppow a p) (partitions n m (length a - 1))).

Theorem multinomial_partitions a m : a <> [] ->
  Rsum (map (power_coeff a m) (seq 0 (1 + (length a - 1) * m))) = (Rsum a) ^ m.
Proof.
  intros Ha. unfold power_coeff. rewrite <- (Rsum_flat_map (fun p => IZR (mult p) * ppow a p)
    (fun n => partitions n m (length a - 1))).
  rewrite (Rsum_perm _ _ (Permutation_map _ (partitions_perm (length a - 1) m))).
  rewrite <- multinomial_comps; [reflexivity|]. destruct a; [congruence|]. simpl. lia.
Qed.

(** ** Values of polynomials *)
(** [sum_i a_i z^(k+i)] *)
Fixpoint scaled (z : R) (k : nat) (a : list R) : list R :=
  match a with [] => [] | x :: a' => x * z ^ k :: scaled z (S k) a' end.

Definition peval (a : list R) (z : R) : R := Rsum (scaled z 0 a).

Lemma scaled_length z k a : length (scaled z k a) = length a.
Proof. revert k; induction a; intros; simpl; auto. Qed.

Lemma enumerate_weight k p : list_sum (map (fun '(j, x) => j * x)%nat (enumerate_from k p)) =
  (weight p + k * list_sum p)%nat.
Proof.
  unfold weight, enumerate. revert k.
  induction p as [|x p IH]; intros k; simpl; [lia|]. rewrite IH. rewrite (IH 1%nat). lia.
Qed.

Lemma ppow_scaled z k a p : length a = length p ->
  ppow (scaled z k a) p = ppow a p * z ^ (weight p + k * list_sum p).
Proof.
  rewrite <- enumerate_weight.
  revert k p; induction a as [|x a IH]; intros k [|e p]; simpl; try discriminate; intros H; [ring|].
  rewrite IH by auto. rewrite pow_add, Rpow_mult_distr, <- pow_mult. ring.
Qed.

Theorem power_coeff_eval a m z : a <> [] ->
  peval (map (power_coeff a m) (seq 0 (1 + (length a - 1) * m))) z = (peval a z) ^ m.
Proof.
  intros Ha. unfold peval at 2. rewrite <- multinomial_partitions.
  2:{ destruct a; [congruence|]. discriminate. }
  rewrite scaled_length. unfold peval.
  assert (G : forall l k, (forall i n, nth_error l i = Some n -> n = (k + i)%nat) ->
    Rsum (scaled z k (map (power_coeff a m) l)) = Rsum (map (power_coeff (scaled z 0 a) m) l)).
  { induction l as [|n l IH]; intros k Hl; [reflexivity|]. simpl. rewrite IH with (k := S k).
    2:{ intros i n' Hi. specialize (Hl (S i) n' Hi). lia. }
    f_equal. assert (n = k) as -> by (specialize (Hl 0%nat n eq_refl); lia).
    unfold power_coeff. rewrite scaled_length, Rmult_comm, <- Rsum_map_scal. apply Rsum_map_ext.
    intros p Hp. apply partitions_spec in Hp. destruct Hp as (HL & HS & HW).
    rewrite ppow_scaled. 2:{ rewrite HL. destruct a; [congruence|]. simpl. lia. }
    rewrite HW. simpl. rewrite Nat.add_0_r. ring. }
  apply G. intros i n Hi. assert (Hlt : (i < 1 + (length a - 1) * m)%nat).
  { apply nth_error_Some_bound_index in Hi || (assert (nth_error (seq 0 (1 + (length a - 1) * m)) i <> None) as H by congruence;
    apply nth_error_Some in H; rewrite seq_length in H; exact H). }
  apply nth_error_nth with (d := O) in Hi. rewrite seq_nth in Hi by auto. lia.
Qed.
