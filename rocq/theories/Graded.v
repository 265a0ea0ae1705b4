(** Parametricity of the polynomial operations: if a graded relation between
    coefficients and real values is preserved by the callbacks, then the
    operations compute coefficients whose values add up to the expected real. *)
From Coq Require Import Reals Lra Psatz.
From Verif Require Import Base Tensor IntervalArith TensorLemmas Polynomials PolyProofs.
Open Scope R_scope.

Section Graded.
Context {F : Type}.

(** [F2i G k a us]: [G (k+i) a_i us_i] for all [i]. *)
Inductive F2i (G : nat -> F -> R -> Prop) : nat -> list F -> list R -> Prop :=
| F2i_nil k : F2i G k [] []
| F2i_cons k c a u us : G k c u -> F2i G (S k) a us -> F2i G k (c :: a) (u :: us).

Lemma F2i_length (G : nat -> F -> R -> Prop) k a us : F2i G k a us -> length a = length us.
Proof. induction 1; simpl; auto. Qed.

Lemma F2i_nth (G : nat -> F -> R -> Prop) k a us i c u : F2i G k a us -> nth_error a i = Some c -> nth_error us i = Some u -> G (k + i)%nat c u.
Proof.
  intros H; revert i; induction H as [|k c0 a u0 us Hg H IH]; intros [|i]; simpl; try discriminate.
  - intros [= ->] [= ->]. rewrite Nat.add_0_r. auto.
  - intros Hc Hu. specialize (IH i Hc Hu). replace (k + S i)%nat with (S k + i)%nat by lia. exact IH.
Qed.

Lemma F2i_intro (G : nat -> F -> R -> Prop) k a us : length a = length us ->
  (forall i c u, nth_error a i = Some c -> nth_error us i = Some u -> G (k + i)%nat c u) -> F2i G k a us.
Proof.
  revert k us; induction a as [|c a IH]; intros k [|u us]; simpl; try discriminate; intros HL H; constructor.
  - specialize (H 0%nat c u eq_refl eq_refl). rewrite Nat.add_0_r in H. auto.
  - apply IH; [lia|]. intros i c' u' Hc Hu. specialize (H (S i) c' u' Hc Hu).
    replace (S k + i)%nat with (k + S i)%nat by lia. auto.
Qed.

Lemma F2i_impl (G H : nat -> F -> R -> Prop) k a us :
  (forall i c u, (k <= i)%nat -> G i c u -> H i c u) -> F2i G k a us -> F2i H k a us.
Proof.
  intros HI HF. induction HF; constructor; auto. apply IHHF. intros. apply HI; auto. lia.
Qed.

Lemma F2i_app (G : nat -> F -> R -> Prop) k a us b vs : F2i G k a us -> F2i G (k + length a)%nat b vs -> F2i G k (a ++ b) (us ++ vs).
Proof.
  intros H; revert b vs; induction H as [|k c a u us Hg H IH]; intros b vs Hb; simpl in *.
  - rewrite Nat.add_0_r in Hb. auto.
  - constructor; auto. apply IH. rewrite Nat.add_succ_r in Hb. exact Hb.
Qed.

Lemma F2i_firstn_skipn (G : nat -> F -> R -> Prop) k a us n : F2i G k a us ->
  F2i G k (firstn n a) (firstn n us) /\ F2i G (k + Nat.min n (length a))%nat (skipn n a) (skipn n us).
Proof.
  intros H; revert n; induction H as [|k c a u us Hg H IH]; intros [|n]; simpl.
  - split; constructor.
  - split; constructor.
  - rewrite Nat.add_0_r. split; constructor; auto.
  - destruct (IH n) as [I1 I2]. split; [constructor; auto|].
    replace (k + S (Nat.min n (length a)))%nat with (S k + Nat.min n (length a))%nat by lia. auto.
Qed.

(** ** set/get/add_at *)
Lemma get_nth_ok (l : list F) k v : get_nth l k = Ok v -> nth_error l k = Some v.
Proof. unfold get_nth. destruct (nth_error l k); congruence. Qed.

Lemma set_nth_ok (l : list F) k v l' : set_nth l k v = Ok l' ->
  length l' = length l /\ nth_error l' k = Some v /\ forall i, i <> k -> nth_error l' i = nth_error l i.
Proof.
  revert k l'; induction l as [|x l IH]; intros [|k] l' H; simpl in H; try discriminate.
  - injection H as <-. repeat split; auto. intros [|i] Hi; [congruence|reflexivity].
  - apply bind_ok in H. destruct H as (r & Hr & H). injection H as <-. destruct (IH _ _ Hr) as (L & N & O).
    simpl. repeat split; auto. intros [|i] Hi; simpl; auto.
Qed.

(** ** Scatter-accumulate *)
Section Scatter.
Context {X : Type}.
Variables (add : F -> F -> res F) (zero : F).
Variable G : nat -> F -> R -> Prop.
Hypothesis Hz : forall i b v c, G i b v -> add zero b = Ok c -> G i c v.
Hypothesis Hadd : forall i a b u v c, G i a u -> G i b v -> add a b = Ok c -> G i c (u + v).
Variables (mk : X -> res F) (key : X -> nat) (val : X -> R).

Definition ksum (items : list X) (k : nat) : R :=
  Rsum (map val (filter (fun x => (key x =? k)%nat) items)).

Lemma ksum_snoc items x k : ksum (items ++ [x]) k = ksum items k + (if (key x =? k)%nat then val x else 0).
Proof.
  unfold ksum. rewrite filter_app, map_app, Rsum_app. simpl. destruct (key x =? k)%nat; simpl; ring.
Qed.

Definition has_key (items : list X) (k : nat) : Prop := exists x, In x items /\ key x = k.

Definition scat_inv (items : list X) (out : list F) : Prop :=
  forall k o, nth_error out k = Some o ->
    (has_key items k -> G k o (ksum items k)) /\ (~ has_key items k -> o = zero).

Lemma has_key_dec items k : has_key items k \/ ~ has_key items k.
Proof.
  induction items as [|x items IH]; [right; intros (x & [] & _)|].
  destruct (Nat.eq_dec (key x) k); [left; exists x; simpl; auto|].
  destruct IH as [(y & Hy & E)|N]; [left; exists y; simpl; auto|].
  right. intros (y & [->|Hy] & E); [congruence|]. apply N. exists y; auto.
Qed.

Lemma scatter_step done out x c out' : scat_inv done out ->
  mk x = Ok c -> G (key x) c (val x) -> add_at add out (key x) c = Ok out' ->
  scat_inv (done ++ [x]) out' /\ length out' = length out /\ (key x < length out)%nat.
Proof.
  intros Hinv Hc HG Ho. unfold add_at in Ho. apply bind_ok in Ho. destruct Ho as (o & Hget & Ho).
  apply bind_ok in Ho. destruct Ho as (s & Hs & Hset). apply get_nth_ok in Hget.
  destruct (set_nth_ok _ _ _ _ Hset) as (HL & HN & HO).
  assert (Hlt : (key x < length out)%nat) by (apply nth_error_Some; congruence).
  split; [|auto]. intros k o' Hk. rewrite ksum_snoc.
  destruct (Nat.eq_dec k (key x)) as [->|Hne].
  - rewrite HN in Hk. injection Hk as <-. rewrite Nat.eqb_refl. split.
    + intros _. destruct (Hinv _ _ Hget) as [I1 I2]. destruct (has_key_dec done (key x)) as [Hh|Hh].
      * eapply Hadd; eauto.
      * rewrite (I2 Hh) in Hs. replace (ksum done (key x)) with 0.
        2:{ unfold ksum. symmetry. rewrite <- (Rsum_zero (fun _ : X => 0) (filter (fun y => (key y =? key x)%nat) done)) by auto.
            apply Rsum_map_ext. intros y Hy. apply filter_In in Hy. destruct Hy as [Hy Ey]. apply Nat.eqb_eq in Ey.
            exfalso. apply Hh. exists y; auto. }
        rewrite Rplus_0_l. eapply Hz; eauto.
    + intros N. exfalso. apply N. exists x. rewrite in_app_iff. simpl. auto.
  - rewrite HO in Hk by auto. destruct (Nat.eqb_spec (key x) k); [congruence|]. rewrite Rplus_0_r.
    destruct (Hinv _ _ Hk) as [I1 I2]. split.
    + intros (y & Hy & Ey). apply in_app_iff in Hy. destruct Hy as [Hy|[->|[]]]; [|congruence]. apply I1. exists y; auto.
    + intros N. apply I2. intros (y & Hy & Ey). apply N. exists y. rewrite in_app_iff. auto.
Qed.

Lemma scatter_gen todo : forall done out out',
  scat_inv done out ->
  (forall x c, In x todo -> mk x = Ok c -> G (key x) c (val x)) ->
  foldM (fun out x => c <- mk x ;; add_at add out (key x) c) out todo = Ok out' ->
  scat_inv (done ++ todo) out' /\ length out' = length out /\ Forall (fun x => (key x < length out)%nat) todo.
Proof.
  induction todo as [|x todo IH]; intros done out out' Hinv HG H; cbn [foldM] in H.
  - injection H as <-. rewrite app_nil_r. auto.
  - apply bind_ok in H. destruct H as (o1 & H1 & H). apply bind_ok in H1. destruct H1 as (c & Hc & H1).
    destruct (scatter_step _ _ _ _ _ Hinv Hc (HG x c (or_introl eq_refl) Hc) H1) as (I1 & L1 & B1).
    destruct (IH _ _ _ I1 (fun y c' Hy => HG y c' (or_intror Hy)) H) as (I2 & L2 & B2).
    rewrite <- app_assoc in I2. simpl in I2. split; auto. split; [congruence|].
    constructor; auto. rewrite <- L1. auto.
Qed.

Lemma nth_error_repeat {A} (x : A) n k o : nth_error (repeat x n) k = Some o -> o = x.
Proof. intros H. apply nth_error_In in H. apply repeat_spec in H. auto. Qed.

Lemma ksum_total items n : Forall (fun x => (key x < n)%nat) items ->
  Rsum (map (ksum items) (seq 0 n)) = Rsum (map val items).
Proof.
  induction items as [|x items IH] using rev_ind; intros H.
  - apply Rsum_zero. intros. reflexivity.
  - apply Forall_app in H. destruct H as [H1 H2]. inversion H2; subst. rewrite map_app, Rsum_app. simpl. rewrite Rplus_0_r.
    rewrite <- IH by auto.
    rewrite (Rsum_map_ext (ksum (items ++ [x])) (fun k => ksum items k + (if (key x =? k)%nat then val x else 0))) by (intros; apply ksum_snoc).
    rewrite Rsum_map_plus. f_equal. clear -H3.
    assert (G' : forall m s, (s <= key x < s + m)%nat -> Rsum (map (fun k => if (key x =? k)%nat then val x else 0) (seq s m)) = val x).
    { induction m as [|m IHm]; intros s Hs; [lia|]. cbn [seq map]. change (Rsum (?a :: ?l)) with (a + Rsum l).
      destruct (Nat.eqb_spec (key x) s).
      - rewrite Rsum_zero; [ring|]. intros y Hy. apply in_seq in Hy. destruct (Nat.eqb_spec (key x) y); [lia|auto].
      - rewrite IHm by lia. ring. }
    apply G'. lia.
Qed.

Lemma scatter n items out :
  (forall x c, In x items -> mk x = Ok c -> G (key x) c (val x)) ->
  (forall k, (k < n)%nat -> has_key items k) ->
  foldM (fun out x => c <- mk x ;; add_at add out (key x) c) (repeat zero n) items = Ok out ->
  length out = n /\ exists ws, F2i G 0 out ws /\ Rsum ws = Rsum (map val items).
Proof.
  intros HG HK H. destruct (scatter_gen items [] (repeat zero n) out) as (I & L & B); auto.
  { intros k o Hk. split; [intros (x & [] & _)|]. intros _. eapply nth_error_repeat; eauto. }
  rewrite repeat_length in *. split; auto. exists (map (ksum items) (seq 0 n)). split.
  - apply F2i_intro; [rewrite map_length, seq_length; auto|]. intros i c u Hc Hu. simpl.
    assert (Hi : (i < n)%nat) by (rewrite <- L; apply nth_error_Some; congruence).
    rewrite nth_error_map in Hu. destruct (nth_error (seq 0 n) i) eqn:E; [|discriminate]. injection Hu as <-.
    apply nth_error_nth with (d := O) in E. rewrite seq_nth in E by auto. subst n0.
    destruct (I i c Hc) as [I1 _]. apply I1. apply HK; auto.
  - apply ksum_total; auto.
Qed.
End Scatter.

(** Nested loops as one loop over the flattened list of index pairs. *)
Lemma foldM_app {A B} (f : A -> B -> res A) l m acc :
  foldM f acc (l ++ m) = (a <- foldM f acc l ;; foldM f a m).
Proof.
  revert acc; induction l as [|x l IH]; intros acc; cbn [foldM app]; [reflexivity|].
  destruct (f acc x); cbn [bind]; auto.
Qed.

Lemma foldM_map {A B C} (f : A -> C -> res A) (g : B -> C) l acc :
  foldM f acc (map g l) = foldM (fun a x => f a (g x)) acc l.
Proof. revert acc; induction l as [|x l IH]; intros acc; cbn [foldM map]; [reflexivity|]. destruct (f acc (g x)); cbn [bind]; auto. Qed.

Lemma foldM_ext {A B} (f g : A -> B -> res A) l acc : (forall a x, f a x = g a x) -> foldM f acc l = foldM g acc l.
Proof. intros H. revert acc; induction l as [|x l IH]; intros acc; cbn [foldM]; [reflexivity|]. rewrite H. destruct (g acc x); cbn [bind]; auto. Qed.

Lemma foldM_nested {A B C} (f : A -> B -> C -> res A) (l : list B) (m : list C) acc :
  foldM (fun out b => foldM (fun out c => f out b c) out m) acc l =
  foldM (fun out p => f out (fst p) (snd p)) acc (list_prod l m).
Proof.
  revert acc; induction l as [|b l IH]; intros acc; [reflexivity|]. simpl list_prod. cbn [foldM].
  rewrite foldM_app, foldM_map. simpl. destruct (foldM (fun out c => f out b c) acc m); cbn [bind]; auto.
Qed.

Lemma in_enumerate_from {A} k (l : list A) i x : In (i, x) (enumerate_from k l) <-> (k <= i)%nat /\ nth_error l (i - k) = Some x.
Proof.
  revert k; induction l as [|y l IH]; intros k; simpl.
  - split; [intros []|]. intros [_ H]. destruct (i - k)%nat; discriminate.
  - rewrite IH. split.
    + intros [[= -> ->]|[H1 H2]]; [rewrite Nat.sub_diag; auto|]. split; [lia|].
      replace (i - k)%nat with (S (i - S k)) by lia. auto.
    + intros [H1 H2]. destruct (Nat.eq_dec i k) as [->|Hne].
      * rewrite Nat.sub_diag in H2. injection H2 as ->. auto.
      * right. split; [lia|]. replace (i - k)%nat with (S (i - S k)) in H2 by lia. auto.
Qed.

Lemma in_enumerate {A} (l : list A) i x : In (i, x) (enumerate l) <-> nth_error l i = Some x.
Proof. unfold enumerate. rewrite in_enumerate_from, Nat.sub_0_r. split; [tauto | split; [lia|auto]]. Qed.

Lemma Rsum_list_prod {A B} (f : A -> R) (g : B -> R) l m :
  Rsum (map (fun p => f (fst p) * g (snd p)) (list_prod l m)) = Rsum (map f l) * Rsum (map g m).
Proof.
  induction l as [|x l IH]; simpl; [ring|]. rewrite map_app, Rsum_app, map_map, IH. simpl.
  rewrite Rsum_map_scal. ring.
Qed.

Lemma enumerate_sum {A} (us : list R) (a : list A) k : length a = length us ->
  Rsum (map (fun p : nat * A => nth (fst p - k) us 0) (enumerate_from k a)) = Rsum us.
Proof.
  revert k us; induction a as [|x a IH]; intros k [|u us]; simpl; try discriminate; intros H; [reflexivity|].
  rewrite Nat.sub_diag. f_equal. rewrite <- (IH (S k) us) by lia. apply Rsum_map_ext.
  intros (i, y) Hin. apply in_enumerate_from in Hin. destruct Hin as [Hin _]. simpl.
  replace (i - k)%nat with (S (i - S k)) by lia. reflexivity.
Qed.

Lemma enumerate_sum0 {A} (us : list R) (a : list A) : length a = length us ->
  Rsum (map (fun p : nat * A => nth (fst p) us 0) (enumerate a)) = Rsum us.
Proof.
  intros H. rewrite <- (enumerate_sum us a 0 H). apply Rsum_map_ext. intros. rewrite Nat.sub_0_r. reflexivity.
Qed.

(** The product scheme shared by [polynomials.arbitrary_bilinear] and
    [TaylorEnclosureArithmetic.arbitrary_bilinear]. *)
Lemma pair_product (add : F -> F -> res F) zero (G Ga Gb : nat -> F -> R -> Prop)
  (term : F -> F -> nat -> nat -> res F) (key : nat -> nat -> nat) n a b us vs out :
  (forall i b v c, G i b v -> add zero b = Ok c -> G i c v) ->
  (forall i a b u v c, G i a u -> G i b v -> add a b = Ok c -> G i c (u + v)) ->
  (forall i j x y u v c, nth_error a i = Some x -> nth_error b j = Some y -> Ga i x u -> Gb j y v -> term x y i j = Ok c -> G (key i j) c (u * v)) ->
  F2i Ga 0 a us -> F2i Gb 0 b vs ->
  (forall k, (k < n)%nat -> exists i j, (i < length a)%nat /\ (j < length b)%nat /\ key i j = k) ->
  foldM (fun out '(i, ai) => foldM (fun out '(j, bj) =>
            c <- term ai bj i j ;; add_at add out (key i j) c) out (enumerate b))
        (repeat zero n) (enumerate a) = Ok out ->
  length out = n /\ exists ws, F2i G 0 out ws /\ Rsum ws = Rsum us * Rsum vs.
Proof.
  intros Hz Hadd Hterm Ha Hb Hk H.
  pose proof (F2i_length _ _ _ _ Ha) as La. pose proof (F2i_length _ _ _ _ Hb) as Lb.
  set (mk := fun p : (nat * F) * (nat * F) => term (snd (fst p)) (snd (snd p)) (fst (fst p)) (fst (snd p))).
  set (ky := fun p : (nat * F) * (nat * F) => key (fst (fst p)) (fst (snd p))).
  set (val := fun p : (nat * F) * (nat * F) => nth (fst (fst p)) us 0 * nth (fst (snd p)) vs 0).
  assert (H' : foldM (fun out x => c <- mk x ;; add_at add out (ky x) c) (repeat zero n)
                 (list_prod (enumerate a) (enumerate b)) = Ok out).
  { rewrite <- H.
    etransitivity; [|symmetry; etransitivity; [|apply (foldM_nested (fun out p q =>
       c <- term (snd p) (snd q) (fst p) (fst q) ;; add_at add out (key (fst p) (fst q)) c))]].
    - reflexivity.
    - apply foldM_ext. intros o (i, ai). apply foldM_ext. intros o' (j, bj). reflexivity. }
  destruct (scatter add zero G Hz Hadd mk ky val n (list_prod (enumerate a) (enumerate b)) out) with (3 := H') as (L & ws & HW & HS).
  - intros ((i, x), (j, y)) c Hin Hc. apply in_prod_iff in Hin. destruct Hin as [H1 H2].
    apply in_enumerate in H1, H2. unfold mk, ky, val in *. simpl in *.
    assert (Hi : (i < length us)%nat) by (rewrite <- La; apply nth_error_Some; congruence).
    assert (Hj : (j < length vs)%nat) by (rewrite <- Lb; apply nth_error_Some; congruence).
    eapply Hterm; eauto.
    + apply (F2i_nth _ _ _ _ i x _ Ha H1). apply nth_error_nth'; auto.
    + apply (F2i_nth _ _ _ _ j y _ Hb H2). apply nth_error_nth'; auto.
  - intros k Hkn. destruct (Hk k Hkn) as (i & j & Hi & Hj & E).
    destruct (nth_error a i) as [x|] eqn:Ex; [|apply nth_error_None in Ex; lia].
    destruct (nth_error b j) as [y|] eqn:Ey; [|apply nth_error_None in Ey; lia].
    exists ((i, x), (j, y)). split; [|exact E]. apply in_prod_iff. rewrite !in_enumerate. auto.
  - split; auto. exists ws. split; auto. rewrite HS. unfold val.
    rewrite (Rsum_list_prod (fun p : nat * F => nth (fst p) us 0) (fun p : nat * F => nth (fst p) vs 0)).
    rewrite !enumerate_sum0 by auto. reflexivity.
Qed.

Lemma poly_bilinear_rel (add : F -> F -> res F) zero (G Ga Gb : nat -> F -> R -> Prop)
  (tp : F -> F -> nat -> nat -> res F) a b us vs out :
  (forall i b v c, G i b v -> add zero b = Ok c -> G i c v) ->
  (forall i a b u v c, G i a u -> G i b v -> add a b = Ok c -> G i c (u + v)) ->
  (forall i j x y u v c, nth_error a i = Some x -> nth_error b j = Some y -> Ga i x u -> Gb j y v -> tp x y i j = Ok c -> G (i + j)%nat c (u * v)) ->
  a <> [] -> b <> [] ->
  F2i Ga 0 a us -> F2i Gb 0 b vs ->
  poly_bilinear add zero tp a b = Ok out ->
  length out = (length a + length b - 1)%nat /\ exists ws, F2i G 0 out ws /\ Rsum ws = Rsum us * Rsum vs.
Proof.
  intros Hz Hadd Htp Na Nb Ha Hb H.
  apply (pair_product add zero G Ga Gb tp (fun i j => (i + j)%nat) (length a + length b - 1) a b us vs out); auto.
  intros k Hk. destruct a as [|x a]; [congruence|]. destruct b as [|y b]; [congruence|]. simpl in *.
  destruct (Nat.le_gt_cases k (length a)); [exists k, 0%nat; lia|]. exists (length a), (k - length a)%nat. lia.
Qed.

(** ** integer_power *)
Section Power.
Variables (add : F -> F -> res F) (zero one : F)
          (tp : F -> F -> nat -> nat -> res F) (tpow : F -> nat -> nat -> res F)
          (smul : Z -> F -> res F).
Variables G Gp : nat -> F -> R -> Prop.
Hypothesis Hz : forall i b v c, G i b v -> add zero b = Ok c -> G i c v.
Hypothesis Hadd : forall i a b u v c, G i a u -> G i b v -> add a b = Ok c -> G i c (u + v).
Hypothesis Hone : G 0 one 1.
Hypothesis Htp : forall i j x y u v c, G i x u -> Gp j y v -> tp x y i j = Ok c -> G (i + j)%nat c (u * v).
Variable Ga : nat -> F -> R -> Prop.
Hypothesis Htpow : forall i x u e c, Ga i x u -> tpow x i e = Ok c -> Gp (i * e)%nat c (u ^ e).
Hypothesis Hsmul : forall i k x u c, G i x u -> smul k x = Ok c -> G i c (IZR k * u).

Lemma run_product_rel a us p r w : F2i Ga 0 a us -> (length p <= length a)%nat ->
  run_product one tp tpow a p = Ok (r, w) -> w = weight p /\ G w r (ppow us p).
Proof.
  intros Ha Hp H. unfold run_product in H.
  assert (Gen : forall q k acc r w a' us', F2i Ga k a' us' -> (length q <= length a')%nat ->
     (forall j c, nth_error a' j = Some c -> nth_error a (k + j) = Some c) ->
     forall v, G (snd acc) (fst acc) v ->
     foldM (fun '(r, w) '(j, pj) => aj <- get_nth a j ;; t <- tpow aj j pj ;;
             r' <- tp r t w (j * pj) ;; Ok (r', w + j * pj)%nat) acc (enumerate_from k q) = Ok (r, w) ->
     w = (snd acc + list_sum (map (fun '(j, x) => (j * x)%nat) (enumerate_from k q)))%nat /\ G w r (v * ppow us' q)).
  { induction q as [|e q IH]; intros k (r0, w0) r' w' a' us' Ha' Hq Hn v Hv Hf.
    - simpl in *. injection Hf as <- <-. split; [lia|]. destruct us'; simpl; rewrite Rmult_1_r; auto.
    - inversion Ha' as [|? c a'' u us'' Hg Ht]; subst; [simpl in Hq; lia|]. cbn [enumerate_from foldM] in Hf.
      apply bind_ok in Hf. destruct Hf as ((r1, w1) & Hf1 & Hf).
      apply bind_ok in Hf1. destruct Hf1 as (aj & Haj & Hf1). apply get_nth_ok in Haj.
      apply bind_ok in Hf1. destruct Hf1 as (t & Ht1 & Hf1).
      apply bind_ok in Hf1. destruct Hf1 as (r1' & Hr1 & Hf1). injection Hf1 as <- <-.
      pose proof (Hn 0%nat c eq_refl) as Hn0. rewrite Nat.add_0_r in Hn0. rewrite Hn0 in Haj. injection Haj as <-.
      simpl in Hv. pose proof (Htp _ _ _ _ _ _ _ Hv (Htpow _ _ _ _ _ Hg Ht1) Hr1) as Hv1.
      destruct (IH (S k) (r1', (w0 + k * e)%nat) r' w' a'' us'' Ht ltac:(simpl in Hq; lia)) with (v := v * u ^ e) as [E1 E2]; auto.
      { intros j c' Hj. specialize (Hn (S j) c' Hj). replace (S k + j)%nat with (k + S j)%nat by lia. auto. }
      split.
      + cbn [enumerate_from map list_sum fold_right]. simpl in E1.
        change (list_sum (?x :: ?l)) with (x + list_sum l)%nat. unfold list_sum in *. simpl. lia.
      + simpl ppow. replace (v * (u ^ e * ppow us'' q)) with (v * u ^ e * ppow us'' q) by ring. auto. }
  destruct (Gen p 0%nat (one, 0%nat) r w a us Ha Hp ltac:(auto) 1 Hone H) as [E1 E2].
  simpl in E1. split; [exact E1|]. rewrite Rmult_1_l in E2. auto.
Qed.

Lemma get_coeff_rel a us e i c : F2i Ga 0 a us -> a <> [] -> partitions i e (length a - 1) <> [] ->
  get_coeff add zero one tp tpow smul a e i = Ok c -> G i c (power_coeff us e i).
Proof.
  intros Ha Na Hne H. unfold get_coeff in H. unfold power_coeff. rewrite <- (F2i_length _ _ _ _ Ha).
  assert (HP : forall p, In p (partitions i e (length a - 1)) -> length p = length a /\ weight p = i).
  { intros p Hp. apply partitions_spec in Hp. destruct a; [congruence|]. simpl in *. lia. }
  revert Hne HP H. generalize (partitions i e (length a - 1)) as ps. intros ps Hne HP H.
  assert (Gen : forall ps acc v, (acc = zero /\ v = 0 /\ ps <> [] \/ G i acc v) ->
     (forall p, In p ps -> length p = length a /\ weight p = i) ->
     foldM (fun c p => '(r, w) <- run_product one tp tpow a p ;; _ <- guard (w =? i)%nat AssertionError ;;
           m <- multinomial_coefficient p ;; term <- smul m r ;; add c term) acc ps = Ok c ->
     G i c (v + Rsum (map (fun p => IZR (mult p) * ppow us p) ps))).
  { induction ps0 as [|p ps0 IH]; intros acc v Hacc HP' Hf; cbn [foldM] in Hf.
    - injection Hf as <-. simpl. rewrite Rplus_0_r. destruct Hacc as [(_ & _ & Hx)|Hx]; [congruence|auto].
    - apply bind_ok in Hf. destruct Hf as (acc' & Hf1 & Hf).
      apply bind_ok in Hf1. destruct Hf1 as ((r, w) & Hr & Hf1).
      apply bind_ok in Hf1. destruct Hf1 as (u & _ & Hf1).
      apply bind_ok in Hf1. destruct Hf1 as (m & Hm & Hf1).
      apply bind_ok in Hf1. destruct Hf1 as (term & Ht & Hf1).
      destruct (HP' p (or_introl eq_refl)) as [HpL HpW].
      destruct (run_product_rel a us p r w Ha ltac:(lia) Hr) as [Ew Gr]. rewrite Ew, HpW in Gr.
      rewrite mult_ok in Hm by (destruct p; [destruct a; [congruence|discriminate]|discriminate]). injection Hm as <-.
      pose proof (Hsmul _ _ _ _ _ Gr Ht) as Gt.
      cbn [map]. change (Rsum (?x :: ?l)) with (x + Rsum l). rewrite <- Rplus_assoc.
      apply IH with (acc := acc'); auto; [|intros q Hq; apply HP'; right; auto].
      right. destruct Hacc as [(-> & -> & _)|Hacc].
      + rewrite Rplus_0_l. eapply Hz; eauto.
      + eapply Hadd; eauto. }
  rewrite <- (Rplus_0_l (Rsum _)). apply (Gen ps zero 0); auto.
Qed.

Lemma integer_power_rel a us e out : F2i Ga 0 a us -> a <> [] -> (1 <= e)%nat ->
  integer_power add zero one tp tpow smul a (Z.of_nat e) = Ok out ->
  length out = (1 + (length a - 1) * e)%nat /\
  F2i G 0 out (map (power_coeff us e) (seq 0 (1 + (length a - 1) * e))) /\
  Rsum (map (power_coeff us e) (seq 0 (1 + (length a - 1) * e))) = (Rsum us) ^ e.
Proof.
  intros Ha Na He H. unfold integer_power in H.
  destruct (Z.ltb_spec (Z.of_nat e) 0); [lia|]. destruct (Z.eqb_spec (Z.of_nat e) 0); [lia|].
  rewrite Nat2Z.id in H. cbv zeta in H.
  assert (H' : mapM (get_coeff add zero one tp tpow smul a e) (seq 0 (1 + (length a - 1) * e)) = Ok out)
    by (destruct a; [congruence | exact H]). clear H. rename H' into H.
  set (N := (1 + (length a - 1) * e)%nat) in *.
  assert (HM : forall l k out, (forall i n, nth_error l i = Some n -> n = (k + i)%nat /\ (n < N)%nat) ->
     mapM (get_coeff add zero one tp tpow smul a e) l = Ok out ->
     length out = length l /\ F2i G k out (map (power_coeff us e) l)).
  { induction l as [|q l IH]; intros k out0 Hl Hm; cbn [mapM] in Hm.
    - injection Hm as <-. split; [reflexivity|constructor].
    - apply bind_ok in Hm. destruct Hm as (y & Hy & Hm). apply bind_ok in Hm. destruct Hm as (ys & Hys & Hm).
      injection Hm as <-. destruct (Hl 0%nat q eq_refl) as [En Hn]. rewrite Nat.add_0_r in En. subst q.
      destruct (IH (S k) ys) as [L Fy]; auto.
      { intros i m Hi. destruct (Hl (S i) m Hi). split; [lia|auto]. }
      split; [simpl; lia|]. simpl. constructor; auto.
      eapply get_coeff_rel; eauto. apply partitions_nonempty. unfold N in Hn. lia. }
  edestruct HM as [L Fo]; [|exact H|]; [instantiate (1 := 0%nat)|].
  { intros i m Hi. assert (Hlt : (i < N)%nat).
    { assert (nth_error (seq 0 N) i <> None) as Hx by congruence. apply nth_error_Some in Hx. rewrite seq_length in Hx. auto. }
    apply nth_error_nth with (d := O) in Hi. rewrite seq_nth in Hi by auto. lia. }
  rewrite seq_length in L. split; auto. split; auto.
  unfold N. rewrite (F2i_length _ _ _ _ Ha). apply multinomial_partitions.
  intros ->. inversion Ha; subst. congruence.
Qed.
End Power.
End Graded.
