(** Property C65: convolutions. *)
From Coq Require Import Reals Lra ZArith.
From Verif Require Import Base Tensor IntervalArith Polynomials Enclosure TensorLemmas Spec IntervalProofs PolyProofs GraphEditor GraphSpec JaxBound JaxSpec JaxLemmas JaxIndex JaxGather JaxPush JaxDot ConvIndex ConvProofs ConvSpec
  JaxInit PropJax PropJaxLimits.
Open Scope R_scope.

(** * The value of a convolution *)
Lemma sumn_swap n m (f : nat -> nat -> R) : sumn n (fun i => sumn m (fun j => f i j)) = sumn m (fun j => sumn n (fun i => f i j)).
Proof. rewrite sumn_Rsum. rewrite (sumn_ext m _ (fun j => Rsum (map (fun i => f i j) (seq 0 n)))) by (intros; apply sumn_Rsum).
  induction (seq 0 n) as [|i l IH]; simpl; [symmetry; apply sumn_zero|]. rewrite IH. unfold Rsum; simpl. rewrite <- sumn_plus. reflexivity. Qed.
Lemma sumn_sumi_swap n sh (f : nat -> list nat -> R) : sumn n (fun i => sumi sh (fun P => f i P)) = sumi sh (fun P => sumn n (fun i => f i P)).
Proof. revert f; induction sh as [|m sh IH]; intros f; cbn [sumi]; [reflexivity|]. rewrite sumn_swap. apply sumn_ext. intros j _. apply IH. Qed.

Lemma axis_sum x i (f : nat -> nat -> R) : (0 < x_ldil x)%nat ->
  Rsum (map (fun pk => f (fst pk) (snd pk)) (x_src x i)) = sumn (x_lhs x) (fun p => sumn (x_rhs x) (fun k => (if meets_dec x i p k then 1 else 0) * f p k)).
Proof.
  intros HL. rewrite sumn_swap. unfold x_src. rewrite Rsum_flat_map, <- sumn_Rsum. apply sumn_ext. intros k _. cbv zeta.
  set (q := (Z.of_nat (i * x_stride x + k * x_rdil x) - fst (x_pad x))%Z). set (l := Z.of_nat (x_ldil x)).
  assert (Hl : (0 < l)%Z) by (unfold l; lia).
  assert (M : forall p, meets x i p k <-> (q = l * Z.of_nat p)%Z) by (intros p; unfold meets, q, l; rewrite Nat2Z.inj_add, !Nat2Z.inj_mul; lia).
  destruct ((0 <=? q)%Z && (q mod l =? 0)%Z && (q / l <? Z.of_nat (x_lhs x))%Z)%bool eqn:E.
  - apply andb_prop in E. destruct E as [E E3]. apply andb_prop in E. destruct E as [E1 E2]. apply Z.leb_le in E1. apply Z.eqb_eq in E2. apply Z.ltb_lt in E3.
    assert (EQ : q = (l * (q / l))%Z) by (apply Z_div_exact_full_2; lia). assert (0 <= q / l)%Z by (apply Z.div_pos; lia).
    unfold Rsum; cbn [map fold_right fst snd]. rewrite Rplus_0_r. rewrite <- (sumn_delta (x_lhs x) (fun p => f p k) (Z.to_nat (q / l))) by lia.
    apply sumn_ext. intros p Hp. f_equal. destruct (meets_dec x i p k) as [H'|H']; rewrite M in H'; destruct (Nat.eqb_spec (Z.to_nat (q / l)) p) as [E'|E']; auto; exfalso.
    + apply E'. rewrite H', Z.mul_comm, Z.div_mul by lia. lia.
    + apply H'. rewrite <- E', Z2Nat.id by auto. auto.
  - unfold Rsum; cbn [map fold_right]. symmetry. transitivity (sumn (x_lhs x) (fun _ => 0)); [|apply sumn_zero]. apply sumn_ext. intros p Hp.
    destruct (meets_dec x i p k) as [H'|H']; [|ring]. exfalso. rewrite M in H'. assert (0 <= q)%Z by nia.
    rewrite (proj2 (Z.leb_le 0 q)) in E by auto. rewrite H' in E. rewrite (Z.mul_comm l), Z.mod_mul, Z.div_mul in E by lia. cbn [andb Z.eqb] in E. apply Z.ltb_ge in E. lia.
Qed.
Lemma axes_sum xs : forall I (F : list nat -> list nat -> R), length I = length xs -> forallb x_valid xs = true ->
  Rsum (map (fun pk => F (fst pk) (snd pk)) (x_srcs xs I)) = sumi (map x_lhs xs) (fun P => sumi (map x_rhs xs) (fun K => together xs I P K * F P K)).
Proof.
  induction xs as [|x xs IH]; intros [|i I] F HL HV; try discriminate.
  - unfold Rsum. simpl. ring.
  - cbn [forallb] in HV. apply andb_prop in HV. destruct HV as [Hx HV]. injection HL as HL.
    assert (0 < x_ldil x)%nat. { unfold x_valid in Hx. repeat (apply andb_prop in Hx; destruct Hx as [Hx ?]). apply Nat.ltb_lt; auto. }
    cbn [x_srcs]. rewrite Rsum_flat_map.
    transitivity (Rsum (map (fun pk => sumi (map x_lhs xs) (fun P => sumi (map x_rhs xs) (fun K => together xs I P K * F (fst pk :: P) (snd pk :: K)))) (x_src x i))).
    { apply Rsum_map_ext. intros (p & k) _. etransitivity; [|exact (IH I (fun P K => F (p :: P) (k :: K)) HL HV)]. rewrite map_map. f_equal. apply map_ext. intros (P & K). reflexivity. }
    rewrite (axis_sum x i (fun p k => sumi (map x_lhs xs) (fun P => sumi (map x_rhs xs) (fun K => together xs I P K * F (p :: P) (k :: K))))) by auto.
    cbn [map sumi together]. apply sumn_ext. intros p _. rewrite <- sumn_sumi_swap. apply sumn_ext. intros k _.
    rewrite <- sumi_scal. apply sumi_ext. intros P _. rewrite <- sumi_scal. apply sumi_ext. intros K _. ring.
Qed.

Lemma check_axes c sa sb d : conv_check c sa sb = Ok d -> forallb x_valid (d_axes d) = true /\ is_perm (c_out_spec c) = true /\ length (c_out_spec c) = (length (d_axes d) + 2)%nat.
Proof.
  unfold conv_check. destruct (_ =? _)%nat eqn:E0; [|discriminate]. cbn [negb].
  match goal with |- context [negb ?x] => destruct x eqn:E; [|discriminate] end. cbn [negb].
  repeat (apply andb_prop in E; let E' := fresh "E" in destruct E as [E E']).
  destruct (to_spec (c_lhs_spec c) sa) as [|B [|C L]] eqn:EA; try discriminate. destruct (to_spec (c_rhs_spec c) sb) as [|F [|G K]]; try discriminate.
  destruct (x_axes _ _ _ _ _ _) as [xs|] eqn:EX; [|discriminate]. intros H.
  match type of H with context [if ?x then _ else _] => destruct x eqn:EC; [|discriminate] end. injection H as <-. cbn [d_axes].
  apply andb_prop in EC. destruct EC as [_ EC]. split; auto. split; auto. apply x_axes_ok in EX. destruct EX as [EX _].
  pose proof (to_spec_length (c_lhs_spec c) sa) as T. rewrite EA, EX in T. simpl in T. rewrite map_length in T. apply Nat.eqb_eq in E. apply Nat.eqb_eq in E6. lia.
Qed.
Lemma to_from spec l : is_perm spec = true -> length l = length spec -> to_spec spec (from_spec spec l) = l.
Proof.
  intros HP HL. apply is_perm_spec in HP. destruct HP as [H1 H2]. apply nth_ext with (d := 0%nat) (d' := 0%nat); [rewrite to_spec_length; auto|].
  intros k Hk. rewrite to_spec_length in Hk. rewrite nth_to_spec by auto. unfold from_spec. rewrite nth_map_seq by (apply H1, nth_In; auto). rewrite index_of_nth by auto. reflexivity.
Qed.

(** lax.conv_general_dilated computes the sum of the products of the entries
    that meet. *)
Theorem C65_convolution_value : forall c (a b v : tensor R), conv_general_dilated c a b = Ok v ->
  exists d, conv_check c (tshape a) (tshape b) = Ok d /\
    tshape v = from_spec (c_out_spec c) (d_batch d / c_batch_groups c :: d_out d :: map x_out (d_axes d))%nat /\
    forall n o I, length I = length (d_axes d) -> tdata v (from_spec (c_out_spec c) (n :: o :: I)) = conv_entry c d (tdata a) (tdata b) n o I.
Proof.
  intros c a b v H. unfold conv_general_dilated in H. apply bind_ok in H. destruct H as (d & Hd & H). exists d. split; auto. injection H as <-. split; [reflexivity|].
  intros n o I HI. cbn [tdata]. destruct (check_axes _ _ _ _ Hd) as (HX & HP & HL). unfold conv_src. rewrite to_from by (auto; simpl; lia). cbv zeta.
  rewrite fold_Rsum, Rsum_flat_map, <- sumn_Rsum. unfold conv_entry. apply sumn_ext. intros k _. rewrite map_map.
  etransitivity; [|exact (axes_sum (d_axes d) I (fun P K => tdata a _ * tdata b _) HI HX)]. f_equal. apply map_ext. intros (P & K). reflexivity.
Qed.
(** Its size along a spatial axis: the number of positions of the window that
    fit. *)
Theorem C65_convolution_size : forall x i, x_valid x = true ->
  (i < x_out x)%nat <-> (Z.of_nat i * Z.of_nat (x_stride x) + Z.of_nat (dilated (x_rhs x) (x_rdil x)) <= Z.of_nat (dilated (x_lhs x) (x_ldil x)) + fst (x_pad x) + snd (x_pad x))%Z.
Proof.
  intros x i H. unfold x_valid in H. repeat (apply andb_prop in H; destruct H as [H ?]). apply Nat.ltb_lt in H, H1, H2. apply Z.leb_le in H0.
  unfold x_out. cbv zeta. fold (x_padded x). set (w := Z.of_nat (dilated (x_rhs x) (x_rdil x))). set (s := Z.of_nat (x_stride x)). assert (0 < s)%Z by (unfold s; lia).
  destruct (Z.ltb_spec (x_padded x) w) as [L|L]; [split; nia|].
  assert (0 <= (x_padded x - w) / s)%Z by (apply Z.div_pos; lia).
  split; intros K.
  - assert (Z.of_nat i <= (x_padded x - w) / s)%Z by lia. pose proof (Z.mul_div_le (x_padded x - w) s). nia.
  - assert (Z.of_nat i <= (x_padded x - w) / s)%Z by (apply Z.div_le_lower_bound; nia). lia.
Qed.

(** * Convolutions of functions of an array *)
Lemma ibil_raises (a b : coef R) f : (forall u v, f u v = Err NotImplementedError \/ exists e, f u v = Err e) -> forall c, ibilinear a b f false <> Ok c.
Proof.
  intros H. assert (G : forall u v, exists e, f u v = Err e) by (intros u v; destruct (H u v) as [E|E]; eauto). clear H.
  intros c K. destruct a as [x|x0 x1], b as [y|y0 y1]; unfold ibilinear in K;
    match type of K with
    | context [sum_bilinear _ _] => unfold sum_bilinear in K; cbn [mapM fst snd] in K
    | _ => idtac end;
    match type of K with context [f ?u ?v] => destruct (G u v) as [e E]; rewrite E in K end; discriminate.
Qed.
Lemma conv_pbb_one_sided c (u w : tensor R) p q : (p = 0%nat /\ q <> 0%nat) \/ (p <> 0%nat /\ q = 0%nat) -> exists e, conv_pbb c u w p q = Err e.
Proof.
  intros H. unfold conv_pbb. destruct (move_last_to_front p u) as [u'|]; [|simpl; eauto]. destruct (move_last_to_front q w) as [w'|]; [|simpl; eauto]. cbn [bind].
  destruct (conv_general_dilated c u' w'); [|simpl; eauto]. cbn [bind].
  destruct H as [[-> Hq]|[Hp ->]]; [destruct q; [congruence|]|destruct p; [congruence|]]; simpl; eauto.
Qed.
Lemma foldM_err {S B} (f : S -> B -> res S) l : forall x s, In x l -> (forall s s', f s x <> Ok s') -> forall s', foldM f s l <> Ok s'.
Proof.
  induction l as [|y l IH]; intros x s HI HX s'; [destruct HI|]. cbn [foldM]. destruct HI as [->|HI].
  - destruct (f s x) as [t|] eqn:E; [exfalso; eapply HX; eauto|discriminate].
  - destruct (f s y) as [t|]; cbn [bind]; [|discriminate]. eapply IH; eauto.
Qed.
Lemma zipM_len l : forall m c, zipM l m = Some c -> length c = length l.
Proof.
  induction l as [|x l IH]; intros [|y m] c H; cbn [zipM] in H; try discriminate; [injection H as <-; auto|].
  destruct (bdim x y); [|discriminate]. destruct (zipM l m) eqn:E; [|discriminate]. injection H as <-. cbn [length]. erewrite IH; eauto.
Qed.
Lemma bshape_len a b c : bshape a b = Some c -> length c = Nat.max (length a) (length b).
Proof. unfold bshape. intros H. apply zipM_len in H. rewrite H. unfold padl. rewrite app_length, repeat_length. lia. Qed.

Lemma ebil_conv_raises (A : arith R) c (a b : enclosure R) : (1 <= max_degree A)%nat -> (1 <= tndim (fst (trust_region A)))%nat ->
  a <> [] -> b <> [] -> (2 <= length a \/ 2 <= length b)%nat -> forall e, earbitrary_bilinear A a b (conv_pbb c) <> Ok e.
Proof.
  intros HD HX Na Nb HL. destruct a as [|a0 a]; [congruence|]. destruct b as [|b0 b]; [congruence|]. unfold earbitrary_bilinear.
  assert (T : forall ai bj i j, (i + j = 1)%nat -> forall r, term_enclosure_coefficient A (conv_pbb c) ai bj i j <> Ok r).
  { intros ai bj i j Hij. unfold term_enclosure_coefficient. destruct (Nat.leb_spec (i + j) (max_degree A)); [|lia]. apply ibil_raises. intros u v. right. apply conv_pbb_one_sided.
    destruct i as [|[|i]]; destruct j as [|[|j]]; lia. }
  destruct HL as [HL|HL].
  - destruct a as [|a1 a]; [simpl in HL; lia|]. intros e. eapply foldM_err with (x := (1%nat, a1)); [simpl; auto|]. intros s s'. cbn beta iota.
    eapply foldM_err with (x := (0%nat, b0)); [simpl; auto|]. intros t t' K. cbn beta iota in K. apply bind_ok in K. destruct K as (r & K & _). revert K. apply T. auto.
  - destruct b as [|b1 b]; [simpl in HL; lia|]. intros e. eapply foldM_err with (x := (0%nat, a0)); [simpl; auto|]. intros s s'. cbn beta iota.
    eapply foldM_err with (x := (1%nat, b1)); [simpl; auto|]. intros t t' K. cbn beta iota in K. apply bind_ok in K. destruct K as (r & K & _). revert K. apply T. auto.
Qed.

Section Conv.
Variables (sc : scalars R) (gs : generators R).
Variables (ins outs : list jvar) (data : list jvar) (lits : nat -> tensor R) (consts : list (tensor R)).
(** For an argument that is an array (not a number) and degree at least 1,
    taylor_bounds never returns bounds for a program that convolves a value
    depending on the argument: its enclosure has at least two coefficients. *)
Theorem C65_array_argument_raises : forall pre post c a b y max_deg propagate x0 region d ia ib,
  (1 <= max_deg)%Z -> tshape x0 <> [] ->
  interpret sc gs (prog ins outs data lits pre) consts max_deg propagate x0 region = Ok d ->
  get_intermediate lits d a = Ok ia -> get_intermediate lits d b = Ok ib ->
  i_enc ia <> [] -> i_enc ib <> [] -> (2 <= length (i_enc ia) \/ 2 <= length (i_enc ib))%nat ->
  forall r, taylor_bounds sc gs (prog ins outs data lits (pre ++ Op (conv_p c) [a; b] [y] :: post)) consts max_deg propagate x0 region <> Ok r.
Proof.
  intros pre post c a b y max_deg propagate x0 region d ia ib HM HX HI Ha Hb Na Nb HL r Hr.
  destruct (interpret_split _ _ _ _ _ _ _ _ (Op (conv_p c) [a; b] [y] :: post) _ _ _ _ _ HI) as (tr & Etr & _ & ER). cbv zeta in ER. cbn [foldM] in ER.
  unfold taylor_bounds in Hr. rewrite ER in Hr. clear ER. apply bind_ok in Hr. destruct Hr as (d' & Hr & _). apply bind_ok in Hr. destruct Hr as (d1 & Hr & _).
  unfold step in Hr. cbn [oins odata oouts mapM] in Hr. rewrite Ha, Hb in Hr. cbn [bind existsb] in Hr.
  assert (NC : negb (is_constant ia) || (negb (is_constant ib) || false) = true).
  { unfold is_constant. destruct HL as [HL|HL]; [destruct (i_enc ia) as [|[] [|]]|destruct (i_enc ib) as [|[] [|]]]; simpl in *; try lia; auto; destruct (match i_enc ia with [Arr _] => true | _ => false end); auto. }
  rewrite NC in Hr. apply bind_ok in Hr. destruct Hr as (os & Hr & _). apply bind_ok in Hr. destruct Hr as (e & Hr & _). cbn [pushforward] in Hr.
  revert Hr. apply ebil_conv_raises; auto; cbn [max_degree trust_region]; [lia|].
  unfold isub in Etr. apply bind_ok in Etr. destruct Etr as (l & El & Etr). apply bind_ok in Etr. destruct Etr as (h & Eh & Etr). injection Etr as <- _.
  unfold tsub, tmap2 in El. destruct (bshape _ _) as [sh|] eqn:EB; [|discriminate]. injection El as <-. unfold tndim. cbn [tshape]. rewrite (bshape_len _ _ _ EB).
  destruct (tshape x0); [congruence|simpl; lia].
Qed.
End Conv.
