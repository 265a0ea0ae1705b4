(** Proofs for C76: the equations emitted for a convolutional network. *)
From Coq Require Import Reals Lra ZArith.
From Verif Require Import Base Tensor IntervalArith Enclosure TensorLemmas Spec IntervalProofs JaxEval GraphEditor GraphSpec JaxBound JaxSpec JaxLemmas JaxIndex JaxGather JaxDot PolyProofs PowerProofs JaxOps JaxTable ConvIndex TotalSpec Mlp MlpProofs Cnn.
Open Scope R_scope.

(** ** Convolutions without dilation or groups *)
Lemma sum_over_Rsum s f : sum_over s f = Rsum (map f (all_idx s)).
Proof. reflexivity. Qed.
Lemma sum_over_cons n s f : sum_over (n :: s) f = Rsum (map (fun i => sum_over s (fun J => f (i :: J))) (seq 0 n)).
Proof.
  rewrite sum_over_Rsum. cbn [all_idx]. rewrite Rsum_flat_map. apply Rsum_map_ext. intros i _. rewrite map_map. reflexivity.
Qed.
Lemma sum_over_zero s : sum_over s (fun _ => 0) = 0.
Proof. unfold sum_over. induction (all_idx s) as [|a l IH]; simpl; auto. rewrite IH. ring. Qed.
Lemma sum_over_ext s f g : (forall J, valid s J -> f J = g J) -> sum_over s f = sum_over s g.
Proof. intros H. rewrite !sum_over_Rsum. apply Rsum_map_ext. intros J HJ. apply H, all_idx_valid. exact HJ. Qed.

Lemma window_sum : forall L Ks st pads xs J (F : list nat -> list nat -> R),
  x_axes L Ks st pads (repeat 1%nat (length L)) (repeat 1%nat (length L)) = Some xs -> length J = length L ->
  Rsum (map (fun '(P, K) => F P K) (x_srcs xs J)) = sum_over Ks (fun K => padded_at L (fun P => F P K) (position st pads J K)).
Proof.
  induction L as [|l L IH]; intros Ks st pads xs J F HX HJ.
  - cbn [length repeat] in HX. destruct Ks, st, pads; try discriminate. injection HX as <-. destruct J; [|discriminate].
    unfold sum_over, Rsum. simpl. reflexivity.
  - cbn [length repeat] in HX. destruct Ks as [|k Ks], st as [|s st], pads as [|pad pads]; try discriminate. cbn [x_axes] in HX.
    destruct (x_axes L Ks st pads _ _) as [xs'|] eqn:EX; [|discriminate]. injection HX as <-. destruct J as [|i J]; [discriminate|]. injection HJ as HJ.
    cbn [x_srcs]. rewrite Rsum_flat_map.
    rewrite (Rsum_map_ext _ (fun pk => sum_over Ks (fun K => padded_at L (fun P => F (fst pk :: P) (snd pk :: K)) (position st pads J K)))).
    2:{ intros (p & q) _. cbn [fst snd]. rewrite map_map. rewrite <- (IH Ks st pads xs' J (fun P K => F (p :: P) (q :: K)) EX HJ). f_equal. apply map_ext. intros (P & K). reflexivity. }
    rewrite sum_over_cons. unfold x_src. rewrite Rsum_flat_map. cbn [x_rhs x_lhs x_stride x_pad x_ldil x_rdil]. apply Rsum_map_ext. intros q _. cbv zeta.
    rewrite Nat.mul_1_r. replace (Z.of_nat (i * s + q) - fst pad)%Z with (Z.of_nat i * Z.of_nat s + Z.of_nat q - fst pad)%Z by lia.
    set (z := (Z.of_nat i * Z.of_nat s + Z.of_nat q - fst pad)%Z). change (Z.of_nat 1) with 1%Z. rewrite Z.mod_1_r, Z.div_1_r. cbn [Z.eqb]. rewrite andb_true_r.
    cbn [position padded_at]. fold z. destruct ((0 <=? z)%Z && (z <? Z.of_nat l)%Z)%bool.
    + unfold Rsum. cbn [map fold_right fst snd]. rewrite Rplus_0_r. reflexivity.
    + rewrite sum_over_zero. reflexivity.
Qed.
Lemma padded_scale : forall L (f : list nat -> R) a p, padded_at L (fun P => f P * a) p = padded_at L f p * a.
Proof.
  induction L as [|l L IH]; intros f a p; destruct p as [|z p]; cbn [padded_at]; auto. destruct (_ && _)%bool; [apply IH|ring].
Qed.
Lemma padded_ext : forall L (f g : list nat -> R) p, length p = length L -> (forall P, valid L P -> f P = g P) -> padded_at L f p = padded_at L g p.
Proof.
  induction L as [|l L IH]; intros f g p Hp H; destruct p as [|z p]; try discriminate; cbn [padded_at]; [apply H; constructor|].
  destruct (_ && _)%bool eqn:E; auto. apply andb_prop in E. destruct E as [E1 E2]. apply Z.leb_le in E1. apply Z.ltb_lt in E2.
  apply IH; [injection Hp; auto|]. intros P HP. apply H. constructor; auto. lia.
Qed.
Lemma position_length : forall st pads J K n, length st = n -> length pads = n -> length J = n -> length K = n -> length (position st pads J K) = n.
Proof.
  induction st as [|s st IH]; intros pads J K n H1 H2 H3 H4; cbn [position]; [exact H1|].
  destruct n; [discriminate|]. destruct pads, J, K; try discriminate. cbn [length] in *. f_equal. apply IH; congruence.
Qed.

Lemma index_seq n j : (j < n)%nat -> index_of j (seq 0 n) = j.
Proof. intros H. pose proof (index_of_nth (seq 0 n) j (seq_NoDup n 0)) as E. rewrite seq_length, seq_nth in E by lia. apply E. exact H. Qed.
Lemma from_seq n (l : list nat) : length l = n -> from_spec (seq 0 n) l = l.
Proof.
  intros H. unfold from_spec. rewrite seq_length. rewrite (map_ext_in _ (fun j => nth j l 0%nat)).
  - rewrite (map_nth_seq l 0 n) by lia. cbn [skipn]. apply firstn_all2. lia.
  - intros j Hj. apply in_seq in Hj. rewrite index_seq by lia. reflexivity.
Qed.
Lemma to_seq n (l : list nat) : length l = n -> to_spec (seq 0 n) l = l.
Proof. intros H. unfold to_spec. rewrite (map_nth_seq l 0 n) by lia. cbn [skipn]. apply firstn_all2. lia. Qed.
Lemma perm_seq n : is_perm (seq 0 n) = true.
Proof.
  unfold is_perm. rewrite nodupb_seq, andb_true_r, seq_length. apply forallb_forall. intros j Hj. apply in_seq in Hj. apply Nat.ltb_lt. lia.
Qed.
Lemma dilated_1 n : dilated n 1 = n.
Proof. unfold dilated. destruct (Nat.eqb_spec n 0); lia. Qed.
Lemma axes_exist : forall L Ks st pads, length Ks = length L -> length st = length L -> length pads = length L ->
  nonempty st = true -> nonempty (sizes_out L Ks st pads) = true ->
  exists xs, x_axes L Ks st pads (repeat 1%nat (length L)) (repeat 1%nat (length L)) = Some xs /\ forallb x_valid xs = true /\ map x_out xs = sizes_out L Ks st pads.
Proof.
  induction L as [|l L IH]; intros Ks st pads H1 H2 H3 N1 N2; destruct Ks as [|k Ks], st as [|s st], pads as [|pad pads]; try discriminate; cbn [length repeat x_axes].
  - exists []. auto.
  - cbn [nonempty forallb sizes_out] in N1, N2. apply andb_prop in N1. destruct N1 as [N1 N1']. apply andb_prop in N2. destruct N2 as [N2 N2'].
    apply Nat.ltb_lt in N1, N2. destruct (IH Ks st pads) as (xs & -> & HV & HO); try (injection H1; injection H2; injection H3; auto; fail); auto.
    assert (HP : (0 <= (Z.of_nat l + fst pad + snd pad - Z.of_nat k) / Z.of_nat s)%Z) by (unfold positions in N2; lia).
    assert (HQ : (0 <= Z.of_nat l + fst pad + snd pad - Z.of_nat k)%Z).
    { destruct (Z_lt_le_dec (Z.of_nat l + fst pad + snd pad - Z.of_nat k) 0) as [Q|Q]; auto. exfalso. pose proof (Z.div_lt_upper_bound _ (Z.of_nat s) 0 ltac:(lia) ltac:(rewrite Z.mul_0_r; exact Q)). lia. }
    eexists. split; [reflexivity|]. split.
    + cbn [forallb]. rewrite HV, andb_true_r. unfold x_valid, x_padded. cbn [x_stride x_ldil x_rdil x_lhs x_pad]. rewrite dilated_1.
      rewrite (proj2 (Nat.ltb_lt 0 s)) by auto. cbn [Nat.ltb Nat.leb andb]. apply Z.leb_le. lia.
    + cbn [map sizes_out]. rewrite HO. f_equal. unfold x_out, x_padded, positions. cbn [x_stride x_ldil x_rdil x_lhs x_rhs x_pad]. rewrite !dilated_1.
      destruct (Z.ltb_spec (Z.of_nat l + fst pad + snd pad) (Z.of_nat k)); [lia|]. rewrite Z2Nat.inj_add by lia. reflexivity.
Qed.

Lemma conv_runs sc l B C L (a w : tensor R) : tshape a = B :: C :: L -> tshape w = channels_out l :: C :: window_shape l ->
  length (window_shape l) = length L -> length (v_strides l) = length L -> length (v_pads l) = length L ->
  nonempty (v_strides l) = true -> nonempty (size_out l L) = true ->
  exists v, prim_bind sc (conv_prim (length L) l) [a; w] = Ok [v] /\ tshape v = B :: channels_out l :: size_out l L /\ forall n o J, (o < channels_out l)%nat -> length J = length L -> tdata v (n :: o :: J) =
      sum_below C (fun c => sum_over (window_shape l) (fun K => padded_at L (fun P => tdata a (n :: c :: P)) (position (v_strides l) (v_pads l) J K) * tdata w (o :: c :: K))).
Proof.
  intros Sa Sw H1 H2 H3 N1 N2. destruct (axes_exist L (window_shape l) (v_strides l) (v_pads l) H1 H2 H3 N1 N2) as (xs & EX & HV & HO).
  assert (LX : length xs = length L) by (apply x_axes_ok in EX; destruct EX as [-> _]; rewrite map_length; reflexivity).
  set (F := channels_out l) in *. set (Ks := window_shape l) in *.
  assert (CK : conv_check (ConvParams (v_strides l) (v_pads l) (repeat 1%nat (length L)) (repeat 1%nat (length L)) (seq 0 (length L + 2)) (seq 0 (length L + 2)) (seq 0 (length L + 2)) 1 1)
                 (B :: C :: L) (F :: C :: Ks) = Ok (ConvDims B F C xs)).
  { unfold conv_check. cbn [c_strides c_padding c_lhs_dilation c_rhs_dilation c_lhs_spec c_rhs_spec c_out_spec c_feature_groups c_batch_groups].
    cbn [length]. rewrite H1, Nat.eqb_refl, !seq_length, perm_seq. replace (length L + 2 =? S (S (length L)))%nat with true by (symmetry; apply Nat.eqb_eq; lia).
    cbn [negb andb Nat.ltb Nat.leb]. rewrite !to_seq by (simpl; lia). rewrite EX, Nat.mul_1_r, Nat.eqb_refl, HV. rewrite !Nat.mod_1_r. reflexivity. }
  cbn [prim_bind conv_prim]. unfold one_res, conv_general_dilated. rewrite Sa, Sw. rewrite CK. cbn [bind]. eexists. split; [reflexivity|]. split.
  - cbn [tshape]. unfold conv_shape. cbn [c_out_spec c_batch_groups d_batch d_out d_axes]. rewrite Nat.div_1_r, HO, from_seq; [reflexivity|].
    cbn [length]. rewrite <- HO, map_length. lia.
  - intros n o J Ho HJ. cbn [tdata]. unfold conv_src. cbn [c_out_spec c_lhs_spec c_rhs_spec c_batch_groups c_feature_groups d_batch d_out d_in d_axes].
    rewrite to_seq by (simpl; lia). cbv zeta. rewrite !Nat.div_1_r. rewrite (Nat.div_small o F) by auto. cbn [Nat.mul Nat.add].
    rewrite fold_Rsum, Rsum_flat_map, <- sumn_Rsum, sumn_below. apply sum_below_ext. intros c _. rewrite map_map.
    rewrite <- (sum_over_ext Ks (fun K => padded_at L (fun P => tdata a (n :: c :: P) * tdata w (o :: c :: K)) (position (v_strides l) (v_pads l) J K))) by (intros; apply padded_scale).
    rewrite <- (window_sum L Ks _ _ xs J (fun P K => tdata a (n :: c :: P) * tdata w (o :: c :: K)) EX HJ).
    apply Rsum_map_ext. intros (P & K) HPK.
    assert (LP : length P = length L /\ length K = length L).
    { clear - HPK HJ LX. revert J P K L HJ LX HPK. induction xs as [|x xs IH]; intros J P K L HJ LX HPK.
      - destruct HPK as [E|[]]. injection E as <- <-. auto.
      - destruct L as [|l' L]; [discriminate|]. destruct J as [|i J]; [discriminate|]. cbn [x_srcs] in HPK. apply in_flat_map in HPK. destruct HPK as ((p & k) & _ & HPK).
        apply in_map_iff in HPK. destruct HPK as ((P' & K') & E & HPK). injection E as <- <-. destruct (IH J P' K' L); auto. simpl; lia. }
    destruct LP. rewrite !from_seq by (simpl; lia). reflexivity.
Qed.

(** ** Flattening *)
Lemma all_idx_length s : length (all_idx s) = prod s.
Proof.
  induction s as [|n s IH]; [reflexivity|]. cbn [all_idx]. change (prod (n :: s)) with (n * prod s)%nat. generalize 0%nat.
  induction n as [|n IHn]; intros j; cbn [seq flat_map]; [reflexivity|]. rewrite app_length, map_length, IHn, IH. lia.
Qed.
Lemma nth_all_idx : forall s k, (k < prod s)%nat -> nth k (all_idx s) [] = unravel s k.
Proof.
  induction s as [|n s IH]; intros k Hk.
  - change (prod []) with 1%nat in Hk. assert (k = 0%nat) by lia. subst. reflexivity.
  - change (prod (n :: s)) with (n * prod s)%nat in Hk. cbn [all_idx unravel].
    assert (G : forall j, nth k (flat_map (fun i => map (cons i) (all_idx s)) (seq j n)) [] = (j + k / prod s)%nat :: unravel s (k mod prod s)); [|exact (G 0%nat)].
    revert k Hk. induction n as [|n IHn]; intros k Hk j; [simpl in Hk; lia|]. cbn [seq flat_map].
    assert (P : (0 < prod s)%nat) by (destruct (prod s); lia).
    destruct (Nat.lt_ge_cases k (prod s)) as [K|K].
    + rewrite app_nth1 by (rewrite map_length, all_idx_length; auto). rewrite (nth_indep _ [] (j :: [])) by (rewrite map_length, all_idx_length; auto). rewrite map_nth, IH by auto.
      rewrite Nat.div_small, Nat.mod_small by auto. rewrite Nat.add_0_r. reflexivity.
    + rewrite app_nth2 by (rewrite map_length, all_idx_length; auto). rewrite map_length, all_idx_length. rewrite IHn by nia.
      replace k with (k - prod s + 1 * prod s)%nat at 3 4 by lia. rewrite Nat.div_add, Nat.mod_add by lia. f_equal. lia.
Qed.
Lemma flatten_value B s (a : tensor R) : tshape a = B :: s ->
  exists v, gather (g_reshape [B; length (all_idx s)]) a = Ok v /\ tshape v = [B; length (all_idx s)] /\
    forall n j, (j < length (all_idx s))%nat -> tdata v [n; j] = tdata a (n :: nth j (all_idx s) []).
Proof.
  intros Sa. unfold gather. cbn [g_shape g_reshape g_src]. rewrite Sa, all_idx_length.
  replace (prod (B :: s) =? prod [B; prod s])%nat with true by (symmetry; apply Nat.eqb_eq; change (prod (B :: s)) with (B * prod s)%nat; change (prod [B; prod s]) with (B * (prod s * 1))%nat; lia).
  cbn [bind]. eexists. split; [reflexivity|]. split; [reflexivity|]. intros n j Hj. cbn [tdata map fold_right]. rewrite Rplus_0_r. f_equal.
  assert (ravel [B; prod s] [n; j] = n * prod s + j)%nat as -> by (cbn [ravel fold_right]; lia).
  cbn [unravel]. rewrite Nat.add_comm, Nat.div_add, Nat.mod_add by lia. rewrite Nat.div_small, Nat.mod_small by auto. rewrite nth_all_idx by auto. reflexivity.
Qed.

(** ** The bias *)
Lemma channel_bias_value sp o (b : tensor R) : tshape b = [o] ->
  exists v, gather (g_broadcast_in_dim (1%nat :: o :: repeat 1%nat sp) [1%nat]) b = Ok v /\ tshape v = 1%nat :: o :: repeat 1%nat sp /\
    forall i j J, (j < o)%nat -> tdata v (i :: j :: J) = tdata b [j].
Proof.
  intros Sb. unfold gather. cbn [g_shape g_broadcast_in_dim g_src]. rewrite Sb.
  cbn [length Nat.eqb increasing forallb combine andb nth]. rewrite Nat.eqb_refl, orb_true_r.
  cbn [Nat.ltb Nat.leb andb bind]. eexists. split; [reflexivity|]. split; [reflexivity|].
  intros i j J Hj. cbn [tdata map combine fold_right nth]. destruct (Nat.eqb_spec o 1); [replace j with 0%nat by lia|]; apply Rplus_0_r.
Qed.
Lemma channel_bias_sum B o L (a b : tensor R) (g : nat -> R) : tshape a = B :: o :: L -> tshape b = 1%nat :: o :: repeat 1%nat (length L) ->
  (forall i j J, (j < o)%nat -> tdata b (i :: j :: J) = g j) ->
  exists v, tmap2 Rplus a b = Ok v /\ tshape v = B :: o :: L /\ forall J, valid (B :: o :: L) J -> tdata v J = tdata a J + g (nth 1 J 0%nat).
Proof.
  intros Sa Sb Hb.
  assert (C : compat (1%nat :: o :: repeat 1%nat (length L)) (B :: o :: L)).
  { apply (compat_app [] [] _ (B :: o :: L) (compat_nil [])). constructor; [left; reflexivity|]. constructor; [right; reflexivity|].
    clear. induction L; simpl; constructor; auto. left. reflexivity. }
  destruct (tmap2_total Rplus a b (B :: o :: L)) as (v & Hv & Sv); [rewrite Sa, Sb; apply bshape_compat_r; exact C|]. exists v. split; auto. split; auto.
  intros J HJ. destruct (tmap2_ok _ _ _ _ Hv) as [_ E]. rewrite E. unfold bget. rewrite Sa, Sb, (bidx_valid _ _ HJ). f_equal.
  destruct (proj1 (valid_cons _ _ _) HJ) as (i & J1 & -> & Hi & HJ1). destruct (proj1 (valid_cons _ _ _) HJ1) as (j & J2 & -> & Hj & HJ2). pose proof (valid_length _ _ HJ2) as LJ. cbn [nth].
  pose proof (bidx_app [1%nat] [B] (o :: repeat 1%nat (length L)) [i] (j :: J2)) as EB. cbn [app] in EB. rewrite EB; [| |reflexivity|simpl; rewrite repeat_length; lia].
  2:{ apply (compat_app [] [] [1%nat] [B] (compat_nil [])). constructor; [left; reflexivity|constructor]. }
  pose proof (bidx_app [o] [o] (repeat 1%nat (length L)) [j] J2) as EC. cbn [app] in EC. rewrite EC; [| |reflexivity|rewrite repeat_length; lia].
  2:{ apply (compat_app [] [] [o] [o] (compat_nil [])). constructor; [right; reflexivity|constructor]. }
  rewrite (bidx_valid [o] [j]) by (constructor; auto; constructor).
  rewrite (bidx_repeat1 1 [i] eq_refl : bidx [1%nat] [i] = [0%nat]). cbn [app]. apply Hb. exact Hj.
Qed.

(** The kinds of a product with weights, plus a bias of the same rank. *)
Definition moving_kind (D : nat) : kind := if (D =? 0)%nat then KFull else KLin.
Lemma layer_kinds D kh kw kb so sb : is_cast kh = false -> kw = KConst \/ kw = moving_kind D -> kb = KConst \/ kb = moving_kind D ->
  kh <> KConst \/ kw = moving_kind D \/ kb = moving_kind D -> length sb = length so ->
  is_const (kdot kh kw) && is_const kb = false /\ live (sum_kind D (kdot kh kw) so kb sb so) /\
  (kb = KConst \/ kw = moving_kind D -> is_cast (sum_kind D (kdot kh kw) so kb sb so) = false).
Proof.
  intros NK Ckw Ckb HM LS. unfold moving_kind in *.
  assert (ES : shape_eqb so so = true) by (apply shape_eqb_eq; auto).
  assert (NC : is_const (kdot kh kw) && is_const kb = false).
  { clear -NK HM Ckw Ckb. unfold kdot. destruct HM as [HM|[HM|HM]].
    - destruct Ckw as [->| ->]; [|destruct (D =? 0)%nat]; destruct kh; try discriminate; try congruence; reflexivity.
    - rewrite HM. destruct (D =? 0)%nat; destruct kh; try discriminate; reflexivity.
    - rewrite HM. destruct (D =? 0)%nat; apply andb_false_r. }
  split; auto. unfold sum_kind. destruct (D =? 0)%nat eqn:ED; [split; [split; discriminate|reflexivity]|]. split.
  - assert (K1 : same_rank (kdot kh kw) so so = true).
    { clear -NK Ckw. destruct Ckw as [->| ->]; destruct kh; try discriminate; cbn; try reflexivity; apply Nat.eqb_refl. }
    assert (K2 : same_rank kb sb so = true) by (destruct Ckb as [->| ->]; [reflexivity|cbn; rewrite LS; apply Nat.eqb_refl]).
    rewrite K1, K2. cbn [andb]. repeat match goal with |- live (if ?b then _ else _) => destruct b end; split; discriminate.
  - intros Fbw. destruct (classic_const kb) as [Eb'|Eb'].
    + rewrite Eb' in *. clear -ES NK Ckw NC. destruct Ckw as [->| ->]; destruct kh; try discriminate; cbn -[shape_eqb] in NC |- *; try discriminate; rewrite ?ES; reflexivity.
    + destruct Fbw as [Fbw|Fbw]; [congruence|]. rewrite Fbw. destruct Ckb as [->| ->]; [congruence|].
      clear -ES NK. destruct kh; try discriminate; cbn -[shape_eqb]; rewrite ES; destruct (shape_eqb sb so); unfold covers; rewrite ?ES; cbn -[shape_eqb]; reflexivity.
Qed.

Section Run.
Variables (usr : nat -> R -> res R) (gs : generators R) (D : nat) (prop : bool).
Let sc := scalarsR usr.
Let X : list nat := [].
Variables (m : nat) (consts : list (tensor R)) (x : tensor R).
Hypothesis Lc : length consts = m.
Hypothesis Sx : tshape x = X.
Notation good := (good usr gs X D prop).
Notation base := (base consts x).

(** [t] holds the images [h]. *)
Definition images_are (s : list nat) (h : list nat -> R) (t : tensor R) : Prop := tshape t = s /\ forall J, valid s J -> tdata t J = h J.

Lemma conv_good B C L l c n hv r k rest Post h th kh : base r k -> (0 < B)%nat -> (0 < C)%nat -> convs_fit C L [l] ->
  is_cast kh = false -> (kh <> KConst \/ is_moving (v_k l) \/ is_moving (v_b l)) ->
  has r k hv th kh -> images_are (B :: C :: L) h th -> (hv < n)%nat -> (m < n)%nat ->
  (forall j t, nth_error (conv_consts l) j = Some t -> nth_error consts (c + j) = Some t) ->
  (forall r' k' t' kd, is_cast kd = false -> kd <> KConst -> base r' k' -> has r' k' (n + conv_size l - 1) t' kd ->
     images_are (B :: channels_out l :: size_out l L) (conv_value l C L x h) t' -> good r' k' rest Post) ->
  good r k (conv_ops (length L) l hv c n ++ rest) Post.
Proof.
  intros HB HBt HC (Ho & Nw & L1 & L2 & L3 & Ns & No & Fw & Fb & Fbw & Fa & _) NK HM Hh Himg Hhv Hn Hc HK.
  unfold conv_ops. rewrite <- !app_assoc.
  assert (NW : nonempty (channels_out l :: C :: window_shape l) = true) by (cbn [nonempty forallb]; rewrite !(proj2 (Nat.ltb_lt _ _)) by auto; exact Nw).
  assert (NB : nonempty [channels_out l] = true) by (cbn [nonempty forallb]; rewrite !(proj2 (Nat.ltb_lt _ _)) by auto; reflexivity).
  eapply (param_good usr gs X D prop m consts x Lc Sx (v_k l) (channels_out l :: C :: window_shape l) c n r k); auto.
  { intros j t Hj. apply Hc. unfold conv_consts. rewrite nth_error_app1; auto. apply nth_error_Some. congruence. }
  intros r1 k1 w B1 Hw Ww P1.
  eapply (param_good usr gs X D prop m consts x Lc Sx (v_b l) [channels_out l] _ _ r1 k1); auto.
  { lia. }
  { intros j t Hj. rewrite <- Nat.add_assoc. apply Hc. unfold conv_consts. rewrite nth_error_app2 by lia. rewrite Nat.add_comm, Nat.add_sub. exact Hj. }
  intros r2 k2 b B2 Hb Wb P2.
  set (nb := (n + param_size (v_k l))%nat) in *. set (cb := (c + length (param_consts (v_k l)))%nat) in *. set (n1 := (nb + param_size (v_b l))%nat) in *.
  set (o := channels_out l) in *. cbn [app].
  assert (Hh2 : has r2 k2 hv th kh) by (apply P2; [apply P1; auto|lia]).
  assert (Hw2 : has r2 k2 (param_var (v_k l) c n) w (param_kind D (v_k l))).
  { apply P2; auto. subst nb. destruct (v_k l) as [t|t u] eqn:El; simpl; [|lia].
    assert (c < length consts)%nat; [|lia]. apply nth_error_Some. specialize (Hc 0%nat t). rewrite Nat.add_0_r in Hc. rewrite Hc; [discriminate|].
    unfold conv_consts. rewrite El. reflexivity. }
  assert (Vb : (param_var (v_b l) cb nb < n1)%nat).
  { subst n1 nb cb. destruct (v_b l) as [t|t u] eqn:El; simpl; [|lia].
    assert (c + length (param_consts (v_k l)) < length consts)%nat; [|lia]. apply nth_error_Some.
    rewrite (Hc (length (param_consts (v_k l))) t); [discriminate|].
    unfold conv_consts. rewrite El, nth_error_app2, Nat.sub_diag by lia. reflexivity. }
  assert (Ln : (n <= n1)%nat) by (subst n1 nb; lia).
  destruct Himg as [Sh Eh]. destruct Ww as [Sw Ew]. destruct Wb as [Sb Eb].
  destruct (conv_runs sc l B C L th w Sh Sw L1 L2 L3 Ns No) as (dv & Hdv & Sdv & Edv). fold o in Sdv, Edv.
  set (so := B :: o :: size_out l L) in *.
  assert (NN : nonempty so = true) by (subst so; cbn [nonempty forallb]; rewrite !(proj2 (Nat.ltb_lt _ _)) by auto; exact No).
  assert (LO : length (size_out l L) = length L).
  { clear -L1 L2 L3. unfold size_out. revert L1 L2 L3. generalize (window_shape l) (v_strides l) (v_pads l).
    induction L as [|a L IH]; intros K st pads H1 H2 H3; destruct K, st, pads; try discriminate; cbn [sizes_out length] in *; auto. }
  set (kw := param_kind D (v_k l)) in *. set (kb := param_kind D (v_b l)) in *.
  assert (Ckw : kw = KConst \/ kw = moving_kind D) by (subst kw; unfold param_kind; destruct (v_k l); auto).
  assert (Ckb : kb = KConst \/ kb = moving_kind D) by (subst kb; unfold param_kind; destruct (v_b l); auto).
  assert (Mw : is_moving (v_k l) -> kw = moving_kind D) by (subst kw; unfold param_kind; destruct (v_k l); simpl; tauto).
  assert (Mb : is_moving (v_b l) -> kb = moving_kind D) by (subst kb; unfold param_kind; destruct (v_b l); simpl; tauto).
  assert (Mb' : ~ is_moving (v_b l) -> kb = KConst) by (subst kb; unfold param_kind; destruct (v_b l); simpl; tauto).
  (* the convolution *)
  eapply good_cons with (args := [th; w]) (ks := [kh; kw]) (v := dv) (kd := kdot kh kw).
  { cbn [lookups]. rewrite (proj1 Hh2), (proj1 Hw2). reflexivity. } { cbn [lookups]. rewrite (proj2 Hh2), (proj2 Hw2). reflexivity. }
  { exact Hdv. } { rewrite Sdv; exact NN. }
  { clear -NK Ckw. unfold kdot, moving_kind in *. destruct Ckw as [->| ->]; [|destruct (D =? 0)%nat]; destruct kh; try discriminate; reflexivity. }
  { intros _. destruct (forallb _ _); [exact I|right; reflexivity]. }
  (* the bias *)
  destruct (channel_bias_value (length L) o b Sb) as (bv & Hbv & Sbv & Ebv).
  eapply good_cons with (args := [b]) (ks := [kb]) (v := bv) (kd := kb).
  { cbn [lookups]. rewrite upd_other, (proj1 Hb) by lia. reflexivity. } { cbn [lookups]. rewrite upd_other, (proj2 Hb) by lia. reflexivity. }
  { cbn [prim_bind gather_of]. unfold one_res. rewrite Hbv. reflexivity. }
  { rewrite Sbv. cbn [nonempty forallb]. rewrite (proj2 (Nat.ltb_lt _ _) Ho). cbn. clear. induction (length L); auto. }
  { unfold moving_kind in Ckb. destruct Ckb as [->| ->]; [|destruct (D =? 0)%nat]; reflexivity. }
  { intros _. unfold moving_kind in Ckb. destruct Ckb as [->| ->]; [exact I|]. destruct (Nat.eqb_spec D 0); cbn; auto. }
  rewrite <- LO in Sbv. destruct (channel_bias_sum B o (size_out l L) dv bv (fun j => tdata b [j]) Sdv Sbv Ebv) as (av & Hav & Sav & Eav). fold so in Sav, Eav.
  set (sb := 1%nat :: o :: repeat 1%nat (length (size_out l L))) in *.
  destruct (layer_kinds D kh kw kb so sb NK Ckw Ckb) as (NC & HL & HCst).
  { destruct HM as [HM|[HM|HM]]; auto. }
  { subst sb so. cbn [length]. rewrite repeat_length. reflexivity. }
  set (kd := sum_kind D (kdot kh kw) so kb sb so) in *.
  assert (Val : forall J, valid so J -> tdata av J =
      sum_below C (fun c => sum_over (window_shape l) (fun K => padded_at L (fun P => h (nth 0 J 0%nat :: c :: P)) (position (v_strides l) (v_pads l) (skipn 2 J) K) * param_value (v_k l) x (nth 1 J 0%nat :: c :: K)))
         + param_value (v_b l) x [nth 1 J 0%nat]).
  { intros J HJ. rewrite Eav by auto. destruct (proj1 (valid_cons _ _ _) HJ) as (i & J1 & -> & Hi & HJ1). destruct (proj1 (valid_cons _ _ _) HJ1) as (j & J2 & -> & Hj & HJ2).
    pose proof (valid_length _ _ HJ2) as LJ. cbn [nth skipn]. rewrite Edv by (auto; lia). rewrite Eb by (constructor; auto; constructor). f_equal.
    apply sum_below_ext. intros q Hq. apply sum_over_ext. intros K HK'. rewrite Ew by (constructor; auto; constructor; auto). f_equal.
    apply padded_ext; [apply position_length; auto; try lia; rewrite (valid_length _ _ HK'); auto|]. intros P HP. apply Eh. constructor; auto. }
  (* the sum *)
  eapply good_cons with (args := [dv; bv]) (ks := [kdot kh kw; kb]) (v := av) (kd := kd).
  { cbn [lookups]. rewrite upd_same, upd_other, upd_same by lia. reflexivity. }
  { cbn [lookups]. rewrite upd_same, upd_other, upd_same by lia. reflexivity. }
  { cbn [prim_bind]. unfold one_res, tadd. change (@nadd R _) with Rplus. rewrite Hav. reflexivity. } { rewrite Sav; exact NN. }
  { cbn [map combine]. rewrite Sdv, Sbv, Sav. unfold result_kind. cbn [forallb fst]. rewrite andb_true_r, NC. reflexivity. }
  { intros _. cbn [forallb]. rewrite andb_true_r, NC. exact I. }
  match goal with |- good ?a ?b _ _ => set (r4 := a); set (k4 := b) end.
  assert (B4 : base r4 k4).
  { unfold r4, k4. apply (base_upd m consts x Lc); [apply (base_upd m consts x Lc); [apply (base_upd m consts x Lc); [exact B2|]|]|]; lia. }
  unfold conv_size in HK. destruct (v_act l) as [e|] eqn:El; cbn [app].
  - destruct (act_value usr e av Fa) as (ev & Hev & Sev & Eev). destruct HL as [HL1 HL2].
    eapply good_cons with (args := [av]) (ks := [kd]) (v := ev) (kd := KFull).
    { cbn [lookups]. unfold r4. rewrite upd_same. reflexivity. } { cbn [lookups]. unfold k4. rewrite upd_same. reflexivity. }
    { cbn [prim_bind]. unfold one_res. cbn [s_elem scalarsR]. rewrite Hev. reflexivity. } { rewrite Sev, Sav; exact NN. }
    { clearbody kd. destruct kd; try congruence; reflexivity. }
    { intros _. clearbody kd. destruct kd; try congruence; (intros [E|[]]; discriminate E). }
    apply (HK _ _ ev KFull).
    + reflexivity.
    + discriminate.
    + apply (base_upd m consts x Lc); [exact B4|unfold r4; lia].
    + replace (n + (param_size (v_k l) + param_size (v_b l) + 3 + 1) - 1)%nat with (n1 + 3)%nat by (subst n1 nb; lia). apply has_same.
    + split; [rewrite Sev; exact Sav|]. intros J HJ. rewrite Eev by (rewrite Sav; auto). rewrite (Val J HJ).
      destruct (proj1 (valid_cons _ _ _) HJ) as (i & J1 & -> & Hi & HJ1). destruct (proj1 (valid_cons _ _ _) HJ1) as (j & J2 & -> & Hj & HJ2). unfold conv_value. rewrite El. reflexivity.
  - apply (HK _ _ av kd).
    + apply HCst. destruct Fbw as [F|[F|F]]; [left; auto|right; auto|congruence].
    + apply HL.
    + exact B4.
    + replace (n + (param_size (v_k l) + param_size (v_b l) + 3 + 0) - 1)%nat with (n1 + 2)%nat by (subst n1 nb; lia). apply has_same.
    + split; [exact Sav|]. intros J HJ. rewrite (Val J HJ).
      destruct (proj1 (valid_cons _ _ _) HJ) as (i & J1 & -> & Hi & HJ1). destruct (proj1 (valid_cons _ _ _) HJ1) as (j & J2 & -> & Hj & HJ2). unfold conv_value. rewrite El. reflexivity.
Qed.

Lemma convs_good B rest Post : forall ls C L c n hv r k h th kh, base r k -> (0 < B)%nat -> (0 < C)%nat -> convs_fit C L ls ->
  is_cast kh = false -> (kh <> KConst \/ match ls with [] => False | l :: _ => is_moving (v_k l) \/ is_moving (v_b l) end) ->
  has r k hv th kh -> images_are (B :: C :: L) h th -> (hv < n)%nat -> (m < n)%nat ->
  (forall j t, nth_error (flat_map conv_consts ls) j = Some t -> nth_error consts (c + j) = Some t) ->
  (forall r' k' t' kd, is_cast kd = false -> kd <> KConst -> base r' k' -> has r' k' (match ls with [] => hv | _ => n + convs_size ls - 1 end) t' kd ->
     images_are (B :: last_shape ls C L) (images ls C L x h) t' -> good r' k' rest Post) ->
  good r k (convs_ops (length L) ls hv c n ++ rest) Post.
Proof.
  induction ls as [|l ls IH]; intros C L c n hv r k h th kh HB HBt HC HF NK HM Hh Himg Hhv Hn Hc HK.
  - destruct HM as [HM|[]]. cbn [convs_ops app]. apply (HK r k th kh); auto.
  - cbn [convs_ops]. rewrite <- app_assoc. cbn [convs_fit] in HF. destruct HF as (Ho & Nw & L1 & L2 & L3 & Ns & No & Fw & Fb & Fbw & Fa & HF).
    eapply (conv_good B C L l c n hv r k _ _ h th kh); eauto.
    + cbn [convs_fit]. tauto.
    + intros j t Hj. apply Hc. cbn [flat_map]. rewrite nth_error_app1; auto. apply nth_error_Some. congruence.
    + intros r' k' t' kd NK' NC' B' H' I'.
      assert (LS : (3 <= conv_size l)%nat) by (unfold conv_size; lia).
      assert (LO : length (size_out l L) = length L).
      { clear -L1 L2 L3. unfold size_out. revert L1 L2 L3. generalize (window_shape l) (v_strides l) (v_pads l).
        induction L as [|a L IH]; intros K st pads H1 H2 H3; destruct K, st, pads; try discriminate; cbn [sizes_out length] in *; auto. }
      rewrite <- LO. refine (IH (channels_out l) (size_out l L) _ _ _ r' k' (conv_value l C L x h) t' kd B' HBt Ho HF NK' (or_introl NC') H' I' _ _ _ _).
      * lia.
      * lia.
      * intros j t Hj. rewrite <- Nat.add_assoc. apply Hc. cbn [flat_map]. rewrite nth_error_app2 by lia. rewrite Nat.add_comm, Nat.add_sub. exact Hj.
      * intros r2 k2 t2 kd2 A1 A2 A3 A4 A5. apply (HK r2 k2 t2 kd2); auto. cbn [convs_size fold_right]. fold (convs_size ls).
        destruct ls as [|l2 ls]; [cbn [convs_size fold_right]; rewrite Nat.add_0_r; exact A4|].
        replace (n + (conv_size l + convs_size (l2 :: ls)) - 1)%nat with (n + conv_size l + convs_size (l2 :: ls) - 1)%nat by lia. exact A4.
Qed.
End Run.

Lemma last_nonempty : forall ls C L, (0 < C)%nat -> nonempty L = true -> convs_fit C L ls -> nonempty (last_shape ls C L) = true.
Proof.
  induction ls as [|l ls IH]; intros C L HC HL HF; cbn [last_shape].
  - cbn [nonempty forallb]. rewrite (proj2 (Nat.ltb_lt _ _) HC). exact HL.
  - cbn [convs_fit] in HF. apply IH; tauto.
Qed.
Lemma nonempty_count s : nonempty s = true -> (0 < length (all_idx s))%nat.
Proof.
  rewrite all_idx_length. induction s as [|n s IH]; intros H; [simpl; lia|]. cbn [nonempty forallb] in H. apply andb_prop in H. destruct H as [H1 H2].
  apply Nat.ltb_lt in H1. specialize (IH H2). change (prod (n :: s)) with (n * prod s)%nat. nia.
Qed.

(** ** The whole program *)
(** The program computes [f] with supported and accepted equations. *)
Definition computes (usr : nat -> R -> res R) (pr : program R) (consts : list (tensor R)) (X : list nat) (f : tensor R -> R) : Prop :=
  forall gs D prop x, tshape x = X ->
  exists r k k' y, assign jvar_eqb (lit_value (p_lits pr)) (gdata (p_graph pr) ++ gins (p_graph pr)) (consts ++ [x]) = Some r /\
    assign jvar_eqb (fun v => match v with Lit _ => Some KConst | _ => None end) (gdata (p_graph pr) ++ gins (p_graph pr)) (map (fun _ => KConst) consts ++ [KLin]) = Some k /\
    analyse (scalarsR usr) X D r k (gops (p_graph pr)) = Some k' /\
    all_accepted (scalarsR usr) gs X D prop r k (gops (p_graph pr)) /\
    meaning (scalarsR usr) pr consts x = Some [y] /\ tshape y = [] /\ tdata y [] = f x.

Lemma cnn_runs usr N : cnn_fits N -> computes usr (cnn_program N) (cnn_consts N) [] (cnn_loss N).
Proof.
  intros (HBt & HC & HL & Sd & HF & HM & HLs & Ht) gs D prop x Sx.
  destruct (assign_seq (cnn_consts N) [Var 0] [x] 1 (lit_value (fun _ => tscalar 0))) as (r0 & Er & R1 & _).
  destruct (assign_seq (map (fun _ => KConst) (cnn_consts N)) [Var 0] [KLin] 1 (fun v => match v with Lit _ => Some KConst | _ => None end)) as (k0 & Ek & K1 & _).
  rewrite map_length in Ek. cbn [assign] in Er, Ek. fold (upd r0 0 x) in Er. fold (upd k0 0 KLin) in Ek.
  set (r := upd r0 0 x) in *. set (k := upd k0 0 KLin) in *.
  assert (HB : base (cnn_consts N) x r k).
  { split; [split; apply upd_same|]. intros j t Hj. split; unfold r, k; rewrite upd_other by lia; [apply (R1 j t Hj)|].
    apply (K1 j). rewrite nth_error_map, Hj. reflexivity. }
  set (m := length (cnn_consts N)) in *.
  assert (Lm : (1 < S m)%nat) by (subst m; unfold cnn_consts; rewrite !app_length; simpl; lia).
  assert (Hd : has r k 1 (f_data N) KConst) by (apply (proj2 HB 0%nat); reflexivity).
  pose proof (last_nonempty _ _ _ HC HL HF) as NL. pose proof (nonempty_count _ NL) as NC.
  set (n' := (S m + convs_size (f_convs N))%nat).
  assert (G : good usr gs [] D prop r k (cnn_ops N (S m)) (fun r' => exists y, r' (Var (m + cnn_size N)) = Some y /\ tshape y = [] /\ tdata y [] = cnn_loss N x)).
  { unfold cnn_ops. fold n'.
    eapply (convs_good usr gs D prop m (cnn_consts N) x eq_refl Sx (f_batch N) _ _ (f_convs N) (f_channels N) (f_size N) 1 (S m) 1 r k (tdata (f_data N)) (f_data N) KConst); auto.
    { split; auto. }
    { intros j t Hj. unfold cnn_consts. cbn [app]. cbn [Nat.add nth_error]. rewrite nth_error_app1; [exact Hj|]. apply nth_error_Some. congruence. }
    intros r1 k1 t1 kd NK' NC' B' H' [S1 E1].
    destruct (flatten_value (f_batch N) (last_shape (f_convs N) (f_channels N) (f_size N)) t1 S1) as (fv & Hfv & Sfv & Efv). fold (flat_size N) in Hfv, Sfv, Efv, NC.
    assert (HV : has r1 k1 (n' - 1) t1 kd).
    { replace (n' - 1)%nat with (match f_convs N with [] => 1%nat | _ => (S m + convs_size (f_convs N) - 1)%nat end); auto.
      destruct (f_convs N); [contradiction|]. reflexivity. }
    eapply good_cons with (args := [t1]) (ks := [kd]) (v := fv) (kd := kd).
    { cbn [lookups]. rewrite (proj1 HV). reflexivity. } { cbn [lookups]. rewrite (proj2 HV). reflexivity. }
    { cbn [prim_bind gather_of]. unfold one_res. rewrite Hfv. reflexivity. }
    { rewrite Sfv. cbn [nonempty forallb]. rewrite !(proj2 (Nat.ltb_lt _ _)) by auto. reflexivity. }
    { cbn. destruct kd; try discriminate; try congruence; reflexivity. }
    { intros _. destruct (forallb _ _); [exact I|right; reflexivity]. }
    destruct (net_good usr gs [] D prop m (cnn_consts N) x eq_refl Sx [f_batch N] (f_target N) (f_layers N) (flat_size N)
      (1 + length (flat_map conv_consts (f_convs N))) (n' + 1) n' (upd r1 n' fv) (upd k1 n' kd) (features N x) fv kd) as (r' & k' & G1 & G2 & G3 & y & Ey & Sy & Vy); auto.
    - apply (base_upd m (cnn_consts N) x eq_refl); auto. lia.
    - cbn [nonempty forallb]. rewrite (proj2 (Nat.ltb_lt _ _)) by auto. reflexivity.
    - intros ->. discriminate.
    - apply has_same.
    - split; [exact Sfv|]. intros J i HJ Hi. destruct (proj1 (valid_cons _ _ _) HJ) as (a & J1 & -> & Ha & HJ1). apply valid_length in HJ1. destruct J1; [|discriminate].
      cbn [app]. rewrite Efv by auto. unfold features. cbn [nth]. apply E1. constructor; auto. apply all_idx_valid. apply nth_In. exact Hi.
    - lia.
    - lia.
    - intros j t Hj. unfold cnn_consts. cbn [app]. cbn [Nat.add nth_error]. rewrite nth_error_app2 by lia. rewrite Nat.add_comm, Nat.add_sub. exact Hj.
    - exists r', k'. split; auto. split; auto. split; auto. exists y. split; [|split; auto].
      replace (m + cnn_size N)%nat with (n' + 1 + net_size [f_batch N] (f_layers N) - 1)%nat by (unfold cnn_size; lia). exact Ey. }
  destruct G as (r' & k' & E1 & E2 & E3 & y & Ey & Sy & Vy).
  exists r, k, k', y. split; [exact Er|]. split; [exact Ek|]. split; [exact E2|]. split; [exact E3|]. split; [|split; [exact Sy|exact Vy]].
  unfold meaning, run_graph, closed_graph. cbn [gins gouts gops gdata p_graph cnn_program p_lits]. fold m. 
  cbn [gdata gins p_graph cnn_program] in Er. fold m in Er. rewrite Er. unfold sem in E1. rewrite E1. cbn [lookups]. rewrite Ey. reflexivity.
Qed.

(** The equations of the program. *)
Definition cnn_acts (N : cnn) (e : elem) : Prop := (exists l, In l (f_convs N) /\ v_act l = Some e) \/ exists l, In l (f_layers N) /\ l_act l = Some e.
Definition cnn_prim (acts : elem -> Prop) (p : prim R) : Prop :=
  match p with
  | add_p | sub_p | mul_p | dot_general_p _ _ _ _ | broadcast_in_dim_p _ _ | reduce_sum_p _ | reshape_p _ | conv_p _ => True
  | integer_pow_p y => y = 2%Z
  | elementwise_p e => acts e
  | _ => False
  end.
Lemma convs_ops_are sp (acts : elem -> Prop) : forall ls h c n, (forall l e, In l ls -> v_act l = Some e -> acts e) ->
  Forall (fun o => cnn_prim acts (odata o) /\ ~ In Drop (oins o)) (convs_ops sp ls h c n).
Proof.
  assert (ND1 : forall a, ~ In Drop [Var a]) by (intros a [E|[]]; discriminate).
  assert (ND2 : forall a b, ~ In Drop [Var a; Var b]) by (intros a b [E|[E|[]]]; discriminate).
  assert (PO : forall p c n, Forall (fun o => cnn_prim acts (odata o) /\ ~ In Drop (oins o)) (param_ops p c n)).
  { intros [t|t u] c n; cbn [param_ops]; repeat constructor; cbn [odata oins]; auto. }
  induction ls as [|l ls IH]; intros h c n HA; cbn [convs_ops]; [constructor|].
  apply Forall_app. split.
  - unfold conv_ops. repeat (apply Forall_app; split); try apply PO.
    + repeat constructor; cbn [odata oins]; auto.
    + destruct (v_act l) as [e|] eqn:E; repeat constructor; cbn [odata oins]; auto. apply (HA l e); simpl; auto.
  - apply IH. intros l' e' Hl. apply HA. right. exact Hl.
Qed.
Lemma cnn_ops_are N n : Forall (fun o => cnn_prim (cnn_acts N) (odata o) /\ ~ In Drop (oins o)) (cnn_ops N n).
Proof.
  unfold cnn_ops. apply Forall_app. split; [apply convs_ops_are; intros l e H1 H2; left; eauto|]. apply Forall_app. split.
  - repeat constructor. cbn [oins]. intros [E|[]]; discriminate.
  - eapply Forall_impl; [|apply net_ops_are]. intros o [H1 H2]. split; auto. destruct (odata o); simpl in *; auto. right. exact H1.
Qed.
Lemma convs_ops_outs sp : forall ls h c n, flat_map oouts (convs_ops sp ls h c n) = map Var (seq n (convs_size ls)).
Proof.
  induction ls as [|l ls IH]; intros h c n; cbn [convs_ops]; [reflexivity|]. cbn [convs_size fold_right]. fold (convs_size ls).
  rewrite flat_map_app, IH, seq_app, map_app. f_equal. unfold conv_ops, conv_size.
  destruct (v_k l) as [tw|tw uw], (v_b l) as [tb|tb ub], (v_act l) as [e|]; cbn [param_ops param_size flat_map oouts app seq Nat.add map];
    rewrite ?Nat.add_0_r; repeat (f_equal; try lia).
Qed.
Lemma cnn_ops_outs N n : flat_map oouts (cnn_ops N n) = map Var (seq n (cnn_size N)).
Proof.
  unfold cnn_ops, cnn_size. cbv zeta. rewrite !flat_map_app, convs_ops_outs, net_ops_outs. cbn [flat_map oouts app].
  rewrite !seq_app, !map_app. cbn [seq map]. rewrite <- app_assoc. cbn [app]. f_equal. f_equal. f_equal. f_equal. lia.
Qed.
(** Graphs whose variables are numbered consecutively. *)
Lemma numbered_wf (ops : list (op jvar (prim R))) (consts : list (tensor R)) lits s v :
  flat_map oouts ops = map Var (seq (S (length consts)) s) -> (forall o, In o ops -> ~ In Drop (oins o)) ->
  wf_program (Program (@Graph jvar (prim R) (list jvar) [Var 0] [Var v] ops (map Var (seq 1 (length consts)))) lits) consts.
Proof.
  intros HO HN. unfold wf_program, defined. cbn [gins gouts gdata gops p_graph].
  split; [eauto|]. split; [eexists; split; [reflexivity|discriminate]|].
  split; [apply Forall_forall; intros w Hw; apply in_map_iff in Hw; destruct Hw as (i & <- & _); reflexivity|].
  split; [rewrite map_length, seq_length; reflexivity|].
  rewrite HO. set (m := length consts).
  assert (E : map Var (seq 1 m) ++ [Var 0] ++ map Var (seq (S m) s) = map Var (seq 1 m ++ [0%nat] ++ seq (S m) s)) by (rewrite !map_app; reflexivity).
  rewrite E. split; [apply Forall_forall; intros w Hw; apply in_map_iff in Hw; destruct Hw as (i & <- & _); reflexivity|]. split; [|exact HN].
  replace (filter is_var (map Var (seq 1 m ++ [0%nat] ++ seq (S m) s))) with (map Var (seq 1 m ++ [0%nat] ++ seq (S m) s))
    by (clear; induction (seq 1 m ++ [0%nat] ++ seq (S m) s) as [|a l IH]; simpl; congruence).
  apply FinFun.Injective_map_NoDup; [intros a b H; injection H; auto|].
  apply (Permutation.Permutation_NoDup (l := seq 0 (S (m + s)))); [|apply seq_NoDup].
  cbn [seq app]. rewrite seq_app. cbn [Nat.add]. apply Permutation.Permutation_middle.
Qed.
Lemma cnn_wf N : wf_program (cnn_program N) (cnn_consts N).
Proof.
  unfold cnn_program. cbv zeta. eapply numbered_wf; [apply cnn_ops_outs|].
  intros o Ho. pose proof (cnn_ops_are N (S (length (cnn_consts N)))) as F. rewrite Forall_forall in F. apply F. exact Ho.
Qed.
