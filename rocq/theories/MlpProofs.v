(** Proofs for C73: the equations emitted for a network, one after the other. *)
From Coq Require Import Reals Lra.
From Verif Require Import Base Tensor IntervalArith Enclosure TensorLemmas Spec IntervalProofs JaxEval GraphEditor GraphSpec JaxBound JaxSpec JaxLemmas JaxIndex JaxGather JaxDot PolyProofs PowerProofs JaxOps JaxTable TotalSpec Mlp.
Open Scope R_scope.

(** ** Operations on arrays *)
Lemma fill_last : forall (I : list nat) i j m, length I = m -> fill j (m + 1) [(j + m)%nat] [i] I = I ++ [i].
Proof.
  intros I i j m. revert I j. induction m as [|m IH]; intros I j H.
  - destruct I; [|discriminate]. simpl. rewrite Nat.add_0_r, Nat.eqb_refl. reflexivity.
  - destruct I as [|x I]; [discriminate|]. injection H as H. cbn [Nat.add fill]. unfold memb. cbn [existsb].
    replace (j =? j + S m)%nat with false by (symmetry; apply Nat.eqb_neq; lia). cbn [orb hd tl app]. f_equal.
    replace (j + S m)%nat with (S j + m)%nat by lia. apply IH. exact H.
Qed.
Lemma drop_last : forall (s : list nat) d j, drop_axes j [(j + length s)%nat] (s ++ [d]) = s.
Proof.
  induction s as [|n s IH]; intros d j; simpl.
  - rewrite Nat.add_0_r, Nat.eqb_refl. reflexivity.
  - replace (j =? j + S (length s))%nat with false by (symmetry; apply Nat.eqb_neq; lia). cbn [orb]. f_equal.
    replace (j + S (length s))%nat with (S j + length s)%nat by lia. apply IH.
Qed.
Lemma sumn_below n (f : nat -> R) : sumn n f = sum_below n f.
Proof. induction n as [|n IH]; simpl; [reflexivity|]. rewrite IH. reflexivity. Qed.

Lemma dot_value rows d k (h w : tensor R) : tshape h = rows ++ [d] -> tshape w = [d; k] ->
  exists v, dot_general [length rows] [0%nat] [] [] h w = Ok v /\ tshape v = rows ++ [k] /\
    forall I j, length I = length rows -> tdata v (I ++ [j]) = sum_below d (fun i => tdata h (I ++ [i]) * tdata w [i; j]).
Proof.
  intros Sh Sw. unfold dot_general. rewrite Sh, Sw. cbn [app map].
  assert (EN : nth (length rows) (rows ++ [d]) 0%nat = d) by (rewrite app_nth2, Nat.sub_diag by lia; reflexivity).
  pose proof (drop_last rows d 0) as ED. cbn [Nat.add] in ED. rewrite EN, ED.
  replace (forallb (fun j => (j <? length (rows ++ [d]))%nat) [length rows]) with true
    by (symmetry; cbn [forallb]; rewrite andb_true_r; apply Nat.ltb_lt; rewrite app_length; simpl; lia).
  cbn [forallb length nodupb memb existsb negb andb nth].
  replace (shape_eqb [] []) with true by reflexivity. replace (shape_eqb [d] [d]) with true by (symmetry; apply shape_eqb_eq; reflexivity).
  cbn [andb Nat.ltb Nat.leb]. eexists. split; [reflexivity|]. split; [reflexivity|].
  intros I j HI. cbn [tdata firstn skipn app sumi]. rewrite app_length. cbn [length].
  rewrite <- HI. cbn [Nat.add]. rewrite firstn_app, Nat.sub_diag, firstn_all, firstn_O, app_nil_r.
  replace (skipn (length I) (I ++ [j])) with [j] by (rewrite skipn_app, skipn_all, Nat.sub_diag; reflexivity).
  rewrite sumn_below. f_equal. apply FunctionalExtensionality.functional_extensionality. intros i.
  pose proof (fill_last I i 0 (length I) eq_refl) as EF. cbn [Nat.add] in EF. rewrite EF. reflexivity.
Qed.

Lemma bias_value rows k (b : tensor R) : tshape b = [k] ->
  exists v, gather (g_broadcast_in_dim (rows ++ [k]) [length rows]) b = Ok v /\ tshape v = rows ++ [k] /\
    forall I j, length I = length rows -> (j < k)%nat -> tdata v (I ++ [j]) = tdata b [j].
Proof.
  intros Sb. unfold gather. cbn [g_shape g_broadcast_in_dim g_src]. rewrite Sb.
  assert (EN : nth (length rows) (rows ++ [k]) 0%nat = k) by (rewrite app_nth2, Nat.sub_diag by lia; reflexivity).
  cbn [length Nat.eqb increasing forallb combine andb]. rewrite EN, Nat.eqb_refl, orb_true_r.
  replace (length rows <? length (rows ++ [k]))%nat with true by (symmetry; apply Nat.ltb_lt; rewrite app_length; simpl; lia).
  cbn [andb bind]. eexists. split; [reflexivity|]. split; [reflexivity|].
  intros I j HI Hj. cbn [tdata map combine fold_right].
  replace (nth (length rows) (I ++ [j]) 0%nat) with j by (rewrite app_nth2, HI, Nat.sub_diag by lia; reflexivity).
  destruct (Nat.eqb_spec k 1); [replace j with 0%nat by lia|]; apply Rplus_0_r.
Qed.

Lemma same_value {f : R -> R -> R} (a b : tensor R) s : tshape a = s -> tshape b = s ->
  exists v, tmap2 f a b = Ok v /\ tshape v = s /\ forall I, valid s I -> tdata v I = f (tdata a I) (tdata b I).
Proof.
  intros Sa Sb. destruct (tmap2_total_same f a b s Sa Sb) as (v & Hv & Sv). exists v. split; auto. split; auto.
  intros I HI. destruct (tmap2_ok _ _ _ _ Hv) as [_ E]. rewrite E; unfold bget; rewrite Sa, Sb, bidx_valid; auto.
Qed.
Lemma ones_compat rows : compat (repeat 1%nat (length rows)) rows.
Proof.
  apply (compat_app [] [] _ rows (compat_nil [])). induction rows; simpl; constructor; auto. left. reflexivity.
Qed.
Lemma bias_sum rows o (a b : tensor R) (g : nat -> R) : tshape a = rows ++ [o] -> tshape b = repeat 1%nat (length rows) ++ [o] ->
  (forall I j, length I = length rows -> (j < o)%nat -> tdata b (I ++ [j]) = g j) ->
  exists v, tmap2 Rplus a b = Ok v /\ tshape v = rows ++ [o] /\
    forall I j, valid rows I -> (j < o)%nat -> tdata v (I ++ [j]) = tdata a (I ++ [j]) + g j.
Proof.
  intros Sa Sb Hb.
  assert (C : bshape (rows ++ [o]) (repeat 1%nat (length rows) ++ [o]) = Some (rows ++ [o])).
  { rewrite bshape_app by reflexivity. rewrite bshape_compat_r by (apply ones_compat).
    pose proof (bshape_refl [o]) as E. unfold bshape, padl in E. cbn in E |- *. rewrite E. reflexivity. }
  destruct (tmap2_total Rplus a b (rows ++ [o])) as (v & Hv & Sv); [rewrite Sa, Sb; exact C|]. exists v. split; auto. split; auto.
  intros I j HI Hj. destruct (tmap2_ok _ _ _ _ Hv) as [_ E]. rewrite E. unfold bget. rewrite Sa, Sb.
  pose proof (valid_length _ _ HI) as LI.
  rewrite (bidx_valid (rows ++ [o])) by (apply valid_app; auto; constructor; auto; constructor).
  rewrite (bidx_app _ rows [o] I [j] (ones_compat rows) LI eq_refl).
  rewrite bidx_repeat1 by auto. rewrite (bidx_valid [o] [j]) by (constructor; auto; constructor).
  rewrite Hb by (rewrite ?repeat_length; auto). reflexivity.
Qed.
Lemma scalar_value (x u : tensor R) s : tshape x = [] -> tshape u = s ->
  exists v, tmul x u = Ok v /\ tshape v = s /\ forall I, valid s I -> tdata v I = tdata x [] * tdata u I.
Proof.
  intros Sx Su. unfold tmul. destruct (tmap2_total nmul x u s) as (v & Hv & Sv); [rewrite Sx, Su; apply bshape_nil_l|].
  exists v. split; auto. split; auto. intros I HI. destruct (tmap2_ok _ _ _ _ Hv) as [_ E]. rewrite E; unfold bget; rewrite Sx, Su, (bidx_valid s I) by auto. reflexivity.
Qed.
Lemma act_value usr e (u : tensor R) : activation e = true ->
  exists v, tmapM (elem_fun usr e) u = Ok v /\ tshape v = tshape u /\ forall I, valid (tshape u) I -> tdata v I = act_fun (Some e) (tdata u I).
Proof.
  intros HA.
  assert (T : forall x, elem_fun usr e x = Ok (act_fun (Some e) x)) by (destruct e; try discriminate; reflexivity).
  assert (G : exists v, tmapM (elem_fun usr e) u = Ok v).
  { unfold tmapM. assert (M : forall l, exists l', mapM (fun I => elem_fun usr e (tdata u I)) l = Ok l').
    { induction l as [|a l [l' IH]]; cbn [mapM]; [eauto|]. rewrite T, IH. cbn [bind]. eauto. }
    destruct (M (all_idx (tshape u))) as [l' ->]. cbn [bind]. eauto. }
  destruct G as [v Hv]. exists v. destruct (tmapM_ok _ _ _ Hv) as [Sv Ev]. split; auto. split; auto.
  intros I HI. specialize (Ev I HI). rewrite T in Ev. injection Ev as <-. reflexivity.
Qed.

Lemma fill_all : forall m j K, length K = m -> fill j m (seq j m) K [] = K.
Proof.
  (* fill from axis [j + p] of the axes [j .. j + m - 1] *)
  assert (G : forall q m j p K, (p + q)%nat = m -> length K = m -> fill (j + p) q (seq j m) K [] = skipn p K).
  { induction q as [|q IH]; intros m j p K Hq HK; cbn [fill].
    - symmetry. apply skipn_all2. lia.
    - replace (memb (j + p)%nat (seq j m)) with true by (symmetry; apply memb_In, in_seq; lia).
      assert (EI : index_of (j + p)%nat (seq j m) = p).
      { pose proof (index_of_nth (seq j m) p (seq_NoDup m j)) as E. rewrite seq_length, seq_nth in E by lia. apply E. lia. }
      rewrite EI. replace (S (j + p)) with (j + S p)%nat by lia. rewrite IH by lia.
      clear - HK Hq. revert K m HK Hq. induction p as [|p IHp]; intros K m HK Hq; destruct K as [|x K]; simpl in HK; try lia; [reflexivity|].
      destruct m; [discriminate|]. cbn [nth skipn]. apply (IHp K m); lia. }
  intros m j K HK. pose proof (G m m j 0%nat K eq_refl HK) as E. rewrite Nat.add_0_r in E. exact E.
Qed.
Lemma drop_all : forall s j, drop_axes j (seq j (length s)) s = [].
Proof.
  assert (G : forall s j a m, (a <= j)%nat -> (j + length s <= a + m)%nat -> drop_axes j (seq a m) s = []).
  { induction s as [|n s IH]; intros j a m Ha Hm; simpl in *; auto.
    replace (memb j (seq a m)) with true by (symmetry; apply memb_In, in_seq; lia). apply IH; lia. }
  intros. apply G; lia.
Qed.
Lemma nodupb_seq m : forall j, nodupb (seq j m) = true.
Proof.
  induction m as [|m IH]; intros j; cbn [seq nodupb]; auto. rewrite IH, andb_true_r. apply negb_true_iff, memb_false. rewrite in_seq. lia.
Qed.
Lemma reduce_value (a : tensor R) s : tshape a = s ->
  exists v, gather (g_reduce_sum (seq 0 (length s))) a = Ok v /\ tshape v = [] /\ tdata v [] = Rsum (map (tdata a) (all_idx s)).
Proof.
  intros Sa. unfold gather. cbn [g_shape g_reduce_sum g_src]. rewrite Sa.
  replace (forallb (fun j => (j <? length s)%nat) (seq 0 (length s))) with true
    by (symmetry; apply forallb_forall; intros j Hj; apply in_seq in Hj; apply Nat.ltb_lt; lia).
  rewrite nodupb_seq. cbn [andb bind]. eexists. split; [reflexivity|]. split; [apply drop_all|].
  cbn [tdata]. rewrite fold_Rsum.
  assert (EM : map (fun j => nth j s 0%nat) (seq 0 (length s)) = s).
  { rewrite (map_nth_seq s 0 (length s)) by lia. apply firstn_all. }
  rewrite EM, map_map. f_equal. apply map_ext_in. intros K HK. apply all_idx_valid, valid_length in HK. rewrite fill_all; auto.
Qed.
Lemma Rsum_rows rows k (f : list nat -> R) :
  Rsum (map f (all_idx (rows ++ [k]))) = fold_right Rplus 0 (map (fun I => sum_below k (fun j => f (I ++ [j]))) (all_idx rows)).
Proof.
  assert (S1 : forall l1 l2, Rsum (l1 ++ l2) = Rsum l1 + Rsum l2) by (induction l1 as [|a l1 IH]; intros; simpl; [|rewrite IH]; ring).
  revert f. induction rows as [|n rows IH]; intros f.
  - cbn [app all_idx map fold_right]. rewrite Rplus_0_r. rewrite flat_map_concat_map.
    rewrite <- sumn_below, sumn_Rsum. f_equal. induction (seq 0 k) as [|a l IHl]; simpl; auto. f_equal. exact IHl.
  - cbn [app all_idx]. generalize (seq 0 n). induction l as [|i l IHl]; cbn [flat_map]; auto.
    rewrite !map_app, S1, IHl. rewrite !map_map, IH. clear.
    assert (F : forall l1 l2, fold_right Rplus 0 (l1 ++ l2) = fold_right Rplus 0 l1 + fold_right Rplus 0 l2)
      by (induction l1 as [|a l1 IH]; intros; simpl; [|rewrite IH]; ring).
    rewrite F. reflexivity.
Qed.

Lemma classic_const k : k = KConst \/ k <> KConst.
Proof. destruct k; [left; reflexivity|right; discriminate..]. Qed.
(** ** One equation after the other *)
Definition upd {A} (r : jvar -> option A) (n : nat) (a : A) : jvar -> option A := fun w => if jvar_eqb (Var n) w then Some a else r w.
Lemma upd_same {A} (r : jvar -> option A) n a : upd r n a (Var n) = Some a.
Proof. unfold upd. simpl. rewrite Nat.eqb_refl. reflexivity. Qed.
Lemma upd_other {A} (r : jvar -> option A) n a m : m <> n -> upd r n a (Var m) = r (Var m).
Proof. intros H. unfold upd. simpl. destruct (Nat.eqb_spec n m); [congruence|reflexivity]. Qed.

Section Run.
Variables (usr : nat -> R -> res R) (gs : generators R) (X : list nat) (D : nat) (prop : bool).
Let sc := scalarsR usr.
Definition sem (p : prim R) (args : list (tensor R)) : option (list (tensor R)) := ok_opt (prim_bind sc p args).

Definition good (r : jvar -> option (tensor R)) (k : jvar -> option kind) (ops : list (op jvar (prim R)))
    (Post : (jvar -> option (tensor R)) -> Prop) : Prop :=
  exists r' k', run sem jvar_eqb r ops = Some r' /\ analyse sc X D r k ops = Some k' /\ all_accepted sc gs X D prop r k ops /\ Post r'.

Lemma good_nil r k (Post : _ -> Prop) : Post r -> good r k [] Post.
Proof. intros H. exists r, k. simpl. auto. Qed.
Lemma good_cons r k p ins y rest Post args ks v kd :
  lookups r ins = Some args -> lookups k ins = Some ks -> prim_bind sc p args = Ok [v] -> nonempty (tshape v) = true ->
  result_kind X D p (combine ks (map tshape args)) [tshape v] = Some kd ->
  (True -> if forallb is_const ks then evaluable p else accepted gs X D prop p ks args) ->
  good (upd r y v) (upd k y kd) rest Post -> good r k (Op p ins [Var y] :: rest) Post.
Proof.
  intros Hr Hk Hv Hn Hkd Ha (r' & k' & H1 & H2 & H3 & H4). exists r', k'. split; [|split; [|split; [|exact H4]]].
  - cbn [run]. unfold run_op. cbn [oins odata oouts]. rewrite Hr. unfold sem at 1. rewrite Hv. cbn [ok_opt assign]. exact H1.
  - cbn [analyse oins odata oouts]. rewrite Hr, Hk, Hv. cbn [forallb]. rewrite Hn. cbn [andb map assign]. rewrite Hkd. exact H2.
  - cbn [all_accepted oins odata oouts]. intros args' ks' vals kd' r1 k1 E1 E2 E3 E4 E5 E6.
    assert (args' = args) by congruence. assert (ks' = ks) by congruence. subst args' ks'.
    rewrite Hv in E3. injection E3 as <-. cbn [map] in E4. rewrite Hkd in E4. injection E4 as <-. cbn [assign map] in E5, E6. injection E5 as <-. injection E6 as <-.
    split; [exact (Ha I)|exact H3].
Qed.

(** A variable with its value and kind. *)
Definition has (r : jvar -> option (tensor R)) (k : jvar -> option kind) (n : nat) (t : tensor R) (kd : kind) : Prop :=
  r (Var n) = Some t /\ k (Var n) = Some kd.
Lemma has_same r k n t kd : has (upd r n t) (upd k n kd) n t kd.
Proof. split; apply upd_same. Qed.
Lemma has_other r k n t kd m u ku : has r k m u ku -> m <> n -> has (upd r n t) (upd k n kd) m u ku.
Proof. intros [H1 H2] H. split; rewrite upd_other; auto. Qed.
(** The kind of a product with weights, and of a sum with a bias. *)
Definition kdot (a b : kind) : kind := if is_const a && is_const b then KConst else prod_kind a b.

Variables (m : nat) (consts : list (tensor R)) (x : tensor R).
Hypothesis Lc : length consts = m.
Hypothesis Sx : tshape x = X.
(** The argument and the constants are where they should be. *)
Definition base (r : jvar -> option (tensor R)) (k : jvar -> option kind) : Prop :=
  has r k 0 x KLin /\ forall j t, nth_error consts j = Some t -> has r k (S j) t KConst.
Lemma base_upd r k n t kd : base r k -> (m < n)%nat -> base (upd r n t) (upd k n kd).
Proof.
  intros [H1 H2] Hn. split; [apply has_other; auto; lia|]. intros j u Hj. apply has_other; auto.
  assert (j < length consts)%nat by (apply nth_error_Some; congruence). lia.
Qed.

Definition param_kind (p : param) : kind := match p with Fixed _ => KConst | Moving _ _ => if (D =? 0)%nat then KFull else KLin end.
(** [t] holds the parameter's value. *)
Definition param_is (p : param) (s : list nat) (t : tensor R) : Prop :=
  tshape t = s /\ forall I, valid s I -> tdata t I = param_value p x I.
Lemma param_good p s c n r k rest Post : base r k -> param_fits X s p -> nonempty s = true -> (m < n)%nat ->
  (forall j t, nth_error (param_consts p) j = Some t -> nth_error consts (c + j) = Some t) ->
  (forall r' k' t, base r' k' -> has r' k' (param_var p c n) t (param_kind p) -> param_is p s t ->
     (forall i u ku, has r k i u ku -> (i < n)%nat -> has r' k' i u ku) -> good r' k' rest Post) ->
  good r k (param_ops p c n ++ rest) Post.
Proof.
  intros HB HF Hs Hn Hc HK. destruct p as [t|t u]; simpl in HF.
  - cbn [param_ops app param_var]. apply (HK r k t); auto.
    + destruct HB as [_ HB]. apply HB. specialize (Hc 0%nat t eq_refl). rewrite Nat.add_0_r in Hc. exact Hc.
    + split; auto.
  - destruct HF as (St & Su & EX). cbn [param_ops app].
    pose proof (Hc 0%nat t eq_refl) as Ht. rewrite Nat.add_0_r in Ht. pose proof (Hc 1%nat u eq_refl) as Hu. rewrite Nat.add_1_r in Hu.
    destruct (proj2 HB _ _ Ht) as [Rt Kt]. destruct (proj2 HB _ _ Hu) as [Ru Ku]. destruct (proj1 HB) as [Rx Kx].
    assert (Lt : (S c <= m)%nat) by (rewrite <- Lc; apply nth_error_Some; rewrite Ht; discriminate).
    assert (Sx' : tshape x = []) by congruence.
    destruct (scalar_value x u s Sx' Su) as (v & Hv & Sv & Ev). destruct (@same_value Rplus t v s St Sv) as (w & Hw & Sw & Ew).
    eapply good_cons with (args := [x; u]) (ks := [KLin; KConst]) (v := v) (kd := KLin).
    { cbn [lookups]. rewrite Rx, Ru. reflexivity. } { cbn [lookups]. rewrite Kx, Ku. reflexivity. }
    { cbn [prim_bind]. unfold one_res. rewrite Hv. reflexivity. } { rewrite Sv; exact Hs. } { reflexivity. } { intros _. exact I. }
    eapply good_cons with (args := [t; v]) (ks := [KConst; KLin]) (v := w) (kd := param_kind (Moving t u)).
    { cbn [lookups]. rewrite upd_same, upd_other, Rt by lia. reflexivity. } { cbn [lookups]. rewrite upd_same, upd_other, Kt by lia. reflexivity. }
    { cbn [prim_bind]. unfold one_res, tadd. change (@nadd R _) with Rplus. rewrite Hw. reflexivity. } { rewrite Sw; exact Hs. }
    { cbn. rewrite Sv, Sw. unfold sum_kind. destruct (D =? 0)%nat; [reflexivity|]. cbn. replace (shape_eqb s s) with true by (symmetry; apply shape_eqb_eq; auto). reflexivity. }
    { intros _. exact I. }
    apply (HK _ _ w).
    + apply base_upd; [apply base_upd; auto|]; lia.
    + apply has_same.
    + split; auto. intros I HI. cbn [param_value]. rewrite Ew, Ev; auto.
    + intros i a ka Ha Hi. apply has_other; [apply has_other; auto|]; lia.
Qed.

(** [t] holds the values [f I i]. *)
Definition rows_are (rows : list nat) (d : nat) (f : list nat -> nat -> R) (t : tensor R) : Prop :=
  tshape t = rows ++ [d] /\ forall I i, valid rows I -> (i < d)%nat -> tdata t (I ++ [i]) = f I i.
Definition act_fits (l : layer) : Prop := match l_act l with Some e => activation e = true | None => True end.
Lemma nonempty_app s t : nonempty (s ++ t) = nonempty s && nonempty t.
Proof. apply forallb_app. Qed.
Lemma sum_below_ext n f g : (forall i, (i < n)%nat -> f i = g i) -> sum_below n f = sum_below n g.
Proof. induction n as [|n IH]; intros H; simpl; auto. rewrite IH, H; auto. Qed.
(** Known with full coefficients, and not a constant. *)
Definition live (k : kind) : Prop := k <> KCast /\ k <> KConst.
Lemma bias_good rows o b kb v n r k rest Post : base r k -> nonempty rows = true -> (0 < o)%nat -> has r k v b kb -> tshape b = [o] ->
  kb = KConst \/ X = [] /\ kb = param_kind (Moving b b) -> (m < n)%nat ->
  (forall r' k' b', base r' k' -> has r' k' (bias_var rows v n) b' kb -> tshape b' = repeat 1%nat (length rows) ++ [o] ->
     (forall I j, length I = length rows -> (j < o)%nat -> tdata b' (I ++ [j]) = tdata b [j]) ->
     (forall i u ku, has r k i u ku -> (i < n)%nat -> has r' k' i u ku) -> good r' k' rest Post) ->
  good r k (bias_ops rows o v n ++ rest) Post.
Proof.
  intros HB Nr Ho Hv Sb Kb Hn HK. unfold bias_ops, bias_var in *. destruct rows as [|r0 rows]; cbn [app].
  - apply (HK r k b); auto. intros [|] j HI Hj; [reflexivity|discriminate].
  - pose proof (bias_value (repeat 1%nat (length (r0 :: rows))) o b Sb) as HBV. rewrite repeat_length in HBV. destruct HBV as (bv & Hbv & Sbv & Ebv).
    eapply good_cons with (args := [b]) (ks := [kb]) (v := bv) (kd := kb).
    { cbn [lookups]. rewrite (proj1 Hv). reflexivity. } { cbn [lookups]. rewrite (proj2 Hv). reflexivity. }
    { cbn [prim_bind gather_of]. unfold one_res. rewrite Hbv. reflexivity. }
    { rewrite Sbv, nonempty_app. cbn [nonempty forallb]. rewrite (proj2 (Nat.ltb_lt _ _) Ho). rewrite andb_true_r. clear. induction (length (r0 :: rows)); auto. }
    { unfold param_kind in Kb. destruct Kb as [->|[_ ->]]; [|destruct (D =? 0)%nat]; reflexivity. }
    { intros _. unfold param_kind in Kb. destruct Kb as [->|[HX' ->]]; [exact I|]. destruct (Nat.eqb_spec D 0); cbn; auto. }
    apply (HK _ _ bv); auto.
    + apply base_upd; auto.
    + apply has_same.
    + intros i u ku Hi Hlt. apply has_other; auto. lia.
Qed.

Lemma layer_good rows d l c n hv r k rest Post h th kh : base r k -> nonempty rows = true -> (0 < d)%nat -> (0 < out_size l)%nat ->
  param_fits X [d; out_size l] (l_w l) -> param_fits X [out_size l] (l_b l) -> act_fits l ->
  is_cast kh = false -> (kh <> KConst \/ is_moving (l_w l) \/ is_moving (l_b l)) ->
  has r k hv th kh -> rows_are rows d h th -> (hv < n)%nat -> (m < n)%nat ->
  (forall j t, nth_error (layer_consts l) j = Some t -> nth_error consts (c + j) = Some t) ->
  (forall r' k' t' kd, live kd -> (rows = [] \/ ~ is_moving (l_b l) \/ is_moving (l_w l) \/ l_act l <> None -> is_cast kd = false) -> base r' k' -> has r' k' (n + layer_size rows l - 1) t' kd -> rows_are rows (out_size l) (layer_value l d x h) t' -> good r' k' rest Post) ->
  good r k (layer_ops rows l hv c n ++ rest) Post.
Proof.
  intros HB Nr Hd Ho Fw Fb Fa NK HM Hh Hrow Hhv Hn Hc HK.
  unfold layer_ops. rewrite <- !app_assoc.
  assert (Nw : nonempty [d; out_size l] = true) by (simpl; rewrite !(proj2 (Nat.ltb_lt _ _)); auto).
  assert (Nb : nonempty [out_size l] = true) by (simpl; rewrite !(proj2 (Nat.ltb_lt _ _)); auto).
  eapply (param_good (l_w l) [d; out_size l] c n r k); auto.
  { intros j t Hj. apply Hc. unfold layer_consts. rewrite nth_error_app1; auto. apply nth_error_Some. congruence. }
  intros r1 k1 w B1 Hw Ww P1.
  eapply (param_good (l_b l) [out_size l] _ _ r1 k1); auto.
  { lia. }
  { intros j t Hj. rewrite <- Nat.add_assoc. apply Hc. unfold layer_consts. rewrite nth_error_app2 by lia. rewrite Nat.add_comm, Nat.add_sub. exact Hj. }
  intros r2 k2 b B2 Hb Wb P2.
  set (nb := (n + param_size (l_w l))%nat) in *. set (cb := (c + length (param_consts (l_w l)))%nat) in *. set (n1 := (nb + param_size (l_b l))%nat) in *.
  set (m0 := length rows) in *. set (o := out_size l) in *. cbn [app].
  assert (Hh2 : has r2 k2 hv th kh) by (apply P2; [apply P1; auto|lia]).
  assert (Hw2 : has r2 k2 (param_var (l_w l) c n) w (param_kind (l_w l))).
  { apply P2; auto. subst nb. destruct (l_w l) as [t|t u] eqn:El; simpl; [|lia].
    assert (c < length consts)%nat; [|lia]. apply nth_error_Some. specialize (Hc 0%nat t). rewrite Nat.add_0_r in Hc. rewrite Hc; [discriminate|].
    unfold layer_consts. rewrite El. reflexivity. }
  assert (Vb : (param_var (l_b l) cb nb < n1)%nat).
  { subst n1 nb cb. destruct (l_b l) as [t|t u] eqn:El; simpl; [|lia].
    assert (c + length (param_consts (l_w l)) < length consts)%nat; [|lia]. apply nth_error_Some.
    rewrite (Hc (length (param_consts (l_w l))) t); [discriminate|].
    unfold layer_consts. rewrite El, nth_error_app2, Nat.sub_diag by lia. reflexivity. }
  assert (Ln : (n <= n1)%nat) by (subst n1 nb; lia).
  destruct Hrow as [Sh Eh]. destruct Ww as [Sw Ew]. destruct Wb as [Sb Eb].
  destruct (dot_value rows d o th w Sh Sw) as (dv & Hdv & Sdv & Edv).
  assert (NN : nonempty (rows ++ [o]) = true) by (rewrite nonempty_app, Nr; exact Nb).
  set (kw := param_kind (l_w l)) in *. set (kb := param_kind (l_b l)) in *.
  assert (Ckw : kw = KConst \/ kw = if (D =? 0)%nat then KFull else KLin) by (subst kw; unfold param_kind; destruct (l_w l); auto).
  assert (Ckb : kb = KConst \/ kb = if (D =? 0)%nat then KFull else KLin) by (subst kb; unfold param_kind; destruct (l_b l); auto).
  assert (Mw : is_moving (l_w l) -> kw = if (D =? 0)%nat then KFull else KLin) by (subst kw; unfold param_kind; destruct (l_w l); simpl; tauto).
  assert (Mb : is_moving (l_b l) -> kb = if (D =? 0)%nat then KFull else KLin) by (subst kb; unfold param_kind; destruct (l_b l); simpl; tauto).
  assert (Mb' : ~ is_moving (l_b l) -> kb = KConst) by (subst kb; unfold param_kind; destruct (l_b l); simpl; tauto).
  (* the product *)
  eapply good_cons with (args := [th; w]) (ks := [kh; kw]) (v := dv) (kd := kdot kh kw).
  { cbn [lookups]. rewrite (proj1 Hh2), (proj1 Hw2). reflexivity. } { cbn [lookups]. rewrite (proj2 Hh2), (proj2 Hw2). reflexivity. }
  { cbn [prim_bind]. unfold one_res. fold m0 in Hdv. rewrite Hdv. reflexivity. } { rewrite Sdv; exact NN. }
  { clear -NK Ckw. unfold kdot. destruct Ckw as [->| ->]; [|destruct (D =? 0)%nat]; destruct kh; try discriminate; reflexivity. }
  { intros _. destruct (forallb _ _); exact I. }
  (* the bias *)
  eapply (bias_good rows o b kb); auto.
  { apply base_upd; auto. lia. }
  { apply has_other; [exact Hb|lia]. }
  { destruct (l_b l) as [t|t u]; [left; reflexivity|right]. split; [apply Fb|reflexivity]. }
  { lia. }
  intros r3 k3 bv B3 Hbv Sbv Ebv P3.
  destruct (bias_sum rows o dv bv (fun j => tdata b [j]) Sdv Sbv Ebv) as (av & Hav & Sav & Eav).
  assert (Val : rows_are rows o (fun I j => sum_below d (fun i => h I i * param_value (l_w l) x [i; j]) + param_value (l_b l) x [j]) av).
  { split; auto. intros I j HI Hj. pose proof (valid_length _ _ HI) as LI.
    rewrite Eav, Edv by auto. f_equal.
    - apply sum_below_ext. intros i Hi. rewrite Eh, Ew; auto. repeat (constructor; auto).
    - rewrite Eb; auto. repeat (constructor; auto). }
  (* the sum *)
  set (so := rows ++ [o]) in *. set (sb := repeat 1%nat (length rows) ++ [o]) in *.
  assert (ES : shape_eqb so so = true) by (apply shape_eqb_eq; auto).
  assert (NC : is_const (kdot kh kw) && is_const kb = false).
  { clear -NK HM Ckw Ckb Mw Mb. unfold kdot. destruct HM as [HM|[HM|HM]].
    - destruct Ckw as [->| ->]; [|destruct (D =? 0)%nat]; destruct kh; try discriminate; try congruence; reflexivity.
    - rewrite (Mw HM). destruct (D =? 0)%nat; destruct kh; try discriminate; reflexivity.
    - rewrite (Mb HM). destruct (D =? 0)%nat; apply andb_false_r. }
  assert (LS : length sb = length so) by (subst sb so; rewrite !app_length, repeat_length; reflexivity).
  set (kd := sum_kind D (kdot kh kw) so kb sb so).
  assert (HL : live kd).
  { subst kd. unfold sum_kind. destruct (D =? 0)%nat eqn:ED; [split; discriminate|].
    assert (K1 : same_rank (kdot kh kw) so so = true).
    { clear -NK Ckw. destruct Ckw as [->| ->]; destruct kh; try discriminate; cbn; try reflexivity; apply Nat.eqb_refl. }
    assert (K2 : same_rank kb sb so = true) by (destruct Ckb as [->| ->]; [reflexivity|cbn; rewrite LS; apply Nat.eqb_refl]).
    rewrite K1, K2. cbn [andb]. repeat match goal with |- live (if ?b then _ else _) => destruct b end; split; discriminate. }
  assert (HC : rows = [] \/ ~ is_moving (l_b l) \/ is_moving (l_w l) -> is_cast kd = false).
  { subst kd. unfold sum_kind. destruct (D =? 0)%nat eqn:ED; [reflexivity|]. intros Fbw.
    destruct Fbw as [ER|Fbw].
    - assert (Eb' : sb = so) by (subst sb so; rewrite ER; reflexivity). rewrite Eb'. clear -ES NK Ckw Ckb NC.
      destruct Ckw as [->| ->], Ckb as [->| ->]; destruct kh; try discriminate; cbn -[shape_eqb] in NC |- *; try discriminate; rewrite ?ES; reflexivity.
    - destruct (classic_const kb) as [Eb'|Eb'].
      + rewrite Eb' in *. clear -ES NK Ckw NC. destruct Ckw as [->| ->]; destruct kh; try discriminate; cbn -[shape_eqb] in NC |- *; try discriminate; rewrite ?ES; reflexivity.
      + destruct Fbw as [Fbw|Fbw]; [specialize (Mb' Fbw); congruence|]. rewrite (Mw Fbw). destruct Ckb as [->| ->]; [congruence|].
        clear -ES NK. destruct kh; try discriminate; cbn -[shape_eqb]; rewrite ES; destruct (shape_eqb sb so); unfold covers; rewrite ?ES; cbn -[shape_eqb]; reflexivity. }
  eapply good_cons with (args := [dv; bv]) (ks := [kdot kh kw; kb]) (v := av) (kd := kd).
  { cbn [lookups]. rewrite (proj1 (P3 n1 dv (kdot kh kw) (has_same _ _ _ _ _) ltac:(lia))), (proj1 Hbv). reflexivity. }
  { cbn [lookups]. rewrite (proj2 (P3 n1 dv (kdot kh kw) (has_same _ _ _ _ _) ltac:(lia))), (proj2 Hbv). reflexivity. }
  { cbn [prim_bind]. unfold one_res, tadd. change (@nadd R _) with Rplus. rewrite Hav. reflexivity. } { rewrite Sav; exact NN. }
  { cbn [map combine]. rewrite Sdv, Sbv, Sav. unfold result_kind. cbn [forallb fst]. rewrite andb_true_r, NC. reflexivity. }
  { intros _. cbn [forallb]. rewrite andb_true_r, NC. exact I. }
  set (n2 := (n1 + 1 + bias_size rows)%nat) in *.
  assert (B4 : base (upd r3 n2 av) (upd k3 n2 kd)) by (apply base_upd; auto; lia).
  unfold layer_size in HK. unfold layer_value in HK. unfold act_fits in Fa. destruct (l_act l) as [e|] eqn:El; cbn [app].
  - destruct (act_value usr e av Fa) as (ev & Hev & Sev & Eev). destruct HL as [HL1 HL2].
    eapply good_cons with (args := [av]) (ks := [kd]) (v := ev) (kd := KFull).
    { cbn [lookups]. rewrite upd_same. reflexivity. } { cbn [lookups]. rewrite upd_same. reflexivity. }
    { cbn [prim_bind]. unfold one_res. cbn [s_elem sc scalarsR]. rewrite Hev. reflexivity. } { rewrite Sev, Sav; exact NN. }
    { assert (HX : is_cast kd = true -> X = []).
      { intros E. destruct (l_b l) as [t|t u] eqn:Elb; [|apply Fb]. rewrite HC in E; [discriminate|]. right; left. intros []. }
      clearbody kd. destruct kd; try congruence; try reflexivity. cbn. rewrite HX; reflexivity. }
    { intros _. clearbody kd. destruct kd; try congruence; (intros [E|[]]; discriminate E). }
    apply (HK _ _ ev KFull).
    + split; discriminate.
    + reflexivity.
    + apply base_upd; [exact B4|lia].
    + replace (n + (param_size (l_w l) + param_size (l_b l) + 2 + bias_size rows + 1) - 1)%nat with (n2 + 1)%nat by (subst n2 n1 nb; lia). apply has_same.
    + split; [rewrite Sev; exact Sav|]. intros I j HI Hj. rewrite Eev by (rewrite Sav; apply valid_app; auto; constructor; auto; constructor).
      f_equal. apply Val; auto.
  - apply (HK _ _ av kd).
    + exact HL.
    + intros [E|[E|[E|E]]]; try (apply HC; tauto).
    + exact B4.
    + replace (n + (param_size (l_w l) + param_size (l_b l) + 2 + bias_size rows + 0) - 1)%nat with n2 by (subst n2 n1 nb; lia). apply has_same.
    + exact Val.
Qed.

Lemma net_good rows target : forall ls d c n hv r k h th kh, base r k -> nonempty rows = true -> (0 < d)%nat -> layers_fit X rows d ls ->
  tshape target = rows ++ [final_size ls d] ->
  kh <> KCast -> (ls <> [] -> is_cast kh = false) -> (kh <> KConst \/ match ls with [] => False | l :: _ => is_moving (l_w l) \/ is_moving (l_b l) end) ->
  has r k hv th kh -> rows_are rows d h th -> (hv < n)%nat -> (m < n)%nat ->
  (forall j t, nth_error (flat_map layer_consts ls ++ [target]) j = Some t -> nth_error consts (c + j) = Some t) ->
  good r k (net_ops rows ls hv c n) (fun r' => exists y, r' (Var (n + net_size rows ls - 1)) = Some y /\ tshape y = [] /\
    tdata y [] = fold_right Rplus 0 (map (fun I => sum_below (final_size ls d) (fun j => (forward ls d x h I j - tdata target (I ++ [j])) ^ 2)) (all_idx rows))).
Proof.
  induction ls as [|l ls IH]; intros d c n hv r k h th kh HB Nr Hd HF Ht NK NK' HM Hh Hrow Hhv Hn Hc.
  - destruct HM as [HM|[]]. cbn [net_ops loss_ops final_size forward net_size] in *.
    pose proof (Hc 0%nat target eq_refl) as Hct. rewrite Nat.add_0_r in Hct. destruct (proj2 HB _ _ Hct) as [Rt Kt]. destruct Hrow as [Sh Eh].
    assert (NN : nonempty (rows ++ [d]) = true) by (rewrite nonempty_app, Nr; simpl; rewrite (proj2 (Nat.ltb_lt _ _)); auto).
    destruct (@same_value Rminus th target (rows ++ [d]) Sh Ht) as (dv & Hdv & Sdv & Edv).
    assert (ES : shape_eqb (rows ++ [d]) (rows ++ [d]) = true) by (apply shape_eqb_eq; auto).
    set (k1 := sum_kind D kh (rows ++ [d]) KConst (rows ++ [d]) (rows ++ [d])).
    assert (L1 : live k1).
    { subst k1. unfold sum_kind. destruct (D =? 0)%nat; [split; discriminate|]. destruct kh; try congruence; cbn; rewrite ?ES, ?Nat.eqb_refl; split; discriminate. }
    eapply good_cons with (args := [th; target]) (ks := [kh; KConst]) (v := dv) (kd := k1).
    { cbn [lookups]. rewrite (proj1 Hh), Rt. reflexivity. } { cbn [lookups]. rewrite (proj2 Hh), Kt. reflexivity. }
    { cbn [prim_bind]. unfold one_res, tsub. change (@nsub R _) with Rminus. rewrite Hdv. reflexivity. } { rewrite Sdv; exact NN. }
    { cbn [map combine]. rewrite Sh, Ht, Sdv. subst k1. destruct kh; try congruence; reflexivity. }
    { intros _. destruct kh; try congruence; exact I. }
    set (pv := tmap (fun y => npow y 2) dv). set (k2 := if two k1 then KTwo else KFull).
    assert (L2 : live k2) by (subst k2; destruct (two k1); split; discriminate). destruct L1 as [L1 L1']. destruct L2 as [L2 L2'].
    eapply good_cons with (args := [dv]) (ks := [k1]) (v := pv) (kd := k2).
    { cbn [lookups]. rewrite upd_same. reflexivity. } { cbn [lookups]. rewrite upd_same. reflexivity. }
    { reflexivity. } { cbn. rewrite Sdv; exact NN. } { subst k2. clearbody k1. destruct k1; try congruence; reflexivity. }
    { intros _. clearbody k1. destruct k1; try congruence; cbn; (split; [discriminate|lia]). }
    destruct (reduce_value pv (rows ++ [d])) as (sv & Hsv & Ssv & Esv); [exact Sdv|].
    replace (length (rows ++ [d])) with (length rows + 1)%nat in Hsv by (rewrite app_length; reflexivity).
    eapply good_cons with (args := [pv]) (ks := [k2]) (v := sv) (kd := k2).
    { cbn [lookups]. rewrite upd_same. reflexivity. } { cbn [lookups]. rewrite upd_same. reflexivity. }
    { cbn [prim_bind gather_of]. unfold one_res. rewrite Hsv. reflexivity. } { rewrite Ssv. reflexivity. }
    { subst k2. destruct (two k1); reflexivity. } { intros _. destruct (forallb _ _); exact I. }
    apply good_nil. exists sv. split; [replace (n + 3 - 1)%nat with (S (S n)) by lia; apply upd_same|]. split; auto.
    rewrite Esv, Rsum_rows. f_equal. apply map_ext_in. intros I HI. apply all_idx_valid in HI. apply sum_below_ext. intros j Hj.
    cbn [tdata pv tmap]. rewrite npow_pow, Edv, Eh; auto. apply valid_app; auto. repeat (constructor; auto).
  - cbn [net_ops net_size final_size forward]. cbn [layers_fit] in HF. destruct HF as (Ho & Fw & Fb & Fbw & Fa & HF).
    eapply (layer_good rows d l c n hv r k _ _ h th kh); eauto.
    + apply NK'. discriminate.
    + intros j t Hj. apply Hc. cbn [flat_map]. rewrite <- app_assoc, nth_error_app1; auto. apply nth_error_Some. congruence.
    + intros r' k' t' kd [L1 L2] L3 B' H' R'.
      replace (n + (layer_size rows l + net_size rows ls) - 1)%nat with (n + layer_size rows l + net_size rows ls - 1)%nat by lia.
      assert (LS : (2 <= layer_size rows l)%nat) by (unfold layer_size; lia).
      refine (IH (out_size l) _ _ _ r' k' (layer_value l d x h) t' kd B' Nr Ho HF Ht _ _ _ H' R' _ _ _).
      * exact L1.
      * intros E. apply L3. tauto.
      * left. exact L2.
      * lia.
      * lia.
      * intros j t Hj. rewrite <- Nat.add_assoc. apply Hc. cbn [flat_map]. rewrite <- app_assoc, nth_error_app2 by lia.
        rewrite Nat.add_comm, Nat.add_sub. exact Hj.
Qed.
End Run.

(** ** The whole program *)
Lemma assign_seq {A} (l : list A) vs xs : forall a r0, exists r, assign jvar_eqb r0 (map Var (seq a (length l)) ++ vs) (l ++ xs) = assign jvar_eqb r vs xs /\
  (forall j t, nth_error l j = Some t -> r (Var (a + j)) = Some t) /\ (forall i, (i < a)%nat -> r (Var i) = r0 (Var i)).
Proof.
  induction l as [|b l IH]; intros a r0.
  - exists r0. split; [reflexivity|]. split; auto. intros [|j] t; discriminate.
  - cbn [length seq map app assign]. destruct (IH (S a) (upd r0 a b)) as (r & E & H1 & H2). exists r. split; [exact E|]. split.
    + intros [|j] t Hj; cbn in Hj; [|replace (a + S j)%nat with (S a + j)%nat by lia; auto]. injection Hj as <-. rewrite Nat.add_0_r, H2 by lia. apply upd_same.
    + intros i Hi. rewrite H2 by lia. apply upd_other. lia.
Qed.

Lemma net_runs usr gs X D prop N x : net_fits X N -> tshape x = X ->
  exists r k k' y, assign jvar_eqb (lit_value (p_lits (net_program N))) (gdata (p_graph (net_program N)) ++ gins (p_graph (net_program N))) (net_consts N ++ [x]) = Some r /\
    assign jvar_eqb (fun v => match v with Lit _ => Some KConst | _ => None end) (gdata (p_graph (net_program N)) ++ gins (p_graph (net_program N))) (map (fun _ => KConst) (net_consts N) ++ [KLin]) = Some k /\
    analyse (scalarsR usr) X D r k (gops (p_graph (net_program N))) = Some k' /\
    all_accepted (scalarsR usr) gs X D prop r k (gops (p_graph (net_program N))) /\
    meaning (scalarsR usr) (net_program N) (net_consts N) x = Some [y] /\ tshape y = [] /\ tdata y [] = squared_error N x.
Proof.
  intros (Nr & Hd & HF & Ht & HD) Sx.
  destruct (assign_seq (net_consts N) [Var 0] [x] 1 (lit_value (fun _ => tscalar 0))) as (r0 & Er & R1 & _).
  destruct (assign_seq (map (fun _ => KConst) (net_consts N)) [Var 0] [KLin] 1 (fun v => match v with Lit _ => Some KConst | _ => None end)) as (k0 & Ek & K1 & _).
  rewrite map_length in Ek. cbn [assign] in Er, Ek. fold (upd r0 0 x) in Er. fold (upd k0 0 KLin) in Ek.
  set (r := upd r0 0 x) in *. set (k := upd k0 0 KLin) in *.
  assert (HB : base (net_consts N) x r k).
  { split; [split; apply upd_same|]. intros j t Hj. split; unfold r, k; rewrite upd_other by lia; [apply (R1 j t Hj)|].
    apply (K1 j). rewrite nth_error_map, Hj. reflexivity. }
  set (m := length (net_consts N)) in *. set (c0 := length (data_consts N)) in *.
  assert (Lc : (c0 < m)%nat) by (subst m c0; unfold net_consts; rewrite !app_length; simpl; lia).
  set (h := fun I i => match n_data N with Some t => tdata t (I ++ [i]) | None => tdata x (I ++ [i]) end).
  assert (H0 : exists th kh, has r k c0 th kh /\ rows_are (n_rows N) (n_in N) h th /\ is_cast kh = false /\
     (kh <> KConst \/ match n_layers N with [] => False | l :: _ => is_moving (l_w l) \/ is_moving (l_b l) end)).
  { unfold h, c0, data_consts. destruct (n_data N) as [t|] eqn:EN.
    - destruct HD as (_ & St & HM). exists t, KConst. split; [|split; [split; auto|split; [reflexivity|auto]]].
      apply (proj2 HB 0%nat t). unfold net_consts, data_consts. rewrite EN. reflexivity.
    - destruct HD as (EX & ER). exists x, KLin. split; [exact (proj1 HB)|]. split; [|split; [reflexivity|left; discriminate]].
      split; auto. rewrite Sx, EX, ER. reflexivity. }
  destruct H0 as (th & kh & Hh & Hrow & NK & HM).
  destruct (net_good usr gs X D prop m (net_consts N) x eq_refl Sx (n_rows N) (n_target N) (n_layers N) (n_in N) c0 (S m) c0 r k h th kh
    HB Nr Hd HF Ht) as (r' & k' & E1 & E2 & E3 & y & Ey & Sy & Vy); auto.
  { intros ->; discriminate. }
  { intros j t Hj. unfold net_consts. rewrite nth_error_app2 by (fold c0; lia). fold c0. replace (c0 + j - c0)%nat with j by lia. exact Hj. }
  exists r, k, k', y. split; [exact Er|]. split; [exact Ek|]. split; [exact E2|]. split; [exact E3|]. split; [|split; [exact Sy|exact Vy]].
  unfold meaning, run_graph, closed_graph. cbn [gins gouts gops gdata p_graph net_program p_lits]. fold m c0.
  change (map Var (seq 1 m) ++ [Var 0]) with (gdata (p_graph (net_program N)) ++ gins (p_graph (net_program N))). cbn [gdata gins p_graph net_program]. fold m.
  rewrite Er. unfold sem in E1. rewrite E1. cbn [lookups]. replace (m + net_size (n_rows N) (n_layers N))%nat with (S m + net_size (n_rows N) (n_layers N) - 1)%nat by lia.
  rewrite Ey. reflexivity.
Qed.

(** The equations of the program. *)
Definition net_prim (ls : list layer) (p : prim R) : Prop :=
  match p with
  | add_p | sub_p | mul_p | dot_general_p _ _ _ _ | broadcast_in_dim_p _ _ | reduce_sum_p _ => True
  | integer_pow_p y => y = 2%Z
  | elementwise_p e => exists l, In l ls /\ l_act l = Some e
  | _ => False
  end.
Lemma net_prim_incl ls ls' p : incl ls ls' -> net_prim ls p -> net_prim ls' p.
Proof. intros H. destruct p; simpl; auto. intros (l & Hl & E). exists l. auto. Qed.
Lemma net_ops_are rows : forall ls h c n, Forall (fun o => net_prim ls (odata o) /\ ~ In Drop (oins o)) (net_ops rows ls h c n).
Proof.
  assert (ND1 : forall a, ~ In Drop [Var a]) by (intros a [E|[]]; discriminate).
  assert (ND2 : forall a b, ~ In Drop [Var a; Var b]) by (intros a b [E|[E|[]]]; discriminate).
  assert (PO : forall ls p c n, Forall (fun o => net_prim ls (odata o) /\ ~ In Drop (oins o)) (param_ops p c n)).
  { intros ls [t|t u] c n; cbn [param_ops]; repeat constructor; cbn [odata oins]; auto. }
  induction ls as [|l ls IH]; intros h c n; cbn [net_ops].
  - unfold loss_ops. repeat constructor; cbn [odata oins]; auto.
  - apply Forall_app. split.
    + unfold layer_ops. repeat (apply Forall_app; split); try apply PO.
      * repeat constructor; cbn [odata oins]; auto.
      * unfold bias_ops. destruct rows; repeat constructor; cbn [odata oins]; auto.
      * repeat constructor; cbn [odata oins]; auto.
      * destruct (l_act l) as [e|] eqn:E; repeat constructor; cbn [odata oins]; auto. exists l. split; simpl; auto.
    + eapply Forall_impl; [|apply IH]. intros o [H1 H2]. split; auto. eapply net_prim_incl; [|exact H1]. intros a Ha. right. exact Ha.
Qed.
Lemma net_ops_outs rows : forall ls h c n, flat_map oouts (net_ops rows ls h c n) = map Var (seq n (net_size rows ls)).
Proof.
  induction ls as [|l ls IH]; intros h c n; cbn [net_ops net_size]; [reflexivity|].
  rewrite flat_map_app, IH, seq_app, map_app. f_equal. unfold layer_ops, layer_size, bias_ops, bias_size, bias_var.
  destruct rows as [|r0 rows]; destruct (l_w l) as [tw|tw uw], (l_b l) as [tb|tb ub], (l_act l) as [e|]; cbn [param_ops param_size flat_map oouts app seq Nat.add map];
    rewrite ?Nat.add_0_r; repeat (f_equal; try lia).
Qed.
Lemma net_wf N : wf_program (net_program N) (net_consts N).
Proof.
  unfold wf_program, defined. cbn [gins gouts gdata gops p_graph net_program].
  split; [eauto|]. split; [eexists; split; [reflexivity|discriminate]|].
  split; [apply Forall_forall; intros v Hv; apply in_map_iff in Hv; destruct Hv as (i & <- & _); reflexivity|].
  split; [rewrite map_length, seq_length; reflexivity|].
  rewrite net_ops_outs. set (m := length (net_consts N)). set (s := net_size (n_rows N) (n_layers N)).
  assert (E : map Var (seq 1 m) ++ [Var 0] ++ map Var (seq (S m) s) = map Var (seq 1 m ++ [0%nat] ++ seq (S m) s)) by (rewrite !map_app; reflexivity).
  rewrite E. split; [apply Forall_forall; intros v Hv; apply in_map_iff in Hv; destruct Hv as (i & <- & _); reflexivity|]. split.
  - replace (filter is_var (map Var (seq 1 m ++ [0%nat] ++ seq (S m) s))) with (map Var (seq 1 m ++ [0%nat] ++ seq (S m) s))
      by (clear; induction (seq 1 m ++ [0%nat] ++ seq (S m) s) as [|a l IH]; simpl; congruence).
    apply FinFun.Injective_map_NoDup; [intros a b H; injection H; auto|].
    apply (Permutation.Permutation_NoDup (l := seq 0 (S (m + s)))); [|apply seq_NoDup].
    cbn [seq app]. rewrite seq_app. cbn [Nat.add]. apply Permutation.Permutation_middle.
  - intros o Ho. pose proof (net_ops_are (n_rows N) (n_layers N) (length (data_consts N)) (length (data_consts N)) (S m)) as F.
    rewrite Forall_forall in F. apply F. exact Ho.
Qed.
