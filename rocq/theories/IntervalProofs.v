(** Proofs about the interval-arithmetic model. *)
From Coq Require Import Reals Lra.
From Verif Require Import Base Tensor IntervalArith TensorLemmas Spec.
Open Scope R_scope.

Lemma mapM_ok {A B} (f : A -> res B) l ys : mapM f l = Ok ys -> Forall2 (fun x y => f x = Ok y) l ys.
Proof.
  revert ys; induction l as [|x l IH]; simpl; intros ys H.
  - injection H as <-. constructor.
  - ok_inv. subst. constructor; auto.
Qed.

Lemma wfs_ishape sh c : wfs sh c -> ishape c = sh.
Proof. destruct c; simpl; [auto | intros []; auto]. Qed.

Lemma wfs_lo sh c : wfs sh c -> tshape (lo c) = sh.
Proof. destruct c; simpl; [auto | intros []; auto]. Qed.
Lemma wfs_hi sh c : wfs sh c -> tshape (hi c) = sh.
Proof. destruct c; simpl; [auto | intros []; auto]. Qed.

Lemma inat_iff c I u : inat c I u <-> tdata (lo c) I <= u <= tdata (hi c) I.
Proof. destruct c; simpl; [split; [intros ->|]; lra | tauto]. Qed.

Lemma wfs_iff sh c : wfs sh c <-> tshape (lo c) = sh /\ tshape (hi c) = sh.
Proof. destruct c; simpl; tauto. Qed.

Lemma iadd_lohi a b c : iadd a b = Ok c ->
  tadd (lo a) (lo b) = Ok (lo c) /\ tadd (hi a) (hi b) = Ok (hi c) /\
  ((exists t, c = Arr t) <-> (exists t, a = Arr t) /\ (exists t, b = Arr t)).
Proof.
  destruct a as [a|a0 a1], b as [b|b0 b1]; simpl; intros H; ok_inv; subst; simpl;
    (split; [auto|split;[auto|]]); split;
    repeat match goal with
           | |- (exists _, _) -> _ => intros [? ?]
           | |- _ /\ _ -> _ => intros [[? ?] [? ?]] end; try discriminate; eauto.
Qed.

Lemma isub_lohi a b c : isub a b = Ok c ->
  tsub (lo a) (hi b) = Ok (lo c) /\ tsub (hi a) (lo b) = Ok (hi c) /\
  ((exists t, c = Arr t) <-> (exists t, a = Arr t) /\ (exists t, b = Arr t)).
Proof.
  destruct a as [a|a0 a1], b as [b|b0 b1]; simpl; intros H; ok_inv; subst; simpl;
    (split; [auto|split;[auto|]]); split;
    repeat match goal with
           | |- (exists _, _) -> _ => intros [? ?]
           | |- _ /\ _ -> _ => intros [[? ?] [? ?]] end; try discriminate; eauto.
Qed.

Lemma iadd_spec sa sb a b c : wfs sa a -> wfs sb b -> iadd a b = Ok c ->
  exists sc, bshape sa sb = Some sc /\ wfs sc c /\
  (forall I, tdata (lo c) I = tdata (lo a) (bidx sa I) + tdata (lo b) (bidx sb I)) /\
  (forall I, tdata (hi c) I = tdata (hi a) (bidx sa I) + tdata (hi b) (bidx sb I)).
Proof.
  rewrite !wfs_iff. intros [A1 A2] [B1 B2] H. apply iadd_lohi in H. destruct H as (H1 & H2 & _).
  apply tmap2_ok in H1, H2. rewrite A1, B1 in H1. rewrite A2, B2 in H2.
  destruct H1 as [S1 D1], H2 as [S2 D2].
  exists (tshape (lo c)). split; [auto|]. split; [apply wfs_iff; split; congruence|].
  split; intros I; [rewrite D1 | rewrite D2]; unfold bget; simpl; congruence.
Qed.

Lemma iadd_in sa sb a b c I u v : wfs sa a -> wfs sb b -> iadd a b = Ok c ->
  inat a (bidx sa I) u -> inat b (bidx sb I) v -> inat c I (u + v).
Proof.
  intros Ha Hb H. destruct (iadd_spec _ _ _ _ _ Ha Hb H) as (sc & _ & _ & L & U).
  rewrite !inat_iff, L, U. lra.
Qed.

Lemma isub_spec sa sb a b c : wfs sa a -> wfs sb b -> isub a b = Ok c ->
  exists sc, bshape sa sb = Some sc /\ wfs sc c /\
  (forall I, tdata (lo c) I = tdata (lo a) (bidx sa I) - tdata (hi b) (bidx sb I)) /\
  (forall I, tdata (hi c) I = tdata (hi a) (bidx sa I) - tdata (lo b) (bidx sb I)).
Proof.
  rewrite !wfs_iff. intros [A1 A2] [B1 B2] H. apply isub_lohi in H. destruct H as (H1 & H2 & _).
  apply tmap2_ok in H1, H2. rewrite A1, B2 in H1. rewrite A2, B1 in H2.
  destruct H1 as [S1 D1], H2 as [S2 D2].
  exists (tshape (lo c)). split; [auto|]. split; [apply wfs_iff; split; congruence|].
  split; intros I; [rewrite D1 | rewrite D2]; unfold bget; simpl; congruence.
Qed.

Lemma isub_in sa sb a b c I u v : wfs sa a -> wfs sb b -> isub a b = Ok c ->
  inat a (bidx sa I) u -> inat b (bidx sb I) v -> inat c I (u - v).
Proof.
  intros Ha Hb H. destruct (isub_spec _ _ _ _ _ Ha Hb H) as (sc & _ & _ & L & U).
  rewrite !inat_iff, L, U. lra.
Qed.

Lemma ineg_lohi a : lo (ineg a) = tneg (hi a) /\ hi (ineg a) = tneg (lo a).
Proof. destruct a; simpl; auto. Qed.

Lemma ineg_in a I u : inat a I u -> inat (ineg a) I (- u).
Proof. destruct (ineg_lohi a) as [L H]. rewrite !inat_iff, L, H. simpl. lra. Qed.

Lemma ineg_wfs sh a : wfs sh a -> wfs sh (ineg a).
Proof. destruct (ineg_lohi a) as [L H]. rewrite !wfs_iff, L, H. simpl. tauto. Qed.

(** ** minimum / maximum over a list of arrays of one shape *)
Lemma foldM_tmin sh l t m : tshape t = sh -> Forall (fun x => tshape x = sh) l ->
  foldM tmin t l = Ok m -> tshape m = sh /\
  forall I, valid sh I -> (forall x, In x (t :: l) -> tdata m I <= tdata x I) /\
                          (exists x, In x (t :: l) /\ tdata m I = tdata x I).
Proof.
  revert t; induction l as [|y l IH]; simpl; intros t Ht Hl H.
  - injection H as <-. split; auto. intros I _. split; [intros x [->|[]]; lra | eauto].
  - ok_inv. inversion Hl; subst. unfold tmin in Hb.
    destruct (tmap2_same_ok _ _ _ _ _ Hb eq_refl ltac:(eassumption)) as [S1 D1].
    specialize (IH a S1 ltac:(eassumption) H). destruct IH as [S2 D2]. split; auto.
    intros I HI. destruct (D2 I HI) as [E1 (x & Hx & E2)]. specialize (D1 I HI). simpl in D1.
    pose proof (Rmin_l (tdata t I) (tdata y I)). pose proof (Rmin_r (tdata t I) (tdata y I)). split.
    + pose proof (E1 a (or_introl eq_refl)). intros z [->|[->|Hz]]; [lra|lra|]. apply E1. right; auto.
    + destruct Hx as [<-|Hx]; [|eauto]. rewrite E2, D1. unfold Rmin. destruct Rle_dec; eauto.
Qed.

Lemma foldM_tmax sh l t m : tshape t = sh -> Forall (fun x => tshape x = sh) l ->
  foldM tmax t l = Ok m -> tshape m = sh /\
  forall I, valid sh I -> (forall x, In x (t :: l) -> tdata x I <= tdata m I) /\
                          (exists x, In x (t :: l) /\ tdata m I = tdata x I).
Proof.
  revert t; induction l as [|y l IH]; simpl; intros t Ht Hl H.
  - injection H as <-. split; auto. intros I _. split; [intros x [->|[]]; lra | eauto].
  - ok_inv. inversion Hl; subst. unfold tmax in Hb.
    destruct (tmap2_same_ok _ _ _ _ _ Hb eq_refl ltac:(eassumption)) as [S1 D1].
    specialize (IH a S1 ltac:(eassumption) H). destruct IH as [S2 D2]. split; auto.
    intros I HI. destruct (D2 I HI) as [E1 (x & Hx & E2)]. specialize (D1 I HI). simpl in D1.
    pose proof (Rmax_l (tdata t I) (tdata y I)). pose proof (Rmax_r (tdata t I) (tdata y I)). split.
    + pose proof (E1 a (or_introl eq_refl)). intros z [->|[->|Hz]]; [lra|lra|]. apply E1. right; auto.
    + destruct Hx as [<-|Hx]; [|eauto]. rewrite E2, D1. unfold Rmax. destruct Rle_dec; eauto.
Qed.

Lemma reduce_tmin sh l m : Forall (fun x => tshape x = sh) l -> reduceM tmin l = Ok m ->
  tshape m = sh /\ forall I, valid sh I -> (forall x, In x l -> tdata m I <= tdata x I) /\
                          (exists x, In x l /\ tdata m I = tdata x I).
Proof.
  destruct l as [|t l]; [discriminate|]. intros H K. inversion H; subst. eapply foldM_tmin; eauto.
Qed.
Lemma reduce_tmax sh l m : Forall (fun x => tshape x = sh) l -> reduceM tmax l = Ok m ->
  tshape m = sh /\ forall I, valid sh I -> (forall x, In x l -> tdata x I <= tdata m I) /\
                          (exists x, In x l /\ tdata m I = tdata x I).
Proof.
  destruct l as [|t l]; [discriminate|]. intros H K. inversion H; subst. eapply foldM_tmax; eauto.
Qed.

(** ** The product rule *)
Lemma endpoints_lohi a : In (lo a) (endpoints a) /\ In (hi a) (endpoints a) /\
  forall t, In t (endpoints a) -> t = lo a \/ t = hi a.
Proof. destruct a; simpl; intuition. Qed.

Lemma corner_le a0 a1 b0 b1 u v : a0 <= u <= a1 -> b0 <= v <= b1 ->
  exists x y, (x = a0 \/ x = a1) /\ (y = b0 \/ y = b1) /\ x * y <= u * v.
Proof.
  intros Hu Hv.
  destruct (Rle_dec 0 v).
  - destruct (Rle_dec 0 a0); [exists a0, b0 | exists a0, b1]; intuition; nra.
  - destruct (Rle_dec 0 a1); [exists a1, b0 | exists a1, b1]; intuition; nra.
Qed.

Lemma corner_ge a0 a1 b0 b1 u v : a0 <= u <= a1 -> b0 <= v <= b1 ->
  exists x y, (x = a0 \/ x = a1) /\ (y = b0 \/ y = b1) /\ u * v <= x * y.
Proof.
  intros Hu Hv.
  destruct (Rle_dec 0 v).
  - destruct (Rle_dec 0 a1); [exists a1, b1 | exists a1, b0]; intuition; nra.
  - destruct (Rle_dec 0 a0); [exists a0, b1 | exists a0, b0]; intuition; nra.
Qed.

Lemma ibil_prod_gen f sa sb sc pa pb a b c : prodop f sa sb sc pa pb ->
  wfs sa a -> wfs sb b -> ibilinear a b f true = Ok c ->
  wfs sc c /\ forall I, valid sc I ->
  (forall u v, inat a (pa I) u -> inat b (pb I) v -> inat c I (u * v)) /\
  (tdata (lo a) (pa I) <= tdata (hi a) (pa I) -> tdata (lo b) (pb I) <= tdata (hi b) (pb I) ->
   (exists u v, inat a (pa I) u /\ inat b (pb I) v /\ tdata (lo c) I = u * v) /\
   (exists u v, inat a (pa I) u /\ inat b (pb I) v /\ tdata (hi c) I = u * v)).
Proof.
  intros [PV PI] Ha Hb H.
  assert (Haux : (exists x y, a = Arr x /\ b = Arr y /\ ibilinear a b f true = (c <- f x y ;; Ok (Arr c))) \/
    ibilinear a b f true =
        (prods <- mapM (fun p => f (fst p) (snd p)) (list_prod (endpoints a) (endpoints b)) ;;
        l <- reduceM tmin prods ;; h <- reduceM tmax prods ;; Ok (Ivl l h))).
  { destruct a, b; simpl; eauto 6. }
  destruct Haux as [(x & y & -> & -> & E)|E]; rewrite E in H; clear E.
  - ok_inv. subst. simpl in Ha, Hb. destruct (PV _ _ _ Ha Hb Hb0) as [S D].
    split; [exact S|]. intros I HI. specialize (D I HI). split.
    + intros u v. simpl. intros -> ->. auto.
    + intros _ _. simpl. split; eexists; eexists; split; eauto.
  - ok_inv. subst c. rename a0 into prods, a1 into l, a2 into h.
    apply mapM_ok in Hb0.
    apply wfs_iff in Ha, Hb. destruct Ha as [A1 A2], Hb as [B1 B2].
    destruct (endpoints_lohi a) as (Ela & Eha & Ea), (endpoints_lohi b) as (Elb & Ehb & Eb).
    assert (HP : forall z, In z prods -> exists x y, In x (endpoints a) /\ In y (endpoints b) /\ f x y = Ok z).
    { intros z Hz. clear -Hb0 Hz. assert (exists p, In p (list_prod (endpoints a) (endpoints b)) /\ f (fst p) (snd p) = Ok z).
      { revert Hz. induction Hb0 as [|p0 z0 ps zs Hp0 Hps IH]; simpl; [tauto|].
        intros [<-|Hz]; [exists p0; auto|]. destruct (IH Hz) as (p & ? & ?). exists p; auto. }
      destruct H as ((x,y) & Hp & E). apply in_prod_iff in Hp. destruct Hp. exists x, y; auto. }
    assert (HP' : forall x y, In x (endpoints a) -> In y (endpoints b) -> exists z, In z prods /\ f x y = Ok z).
    { intros x y Hx Hy. assert (In (x,y) (list_prod (endpoints a) (endpoints b))) as Hin by (apply in_prod; auto).
      clear -Hb0 Hin. revert Hin. induction Hb0 as [|p z ps zs Hp Hps IH]; simpl; [tauto|]. intros [->|Hin]; [eauto|].
      destruct (IH Hin) as (z' & ? & ?). eauto. }
    assert (HSa : forall x, In x (endpoints a) -> tshape x = sa) by (intros x Hx; destruct (Ea x Hx) as [->| ->]; auto).
    assert (HSb : forall x, In x (endpoints b) -> tshape x = sb) by (intros x Hx; destruct (Eb x Hx) as [->| ->]; auto).
    assert (HS : Forall (fun x => tshape x = sc) prods).
    { apply Forall_forall. intros z Hz. destruct (HP z Hz) as (x & y & Hx & Hy & E). apply (PV x y z (HSa _ Hx) (HSb _ Hy) E). }
    destruct (reduce_tmin _ _ _ HS Hb1) as [Sl Dl]. destruct (reduce_tmax _ _ _ HS Hb2) as [Sh Dh].
    split; [split; auto|]. intros I HI. destruct (PI I HI) as [Va Vb].
    destruct (Dl I HI) as [Dl1 (zl & Hzl & Dl2)], (Dh I HI) as [Dh1 (zh & Hzh & Dh2)]. split.
    + intros u v. rewrite !inat_iff. intros Hu Hv. simpl. split.
      * destruct (corner_le _ _ _ _ _ _ Hu Hv) as (x & y & Hx & Hy & Hxy).
        assert (exists tx, In tx (endpoints a) /\ tdata tx (pa I) = x) as (tx & Htx & <-) by (destruct Hx; subst; eauto).
        assert (exists ty, In ty (endpoints b) /\ tdata ty (pb I) = y) as (ty & Hty & <-) by (destruct Hy; subst; eauto).
        destruct (HP' tx ty Htx Hty) as (z & Hz & E). specialize (Dl1 z Hz).
        destruct (PV tx ty z (HSa _ Htx) (HSb _ Hty) E) as [_ D]. rewrite D in Dl1 by auto. lra.
      * destruct (corner_ge _ _ _ _ _ _ Hu Hv) as (x & y & Hx & Hy & Hxy).
        assert (exists tx, In tx (endpoints a) /\ tdata tx (pa I) = x) as (tx & Htx & <-) by (destruct Hx; subst; eauto).
        assert (exists ty, In ty (endpoints b) /\ tdata ty (pb I) = y) as (ty & Hty & <-) by (destruct Hy; subst; eauto).
        destruct (HP' tx ty Htx Hty) as (z & Hz & E). specialize (Dh1 z Hz).
        destruct (PV tx ty z (HSa _ Htx) (HSb _ Hty) E) as [_ D]. rewrite D in Dh1 by auto. lra.
    + intros Oa Ob.
      assert (Ma : forall x, In x (endpoints a) -> inat a (pa I) (tdata x (pa I))).
      { intros x Hx. rewrite inat_iff. destruct (Ea x Hx) as [->| ->]; lra. }
      assert (Mb : forall x, In x (endpoints b) -> inat b (pb I) (tdata x (pb I))).
      { intros x Hx. rewrite inat_iff. destruct (Eb x Hx) as [->| ->]; lra. }
      split.
      * destruct (HP _ Hzl) as (x & y & Hx & Hy & E). destruct (PV x y zl (HSa _ Hx) (HSb _ Hy) E) as [_ D].
        exists (tdata x (pa I)), (tdata y (pb I)). repeat split; auto. simpl. rewrite Dl2. auto.
      * destruct (HP _ Hzh) as (x & y & Hx & Hy & E). destruct (PV x y zh (HSa _ Hx) (HSb _ Hy) E) as [_ D].
        exists (tdata x (pa I)), (tdata y (pb I)). repeat split; auto. simpl. rewrite Dh2. auto.
Qed.

Lemma ibil_prod f sa sb sc pa pb a b c : prodop f sa sb sc pa pb ->
  wfs sa a -> wfs sb b -> ibilinear a b f true = Ok c ->
  wfs sc c /\ forall I u v, valid sc I -> inat a (pa I) u -> inat b (pb I) v -> inat c I (u * v).
Proof.
  intros P Ha Hb H. destruct (ibil_prod_gen _ _ _ _ _ _ _ _ _ P Ha Hb H) as [S D].
  split; auto. intros I u v HI. destruct (D I HI) as [D1 _]. apply D1.
Qed.

(** Both arguments arrays: nothing becomes an interval. *)
Lemma ibil_arr f pr x y c : ibilinear (Arr x) (Arr y) f pr = Ok c -> exists z, c = Arr z /\ f x y = Ok z.
Proof. simpl. intros H. ok_inv. subst. eauto. Qed.

(** ** [multiply] *)
Lemma tmul_prodop sa sb sc : bshape sa sb = Some sc -> prodop tmul sa sb sc (bidx sa) (bidx sb).
Proof.
  intros E. split.
  - intros x y z Hx Hy H. apply tmap2_ok in H. rewrite Hx, Hy, E in H. destruct H as [H1 H2].
    split; [congruence|]. intros I _. rewrite H2. unfold bget. rewrite Hx, Hy. reflexivity.
  - intros I HI. apply bshape_spec in E. destruct E. split; eapply bidx_compat_valid; eauto.
Qed.

Lemma ibil_some_ok f pr sa sb a b c : wfs sa a -> wfs sb b -> ibilinear a b f pr = Ok c ->
  exists x y z, tshape x = sa /\ tshape y = sb /\ f x y = Ok z.
Proof.
  intros Ha Hb H. destruct a as [a|a0 a1], b as [b|b0 b1], pr; simpl in H, Ha, Hb; ok_inv; subst;
    unfold sum_bilinear in *; repeat match goal with
    | H : mapM _ _ = Ok _ |- _ => apply mapM_ok in H; inversion H; subst; clear H
    | H : bind _ _ = Ok _ |- _ => apply bind_ok in H; destruct H as (? & ? & ?)
    | H : _ /\ _ |- _ => destruct H
    end; subst; simpl in *;
    match goal with H : f ?x ?y = Ok ?z |- _ => exists x, y, z end; auto.
Qed.

Lemma imul_bshape sa sb a b c : wfs sa a -> wfs sb b -> imul a b = Ok c -> exists sc, bshape sa sb = Some sc.
Proof.
  intros Ha Hb H. destruct (ibil_some_ok _ _ _ _ _ _ _ Ha Hb H) as (x & y & z & Hx & Hy & E).
  apply tmap2_ok in E. rewrite Hx, Hy in E. destruct E; eauto.
Qed.

Lemma imul_spec sa sb a b c : wfs sa a -> wfs sb b -> imul a b = Ok c ->
  exists sc, bshape sa sb = Some sc /\ wfs sc c /\
  forall I u v, valid sc I -> inat a (bidx sa I) u -> inat b (bidx sb I) v -> inat c I (u * v).
Proof.
  intros Ha Hb H. destruct (imul_bshape _ _ _ _ _ Ha Hb H) as [sc E]. exists sc. split; auto.
  eapply ibil_prod; eauto. apply tmul_prodop; auto.
Qed.

(** ** The general bilinear rule *)
Fixpoint wsumg (L : list (R * (list nat * list nat))) (g : list nat -> list nat -> R) : R :=
  match L with
  | [] => 0
  | (w, (ia, ib)) :: L' => w * g ia ib + wsumg L' g
  end.

Lemma wsum_wsumg L x y : wsum L x y = wsumg L (fun i j => x i * y j).
Proof. induction L as [|(w,(i,j)) L IH]; simpl; congruence. Qed.

Lemma wsumg_plus L f g : wsumg L (fun i j => f i j + g i j) = wsumg L f + wsumg L g.
Proof. induction L as [|(w,(i,j)) L IH]; simpl; [ring|]. rewrite IH. ring. Qed.

Lemma wsumg_le (Q : list nat -> list nat -> Prop) L f g :
  Forall (fun '(w, (ia, ib)) => 0 <= w /\ Q ia ib) L ->
  (forall i j, Q i j -> f i j <= g i j) -> wsumg L f <= wsumg L g.
Proof.
  intros H K. induction H as [|(w,(i,j)) L [Hw HQ] HL IH]; simpl; [lra|].
  specialize (K i j HQ). nra.
Qed.

Lemma wsumg_eq (Q : list nat -> list nat -> Prop) L f g :
  Forall (fun '(w, (ia, ib)) => 0 <= w /\ Q ia ib) L ->
  (forall i j, Q i j -> f i j = g i j) -> wsumg L f = wsumg L g.
Proof.
  intros H K. induction H as [|(w,(i,j)) L [Hw HQ] HL IH]; simpl; [lra|].
  rewrite (K i j HQ), IH. reflexivity.
Qed.

Definition rpos x := Rmax 0 x.
Definition rneg x := Rmin 0 x.

Ltac rparts := unfold rpos, rneg, Rmax, Rmin in *; repeat destruct Rle_dec; try nra.

Lemma split_ab_lo a0 a1 a b : a0 <= a <= a1 -> a0 * rpos b + a1 * rneg b <= a * b <= a1 * rpos b + a0 * rneg b.
Proof. intros. rparts. Qed.

Lemma split4_lo u v w x a b : u <= a <= v -> w <= b <= x ->
  rpos u * rpos w + rpos v * rneg w + rneg u * rpos x + rneg v * rneg x <= a * b.
Proof.
  intros Ha Hb.
  assert (rpos u <= rpos a <= rpos v /\ rneg u <= rneg a <= rneg v /\
          rpos w <= rpos b <= rpos x /\ rneg w <= rneg b <= rneg x /\
          0 <= rpos u /\ rneg v <= 0 /\ 0 <= rpos w /\ rneg x <= 0 /\
          0 <= rpos a /\ 0 <= rpos b /\ rneg a <= 0 /\ rneg b <= 0 /\ a = rpos a + rneg a /\ b = rpos b + rneg b) as H.
  { unfold rpos, rneg, Rmax, Rmin; repeat destruct Rle_dec; lra. }
  destruct H as (H1&H2&H3&H4&H5&H6&H7&H8&H9&H10&H11&H12&Ea&Eb).
  set (pu := rpos u) in *. set (pv := rpos v) in *. set (nu := rneg u) in *. set (nv := rneg v) in *.
  set (pw := rpos w) in *. set (px := rpos x) in *. set (nw := rneg w) in *. set (nx := rneg x) in *.
  set (pa := rpos a) in *. set (pb := rpos b) in *. set (na := rneg a) in *. set (nb := rneg b) in *.
  rewrite Ea, Eb. clearbody pu pv nu nv pw px nw nx pa pb na nb.
  replace ((pa + na) * (pb + nb)) with (pa * pb + pa * nb + na * pb + na * nb) by ring.
  assert (pu * pw <= pa * pb) by nra. assert (pv * nw <= pa * nb) by nra.
  assert (nu * px <= na * pb) by nra. assert (nv * nx <= na * nb) by nra. lra.
Qed.

Lemma split4_hi u v w x a b : u <= a <= v -> w <= b <= x ->
  a * b <= rpos v * rpos x + rneg v * rpos w + rpos u * rneg x + rneg u * rneg w.
Proof.
  intros Ha Hb.
  assert (H : - v <= - a <= - u) by lra. pose proof (split4_lo (-v) (-u) w x (-a) b H Hb) as K.
  assert (E1 : forall y, rpos (- y) = - rneg y) by (intros; unfold rpos, rneg, Rmax, Rmin; repeat destruct Rle_dec; lra).
  assert (E2 : forall y, rneg (- y) = - rpos y) by (intros; unfold rpos, rneg, Rmax, Rmin; repeat destruct Rle_dec; lra).
  rewrite !E1, !E2 in K. lra.
Qed.

Lemma tadd_same sh a b c : tadd a b = Ok c -> tshape a = sh -> tshape b = sh ->
  tshape c = sh /\ forall I, valid sh I -> tdata c I = tdata a I + tdata b I.
Proof. apply tmap2_same_ok. Qed.

Lemma sum4_spec f sa sb sc T p1 q1 p2 q2 p3 q3 p4 q4 c : posop f sa sb sc T ->
  tshape p1 = sa -> tshape p2 = sa -> tshape p3 = sa -> tshape p4 = sa ->
  tshape q1 = sb -> tshape q2 = sb -> tshape q3 = sb -> tshape q4 = sb ->
  sum_bilinear f [(p1,q1);(p2,q2);(p3,q3);(p4,q4)] = Ok c ->
  tshape c = sc /\ forall I, valid sc I ->
  tdata c I = wsumg (T I) (fun i j => tdata p1 i * tdata q1 j + tdata p2 i * tdata q2 j
                                    + tdata p3 i * tdata q3 j + tdata p4 i * tdata q4 j).
Proof.
  intros [PV PI] A1 A2 A3 A4 B1 B2 B3 B4 H. unfold sum_bilinear in H. ok_inv.
  apply mapM_ok in Hb. inversion Hb as [|? z1 ? ? Z1 Hb2]; subst. inversion Hb2 as [|? z2 ? ? Z2 Hb3]; subst.
  inversion Hb3 as [|? z3 ? ? Z3 Hb4]; subst. inversion Hb4 as [|? z4 ? ? Z4 Hb5]; subst.
  inversion Hb5; subst. simpl in *. ok_inv. subst.
  destruct (PV _ _ _ eq_refl eq_refl Z1) as [S1 D1]. destruct (PV _ _ _ A2 B2 Z2) as [S2 D2].
  destruct (PV _ _ _ A3 B3 Z3) as [S3 D3]. destruct (PV _ _ _ A4 B4 Z4) as [S4 D4].
  destruct (tadd_same _ _ _ _ Hb0 S1 S2) as [S5 D5]. destruct (tadd_same _ _ _ _ Hb1 S5 S3) as [S6 D6].
  destruct (tadd_same _ _ _ _ Hb6 S6 S4) as [S7 D7]. split; auto.
  intros I HI. rewrite D7, D6, D5, D1, D2, D3, D4 by auto. rewrite !wsum_wsumg, <- !wsumg_plus. reflexivity.
Qed.

Definition memb (sh : list nat) (c : coef R) (A : list nat -> R) : Prop :=
  forall J, valid sh J -> inat c J (A J).

Lemma ibil_pos_loc f sa sb sc T a b c : posop f sa sb sc T ->
  wfs sa a -> wfs sb b -> ibilinear a b f false = Ok c ->
  wfs sc c /\ forall A B I, valid sc I ->
   (forall w i j, In (w, (i, j)) (T I) -> valid sa i -> valid sb j -> inat a i (A i) /\ inat b j (B j)) ->
   inat c I (wsum (T I) A B).
Proof.
  intros HP Ha Hb H. pose proof HP as [PV PI].
  assert (HT : forall A B I, valid sc I ->
     (forall w i j, In (w, (i, j)) (T I) -> valid sa i -> valid sb j -> inat a i (A i) /\ inat b j (B j)) ->
     Forall (fun '(w, (ia, ib)) => 0 <= w /\ (inat a ia (A ia) /\ inat b ib (B ib))) (T I)).
  { intros A B I HI HM. specialize (PI I HI). rewrite Forall_forall in *. intros (w,(i,j)) Hin.
    specialize (PI _ Hin). simpl in PI. specialize (HM w i j Hin). tauto. }
  destruct a as [x|a0 a1], b as [y|b0 b1]; simpl in Ha, Hb.
  - apply ibil_arr in H. destruct H as (z & -> & H). destruct (PV _ _ _ Ha Hb H) as [S D].
    split; [exact S|]. intros A B I HI HM. simpl. rewrite D by auto. rewrite !wsum_wsumg.
    eapply wsumg_eq; [apply (HT A B I HI HM)|]. intros i j [HA HB]. simpl in HA, HB. rewrite HA, HB. reflexivity.
  - destruct Hb as [B0 B1]. simpl in H. ok_inv. subst c.
    match goal with H1 : f (pos_part x) b0 = Ok ?p, H2 : f (neg_part x) b1 = Ok ?q, H3 : tadd ?p ?q = Ok ?l,
       H4 : f (pos_part x) b1 = Ok ?r, H5 : f (neg_part x) b0 = Ok ?s, H6 : tadd ?r ?s = Ok ?h |- _ =>
      destruct (PV _ _ _ (Ha : tshape (pos_part x) = _) B0 H1) as [S1 D1];
      destruct (PV _ _ _ (Ha : tshape (neg_part x) = _) B1 H2) as [S2 D2];
      destruct (tadd_same _ _ _ _ H3 S1 S2) as [S3 D3];
      destruct (PV _ _ _ (Ha : tshape (pos_part x) = _) B1 H4) as [S4 D4];
      destruct (PV _ _ _ (Ha : tshape (neg_part x) = _) B0 H5) as [S5 D5];
      destruct (tadd_same _ _ _ _ H6 S4 S5) as [S6 D6] end.
    split; [split; auto|]. intros A B I HI HM. simpl.
    rewrite D3, D6, D1, D2, D4, D5, !wsum_wsumg, <- !wsumg_plus by auto.
    split; (eapply wsumg_le; [apply (HT A B I HI HM)|]); intros i j [HA HB]; simpl in HA; rewrite HA;
      simpl in HB; pose proof (split_ab_lo _ _ _ (tdata x i) HB); simpl; fold (rpos (tdata x i)) (rneg (tdata x i)); lra.
  - destruct Ha as [A0 A1]. simpl in H. ok_inv. subst c.
    match goal with H1 : f a0 (pos_part y) = Ok ?p, H2 : f a1 (neg_part y) = Ok ?q, H3 : tadd ?p ?q = Ok ?l,
       H4 : f a1 (pos_part y) = Ok ?r, H5 : f a0 (neg_part y) = Ok ?s, H6 : tadd ?r ?s = Ok ?h |- _ =>
      destruct (PV _ _ _ A0 (Hb : tshape (pos_part y) = _) H1) as [S1 D1];
      destruct (PV _ _ _ A1 (Hb : tshape (neg_part y) = _) H2) as [S2 D2];
      destruct (tadd_same _ _ _ _ H3 S1 S2) as [S3 D3];
      destruct (PV _ _ _ A1 (Hb : tshape (pos_part y) = _) H4) as [S4 D4];
      destruct (PV _ _ _ A0 (Hb : tshape (neg_part y) = _) H5) as [S5 D5];
      destruct (tadd_same _ _ _ _ H6 S4 S5) as [S6 D6] end.
    split; [split; auto|]. intros A B I HI HM. simpl.
    rewrite D3, D6, D1, D2, D4, D5, !wsum_wsumg, <- !wsumg_plus by auto.
    split; (eapply wsumg_le; [apply (HT A B I HI HM)|]); intros i j [HA HB]; simpl in HB; rewrite HB;
      simpl in HA; pose proof (split_ab_lo _ _ _ (tdata y j) HA); simpl; fold (rpos (tdata y j)) (rneg (tdata y j)); lra.
  - destruct Ha as [A0 A1], Hb as [B0 B1]. simpl in H. ok_inv. subst c.
    destruct (sum4_spec f sa sb sc T (pos_part a0) (pos_part b0) (pos_part a1) (neg_part b0) (neg_part a0) (pos_part b1)
       (neg_part a1) (neg_part b1) a HP A0 A1 A0 A1 B0 B0 B1 B1 Hb) as [S1 D1].
    destruct (sum4_spec f sa sb sc T (pos_part a1) (pos_part b1) (neg_part a1) (pos_part b0) (pos_part a0) (neg_part b1)
       (neg_part a0) (neg_part b0) a2 HP A1 A1 A0 A0 B1 B0 B1 B0 Hb0) as [S2 D2].
    split; [split; auto|]. intros A B I HI HM. simpl. rewrite D1, D2, wsum_wsumg by auto.
    split; (eapply wsumg_le; [apply (HT A B I HI HM)|]); intros i j [HA HB];
      simpl in HA, HB; [apply (split4_lo _ _ _ _ _ _ HA HB) | apply (split4_hi _ _ _ _ _ _ HA HB)].
Qed.

Lemma ibil_pos f sa sb sc T a b c : posop f sa sb sc T ->
  wfs sa a -> wfs sb b -> ibilinear a b f false = Ok c ->
  wfs sc c /\ forall A B I, memb sa a A -> memb sb b B -> valid sc I -> inat c I (wsum (T I) A B).
Proof.
  intros HP Ha Hb H. destruct (ibil_pos_loc _ _ _ _ _ _ _ _ HP Ha Hb H) as [S D]. split; auto.
Qed.

Ltac dif H E := match type of H with (if ?b then _ else _) = _ => destruct b eqn:E end.

(** ** tensordot *)
Lemma fold_sumn (n : nat) (f : nat -> R) :
  sumn n f = fold_right (fun i s => f i + s) 0 (seq 0 n).
Proof.
  assert (G : forall l a, fold_right (fun i s => f i + s) a l = fold_right (fun i s => f i + s) 0 l + a).
  { induction l as [|i l IH]; intros a; simpl; [ring|]. rewrite IH. ring. }
  induction n; [reflexivity|]. rewrite seq_S, fold_right_app. simpl. rewrite G, IHn. simpl. ring.
Qed.

Lemma wsum_app L M x y : wsum (L ++ M) x y = wsum L x y + wsum M x y.
Proof. induction L as [|(w,(i,j)) L IH]; simpl; [ring|]. rewrite IH. ring. Qed.

Lemma sumi_wsum sh (pa pb : list nat -> list nat) x y :
  sumi sh (fun K => x (pa K) * y (pb K)) =
  wsum (map (fun K => (1, (pa K, pb K))) (all_idx sh)) x y.
Proof.
  revert pa pb; induction sh as [|n sh IH]; intros pa pb; cbn [sumi all_idx].
  - simpl. ring.
  - rewrite fold_sumn. generalize (seq 0 n). intros l. induction l as [|i l IHl]; simpl; [reflexivity|].
    rewrite map_app, wsum_app, IHl. f_equal.
    rewrite (IH (fun K => pa (i :: K)) (fun K => pb (i :: K))), map_map. reflexivity.
Qed.

Definition td_terms (na : nat) (shk : list nat) (I : list nat) : list (R * (list nat * list nat)) :=
  map (fun K => (1, (firstn na I ++ K, K ++ skipn na I))) (all_idx shk).

Lemma tensordot_posop k s1 sk s2 : length sk = k ->
  posop (ttensordot k) (s1 ++ sk) (sk ++ s2) (s1 ++ s2) (td_terms (length s1) sk).
Proof.
  intros Hk. assert (En : (length (s1 ++ sk) - k)%nat = length s1) by (rewrite app_length; lia). split.
  - intros x y z Hx Hy H. unfold ttensordot, tndim in H. rewrite Hx, Hy in H.
    dif H E; [|discriminate]. injection H as <-. simpl.
    rewrite En in *. rewrite !firstn_exact, skipn_exact by auto. split; [reflexivity|].
    intros I HI. unfold td_terms. rewrite <- sumi_wsum. reflexivity.
  - intros I HI. apply valid_app_inv in HI. destruct HI as (I1 & I2 & -> & H1 & H2).
    unfold td_terms. apply Forall_forall. intros (w,(ia,ib)) Hin. apply in_map_iff in Hin.
    destruct Hin as (K & [= <- <- <-] & HK). apply all_idx_valid in HK.
    pose proof (valid_length _ _ H1). rewrite firstn_exact, skipn_exact by auto.
    repeat split; [lra | |]; apply valid_app; auto.
Qed.

Lemma tensordot_shapes k x y z : ttensordot k x y = Ok z ->
  exists s1 sk s2, tshape x = s1 ++ sk /\ tshape y = sk ++ s2 /\ length sk = k.
Proof.
  unfold ttensordot, tndim. intros H. dif H E; [|discriminate].
  apply andb_true_iff in E. destruct E as [E E3]. apply andb_true_iff in E. destruct E as [E1 E2].
  apply Nat.leb_le in E1, E2. apply shape_eqb_eq in E3.
  exists (firstn (length (tshape x) - k) (tshape x)), (firstn k (tshape y)), (skipn k (tshape y)).
  rewrite firstn_skipn. split; [rewrite <- E3, firstn_skipn; reflexivity|]. split; [reflexivity|].
  rewrite firstn_length. lia.
Qed.

(** [axes = 0] is a product operation. *)
Lemma tensordot0_prodop s1 s2 :
  prodop (ttensordot 0) s1 s2 (s1 ++ s2) (firstn (length s1)) (skipn (length s1)).
Proof.
  split.
  - intros x y z Hx Hy H. unfold ttensordot, tndim in H. rewrite Hx, Hy in H.
    dif H E; [|discriminate]. injection H as <-. simpl.
    rewrite Nat.sub_0_r, firstn_all. split; [reflexivity|]. intros I HI. rewrite app_nil_r. reflexivity.
  - intros I HI. apply valid_app_inv in HI. destruct HI as (I1 & I2 & -> & H1 & H2).
    pose proof (valid_length _ _ H1). rewrite firstn_exact, skipn_exact by auto. auto.
Qed.

(** Soundness of the interval tensordot for every number of contracted axes. *)
Lemma itensordot_loc k s1 sk s2 a b c : length sk = k ->
  wfs (s1 ++ sk) a -> wfs (sk ++ s2) b -> itensordot a b k = Ok c ->
  wfs (s1 ++ s2) c /\ forall A B I J, valid s1 I -> valid s2 J ->
    (forall K, valid sk K -> inat a (I ++ K) (A K)) -> (forall K, valid sk K -> inat b (K ++ J) (B K)) ->
    inat c (I ++ J) (sumi sk (fun K => A K * B K)).
Proof.
  intros Hk Ha Hb H. unfold itensordot in H. destruct (Nat.eqb_spec k 0) as [->|Hk0].
  - destruct sk; [|discriminate]. rewrite app_nil_r in *. simpl in Hb.
    destruct (ibil_prod _ _ _ _ _ _ _ _ _ (tensordot0_prodop s1 s2) Ha Hb H) as [S D]. split; auto.
    intros A B I J HI HJ HA HB. simpl. apply D; [apply valid_app; auto| |];
    rewrite ?firstn_exact, ?skipn_exact by (symmetry; apply valid_length; auto).
    + rewrite <- (app_nil_r I). apply HA. constructor.
    + apply (HB []). constructor.
  - destruct (ibil_pos_loc _ _ _ _ _ _ _ _ (tensordot_posop k s1 sk s2 Hk) Ha Hb H) as [S D]. split; auto.
    intros A B I J HI HJ HA HB. pose proof (valid_length _ _ HI) as L.
    specialize (D (fun M => A (skipn (length s1) M)) (fun M => B (firstn k M)) (I ++ J) (valid_app _ _ _ _ HI HJ)).
    unfold td_terms in D.
    rewrite <- (sumi_wsum sk (fun K => firstn (length s1) (I ++ J) ++ K) (fun K => K ++ skipn (length s1) (I ++ J))) in D.
    rewrite firstn_exact, skipn_exact in D by auto.
    rewrite (sumi_ext sk (fun K => A K * B K) (fun K => A (skipn (length s1) (I ++ K)) * B (firstn k (K ++ J)))).
    + apply D. intros w i j Hin _ _. apply in_map_iff in Hin. destruct Hin as (K & [= <- <- <-] & HK).
      apply all_idx_valid in HK. rewrite firstn_exact, skipn_exact by (pose proof (valid_length _ _ HK); lia). auto.
    + intros K HK. rewrite firstn_exact, skipn_exact by (pose proof (valid_length _ _ HK); lia). reflexivity.
Qed.

Lemma itensordot_spec k s1 sk s2 a b c : length sk = k ->
  wfs (s1 ++ sk) a -> wfs (sk ++ s2) b -> itensordot a b k = Ok c ->
  wfs (s1 ++ s2) c /\ forall A B I J, memb (s1 ++ sk) a A -> memb (sk ++ s2) b B -> valid s1 I -> valid s2 J ->
    inat c (I ++ J) (sumi sk (fun K => A (I ++ K) * B (K ++ J))).
Proof.
  intros Hk Ha Hb H. destruct (itensordot_loc k s1 sk s2 a b c Hk Ha Hb H) as [S D]. split; auto.
  intros A B I J HA HB HI HJ. apply (D (fun K => A (I ++ K)) (fun K => B (K ++ J))); auto; intros K HK.
  - apply HA. apply valid_app; auto.
  - apply HB. apply valid_app; auto.
Qed.
