(** Inclusion isotonicity: narrower arguments give narrower results. *)
From Coq Require Import Reals Lra Psatz.
From Verif Require Import Base Tensor IntervalArith Polynomials Enclosure TensorLemmas Spec IntervalProofs PowerProofs EnclosureOps IsoSpec.
Open Scope R_scope.

(** ** Two computations that both succeed *)
Definition rel {A B} (Q : A -> B -> Prop) (r : res A) (r' : res B) : Prop := forall a b, r = Ok a -> r' = Ok b -> Q a b.
Lemma rel_ok {A B} (Q : A -> B -> Prop) a b : Q a b -> rel Q (Ok a) (Ok b).
Proof. intros H x y [= <-] [= <-]. auto. Qed.
Lemma rel_err {A B} (Q : A -> B -> Prop) e r : rel Q (Err e) r.
Proof. intros x y H. discriminate. Qed.
Lemma rel_err' {A B} (Q : A -> B -> Prop) e r : rel Q r (Err e).
Proof. intros x y _ H. discriminate. Qed.
Lemma rel_bind {A B C D} (Q : A -> B -> Prop) (P : C -> D -> Prop) r r' f f' :
  rel Q r r' -> (forall a b, Q a b -> rel P (f a) (f' b)) -> rel P (bind r f) (bind r' f').
Proof.
  intros H K x y Hx Hy. apply bind_ok in Hx, Hy. destruct Hx as (a & Ha & Hx), Hy as (b & Hb & Hy). exact (K a b (H a b Ha Hb) x y Hx Hy).
Qed.
Lemma rel_mono {A B} (Q P : A -> B -> Prop) r r' : (forall a b, Q a b -> P a b) -> rel Q r r' -> rel P r r'.
Proof. intros H K a b Ha Hb. auto. Qed.
Lemma rel_mapM {A B C D} (Q : A -> B -> Prop) (P : C -> D -> Prop) f f' l l' : Forall2 Q l l' -> (forall a b, Q a b -> rel P (f a) (f' b)) ->
  rel (Forall2 P) (mapM f l) (mapM f' l').
Proof.
  intros H K. induction H as [|a b l l' Hab H IH]; cbn [mapM]; [apply rel_ok; constructor|].
  eapply rel_bind; [apply K; eauto|]. intros c d Hcd. eapply rel_bind; [exact IH|]. intros cs ds Hs. apply rel_ok. constructor; auto.
Qed.
Lemma rel_foldM {A B C D} (Q : A -> B -> Prop) (P : C -> D -> Prop) (f : A -> C -> res A) (f' : B -> D -> res B) l l' : Forall2 P l l' ->
  (forall a b c d, Q a b -> P c d -> rel Q (f a c) (f' b d)) -> forall a b, Q a b -> rel Q (foldM f a l) (foldM f' b l').
Proof.
  intros H K. induction H as [|c d l l' Hcd H IH]; intros a b Hab; cbn [foldM]; [apply rel_ok; auto|].
  eapply rel_bind; [apply K; eauto|]. intros a' b' Hab'. apply IH; auto.
Qed.
Definition same_fst {A B} (P : A -> B -> Prop) (x : nat * A) (y : nat * B) : Prop := fst x = fst y /\ P (snd x) (snd y).
Lemma enumerate_rel {A B} (P : A -> B -> Prop) l l' : Forall2 P l l' -> Forall2 (same_fst P) (enumerate l) (enumerate l').
Proof. unfold enumerate. intros H. generalize 0%nat. induction H; intros k; simpl; constructor; auto. split; auto. Qed.
Lemma Forall2_refl' {A} (P : A -> A -> Prop) l : (forall x, P x x) -> Forall2 P l l.
Proof. intros H. induction l; constructor; auto. Qed.
Lemma Forall2_length' {A B} (P : A -> B -> Prop) l l' : Forall2 P l l' -> length l = length l'.
Proof. induction 1; simpl; auto. Qed.
Lemma Forall2_skipn {A B} (P : A -> B -> Prop) n l l' : Forall2 P l l' -> Forall2 P (skipn n l) (skipn n l').
Proof. intros H. revert n. induction H; intros [|n]; simpl; try constructor; auto. Qed.
Lemma Forall2_firstn {A B} (P : A -> B -> Prop) n l l' : Forall2 P l l' -> Forall2 P (firstn n l) (firstn n l').
Proof. intros H. revert n. induction H; intros [|n]; simpl; try constructor; auto. Qed.
Lemma Forall2_repeat {A B} (P : A -> B -> Prop) a b n : P a b -> Forall2 P (repeat a n) (repeat b n).
Proof. intros H. induction n; simpl; constructor; auto. Qed.
Lemma get_nth_rel {A B} (P : A -> B -> Prop) l l' k : Forall2 P l l' -> rel P (get_nth l k) (get_nth l' k).
Proof.
  intros H. unfold get_nth. revert k. induction H; intros [|k]; simpl; try apply rel_err; [apply rel_ok; auto|]. apply IHForall2.
Qed.
Lemma set_nth_rel {A B} (P : A -> B -> Prop) v v' l l' : P v v' -> Forall2 P l l' -> forall k, rel (Forall2 P) (set_nth l k v) (set_nth l' k v').
Proof.
  intros Hv H. induction H; intros [|k]; simpl; try apply rel_err; [apply rel_ok; constructor; auto|].
  eapply rel_bind; [apply IHForall2|]. intros r r' Hr. apply rel_ok. constructor; auto.
Qed.

(** ** Nested coefficients *)
(** [narrower] with the shape made explicit. *)
Definition sub (sh : list nat) (c c' : coef R) : Prop :=
  is_arr c = is_arr c' /\ wfs sh c /\ wfs sh c' /\
  forall I, valid sh I -> tdata (lo c') I <= tdata (lo c) I <= tdata (hi c) I /\ tdata (hi c) I <= tdata (hi c') I.
Lemma narrower_sub c c' : narrower c c' <-> exists sh, sub sh c c'.
Proof.
  split.
  - intros H. exists (tshape (lo c)). exact H.
  - intros (sh & H1 & H2 & H3 & H4). pose proof (wfs_lo _ _ H2) as E. unfold narrower. rewrite E. auto.
Qed.
Lemma sub_narrower sh c c' : sub sh c c' -> narrower c c'.
Proof. intros H. apply narrower_sub. eauto. Qed.
Lemma sub_refl sh c : wfs sh c -> (forall I, valid sh I -> tdata (lo c) I <= tdata (hi c) I) -> sub sh c c.
Proof. intros W H. split; [auto|]. split; [auto|]. split; [auto|]. intros I HI. specialize (H I HI). lra. Qed.
Lemma sub_arr sh t t' : tshape t = sh -> tshape t' = sh -> (forall I, valid sh I -> tdata t I = tdata t' I) -> sub sh (Arr t) (Arr t').
Proof. intros H H' E. split; [auto|]. split; [auto|]. split; [auto|]. intros I HI. simpl. rewrite E by auto. lra. Qed.
Lemma sub_ivl sh l h l' h' : tshape l = sh -> tshape h = sh -> tshape l' = sh -> tshape h' = sh ->
  (forall I, valid sh I -> tdata l' I <= tdata l I <= tdata h I /\ tdata h I <= tdata h' I) -> sub sh (Ivl l h) (Ivl l' h').
Proof. intros. split; [auto|]. split; [split; auto|]. split; [split; auto|]. auto. Qed.
Lemma sub_inat sh c c' I u : sub sh c c' -> valid sh I -> inat c I u -> inat c' I u.
Proof. intros (_ & _ & _ & H) HI. rewrite !inat_iff. specialize (H I HI). lra. Qed.
Lemma narrower_arr t t' : tshape t = tshape t' -> (forall I, valid (tshape t) I -> tdata t I = tdata t' I) -> narrower (Arr t) (Arr t').
Proof. intros H E. apply (sub_narrower (tshape t)). apply sub_arr; auto. Qed.
Lemma narrower_arr_same (t : tensor R) : narrower (Arr t) (Arr t).
Proof. apply narrower_arr; auto. Qed.
Lemma narrower_indim c c' : narrower c c' -> indim c = indim c'.
Proof. intros (_ & W & W' & _). rewrite (wfs_indim _ _ W), (wfs_indim _ _ W'). auto. Qed.
Lemma narrower_ishape c c' : narrower c c' -> ishape c = ishape c'.
Proof. intros (_ & W & W' & _). rewrite (wfs_ishape _ _ W), (wfs_ishape _ _ W'). auto. Qed.

(** ** Interval operations *)
Lemma iadd_iso a a' b b' : narrower a a' -> narrower b b' -> rel narrower (iadd a b) (iadd a' b').
Proof.
  intros Ha Hb c c' H H'. apply narrower_sub in Ha, Hb. destruct Ha as (sa & Ka & Wa & Wa' & Na), Hb as (sb & Kb & Wb & Wb' & Nb).
  assert (K : is_arr c = is_arr c').
  { destruct a, a'; try discriminate; destruct b, b'; try discriminate; simpl in H, H'; ok_inv; subst; auto. }
  destruct (iadd_spec _ _ _ _ _ Wa Wb H) as (s & Hs & W & E1 & E2). destruct (iadd_spec _ _ _ _ _ Wa' Wb' H') as (s' & Hs' & W' & E1' & E2').
  rewrite Hs in Hs'. injection Hs' as <-. apply (sub_narrower s). split; [auto|]. split; [auto|]. split; [auto|].
  intros I HI. destruct (bshape_spec _ _ _ Hs) as [C1 C2]. pose proof (Na _ (bidx_compat_valid _ _ _ C1 HI)). pose proof (Nb _ (bidx_compat_valid _ _ _ C2 HI)).
  rewrite E1, E2, E1', E2'. lra.
Qed.
Lemma ineg_iso a a' : narrower a a' -> narrower (ineg a) (ineg a').
Proof.
  intros H. apply narrower_sub in H. destruct H as (s & K & W & W' & N). apply (sub_narrower s).
  split; [destruct a, a'; auto|]. split; [apply ineg_wfs; auto|]. split; [apply ineg_wfs; auto|]. intros I HI. specialize (N I HI).
  destruct (ineg_lohi a) as [-> ->], (ineg_lohi a') as [-> ->]. simpl. lra.
Qed.
Lemma isub_iso a a' b b' : narrower a a' -> narrower b b' -> rel narrower (isub a b) (isub a' b').
Proof.
  intros Ha Hb c c' H H'. apply narrower_sub in Ha, Hb. destruct Ha as (sa & Ka & Wa & Wa' & Na), Hb as (sb & Kb & Wb & Wb' & Nb).
  assert (K : is_arr c = is_arr c').
  { destruct a, a'; try discriminate; destruct b, b'; try discriminate; simpl in H, H'; ok_inv; subst; auto. }
  destruct (isub_spec _ _ _ _ _ Wa Wb H) as (s & Hs & W & E1 & E2). destruct (isub_spec _ _ _ _ _ Wa' Wb' H') as (s' & Hs' & W' & E1' & E2').
  rewrite Hs in Hs'. injection Hs' as <-. apply (sub_narrower s). split; [auto|]. split; [auto|]. split; [auto|].
  intros I HI. destruct (bshape_spec _ _ _ Hs) as [C1 C2]. pose proof (Na _ (bidx_compat_valid _ _ _ C1 HI)). pose proof (Nb _ (bidx_compat_valid _ _ _ C2 HI)).
  rewrite E1, E2, E1', E2'. lra.
Qed.

Lemma ibil_kind f pr (a b c : coef R) : ibilinear a b f pr = Ok c -> is_arr c = is_arr a && is_arr b.
Proof. destruct a, b, pr; simpl; intros H; ok_inv; subst; reflexivity. Qed.

(** The product rule. *)
Lemma ibil_prod_sub f sa sb s pa pb a a' b b' : prodop f sa sb s pa pb -> sub sa a a' -> sub sb b b' ->
  rel (sub s) (ibilinear a b f true) (ibilinear a' b' f true).
Proof.
  intros HP Ha Hb c c' H H'. pose proof Ha as (Ka & Wa & Wa' & Na). pose proof Hb as (Kb & Wb & Wb' & Nb).
  destruct (ibil_prod_gen _ _ _ _ _ _ _ _ _ HP Wa Wb H) as [W D]. destruct (ibil_prod_gen _ _ _ _ _ _ _ _ _ HP Wa' Wb' H') as [W' D'].
  split; [rewrite (ibil_kind _ _ _ _ _ H), (ibil_kind _ _ _ _ _ H'), Ka, Kb; auto|]. split; [auto|]. split; [auto|].
  intros I HI. destruct (prod_idx _ _ _ _ _ _ HP I HI) as [Va Vb]. destruct (D I HI) as [D1 D2]. destruct (D' I HI) as [D1' _].
  destruct (D2 ltac:(apply Na; auto) ltac:(apply Nb; auto)) as [(u & v & Hu & Hv & El) (x & y & Hx & Hy & Eh)].
  pose proof (D1 u v Hu Hv) as M1. pose proof (D1' u v (sub_inat _ _ _ _ _ Ha Va Hu) (sub_inat _ _ _ _ _ Hb Vb Hv)) as M2.
  pose proof (D1' x y (sub_inat _ _ _ _ _ Ha Va Hx) (sub_inat _ _ _ _ _ Hb Vb Hy)) as M3.
  rewrite inat_iff in M1, M2, M3. lra.
Qed.

(** The general rule. *)
Lemma rpos_mono x y : x <= y -> rpos x <= rpos y /\ 0 <= rpos x.
Proof. intros. rparts; lra. Qed.
Lemma rneg_mono x y : x <= y -> rneg x <= rneg y /\ rneg y <= 0.
Proof. intros. rparts; lra. Qed.
Lemma ibil_pos_sub f sa sb s T a a' b b' : posop f sa sb s T -> sub sa a a' -> sub sb b b' ->
  rel (sub s) (ibilinear a b f false) (ibilinear a' b' f false).
Proof.
  intros HP Ha Hb c c' H H'. pose proof Ha as (Ka & Wa & Wa' & Na). pose proof Hb as (Kb & Wb & Wb' & Nb).
  destruct (ibil_pos _ _ _ _ _ _ _ _ HP Wa Wb H) as [W D]. destruct (ibil_pos _ _ _ _ _ _ _ _ HP Wa' Wb' H') as [W' D'].
  pose proof HP as [PV PI].
  split; [rewrite (ibil_kind _ _ _ _ _ H), (ibil_kind _ _ _ _ _ H'), Ka, Kb; auto|]. split; [auto|]. split; [auto|].
  intros I HI.
  assert (O : tdata (lo c) I <= tdata (hi c) I).
  { assert (Ma : memb sa a (tdata (lo a))) by (intros J HJ; apply inat_iff; specialize (Na J HJ); lra).
    assert (Mb : memb sb b (tdata (lo b))) by (intros J HJ; apply inat_iff; specialize (Nb J HJ); lra).
    specialize (D _ _ I Ma Mb HI). apply inat_iff in D. lra. }
  enough (tdata (lo c') I <= tdata (lo c) I /\ tdata (hi c) I <= tdata (hi c') I) by lra.
  assert (HQ : Forall (fun '(w, (ia, ib)) => 0 <= w /\ (valid sa ia /\ valid sb ib)) (T I)).
  { specialize (PI I HI). eapply Forall_impl; [|exact PI]. intros (w & ia & ib). tauto. }
  destruct a as [x|a0 a1], a' as [x'|a0' a1']; try discriminate; destruct b as [y|b0 b1], b' as [y'|b0' b1']; try discriminate; simpl in Wa, Wa', Wb, Wb'.
  - apply ibil_arr in H, H'. destruct H as (z & -> & H), H' as (z' & -> & H'). simpl.
    destruct (PV _ _ _ Wa Wb H) as [_ E]. destruct (PV _ _ _ Wa' Wb' H') as [_ E']. rewrite E, E', !wsum_wsumg by auto.
    assert (EQ : wsumg (T I) (fun i j => tdata x i * tdata y j) = wsumg (T I) (fun i j => tdata x' i * tdata y' j)).
    { eapply wsumg_eq; [exact HQ|]. intros i j [Vi Vj]. specialize (Na i Vi). specialize (Nb j Vj). simpl in Na, Nb.
      replace (tdata x' i) with (tdata x i) by lra. replace (tdata y' j) with (tdata y j) by lra. auto. }
    lra.
  - destruct Wb as [B0 B1], Wb' as [B0' B1']. simpl in H, H'. ok_inv. subst c c'.
    repeat match goal with
    | H1 : f ?u ?v = Ok ?w |- _ => let S := fresh "S" in let E := fresh "E" in destruct (PV u v w ltac:(assumption) ltac:(assumption) H1) as [S E]; clear H1
    end.
    repeat match goal with
    | H1 : tadd ?u ?v = Ok ?w |- _ => let S := fresh "S" in let E := fresh "E" in destruct (tadd_same _ _ _ _ H1 ltac:(eassumption) ltac:(eassumption)) as [S E]; clear H1
    end. simpl.
    repeat match goal with E : forall I, valid s I -> tdata ?z I = _ |- _ => rewrite !(E I HI); clear E end.
    rewrite !wsum_wsumg, <- !wsumg_plus.
    split; (eapply wsumg_le; [exact HQ|]); intros i j [Vi Vj]; specialize (Na i Vi); specialize (Nb j Vj); simpl in Na, Nb |- *;
      replace (tdata x' i) with (tdata x i) by lra; fold (rpos (tdata x i)) (rneg (tdata x i));
      destruct (rpos_mono (tdata x i) (tdata x i) ltac:(lra)); destruct (rneg_mono (tdata x i) (tdata x i) ltac:(lra)); nra.
  - destruct Wa as [B0 B1], Wa' as [B0' B1']. simpl in H, H'. ok_inv. subst c c'.
    repeat match goal with
    | H1 : f ?u ?v = Ok ?w |- _ => let S := fresh "S" in let E := fresh "E" in destruct (PV u v w ltac:(assumption) ltac:(assumption) H1) as [S E]; clear H1
    end.
    repeat match goal with
    | H1 : tadd ?u ?v = Ok ?w |- _ => let S := fresh "S" in let E := fresh "E" in destruct (tadd_same _ _ _ _ H1 ltac:(eassumption) ltac:(eassumption)) as [S E]; clear H1
    end. simpl.
    repeat match goal with E : forall I, valid s I -> tdata ?z I = _ |- _ => rewrite !(E I HI); clear E end.
    rewrite !wsum_wsumg, <- !wsumg_plus.
    split; (eapply wsumg_le; [exact HQ|]); intros i j [Vi Vj]; specialize (Na i Vi); specialize (Nb j Vj); simpl in Na, Nb |- *;
      replace (tdata y' j) with (tdata y j) by lra; fold (rpos (tdata y j)) (rneg (tdata y j));
      destruct (rpos_mono (tdata y j) (tdata y j) ltac:(lra)); destruct (rneg_mono (tdata y j) (tdata y j) ltac:(lra)); nra.
  - destruct Wa as [A0 A1], Wa' as [A0' A1'], Wb as [B0 B1], Wb' as [B0' B1'].
    simpl in H, H'. apply bind_ok in H. destruct H as (l & Hl & H). apply bind_ok in H. destruct H as (h & Hh & H). injection H as <-.
    apply bind_ok in H'. destruct H' as (l' & Hl' & H'). apply bind_ok in H'. destruct H' as (h' & Hh' & H'). injection H' as <-.
    destruct (sum4_spec f sa sb s T _ _ _ _ _ _ _ _ l HP (A0 : tshape (pos_part a0) = _) (A1 : tshape (pos_part a1) = _) (A0 : tshape (neg_part a0) = _) (A1 : tshape (neg_part a1) = _)
      (B0 : tshape (pos_part b0) = _) (B0 : tshape (neg_part b0) = _) (B1 : tshape (pos_part b1) = _) (B1 : tshape (neg_part b1) = _) Hl) as [_ D1].
    destruct (sum4_spec f sa sb s T _ _ _ _ _ _ _ _ h HP (A1 : tshape (pos_part a1) = _) (A1 : tshape (neg_part a1) = _) (A0 : tshape (pos_part a0) = _) (A0 : tshape (neg_part a0) = _)
      (B1 : tshape (pos_part b1) = _) (B0 : tshape (pos_part b0) = _) (B1 : tshape (neg_part b1) = _) (B0 : tshape (neg_part b0) = _) Hh) as [_ D2].
    destruct (sum4_spec f sa sb s T _ _ _ _ _ _ _ _ l' HP (A0' : tshape (pos_part a0') = _) (A1' : tshape (pos_part a1') = _) (A0' : tshape (neg_part a0') = _) (A1' : tshape (neg_part a1') = _)
      (B0' : tshape (pos_part b0') = _) (B0' : tshape (neg_part b0') = _) (B1' : tshape (pos_part b1') = _) (B1' : tshape (neg_part b1') = _) Hl') as [_ D3].
    destruct (sum4_spec f sa sb s T _ _ _ _ _ _ _ _ h' HP (A1' : tshape (pos_part a1') = _) (A1' : tshape (neg_part a1') = _) (A0' : tshape (pos_part a0') = _) (A0' : tshape (neg_part a0') = _)
      (B1' : tshape (pos_part b1') = _) (B0' : tshape (pos_part b0') = _) (B1' : tshape (neg_part b1') = _) (B0' : tshape (neg_part b0') = _) Hh') as [_ D4].
    simpl. rewrite D1, D2, D3, D4 by auto.
    split; (eapply wsumg_le; [exact HQ|]); intros i j [Vi Vj]; specialize (Na i Vi); specialize (Nb j Vj); simpl in Na, Nb |- *;
      repeat match goal with |- context [Rmax 0 ?x] => change (Rmax 0 x) with (rpos x) end; repeat match goal with |- context [Rmin 0 ?x] => change (Rmin 0 x) with (rneg x) end;
      destruct Na as [[N1 N2] N3], Nb as [[M1 M2] M3];
      destruct (rpos_mono _ _ N1), (rpos_mono _ _ N2), (rpos_mono _ _ N3), (rpos_mono _ _ M1), (rpos_mono _ _ M2), (rpos_mono _ _ M3);
      destruct (rneg_mono _ _ N1), (rneg_mono _ _ N2), (rneg_mono _ _ N3), (rneg_mono _ _ M1), (rneg_mono _ _ M2), (rneg_mono _ _ M3);
      repeat match goal with |- context [rpos ?x] => generalize dependent (rpos x); intros end; repeat match goal with |- context [rneg ?x] => generalize dependent (rneg x); intros end;
      repeat apply Rplus_le_compat; nra.
Qed.

(** ** Operations that are products or sums of products at every shape they accept *)
Definition prods (f : tensor R -> tensor R -> res (tensor R)) : Prop :=
  forall x y z, f x y = Ok z -> exists s pa pb, prodop f (tshape x) (tshape y) s pa pb.
Definition sums (f : tensor R -> tensor R -> res (tensor R)) : Prop :=
  forall x y z, f x y = Ok z -> exists s T, posop f (tshape x) (tshape y) s T.

Lemma ibil_prod_iso f a a' b b' : prods f -> narrower a a' -> narrower b b' -> rel narrower (ibilinear a b f true) (ibilinear a' b' f true).
Proof.
  intros HP Ha Hb c c' H H'. apply narrower_sub in Ha, Hb. destruct Ha as (sa & Ha), Hb as (sb & Hb).
  destruct (ibil_some_ok _ _ _ _ _ _ _ (proj1 (proj2 Ha)) (proj1 (proj2 Hb)) H) as (x & y & z & Ex & Ey & E).
  destruct (HP _ _ _ E) as (s & pa & pb & P). rewrite Ex, Ey in P. apply (sub_narrower s). exact (ibil_prod_sub _ _ _ _ _ _ _ _ _ _ P Ha Hb c c' H H').
Qed.
Lemma ibil_pos_iso f a a' b b' : sums f -> narrower a a' -> narrower b b' -> rel narrower (ibilinear a b f false) (ibilinear a' b' f false).
Proof.
  intros HP Ha Hb c c' H H'. apply narrower_sub in Ha, Hb. destruct Ha as (sa & Ha), Hb as (sb & Hb).
  destruct (ibil_some_ok _ _ _ _ _ _ _ (proj1 (proj2 Ha)) (proj1 (proj2 Hb)) H) as (x & y & z & Ex & Ey & E).
  destruct (HP _ _ _ E) as (s & T & P). rewrite Ex, Ey in P. apply (sub_narrower s). exact (ibil_pos_sub _ _ _ _ _ _ _ _ _ P Ha Hb c c' H H').
Qed.

Lemma tmul_prods : prods tmul.
Proof. intros x y z H. apply tmap2_ok in H. destruct H as [H _]. eexists _, _, _. apply tmul_prodop. exact H. Qed.
Lemma imul_iso a a' b b' : narrower a a' -> narrower b b' -> rel narrower (imul a b) (imul a' b').
Proof. apply ibil_prod_iso. exact tmul_prods. Qed.

Lemma expand_valid sh ax n I : (ax <= length sh)%nat -> valid (firstn ax sh ++ repeat 1%nat n ++ skipn ax sh) I -> valid sh (firstn ax I ++ skipn (ax + n) I).
Proof.
  intros L H. apply valid_app_inv in H. destruct H as (I1 & I' & -> & H1 & H). apply valid_app_inv in H. destruct H as (I2 & I3 & -> & H2 & H3).
  pose proof (valid_length _ _ H1) as L1. rewrite firstn_length in L1. pose proof (valid_length _ _ H2) as L2. rewrite repeat_length in L2.
  rewrite firstn_exact by lia. rewrite app_assoc, skipn_exact by (rewrite app_length; lia). rewrite <- (firstn_skipn ax sh). apply valid_app; auto.
Qed.
(** A product of two expanded arguments. *)
Lemma expand_prods na xa nb xb sa sb s : (xa <= length sa)%nat -> (xb <= length sb)%nat ->
  bshape (firstn xa sa ++ repeat 1%nat na ++ skipn xa sa) (firstn xb sb ++ repeat 1%nat nb ++ skipn xb sb) = Some s ->
  exists pa pb, prodop (fun u v => u' <- expand_dims_at u na xa ;; v' <- expand_dims_at v nb xb ;; tmul u' v') sa sb s pa pb.
Proof.
  intros La Lb E. pose proof (tmul_prodop _ _ _ E) as [PV PI].
  eexists (fun I => let J := bidx _ I in firstn xa J ++ skipn (xa + na) J), (fun I => let J := bidx _ I in firstn xb J ++ skipn (xb + nb) J). split.
  - intros x y z Hx Hy H. ok_inv. apply expand_ok in Hb, Hb0. destruct Hb as (_ & S1 & D1), Hb0 as (_ & S2 & D2). rewrite Hx in S1. rewrite Hy in S2.
    destruct (PV _ _ _ S1 S2 H) as [S D]. split; [exact S|]. intros I HI. rewrite D by auto. rewrite D1, D2. reflexivity.
  - intros I HI. destruct (PI I HI). split; apply expand_valid; auto.
Qed.
Lemma pbm_prods p q : prods (fun u v => pairwise_batched_multiply u v p q).
Proof.
  intros x y z H. unfold pairwise_batched_multiply in H. ok_inv. apply expand_ok in Hb, Hb0. destruct Hb as (La & S1 & _), Hb0 as (Lb & S2 & _).
  apply tmap2_ok in H. destruct H as [H _]. rewrite S1, S2 in H.
  destruct (expand_prods q (tndim x) p (tndim y - q) (tshape x) (tshape y) _ La Lb H) as (pa & pb & [PV PI]).
  exists (tshape z), pa, pb. split; [|exact PI]. intros u v w Hu Hv K. unfold pairwise_batched_multiply in K.
  apply (PV u v w Hu Hv). unfold tndim in *. rewrite Hu, Hv in K. exact K.
Qed.
Lemma lbm_prods : prods left_broadcasting_multiply.
Proof.
  intros x y z H. unfold left_broadcasting_multiply in H. dif H E; [discriminate|]. ok_inv. apply expand_ok in Hb. destruct Hb as (La & S1 & _).
  apply tmap2_ok in H. destruct H as [H _]. rewrite S1 in H.
  assert (H' : bshape (firstn (tndim x) (tshape x) ++ repeat 1%nat (tndim y - tndim x) ++ skipn (tndim x) (tshape x)) (firstn 0 (tshape y) ++ repeat 1%nat 0 ++ skipn 0 (tshape y)) = Some (tshape z)) by exact H.
  destruct (expand_prods (tndim y - tndim x) (tndim x) 0 0 (tshape x) (tshape y) _ La ltac:(lia) H') as (pa & pb & [PV PI]).
  exists (tshape z), pa, pb. split; [|exact PI]. intros u v w Hu Hv K. apply (PV u v w Hu Hv).
  unfold left_broadcasting_multiply, tndim in *. rewrite Hu, Hv in K. rewrite E in K. apply bind_ok in K. destruct K as (u' & Ku & K). rewrite Ku. cbn [bind].
  unfold expand_dims_at. cbn [Nat.leb bind]. unfold tmul, tmap2 in *. cbn [tshape firstn repeat skipn app]. unfold bget in *. exact K.
Qed.
Lemma zipM_length l : forall m s, zipM l m = Some s -> length s = length l.
Proof.
  induction l as [|a l IH]; intros [|b m] s; simpl; try discriminate; [intros [= <-]; auto|].
  destruct (bdim a b); [|discriminate]. destruct (zipM l m) eqn:E; [|discriminate]. intros [= <-]. simpl. f_equal. eauto.
Qed.
Lemma outer_prods bd : prods (ndarray_outer_product bd).
Proof.
  intros x y z. unfold ndarray_outer_product. destruct (bd =? 0)%nat; intros H; [eexists _, _, _; apply tensordot0_prodop|].
  unfold teinsum_outer in H. dif H E; [|discriminate]. apply andb_true_iff in E. destruct E as [E1 E2]. apply Nat.leb_le in E1, E2.
  destruct (zipM _ _) as [sh|] eqn:EZ; [|discriminate]. clear H.
  assert (EB : bshape (firstn bd (tshape x)) (firstn bd (tshape y)) = Some sh).
  { unfold bshape, padl. unfold tndim in *. rewrite !firstn_length, !Nat.min_l, Nat.max_id, Nat.sub_diag by lia. exact EZ. }
  destruct (bshape_spec _ _ _ EB) as [C1 C2].
  exists (sh ++ skipn bd (tshape x) ++ skipn bd (tshape y)),
    (fun I => bidx (firstn bd (tshape x)) (firstn bd I) ++ firstn (tndim x - bd) (skipn bd I)),
    (fun I => bidx (firstn bd (tshape y)) (firstn bd I) ++ skipn (tndim x) I). split.
  - intros u v w Hu Hv K. unfold teinsum_outer, tndim in *. rewrite Hu, Hv in K. apply Nat.leb_le in E1, E2. rewrite E1, E2, EZ in K. injection K as <-. simpl. auto.
  - intros I HI. apply valid_app_inv in HI. destruct HI as (I1 & I' & -> & H1 & H). apply valid_app_inv in H. destruct H as (I2 & I3 & -> & H2 & H3).
    assert (Ls : length sh = bd). { pose proof (zipM_length _ _ _ EZ) as L. unfold tndim in *. rewrite !firstn_length in L. lia. }
    pose proof (valid_length _ _ H1) as L1. pose proof (valid_length _ _ H2) as L2. rewrite skipn_length in L2. unfold tndim in *.
    rewrite !(firstn_exact I1), !(skipn_exact I1), (firstn_exact I2) by lia. rewrite (app_assoc I1), skipn_exact by (rewrite app_length; lia).
    split; [rewrite <- (firstn_skipn bd (tshape x)) at 1|rewrite <- (firstn_skipn bd (tshape y)) at 1]; (apply valid_app; [eapply bidx_compat_valid; eauto|auto]).
Qed.
Lemma tensordot_sums k : sums (ttensordot k).
Proof. intros x y z H. apply tensordot_shapes in H. destruct H as (s1 & sk & s2 & -> & -> & Hk). eexists _, _. apply tensordot_posop. exact Hk. Qed.
Lemma tensordot0_prods : prods (ttensordot 0).
Proof. intros x y z H. eexists _, _, _. apply tensordot0_prodop. Qed.
Lemma itensordot_iso a a' b b' k : narrower a a' -> narrower b b' -> rel narrower (itensordot a b k) (itensordot a' b' k).
Proof.
  intros Ha Hb. unfold itensordot. destruct (Nat.eqb_spec k 0) as [-> | ]; [apply ibil_prod_iso; auto using tensordot0_prods|apply ibil_pos_iso; auto using tensordot_sums].
Qed.
Lemma iouter_product_iso a a' b b' bd : narrower a a' -> narrower b b' -> rel narrower (iouter_product a b bd) (iouter_product a' b' bd).
Proof.
  intros Ha Hb. unfold iouter_product. rewrite (narrower_indim _ _ Ha), (narrower_indim _ _ Hb). destruct (_ || _); [apply rel_err|].
  apply ibil_prod_iso; auto using outer_prods.
Qed.
Lemma running_outer_iso a a' bd : narrower a a' -> forall m r r', narrower r r' -> rel narrower (running_outer r a bd m) (running_outer r' a' bd m).
Proof.
  intros Ha m. induction m as [|m IH]; intros r r' Hr; cbn [running_outer]; [apply rel_ok; auto|].
  eapply rel_bind; [apply iouter_product_iso; eauto|]. auto.
Qed.

Lemma ipower_iso a a' k : narrower a a' -> rel narrower (ipower a k) (ipower a' k).
Proof.
  intros Ha c c' H H'. apply narrower_sub in Ha. destruct Ha as (s & K & W & W' & N).
  destruct (Z.ltb_spec k 0) as [L|L]; [destruct a; unfold ipower in H; apply Z.ltb_lt in L; rewrite L in H; discriminate|].
  destruct (Z.eqb_spec k 0) as [-> | NZ].
  - destruct a as [x|l h], a' as [x'|l' h']; try discriminate; simpl in H, H', W, W'; injection H as <-; injection H' as <-; apply narrower_arr; simpl; auto.
    + congruence.
    + destruct W, W'. congruence.
  - destruct (ipower_lohi s a k c W ltac:(lia) H) as (V & _ & D). destruct (ipower_lohi s a' k c' W' ltac:(lia) H') as (V' & _ & D').
    apply (sub_narrower s). split; [|split; [exact V|split; [exact V'|]]].
    { destruct a, a'; try discriminate; simpl in H, H'; destruct (Z.ltb_spec k 0); try discriminate; try lia; destruct (Z.eqb_spec k 0); try lia; ok_inv; subst; reflexivity. }
    intros I HI. specialize (N I HI). destruct (D I HI) as [D1 D2], (D' I HI) as [D1' D2'].
    destruct a as [x|l h], a' as [x'|l' h']; try discriminate; simpl in N.
    + specialize (D1 eq_refl). specialize (D1' eq_refl). destruct c as [t|], c' as [t'|]; simpl in H, H'; destruct (k <? 0)%Z; try discriminate.
      simpl in *. rewrite D1, D1'. replace (tdata x' I) with (tdata x I) by lra. lra.
    + specialize (D2 eq_refl). specialize (D2' eq_refl). destruct D2 as [-> ->], D2' as [-> ->]. simpl.
      destruct (pow_range_att (Z.to_nat k) (tdata l I) (tdata h I) ltac:(lia) ltac:(lra)) as [(u & Hu & Eu) (v & Hv & Ev)].
      pose proof (pow_range_in (Z.to_nat k) (tdata l I) (tdata h I) u ltac:(lia) Hu).
      pose proof (pow_range_in (Z.to_nat k) (tdata l' I) (tdata h' I) u ltac:(lia) ltac:(lra)).
      pose proof (pow_range_in (Z.to_nat k) (tdata l' I) (tdata h' I) v ltac:(lia) ltac:(lra)). lra.
Qed.
Lemma gdiag_iso a a' k : narrower a a' -> rel narrower (generalized_diag_interval a k) (generalized_diag_interval a' k).
Proof.
  intros Ha c c' H H'. apply narrower_sub in Ha. destruct Ha as (s & K & W & W' & N).
  assert (KK : is_arr c = is_arr c') by (destruct a, a'; try discriminate; simpl in H, H'; ok_inv; subst; reflexivity).
  apply gdiag_interval_lohi in H, H'. destruct H as [H1 H2], H' as [H1' H2'].
  pose proof (wfs_lo _ _ W) as E1. pose proof (wfs_hi _ _ W) as E2. pose proof (wfs_lo _ _ W') as E1'. pose proof (wfs_hi _ _ W') as E2'.
  unfold generalized_diag_ndarray in *. destruct (k =? 1)%Z.
  - injection H1 as H1. injection H2 as H2. injection H1' as H1'. injection H2' as H2'. rewrite H1, H2, H1', H2' in *.
    apply (sub_narrower s). split; [auto|]. split; [|split; [|auto]]; apply wfs_iff; auto.
  - destruct (k =? 2)%Z; [|discriminate]. unfold tndim in *. rewrite E1, E2, E1', E2' in *.
    destruct (Nat.eqb_spec (length s) 1) as [L|L]; [|discriminate]. destruct s as [|n [|? ?]]; try discriminate.
    injection H1 as H1. injection H2 as H2. injection H1' as H1'. injection H2' as H2'.
    apply (sub_narrower [n; n]). split; [auto|].
    assert (EE : forall t : tensor R, tshape t = [n] -> tshape (tdiag t) = [n; n]) by (intros t Ht; unfold tdiag; rewrite Ht; reflexivity).
    split; [apply wfs_iff; rewrite <- H1, <- H2; auto|]. split; [apply wfs_iff; rewrite <- H1', <- H2'; auto|].
    rewrite <- H1, <- H2, <- H1', <- H2'. intros I HI. unfold tdiag. rewrite E1, E2, E1', E2'. cbn [tdata].
    inversion HI as [|i ? I' ? Hi HI2]; subst. inversion HI2 as [|j ? I'' ? Hj HI3]; subst. inversion HI3; subst.
    destruct (i =? j)%nat; [|simpl; lra]. apply N. repeat constructor; auto.
Qed.
Lemma tones_lo (a : coef R) s : wfs s a -> tshape (match a with Arr t => t | Ivl l _ => l end) = s.
Proof. destruct a; simpl; tauto. Qed.
Lemma gdiag_shape (t t' : tensor R) k : tshape t = tshape t' -> (forall I, tdata t I = tdata t' I) ->
  match generalized_diag_ndarray t k, generalized_diag_ndarray t' k with
  | Ok u, Ok u' => tshape u = tshape u' /\ forall I, tdata u I = tdata u' I
  | Err e, Err e' => e = e' | _, _ => False end.
Proof.
  intros E D. unfold generalized_diag_ndarray. destruct (k =? 1)%Z; [auto|]. destruct (k =? 2)%Z; [|auto]. unfold tndim. rewrite E.
  destruct (_ =? 1)%nat; [|auto]. unfold tdiag. rewrite E. destruct (tshape t') as [|n [|? ?]] eqn:E'; cbn [tshape tdata]; [rewrite E'; auto| |rewrite E'; auto].
  split; auto. intros I. destruct I as [|i [|j [|? ?]]]; auto. destruct (i =? j)%nat; auto.
Qed.
Lemma iouter_power_iso a a' k bd : narrower a a' -> rel narrower (iouter_power a k bd) (iouter_power a' k bd).
Proof.
  intros Ha. unfold iouter_power. destruct (k <? 0)%Z; [apply rel_err|]. destruct (k =? 0)%Z; [apply rel_ok, narrower_arr_same|].
  rewrite (narrower_indim _ _ Ha). destruct (indim a' =? 0)%nat; [apply ipower_iso; auto|].
  eapply rel_bind; [apply running_outer_iso; eauto|]. intros r r' Hr. destruct (negb _); [apply rel_ok; auto|].
  pose proof Ha as (_ & W & W' & _).
  pose proof (gdiag_shape (tones_like (match a with Arr t => t | Ivl l _ => l end)) (tones_like (match a' with Arr t => t | Ivl l _ => l end)) k) as G.
  unfold tones_like in *. cbn [tshape tdata] in G. rewrite (tones_lo _ _ W), (tones_lo _ _ W') in *. specialize (G eq_refl (fun _ => eq_refl)).
  destruct (generalized_diag_ndarray _ k) as [u|e].
  - eapply rel_bind; [apply ipower_iso; eauto|]. intros d d' Hd. eapply rel_bind; [apply gdiag_iso; eauto|]. intros g g' Hg.
    eapply rel_bind; [apply imul_iso; [exact Hr|apply narrower_arr_same]|]. intros o o' Ho. apply iadd_iso; auto.
  - destruct e; try apply rel_err. apply rel_ok; auto.
Qed.
