(** Magnitudes: the arithmetic of upper bounds of absolute values, in which the
    library's code runs on bounds of all its inputs at once.  [follows r r']: if
    [r] returns, so does [r'], related. *)
From Coq Require Import Reals Lra.
From Verif Require Import Base Tensor IntervalArith Polynomials Enclosure TensorLemmas Spec Iso.
Open Scope R_scope.

Record mag := Mag { mv : R }.
#[export] Instance NumMag : Num mag := {|
  n0 := Mag 0; n1 := Mag 1;
  nadd := fun a b => Mag (mv a + mv b); nsub := fun a b => Mag (mv a + mv b); nmul := fun a b => Mag (mv a * mv b); nopp := fun a => a;
  nmin := fun a b => Mag (mv a + mv b); nmax := fun a b => Mag (mv a + mv b); nltb := fun _ _ => false; nofZ := fun z => Mag (Rabs (IZR z)) |}.

Definition within (x : R) (m : mag) : Prop := Rabs x <= mv m.
Definition dom (t : tensor R) (t' : tensor mag) : Prop := tshape t = tshape t' /\ forall J, within (tdata t J) (tdata t' J).
Definition domc (c : coef R) (c' : coef mag) : Prop :=
  match c, c' with
  | Arr t, Arr t' => dom t t'
  | Ivl l h, Ivl l' h' => dom l l' /\ dom h h'
  | _, _ => False
  end.
Notation dome := (Forall2 domc).

(** ** Scalars *)
Lemma w0 : within 0 n0. Proof. unfold within. simpl. rewrite Rabs_R0. lra. Qed.
Lemma w1 : within 1 n1. Proof. unfold within. simpl. rewrite Rabs_R1. lra. Qed.
Lemma wpos x m : within x m -> 0 <= mv m. Proof. unfold within. pose proof (Rabs_pos x). lra. Qed.
Lemma wadd x y a b : within x a -> within y b -> within (nadd x y) (nadd a b).
Proof. unfold within. simpl. pose proof (Rabs_triang x y). lra. Qed.
Lemma wopp x a : within x a -> within (nopp x) (nopp a).
Proof. unfold within. simpl. rewrite Rabs_Ropp. auto. Qed.
Lemma wsub x y a b : within x a -> within y b -> within (nsub x y) (nsub a b).
Proof. unfold within. simpl. intros. pose proof (Rabs_triang x (- y)). rewrite Rabs_Ropp in *. unfold Rminus. lra. Qed.
Lemma wmul x y a b : within x a -> within y b -> within (nmul x y) (nmul a b).
Proof. unfold within. simpl. rewrite Rabs_mult. intros. apply Rmult_le_compat; auto using Rabs_pos. Qed.
Lemma wmin x y a b : within x a -> within y b -> within (nmin x y) (nmin a b).
Proof. unfold within. simpl. intros Hx Hy. pose proof (Rabs_pos x). pose proof (Rabs_pos y). unfold Rmin. destruct Rle_dec; lra. Qed.
Lemma wmax x y a b : within x a -> within y b -> within (nmax x y) (nmax a b).
Proof. unfold within. simpl. intros Hx Hy. pose proof (Rabs_pos x). pose proof (Rabs_pos y). unfold Rmax. destruct Rle_dec; lra. Qed.
Lemma wZ z : within (nofZ z) (nofZ z). Proof. unfold within. simpl. lra. Qed.
Lemma wpow x a n : within x a -> within (npow x n) (npow a n).
Proof. intros H. induction n; simpl npow; [apply w1|apply wmul; auto]. Qed.

(** ** Two computations of which the second succeeds if the first does *)
Definition follows {A B} (Q : A -> B -> Prop) (r : res A) (r' : res B) : Prop := forall a, r = Ok a -> exists b, r' = Ok b /\ Q a b.
Lemma f_ok {A B} (Q : A -> B -> Prop) a b : Q a b -> follows Q (Ok a) (Ok b).
Proof. intros H x [= <-]. eauto. Qed.
Lemma f_err {A B} (Q : A -> B -> Prop) e r : follows Q (Err e) r.
Proof. intros x H. discriminate. Qed.
Lemma f_bind {A B C D} (Q : A -> B -> Prop) (P : C -> D -> Prop) r r' f f' :
  follows Q r r' -> (forall a b, Q a b -> follows P (f a) (f' b)) -> follows P (bind r f) (bind r' f').
Proof.
  intros H K x Hx. apply bind_ok in Hx. destruct Hx as (a & Ha & Hx). destruct (H a Ha) as (b & -> & Q0). exact (K a b Q0 x Hx).
Qed.
Lemma f_mono {A B} (Q P : A -> B -> Prop) r r' : (forall a b, Q a b -> P a b) -> follows Q r r' -> follows P r r'.
Proof. intros H K a Ha. destruct (K a Ha) as (b & E & H'). eauto. Qed.
Lemma f_mapM {A B C D} (Q : A -> B -> Prop) (P : C -> D -> Prop) f f' l l' : Forall2 Q l l' -> (forall a b, Q a b -> follows P (f a) (f' b)) ->
  follows (Forall2 P) (mapM f l) (mapM f' l').
Proof.
  intros H K. induction H as [|a b l l' Hab H IH]; cbn [mapM]; [apply f_ok; constructor|].
  eapply f_bind; [apply K; eauto|]. intros c d Hcd. eapply f_bind; [exact IH|]. intros cs ds Hs. apply f_ok. constructor; auto.
Qed.
Lemma f_foldM {A B C D} (Q : A -> B -> Prop) (P : C -> D -> Prop) (f : A -> C -> res A) (f' : B -> D -> res B) l l' : Forall2 P l l' ->
  (forall a b c d, Q a b -> P c d -> follows Q (f a c) (f' b d)) -> forall a b, Q a b -> follows Q (foldM f a l) (foldM f' b l').
Proof.
  intros H K. induction H as [|c d l l' Hcd H IH]; intros a b Hab; cbn [foldM]; [apply f_ok; auto|].
  eapply f_bind; [apply K; eauto|]. intros a' b' Hab'. apply IH; auto.
Qed.
Lemma f_same {A} (r : res A) : follows eq r r.
Proof. intros a ->. eauto. Qed.
Lemma f_reduceM {A B} (Q : A -> B -> Prop) f f' l l' : (forall a b c d, Q a b -> Q c d -> follows Q (f a c) (f' b d)) -> Forall2 Q l l' ->
  follows Q (reduceM f l) (reduceM f' l').
Proof. intros K H. destruct H; simpl; [apply f_err|]. apply (f_foldM Q Q); auto. Qed.
Lemma f_get_nth {A B} (P : A -> B -> Prop) l l' k : Forall2 P l l' -> follows P (get_nth l k) (get_nth l' k).
Proof.
  intros H. unfold get_nth. revert k. induction H; intros [|k]; simpl; try apply f_err; [apply f_ok; auto|]. apply IHForall2.
Qed.
Lemma f_set_nth {A B} (P : A -> B -> Prop) v v' l l' : P v v' -> Forall2 P l l' -> forall k, follows (Forall2 P) (set_nth l k v) (set_nth l' k v').
Proof.
  intros Hv H. induction H; intros [|k]; simpl; try apply f_err; [apply f_ok; constructor; auto|].
  eapply f_bind; [apply IHForall2|]. intros r r' Hr. apply f_ok. constructor; auto.
Qed.
Lemma f_guard b e : follows eq (guard b e) (guard b e).
Proof. apply f_same. Qed.

(** ** Arrays *)
Definition dom_op (f : tensor R -> tensor R -> res (tensor R)) (f' : tensor mag -> tensor mag -> res (tensor mag)) : Prop :=
  forall a a' b b', dom a a' -> dom b b' -> follows dom (f a b) (f' a' b').
Definition dom_op1 (f : tensor R -> res (tensor R)) (f' : tensor mag -> res (tensor mag)) : Prop :=
  forall a a', dom a a' -> follows dom (f a) (f' a').
Lemma dom_shape a a' : dom a a' -> tshape a = tshape a'. Proof. intros [E _]. auto. Qed.
Lemma dom_ndim a a' : dom a a' -> tndim a = tndim a'. Proof. intros [E _]. unfold tndim. rewrite E. auto. Qed.
Lemma dom_tmap2 f f' : (forall x y a b, within x a -> within y b -> within (f x y) (f' a b)) -> dom_op (tmap2 f) (tmap2 f').
Proof.
  intros K a a' b b' [Ea Ha] [Eb Hb]. unfold tmap2. rewrite <- Ea, <- Eb. destruct (bshape _ _); [|apply f_err]. apply f_ok. split; [reflexivity|].
  intros J. simpl. unfold bget. rewrite Ea, Eb. auto.
Qed.
Lemma dom_add : dom_op tadd tadd. Proof. apply dom_tmap2, wadd. Qed.
Lemma dom_sub : dom_op tsub tsub. Proof. apply dom_tmap2, wsub. Qed.
Lemma dom_mul : dom_op tmul tmul. Proof. apply dom_tmap2, wmul. Qed.
Lemma dom_min : dom_op tmin tmin. Proof. apply dom_tmap2, wmin. Qed.
Lemma dom_max : dom_op tmax tmax. Proof. apply dom_tmap2, wmax. Qed.
Lemma dom_tmap f f' a a' : (forall x m, within x m -> within (f x) (f' m)) -> dom a a' -> dom (tmap f a) (tmap f' a').
Proof. intros K [E H]. split; simpl; auto. Qed.
Lemma dom_neg a a' : dom a a' -> dom (tneg a) (tneg a').
Proof. apply dom_tmap, wopp. Qed.
Lemma dom_pos a a' : dom a a' -> dom (pos_part a) (pos_part a').
Proof. apply dom_tmap. intros. apply wmax; auto. apply w0. Qed.
Lemma dom_negp a a' : dom a a' -> dom (neg_part a) (neg_part a').
Proof. apply dom_tmap. intros. apply wmin; auto. apply w0. Qed.
Lemma dom_scalar x m : within x m -> dom (tscalar x) (tscalar m).
Proof. intros H. split; simpl; auto. Qed.
Lemma dom_ones a a' : dom a a' -> dom (tones_like a) (tones_like a').
Proof. intros [E _]. split; simpl; auto. intros _. apply w1. Qed.
Lemma wsumn n f g : (forall i, within (f i) (g i)) -> within (sumn n f) (sumn n g).
Proof. intros H. induction n; simpl sumn; [apply w0|apply wadd; auto]. Qed.
Lemma wsumi sh : forall f g, (forall J, within (f J) (g J)) -> within (sumi sh f) (sumi sh g).
Proof. induction sh as [|n sh IH]; intros f g H; simpl sumi; [auto|]. apply wsumn. intros i. apply IH. auto. Qed.
Lemma wfold {X} (f : X -> R) (g : X -> mag) l : (forall x, within (f x) (g x)) -> within (fold_right nadd n0 (map f l)) (fold_right nadd n0 (map g l)).
Proof. intros H. induction l; simpl fold_right; [apply w0|apply wadd; auto]. Qed.
Lemma dom_expand n k : dom_op1 (fun a => expand_dims_at a n k) (fun a => expand_dims_at a n k).
Proof.
  intros a a' [E H]. unfold expand_dims_at, tndim. rewrite <- E. destruct (_ <=? _)%nat; [|apply f_err]. apply f_ok. split; simpl; auto.
Qed.
Lemma dom_tensordot k : dom_op (ttensordot k) (ttensordot k).
Proof.
  intros a a' b b' [Ea Ha] [Eb Hb]. unfold ttensordot, tndim. rewrite <- Ea, <- Eb. destruct (_ && _)%bool; [|apply f_err]. apply f_ok. split; [reflexivity|].
  intros J. simpl. apply wsumi. intros K. apply wmul; auto.
Qed.
Lemma dom_einsum bd : dom_op (teinsum_outer bd) (teinsum_outer bd).
Proof.
  intros a a' b b' [Ea Ha] [Eb Hb]. unfold teinsum_outer, tndim. rewrite <- Ea, <- Eb. destruct (_ && _)%bool; [|apply f_err].
  destruct (zipM _ _); [|apply f_err]. apply f_ok. split; [reflexivity|]. intros J. simpl. apply wmul; auto.
Qed.
Lemma dom_outer bd : dom_op (ndarray_outer_product bd) (ndarray_outer_product bd).
Proof. intros a a' b b' Ha Hb. unfold ndarray_outer_product. destruct (bd =? 0)%nat; [apply dom_tensordot|apply dom_einsum]; auto. Qed.
Lemma dom_diag a a' : dom a a' -> dom (tdiag a) (tdiag a').
Proof.
  intros [E H]. unfold tdiag. rewrite <- E. destruct (tshape a) as [|n [|]] eqn:S; try (split; [congruence|auto]). split; [reflexivity|]. intros J. simpl.
  destruct J as [|i [|j [|]]]; try apply w0. destruct (i =? j)%nat; [auto|apply w0].
Qed.

(** ** Intervals *)
Lemma domc_indim c c' : domc c c' -> indim c = indim c'.
Proof. destruct c, c'; simpl; try tauto; intros H; [apply dom_ndim; auto|apply dom_ndim; tauto]. Qed.
Lemma domc_ishape c c' : domc c c' -> ishape c = ishape c'.
Proof. destruct c, c'; simpl; try tauto; intros H; [apply dom_shape; auto|apply dom_shape; tauto]. Qed.

Ltac dom_cases a a' H := destruct a, a'; simpl in H; try contradiction; [|destruct H].
Lemma ivl_ok (l h : res (tensor R)) (l' h' : res (tensor mag)) : follows dom l l' -> follows dom h h' ->
  follows domc (x <- l ;; y <- h ;; Ok (Ivl x y)) (x <- l' ;; y <- h' ;; Ok (Ivl x y)).
Proof. intros H K. eapply f_bind; [exact H|]. intros x x' Hx. eapply f_bind; [exact K|]. intros y y' Hy. apply f_ok. split; auto. Qed.
Lemma arr_ok (c : res (tensor R)) (c' : res (tensor mag)) : follows dom c c' -> follows domc (x <- c ;; Ok (Arr x)) (x <- c' ;; Ok (Arr x)).
Proof. intros H. eapply f_bind; [exact H|]. intros x x' Hx. apply f_ok. exact Hx. Qed.
Lemma iadd_dom a a' b b' : domc a a' -> domc b b' -> follows domc (iadd a b) (iadd a' b').
Proof. intros Ha Hb. dom_cases a a' Ha; dom_cases b b' Hb; simpl iadd; first [apply ivl_ok|apply arr_ok]; apply dom_add; auto. Qed.
Lemma isub_dom a a' b b' : domc a a' -> domc b b' -> follows domc (isub a b) (isub a' b').
Proof. intros Ha Hb. dom_cases a a' Ha; dom_cases b b' Hb; simpl isub; first [apply ivl_ok|apply arr_ok]; apply dom_sub; auto. Qed.
Lemma ineg_dom a a' : domc a a' -> domc (ineg a) (ineg a').
Proof. intros Ha. dom_cases a a' Ha; simpl ineg; [apply dom_neg; auto|]. split; apply dom_neg; auto. Qed.
Definition dom2 (p : tensor R * tensor R) (p' : tensor mag * tensor mag) : Prop := dom (fst p) (fst p') /\ dom (snd p) (snd p').
Lemma endpoints_dom a a' : domc a a' -> Forall2 dom (endpoints a) (endpoints a').
Proof. intros Ha. dom_cases a a' Ha; simpl; auto. Qed.
Lemma list_prod_dom l l' m m' : Forall2 dom l l' -> Forall2 dom m m' -> Forall2 dom2 (list_prod l m) (list_prod l' m').
Proof.
  intros H K. induction H as [|x x' l l' Hx H IH]; simpl; [constructor|]. apply Forall2_app; auto. clear -Hx K. induction K; simpl; constructor; auto. split; auto.
Qed.
Lemma sum_bilinear_dom f f' l l' : dom_op f f' -> Forall2 dom2 l l' -> follows dom (sum_bilinear f l) (sum_bilinear f' l').
Proof.
  intros Hf H. unfold sum_bilinear. eapply f_bind; [apply (f_mapM dom2 dom); [exact H|]; intros p p' [H1 H2]; apply Hf; auto|]. intros u u' Hu. apply f_reduceM; auto. intros; apply dom_add; auto.
Qed.
Lemma ibil_dom f f' pr a a' b b' : dom_op f f' -> domc a a' -> domc b b' -> follows domc (ibilinear a b f pr) (ibilinear a' b' f' pr).
Proof.
  intros Hf Ha Hb. pose proof (list_prod_dom _ _ _ _ (endpoints_dom _ _ Ha) (endpoints_dom _ _ Hb)) as HP.
  assert (G : follows domc (prods <- mapM (fun p => f (fst p) (snd p)) (list_prod (endpoints a) (endpoints b)) ;; l <- reduceM tmin prods ;; h <- reduceM tmax prods ;; Ok (Ivl l h))
                           (prods <- mapM (fun p => f' (fst p) (snd p)) (list_prod (endpoints a') (endpoints b')) ;; l <- reduceM tmin prods ;; h <- reduceM tmax prods ;; Ok (Ivl l h))).
  { eapply f_bind; [apply (f_mapM dom2 dom); [exact HP|]; intros p p' [H1 H2]; apply Hf; auto|]. intros u u' Hu.
    apply ivl_ok; apply f_reduceM; auto; intros; [apply dom_min|apply dom_max]; auto. }
  dom_cases a a' Ha; dom_cases b b' Hb; unfold ibilinear; try (apply arr_ok; apply Hf; auto; fail); destruct pr; try exact G; cbn zeta.
  all: try (solve [repeat (eapply f_bind; [solve [apply Hf; auto using dom_pos, dom_negp | apply dom_add; eassumption]|intros]); apply f_ok; split; assumption]).
  apply ivl_ok; (apply sum_bilinear_dom; [exact Hf|]); repeat apply Forall2_cons; try apply Forall2_nil; split; cbn [fst snd]; auto using dom_pos, dom_negp.
Qed.
Lemma imul_dom a a' b b' : domc a a' -> domc b b' -> follows domc (imul a b) (imul a' b').
Proof. intros. apply ibil_dom; auto. exact dom_mul. Qed.
Lemma iouter_dom bd a a' b b' : domc a a' -> domc b b' -> follows domc (iouter_product a b bd) (iouter_product a' b' bd).
Proof.
  intros Ha Hb. unfold iouter_product. rewrite (domc_indim _ _ Ha), (domc_indim _ _ Hb). destruct (_ || _)%bool; [apply f_err|]. apply ibil_dom; auto. apply dom_outer.
Qed.
Lemma itensordot_dom k a a' b b' : domc a a' -> domc b b' -> follows domc (itensordot a b k) (itensordot a' b' k).
Proof. intros. apply ibil_dom; auto. apply dom_tensordot. Qed.
Lemma ipower_dom k a a' : domc a a' -> follows domc (ipower a k) (ipower a' k).
Proof.
  intros Ha. dom_cases a a' Ha; unfold ipower.
  - destruct (k <? 0)%Z; [apply f_err|]. apply f_ok. simpl. apply dom_tmap; auto. intros; apply wpow; auto.
  - destruct (k <? 0)%Z; [apply f_err|]. destruct (k =? 0)%Z; [apply f_ok; apply dom_ones; auto|]. cbv zeta.
    eapply f_bind with (Q := fun c (c' : tensor bool) => tshape c = tshape c' /\ forall J, tdata c' J = false).
    { unfold tmap2. simpl tshape. destruct H as [E H], H0 as [E0 H0]. rewrite <- E, <- E0. destruct (bshape _ _); [|apply f_err]. apply f_ok. split; [reflexivity|]. reflexivity. }
    intros c c' [Ec Hc]. eapply f_bind with (Q := dom).
    { unfold tmap2. simpl tshape. pose proof H as [E HH]. rewrite <- E, <- Ec. destruct (bshape _ _); [|apply f_err]. apply f_ok. split; [reflexivity|].
      intros J. simpl tdata. unfold bget. simpl. rewrite Hc. unfold b2n. rewrite <- E.
      assert (W : within (npow (tdata lo (bidx (tshape lo) J)) (Z.to_nat k)) (npow (tdata lo0 (bidx (tshape lo) J)) (Z.to_nat k))) by (apply wpow; auto).
      revert W. unfold within. simpl. rewrite Rabs_mult. pose proof (Rabs_pos (npow (tdata lo (bidx (tshape lo) J)) (Z.to_nat k))).
      destruct (tdata c _); simpl; [replace (1 - 1) with 0 by ring; rewrite Rabs_R0|replace (1 - 0) with 1 by ring; rewrite Rabs_R1]; intros; nra. }
    intros m m' Hm.
    assert (P0 : dom (tmap (fun x => npow x (Z.to_nat k)) lo) (tmap (fun x => npow x (Z.to_nat k)) lo0)) by (apply dom_tmap; auto; intros; apply wpow; auto).
    assert (P1 : dom (tmap (fun x => npow x (Z.to_nat k)) hi) (tmap (fun x => npow x (Z.to_nat k)) hi0)) by (apply dom_tmap; auto; intros; apply wpow; auto).
    apply ivl_ok; [apply f_reduceM; [intros; apply dom_min; auto|repeat apply Forall2_cons; auto]|apply dom_max; auto].
Qed.
Lemma gdiag_dom n a a' : dom a a' -> follows dom (generalized_diag_ndarray a n) (generalized_diag_ndarray a' n).
Proof.
  intros H. unfold generalized_diag_ndarray. rewrite (dom_ndim _ _ H). destruct (n =? 1)%Z; [apply f_ok; auto|]. destruct (n =? 2)%Z; [|apply f_err].
  destruct (_ =? _)%nat; [apply f_ok, dom_diag; auto|apply f_err].
Qed.
Lemma gdiag_shape n (a : tensor R) (a' : tensor mag) : tshape a = tshape a' -> match generalized_diag_ndarray a n, generalized_diag_ndarray a' n with Ok _, Ok _ => True | Err e, Err e' => e = e' | _, _ => False end.
Proof. intros E. unfold generalized_diag_ndarray, tndim. rewrite E. destruct (n =? 1)%Z; auto. destruct (n =? 2)%Z; auto. destruct (_ =? _)%nat; auto. Qed.
Lemma gdiagi_dom n a a' : domc a a' -> follows domc (generalized_diag_interval a n) (generalized_diag_interval a' n).
Proof. intros H. dom_cases a a' H; unfold generalized_diag_interval; [apply arr_ok|apply ivl_ok]; apply gdiag_dom; auto. Qed.
Lemma running_dom bd a a' m : domc a a' -> forall r r', domc r r' -> follows domc (running_outer r a bd m) (running_outer r' a' bd m).
Proof. intros Ha. induction m; intros r r' Hr; cbn [running_outer]; [apply f_ok; auto|]. eapply f_bind; [apply iouter_dom; eauto|]. intros. apply IHm; auto. Qed.
Lemma iouter_power_dom k bd a a' : domc a a' -> follows domc (iouter_power a k bd) (iouter_power a' k bd).
Proof.
  intros Ha. unfold iouter_power. rewrite (domc_indim _ _ Ha). destruct (k <? 0)%Z; [apply f_err|]. destruct (k =? 0)%Z; [apply f_ok; apply dom_scalar, w1|].
  destruct (_ =? _)%nat; [apply ipower_dom; auto|]. eapply f_bind; [apply running_dom; eauto|]. intros r r' Hr. destruct (negb _); [apply f_ok; auto|]. cbv zeta.
  set (o := tones_like _). set (o' := tones_like _). assert (Ho : dom o o') by (unfold o, o'; dom_cases a a' Ha; apply dom_ones; auto).
  pose proof (gdiag_dom k _ _ Ho) as K. pose proof (gdiag_shape k o o' (dom_shape _ _ Ho)) as G. destruct (generalized_diag_ndarray o k) as [y|e] eqn:E1, (generalized_diag_ndarray o' k) as [y'|e'] eqn:E2; try contradiction.
  - destruct (K y eq_refl) as (z & [= <-] & Hy). eapply f_bind; [apply ipower_dom; eauto|]. intros d d' Hd. eapply f_bind; [apply gdiagi_dom; eauto|]. intros g g' Hg.
    eapply f_bind; [apply imul_dom; eauto|]. { cbn [domc]. apply dom_tmap; auto. intros x m H. exact (wsub _ _ _ _ w1 H). }
    intros f f' Hf. apply iadd_dom; auto.
  - subst e'. destruct e; try apply f_err. apply f_ok; auto.
Qed.
