(** C25, C26, C35 for the rounded tables: exact on regions that stay away from
    the rounded extrema. *)
From Coq Require Import Reals Lra Permutation.
From Coquelicot Require Import Coquelicot.
From Verif Require Import Base Elementwise Primitive ElementSpec Analysis ElementwiseProofs
  PrimitiveProofs PropElementwise PropRange PropPrimitive NearMono Extrema NearTable PropNear.
Open Scope R_scope.

(** Every listed extremum other than 0 (which is exact) is more than 1e-12 away
    from the region. *)
Definition clear_of (l : list R) (a b : R) : Prop :=
  forall e, In e l -> e = 0 \/ b < e - / 10 ^ 12 \/ e + / 10 ^ 12 < a.

(** ** Moving the extrema does not change the comparisons *)
Section Move.
Variable phi : R -> R.
Hypothesis Hphi : forall x y, x < y -> phi x < phi y.
Lemma phi_le x y : x <= y <-> phi x <= phi y.
Proof. split; intros H; [destruct H as [H| ->]; [left; auto|lra]|]. destruct (Rle_lt_dec x y) as [L|L]; auto. apply Hphi in L. lra. Qed.
Lemma phi_inj x y : phi x = phi y -> x = y.
Proof. intros H. apply Rle_antisym; apply phi_le; lra. Qed.
Lemma insert_map x l : insert_by (fun x => x) (phi x) (map phi l) = map phi (insert_by (fun x => x) x l).
Proof.
  induction l as [|y l IH]; simpl; auto. destruct (Rle_lt_dec y x) as [L|L]; destruct (Rle_lt_dec (phi y) (phi x)) as [L'|L']; simpl; auto.
  - rewrite IH. auto.
  - apply phi_le in L. lra.
  - apply phi_le in L'. lra.
Qed.
Lemma sort_map l : sort_by (fun x => x) (map phi l) = map phi (sort_by (fun x => x) l).
Proof.
  unfold sort_by. assert (G : forall l acc, fold_left (fun acc x => insert_by (fun x => x) x acc) (map phi l) (map phi acc) = map phi (fold_left (fun acc x => insert_by (fun x => x) x acc) l acc)).
  { clear l. induction l; intros acc; simpl; auto. rewrite insert_map. auto. }
  exact (G l []).
Qed.
Lemma in_list_map x l : in_list (phi x) (map phi l) = in_list x l.
Proof.
  unfold in_list. induction l as [|y l IH]; simpl; auto. rewrite IH. f_equal. unfold Req_b. destruct (Req_EM_T (phi x) (phi y)) as [E|E]; destruct (Req_EM_T x y) as [E'|E']; auto.
  - apply phi_inj in E. contradiction.
  - subst. contradiction.
Qed.
Variables (a b : R) (mins : list R).
Lemma mono_loop_map : forall l prev dec inc,
  (forall e, In e l \/ prev = Some e -> Rle_b b (phi e) = Rle_b b e /\ Rle_b (phi e) a = Rle_b e a) ->
  mono_loop (map phi mins) a b (option_map phi prev) (map phi l) dec inc = mono_loop mins a b prev l dec inc.
Proof.
  induction l as [|x l IH]; intros prev dec inc H; [reflexivity|].
  cbn [mono_loop map]. rewrite in_list_map. destruct (H x (or_introl (or_introl eq_refl))) as [Hx1 Hx2]. rewrite Hx1, Hx2.
  replace (match map phi l with [] => true | _ :: _ => false end) with (match l with [] => true | _ :: _ => false end) by (destruct l; reflexivity).
  replace (match option_map phi prev with Some p => Rle_b p a && Rle_b b x | None => Rle_b b x end) with (match prev with Some p => Rle_b p a && Rle_b b x | None => Rle_b b x end).
  2:{ destruct prev as [p|]; simpl; auto. destruct (H p (or_intror eq_refl)) as [_ ->]. reflexivity. }
  apply (IH (Some x)). intros e [He|He]; [apply H; left; right; auto|]. injection He as <-. auto.
Qed.
End Move.

Lemma monotone_over_moved d phi a b : (forall x y, x < y -> phi x < phi y) -> phi 0 = 0 -> (forall x, Rabs (phi x - x) <= / 10 ^ 12) -> a <= b ->
  clear_of (local_minima d ++ local_maxima d) a b ->
  monotone_over (FData (map phi (local_minima d)) (map phi (local_maxima d)) (mono_dec d) (mono_inc d) (even_sym d)) a b = monotone_over d a b.
Proof.
  intros Hi H0 Hn L C. unfold monotone_over. cbn [local_minima local_maxima mono_dec mono_inc]. rewrite <- map_app, sort_map by auto.
  apply (mono_loop_map phi Hi a b (local_minima d) (sort_by (fun x => x) (local_minima d ++ local_maxima d)) None). intros e [He|He]; [|discriminate].
  apply (Permutation_in e (Permutation_sym (sort_by_perm (fun x => x) _))) in He.
  assert (N := Hn e). apply Rabs_le_between in N. unfold Rle_b.
  destruct (C e He) as [-> |[C1|C1]]; [rewrite H0; auto| |]; split; repeat destruct Rle_dec; auto; lra.
Qed.

(** ** C25 *)
Theorem C25_monotone_over_sound_away_from_rounding : forall n k d a b dec inc,
  rounded_table n k = true -> get_function_data (n, k) = Ok d -> a <= b ->
  clear_of (local_minima d ++ local_maxima d) a b -> monotone_over d a b = (dec, inc) ->
  (dec = true -> decreasing_on (seg a b) (Fof n k)) /\ (inc = true -> increasing_on (seg a b) (Fof n k)).
Proof.
  intros n k d a b dec inc H Hd L C E.
  destruct (moved_table n k H) as (d' & c1 & c2 & Hd' & M1 & M2 & _ & A & B & T). rewrite Hd in Hd'. injection Hd' as <-.
  assert (Wi : forall x y, x < y -> warp c1 c2 x < warp c1 c2 y) by (apply warp_inc; lra).
  rewrite <- (monotone_over_moved d (warp c1 c2) a b Wi (warp_0 c1 c2) ltac:(intros; apply warp_near; auto) L C) in E.
  refine (C25_monotone_over_sound (Fof n k) _ a b dec inc _ L _ _ E); cbn; [apply T|congruence|congruence].
Qed.

(** ** C26 *)
Lemma range_moved : forall g F phi mins maxs a b, (forall x, g x = Ok (F x)) ->
  turning F (map phi mins) (map phi maxs) -> phi 0 = 0 -> (forall x, Rabs (phi x - x) <= / 10 ^ 12) ->
  clear_of (mins ++ maxs) a b -> a <= b ->
  exists lo hi, minimum_value g a b mins = Ok lo /\ maximum_value g a b maxs = Ok hi /\ range_of g a b lo hi.
Proof.
  intros g F phi mins maxs a b Hg T H0 Hn C L.
  assert (In0 : forall m, In m (mins ++ maxs) -> a <= m <= b -> m = 0).
  { intros m Hm Hr. destruct (C m Hm) as [|[|]]; auto; lra. }
  assert (Out : forall m, In m (mins ++ maxs) -> ~ (a <= m <= b) -> ~ (a <= phi m <= b)).
  { intros m Hm Hr. assert (N := Hn m). apply Rabs_le_between in N. destruct (C m Hm) as [-> |[C1|C1]]; [rewrite H0; auto| |]; lra. }
  unfold minimum_value, maximum_value, sort_by_desc.
  destruct (min_loop_cases g F a b (sort_by (key_of g) mins) Hg) as (lo & Elo & Clo).
  destruct (max_loop_cases g F a b (sort_by (fun x => - key_of g x) maxs) Hg) as (hi & Ehi & Chi).
  exists lo, hi. split; [auto|]. split; [auto|].
  assert (Lo : (forall x, a <= x <= b -> lo <= F x) /\ exists x, a <= x <= b /\ g x = Ok lo).
  { destruct Clo as [(m & Hm & Hr & ->)|[N ->]].
    - apply sort_by_in in Hm. split; [|exists m; auto].
      assert (E : m = 0) by (apply In0; auto; apply in_app_iff; auto). intros x Hx.
      rewrite E, <- H0. apply (t_min _ _ _ T). rewrite <- E. apply in_map. auto.
    - split.
      + intros x Hx. apply (t_nomin _ _ _ T a x b Hx). intros m' Hm'. apply in_map_iff in Hm'. destruct Hm' as (m & <- & Hm).
        apply Out; [apply in_app_iff; auto|]. apply N, sort_by_in. auto.
      + unfold Rmin. destruct Rle_dec; [exists a|exists b]; split; auto; lra. }
  assert (Hi : (forall x, a <= x <= b -> F x <= hi) /\ exists x, a <= x <= b /\ g x = Ok hi).
  { destruct Chi as [(m & Hm & Hr & ->)|[N ->]].
    - apply sort_by_in in Hm. split; [|exists m; auto].
      assert (E : m = 0) by (apply In0; auto; apply in_app_iff; auto). intros x Hx.
      rewrite E, <- H0. apply (t_max _ _ _ T). rewrite <- E. apply in_map. auto.
    - split.
      + intros x Hx. apply (t_nomax _ _ _ T a x b Hx). intros m' Hm'. apply in_map_iff in Hm'. destruct Hm' as (m & <- & Hm).
        apply Out; [apply in_app_iff; auto|]. apply N, sort_by_in. auto.
      + unfold Rmax. destruct Rle_dec; [exists b|exists a]; split; auto; lra. }
  split; [|split; [apply Lo|apply Hi]]. intros x Hx. exists (F x). split; [auto|]. split; [apply Lo|apply Hi]; auto.
Qed.
Theorem C26_get_range_exact_away_from_rounding : forall n k d a b,
  rounded_table n k = true -> get_function_data (n, k) = Ok d -> clear_of (local_minima d ++ local_maxima d) a b -> a <= b ->
  exists g lo hi, get_function (n, k) = Ok g /\ get_range (n, k) a b = Ok (lo, hi) /\ range_of g a b lo hi.
Proof.
  intros n k d a b H Hd C L.
  destruct (Fof_ok n k (rounded_supported n k H)) as (g & Hg & Hgx).
  assert (Hx : forall x, g x = Ok (Fof n k x)) by (intro x; apply Hgx, (rounded_domain n k); auto).
  destruct (moved_table n k H) as (d' & c1 & c2 & Hd' & M1 & M2 & _ & A & B & T). rewrite Hd in Hd'. injection Hd' as <-.
  destruct (range_moved g (Fof n k) (warp c1 c2) _ _ a b Hx T (warp_0 c1 c2) ltac:(intros; apply warp_near; auto) C L) as (lo & hi & H1 & H2 & H3).
  exists g, lo, hi. split; [auto|]. split; [|auto].
  unfold get_range. rewrite Hg. cbn [bind]. rewrite Hd. cbn [bind]. rewrite H1. cbn [bind]. rewrite H2. reflexivity.
Qed.

(** ** C35 *)
Theorem C35_valid_away_from_rounding : forall n k d x0 a b,
  rounded_table n k = true -> get_function_data (n, k) = Ok d -> clear_of (local_minima d ++ local_maxima d) a b ->
  a <= x0 <= b -> cap_ok k x0 a -> cap_ok k x0 b ->
  exists e, get_elementwise_taylor_enclosure (n, 0%nat) x0 (a, b) k = Ok e /\ valid_enclosure (textbook n) x0 (seg a b) k e.
Proof.
  intros n k d x0 a b H Hd C Hx0 Ca Cb.
  assert (Sk := rounded_supported n k H).
  assert (Dx : forall x, domain n x) by (intro; apply (rounded_domain n k); auto).
  assert (Hn : n <> ABS) by (intros ->; discriminate).
  assert (HF : deriv_chain (seg a b) (Fof n) k) by (intros i x Hi Hx; apply (Fof_chain n k Hn Sk i x); auto).
  destruct (moved_table n k H) as (d' & c1 & c2 & Hd' & Mi & Md & Ev & _). rewrite Hd in Hd'. injection Hd' as <-.
  destruct (C26_get_range_exact_away_from_rounding n k d a b H Hd C ltac:(lra)) as (g & lo & hi & Hg & Hr & HR & _).
  destruct (Fof_ok n k Sk) as (g' & Hg' & Hgx). rewrite Hg in Hg'. injection Hg' as <-.
  assert (HR' : forall x, seg a b x -> lo <= Fof n k x <= hi).
  { intros x Hx. destruct (HR x Hx) as (v & Ev' & Hv). rewrite Hgx in Ev' by auto. injection Ev' as <-. auto. }
  destruct (Fof_ok n 0 (supported_le n 0 k (Nat.le_0_l k) Sk)) as (g0 & Hg0 & Hgx0).
  assert (HD : convex (seg a b)) by (intros x y z Hx Hz L; unfold seg in *; lra).
  assert (Sa : seg a b a) by (unfold seg; lra). assert (Sb : seg a b b) by (unfold seg; lra).
  assert (Main : exists e, get_elementwise_taylor_enclosure (n, 0%nat) x0 (a, b) k = Ok e /\ valid_enclosure (Fof n 0) x0 (seg a b) k e).
  2:{ destruct Main as (e & He & Hv). exists e. split; [auto|]. apply (valid_ext (Fof n 0)); [apply Fof_0|exact Hv]. }
  unfold get_elementwise_taylor_enclosure. rewrite Hg0. cbn [bind].
  unfold derivative_id. cbn [fst snd]. rewrite Nat.add_0_l, Hd. cbn [bind]. rewrite Mi, Md, Ev, andb_false_r. cbn [orb].
  rewrite taylor_coeffs_ok by auto. cbn [bind].
  rewrite !(sharp_of_rho (Fof n)) by (auto; apply Hgx0, Dx; lra). cbn [bind fst snd].
  rewrite Hr. cbn [bind].
  rewrite removelast_firstn_taylor. unfold bounded_derivative_enclosure. rewrite firstn_taylor_length, Nat.eqb_refl. cbn [negb bind fst snd].
  destruct (monotone_over d a b) as [dec inc] eqn:Mo.
  destruct (C25_monotone_over_sound_away_from_rounding n k d a b dec inc H Hd ltac:(lra) C Mo) as [Gd Gi].
  eexists. split; [reflexivity|]. split; [cbn [fst]; apply firstn_taylor_length|].
  intros x Hx. cbn [fst snd]. assert (Pf := INR_fact_pos k). apply encl_value_rho. cbn [fst snd].
  destruct dec; [|destruct inc].
  - assert (Rd := rho_decreasing k (seg a b) (Fof n) x0 HD Hx0 HF (Gd eq_refl)). split; apply Rd; auto; apply Hx.
  - assert (Ri := rho_increasing k (seg a b) (Fof n) x0 HD Hx0 HF (Gi eq_refl)). split; apply Ri; auto; apply Hx.
  - destruct (rho_lagrange k (seg a b) (Fof n) x0 x HD Hx0 Hx HF) as (xi & _ & Dxi & ->).
    assert (Q := HR' xi Dxi). unfold Rdiv. split; apply Rmult_le_compat_r; try apply Q; left; apply Rinv_0_lt_compat; auto.
Qed.
(** Swish at degree 2 over [-3, 3] around 1 (the exact maximum 0 of its second
    derivative is inside); sigmoid at degree 2 over [0, 1]. *)
Example C35_away_nonvacuous :
  rounded_table SWISH 2 = true /\ clear_of ([-3.4358409935350243; 3.4358409935350225] ++ [0]) (-3) 3 /\ cap_ok 2 1 (-3) /\ cap_ok 2 1 3 /\
  rounded_table SIGMOID 2 = true /\ clear_of ([1.3169578969249405] ++ [-1.3169578969249423]) 0 1 /\ cap_ok 2 (1/2) 0 /\ cap_ok 2 (1/2) 1.
Proof.
  split; [reflexivity|]. split; [intros e [<-|[<-|[<-|[]]]]; lra|]. split; [right; unfold Rabs; destruct Rcase_abs; simpl; lra|]. split; [right; unfold Rabs; destruct Rcase_abs; simpl; lra|].
  split; [reflexivity|]. split; [intros e [<-|[<-|[]]]; lra|]. split; right; unfold Rabs; destruct Rcase_abs; simpl; lra.
Qed.
