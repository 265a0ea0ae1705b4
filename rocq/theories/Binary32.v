(** IEEE binary32 rounding (the default of jax), from Flocq: round to nearest,
    ties to even, with gradual underflow; no overflow. *)
From Coq Require Import Reals ZArith Lia Lra Psatz.
From Flocq Require Import Core.
From Verif Require Import FloatSpec.
Open Scope R_scope.

Definition b32 (x : R) : R := round radix2 (FLT_exp (-149) 24) ZnearestE x.

Lemma b32_rounding : rounding b32.
Proof.
  assert (P : Prec_gt_0 24) by (unfold Prec_gt_0; lia). unfold b32. constructor.
  - intros x y H. apply round_le; auto with typeclass_instances.
  - intros x. apply round_generic; auto with typeclass_instances. apply generic_format_round; auto with typeclass_instances.
  - intros x. apply round_NE_opp.
  - apply round_generic; auto with typeclass_instances. apply generic_format_FLT. apply (FLT_spec radix2 (-149) 24 1 (Float radix2 1 0)); [unfold F2R; simpl; lra|simpl; lia|simpl; lia].
Qed.

(** Rounding a positive number of the binade [2^(e+23), 2^(e+24)) with a
    fractional part other than 1/2. *)
Lemma b32_near (x : R) (m e : Z) : bpow radix2 (e + 23) <= x < bpow radix2 (e + 24) -> (-149 <= e)%Z ->
  Rabs (x * bpow radix2 (- e) - IZR m) < 1 / 2 -> b32 x = IZR m * bpow radix2 e.
Proof.
  intros Hx He Hm. unfold b32, round.
  assert (E : cexp radix2 (FLT_exp (-149) 24) x = e).
  { unfold cexp. rewrite (mag_unique_pos radix2 x (e + 24)); [|replace (e + 24 - 1)%Z with (e + 23)%Z by lia; auto]. unfold FLT_exp. lia. }
  unfold scaled_mantissa. rewrite E, (Znearest_imp _ _ m); auto. lra.
Qed.
(** Integers times powers of two with few bits are exact. *)
Lemma b32_exact (m e : Z) : (Z.abs m < 16777216)%Z -> (-149 <= e)%Z -> b32 (IZR m * bpow radix2 e) = IZR m * bpow radix2 e.
Proof.
  intros Hm He. apply round_generic; [apply valid_rnd_N|]. apply generic_format_FLT. apply (FLT_spec radix2 (-149) 24 _ (Float radix2 m e)); [reflexivity|exact Hm|exact He].
Qed.
