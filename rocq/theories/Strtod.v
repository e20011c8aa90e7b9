(** Decimal numbers and doubles: the double nearest to a decimal number (what yajl gets
    from strtod), a decimal number for every finite double, and that the first gives back
    the double of the second.  Doubles are IEEE binary64 ([spec_float] of the standard
    library with precision 53 and exponents below 1024). *)

From Coq Require Import ZArith NArith Lia SpecFloat Bool.
Set Implicit Arguments.
Local Open Scope Z_scope.

(** The double nearest to (-1)^neg * n * 10^e, ties to even; infinite if out of range. *)
Definition strtod (neg : bool) (n : N) (e : Z) : spec_float :=
  match Z.of_N n with
  | Zpos m =>
      match e with
      | Zneg k =>
          let '(q, e', l) := SFdiv_core_binary 53 1024 (Zpos m) 0 (10 ^ Zpos k) 0 in
          binary_round_aux 53 1024 neg q e' l
      | _ => binary_normalize 53 1024 (cond_Zopp neg (Zpos m * 10 ^ e)) 0 neg
      end
  | _ => S754_zero neg
  end.

(** A decimal number n * 10^(-k) for the absolute value of a double. *)
Definition dec_of (f : spec_float) : N * N :=
  match f with
  | S754_finite _ m (Zneg k) => (Z.to_N (Zpos m * 5 ^ Zpos k), Npos k)
  | S754_finite _ m e => (Z.to_N (Zpos m * 2 ^ e), 0%N)
  | _ => (0%N, 0%N)
  end.

Definition sign_of (f : spec_float) : bool :=
  match f with S754_zero s | S754_infinity s | S754_finite s _ _ => s | S754_nan => false end.

(** A number, as opposed to the infinities and NaN. *)
Definition finite (f : spec_float) : bool :=
  match f with S754_zero _ | S754_finite _ _ _ => true | _ => false end.

(** A double of the machine that is a number. *)
Definition number (f : spec_float) : bool := finite f && valid_binary 53 1024 f.

(** ** Digits *)
Lemma digits_spec p : 2 ^ (Zpos (digits2_pos p) - 1) <= Zpos p < 2 ^ Zpos (digits2_pos p).
Proof.
  induction p as [p IH|p IH|]; cbn [digits2_pos]; [| |simpl; lia];
    rewrite Pos2Z.inj_succ; unfold Z.succ; replace (Zpos (digits2_pos p) + 1 - 1) with (Zpos (digits2_pos p)) by lia;
    set (d := Zpos (digits2_pos p)) in *; assert (Hd : 1 <= d) by (unfold d; lia);
    rewrite Z.pow_add_r by lia; replace (2 ^ d) with (2 * 2 ^ (d - 1)) in * by (rewrite <- Z.pow_succ_r by lia; f_equal; lia);
    change (2 ^ 1) with 2; lia.
Qed.

Lemma digits_unique p d : 1 <= d -> 2 ^ (d - 1) <= Zpos p < 2 ^ d -> Zpos (digits2_pos p) = d.
Proof.
  intros Hd [H1 H2]. destruct (digits_spec p) as [K1 K2]. set (x := Zpos (digits2_pos p)) in *.
  assert (x - 1 < d) by (apply (Z.pow_lt_mono_r_iff 2); lia).
  assert (d - 1 < x) by (apply (Z.pow_lt_mono_r_iff 2); lia). lia.
Qed.

Lemma digits_shift m n p : 0 <= n -> Zpos p = Zpos m * 2 ^ n -> Zpos (digits2_pos p) = Zpos (digits2_pos m) + n.
Proof.
  intros Hn Hp. destruct (digits_spec m) as [K1 K2]. apply digits_unique; [lia|]. rewrite Hp.
  replace (Zpos (digits2_pos m) + n - 1) with (Zpos (digits2_pos m) - 1 + n) by lia.
  rewrite !Z.pow_add_r by lia. assert (0 < 2 ^ n) by (apply Z.pow_pos_nonneg; lia). nia.
Qed.

(** ** Shifting out zeros *)
Lemma shr_1_even m : shr_1 (Build_shr_record (2 * m) false false) = Build_shr_record m false false.
Proof. destruct m; reflexivity. Qed.

Lemma shr_iter p : forall m, iter_pos shr_1 p (Build_shr_record (m * 2 ^ Zpos p) false false) = Build_shr_record m false false.
Proof.
  induction p as [p IH|p IH|]; intros m; cbn [iter_pos].
  - replace (m * 2 ^ Zpos p~1) with (2 * (m * 2 ^ Zpos p * 2 ^ Zpos p)).
    + rewrite shr_1_even, !IH. reflexivity.
    + rewrite (Pos2Z.inj_xI p). replace (2 * Zpos p + 1) with (Zpos p + Zpos p + 1) by lia.
      rewrite !Z.pow_add_r by lia. ring.
  - replace (m * 2 ^ Zpos p~0) with (m * 2 ^ Zpos p * 2 ^ Zpos p).
    + rewrite !IH. reflexivity.
    + rewrite (Pos2Z.inj_xO p). replace (2 * Zpos p) with (Zpos p + Zpos p) by lia. rewrite Z.pow_add_r by lia. ring.
  - replace (m * 2 ^ 1) with (2 * m) by ring. apply shr_1_even.
Qed.

Lemma shr_exact m e n : 0 <= n -> shr (Build_shr_record (m * 2 ^ n) false false) e n = (Build_shr_record m false false, e + n).
Proof.
  intros Hn. destruct n as [|p|p]; [| |lia].
  - simpl. rewrite Z.mul_1_r, Z.add_0_r. reflexivity.
  - cbn [shr]. rewrite shr_iter. reflexivity.
Qed.

Lemma bounded_spec m e : bounded 53 1024 m e = true ->
  fexp 53 1024 (Zpos (digits2_pos m) + e) = e /\ e <= 971.
Proof.
  unfold bounded, canonical_mantissa. intros H. apply andb_true_iff in H as [H1 H2].
  apply Zeq_bool_eq in H1. apply Zle_bool_imp_le in H2. split; auto.
Qed.

(** Rounding a number that is a double changes nothing. *)
Lemma round_exact s m e n : bounded 53 1024 m e = true -> 0 <= n ->
  binary_round_aux 53 1024 s (Zpos m * 2 ^ n) (e - n) loc_Exact = S754_finite s m e.
Proof.
  intros Hb Hn. apply bounded_spec in Hb as [Hf He].
  assert (Hpos : exists p, Zpos m * 2 ^ n = Zpos p).
  { assert (0 < 2 ^ n) by (apply Z.pow_pos_nonneg; lia).
    assert (0 < Zpos m * 2 ^ n) by lia. destruct (Zpos m * 2 ^ n) as [|p|p]; try lia. eauto. }
  destruct Hpos as [p Hp]. unfold binary_round_aux, shr_fexp at 1.
  assert (Hd : Zdigits2 (Zpos m * 2 ^ n) + (e - n) = Zpos (digits2_pos m) + e).
  { rewrite Hp. cbn [Zdigits2]. rewrite (@digits_shift m n p Hn (eq_sym Hp)). lia. }
  rewrite Hd, Hf. replace (e - (e - n)) with n by lia. cbn [shr_record_of_loc].
  rewrite shr_exact by auto. replace (e - n + n) with e by lia. cbn [shr_m loc_of_shr_record round_nearest_even].
  unfold shr_fexp. cbn [Zdigits2 shr_record_of_loc]. rewrite Hf, Z.sub_diag. cbn [shr shr_m].
  change (1024 - 53) with 971. rewrite (proj2 (Z.leb_le e 971)); auto.
Qed.

Lemma fexp_mono a b : a <= b -> fexp 53 1024 a <= fexp 53 1024 b.
Proof. unfold fexp, emin. lia. Qed.

(** Every double is the one nearest to its own decimal number. *)
Theorem strtod_dec f : number f = true ->
  strtod (sign_of f) (fst (dec_of f)) (- Z.of_N (snd (dec_of f))) = f.
Proof.
  intros H. unfold number in H. apply andb_true_iff in H as [Hfin H].
  destruct f as [s|s| |s m e]; try discriminate; [reflexivity|]. cbn [valid_binary] in H. cbn [sign_of].
  destruct e as [|p|k].
  - (* an integer *)
    cbn [dec_of fst snd]. unfold strtod. change (2 ^ 0) with 1. rewrite Z.mul_1_r. cbn [Z.to_N].
    change (- Z.of_N 0) with 0. change (10 ^ 0) with 1. cbn [Z.of_N]. rewrite Z.mul_1_r.
    pose proof (bounded_spec _ _ H) as [Hf _]. rewrite Z.add_0_r in Hf.
    assert (Hr : binary_round 53 1024 s m 0 = S754_finite s m 0).
    { unfold binary_round. rewrite Z.add_0_r, Hf. cbn [shl_align Z.sub Z.opp Z.add].
      pose proof (@round_exact s m 0 0 H) as R. rewrite Z.mul_1_r in R. apply R. lia. }
    destruct s; cbn [cond_Zopp Z.opp binary_normalize]; exact Hr.
  - cbn [dec_of fst snd]. unfold strtod. change (- Z.of_N 0) with 0. change (10 ^ 0) with 1. 
    assert (Hp2 : 0 < 2 ^ Zpos p) by (apply Z.pow_pos_nonneg; lia).
    rewrite Z2N.id by lia.
    destruct (Zpos m * 2 ^ Zpos p) as [|q|q] eqn:Hq; try lia. rewrite Z.mul_1_r.
    pose proof (bounded_spec _ _ H) as [Hf _].
    assert (Hr : binary_round 53 1024 s q 0 = S754_finite s m (Zpos p)).
    { unfold binary_round. rewrite Z.add_0_r, (@digits_shift m (Zpos p) q), Hf by (lia || auto).
      cbn [shl_align Z.sub Z.opp Z.add].
      pose proof (@round_exact s m (Zpos p) (Zpos p) H ltac:(lia)) as R. rewrite Z.sub_diag, Hq in R. exact R. }
    destruct s; cbn [cond_Zopp Z.opp binary_normalize]; exact Hr.
  - (* a fraction *)
    cbn [dec_of fst snd]. unfold strtod. cbn [Z.of_N Z.opp].
    assert (H5 : 0 < 5 ^ Zpos k) by (apply Z.pow_pos_nonneg; lia).
    rewrite Z2N.id by lia.
    destruct (Zpos m * 5 ^ Zpos k) as [|q|q] eqn:Hq; try lia. 
    pose proof (bounded_spec _ _ H) as [Hf _].
    assert (H10 : 10 ^ Zpos k = 5 ^ Zpos k * 2 ^ Zpos k) by (rewrite <- Z.pow_mul_l; reflexivity).
    assert (H2 : 0 < 2 ^ Zpos k) by (apply Z.pow_pos_nonneg; lia).
    destruct (10 ^ Zpos k) as [|t|t] eqn:Ht; try lia.
    unfold SFdiv_core_binary. cbn [Zdigits2]. rewrite !Z.add_0_r, Z.sub_diag.
    set (e' := Z.min (fexp 53 1024 (Zpos (digits2_pos q) - Zpos (digits2_pos t))) 0).
    assert (He' : e' <= Zneg k).
    { assert (Hd : Zpos (digits2_pos q) - Zpos (digits2_pos t) <= Zpos (digits2_pos m) + Zneg k).
      { destruct (digits_spec q) as [Q _]. destruct (digits_spec t) as [_ T]. destruct (digits_spec m) as [_ M].
        assert (X : 2 ^ (Zpos (digits2_pos q) - 1 + Zpos k) < 2 ^ (Zpos (digits2_pos m) + Zpos (digits2_pos t))).
        { rewrite !Z.pow_add_r by lia. apply Z.le_lt_trans with (Zpos q * 2 ^ Zpos k); [nia|].
          rewrite <- Hq. replace (Zpos m * 5 ^ Zpos k * 2 ^ Zpos k) with (Zpos m * Zpos t) by (rewrite H10; ring). nia. }
        apply Z.pow_lt_mono_r_iff in X; lia. }
      apply fexp_mono in Hd. rewrite Hf in Hd. unfold e'. lia. }
    assert (Hs : exists x, 0 - e' = Zpos x) by (exists (Z.to_pos (0 - e')); rewrite Z2Pos.id; lia).
    destruct Hs as [x Hx]. rewrite Hx.
    assert (Hm' : Z.shiftl (Zpos q) (Zpos x) = Zpos m * 2 ^ (Zpos x - Zpos k) * Zpos t).
    { rewrite Z.shiftl_mul_pow2 by lia. rewrite <- Hq, H10.
      replace (Zpos x) with (Zpos x - Zpos k + Zpos k) at 1 by lia. rewrite Z.pow_add_r by lia. ring. }
    rewrite Hm'. 
    assert (Hde : Z.div_eucl (Zpos m * 2 ^ (Zpos x - Zpos k) * Zpos t) (Zpos t) = (Zpos m * 2 ^ (Zpos x - Zpos k), 0)).
    { pose proof (Z.div_mul (Zpos m * 2 ^ (Zpos x - Zpos k)) (Zpos t) ltac:(lia)) as D.
      pose proof (Z.mod_mul (Zpos m * 2 ^ (Zpos x - Zpos k)) (Zpos t) ltac:(lia)) as R.
      unfold Z.div, Z.modulo in D, R. destruct (Z.div_eucl _ _) as [a b]. subst. reflexivity. }
    rewrite Hde.
    assert (Hl : new_location (Zpos t) 0 = loc_Exact) by (unfold new_location, new_location_even, new_location_odd; destruct (Z.even _); reflexivity).
    rewrite Hl. replace e' with (Zneg k - (Zpos x - Zpos k)) by lia.
    apply round_exact; auto. lia.
Qed.
