(** Facts on bit operations used by several proofs. *)
From Verif Require Import Base.

Lemma lor_shift_add hi lo k :
  0 <= k -> 0 <= lo < 2 ^ k -> Z.lor (hi * 2 ^ k) lo = hi * 2 ^ k + lo.
Proof.
  intros Hk Hlo. rewrite <- Z.lxor_lor.
  - symmetry. apply Z.add_nocarry_lxor. apply Z.bits_inj'. intros n Hn.
    rewrite Z.land_spec, Z.bits_0.
    destruct (Z.lt_ge_cases n k).
    + rewrite Z.mul_pow2_bits_low by lia. reflexivity.
    + destruct (Z.eq_dec lo 0) as [->|]; [rewrite Z.bits_0, andb_false_r; reflexivity|].
      rewrite (Z.bits_above_log2 lo n), andb_false_r; auto; [lia|].
      apply Z.log2_lt_pow2; [lia|]. apply Z.lt_le_trans with (2^k); [lia|].
      apply Z.pow_le_mono_r; lia.
  - apply Z.bits_inj'. intros n Hn. rewrite Z.land_spec, Z.bits_0.
    destruct (Z.lt_ge_cases n k).
    + rewrite Z.mul_pow2_bits_low by lia. reflexivity.
    + destruct (Z.eq_dec lo 0) as [->|]; [rewrite Z.bits_0, andb_false_r; reflexivity|].
      rewrite (Z.bits_above_log2 lo n), andb_false_r; auto; [lia|].
      apply Z.log2_lt_pow2; [lia|]. apply Z.lt_le_trans with (2^k); [lia|].
      apply Z.pow_le_mono_r; lia.
Qed.

Lemma lor_const_add c k hi lo :
  c = hi * 2 ^ k -> 0 <= k -> 0 <= lo < 2 ^ k -> Z.lor c lo = c + lo.
Proof. intros -> Hk Hlo. apply lor_shift_add; auto. Qed.

Lemma land_ones_mod a n m : 0 <= n -> m = 2 ^ n - 1 -> Z.land a m = a mod 2 ^ n.
Proof. intros Hn ->. rewrite <- (Z.land_ones a n Hn). f_equal. rewrite Z.ones_equiv. lia. Qed.

Lemma land_63 a : Z.land a 63 = a mod 64.
Proof. apply (land_ones_mod a 6 63); lia. Qed.
Lemma land_7 a : Z.land a 7 = a mod 8.
Proof. apply (land_ones_mod a 3 7); lia. Qed.
Lemma land_15 a : Z.land a 15 = a mod 16.
Proof. apply (land_ones_mod a 4 15); lia. Qed.
Lemma land_31 a : Z.land a 31 = a mod 32.
Proof. apply (land_ones_mod a 5 31); lia. Qed.
Lemma land_1023 a : Z.land a 1023 = a mod 1024.
Proof. apply (land_ones_mod a 10 1023); lia. Qed.
