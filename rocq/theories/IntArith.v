(** Two's complement arithmetic on Z. Nothing here models a function of /repo. *)
From Verif Require Import Base.
From Coq Require Import ZifyBool.

(** The signed [n] bit integer congruent to [z]; the unsigned one is [z mod 2^n]. *)
Definition sx (n z : Z) : Z := (z + 2 ^ (n - 1)) mod 2 ^ n - 2 ^ (n - 1).

Definition eqm (n a b : Z) : Prop := a mod 2 ^ n = b mod 2 ^ n.

Lemma pow_pos n : 0 <= n -> 0 < 2 ^ n. Proof. intros. apply Z.pow_pos_nonneg; lia. Qed.
Lemma pow_half n : 0 < n -> 2 ^ n = 2 * 2 ^ (n - 1).
Proof. intros. rewrite <- Z.pow_succ_r by lia. f_equal. lia. Qed.

Lemma eqm_refl n a : eqm n a a. Proof. reflexivity. Qed.
Lemma eqm_sym n a b : eqm n a b -> eqm n b a. Proof. unfold eqm. congruence. Qed.
Lemma eqm_trans n a b c : eqm n a b -> eqm n b c -> eqm n a c. Proof. unfold eqm. congruence. Qed.
Lemma eqm_mod n a : eqm n (a mod 2 ^ n) a. Proof. apply Zmod_mod. Qed.
Lemma eqm_exists n a b : 0 <= n -> eqm n a b <-> exists k, a = b + k * 2 ^ n.
Proof.
  intros Hn. pose proof (pow_pos n Hn). unfold eqm. split.
  - intros E. exists (a / 2 ^ n - b / 2 ^ n).
    pose proof (Z.div_mod a (2 ^ n) ltac:(lia)). pose proof (Z.div_mod b (2 ^ n) ltac:(lia)). nia.
  - intros (k & ->). rewrite Z.mod_add by lia. reflexivity.
Qed.
Lemma eqm_add n a b c d : 0 <= n -> eqm n a b -> eqm n c d -> eqm n (a + c) (b + d).
Proof. unfold eqm. intros Hn H1 H2. rewrite (Z.add_mod a c), (Z.add_mod b d) by (pose proof (pow_pos n Hn); lia). congruence. Qed.
Lemma eqm_sub n a b c d : 0 <= n -> eqm n a b -> eqm n c d -> eqm n (a - c) (b - d).
Proof.
  intros Hn H1 H2. apply eqm_exists in H1 as (k & ->); auto. apply eqm_exists in H2 as (j & ->); auto.
  apply eqm_exists; auto. exists (k - j). lia.
Qed.
Lemma eqm_mul n a b c d : 0 <= n -> eqm n a b -> eqm n c d -> eqm n (a * c) (b * d).
Proof. unfold eqm. intros Hn H1 H2. rewrite (Z.mul_mod a c), (Z.mul_mod b d) by (pose proof (pow_pos n Hn); lia). congruence. Qed.
Lemma eqm_opp n a b : 0 <= n -> eqm n a b -> eqm n (- a) (- b).
Proof. intros. apply (eqm_sub n 0 0 a b); auto using eqm_refl. Qed.

Lemma testbit_mod_pow2 a n i : 0 <= n -> Z.testbit (a mod 2 ^ n) i = (i <? n) && Z.testbit a i.
Proof.
  intros Hn. destruct (Z.ltb_spec i n).
  - cbn. destruct (Z_lt_le_dec i 0); [now rewrite !Z.testbit_neg_r by lia|]. apply Z.mod_pow2_bits_low. lia.
  - cbn. apply Z.mod_pow2_bits_high. lia.
Qed.
Lemma eqm_bits n a b : 0 <= n -> eqm n a b <-> forall i, 0 <= i < n -> Z.testbit a i = Z.testbit b i.
Proof.
  intros Hn. unfold eqm. split.
  - intros E i Hi. assert (X : Z.testbit (a mod 2 ^ n) i = Z.testbit (b mod 2 ^ n) i) by congruence.
    rewrite !testbit_mod_pow2 in X by lia. destruct (i <? n) eqn:?; [exact X|lia].
  - intros H. apply Z.bits_inj'. intros i Hi. rewrite !testbit_mod_pow2 by lia.
    destruct (i <? n) eqn:?; [apply H; lia|reflexivity].
Qed.
Lemma eqm_land n a b c d : 0 <= n -> eqm n a b -> eqm n c d -> eqm n (Z.land a c) (Z.land b d).
Proof. intros Hn H1 H2. rewrite eqm_bits in * by lia. intros i Hi. rewrite !Z.land_spec, H1, H2; auto. Qed.
Lemma eqm_lor n a b c d : 0 <= n -> eqm n a b -> eqm n c d -> eqm n (Z.lor a c) (Z.lor b d).
Proof. intros Hn H1 H2. rewrite eqm_bits in * by lia. intros i Hi. rewrite !Z.lor_spec, H1, H2; auto. Qed.
Lemma eqm_lxor n a b c d : 0 <= n -> eqm n a b -> eqm n c d -> eqm n (Z.lxor a c) (Z.lxor b d).
Proof. intros Hn H1 H2. rewrite eqm_bits in * by lia. intros i Hi. rewrite !Z.lxor_spec, H1, H2; auto. Qed.
Lemma eqm_lnot n a b : 0 <= n -> eqm n a b -> eqm n (Z.lnot a) (Z.lnot b).
Proof. intros Hn H. unfold Z.lnot. apply (eqm_sub n (- a) (- b) 1 1); auto using eqm_refl, eqm_opp. Qed.
Lemma eqm_shiftl n a b k : 0 <= n -> 0 <= k -> eqm n a b -> eqm n (Z.shiftl a k) (Z.shiftl b k).
Proof. intros. rewrite !Z.shiftl_mul_pow2 by lia. apply eqm_mul; auto using eqm_refl. Qed.
Lemma eqm_le m n a b : 0 <= m <= n -> eqm n a b -> eqm m a b.
Proof. intros H E. rewrite eqm_bits in * by lia. intros i Hi. apply E. lia. Qed.

Lemma mod_mod_le m n a : 0 <= m <= n -> (a mod 2 ^ n) mod 2 ^ m = a mod 2 ^ m.
Proof. intros H. apply (eqm_le m n); auto. apply eqm_mod. Qed.
Lemma eqm_mod_l n m a b : 0 <= m <= n -> eqm m a b -> eqm m (a mod 2 ^ n) b.
Proof. intros H E. apply eqm_trans with a; auto. apply eqm_le with n; auto. apply eqm_mod. Qed.

Lemma sx_range n z : 0 < n -> - 2 ^ (n - 1) <= sx n z < 2 ^ (n - 1).
Proof.
  intros. unfold sx. pose proof (Z.mod_pos_bound (z + 2 ^ (n - 1)) (2 ^ n) (pow_pos n ltac:(lia))).
  pose proof (pow_half n ltac:(lia)). lia.
Qed.
Lemma sx_eqm n z : 0 < n -> eqm n (sx n z) z.
Proof.
  intros. unfold sx. replace z with (z + 2 ^ (n - 1) - 2 ^ (n - 1)) at 2 by lia.
  apply eqm_sub; [lia| |apply eqm_refl]. apply eqm_mod.
Qed.
Lemma sx_cong n a b : eqm n a b -> 0 < n -> sx n a = sx n b.
Proof.
  intros E Hn. unfold sx. f_equal. apply (eqm_add n a b (2 ^ (n - 1)) (2 ^ (n - 1))); auto using eqm_refl. lia.
Qed.
Lemma sx_id n z : 0 < n -> - 2 ^ (n - 1) <= z < 2 ^ (n - 1) -> sx n z = z.
Proof. intros Hn H. unfold sx. rewrite Z.mod_small; [lia|]. pose proof (pow_half n Hn). lia. Qed.
Lemma sx_unique n a b : 0 < n -> eqm n a b -> - 2 ^ (n - 1) <= b < 2 ^ (n - 1) -> sx n a = b.
Proof. intros Hn E R. rewrite (sx_cong n a b E Hn). now apply sx_id. Qed.
Lemma sx_sx m n z : 0 < m <= n -> sx m (sx n z) = sx m z.
Proof. intros H. apply sx_cong; [|lia]. apply eqm_le with n; [lia|]. apply sx_eqm. lia. Qed.
Lemma sx_mod m n z : 0 < m <= n -> sx m (z mod 2 ^ n) = sx m z.
Proof. intros H. apply sx_cong; [|lia]. apply eqm_le with n; [lia|]. apply eqm_mod. Qed.
Lemma mod_sx m n z : 0 <= m <= n -> 0 < n -> (sx n z) mod 2 ^ m = z mod 2 ^ m.
Proof. intros H Hn. apply (eqm_le m n); auto. now apply sx_eqm. Qed.
Lemma sx_cases n z : 0 < n -> 0 <= z < 2 ^ n -> sx n z = if z <? 2 ^ (n - 1) then z else z - 2 ^ n.
Proof.
  intros Hn Hz. pose proof (pow_half n Hn). destruct (z <? 2 ^ (n - 1)) eqn:E.
  - apply sx_id; lia.
  - apply sx_unique; [lia| |lia]. apply eqm_exists; [lia|]. exists 1. lia.
Qed.
Lemma mod_pow_range n z : 0 <= n -> 0 <= z mod 2 ^ n < 2 ^ n.
Proof. intros. apply Z.mod_pos_bound. now apply pow_pos. Qed.
Lemma mod_id n z : 0 <= z < 2 ^ n -> z mod 2 ^ n = z.
Proof. intros. apply Z.mod_small. lia. Qed.

(** Bit operations stay within the range of the operands. *)
Lemma bitop_range (f : Z -> Z -> Z) (g : bool -> bool -> bool) n a b :
  (forall x y i, Z.testbit (f x y) i = g (Z.testbit x i) (Z.testbit y i)) -> g false false = false -> 0 <= n ->
  0 <= a < 2 ^ n -> 0 <= b < 2 ^ n -> 0 <= f a b < 2 ^ n.
Proof.
  intros S G Hn Ha Hb.
  assert (E : f a b = (f a b) mod 2 ^ n).
  { apply Z.bits_inj'. intros i Hi. rewrite testbit_mod_pow2 by lia. destruct (Z.ltb_spec i n); cbn; auto.
    rewrite S. rewrite <- (mod_id n a), <- (mod_id n b) by lia. rewrite !testbit_mod_pow2 by lia.
    destruct (Z.ltb_spec i n); [lia|]. exact G. }
  rewrite E. now apply mod_pow_range.
Qed.
Lemma land_range n a b : 0 <= n -> 0 <= a < 2 ^ n -> 0 <= b < 2 ^ n -> 0 <= Z.land a b < 2 ^ n.
Proof. intros. apply (bitop_range Z.land andb); auto using Z.land_spec. Qed.
Lemma lor_range n a b : 0 <= n -> 0 <= a < 2 ^ n -> 0 <= b < 2 ^ n -> 0 <= Z.lor a b < 2 ^ n.
Proof. intros. apply (bitop_range Z.lor orb); auto using Z.lor_spec. Qed.
Lemma lxor_range n a b : 0 <= n -> 0 <= a < 2 ^ n -> 0 <= b < 2 ^ n -> 0 <= Z.lxor a b < 2 ^ n.
Proof. intros. apply (bitop_range Z.lxor xorb); auto using Z.lxor_spec. Qed.

(** ... also for signed ranges: the sign bit extends. *)
Lemma signed_bits_fwd n a : 0 < n -> - 2 ^ (n - 1) <= a < 2 ^ (n - 1) -> forall i, n - 1 <= i -> Z.testbit a i = (a <? 0).
Proof.
  intros Hn R i Hi. destruct (Z.ltb_spec a 0).
  - assert (X: 0 <= Z.lnot a < 2 ^ (n - 1)) by (unfold Z.lnot; lia).
    assert (Y: Z.testbit (Z.lnot a) i = false).
    { rewrite <- (mod_id (n - 1) (Z.lnot a) X). rewrite testbit_mod_pow2 by lia. destruct (i <? n - 1) eqn:?; [lia|reflexivity]. }
    rewrite Z.lnot_spec in Y by lia. now destruct (Z.testbit a i).
  - rewrite <- (mod_id (n - 1) a) by lia. rewrite testbit_mod_pow2 by lia. destruct (i <? n - 1) eqn:?; [lia|reflexivity].
Qed.
Lemma signed_bits n a : 0 < n -> (- 2 ^ (n - 1) <= a < 2 ^ (n - 1)) <-> (forall i, n - 1 <= i -> Z.testbit a i = (a <? 0)).
Proof.
  intros Hn. split; [now apply signed_bits_fwd|].
  intros B. assert (E: sx n a = a); [|rewrite <- E; now apply sx_range].
  apply Z.bits_inj'. intros i Hi.
  pose proof (sx_range n a Hn) as R. pose proof (sx_eqm n a Hn) as Q. rewrite eqm_bits in Q by lia.
  destruct (Z_lt_le_dec i n) as [L|L]; [apply Q; lia|].
  rewrite (B i), <- (B (n - 1)), <- Q by lia.
  rewrite !(signed_bits_fwd n (sx n a)) by (auto; lia). reflexivity.
Qed.
Lemma bitop_srange (f : Z -> Z -> Z) (g : bool -> bool -> bool) n a b :
  (forall x y i, Z.testbit (f x y) i = g (Z.testbit x i) (Z.testbit y i)) -> 0 < n ->
  - 2 ^ (n - 1) <= a < 2 ^ (n - 1) -> - 2 ^ (n - 1) <= b < 2 ^ (n - 1) -> - 2 ^ (n - 1) <= f a b < 2 ^ (n - 1).
Proof.
  intros S Hn Ha Hb. pose proof (proj1 (signed_bits n a Hn) Ha) as A. pose proof (proj1 (signed_bits n b Hn) Hb) as B.
  assert (E: forall i, n - 1 <= i -> Z.testbit (f a b) i = g (a <? 0) (b <? 0)) by (intros i Hi; rewrite S, A, B; auto).
  apply (signed_bits n _ Hn). intros i Hi. rewrite (E i Hi).
  (* the sign of f a b *)
  destruct (Z.ltb_spec (f a b) 0) as [L|L].
  - apply Z.bits_iff_neg_ex in L as (k & K). rewrite <- (E (Z.max (k + 1) (n - 1))) by lia. apply K. lia.
  - apply Z.bits_iff_nonneg_ex in L as (k & K). rewrite <- (E (Z.max (k + 1) (n - 1))) by lia. apply K. lia.
Qed.
Lemma land_srange n a b : 0 < n -> - 2 ^ (n - 1) <= a < 2 ^ (n - 1) -> - 2 ^ (n - 1) <= b < 2 ^ (n - 1) -> - 2 ^ (n - 1) <= Z.land a b < 2 ^ (n - 1).
Proof. intros. apply (bitop_srange Z.land andb); auto using Z.land_spec. Qed.
Lemma lor_srange n a b : 0 < n -> - 2 ^ (n - 1) <= a < 2 ^ (n - 1) -> - 2 ^ (n - 1) <= b < 2 ^ (n - 1) -> - 2 ^ (n - 1) <= Z.lor a b < 2 ^ (n - 1).
Proof. intros. apply (bitop_srange Z.lor orb); auto using Z.lor_spec. Qed.
Lemma lxor_srange n a b : 0 < n -> - 2 ^ (n - 1) <= a < 2 ^ (n - 1) -> - 2 ^ (n - 1) <= b < 2 ^ (n - 1) -> - 2 ^ (n - 1) <= Z.lxor a b < 2 ^ (n - 1).
Proof. intros. apply (bitop_srange Z.lxor xorb); auto using Z.lxor_spec. Qed.
