(** Casts, unary operators, bit-fields, and loads and stores: instructions against C. *)
From Verif Require Import Base TypeModel IntArith NodeModel NodeProofs ValSpec NodeSpec EvalProofs RvSpec GenModel GenSpec RvProofs GenArith.
From Coq Require Import ZifyBool ZifyNat.
Local Notation length := List.length.

(** ** A shift left and a shift right *)
Lemma mul_pow_mod z k n : 0 <= k -> 0 <= n -> (z * 2 ^ k) mod 2 ^ (n + k) = z mod 2 ^ n * 2 ^ k.
Proof. intros. rewrite Z.pow_add_r by lia. rewrite Zmult_mod_distr_r. reflexivity. Qed.
Lemma sll_srl z n k : 0 <= k -> 0 <= n -> n + k = 64 -> wrap (z * 2 ^ k) / 2 ^ k = z mod 2 ^ n.
Proof.
  intros K N E. unfold wrap. replace 64 with (n + k) by lia. rewrite mul_pow_mod by lia.
  apply Z.div_mul. pose proof (pow_pos k K). lia.
Qed.
Lemma sx_mul_pow z n k : 0 <= k -> 0 < n -> sx (n + k) (z * 2 ^ k) = sx n z * 2 ^ k.
Proof.
  intros K N. apply sx_unique; [lia| |].
  - unfold eqm. rewrite !mul_pow_mod by lia. f_equal. apply eqm_sym, sx_eqm. lia.
  - pose proof (sx_range n z N). replace (n + k - 1) with ((n - 1) + k) by lia. rewrite Z.pow_add_r by lia. pose proof (pow_pos k K).
    rewrite <- Z.mul_opp_l. split; [apply Z.mul_le_mono_nonneg_r; lia|apply Z.mul_lt_mono_pos_r; lia].
Qed.
Lemma sll_sra z n k : 0 <= k -> 0 < n -> n + k = 64 -> sgn (wrap (z * 2 ^ k)) / 2 ^ k = sx n z.
Proof.
  intros K N E. unfold sgn, wrap. rewrite sx_mod by lia. replace 64 with (n + k) by lia. rewrite sx_mul_pow by lia.
  apply Z.div_mul. pose proof (pow_pos k K). lia.
Qed.
Lemma mod_div_pow z o w : 0 <= o -> 0 <= w -> z mod 2 ^ (w + o) / 2 ^ o = (z / 2 ^ o) mod 2 ^ w.
Proof.
  intros O W. apply Z.bits_inj'. intros i Hi. rewrite testbit_mod_pow2 by lia. rewrite !Z.div_pow2_bits by lia. rewrite testbit_mod_pow2 by lia.
  f_equal. lia.
Qed.
Lemma sx_div_pow z o w : 0 <= o -> 0 < w -> sx (w + o) z / 2 ^ o = sx w (z / 2 ^ o).
Proof.
  intros O W. symmetry. apply sx_unique; [lia| |].
  - unfold eqm. rewrite <- !mod_div_pow by lia. f_equal. symmetry. apply mod_sx; lia.
  - pose proof (sx_range (w + o) z ltac:(lia)) as R. replace (w + o - 1) with (w - 1 + o) in R by lia. rewrite Z.pow_add_r in R by lia.
    pose proof (pow_pos o O). split; [apply Z.div_le_lower_bound; lia|apply Z.div_lt_upper_bound; lia].
Qed.
(** the two shifts that read a bit-field *)
Lemma field_unsigned z o w : 0 <= o -> 0 < w -> o + w <= 64 -> wrap (z * 2 ^ (64 - w - o)) / 2 ^ (64 - w) = (z / 2 ^ o) mod 2 ^ w.
Proof.
  intros O W B. replace (64 - w) with (64 - w - o + o) at 2 by lia. rewrite Z.pow_add_r, <- Z.div_div by (try lia; apply pow_pos; lia).
  rewrite (sll_srl z (w + o)) by lia. apply mod_div_pow; lia.
Qed.
Lemma field_signed z o w : 0 <= o -> 0 < w -> o + w <= 64 -> sgn (wrap (z * 2 ^ (64 - w - o))) / 2 ^ (64 - w) = sx w (z / 2 ^ o).
Proof.
  intros O W B. replace (64 - w) with (64 - w - o + o) at 2 by lia. rewrite Z.pow_add_r, <- Z.div_div by (try lia; apply pow_pos; lia).
  rewrite (sll_sra z (w + o)) by lia. apply sx_div_pow; lia.
Qed.
Lemma div_pow_eqm n o w a b : 0 <= o -> 0 <= w -> o + w <= n -> eqm n a b -> (a / 2 ^ o) mod 2 ^ w = (b / 2 ^ o) mod 2 ^ w.
Proof.
  intros O W B E. rewrite <- !mod_div_pow by lia. f_equal. apply (eqm_le (w + o) n); auto. lia.
Qed.
(** reading a bit-field from a register that is right in the bits of the unit *)
Lemma bf_get_reg t s n o w z r : int_repr t = Some (s, n) -> bool_field t = false -> 0 <= o -> 0 < w -> o + w <= 8 * size_of t ->
  rep (8 * size_of t) z r ->
  rep 64 (bf_get t o w z) (if is_unsigned t then wrap (r * 2 ^ (64 - w - o)) / 2 ^ (64 - w) else wrap (sgn (wrap (r * 2 ^ (64 - w - o))) / 2 ^ (64 - w))).
Proof.
  intros R NB O W B P. assert (S64 : 8 * size_of t <= 64) by (destruct t; cbn in R |- *; try discriminate; lia).
  pose proof (div_pow_eqm _ o w r z O ltac:(lia) B P) as D.
  rewrite field_unsigned, field_signed by lia. unfold bf_get, bf_signed. rewrite R.
  assert (U : is_unsigned t = negb s) by (destruct t as [| |[]|[]|[]|[]| | | | | | | | | |]; cbn in R, NB |- *; try discriminate; inversion R; reflexivity).
  rewrite U. destruct s; cbn [negb].
  - apply rep_wrap; [lia|]. rewrite sx_mod by lia. rewrite (sx_cong w (r / 2 ^ o) (z / 2 ^ o)); [apply rep_refl|exact D|lia].
  - rewrite D. apply rep_refl.
Qed.

(** ** Writing a bit-field *)
Lemma ones_pow w : 0 <= w -> 2 ^ w - 1 = Z.ones w. Proof. intros. now rewrite Z.ones_equiv. Qed.
Lemma bf_put_bits o w z v : 0 <= o -> 0 <= w ->
  bf_put o w z v = Z.lor (Z.land z (Z.lnot ((2 ^ w - 1) * 2 ^ o))) ((v mod 2 ^ w) * 2 ^ o).
Proof.
  intros O W. unfold bf_put. rewrite ones_pow by lia.
  assert (TM : forall x i, Z.testbit (x * 2 ^ o) i = (o <=? i) && Z.testbit x (i - o)).
  { intros x i. destruct (Z_lt_le_dec i 0); [rewrite Z.testbit_neg_r by lia; rewrite Z.testbit_neg_r by lia; now rewrite andb_false_r|].
    rewrite <- Z.shiftl_mul_pow2 by lia. rewrite Z.shiftl_spec by lia. destruct (Z.leb_spec o i); cbn; auto. apply Z.testbit_neg_r. lia. }
  set (M := Z.ones w * 2 ^ o).
  assert (E1 : (z / 2 ^ o) mod 2 ^ w * 2 ^ o = Z.land z M).
  { apply Z.bits_inj'. intros i Hi. rewrite Z.land_spec, TM. unfold M. rewrite TM, testbit_mod_pow2 by lia.
    destruct (Z.leb_spec o i); cbn; [|now rewrite andb_false_r]. rewrite Z.div_pow2_bits by lia. replace (i - o + o) with i by lia.
    rewrite Z.testbit_ones_nonneg by lia. apply andb_comm. }
  assert (E2 : z - Z.land z M = Z.land z (Z.lnot M)).
  { rewrite <- Z.ldiff_land. rewrite Z.sub_nocarry_ldiff.
    - apply Z.bits_inj'. intros i Hi. rewrite !Z.ldiff_spec, Z.land_spec. now destruct (Z.testbit z i), (Z.testbit M i).
    - apply Z.bits_inj'. intros i Hi. rewrite Z.ldiff_spec, Z.land_spec, Z.bits_0. now destruct (Z.testbit z i), (Z.testbit M i). }
  rewrite E1, E2. set (D := (v mod 2 ^ w) * 2 ^ o).
  assert (E3 : Z.land (Z.land z (Z.lnot M)) D = 0).
  { apply Z.bits_inj'. intros i Hi. rewrite !Z.land_spec, Z.lnot_spec, Z.bits_0 by lia. unfold M, D. rewrite !TM, testbit_mod_pow2 by lia.
    destruct (Z.leb_spec o i); cbn; [|now rewrite andb_false_r]. rewrite Z.testbit_ones_nonneg by lia.
    destruct (i - o <? w); cbn; now rewrite ?andb_false_r. }
  rewrite Z.add_nocarry_lxor by auto. now apply Z.lxor_lor.
Qed.
(** the merged register *)
Lemma bf_merge_reg o w n z v rz rv b : 0 <= o -> 0 < w < 64 -> o + w <= n -> n <= 64 -> w <= b -> rep n z rz -> rep b v rv ->
  rep n (bf_put o w z v)
    (Z.lor (Z.land rz (wrap (Z.lnot ((2 ^ w - 1) * 2 ^ o)))) (wrap (Z.land rv (wrap (2 ^ w - 1)) * 2 ^ o))).
Proof.
  intros O W B N WB PZ PV. rewrite bf_put_bits by lia.
  assert (X : rep n (Z.land z (Z.lnot ((2 ^ w - 1) * 2 ^ o))) (Z.land rz (wrap (Z.lnot ((2 ^ w - 1) * 2 ^ o))))).
  { apply eqm_land; [lia|exact PZ|]. apply rep_wrap; [lia|apply rep_refl]. }
  apply eqm_lor; [lia|exact X|]. apply rep_wrap; [lia|].
  assert (Y : Z.land rv (wrap (2 ^ w - 1)) = v mod 2 ^ w).
  { assert (wrap (2 ^ w - 1) = Z.ones w) as ->.
    { unfold wrap. rewrite mod_id; [now apply ones_pow; lia|]. pose proof (pow_pos w ltac:(lia)). pose proof (pow_le w 64 ltac:(lia)). lia. }
    rewrite Z.land_ones by lia. apply (rep_le w b); [lia|exact PV]. }
  rewrite Y. apply rep_refl.
Qed.

(** ** Casts *)
Definition trunc_reg (s : bool) (n x : Z) : Z := if s then wrap (sgn (wrap (x * 2 ^ (64 - n))) / 2 ^ (64 - n)) else wrap (x * 2 ^ (64 - n)) / 2 ^ (64 - n).
Definition trunc_code (s : bool) (n : Z) : list instr := [ISlli A0 A0 (64 - n); if s then ISrai A0 A0 (64 - n) else ISrli A0 A0 (64 - n)].
Lemma cast_matrix_spec f t : is_float f = false -> is_float t = false -> t <> TVoid -> t <> TBool ->
  cast f t = emit (if truncates f t then trunc_code (fst (reg_class t)) (snd (reg_class t)) else []).
Proof.
  intros F T NV NB.
  destruct f as [| |[]|[]|[]|[]| | | | | | | | | |]; try discriminate F;
  destruct t as [| |[]|[]|[]|[]| | | | | | | | | |]; try discriminate T; try congruence; reflexivity.
Qed.
Lemma trunc_reg_ok s n x : 0 < n <= 64 -> trunc_reg s n x = if s then wrap (sx n x) else x mod 2 ^ n.
Proof.
  intros N. unfold trunc_reg. destruct s.
  - rewrite (sll_sra x n) by lia. reflexivity.
  - apply (sll_srl x n); lia.
Qed.
Lemma truncates_repr f t : truncates f t = true -> int_repr t = Some (reg_class t) /\ 0 < snd (reg_class t) < 64.
Proof. unfold truncates. destruct t; cbn; destruct (reg_class f); try discriminate; auto; intros; split; auto; lia. Qed.
Definition cast_reg (f t : ty) (x : Z) : Z :=
  match t with
  | TVoid => x
  | TBool => b2z (0 <? x)
  | _ => if truncates f t then trunc_reg (fst (reg_class t)) (snd (reg_class t)) x else x
  end.
Lemma range_sub_id p s n x : range_sub p (s, n) = true -> 0 < snd p <= 64 -> 0 < n -> in_range (fst p) (snd p) x = true ->
  (if s then sx n x else x mod 2 ^ n) = x.
Proof.
  destruct p as [s0 n0]. cbn [fst snd]. unfold range_sub. intros S N0 N I. apply in_range_true in I; [|lia].
  destruct s, s0; cbn in S.
  - rewrite orb_false_r in S. apply sx_id; [lia|]. pose proof (pow_le (n0 - 1) (n - 1) ltac:(lia)). lia.
  - apply sx_id; [lia|]. pose proof (pow_le n0 (n - 1) ltac:(lia)). lia.
  - discriminate.
  - rewrite orb_false_r in S. apply mod_id. pose proof (pow_le n0 n ltac:(lia)). lia.
Qed.
Definition val_in (f : ty) (x : Z) : Prop := in_range (fst (repr_or_addr f)) (snd (repr_or_addr f)) x = true.
Lemma repr_or_addr_width f : 0 < snd (repr_or_addr f) <= 64.
Proof. unfold repr_or_addr. destruct (int_repr f) as [(s, n)|] eqn:R; cbn; [apply (int_repr_width _ _ _ R)|lia]. Qed.
Lemma val_in_zero f x r : val_in f x -> 0 <= r < 2 ^ 64 -> rep 64 x r -> (r =? 0) = (x =? 0).
Proof.
  unfold val_in. intros V B P. pose proof (repr_or_addr_width f) as W. destruct (repr_or_addr f) as [s n]. cbn [fst snd] in *.
  apply in_range_true in V; [|lia]. destruct (Z.eqb_spec x 0) as [->|NX].
  - rewrite (rep_full 0 r B P). reflexivity.
  - apply Z.eqb_neq. intros ->. destruct s.
    + assert (E : sgn 0 = x) by (apply (full_small x 0); auto; pose proof (pow_le (n - 1) 63 ltac:(lia)); lia).
      unfold sgn in E. rewrite sx_id in E; lia.
    + assert (E : 0 = x); [|lia]. rewrite (rep_full x 0 B P). apply mod_id. pose proof (pow_le n 64 ltac:(lia)). lia.
Qed.
Lemma cast_ok f t w x v r : convertible f t = true -> conv t x = Some v -> (t <> TVoid -> val_in f x) -> 0 <= w <= 64 -> rep w x r -> 0 <= r < 2 ^ 64 ->
  rep (cast_qual f t w) v (cast_reg f t r) /\ 0 <= cast_qual f t w <= 64 /\ 0 <= cast_reg f t r < 2 ^ 64.
Proof.
  intros C V VX W P RX.
  assert (Int : forall s' n', int_repr t = Some (s', n') -> v = (if s' then sx n' x else x mod 2 ^ n') ->
    let q := if truncates f t then (if n' <=? w then 64 else w) else if range_sub (repr_or_addr f) (s', n') then w else Z.min w n' in
    let r' := if truncates f t then trunc_reg (fst (reg_class t)) (snd (reg_class t)) r else r in
    rep q v r' /\ 0 <= q <= 64 /\ 0 <= r' < 2 ^ 64).
  { intros s' n' R V'. pose proof (int_repr_width _ _ _ R) as N. assert (VX' : val_in f x) by (apply VX; intros ->; discriminate). destruct (truncates f t) eqn:T.
    - destruct (truncates_repr _ _ T) as [R' N']. assert (E : reg_class t = (s', n')) by congruence. rewrite E in *. cbn [fst snd] in *.
      rewrite trunc_reg_ok by lia. cbv zeta. destruct (n' <=? w) eqn:L.
      + assert (PN : rep n' x r) by (eapply rep_le; [|exact P]; lia). split; [|split; [lia|]].
        * destruct s'; subst v.
          -- apply rep_wrap; [lia|]. rewrite (sx_cong n' r x PN) by lia. apply rep_refl.
          -- rewrite PN. apply rep_refl.
        * destruct s'; [apply RvProofs.wrap_rng|]. pose proof (mod_pow_range n' r ltac:(lia)). pose proof (pow_le n' 64 ltac:(lia)). lia.
      + split; [|split; [lia|]].
        * destruct s'; subst v.
          -- apply rep_wrap; [lia|]. unfold rep. rewrite !mod_sx by lia. exact P.
          -- unfold rep. rewrite !mod_mod_le by lia. exact P.
        * destruct s'; [apply RvProofs.wrap_rng|]. pose proof (mod_pow_range n' r ltac:(lia)). pose proof (pow_le n' 64 ltac:(lia)). lia.
    - cbv zeta. destruct (range_sub (repr_or_addr f) (s', n')) eqn:S.
      + split; [|lia]. rewrite V', (range_sub_id _ _ _ _ S (repr_or_addr_width f) ltac:(lia) VX'). exact P.
      + split; [|lia]. assert (PN : rep (Z.min w n') x r) by (eapply rep_le; [|exact P]; lia).
        apply rep_trans with x; auto. subst v. unfold rep. destruct s'; [rewrite mod_sx by lia|rewrite mod_mod_le by lia]; reflexivity. }
  destruct t; cbn [conv] in V; cbn [cast_qual cast_reg];
    try (now (apply Int; [reflexivity|inversion V; reflexivity])); try discriminate;
    try (inversion V; subst v; split; [assumption|split; assumption]).
  - inversion V. subst v. split; [unfold rep; now rewrite Z.pow_0_r, !Z.mod_1_r|]. split; [lia|auto].
  - split; [|split; [destruct (w =? 64); lia|apply b2z_rng]]. destruct (w =? 64) eqn:E; [|unfold rep; now rewrite Z.pow_0_r, !Z.mod_1_r].
    assert (w = 64) by lia. subst w. pose proof (val_in_zero f x r (VX ltac:(discriminate)) RX P) as Z0.
    assert (v = b2z (0 <? r)); [|subst; apply rep_b2z].
    inversion V. rewrite <- Z0. destruct (Z.eqb_spec r 0); destruct (Z.ltb_spec 0 r); try reflexivity; lia.
  - replace (truncates f (TStruct id sz al)) with false by (unfold truncates; now destruct (reg_class f)).
    inversion V. subst v. split; [assumption|split; assumption].
  - replace (truncates f (TUnion id sz al)) with false by (unfold truncates; now destruct (reg_class f)).
    inversion V. subst v. split; [assumption|split; assumption].
Qed.

(** ** Memory *)
Lemma le_load_ext m1 m2 a n : (forall i, 0 <= i < Z.of_nat n -> m1 (a + i) mod 256 = m2 (a + i) mod 256) -> le_load m1 a n = le_load m2 a n.
Proof.
  revert a; induction n as [|n IH]; intros a H; cbn [le_load]; auto.
  f_equal; [specialize (H 0 ltac:(lia)); now rewrite !Z.add_0_r in H|]. f_equal. apply IH. intros i Hi.
  replace (a + 1 + i) with (a + (i + 1)) by lia. apply H. lia.
Qed.
Lemma accessible_spec valid a n : accessible valid a n = true -> 0 <= a /\ a + n <= 2 ^ 64 /\ forall i, 0 <= i < n -> valid (a + i) = true.
Proof.
  unfold accessible. intros H. apply andb_true_iff in H as [H1 H2]. rewrite forallb_forall in H2. split; [lia|split; [lia|]].
  intros i Hi. specialize (H2 (Z.to_nat i)). rewrite Z2Nat.id in H2 by lia. apply H2. apply in_seq. lia.
Qed.
Lemma pow256 i : 0 <= i -> 256 ^ i = 2 ^ (8 * i).
Proof. intros. change 256 with (2 ^ 8). now rewrite <- Z.pow_mul_r by lia. Qed.
Lemma store_byte v i : 0 <= i -> (v / 256 ^ i) mod 256 = (v / 2 ^ (8 * i)) mod 2 ^ 8.
Proof. intros. now rewrite pow256 by lia. Qed.
Lemma le_store_agree m ms a n v r x : rep (8 * n) v r -> ms x = m x -> le_store ms a n r x = le_store m a n v x.
Proof.
  intros P E. unfold le_store. destruct ((a <=? x) && (x <? a + n)) eqn:C; auto.
  rewrite !store_byte by lia. apply (div_pow_eqm (8 * n)); auto; lia.
Qed.
Lemma le_load_bytes m a n z : (forall i, 0 <= i < Z.of_nat n -> m (a + i) mod 256 = (z / 256 ^ i) mod 256) -> le_load m a n = z mod 2 ^ (8 * Z.of_nat n).
Proof.
  revert a z; induction n as [|n IH]; intros a z H; cbn [le_load].
  - cbn. now rewrite Z.mod_1_r.
  - rewrite (IH (a + 1) (z / 256)).
    + specialize (H 0 ltac:(lia)). rewrite Z.add_0_r in H. rewrite H. rewrite Z.pow_0_r, Z.div_1_r.
      replace (8 * Z.of_nat (S n)) with (8 + 8 * Z.of_nat n) by lia. rewrite Z.pow_add_r by lia. change (2 ^ 8) with 256.
      rewrite Z.rem_mul_r by (try apply Z.pow_nonzero; lia). lia.
    + intros i Hi. replace (a + 1 + i) with (a + (i + 1)) by lia. rewrite H by lia. f_equal. rewrite Z.pow_add_r, Z.mul_comm by lia.
      rewrite Z.div_div by (try apply Z.pow_nonzero; try apply Z.pow_pos_nonneg; lia). now rewrite Z.pow_1_r.
Qed.
Lemma le_load_store m a n v : 0 <= n -> le_load (le_store m a n v) a (Z.to_nat n) = v mod 2 ^ (8 * n).
Proof.
  intros N. replace (8 * n) with (8 * Z.of_nat (Z.to_nat n)) by lia. apply le_load_bytes. intros i Hi. unfold le_store.
  replace ((a <=? a + i) && (a + i <? a + n)) with true by lia. replace (a + i - a) with i by lia. apply Zmod_mod.
Qed.
Lemma le_store_out m a n v x : x < a \/ a + n <= x -> le_store m a n v x = m x.
Proof. intros H. unfold le_store. replace ((a <=? x) && (x <? a + n)) with false by lia. reflexivity. Qed.

(** the register after a load *)
Definition load_reg (t : ty) (z : Z) : Z :=
  if access_size t =? 8 then wrap (sx (8 * 8) z) else if is_unsigned t then z else wrap (sx (8 * access_size t) z).
Lemma scalar_access t p : int_repr t = Some p -> access_size t = size_of t /\ 0 < size_of t <= 8.
Proof. destruct t; cbn; intros; try discriminate; split; auto; lia. Qed.
Lemma load_reg_ok t v z : 0 <= z < 2 ^ (8 * size_of t) -> of_bytes t z = Some v -> rep 64 v (load_reg t z).
Proof.
  intros B. unfold load_reg, of_bytes.
  destruct t as [| |[]|[]|[]|[]| | | | | | | | | |]; cbn [int_repr size_of negb] in *; try discriminate;
    try (intros E; assert (v = sx _ z) by (inversion E; reflexivity); subst v; cbn -[sx wrap rep]; apply rep_wrap; [lia|]; apply rep_refl);
    try (intros E; assert (v = z mod 2 ^ _) by (inversion E; reflexivity); subst v; cbn -[sx wrap rep Z.pow Z.modulo]; rewrite mod_id by exact B; apply rep_refl).
  - destruct (z <? 2) eqn:L; [|discriminate]. intros E. assert (v = z) by congruence. subst v. cbn -[sx wrap rep]. apply rep_wrap; [lia|].
    rewrite sx_id; [apply rep_refl|lia|]. change (2 ^ (8 - 1)) with 128. lia.
  - intros E. assert (v = z mod 2 ^ 64) by congruence. subst v. cbn -[sx wrap rep Z.pow Z.modulo]. rewrite mod_id by exact B.
    apply rep_wrap; [lia|]. apply rep_sx; lia.
  - intros E. assert (v = z mod 2 ^ 64) by congruence. subst v. cbn -[sx wrap rep Z.pow Z.modulo]. rewrite mod_id by exact B.
    apply rep_wrap; [lia|]. apply rep_sx; lia.
Qed.
Lemma load_reg_low t p z : int_repr t = Some p -> rep (8 * size_of t) z (load_reg t z).
Proof.
  intros R. unfold load_reg. destruct (scalar_access t p R) as [-> S]. destruct (size_of t =? 8) eqn:E8.
  - replace (size_of t) with 8 by lia. apply rep_wrap; [lia|]. apply rep_sx; lia.
  - destruct (is_unsigned t); [apply rep_refl|]. apply rep_wrap; [lia|]. apply rep_sx; lia.
Qed.
