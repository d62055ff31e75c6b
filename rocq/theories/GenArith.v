(** Arithmetic of single instructions against the arithmetic of C. *)
From Verif Require Import Base TypeModel IntArith NodeModel NodeProofs ValSpec NodeSpec EvalProofs RvSpec GenModel GenSpec.
From Coq Require Import ZifyBool ZifyNat.

Lemma rep_refl w v : rep w v v. Proof. apply eqm_refl. Qed.
Lemma rep_le w k v r : 0 <= w <= k -> rep k v r -> rep w v r. Proof. intros. eapply eqm_le; eauto. Qed.
Lemma rep_wrap w v z : 0 <= w <= 64 -> rep w v z -> rep w v (wrap z).
Proof. intros. unfold rep, wrap. rewrite mod_mod_le by lia. auto. Qed.
Lemma rep_full v r : 0 <= r < 2 ^ 64 -> rep 64 v r -> r = v mod 2 ^ 64.
Proof. intros B R. red in R. rewrite <- R. symmetry. now apply mod_id. Qed.
Lemma rep_trans w a b c : rep w b a -> rep w c b -> rep w c a. Proof. unfold rep. congruence. Qed.
Lemma wrap_range z : 0 <= wrap z < 2 ^ 64. Proof. apply mod_pow_range. lia. Qed.
Lemma rep_sx w n z : 0 <= w <= n -> 0 < n -> rep w z (sx n z). Proof. intros. unfold rep. now apply mod_sx. Qed.

Lemma val_of_range t s n x : int_repr t = Some (s, n) -> val_of t x = true ->
  0 < n <= 64 /\ (if s then - 2 ^ (n - 1) <= x < 2 ^ (n - 1) else 0 <= x < 2 ^ n).
Proof.
  intros R V. pose proof (int_repr_width _ _ _ R). unfold val_of in V. rewrite R in V.
  apply in_range_true in V; [|lia]. destruct s; lia.
Qed.
Lemma pow_le a b : 0 <= a <= b -> 2 ^ a <= 2 ^ b. Proof. intros. apply Z.pow_le_mono_r; lia. Qed.
(** A register that is right in all bits, read as the machine reads it *)
Lemma full_signed t n x r : int_repr t = Some (true, n) -> val_of t x = true -> rep 64 x r -> sgn r = x.
Proof.
  intros R V P. destruct (val_of_range _ _ _ _ R V) as [B X]. unfold sgn. apply sx_unique; [lia|exact P|].
  pose proof (pow_le (n - 1) 63 ltac:(lia)). change (64 - 1) with 63. lia.
Qed.
Lemma full_unsigned t n x r : 0 <= r < 2 ^ 64 -> int_repr t = Some (false, n) -> val_of t x = true -> rep 64 x r -> r = x.
Proof.
  intros Br R V P. destruct (val_of_range _ _ _ _ R V) as [B X]. rewrite (rep_full x r Br P). apply mod_id.
  pose proof (pow_le n 64 ltac:(lia)). lia.
Qed.
(** small values read as signed numbers *)
Lemma full_small x r : - 2 ^ 63 <= x < 2 ^ 63 -> rep 64 x r -> sgn r = x.
Proof. intros B P. unfold sgn. apply sx_unique; [lia|exact P|lia]. Qed.
Lemma w_signed t n x r k : 32 <= k <= 64 -> int_repr t = Some (true, n) -> n <= 32 -> val_of t x = true -> rep k x r -> sgn32 r = x.
Proof.
  intros K R N V P. destruct (val_of_range _ _ _ _ R V) as [B X]. unfold sgn32. apply sx_unique; [lia|eapply rep_le; [|exact P]; lia|].
  pose proof (pow_le (n - 1) 31 ltac:(lia)). change (32 - 1) with 31. lia.
Qed.
Lemma w_unsigned t n x r k : 32 <= k <= 64 -> int_repr t = Some (false, n) -> n <= 32 -> val_of t x = true -> rep k x r -> uns32 r = x.
Proof.
  intros K R N V P. destruct (val_of_range _ _ _ _ R V) as [B X]. unfold uns32.
  pose proof (rep_le 32 k x r ltac:(lia) P) as Q. red in Q. rewrite Q. apply mod_id. pose proof (pow_le n 32 ltac:(lia)). lia.
Qed.

(** ** Additive and multiplicative operators *)
Lemma fit_cases t s n z v : int_repr t = Some (s, n) -> fit t z = Some v ->
  if s then v = z /\ - 2 ^ (n - 1) <= z < 2 ^ (n - 1) else v = z mod 2 ^ n.
Proof.
  intros R F. pose proof (int_repr_width _ _ _ R). unfold fit in F. rewrite R in F. destruct s.
  - destruct (in_range true n z) eqn:X; [|discriminate]. apply in_range_true in X; [|lia]. split; [congruence|auto].
  - congruence.
Qed.
Lemma fit_rep t s n z v k : int_repr t = Some (s, n) -> fit t z = Some v -> 0 <= k -> (s = false -> k <= n) -> rep k v z.
Proof.
  intros R F K S. pose proof (fit_cases _ _ _ _ _ R F) as C. pose proof (int_repr_width _ _ _ R). destruct s.
  - destruct C as [-> _]. apply rep_refl.
  - subst v. unfold rep. symmetry. apply mod_mod_le. auto.
Qed.
(** 32-bit result, sign-extended *)
Lemma w_result t s n z z' v k : int_repr t = Some (s, n) -> n <= 32 -> fit t z = Some v -> 0 <= k <= 64 -> rep k z z' ->
  rep (if 32 <=? k then (if s then 64 else n) else Z.min k (if s then k else n)) v (wrap (sgn32 z')).
Proof.
  intros R N F K P. pose proof (int_repr_width _ _ _ R) as Wd.
  destruct (32 <=? k) eqn:K32.
  - assert (P32 : rep 32 z z') by (eapply rep_le; [|exact P]; lia).
    pose proof (fit_cases _ _ _ _ _ R F) as C. destruct s.
    + destruct C as [-> B]. apply rep_wrap; [lia|]. replace (sgn32 z') with z; [apply rep_refl|].
      symmetry. unfold sgn32. apply sx_unique; [lia|exact P32|]. pose proof (pow_le (n - 1) 31 ltac:(lia)). change (32 - 1) with 31. lia.
    + apply rep_wrap; [lia|]. apply rep_trans with z'; [apply rep_sx; lia|]. apply rep_trans with z; [eapply rep_le; [|exact P32]; lia|].
      apply (fit_rep _ _ _ _ _ _ R F); lia.
  - set (j := Z.min k (if s then k else n)). assert (0 <= j <= k) by (unfold j; destruct s; lia).
    apply rep_wrap; [lia|]. apply rep_trans with z'; [apply rep_sx; lia|].
    apply rep_trans with z; [eapply rep_le; [|exact P]; lia|]. apply (fit_rep _ _ _ _ _ _ R F); [lia|].
    intros ->. unfold j. lia.
Qed.

(** ** Division *)
Lemma quot_w t n x y v : int_repr t = Some (true, n) -> val_of t x = true -> val_of t y = true -> (y =? 0) = false ->
  fit t (Z.quot x y) = Some v -> rdiv x y = v.
Proof. intros R VX VY Y F. unfold rdiv. rewrite Y. destruct (fit_cases _ _ _ _ _ R F) as [-> _]. reflexivity. Qed.
Lemma unsigned_div t n x y : int_repr t = Some (false, n) -> val_of t x = true -> val_of t y = true -> (y =? 0) = false ->
  fit t (Z.quot x y) = Some (x / y) /\ fit t (Z.rem x y) = Some (x mod y) /\ 0 <= x / y < 2 ^ n /\ 0 <= x mod y < 2 ^ n.
Proof.
  intros R VX VY Y. destruct (val_of_range _ _ _ _ R VX) as [B X]. destruct (val_of_range _ _ _ _ R VY) as [_ Y'].
  rewrite Z.quot_div_nonneg, Z.rem_mod_nonneg by lia.
  assert (Q : 0 <= x / y < 2 ^ n).
  { split; [apply Z.div_pos; lia|]. apply Z.le_lt_trans with x; [|lia]. apply Z.div_le_upper_bound; [lia|].
    assert (1 * x <= y * x) by (apply Z.mul_le_mono_nonneg_r; lia). lia. }
  assert (M : 0 <= x mod y < 2 ^ n) by (pose proof (Z.mod_pos_bound x y ltac:(lia)); lia).
  unfold fit. rewrite R. rewrite !mod_id by lia. auto.
Qed.
Lemma rem_fits t n x y v : int_repr t = Some (true, n) -> val_of t x = true -> (y =? 0) = false -> fit t (Z.rem x y) = Some v -> rrem x y = v.
Proof. intros R VX Y F. unfold rrem. rewrite Y. destruct (fit_cases _ _ _ _ _ R F) as [-> _]. reflexivity. Qed.

(** ** Shift counts *)
Lemma count_mod b y ry c : 8 <= b <= 64 -> rep b y ry -> 0 <= y < 2 ^ c -> 0 <= c <= 8 -> ry mod 2 ^ c = y.
Proof.
  intros B P Y C. pose proof (rep_le c b y ry ltac:(lia) P) as Q. red in Q. rewrite Q. now apply mod_id.
Qed.
Lemma eqm_mul_pow k a b y : 0 <= k -> rep k b a -> rep k (b * 2 ^ y) (a * 2 ^ y).
Proof. intros. apply eqm_mul; auto. apply eqm_refl. Qed.

Lemma bit_fit (f : Z -> Z -> Z) t s n x y v :
  (forall n a b, 0 <= n -> 0 <= a < 2 ^ n -> 0 <= b < 2 ^ n -> 0 <= f a b < 2 ^ n) ->
  int_repr t = Some (s, n) -> val_of t x = true -> val_of t y = true -> fit t (f x y) = Some v -> v = f x y.
Proof.
  intros RG R VX VY F. pose proof (fit_cases _ _ _ _ _ R F) as C.
  destruct (val_of_range _ _ _ _ R VX) as [B X]. destruct (val_of_range _ _ _ _ R VY) as [_ Y].
  destruct s; [intuition|]. subst v. apply mod_id. apply RG; lia.
Qed.

(** ** The register after a binary operator *)
Definition bin_reg (o : bop) (t tl : ty) (x y : Z) : Z :=
  let op a aw := exec_op (if is64 tl then a else aw) x y in
  match o with
  | Add => op ADD ADDW
  | Sub => op SUB SUBW
  | Mul => op MUL MULW
  | Div => if is_unsigned t then op DIVU DIVUW else op DIV DIVW
  | Mod => if is_unsigned t then op REMU REMUW else op REM REMW
  | And => Z.land x y
  | Or => Z.lor x y
  | Xor => Z.lxor x y
  | Eq => b2z (Z.lxor x y <? 1)
  | Ne => b2z (0 <? Z.lxor x y)
  | Lt => exec_op (if is_unsigned tl then SLTU else SLT) x y
  | Le => b2z (exec_op (if is_unsigned t then SLTU else SLT) y x <? 1)
  | Shl => op SLL SLLW
  | Shr => if is_unsigned t then op SRL SRLW else op SRA SRAW
  end.
Definition bin_typed (o : bop) (t tl tr : ty) : Prop :=
  match o with
  | Eq | Ne | Lt | Le => same_repr tl tr = true /\ same_repr t (TInt false) = true
  | Shl | Shr => same_repr t tl = true /\ int_repr tr <> None
  | Sub => (same_repr t tl = true /\ same_repr t tr = true) \/ same_repr t (TLong false) = true
  | _ => same_repr t tl = true /\ same_repr t tr = true
  end.

Lemma rep_min a b k x y rx ry : 0 <= k -> k <= a -> k <= b -> rep a x rx -> rep b y ry -> rep k x rx /\ rep k y ry.
Proof. intros. split; [apply rep_le with a|apply rep_le with b]; auto; lia. Qed.
Lemma ring_ok (f : Z -> Z -> Z) t s n tl a b x y rx ry v q (o ow : rop) :
  (forall k p r p' r', 0 <= k -> eqm k p r -> eqm k p' r' -> eqm k (f p p') (f r r')) ->
  (forall p r, exec_op o p r = wrap (f p r)) -> (forall p r, exec_op ow p r = wrap (sgn32 (f p r))) ->
  int_repr t = Some (s, n) ->
  (if is64 tl then (if n =? 64 then Some (Z.min a b) else None)
   else if n =? 32 then Some (if (32 <=? a) && (32 <=? b) then (if s then 64 else 32) else Z.min a b) else None) = Some q ->
  0 <= a <= 64 -> 0 <= b <= 64 -> rep a x rx -> rep b y ry -> fit t (f x y) = Some v ->
  rep q v (exec_op (if is64 tl then o else ow) rx ry).
Proof.
  intros HF HO HW R Q Ba Bb PX PY F. 
  destruct (rep_min a b (Z.min a b) x y rx ry ltac:(lia) ltac:(lia) ltac:(lia) PX PY) as [P1 P2].
  assert (P : rep (Z.min a b) (f x y) (f rx ry)) by (apply HF; [lia|exact P1|exact P2]).
  destruct (is64 tl).
  - rewrite HO. destruct (n =? 64) eqn:N; [|discriminate]. assert (q = Z.min a b) by congruence. subst q.
    apply rep_wrap; [lia|]. apply rep_trans with (f x y); auto. apply (fit_rep _ _ _ _ _ _ R F); lia.
  - rewrite HW. destruct (n =? 32) eqn:N; [|discriminate]. assert (N' : n = 32) by lia. subst n.
    pose proof (w_result _ _ _ _ _ _ (Z.min a b) R ltac:(lia) F ltac:(lia) P) as X.
    assert (E : q = if (32 <=? a) && (32 <=? b) then (if s then 64 else 32) else Z.min a b) by congruence. rewrite E. clear - X.
    destruct ((32 <=? a) && (32 <=? b)) eqn:C.
    + replace (32 <=? Z.min a b) with true in X by lia. exact X.
    + replace (32 <=? Z.min a b) with false in X by lia.
      assert (Z.min (Z.min a b) (if s then Z.min a b else 32) = Z.min a b) by (destruct s; lia). now rewrite H in X.
Qed.

Lemma is64_repr t : is64 t = true -> int_repr t <> None -> exists s, int_repr t = Some (s, 64) /\ is_unsigned t = negb s.
Proof. destruct t as [| | | | |[]| | | | | | | | | |]; cbn; intros; try discriminate; try congruence; eauto. Qed.
Lemma repr64_unsigned t s : int_repr t = Some (s, 64) -> is_unsigned t = negb s.
Proof. destruct t as [| |[]|[]|[]|[]| | | | | | | | | |]; cbn; intros E; inversion E; reflexivity. Qed.
Lemma not64_repr t s n : is64 t = false -> int_repr t = Some (s, n) -> n <= 32.
Proof. destruct t; cbn; intros X E; inversion E; try discriminate; lia. Qed.

Lemma div_ok t s n tl x y a b v rx ry : int_repr t = Some (s, n) -> is_unsigned t = negb s -> val_of t x = true -> val_of t y = true ->
  0 <= a <= 64 -> 0 <= b <= 64 -> rep a x rx -> rep b y ry -> 0 <= rx < 2 ^ 64 -> 0 <= ry < 2 ^ 64 ->
  (if is64 tl then a = 64 /\ b = 64 /\ n = 64 else 32 <= a /\ 32 <= b /\ n = 32) ->
  bin_val Div t x y = Some v -> rep (if is64 tl then 64 else if s then 64 else 32) v (bin_reg Div t tl rx ry).
Proof.
  intros R U VX VY Ba Bb PX PY RX RY C. cbn [bin_val bin_reg]. destruct (y =? 0) eqn:Y0; [discriminate|]. intros F. rewrite U.
  destruct s; cbn [negb].
  - destruct (fit_cases _ _ _ _ _ R F) as [-> B]. destruct (is64 tl).
    + destruct C as (-> & -> & ->). cbn [exec_op]. rewrite (full_signed _ _ _ _ R VX PX), (full_signed _ _ _ _ R VY PY).
      unfold rdiv. rewrite Y0. apply rep_wrap; [lia|]. apply rep_refl.
    + destruct C as (A32 & B32 & ->). cbn [exec_op].
      rewrite (w_signed _ _ _ _ a ltac:(lia) R ltac:(lia) VX PX), (w_signed _ _ _ _ b ltac:(lia) R ltac:(lia) VY PY).
      unfold rdiv. rewrite Y0. pose proof (w_result _ _ _ _ _ _ 64 R ltac:(lia) F ltac:(lia) (rep_refl _ _)) as X. exact X.
  - destruct (unsigned_div _ _ _ _ R VX VY Y0) as (F1 & _ & B & _). assert (E : v = x / y) by congruence.
    destruct (is64 tl).
    + destruct C as (-> & -> & ->). cbn [exec_op]. rewrite (full_unsigned _ _ _ _ RX R VX PX), (full_unsigned _ _ _ _ RY R VY PY).
      unfold rdiv. rewrite Y0. destruct (val_of_range _ _ _ _ R VX) as [_ X]. destruct (val_of_range _ _ _ _ R VY) as [_ Y].
      rewrite Z.quot_div_nonneg by lia. subst v. apply rep_wrap; [lia|apply rep_refl].
    + destruct C as (A32 & B32 & ->). cbn [exec_op].
      rewrite (w_unsigned _ _ _ _ a ltac:(lia) R ltac:(lia) VX PX), (w_unsigned _ _ _ _ b ltac:(lia) R ltac:(lia) VY PY).
      unfold rdiv. rewrite Y0. exact (w_result _ _ _ _ _ _ 64 R ltac:(lia) F ltac:(lia) (rep_refl _ _)).
Qed.
Lemma mod_ok t s n tl x y a b v rx ry : int_repr t = Some (s, n) -> is_unsigned t = negb s -> val_of t x = true -> val_of t y = true ->
  0 <= a <= 64 -> 0 <= b <= 64 -> rep a x rx -> rep b y ry -> 0 <= rx < 2 ^ 64 -> 0 <= ry < 2 ^ 64 ->
  (if is64 tl then a = 64 /\ b = 64 /\ n = 64 else 32 <= a /\ 32 <= b /\ n = 32) ->
  bin_val Mod t x y = Some v -> rep (if is64 tl then 64 else if s then 64 else 32) v (bin_reg Mod t tl rx ry).
Proof.
  intros R U VX VY Ba Bb PX PY RX RY C. cbn [bin_val bin_reg]. destruct (y =? 0) eqn:Y0; [discriminate|].
  destruct (fit t (Z.quot x y)) as [v0|]; [|discriminate]. intros F. rewrite U.
  destruct s; cbn [negb].
  - destruct (fit_cases _ _ _ _ _ R F) as [-> B]. destruct (is64 tl).
    + destruct C as (-> & -> & ->). cbn [exec_op]. rewrite (full_signed _ _ _ _ R VX PX), (full_signed _ _ _ _ R VY PY).
      unfold rrem. rewrite Y0. apply rep_wrap; [lia|]. apply rep_refl.
    + destruct C as (A32 & B32 & ->). cbn [exec_op].
      rewrite (w_signed _ _ _ _ a ltac:(lia) R ltac:(lia) VX PX), (w_signed _ _ _ _ b ltac:(lia) R ltac:(lia) VY PY).
      unfold rrem. rewrite Y0. pose proof (w_result _ _ _ _ _ _ 64 R ltac:(lia) F ltac:(lia) (rep_refl _ _)) as X. exact X.
  - destruct (unsigned_div _ _ _ _ R VX VY Y0) as (_ & F1 & _ & B). assert (E : v = x mod y) by congruence.
    destruct (is64 tl).
    + destruct C as (-> & -> & ->). cbn [exec_op]. rewrite (full_unsigned _ _ _ _ RX R VX PX), (full_unsigned _ _ _ _ RY R VY PY).
      unfold rrem. rewrite Y0. destruct (val_of_range _ _ _ _ R VX) as [_ X]. destruct (val_of_range _ _ _ _ R VY) as [_ Y].
      rewrite Z.rem_mod_nonneg by lia. subst v. apply rep_wrap; [lia|apply rep_refl].
    + destruct C as (A32 & B32 & ->). cbn [exec_op].
      rewrite (w_unsigned _ _ _ _ a ltac:(lia) R ltac:(lia) VX PX), (w_unsigned _ _ _ _ b ltac:(lia) R ltac:(lia) VY PY).
      unfold rrem. rewrite Y0. exact (w_result _ _ _ _ _ _ 64 R ltac:(lia) F ltac:(lia) (rep_refl _ _)).
Qed.

(** ** Comparisons *)
Lemma full_eq t x y rx ry : int_repr t <> None -> val_of t x = true -> val_of t y = true ->
  0 <= rx < 2 ^ 64 -> 0 <= ry < 2 ^ 64 -> rep 64 x rx -> rep 64 y ry -> (rx =? ry) = (x =? y).
Proof.
  intros R VX VY BX BY PX PY. destruct (int_repr t) as [(s, n)|] eqn:I; [|congruence]. destruct s.
  - pose proof (full_signed _ _ _ _ I VX PX). pose proof (full_signed _ _ _ _ I VY PY).
    destruct (Z.eqb_spec rx ry), (Z.eqb_spec x y); auto; try congruence.
    exfalso. apply n0. rewrite (rep_full x rx BX PX), (rep_full y ry BY PY). congruence.
  - pose proof (full_unsigned _ _ _ _ BX I VX PX). pose proof (full_unsigned _ _ _ _ BY I VY PY). now subst.
Qed.
Lemma full_lt t x y rx ry : int_repr t <> None -> val_of t x = true -> val_of t y = true ->
  0 <= rx < 2 ^ 64 -> 0 <= ry < 2 ^ 64 -> rep 64 x rx -> rep 64 y ry ->
  exec_op (if is_unsigned t then SLTU else SLT) rx ry = b2z (x <? y).
Proof.
  intros R VX VY BX BY PX PY. destruct (int_repr t) as [(s, n)|] eqn:I; [|congruence].
  destruct (is_unsigned t) eqn:U.
  - assert (s = false) by (destruct t; cbn in *; try discriminate; subst; cbn in I; congruence). subst s. cbn [exec_op].
    now rewrite (full_unsigned _ _ _ _ BX I VX PX), (full_unsigned _ _ _ _ BY I VY PY).
  - cbn [exec_op]. destruct s.
    + now rewrite (full_signed _ _ _ _ I VX PX), (full_signed _ _ _ _ I VY PY).
    + assert (n <> 64) by (intros ->; apply repr64_unsigned in I; rewrite U in I; discriminate).
      destruct (val_of_range _ _ _ _ I VX) as [B X]. destruct (val_of_range _ _ _ _ I VY) as [_ Y].
      pose proof (pow_le n 63 ltac:(lia)). rewrite (full_small x), (full_small y); auto; lia.
Qed.
Lemma full_slt t x y rx ry : int_repr t <> None -> int_repr t <> Some (false, 64) -> val_of t x = true -> val_of t y = true ->
  rep 64 x rx -> rep 64 y ry -> exec_op SLT rx ry = b2z (x <? y).
Proof.
  intros R N VX VY PX PY. assert (S : small t) by (destruct (repr_cases t R); auto; contradiction).
  destruct (small_id _ _ S VX) as [_ X]. destruct (small_id _ _ S VY) as [_ Y].
  cbn [exec_op]. now rewrite (full_small x), (full_small y).
Qed.
Lemma lxor_small a b : 0 <= a < 2 ^ 64 -> 0 <= b < 2 ^ 64 -> 0 <= Z.lxor a b < 2 ^ 64 /\ (Z.lxor a b =? 0) = (a =? b).
Proof.
  intros A B. split; [apply lxor_range; lia|]. destruct (Z.eqb_spec a b) as [->|N].
  - now rewrite Z.lxor_nilpotent.
  - destruct (Z.eqb_spec (Z.lxor a b) 0); auto. now apply Z.lxor_eq in e.
Qed.
Lemma rep_b2z w b : rep w (b2z b) (b2z b). Proof. apply rep_refl. Qed.

(** ** Shifts *)
Lemma div_pow_small x y n : 0 <= y -> 0 <= x < 2 ^ n -> 0 <= x / 2 ^ y < 2 ^ n.
Proof.
  intros Y X. pose proof (pow_pos y Y). split; [apply Z.div_pos; lia|]. apply Z.le_lt_trans with x; [|lia].
  apply Z.div_le_upper_bound; [lia|]. assert (1 * x <= 2 ^ y * x) by (apply Z.mul_le_mono_nonneg_r; lia). lia.
Qed.
Lemma shl_ok t s n tl x y a b v rx ry q : int_repr t = Some (s, n) -> int_repr tl = Some (s, n) -> val_of t x = true ->
  0 <= a <= 64 -> 0 <= b <= 64 -> rep a x rx -> rep b y ry ->
  bin_qual Shl t tl a b = Some q -> bin_val Shl t x y = Some v -> rep q v (bin_reg Shl t tl rx ry).
Proof.
  intros R RL VX Ba Bb PX PY. unfold bin_qual. cbn [bin_val bin_reg]. rewrite R. intros Q H.
  destruct ((0 <=? y) && (y <? n) && (negb s || (0 <=? x))) eqn:C; [|discriminate].
  assert (Y : 0 <= y < n) by lia. clear C. pose proof (int_repr_width _ _ _ R) as Wd.
  destruct (b <? 8) eqn:B8; [discriminate|]. destruct (is64 tl) eqn:I.
  - assert (q = a) by congruence. subst q. destruct (is64_repr tl I ltac:(congruence)) as (s' & E & _).
    assert (s' = s /\ n = 64) as [-> ->] by (split; congruence). cbn [exec_op].
    assert (CM : ry mod 64 = y) by (change 64 with (2 ^ 6); apply (count_mod b); auto; change (2 ^ 6) with 64; lia).
    rewrite CM. apply rep_wrap; [lia|].
    apply rep_trans with (x * 2 ^ y); [now apply eqm_mul_pow|]. apply (fit_rep _ _ _ _ _ _ R H); lia.
  - destruct (n <=? 32) eqn:N; [|discriminate]. cbn [exec_op].
    assert (CM : ry mod 32 = y) by (change 32 with (2 ^ 5); apply (count_mod b); auto; change (2 ^ 5) with 32; lia).
    rewrite CM.
    assert (P : rep a (x * 2 ^ y) (rx * 2 ^ y)) by (apply eqm_mul_pow; auto; lia).
    pose proof (w_result _ _ _ _ _ _ a R ltac:(lia) H ltac:(lia) P) as X.
    assert (E : q = if 32 <=? a then (if s then 64 else n) else Z.min a n) by congruence. rewrite E. clear - X Ba Wd.
    destruct (32 <=? a); auto. eapply rep_le; [|exact X]. destruct s; lia.
Qed.
Lemma shr_ok t s n tl x y a b v rx ry q : int_repr t = Some (s, n) -> int_repr tl = Some (s, n) -> val_of t x = true ->
  0 <= a <= 64 -> 0 <= b <= 64 -> rep a x rx -> rep b y ry -> 0 <= rx < 2 ^ 64 ->
  bin_qual Shr t tl a b = Some q -> bin_val Shr t x y = Some v -> rep q v (bin_reg Shr t tl rx ry).
Proof.
  intros R RL VX Ba Bb PX PY RX. unfold bin_qual. cbn [bin_val bin_reg]. rewrite R. intros Q H.
  destruct ((0 <=? y) && (y <? n)) eqn:C; [|discriminate].
  assert (Y : 0 <= y < n) by lia. clear C. pose proof (int_repr_width _ _ _ R) as Wd.
  destruct (b <? 8) eqn:B8; [discriminate|]. pose proof (val_of_range _ _ _ _ R VX) as [_ X].
  assert (V : v = x / 2 ^ y).
  { pose proof (fit_cases _ _ _ _ _ R H) as F. destruct s; [now destruct F|]. rewrite F. apply mod_id. apply div_pow_small; lia. }
  destruct (is64 tl) eqn:I.
  - destruct ((a =? 64) && (n =? 64)) eqn:C; [|discriminate]. assert (a = 64 /\ n = 64) as [-> ->] by lia. clear C.
    assert (q = 64) by congruence. subst q. rewrite (repr64_unsigned t s R).
    assert (CM : ry mod 64 = y) by (change 64 with (2 ^ 6); apply (count_mod b); auto; change (2 ^ 6) with 64; lia).
    destruct s; cbn [negb exec_op]; rewrite CM.
    + rewrite (full_signed _ _ _ _ R VX PX). apply rep_wrap; [lia|]. subst v. apply rep_refl.
    + rewrite (full_unsigned _ _ _ _ RX R VX PX). subst v. apply rep_refl.
  - destruct ((32 <=? a) && (n <=? 32)) eqn:C; [|discriminate]. assert (32 <= a /\ n <= 32) as [A32 N32] by lia. clear C.
    assert (CM : ry mod 32 = y) by (change 32 with (2 ^ 5); apply (count_mod b); auto; change (2 ^ 5) with 32; lia).
    assert (E : q = if s || (n <? 32) then 64 else 32) by congruence. rewrite E. clear E Q.
    destruct (is_unsigned t) eqn:U; cbn [exec_op]; rewrite CM.
    + assert (s = false) by (destruct t; cbn in U, R; try discriminate; subst; cbn in R; congruence). subst s. cbn [orb].
      rewrite (w_unsigned _ _ _ _ a ltac:(lia) R N32 VX PX). subst v. pose proof (div_pow_small x y n ltac:(lia) X) as D.
      apply rep_wrap; [destruct (n <? 32); lia|]. destruct (n <? 32) eqn:N; [|apply rep_sx; lia].
      unfold sgn32. rewrite sx_id; [apply rep_refl|lia|]. pose proof (pow_le n 31 ltac:(lia)). change (32 - 1) with 31. lia.
    + assert (S32 : sgn32 rx = x).
      { destruct s; [now apply (w_signed t n x rx a); auto; lia|].
        assert (n <> 32) by (destruct t as [| |[]|[]|[]|[]| | | | | | | | | |]; cbn in R, U; try discriminate; inversion R; lia).
        unfold sgn32. apply sx_unique; [lia|eapply rep_le; [|exact PX]; lia|].
        pose proof (pow_le n 31 ltac:(lia)). change (32 - 1) with 31. lia. }
      rewrite S32. subst v. apply rep_wrap; [destruct s, (n <? 32); cbn; lia|apply rep_refl].
Qed.

Lemma bin_qual_range o t tl a b q : bin_qual o t tl a b = Some q -> 0 <= a <= 64 -> 0 <= b <= 64 -> 0 <= q <= 64.
Proof.
  unfold bin_qual. destruct (int_repr t) as [(s, n)|] eqn:R; [|discriminate]. pose proof (int_repr_width _ _ _ R). intros Q Ba Bb.
  destruct o;
  repeat match type of Q with
  | (if ?c then _ else _) = _ => destruct c
  | match ?c with _ => _ end = _ => destruct c
  | Some ?e = Some _ => assert (e = q) by congruence; clear Q; subst q
  end; try discriminate;
  repeat match goal with |- context [if ?c then _ else _] => destruct c end; clear - Ba Bb H; lia.
Qed.
Theorem bin_ok o t tl tr a b q x y rx ry v : bin_qual o t tl a b = Some q -> 0 <= a <= 64 -> 0 <= b <= 64 ->
  bin_typed o t tl tr -> (int_repr tl <> None -> val_of tl x = true) -> (int_repr tr <> None -> val_of tr y = true) ->
  rep a x rx -> rep b y ry -> 0 <= rx < 2 ^ 64 -> 0 <= ry < 2 ^ 64 ->
  bin_val o (match o with Eq | Ne | Lt | Le => tl | _ => t end) x y = Some v -> rep q v (bin_reg o t tl rx ry).
Proof.
  intros Q Ba Bb T VX VY PX PY RX RY H.
  assert (RT : exists s n, int_repr t = Some (s, n)) by (unfold bin_qual in Q; destruct (int_repr t) as [(s, n)|]; [eauto|discriminate]).
  destruct RT as (s & n & R).
  assert (ST : forall u, same_repr t u = true -> int_repr u = Some (s, n)).
  { intros u E. apply same_repr_eq in E as (p & E1 & E2). congruence. }
  assert (VT : forall u z, same_repr t u = true -> (int_repr u <> None -> val_of u z = true) -> val_of t z = true).
  { intros u z E V. rewrite (same_repr_val _ _ z E). apply V. rewrite (ST u E). congruence. }
  destruct o; cbn [bin_typed] in T.
  - unfold bin_qual in Q. rewrite R in Q. apply (ring_ok Z.add t s n tl a b x y); auto. intros; now apply eqm_add.
  - unfold bin_qual in Q. rewrite R in Q. apply (ring_ok Z.sub t s n tl a b x y); auto. intros; now apply eqm_sub.
  - unfold bin_qual in Q. rewrite R in Q. apply (ring_ok Z.mul t s n tl a b x y); auto. intros; now apply eqm_mul.
  - destruct T as [T1 T2]. unfold bin_qual in Q. rewrite R in Q. destruct (negb (Bool.eqb (is_unsigned t) (negb s))) eqn:U; [discriminate|].
    assert (U' : is_unsigned t = negb s) by (destruct (is_unsigned t), s; cbn in U |- *; congruence).
    pose proof (div_ok t s n tl x y a b v rx ry R U' (VT _ _ T1 VX) (VT _ _ T2 VY) Ba Bb PX PY RX RY) as D.
    destruct (is64 tl).
    + destruct ((a =? 64) && (b =? 64) && (n =? 64)) eqn:C; [|discriminate]. assert (q = 64) by congruence. subst q. apply D; auto. lia.
    + destruct ((32 <=? a) && (32 <=? b) && (n =? 32)) eqn:C; [|discriminate].
      assert (E : q = if s then 64 else 32) by congruence. rewrite E. apply D; auto. lia.
  - destruct T as [T1 T2]. unfold bin_qual in Q. rewrite R in Q. destruct (negb (Bool.eqb (is_unsigned t) (negb s))) eqn:U; [discriminate|].
    assert (U' : is_unsigned t = negb s) by (destruct (is_unsigned t), s; cbn in U |- *; congruence).
    pose proof (mod_ok t s n tl x y a b v rx ry R U' (VT _ _ T1 VX) (VT _ _ T2 VY) Ba Bb PX PY RX RY) as D.
    destruct (is64 tl).
    + destruct ((a =? 64) && (b =? 64) && (n =? 64)) eqn:C; [|discriminate]. assert (q = 64) by congruence. subst q. apply D; auto. lia.
    + destruct ((32 <=? a) && (32 <=? b) && (n =? 32)) eqn:C; [|discriminate].
      assert (E : q = if s then 64 else 32) by congruence. rewrite E. apply D; auto. lia.
  - destruct T as [T1 T2]. unfold bin_qual in Q. rewrite R in Q. assert (q = Z.min a b) by congruence. subst q. cbn [bin_reg bin_val] in *.
    rewrite (bit_fit Z.land _ _ _ _ _ _ land_range R (VT _ _ T1 VX) (VT _ _ T2 VY) H).
    destruct (rep_min a b (Z.min a b) x y rx ry ltac:(lia) ltac:(lia) ltac:(lia) PX PY) as [P1 P2]. apply eqm_land; auto; lia.
  - destruct T as [T1 T2]. unfold bin_qual in Q. rewrite R in Q. assert (q = Z.min a b) by congruence. subst q. cbn [bin_reg bin_val] in *.
    rewrite (bit_fit Z.lor _ _ _ _ _ _ lor_range R (VT _ _ T1 VX) (VT _ _ T2 VY) H).
    destruct (rep_min a b (Z.min a b) x y rx ry ltac:(lia) ltac:(lia) ltac:(lia) PX PY) as [P1 P2]. apply eqm_lor; auto; lia.
  - destruct T as [T1 T2]. unfold bin_qual in Q. rewrite R in Q. assert (q = Z.min a b) by congruence. subst q. cbn [bin_reg bin_val] in *.
    rewrite (bit_fit Z.lxor _ _ _ _ _ _ lxor_range R (VT _ _ T1 VX) (VT _ _ T2 VY) H).
    destruct (rep_min a b (Z.min a b) x y rx ry ltac:(lia) ltac:(lia) ltac:(lia) PX PY) as [P1 P2]. apply eqm_lxor; auto; lia.
  - destruct T as [T1 T2]. unfold bin_qual in Q. rewrite R in Q. destruct ((a =? 64) && (b =? 64)) eqn:C; [|discriminate].
    assert (a = 64 /\ b = 64) as [-> ->] by lia. assert (q = 64) by congruence. subst q. cbn [bin_val bin_reg] in *.
    apply same_repr_eq in T1 as (p & E1 & E2).
    assert (VY' : val_of tl y = true) by (rewrite (same_repr_val tl tr y); [apply VY; congruence|]; unfold same_repr; rewrite E1, E2; destruct p as [[] ?]; cbn; apply Z.eqb_refl).
    destruct (lxor_small rx ry RX RY) as [L1 L2]. rewrite (full_eq tl x y rx ry) in L2; auto; try congruence; [|apply VX; congruence].
    replace (Z.lxor rx ry <? 1) with (x =? y) by (rewrite <- L2; lia). assert (v = b2z (x =? y)) by congruence. subst v. apply rep_b2z.
  - destruct T as [T1 T2]. unfold bin_qual in Q. rewrite R in Q. destruct ((a =? 64) && (b =? 64)) eqn:C; [|discriminate].
    assert (a = 64 /\ b = 64) as [-> ->] by lia. assert (q = 64) by congruence. subst q. cbn [bin_val bin_reg] in *.
    apply same_repr_eq in T1 as (p & E1 & E2).
    assert (VY' : val_of tl y = true) by (rewrite (same_repr_val tl tr y); [apply VY; congruence|]; unfold same_repr; rewrite E1, E2; destruct p as [[] ?]; cbn; apply Z.eqb_refl).
    destruct (lxor_small rx ry RX RY) as [L1 L2]. rewrite (full_eq tl x y rx ry) in L2; auto; try congruence; [|apply VX; congruence].
    replace (0 <? Z.lxor rx ry) with (negb (x =? y)) by (rewrite <- L2; lia). assert (v = b2z (negb (x =? y))) by congruence. subst v. apply rep_b2z.
  - destruct T as [T1 T2]. unfold bin_qual in Q. rewrite R in Q. destruct ((a =? 64) && (b =? 64)) eqn:C; [|discriminate].
    assert (a = 64 /\ b = 64) as [-> ->] by lia. assert (q = 64) by congruence. subst q. cbn [bin_val bin_reg] in *.
    apply same_repr_eq in T1 as (p & E1 & E2).
    assert (VY' : val_of tl y = true) by (rewrite (same_repr_val tl tr y); [apply VY; congruence|]; unfold same_repr; rewrite E1, E2; destruct p as [[] ?]; cbn; apply Z.eqb_refl).
    assert (VX' : val_of tl x = true) by (apply VX; congruence).
    rewrite (full_lt tl x y rx ry); auto; congruence.
  - destruct T as [T1 T2]. unfold bin_qual in Q. rewrite R in Q. assert (NU : int_repr tl <> Some (false, 64)).
    { intros E. rewrite E in Q. discriminate. }
    assert (Q' : (if (a =? 64) && (b =? 64) then Some 64 else None) = Some q).
    { destruct (int_repr tl) as [([], w)|]; auto. destruct (Z.eq_dec w 64) as [->|N]; [now contradiction NU|].
      destruct w as [|w|]; auto. repeat (destruct w as [w|w|]; auto). now contradiction N. }
    destruct ((a =? 64) && (b =? 64)) eqn:C; [|discriminate].
    assert (a = 64 /\ b = 64) as [-> ->] by lia. assert (q = 64) by congruence. subst q. cbn [bin_val bin_reg] in *.
    apply same_repr_eq in T1 as (p & E1 & E2).
    assert (VY' : val_of tl y = true) by (rewrite (same_repr_val tl tr y); [apply VY; congruence|]; unfold same_repr; rewrite E1, E2; destruct p as [[] ?]; cbn; apply Z.eqb_refl).
    assert (VX' : val_of tl x = true) by (apply VX; congruence).
    assert (UT : is_unsigned t = false).
    { apply same_repr_eq in T2 as (p' & E3 & E4). cbn in E4. rewrite <- E4 in E3. destruct t as [| |[]|[]|[]|[]| | | | | | | | | |]; cbn in E3 |- *; congruence. }
    rewrite UT, (full_slt tl y x ry rx); auto; try congruence. assert (v = b2z (x <=? y)) by congruence. subst v.
    replace (b2z (b2z (y <? x) <? 1)) with (b2z (x <=? y)); [apply rep_b2z|]. clear. destruct (Z.ltb_spec y x), (Z.leb_spec x y); try reflexivity; lia.
  - destruct T as [T1 T2]. apply (shl_ok t s n tl x y a b); auto. exact (VT _ _ T1 VX).
  - destruct T as [T1 T2]. apply (shr_ok t s n tl x y a b); auto. exact (VT _ _ T1 VX).
Qed.
