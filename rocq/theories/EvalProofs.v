From Verif Require Import Base TypeModel IntArith NodeModel ValSpec NodeSpec NodeProofs EvalModel EvalSpec.
From Coq Require Import ZifyBool.

Definition small (t : ty) : Prop := exists s n, int_repr t = Some (s, n) /\ (n < 64 \/ s = true).
Lemma repr_cases t : int_repr t <> None -> small t \/ int_repr t = Some (false, 64).
Proof.
  unfold small. intros H. destruct (int_repr t) as [(s, n)|] eqn:R; [|congruence]. pose proof (int_repr_width _ _ _ R).
  destruct s; [left; exists true, n; auto|]. destruct (Z.eq_dec n 64) as [->|N]; [auto|]. left. exists false, n. split; auto. left. lia.
Qed.
Lemma small_id t x : small t -> val_of t x = true -> sx 64 x = x /\ - 2 ^ 63 <= x < 2 ^ 63.
Proof.
  intros (s & n & R & H) V. pose proof (int_repr_width _ _ _ R). unfold val_of in V. rewrite R in V.
  apply in_range_true in V; [|lia].
  assert (B : - 2 ^ 63 <= x < 2 ^ 63).
  { destruct s.
    - pose proof (Z.pow_le_mono_r 2 (n - 1) 63 ltac:(lia) ltac:(lia)). lia.
    - destruct H; [|discriminate]. pose proof (Z.pow_le_mono_r 2 n 63 ltac:(lia) ltac:(lia)). lia. }
  split; [apply sx_id; lia|exact B].
Qed.
Lemma u64_sx x : 0 <= x < 2 ^ 64 -> u64 (sx 64 x) = x.
Proof. intros. unfold u64. rewrite mod_sx by lia. now apply mod_id. Qed.
Lemma u64_id x : 0 <= x < 2 ^ 64 -> u64 x = x.
Proof. intros. now apply mod_id. Qed.
Lemma ulong_range t x : int_repr t = Some (false, 64) -> val_of t x = true -> 0 <= x < 2 ^ 64.
Proof. unfold val_of. intros -> V. apply in_range_true in V; lia. Qed.

Lemma chk64_ok z l : - 2 ^ 63 <= z < 2 ^ 63 -> chk64 z l = EOk z l.
Proof. intros. unfold chk64. destruct ((- 2 ^ 63 <=? z) && (z <? 2 ^ 63)) eqn:E; auto. lia. Qed.
Lemma chk64_cases z l : chk64 z l = EUb \/ (chk64 z l = EOk z l /\ - 2 ^ 63 <= z < 2 ^ 63).
Proof. unfold chk64. destruct ((- 2 ^ 63 <=? z) && (z <? 2 ^ 63)) eqn:E; auto. right. split; auto. lia. Qed.

Lemma sx_land a b : Z.land (sx 64 a) (sx 64 b) = sx 64 (Z.land a b).
Proof.
  symmetry. apply sx_unique; [lia| |apply land_srange; try lia; apply sx_range; lia].
  apply eqm_land; [lia| |]; apply eqm_sym, sx_eqm; lia.
Qed.
Lemma sx_lor a b : Z.lor (sx 64 a) (sx 64 b) = sx 64 (Z.lor a b).
Proof.
  symmetry. apply sx_unique; [lia| |apply lor_srange; try lia; apply sx_range; lia].
  apply eqm_lor; [lia| |]; apply eqm_sym, sx_eqm; lia.
Qed.
Lemma sx_lxor a b : Z.lxor (sx 64 a) (sx 64 b) = sx 64 (Z.lxor a b).
Proof.
  symmetry. apply sx_unique; [lia| |apply lxor_srange; try lia; apply sx_range; lia].
  apply eqm_lxor; [lia| |]; apply eqm_sym, sx_eqm; lia.
Qed.

(** [fit]: the value is congruent to the exact result, and equal to it for signed types *)
Lemma fit_eqm t z v s n : int_repr t = Some (s, n) -> fit t z = Some v -> eqm n v z.
Proof.
  unfold fit. intros ->. destruct s.
  - destruct in_range; [|discriminate]. intros H; inv H. apply eqm_refl.
  - intros H; inv H. apply eqm_mod.
Qed.
Lemma fit_signed t z v n : int_repr t = Some (true, n) -> fit t z = Some v -> v = z.
Proof. unfold fit. intros ->. destruct in_range; [|discriminate]. congruence. Qed.
Lemma fit_in t z s n : int_repr t = Some (s, n) -> in_range s n z = true -> fit t z = Some z.
Proof.
  intros R H. pose proof (int_repr_width _ _ _ R). unfold fit. rewrite R. destruct s; [now rewrite H|].
  apply in_range_true in H; [|lia]. now rewrite mod_id by lia.
Qed.

(** Results of ring operations at a wide type *)
Lemma wide_repr t : wide t = true -> exists s, (int_repr t = Some (s, 64) \/ (int_repr t = Some (s, 32) /\ is_uint t = negb s)).
Proof. destruct t; cbn; try discriminate; intros _; try destruct u; cbn; eauto 6. Qed.
Lemma wide_uint t : wide t = true -> is_uint t = true -> int_repr t = Some (false, 32).
Proof. now destruct t as [| | | |[]| | | | | | | | | | |]. Qed.
Lemma wide_not_uint t : wide t = true -> is_uint t = false -> int_repr t = Some (true, 32) \/ int_repr t = Some (true, 64) \/ int_repr t = Some (false, 64).
Proof. destruct t as [| | | |[]|[]| | | | | | | | | |]; cbn; auto; discriminate. Qed.

Definition ub_or (e : eres) (g : grade) (v : Z) : Prop := e = EUb \/ exists r, e = EOk r None /\ agrees g v r.

Lemma ring_ok t z z' v : wide t = true -> eqm 64 z' z -> (is_uint t = false -> int_repr t <> Some (false, 64) -> z' = z) -> fit t z = Some v ->
  ub_or (chk64 z' None) (if is_uint t then Low else Full) v.
Proof.
  intros W Q S F. destruct (chk64_cases z' None) as [->|[-> R]]; [left; reflexivity|right; eexists; split; [reflexivity|]].
  destruct (is_uint t) eqn:U; cbn [agrees].
  - apply wide_uint in U; auto. pose proof (fit_eqm _ _ _ _ _ U F) as X.
    apply eqm_trans with z; [eapply eqm_le; [|exact Q]; lia|now apply eqm_sym].
  - destruct (wide_not_uint _ W U) as [X|[X|X]].
    + assert (v = z) by (eapply fit_signed; eauto). rewrite S by (auto; congruence). subst v.
      symmetry. apply sx_id; [lia|]. rewrite <- S by (auto; congruence). exact R.
    + assert (v = z) by (eapply fit_signed; eauto). rewrite S by (auto; congruence). subst v.
      symmetry. apply sx_id; [lia|]. rewrite <- S by (auto; congruence). exact R.
    + pose proof (fit_eqm _ _ _ _ _ X F) as Y. symmetry. apply sx_unique; [lia| |exact R].
      eapply eqm_trans; [exact Y|]. now apply eqm_sym.
Qed.

Lemma sx_eqm64 x : eqm 64 (sx 64 x) x. Proof. apply sx_eqm. lia. Qed.

Lemma wide_some t : wide t = true -> int_repr t <> None.
Proof. destruct t; cbn; congruence. Qed.
Lemma agrees_full_of v r : r = sx 64 v -> agrees Full v r. Proof. auto. Qed.

Lemma small_of t s n : int_repr t = Some (s, n) -> (n < 64 \/ s = true) -> small t.
Proof. unfold small. eauto. Qed.

Lemma quot_range n x y : 0 < n -> - 2 ^ (n - 1) <= x < 2 ^ (n - 1) -> y <> 0 -> - 2 ^ (n - 1) <= Z.quot x y <= 2 ^ (n - 1).
Proof.
  intros Hn Hx Hy. assert (A : Z.abs (Z.quot x y) <= Z.abs x).
  { rewrite <- Z.quot_abs by lia. rewrite Z.quot_div_nonneg by lia. pose proof (Z.div_le_upper_bound (Z.abs x) (Z.abs y) (Z.abs x) ltac:(lia) ltac:(nia)). lia. }
  lia.
Qed.
Lemma rem_range n x y : 0 < n -> - 2 ^ (n - 1) <= x < 2 ^ (n - 1) -> y <> 0 -> - 2 ^ (n - 1) <= Z.rem x y < 2 ^ (n - 1).
Proof.
  intros Hn Hx Hy. assert (A : Z.abs (Z.rem x y) <= Z.abs x).
  { rewrite <- Z.rem_abs by lia. rewrite Z.rem_mod_nonneg by lia. apply Z.mod_le; lia. }
  assert (B: x < 0 -> Z.rem x y <= 0) by (intros; apply Z.rem_nonpos; lia).
  assert (C: 0 <= x -> 0 <= Z.rem x y) by (intros; apply Z.rem_nonneg; lia).
  lia.
Qed.

(** Division and remainder *)
Lemma div_ok t tl x y v : wide t = true -> val_of t x = true -> val_of t y = true -> bin_val Div t x y = Some v ->
  ub_or (eval_bin Div t tl (sx 64 x) (sx 64 y) None) Full v.
Proof.
  cbn [bin_val eval_bin]. intros W VX VY H. destruct (y =? 0) eqn:Y0; [discriminate|].
  destruct (repr_cases t (wide_some _ W)) as [S|S].
  - destruct (small_id t x S VX) as [-> RX]. destruct (small_id t y S VY) as [-> RY]. rewrite Y0.
    destruct (is_unsigned t) eqn:U.
    + assert (X : int_repr t = Some (false, 32)).
      { destruct t as [| | | |[]|[]| | | | | | | | | |]; try discriminate; auto; destruct S as (s & n & S & [S1|S1]); cbn in S; inv S; try lia; try discriminate. }
      unfold val_of in *. rewrite X in *. apply in_range_true in VX; [|lia]. apply in_range_true in VY; [|lia].
      rewrite !u64_id by lia. right. eexists. split; [reflexivity|]. cbn.
      rewrite Z.quot_div_nonneg in H by lia. pose proof (Z.div_pos x y ltac:(lia) ltac:(lia)).
      pose proof (Z.div_le_upper_bound x y x ltac:(lia) ltac:(nia)).
      rewrite (fit_in _ _ _ _ X) in H; [congruence|]. apply in_range_true; lia.
    + assert (X : exists n, int_repr t = Some (true, n)) by (destruct t as [| | | |[]|[]| | | | | | | | | |]; try discriminate; cbn; eauto).
      destruct X as (n & X). pose proof (fit_signed _ _ _ _ X H) as ->.
      right. pose proof (fit_val _ _ _ H) as V. destruct (small_id t _ S V) as [Q1 Q2]. rewrite chk64_ok by exact Q2.
      eexists. split; [reflexivity|]. cbn. now rewrite Q1.
  - pose proof (ulong_range _ _ S VX). pose proof (ulong_range _ _ S VY).
    assert (U : is_unsigned t = true) by (destruct t as [| | | |[]|[]| | | | | | | | | |]; cbn in *; congruence). rewrite U.
    destruct (sx 64 y =? 0) eqn:Y1; [|].
    + exfalso. pose proof (u64_sx y ltac:(lia)) as Q. replace (sx 64 y) with 0 in Q by lia. change (u64 0) with 0 in Q. lia.
    + right. rewrite !u64_sx by lia. eexists. split; [reflexivity|]. cbn.
      rewrite Z.quot_div_nonneg in H by lia. pose proof (Z.div_pos x y ltac:(lia) ltac:(lia)).
      pose proof (Z.div_le_upper_bound x y x ltac:(lia) ltac:(nia)).
      rewrite (fit_in _ _ _ _ S) in H; [congruence|]. apply in_range_true; lia.
Qed.
Lemma mod_ok t tl x y v : wide t = true -> val_of t x = true -> val_of t y = true -> bin_val Mod t x y = Some v ->
  ub_or (eval_bin Mod t tl (sx 64 x) (sx 64 y) None) Full v.
Proof.
  cbn [bin_val eval_bin]. intros W VX VY H. destruct (y =? 0) eqn:Y0; [discriminate|].
  destruct (fit t (Z.quot x y)) as [q|] eqn:FQ; [|discriminate].
  destruct (repr_cases t (wide_some _ W)) as [S|S].
  - destruct (small_id t x S VX) as [-> RX]. destruct (small_id t y S VY) as [-> RY]. rewrite Y0.
    destruct (is_unsigned t) eqn:U.
    + assert (X : int_repr t = Some (false, 32)).
      { destruct t as [| | | |[]|[]| | | | | | | | | |]; try discriminate; auto; destruct S as (s & n & S & [S1|S1]); cbn in S; inv S; try lia; try discriminate. }
      unfold val_of in *. rewrite X in *. apply in_range_true in VX; [|lia]. apply in_range_true in VY; [|lia].
      rewrite !u64_id by lia. right. eexists. split; [reflexivity|]. cbn.
      rewrite Z.rem_mod_nonneg in H by lia. pose proof (Z.mod_pos_bound x y ltac:(lia)).
      rewrite (fit_in _ _ _ _ X) in H; [congruence|]. apply in_range_true; lia.
    + assert (X : exists n, int_repr t = Some (true, n)) by (destruct t as [| | | |[]|[]| | | | | | | | | |]; try discriminate; cbn; eauto).
      destruct X as (n & X). pose proof (fit_signed _ _ _ _ X H) as ->. pose proof (fit_signed _ _ _ _ X FQ) as ->.
      right. pose proof (fit_val _ _ _ H) as V. destruct (small_id t _ S V) as [Q1 Q2].
      pose proof (fit_val _ _ _ FQ) as V'. destruct (small_id t _ S V') as [Q1' Q2']. rewrite chk64_ok by exact Q2'.
      eexists. split; [reflexivity|]. cbn. now rewrite Q1.
  - pose proof (ulong_range _ _ S VX). pose proof (ulong_range _ _ S VY).
    assert (U : is_unsigned t = true) by (destruct t as [| | | |[]|[]| | | | | | | | | |]; cbn in *; congruence). rewrite U.
    destruct (sx 64 y =? 0) eqn:Y1; [|].
    + exfalso. pose proof (u64_sx y ltac:(lia)) as Q. replace (sx 64 y) with 0 in Q by lia. change (u64 0) with 0 in Q. lia.
    + right. rewrite !u64_sx by lia. eexists. split; [reflexivity|]. cbn.
      rewrite Z.rem_mod_nonneg in H by lia. pose proof (Z.mod_pos_bound x y ltac:(lia)).
      rewrite (fit_in _ _ _ _ S) in H; [congruence|]. apply in_range_true; lia.
Qed.

(** Shifts *)
Lemma int_small x : - 2 ^ 31 <= x < 2 ^ 31 -> sx 64 x = x. Proof. intros. apply sx_id; lia. Qed.
Lemma count_id y n : 0 <= y < n -> n <= 64 -> sx 64 y = y.
Proof. intros. apply sx_id; [lia|]. change (2 ^ (64 - 1)) with 9223372036854775808. lia. Qed.
Lemma shl_ok t tl x y v : wide t = true -> val_of t x = true -> bin_val Shl t x y = Some v ->
  ub_or (eval_bin Shl t tl (sx 64 x) (sx 64 y) None) (if is_uint t then Low else Full) v.
Proof.
  cbn [bin_val eval_bin]. intros W VX H.
  destruct (int_repr t) as [(s, n)|] eqn:R; [|discriminate]. pose proof (int_repr_width _ _ _ R).
  destruct ((0 <=? y) && (y <? n) && (negb s || (0 <=? x))) eqn:C; [|discriminate].
  assert (0 <= y < n) by lia. rewrite (count_id y n) by lia.
  destruct ((0 <=? y) && (y <? 64)) eqn:C2; [|lia]. right. eexists. split; [reflexivity|].
  assert (Q : eqm 64 (sx 64 x * 2 ^ y) (x * 2 ^ y)) by (apply eqm_mul; [lia|apply sx_eqm64|apply eqm_refl]).
  destruct (is_uint t) eqn:U; cbn [agrees].
  - apply wide_uint in U; auto. assert (s = false /\ n = 32) as [-> ->] by (split; congruence).
    pose proof (fit_eqm _ _ _ _ _ R H) as F. apply eqm_trans with (x * 2 ^ y); [|now apply eqm_sym].
    eapply eqm_le with 64; [lia|]. eapply eqm_trans; [apply sx_eqm64|exact Q].
  - destruct (wide_not_uint _ W U) as [X|[X|X]]; rewrite X in R; inv R.
    + pose proof (fit_signed _ _ _ _ X H) as ->. apply sx_cong; [exact Q|lia].
    + pose proof (fit_signed _ _ _ _ X H) as ->. apply sx_cong; [exact Q|lia].
    + pose proof (fit_eqm _ _ _ _ _ X H) as F. apply sx_cong; [|lia]. eapply eqm_trans; [exact Q|]. now apply eqm_sym.
Qed.
Lemma div_pow_range x y n : 0 <= y -> - 2 ^ n <= x < 2 ^ n -> 0 <= n -> - 2 ^ n <= x / 2 ^ y < 2 ^ n.
Proof.
  intros Hy Hx Hn. pose proof (pow_pos y Hy). pose proof (pow_pos n Hn). split.
  - apply Z.div_le_lower_bound; [lia|]. nia.
  - apply Z.div_lt_upper_bound; [lia|]. nia.
Qed.
Lemma shr_ok t tl x y v : wide t = true -> val_of t x = true -> bin_val Shr t x y = Some v ->
  ub_or (eval_bin Shr t tl (sx 64 x) (sx 64 y) None) Full v.
Proof.
  cbn [bin_val eval_bin]. intros W VX H.
  destruct (int_repr t) as [(s, n)|] eqn:R; [|discriminate]. pose proof (int_repr_width _ _ _ R).
  destruct ((0 <=? y) && (y <? n)) eqn:C; [|discriminate].
  assert (0 <= y < n) by lia. rewrite (count_id y n) by lia.
  destruct ((0 <=? y) && (y <? 64)) eqn:C2; [|lia].
  destruct (repr_cases t (wide_some _ W)) as [S|S].
  - destruct (small_id t x S VX) as [-> RX].
    assert (U : is_unsigned t && (size_of t =? 8) = false).
    { destruct S as (s' & n' & S & D). destruct t as [| | | |[]|[]| | | | | | | | | |]; try discriminate W; cbn in *; auto; inv S; destruct D; try lia; try discriminate. }
    rewrite U. right. eexists. split; [reflexivity|]. cbn.
    assert (fit t (x / 2 ^ y) = Some (x / 2 ^ y)).
    { apply (fit_in _ _ _ _ R). unfold val_of in VX. rewrite R in VX. apply in_range_true in VX; [|lia]. apply in_range_true; [lia|].
      destruct s.
      - apply div_pow_range; lia.
      - pose proof (pow_pos y ltac:(lia)). split; [apply Z.div_pos; lia|]. apply Z.div_lt_upper_bound; [lia|nia]. }
    assert (v = x / 2 ^ y) by congruence. subst v. symmetry. pose proof (fit_val _ _ _ H2) as V.
    now destruct (small_id t _ S V).
  - pose proof (ulong_range _ _ S VX). rewrite S in R. inv R.
    assert (U : is_unsigned t && (size_of t =? 8) = true) by (destruct t as [| | | |[]|[]| | | | | | | | | |]; try discriminate W; cbn in *; congruence).
    rewrite U, u64_sx by lia. right. eexists. split; [reflexivity|]. cbn.
    assert (v = x / 2 ^ y); [|subst; reflexivity]. pose proof (pow_pos y ltac:(lia)).
    rewrite (fit_in _ _ _ _ S) in H; [congruence|]. apply in_range_true; [lia|].
    split; [apply Z.div_pos; lia|]. apply Z.div_lt_upper_bound; [lia|nia].
Qed.

(** Comparisons *)
Lemma compare_ok o t t0 x y v : match o with Eq | Ne | Lt | Le => True | _ => False end ->
  wide t = true -> val_of t x = true -> val_of t y = true -> bin_val o t x y = Some v ->
  ub_or (eval_bin o t0 t (sx 64 x) (sx 64 y) None) Full v.
Proof.
  intros O W VX VY H.
  assert (INJ : sx 64 x = sx 64 y <-> x = y).
  { split; [|congruence]. intros Q. destruct (repr_cases t (wide_some _ W)) as [S|S].
    - destruct (small_id t x S VX) as [A _], (small_id t y S VY) as [B _]. congruence.
    - pose proof (ulong_range _ _ S VX) as A. pose proof (ulong_range _ _ S VY) as B.
      rewrite <- (u64_sx x A), <- (u64_sx y B). congruence. }
  assert (LT : (if is_unsigned t then u64 (sx 64 x) <? u64 (sx 64 y) else sx 64 x <? sx 64 y) = (x <? y)
            /\ (if is_unsigned t then u64 (sx 64 x) <=? u64 (sx 64 y) else sx 64 x <=? sx 64 y) = (x <=? y)).
  { destruct (repr_cases t (wide_some _ W)) as [S|S].
    - destruct (small_id t x S VX) as [-> A], (small_id t y S VY) as [-> B]. destruct (is_unsigned t) eqn:U; [|auto].
      assert (0 <= x /\ 0 <= y) as [P Q].
      { unfold val_of in *. destruct t as [| | | |[]|[]| | | | | | | | | |]; try discriminate; cbn [int_repr negb] in *;
          apply in_range_true in VX; try lia; apply in_range_true in VY; lia. }
      rewrite !u64_id by lia. auto.
    - pose proof (ulong_range _ _ S VX). pose proof (ulong_range _ _ S VY). rewrite !u64_sx by lia.
      assert (U : is_unsigned t = true) by (destruct t as [| | | |[]|[]| | | | | | | | | |]; cbn in *; congruence). now rewrite U. }
  assert (SB : forall b, sx 64 (b2z b) = zb b) by (intros []; reflexivity).
  destruct LT as [L1 L2].
  right. destruct o; try contradiction; cbn [bin_val eval_bin] in *; inv H; (eexists; split; [reflexivity|]); cbn [agrees]; rewrite SB.
  - f_equal. destruct (x =? y) eqn:E; destruct (sx 64 x =? sx 64 y) eqn:F; auto; exfalso; [apply Z.eqb_neq in F|apply Z.eqb_neq in E]; lia.
  - f_equal. f_equal. destruct (x =? y) eqn:E; destruct (sx 64 x =? sx 64 y) eqn:F; auto; exfalso; [apply Z.eqb_neq in F|apply Z.eqb_neq in E]; lia.
  - now rewrite L1.
  - now rewrite L2.
Qed.

(** Bitwise operators *)
Lemma bits_ok (f : Z -> Z -> Z) t x y rx ry v ga gb g :
  (forall a b, f (sx 64 a) (sx 64 b) = sx 64 (f a b)) ->
  (forall n a b c d, 0 <= n -> eqm n a b -> eqm n c d -> eqm n (f a c) (f b d)) ->
  (forall n a b, 0 <= n -> 0 <= a < 2 ^ n -> 0 <= b < 2 ^ n -> 0 <= f a b < 2 ^ n) ->
  wide t = true -> val_of t x = true -> val_of t y = true ->
  meet (Some ga) (Some gb) = Some g -> agrees ga x rx -> agrees gb y ry ->
  fit t (f x y) = Some v -> agrees g v (f rx ry).
Proof.
  intros SX CG RG W VX VY M AX AY F.
  assert (L : forall g z r, agrees g z r -> eqm 32 r z).
  { intros [] z r A; cbn in A; auto. subst. eapply eqm_le with 64; [lia|apply sx_eqm64]. }
  destruct (int_repr t) as [(s, n)|] eqn:R; [|now apply wide_some in W].
  pose proof (fit_eqm _ _ _ _ _ R F) as Q. pose proof (int_repr_width _ _ _ R).
  unfold val_of in VX, VY. rewrite R in VX, VY. apply in_range_true in VX; [|lia]. apply in_range_true in VY; [|lia].
  assert (V : v = f x y).
  { destruct s; [eapply fit_signed; eauto|]. rewrite (fit_in _ _ _ _ R) in F; [congruence|]. apply in_range_true; [lia|]. apply RG; lia. }
  subst v. destruct g; cbn.
  - destruct ga, gb; cbn in M; try discriminate. cbn in AX, AY. subst. apply SX.
  - apply CG; [lia|eauto|eauto].
Qed.

(** ** Conversions *)
Lemma cast_full t f x rx g gl v : convertible f t = true -> conv t x = Some v ->
  match t with
  | TChar _ | TShort _ | TInt _ | TEnum => g = Full
  | TLong _ | TPtr _ => gl = Full /\ g = Full
  | _ => False
  end -> agrees gl x rx -> agrees g v (eval_cast t rx).
Proof.
  intros C CV G A.
  assert (L : eqm 32 rx x) by (destruct gl; cbn in A; auto; subst; eapply eqm_le with 64; [lia|apply sx_eqm64]).
  assert (K : forall n, 0 < n <= 32 -> eqm n rx x) by (intros; eapply eqm_le; [|exact L]; lia).
  assert (B : forall n, 0 < n <= 32 -> sx 64 (sx n x) = sx n x).
  { intros n Hn. apply sx_id; [lia|]. pose proof (sx_range n x ltac:(lia)). pose proof (Z.pow_le_mono_r 2 (n - 1) 63 ltac:(lia) ltac:(lia)).
    change (2 ^ (64 - 1)) with (2 ^ 63). lia. }
  assert (B' : forall n, 0 < n <= 32 -> sx 64 (x mod 2 ^ n) = x mod 2 ^ n).
  { intros n Hn. apply sx_id; [lia|]. pose proof (mod_pow_range n x ltac:(lia)). pose proof (Z.pow_le_mono_r 2 n 63 ltac:(lia) ltac:(lia)).
    change (2 ^ (64 - 1)) with (2 ^ 63). lia. }
  destruct t; try contradiction; cbn [conv int_repr] in CV; inv CV; try subst g.
  - destruct u; cbn [negb agrees eval_cast is_integer size_of is_unsigned]; cbn; rewrite ?B, ?B' by lia; [apply K; lia|apply sx_cong; [apply K|]; lia].
  - destruct u; cbn [negb agrees eval_cast is_integer size_of is_unsigned]; cbn; rewrite ?B, ?B' by lia; [apply K; lia|apply sx_cong; [apply K|]; lia].
  - destruct u; cbn [negb agrees eval_cast is_integer size_of is_unsigned]; cbn; rewrite ?B, ?B' by lia; [apply K; lia|apply sx_cong; [apply K|]; lia].
  - destruct G as [-> ->]. cbn in A. subst rx. destruct u; cbn [negb agrees eval_cast is_integer size_of is_unsigned]; cbn.
    + now rewrite sx_mod by lia.
    + now rewrite sx_sx by lia.
  - cbn. rewrite B by lia. apply sx_cong; [apply K|]; lia.
  - destruct G as [-> ->]. cbn in A. subst rx. cbn. now rewrite sx_mod by lia.
Qed.

(** ** Whole expressions *)
Lemma grade_scalar n g : well_typed n = true -> grade_of n = Some g -> int_repr (ntype n) <> None.
Proof.
  revert g; induction n using node_induct; intros g W G; cbn [grade_of ntype] in *; try discriminate.
  - unfold val_of in G. destruct (int_repr t); [congruence|discriminate].
  - cbn [well_typed] in W. ands. eauto.
  - destruct (negb (convertible (ntype n) t)); [discriminate|]. destruct t; cbn; congruence.
  - cbn [well_typed] in W. ands. destruct (full (grade_of n1)); [|discriminate]. unfold meet in G.
    destruct (grade_of n2) as [g2|] eqn:G2; [|discriminate]. destruct (grade_of n3) as [g3|] eqn:G3; [|destruct g2; discriminate].
    pose proof (IHn2 _ H2 eq_refl) as X. pose proof (IHn3 _ H1 eq_refl) as Y.
    destruct (ntype n2); try (now contradiction X); destruct (ntype n3); try (now contradiction Y); cbn; congruence.
  - destruct (wide t) eqn:X; [|discriminate]. now apply wide_some.
  - destruct (wide (ntype n)) eqn:X; [|discriminate]. now apply wide_some.
  - cbn [well_typed] in W. ands.
    destruct o; try (destruct (wide t) eqn:X; [now apply wide_some|discriminate]);
      ands; match goal with S : same_repr t (TInt false) = true |- _ => apply same_repr_eq in S as (p & S & _); congruence end.
Qed.
Lemma scalar_not_float t : int_repr t <> None -> is_float t = false.
Proof. now destruct t. Qed.

Lemma full_some g : full g = true -> g = Some Full. Proof. destruct g as [[]|]; cbn; congruence. Qed.
Lemma truth_full t x : int_repr t <> None -> val_of t x = true -> (sx 64 x =? 0) = negb (truth x).
Proof.
  intros R V. unfold truth. rewrite negb_involutive. destruct (repr_cases t R) as [S|S].
  - destruct (small_id t x S V) as [-> _]. reflexivity.
  - pose proof (ulong_range _ _ S V) as B. destruct (x =? 0) eqn:E.
    + replace x with 0 by lia. reflexivity.
    + destruct (sx 64 x =? 0) eqn:F; auto. pose proof (u64_sx x B) as Q. replace (sx 64 x) with 0 in Q by lia. change (u64 0) with 0 in Q. lia.
Qed.
Lemma ub_bind e g v k : ub_or e g v -> forall g' v', (forall r, agrees g v r -> ub_or (k r None) g' v') -> ub_or (bindE e k) g' v'.
Proof. intros [->|(r & -> & A)] g' v' K; cbn [bindE]; [left; reflexivity|auto]. Qed.
Lemma ub_ok r g v : agrees g v r -> ub_or (EOk r None) g v. Proof. right. eauto. Qed.
Lemma ub_meet e a b v g : (ub_or e a v -> meet (Some a) b = Some g -> ub_or e g v) .
Proof.
  intros [->|(r & -> & A)] M; [left; auto|right; exists r; split; auto]. destruct a, b as [[]|], g; cbn in *; try discriminate; auto;
  subst; (eapply eqm_le with 64; [lia|apply sx_eqm64]).
Qed.
Lemma meet_comm a b : meet a b = meet b a. Proof. destruct a as [[]|], b as [[]|]; auto. Qed.
Lemma zb_agrees b : agrees Full (b2z b) (zb b). Proof. now destruct b. Qed.
Lemma zb_negb b : zb (negb b) = if b then 0 else 1. Proof. now destruct b. Qed.

Lemma ptr_not_long t a : same_repr t a = true -> same_repr t (TLong false) = true -> has_base a = true -> False.
Proof. intros A B C. destruct a; try discriminate; destruct t; try discriminate; destruct u; discriminate. Qed.

Theorem eval_sound E n : env_ok E -> forall m v m' g, well_typed n = true -> grade_of n = Some g ->
  ev E false n m = Some (v, m') -> ub_or (eval2 false n) g v.
Proof.
  intros HE. induction n using node_induct; intros m0 v0 m' g W G H; try discriminate G;
    pose proof (scalar_not_float _ (grade_scalar _ _ W G)) as NF;
    pose proof (fun s => ev_val_ok E s HE) as VOK.
  - (* NNum *)
    cbn [grade_of ev eval2 ntype] in *. destruct (val_of t v); [|discriminate]. inv G. inv H. rewrite NF. apply ub_ok. reflexivity.
  - (* NComma *)
    cbn [grade_of well_typed ev] in *. ands. cbn [eval2]. rewrite NF. repeat opt H. eapply IHn2; eauto.
  - (* NCast *)
    cbn [well_typed] in W. cbn [ev orb] in H. opt H. opt H. opt H. opt H. inv H. cbn [eval2]. rewrite NF.
    apply negb_false_iff in E0. cbn [grade_of] in G. rewrite E0 in G. cbn [negb] in G.
    rename z into x, E1 into EV.
    assert (XV : val_ok false (ntype n) x) by (eapply VOK; eauto).
    destruct t; try discriminate.
    + destruct (ntype n) eqn:T; try discriminate.
      assert (BV : x = 0 \/ x = 1).
      { eapply val_ok_val in XV; [|reflexivity]. unfold val_of in XV. cbn in XV. apply in_range_true in XV; [|lia]. change (2 ^ 1) with 2 in XV. lia. }
      assert (v0 = x) by (cbn in E2; inv E2; destruct BV; subst; reflexivity). subst v0.
      eapply ub_bind; [eapply IHn; eauto|]. intros r A. apply ub_ok.
      assert (Q : eqm 8 r x) by (destruct g; cbn in A; subst; eapply eqm_le; [|apply sx_eqm64| |eassumption]; lia).
      assert (X : eval_cast TBool r = x).
      { unfold eval_cast. cbn [is_integer size_of is_unsigned]. cbn. apply sx_unique; [lia|exact Q|]. change (2 ^ (8 - 1)) with 128. lia. }
      rewrite X. destruct g; cbn; [|apply eqm_refl]. symmetry. apply int_small. destruct BV; subst; lia.
    + destruct (grade_of n) as [gl|] eqn:GL; [|discriminate]. eapply ub_bind; [eapply IHn; eauto|]. intros r A. apply ub_ok.
      eapply cast_full; eauto. congruence.
    + destruct (grade_of n) as [gl|] eqn:GL; [|discriminate]. eapply ub_bind; [eapply IHn; eauto|]. intros r A. apply ub_ok.
      eapply cast_full; eauto. congruence.
    + destruct (grade_of n) as [gl|] eqn:GL; [|discriminate]. eapply ub_bind; [eapply IHn; eauto|]. intros r A. apply ub_ok.
      eapply cast_full; eauto. congruence.
    + destruct (grade_of n) as [[]|] eqn:GL; try discriminate. eapply ub_bind; [eapply IHn; eauto|]. intros r A. apply ub_ok.
      eapply cast_full; eauto. cbn. inv G. auto.
    + destruct (grade_of n) as [gl|] eqn:GL; [|discriminate]. eapply ub_bind; [eapply IHn; eauto|]. intros r A. apply ub_ok.
      eapply cast_full; eauto. congruence.
    + destruct (grade_of n) as [[]|] eqn:GL; try discriminate. eapply ub_bind; [eapply IHn; eauto|]. intros r A. apply ub_ok.
      eapply cast_full; eauto. cbn. inv G. auto.
  - (* NCond *)
    cbn [grade_of well_typed ev] in *. ands. cbn [eval2]. rewrite NF. opt H. opt H. opt H.
    destruct (full (grade_of n1)) eqn:F1; [|discriminate]. apply full_some in F1.
    eapply ub_bind; [eapply IHn1; eauto|]. intros r A. cbn in A. subst r.
    pose proof (grade_scalar n1 Full ltac:(assumption) F1) as S1.
    assert (V1 : val_of (ntype n1) z = true).
    { destruct (int_repr (ntype n1)) eqn:R; [|congruence]. eapply val_ok_val; eauto. }
    rewrite (truth_full _ _ S1 V1).
    destruct (grade_of n2) as [g2|] eqn:G2; [|discriminate]. destruct (grade_of n3) as [g3|] eqn:G3; [|destruct g2; discriminate].
    destruct (truth z); cbn [negb].
    + eapply ub_meet; [|exact G]. eapply IHn2; eauto.
    + rewrite meet_comm in G. eapply ub_meet; [|exact G]. eapply IHn3; eauto.
  - (* NNeg *)
    cbn [grade_of well_typed ev ntype] in *. ands. cbn [eval2 ntype]. rewrite NF. opt H. opt H. opt H. inv H.
    destruct (wide t && full (grade_of n)) eqn:F1; [|discriminate]. apply andb_true_iff in F1 as [WT F1]. apply full_some in F1.
    eapply ub_bind; [eapply IHn; eauto|]. intros r A. cbn in A. subst r.
    unfold neg_val in *.
    assert (V1 : val_of t z = true).
    { erewrite same_repr_val by eassumption. match goal with SR : same_repr _ _ = true |- _ => apply same_repr_eq in SR as (p & _ & P) end. eapply val_ok_val; eauto. }
    assert (GG : g = if is_uint t then Low else Full) by (destruct (is_uint t); congruence). subst g.
    apply (ring_ok t (- z)); auto.
    + apply eqm_opp; [lia|apply sx_eqm64].
    + intros U X. destruct (repr_cases t (wide_some _ WT)) as [S|S]; [|contradiction]. now destruct (small_id t z S V1) as [-> _].
  - (* NNot *)
    cbn [grade_of well_typed ev ntype] in *. cbn [eval2 ntype]. rewrite NF. opt H. opt H. opt H. inv H.
    destruct (is_scalar (ntype n) && full (grade_of n)) eqn:F1; [|discriminate]. apply andb_true_iff in F1 as [_ F1]. apply full_some in F1. inv G.
    eapply ub_bind; [eapply IHn; eauto|]. intros r A. cbn in A. subst r. apply ub_ok.
    pose proof (grade_scalar n Full ltac:(assumption) ltac:(assumption)) as S1.
    assert (V1 : val_of (ntype n) z = true).
    { destruct (int_repr (ntype n)) eqn:R; [|congruence]. eapply val_ok_val; eauto. }
    rewrite (truth_full _ _ S1 V1). apply zb_agrees.
  - (* NBitNot *)
    cbn [grade_of well_typed ev ntype] in *. cbn [eval2 ntype]. rewrite NF. opt H. opt H. opt H. inv H.
    destruct (wide (ntype n)) eqn:WT; [|discriminate].
    assert (V1 : val_of (ntype n) z = true).
    { pose proof (wide_some _ WT). destruct (int_repr (ntype n)) eqn:R; [|congruence]. eapply val_ok_val; eauto. }
    unfold bitnot_val in *. destruct (is_uint (ntype n)) eqn:U.
    + destruct (grade_of n) as [gl|] eqn:GL; [|discriminate]. cbn in G. inv G.
      eapply ub_bind; [eapply IHn; eauto|]. intros r A. apply ub_ok. cbn.
      pose proof (wide_uint _ WT U) as R. pose proof (fit_eqm _ _ _ _ _ R E1) as Q. eapply eqm_trans; [|apply eqm_sym, Q].
      apply eqm_lnot; [lia|]. destruct gl; cbn in A; auto. subst. eapply eqm_le with 64; [lia|apply sx_eqm64].
    + destruct (grade_of n) as [[]|] eqn:GL; try discriminate. cbn in G. inv G.
      eapply ub_bind; [eapply IHn; eauto|]. intros r A. apply ub_ok. cbn in A |- *. subst r.
      symmetry. apply sx_unique; [lia| |].
      * destruct (wide_not_uint _ WT U) as [X|[X|X]].
        -- rewrite (fit_signed _ _ _ _ X E1). apply eqm_lnot; [lia|]. apply eqm_sym, sx_eqm64.
        -- rewrite (fit_signed _ _ _ _ X E1). apply eqm_lnot; [lia|]. apply eqm_sym, sx_eqm64.
        -- pose proof (fit_eqm _ _ _ _ _ X E1) as Q. eapply eqm_trans; [exact Q|]. apply eqm_lnot; [lia|]. apply eqm_sym, sx_eqm64.
      * pose proof (sx_range 64 z ltac:(lia)). unfold Z.lnot. lia.
  - (* NLogAnd *)
    cbn [grade_of well_typed ev ntype] in *. ands. cbn [eval2 ntype]. rewrite NF. opt H. opt H. opt H.
    destruct (full (grade_of n1) && full (grade_of n2)) eqn:F1; [|discriminate]. ands. repeat match goal with F : full _ = true |- _ => apply full_some in F end. inv G.
    eapply ub_bind; [eapply IHn1; eauto|]. intros r A. cbn in A. subst r.
    assert (V1 : val_of (ntype n1) z = true).
    { pose proof (grade_scalar n1 Full ltac:(assumption) ltac:(assumption)). destruct (int_repr (ntype n1)) eqn:R; [|congruence]. eapply val_ok_val; eauto. }
    rewrite (truth_full _ _ (grade_scalar n1 Full ltac:(assumption) ltac:(assumption)) V1). destruct (truth z); cbn [negb].
    + opt H. opt H. inv H. eapply ub_bind; [eapply IHn2; eauto|]. intros r A. cbn in A. subst r. apply ub_ok.
      assert (V2 : val_of (ntype n2) z0 = true).
      { pose proof (grade_scalar n2 Full ltac:(assumption) ltac:(assumption)). destruct (int_repr (ntype n2)) eqn:R; [|congruence]. eapply val_ok_val; eauto. }
      rewrite (truth_full _ _ (grade_scalar n2 Full ltac:(assumption) ltac:(assumption)) V2), negb_involutive. apply zb_agrees.
    + inv H. apply ub_ok. reflexivity.
  - (* NLogOr *)
    cbn [grade_of well_typed ev ntype] in *. ands. cbn [eval2 ntype]. rewrite NF. opt H. opt H. opt H.
    destruct (full (grade_of n1) && full (grade_of n2)) eqn:F1; [|discriminate]. ands. repeat match goal with F : full _ = true |- _ => apply full_some in F end. inv G.
    eapply ub_bind; [eapply IHn1; eauto|]. intros r A. cbn in A. subst r.
    assert (V1 : val_of (ntype n1) z = true).
    { pose proof (grade_scalar n1 Full ltac:(assumption) ltac:(assumption)). destruct (int_repr (ntype n1)) eqn:R; [|congruence]. eapply val_ok_val; eauto. }
    rewrite (truth_full _ _ (grade_scalar n1 Full ltac:(assumption) ltac:(assumption)) V1), negb_involutive. destruct (truth z); cbn [negb].
    + inv H. apply ub_ok. reflexivity.
    + opt H. opt H. inv H. eapply ub_bind; [eapply IHn2; eauto|]. intros r A. cbn in A. subst r. apply ub_ok.
      assert (V2 : val_of (ntype n2) z0 = true).
      { pose proof (grade_scalar n2 Full ltac:(assumption) ltac:(assumption)). destruct (int_repr (ntype n2)) eqn:R; [|congruence]. eapply val_ok_val; eauto. }
      rewrite (truth_full _ _ (grade_scalar n2 Full ltac:(assumption) ltac:(assumption)) V2), negb_involutive. apply zb_agrees.
  - (* NBin *)
    cbn [grade_of well_typed ev ntype] in *. ands. cbn [eval2 ntype]. rewrite NF. opt H. opt H. opt H. opt H. opt H. opt H.
    rename z0 into x, z into y, E1 into EVL, E0 into EVR, E2 into BV.
    pose proof (VOK n1 _ _ _ _ ltac:(assumption) EVL) as XV. pose proof (VOK n2 _ _ _ _ ltac:(assumption) EVR) as YV.
    replace (match o with Add | Sub => false | _ => false end) with false by (destruct o; reflexivity).
    (* the operands *)
    assert (OPS : forall gl gr, grade_of n1 = Some gl -> grade_of n2 = Some gr ->
      (forall rx ry, agrees gl x rx -> agrees gr y ry -> ub_or (eval_bin o t (ntype n1) rx ry None) g v0) ->
      ub_or (bindE (eval2 false n1) (fun x lab => bindE (eval2 false n2) (fun y _ => eval_bin o t (ntype n1) x y lab))) g v0).
    { intros gl gr GL GR K. eapply ub_bind; [eapply IHn1; eauto|]. intros rx AX. eapply ub_bind; [eapply IHn2; eauto|]. intros ry AY. auto. }
    assert (FULL : forall c, c && full (grade_of n1) && full (grade_of n2) = true -> c = true /\ grade_of n1 = Some Full /\ grade_of n2 = Some Full).
    { intros c C. apply andb_true_iff in C as [C C2]. apply andb_true_iff in C as [C C1]. split; auto. split; apply full_some; auto. }
    assert (VAL : forall s x t', same_repr t' (ntype s) = true -> val_ok false (ntype s) x -> val_of t' x = true).
    { intros s x' t' SR V. rewrite (same_repr_val _ _ _ SR). apply same_repr_eq in SR as (p & _ & P). eapply val_ok_val; eauto. }
    assert (RING : forall f, o = Add \/ o = Sub \/ o = Mul ->
       (if wide t && same_repr t (ntype n1) && full (grade_of n1) && full (grade_of n2) then (if is_uint t then Some Low else Some Full) else None) = Some g ->
       (forall a b, eval_bin o t (ntype n1) a b None = chk64 (f a b) None) -> fit t (f x y) = Some v0 ->
       (forall n a b c d, 0 <= n -> eqm n a b -> eqm n c d -> eqm n (f a c) (f b d)) ->
       ub_or (bindE (eval2 false n1) (fun x lab => bindE (eval2 false n2) (fun y _ => eval_bin o t (ntype n1) x y lab))) g v0).
    { intros f O GG EB FF CG. destruct (wide t && same_repr t (ntype n1) && full (grade_of n1) && full (grade_of n2)) eqn:F; [|discriminate].
      destruct (FULL _ F) as (WS & GL & GR). apply andb_true_iff in WS as [WT SR]. eapply OPS; eauto. intros rx ry AX AY. cbn in AX, AY. subst rx ry.
      rewrite EB. assert (g = if is_uint t then Low else Full) as -> by (destruct (is_uint t); congruence).
      apply (ring_ok t (f x y)); auto.
      - apply CG; [discriminate| |]; apply sx_eqm64.
      - intros U X. destruct (repr_cases t (wide_some _ WT)) as [S|S]; [|contradiction].
        assert (SR2 : same_repr t (ntype n2) = true).
        { destruct O as [O|[O|O]]; subst o; cbn in H1; [ands; auto| |ands; auto].
          apply orb_true_iff in H1 as [H1|H1]; ands; auto. exfalso.
          eapply ptr_not_long; eauto. }
        destruct (small_id t x S (VAL _ _ _ SR XV)) as [-> _]. now destruct (small_id t y S (VAL _ _ _ SR2 YV)) as [-> _]. }
    assert (REFL : forall s x, wide (ntype s) = true -> val_ok false (ntype s) x -> val_of (ntype s) x = true).
    { intros s x' WS V. pose proof (wide_some _ WS). destruct (int_repr (ntype s)) eqn:R; [|congruence]. eapply val_ok_val; eauto. }
    assert (CMP : (if wide (ntype n1) && wide (ntype n2) && full (grade_of n1) && full (grade_of n2) then Some Full else None) = Some g ->
      same_repr (ntype n1) (ntype n2) = true -> match o with Eq | Ne | Lt | Le => True | _ => False end -> bin_val o (ntype n1) x y = Some v0 ->
      ub_or (bindE (eval2 false n1) (fun x lab => bindE (eval2 false n2) (fun y _ => eval_bin o t (ntype n1) x y lab))) g v0).
    { intros GG SR O BB. destruct (wide (ntype n1) && wide (ntype n2) && full (grade_of n1) && full (grade_of n2)) eqn:F; [|discriminate].
      assert (g = Full) by congruence; subst g.
      destruct (FULL _ F) as (WT & GL & GR). apply andb_true_iff in WT as [WT WR]. eapply OPS; eauto. intros rx ry AX AY. cbn in AX, AY. subst rx ry. apply compare_ok; eauto. }
    destruct o.
    + cbn in BV. eapply (RING Z.add); eauto using eqm_add.
    + cbn in BV. eapply (RING Z.sub); eauto using eqm_sub.
    + cbn in BV. eapply (RING Z.mul); eauto using eqm_mul.
    + ands. destruct (wide t && full (grade_of n1) && full (grade_of n2)) eqn:F; [|discriminate]. inv G.
      destruct (FULL _ F) as (WT & GL & GR). eapply OPS; eauto. intros rx ry AX AY. cbn in AX, AY. subst rx ry. apply div_ok; eauto.
    + ands. destruct (wide t && full (grade_of n1) && full (grade_of n2)) eqn:F; [|discriminate]. inv G.
      destruct (FULL _ F) as (WT & GL & GR). eapply OPS; eauto. intros rx ry AX AY. cbn in AX, AY. subst rx ry. apply mod_ok; eauto.
    + ands. destruct (wide t) eqn:WT; [|discriminate].
      destruct (grade_of n1) as [gl|] eqn:GL; [|discriminate]. destruct (grade_of n2) as [gr|] eqn:GR; [|destruct gl; discriminate].
      eapply OPS; eauto. intros rx ry AX AY. apply ub_ok. eapply (bits_ok Z.land t x y); eauto using sx_land, eqm_land, land_range.
    + ands. destruct (wide t) eqn:WT; [|discriminate].
      destruct (grade_of n1) as [gl|] eqn:GL; [|discriminate]. destruct (grade_of n2) as [gr|] eqn:GR; [|destruct gl; discriminate].
      eapply OPS; eauto. intros rx ry AX AY. apply ub_ok. eapply (bits_ok Z.lor t x y); eauto using sx_lor, eqm_lor, lor_range.
    + ands. destruct (wide t) eqn:WT; [|discriminate].
      destruct (grade_of n1) as [gl|] eqn:GL; [|discriminate]. destruct (grade_of n2) as [gr|] eqn:GR; [|destruct gl; discriminate].
      eapply OPS; eauto. intros rx ry AX AY. apply ub_ok. eapply (bits_ok Z.lxor t x y); eauto using sx_lxor, eqm_lxor, lxor_range.
    + ands; apply CMP; auto.
    + ands; apply CMP; auto.
    + ands; apply CMP; auto.
    + ands; apply CMP; auto.
    + ands. destruct (wide t && full (grade_of n1) && full (grade_of n2)) eqn:F; [|discriminate].
      destruct (FULL _ F) as (WT & GL & GR). assert (g = if is_uint t then Low else Full) as -> by (destruct (is_uint t); congruence). eapply OPS; eauto. intros rx ry AX AY. cbn in AX, AY. subst rx ry. apply shl_ok; eauto.
    + ands. destruct (wide t && full (grade_of n1) && full (grade_of n2)) eqn:F; [|discriminate]. inv G.
      destruct (FULL _ F) as (WT & GL & GR). eapply OPS; eauto. intros rx ry AX AY. cbn in AX, AY. subst rx ry. apply shr_ok; eauto.
Qed.

(** ** The evaluator's own arithmetic *)
Definition okE (e : eres) : Prop := exists r, e = EOk r None.
Lemma ok_bind e k : okE e -> (forall r, e = EOk r None -> okE (k r None)) -> okE (bindE e k).
Proof. intros [r ->] K. cbn [bindE]. apply K. reflexivity. Qed.
Lemma ok_ok r : okE (EOk r None). Proof. eexists; reflexivity. Qed.
Lemma ok_chk z : - 2 ^ 63 <= z < 2 ^ 63 -> okE (chk64 z None). Proof. intros. rewrite chk64_ok by auto. apply ok_ok. Qed.
Lemma ub_ok_agrees e g v r : ub_or e g v -> e = EOk r None -> agrees g v r.
Proof. intros [->|(r' & -> & A)] Q; [discriminate|]. assert (r' = r) by congruence. now subst. Qed.
Lemma sgn_range t z v : match t with TInt false | TEnum | TLong false => true | _ => false end = true -> fit t z = Some v -> - 2 ^ 63 <= z < 2 ^ 63.
Proof.
  intros S F. destruct t; try discriminate; try destruct u; try discriminate; unfold fit in F; cbn in F;
    match type of F with (if ?c then _ else _) = _ => destruct c eqn:X; [|discriminate] end; apply in_range_true in X; try lia.
Qed.
Lemma sgn_small t : match t with TInt false | TEnum | TLong false => true | _ => false end = true -> small t.
Proof. intros S. destruct t; try discriminate; try destruct u; try discriminate; eapply small_of; try reflexivity; auto. Qed.
Lemma uint_range t x : is_uint t = true -> val_of t x = true -> 0 <= x < 2 ^ 32.
Proof. intros U V. destruct t; try discriminate. destruct u; try discriminate. unfold val_of in V. cbn in V. apply in_range_true in V; [|lia]. lia. Qed.
Lemma uint_small t : is_uint t = true -> small t.
Proof. intros U. destruct t; try discriminate. destruct u; try discriminate. eapply small_of; [reflexivity|lia]. Qed.

Lemma ring_safe t (f : Z -> Z -> Z) x y v : val_of t x = true -> val_of t y = true -> fit t (f x y) = Some v ->
  match t with TInt false | TEnum | TLong false => true | _ => false end = true \/ is_uint t = true ->
  (is_uint t = true -> 0 <= x < 2 ^ 32 -> 0 <= y < 2 ^ 32 -> - 2 ^ 63 <= f x y < 2 ^ 63) ->
  okE (chk64 (f (sx 64 x) (sx 64 y)) None).
Proof.
  intros VX VY F S B. destruct S as [S|S].
  - destruct (small_id t x (sgn_small _ S) VX) as [-> _]. destruct (small_id t y (sgn_small _ S) VY) as [-> _].
    apply ok_chk. eapply sgn_range; eauto.
  - destruct (small_id t x (uint_small _ S) VX) as [-> _]. destruct (small_id t y (uint_small _ S) VY) as [-> _].
    apply ok_chk. apply B; auto; eapply uint_range; eauto.
Qed.
Lemma div_safe t tl x y v : wide t = true -> val_of t x = true -> val_of t y = true -> bin_val Div t x y = Some v ->
  okE (eval_bin Div t tl (sx 64 x) (sx 64 y) None) /\ okE (eval_bin Mod t tl (sx 64 x) (sx 64 y) None).
Proof.
  intros W VX VY B. cbn [bin_val] in B. destruct (y =? 0) eqn:Y; [discriminate|].
  assert (Y' : (sx 64 y =? 0) = false).
  { pose proof (truth_full t y (wide_some _ W) VY) as Q. unfold truth in Q. rewrite Y in Q. exact Q. }
  cbn [eval_bin]. rewrite Y'. destruct (is_unsigned t) eqn:U; [split; apply ok_ok|].
  assert (S : match t with TInt false | TEnum | TLong false => true | TPtr _ => true | _ => false end = true).
  { destruct t; try discriminate; try destruct u; try discriminate; reflexivity. }
  assert (P : match t with TPtr _ => False | _ => True end) by (destruct t; auto; discriminate).
  assert (S' : match t with TInt false | TEnum | TLong false => true | _ => false end = true) by (destruct t; auto; contradiction).
  destruct (small_id t x (sgn_small _ S') VX) as [-> _]. destruct (small_id t y (sgn_small _ S') VY) as [-> _].
  pose proof (sgn_range _ _ _ S' B) as R. rewrite chk64_ok by auto. split; apply ok_ok.
Qed.

Lemma count_ok y w : (0 <=? y) && (y <? w) = true -> w <= 64 -> sx 64 y = y /\ (0 <=? y) && (y <? 64) = true.
Proof. intros. split; [apply (count_id y w)|]; lia. Qed.
Lemma uadd_bound x y : 0 <= x < 2 ^ 32 -> 0 <= y < 2 ^ 32 -> - 2 ^ 63 <= x + y < 2 ^ 63. Proof. lia. Qed.
Lemma usub_bound x y : 0 <= x < 2 ^ 32 -> 0 <= y < 2 ^ 32 -> - 2 ^ 63 <= x - y < 2 ^ 63. Proof. lia. Qed.
Lemma uneg_bound x : 0 <= x < 2 ^ 32 -> - 2 ^ 63 <= - x < 2 ^ 63. Proof. lia. Qed.

Theorem eval_safe E n : env_ok E -> forall m v m' g, well_typed n = true -> grade_of n = Some g -> host_safe n = true ->
  ev E false n m = Some (v, m') -> okE (eval2 false n).
Proof.
  intros HE. induction n using node_induct; intros m0 v0 m' g W G HS H; try discriminate G;
    pose proof (scalar_not_float _ (grade_scalar _ _ W G)) as NF;
    pose proof (fun s => ev_val_ok E s HE) as VOK;
    pose proof (fun s => eval_sound E s HE) as SND.
  - cbn [eval2 ntype] in *. rewrite NF. apply ok_ok.
  - cbn [grade_of well_typed ev host_safe] in *. ands. cbn [eval2]. rewrite NF. repeat opt H. eapply IHn2; eauto.
  - cbn [well_typed host_safe] in *. cbn [ev orb] in H. opt H. opt H. opt H. opt H. inv H. cbn [eval2]. rewrite NF.
    apply negb_false_iff in E0. cbn [grade_of] in G. rewrite E0 in G. cbn [negb] in G.
    assert (exists gl, grade_of n = Some gl) as [gl GL].
    { destruct t; try discriminate; try (destruct (ntype n); discriminate); destruct (grade_of n) as [[]|]; eauto; try discriminate;
      destruct (ntype n); discriminate. }
    apply ok_bind; [eapply IHn; eauto|]. intros. apply ok_ok.
  - cbn [grade_of well_typed ev host_safe] in *. ands. cbn [eval2]. rewrite NF. opt H. opt H. opt H.
    destruct (full (grade_of n1)) eqn:F1; [|discriminate]. apply full_some in F1.
    apply ok_bind; [eapply IHn1; eauto|]. intros r A.
    pose proof (ub_ok_agrees _ _ _ _ (SND n1 _ _ _ _ ltac:(assumption) F1 E1) A) as AG. cbn in AG. subst r.
    pose proof (grade_scalar n1 Full ltac:(assumption) F1) as S1.
    assert (V1 : val_of (ntype n1) z = true).
    { destruct (int_repr (ntype n1)) eqn:R; [|congruence]. eapply val_ok_val; eauto. }
    rewrite (truth_full _ _ S1 V1).
    destruct (grade_of n2) as [g2|] eqn:G2; [|discriminate]. destruct (grade_of n3) as [g3|] eqn:G3; [|destruct g2; discriminate].
    destruct (truth z); cbn [negb]; [eapply IHn2|eapply IHn3]; eauto.
  - cbn [grade_of well_typed ev ntype host_safe] in *. ands. cbn [eval2 ntype]. rewrite NF. opt H. opt H. opt H. inv H.
    destruct (wide t && full (grade_of n)) eqn:F1; [|discriminate]. apply andb_true_iff in F1 as [WT F1]. apply full_some in F1.
    apply ok_bind; [eapply IHn; eauto|]. intros r A.
    match goal with WN : well_typed n = true, EV : ev E false n _ = _ |- _ => pose proof (ub_ok_agrees _ _ _ _ (SND n _ _ _ _ WN F1 EV) A) as AG end. cbn in AG. subst r.
    assert (V1 : val_of t z = true).
    { erewrite same_repr_val by eassumption. match goal with SR : same_repr _ _ = true |- _ => apply same_repr_eq in SR as (p & _ & P) end. eapply val_ok_val; eauto. }
    unfold neg_val in *. apply (ring_safe t (fun x _ => - x) z z v0); auto.
    + match goal with X : _ || is_uint t = true |- _ => apply orb_true_iff in X as [X|X]; auto end.
    + intros _ B _. now apply uneg_bound.
  - cbn [grade_of well_typed ev ntype host_safe] in *. cbn [eval2 ntype]. rewrite NF. opt H. opt H. opt H. inv H.
    destruct (is_scalar (ntype n) && full (grade_of n)) eqn:F1; [|discriminate]. apply andb_true_iff in F1 as [_ F1]. apply full_some in F1.
    apply ok_bind; [eapply IHn; eauto|]. intros. apply ok_ok.
  - cbn [grade_of well_typed ev ntype host_safe] in *. cbn [eval2 ntype]. rewrite NF. opt H. opt H. opt H. inv H.
    assert (exists gl, grade_of n = Some gl) as [gl GL].
    { destruct (wide (ntype n)); [|discriminate]. destruct (grade_of n); eauto. destruct (is_uint (ntype n)); discriminate. }
    apply ok_bind; [eapply IHn; eauto|]. intros. apply ok_ok.
  - cbn [grade_of well_typed ev ntype host_safe] in *. ands. cbn [eval2 ntype]. rewrite NF. opt H. opt H. opt H.
    destruct (full (grade_of n1) && full (grade_of n2)) eqn:F1; [|discriminate]. apply andb_true_iff in F1 as [F1 F2]. apply full_some in F1. apply full_some in F2.
    apply ok_bind; [eapply IHn1; eauto|]. intros r A.
    pose proof (ub_ok_agrees _ _ _ _ (SND n1 _ _ _ _ ltac:(assumption) F1 E1) A) as AG. cbn in AG. subst r.
    assert (V1 : val_of (ntype n1) z = true).
    { pose proof (grade_scalar n1 Full ltac:(assumption) F1). destruct (int_repr (ntype n1)) eqn:R; [|congruence]. eapply val_ok_val; eauto. }
    rewrite (truth_full _ _ (grade_scalar n1 Full ltac:(assumption) F1) V1). destruct (truth z); cbn [negb]; [|apply ok_ok].
    opt H. opt H. apply ok_bind; [eapply IHn2; eauto|]. intros. apply ok_ok.
  - cbn [grade_of well_typed ev ntype host_safe] in *. ands. cbn [eval2 ntype]. rewrite NF. opt H. opt H. opt H.
    destruct (full (grade_of n1) && full (grade_of n2)) eqn:F1; [|discriminate]. apply andb_true_iff in F1 as [F1 F2]. apply full_some in F1. apply full_some in F2.
    apply ok_bind; [eapply IHn1; eauto|]. intros r A.
    pose proof (ub_ok_agrees _ _ _ _ (SND n1 _ _ _ _ ltac:(assumption) F1 E1) A) as AG. cbn in AG. subst r.
    assert (V1 : val_of (ntype n1) z = true).
    { pose proof (grade_scalar n1 Full ltac:(assumption) F1). destruct (int_repr (ntype n1)) eqn:R; [|congruence]. eapply val_ok_val; eauto. }
    rewrite (truth_full _ _ (grade_scalar n1 Full ltac:(assumption) F1) V1), negb_involutive. destruct (truth z); cbn [negb]; [apply ok_ok|].
    opt H. opt H. apply ok_bind; [eapply IHn2; eauto|]. intros. apply ok_ok.
  - cbn [grade_of well_typed ev ntype host_safe] in *.
    apply andb_true_iff in HS as [HS HO]. apply andb_true_iff in HS as [HS1 HS2].
    apply andb_true_iff in W as [W WO]. apply andb_true_iff in W as [W1 W2].
    cbn [eval2 ntype]. rewrite NF. opt H. opt H. opt H. opt H. opt H. opt H.
    rename z0 into x, z into y, E1 into EVL, E0 into EVR, E2 into BV.
    pose proof (VOK n1 _ _ _ _ ltac:(assumption) EVL) as XV. pose proof (VOK n2 _ _ _ _ ltac:(assumption) EVR) as YV.
    replace (match o with Add | Sub => false | _ => false end) with false by (destruct o; reflexivity).
    assert (OPS : forall gl gr, grade_of n1 = Some gl -> grade_of n2 = Some gr ->
      (forall rx ry, agrees gl x rx -> agrees gr y ry -> okE (eval_bin o t (ntype n1) rx ry None)) ->
      okE (bindE (eval2 false n1) (fun x lab => bindE (eval2 false n2) (fun y _ => eval_bin o t (ntype n1) x y lab)))).
    { intros gl gr GL GR K. apply ok_bind; [eapply IHn1; eauto|]. intros rx AX. apply ok_bind; [eapply IHn2; eauto|]. intros ry AY.
      apply K; [exact (ub_ok_agrees _ _ _ _ (SND n1 _ _ _ _ W1 GL EVL) AX)|exact (ub_ok_agrees _ _ _ _ (SND n2 _ _ _ _ W2 GR EVR) AY)]. }
    assert (FULL : forall c, c && full (grade_of n1) && full (grade_of n2) = true -> c = true /\ grade_of n1 = Some Full /\ grade_of n2 = Some Full).
    { intros c C. apply andb_true_iff in C as [C C2]. apply andb_true_iff in C as [C C1]. split; auto. split; apply full_some; auto. }
    assert (VAL : forall s x t', same_repr t' (ntype s) = true -> val_ok false (ntype s) x -> val_of t' x = true).
    { intros s x' t' SR V. rewrite (same_repr_val _ _ _ SR). apply same_repr_eq in SR as (p & _ & P). eapply val_ok_val; eauto. }
    assert (MEET : meet (grade_of n1) (grade_of n2) = Some g -> exists gl gr, grade_of n1 = Some gl /\ grade_of n2 = Some gr).
    { destruct (grade_of n1) as [gl|]; [|discriminate]. destruct (grade_of n2) as [gr|]; [|destruct gl; discriminate]. eauto. }
    assert (RING : forall f, (if wide t && same_repr t (ntype n1) && full (grade_of n1) && full (grade_of n2) then (if is_uint t then Some Low else Some Full) else None) = Some g ->
       same_repr t (ntype n1) && same_repr t (ntype n2) = true \/ same_repr t (TLong false) && has_base (ntype n1) && has_base (ntype n2) = true ->
       (forall a b, eval_bin o t (ntype n1) a b None = chk64 (f a b) None) -> fit t (f x y) = Some v0 ->
       match t with TInt false | TEnum | TLong false => true | _ => false end = true \/
        is_uint t = true /\ (is_uint t = true -> 0 <= x < 2 ^ 32 -> 0 <= y < 2 ^ 32 -> - 2 ^ 63 <= f x y < 2 ^ 63) ->
       okE (bindE (eval2 false n1) (fun x lab => bindE (eval2 false n2) (fun y _ => eval_bin o t (ntype n1) x y lab)))).
    { intros f GG SRS EB FF SG. destruct (wide t && same_repr t (ntype n1) && full (grade_of n1) && full (grade_of n2)) eqn:F; [|discriminate].
      destruct (FULL _ F) as (WS & GL & GR). apply andb_true_iff in WS as [WT SR]. eapply OPS; eauto. intros rx ry AX AY. cbn in AX, AY. subst rx ry.
      rewrite EB. destruct SRS as [SRS|SRS].
      - apply andb_true_iff in SRS as [SR1 SR2]. eapply (ring_safe t f); eauto; [tauto|]. destruct SG as [SG|[U B]]; auto.
        intros U. destruct t; try discriminate SG; try discriminate U. destruct u; discriminate.
      - exfalso. apply andb_true_iff in SRS as [SRS _]. apply andb_true_iff in SRS as [SRS HB]. eapply ptr_not_long; eauto. }
    destruct o.
    + eapply (RING Z.add); eauto. apply orb_true_iff in HO as [HO|HO]; auto. right. split; auto. intros _. apply uadd_bound.
    + eapply (RING Z.sub); eauto; [now apply orb_true_iff in WO|]. apply orb_true_iff in HO as [HO|HO]; auto. right. split; auto. intros _. apply usub_bound.
    + eapply (RING Z.mul); eauto.
    + destruct (wide t && full (grade_of n1) && full (grade_of n2)) eqn:F; [|discriminate]. destruct (FULL _ F) as (WT & GL & GR).
      apply andb_true_iff in WO as [SR1 SR2]. eapply OPS; eauto. intros rx ry AX AY. cbn in AX, AY. subst rx ry. eapply div_safe; eauto.
    + destruct (wide t && full (grade_of n1) && full (grade_of n2)) eqn:F; [|discriminate]. destruct (FULL _ F) as (WT & GL & GR).
      apply andb_true_iff in WO as [SR1 SR2]. eapply OPS; eauto. intros rx ry AX AY. cbn in AX, AY. subst rx ry.
      cbn [bin_val] in BV. destruct (y =? 0) eqn:Y; [discriminate|]. destruct (fit t (Z.quot x y)) eqn:Q; [|discriminate].
      eapply (div_safe t (ntype n1) x y z); eauto. cbn [bin_val]. now rewrite Y.
    + destruct (wide t); [|discriminate]. destruct (MEET G) as (gl & gr & GL & GR). eapply OPS; eauto. intros. apply ok_ok.
    + destruct (wide t); [|discriminate]. destruct (MEET G) as (gl & gr & GL & GR). eapply OPS; eauto. intros. apply ok_ok.
    + destruct (wide t); [|discriminate]. destruct (MEET G) as (gl & gr & GL & GR). eapply OPS; eauto. intros. apply ok_ok.
    + destruct (wide (ntype n1) && wide (ntype n2) && full (grade_of n1) && full (grade_of n2)) eqn:F; [|discriminate]. destruct (FULL _ F) as (WT & GL & GR).
      eapply OPS; eauto. intros. apply ok_ok.
    + destruct (wide (ntype n1) && wide (ntype n2) && full (grade_of n1) && full (grade_of n2)) eqn:F; [|discriminate]. destruct (FULL _ F) as (WT & GL & GR).
      eapply OPS; eauto. intros. apply ok_ok.
    + destruct (wide (ntype n1) && wide (ntype n2) && full (grade_of n1) && full (grade_of n2)) eqn:F; [|discriminate]. destruct (FULL _ F) as (WT & GL & GR).
      eapply OPS; eauto. intros. apply ok_ok.
    + destruct (wide (ntype n1) && wide (ntype n2) && full (grade_of n1) && full (grade_of n2)) eqn:F; [|discriminate]. destruct (FULL _ F) as (WT & GL & GR).
      eapply OPS; eauto. intros. apply ok_ok.
    + destruct (wide t && full (grade_of n1) && full (grade_of n2)) eqn:F; [|discriminate]. destruct (FULL _ F) as (WT & GL & GR).
      eapply OPS; eauto. intros rx ry AX AY. cbn in AX, AY. subst rx ry. cbn [bin_val eval_bin] in *.
      destruct (int_repr t) as [[s w]|] eqn:R; [|discriminate]. pose proof (int_repr_width _ _ _ R).
      destruct ((0 <=? y) && (y <? w) && (negb s || (0 <=? x))) eqn:C; [|discriminate]. apply andb_true_iff in C as [C _].
      destruct (count_ok y w C) as [-> ->]; [clear - H; lia|apply ok_ok].
    + destruct (wide t && full (grade_of n1) && full (grade_of n2)) eqn:F; [|discriminate]. destruct (FULL _ F) as (WT & GL & GR).
      eapply OPS; eauto. intros rx ry AX AY. cbn in AX, AY. subst rx ry. cbn [bin_val eval_bin] in *.
      destruct (int_repr t) as [[s w]|] eqn:R; [|discriminate]. pose proof (int_repr_width _ _ _ R).
      destruct ((0 <=? y) && (y <? w)) eqn:C; [|discriminate].
      destruct (count_ok y w C) as [-> ->]; [clear - H; lia|]. destruct (is_unsigned t && (size_of t =? 8)); apply ok_ok.
Qed.
