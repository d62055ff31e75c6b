(** Lemmas about FevalModel. *)
From Verif Require Import Base TypeModel IntArith NodeModel NodeProofs ValSpec NodeSpec EvalModel EvalSpec EvalProofs EvalProps FpSpec FloatSpec FloatProofs FloatProps FevalModel FevalSpec.
From Coq Require Import ZifyBool ZifyNat.

Section FV.
Variable fv : Z -> Z.
Local Notation ceval := (ceval fv). Local Notation ceval_rval := (ceval_rval fv). Local Notation folds := (folds fv).
(** ** Without floating point, eval2 as before *)
Lemma ceval_int n : int_only n = true -> (forall want, ceval want n = of_eres (eval2 want n)) /\ (forall want, ceval_rval want n = of_eres (eval_rval want n)).
Proof.
  assert (AI : forall e k k', (forall v l, k v l = of_eres (k' v l)) -> as_int (of_eres e) k = of_eres (bindE e k')) by (intros [] k k' H; cbn; auto).
  assert (AE : forall e, as_int (of_eres e) CI = of_eres e) by (intros []; reflexivity).
  induction n using node_induct; intros IO; pose proof (int_only_type _ IO) as NF; cbn [int_only] in IO; apply andb_true_iff in IO as [_ IO];
    (split; intros want; [cbn [FevalModel.ceval eval2]; rewrite NF|cbn [FevalModel.ceval_rval eval_rval]]); try reflexivity.
  all: repeat match goal with H : _ && _ = true |- _ => apply andb_true_iff in H as [? ?] end.
  all: repeat match goal with IH : int_only ?n = true -> _, H : int_only ?n = true |- _ => specialize (IH H); destruct IH as [? ?] end.
  all: repeat match goal with IH : forall w, ceval w _ = _ |- _ => rewrite !IH | IH : forall w, ceval_rval w _ = _ |- _ => rewrite !IH end.
  all: try (now apply AE).
  all: try (now apply AI).
  all: try (apply AI; intros; now apply AI).
  all: try (apply AI; intros v' l'; match goal with |- context [if ?b then _ else _] => destruct b end; first [reflexivity|now apply AE|now apply AI]).
  all: try (match goal with |- context [match ?x with _ => _ end] => destruct x end; try reflexivity; try (now apply AI)).
  all: try (destruct (m_ty _); try reflexivity; now apply AI).
  all: try reflexivity.
  all: try (destruct t; try reflexivity; destruct x; reflexivity).
  all: destruct want; reflexivity.
Qed.
End FV.

Lemma float_node t f : fmt_of t = Some f -> is_float t = true. Proof. destruct t; try discriminate; reflexivity. Qed.
Lemma fits_range t s k v : fits_long t = true -> int_repr t = Some (s, k) -> in_range s k v = true -> - 2 ^ 63 <= v < 2 ^ 63.
Proof.
  intros F R I. destruct t as [| |[]|[]|[]|[]| | | | | | | | | |]; try discriminate F; injection R as <- <-; unfold in_range in I; cbn in I; lia.
Qed.
Lemma fits_cast t s k v : fits_long t = true -> int_repr t = Some (s, k) -> in_range s k v = true -> eval_cast t v = v.
Proof.
  intros F R I. apply in_range_true in I; [|destruct t as [| |[]|[]|[]|[]| | | | | | | | | |]; try discriminate F; injection R as <- <-; lia].
  destruct t as [| |[]|[]|[]|[]| | | | | | | | | |]; try discriminate F; injection R as <- <-; cbn -[Z.pow Z.modulo sx]; try reflexivity;
    first [apply Z.mod_small; lia|apply sx_id; lia].
Qed.
(** ** The integers *)
Section FV.
Variable fv : Z -> Z.
Local Notation ceval := (ceval fv). Local Notation ceval_rval := (ceval_rval fv). Local Notation folds := (folds fv).
Lemma folds_int_ok E n m v m' : env_ok E -> folds_int n = true -> fev E false n m = Some (v, m') -> ceval false n = CI (sx 64 v) None /\ (int_repr (ntype n) <> None -> val_of (ntype n) v = true).
Proof.
  intros HE F EV. unfold folds_int in F. apply andb_true_iff in F as [F HSF]. apply andb_true_iff in F as [F GR]. apply andb_true_iff in F as [IO WT].
  assert (EV' : ev E false n m = Some (v, m')) by (destruct n; cbn [fev] in EV; rewrite IO in EV; exact EV).
  destruct (grade_of n) as [[]|] eqn:G; try discriminate. split.
  - rewrite (proj1 (ceval_int fv n IO)). fold (eval n). rewrite (C33_const_expr E n m v m' HE WT G HSF EV'). reflexivity.
  - intros R. destruct (int_repr (ntype n)) as [p|] eqn:R'; [|congruence]. eapply val_ok_val; eauto. eapply (ev_val_ok E n HE); eauto.
Qed.
End FV.
Lemma val_range t s k v : int_repr t = Some (s, k) -> val_of t v = true -> in_range s k v = true.
Proof. unfold val_of. intros -> H. exact H. Qed.
Lemma int_only_cast_float t l : fmt_of t <> None -> int_only (NCast t l) = false.
Proof. intros H. cbn [int_only ntype]. destruct t; try reflexivity; now contradiction H. Qed.
(** ** binary32 to binary64 and back *)
Import SpecFloat FpSpec.
Lemma digits_spec p : 2 ^ (Zpos (digits2_pos p) - 1) <= Zpos p < 2 ^ Zpos (digits2_pos p).
Proof.
  induction p as [p IH|p IH|]; cbn [digits2_pos]; [| |cbn; lia].
  all: rewrite Pos2Z.inj_succ; replace (Z.succ (Z.pos (digits2_pos p)) - 1) with (Z.succ (Z.pos (digits2_pos p) - 1)) by lia; rewrite !Z.pow_succ_r by lia; lia.
Qed.
Lemma digits_unique p k : 0 < k -> 2 ^ (k - 1) <= Zpos p < 2 ^ k -> Zpos (digits2_pos p) = k.
Proof.
  intros K H. pose proof (digits_spec p) as D. destruct (Z.lt_trichotomy (Zpos (digits2_pos p)) k) as [L|[L|L]]; [|exact L|].
  - assert (2 ^ Zpos (digits2_pos p) <= 2 ^ (k - 1)) by (apply Z.pow_le_mono_r; lia). lia.
  - assert (2 ^ k <= 2 ^ (Zpos (digits2_pos p) - 1)) by (apply Z.pow_le_mono_r; lia). lia.
Qed.
Lemma iter_pos_add A (f : A -> A) n x : iter_pos f n x = Pos.iter f x n.
Proof. revert x. induction n as [n IH|n IH|]; intros x; cbn; rewrite ?IH; [|reflexivity|reflexivity]. rewrite <- !Pos.iter_swap. reflexivity. Qed.
Lemma shr_exact n p : iter_pos shr_1 n (Build_shr_record (Zpos p * 2 ^ Zpos n) false false) = Build_shr_record (Zpos p) false false.
Proof.
  rewrite iter_pos_add. revert p. induction n as [|n IH] using Pos.peano_ind; intros p.
  - replace (Zpos p * 2 ^ 1) with (Zpos (xO p)) by lia. reflexivity.
  - rewrite Pos.iter_succ_r. replace (Zpos p * 2 ^ Zpos (Pos.succ n)) with (Zpos (xO p) * 2 ^ Zpos n) by (rewrite Pos2Z.inj_succ, Z.pow_succ_r by lia; lia).
    replace (shr_1 _) with (Build_shr_record (Zpos p * 2 ^ Zpos n) false false); [apply IH|].
    assert (P : 0 < 2 ^ Zpos n) by (apply Z.pow_pos_nonneg; lia). destruct (2 ^ Zpos n) as [|q|q]; try lia. reflexivity.
Qed.
Lemma shift_val d p : Zpos (shift_pos d p) = Zpos p * 2 ^ Zpos d.
Proof. rewrite shift_pos_correct. change (Z.pow_pos 2 d) with (2 ^ Zpos d). lia. Qed.
(** an exact result *)
Lemma round_aux_exact prec emax s p e : fexp prec emax (Zpos (digits2_pos p) + e) = e -> e <= emax - prec -> binary_round_aux prec emax s (Zpos p) e loc_Exact = S754_finite s p e.
Proof.
  intros C B. unfold binary_round_aux, shr_fexp, Zdigits2. rewrite C, Z.sub_diag. cbn [shr shr_record_of_loc shr_m loc_of_shr_record round_nearest_even].
  rewrite C, Z.sub_diag. cbn [shr shr_m]. replace (Zle_bool e (emax - prec)) with true by (symmetry; apply Zle_imp_le_bool; lia). reflexivity.
Qed.
Lemma digits_shift p m d : Zpos (digits2_pos p) = d -> forall k, d <= k -> Zpos m = Zpos p * 2 ^ (k - d) -> Zpos (digits2_pos m) = k.
Proof.
  intros D k K V. apply digits_unique; [lia|]. rewrite V. pose proof (digits_spec p) as S. rewrite D in S.
  replace (k - 1) with ((d - 1) + (k - d)) by lia. replace (2 ^ k) with (2 ^ (d + (k - d))) by (f_equal; lia). rewrite !Z.pow_add_r by lia.
  assert (0 < 2 ^ (k - d)) by (apply Z.pow_pos_nonneg; lia). nia.
Qed.
(** what fits is not rounded *)
Lemma round_exact prec emax s p e d : Zpos (digits2_pos p) = d -> d <= prec -> SpecFloat.emin prec emax <= d + e - prec <= emax - prec ->
  exists m, binary_round prec emax s p e = S754_finite s m (d + e - prec) /\ Zpos m = Zpos p * 2 ^ (prec - d).
Proof.
  intros D L B. unfold binary_round, shl_align. rewrite D. replace (fexp prec emax (d + e)) with (d + e - prec) by (unfold fexp; lia). replace (d + e - prec - e) with (d - prec) by lia.
  assert (X : forall m, Zpos m = Zpos p * 2 ^ (prec - d) -> fexp prec emax (Zpos (digits2_pos m) + (d + e - prec)) = d + e - prec).
  { intros m V. rewrite (digits_shift p m d D prec L V). unfold fexp. lia. }
  destruct (d - prec) as [|k|k] eqn:EK; [|lia|].
  - exists p. assert (V : Zpos p = Zpos p * 2 ^ (prec - d)) by (replace (prec - d) with 0 by lia; lia). split; [|exact V].
    replace e with (d + e - prec) at 1 by lia. apply round_aux_exact; [now apply X|lia].
  - exists (shift_pos k p). assert (V : Zpos (shift_pos k p) = Zpos p * 2 ^ (prec - d)) by (rewrite shift_val; f_equal; f_equal; lia).
    split; [|exact V]. apply round_aux_exact; [now apply X|lia].
Qed.
Lemma round_down s p e m : Zpos (digits2_pos p) <= 24 -> -149 <= e <= 104 -> fexp 24 128 (Zpos (digits2_pos p) + e) = e ->
  Zpos m = Zpos p * 2 ^ (53 - Zpos (digits2_pos p)) -> binary_round 24 128 s m (e + Zpos (digits2_pos p) - 53) = S754_finite s p e.
Proof.
  intros D B C V. remember (Zpos (digits2_pos p)) as d eqn:ED. assert (D1 : 1 <= d) by lia.
  assert (DG : Zpos (digits2_pos m) = 53) by (apply (digits_shift p m d); auto; lia).
  unfold binary_round, shl_align. rewrite DG. replace (53 + (e + d - 53)) with (d + e) by lia. rewrite C. replace (e - (e + d - 53)) with (53 - d) by lia.
  destruct (53 - d) as [|k|k] eqn:EK; try lia. unfold binary_round_aux at 1, shr_fexp at 1, Zdigits2. rewrite DG.
  replace (53 + (e + d - 53)) with (d + e) by lia. rewrite C. replace (e - (e + d - 53)) with (Zpos k) by lia. cbn [shr shr_record_of_loc]. rewrite V.
  rewrite shr_exact. cbn [shr_m loc_of_shr_record round_nearest_even]. replace (e + d - 53 + Zpos k) with e by lia.
  unfold shr_fexp, Zdigits2. rewrite <- ED, C, Z.sub_diag. cbn [shr shr_m shr_record_of_loc]. replace (Zle_bool e (128 - 24)) with true by (symmetry; apply Zle_imp_le_bool; lia). reflexivity.
Qed.
(** the fields of a double *)
Lemma decode_normal s m e : 2 ^ 52 <= Zpos m < 2 ^ 53 -> -1074 <= e <= 971 -> decode B64 (encode B64 (S754_finite s m e)) = S754_finite s m e.
Proof.
  intros M B. set (b := if s then 1 else 0). assert (Bb : 0 <= b <= 1) by (subst b; destruct s; lia).
  assert (EZ : encode B64 (S754_finite s m e) = b * 2 ^ 63 + (e + 1075) * 2 ^ 52 + (Zpos m - 2 ^ 52)).
  { unfold encode, width, mbits, prec. change (53 - 1) with 52. change (64 - 1) with 63. replace (Z.pos m <? 2 ^ 52) with false by lia.
    change (FpSpec.emin B64) with (-1074). replace (if s then 2 ^ 63 else 0) with (b * 2 ^ 63) by (subst b; destruct s; reflexivity). rewrite Z.mod_small; lia. }
  rewrite EZ. unfold decode, width, mbits, ebits, prec, width. change (64 - 1) with 63. change (53 - 1) with 52. change (64 - 53) with 11. cbv zeta.
  set (z := b * 2 ^ 63 + (e + 1075) * 2 ^ 52 + (Z.pos m - 2 ^ 52)).
  assert (F1 : z / 2 ^ 63 mod 2 = b).
  { replace (z / 2 ^ 63) with b; [apply Z.mod_small; lia|]. apply (Z.div_unique z (2 ^ 63) b ((e + 1075) * 2 ^ 52 + (Zpos m - 2 ^ 52))); unfold z; lia. }
  assert (F2 : z / 2 ^ 52 mod 2 ^ 11 = e + 1075).
  { replace (z / 2 ^ 52) with (b * 2 ^ 11 + (e + 1075)) by (apply (Z.div_unique z (2 ^ 52) _ (Zpos m - 2 ^ 52)); unfold z; lia).
    rewrite Z.add_comm, Z.mod_add by lia. apply Z.mod_small. lia. }
  assert (F3 : z mod 2 ^ 52 = Zpos m - 2 ^ 52) by (symmetry; apply (Z.mod_unique z (2 ^ 52) (b * 2 ^ 11 + (e + 1075))); unfold z; lia).
  rewrite F1, F2, F3. replace (e + 1075 =? 2 ^ 11 - 1) with false by lia. replace (e + 1075 =? 0) with false by lia.
  replace (Z.pos m - 2 ^ 52 + 2 ^ 52) with (Z.pos m) by lia. replace (b =? 1) with s by (subst b; destruct s; reflexivity).
  f_equal. unfold FpSpec.emin, prec, emax, SpecFloat.emin. lia.
Qed.
(** what a float decodes to *)
Lemma decode_single z s p e : 0 <= z < 2 ^ 32 -> decode B32 z = S754_finite s p e -> Zpos (digits2_pos p) <= 24 /\ -149 <= e <= 104 /\ fexp 24 128 (Zpos (digits2_pos p) + e) = e.
Proof.
  intros Z D. unfold decode, width, mbits, ebits, prec, width in D. change (32 - 1) with 31 in D. change (24 - 1) with 23 in D. change (32 - 24) with 8 in D. cbv zeta in D. change (FpSpec.emin B32) with (-149) in D.
  pose proof (Z.mod_pos_bound (z / 2 ^ 23) (2 ^ 8)) as E. pose proof (Z.mod_pos_bound z (2 ^ 23)) as M.
  set (ee := z / 2 ^ 23 mod 2 ^ 8) in *. set (mm := z mod 2 ^ 23) in *.
  destruct (ee =? 2 ^ 8 - 1) eqn:E1; [destruct (mm =? 0); discriminate|]. destruct (ee =? 0) eqn:E2.
  - destruct mm as [|q|q] eqn:EM; try discriminate. injection D as _ <- <-.
    pose proof (digits_spec q) as S. assert (Zpos (digits2_pos q) <= 23).
    { destruct (Z.le_gt_cases (Zpos (digits2_pos q)) 23) as [|G]; [assumption|]. assert (2 ^ 23 <= 2 ^ (Zpos (digits2_pos q) - 1)) by (apply Z.pow_le_mono_r; lia). lia. }
    unfold fexp, SpecFloat.emin. lia.
  - destruct (mm + 2 ^ 23) as [|q|q] eqn:EM; try discriminate. injection D as _ <- <-.
    assert (DG : Zpos (digits2_pos q) = 24) by (apply digits_unique; [lia|]; rewrite <- EM; lia). rewrite DG. unfold fexp, SpecFloat.emin. lia.
Qed.
Lemma round_trip z : 0 <= z < 2 ^ 32 -> decode B32 z <> S754_nan -> fconv B64 B32 (fconv B32 B64 z) = z.
Proof.
  intros Z N. pose proof (C72_encodings B32 z Z N) as EN. unfold fconv. destruct (decode B32 z) as [s|s| |s p e] eqn:D; [| |now contradiction N|].
  - replace (decode B64 _) with (S754_zero s) by (destruct s; reflexivity). exact EN.
  - replace (decode B64 _) with (S754_infinity s) by (destruct s; vm_compute; reflexivity). exact EN.
  - destruct (decode_single _ _ _ _ Z D) as (D24 & B & C). change (FpSpec.prec B64) with 53. change (FpSpec.emax B64) with 1024. change (FpSpec.prec B32) with 24. change (FpSpec.emax B32) with 128.
    destruct (round_exact 53 1024 s p e _ eq_refl ltac:(lia) ltac:(unfold SpecFloat.emin; lia)) as (m & -> & V).
    pose proof (digits_spec p) as S. set (d := Zpos (digits2_pos p)) in *. assert (D1 : 1 <= d) by lia.
    assert (M : 2 ^ 52 <= Zpos m < 2 ^ 53).
    { rewrite V. replace 52 with ((d - 1) + (53 - d)) at 1 by lia. replace (2 ^ 53) with (2 ^ (d + (53 - d))) by (f_equal; lia). rewrite !Z.pow_add_r by lia.
      assert (0 < 2 ^ (53 - d)) by (apply Z.pow_pos_nonneg; lia). nia. }
    rewrite decode_normal by lia. replace (d + e - 53) with (e + d - 53) by lia. unfold d. rewrite round_down; assumption.
Qed.

(** ** Integers, rounded once or twice *)
Lemma round_again s p m d : Zpos (digits2_pos p) = d -> d <= 53 -> Zpos m = Zpos p * 2 ^ (53 - d) -> binary_round 24 128 s m (d - 53) = binary_round 24 128 s p 0.
Proof.
  intros D L V. assert (DG := digits_shift p m d D 53 L V). destruct (Z.le_gt_cases d 24) as [S|S].
  - destruct (round_exact 24 128 s p 0 d D S ltac:(unfold SpecFloat.emin; lia)) as (q & -> & VQ). assert (DQ := digits_shift p q d D 24 S VQ).
    replace (d - 53) with ((d + 0 - 24) + Zpos (digits2_pos q) - 53) by lia. rewrite round_down; rewrite ?DQ; try lia; try reflexivity.
    + unfold fexp, SpecFloat.emin. lia.
    + rewrite V, VQ, <- Z.mul_assoc, <- Z.pow_add_r by lia. f_equal. f_equal. lia.
  - unfold binary_round, shl_align. rewrite D, DG. replace (53 + (d - 53)) with d by lia. rewrite Z.add_0_r. assert (F : fexp 24 128 d = d - 24) by (unfold fexp, SpecFloat.emin; lia).
    rewrite F. replace (d - 24 - (d - 53)) with 29 by lia. rewrite Z.sub_0_r. destruct (d - 24) as [|k|k] eqn:EK; try lia.
    enough (Q : shr_fexp 24 128 (Zpos m) (d - 53) loc_Exact = shr_fexp 24 128 (Zpos p) 0 loc_Exact) by (unfold binary_round_aux; rewrite Q; reflexivity).
    unfold shr_fexp, Zdigits2. rewrite D, DG. replace (53 + (d - 53)) with d by lia. rewrite Z.add_0_r, F. replace (Z.pos k - (d - 53)) with 29 by lia. rewrite Z.sub_0_r. cbn [shr shr_record_of_loc].
    replace (d - 53 + 29) with (0 + Z.pos k) by lia. f_equal. symmetry.
    destruct (53 - d) as [|j|j] eqn:EJ; [|..|lia].
    + rewrite V. replace k with 29%positive by lia. rewrite Z.mul_1_r. reflexivity.
    + rewrite V. replace 29%positive with (k + j)%positive by lia. rewrite !iter_pos_add, Pos.iter_add, <- (iter_pos_add _ _ j), shr_exact. reflexivity.
Qed.
Lemma narrow_int v : Z.abs v < 2 ^ 53 -> fconv B64 B32 (fof B64 v) = fof B32 v.
Proof.
  intros B. unfold fof, fconv. change (FpSpec.prec B64) with 53. change (FpSpec.emax B64) with 1024. change (FpSpec.prec B32) with 24. change (FpSpec.emax B32) with 128.
  assert (K : forall s p, Zpos p < 2 ^ 53 ->
    encode B32 (match decode B64 (encode B64 (binary_round 53 1024 s p 0)) with S754_finite s m e => binary_round 24 128 s m e | y => y end) = encode B32 (binary_round 24 128 s p 0)).
  { intros s p P. pose proof (digits_spec p) as S. remember (Zpos (digits2_pos p)) as d eqn:D. symmetry in D.
    assert (L : d <= 53). { destruct (Z.le_gt_cases d 53) as [|G]; [assumption|]. assert (2 ^ 53 <= 2 ^ (d - 1)) by (apply Z.pow_le_mono_r; lia). lia. }
    destruct (round_exact 53 1024 s p 0 d D L ltac:(unfold SpecFloat.emin; lia)) as (m & -> & V). pose proof (digits_spec m) as M. rewrite (digits_shift p m d D 53 L V) in M.
    rewrite Z.add_0_r, decode_normal by (change (53 - 1) with 52 in M; lia). f_equal. now apply round_again. }
  destruct v as [|p|p]; [reflexivity|apply (K false p); lia|apply (K true p); lia].
Qed.

Lemma int_zero v : Z.abs v < 2 ^ 53 -> nonzero (fof B64 v) = negb (v =? 0).
Proof.
  intros B. unfold nonzero, fcmp, fof. change (FpSpec.prec B64) with 53. change (FpSpec.emax B64) with 1024. replace (decode B64 0) with (S754_zero false) by (vm_compute; reflexivity).
  assert (K : forall s p, Zpos p < 2 ^ 53 -> SFeqb (decode B64 (encode B64 (binary_round 53 1024 s p 0))) (S754_zero false) = false).
  { intros s p P. pose proof (digits_spec p) as S. remember (Zpos (digits2_pos p)) as d eqn:D. symmetry in D.
    assert (L : d <= 53). { destruct (Z.le_gt_cases d 53) as [|G]; [assumption|]. assert (2 ^ 53 <= 2 ^ (d - 1)) by (apply Z.pow_le_mono_r; lia). lia. }
    destruct (round_exact 53 1024 s p 0 d D L ltac:(unfold SpecFloat.emin; lia)) as (m & -> & V). pose proof (digits_spec m) as M. rewrite (digits_shift p m d D 53 L V) in M.
    rewrite Z.add_0_r, decode_normal by (change (53 - 1) with 52 in M; lia). unfold SFeqb, SFcompare. destruct s; reflexivity. }
  destruct v as [|p|p]; [vm_compute; reflexivity| |]; unfold binary_normalize; rewrite K by lia; reflexivity.
Qed.
Lemma trunc_wide z : 0 <= z < 2 ^ 32 -> ftrunc B64 (fconv B32 B64 z) = ftrunc B32 z.
Proof.
  intros Z. unfold fconv. unfold ftrunc at 2. destruct (decode B32 z) as [s|s| |s p e] eqn:D.
  - destruct s; reflexivity.
  - destruct s; vm_compute; reflexivity.
  - vm_compute; reflexivity.
  - destruct (decode_single _ _ _ _ Z D) as (D24 & B & C). change (FpSpec.prec B64) with 53. change (FpSpec.emax B64) with 1024.
    pose proof (digits_spec p) as S. remember (Zpos (digits2_pos p)) as d eqn:ED. symmetry in ED. assert (D1 : 1 <= d) by lia.
    destruct (round_exact 53 1024 s p e d ED ltac:(lia) ltac:(unfold SpecFloat.emin; lia)) as (m & -> & V). pose proof (digits_spec m) as M. rewrite (digits_shift p m d ED 53 ltac:(lia) V) in M.
    unfold ftrunc. rewrite decode_normal by (change (53 - 1) with 52 in M; lia). cbv zeta. rewrite V. clear M V S.
    assert (0 < 2 ^ (53 - d)) by (apply Z.pow_pos_nonneg; lia).
    enough (Q : (if d + e - 53 <? 0 then Z.pos p * 2 ^ (53 - d) / 2 ^ (- (d + e - 53)) else Z.pos p * 2 ^ (53 - d) * 2 ^ (d + e - 53)) = (if e <? 0 then Z.pos p / 2 ^ (- e) else Z.pos p * 2 ^ e)) by (rewrite Q; reflexivity).
    destruct (Z.ltb_spec (d + e - 53) 0), (Z.ltb_spec e 0); try lia.
    + replace (- (d + e - 53)) with ((- e) + (53 - d)) by lia. rewrite Z.pow_add_r by lia. apply Z.div_mul_cancel_r; [|lia]. assert (0 < 2 ^ (- e)) by (apply Z.pow_pos_nonneg; lia). lia.
    + replace (53 - d) with (e + (- (d + e - 53))) at 1 by lia. rewrite Z.pow_add_r, Z.mul_assoc by lia. apply Z.div_mul. assert (0 < 2 ^ (- (d + e - 53))) by (apply Z.pow_pos_nonneg; lia). lia.
    + rewrite <- Z.mul_assoc, <- Z.pow_add_r by lia. f_equal. f_equal. lia.
Qed.

Section FV.
Variable fv : Z -> Z.
Local Notation ceval := (ceval fv). Local Notation ceval_rval := (ceval_rval fv). Local Notation folds := (folds fv).
(** ** The doubles *)
Lemma fev_cast E t d m v m' : int_only (NCast t d) = false -> fev E false (NCast t d) m = Some (v, m') ->
  exists x, fev E false d m = Some (x, m') /\ fcast (ntype d) t x = Some v.
Proof.
  intros IO EV. cbn [fev] in EV. rewrite IO in EV. destruct (fev E false d m) as [[x m1]|] eqn:E1; [|discriminate].
  destruct (fcast (ntype d) t x) eqn:E2; [|discriminate]. injection EV as <- <-. eauto.
Qed.
Lemma is_double_ty t : is_double t = true -> t = TDouble. Proof. destruct t; discriminate || reflexivity. Qed.
Lemma folds_float n : folds n = true -> fmt_of (ntype n) <> None.
Proof.
  intros F. destruct n; cbn [FevalSpec.folds ntype] in *; try discriminate.
  - destruct t; discriminate || (cbn; congruence).
  - destruct (fmt_of (ntype n2)); congruence.
  - destruct t; try discriminate; cbn; congruence.
  - repeat match goal with H : _ && _ = true |- _ => apply andb_true_iff in H as [? ?] end.
    repeat match goal with H : is_double _ = true |- _ => apply is_double_ty in H; rewrite ?H end. cbn. congruence.
  - destruct t; try discriminate; cbn; congruence.
  - destruct o; try discriminate; destruct t; try discriminate; cbn; congruence.
Qed.
Lemma float_not_int n : fmt_of (ntype n) <> None -> int_only n = false.
Proof. intros H. destruct (int_only n) eqn:I; [|reflexivity]. apply int_only_type in I. destruct (ntype n); cbn in *; congruence. Qed.
Lemma small_cond t x : small_int t = true -> val_of t x = true -> (forall k, as_double t (CI (sx 64 x) None) k = k (fof B64 x)) /\ ftruth t x = Some (nonzero (fof B64 x)).
Proof.
  intros HT V. assert (B : - 2 ^ 31 <= x < 2 ^ 32 /\ (is_unsigned t = true -> 0 <= x) /\ is_integer t = true /\ fmt_of t = None /\ is_scalar t = true).
  { unfold val_of in V. destruct t as [| |[]|[]|[]|[]| | | | | | | | | |]; try discriminate HT; unfold in_range in V; cbn in V |- *; repeat split; lia. }
  clear HT V. destruct B as (B & U & I & FN & SC). assert (SX : sx 64 x = x) by (apply (sx_id 64); lia). assert (AB : Z.abs x < 2 ^ 53) by lia. split.
  - intros k. cbn [as_double]. rewrite I, SX. destruct (is_unsigned t); [|reflexivity]. specialize (U eq_refl). unfold u64. rewrite Z.mod_small by lia. reflexivity.
  - unfold ftruth. rewrite FN, SC, int_zero by exact AB. reflexivity.
Qed.
Local Opaque fop fneg fof fconv fcmp ftrunc.
Section Folds.
Variable E : env.
Hypothesis HE : env_ok E.
Definition folded (n : node) : Prop := forall m v m', folds n = true -> fev E false n m = Some (v, m') -> ceval false n = CD (widen (ntype n) v).
Lemma folded_double n : folded n -> is_double (ntype n) = true -> forall m v m', folds n = true -> fev E false n m = Some (v, m') -> ceval false n = CD v.
Proof. intros H D m v m' F EV. rewrite (H m v m' F EV), (is_double_ty _ D). reflexivity. Qed.
Lemma folds_both n : folded n /\ forall t d, n = NCast t d -> folded d.
Proof.
  induction n using node_induct; (split; [|intros ? ? [=]; subst; tauto]); intros m0 v0 m' F EV; pose proof (folds_float _ F) as NF; pose proof (float_not_int _ NF) as IO; cbn [FevalSpec.folds] in F; try discriminate F.
  - cbn [fev] in EV. rewrite IO in EV. cbn [ntype] in *. destruct t; try discriminate F; cbn [fmt_of FevalModel.ceval ntype is_float widen] in EV |- *; [apply Z.eqb_eq in F; rewrite F|]; match type of EV with (if ?b then _ else _) = _ => destruct b end; try discriminate; injection EV as <- <-; reflexivity.
  - (* comma *)
    cbn [fev] in EV. rewrite IO in EV. destruct (fev E false n1 m0) as [[x m1]|]; [|discriminate]. cbn [ntype] in *.
    destruct (fmt_of (ntype n2)) eqn:FM; [|discriminate]. cbn [FevalModel.ceval ntype]. rewrite (float_node _ _ FM). rewrite (proj1 IHn2 _ _ _ F EV). reflexivity.
  - (* conversion *)
    destruct t; try discriminate F. destruct (fev_cast _ _ _ _ _ _ IO EV) as (x & EX & FC). cbn [FevalModel.ceval ntype is_float]. unfold fcast in FC. cbn [fmt_of] in FC. unfold widen at 1. cbn [fmt_of].
    destruct (fmt_of (ntype n)) as [f|] eqn:FM.
    + rewrite (float_node _ _ FM), (proj1 IHn _ _ _ F EX). unfold as_double, widen. rewrite FM. injection FC as <-. destruct f; reflexivity.
    + apply andb_true_iff in F as [FL F]. replace (is_float (ntype n)) with false by (destruct (ntype n); try discriminate FL; reflexivity).
      destruct (int_repr (ntype n)) as [[s k]|] eqn:R; [|destruct (ntype n); discriminate FC].
      assert (v0 = fof B64 x) by (destruct (ntype n); try discriminate FL; injection FC as <-; reflexivity). subst v0.
      apply orb_true_iff in F as [F|F].
      * destruct (folds_int_ok fv _ _ _ _ _ HE F EX) as (-> & V). assert (V' := val_range _ _ _ _ R (V ltac:(congruence))).
        cbn [as_int]. rewrite (sx_id 64) by (apply (fits_range _ _ _ _ FL R) in V'; lia). reflexivity.
      * destruct n; try discriminate F. apply andb_true_iff in F as [D F]. cbn [ntype] in *.
        pose proof (folds_float _ F) as NF'. assert (IO' : int_only (NCast t n) = false) by (cbn [int_only]; rewrite (float_not_int _ NF'), andb_comm; reflexivity).
        destruct (fev_cast _ _ _ _ _ _ IO' EX) as (y & EY & FC').
        cbn [FevalModel.ceval ntype]. replace (is_float t) with false by (destruct t; try discriminate FL; reflexivity).
        rewrite (folded_double n (proj2 IHn _ _ eq_refl) D _ _ _ F EY). unfold as_int at 2.
        unfold fcast in FC'. rewrite (is_double_ty _ D), FM in FC'. cbn [fmt_of] in FC'.
        assert (FC2 : ftrunc B64 y = Some x /\ in_range s k x = true).
        { destruct t; try discriminate FL; rewrite R in FC'; destruct (ftrunc B64 y) as [z|]; try discriminate; destruct (in_range s k z) eqn:I; try discriminate; injection FC' as <-; auto. }
        destruct FC2 as (-> & I). pose proof (fits_range _ _ _ _ FL R I). replace ((- 2 ^ 63 <=? x) && (x <? 2 ^ 63)) with true by lia.
        rewrite (fits_cast _ _ _ _ FL R I). reflexivity.
  - (* the conditional operator *)
    repeat match goal with H : _ && _ = true |- _ => apply andb_true_iff in H as [? ?] end.
    cbn [fev] in EV. rewrite IO in EV. destruct (fev E false n1 m0) as [[x m1]|] eqn:E1; [|discriminate].
    assert (T : ntype (NCond n1 n2 n3) = TDouble) by (cbn [ntype]; repeat match goal with H : is_double _ = true |- _ => apply is_double_ty in H; rewrite ?H end; reflexivity).
    rewrite T. cbn [FevalModel.ceval]. rewrite T. cbn [is_float].
    assert (CC : exists y, (forall k, as_double (ntype n1) (ceval false n1) k = k y) /\ ftruth (ntype n1) x = Some (nonzero y)).
    { match goal with H : _ || _ = true |- _ => apply orb_true_iff in H as [H|H]; apply andb_true_iff in H as [HT HF] end.
      - exists x. rewrite (folded_double n1) with (m := m0) (v := x) (m' := m1) by tauto. rewrite (is_double_ty (ntype n1)) by assumption. split; reflexivity.
      - destruct (folds_int_ok fv _ _ _ _ _ HE HF E1) as (-> & V). exists (fof B64 x).
        apply small_cond; [exact HT|]. apply V. clear - HT. destruct (ntype n1); try discriminate HT; cbn; congruence. }
    destruct CC as (y & -> & FT). rewrite FT in EV. destruct (nonzero y).
    + rewrite (folded_double n2) with (m := m1) (v := v0) (m' := m') by tauto. reflexivity.
    + rewrite (folded_double n3) with (m := m1) (v := v0) (m' := m') by tauto. reflexivity.
  - (* minus *)
    destruct t; try discriminate F. apply andb_true_iff in F as [D F]. cbn [fev] in EV. rewrite IO in EV. destruct (fev E false n m0) as [[x m1]|] eqn:E1; [|discriminate].
    cbn [fmt_of] in EV. injection EV as <- <-. cbn [FevalModel.ceval ntype is_float]. rewrite (folded_double n) with (m := m0) (v := x) (m' := m1) by tauto. reflexivity.
  - (* operators *)
    cbn [fev] in EV. rewrite IO in EV. destruct (fev E false n2 m0) as [[y m1]|] eqn:E1; [|discriminate]. destruct (fev E false n1 m1) as [[x m2]|] eqn:E2; [|discriminate].
    destruct o; try discriminate F; destruct t; try discriminate F; repeat match goal with H : _ && _ = true |- _ => apply andb_true_iff in H as [? ?] end;
      rewrite (is_double_ty (ntype n1)) in EV by assumption; cbn [fmt_of fbin_val] in EV; injection EV as <- <-; cbn [FevalModel.ceval ntype is_float];
      rewrite (folded_double n1) with (m := m1) (v := x) (m' := m2) by tauto; rewrite (folded_double n2) with (m := m0) (v := y) (m' := m1) by tauto; reflexivity.
Qed.
End Folds.
Theorem folds_ok E n m v m' : env_ok E -> folds n = true -> fev E false n m = Some (v, m') -> ceval false n = CD (widen (ntype n) v).
Proof. intros HE. apply (proj1 (folds_both E HE n)). Qed.

End FV.
