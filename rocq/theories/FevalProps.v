(** Property C73: static initializers and constant expressions with float and double. *)
From Verif Require Import Base TypeModel IntArith NodeModel NodeProofs ValSpec NodeSpec EvalModel EvalSpec EvalProofs EvalProps FpSpec FloatSpec FloatProofs FloatProps FevalModel FevalSpec FevalProofs.
From Coq Require Import ZifyBool ZifyNat.

(** Without floating point, the functions of C33. *)
Theorem C73_integers fv n : int_only n = true -> eval_int fv n = of_eres (eval n).
Proof. intros IO. unfold eval_int, eval. rewrite (proj1 (ceval_int fv n IO)). destruct (eval2 false n); reflexivity. Qed.
Print Assumptions C73_integers.

(** [fv] is what is written for a constant of type float, as a double (FevalModel). *)
(** The bits written for an object of type [t], float or double, initialized with a
    constant expression: those of the value, converted to [t]. Missing ([folds]): arithmetic
    in float, long double, conversions to float or bool inside and from unsigned long to
    double, float constants that are not written exactly (see C73_float_constant),
    conditions and comparisons that look at a floating value; much of it is
    refuted below. *)
Theorem C73_static_float_partial fv E n m v m' t w :
  env_ok E -> fwell_typed n = true -> folds fv n = true \/ (folds_int n = true /\ is_integer (ntype n) = true) ->
  fev E false n m = Some (v, m') -> fmt_of t <> None -> fcast (ntype n) t v = Some w ->
  (t = TFloat -> not_twice_rounded (ntype n) v = true) -> static_float fv t n = CD w.
Proof.
  intros HE WT [F|[F I]] EV FT FC TR.
  - pose proof (folds_ok fv E n m v m' HE F EV) as CE. pose proof (folds_float fv n F) as NF. destruct (fmt_of (ntype n)) as [f|] eqn:FM; [|congruence].
    pose proof (C72_float_value_range E n m v m' f HE WT FM EV) as R. unfold fcast in FC. rewrite FM in FC. unfold widen in CE. rewrite FM in CE. unfold not_twice_rounded in TR. rewrite FM in TR.
    destruct t; try (now contradiction FT); cbn [fmt_of] in FC; injection FC as <-; cbn [static_float]; unfold eval_double; rewrite CE; destruct f; cbn [as_double fmt_eqb]; try reflexivity.
    rewrite round_trip; [reflexivity|exact R|]. specialize (TR eq_refl). destruct (decode B32 v); congruence.
  - destruct (folds_int_ok fv E n m v m' HE F EV) as (CE & V). destruct (int_repr (ntype n)) as [[s k]|] eqn:R; [|destruct (ntype n); discriminate].
    specialize (V ltac:(congruence)). apply (val_range _ _ _ _ R) in V. assert (FM : fmt_of (ntype n) = None) by (destruct (ntype n); try discriminate I; reflexivity).
    assert (U : (if is_unsigned (ntype n) then u64 (sx 64 v) else sx 64 v) = v).
    { unfold u64. destruct (ntype n) as [| |[]|[]|[]|[]| | | | | | | | | |]; try discriminate I; injection R as <- <-; unfold in_range in V; cbn [is_unsigned]; try (apply (sx_id 64); lia).
      all: transitivity (v mod 2 ^ 64); [apply (sx_eqm 64); lia|apply Z.mod_small; lia]. }
    assert (w = fof (match t with TFloat => B32 | _ => B64 end) v).
    { unfold fcast in FC. rewrite FM in FC. destruct t; try (now contradiction FT); cbn [fmt_of] in FC; destruct (ntype n); try discriminate I; injection FC as <-; reflexivity. } subst w.
    destruct t; try (now contradiction FT); cbn [static_float]; unfold eval_double; rewrite CE; cbn [as_double]; rewrite I, U; [|reflexivity].
    unfold not_twice_rounded in TR. rewrite FM in TR. specialize (TR eq_refl). rewrite narrow_int by lia. reflexivity.
Qed.
Print Assumptions C73_static_float_partial.

(** A floating initializer or operand where an integer is wanted: the integral part. *)
Theorem C73_static_integer_partial fv E n m v m' t w :
  env_ok E -> fwell_typed n = true -> folds fv n = true -> fits_long t = true ->
  fev E false n m = Some (v, m') -> fcast (ntype n) t v = Some w -> eval_int fv n = CI w None.
Proof.
  intros HE WT F FL EV FC. pose proof (folds_ok fv E n m v m' HE F EV) as CE. pose proof (folds_float fv n F) as NF. destruct (fmt_of (ntype n)) as [f|] eqn:FM; [|congruence].
  pose proof (C72_float_value_range E n m v m' f HE WT FM EV) as R. unfold eval_int. rewrite CE. cbn [as_int].
  assert (T : ftrunc B64 (widen (ntype n) v) = ftrunc f v) by (unfold widen; rewrite FM; destruct f; [apply trunc_wide; exact R|reflexivity]). rewrite T.
  unfold fcast in FC. rewrite FM in FC. destruct (int_repr t) as [[s k]|] eqn:RT; [|destruct t; discriminate].
  assert (W : ftrunc f v = Some w /\ in_range s k w = true).
  { replace (fmt_of t) with (@None fmt) in FC by (destruct t; try discriminate FL; reflexivity).
    destruct t; try discriminate FL; try rewrite RT in FC; destruct (ftrunc f v) as [z|]; try discriminate; destruct (in_range s k z) eqn:IR; try discriminate; injection FC as <-; auto. }
  destruct W as (-> & IR). pose proof (fits_range _ _ _ _ FL RT IR). replace ((- 2 ^ 63 <=? w) && (w <? 2 ^ 63)) with true by lia. reflexivity.
Qed.
Print Assumptions C73_static_integer_partial.

(** float f = 0.1f: right if rounding what is written to double and then to float is *)
Theorem C73_float_constant fv v : fconv B64 B32 (fv v) = v -> static_float fv TFloat (NNum TFloat v) = CD v.
Proof. intros H. cbn [static_float ceval ntype is_float as_double]. rewrite H. reflexivity. Qed.
Print Assumptions C73_float_constant.

(** Widening to double loses nothing; an integer below 2^53 is rounded once. *)
Theorem C73_round_trip z : 0 <= z < 2 ^ 32 -> decode B32 z <> SpecFloat.S754_nan -> fconv B64 B32 (fconv B32 B64 z) = z.
Proof. exact (round_trip z). Qed.
Print Assumptions C73_round_trip.
Theorem C73_int_to_float v : Z.abs v < 2 ^ 53 -> fconv B64 B32 (fof B64 v) = fof B32 v.
Proof. exact (narrow_int v). Qed.
Print Assumptions C73_int_to_float.

(** *** Cases *)
Definition exact : Z -> Z := fconv B32 B64.
Definition dbl_ (v : Z) : node := NNum TDouble v.
Definition flt_ (v : Z) : node := NNum TFloat v.
(** (3 < 4 ? -(1 + 0.5f) : 2.) * (int)2.75: -3 *)
Definition fold_sample : node :=
  NBin Mul TDouble
    (NCond (mk_bin Lt (int_ 3) (int_ 4)) (NNeg TDouble (NBin Add TDouble (NCast TDouble (int_ 1)) (NCast TDouble (flt_ 0x3F000000)))) (dbl_ 0x4000000000000000))
    (NCast TDouble (NCast (TInt false) (dbl_ 0x4006000000000000))).
Example C73_nonvacuous :
  env_ok no_env /\ fwell_typed fold_sample = true /\ folds exact fold_sample = true /\ not_twice_rounded (ntype fold_sample) 0xC008000000000000 = true /\
  (exists m', fev no_env false fold_sample (fun _ => 0) = Some (0xC008000000000000, m')) /\
  static_float exact TDouble fold_sample = CD 0xC008000000000000 /\ static_float exact TFloat fold_sample = CD 0xC0400000 /\ eval_int exact fold_sample = CI (-3) None.
Proof. split; [intros x; cbn; lia|]. do 3 (split; [vm_compute; reflexivity|]). split; [eexists|repeat split]; vm_compute; reflexivity. Qed.
(** float f = 0.25f; double d = 18446744073709551615ul *)
Example C73_nonvacuous_roots :
  not_twice_rounded TFloat 0x3E800000 = true /\ folds exact (flt_ 0x3E800000) = true /\ static_float exact TFloat (flt_ 0x3E800000) = CD 0x3E800000 /\
  folds_int (NNum (TLong true) (2 ^ 64 - 1)) = true /\ static_float exact TDouble (NNum (TLong true) (2 ^ 64 - 1)) = CD (fof B64 (2 ^ 64 - 1)).
Proof. repeat split; vm_compute; reflexivity. Qed.

(** float f = 0.1f *)
Example C73_float_constant_nonvacuous : let fv := fun _ : Z => 0x3FB999999999999A in fconv B64 B32 (fv 0x3DCCCCCD) = 0x3DCCCCCD /\ static_float fv TFloat (flt_ 0x3DCCCCCD) = CD 0x3DCCCCCD.
Proof. split; vm_compute; reflexivity. Qed.

(** ** What [folds] leaves out *)
(** [n], of type [s], initializes an object of type [t]: C says [w], the compiler [w'] *)
Definition folded_wrong (fv : Z -> Z) (t : ty) (n : node) (w w' : Z) : Prop :=
  fwell_typed n = true /\ (exists v m', fev no_env false n (fun _ => 0) = Some (v, m') /\ fcast (ntype n) t v = Some w) /\ w <> w' /\
  (if is_float t then static_float fv t n = CD w' else eval_int fv n = CI w' None).
Ltac wrong := unfold folded_wrong; split; [vm_compute; reflexivity|]; split; [do 2 eexists; split; [vm_compute; reflexivity|vm_compute; reflexivity]|]; split; [vm_compute; discriminate|vm_compute; reflexivity].
(** double d = (float)0.1: not narrowed *)
Theorem C73_narrowing_refuted : folded_wrong exact TDouble (NCast TFloat (dbl_ 0x3FB999999999999A)) 0x3FB99999A0000000 0x3FB999999999999A.
Proof. wrong. Qed.
(** double d = 16777216.f + 1.f: computed in double *)
Theorem C73_float_sum_refuted : folded_wrong exact TDouble (NBin Add TFloat (flt_ 0x4B800000) (flt_ 0x3F800000)) 0x4170000000000000 0x4170000010000000.
Proof. wrong. Qed.
(** double d = 0.1f: not rounded to float *)
Theorem C73_float_constant_refuted : folded_wrong (fun _ => 0x3FB999999999999A) TDouble (flt_ 0x3DCCCCCD) 0x3FB99999A0000000 0x3FB999999999999A.
Proof. wrong. Qed.
(** double d = 0. + 18446744073709551615ul: converted as -1 *)
Theorem C73_unsigned_refuted : folded_wrong exact TDouble (NCast TDouble (NNum (TLong true) (2 ^ 64 - 1))) 0x43F0000000000000 0xBFF0000000000000.
Proof. wrong. Qed.
(** int i = 1.25 < 1.5: the operands are truncated first *)
Theorem C73_compare_refuted : folded_wrong exact (TInt false) (NBin Lt (TInt false) (dbl_ 0x3FF4000000000000) (dbl_ 0x3FF8000000000000)) 1 0.
Proof. wrong. Qed.
(** int i = !0.5 *)
Theorem C73_not_refuted : folded_wrong exact (TInt false) (NNot (dbl_ 0x3FE0000000000000)) 0 1.
Proof. wrong. Qed.
(** int i = 0.5 ? 1 : 2 *)
Theorem C73_condition_refuted : folded_wrong exact (TInt false) (NCond (dbl_ 0x3FE0000000000000) (int_ 1) (int_ 2)) 1 2.
Proof. wrong. Qed.
(** _Bool b = 0.5 *)
Theorem C73_bool_refuted : folded_wrong exact TBool (dbl_ 0x3FE0000000000000) 1 0.
Proof. wrong. Qed.
(** float f = 18014399583223809l, that is 2^54 + 2^30 + 1: rounded twice *)
Theorem C73_twice_rounded_refuted : folded_wrong exact TFloat (NNum (TLong false) 18014399583223809) 0x5A800001 0x5A800000.
Proof. wrong. Qed.
