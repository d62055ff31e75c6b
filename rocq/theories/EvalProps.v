(** Properties C33 and C35. *)
From Verif Require Import Base TypeModel IntArith NodeModel ValSpec NodeSpec EvalModel EvalSpec EvalProofs.
Local Open Scope Z_scope.

(** ** C33 *)
(** The value of a constant expression is the one C gives to it, as an int64_t (for
    types other than unsigned long and pointers that is the value itself). *)
Theorem C33_const_expr E n m v m' :
  env_ok E -> well_typed n = true -> grade_of n = Some Full -> host_safe n = true ->
  ev E false n m = Some (v, m') ->
  eval n = EOk (sx 64 v) None.
Proof.
  intros HE W G HS EV. destruct (eval_safe E n HE _ _ _ _ W G HS EV) as [r R]. unfold eval. rewrite R.
  pose proof (ub_ok_agrees _ _ _ _ (eval_sound E n HE _ _ _ _ W G EV) R) as A. cbn in A. now subst.
Qed.
Print Assumptions C33_const_expr.

(** An unsigned int computed by the last operation has the right low 32 bits. *)
Theorem C33_low_word E n m v m' :
  env_ok E -> well_typed n = true -> grade_of n = Some Low -> host_safe n = true ->
  ev E false n m = Some (v, m') ->
  exists r, eval n = EOk r None /\ r mod 2 ^ 32 = v mod 2 ^ 32.
Proof.
  intros HE W G HS EV. destruct (eval_safe E n HE _ _ _ _ W G HS EV) as [r R]. exists r. split; auto.
  exact (ub_ok_agrees _ _ _ _ (eval_sound E n HE _ _ _ _ W G EV) R).
Qed.
Print Assumptions C33_low_word.

(** Without the restriction to arithmetic that the compiler's own int64_t can hold:
    the result is right unless that arithmetic overflows. *)
Theorem C33_right_or_host_overflow E n m v m' g :
  env_ok E -> well_typed n = true -> grade_of n = Some g -> ev E false n m = Some (v, m') ->
  eval n = EUb \/ exists r, eval n = EOk r None /\ agrees g v r.
Proof. intros HE W G EV. exact (eval_sound E n HE _ _ _ _ W G EV). Qed.
Print Assumptions C33_right_or_host_overflow.

Definition no_env : env := Env (fun _ => 0) (fun _ => false) (fun _ _ _ _ _ => None).
Definition int_ (v : Z) : node := NNum (TInt false) v.
Definition uint_ (v : Z) : node := NNum (TInt true) v.
(** (5 * 3 - 20) / 2 < 0 ? (unsigned char)300 : 7 *)
Definition sample : node :=
  mk_cond (mk_bin Lt (mk_bin Div (mk_bin Sub (mk_bin Mul (int_ 5) (int_ 3)) (int_ 20)) (int_ 2)) (int_ 0)) (NCast (TChar true) (int_ 300)) (int_ 7).
Example C33_nonvacuous :
  env_ok no_env /\ well_typed sample = true /\ grade_of sample = Some Full /\ host_safe sample = true /\
  (exists m', ev no_env false sample (fun _ => 0) = Some (44, m')) /\ eval sample = EOk 44 None.
Proof. split; [intros x; cbn; lia|]. do 3 (split; [vm_compute; reflexivity|]). split; [eexists|]; vm_compute; reflexivity. Qed.
Example C33_low_nonvacuous :
  let n := mk_bin Sub (uint_ 1) (uint_ 2) in
  well_typed n = true /\ grade_of n = Some Low /\ host_safe n = true /\
  (exists m', ev no_env false n (fun _ => 0) = Some (4294967295, m')) /\ eval n = EOk (-1) None.
Proof. do 3 (split; [vm_compute; reflexivity|]). split; [eexists|]; vm_compute; reflexivity. Qed.

(** The unrestricted statement is false. An unsigned int is not reduced modulo 2^32
    until it is converted: !(4294967295u + 1u) is 1 in C, 0 here. *)
Theorem C33_unsigned_wrap_refuted : exists n m',
  well_typed n = true /\ ev no_env false n (fun _ => 0) = Some (1, m') /\ eval n = EOk 0 None.
Proof.
  exists (NNot (mk_bin Add (uint_ 4294967295) (uint_ 1))), (fun _ => 0).
  repeat split.
Qed.
(** (_Bool)256 is 1 in C. *)
Theorem C33_bool_refuted : exists n m',
  well_typed n = true /\ ev no_env false n (fun _ => 0) = Some (1, m') /\ eval n = EOk 0 None.
Proof. exists (NCast TBool (int_ 256)), (fun _ => 0). repeat split. Qed.
(** 0x8000000000000000ul - 1 overflows the compiler's int64_t. *)
Theorem C33_host_overflow_refuted : exists n m',
  well_typed n = true /\ grade_of n = Some Full /\
  ev no_env false n (fun _ => 0) = Some (9223372036854775807, m') /\ eval n = EUb.
Proof. exists (mk_bin Sub (NNum (TLong true) (2 ^ 63)) (int_ 1)), (fun _ => 0). repeat split. Qed.
(** The test that decides whether an array has constant length does not know %. *)
Theorem C33_modulo_not_constant_refuted : exists n m',
  well_typed n = true /\ ev no_env false n (fun _ => 0) = Some (2, m') /\ eval n = EOk 2 None /\ is_const_expr n = Some false.
Proof. exists (mk_bin Mod (int_ 5) (int_ 3)), (fun _ => 0). repeat split. Qed.
(** An address where a number is needed: the compiler writes through a null pointer
    instead of reporting it. *)
Theorem C33_address_crash_refuted : exists s, eval (NAddr (NVar (VGlobal s) (TInt false))) = ECrash.
Proof. exists [120]. reflexivity. Qed.
(** The value of a local array is accepted as an address constant, as if it had a symbol. *)
Theorem C33_local_array_refuted : exists k t, eval2 true (NVar (VLocal k) t) <> EErr.
Proof. exists 0%nat, (TArr (TInt false) 3). discriminate. Qed.

(** Everything recognised as a constant expression (and well typed, and with no
    floating point in it) evaluates without a diagnostic. *)
Lemma const_expr_shape n : is_const_expr n = Some true ->
  forall (NF : eval2 false n <> EFloat), eval2 false n = EUb \/ exists r, eval2 false n = EOk r None.
Proof.
  induction n using NodeProofs.node_induct; cbn [is_const_expr]; intros C NF; try discriminate.
  - cbn [eval2] in *. destruct (is_float (ntype (NNum t v))); [contradiction|right; eauto].
  - cbn [eval2] in *. destruct (is_float (ntype (NComma n1 n2))); [contradiction|auto].
  - cbn [eval2] in *. destruct (is_float (ntype (NCast t n))); [contradiction|].
    assert (X : eval2 false n <> EFloat) by (intros X; rewrite X in NF; contradiction).
    destruct (IHn C X) as [->|[r ->]]; cbn; eauto.
  - cbn [eval2] in *. destruct (is_float (ntype (NCond n1 n2 n3))); [contradiction|].
    assert (X : eval2 false n1 <> EFloat) by (intros X; rewrite X in NF; contradiction).
    destruct (is_const_expr n1) as [[|]|] eqn:C1; try discriminate. unfold eval in C.
    destruct (IHn1 eq_refl X) as [->|[r E1]]; [auto|]. rewrite E1 in *. cbn [bindE] in *. destruct (r =? 0); auto.
  - cbn [eval2] in *. destruct (is_float (ntype (NNeg t n))); [contradiction|].
    assert (X : eval2 false n <> EFloat) by (intros X; rewrite X in NF; contradiction).
    destruct (IHn C X) as [->|[r ->]]; cbn [bindE]; auto. destruct (chk64_cases (- r) None) as [->|[-> _]]; eauto.
  - cbn [eval2] in *. destruct (is_float (ntype (NNot n))); [contradiction|].
    assert (X : eval2 false n <> EFloat) by (intros X; rewrite X in NF; contradiction).
    destruct (IHn C X) as [->|[r ->]]; cbn; eauto.
  - cbn [eval2] in *. destruct (is_float (ntype (NBitNot n))); [contradiction|].
    assert (X : eval2 false n <> EFloat) by (intros X; rewrite X in NF; contradiction).
    destruct (IHn C X) as [->|[r ->]]; cbn; eauto.
  - cbn [eval2] in *. destruct (is_float (ntype (NLogAnd n1 n2))); [contradiction|].
    assert (X : eval2 false n1 <> EFloat) by (intros X; rewrite X in NF; contradiction).
    destruct (is_const_expr n1) as [[|]|] eqn:C1; try discriminate.
    destruct (IHn1 eq_refl X) as [->|[r E1]]; [auto|]. rewrite E1 in *. cbn [bindE] in *. destruct (r =? 0); [eauto|].
    assert (Y : eval2 false n2 <> EFloat) by (intros Y; rewrite Y in NF; contradiction).
    destruct (IHn2 C Y) as [->|[s ->]]; cbn; eauto.
  - cbn [eval2] in *. destruct (is_float (ntype (NLogOr n1 n2))); [contradiction|].
    assert (X : eval2 false n1 <> EFloat) by (intros X; rewrite X in NF; contradiction).
    destruct (is_const_expr n1) as [[|]|] eqn:C1; try discriminate.
    destruct (IHn1 eq_refl X) as [->|[r E1]]; [auto|]. rewrite E1 in *. cbn [bindE] in *. destruct (negb (r =? 0)); [eauto|].
    assert (Y : eval2 false n2 <> EFloat) by (intros Y; rewrite Y in NF; contradiction).
    destruct (IHn2 C Y) as [->|[s ->]]; cbn; eauto.
  - cbn [eval2] in *. destruct (is_float (ntype (NBin o t n1 n2))); [contradiction|].
    replace (match o with Add | Sub => false | _ => false end) with false in * by (destruct o; reflexivity).
    assert (X : eval2 false n1 <> EFloat) by (intros X; rewrite X in NF; contradiction).
    assert (C' : is_const_expr n1 = Some true /\ is_const_expr n2 = Some true).
    { destruct o; try discriminate; destruct (is_const_expr n1) as [[|]|]; try discriminate; auto. }
    destruct C' as [C1 C2]. destruct (IHn1 C1 X) as [->|[r E1]]; [auto|]. rewrite E1 in *. cbn [bindE] in *.
    assert (Y : eval2 false n2 <> EFloat) by (intros Y; rewrite Y in NF; contradiction).
    destruct (IHn2 C2 Y) as [->|[s ->]]; cbn [bindE]; auto.
    destruct o; cbn [eval_bin]; eauto;
      try (match goal with |- context [chk64 ?z None] => destruct (chk64_cases z None) as [->|[-> _]]; eauto end);
      repeat match goal with |- context [if ?c then _ else _] => destruct c; eauto end;
      try (match goal with |- context [chk64 ?z None] => destruct (chk64_cases z None) as [->|[-> _]]; eauto end).
Qed.
Theorem C33_recognised_evaluates n : is_const_expr n = Some true -> eval n <> EFloat -> eval n <> EErr /\ eval n <> ECrash.
Proof. intros C NF. unfold eval in *. destruct (const_expr_shape n C NF) as [->|[r ->]]; split; discriminate. Qed.
Print Assumptions C33_recognised_evaluates.
Example C33_recognised_nonvacuous : is_const_expr sample = Some true /\ eval sample <> EFloat.
Proof. vm_compute. split; [reflexivity|discriminate]. Qed.

(** ** C35 *)
(** Enumerators, when the given values are ints: [gs] are the given values. *)
Lemma enum_values_spec l : forall val gs vs,
  Forall2 (fun e g => match e, g with
                      | None, None => True
                      | Some n, Some v => eval n = EOk (sx 64 v) None /\ - 2 ^ 31 <= v < 2 ^ 31
                      | _, _ => False end) l gs ->
  enum_values val l = Some vs ->
  List.length vs = List.length gs /\
  forall i v, nth_error vs i = Some v ->
    match nth_error gs i with
    | Some (Some g) => v = g
    | _ => match i with O => v = val | S j => exists p, nth_error vs j = Some p /\ v = p + 1 end
    end.
Proof.
  induction l as [|e r IH]; intros val gs vs F H; inversion F as [|e0 y r0 l' HG FR]; subst; clear F; cbn [enum_values] in H.
  - inversion H; subst. split; [reflexivity|]. intros [|i] v; discriminate.
  - destruct (match e with None => Some val | Some n => match eval n with EOk v _ => Some (sx 32 v) | _ => None end end) as [v|] eqn:V; [|discriminate].
    destruct (v =? 2 ^ 31 - 1); [discriminate|]. destruct (enum_values (v + 1) r) as [vr|] eqn:R; [|discriminate]. inversion H; subst; clear H.
    destruct (IH _ _ _ FR R) as [L N]. split; [cbn; now rewrite L|].
    intros [|i] x Nx; cbn in Nx.
    + inversion Nx; subst. cbn. destruct e as [n|], y as [g|]; try contradiction.
      * destruct HG as [HG B]. rewrite HG in V. inversion V; subst. rewrite (sx_id 64) by lia. apply sx_id; lia.
      * congruence.
    + specialize (N i x Nx). cbn [nth_error]. destruct (nth_error l' i) as [[g|]|]; auto; destruct i; try exact N; exists v; split; auto; exact N.
Qed.
Theorem C35_enumerators l gs vs :
  Forall2 (fun e g => match e, g with
                      | None, None => True
                      | Some n, Some v => well_typed n = true /\ grade_of n = Some Full /\ host_safe n = true /\ constant_value n v /\ - 2 ^ 31 <= v < 2 ^ 31
                      | _, _ => False end) l gs ->
  enum_values 0 l = Some vs -> enum_rule gs vs.
Proof.
  intros F H. unfold enum_rule. apply enum_values_spec with (l := l); auto. clear H. induction F as [|e g l gs HF F IH]; constructor; auto.
  destruct e as [n|], g as [v|]; auto. destruct HF as (W & G & HS & CV & B). split; auto.
  assert (HE : env_ok no_env) by (intros x; cbn; lia). destruct (CV no_env (fun _ => 0) HE) as [m' EV]. eapply C33_const_expr; eauto.
Qed.
Print Assumptions C35_enumerators.
(** It succeeds when no enumerator reaches INT_MAX. *)
Theorem C35_enumerators_defined l gs vs :
  Forall2 (fun e g => match e, g with
                      | None, None => True
                      | Some n, Some v => well_typed n = true /\ grade_of n = Some Full /\ host_safe n = true /\ constant_value n v /\ - 2 ^ 31 <= v < 2 ^ 31
                      | _, _ => False end) l gs ->
  enum_rule gs vs -> Forall (fun v => v < 2 ^ 31 - 1) vs -> enum_values 0 l = Some vs.
Proof.
  intros F [L N]. revert vs L N. generalize 0 as val. induction F as [|e g l gs HF F IH]; intros val vs L N SM.
  - destruct vs; [reflexivity|discriminate].
  - destruct vs as [|v vs]; [discriminate|]. cbn [enum_values].
    assert (V : match e with None => Some val | Some n => match eval n with EOk v _ => Some (sx 32 v) | _ => None end end = Some v).
    { pose proof (N O v eq_refl) as N0. cbn in N0. destruct e as [n|], g as [w|]; try contradiction; [|congruence].
      destruct HF as (W & G & HS & CV & B). assert (HE : env_ok no_env) by (intros x; cbn; lia). destruct (CV no_env (fun _ => 0) HE) as [m' EV].
      rewrite (C33_const_expr _ _ _ _ _ HE W G HS EV). rewrite (sx_id 64) by lia. rewrite sx_id by lia. congruence. }
    rewrite V. inversion SM; subst. replace (v =? 2 ^ 31 - 1) with false by lia.
    rewrite (IH (v + 1) vs); auto.
    intros i x Nx. specialize (N (S i) x Nx). cbn in N. destruct (nth_error gs i) as [[w|]|]; auto; destruct i; auto; destruct N as (p & P & ->); cbn in P; congruence.
Qed.
Print Assumptions C35_enumerators_defined.
Lemma num_constant v : - 2 ^ 31 <= v < 2 ^ 31 -> constant_value (int_ v) v.
Proof. intros B E m _. exists m. cbn [ev int_]. unfold val_of. cbn [int_repr]. unfold in_range. cbn [negb]. replace ((- 2 ^ (32 - 1) <=? v) && (v <? 2 ^ (32 - 1))) with true by lia. reflexivity. Qed.
(** enum { A, B = 7, C, D = -1, E } *)
Example C35_nonvacuous :
  let l := [None; Some (int_ 7); None; Some (int_ (-1)); None] in
  enum_values 0 l = Some [0; 7; 8; -1; 0] /\
  Forall2 (fun e g => match e, g with
                      | None, None => True
                      | Some n, Some v => well_typed n = true /\ grade_of n = Some Full /\ host_safe n = true /\ constant_value n v /\ - 2 ^ 31 <= v < 2 ^ 31
                      | _, _ => False end) l [None; Some 7; None; Some (-1); None].
Proof.
  split; [reflexivity|]. repeat constructor; try (apply num_constant; lia); lia.
Qed.
(** enum { A = 2147483647 }: the increment after the last enumerator overflows. *)
Theorem C35_int_max_refuted : exists n, constant_value n (2 ^ 31 - 1) /\ enum_values 0 [Some n] = None.
Proof. exists (int_ (2 ^ 31 - 1)). split; [apply num_constant; lia|reflexivity]. Qed.
