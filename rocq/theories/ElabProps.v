(** Properties C53, C54, C65: the meaning of an expression as it is written is the meaning
    of the tree the parser builds, and of the code printed for it. *)
From Verif Require Import Base TypeModel IntArith NodeModel ValSpec NodeSpec NodeProofs RvSpec GenModel GenSpec GenProps ElabSpec ElabProofs ElabSim.
From Coq Require Import ZifyBool ZifyNat.
Local Notation length := List.length.

(** Two memories with the same contents at the addresses of the program *)
Definition same_on (V : Z -> bool) (m m' : mem) : Prop := forall a, V a = true -> m a = m' a.
(** The two types are the same, or int and an enumeration *)
Definition same_type (a b : ty) : Prop := a = b \/ (In a [TInt false; TEnum] /\ In b [TInt false; TEnum]).
(** Neither the program's memory nor the temporaries k, ..., k'-1 *)
Definition foreign (E : env) (V : Z -> bool) (k k' : nat) (a : Z) : Prop :=
  V a = false /\ forall j, (k <= j < k')%nat -> a < e_addr E (VLocal j) \/ e_addr E (VLocal j) + 8 <= a.

(** ** C65 *)
Section Source.
Variables (E : env) (V : Z -> bool) (k0 kN : nat).
Hypothesis OK : env_ok E.
Hypothesis TM : temporaries (e_addr E) V (e_valid E) k0 kN.
Variable call : Z -> list ty -> ty -> list Z -> mem -> option (Z * mem).
Hypothesis CALL : calls_agree V call (e_call E).

(** Every well typed expression without the forms excluded by [plain] is accepted; its tree
    has its type, its value and its effect on the program's memory, and changes nothing else
    but temporaries of its own. *)
Theorem C65_source_meaning_partial e t k : plain e = true -> ctype e = Some t -> exists n k', elab e k = Some (n, k') /\ (k <= k')%nat /\ well_typed n = true /\ same_type (ntype n) t /\
  ((k0 <= k /\ k' <= kN)%nat -> forall lv m m2 v m', cev (e_addr E) V call lv e m = Some (v, m') -> same_on V m m2 ->
     exists m2', ev E lv n m2 = Some (v, m2') /\ same_on V m' m2' /\ forall a, foreign E V k k' a -> m2' a = m2 a).
Proof.
  intros P T. destruct (elab_sim E V k0 kN OK TM call CALL e t P T k) as (n & k' & EL & KK & (WT & TT & _) & D). exists n, k'. split; [exact EL|]. split; [exact KK|]. split; [exact WT|]. split.
  - destruct TT as [->|[A B]]; [now left|right]. apply ei_cases in A, B. split; [destruct A as [->| ->]|destruct B as [->| ->]]; cbn; auto.
  - intros K lv m m2 v m' C AG. destruct (D K lv m v m' m2 C AG) as (m2' & EV & AG' & F). exists m2'. split; [exact EV|]. split; [exact AG'|]. intros a [Va N]. apply F; [exact Va|]. intros j Hj B. specialize (N j Hj). lia.
Qed.

(** ... and the printed code computes it *)
Theorem C65_source_code_partial W goff fp room e t k : setting E W goff fp -> plain e = true -> ctype e = Some t -> exists n k', elab e k = Some (n, k') /\
  ((k0 <= k /\ k' <= kN)%nat -> forall s c s' q m m2 v m', gen goff false n s = Some (c, s') -> qual false n = Some q -> cev (e_addr E) V call false e m = Some (v, m') -> same_on V m m2 ->
     exists m2', same_on V m' m2' /\ computes E W fp room c q (need n) m2 v m2').
Proof.
  intros HS P T. destruct (C65_source_meaning_partial e t k P T) as (n & k' & EL & KK & WT & _ & D). exists n, k'. split; [exact EL|]. intros K s c s' q m m2 v m' G Q C AG.
  destruct (D K false m m2 v m' C AG) as (m2' & EV & AG' & _). exists m2'. split; [exact AG'|]. exact (C38_expression_code E W goff fp room n false s c s' q m2 v m2' HS WT Q G EV).
Qed.

(** ** C53 *)
(** p + n and n + p are |n| elements after (before) p: the address moves by n times the
    size of an element *)
Theorem C53_add_partial p i tp b ti k : plain p = true -> plain i = true -> promotable p = true -> promotable i = true -> ctype p = Some tp -> pointee tp = Some b -> complete b = true -> ctype i = Some ti -> is_arith ti = true ->
  exists n1 k1 n2 k2, elab (CBin SAdd p i) k = Some (n1, k1) /\ elab (CBin SAdd i p) k = Some (n2, k2) /\ ntype n1 = TPtr b /\ ntype n2 = TPtr b /\
  ((k0 <= k /\ k1 <= kN /\ k2 <= kN)%nat -> forall m x y m1 m2, cev (e_addr E) V call false i m = Some (y, m1) -> cev (e_addr E) V call false p m1 = Some (x, m2) -> - 2 ^ 63 <= y * size_of b < 2 ^ 63 ->
     exists m3 m4, ev E false n1 m = Some ((x + y * size_of b) mod 2 ^ 64, m3) /\ same_on V m2 m3 /\ ev E false n2 m = Some ((x + y * size_of b) mod 2 ^ 64, m4) /\ same_on V m2 m4).
Proof.
  intros P1 P2 Q1 Q2 T1 PT CO T2 AR.
  assert (S1: pointee (operand_type p tp) = Some b) by (rewrite (op_promote p tp T1 Q1), pointee_promote; exact PT).
  assert (S2: is_arith (operand_type i ti) = true) by (rewrite (op_promote i ti T2 Q2), arith_promote_iff; exact AR).
  assert (S3: is_arith (operand_type p tp) = false) by (destruct (operand_type p tp); try discriminate S1; reflexivity).
  assert (S4: pointee (operand_type i ti) = None) by (destruct (operand_type i ti); try discriminate S2; reflexivity).
  assert (C1: ctype (CBin SAdd p i) = Some (TPtr b)) by (cbn [ctype]; rewrite T1, T2; unfold bin_type; rewrite S1, S2, S3, S4, CO; reflexivity).
  assert (C2: ctype (CBin SAdd i p) = Some (TPtr b)) by (cbn [ctype]; rewrite T1, T2; unfold bin_type; rewrite S1, S2, S3, S4, CO; reflexivity).
  assert (D1: plain (CBin SAdd p i) = true) by (cbn [plain]; rewrite P1, P2, Q1, Q2; reflexivity).
  assert (D2: plain (CBin SAdd i p) = true) by (cbn [plain]; rewrite P1, P2, Q1, Q2; reflexivity).
  destruct (C65_source_meaning_partial _ _ k D1 C1) as (n1 & k1 & E1 & _ & _ & TY1 & V1). destruct (C65_source_meaning_partial _ _ k D2 C2) as (n2 & k2 & E2 & _ & _ & TY2 & V2).
  assert (NP: forall n, same_type (ntype n) (TPtr b) -> ntype n = TPtr b) by (intros n [X|[_ X]]; [exact X|destruct X as [X|[X|[]]]; discriminate X]).
  exists n1, k1, n2, k2. split; [exact E1|]. split; [exact E2|]. split; [now apply NP|]. split; [now apply NP|]. intros (K & L1 & L2) m x y m1 m2 CI CP R.
  assert (RR: in_range true 64 (y * size_of b) = true) by (unfold in_range; cbn; lia).
  assert (O1: op_of p = operand_type p tp) by (unfold op_of, ty_of; now rewrite T1). assert (O2: op_of i = operand_type i ti) by (unfold op_of, ty_of; now rewrite T2).
  assert (W1: cev (e_addr E) V call false (CBin SAdd p i) m = Some ((x + y * size_of b) mod 2 ^ 64, m2)).
  { cbn [cev]. unfold right_first, bin_order, bin_op. rewrite O1, O2, S1, S2, S3, S4. cbn [andb]. rewrite CI, CP. unfold ptr_add. rewrite RR. reflexivity. }
  assert (W2: cev (e_addr E) V call false (CBin SAdd i p) m = Some ((x + y * size_of b) mod 2 ^ 64, m2)).
  { cbn [cev]. unfold right_first, bin_order, bin_op. rewrite O1, O2, S1, S2, S3, S4. cbn [andb]. rewrite CI, CP. unfold ptr_add. rewrite RR. reflexivity. }
  assert (RF: same_on V m m) by (intros a _; reflexivity).
  destruct (V1 (conj K L1) false m m _ _ W1 RF) as (m3 & EV1 & AG1 & _). destruct (V2 (conj K L2) false m m _ _ W2 RF) as (m4 & EV2 & AG2 & _). exists m3, m4. auto.
Qed.
(** p - n *)
Theorem C53_sub_partial p i tp b ti k : plain p = true -> plain i = true -> promotable p = true -> promotable i = true -> ctype p = Some tp -> pointee tp = Some b -> complete b = true -> ctype i = Some ti -> is_arith ti = true ->
  exists n k', elab (CBin SSub p i) k = Some (n, k') /\ ntype n = TPtr b /\
  ((k0 <= k /\ k' <= kN)%nat -> forall m x y m1 m2, cev (e_addr E) V call false i m = Some (y, m1) -> cev (e_addr E) V call false p m1 = Some (x, m2) -> - 2 ^ 63 <= y * size_of b < 2 ^ 63 ->
     exists m3, ev E false n m = Some ((x - y * size_of b) mod 2 ^ 64, m3) /\ same_on V m2 m3).
Proof.
  intros P1 P2 Q1 Q2 T1 PT CO T2 AR.
  assert (S1: pointee (operand_type p tp) = Some b) by (rewrite (op_promote p tp T1 Q1), pointee_promote; exact PT).
  assert (S2: is_arith (operand_type i ti) = true) by (rewrite (op_promote i ti T2 Q2), arith_promote_iff; exact AR).
  assert (S3: is_arith (operand_type p tp) = false) by (destruct (operand_type p tp); try discriminate S1; reflexivity).
  assert (S4: pointee (operand_type i ti) = None) by (destruct (operand_type i ti); try discriminate S2; reflexivity).
  assert (C1: ctype (CBin SSub p i) = Some (TPtr b)) by (cbn [ctype]; rewrite T1, T2; unfold bin_type; rewrite S1, S2, S3, S4, CO; reflexivity).
  assert (D1: plain (CBin SSub p i) = true) by (cbn [plain]; rewrite P1, P2, Q1, Q2; reflexivity).
  destruct (C65_source_meaning_partial _ _ k D1 C1) as (n1 & k1 & E1 & _ & _ & TY1 & V1).
  exists n1, k1. split; [exact E1|]. split; [destruct TY1 as [X|[_ X]]; [exact X|destruct X as [X|[X|[]]]; discriminate X]|]. intros K m x y m1 m2 CI CP R.
  assert (RR: in_range true 64 (y * size_of b) = true) by (unfold in_range; cbn; lia).
  assert (O1: op_of p = operand_type p tp) by (unfold op_of, ty_of; now rewrite T1). assert (O2: op_of i = operand_type i ti) by (unfold op_of, ty_of; now rewrite T2).
  assert (W1: cev (e_addr E) V call false (CBin SSub p i) m = Some ((x - y * size_of b) mod 2 ^ 64, m2)).
  { cbn [cev]. unfold right_first, bin_order, bin_op. rewrite O1, O2, S1, S2, S3, S4. cbn [andb]. rewrite CI, CP. unfold ptr_sub. rewrite RR. reflexivity. }
  destruct (V1 K false m m _ _ W1 ltac:(intros a _; reflexivity)) as (m3 & EV1 & AG1 & _). exists m3. auto.
Qed.
(** p - q, [d] elements apart, is d *)
Theorem C53_difference_partial p q tp tq b b' k : plain p = true -> plain q = true -> promotable p = true -> promotable q = true -> ctype p = Some tp -> pointee tp = Some b -> complete b = true -> ctype q = Some tq -> pointee tq = Some b' ->
  exists n k', elab (CBin SSub p q) k = Some (n, k') /\ ntype n = TLong false /\
  ((k0 <= k /\ k' <= kN)%nat -> forall m x y m1 m2 d, cev (e_addr E) V call false q m = Some (y, m1) -> cev (e_addr E) V call false p m1 = Some (x, m2) -> x = y + d * size_of b -> - 2 ^ 63 <= x - y < 2 ^ 63 ->
     exists m3, ev E false n m = Some (d, m3) /\ same_on V m2 m3).
Proof.
  intros P1 P2 Q1 Q2 T1 PT CO T2 PT2.
  assert (S1: pointee (operand_type p tp) = Some b) by (rewrite (op_promote p tp T1 Q1), pointee_promote; exact PT).
  assert (S2: pointee (operand_type q tq) = Some b') by (rewrite (op_promote q tq T2 Q2), pointee_promote; exact PT2).
  assert (S3: is_arith (operand_type p tp) = false) by (destruct (operand_type p tp); try discriminate S1; reflexivity).
  assert (C1: ctype (CBin SSub p q) = Some (TLong false)) by (cbn [ctype]; rewrite T1, T2; unfold bin_type; rewrite S1, S2, S3, CO; reflexivity).
  assert (D1: plain (CBin SSub p q) = true) by (cbn [plain]; rewrite P1, P2, Q1, Q2; reflexivity).
  destruct (C65_source_meaning_partial _ _ k D1 C1) as (n1 & k1 & E1 & _ & _ & TY1 & V1).
  exists n1, k1. split; [exact E1|]. split; [destruct TY1 as [X|[_ X]]; [exact X|destruct X as [X|[X|[]]]; discriminate X]|]. intros K m x y m1 m2 d CI CP XD R.
  assert (SZ: 0 < size_of b) by (clear - CO; unfold complete in CO; destruct b; try discriminate CO; lia).
  assert (RR: in_range true 64 (x - y) = true) by (unfold in_range; cbn; lia).
  assert (O1: op_of p = operand_type p tp) by (unfold op_of, ty_of; now rewrite T1). assert (O2: op_of q = operand_type q tq) by (unfold op_of, ty_of; now rewrite T2).
  assert (W1: cev (e_addr E) V call false (CBin SSub p q) m = Some (d, m2)).
  { cbn [cev]. unfold right_first, bin_order, bin_op. rewrite O1, O2, S1, S2, S3. cbn [andb]. rewrite CI, CP. unfold ptr_diff. rewrite RR. replace (x - y) with (d * size_of b) by lia. rewrite Z.mod_mul, Z.div_mul by lia. reflexivity. }
  destruct (V1 K false m m _ _ W1 ltac:(intros a _; reflexivity)) as (m3 & EV1 & AG1 & _). exists m3. auto.
Qed.

(** ** C54 *)
(** a op= b: the address of a once, then b, then the object is read, and
    (T)(a op b) stored; the value is that of the object *)
Theorem C54_compound_assignment_partial o l r t k : plain (COpAssign o l r) = true -> ctype (COpAssign o l r) = Some t -> exists n k', elab (COpAssign o l r) k = Some (n, k') /\
  ((k0 <= k /\ k' <= kN)%nat -> forall m a m1 y m2 x z z' w m3,
     cev (e_addr E) V call true l m = Some (a, m1) -> cev (e_addr E) V call false r m1 = Some (y, m2) ->
     read V (bits_of l) t m2 a = Some x -> bin_op o (operand_type l t) (op_of r) x y = Some z -> conv t z = Some z' -> write V (bits_of l) t m2 a z' = Some (w, m3) ->
     exists m4, ev E false n m = Some (w, m4) /\ same_on V m3 m4).
Proof.
  intros P T. destruct (C65_source_meaning_partial _ _ k P T) as (n & k' & EL & _ & _ & _ & D). exists n, k'. split; [exact EL|]. intros K m a m1 y m2 x z z' w m3 CL CR RD BO CZ WR.
  assert (TL: ctype l = Some t). { cbn [ctype] in T. destruct (ctype l) as [tl|]; [|discriminate T]. destruct (ctype r) as [tr|]; [|discriminate T]. destruct (_ && _) in T; [congruence|discriminate T]. }
  assert (TY: ty_of l = t) by (unfold ty_of; now rewrite TL). assert (CE: cev (e_addr E) V call false (COpAssign o l r) m = Some (w, m3)).
  { cbn [cev]. rewrite CL, CR. unfold op_of at 1. rewrite TY, RD, BO, CZ. exact WR. }
  destruct (D K false m m _ _ CE ltac:(intros b _; reflexivity)) as (m4 & EV & AG & _). exists m4. auto.
Qed.
(** ++a and --a; a++ and a-- have the old value *)
Definition step_expr (up post : bool) (l : cexpr) : cexpr :=
  match up, post with true, false => CPreInc l | false, false => CPreDec l | true, true => CPostInc l | false, true => CPostDec l end.
Theorem C54_increment_partial up post l t k : plain (step_expr up post l) = true -> ctype (step_expr up post l) = Some t -> exists n k', elab (step_expr up post l) k = Some (n, k') /\
  ((k0 <= k /\ k' <= kN)%nat -> forall m a m1 x z z' w m2,
     cev (e_addr E) V call true l m = Some (a, m1) -> read V (bits_of l) t m1 a = Some x -> bin_op (if up then SAdd else SSub) (operand_type l t) int_t x 1 = Some z -> conv t z = Some z' -> write V (bits_of l) t m1 a z' = Some (w, m2) ->
     exists m3, ev E false n m = Some (if post then x else w, m3) /\ same_on V m2 m3).
Proof.
  intros P T. destruct (C65_source_meaning_partial _ _ k P T) as (n & k' & EL & _ & _ & _ & D). exists n, k'. split; [exact EL|]. intros K m a m1 x z z' w m2 CL RD BO CZ WR.
  assert (TL: ctype l = Some t). { destruct up, post; cbn [step_expr ctype] in T; (destruct (ctype l) as [tl|]; [|discriminate T]); destruct (is_lval l && _) in T; congruence. }
  assert (TY: ty_of l = t) by (unfold ty_of; now rewrite TL). assert (CE: cev (e_addr E) V call false (step_expr up post l) m = Some (if post then x else w, m2)).
  { destruct up, post; cbn [step_expr cev]; unfold op_of; rewrite CL, TY, RD, BO, CZ, WR; reflexivity. }
  destruct (D K false m m _ _ CE ltac:(intros b _; reflexivity)) as (m3 & EV & AG & _). exists m3. auto.
Qed.

(** The sum of two pointers, and a struct as an operand of + or the left one of -, are
    rejected *)
Theorem C53_pointer_sum_rejected p q tp tq k : plain p = true -> plain q = true -> ctype p = Some tp -> ctype q = Some tq -> pointee tp <> None -> pointee tq <> None -> elab (CBin SAdd p q) k = None.
Proof.
  intros P1 P2 T1 T2 B1 B2. destruct (elab_sim E V k0 kN OK TM call CALL p tp P1 T1 k) as (n1 & k1 & E1 & _ & (_ & Q1 & _) & _). destruct (elab_sim E V k0 kN OK TM call CALL q tq P2 T2 k1) as (n2 & k2 & E2 & _ & (_ & Q2 & _) & _).
  cbn [elab]. rewrite E1, E2. cbn [new_op]. unfold new_add. destruct (teq_all _ _ Q1) as (_ & BB1 & _ & _ & _ & _ & _ & _ & PP1 & _). destruct (teq_all _ _ Q2) as (_ & BB2 & _ & _ & _ & _ & _ & _ & PP2 & _).
  rewrite <- PP1 in B1. rewrite <- PP2 in B2. destruct (ntype n1); try (exfalso; apply B1; reflexivity); destruct (ntype n2); try (exfalso; apply B2; reflexivity); reflexivity.
Qed.
Theorem C53_struct_operand_rejected p q tp tq k : plain p = true -> plain q = true -> ctype p = Some tp -> ctype q = Some tq -> is_su tp = true -> elab (CBin SSub p q) k = None /\ (is_arith tq = true -> elab (CBin SAdd p q) k = None).
Proof.
  intros P1 P2 T1 T2 B1. destruct (elab_sim E V k0 kN OK TM call CALL p tp P1 T1 k) as (n1 & k1 & E1 & _ & (_ & Q1 & _) & _). destruct (elab_sim E V k0 kN OK TM call CALL q tq P2 T2 k1) as (n2 & k2 & E2 & _ & (_ & Q2 & _) & _).
  destruct (teq_all _ _ Q1) as (_ & _ & _ & _ & _ & _ & _ & _ & _ & SU & _). destruct (teq_all _ _ Q2) as (_ & _ & _ & _ & _ & _ & _ & PP2 & _). rewrite <- SU in B1. rewrite <- PP2.
  cbn [elab]. rewrite E1, E2. cbn [new_op]. unfold new_sub, new_add. split; [|intros B2]; destruct (ntype n1) eqn:N1; try discriminate B1; destruct (ntype n2) eqn:N2; try discriminate B2; cbn; rewrite ?N1; reflexivity.
Qed.
End Source.
Print Assumptions C65_source_meaning_partial.
Print Assumptions C65_source_code_partial.
Print Assumptions C53_add_partial.
Print Assumptions C53_sub_partial.
Print Assumptions C53_difference_partial.
Print Assumptions C53_pointer_sum_rejected.
Print Assumptions C53_struct_operand_rejected.
Print Assumptions C54_compound_assignment_partial.
Print Assumptions C54_increment_partial.

(** ** Examples *)
(** Program variables 0..9, 16 bytes each, below 2^20; temporaries 10..19 below them; a
    global at 2^32 *)
Definition sx_env : env :=
  Env (fun x => match x with VLocal k => if Nat.ltb k 20 then 2 ^ 20 - 16 * (Z.of_nat k + 1) else 4096 | VGlobal _ => 2 ^ 32 end)
      (fun a => (2 ^ 20 - 320 <=? a) && (a <? 2 ^ 20)) (fun _ _ _ _ _ => None).
Definition sx_prog (a : Z) : bool := (2 ^ 20 - 160 <=? a) && (a <? 2 ^ 20).
Lemma sx_ok : env_ok sx_env. Proof. intros [k|s]; unfold e_addr, sx_env; [destruct (Nat.ltb_spec k 20)|]; change (2 ^ 64) with 18446744073709551616; lia. Qed.
Lemma sx_temps : temporaries (e_addr sx_env) sx_prog (e_valid sx_env) 10 20.
Proof.
  assert (T: forall k, (10 <= k < 20)%nat -> e_addr sx_env (VLocal k) = 2 ^ 20 - 16 * (Z.of_nat k + 1)) by (intros k L; unfold e_addr, sx_env; destruct (Nat.ltb_spec k 20); lia).
  constructor; intros; rewrite ?T by assumption; unfold sx_prog, sx_env in *; cbn [e_valid]; rewrite ?T in * by assumption; try split; lia.
Qed.
Definition sx_call : Z -> list ty -> ty -> list Z -> mem -> option (Z * mem) := fun _ _ _ _ _ => None.
Definition value_of (r : option (Z * mem)) : option Z := option_map fst r.
Definition upd (m : mem) (a n v : Z) : mem := le_store m a n v.
Definition loc (k : nat) : Z := e_addr sx_env (VLocal k).
Definition lv_ k t := CVar (VLocal k) t.
Definition num v := CNum (TInt false) v.
(** int a[3] is variable 0, int *p = a + 1 variable 1, int i = 5 variable 2, an unsigned
    char 255 variable 3, a _Bool 1 variable 4, a struct with a bit-field, 0, variable 5 *)
Definition sx_mem : mem :=
  upd (upd (upd (upd (upd (upd (fun _ => 0) (loc 0) 4 10) (loc 0 + 4) 4 20) (loc 1) 8 (loc 0 + 4)) (loc 2) 4 5) (loc 3) 1 255) (loc 4) 1 1.
Definition va := lv_ 0 (TArr (TInt false) 3). Definition vp := lv_ 1 (TPtr (TInt false)). Definition vi := lv_ 2 (TInt false).
Definition vc := lv_ 3 (TChar true). Definition vb := lv_ 4 TBool.
Definition vf := CDot (lv_ 5 (TStruct 1 4 4)) (MInfo (TInt true) 0 (Some (0, 3))).

(** *p++ += a[0] * 2: the pointer moves once *)
Definition sx_expr := COpAssign SAdd (CDeref (CPostInc vp)) (CBin SMul (CIndex va (num 0)) (num 2)).
Example C65_nonvacuous : exists n k', env_ok sx_env /\ temporaries (e_addr sx_env) sx_prog (e_valid sx_env) 10 20 /\ plain sx_expr = true /\ ctype sx_expr = Some (TInt false) /\ elab sx_expr 10 = Some (n, k') /\ (k' <= 20)%nat /\
  value_and (cev (e_addr sx_env) sx_prog sx_call false sx_expr sx_mem) (fun m => le_load m (loc 0 + 4) 4) = Some (40, 40) /\
  value_and (ev sx_env false n sx_mem) (fun m => le_load m (loc 1) 8) = Some (40, loc 0 + 8).
Proof.
  do 2 eexists. split; [apply sx_ok|]. split; [apply sx_temps|]. split; [reflexivity|]. split; [reflexivity|]. split; [vm_compute; reflexivity|]. split; [lia|]. split; vm_compute; reflexivity.
Qed.
(** long g(long, int, ...) adds its arguments and the variable i *)
Definition sx_fun : Z -> list ty -> ty -> list Z -> mem -> option (Z * mem) :=
  fun fa ts r vs m => if (fa =? 2 ^ 32) && (List.length ts =? 4)%nat then Some (fold_right Z.add (le_load m (loc 2) 4) vs, m) else None.
Definition sx_env_g : env := Env (e_addr sx_env) (e_valid sx_env) sx_fun.
Lemma sx_fun_agrees : calls_agree sx_prog sx_fun (e_call sx_env_g).
Proof.
  intros fa ts ts' r vs m m2 v m' H AG F2. exists m2. cbn [e_call sx_env_g]. unfold sx_fun in *. assert (L : List.length ts' = List.length ts) by (clear - F2; induction F2; cbn; congruence). rewrite L. destruct ((fa =? 2 ^ 32) && _); [|discriminate]. injection H as <- <-.
  rewrite (GenBits.le_load_ext m2 m); [auto|]. intros k K. symmetry. f_equal. apply AG. change (loc 2) with (2 ^ 20 - 48). unfold sx_prog. lia.
Qed.
(** g(i++ * 2, c, a[1], p - p): int to long, unsigned char to int, and two more arguments *)
Definition sx_call_expr := CCall (CVar (VGlobal (bs "g"%string)) (TFunc (TLong false))) [TLong false; TInt false] true [CBin SMul (CPostInc vi) (num 2); vc; CIndex va (num 1); CBin SSub vp vp].
Example C65_call_nonvacuous : exists n k', calls_agree sx_prog sx_fun (e_call sx_env_g) /\ plain sx_call_expr = true /\ ctype sx_call_expr = Some (TLong false) /\ elab sx_call_expr 10 = Some (n, k') /\ (k' <= 20)%nat /\
  value_and (cev (e_addr sx_env) sx_prog sx_fun false sx_call_expr sx_mem) (fun m => le_load m (loc 2) 4) = Some (291, 6) /\ value_and (ev sx_env_g false n sx_mem) (fun m => le_load m (loc 2) 4) = Some (291, 6) /\ qual false n = Some 64.
Proof. do 2 eexists. split; [apply sx_fun_agrees|]. split; [reflexivity|]. split; [reflexivity|]. split; [vm_compute; reflexivity|]. split; [lia|]. split; [vm_compute; reflexivity|]. split; vm_compute; reflexivity. Qed.
Definition sx_goff (k : nat) : Z := if Nat.ltb k 20 then - (16 * (Z.of_nat k + 1)) else 4096 - 2 ^ 20.
Definition sx_world : world := World (fun _ => 2 ^ 32) (fun _ => 0) (fun _ => 0) (fun _ => None) (fun _ _ _ => None).
Example C65_code_nonvacuous : setting sx_env sx_world sx_goff (2 ^ 20) /\ exists n k' c s', elab sx_expr 10 = Some (n, k') /\ qual false n = Some 64 /\ gen sx_goff false n (GS 0 1) = Some (c, s') /\ (40 < length c)%nat.
Proof.
  split.
  - constructor; [apply sx_ok|reflexivity|]. intros k. unfold sx_goff, e_addr, sx_env. destruct (Nat.ltb_spec k 20); [|reflexivity]. rewrite Z.mod_small; change (2 ^ 64) with 18446744073709551616; lia.
  - do 4 eexists. split; [vm_compute; reflexivity|]. split; [vm_compute; reflexivity|]. split; [vm_compute; reflexivity|]. apply Nat.ltb_lt. vm_compute. reflexivity.
Qed.
Example C53_nonvacuous : ctype (CBin SAdd vp vi) = Some (TPtr (TInt false)) /\ plain (CBin SAdd vp vi) = true /\ (exists n k', elab (CBin SAdd vp vi) 10 = Some (n, k') /\ value_of (ev sx_env false n sx_mem) = Some (loc 0 + 24)) /\
  (exists n k', elab (CBin SSub vp va) 10 = Some (n, k') /\ value_of (ev sx_env false n sx_mem) = Some 1) /\
  (exists n k', elab (CBin SSub va vp) 10 = Some (n, k') /\ value_of (ev sx_env false n sx_mem) = Some (-1)) /\
  plain (CBin SAdd vp va) = true /\ elab (CBin SAdd vp va) 10 = None.
Proof. split; [reflexivity|]. split; [reflexivity|]. split; [do 2 eexists; split; [vm_compute; reflexivity|vm_compute; reflexivity]|]. split; [do 2 eexists; split; [vm_compute; reflexivity|vm_compute; reflexivity]|]. split; [do 2 eexists; split; [vm_compute; reflexivity|vm_compute; reflexivity]|]. split; reflexivity. Qed.
Example C54_nonvacuous : plain (step_expr true true vp) = true /\ ctype (step_expr true true vp) = Some (TPtr (TInt false)) /\
  (exists n k', elab (step_expr true true vp) 10 = Some (n, k') /\ value_and (ev sx_env false n sx_mem) (fun m => le_load m (loc 1) 8) = Some (loc 0 + 4, loc 0 + 8)) /\
  (exists n k', elab (COpAssign SMul vc vi) 10 = Some (n, k') /\ plain (COpAssign SMul vc vi) = true /\ value_and (ev sx_env false n sx_mem) (fun m => le_load m (loc 3) 1) = Some (251, 251)).
Proof. split; [reflexivity|]. split; [reflexivity|]. split; do 2 eexists; (split; [vm_compute; reflexivity|]); [vm_compute; reflexivity|]. split; vm_compute; reflexivity. Qed.

(** ** What is not so for the other expressions *)
Local Ltac wit := do 2 eexists; split; [vm_compute; reflexivity|]; split; [vm_compute; reflexivity|]; first [split; [vm_compute; reflexivity|vm_compute; discriminate]|vm_compute; reflexivity].
(** C says [v], the tree says [w] *)
Definition differs (e : cexpr) (v w : Z) : Prop := exists n k', elab e 10 = Some (n, k') /\ value_of (cev (e_addr sx_env) sx_prog sx_call false e sx_mem) = Some v /\ value_of (ev sx_env false n sx_mem) = Some w /\ v <> w.
(** The left operand of a shift and the operand of ~ are not promoted *)
Theorem C65_shift_promotion_refuted : differs (CCast (TLong false) (CBin SShl vc (num 1))) 510 254. Proof. wit. Qed.
Theorem C65_complement_promotion_refuted : differs (CCast (TLong false) (CBitNot vc)) (-256) 0. Proof. wit. Qed.
(** nor that of unary + *)
Theorem C65_plus_promotion_refuted : exists n k', elab (CPlus vc) 10 = Some (n, k') /\ ctype (CPlus vc) = Some (TInt false) /\ ntype n = TChar true. Proof. wit. Qed.
(** An unsigned bit-field narrower than int is not promoted to int: f - 1 < 0 *)
Theorem C65_bitfield_promotion_refuted : differs (CBin SLt (CBin SSub vf (num 1)) (num 0)) 1 0. Proof. wit. Qed.
(** &a has the type of &a[0]: &a + 1 is the next element *)
Theorem C53_address_of_array_refuted : differs (CBin SAdd (CAddr va) (num 1)) (loc 0 + 12) (loc 0 + 4). Proof. wit. Qed.
(** A small array, as the right operand of == or the last one of ?: and an integer
    on the other side, loses its upper address bits: 0 == s, 0 ? 0 : s *)
Theorem C65_small_array_compare_refuted : differs (CBin SEq (num 0) (CVar (VGlobal (bs "s"%string)) (TArr (TChar false) 3))) 0 1. Proof. wit. Qed.
Theorem C65_small_array_conditional_refuted : differs (CCond (num 0) (num 0) (CVar (VGlobal (bs "s"%string)) (TArr (TChar false) 3))) (2 ^ 32) 0. Proof. wit. Qed.
(** A struct of less than 4 bytes in ?: becomes an int *)
Theorem C65_small_struct_conditional_refuted : let v := lv_ 6 (TStruct 7 2 1) in exists n k', elab (CCond vi v v) 10 = Some (n, k') /\ ctype (CCond vi v v) = Some (TStruct 7 2 1) /\ ntype n = TInt false. Proof. wit. Qed.
(** b++ and b-- of a _Bool: the value is computed back from the new one *)
Theorem C54_bool_increment_refuted : differs (CPostInc vb) 1 0. Proof. wit. Qed.
Theorem C54_bool_decrement_refuted : exists n k', elab (CPostDec (lv_ 7 TBool)) 10 = Some (n, k') /\ value_of (cev (e_addr sx_env) sx_prog sx_call false (CPostDec (lv_ 7 TBool)) sx_mem) = Some 0 /\ value_of (ev sx_env false n sx_mem) = Some 1. Proof. wit. Qed.
(** i += p, which C forbids, is accepted and assigns to p *)
Theorem C53_add_pointer_to_int_refuted : exists n k', ctype (COpAssign SAdd vi vp) = None /\ elab (COpAssign SAdd vi vp) 10 = Some (n, k') /\
  value_and (ev sx_env false n sx_mem) (fun m => le_load m (loc 1) 8) = Some (loc 0 + 24, loc 0 + 24) /\ value_and (ev sx_env false n sx_mem) (fun m => le_load m (loc 2) 4) = Some (loc 0 + 24, 5).
Proof. do 2 eexists. split; [reflexivity|]. split; [vm_compute; reflexivity|]. split; vm_compute; reflexivity. Qed.
(** An integer minus a pointer, and the product of two pointers, are accepted *)
Theorem C53_int_minus_pointer_refuted : ctype (CBin SSub (num 5) vp) = None /\ ctype (CBin SMul vp vp) = None /\ elab (CBin SSub (num 5) vp) 10 <> None /\ elab (CBin SMul vp vp) 10 <> None.
Proof. repeat split; discriminate. Qed.
