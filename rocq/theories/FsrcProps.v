(** Property C74: expressions with float and double as they are written mean what the tree
    the parser builds means, and what the code printed for it does. *)
From Verif Require Import Base TypeModel IntArith NodeModel ValSpec NodeSpec NodeProofs RvSpec GenModel GenSpec GenProps FpSpec FloatSpec FloatProps ElabSpec ElabProofs ElabSim ElabProps FsrcSpec FsrcProofs FsrcSim.
From Coq Require Import ZifyBool ZifyNat.
Local Notation length := List.length.

Section Source.
Variables (E : env) (V : Z -> bool) (k0 kN : nat).
Hypothesis OK : env_ok E.
Hypothesis TM : temporaries (e_addr E) V (e_valid E) k0 kN.

(** Every well typed expression of [gtype] is accepted; its tree has its type, its value and
    its effect on the program's memory, and changes nothing else but temporaries of its own.
    Missing: calls, a ?: b, postfix ++ and -- (refuted below), floating assignments to
    bit-fields, long double; and of the integer expressions with something floating inside:
    pointer arithmetic, comparison of pointers with integers, elements and members
    found that way, structures. *)
Theorem C74_source_meaning_partial e t k : gtype e = Some t -> exists n k', elab e k = Some (n, k') /\ (k <= k')%nat /\ fwell_typed n = true /\ same_type (ntype n) t /\
  ((k0 <= k /\ k' <= kN)%nat -> forall m m2 v m', gev (e_addr E) V e m = Some (v, m') -> same_on V m m2 ->
     exists m2', fev E false n m2 = Some (v, m2') /\ same_on V m' m2' /\ forall a, foreign E V k k' a -> m2' a = m2 a).
Proof.
  intros T. destruct (fsrc_sim E V k0 kN OK TM e t T k) as (n & k' & EL & KK & WT & TT & D). exists n, k'. split; [exact EL|]. split; [exact KK|]. split; [exact WT|]. split.
  - destruct TT as [->|[A B]]; [now left|right]. apply ei_cases in A, B. split; [destruct A as [->| ->]|destruct B as [->| ->]]; cbn; auto.
  - intros K m m2 v m' C AG. destruct (D K m v m' m2 C AG) as (m2' & EV & AG' & F). exists m2'. split; [exact EV|]. split; [exact AG'|]. intros a [Va N]. apply F; [exact Va|]. intros j Hj B. specialize (N j Hj). lia.
Qed.

(** The code leaves the value in fa0 or a0, for the trees [fqual] admits *)
Theorem C74_source_code_partial W goff fp room e t k : setting E W goff fp -> gtype e = Some t -> exists n k', elab e k = Some (n, k') /\ same_type (ntype n) t /\
  ((k0 <= k /\ k' <= kN)%nat -> forall s c s' q m m2 v m', gen goff false n s = Some (c, s') -> fqual false n = Some q -> gev (e_addr E) V e m = Some (v, m') -> same_on V m m2 ->
     exists m2', same_on V m' m2' /\ runs E W fp room c (need n) m2 (holds false (ntype n) q v) m2').
Proof.
  intros HS T. destruct (C74_source_meaning_partial e t k T) as (n & k' & EL & KK & WT & TT & D). exists n, k'. split; [exact EL|]. split; [exact TT|]. intros K s c s' q m m2 v m' G Q C AG.
  destruct (D K m m2 v m' C AG) as (m2' & EV & AG' & _). exists m2'. split; [exact AG'|]. exact (C72_float_expression_code_partial E W goff fp room n false s c s' q m2 v m2' HS WT Q G EV).
Qed.

(** Of what has no floating part the meaning is that of C65. *)
Theorem C74_integers e t m : int_src e = true -> plain e = true -> ctype e = Some t -> gtype e = Some t /\ gev (e_addr E) V e m = cev (e_addr E) V no_call false e m.
Proof. intros I P T. split; destruct e; cbn [gtype gev]; rewrite I, ?P; auto. Qed.

(** l op= r where l or r is float or double, or something in r is: computed in the common type
    u, converted back, and l is found once *)
Theorem C74_compound_assignment_partial o l r tl tr u k : float_obj l || int_obj l = true -> ctype l = Some tl -> gtype r = Some tr -> compares o = false -> gop_type o tl tr = Some u -> exists n k', elab (COpAssign o l r) k = Some (n, k') /\ ntype n = tl /\
  ((k0 <= k /\ k' <= kN)%nat -> forall m a m1 y m2 x z w m3,
     cev (e_addr E) V no_call true l m = Some (a, m1) -> gev (e_addr E) V r m1 = Some (y, m2) ->
     fload V tl m2 a = Some x -> gop o tl tr x y = Some z -> fcast u tl z = Some w -> fstore V tl m2 a w = Some m3 ->
     exists m4, fev E false n m = Some (w, m4) /\ same_on V m3 m4 /\ forall b, foreign E V k k' b -> m4 b = m b).
Proof.
  intros O TL TR CP GU. destruct (lobj E V k0 kN OK TM l tl k O TL) as (nl & k1 & EL & GD & _). destruct (fsrc_sim E V k0 kN OK TM r tr TR k1) as (nr & k2 & ER & K2 & WR & QR & DR).
  destruct (fmodify E V k0 kN OK TM o l tl tr u k nl k1 nr k2 _ O TL EL GD K2 WR QR DR CP GU) as (p & n & RP & TA & TN & WN & D). exists n, (S k2). cbn [elab]. rewrite EL, ER, RP, TA. split; [reflexivity|]. split; [exact TN|].
  intros K m a m1 y m2 x z w m3 HL HR LD GO FC ST. destruct (D K _ _ _ _ _ _ _ _ _ m HL HR LD GO FC ST ltac:(intros b _; reflexivity)) as (m4 & EV & AG & FR). exists m4. split; [exact EV|]. split; [exact AG|]. intros b [Vb N]. apply FR; [exact Vb|]. intros j Hj B. specialize (N j Hj). lia.
Qed.

(** l++ and l-- where l is float or double: l is found once and becomes l + 1 or l - 1, as in C
    (6.5.2.4p2), and the value is the new one with the 1 taken away or added again.  It should be
    the old one: so it is when that gives it back, and not otherwise (refuted below). *)
Theorem C74_postfix_partial (up : bool) l tl f k : float_obj l = true -> ctype l = Some tl -> fmt_of tl = Some f -> exists n k', elab (if up then CPostInc l else CPostDec l) k = Some (n, k') /\ ntype n = tl /\
  ((k0 <= k /\ k' <= kN)%nat -> forall m a m1 x m3,
     let new := if up then fop FAdd f x (fof f 1) else fop FSub f x (fof f 1) in
     let old := if up then fop FSub f new (fof f 1) else fop FAdd f new (fof f 1) in
     cev (e_addr E) V no_call true l m = Some (a, m1) -> fload V tl m1 a = Some x -> fstore V tl m1 a new = Some m3 ->
     exists m4, fev E false n m = Some (old, m4) /\ same_on V m3 m4 /\ forall b, foreign E V k k' b -> m4 b = m b).
Proof.
  intros O TL F. destruct (fpost E V k0 kN OK TM up l tl f k O TL F) as (n & k' & EL & TN & _ & D). exists n, k'. split; [exact EL|]. split; [exact TN|]. intros K m a m1 x m3 new old HL LD ST.
  assert (ONE : forall x, gop SAdd tl int_t x 1 = Some (fop FAdd f x (fof f 1)) /\ gop SSub tl int_t x 1 = Some (fop FSub f x (fof f 1))) by (intros y; destruct tl; try discriminate F; injection F as <-; split; reflexivity).
  destruct (D K m a m1 x new old m3 HL LD ltac:(unfold new; destruct up; apply ONE) ST ltac:(unfold old; destruct up; apply ONE)) as (m4 & EV & AG & FR). exists m4. split; [exact EV|]. split; [exact AG|]. intros b [Vb N]. apply FR; [exact Vb|]. intros j Hj B. specialize (N j Hj). lia.
Qed.
End Source.
Print Assumptions C74_postfix_partial.
Print Assumptions C74_source_meaning_partial.
Print Assumptions C74_source_code_partial.
Print Assumptions C74_integers.
Print Assumptions C74_compound_assignment_partial.

(** ** Examples *)
(** float a[3] with a[1] = 10 is variable 0, a double d, 2^53, variable 1, int i = 5 variable
    2, float f = 1.5 variable 3, a struct with a float member, 0.1f, at offset 4 variable 4, and a
    float *q = a variable 5 *)
Definition gx_mem : mem :=
  upd (upd (upd (upd (upd (upd (fun _ => 0) (loc 0 + 4) 4 0x41200000) (loc 1) 8 0x4340000000000000) (loc 2) 4 5) (loc 3) 4 0x3FC00000) (loc 4 + 4) 4 0x3DCCCCCD) (loc 5) 8 (loc 0).
Definition ga := lv_ 0 (TArr TFloat 3). Definition gd := lv_ 1 TDouble. Definition gi := lv_ 2 (TInt false). Definition gf := lv_ 3 TFloat.
Definition gs := CDot (lv_ 4 (TStruct 3 8 4)) (MInfo TFloat 4 None). Definition gq := lv_ 5 (TPtr TFloat).
(** d = (a[1] += f * i) / 4.0 *)
Definition gx_expr := CAssign gd (CBin SDiv (COpAssign SAdd (CIndex ga (num 1)) (CBin SMul gf gi)) (CNum TDouble 0x4010000000000000)).
Example C74_nonvacuous : exists n k', env_ok sx_env /\ temporaries (e_addr sx_env) sx_prog (e_valid sx_env) 10 20 /\ gtype gx_expr = Some TDouble /\ elab gx_expr 10 = Some (n, k') /\ (k' <= 20)%nat /\
  value_and (gev (e_addr sx_env) sx_prog gx_expr gx_mem) (fun m => le_load m (loc 0 + 4) 4) = Some (0x4011800000000000, 0x418C0000) /\
  value_and (fev sx_env false n gx_mem) (fun m => le_load m (loc 1) 8) = Some (0x4011800000000000, 0x4011800000000000).
Proof.
  do 2 eexists. split; [apply sx_ok|]. split; [apply sx_temps|]. split; [vm_compute; reflexivity|]. split; [vm_compute; reflexivity|]. split; [lia|]. split; [vm_compute; reflexivity|vm_compute; reflexivity].
Qed.
(** i = f > s.x && !(q[1] == 10) || -d < 0 ? ++*q : (int)f *)
Definition gx_expr2 := CAssign gi (CCond (COr (CAnd (CBin SGt gf gs) (CNot (CBin SEq (CIndex gq (num 1)) (num 10)))) (CBin SLt (CNeg gd) (num 0))) (CPreInc (CDeref gq)) (CCast (TInt false) gf)).
Example C74_forms_nonvacuous : exists n k', gtype gx_expr2 = Some (TInt false) /\ elab gx_expr2 10 = Some (n, k') /\ (k' <= 20)%nat /\
  value_and (gev (e_addr sx_env) sx_prog gx_expr2 gx_mem) (fun m => le_load m (loc 0) 4) = Some (1, 0x3F800000) /\ value_and (fev sx_env false n gx_mem) (fun m => le_load m (loc 2) 4) = Some (1, 1) /\ fqual false n = Some 64.
Proof. do 2 eexists. split; [vm_compute; reflexivity|]. split; [vm_compute; reflexivity|]. split; [lia|]. split; [vm_compute; reflexivity|]. split; [vm_compute; reflexivity|vm_compute; reflexivity]. Qed.
Lemma sx_setting : setting sx_env sx_world sx_goff (2 ^ 20).
Proof. constructor; [apply sx_ok|reflexivity|]. intros k. unfold sx_goff, e_addr, sx_env. destruct (Nat.ltb_spec k 20); [|reflexivity]. rewrite Z.mod_small; change (2 ^ 64) with 18446744073709551616; lia. Qed.
Example C74_code_nonvacuous : setting sx_env sx_world sx_goff (2 ^ 20) /\ exists n k' c s', elab gx_expr 10 = Some (n, k') /\ fqual false n = Some 64 /\ gen sx_goff false n (GS 0 1) = Some (c, s') /\ (40 < length c)%nat.
Proof.
  split; [apply sx_setting|]. do 4 eexists. split; [vm_compute; reflexivity|]. split; [vm_compute; reflexivity|]. split; [vm_compute; reflexivity|]. apply Nat.ltb_lt. vm_compute. reflexivity.
Qed.
Example C74_integers_nonvacuous : int_src (CBin SAdd (num 2) gi) = true /\ plain (CBin SAdd (num 2) gi) = true /\ gtype (CBin SAdd (num 2) gi) = Some (TInt false) /\ int_src gx_expr = false.
Proof. repeat split; vm_compute; reflexivity. Qed.
(** s.x *= d: in double, then to float *)
Example C74_compound_nonvacuous : float_obj gs || int_obj gs = true /\ ctype gs = Some TFloat /\ gtype gd = Some TDouble /\ gop_type SMul TFloat TDouble = Some TDouble /\
  (exists n k', elab (COpAssign SMul gs gd) 10 = Some (n, k') /\ value_and (fev sx_env false n gx_mem) (fun m => le_load m (loc 4 + 4) 4) = Some (0x584CCCCD, 0x584CCCCD)).
Proof. split; [vm_compute; reflexivity|]. split; [vm_compute; reflexivity|]. split; [vm_compute; reflexivity|]. split; [reflexivity|]. do 2 eexists. split; [vm_compute; reflexivity|vm_compute; reflexivity]. Qed.
(** i *= f is 7: in float, then to int; i += (f < d) + (f > d ? 1 : 10) is 16, in int *)
Definition gx_expr3 := COpAssign SAdd gi (CBin SAdd (CBin SLt gf gd) (CCond (CBin SGt gf gd) (num 1) (num 10))).
Example C74_integer_object_nonvacuous : float_obj gi || int_obj gi = true /\ gop_type SMul (TInt false) TFloat = Some TFloat /\ gtype (COpAssign SMul gi gf) = Some (TInt false) /\ gtype gx_expr3 = Some (TInt false) /\ int_src gx_expr3 = false /\
  (exists n k', elab (COpAssign SMul gi gf) 10 = Some (n, k') /\ value_and (gev (e_addr sx_env) sx_prog (COpAssign SMul gi gf) gx_mem) (fun m => le_load m (loc 2) 4) = Some (7, 7) /\ value_and (fev sx_env false n gx_mem) (fun m => le_load m (loc 2) 4) = Some (7, 7) /\ fqual false n = Some 64) /\
  (exists n k', elab gx_expr3 10 = Some (n, k') /\ value_and (gev (e_addr sx_env) sx_prog gx_expr3 gx_mem) (fun m => le_load m (loc 2) 4) = Some (16, 16) /\ value_and (fev sx_env false n gx_mem) (fun m => le_load m (loc 2) 4) = Some (16, 16) /\ fqual false n = Some 64).
Proof.
  split; [vm_compute; reflexivity|]. split; [vm_compute; reflexivity|]. split; [vm_compute; reflexivity|]. split; [vm_compute; reflexivity|]. split; [vm_compute; reflexivity|].
  split; do 2 eexists; (split; [vm_compute; reflexivity|]); (split; [vm_compute; reflexivity|]); (split; [vm_compute; reflexivity|vm_compute; reflexivity]).
Qed.
(** -(f < d) - ~(int)f is -1 - -2; f < d ? q : q is q; i <<= f < d is 10 *)
Definition gx_expr6 := COpAssign SShl gi (CBin SLt gf gd).
Definition gx_expr4 := CBin SSub (CNeg (CBin SLt gf gd)) (CBitNot (CCast (TInt false) gf)).
Definition gx_expr5 := CCond (CBin SLt gf gd) gq gq.
Example C74_integer_operators_nonvacuous : gtype gx_expr4 = Some (TInt false) /\ gtype gx_expr5 = Some (TPtr TFloat) /\ option_map fst (gev (e_addr sx_env) sx_prog gx_expr5 gx_mem) = Some (loc 0) /\
  gtype gx_expr6 = Some (TInt false) /\ option_map fst (gev (e_addr sx_env) sx_prog gx_expr6 gx_mem) = Some 10 /\
  (exists n k', elab gx_expr4 10 = Some (n, k') /\ option_map fst (gev (e_addr sx_env) sx_prog gx_expr4 gx_mem) = Some 1 /\ value_of (fev sx_env false n gx_mem) = Some 1 /\ fqual false n = Some 64).
Proof. split; [vm_compute; reflexivity|]. split; [vm_compute; reflexivity|]. split; [vm_compute; reflexivity|]. split; [vm_compute; reflexivity|]. split; [vm_compute; reflexivity|]. do 2 eexists. split; [vm_compute; reflexivity|]. split; [vm_compute; reflexivity|]. split; [vm_compute; reflexivity|vm_compute; reflexivity]. Qed.
(** q = f < d ? &f : &s.x stores the address of f; the value of the whole is that address *)
Definition gx_expr7 := CAssign gq (CCond (CBin SLt gf gd) (CAddr gf) (CAddr gs)).
Example C74_address_nonvacuous : ptr_obj gq = true /\ gtype (CAddr gf) = Some (TPtr TFloat) /\ gtype gx_expr7 = Some (TPtr TFloat) /\ int_src gx_expr7 = false /\
  exists n k', elab gx_expr7 10 = Some (n, k') /\ option_map fst (gev (e_addr sx_env) sx_prog gx_expr7 gx_mem) = Some (loc 3) /\ value_of (fev sx_env false n gx_mem) = Some (loc 3) /\ fqual false n = Some 64.
Proof. split; [vm_compute; reflexivity|]. split; [vm_compute; reflexivity|]. split; [vm_compute; reflexivity|]. split; [vm_compute; reflexivity|]. do 2 eexists. split; [vm_compute; reflexivity|]. split; [vm_compute; reflexivity|]. split; [vm_compute; reflexivity|vm_compute; reflexivity]. Qed.
(** (char * )(f < d ? &f : q) and (long)&f are the address of f; (void)(f = d) has no value and stores *)
Definition gx_expr8 := CCast (TPtr (TChar false)) (CCond (CBin SLt gf gd) (CAddr gf) gq).
Example C74_casts_nonvacuous : gtype gx_expr8 = Some (TPtr (TChar false)) /\ gtype (CCast (TLong false) (CAddr gf)) = Some (TLong false) /\ gtype (CCast TVoid (CAssign gf gd)) = Some TVoid /\ gtype (CCast (TPtr TFloat) gf) = None /\
  (exists n k', elab gx_expr8 10 = Some (n, k') /\ option_map fst (gev (e_addr sx_env) sx_prog gx_expr8 gx_mem) = Some (loc 3) /\ value_of (fev sx_env false n gx_mem) = Some (loc 3) /\ fqual false n = Some 64) /\
  (exists n k', elab (CCast TVoid (CAssign gf gd)) 10 = Some (n, k') /\ value_and (gev (e_addr sx_env) sx_prog (CCast TVoid (CAssign gf gd)) gx_mem) (fun m => le_load m (loc 3) 4) = Some (0, 0x5A000000) /\ value_and (fev sx_env false n gx_mem) (fun m => le_load m (loc 3) 4) = Some (0, 0x5A000000)).
Proof.
  split; [vm_compute; reflexivity|]. split; [vm_compute; reflexivity|]. split; [vm_compute; reflexivity|]. split; [vm_compute; reflexivity|]. split; do 2 eexists; (split; [vm_compute; reflexivity|]); (split; [vm_compute; reflexivity|]); [split; [vm_compute; reflexivity|vm_compute; reflexivity]|vm_compute; reflexivity].
Qed.
(** &f < (f < d ? q : &f) is 1: the address of f is below q *)
Definition gx_expr9 := CBin SLt (CAddr gf) (CCond (CBin SLt gf gd) gq (CAddr gf)).
Example C74_pointers_nonvacuous : gop_type SLt (TPtr TFloat) (TPtr TFloat) = Some (TInt false) /\ gtype gx_expr9 = Some (TInt false) /\
  exists n k', elab gx_expr9 10 = Some (n, k') /\ option_map fst (gev (e_addr sx_env) sx_prog gx_expr9 gx_mem) = Some 1 /\ value_of (fev sx_env false n gx_mem) = Some 1 /\ fqual false n = Some 64.
Proof. split; [reflexivity|]. split; [vm_compute; reflexivity|]. do 2 eexists. split; [vm_compute; reflexivity|]. split; [vm_compute; reflexivity|]. split; [vm_compute; reflexivity|vm_compute; reflexivity]. Qed.
(** a[1]++ with a[1] = 10 is 10 and leaves 11; f-- with f = 1.5 is 1.5 and leaves 0.5 *)
Example C74_postfix_nonvacuous : float_obj (CIndex ga (num 1)) = true /\ ctype (CIndex ga (num 1)) = Some TFloat /\ fmt_of TFloat = Some B32 /\
  (exists n k', elab (CPostInc (CIndex ga (num 1))) 10 = Some (n, k') /\ value_and (fev sx_env false n gx_mem) (fun m => le_load m (loc 0 + 4) 4) = Some (0x41200000, 0x41300000)) /\
  (exists n k', elab (CPostDec gf) 10 = Some (n, k') /\ value_and (fev sx_env false n gx_mem) (fun m => le_load m (loc 3) 4) = Some (0x3FC00000, 0x3F000000)).
Proof. split; [vm_compute; reflexivity|]. split; [vm_compute; reflexivity|]. split; [reflexivity|]. split; do 2 eexists; (split; [vm_compute; reflexivity|vm_compute; reflexivity]). Qed.

(** ** What is not so for the other expressions *)
(** d++ and f-- have the old value in C (6.5.2.4p2); the tree adds 1 and takes it away again, and
    both are rounded: with d = 2^53 it is 2^53 - 1, with s.x = 0.1f it is not 0.1f *)
Theorem C74_postfix_refuted :
  (exists n k', elab (CPostInc gd) 10 = Some (n, k') /\ fwell_typed n = true /\ fload sx_prog TDouble gx_mem (loc 1) = Some 0x4340000000000000 /\ value_of (fev sx_env false n gx_mem) = Some 0x433FFFFFFFFFFFFF) /\
  (exists n k', elab (CPostDec gs) 10 = Some (n, k') /\ fwell_typed n = true /\ fload sx_prog TFloat gx_mem (loc 4 + 4) = Some 0x3DCCCCCD /\ value_of (fev sx_env false n gx_mem) = Some 0x3DCCCCD0).
Proof. split; do 2 eexists; (split; [vm_compute; reflexivity|]); (split; [vm_compute; reflexivity|]); (split; [vm_compute; reflexivity|vm_compute; reflexivity]). Qed.
(** Code is printed for ~f, i << f and p + f with a pointer p, which C forbids (6.5.3.3p1,
    6.5.7p2, 6.5.6p2); p - f, i % f and f & i are rejected, the last two by the code generator. *)
Definition printed (e : cexpr) : option bool := option_map (fun r => match gen sx_goff false (fst r) (GS 0 1) with Some _ => true | None => false end) (elab e 10).
Theorem C74_constraints_refuted : printed (CBitNot gf) = Some true /\ printed (CBin SShl gi gf) = Some true /\ printed (CBin SAdd gq gf) = Some true /\
  printed (CBin SMod gi gf) = Some false /\ printed (CBin SAnd gf gi) = Some false /\ printed (CBin SSub gq gf) = None.
Proof. repeat split; vm_compute; reflexivity. Qed.
