(** Proofs about BodyModel: the constants of case labels. *)
From Verif Require Import Base TypeModel IntArith NodeModel ValSpec EvalModel ElabSpec ElabProofs ElabSim ParseModel ParseSpec ParsePrint FrontModel FrontSpec FrontProofs BodySpec.
From Coq Require Import ZifyBool ZifyNat.
Local Notation length := List.length.

Definition irange (v : Z) : Prop := - 2 ^ 31 <= v < 2 ^ 31.
Lemma sx_irange v : irange v -> IntArith.sx 32 v = v.
Proof. unfold irange, IntArith.sx. intros H. cbn. destruct (v mod 4294967296 <? 2147483648) eqn:L; lia. Qed.
Lemma fit_irange v w : fit (TInt false) v = Some w -> w = v /\ irange v.
Proof. unfold fit, in_range. cbn. destruct (_ && _) eqn:L; [|discriminate]. intros [= <-]. split; [reflexivity|]. unfold irange. lia. Qed.
Lemma irange_fit v : irange v -> fit (TInt false) v = Some v.
Proof. unfold irange, fit, in_range. cbn. intros H. replace (_ && _) with true by lia. reflexivity. Qed.
Lemma conv_irange v : irange v -> conv (TInt false) v = Some v.
Proof. intros H. cbn. f_equal. now apply sx_irange. Qed.
Lemma b2z_irange b : irange (b2z b). Proof. destruct b; unfold irange; cbn; lia. Qed.
Definition ic (n : node) (v : Z) : Prop := eval2 false n = EOk v None /\ irange v.
Lemma ic_cast n v : ic n v -> ic (NCast (TInt false) n) v.
Proof. intros [E R]. split; [|exact R]. cbn [eval2 ntype]. change (is_float (TInt false)) with false. cbv iota. rewrite E. cbn [bindE]. unfold eval_cast. cbn. f_equal. now apply sx_irange. Qed.
Lemma chk_irange v : irange v -> chk64 v None = EOk v None. Proof. unfold irange, chk64. intros H. replace (_ && _) with true by lia. reflexivity. Qed.
Lemma sx64_small v : - 2 ^ 63 <= v < 2 ^ 63 -> IntArith.sx 64 v = v.
Proof. unfold IntArith.sx. intros H. cbn. destruct (v mod 18446744073709551616 <? 9223372036854775808) eqn:L; lia. Qed.
Lemma zb_b2z b : zb b = b2z b. Proof. reflexivity. Qed.
Lemma ic_eval2_bin o t l r x y : is_float t = false -> eval2 false l = EOk x None -> eval2 false r = EOk y None -> eval2 false (NBin o t l r) = eval_bin o t (ntype l) x y None.
Proof. intros F L R. cbn [eval2 ntype]. rewrite F. replace (match o with Add | Sub => false | _ => false end) with false by (destruct o; reflexivity). rewrite L, R. reflexivity. Qed.
Lemma ic_bin o l r x y v : ntype l = TInt false -> ntype r = TInt false -> ic l x -> ic r y -> bin_val o (TInt false) x y = Some v -> ntype (mk_bin o l r) = TInt false /\ ic (mk_bin o l r) v.
Proof.
  intros TL TR L R B. assert (GC : get_common_type (TInt false) (TInt false) = TInt false) by reflexivity.
  assert (T : ntype (mk_bin o l r) = TInt false) by (destruct o; cbn [mk_bin]; unfold mk_arith, mk_compare, mk_shift; cbn [ntype]; rewrite ?TL, ?TR; reflexivity). split; [exact T|].
  pose proof (ic_cast _ _ L) as [CL _]. pose proof (ic_cast _ _ R) as [CR _]. destruct L as [EL XL], R as [ER YR].
  assert (G : forall w, eval_bin o (TInt false) (TInt false) x y None = EOk w None -> eval2 false (mk_bin o l r) = EOk w None).
  { intros w Hw. rewrite <- Hw. destruct o; cbn [mk_bin]; unfold mk_arith, mk_compare, mk_shift; rewrite ?TL, ?TR, ?GC; (erewrite ic_eval2_bin; [| |eassumption|eassumption]; [cbn [ntype]; rewrite ?TL; reflexivity|reflexivity]). }
  assert (K : eval_bin o (TInt false) (TInt false) x y None = EOk v None /\ irange v); [|destruct K as [K1 K2]; split; [now apply G|exact K2]]. clear G.
  destruct o; cbn [bin_val] in B; unfold eval_bin.
  - apply fit_irange in B as [-> Hr]. split; [now apply chk_irange|exact Hr].
  - apply fit_irange in B as [-> Hr]. split; [now apply chk_irange|exact Hr].
  - apply fit_irange in B as [-> Hr]. split; [now apply chk_irange|exact Hr].
  - destruct (y =? 0); [discriminate|]. apply fit_irange in B as [-> Hr]. split; [now apply chk_irange|exact Hr].
  - destruct (y =? 0); [discriminate|]. destruct (fit (TInt false) (Z.quot x y)) eqn:F; [|discriminate]. apply fit_irange in F as [_ F]. apply fit_irange in B as [-> Hr]. split; [|exact Hr]. rewrite chk_irange by exact F. reflexivity.
  - apply fit_irange in B as [-> Hr]. split; [reflexivity|exact Hr].
  - apply fit_irange in B as [-> Hr]. split; [reflexivity|exact Hr].
  - apply fit_irange in B as [-> Hr]. split; [reflexivity|exact Hr].
  - injection B as <-. split; [reflexivity|apply b2z_irange].
  - injection B as <-. split; [reflexivity|apply b2z_irange].
  - injection B as <-. split; [reflexivity|apply b2z_irange].
  - injection B as <-. split; [reflexivity|apply b2z_irange].
  - cbn in B. destruct ((0 <=? y) && (y <? 32) && _) eqn:C; [|discriminate]. apply fit_irange in B as [-> Hr]. split; [|exact Hr]. replace ((0 <=? y) && (y <? 64)) with true by lia. f_equal. apply sx64_small. unfold irange in Hr. lia.
  - cbn in B. destruct ((0 <=? y) && (y <? 32)) eqn:C; [|discriminate]. apply fit_irange in B as [-> Hr]. split; [|exact Hr]. replace ((0 <=? y) && (y <? 64)) with true by lia. reflexivity.
Qed.

Lemma bin_op_int o x y v : bin_op o (TInt false) (TInt false) x y = Some v -> irange x -> irange y ->
  match o with
  | SAdd => bin_val Add (TInt false) x y = Some v | SSub => bin_val Sub (TInt false) x y = Some v | SMul => bin_val Mul (TInt false) x y = Some v | SDiv => bin_val Div (TInt false) x y = Some v | SMod => bin_val Mod (TInt false) x y = Some v
  | SAnd => bin_val And (TInt false) x y = Some v | SOr => bin_val Or (TInt false) x y = Some v | SXor => bin_val Xor (TInt false) x y = Some v | SShl => bin_val Shl (TInt false) x y = Some v | SShr => bin_val Shr (TInt false) x y = Some v
  | SEq => bin_val Eq (TInt false) x y = Some v | SNe => bin_val Ne (TInt false) x y = Some v | SLt => bin_val Lt (TInt false) x y = Some v | SLe => bin_val Le (TInt false) x y = Some v
  | SGt => bin_val Lt (TInt false) y x = Some v | SGe => bin_val Le (TInt false) y x = Some v
  end.
Proof.
  intros B X Y. pose proof (conv_irange x X) as CX. pose proof (conv_irange y Y) as CY. assert (U : usual (TInt false) (TInt false) = TInt false) by reflexivity.
  destruct o; unfold bin_op, compare_op, arith_op in B; change (is_arith (TInt false)) with true in B; cbn [andb] in B; rewrite ?U, ?CX, ?CY in B; exact B.
Qed.
Lemma const_elab c : int_constant c = true -> ctype c = Some (TInt false) /\ bits_of c = None /\ forall k, exists n, elab c k = Some (n, k) /\ ntype n = TInt false /\
  forall A V g m v m', cev A V g false c m = Some (v, m') -> m' = m /\ ic n v.
Proof.
  induction c as [ct v|x vt|a IHa|a IHa|a IHa|a IHa|o a IHa b IHb|a IHa b IHb|a IHa b IHb|c IHc a IHa b IHb|a IHa b IHb|a IHa b IHb|ct a IHa|l IHl r IHr|o l IHl r IHr|l IHl|l IHl|l IHl|l IHl|a IHa|l IHl|a IHa b IHb|l IHl mi|a IHa mi|g IHf ps va args IHargs] using cexpr_induct; cbn [int_constant]; intros I; try discriminate I.
  - destruct ct; try discriminate I. destruct u; [discriminate I|]. split; [reflexivity|]. split; [reflexivity|]. intros k. exists (NNum (TInt false) v). split; [reflexivity|]. split; [reflexivity|]. intros A V g m w m' H. cbn [cev] in H. destruct (val_of (TInt false) v) eqn:VO; [|discriminate H]. injection H as <- <-. split; [reflexivity|].
    assert (R : irange v) by (unfold val_of in VO; cbn in VO; unfold irange; unfold in_range in VO; lia). split; [|exact R]. cbn [eval2 ntype]. change (is_float (TInt false)) with false. cbv iota. f_equal. apply sx64_small. unfold irange in R. lia.
  - destruct (IHa I) as (T & B & H). assert (OP : operand_type a (TInt false) = TInt false) by (unfold operand_type; rewrite B; reflexivity). split; [cbn [ctype]; rewrite T; cbn; now rewrite OP|]. split; [reflexivity|]. intros k. destruct (H k) as (n & EL & NT & D). exists n. split; [exact EL|]. split; [exact NT|]. intros A V g m v m' C. exact (D A V g m v m' C).
  - destruct (IHa I) as (T & B & H). assert (OP : operand_type a (TInt false) = TInt false) by (unfold operand_type; rewrite B; reflexivity). assert (CT : ctype (CNeg a) = Some (TInt false)) by (cbn [ctype]; rewrite T; cbn; now rewrite OP). split; [exact CT|]. split; [reflexivity|]. intros k. destruct (H k) as (n & EL & NT & D). exists (mk_neg n). split; [cbn [elab]; rewrite EL; reflexivity|]. split; [unfold mk_neg; rewrite NT; reflexivity|]. intros A V g m v m' C.
    cbn [cev] in C. rewrite (ty_of_some _ _ CT) in C. destruct (cev A V g false a m) as [[x m1]|] eqn:CA; [|discriminate C]. destruct (D _ _ _ _ _ _ CA) as [-> IC]. rewrite (conv_irange _ (proj2 IC)) in C. destruct (neg_val (TInt false) x) as [w|] eqn:NV; [|discriminate C]. injection C as <- <-. split; [reflexivity|]. apply fit_irange in NV as [-> Hr].
    pose proof (ic_cast _ _ IC) as [E _]. split; [|exact Hr]. unfold mk_neg. rewrite NT. cbn [eval2 ntype]. change (is_float (get_common_type (TInt false) (TInt false))) with false. cbv iota. change (get_common_type (TInt false) (TInt false)) with (TInt false). change (eval2 false (NNeg (TInt false) (NCast (TInt false) n)) = EOk (- x) None). cbn [eval2 ntype]. change (is_float (TInt false)) with false. cbv iota. cbn [eval2 ntype] in E. change (is_float (TInt false)) with false in E. cbv iota in E. rewrite E. cbn [bindE]. now apply chk_irange.
  - destruct (IHa I) as (T & B & H). split; [cbn [ctype]; rewrite T; reflexivity|]. split; [reflexivity|]. intros k. destruct (H k) as (n & EL & NT & D). exists (NNot n). split; [cbn [elab]; rewrite EL; reflexivity|]. split; [reflexivity|]. intros A V g m v m' C.
    cbn [cev] in C. destruct (cev A V g false a m) as [[x m1]|] eqn:CA; [|discriminate C]. destruct (D _ _ _ _ _ _ CA) as [-> [E R]]. injection C as <- <-. split; [reflexivity|]. split; [|apply b2z_irange]. cbn [eval2 ntype]. change (is_float (TInt false)) with false. cbv iota. rewrite E. cbn [bindE]. unfold truth. rewrite negb_involutive. reflexivity.
  - destruct (IHa I) as (T & B & H). assert (OP : operand_type a (TInt false) = TInt false) by (unfold operand_type; rewrite B; reflexivity). assert (CT : ctype (CBitNot a) = Some (TInt false)) by (cbn [ctype]; rewrite T; cbn; now rewrite OP). split; [exact CT|]. split; [reflexivity|]. intros k. destruct (H k) as (n & EL & NT & D). exists (NBitNot n). split; [cbn [elab]; rewrite EL; reflexivity|]. split; [exact NT|]. intros A V g m v m' C.
    cbn [cev] in C. rewrite (ty_of_some _ _ CT) in C. destruct (cev A V g false a m) as [[x m1]|] eqn:CA; [|discriminate C]. destruct (D _ _ _ _ _ _ CA) as [-> [E R]]. destruct (bitnot_val (TInt false) x) as [w|] eqn:NV; [|discriminate C]. injection C as <- <-. split; [reflexivity|]. apply fit_irange in NV as [-> Hr]. split; [|exact Hr]. cbn [eval2 ntype]. rewrite NT. change (is_float (TInt false)) with false. cbv iota. rewrite E. reflexivity.
  - apply andb_true_iff in I as [I1 I2]. destruct (IHa I1) as (TA & BA & HA), (IHb I2) as (TB & BB & HB). assert (OA : operand_type a (TInt false) = TInt false) by (unfold operand_type; rewrite BA; reflexivity). assert (OB : operand_type b (TInt false) = TInt false) by (unfold operand_type; rewrite BB; reflexivity).
    split; [cbn [ctype]; rewrite TA, TB, OA, OB; destruct o; reflexivity|]. split; [reflexivity|]. intros k. destruct (HA k) as (na & EA & NA & DA), (HB k) as (nb & EB & NB & DB).
    assert (NO : exists n, new_op o na nb = Some n /\ ntype n = TInt false /\ match o with SAdd => n = mk_bin Add na nb | SSub => n = mk_bin Sub na nb | SMul => n = mk_bin Mul na nb | SDiv => n = mk_bin Div na nb | SMod => n = mk_bin Mod na nb | SAnd => n = mk_bin And na nb | SOr => n = mk_bin Or na nb | SXor => n = mk_bin Xor na nb | SShl => n = mk_bin Shl na nb | SShr => n = mk_bin Shr na nb | SEq => n = mk_bin Eq na nb | SNe => n = mk_bin Ne na nb | SLt => n = mk_bin Lt na nb | SLe => n = mk_bin Le na nb | SGt => n = mk_bin Lt nb na | SGe => n = mk_bin Le nb na end).
    { destruct o; unfold new_op, new_add, new_sub; rewrite ?NA, ?NB; cbn [is_numeric is_integer orb andb]; (eexists; split; [reflexivity|]; split; [unfold mk_bin, mk_arith, mk_compare, mk_shift; cbn [ntype]; rewrite ?NA, ?NB; reflexivity|reflexivity]). }
    destruct NO as (n & NO & NT & SH). exists n. split; [cbn [elab]; rewrite EA, EB, NO; reflexivity|]. split; [exact NT|]. intros A V g m v m' C. cbn [cev] in C.
    assert (OPA : op_of a = TInt false) by (unfold op_of; rewrite (ty_of_some _ _ TA); exact OA). assert (OPB : op_of b = TInt false) by (unfold op_of; rewrite (ty_of_some _ _ TB); exact OB). rewrite OPA, OPB in C.
    destruct (bin_order _ _ _ m) as [[[x y] m1]|] eqn:BO; [|discriminate C]. destruct (bin_op o (TInt false) (TInt false) x y) as [w|] eqn:OP; [|discriminate C]. injection C as <- <-.
    assert (K : m1 = m /\ ic na x /\ ic nb y). { unfold bin_order in BO. destruct (right_first o (TInt false) (TInt false)).
      - destruct (cev A V g false b m) as [[y' m2]|] eqn:CB; [|discriminate BO]. destruct (DB _ _ _ _ _ _ CB) as [-> IB]. destruct (cev A V g false a m) as [[x' m3]|] eqn:CA; [|discriminate BO]. destruct (DA _ _ _ _ _ _ CA) as [-> IA]. injection BO as <- <- <-. auto.
      - destruct (cev A V g false a m) as [[x' m3]|] eqn:CA; [|discriminate BO]. destruct (DA _ _ _ _ _ _ CA) as [-> IA]. destruct (cev A V g false b m) as [[y' m2]|] eqn:CB; [|discriminate BO]. destruct (DB _ _ _ _ _ _ CB) as [-> IB]. injection BO as <- <- <-. auto. }
    destruct K as (-> & IA & IB). split; [reflexivity|]. pose proof (bin_op_int _ _ _ _ OP (proj2 IA) (proj2 IB)) as BV. destruct o; subst n; (eapply ic_bin; [| | | |exact BV]; assumption).
  - apply andb_true_iff in I as [I1 I2]. destruct (IHa I1) as (TA & BA & HA), (IHb I2) as (TB & BB & HB). split; [cbn [ctype]; rewrite TA, TB; reflexivity|]. split; [reflexivity|]. intros k. destruct (HA k) as (na & EA & NA & DA), (HB k) as (nb & EB & NB & DB). exists (NLogAnd na nb). split; [cbn [elab]; rewrite EA, EB; reflexivity|]. split; [reflexivity|]. intros A V g m v m' C. cbn [cev] in C.
    destruct (cev A V g false a m) as [[x m1]|] eqn:CA; [|discriminate C]. destruct (DA _ _ _ _ _ _ CA) as [-> [E R]]. unfold ic. cbn [eval2 ntype]. change (is_float (TInt false)) with false. cbv iota. rewrite E. cbn [bindE]. unfold truth in C. destruct (x =? 0) eqn:Z0; cbn [negb] in C.
    + injection C as <- <-. split; [reflexivity|]. split; [reflexivity|]. unfold irange. lia.
    + destruct (cev A V g false b m) as [[y m2]|] eqn:CB; [|discriminate C]. destruct (DB _ _ _ _ _ _ CB) as [-> [E2 R2]]. injection C as <- <-. split; [reflexivity|]. rewrite E2. split; [reflexivity|apply b2z_irange].
  - apply andb_true_iff in I as [I1 I2]. destruct (IHa I1) as (TA & BA & HA), (IHb I2) as (TB & BB & HB). split; [cbn [ctype]; rewrite TA, TB; reflexivity|]. split; [reflexivity|]. intros k. destruct (HA k) as (na & EA & NA & DA), (HB k) as (nb & EB & NB & DB). exists (NLogOr na nb). split; [cbn [elab]; rewrite EA, EB; reflexivity|]. split; [reflexivity|]. intros A V g m v m' C. cbn [cev] in C.
    destruct (cev A V g false a m) as [[x m1]|] eqn:CA; [|discriminate C]. destruct (DA _ _ _ _ _ _ CA) as [-> [E R]]. unfold ic. cbn [eval2 ntype]. change (is_float (TInt false)) with false. cbv iota. rewrite E. cbn [bindE]. unfold truth in C. destruct (x =? 0) eqn:Z0; cbn [negb] in C |- *.
    + destruct (cev A V g false b m) as [[y m2]|] eqn:CB; [|discriminate C]. destruct (DB _ _ _ _ _ _ CB) as [-> [E2 R2]]. injection C as <- <-. split; [reflexivity|]. rewrite E2. split; [reflexivity|apply b2z_irange].
    + injection C as <- <-. split; [reflexivity|]. split; [reflexivity|]. unfold irange. lia.
  - rewrite !andb_true_iff in I. destruct I as [[I0 I1] I2]. destruct (IHc I0) as (TC & BC & HC), (IHa I1) as (TA & BA & HA), (IHb I2) as (TB & BB & HB). assert (OA : operand_type a (TInt false) = TInt false) by (unfold operand_type; rewrite BA; reflexivity). assert (OB : operand_type b (TInt false) = TInt false) by (unfold operand_type; rewrite BB; reflexivity).
    assert (CT : ctype (CCond c a b) = Some (TInt false)) by (cbn [ctype]; rewrite TC, TA, TB, OA, OB; reflexivity). split; [exact CT|]. split; [reflexivity|]. intros k. destruct (HC k) as (nc & EC & NC & DC), (HA k) as (na & EA & NA & DA), (HB k) as (nb & EB & NB & DB). exists (mk_cond nc na nb). split; [cbn [elab]; rewrite EC, EA, EB; reflexivity|].
    assert (MC : mk_cond nc na nb = NCond nc (NCast (TInt false) na) (NCast (TInt false) nb)) by (unfold mk_cond; rewrite NA, NB; reflexivity). rewrite MC. split; [reflexivity|]. intros A V g m v m' C. cbn [cev] in C. rewrite (ty_of_some _ _ CT) in C.
    destruct (cev A V g false c m) as [[x m1]|] eqn:CC; [|discriminate C]. destruct (DC _ _ _ _ _ _ CC) as [-> [E R]]. unfold truth in C.
    assert (EV : forall na' nb', eval2 false (NCond nc (NCast (TInt false) na') (NCast (TInt false) nb')) = if x =? 0 then eval2 false (NCast (TInt false) nb') else eval2 false (NCast (TInt false) na')) by (intros; cbn [eval2 ntype]; change (is_float (TInt false)) with false; cbv iota; rewrite E; reflexivity).
    unfold ic. rewrite EV. destruct (x =? 0); cbn [negb] in C.
    + destruct (cev A V g false b m) as [[y m2]|] eqn:CB; [|discriminate C]. destruct (DB _ _ _ _ _ _ CB) as [-> IB]. rewrite (conv_irange _ (proj2 IB)) in C. injection C as <- <-. split; [reflexivity|]. exact (ic_cast _ _ IB).
    + destruct (cev A V g false a m) as [[y m2]|] eqn:CB; [|discriminate C]. destruct (DA _ _ _ _ _ _ CB) as [-> IB]. rewrite (conv_irange _ (proj2 IB)) in C. injection C as <- <-. split; [reflexivity|]. exact (ic_cast _ _ IB).
Qed.
Lemma constant_elab c v k : constant c = Some v -> exists n, elab c k = Some (n, k) /\ eval n = EOk v None.
Proof.
  unfold constant. destruct (int_constant c) eqn:I; [|discriminate]. destruct (cev _ _ _ _ c _) as [[w m]|] eqn:C; [|discriminate]. intros [= <-]. destruct (const_elab c I) as (_ & _ & H). destruct (H k) as (n & EL & _ & D). destruct (D _ _ _ _ _ _ C) as [_ [E _]]. exists n. split; [exact EL|exact E].
Qed.
Lemma constant_plain c v : constant c = Some v -> plain c = true.
Proof.
  unfold constant. destruct (int_constant c) eqn:I; [|discriminate]. intros _. clear v. assert (G : int_constant c = true -> plain c = true); [|auto]. clear I.
  assert (W : forall c, int_constant c = true -> wide c = true /\ promotable c = true /\ ty_of c = TInt false). { intros e I. destruct (const_elab e I) as (T & B & _). unfold wide, promotable. rewrite (ty_of_some _ _ T), B. auto. }
  induction c as [ct v|x vt|a IHa|a IHa|a IHa|a IHa|o a IHa b IHb|a IHa b IHb|a IHa b IHb|c IHc a IHa b IHb|a IHa b IHb|a IHa b IHb|ct a IHa|l IHl r IHr|o l IHl r IHr|l IHl|l IHl|l IHl|l IHl|a IHa|l IHl|a IHa b IHb|l IHl mi|a IHa mi|g IHf ps va args IHargs] using cexpr_induct; cbn [int_constant plain]; intros I; try discriminate I; try reflexivity.
  - destruct (W a I) as (-> & _ & _). now rewrite IHa.
  - destruct (W a I) as (_ & -> & _). now rewrite IHa.
  - now rewrite IHa.
  - destruct (W a I) as (-> & _ & _). now rewrite IHa.
  - apply andb_true_iff in I as [I1 I2]. destruct (W a I1) as (-> & -> & TA). destruct (W b I2) as (_ & -> & TB). rewrite IHa, IHb, TA, TB by assumption. destruct o; reflexivity.
  - apply andb_true_iff in I as [I1 I2]. now rewrite IHa, IHb.
  - apply andb_true_iff in I as [I1 I2]. now rewrite IHa, IHb.
  - rewrite !andb_true_iff in I. destruct I as [[I0 I1] I2]. destruct (W a I1) as (_ & -> & TA). destruct (W b I2) as (_ & -> & TB). now rewrite IHc, IHa, IHb, TA, TB.
Qed.
