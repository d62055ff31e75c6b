From Verif Require Import Base TypeModel IntArith NodeModel ValSpec NodeSpec NodeProofs GenBits ElabSpec ElabProofs.
From Coq Require Import ZifyBool ZifyNat.
Local Arguments Z.mul : simpl never. Local Arguments Z.add : simpl never. Local Arguments Z.sub : simpl never. Local Arguments Z.pow : simpl never. Local Arguments Z.modulo : simpl never.

(** ** Types of expressions *)
Lemma ty_of_some e t : ctype e = Some t -> ty_of e = t. Proof. unfold ty_of. now intros ->. Qed.
Lemma bits_scalar e t b : ctype e = Some t -> bits_of e = Some b -> exists p, int_repr t = Some p.
Proof.
  intros C B. destruct b as [o w]. destruct e; try discriminate B; cbn [ctype bits_of] in *; (destruct (ctype e) as [te|]; [|discriminate]).
  - destruct (is_su te); [|discriminate]. cbn [andb] in C. unfold bf_fits in C. rewrite B in C. destruct (int_repr (m_ty m)) as [p|] eqn:R; [|discriminate]. destruct p. destruct (_ && _); [|discriminate]. exists (b, z). destruct (m_ty m); try discriminate; now injection C as <-.
  - destruct (pointee te) as [b'|]; [|discriminate]. destruct (is_su b'); [|discriminate]. cbn [andb] in C. unfold bf_fits in C. rewrite B in C. destruct (int_repr (m_ty m)) as [p|] eqn:R; [|discriminate]. destruct p. destruct (_ && _); [|discriminate]. exists (b, z). destruct (m_ty m); try discriminate; now injection C as <-.
Qed.
Lemma op_promote e t : ctype e = Some t -> promotable e = true -> operand_type e t = promote t.
Proof.
  intros C P. unfold operand_type, promotable in *. rewrite (ty_of_some _ _ C) in P. destruct (bits_of e) as [[o w]|] eqn:B; [|reflexivity]. destruct (bits_scalar _ _ _ C B) as (p & R).
  destruct ((w <? 32) && (size_of t <=? 4)) eqn:Q; [|reflexivity]. destruct t as [| |[]|[]|[]|[]| | | | | | | | | |]; cbn in R, Q, P |- *; try discriminate R; try reflexivity; exfalso; lia.
Qed.
Lemma op_of_promote e t : ctype e = Some t -> promotable e = true -> op_of e = promote t.
Proof. intros C P. unfold op_of. rewrite (ty_of_some _ _ C). now apply op_promote. Qed.
Lemma bits_promote e t : ctype e = Some t -> bits_of e = None -> operand_type e t = promote t. Proof. intros C B. unfold operand_type. now rewrite B. Qed.
Lemma wide_bits e : wide e = true -> bits_of e = None /\ 4 <= size_of (ty_of e). Proof. unfold wide. destruct (bits_of e); [discriminate|]. intros. split; [reflexivity|lia]. Qed.

Lemma bin_type_void o a b : bin_type o a b = Some TVoid -> False.
Proof.
  unfold bin_type. destruct (is_arith a) eqn:QA, (is_arith b) eqn:QB; cbn [andb]; intros C.
  - assert (U: is_arith (usual a b) = true) by now apply usual_arith. destruct o; try discriminate C; injection C as C; rewrite C in *; discriminate.
  - destruct o; try discriminate C; destruct (pointee a), (pointee b); try discriminate C; try (destruct (complete _); discriminate C).
  - destruct o; try discriminate C; destruct (pointee a), (pointee b); try discriminate C; try (destruct (complete _); discriminate C).
  - destruct o; try discriminate C; destruct (pointee a), (pointee b); try discriminate C; try (destruct (complete _); discriminate C).
Qed.
Lemma cev_void A V f e : ctype e = Some TVoid -> forall m v m', cev A V f false e m = Some (v, m') -> v = 0.
Proof.
  induction e; cbn [ctype]; intros C mm v0 m' H; try discriminate C.
  - destruct (is_arith t) eqn:Q; [|discriminate]. injection C as ->. discriminate Q.
  - exfalso. destruct t; try discriminate C. cbn [cev] in H. cbn [read] in H. unfold load_val in H. cbn in H. destruct (accessible _ _ _); discriminate H.
  - clear H. destruct (ctype e) as [te|]; [|discriminate]. destruct (is_arith te) eqn:Q; [|discriminate]. exfalso. injection C as C. unfold operand_type in C. destruct (bits_of e) as [[o w]|]; [destruct ((w <? 32) && (size_of te <=? 4)); [discriminate|]|]; apply promote_arith in Q; rewrite C in Q; discriminate.
  - clear H. destruct (ctype e) as [te|]; [|discriminate]. destruct (is_arith te) eqn:Q; [|discriminate]. exfalso. injection C as C. unfold operand_type in C. destruct (bits_of e) as [[o w]|]; [destruct ((w <? 32) && (size_of te <=? 4)); [discriminate|]|]; apply promote_arith in Q; rewrite C in Q; discriminate.
  - destruct (ctype e) as [te|]; [|discriminate]. destruct (valued te); discriminate.
  - clear H. destruct (ctype e) as [te|]; [|discriminate]. destruct (is_arith te) eqn:Q; [|discriminate]. exfalso. injection C as C. unfold operand_type in C. destruct (bits_of e) as [[o w]|]; [destruct ((w <? 32) && (size_of te <=? 4)); [discriminate|]|]; apply promote_arith in Q; rewrite C in Q; discriminate.
  - exfalso. clear H. destruct (ctype e1) as [ta|]; [|discriminate]. destruct (ctype e2) as [tb|]; [|discriminate]. exact (bin_type_void _ _ _ C).
  - destruct (ctype e1) as [ta|]; [|discriminate]. destruct (ctype e2) as [tb|]; [|discriminate]. destruct (valued ta && valued tb); discriminate.
  - destruct (ctype e1) as [ta|]; [|discriminate]. destruct (ctype e2) as [tb|]; [|discriminate]. destruct (valued ta && valued tb); discriminate.
  - assert (T: ty_of (CCond e1 e2 e3) = TVoid) by (apply ty_of_some; exact C). cbn [cev] in H. rewrite T in H. destruct (cev A V f false e1 mm) as [[x m1]|]; [|discriminate]. destruct (if truth x then _ else _) as [[y m2]|]; [|discriminate]. cbn [conv] in H. now injection H as <- <-.
  - assert (T: ty_of (CElvis e1 e2) = TVoid) by (apply ty_of_some; exact C). cbn [cev] in H. rewrite T in H. destruct (cev A V f false e1 mm) as [[x m1]|]; [|discriminate]. destruct (if truth x then _ else _) as [[y m2]|]; [|discriminate]. cbn [conv] in H. now injection H as <- <-.
  - destruct (ctype e1) as [ta|]; [|discriminate]. cbn [cev] in H. destruct (cev A V f false e1 mm) as [[x m1]|]; [|discriminate]. eapply IHe2; eauto.
  - destruct (ctype e) as [te|]; [|discriminate]. assert (t = TVoid) by (destruct t; try reflexivity; destruct (scalar _ && valued _); congruence). subst t. cbn [cev] in H. destruct (cev A V f false e mm) as [[x m1]|]; [|discriminate]. cbn [conv] in H. now injection H as <- <-.
  - exfalso. clear H. destruct (ctype e1) as [ta|]; [|discriminate]. destruct (ctype e2) as [tb|]; [|discriminate]. destruct (is_lval e1); [|discriminate]. cbn [andb] in C. destruct (scalar ta && valued tb || same_su ta tb) eqn:Q; [|discriminate]. injection C as ->. destruct tb; discriminate.
  - exfalso. clear H. destruct (ctype e1) as [ta|]; [|discriminate]. destruct (ctype e2) as [tb|]; [|discriminate]. destruct (is_lval e1); [|discriminate]. cbn [andb] in C. destruct (assign_op o ta _) eqn:Q; [|discriminate]. injection C as ->. apply assign_scalar in Q. discriminate.
  - exfalso. clear H. destruct (ctype e) as [ta|]; [|discriminate]. destruct (is_lval e); [|discriminate]. cbn [andb] in C. destruct (assign_op _ ta _) eqn:Q; [|discriminate]. injection C as ->. apply assign_scalar in Q. discriminate.
  - exfalso. clear H. destruct (ctype e) as [ta|]; [|discriminate]. destruct (is_lval e); [|discriminate]. cbn [andb] in C. destruct (assign_op _ ta _) eqn:Q; [|discriminate]. injection C as ->. apply assign_scalar in Q. discriminate.
  - exfalso. clear H. destruct (ctype e) as [ta|]; [|discriminate]. destruct (is_lval e); [|discriminate]. cbn [andb] in C. destruct (assign_op _ ta _) eqn:Q; [|discriminate]. injection C as ->. apply assign_scalar in Q. discriminate.
  - exfalso. clear H. destruct (ctype e) as [ta|]; [|discriminate]. destruct (is_lval e); [|discriminate]. cbn [andb] in C. destruct (assign_op _ ta _) eqn:Q; [|discriminate]. injection C as ->. apply assign_scalar in Q. discriminate.
  - exfalso. clear H. destruct (ctype e) as [ta|]; [|discriminate]. destruct ta; try discriminate C; cbn [pointee] in C; destruct ta; discriminate C.
  - exfalso. clear H. destruct (ctype e) as [ta|]; [|discriminate]. destruct (is_lval e); [|discriminate]. destruct (bits_of e); discriminate.
  - exfalso. clear H. destruct (ctype e1) as [ta|]; [|discriminate]. destruct (ctype e2) as [tb|]; [|discriminate]. destruct (bin_type _ _ _) as [[| | | | | | | | | |b| | | | |]|]; try discriminate. destruct b; discriminate.
  - exfalso. destruct (ctype e) as [ta|] eqn:CE; [|discriminate]. destruct (is_su ta && _) eqn:Q; [|discriminate]. assert (T: m_ty m = TVoid) by (clear - C; destruct (m_ty m); try discriminate C; reflexivity). cbn [cev] in H. rewrite T in H. destruct (cev A V f (is_lval e) e mm) as [[x m1]|]; [|discriminate]. apply andb_true_iff in Q as [_ Q]. unfold bf_fits in Q. rewrite T in Q. destruct (m_bf m) as [[o w]|]; [discriminate Q|]. cbn [read] in H. unfold load_val in H. cbn in H. destruct (accessible _ _ _); discriminate.
  - exfalso. destruct (ctype e) as [ta|] eqn:CE; [|discriminate]. destruct (pointee ta); [|discriminate]. destruct (is_su t && _) eqn:Q; [|discriminate]. assert (T: m_ty m = TVoid) by (clear - C; destruct (m_ty m); try discriminate C; reflexivity). cbn [cev] in H. rewrite T in H. destruct (cev A V f false e mm) as [[x m1]|]; [|discriminate]. apply andb_true_iff in Q as [_ Q]. unfold bf_fits in Q. rewrite T in Q. destruct (m_bf m) as [[o w]|]; [discriminate Q|]. cbn [read] in H. unfold load_val in H. cbn in H. destruct (accessible _ _ _); discriminate.
  - assert (T: ty_of (CCall e ps va args) = TVoid) by (apply ty_of_some; exact C). cbn [cev] in H. rewrite T in H. match type of H with (match ?x with _ => _ end) = _ => destruct x as [[vs m1]|]; [|discriminate] end. destruct (cev A V f false e m1) as [[fa m2]|]; [|discriminate]. destruct (f _ _ _ _ _) as [[r m3]|]; [|discriminate]. now injection H as <- <-.
Qed.

(** Induction, with the arguments of calls *)
Section Induct.
Variable P : cexpr -> Prop.
Hypothesis HNum : forall t v, P (CNum t v).
Hypothesis HVar : forall x t, P (CVar x t).
Hypothesis HPlus : forall a, P a -> P (CPlus a).
Hypothesis HNeg : forall a, P a -> P (CNeg a).
Hypothesis HNot : forall a, P a -> P (CNot a).
Hypothesis HBitNot : forall a, P a -> P (CBitNot a).
Hypothesis HBin : forall o a, P a -> forall b, P b -> P (CBin o a b).
Hypothesis HAnd : forall a, P a -> forall b, P b -> P (CAnd a b).
Hypothesis HOr : forall a, P a -> forall b, P b -> P (COr a b).
Hypothesis HCond : forall c, P c -> forall a, P a -> forall b, P b -> P (CCond c a b).
Hypothesis HElvis : forall a, P a -> forall b, P b -> P (CElvis a b).
Hypothesis HComma : forall a, P a -> forall b, P b -> P (CComma a b).
Hypothesis HCast : forall t a, P a -> P (CCast t a).
Hypothesis HAssign : forall l, P l -> forall r, P r -> P (CAssign l r).
Hypothesis HOpAssign : forall o l, P l -> forall r, P r -> P (COpAssign o l r).
Hypothesis HPreInc : forall l, P l -> P (CPreInc l).
Hypothesis HPreDec : forall l, P l -> P (CPreDec l).
Hypothesis HPostInc : forall l, P l -> P (CPostInc l).
Hypothesis HPostDec : forall l, P l -> P (CPostDec l).
Hypothesis HDeref : forall a, P a -> P (CDeref a).
Hypothesis HAddr : forall l, P l -> P (CAddr l).
Hypothesis HIndex : forall a, P a -> forall b, P b -> P (CIndex a b).
Hypothesis HDot : forall l, P l -> forall m, P (CDot l m).
Hypothesis HArrow : forall a, P a -> forall m, P (CArrow a m).
Hypothesis HCall : forall f, P f -> forall ps va args, Forall P args -> P (CCall f ps va args).
Fixpoint cexpr_induct (e : cexpr) : P e :=
  match e with
  | CNum t v => HNum t v | CVar x t => HVar x t
  | CPlus a => HPlus a (cexpr_induct a) | CNeg a => HNeg a (cexpr_induct a) | CNot a => HNot a (cexpr_induct a) | CBitNot a => HBitNot a (cexpr_induct a)
  | CBin o a b => HBin o a (cexpr_induct a) b (cexpr_induct b)
  | CAnd a b => HAnd a (cexpr_induct a) b (cexpr_induct b) | COr a b => HOr a (cexpr_induct a) b (cexpr_induct b)
  | CCond c a b => HCond c (cexpr_induct c) a (cexpr_induct a) b (cexpr_induct b)
  | CElvis a b => HElvis a (cexpr_induct a) b (cexpr_induct b) | CComma a b => HComma a (cexpr_induct a) b (cexpr_induct b)
  | CCast t a => HCast t a (cexpr_induct a)
  | CAssign l r => HAssign l (cexpr_induct l) r (cexpr_induct r) | COpAssign o l r => HOpAssign o l (cexpr_induct l) r (cexpr_induct r)
  | CPreInc l => HPreInc l (cexpr_induct l) | CPreDec l => HPreDec l (cexpr_induct l) | CPostInc l => HPostInc l (cexpr_induct l) | CPostDec l => HPostDec l (cexpr_induct l)
  | CDeref a => HDeref a (cexpr_induct a) | CAddr l => HAddr l (cexpr_induct l)
  | CIndex a b => HIndex a (cexpr_induct a) b (cexpr_induct b)
  | CDot l m => HDot l (cexpr_induct l) m | CArrow a m => HArrow a (cexpr_induct a) m
  | CCall f ps va args => HCall f (cexpr_induct f) ps va args ((fix go (l : list cexpr) : Forall P l := match l with [] => Forall_nil P | a :: r => Forall_cons a (cexpr_induct a) (go r) end) args)
  end.
End Induct.
(** The parts of a call *)
Definition elab_args (va : bool) := fix go (l : list cexpr) (ps : list ty) (k : nat) {struct l} : option (list node * nat) :=
  match l with
  | [] => match ps with [] => Some ([], k) | _ => None end
  | a :: l =>
      let* (n, k) := elab a k in
      match ps with
      | p :: ps => let* (ns, k) := go l ps k in Some ((if is_struct_union p then n else NCast p n) :: ns, k)
      | [] => if va then let* (ns, k) := go l [] k in Some (n :: ns, k) else None
      end
  end.
Definition args_ok (va : bool) := fix go (l : list cexpr) (ps : list ty) : bool :=
  match l, ps with
  | [], [] => true
  | [], _ :: _ => false
  | a :: l, _ => match ctype a with
                 | Some ta => valued ta && match ps with p :: ps => scalar p && go l ps | [] => va && go l [] end
                 | None => false
                 end
  end.
Definition cevs A V f := fix go (l : list cexpr) (ps : list ty) (m : mem) {struct l} : option (list Z * mem) :=
  match l with
  | [] => Some ([], m)
  | a :: l => let* (vs, m) := go l (List.tl ps) m in let* (v, m) := cev A V f false a m in let* v := match ps with p :: _ => conv p v | [] => Some v end in Some (v :: vs, m)
  end.

Ltac nlia := (repeat match goal with H : ?T |- _ => lazymatch T with (_ <= _)%nat => fail | (_ < _)%nat => fail | (_ <= _ <= _)%nat => fail | nat => fail | _ => clear H end end); lia.
Lemma teq_trans a b c : teq a b -> teq b c -> teq a c. Proof. unfold teq. intros [->|[A B]] [->|[Q D]]; auto. Qed.
Lemma gct_neg t : is_arith t = true -> teq (get_common_type (TInt false) t) (promote t).
Proof. intros A. destruct t as [| |[]|[]|[]|[]| | | | | | | | | |]; try discriminate; vm_compute; auto. Qed.
Lemma teq_array a b : teq a b -> is_array a = is_array b. Proof. intros [->|[X Y]]; [reflexivity|]; apply ei_cases in X, Y; destruct X as [->| ->], Y as [->| ->]; reflexivity. Qed.
Lemma teq_big a b : teq a b -> big a = big b. Proof. intros [->|[X Y]]; [reflexivity|]; apply ei_cases in X, Y; destruct X as [->| ->], Y as [->| ->]; reflexivity. Qed.
Lemma teq_su a b : teq a b -> is_su b = true -> a = b. Proof. intros [->|[_ Y]] S; [reflexivity|]. apply ei_cases in Y; destruct Y as [->| ->]; discriminate. Qed.
Lemma arith_su t : is_arith t = true -> is_su t = false. Proof. destruct t; auto; discriminate. Qed.
Lemma scalar_su t : scalar t = true -> is_su t = false. Proof. destruct t; auto; discriminate. Qed.
Lemma fit_repr a b z : int_repr a = int_repr b -> fit a z = fit b z. Proof. unfold fit. now intros ->. Qed.
Lemma of_bytes_store t x : scalar t = true -> val_of t x = true -> of_bytes t (x mod 2 ^ (8 * size_of t)) = Some x.
Proof.
  intros S H. unfold val_of, in_range in H. destruct t as [| |[]|[]|[]|[]| | | | | | | | | |]; try discriminate S; cbn in H |- *.
  all: repeat match goal with |- context [8 * ?n] => let u := eval vm_compute in (8 * n) in progress change (8 * n) with u end.
  all: try (rewrite sx_mod, sx_id by lia; reflexivity).
  all: try (rewrite Zmod_mod, Z.mod_small by lia; reflexivity).
  change (2 ^ 1) with 2 in H. rewrite Z.mod_small by lia. replace (x <? 2) with true by lia. reflexivity.
Qed.
Lemma scalar_size t : scalar t = true -> 0 <= size_of t <= 8. Proof. destruct t; cbn; try discriminate; lia. Qed.
Lemma scalar_agg t : scalar t = true -> is_aggregate t = false. Proof. destruct t; auto; discriminate. Qed.

Lemma bin_type_su o a b t : bin_type o a b = Some t -> is_su t = false.
Proof.
  unfold bin_type. destruct (is_arith a) eqn:QA, (is_arith b) eqn:QB; cbn [andb]; intros C.
  - assert (U: is_su (usual a b) = false) by (apply arith_su; now apply usual_arith). pose proof (arith_su _ QA). destruct o; injection C as <-; auto.
  - destruct o; try discriminate C; destruct (pointee a), (pointee b); try discriminate C; try (destruct (complete _); try discriminate C); injection C as <-; auto.
  - destruct o; try discriminate C; destruct (pointee a), (pointee b); try discriminate C; try (destruct (complete _); try discriminate C); injection C as <-; auto.
  - destruct o; try discriminate C; destruct (pointee a), (pointee b); try discriminate C; try (destruct (complete _); try discriminate C); injection C as <-; auto.
Qed.
Lemma new_op_bin o l r n : new_op o l r = Some n -> mem_su n.
Proof.
  unfold new_op. destruct o; try (intros H; injection H as <-; exact I).
  - unfold new_add. destruct (_ && _); [intros H; injection H as <-; exact I|]. destruct (_ && _); [discriminate|]. destruct (_ && _); match goal with |- context [base_of (ntype ?x)] => destruct (base_of (ntype x)) as [[]|] end; try discriminate; intros H; injection H as <-; exact I.
  - unfold new_sub. destruct (_ && _); [intros H; injection H as <-; exact I|]. destruct (base_of (ntype l)) as [[]|], (base_of (ntype r)); try discriminate; try destruct (is_integer _); try discriminate; intros H; injection H as <-; exact I.
Qed.
Lemma cond_void a b : cond_type (promote a) (promote b) = Some TVoid -> a = TVoid /\ b = TVoid.
Proof.
  unfold cond_type. destruct (is_arith (promote a) && is_arith (promote b)) eqn:Q.
  - apply andb_true_iff in Q as [A B]. intros H. injection H as H. pose proof (usual_arith _ _ A B) as U. rewrite H in U. discriminate U.
  - destruct (pointee (promote a)), (pointee (promote b)); intros H; [discriminate H|destruct (is_arith (promote b)); discriminate H|destruct (is_arith (promote a)); discriminate H|].
    assert (PV: forall t, promote t = TVoid -> t = TVoid) by (intros [| |[]|[]|[]|[]| | | | | | | | | |]; cbn; congruence).
    assert (Z: promote a = TVoid /\ promote b = TVoid) by (revert H; clear; destruct (promote a), (promote b); cbn; try discriminate; auto; destruct (_ && _); discriminate). destruct Z as [Z1 Z2]. split; now apply PV.
Qed.
Lemma add_int_valued a t : bin_type SAdd (promote a) (promote (TInt false)) = Some t -> valued t = true.
Proof.
  unfold bin_type. cbn [promote int_repr Z.ltb Z.compare is_arith pointee]. destruct (is_arith (promote a)) eqn:A; cbn [andb].
  - intros H. injection H as <-. apply arith_valued, usual_arith; auto.
  - destruct (pointee (promote a)); [|discriminate]. destruct (complete t0); [|discriminate]. intros H. now injection H as <-.
Qed.
Section Sim.
Variables (E : env) (V : Z -> bool) (k0 kN : nat).
Hypothesis OK : env_ok E.
Hypothesis TM : temporaries (e_addr E) V (e_valid E) k0 kN.
Variable call : Z -> list ty -> ty -> list Z -> mem -> option (Z * mem).
Variable exact : Prop.
Hypothesis CALL : forall fa ts ts' r vs m m2 v m', call fa ts r vs m = Some (v, m') -> agree V m m2 -> Forall2 passed_as ts' ts -> (exact -> ts' = ts) ->
  exists m2', e_call E fa ts' r vs m2 = Some (v, m2') /\ agree V m' m2' /\ forall a, V a = false -> m2' a = m2 a.
Local Notation W := (e_valid E).
Local Notation taddr k := (e_addr E (VLocal k)).
Local Notation agr := (agree V).
Local Notation C lv e m := (cev (e_addr E) V call lv e m).
Local Notation fr := (frame E V).
Definition dyn (e : cexpr) (k : nat) (n : node) (k' : nat) : Prop :=
  (k0 <= k /\ k' <= kN)%nat -> forall lv m v m' m2, C lv e m = Some (v, m') -> agr m m2 -> exists m2', ev E lv n m2 = Some (v, m2') /\ agr m' m2' /\ fr k k' m2 m2'.
Definition stat (e : cexpr) (t : ty) (n : node) : Prop :=
  well_typed n = true /\ teq (ntype n) t /\ (is_lval e = true -> ntype n = t) /\ (is_su t = true -> suf n = true) /\ mem_su n /\ (is_lval e = true -> (forall r, t <> TFunc r) -> nbits n = bits_of e).
Definition good e t k n k' : Prop := (k <= k')%nat /\ stat e t n /\ dyn e k n k'.
Lemma VW a : V a = true -> W a = true. Proof. apply (tm_sub _ _ _ _ _ TM). Qed.

Lemma fr_t k k' m1 m2 m3 : fr k k' m1 m2 -> fr k k' m2 m3 -> fr k k' m1 m3. Proof. intros F G x Vx N. rewrite G, F; auto. Qed.
Lemma seq2 lva lvb a b k na k1 nb k2 m x m1 y m' m2 : dyn a k na k1 -> dyn b k1 nb k2 -> (k0 <= k /\ k2 <= kN)%nat -> (k <= k1 <= k2)%nat -> C lva a m = Some (x, m1) -> C lvb b m1 = Some (y, m') -> agr m m2 ->
  exists m21 m22, ev E lva na m2 = Some (x, m21) /\ ev E lvb nb m21 = Some (y, m22) /\ agr m1 m21 /\ agr m' m22 /\ fr k k2 m2 m22 /\ fr k1 k2 m21 m22.
Proof.
  intros DA DB K0 K HA HB AG. destruct (DA ltac:(nlia) lva _ _ _ _ HA AG) as (m21 & EA & A1 & F1). destruct (DB ltac:(lia) lvb _ _ _ _ HB A1) as (m22 & EB & A2 & F2).
  exists m21, m22. repeat split; auto. eapply frame_trans; eauto; lia.
Qed.
Lemma order2 rf a b k na k1 nb k2 m x y m' m2 : dyn a k na k1 -> dyn b k1 nb k2 -> (k0 <= k /\ k2 <= kN)%nat -> (k <= k1 <= k2)%nat -> bin_order rf (fun m => C false a m) (fun m => C false b m) m = Some (x, y, m') -> agr m m2 ->
  exists m22, order_ev E rf na nb m2 x y m22 /\ agr m' m22 /\ fr k k2 m2 m22.
Proof.
  intros DA DB K0 K H AG. unfold bin_order in H. destruct rf.
  - destruct (C false b m) as [[y' m1]|] eqn:HB; [|discriminate]. destruct (C false a m1) as [[x' m3]|] eqn:HA; [|discriminate]. injection H as <- <- <-.
    destruct (DB ltac:(lia) false _ _ _ _ HB AG) as (m21 & EB & A1 & F1). destruct (DA ltac:(nlia) false _ _ _ _ HA A1) as (m22 & EA & A2 & F2). exists m22. split; [exists m21; auto|]. split; [exact A2|]. eapply frame_trans; eauto; lia.
  - destruct (C false a m) as [[x' m1]|] eqn:HA; [|discriminate]. destruct (C false b m1) as [[y' m3]|] eqn:HB; [|discriminate]. injection H as <- <- <-.
    destruct (DA ltac:(nlia) false _ _ _ _ HA AG) as (m21 & EA & A1 & F1). destruct (DB ltac:(lia) false _ _ _ _ HB A1) as (m22 & EB & A2 & F2). exists m22. split; [exists m21; auto|]. split; [exact A2|]. eapply frame_trans; eauto; lia.
Qed.
(** an expression that is not an lvalue *)
Lemma good_rval e t k n k' : (k <= k')%nat -> well_typed n = true -> teq (ntype n) t -> (is_su t = true -> suf n = true) -> mem_su n -> is_lval e = false -> (forall m, C true e m = None) ->
  ((k0 <= k /\ k' <= kN)%nat -> forall m v m' m2, C false e m = Some (v, m') -> agr m m2 -> exists m2', ev E false n m2 = Some (v, m2') /\ agr m' m2' /\ fr k k' m2 m2') -> good e t k n k'.
Proof.
  intros K WT T S M L N D. split; [exact K|]. split; [unfold stat; rewrite L; repeat split; auto; discriminate|]. intros K0 lv m v m' m2 H AG. destruct lv; [rewrite N in H; discriminate|]. eauto.
Qed.
(** an object: [at_] its address, then perhaps a load *)
Lemma good_obj e t k n k' : (k <= k')%nat -> well_typed n = true -> ntype n = t -> suf n = true -> mem_su n -> nbits n = bits_of e ->
  ((k0 <= k /\ k' <= kN)%nat -> forall m v m' m2 lv, C lv e m = Some (v, m') -> agr m m2 -> exists a m2', ev E true n m2 = Some (a, m2') /\ agr m' m2' /\ fr k k' m2 m2' /\ (if lv then v = a else read V (bits_of e) t m' a = Some v /\ ev E false n m2 = (let* v := read W (nbits n) t m2' a in Some (v, m2')))) -> good e t k n k'.
Proof.
  intros K WT T S M B D. split; [exact K|]. split; [unfold stat; rewrite T; repeat split; auto; apply teq_refl|]. intros K0 lv m v m' m2 H AG. destruct (D K0 m v m' m2 lv H AG) as (a & m2' & EV & AG' & F & R). exists m2'. split; [|auto]. destruct lv; [congruence|]. destruct R as [R1 R2]. rewrite R2, B, (read_mono V W VW _ _ _ _ _ _ AG' R1). reflexivity.
Qed.
Lemma opnode_of o a b ta tb na nb : stat a ta na -> stat b tb nb -> valued ta = true -> valued tb = true -> shift_ok o ta -> null_ok o ta tb -> opnode o na nb.
Proof.
  intros (WA & TA & _) (WB & TB & _) VA VB SO NO. destruct (teq_all _ _ TA) as (_ & _ & SZ & _ & _ & _ & _ & AR & _ & _ & VT & _). destruct (teq_all _ _ TB) as (_ & _ & _ & _ & _ & _ & _ & _ & _ & _ & VT2 & _).
  unfold opnode. rewrite VT, VT2. repeat split; auto.
  - unfold shift_ok in *. rewrite SZ. exact SO.
  - unfold null_ok in *. rewrite AR. assert (IA: is_array (ntype nb) = is_array tb) by (destruct TB as [->|[X Y]]; [reflexivity|]; apply ei_cases in X, Y; destruct X as [->| ->], Y as [->| ->]; reflexivity). now rewrite IA.
Qed.
Lemma bin_valued o ta tb t : bin_type o (promote ta) (promote tb) = Some t -> valued ta = true /\ valued tb = true.
Proof.
  intros H. destruct (bin_type_side _ _ _ _ H) as [A B]. rewrite arith_promote_iff, pointee_promote in A, B. split.
  - destruct A as [A|A]; [now apply arith_valued|]. destruct (pointee ta) as [b|] eqn:P; [|congruence]. apply (pointee_base _ _ P).
  - destruct B as [A'|A']; [now apply arith_valued|]. destruct (pointee tb) as [b|] eqn:P; [|congruence]. apply (pointee_base _ _ P).
Qed.
Lemma promote_teq a b : teq a b -> promote a = promote b. Proof. intros T. now destruct (teq_all _ _ T) as (_ & _ & _ & _ & _ & _ & _ & _ & _ & _ & _ & P & _). Qed.
Lemma nn (b : bool) : b = false -> ~ (b = true). Proof. congruence. Qed.

(** A binary operator *)
Lemma bin_good o a b ta tb t k na k1 nb k2 : ctype a = Some ta -> ctype b = Some tb -> promotable a = true -> promotable b = true -> good a ta k na k1 -> good b tb k1 nb k2 -> bin_type o (promote ta) (promote tb) = Some t ->
  shift_ok o ta -> null_ok o ta tb -> exists n, new_op o na nb = Some n /\ teq (ntype n) t /\ well_typed n = true /\
  ((k0 <= k /\ k2 <= kN)%nat -> forall m m' x y v m2, bin_order (right_first o (op_of a) (op_of b)) (fun m => C false a m) (fun m => C false b m) m = Some (x, y, m') -> bin_op o (op_of a) (op_of b) x y = Some v -> agr m m2 ->
     exists m2', ev E false n m2 = Some (v, m2') /\ agr m' m2' /\ fr k k2 m2 m2').
Proof.
  intros TA TB PA PB (KA & SA & DA) (KB & SB & DB) BT SO NO. destruct (bin_valued _ _ _ _ BT) as [VA VB]. pose proof (opnode_of o a b ta tb na nb SA SB VA VB SO NO) as OPN. pose proof SA as (WA & QA & _). pose proof SB as (WB & QB & _).
  rewrite (op_of_promote _ _ TA PA), (op_of_promote _ _ TB PB). rewrite <- (promote_teq _ _ QA), <- (promote_teq _ _ QB) in *. destruct (op_ev o na nb t OPN BT) as (n & N & T & WT & EV). exists n. split; [exact N|]. split; [exact T|]. split; [exact WT|].
  intros K0 m m' x y v m2 H BV AG. destruct (order2 _ _ _ _ _ _ _ _ _ _ _ _ _ DA DB ltac:(nlia) ltac:(lia) H AG) as (m22 & OE & AG' & F). exists m22. split; [|auto]. eapply EV; eauto.
  - unfold order_ev in OE. destruct (right_first _ _ _); destruct OE as (mm & O1 & O2); [exact (ev_val_ok E na OK false _ _ _ WA O2)|exact (ev_val_ok E na OK false _ _ _ WA O1)].
  - unfold order_ev in OE. destruct (right_first _ _ _); destruct OE as (mm & O1 & O2); [exact (ev_val_ok E nb OK false _ _ _ WB O1)|exact (ev_val_ok E nb OK false _ _ _ WB O2)].
Qed.

(** Modifying an object: compound assignment, increments *)
Lemma modify_good o l tl k nl k1 nr k2 (yr : mem -> Z -> mem -> Prop) : ctype l = Some tl -> is_lval l = true -> promotable l = true -> good l tl k nl k1 -> (k1 <= k2)%nat -> well_typed nr = true -> valued (ntype nr) = true -> assign_op o tl (promote (ntype nr)) = true -> shift_ok o tl ->
  ((k0 <= k1 /\ k2 <= kN)%nat -> forall m y m' m2, yr m y m' -> agr m m2 -> exists m2', ev E false nr m2 = Some (y, m2') /\ agr m' m2' /\ fr k1 k2 m2 m2') ->
  exists p n, raw_parts o nl nr = Some p /\ to_assign p k2 = Some n /\ ntype n = tl /\ well_typed n = true /\ mem_su n /\ suf n = true /\
  ((k0 <= k /\ S k2 <= kN)%nat -> forall m a m1 y m2 x z z' w m' mm, C true l m = Some (a, m1) -> yr m1 y m2 -> read V (bits_of l) tl m2 a = Some x -> bin_op o (promote tl) (promote (ntype nr)) x y = Some z -> conv tl z = Some z' -> write V (bits_of l) tl m2 a z' = Some (w, m') -> agr m mm ->
     exists mm', ev E false n mm = Some (w, mm') /\ agr m' mm' /\ fr k (S k2) mm mm').
Proof.
  intros TL LV PL (KL & (WL & QL & LL & SL & ML & BL) & DL) K2 WR VR AO SO R. pose proof (LL LV) as NT. pose proof (assign_scalar _ _ _ AO) as SC. assert (NB: nbits nl = bits_of l) by (apply BL; [exact LV|intros r ->; discriminate SC]).
  rewrite <- NT in AO, SO |- *. destruct (modify_ev E V k0 kN OK TM o nl nr k2 WL WR ML VR AO SO) as (p & n & RP & TA & NTY & WT & MS & SF & DYN). exists p, n. repeat (split; [assumption|]).
  intros K0 m a m1 y m2 x z z' w m' mm CA YR RD BO CZ WRT AG. assert (L1: (k0 <= k1 /\ k2 <= kN)%nat) by (clear - K0 KL; lia). assert (L2: (k0 <= k2 < kN)%nat) by (clear - L1 K0 K2; lia). assert (L3: (k <= k2 < S k2)%nat) by (clear - KL K2; lia). assert (L4: (k1 <= S k2)%nat) by (clear - K2; lia). assert (L5: (k2 < k1 \/ k2 <= k2)%nat) by (clear; lia). destruct (DL ltac:(nlia) true _ _ _ _ CA AG) as (mm1 & EL & AG1 & F1). destruct (DYN L2 _ _ _ EL) as (a0 & R0 & FIN).
  assert (AG1': agr m1 (le_store mm1 (taddr k2) 8 a0)) by exact (tmp_agree E V k0 kN TM k2 _ _ a0 8 L2 ltac:(clear; lia) AG1). destruct (R L1 _ _ _ _ YR AG1') as (mm2 & ER & AG2 & F2).
  assert (LD: le_load mm2 (taddr k2) 8 = a0).
  { change 8%nat with (Z.to_nat 8). rewrite (tmp_keep E V k0 kN TM k1 k2 k2 _ _ 8 F2 L1 L2 L5) by (clear; lia). rewrite le_load_store by (clear; lia). apply Z.mod_small. exact R0. }
  rewrite NB in FIN. destruct (write_mono V W VW _ _ _ _ _ _ _ _ AG2 WRT) as (mm3 & WW & AG3 & SO3). exists mm3. split; [|split; [exact AG3|]].
  - eapply FIN; [exact ER|exact LD|exact (read_mono V W VW _ _ _ _ _ _ AG2 RD)|exact BO|exact CZ|exact WW].
  - assert (G1: fr k (S k2) mm mm1) by (eapply frame_wide; [exact F1|apply le_n|exact L4]). assert (G2: fr k (S k2) mm1 (le_store mm1 (taddr k2) 8 a0)) by exact (frame_tmp E V k (S k2) k2 _ a0 8 L3 ltac:(clear; lia)).
    assert (G3: fr k (S k2) (le_store mm1 (taddr k2) 8 a0) mm2) by (eapply frame_wide; [exact F2|exact KL|clear; lia]). pose proof (frame_out E V k (S k2) _ _ SO3) as G4.
    exact (fr_t _ _ _ _ _ G1 (fr_t _ _ _ _ _ G2 (fr_t _ _ _ _ _ G3 G4))).
Qed.

(** The parts of a prototyped expression are *)
Ltac parts := repeat match goal with
  | FX : exact -> prototyped ?c = true, IH : (exact -> prototyped ?a = true) -> _ |- _ =>
      let N := fresh "N" in assert (N : exact -> prototyped a = true) by (let X := fresh "X" in intros X; specialize (FX X); cbn [prototyped] in FX; rewrite ?andb_true_iff in FX; tauto); specialize (IH N); clear N
  end.
(** The arguments of a call *)
Lemma args_sim va args : Forall (fun e => forall t, plain e = true -> ctype e = Some t -> forall k, exists n k', elab e k = Some (n, k') /\ good e t k n k') args ->
  forall ps k, forallb plain args = true -> forallb promotable (skipn (List.length ps) args) = true -> args_ok va args ps = true ->
  exists ns k', elab_args va args ps k = Some (ns, k') /\ (k <= k')%nat /\ forallb well_typed ns = true /\ Forall2 passed_as (map ntype ns) (arg_types args ps) /\ (va = false -> map ntype ns = arg_types args ps) /\
    ((k0 <= k /\ k' <= kN)%nat -> forall m vs m' m2, cevs (e_addr E) V call args ps m = Some (vs, m') -> agr m m2 -> exists m2', evl E ns m2 = Some (vs, m2') /\ agr m' m2' /\ fr k k' m2 m2').
Proof.
  induction 1 as [|a args IHa _ IH]; intros ps k P PR AO.
  - destruct ps; [|discriminate AO]. exists [], k. split; [reflexivity|]. split; [lia|]. split; [reflexivity|]. split; [constructor|]. split; [reflexivity|]. intros _ m vs m' m2 H AG. injection H as <- <-. exists m2. split; [reflexivity|]. split; [exact AG|apply frame_refl].
  - cbn [forallb] in P. apply andb_true_iff in P as [PA P]. cbn [args_ok] in AO. destruct (ctype a) as [ta|] eqn:TA; [|discriminate AO]. apply andb_true_iff in AO as [VA AO]. destruct (IHa ta PA eq_refl k) as (n & k1 & EL & K & (WT & TQ & _) & DY).
    destruct (teq_all _ _ TQ) as (_ & _ & _ & _ & _ & _ & _ & _ & _ & _ & VT & PT & _). rewrite VA in VT.
    destruct ps as [|p ps].
    + apply andb_true_iff in AO as [-> AO]. cbn [List.length skipn forallb] in PR. apply andb_true_iff in PR as [PR1 PR]. destruct (IH [] k1 P PR AO) as (ns & k2 & ES & K2 & WS & F2 & X2 & DS). exists (n :: ns), k2. split; [cbn [elab_args]; rewrite EL; fold (elab_args true); rewrite ES; reflexivity|].
      split; [lia|]. split; [cbn [forallb]; now rewrite WT, WS|]. split; [cbn [map arg_types]; constructor; [right; now rewrite (op_of_promote _ _ TA PR1), PT|exact F2]|]. split; [discriminate|].
      intros K0 m vs m' m2 H AG. cbn [cevs List.tl] in H. fold (cevs (e_addr E) V call) in H. destruct (cevs (e_addr E) V call args [] m) as [[vs' m1]|] eqn:CS; [|discriminate H]. destruct (C false a m1) as [[v m3]|] eqn:CA; [|discriminate H]. injection H as <- <-.
      destruct (DS ltac:(clear - K0 K; lia) _ _ _ _ CS AG) as (m21 & ES' & A1 & F1). destruct (DY ltac:(clear - K0 K2; lia) false _ _ _ _ CA A1) as (m22 & EA & A2 & F3). exists m22. split; [cbn [evl]; fold (evl E); rewrite ES', EA; reflexivity|]. split; [exact A2|].
      eapply fr_t; [eapply frame_wide; [exact F1|exact K|apply le_n]|eapply frame_wide; [exact F3|apply le_n|exact K2]].
    + apply andb_true_iff in AO as [SP AO]. cbn [List.length skipn] in PR. destruct (IH ps k1 P PR AO) as (ns & k2 & ES & K2 & WS & F2 & X2 & DS). assert (NS: is_struct_union p = false) by (rewrite <- is_su_eq; now apply scalar_su). exists (NCast p n :: ns), k2.
      split; [cbn [elab_args]; rewrite EL; fold (elab_args va); rewrite ES, NS; reflexivity|]. split; [lia|]. split; [cbn [forallb well_typed]; now rewrite WT, WS|]. split; [cbn [map arg_types]; constructor; [now left|exact F2]|]. split; [intros Hva; cbn [map arg_types ntype]; now rewrite (X2 Hva)|].
      intros K0 m vs m' m2 H AG. cbn [cevs List.tl] in H. fold (cevs (e_addr E) V call) in H. destruct (cevs (e_addr E) V call args ps m) as [[vs' m1]|] eqn:CS; [|discriminate H]. destruct (C false a m1) as [[v m3]|] eqn:CA; [|discriminate H]. destruct (conv p v) as [v'|] eqn:CV; [|discriminate H]. injection H as <- <-.
      destruct (DS ltac:(clear - K0 K; lia) _ _ _ _ CS AG) as (m21 & ES' & A1 & F1). destruct (DY ltac:(clear - K0 K2; lia) false _ _ _ _ CA A1) as (m22 & EA & A2 & F3). exists m22. split; [cbn [evl]; fold (evl E); rewrite ES', (ev_cast E p n m21 v m22 v'); [reflexivity|now apply convertible_scalar|exact EA|exact CV]|]. split; [exact A2|].
      eapply fr_t; [eapply frame_wide; [exact F1|exact K|apply le_n]|eapply frame_wide; [exact F3|apply le_n|exact K2]].
Qed.

Theorem elab_simx e : (exact -> prototyped e = true) -> forall t, plain e = true -> ctype e = Some t -> forall k, exists n k', elab e k = Some (n, k') /\ good e t k n k'.
Proof.
  induction e as [ct v|x vt|a IHa|a IHa|a IHa|a IHa|o a IHa b IHb|a IHa b IHb|a IHa b IHb|c IHc a IHa b IHb|a IHa b IHb|a IHa b IHb|ct a IHa|l IHl r IHr|o l IHl r IHr|l IHl|l IHl|l IHl|l IHl|a IHa|l IHl|a IHa b IHb|l IHl mi|a IHa mi|f IHf ps va args IHargs] using cexpr_induct; intros FX t P CT k; parts.
  - (* number *) cbn [ctype] in CT. destruct (is_arith ct) eqn:A; [|discriminate CT]. injection CT as <-. exists (NNum ct v), k. split; [reflexivity|]. apply good_rval; try reflexivity; try exact I; [apply teq_refl|rewrite (arith_su _ A); discriminate|].
    intros K0 m w m' m2 H AG. cbn [cev] in H. destruct (val_of ct v) eqn:VO; [|discriminate H]. injection H as <- <-. exists m2. split; [now apply ev_num|]. split; [exact AG|apply frame_refl].
  - (* variable *) assert (t = vt) by (cbn [ctype] in CT; clear - CT; destruct vt; congruence). subst t. exists (NVar x vt), k. split; [reflexivity|]. apply good_obj; try reflexivity; try exact I.
    intros K0 m w m' m2 lv H AG. cbn [cev] in H. exists (e_addr E x), m2. destruct lv.
    + injection H as <- <-. split; [reflexivity|]. split; [exact AG|]. split; [apply frame_refl|reflexivity].
    + cbn [read] in H. destruct (load_val V vt m (e_addr E x)) as [w'|] eqn:LD; [|discriminate H]. injection H as <- <-. split; [reflexivity|]. split; [exact AG|]. split; [apply frame_refl|]. split; [exact LD|reflexivity].
  - (* unary plus *) cbn [plain] in P. apply andb_true_iff in P as [WD P]. destruct (wide_bits _ WD) as [BN SZ]. cbn [ctype] in CT. destruct (ctype a) as [ta|] eqn:TA; [|discriminate CT]. destruct (is_arith ta) eqn:A; [|discriminate CT]. injection CT as <-. rewrite (bits_promote _ _ TA BN). rewrite (ty_of_some _ _ TA) in SZ.
    destruct (IHa ta P eq_refl k) as (n & k1 & EL & K & (WT & TQ & LV & SU & MS & NB) & DY). exists n, k1. split; [exact EL|]. apply good_rval; auto; [eapply teq_trans; [exact TQ|now apply wide_promote]|rewrite (arith_su _ (promote_arith _ A)); discriminate|].
    intros K0 m w m' m2 H AG. exact (DY ltac:(nlia) false m w m' m2 H AG).
  - (* minus *) cbn [plain] in P. apply andb_true_iff in P as [PR P]. assert (CT' := CT). cbn [ctype] in CT. destruct (ctype a) as [ta|] eqn:TA; [|discriminate CT]. destruct (is_arith ta) eqn:A; [|discriminate CT]. injection CT as CT. rewrite (op_promote _ _ TA PR) in CT.
    destruct (IHa ta P eq_refl k) as (n & k1 & EL & K & (WT & TQ & LV & SU & MS & NB) & DY). exists (mk_neg n), k1. split; [cbn [elab]; rewrite EL; reflexivity|]. destruct (teq_all _ _ TQ) as (_ & _ & _ & _ & _ & _ & _ & AR & _ & _ & _ & PT & _). rewrite A in AR.
    pose proof (gct_neg _ AR) as TG. rewrite PT, CT in TG. unfold mk_neg. set (T := get_common_type (TInt false) (ntype n)) in *. destruct (teq_all _ _ TG) as (RE & _ & _ & _ & _ & CV & _ & TAR & _). assert (AT: is_arith t = true) by (rewrite <- CT; now apply promote_arith). rewrite AT in TAR.
    apply good_rval; try reflexivity; try exact I; try exact K; [cbn [well_typed ntype]; now rewrite (scalar_self _ (arith_scalar _ TAR)), WT|exact TG|rewrite (arith_su _ AT); discriminate|].
    intros K0 m w m' m2 H AG. cbn [cev] in H. rewrite (ty_of_some _ _ CT') in H. destruct (C false a m) as [[x m1]|] eqn:CA; [|discriminate H]. destruct (conv t x) as [x'|] eqn:CX; [|discriminate H]. destruct (neg_val t x') as [w'|] eqn:NG; [|discriminate H]. injection H as <- <-.
    destruct (DY ltac:(nlia) false _ _ _ _ CA AG) as (m2' & EV & AG' & F). exists m2'. split; [|auto]. change (ev E false (NNeg T (NCast T n)) m2) with (let* (x, m) := ev E false (NCast T n) m2 in let* v := neg_val T x in Some (v, m)). rewrite (ev_cast E T n m2 x m2' x'); [|apply convertible_scalar; [now apply arith_valued|now apply arith_scalar]|exact EV|now rewrite CV]. unfold neg_val in *. rewrite (fit_repr _ _ _ RE), NG. reflexivity.
  - (* not *) cbn [plain] in P. cbn [ctype] in CT. destruct (ctype a) as [ta|] eqn:TA; [|discriminate CT]. destruct (valued ta) eqn:A; [|discriminate CT]. injection CT as <-.
    destruct (IHa ta P eq_refl k) as (n & k1 & EL & K & (WT & TQ & LV & SU & MS & NB) & DY). exists (NNot n), k1. split; [cbn [elab]; rewrite EL; reflexivity|]. destruct (teq_all _ _ TQ) as (_ & _ & _ & _ & _ & _ & _ & _ & _ & _ & VT & _). rewrite A in VT.
    apply good_rval; try reflexivity; try exact I; try exact K; try exact WT; [apply teq_refl|discriminate|].
    intros K0 m w m' m2 H AG. cbn [cev] in H. destruct (C false a m) as [[x m1]|] eqn:CA; [|discriminate H]. injection H as <- <-. destruct (DY ltac:(nlia) false _ _ _ _ CA AG) as (m2' & EV & AG' & F). exists m2'. split; [|auto]. cbn [ev]. rewrite (valued_scalar _ VT). cbn [orb negb]. rewrite EV. reflexivity.
  - (* complement *) cbn [plain] in P. apply andb_true_iff in P as [WD P]. destruct (wide_bits _ WD) as [BN SZ]. assert (CT' := CT). cbn [ctype] in CT. destruct (ctype a) as [ta|] eqn:TA; [|discriminate CT]. destruct (is_arith ta) eqn:A; [|discriminate CT]. injection CT as CT. rewrite (bits_promote _ _ TA BN) in CT. rewrite (ty_of_some _ _ TA) in SZ.
    destruct (IHa ta P eq_refl k) as (n & k1 & EL & K & (WT & TQ & LV & SU & MS & NB) & DY). exists (NBitNot n), k1. split; [cbn [elab]; rewrite EL; reflexivity|]. assert (TP: teq (ntype n) t) by (rewrite <- CT; eapply teq_trans; [exact TQ|now apply wide_promote]).
    apply good_rval; try reflexivity; try exact I; try exact K; try exact WT; [exact TP|rewrite <- CT, (arith_su _ (promote_arith _ A)); discriminate|].
    intros K0 m w m' m2 H AG. cbn [cev] in H. rewrite (ty_of_some _ _ CT') in H. destruct (C false a m) as [[x m1]|] eqn:CA; [|discriminate H]. destruct (bitnot_val t x) as [w'|] eqn:NG; [|discriminate H]. injection H as <- <-. destruct (DY ltac:(nlia) false _ _ _ _ CA AG) as (m2' & EV & AG' & F). exists m2'. split; [|auto]. cbn [ev]. rewrite EV. destruct (teq_all _ _ TP) as (RE & _). unfold bitnot_val in *. rewrite (fit_repr _ _ _ RE), NG. reflexivity.
  - (* binary *) cbn [plain] in P. rewrite !andb_true_iff in P. destruct P as [[[[PA PB] QA] QB] PO]. cbn [ctype] in CT. destruct (ctype a) as [ta|] eqn:TA; [|discriminate CT]. destruct (ctype b) as [tb|] eqn:TB; [|discriminate CT]. rewrite (op_promote _ _ TA QA), (op_promote _ _ TB QB) in CT.
    destruct (IHa ta PA eq_refl k) as (na & k1 & EA & GA). destruct (IHb tb PB eq_refl k1) as (nb & k2 & EB & GB). assert (KA := proj1 GA). assert (KB := proj1 GB).
    assert (SO: shift_ok o ta) by (unfold shift_ok; destruct o; auto; destruct (wide_bits _ PO) as [_ SZ]; rewrite (ty_of_some _ _ TA) in SZ; exact SZ).
    assert (NO: null_ok o ta tb) by (unfold null_ok; destruct o; auto; rewrite (ty_of_some _ _ TA), (ty_of_some _ _ TB) in PO; intros [X Y]; rewrite X, Y in PO; discriminate PO).
    destruct (bin_good o a b ta tb t k na k1 nb k2 TA TB QA QB GA GB CT SO NO) as (n & NE & TN & WN & DN). exists n, k2. split; [cbn [elab]; rewrite EA, EB, NE; reflexivity|].
    assert (NS: is_su t = false /\ mem_su n) by (split; [exact (bin_type_su _ _ _ _ CT)|exact (new_op_bin _ _ _ _ NE)]). destruct NS as [NS1 NS2].
    apply good_rval; auto; [nlia|rewrite NS1; discriminate|]. intros K0 m w m' m2 H AG. cbn [cev] in H. destruct (bin_order _ _ _ m) as [[[x y] m1]|] eqn:BO; [|discriminate H]. destruct (bin_op o (op_of a) (op_of b) x y) as [w'|] eqn:BV; [|discriminate H]. injection H as <- <-. exact (DN ltac:(nlia) _ _ _ _ _ _ BO BV AG).
  - (* and *) cbn [plain] in P. apply andb_true_iff in P as [PA PB]. cbn [ctype] in CT. destruct (ctype a) as [ta|] eqn:TA; [|discriminate CT]. destruct (ctype b) as [tb|] eqn:TB; [|discriminate CT]. destruct (valued ta && valued tb) eqn:VV; [|discriminate CT]. injection CT as <-. apply andb_true_iff in VV as [VA VB].
    destruct (IHa ta PA eq_refl k) as (na & k1 & EA & KA & (WA & QA & _) & DA). destruct (IHb tb PB eq_refl k1) as (nb & k2 & EB & KB & (WB & QB & _) & DB). exists (NLogAnd na nb), k2. split; [cbn [elab]; rewrite EA, EB; reflexivity|].
    destruct (teq_all _ _ QA) as (_ & _ & _ & _ & _ & _ & _ & _ & _ & _ & VTA & _). destruct (teq_all _ _ QB) as (_ & _ & _ & _ & _ & _ & _ & _ & _ & _ & VTB & _). rewrite VA in VTA. rewrite VB in VTB.
    apply good_rval; try reflexivity; try exact I; [nlia|cbn [well_typed]; now rewrite WA, WB|apply teq_refl|discriminate|]. intros K0 m w m' m2 H AG. cbn [cev] in H. destruct (C false a m) as [[x m1]|] eqn:CA; [|discriminate H].
    destruct (DA ltac:(nlia) false _ _ _ _ CA AG) as (m21 & EVA & AGA & FA). cbn [ev]. rewrite (valued_scalar _ VTA), (valued_scalar _ VTB). cbn [orb andb negb]. rewrite EVA. destruct (truth x).
    + destruct (C false b m1) as [[y m3]|] eqn:CB; [|discriminate H]. injection H as <- <-. destruct (DB ltac:(nlia) false _ _ _ _ CB AGA) as (m22 & EVB & AGB & FB). exists m22. rewrite EVB. split; [reflexivity|]. split; [exact AGB|]. eapply frame_trans; [exact FA|exact FB|nlia|nlia|nlia|nlia].
    + injection H as <- <-. exists m21. split; [reflexivity|]. split; [exact AGA|]. eapply frame_wide; [exact FA|nlia|nlia].
  - (* or *) cbn [plain] in P. apply andb_true_iff in P as [PA PB]. cbn [ctype] in CT. destruct (ctype a) as [ta|] eqn:TA; [|discriminate CT]. destruct (ctype b) as [tb|] eqn:TB; [|discriminate CT]. destruct (valued ta && valued tb) eqn:VV; [|discriminate CT]. injection CT as <-. apply andb_true_iff in VV as [VA VB].
    destruct (IHa ta PA eq_refl k) as (na & k1 & EA & KA & (WA & QA & _) & DA). destruct (IHb tb PB eq_refl k1) as (nb & k2 & EB & KB & (WB & QB & _) & DB). exists (NLogOr na nb), k2. split; [cbn [elab]; rewrite EA, EB; reflexivity|].
    destruct (teq_all _ _ QA) as (_ & _ & _ & _ & _ & _ & _ & _ & _ & _ & VTA & _). destruct (teq_all _ _ QB) as (_ & _ & _ & _ & _ & _ & _ & _ & _ & _ & VTB & _). rewrite VA in VTA. rewrite VB in VTB.
    apply good_rval; try reflexivity; try exact I; [nlia|cbn [well_typed]; now rewrite WA, WB|apply teq_refl|discriminate|]. intros K0 m w m' m2 H AG. cbn [cev] in H. destruct (C false a m) as [[x m1]|] eqn:CA; [|discriminate H].
    destruct (DA ltac:(nlia) false _ _ _ _ CA AG) as (m21 & EVA & AGA & FA). cbn [ev]. rewrite (valued_scalar _ VTA), (valued_scalar _ VTB). cbn [orb andb negb]. rewrite EVA. destruct (truth x).
    + injection H as <- <-. exists m21. split; [reflexivity|]. split; [exact AGA|]. eapply frame_wide; [exact FA|nlia|nlia].
    + destruct (C false b m1) as [[y m3]|] eqn:CB; [|discriminate H]. injection H as <- <-. destruct (DB ltac:(nlia) false _ _ _ _ CB AGA) as (m22 & EVB & AGB & FB). exists m22. rewrite EVB. split; [reflexivity|]. split; [exact AGB|]. eapply frame_trans; [exact FA|exact FB|nlia|nlia|nlia|nlia].
  - (* conditional *) cbn [plain] in P. rewrite !andb_true_iff in P. destruct P as [[[[[[PC PA] PB] QA] QB] NA] BG]. assert (CT' := CT). cbn [ctype] in CT. destruct (ctype c) as [tc|] eqn:TC; [|discriminate CT]. destruct (ctype a) as [ta|] eqn:TA; [|discriminate CT]. destruct (ctype b) as [tb|] eqn:TB; [|discriminate CT]. destruct (valued tc) eqn:VC; [|discriminate CT]. rewrite (op_promote _ _ TA QA), (op_promote _ _ TB QB) in CT. rewrite (ty_of_some _ _ TA) in NA, BG. rewrite (ty_of_some _ _ TB) in NA.
    destruct (IHc tc PC eq_refl k) as (nc & k1 & EC & KC & (WC & UC & _) & DC). destruct (IHa ta PA eq_refl k1) as (na & k2 & EA & KA & (WA & UA & _) & DA). destruct (IHb tb PB eq_refl k2) as (nb & k3 & EB & KB & (WB & UB & _) & DB). exists (mk_cond nc na nb), k3. split; [cbn [elab]; rewrite EC, EA, EB; reflexivity|].
    destruct (teq_all _ _ UC) as (_ & _ & _ & _ & _ & _ & _ & _ & _ & _ & VTC & _). rewrite VC in VTC. rewrite <- (promote_teq _ _ UA), <- (promote_teq _ _ UB) in CT. destruct (teq_all _ _ UA) as (_ & _ & _ & _ & _ & _ & _ & ARA & _).
    assert (NA': ~ (is_arith (ntype na) = true /\ is_array (ntype nb) = true)) by (rewrite ARA, (teq_array _ _ UB); intros [X Y]; rewrite X, Y in NA; discriminate NA). rewrite <- (teq_big _ _ UA) in BG.
    destruct (cond_ev nc na nb t WC WA WB VTC CT NA' BG) as (TT & WT & SF & MS & EV). apply good_rval; auto; [nlia|]. intros K0 m w m' m2 H AG. cbn [cev] in H. rewrite (ty_of_some _ _ CT') in H. destruct (C false c m) as [[x m1]|] eqn:CC; [|discriminate H].
    destruct (if truth x then C false a m1 else C false b m1) as [[y m3]|] eqn:CB; [|discriminate H]. destruct (conv t y) as [y'|] eqn:CY; [|discriminate H]. injection H as <- <-. destruct (DC ltac:(nlia) false _ _ _ _ CC AG) as (m21 & EVC & AGC & FC).
    assert (BR: exists m22, ev E false (if truth x then na else nb) m21 = Some (y, m22) /\ agr m3 m22 /\ fr k1 k3 m21 m22).
    { destruct (truth x); [destruct (DA ltac:(nlia) false _ _ _ _ CB AGC) as (m22 & Q1 & Q2 & Q3)|destruct (DB ltac:(nlia) false _ _ _ _ CB AGC) as (m22 & Q1 & Q2 & Q3)]; exists m22; (split; [exact Q1|]; split; [exact Q2|]; eapply frame_wide; [exact Q3|nlia|nlia]). }
    destruct BR as (m22 & EVB & AGB & FB). exists m22. split; [|split; [exact AGB|eapply frame_trans; [exact FC|exact FB|nlia|nlia|nlia|nlia]]]. eapply EV; [exact EVC|exact EVB|exact CY|]. intros ->.
    assert (VV: ta = TVoid /\ tb = TVoid) by (rewrite (promote_teq _ _ UA), (promote_teq _ _ UB) in CT; exact (cond_void _ _ CT)). destruct VV as [-> ->]. destruct (truth x); [exact (cev_void _ _ _ _ TA _ _ _ CB)|exact (cev_void _ _ _ _ TB _ _ _ CB)].
  - (* a ?: b *) cbn [plain] in P. rewrite !andb_true_iff in P. destruct P as [[[[PA PB] QA] QB] NA]. assert (CT' := CT). cbn [ctype] in CT. destruct (ctype a) as [ta|] eqn:TA; [|discriminate CT]. destruct (ctype b) as [tb|] eqn:TB; [|discriminate CT]. destruct (scalar ta) eqn:SA; [|discriminate CT]. rewrite (op_promote _ _ TA QA), (op_promote _ _ TB QB) in CT. rewrite (ty_of_some _ _ TA), (ty_of_some _ _ TB) in NA.
    destruct (IHa ta PA eq_refl k) as (na & k1 & EA & KA & (WA & UA & _) & DA). destruct (IHb tb PB eq_refl (S k1)) as (nb & k2 & EB & KB & (WB & UB & _) & DB). destruct (teq_all _ _ UA) as (RA & _ & _ & _ & _ & _ & _ & ARA & _ & SUA & _).
    assert (SN: scalar (ntype na) = true) by (unfold scalar in *; rewrite RA; exact SA). set (tmp := NVar (VLocal k1) (ntype na)). exists (NComma (NAssign tmp (NCast (ntype na) na)) (mk_cond tmp tmp nb)), k2.
    split; [cbn [elab]; rewrite EA; fold tmp; rewrite (mk_assign_scalar tmp na SN), EB; reflexivity|]. rewrite <- (promote_teq _ _ UA), <- (promote_teq _ _ UB) in CT.
    assert (NA': ~ (is_arith (ntype tmp) = true /\ is_array (ntype nb) = true)) by (cbn [tmp ntype]; rewrite ARA, (teq_array _ _ UB); intros [X Y]; rewrite X, Y in NA; discriminate NA).
    assert (BG: big (ntype tmp) = true) by (cbn [tmp ntype]; unfold big; rewrite (scalar_su _ SN); reflexivity). assert (VT: valued (ntype tmp) = true) by (cbn [tmp ntype]; clear - SN; destruct (ntype na); try discriminate SN; exact SN).
    destruct (cond_ev tmp tmp nb t eq_refl eq_refl WB VT CT NA' BG) as (TT & WT & SF & MS & EV).
    apply good_rval; try reflexivity; try exact I; [nlia|cbn [well_typed ntype tmp]; fold tmp; rewrite WA, WT, (scalar_self _ SN), orb_true_r; reflexivity|exact TT|intros _; exact SF|].
    intros K0 m w m' m2 H AG. cbn [cev] in H. rewrite (ty_of_some _ _ CT') in H. destruct (C false a m) as [[x m1]|] eqn:CA; [|discriminate H]. destruct (if truth x then Some (x, m1) else C false b m1) as [[y m3]|] eqn:CB; [|discriminate H]. destruct (conv t y) as [y'|] eqn:CY; [|discriminate H]. injection H as <- <-.
    destruct (DA ltac:(nlia) false _ _ _ _ CA AG) as (m21 & EVA & AGA & FA). pose proof (conv_fix E na _ _ _ OK WA SN EVA) as CX. pose proof (scalar_size _ SN) as SZ. assert (L1: (k0 <= k1 < kN)%nat) by nlia.
    set (m22 := le_store m21 (taddr k1) (size_of (ntype na)) x).
    assert (EVS: ev E false (NAssign tmp (NCast (ntype na) na)) m2 = Some (x, m22)).
    { eapply assign_ev; [reflexivity|eapply ev_cast; [apply convertible_scalar; assumption|exact EVA|exact CX]|]. cbn [nbits tmp write ntype]. unfold store_val, m22. unfold scalar in SN. assert (AC := tmp_acc E V k0 kN TM k1 (size_of (ntype na)) L1 SZ). clear - SN AC. destruct (ntype na); cbn in SN; try discriminate SN; cbn [int_repr] in *; rewrite AC; reflexivity. }
    assert (XV: val_of (ntype na) x = true). { pose proof (ev_val_ok E na OK false _ _ _ WA EVA) as Q. unfold scalar in SN. destruct (int_repr (ntype na)) as [p|] eqn:R; [|discriminate SN]. exact (val_ok_val _ _ _ R Q). }
    assert (EVT: ev E false tmp m22 = Some (x, m22)).
    { cbn [ev tmp]. unfold load_val. rewrite (scalar_agg _ SN), (tmp_acc E V k0 kN TM k1 (size_of (ntype na)) L1 SZ). unfold m22. rewrite le_load_store by (clear - SZ; lia). rewrite (of_bytes_store _ _ SN XV). reflexivity. }
    assert (AG2: agr m1 m22) by (apply (tmp_agree E V k0 kN TM k1 _ _ x _ L1); [clear - SZ; lia|exact AGA]).
    assert (BR: exists m23, ev E false (if truth x then tmp else nb) m22 = Some (y, m23) /\ agr m3 m23 /\ fr (S k1) k2 m22 m23).
    { destruct (truth x); [injection CB as <- <-; exists m22; split; [exact EVT|]; split; [exact AG2|apply frame_refl]|]. exact (DB ltac:(nlia) false _ _ _ _ CB AG2). }
    destruct BR as (m23 & EVB & AGB & FB). exists m23. split; [|split; [exact AGB|]].
    + change (ev E false (NComma (NAssign tmp (NCast (ntype na) na)) (mk_cond tmp tmp nb)) m2) with (let* (_, m) := ev E false (NAssign tmp (NCast (ntype na) na)) m2 in ev E false (mk_cond tmp tmp nb) m). rewrite EVS. eapply EV; [exact EVT|exact EVB|exact CY|]. intros ->. exfalso.
      assert (VV: ta = TVoid /\ tb = TVoid) by (rewrite (promote_teq _ _ UA), (promote_teq _ _ UB) in CT; exact (cond_void _ _ CT)). destruct VV as [-> _]. discriminate SA.
    + apply (fr_t k k2 m2 m21 m23); [eapply frame_wide; [exact FA|nlia|nlia]|]. apply (fr_t k k2 m21 m22 m23); [apply frame_tmp; [nlia|clear - SZ; lia]|eapply frame_wide; [exact FB|nlia|nlia]].
  - (* comma *) cbn [plain] in P. apply andb_true_iff in P as [PA PB]. cbn [ctype] in CT. destruct (ctype a) as [ta|] eqn:TA; [|discriminate CT].
    destruct (IHa ta PA eq_refl k) as (na & k1 & EA & KA & (WA & UA & _) & DA). destruct (IHb t PB CT k1) as (nb & k2 & EB & KB & (WB & UB & _ & SB & _) & DB). exists (NComma na nb), k2. split; [cbn [elab]; rewrite EA, EB; reflexivity|].
    apply good_rval; try reflexivity; try exact I; [nlia|cbn [well_typed]; now rewrite WA, WB|exact UB|exact SB|]. intros K0 m w m' m2 H AG. cbn [cev] in H. destruct (C false a m) as [[x m1]|] eqn:CA; [|discriminate H].
    destruct (seq2 _ _ _ _ _ _ _ _ _ _ _ _ _ _ _ DA DB ltac:(nlia) ltac:(nlia) CA H AG) as (m21 & m22 & EVA & EVB & _ & AG2 & F & _). exists m22. split; [|auto]. cbn [ev]. rewrite EVA. exact EVB.
  - (* cast *) cbn [plain] in P. cbn [ctype] in CT. destruct (ctype a) as [ta|] eqn:TA; [|discriminate CT]. assert (TT: t = ct /\ (ct = TVoid \/ (scalar ct = true /\ valued ta = true))) by (clear - CT; destruct ct; try (split; [congruence|now left]); (destruct (scalar _ && valued ta) eqn:Q; [|discriminate CT]; apply andb_true_iff in Q; split; [congruence|now right])). destruct TT as [-> TT].
    destruct (IHa ta P eq_refl k) as (na & k1 & EA & KA & (WA & UA & _) & DA). exists (NCast ct na), k1. split; [cbn [elab]; rewrite EA; reflexivity|]. destruct (teq_all _ _ UA) as (_ & _ & _ & _ & _ & _ & _ & _ & _ & _ & VTA & _).
    apply good_rval; try reflexivity; try exact I; [nlia|exact WA|apply teq_refl|intros SU; exfalso; destruct TT as [->|[TT _]]; [discriminate SU|rewrite (scalar_su _ TT) in SU; discriminate SU]|]. intros K0 m w m' m2 H AG. cbn [cev] in H. destruct (C false a m) as [[x m1]|] eqn:CA; [|discriminate H]. destruct (conv ct x) as [x'|] eqn:CX; [|discriminate H]. injection H as <- <-.
    destruct (DA ltac:(nlia) false _ _ _ _ CA AG) as (m21 & EVA & AGA & FA). exists m21. split; [|auto]. eapply ev_cast; [|exact EVA|exact CX]. destruct TT as [->|[TT VA]]; [reflexivity|apply convertible_scalar; [rewrite VTA; exact VA|exact TT]].
  - (* assignment *) cbn [plain] in P. apply andb_true_iff in P as [PL PR]. cbn [ctype] in CT. destruct (ctype l) as [tl|] eqn:TL; [|discriminate CT]. destruct (ctype r) as [tr|] eqn:TR; [|discriminate CT]. destruct (is_lval l) eqn:LV; [|discriminate CT]. cbn [andb] in CT. destruct (scalar tl && valued tr || same_su tl tr) eqn:CO; [|discriminate CT]. injection CT as <-.
    destruct (IHl tl PL eq_refl k) as (nl & k1 & EL & KL & (WL & UL & XL & _ & _ & BL) & DL). destruct (IHr tr PR eq_refl k1) as (nr & k2 & ER & KR & (WR & UR & _) & DR). specialize (XL LV). assert (NF: forall q, tl <> TFunc q) by (intros q ->; discriminate CO). specialize (BL LV NF). destruct (teq_all _ _ UR) as (_ & _ & _ & _ & _ & _ & _ & _ & _ & SUR & VTR & _).
    assert (MK: exists r', mk_assign nl nr = Some (NAssign nl r') /\ well_typed (NAssign nl r') = true /\ (forall m v m1 v', ev E false nr m = Some (v, m1) -> conv tl v = Some v' -> ev E false r' m = Some (v', m1))).
    { apply orb_true_iff in CO as [CO|CO].
      - apply andb_true_iff in CO as [ST VR]. exists (NCast tl nr). split; [rewrite <- XL; apply mk_assign_scalar; now rewrite XL|]. split; [cbn [well_typed ntype]; rewrite WL, WR, XL, (scalar_self _ ST), orb_true_r; reflexivity|]. intros m v m1 v' EV CV. eapply ev_cast; [apply convertible_scalar; [rewrite VTR; exact VR|exact ST]|exact EV|exact CV].
      - destruct (same_su_su _ _ CO) as [S1 S2]. pose proof (teq_su _ _ UR S2) as XR. rewrite is_su_eq in S2. destruct tl as [| | | | | | | | | | | | | |id sz al|id sz al]; try discriminate S1.
        + exists nr. split; [unfold mk_assign; rewrite XL; reflexivity|]. split; [cbn [well_typed]; rewrite WL, WR, XL, XR, S2; reflexivity|]. intros m v m1 v' EV CV. injection CV as <-. exact EV.
        + exists (NCast (TUnion id sz al) nr). split; [unfold mk_assign; rewrite XL; reflexivity|]. split; [cbn [well_typed ntype]; rewrite WL, WR, XL; reflexivity|]. intros m v m1 v' EV CV. eapply ev_cast; [|exact EV|exact CV]. cbn [convertible]. rewrite XR. exact S2. }
    destruct MK as (r' & MK & WN & RE). exists (NAssign nl r'), k2. split; [cbn [elab]; rewrite EL, ER, MK; reflexivity|]. apply good_rval; try reflexivity; try exact I; [nlia|exact WN|cbn [ntype]; rewrite XL; apply teq_refl|].
    intros K0 m w m' m2 H AG. cbn [cev] in H. rewrite (ty_of_some _ _ TL) in H. destruct (C true l m) as [[a m1]|] eqn:CA; [|discriminate H]. destruct (C false r m1) as [[v m3]|] eqn:CB; [|discriminate H]. destruct (conv tl v) as [v'|] eqn:CV; [|discriminate H].
    destruct (seq2 _ _ _ _ _ _ _ _ _ _ _ _ _ _ _ DL DR ltac:(nlia) ltac:(nlia) CA CB AG) as (m21 & m22 & EVA & EVB & _ & AG2 & F & _). destruct (write_mono V W VW _ _ _ _ _ _ _ _ AG2 H) as (m23 & WW & AG3 & SO). exists m23. split; [|split; [exact AG3|exact (fr_t _ _ _ _ _ F (frame_out E V k k2 _ _ SO))]].
    eapply assign_ev; [exact EVA|exact (RE _ _ _ _ EVB CV)|]. rewrite BL, XL. exact WW.
  - (* compound assignment *) cbn [plain] in P. rewrite !andb_true_iff in P. destruct P as [[[[PL PR] QL] QR] PO]. cbn [ctype] in CT. destruct (ctype l) as [tl|] eqn:TL; [|discriminate CT]. destruct (ctype r) as [tr|] eqn:TR; [|discriminate CT]. destruct (is_lval l) eqn:LV; [|discriminate CT]. cbn [andb] in CT. rewrite (op_promote _ _ TR QR) in CT. destruct (assign_op o tl (promote tr)) eqn:AO; [|discriminate CT]. injection CT as <-.
    destruct (IHl tl PL eq_refl k) as (nl & k1 & EL & GL). destruct (IHr tr PR eq_refl k1) as (nr & k2 & ER & KR & (WR & UR & _) & DR). pose proof (promote_teq _ _ UR) as PT. pose proof AO as AR. apply assign_arith in AR. rewrite arith_promote_iff in AR. destruct (teq_all _ _ UR) as (_ & _ & _ & _ & _ & _ & _ & _ & _ & _ & VTR & _). rewrite (arith_valued _ AR) in VTR.
    assert (SO: shift_ok o tl) by (unfold shift_ok; destruct o; auto; destruct (wide_bits _ PO) as [_ SZ]; rewrite (ty_of_some _ _ TL) in SZ; exact SZ). rewrite <- PT in AO.
    destruct (modify_good o l tl k nl k1 nr k2 (fun m y m' => C false r m = Some (y, m')) TL LV QL GL KR WR VTR AO SO) as (p & n & RP & TA & NT & WT & MS & SF & DY); [intros K1 m y m' m2 CR AG; exact (DR K1 false _ _ _ _ CR AG)|]. assert (KL := proj1 GL).
    exists n, (S k2). split; [cbn [elab]; rewrite EL, ER, RP, TA; reflexivity|]. apply good_rval; auto; [nlia|rewrite NT; apply teq_refl|].
    intros K0 m w m' m2 H AG. cbn [cev] in H. rewrite (ty_of_some _ _ TL), (op_of_promote _ _ TL QL), (op_of_promote _ _ TR QR), <- PT in H. destruct (C true l m) as [[a m1]|] eqn:CA; [|discriminate H]. destruct (C false r m1) as [[y m3]|] eqn:CB; [|discriminate H]. destruct (read V (bits_of l) tl m3 a) as [x|] eqn:RD; [|discriminate H]. destruct (bin_op o (promote tl) (promote (ntype nr)) x y) as [z|] eqn:BV; [|discriminate H]. destruct (conv tl z) as [z'|] eqn:CZ; [|discriminate H].
    exact (DY ltac:(nlia) _ _ _ _ _ _ _ _ _ _ _ CA CB RD BV CZ H AG).
  - (* ++l *) cbn [plain] in P. apply andb_true_iff in P as [PL QL]. cbn [ctype] in CT. destruct (ctype l) as [tl|] eqn:TL; [|discriminate CT]. destruct (is_lval l) eqn:LV; [|discriminate CT]. cbn [andb] in CT. destruct (assign_op SAdd tl int_t) eqn:AO; [|discriminate CT]. injection CT as <-.
    destruct (IHl tl PL eq_refl k) as (nl & k1 & EL & GL). assert (KL := proj1 GL).
    destruct (modify_good SAdd l tl k nl k1 (NNum (TInt false) 1) k1 (fun m y m' => y = 1 /\ m' = m) TL LV QL GL (le_n _) eq_refl eq_refl AO I) as (p & n & RP & TA & NT & WT & MS & SF & DY); [intros K1 m y m' m2 [-> ->] AG; exists m2; split; [now apply ev_num|]; split; [exact AG|apply frame_refl]|].
    exists n, (S k1). split; [cbn [elab]; rewrite EL, RP, TA; reflexivity|]. apply good_rval; auto; [rewrite NT; apply teq_refl|].
    intros K0 m w m' m2 H AG. cbn [cev] in H. rewrite (ty_of_some _ _ TL), (op_of_promote _ _ TL QL) in H. destruct (C true l m) as [[a m1]|] eqn:CA; [|discriminate H]. destruct (read V (bits_of l) tl m1 a) as [x|] eqn:RD; [|discriminate H]. destruct (bin_op SAdd (promote tl) int_t x 1) as [z|] eqn:BV; [|discriminate H]. destruct (conv tl z) as [z'|] eqn:CZ; [|discriminate H]. destruct (write V (bits_of l) tl m1 a z') as [[w' m3]|] eqn:WR; [|discriminate H]. injection H as <- <-.
    exact (DY ltac:(nlia) _ _ _ _ _ _ _ _ _ _ _ CA (conj eq_refl eq_refl) RD BV CZ WR AG).
  - (* --l *) cbn [plain] in P. apply andb_true_iff in P as [PL QL]. cbn [ctype] in CT. destruct (ctype l) as [tl|] eqn:TL; [|discriminate CT]. destruct (is_lval l) eqn:LV; [|discriminate CT]. cbn [andb] in CT. destruct (assign_op SAdd tl int_t) eqn:AO; [|discriminate CT]. injection CT as <-.
    destruct (IHl tl PL eq_refl k) as (nl & k1 & EL & GL). assert (KL := proj1 GL).
    destruct (modify_good SSub l tl k nl k1 (NNum (TInt false) 1) k1 (fun m y m' => y = 1 /\ m' = m) TL LV QL GL (le_n _) eq_refl eq_refl AO I) as (p & n & RP & TA & NT & WT & MS & SF & DY); [intros K1 m y m' m2 [-> ->] AG; exists m2; split; [now apply ev_num|]; split; [exact AG|apply frame_refl]|].
    exists n, (S k1). split; [cbn [elab]; rewrite EL, RP, TA; reflexivity|]. apply good_rval; auto; [rewrite NT; apply teq_refl|].
    intros K0 m w m' m2 H AG. cbn [cev] in H. rewrite (ty_of_some _ _ TL), (op_of_promote _ _ TL QL) in H. destruct (C true l m) as [[a m1]|] eqn:CA; [|discriminate H]. destruct (read V (bits_of l) tl m1 a) as [x|] eqn:RD; [|discriminate H]. destruct (bin_op SSub (promote tl) int_t x 1) as [z|] eqn:BV; [|discriminate H]. destruct (conv tl z) as [z'|] eqn:CZ; [|discriminate H]. destruct (write V (bits_of l) tl m1 a z') as [[w' m3]|] eqn:WR; [|discriminate H]. injection H as <- <-.
    exact (DY ltac:(nlia) _ _ _ _ _ _ _ _ _ _ _ CA (conj eq_refl eq_refl) RD BV CZ WR AG).
  - (* l++ *) cbn [plain] in P. apply andb_true_iff in P as [PL QB]. cbn [ctype] in CT. destruct (ctype l) as [tl|] eqn:TL; [|discriminate CT]. destruct (is_lval l) eqn:LV; [|discriminate CT]. cbn [andb] in CT. destruct (assign_op SAdd tl int_t) eqn:AO; [|discriminate CT]. injection CT as <-. rewrite (ty_of_some _ _ TL) in QB.
    assert (BN: bits_of l = None) by (destruct (bits_of l); [discriminate QB|reflexivity]). assert (NBL: tl <> TBool) by (intros ->; rewrite BN in QB; discriminate QB). assert (QL: promotable l = true) by (unfold promotable; rewrite BN; reflexivity).
    destruct (IHl tl PL eq_refl k) as (nl & k1 & EL & GL). assert (KL := proj1 GL).
    destruct (modify_good SAdd l tl k nl k1 (NNum (TInt false) (1)) k1 (fun m y m' => y = 1 /\ m' = m) TL LV QL GL (le_n _) eq_refl eq_refl AO I) as (p & an & RP & TA & NT & WT & MS & SF & DY); [intros K1 m y m' m2 [-> ->] AG; exists m2; split; [now apply ev_num|]; split; [exact AG|apply frame_refl]|].
    assert (XL: ntype nl = tl) by (destruct GL as (_ & (_ & _ & XL & _) & _); exact (XL LV)). pose proof (assign_scalar _ _ _ AO) as SC.
    destruct (assign_bin _ _ _ AO) as (ts & BT). assert (VT: valued (ntype an) = true) by (rewrite NT; clear - SC; destruct tl; try discriminate SC; exact SC).
    assert (OPN: opnode SAdd an (NNum (TInt false) (-1))) by (repeat split; auto). rewrite <- NT in BT. destruct (op_ev SAdd an (NNum (TInt false) (-1)) ts OPN BT) as (sn & NS & TS & WS & ES). cbn [new_op] in NS.
    exists (NCast tl sn), (S k1). split; [cbn [elab]; rewrite EL; unfold new_inc_dec; rewrite RP, TA; change (- (1)) with (-1); rewrite NS, XL; reflexivity|]. apply good_rval; try reflexivity; try exact I; [nlia|exact WS|apply teq_refl|rewrite (scalar_su _ SC); discriminate|].
    intros K0 m w m' m2 H AG. cbn [cev] in H. rewrite (ty_of_some _ _ TL), (op_of_promote _ _ TL QL), BN in H. destruct (C true l m) as [[a m1]|] eqn:CA; [|discriminate H]. destruct (read V None tl m1 a) as [x|] eqn:RD; [|discriminate H]. destruct (bin_op SAdd (promote tl) int_t x 1) as [z|] eqn:BV; [|discriminate H]. destruct (conv tl z) as [z'|] eqn:CZ; [|discriminate H]. destruct (write V None tl m1 a z') as [[w' m3]|] eqn:WR; [|discriminate H]. injection H as <- <-.
    assert (W': w' = z') by (cbn [write] in WR; destruct (store_val V tl m1 a z'); [|discriminate WR]; now injection WR as <- <-). subst w'.
    assert (VX: val_of tl x = true) by (cbn [read] in RD; unfold load_val in RD; rewrite (scalar_agg _ SC) in RD; destruct (accessible V a (size_of tl)); [|discriminate RD]; eapply of_bytes_val; [exact RD|apply le_load_range]).
    destruct (add_back tl x (1) z z' AO NBL VX ltac:(clear; lia) BV CZ) as (u & BU & CU). rewrite <- BN in RD, WR. destruct (DY ltac:(nlia) _ _ _ _ _ _ _ _ _ _ _ CA (conj eq_refl eq_refl) RD BV CZ WR AG) as (m21 & EV & AG2 & F). exists m21. split; [|auto].
    eapply ev_cast; [|eapply (ES E m2 m21 z' (-1) u); [exact (ev_val_ok E an OK false _ _ _ WT EV)|apply val_ok_of; reflexivity| |rewrite NT; exact BU]|exact CU].
    + apply convertible_scalar; [|exact SC]. destruct (teq_all _ _ TS) as (_ & _ & _ & _ & _ & _ & _ & _ & _ & _ & VTS & _). rewrite VTS, NT in *. clear - BT AO. exact (add_int_valued _ _ BT).
    + unfold right_first. cbn [promote ntype int_repr pointee]. exists m2. split; [now apply ev_num|exact EV].
  - (* l-- *) cbn [plain] in P. apply andb_true_iff in P as [PL QB]. cbn [ctype] in CT. destruct (ctype l) as [tl|] eqn:TL; [|discriminate CT]. destruct (is_lval l) eqn:LV; [|discriminate CT]. cbn [andb] in CT. destruct (assign_op SAdd tl int_t) eqn:AO; [|discriminate CT]. injection CT as <-. rewrite (ty_of_some _ _ TL) in QB.
    assert (BN: bits_of l = None) by (destruct (bits_of l); [discriminate QB|reflexivity]). assert (NBL: tl <> TBool) by (intros ->; rewrite BN in QB; discriminate QB). assert (QL: promotable l = true) by (unfold promotable; rewrite BN; reflexivity).
    destruct (IHl tl PL eq_refl k) as (nl & k1 & EL & GL). assert (KL := proj1 GL).
    destruct (modify_good SAdd l tl k nl k1 (NNum (TInt false) (-1)) k1 (fun m y m' => y = -1 /\ m' = m) TL LV QL GL (le_n _) eq_refl eq_refl AO I) as (p & an & RP & TA & NT & WT & MS & SF & DY); [intros K1 m y m' m2 [-> ->] AG; exists m2; split; [now apply ev_num|]; split; [exact AG|apply frame_refl]|].
    assert (XL: ntype nl = tl) by (destruct GL as (_ & (_ & _ & XL & _) & _); exact (XL LV)). pose proof (assign_scalar _ _ _ AO) as SC.
    destruct (assign_bin _ _ _ AO) as (ts & BT). assert (VT: valued (ntype an) = true) by (rewrite NT; clear - SC; destruct tl; try discriminate SC; exact SC).
    assert (OPN: opnode SAdd an (NNum (TInt false) (1))) by (repeat split; auto). rewrite <- NT in BT. destruct (op_ev SAdd an (NNum (TInt false) (1)) ts OPN BT) as (sn & NS & TS & WS & ES). cbn [new_op] in NS.
    exists (NCast tl sn), (S k1). split; [cbn [elab]; rewrite EL; unfold new_inc_dec; rewrite RP, TA; change (- (-1)) with (1); rewrite NS, XL; reflexivity|]. apply good_rval; try reflexivity; try exact I; [nlia|exact WS|apply teq_refl|rewrite (scalar_su _ SC); discriminate|].
    intros K0 m w m' m2 H AG. cbn [cev] in H. rewrite (ty_of_some _ _ TL), (op_of_promote _ _ TL QL), BN in H. destruct (C true l m) as [[a m1]|] eqn:CA; [|discriminate H]. destruct (read V None tl m1 a) as [x|] eqn:RD; [|discriminate H]. destruct (bin_op SSub (promote tl) int_t x 1) as [z|] eqn:BV; [|discriminate H]. destruct (conv tl z) as [z'|] eqn:CZ; [|discriminate H]. destruct (write V None tl m1 a z') as [[w' m3]|] eqn:WR; [|discriminate H]. injection H as <- <-. apply (sub_is_add _ _ _ AO) in BV.
    assert (W': w' = z') by (cbn [write] in WR; destruct (store_val V tl m1 a z'); [|discriminate WR]; now injection WR as <- <-). subst w'.
    assert (VX: val_of tl x = true) by (cbn [read] in RD; unfold load_val in RD; rewrite (scalar_agg _ SC) in RD; destruct (accessible V a (size_of tl)); [|discriminate RD]; eapply of_bytes_val; [exact RD|apply le_load_range]).
    destruct (add_back tl x (-1) z z' AO NBL VX ltac:(clear; lia) BV CZ) as (u & BU & CU). rewrite <- BN in RD, WR. destruct (DY ltac:(nlia) _ _ _ _ _ _ _ _ _ _ _ CA (conj eq_refl eq_refl) RD BV CZ WR AG) as (m21 & EV & AG2 & F). exists m21. split; [|auto].
    eapply ev_cast; [|eapply (ES E m2 m21 z' 1 u); [exact (ev_val_ok E an OK false _ _ _ WT EV)|apply val_ok_of; reflexivity| |rewrite NT; exact BU]|exact CU].
    + apply convertible_scalar; [|exact SC]. destruct (teq_all _ _ TS) as (_ & _ & _ & _ & _ & _ & _ & _ & _ & _ & VTS & _). rewrite VTS, NT in *. clear - BT AO. exact (add_int_valued _ _ BT).
    + unfold right_first. cbn [promote ntype int_repr pointee]. exists m2. split; [now apply ev_num|exact EV].
  - (* dereference *) cbn [plain] in P. assert (CT' := CT). cbn [ctype] in CT. destruct (ctype a) as [ta|] eqn:TA; [|discriminate CT].
    destruct (IHa ta P eq_refl k) as (na & k1 & EA & KA & (WA & UA & _ & _ & MA & _) & DA). destruct (match ta with TFunc _ => true | _ => false end) eqn:FN.
    + destruct ta as [| | | | | | | | | | |fr0| | | |]; try discriminate FN. injection CT as <-. assert (NA: ntype na = TFunc fr0) by (apply (teq_eq _ _ UA); reflexivity). exists na, k1. split; [cbn [elab]; rewrite EA, NA; reflexivity|]. split; [exact KA|]. split; [unfold stat; rewrite NA; repeat split; auto; [apply teq_refl|discriminate|intros _ NF; exfalso; exact (NF fr0 eq_refl)]|].
      intros K0 lv m w m' m2 H AG. cbn [cev] in H. rewrite (ty_of_some _ _ TA) in H. exact (DA ltac:(nlia) lv _ _ _ _ H AG).
    + assert (PT: exists b, pointee ta = Some b /\ b = t /\ t <> TVoid /\ (forall q, t <> TVla q)) by (clear - CT FN; destruct ta; try discriminate FN; cbn [pointee] in CT; try discriminate CT; destruct ta; try discriminate CT; injection CT as <-; eexists; repeat split; congruence). destruct PT as (b & PT & -> & NV & NVL).
      assert (XA: ntype na = ta) by (destruct UA as [UA|[_ UA]]; [exact UA|]; exfalso; clear - UA PT; apply ei_cases in UA as [->| ->]; discriminate PT). destruct (pointee_base _ _ PT) as (PB & _ & VP). rewrite <- XA in PB.
      exists (NDeref na), k1. split; [cbn [elab]; rewrite EA; unfold mk_deref; rewrite PB; clear - XA FN NV; destruct (ntype na), t; try reflexivity; try congruence; exfalso; subst; discriminate FN|].
      apply good_obj; try reflexivity; try exact I; [exact KA|cbn [well_typed]; unfold has_base; rewrite PB, WA; reflexivity|cbn [ntype]; now rewrite PB|].
      intros K0 m w m' m2 lv H AG. cbn [cev] in H. rewrite (ty_of_some _ _ TA), (ty_of_some _ _ CT') in H. assert (H': (let* (a0, m0) := C false a m in if lv then Some (a0, m0) else let* v := read V None t m0 a0 in Some (v, m0)) = Some (w, m')) by (revert H; clear - FN; destruct ta; try discriminate FN; exact (fun x => x)). clear H.
      destruct (C false a m) as [[x m1]|] eqn:CA; [|discriminate H']. destruct (DA ltac:(nlia) false _ _ _ _ CA AG) as (m21 & EV & AG2 & F). exists x, m21. cbn [ev]. rewrite EV. split; [reflexivity|]. destruct lv.
      * injection H' as <- <-. auto.
      * cbn [bits_of]. destruct (read V None t m1 x) as [v'|] eqn:RD; [|discriminate H']. injection H' as <- <-. split; [exact AG2|]. split; [exact F|]. split; [exact RD|]. cbn [nbits read ntype]. rewrite PB. reflexivity.
  - (* address *) cbn [plain] in P. apply andb_true_iff in P as [PL NA]. cbn [ctype] in CT. destruct (ctype l) as [tl|] eqn:TL; [|discriminate CT]. destruct (is_lval l) eqn:LV; [|discriminate CT]. destruct (bits_of l) as [|] eqn:BN; [discriminate CT|]. injection CT as <-. rewrite (ty_of_some _ _ TL) in NA.
    destruct (IHl tl PL eq_refl k) as (nl & k1 & EL & KL & (WL & UL & XL & _ & ML & BL) & DL). specialize (XL LV). exists (NAddr nl), k1. split.
    + cbn [elab]. rewrite EL. destruct nl as [| | |nl' [mt mo [[bo bw]|]]| | | | | | | | | | | | | |]; try reflexivity. exfalso. cbn [ntype m_ty] in XL. subst mt. assert (NF: forall q, tl <> TFunc q).
      { intros q ->. cbn [well_typed] in WL. apply andb_true_iff in WL as [WL _]. unfold member_ok in WL. cbn in WL. discriminate WL. }
      specialize (BL LV NF). cbn in BL. congruence.
    + apply good_rval; try reflexivity; try exact I; [exact KL|exact WL|cbn [ntype]; rewrite XL; clear - NA; destruct tl; try apply teq_refl; discriminate NA|discriminate|]. intros K0 m w m' m2 H AG. cbn [cev] in H. exact (DL ltac:(nlia) true _ _ _ _ H AG).
  - (* index *) cbn [plain] in P. rewrite !andb_true_iff in P. destruct P as [[[PA PB] QA] QB]. assert (CT' := CT). cbn [ctype] in CT. destruct (ctype a) as [ta|] eqn:TA; [|discriminate CT]. destruct (ctype b) as [tb|] eqn:TB; [|discriminate CT]. rewrite (op_promote _ _ TA QA), (op_promote _ _ TB QB) in CT. destruct (bin_type SAdd (promote ta) (promote tb)) as [tp|] eqn:BT; [|discriminate CT].
    assert (TP: tp = TPtr t /\ t <> TVoid) by (clear - CT; destruct tp; try discriminate CT; destruct tp; try discriminate CT; injection CT as <-; split; congruence). destruct TP as [-> NV].
    destruct (IHa ta PA eq_refl k) as (na & k1 & EA & GA). destruct (IHb tb PB eq_refl k1) as (nb & k2 & EB & GB). assert (KA := proj1 GA). assert (KB := proj1 GB).
    destruct (bin_good SAdd a b ta tb (TPtr t) k na k1 nb k2 TA TB QA QB GA GB BT I I) as (n & NE & TN & WN & DN). assert (XN: ntype n = TPtr t) by (apply (teq_eq _ _ TN); reflexivity).
    exists (NDeref n), k2. split; [cbn [elab]; cbn [new_op] in NE; rewrite EA, EB, NE; unfold mk_deref; rewrite XN; cbn [base_of]; clear - NV; destruct t; try reflexivity; congruence|].
    apply good_obj; try reflexivity; try exact I; [nlia|cbn [well_typed]; unfold has_base; rewrite XN, WN; reflexivity|cbn [ntype]; rewrite XN; reflexivity|].
    intros K0 m w m' m2 lv H AG. cbn [cev] in H. rewrite (ty_of_some _ _ CT') in H. destruct (bin_order _ _ _ m) as [[[x y] m1]|] eqn:BO; [|discriminate H]. destruct (bin_op SAdd (op_of a) (op_of b) x y) as [w'|] eqn:BV; [|discriminate H]. destruct (DN ltac:(nlia) _ _ _ _ _ _ BO BV AG) as (m21 & EV & AG2 & F).
    exists w', m21. cbn [ev]. rewrite EV. split; [reflexivity|]. destruct lv.
    + injection H as <- <-. auto.
    + cbn [bits_of]. destruct (read V None t m1 w') as [v'|] eqn:RD; [|discriminate H]. injection H as <- <-. split; [exact AG2|]. split; [exact F|]. split; [exact RD|]. cbn [nbits read ntype]. rewrite XN. reflexivity.
  - (* l.m *) cbn [plain] in P. cbn [ctype] in CT. destruct (ctype l) as [tl|] eqn:TL; [|discriminate CT]. destruct (is_su tl && bf_fits (m_ty mi) (m_bf mi)) eqn:Q; [|discriminate CT]. apply andb_true_iff in Q as [SL BF]. assert (XT: m_ty mi = t) by (clear - CT; destruct (m_ty mi); congruence). clear CT. subst t.
    destruct (IHl tl P eq_refl k) as (nl & k1 & EL & KL & (WL & UL & XL & SU & ML & BL) & DL). pose proof (teq_su _ _ UL SL) as NT. assert (ISU: is_struct_union (ntype nl) = true) by (rewrite NT, <- is_su_eq; exact SL).
    exists (NMember nl mi), k1. split; [cbn [elab]; rewrite EL, ISU; reflexivity|]. apply good_obj; try reflexivity; [exact KL|cbn [well_typed]; rewrite WL; unfold member_ok; unfold bf_fits in BF; rewrite BF; reflexivity|exact ISU|].
    intros K0 m w m' m2 lv H AG. cbn [cev] in H. destruct (C (is_lval l) l m) as [[x m1]|] eqn:CA; [|discriminate H]. destruct (DL ltac:(nlia) _ _ _ _ _ CA AG) as (m21 & EV & AG2 & F).
    assert (EV': ev E true nl m2 = Some (x, m21)) by (destruct (is_lval l); [exact EV|exact (suf_ev E nl (SU SL) ISU WL _ _ EV)]). exists ((x + m_off mi) mod 2 ^ 64), m21. cbn [ev]. rewrite EV'. split; [reflexivity|]. cbn [bits_of]. destruct lv.
    + injection H as <- <-. auto.
    + destruct (read V (m_bf mi) (m_ty mi) m1 ((x + m_off mi) mod 2 ^ 64)) as [v'|] eqn:RD; [|discriminate H]. injection H as <- <-. split; [exact AG2|]. split; [exact F|]. split; [exact RD|]. cbn [nbits]. destruct (m_bf mi) as [[bo bw]|]; reflexivity.
  - (* a->m *) cbn [plain] in P. cbn [ctype] in CT. destruct (ctype a) as [ta|] eqn:TA; [|discriminate CT]. destruct (pointee ta) as [b|] eqn:PT; [|discriminate CT]. destruct (is_su b && bf_fits (m_ty mi) (m_bf mi)) eqn:Q; [|discriminate CT]. apply andb_true_iff in Q as [SL BF]. assert (XT: m_ty mi = t) by (clear - CT; destruct (m_ty mi); congruence). clear CT. subst t.
    destruct (IHa ta P eq_refl k) as (na & k1 & EA & KA & (WA & UA & _) & DA). assert (XA: ntype na = ta) by (destruct UA as [UA|[_ UA]]; [exact UA|]; exfalso; clear - UA PT; apply ei_cases in UA as [->| ->]; discriminate PT). destruct (pointee_base _ _ PT) as (PB & _ & VP). rewrite <- XA in PB.
    assert (ISU: is_struct_union (ntype (NDeref na)) = true) by (cbn [ntype]; rewrite PB, <- is_su_eq; exact SL).
    exists (NMember (NDeref na) mi), k1. split; [cbn [elab]; rewrite EA; assert (MD: mk_deref na = Some (NDeref na)) by (unfold mk_deref; rewrite PB; clear - SL; destruct b; try reflexivity; discriminate SL); rewrite MD, ISU; reflexivity|]. apply good_obj; try reflexivity; [exact KA|cbn [well_typed]; rewrite WA; unfold has_base; rewrite PB; unfold member_ok; unfold bf_fits in BF; rewrite BF; reflexivity|exact ISU|].
    intros K0 m w m' m2 lv H AG. cbn [cev] in H. destruct (C false a m) as [[x m1]|] eqn:CA; [|discriminate H]. destruct (DA ltac:(nlia) _ _ _ _ _ CA AG) as (m21 & EV & AG2 & F).
    exists ((x + m_off mi) mod 2 ^ 64), m21. cbn [ev]. rewrite EV. split; [reflexivity|]. cbn [bits_of]. destruct lv.
    + injection H as <- <-. auto.
    + destruct (read V (m_bf mi) (m_ty mi) m1 ((x + m_off mi) mod 2 ^ 64)) as [v'|] eqn:RD; [|discriminate H]. injection H as <- <-. split; [exact AG2|]. split; [exact F|]. split; [exact RD|]. cbn [nbits]. destruct (m_bf mi) as [[bo bw]|]; reflexivity.
  - (* call *) cbn [plain] in P. rewrite !andb_true_iff in P. destruct P as [[PF PA] PR]. assert (CT' := CT). cbn [ctype] in CT. fold (args_ok va) in CT. destruct (ctype f) as [tf|] eqn:TF; [|discriminate CT]. destruct (called tf) as [r|] eqn:CL; [|discriminate CT].
    destruct ((match r with TVoid => true | _ => scalar r end) && args_ok va args ps) eqn:Q; [|discriminate CT]. injection CT as <-. apply andb_true_iff in Q as [RO AO].
    destruct (IHf tf PF eq_refl k) as (nf & k1 & EF & KF & (WF & TQ & _) & DF). assert (XF: ntype nf = tf) by (destruct TQ as [TQ|[_ X]]; [exact TQ|]; exfalso; clear - X CL; apply ei_cases in X as [->| ->]; discriminate CL).
    assert (FV: exact -> va = false) by (intros X; specialize (FX X); cbn [prototyped] in FX; rewrite !andb_true_iff in FX; destruct va; intuition discriminate).
    assert (IHargs' : Forall (fun e => forall t, plain e = true -> ctype e = Some t -> forall k, exists n k', elab e k = Some (n, k') /\ good e t k n k') args).
    { apply Forall_forall. intros a Ia. rewrite Forall_forall in IHargs. apply IHargs; [exact Ia|]. intros X. specialize (FX X). cbn [prototyped] in FX. rewrite !andb_true_iff, forallb_forall in FX. now apply FX. }
    destruct (args_sim va args IHargs' ps k1 PA PR AO) as (ns & k2 & ES & K2 & WS & F2 & X2 & DS). assert (NS: is_struct_union r = false) by (clear - RO; destruct r; try reflexivity; discriminate RO).
    exists (NCall nf ns r), k2. split; [cbn [elab]; rewrite EF, XF; fold (elab_args va); change (callee tf) with (called tf); rewrite CL, ES, NS; reflexivity|].
    apply good_rval; try reflexivity; try exact I; [lia|cbn [well_typed]; rewrite WF, WS; clear - RO; destruct r; try reflexivity; discriminate RO|apply teq_refl|rewrite is_su_eq, NS; discriminate|].
    intros K0 m w m' m2 H AG. cbn [cev] in H. fold (cevs (e_addr E) V call) in H. rewrite (ty_of_some _ _ CT') in H. destruct (cevs (e_addr E) V call args ps m) as [[vs m1]|] eqn:CS; [|discriminate H]. destruct (C false f m1) as [[fa m3]|] eqn:CF; [|discriminate H].
    destruct (call fa (arg_types args ps) r vs m3) as [[v m4]|] eqn:CC; [|discriminate H]. destruct (DS ltac:(clear - K0 KF; lia) _ _ _ _ CS AG) as (m21 & ES' & A1 & F1). destruct (DF ltac:(clear - K0 K2; lia) false _ _ _ _ CF A1) as (m22 & EF' & A2 & F3).
    destruct (CALL _ _ _ _ _ _ _ _ _ CC A2 F2 (fun X => X2 (FV X))) as (m23 & EC & A3 & F4). exists m23. assert (m4 = m') by (clear - H; destruct r; try (destruct (val_of _ _)); congruence). subst m4. split; [|split; [exact A3|]].
    + rewrite ev_call, ES', EF', EC. clear - H. destruct r; try (destruct (val_of _ _)); congruence.
    + eapply fr_t; [|intros x Vx N; apply F4, Vx]. eapply fr_t; [eapply frame_wide; [exact F1|exact KF|apply le_n]|eapply frame_wide; [exact F3|apply le_n|exact K2]].
Qed.
End Sim.
Section Sims.
Variables (E : env) (V : Z -> bool) (k0 kN : nat).
Hypothesis OK : env_ok E.
Hypothesis TM : temporaries (e_addr E) V (e_valid E) k0 kN.
Variable call : Z -> list ty -> ty -> list Z -> mem -> option (Z * mem).
Theorem elab_sim (CALL : calls_agree V call (e_call E)) e t : plain e = true -> ctype e = Some t -> forall k, exists n k', elab e k = Some (n, k') /\ good E V k0 kN call e t k n k'.
Proof.
  apply (elab_simx E V k0 kN OK TM call False); [|intros []]. intros fa ts ts' r vs m m2 v m' H A F _. exact (CALL _ _ _ _ _ _ _ _ _ H A F).
Qed.
Theorem elab_same (CALL : calls_same V call (e_call E)) e t : prototyped e = true -> plain e = true -> ctype e = Some t -> forall k, exists n k', elab e k = Some (n, k') /\ good E V k0 kN call e t k n k'.
Proof.
  intros PR. apply (elab_simx E V k0 kN OK TM call True); [|auto]. intros fa ts ts' r vs m m2 v m' H A _ X. rewrite (X Logic.I). exact (CALL _ _ _ _ _ _ _ _ H A).
Qed.
End Sims.

