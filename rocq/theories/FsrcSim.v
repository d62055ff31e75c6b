(** Proofs for FsrcSpec, continued: every expression of [gtype] is accepted, and its tree has
    its type, value and effect. *)
From Verif Require Import Base TypeModel IntArith NodeModel ValSpec NodeSpec NodeProofs FpSpec FloatSpec FloatProofs ElabSpec ElabProofs ElabSim GenBits FloatProps FsrcSpec FsrcProofs.
From Coq Require Import ZifyBool ZifyNat.
Local Arguments Z.mul : simpl never. Local Arguments Z.add : simpl never. Local Arguments Z.sub : simpl never. Local Arguments Z.pow : simpl never. Local Arguments Z.modulo : simpl never.
Local Notation nf t := (is_float t = false).

Ltac split_and := repeat match goal with H : _ && _ = true |- _ => apply andb_true_iff in H as [? ?] end.
Ltac peel_type := repeat match goal with H : match ctype ?a with Some _ => _ | None => None end = Some _ |- _ => let T := fresh "T" in destruct (ctype a) eqn:T; [|discriminate H] end.
Ltac peel_elab H := repeat match type of H with match elab ?a ?k with Some _ => _ | None => None end = Some _ => let L := fresh "L" in destruct (elab a k) as [[? ?]|] eqn:L; [|discriminate H] end.
Ltac use_ih := repeat match goal with
  | IH : int_src ?a = true -> _, I : int_src ?a = true |- _ => specialize (IH I)
  | IH : forall t, plain ?a = true -> Some ?ta = Some t -> _, P : plain ?a = true |- _ => specialize (IH ta P eq_refl)
  | IH : forall t, plain ?a = true -> ctype ?a = Some t -> _, P : plain ?a = true, T : ctype ?a = Some ?ta |- _ => specialize (IH ta P T)
  | IH : forall k n k', elab ?a k = Some (n, k') -> int_only n = true, L : elab ?a ?k = Some (?n, ?k') |- _ => apply IH in L
  end.
(** ** int and enumerations *)
Lemma teq_fmt a b : teq a b -> fmt_of a = fmt_of b. Proof. intros [->|[X Y]]; [reflexivity|]; apply ei_cases in X, Y; destruct X as [->| ->], Y as [->| ->]; reflexivity. Qed.
Lemma teq_fcast a b t v : teq a b -> fcast a t v = fcast b t v. Proof. intros [->|[X Y]]; [reflexivity|]; apply ei_cases in X, Y; destruct X as [->| ->], Y as [->| ->]; destruct t; reflexivity. Qed.
Lemma teq_ftruth a b v : teq a b -> ftruth a v = ftruth b v. Proof. intros [->|[X Y]]; [reflexivity|]; apply ei_cases in X, Y; destruct X as [->| ->], Y as [->| ->]; reflexivity. Qed.
Lemma teq_arith a b : teq a b -> arith_ty a = arith_ty b. Proof. intros [->|[X Y]]; [reflexivity|]; apply ei_cases in X, Y; destruct X as [->| ->], Y as [->| ->]; reflexivity. Qed.
Lemma teq_sym a b : teq a b -> teq b a. Proof. intros [->|[X Y]]; [apply teq_refl|right; auto]. Qed.
Lemma common_eq a b : common_fmt a b = common_format a b. Proof. destruct a, b; reflexivity. Qed.
Lemma teq_common a b c d : teq a b -> teq c d -> common_fmt a c = common_fmt b d.
Proof. intros A B. unfold common_fmt. rewrite (teq_arith _ _ A), (teq_arith _ _ B), (teq_fmt _ _ A), (teq_fmt _ _ B). reflexivity. Qed.
Lemma teq_float a b f : teq a b -> fmt_of b = Some f -> a = b. Proof. intros [->|[X Y]]; [reflexivity|]; apply ei_cases in Y; destruct Y as [->| ->]; discriminate. Qed.
Lemma scalar_ty_or t : scalar_ty t = true -> is_scalar t = true \/ is_float t = true.
Proof. unfold scalar_ty, scalar, is_scalar. destruct (int_repr t); [auto|]. destruct (fmt_of t) eqn:F; [|discriminate]. right. eapply fmt_float; eauto. Qed.
Lemma teq_scalar a b : teq a b -> scalar_ty a = scalar_ty b. Proof. intros [->|[X Y]]; [reflexivity|]; apply ei_cases in X, Y; destruct X as [->| ->], Y as [->| ->]; reflexivity. Qed.
Lemma common_arith a b f : common_fmt a b = Some f -> is_numeric a = true /\ is_numeric b = true /\ get_common_type a b = fmt_ty f /\ a <> TVoid /\ b <> TVoid.
Proof. unfold common_fmt. destruct a, b; cbn; try discriminate; intros H; injection H as <-; repeat split; discriminate. Qed.
Lemma fsop_bin o bo sw : fsop o = Some (bo, sw) -> comparison bo || four bo = true /\ comparison bo = compares o. Proof. destruct o; cbn; try discriminate; intros H; injection H as <- <-; auto. Qed.

Lemma teq_fcast2 s a b v : teq a b -> fcast s a v = fcast s b v. Proof. intros [->|[X Y]]; [reflexivity|]; apply ei_cases in X, Y; destruct X as [->| ->], Y as [->| ->]; destruct s; reflexivity. Qed.
Lemma teq_is_arith a b : teq a b -> is_arith a = is_arith b. Proof. intros [->|[X Y]]; [reflexivity|]; apply ei_cases in X, Y; destruct X as [->| ->], Y as [->| ->]; reflexivity. Qed.
(** The operator of the tree; operands exchanged? *)
Definition sbop (o : sop) : bop * bool :=
  match o with
  | SAdd => (Add, false) | SSub => (Sub, false) | SMul => (Mul, false) | SDiv => (Div, false) | SMod => (Mod, false) | SAnd => (And, false) | SOr => (Or, false) | SXor => (Xor, false)
  | SEq => (Eq, false) | SNe => (Ne, false) | SLt => (Lt, false) | SLe => (Le, false) | SGt => (Lt, true) | SGe => (Le, true) | SShl => (Shl, false) | SShr => (Shr, false)
  end.
Lemma fsop_sbop o p : fsop o = Some p -> sbop o = p. Proof. destruct o; cbn; congruence. Qed.
Lemma int_op o ta tb x y : is_arith ta = true -> is_arith tb = true -> shifts o = false -> let (bo, sw) := sbop o in is_shift bo = false /\ comparison bo = compares o /\
  bin_type o ta tb = Some (if compares o then int_t else usual ta tb) /\ bin_op o ta tb x y = if sw then arith_op bo tb ta y x else arith_op bo ta tb x y.
Proof. intros A B S. destruct o; try discriminate S; cbn [sbop is_shift comparison compares bin_type bin_op]; unfold compare_op; rewrite ?A, ?B; auto. Qed.
(** x + -1 is x - 1 *)
Lemma sub_one f x : fop FAdd f x (fof f (-1)) = fop FSub f x (fof f 1).
Proof.
  unfold fop. f_equal. assert (M : exists e p, decode f (fof f (-1)) = SpecFloat.S754_finite true p e /\ decode f (fof f 1) = SpecFloat.S754_finite false p e) by (destruct f; do 2 eexists; split; vm_compute; reflexivity).
  destruct M as (e & p & -> & ->). destruct (decode f x) as [s|s| |s m e']; cbn [SpecFloat.SFadd SpecFloat.SFsub negb]; try reflexivity.
Qed.
Lemma gop_one t x f : fmt_of t = Some f -> gop SAdd t int_t x (-1) = gop SSub t int_t x 1.
Proof.
  intros F. assert (CF : common_fmt t int_t = Some f) by (destruct t; try discriminate F; injection F as <-; reflexivity). unfold gop. rewrite CF. cbn [fsop]. assert (T : t = fmt_ty f) by (destruct t; try discriminate F; injection F as <-; reflexivity). subst t.
  unfold fcast. rewrite fmt_fmt_ty. cbn [fmt_of int_t int_repr fbin_val]. now rewrite sub_one.
Qed.

Section Sim.
Variables (E : env) (V : Z -> bool) (k0 kN : nat).
Hypothesis OK : env_ok E.
Hypothesis TM : temporaries (e_addr E) V (e_valid E) k0 kN.
Local Notation W := (e_valid E).
Local Notation taddr k := (e_addr E (VLocal k)).
Local Notation agr := (agree V).
Local Notation C lv e m := (cev (e_addr E) V no_call lv e m).
Local Notation G e m := (gev (e_addr E) V e m).
Local Notation fr := (frame E V).
Lemma no_calls : calls_agree V no_call (e_call E). Proof. intros fa ts ts' r vs m m2 v m' H. discriminate H. Qed.
Lemma sim e t : plain e = true -> ctype e = Some t -> forall k, exists n k', elab e k = Some (n, k') /\ good E V k0 kN no_call e t k n k'.
Proof. exact (elab_sim E V k0 kN OK TM no_call no_calls e t). Qed.
Lemma lval_type e t k n k' : plain e = true -> ctype e = Some t -> is_lval e = true -> elab e k = Some (n, k') -> ntype n = t.
Proof. intros P T L EL. destruct (sim e t P T k) as (n1 & k1 & E1 & _ & (_ & _ & X & _) & _). rewrite EL in E1. injection E1 as <- <-. auto. Qed.

Lemma elab_int e : int_src e = true -> forall t, plain e = true -> ctype e = Some t -> forall k n k', elab e k = Some (n, k') -> int_only n = true.
Proof.
  induction e as [ct v|x vt|a IHa|a IHa|a IHa|a IHa|o a IHa b IHb|a IHa b IHb|a IHa b IHb|c IHc a IHa b IHb|a IHa b IHb|a IHa b IHb|ct a IHa|l IHl r IHr|o l IHl r IHr|l IHl|l IHl|l IHl|l IHl|a IHa|l IHl|a IHa b IHb|l IHl mi|a IHa mi|f IHf ps va args]; intros I t P CT k n k' EL.
  - injection EL as <- <-. exact (f_equal (fun b => b && true) I).
  - injection EL as <- <-. exact (f_equal (fun b => b && true) I).
  - cbn [int_src plain ctype elab] in *. split_and. peel_type. use_ih. exact EL.
  - cbn [int_src plain ctype elab] in *. split_and. peel_type. peel_elab EL. use_ih. injection EL as <- <-. pose proof (gct_nf (TInt false) _ eq_refl (int_only_type _ L)) as T1. unfold mk_neg. cbn [int_only ntype]. now rewrite T1, L.
  - cbn [int_src plain ctype elab] in *. split_and. peel_type. peel_elab EL. use_ih. injection EL as <- <-. exact L.
  - cbn [int_src plain ctype elab] in *. split_and. peel_type. peel_elab EL. use_ih. injection EL as <- <-. pose proof (int_only_type _ L) as T1. cbn [int_only ntype]. now rewrite T1, L.
  - cbn [int_src plain ctype elab] in *. split_and. peel_type. peel_elab EL. use_ih. destruct (new_op _ _ _) as [x|] eqn:X; [|discriminate]. injection EL as <- <-. eapply io_op; [| |exact X]; assumption.
  - cbn [int_src plain ctype elab] in *. split_and. peel_type. peel_elab EL. use_ih. injection EL as <- <-. cbn [int_only ntype is_float]. now rewrite L, L0.
  - cbn [int_src plain ctype elab] in *. split_and. peel_type. peel_elab EL. use_ih. injection EL as <- <-. cbn [int_only ntype is_float]. now rewrite L, L0.
  - cbn [int_src plain ctype elab] in *. split_and. peel_type. peel_elab EL. use_ih. injection EL as <- <-. now apply io_cond.
  - cbn [int_src plain ctype elab] in *. split_and. peel_type. peel_elab EL. use_ih. destruct (mk_assign _ _) as [e1|] eqn:A; [|discriminate]. peel_elab EL. use_ih. injection EL as <- <-. pose proof (int_only_type _ L) as T1.
    assert (TV : int_only (NVar (VLocal n1) (ntype n0)) = true) by (cbn [int_only ntype]; now rewrite T1). apply io_assign in A; [|exact TV|exact L]. assert (Q := io_cond _ _ _ TV TV L0). pose proof (int_only_type _ Q) as T2. cbn [int_only ntype]. now rewrite A, Q, T2.
  - cbn [int_src plain ctype elab] in *. split_and. peel_type. peel_elab EL. use_ih. injection EL as <- <-. pose proof (int_only_type _ L0) as T1. cbn [int_only ntype]. now rewrite L, L0, T1.
  - cbn [int_src plain ctype elab] in *. split_and. peel_type. peel_elab EL. use_ih. injection EL as <- <-. apply io_cast; [now apply negb_true_iff|exact L].
  - cbn [int_src plain ctype elab] in *. split_and. peel_type. peel_elab EL. use_ih. destruct (mk_assign _ _) as [x|] eqn:X; [|discriminate]. injection EL as <- <-. eapply io_assign; [| |exact X]; assumption.
  - cbn [int_src plain ctype elab] in *. split_and. peel_type. peel_elab EL. use_ih. destruct (raw_parts _ _ _) as [[[o1 a1] b1]|] eqn:X; [|discriminate]. apply io_raw in X as [X1 X2]; [|assumption|assumption]. cbn [fst snd] in *. destruct (to_assign _ _) as [y|] eqn:Y; [|discriminate]. injection EL as <- <-. eapply io_to_assign; [| |exact Y]; assumption.
  - cbn [int_src plain ctype elab] in *. split_and. peel_type. peel_elab EL. use_ih. destruct (raw_parts _ _ _) as [[[o1 a1] b1]|] eqn:X; [|discriminate]. apply io_raw in X as [X1 X2]; [|assumption|reflexivity]. cbn [fst snd] in *. destruct (to_assign _ _) as [y|] eqn:Y; [|discriminate]. injection EL as <- <-. eapply io_to_assign; [| |exact Y]; assumption.
  - cbn [int_src plain ctype elab] in *. split_and. peel_type. peel_elab EL. use_ih. destruct (raw_parts _ _ _) as [[[o1 a1] b1]|] eqn:X; [|discriminate]. apply io_raw in X as [X1 X2]; [|assumption|reflexivity]. cbn [fst snd] in *. destruct (to_assign _ _) as [y|] eqn:Y; [|discriminate]. injection EL as <- <-. eapply io_to_assign; [| |exact Y]; assumption.
  - cbn [int_src plain ctype elab] in *. split_and. peel_type. peel_elab EL. use_ih. destruct (new_inc_dec _ _ _) as [x|] eqn:X; [|discriminate]. injection EL as <- <-. eapply io_inc; [|exact X]; assumption.
  - cbn [int_src plain ctype elab] in *. split_and. peel_type. peel_elab EL. use_ih. destruct (new_inc_dec _ _ _) as [x|] eqn:X; [|discriminate]. injection EL as <- <-. eapply io_inc; [|exact X]; assumption.
  - pose proof (lval_type _ _ _ _ _ P CT eq_refl EL) as TN. pose proof (ty_of_some _ _ CT) as TY. cbn [int_src] in I. rewrite TY in I. cbn [plain ctype elab] in *. split_and. peel_type. peel_elab EL. use_ih.
    assert (N : nf (ntype n)) by (rewrite TN; now apply negb_true_iff). destruct (ntype n0); try (destruct (mk_deref _) as [d|] eqn:D; [|discriminate]; injection EL as <- <-; now apply (io_deref _ _ L D)). now injection EL as <- <-.
  - cbn [int_src plain ctype elab] in *. split_and. peel_type. peel_elab EL. use_ih. assert (n = NAddr n0) by (destruct n0; try (injection EL as <- <-; reflexivity); destruct m as [? ? []]; [discriminate|]; injection EL as <- <-; reflexivity). subst n. now apply io_addr.
  - pose proof (lval_type _ _ _ _ _ P CT eq_refl EL) as TN. pose proof (ty_of_some _ _ CT) as TY. cbn [int_src] in I. rewrite TY in I. cbn [plain ctype elab] in *. split_and. peel_type. peel_elab EL. use_ih.
    assert (N : nf (ntype n)) by (rewrite TN; now apply negb_true_iff). destruct (new_add _ _) as [s|] eqn:S; [|discriminate]. apply io_add in S; [|assumption|assumption]. destruct (mk_deref _) as [d|] eqn:D; [|discriminate]. injection EL as <- <-. now apply (io_deref _ _ S D).
  - cbn [int_src plain ctype elab] in *. split_and. peel_type. peel_elab EL. use_ih. destruct (is_struct_union _); [|discriminate]. injection EL as <- <-. cbn [int_only ntype]. match goal with H : negb _ = true |- _ => rewrite H end. exact L.
  - cbn [int_src plain ctype elab] in *. split_and. peel_type. peel_elab EL. use_ih. destruct (mk_deref _) as [d|] eqn:D; [|discriminate]. destruct (is_struct_union _) eqn:S; [|discriminate]. injection EL as <- <-. cbn [int_only]. cbn [ntype]. match goal with H : negb _ = true |- _ => rewrite H end. refine (proj1 (io_deref _ _ L D _)). destruct (ntype d); discriminate || reflexivity.
  - discriminate I.
Qed.

(** ** Memory *)
Local Notation VW := (VW E V k0 kN TM).
Lemma fload_mono t m m2 a v : agr m m2 -> fload V t m a = Some v -> fload W t m2 a = Some v.
Proof.
  intros A. unfold fload. destruct (fmt_of t).
  - destruct (accessible V a (size_of t)) eqn:X; [|discriminate]. intros H. rewrite (acc_mono V W VW _ _ X), <- (acc_load V W VW _ _ _ _ A X). exact H.
  - exact (read_mono V W VW None t m m2 a v A).
Qed.
Lemma fstore_mono t m m2 a v m' : agr m m2 -> fstore V t m a v = Some m' -> exists m2', fstore W t m2 a v = Some m2' /\ agr m' m2' /\ same_out V m2 m2'.
Proof.
  intros A. unfold fstore. destruct (fmt_of t).
  - destruct (accessible V a (size_of t)) eqn:X; [|discriminate]. intros H. injection H as <-. rewrite (acc_mono V W VW _ _ X). eexists. split; [reflexivity|]. now apply (store_both V W VW).
  - exact (store_val_mono V W VW t m m2 a v m' A).
Qed.
Definition fdyn (F : mem -> option (Z * mem)) (k : nat) (n : node) (k' : nat) : Prop :=
  (k0 <= k /\ k' <= kN)%nat -> forall m v m' m2, F m = Some (v, m') -> agr m m2 -> exists m2', fev E false n m2 = Some (v, m2') /\ agr m' m2' /\ fr k k' m2 m2'.
Lemma fseq Fa Fb k na k1 nb k2 m x m1 y m' m2 : fdyn Fa k na k1 -> fdyn Fb k1 nb k2 -> (k0 <= k /\ k2 <= kN)%nat -> (k <= k1 <= k2)%nat -> Fa m = Some (x, m1) -> Fb m1 = Some (y, m') -> agr m m2 ->
  exists m21 m22, fev E false na m2 = Some (x, m21) /\ fev E false nb m21 = Some (y, m22) /\ agr m' m22 /\ fr k k2 m2 m22.
Proof.
  intros DA DB K0 K HA HB AG. destruct (DA ltac:(lia) _ _ _ _ HA AG) as (m21 & EA & A1 & F1). destruct (DB ltac:(lia) _ _ _ _ HB A1) as (m22 & EB & A2 & F2). exists m21, m22. repeat split; auto. eapply frame_trans; [exact F1|exact F2| | | |]; lia.
Qed.
Lemma fseq_r Fa Fb k na k1 nb k2 m x m1 y m' m2 : fdyn Fa k na k1 -> fdyn Fb k1 nb k2 -> (k0 <= k /\ k2 <= kN)%nat -> (k <= k1 <= k2)%nat -> Fb m = Some (y, m1) -> Fa m1 = Some (x, m') -> agr m m2 ->
  exists m21 m22, fev E false nb m2 = Some (y, m21) /\ fev E false na m21 = Some (x, m22) /\ agr m' m22 /\ fr k k2 m2 m22.
Proof.
  intros DA DB K0 K HB HA AG. destruct (DB ltac:(lia) _ _ _ _ HB AG) as (m21 & EB & A1 & F1). destruct (DA ltac:(lia) _ _ _ _ HA A1) as (m22 & EA & A2 & F2). exists m21, m22. repeat split; auto. eapply frame_trans; [exact F1|exact F2| | | |]; lia.
Qed.
Definition fgood (e : cexpr) (t : ty) (k : nat) (n : node) (k' : nat) : Prop :=
  (k <= k')%nat /\ fwell_typed n = true /\ teq (ntype n) t /\ fdyn (fun m => G e m) k n k'.

(** ** Objects *)
Lemma float_lval e t : float_obj e = true -> ctype e = Some t -> plain e = true /\ is_lval e = true /\ bits_of e = None /\ exists f, fmt_of t = Some f.
Proof.
  unfold float_obj. intros H T. rewrite (ty_of_some _ _ T) in H. split_and. split; [assumption|]. destruct (fmt_of t) as [f|]; [|discriminate]. destruct e; try discriminate; cbn [is_lval bits_of]; split_and; repeat split; eauto; destruct (m_bf _); auto; discriminate.
Qed.
Lemma float_fobj e t k n k' : float_obj e = true -> ctype e = Some t -> elab e k = Some (n, k') -> fobj n.
Proof.
  intros O T EL. destruct (float_lval _ _ O T) as (P & LV & _ & f & F). pose proof (lval_type _ _ _ _ _ P T LV EL) as TN. unfold float_obj in O. rewrite (ty_of_some _ _ T) in O.
  split; [exists f; now rewrite TN|]. apply andb_true_iff in O as [_ O]. destruct e as [ct v|x vt|a|a|a|a|o a b|a b|a b|c a b|a b|a b|ct a|l r|o l r|l|l|l|l|a|l|a b|l mi|a mi|fn ps va args]; try discriminate O.
  - injection EL as <- <-. exact I.
  - cbn [plain ctype elab] in *. peel_type. peel_elab EL. pose proof (elab_int a O _ P T0 _ _ _ L) as IA. destruct (ntype n0) eqn:TN0; try (unfold mk_deref in EL; rewrite TN0 in EL; cbn [base_of] in EL; try discriminate EL; match type of EL with context [match ?b with TVoid => _ | _ => _ end] => destruct b; try discriminate EL end; injection EL as <- <-; exact IA).
    injection EL as <- <-. rewrite TN in TN0. subst t. discriminate F.
  - cbn [plain ctype elab] in *. split_and. peel_type. peel_elab EL. assert (I1 : int_only n0 = true) by (eapply elab_int; [| |exact T0|exact L]; assumption). assert (I2 : int_only n2 = true) by (eapply elab_int; [| |exact T1|exact L0]; assumption).
    destruct (new_add _ _) as [s|] eqn:S; [|discriminate]. apply io_add in S; [|assumption|assumption]. unfold mk_deref in EL. destruct (base_of (ntype s)) as [[]|]; try discriminate EL; injection EL as <- <-; exact S.
  - cbn [plain ctype elab] in *. split_and. peel_type. peel_elab EL. destruct (is_struct_union _); [|discriminate]. injection EL as <- <-. split; [eapply elab_int; [| |exact T0|exact L]; assumption|]. destruct (m_bf mi); [discriminate|reflexivity].
  - cbn [plain ctype elab] in *. split_and. peel_type. peel_elab EL. assert (I1 : int_only n0 = true) by (eapply elab_int; [| |exact T0|exact L]; assumption). destruct (mk_deref _) as [d|] eqn:D; [|discriminate]. destruct (is_struct_union _) eqn:S; [|discriminate]. injection EL as <- <-. split; [|destruct (m_bf mi); [discriminate|reflexivity]].
    refine (proj1 (io_deref _ _ I1 D _)). destruct (ntype d); discriminate || reflexivity.
Qed.
Lemma lobj_gen l tl k : plain l = true /\ is_lval l = true /\ bits_of l = None /\ arith_ty tl || is_pointer tl = true -> float_obj l = true \/ int_src l = true -> ctype l = Some tl -> exists nl k1, elab l k = Some (nl, k1) /\ good E V k0 kN no_call l tl k nl k1 /\ ntype nl = tl /\ fwell_typed nl = true /\
  (forall m, fev E true nl m = ev E true nl m) /\ is_bitfield nl = false /\ is_struct_union tl = false /\ fsame tl tl = true /\ (forall r, mk_assign nl r = Some (NAssign nl (NCast tl r))).
Proof.
  intros (P & LV & B & AT) O T. destruct (sim l tl P T k) as (nl & k1 & EL & GD). exists nl, k1. split; [exact EL|]. split; [exact GD|]. destruct GD as (_ & (WT & _ & TY & _ & _ & NB) & _). specialize (TY LV).
  assert (NFU : forall r, tl <> TFunc r) by (intros r ->; discriminate AT). specialize (NB LV NFU). split; [exact TY|].
  assert (X : fwell_typed nl = true /\ forall m, fev E true nl m = ev E true nl m).
  { destruct O as [O|O].
    - pose proof (float_fobj _ _ _ _ _ O T EL) as FO. split; [now apply fobj_wt|]. intros m. now apply fobj_true.
    - assert (IO : int_only nl = true) by (eapply elab_int; [| |exact T|exact EL]; assumption). split; [now rewrite fwt_int|]. intros m. now apply fev_int. }
  destruct X as [X1 X2]. split; [exact X1|]. split; [exact X2|]. split; [rewrite B in NB; destruct nl; try reflexivity; cbn [nbits] in NB; cbn [is_bitfield]; now rewrite NB|].
  split; [destruct tl; discriminate || reflexivity|]. split; [destruct tl as [| |[]|[]|[]|[]| | | | | | | | | |]; discriminate || reflexivity|]. intros r. unfold mk_assign. rewrite TY. destruct tl; discriminate || reflexivity.
Qed.
Lemma lobj l tl k : float_obj l || int_obj l = true -> ctype l = Some tl -> exists nl k1, elab l k = Some (nl, k1) /\ good E V k0 kN no_call l tl k nl k1 /\ ntype nl = tl /\ fwell_typed nl = true /\
  (forall m, fev E true nl m = ev E true nl m) /\ is_bitfield nl = false /\ is_struct_union tl = false /\ fsame tl tl = true /\ (forall r, mk_assign nl r = Some (NAssign nl (NCast tl r))).
Proof.
  intros O T. apply lobj_gen; [| |exact T].
  - apply orb_true_iff in O as [O|O]; [destruct (float_lval _ _ O T) as (A & B & D & f & F); repeat split; auto; unfold arith_ty; rewrite F, orb_true_r; reflexivity|]. unfold int_obj in O. rewrite (ty_of_some _ _ T) in O. split_and. repeat split; auto; [destruct (bits_of l); [discriminate|reflexivity]|]. unfold arith_ty. now rewrite H0.
  - apply orb_true_iff in O as [O|O]; [now left|right]. unfold int_obj in O. split_and. assumption.
Qed.
Lemma lobj_ptr l tl k : ptr_obj l = true -> ctype l = Some tl -> exists nl k1, elab l k = Some (nl, k1) /\ good E V k0 kN no_call l tl k nl k1 /\ ntype nl = tl /\ fwell_typed nl = true /\
  (forall m, fev E true nl m = ev E true nl m) /\ is_bitfield nl = false /\ is_struct_union tl = false /\ fsame tl tl = true /\ (forall r, mk_assign nl r = Some (NAssign nl (NCast tl r))).
Proof.
  intros O T. unfold ptr_obj, no_bits in O. rewrite (ty_of_some _ _ T) in O. split_and. apply lobj_gen; [|now right|exact T]. repeat split; auto; [destruct (bits_of l); [discriminate|reflexivity]|]. rewrite H0. apply orb_true_r.
Qed.

Lemma gty_some e t : gtype e = Some t -> gty e = t. Proof. unfold gty. now intros ->. Qed.
Lemma common_sym a b : common_fmt a b = common_fmt b a. Proof. destruct a, b; reflexivity. Qed.
(** The operator on trees *)
Lemma fop_node o bo sw ta tb f na nb : fsop o = Some (bo, sw) -> common_fmt ta tb = Some f -> teq (ntype na) ta -> teq (ntype nb) tb -> fwell_typed na = true -> fwell_typed nb = true ->
  exists n, new_op o na nb = Some n /\ n = (if sw then mk_bin bo nb na else mk_bin bo na nb) /\ fwell_typed n = true /\ ntype n = (if compares o then int_t else fmt_ty f) /\
  forall m x y m1 m2 v, (if sw then fev E false na m = Some (x, m1) /\ fev E false nb m1 = Some (y, m2) else fev E false nb m = Some (y, m1) /\ fev E false na m1 = Some (x, m2)) -> gop o ta tb x y = Some v -> fev E false n m = Some (v, m2).
Proof.
  intros O CF TA TB WA WB. assert (CN : common_fmt (ntype na) (ntype nb) = Some f) by (rewrite (teq_common _ _ _ _ TA TB); exact CF).
  destruct (common_arith _ _ _ CN) as (NA & NB & _ & _ & _). destruct (fsop_bin _ _ _ O) as [C4 CC].
  exists (if sw then mk_bin bo nb na else mk_bin bo na nb). split.
  { destruct o; try discriminate O; injection O as <- <-; try reflexivity; unfold new_op, new_add, new_sub; rewrite ?NA, ?NB; reflexivity. }
  split; [reflexivity|]. assert (CN' : common_format (ntype nb) (ntype na) = Some f) by (rewrite <- common_eq, common_sym; exact CN). pose proof CN as CN2. rewrite common_eq in CN2.
  assert (FT : ty_of_fmt f = fmt_ty f) by (destruct f; reflexivity).
  destruct sw.
  - destruct (C72_float_operator bo nb na f C4 CN' WB WA) as (W1 & T1 & EV). split; [exact W1|]. split; [now rewrite T1, CC, FT|]. intros m x y m1 m2 v [HA HB] GO. unfold gop in GO. rewrite CF, O in GO.
    destruct (fcast ta (fmt_ty f) x) as [x'|] eqn:CX; [|discriminate]. destruct (fcast tb (fmt_ty f) y) as [y'|] eqn:CY; [|discriminate].
    rewrite (EV E m x m1 y m2 y' x' HA HB); [now rewrite GO|rewrite FT, (teq_fcast _ _ _ _ TA); exact CX|rewrite FT, (teq_fcast _ _ _ _ TB); exact CY].
  - destruct (C72_float_operator bo na nb f C4 CN2 WA WB) as (W1 & T1 & EV). split; [exact W1|]. split; [now rewrite T1, CC, FT|]. intros m x y m1 m2 v [HB HA] GO. unfold gop in GO. rewrite CF, O in GO.
    destruct (fcast ta (fmt_ty f) x) as [x'|] eqn:CX; [|discriminate]. destruct (fcast tb (fmt_ty f) y) as [y'|] eqn:CY; [|discriminate].
    rewrite (EV E m y m1 x m2 x' y' HB HA); [now rewrite GO|rewrite FT, (teq_fcast _ _ _ _ TB); exact CY|rewrite FT, (teq_fcast _ _ _ _ TA); exact CX].
Qed.
Lemma to_assign_float o n r k f : fmt_of (ntype n) = Some f -> mem_su n -> to_assign (o, n, r) k = Some (NComma (set_tmp n k) (NAssign (target n k) (NCast (ntype n) (mk_bin o (target n k) r)))).
Proof.
  intros F M. assert (A : forall l x, ntype l = ntype n -> mk_assign l x = Some (NAssign l (NCast (ntype n) x))) by (intros l x T; unfold mk_assign; rewrite T; destruct (ntype n); try discriminate F; reflexivity).
  assert (T : forall T x, mk_assign (NVar (VLocal k) (TPtr T)) x = Some (NAssign (NVar (VLocal k) (TPtr T)) (NCast (TPtr T) x))) by reflexivity.
  assert (D : forall T, (match T with TVoid => False | _ => True end) -> mk_deref (NVar (VLocal k) (TPtr T)) = Some (NDeref (NVar (VLocal k) (TPtr T)))) by (intros [] H; try contradiction; reflexivity).
  unfold to_assign. destruct n; cbv beta iota zeta; rewrite T.
  4: { cbn [mem_su] in M. rewrite D by (destruct (ntype n); discriminate || exact I). rewrite A by reflexivity. reflexivity. }
  all: rewrite D by (match goal with |- context [ntype ?x] => destruct (ntype x); discriminate || exact I end); rewrite A by reflexivity; reflexivity.
Qed.
Lemma op_node o ta tb t na nb : gop_type o ta tb = Some t -> teq (ntype na) ta -> teq (ntype nb) tb -> fwell_typed na = true -> fwell_typed nb = true -> let (bo, sw) := sbop o in
  exists n, (compares o = false -> is_numeric (ntype na) = true) /\ (compares o = false -> is_numeric (ntype nb) = true) /\ new_op o na nb = Some n /\ n = (if sw then mk_bin bo nb na else mk_bin bo na nb) /\ fwell_typed n = true /\ teq (ntype n) t /\
  forall m x y m1 m2 v, (if sw then fev E false na m = Some (x, m1) /\ fev E false nb m1 = Some (y, m2) else fev E false nb m = Some (y, m1) /\ fev E false na m1 = Some (x, m2)) -> gop o ta tb x y = Some v -> fev E false n m = Some (v, m2).
Proof.
  intros GT TA TB WA WB. unfold gop_type in GT. destruct (common_fmt ta tb) as [f|] eqn:CF.
  - destruct (fsop o) as [[bo sw]|] eqn:FS; [|discriminate]. injection GT as <-. rewrite (fsop_sbop _ _ FS). assert (CN : common_fmt (ntype na) (ntype nb) = Some f) by (rewrite (teq_common _ _ _ _ TA TB); exact CF). destruct (common_arith _ _ _ CN) as (NA & NB & _).
    destruct (fop_node o bo sw ta tb f na nb FS CF TA TB WA WB) as (n & NO & NE & WN & TN & EV). exists n. split; [intros _; exact NA|]. split; [intros _; exact NB|]. split; [exact NO|]. split; [exact NE|]. split; [exact WN|]. split; [rewrite TN; apply teq_refl|exact EV].
  - assert (NP : is_arith ta && is_arith tb = true -> is_pointer ta && is_pointer tb = false) by (destruct ta; try discriminate; reflexivity).
    destruct (is_arith ta && is_arith tb && (negb (shifts o) || (4 <=? size_of ta))) eqn:C.
    2: { destruct (is_pointer ta && is_pointer tb && compares o) eqn:PC; [|discriminate]. injection GT as <-. destruct ta as [| | | | | | | | | |ba| | | | |], tb as [| | | | | | | | | |bb| | | | |]; try discriminate PC. cbn [is_pointer andb] in PC.
      assert (QA : ntype na = TPtr ba) by (apply (teq_eq _ _ TA); reflexivity). assert (QB : ntype nb = TPtr bb) by (apply (teq_eq _ _ TB); reflexivity).
      assert (CO : comparison (fst (sbop o)) = true /\ new_op o na nb = Some (if snd (sbop o) then mk_bin (fst (sbop o)) nb na else mk_bin (fst (sbop o)) na nb) /\ forall x y, bin_op o (TPtr ba) (TPtr bb) x y = if snd (sbop o) then bin_val (fst (sbop o)) (TPtr TVoid) y x else bin_val (fst (sbop o)) (TPtr TVoid) x y) by (destruct o; try discriminate PC; repeat split; reflexivity).
      destruct (sbop o) as [bo sw]. cbn [fst snd] in CO. destruct CO as (CB & NO & BO). eexists. split; [intros Q; congruence|]. split; [intros Q; congruence|]. split; [exact NO|]. split; [reflexivity|]. destruct sw.
      - destruct (ptr_cmp E bo nb na _ _ QB QA WB WA CB) as (W & T & EV). split; [exact W|]. split; [rewrite T; apply teq_refl|]. intros m x y m1 m2 v [HE1 HE2] GO. unfold gop in GO. rewrite CF in GO. cbn [is_pointer andb] in GO. destruct (conv (TPtr TVoid) x) as [x'|] eqn:CX; [|discriminate]. destruct (conv (TPtr TVoid) y) as [y'|] eqn:CY; [|discriminate]. rewrite BO in GO. eapply EV; eauto.
      - destruct (ptr_cmp E bo na nb _ _ QA QB WA WB CB) as (W & T & EV). split; [exact W|]. split; [rewrite T; apply teq_refl|]. intros m x y m1 m2 v [HE1 HE2] GO. unfold gop in GO. rewrite CF in GO. cbn [is_pointer andb] in GO. destruct (conv (TPtr TVoid) x) as [x'|] eqn:CX; [|discriminate]. destruct (conv (TPtr TVoid) y) as [y'|] eqn:CY; [|discriminate]. rewrite BO in GO. eapply EV; eauto. }
    split_and. specialize (NP ltac:(apply andb_true_intro; split; assumption)). destruct (shifts o) eqn:SO.
    { assert (AA : is_arith (ntype na) = true) by (rewrite (teq_is_arith _ _ TA); assumption). assert (AB : is_arith (ntype nb) = true) by (rewrite (teq_is_arith _ _ TB); assumption).
      assert (TP : teq (ntype na) (promote ta)). { pose proof (wide_promote ta ltac:(assumption) ltac:(cbn [negb orb] in *; lia)) as P. destruct TA as [->|[X Y]]; [exact P|]. destruct P as [<-|[X2 Y2]]; right; auto. }
      assert (GS : t = promote ta /\ exists bo, is_shift bo = true /\ sbop o = (bo, false) /\ new_op o na nb = Some (mk_bin bo na nb) /\ forall x y, bin_op o (promote ta) (promote tb) x y = bin_val bo (promote ta) x y).
      { assert (PA : is_arith (promote ta) = true) by (rewrite arith_promote_iff; assumption). assert (PB : is_arith (promote tb) = true) by (rewrite arith_promote_iff; assumption). destruct o; try discriminate SO; cbn [bin_type] in GT; rewrite PA, PB in GT; injection GT as <-; (split; [reflexivity|]); eexists; repeat split; reflexivity. }
      destruct GS as (-> & bo & SH & SB & NO & BO). rewrite SB. destruct (int_shift E bo na nb (promote ta) SH AA AB WA WB TP) as (W & T & EV). eexists. split; [intros _; now apply arith_numeric|]. split; [intros _; now apply arith_numeric|]. split; [exact NO|]. split; [reflexivity|]. split; [exact W|]. split; [exact T|].
      intros m x y m1 m2 v [HE1 HE2] GO. unfold gop in GO. rewrite CF, NP, BO in GO. eapply EV; eauto. }
    assert (AA : is_arith (ntype na) = true) by (rewrite (teq_is_arith _ _ TA); assumption). assert (AB : is_arith (ntype nb) = true) by (rewrite (teq_is_arith _ _ TB); assumption).
    assert (IO : forall x y, let (bo, sw) := sbop o in is_shift bo = false /\ comparison bo = compares o /\ bin_type o (promote ta) (promote tb) = Some (if compares o then int_t else usual (promote ta) (promote tb)) /\ bin_op o (promote ta) (promote tb) x y = if sw then arith_op bo (promote tb) (promote ta) y x else arith_op bo (promote ta) (promote tb) x y) by (intros; apply int_op; rewrite ?arith_promote_iff; assumption).
    assert (NO : let (bo, sw) := sbop o in new_op o na nb = Some (if sw then mk_bin bo nb na else mk_bin bo na nb)) by (destruct o; try discriminate SO; try reflexivity; unfold new_op, new_add, new_sub; rewrite ?(arith_numeric _ AA), ?(arith_numeric _ AB); reflexivity).
    assert (SWC : snd (sbop o) = true -> compares o = true) by (destruct o; try discriminate; reflexivity).
    destruct (sbop o) as [bo sw] eqn:SB. cbn [snd] in SWC. destruct (IO 0 0) as (SH & CC & BT & _). rewrite BT in GT. injection GT as <-. eexists. split; [intros _; now apply arith_numeric|]. split; [intros _; now apply arith_numeric|]. split; [exact NO|]. split; [reflexivity|]. rewrite <- (promote_teq _ _ TA), <- (promote_teq _ _ TB) in *.
    destruct sw.
    + destruct (int_bin E bo nb na AB AA WB WA SH) as (W & T & EV). split; [exact W|]. rewrite CC, (SWC eq_refl) in T. rewrite (SWC eq_refl). split; [exact T|]. intros m x y m1 m2 v [HE1 HE2] GO. unfold gop in GO. rewrite CF, NP, <- (promote_teq _ _ TA), <- (promote_teq _ _ TB) in GO. destruct (IO x y) as (_ & _ & _ & BO). rewrite BO in GO. eapply EV; eauto.
    + destruct (int_bin E bo na nb AA AB WA WB SH) as (W & T & EV). split; [exact W|]. rewrite CC in T. split; [exact T|]. intros m x y m1 m2 v [HE1 HE2] GO. unfold gop in GO. rewrite CF, NP, <- (promote_teq _ _ TA), <- (promote_teq _ _ TB) in GO. destruct (IO x y) as (_ & _ & _ & BO). rewrite BO in GO. eapply EV; eauto.
Qed.
Lemma un_type n ta w t : teq n ta -> gun_type w ta = Some t -> w = false -> teq n t.
Proof.
  intros T G ->. unfold gun_type in G. destruct (fmt_of ta); [injection G as <-; exact T|]. cbn [orb] in G. destruct (is_arith ta && (4 <=? size_of ta)) eqn:A; [|discriminate]. injection G as <-. split_and.
  pose proof (wide_promote ta ltac:(assumption) ltac:(lia)) as P. destruct T as [->|[X Y]]; [exact P|]. destruct P as [<-|[X2 Y2]]; right; auto.
Qed.
Lemma cond_node nc na nb ta tb t : gcond_type ta tb = Some t -> teq (ntype na) ta -> teq (ntype nb) tb -> exists g, teq g t /\ mk_cond nc na nb = NCond nc (NCast g na) (NCast g nb) /\ g <> TVoid /\ fsame g g = true.
Proof.
  intros GT TA TB. assert (MK : ntype na <> TVoid -> ntype nb <> TVoid -> mk_cond nc na nb = NCond nc (NCast (get_common_type (ntype na) (ntype nb)) na) (NCast (get_common_type (ntype na) (ntype nb)) nb)) by (intros VA VB; unfold mk_cond; destruct (ntype na); try (now contradiction VA); destruct (ntype nb); try (now contradiction VB); reflexivity).
  unfold gcond_type in GT. destruct (common_fmt ta tb) as [f|] eqn:CF.
  - injection GT as <-. assert (CN : common_fmt (ntype na) (ntype nb) = Some f) by (rewrite (teq_common _ _ _ _ TA TB); exact CF). destruct (common_arith _ _ _ CN) as (_ & _ & GC & VA & VB). rewrite GC in MK. exists (fmt_ty f). split; [apply teq_refl|]. split; [now apply MK|]. split; [destruct f; discriminate|apply fsame_fmt_ty].
  - destruct (is_arith ta && is_arith tb) eqn:C.
    2: { destruct ta as [| | | | | | | | | |ba| | | | |], tb as [| | | | | | | | | |bb| | | | |]; try discriminate GT. injection GT as <-. assert (QA : ntype na = TPtr ba) by (apply (teq_eq _ _ TA); reflexivity). assert (QB : ntype nb = TPtr bb) by (apply (teq_eq _ _ TB); reflexivity). rewrite QA, QB in MK. exists (TPtr ba). split; [apply teq_refl|]. split; [apply MK; discriminate|]. split; [discriminate|reflexivity]. }
    injection GT as <-. split_and. rewrite <- (teq_is_arith _ _ TA) in *. rewrite <- (teq_is_arith _ _ TB) in *. rewrite <- (promote_teq _ _ TA), <- (promote_teq _ _ TB).
    assert (S : scalar (get_common_type (ntype na) (ntype nb)) = true) by (now apply gct_scalar). eexists. split; [now apply gct_arith|]. split; [apply MK; intros Q; rewrite Q in *; discriminate|]. split; [intros Q; rewrite Q in S; discriminate|]. unfold fsame. rewrite (float_fmt _ (scalar_nf _ S)). now apply scalar_self.
Qed.
(** Objects of the two kinds *)
Definition iobj (n : node) : Prop := int_only n = true /\ nbits n = None /\ is_arith (ntype n) = true.
Lemma io_target n j : int_only n = true -> int_only (target n j) = true.
Proof.
  intros I. pose proof (int_only_type _ I) as T. assert (D : forall t, nf t -> int_only (NDeref (NVar (VLocal j) (TPtr t))) = true) by (intros t F; cbn [int_only ntype base_of]; now rewrite F).
  destruct n; try (apply D; exact T). iparts I. destruct I as [I1 I2]. specialize (D _ (int_only_type _ I2)). cbn [target]. remember (NDeref _) as d. cbn [ntype] in I1. cbn [int_only ntype]. now rewrite I1, D.
Qed.
Lemma io_tmp n j : int_only n = true -> int_only (set_tmp n j) = true.
Proof. intros I. assert (B : int_only (base_node n) = true) by (destruct n; try exact I; iparts I; apply I). unfold set_tmp. pose proof (io_addr _ B) as A. remember (NAddr (base_node n)) as x. cbn [int_only ntype is_float]. now rewrite A. Qed.
Lemma obj_facts nl j : fobj nl \/ iobj nl -> well_typed nl = true -> mem_su nl ->
  fwell_typed (target nl j) = true /\ fwell_typed (set_tmp nl j) = true /\ is_bitfield (target nl j) = false /\ is_struct_union (ntype nl) = false /\ fsame (ntype nl) (ntype nl) = true /\
  (forall m, fev E true (target nl j) m = ev E true (target nl j) m) /\ (forall m r, ev E false (set_tmp nl j) m = Some r -> fev E false (set_tmp nl j) m = Some r) /\
  (forall m a v, ev E true (target nl j) m = Some (a, m) -> (forall x, read W (nbits nl) (ntype nl) m a = Some x -> ev E false (target nl j) m = Some (x, m)) -> fload W (ntype nl) m a = Some v -> fev E false (target nl j) m = Some (v, m)) /\
  (forall o r, to_assign (o, nl, r) j = Some (NComma (set_tmp nl j) (NAssign (target nl j) (NCast (ntype nl) (mk_bin o (target nl j) r))))).
Proof.
  intros [O|O] WT MS.
  - pose proof (fobj_target nl j O) as T. split; [apply fobj_wt; [exact T|now apply target_wt]|]. split; [now apply fobj_tmp_wt|]. split; [destruct O as [_ O]; destruct nl; try contradiction; try reflexivity; destruct O as [_ O]; cbn [target is_bitfield]; now rewrite O|].
    destruct O as [[f F] O']. split; [destruct (ntype nl); try discriminate F; reflexivity|]. split; [destruct (ntype nl); try discriminate F; reflexivity|]. split; [intros m; now apply fobj_true|]. split; [intros m r; apply fobj_tmp; split; eauto|]. split; [|intros o r; now apply (to_assign_float o nl r j f)].
    intros m a v TR _ LD. eapply fobj_false; [exact T|exact TR|rewrite target_type; exact LD].
  - destruct O as (I & NB & A). pose proof (io_target nl j I) as T. pose proof (io_tmp nl j I) as T2. pose proof (arith_scalar _ A) as S.
    split; [rewrite fwt_int by exact T; now apply target_wt|]. split.
    { rewrite fwt_int by exact T2. unfold set_tmp. cbn [well_typed ntype]. replace (well_typed (base_node nl)) with true; [reflexivity|]. destruct nl; try (symmetry; exact WT). cbn [base_node well_typed] in *. now apply andb_true_iff in WT as [_ ->]. }
    split; [destruct nl; try reflexivity; cbn [target is_bitfield nbits] in *; now rewrite NB|]. split; [destruct (ntype nl); try discriminate A; reflexivity|]. split; [unfold fsame; rewrite (float_fmt _ (scalar_nf _ S)); now apply scalar_self|].
    split; [intros m; now apply fev_int|]. split; [intros m r H; now rewrite fev_int|]. split; [|intros o r; now apply to_assign_form].
    intros m a v _ RD LD. rewrite fev_int by exact T. apply RD. unfold fload in LD. rewrite (float_fmt _ (scalar_nf _ S)) in LD. rewrite NB. exact LD.
Qed.
Lemma obj_kind l tl k nl k1 : float_obj l || int_obj l = true -> ctype l = Some tl -> elab l k = Some (nl, k1) -> fobj nl \/ iobj nl.
Proof.
  intros O T EL. destruct (float_obj l) eqn:F; [left; exact (float_fobj _ _ _ _ _ F T EL)|right]. cbn [orb] in O. unfold int_obj in O. rewrite (ty_of_some _ _ T) in O. split_and. destruct (lobj l tl k ltac:(rewrite F; unfold int_obj; rewrite (ty_of_some _ _ T); cbn [orb]; repeat (apply andb_true_iff; split); assumption) T) as (nl' & k1' & EL' & _ & TN & _ & _ & NB & _). rewrite EL in EL'. injection EL' as <- <-.
  split; [eapply elab_int; [| |exact T|exact EL]; assumption|]. split; [destruct nl; try reflexivity; cbn [is_bitfield nbits] in *; destruct (m_bf _); [discriminate NB|reflexivity]|now rewrite TN].
Qed.
(** [l op= r] *)
Lemma fmodify o l tl tr u k nl k1 nr k2 Fr : float_obj l || int_obj l = true -> ctype l = Some tl -> elab l k = Some (nl, k1) -> good E V k0 kN no_call l tl k nl k1 ->
  (k1 <= k2)%nat -> fwell_typed nr = true -> teq (ntype nr) tr -> fdyn Fr k1 nr k2 -> compares o = false -> gop_type o tl tr = Some u ->
  exists p n, raw_parts o nl nr = Some p /\ to_assign p k2 = Some n /\ ntype n = tl /\ fwell_typed n = true /\
  ((k0 <= k /\ S k2 <= kN)%nat -> forall m a m1 y m2 x z z' m' mm, C true l m = Some (a, m1) -> Fr m1 = Some (y, m2) -> fload V tl m2 a = Some x -> gop o tl tr x y = Some z -> fcast u tl z = Some z' -> fstore V tl m2 a z' = Some m' -> agr m mm ->
    exists mm', fev E false n mm = Some (z', mm') /\ agr m' mm' /\ fr k (S k2) mm mm').
Proof.
  intros OB CT EL GD K2 WR TR DR CP GT. pose proof (obj_kind _ _ _ _ _ OB CT EL) as OK'. destruct (lobj l tl k OB CT) as (nl' & k1' & EL' & _ & TY & _). rewrite EL in EL'. injection EL' as <- <-.
  destruct GD as (K1 & (WT & _ & _ & _ & MS & _) & DL). destruct (obj_facts nl k2 OK' WT MS) as (WTG & WTM & BF & SU & FSM & FTR & FTM & FVAL & TOA). pose proof (target_type nl k2) as TT. rewrite TY in *.
  assert (SB : exists bo, sbop o = (bo, false)) by (destruct o; try discriminate CP; eexists; reflexivity). destruct SB as [bo SB].
  pose proof (op_node o tl tr u (target nl k2) nr GT ltac:(rewrite TT; apply teq_refl) TR WTG WR) as ON. rewrite SB in ON. destruct ON as (nb & NA & NB & NO & -> & WB & TB & EVB). specialize (NA CP). specialize (NB CP). rewrite TT in NA.
  exists (bo, nl, nr). eexists. split; [destruct o; try discriminate CP; injection SB as <-; unfold raw_parts; rewrite ?TY, ?NA, ?NB; reflexivity|]. split; [apply TOA|].
  split; [cbn [ntype]; now rewrite TT|]. split.
  - apply fwt_and; [exact WTM|]. apply fwt_assign; [exact WTG|exact WB|exact TT|exact FSM].
  - intros K m a m1 y m2 x z z' m' mm HL HR LD GO CZ ST AG.
    destruct (DL ltac:(nlia) true _ _ _ _ HL AG) as (mm1 & E1 & A1 & F1). destruct (target_ev E V k0 kN OK TM nl k2 mm a mm1 ltac:(nlia) WT E1) as (a0 & R0 & ES & TG). rewrite TY in TG.
    pose proof (FTM mm _ ES) as ES'. set (mt := le_store mm1 (taddr k2) 8 a0) in *.
    assert (At : agr m1 mt) by (apply (tmp_agree E V k0 kN TM k2); [nlia|clear; lia|exact A1]).
    destruct (DR ltac:(nlia) _ _ _ _ HR At) as (mm2 & E2 & A2 & F2).
    assert (L0 : le_load mt (taddr k2) 8 = a0). { unfold mt. change 8%nat with (Z.to_nat 8). rewrite le_load_store by (clear; lia). apply Z.mod_small. exact R0. }
    assert (L2 : le_load mm2 (taddr k2) 8 = a0). { rewrite <- L0. exact (tmp_keep E V k0 kN TM k1 k2 k2 mt mm2 8 F2 ltac:(nlia) ltac:(nlia) ltac:(right; nlia) ltac:(clear; lia)). }
    destruct (TG mt L0) as [T1 _]. destruct (TG mm2 L2) as [T2 T2']. rewrite <- (FTR mt) in T1.
    assert (X : fev E false (target nl k2) mm2 = Some (x, mm2)) by (eapply FVAL; [exact T2|exact T2'|exact (fload_mono _ _ _ _ _ A2 LD)]).
    assert (Z1 : fev E false (mk_bin bo (target nl k2) nr) mt = Some (z, mm2)) by (eapply EVB; [split; [exact E2|exact X]|exact GO]).
    assert (Z2 : fev E false (NCast tl (mk_bin bo (target nl k2) nr)) mt = Some (z', mm2)) by (eapply fev_cast; [exact Z1|rewrite (teq_fcast _ _ _ _ TB); exact CZ]).
    destruct (fstore_mono _ _ _ _ _ _ A2 ST) as (mm3 & S3 & A3 & F3).
    exists mm3. split; [eapply fev_comma; [exact ES'|]; eapply fev_assign; [exact BF|rewrite TT; exact SU|exact T1|exact Z2|rewrite TT; exact S3]|].
    split; [exact A3|]. assert (Ft : fr k (S k2) mm1 mt) by (apply frame_tmp; [nlia|clear; lia]). eapply frame_trans; [exact (frame_wide E V _ _ k (S k2) _ _ F1 ltac:(nlia) ltac:(nlia))| |apply le_n|apply le_n|apply le_n|apply le_n].
    eapply frame_trans; [exact Ft| |apply le_n|apply le_n|apply le_n|apply le_n]. eapply frame_trans; [exact (frame_wide E V _ _ k (S k2) _ _ F2 ltac:(nlia) ltac:(nlia))|exact (frame_out E V k (S k2) _ _ F3)|apply le_n|apply le_n|apply le_n|apply le_n].
Qed.

Lemma fgood_int e t k : int_src e = true -> plain e = true -> ctype e = Some t -> exists n k', elab e k = Some (n, k') /\ fgood e t k n k'.
Proof.
  intros I P T. destruct (sim e t P T k) as (n & k' & EL & K & (WT & TQ & _) & D). exists n, k'. split; [exact EL|]. pose proof (elab_int e I t P T k n k' EL) as IO.
  split; [exact K|]. split; [now rewrite fwt_int|]. split; [exact TQ|]. intros K0 m v m' m2 H AG.
  assert (H' : C false e m = Some (v, m')) by (destruct e; cbn [gev] in H; rewrite I in H; exact H). destruct (D K0 false _ _ _ _ H' AG) as (m2' & EV & R). exists m2'. split; [now rewrite fev_int|exact R].
Qed.
Lemma fgood_obj e t k : float_obj e = true -> int_src e = false -> ctype e = Some t -> exists n k', elab e k = Some (n, k') /\ fgood e t k n k'.
Proof.
  intros O I T. destruct (float_lval _ _ O T) as (P & LV & B & f & F). destruct (sim e t P T k) as (n & k' & EL & K & (WT & TQ & TL & _) & D). specialize (TL LV). exists n, k'. split; [exact EL|]. pose proof (float_fobj _ _ _ _ _ O T EL) as FO.
  split; [exact K|]. split; [now apply fobj_wt|]. split; [exact TQ|]. intros K0 m v m' m2 H AG.
  assert (H' : (let* (a, m) := C true e m in let* v := fload V (ty_of e) m a in Some (v, m)) = Some (v, m')) by (destruct e; try discriminate LV; cbn [gev] in H; rewrite I in H; exact H).
  rewrite (ty_of_some _ _ T) in H'. destruct (C true e m) as [[a m1]|] eqn:HA; [|discriminate]. destruct (fload V t m1 a) as [v1|] eqn:L; [|discriminate]. injection H' as <- <-.
  destruct (D K0 true _ _ _ _ HA AG) as (m2' & EV & A2 & R). exists m2'. split; [|auto]. eapply fobj_false; [exact FO|exact EV|rewrite TL; exact (fload_mono _ _ _ _ _ A2 L)].
Qed.
Ltac opts H := repeat match type of H with
  | match ?x with Some _ => _ | None => None end = Some _ => let Q := fresh "Q" in destruct x as [[? ?]|] eqn:Q; [|discriminate H]
  | match ?x with Some _ => _ | None => None end = Some _ => let Q := fresh "Q" in destruct x eqn:Q; [|discriminate H]
  end.
Theorem fsrc_sim e : forall t, gtype e = Some t -> forall k, exists n k', elab e k = Some (n, k') /\ fgood e t k n k'.
Proof.
  induction e as [ct v|x vt|a IHa|a IHa|a IHa|a IHa|o a IHa b IHb|a IHa b IHb|a IHa b IHb|c IHc a IHa b IHb|a IHa b IHb|a IHa b IHb|ct a IHa|l IHl r IHr|o l IHl r IHr|l IHl|l IHl|l IHl|l IHl|a IHa|l IHl|a IHa b IHb|l IHl mi|a IHa mi|f IHf ps va args]; intros t GT k;
    match type of GT with gtype ?e = _ => destruct (int_src e) eqn:IS; [cbn [gtype] in GT; rewrite IS in GT; match type of GT with (if ?p then _ else _) = _ => destruct p eqn:P; [|discriminate GT] end; now apply fgood_int|]; cbn [gtype] in GT; rewrite IS in GT end;
    try discriminate GT; try (match type of GT with (if float_obj ?e then ctype ?e else None) = _ => destruct (float_obj e) eqn:O; [|discriminate GT]; now apply fgood_obj end).
  - (* number *) destruct (fmt_of ct) as [f|] eqn:F; [|discriminate]. injection GT as <-. exists (NNum ct v), k. split; [reflexivity|]. assert (I : int_only (NNum ct v) = false) by (cbn [int_only ntype]; rewrite (fmt_float _ _ F); reflexivity).
    split; [lia|]. split; [cbn [fwell_typed]; now rewrite I|]. split; [apply teq_refl|]. intros K0 m w m' m2 H AG. cbn [gev] in H. rewrite IS, F in H. exists m2. cbn [fev]. rewrite I, F. destruct (fval f v); [|discriminate]. injection H as <- <-. split; [reflexivity|]. split; [exact AG|apply frame_refl].
  - (* + *) destruct (gtype a) as [ta|] eqn:TA; [|discriminate]. destruct (operand a ta); [|discriminate]. destruct (IHa ta eq_refl k) as (n & k' & EL & K & WT & TQ & D). exists n, k'. split; [exact EL|]. split; [exact K|]. split; [exact WT|]. split; [exact (un_type _ _ _ _ TQ GT eq_refl)|].
    intros K0 m w m' m2 H AG. cbn [gev] in H. rewrite IS in H. exact (D K0 _ _ _ _ H AG).
  - (* - *) destruct (gtype a) as [ta|] eqn:TA; [|discriminate]. destruct (operand a ta) eqn:OP; [|discriminate]. destruct (IHa ta eq_refl k) as (n & k' & EL & K & WT & TQ & D). pose proof GT as GT'. unfold gun_type in GT. destruct (fmt_of ta) as [f|] eqn:F.
    2: { cbn [orb] in GT. rewrite andb_true_r in GT. destruct (is_arith ta) eqn:AR; [|discriminate]. injection GT as <-. rewrite <- (teq_is_arith _ _ TQ) in AR. destruct (int_neg E n (promote ta) AR WT ltac:(rewrite (promote_teq _ _ TQ); apply teq_refl)) as (WN & TN & EV). exists (mk_neg n), k'. cbn [elab]. rewrite EL. split; [reflexivity|]. split; [exact K|]. split; [exact WN|]. split; [exact TN|].
      assert (TE : gty (CNeg a) = promote ta) by (unfold gty; cbn [gtype]; rewrite IS, TA, OP, GT'; reflexivity). intros K0 m w m' m2 H AG. cbn [gev] in H. rewrite IS, (gty_some _ _ TA), F, TE in H. destruct (G a m) as [[x m1]|] eqn:HA; [|discriminate]. destruct (conv (promote ta) x) as [x'|] eqn:CX; [|discriminate]. destruct (neg_val (promote ta) x') as [v|] eqn:NV; [|discriminate]. injection H as <- <-. destruct (D K0 _ _ _ _ HA AG) as (m2' & E1 & A2 & FR). exists m2'. split; [|auto]. eapply EV; eauto. }
    injection GT as <-. pose proof (teq_float _ _ _ TQ F) as TN. exists (mk_neg n), k'. cbn [elab]. rewrite EL. split; [reflexivity|].
    assert (MN : mk_neg n = NNeg ta (NCast ta n)) by (unfold mk_neg; rewrite TN; destruct ta; try discriminate F; reflexivity). rewrite MN. pose proof (fwt_cast ta n WT) as WC. assert (NT : ntype (NCast ta n) = ta) by reflexivity. remember (NCast ta n) as n' eqn:NE.
    assert (I : int_only (NNeg ta n') = false) by (cbn [int_only ntype]; rewrite (fmt_float _ _ F); reflexivity).
    split; [exact K|]. split; [cbn [fwell_typed]; rewrite I, NT, WC; destruct ta; try discriminate F; reflexivity|]. split; [apply teq_refl|].
    intros K0 m w m' m2 H AG. cbn [gev] in H. rewrite IS, (gty_some _ _ TA), F in H. destruct (G a m) as [[x m1]|] eqn:HA; [|discriminate]. injection H as <- <-. destruct (D K0 _ _ _ _ HA AG) as (m2' & EV & A2 & FR). exists m2'. split; [|auto].
    assert (EC : fev E false n' m2 = Some (x, m2')) by (subst n'; eapply fev_cast; [exact EV|rewrite TN; unfold fcast; rewrite F; destruct f; reflexivity]). cbn [fev]. rewrite I, EC, F. reflexivity.
  - (* ! *) destruct (gtype a) as [ta|] eqn:TA; [|discriminate]. destruct (scalar_ty ta) eqn:S; [|discriminate]. injection GT as <-. destruct (IHa ta eq_refl k) as (n & k' & EL & K & WT & TQ & D). exists (NNot n), k'. cbn [elab]. rewrite EL. split; [reflexivity|]. split; [exact K|]. split; [now apply fwt_not|]. split; [apply teq_refl|].
    intros K0 m w m' m2 H AG. cbn [gev] in H. rewrite IS, (gty_some _ _ TA) in H. destruct (G a m) as [[x m1]|] eqn:HA; [|discriminate]. destruct (ftruth ta x) as [b|] eqn:FT; [|discriminate]. injection H as <- <-. destruct (D K0 _ _ _ _ HA AG) as (m2' & EV & A2 & FR). exists m2'. split; [|auto].
    eapply fev_not; [exact EV|now rewrite (teq_ftruth _ _ _ TQ)].
  - (* ~ *) destruct (gtype a) as [ta|] eqn:TA; [|discriminate]. destruct (is_arith ta && operand a ta) eqn:OP; [|discriminate]. destruct (IHa ta eq_refl k) as (n & k' & EL & K & WT & TQ & D). pose proof (un_type _ _ _ _ TQ GT eq_refl) as TN. destruct (int_bitnot E n t TN WT) as [WN EV]. exists (NBitNot n), k'. cbn [elab]. rewrite EL. split; [reflexivity|]. split; [exact K|]. split; [exact WN|]. split; [exact TN|].
    assert (TE : gty (CBitNot a) = t) by (unfold gty; cbn [gtype]; rewrite IS, TA, OP, GT; reflexivity). intros K0 m w m' m2 H AG. cbn [gev] in H. rewrite IS, TE in H. destruct (G a m) as [[x m1]|] eqn:HA; [|discriminate]. destruct (bitnot_val t x) as [v|] eqn:NV; [|discriminate]. injection H as <- <-. destruct (D K0 _ _ _ _ HA AG) as (m2' & E1 & A2 & FR). exists m2'. split; [|auto]. eapply EV; eauto.
  - (* a op b *) destruct (gtype a) as [ta|] eqn:TA; [|discriminate]. destruct (gtype b) as [tb|] eqn:TB; [|discriminate]. destruct (operands a b ta tb); [|discriminate].
    destruct (IHa ta eq_refl k) as (na & k1 & EA & K1 & WA & QA & DA). destruct (IHb tb eq_refl k1) as (nb & k2 & EB & K2 & WB & QB & DB). pose proof (op_node o ta tb t na nb GT QA QB WA WB) as ON. destruct (sbop o) as [bo sw] eqn:SB. destruct ON as (n & _ & _ & NO & _ & WN & TN & EV). exists n, k2. cbn [elab]. rewrite EA, EB, NO. split; [reflexivity|].
    split; [lia|]. split; [exact WN|]. split; [exact TN|]. intros K0 m w m' m2 H AG. cbn [gev] in H. rewrite IS, (gty_some _ _ TA), (gty_some _ _ TB) in H. replace (match fsop o with Some (_, true) => false | _ => true end) with (negb sw) in H by (destruct o; injection SB as _ <-; reflexivity). unfold bin_order in H. destruct sw; cbn [negb] in H.
    + destruct (G a m) as [[x m1]|] eqn:HA; [|discriminate]. destruct (G b m1) as [[y m3]|] eqn:HB; [|discriminate]. destruct (gop o ta tb x y) as [z|] eqn:GO; [|discriminate]. injection H as <- <-. destruct (fseq _ _ k na k1 nb k2 _ _ _ _ _ _ DA DB K0 ltac:(lia) HA HB AG) as (m21 & m22 & E1 & E2 & A2 & FR). exists m22. split; [|auto]. exact (EV _ _ _ _ _ _ (conj E1 E2) GO).
    + destruct (G b m) as [[y m1]|] eqn:HB; [|discriminate]. destruct (G a m1) as [[x m3]|] eqn:HA; [|discriminate]. destruct (gop o ta tb x y) as [z|] eqn:GO; [|discriminate]. injection H as <- <-. destruct (fseq_r _ _ k na k1 nb k2 _ _ _ _ _ _ DA DB K0 ltac:(lia) HB HA AG) as (m21 & m22 & E1 & E2 & A2 & FR). exists m22. split; [|auto]. exact (EV _ _ _ _ _ _ (conj E1 E2) GO).
  - (* && *) destruct (gtype a) as [ta|] eqn:TA; [|discriminate]. destruct (gtype b) as [tb|] eqn:TB; [|discriminate]. destruct (scalar_ty ta && scalar_ty tb) eqn:S; [|discriminate]. injection GT as <-. apply andb_true_iff in S as [SA SB].
    destruct (IHa ta eq_refl k) as (na & k1 & EA & K1 & WA & QA & DA). destruct (IHb tb eq_refl k1) as (nb & k2 & EB & K2 & WB & QB & DB). exists (NLogAnd na nb), k2. cbn [elab]. rewrite EA, EB. split; [reflexivity|]. split; [lia|]. split; [now apply fwt_and|]. split; [apply teq_refl|].
    rewrite <- (teq_scalar _ _ QB) in SB. apply scalar_ty_or in SB. intros K0 m w m' m2 H AG. cbn [gev] in H. rewrite IS, (gty_some _ _ TA), (gty_some _ _ TB) in H. destruct (G a m) as [[x m1]|] eqn:HA; [|discriminate]. destruct (ftruth ta x) as [[|]|] eqn:FT; [| |discriminate]; rewrite <- (teq_ftruth _ _ _ QA) in FT.
    + destruct (G b m1) as [[y m3]|] eqn:HB; [|discriminate]. destruct (ftruth tb y) as [c|] eqn:FB; [|discriminate]. rewrite <- (teq_ftruth _ _ _ QB) in FB. injection H as <- <-. destruct (fseq _ _ k na k1 nb k2 _ _ _ _ _ _ DA DB K0 ltac:(lia) HA HB AG) as (m21 & m22 & E1 & E2 & A2 & FR). exists m22. split; [|auto]. eapply (fev_and E na nb m2 x m21 true); eauto.
    + injection H as <- <-. destruct (DA ltac:(lia) _ _ _ _ HA AG) as (m21 & E1 & A1 & F1). exists m21. split; [eapply (fev_and E na nb m2 x m21 false); eauto|]. split; [exact A1|]. eapply frame_wide; [exact F1| |]; lia.
  - (* || *) destruct (gtype a) as [ta|] eqn:TA; [|discriminate]. destruct (gtype b) as [tb|] eqn:TB; [|discriminate]. destruct (scalar_ty ta && scalar_ty tb) eqn:S; [|discriminate]. injection GT as <-. apply andb_true_iff in S as [SA SB].
    destruct (IHa ta eq_refl k) as (na & k1 & EA & K1 & WA & QA & DA). destruct (IHb tb eq_refl k1) as (nb & k2 & EB & K2 & WB & QB & DB). exists (NLogOr na nb), k2. cbn [elab]. rewrite EA, EB. split; [reflexivity|]. split; [lia|]. split; [now apply fwt_and|]. split; [apply teq_refl|].
    rewrite <- (teq_scalar _ _ QB) in SB. apply scalar_ty_or in SB. intros K0 m w m' m2 H AG. cbn [gev] in H. rewrite IS, (gty_some _ _ TA), (gty_some _ _ TB) in H. destruct (G a m) as [[x m1]|] eqn:HA; [|discriminate]. destruct (ftruth ta x) as [[|]|] eqn:FT; [| |discriminate]; rewrite <- (teq_ftruth _ _ _ QA) in FT.
    + injection H as <- <-. destruct (DA ltac:(lia) _ _ _ _ HA AG) as (m21 & E1 & A1 & F1). exists m21. split; [eapply (fev_or E na nb m2 x m21 true); eauto|]. split; [exact A1|]. eapply frame_wide; [exact F1| |]; lia.
    + destruct (G b m1) as [[y m3]|] eqn:HB; [|discriminate]. destruct (ftruth tb y) as [c|] eqn:FB; [|discriminate]. rewrite <- (teq_ftruth _ _ _ QB) in FB. injection H as <- <-. destruct (fseq _ _ k na k1 nb k2 _ _ _ _ _ _ DA DB K0 ltac:(lia) HA HB AG) as (m21 & m22 & E1 & E2 & A2 & FR). exists m22. split; [|auto]. eapply (fev_or E na nb m2 x m21 false); eauto.
  - (* ?: *) destruct (gtype c) as [tc|] eqn:TC; [|discriminate]. destruct (gtype a) as [ta|] eqn:TA; [|discriminate]. destruct (gtype b) as [tb|] eqn:TB; [|discriminate]. destruct (scalar_ty tc && operands a b ta tb) eqn:S; [|discriminate].
    destruct (IHc tc eq_refl k) as (nc & k1 & EC & K1 & WC & QC & DC). destruct (IHa ta eq_refl k1) as (na & k2 & EA & K2 & WA & QA & DA). destruct (IHb tb eq_refl k2) as (nb & k3 & EB & K3 & WB & QB & DB).
    exists (mk_cond nc na nb), k3. cbn [elab]. rewrite EC, EA, EB. split; [reflexivity|]. destruct (cond_node nc na nb ta tb t GT QA QB) as (g & GC & MC & NV & FSM). rewrite MC. destruct (fwt_cond nc na nb g FSM NV WC WA WB) as [WN TN].
    split; [lia|]. split; [exact WN|]. split; [rewrite TN; exact GC|].
    intros K0 m w m' m2 H AG. cbn [gev] in H. rewrite IS, (gty_some _ _ TA), (gty_some _ _ TB), (gty_some _ _ TC) in H.
    assert (TE : gty (CCond c a b) = t) by (unfold gty; cbn [gtype]; rewrite IS, TA, TB, TC, S, GT; reflexivity). rewrite TE in H.
    destruct (G c m) as [[x m1]|] eqn:HC; [|discriminate]. destruct (DC ltac:(lia) _ _ _ _ HC AG) as (m21 & E1 & A1 & F1). destruct (ftruth tc x) as [[|]|] eqn:FT; [| |discriminate]; rewrite <- (teq_ftruth _ _ _ QC) in FT.
    + destruct (G a m1) as [[y m3]|] eqn:HA; [|discriminate]. destruct (fcast ta t y) as [z|] eqn:FC; [|discriminate]. injection H as <- <-. rewrite <- (teq_fcast _ _ _ _ QA), <- (teq_fcast2 _ _ _ _ GC) in FC. destruct (DA ltac:(lia) _ _ _ _ HA A1) as (m22 & E2 & A2 & F2). exists m22. split; [eapply (fev_cond E nc na nb g m2 x m21 true); eauto|]. split; [exact A2|]. eapply frame_trans; [exact F1|exact F2| | | |]; lia.
    + destruct (G b m1) as [[y m3]|] eqn:HA; [|discriminate]. destruct (fcast tb t y) as [z|] eqn:FC; [|discriminate]. injection H as <- <-. rewrite <- (teq_fcast _ _ _ _ QB), <- (teq_fcast2 _ _ _ _ GC) in FC. destruct (DB ltac:(lia) _ _ _ _ HA A1) as (m22 & E2 & A2 & F2). exists m22. split; [eapply (fev_cond E nc na nb g m2 x m21 false); eauto|]. split; [exact A2|]. eapply frame_trans; [exact F1|exact F2| | | |]; lia.
  - (* , *) destruct (gtype a) as [ta|] eqn:TA; [|discriminate]. destruct (IHa ta eq_refl k) as (na & k1 & EA & K1 & WA & QA & DA). destruct (IHb t GT k1) as (nb & k2 & EB & K2 & WB & QB & DB). exists (NComma na nb), k2. cbn [elab]. rewrite EA, EB. split; [reflexivity|]. split; [lia|]. split; [now apply fwt_and|]. split; [exact QB|].
    intros K0 m w m' m2 H AG. cbn [gev] in H. rewrite IS in H. destruct (G a m) as [[x m1]|] eqn:HA; [|discriminate]. destruct (fseq _ _ k na k1 nb k2 _ _ _ _ _ _ DA DB K0 ltac:(lia) HA H AG) as (m21 & m22 & E1 & E2 & A2 & FR). exists m22. split; [|auto]. eapply fev_comma; eauto.
  - (* cast *) destruct (gtype a) as [ta|] eqn:TA; [|discriminate]. destruct (gcast_ok ct ta) eqn:S; [|discriminate]. injection GT as <-. destruct (IHa ta eq_refl k) as (n & k' & EL & K & WT & TQ & D). exists (NCast ct n), k'. cbn [elab]. rewrite EL. split; [reflexivity|]. split; [exact K|]. split; [now apply fwt_cast|]. split; [apply teq_refl|].
    intros K0 m w m' m2 H AG. cbn [gev] in H. rewrite IS, (gty_some _ _ TA) in H. destruct (G a m) as [[x m1]|] eqn:HA; [|discriminate]. destruct (fcast ta ct x) as [z|] eqn:FC; [|discriminate]. injection H as <- <-. destruct (D K0 _ _ _ _ HA AG) as (m2' & EV & A2 & FR). exists m2'. split; [|auto]. eapply fev_cast; [exact EV|now rewrite (teq_fcast _ _ _ _ TQ)].
  - (* = *) destruct (gtype r) as [tr|] eqn:TR; [|discriminate]. destruct ((float_obj l || int_obj l) && arith_ty tr || ptr_obj l && is_pointer tr) eqn:S; [|discriminate].
    assert (LO : exists nl k1, elab l k = Some (nl, k1) /\ good E V k0 kN no_call l t k nl k1 /\ ntype nl = t /\ fwell_typed nl = true /\ (forall m, fev E true nl m = ev E true nl m) /\ is_bitfield nl = false /\ is_struct_union t = false /\ fsame t t = true /\ (forall r, mk_assign nl r = Some (NAssign nl (NCast t r)))) by (apply orb_true_iff in S as [S|S]; apply andb_true_iff in S as [SL SR]; [now apply lobj|now apply lobj_ptr]).
    destruct LO as (nl & k1 & EL & (K1 & _ & DL) & TL & WL & FL & NB & NS & FSM & MA). destruct (IHr tr eq_refl k1) as (nr & k2 & ER & K2 & WR & QR & DR).
    exists (NAssign nl (NCast t nr)), k2. cbn [elab]. rewrite EL, ER, MA. split; [reflexivity|]. split; [lia|]. split; [now apply fwt_assign|]. split; [cbn [ntype]; rewrite TL; apply teq_refl|].
    intros K0 m w m' m2 H AG. cbn [gev] in H. rewrite IS, (gty_some _ _ TR), (ty_of_some _ _ GT) in H. destruct (C true l m) as [[a m1]|] eqn:HL; [|discriminate]. destruct (G r m1) as [[v m3]|] eqn:HR; [|discriminate]. destruct (fcast tr t v) as [z|] eqn:FC; [|discriminate]. destruct (fstore V t m3 a z) as [m4|] eqn:ST; [|discriminate]. injection H as <- <-.
    destruct (DL ltac:(lia) true _ _ _ _ HL AG) as (m21 & E1 & A1 & F1). destruct (DR ltac:(lia) _ _ _ _ HR A1) as (m22 & E2 & A2 & F2). destruct (fstore_mono _ _ _ _ _ _ A2 ST) as (m23 & S3 & A3 & F3). exists m23. split.
    + eapply fev_assign; [exact NB|now rewrite TL|rewrite FL; exact E1|eapply fev_cast; [exact E2|rewrite (teq_fcast _ _ _ _ QR); exact FC]|rewrite TL; exact S3].
    + split; [exact A3|]. eapply frame_trans; [|exact (frame_out E V k k2 _ _ F3)|apply le_n|apply le_n|apply le_n|apply le_n]. eapply frame_trans; [exact F1|exact F2| | | |]; lia.
  - (* op= *) destruct (gtype r) as [tr|] eqn:TR; [|discriminate]. destruct (float_obj l || int_obj l) eqn:O; [|discriminate]. destruct (ctype l) as [tl|] eqn:TL; [|discriminate]. destruct (compares o) eqn:CP; [discriminate|]. cbn [orb] in GT. destruct (negb (operands l r tl tr)); [discriminate|]. destruct (gop_type o tl tr) as [u|] eqn:GU; [|discriminate]. injection GT as <-.
    destruct (lobj l tl k O TL) as (nl & k1 & EL & GD & _). destruct (IHr tr eq_refl k1) as (nr & k2 & ER & K2 & WR & QR & DR).
    destruct (fmodify o l tl tr u k nl k1 nr k2 _ O TL EL GD K2 WR QR DR CP GU) as (p & n & RP & TA & TN & WN & D). exists n, (S k2). cbn [elab]. rewrite EL, ER, RP, TA. split; [reflexivity|]. destruct GD as (K1 & _). split; [lia|]. split; [exact WN|]. split; [rewrite TN; apply teq_refl|].
    intros K0 m w m' m2 H AG. cbn [gev] in H. rewrite IS, (gty_some _ _ TR), (ty_of_some _ _ TL), GU in H. destruct (C true l m) as [[a m1]|] eqn:HL; [|discriminate]. destruct (G r m1) as [[y m3]|] eqn:HR; [|discriminate]. destruct (fload V tl m3 a) as [x|] eqn:LD; [|discriminate]. destruct (gop o tl tr x y) as [z|] eqn:GO; [|discriminate]. destruct (fcast u tl z) as [z'|] eqn:FC; [|discriminate]. destruct (fstore V tl m3 a z') as [m4|] eqn:ST; [|discriminate]. injection H as <- <-.
    exact (D K0 _ _ _ _ _ _ _ _ _ _ HL HR LD GO FC ST AG).
  - (* ++ *) destruct (float_obj l) eqn:O; [|discriminate]. destruct (lobj l t k ltac:(now rewrite O) GT) as (nl & k1 & EL & GD & _). pose proof (float_fobj _ _ _ _ _ O GT EL) as FO. destruct (float_lval _ _ O GT) as (_ & _ & _ & f & F).
    assert (CF : common_fmt t int_t = Some f) by (destruct t; try discriminate F; injection F as <-; reflexivity). assert (GU : gop_type SAdd t int_t = Some (fmt_ty f) /\ gop_type SSub t int_t = Some (fmt_ty f)) by (unfold gop_type; rewrite CF; auto). destruct GU as [GU GU2].
    assert (DR : fdyn (fun m => Some (1, m)) k1 (NNum (TInt false) 1) k1) by (intros _ m v m' m2 H AG; injection H as <- <-; exists m2; split; [reflexivity|]; split; [exact AG|apply frame_refl]).
    destruct (fmodify SAdd l t int_t (fmt_ty f) k nl k1 (NNum (TInt false) 1) k1 _ ltac:(now rewrite O) GT EL GD ltac:(lia) eq_refl (teq_refl _) DR eq_refl GU) as (p & n & RP & TA & TN & WN & D). exists n, (S k1). cbn [elab]. rewrite EL, RP, TA. split; [reflexivity|]. destruct GD as (K1 & _). split; [lia|]. split; [exact WN|]. split; [rewrite TN; apply teq_refl|].
    intros K0 m w m' m2 H AG. cbn [gev] in H. rewrite IS, (ty_of_some _ _ GT), GU in H. destruct (C true l m) as [[a m1]|] eqn:HL; [|discriminate]. destruct (fload V t m1 a) as [x|] eqn:LD; [|discriminate]. destruct (gop SAdd t int_t x 1) as [z|] eqn:GO; [|discriminate]. destruct (fcast (fmt_ty f) t z) as [z'|] eqn:FC; [|discriminate]. destruct (fstore V t m1 a z') as [m4|] eqn:ST; [|discriminate]. injection H as <- <-.
    exact (D K0 _ _ _ _ _ _ _ _ _ _ HL eq_refl LD GO FC ST AG).
  - (* -- *) destruct (float_obj l) eqn:O; [|discriminate]. destruct (lobj l t k ltac:(now rewrite O) GT) as (nl & k1 & EL & GD & _). pose proof (float_fobj _ _ _ _ _ O GT EL) as FO. destruct (float_lval _ _ O GT) as (_ & _ & _ & f & F).
    assert (CF : common_fmt t int_t = Some f) by (destruct t; try discriminate F; injection F as <-; reflexivity). assert (GU : gop_type SAdd t int_t = Some (fmt_ty f) /\ gop_type SSub t int_t = Some (fmt_ty f)) by (unfold gop_type; rewrite CF; auto). destruct GU as [GU GU2].
    assert (DR : fdyn (fun m => Some (1, m)) k1 (NNum (TInt false) 1) k1) by (intros _ m v m' m2 H AG; injection H as <- <-; exists m2; split; [reflexivity|]; split; [exact AG|apply frame_refl]).
    destruct (fmodify SSub l t int_t (fmt_ty f) k nl k1 (NNum (TInt false) 1) k1 _ ltac:(now rewrite O) GT EL GD ltac:(lia) eq_refl (teq_refl _) DR eq_refl GU2) as (p & n & RP & TA & TN & WN & D). exists n, (S k1). cbn [elab]. rewrite EL, RP, TA. split; [reflexivity|]. destruct GD as (K1 & _). split; [lia|]. split; [exact WN|]. split; [rewrite TN; apply teq_refl|].
    intros K0 m w m' m2 H AG. cbn [gev] in H. rewrite IS, (ty_of_some _ _ GT), GU2 in H. destruct (C true l m) as [[a m1]|] eqn:HL; [|discriminate]. destruct (fload V t m1 a) as [x|] eqn:LD; [|discriminate]. destruct (gop SSub t int_t x 1) as [z|] eqn:GO; [|discriminate]. destruct (fcast (fmt_ty f) t z) as [z'|] eqn:FC; [|discriminate]. destruct (fstore V t m1 a z') as [m4|] eqn:ST; [|discriminate]. injection H as <- <-.
    exact (D K0 _ _ _ _ _ _ _ _ _ _ HL eq_refl LD GO FC ST AG).
  - (* & *) destruct (float_obj l) eqn:O; [|discriminate]. destruct (ctype l) as [tl|] eqn:TL; [|discriminate]. injection GT as <-. destruct (lobj l tl k ltac:(now rewrite O) TL) as (nl & k1 & EL & (K1 & _ & DL) & TN & WN & FL & NB & _). pose proof (float_fobj _ _ _ _ _ O TL EL) as FO. destruct (float_lval _ _ O TL) as (_ & _ & _ & f & F).
    pose proof (fobj_int nl FO) as NI. assert (NI2 : int_only (NAddr nl) = false) by (cbn [int_only]; rewrite NI; apply andb_false_r). assert (TA : ntype (NAddr nl) = TPtr tl) by (cbn [ntype]; rewrite TN; destruct tl; discriminate F || reflexivity).
    exists (NAddr nl), k1. split; [cbn [elab]; rewrite EL; destruct nl as [| | |nm [mt mo [bf|]]| | | | | | | | | | | | | |]; try reflexivity; discriminate NB|]. split; [exact K1|]. split; [cbn [fwell_typed]; now rewrite NI2|]. split; [rewrite TA; apply teq_refl|].
    intros K0 m w m' m2 H AG. cbn [gev] in H. rewrite IS in H. destruct (DL K0 true _ _ _ _ H AG) as (m2' & EV & R). exists m2'. split; [|exact R]. cbn [fev]. now rewrite NI2, FL.
Qed.

(** l++ and l--: the object is changed as it should; the value is computed back from the new one *)
Lemma fpost (up : bool) l tl f k : float_obj l = true -> ctype l = Some tl -> fmt_of tl = Some f -> exists n k', elab (if up then CPostInc l else CPostDec l) k = Some (n, k') /\ ntype n = tl /\ fwell_typed n = true /\
  ((k0 <= k /\ k' <= kN)%nat -> forall m a m1 x z w m3, C true l m = Some (a, m1) -> fload V tl m1 a = Some x -> gop (if up then SAdd else SSub) tl int_t x 1 = Some z -> fstore V tl m1 a z = Some m3 -> gop (if up then SSub else SAdd) tl int_t z 1 = Some w ->
    exists m4, fev E false n m = Some (w, m4) /\ agr m3 m4 /\ fr k k' m m4).
Proof.
  intros O GT F. destruct (lobj l tl k ltac:(now rewrite O) GT) as (nl & k1 & EL & GD & _). pose proof (float_fobj _ _ _ _ _ O GT EL) as FO.
  assert (CF : common_fmt tl int_t = Some f) by (destruct tl; try discriminate F; injection F as <-; reflexivity). assert (FTY : fmt_ty f = tl) by (destruct tl; try discriminate F; injection F as <-; reflexivity).
  set (c := if up then 1 else -1).
  assert (DR : fdyn (fun m => Some (c, m)) k1 (NNum (TInt false) c) k1) by (intros _ m v m' m2 H AG; injection H as <- <-; exists m2; split; [unfold c; destruct up; reflexivity|]; split; [exact AG|apply frame_refl]).
  assert (GU : gop_type SAdd tl int_t = Some (fmt_ty f)) by (unfold gop_type; now rewrite CF). destruct (fmodify SAdd l tl int_t (fmt_ty f) k nl k1 (NNum (TInt false) c) k1 _ ltac:(now rewrite O) GT EL GD ltac:(lia) eq_refl (teq_refl _) DR eq_refl GU) as (p & n & RP & TA & TN & WN & D).
  destruct (fop_node SAdd Add false tl int_t f n (NNum (TInt false) (- c)) eq_refl CF ltac:(rewrite TN; apply teq_refl) (teq_refl _) WN eq_refl) as (n2 & NO & _ & W2 & T2 & EV). cbn [compares] in T2.
  exists (NCast tl n2), (S k1). split; [|split; [reflexivity|split; [now apply fwt_cast|]]].
  - assert (TL : ntype nl = tl) by (eapply lval_type; [| | |exact EL]; [apply (float_lval _ _ O GT)|exact GT|apply (float_lval _ _ O GT)]).
    assert (ID : new_inc_dec nl c k1 = Some (NCast tl n2)) by (unfold new_inc_dec; cbn [new_op] in NO; rewrite RP, TA, NO, TL; reflexivity). unfold c in ID. destruct up; cbn [elab]; rewrite EL, ID; reflexivity.
  - intros K m a m1 x z w m3 HL LD GO ST BK.
    assert (G1 : gop SAdd tl int_t x c = Some z) by (unfold c; destruct up; [exact GO|rewrite (gop_one _ _ _ F); exact GO]). assert (G2 : gop SAdd tl int_t z (- c) = Some w) by (unfold c; destruct up; [change (- (1)) with (-1); rewrite (gop_one _ _ _ F); exact BK|exact BK]).
    assert (ID : forall v, fcast (fmt_ty f) tl v = Some v) by (intros v; rewrite FTY; unfold fcast; rewrite F; destruct f; reflexivity).
    destruct (D K _ _ _ _ _ _ _ _ _ m HL eq_refl LD G1 (ID z) ST ltac:(intros b _; reflexivity)) as (m4 & EN & AG & FR). exists m4. split; [|auto].
    eapply fev_cast; [eapply EV; [split; [|exact EN]|exact G2]; cbn [fev int_only ntype is_float negb andb ev]; unfold c; destruct up; reflexivity|rewrite T2; apply ID].
Qed.
End Sim.
