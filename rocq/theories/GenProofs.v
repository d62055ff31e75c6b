(** The code of an expression computes its value. *)
From Verif Require Import Base TypeModel IntArith NodeModel NodeProofs ValSpec NodeSpec RvSpec GenModel GenSpec RvProofs GenArith GenBits GenRun GenBytes.
From Coq Require Import ZifyBool ZifyNat.
Local Notation length := List.length.

Lemma ret_range t : 0 <= call_qual t <= 64. Proof. destruct t as [| | | |[]| | | | | | | | | | |]; cbn; lia. Qed.
Lemma cast_qual_range f t w : 0 <= w <= 64 -> 0 <= cast_qual f t w <= 64.
Proof.
  intros H. unfold cast_qual.
  assert (X : 0 <= match int_repr t with
           | Some (s', n') => if truncates f t then if n' <=? w then 64 else w else if range_sub (repr_or_addr f) (s', n') then w else Z.min w n'
           | None => w end <= 64).
  { destruct (int_repr t) as [(s, n)|] eqn:R; [|lia]. pose proof (int_repr_width _ _ _ R).
    destruct (truncates f t), (n <=? w), (range_sub (repr_or_addr f) (s, n)); lia. }
  destruct t; try exact X; [lia|destruct (w =? 64); lia].
Qed.
Lemma assign_view l : (exists l0 t off o w, l = NMember l0 (MInfo t off (Some (o, w)))) \/
  (forall (X : Type) (f : ty -> Z -> Z -> X) (d : X), match l with NMember _ (MInfo t _ (Some (o, w))) => f t o w | _ => d end = d).
Proof. destruct l as [| | |? [? ? [[]|]]| | | | | | | | | | | | | |]; try (right; reflexivity). left. do 5 eexists. reflexivity. Qed.
Lemma qual_range n : forall lv q, qual lv n = Some q -> 0 <= q <= 64.
Proof.
  induction n using node_induct; intros lv q Q; cbn [qual] in Q.
  - destruct lv; inversion Q; lia.
  - destruct lv; [discriminate|]. destruct (is_float t); inversion Q; lia.
  - destruct (lv || loadable t); inversion Q; lia.
  - repeat opt Q. destruct (negb (z =? 64)); [discriminate|]. destruct lv; [inversion Q; lia|].
    destruct (m_bf i); [destruct bool_field|destruct loadable]; inversion Q; lia.
  - repeat opt Q. lia.
  - destruct lv; [discriminate|]. eauto.
  - opt Q. opt Q. opt Q. destruct (negb (z =? 64)); [discriminate|]. pose proof (IHn2 _ _ E1).
    destruct (assign_view n1) as [(l0 & t & off & o & w & ->)|V].
    + destruct ((w <=? z0) && negb (bool_field t)); inversion Q; lia.
    + rewrite V in Q. destruct (is_struct_union (ntype n1)); [destruct (z0 =? 64)|destruct (8 * size_of (ntype n1) <=? z0)]; inversion Q; lia.
  - opt Q. eauto.
  - destruct lv; [discriminate|]. destruct (is_float t); [discriminate|]. opt Q. inversion Q. apply cast_qual_range. eauto.
  - opt Q. opt Q. opt Q. opt Q. destruct (z =? 64); [|discriminate]. inversion Q. pose proof (IHn2 _ _ E1). pose proof (IHn3 _ _ E2). lia.
  - destruct lv; [discriminate|]. opt Q. pose proof (IHn _ _ E). destruct (int_repr t) as [(s, w)|]; [|discriminate].
    destruct (w =? 64); [inversion Q; lia|]. destruct (w =? 32); [|discriminate]. destruct (32 <=? z); [destruct s|]; inversion Q; lia.
  - destruct lv; [discriminate|]. opt Q. destruct (z =? 64); inversion Q; lia.
  - destruct lv; [discriminate|]. opt Q. pose proof (IHn _ _ E). destruct (int_repr (ntype n)) as [([], w)|] eqn:R; try discriminate; inversion Q.
    + subst; lia.
    + pose proof (int_repr_width _ _ _ R). lia.
  - destruct lv; [discriminate|]. opt Q. opt Q. destruct ((z =? 64) && (z0 =? 64)); inversion Q; lia.
  - destruct lv; [discriminate|]. opt Q. opt Q. destruct ((z =? 64) && (z0 =? 64)); inversion Q; lia.
  - destruct lv; [discriminate|]. opt Q. opt Q. eapply bin_qual_range; eauto.
  - destruct lv; inversion Q; lia.
  - destruct lv; [discriminate|]. opt Q. match type of Q with (if ?c then _ else _) = _ => destruct c; [|discriminate] end.
    inversion Q. apply ret_range.
Qed.
(** Expressions with a floating point value are not covered by [qual]. *)
Lemma qual_not_float n : forall q, well_typed n = true -> qual false n = Some q -> is_float (ntype n) = false.
Proof.
  assert (RI : forall t, int_repr t <> None -> is_float t = false) by (intros t; destruct t; try reflexivity; intros H; contradiction H; reflexivity).
  assert (SU : forall t, is_struct_union t = true -> is_float t = false) by (intros t; destruct t; try reflexivity; discriminate).
  assert (SR : forall a b, same_repr a b = true -> int_repr a <> None) by (intros a b; unfold same_repr; destruct (int_repr a) as [[]|]; [congruence|discriminate]).
  assert (LO : forall t, loadable t = true -> is_float t = false) by (intros t; destruct t; try reflexivity; discriminate).
  induction n using node_induct; intros q WT Q; cbn [qual well_typed] in *.
  - reflexivity.
  - cbn [ntype]. destruct (is_float t); [discriminate|reflexivity].
  - cbn [ntype]. cbn [orb] in Q. destruct (loadable t) eqn:L; [auto|discriminate].
  - repeat opt Q. destruct (negb (z =? 64)); [discriminate|]. cbn [ntype]. apply andb_true_iff in WT as [MO _]. unfold member_ok in MO. destruct (m_bf i) as [[o w]|].
    + apply RI. destruct (int_repr (m_ty i)); congruence.
    + destruct (loadable (m_ty i)) eqn:L; [auto|discriminate].
  - repeat opt Q. cbn [orb] in *. apply andb_true_iff in E0. apply LO, E0.
  - cbn [ntype]. destruct (ntype n); reflexivity.
  - cbn [ntype]. apply andb_true_iff in WT as [_ TY]. apply orb_true_iff in TY as [TY|TY]; [apply andb_true_iff in TY as [TY _]; auto|apply RI; eapply SR; eauto].
  - opt Q. apply andb_true_iff in WT as [_ WT]. cbn [ntype]. eauto.
  - cbn [ntype]. destruct (is_float t); [discriminate|reflexivity].
  - apply andb_true_iff in WT as [_ TY]. set (tt := ntype (NCond n1 n2 n3)) in *.
    assert (X : tt = TVoid \/ same_repr tt (ntype n2) && same_repr tt (ntype n3) || (is_struct_union tt && is_struct_union (ntype n2) && is_struct_union (ntype n3)) = true) by (destruct tt; auto).
    destruct X as [->|X]; [reflexivity|]. apply orb_true_iff in X as [X|X]; apply andb_true_iff in X as [X _].
    + apply RI. eapply SR; eauto.
    + apply andb_true_iff in X as [X _]. auto.
  - cbn [ntype]. opt Q. apply andb_true_iff in WT as [X _]. apply RI. eapply SR; eauto.
  - reflexivity.
  - opt Q. cbn [ntype]. apply RI. destruct (int_repr (ntype n)); congruence.
  - reflexivity.
  - reflexivity.
  - cbn [ntype]. opt Q. opt Q. apply RI. unfold bin_qual in Q. destruct (int_repr t); congruence.
  - reflexivity.
  - cbn [ntype]. apply andb_true_iff in WT as [_ X]. destruct (int_repr t) eqn:R; [apply RI; congruence|]. destruct t; try reflexivity; discriminate.
Qed.
Lemma need_pos n : 0 <= need n.
Proof. induction n using node_induct; cbn [need]; try lia. assert (0 <= fold_right (fun a k => Z.max (need a) k) (need n) args); [|lia]. clear - IHn; induction args; cbn; lia. Qed.

Lemma rep_0 v r : rep 0 v r. Proof. unfold rep. now rewrite Z.pow_0_r, !Z.mod_1_r. Qed.

Section Proofs.
Variables (E : env) (W : world) (goff : nat -> Z) (fp room : Z).
Hypothesis HS : setting E W goff fp.
Notation same_mem := (same_mem E). Notation matches := (matches E fp). Notation free_stack := (free_stack E room).
Notation above_same := (above_same E). Notation computes := (computes E W fp room).
Let HE : env_ok E := set_env _ _ _ _ HS.

(** ** Values of expressions *)
Lemma scalar_val n m v m' : well_typed n = true -> is_scalar (ntype n) = true -> ev E false n m = Some (v, m') -> val_in (ntype n) v.
Proof.
  intros WT S H. pose proof (ev_val_ok E n HE _ _ _ _ WT H) as V. unfold val_in, repr_or_addr. unfold is_scalar in S.
  destruct (int_repr (ntype n)) as [(s, w)|] eqn:R; cbn [fst snd].
  - apply (val_ok_val _ _ _ R) in V. unfold val_of in V. now rewrite R in V.
  - apply in_range_true; [lia|]. apply (aggr_addr false (ntype n)); auto. destruct (ntype n); auto; discriminate.
Qed.
Lemma addr_range n m v m' : well_typed n = true -> ev E true n m = Some (v, m') -> 0 <= v < 2 ^ 64.
Proof. intros WT H. pose proof (ev_val_ok E n HE _ _ _ _ WT H) as V. unfold val_ok in V. now cbn in V. Qed.
Lemma rep_addr v r : 0 <= v < 2 ^ 64 -> 0 <= r < 2 ^ 64 -> rep 64 v r -> r = v.
Proof. intros V R P. rewrite (rep_full v r R P). now apply mod_id. Qed.

(** ** Straight code *)
Lemma bin_code_run o t tl rs ms : regs_ok rs -> pure (bin_code o t tl) = true /\ exists rs', exec_list (w_sym W) (bin_code o t tl) rs ms = Some (rs', ms) /\ rs' (A 0) = bin_reg o t tl (rs (A 0)) (rs (A 1)).
Proof.
  intros RO. split; [destruct o; try reflexivity; cbn; destruct (is_unsigned t); reflexivity|].
  assert (Z0 : rs Zero = 0) by apply RO.
  unfold bin_code, bin_reg. fold (is64 tl).
  destruct o; try (eexists; split; [reflexivity|]; reflexivity);
    try (destruct (is_unsigned t); eexists; (split; [cbn [exec_list exec_straight]; reflexivity|]); reflexivity).
  eexists. split; [reflexivity|]. cbn. now rewrite Z0.
Qed.
Lemma cast_run f t s0 c s' rs ms x : cast f t s0 = Some (c, s') -> convertible f t = true -> conv t x <> None -> regs_ok rs ->
  pure c = true /\ exists rs', exec_list (w_sym W) c rs ms = Some (rs', ms) /\ rs' (A 0) = cast_reg f t (rs (A 0)).
Proof.
  intros CA CV CX RO. assert (Z0 : rs Zero = 0) by apply RO.
  assert (D : t = TVoid \/ t = TBool \/ (t <> TVoid /\ t <> TBool)) by (destruct t; auto; right; right; split; discriminate).
  destruct D as [->|[->|[N1 N2]]].
  - cbn in CA. apply emit_inv in CA as [-> _]. split; auto. exists rs. auto.
  - cbn in CA. apply emit_inv in CA as [-> _]. split; auto. eexists. split; [reflexivity|]. cbn. now rewrite Z0.
  - assert (F1 : is_float t = false) by (destruct t; auto; contradiction CX; reflexivity).
    assert (F2 : is_float f = false) by (destruct t, f; auto; try discriminate CV; congruence).
    rewrite (cast_matrix_spec f t F2 F1 N1 N2) in CA. apply emit_inv in CA as [-> _].
    replace (cast_reg f t (rs (A 0))) with (if truncates f t then trunc_reg (fst (reg_class t)) (snd (reg_class t)) (rs (A 0)) else rs (A 0)) by (destruct t; try reflexivity; congruence).
    destruct (truncates f t); [|split; auto; exists rs; auto]. destruct (reg_class t) as [[] n]; (split; [reflexivity|]; eexists; split; [reflexivity|]; reflexivity).
Qed.
Lemma load_exec t p s0 c s' rs ms a : load t s0 = Some (c, s') -> int_repr t = Some p -> rs (A 0) = a -> 0 <= a -> a + size_of t <= 2 ^ 64 ->
  exec_list (w_sym W) c rs ms = Some (setr rs A0 (load_reg t (le_load ms a (Z.to_nat (size_of t)))), ms).
Proof.
  intros LD R RA A1 A2. destruct (scalar_access t p R) as [SA SB].
  assert (C : c = [if access_size t =? 8 then ILoad false 8 A0 0 A0 else ILoad (is_unsigned t) (access_size t) A0 0 A0]).
  { destruct t; try discriminate R; cbn in LD; inversion LD; reflexivity. }
  unfold load_reg. rewrite SA in *. subst c.
  assert (AD : wrap (rs A0 + 0) = a) by (change (rs A0) with (rs (A 0)); rewrite RA, Z.add_0_r; apply mod_id; lia).
  destruct (size_of t =? 8) eqn:S8.
  - assert (SZ : size_of t = 8) by lia. rewrite SZ in *. cbn [exec_list exec_straight]. rewrite (ea_ok rs A0 0 8 a AD ltac:(lia)). reflexivity.
  - cbn [exec_list exec_straight]. rewrite (ea_ok rs A0 0 (size_of t) a AD ltac:(lia)). reflexivity.
Qed.

(** ** Branches *)
Lemma jump p s l k : nth_error p (pc s) = Some (IJ l) -> nth_error p k = Some (ILabel l) -> NoDup (labels p) -> star W p s (St (S k) (rg s) (mm s)).
Proof.
  intros J L ND. eapply star_step; [unfold step; rewrite J, (find_label_at p k l ND L); reflexivity|].
  apply star_one. unfold step. cbn [pc]. rewrite L. reflexivity.
Qed.
Lemma branch p s c r l k : nth_error p (pc s) = Some (IBr c r Zero l) -> nth_error p k = Some (ILabel l) -> NoDup (labels p) ->
  star W p s (if exec_cond c (rg s r) (rg s Zero) then St (S k) (rg s) (mm s) else St (S (pc s)) (rg s) (mm s)).
Proof.
  intros J L ND. destruct (exec_cond c (rg s r) (rg s Zero)) eqn:C.
  - eapply star_step; [unfold step; rewrite J, C, (find_label_at p k l ND L); reflexivity|].
    apply star_one. unfold step. cbn [pc]. rewrite L. reflexivity.
  - apply star_one. unfold step. now rewrite J, C.
Qed.
(** cmp_zero and a branch on the result *)
Lemma test_branch p s t x m c l k : val_in t x -> matches m s -> rep 64 x (rg s (A 0)) -> nth_error p (pc s) = Some (Seqz A0 A0) ->
  nth_error p (S (pc s)) = Some (IBr c A0 Zero l) -> (c = BNE \/ c = BEQ) -> nth_error p k = Some (ILabel l) -> NoDup (labels p) ->
  exists rs, star W p s (if Bool.eqb (truth x) (match c with BNE => false | _ => true end) then St (S k) rs (mm s) else St (S (S (pc s))) rs (mm s)) /\
    (forall n, matches m (St n rs (mm s))) /\ rs Sp = rg s Sp.
Proof.
  intros V (RO & FP & SM) P N1 N2 CC NL ND. pose proof (val_in_zero _ _ _ V (proj2 RO (A 0)) P) as Z0.
  set (rs := setr (rg s) A0 (b2z (rg s A0 <? 1))). exists rs.
  assert (RO' : regs_ok rs) by (apply regs_ok_upd; auto; apply b2z_rng).
  assert (A0v : rs A0 = b2z (negb (truth x))).
  { change (rs A0) with (b2z (rg s A0 <? 1)). unfold truth. rewrite negb_involutive, <- Z0. f_equal. change (rg s A0) with (rg s (A 0)).
    pose proof (proj2 RO (A 0)). destruct (Z.ltb_spec (rg s (A 0)) 1), (Z.eqb_spec (rg s (A 0)) 0); auto; lia. }
  split; [|split; [intros n; split; auto|reflexivity]].
  eapply star_step; [eapply (exec_straight_step W p (pc s) _ (rg s) (mm s)) in N1; [|reflexivity]; destruct s; exact N1|].
  change (setr (rg s) A0 (b2z (rg s A0 <? wrap 1))) with rs.
  pose proof (branch p (St (S (pc s)) rs (mm s)) c A0 l k N2 NL ND) as B. cbn [rg pc mm] in B. rewrite (proj1 RO'), A0v in B.
  destruct CC as [-> | ->]; cbn [exec_cond] in B; destruct (truth x); exact B.
Qed.

(** ** Calls: the parts *)
Fixpoint pa (l : list node) : G := match l with [] => emit [] | a :: r => pa r ;; (gen goff false a ;; push A0) end.
Definition push_args2 (first : bool) :=
  fix go (i : nat) (l : list node) : G :=
    match l with
    | [] => emit []
    | a :: r => go (S i) r ;; if Bool.eqb (Nat.leb 8 i) first then gen goff false a ;; push A0 else emit []
    end.
Lemma seq_emit_nil a s : seq_ a (emit []) s = a s.
Proof. unfold seq_, emit. destruct (a s) as [[c s1]|]; auto. now rewrite app_nil_r. Qed.
Lemma seq_ext a a' b b' s : (forall s, a s = a' s) -> (forall s, b s = b' s) -> seq_ a b s = seq_ a' b' s.
Proof. intros H1 H2. unfold seq_. rewrite H1. destruct (a' s) as [[c s1]|]; auto. now rewrite H2. Qed.
Lemma push_args2_true l : forall i s, push_args2 true i l s = pa (skipn (8 - i) l) s.
Proof.
  induction l as [|a l IH]; intros i s; [now rewrite skipn_nil|]. cbn [push_args2]. fold (push_args2 true). destruct (Nat.leb 8 i) eqn:L; cbn [Bool.eqb].
  - apply Nat.leb_le in L. replace (8 - i)%nat with 0%nat by lia. cbn [skipn pa]. apply seq_ext; auto. intros s1. rewrite IH. now replace (8 - S i)%nat with 0%nat by lia.
  - apply Nat.leb_gt in L. replace (8 - i)%nat with (S (8 - S i)) by lia. cbn [skipn]. rewrite seq_emit_nil. apply IH.
Qed.
Lemma push_args2_false l : forall i s, push_args2 false i l s = pa (firstn (8 - i) l) s.
Proof.
  induction l as [|a l IH]; intros i s; [now rewrite firstn_nil|]. cbn [push_args2]. fold (push_args2 false). destruct (Nat.leb 8 i) eqn:L; cbn [Bool.eqb].
  - apply Nat.leb_le in L. replace (8 - i)%nat with 0%nat by lia. cbn [firstn pa]. rewrite seq_emit_nil, IH. now replace (8 - S i)%nat with 0%nat by lia.
  - apply Nat.leb_gt in L. replace (8 - i)%nat with (S (8 - S i)) by lia. cbn [firstn pa]. apply seq_ext; auto.
Qed.
Lemma gen_call f args t : gen goff false (NCall f args t) =
  if is_alloca f || negb (forallb (fun a => int_arg (ntype a)) args) || negb (int_arg t) then fail
  else
    let nst := Z.of_nat (length args - 8) in
    with_depth (fun d =>
      let pad := (d + nst) mod 2 =? 1 in
      let stack := if pad then nst + 1 else nst in
      (if pad then emit [IAddi Sp Sp (-8)] ;; dep 1 else emit []) ;;
      emit [Mv T1 Sp; IAddi Sp Sp 0] ;;
      push_args2 true 0%nat args ;; push_args2 false 0%nat args ;;
      gen goff false f ;; emit [Mv T0 A0] ;;
      pops (Nat.min 8 (length args)) 0 ;;
      emit [ICall T0] ;;
      (if stack =? 0 then emit [] else emit [IAddi Sp Sp (8 * stack)] ;; dep (- stack)) ;;
      emit (narrow t)).
Proof. reflexivity. Qed.
Lemma evl_app l1 l2 m : evl E (l1 ++ l2) m = let* (v2, m1) := evl E l2 m in let* (v1, m2) := evl E l1 m1 in Some (v1 ++ v2, m2).
Proof.
  revert m; induction l1 as [|a l1 IH]; intros m; cbn [app evl].
  - fold (evl E). destruct (evl E l2 m) as [[]|]; reflexivity.
  - fold (evl E). rewrite IH. destruct (evl E l2 m) as [[v2 m1]|]; auto. destruct (evl E l1 m1) as [[v1 m2]|]; auto.
    destruct (ev E false a m2) as [[v m3]|]; auto.
Qed.
Lemma evl_length l : forall m vs m', evl E l m = Some (vs, m') -> length vs = length l.
Proof.
  induction l as [|a l IH]; intros m vs m' H; cbn [evl] in H; fold (evl E) in H.
  - inversion H; auto.
  - destruct (evl E l m) as [[v1 m1]|] eqn:E1; [|discriminate]. destruct (ev E false a m1) as [[v m2]|]; [|discriminate]. inversion H; subst. cbn. now rewrite (IH _ _ _ E1).
Qed.
Definition gen_ok (n : node) : Prop := forall lv s c s' q m v m', gen goff lv n s = Some (c, s') -> qual lv n = Some q -> well_typed n = true ->
  ev E lv n m = Some (v, m') -> computes c q (need n) m v m'.
Definition arg_q (x : node) : bool := match qual false x, int_repr (ntype x) with Some q, Some _ => 8 * size_of (ntype x) <=? q | _, _ => false end.
Lemma pa_ok l : Forall gen_ok l -> forall s c s' m vs m' mx, pa l s = Some (c, s') -> forallb arg_q l = true -> forallb well_typed l = true ->
  evl E l m = Some (vs, m') -> Forall (fun a => need a <= mx) l -> 0 <= mx ->
  forall p st lo, code_at p (pc st) c -> linked E W fp room p -> matches m st -> free_stack lo st -> lo + 8 * (Z.of_nat (length l) + mx) <= rg st Sp ->
  exists st', star W p st st' /\ pc st' = (pc st + length c)%nat /\ matches m' st' /\ rg st' Sp = rg st Sp - 8 * Z.of_nat (length l) /\
    (forall a, e_valid E a = false -> rg st Sp <= a -> mm st' a = mm st a) /\
    (forall i ty x, nth_error (map ntype l) i = Some ty -> nth_error vs i = Some x -> rep (8 * size_of ty) x (le_load (mm st') (rg st' Sp + 8 * Z.of_nat i) 8)).
Proof.
  induction 1 as [|a l GA GL IH]; intros s c s' m vs m' mx PA Q WT EV NM MX p st lo CA ND MT FS SL; cbn [pa] in PA.
  - apply emit_inv in PA as [-> _]. cbn [evl] in EV. inversion EV; subst. exists st. split; [constructor|]. cbn [length]. split; [lia|]. split; auto.
    split; [lia|]. split; auto. intros i ty x H. destruct i; discriminate.
  - apply seq_inv in PA as (c1 & s1 & c2 & P1 & P2 & ->). apply seq_inv in P2 as (c3 & s2 & c4 & P3 & P4 & ->). apply push_inv in P4. subst c4.
    cbn [forallb] in Q, WT. apply andb_true_iff in Q as [Qa Ql]. apply andb_true_iff in WT as [Wa Wl]. inversion NM as [|? ? Na Nl]; subst.
    cbn [evl] in EV. fold (evl E) in EV. destruct (evl E l m) as [[vl m1]|] eqn:EL; [|discriminate]. destruct (ev E false a m1) as [[v m2]|] eqn:EA; [|discriminate].
    assert (vs = v :: vl /\ m' = m2) as [-> ->] by (inversion EV; auto). clear EV.
    apply code_at_app in CA as [CA1 CA]. apply code_at_app in CA as [CA3 CAp]. cbn [length] in SL.
    destruct (IH s c1 s1 m vl m1 mx P1 Ql Wl EL Nl MX p st lo CA1 ND MT FS ltac:(lia)) as (st1 & ST1 & PC1 & MT1 & SP1 & MO1 & SL1).
    unfold arg_q in Qa. destruct (qual false a) as [q|] eqn:QA; [|discriminate]. destruct (int_repr (ntype a)) as [rr|] eqn:RA; [|discriminate].
    destruct FS as [L0 FS]. assert (FS1 : free_stack lo st1) by (split; auto; intros x Hx; apply FS; lia).
    destruct (GA false s1 c3 s2 q m1 v m2 P3 QA Wa EA p _ st1 lo CA3 ND PC1 MT1 FS1 ltac:(lia)) as (st2 & ST2 & PC2 & R2 & MT2 & AB2).
    destruct AB2 as [SP2 MO2].
    destruct (push_run E W A0 (rg st2) (mm st2) lo ltac:(intros x Hx; apply FS; lia) (proj1 MT2) ltac:(lia) ltac:(lia) ltac:(discriminate)) as (rs3 & ms3 & X3 & RO3 & SP3 & OT3 & MO3 & SM3 & LD3).
    exists (St (pc st2 + 2) rs3 ms3). split.
    + eapply star_trans; [exact ST1|]. eapply star_trans; [exact ST2|]. apply (run_straight W p st2 (push_code A0)); auto. rewrite PC2. rewrite <- Nat.add_assoc in CAp |- *. exact CAp.
    + cbn [pc rg mm]. split; [rewrite !app_length; cbn; lia|]. split; [split; auto; split; cbn; [rewrite OT3 by discriminate; apply MT2|apply SM3, MT2]|].
      split; [cbn [length]; lia|]. split; [intros x Vx Lx; rewrite MO3, MO2, MO1; auto; lia|].
      intros i ty x Ty Xi. destruct i as [|i]; cbn in Ty, Xi.
      * assert (ty = ntype a /\ x = v) as [-> ->] by (split; congruence). replace (rs3 Sp + 8 * Z.of_nat 0) with (rg st2 Sp - 8) by lia. rewrite LD3.
        eapply rep_le; [|exact R2]. destruct (scalar_access _ _ RA). lia.
      * replace (rs3 Sp + 8 * Z.of_nat (S i)) with (rg st1 Sp + 8 * Z.of_nat i) by lia.
        assert (Bi : (i < length l)%nat) by (rewrite <- (map_length ntype); apply nth_error_Some; congruence).
        replace (le_load ms3 (rg st1 Sp + 8 * Z.of_nat i) 8) with (le_load (mm st1) (rg st1 Sp + 8 * Z.of_nat i) 8); [eapply SL1; eauto|].
        apply le_load_ext. intros j Hj. rewrite MO3 by lia. rewrite MO2; auto; [apply FS; lia|lia].
Qed.
Lemma pops_ok n : forall i s c s' rs ms, pops n i s = Some (c, s') -> regs_ok rs -> rs Sp + 8 * Z.of_nat n < 2 ^ 64 ->
  exists rs', exec_list (w_sym W) c rs ms = Some (rs', ms) /\ regs_ok rs' /\ rs' Sp = rs Sp + 8 * Z.of_nat n /\
    (forall x, tmp x = false -> x <> Sp -> rs' x = rs x) /\ (forall j, rs' (T j) = rs (T j)) /\ (forall j, (j < i)%nat -> rs' (A j) = rs (A j)) /\
    (forall j, (j < n)%nat -> rs' (A (i + j)) = le_load ms (rs Sp + 8 * Z.of_nat j) 8).
Proof.
  induction n as [|n IH]; intros i s c s' rs ms P RO B; cbn [pops] in P.
  - apply emit_inv in P as [-> _]. exists rs. repeat (split; auto); lia.
  - apply seq_inv in P as (c1 & s1 & c2 & P1 & P2 & ->). apply pop_inv in P1. subst c1. pose proof (proj2 RO Sp) as BS.
    destruct (pop_run W (A i) rs ms RO ltac:(lia) ltac:(discriminate) ltac:(discriminate)) as (rs1 & X1 & RO1 & SP1 & OT1 & A1).
    assert (SPe : rs1 Sp = rs Sp + 8) by (rewrite SP1; apply mod_id; lia).
    destruct (IH (S i) s1 c2 s' rs1 ms P2 RO1 ltac:(lia)) as (rs2 & X2 & RO2 & SP2 & OT2 & T2' & L2 & A2).
    exists rs2. split; [rewrite exec_list_app, X1; exact X2|]. split; auto. split; [lia|].
    split; [intros x H1 H2; rewrite OT2, OT1; auto; intros ->; discriminate|].
    split; [intros j; rewrite T2', OT1; auto; discriminate|].
    split; [intros j Hj; rewrite L2 by lia; rewrite OT1; auto; [discriminate|intros K; inversion K; lia]|].
    intros j Hj. destruct j as [|j].
    + rewrite Nat.add_0_r. rewrite L2 by lia. rewrite A1. f_equal. lia.
    + replace (i + S j)%nat with (S i + j)%nat by lia. rewrite A2 by lia. f_equal. lia.
Qed.
Lemma narrow_run t rs ms v : regs_ok rs -> (match t with TVoid => True | _ => val_of t v = true end) -> rep (ret_bits t) v (rs (A 0)) ->
  pure (narrow t) = true /\ exists rs', exec_list (w_sym W) (narrow t) rs ms = Some (rs', ms) /\ rep (call_qual t) v (rs' (A 0)).
Proof.
  intros RO V P.
  assert (N : forall s n, 0 < n < 64 -> val_of t v = true -> int_repr t = Some (s, n) -> rep n v (rs (A 0)) -> rep 64 v (trunc_reg s n (rs (A 0)))).
  { intros s n Hn Vt R Q. rewrite trunc_reg_ok by lia. destruct (val_of_range _ _ _ _ R Vt) as [_ B]. destruct s.
    - apply rep_wrap; [lia|]. rewrite (sx_unique n (rs (A 0)) v); [apply rep_refl|lia|exact Q|lia].
    - rewrite Q, (mod_id n v) by lia. apply rep_refl. }
  destruct t as [| |[]|[]|[]| | | | | | | | | | |]; cbn [narrow ret_bits call_qual is_unsigned] in *;
    try (split; [reflexivity|]; exists rs; split; [reflexivity|exact P]);
    try (split; [reflexivity|]; eexists; split; [reflexivity|]).
  - change (rep 64 v (trunc_reg true 8 (rs (A 0)))). rewrite trunc_reg_ok by lia. destruct (val_of_range TBool _ _ _ eq_refl V) as [_ B].
    apply rep_wrap; [lia|]. rewrite (sx_unique 8 (rs (A 0)) v); [apply rep_refl|lia|exact P|]. change (2 ^ (8 - 1)) with 128. change (2 ^ 1) with 2 in B. lia.
  - exact (N false 8 ltac:(lia) V eq_refl P).
  - exact (N true 8 ltac:(lia) V eq_refl P).
  - exact (N false 16 ltac:(lia) V eq_refl P).
  - exact (N true 16 ltac:(lia) V eq_refl P).
Qed.
End Proofs.
