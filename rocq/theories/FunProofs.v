(** A call of a compiled function does what its body does. *)
From Verif Require Import Base TypeModel LayoutModel IntArith NodeModel NodeProofs ValSpec NodeSpec RvSpec GenModel GenSpec RvProofs GenArith GenBits GenRun GenProofs GenSim GenShape StmtSpec StmtModel StmtTree StmtProofs StmtCode FrameModel FrameSpec FrameArgs FrameProofs FunSpec FunLabels.
From Coq Require Import ZifyBool ZifyNat.
Local Notation length := List.length.
Local Arguments Z.mul : simpl never.
Local Arguments Z.add : simpl never.
Local Arguments Z.sub : simpl never.

Lemma int_size t : int_repr t <> None -> size_of t = 1 \/ size_of t = 2 \/ size_of t = 4 \/ size_of t = 8.
Proof. destruct t; cbn; intros H; auto; congruence. Qed.

(** ** Where the parameters are *)
Lemma int_offsets ps : forall top g f po top' c, Forall (fun t => int_repr t <> None) ps -> param_offsets top g f ps = Some (po, top') ->
  0 <= c -> 16 + 8 * (c - 1) < top <= 16 + 8 * c -> length po = length ps /\
  forall i o, nth_error po i = Some o -> ((g + i < 8)%nat -> o = 0) /\ ((8 <= g + i)%nat -> o = 16 + 8 * c + 8 * Z.of_nat (g + i - Nat.max g 8)).
Proof.
  induction ps as [|t ps IH]; intros top g f po top' c F H DB TB; cbn [param_offsets] in H.
  { injection H as <- <-. split; [reflexivity|]. intros i o N. destruct i; discriminate. }
  inversion F as [|? ? F1 F2]; subst.
  assert (X: is_struct_union t = false /\ is_float_arg t = false /\ t <> TLDouble) by (destruct t; cbn in F1; repeat split; try congruence).
  destruct X as (X1 & X2 & X3). rewrite X1, X2 in H.
  assert (H2: (if Nat.ltb g max_regs then let* (l, top) := param_offsets top (g + 1) f ps in Some (0 :: l, top)
     else let* o := align_to top 8 in let* top := chk (o + size_of t) in let* (l, top) := param_offsets top g f ps in Some (o :: l, top)) = Some (po, top')) by (destruct t; congruence).
  clear H. change max_regs with 8%nat in H2. destruct (Nat.ltb g 8) eqn:G8.
  - destruct (param_offsets top (g + 1) f ps) as [[l tp]|] eqn:P; [|discriminate]. injection H2 as <- <-. destruct (IH _ _ _ _ _ c F2 P DB TB) as (L & N). split; [cbn; now rewrite L|].
    intros i o K. destruct i as [|i]; cbn [nth_error] in K; [injection K as <-; split; [auto|lia]|]. destruct (N i o K) as [N1 N2]. split; [intros; apply N1; lia|]. intros Q. rewrite N2 by lia. lia.
  - destruct (align_to top 8) as [o0|] eqn:AT; [|discriminate]. destruct (chk (o0 + size_of t)) as [tp0|] eqn:CK; [|discriminate].
    destruct (param_offsets tp0 g f ps) as [[l tp]|] eqn:P; [|discriminate]. injection H2 as <- <-.
    apply (stack_off top c) in AT; [|lia|lia]. subst o0.
    unfold chk in CK. destruct (_ && _); [|discriminate]. injection CK as <-.
    destruct (IH _ _ _ _ _ (c + 1) F2 P) as (L & N).
    { lia. } { destruct (int_size t F1) as [->|[->|[->| ->]]]; lia. }
    split; [cbn; now rewrite L|]. intros i o K. destruct i as [|i]; cbn [nth_error] in K; [injection K as <-; split; [lia|intros; replace (g + 0 - Nat.max g 8)%nat with 0%nat by lia; lia]|].
    destruct (N i o K) as [N1 N2]. split; [lia|]. intros Q. rewrite N2 by lia. lia.
Qed.

(** ** Storing the register arguments *)
Lemma store_arg_run sym r off sz rs ms : regs_ok rs -> (sz = 1 \/ sz = 2 \/ sz = 4 \/ sz = 8) -> 0 <= rs Sp + off -> rs Sp + off + sz <= 2 ^ 64 ->
  exists rs', exec_list sym (store_args r off sz) rs ms = Some (rs', le_store ms (rs Sp + off) sz (rs (A r))) /\ regs_ok rs' /\ forall x, x <> T 0 -> rs' x = rs x.
Proof.
  intros RO SZ L U. unfold store_args. pose proof (proj2 RO Sp) as BS.
  assert (X: (sz =? 1) || (sz =? 2) || (sz =? 4) || (sz =? 8) = true) by (destruct SZ as [->|[->|[->| ->]]]; reflexivity).
  destruct (beyond off) eqn:B; rewrite X.
  - set (rs1 := setr rs T0 (wrap off)). set (rs2 := setr rs1 T0 (wrap (rs Sp + wrap off))). exists rs2.
    assert (R1: regs_ok rs2) by (apply regs_ok_upd; [apply regs_ok_upd; [exact RO|apply RvProofs.wrap_rng]|apply RvProofs.wrap_rng]).
    assert (OT: forall x, x <> T 0 -> rs2 x = rs x) by (intros x N; unfold rs2, rs1; rewrite !setr_other by exact N; reflexivity).
    assert (WA: wrap (rs Sp + wrap off) = rs Sp + off). { unfold wrap. rewrite Z.add_mod_idemp_r by lia. apply mod_id. lia. }
    split; [|split; [exact R1|exact OT]]. cbn [app exec_list exec_straight exec_op]. fold rs1.
    change (rs1 T0) with (setr rs (T 0) (wrap off) (T 0)). rewrite setr_same by discriminate.
    replace (rs1 Sp) with (rs Sp) by (unfold rs1; rewrite setr_other by discriminate; reflexivity). fold rs2.
    rewrite (ea_ok rs2 T0 0 sz (rs Sp + off)); [rewrite OT by discriminate; reflexivity| |lia].
    unfold rs2. change T0 with (T 0). rewrite setr_same by discriminate. rewrite WA, Z.add_0_r. apply mod_id. lia.
  - exists rs. split; [|auto]. cbn [app exec_list exec_straight]. rewrite (ea_ok rs Sp off sz (rs Sp + off)); [reflexivity| |lia]. apply mod_id. lia.
Qed.
Definition range_apart (x y : ty * Z) : Prop := apart (snd x) (size_of (fst x)) (snd y) (size_of (fst y)).
Lemma store_params_run sym ps : forall g rs ms, regs_ok rs ->
  (forall i t off, nth_error ps i = Some (t, off) -> int_repr t <> None /\ ((g + i < 8)%nat <-> off <= 0) /\ (off <= 0 -> 0 <= rs Sp + off /\ rs Sp + off + size_of t <= 2 ^ 64)) ->
  (forall i j x y, i <> j -> nth_error ps i = Some x -> nth_error ps j = Some y -> range_apart x y) ->
  exists rs' ms', exec_list sym (store_params g ps) rs ms = Some (rs', ms') /\ regs_ok rs' /\ (forall x, x <> T 0 -> rs' x = rs x) /\
    (forall a, (forall t off, In (t, off) ps -> off <= 0 -> a < rs Sp + off \/ rs Sp + off + size_of t <= a) -> ms' a = ms a) /\
    forall i t off, nth_error ps i = Some (t, off) -> off <= 0 -> le_load ms' (rs Sp + off) (Z.to_nat (size_of t)) = rs (A (g + i)) mod 2 ^ (8 * size_of t).
Proof.
  induction ps as [|[t off] ps IH]; intros g rs ms RO H AP; cbn [store_params].
  { exists rs, ms. repeat (split; auto). intros i t off N. destruct i; discriminate. }
  destruct (H 0%nat t off eq_refl) as (T1 & T2 & T3). destruct (Z.ltb_spec 0 off) as [O|O].
  - destruct (IH g rs ms RO) as (rs' & ms' & X & R & OT & M1 & M2).
    + intros i t' o' N. destruct (H (S i) t' o' N) as (A1 & A2 & A3). split; [auto|]. split; [|auto]. split; intros Q; [lia|]. apply A2 in Q. lia.
    + intros i j x y N I J. apply (AP (S i) (S j)); auto.
    + exists rs', ms'. split; [exact X|]. split; [auto|]. split; [auto|]. split; [intros a Q; apply M1; intros; apply Q; [now right|auto]|].
      intros i t' o' N L. destruct i as [|i]; cbn [nth_error] in N; [injection N as <- <-; lia|]. destruct (H (S i) t' o' N) as (_ & A2 & _). apply A2 in L. lia.
  - assert (G8: (g < 8)%nat) by lia. change max_regs with 8%nat. replace (Nat.ltb g 8) with true by lia. rewrite exec_list_app.
    destruct (T3 O) as [T4 T5]. destruct (store_arg_run sym g off (size_of t) rs ms RO (int_size t T1) T4 T5) as (rs1 & X1 & R1 & OT1). rewrite X1.
    assert (S1: rs1 Sp = rs Sp) by (apply OT1; discriminate).
    destruct (IH (g + 1)%nat rs1 (le_store ms (rs Sp + off) (size_of t) (rs (A g))) R1) as (rs' & ms' & X & R & OT & M1 & M2).
    + intros i t' o' N. destruct (H (S i) t' o' N) as (A1 & A2 & A3). rewrite S1. split; [auto|]. split; [|auto]. replace (g + 1 + i)%nat with (g + S i)%nat by lia. exact A2.
    + intros i j x y N I J. apply (AP (S i) (S j)); auto.
    + exists rs', ms'. rewrite S1 in *. split; [exact X|]. split; [exact R|]. split; [intros x N; rewrite OT, OT1; auto|]. split.
      * intros a Q. rewrite M1; [apply le_store_out; apply (Q t off); [now left|exact O]|]. intros t' o' I L. apply Q; [now right|exact L].
      * intros i t' o' N L. destruct i as [|i]; cbn [nth_error] in N.
        -- injection N as <- <-. rewrite Nat.add_0_r. pose proof (int_size t T1) as SZ. etransitivity; [|apply (le_load_store ms (rs Sp + off) (size_of t)); lia]. apply le_load_ext. intros k K. rewrite M1; [reflexivity|].
           intros t' o' I L'. apply In_nth_error in I as (j & J). pose proof (AP 0%nat (S j) (t, off) (t', o') ltac:(discriminate) eq_refl J) as Q. unfold range_apart, apart in Q. cbn [fst snd] in Q. lia.
        -- rewrite (M2 i t' o' N L). rewrite OT1 by discriminate. replace (g + 1 + i)%nat with (g + S i)%nat by lia. reflexivity.
Qed.

Lemma load_app m a n k : le_load m a (n + k) = le_load m a n + 2 ^ (8 * Z.of_nat n) * le_load m (a + Z.of_nat n) k.
Proof.
  revert a. induction n as [|n IH]; intros a; cbn [Nat.add le_load].
  - rewrite Z.add_0_r. change (2 ^ (8 * Z.of_nat 0)) with 1. lia.
  - rewrite IH. replace (a + 1 + Z.of_nat n) with (a + Z.of_nat (S n)) by lia. replace (8 * Z.of_nat (S n)) with (8 + 8 * Z.of_nat n) by lia. rewrite Z.pow_add_r by lia. change (2 ^ 8) with 256. ring.
Qed.
Lemma load_low m a z : z = 1 \/ z = 2 \/ z = 4 \/ z = 8 -> le_load m a (Z.to_nat z) = le_load m a 8 mod 2 ^ (8 * z).
Proof.
  intros H. replace 8%nat with (Z.to_nat z + (8 - Z.to_nat z))%nat at 1 by lia. rewrite load_app. replace (8 * Z.of_nat (Z.to_nat z)) with (8 * z) by lia.
  rewrite Z.mul_comm, Z_mod_plus_full. symmetry. apply mod_id. pose proof (le_load_range m a (Z.to_nat z)). replace (8 * Z.of_nat (Z.to_nat z)) with (8 * z) in * by lia. lia.
Qed.

(** ** The frame *)
Section Fun.
Variables (f : func) (offs : list Z) (size : Z).
Hypothesis FR : frame f = Some (offs, size).
Hypothesis OK : Forall lvar_ok (f_locals f).
Hypothesis VA : f_variadic f = false.
Hypothesis IP : Forall (fun v => int_repr (v_ty v) <> None) (f_params f).

Lemma param_ix_eq : param_ix f = S (bottom_ix f). Proof. unfold param_ix. rewrite VA. lia. Qed.
Lemma locals_eq : f_locals f = f_vars f ++ alloca_var :: f_params f. Proof. unfold f_locals. rewrite VA. reflexivity. Qed.
Lemma nth_param i : nth_error (f_locals f) (param_ix f + i) = nth_error (f_params f) i.
Proof. rewrite locals_eq, param_ix_eq. rewrite nth_error_app2 by (unfold bottom_ix; lia). unfold bottom_ix. replace (S (length (f_vars f)) + i - length (f_vars f))%nat with (S i) by lia. reflexivity. Qed.
Lemma nth_bottom : nth_error (f_locals f) (bottom_ix f) = Some alloca_var.
Proof. rewrite locals_eq. rewrite nth_error_app2 by (unfold bottom_ix; lia). unfold bottom_ix. rewrite Nat.sub_diag. reflexivity. Qed.
Lemma offs_some i v : nth_error (f_locals f) i = Some v -> exists o, nth_error offs i = Some o.
Proof.
  intros H. destruct (nth_error offs i) as [o|] eqn:N; [eauto|]. apply nth_error_None in N. rewrite (ff_len _ _ _ (frame_ok _ _ _ FR OK)) in N. assert (i < length (f_locals f))%nat by (apply nth_error_Some; congruence). lia.
Qed.
Lemma param_at i v : nth_error (f_params f) i = Some v -> exists o, nth_error offs (param_ix f + i) = Some o /\ ((i < 8)%nat <-> o <= 0) /\
  ((i < 8)%nat -> - size <= o /\ o + size_of (v_ty v) <= 0) /\ ((8 <= i)%nat -> o = 16 + 8 * (Z.of_nat i - 8)).
Proof.
  intros H. pose proof (frame_ok _ _ _ FR OK) as FF. destruct (offs_some (param_ix f + i) v) as (o & O); [rewrite nth_param; exact H|]. exists o. split; [exact O|].
  destruct (param_offsets 16 0 0 (map v_ty (f_params f))) as [[po top]|] eqn:PO; [|unfold frame in FR; rewrite PO in FR; discriminate].
  assert (IP': Forall (fun t => int_repr t <> None) (map v_ty (f_params f))) by (rewrite Forall_map; exact IP).
  destruct (int_offsets _ _ _ _ _ _ 0 IP' PO ltac:(lia) ltac:(lia)) as (LP & NP).
  destruct (nth_error po i) as [o1|] eqn:O1; [|exfalso; apply nth_error_None in O1; rewrite LP, map_length in O1; assert (i < length (f_params f))%nat by (apply nth_error_Some; congruence); lia].
  destruct (NP i o1 O1) as [N1 N2]. destruct (ff_params _ _ _ FF po top PO i o1 o O1 O) as [P1 P2].
  pose proof (ff_in _ _ _ FF (param_ix f + i)%nat v o ltac:(rewrite nth_param; exact H) O) as IN.
  assert (I8: (8 <= i)%nat -> o = 16 + 8 * (Z.of_nat i - 8)). { intros L. assert (o1 = 16 + 8 * (Z.of_nat i - 8)) by (rewrite N2 by lia; lia). rewrite P1; [auto|lia]. }
  assert (I7: (i < 8)%nat -> o <= 0) by (intros L; apply P2, N1; lia).
  split; [|split; [|exact I8]].
  - split; [exact I7|]. intros L. destruct (Nat.lt_ge_cases i 8); [auto|]. rewrite I8 in L by auto. lia.
  - intros L. specialize (I7 L). lia.
Qed.
Lemma bottom_at : exists o, nth_error offs (bottom_ix f) = Some o /\ - size <= o /\ o + 8 <= 0.
Proof.
  pose proof (frame_ok _ _ _ FR OK) as FF. destruct (offs_some _ _ nth_bottom) as (o & O). exists o. split; [exact O|].
  pose proof (ff_in _ _ _ FF _ _ _ nth_bottom O) as IN. change (size_of (v_ty alloca_var)) with 8 in IN. lia.
Qed.
Definition pairs := combine (map v_ty (f_params f)) (skipn (param_ix f) offs).
Lemma skipn_nth {X} (l : list X) : forall n i, nth_error (skipn n l) i = nth_error l (n + i).
Proof. induction l as [|x l IH]; intros n i; destruct n; cbn; auto. now destruct i. Qed.
Lemma combine_nth_error {X Y} (a : list X) : forall (b : list Y) i x y, nth_error (combine a b) i = Some (x, y) <-> nth_error a i = Some x /\ nth_error b i = Some y.
Proof.
  induction a as [|x a IH]; intros b i u v; [cbn; destruct i; split; [easy|intros []; easy|easy|intros []; easy]|].
  destruct b as [|y b]; [cbn [combine]; destruct i; cbn [nth_error]; split; [easy|intros []; easy|easy|intros []; easy]|]. destruct i; cbn [combine nth_error]; [split; [intros H; injection H as <- <-; auto|intros [H1 H2]; congruence]|apply IH].
Qed.
Lemma nth_pairs i t o : nth_error pairs i = Some (t, o) <-> exists v, nth_error (f_params f) i = Some v /\ t = v_ty v /\ nth_error offs (param_ix f + i) = Some o.
Proof.
  unfold pairs. rewrite combine_nth_error, skipn_nth, nth_error_map. split.
  - intros [H1 H2]. destruct (nth_error (f_params f) i) as [v|]; [|discriminate]. injection H1 as <-. eauto.
  - intros (v & -> & -> & H). auto.
Qed.

Lemma prologue_run sym rs ms vs : regs_ok rs -> 0 < rs Sp - 16 - size ->
  (forall i v x, nth_error (f_params f) i = Some v -> nth_error vs i = Some x -> rep (8 * size_of (v_ty v)) x (arg_at rs ms i)) ->
  let fp := rs Sp - 16 in
  exists rs' ms', exec_list sym (prologue f offs size) rs ms = Some (rs', ms') /\ regs_ok rs' /\ rs' Sp = fp - size /\ rs' Fp = fp /\
    (forall a, a < fp - size \/ rs Sp <= a -> ms' a = ms a) /\ le_load ms' (fp + 8) 8 = rs Ra /\ le_load ms' fp 8 = rs Fp /\ params_set f offs fp vs ms'.
Proof.
  intros RO SZ ARGS fp. pose proof (proj2 RO Sp) as BS. pose proof (frame_ok _ _ _ FR OK) as FF. destruct (ff_size _ _ _ FF) as [S0 _].
  set (E0 := Env (fun _ => 0) (fun _ => false) (fun _ _ _ _ _ => None)). set (W0 := World sym (fun _ => 0) (fun _ => 0) (fun _ => None) (fun _ _ _ => None)).
  unfold prologue. cbn [exec_list exec_straight Lab]. rewrite exec_list_app.
  destruct (push_run E0 W0 Ra rs ms 0 ltac:(reflexivity) RO ltac:(lia) ltac:(lia) ltac:(discriminate)) as (rs1 & ms1 & X1 & R1 & S1 & O1 & M1 & _ & L1). cbn [W0 w_sym] in X1. rewrite X1, exec_list_app.
  destruct (push_run E0 W0 Fp rs1 ms1 0 ltac:(reflexivity) R1 ltac:(lia) ltac:(lia) ltac:(discriminate)) as (rs2 & ms2 & X2 & R2 & S2 & O2 & M2 & _ & L2). cbn [W0 w_sym] in X2. rewrite X2. clear X1 X2.
  set (rs3 := setr rs2 Fp (wrap (rs2 Sp + 0))).
  assert (F3: wrap (rs2 Sp + 0) = fp) by (unfold wrap; rewrite mod_id by lia; lia). 
  assert (S3: rs3 Sp = fp) by (unfold rs3; rewrite setr_other by discriminate; lia).
  assert (R3: regs_ok rs3) by (apply regs_ok_upd; [exact R2|apply RvProofs.wrap_rng]).
  cbn [app exec_list exec_straight Mv]. fold rs3. rewrite exec_list_app. fold pairs.
  destruct (store_params_run sym pairs 0 rs3 ms2 R3) as (rs4 & ms4 & X4 & R4 & O4 & M4 & P4).
  { intros i t o N. apply nth_pairs in N as (v & V & -> & N). destruct (param_at i v V) as (o' & N' & A1 & A2 & A3). assert (o' = o) by congruence. subst o'.
    split; [rewrite Forall_forall in IP; apply IP; eapply nth_error_In; eauto|]. split; [exact A1|]. intros L. apply A1 in L. apply A2 in L. lia. }
  { intros i j x y N I J. destruct x as [t o], y as [t' o']. apply nth_pairs in I as (v & V & -> & I). apply nth_pairs in J as (w & V' & -> & J).
    apply (ff_apart _ _ _ FF (param_ix f + i) (param_ix f + j) v w o o'); [lia|rewrite nth_param; exact V|rewrite nth_param; exact V'|exact I|exact J]. }
  rewrite X4, exec_list_app. clear X4. rewrite S3 in M4, P4.
  assert (S4: rs4 Sp = fp) by (rewrite O4 by discriminate; exact S3).
  assert (F4: rs4 Fp = fp) by (rewrite O4 by discriminate; unfold rs3; rewrite setr_same by discriminate; exact F3).
  assert (X5: exists rs5, exec_list sym (if beyond (- size) then [ILi T0 (- size); IOp ADD Sp Sp T0] else [IAddi Sp Sp (- size)]) rs4 ms4 = Some (rs5, ms4) /\ regs_ok rs5 /\ rs5 Sp = fp - size /\ rs5 Fp = fp).
  { destruct (beyond (- size)).
    - set (ra := setr rs4 T0 (wrap (- size))). set (rb := setr ra Sp (wrap (rs4 Sp + wrap (- size)))). exists rb. split; [|split; [|split]].
      + cbn [exec_list exec_straight exec_op]. fold ra. change (ra T0) with (setr rs4 (T 0) (wrap (- size)) (T 0)). rewrite setr_same by discriminate.
        replace (ra Sp) with (rs4 Sp) by (unfold ra; rewrite setr_other by discriminate; reflexivity). fold rb. reflexivity.
      + apply regs_ok_upd; [apply regs_ok_upd; [exact R4|apply RvProofs.wrap_rng]|apply RvProofs.wrap_rng].
      + unfold rb. rewrite setr_same by discriminate. rewrite S4. unfold wrap. rewrite Z.add_mod_idemp_r by lia. rewrite mod_id; lia.
      + unfold rb, ra. rewrite !setr_other by discriminate. exact F4.
    - exists (setr rs4 Sp (wrap (rs4 Sp + - size))). split; [reflexivity|]. split; [apply regs_ok_upd; [exact R4|apply RvProofs.wrap_rng]|]. split.
      + rewrite setr_same by discriminate. rewrite S4. unfold wrap. rewrite mod_id; lia.
      + rewrite setr_other by discriminate. exact F4. }
  destruct X5 as (rs5 & X5 & R5 & S5 & F5). rewrite X5. clear X5.
  destruct bottom_at as (bo & BO & B1 & B2). rewrite (nth_error_nth offs (bottom_ix f) 0 BO).
  set (rs6 := setr rs5 T0 (wrap bo)). set (rs7 := setr rs6 T0 (wrap (wrap bo + rs5 Fp))).
  assert (W7: wrap (wrap bo + rs5 Fp) = fp + bo). { unfold wrap. rewrite Z.add_mod_idemp_l by lia. rewrite F5. rewrite mod_id; lia. }
  assert (R7: regs_ok rs7) by (apply regs_ok_upd; [apply regs_ok_upd; [exact R5|apply RvProofs.wrap_rng]|apply RvProofs.wrap_rng]).
  assert (O7: forall x, x <> T 0 -> rs7 x = rs5 x) by (intros x N; unfold rs7, rs6; rewrite !setr_other by exact N; reflexivity).
  exists rs7, (le_store ms4 (fp + bo) 8 (rs7 Sp)). split.
  { cbn [exec_list exec_straight exec_op]. fold rs6. change (rs6 T0) with (setr rs5 (T 0) (wrap bo) (T 0)). rewrite setr_same by discriminate.
    replace (rs6 Fp) with (rs5 Fp) by (unfold rs6; rewrite setr_other by discriminate; reflexivity). fold rs7.
    rewrite (ea_ok rs7 T0 0 8 (fp + bo)); [reflexivity| |lia]. unfold rs7. change T0 with (T 0). rewrite setr_same by discriminate. rewrite W7, Z.add_0_r. apply mod_id. lia. }
  split; [exact R7|]. split; [rewrite O7 by discriminate; exact S5|]. split; [rewrite O7 by discriminate; exact F5|].
  assert (OUT: forall a, a < fp - size \/ fp <= a -> le_store ms4 (fp + bo) 8 (rs7 Sp) a = ms2 a).
  { intros a Q. rewrite le_store_out by lia. apply M4. intros t o I L. apply In_nth_error in I as (i & I). apply nth_pairs in I as (v & V & -> & I). destruct (param_at i v V) as (o' & N' & A1 & A2 & A3). assert (o' = o) by congruence. subst o'. apply A1 in L. apply A2 in L. lia. }
  split; [intros a Q; rewrite OUT by lia; rewrite M2 by lia; apply M1; lia|].
  split. { rewrite <- L1. replace (rs Sp - 8) with (fp + 8) by lia. apply le_load_ext. intros k K. rewrite OUT by lia. rewrite M2 by lia. reflexivity. }
  split. { replace (rs Fp) with (rs1 Fp) by (apply O1; discriminate). rewrite <- L2. replace (rs1 Sp - 8) with fp by lia. apply le_load_ext. intros k K. rewrite OUT by lia. reflexivity. }
  intros i v x V X. destruct (param_at i v V) as (o & N & A1 & A2 & A3). rewrite (nth_error_nth offs _ 0 N). specialize (ARGS i v x V X). unfold arg_at, rep in ARGS.
  assert (SZ': size_of (v_ty v) = 1 \/ size_of (v_ty v) = 2 \/ size_of (v_ty v) = 4 \/ size_of (v_ty v) = 8) by (apply int_size; rewrite Forall_forall in IP; apply IP; eapply nth_error_In; eauto).
  destruct (Nat.ltb_spec i 8) as [I8|I8].
  - assert (PP: nth_error pairs i = Some (v_ty v, o)) by (apply nth_pairs; eauto).
    transitivity (le_load ms4 (fp + o) (Z.to_nat (size_of (v_ty v)))).
    + apply le_load_ext. intros k K. rewrite le_store_out; [reflexivity|]. pose proof (ff_apart _ _ _ FF (param_ix f + i)%nat (bottom_ix f) v alloca_var o bo ltac:(rewrite param_ix_eq; lia) ltac:(rewrite nth_param; exact V) nth_bottom N BO) as Q.
      unfold apart in Q. change (size_of (v_ty alloca_var)) with 8 in Q. lia.
    + rewrite (P4 i _ o PP ltac:(apply A1; lia)). rewrite <- ARGS. cbn [Nat.add]. f_equal. unfold rs3. rewrite setr_other by discriminate. rewrite O2 by discriminate. apply O1. discriminate.
  - pose proof (A3 ltac:(lia)) as OE. subst o. rewrite <- ARGS. replace (fp + (16 + 8 * (Z.of_nat i - 8))) with (rs Sp + 8 * (Z.of_nat i - 8)) by lia.
    transitivity (le_load ms (rs Sp + 8 * (Z.of_nat i - 8)) (Z.to_nat (size_of (v_ty v)))).
    + apply le_load_ext. intros k K. rewrite OUT by lia. rewrite M2 by lia. rewrite M1 by lia. reflexivity.
    + apply load_low. exact SZ'.
Qed.
End Fun.

Lemma in_frame_range f offs size fp a : frame f = Some (offs, size) -> Forall lvar_ok (f_locals f) -> f_variadic f = false -> Forall (fun v => int_repr (v_ty v) <> None) (f_params f) ->
  in_frame f offs fp a = true -> fp - size <= a < fp \/ fp + 16 <= a < fp + 16 + stack_args (length (f_params f)).
Proof.
  intros FR OK VA IP H. apply existsb_exists in H as (x & I & B). apply andb_prop in B as [B1 B2].
  assert (I2: In x (combine offs (map (fun v => size_of (v_ty v)) (f_locals f)))).
  { unfold objects in I. apply in_app_iff in I as [I|I]; [rewrite <- (firstn_skipn (bottom_ix f)); apply in_or_app; now left|rewrite <- (firstn_skipn (S (bottom_ix f))); apply in_or_app; now right]. }
  apply In_nth_error in I2 as (i & N). destruct x as [o s]. cbn [fst snd] in *. apply combine_nth_error in N as [N1 N2]. rewrite nth_error_map in N2. destruct (nth_error (f_locals f) i) as [v|] eqn:NV; [|discriminate]. injection N2 as <-.
  pose proof (frame_ok _ _ _ FR OK) as FF. destruct (ff_in _ _ _ FF i v o NV N1) as [Q|(Q1 & Q2 & _)]; [left; lia|right].
  set (j := (i - param_ix f)%nat). assert (IJ: i = (param_ix f + j)%nat) by (rewrite (param_ix_eq f VA) in *; unfold j; rewrite (param_ix_eq f VA); lia).
  rewrite IJ in NV, N1. rewrite (nth_param f VA) in NV. destruct (param_at f offs size FR OK VA IP j v NV) as (o' & N' & A1 & A2 & A3). assert (o' = o) by congruence. subst o'.
  assert (J8: (8 <= j)%nat) by (destruct (Nat.lt_ge_cases j 8) as [L|L]; [apply A1 in L; lia|exact L]). specialize (A3 J8).
  assert (JL: (j < length (f_params f))%nat) by (apply nth_error_Some; congruence).
  assert (SZ: size_of (v_ty v) <= 8). { rewrite Forall_forall in IP. pose proof (int_size _ (IP v (nth_error_In _ _ NV))). lia. }
  unfold stack_args. lia.
Qed.

Lemma code_at_len p k c : code_at p k c -> (k + length c <= length p)%nat.
Proof. intros (p1 & p2 & -> & <-). rewrite !app_length. lia. Qed.

Lemma epilogue_run sym rs ms fp0 ra0 : regs_ok rs -> rs Fp + 16 < 2 ^ 64 -> le_load ms (rs Fp) 8 = fp0 -> le_load ms (rs Fp + 8) 8 = ra0 ->
  exists rs', exec_list sym epilogue rs ms = Some (rs', ms) /\ regs_ok rs' /\ rs' Sp = rs Fp + 16 /\ rs' Fp = fp0 /\ rs' Ra = ra0 /\ rs' (A 0) = rs (A 0).
Proof.
  intros RO L F R. pose proof (proj2 RO Fp) as BF. set (W0 := World sym (fun _ => 0) (fun _ => 0) (fun _ => None) (fun _ _ _ => None)).
  unfold epilogue. cbn [exec_list exec_straight Mv]. set (rs1 := setr rs Sp (wrap (rs Fp + 0))).
  assert (R1: regs_ok rs1) by (apply regs_ok_upd; [exact RO|apply RvProofs.wrap_rng]).
  assert (S1: rs1 Sp = rs Fp) by (unfold rs1; rewrite setr_same by discriminate; unfold wrap; rewrite Z.add_0_r; apply mod_id; lia).
  rewrite exec_list_app.
  destruct (pop_run W0 Fp rs1 ms R1 ltac:(lia) ltac:(discriminate) ltac:(discriminate)) as (rs2 & X2 & R2 & S2 & O2 & L2). cbn [W0 w_sym] in X2. rewrite X2.
  assert (S2': rs2 Sp = rs Fp + 8) by (rewrite S2, S1; unfold wrap; apply mod_id; lia).
  destruct (pop_run W0 Ra rs2 ms R2 ltac:(lia) ltac:(discriminate) ltac:(discriminate)) as (rs3 & X3 & R3 & S3 & O3 & L3). cbn [W0 w_sym] in X3. rewrite X3.
  exists rs3. split; [reflexivity|]. split; [exact R3|]. split; [rewrite S3, S2'; unfold wrap; rewrite mod_id; lia|].
  split; [rewrite O3 by discriminate; rewrite L2, S1; exact F|]. split; [rewrite L3, S2'; exact R|]. rewrite O3 by discriminate. rewrite O2 by discriminate. unfold rs1. now rewrite setr_other by discriminate.
Qed.

Section Prog.
Variables (W : world) (addr : bytes -> Z) (fs : list func) (uses : node -> nat) (u0 : Z) (gs0 : gst) (p : prog) (slots cost : Z).
Hypothesis CP : compile_program uses fs u0 gs0 = Some p.
Hypothesis ND : NoDup (labels p).
Hypothesis FO : Forall (fun_ok slots cost) fs.
Hypothesis LD : loaded W addr p.
Hypothesis SL : 0 <= slots.

Lemma fun_runs n : (forall E fp, calls_are addr fs n E -> call_ok E W fp (Z.of_nat n * cost) p) ->
  forall V f vs m v m' k rs ms lo kr, In f fs -> returns addr fs (S n) V f vs m v m' -> nth_error p k = Some (ILabel (f_name f)) ->
  regs_ok rs -> rs Ra = w_at W kr -> (kr <= length p)%nat ->
  (forall i t x, nth_error (f_params f) i = Some t -> nth_error vs i = Some x -> rep (8 * size_of (v_ty t)) x (arg_at rs ms i)) ->
  agree V m ms -> Z.of_nat (S n) * cost <= lo <= rs Sp -> (forall a, lo - Z.of_nat (S n) * cost <= a < rs Sp -> V a = false) ->
  rs Sp + stack_args (length (f_params f)) < 2 ^ 64 -> (forall a, rs Sp <= a < rs Sp + stack_args (length (f_params f)) -> V a = false) ->
  exists rs' ms', star W p (St k rs ms) (St kr rs' ms') /\ rep (ret_bits (f_ret f)) v (rs' (A 0)) /\ regs_ok rs' /\ rs' Sp = rs Sp /\ rs' Fp = rs Fp /\
    agree V m' ms' /\ forall a, V a = false -> rs Sp + stack_args (length (f_params f)) <= a -> ms' a = ms a.
Proof.
  intros IH V f vs m v m' k rs ms lo kr IN RET NK RO RA KR ARGS AG LO FREE TOP SARG.
  rewrite Forall_forall in FO. destruct (FO f IN) as [FB FL FV FP FC].
  destruct (program_at _ _ _ _ _ CP f IN) as (u1 & gs1 & c & u2 & gs2 & k' & CF & CA).
  destruct (compile_inv _ _ _ _ _ _ _ CF) as (body & offs & size & cb & g1 & g2 & PB & FR & GB & _ & _ & VA & ->).
  cbn [returns] in RET. destruct RET as (offs' & size' & FR' & RET). rewrite FR in FR'. injection FR' as <- <-. specialize (FC _ _ FR).
  assert (KK: k = k'). { pose proof (ld_fun _ _ _ LD (f_name f) k NK) as Q1. unfold prologue in CA. cbn [app] in CA. apply code_at_cons in CA as [Q2 _]. pose proof (ld_fun _ _ _ LD (f_name f) k' Q2). congruence. }
  subst k'. replace (Z.of_nat (S n) * cost) with (Z.of_nat n * cost + cost) in * by lia.
  pose proof (frame_ok _ _ _ FR FV) as FF. destruct (ff_size _ _ _ FF) as [S0 _].
  assert (R0: 0 <= Z.of_nat n * cost) by (apply Z.mul_nonneg_nonneg; lia). set (room := Z.of_nat n * cost) in *. set (fp := rs Sp - 16).
  assert (PL: placed V f size fp). { split; [lia|]. split; [lia|]. intros a Q. destruct (Z_lt_le_dec a (rs Sp)); [apply FREE; lia|apply SARG; lia]. }
  destruct (RET fp PL) as (call & CALL & BODY).
  destruct (prologue_run f offs size FR FV VA FP (w_sym W) rs ms vs RO ltac:(lia) ARGS) as (rs1 & ms1 & X1 & R1 & S1 & F1 & M1 & LRA & LFP & PS). fold fp in S1, F1, M1, LRA, LFP, PS.
  destruct (BODY ms1) as (cf & m1 & ST & FRES & AG1); [intros a Va; rewrite M1; [now apply AG|]; destruct (Z_lt_le_dec a (fp - size)); [now left|right]; destruct (Z_lt_le_dec a (rs Sp)); [rewrite FREE in Va by lia; discriminate|lia]|exact PS|].
  set (E := fun_env addr V f offs fp call) in *.
  apply code_at_app in CA as [CA1 CA]. apply code_at_app in CA as [CA2 CA]. apply code_at_app in CA as [CA3 CA4]. apply code_at_cons in CA4 as [NR CA4]. apply code_at_app in CA4 as [CA4 CA5]. apply code_at_cons in CA5 as [NRET _].
  set (s1 := St (k + length (prologue f offs size)) rs1 ms1).
  assert (STAR1: star W p (St k rs ms) s1) by (apply (run_straight W p (St k rs ms)); [exact CA1|exact X1]).
  assert (HS: setting E W (fun k => nth k offs 0) fp).
  { constructor; [|intros s; apply (ld_sym _ _ _ LD)|reflexivity]. intros x. destruct x as [i|s]; cbn; [apply Z.mod_pos_bound; lia|apply (ld_sym _ _ _ LD)]. }
  assert (HL: linked E W fp room p) by (split; [exact ND|apply IH; exact CALL]).
  assert (INV: forall a, e_valid E a = true -> V a = true \/ fp - size <= a < fp \/ fp + 16 <= a < fp + 16 + stack_args (length (f_params f))).
  { intros a Va. cbn in Va. unfold fun_valid in Va. apply orb_prop in Va as [Va|Va]; [now left|right]. eapply in_frame_range; eauto. }
  assert (FS: free_stack E room (fp - size - 8 * slots) s1).
  { split; [lia|]. cbn [s1 rg]. rewrite S1. intros a Q. destruct (e_valid E a) eqn:Va; [|reflexivity]. apply INV in Va as [Va|Va]; [rewrite FREE in Va by lia; discriminate|lia]. }
  assert (SL1: fp - size - 8 * slots + 8 * slots <= rg s1 Sp) by (cbn [s1 rg]; lia).
  assert (MT: matches E fp ms1 s1) by (split; [exact R1|]; split; [exact F1|]; intros a _; reflexivity).
  set (pret := (k + length (prologue f offs size) + length cb + length (main_zero f))%nat) in *.
  assert (END: exists rs2 ms2, star W p s1 (St (S pret) rs2 ms2) /\ regs_ok rs2 /\ rs2 Fp = fp /\ (forall a, e_valid E a = true -> ms2 a = m1 a) /\ (forall a, e_valid E a = false -> fp - size <= a -> ms2 a = ms1 a) /\ rep (ret_bits (f_ret f)) v (rs2 (A 0))).
  { assert (LABEL: forall rs2 ms2, star W p (St pret rs2 ms2) (St (S pret) rs2 ms2)).
    { intros rs2 ms2. econstructor; [|constructor]. unfold step. cbn [pc]. rewrite NR. reflexivity. }
    assert (FIN: forall m2, ssteps E (f_ret f) (f_body f) (Run (f_body f) KStop ms1) (Finished m2) -> exists rs2 ms2, star W p s1 (St (S pret) rs2 ms2) /\ regs_ok rs2 /\ rs2 Fp = fp /\ (forall a, e_valid E a = true -> ms2 a = m2 a) /\ (forall a, e_valid E a = false -> fp - size <= a -> ms2 a = ms1 a) /\ (f_name f = bs "main" -> rs2 (A 0) = 0)).
    { intros m2 H. destruct (whole_finishes E W _ fp room slots (f_ret f) (f_name f) p uses (f_body f) u1 u2 body g1 g2 cb pret s1 _ ms1 HS HL FS SL1 PB GB FB FL CA2 NR MT m2 H) as (s2 & ST2 & PC2 & (Q1 & Q2 & Q3) & (Q4 & Q5)).
      destruct s2 as [pc2 rs2 ms2]. cbn [pc rg mm s1] in *. subst pc2.
      set (rs3 := if beq (f_name f) (bs "main") then setr rs2 (A 0) (wrap 0) else rs2). exists rs3, ms2.
      assert (STZ: star W p (St (k + length (prologue f offs size) + length cb) rs2 ms2) (St pret rs3 ms2)).
      { apply (run_straight W p (St (k + length (prologue f offs size) + length cb) rs2 ms2) (main_zero f)); [exact CA3|]. unfold main_zero, rs3. destruct (beq (f_name f) (bs "main")); reflexivity. }
      split; [eapply star_trans; [exact ST2|]; eapply star_trans; [exact STZ|apply LABEL]|].
      split; [unfold rs3; destruct (beq _ _); [apply regs_ok_upd; [exact Q1|apply RvProofs.wrap_rng]|exact Q1]|].
      split; [unfold rs3; destruct (beq _ _); [rewrite setr_other by discriminate; exact Q2|exact Q2]|].
      split; [exact Q3|]. split; [intros a Va La; apply Q5; [exact Va|lia]|].
      intros MN. unfold rs3. rewrite MN. change (beq (bs "main") (bs "main")) with true. cbn iota. now rewrite setr_same by discriminate. }
    assert (RETD: forall w m2, ssteps E (f_ret f) (f_body f) (Run (f_body f) KStop ms1) (Returned w m2) -> exists rs2 ms2, star W p s1 (St (S pret) rs2 ms2) /\ regs_ok rs2 /\ rs2 Fp = fp /\ (forall a, e_valid E a = true -> ms2 a = m2 a) /\ (forall a, e_valid E a = false -> fp - size <= a -> ms2 a = ms1 a) /\ forall z, w = Some z -> rep (ret_bits (f_ret f)) z (rs2 (A 0))).
    { intros w m2 H. destruct (whole_returns E W _ fp room slots (f_ret f) (f_name f) p uses (f_body f) u1 u2 body g1 g2 cb pret s1 _ ms1 HS HL FS SL1 PB GB FB FL CA2 NR MT w m2 H) as (s2 & ST2 & PC2 & (Q1 & Q2 & Q3) & (Q4 & Q5) & Q6).
      destruct s2 as [pc2 rs2 ms2]. cbn [pc rg mm s1] in *. subst pc2. exists rs2, ms2.
      split; [eapply star_trans; [exact ST2|apply LABEL]|]. split; [exact Q1|]. split; [exact Q2|]. split; [exact Q3|]. split; [intros a Va La; apply Q5; [exact Va|lia]|exact Q6]. }
    inversion FRES; subst.
    - destruct (RETD _ _ ST) as (rs2 & ms2 & Y1 & Y2 & Y3 & Y4 & Y5 & Y6). exists rs2, ms2. auto 10.
    - destruct (RETD _ _ ST) as (rs2 & ms2 & Y1 & Y2 & Y3 & Y4 & Y5 & Y6). exists rs2, ms2. match goal with Q : f_ret f = TVoid |- _ => rewrite Q end. repeat (split; auto). apply rep_0.
    - destruct (FIN _ ST) as (rs2 & ms2 & Y1 & Y2 & Y3 & Y4 & Y5 & Y6). exists rs2, ms2. match goal with Q : f_ret f = TVoid |- _ => rewrite Q end. repeat (split; auto). apply rep_0.
    - destruct (FIN _ ST) as (rs2 & ms2 & Y1 & Y2 & Y3 & Y4 & Y5 & Y6). exists rs2, ms2. repeat (split; auto). rewrite Y6 by auto. reflexivity. }
  destruct END as (rs2 & ms2 & ST2 & R2 & F2 & V2 & A2 & RV).
  assert (NV: forall a, fp <= a < fp + 16 -> e_valid E a = false).
  { intros a Q. destruct (e_valid E a) eqn:Va; [|reflexivity]. apply INV in Va as [Va|Va]; [rewrite FREE in Va by lia; discriminate|lia]. }
  assert (LFP2: le_load ms2 fp 8 = rs Fp) by (rewrite <- LFP; apply le_load_ext; intros i I; rewrite A2; [reflexivity|apply NV; lia|lia]).
  assert (LRA2: le_load ms2 (fp + 8) 8 = rs Ra) by (rewrite <- LRA; apply le_load_ext; intros i I; rewrite A2; [reflexivity|apply NV; lia|lia]).
  pose proof (proj2 RO Sp) as BS.
  destruct (epilogue_run (w_sym W) rs2 ms2 (rs Fp) (rs Ra) R2) as (rs3 & X3 & R3 & S3 & F3 & RA3 & A03); [rewrite F2; lia|rewrite F2; exact LFP2|rewrite F2; exact LRA2|].
  exists rs3, ms2. split.
  { eapply star_trans; [exact STAR1|]. eapply star_trans; [exact ST2|]. eapply star_trans; [apply (run_straight W p (St (S pret) rs2 ms2) epilogue); [exact CA4|exact X3]|].
    econstructor; [|constructor]. unfold step. cbn [pc rg mm]. rewrite NRET. rewrite RA3, RA. rewrite (proj2 (ld_at _ _ _ LD kr KR)). reflexivity. }
  split; [rewrite A03; exact RV|]. split; [exact R3|]. split; [rewrite S3, F2; lia|]. split; [exact F3|]. split.
  - intros a Va. rewrite <- AG1 by exact Va. symmetry. apply V2. cbn. unfold fun_valid. now rewrite Va.
  - intros a Va La. assert (0 <= stack_args (length (f_params f))) by (unfold stack_args; lia). assert (e_valid E a = false). { destruct (e_valid E a) eqn:Q; [|reflexivity]. apply INV in Q as [Q|Q]; [congruence|lia]. } rewrite A2 by (auto; lia). apply M1. lia.
Qed.

Lemma calls_ok n : forall E fp, calls_are addr fs n E -> call_ok E W fp (Z.of_nat n * cost) p.
Proof.
  induction n as [|n IH]; intros E fp CALLS k r fa tys t vs m v m' rs ms lo NK RR EC LEN ARGS RO FPV SM FS LS TOP SARG.
  - destruct (CALLS _ _ _ _ _ _ _ EC) as (g & _ & _ & _ & _ & _ & []).
  - destruct (CALLS _ _ _ _ _ _ _ EC) as (g & IN & AD & -> & -> & LV & RET).
    destruct (program_at _ _ _ _ _ CP g IN) as (u1 & gs1 & c & u2 & gs2 & k' & CF & CA).
    destruct (compile_inv _ _ _ _ _ _ _ CF) as (body & offs & size & cb & g1 & g2 & _ & _ & _ & _ & _ & _ & ->).
    unfold prologue in CA. cbn [app] in CA. apply code_at_cons in CA as [NG _]. change (Lab (LFun (f_name g))) with (ILabel (f_name g)) in NG.
    pose proof (ld_fun _ _ _ LD _ _ NG) as WC. rewrite AD in WC.
    assert (KR: (S k <= length p)%nat) by (assert (k < length p)%nat by (apply nth_error_Some; congruence); lia).
    set (rs1 := setr rs Ra (w_at W (S k))). assert (R1: regs_ok rs1) by (apply regs_ok_upd; [exact RO|apply (ld_at _ _ _ LD); exact KR]).
    assert (O1: forall x, x <> Ra -> rs1 x = rs x) by (intros x N; unfold rs1; now apply setr_other).
    rewrite map_length in LV. destruct FS as [FS1 FS2]. cbn [rg] in FS2.
    destruct (fun_runs n IH (e_valid E) g vs m v m' k' rs1 ms lo (S k) IN RET NG R1) as (rs' & ms' & ST & RV & R' & S' & F' & AG' & OUT).
    + unfold rs1. now rewrite setr_same by discriminate.
    + exact KR.
    + intros i q x Q X. assert (arg_at rs1 ms i = arg_at rs ms i) as ->. { unfold arg_at. rewrite !O1 by discriminate. reflexivity. }
      apply (ARGS i (v_ty q) x); [|exact X]. rewrite nth_error_map, Q. reflexivity.
    + intros a Va. symmetry. now apply SM.
    + rewrite O1 by discriminate. lia.
    + rewrite O1 by discriminate. exact FS2.
    + rewrite O1 by discriminate. unfold stack_args. rewrite <- LV. exact TOP.
    + rewrite O1 by discriminate. unfold stack_args. rewrite <- LV. exact SARG.
    + rewrite !O1 in S', F', OUT by discriminate. exists rs', ms'. split.
      { econstructor; [|exact ST]. unfold step. cbn [pc rg mm]. rewrite NK, RR, WC. reflexivity. }
      split; [exact RV|]. split; [exact R'|]. split; [exact S'|]. split; [exact F'|]. split; [intros a Va; symmetry; now apply AG'|].
      intros a Va La. apply OUT; [exact Va|]. unfold stack_args. rewrite <- LV. exact La.
Qed.
End Prog.
