(** Properties C45 (a whole program) and C63. *)
From Verif Require Import Base TypeModel LayoutModel IntArith NodeModel NodeProofs ValSpec NodeSpec RvSpec GenModel GenSpec RvProofs GenRun StmtSpec StmtModel StmtProps FrameModel FrameSpec FunSpec FunLabels FunProofs.
From Coq Require Import ZifyBool ZifyNat.
Local Notation length := List.length.
Local Arguments Z.mul : simpl never.
Local Arguments Z.add : simpl never.
Local Arguments Z.sub : simpl never.

(** ** C45 *)
(** All labels in the code of all functions of a compilation are distinct. *)
Theorem C45_program_labels uses fs u gs p : compile_program uses fs u gs = Some p -> 0 <= u -> 0 <= g_cnt gs ->
  Forall (fun f => dot_free (f_name f)) fs -> NoDup (map f_name fs) -> NoDup (labels p).
Proof. intros H U C D N. exact (proj1 (program_labels uses fs u gs p H U C D N)). Qed.
Print Assumptions C45_program_labels.

(** ** C63 *)
(** A compiled function, entered according to the calling convention, returns what its body
    returns, whatever functions of the program it calls, recursion included, if there is
    enough stack for the depth of the calls. *)
Theorem C63_function uses fs u gs p W addr slots cost n V f vs m v m' kr s :
  compile_program uses fs u gs = Some p -> 0 <= u -> 0 <= g_cnt gs -> Forall (fun f => dot_free (f_name f)) fs -> NoDup (map f_name fs) ->
  Forall (fun_ok slots cost) fs -> loaded W addr p -> 0 <= slots -> In f fs ->
  returns addr fs n V f vs m v m' -> entered W p V f vs m (Z.of_nat n * cost) kr s ->
  exists s', star W p s s' /\ left_with V f v m' kr s s'.
Proof.
  intros CP U0 C0 DF NF FO LD SL IN RET [E1 E2 [E3 E4] E5 E6 (E7 & E8 & E9)]. destruct n as [|n]; [destruct RET|]. destruct s as [k rs ms]. cbn [pc rg mm] in *.
  pose proof (C45_program_labels _ _ _ _ _ CP U0 C0 DF NF) as ND.
  assert (SA: 0 <= stack_args (length (f_params f))) by (unfold stack_args; lia). pose proof (proj2 E2 Sp) as BS.
  assert (C1: 0 <= Z.of_nat (S n) * cost).
  { cbn [returns] in RET. destruct RET as (offs & size & FR & _). rewrite Forall_forall in FO. destruct (FO f IN) as [_ _ FV _ FC]. specialize (FC _ _ FR).
    destruct (FrameProofs.ff_size _ _ _ (FrameProofs.frame_ok _ _ _ FR FV)) as [S0 _]. apply Z.mul_nonneg_nonneg; lia. }
  destruct (fun_runs W addr fs uses u gs p slots cost CP ND FO LD SL n (calls_ok W addr fs uses u gs p slots cost CP ND FO LD SL n) V f vs m v m' k rs ms (rs Sp) kr IN RET E1 E2 E3 E4 E5 E6) as (rs' & ms' & X1 & X2 & X3 & X4 & X5 & X6 & X7).
  - lia.
  - intros a Q. apply E9. lia.
  - exact E8.
  - intros a Q. apply E9. lia.
  - exists (St kr rs' ms'). split; [exact X1|]. constructor; cbn [pc rg mm]; auto.
Qed.
Print Assumptions C63_function.
(** Seen from a caller: the calls of the program's functions behave as C38 and C42 assume. *)
Theorem C63_calls uses fs u gs p W addr slots cost n E fp :
  compile_program uses fs u gs = Some p -> 0 <= u -> 0 <= g_cnt gs -> Forall (fun f => dot_free (f_name f)) fs -> NoDup (map f_name fs) ->
  Forall (fun_ok slots cost) fs -> loaded W addr p -> 0 <= slots -> calls_are addr fs n E -> linked E W fp (Z.of_nat n * cost) p.
Proof.
  intros CP U0 C0 DF NF FO LD SL CA. pose proof (C45_program_labels _ _ _ _ _ CP U0 C0 DF NF) as ND. split; [exact ND|]. exact (calls_ok W addr fs uses u gs p slots cost CP ND FO LD SL n E fp CA).
Qed.
Print Assumptions C63_calls.

(** An example: long f(long n) { if (n) return n + f(n - 1); return 0; } *)
Definition tl := TLong false.
Definition ex_n : node := NVar (VLocal 1) tl.
Definition ex_f : node := NVar (VGlobal (bs "f")) (TFunc tl).
Definition ex_sum : stmt :=
  SSeq (SIf ex_n (SReturn (Some (NBin Add tl ex_n (NCall ex_f [NBin Sub tl ex_n (NNum tl 1)] tl)))) SSkip) (SReturn (Some (NNum tl 0))).
Definition sum_fun : func := Func (bs "f") tl [plain tl] false [] ex_sum.
Lemma sum_frame : frame sum_fun = Some ([-8; -16], 16). Proof. vm_compute. reflexivity. Qed.
Lemma long_range z : - 2 ^ 63 <= z < 2 ^ 63 -> fit tl z = Some z. Proof. intros R. unfold fit, tl. cbn [int_repr negb]. replace (in_range true 64 z) with true; [reflexivity|]. unfold in_range. lia. Qed.
Section Ex.
Variable addr : bytes -> Z.
Variables (V : Z -> bool) (fp : Z) (call : Z -> list ty -> ty -> list Z -> mem -> option (Z * mem)) (m0 : mem) (n : Z).
Hypothesis PL : placed V sum_fun 16 fp.
Hypothesis PS : params_set sum_fun [-8; -16] fp [n] m0.
Hypothesis NR : 0 <= n <= 1000.
Local Notation E := (fun_env addr V sum_fun [-8; -16] fp call).
Lemma ex_n_value : ev E false ex_n m0 = Some (n, m0).
Proof.
  destruct PL as (P1 & P2 & _). unfold stack_args in P2. cbn [f_params sum_fun length] in P2.
  pose proof (PS 0%nat (plain tl) n eq_refl eq_refl) as P. cbn [param_ix bottom_ix sum_fun f_vars f_variadic length Nat.add nth v_ty plain] in P. change (size_of tl) with 8 in P.
  cbn [ev ex_n]. assert (A: e_addr E (VLocal 1) = fp - 16) by (cbn; rewrite Z.mod_small; lia). rewrite A. unfold load_val.
  assert (ACC: accessible (e_valid E) (fp - 16) (size_of (TLong false)) = true).
  { unfold accessible. change (size_of (TLong false)) with 8. replace (0 <=? fp - 16) with true by lia. replace (fp - 16 + 8 <=? 2 ^ 64) with true by lia. cbn [andb]. apply forallb_forall. intros i I. apply in_seq in I. change (Z.to_nat 8) with 8%nat in I.
    cbn [e_valid fun_env]. unfold fun_valid, in_frame. apply orb_true_iff. right. apply existsb_exists. exists (-16, 8). split; [left; reflexivity|]. cbn [fst snd]. lia. }
  unfold tl. change (is_aggregate (TLong false)) with false. cbv iota. rewrite ACC. change (size_of (TLong false)) with 8. replace (fp - 16) with (fp + -16) by lia. rewrite P. unfold of_bytes. cbn [int_repr negb]. f_equal. f_equal.
  change (8 * 8) with 64. rewrite sx_mod by lia. apply sx_id; lia.
Qed.
End Ex.
Definition ex_call (a n v : Z) (fa : Z) (tys : list ty) (t : ty) (vs : list Z) (m : mem) : option (Z * mem) :=
  match tys, t, vs with
  | [TLong false], TLong false, [x] => if (fa =? a) && (x =? n) then Some (v, m) else None
  | _, _, _ => None
  end.
Lemma ex_call_inv a n v fa tys t vs m w m' : ex_call a n v fa tys t vs m = Some (w, m') -> fa = a /\ tys = [tl] /\ t = tl /\ vs = [n] /\ w = v /\ m' = m.
Proof.
  unfold ex_call. intros H. repeat match type of H with (match ?x with _ => _ end) = _ => destruct x eqn:?; try discriminate H end.
  injection H as <- <-. match goal with B : _ && _ = true |- _ => apply andb_prop in B as [B1 B2]; apply Z.eqb_eq in B1, B2 end. subst. auto 10.
Qed.
Lemma sum_returns addr k : Z.of_nat k <= 1000 -> forall V m, exists v, 2 * v = Z.of_nat k * (Z.of_nat k + 1) /\ returns addr [sum_fun] (S k) V sum_fun [Z.of_nat k] m v m.
Proof.
  induction k as [|k IH]; intros KL V m.
  - exists 0. split; [reflexivity|]. cbn [returns]. exists [-8; -16], 16. split; [exact sum_frame|]. intros fp PL. exists (fun _ _ _ _ _ => None). split; [discriminate|].
    intros m0 AG PS. exists (Returned (Some 0) m0), m0. split; [|split; [constructor|intros a Va; symmetry; now apply AG]].
    pose proof (ex_n_value addr V fp (fun _ _ _ _ _ => None) m0 0 PL PS ltac:(lia)) as EN.
    eapply ssteps_step; [reflexivity|]. eapply ssteps_step.
    { cbn [sstep]. unfold test. change (is_scalar (ntype ex_n)) with true. cbv iota. rewrite EN. cbv iota. change (truth 0) with false. cbv iota. reflexivity. }
    eapply ssteps_step; [reflexivity|]. eapply ssteps_step; [reflexivity|]. constructor.
  - destruct (IH ltac:(lia) V m) as (v & V2 & _). set (n := Z.of_nat (S k)) in *. assert (NK: n = Z.of_nat k + 1) by (unfold n; lia). clearbody n. exists (n + v). split; [nia|]. cbn [returns]. exists [-8; -16], 16. split; [exact sum_frame|]. intros fp PL.
    exists (ex_call (addr (bs "f")) (n - 1) v). split.
    { intros fa tys t vs m1 w m2 H. apply ex_call_inv in H as (-> & -> & -> & -> & -> & ->). exists sum_fun. split; [now left|]. split; [reflexivity|]. split; [reflexivity|]. split; [reflexivity|]. split; [reflexivity|].
      destruct (IH ltac:(lia) (fun_valid V sum_fun [-8; -16] fp) m1) as (v' & V' & R). assert (v' = v) by (clear - V2 V'; nia). subst v'. replace (n - 1) with (Z.of_nat k) by lia. exact R. }
    intros m0 AG PS. exists (Returned (Some (n + v)) m0), m0. split; [|split; [constructor|intros a Va; symmetry; now apply AG]].
    set (call := ex_call (addr (bs "f")) (n - 1) v).
    pose proof (ex_n_value addr V fp call m0 n PL PS ltac:(lia)) as EN. set (E := fun_env addr V sum_fun [-8; -16] fp call) in *.
    assert (EC: ev E false (NCall ex_f [NBin Sub tl ex_n (NNum tl 1)] tl) m0 = Some (v, m0)).
    { cbn [ev]. change (val_of tl 1) with true. cbv iota. fold (ev E false ex_n m0). rewrite EN. cbn [bin_val]. rewrite long_range by lia.
      assert (EF: ev E false ex_f m0 = Some (addr (bs "f"), m0)) by reflexivity. rewrite EF. cbn [e_call E fun_env call ex_call map ntype tl e_addr]. rewrite !Z.eqb_refl. cbn [andb].
      replace (val_of tl v) with true; [reflexivity|]. unfold val_of, tl. cbn [int_repr negb]. unfold in_range. nia. }
    eapply ssteps_step; [reflexivity|]. eapply ssteps_step.
    { cbn [sstep]. unfold test. change (is_scalar (ntype ex_n)) with true. cbv iota. rewrite EN. cbv iota. unfold truth. replace (n =? 0) with false by lia. cbn [negb]. reflexivity. }
    eapply ssteps_step; [|constructor]. cbn [sstep]. 
    assert (EB: ev E false (NBin Add tl ex_n (NCall ex_f [NBin Sub tl ex_n (NNum tl 1)] tl)) m0 = Some (n + v, m0)).
    { change (ev E false (NBin Add tl ex_n (NCall ex_f [NBin Sub tl ex_n (NNum tl 1)] tl)) m0) with (let* (y, m) := ev E false (NCall ex_f [NBin Sub tl ex_n (NNum tl 1)] tl) m0 in let* (x, m) := ev E false ex_n m in let* v := fit tl (x + y) in Some (v, m)).
      rewrite EC, EN. rewrite long_range by nia. reflexivity. }
    set (e := NBin Add tl ex_n (NCall ex_f [NBin Sub tl ex_n (NNum tl 1)] tl)) in *.
    change (ev E false (NCast (f_ret sum_fun) e) m0) with (let* (v, m) := ev E false e m0 in Some (sx 64 v, m)). rewrite EB. cbv iota. rewrite sx_id by nia. reflexivity.
Qed.
(** A program in memory: four bytes for an instruction, from 4096 on *)
Definition image_addr (p : prog) (s : bytes) : Z := match RvSpec.find_label p s with Some k => 4096 + 4 * Z.of_nat k | None => 0 end.
Definition image (p : prog) : world :=
  World (image_addr p) (image_addr p) (fun k => 4096 + 4 * Z.of_nat k)
    (fun a => if (4096 <=? a) && (a <=? 4096 + 4 * Z.of_nat (length p)) && ((a - 4096) mod 4 =? 0) then Some (Z.to_nat ((a - 4096) / 4)) else None) (fun _ _ _ => None).
Lemma image_at p k : (k <= length p)%nat -> w_code (image p) (4096 + 4 * Z.of_nat k) = Some k.
Proof.
  intros L. cbn [w_code image]. replace (4096 + 4 * Z.of_nat k - 4096) with (Z.of_nat k * 4) by lia. rewrite Z.mod_mul, Z.div_mul by lia.
  replace ((4096 <=? 4096 + 4 * Z.of_nat k) && (4096 + 4 * Z.of_nat k <=? 4096 + 4 * Z.of_nat (length p)) && (0 =? 0)) with true by lia. f_equal. lia.
Qed.
Lemma find_label_len p s k : RvSpec.find_label p s = Some k -> (k < length p)%nat.
Proof.
  revert k. induction p as [|i p IH]; intros k H; [discriminate|]. cbn [RvSpec.find_label] in H. cbn [length].
  assert (X: option_map S (RvSpec.find_label p s) = Some k -> (k < S (length p))%nat) by (intros Q; destruct (RvSpec.find_label p s) as [j|]; [|discriminate]; injection Q as <-; specialize (IH j eq_refl); lia).
  destruct i; try (apply X; exact H). destruct (label_eqb s l); [injection H as <-; lia|apply X; exact H].
Qed.
Lemma image_loaded p : NoDup (labels p) -> Z.of_nat (length p) < 2 ^ 60 -> loaded (image p) (image_addr p) p.
Proof.
  intros ND L. constructor.
  - intros s. split; [reflexivity|]. unfold image_addr. destruct (RvSpec.find_label p s) as [k|] eqn:F; [apply find_label_len in F; lia|lia].
  - intros k K. split; [cbn; lia|]. now apply image_at.
  - intros s k K. unfold image_addr. rewrite (find_label_at p k s ND K). apply image_at. assert (k < length p)%nat by (apply nth_error_Some; congruence). lia.
Qed.
Definition ex_code : prog := match compile_program (fun _ => O) [sum_fun] 0 (GS 0 1) with Some p => p | None => [] end.
Definition ex_state : state := St 0 (fun r => match r with Ra => 4096 + 4 * Z.of_nat (length ex_code) | Sp => 2 ^ 20 | A 0 => 100 | _ => 0 end) (fun _ => 0).
(** f(100) = 5050 *)
Example C63_nonvacuous : compile_program (fun _ => O) [sum_fun] 0 (GS 0 1) = Some ex_code /\ (30 < length ex_code)%nat /\ Forall (fun_ok 4 80) [sum_fun] /\ loaded (image ex_code) (image_addr ex_code) ex_code /\
  returns (image_addr ex_code) [sum_fun] 101 (fun _ => false) sum_fun [100] (fun _ => 0) 5050 (fun _ => 0) /\
  entered (image ex_code) ex_code (fun _ => false) sum_fun [100] (fun _ => 0) (101 * 80) (length ex_code) ex_state.
Proof.
  split; [vm_compute; reflexivity|]. split; [vm_compute; repeat constructor|]. split.
  { constructor; [|constructor]. constructor.
    - vm_compute. reflexivity.
    - constructor.
    - repeat constructor; vm_compute; congruence.
    - repeat constructor; discriminate.
    - intros offs size H. rewrite sum_frame in H. injection H as <- <-. lia. }
  split; [apply image_loaded; [apply nodupb_ok; vm_compute; reflexivity|vm_compute; reflexivity]|]. split.
  { destruct (sum_returns (image_addr ex_code) 100 ltac:(lia) (fun _ => false) (fun _ => 0)) as (v & V2 & R). change (Z.of_nat 100) with 100 in *. assert (v = 5050) by lia. subst v. exact R. }
  constructor.
  - vm_compute. reflexivity.
  - split; [reflexivity|]. intros r. assert (0 <= Z.of_nat (length ex_code) < 1000) by (vm_compute; split; congruence). cbn [rg ex_state]. destruct r as [ | | | |[|]| |]; lia.
  - split; [reflexivity|lia].
  - intros i t x N1 N2. destruct i as [|[|i]]; try discriminate. injection N1 as <-. injection N2 as <-. vm_compute. reflexivity.
  - intros a _. reflexivity.
  - cbn [rg ex_state stack_args f_params sum_fun length]. unfold stack_args. cbn [length Nat.sub]. split; [lia|]. split; [lia|]. intros; reflexivity.
Qed.
