(** Property C71: programs, from the tokens of their functions to their code. *)
From Verif Require Import GenBits Base TypeModel IntArith NodeModel ValSpec NodeSpec RvSpec GenModel GenSpec StmtSpec ElabSpec ElabProps ParseModel ParseSpec BlockModel BlockSpec BlockProofs FrontModel FrontSpec FrontProps BodyModel BodySpec FrameModel FrameSpec FunSpec FunProps ProgModel ProgSpec ProgVars ProgStatic ProgSim.
From Verif Require ScopeModel ScopeSpec StmtProps.
From Coq Require Import ZifyBool ZifyNat.
Local Notation length := List.length.

(** The function of the compiler for a function of the program *)
Definition same_function (h : hfun) (f : func) : Prop :=
  f_name f = h_name h /\ f_ret f = h_ret h /\ map v_ty (f_params f) = h_params h /\ f_variadic f = false.

Lemma compiled_frame uses fs : forall u gs p f, compile_program uses fs u gs = Some p -> In f fs -> frame f <> None.
Proof.
  induction fs as [|g fs IH]; intros u gs p f H I; [destruct I|]. cbn [compile_program] in H. destruct (compile_function uses g u gs) as [[[c u'] gs']|] eqn:C; [|discriminate H]. destruct (compile_program uses fs u' gs') as [r|] eqn:R; [|discriminate H]. destruct I as [<-|I]; [|exact (IH _ _ _ _ R I)].
  unfold compile_function in C. destruct (StmtModel.parse_body _ _ _ _) as [[b u1]|]; [|discriminate C]. destruct (frame g); [discriminate|discriminate C].
Qed.
Lemma Forall2_right {A B} (P : A -> B -> Prop) l l' : Forall2 P l l' -> forall b, In b l' -> exists a, In a l /\ P a b.
Proof. induction 1 as [|a b l l' H _ IH]; intros c I; [destruct I|]. destruct I as [<-|I]; [exists a; split; [now left|exact H]|]. destruct (IH c I) as (d & J & K). exists d. split; [now right|exact K]. Qed.
Lemma named_once hfs (fs : list (func * list ty)) : Forall2 (fun h p => f_name (fst p) = h_name h) hfs fs -> NoDup (map h_name hfs) -> forall h h' (p : func * list ty), In h hfs -> In h' hfs -> f_name (fst p) = h_name h -> f_name (fst p) = h_name h' -> h = h'.
Proof.
  intros _ ND h h' p I I' E E'. apply In_nth_error in I as (i & I), I' as (j & J). assert (IJ : i = j); [|congruence]. apply (proj1 (NoDup_nth_error (map h_name hfs)) ND); [rewrite map_length; apply nth_error_Some; congruence|]. rewrite !nth_error_map, I, J. cbn. congruence.
Qed.

(** From the declarations of a program, the bodies of its functions as tokens, whose meaning by
    the rules of C is [hfs]: the compiler makes a function for each; and if the machine enters
    the code of one according to the calling convention, then it returns what the function of
    the program returns and leaves the program's memory as it does, whichever functions of the
    program are called, recursively or not, if there is enough stack.
    Missing: what C70 misses; variable arguments and functions without prototype; struct results; [?:] without middle
    operand of a type of less than 8 bytes; static and inline functions; initializers of global
    objects; arguments and results that are not integers or pointers. *)
Theorem C71_program_partial x number ds hfs sz : (forall b t v, number b = Some (t, v) -> integer_constant b t v) -> (forall i, named (x_mems x i) = true) ->
  program x number [] 0 ds hfs sz -> Z.of_nat sz <= 20000000 ->
  exists fs, externals ds (start x) = Some fs /\ Forall2 (fun h p => same_function h (fst p)) hfs fs /\
  forall uses u gs p W addr slots cost, compile_program uses (map fst fs) u gs = Some p -> 0 <= u -> 0 <= g_cnt gs ->
    Forall (fun h => dot_free (h_name h)) hfs -> NoDup (map h_name hfs) -> Forall (fun_ok slots cost) (map fst fs) -> Forall (fun q => Forall (fun t => size_of t = 8) (snd q)) fs -> loaded W addr p -> 0 <= slots ->
    forall n V h vs m v m' kr f s, In h hfs -> h_returns addr hfs n V h vs m v m' -> In f (map fst fs) -> f_name f = h_name h -> entered W p V f vs m (Z.of_nat n * cost) kr s ->
    exists s', star W p s s' /\ left_with V f v m' kr s s'.
Proof.
  intros NUM MEM P L. destruct (start_made x number NUM MEM ds hfs sz P L) as (fs & EX & MD). exists fs. split; [exact EX|]. split.
  { clear - MD. induction MD as [|h p l l' M _ IH]; constructor; [|exact IH]. destruct M as [? ? ? ? ? A1 A2 A3 A4 _ _ _ _ _ _ _ _ _ _]. repeat split; assumption. }
  intros uses u gs p W addr slots cost CP U0 C0 DF ND FO T8 LD SL n V h vs m v m' kr f s IN HR INF FN EN. apply in_map_iff in INF as (q & <- & IQ).
  assert (NMS : Forall2 (fun h p => f_name (fst p) = h_name h) hfs fs) by (clear - MD; induction MD as [|h p l l' M _ IH]; constructor; [destruct M as [? ? ? ? ? A1 _ _ _ _ _ _ _ _ _ _ _ _ _]; exact A1|exact IH]).
  assert (NE : map f_name (map fst fs) = map h_name hfs) by (clear - NMS; induction NMS as [|h p l l' M _ IH]; [reflexivity|]; cbn [map]; congruence).
  assert (MQ : made h q). { destruct (Forall2_right _ _ _ MD q IQ) as (h' & I' & M'). assert (h = h') as ->; [|exact M']. destruct M' as [? ? ? ? ? A1 _ _ _ _ _ _ _ _ _ _ _ _ _]. exact (named_once hfs fs NMS ND h h' q IN I' FN A1). }
  rewrite Forall_forall in FO, T8.
  assert (R : returns addr (map fst fs) n V (fst q) vs m v (merged V m' m)).
  { apply (returns_made addr hfs fs) with (h := h) (m := m); [intros b; exact (proj2 (ld_sym _ _ _ LD b))|exact MD| | | | |exact IQ|exact MQ|exact HR|auto|intros a _; reflexivity].
    - intros r I. apply (compiled_frame _ _ _ _ _ _ CP). now apply in_map.
    - intros r I. exact (fo_vars _ _ _ (FO _ (in_map fst _ _ I))).
    - intros r I. exact (fo_params _ _ _ (FO _ (in_map fst _ _ I))).
    - exact T8. }
  destruct (C63_function uses (map fst fs) u gs p W addr slots cost n V (fst q) vs m v (merged V m' m) kr s CP U0 C0) as (s' & ST & LW); auto.
  - apply Forall_forall. intros g I. assert (I2 : In (f_name g) (map h_name hfs)) by (rewrite <- NE; now apply in_map). apply in_map_iff in I2 as (h2 & <- & I2). rewrite Forall_forall in DF. now apply DF.
  - rewrite NE. exact ND.
  - now apply Forall_forall.
  - now apply in_map.
  - exists s'. split; [exact ST|]. destruct LW as [A B C D E]. constructor; auto. intros a Va. rewrite <- (D a Va). unfold merged. now rewrite Va.
Qed.
Print Assumptions C71_program_partial.

(** ** An example:
    long g;
    long f(long);
    long f(long n) { long r = n; if (n) r = n + f(n - 1); return r; } *)
Definition px_ctx : ctx := Ctx ScopeModel.chain0 (fun _ => EVar (VLocal 0) tl None) (fun t => if beq t (bs "long"%string) then Some tl else None) (fun _ => []) (fun _ => []).
Definition px_body : items :=
  let id s := XAtom (AId (bs s)) in
  IDecl (bs "long"%string) [Dcl 0 (bs "r"%string) (Some (DExpr (id "n"%string)))]
  (IStmt (YIf (id "n"%string) (YExpr (XAssign None (id "r"%string) (XBin (XO SAdd) (id "n"%string) (XCall (id "f"%string) [XBin (XO SSub) (id "n"%string) (XAtom (ANum (bs "1"%string)))])))))
  (IStmt (YReturn (Some (id "r"%string))) INil)).
Definition px_decls : list edecl := [EdVar (bs "g") tl; EdProto (bs "f") tl [tl]; EdFun (bs "f") tl [(bs "n", tl)] (block_text px_body ++ [KP RBrace])].
Definition px_globals : list (bytes * ent) := [(bs "f"%string, func_ent (bs "f") tl [tl]); (bs "g"%string, EVar (VGlobal (bs "g")) tl None)].
Definition px_n : cexpr := CVar (VLocal 0) tl.
Definition px_r : cexpr := CVar (VLocal 2) tl.
Definition px_arg : cexpr := CBin SSub px_n (CNum (TInt false) 1).
Definition px_call : cexpr := CCall (CVar (VGlobal (bs "f")) (TFunc tl)) [tl] false [px_arg].
Definition px_hbody : hstmt := HSeq (HActs [ANew (VLocal 2) tl (Some px_n)]) (HSeq (HIf px_n (HActs [ADo (CAssign px_r (CBin SAdd px_n px_call))]) HSkip) (HSeq (HReturn (Some px_r)) HSkip)).
Definition px_hfun : hfun := HF (bs "f") tl [tl] px_hbody.
Lemma px_program : program px_ctx fx_number [] 0 px_decls [px_hfun] (1 + (1 + (8 + 1 + items_size px_body + 0))).
Proof.
  apply p_var; [reflexivity|]. apply (p_proto _ _ _ _ _ _ _ px_globals); [apply d_new; reflexivity|].
  apply (p_fun px_ctx fx_number px_globals 0 (bs "f") tl [(bs "n"%string, tl)] px_globals (block_text px_body) px_body px_hbody 2 3); [apply d_old; reflexivity| | | | | |apply p_end].
  - apply taken_stmt, text_stmt. reflexivity.
  - intros i. vm_compute. intuition discriminate.
  - vm_compute. intuition discriminate.
  - vm_compute. reflexivity.
  - vm_compute. reflexivity.
Qed.
Lemma hsteps_trans at_ V call rt b x y z : hsteps at_ V call rt b x y -> hsteps at_ V call rt b y z -> hsteps at_ V call rt b x z.
Proof. induction 1; eauto using hsteps. Qed.
Section Px.
Variables (addr : bytes -> Z) (V : Z -> bool) (at_ : var -> Z) (call : Z -> list ty -> ty -> list Z -> mem -> option (Z * mem)).
Hypothesis PL : h_placed addr V px_hfun at_.
Notation hv := (h_valid V px_hfun at_).
Notation cev := (cev at_ hv call).
Notation A0 := (at_ (VLocal 0)). Notation A2 := (at_ (VLocal 2)).
Lemma px_in p : p = 0%nat \/ p = 2%nat -> In (VLocal p, tl) (h_objects px_hfun).
Proof. intros [->| ->]; cbn; auto. Qed.
Lemma px_acc p : p = 0%nat \/ p = 2%nat -> accessible hv (at_ (VLocal p)) 8 = true.
Proof.
  intros P. pose proof (px_in p P) as I. destruct PL as (_ & PA & _). unfold accessible.
  assert (B : 0 < at_ (VLocal p) /\ at_ (VLocal p) + 8 <= 2 ^ 64).
  { destruct (PA _ (at_ (VLocal p)) I) as [B _]; [unfold occupies; cbn [fst snd]; change (size_of tl) with 8; lia|]. destruct (PA _ (at_ (VLocal p) + 7) I) as [C _]; [unfold occupies; cbn [fst snd]; change (size_of tl) with 8; lia|]. lia. }
  replace (0 <=? at_ (VLocal p)) with true by lia. replace (at_ (VLocal p) + 8 <=? 2 ^ 64) with true by lia. cbn [andb]. apply forallb_forall. intros i Hi. apply in_seq in Hi. change (Z.to_nat 8) with 8%nat in Hi. unfold h_valid. apply orb_true_iff. right. apply existsb_exists. exists (VLocal p, tl). split; [exact I|]. cbn [fst snd]. change (size_of tl) with 8. lia.
Qed.
Lemma px_apart : A0 + 8 <= A2 \/ A2 + 8 <= A0.
Proof.
  destruct PL as (_ & _ & PD). destruct (Z_le_gt_dec (A0 + 8) A2) as [|G]; [now left|]. destruct (Z_le_gt_dec (A2 + 8) A0) as [|G2]; [now right|]. exfalso.
  assert (D : (VLocal 0, tl) = (VLocal 2, tl)); [|discriminate D]. apply (PD _ _ (Z.max A0 A2) (px_in 0 (or_introl eq_refl)) (px_in 2 (or_intror eq_refl))); unfold occupies; cbn [fst snd]; change (size_of tl) with 8; lia.
Qed.
Lemma px_var p z m : p = 0%nat \/ p = 2%nat -> le_load m (at_ (VLocal p)) 8 = z mod 2 ^ 64 -> - 2 ^ 63 <= z < 2 ^ 63 -> cev false (CVar (VLocal p) tl) m = Some (z, m).
Proof.
  intros P L R. cbn [ElabSpec.cev]. unfold read, load_val. change (is_aggregate tl) with false. cbv iota. change (size_of tl) with 8. rewrite (px_acc p P). change (Z.to_nat 8) with 8%nat. rewrite L. unfold of_bytes, tl. cbn [int_repr negb]. rewrite sx_mod by lia. rewrite sx_id by lia. reflexivity.
Qed.
Lemma px_conv z : - 2 ^ 63 <= z < 2 ^ 63 -> conv tl z = Some z.
Proof. intros R. unfold conv, tl. cbn. rewrite ?sx_id by lia. reflexivity. Qed.
Lemma px_set e z m m' : cev false e m = Some (z, m') -> - 2 ^ 63 <= z < 2 ^ 63 -> cev false (CAssign px_r e) m = Some (z, le_store m' A2 8 z).
Proof.
  intros E R. cbn [ElabSpec.cev]. change (ElabSpec.cev at_ hv call true px_r m) with (Some (A2, m)). cbv iota. rewrite E. cbv iota. change (ty_of px_r) with tl. rewrite (px_conv z R). cbv iota. unfold write. change (bits_of px_r) with (@None (Z * Z)). cbv iota. unfold store_val, tl. cbn [int_repr]. change (size_of (TLong false)) with 8. rewrite (px_acc 2 (or_intror eq_refl)). reflexivity.
Qed.
Lemma px_bin o a b x y m m1 m2 : cev false b m = Some (y, m1) -> cev false a m1 = Some (x, m2) -> right_first o (op_of a) (op_of b) = true -> cev false (CBin o a b) m = let* v := bin_op o (op_of a) (op_of b) x y in Some (v, m2).
Proof.
  intros B A R. change (cev false (CBin o a b) m) with (let* (x, y, m) := bin_order (right_first o (op_of a) (op_of b)) (cev false a) (cev false b) m in let* v := bin_op o (op_of a) (op_of b) x y in Some (v, m)). rewrite R. unfold bin_order. rewrite B, A. reflexivity.
Qed.
Variables (n v : Z).
Hypothesis NR : 0 <= n <= 1000.
Lemma px_arg_value m : le_load m A0 8 = n mod 2 ^ 64 -> cev false px_arg m = Some (n - 1, m).
Proof.
  intros L. assert (EN : cev false px_n m = Some (n, m)) by (apply px_var; [auto|exact L|lia]). unfold px_arg. rewrite (px_bin SSub px_n (CNum (TInt false) 1) n 1 m m m eq_refl EN eq_refl). change (op_of px_n) with tl. change (op_of (CNum (TInt false) 1)) with (TInt false).
  unfold bin_op. cbn [is_arith tl int_repr andb]. unfold arith_op. change (usual (TLong false) (TInt false)) with tl. cbv zeta. rewrite !px_conv by lia. cbn [bin_val]. rewrite long_range by lia. reflexivity.
Qed.
Hypothesis VR : 0 <= v <= 1000000.
Lemma px_sum_value m : le_load m A0 8 = n mod 2 ^ 64 -> call (at_ (VGlobal (bs "f"))) [tl] tl [n - 1] m = Some (v, m) -> cev false (CBin SAdd px_n px_call) m = Some (n + v, m).
Proof.
  intros L C. assert (EN : cev false px_n m = Some (n, m)) by (apply px_var; [auto|exact L|lia]).
  assert (EC : cev false px_call m = Some (v, m)).
  { change (cev false px_call m) with (let* (vs, m) := (let* (v, m) := cev false px_arg m in let* v := conv tl v in Some ([v], m)) in let* (v, m) := call (at_ (VGlobal (bs "f"))) [tl] tl vs m in if val_of tl v then Some (v, m) else None).
    rewrite (px_arg_value m L). cbv iota. rewrite px_conv by lia. cbv iota. rewrite C. cbv iota. replace (val_of tl v) with true; [reflexivity|]. unfold val_of, tl. cbn [int_repr negb]. unfold in_range. lia. }
  rewrite (px_bin SAdd px_n px_call n v m m m EC EN eq_refl). change (op_of px_n) with tl. change (op_of px_call) with tl. unfold bin_op. cbn [is_arith tl int_repr andb]. unfold arith_op. change (usual (TLong false) (TLong false)) with tl. cbv zeta. rewrite !px_conv by lia. cbn [bin_val]. rewrite long_range by lia. reflexivity.
Qed.
(** n = 0, and n > 0 *)
Lemma px_run m0 : le_load m0 A0 8 = n mod 2 ^ 64 -> (0 < n -> forall m, call (at_ (VGlobal (bs "f"))) [tl] tl [n - 1] m = Some (v, m)) ->
  exists m1, hsteps at_ hv call tl px_hbody (HRun px_hbody HKStop m0) (HReturned (Some (if n =? 0 then 0 else n + v)) m1) /\ forall a, V a = true -> m1 a = m0 a.
Proof.
  intros L C. destruct PL as (_ & PA & _).
  assert (OUT : forall m z a, V a = true -> le_store m A2 8 z a = m a). { intros m z a Va. unfold le_store. destruct ((A2 <=? a) && (a <? A2 + 8)) eqn:R; [|reflexivity]. destruct (PA _ a (px_in 2 (or_intror eq_refl))) as [_ F]; [unfold occupies; cbn [fst snd]; change (size_of tl) with 8; lia|congruence]. }
  assert (L1 : forall m z, le_load m A0 8 = n mod 2 ^ 64 -> le_load (le_store m A2 8 z) A0 8 = n mod 2 ^ 64) by (intros m z H; rewrite <- H; apply le_load_ext; intros k K; unfold le_store; pose proof px_apart; replace ((A2 <=? A0 + k) && (A0 + k <? A2 + 8)) with false by lia; reflexivity).
  set (m1 := le_store (le_store m0 A2 8 0) A2 8 n).
  assert (P1 : performs at_ hv call [ANew (VLocal 2) tl (Some px_n)] m0 = Some m1).
  { cbn [performs perform]. change (size_of tl) with 8. rewrite (px_acc 2 (or_intror eq_refl)). change (CVar (VLocal 2) tl) with px_r. rewrite (px_set px_n n (le_store m0 A2 8 0) (le_store m0 A2 8 0)); [reflexivity| |lia]. apply px_var; [auto|now apply L1|lia]. }
  assert (M1 : le_load m1 A0 8 = n mod 2 ^ 64) by (unfold m1; now apply L1, L1).
  assert (T1 : htest at_ hv call (Some px_n) m1 = Some (negb (n =? 0), m1)). { unfold htest. change (valued (ty_of px_n)) with true. cbv iota. assert (EN : cev false px_n m1 = Some (n, m1)) by (apply px_var; [auto|exact M1|lia]). rewrite EN. reflexivity. }
  assert (RET : forall z m, 0 <= z <= 1001000 -> le_load m A2 8 = z mod 2 ^ 64 -> cev false (CCast tl px_r) m = Some (z, m)).
  { intros z m R H. change (cev false (CCast tl px_r) m) with (let* (x, m) := cev false px_r m in let* v := conv tl x in Some (v, m)). assert (ER : cev false px_r m = Some (z, m)) by (apply px_var; [auto|exact H|lia]). rewrite ER. cbv iota. rewrite px_conv by lia. reflexivity. }
  set (m2 := if n =? 0 then m1 else le_store m1 A2 8 (n + v)). exists m2. split.
  - unfold px_hbody at 2. eapply hsteps_step; [reflexivity|]. eapply hsteps_step; [cbn [hstep]; rewrite P1; reflexivity|]. eapply hsteps_step; [reflexivity|]. eapply hsteps_step; [reflexivity|]. eapply hsteps_step; [cbn [hstep]; rewrite T1; reflexivity|].
    assert (S2 : hsteps at_ hv call tl px_hbody (HRun (if negb (n =? 0) then HActs [ADo (CAssign px_r (CBin SAdd px_n px_call))] else HSkip) (HKSeq (HSeq (HReturn (Some px_r)) HSkip) HKStop) m1) (HRun HSkip (HKSeq (HSeq (HReturn (Some px_r)) HSkip) HKStop) m2)).
    { unfold m2. destruct (Z.eqb_spec n 0) as [Z0|Z0]; cbn [negb]; [constructor|]. eapply hsteps_step; [|constructor]. cbn [hstep performs perform]. rewrite (px_set (CBin SAdd px_n px_call) (n + v) m1 m1); [reflexivity| |lia]. apply px_sum_value; [exact M1|]. apply C. lia. }
    eapply hsteps_trans; [exact S2|]. eapply hsteps_step; [reflexivity|]. eapply hsteps_step; [reflexivity|]. eapply hsteps_step; [|constructor]. cbn [hstep]. rewrite (RET (if n =? 0 then 0 else n + v)); [reflexivity|destruct (n =? 0); lia|].
    unfold m2, m1. destruct (Z.eqb_spec n 0) as [Z0|Z0]; change 8%nat with (Z.to_nat 8); rewrite le_load_store by lia; [rewrite Z0|]; reflexivity.
  - intros a Va. unfold m2, m1. destruct (n =? 0); rewrite !OUT by exact Va; reflexivity.
Qed.
End Px.

Lemma px_returns addr k : Z.of_nat k <= 1000 -> forall V m, exists v, 2 * v = Z.of_nat k * (Z.of_nat k + 1) /\ h_returns addr [px_hfun] (S k) V px_hfun [Z.of_nat k] m v m.
Proof.
  assert (PAR : forall at_ m0 n, h_params_set px_hfun at_ [n] m0 -> le_load m0 (at_ (VLocal 0)) 8 = n mod 2 ^ 64) by (intros at_ m0 n P; exact (P 0%nat tl n eq_refl eq_refl)).
  induction k as [|k IH]; intros KL V m.
  - exists 0. split; [reflexivity|]. cbn [h_returns]. intros at_ PL. exists (fun _ _ _ _ _ => None). split; [intros fa tys t vs m1 m2 v m' H; discriminate H|]. split; [discriminate|]. intros m0 AG PS.
    destruct (px_run addr V at_ (fun _ _ _ _ _ => None) PL 0 0 ltac:(lia) ltac:(lia) m0 (PAR _ _ _ PS) ltac:(lia)) as (m1 & ST & OUT). exists (HReturned (Some 0) m1), m1. split; [exact ST|]. split; [constructor|]. intros a Va. rewrite (OUT a Va). symmetry. now apply AG.
  - destruct (IH ltac:(lia) V m) as (v & V2 & _). set (n := Z.of_nat (S k)) in *. assert (NK : n = Z.of_nat k + 1) by (unfold n; lia). clearbody n. exists (n + v). split; [nia|]. cbn [h_returns]. intros at_ PL. exists (ex_call (addr (bs "f")) (n - 1) v). split; [|split].
    + intros fa tys t vs m1 m2 w m' H AG. pose proof H as H'. apply ex_call_inv in H' as (-> & -> & -> & -> & -> & ->). exists m2. split; [|exact AG]. unfold ex_call in *. cbn [tl] in *. destruct (_ && _); [reflexivity|discriminate H].
    + intros fa tys t vs m1 w m2 H. apply ex_call_inv in H as (-> & -> & -> & -> & -> & ->). exists px_hfun. split; [now left|]. split; [reflexivity|]. split; [reflexivity|]. split; [reflexivity|]. split; [reflexivity|].
      destruct (IH ltac:(lia) (h_valid V px_hfun at_) m1) as (v' & V' & R). assert (v' = v) by (clear - V2 V'; nia). subst v'. replace (n - 1) with (Z.of_nat k) by lia. exact R.
    + intros m0 AG PS. assert (VR : 0 <= v <= 1000000) by nia. assert (NR : 0 <= n <= 1000) by lia.
      destruct (px_run addr V at_ (ex_call (addr (bs "f")) (n - 1) v) PL n v NR VR m0 (PAR _ _ _ PS)) as (m1 & ST & OUT).
      { intros _ m1. rewrite (proj1 PL). unfold ex_call. cbn [tl]. rewrite !Z.eqb_refl. reflexivity. }
      replace (n =? 0) with false in ST by lia. exists (HReturned (Some (n + v)) m1), m1. split; [exact ST|]. split; [constructor|]. intros a Va. rewrite (OUT a Va). symmetry. now apply AG.
Qed.
Definition px_funs : list (func * list ty) := match externals px_decls (start px_ctx) with Some fs => fs | None => [] end.
Definition px_f : func := match px_funs with (f, _) :: _ => f | [] => sum_fun end.
Definition px_code : prog := match compile_program (fun _ => O) (map fst px_funs) 0 (GS 0 1) with Some p => p | None => [] end.
Definition px_regs (k : nat) : regs := fun r => match r with Ra => 4096 + 4 * Z.of_nat k | Sp => 2 ^ 20 | A 0 => 100 | _ => 0 end.
Definition px_state : state := St 0 (px_regs (length px_code)) (fun _ => 0).
Lemma px_ra p : px_regs (length p) Ra = w_at (image p) (length p) /\ (length p <= length p)%nat. Proof. split; [reflexivity|apply le_n]. Qed.
Lemma px_regs_ok k : Z.of_nat k < 1000 -> regs_ok (px_regs k).
Proof. intros K. split; [reflexivity|]. intros r. destruct r as [ | | | |[|]| |]; cbn [px_regs]; lia. Qed.
(** f(100) = 5050; 101 calls are active *)
Example C71_nonvacuous : program px_ctx fx_number [] 0 px_decls [px_hfun] (1 + (1 + (8 + 1 + items_size px_body + 0))) /\ (items_size px_body < 20)%nat /\ (forall b t v, fx_number b = Some (t, v) -> integer_constant b t v) /\ (forall i, named (x_mems px_ctx i) = true) /\
  externals px_decls (start px_ctx) = Some px_funs /\ compile_program (fun _ => O) (map fst px_funs) 0 (GS 0 1) = Some px_code /\ (40 < length px_code)%nat /\ Forall (fun_ok 5 100) (map fst px_funs) /\
  loaded (image px_code) (image_addr px_code) px_code /\ h_returns (image_addr px_code) [px_hfun] 101 (fun _ => false) px_hfun [100] (fun _ => 0) 5050 (fun _ => 0) /\
  px_funs = [(px_f, [])] /\ entered (image px_code) px_code (fun _ => false) px_f [100] (fun _ => 0) (101 * 100) (length px_code) px_state.
Proof.
  split; [exact px_program|]. split; [vm_compute; lia|]. split; [exact (so_number _ _ _ fx_source)|]. split; [reflexivity|]. split; [vm_compute; reflexivity|]. split; [vm_compute; reflexivity|]. split; [vm_compute; lia|]. split.
  { replace (map fst px_funs) with [px_f] by (vm_compute; reflexivity). constructor; [|constructor]. constructor.
    - vm_compute. reflexivity.
    - vm_compute. constructor.
    - vm_compute. repeat constructor; vm_compute; congruence.
    - vm_compute. repeat constructor; discriminate.
    - intros offs size H. vm_compute in H. injection H as <- <-. lia. }
  split; [apply image_loaded; [apply StmtProps.nodupb_ok; vm_compute; reflexivity|vm_compute; reflexivity]|]. split.
  { destruct (px_returns (image_addr px_code) 100 ltac:(lia) (fun _ => false) (fun _ => 0)) as (v & V2 & R). change (Z.of_nat 100) with 100 in *. assert (v = 5050) by lia. subst v. exact R. }
  split; [vm_compute; reflexivity|]. constructor.
  - vm_compute. reflexivity.
  - apply px_regs_ok. vm_compute. reflexivity.
  - exact (px_ra px_code).
  - let v := eval vm_compute in (f_params px_f) in assert (FP : f_params px_f = v) by (vm_compute; reflexivity). rewrite FP. clear FP.
    intros i t x N1 N2. destruct i as [|[|i]]; [|discriminate N2|discriminate N2]. injection N1 as <-. injection N2 as <-. reflexivity.
  - intros a _. reflexivity.
  - unfold px_state. cbn [rg px_regs]. replace (length (f_params px_f)) with 1%nat by (vm_compute; reflexivity). unfold stack_args. cbn [Nat.sub]. split; [lia|]. split; [lia|]. intros; reflexivity.
Qed.
