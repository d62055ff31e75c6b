(** Property C70: the body of a function, from its tokens to its code. *)
From Verif Require Import Base TypeModel IntArith NodeModel ValSpec NodeSpec RvSpec GenModel GenSpec RvProofs GenRun GenProps StmtSpec StmtModel StmtProps ElabSpec ElabProps ParseModel ParseSpec BlockModel BlockSpec BlockProofs BlockProps FrontModel FrontSpec FrontProps BodyModel BodySpec BodyRename BodyStatic BodySim.
From Verif Require ScopeModel ScopeSpec.
From Coq Require Import ZifyBool ZifyNat.
Local Notation length := List.length.

Section Body.
Variables (ops : list ScopeModel.sop) (x : ctx) (number : bytes -> option (ty * Z)) (next : Z) (k0 : nat).
Hypothesis BE : before ops x number next k0.

Lemma body_made proto outer rt uses ts b rest j hs j' i' u : (forall n, declared ops x n = outer n) -> blk C11 ts b -> (forall i, ~ In (KBrace i) ts) -> ~ In (KW WAsm) ts ->
  r_items outer x number b [[]] j k0 = Some (hs, j', i') -> fine_stmt proto rt hs = true -> Z.of_nat (length ops + items_size b) + 1 <= 20000000 -> is_struct_union rt = false -> jumps hs ->
  exists r, front_body x next rt uses (ts ++ KP RBrace :: rest) j k0 u = Some r /\ c_rest r = rest /\ (k0 + length (c_vars r) = i')%nat /\ NoDup (c_vars r) /\ Forall (fun v => k0 <= v < c_locals r)%nat (c_vars r) /\
    StmtModel.parse_body rt uses (c_stmt r) u = Some (c_tree r, c_uniq r) /\ user_labels (c_stmt r) = user_labels (shape hs) /\ mst proto k0 (c_vars r) (c_locals r) rt hs (c_stmt r).
Proof.
  intros OUT G NB NA R F L RT [J1 J2]. apply (proj2 c11_stmt) in G; [|split; assumption]. destruct (C69_body_partial ts b rest G) as (b' & P & SB). unfold same_block in SB. destruct BE as [SRC NX LO].
  destruct (do_one ops ScopeModel.OpEnter (x_scope x) (so_scope _ _ _ SRC)) as (c1 & D & D1); [rewrite ScopeProofs.nested_app, (so_nested _ _ _ SRC); reflexivity|lia|].
  assert (W : wf k0 (ops ++ [ScopeModel.OpEnter]) c1 next k0 [] k0). { constructor; [rewrite ScopeProofs.nested_app, (so_nested _ _ _ SRC); reflexivity|exact D1| |cbn; lia|lia|constructor|constructor]. intros n z I. apply in_app_or in I as [I|[I|[]]]; [eauto|discriminate I]. }
  assert (A : agree k0 outer ops (x_ent x) k0 [] []). { intros VS _ n. cbn [denotes]. rewrite <- OUT. unfold declared. destruct (ScopeSpec.visible (ScopeSpec.declares_var n) 0 (rev ops)) as [z|] eqn:Vz; [|reflexivity]. cbn [option_map]. f_equal. destruct (x_ent x z) as [v t s| |] eqn:X; try reflexivity. cbn [rn_ent]. destruct v as [p|g]; [|reflexivity]. assert (p < k0)%nat by (apply (LO n p t s); unfold declared; rewrite Vz, X; reflexivity). cbn [moved]. destruct (Nat.ltb_spec p k0); [reflexivity|lia]. }
  destruct (proj2 (stmts_ok proto k0 x number outer rt (so_number _ _ _ SRC) (so_named _ _ _ SRC)) b b' [[]] j k0 hs j' i' _ c1 (x_ent x) next k0 [] SB R F W (agree_enter _ _ _ _ _ _ _ A)) as (t & c2 & e2 & nx2 & k2 & vs2 & d & B & W2 & GR & _ & _ & M); [rewrite app_length; cbn [length]; lia|].
  pose proof (M vs2 k2 (ext_refl _ _) (le_n _)) as MS. destruct (mst_shape _ _ _ _ _ _ _ MS) as (S1 & S2 & S3).
  destruct (proj2 (C60_accepted rt uses t u RT)) as ((tr & u') & PB); [rewrite S1, S2, S3; auto|].
  exists (Compiled t tr vs2 k2 u' rest). cbn [c_rest c_vars c_locals c_stmt c_tree c_uniq]. split; [|split; [reflexivity|split; [|split; [exact (w_nd _ _ _ _ _ _ _ W2)|split; [exact (w_vs _ _ _ _ _ _ _ W2)|split; [exact PB|split; [exact S3|exact MS]]]]]]].
  - unfold front_body. rewrite P. unfold scope_op at 1. cbn [b_ctx b_next b_str b_loc b_vars]. rewrite D. cbv beta iota. change (BS (with_ctx x c1 (x_ent x)) next j k0 []) with (mk x c1 (x_ent x) next j k0 []). rewrite B. cbv beta iota. rewrite PB. reflexivity.
  - symmetry. exact (w_i _ _ _ _ _ _ _ W2).
Qed.

(** The tokens of a body (after the opening brace) which the C grammar reads as [b], whose
    names mean, by the rules of C, the objects and functions in [hs]: the compiler reads all of
    it; each object of the body gets a local variable of its own; and the statement it builds
    does on the program's memory what [hs] does: returns the same value, ends, or runs forever,
    calling the same functions; and besides the program's memory it changes only its temporaries.
    Missing: what C65 and C67 miss; static and extern objects,
    declarators other than pointers, braces; case constants with casts or sizeof; goto *p. *)
Theorem C70_meaning_partial rt uses ts b rest j hs j' i' u : blk C11 ts b -> (forall i, ~ In (KBrace i) ts) -> ~ In (KW WAsm) ts ->
  r_items (declared ops x) x number b [[]] j k0 = Some (hs, j', i') -> fine_stmt false rt hs = true -> Z.of_nat (length ops + items_size b) + 1 <= 20000000 -> is_struct_union rt = false -> jumps hs ->
  exists r, front_body x next rt uses (ts ++ KP RBrace :: rest) j k0 u = Some r /\ c_rest r = rest /\ (k0 + length (c_vars r) = i')%nat /\ NoDup (c_vars r) /\ Forall (fun v => k0 <= v < c_locals r)%nat (c_vars r) /\
  forall E V call, env_ok E -> others (e_addr E) V (e_valid E) k0 (c_locals r) (c_vars r) -> calls_agree V call (e_call E) ->
    let addr v := e_addr E (moved k0 (c_vars r) v) in
    let keeps m m' := forall a, aside (e_addr E) V k0 (c_locals r) (c_vars r) a -> m' a = m a in
    forall m m2, same_on V m m2 ->
    (forall v m', hsteps addr V call rt hs (HRun hs HKStop m) (HReturned v m') -> exists m2', ssteps E rt (c_stmt r) (Run (c_stmt r) KStop m2) (Returned v m2') /\ same_on V m' m2' /\ keeps m2 m2') /\
    (forall m', hsteps addr V call rt hs (HRun hs HKStop m) (HFinished m') -> exists m2', ssteps E rt (c_stmt r) (Run (c_stmt r) KStop m2) (Finished m2') /\ same_on V m' m2' /\ keeps m2 m2') /\
    (h_forever addr V call rt hs (HRun hs HKStop m) -> runs_forever E rt (c_stmt r) (Run (c_stmt r) KStop m2)).
Proof.
  intros G NB NA R F L RT J. destruct (body_made false (declared ops x) rt uses ts b rest j hs j' i' u (fun n => eq_refl) G NB NA R F L RT J) as (r & FB & RE & LE & ND & FA & _ & _ & MS). exists r. split; [exact FB|]. split; [exact RE|]. split; [exact LE|]. split; [exact ND|]. split; [exact FA|].
  intros E V call OK OT CA addr keeps m m2 AG. assert (M0 : mconf false E V k0 (c_locals r) (c_vars r) rt m2 (HRun hs HKStop m) (Run (c_stmt r) KStop m2)) by (split; [exact MS|split; [constructor|split; [exact AG|reflexivity]]]). split; [|split].
  - intros v m' H. destruct (steps_sim false E V k0 (c_locals r) (c_vars r) rt OK OT call CA m2 hs (c_stmt r) MS _ _ H _ M0) as ([| |] & T & MM); try contradiction. destruct MM as [<- [AG' KE]]. eauto.
  - intros m' H. destruct (steps_sim false E V k0 (c_locals r) (c_vars r) rt OK OT call CA m2 hs (c_stmt r) MS _ _ H _ M0) as ([| |] & T & MM); try contradiction. destruct MM as [AG' KE]. eauto.
  - intros H. exact (forever_sim false E V k0 (c_locals r) (c_vars r) rt OK OT call CA m2 hs (c_stmt r) MS _ _ H M0).
Qed.

(** ... and so does the code: if [hs] returns, the instructions get to the return label with
    the value in a0; if it ends, they get to their end; if it runs forever, so do they *)
Theorem C70_code_partial rt uses ts b rest j hs j' i' u : blk C11 ts b -> (forall i, ~ In (KBrace i) ts) -> ~ In (KW WAsm) ts ->
  r_items (declared ops x) x number b [[]] j k0 = Some (hs, j', i') -> fine_stmt false rt hs = true -> Z.of_nat (length ops + items_size b) + 1 <= 20000000 -> is_struct_union rt = false -> jumps hs -> NoDup (user_labels (shape hs)) ->
  exists r, front_body x next rt uses (ts ++ KP RBrace :: rest) j k0 u = Some r /\
  forall E V call W goff fp room slots fname gs gs' c p pret s lo m m2, setting E W goff fp -> others (e_addr E) V (e_valid E) k0 (c_locals r) (c_vars r) -> calls_agree V call (e_call E) ->
    stmt_ok rt slots (c_stmt r) = true -> gen_stmt goff fname (c_tree r) gs = Some (c, gs') ->
    code_at p (pc s) c -> nth_error p pret = Some (ILabel (name (LReturn fname))) -> linked E W fp room p -> matches E fp m2 s -> free_stack E room lo s -> lo + 8 * slots <= rg s Sp ->
    let addr v := e_addr E (moved k0 (c_vars r) v) in same_on V m m2 ->
    (forall v m', hsteps addr V call rt hs (HRun hs HKStop m) (HReturned v m') ->
       exists s' m2', star W p s s' /\ pc s' = pret /\ matches E fp m2' s' /\ same_on V m' m2' /\ above_same E s s' /\ forall z, v = Some z -> rep (ret_bits rt) z (rg s' (A 0))) /\
    (forall m', hsteps addr V call rt hs (HRun hs HKStop m) (HFinished m') ->
       exists s' m2', star W p s s' /\ pc s' = (pc s + length c)%nat /\ matches E fp m2' s' /\ same_on V m' m2' /\ above_same E s s') /\
    (h_forever addr V call rt hs (HRun hs HKStop m) -> forall n, exists s', steps_n W p n s s').
Proof.
  intros G NB NA R F L RT J ND. destruct (body_made false (declared ops x) rt uses ts b rest j hs j' i' u (fun n => eq_refl) G NB NA R F L RT J) as (r & FB & RE & LE & _ & FA & PB & UL & MS). exists r. split; [exact FB|].
  intros E V call W goff fp room slots fname gs gs' c p pret s lo m m2 HS OT CA OK GS1 CAt RET HL MT FS SL addr AG. rewrite <- UL in ND. pose proof (set_env _ _ _ _ HS) as EO.
  assert (M0 : mconf false E V k0 (c_locals r) (c_vars r) rt m2 (HRun hs HKStop m) (Run (c_stmt r) KStop m2)) by (split; [exact MS|split; [constructor|split; [exact AG|reflexivity]]]). split; [|split].
  - intros v m' H. destruct (steps_sim false E V k0 (c_locals r) (c_vars r) rt EO OT call CA m2 hs (c_stmt r) MS _ _ H _ M0) as ([|v2 m2'|] & T & MM); try contradiction. destruct MM as [<- [AG' _]].
    destruct (C42_returns E W goff fp room slots rt fname uses (c_stmt r) u (c_uniq r) (c_tree r) gs gs' c HS PB GS1 OK ND p pret s lo m2 v m2' CAt RET HL MT FS SL T) as (s' & A1 & A2 & A3 & A4 & A5). exists s', m2'. exact (conj A1 (conj A2 (conj A3 (conj AG' (conj A4 A5))))).
  - intros m' H. destruct (steps_sim false E V k0 (c_locals r) (c_vars r) rt EO OT call CA m2 hs (c_stmt r) MS _ _ H _ M0) as ([| |m2'] & T & MM); try contradiction.
    destruct (C42_finishes E W goff fp room slots rt fname uses (c_stmt r) u (c_uniq r) (c_tree r) gs gs' c HS PB GS1 OK ND p pret s lo m2 m2' CAt RET HL MT FS SL T) as (s' & A1 & A2 & A3 & A4). exists s', m2'. exact (conj A1 (conj A2 (conj A3 (conj (proj1 MM) A4)))).
  - intros H. apply (C42_diverges E W goff fp room slots rt fname uses (c_stmt r) u (c_uniq r) (c_tree r) gs gs' c HS PB GS1 OK ND p pret s lo m2 CAt RET HL MT FS SL). exact (forever_sim false E V k0 (c_locals r) (c_vars r) rt EO OT call CA m2 hs (c_stmt r) MS _ _ H M0).
Qed.
End Body.
Print Assumptions C70_meaning_partial.
Print Assumptions C70_code_partial.

(** ** An example: in int f(int n),
    int i = 3, s = 1;
    for (int i = 1; i < n; i++) { int t = i * 2; s += t; if (s > 9) break; }
    switch (s) { case 9 + 4: s += i; }
    return s;
    The i of the loop is another one than that of the body. *)
Definition by_ops : list ScopeModel.sop := [ScopeModel.OpEnter; ScopeModel.OpVar (bs "n"%string) 0].
Definition by_ctx : ctx :=
  Ctx (match ScopeModel.do_sops by_ops ScopeModel.chain0 with ScopeModel.SOk c => c | _ => ScopeModel.chain0 end)
      (fun _ => EVar (VLocal 0) (TInt false) None) (fun t => if beq t (bs "int"%string) then Some (TInt false) else None) (fun _ => []) (fun _ => []).
Lemma by_before : before by_ops by_ctx fx_number 1 1.
Proof.
  constructor.
  - constructor; [reflexivity|vm_compute; discriminate|vm_compute; reflexivity|exact (so_number _ _ _ fx_source)|reflexivity].
  - intros n z I. cbn in I. destruct I as [I|[I|[]]]; [discriminate I|injection I as _ <-; lia].
  - intros n p t s H. unfold declared in H. destruct (ScopeSpec.visible _ _ _); [|discriminate H]. cbn in H. injection H as <- _ _. lia.
Qed.
Definition by_body : items :=
  let id s := XAtom (AId (bs s)) in let num s := XAtom (ANum (bs s)) in
  let int_ := bs "int"%string in let i := bs "i"%string in let s := bs "s"%string in let t := bs "t"%string in
  IDecl int_ [Dcl 0 i (Some (DExpr (num "3"%string))); Dcl 0 s (Some (DExpr (num "1"%string)))]
  (IStmt (YFor (FDecl int_ [Dcl 0 i (Some (DExpr (num "1"%string)))]) (Some (XBin (XO SLt) (id "i"%string) (id "n"%string))) (Some (XPost true (id "i"%string)))
    (YBlock (IDecl int_ [Dcl 0 t (Some (DExpr (XBin (XO SMul) (id "i"%string) (num "2"%string))))]
      (IStmt (YExpr (XAssign (Some SAdd) (id "s"%string) (id "t"%string))) (IStmt (YIf (XBin (XO SGt) (id "s"%string) (num "9"%string)) YBreak) INil)))))
  (IStmt (YSwitch (id "s"%string) (YBlock (IStmt (YCase (XBin (XO SAdd) (num "9"%string) (num "4"%string)) None (YExpr (XAssign (Some SAdd) (id "s"%string) (id "i"%string)))) INil)))
  (IStmt (YReturn (Some (id "s"%string))) INil))).
Fixpoint hrun addr V call (rt : ty) (body : hstmt) (n : nat) (c : hconf) : hconf :=
  match n with O => c | S n => match hstep addr V call rt body c with Some c => hrun addr V call rt body n c | None => c end end.
Lemma hrun_steps addr V call rt body n : forall c, hsteps addr V call rt body c (hrun addr V call rt body n c).
Proof. induction n as [|n IH]; intros c; cbn [hrun]; [constructor|]. destruct (hstep addr V call rt body c) as [c'|] eqn:S1; [econstructor; eauto|constructor]. Qed.
Definition h_returned (c : hconf) : option (option Z) := match c with HReturned v _ => Some v | _ => None end.
Lemma hrun_returned addr V call rt body n c v : h_returned (hrun addr V call rt body n c) = Some v -> exists m', hsteps addr V call rt body c (HReturned v m').
Proof. intros H. pose proof (hrun_steps addr V call rt body n c) as S1. destruct (hrun addr V call rt body n c) as [ |w m'|]; try discriminate. injection H as ->. eauto. Qed.
(** The program's objects: the parameter 0 and the locals 1, 2, 3 and 5; 4, 6 and 7 are temporaries *)
Definition by_prog (a : Z) : bool := existsb (fun k => (loc k <=? a) && (a <? loc k + 16)) [0; 1; 2; 3; 5]%nat.
Definition by_mem : mem := le_store (fun _ => 0) (loc 0) 4 9.
Definition by_regs : regs := fun r => match r with Fp => 2 ^ 20 | Sp => 2 ^ 20 - 1024 | _ => 0 end.
Lemma by_tokens : blk C11 (block_text by_body) by_body /\ (forall i, ~ In (KBrace i) (block_text by_body)) /\ ~ In (KW WAsm) (block_text by_body).
Proof. split; [apply taken_stmt, text_stmt; reflexivity|]. split; [intros i|]; vm_compute; intuition discriminate. Qed.
Lemma by_others : others (e_addr sx_env) by_prog (e_valid sx_env) 1 8 [1; 2; 3; 5]%nat.
Proof.
  assert (T : forall k, (1 <= k < 8)%nat -> ~ In k [1; 2; 3; 5]%nat -> k = 4%nat \/ k = 6%nat \/ k = 7%nat) by (intros k L N; cbn in N; lia).
  constructor.
  - intros a H. unfold by_prog in H. cbn [existsb] in H. unfold loc, e_addr, e_valid, sx_env in *. cbn [Nat.ltb Nat.leb Z.of_nat] in H. lia.
  - intros k L N. destruct (T k L N) as [->|[->| ->]]; vm_compute; intuition discriminate.
  - intros k a L N. unfold by_prog. destruct (T k L N) as [->|[->| ->]]; unfold loc, e_addr, e_valid, sx_env in *; cbn [existsb Nat.ltb Nat.leb Z.of_nat]; intros H; split; lia.
  - intros i j L L' N N' D. destruct (T i L N) as [->|[->| ->]], (T j L' N') as [->|[->| ->]]; try (now contradiction D); unfold e_addr, sx_env; cbn [Nat.ltb Nat.leb Z.of_nat]; lia.
Qed.
Example C70_nonvacuous : before by_ops by_ctx fx_number 1 1 /\ blk C11 (block_text by_body) by_body /\ (forall i, ~ In (KBrace i) (block_text by_body)) /\ ~ In (KW WAsm) (block_text by_body) /\
  exists hs r c gs' m', r_items (declared by_ops by_ctx) by_ctx fx_number by_body [[]] 0 1 = Some (hs, 0%nat, 5%nat) /\ fine_stmt false (TInt false) hs = true /\ jumps hs /\ NoDup (user_labels (shape hs)) /\
  front_body by_ctx 1 (TInt false) (fun _ => 0%nat) (block_text by_body ++ KP RBrace :: [KP Semi]) 0 1 0 = Some r /\ c_vars r = [1; 2; 3; 5]%nat /\ c_locals r = 8%nat /\
  setting sx_env sx_world sx_goff (2 ^ 20) /\ others (e_addr sx_env) by_prog (e_valid sx_env) 1 8 (c_vars r) /\ calls_agree by_prog sx_call (e_call sx_env) /\ stmt_ok (TInt false) 9 (c_stmt r) = true /\
  gen_stmt sx_goff (bs "f") (c_tree r) (GS 0 1) = Some (c, gs') /\ (100 < length c)%nat /\
  linked sx_env sx_world (2 ^ 20) 4096 (c ++ [Lab (LReturn (bs "f"))]) /\ matches sx_env (2 ^ 20) by_mem (St 0 by_regs by_mem) /\ free_stack sx_env 4096 8192 (St 0 by_regs by_mem) /\
  hsteps (fun v => e_addr sx_env (moved 1 (c_vars r) v)) by_prog sx_call (TInt false) hs (HRun hs HKStop by_mem) (HReturned (Some 16) m').
Proof.
  split; [exact by_before|]. destruct by_tokens as (T1 & T2 & T3). split; [exact T1|]. split; [exact T2|]. split; [exact T3|].
  destruct (r_items (declared by_ops by_ctx) by_ctx fx_number by_body [[]] 0 1) as [[[hs j] i]|] eqn:R; vm_compute in R; [|discriminate R]. injection R as <- <- <-.
  destruct (front_body by_ctx 1 (TInt false) (fun _ => 0%nat) (block_text by_body ++ KP RBrace :: [KP Semi]) 0 1 0) as [r|] eqn:FB; vm_compute in FB; [|discriminate FB]. injection FB as <-. cbn [c_vars c_locals c_stmt c_tree].
  match goal with |- exists hs r c gs' m', Some (?h, _, _) = _ /\ _ /\ _ /\ _ /\ Some ?r0 = _ /\ _ => destruct (hrun_returned (fun v => e_addr sx_env (moved 1 (c_vars r0) v)) by_prog sx_call (TInt false) h 200 (HRun h HKStop by_mem) (Some 16) ltac:(vm_compute; reflexivity)) as (m' & HS); exists h, r0 end.
  cbn [c_vars c_locals c_stmt c_tree] in *. match goal with |- context [gen_stmt ?g ?f ?x ?s] => destruct (gen_stmt g f x s) as [[c gs']|] eqn:G; vm_compute in G; [|discriminate G] end. exists c, gs', m'. injection G as <- <-.
  split; [reflexivity|]. split; [vm_compute; reflexivity|]. split; [split; [vm_compute; reflexivity|intros q Hq; destruct Hq]|]. split; [constructor|]. split; [reflexivity|]. split; [reflexivity|]. split; [reflexivity|].
  split; [apply C65_code_nonvacuous|]. split; [exact by_others|]. split; [intros ? ? ? ? ? ? ? ? ? H; discriminate H|]. split; [vm_compute; reflexivity|]. split; [reflexivity|]. split; [apply Nat.ltb_lt; vm_compute; reflexivity|].
  split; [split; [apply nodupb_ok; vm_compute; reflexivity|intros ? ? ? ? ? ? ? ? ? ? ? ? ? ? C; discriminate C]|].
  split; [split; [split; [reflexivity|intros []; vm_compute; intuition discriminate]|split; [reflexivity|intros a _; reflexivity]]|].
  split; [split; [lia|]; intros a Ha; unfold e_valid, sx_env; cbn [rg] in Ha; unfold by_regs in Ha; lia|]. exact HS.
Qed.
