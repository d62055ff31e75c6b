(** Properties C58, C67: members, and expressions from tokens to code. *)
From Verif Require Import Base TypeModel IntArith NodeModel ValSpec NodeSpec NodeProofs RvSpec GenModel GenSpec GenProps ElabSpec ElabProofs ElabSim ElabProps ParseModel ParseSpec ParsePrint ParseProps FrontModel FrontSpec FrontProofs.
From Verif Require ScopeModel ScopeSpec ScopeProps LitSpec.
From Coq Require Import ZifyBool ZifyNat.
Local Notation length := List.length.

(** ** C58: as LayoutProps, on the members as the parser has them *)
(** x.n is the first member called n, looking into anonymous structs and unions, however
    deep; without one it is an error. Missing: structs with unnamed bit-fields (C58_unnamed_bitfield_refuted) *)
Theorem C58_struct_ref_partial n l : named l = true -> struct_ref n (S (depths l)) l = hd_error (places n l).
Proof. intros N. apply struct_ref_first; [exact N|lia]. Qed.
Print Assumptions C58_struct_ref_partial.
(** Its address is that of x plus the offsets on the way *)
Theorem C58_path_offset A V f c p m a m' : p <> [] -> is_lval c = true -> cev A V f true c m = Some (a, m') ->
  cev A V f true (fold_left CDot p c) m = Some ((a + offset p) mod 2 ^ 64, m').
Proof.
  intros NE. revert c a NE. induction p as [|i p IH]; intros c a NE L C; [easy|]. cbn [fold_left].
  assert (D : cev A V f true (CDot c i) m = Some ((a + m_off i) mod 2 ^ 64, m')) by (cbn [cev]; rewrite L, C; reflexivity).
  change (offset (i :: p)) with (m_off i + offset p). destruct p as [|i' p]; [cbn [fold_left]; rewrite D; unfold offset; cbn [fold_right]; now rewrite Z.add_0_r|].
  rewrite (IH (CDot c i) ((a + m_off i) mod 2 ^ 64) ltac:(discriminate) L D). rewrite Zplus_mod_idemp_l. do 3 f_equal. lia.
Qed.
Print Assumptions C58_path_offset.
(** struct { int a; union { struct { int b; char y; }; long c; }; } *)
Definition fx_members : list mtree :=
  [MT (Some (bs "a"%string)) (MInfo (TInt false) 0 None) [];
   MT None (MInfo (TUnion 5 8 8) 8 None)
     [MT None (MInfo (TStruct 4 8 4) 0 None) [MT (Some (bs "b"%string)) (MInfo (TInt false) 0 None) []; MT (Some (bs "y"%string)) (MInfo (TChar false) 4 None) []];
      MT (Some (bs "c"%string)) (MInfo (TLong false) 0 None) []]].
Example C58_struct_ref_nonvacuous : named fx_members = true /\ (exists p, places (bs "y"%string) fx_members = [p] /\ length p = 3%nat /\ offset p = 12) /\
  struct_ref (bs "z"%string) (S (depths fx_members)) fx_members = None.
Proof. split; [reflexivity|]. split; [eexists; split; [vm_compute; reflexivity|split; reflexivity]|vm_compute; reflexivity]. Qed.

(** ** C67 *)
Section Tokens.
Variables (E : env) (V : Z -> bool) (k0 kN : nat).
Hypothesis OK : env_ok E.
Hypothesis TM : temporaries (e_addr E) V (e_valid E) k0 kN.
Variable call : Z -> list ty -> ty -> list Z -> mem -> option (Z * mem).
Hypothesis CALL : calls_agree V call (e_call E).
Variables (ops : list ScopeModel.sop) (x : ctx) (number : bytes -> option (ty * Z)).
Hypothesis SRC : source ops x number.

Lemma front_means ts e rest j c j' t k : gr C11 GExpr ts e -> (forall i, ~ In (KBrace i) ts) -> stops GExpr rest ->
  means (declared ops x) x number e j = Some (c, j') -> plain c = true -> ctype c = Some t ->
  exists c' n k', front x (ts ++ rest) j k = Some (n, j', k', rest) /\ elab c' k = Some (n, k') /\ ceq c c'.
Proof.
  intros G NB ST ME P T. apply C52_grammar_is_C in G; [|exact NB]. destruct (C52_grammar_partial ts e rest G ST) as (e' & PE & SE). assert (SE' : same_tree e e') by (unfold same_tree in *; congruence).
  destruct (means_same (declared ops x) x number e e' j c j' SE' ME) as (c' & ME' & Q). pose proof Q as (QT & QP & _). rewrite QP in P. rewrite QT in T.
  assert (NM : names x e' j = Some (c', j')).
  { apply (names_means (declared ops x) x number); try exact ME'; try exact P; try apply SRC.
    - intros n. unfold find_ent, declared. destruct (ScopeProps.C23_innermost ops (so_nested _ _ _ SRC) (so_length _ _ _ SRC)) as (ch & D & FV & _). rewrite (so_scope _ _ _ SRC) in D. injection D as <-. rewrite FV. destruct (ScopeSpec.visible _ _ _); reflexivity.
    - intros c1 t1 P1 T1. destruct (elab_sim E V k0 kN OK TM call CALL c1 t1 P1 T1 0%nat) as (n & k' & EL & _ & (_ & TT & _) & _). eauto. }
  destruct (C65_source_meaning_partial E V k0 kN OK TM call CALL c' t k P T) as (n & k' & EL & _). exists c', n, k'. split; [|split; [exact EL|exact Q]]. unfold front. rewrite PE, NM, EL. reflexivity.
Qed.

(** The tokens of an expression of the C grammar, whose names, numbers, strings and members
    mean [c] in C: the compiler reads all of them, and the tree it builds has the type of
    [c], its value and its effect on the program's memory. Missing: what [plain] excludes
    (refuted by C65), struct arguments and results, floating point, braces, _Generic. *)
Theorem C67_meaning_partial ts e rest j c j' t k : gr C11 GExpr ts e -> (forall i, ~ In (KBrace i) ts) -> stops GExpr rest ->
  means (declared ops x) x number e j = Some (c, j') -> plain c = true -> ctype c = Some t ->
  exists n k', front x (ts ++ rest) j k = Some (n, j', k', rest) /\ (k <= k')%nat /\ same_type (ntype n) t /\
  ((k0 <= k /\ k' <= kN)%nat -> forall lv m m2 v m', cev (e_addr E) V call lv c m = Some (v, m') -> same_on V m m2 ->
     exists m2', ev E lv n m2 = Some (v, m2') /\ same_on V m' m2' /\ forall a, foreign E V k k' a -> m2' a = m2 a).
Proof.
  intros G NB ST ME P T. destruct (front_means ts e rest j c j' t k G NB ST ME P T) as (c' & n & k' & F & EL & Q). exists n, k'. split; [exact F|]. destruct Q as (QT & QP & _ & _ & _ & QC). rewrite QP in P. rewrite QT in T.
  destruct (C65_source_meaning_partial E V k0 kN OK TM call CALL c' t k P T) as (n2 & k2 & EL2 & KK & _ & ST2 & D). rewrite EL in EL2. injection EL2 as <- <-. split; [exact KK|]. split; [exact ST2|]. intros K lv m m2 v m' C. rewrite QC in C. now apply D.
Qed.

(** ... and the instructions printed for it compute that value and that effect *)
Theorem C67_code_partial W goff fp room ts e rest j c j' t k : setting E W goff fp -> gr C11 GExpr ts e -> (forall i, ~ In (KBrace i) ts) -> stops GExpr rest ->
  means (declared ops x) x number e j = Some (c, j') -> plain c = true -> ctype c = Some t ->
  exists n k', front x (ts ++ rest) j k = Some (n, j', k', rest) /\
  ((k0 <= k /\ k' <= kN)%nat -> forall s code s' q m m2 v m', gen goff false n s = Some (code, s') -> qual false n = Some q -> cev (e_addr E) V call false c m = Some (v, m') -> same_on V m m2 ->
     exists m2', same_on V m' m2' /\ computes E W fp room code q (need n) m2 v m2').
Proof.
  intros HS G NB ST ME P T. destruct (front_means ts e rest j c j' t k G NB ST ME P T) as (c' & n & k' & F & EL & Q). exists n, k'. split; [exact F|]. destruct Q as (QT & QP & _ & _ & _ & QC). rewrite QP in P. rewrite QT in T.
  destruct (C65_source_code_partial E V k0 kN OK TM call CALL W goff fp room c' t k HS P T) as (n2 & k2 & EL2 & D). rewrite EL in EL2. injection EL2 as <- <-. intros K s code s' q m m2 v m' GN QN C. rewrite QC in C. eapply D; eassumption.
Qed.
End Tokens.
Print Assumptions C67_meaning_partial.
Print Assumptions C67_code_partial.

(** ** An example: int i; struct S *p; { int i = 1; ... p->y += sizeof *p - i, ( *p).y * 2 } *)
Definition fx_ops : list ScopeModel.sop := [ScopeModel.OpVar (bs "i"%string) 0; ScopeModel.OpVar (bs "p"%string) 1; ScopeModel.OpEnter; ScopeModel.OpVar (bs "i"%string) 2; ScopeModel.OpEnter; ScopeModel.OpVar (bs "p"%string) 0; ScopeModel.OpLeave].
Definition fx_struct := TStruct 3 8 4.
Definition fx_ctx : ctx :=
  Ctx (match ScopeModel.do_sops fx_ops ScopeModel.chain0 with ScopeModel.SOk c => c | _ => ScopeModel.chain0 end)
      (fun z => if z =? 0 then EConst 7 else if z =? 1 then EVar (VLocal 1) (TPtr fx_struct) None else EVar (VLocal 2) (TInt false) None)
      (fun _ => None)
      (fun i => if Nat.eqb i 3 then [MT (Some (bs "a"%string)) (MInfo (TInt false) 0 None) []; MT None (MInfo (TUnion 5 4 4) 4 None) [MT (Some (bs "y"%string)) (MInfo (TInt false) 0 None) []]] else [])
      (fun _ => []).
Definition fx_number (b : bytes) : option (ty * Z) := match b with [c] => if (49 <=? c) && (c <=? 57) then Some (TInt false, c - 48) else None | _ => None end.
Lemma fx_source : source fx_ops fx_ctx fx_number.
Proof.
  constructor; [reflexivity|vm_compute; discriminate|vm_compute; reflexivity| |intros i; unfold fx_ctx, x_mems; destruct (Nat.eqb i 3); reflexivity].
  intros b t v H. unfold fx_number in H. destruct b as [|c [|? ?]]; try discriminate H. destruct ((49 <=? c) && (c <=? 57)) eqn:B; [|discriminate H]. injection H as <- <-.
  exists [c], true, [], false, false, LitSpec.c_int. split; [reflexivity|]. split; [apply LitSpec.ic_dec; [lia|]; cbn [LitSpec.numeral]; unfold LitSpec.dec_digit; replace ((48 <=? c) && (c <=? 57)) with true by lia; f_equal; lia|]. split; [constructor|]. split; [|reflexivity].
  cbn [LitSpec.candidates LitSpec.first_fit LitSpec.type_max]. replace (c - 48 <=? 2 ^ 31 - 1) with true by lia. reflexivity.
Qed.
Definition fx_tree : sx :=
  let p := XAtom (AId (bs "p"%string)) in let y := bs "y"%string in
  XComma (XAssign (Some SAdd) (XMem true p y) (XBin (XO SSub) (XUn USizeof (XUn UDeref p)) (XAtom (AId (bs "i"%string)))))
         (XBin (XO SMul) (XMem false (XUn UDeref p) y) (XAtom (ANum (bs "2"%string)))).
Lemma fx_grammar : gr C11 GExpr (text fx_tree) fx_tree /\ (forall i, ~ In (KBrace i) (text fx_tree)).
Proof.
  split; [|intros i; vm_compute; intuition discriminate]. apply C52_grammar_is_C. pose proof (gr_wrap Taken GExpr fx_tree (text fx_tree) I (text_grammar fx_tree eq_refl)) as G. exact G.
Qed.
Example C67_nonvacuous : exists c n k', text fx_tree <> [] /\ means (declared fx_ops fx_ctx) fx_ctx fx_number fx_tree 0 = Some (c, 0%nat) /\ plain c = true /\ ctype c = Some (TInt false) /\
  front fx_ctx (text fx_tree ++ [KP Semi]) 0 10 = Some (n, 0%nat, k', [KP Semi]) /\ (k' <= 20)%nat /\
  value_and (cev (e_addr sx_env) sx_prog sx_call false c sx_mem) (fun m => le_load m (loc 0 + 8) 4) = Some (6, 3) /\
  value_and (ev sx_env false n sx_mem) (fun m => le_load m (loc 0 + 8) 4) = Some (6, 3) /\ qual false n = Some 64.
Proof.
  do 3 eexists. split; [discriminate|]. split; [vm_compute; reflexivity|]. split; [reflexivity|]. split; [reflexivity|]. split; [vm_compute; reflexivity|]. split; [lia|]. split; [vm_compute; reflexivity|]. split; vm_compute; reflexivity.
Qed.
