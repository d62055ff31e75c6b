(** Property C69: the tree of a statement is the one of the grammar of C. *)
From Verif Require Import Base UnicodeModel TextModel LexModel LexSpec LitModel LitSpec PpModel SpellSpec SpellProofs SourceModel SpellProps NodeModel ParseModel ParseSpec ParseProofs ParseGrammar ParsePrint ParseProps BlockModel BlockSpec BlockProofs.
From Coq Require Import ZifyBool ZifyNat.
Local Notation length := List.length.

(** The parser always comes to an end *)
Theorem C69_total ts : parse_stmt ts <> BFuel /\ parse_body ts <> BFuel.
Proof.
  pose proof (proj1 (gd_stmt _) ts (le_n _)) as A. pose proof (proj2 (gd_stmt _) ts (le_n _)) as B. unfold parse_stmt, parse_body. split; intros E; [rewrite E in A; exact A|rewrite E in B; exact B].
Qed.
Print Assumptions C69_total.

(** A statement of the grammar is read to its end, whatever follows (but an else that its
    last if has not got yet), and has the tree of the grammar, up to the association of
    commas; so has the body of a function. Missing: asm, and expressions as in C52. *)
Theorem C69_grammar_partial ts s rest : stm Taken ts s -> (dangling s = true -> no_else rest) -> exists s', parse_stmt (ts ++ rest) = BOk s' rest /\ same_stmt s' s.
Proof. intros H NE. destruct (proj1 grammar_stmt ts s H) as (s' & N & P). exists s'. split; [|exact N]. apply P; [exact NE|]. rewrite app_length. lia. Qed.
Print Assumptions C69_grammar_partial.
Theorem C69_body_partial ts b rest : blk Taken ts b -> exists b', parse_body (ts ++ KP RBrace :: rest) = BOk b' rest /\ same_block b' b.
Proof. intros H. destruct (proj2 grammar_stmt ts b H) as (b' & N & P). exists b'. split; [|exact N]. apply P. rewrite app_length. lia. Qed.
Print Assumptions C69_body_partial.

(** All of that is C; without braces in expressions and initializers, and without asm, it is
    all of C *)
Theorem C69_grammar_is_C ts s : (stm Taken ts s -> stm C11 ts s) /\ ((forall i, ~ In (KBrace i) ts) -> ~ In (KW WAsm) ts -> stm C11 ts s -> stm Taken ts s).
Proof. split; [apply taken_stmt|]. intros NB NA H. apply c11_stmt; [exact H|]. split; [exact NB|exact NA]. Qed.
Print Assumptions C69_grammar_is_C.

(** No sequence of tokens is two statements *)
Theorem C69_unambiguous ts s s' : (forall i, ~ In (KBrace i) ts) -> ~ In (KW WAsm) ts -> stm C11 ts s -> stm C11 ts s' -> same_stmt s s'.
Proof.
  intros NB NA H H'. apply C69_grammar_is_C in H, H'; auto. destruct (C69_grammar_partial ts s [] H) as (a & A & Na); [intros; exact I|]. destruct (C69_grammar_partial ts s' [] H') as (b & B & Nb); [intros; exact I|]. unfold same_stmt in *. congruence.
Qed.
Print Assumptions C69_unambiguous.
(** ... nor does one begin with another, but for the missing else *)
Theorem C69_prefix_free ts s us s' : stm Taken ts s -> stm Taken (ts ++ us) s' -> us = [] \/ exists vs, dangling s = true /\ us = KW WElse :: vs.
Proof.
  intros H H'. destruct (dangling s && match us with KW WElse :: _ => true | _ => false end) eqn:D.
  - right. apply andb_prop in D. destruct D as [D E]. destruct us as [|[| | | | | | | | | | | | |[]] vs]; try discriminate E. eauto.
  - left. destruct (C69_grammar_partial ts s us H) as (a & A & _). { intros DS. rewrite DS in D. destruct us as [|[| | | | | | | | | | | | |[]] vs]; try exact I. discriminate D. }
    destruct (C69_grammar_partial (ts ++ us) s' [] H') as (b & B & _); [intros; exact I|]. rewrite app_nil_r, A in B. now injection B.
Qed.
Print Assumptions C69_prefix_free.

(** An else belongs to the nearest if: if (c) if (d) a else b *)
Theorem C69_nearest_if tc c td d ta a tb b rest : gr Taken GExpr tc c -> gr Taken GExpr td d -> stm Taken ta a -> dangling a = false -> stm Taken tb b -> no_else rest ->
  exists s', parse_stmt (KW WIf :: KP LPar :: tc ++ KP RPar :: KW WIf :: KP LPar :: td ++ KP RPar :: ta ++ KW WElse :: tb ++ rest) = BOk s' rest /\ same_stmt s' (YIf c (YIfElse d a b)).
Proof.
  intros C D A DA B NE. pose proof (y_if Taken _ _ _ _ C (y_if_else Taken _ _ _ _ _ _ D A DA B)) as G. destruct (C69_grammar_partial _ _ rest G (fun _ => NE)) as (s' & P & S). exists s'. split; [|exact S]. rewrite <- P. f_equal.
  cbn [app]. repeat (rewrite <- app_assoc; cbn [app]). reflexivity.
Qed.
Print Assumptions C69_nearest_if.

(** What is accepted is a statement of the grammar, with the wider expressions of C52 and an
    asm that does not need its semicolon; and its tree is the tree there. In particular no
    else is taken by an if that is not the nearest *)
Theorem C69_accepted_partial ts s rest : parse_stmt ts = BOk s rest -> exists t s', ts = t ++ rest /\ stm Loose t s' /\ same_stmt s s' /\ (dangling s = true -> no_else rest).
Proof.
  intros H. destruct (proj1 (stmt_sound _) _ _ _ H) as [(t & s' & -> & N & S) D]. exists t, s'. unfold same_stmt. split; [reflexivity|]. split; [exact S|]. split; [now symmetry|exact D].
Qed.
Print Assumptions C69_accepted_partial.
Theorem C69_accepted_body_partial ts b rest : parse_body ts = BOk b rest -> exists t b', ts = t ++ KP RBrace :: rest /\ blk Loose t b' /\ same_block b b'.
Proof. intros H. destruct (proj2 (stmt_sound _) _ _ _ H) as (t & b' & -> & N & S). exists t, b'. split; [reflexivity|]. split; [exact S|]. unfold same_block. now symmetry. Qed.
Print Assumptions C69_accepted_body_partial.

(** A tree that is printed is read back, and so different trees are printed differently *)
Theorem C69_round_trip b rest : proper_block b = true -> exists b', parse_body (block_text b ++ KP RBrace :: rest) = BOk b' rest /\ same_block b' b.
Proof. intros Pr. apply C69_body_partial. now apply text_stmt. Qed.
Print Assumptions C69_round_trip.
Theorem C69_text_injective b b' : proper_block b = true -> proper_block b' = true -> block_text b = block_text b' -> same_block b b'.
Proof.
  intros P1 P2 E. destruct (C69_round_trip b [] P1) as (x & X & Nx). destruct (C69_round_trip b' [] P2) as (y & Y & Ny). rewrite E in X. unfold same_block in *. congruence.
Qed.
Print Assumptions C69_text_injective.

(** asm ends at its parenthesis: if (x) asm("nop"); else ; is not accepted *)
Theorem C69_asm_refuted : exists ts s, stm C11 ts s /\ forall rest, parse_stmt (ts ++ rest) = BErr \/ exists s', parse_stmt (ts ++ rest) = BOk s' (KP Semi :: KW WElse :: KP Semi :: rest).
Proof.
  exists [KW WIf; KP LPar; KId (bs "x"%string); KP RPar; KW WAsm; KP LPar; KStr (bs "nop"%string); KP RPar; KP Semi; KW WElse; KP Semi], (YIfElse (XAtom (AId (bs "x"%string))) (YAsm (bs "nop"%string)) YEmpty). split.
  - apply (y_if_else C11 [KId (bs "x"%string)] (XAtom (AId (bs "x"%string))) [KW WAsm; KP LPar; KStr (bs "nop"%string); KP RPar; KP Semi] (YAsm (bs "nop"%string)) [KP Semi] YEmpty).
    + apply (gr_up C11 16 GPrim GExpr); [reflexivity|exact I|exact I|constructor].
    + apply (y_asm C11 0). discriminate.
    + reflexivity.
    + constructor.
  - intros rest. right. exists (YIf (XAtom (AId (bs "x"%string))) (YAsm (bs "nop"%string))).
    destruct (p_paren_gr [KId (bs "x"%string)] (XAtom (AId (bs "x"%string)))) as (c & N & PC). { apply (gr_up Taken 16 GPrim GExpr); [reflexivity|exact I|exact I|constructor]. }
    assert (c = XAtom (AId (bs "x"%string))) as -> by (apply norm_atom; exact N).
    unfold parse_stmt. rewrite app_length. cbn [length app]. replace (2 * (11 + length rest) + 1)%nat with (S (S (2 * length rest + 21))) by lia. rewrite p_stmt_S. specialize (PC (KW WAsm :: KP LPar :: KStr (bs "nop"%string) :: KP RPar :: KP Semi :: KW WElse :: KP Semi :: rest)). cbn [app] in PC. rewrite PC. reflexivity.
Qed.
Print Assumptions C69_asm_refuted.
(** ... and asm volatile("nop"); is two statements, of which the second is empty *)
Theorem C69_asm_empty_refuted : exists ts b b', blk C11 ts b /\ parse_body (ts ++ [KP RBrace]) = BOk b' [] /\ ~ same_block b' b.
Proof.
  exists [KW WAsm; KW WQual; KP LPar; KStr (bs "nop"%string); KP RPar; KP Semi], (IStmt (YAsm (bs "nop"%string)) INil), (IStmt (YAsm (bs "nop"%string)) (IStmt YEmpty INil)). split; [|split; [reflexivity|discriminate]].
  apply (b_stmt C11 [KW WAsm; KW WQual; KP LPar; KStr (bs "nop"%string); KP RPar; KP Semi] _ [] INil); [|constructor]. apply (y_asm C11 1). discriminate.
Qed.
Print Assumptions C69_asm_empty_refuted.

(** ** An example:
    int i = 0, *p; for (int j = 9; j; --j) { switch (i) { case 1 ... 3: break; default: continue; } if (j) if (i) goto out; else i++; }
    do ; while (i < 5); out: return i; *)
Definition bx_id (s : string) : sx := XAtom (AId (bs s)).
Definition bx_num (s : string) : sx := XAtom (ANum (bs s)).
Definition bx_block : items :=
  let i := bx_id "i"%string in let j := bx_id "j"%string in
  IDecl (bs "int"%string) [Dcl 0 (bs "i"%string) (Some (DExpr (bx_num "0"%string))); Dcl 1 (bs "p"%string) None]
  (IStmt (YFor (FDecl (bs "int"%string) [Dcl 0 (bs "j"%string) (Some (DExpr (bx_num "9"%string)))]) (Some j) (Some (XUn UDec j))
    (YBlock (IStmt (YSwitch i (YBlock (IStmt (YCase (bx_num "1"%string) (Some (bx_num "3"%string)) YBreak) (IStmt (YDefault YContinue) INil))))
            (IStmt (YIf j (YIfElse i (YGoto (bs "out"%string)) (YExpr (XPost true i)))) INil))))
  (IStmt (YDo YEmpty (XBin (XO SLt) i (bx_num "5"%string)))
  (IStmt (YLabel (bs "out"%string) (YReturn (Some i))) INil))).
Example C69_nonvacuous : proper_block bx_block = true /\ length (block_text bx_block) = 68%nat /\ blk Taken (block_text bx_block) bx_block /\ parse_body (block_text bx_block ++ [KP RBrace; KId (bs "x"%string)]) = BOk bx_block [KId (bs "x"%string)] /\
  (exists l m r, block_text bx_block = l ++ m ++ r /\ stm Taken m (YIf (bx_id "j"%string) (YIfElse (bx_id "i"%string) (YGoto (bs "out"%string)) (YExpr (XPost true (bx_id "i"%string)))))).
Proof.
  split; [reflexivity|]. split; [reflexivity|]. split; [apply text_stmt; reflexivity|]. split; [vm_compute; reflexivity|].
  exists (firstn 38 (block_text bx_block)), (firstn 15 (skipn 38 (block_text bx_block))), (skipn 53 (block_text bx_block)). split; [vm_compute; reflexivity|].
  change (firstn 15 (skipn 38 (block_text bx_block))) with (stmt_text (YIf (bx_id "j"%string) (YIfElse (bx_id "i"%string) (YGoto (bs "out"%string)) (YExpr (XPost true (bx_id "i"%string)))))). apply text_stmt. reflexivity.
Qed.


(** ** From characters: a text whose elements are those of the body of a function of C11, and
    its closing brace, has the tree the grammar gives it. Missing: macros (C17), type names and so
    declarations, strings and character constants, asm. *)
Lemma no_brace_element k w b : tok_of k w <> Some (KBrace b).
Proof.
  unfold tok_of. destruct k; try discriminate.
  - intro H. destruct (lookup words_of w) as [y|] eqn:Y; [|destruct (is_keyword w); discriminate].
    injection H as ->. revert Y. unfold words_of. cbn [lookup]. repeat match goal with |- (if ?c then _ else _) = _ -> _ => destruct c; [discriminate|] end. discriminate.
  - destruct (lookup puncts w); discriminate.
Qed.
Theorem C69_source_partial fuel E st i s l ts b : source s -> spells s l ->
  (forall x, In x l -> e_text x <> bs "#"%string /\ (e_kind x = TK_IDENT -> lookup (macros st) (e_text x) = None)) -> conds st = [] ->
  Forall2 (fun x t => tok_of (e_kind x) (e_text x) = Some t) l (ts ++ [KP RBrace]) -> (length l < fuel)%nat ->
  ~ In (KW WAsm) ts -> blk C11 ts b ->
  exists ts' b', parser_input fuel E st i s = LOk (Some ts') /\ parse_body ts' = BOk b' [] /\ same_block b' b.
Proof.
  intros Hs H HP HC HF Hf NA G. exists (ts ++ [KP RBrace]).
  assert (NB : forall b, ~ In (KBrace b) ts).
  { intros x X. assert (X' : In (KBrace x) (ts ++ [KP RBrace])) by (apply in_or_app; left; exact X). clear - HF X'. induction HF as [|y t l0 ts0 HF0 HF1 IH]; [destruct X'|].
    destruct X' as [->|X']; [exact (no_brace_element _ _ _ HF0)|exact (IH X')]. }
  apply (proj2 c11_stmt) in G; [|split; assumption]. destruct (C69_body_partial ts b [] G) as (b' & P & T).
  exists b'. split; [|split; [exact P|exact T]]. exact (C68_parser_input_partial fuel E st i s l (ts ++ [KP RBrace]) Hs H HP HC HF Hf).
Qed.
Print Assumptions C69_source_partial.
(** while (i) { if (a[i] == 2) break; i--; } return i; *)
Definition sc_b : items :=
  let i := bx_id "i"%string in
  IStmt (YWhile i (YBlock (IStmt (YIf (XBin (XO SEq) (XIndex (bx_id "a"%string) i) (bx_num "2"%string)) YBreak) (IStmt (YExpr (XPost false i)) INil))))
  (IStmt (YReturn (Some i)) INil).
Definition sc_l : list element :=
  let p s := Element TK_PUNCT (bs s) 0 0 [] in let i s := Element TK_IDENT (bs s) 0 0 [] in
  [i "while"; p "("; i "i"; p ")"; p "{"; i "if"; p "("; i "a"; p "["; i "i"; p "]"; p "=="; Element TK_PP_NUM (bs "2") 0 0 []; p ")"; i "break"; p ";"; i "i"; p "--"; p ";"; p "}";
   i "return"; i "i"; p ";"; p "}"]%string.
Example C69_source_nonvacuous : blk C11 (block_text sc_b) sc_b /\ Forall2 (fun x t => tok_of (e_kind x) (e_text x) = Some t) sc_l (block_text sc_b ++ [KP RBrace]) /\
  Forall alone sc_l /\ spells (spaced sc_l) sc_l /\ source (spaced sc_l) /\ spaced sc_l = bs "while ( i ) { if ( a [ i ] == 2 ) break ; i -- ; } return i ; } "%string ++ [10].
Proof.
  assert (A : Forall alone sc_l).
  { unfold sc_l. repeat apply Forall_cons; try (apply al_punct; cbn; tauto); try (match goal with |- alone (Element TK_IDENT (bs (String ?c ?w)) _ _ _) => apply (al_ident _ (bs w)); [reflexivity|]; repeat constructor end); [|apply Forall_nil].
    apply al_number. exists 50, [], 0%nat. split; [reflexivity|]. split; [left; reflexivity|]. split; [apply pp_end|reflexivity]. }
  split; [apply taken_stmt, text_stmt; reflexivity|]. split; [unfold sc_l; cbn; repeat apply Forall2_cons; try (vm_compute; reflexivity); apply Forall2_nil|].
  split; [exact A|]. split; [apply spells_spaced; exact A|]. split; [|reflexivity].
  intros b Hb. unfold is_byte. cbn in Hb. repeat (destruct Hb as [<-|Hb]; [lia|]). destruct Hb.
Qed.
