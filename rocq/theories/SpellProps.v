(** C68. Lexical analysis is complete and unambiguous: every text that is spelled by lexical
    elements of C is tokenized as those elements, and they reach the parser. *)
From Verif Require Import Base UnicodeModel TextModel LexModel LexSpec LexProofs LitModel LitSpec PpModel NodeModel ParseModel ParseSpec ParseGrammar ParseProps SpellSpec SpellProofs SourceModel SourceProofs.
Local Notation length := List.length.

(** ** The tokenizer *)
Theorem C68_tokens s l : source s -> spells s l ->
  exists toks, tokenize s = LOk toks /\ map (element_of s) toks = l ++ [eof_element].
Proof. exact (tokenize_spells s l). Qed.
Print Assumptions C68_tokens.

(** A text has one reading *)
Theorem C68_unambiguous s l l' : source s -> spells s l -> spells s l' -> l = l'.
Proof.
  intros Hs H H'. destruct (tokenize_spells s l Hs H) as (t & T1 & T2). destruct (tokenize_spells s l' Hs H') as (t' & T1' & T2').
  assert (t' = t) as -> by congruence. rewrite T2 in T2'. apply app_inj_tail in T2'. apply T2'.
Qed.
Print Assumptions C68_unambiguous.

(** Writing elements with a space after each, and reading them back *)
Theorem C68_round_trip l : Forall alone l -> source (spaced l) ->
  exists toks, tokenize (spaced l) = LOk toks /\ map (element_of (spaced l)) toks = l ++ [eof_element].
Proof. intros H Hs. apply tokenize_spells; [exact Hs|apply spells_spaced; exact H]. Qed.
Print Assumptions C68_round_trip.

(** a+++b--/* */-->=0x1e+1: the elements a ++ + b -- -- >= 0x1e+1 *)
Definition ex_text : bytes := bs "a+++b--/* x */-->=0x1e+1u8//z" ++ [10].
Definition ex_elements : list element :=
  [Element TK_IDENT (bs "a") 0 0 []; Element TK_PUNCT (bs "++") 0 0 []; Element TK_PUNCT (bs "+") 0 0 []; Element TK_IDENT (bs "b") 0 0 [];
   Element TK_PUNCT (bs "--") 0 0 []; Element TK_PUNCT (bs "--") 0 0 []; Element TK_PUNCT (bs ">=") 0 0 []; Element TK_PP_NUM (bs "0x1e+1u8") 0 0 []].
Ltac no_punct := let q := fresh in let Hq := fresh in let r := fresh in let E := fresh in intros q Hq [r E]; cbn in Hq;
  repeat (destruct Hq as [<-|Hq]; [try (cbn; lia); try discriminate E|]); try destruct Hq.
Ltac no_here := let X := fresh in intro X; repeat match goal with H : exists _, _ |- _ => destruct H | H : _ /\ _ |- _ => destruct H | H : _ \/ _ |- _ => destruct H | H : comment_here _ |- _ => unfold comment_here in H | H : starts _ _ |- _ => destruct H | H : number_here _ |- _ => destruct H end; try discriminate.
Example C68_nonvacuous : source ex_text /\ spells ex_text ex_elements /\ Forall alone ex_elements.
Proof.
  assert (I1 : forall c r, decode_utf8 (c :: r) = (if c <? 128 then Some (c, 1%nat) else decode_utf8 (c :: r))).
  { intros c r. destruct (Z.ltb_spec c 128) as [L|L]; [|reflexivity]. unfold decode_utf8. cbn [at_ nth]. destruct (Z.ltb_spec c 128); [reflexivity|lia]. }
  assert (Q : forall c r d, is_ident1 c = true -> c < 128 -> d < 128 -> is_ident2 d = false -> ident_at (c :: d :: r) 1).
  { intros c r d H1 H2 H3 H4. exists c, 1%nat, 0%nat. rewrite (I1 c). destruct (Z.ltb_spec c 128); [|lia]. split; [reflexivity|]. split; [exact H1|]. split; [|reflexivity].
    cbn [skipn]. apply (run_stop _ d 1); [|exact H4]. rewrite I1. destruct (Z.ltb_spec d 128); [reflexivity|lia]. }
  split; [|split].
  - intros b Hb. unfold ex_text, is_byte in *. cbn in Hb. repeat (destruct Hb as [<-|Hb]; [lia|]). destruct Hb.
  - unfold ex_text, ex_elements. cbn [bs app].
    apply (sp_element [] (bs "a") (bs "+++b--/* x */-->=0x1e+1u8//z" ++ [10])); [exact I| |].
    { apply at_ident; [apply Q; reflexivity|]. intros (q & Hq & r & E). cbn in Hq. repeat (destruct Hq as [<-|Hq]; [discriminate E|]). destruct Hq. }
    apply (sp_element [] (bs "++") (bs "+b--/* x */-->=0x1e+1u8//z" ++ [10])); [exact I| |].
    { apply at_punct; [cbn; tauto|no_punct|no_here|no_here]. }
    apply (sp_element [] (bs "+") (bs "b--/* x */-->=0x1e+1u8//z" ++ [10])); [exact I| |].
    { apply at_punct; [cbn; tauto|no_punct|no_here|no_here]. }
    apply (sp_element [] (bs "b") (bs "--/* x */-->=0x1e+1u8//z" ++ [10])); [exact I| |].
    { apply at_ident; [apply Q; reflexivity|]. intros (q & Hq & r & E). cbn in Hq. repeat (destruct Hq as [<-|Hq]; [discriminate E|]). destruct Hq. }
    apply (sp_element [] (bs "--") (bs "/* x */-->=0x1e+1u8//z" ++ [10])); [exact I| |].
    { apply at_punct; [cbn; tauto|no_punct|no_here|no_here]. }
    apply (sp_element [BlockComment (bs " x ")] (bs "--") (bs ">=0x1e+1u8//z" ++ [10])); [| |].
    { cbn. split; [|exact I]. intros a b E. assert (length (a ++ 42 :: 47 :: b) = 4%nat) as L by (rewrite <- E; reflexivity).
      rewrite app_length in L. cbn [length] in L. destruct a as [|? [|? [|? a]]]; cbn in E, L; try lia; discriminate E. }
    { apply at_punct; [cbn; tauto|no_punct|no_here|no_here]. }
    apply (sp_element [] (bs ">=") (bs "0x1e+1u8//z" ++ [10])); [exact I| |].
    { apply at_punct; [cbn; tauto|no_punct|no_here|no_here]. }
    apply (sp_element [] (bs "0x1e+1u8") (bs "//z" ++ [10])); [exact I| |].
    { apply at_number. exists 48, (bs "x1e+1u8//z" ++ [10]), 7%nat. split; [reflexivity|]. split; [left; reflexivity|]. split; [|reflexivity]. cbn [bs app].
      apply pp_char; [left; reflexivity|intros [[X|[X|[X|X]]] _]; discriminate|]. apply pp_char; [left; reflexivity|intros [[X|[X|[X|X]]] _]; discriminate|].
      apply pp_sign; [left; reflexivity|left; reflexivity|]. apply pp_char; [left; reflexivity|intros [[X|[X|[X|X]]] _]; discriminate|].
      apply pp_char; [left; reflexivity|intros [[X|[X|[X|X]]] _]; discriminate|]. apply pp_char; [left; reflexivity|intros [[X|[X|[X|X]]] _]; discriminate|].
      apply pp_stop; [reflexivity|discriminate]. }
    apply (sp_end [LineComment (bs "z"); Newline]). cbn. split; [|split; [exact I|exact I]]. split; [intros [X|[]]; discriminate|]. exists []. reflexivity.
  - unfold ex_elements. repeat apply Forall_cons; [apply (al_ident 97 []); reflexivity|apply al_punct; cbn; tauto|apply al_punct; cbn; tauto|apply (al_ident 98 []); reflexivity|apply al_punct; cbn; tauto|apply al_punct; cbn; tauto|apply al_punct; cbn; tauto| |apply Forall_nil].
    apply al_number. exists 48, (bs "x1e+1u8"), 7%nat. split; [reflexivity|]. split; [left; reflexivity|]. split; [|reflexivity]. cbn [bs app].
    apply pp_char; [left; reflexivity|intros [[X|[X|[X|X]]] _]; discriminate|]. apply pp_char; [left; reflexivity|intros [[X|[X|[X|X]]] _]; discriminate|].
    apply pp_sign; [left; reflexivity|left; reflexivity|]. apply pp_char; [left; reflexivity|intros [[X|[X|[X|X]]] _]; discriminate|].
    apply pp_char; [left; reflexivity|intros [[X|[X|[X|X]]] _]; discriminate|]. apply pp_char; [left; reflexivity|intros [[X|[X|[X|X]]] _]; discriminate|]. apply pp_end.
Qed.

(** The digraphs of C11 6.4.6p3 are not tokens here: <: is read as < and : *)
Theorem C68_digraph_refuted : exists t1 t2 e, tokenize (bs "<:" ++ [10]) = LOk [t1; t2; e] /\ tlen t1 = 1%nat /\ tlen t2 = 1%nat.
Proof. eexists _, _, _. split; [vm_compute; reflexivity|split; reflexivity]. Qed.
Print Assumptions C68_digraph_refuted.

(** ** From the text to the tree of an expression *)
(** In a text without macro names and without #, the tokens reach the parser *)
Theorem C68_parser_input_partial fuel E st i s l ts : source s -> spells s l ->
  (forall e, In e l -> e_text e <> bs "#" /\ (e_kind e = TK_IDENT -> lookup (macros st) (e_text e) = None)) -> conds st = [] ->
  Forall2 (fun e t => tok_of (e_kind e) (e_text e) = Some t) l ts -> (length l < fuel)%nat ->
  parser_input fuel E st i s = LOk (Some ts).
Proof. intros Hs H HP HC HF Hf. apply (parser_input_spells fuel E st i s l ts); auto. apply Forall_forall. exact HP. Qed.
Print Assumptions C68_parser_input_partial.

(** A text whose elements are those of an expression of C11, and a semicolon after it, has the tree
    the grammar gives it. Missing for the full statement: macros (C17), type names, strings and
    character constants in the expression. *)
Theorem C68_tree_partial fuel E st i s l ts e : source s -> spells s l ->
  (forall x, In x l -> e_text x <> bs "#" /\ (e_kind x = TK_IDENT -> lookup (macros st) (e_text x) = None)) -> conds st = [] ->
  Forall2 (fun x t => tok_of (e_kind x) (e_text x) = Some t) l (ts ++ [KP Semi]) -> (length l < fuel)%nat ->
  gr C11 GExpr ts e ->
  exists ts' e', parser_input fuel E st i s = LOk (Some ts') /\ parse_expr ts' = Ok e' [KP Semi] /\ same_tree e' e.
Proof.
  intros Hs H HP HC HF Hf G. exists (ts ++ [KP Semi]).
  assert (NB : forall b, ~ In (KBrace b) ts).
  { intros b X. assert (X' : In (KBrace b) (ts ++ [KP Semi])) by (apply in_or_app; left; exact X). clear - HF X'. induction HF as [|x t l0 ts0 HF0 HF1 IH]; [destruct X'|].
    destruct X' as [->|X']; [|exact (IH X')]. unfold tok_of in HF0. destruct (e_kind x); try discriminate HF0.
    - destruct (lookup words_of (e_text x)) as [y|] eqn:Y; [|destruct (is_keyword (e_text x)); discriminate].
      injection HF0 as ->. revert Y. unfold words_of. generalize (e_text x). intro w. cbn [lookup]. repeat match goal with |- (if ?c then _ else _) = _ -> _ => destruct c; [discriminate|] end. discriminate.
    - destruct (lookup puncts (e_text x)); discriminate. }
  apply (proj2 (C52_grammar_is_C ts e) NB) in G. destruct (C52_grammar_partial ts e [KP Semi] G) as (e' & P & T).
  { clear. not_goes. }
  exists e'. split; [|split; [exact P|exact T]]. exact (C68_parser_input_partial fuel E st i s l (ts ++ [KP Semi]) Hs H HP HC HF Hf).
Qed.
Print Assumptions C68_tree_partial.

(** Any expression without type names, strings and braces, written out with spaces, is read
    back: from the tree to characters to the tree. *)
Theorem C68_expression_round_trip_partial fuel E st i l e : proper e = true ->
  Forall2 (fun x t => tok_of (e_kind x) (e_text x) = Some t) l (text e ++ [KP Semi]) -> Forall alone l ->
  source (spaced l) -> conds st = [] -> (length l < fuel)%nat ->
  (forall x, In x l -> e_kind x = TK_IDENT -> lookup (macros st) (e_text x) = None) ->
  exists ts e', parser_input fuel E st i (spaced l) = LOk (Some ts) /\ parse_expr ts = Ok e' [KP Semi] /\ same_tree e' e.
Proof.
  intros Hp HF HA Hs HC Hf HM. destruct (C52_round_trip e [KP Semi] Hp) as (e' & P & T); [clear; not_goes|].
  exists (text e ++ [KP Semi]), e'. split; [|split; [exact P|exact T]].
  apply (C68_parser_input_partial fuel E st i (spaced l) l (text e ++ [KP Semi]) Hs (spells_spaced l HA)); auto.
  intros x Hx. split; [|apply HM; exact Hx]. intro Ex.
  assert (G : exists t, tok_of (e_kind x) (e_text x) = Some t).
  { clear - HF Hx. induction HF; [destruct Hx|]. destruct Hx as [<-|Hx]; eauto. }
  destruct G as (t & Ht). rewrite Ex in Ht. rewrite Forall_forall in HA. specialize (HA x Hx). clear - HA Ex Ht.
  destruct HA as [c w H1 H2|w Hn|w Hw|pre bits src v Hb1 Hb2|pre bits src v y Hb1 Hb2]; cbn [e_text e_kind] in *.
  - injection Ex as -> _. discriminate H1.
  - subst w. destruct Hn as (c & r & m & E1 & E2 & _). injection E1 as <- <-. cbn in E2. destruct E2 as [E2|[E2 _]]; discriminate.
  - vm_compute in Ht. discriminate.
  - destruct pre; discriminate.
  - destruct pre; discriminate.
Qed.
Print Assumptions C68_expression_round_trip_partial.

(** -a[i] * (b + 2) *)
Definition rt_e : sx := XBin (XO SMul) (XUn UNeg (XIndex (XAtom (AId (bs "a"))) (XAtom (AId (bs "i"))))) (XBin (XO SAdd) (XAtom (AId (bs "b"))) (XAtom (ANum (bs "2")))).
Definition rt_l : list element :=
  let p s := Element TK_PUNCT (bs s) 0 0 [] in let i s := Element TK_IDENT (bs s) 0 0 [] in
  [p "-"; i "a"; p "["; i "i"; p "]"; p "*"; p "("; i "b"; p "+"; Element TK_PP_NUM (bs "2") 0 0 []; p ")"; p ";"]%string.
Example C68_expression_nonvacuous : proper rt_e = true /\ Forall2 (fun x t => tok_of (e_kind x) (e_text x) = Some t) rt_l (text rt_e ++ [KP Semi]) /\
  Forall alone rt_l /\ source (spaced rt_l) /\ spaced rt_l = bs "- a [ i ] * ( b + 2 ) ; " ++ [10].
Proof.
  split; [reflexivity|]. split; [unfold rt_l, rt_e; repeat apply Forall2_cons; try (vm_compute; reflexivity); apply Forall2_nil|]. split; [|split; [|reflexivity]].
  - unfold rt_l. repeat apply Forall_cons; try (apply al_punct; cbn; tauto); try (apply (al_ident _ []); reflexivity); [|apply Forall_nil].
    apply al_number. exists 50, [], 0%nat. split; [reflexivity|]. split; [left; reflexivity|]. split; [apply pp_end|reflexivity].
  - intros b Hb. unfold is_byte. cbn in Hb. repeat (destruct Hb as [<-|Hb]; [lia|]). destruct Hb.
Qed.
