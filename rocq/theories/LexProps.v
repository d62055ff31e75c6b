(** Properties C09, C10, C11: the tokenizer. *)
From Verif Require Import Base UnicodeModel TextModel LexModel LexSpec LexProofs.
Local Notation length := List.length.

(** C09. On success the text is exactly gap, token, gap, token, ..., end of
    file: tokens are non-empty, in order, disjoint, and between them there is
    only white space and comments. *)
Theorem C09_tokens_tile_source s toks : source s -> tokenize s = LOk toks -> tiles s 0 true toks.
Proof. exact (tokenize_tiles s toks). Qed.
Print Assumptions C09_tokens_tile_source.

(** Termination and memory safety, for texts ending in a newline, which is what
    read_file makes of every file: the outcome is a token list or a diagnostic. *)
Theorem C09_tokenize_safe s : source s -> last s 0 = 10 ->
  (exists toks, tokenize s = LOk toks) \/ tokenize s = LErr.
Proof. exact (tokenize_total s). Qed.
Print Assumptions C09_tokenize_safe.

(** Without the final newline it is false: the tokenizer runs off the buffer in
    a line comment. [paste] calls it on such buffers: pasting / and / with ##
    gives this text. *)
Theorem C09_safe_without_newline_refuted : exists s, source s /\ tokenize s = LOOB.
Proof.
  exists (bs "//"). split; [|reflexivity].
  intros b Hb. vm_compute in Hb. unfold is_byte. destruct Hb as [<-|[<-|[]]]; lia.
Qed.
Print Assumptions C09_safe_without_newline_refuted.

(** C10. Identifiers, punctuators and pp-numbers are as long as possible. *)
Theorem C10_maximal_munch s toks : source s -> tokenize s = LOk toks ->
  forall t, In t toks -> class_ok (skipn (loc t) s) t.
Proof. exact (tokenize_class s toks). Qed.
Print Assumptions C10_maximal_munch.

(** C11. Line numbers. *)
Theorem C11_line_numbers s toks : source s -> tokenize s = LOk toks ->
  forall t, In t toks -> line_no t = (1 + newlines (firstn (loc t) s))%nat.
Proof. exact (tokenize_lines s toks). Qed.
Print Assumptions C11_line_numbers.

(** Each token comes after a gap [g] which follows the previous token (or starts
    the file): at_bol holds iff the token is the first of the file or the gap has
    a newline outside comments, has_space iff the gap has white space or a
    comment after its last newline. *)
Theorem C11_at_bol_has_space s toks : source s -> tokenize s = LOk toks ->
  forall t, In t toks -> exists pre g post,
    s = pre ++ gap_bytes g ++ post /\ loc t = (0 + length (pre ++ gap_bytes g))%nat /\ gap_ok g post /\
    at_bol t = ((negb (nonempty pre) && true) || existsb is_newline g)%bool /\
    has_space t = nonempty (last_line g) /\
    (pre = [] \/ exists t', In t' toks /\ (loc t' + tlen t' = 0 + length pre)%nat).
Proof. exact (fun Hs H => tiles_flags s 0 true toks (tokenize_tiles s toks Hs H)). Qed.
Print Assumptions C11_at_bol_has_space.

(** C10 for the C11 grammar of pp-numbers, where an underscore belongs to the
    number: the tokenizer stops before it. *)
Theorem C10_ppnumber_underscore_refuted : exists toks,
  tokenize (bs "1_a" ++ [10]) = LOk toks /\ map kind toks = [TK_PP_NUM; TK_IDENT; TK_EOF].
Proof. eexists. split; [vm_compute; reflexivity|reflexivity]. Qed.
Print Assumptions C10_ppnumber_underscore_refuted.

Example C09_nonvacuous : exists toks,
  tokenize (bs "a<<=b/* c */+ .5e+3" ++ [10] ++ bs "x // y" ++ [10]) = LOk toks /\
  map (fun t => (kind t, loc t, tlen t)) toks =
    [(TK_IDENT, 0%nat, 1%nat); (TK_PUNCT, 1%nat, 3%nat); (TK_IDENT, 4%nat, 1%nat); (TK_PUNCT, 12%nat, 1%nat);
     (TK_PP_NUM, 14%nat, 5%nat); (TK_IDENT, 20%nat, 1%nat); (TK_EOF, 27%nat, 0%nat)] /\
  map line_no toks = [1; 1; 1; 1; 1; 2; 3]%nat /\
  map at_bol toks = [true; false; false; false; false; true; true] /\
  map has_space toks = [false; false; false; true; true; false; false].
Proof. eexists. split; [vm_compute; reflexivity|]. repeat split. Qed.
