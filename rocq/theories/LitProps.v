(** Properties C05, C12, C13, C14, C15: literals. *)
From Verif Require Import Base UnicodeModel UnicodeSpec UnicodeProofs TextModel TextSpec LexModel LexSpec LexProofs LitModel LitSpec LitProofs.
Local Notation length := List.length.
Local Notation concat := List.concat.

(** C05. A u"..." / U"..." / L"..." literal whose text is the UTF-8 encoding of
    the characters [cs]: the array holds their UTF-16 / UTF-32 encoding and a
    terminator, and decoding it gives the characters back. *)
Theorem C05_utf16_literal cs rest f pos bol sp : Forall plain_char cs ->
  exists v n, tokenize_loop (S f) (bs "u" ++ 34 :: flat_map utf8_of cs ++ 34 :: rest) pos bol sp =
    lbind (tokenize_loop f rest (pos + n) false false) (fun ts => LOk (Tok TK_STR pos n bol sp 0 0 16 (v ++ [0]) :: ts)) /\
    v = flat_map utf16_of cs /\ utf16_decode v = cs.
Proof.
  intro H. eexists _, _. split.
  - apply (tokenize_string_literal (bs "u") 16); [simpl; auto|]. apply (plain_body 16); auto.
  - split; [reflexivity|]. apply utf16_decode_encode. eapply Forall_impl; [|exact H]. intros a Ha. apply Ha.
Qed.
Print Assumptions C05_utf16_literal.

Theorem C05_utf32_literal pre cs rest f pos bol sp : pre = bs "U" \/ pre = bs "L" -> Forall plain_char cs ->
  exists n, tokenize_loop (S f) (pre ++ 34 :: flat_map utf8_of cs ++ 34 :: rest) pos bol sp =
    lbind (tokenize_loop f rest (pos + n) false false) (fun ts => LOk (Tok TK_STR pos n bol sp 0 0 32 (cs ++ [0]) :: ts)).
Proof.
  intros Hp H. eexists. assert (E : flat_map (encode_elem 32) cs = cs).
  { clear. induction cs as [|c cs IH]; [reflexivity|]. cbn. f_equal. exact IH. }
  assert (T := tokenize_string_literal pre 32 (flat_map utf8_of cs) _ rest f pos bol sp
    ltac:(destruct Hp as [-> | ->]; simpl; auto 8) (plain_body 32 cs (or_intror eq_refl) H)).
  rewrite E in T. exact T.
Qed.
Print Assumptions C05_utf32_literal.

(* one, two, three and four byte characters; the last needs a surrogate pair *)
Example C05_nonvacuous : Forall plain_char [97; 0xE9; 0x20AC; 0x1D11E] /\
  flat_map utf16_of [97; 0xE9; 0x20AC; 0x1D11E] = [97; 0xE9; 0x20AC; 0xD834; 0xDD1E].
Proof. split; [|reflexivity]. unfold plain_char, is_scalar, scalar_max. repeat constructor; lia. Qed.

(** C12. An integer literal (digits of its base, optional suffix), followed by
    anything that does not extend it, gets its mathematical value modulo 2^64 in
    an int64_t, and the first type of the list of C11 6.4.4.1 that can represent it. *)
Theorem C12_integer_literal b dec v suf l u tail t :
  int_const b dec v -> suffix suf l u -> ends_number tail -> v < 2^64 ->
  first_fit (candidates dec l u) v = Some t ->
  exists val, convert_pp_int (b ++ suf ++ tail) (length (b ++ suf)) = Some (val, ty_of t) /\
              val mod 2^64 = v /\ - 2^63 <= val < 2^63.
Proof.
  intros H1 H2 H3 H4 H5. exists (int64 v). split; [exact (convert_pp_int_spec b dec v suf l u tail t H1 H2 H3 H4 H5)|].
  assert (0 <= v).
  { destruct H1 as [c ds v _ Hn|ds v Hn|x c ds v _ Hn|x c ds v _ Hn]; eapply numeral_nonneg in Hn;
    eauto using dec_ok, oct_ok, hex_ok, bin_ok; lia. }
  unfold int64. split; [|generalize (Z.mod_pos_bound (v + 2^63) (2^64)); lia].
  rewrite Zminus_mod_idemp_l. replace (v + 2^63 - 2^63) with v by lia. apply Z.mod_small. lia.
Qed.
Print Assumptions C12_integer_literal.

Example C12_nonvacuous : int_const (bs "0xFFFFFFFF") false 4294967295 /\ suffix (bs "lU") true true /\ suffix [] false false /\
  first_fit (candidates false false false) 4294967295 = Some c_uint /\
  convert_pp_int (bs "0xFFFFFFFF;") 10 = Some (4294967295, UInt) /\
  convert_pp_int (bs "2147483648;") 10 = Some (2147483648, Long).
Proof.
  split; [apply (ic_hex 120 70 (bs "FFFFFFF")); [auto|reflexivity]|].
  split; [apply (sf_lu (bs "U") (bs "l")); simpl; auto|]. split; [constructor|]. repeat split; vm_compute; reflexivity.
Qed.

(** A decimal literal that fits no type of its list is not rejected: it wraps. *)
Theorem C12_too_large_accepted_refuted :
  first_fit (candidates true false false) (2^63) = None /\
  convert_pp_int (bs "9223372036854775808") 19 = Some (- 2^63, Long) /\
  convert_pp_int (bs "18446744073709551616") 20 = Some (-1, Long).
Proof. repeat split; vm_compute; reflexivity. Qed.
Print Assumptions C12_too_large_accepted_refuted.

(** strtoul skips a second 0x, so a malformed literal is accepted. *)
Theorem C12_double_prefix_refuted : convert_pp_int (bs "0x0x5") 5 = Some (5, Int).
Proof. vm_compute. reflexivity. Qed.
Print Assumptions C12_double_prefix_refuted.

(** C13. The literal with body [src], which denotes the elements [v], becomes
    one token with contents [v] and a terminator; it ends at the closing quote,
    and tokenizing goes on right after it. *)
Theorem C13_string_literal pre bits src v rest f pos bol sp :
  In (pre, bits) string_prefixes -> body bits src v ->
  let n := (length pre + 1 + length src + 1)%nat in
  tokenize_loop (S f) (pre ++ 34 :: src ++ 34 :: rest) pos bol sp =
  lbind (tokenize_loop f rest (pos + n) false false)
        (fun ts => LOk (Tok TK_STR pos n bol sp 0 0 bits (v ++ [0]) :: ts)).
Proof. exact (tokenize_string_literal pre bits src v rest f pos bol sp). Qed.
Print Assumptions C13_string_literal.

Theorem C13_char_literal src v rest : char_body src v ->
  read_char_literal (src ++ 39 :: rest) = LOk (v, length src).
Proof. exact (read_char_body src v rest). Qed.
Print Assumptions C13_char_literal.

(** The decoding loop never leaves the literal, whatever its text: the outcome
    is contents or a diagnostic, and the contents with their terminator fit the
    buffer the code allocates: with d the distance from the opening to the
    closing quote, d bytes, 4d bytes for UTF-16 (that is 2d elements), 4d bytes
    for UTF-32 (d elements) (tokenize.c:272, 305, 346). *)
Theorem C13_decoding_in_bounds bits p : source p -> last p 0 <> 92 ->
  read_string bits p = LErr \/
  exists l n, read_string bits p = LOk (l, n) /\ (n < length p)%nat /\
    (length l <= (if (bits =? 16)%Z then 2 else 1) * (n + 1))%nat.
Proof.
  intros H1 H2. destruct (read_string_total bits p H1 H2) as [A B].
  destruct (read_string bits p) as [[l n]| | |] eqn:E; try congruence; [right|left; reflexivity].
  exists l, n. split; [reflexivity|]. split; [exact (read_string_bound _ _ _ _ E)|].
  exact (read_string_fits bits p l n H1 E).
Qed.
Print Assumptions C13_decoding_in_bounds.

(* a, newline escape, octal and hexadecimal escape, G, escaped quote *)
Example C13_nonvacuous : body 8 [97; 92; 110; 92; 49; 48; 49; 92; 120; 52; 49; 71; 92; 34] [97; 10; 65; 65; 71; 34].
Proof.
  apply body_byte; try lia.
  apply body_simple; [reflexivity|].
  apply (body_oct 8 [49; 48; 49] 65); [simpl; lia|reflexivity|left; reflexivity|].
  apply (body_hex 8 [52; 49] 65); [discriminate|reflexivity|intros [c [t [d [E H]]]]; injection E as <- _; discriminate|].
  apply body_byte; try lia. apply body_simple; [reflexivity|]. constructor.
Qed.

(** C14. Quoting a text without newline and NUL and tokenizing the result gives
    one string literal with that text as its contents. *)
Theorem C14_stringize_round_trip s : (forall b, In b s -> 0 < b < 256 /\ b <> 10) ->
  exists t e, tokenize (quote_string s) = LOk [t; e] /\ kind t = TK_STR /\ loc t = 0%nat /\ tlen t = length (quote_string s) /\
    tbits t = 8 /\ tstr t = s ++ [0] /\ kind e = TK_EOF.
Proof. exact (tokenize_quoted s). Qed.
Print Assumptions C14_stringize_round_trip.

(** The text that # makes of an argument: the spellings in order, one space
    before each token but the first that has white space before it. *)
Theorem C14_stringize_text toks : stringize toks = quote_string (join_tokens toks) /\
  forall s sp r, join_tokens ((s, sp) :: r) = s ++ concat (map (fun t : spelled => (if snd t then [32] else []) ++ fst t) r).
Proof. split; [reflexivity|]. intros. cbn [join_tokens]. rewrite flat_map_concat_map. reflexivity. Qed.
Print Assumptions C14_stringize_text.

(** A newline between two tokens of an argument is white space (C11 6.10.3p10,
    6.10.3.2p2) but leaves no space in the result. *)
Theorem C14_newline_lost_refuted : exists t1 t2 e,
  tokenize (bs "a" ++ [10] ++ bs "b" ++ [10]) = LOk [t1; t2; e] /\
  stringize [(bs "a", has_space t1); (bs "b", has_space t2)] = [34] ++ bs "ab" ++ [34].
Proof. eexists _, _, _. split; [vm_compute; reflexivity|vm_compute; reflexivity]. Qed.
Print Assumptions C14_newline_lost_refuted.

Example C14_nonvacuous : quote_string (bs "a\""b") = [34; 97; 92; 92; 92; 34; 98; 34].
Proof. reflexivity. Qed.

(** C15. Tokens of adjacent literals whose prefixes agree (up to absence): the
    joined array has the element type of the common prefix, and its memory is
    that of the concatenated contents, each piece read at that width, with one
    terminator. *)
Theorem C15_concatenation l ls t ts q w ws :
  token_of l t -> Forall2 token_of ls ts ->
  join_prefixes (l_prefix l) (map l_prefix ls) = Some q ->
  Forall2 (fun l w => body (prefix_bits q) (l_src l) w) (l :: ls) (w :: ws) ->
  join_adjacent (t :: ts) = LOk (prefix_bits q, S (length (concat (w :: ws))), array_image (prefix_bits q) (concat (w :: ws) ++ [0])).
Proof. exact (join_adjacent_spec l ls t ts q w ws). Qed.
Print Assumptions C15_concatenation.

Theorem C15_incompatible_rejected l ls t ts :
  token_of l t -> Forall2 token_of ls ts ->
  join_prefixes (l_prefix l) (map l_prefix ls) = None -> join_adjacent (t :: ts) = LErr.
Proof. exact (join_adjacent_reject l ls t ts). Qed.
Print Assumptions C15_incompatible_rejected.

Definition ex_a := Literal p_none (bs "a") (bs " u""b"";").
Definition ex_b := Literal p_u (bs "b") (bs ";").
Example C15_nonvacuous :
  token_of ex_a (StrTok (literal_text ex_a) 8 [97; 0]) /\ token_of ex_b (StrTok (literal_text ex_b) 16 [98; 0]) /\
  join_adjacent [StrTok (literal_text ex_a) 8 [97; 0]; StrTok (literal_text ex_b) 16 [98; 0]] = LOk (16, 3%nat, [97; 0; 98; 0; 0; 0]).
Proof.
  split; [|split; [|vm_compute; reflexivity]].
  - split; [reflexivity|]. split; [reflexivity|]. exists [97]. split; [|reflexivity]. apply body_byte; try (cbn; lia). constructor.
  - split; [reflexivity|]. split; [reflexivity|]. exists [98]. split; [|reflexivity].
    apply (body_char 16 98 [] []); try lia; [split; [unfold scalar_max|]; lia|constructor].
Qed.

(** u8 literals are taken for u literals: u8"a" u"b" is not rejected, the pieces
    keep different element widths and the copy runs past the allocated buffer. *)
Theorem C15_u8_overflow_refuted :
  join_adjacent [StrTok (bs "u8""a"" u""b"";") 8 [97; 0]; StrTok (bs "u""b"";") 16 [98; 0]] = LOOB.
Proof. vm_compute. reflexivity. Qed.
Print Assumptions C15_u8_overflow_refuted.
