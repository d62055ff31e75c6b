(** Properties C03, C06, C07, C08: string arrays and source text filters. *)
From Verif Require Import Base UnicodeModel UnicodeSpec TextModel TextSpec TextProofs.
Local Notation length := List.length.

(** The C string in the buffer of a result. *)
Definition text_of (r : res bytes) : option bytes :=
  match r with Done p => Some (cstring p) | _ => None end.

(** C03. Whatever garbage malloc returns, the array holds the pushed strings in
    order, and no write leaves the allocation ([Done], not [OOB]). *)
Theorem C03_strarray_holds_pushes {T} (junk : nat -> option T) (l : list T) :
  exists a, push_all junk (StrArray [] 0) l = Done a /\ len a = length l /\
    (len a <= length (data a))%nat /\ firstn (len a) (data a) = map Some l.
Proof. exact (push_all_spec junk l (StrArray [] 0) [] (or_introl (conj eq_refl (conj eq_refl eq_refl)))). Qed.
Print Assumptions C03_strarray_holds_pushes.

(** The element after the last one is not a NULL terminator: callers must push
    NULL themselves (as run_linker does). *)
Theorem C03_sentinel_refuted :
  exists (junk : nat -> option nat) (l : list nat) a,
    push_all junk (StrArray [] 0) l = Done a /\ nth_error (data a) (len a) <> Some None.
Proof. exists (fun _ => Some 7%nat), [1%nat]. eexists. split; [reflexivity|]. discriminate. Qed.
Print Assumptions C03_sentinel_refuted.

Example C03_example : exists a, push_all (fun _ => None) (StrArray [] 0) (seq 0 9) = Done a /\ length (data a) = 16%nat.
Proof. eexists. split; vm_compute; reflexivity. Qed.

(** C06. On a buffer holding a text, a NUL and arbitrary bytes, the filter ends
    (the fuel [S (length s)] suffices), stays inside the buffer, and leaves the
    text with CR LF and CR replaced by LF. *)
Theorem C06_canonicalize_newline s junk : text s ->
  exists t junk', newline_norm s t /\
    canonicalize_newline (S (length s)) (s ++ 0 :: junk) 0 0 = Done (t ++ 0 :: junk').
Proof. exact (canon_top s junk). Qed.
Print Assumptions C06_canonicalize_newline.

(** The relation determines the result, which has no CR, keeps all other bytes
    in order, and is a fixed point. *)
Theorem C06_result_characterised s t : newline_norm s t ->
  (forall t', newline_norm s t' -> t' = t) /\ ~ In 13 t /\ newline_norm t t /\
  filter (fun c => negb ((c =? 10) || (c =? 13))) t = filter (fun c => negb ((c =? 10) || (c =? 13))) s.
Proof.
  exact (fun H => conj (fun t' H' => newline_norm_fun s t' t H' H)
    (conj (newline_norm_nocr s t H) (conj (newline_norm_id t (newline_norm_nocr s t H)) (newline_norm_keeps s t H)))).
Qed.
Print Assumptions C06_result_characterised.

Example C06_example :
  text_of (canonicalize_newline 20 ([97; 13; 10; 13; 13; 10; 98] ++ 0 :: [5]) 0 0) = Some [97; 10; 10; 10; 98].
Proof. vm_compute. reflexivity. Qed.

(** C07 *)
Theorem C07_remove_backslash_newline s junk : text s ->
  exists t junk', splice 0 s t /\
    remove_backslash_newline (S (length s)) (s ++ 0 :: junk) 0 0 0 = Done (t ++ 0 :: junk').
Proof. exact (splice_top s junk). Qed.
Print Assumptions C07_remove_backslash_newline.

Theorem C07_newlines_and_bytes_kept s t : splice 0 s t ->
  count 10 t = count 10 s /\ filter not_newline t = filter not_newline (unsplice s).
Proof. exact (fun H => conj (eq_trans (splice_count 0 s t H) (Nat.add_0_r _)) (splice_keeps 0 s t H)). Qed.
Print Assumptions C07_newlines_and_bytes_kept.

(** At the end of each logical line (a newline not preceded by a backslash) the
    number of newlines written equals the number read, and the rest of the file
    is handled as if it stood alone: line numbers are unchanged there. *)
Theorem C07_line_numbers_after_splice s1 s2 t : splice 0 (s1 ++ 10 :: s2) t -> last s1 0 <> 92 ->
  exists t1 t2, t = t1 ++ t2 /\ splice 0 s2 t2 /\ count 10 t1 = count 10 (s1 ++ [10]).
Proof.
  intros H Hl. destruct (splice_line_split s1 0 s2 t H Hl) as [t1 [t2 [A [B C]]]].
  exists t1, t2. split; [exact A|]. split; [exact B|]. rewrite C, count_app, Nat.add_0_r. reflexivity.
Qed.
Print Assumptions C07_line_numbers_after_splice.

Example C07_example : (* the newline saved after a is given back after b *)
  text_of (remove_backslash_newline 20 ([97; 92; 10; 98; 10; 99] ++ [0]) 0 0 0) = Some [97; 98; 10; 10; 99].
Proof. vm_compute. reflexivity. Qed.

(** C08. [last s 0 <> 92]: the text does not end in a backslash; read_file
    makes it end in a newline, see [C08_clean_source] below. *)
Theorem C08_convert_universal_chars s junk : text s -> big_ucn_free s -> last s 0 <> 92 ->
  exists t junk', ucn_conv utf8_of s t /\
    convert_universal_chars (S (length s)) (s ++ 0 :: junk) 0 0 = Done (t ++ 0 :: junk').
Proof. exact (ucn_utf8_top s junk). Qed.
Print Assumptions C08_convert_universal_chars.

Theorem C08_result_characterised s t : ucn_conv utf8_of s t ->
  (forall t', ucn_conv utf8_of s t' -> t' = t) /\ (~ In 92 s -> t = s).
Proof.
  exact (fun H => conj (fun t' H' => eq_sym (ucn_conv_fun utf8_of s t H t' H'))
    (fun N => ucn_conv_fun utf8_of s t H s (ucn_conv_id utf8_of s N))).
Qed.
Print Assumptions C08_result_characterised.

Example C08_example : (* the first name is converted, the second is protected by a backslash *)
  text_of (convert_universal_chars 30 (bs "\u20ac\\u20ac" ++ [10; 0]) 0 0)
  = Some ([226; 130; 172] ++ bs "\\u20ac" ++ [10]).
Proof. vm_compute. reflexivity. Qed.

(** A final backslash makes the filter run over the terminator. *)
Theorem C08_trailing_backslash_refuted :
  exists s, text s /\ convert_universal_chars (S (length s)) (s ++ [0]) 0 0 = OOB.
Proof. exists [92]. split; [intros [H|[]]; discriminate H|reflexivity]. Qed.
Print Assumptions C08_trailing_backslash_refuted.

(** The three filters in the order of tokenize_file, from any file without NUL
    bytes: always ends, never leaves the buffer; the text seen by the tokenizer
    is the file (less byte order mark, plus a final newline if missing) passed
    through the three rewritings; code points over U+10FFFF named by \U are the
    only ones whose encoding is not UTF-8 (see C08_convert_universal_chars). *)
Theorem C08_clean_source contents : text contents ->
  exists s t1 t2 t3 junk,
    (s = contents \/ s = contents ++ [10] \/
     0xEF :: 0xBB :: 0xBF :: s = contents \/ 0xEF :: 0xBB :: 0xBF :: s = contents ++ [10]) /\
    last s 0 = 10 /\ newline_norm s t1 /\ splice 0 t1 t2 /\ ucn_conv encode_utf8 t2 t3 /\
    clean_source contents = Done (t3 ++ 0 :: junk).
Proof. exact (clean_source_spec contents). Qed.
Print Assumptions C08_clean_source.
