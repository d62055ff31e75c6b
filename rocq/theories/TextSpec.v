(** What the text phases must do, as rewriting on plain texts. *)
From Verif Require Import Base UnicodeSpec.

(** A text is a byte string without NUL. *)
Definition text (s : bytes) : Prop := ~ In 0 s.

(** Phase 1: CR LF and CR become LF. *)
Inductive newline_norm : bytes -> bytes -> Prop :=
  | nn_nil : newline_norm [] []
  | nn_crlf s t : newline_norm s t -> newline_norm (13 :: 10 :: s) (10 :: t)
  | nn_cr s t : hd 0 s <> 10 -> newline_norm s t -> newline_norm (13 :: s) (10 :: t)
  | nn_other c s t : c <> 13 -> newline_norm s t -> newline_norm (c :: s) (c :: t).

(** Phase 2: splitting a text in physical lines; a line ending in a backslash
    is joined with the next one, and the newlines saved are given back at the
    end of the logical line (or of the text). [splice n s t]: [n] newlines are
    owed. *)
Inductive splice : nat -> bytes -> bytes -> Prop :=
  | sp_nil n : splice n [] (repeat 10 n)
  | sp_join n s t : splice (S n) s t -> splice n (92 :: 10 :: s) t
  | sp_newline n s t : splice 0 s t -> splice n (10 :: s) (10 :: repeat 10 n ++ t)
  | sp_other n c s t : c <> 10 -> (c = 92 -> hd 0 s <> 10) -> splice n s t -> splice n (c :: s) (c :: t).

Definition count (c : Z) (s : bytes) : nat := count_occ Z.eq_dec s c.

(** Deleting backslash-newline pairs, left to right. *)
Fixpoint unsplice (s : bytes) : bytes :=
  match s with
  | 92 :: 10 :: r => unsplice r
  | c :: r => c :: unsplice r
  | [] => []
  end.

Definition not_newline (c : Z) : bool := negb (c =? 10).

(** Hexadecimal numbers. *)
Definition hex_digit (c : Z) : option Z :=
  if (48 <=? c) && (c <=? 57) then Some (c - 48)
  else if (65 <=? c) && (c <=? 70) then Some (c - 55)
  else if (97 <=? c) && (c <=? 102) then Some (c - 87)
  else None.

Fixpoint hex_value (acc : Z) (s : bytes) : option Z :=
  match s with
  | [] => Some acc
  | c :: r => match hex_digit c with Some d => hex_value (acc * 16 + d) r | None => None end
  end.

(** A universal character name: the digits denote a non-zero code point. *)
Definition ucn (digits : bytes) (n : nat) (v : Z) : Prop :=
  List.length digits = n /\ hex_value 0 digits = Some v /\ v <> 0.

(** \uXXXX and \UXXXXXXXX are replaced by their encoding [enc] (UTF-8 is [utf8_of]); a backslash protects the
    next character, so that \\u is not a universal character name. *)
Inductive ucn_conv (enc : Z -> bytes) : bytes -> bytes -> Prop :=
  | uc_nil : ucn_conv enc [] []
  | uc_u ds v s t : ucn ds 4 v -> ucn_conv enc s t -> ucn_conv enc (92 :: 117 :: ds ++ s) (enc v ++ t)
  | uc_U ds v s t : ucn ds 8 v -> ucn_conv enc s t -> ucn_conv enc (92 :: 85 :: ds ++ s) (enc v ++ t)
  | uc_esc c s t :
      (forall ds v r, c :: s <> 117 :: ds ++ r \/ ~ ucn ds 4 v) ->
      (forall ds v r, c :: s <> 85 :: ds ++ r \/ ~ ucn ds 8 v) ->
      ucn_conv enc s t -> ucn_conv enc (92 :: c :: s) (92 :: c :: t)
  | uc_other c s t : c <> 92 -> ucn_conv enc s t -> ucn_conv enc (c :: s) (c :: t).

(** Code points named by \U in the text are in the Unicode range. *)
Definition big_ucn_free (s : bytes) : Prop :=
  forall pre ds v post, s = pre ++ 92 :: 85 :: ds ++ post -> ucn ds 8 v -> v <= scalar_max.
