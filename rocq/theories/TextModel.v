(** Model of the source text filters of /repo/tokenize.c:787-884, working in
    place on the buffer, and of /repo/string.c.

    A buffer is the list of all its bytes, including the terminating NUL and
    whatever follows it in memory. Reads and writes outside the list are the
    distinct outcome [OOB]; running out of fuel is [NoFuel]. *)
From Verif Require Import Base UnicodeModel.

Inductive res (A : Type) := Done (a : A) | OOB | NoFuel.
Arguments Done {A} a.
Arguments OOB {A}.
Arguments NoFuel {A}.

(** p[j] = x *)
Definition write {A} (b : bytes) (j : nat) (x : Z) (k : bytes -> res A) : res A :=
  if (j <? List.length b)%nat then k (set_nth j x b) else OOB.

(** tokenize.c:787-804 canonicalize_newline, loop at indices i, j *)
Fixpoint canonicalize_newline (fuel : nat) (p : bytes) (i j : nat) : res bytes :=
  match fuel with
  | O => NoFuel
  | S f =>
      match nth_error p i with
      | None => OOB
      | Some c =>
          if c =? 0 then write p j 0 Done
          else if c =? 13 then
            match nth_error p (i + 1) with
            | None => OOB
            | Some d =>
                if d =? 10 then write p j 10 (fun p' => canonicalize_newline f p' (i + 2) (j + 1))
                else write p j 10 (fun p' => canonicalize_newline f p' (i + 1) (j + 1))
            end
          else write p j c (fun p' => canonicalize_newline f p' (i + 1) (j + 1))
      end
  end.

(** tokenize.c:824-826 and 830-831: for (; n > 0; n--) p[j++] = '\n'; *)
Fixpoint put_newlines {A} (n : nat) (p : bytes) (j : nat) (k : bytes -> nat -> res A) : res A :=
  match n with
  | O => k p j
  | S n' => write p j 10 (fun p' => put_newlines n' p' (j + 1) k)
  end.

(** tokenize.c:807-833 remove_backslash_newline *)
Fixpoint remove_backslash_newline (fuel : nat) (p : bytes) (i j n : nat) : res bytes :=
  match fuel with
  | O => NoFuel
  | S f =>
      match nth_error p i with
      | None => OOB
      | Some c =>
          if c =? 0 then put_newlines n p j (fun p' j' => write p' j' 0 Done)
          else
            match (if c =? 92 then nth_error p (i + 1) else Some 0) with
            | None => OOB
            | Some d =>
                if (c =? 92) && (d =? 10) then
                  remove_backslash_newline f p (i + 2) j (n + 1)
                else if c =? 10 then
                  write p j c (fun p' =>
                    put_newlines n p' (j + 1) (fun p'' j' =>
                      remove_backslash_newline f p'' (i + 1) j' 0))
                else write p j c (fun p' => remove_backslash_newline f p' (i + 1) (j + 1) n)
            end
      end
  end.

(** ctype isxdigit on a char, and tokenize.c:192-199 from_hex *)
Definition isxdigit (c : Z) : bool :=
  ((48 <=? c) && (c <=? 57)) || ((97 <=? c) && (c <=? 102)) || ((65 <=? c) && (c <=? 70)).

Definition from_hex (c : Z) : Z :=
  if (48 <=? c) && (c <=? 57) then c - 48
  else if (97 <=? c) && (c <=? 102) then c - 97 + 10
  else c - 65 + 10.

(** tokenize.c:835-847 read_universal_char(p + i, len): Some None is the
    C return value 0 for a non-hex digit; outer None is an out-of-bounds read. *)
Fixpoint read_universal_char (p : bytes) (i len : nat) (c : Z) : option Z :=
  match len with
  | O => Some c
  | S n =>
      match nth_error p i with
      | None => None
      | Some d =>
          if isxdigit d then
            read_universal_char p (S i) n (Z.lor (Z.shiftl c 4 mod 2^32) (from_hex d))
          else Some 0
      end
  end.

(** Stores the bytes [ws] from index [j] on. *)
Fixpoint write_all {A} (ws : bytes) (p : bytes) (j : nat) (k : bytes -> nat -> res A) : res A :=
  match ws with
  | [] => k p j
  | w :: r => write p j w (fun p' => write_all r p' (j + 1) k)
  end.

(** tokenize.c:850-884 convert_universal_chars; i, j are p and q.
    startwith(p, "\\u") reads p[1] only if p[0] is a backslash. *)
Fixpoint convert_universal_chars (fuel : nat) (p : bytes) (i j : nat) : res bytes :=
  match fuel with
  | O => NoFuel
  | S f =>
      match nth_error p i with
      | None => OOB
      | Some c =>
          if c =? 0 then write p j 0 Done
          else if c =? 92 then
            match nth_error p (i + 1) with
            | None => OOB
            | Some d =>
                if d =? 117 then (* \u *)
                  match read_universal_char p (i + 2) 4 0 with
                  | None => OOB
                  | Some u =>
                      if negb (u =? 0) then
                        write_all (encode_utf8 u) p j (fun p' j' => convert_universal_chars f p' (i + 6) j')
                      else write p j c (fun p' => convert_universal_chars f p' (i + 1) (j + 1))
                  end
                else if d =? 85 then (* \U *)
                  match read_universal_char p (i + 2) 8 0 with
                  | None => OOB
                  | Some u =>
                      if negb (u =? 0) then
                        write_all (encode_utf8 u) p j (fun p' j' => convert_universal_chars f p' (i + 10) j')
                      else write p j c (fun p' => convert_universal_chars f p' (i + 1) (j + 1))
                  end
                else
                  write p j c (fun p' =>
                    match nth_error p' (i + 1) with
                    | None => OOB
                    | Some d' => write p' (j + 1) d' (fun p'' => convert_universal_chars f p'' (i + 2) (j + 2))
                    end)
            end
          else write p j c (fun p' => convert_universal_chars f p' (i + 1) (j + 1))
      end
  end.

(** tokenize.c:886-896 ignore_bom_marker *)
Definition ignore_bom (p : bytes) : bytes :=
  match p with
  | 0xEF :: 0xBB :: 0xBF :: r => r
  | _ => p
  end.

(** C view of a buffer: the bytes before the first NUL. *)
Fixpoint cstring (p : bytes) : bytes :=
  match p with
  | [] => []
  | c :: r => if c =? 0 then [] else c :: cstring r
  end.

(** tokenize.c:755-766: read_file appends a newline if missing and a NUL. *)
Definition terminate (contents : bytes) : bytes :=
  (if last contents 0 =? 10 then contents else contents ++ [10]) ++ [0].

(** tokenize.c:898-908: the filters of tokenize_file in order, on the buffer
    returned by read_file. *)
Definition clean_source (contents : bytes) : res bytes :=
  let p := ignore_bom (terminate contents) in
  let fuel := S (List.length p) in
  match canonicalize_newline fuel p 0 0 with
  | Done p1 =>
      match remove_backslash_newline fuel p1 0 0 0 with
      | Done p2 => convert_universal_chars fuel p2 0 0
      | e => e
      end
  | e => e
  end.

(** /repo/string.c:23-39 strarray_push. [data] has [capacity] cells; a cell
    holds [Some s], [None] for NULL; cells of a fresh malloc are junk, modelled
    by the parameter [junk]. *)
Record strarray (T : Type) := StrArray { data : list (option T); len : nat }.
Arguments StrArray {T} data len.
Arguments data {T} s.
Arguments len {T} s.

Definition strarray_push {T} (junk : nat -> option T) (a : strarray T) (s : T) : res (strarray T) :=
  let d1 := match data a with [] => map junk (seq 0 8) | d => d end in
  let cap := List.length d1 in
  let d2 := if (cap =? len a)%nat then d1 ++ repeat None cap else d1 in
  if (len a <? List.length d2)%nat then Done (StrArray (set_nth (len a) (Some s) d2) (S (len a)))
  else OOB.

Fixpoint push_all {T} (junk : nat -> option T) (a : strarray T) (l : list T) : res (strarray T) :=
  match l with
  | [] => Done a
  | s :: r => match strarray_push junk a s with Done a' => push_all junk a' r | e => e end
  end.
