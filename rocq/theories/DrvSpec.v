(** What the driver must do: how make reads names, what a command line means, what the
    steps may leave behind. *)
From Verif Require Import Base DrvModel.

(** ** GNU make *)
(** Read up to a [stop] character. Backslashes only matter before such a character: half of
    them stay, and an odd number makes it an ordinary one. [k]: backslashes just read. *)
Fixpoint unquote (stop : Z -> bool) (k : nat) (s : bytes) : bytes * option bytes :=
  match s with
  | [] => (repeat 92 k, None)
  | c :: r =>
      if c =? 92 then unquote stop (S k) r
      else if stop c then
        if Nat.even k then (repeat 92 (Nat.div2 k), Some r)
        else let '(t, u) := unquote stop 0 r in (repeat 92 (Nat.div2 k) ++ c :: t, u)
      else let '(t, u) := unquote stop 0 r in (repeat 92 k ++ c :: t, u)
  end.
(** Variable references: only $$ is understood here *)
Fixpoint expand_dollar (s : bytes) : option bytes :=
  match s with
  | [] => Some []
  | 36 :: 36 :: r => option_map (cons 36) (expand_dollar r)
  | 36 :: _ => None
  | c :: r => option_map (cons c) (expand_dollar r)
  end.
(** The words of a list, separated by blanks that are not quoted; [cur]: the word begun *)
Definition flush (w : bytes) : list bytes := match w with [] => [] | _ => [w] end.
Fixpoint words (k : nat) (cur s : bytes) : list bytes :=
  match s with
  | [] => flush (cur ++ repeat 92 k)
  | c :: r =>
      if c =? 92 then words (S k) cur r
      else if (c =? 32) || (c =? 9) then
        if Nat.even k then flush (cur ++ repeat 92 (Nat.div2 k)) ++ words 0 [] r
        else words 0 (cur ++ repeat 92 (Nat.div2 k) ++ [c]) r
      else words 0 (cur ++ repeat 92 k ++ [c]) r
  end.
(** A rule in one line: comment removed, variables expanded, targets before the colon *)
Definition make_rule (line : bytes) : option (list bytes * list bytes) :=
  match expand_dollar (fst (unquote (Z.eqb 35) 0 line)) with
  | None => None
  | Some t => match unquote (Z.eqb 58) 0 t with (_, None) => None | (tg, Some deps) => Some (words 0 [] tg, words 0 [] deps) end
  end.
(** Lines continued by backslash-newline are one line *)
Fixpoint join_lines (s : bytes) : bytes :=
  match s with
  | 92 :: 10 :: r => 32 :: join_lines r
  | c :: r => c :: join_lines r
  | [] => []
  end.
(** Names that can be written in a rule: no colon, newline or NUL, no number sign after a
    backslash, and no backslash at the end *)
Fixpoint nameable (prev : Z) (s : bytes) : bool :=
  match s with
  | [] => negb (prev =? 92)
  | c :: r => negb ((c =? 58) || (c =? 10) || (c =? 0)) && negb ((c =? 35) && (prev =? 92)) && nameable c r
  end.
(** Names that need no quoting *)
Definition plain_name (s : bytes) : bool :=
  negb (beq s []) && forallb (fun c => negb (existsb (Z.eqb c) [0; 9; 10; 32; 35; 36; 58; 92])) s.

(** ** Command lines *)
Inductive flag := Fhash | FcS | Fc | FE | FM | FMD | FMMD | FMP | Fstatic | Fshared | Fs | Fpic | FPIC | Fcommon | Fno_common.
Definition flag_name (f : flag) : bytes :=
  match f with
  | Fhash => bs "-###" | FcS => bs "-S" | Fc => bs "-c" | FE => bs "-E" | FM => bs "-M" | FMD => bs "-MD" | FMMD => bs "-MMD" | FMP => bs "-MP"
  | Fstatic => bs "-static" | Fshared => bs "-shared" | Fs => bs "-s" | Fpic => bs "-fpic" | FPIC => bs "-fPIC" | Fcommon => bs "-fcommon" | Fno_common => bs "-fno-common"
  end.
Inductive aopt := Oout | Oinc | Odef | Oundef | Oinclude | Ox | Oxlinker | OMF | OMT | OL | Oidirafter.
Definition aopt_name (a : aopt) : bytes :=
  match a with
  | Oout => bs "-o" | Oinc => bs "-I" | Odef => bs "-D" | Oundef => bs "-U" | Oinclude => bs "-include" | Ox => bs "-x"
  | Oxlinker => bs "-Xlinker" | OMF => bs "-MF" | OMT => bs "-MT" | OL => bs "-L" | Oidirafter => bs "-idirafter"
  end.
(** What is on a command line: a flag, an option that is ignored, an option with its argument
    in the next word or in the same one, a library, an input file *)
Inductive item :=
  | Flag (f : flag)
  | Ignored (s : bytes)
  | Sep (a : aopt) (arg : bytes)
  | Att (a : aopt) (arg : bytes)
  | Lib (s : bytes)
  | Wl (s : bytes)
  | Input (s : bytes).
Definition spell (i : item) : list bytes :=
  match i with
  | Flag f => [flag_name f]
  | Ignored s => [s]
  | Sep a x => [aopt_name a; x]
  | Att a x => [aopt_name a ++ x]
  | Lib s => [bs "-l" ++ s]
  | Wl s => [bs "-Wl," ++ s]
  | Input s => [s]
  end.
(** The options that have an attached spelling *)
Definition attachable (a : aopt) : bool := match a with Oout | Oinc | Odef | Oundef | Ox | OL => true | _ => false end.
Definition takes_arg : list bytes := map aopt_name [Oout; Oinc; Oidirafter; Oinclude; Ox; OMF; OMT; Oxlinker].
Definition good_item (i : item) : Prop :=
  match i with
  | Flag _ | Lib _ | Wl _ => True
  | Ignored s => In s (map bs ["-O0"; "-O1"; "-O2"; "-O3"; "-Wall"; "-g"; "-std=c11"; "-w"; "-m64"; "-ffreestanding"; "-fno-builtin"; "-fno-omit-frame-pointer"; "-fno-stack-protector"; "-fno-strict-aliasing"; "-mno-red-zone"; "-march=native"]%string)
  | Sep a x => match a with
               | Ox => In x (map bs ["c"; "assembler"; "none"]%string)
               | Odef | Oundef | OL => ~ In x takes_arg
               | _ => True
               end
  | Att a x => attachable a = true /\ x <> [] /\ (a = Ox -> In x (map bs ["c"; "assembler"; "none"]%string))
  | Input s => s = [45] \/ hd 0 s <> 45
  end.
(** -I dir and -idirafter dir, in two words *)
Definition separate_dir (i : item) : bool := match i with Sep (Oinc | Oidirafter) _ => true | _ => false end.
(** What each item contributes *)
Definition inputs_of (l : list item) : list bytes := flat_map (fun i => match i with Lib s => [bs "-l" ++ s] | Wl s => [bs "-Wl," ++ s] | Input s => [s] | _ => [] end) l.
Definition arg_of (a : aopt) (i : item) : list bytes :=
  match i with
  | Sep b x | Att b x => if beq (aopt_name a) (aopt_name b) then [x] else []
  | _ => []
  end.
Definition args_of (a : aopt) (l : list item) : list bytes := flat_map (arg_of a) l.
Definition last_of (l : list bytes) : option bytes := last (map Some l) None.
Definition has (f : flag) (l : list item) : bool := existsb (fun i => match i with Flag g => beq (flag_name f) (flag_name g) | _ => false end) l.
(** -D NAME is NAME=1 *)
Inductive defines : bytes -> macro -> Prop :=
  | def_one n : ~ In 61 n -> defines n (MDef n (bs "1"))
  | def_eq n b : ~ In 61 n -> defines (n ++ [61] ++ b) (MDef n b).
(** The macro definitions and undefinitions, in order *)
Inductive macros : list item -> list macro -> Prop :=
  | macros_nil : macros [] []
  | macros_def i x m l ms : arg_of Odef i = [x] -> defines x m -> macros l ms -> macros (i :: l) (m :: ms)
  | macros_undef i x l ms : arg_of Oundef i = [x] -> macros l ms -> macros (i :: l) (MUndef x :: ms)
  | macros_other i l ms : arg_of Odef i = [] -> arg_of Oundef i = [] -> macros l ms -> macros (i :: l) ms.
(** Arguments for the linker, in order *)
Definition ld_of (l : list item) : list bytes :=
  flat_map (fun i => match i with
    | Flag Fstatic => [bs "-static"] | Flag Fshared => [bs "-shared"] | Flag Fs => [bs "-s"]
    | Sep Oxlinker x => [x]
    | Sep OL x | Att OL x => [bs "-L"; x]
    | _ => []
    end) l.

(** ** Steps *)
(** The temporary files there are after the steps *)
Fixpoint temps (l : list event) (live : list nat) : list nat :=
  match l with
  | [] => live
  | EvTemp n :: r => temps r (live ++ [n])
  | EvUnlink n :: r => temps r (filter (fun m => negb (Nat.eqb n m)) live)
  | _ :: r => temps r live
  end.
Definition is_proc (e : event) : bool := match e with EvCc1 _ _ | EvAs _ _ | EvLd _ _ => true | _ => false end.
Definition procs (l : list event) : list event := filter is_proc l.
(** The user's files that a step writes when it succeeds *)
Definition writes (e : event) : list bytes :=
  match e with
  | EvCc1 _ (Some (User p)) => [p]
  | EvAs _ (User p) => [p]
  | EvLd _ p => [p]
  | _ => []
  end.
(** A step reads only temporary files written by an earlier step *)
Definition reads (e : event) : list nat :=
  match e with
  | EvAs (Temp n) _ => [n]
  | EvLd l _ => flat_map (fun p => match p with Temp n => [n] | _ => [] end) l
  | _ => []
  end.
Definition fills (e : event) : list nat :=
  match e with
  | EvCc1 _ (Some (Temp n)) => [n]
  | EvAs _ (Temp n) => [n]
  | _ => []
  end.

(** ** Linking *)
Definition ends (suffix f : bytes) : Prop := exists s, f = s ++ suffix.
(** The kind of an input: said by -x, or by its suffix *)
Definition c_source (o : opts) (f : bytes) : Prop := o_x o = FC \/ (o_x o = FNone /\ ends (bs ".c") f).
Definition asm_source (o : opts) (f : bytes) : Prop := o_x o = FAsm \/ (o_x o = FNone /\ ends (bs ".s") f).
Definition object_file (o : opts) (f : bytes) : Prop := o_x o = FNone /\ (ends (bs ".o") f \/ ends (bs ".a") f \/ ends (bs ".so") f).
(** The pieces between commas *)
Fixpoint commas (s : bytes) : list bytes :=
  match s with
  | [] => [[]]
  | c :: r => if c =? 44 then [] :: commas r else match commas r with h :: t => (c :: h) :: t | [] => [[c]] end
  end.
Definition pieces (s : bytes) : list bytes := filter (fun p => negb (beq p [])) (commas s).
(** The linker's inputs for the inputs of the command line: libraries and linker options,
    objects, and for a C source the object assembled from what was compiled from it *)
Inductive link_list (o : opts) (done : list event) : list bytes -> list path -> Prop :=
  | link_nil : link_list o done [] []
  | link_lib s l ps : link_list o done l ps -> link_list o done ((bs "-l" ++ s) :: l) (User (bs "-l" ++ s) :: ps)
  | link_wl s l ps : link_list o done l ps -> link_list o done ((bs "-Wl," ++ s) :: l) (map User (pieces s) ++ ps)
  | link_obj f l ps : object_file o f -> hd 0 f <> 45 -> link_list o done l ps -> link_list o done (f :: l) (User f :: ps)
  | link_c f u t l ps : c_source o f -> hd 0 f <> 45 -> In (EvCc1 f (Some (Temp u))) done -> In (EvAs (Temp u) (Temp t)) done ->
      link_list o done l ps -> link_list o done (f :: l) (Temp t :: ps).
(** Inputs the linking mode knows, except assembly *)
Definition linkable (o : opts) (f : bytes) : Prop :=
  is_prefix (bs "-l") f = true \/ is_prefix (bs "-Wl,") f = true \/ (hd 0 f <> 45 /\ (c_source o f \/ object_file o f)).
