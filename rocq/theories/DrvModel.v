(** Model of the driver, /repo/main.c: Makefile quoting, command line, the steps run. *)
From Verif Require Import Base.

(** ** Dependency output *)
(** main.c:127-128 buf[j++] = c; a write beyond the [cap] bytes allocated is undefined. *)
Definition put (cap : nat) (buf : bytes) (c : Z) : option bytes :=
  if Nat.ltb (List.length buf) cap then Some (buf ++ [c]) else None.
Fixpoint puts (cap : nat) (buf : bytes) (l : bytes) : option bytes :=
  match l with
  | [] => Some buf
  | c :: r => match put cap buf c with Some b => puts cap b r | None => None end
  end.
(** main.c:142 for (k = i - 1; k >= 0 && s[k] == '\\'; k--); [prev]: s[i-1], s[i-2], ... *)
Fixpoint back_run (prev : bytes) : nat :=
  match prev with
  | c :: r => if c =? 92 then S (back_run r) else 0
  | [] => 0
  end.
(** main.c:125-149 the loop of quote_makefile *)
Fixpoint quote_go (cap : nat) (prev rest buf : bytes) : option bytes :=
  match rest with
  | [] => if Nat.ltb (List.length buf) cap then Some buf else None   (* the final '\0', from calloc *)
  | c :: r =>
      let out := if c =? 36 then [36; 36]
                 else if c =? 35 then [92; 35]
                 else if (c =? 32) || (c =? 9) then repeat 92 (back_run prev) ++ [92; c]
                 else [c] in
      match puts cap buf out with Some b => quote_go cap (c :: prev) r b | None => None end
  end.
(** main.c:121-151 quote_makefile *)
Definition quote_makefile (s : bytes) : option bytes := quote_go (List.length s * 2 + 1) [] s [].

(** basename(3): the part after the last '/' that is not at the end *)
Fixpoint drop_slashes (l : bytes) : bytes := match l with c :: r => if c =? 47 then drop_slashes r else l | [] => [] end.
Fixpoint upto_slash (l : bytes) : bytes := match l with c :: r => if c =? 47 then [] else c :: upto_slash r | [] => [] end.
Definition basename (s : bytes) : bytes :=
  match s with
  | [] => [46]
  | _ => match drop_slashes (rev s) with [] => [47] | r => rev (upto_slash r) end
  end.
(** strrchr(filename, '.'), *dot = '\0' *)
Fixpoint after_dot (l : bytes) : option bytes := match l with c :: r => if c =? 46 then Some r else after_dot r | [] => None end.
Definition cut_dot (s : bytes) : bytes := match after_dot (rev s) with Some r => rev r | None => s end.
(** main.c:508-516 replace_extn *)
Definition replace_extn (tmpl extn : bytes) : bytes := cut_dot (basename tmpl) ++ extn.

(** main.c:518-527 in_std_include_path *)
Definition in_std (dirs : list bytes) (path : bytes) : bool :=
  existsb (fun d => is_prefix (d ++ [47]) path) dirs.

(** ** Command line *)
Inductive ftype := FNone | FC | FAsm | FObj | FAr | FDso.
Inductive macro := MDef (name body : bytes) | MUndef (name : bytes).
(** main.c:9-47 the static variables; a char pointer that may be NULL is an option *)
Record opts := Opts {
  o_E : bool; o_M : bool; o_MD : bool; o_MMD : bool; o_MP : bool; o_S : bool; o_c : bool; o_cc1 : bool; o_hash : bool;
  o_static : bool; o_shared : bool; o_fcommon : bool; o_fpic : bool; o_x : ftype;
  o_MF : option bytes; o_MT : option bytes; o_o : option bytes; o_out : option bytes; o_base : option bytes;
  o_inputs : list bytes; o_inc : list bytes; o_include : list (option bytes); o_ld : list (option bytes);
  o_idir : list bytes; o_macros : list macro;
}.
Definition opts0 (inc : list bytes) : opts :=
  {| o_E := false; o_M := false; o_MD := false; o_MMD := false; o_MP := false; o_S := false; o_c := false; o_cc1 := false; o_hash := false;
     o_static := false; o_shared := false; o_fcommon := true; o_fpic := false; o_x := FNone;
     o_MF := None; o_MT := None; o_o := None; o_out := None; o_base := None;
     o_inputs := []; o_inc := inc; o_include := []; o_ld := []; o_idir := []; o_macros := [] |}.
(** One field changed *)
Inductive upd_o :=
  | UE | UM | UMD | UMMD | UMP | US | Uc | Ucc1 | Uhash | Ustatic | Ushared | Ufcommon (b : bool) | Ufpic | Ux (t : ftype)
  | UMF (s : option bytes) | UMT (s : option bytes) | Uo (s : option bytes) | Uout (s : option bytes) | Ubase (s : option bytes)
  | Uinput (s : bytes) | Uinc (s : bytes) | Uinclude (s : option bytes) | Uld (s : option bytes) | Uidir (s : bytes) | Umacro (m : macro).
Definition setu (u : upd_o) (o : opts) : opts :=
  let '(Opts e m md mmd mp s c cc h st sh fc fp x mf mt oo ou ba inp inc incl ld idir ma) := o in
  match u with
  | UE => Opts true m md mmd mp s c cc h st sh fc fp x mf mt oo ou ba inp inc incl ld idir ma
  | UM => Opts e true md mmd mp s c cc h st sh fc fp x mf mt oo ou ba inp inc incl ld idir ma
  | UMD => Opts e m true mmd mp s c cc h st sh fc fp x mf mt oo ou ba inp inc incl ld idir ma
  | UMMD => Opts e m true true mp s c cc h st sh fc fp x mf mt oo ou ba inp inc incl ld idir ma
  | UMP => Opts e m md mmd true s c cc h st sh fc fp x mf mt oo ou ba inp inc incl ld idir ma
  | US => Opts e m md mmd mp true c cc h st sh fc fp x mf mt oo ou ba inp inc incl ld idir ma
  | Uc => Opts e m md mmd mp s true cc h st sh fc fp x mf mt oo ou ba inp inc incl ld idir ma
  | Ucc1 => Opts e m md mmd mp s c true h st sh fc fp x mf mt oo ou ba inp inc incl ld idir ma
  | Uhash => Opts e m md mmd mp s c cc true st sh fc fp x mf mt oo ou ba inp inc incl ld idir ma
  | Ustatic => Opts e m md mmd mp s c cc h true sh fc fp x mf mt oo ou ba inp inc incl (ld ++ [Some (bs "-static")]) idir ma
  | Ushared => Opts e m md mmd mp s c cc h st true fc fp x mf mt oo ou ba inp inc incl (ld ++ [Some (bs "-shared")]) idir ma
  | Ufcommon b => Opts e m md mmd mp s c cc h st sh b fp x mf mt oo ou ba inp inc incl ld idir ma
  | Ufpic => Opts e m md mmd mp s c cc h st sh fc true x mf mt oo ou ba inp inc incl ld idir ma
  | Ux t => Opts e m md mmd mp s c cc h st sh fc fp t mf mt oo ou ba inp inc incl ld idir ma
  | UMF v => Opts e m md mmd mp s c cc h st sh fc fp x v mt oo ou ba inp inc incl ld idir ma
  | UMT v => Opts e m md mmd mp s c cc h st sh fc fp x mf v oo ou ba inp inc incl ld idir ma
  | Uo v => Opts e m md mmd mp s c cc h st sh fc fp x mf mt v ou ba inp inc incl ld idir ma
  | Uout v => Opts e m md mmd mp s c cc h st sh fc fp x mf mt oo v ba inp inc incl ld idir ma
  | Ubase v => Opts e m md mmd mp s c cc h st sh fc fp x mf mt oo ou v inp inc incl ld idir ma
  | Uinput v => Opts e m md mmd mp s c cc h st sh fc fp x mf mt oo ou ba (inp ++ [v]) inc incl ld idir ma
  | Uinc v => Opts e m md mmd mp s c cc h st sh fc fp x mf mt oo ou ba inp (inc ++ [v]) incl ld idir ma
  | Uinclude v => Opts e m md mmd mp s c cc h st sh fc fp x mf mt oo ou ba inp inc (incl ++ [v]) ld idir ma
  | Uld v => Opts e m md mmd mp s c cc h st sh fc fp x mf mt oo ou ba inp inc incl (ld ++ [v]) idir ma
  | Uidir v => Opts e m md mmd mp s c cc h st sh fc fp x mf mt oo ou ba inp inc incl ld (idir ++ [v]) ma
  | Umacro v => Opts e m md mmd mp s c cc h st sh fc fp x mf mt oo ou ba inp inc incl ld idir (ma ++ [v])
  end.

(** main.c:75-93 take_arg *)
Definition take_arg (a : bytes) : bool :=
  existsb (beq a) (map bs ["-o"; "-I"; "-idirafter"; "-include"; "-x"; "-MF"; "-MT"; "-Xlinker"]%string).
(** main.c:95-103 define *)
Fixpoint split_eq (s : bytes) : option (bytes * bytes) :=
  match s with
  | [] => None
  | c :: r => if c =? 61 then Some ([], r) else match split_eq r with Some (a, b) => Some (c :: a, b) | None => None end
  end.
Definition define (s : bytes) : macro := match split_eq s with Some (n, b) => MDef n b | None => MDef s (bs "1") end.
(** main.c:105-117 parse_opt_x; None is error() *)
Definition parse_opt_x (s : bytes) : option ftype :=
  if beq s (bs "c") then Some FC else if beq s (bs "assembler") then Some FAsm else if beq s (bs "none") then Some FNone else None.

(** How parsing ends: exit(n), error(...) (which exits with 1), or the use of a NULL pointer *)
Inductive res := ROk (o : opts) | RExit (n : Z) | RError | RCrash.
(** One option: go on with the next argument, or after skipping one *)
Inductive pstep := PNext (o : opts) | PSkip (o : opts) | PEnd (r : res).
Definition ignored (a : bytes) : bool :=
  is_prefix (bs "-O") a || is_prefix (bs "-W") a || is_prefix (bs "-std=") a ||
  existsb (beq a) (map bs ["-g"; "-ffreestanding"; "-fno-builtin"; "-fno-omit-frame-pointer"; "-fno-stack-protector"; "-fno-strict-aliasing"; "-m64"; "-mno-red-zone"; "-w"; "-march=native"]%string).
(** main.c:165-388 the body of the loop: [a] is argv[i], [nx] is argv[i + 1] *)
Definition parse1 (a : bytes) (nx : option bytes) (o : opts) : pstep :=
  let is s := beq a (bs s) in
  let pre s := is_prefix (bs s) a in
  let rest2 := skipn 2 a in
  let deref (f : bytes -> opts) := match nx with Some x => PSkip (f x) | None => PEnd RCrash end in
  let opt_x x := match parse_opt_x x with Some t => Some (setu (Ux t) o) | None => None end in
  if is "-###"%string then PNext (setu Uhash o)
  else if is "-cc1"%string then PNext (setu Ucc1 o)
  else if is "--help"%string then PEnd (RExit 0)
  else if is "-o"%string then PSkip (setu (Uo nx) o)
  else if pre "-o"%string then PNext (setu (Uo (Some rest2)) o)
  else if is "-S"%string then PNext (setu US o)
  else if is "-fcommon"%string then PNext (setu (Ufcommon true) o)
  else if is "-fno-common"%string then PNext (setu (Ufcommon false) o)
  else if is "-c"%string then PNext (setu Uc o)
  else if is "-E"%string then PNext (setu UE o)
  else if pre "-I"%string then PNext (setu (Uinc rest2) o)
  else if is "-D"%string then deref (fun x => setu (Umacro (define x)) o)
  else if pre "-D"%string then PNext (setu (Umacro (define rest2)) o)
  else if is "-U"%string then deref (fun x => setu (Umacro (MUndef x)) o)
  else if pre "-U"%string then PNext (setu (Umacro (MUndef rest2)) o)
  else if is "-include"%string then PSkip (setu (Uinclude nx) o)
  else if is "-x"%string then
    match nx with
    | Some x => match opt_x x with Some o => PSkip o | None => PEnd RError end
    | None => PEnd RCrash
    end
  else if pre "-x"%string then match opt_x rest2 with Some o => PNext o | None => PEnd RError end
  else if pre "-l"%string || pre "-Wl,"%string then PNext (setu (Uinput a) o)
  else if is "-Xlinker"%string then PSkip (setu (Uld nx) o)
  else if is "-s"%string then PNext (setu (Uld (Some (bs "-s"))) o)
  else if is "-M"%string then PNext (setu UM o)
  else if is "-MF"%string then PSkip (setu (UMF nx) o)
  else if is "-MP"%string then PNext (setu UMP o)
  else if is "-MT"%string then
    match o_MT o with
    | None => PSkip (setu (UMT nx) o)
    | Some t => deref (fun x => setu (UMT (Some (t ++ [32] ++ x))) o)      (* glibc prints (null); not modelled *)
    end
  else if is "-MD"%string then PNext (setu UMD o)
  else if is "-MQ"%string then
    match nx with
    | None => PEnd RCrash
    | Some x =>
        match quote_makefile x with
        | None => PEnd RCrash
        | Some q => PSkip (setu (UMT (Some (match o_MT o with None => q | Some t => t ++ [32] ++ q end))) o)
        end
    end
  else if is "-MMD"%string then PNext (setu UMMD o)
  else if is "-fpic"%string || is "-fPIC"%string then PNext (setu Ufpic o)
  else if is "-cc1-input"%string then PSkip (setu (Ubase nx) o)
  else if is "-cc1-output"%string then PSkip (setu (Uout nx) o)
  else if is "-idirafter"%string then PSkip (setu (Uidir a) o)      (* argv[i++] is the option itself *)
  else if is "-static"%string then PNext (setu Ustatic o)
  else if is "-shared"%string then PNext (setu Ushared o)
  else if is "-L"%string then PSkip (setu (Uld nx) (setu (Uld (Some (bs "-L"))) o))
  else if pre "-L"%string then PNext (setu (Uld (Some rest2)) (setu (Uld (Some (bs "-L"))) o))
  else if is "-hashmap-test"%string then PEnd (RExit 0)
  else if ignored a then PNext o
  else match a with
       | 45 :: _ :: _ => PEnd RError
       | _ => PNext (setu (Uinput a) o)
       end.
Fixpoint parse_loop (l : list bytes) (o : opts) : res :=
  match l with
  | [] => ROk o
  | a :: r =>
      match parse1 a (hd_error r) o with
      | PNext o => parse_loop r o
      | PSkip o => match r with [] => ROk o | _ :: r' => parse_loop r' o end
      | PEnd e => e
      end
  end.
(** main.c:157-161 *)
Fixpoint check_args (l : list bytes) : bool :=
  match l with
  | [] => true
  | a :: r => if take_arg a then match r with [] => false | _ :: r' => check_args r' end else check_args r
  end.
Definition add_idir (o : opts) : opts :=
  fold_left (fun o d => setu (Uinc d) o) (o_idir o) o.
(** main.c:153-401 parse_args; [l] is argv[1..], [inc] the default include paths *)
Definition parse_args (inc : list bytes) (l : list bytes) : res :=
  if negb (check_args l) then RExit 1
  else match parse_loop l (opts0 inc) with
       | ROk o =>
           let o := add_idir o in
           match o_inputs o with
           | [] => RError
           | _ => ROk (if o_E o then setu (Ux FC) o else o)
           end
       | r => r
       end.

(** ** The steps of the driver *)
(** A file: named on the command line, or the n-th temporary file *)
Inductive path := User (s : bytes) | Temp (n : nat).
Inductive event :=
  | EvTemp (n : nat)                               (* mkstemp *)
  | EvCc1 (input : bytes) (output : option path)   (* toycc -cc1 -cc1-input ... -cc1-output ... *)
  | EvAs (input output : path)
  | EvLd (inputs : list path) (output : bytes)
  | EvUnlink (n : nat).
(** main.c:680-685 endswith *)
Definition endswith (p q : bytes) : bool := is_prefix (rev q) (rev p).
(** main.c:799-820 get_file_type; None is error() *)
Definition get_file_type (x : ftype) (f : bytes) : option ftype :=
  match x with
  | FNone =>
      if endswith f (bs ".a") then Some FAr else if endswith f (bs ".so") then Some FDso
      else if endswith f (bs ".o") then Some FObj else if endswith f (bs ".c") then Some FC
      else if endswith f (bs ".s") then Some FAsm else None
  | t => Some t
  end.
(** strtok(s, ","): the non-empty pieces *)
Fixpoint strtok (cur s : bytes) : list bytes :=
  match s with
  | [] => match cur with [] => [] | _ => [cur] end
  | c :: r => if c =? 44 then match cur with [] => strtok [] r | _ => cur :: strtok [] r end else strtok (cur ++ [c]) r
  end.

(** The world: does mkstemp succeed, does the n-th subprocess succeed *)
Record oracle := Oracle { mk_ok : nat -> bool; proc_ok : nat -> bool }.
(** The driver so far: what was done, the number of subprocesses and temporary files, the
    linker's inputs *)
Record dst := Dst { d_ev : list event; d_proc : nat; d_tmp : nat; d_ld : list path }.
(** Go on, or exit with a status; [DAbort] a failed assert *)
Inductive dres := DGo (s : dst) | DExit (n : Z) (s : dst) | DAbort (s : dst).
Definition dbind (r : dres) (f : dst -> dres) : dres := match r with DGo s => f s | r => r end.
(** main.c:416-439 run_subprocess: exit(1) if the child fails *)
Definition run_sub (w : oracle) (e : event) (s : dst) : dres :=
  let s' := Dst (d_ev s ++ [e]) (S (d_proc s)) (d_tmp s) (d_ld s) in
  if proc_ok w (d_proc s) then DGo s' else DExit 1 s'.
(** main.c:633-645 create_tmpfile *)
Definition create_tmp (w : oracle) (s : dst) : option (path * dst) :=
  if mk_ok w (d_tmp s) then Some (Temp (d_tmp s), Dst (d_ev s ++ [EvTemp (d_tmp s)]) (d_proc s) (S (d_tmp s)) (d_ld s)) else None.
Definition push_ld (l : list path) (s : dst) : dst := Dst (d_ev s) (d_proc s) (d_tmp s) (d_ld s ++ l).

(** main.c:839-914 one turn of the loop over the inputs *)
Definition do_input (w : oracle) (o : opts) (input : bytes) (s : dst) : dres :=
  if is_prefix (bs "-l") input then DGo (push_ld [User input] s)
  else if is_prefix (bs "-Wl,") input then DGo (push_ld (map User (strtok [] (skipn 4 input))) s)
  else
    let output := match o_o o with Some p => p | None => replace_extn input (if o_S o then bs ".s" else bs ".o") end in
    match get_file_type (o_x o) input with
    | None => DExit 1 s
    | Some FObj | Some FAr | Some FDso => DGo (push_ld [User input] s)
    | Some FAsm => if o_S o then DGo s else run_sub w (EvAs (User input) (User output)) s
    | Some FC =>
        if o_E o || o_M o then run_sub w (EvCc1 input None) s
        else if o_S o then run_sub w (EvCc1 input (Some (User output))) s
        else if o_c o then
          match create_tmp w s with
          | None => DExit 1 s
          | Some (t, s) => dbind (run_sub w (EvCc1 input (Some t)) s) (run_sub w (EvAs t (User output)))
          end
        else
          match create_tmp w s with
          | None => DExit 1 s
          | Some (t1, s) =>
              match create_tmp w s with
              | None => DExit 1 s
              | Some (t2, s) =>
                  dbind (run_sub w (EvCc1 input (Some t1)) s) (fun s =>
                  dbind (run_sub w (EvAs t1 t2) s) (fun s => DGo (push_ld [t2] s)))
              end
          end
    | Some FNone => DAbort s
    end.
Fixpoint do_inputs (w : oracle) (o : opts) (l : list bytes) (s : dst) : dres :=
  match l with
  | [] => DGo s
  | i :: r => dbind (do_input w o i s) (do_inputs w o r)
  end.
(** main.c:822-922 main after parse_args, without -cc1. The arguments that run_linker adds
    (start files, library paths, ld_extra_args) are left out of EvLd. *)
Definition drive (w : oracle) (o : opts) : dres :=
  let s := Dst [] 0 0 [] in
  if Nat.ltb 1 (List.length (o_inputs o)) && (match o_o o with Some _ => true | None => false end) && (o_c o || o_S o || o_E o) then DExit 1 s
  else dbind (do_inputs w o (o_inputs o) s) (fun s =>
       match d_ld s with
       | [] => DGo s
       | l => run_sub w (EvLd l (match o_o o with Some p => p | None => bs "a.out" end)) s
       end).
(** main.c:626-631 cleanup, run by exit() and by returning from main, not by abort() *)
Definition cleanup (s : dst) : list event := map EvUnlink (seq 0 (d_tmp s)).
(** What the driver does and its exit status *)
Definition driver (w : oracle) (o : opts) : list event * option Z :=
  match drive w o with
  | DGo s => (d_ev s ++ cleanup s, Some 0)
  | DExit n s => (d_ev s ++ cleanup s, Some n)
  | DAbort s => (d_ev s, None)
  end.

(** ** The compiler proper *)
(** What the stages do with the text: None when they report an error (and exit) *)
Record stages := Stages {
  tokens : Type; asm : Type;
  st_exists : bytes -> bool;
  st_search : bytes -> option bytes;                (* search_include_paths *)
  st_tokenize : bytes -> option tokens;
  st_append : tokens -> tokens -> tokens;
  st_empty : tokens;
  st_preprocess : tokens -> option tokens;
  st_files : tokens -> list bytes;                  (* get_input_files after preprocessing *)
  st_parse_gen : tokens -> option asm;              (* parser and codegen *)
}.
(** What cc1 does to files: open for writing (truncating) the dependency file, the
    preprocessed text or the assembly *)
Inductive cev := WDep (p : bytes) | WText (p : bytes) | WAsm (p : option bytes).
(** main.c:532-541 the path of the dependency file *)
Definition dep_path (o : opts) (base : bytes) : bytes :=
  match o_MF o with
  | Some p => p
  | None =>
      if o_MD o then replace_extn (match o_o o with Some p => p | None => base end) (bs ".d")
      else match o_o o with Some p => p | None => bs "-" end
  end.
(** main.c:569-588 *)
Fixpoint cc1_includes (g : stages) (l : list (option bytes)) (t : tokens g) : option (tokens g) :=
  match l with
  | [] => Some t
  | None :: _ => None                                (* -include without argument: not reached with check_args *)
  | Some f :: r =>
      match (if st_exists g f then Some f else st_search g f) with
      | None => None
      | Some p => match st_tokenize g p with None => None | Some t2 => cc1_includes g r (st_append g t t2) end
      end
  end.
(** main.c:564-624 cc1: the files opened for writing, and whether it succeeds *)
Definition cc1 (g : stages) (o : opts) (base : bytes) : list cev * bool :=
  match cc1_includes g (o_include o) (st_empty g) with
  | None => ([], false)
  | Some t =>
      match st_tokenize g base with
      | None => ([], false)
      | Some t2 =>
          match st_preprocess g (st_append g t t2) with
          | None => ([], false)
          | Some tok =>
              let dep := if o_M o || o_MD o then [WDep (dep_path o base)] else [] in
              if o_M o then (dep, true)
              else if o_E o then (dep ++ [WText (match o_o o with Some p => p | None => bs "-" end)], true)
              else match st_parse_gen g tok with
                   | None => (dep, false)
                   | Some a => (dep ++ [WAsm (o_out o)], true)
                   end
          end
      end
  end.
(** main.c:542-561 the text of the dependency file; [files]: get_input_files() *)
Definition dep_text (o : opts) (std : list bytes) (base : bytes) (files : list bytes) : option bytes :=
  match (match o_MT o with Some t => Some t | None => quote_makefile (replace_extn base (bs ".o")) end) with
  | None => None
  | Some target =>
      let deps := flat_map (fun f => if o_MMD o && in_std std f then [] else bs " " ++ [92; 10; 9] ++ f)
                  files in
      let phony := if o_MP o then
                     (fix go l := match l with
                        | [] => Some []
                        | f :: r => match quote_makefile f, go r with Some q, Some t => Some (q ++ [58; 10; 10] ++ t) | _, _ => None end
                        end) (tl files)
                   else Some [] in
      match phony with
      | None => None
      | Some ph => Some (target ++ [58] ++ deps ++ [10] ++ ph)
      end
  end.
