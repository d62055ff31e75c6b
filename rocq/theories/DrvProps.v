(** Properties C48 - C51 and C64: the driver. *)
From Verif Require Import Base DrvModel DrvSpec DrvProofs.
From Coq Require Import ZifyBool ZifyNat.
Local Notation length := List.length.

(** ** C48 *)
(** The buffer of quote_makefile is large enough, for every name. *)
Theorem C48_no_overrun s : exists r, quote_makefile s = Some r /\ (length r <= 2 * length s)%nat.
Proof. exists (q 0 s). split; [apply quote_q|]. pose proof (q_length 0 s). lia. Qed.
Print Assumptions C48_no_overrun.
(** Read by make as the target of a rule, the quoted name is the name. *)
Theorem C48_target_partial s r deps : quote_makefile s = Some r -> s <> [] -> nameable 0 s = true -> (forall c, In c deps -> c <> 35 /\ c <> 36) ->
  make_rule (r ++ [58] ++ deps) = Some ([s], words 0 [] deps).
Proof. intros Q N NA D. rewrite quote_q in Q. assert (q 0 s = r) by congruence. subst. now apply target_read. Qed.
Print Assumptions C48_target_partial.
Example C48_nonvacuous : nameable 0 (bs "my $(dir)\\ file#1.o") = true /\ quote_makefile (bs "my $(dir)\\ file#1.o") = Some (bs "my\ $$(dir)\\\\\ file\#1.o").
Proof. vm_compute. auto. Qed.
(** The whole dependency file: target and prerequisites, for source names without special
    characters. *)
Theorem C48_dependencies_partial o std base files line : dep_text o std base files = Some line -> o_MT o = None -> o_MP o = false ->
  nameable 0 (replace_extn base (bs ".o")) = true -> forallb plain_name files = true ->
  exists rule, line = rule ++ [10] /\
    make_rule (join_lines rule) = Some ([replace_extn base (bs ".o")], filter (fun f => negb (o_MMD o && in_std std f)) files).
Proof.
  intros H MT MP NA PL. unfold dep_text in H. rewrite MT, MP, quote_q in H. set (tg := replace_extn base (bs ".o")) in *.
  set (fs := filter (fun f => negb (o_MMD o && in_std std f)) files). assert (PF: forallb plain_name fs = true) by (apply forallb_forall; intros x X; apply filter_In in X as [X _]; rewrite forallb_forall in PL; auto).
  assert (FM: flat_map (fun f => if o_MMD o && in_std std f then [] else bs " " ++ [92; 10; 9] ++ f) files = flat_map (fun f => bs " " ++ [92; 10; 9] ++ f) fs).
  { unfold fs. clear. induction files as [|f l IH]; [reflexivity|]. cbn [flat_map filter]. rewrite IH. destruct (o_MMD o && in_std std f); reflexivity. }
  rewrite FM in H. set (D := flat_map (fun f => bs " " ++ [92; 10; 9] ++ f) fs) in *. rewrite app_nil_r in H. exists (q 0 tg ++ [58] ++ D). split; [rewrite <- !app_assoc; congruence|].
  rewrite join_app; [|apply q_newline; eapply nameable_newline; eauto|cbn; lia]. destruct (dep_words fs PF) as [W1 W2]. fold D in W1, W2.
  change (join_lines ([58] ++ D)) with (58 :: join_lines D). rewrite target_read; auto; [now rewrite W1|].
  unfold tg, replace_extn. intros Q. apply app_eq_nil in Q as [_ Q]. discriminate Q.
Qed.
Print Assumptions C48_dependencies_partial.
Example C48_dependencies_nonvacuous : exists line, dep_text (opts0 []) [] (bs "src/my prog.c") [bs "src/main.c"; bs "include/a.h"] = Some line /\
  nameable 0 (replace_extn (bs "src/my prog.c") (bs ".o")) = true /\ forallb plain_name [bs "src/main.c"; bs "include/a.h"] = true.
Proof. eexists. vm_compute. repeat split; reflexivity. Qed.
(** A number sign after a backslash starts a comment although it was quoted. *)
Theorem C48_backslash_hash_refuted : exists s r, quote_makefile s = Some r /\ ~ In 58 s /\ ~ In 10 s /\ make_rule (r ++ [58]) <> Some ([s], []).
Proof. exists (bs "a\#b"), (bs "a\\#b"). split; [reflexivity|]. split; [vm_compute; intuition discriminate|]. split; [vm_compute; intuition discriminate|]. vm_compute. discriminate. Qed.
Print Assumptions C48_backslash_hash_refuted.
(** Prerequisites are not quoted: one file with a space in its name becomes two. *)
Theorem C48_prerequisites_refuted : exists f line, dep_text (opts0 []) [] (bs "a.c") [f] = Some (line ++ [10]) /\ exists deps, make_rule (join_lines line) = Some ([bs "a.o"], deps) /\ length deps = 2%nat.
Proof. exists (bs "my file.h"), (bs "a.o: " ++ [92; 10; 9] ++ bs "my file.h"). split; [reflexivity|]. eexists. split; [vm_compute; reflexivity|reflexivity]. Qed.
Print Assumptions C48_prerequisites_refuted.

(** ** C49 *)
(** Whatever fails, the driver exits (it never aborts) and no temporary file is left. *)
Theorem C49_temporaries w o : exists evs st, driver w o = (evs, Some st) /\ temps evs [] = [].
Proof.
  destruct (driver_cases w o) as (f & s & st & E & I & _). exists (d_ev s ++ cleanup s), st. split; [exact E|]. rewrite temps_app, (iv_tmp _ _ _ I). apply temps_none.
Qed.
Print Assumptions C49_temporaries.
(** Only temporary files are removed, and only at the end. *)
Theorem C49_only_temporaries w o evs st : driver w o = (evs, st) -> exists body n, evs = body ++ map EvUnlink (seq 0 n) /\ temps body [] = seq 0 n /\ forall k, ~ In (EvUnlink k) body.
Proof.
  intros H. destruct (driver_cases w o) as (f & s & st' & E & I & _). rewrite E in H. exists (d_ev s), (d_tmp s). split; [unfold cleanup in H; congruence|]. split; [exact (iv_tmp _ _ _ I)|exact (iv_un _ _ _ I)].
Qed.
Print Assumptions C49_only_temporaries.
(** An example: the second of two compilations fails. *)
Definition two_c : opts := fold_left (fun o u => setu u o) [Uinput (bs "a.c"); Uinput (bs "b.c")] (opts0 []).
Example C49_nonvacuous : driver (Oracle (fun _ => true) (fun k => negb (Nat.eqb k 2))) two_c =
  ([EvTemp 0; EvTemp 1; EvCc1 (bs "a.c") (Some (Temp 0)); EvAs (Temp 0) (Temp 1); EvTemp 2; EvTemp 3; EvCc1 (bs "b.c") (Some (Temp 2)); EvUnlink 0; EvUnlink 1; EvUnlink 2; EvUnlink 3], Some 1).
Proof. vm_compute. reflexivity. Qed.

(** ** C50 *)
(** After a step that fails nothing more is run, and the driver reports failure; it reports
    success only if all steps succeeded. *)
Theorem C50_stop_at_failure w o evs st : driver w o = (evs, Some st) ->
  (forall k, (k < length (procs evs))%nat -> proc_ok w k = false -> S k = length (procs evs) /\ st = 1) /\
  (st = 0 \/ st = 1) /\ (st = 0 -> forall k, (k < length (procs evs))%nat -> proc_ok w k = true).
Proof.
  intros H. destruct (driver_cases w o) as (f & s & st' & E & I & C). rewrite E in H. assert (st' = st /\ evs = d_ev s ++ cleanup s) as [-> ->] by (split; congruence).
  rewrite procs_app, cleanup_procs, app_nil_r, (iv_proc _ _ _ I). pose proof (iv_ok _ _ _ I) as OK. split; [|split; [tauto|]].
  - intros k K F. destruct C as [[-> ->]| ->].
    + rewrite OK in F by (auto; discriminate). discriminate.
    + split; [|reflexivity]. destruct f; [|rewrite OK in F by (auto; discriminate); discriminate]. destruct (Nat.eq_dec (S k) (d_proc s)); auto. rewrite OK in F by (auto; lia). discriminate.
  - intros -> k K. destruct C as [[_ ->]|C]; [|discriminate]. apply OK; auto; discriminate.
Qed.
Print Assumptions C50_stop_at_failure.
(** A step that writes a file of the user reads only temporary files that earlier, successful
    steps wrote. *)
Theorem C50_order w o evs st l1 e l2 t : driver w o = (evs, Some st) -> evs = l1 ++ e :: l2 -> In t (reads e) -> exists e', In e' l1 /\ In t (fills e').
Proof.
  intros H EQ R. destruct (driver_cases w o) as (f & s & st' & E & I & C). rewrite E in H. assert (ES: evs = d_ev s ++ cleanup s) by congruence. rewrite ES in EQ. clear - EQ R I.
  pose proof (iv_reads _ _ _ I) as RO. assert (RC: reads_ok (d_ev s ++ cleanup s)).
  { unfold cleanup. generalize (seq 0 (d_tmp s)). intros l. induction l as [|n l IH] using rev_ind; [cbn; now rewrite app_nil_r|]. rewrite map_app, app_assoc. apply reads_snoc; [exact IH|]. intros u []. }
  eapply RC; eauto.
Qed.
Print Assumptions C50_order.
(** The compiler proper: if any stage fails, neither the assembly nor the preprocessed text is
    opened; if it succeeds, the output is the last file it opens. Only the dependency file may
    have been written before a failure. *)
Theorem C50_cc1 g o base evs ok : cc1 g o base = (evs, ok) ->
  (ok = false -> forall e, In e evs -> exists p, e = WDep p /\ (o_M o || o_MD o) = true) /\
  (ok = true -> o_M o = false -> o_E o = false -> exists deps, evs = deps ++ [WAsm (o_out o)] /\ forall e, In e deps -> exists p, e = WDep p).
Proof.
  unfold cc1. set (dep := if o_M o || o_MD o then [WDep (dep_path o base)] else []). assert (DP: forall e, In e dep -> exists p, e = WDep p /\ (o_M o || o_MD o) = true).
  { unfold dep. intros e. destruct (o_M o || o_MD o); intros []; eauto. contradiction. }
  clearbody dep. intros H. destruct (cc1_includes _ _ _); [|split; [|intros; congruence]; intros _ e I; assert (evs = []) by congruence; subst; destruct I].
  destruct (st_tokenize _ _); [|split; [|intros; congruence]; intros _ e I; assert (evs = []) by congruence; subst; destruct I]. destruct (st_preprocess _ _); [|split; [|intros; congruence]; intros _ e I; assert (evs = []) by congruence; subst; destruct I].
  destruct (o_M o); [split; intros; congruence|]. destruct (o_E o); [split; intros; congruence|]. destruct (st_parse_gen _ _).
  - split; [intros; congruence|]. intros _ _ _. exists dep. split; [congruence|]. intros e I. destruct (DP e I) as (p & -> & _). eauto.
  - split; [|intros; congruence]. intros _ e I. assert (evs = dep) by congruence. subst. auto.
Qed.
Print Assumptions C50_cc1.
Definition toy_stages (fail : bool) : stages := Stages nat nat (fun _ => true) (fun _ => None) (fun _ => Some 0%nat) (fun _ b => b) 0%nat (fun t => Some t) (fun _ => []) (fun t => if fail then None else Some t).
Example C50_nonvacuous :
  cc1 (toy_stages false) (setu (Uout (Some (bs "o.s"))) (setu UMD (opts0 []))) (bs "a.c") = ([WDep (bs "a.d"); WAsm (Some (bs "o.s"))], true) /\
  cc1 (toy_stages true) (setu (Uout (Some (bs "o.s"))) (opts0 [])) (bs "a.c") = ([], false).
Proof. vm_compute. auto. Qed.

(** ** C51 *)
(** A command line of any length, options in either spelling in any order, except -I and
    -idirafter in two words: the inputs, output, macros, include paths, linker arguments and
    modes are what the items say. *)
Theorem C51_command_line_partial inc l : Forall good_item l -> forallb (fun i => negb (separate_dir i)) l = true -> inputs_of l <> [] ->
  exists o ms, parse_args inc (flat_map spell l) = ROk o /\
    o_inputs o = inputs_of l /\ o_o o = last_of (args_of Oout l) /\ o_MF o = last_of (args_of OMF l) /\
    o_inc o = inc ++ args_of Oinc l /\ o_include o = map Some (args_of Oinclude l) /\ o_ld o = map Some (ld_of l) /\
    o_macros o = ms /\ macros l ms /\
    o_c o = has Fc l /\ o_S o = has FcS l /\ o_E o = has FE l /\ o_M o = has FM l /\ o_static o = has Fstatic l /\ o_shared o = has Fshared l /\ o_cc1 o = false.
Proof.
  intros G D I. rewrite parse_items by auto. destruct (eff_macros l (opts0 inc)) as (ms & E & M).
  set (o := eff l (opts0 inc)) in *. exists (if has FE l then setu (Ux FC) o else o), ms. split; [reflexivity|].
  assert (X: forall o : opts, o_inputs (setu (Ux FC) o) = o_inputs o /\ o_o (setu (Ux FC) o) = o_o o /\ o_MF (setu (Ux FC) o) = o_MF o /\ o_inc (setu (Ux FC) o) = o_inc o /\ o_include (setu (Ux FC) o) = o_include o /\
     o_ld (setu (Ux FC) o) = o_ld o /\ o_macros (setu (Ux FC) o) = o_macros o /\ o_c (setu (Ux FC) o) = o_c o /\ o_S (setu (Ux FC) o) = o_S o /\ o_E (setu (Ux FC) o) = o_E o /\ o_M (setu (Ux FC) o) = o_M o /\ o_static (setu (Ux FC) o) = o_static o /\ o_shared (setu (Ux FC) o) = o_shared o /\ o_cc1 (setu (Ux FC) o) = o_cc1 o) by (intros []; repeat split; reflexivity).
  assert (Y: o_inputs o = inputs_of l /\ o_o o = last_of (args_of Oout l) /\ o_MF o = last_of (args_of OMF l) /\ o_inc o = inc ++ args_of Oinc l /\ o_include o = map Some (args_of Oinclude l) /\ o_ld o = map Some (ld_of l) /\
    o_macros o = ms /\ macros l ms /\ o_c o = has Fc l /\ o_S o = has FcS l /\ o_E o = has FE l /\ o_M o = has FM l /\ o_static o = has Fstatic l /\ o_shared o = has Fshared l /\ o_cc1 o = false).
  { unfold o in *. rewrite eff_inputs, eff_o, eff_MF, eff_inc, eff_include, eff_ld, E, eff_c, eff_S, eff_E, eff_M, eff_static, eff_shared, eff_cc1 by auto. cbn. repeat split; auto; destruct (last_of _); reflexivity. }
  destruct (has FE l); [|exact Y]. destruct (X o) as (-> & -> & -> & -> & -> & -> & -> & -> & -> & -> & -> & -> & -> & ->). exact Y.
Qed.
Print Assumptions C51_command_line_partial.
Definition ex_items : list item :=
  [Flag Fc; Input (bs "a.c"); Att Oinc (bs "inc"); Sep Odef (bs "X=1=2"); Att Odef (bs "Y"); Sep Oundef (bs "X"); Sep Oout (bs "-x.o"); Att Oout (bs "b.o"); Ignored (bs "-O2"); Lib (bs "m"); Sep OL (bs "lib"); Input (bs "-"); Wl (bs "-z,now"); Sep Oinclude (bs "-c")].
Example C51_nonvacuous : Forall good_item ex_items /\ forallb (fun i => negb (separate_dir i)) ex_items = true /\ inputs_of ex_items = [bs "a.c"; bs "-lm"; bs "-"; bs "-Wl,-z,now"] /\ has Fc ex_items = true /\ has FE ex_items = false /\ last_of (args_of Oout ex_items) = Some (bs "b.o").
Proof.
  split; [|vm_compute; auto]. unfold ex_items. repeat (apply Forall_cons; [vm_compute; (exact I || (intuition discriminate) || (split; [reflexivity|split; [discriminate|discriminate]]) || (left; reflexivity) || (right; discriminate) || tauto)|]). constructor.
Qed.
(** An option that must have an argument and has none is rejected. *)
Theorem C51_missing_argument inc l a : Forall good_item l -> In (aopt_name a) takes_arg -> parse_args inc (flat_map spell l ++ [aopt_name a]) = RExit 1.
Proof. intros G T. unfold parse_args. rewrite items_check by auto. cbn [check_args]. apply take_arg_in in T. now rewrite T. Qed.
Print Assumptions C51_missing_argument.
(** -I dir: the directory is taken as an input file, and the include path is empty. *)
Theorem C51_separate_I_refuted : exists o, parse_args [] (spell (Sep Oinc (bs "dir")) ++ [bs "a.c"]) = ROk o /\ o_inputs o = [bs "dir"; bs "a.c"] /\ o_inc o = [[]].
Proof. eexists. vm_compute. repeat split; reflexivity. Qed.
Print Assumptions C51_separate_I_refuted.
(** -idirafter dir: the directory is dropped, the option itself becomes an include path. *)
Theorem C51_idirafter_refuted : exists o, parse_args [] (spell (Sep Oidirafter (bs "dir")) ++ [bs "a.c"]) = ROk o /\ o_inputs o = [bs "a.c"] /\ o_inc o = [bs "-idirafter"].
Proof. eexists. vm_compute. repeat split; reflexivity. Qed.
Print Assumptions C51_idirafter_refuted.
(** -D, -U and -MQ without an argument use a NULL pointer. *)
Theorem C51_missing_argument_refuted : forall inc a, In a (map bs ["-D"; "-U"; "-MQ"]%string) -> parse_args inc [bs "a.c"; a] = RCrash.
Proof. intros inc a [<-|[<-|[<-|[]]]]; reflexivity. Qed.
Print Assumptions C51_missing_argument_refuted.

(** ** C64 *)
(** Linking C sources, objects, archives and libraries: the linker is run once, last, on the
    inputs in command-line order, each C source replaced by the object made from it. *)
Theorem C64_link_partial w o evs : o_c o = false -> o_S o = false -> o_E o = false -> o_M o = false -> Forall (linkable o) (o_inputs o) -> driver w o = (evs, Some 0) ->
  exists body ps n, link_list o body (o_inputs o) ps /\ (forall a b, ~ In (EvLd a b) body) /\
    evs = body ++ (match ps with [] => [] | _ => [EvLd ps (match o_o o with Some p => p | None => bs "a.out" end)] end) ++ map EvUnlink (seq 0 n).
Proof.
  intros C1 C2 C3 C4 L H. unfold driver in H. destruct (drive w o) as [s|n s|s] eqn:D; try discriminate H.
  - destruct (link_drive w o s C1 C2 C3 C4 L D) as (body & ps & A & B & E). exists body, ps, (d_tmp s). split; [exact A|]. split; [exact B|]. rewrite app_assoc, <- E. unfold cleanup in H. congruence.
  - pose proof (drive_good w o) as G. rewrite D in G. destruct G as [-> _]. discriminate H.
Qed.
Print Assumptions C64_link_partial.
Definition all_ok : oracle := Oracle (fun _ => true) (fun _ => true).
Example C64_nonvacuous : driver all_ok (fold_left (fun o u => setu u o) [Uinput (bs "a.c"); Uinput (bs "-lm"); Uinput (bs "b.o"); Uinput (bs "-Wl,-z,,now")] (opts0 [])) =
  ([EvTemp 0; EvTemp 1; EvCc1 (bs "a.c") (Some (Temp 0)); EvAs (Temp 0) (Temp 1); EvLd [Temp 1; User (bs "-lm"); User (bs "b.o"); User (bs "-z"); User (bs "now")] (bs "a.out"); EvUnlink 0; EvUnlink 1], Some 0).
Proof. vm_compute. reflexivity. Qed.
(** Assembly sources are assembled but never linked; with -o the object takes the place of
    the program. *)
Theorem C64_assembly_refuted : exists o, parse_args [] (map bs ["a.s"; "b.c"; "-o"; "prog"]%string) = ROk o /\
  driver all_ok o = ([EvAs (User (bs "a.s")) (User (bs "prog")); EvTemp 0; EvTemp 1; EvCc1 (bs "b.c") (Some (Temp 0)); EvAs (Temp 0) (Temp 1); EvLd [Temp 1] (bs "prog"); EvUnlink 0; EvUnlink 1], Some 0).
Proof. eexists. split; [vm_compute; reflexivity|vm_compute; reflexivity]. Qed.
Print Assumptions C64_assembly_refuted.
(** With -c the linker is still run if a library or an object is named. *)
Theorem C64_compile_only_refuted : exists o, parse_args [] (map bs ["-c"; "a.c"; "-lm"]%string) = ROk o /\ exists evs, driver all_ok o = (evs, Some 0) /\ In (EvLd [User (bs "-lm")] (bs "a.out")) evs.
Proof. eexists. split; [vm_compute; reflexivity|]. eexists. split; [vm_compute; reflexivity|]. cbn. auto 10. Qed.
Print Assumptions C64_compile_only_refuted.
