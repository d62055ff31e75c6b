(** Properties C26, C39 (statements), C41, C42, C45 (function bodies), C60. *)
From Verif Require Import Base TypeModel IntArith NodeModel NodeProofs ValSpec NodeSpec EvalProps RvSpec GenModel GenSpec RvProofs GenArith GenBits GenRun GenProofs GenSim GenShape GenProps StmtSpec StmtModel StmtTree StmtProofs StmtCode.
From Coq Require Import ZifyBool ZifyNat.
Local Notation length := List.length.

(** ** C42 *)
(** If the body executes a return statement, the code gets to the return label with the
    value in a0 and the same memory; sp and the stack above are as before. *)
Theorem C42_returns E W goff fp room slots rt fname uses body u u' x gs gs' c : setting E W goff fp ->
  parse_body rt uses body u = Some (x, u') -> gen_stmt goff fname x gs = Some (c, gs') -> stmt_ok rt slots body = true -> NoDup (user_labels body) ->
  forall p pret s lo m v m', code_at p (pc s) c -> nth_error p pret = Some (ILabel (name (LReturn fname))) -> linked E W fp room p -> matches E fp m s ->
    free_stack E room lo s -> lo + 8 * slots <= rg s Sp ->
    ssteps E rt body (Run body KStop m) (Returned v m') ->
    exists s', star W p s s' /\ pc s' = pret /\ matches E fp m' s' /\ above_same E s s' /\ forall z, v = Some z -> rep (ret_bits rt) z (rg s' (A 0)).
Proof. intros HS PB GB OK NL p pret s lo m v m' CA RET HL MT FS SL. exact (whole_returns E W goff fp room slots rt fname p uses body u u' x gs gs' c pret s lo m HS HL FS SL PB GB OK NL CA RET MT v m'). Qed.
Print Assumptions C42_returns.
(** If it runs to its end, so does the code. *)
Theorem C42_finishes E W goff fp room slots rt fname uses body u u' x gs gs' c : setting E W goff fp ->
  parse_body rt uses body u = Some (x, u') -> gen_stmt goff fname x gs = Some (c, gs') -> stmt_ok rt slots body = true -> NoDup (user_labels body) ->
  forall p pret s lo m m', code_at p (pc s) c -> nth_error p pret = Some (ILabel (name (LReturn fname))) -> linked E W fp room p -> matches E fp m s ->
    free_stack E room lo s -> lo + 8 * slots <= rg s Sp ->
    ssteps E rt body (Run body KStop m) (Finished m') ->
    exists s', star W p s s' /\ pc s' = (pc s + length c)%nat /\ matches E fp m' s' /\ above_same E s s'.
Proof. intros HS PB GB OK NL p pret s lo m m' CA RET HL MT FS SL. exact (whole_finishes E W goff fp room slots rt fname p uses body u u' x gs gs' c pret s lo m HS HL FS SL PB GB OK NL CA RET MT m'). Qed.
Print Assumptions C42_finishes.
(** If it runs forever, so does the code. *)
Theorem C42_diverges E W goff fp room slots rt fname uses body u u' x gs gs' c : setting E W goff fp ->
  parse_body rt uses body u = Some (x, u') -> gen_stmt goff fname x gs = Some (c, gs') -> stmt_ok rt slots body = true -> NoDup (user_labels body) ->
  forall p pret s lo m, code_at p (pc s) c -> nth_error p pret = Some (ILabel (name (LReturn fname))) -> linked E W fp room p -> matches E fp m s ->
    free_stack E room lo s -> lo + 8 * slots <= rg s Sp ->
    runs_forever E rt body (Run body KStop m) -> forall n, exists s', steps_n W p n s s'.
Proof. intros HS PB GB OK NL p pret s lo m CA RET HL MT FS SL. exact (whole_diverges E W goff fp room slots rt fname p uses body u u' x gs gs' c pret s lo m HS HL FS SL PB GB OK NL CA RET MT). Qed.
Print Assumptions C42_diverges.

(** An execution, to see that the hypotheses can be met *)
Fixpoint srun (E : env) (rt : ty) (body : stmt) (n : nat) (c : conf) : conf :=
  match n with O => c | S n => match sstep E rt body c with Some c => srun E rt body n c | None => c end end.
Lemma srun_steps E rt body n : forall c, ssteps E rt body c (srun E rt body n c).
Proof. induction n as [|n IH]; intros c; cbn [srun]; [constructor|]. destruct (sstep E rt body c) as [c'|] eqn:S1; [econstructor; eauto|constructor]. Qed.
Definition returned (c : conf) : option (option Z) := match c with Returned v _ => Some v | _ => None end.
Lemma srun_returned E rt body n c v : returned (srun E rt body n c) = Some v -> exists m', ssteps E rt body c (Returned v m').
Proof. intros H. pose proof (srun_steps E rt body n c) as S1. destruct (srun E rt body n c) as [ |w m'|]; try discriminate. injection H as ->. eauto. Qed.
(** The machine until it comes to [stop] *)
Fixpoint mrun (W : world) (p : prog) (stop n : nat) (s : state) : state :=
  if Nat.eqb (pc s) stop then s else match n with O => s | S n => match step W p s with Some s => mrun W p stop n s | None => s end end.
Lemma mrun_star W p stop n : forall s, star W p s (mrun W p stop n s).
Proof.
  induction n as [|n IH]; intros s; cbn [mrun]; destruct (Nat.eqb (pc s) stop); try constructor.
  destruct (step W p s) as [s1|] eqn:S1; [econstructor; eauto|constructor].
Qed.
Definition set_ (k : nat) (e : node) : stmt := SExpr (NAssign (loc k) (NCast (TInt false) e)).
(** i = s = 0;
    while (i < 10) {
      i = i + 1;
      switch (i) { case 3: continue; case 5 ... 6: s = s + 10; break; default: s = s + 1; }
      if (i == 8) goto out;
    }
    out: return s;  *)
Definition ex_body : stmt :=
  SSeq (set_ 0 (int_ 0)) (SSeq (set_ 1 (int_ 0))
  (SSeq (SWhile (mk_bin Lt (loc 0) (int_ 10))
     (SSeq (set_ 0 (mk_bin Add (loc 0) (int_ 1)))
     (SSeq (SSwitch (loc 0) (SSeq (SCase 3 3 SContinue) (SSeq (SCase 5 6 (set_ 1 (mk_bin Add (loc 1) (int_ 10)))) (SSeq SBreak (SDefault (set_ 1 (mk_bin Add (loc 1) (int_ 1))))))))
           (SIf (mk_bin Eq (loc 0) (int_ 8)) (SGoto (bs "out")) SSkip))))
   (SLabel (bs "out") (SReturn (Some (loc 1)))))).
Fixpoint nodupb (l : list label) : bool := match l with [] => true | x :: l => negb (existsb (beq x) l) && nodupb l end.
Lemma nodupb_ok l : nodupb l = true -> NoDup l.
Proof.
  induction l as [|x l IH]; cbn [nodupb]; intros H; [constructor|]. apply andb_prop in H as [A B]. constructor; auto. intros I. apply negb_true_iff in A.
  assert (existsb (beq x) l = true) by (apply existsb_exists; exists x; split; auto; now apply beq_eq). congruence.
Qed.
Example C42_nonvacuous : exists x u' c gs' p s m', setting ex_env ex_world ex_goff ex_fp /\
  parse_body (TInt false) (fun _ => 0%nat) ex_body 0 = Some (x, u') /\ gen_stmt ex_goff (bs "f") x (GS 0 1) = Some (c, gs') /\ stmt_ok (TInt false) 2 ex_body = true /\ NoDup (user_labels ex_body) /\
  code_at p (pc s) c /\ nth_error p (length c) = Some (ILabel (name (LReturn (bs "f")))) /\ linked ex_env ex_world ex_fp 4096 p /\ matches ex_env ex_fp ex_mem s /\
  free_stack ex_env 4096 8192 s /\ 8192 + 8 * 2 <= rg s Sp /\ (50 < length c)%nat /\
  ssteps ex_env (TInt false) ex_body (Run ex_body KStop ex_mem) (Returned (Some 25) m').
Proof.
  destruct (srun_returned ex_env (TInt false) ex_body 200 (Run ex_body KStop ex_mem) (Some 25) ltac:(vm_compute; reflexivity)) as (m' & SS).
  destruct (parse_body (TInt false) (fun _ => 0%nat) ex_body 0) as [[x u']|] eqn:P; [|vm_compute in P; discriminate].
  destruct (gen_stmt ex_goff (bs "f") x (GS 0 1)) as [[c gs']|] eqn:G; [|vm_compute in P; injection P as <- <-; vm_compute in G; discriminate].
  exists x, u', c, gs', (c ++ [Lab (LReturn (bs "f"))]), (St 0 ex_regs ex_mem), m'.
  vm_compute in P. injection P as <- <-. vm_compute in G. injection G as <- <-.
  split; [apply ex_setting|]. split; [vm_compute; reflexivity|]. split; [vm_compute; reflexivity|]. split; [vm_compute; reflexivity|]. split; [apply nodupb_ok; vm_compute; reflexivity|].
  split; [eexists [], _; split; reflexivity|]. split; [vm_compute; reflexivity|]. split; [split; [apply nodupb_ok; vm_compute; reflexivity|apply ex_calls]|].
  split; [split; [apply ex_regs_ok|split; [reflexivity|intros a _; reflexivity]]|]. split; [split; [lia|]; intros a Ha; cbn in Ha |- *; unfold ex_fp in *; lia|].
  split; [vm_compute; discriminate|]. split; [vm_compute; lia|exact SS].
Qed.

(** ** C39 (statements) *)
(** The depth counter is unchanged; sp and the stack above it are part of C42. *)
Theorem C39_statement_depth rt uses body u x u' goff fname gs c gs' : parse_body rt uses body u = Some (x, u') -> 0 <= u -> gen_stmt goff fname x gs = Some (c, gs') -> 0 <= g_cnt gs -> g_depth gs' = g_depth gs.
Proof. intros PB U0 G C0. destruct (body_shape rt uses body u x u' goff fname PB U0 gs c gs' G C0) as (D & _). lia. Qed.
Print Assumptions C39_statement_depth.
Example C39_statement_nonvacuous : exists x u' c gs', parse_body (TInt false) (fun _ => 0%nat) ex_body 0 = Some (x, u') /\ gen_stmt ex_goff (bs "f") x (GS 0 1) = Some (c, gs') /\ g_cnt gs' <> 1.
Proof. do 4 eexists. split; [vm_compute; reflexivity|]. split; [vm_compute; reflexivity|]. vm_compute. discriminate. Qed.

(** ** C45 (one body) *)
(** The labels in the code of a body are pairwise distinct, and their numbers are from the
    ranges the two counters went through. *)
Theorem C45_body_labels rt uses body u x u' goff fname gs c gs' : parse_body rt uses body u = Some (x, u') -> 0 <= u -> gen_stmt goff fname x gs = Some (c, gs') -> 0 <= g_cnt gs ->
  NoDup (labels c) /\ u <= u' /\ g_cnt gs <= g_cnt gs' /\ forall l, In l (labels c) -> (exists n, l = name (LUniq n) /\ u <= n < u') \/ fresh (g_cnt gs) (g_cnt gs') l.
Proof. intros PB U0 G C0. destruct (body_shape rt uses body u x u' goff fname PB U0 gs c gs' G C0) as (_ & R). exact R. Qed.
Print Assumptions C45_body_labels.

(** ** C41 *)
(** The compare-and-branch code of a switch: for case ranges of ints in the range of the
    promoted type, it branches to the label of a case containing the value, else falls through. *)
Theorem C41_dispatch W p t v ents : NoDup (labels p) -> int_repr t <> None -> val_of t v = true ->
  (forall b e u, In (b, e, u) ents -> b <= e /\ case_fits t b = true /\ case_fits t e = true) ->
  forall k rs m, code_at p k (flat_map case_code ents) -> regs_ok rs -> rep 64 v (rs (A 0)) ->
  (exists b e u, In (b, e, u) ents /\ b <= v <= e /\ forall kp, nth_error p kp = Some (ILabel (name (LUniq u))) -> exists rs', star W p (St k rs m) (St kp rs' m) /\ rs' Sp = rs Sp /\ rs' Fp = rs Fp) \/
  ((forall b e u, In (b, e, u) ents -> ~ b <= v <= e) /\ exists rs', star W p (St k rs m) (St (k + length (flat_map case_code ents)) rs' m) /\ rs' Sp = rs Sp /\ rs' Fp = rs Fp).
Proof. exact (switch_dispatch W p t v ents). Qed.
Print Assumptions C41_dispatch.
Example C41_nonvacuous : exists p, NoDup (labels p) /\ val_of (TChar false) (-5) = true /\ code_at p 0 (flat_map case_code [(3, 3, 1); (-10, -2, 2)]) /\ regs_ok (zreg (2 ^ 64 - 5)) /\ rep 64 (-5) (zreg (2 ^ 64 - 5) (A 0)) /\
  nth_error p 8 = Some (ILabel (name (LUniq 2))).
Proof.
  exists (flat_map case_code [(3, 3, 1); (-10, -2, 2)] ++ [Lab (LUniq 1); Lab (LUniq 2)]). split; [apply nodupb_ok; vm_compute; reflexivity|]. split; [reflexivity|].
  split; [eexists [], _; split; reflexivity|]. split; [apply zreg_ok; lia|]. split; [reflexivity|reflexivity].
Qed.
(** What [case_fits] and [disjoint] leave out. The source returns [v]; the code comes to the
    return label with another value. *)
Definition wrong_body (s : stmt) (v : Z) : Prop :=
  exists x u' c gs' m' st, parse_body (TInt false) (fun _ => 0%nat) s 0 = Some (x, u') /\ gen_stmt ex_goff (bs "f") x (GS 0 1) = Some (c, gs') /\
    ssteps ex_env (TInt false) s (Run s KStop (fun _ => 0)) (Returned (Some v) m') /\
    star ex_world (c ++ [Lab (LReturn (bs "f"))]) (St 0 ex_regs (fun _ => 0)) st /\ pc st = length c /\ ~ rep 32 v (rg st (A 0)).
Lemma wrong_body_by n j s v w : returned (srun ex_env (TInt false) s n (Run s KStop (fun _ => 0))) = Some (Some v) ->
  (match parse_body (TInt false) (fun _ => 0%nat) s 0 with
   | Some (x, _) => match gen_stmt ex_goff (bs "f") x (GS 0 1) with
                    | Some (c, _) => let st := mrun ex_world (c ++ [Lab (LReturn (bs "f"))]) (length c) j (St 0 ex_regs (fun _ => 0)) in Some (Nat.eqb (pc st) (length c), rg st (A 0))
                    | None => None end
   | None => None end) = Some (true, w) -> ~ rep 32 v w -> wrong_body s v.
Proof.
  intros S1 M NR. destruct (srun_returned _ _ _ _ _ _ S1) as (m' & SS). destruct (parse_body (TInt false) (fun _ => 0%nat) s 0) as [[x u']|] eqn:P; [|discriminate].
  destruct (gen_stmt ex_goff (bs "f") x (GS 0 1)) as [[c gs']|] eqn:G; [|discriminate]. injection M as F1 F2. apply Nat.eqb_eq in F1. do 6 eexists.
  split; [exact P|]. split; [exact G|]. split; [exact SS|]. split; [apply mrun_star with (n := j) (stop := length c)|]. split; [exact F1|]. rewrite <- F2 in NR. exact NR.
Qed.
Definition ret (z : Z) : stmt := SReturn (Some (int_ z)).
(** switch (x) { case 0x100000000: return 1; } return 0;  for a long x: the constant is cut to an int *)
Theorem C41_long_case_refuted : exists x, wrong_body (SSeq (SSwitch (NNum (TLong false) x) (SCase (2 ^ 32) (2 ^ 32) (ret 1))) (ret 0)) 1.
Proof. exists (2 ^ 32). apply (wrong_body_by 20 20 _ _ 0); [vm_compute; reflexivity|vm_compute; reflexivity|vm_compute; discriminate]. Qed.
(** switch (x) { case 0x80000000: return 1; } return 0;  for an unsigned x *)
Theorem C41_unsigned_case_refuted : exists x, wrong_body (SSeq (SSwitch (NNum (TInt true) x) (SCase (2 ^ 31) (2 ^ 31) (ret 1))) (ret 0)) 1.
Proof. exists (2 ^ 31). apply (wrong_body_by 20 20 _ _ 0); [vm_compute; reflexivity|vm_compute; reflexivity|vm_compute; discriminate]. Qed.
(** Two equal case labels are accepted (C11 6.8.4.2p3 forbids them). *)
Theorem C41_duplicate_case_refuted : exists c s, disjoint (cases_of s) = false /\ parse_body (TInt false) (fun _ => 0%nat) (SSwitch c s) 0 <> None.
Proof. exists (loc 0), (SSeq (SCase 1 1 (ret 1)) (SCase 1 1 (ret 2))). split; [reflexivity|]. vm_compute. discriminate. Qed.

(** ** C60, C26: what is accepted *)
(** A body is accepted iff every break, continue, case and default is inside a statement it can belong to,
    no case range is empty, and every goto has its label. *)
Theorem C60_accepted rt uses s u : is_struct_union rt = false -> (exists r, parse_body rt uses s u = Some r) <-> nested false false s = true /\ incl (gotos s) (user_labels s).
Proof. exact (parse_body_accepts rt uses s u). Qed.
Print Assumptions C60_accepted.
Example C60_nonvacuous : nested false false ex_body = true /\ incl (gotos ex_body) (user_labels ex_body) /\ nested false false (SSwitch (loc 0) SContinue) = false.
Proof. split; [reflexivity|]. split; [|reflexivity]. intros l I. exact I. Qed.
(** Forward and backward gotos: a goto l with the label in the same body is the jump the C
    semantics makes ([StmtSpec.sstep], SGoto), by C42. An undeclared label is an error: *)
Theorem C26_undeclared rt uses s u l : In l (gotos s) -> ~ In l (user_labels s) -> parse_body rt uses s u = None.
Proof. exact (goto_undeclared rt uses s u l). Qed.
Print Assumptions C26_undeclared.
(** The jump emitted for each goto is to the label emitted for a labelled statement of the same name. *)
Theorem C26_target rt uses s u x u' : parse_body rt uses s u = Some (x, u') -> incl (goto_pairs s x) (label_pairs s x).
Proof. intros H. exact (proj1 (body_pairs rt uses s u x u' H)). Qed.
Print Assumptions C26_target.
Example C26_nonvacuous : exists x u', parse_body (TInt false) (fun _ => 0%nat) ex_body 0 = Some (x, u') /\ goto_pairs ex_body x <> [].
Proof. do 2 eexists. split; [vm_compute; reflexivity|]. vm_compute. discriminate. Qed.
(** Every break and continue jumps to the label of the innermost loop or switch, or loop, around it. *)
Theorem C60_innermost rt uses s u x u' : parse_body rt uses s u = Some (x, u') -> innermost None None s x.
Proof. intros H. exact (proj2 (body_pairs rt uses s u x u' H)). Qed.
Print Assumptions C60_innermost.
(** Two labels of the same name are accepted (C11 6.8.1p3 forbids them). *)
Theorem C26_duplicate_label_refuted : exists s, ~ NoDup (user_labels s) /\ parse_body (TInt false) (fun _ => 0%nat) s 0 <> None.
Proof.
  exists (SSeq (SLabel (bs "l") SSkip) (SSeq (SLabel (bs "l") SSkip) (SGoto (bs "l")))). split; [|vm_compute; discriminate].
  intros H. cbn [user_labels app] in H. inversion H; subst. apply H2. now left.
Qed.
