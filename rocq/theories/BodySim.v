(** Proofs about BodyModel: the statements it makes do what the body does. *)
From Verif Require Import GenBits Base TypeModel IntArith NodeModel ValSpec NodeSpec ElabSpec ElabProofs ElabSim ElabProps ParseModel ParseSpec BlockModel FrontModel FrontSpec FrontProofs StmtSpec BodyModel BodySpec BodyRename BodyStatic.
From Coq Require Import ZifyBool ZifyNat.
Local Notation length := List.length.

Section Sim.
Variables (proto : bool) (E : env) (V : Z -> bool) (k0 kN : nat) (VS : list nat) (rt : ty).
Hypothesis OK : env_ok E.
Hypothesis OT : others (e_addr E) V (e_valid E) k0 kN VS.
Variable call : Z -> list ty -> ty -> list Z -> mem -> option (Z * mem).
Hypothesis CALL : if proto then calls_same V call (e_call E) else calls_agree V call (e_call E).
Variable mi : mem.
Notation spare := (aside (e_addr E) V k0 kN VS).
Definition like (m m2 : mem) : Prop := same_on V m m2 /\ forall a, spare a -> m2 a = mi a.
Definition saddr (v : var) : Z := e_addr E (moved k0 VS v).
Notation mex := (mex proto k0 VS kN). Notation mopt := (mopt proto k0 VS kN). Notation macts := (macts proto k0 VS kN). Notation mst := (mst proto k0 VS kN rt).
Lemma mex_ev c n : mex c n -> same_type (ntype n) (ty_of c) /\ forall lv m m2 v m', cev saddr V call lv c m = Some (v, m') -> like m m2 -> exists m2', ev E lv n m2 = Some (v, m2') /\ like m' m2'.
Proof.
  intros (c' & t & k & k' & Q & EL & (P & PX) & T & K0 & KN & NI). destruct (rn_mv (moved k0 VS) c') as (HT & HP & _ & _ & HC).
  assert (TM : temporaries (e_addr E) V (e_valid E) k k'). { destruct OT as [A B C D]. constructor; [exact A| | |]. - intros q Hq. apply B; [lia|now apply NI]. - intros q a Hq. apply C; [lia|now apply NI]. - intros a b Ha Hb. apply D; [lia|lia|now apply NI|now apply NI]. }
  rewrite <- HP in P. rewrite <- HT in T. assert (G : exists n k1, elab (rn (moved k0 VS) c') k = Some (n, k1) /\ good E V k k' call (rn (moved k0 VS) c') t k n k1).
  { destruct proto; [apply (elab_same E V k k' OK TM call CALL); auto; rewrite rn_prototyped; auto|exact (elab_sim E V k k' OK TM call CALL _ t P T k)]. }
  destruct G as (n2 & k2 & EL2 & KK & (_ & ST & _) & D). rewrite EL in EL2. injection EL2 as <- <-. split.
  - rewrite (ceq_ty _ _ Q). unfold ty_of. rewrite <- HT, T. destruct ST as [->|[A B]]; [now left|right]. apply ei_cases in A, B. split; [destruct A as [->| ->]|destruct B as [->| ->]]; cbn; auto.
  - intros lv m m2 v m' C [AG FR]. destruct Q as (_ & _ & _ & _ & _ & QC). rewrite QC in C. change saddr with (fun v => e_addr E (moved k0 VS v)) in C. rewrite <- HC in C. destruct (D ltac:(lia) lv m v m' m2 C AG) as (m2' & EV & AG' & F). exists m2'. split; [exact EV|]. split; [exact AG'|]. intros a [Va S]. rewrite F; [apply FR; split; assumption|exact Va|]. intros q Hq B. apply (S q); [lia|now apply NI|exact B].
Qed.
Lemma vla_ev t v m : vla_size t = Some v -> ev E false v m = Some (0, m).
Proof. revert v. induction t; cbn [vla_size]; intros v H; try discriminate H; try (injection H as <-; reflexivity); destruct (vla_size t) as [w|]; try discriminate H; injection H as <-; cbn [ev]; now apply IHt. Qed.
Lemma acc_sub a n : accessible V a n = true -> accessible (e_valid E) a n = true.
Proof.
  unfold accessible. rewrite !andb_true_iff, !forallb_forall. intros [B F]. split; [exact B|]. intros q I. apply (ot_sub _ _ _ _ _ _ OT). now apply F.
Qed.
Lemma store_same m m2 a n v : accessible V a n = true -> like m m2 -> like (le_store m a n v) (le_store m2 a n v).
Proof.
  intros AC [H F]. split; [intros b Vb; unfold le_store; destruct (_ && _); [reflexivity|now apply H]|]. intros b S. rewrite <- (F b S). unfold le_store. destruct ((a <=? b) && (b <? a + n)) eqn:R; [|reflexivity]. exfalso. destruct S as [S _]. apply accessible_spec in AC as (_ & _ & AC). specialize (AC (b - a) ltac:(lia)). rewrite Zplus_minus in AC. congruence.
Qed.
Lemma performs_sim l ns : macts l ns -> forall m m' m2, performs saddr V call l m = Some m' -> like m m2 -> exists m2', effects E ns m2 = Some m2' /\ like m' m2'.
Proof.
  induction 1 as [|c n l ns X _ IH|x t v l ns H _ IH|x t c v a l ns H X _ IH]; intros m m' m2 P AG; cbn [performs perform] in P.
  - injection P as <-. exists m2. auto.
  - destruct (cev saddr V call false c m) as [[w m1]|] eqn:C; [|discriminate P]. destruct (mex_ev _ _ X) as [_ D]. destruct (D _ _ _ _ _ C AG) as (m3 & EV & AG'). destruct (IH _ _ _ P AG') as (m4 & EF & AG''). exists m4. split; [cbn [effects]; rewrite EV; exact EF|exact AG''].
  - destruct (IH _ _ _ P AG) as (m4 & EF & AG''). exists m4. split; [cbn [effects]; rewrite (vla_ev _ _ _ H); exact EF|exact AG''].
  - destruct (accessible V (saddr x) (size_of t)) eqn:AC; [|discriminate P]. destruct (cev saddr V call false (CAssign (CVar x t) c) _) as [[w m1]|] eqn:C; [|discriminate P]. destruct (mex_ev _ _ X) as [_ D].
    destruct (D _ _ (le_store m2 (saddr x) (size_of t) 0) _ _ C (store_same _ _ _ _ _ AC AG)) as (m3 & EV & AG'). destruct (IH _ _ _ P AG') as (m4 & EF & AG''). exists m4. split; [|exact AG'']. cbn [effects]. rewrite (vla_ev _ _ _ H). cbn [ev]. change (e_addr E (moved k0 VS x)) with (saddr x). rewrite (acc_sub _ _ AC). rewrite EV. exact EF.
Qed.
Lemma st_scalar a b : same_type a b -> valued b = true -> is_scalar a = true.
Proof. intros [->|[A B]] H; [unfold valued, scalar in H; unfold is_scalar; destruct b; try exact H; try discriminate H; reflexivity|]. cbn in A. intuition (subst; reflexivity). Qed.
Lemma test_sim c n m m2 t m' : mopt c n -> htest saddr V call c m = Some (t, m') -> like m m2 -> exists m2', test E n m2 = Some (t, m2') /\ like m' m2'.
Proof.
  intros X H AG. destruct c as [c|], n as [n|]; cbn [BodyStatic.mopt] in X; try contradiction; cbn [htest test] in *; [|injection H as <- <-; eauto]. destruct (mex_ev c n X) as [ST D]. destruct (valued (ty_of c)) eqn:VA; [|discriminate H]. rewrite (st_scalar _ _ ST VA). destruct (cev saddr V call false c m) as [[w m1]|] eqn:C; [|discriminate H]. injection H as <- <-. destruct (D _ _ _ _ _ C AG) as (m3 & EV & AG'). exists m3. rewrite EV. auto.
Qed.
Lemma st_case a b lo hi v : same_type a b -> case_hit a lo hi v = case_hit b lo hi v.
Proof. intros [->|[A B]]; [reflexivity|]. cbn in A, B. intuition (subst; reflexivity). Qed.

(** ** What is left to do *)
Inductive mk_cont : hcont -> cont -> Prop :=
  | mk_stop : mk_cont HKStop KStop
  | mk_seq s s' k k' : mst s s' -> mk_cont k k' -> mk_cont (HKSeq s k) (KSeq s' k')
  | mk_head c c' i i' b b' k k' : mopt c c' -> mopt i i' -> mst b b' -> mk_cont k k' -> mk_cont (HKHead c i b k) (KHead c' i' b' k')
  | mk_body c c' i i' b b' k k' : mopt c c' -> mopt i i' -> mst b b' -> mk_cont k k' -> mk_cont (HKBody c i b k) (KBody c' i' b' k')
  | mk_do b b' c c' k k' : mst b b' -> mex c c' -> mk_cont k k' -> mk_cont (HKDo b c k) (KDo b' c' k')
  | mk_switch k k' : mk_cont k k' -> mk_cont (HKSwitch k) (KSwitch k').
Definition mfound (a : option (hstmt * hcont)) (b : option (stmt * cont)) : Prop :=
  match a, b with None, None => True | Some (s, k), Some (s', k') => mst s s' /\ mk_cont k k' | _, _ => False end.
Lemma mfound_or a b a' b' : mfound a a' -> mfound b b' -> mfound (orelse a b) (orelse a' b').
Proof. destruct a as [[? ?]|], a' as [[? ?]|]; cbn [mfound orelse]; auto; intros []. Qed.
Lemma seqs_none t v l : forall ns k, find_case t v (seqs ns) k = None /\ find_default (seqs ns) k = None /\ find_label l (seqs ns) k = None.
Proof. induction ns as [|n ns IH]; intros k; [auto|]. cbn [seqs find_case find_default find_label orelse]. apply IH. Qed.
Lemma found_case t t' v s s' : same_type t' t -> mst s s' -> forall k k', mk_cont k k' -> mfound (h_case t v s k) (find_case t' v s' k').
Proof.
  intros ST. induction 1; intros k k' K; cbn [h_case find_case]; try exact I.
  - destruct (seqs_none t' v [] ns k') as (-> & _). exact I.
  - apply mfound_or; [apply IHmst1; now constructor|now apply IHmst2].
  - apply mfound_or; auto.
  - rewrite (st_case _ _ lo hi v ST). destruct (case_hit t lo hi v); [split; assumption|auto].
  - auto.
  - apply IHmst. now constructor.
  - apply IHmst. now constructor.
  - apply IHmst. now constructor.
  - auto.
Qed.
Lemma found_default s s' : mst s s' -> forall k k', mk_cont k k' -> mfound (h_default s k) (find_default s' k').
Proof.
  induction 1; intros k k' K; cbn [h_default find_default]; try exact I.
  - destruct (seqs_none TVoid 0 [] ns k') as (_ & -> & _). exact I.
  - apply mfound_or; [apply IHmst1; now constructor|now apply IHmst2].
  - apply mfound_or; auto.
  - auto.
  - split; assumption.
  - apply IHmst. now constructor.
  - apply IHmst. now constructor.
  - apply IHmst. now constructor.
  - auto.
Qed.
Lemma found_label l s s' : mst s s' -> forall k k', mk_cont k k' -> mfound (h_label l s k) (find_label l s' k').
Proof.
  induction 1; intros k k' K; cbn [h_label find_label]; try exact I.
  - destruct (seqs_none TVoid 0 l ns k') as (_ & _ & ->). exact I.
  - apply mfound_or; [apply IHmst1; now constructor|now apply IHmst2].
  - apply mfound_or; auto.
  - apply IHmst. now constructor.
  - auto.
  - auto.
  - apply IHmst. now constructor.
  - apply IHmst. now constructor.
  - apply IHmst. now constructor.
  - destruct (beq l l0); [split; assumption|auto].
Qed.

(** ** Steps *)
Variables (hb : hstmt) (tb : stmt).
Hypothesis BODY : mst hb tb.
Definition mconf (a : hconf) (b : conf) : Prop :=
  match a, b with
  | HRun s k m, Run s' k' m2 => mst s s' /\ mk_cont k k' /\ like m m2
  | HReturned v m, Returned v' m2 => v = v' /\ like m m2
  | HFinished m, Finished m2 => like m m2
  | _, _ => False
  end.
Notation steps := (ssteps E rt tb).
Lemma steps_trans a b c : steps a b -> steps b c -> steps a c.
Proof. induction 1; intros H'; [exact H'|]. econstructor; eauto. Qed.
Lemma seqs_steps : forall ns k m m', effects E ns m = Some m' -> steps (Run (seqs ns) k m) (Run SSkip k m').
Proof.
  induction ns as [|n ns IH]; intros k m m' H; cbn [effects] in H; [injection H as <-; constructor|]. destruct (ev E false n m) as [[v m1]|] eqn:EV; [|discriminate H].
  cbn [seqs]. econstructor; [reflexivity|]. econstructor; [cbn [sstep effects]; rewrite EV; reflexivity|]. econstructor; [reflexivity|]. now apply IH.
Qed.
Lemma step_sim a a' b : hstep saddr V call rt hb a = Some a' -> mconf a b -> exists b1 b', sstep E rt tb b = Some b1 /\ steps b1 b' /\ mconf a' b'.
Proof.
  intros H M. destruct a as [s k m|v m|m]; try discriminate H. destruct b as [s' k' m2| |]; try contradiction. destruct M as (M & K & AG).
  assert (ONE : forall b', sstep E rt tb (Run s' k' m2) = Some b' -> mconf a' b' -> exists b1 b', sstep E rt tb (Run s' k' m2) = Some b1 /\ steps b1 b' /\ mconf a' b') by (intros b' S1 M1; exists b', b'; split; [exact S1|split; [constructor|exact M1]]).
  destruct M as [|c n X|a l ns X|a b a1 b1 Ma Mb|c n a b a1 b1 X Ma Mb|c n b b1 X Mb|lo hi s s1 Ms|s s1 Ms|l ns c c1 i i1 b b1 Ml Mc Mi Mb|c n b b1 X Mb|c n b b1 X Mb|l| | |l s s1 Ms| |c n X]; cbn [hstep] in H.
  - destruct K as [|s s1 k k1 Ms K|c c1 i i1 b b1 k k1 Mc Mi Mb K|c c1 i i1 b b1 k k1 Mc Mi Mb K|b b1 c c1 k k1 Mb Mc K|k k1 K].
    + injection H as <-. eapply ONE; [reflexivity|exact AG].
    + injection H as <-. eapply ONE; [reflexivity|]. split; [exact Ms|split; [exact K|exact AG]].
    + destruct (htest saddr V call c m) as [[t m']|] eqn:HT; [|discriminate H]. injection H as <-. destruct (test_sim _ _ _ _ _ _ Mc HT AG) as (m3 & T & AG'). eapply ONE; [cbn [sstep]; rewrite T; reflexivity|]. destruct t; (split; [|split; [|exact AG']]); try assumption; now constructor.
    + destruct (performs saddr V call _ m) as [m'|] eqn:P; [|discriminate H]. injection H as <-. assert (MI : macts match i with Some e => [ADo e] | None => [] end match i1 with Some e => [e] | None => [] end) by (destruct i, i1; cbn [BodyStatic.mopt] in Mi; try contradiction; [constructor; [exact Mi|constructor]|constructor]).
      destruct (performs_sim _ _ MI _ _ _ P AG) as (m3 & EF & AG'). eapply ONE; [cbn [sstep]; rewrite EF; reflexivity|]. split; [constructor|split; [now constructor|exact AG']].
    + destruct (htest saddr V call (Some c) m) as [[t m']|] eqn:HT; [|discriminate H]. injection H as <-. destruct (test_sim (Some c) (Some c1) _ _ _ _ Mc HT AG) as (m3 & T & AG'). eapply ONE; [cbn [sstep]; rewrite T; reflexivity|]. destruct t; (split; [|split; [|exact AG']]); try assumption; now constructor.
    + injection H as <-. eapply ONE; [reflexivity|]. split; [constructor|split; [exact K|exact AG]].
  - destruct (performs saddr V call [ADo c] m) as [m'|] eqn:P; [|discriminate H]. injection H as <-. destruct (performs_sim [ADo c] [n] ltac:(constructor; [exact X|constructor]) _ _ _ P AG) as (m3 & EF & AG'). eapply ONE; [cbn [sstep]; rewrite EF; reflexivity|]. split; [constructor|split; [exact K|exact AG']].
  - destruct (performs saddr V call (a :: l) m) as [m'|] eqn:P; [|discriminate H]. injection H as <-. destruct (performs_sim _ _ X _ _ _ P AG) as (m3 & EF & AG').
    destruct ns as [|n ns]; [inversion X|]. pose proof (seqs_steps (n :: ns) k' m2 m3 EF) as SS. cbn [seqs] in *. inversion SS as [|? b1 ? S1 S2]; subst. exists b1, (Run SSkip k' m3). split; [exact S1|]. split; [exact S2|]. split; [constructor|split; [exact K|exact AG']].
  - injection H as <-. eapply ONE; [reflexivity|]. split; [exact Ma|split; [now constructor|exact AG]].
  - destruct (htest saddr V call (Some c) m) as [[t m']|] eqn:HT; [|discriminate H]. injection H as <-. destruct (test_sim (Some c) (Some n) _ _ _ _ X HT AG) as (m3 & T & AG'). eapply ONE; [cbn [sstep]; rewrite T; reflexivity|]. destruct t; (split; [|split; [|exact AG']]); assumption.
  - destruct (cev saddr V call false c m) as [[v m']|] eqn:C; [|discriminate H]. destruct (mex_ev _ _ X) as [ST D]. destruct (D _ _ _ _ _ C AG) as (m3 & EV & AG').
    pose proof (mfound_or _ _ _ _ (found_case (ty_of c) (ntype n) v b b1 ST Mb (HKSwitch k) (KSwitch k') ltac:(now constructor)) (found_default b b1 Mb (HKSwitch k) (KSwitch k') ltac:(now constructor))) as MF.
    destruct (orelse (h_case (ty_of c) v b (HKSwitch k)) (h_default b (HKSwitch k))) as [[s k1]|]; injection H as <-; destruct (orelse (find_case (ntype n) v b1 (KSwitch k')) (find_default b1 (KSwitch k'))) as [[s1 k2]|] eqn:OE; try contradiction.
    + destruct MF as [MF1 MF2]. eapply ONE; [cbn [sstep]; rewrite EV; cbv beta iota; rewrite OE; reflexivity|]. split; [exact MF1|split; [exact MF2|exact AG']].
    + eapply ONE; [cbn [sstep]; rewrite EV; cbv beta iota; rewrite OE; reflexivity|]. split; [constructor|split; [exact K|exact AG']].
  - injection H as <-. eapply ONE; [reflexivity|]. split; [exact Ms|split; [exact K|exact AG]].
  - injection H as <-. eapply ONE; [reflexivity|]. split; [exact Ms|split; [exact K|exact AG]].
  - destruct (performs saddr V call l m) as [m'|] eqn:P; [|discriminate H]. injection H as <-. destruct (performs_sim _ _ Ml _ _ _ P AG) as (m3 & EF & AG'). eapply ONE; [cbn [sstep]; rewrite EF; reflexivity|]. split; [constructor|split; [now constructor|exact AG']].
  - injection H as <-. eapply ONE; [reflexivity|]. split; [constructor|split; [now constructor|exact AG]].
  - injection H as <-. eapply ONE; [reflexivity|]. split; [exact Mb|split; [now constructor|exact AG]].
  - pose proof (found_label l hb tb BODY HKStop KStop ltac:(constructor)) as MF. destruct (h_label l hb HKStop) as [[s k1]|]; [|discriminate H]. injection H as <-. destruct (find_label l tb KStop) as [[s1 k2]|] eqn:FL; [|contradiction]. destruct MF as [MF1 MF2]. eapply ONE; [cbn [sstep]; rewrite FL; reflexivity|]. split; [exact MF1|split; [exact MF2|exact AG]].
  - destruct K; try discriminate H; injection H as <-; (eapply ONE; [reflexivity|]); (split; [constructor|split; [assumption|exact AG]]).
  - destruct K; try discriminate H; injection H as <-; (eapply ONE; [reflexivity|]); (split; [constructor|split; [first [assumption|constructor; assumption]|exact AG]]).
  - injection H as <-. eapply ONE; [reflexivity|]. split; [exact Ms|split; [exact K|exact AG]].
  - injection H as <-. eapply ONE; [reflexivity|]. split; [reflexivity|exact AG].
  - destruct (cev saddr V call false (CCast rt c) m) as [[v m']|] eqn:C; [|discriminate H]. injection H as <-. destruct (mex_ev _ _ X) as [_ D]. destruct (D _ _ _ _ _ C AG) as (m3 & EV & AG'). eapply ONE; [cbn [sstep]; rewrite EV; reflexivity|]. split; [reflexivity|exact AG'].
Qed.
Lemma steps_sim a a' : hsteps saddr V call rt hb a a' -> forall b, mconf a b -> exists b', steps b b' /\ mconf a' b'.
Proof.
  induction 1 as [a|a a1 a2 S1 S2 IH]; intros b M; [exists b; split; [constructor|exact M]|]. destruct (step_sim _ _ _ S1 M) as (b1 & b2 & T1 & T2 & M2). destruct (IH _ M2) as (b3 & T3 & M3). exists b3. split; [|exact M3]. econstructor; [exact T1|]. eapply steps_trans; eassumption.
Qed.
Lemma forever_sim a b : h_forever saddr V call rt hb a -> mconf a b -> runs_forever E rt tb b.
Proof.
  intros F M. assert (INV : exists a1 d, h_forever saddr V call rt hb a1 /\ steps b d /\ mconf a1 d) by (exists a, b; split; [exact F|split; [constructor|exact M]]). clear a F M.
  assert (ST : forall b, (exists a1 d, h_forever saddr V call rt hb a1 /\ steps b d /\ mconf a1 d) -> exists b1, sstep E rt tb b = Some b1 /\ exists a1 d, h_forever saddr V call rt hb a1 /\ steps b1 d /\ mconf a1 d).
  { intros c (a1 & d & F & S1 & M). destruct S1 as [c|c c1 d T1 T2].
    - destruct (hstep saddr V call rt hb a1) as [a2|] eqn:H; [|exfalso; exact (F a1 (hsteps_refl _ _ _ _ _ a1) H)]. destruct (step_sim _ _ _ H M) as (b1 & b2 & T1 & T2 & M2). exists b1. split; [exact T1|]. exists a2, b2. split; [|split; [exact T2|exact M2]]. intros a3 HS. apply F. econstructor; eassumption.
    - exists c1. split; [exact T1|]. exists a1, d. auto. }
  intros c S1. assert (IC : exists a1 d, h_forever saddr V call rt hb a1 /\ steps c d /\ mconf a1 d). { induction S1 as [c|c c1 d T1 T2 IH]; [exact INV|]. apply IH. destruct (ST c INV) as (c2 & T3 & IN). rewrite T1 in T3. injection T3 as <-. exact IN. }
  destruct (ST c IC) as (c1 & T1 & _). congruence.
Qed.
End Sim.

(** ** The shape of the tree *)
Lemma seqs_shape ns : (forall a b, nested a b (seqs ns) = true) /\ gotos (seqs ns) = [] /\ user_labels (seqs ns) = [].
Proof. induction ns as [|n ns (A & B & C)]; [auto|]. cbn [seqs nested gotos user_labels]. rewrite B, C. split; [intros; rewrite A; reflexivity|auto]. Qed.
Lemma mst_shape proto k0 VS kN rt s t : mst proto k0 VS kN rt s t -> (forall a b, nested a b t = nested a b (shape s)) /\ gotos t = gotos (shape s) /\ user_labels t = user_labels (shape s).
Proof.
  induction 1; cbn [shape nested gotos user_labels]; repeat match goal with H : _ /\ _ |- _ => destruct H end; try (split; [intros|split]; congruence).
  - exact (seqs_shape ns).
Qed.
