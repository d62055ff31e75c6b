(** Simulation of statements by their code. *)
From Verif Require Import Base TypeModel IntArith NodeModel NodeProofs ValSpec NodeSpec RvSpec GenModel GenSpec RvProofs GenArith GenBits GenRun GenProofs GenSim StmtSpec StmtModel.
From Coq Require Import ZifyBool ZifyNat.
Local Notation length := List.length.

Lemma conv_id t z : val_of t z = true -> conv t z = Some z.
Proof.
  unfold val_of, conv. intros V. destruct (int_repr t) as [[s n]|] eqn:R; [|discriminate].
  assert (N : 0 < n <= 64) by (destruct t as [| |[]|[]|[]|[]| | | | | | | | | |]; cbn in R; inversion R; lia).
  assert (X : Some (if s then sx n z else z mod 2 ^ n) = Some z).
  { f_equal. apply in_range_true in V; [|lia]. destruct s; [apply sx_id; lia|apply mod_id; lia]. }
  destruct t; try discriminate R; try exact X. cbn in R. inversion R; subst. apply in_range_true in V; [|lia]. cbn in V.
  destruct (Z.eqb_spec z 0); f_equal; lia.
Qed.

(** ** Steps *)
Definition plus (W : world) (p : prog) (s s' : state) : Prop := exists s1, step W p s = Some s1 /\ star W p s1 s'.
Section Plus.
Variables (W : world) (p : prog).
Lemma plus_star s s' : plus W p s s' -> star W p s s'. Proof. intros (x & A & B). econstructor; eauto. Qed.
Lemma plus_one s s' : step W p s = Some s' -> plus W p s s'. Proof. intros. exists s'. split; auto. constructor. Qed.
Lemma plus_star_trans a b c : plus W p a b -> star W p b c -> plus W p a c. Proof. intros (x & A & B) H. exists x. split; auto. eapply star_trans; eauto. Qed.
Lemma star_plus_trans a b c : star W p a b -> plus W p b c -> plus W p a c.
Proof. intros H. revert c. induction H as [|s s1 s2 X Y IH]; intros c P; auto. exists s1. split; auto. apply plus_star; auto. Qed.
Lemma star_or s s' : star W p s s' -> s = s' \/ plus W p s s'. Proof. intros []; [auto|right; eexists; split; eauto]. Qed.
End Plus.

Section Sim.
Variables (E : env) (W : world) (goff : nat -> Z) (fp room slots : Z) (rt : ty) (fname : bytes) (p : prog).
Variables (lenv : list (bytes * Z)) (pend pret : nat) (s0 : state) (lo : Z).
Hypothesis HS : setting E W goff fp.
Hypothesis HL : linked E W fp room p.
Hypothesis FS0 : free_stack E room lo s0.
Hypothesis SL0 : lo + 8 * slots <= rg s0 Sp.
Hypothesis LN : NoDup (map fst lenv).
Hypothesis RET : nth_error p pret = Some (Lab (LReturn fname)).

Definition ati (k : nat) (i : instr) : Prop := nth_error p k = Some i.
Definition leads (k k' : nat) : Prop := forall rs m, star W p (St k rs m) (St k' rs m).
Lemma leads_refl k : leads k k. Proof. intros rs m. constructor. Qed.
Lemma leads_trans a b c : leads a b -> leads b c -> leads a c. Proof. intros H1 H2 rs m. eapply star_trans; eauto. Qed.
Lemma label_step k l rs m : ati k (ILabel l) -> step W p (St k rs m) = Some (St (S k) rs m).
Proof. intros H. unfold step. cbn [pc]. now rewrite H. Qed.
Lemma leads_label k l : ati k (ILabel l) -> leads k (S k). Proof. intros H rs m. apply star_one. eapply label_step; eauto. Qed.
Lemma jump_step k l k' rs m : ati k (IJ l) -> ati k' (ILabel l) -> step W p (St k rs m) = Some (St k' rs m).
Proof. intros J L. unfold step. cbn [pc]. rewrite J. now rewrite (find_label_at p k' l (proj1 HL) L). Qed.
Lemma leads_jump k l k' : ati k (IJ l) -> ati k' (ILabel l) -> leads k k'. Proof. intros J L rs m. apply star_one. eapply jump_step; eauto. Qed.

(** ** Code of expressions at a place *)
Definition expr_at (bits : Z) (k : nat) (e : node) (k' : nat) : Prop :=
  expr_ok slots bits e = true /\ exists gs c gs', gen goff false e gs = Some (c, gs') /\ code_at p k c /\ k' = (k + length c)%nat.
Fixpoint exprs_at (k : nat) (l : list node) (k' : nat) : Prop :=
  match l with [] => k = k' | e :: l => exists k1, expr_at 0 k e k1 /\ exprs_at k1 l k' end.
Definition test_at (k : nat) (c : node) (br : bcond) (l : label) (k' : nat) : Prop :=
  exists k0, expr_at 64 k c k0 /\ ati k0 (Seqz A0 A0) /\ ati (S k0) (IBr br A0 Zero l) /\ k' = S (S k0).
Definition test_opt_at (k : nat) (c : option node) (l : label) (k' : nat) : Prop :=
  match c with Some c => test_at k c BNE l k' | None => k' = k end.
Definition optl (e : option node) : list node := match e with Some e => [e] | None => [] end.
Definition loop_at (c inc : option node) (u v : Z) (k kb kc k' : nat) : Prop :=
  exists n k1, ati k (Lab (LBegin n)) /\ test_opt_at (S k) c (U u) kb /\ ati kc (ILabel (U v)) /\ exprs_at (S kc) (optl inc) k1 /\
    ati k1 (IJ (name (LBegin n))) /\ ati (S k1) (ILabel (U u)) /\ k' = S (S k1).
Definition do_at (c : node) (u v : Z) (k kc k' : nat) : Prop :=
  exists n k2, ati k (Lab (LBegin n)) /\ ati kc (ILabel (U v)) /\ test_at (S kc) c BEQ (name (LBegin n)) k2 /\ ati k2 (ILabel (U u)) /\ k' = S k2.
Definition dflt_at (k : nat) (d : option Z) (k' : nat) : Prop := match d with Some u => ati k (IJ (U u)) /\ k' = S k | None => k' = k end.

(** The code of [s] stands from [k] to [k'] (a statement that jumps does not care for [k']);
    [ents], [d]: the case labels and the default label in it *)
Inductive at_s : option Z -> option Z -> stmt -> nat -> nat -> list (Z * Z * Z) -> option Z -> Prop :=
  | at_skip b c k : at_s b c SSkip k k [] None
  | at_expr b c e k k' : expr_at 0 k e k' -> at_s b c (SExpr e) k k' [] None
  | at_seq b c x y k k1 k2 e1 d1 e2 d2 : at_s b c x k k1 e1 d1 -> at_s b c y k1 k2 e2 d2 -> at_s b c (SSeq x y) k k2 (e2 ++ e1) (orelse d2 d1)
  | at_if b c e x y n k k1 k2 k3 e1 d1 e2 d2 : test_at k e BNE (name (LElse n)) k1 -> at_s b c x k1 k2 e1 d1 -> ati k2 (IJ (name (LEnd n))) ->
      ati (S k2) (Lab (LElse n)) -> at_s b c y (S (S k2)) k3 e2 d2 -> ati k3 (Lab (LEnd n)) -> at_s b c (SIf e x y) k (S k3) (e2 ++ e1) (orelse d2 d1)
  | at_switch b c e s u k k1 k3 k4 ents d : expr_at 64 k e k1 -> int_repr (ntype e) <> None -> switch_ok e s = true -> code_at p k1 (flat_map case_code ents) ->
      dflt_at (k1 + length (flat_map case_code ents)) d k3 -> ati k3 (IJ (U u)) -> at_s (Some u) c s (S k3) k4 ents d -> ati k4 (ILabel (U u)) ->
      at_s b c (SSwitch e s) k (S k4) [] None
  | at_case b c l h s u k k' ents d : ati k (ILabel (U u)) -> sx 32 l <= sx 32 h -> at_s b c s (S k) k' ents d -> at_s b c (SCase l h s) k k' ((sx 32 l, sx 32 h, u) :: ents) d
  | at_default b c s u k k' ents d : ati k (ILabel (U u)) -> at_s b c s (S k) k' ents d -> at_s b c (SDefault s) k k' ents (Some u)
  | at_for b c init e inc s u v k k0 kb kc k' ents d : exprs_at k init k0 -> loop_at e inc u v k0 kb kc k' -> at_s (Some u) (Some v) s kb kc ents d ->
      at_s b c (SFor init e inc s) k k' ents d
  | at_while b c e s u v k kb kc k' ents d : loop_at (Some e) None u v k kb kc k' -> at_s (Some u) (Some v) s kb kc ents d -> at_s b c (SWhile e s) k k' ents d
  | at_do b c e s u v k kc k' ents d : do_at e u v k kc k' -> at_s (Some u) (Some v) s (S k) kc ents d -> at_s b c (SDo s e) k k' ents d
  | at_goto b c l u k k' : lookup lenv l = Some u -> ati k (IJ (U u)) -> at_s b c (SGoto l) k k' [] None
  | at_break c u k k' : ati k (IJ (U u)) -> at_s (Some u) c SBreak k k' [] None
  | at_continue b u k k' : ati k (IJ (U u)) -> at_s b (Some u) SContinue k k' [] None
  | at_label b c l s u k k' ents d : ati k (ILabel (U u)) -> In (l, u) lenv -> at_s b c s (S k) k' ents d -> at_s b c (SLabel l s) k k' ents d
  | at_return b c e k k1 k' : match e with Some e => expr_at (ret_bits rt) k (NCast rt e) k1 | None => k1 = k end -> ati k1 (IJ (name (LReturn fname))) ->
      at_s b c (SReturn e) k k' [] None.

(** What follows is what the continuation says; [b], [c]: the targets of break and continue *)
Inductive match_cont : cont -> nat -> option Z -> option Z -> Prop :=
  | mc_stop k : leads k pend -> match_cont KStop k None None
  | mc_seq s k b c pos k1 k2 e d : leads pos k1 -> at_s b c s k1 k2 e d -> match_cont k k2 b c -> match_cont (KSeq s k) pos b c
  | mc_head e inc s k u v pos k0 kb kc k1 ents d b c b' c' : leads pos k0 -> loop_at e inc u v k0 kb kc k1 -> at_s (Some u) (Some v) s kb kc ents d ->
      match_cont k k1 b c -> match_cont (KHead e inc s k) pos b' c'
  | mc_body e inc s k u v pos k0 kb kc k1 ents d b c : leads pos kc -> loop_at e inc u v k0 kb kc k1 -> at_s (Some u) (Some v) s kb kc ents d ->
      match_cont k k1 b c -> match_cont (KBody e inc s k) pos (Some u) (Some v)
  | mc_do e s k u v pos k0 kc k1 ents d b c : leads pos kc -> do_at e u v k0 kc k1 -> at_s (Some u) (Some v) s (S k0) kc ents d ->
      match_cont k k1 b c -> match_cont (KDo s e k) pos (Some u) (Some v)
  | mc_switch k u pos k0 b c : leads pos k0 -> ati k0 (ILabel (U u)) -> match_cont k (S k0) b c -> match_cont (KSwitch k) pos (Some u) c.
Lemma lead_cont k pos pos' b c : leads pos' pos -> match_cont k pos b c -> match_cont k pos' b c.
Proof. intros L H. inversion H; subst; (econstructor; [eapply leads_trans; [exact L|eassumption]|..]; eauto). Qed.

Definition found (pos : nat) (s : stmt) (k : cont) : Prop := exists k2 b c e d, at_s b c s pos k2 e d /\ match_cont k k2 b c.

(** ** Finding labels *)
Lemma if_ends k2 k3 n kk b c : ati k2 (IJ (name (LEnd n))) -> ati k3 (Lab (LEnd n)) -> match_cont kk (S k3) b c -> match_cont kk k2 b c /\ match_cont kk k3 b c.
Proof.
  intros J L M. assert (L3 : leads k3 (S k3)) by (eapply leads_label; exact L). split; (eapply lead_cont; [|exact M]); auto.
  eapply leads_trans; [eapply leads_jump; [exact J|exact L]|exact L3].
Qed.
Lemma at_find_label b c s k k' ents d : at_s b c s k k' ents d -> forall l kk s' kk', match_cont kk k' b c -> find_label l s kk = Some (s', kk') ->
  exists u kpos, In (l, u) lenv /\ ati kpos (ILabel (U u)) /\ found (S kpos) s' kk'.
Proof.
  induction 1; intros ll kk s' kk' MC F; cbn [find_label] in F; try discriminate; try (eapply IHat_s; eauto; econstructor; eauto using leads_refl; fail).
  - destruct (find_label ll x (KSeq y kk)) as [r|] eqn:F1; cbn [orelse] in F.
    + assert (r = (s', kk')) by congruence. subst. eapply IHat_s1; [|exact F1]. econstructor; eauto using leads_refl.
    + eapply IHat_s2; eauto.
  - destruct (if_ends _ _ _ _ _ _ H1 H4 MC) as [M2 M3]. destruct (find_label ll x kk) as [r|] eqn:F1; cbn [orelse] in F.
    + assert (r = (s', kk')) by congruence. subst. eapply IHat_s1; eauto.
    + eapply IHat_s2; eauto.
  - destruct (beq ll l) eqn:B; [|eapply IHat_s; eauto]. apply beq_eq in B. subst ll. assert (s' = s /\ kk' = kk) as [-> ->] by (split; congruence).
    exists u, k. split; auto. split; auto. repeat eexists; eauto.
Qed.
Lemma at_find_case t v b c s k k' ents d : at_s b c s k k' ents d -> forall kk s' kk', match_cont kk k' b c -> find_case t v s kk = Some (s', kk') ->
  exists l h u kpos, In (l, h) (cases_of s) /\ case_hit t l h v = true /\ In (sx 32 l, sx 32 h, u) ents /\ ati kpos (ILabel (U u)) /\ found (S kpos) s' kk'.
Proof.
  induction 1; intros kk s' kk' MC F; cbn [find_case cases_of] in *; try discriminate; try (eapply IHat_s; eauto; econstructor; eauto using leads_refl; fail).
  - destruct (find_case t v x (KSeq y kk)) as [r|] eqn:F1; cbn [orelse] in F.
    + assert (r = (s', kk')) by congruence. subst. destruct (IHat_s1 (KSeq y kk) s' kk' ltac:(econstructor; eauto using leads_refl) F1) as (l & h & u & kp & I1 & C & I2 & R).
      exists l, h, u, kp. rewrite !in_app_iff. tauto.
    + destruct (IHat_s2 kk s' kk' MC F) as (l & h & u & kp & I1 & C & I2 & R). exists l, h, u, kp. rewrite !in_app_iff. tauto.
  - destruct (if_ends _ _ _ _ _ _ H1 H4 MC) as [M2 M3]. destruct (find_case t v x kk) as [r|] eqn:F1; cbn [orelse] in F.
    + assert (r = (s', kk')) by congruence. subst. destruct (IHat_s1 kk s' kk' M2 F1) as (l & h & u & kp & I1 & C & I2 & R).
      exists l, h, u, kp. rewrite !in_app_iff. tauto.
    + destruct (IHat_s2 kk s' kk' M3 F) as (l & h & u & kp & I1 & C & I2 & R). exists l, h, u, kp. rewrite !in_app_iff. tauto.
  - destruct (case_hit t l h v) eqn:C.
    + assert (s' = s /\ kk' = kk) as [-> ->] by (split; congruence). exists l, h, u, k. split; [now left|]. split; auto. split; [now left|]. split; auto. repeat eexists; eauto.
    + destruct (IHat_s kk s' kk' MC F) as (l1 & h1 & u1 & kp & I1 & C1 & I2 & R). exists l1, h1, u1, kp. split; [now right|]. split; auto. split; [now right|]. auto.
Qed.
Lemma find_case_none t v s : forall k, find_case t v s k = None -> forall x, In x (cases_of s) -> case_hit t (fst x) (snd x) v = false.
Proof.
  induction s; intros kk F x I; cbn [find_case cases_of] in *; try contradiction; eauto.
  - apply in_app_iff in I. destruct (find_case t v s1 (KSeq s2 kk)) eqn:F1; cbn [orelse] in F; [discriminate|]. destruct I; eauto.
  - apply in_app_iff in I. destruct (find_case t v s1 kk) eqn:F1; cbn [orelse] in F; [discriminate|]. destruct I; eauto.
  - destruct (case_hit t lo0 hi v) eqn:C; [discriminate|]. destruct I as [<-|I]; eauto.
Qed.
Lemma at_entries b c s k k' ents d : at_s b c s k k' ents d -> map fst ents = map (fun x => (sx 32 (fst x), sx 32 (snd x))) (cases_of s) /\ Forall (fun e => fst (fst e) <= snd (fst e)) ents.
Proof.
  induction 1; cbn [cases_of map]; try (split; [reflexivity|constructor]); auto.
  - destruct IHat_s1 as [I1 J1], IHat_s2 as [I2 J2]. split; [|now apply Forall_app]. now rewrite !map_app, I1, I2.
  - destruct IHat_s1 as [I1 J1], IHat_s2 as [I2 J2]. split; [|now apply Forall_app]. now rewrite !map_app, I1, I2.
  - destruct IHat_s as [I J]. split; [|constructor; auto]. cbn. now rewrite I.
Qed.
Lemma at_no_default b c s k k' ents d : at_s b c s k k' ents d -> defaults s = 0%nat -> d = None.
Proof.
  induction 1; cbn [defaults]; intros D; auto; try discriminate.
  - rewrite IHat_s1, IHat_s2 by lia. reflexivity.
  - rewrite IHat_s1, IHat_s2 by lia. reflexivity.
Qed.
Lemma find_default_count s : forall k r, find_default s k = Some r -> (0 < defaults s)%nat.
Proof.
  induction s; intros kk r F; cbn [find_default defaults] in *; try discriminate; eauto; try lia.
  - destruct (find_default s1 (KSeq s2 kk)) eqn:F1; cbn [orelse] in F; [apply IHs1 in F1; lia|]. apply IHs2 in F. lia.
  - destruct (find_default s1 kk) eqn:F1; cbn [orelse] in F; [apply IHs1 in F1; lia|]. apply IHs2 in F. lia.
Qed.
Lemma find_default_none s : forall k, find_default s k = None -> defaults s = 0%nat.
Proof.
  induction s; intros kk F; cbn [find_default defaults] in *; try discriminate; eauto; try reflexivity.
  - destruct (find_default s1 (KSeq s2 kk)) eqn:F1; cbn [orelse] in F; [discriminate|]. rewrite (IHs1 _ F1), (IHs2 _ F). reflexivity.
  - destruct (find_default s1 kk) eqn:F1; cbn [orelse] in F; [discriminate|]. rewrite (IHs1 _ F1), (IHs2 _ F). reflexivity.
Qed.
Lemma at_find_default b c s k k' ents d : at_s b c s k k' ents d -> forall kk s' kk', match_cont kk k' b c -> (defaults s <= 1)%nat -> find_default s kk = Some (s', kk') ->
  exists u kpos, d = Some u /\ ati kpos (ILabel (U u)) /\ found (S kpos) s' kk'.
Proof.
  induction 1; intros kk s' kk' MC DF F; cbn [find_default defaults] in *; try discriminate; try (eapply IHat_s; eauto; econstructor; eauto using leads_refl; fail).
  - destruct (find_default x (KSeq y kk)) as [r|] eqn:F1; cbn [orelse] in F.
    + assert (r = (s', kk')) by congruence. subst. pose proof (find_default_count _ _ _ F1). rewrite (at_no_default _ _ _ _ _ _ _ H0) by lia. cbn [orelse].
      eapply IHat_s1; [|lia|exact F1]. econstructor; eauto using leads_refl.
    + destruct (IHat_s2 kk s' kk' MC ltac:(lia) F) as (u & kp & -> & R). exists u, kp. auto.
  - destruct (if_ends _ _ _ _ _ _ H1 H4 MC) as [M2 M3]. destruct (find_default x kk) as [r|] eqn:F1; cbn [orelse] in F.
    + assert (r = (s', kk')) by congruence. subst. pose proof (find_default_count _ _ _ F1). rewrite (at_no_default _ _ _ _ _ _ _ H3) by lia. cbn [orelse].
      eapply IHat_s1; eauto. lia.
    + destruct (IHat_s2 kk s' kk' M3 ltac:(lia) F) as (u & kp & -> & R). exists u, kp. auto.
  - assert (s' = s /\ kk' = kk) as [-> ->] by (split; congruence). exists u, k. split; auto. split; auto. repeat eexists; eauto.
Qed.

(** ** Dispatch of a switch *)
Definition keeps (rs rs' : regs) : Prop := regs_ok rs' /\ rs' Sp = rs Sp /\ rs' Fp = rs Fp.
Definition hits (v : Z) (e : Z * Z * Z) : Prop := fst (fst e) <= v <= snd (fst e).
Definition ent_ok (t : ty) (e : Z * Z * Z) : Prop :=
  fst (fst e) <= snd (fst e) /\ case_fits t (fst (fst e)) = true /\ case_fits t (snd (fst e)) = true.
Lemma branch_step k c r1 r2 l k' rs m : ati k (IBr c r1 r2 l) -> ati k' (ILabel l) ->
  step W p (St k rs m) = Some (if exec_cond c (rs r1) (rs r2) then St k' rs m else St (S k) rs m).
Proof. intros J L. unfold step. cbn [pc rg mm]. rewrite J. rewrite (find_label_at p k' l (proj1 HL) L). destruct (exec_cond _ _ _); reflexivity. Qed.
Lemma branch_no k c r1 r2 l rs m : ati k (IBr c r1 r2 l) -> exec_cond c (rs r1) (rs r2) = false -> step W p (St k rs m) = Some (St (S k) rs m).
Proof. intros J X. unfold step. cbn [pc rg mm]. rewrite J, X. reflexivity. Qed.
Lemma switch_range t z v : int_repr t <> None -> val_of t v = true -> case_fits t z = true ->
  - 2 ^ 31 <= z < 2 ^ 31 /\ ((- 2 ^ 63 <= v < 2 ^ 63) \/ (0 <= v < 2 ^ 64 /\ 0 <= z)).
Proof.
  unfold case_fits, switch_ty, val_of. intros N V C. destruct (int_repr t) as [[sg n]|] eqn:R; [|congruence].
  assert (NN : n = 1 \/ n = 8 \/ n = 16 \/ n = 32 \/ n = 64) by (destruct t as [| |[]|[]|[]|[]| | | | | | | | | |]; cbn in R; inversion R; tauto).
  apply andb_prop in C. destruct C as [C0 C1]. apply andb_prop in C0. assert (Z0 : - 2 ^ 31 <= z < 2 ^ 31) by lia. clear C0. split; [exact Z0|].
  apply in_range_true in V; [|lia].
  destruct NN as [->|[->|[->|[->| ->]]]]; destruct sg; cbn [Z.ltb Z.compare Pos.compare Pos.compare_cont] in C1;
    try (left; clear - V; cbn in V; lia); try (rewrite R in C1; apply in_range_true in C1; [|lia]; right; cbn in V, C1; clear - V C1; lia).
Qed.
Lemma case_run t v e k rs m : ent_ok t e -> int_repr t <> None -> val_of t v = true -> code_at p k (case_code e) -> regs_ok rs -> rs (A 0) = v mod 2 ^ 64 ->
  exists rs', keeps rs rs' /\ rs' (A 0) = rs (A 0) /\
   (hits v e -> forall kp, ati kp (ILabel (U (snd e))) -> plus W p (St k rs m) (St kp rs' m)) /\
   (~ hits v e -> star W p (St k rs m) (St (k + length (case_code e)) rs' m)).
Proof.
  destruct e as [[b h] u]. intros (BH & CB & CH) NT V CA RO R0. cbn [fst snd] in *.
  destruct (switch_range _ _ _ NT V CB) as [B1 V1]. destruct (switch_range _ _ _ NT V CH) as [B2 V2]. unfold hits. cbn [fst snd].
  cbn [case_code] in *. destruct (Z.eqb_spec b h) as [<-|NE].
  - rewrite !code_at_cons in CA. destruct CA as (I1 & I2 & _).
    exists (setr rs A1 (wrap b)). split; [split; [apply regs_ok_upd; auto; apply wrap_rng|split; reflexivity]|]. split; [reflexivity|].
    assert (S1 : step W p (St k rs m) = Some (St (S k) (setr rs A1 (wrap b)) m)) by (eapply exec_straight_step; [exact I1|reflexivity]).
    assert (X : exec_cond BEQ (setr rs A1 (wrap b) A0) (setr rs A1 (wrap b) A1) = (v mod 2 ^ 64 =? b mod 2 ^ 64)).
    { change (setr rs A1 (wrap b) A0) with (rs (A 0)). change (setr rs A1 (wrap b) A1) with (wrap b). rewrite R0. reflexivity. }
    split.
    + intros HT kp L. exists (St (S k) (setr rs A1 (wrap b)) m). split; auto. apply star_one. rewrite (branch_step _ _ _ _ _ _ _ _ I2 L), X.
      replace v with b by lia. now rewrite Z.eqb_refl.
    + intros HT. eapply star_step; [exact S1|]. apply star_one. cbn [length]. replace (k + 2)%nat with (S (S k)) by lia.
      apply (branch_no _ _ _ _ _ _ _ I2). rewrite X. apply Z.eqb_neq. intros Q. apply HT. clear - Q V1 B1. cbn in *.
      pose proof (Z.div_mod v 18446744073709551616). pose proof (Z.div_mod b 18446744073709551616). lia.
  - rewrite !code_at_cons in CA. destruct CA as (I1 & I2 & I3 & I4 & I5 & _).
    set (r1 := setr rs T1 (wrap (rs A0 + 0))). set (r2 := setr r1 T0 (wrap b)). set (r3 := setr r2 T1 (exec_op SUB (r2 T1) (r2 T0))). set (r4 := setr r3 T2 (wrap (h - b))).
    assert (ST : forall x, step W p (St (S (S (S (S k)))) r4 m) = Some x -> plus W p (St k rs m) x).
    { intros x SX. exists (St (S k) r1 m). split; [eapply exec_straight_step; [exact I1|reflexivity]|].
      eapply star_step; [eapply exec_straight_step; [exact I2|reflexivity]|]. eapply star_step; [eapply exec_straight_step; [exact I3|reflexivity]|].
      eapply star_step; [eapply exec_straight_step; [exact I4|reflexivity]|]. apply star_one. exact SX. }
    assert (V0 : 0 <= v mod 2 ^ 64 < 2 ^ 64) by (apply Z.mod_pos_bound; lia).
    assert (T1v : r4 T1 = (v - b) mod 2 ^ 64).
    { change (r4 T1) with (wrap (wrap (rs A0 + 0) - wrap b)). change (rs A0) with (rs (A 0)). rewrite R0. unfold wrap. rewrite Z.add_0_r, Z.mod_mod by lia. now rewrite <- Zminus_mod. }
    assert (T2v : r4 T2 = h - b) by (change (r4 T2) with (wrap (h - b)); apply mod_id; lia).
    assert (X : exec_cond BLEU (r4 T1) (r4 T2) = true <-> b <= v <= h).
    { rewrite T1v, T2v. cbn [exec_cond]. rewrite Z.leb_le. clear - V1 V2 B1 B2 BH.
      cbn in *. pose proof (Z.div_mod (v - b) 18446744073709551616). pose proof (Z.mod_pos_bound (v - b) 18446744073709551616). lia. }
    exists r4. split; [split; [|split; reflexivity]|].
    { unfold r4, r3, r2, r1. repeat apply regs_ok_upd; auto; try apply wrap_rng. }
    split; [reflexivity|]. split.
    + intros HT kp L. apply ST. rewrite (branch_step _ _ _ _ _ _ _ _ I5 L). now rewrite (proj2 X HT).
    + intros HT. apply plus_star, ST. cbn [length]. replace (k + 5)%nat with (S (S (S (S (S k))))) by lia. apply (branch_no _ _ _ _ _ _ _ I5).
      destruct (exec_cond _ _ _); auto. destruct HT. now apply X.
Qed.
Lemma keeps_trans a b c : keeps a b -> keeps b c -> keeps a c. Proof. unfold keeps. intros (A1 & A2 & A3) (B1 & B2 & B3). repeat split; try congruence; apply B1. Qed.
Lemma dispatch t v ents : int_repr t <> None -> val_of t v = true -> Forall (ent_ok t) ents -> forall k rs m, code_at p k (flat_map case_code ents) -> regs_ok rs -> rs (A 0) = v mod 2 ^ 64 ->
  exists rs', keeps rs rs' /\
   ((exists e, In e ents /\ hits v e /\ forall kp, ati kp (ILabel (U (snd e))) -> plus W p (St k rs m) (St kp rs' m)) \/
    ((forall e, In e ents -> ~ hits v e) /\ star W p (St k rs m) (St (k + length (flat_map case_code ents)) rs' m))).
Proof.
  intros NT V F. induction F as [|e ents OK F IH]; intros k rs m CA RO R0.
  - exists rs. split; [repeat split; auto; apply RO|]. right. split; [intros e []|]. cbn [flat_map length]. rewrite Nat.add_0_r. constructor.
  - cbn [flat_map] in *. apply code_at_app in CA. destruct CA as [C1 C2]. destruct (case_run t v e k rs m OK NT V C1 RO R0) as (rs1 & K1 & R1 & H1 & N1).
    assert (D : hits v e \/ ~ hits v e) by (unfold hits; lia). destruct D as [D|D].
    + exists rs1. split; auto. left. exists e. split; [now left|]. auto.
    + destruct (IH _ rs1 m C2 (proj1 K1) ltac:(congruence)) as (rs2 & K2 & [(e2 & I2 & H2 & P2)|(N2 & P2)]); exists rs2; (split; [eapply keeps_trans; eauto|]).
      * left. exists e2. split; [now right|]. split; auto. intros kp L. eapply star_plus_trans; [apply N1; auto|auto].
      * right. split; [intros x [<-|I]; auto|]. eapply star_trans; [apply N1; auto|]. rewrite app_length, Nat.add_assoc. exact P2.
Qed.
Lemma disjoint_unique v ents : disjoint (map fst ents) = true -> forall x y, In x ents -> In y ents -> hits v x -> hits v y -> x = y.
Proof.
  unfold hits. induction ents as [|[[a b] u] ents IH]; cbn [map disjoint fst snd]; intros D x y IX IY HX HY; [destruct IX|].
  apply andb_prop in D. destruct D as [D1 D2]. rewrite forallb_forall in D1.
  assert (Q : forall z, In z ents -> hits v z -> a <= v <= b -> False).
  { intros z IZ HZ HA. specialize (D1 (fst z) (in_map _ _ _ IZ)). unfold hits in HZ. clear - D1 HZ HA. lia. }
  destruct IX as [<-|IX], IY as [<-|IY]; auto; try (exfalso; eapply Q; eauto; fail).
Qed.

(** ** The simulation *)
Definition inv (m : mem) (st : state) : Prop := matches E fp m st /\ above_same E s0 st.
Lemma inv_pc m k k' rs ms : inv m (St k rs ms) -> inv m (St k' rs ms). Proof. intros [A B]. split; [exact A|exact B]. Qed.
Lemma inv_keeps m k k' rs rs' ms : inv m (St k rs ms) -> keeps rs rs' -> inv m (St k' rs' ms).
Proof.
  intros [(A1 & A2 & A3) B] (K1 & K2 & K3). cbn [rg mm] in *. split; [split; [exact K1|split; [cbn [rg]; congruence|exact A3]]|].
  eapply (above_trans E); [exact B|]. now apply (above_refl E).
Qed.
Lemma at_expr_run bits k e k' st m v m' : 0 <= bits -> expr_at bits k e k' -> pc st = k -> inv m st -> ev E false e m = Some (v, m') ->
  exists st', star W p st st' /\ pc st' = k' /\ rep bits v (rg st' (A 0)) /\ inv m' st'.
Proof.
  intros B0 (OK & gs & c & gs' & G & CA & ->) PC [MT AB] EV. unfold expr_ok in OK. apply andb_prop in OK. destruct OK as [OK ND]. apply andb_prop in OK. destruct OK as [WT QL].
  destruct (qual false e) as [q|] eqn:Q; [|discriminate]. apply Z.leb_le in ND. apply Z.leb_le in QL.
  assert (SPe : rg st Sp = rg s0 Sp) by apply AB.
  destruct (gen_correct E W goff fp room HS e false gs c gs' q m v m' G Q WT EV p k st lo CA HL PC MT (free_same E room lo s0 st SPe FS0) ltac:(rewrite SPe; lia)) as (st' & ST & PC' & R & MT' & AB').
  exists st'. split; auto. split; auto. split; [eapply rep_le; [|exact R]; lia|]. split; auto. eapply (above_trans E); eauto.
Qed.
Lemma at_exprs_run l : forall k k' st m m', exprs_at k l k' -> pc st = k -> inv m st -> effects E l m = Some m' ->
  exists st', star W p st st' /\ pc st' = k' /\ inv m' st'.
Proof.
  induction l as [|e l IH]; intros k k' st m m' AT PC I EF; cbn [exprs_at effects] in *.
  - exists st. split; [constructor|]. split; congruence.
  - destruct AT as (k1 & A1 & A2). destruct (ev E false e m) as [[v m1]|] eqn:EV; [|discriminate].
    destruct (at_expr_run 0 _ _ _ _ _ _ _ ltac:(lia) A1 PC I EV) as (st1 & S1 & P1 & _ & I1).
    destruct (IH _ _ _ _ _ A2 P1 I1 EF) as (st2 & S2 & P2 & I2). exists st2. split; [eapply star_trans; eauto|auto].
Qed.
Lemma at_test_run k c br l k' kl st m t m' : test_at k c br l k' -> (br = BNE \/ br = BEQ) -> ati kl (ILabel l) -> pc st = k -> inv m st -> test E (Some c) m = Some (t, m') ->
  exists st', star W p st st' /\ inv m' st' /\ pc st' = if Bool.eqb t (match br with BNE => false | _ => true end) then S kl else k'.
Proof.
  intros (k0 & AE & I1 & I2 & ->) BR AL PC I T. cbn [test] in T. destruct (is_scalar (ntype c)) eqn:SC; [|discriminate].
  destruct (ev E false c m) as [[v m1]|] eqn:EV; [|discriminate]. assert (t = truth v /\ m' = m1) as [-> ->] by (split; congruence).
  destruct (at_expr_run 64 _ _ _ _ _ _ _ ltac:(lia) AE PC I EV) as (st1 & S1 & P1 & R1 & [MT1 AB1]). subst k0.
  assert (WT : well_typed c = true) by (destruct AE as [OK _]; unfold expr_ok in OK; apply andb_prop in OK; destruct OK as [OK _]; now apply andb_prop in OK).
  pose proof (scalar_val E W goff fp HS c _ _ _ WT SC EV) as V.
  destruct (test_branch E W fp p st1 (ntype c) v m1 br l kl V MT1 R1 I1 I2 BR AL (proj1 HL)) as (rs & S2 & MT2 & SP2).
  assert (AB2 : forall n, above_same E s0 (St n rs (mm st1))) by (intros n; eapply (above_trans E); [exact AB1|]; apply (above_refl E); auto).
  destruct (Bool.eqb _ _); eexists; (split; [eapply star_trans; [exact S1|exact S2]|]); (split; [split; [apply MT2|apply AB2]|reflexivity]).
Qed.
Lemma at_test_opt_run k c l k' kl st m t m' : test_opt_at k c l k' -> ati kl (ILabel l) -> pc st = k -> inv m st -> test E c m = Some (t, m') ->
  exists st', star W p st st' /\ inv m' st' /\ pc st' = if t then k' else S kl.
Proof.
  destruct c as [c|]; cbn [test_opt_at]; intros AT AL PC I T.
  - destruct (at_test_run _ _ _ _ _ _ _ _ _ _ AT (or_introl eq_refl) AL PC I T) as (st' & ST & I' & P). exists st'. split; auto. split; auto. destruct t; exact P.
  - cbn [test] in T. assert (t = true /\ m' = m) as [-> ->] by (split; congruence). exists st. split; [constructor|]. split; auto. congruence.
Qed.

Variable body : stmt.
Variables (kstart : nat) (bents : list (Z * Z * Z)) (bdflt : option Z).
Hypothesis BODY : at_s None None body kstart pend bents bdflt.
Inductive sim : conf -> state -> Prop :=
  | sim_run s k m st k2 b c e d : at_s b c s (pc st) k2 e d -> match_cont k k2 b c -> inv m st -> sim (Run s k m) st
  | sim_ret v m st : pc st = pret -> inv m st -> (forall x, v = Some x -> rep (ret_bits rt) x (rg st (A 0))) -> sim (Returned v m) st
  | sim_fin m st : pc st = pend -> inv m st -> sim (Finished m) st.
Fixpoint ssize (s : stmt) : nat :=
  match s with
  | SSkip => 0
  | SSeq a b | SIf _ a b => 2 + ssize a + ssize b
  | SFor _ _ _ b | SWhile _ b | SDo b _ => 2 + ssize b
  | _ => 1
  end.
Fixpoint ksize (k : cont) : nat :=
  match k with KStop => 1 | KSeq s k => 1 + ssize s + ksize k | KHead _ _ _ k | KBody _ _ _ k | KDo _ _ k | KSwitch k => 1 + ksize k end.
Definition csize (c : conf) : nat := match c with Run s k _ => ssize s + ksize k | _ => 0 end.
Definition sim_step (c' : conf) (st : state) (n : nat) : Prop := exists st', sim c' st' /\ (plus W p st st' \/ (star W p st st' /\ (csize c' < n)%nat)).

Lemma lookup_in l u : lookup lenv l = Some u -> In (l, u) lenv.
Proof.
  clear LN. induction lenv as [|[l' u'] r IH]; cbn [lookup]; [discriminate|]. destruct (beq l l') eqn:B; intros H; [|right; auto].
  apply beq_eq in B. left. congruence.
Qed.
Lemma in_unique l u u' : In (l, u) lenv -> In (l, u') lenv -> u = u'.
Proof.
  clear - LN. induction lenv as [|[l0 u0] r IH]; cbn [map fst] in *; [intros []|]; intros [A|A] [B|B]; inversion LN; subst; try congruence; auto.
  - injection A as -> ->. destruct H1. change l with (fst (l, u')). now apply in_map.
  - injection B as -> ->. destruct H1. change l with (fst (l, u)). now apply in_map.
Qed.
(** The state after some steps that only move *)
Lemma go_plus c' st k s' kk m : (forall rs ms, plus W p (St (pc st) rs ms) (St k rs ms)) -> c' = Run s' kk m -> found k s' kk -> inv m st -> forall n, sim_step c' st n.
Proof.
  intros P -> (k2 & b & c & e & d & AT & MC) I n. destruct st as [k0 rs ms]. exists (St k rs ms). split; [econstructor; eauto; eapply inv_pc; eauto|]. left. apply P.
Qed.
Lemma to_skip m st k b c : match_cont k (pc st) b c -> inv m st -> sim (Run SSkip k m) st.
Proof. intros M I. econstructor; eauto. constructor. Qed.
Lemma step_sim c st c' : sim c st -> sstep E rt body c = Some c' -> sim_step c' st (csize c).
Proof.
  intros SM SS. destruct SM as [s k m st k2 b c e d AT MC I| |]; [|discriminate|discriminate].
  destruct s as [ |e1|x y|e1 x y|e1 x|l h x|x|init e1 inc x|e1 x|x e1|l| | |l x|e1]; cbn [sstep] in SS.
  - (* SSkip *) inversion AT; subst. destruct st as [pc0 rs ms]. cbn [pc] in *.
    destruct MC as [pos LD|s k b c pos k1 k2 e d LD AS MC|e1 inc s k u v pos k0 kb kc k1 ents d b c bb cc LD LA AS MC|e1 inc s k u v pos k0 kb kc k1 ents d b c LD LA AS MC|e1 s k u v pos k0 kc k1 ents d b c LD DA AS MC|k u pos k0 b c LD AL MC].
    + assert (c' = Finished m) by congruence. subst. exists (St pend rs ms). split; [constructor; auto; eapply inv_pc; eauto|]. right. split; [apply LD|cbn; lia].
    + assert (c' = Run s k m) by congruence. subst. exists (St k1 rs ms). split; [econstructor; eauto; eapply inv_pc; eauto|]. right. split; [apply LD|cbn; lia].
    + destruct (test E e1 m) as [[t m1]|] eqn:T; [|discriminate]. pose proof LA as LA0. destruct LA as (n & k1' & L1 & T1 & L2 & X & J & L3 & ->).
      destruct (at_test_opt_run _ _ _ _ _ (St (S k0) rs ms) m t m1 T1 L3 eq_refl ltac:(eapply inv_pc; eauto) T) as (st' & ST & I' & P').
      assert (PL : plus W p (St pos rs ms) st') by (eapply star_plus_trans; [apply LD|]; eexists; split; [eapply label_step; exact L1|exact ST]).
      exists st'. split; [|left; exact PL]. destruct t.
      * assert (c' = Run s (KBody e1 inc s k) m1) by congruence. subst c'. econstructor; [rewrite P'; exact AS| |exact I']. eapply mc_body; eauto using leads_refl.
      * assert (c' = Run SSkip k m1) by congruence. subst c'. eapply to_skip; [rewrite P'; exact MC|exact I'].
    + destruct (effects E _ m) as [m1|] eqn:T; [|discriminate]. assert (c' = Run SSkip (KHead e1 inc s k) m1) by congruence. subst c'. pose proof LA as LA0.
      destruct LA as (n & k1' & L1 & T1 & L2 & X & J & L3 & ->).
      destruct (at_exprs_run (optl inc) _ _ (St (S kc) rs ms) m m1 X eq_refl ltac:(eapply inv_pc; eauto) T) as (st' & ST & P' & I').
      assert (PL : plus W p (St pos rs ms) st') by (eapply star_plus_trans; [apply LD|]; eexists; split; [eapply label_step; exact L2|exact ST]).
      exists st'. split; [|left; exact PL]. eapply (to_skip _ _ _ None None); [|exact I']. rewrite P'. eapply mc_head; [|exact LA0|exact AS|exact MC]. eapply leads_jump; eauto.
    + destruct (test E (Some e1) m) as [[t m1]|] eqn:T; [|discriminate].
      pose proof DA as DA0. destruct DA as (n & k2 & L1 & L2 & T1 & L3 & ->).
      destruct (at_test_run _ _ _ _ _ _ (St (S kc) rs ms) m t m1 T1 (or_intror eq_refl) L1 eq_refl ltac:(eapply inv_pc; eauto) T) as (st' & ST & I' & P').
      assert (PL : plus W p (St pos rs ms) st') by (eapply star_plus_trans; [apply LD|]; eexists; split; [eapply label_step; exact L2|exact ST]).
      exists st'. split; [|left; exact PL]. destruct t; cbn [Bool.eqb] in P'.
      * assert (c' = Run s (KDo s e1 k) m1) by congruence. subst c'. econstructor; [rewrite P'; exact AS| |exact I']. eapply mc_do; eauto using leads_refl.
      * assert (c' = Run SSkip k m1) by congruence. subst c'. eapply to_skip; [|exact I']. rewrite P'. eapply lead_cont; [|exact MC]. eapply leads_label; eauto.
    + assert (c' = Run SSkip k m) by congruence. subst. exists (St k0 rs ms). split; [|right; split; [apply LD|cbn; lia]]. eapply to_skip; [|eapply inv_pc; eauto].
      cbn [pc]. eapply lead_cont; [|exact MC]. eapply leads_label; eauto.
  - (* SExpr *) inversion AT; subst. match goal with X : expr_at _ _ _ _ |- _ => rename X into XE end. destruct (effects E [e1] m) as [m1|] eqn:T; [|discriminate].
    destruct (at_exprs_run [e1] _ _ st m m1 (ex_intro _ _ (conj XE eq_refl)) eq_refl I T) as (st' & ST & P' & I').
    assert (c' = Run SSkip k m1) by congruence. subst c'. exists st'. split; [eapply to_skip; eauto; rewrite P'; eauto|]. right. split; [exact ST|cbn; lia].
  - (* SSeq *) inversion AT; subst. assert (c' = Run x (KSeq y k) m) by congruence. subst. exists st. split; [|right; split; [constructor|cbn; lia]].
    econstructor; [eassumption| |exact I]. econstructor; eauto using leads_refl.
  - (* SIf *) inversion AT; subst. match goal with X : test_at _ _ _ _ _ |- _ => rename X into XT end. match goal with X : ati _ (IJ _) |- _ => rename X into XJ end. match goal with X : ati _ (Lab (LElse _)) |- _ => rename X into XL end. match goal with X : ati _ (Lab (LEnd _)) |- _ => rename X into XN end. destruct (test E (Some e1) m) as [[t m1]|] eqn:T; [|discriminate].
    destruct (if_ends _ _ _ _ _ _ XJ XN MC) as [M2 M3].
    destruct (at_test_run _ _ _ _ _ _ st m t m1 XT (or_introl eq_refl) XL eq_refl I T) as (st' & ST & I' & P').
    assert (c' = Run (if t then x else y) k m1) by congruence. subst c'. exists st'. split; [|right; split; [exact ST|destruct t; cbn; lia]].
    destruct t; cbn [Bool.eqb] in P'; (econstructor; [rewrite P'; eassumption|eassumption|exact I']).
  - (* SSwitch *) inversion AT; subst. match goal with X : expr_at _ _ _ _ |- _ => rename X into XE end. match goal with X : int_repr _ <> None |- _ => rename X into XI end. match goal with X : switch_ok _ _ = true |- _ => rename X into XO end. match goal with X : code_at _ _ _ |- _ => rename X into XC end. match goal with X : dflt_at _ _ _ |- _ => rename X into XD end. match goal with X : at_s (Some _) _ _ _ _ _ _ |- _ => rename X into XB end. destruct (ev E false e1 m) as [[v m1]|] eqn:EV; [|discriminate].
    assert (SO := XO). unfold switch_ok in SO. apply andb_prop in SO. destruct SO as [SO DF]. apply Nat.leb_le in DF. apply andb_prop in SO. destruct SO as [FT DJ]. rewrite forallb_forall in FT.
    destruct (at_expr_run 64 _ _ _ _ _ _ _ ltac:(lia) XE eq_refl I EV) as (st1 & S1 & P1 & R1 & I1).
    destruct (at_entries _ _ _ _ _ _ _ XB) as [EN EF].
    assert (WT : well_typed e1 = true) by (destruct XE as [OK _]; unfold expr_ok in OK; apply andb_prop in OK; destruct OK as [OK _]; now apply andb_prop in OK).
    assert (VL : val_of (ntype e1) v = true).
    { pose proof (ev_val_ok E e1 (set_env _ _ _ _ HS) _ _ _ _ WT EV) as V. destruct (int_repr (ntype e1)) as [[]|] eqn:R; [|congruence]. now apply (val_ok_val _ _ _ R) in V. }
    assert (SXI : forall z, case_fits (ntype e1) z = true -> sx 32 z = z) by (intros z CF; destruct (switch_range _ _ _ XI VL CF); apply sx_id; lia).
    assert (EOK : Forall (ent_ok (ntype e1)) ents).
    { apply Forall_forall. intros en IE. rewrite Forall_forall in EF. split; [auto|].
      assert (IN : In (fst en) (map (fun x => (sx 32 (fst x), sx 32 (snd x))) (cases_of x))) by (rewrite <- EN; now apply in_map).
      apply in_map_iff in IN. destruct IN as ([l h] & Q & IN). specialize (FT _ IN). cbn [fst snd] in *. apply andb_prop in FT. destruct FT as [F1 F2].
      rewrite (SXI _ F1), (SXI _ F2) in Q. rewrite <- Q. auto. }
    assert (DJE : disjoint (map fst ents) = true).
    { rewrite EN. clear - FT DJ SXI. assert (Q : map (fun x => (sx 32 (fst x), sx 32 (snd x))) (cases_of x) = cases_of x); [|now rewrite Q].
      rewrite <- (map_id (cases_of x)) at 2. apply map_ext_in. intros [l h] IN. specialize (FT _ IN). cbn [fst snd] in *. apply andb_prop in FT. destruct FT as [F1 F2]. now rewrite (SXI _ F1), (SXI _ F2). }
    assert (CHIT : forall l h, In (l, h) (cases_of x) -> case_hit (ntype e1) l h v = true <-> sx 32 l <= v <= sx 32 h).
    { intros l h IN. specialize (FT _ IN). cbn [fst snd] in FT. apply andb_prop in FT. destruct FT as [F1 F2]. rewrite (SXI _ F1), (SXI _ F2).
      unfold case_hit. unfold case_fits in F1, F2. apply andb_prop in F1. apply andb_prop in F2. rewrite (conv_id _ _ (proj2 F1)), (conv_id _ _ (proj2 F2)). clear. lia. }
    destruct st1 as [pc1 rs1 ms1]. cbn [pc rg mm] in *. subst pc1. pose proof I1 as I1'. destruct I1' as [(RO1 & _) _]. cbn [rg] in RO1.
    destruct (dispatch (ntype e1) v ents XI VL EOK k1 rs1 ms1 XC RO1 (rep_full _ _ (proj2 RO1 (A 0)) R1)) as (rs2 & K2 & DS).
    assert (MC' : match_cont (KSwitch k) k4 (Some u) c) by (eapply mc_switch; eauto using leads_refl).
    assert (GO : forall sa ka kp uu, found (S kp) sa ka -> ati kp (ILabel (U uu)) -> plus W p (St k1 rs1 ms1) (St kp rs2 ms1) -> sim_step (Run sa ka m1) st (csize (Run (SSwitch e1 x) k m))).
    { intros sa ka kp uu (k5 & b5 & c5 & en5 & d5 & AT5 & MC5) AL PL. exists (St (S kp) rs2 ms1). split; [econstructor; [exact AT5|exact MC5|eapply inv_keeps; eauto]|]. left.
      eapply star_plus_trans; [exact S1|]. eapply plus_star_trans; [exact PL|]. eapply leads_label; eauto. }
    destruct (find_case (ntype e1) v x (KSwitch k)) as [[sa ka]|] eqn:FC; cbn [orelse] in SS.
    + assert (c' = Run sa ka m1) by congruence. subst c'. destruct (at_find_case _ _ _ _ _ _ _ _ _ XB _ _ _ MC' FC) as (l & h & u1 & kp & IN & CH & IE & AL & FO).
      apply (CHIT _ _ IN) in CH. destruct DS as [(e2 & I2 & HT2 & PL)|(NO & _)].
      * assert (e2 = (sx 32 l, sx 32 h, u1)) by (eapply disjoint_unique; eauto). subst e2. eapply GO; [exact FO|exact AL|]. apply PL. exact AL.
      * destruct (NO _ IE). exact CH.
    + assert (NO : forall en, In en ents -> ~ hits v en).
      { intros en IE HT. assert (IN : In (fst en) (map (fun x => (sx 32 (fst x), sx 32 (snd x))) (cases_of x))) by (rewrite <- EN; now apply in_map).
        apply in_map_iff in IN. destruct IN as ([l h] & Q & IN). pose proof (find_case_none _ _ _ _ FC _ IN) as CH. cbn [fst snd] in *.
        unfold hits in HT. rewrite <- Q in HT. cbn [fst snd] in HT. apply (CHIT _ _ IN) in HT. congruence. }
      destruct DS as [(e2 & I2 & HT2 & _)|(_ & ST)]; [destruct (NO _ I2 HT2)|].
      destruct (find_default x (KSwitch k)) as [[sa ka]|] eqn:FD.
      * assert (c' = Run sa ka m1) by congruence. subst c'. destruct (at_find_default _ _ _ _ _ _ _ XB _ _ _ MC' DF FD) as (u1 & kp & -> & AL & FO).
        destruct XD as [J1 ->]. eapply GO; [exact FO|exact AL|]. eapply star_plus_trans; [exact ST|]. apply plus_one. eapply jump_step; eauto.
      * assert (c' = Run SSkip k m1) by congruence. subst c'. apply find_default_none in FD. rewrite (at_no_default _ _ _ _ _ _ _ XB FD) in XD. cbn [dflt_at] in XD. subst k3.
        exists (St k4 rs2 ms1). split; [eapply to_skip; [|eapply inv_keeps; eauto]; cbn [pc]; eapply lead_cont; [|exact MC]; eapply leads_label; eauto|]. left.
        eapply star_plus_trans; [exact S1|]. eapply star_plus_trans; [exact ST|]. apply plus_one. eapply jump_step; eauto.
  - (* SCase *) inversion AT; subst. assert (c' = Run x k m) by congruence. eapply go_plus; [|exact H|repeat eexists; eauto|exact I]. intros. apply plus_one. eapply label_step; eauto.
  - (* SDefault *) inversion AT; subst. assert (c' = Run x k m) by congruence. eapply go_plus; [|exact H|repeat eexists; eauto|exact I]. intros. apply plus_one. eapply label_step; eauto.
  - (* SFor *) inversion AT; subst. match goal with X : exprs_at _ _ _ |- _ => rename X into XE end. destruct (effects E init m) as [m1|] eqn:T; [|discriminate]. assert (c' = Run SSkip (KHead e1 inc x k) m1) by congruence. subst c'.
    destruct (at_exprs_run init _ _ st m m1 XE eq_refl I T) as (st' & ST & P' & I'). exists st'. split; [|right; split; [exact ST|cbn; lia]].
    eapply (to_skip _ _ _ None None); [|exact I']. rewrite P'. eapply mc_head; eauto using leads_refl.
  - (* SWhile *) inversion AT; subst. assert (c' = Run SSkip (KHead (Some e1) None x k) m) by congruence. subst c'. exists st. split; [|right; split; [constructor|cbn; lia]].
    eapply (to_skip _ _ _ None None); [|exact I]. eapply mc_head; eauto using leads_refl.
  - (* SDo *) inversion AT; subst. match goal with X : do_at _ _ _ _ _ _ |- _ => rename X into XD end. assert (c' = Run x (KDo x e1 k) m) by congruence. pose proof XD as DA. destruct DA as (n & k3 & L1 & _).
    eapply go_plus; [|exact H| |exact I]; [intros; apply plus_one; eapply label_step; eauto|]. repeat eexists; [eassumption|]. eapply mc_do; eauto using leads_refl.
  - (* SGoto *) inversion AT; subst. destruct (find_label l body KStop) as [[s2 k3]|] eqn:FL; [|discriminate].
    destruct (at_find_label _ _ _ _ _ _ _ BODY _ _ _ _ (mc_stop _ (leads_refl _)) FL) as (u1 & kp & IN & AL & FO).
    assert (u1 = u) by (eapply in_unique; [exact IN|apply lookup_in; eassumption]). subst u1. assert (c' = Run s2 k3 m) by congruence.
    eapply go_plus; [|exact H|exact FO|exact I]. intros. eapply plus_star_trans; [apply plus_one; eapply jump_step; eauto|]. eapply leads_label; eauto.
  - (* SBreak *) inversion AT; subst.
    inversion MC; subst; try discriminate;
      try match goal with X : loop_at _ _ _ _ _ _ _ _ |- _ => rename X into XL end; try match goal with X : do_at _ _ _ _ _ _ |- _ => rename X into XL end.
    + assert (c' = Run SBreak k0 m) by congruence. subst c'. exists st. split; [|right; split; [constructor|cbn; lia]]. econstructor; [econstructor; eassumption|eassumption|exact I].
    + assert (QC : c' = Run SSkip k0 m) by congruence. destruct XL as (n & k1' & L1 & T1 & L2 & X & J & L3 & ->).
      eapply go_plus; [|exact QC| |exact I]; [intros; apply plus_one; eapply jump_step; eauto|]. repeat eexists; [constructor|]. eapply lead_cont; [|eassumption]. eapply leads_label; eauto.
    + assert (QC : c' = Run SSkip k0 m) by congruence. destruct XL as (n & k1' & L1 & L2 & T1 & L3 & ->).
      eapply go_plus; [|exact QC| |exact I]; [intros; apply plus_one; eapply jump_step; eauto|]. repeat eexists; [constructor|]. eapply lead_cont; [|eassumption]. eapply leads_label; eauto.
    + assert (QC : c' = Run SSkip k0 m) by congruence.
      eapply go_plus; [|exact QC| |exact I]; [intros; apply plus_one; eapply jump_step; eauto|]. repeat eexists; [constructor|]. eapply lead_cont; [|eassumption]. eapply leads_label; eauto.
  - (* SContinue *) inversion AT; subst.
    inversion MC; subst; try discriminate;
      try match goal with X : loop_at _ _ _ _ _ _ _ _ |- _ => rename X into XL end; try match goal with X : do_at _ _ _ _ _ _ |- _ => rename X into XL end.
    + assert (c' = Run SContinue k0 m) by congruence. subst c'. exists st. split; [|right; split; [constructor|cbn; lia]]. econstructor; [econstructor; eassumption|eassumption|exact I].
    + injection SS as QC; symmetry in QC. pose proof XL as LA. destruct LA as (n & k1' & L1 & T1 & L2 & X & J & L3 & ->).
      eapply go_plus; [|exact QC| |exact I]; [intros; apply plus_one; eapply jump_step; eauto|]. repeat eexists; [constructor|]. eapply mc_body; eauto using leads_refl.
    + injection SS as QC; symmetry in QC. pose proof XL as LA. destruct LA as (n & k1' & L1 & L2 & T1 & L3 & ->).
      eapply go_plus; [|exact QC| |exact I]; [intros; apply plus_one; eapply jump_step; eauto|]. repeat eexists; [constructor|]. eapply mc_do; eauto using leads_refl.
    + assert (c' = Run SContinue k0 m) by congruence. subst c'. exists st. split; [|right; split; [constructor|cbn; lia]]. econstructor; [econstructor; eassumption|eassumption|exact I].
  - (* SLabel *) inversion AT; subst. assert (c' = Run x k m) by congruence. eapply go_plus; [|exact H|repeat eexists; eauto|exact I]. intros. apply plus_one. eapply label_step; eauto.
  - (* SReturn *) inversion AT; subst. match goal with X : ati _ (IJ _) |- _ => rename X into XJ end. destruct e1 as [e1|].
    + destruct (ev E false (NCast rt e1) m) as [[v m1]|] eqn:EV; [|discriminate]. assert (c' = Returned (Some v) m1) by congruence. subst c'.
      assert (RB : 0 <= ret_bits rt) by (destruct rt as [| |[]|[]|[]|[]| | | | | | | | | |]; cbn; lia).
      destruct (at_expr_run _ _ _ _ _ _ _ _ RB ltac:(eassumption) eq_refl I EV) as ([pc1 rs1 ms1] & S1 & P1 & R1 & I1). cbn [pc rg] in *. subst pc1.
      exists (St pret rs1 ms1). split; [constructor; [reflexivity|eapply inv_pc; eauto|intros y Y; injection Y as <-; exact R1]|]. left. eapply star_plus_trans; [exact S1|]. apply plus_one. eapply jump_step; eauto.
    + assert (c' = Returned None m) by congruence. subst c' k1. destruct st as [pc0 rs ms]. cbn [pc] in *.
      exists (St pret rs ms). split; [constructor; [reflexivity|eapply inv_pc; eauto|discriminate]|]. left. apply plus_one. eapply jump_step; eauto.
Qed.
End Sim.
