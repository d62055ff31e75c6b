From Verif Require Import Base NodeModel ParseModel ParseSpec ParseProofs ParseGrammar.
From Coq Require Import ZifyBool ZifyNat.
Local Notation length := List.length.

Definition fine_nt (g : nt) : Prop := match g with GBin k => (k < 10)%nat | _ => True end.
Lemma gr_up m n : forall g g' ts e, (rank g' = rank g + n)%nat -> fine_nt g -> fine_nt g' -> gr m g ts e -> gr m g' ts e.
Proof.
  induction n as [|n IH]; intros g g' ts e R F F' G.
  - assert (g' = g) as ->; [|exact G]. destruct g, g'; cbn [rank fine_nt] in *; try lia; try reflexivity. f_equal. lia.
  - destruct g' as [| | | |[|k]| | |].
    + cbn [rank] in R. lia.
    + apply g_post. apply (IH g); auto; cbn [rank] in *; lia.
    + apply g_unary. apply (IH g); auto; cbn [rank fine_nt] in *; auto; lia.
    + apply g_cast0. apply (IH g); auto; cbn [rank fine_nt] in *; auto; lia.
    + apply g_operand; [lia|]. apply (IH g GCast); auto; cbn [rank fine_nt] in *; auto; lia.
    + apply g_operand; [exact F'|]. apply (IH g (GBin k)); auto; cbn [rank fine_nt] in *; auto; lia.
    + apply g_cond0. apply (IH g); auto; cbn [rank fine_nt] in *; auto; lia.
    + apply g_assign0. apply (IH g); auto; cbn [rank fine_nt] in *; auto; lia.
    + apply g_expr. apply (IH g); auto; cbn [rank fine_nt] in *; auto; lia.
Qed.
Lemma kind_fine e : fine_nt (kind e).
Proof. destruct e as [[]| | | | | | | | |[[]| |]| | | | |]; cbn; auto; lia. Qed.
Lemma kind_rank e : (rank (kind e) <= 16)%nat.
Proof. pose proof (kind_fine e). destruct (kind e); cbn in *; lia. Qed.
Lemma gr_wrap m g e ts : fine_nt g -> gr m (kind e) ts e -> gr m g (wrap g e ts) e.
Proof.
  intros F G. unfold wrap. pose proof (kind_fine e). pose proof (kind_rank e). destruct (Nat.leb_spec (rank (kind e)) (rank g)) as [L|L].
  - apply (gr_up m (rank g - rank (kind e)) (kind e)); auto. lia.
  - apply (gr_up m (rank g) GPrim); [cbn; lia|exact I|exact F|]. apply g_paren. apply (gr_up m (16 - rank (kind e)) (kind e)); auto; [change (rank GExpr) with 16%nat; lia|exact I].
Qed.
Lemma op_infix o : infix (op_level o) (op_punct o) o.
Proof. apply infix_binary. destruct o as [[]| |]; reflexivity. Qed.
(* induction over the trees, with the lists *)
Section Ind.
Variable Q : sx -> Prop.
Hypothesis Ha : forall a, Q (XAtom a).
Hypothesis Hu : forall u e, Q e -> Q (XUn u e).
Hypothesis Hp : forall i e, Q e -> Q (XPost i e).
Hypothesis Hm : forall r e m, Q e -> Q (XMem r e m).
Hypothesis Hi : forall a i, Q a -> Q i -> Q (XIndex a i).
Hypothesis Hc : forall f l, Q f -> Forall Q l -> Q (XCall f l).
Hypothesis Hg : forall c l, Q c -> Forall (fun x => Q (snd x)) l -> Q (XGeneric c l).
Hypothesis Hcas : forall a b c, Q a -> Q b -> Q c -> Q (XCas a b c).
Hypothesis Hex : forall a b, Q a -> Q b -> Q (XExch a b).
Hypothesis Hb : forall o a b, Q a -> Q b -> Q (XBin o a b).
Hypothesis Hcond : forall c a b, Q c -> Q a -> Q b -> Q (XCond c a b).
Hypothesis He : forall a b, Q a -> Q b -> Q (XElvis a b).
Hypothesis Hcast : forall t e, Q e -> Q (XCast t e).
Hypothesis Has : forall o l r, Q l -> Q r -> Q (XAssign o l r).
Hypothesis Hcm : forall a b, Q a -> Q b -> Q (XComma a b).
Fixpoint sx_all (e : sx) : Q e :=
  match e with
  | XAtom a => Ha a
  | XUn u e => Hu u e (sx_all e)
  | XPost i e => Hp i e (sx_all e)
  | XMem r e m => Hm r e m (sx_all e)
  | XIndex a i => Hi a i (sx_all a) (sx_all i)
  | XCall f l => Hc f l (sx_all f) ((fix go l := match l return Forall Q l with [] => Forall_nil _ | x :: l => Forall_cons x (sx_all x) (go l) end) l)
  | XGeneric c l => Hg c l (sx_all c) ((fix go l := match l return Forall (fun x => Q (snd x)) l with [] => Forall_nil _ | x :: l => Forall_cons x (sx_all (snd x)) (go l) end) l)
  | XCas a b c => Hcas a b c (sx_all a) (sx_all b) (sx_all c)
  | XExch a b => Hex a b (sx_all a) (sx_all b)
  | XBin o a b => Hb o a b (sx_all a) (sx_all b)
  | XCond c a b => Hcond c a b (sx_all c) (sx_all a) (sx_all b)
  | XElvis a b => He a b (sx_all a) (sx_all b)
  | XCast t e => Hcast t e (sx_all e)
  | XAssign o l r => Has o l r (sx_all l) (sx_all r)
  | XComma a b => Hcm a b (sx_all a) (sx_all b)
  end.
End Ind.
Lemma norm_atom e a : norm e = XAtom a -> e = XAtom a.
Proof. destruct e; cbn [norm]; intros H; try discriminate H; [exact H|]. destruct (norm e1); discriminate H. Qed.
Lemma literal_tree ts e : gr Taken GUnary ts e -> literal ts -> exists t i, e = XAtom (ACompound t i).
Proof.
  intros G (t & i & ->). destruct (proj1 grammar_claims _ _ _ G) as (e' & N & C). destruct (C [] I) as [n H]. specialize (H (S (S n)) ltac:(lia)). rewrite parse_S in H. cbn in H. injection H as <-. exists t, i. apply norm_atom. now symmetry.
Qed.
Lemma wrap_not_literal e : gr Taken (kind e) (text e) e -> ~ literal (wrap GUnary e (text e)).
Proof.
  intros G L. destruct (literal_tree _ _ (gr_wrap Taken GUnary e (text e) I G) L) as (t & i & ->). destruct L as (t' & i' & E). discriminate E.
Qed.
Lemma text_grammar e : proper e = true -> gr Taken (kind e) (text e) e.
Proof.
  induction e as [a|u e IH|i e IH|r e m IH|a i IHa IHi|f l IHf IHl|c l IHc IHl|a b c IHa IHb IHc|a b IHa IHb|o a b IHa IHb|c a b IHc IHa IHb|a b IHa IHb|t e IH|o l r IHl IHr|a b IHa IHb] using sx_all; cbn [proper]; intros Pr;
    repeat match goal with H : (_ && _)%bool = true |- _ => apply andb_prop in H; destruct H end;
    repeat match goal with H : proper ?e = true -> _, K : proper ?e = true |- _ => specialize (H K) end.
  - destruct a; cbn [kind text atom_text]; try now constructor. + apply g_cast0. now apply t_compound.
  - cbn [kind text]. pose proof (gr_wrap Taken (un_arg u) e (text e) ltac:(destruct u; exact I) IH) as G. pose proof (wrap_not_literal e IH). destruct u; cbn [un_arg un_text] in *; first [apply g_preinc; exact G|apply g_predec; exact G|apply g_sizeof; [auto|exact G]|apply g_alignof; [auto|exact G]|apply g_prefix; [cbn; tauto|exact G]].
  - cbn [kind text]. pose proof (gr_wrap Taken GPost e (text e) I IH) as G. destruct i; now constructor.
  - cbn [kind text]. pose proof (gr_wrap Taken GPost e (text e) I IH) as G. destruct r; now constructor.
  - cbn [kind text]. apply g_index; now apply gr_wrap.
  - cbn [kind text]. destruct l as [|x l]; [cbn [map commas app]; apply g_call0; now apply gr_wrap|]. apply g_call; [now apply gr_wrap|].
    match goal with H : forallb proper _ = true |- _ => revert H end. clear - IHl. revert x IHl. induction l as [|y l IH]; intros x IHl F; cbn [forallb] in F; apply andb_prop in F; destruct F as [F1 F2]; inversion IHl as [|? ? Hx Hl]; subst.
    + cbn [map commas]. apply g_arg. now apply gr_wrap; [|apply Hx].
    + change (map (fun e => wrap GAssign e (text e)) (x :: y :: l)) with (wrap GAssign x (text x) :: map (fun e => wrap GAssign e (text e)) (y :: l)).
      change (commas (wrap GAssign x (text x) :: map (fun e => wrap GAssign e (text e)) (y :: l))) with (wrap GAssign x (text x) ++ KP Comma :: commas (map (fun e => wrap GAssign e (text e)) (y :: l))).
      apply g_args; [now apply gr_wrap; [|apply Hx]|]. apply IH; auto.
  - cbn [kind text]. apply g_generic; [now apply gr_wrap| |intros _ ->; match goal with H : false = true |- _ => discriminate H end].
    match goal with H : forallb _ l = true |- _ => revert H end. clear - IHl. induction l as [|[o x] l IH]; intros F; cbn [forallb snd] in F; [constructor|]. apply andb_prop in F; destruct F as [F1 F2]; inversion IHl as [|? ? Hx Hl]; subst. cbn [flat_map fst snd app]. destruct o; [apply g_assoc|apply g_default]; try (apply IH; assumption); apply gr_wrap; auto; exact I.
  - cbn [kind text]. apply g_cas; now apply gr_wrap.
  - cbn [kind text]. apply g_exch; now apply gr_wrap.
  - cbn [kind text]. pose proof (op_infix o) as I'. pose proof (infix_lt _ _ _ I'). apply g_binary; [exact I'|now apply gr_wrap|]. apply gr_wrap; [|assumption]. destruct (op_level o); cbn in *; auto; lia.
  - cbn [kind text]. apply g_cond; apply gr_wrap; auto; cbn; auto; lia.
  - cbn [kind text]. apply g_elvis; apply gr_wrap; auto; cbn; auto; lia.
  - cbn [kind text]. apply g_cast. now apply gr_wrap.
  - cbn [kind text]. destruct (assign_punct o) as [p|] eqn:A; [|discriminate]. apply g_assign; [now apply gr_wrap| |now apply gr_wrap]. apply assign_table. destruct o as [[]|]; try discriminate A; injection A as <-; reflexivity.
  - cbn [kind text]. apply g_comma; now apply gr_wrap.
Qed.

(** ** Part of the full grammar *)
Lemma taken_c11 : (forall g ts e, gr Taken g ts e -> gr C11 g ts e) /\ (forall us l, arguments Taken us l -> arguments C11 us l) /\ (forall us l, assocs Taken us l -> assocs C11 us l).
Proof.
  apply gr_arguments_assocs; intros; try discriminate; try solve [econstructor; eauto; discriminate]; try (apply g_unary; apply g_compound; discriminate).
  all: try match goal with |- gr C11 GUnary (KSizeof :: _) (XUn _ _) => apply g_sizeof; [discriminate|assumption] | |- gr C11 GUnary (KAlignof :: _) (XUn _ _) => apply g_alignof; [discriminate|assumption] end.
  all: try match goal with |- gr C11 GPrim (KGeneric :: _) _ => apply g_generic; auto; intros; match goal with H : Taken <> Loose -> _ |- _ => apply H; discriminate end end.
  all: try solve [constructor; assumption].
  all: match goal with |- gr C11 ?g (?x) _ => idtac g x end.
Qed.

(** ** Nothing but the loose grammar allows a sum on the left of an assignment *)
Definition no_brace (ts : list tok) : Prop := forall i, ~ In (KBrace i) ts.
Lemma no_brace_app a b : no_brace (a ++ b) -> no_brace a /\ no_brace b.
Proof. intros H. split; intros i X; apply (H i); apply in_or_app; auto. Qed.
Lemma no_brace_cons x b : no_brace (x :: b) -> no_brace b.
Proof. intros H i X. apply (H i). now right. Qed.
Lemma c11_taken : (forall g ts e, gr C11 g ts e -> no_brace ts -> gr Taken g ts e) /\ (forall us l, arguments C11 us l -> no_brace us -> arguments Taken us l) /\ (forall us l, assocs C11 us l -> no_brace us -> assocs Taken us l).
Proof.
  apply gr_arguments_assocs; intros; try discriminate;
    try match goal with H : no_brace [KP LPar; _; _; KBrace ?i] |- _ => exfalso; apply (H i); cbn; tauto end;
    repeat match goal with H : no_brace (_ :: _) |- _ => apply no_brace_cons in H | H : no_brace (_ ++ _) |- _ => apply no_brace_app in H; destruct H end;
    repeat match goal with H : no_brace ?t -> _, K : no_brace ?t |- _ => specialize (H K) end;
    try solve [econstructor; eauto; discriminate].
  - apply g_generic; auto. intros _. apply H3. discriminate.
  - apply g_sizeof; auto. intros _ (t & i & ->). match goal with H : no_brace _ |- _ => exfalso; apply (H i); cbn; tauto end.
  - apply g_alignof; auto. intros _ (t & i & ->). match goal with H : no_brace _ |- _ => exfalso; apply (H i); cbn; tauto end.
Qed.
Definition open_first (ts : list tok) : Prop := exists r, ts = KP LPar :: r.
Lemma of_app t u : open_first t -> open_first (t ++ u). Proof. intros (r & ->). now exists (r ++ u). Qed.
Lemma kind_bound g ts e : gr C11 g ts e -> ~ open_first ts -> (rank (kind e) <= rank g)%nat.
Proof.
  intros G. induction G; intros O; try discriminate; try (exfalso; apply O; eexists; reflexivity);
    try (cbn [kind rank] in *; lia); try (match goal with H : ~ open_first _ -> _ |- _ => specialize (H O) end; cbn [rank] in *; lia).
  - destruct k; specialize (IHG O); cbn [below rank] in *; lia.
  - cbn [kind]. assert (op_level o = k) as ->; [|lia]. apply infix_binary in H. clear - H. do 10 (destruct k as [|k]; [destruct p; try discriminate H; injection H as <-; reflexivity|]). destruct k, p; discriminate H.
Qed.
Lemma assign_left g ts e : gr C11 g ts e -> ~ open_first ts -> forall o l r, e = XAssign o l r -> exists t1 p t2, ts = t1 ++ KP p :: t2 /\ gr C11 GUnary t1 l.
Proof.
  intros G. induction G; intros O ? ? ? E; try discriminate; try (exfalso; apply O; eexists; reflexivity); try (eapply IHG; eauto; fail).
  injection E as <- <- <-. eauto.
Qed.
