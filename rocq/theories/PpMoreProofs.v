(** Proofs about text without directives, definitions, include search, origins
    and parameter substitution. *)
From Verif Require Import Base UnicodeModel TextModel LexModel LitModel PpModel PpSpec PpProofs PpCondProofs.
From Coq Require Import Arith.
From Coq Require Import ZifyBool ZifyNat.
Local Notation length := List.length.

(** ** Text that is passed through *)
Definition inert (st : pst) (t : ptok) : Prop :=
  p_kind t <> TK_EOF /\ ~ (p_bol t = true /\ p_text t = bs "#") /\
  (p_kind t <> TK_IDENT \/ lookup (macros st) (p_text t) = None \/ In (p_text t) (p_hs t)).

Lemma inert_no_expand pp st t r : inert st t -> expand_macro pp st t r = LOk None.
Proof.
  intros (_ & _ & H). unfold expand_macro. destruct (hideset_contains (p_hs t) (p_text t)) eqn:C; [reflexivity|].
  unfold find_macro, is_ident_tok. destruct H as [H|[H|H]].
  - destruct (p_kind t); try reflexivity. congruence.
  - rewrite H. destruct (p_kind t); reflexivity.
  - apply contains_in in H. congruence.
Qed.

Lemma inert_run E st l rest r : Forall (inert st) l -> pp_result E st rest r -> pp_result E st (l ++ rest) (prepend l r).
Proof.
  induction 1 as [|t l Ht H IH]; intro HR; [rewrite prepend_nil; exact HR|].
  destruct (IH HR) as [f [Hf Hn]]. exists (S f). split.
  - cbn [app]. rewrite pp_unfold, (inert_no_expand _ _ _ _ Ht). destruct Ht as (Hk & Hh & _).
    rewrite (proj2 (is_eof_not t) Hk), (not_hash_false t Hh). cbn [lbind negb].
    rewrite Hf. destruct r as [[]| | |]; reflexivity.
  - destruct HR as [g [_ N]]. apply prepend_fuel. exact N.
Qed.

Lemma inert_plain E st l : Forall (inert st) l -> plain_text E st l l st.
Proof. intros H cs rest r Hr HR. apply inert_run; [|exact HR]. eapply Forall_impl; [|exact H]. intros t Ht. exact Ht. Qed.

(** ** Definitions *)
Lemma copy_line_ok body rest : Forall (fun t => p_bol t = false) body -> starts_line rest ->
  exists e, copy_line (body ++ rest) = LOk (map copy_token body ++ [e], rest) /\ p_kind e = TK_EOF /\ p_text e = [] /\ e = new_eof (hd e rest).
Proof.
  intros H Hr. induction H as [|t l Ht H IH].
  - destruct rest as [|t rest]; [destruct Hr|]. simpl in Hr. cbn [app map copy_line]. rewrite Hr. eexists. repeat split; reflexivity.
  - destruct IH as (e & IH & He). exists e. split; [|exact He]. cbn [app map copy_line]. rewrite Ht, IH. reflexivity.
Qed.

Lemma define_plain E st h d n body :
  hash_at h -> p_text d = bs "define" -> p_kind n = TK_IDENT ->
  Forall (fun t => p_bol t = false) body ->
  match body with t :: _ => p_space t = true \/ p_text t <> bs "(" | [] => True end ->
  forall cs rest r, starts_line rest ->
  match body, rest with [], t :: _ => p_text t <> bs "(" | _, _ => True end ->
  (forall e, p_kind e = TK_EOF ->
     pp_result E (set_macros (set_conds st cs) ((p_text n, ObjLike (map copy_token body ++ [e])) :: macros st)) rest r) ->
  pp_result E (set_conds st cs) ((h :: d :: n :: body) ++ rest) r.
Proof.
  intros Hh Hd Hn Hb Hf cs rest r Hr Hx HR.
  destruct (copy_line_ok body rest Hb Hr) as (e & Hc & He & _).
  cbn [app]. eapply dir_step; [exact Hh| |apply (HR e He)].
  exists O. unfold directive, equal. rewrite Hd. beqs.
  unfold read_macro_definition. unfold is_ident_tok. rewrite Hn. cbn [negb].
  assert (Hne : body ++ rest <> []) by (apply app_ne, starts_line_ne, Hr).
  destruct (body ++ rest) as [|t r1] eqn:Q; [congruence|].
  replace (negb (p_space t) && equal t (bs "(")) with false.
  2:{ symmetry. apply andb_false_iff. destruct body as [|b0 body]; cbn [app] in Q.
      - subst rest. right. apply equal_not. exact Hx.
      - assert (b0 = t) by congruence. subst. destruct Hf as [Hf|Hf]; [left; rewrite Hf; reflexivity|right; apply equal_not; exact Hf]. }
  rewrite Hc. reflexivity.
Qed.

Lemma undef_plain E st h d n :
  hash_at h -> p_text d = bs "undef" -> p_kind n = TK_IDENT ->
  plain_text E st [h; d; n] [] (set_macros st (remove (macros st) (p_text n))).
Proof.
  intros Hh Hd Hn cs rest r Hr HR. rewrite prepend_nil. cbn [app].
  eapply dir_step; [exact Hh| |exact HR]. exists O. unfold directive, equal. rewrite Hd. beqs.
  unfold is_ident_tok. rewrite Hn. cbn [negb]. destruct rest; [destruct Hr|]. reflexivity.
Qed.

Lemma lookup_remove {A} (m : list (bytes * A)) k n : lookup (remove m k) n = if beq k n then None else lookup m n.
Proof.
  unfold remove. induction m as [|[k' v] m IH]; simpl; [destruct (beq k n); reflexivity|].
  destruct (beq k' k) eqn:B; simpl.
  - apply beq_eq in B. subst k'. rewrite IH. destruct (beq k n); reflexivity.
  - destruct (beq k' n) eqn:B2; [|exact IH]. apply beq_eq in B2. subst k'.
    destruct (beq k n) eqn:B3; [|reflexivity]. apply beq_eq in B3. subst. rewrite beq_refl in B. discriminate.
Qed.

(** ** The value of an #if line *)
Lemma read_defined_none st l e f : Forall (fun t => p_kind t <> TK_EOF /\ p_text t <> bs "defined") l -> p_kind e = TK_EOF ->
  (length l < f)%nat -> read_defined f st (l ++ [e]) = LOk (l ++ [e]).
Proof.
  intros H He. revert f. induction H as [|t l [Hk Hd] H IH]; intros f Hf; (destruct f as [|f]; [simpl in Hf; lia|]); cbn [app read_defined].
  - rewrite (proj2 (is_eof_iff e) He). reflexivity.
  - rewrite (proj2 (is_eof_not t) Hk), (proj2 (equal_not t _) Hd). cbn [length] in Hf.
    rewrite IH by lia. reflexivity.
Qed.

Lemma zero_idents_none l : Forall (fun t => p_kind t <> TK_IDENT) l -> zero_idents l = LOk l.
Proof.
  induction 1 as [|t l Ht H IH]; [reflexivity|]. cbn [zero_idents].
  replace (is_ident_tok t) with false by (unfold is_ident_tok; destruct (p_kind t); congruence).
  cbn [lbind]. rewrite IH. reflexivity.
Qed.

Lemma if_value_const E st expr v :
  expr <> [] ->
  Forall (fun t => p_bol t = false /\ p_kind t <> TK_EOF /\ p_kind t <> TK_IDENT /\ p_text t <> bs "defined") expr ->
  (forall e, p_kind e = TK_EOF -> const_expr E (map copy_token expr ++ [e]) = Some v) ->
  if_value E st expr v st.
Proof.
  intros Hne HF Hc cs rest Hr.
  assert (Hb : Forall (fun t => p_bol t = false) expr) by (eapply Forall_impl; [|exact HF]; intros t Ht; apply Ht).
  destruct (copy_line_ok expr rest Hb Hr) as (e & Hcl & He & _).
  assert (HF' : Forall (fun t => p_kind t <> TK_EOF /\ p_text t <> bs "defined") (map copy_token expr)).
  { apply Forall_map. eapply Forall_impl; [|exact HF]. intros t (B & K & I & D). split; assumption. }
  assert (HI : Forall (inert (set_conds st cs)) (map copy_token expr)).
  { apply Forall_map. eapply Forall_impl; [|exact HF]. intros t (B & K & I & D). unfold inert. cbn [copy_token p_kind p_text p_bol p_hs].
    split; [exact K|]. split; [intros [X _]; congruence|]. left. exact I. }
  destruct (inert_run E (set_conds st cs) (map copy_token expr) [e] (LOk ([e], set_conds st cs)) HI) as [f [Hf _]].
  { exists 1%nat. split; [|discriminate]. rewrite pp_unfold. rewrite (proj2 (is_eof_iff e) He). reflexivity. }
  exists f. unfold eval_const_expr, read_const_expr. rewrite Hcl. cbn [lbind fst snd].
  rewrite (read_defined_none _ (map copy_token expr) e); [|exact HF'|exact He|rewrite app_length; simpl; lia].
  cbn [lbind fst snd]. rewrite Hf. cbn [prepend lbind fst snd].
  destruct expr as [|t expr]; [congruence|]. cbn [map app].
  inversion HF as [|? ? (B & K & I & D) HF2]; subst.
  rewrite (proj2 (is_eof_not (copy_token t)) K).
  change (copy_token t :: map copy_token expr ++ [e]) with (map copy_token (t :: expr) ++ [e]).
  rewrite zero_idents_none.
  - cbn [lbind]. rewrite (Hc e He). reflexivity.
  - apply Forall_app. split; [apply Forall_map; eapply Forall_impl; [|exact HF]; intros x (B1 & K1 & I1 & D1); exact I1|].
    constructor; [congruence|constructor].
Qed.

Lemma num01 (b : bool) d : exists t, new_num_token (if b then 1 else 0) d = LOk t /\ word_of t = (TK_PP_NUM, if b then bs "1" else bs "0").
Proof. destruct b; eexists; split; vm_compute; reflexivity. Qed.

Lemma num01_text (b : bool) t : word_of t = (TK_PP_NUM, if b then bs "1" else bs "0") -> p_text t <> bs "#".
Proof.
  unfold word_of. intros H X. rewrite X in H. injection H as _ H. destruct b; vm_compute in H; discriminate.
Qed.

Lemma if_value_defined E st d n :
  p_bol d = false -> p_text d = bs "defined" -> p_kind d = TK_IDENT ->
  p_bol n = false -> p_kind n = TK_IDENT -> p_text n <> bs "(" ->
  (forall (b : bool) t e, word_of t = (TK_PP_NUM, if b then bs "1" else bs "0") -> p_kind e = TK_EOF ->
     const_expr E [t; e] = Some (if b then 1 else 0)) ->
  if_value E st [d; n] (if defined_in st n then 1 else 0) st.
Proof.
  intros Bd Td Kd Bn Kn Tn Hc cs rest Hr.
  destruct (copy_line_ok [d; n] rest ltac:(auto) Hr) as (e & Hcl & He & _).
  destruct (num01 (defined_in st n) (copy_token d)) as (t & Ht & Hw).
  assert (Kt : p_kind t = TK_PP_NUM) by (unfold word_of in Hw; congruence).
  exists 2%nat. unfold eval_const_expr, read_const_expr. rewrite Hcl. cbn [lbind fst snd map app length].
  cbn [read_defined]. unfold is_eof at 1. cbn [copy_token p_kind]. rewrite Kd.
  replace (equal (copy_token d) (bs "defined")) with true by (symmetry; apply (equal_iff (copy_token d)); exact Td).
  cbn [hd_is]. rewrite (proj2 (equal_not (copy_token n) (bs "(")) Tn).
  unfold is_ident_tok at 1. cbn [copy_token p_kind]. rewrite Kn. cbn [negb lbind].
  replace (match find_macro (set_conds st cs) (copy_token n) with Some _ => 1 | None => 0 end) with (if defined_in st n then 1 else 0).
  2:{ unfold defined_in, find_macro, is_ident_tok. cbn [copy_token p_kind p_text set_conds macros]. rewrite Kn. destruct (lookup (macros st) (p_text n)); reflexivity. }
  rewrite Ht. cbn [lbind]. rewrite (proj2 (is_eof_iff e) He). cbn [lbind fst snd].
  rewrite pp_unfold. unfold is_eof at 1. rewrite Kt.
  rewrite inert_no_expand.
  2:{ split; [congruence|]. split; [|left; congruence]. intros [_ X]. exact (num01_text _ _ Hw X). }
  cbn [lbind]. rewrite hash_text.
  2:{ exact (num01_text _ _ Hw). }
  cbn [negb]. rewrite pp_unfold, (proj2 (is_eof_iff e) He). cbn [lbind fst snd].
  unfold is_eof at 1. rewrite Kt. rewrite zero_idents_none.
  - cbn [lbind]. rewrite (Hc (defined_in st n) t e Hw He). reflexivity.
  - constructor; [congruence|]. constructor; [congruence|constructor].
Qed.

(** ** Include guards *)
Lemma guard_skips E st h i m body h2 e :
  hash_at h -> p_text i = bs "ifndef" -> defined_in st m = true -> nested false body -> starts_line (body ++ [h2]) ->
  hash_at h2 -> p_text e = bs "endif" ->
  consumes E st (h :: i :: m :: body ++ [h2; e]) [] st.
Proof.
  intros Hh Hi Hm Hb Hs Hh2 He.
  assert (S : sel E st (([h; i; m] ++ (body ++ [h2; e]) ++ []) ) ([] ++ []) st).
  { eapply sel_cond; [|apply (arms_endif E st body h2 e); assumption|constructor].
    replace false with (negb (defined_in st m)) by (rewrite Hm; reflexivity). constructor; assumption. }
  apply sel_runs in S as [_ S]. specialize (S (conds st)).
  rewrite app_nil_r in S. cbn [app] in S.
  replace (set_conds st (conds st)) with st in S by (destruct st; reflexivity). exact S.
Qed.

(** ** Include search *)
Section Invariant.
Variable E : env.
Variable P : pst -> Prop.
Hypothesis Pm : forall st m, P st -> P (set_macros st m).
Hypothesis Pc : forall st m, P st -> P (set_conds st m).
Hypothesis Po : forall st m, P st -> P (set_once st m).
Hypothesis Pg : forall st m, P st -> P (set_guards st m).
Hypothesis Pf : forall st m, P st -> P (set_files st m).
Hypothesis Pk : forall st m, P st -> P (set_counter st m).
Hypothesis Ps : forall st n p st', P st -> search_include_paths E st n = (p, st') -> P st'.
Hypothesis Pn : forall st n p st', P st -> search_include_next E st n = (p, st') -> P st'.

(** every state in a result satisfies P *)
Definition okr {A} (proj : A -> pst) (r : lres A) : Prop := match r with LOk a => P (proj a) | _ => True end.
Definition ok_pp (pp : pst -> list ptok -> lres (list ptok * pst)) : Prop := forall st l, P st -> okr snd (pp st l).

Lemma okr_bind {A B} (x : lres A) (f : A -> lres B) proj :
  (forall a, x = LOk a -> okr proj (f a)) -> okr proj (lbind x f).
Proof. destruct x; simpl; auto. Qed.

Ltac ok_step :=
  match goal with
  | |- okr _ LErr => exact I
  | |- okr _ LOOB => exact I
  | |- okr _ LFuel => exact I
  | |- okr _ (LOk _) => cbn [okr fst snd]
  | |- okr _ (lbind _ _) => apply okr_bind; intros
  | |- okr _ (match ?x with _ => _ end) => destruct x eqn:?
  | |- okr _ (let (_, _) := ?x in _) => destruct x eqn:?
  | |- P (set_macros _ _) => apply Pm
  | |- P (set_conds _ _) => apply Pc
  | |- P (set_once _ _) => apply Po
  | |- P (set_guards _ _) => apply Pg
  | |- P (set_files _ _) => apply Pf
  | |- P (set_counter _ _) => apply Pk
  end.
Ltac ok_auto := repeat (cbv zeta; first [assumption | ok_step]).

Lemma pp_state pp st l a : ok_pp pp -> P st -> pp st l = LOk a -> P (snd a).
Proof. intros H HP R. specialize (H st l HP). rewrite R in H. exact H. Qed.

Lemma subst_ok f pp : ok_pp pp -> forall st args l acc, P st -> okr snd (subst f pp st args l acc).
Proof.
  intro H. induction f as [|f IH]; intros st args l acc HP; [exact I|]. cbn [subst].
  repeat (cbv zeta; first [assumption | ok_step | apply IH]).
  all: try assumption; eapply pp_state; eauto.
Qed.

Lemma handler_ok st h t : P st -> okr snd (run_handler st h t).
Proof. intro HP. unfold run_handler. ok_auto. Qed.

Definition okx (r : lres (option (list ptok * pst))) : Prop := match r with LOk (Some (_, s)) => P s | _ => True end.
Lemma expand_ok pp st t r : ok_pp pp -> P st -> okx (expand_macro pp st t r).
Proof.
  intros H HP. unfold expand_macro. destruct (hideset_contains _ _); [exact I|].
  destruct (find_macro st t) as [[h|b|ps va b]|]; try exact I.
  - pose proof (handler_ok st h t HP) as X. destruct (run_handler st h t) as [[x s]| | |]; try exact I. exact X.
  - cbv zeta. destruct (set_flags_hd _ _); try exact I. exact HP.
  - destruct r as [|lp r1]; [exact I|]. destruct (negb _); [exact I|].
    destruct (read_macro_args r1 ps va) as [[args rest]| | |]; try exact I. cbn [lbind fst snd].
    destruct rest as [|rp r2]; [exact I|]. cbv zeta.
    pose proof (subst_ok (S (length b)) pp H st args b [] HP) as X.
    destruct (subst _ _ _ _ _ _) as [[o s]| | |]; try exact I. cbn [lbind fst snd].
    destruct (set_flags_hd _ _); try exact I. exact X.
Qed.

Lemma eval_ok pp st l : ok_pp pp -> P st -> okr snd (eval_const_expr E pp st l).
Proof. intros H HP. unfold eval_const_expr. ok_auto; eapply pp_state; eauto. Qed.
Lemma read_include_ok pp : ok_pp pp -> forall f st l, P st -> okr snd (read_include_filename f pp st l).
Proof.
  intro H. induction f as [|f IH]; intros st l HP; [exact I|]. cbn [read_include_filename]. ok_auto;
  match goal with R : pp _ _ = LOk ?a, Q : read_include_filename f pp (snd ?a) (fst ?a) = LOk ?b |- P (snd ?b) =>
    pose proof (IH (snd a) (fst a) (pp_state _ _ _ _ H HP R)) as X; rewrite Q in X; exact X end.
Qed.
Lemma line_marker_ok pp st s l : ok_pp pp -> P st -> okr snd (read_line_marker pp st s l).
Proof. intros H HP. unfold read_line_marker. ok_auto; eapply pp_state; eauto. Qed.
Lemma define_ok st l : P st -> okr snd (read_macro_definition st l).
Proof. intro HP. unfold read_macro_definition. ok_auto. Qed.
Lemma include_ok st l p : P st -> okr snd (include_file E st l p).
Proof.
  intro HP. unfold include_file. ok_auto.
  match goal with |- P (match ?x with _ => _ end) => destruct x end; ok_auto.
Qed.
Lemma do_include_ok st s n dq l : P st -> okr snd (do_include E st s n dq l).
Proof. intro HP. unfold do_include. cbv zeta. destruct (_ && _ && _); [apply include_ok; exact HP|].
  destruct (search_include_paths E st n) eqn:Q. apply include_ok. eapply Ps; eauto. Qed.

Lemma directive_ok pp f st s l : ok_pp pp -> P st -> okr snd (directive E pp f st s l).
Proof.
  intros H HP. unfold directive.
  assert (HI : forall f l x, read_include_filename f pp st l = LOk x -> P (snd x)).
  { intros f0 l0 x R. pose proof (read_include_ok pp H f0 st l0 HP) as X. rewrite R in X. exact X. }
  assert (HE : forall st l x, P st -> eval_const_expr E pp st l = LOk x -> P (snd x)).
  { intros s0 l0 x HP0 R. pose proof (eval_ok pp s0 l0 H HP0) as X. rewrite R in X. exact X. }
  repeat (cbv zeta; first [assumption | exact I
    | apply do_include_ok; eapply HI; eassumption
    | apply define_ok; assumption
    | apply line_marker_ok; assumption
    | match goal with R : search_include_next E _ _ = _ |- okr _ (include_file _ _ _ _) => apply include_ok; eapply Pn; [|exact R]; eapply HI; eassumption end
    | ok_step
    | eapply HE; [|eassumption]; repeat ok_step; assumption ]).
Qed.

Lemma preprocess_inv f : ok_pp (preprocess2 f E).
Proof.
  induction f as [|f IH]; intros st l HP; [exact I|]. destruct l as [|t r]; [exact I|].
  rewrite pp_unfold. destruct (is_eof t); [exact HP|].
  pose proof (expand_ok (preprocess2 f E) st t r IH HP) as X.
  destruct (expand_macro _ st t r) as [[[l' st']|]| | |]; try exact I; cbn [lbind].
  - apply IH. exact X.
  - destruct (negb (is_hash t)).
    + pose proof (IH st r HP) as Y. destruct (preprocess2 f E st r) as [[]| | |]; try exact I. exact Y.
    + pose proof (directive_ok (preprocess2 f E) f st t r IH HP) as Y.
      destruct (directive _ _ _ _ _ _) as [[]| | |]; try exact I. cbn [lbind fst snd]. apply IH. exact Y.
Qed.
End Invariant.

(** ** The include guard test *)
Lemma guard_loop_shape f : forall l, guard_loop f l = LOk true ->
  exists pre h e eof post, l = pre ++ h :: e :: eof :: post /\ is_hash h = true /\ p_text e = bs "endif" /\ p_kind eof = TK_EOF /\
    Forall (fun t => p_kind t <> TK_EOF) pre.
Proof.
  induction f as [|f IH]; intros l H; [discriminate|]. cbn [guard_loop] in H.
  destruct l as [|t r]; [discriminate|].
  destruct (is_eof t) eqn:Et; [discriminate|].
  assert (Kt: p_kind t <> TK_EOF) by (unfold is_eof in Et; destruct (p_kind t); congruence).
  assert (REC: guard_loop f r = LOk true -> exists pre h e eof post, t :: r = pre ++ h :: e :: eof :: post /\ is_hash h = true /\ p_text e = bs "endif" /\ p_kind eof = TK_EOF /\
    Forall (fun t => p_kind t <> TK_EOF) pre).
  { intros G. apply IH in G as (pre & h & e & eof & post & -> & A & B & C & D). exists (t :: pre), h, e, eof, post. repeat split; auto. }
  destruct (is_hash t) eqn:Eh; cbn [negb] in H; [|now apply REC].
  destruct (hd_is r (bs "endif") && match r with _ :: e :: _ => is_eof e | _ => false end) eqn:Ee.
  - apply andb_prop in Ee as [E1 E2]. destruct r as [|e [|eof post]]; try discriminate.
    exists [], t, e, eof, post. cbn [app]. split; [reflexivity|]. split; [exact Eh|].
    cbn [hd_is] in E1. unfold equal in E1. apply beq_eq in E1. split; [exact E1|]. split; [|constructor].
    unfold is_eof in E2. destruct (p_kind eof); congruence.
  - assert (N: equal t (bs "if") || equal t (bs "ifdef") || equal t (bs "ifndef") = false).
    { unfold is_hash, equal in *. apply andb_prop in Eh as [_ Eh]. apply beq_eq in Eh. rewrite Eh. reflexivity. }
    rewrite N in H. now apply REC.
Qed.
