(** Property C52: the tree of an expression is the one of the grammar of C. *)
From Verif Require Import Base TypeModel NodeModel ValSpec NodeSpec ElabSpec ParseModel ParseSpec ParseProofs ParseGrammar ParseSound ParsePrint.
From Coq Require Import ZifyBool ZifyNat.
Local Notation length := List.length.

Lemma P_parse_expr ts e rest : P PExpr ts e rest -> parse_expr ts = Ok e rest.
Proof.
  intros [n H]. unfold parse_expr. set (f := (20 * (length ts + 1))%nat). pose proof (parse_good f PExpr ts I) as G. cbn [rk] in G. specialize (G ltac:(subst f; lia)).
  specialize (H (n + f)%nat ltac:(lia)). destruct (parse f PExpr ts) as [| |e' r'] eqn:E; [destruct G| |]; apply (parse_more f (n + f)) in E; try discriminate; try lia; congruence.
Qed.

(** The parser always comes to an end *)
Theorem C52_total ts : parse_expr ts <> Fuel.
Proof. unfold parse_expr. pose proof (parse_good (20 * (length ts + 1)) PExpr ts I) as G. cbn [rk] in G. specialize (G ltac:(lia)). intros E. rewrite E in G. exact G. Qed.
Print Assumptions C52_total.

(** An expression of the grammar, before a token that cannot continue it, is read to its
    end, and has the tree of the grammar up to the association of commas. Missing: postfix
    operators after a compound literal, sizeof of one without parentheses. *)
Theorem C52_grammar_partial ts e rest : gr Taken GExpr ts e -> stops GExpr rest -> exists e', parse_expr (ts ++ rest) = Ok e' rest /\ same_tree e' e.
Proof.
  intros G ST. destruct (proj1 grammar_claims _ _ _ G) as (e' & N & C & _). exists e'. split; [|exact N]. apply P_parse_expr. now apply C.
Qed.
Print Assumptions C52_grammar_partial.

(** All of that is C *)
Theorem C52_grammar_is_C ts e : (gr Taken GExpr ts e -> gr C11 GExpr ts e) /\ ((forall i, ~ In (KBrace i) ts) -> gr C11 GExpr ts e -> gr Taken GExpr ts e).
Proof. split; [apply taken_c11|]. intros NB G. now apply c11_taken. Qed.
Print Assumptions C52_grammar_is_C.

(** So a sequence of tokens without compound literals has one tree at most *)
Theorem C52_unambiguous ts e e' : (forall i, ~ In (KBrace i) ts) -> gr C11 GExpr ts e -> gr C11 GExpr ts e' -> same_tree e e'.
Proof.
  intros NB G G'. apply C52_grammar_is_C in G, G'; auto. destruct (C52_grammar_partial ts e [] G I) as (a & A & Na). destruct (C52_grammar_partial ts e' [] G' I) as (b & B & Nb). unfold same_tree in *. congruence.
Qed.
Print Assumptions C52_unambiguous.

(** What is accepted is an expression of the grammar, or of the grammar with any
    conditional expression on the left of an assignment, postfix operators after sizeof
    and _Generic without associations; and its tree is the tree there *)
Theorem C52_accepted_partial ts e rest : parse_expr ts = Ok e rest -> exists t e', ts = t ++ rest /\ gr Loose GExpr t e' /\ same_tree e e'.
Proof.
  intros H. apply parse_sound in H; [|exact I]. destruct H as (t & e' & -> & N & G). exists t, e'. split; [reflexivity|]. split; [exact G|]. unfold same_tree. now symmetry.
Qed.
Print Assumptions C52_accepted_partial.

(** A tree printed with parentheses only where the grammar needs them is read back *)
Theorem C52_round_trip e rest : proper e = true -> stops GExpr rest -> exists e', parse_expr (text e ++ rest) = Ok e' rest /\ same_tree e' e.
Proof.
  intros Pr ST. apply C52_grammar_partial; [|exact ST]. pose proof (gr_wrap Taken GExpr e (text e) I (text_grammar e Pr)) as G. unfold wrap in G. pose proof (kind_rank e) as K. change (rank GExpr) with 16%nat in G. destruct (Nat.leb_spec (rank (kind e)) 16); [exact G|lia].
Qed.
Print Assumptions C52_round_trip.
(** and so different trees are printed differently *)
Theorem C52_text_injective e e' : proper e = true -> proper e' = true -> text e = text e' -> same_tree e e'.
Proof.
  intros P1 P2 E. destruct (C52_round_trip e [] P1 I) as (a & A & Na). destruct (C52_round_trip e' [] P2 I) as (b & B & Nb). rewrite E in A. unfold same_tree in *. congruence.
Qed.
Print Assumptions C52_text_injective.

(** The association of commas has no effect on the type or the value *)
Theorem C52_comma addr V call a b c lv m : cev addr V call lv (CComma (CComma a b) c) m = cev addr V call lv (CComma a (CComma b c)) m /\ ctype (CComma (CComma a b) c) = ctype (CComma a (CComma b c)).
Proof.
  split.
  - destruct lv; [reflexivity|]. cbn [cev]. destruct (cev addr V call false a m) as [[? ?]|]; reflexivity.
  - cbn [ctype]. destruct (ctype a); reflexivity.
Qed.
Print Assumptions C52_comma.

(** ** Not as in C *)
(** a, b, c has the tree of a, (b, c) *)
Theorem C52_comma_tree_refuted : exists ts e e', gr C11 GExpr ts e /\ parse_expr ts = Ok e' [] /\ e' <> e.
Proof.
  exists [KId [97]; KP Comma; KId [98]; KP Comma; KId [99]], (XComma (XComma (XAtom (AId [97])) (XAtom (AId [98]))) (XAtom (AId [99]))). eexists. split; [|split; [vm_compute; reflexivity|discriminate]].
  assert (A : forall n, gr C11 GAssign [KId n] (XAtom (AId n))) by (intros n; apply (gr_up C11 15 GPrim); [reflexivity|exact I|exact I|constructor]).
  apply (g_comma C11 [KId [97]; KP Comma; KId [98]] _ [KId [99]]); [|apply A]. apply (g_comma C11 [KId [97]] _ [KId [98]]); [apply g_expr|]; apply A.
Qed.
Print Assumptions C52_comma_tree_refuted.
Lemma post_expr ts e : gr C11 GPost ts e -> gr C11 GExpr ts e. Proof. apply (gr_up C11 15 GPost); [reflexivity|exact I|exact I]. Qed.
(** (T){...}.x is not read to its end *)
Theorem C52_literal_member_refuted : exists ts e, gr C11 GExpr ts e /\ forall e' rest, parse_expr (ts ++ [KP Semi]) = Ok e' rest -> rest <> [KP Semi].
Proof.
  exists [KP LPar; KType [84]; KP RPar; KBrace []; KP Dot; KId [120]], (XMem false (XAtom (ACompound [84] [])) [120]). split.
  - apply post_expr. apply (g_dot C11 [KP LPar; KType [84]; KP RPar; KBrace []]). apply g_compound. discriminate.
  - intros e' rest H. vm_compute in H. injection H as _ <-. discriminate.
Qed.
Print Assumptions C52_literal_member_refuted.
(** sizeof (T){...} is sizeof (T), and the braces are left *)
Theorem C52_sizeof_literal_refuted : exists ts e, gr C11 GExpr ts e /\ forall e' rest, parse_expr (ts ++ [KP Semi]) = Ok e' rest -> rest <> [KP Semi].
Proof.
  exists [KSizeof; KP LPar; KType [84]; KP RPar; KBrace []], (XUn USizeof (XAtom (ACompound [84] []))). split.
  - apply (gr_up C11 14 GUnary); [reflexivity|exact I|exact I|]. apply g_sizeof; [discriminate|]. apply g_unary. apply g_compound. discriminate.
  - intros e' rest H. vm_compute in H. injection H as _ <-. discriminate.
Qed.
Print Assumptions C52_sizeof_literal_refuted.
(** a + b = c is accepted, and it is no expression of C *)
Theorem C52_assign_to_sum_refuted : exists ts e, parse_expr ts = Ok e [] /\ forall e', ~ gr C11 GExpr ts e'.
Proof.
  exists [KId [97]; KP Plus; KId [98]; KP PEq; KId [99]]. eexists. split; [vm_compute; reflexivity|]. intros e' G.
  assert (NB : forall i, ~ In (KBrace i) [KId [97]; KP Plus; KId [98]; KP PEq; KId [99]]) by (intros i; cbn; intuition discriminate).
  destruct (C52_grammar_partial _ _ [] (proj2 (C52_grammar_is_C _ _) NB G) I) as (a & A & N). vm_compute in A. injection A as <-. unfold same_tree in N. cbn [norm] in N.
  destruct e' as [| | | | | | | | | | | | |o l r|x y]; cbn [norm] in N; try discriminate N; [|destruct (norm x); discriminate N].
  injection N as <- N1 N2. assert (NO : ~ open_first [KId [97]; KP Plus; KId [98]; KP PEq; KId [99]]) by (intros (u & E); discriminate E).
  destruct (assign_left _ _ _ G NO _ _ _ eq_refl) as (t1 & p & t2 & E & G1). assert (O1 : ~ open_first t1) by (intros O; apply NO; rewrite E; now apply of_app).
  pose proof (kind_bound _ _ _ G1 O1) as K. destruct l as [| | | | | | | | |o' x y| | | | |x y]; cbn [norm] in N1; try discriminate N1; [|destruct (norm x); discriminate N1]. injection N1 as <- _ _. cbn in K. lia.
Qed.
Print Assumptions C52_assign_to_sum_refuted.

(** ** Cases *)
Definition v (n : Z) : sx := XAtom (AId [n]).
(* *p++ = - a [ i ] * (b + c) << 2 == d ? x = y : -(T) z , f ( q , ! r . s ) *)
Definition sample : sx :=
  XComma (XAssign None (XUn UDeref (XPost true (v 112))) (XCond (XBin (XO SEq) (XBin (XO SShl) (XBin (XO SMul) (XUn UNeg (XIndex (v 97) (v 105))) (XBin (XO SAdd) (v 98) (v 99))) (XAtom (ANum [50]))) (v 100)) (XAssign None (v 120) (v 121)) (XUn UNeg (XCast [84] (v 122)))))
         (XCall (v 102) [v 113; XUn UNot (XMem false (v 114) [115])]).
Example C52_sample : proper sample = true /\ stops GExpr [KP Semi] /\
  text sample = [KP Star; KId [112]; KP PlusPlus; KP PEq; KP Minus; KId [97]; KP LBrk; KId [105]; KP RBrk; KP Star; KP LPar; KId [98]; KP Plus; KId [99]; KP RPar; KP LtLt; KNum [50]; KP EqEq; KId [100]; KP Quest; KId [120]; KP PEq; KId [121]; KP Colon; KP Minus; KP LPar; KType [84]; KP RPar; KId [122];
                 KP Comma; KId [102]; KP LPar; KId [113]; KP Comma; KP Bang; KId [114]; KP Dot; KId [115]; KP RPar] /\
  parse_expr (text sample ++ [KP Semi]) = Ok sample [KP Semi] /\ gr Taken GExpr (text sample) sample.
Proof.
  split; [reflexivity|]. split; [not_goes|]. split; [vm_compute; reflexivity|]. split; [vm_compute; reflexivity|]. apply (text_grammar sample). reflexivity.
Qed.
