From Verif Require Import Base NodeModel ParseModel ParseSpec ParseProofs.
From Coq Require Import ZifyBool ZifyNat.
Local Notation length := List.length.

(** ** What parses to what *)
Definition P (g : fn) (ts : list tok) (e : sx) (rest : list tok) : Prop := exists n, forall f, (n <= f)%nat -> parse f g ts = Ok e rest.
Definition operand (k : nat) : fn := match k with O => PCast | S k => PBin k end.
(** one step with any fuel *)
Ltac step0 := let f := fresh "f" in intros f ?; destruct f as [|f]; [exfalso; cbn in *; lia|]; rewrite parse_S; cbv zeta; cbn [app].
Ltac use H := first [rewrite H by lia]; cbn [bind skip is_rpar is_rbrk is_colon is_comma is_lpar].

Lemma P_post_loop_stop e rest : stops GPost rest -> P (PPostLoop e) rest e rest.
Proof.
  intros ST. exists 1%nat. step0. destruct rest as [|t rest]; [reflexivity|]. destruct t as [p| | | | | | | | | | | | |]; try reflexivity. cbn in ST. destruct p; try reflexivity; exfalso; apply ST; reflexivity.
Qed.
Lemma P_bin_loop_stop k e rest : stops (GBin k) rest -> P (PBinLoop k e) rest e rest.
Proof.
  intros ST. exists 1%nat. step0. destruct rest as [|t rest]; [reflexivity|]. destruct t as [p| | | | | | | | | | | | |]; try reflexivity. cbn in ST. destruct (binary k p) eqn:B; [|reflexivity]. exfalso. apply ST. right. exists k, x. split; [lia|now apply infix_binary].
Qed.
Lemma P_bin k ts a r e rest : P (operand k) ts a r -> P (PBinLoop k a) r e rest -> P (PBin k) ts e rest.
Proof. intros [n H] [m K]. exists (S (n + m)). step0. fold (operand k). use H. use K. reflexivity. Qed.
Lemma P_bin_loop k p o a ts b r e rest : infix k p o -> P (operand k) ts b r -> P (PBinLoop k (XBin o a b)) r e rest -> P (PBinLoop k a) (KP p :: ts) e rest.
Proof. intros I%infix_binary [n H] [m K]. exists (S (n + m)). step0. rewrite I. fold (operand k). use H. use K. reflexivity. Qed.
Lemma P_assign0 ts e rest : P PCond ts e rest -> stops GAssign rest -> P PAssign ts e rest.
Proof.
  intros [n H] ST. exists (S n). step0. use H. destruct rest as [|t rest]; [reflexivity|]. destruct t as [p| | | | | | | | | | | | |]; try reflexivity. cbn in ST. destruct (assign_op p) eqn:B; [|reflexivity]. exfalso. apply ST. do 3 right. eexists. apply assign_table. exact B.
Qed.
Lemma P_assign ts a p o ts2 b rest : P PCond ts a (KP p :: ts2) -> In (p, o) assignments -> P PAssign ts2 b rest -> P PAssign ts (XAssign o a b) rest.
Proof. intros [n H] I%assign_table [m K]. exists (S (n + m)). step0. use H. rewrite I. use K. reflexivity. Qed.
Lemma P_expr0 ts e rest : P PAssign ts e rest -> stops GExpr rest -> P PExpr ts e rest.
Proof.
  intros [n H] ST. exists (S n). step0. use H. destruct rest as [|t rest]; [reflexivity|]. destruct t as [p| | | | | | | | | | | | |]; try reflexivity. cbn in ST. destruct p; try reflexivity. exfalso. apply ST. tauto.
Qed.
Lemma P_comma ts a ts2 b rest : P PAssign ts a (KP Comma :: ts2) -> P PExpr ts2 b rest -> P PExpr ts (XComma a b) rest.
Proof. intros [n H] [m K]. exists (S (n + m)). step0. use H. use K. reflexivity. Qed.
Lemma P_cond0 ts e rest : P (PBin 9) ts e rest -> stops GCond rest -> P PCond ts e rest.
Proof.
  intros [n H] ST. exists (S n). step0. use H. destruct rest as [|t rest]; [reflexivity|]. destruct t as [p| | | | | | | | | | | | |]; try reflexivity. cbn in ST. destruct p; try reflexivity. exfalso. apply ST. tauto.
Qed.

(** ** First tokens *)
Definition opens (p : punct) : bool := match p with Plus | Minus | Amp | Star | Bang | Tilde | PlusPlus | MinusMinus | AmpAmp => true | _ => false end.
Definition begins (ts : list tok) : bool :=
  match ts with
  | KP LPar :: t :: _ => match t with KP LBrace => false | _ => true end
  | KP p :: _ => opens p
  | KType _ :: _ | KBrace _ :: _ | KDefault :: _ | KW _ :: _ | [] => false
  | _ :: _ => true
  end.
Definition no_type (ts : list tok) : bool := match ts with KP LPar :: KType _ :: _ => false | KP p :: _ => match p with LPar => true | p => opens p end | _ => true end.
Definition plain (ts : list tok) : bool := match ts with KP LPar :: KType _ :: _ => false | KP LPar :: _ :: _ => true | KP _ :: _ => false | _ => true end.
Lemma begins_app ts r : begins ts = true -> begins (ts ++ r) = true.
Proof. destruct ts as [|[[]| | | | | | | | | | | | |] [|t ts]]; cbn; try discriminate; auto. Qed.
Lemma no_type_app ts r : begins ts = true -> no_type ts = true -> no_type (ts ++ r) = true.
Proof. destruct ts as [|[[]| | | | | | | | | | | | |] [|t ts]]; cbn; try discriminate; auto. Qed.
Lemma plain_app ts r : begins ts = true -> plain ts = true -> plain (ts ++ r) = true.
Proof. destruct ts as [|[[]| | | | | | | | | | | | |] [|t ts]]; cbn; try discriminate; auto. Qed.
Scheme gr_mut := Minimality for gr Sort Prop with arguments_mut := Minimality for arguments Sort Prop with assocs_mut := Minimality for assocs Sort Prop.
Combined Scheme gr_arguments_assocs from gr_mut, arguments_mut, assocs_mut.
Ltac rk_out := exfalso; match goal with H : (_ <= _)%nat |- _ => clear - H; lia end.
Lemma plain_no_type ts : begins ts = true -> plain ts = true -> no_type ts = true.
Proof. destruct ts as [|[[]| | | | | | | | | | | | |] [|[] ts]]; cbn; try discriminate; auto. Qed.
Lemma first_tokens :
  (forall g ts e, gr Taken g ts e -> begins ts = true /\ ((rank g <= 2)%nat -> no_type ts = true \/ literal ts) /\ ((rank g <= 1)%nat -> plain ts = true)) /\
  (forall us l, arguments Taken us l -> begins us = true) /\ (forall us l, assocs Taken us l -> True).
Proof.
  assert (W : forall g ts, begins ts = true -> plain ts = true -> begins ts = true /\ ((rank g <= 2)%nat -> no_type ts = true \/ literal ts) /\ ((rank g <= 1)%nat -> plain ts = true)) by (intros g ts B Q; repeat split; intros; auto using plain_no_type).
  assert (W' : forall g ts, begins ts = true -> (3 <= rank g)%nat -> begins ts = true /\ ((rank g <= 2)%nat -> no_type ts = true \/ literal ts) /\ ((rank g <= 1)%nat -> plain ts = true)) by (intros g ts B Q; repeat split; intros; auto; exfalso; lia).
  assert (W1 : forall g ts, (2 <= rank g)%nat -> begins ts = true -> no_type ts = true \/ literal ts -> begins ts = true /\ ((rank g <= 2)%nat -> no_type ts = true \/ literal ts) /\ ((rank g <= 1)%nat -> plain ts = true)) by (intros g ts L B Q; repeat split; intros; auto; exfalso; lia).
  apply gr_arguments_assocs; intros; try discriminate; try exact I;
    repeat match goal with H : begins _ = true /\ _ |- _ => destruct H as (? & ? & ?) end;
    try solve [apply W; reflexivity];
    try solve [apply W'; [first [assumption|now apply begins_app|reflexivity]|cbn; lia]];
    try solve [apply W; [now apply begins_app|apply plain_app; [assumption|match goal with H : _ -> plain _ = true |- _ => apply H; cbn; lia end]]];
    try solve [apply W1; [cbn; lia|reflexivity|left; reflexivity]].
  - destruct ts as [|t ts]; [discriminate|]. assert (forall n, t <> KType n) by (destruct t; cbn in *; congruence). assert (t <> KP LBrace) by (destruct t as [[]| | | | | | | | | | | | |]; cbn in *; congruence).
    apply W; cbn [app begins no_type plain]; destruct t as [[]| | | | | | | | | | | | |]; try reflexivity; exfalso; first [now apply H4 | now eapply H3 | congruence].
  - exfalso; auto.
  - repeat split; intros; auto.
  - apply W1; [cbn; lia|assumption|apply H1; cbn; lia].
  - apply W1; [cbn; lia|reflexivity|right; now exists t, i].
  - cbn in H. repeat (destruct H as [H|H]; [injection H as <- <-; apply W1; [cbn; lia|reflexivity|left; reflexivity]|]). destruct H.
  - assumption.
  - auto using begins_app.
Qed.

(** ** The grammar and the parser *)
Lemma then_assoc a b c : then_ (then_ a b) c = then_ a (then_ b c).
Proof. induction a; try reflexivity. cbn [then_]. now rewrite IHa2. Qed.
Lemma stops_below k rest : stops (GBin k) rest -> stops (below k) rest.
Proof.
  destruct rest as [|[p| | | | | | | | | | | | |] rest]; try (destruct k; exact (fun x => x)). cbn. intros H G. apply H. destruct k as [|j]; cbn in G; [auto|]. destruct G as [G|(i & o & L & G)]; [auto|]. right. exists i, o. split; [lia|exact G].
Qed.
Lemma stops_bin_post k rest : stops (GBin k) rest -> stops GPost rest.
Proof. destruct rest as [|[p| | | | | | | | | | | | |] rest]; try exact (fun x => x). cbn. tauto. Qed.
Lemma stops_cond rest : stops GCond rest -> stops (GBin 9) rest.
Proof. destruct rest as [|[p| | | | | | | | | | | | |] rest]; try exact (fun x => x). cbn. intros H [G|(j & o & _ & G)]; apply H; eauto. Qed.
Lemma stops_assign rest : stops GAssign rest -> stops GCond rest.
Proof. destruct rest as [|[p| | | | | | | | | | | | |] rest]; try exact (fun x => x). cbn. tauto. Qed.
Lemma stops_expr rest : stops GExpr rest -> stops GAssign rest.
Proof. destruct rest as [|[p| | | | | | | | | | | | |] rest]; try exact (fun x => x). cbn. tauto. Qed.
Lemma not_infix p : (forall k, binary k p = None) -> ~ exists j o, infix j p o.
Proof. intros H (j & o & I%infix_binary). now rewrite H in I. Qed.
Lemma not_assign p : assign_op p = None -> ~ exists o, In (p, o) assignments.
Proof. intros H (o & I%assign_table). now rewrite H in I. Qed.
Ltac no_bin := apply not_infix; let k := fresh in intros k; do 10 (destruct k as [|k]; [reflexivity|]); destruct k; reflexivity.
Ltac not_goes := cbn [stops goes_on]; intros G; repeat match type of G with _ \/ _ => destruct G as [G|G] end; try discriminate G; revert G; first [ no_bin | apply not_assign; reflexivity ].
Lemma stops_rpar r : stops GExpr (KP RPar :: r). Proof. not_goes. Qed.
Lemma stops_rbrk r : stops GExpr (KP RBrk :: r). Proof. not_goes. Qed.
Lemma stops_colon r : stops GExpr (KP Colon :: r). Proof. not_goes. Qed.
Lemma stops_comma r : stops GAssign (KP Comma :: r). Proof. not_goes. Qed.
Lemma stops_quest r : stops (GBin 9) (KP Quest :: r).
Proof. cbn. intros [G|(j & o & _ & G)]; [discriminate|]. apply (not_infix Quest); [|now exists j, o]. intros k. do 10 (destruct k as [|k]; [reflexivity|]). destruct k; reflexivity. Qed.
Lemma stops_infix k p o r : infix k p o -> stops (below k) (KP p :: r).
Proof.
  intros I. assert (T : is_tail p = false). { apply infix_binary in I. destruct p; try reflexivity; do 10 (destruct k as [|k]; [discriminate I|]); destruct k; discriminate I. }
  destruct k as [|k]; cbn; [congruence|]. intros [G|(j & o' & L & J)]; [congruence|]. pose proof (infix_other _ _ _ _ _ I J). lia.
Qed.
Lemma stops_assignment p o r : In (p, o) assignments -> stops GCond (KP p :: r).
Proof.
  intros I. cbn in I. repeat (destruct I as [I|I]; [injection I as <- <-; not_goes|]). destruct I.
Qed.

Definition claim (g : nt) (ts : list tok) (e : sx) : Prop :=
  exists e', norm e' = norm e /\
  match g with
  | GPrim => forall rest, P PPrim (ts ++ rest) e' rest
  | GPost => forall rest e2 r2, P (PPostLoop e') rest e2 r2 -> P PPost (ts ++ rest) e2 r2
  | GUnary => forall rest, stops GUnary rest -> P PUnary (ts ++ rest) e' rest
  | GCast => forall rest, stops GCast rest -> P PCast (ts ++ rest) e' rest
  | GBin k => forall rest e2 r2, stops (below k) rest -> P (PBinLoop k e') rest e2 r2 -> P (PBin k) (ts ++ rest) e2 r2
  | GCond => forall rest, stops GCond rest -> P PCond (ts ++ rest) e' rest
  | GAssign => forall rest, stops GAssign rest -> P PAssign (ts ++ rest) e' rest
  | GExpr => (forall rest, stops GExpr rest -> P PExpr (ts ++ rest) e' rest) /\
             (forall e2, exists e'', norm e'' = then_ (norm e) (norm e2) /\ forall ts2 rest, P PExpr ts2 e2 rest -> P PExpr (ts ++ KP Comma :: ts2) e'' rest)
  end.
Lemma claim_below k ts e : claim (below k) ts e -> exists e', norm e' = norm e /\ forall rest, stops (below k) rest -> P (operand k) (ts ++ rest) e' rest.
Proof.
  destruct k as [|k]; intros (e' & N & C); exists e'; (split; [exact N|]); [exact C|]. cbn [below] in *. intros rest ST. apply C; [now apply stops_below|now apply P_bin_loop_stop].
Qed.
Lemma claim_bin9 ts e : claim (GBin 9) ts e -> exists e', norm e' = norm e /\ forall rest, stops (GBin 9) rest -> P (PBin 9) (ts ++ rest) e' rest.
Proof. intros (e' & N & C). exists e'. split; [exact N|]. intros rest ST. apply C; [now apply stops_below|now apply P_bin_loop_stop]. Qed.
(* from unary up to conditional *)
Definition head_ok (ts : list tok) : Prop := no_type ts = true \/ exists t i r, ts = KP LPar :: KType t :: KP RPar :: KBrace i :: r.
Lemma head_app ts r : begins ts = true -> no_type ts = true \/ literal ts -> head_ok (ts ++ r).
Proof. intros B [H|(t & i & ->)]; [left; now apply no_type_app|right; now exists t, i, r]. Qed.
Lemma P_up_cast ts e rest : head_ok ts -> P PUnary ts e rest -> P PCast ts e rest.
Proof. intros [NT|(t & i & r & ->)] [n H]; exists (S n); step0; [|cbn [skip is_rpar]; apply H; lia]. destruct ts as [|[[]| | | | | | | | | | | | |] [|[] ts]]; first [discriminate NT | apply H; lia]. Qed.
Lemma P_up_bin k ts e rest : (k < 10)%nat -> stops (GBin k) rest -> P PCast ts e rest -> P (PBin k) ts e rest.
Proof.
  revert ts e rest. induction k as [|k IH]; intros ts e rest L ST H; (eapply P_bin; [|apply P_bin_loop_stop; exact ST]); [exact H|]. apply IH; [lia| |exact H]. exact (stops_below (S k) rest ST).
Qed.

Ltac norms := cbn [norm map fst snd]; congruence.
Lemma grammar_claims :
  (forall g ts e, gr Taken g ts e -> claim g ts e) /\
  (forall us l, arguments Taken us l -> exists l', map norm l' = map norm l /\ forall f rest,
     P (PArgs f []) (us ++ KP RPar :: rest) (XCall f l') rest /\
     forall a acc, P (PArgs f (a :: acc)) (KP Comma :: us ++ KP RPar :: rest) (XCall f (rev (a :: acc) ++ l')) rest) /\
  (forall us l, assocs Taken us l -> exists l', map (fun x => (fst x, norm (snd x))) l' = map (fun x => (fst x, norm (snd x))) l /\
     forall c acc rest, P (PAssocs c acc) (us ++ KP RPar :: rest) (XGeneric c (rev acc ++ l')) rest).
Proof.
  apply gr_arguments_assocs; unfold claim in *.
  - intros n. eexists; split; [reflexivity|]. intros rest. exists 1%nat. step0. reflexivity.
  - intros n. eexists; split; [reflexivity|]. intros rest. exists 1%nat. step0. reflexivity.
  - intros n. eexists; split; [reflexivity|]. intros rest. exists 1%nat. step0. reflexivity.
  - intros ts e G (e' & N & C & _). exists e'. split; [exact N|]. intros rest. destruct (C (KP RPar :: rest) (stops_rpar _)) as [n H]. exists (S n). step0.
    pose proof (proj1 (proj1 first_tokens _ _ _ G)) as B. rewrite <- app_assoc. cbn [app].
    destruct ts as [|t ts]; [discriminate B|]. cbn [app] in *. assert (t <> KP LBrace) by (destruct t as [[]| | | | | | | | | | | | |]; cbn in *; congruence).
    replace (match t with KP LBrace => Err | _ => bind (parse f PExpr (t :: ts ++ KP RPar :: rest)) (fun e ts => skip is_rpar ts (fun ts => Ok e ts)) end) with (bind (parse f PExpr (t :: ts ++ KP RPar :: rest)) (fun e ts => skip is_rpar ts (fun ts => Ok e ts))) by (destruct t as [[]| | | | | | | | | | | | |]; congruence).
    destruct t as [[]| | | | | | | | | | | | |]; try congruence; use H; reflexivity.
  - intros ts c us l G (c' & N & C) A (l' & M & D) _. exists (XGeneric c' l'). split; [norms|]. intros rest. destruct (D c' [] rest) as [m K].
    assert (ST : stops GAssign (us ++ KP RPar :: rest)) by (destruct A; cbn [app]; first [apply stops_expr, stops_rpar|apply stops_comma]).
    destruct (C _ ST) as [n H]. exists (S (n + m)). step0. cbn [skip is_lpar]. rewrite <- !app_assoc. cbn [app]. use H. use K. reflexivity.
  - intros t u. eexists; split; [reflexivity|]. intros rest. exists 1%nat. step0. reflexivity.
  - intros t1 a t2 b t3 c _ (a' & N1 & C1) _ (b' & N2 & C2) _ (c' & N3 & C3). exists (XCas a' b' c'). split; [norms|]. intros rest.
    destruct (C3 (KP RPar :: rest) (stops_expr _ (stops_rpar _))) as [n3 H3]. destruct (C2 (KP Comma :: t3 ++ KP RPar :: rest) (stops_comma _)) as [n2 H2]. destruct (C1 (KP Comma :: t2 ++ KP Comma :: t3 ++ KP RPar :: rest) (stops_comma _)) as [n1 H1].
    exists (S (n1 + n2 + n3)). step0. cbn [skip is_lpar]. repeat (rewrite <- ?app_assoc; cbn [app]). use H1. use H2. use H3. reflexivity.
  - intros t1 a t2 b _ (a' & N1 & C1) _ (b' & N2 & C2). exists (XExch a' b'). split; [norms|]. intros rest.
    destruct (C2 (KP RPar :: rest) (stops_expr _ (stops_rpar _))) as [n2 H2]. destruct (C1 (KP Comma :: t2 ++ KP RPar :: rest) (stops_comma _)) as [n1 H1].
    exists (S (n1 + n2)). step0. cbn [skip is_lpar]. repeat (rewrite <- ?app_assoc; cbn [app]). use H1. use H2. reflexivity.
  - intros; discriminate.
  - intros; discriminate.
  - intros; discriminate.
  - intros; discriminate.
  - intros ? ? X; exfalso; auto.
  - (* post *) intros ts e G (e' & N & C). exists e'. split; [exact N|]. intros rest e2 r2 [m K]. destruct (C rest) as [n H]. exists (S (n + m)). step0.
    destruct (proj1 first_tokens _ _ _ G) as (B & _ & Q). pose proof (plain_app ts rest B (Q ltac:(cbn; lia))) as Q'. pose proof (begins_app ts rest B) as B'.
    assert (E : bind (parse f PPrim (ts ++ rest)) (fun e ts => parse f (PPostLoop e) ts) = Ok e2 r2) by (use H; use K; reflexivity).
    destruct (ts ++ rest) as [|[[]| | | | | | | | | | | | |] [|[] u]]; first [discriminate | exact E].
  - (* index *) intros t1 a t2 i _ (a' & N1 & C1) _ (i' & N2 & C2 & _). exists (XIndex a' i'). split; [norms|]. intros rest e2 r2 [m K]. rewrite <- app_assoc. cbn [app]. apply C1.
    destruct (C2 (KP RBrk :: rest) (stops_rbrk _)) as [n H]. exists (S (n + m)). step0. rewrite <- app_assoc. cbn [app]. use H. use K. reflexivity.
  - (* call0 *) intros ts e _ (e' & N & C). exists (XCall e' []). split; [norms|]. intros rest e2 r2 [m K]. rewrite <- app_assoc. cbn [app]. apply C. exists (S (S m)). step0. destruct f as [|f]; [lia|]. rewrite (parse_S f (PArgs e' [])). cbv zeta. cbn [bind rev]. rewrite K by lia. reflexivity.
  - (* call *) intros ts e us l _ (e' & N & C) A (l' & M & D). exists (XCall e' l'). split; [norms|]. intros rest e2 r2 [m K]. rewrite <- app_assoc. cbn [app]. apply C. destruct (proj1 (D e' rest)) as [n H]. exists (S (n + m)). step0. rewrite <- app_assoc. cbn [app]. use H. use K. reflexivity.
  - intros ts e m _ (e' & N & C). exists (XMem false e' m). split; [norms|]. intros rest e2 r2 [n K]. rewrite <- app_assoc. cbn [app]. apply C. exists (S n). step0. use K. reflexivity.
  - intros ts e m _ (e' & N & C). exists (XMem true e' m). split; [norms|]. intros rest e2 r2 [n K]. rewrite <- app_assoc. cbn [app]. apply C. exists (S n). step0. use K. reflexivity.
  - intros ts e _ (e' & N & C). exists (XPost true e'). split; [norms|]. intros rest e2 r2 [n K]. rewrite <- app_assoc. cbn [app]. apply C. exists (S n). step0. use K. reflexivity.
  - intros ts e _ (e' & N & C). exists (XPost false e'). split; [norms|]. intros rest e2 r2 [n K]. rewrite <- app_assoc. cbn [app]. apply C. exists (S n). step0. use K. reflexivity.
  - (* unary *) intros ts e G (e' & N & C). exists e'. split; [exact N|]. intros rest ST. destruct (C rest e' rest (P_post_loop_stop e' rest ST)) as [n H]. exists (S n). step0.
    destruct (proj1 first_tokens _ _ _ G) as (B & _ & Q). pose proof (plain_app ts rest B (Q ltac:(cbn; lia))) as Q'. pose proof (begins_app ts rest B) as B'. 
    assert (E : parse f PPost (ts ++ rest) = Ok e' rest) by (use H; reflexivity).
    destruct (ts ++ rest) as [|[[]| | | | | | | | | | | | |] [|t u]]; first [discriminate | exact E].
  - intros t i _. eexists; split; [reflexivity|]. intros rest ST. exists 2%nat. step0. cbn [prefix]. destruct f as [|f]; [lia|]. rewrite (parse_S f PPost). reflexivity.
  - intros ts e _ (e' & N & C). exists (XUn UInc e'). split; [norms|]. intros rest ST. destruct (C rest ST) as [n H]. exists (S n). step0. cbn [prefix]. use H. reflexivity.
  - intros ts e _ (e' & N & C). exists (XUn UDec e'). split; [norms|]. intros rest ST. destruct (C rest ST) as [n H]. exists (S n). step0. cbn [prefix]. use H. reflexivity.
  - intros p u ts e I _ (e' & N & C). exists (XUn u e'). split; [norms|]. intros rest ST. destruct (C rest ST) as [n H]. exists (S n). step0. cbn in I. repeat (destruct I as [I|I]; [injection I as <- <-; cbn [prefix]; use H; reflexivity|]). destruct I.
  - (* sizeof *) intros ts e NL G (e' & N & C). exists (XUn USizeof e'). split; [norms|]. intros rest ST. destruct (C rest ST) as [n H]. destruct (P_post_loop_stop (XUn USizeof e') rest ST) as [m K]. exists (S (S (S (n + m)))). step0.
    destruct f as [|f]; [lia|]. rewrite (parse_S f PPost). cbv zeta. destruct f as [|f]; [lia|]. rewrite (parse_S f PPrim). cbv zeta.
    destruct (proj1 first_tokens _ _ _ G) as (B & Q & _). assert (Q' : no_type (ts ++ rest) = true) by (apply no_type_app; [exact B|]; destruct Q as [Q|Q]; [cbn; lia|exact Q|exfalso; now apply NL]). pose proof (begins_app ts rest B) as B'.
    assert (E : bind (bind (parse f PUnary (ts ++ rest)) (fun e ts => Ok (XUn USizeof e) ts)) (fun e ts => parse (S f) (PPostLoop e) ts) = Ok (XUn USizeof e') rest) by (use H; use K; reflexivity).
    destruct (ts ++ rest) as [|[[]| | | | | | | | | | | | |] [|[] u]]; first [discriminate | exact E].
  - intros t. eexists; split; [reflexivity|]. intros rest ST. destruct (P_post_loop_stop (XAtom (ASizeT t)) rest ST) as [m K]. exists (S (S (S m))). step0. destruct f as [|f]; [lia|]. rewrite (parse_S f PPost). cbv zeta. destruct f as [|f]; [lia|]. rewrite (parse_S f PPrim). cbv zeta. cbn [skip is_rpar bind]. apply K. lia.
  - intros ts e NL G (e' & N & C). exists (XUn UAlignof e'). split; [norms|]. intros rest ST. destruct (C rest ST) as [n H]. destruct (P_post_loop_stop (XUn UAlignof e') rest ST) as [m K]. exists (S (S (S (n + m)))). step0.
    destruct f as [|f]; [lia|]. rewrite (parse_S f PPost). cbv zeta. destruct f as [|f]; [lia|]. rewrite (parse_S f PPrim). cbv zeta.
    destruct (proj1 first_tokens _ _ _ G) as (B & Q & _). assert (Q' : no_type (ts ++ rest) = true) by (apply no_type_app; [exact B|]; destruct Q as [Q|Q]; [cbn; lia|exact Q|exfalso; now apply NL]). pose proof (begins_app ts rest B) as B'.
    assert (E : bind (bind (parse f PUnary (ts ++ rest)) (fun e ts => Ok (XUn UAlignof e) ts)) (fun e ts => parse (S f) (PPostLoop e) ts) = Ok (XUn UAlignof e') rest) by (use H; use K; reflexivity).
    destruct (ts ++ rest) as [|[[]| | | | | | | | | | | | |] [|[] u]]; first [discriminate | exact E].
  - intros t. eexists; split; [reflexivity|]. intros rest ST. destruct (P_post_loop_stop (XAtom (AAlignT t)) rest ST) as [m K]. exists (S (S (S m))). step0. destruct f as [|f]; [lia|]. rewrite (parse_S f PPost). cbv zeta. destruct f as [|f]; [lia|]. rewrite (parse_S f PPrim). cbv zeta. cbn [skip is_rpar bind]. apply K. lia.
  - intros n. eexists; split; [reflexivity|]. intros rest ST. exists 1%nat. step0. reflexivity.
  - (* cast0 *) intros ts e G (e' & N & C). exists e'. split; [exact N|]. intros rest ST. apply P_up_cast; [|now apply C]. destruct (proj1 first_tokens _ _ _ G) as (B & Q & _). apply head_app; [exact B|apply Q; cbn; lia].
  - (* cast *) intros t ts e G (e' & N & C). exists (XCast t e'). split; [norms|]. intros rest ST. destruct (C rest ST) as [n H]. exists (S n). step0. cbn [skip is_rpar].
    pose proof (begins_app ts rest (proj1 (proj1 first_tokens _ _ _ G))) as B. specialize (H f ltac:(lia)). destruct (ts ++ rest) as [|[] u]; first [discriminate B | (rewrite H; reflexivity)].
  - (* operand *) intros k ts e L G C. apply (claim_below k) in C. destruct C as (e' & N & C). exists e'. split; [exact N|]. intros rest e2 r2 ST K. eapply P_bin; [apply C; exact ST|exact K].
  - (* binary *) intros k p o t1 a t2 b I _ (a' & N1 & C1) _ C2. apply (claim_below k) in C2. destruct C2 as (b' & N2 & C2). exists (XBin o a' b'). split; [norms|]. intros rest e2 r2 ST K. rewrite <- app_assoc. cbn [app]. apply C1; [eapply stops_infix; exact I|]. eapply P_bin_loop; [exact I|apply C2; exact ST|exact K].
  - intros ts e _ C. apply claim_bin9 in C. destruct C as (e' & N & C). exists e'. split; [exact N|]. intros rest ST. apply P_cond0; [|exact ST]. apply C. now apply stops_cond.
  - intros t1 c t2 a t3 b _ C1 G2 (a' & N2 & C2 & _) _ (b' & N3 & C3). apply claim_bin9 in C1. destruct C1 as (c' & N1 & C1). exists (XCond c' a' b'). split; [norms|]. intros rest ST.
    destruct (C3 rest ST) as [n3 H3]. destruct (C2 (KP Colon :: t3 ++ rest) (stops_colon _)) as [n2 H2]. destruct (C1 (KP Quest :: t2 ++ KP Colon :: t3 ++ rest) (stops_quest _)) as [n1 H1].
    exists (S (n1 + n2 + n3)). step0. repeat (rewrite <- ?app_assoc; cbn [app]). use H1.
    pose proof (begins_app t2 (KP Colon :: t3 ++ rest) (proj1 (proj1 first_tokens _ _ _ G2))) as B. specialize (H2 f ltac:(lia)). specialize (H3 f ltac:(lia)).
    destruct (t2 ++ KP Colon :: t3 ++ rest) as [|[[]| | | | | | | | | | | | |] u]; first [discriminate B | (rewrite H2; cbn [bind skip is_colon]; rewrite H3; reflexivity)].
  - intros t1 c t3 b _ C1 _ (b' & N3 & C3). apply claim_bin9 in C1. destruct C1 as (c' & N1 & C1). exists (XElvis c' b'). split; [norms|]. intros rest ST.
    destruct (C3 rest ST) as [n3 H3]. destruct (C1 (KP Quest :: KP Colon :: t3 ++ rest) (stops_quest _)) as [n1 H1].
    exists (S (n1 + n3)). step0. repeat (rewrite <- ?app_assoc; cbn [app]). use H1. use H3. reflexivity.
  - intros ts e _ (e' & N & C). exists e'. split; [exact N|]. intros rest ST. apply P_assign0; [|exact ST]. apply C. now apply stops_assign.
  - (* assign *) intros t1 l p o t2 r G (l' & N1 & C1) I _ (r' & N2 & C2). exists (XAssign o l' r'). split; [norms|]. intros rest ST. rewrite <- app_assoc. cbn [app].
    pose proof (stops_assignment p o (t2 ++ rest) I) as SA. eapply P_assign; [|exact I|apply C2; exact ST]. apply P_cond0; [|exact SA]. apply P_up_bin; [lia|now apply stops_cond|].
    destruct (proj1 first_tokens _ _ _ G) as (B & Q & _). apply P_up_cast; [apply head_app; [exact B|apply Q; cbn; lia]|]. apply C1. exact (stops_bin_post 9 _ (stops_cond _ SA)).
  - intros; discriminate.
  - (* expr *) intros ts e _ (e' & N & C). exists e'. split; [exact N|]. split; [intros rest ST; apply P_expr0; [apply C; now apply stops_expr|exact ST]|].
    intros e2. exists (XComma e' e2). split; [cbn [norm]; now rewrite N|]. intros ts2 rest K. eapply P_comma; [apply C; apply stops_comma|exact K].
  - (* comma *) intros t1 a t2 b _ (a' & N1 & _ & B1) _ (b' & N2 & C2). destruct (B1 b') as (e' & N' & H'). exists e'. split; [cbn [norm]; congruence|]. split.
    + intros rest ST. rewrite <- app_assoc. cbn [app]. apply H'. apply P_expr0; [apply C2; now apply stops_expr|exact ST].
    + intros e2. destruct (B1 (XComma b' e2)) as (e'' & N'' & H''). exists e''. split; [rewrite N''; cbn [norm]; rewrite then_assoc; congruence|]. intros ts2 rest K. rewrite <- app_assoc. cbn [app]. apply H''. eapply P_comma; [apply C2; apply stops_comma|exact K].
  - (* one argument *) intros ts e G (e' & N & C). exists [e']. split; [norms|]. intros fe rest. destruct (C (KP RPar :: rest) (stops_expr _ (stops_rpar _))) as [n H]. pose proof (begins_app ts (KP RPar :: rest) (proj1 (proj1 first_tokens _ _ _ G))) as B. split.
    + exists (S (S n)). step0. assert (E : bind (parse f PAssign (ts ++ KP RPar :: rest)) (fun a ts => parse f (PArgs fe [a]) ts) = Ok (XCall fe [e']) rest). { use H. destruct f as [|f]; [lia|]. rewrite (parse_S f). reflexivity. }
      destruct (ts ++ KP RPar :: rest) as [|[[]| | | | | | | | | | | | |] u]; first [discriminate B | exact E].
    + intros a acc. exists (S (S n)). step0. cbn [skip is_comma]. use H. destruct f as [|f]; [lia|]. rewrite (parse_S f). cbv zeta. cbn [rev]. rewrite <- !app_assoc. reflexivity.
  - intros ts e us l G (e' & N & C) A (l' & M & D). exists (e' :: l'). split; [norms|]. intros fe rest. destruct (C (KP Comma :: us ++ KP RPar :: rest) (stops_comma _)) as [n H]. pose proof (begins_app ts (KP Comma :: us ++ KP RPar :: rest) (proj1 (proj1 first_tokens _ _ _ G))) as B. destruct (D fe rest) as [_ D']. split.
    + destruct (D' e' []) as [m K]. exists (S (n + m)). step0. rewrite <- app_assoc. cbn [app]. assert (E : bind (parse f PAssign (ts ++ KP Comma :: us ++ KP RPar :: rest)) (fun a ts => parse f (PArgs fe [a]) ts) = Ok (XCall fe (e' :: l')) rest) by (use H; use K; reflexivity).
      destruct (ts ++ KP Comma :: us ++ KP RPar :: rest) as [|[[]| | | | | | | | | | | | |] u]; first [discriminate B | exact E].
    + intros a acc. destruct (D' e' (a :: acc)) as [m K]. exists (S (n + m)). step0. cbn [skip is_comma]. rewrite <- app_assoc. cbn [app]. use H. use K. cbn [rev]. rewrite <- !app_assoc. reflexivity.
  - exists []. split; [reflexivity|]. intros c acc rest. exists 1%nat. step0. now rewrite app_nil_r.
  - intros t ts e us l G (e' & N & C) A (l' & M & D). exists ((Some t, e') :: l'). split; [norms|]. intros c acc rest. destruct (D c ((Some t, e') :: acc) rest) as [m K].
    assert (ST : stops GAssign (us ++ KP RPar :: rest)) by (destruct A; cbn [app]; first [apply stops_expr, stops_rpar|apply stops_comma]).
    destruct (C _ ST) as [n H]. exists (S (n + m)). step0. cbn [skip is_comma is_colon]. rewrite <- app_assoc. use H. use K. cbn [rev]. rewrite <- app_assoc. reflexivity.
  - intros ts e us l G (e' & N & C) A (l' & M & D). exists ((None, e') :: l'). split; [norms|]. intros c acc rest. destruct (D c ((None, e') :: acc) rest) as [m K].
    assert (ST : stops GAssign (us ++ KP RPar :: rest)) by (destruct A; cbn [app]; first [apply stops_expr, stops_rpar|apply stops_comma]).
    destruct (C _ ST) as [n H]. exists (S (n + m)). step0. cbn [skip is_comma is_colon]. rewrite <- app_assoc. use H. use K. cbn [rev]. rewrite <- app_assoc. reflexivity.
Qed.
