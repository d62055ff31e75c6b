From Verif Require Import Base NodeModel ParseModel ParseSpec ParseProofs ParseGrammar ParseSound ParsePrint BlockModel BlockSpec.
From Coq Require Import ZifyBool ZifyNat.
Local Notation length := List.length.

(** ** Expressions *)
Definition fuel_for (ts : list tok) : nat := (20 * (length ts + 1))%nat.
Lemma P_fuel g ts e rest : fine g -> (rk g <= 20)%nat -> P g ts e rest -> parse (fuel_for ts) g ts = Ok e rest.
Proof.
  intros F R [n H]. pose proof (parse_good (fuel_for ts) g ts F ltac:(unfold fuel_for; lia)) as G.
  specialize (H (n + fuel_for ts)%nat ltac:(lia)). destruct (parse (fuel_for ts) g ts) as [| |e' r'] eqn:E; [destruct G| |]; apply (parse_more _ (n + fuel_for ts)) in E; try discriminate; try lia; congruence.
Qed.
Lemma p_expr_gr ts e : gr Taken GExpr ts e -> exists e', norm e' = norm e /\ forall rest, stops GExpr rest -> p_expr (ts ++ rest) = BOk e' rest.
Proof. intros G. destruct (proj1 grammar_claims _ _ _ G) as (e' & N & C & _). exists e'. split; [exact N|]. intros rest ST. unfold p_expr, parse_expr. fold (fuel_for (ts ++ rest)). rewrite (P_fuel PExpr _ _ _ I ltac:(cbn; lia) (C rest ST)). reflexivity. Qed.
Lemma p_const_gr ts e : gr Taken GCond ts e -> exists e', norm e' = norm e /\ forall rest, stops GCond rest -> p_const (ts ++ rest) = BOk e' rest.
Proof. intros G. destruct (proj1 grammar_claims _ _ _ G) as (e' & N & C). exists e'. split; [exact N|]. intros rest ST. unfold p_const. fold (fuel_for (ts ++ rest)). rewrite (P_fuel PCond _ _ _ I ltac:(cbn; lia) (C rest ST)). reflexivity. Qed.
Lemma p_assign_gr ts e : gr Taken GAssign ts e -> exists e', norm e' = norm e /\ forall rest, stops GAssign rest -> p_assign (ts ++ rest) = BOk e' rest.
Proof. intros G. destruct (proj1 grammar_claims _ _ _ G) as (e' & N & C). exists e'. split; [exact N|]. intros rest ST. unfold p_assign. fold (fuel_for (ts ++ rest)). rewrite (P_fuel PAssign _ _ _ I ltac:(cbn; lia) (C rest ST)). reflexivity. Qed.
Lemma stops_semi r : stops GExpr (KP Semi :: r). Proof. not_goes. Qed.
Lemma stops_ellipsis r : stops GExpr (KP Ellipsis :: r). Proof. not_goes. Qed.
Lemma gr_begins g ts e : gr Taken g ts e -> begins ts = true.
Proof. intros G. apply (proj1 first_tokens) in G. tauto. Qed.
(** an expression does not start with a label *)
Lemma not_label ts e rest l r : gr Taken GExpr ts e -> stops GExpr rest -> ts ++ rest = KId l :: KP Colon :: r -> hd_error rest <> Some (KP Colon) -> False.
Proof.
  intros G ST E HD. destruct (p_expr_gr ts e G) as (e' & _ & PE). specialize (PE _ ST). rewrite E in PE.
  destruct (p_expr_gr [KId l] (XAtom (AId l))) as (e2 & _ & PE2).
  { apply (gr_up Taken 16 GPrim GExpr); [reflexivity|exact I|exact I|constructor]. }
  specialize (PE2 _ (stops_colon r)). cbn [app] in PE2. rewrite PE2 in PE. injection PE as _ <-. now apply HD.
Qed.

(** ** The parser comes to an end *)
Definition gd {A} (L : nat) (r : bres A) : Prop := match r with BFuel => False | BErr => True | BOk _ rest => (length rest < L)%nat end.
Lemma gd_bind {A B} L1 L (r : bres A) (k : A -> list tok -> bres B) : gd L1 r -> (forall a ts, (length ts < L1)%nat -> gd L (k a ts)) -> gd L (bbind r k).
Proof. destruct r; cbn; auto. Qed.
Lemma gd_skip {A} L p ts (k : list tok -> bres A) : (forall ts', (length ts' < length ts)%nat -> gd L (k ts')) -> gd L (bskip p ts k).
Proof. destruct ts as [|t ts]; cbn; auto. intros H. destruct (p t); cbn; auto. Qed.
Lemma gd_parse g ts : fine g -> (rk g <= 20)%nat -> eats g = 1%nat -> gd (length ts) (lift (parse (fuel_for ts) g ts)).
Proof. intros F R E. pose proof (parse_good (fuel_for ts) g ts F ltac:(unfold fuel_for; lia)) as G. destruct (parse (fuel_for ts) g ts); cbn in *; auto. rewrite E in G. lia. Qed.
Lemma gd_expr ts : gd (length ts) (p_expr ts). Proof. apply gd_parse; cbn; auto; lia. Qed.
Lemma gd_const ts : gd (length ts) (p_const ts). Proof. apply gd_parse; cbn; auto; lia. Qed.
Lemma gd_assign ts : gd (length ts) (p_assign ts). Proof. apply gd_parse; cbn; auto; lia. Qed.
Lemma stars_len ts : (length (snd (p_stars ts)) <= length ts)%nat.
Proof. induction ts as [|[[]| | | | | | | | | | | | |] ts IH]; cbn [p_stars snd]; try reflexivity. destruct (p_stars ts); cbn in *; lia. Qed.
Lemma gd_init ts : gd (length ts) (p_init ts).
Proof. unfold p_init. destruct ts as [|[] ts]; try (eapply gd_bind; [apply gd_assign|cbn; auto]); cbn; lia. Qed.
Lemma gd_declarator ts : gd (length ts) (p_declarator ts).
Proof.
  unfold p_declarator. pose proof (stars_len ts) as L. destruct (p_stars ts) as [n us]. cbn [snd] in L. destruct us as [|[] us]; cbn [gd]; auto. cbn [length] in L.
  destruct us as [|[[]| | | | | | | | | | | | |] us]; cbn [gd length] in *; try lia. eapply gd_bind; [apply gd_init|]. cbn. intros. lia.
Qed.
Lemma gd_decls f : forall b ts, (length ts < f)%nat -> gd (length ts) (p_decls f b ts).
Proof.
  induction f as [|f IH]; intros b ts H; [lia|]. cbn [p_decls].
  assert (ONE : forall us, (length us <= length ts)%nat -> gd (length ts) (bbind (p_declarator us) (fun d ts => bbind (p_decls f false ts) (fun l ts => BOk (d :: l) ts)))).
  { intros us L. eapply gd_bind; [apply gd_declarator|]. intros d vs Lv. eapply gd_bind; [apply IH; lia|]. cbn. intros. lia. }
  assert (G : gd (length ts) (if b then bbind (p_declarator ts) (fun d ts => bbind (p_decls f false ts) (fun l ts => BOk (d :: l) ts)) else bskip is_comma ts (fun us => bbind (p_declarator us) (fun d ts => bbind (p_decls f false ts) (fun l ts => BOk (d :: l) ts))))).
  { destruct b; [now apply ONE|]. apply gd_skip. intros us L. apply ONE. lia. }
  destruct ts as [|[[]| | | | | | | | | | | | |] us]; try exact G. cbn. lia.
Qed.
Lemma gd_declaration ts : gd (length ts) (p_declaration ts). Proof. apply gd_decls. lia. Qed.
Lemma gd_weak {A} L L' (r : bres A) : gd L r -> (L <= L')%nat -> gd L' r. Proof. destruct r; cbn; auto. lia. Qed.
Lemma gd_expr_stmt ts : gd (length ts) (p_expr_stmt ts).
Proof.
  assert (G : gd (length ts) (bbind (p_expr ts) (fun e ts => bskip is_semi ts (fun ts => BOk (YExpr e) ts)))) by (eapply gd_bind; [apply gd_expr|]; intros; apply gd_skip; cbn; intros; lia).
  unfold p_expr_stmt. destruct ts as [|[[]| | | | | | | | | | | | |] us]; try exact G. cbn. lia.
Qed.
Lemma gd_for_init ts : gd (length ts) (p_for_init ts).
Proof.
  assert (G : gd (length ts) (bbind (p_expr_stmt ts) (fun s ts => BOk (match s with YExpr e => FExpr e | _ => FNone end) ts))) by (eapply gd_bind; [apply gd_expr_stmt|]; cbn; auto).
  unfold p_for_init. destruct ts as [|[[]| | | | | | | | | | | | |] us]; try exact G. eapply gd_bind; [apply gd_declaration|]. cbn. intros. lia.
Qed.
Lemma gd_opt p ts : gd (S (length ts)) (p_opt p ts).
Proof.
  assert (G : gd (S (length ts)) (bbind (p_expr ts) (fun e ts => BOk (Some e) ts))) by (eapply gd_bind; [apply gd_expr|]; cbn; intros; lia).
  unfold p_opt. destruct ts as [|t us]; [exact G|]. destruct (p t); [cbn; lia|exact G].
Qed.
Lemma gd_paren ts : gd (length ts) (p_paren ts).
Proof. apply gd_skip. intros us L. eapply gd_bind; [apply gd_expr|]. intros e vs L2. apply gd_skip. cbn. intros. lia. Qed.
Lemma quals_len ts : (length (quals ts) <= length ts)%nat.
Proof. induction ts as [|[| | | | | | | | | | | | |[]] ts IH]; cbn [quals length] in *; lia. Qed.

Lemma p_stmt_S f ts : p_stmt (S f) ts = ltac:(let t := eval cbn [p_stmt p_items] in (p_stmt (S f) ts) in exact t). Proof. reflexivity. Qed.
Lemma p_items_S f ts : p_items (S f) ts = ltac:(let t := eval cbn [p_stmt p_items] in (p_items (S f) ts) in exact t). Proof. reflexivity. Qed.
Ltac gd1 :=
  cbv beta zeta;
  match goal with
  | |- gd _ (bbind (p_expr _) _) => eapply gd_bind; [apply gd_expr|intros ? ? ?]
  | |- gd _ (bbind (p_const _) _) => eapply gd_bind; [apply gd_const|intros ? ? ?]
  | |- gd _ (bbind (p_paren _) _) => eapply gd_bind; [apply gd_paren|intros ? ? ?]
  | |- gd _ (bbind (p_opt _ _) _) => eapply gd_bind; [apply gd_opt|intros ? ? ?]
  | |- gd _ (bbind (p_for_init _) _) => eapply gd_bind; [apply gd_for_init|intros ? ? ?]
  | |- gd _ (bbind (p_declaration _) _) => eapply gd_bind; [apply gd_declaration|intros ? ? ?]
  | IH : forall ts, _ -> gd (length ts) (p_stmt ?f ts) |- gd _ (bbind (p_stmt ?f _) _) => eapply gd_bind; [apply IH; cbn [length] in *; lia|intros ? ? ?]
  | IH : forall ts, _ -> gd (length ts) (p_items ?f ts) |- gd _ (bbind (p_items ?f _) _) => eapply gd_bind; [apply IH; cbn [length] in *; lia|intros ? ? ?]
  | |- gd _ (bskip _ _ _) => apply gd_skip; intros ? ?
  | |- gd _ (BOk _ _) => cbn [gd length] in *; lia
  | |- gd _ BErr => exact I
  end.
Lemma gd_stmt f : (forall ts, (2 * length ts + 1 <= f)%nat -> gd (length ts) (p_stmt f ts)) /\ (forall ts, (2 * length ts + 2 <= f)%nat -> gd (length ts) (p_items f ts)).
Proof.
  induction f as [|f [IHs IHi]]; [split; intros; exfalso; lia|]. split; intros ts L.
  - rewrite p_stmt_S. pose proof (gd_expr_stmt ts) as GE.
    destruct ts as [|t ts]; [exact GE|]. destruct t as [p|l| | | | | | | | | | | |w]; try exact GE.
    + destruct p; try exact GE. repeat gd1.
    + destruct ts as [|[[]| | | | | | | | | | | | |] us]; try exact GE. repeat gd1.
    + repeat gd1.
    + destruct w; try exact GE.
      * repeat gd1.
      * repeat gd1. destruct ts1 as [|[| | | | | | | | | | | | |[]] us]; repeat gd1.
      * repeat gd1.
      * repeat gd1. destruct ts0 as [|[[]| | | | | | | | | | | | |] us]; repeat gd1.
      * repeat gd1.
      * repeat gd1.
      * repeat gd1.
      * apply gd_skip. intros us Lu. pose proof (quals_len ts) as Q. destruct us as [|[] us]; try exact I. repeat gd1.
      * destruct ts as [|[[]| | | | | | | | | | | | |] us]; repeat gd1.
      * repeat gd1.
      * repeat gd1.
  - rewrite p_items_S.
    assert (G : gd (length ts) (bbind (p_stmt f ts) (fun s ts => bbind (p_items f ts) (fun r ts => BOk (IStmt s r) ts)))) by repeat gd1.
    destruct ts as [|t ts]; [exact G|]. destruct t as [p| | | | | | | | | | | | |]; try exact G.
    + destruct p; try exact G. cbn. lia.
    + destruct ts as [|[[]| | | | | | | | | | | | |] us]; repeat gd1.
Qed.

(** ** The grammar and the parser *)
Scheme stm_mut := Minimality for stm Sort Prop with blk_mut := Minimality for blk Sort Prop.
Combined Scheme stm_blk from stm_mut, blk_mut.
Lemma stars_repeat n x r : p_stars (repeat (KP Star) n ++ KId x :: r) = (n, KId x :: r).
Proof. induction n as [|n IH]; [reflexivity|]. cbn [repeat app p_stars]. now rewrite IH. Qed.
Definition sep (rest : list tok) : Prop := match rest with KP Comma :: _ | KP Semi :: _ => True | _ => False end.
Lemma sep_assign rest : sep rest -> stops GAssign rest.
Proof. destruct rest as [|[[]| | | | | | | | | | | | |] r]; cbn [sep]; intros []; [apply stops_comma|apply stops_expr, stops_semi]. Qed.
Lemma p_init_gr ts i : initial Taken ts i -> exists i', inorm i' = inorm i /\ forall rest, sep rest -> p_init (ts ++ rest) = BOk i' rest.
Proof.
  intros H. destruct H as [ts e G|b]; [|exists (DBrace b); split; reflexivity]. destruct (p_assign_gr ts e G) as (e' & N & PA).
  exists (DExpr e'). split; [cbn; congruence|]. intros rest SP. specialize (PA rest (sep_assign _ SP)). unfold p_init. pose proof (begins_app _ rest (gr_begins _ _ _ G)) as B. destruct (ts ++ rest) as [|[] us]; try discriminate B; rewrite PA; reflexivity.
Qed.
Lemma p_declarator_gr ts d : declarator Taken ts d -> exists d', dnorm d' = dnorm d /\ forall rest, sep rest -> p_declarator (ts ++ rest) = BOk d' rest.
Proof.
  intros H. destruct H as [n x|n x ts i H].
  - exists (Dcl n x None). split; [reflexivity|]. intros rest SP. unfold p_declarator. rewrite <- app_assoc. cbn [app]. rewrite stars_repeat. destruct rest as [|[[]| | | | | | | | | | | | |] r]; destruct SP; reflexivity.
  - destruct (p_init_gr ts i H) as (i' & N & PI). exists (Dcl n x (Some i')). split; [cbn; congruence|]. intros rest SP. unfold p_declarator. rewrite <- app_assoc. cbn [app]. rewrite stars_repeat, PI by exact SP. reflexivity.
Qed.
Lemma declarator_first ts d : declarator Taken ts d -> exists t r, ts = t :: r /\ (t = KP Star \/ exists x, t = KId x).
Proof. intros [n x|n x us i H]; destruct n; cbn [repeat app]; eauto 8. Qed.
Lemma p_decls_gr ts l : declarators Taken ts l -> exists l', map dnorm l' = map dnorm l /\ forall rest f, (length ts < f)%nat ->
  p_decls f true (ts ++ KP Semi :: rest) = BOk l' rest /\ p_decls f false (KP Comma :: ts ++ KP Semi :: rest) = BOk l' rest.
Proof.
  assert (ONE : forall ts d rest f, declarator Taken ts d -> p_decls (S f) true (ts ++ rest) = bbind (p_declarator (ts ++ rest)) (fun d ts => bbind (p_decls f false ts) (fun l ts => BOk (d :: l) ts))).
  { intros us d rest f H. destruct (declarator_first _ _ H) as (t & r & -> & T). cbn [app p_decls]. destruct T as [->|(x & ->)]; reflexivity. }
  intros H. induction H as [ts d H|ts d us l H HS (l' & N & IH)]; destruct (p_declarator_gr ts d H) as (d' & Nd & PD).
  - exists [d']. split; [cbn [map]; congruence|]. intros rest f L. destruct f as [|f]; [lia|]. assert (LT : (0 < length ts)%nat) by (destruct (declarator_first _ _ H) as (t & r & -> & _); cbn; lia). destruct f as [|f]; [lia|]. split.
    + rewrite (ONE ts d _ _ H), PD by exact I. reflexivity.
    + change (p_decls (S (S f)) false (KP Comma :: ts ++ KP Semi :: rest)) with (bbind (p_declarator (ts ++ KP Semi :: rest)) (fun d ts => bbind (p_decls (S f) false ts) (fun l ts => BOk (d :: l) ts))). rewrite PD by exact I. reflexivity.
  - exists (d' :: l'). split; [cbn [map]; congruence|]. intros rest f L. destruct f as [|f]; [lia|]. rewrite app_length in L. cbn [length] in L. assert (LT : (0 < length ts)%nat) by (destruct (declarator_first _ _ H) as (t & r & -> & _); cbn; lia). destruct (IH rest f ltac:(lia)) as [_ IH2].
    rewrite <- app_assoc. cbn [app]. split.
    + rewrite (ONE ts d _ _ H), PD by exact I. cbn [bbind]. rewrite IH2. reflexivity.
    + change (p_decls (S f) false (KP Comma :: ts ++ KP Comma :: us ++ KP Semi :: rest)) with (bbind (p_declarator (ts ++ KP Comma :: us ++ KP Semi :: rest)) (fun d ts => bbind (p_decls f false ts) (fun l ts => BOk (d :: l) ts))). rewrite PD by exact I. cbn [bbind]. rewrite IH2. reflexivity.
Qed.
Lemma p_declaration_gr ts l : declaration Taken ts l -> exists l', map dnorm l' = map dnorm l /\ forall rest, p_declaration (ts ++ rest) = BOk l' rest.
Proof.
  intros [us l' H|]; [|now exists []]. destruct (p_decls_gr us l' H) as (l2 & N & PD). exists l2. split; [exact N|]. intros rest. unfold p_declaration. rewrite <- app_assoc. cbn [app]. apply PD. rewrite app_length. cbn. lia.
Qed.
Lemma p_expr_stmt_gr ts e : gr Taken GExpr ts e -> exists e', norm e' = norm e /\ forall rest, p_expr_stmt (ts ++ KP Semi :: rest) = BOk (YExpr e') rest.
Proof.
  intros G. destruct (p_expr_gr ts e G) as (e' & N & PE). exists e'. split; [exact N|]. intros rest. specialize (PE _ (stops_semi rest)). pose proof (begins_app _ (KP Semi :: rest) (gr_begins _ _ _ G)) as B.
  unfold p_expr_stmt. destruct (ts ++ KP Semi :: rest) as [|[[]| | | | | | | | | | | | |] us]; try discriminate B; rewrite PE; reflexivity.
Qed.
Lemma p_for_init_gr ts i : for_first Taken ts i -> exists i', fnorm i' = fnorm i /\ forall rest, p_for_init (ts ++ rest) = BOk i' rest.
Proof.
  intros [|us e G|t us l H].
  - exists FNone. split; reflexivity.
  - destruct (p_expr_stmt_gr us e G) as (e' & N & PE). exists (FExpr e'). split; [cbn; congruence|]. intros rest. rewrite <- app_assoc. cbn [app]. specialize (PE rest). pose proof (begins_app _ (KP Semi :: rest) (gr_begins _ _ _ G)) as B. unfold p_for_init. destruct (us ++ KP Semi :: rest) as [|[] vs]; try discriminate B; rewrite PE; reflexivity.
  - destruct (p_declaration_gr us l H) as (l' & N & PD). exists (FDecl t l'). split; [cbn; congruence|]. intros rest. cbn [app p_for_init]. rewrite PD. reflexivity.
Qed.
Lemma p_opt_gr p ts e t : optional Taken ts e -> p t = true -> (forall u r, begins (u :: r) = true -> p u = false) -> (forall r, stops GExpr (t :: r)) ->
  exists e', option_map norm e' = option_map norm e /\ forall rest, p_opt p (ts ++ t :: rest) = BOk e' (t :: rest).
Proof.
  intros H PT PB ST. destruct H as [|us e G].
  - exists None. split; [reflexivity|]. intros rest. cbn [app p_opt]. now rewrite PT.
  - destruct (p_expr_gr us e G) as (e' & N & PE). exists (Some e'). split; [cbn; congruence|]. intros rest. specialize (PE _ (ST rest)). pose proof (begins_app _ (t :: rest) (gr_begins _ _ _ G)) as B. unfold p_opt. destruct (us ++ t :: rest) as [|u vs]; [discriminate B|]. rewrite (PB u vs B), PE. reflexivity.
Qed.
Lemma semi_begins u r : begins (u :: r) = true -> is_semi u = false. Proof. destruct u as [[]| | | | | | | | | | | | |]; cbn; congruence. Qed.
Lemma rpar_begins u r : begins (u :: r) = true -> is_rpar u = false. Proof. destruct u as [[]| | | | | | | | | | | | |]; cbn; congruence. Qed.
Lemma p_paren_gr ts e : gr Taken GExpr ts e -> exists e', norm e' = norm e /\ forall rest, p_paren (KP LPar :: ts ++ KP RPar :: rest) = BOk e' rest.
Proof. intros G. destruct (p_expr_gr ts e G) as (e' & N & PE). exists e'. split; [exact N|]. intros rest. unfold p_paren. cbn [bskip is_lpar]. rewrite (PE _ (stops_rpar rest)). reflexivity. Qed.
Lemma quals_repeat n r : quals (repeat (KW WQual) n ++ KP LPar :: r) = KP LPar :: r.
Proof. induction n as [|n IH]; [reflexivity|exact IH]. Qed.

(** first tokens of statements *)
Definition starts (ts : list tok) : bool := match ts with KP LBrace :: _ | KP Semi :: _ | KDefault :: _ => true | KW WElse :: _ => false | KW _ :: _ => true | _ => begins ts end.
Lemma starts_app ts r : starts ts = true -> starts (ts ++ r) = true.
Proof. destruct ts as [|[[]| | | | | | | | | | | | |[]] [|t ts]]; cbn; try discriminate; auto. Qed.
Lemma begins_starts ts : begins ts = true -> starts ts = true.
Proof. destruct ts as [|[[]| | | | | | | | | | | | |[]] [|t ts]]; cbn; try discriminate; auto. Qed.
Lemma stm_starts ts s : stm Taken ts s -> starts ts = true.
Proof. intros H. destruct H; try reflexivity. apply starts_app, begins_starts. exact (gr_begins _ _ _ H). Qed.
Lemma stmt_expr f ts e rest : gr Taken GExpr ts e -> p_stmt (S f) (ts ++ KP Semi :: rest) = p_expr_stmt (ts ++ KP Semi :: rest).
Proof.
  intros G. pose proof (begins_app _ (KP Semi :: rest) (gr_begins _ _ _ G)) as B. assert (NL : forall l r, ts ++ KP Semi :: rest <> KId l :: KP Colon :: r) by (intros l r E; apply (not_label ts e (KP Semi :: rest) l r G (stops_semi rest) E); discriminate).
  rewrite p_stmt_S. destruct (ts ++ KP Semi :: rest) as [|[[]|n| | | | | | | | | | | |] us]; try discriminate B; try reflexivity. destruct us as [|[[]| | | | | | | | | | | | |] vs]; try reflexivity. exfalso. now apply (NL n vs).
Qed.

Lemma blk_no_else u r : blk Taken u r -> forall rest, no_else (u ++ KP RBrace :: rest).
Proof.
  intros H rest. destruct H as [|t s u r ST B|]; try exact I. pose proof (stm_starts _ _ ST) as SS. destruct t as [|x t]; [discriminate SS|]. cbn [app no_else]. destruct x as [| | | | | | | | | | | | |[]]; try exact I. discriminate SS.
Qed.

Definition claim_s (ts : list tok) (s : ss) : Prop := exists s', ynorm s' = ynorm s /\ forall rest f, (dangling s = true -> no_else rest) -> (2 * length ts + 1 <= f)%nat -> p_stmt f (ts ++ rest) = BOk s' rest.
Definition claim_b (ts : list tok) (b : items) : Prop := exists b', bnorm b' = bnorm b /\ forall rest f, (2 * length ts + 2 <= f)%nat -> p_items f (ts ++ KP RBrace :: rest) = BOk b' rest.
Ltac flat := cbn [app]; repeat (rewrite <- app_assoc; cbn [app]).
Ltac one f L := destruct f as [|f]; [exfalso; clear - L; lia|]; cbn [length] in L; repeat (rewrite app_length in L; cbn [length] in L).
Ltac ynorms := cbn [ynorm bnorm option_map map]; congruence.
Lemma grammar_stmt : (forall ts s, stm Taken ts s -> claim_s ts s) /\ (forall ts b, blk Taken ts b -> claim_b ts b).
Proof.
  apply stm_blk; unfold claim_s, claim_b.
  - exists YEmpty. split; [reflexivity|]. intros rest f _ L. one f L. reflexivity.
  - intros ts e G. destruct (p_expr_stmt_gr ts e G) as (e' & N & PE). exists (YExpr e'). split; [ynorms|]. intros rest f _ L. one f L. flat. rewrite (stmt_expr f ts e rest G). apply PE.
  - intros ts b _ (b' & N & IH). exists (YBlock b'). split; [ynorms|]. intros rest f _ L. one f L. flat. rewrite p_stmt_S. rewrite IH by lia. reflexivity.
  - intros t c u s G _ (s' & N & IH). destruct (p_paren_gr t c G) as (c' & Nc & PC). exists (YIf c' s'). split; [ynorms|]. intros rest f NE L. one f L. flat. rewrite p_stmt_S, PC. cbn [bbind]. specialize (NE eq_refl). rewrite (IH rest f) by (auto || lia). cbn [bbind].
    destruct rest as [|[| | | | | | | | | | | | |[]] r]; try reflexivity. destruct NE.
  - intros t c u a v b G _ (a' & Na & IHa) DA _ (b' & Nb & IHb). destruct (p_paren_gr t c G) as (c' & Nc & PC). exists (YIfElse c' a' b'). split; [ynorms|]. intros rest f NE L. one f L. flat. rewrite p_stmt_S, PC. cbn [bbind]. rewrite IHa; [|intros X; congruence|lia]. cbn [bbind]. rewrite (IHb rest f) by (exact NE || lia). reflexivity.
  - intros t c u s G _ (s' & N & IH). destruct (p_paren_gr t c G) as (c' & Nc & PC). exists (YSwitch c' s'). split; [ynorms|]. intros rest f NE L. one f L. flat. rewrite p_stmt_S, PC. cbn [bbind]. rewrite (IH rest f) by (exact NE || lia). reflexivity.
  - intros t lo u s G _ (s' & N & IH). destruct (p_const_gr t lo G) as (c' & Nc & PC). exists (YCase c' None s'). split; [ynorms|]. intros rest f NE L. one f L. flat. rewrite p_stmt_S, PC by apply stops_assign, stops_expr, stops_colon. cbn [bbind bskip is_colon]. rewrite (IH rest f) by (exact NE || lia). reflexivity.
  - intros t lo v hi u s G G2 _ (s' & N & IH). destruct (p_const_gr t lo G) as (c' & Nc & PC). destruct (p_const_gr v hi G2) as (d' & Nd & PD). exists (YCase c' (Some d') s'). split; [ynorms|]. intros rest f NE L. one f L. flat.
    rewrite p_stmt_S, PC by apply stops_assign, stops_expr, stops_ellipsis. cbn [bbind]. rewrite PD by apply stops_assign, stops_expr, stops_colon. cbn [bbind bskip is_colon]. rewrite (IH rest f) by (exact NE || lia). reflexivity.
  - intros u s _ (s' & N & IH). exists (YDefault s'). split; [ynorms|]. intros rest f NE L. one f L. flat. rewrite p_stmt_S. cbn [bskip is_colon]. rewrite (IH rest f) by (exact NE || lia). reflexivity.
  - intros t i v c w inc u s FI OC OI _ (s' & N & IH). destruct (p_for_init_gr t i FI) as (i' & Ni & PI). destruct (p_opt_gr is_semi v c (KP Semi) OC eq_refl semi_begins stops_semi) as (c' & Nc & PC). destruct (p_opt_gr is_rpar w inc (KP RPar) OI eq_refl rpar_begins stops_rpar) as (n' & Nn & PN).
    exists (YFor i' c' n' s'). split; [ynorms|]. intros rest f NE L. one f L. flat. rewrite p_stmt_S. cbn [bskip is_lpar]. rewrite PI. cbn [bbind]. rewrite PC. cbn [bbind bskip is_semi]. rewrite PN. cbn [bbind bskip is_rpar]. rewrite (IH rest f) by (exact NE || lia). reflexivity.
  - intros t c u s G _ (s' & N & IH). destruct (p_paren_gr t c G) as (c' & Nc & PC). exists (YWhile c' s'). split; [ynorms|]. intros rest f NE L. one f L. flat. rewrite p_stmt_S, PC. cbn [bbind]. rewrite (IH rest f) by (exact NE || lia). reflexivity.
  - intros t c u s _ (s' & N & IH) G. destruct (p_paren_gr t c G) as (c' & Nc & PC). exists (YDo s' c'). split; [ynorms|]. intros rest f NE L. one f L. flat. rewrite p_stmt_S. rewrite IH; [|intros _; exact I|lia]. cbn [bbind bskip is_while]. rewrite PC. reflexivity.
  - intros n a H. now destruct H.
  - intros n a H. discriminate H.
  - intros t e G. destruct (p_expr_gr t e G) as (e' & N & PE). exists (YGotoP e'). split; [ynorms|]. intros rest f NE L. one f L. flat. rewrite p_stmt_S, PE by apply stops_semi. reflexivity.
  - intros l. exists (YGoto l). split; [reflexivity|]. intros rest f _ L. one f L. reflexivity.
  - exists YBreak. split; [reflexivity|]. intros rest f _ L. one f L. reflexivity.
  - exists YContinue. split; [reflexivity|]. intros rest f _ L. one f L. reflexivity.
  - intros l u s _ (s' & N & IH). exists (YLabel l s'). split; [ynorms|]. intros rest f NE L. one f L. flat. rewrite p_stmt_S. rewrite (IH rest f) by (exact NE || lia). reflexivity.
  - intros t e O. destruct (p_opt_gr is_semi t e (KP Semi) O eq_refl semi_begins stops_semi) as (e' & N & PE). exists (YReturn e'). split; [ynorms|]. intros rest f _ L. one f L. flat. rewrite p_stmt_S, PE. reflexivity.
  - exists INil. split; [reflexivity|]. intros rest f L. one f L. reflexivity.
  - intros t s u r ST (s' & Ns & IHs) BU (r' & Nr & IHr). exists (IStmt s' r'). split; [ynorms|]. intros rest f L. one f L. flat. pose proof (stm_starts _ _ ST) as SS. assert (LT : (0 < length t)%nat) by (destruct t; [discriminate SS|cbn; lia]).
    assert (R : p_items (S f) (t ++ u ++ KP RBrace :: rest) = bbind (p_stmt f (t ++ u ++ KP RBrace :: rest)) (fun s ts => bbind (p_items f ts) (fun r ts => BOk (IStmt s r) ts))).
    { rewrite p_items_S. apply (starts_app _ (u ++ KP RBrace :: rest)) in SS. destruct (t ++ u ++ KP RBrace :: rest) as [|[[]| | | | | | | | | | | | |] us]; try discriminate SS; reflexivity. }
    rewrite R, IHs; [|intros _; exact (blk_no_else _ _ BU _)|lia].
    cbn [bbind]. rewrite IHr by lia. reflexivity.
  - intros ty t l u r D _ (r' & Nr & IHr). destruct (p_declaration_gr t l D) as (l' & Nl & PD). exists (IDecl ty l' r'). split; [ynorms|]. intros rest f L. one f L. flat.
    assert (R : p_items (S f) (KType ty :: t ++ u ++ KP RBrace :: rest) = bbind (p_declaration (t ++ u ++ KP RBrace :: rest)) (fun l ts => bbind (p_items f ts) (fun r ts => BOk (IDecl ty l r) ts))).
    { rewrite p_items_S. destruct (t ++ u ++ KP RBrace :: rest) as [|[[]| | | | | | | | | | | | |] us]; reflexivity. }
    rewrite R, PD. cbn [bbind]. rewrite IHr by lia. reflexivity.
Qed.

(** ** What is accepted *)
Lemma bbind_ok {A B} (r : bres A) (k : A -> list tok -> bres B) b rest : bbind r k = BOk b rest -> exists a r1, r = BOk a r1 /\ k a r1 = BOk b rest.
Proof. destruct r; try discriminate. eauto. Qed.
Lemma bskip_ok {A} p ts (k : list tok -> bres A) a rest : bskip p ts k = BOk a rest -> exists t ts', ts = t :: ts' /\ p t = true /\ k ts' = BOk a rest.
Proof. destruct ts as [|t ts]; [discriminate|]. cbn [bskip]. destruct (p t) eqn:E; [|discriminate]. eauto. Qed.
Lemma is_semi_eq t : is_semi t = true -> t = KP Semi. Proof. destruct t as [[]| | | | | | | | | | | | |]; try discriminate; reflexivity. Qed.
Lemma is_while_eq t : is_while t = true -> t = KW WWhile. Proof. destruct t as [| | | | | | | | | | | | |[]]; try discriminate; reflexivity. Qed.
Ltac bs H := apply bskip_ok in H; let t := fresh "t" in destruct H as (t & ? & -> & ?E & H);
  match type of E with
  | is_rpar _ = _ => apply is_rpar_eq in E | is_colon _ = _ => apply is_colon_eq in E | is_comma _ = _ => apply is_comma_eq in E
  | is_lpar _ = _ => apply is_lpar_eq in E | is_semi _ = _ => apply is_semi_eq in E | is_while _ = _ => apply is_while_eq in E
  end; subst t.
Ltac bb H a r Ha := apply bbind_ok in H; destruct H as (a & r & Ha & H).
Lemma lift_ok r e rest : lift r = BOk e rest -> r = Ok e rest. Proof. destruct r; try discriminate. intros H. injection H as -> ->. reflexivity. Qed.
Lemma p_expr_sound ts e rest : p_expr ts = BOk e rest -> exists t e', ts = t ++ rest /\ norm e' = norm e /\ gr Loose GExpr t e'.
Proof. intros H. apply lift_ok in H. exact (parse_sound _ PExpr _ _ _ I H). Qed.
Lemma p_const_sound ts e rest : p_const ts = BOk e rest -> exists t e', ts = t ++ rest /\ norm e' = norm e /\ gr Loose GCond t e'.
Proof. intros H. apply lift_ok in H. exact (parse_sound _ PCond _ _ _ I H). Qed.
Lemma p_assign_sound ts e rest : p_assign ts = BOk e rest -> exists t e', ts = t ++ rest /\ norm e' = norm e /\ gr Loose GAssign t e'.
Proof. intros H. apply lift_ok in H. exact (parse_sound _ PAssign _ _ _ I H). Qed.
Lemma p_init_sound ts i rest : p_init ts = BOk i rest -> exists t i', ts = t ++ rest /\ inorm i' = inorm i /\ initial Loose t i'.
Proof.
  unfold p_init. intros H.
  assert (G : bbind (p_assign ts) (fun e ts => BOk (DExpr e) ts) = BOk i rest -> exists t i', ts = t ++ rest /\ inorm i' = inorm i /\ initial Loose t i').
  { intros K. bb K e r He. injection K as <- <-. destruct (p_assign_sound _ _ _ He) as (t & e' & -> & N & G). exists t, (DExpr e'). split; [reflexivity|]. split; [cbn; congruence|now constructor]. }
  destruct ts as [|[] ts]; try exact (G H). injection H as <- <-. exists [KBrace i0], (DBrace i0). repeat split. constructor.
Qed.
Lemma stars_sound ts : forall n us, p_stars ts = (n, us) -> ts = repeat (KP Star) n ++ us.
Proof. induction ts as [|t ts IH]; intros n us; cbn [p_stars]; [intros H; now injection H as <- <-|]. destruct t as [[]| | | | | | | | | | | | |]; try (intros H; injection H as <- <-; reflexivity). destruct (p_stars ts) as [k vs]. intros H. injection H as <- <-. cbn [repeat app]. f_equal. now apply IH. Qed.
Lemma p_declarator_sound ts d rest : p_declarator ts = BOk d rest -> exists t d', ts = t ++ rest /\ dnorm d' = dnorm d /\ declarator Loose t d'.
Proof.
  unfold p_declarator. destruct (p_stars ts) as [n us] eqn:PS. apply stars_sound in PS. subst ts. destruct us as [|[|x| | | | | | | | | | | |] us]; try discriminate.
  assert (G : BOk (Dcl n x None) us = BOk d rest -> exists t d', repeat (KP Star) n ++ KId x :: us = t ++ rest /\ dnorm d' = dnorm d /\ declarator Loose t d').
  { intros H. injection H as <- <-. exists (repeat (KP Star) n ++ [KId x]), (Dcl n x None). split; [now rewrite <- app_assoc|]. split; [reflexivity|constructor]. }
  destruct us as [|[[]| | | | | | | | | | | | |] us]; try exact G. intros H. bb H i r Hi. injection H as <- <-. destruct (p_init_sound _ _ _ Hi) as (t & i' & -> & N & I').
  exists (repeat (KP Star) n ++ KId x :: KP PEq :: t), (Dcl n x (Some i')). split; [now rewrite <- app_assoc|]. split; [cbn; congruence|now constructor].
Qed.
Lemma p_decls_sound f : forall ts l rest b, p_decls f b ts = BOk l rest -> exists t l', map dnorm l' = map dnorm l /\
  ((l' = [] /\ ts = KP Semi :: rest) \/ (ts = (if b then [] else [KP Comma]) ++ t ++ KP Semi :: rest /\ declarators Loose t l')).
Proof.
  induction f as [|f IH]; intros ts l rest b; [discriminate|]. cbn [p_decls].
  assert (ONE : forall us, bbind (p_declarator us) (fun d ts => bbind (p_decls f false ts) (fun l ts => BOk (d :: l) ts)) = BOk l rest -> exists t l', map dnorm l' = map dnorm l /\ us = t ++ KP Semi :: rest /\ declarators Loose t l').
  { intros us H. bb H d r Hd. bb H l2 r2 Hl. injection H as <- <-. destruct (p_declarator_sound _ _ _ Hd) as (t & d' & -> & N & D). destruct (IH _ _ _ _ Hl) as (t2 & l' & N2 & [[-> ->]|[-> D2]]).
    - exists t, [d']. destruct l2; [|discriminate N2]. split; [cbn [map]; congruence|]. split; [reflexivity|now constructor].
    - exists (t ++ KP Comma :: t2), (d' :: l'). split; [cbn [map]; congruence|]. split; [now rewrite <- app_assoc|now constructor]. }
  intros H. assert (K : ts = KP Semi :: rest /\ l = [] \/ (if b then bbind (p_declarator ts) (fun d ts => bbind (p_decls f false ts) (fun l ts => BOk (d :: l) ts)) else bskip is_comma ts (fun us => bbind (p_declarator us) (fun d ts => bbind (p_decls f false ts) (fun l ts => BOk (d :: l) ts)))) = BOk l rest).
  { destruct ts as [|[[]| | | | | | | | | | | | |] us]; try (right; exact H). injection H as <- <-. now left. }
  destruct K as [[-> ->]|K]; [exists [], []; auto|]. destruct b.
  - destruct (ONE _ K) as (t & l' & N & -> & D). exists t, l'. auto.
  - bs K. destruct (ONE _ K) as (t & l' & N & -> & D). exists t, l'. auto.
Qed.
Lemma p_declaration_sound ts l rest : p_declaration ts = BOk l rest -> exists t l', ts = t ++ rest /\ map dnorm l' = map dnorm l /\ declaration Loose t l'.
Proof.
  intros H. destruct (p_decls_sound _ _ _ _ _ H) as (t & l' & N & [[-> ->]|[-> D]]).
  - exists [KP Semi], []. repeat split; auto. now constructor.
  - exists (t ++ [KP Semi]), l'. split; [now rewrite <- app_assoc|]. split; [exact N|now constructor].
Qed.
Lemma p_expr_stmt_sound ts s rest : p_expr_stmt ts = BOk s rest -> (s = YEmpty /\ ts = KP Semi :: rest) \/ exists t e e', s = YExpr e /\ ts = t ++ KP Semi :: rest /\ norm e' = norm e /\ gr Loose GExpr t e'.
Proof.
  intros H. assert (K : (s = YEmpty /\ ts = KP Semi :: rest) \/ bbind (p_expr ts) (fun e ts => bskip is_semi ts (fun ts => BOk (YExpr e) ts)) = BOk s rest).
  { unfold p_expr_stmt in H. destruct ts as [|[[]| | | | | | | | | | | | |] us]; try (right; exact H). injection H as <- <-. now left. }
  destruct K as [K|K]; [now left|]. right. bb K e r He. bs K. injection K as <- <-. destruct (p_expr_sound _ _ _ He) as (t & e' & -> & N & G). exists t, e, e'. auto.
Qed.
Lemma p_for_init_sound ts i rest : p_for_init ts = BOk i rest -> exists t i', ts = t ++ rest /\ fnorm i' = fnorm i /\ for_first Loose t i'.
Proof.
  intros H. assert (G : bbind (p_expr_stmt ts) (fun s ts => BOk (match s with YExpr e => FExpr e | _ => FNone end) ts) = BOk i rest -> exists t i', ts = t ++ rest /\ fnorm i' = fnorm i /\ for_first Loose t i').
  { intros K. bb K s r Hs. destruct (p_expr_stmt_sound _ _ _ Hs) as [[-> ->]|(t & e & e' & -> & -> & N & G)]; injection K as <- <-.
    - exists [KP Semi], FNone. repeat split. constructor.
    - exists (t ++ [KP Semi]), (FExpr e'). split; [now rewrite <- app_assoc|]. split; [cbn; congruence|now constructor]. }
  unfold p_for_init in H. destruct ts as [|[[]| | | | | | | | | | | | |] us]; try exact (G H). bb H l r Hl. injection H as <- <-. destruct (p_declaration_sound _ _ _ Hl) as (t' & l' & -> & N & D). exists (KType t :: t'), (FDecl t l'). split; [reflexivity|]. split; [cbn; congruence|now constructor].
Qed.
Lemma p_opt_sound p ts e rest : p_opt p ts = BOk e rest -> exists t e', ts = t ++ rest /\ option_map norm e' = option_map norm e /\ optional Loose t e'.
Proof.
  intros H. assert (K : (e = None /\ rest = ts) \/ bbind (p_expr ts) (fun e ts => BOk (Some e) ts) = BOk e rest).
  { unfold p_opt in H. destruct ts as [|t us]; [now right|]. destruct (p t); [injection H as <- <-; now left|now right]. }
  destruct K as [[-> ->]|K]; [exists [], None; repeat split; constructor|]. bb K x r Hx. injection K as <- <-. destruct (p_expr_sound _ _ _ Hx) as (t & e' & -> & N & G). exists t, (Some e'). split; [reflexivity|]. split; [cbn; congruence|now constructor].
Qed.
Lemma p_paren_sound ts e rest : p_paren ts = BOk e rest -> exists t e', ts = KP LPar :: t ++ KP RPar :: rest /\ norm e' = norm e /\ gr Loose GExpr t e'.
Proof. unfold p_paren. intros H. bs H. bb H e1 r He. bs H. injection H as <- <-. destruct (p_expr_sound _ _ _ He) as (t & e' & -> & N & G). exists t, e'. auto. Qed.
Lemma quals_sound ts : exists n, ts = repeat (KW WQual) n ++ quals ts.
Proof. induction ts as [|[| | | | | | | | | | | | |[]] ts [n IH]]; try (exists O; reflexivity). exists (S n). cbn [repeat app quals]. now f_equal. Qed.
Lemma dangling_norm s : dangling (ynorm s) = dangling s.
Proof. induction s; cbn [ynorm dangling]; auto. Qed.
Lemma dangling_same a b : ynorm a = ynorm b -> dangling a = dangling b.
Proof. intros H. rewrite <- dangling_norm, H. apply dangling_norm. Qed.

Definition sound_s (ts : list tok) (s : ss) (rest : list tok) : Prop := (exists t s', ts = t ++ rest /\ ynorm s' = ynorm s /\ stm Loose t s') /\ (dangling s = true -> no_else rest).
Definition sound_b (ts : list tok) (b : items) (rest : list tok) : Prop := exists t b', ts = t ++ KP RBrace :: rest /\ bnorm b' = bnorm b /\ blk Loose t b'.
Ltac done_s t s := split; [exists t, s; split; [flat; reflexivity|split; [ynorms|]]|].
Lemma stmt_sound f : (forall ts s rest, p_stmt f ts = BOk s rest -> sound_s ts s rest) /\ (forall ts b rest, p_items f ts = BOk b rest -> sound_b ts b rest).
Proof.
  induction f as [|f [IHs IHi]]; [split; discriminate|]. split.
  - intros ts s rest H. rewrite p_stmt_S in H.
    assert (EX : p_expr_stmt ts = BOk s rest -> sound_s ts s rest).
    { intros K. destruct (p_expr_stmt_sound _ _ _ K) as [[-> ->]|(t & e & e' & -> & -> & N & G)].
      - done_s [KP Semi] YEmpty; [constructor|discriminate].
      - done_s (t ++ [KP Semi]) (YExpr e'); [now constructor|discriminate]. }
    destruct ts as [|t ts]; [exact (EX H)|]. destruct t as [p|l| | | | | | | | | | | |w]; try exact (EX H).
    + destruct p; try exact (EX H). bb H b r Hb. injection H as <- <-. destruct (IHi _ _ _ Hb) as (t & b' & -> & N & B). done_s (KP LBrace :: t ++ [KP RBrace]) (YBlock b'); [now constructor|discriminate].
    + destruct ts as [|[[]| | | | | | | | | | | | |] us]; try exact (EX H). bb H b r Hb. injection H as <- <-. destruct (IHs _ _ _ Hb) as [(t & s' & -> & N & S') D]. done_s (KId l :: KP Colon :: t) (YLabel l s'); [now constructor|exact D].
    + bs H. bb H b r Hb. injection H as <- <-. destruct (IHs _ _ _ Hb) as [(t & s' & -> & N & S') D]. done_s (KDefault :: KP Colon :: t) (YDefault s'); [now constructor|exact D].
    + destruct w; try exact (EX H).
      * bb H e r He. bs H. injection H as <- <-. destruct (p_opt_sound _ _ _ _ He) as (t & e' & -> & N & O). done_s (KW WReturn :: t ++ [KP Semi]) (YReturn e'); [now constructor|discriminate].
      * bb H c r Hc. bb H a r2 Ha. destruct (p_paren_sound _ _ _ Hc) as (t & c' & -> & Nc & G). destruct (IHs _ _ _ Ha) as [(u & a' & -> & Na & A') Da].
        assert (K : (no_else r2 /\ BOk (YIf c a) r2 = BOk s rest) \/ exists r3, r2 = KW WElse :: r3 /\ bbind (p_stmt f r3) (fun b ts => BOk (YIfElse c a b) ts) = BOk s rest) by (destruct r2 as [|[| | | | | | | | | | | | |[]] r3]; eauto; left; split; auto; exact I).
        destruct K as [[NE K]|(r3 & -> & K)].
        -- injection K as <- <-. done_s (KW WIf :: KP LPar :: t ++ KP RPar :: u) (YIf c' a'); [now constructor|auto].
        -- bb K b r4 Hb. injection K as <- <-. destruct (IHs _ _ _ Hb) as [(v & b' & -> & Nb & B') Db]. done_s (KW WIf :: KP LPar :: t ++ KP RPar :: u ++ KW WElse :: v) (YIfElse c' a' b'); [|exact Db].
           constructor; auto. rewrite (dangling_same _ _ Na). destruct (dangling a); auto. now destruct (Da eq_refl).
      * bb H c r Hc. bb H a r2 Ha. injection H as <- <-. destruct (p_paren_sound _ _ _ Hc) as (t & c' & -> & Nc & G). destruct (IHs _ _ _ Ha) as [(u & a' & -> & Na & A') Da]. done_s (KW WSwitch :: KP LPar :: t ++ KP RPar :: u) (YSwitch c' a'); [now constructor|exact Da].
      * bb H lo r Hc. destruct (p_const_sound _ _ _ Hc) as (t & c' & -> & Nc & G).
        assert (K : (exists r3 hi r4, r = KP Ellipsis :: r3 /\ p_const r3 = BOk hi r4 /\ bskip is_colon r4 (fun ts => bbind (p_stmt f ts) (fun s ts => BOk (YCase lo (Some hi) s) ts)) = BOk s rest) \/ bskip is_colon r (fun ts => bbind (p_stmt f ts) (fun s ts => BOk (YCase lo None s) ts)) = BOk s rest).
        { destruct r as [|[[]| | | | | | | | | | | | |] r3]; try (right; exact H). left. bb H hi r4 Hh. eauto 8. }
        destruct K as [(r3 & hi & r4 & -> & Hh & K)|K].
        -- destruct (p_const_sound _ _ _ Hh) as (v & h' & -> & Nh & G2). bs K. bb K b r5 Hb. injection K as <- <-. destruct (IHs _ _ _ Hb) as [(u & s' & -> & N & S') D]. done_s (KW WCase :: t ++ KP Ellipsis :: v ++ KP Colon :: u) (YCase c' (Some h') s'); [now constructor|exact D].
        -- bs K. bb K b r5 Hb. injection K as <- <-. destruct (IHs _ _ _ Hb) as [(u & s' & -> & N & S') D]. done_s (KW WCase :: t ++ KP Colon :: u) (YCase c' None s'); [now constructor|exact D].
      * bs H. bb H i r Hi. destruct (p_for_init_sound _ _ _ Hi) as (t & i' & -> & Ni & FI). bb H c r2 Hc. destruct (p_opt_sound _ _ _ _ Hc) as (v & c' & -> & Nc & OC). bs H. bb H n r3 Hn. destruct (p_opt_sound _ _ _ _ Hn) as (w & n' & -> & Nn & ON). bs H. bb H b r4 Hb. injection H as <- <-.
        destruct (IHs _ _ _ Hb) as [(u & s' & -> & N & S') D]. done_s (KW WFor :: KP LPar :: t ++ v ++ KP Semi :: w ++ KP RPar :: u) (YFor i' c' n' s'); [now constructor|exact D].
      * bb H c r Hc. bb H a r2 Ha. injection H as <- <-. destruct (p_paren_sound _ _ _ Hc) as (t & c' & -> & Nc & G). destruct (IHs _ _ _ Ha) as [(u & a' & -> & Na & A') Da]. done_s (KW WWhile :: KP LPar :: t ++ KP RPar :: u) (YWhile c' a'); [now constructor|exact Da].
      * bb H b r Hb. bs H. bb H c r2 Hc. bs H. injection H as <- <-. destruct (IHs _ _ _ Hb) as [(u & s' & -> & N & S') D]. destruct (p_paren_sound _ _ _ Hc) as (t & c' & -> & Nc & G). done_s (KW WDo :: u ++ KW WWhile :: KP LPar :: t ++ [KP RPar; KP Semi]) (YDo s' c'); [now constructor|discriminate].
      * destruct (quals_sound ts) as (n & Q). apply bskip_ok in H. destruct H as (t & x & E1 & E2 & H). apply is_lpar_eq in E2. subst t. rewrite E1 in Q. subst ts. destruct x as [|[| | |a| | | | | | | | | |] us]; try discriminate H. bs H. injection H as <- <-. done_s (KW WAsm :: repeat (KW WQual) n ++ [KP LPar; KStr a; KP RPar]) (YAsm a); [now constructor|discriminate].
      * destruct ts as [|[[]|l| | | | | | | | | | | |] us]; try discriminate H.
        -- bb H e r He. bs H. injection H as <- <-. destruct (p_expr_sound _ _ _ He) as (t & e' & -> & N & G). done_s (KW WGoto :: KP Star :: t ++ [KP Semi]) (YGotoP e'); [now constructor|discriminate].
        -- bs H. injection H as <- <-. done_s [KW WGoto; KId l; KP Semi] (YGoto l); [now constructor|discriminate].
      * bs H. injection H as <- <-. done_s [KW WBreak; KP Semi] YBreak; [constructor|discriminate].
      * bs H. injection H as <- <-. done_s [KW WContinue; KP Semi] YContinue; [constructor|discriminate].
  - intros ts b rest H. rewrite p_items_S in H.
    assert (G : bbind (p_stmt f ts) (fun s ts => bbind (p_items f ts) (fun r ts => BOk (IStmt s r) ts)) = BOk b rest -> sound_b ts b rest).
    { intros K. bb K s r Hs. bb K r1 r2 Hr. injection K as <- <-. destruct (IHs _ _ _ Hs) as [(t & s' & -> & N & S') D]. destruct (IHi _ _ _ Hr) as (u & b' & -> & Nb & B). exists (t ++ u), (IStmt s' b'). split; [now rewrite <- app_assoc|]. split; [ynorms|now constructor]. }
    destruct ts as [|t ts]; [exact (G H)|]. destruct t as [p| | | |ty| | | | | | | | |]; try exact (G H).
    + destruct p; try exact (G H). injection H as <- <-. exists [], INil. repeat split. constructor.
    + assert (K : bbind (p_declaration ts) (fun l ts => bbind (p_items f ts) (fun r ts => BOk (IDecl ty l r) ts)) = BOk b rest) by (destruct ts as [|[[]| | | | | | | | | | | | |] us]; try exact H; discriminate H).
      bb K l r Hl. bb K r1 r2 Hr. injection K as <- <-. destruct (p_declaration_sound _ _ _ Hl) as (t & l' & -> & N & D). destruct (IHi _ _ _ Hr) as (u & b' & -> & Nb & B). exists (KType ty :: t ++ u), (IDecl ty l' b'). split; [cbn [app]; now rewrite <- app_assoc|]. split; [ynorms|now constructor].
Qed.

(** ** Printing *)
Lemma text_expr e : proper e = true -> gr Taken GExpr (text e) e.
Proof. intros Pr. pose proof (gr_wrap Taken GExpr e (text e) I (text_grammar e Pr)) as G. unfold wrap in G. pose proof (kind_rank e) as K. change (rank GExpr) with 16%nat in G. destruct (Nat.leb_spec (rank (kind e)) 16); [exact G|lia]. Qed.
Lemma text_cond e : proper e = true -> gr Taken GCond (wrap GCond e (text e)) e.
Proof. intros Pr. exact (gr_wrap Taken GCond e (text e) I (text_grammar e Pr)). Qed.
Lemma text_init i : proper_init i = true -> initial Taken (init_text i) i.
Proof. destruct i as [e|b]; cbn [proper_init init_text]; intros Pr; constructor. exact (gr_wrap Taken GAssign e (text e) I (text_grammar e Pr)). Qed.
Lemma text_dcl d : proper_dcl d = true -> declarator Taken (dcl_text d) d.
Proof. destruct d as [n x [i|]]; cbn [proper_dcl dcl_text]; intros Pr; constructor. now apply text_init. Qed.
Lemma text_dcls l : proper_dcls l = true -> l <> [] -> declarators Taken (dcls_text l) l.
Proof.
  unfold proper_dcls. induction l as [|d l IH]; [easy|]. cbn [forallb]. intros H _. apply andb_prop in H. destruct H as [A B]. destruct l as [|d2 l]; [cbn [dcls_text]; constructor; now apply text_dcl|].
  change (dcls_text (d :: d2 :: l)) with (dcl_text d ++ KP Comma :: dcls_text (d2 :: l)). constructor; [now apply text_dcl|]. apply IH; [exact B|discriminate].
Qed.
Lemma text_declaration l : proper_dcls l = true -> declaration Taken (dcls_text l ++ [KP Semi]) l.
Proof. intros H. destruct l as [|d l]; [apply dn_none|]. apply dn_some. now apply text_dcls. Qed.
Lemma text_opt e : proper_opt e = true -> optional Taken (opt_text e) e.
Proof. destruct e; cbn [proper_opt opt_text]; intros; constructor. now apply text_expr. Qed.
Lemma text_first i : proper_first i = true -> for_first Taken (first_text i) i.
Proof. destruct i as [|e|t l]; cbn [proper_first first_text]; intros; constructor; [now apply text_expr|now apply text_declaration]. Qed.
Scheme ss_mut := Induction for ss Sort Prop with items_mut := Induction for items Sort Prop.
Combined Scheme ss_items from ss_mut, items_mut.
Lemma text_stmt : (forall s, proper_stmt s = true -> stm Taken (stmt_text s) s) /\ (forall b, proper_block b = true -> blk Taken (block_text b) b).
Proof.
  apply ss_items; cbn [proper_stmt proper_block stmt_text block_text]; intros;
    repeat match goal with H : _ && _ = true |- _ => apply andb_prop in H; destruct H end;
    try discriminate; try solve [constructor; auto using text_expr, text_cond, text_opt, text_first, text_declaration].
  - constructor; auto using text_expr. now apply Bool.negb_true_iff.
  - destruct hi as [h|]; constructor; auto using text_cond.
  - change (KP Semi :: block_text r) with ([KP Semi] ++ block_text r). rewrite app_assoc. constructor; auto using text_declaration.
Qed.

(** ** The two grammars *)
Definition no_asm (ts : list tok) : Prop := ~ In (KW WAsm) ts.
Lemma taken_init ts i : initial Taken ts i -> initial C11 ts i.
Proof. intros [us e G|b]; constructor. now apply taken_c11. Qed.
Lemma taken_declarator ts d : declarator Taken ts d -> declarator C11 ts d.
Proof. intros [n x|n x us i H]; constructor. now apply taken_init. Qed.
Lemma taken_declarators ts l : declarators Taken ts l -> declarators C11 ts l.
Proof. induction 1; constructor; auto using taken_declarator. Qed.
Lemma taken_declaration ts l : declaration Taken ts l -> declaration C11 ts l.
Proof. intros []; constructor; auto using taken_declarators. Qed.
Lemma taken_opt ts e : optional Taken ts e -> optional C11 ts e.
Proof. intros []; constructor. now apply taken_c11. Qed.
Lemma taken_first ts i : for_first Taken ts i -> for_first C11 ts i.
Proof. intros []; constructor; auto using taken_declaration. now apply taken_c11. Qed.
Lemma taken_stmt : (forall ts s, stm Taken ts s -> stm C11 ts s) /\ (forall ts b, blk Taken ts b -> blk C11 ts b).
Proof. apply stm_blk; intros; try discriminate; constructor; auto using taken_opt, taken_first, taken_declaration; try now apply taken_c11. Qed.
Definition clean (ts : list tok) : Prop := no_brace ts /\ no_asm ts.
Lemma clean_app a b : clean (a ++ b) -> clean a /\ clean b.
Proof. intros [N A]. apply no_brace_app in N. split; split; try tauto; intros I; apply A; apply in_or_app; auto. Qed.
Lemma clean_cons x b : clean (x :: b) -> clean b.
Proof. intros [N A]. split; [now apply no_brace_cons in N|]. intros I. apply A. now right. Qed.
Lemma c11_declarators ts l : declarators C11 ts l -> no_brace ts -> declarators Taken ts l.
Proof.
  assert (D : forall ts d, declarator C11 ts d -> no_brace ts -> declarator Taken ts d).
  { intros us d [n x|n x vs i H] NB; constructor. apply no_brace_app in NB. destruct NB as [_ NB]. do 2 apply no_brace_cons in NB. destruct H as [ws e G|b]; constructor. now apply c11_taken. }
  induction 1 as [ts d H|ts d us l H HS IH]; intros NB; [constructor; auto|]. apply no_brace_app in NB. destruct NB as [A B]. apply no_brace_cons in B. constructor; auto.
Qed.
Lemma c11_declaration ts l : declaration C11 ts l -> no_brace ts -> declaration Taken ts l.
Proof. intros [us l' H|] NB; constructor. apply no_brace_app in NB. apply c11_declarators; tauto. Qed.
Lemma c11_opt ts e : optional C11 ts e -> no_brace ts -> optional Taken ts e.
Proof. intros [|us x G] NB; constructor. now apply c11_taken. Qed.
Lemma c11_first ts i : for_first C11 ts i -> no_brace ts -> for_first Taken ts i.
Proof. intros [|us e G|t us l D] NB; constructor; [apply no_brace_app in NB; apply c11_taken; tauto|]. apply no_brace_cons in NB. now apply c11_declaration. Qed.
Ltac cleans := repeat match goal with H : clean (_ ++ _) |- _ => apply clean_app in H; destruct H | H : clean (_ :: _) |- _ => apply clean_cons in H end.
Lemma c11_stmt : (forall ts s, stm C11 ts s -> clean ts -> stm Taken ts s) /\ (forall ts b, blk C11 ts b -> clean ts -> blk Taken ts b).
Proof.
  assert (X : forall g ts e, gr C11 g ts e -> clean ts -> gr Taken g ts e) by (intros g ts e G [NB _]; now apply c11_taken).
  apply stm_blk; intros; try discriminate;
    try match goal with H : clean (KW WAsm :: _) |- _ => exfalso; apply H; now left end;
    cleans; constructor; auto;
    first [apply c11_first | apply c11_opt | apply c11_declaration]; try assumption; match goal with H : clean ?t |- no_brace ?t => exact (proj1 H) end.
Qed.
