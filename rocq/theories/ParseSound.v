From Verif Require Import Base NodeModel ParseModel ParseSpec ParseProofs ParseGrammar.
From Coq Require Import ZifyBool ZifyNat.
Local Notation length := List.length.

(** ** Everything that is accepted is in the loose grammar *)
Lemma expr_left t2 b : gr Loose GExpr t2 b -> forall t1 a, gr Loose GAssign t1 a -> exists e, gr Loose GExpr (t1 ++ KP Comma :: t2) e /\ norm e = then_ (norm a) (norm b).
Proof.
  intros G. remember GExpr as g eqn:E. induction G; try discriminate E.
  - intros t1 a A. exists (XComma a e). split; [|reflexivity]. apply g_comma; [now apply g_expr|exact G].
  - intros t0 a0 A. destruct (IHG1 eq_refl t0 a0 A) as (e & Ge & N). exists (XComma e b). split; [|cbn [norm]; rewrite N; apply then_assoc].
    replace (t0 ++ KP Comma :: t1 ++ KP Comma :: t2) with ((t0 ++ KP Comma :: t1) ++ KP Comma :: t2) by (now rewrite <- app_assoc). now apply g_comma.
Qed.
Definition ntof (g : fn) : nt := match g with PExpr => GExpr | PAssign => GAssign | PCond => GCond | PBin k => GBin k | PCast => GCast | PUnary => GUnary | PPost => GPost | PPrim => GPrim | _ => GPrim end.
Definition sound (g : fn) (ts : list tok) (e : sx) (rest : list tok) : Prop :=
  match g with
  | PBinLoop k a0 => exists t, ts = t ++ rest /\ forall t0 a, norm a = norm a0 -> gr Loose (GBin k) t0 a -> exists e', norm e' = norm e /\ gr Loose (GBin k) (t0 ++ t) e'
  | PPostLoop a0 => exists t, ts = t ++ rest /\ forall t0 a, norm a = norm a0 -> gr Loose GPost t0 a -> exists e', norm e' = norm e /\ gr Loose GPost (t0 ++ t) e'
  | PArgs f acc => (acc = [] -> exists l, norm e = XCall (norm f) (map norm l) /\ ((l = [] /\ ts = KP RPar :: rest) \/ (exists t, ts = t ++ KP RPar :: rest /\ arguments Loose t l))) /\
                   (acc <> [] -> exists l, norm e = XCall (norm f) (map norm (rev acc) ++ map norm l) /\ ((l = [] /\ ts = KP RPar :: rest) \/ (exists t, ts = KP Comma :: t ++ KP RPar :: rest /\ arguments Loose t l)))
  | PAssocs c acc => exists t l, norm e = XGeneric (norm c) (map (fun x => (fst x, norm (snd x))) (rev acc) ++ map (fun x => (fst x, norm (snd x))) l) /\ ts = t ++ KP RPar :: rest /\ assocs Loose t l
  | g => exists t e', ts = t ++ rest /\ norm e' = norm e /\ gr Loose (ntof g) t e'
  end.
Lemma bind_ok r k e rest : bind r k = Ok e rest -> exists e1 r1, r = Ok e1 r1 /\ k e1 r1 = Ok e rest.
Proof. destruct r; try discriminate. eauto. Qed.
Lemma skip_ok p ts k e rest : skip p ts k = Ok e rest -> exists t ts', ts = t :: ts' /\ p t = true /\ k ts' = Ok e rest.
Proof. destruct ts as [|t ts]; [discriminate|]. cbn [skip]. destruct (p t) eqn:E; [|discriminate]. eauto. Qed.
Lemma is_rpar_eq t : is_rpar t = true -> t = KP RPar. Proof. destruct t as [[]| | | | | | | | | | | | |]; try discriminate; reflexivity. Qed.
Lemma is_rbrk_eq t : is_rbrk t = true -> t = KP RBrk. Proof. destruct t as [[]| | | | | | | | | | | | |]; try discriminate; reflexivity. Qed.
Lemma is_colon_eq t : is_colon t = true -> t = KP Colon. Proof. destruct t as [[]| | | | | | | | | | | | |]; try discriminate; reflexivity. Qed.
Lemma is_comma_eq t : is_comma t = true -> t = KP Comma. Proof. destruct t as [[]| | | | | | | | | | | | |]; try discriminate; reflexivity. Qed.
Lemma is_lpar_eq t : is_lpar t = true -> t = KP LPar. Proof. destruct t as [[]| | | | | | | | | | | | |]; try discriminate; reflexivity. Qed.
Ltac sk H := apply skip_ok in H; let t := fresh "t" in destruct H as (t & ? & -> & ?E & H); first [apply is_rpar_eq in E | apply is_rbrk_eq in E | apply is_colon_eq in E | apply is_comma_eq in E | apply is_lpar_eq in E]; subst t.
Ltac bd H a r Ha := apply bind_ok in H; destruct H as (a & r & Ha & H).
(* turns a match on tokens into a few cases *)
Lemma parse_sound f : forall g ts e rest, fine g -> parse f g ts = Ok e rest -> sound g ts e rest.
Proof.
  induction f as [|f IH]; intros g ts e rest FN H; [discriminate H|]. rewrite parse_S in H. cbv zeta in H. destruct g as [| | |k|k a0| | | |a0| |fe acc|c acc]; unfold sound; cbn [ntof].
  - (* expr *) bd H a r Ha. apply IH in Ha; [|exact I]. destruct Ha as (t & a' & -> & N & G).
    assert (R : (Ok a r = Ok e rest -> exists t' e', t ++ r = t' ++ rest /\ norm e' = norm e /\ gr Loose GExpr t' e')) by (intros X; injection X as <- <-; exists t, a'; auto using g_expr).
    destruct r as [|[[]| | | | | | | | | | | | |] r]; try (apply R; exact H). bd H b r' Hb. injection H as <- <-. apply IH in Hb; [|exact I]. destruct Hb as (t2 & b' & -> & N2 & G2).
    destruct (expr_left _ _ G2 _ _ G) as (e' & Ge & Ne). exists (t ++ KP Comma :: t2), e'. split; [now rewrite <- app_assoc|]. split; [|exact Ge]. cbn [norm]. congruence.
  - (* assign *) bd H a r Ha. apply IH in Ha; [|exact I]. destruct Ha as (t & a' & -> & N & G).
    assert (R : (Ok a r = Ok e rest -> exists t' e', t ++ r = t' ++ rest /\ norm e' = norm e /\ gr Loose GAssign t' e')) by (intros X; injection X as <- <-; exists t, a'; auto using g_assign0).
    destruct r as [|[p| | | | | | | | | | | | |] r]; try (apply R; exact H). destruct (assign_op p) as [o|] eqn:A; [|apply R; exact H]. bd H b r' Hb. injection H as <- <-. apply IH in Hb; [|exact I]. destruct Hb as (t2 & b' & -> & N2 & G2).
    exists (t ++ KP p :: t2), (XAssign o a' b'). split; [now rewrite <- app_assoc|]. split; [norms|]. apply l_assign; auto. now apply assign_table.
  - (* cond *) bd H a r Ha. apply IH in Ha; [|cbn; lia]. destruct Ha as (t & a' & -> & N & G). cbn [ntof] in G.
    assert (R : (Ok a r = Ok e rest -> exists t' e', t ++ r = t' ++ rest /\ norm e' = norm e /\ gr Loose GCond t' e')) by (intros X; injection X as <- <-; exists t, a'; auto using g_cond0).
    destruct r as [|[[]| | | | | | | | | | | | |] r]; try (apply R; exact H). clear R.
    assert (R : forall ts', ts' = r -> bind (parse f PExpr ts') (fun x ts => skip is_colon ts (fun ts => bind (parse f PCond ts) (fun b ts => Ok (XCond a x b) ts))) = Ok e rest -> exists t' e', t ++ KP Quest :: r = t' ++ rest /\ norm e' = norm e /\ gr Loose GCond t' e').
    { intros ts' -> H'. bd H' b r' Hb. apply IH in Hb; [|exact I]. destruct Hb as (t2 & b' & -> & N2 & G2). sk H'. bd H' d r2 Hd. injection H' as <- <-. apply IH in Hd; [|exact I]. destruct Hd as (t3 & d' & -> & N3 & G3).
      exists (t ++ KP Quest :: t2 ++ KP Colon :: t3), (XCond a' b' d'). split; [repeat (rewrite <- ?app_assoc; cbn [app]); reflexivity|]. split; [norms|]. now apply g_cond. }
    destruct r as [|[[]| | | | | | | | | | | | |] r]; try (eapply R; [reflexivity|exact H]). bd H d r2 Hd. injection H as <- <-. apply IH in Hd; [|exact I]. destruct Hd as (t3 & d' & -> & N3 & G3).
    exists (t ++ KP Quest :: KP Colon :: t3), (XElvis a' d'). split; [repeat (rewrite <- ?app_assoc; cbn [app]); reflexivity|]. split; [norms|]. now apply g_elvis.
  - (* bin *) cbn [fine] in FN. bd H a r Ha. apply IH in H; [|exact FN]. destruct H as (t2 & -> & H).
    assert (Ga : exists t a', ts = t ++ t2 ++ rest /\ norm a' = norm a /\ gr Loose (below k) t a') by (destruct k as [|k]; (apply IH in Ha; [|cbn; auto; lia]); exact Ha).
    destruct Ga as (t & a' & -> & N & G). destruct (H t a' N ltac:(now apply g_operand)) as (e' & N' & G'). exists (t ++ t2), e'. split; [now rewrite app_assoc|]. auto.
  - (* bin loop *) cbn [fine] in FN.
    assert (R : (Ok a0 ts = Ok e rest -> exists t, ts = t ++ rest /\ forall t0 a, norm a = norm a0 -> gr Loose (GBin k) t0 a -> exists e', norm e' = norm e /\ gr Loose (GBin k) (t0 ++ t) e')).
    { intros X; injection X as <- <-. exists []. split; [reflexivity|]. intros t0 a N G. rewrite app_nil_r. eauto. }
    destruct ts as [|[p| | | | | | | | | | | | |] r]; try (apply R; exact H). destruct (binary k p) as [o|] eqn:B; [|apply R; exact H]. clear R. bd H b r' Hb. apply IH in H; [|exact FN]. destruct H as (t2 & -> & H).
    assert (Gb : exists t b', r = t ++ t2 ++ rest /\ norm b' = norm b /\ gr Loose (below k) t b') by (destruct k as [|k]; (apply IH in Hb; [|cbn; auto; lia]); exact Hb).
    destruct Gb as (t & b' & -> & N & G). exists (KP p :: t ++ t2). split; [cbn [app]; now rewrite <- app_assoc|]. intros t0 a Na Ga. destruct (H (t0 ++ KP p :: t) (XBin o a b') ltac:(norms) ltac:(apply g_binary; auto; now apply infix_binary)) as (e' & N' & G').
    exists e'. split; [exact N'|]. replace (t0 ++ KP p :: t ++ t2) with ((t0 ++ KP p :: t) ++ t2) by (now rewrite <- app_assoc). exact G'.
  - (* cast *)
    assert (R : parse f PUnary ts = Ok e rest -> exists t e', ts = t ++ rest /\ norm e' = norm e /\ gr Loose GCast t e') by (intros X; apply IH in X; [|exact I]; destruct X as (t & e' & -> & N & G); exists t, e'; auto using g_cast0).
    destruct ts as [|[[]| | | | | | | | | | | | |] [|[] ts]]; try (apply R; exact H). sk H. rename x into ts'.
    assert (R' : bind (parse f PCast ts') (fun e ts => Ok (XCast t e) ts) = Ok e rest -> exists u e', KP LPar :: KType t :: KP RPar :: ts' = u ++ rest /\ norm e' = norm e /\ gr Loose GCast u e').
    { intros X. bd X a r Ha. injection X as <- <-. apply IH in Ha; [|exact I]. destruct Ha as (u & a' & -> & N & G). exists (KP LPar :: KType t :: KP RPar :: u), (XCast t a'). split; [reflexivity|]. split; [norms|]. now apply g_cast. }
    destruct ts' as [|[] ts']; first [apply R'; exact H | apply R; exact H].
  - (* unary *)
    assert (R : parse f PPost ts = Ok e rest -> exists t e', ts = t ++ rest /\ norm e' = norm e /\ gr Loose GUnary t e') by (intros X; apply IH in X; [|exact I]; destruct X as (t & e' & -> & N & G); exists t, e'; auto using g_unary).
    destruct ts as [|[p| | | | | | | | | | | | |] ts]; try (apply R; exact H).
    assert (U : forall u, In (p, u) unary_operators -> bind (parse f PCast ts) (fun e ts => Ok (XUn u e) ts) = Ok e rest -> exists t e', KP p :: ts = t ++ rest /\ norm e' = norm e /\ gr Loose GUnary t e').
    { intros u I' X. bd X a r Ha. injection X as <- <-. apply IH in Ha; [|exact I]. destruct Ha as (t & a' & -> & N & G). exists (KP p :: t), (XUn u a'). split; [reflexivity|]. split; [norms|]. now apply g_prefix. }
    assert (U' : forall u, (forall t e, gr Loose GUnary t e -> gr Loose GUnary (KP p :: t) (XUn u e)) -> bind (parse f PUnary ts) (fun e ts => Ok (XUn u e) ts) = Ok e rest -> exists t e', KP p :: ts = t ++ rest /\ norm e' = norm e /\ gr Loose GUnary t e').
    { intros u I' X. bd X a r Ha. injection X as <- <-. apply IH in Ha; [|exact I]. destruct Ha as (t & a' & -> & N & G). exists (KP p :: t), (XUn u a'). split; [reflexivity|]. split; [norms|]. now apply I'. }
    destruct p; cbn [prefix] in H; try (apply R; exact H); try (eapply U; [|exact H]; cbn; tauto); [eapply U'; [|exact H]; intros; now constructor|eapply U'; [|exact H]; intros; now constructor|].
    destruct ts as [|[] ts]; try discriminate H. injection H as <- <-. exists [KP AmpAmp; KId n], (XAtom (ALabelOf n)). split; [reflexivity|]. split; [reflexivity|]. apply g_label.
  - (* post *)
    assert (R : bind (parse f PPrim ts) (fun e ts => parse f (PPostLoop e) ts) = Ok e rest -> exists t e', ts = t ++ rest /\ norm e' = norm e /\ gr Loose GPost t e').
    { intros X. bd X a r Ha. apply IH in Ha; [|exact I]. destruct Ha as (t & a' & -> & N & G). apply IH in X; [|exact I]. destruct X as (t2 & -> & X). destruct (X t a' N ltac:(now apply g_post)) as (e' & N' & G'). exists (t ++ t2), e'. split; [now rewrite app_assoc|]. auto. }
    destruct ts as [|[[]| | | | | | | | | | | | |] [|[] ts]]; try (apply R; exact H). sk H. destruct x as [|[] x]; try discriminate H. injection H as <- <-. exists [KP LPar; KType t; KP RPar; KBrace i], (XAtom (ACompound t i)). split; [reflexivity|]. split; [reflexivity|]. apply g_compound. discriminate.
  - (* post loop *)
    assert (R : (Ok a0 ts = Ok e rest -> exists t, ts = t ++ rest /\ forall t0 a, norm a = norm a0 -> gr Loose GPost t0 a -> exists e', norm e' = norm e /\ gr Loose GPost (t0 ++ t) e')).
    { intros X; injection X as <- <-. exists []. split; [reflexivity|]. intros t0 a N G. rewrite app_nil_r. eauto. }
    assert (R1 : forall k u ts', ts = u ++ ts' -> (forall t0 a, norm a = norm a0 -> gr Loose GPost t0 a -> exists a', norm a' = norm (k a0) /\ gr Loose GPost (t0 ++ u) a') -> parse f (PPostLoop (k a0)) ts' = Ok e rest -> exists t, ts = t ++ rest /\ forall t0 a, norm a = norm a0 -> gr Loose GPost t0 a -> exists e', norm e' = norm e /\ gr Loose GPost (t0 ++ t) e').
    { intros k u ts' -> K X. apply IH in X; [|exact I]. destruct X as (t & -> & X). exists (u ++ t). split; [now rewrite app_assoc|]. intros t0 a N G. destruct (K t0 a N G) as (a' & N' & G'). destruct (X _ _ N' G') as (e' & N2 & G2). exists e'. split; [exact N2|]. now rewrite app_assoc. }
    destruct ts as [|[[]| | | | | | | | | | | | |] ts]; try (apply R; exact H).
    + (* call *) bd H a r Ha. apply IH in Ha; [|exact I]. destruct Ha as [Ha _]. destruct (Ha eq_refl) as (l & N & [[-> ->]|(t & -> & A)]).
      * apply IH in H; [|exact I]. destruct H as (t & -> & H). exists (KP LPar :: KP RPar :: t). split; [reflexivity|]. intros t0 b Nb G. destruct (H (t0 ++ [KP LPar; KP RPar]) (XCall b []) ltac:(rewrite N; norms) ltac:(now apply g_call0)) as (e' & N' & G'). exists e'. split; [exact N'|]. rewrite <- app_assoc in G'. exact G'.
      * apply IH in H; [|exact I]. destruct H as (t2 & -> & H). exists (KP LPar :: t ++ KP RPar :: t2). split; [cbn [app]; now rewrite <- app_assoc|]. intros t0 b Nb G. destruct (H (t0 ++ KP LPar :: t ++ [KP RPar]) (XCall b l) ltac:(rewrite N; norms) ltac:(now apply g_call)) as (e' & N' & G'). exists e'. split; [exact N'|]. repeat (rewrite <- ?app_assoc in G'; cbn [app] in G'). exact G'.
    + bd H i r Hi. apply IH in Hi; [|exact I]. destruct Hi as (t & i' & -> & N & G). sk H. rename x into ts'. eapply (R1 (fun z => XIndex z i) (KP LBrk :: t ++ [KP RBrk])); [|intros t0 a Na Ga; exists (XIndex a i'); split; [norms|now apply g_index]|exact H]. cbn [app]. now rewrite <- app_assoc.
    + destruct ts as [|[] ts]; try discriminate H. eapply (R1 (fun z => XMem false z n) [KP Dot; KId n]); [reflexivity|intros t0 a Na Ga; exists (XMem false a n); split; [norms|now apply g_dot]|exact H].
    + destruct ts as [|[] ts]; try discriminate H. eapply (R1 (fun z => XMem true z n) [KP Arrow; KId n]); [reflexivity|intros t0 a Na Ga; exists (XMem true a n); split; [norms|now apply g_arrow]|exact H].
    + eapply (R1 (fun z => XPost true z) [KP PlusPlus]); [reflexivity|intros t0 a Na Ga; exists (XPost true a); split; [norms|now apply g_postinc]|exact H].
    + eapply (R1 (fun z => XPost false z) [KP MinusMinus]); [reflexivity|intros t0 a Na Ga; exists (XPost false a); split; [norms|now apply g_postdec]|exact H].
  - (* prim *)
    destruct ts as [|t ts]; [discriminate H|]. destruct t as [p|n|n|s|t|i| | | | | | | |]; try discriminate H.
    + destruct p; try discriminate H.
      assert (H' : bind (parse f PExpr ts) (fun e ts => skip is_rpar ts (fun ts => Ok e ts)) = Ok e rest) by (destruct ts as [|[[]| | | | | | | | | | | | |] ts]; first [discriminate H|exact H]). clear H.
      bd H' a r Ha. sk H'. injection H' as <- <-. apply IH in Ha; [|exact I]. destruct Ha as (t & a' & -> & N & G). exists (KP LPar :: t ++ [KP RPar]), a'. split; [cbn [app]; now rewrite <- app_assoc|]. split; [exact N|]. now apply g_paren.
    + injection H as <- <-. exists [KId n], (XAtom (AId n)). repeat split. constructor.
    + injection H as <- <-. exists [KNum n], (XAtom (ANum n)). repeat split. constructor.
    + injection H as <- <-. exists [KStr s], (XAtom (AStr s)). repeat split. constructor.
    + assert (R : bind (parse f PUnary ts) (fun e ts => Ok (XUn USizeof e) ts) = Ok e rest -> exists t e', KSizeof :: ts = t ++ rest /\ norm e' = norm e /\ gr Loose GPrim t e').
      { intros X. bd X a r Ha. injection X as <- <-. apply IH in Ha; [|exact I]. destruct Ha as (t & a' & -> & N & G). exists (KSizeof :: t), (XUn USizeof a'). split; [reflexivity|]. split; [norms|]. now apply l_sizeof. }
      destruct ts as [|[[]| | | | | | | | | | | | |] [|[] ts]]; try (apply R; exact H). sk H. injection H as <- <-. exists [KSizeof; KP LPar; KType t; KP RPar], (XAtom (ASizeT t)). repeat split. now constructor.
    + assert (R : bind (parse f PUnary ts) (fun e ts => Ok (XUn UAlignof e) ts) = Ok e rest -> exists t e', KAlignof :: ts = t ++ rest /\ norm e' = norm e /\ gr Loose GPrim t e').
      { intros X. bd X a r Ha. injection X as <- <-. apply IH in Ha; [|exact I]. destruct Ha as (t & a' & -> & N & G). exists (KAlignof :: t), (XUn UAlignof a'). split; [reflexivity|]. split; [norms|]. now apply l_alignof. }
      destruct ts as [|[[]| | | | | | | | | | | | |] [|[] ts]]; try (apply R; exact H). sk H. injection H as <- <-. exists [KAlignof; KP LPar; KType t; KP RPar], (XAtom (AAlignT t)). repeat split. now constructor.
    + sk H. bd H a r Ha. apply IH in Ha; [|exact I]. destruct Ha as (t & a' & -> & N & G). apply IH in H; [|exact I]. destruct H as (u & l & N' & -> & A). exists (KGeneric :: KP LPar :: t ++ u ++ [KP RPar]), (XGeneric a' l). split; [cbn [app]; now repeat (rewrite <- ?app_assoc; cbn [app])|]. split; [rewrite N'; cbn [norm rev map app]; congruence|]. apply g_generic; auto.
    + destruct ts as [|[[]| | | | | | | | | | | | |] ts]; try discriminate H. destruct ts as [|[] ts]; try discriminate H. destruct ts as [|[[]| | | | | | | | | | | | |] ts]; try discriminate H. destruct ts as [|[] ts]; try discriminate H. destruct ts as [|[[]| | | | | | | | | | | | |] ts]; try discriminate H. injection H as <- <-. exists [KCompat; KP LPar; KType t; KP Comma; KType t0; KP RPar], (XAtom (ACompat t t0)). repeat split. constructor.
    + sk H. bd H a r Ha. apply IH in Ha; [|exact I]. destruct Ha as (t & a' & -> & N & G). sk H. bd H b r' Hb. apply IH in Hb; [|exact I]. destruct Hb as (t2 & b' & -> & N2 & G2). sk H. bd H c r2 Hc. apply IH in Hc; [|exact I]. destruct Hc as (t3 & c' & -> & N3 & G3). sk H. injection H as <- <-.
      exists (KCas :: KP LPar :: t ++ KP Comma :: t2 ++ KP Comma :: t3 ++ [KP RPar]), (XCas a' b' c'). split; [cbn [app]; now repeat (rewrite <- ?app_assoc; cbn [app])|]. split; [norms|]. now apply g_cas.
    + sk H. bd H a r Ha. apply IH in Ha; [|exact I]. destruct Ha as (t & a' & -> & N & G). sk H. bd H b r' Hb. apply IH in Hb; [|exact I]. destruct Hb as (t2 & b' & -> & N2 & G2). sk H. injection H as <- <-.
      exists (KExch :: KP LPar :: t ++ KP Comma :: t2 ++ [KP RPar]), (XExch a' b'). split; [cbn [app]; now repeat (rewrite <- ?app_assoc; cbn [app])|]. split; [norms|]. now apply g_exch.
  - (* args *)
    assert (Z : ts = KP RPar :: rest /\ e = XCall fe (rev acc) \/ match acc with [] => bind (parse f PAssign ts) (fun a ts => parse f (PArgs fe [a]) ts) | _ => skip is_comma ts (fun ts => bind (parse f PAssign ts) (fun a ts => parse f (PArgs fe (a :: acc)) ts)) end = Ok e rest).
    { destruct ts as [|[[]| | | | | | | | | | | | |] ts]; try (right; destruct acc; exact H). left. injection H as <- <-. auto. }
    clear H.
    assert (Y : forall ts1, bind (parse f PAssign ts1) (fun a ts => parse f (PArgs fe (a :: acc)) ts) = Ok e rest -> exists l, norm e = XCall (norm fe) (map norm (rev acc) ++ map norm l) /\ exists t, ts1 = t ++ KP RPar :: rest /\ arguments Loose t l).
    { intros ts1 X. bd X a r Ha. apply IH in Ha; [|exact I]. destruct Ha as (t & a' & -> & N & G). apply IH in X; [|exact I]. destruct X as [_ X]. destruct (X ltac:(discriminate)) as (l & N' & [[-> ->]|(t' & -> & A)]).
      - exists [a']. split; [rewrite N'; cbn [rev map]; rewrite !map_app, app_nil_r; cbn [map]; congruence|]. exists t. split; [reflexivity|]. now constructor.
      - exists (a' :: l). split; [rewrite N'; cbn [rev map]; rewrite !map_app, <- app_assoc; cbn [map app]; congruence|]. exists (t ++ KP Comma :: t'). split; [now rewrite <- app_assoc|]. now constructor. }
    split; intros EA.
    + subst acc. destruct Z as [[-> ->]|Z]; [exists []; split; [reflexivity|left; auto]|]. destruct (Y ts Z) as (l & N & t & -> & A). exists l. split; [exact N|]. right. eauto.
    + destruct Z as [[-> ->]|Z]; [exists []; split; [cbn [norm map]; now rewrite app_nil_r|left; auto]|]. destruct acc as [|a1 acc]; [now elim EA|]. sk Z. destruct (Y x Z) as (l & N & t & -> & A). exists l. split; [exact N|]. right. eauto.
  - (* assocs *)
    assert (Y : forall o ts1, bind (parse f PAssign ts1) (fun a ts => parse f (PAssocs c ((o, a) :: acc)) ts) = Ok e rest -> exists t a' t' l, ts1 = t ++ t' ++ KP RPar :: rest /\ gr Loose GAssign t a' /\ assocs Loose t' l /\ norm e = XGeneric (norm c) (map (fun x => (fst x, norm (snd x))) (rev acc) ++ map (fun x => (fst x, norm (snd x))) ((o, a') :: l))).
    { intros o ts1 X. bd X a r Ha. apply IH in Ha; [|exact I]. destruct Ha as (t & a' & -> & N & G). apply IH in X; [|exact I]. destruct X as (t' & l & N' & -> & A). exists t, a', t', l. split; [reflexivity|]. split; [exact G|]. split; [exact A|]. rewrite N'. cbn [rev map fst snd]. rewrite !map_app, <- app_assoc. cbn [map app fst snd]. congruence. }
    destruct ts as [|[[]| | | | | | | | | | | | |] ts]; try discriminate H.
    + injection H as <- <-. exists [], []. split; [cbn [norm map]; now rewrite app_nil_r|]. split; [reflexivity|constructor].
    + cbn [skip is_comma] in H. destruct ts as [|[] ts]; try discriminate H.
      * sk H. destruct (Y _ _ H) as (u & a' & t' & l & -> & G & A & N). exists (KP Comma :: KType t :: KP Colon :: u ++ t'), ((Some t, a') :: l). split; [exact N|]. split; [cbn [app]; now rewrite <- app_assoc|]. now constructor.
      * sk H. destruct (Y _ _ H) as (u & a' & t' & l & -> & G & A & N). exists (KP Comma :: KDefault :: KP Colon :: u ++ t'), ((None, a') :: l). split; [exact N|]. split; [cbn [app]; now rewrite <- app_assoc|]. now constructor.
Qed.
