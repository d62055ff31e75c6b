From Verif Require Import Base UnicodeModel TextModel LexModel LexSpec LexProofs LitModel LitSpec PpModel NodeModel ParseModel SpellSpec SpellProofs SourceModel.
Local Notation length := List.length.

Definition inert (st : pst) (t : ptok) : Prop :=
  is_eof t = false /\ is_hash t = false /\ p_hs t = [] /\ (p_kind t = TK_IDENT -> lookup (macros st) (p_text t) = None).
Lemma inert_run E st e : is_eof e = true -> forall l f, Forall (inert st) l -> (length l < f)%nat -> preprocess2 f E st (l ++ [e]) = LOk (l ++ [e], st).
Proof.
  intros He. induction l as [|t l IH]; intros f HF Hf; (destruct f as [|f]; [cbn in Hf; lia|]); cbn [app preprocess2].
  - rewrite He. reflexivity.
  - inversion HF as [|? ? (H1 & H2 & H3 & H4) HF']; subst. rewrite H1. unfold expand_macro. rewrite H3. cbn [hideset_contains].
    assert (F : find_macro st t = None).
    { unfold find_macro, is_ident_tok. destruct (p_kind t) eqn:K; try reflexivity. apply H4. reflexivity. }
    rewrite F. cbn [lbind]. rewrite H2. cbn [negb]. rewrite IH; [reflexivity|exact HF'|cbn in Hf; lia].
Qed.
Lemma element_not_eof w rest e : source (w ++ rest) -> element_at w rest e -> e_kind e <> TK_EOF.
Proof. intros Hs H. apply (step_element O w rest e O true true Hs H). Qed.
Lemma spells_kinds s l : spells s l -> source s -> Forall (fun e => e_kind e <> TK_EOF) l.
Proof.
  induction 1 as [g Hg|g w rest e l Hg He Hr IH]; intro Hs; constructor.
  - eapply element_not_eof; [|exact He]. apply source_app_r in Hs. exact Hs.
  - apply IH. apply source_app_r in Hs. apply source_app_r in Hs. exact Hs.
Qed.
Definition plain_element (st : pst) (e : element) : Prop :=
  e_text e <> bs "#" /\ (e_kind e = TK_IDENT -> lookup (macros st) (e_text e) = None).
Lemma parser_input_spells fuel E st i s l ts : source s -> spells s l -> Forall (plain_element st) l -> conds st = [] ->
  Forall2 (fun e t => tok_of (e_kind e) (e_text e) = Some t) l ts -> (length l < fuel)%nat ->
  parser_input fuel E st i s = LOk (Some ts).
Proof.
  intros Hs H HP HC HF Hf. destruct (tokenize_spells s l Hs H) as (toks & T1 & T2). pose proof (spells_kinds s l H Hs) as HK.
  unfold parser_input, source_toks. rewrite T1. cbn [lbind].
  assert (G : exists ps e, map (source_tok i s) toks = ps ++ [e] /\ is_eof e = true /\ Forall (inert st) ps /\ length ps = length l /\ toks_upto_eof (ps ++ [e]) = Some ts).
  { clear T1 H Hs. revert l T2 HP HF HK Hf. revert ts. induction toks as [|t toks IH]; intros ts l T2 HP HF HK Hf.
    - destruct l; discriminate.
    - destruct l as [|x l]; cbn [map app] in T2.
      + destruct toks as [|? ?]; [|discriminate]. inversion HF; subst. exists [], (source_tok i s t). cbn [map app]. injection T2 as K _ _ _ _.
        assert (is_eof (source_tok i s t) = true) as X by (unfold is_eof; cbn; rewrite K; reflexivity). cbn [toks_upto_eof]. rewrite X. auto.
      + injection T2 as T0 T2. inversion HP as [|? ? HP0 HP1]; subst. inversion HF as [|? y ? ts' HF0 HF1]; subst. inversion HK as [|? ? HK0 HK1]; subst.
        destruct (IH ts' l T2 HP1 HF1 HK1 ltac:(cbn in Hf; lia)) as (ps & e & A & B & C & D & F).
        exists (source_tok i s t :: ps), e. cbn [map app]. rewrite A. split; [reflexivity|]. split; [exact B|].
        unfold element_of in *. cbn [e_kind e_text] in *.
        assert (X : is_eof (source_tok i s t) = false) by (unfold is_eof; cbn; destruct (kind t); try reflexivity; contradiction).
        split; [constructor; [|exact C]|split; [cbn; lia|]].
        * split; [exact X|]. split; [|split; [reflexivity|apply (proj2 HP0)]]. unfold is_hash, equal. cbn [p_text source_tok].
          destruct (beq _ (bs "#")) eqn:Y; [|apply andb_false_r]. apply beq_eq in Y. exfalso. apply (proj1 HP0). exact Y.
        * cbn [toks_upto_eof]. rewrite X. rewrite F. cbn [p_kind p_text source_tok]. unfold lexeme_of in HF0. rewrite HF0. reflexivity. }
  destruct G as (ps & e & A & B & C & D & F). rewrite A. unfold preprocessor. rewrite (inert_run E st e B ps fuel C ltac:(lia)). cbn [lbind snd]. rewrite HC. cbn [fst lbind]. rewrite F. reflexivity.
Qed.
