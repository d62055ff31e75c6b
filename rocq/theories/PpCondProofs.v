(** Proofs about conditional inclusion and include guards. *)
From Verif Require Import Base UnicodeModel TextModel LexModel LitModel PpModel PpSpec PpProofs.
From Coq Require Import Arith.
From Coq Require Import ZifyBool ZifyNat.
Local Notation length := List.length.

Ltac beqs :=
  repeat match goal with
  | |- context [beq (bs ?a) (bs ?b)] =>
      let v := eval vm_compute in (beq (bs a) (bs b)) in change (beq (bs a) (bs b)) with v
  end; cbn [orb andb negb]; cbv iota.

Lemma hash_is h : hash_at h -> is_hash h = true.
Proof. intros (_ & H1 & H2). unfold is_hash, equal. rewrite H1, H2. reflexivity. Qed.
Lemma hash_not_eof h : hash_at h -> is_eof h = false.
Proof. intros (H & _). unfold is_eof. rewrite H. reflexivity. Qed.
Lemma not_hash_false t : ~ (p_bol t = true /\ p_text t = bs "#") -> is_hash t = false.
Proof.
  intro H. destruct (is_hash t) eqn:Q; [|reflexivity]. exfalso. apply H.
  unfold is_hash in Q. apply andb_prop in Q as [Q1 Q2]. apply equal_iff in Q2. auto.
Qed.
Lemma hash_inv t : is_hash t = true -> p_bol t = true /\ p_text t = bs "#".
Proof. unfold is_hash. intro Q. apply andb_prop in Q as [Q1 Q2]. apply equal_iff in Q2. auto. Qed.

Lemma hd_is_iff l s : s <> [] -> hd_is l s = true <-> text_at l = s.
Proof.
  intro Hs. destruct l as [|t r]; simpl; [split; [discriminate|congruence]|]. apply equal_iff.
Qed.
Lemma hd_is_not l s : s <> [] -> text_at l <> s -> hd_is l s = false.
Proof. intros Hs H. destruct (hd_is l s) eqn:Q; [|reflexivity]. apply hd_is_iff in Q; [contradiction|exact Hs]. Qed.

Ltac nb := let H := fresh in intro H; vm_compute in H; discriminate.

Lemma if_name_is l : is_if_name l = true <-> if_name (text_at l).
Proof.
  unfold is_if_name, if_name. rewrite !orb_true_iff. rewrite !hd_is_iff by nb. tauto.
Qed.
Lemma if_name_not l : ~ if_name (text_at l) -> is_if_name l = false.
Proof. intro H. destruct (is_if_name l) eqn:Q; [|reflexivity]. apply if_name_is in Q. contradiction. Qed.
Lemma else_name_not l : text_at l <> bs "elif" -> text_at l <> bs "else" -> text_at l <> bs "endif" -> is_else_name l = false.
Proof. intros H1 H2 H3. unfold is_else_name. rewrite !hd_is_not; auto; nb. Qed.

Definition starts_hash (l : list ptok) : Prop := match l with t :: _ => hash_at t | [] => False end.

Lemma text_at_app r rest : starts_hash rest -> text_at (r ++ rest) = match r with [] => bs "#" | _ => text_at r end.
Proof. intro H. destruct r; [|reflexivity]. destruct rest as [|t rest]; [destruct H|]. simpl. apply H. Qed.

Lemma skip_nested c l : nested c l -> forall d rest, (c = true -> d <> O) -> starts_hash rest ->
  skip_cond d (l ++ rest) = skip_cond d rest.
Proof.
  induction 1 as [c|c t r Hk Hh H IH|c h i b h2 e r Hh Hi Hb IHb Hh2 He H IH]; intros d rest Hd Hr; [reflexivity| |].
  - cbn [app skip_cond]. rewrite (proj2 (is_eof_not t) Hk).
    destruct (is_hash t) eqn:Q.
    + apply hash_inv in Q as [Q1 Q2]. destruct (Hh Q1 Q2) as (N1 & N2 & N3).
      assert (T : text_at (r ++ rest) = match r with [] => bs "#" | _ => text_at r end) by (apply text_at_app; exact Hr).
      assert (M1 : ~ if_name (text_at (r ++ rest))).
      { rewrite T. destruct r; [|exact N1]. intros [X|[X|X]]; vm_compute in X; discriminate. }
      assert (M2 : text_at (r ++ rest) <> bs "endif") by (rewrite T; destruct r; [nb|exact N2]).
      rewrite (if_name_not _ M1). cbn [andb].
      destruct d as [|d].
      * destruct c; [exfalso; apply Hd; reflexivity|]. destruct (N3 eq_refl) as [N4 N5].
        rewrite else_name_not; [| rewrite T; destruct r; [nb|exact N4] | rewrite T; destruct r; [nb|exact N5] |exact M2].
        apply IH; [discriminate|exact Hr].
      * rewrite hd_is_not; [|nb|exact M2]. apply IH; [discriminate|exact Hr].
    + cbn [andb]. destruct d; apply IH; auto.
  - cbn [app skip_cond]. rewrite (hash_not_eof _ Hh), (hash_is _ Hh).
    match goal with |- context [is_if_name ?x] => replace (is_if_name x) with true by (symmetry; apply (if_name_is x); exact Hi) end. cbn [andb].
    rewrite <- app_assoc. cbn [app]. rewrite (IHb (S d) (h2 :: e :: r ++ rest)); [|discriminate|exact Hh2].
    cbn [skip_cond]. rewrite (hash_not_eof _ Hh2), (hash_is _ Hh2).
    rewrite if_name_not by (cbn [text_at]; rewrite He; intros [X|[X|X]]; vm_compute in X; discriminate).
    cbn [andb hd_is]. rewrite (proj2 (equal_iff e _) He). apply IH; auto.
Qed.

Lemma skip_to g h i r : nested false g -> hash_at h -> p_text i = bs "elif" \/ p_text i = bs "else" \/ p_text i = bs "endif" ->
  skip_cond_incl (g ++ h :: i :: r) = LOk (h :: i :: r).
Proof.
  intros Hg Hh Hi. unfold skip_cond_incl. rewrite (skip_nested false g Hg O (h :: i :: r)); [|discriminate|exact Hh].
  cbn [skip_cond]. rewrite (hash_not_eof _ Hh), (hash_is _ Hh).
  rewrite if_name_not.
  2:{ cbn [text_at]. destruct Hi as [X|[X|X]]; rewrite X; intros [Y|[Y|Y]]; vm_compute in Y; discriminate. }
  cbn [andb]. replace (is_else_name (i :: r)) with true; [reflexivity|].
  symmetry. unfold is_else_name, hd_is, equal. destruct Hi as [X|[X|X]]; rewrite X; reflexivity.
Qed.

(** ** One step of the main loop *)
Lemma hash_no_expand pp st h r : hash_at h -> expand_macro pp st h r = LOk None.
Proof.
  intros (K & _ & _). unfold expand_macro. destruct (hideset_contains _ _); [reflexivity|].
  unfold find_macro, is_ident_tok. rewrite K. reflexivity.
Qed.

Lemma pp_result_mono f E st l r : preprocess2 f E st l = r -> r <> LFuel -> forall g, (f <= g)%nat -> preprocess2 g E st l = r.
Proof. intros H N g L. destruct (pp_mono f g E st l L) as [X|X]; congruence. Qed.

Lemma dir_step E st h r l' st' res : hash_at h ->
  (exists f, directive E (preprocess2 f E) f st h r = LOk (l', st')) ->
  pp_result E st' l' res -> pp_result E st (h :: r) res.
Proof.
  intros Hh [f Hd] [g [Hg Hn]]. exists (S (f + g)). split; [|exact Hn].
  rewrite pp_unfold, (hash_not_eof _ Hh), (hash_no_expand _ _ _ _ Hh). cbn [lbind].
  rewrite (hash_is _ Hh). cbn [negb].
  assert (Hd' : directive E (preprocess2 (f + g) E) (f + g) st h r = LOk (l', st')).
  { destruct (directive_mono E (preprocess2 f E) (preprocess2 (f + g) E) f (f + g) st h r) as [X|X]; try congruence.
    - intros s l. apply pp_mono. lia.
    - lia. }
  rewrite Hd'. cbn [lbind fst snd]. apply (pp_result_mono g); auto. lia.
Qed.

Ltac dir_name H := unfold directive, equal; rewrite H; beqs.

Lemma dir_ifdef E pp f st h i n r : p_text i = bs "ifdef" -> r <> [] ->
  directive E pp f st h (i :: n :: r) =
  lbind (if defined_in st n then LOk r else skip_cond_incl r) (fun l'' => LOk (l'', set_conds st ((IN_THEN, defined_in st n) :: conds st))).
Proof.
  intros H Hr. dir_name H.
  replace (match find_macro st n with Some _ => true | None => false end) with (defined_in st n).
  2:{ unfold defined_in, find_macro, is_ident_tok. destruct (p_kind n); try reflexivity. }
  destruct r as [|t r]; [congruence|]. cbn [skip_line lbind]. destruct (defined_in st n); reflexivity.
Qed.
Lemma dir_ifndef E pp f st h i n r : p_text i = bs "ifndef" -> r <> [] ->
  directive E pp f st h (i :: n :: r) =
  lbind (if defined_in st n then skip_cond_incl r else LOk r) (fun l'' => LOk (l'', set_conds st ((IN_THEN, negb (defined_in st n)) :: conds st))).
Proof.
  intros H Hr. dir_name H.
  replace (match find_macro st n with Some _ => false | None => true end) with (negb (defined_in st n)).
  2:{ unfold defined_in, find_macro, is_ident_tok. destruct (p_kind n); try reflexivity. destruct (lookup (macros st) (p_text n)); reflexivity. }
  destruct r as [|t r]; [congruence|]. cbn [skip_line lbind]. destruct (defined_in st n); reflexivity.
Qed.
Lemma dir_if E pp f st h i l : p_text i = bs "if" ->
  directive E pp f st h (i :: l) =
  lbind (eval_const_expr E pp st l) (fun vls =>
        let v := fst (fst vls) in
        let st' := set_conds (snd vls) ((IN_THEN, negb (v =? 0)) :: conds (snd vls)) in
        lbind (if v =? 0 then skip_cond_incl (snd (fst vls)) else LOk (snd (fst vls))) (fun l' => LOk (l', st'))).
Proof. intro H. dir_name H. reflexivity. Qed.
Lemma dir_elif E pp f st h i l : p_text i = bs "elif" ->
  directive E pp f st h (i :: l) =
        match conds st with
        | [] | (IN_ELSE, _) :: _ => LErr
        | (_, true) :: cs =>
            lbind (skip_cond_incl (i :: l)) (fun l' => LOk (l', set_conds st ((IN_ELIF, true) :: cs)))
        | (_, false) :: cs =>
            lbind (eval_const_expr E pp (set_conds st ((IN_ELIF, false) :: cs)) l) (fun vls =>
            if fst (fst vls) =? 0 then
              lbind (skip_cond_incl (snd (fst vls))) (fun l' => LOk (l', snd vls))
            else
              LOk (snd (fst vls), set_conds (snd vls) (match conds (snd vls) with (c, _) :: cs' => (c, true) :: cs' | [] => [] end)))
        end.
Proof. intro H. dir_name H. reflexivity. Qed.
Lemma dir_else E pp f st h i l : p_text i = bs "else" -> l <> [] ->
  directive E pp f st h (i :: l) =
        match conds st with
        | [] | (IN_ELSE, _) :: _ => LErr
        | (_, inc) :: cs =>
            lbind (if inc then skip_cond_incl l else LOk l) (fun l'' => LOk (l'', set_conds st ((IN_ELSE, inc) :: cs)))
        end.
Proof. intros H Hl. dir_name H. destruct l; [congruence|]. reflexivity. Qed.
Lemma dir_endif E pp f st h i l : p_text i = bs "endif" -> l <> [] ->
  directive E pp f st h (i :: l) =
        match conds st with
        | [] => LErr
        | _ :: cs => LOk (l, set_conds st cs)
        end.
Proof. intros H Hl. dir_name H. destruct l; [congruence|]. destruct (conds st); reflexivity. Qed.

Lemma set_conds2 st a b : set_conds (set_conds st a) b = set_conds st b.
Proof. reflexivity. Qed.

Lemma prepend_nil {S} (r : lres (list ptok * S)) : prepend [] r = r.
Proof. destruct r as [[]| | |]; reflexivity. Qed.
Lemma prepend_app {S} a b (r : lres (list ptok * S)) : prepend (a ++ b) r = prepend a (prepend b r).
Proof. destruct r as [[]| | |]; simpl; try reflexivity. rewrite app_assoc. reflexivity. Qed.
Lemma prepend_fuel {S} a (r : lres (list ptok * S)) : r <> LFuel -> prepend a r <> LFuel.
Proof. destruct r as [[]| | |]; simpl; congruence. Qed.

Lemma starts_line_ne l : starts_line l -> l <> [].
Proof. destruct l; simpl; [tauto|congruence]. Qed.
Lemma app_ne {A} (a b : list A) : b <> [] -> a ++ b <> [].
Proof. destruct a; simpl; [auto|congruence]. Qed.

Lemma endif_step E st h e c cs rest r : hash_at h -> p_text e = bs "endif" -> starts_line rest ->
  pp_result E (set_conds st cs) rest r -> pp_result E (set_conds st (c :: cs)) (h :: e :: rest) r.
Proof.
  intros Hh He Hr H. eapply dir_step; [exact Hh| |exact H]. exists O.
  rewrite (dir_endif _ _ _ _ _ _ _ He (starts_line_ne _ Hr)). reflexivity.
Qed.

Lemma skipped_run E tail : skipped_arms tail -> forall st ctx cs rest r, ctx <> IN_ELSE -> starts_line rest ->
  pp_result E (set_conds st cs) rest r -> pp_result E (set_conds st ((ctx, true) :: cs)) (tail ++ rest) r.
Proof.
  induction 1 as [h e Hh He|h i g h2 e Hh Hi Hg Hh2 He|h i g rest0 Hh Hi Hki Hbi Hg H IH]; intros st ctx cs rest r Hc Hr HR.
  - cbn [app]. apply endif_step; auto.
  - cbn [app]. rewrite <- app_assoc. cbn [app].
    eapply dir_step; [exact Hh| |apply (endif_step E st h2 e (IN_ELSE, true) cs rest r Hh2 He Hr HR)].
    exists O. rewrite dir_else; [|exact Hi|apply app_ne; discriminate].
    rewrite (skip_to g h2 e rest Hg Hh2) by auto. cbn [conds set_conds lbind]. destruct ctx; [| |congruence]; reflexivity.
  - cbn [app]. rewrite <- app_assoc.
    assert (X : exists h2 e r2, rest0 = h2 :: e :: r2 /\ hash_at h2 /\ (p_text e = bs "elif" \/ p_text e = bs "else" \/ p_text e = bs "endif")).
    { inversion H; subst; eauto 10. }
    destruct X as (h2 & e & r2 & -> & Hh2 & He).
    eapply dir_step; [exact Hh| |apply (IH st IN_ELIF cs rest r ltac:(discriminate) Hr HR)].
    exists O. rewrite dir_elif by exact Hi.
    assert (Hg' : nested false (i :: g)).
    { apply nt_tok; [exact Hki|intros X; congruence|exact Hg]. }
    change (i :: g ++ (h2 :: e :: r2) ++ rest) with ((i :: g) ++ h2 :: e :: r2 ++ rest).
    rewrite (skip_to (i :: g) h2 e (r2 ++ rest) Hg' Hh2 He). cbn [conds set_conds lbind]. destruct ctx; [| |congruence]; reflexivity.
Qed.

Definition sel_ok (E : env) (st : pst) (l out : list ptok) (st' : pst) : Prop :=
  (l = [] \/ starts_line l) /\ forall cs, consumes E (set_conds st cs) l out (set_conds st' cs).
Definition arms_ok (E : env) (st : pst) (b : bool) (l o : list ptok) (st' : pst) : Prop :=
  starts_line l /\
  forall cs ctx rest r, ctx <> IN_ELSE -> starts_line rest -> pp_result E (set_conds st' cs) rest r ->
    exists l', (if b then LOk (l ++ rest) else skip_cond_incl (l ++ rest)) = LOk l' /\
      pp_result E (set_conds st ((ctx, b) :: cs)) l' (prepend o r).

Lemma starts_app a b : a = [] \/ starts_line a -> starts_line b -> starts_line (a ++ b).
Proof. intros [->|H] Hb; [exact Hb|]. destruct a; [destruct H|exact H]. Qed.
Lemma hash_starts h r : hash_at h -> starts_line (h :: r).
Proof. intros (_ & H & _). exact H. Qed.
Lemma skipped_starts t : skipped_arms t -> starts_line t.
Proof. intro H. inversion H; subst; apply hash_starts; assumption. Qed.
Lemma starts_app_l_ex a b : starts_line a -> starts_line (a ++ b).
Proof. destruct a; simpl; tauto. Qed.
Lemma starts_app_l a h r : starts_line (a ++ [h]) -> starts_line (a ++ h :: r).
Proof. destruct a; simpl; auto. Qed.

Lemma cond_line_run E st line b st1 : cond_line E st line b st1 -> starts_line line /\
  forall cs l l' res, starts_line l -> (if b then LOk l else skip_cond_incl l) = LOk l' ->
  pp_result E (set_conds st1 ((IN_THEN, b) :: cs)) l' res -> pp_result E (set_conds st cs) (line ++ l) res.
Proof.
  intro H. inversion H as [h i n Hh Hi|h i n Hh Hi|h i expr v st' Hh Hi Hv]; subst;
    (split; [apply hash_starts; assumption|]); intros cs l l' res Hl Hs HR; cbn [app]; (eapply dir_step; [exact Hh| |exact HR]).
  - exists O. cbn [app]. rewrite (dir_ifdef _ _ _ _ _ _ _ _ Hi (starts_line_ne _ Hl)).
    change (defined_in (set_conds st1 cs) n) with (defined_in st1 n). rewrite Hs. reflexivity.
  - exists O. cbn [app]. rewrite (dir_ifndef _ _ _ _ _ _ _ _ Hi (starts_line_ne _ Hl)).
    change (defined_in (set_conds st1 cs) n) with (defined_in st1 n).
    destruct (defined_in st1 n); cbn [negb] in *; rewrite Hs; reflexivity.
  - destruct (Hv cs l Hl) as [f Hf]. exists f. cbn [app]. rewrite (dir_if _ _ _ _ _ _ _ Hi), Hf. cbn [lbind fst snd]. cbv zeta.
    destruct (v =? 0); cbn [negb] in *; rewrite Hs; reflexivity.
Qed.

Lemma sel_runs E : forall st l out st', sel E st l out st' -> sel_ok E st l out st'.
Proof.
  apply (sel_mut E (fun st l out st' _ => sel_ok E st l out st') (fun st b l o st' _ => arms_ok E st b l o st')).
  - intro st. split; [auto|]. intros cs rest r _ H. rewrite prepend_nil. exact H.
  - intros st chunk o st1 l out st2 Hc Hp _ [Hl IH]. split; [right; apply starts_app_l_ex; exact Hc|].
    intros cs rest r Hr HR. rewrite <- app_assoc, prepend_app.
    apply (Hp cs); [apply starts_app; assumption|]. apply IH; assumption.
  - intros st line b st1 a o st2 l out st3 Hc _ [Ha IHa] _ [Hl IHl].
    destruct (cond_line_run _ _ _ _ _ Hc) as [Hs Hrun]. split; [right; destruct line; [destruct Hs|exact Hs]|].
    intros cs rest r Hr HR. rewrite <- !app_assoc, prepend_app.
    assert (HL : starts_line (l ++ rest)) by (apply starts_app; assumption).
    destruct (IHa cs IN_THEN (l ++ rest) (prepend out r) ltac:(discriminate) HL) as (l' & E1 & E2).
    { apply IHl; assumption. }
    eapply Hrun; [|exact E1|exact E2]. destruct a; [destruct Ha|exact Ha].
  - intros st g o st1 tail _ [Hg IHg] Ht. split; [apply starts_app; [exact Hg|apply skipped_starts; exact Ht]|].
    intros cs ctx rest r Hc Hr HR. eexists. split; [reflexivity|]. rewrite <- app_assoc.
    apply IHg.
    + pose proof (skipped_starts _ Ht). destruct tail; [destruct H|exact H].
    + apply skipped_run; assumption.
  - intros st g h e Hg Hs Hh He. split; [apply starts_app_l; exact Hs|].
    intros cs ctx rest r Hc Hr HR. rewrite <- app_assoc. cbn [app]. rewrite (skip_to g h e rest Hg Hh) by auto.
    eexists. split; [reflexivity|]. rewrite prepend_nil. apply endif_step; assumption.
  - intros st g h i g2 h2 e o st1 Hg Hs Hh Hi _ [Hg2 IHg2] Hh2 He. split; [apply starts_app_l; exact Hs|].
    intros cs ctx rest r Hc Hr HR. rewrite <- app_assoc. cbn [app]. rewrite (skip_to g h i _ Hg Hh) by auto.
    eexists. split; [reflexivity|]. rewrite <- app_assoc. cbn [app].
    eapply dir_step; [exact Hh| |].
    + exists O. rewrite dir_else; [|exact Hi|apply app_ne; discriminate]. cbn [conds set_conds lbind].
      destruct ctx; [| |congruence]; reflexivity.
    + change (set_conds (set_conds st ((ctx, false) :: cs)) ((IN_ELSE, false) :: cs)) with (set_conds st ((IN_ELSE, false) :: cs)).
      apply IHg2; [apply hash_starts; exact Hh2|]. apply endif_step; assumption.
  - intros st g h i expr v st1 rest0 o st2 Hg Hs Hh Hi Hv _ [Ha IHa]. split; [apply starts_app_l; exact Hs|].
    intros cs ctx rest r Hc Hr HR. rewrite <- app_assoc. cbn [app]. rewrite (skip_to g h i _ Hg Hh) by auto.
    eexists. split; [reflexivity|]. rewrite <- app_assoc.
    destruct (IHa cs IN_ELIF rest r ltac:(discriminate) Hr HR) as (l' & E1 & E2).
    assert (HL : starts_line (rest0 ++ rest)) by (destruct rest0; [destruct Ha|exact Ha]).
    destruct (Hv ((IN_ELIF, false) :: cs) (rest0 ++ rest) HL) as [f Hf].
    eapply dir_step; [exact Hh| |exact E2].
    exists f. rewrite dir_elif by exact Hi. cbn [conds set_conds].
    change (set_conds (set_conds st ((ctx, false) :: cs)) ((IN_ELIF, false) :: cs)) with (set_conds st ((IN_ELIF, false) :: cs)).
    rewrite Hf. cbn [lbind fst snd].
    assert (Hx : ctx = IN_THEN \/ ctx = IN_ELIF) by (destruct ctx; tauto).
    destruct (v =? 0); cbn [negb] in *.
    + rewrite E1. destruct Hx as [-> | ->]; reflexivity.
    + assert (l' = rest0 ++ rest) by congruence. subst l'. destruct Hx as [-> | ->]; reflexivity.
Qed.
