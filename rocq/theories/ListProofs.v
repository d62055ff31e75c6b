(** Proofs about the parsing of initializers. *)
From Verif Require Import Base TypeModel IntArith NodeModel InitModel ListModel ListSpec.
From Coq Require Import ZifyBool ZifyNat.
Local Notation length := List.length.
Local Arguments Z.mul : simpl never.

(** ** Trees and writes *)
Definition upd (t : nty) (c : init) (i : nat) (k : init) : init := let (e, m, cs) := c in Init e (if union t then Some i else m) (set_nth cs i k).
Fixpoint wr (t : nty) (c : init) (p : list nat) (e : node) : init :=
  match p with
  | [] => set_expr c (Some e)
  | i :: p => match child t i, nth_error (i_kids c) i with Some ct, Some k => upd t c i (wr ct k p e) | _, _ => c end
  end.
Definition wrs (t : nty) (c : init) (ws : writes) : init := fold_left (fun c '(p, e) => wr t c p e) ws c.
Definition A (r : nty) (ws : writes) : init := wrs r (blank r) ws.
Lemma nth_set l i k : forall d, nth_error l i = Some d -> nth_error (set_nth l i k) i = Some k.
Proof. revert i. induction l as [|a l IH]; intros [|i] d H; cbn in *; try discriminate; [reflexivity|]. eapply IH, H. Qed.
Lemma nth_set_other l i j k : i <> j -> nth_error (set_nth l i k) j = nth_error l j.
Proof. revert i j. induction l as [|a l IH]; intros [|i] [|j] H; cbn; auto; try congruence. Qed.
Lemma set_set l i a b : set_nth (set_nth l i a) i b = set_nth l i b.
Proof. revert i. induction l as [|x l IH]; intros [|i]; cbn; auto. now rewrite IH. Qed.
Lemma kids_upd t c i k : i_kids (upd t c i k) = set_nth (i_kids c) i k.
Proof. destruct c; reflexivity. Qed.
Lemma upd_upd t c i a b : upd t (upd t c i a) i b = upd t c i b.
Proof. destruct c as [e m cs]. cbn. rewrite set_set. destruct (union t); reflexivity. Qed.
Lemma wrs_app t c a b : wrs t c (a ++ b) = wrs t (wrs t c a) b.
Proof. apply fold_left_app. Qed.

Lemma part_wr_under P : forall t c s d r e, sub t P = Some s -> part c P = Some d -> part (wr t c (P ++ r) e) P = Some (wr s d r e).
Proof.
  induction P as [|i P IH]; intros t c s d r e S D; cbn in *; [congruence|]. destruct (child t i) as [ct|] eqn:EC; [|discriminate].
  destruct (nth_error (i_kids c) i) as [k|] eqn:EK; [|discriminate]. cbn. rewrite kids_upd, (nth_set _ _ _ k EK). apply IH; assumption.
Qed.
Definition pre (P w : list nat) : Prop := exists r, w = P ++ r.
Lemma pre_dec P : forall w, {pre P w} + {~ pre P w}.
Proof.
  induction P as [|i P IH]; intros w; [left; exists w; reflexivity|]. destruct w as [|j w]; [right; intros [r E]; discriminate|].
  destruct (Nat.eq_dec i j) as [->|N]; [|right; intros [r E]; cbn in E; congruence].
  destruct (IH w) as [H|H]; [left; destruct H as [r ->]; exists r; reflexivity|right; intros [r E]; apply H; exists r; cbn in E; congruence].
Qed.
Lemma part_wr_other P : forall t c w e, ~ pre P w -> part (wr t c w e) P = part c P.
Proof.
  induction P as [|i P IH]; intros t c w e N; [exfalso; apply N; exists w; reflexivity|]. destruct w as [|j w]; cbn; [destruct c; reflexivity|].
  destruct (child t j) as [ct|] eqn:EC; [|reflexivity]. destruct (nth_error (i_kids c) j) as [k|] eqn:EK; [|reflexivity]. rewrite kids_upd.
  destruct (Nat.eq_dec j i) as [->|NE].
  - rewrite (nth_set _ _ _ k EK), EK. apply IH. intros [r ->]. apply N. exists r. reflexivity.
  - now rewrite nth_set_other.
Qed.
Lemma nth_repeat {X} (x : X) n i : (i < n)%nat -> nth_error (repeat x n) i = Some x.
Proof. revert i. induction n as [|n IH]; intros [|i] H; cbn; try lia; auto. apply IH. lia. Qed.
Lemma blank_child t i ct : child t i = Some ct -> nth_error (i_kids (blank t)) i = Some (blank ct).
Proof.
  assert (M : forall ms i ct, m_nth ms i = Some ct -> nth_error (blanks ms) i = Some (blank ct)).
  { clear. induction ms as [|x off bf t ms IH]; intros [|i] ct H; cbn in *; try discriminate; [congruence|auto]. }
  destruct t as [t|b n|id sz al ms|id sz al ms]; cbn [child blank i_kids]; try discriminate; auto. destruct (i <? n)%nat eqn:E; [|discriminate]. intros H. injection H as <-. apply nth_repeat. lia.
Qed.
Lemma part_blank P : forall t s, sub t P = Some s -> part (blank t) P = Some (blank s).
Proof.
  induction P as [|i P IH]; intros t s H; cbn in *; [congruence|]. destruct (child t i) as [ct|] eqn:EC; [|discriminate]. rewrite (blank_child t i ct EC). auto.
Qed.
Lemma part_wrs t P s : sub t P = Some s -> forall ws c d, part c P = Some d -> exists d', part (wrs t c ws) P = Some d'.
Proof.
  intros S. induction ws as [|[w e] ws IH]; intros c d D; cbn; [eauto|]. destruct (pre_dec P w) as [[r ->]|N].
  - eapply IH. apply part_wr_under; eassumption.
  - eapply IH. rewrite part_wr_other by exact N. eassumption.
Qed.
Lemma part_A t P s ws : sub t P = Some s -> exists d, part (A t ws) P = Some d.
Proof. intros S. eapply part_wrs; [exact S|]. apply part_blank, S. Qed.
Lemma part_wrs_under t P s lw : sub t P = Some s -> forall c d, part c P = Some d -> part (wrs t c (under P lw)) P = Some (wrs s d lw).
Proof.
  intros S. induction lw as [|[w e] lw IH]; intros c d D; cbn; [exact D|]. apply IH. apply part_wr_under; assumption.
Qed.
Lemma part_A_under t P s ws lw d : sub t P = Some s -> part (A t ws) P = Some d -> part (A t (ws ++ under P lw)) P = Some (wrs s d lw).
Proof. intros S D. unfold A. rewrite wrs_app. apply part_wrs_under; assumption. Qed.
Lemma part_A_blank t P s ws : sub t P = Some s -> (forall w e, In (w, e) ws -> ~ pre P w) -> part (A t ws) P = Some (blank s).
Proof.
  intros S. unfold A. assert (G : forall ws c, part c P = Some (blank s) -> (forall w e, In (w, e) ws -> ~ pre P w) -> part (wrs t c ws) P = Some (blank s)).
  { clear ws. induction ws as [|[w e] ws IH]; intros c D N; cbn; [exact D|]. apply IH; [|intros; eapply N; right; eassumption]. rewrite part_wr_other; [exact D|]. eapply N. left. reflexivity. }
  apply G. apply part_blank, S.
Qed.
Lemma wrs_child t i ct : child t i = Some ct -> forall lw c k, nth_error (i_kids c) i = Some k -> lw <> [] -> wrs t c (under [i] lw) = upd t c i (wrs ct k lw).
Proof.
  intros C. induction lw as [|[w e] lw IH]; intros c k K N; [congruence|].
  change (wrs t c (under [i] ((w, e) :: lw))) with (wrs t (wr t c (i :: w) e) (under [i] lw)). change (wrs ct k ((w, e) :: lw)) with (wrs ct (wr ct k w e) lw).
  cbn [wr]. rewrite C, K. destruct lw as [|x lw]; [reflexivity|].
  rewrite IH with (k := wr ct k w e); [|rewrite kids_upd; eapply nth_set, K|discriminate]. rewrite upd_upd. reflexivity.
Qed.
Lemma under_under P Q lw : under P (under Q lw) = under (P ++ Q) lw.
Proof. unfold under. rewrite map_map. apply map_ext. intros [w e]. now rewrite app_assoc. Qed.
Lemma under_app P a b : under P (a ++ b) = under P a ++ under P b.
Proof. apply map_app. Qed.
Lemma under_nil lw : under [] lw = lw.
Proof. unfold under. rewrite <- (map_id lw) at 2. apply map_ext. intros [w e]. reflexivity. Qed.

Lemma sub_app P : forall t Q, sub t (P ++ Q) = match sub t P with Some s => sub s Q | None => None end.
Proof. induction P as [|i P IH]; intros t Q; cbn; [reflexivity|]. destruct (child t i); auto. Qed.
Lemma part_app P : forall c Q, part c (P ++ Q) = match part c P with Some d => part d Q | None => None end.
Proof. induction P as [|i P IH]; intros c Q; cbn; [reflexivity|]. destruct (nth_error (i_kids c) i); auto. Qed.
Lemma next_app P : forall t s Q, sub t P = Some s -> next t (P ++ Q) = match next s Q with Some q => Some (P ++ q) | None => next t P end.
Proof.
  induction P as [|i P IH]; intros t s Q H; cbn in *; [injection H as ->; destruct (next s Q); reflexivity|].
  destruct (child t i) as [ct|]; [|discriminate]. rewrite (IH ct s Q H). destruct (next s Q) as [q|]; reflexivity.
Qed.
Definition cur_at (R : nty) (P : list nat) (T : nty) (i : nat) : option (list nat) := match child T i with Some _ => Some (P ++ [i]) | None => next R P end.
(** The position after the ith part of the object at P *)
Lemma more_child T i ct : child T i = Some ct -> more T i = (match child T (S i) with Some _ => negb (union T) | None => false end).
Proof.
  assert (M : forall ms i ct, m_nth ms i = Some ct -> (S i <? m_len ms)%nat = match m_nth ms (S i) with Some _ => true | None => false end).
  { clear. induction ms as [|x off bf t ms IH]; intros i ct H; [discriminate|]. destruct i as [|i].
    - cbn. destruct ms; reflexivity.
    - cbn in H. specialize (IH i ct H). cbn [m_len m_nth]. rewrite <- IH. reflexivity. }
  destruct T as [t|b n|id sz al ms|id sz al ms]; cbn [child more union negb]; try discriminate.
  - intros _. destruct (S i <? n)%nat; reflexivity.
  - apply M.
  - intros _. destruct (m_nth ms (S i)); reflexivity.
Qed.
Lemma next_child R P T i ct : sub R P = Some T -> child T i = Some ct -> next R (P ++ [i]) = if union T then next R P else cur_at R P T (S i).
Proof.
  intros S C. rewrite (next_app P R T [i] S). cbn [next]. rewrite C. unfold cur_at. rewrite (more_child T i ct C).
  destruct (child T (Datatypes.S i)); destruct (union T); reflexivity.
Qed.
(** The steps into a child and back *)
Lemma kid_in R P T i ct ws c : sub R P = Some T -> part (A R ws) P = Some c -> child T i = Some ct ->
  exists k, nth_error (i_kids c) i = Some k /\ part (A R ws) (P ++ [i]) = Some k /\ sub R (P ++ [i]) = Some ct.
Proof.
  intros S D C. assert (SC : sub R (P ++ [i]) = Some ct) by (rewrite sub_app, S; cbn; rewrite C; reflexivity).
  destruct (part_A R (P ++ [i]) ct ws SC) as [k K]. exists k. split; [|split; [exact K|exact SC]].
  rewrite part_app, D in K. cbn in K. destruct (nth_error (i_kids c) i); congruence.
Qed.
Lemma kid_out R P T i ct ws c k lw k' : sub R P = Some T -> part (A R ws) P = Some c -> child T i = Some ct -> nth_error (i_kids c) i = Some k -> lw <> [] ->
  part (A R (ws ++ under (P ++ [i]) lw)) (P ++ [i]) = Some k' -> part (A R (ws ++ under P (under [i] lw))) P = Some (upd T c i k').
Proof.
  intros S D C K N K'. assert (SC : sub R (P ++ [i]) = Some ct) by (rewrite sub_app, S; cbn; rewrite C; reflexivity).
  rewrite (part_A_under R P T ws _ c S D). f_equal. rewrite (wrs_child T i ct C lw c k K N). f_equal.
  assert (KP : part (A R ws) (P ++ [i]) = Some k) by (rewrite part_app, D; cbn; rewrite K; reflexivity).
  rewrite (part_A_under R (P ++ [i]) ct ws lw k SC KP) in K'. congruence.
Qed.
Lemma upd_plain T c i k : union T = false -> upd T c i k = set_kid c i k.
Proof. intros H. unfold upd. rewrite H. destruct c; reflexivity. Qed.
Lemma upd_union T c i k : union T = true -> upd T c i k = set_kid (set_mem c i) i k.
Proof. intros H. unfold upd. rewrite H. destruct c; reflexivity. Qed.

(** ** Contents *)
Lemma last_at_snoc ws q e p : last_at (ws ++ [(q, e)]) p = if list_eq_dec Nat.eq_dec q p then Some e else last_at ws p.
Proof. induction ws as [|[w x] ws IH]; cbn; [destruct (list_eq_dec Nat.eq_dec q p); reflexivity|]. rewrite IH. destruct (list_eq_dec Nat.eq_dec q p); [reflexivity|]. reflexivity. Qed.
Lemma last_below_snoc ws q e p : last_below (ws ++ [(q, e)]) p = match step_below q p with Some i => Some i | None => last_below ws p end.
Proof. induction ws as [|[w x] ws IH]; cbn; [destruct (step_below q p); reflexivity|]. rewrite IH. destruct (step_below q p); [reflexivity|]. reflexivity. Qed.
Lemma step_below_pre p : forall r, step_below (p ++ r) p = match r with i :: _ => Some i | [] => None end.
Proof. induction p as [|j p IH]; intros r; cbn; [destruct r; reflexivity|]. rewrite Nat.eqb_refl. apply IH. Qed.
Lemma step_below_npre p : forall q, ~ pre p q -> step_below q p = None.
Proof.
  induction p as [|j p IH]; intros q N; [exfalso; apply N; exists q; reflexivity|]. destruct q as [|i q]; [reflexivity|]. cbn. destruct (Nat.eqb_spec j i) as [->|]; [|reflexivity].
  apply IH. intros [r ->]. apply N. exists r. reflexivity.
Qed.
Lemma A_holds t ws : Forall (fun '(q, _) => sub t q <> None) ws -> holds t (A t ws) ws.
Proof.
  intros V p s S. induction ws as [|[q e] ws IH] using rev_ind.
  - exists (blank s). unfold A. cbn. split; [apply part_blank, S|]. destruct s; cbn; auto.
  - apply Forall_app in V. destruct V as [V V2]. inversion V2 as [|? ? VQ _]; subst. destruct (IH V) as (d & D & E & M). rewrite last_at_snoc, last_below_snoc.
    destruct (pre_dec p q) as [[r ->]|N].
    + exists (wr s d r e). assert (PA : part (A t (ws ++ [(p ++ r, e)])) p = Some (wr s d r e)) by (unfold A; rewrite wrs_app; cbn; apply part_wr_under; assumption).
      split; [exact PA|]. rewrite step_below_pre. destruct r as [|i r].
      * rewrite app_nil_r in *. destruct (list_eq_dec Nat.eq_dec p p); [|congruence]. destruct d as [e1 m1 cs1]. cbn in *. auto.
      * destruct (list_eq_dec Nat.eq_dec (p ++ i :: r) p) as [X|_]; [exfalso; apply (f_equal (@List.length _)) in X; rewrite app_length in X; cbn in X; lia|].
        rewrite sub_app, S in VQ. cbn in VQ. destruct (child s i) as [cs|] eqn:EC; [|congruence]. cbn. rewrite EC.
        assert (KD : exists k, nth_error (i_kids d) i = Some k).
        { assert (SC : sub t (p ++ [i]) = Some cs) by (rewrite sub_app, S; cbn; rewrite EC; reflexivity). destruct (part_A t (p ++ [i]) cs ws SC) as [k K]. rewrite part_app, D in K. cbn in K.
          destruct (nth_error (i_kids d) i); [eauto|discriminate]. }
        destruct KD as [k K]. rewrite K. destruct d as [e0 m0 cs0]. cbn in *. split; [exact E|]. destruct (union s); [reflexivity|exact M].
    + exists d. split; [unfold A; rewrite wrs_app; cbn; rewrite part_wr_other by exact N; exact D|]. rewrite (step_below_npre p q N).
      destruct (list_eq_dec Nat.eq_dec q p) as [->|]; [exfalso; apply N; exists []; now rewrite app_nil_r|]. auto.
Qed.

(** ** The parser follows the position *)
Fixpoint sz (v : ini) : nat := match v with VBr l _ => S (isz l) | _ => 1%nat end
with isz (l : items) : nat := match l with INil => O | ICons _ v l => S (sz v + isz l) end.
Lemma sz_pos v : (1 <= sz v)%nat. Proof. destruct v; cbn; lia. Qed.
Definition place (R : nty) (ws : writes) (v : ini) (its : items) (T : nty) (P : list nat) : option writes :=
  let* q := descend v T P in
  let* t := sub R q in
  let* a := assigns v t in
  if forallb (fun '(w, _) => compatible R w q) ws then run R (next R q) (ws ++ under q a) its else None.
Definition follows (R : nty) (P : list nat) (ws : writes) (E : list itok) (W : writes) (its0 : items) (must : bool) (F : nat -> lres (init * list itok)) : Prop :=
  exists lw its f0 c', (forall f, (f0 <= f)%nat -> F f = LOk (c', more_toks its ++ E)) /\ part (A R (ws ++ under P lw)) P = Some c' /\
    run R (next R P) (ws ++ under P lw) its = Some W /\ (isz its <= isz its0)%nat /\ (must = true -> lw <> []) /\ (no_dsg its0 = true -> no_dsg its = true).
Definition ELI (m : nat) : Prop := forall R P T ws c v its E W, (sz v + isz its <= m)%nat -> is_end E = true -> sub R P = Some T -> part (A R ws) P = Some c ->
  place R ws v its T P = Some W -> follows R P ws E W its true (fun f => init2 f T c (ini_toks v ++ more_toks its ++ E)).

Definition starts (X : list itok) : Prop := match X with (KIdx _ | KDot _ | KExpr _ | KStr _ _ _ | KLb) :: _ => True | _ => False end.
Lemma ini_starts v X : starts (ini_toks v ++ X) /\ designated (ini_toks v ++ X) = false.
Proof. destruct v; cbn; auto. Qed.
Lemma item_starts ds v X : starts (dsg_toks ds ++ ini_toks v ++ X) /\ designated (dsg_toks ds ++ ini_toks v ++ X) = negb (is_nil ds).
Proof. destruct ds as [|[] ds]; cbn; auto. apply ini_starts. Qed.
Lemma starts_end X : starts X -> is_end X = false /\ consume_end X = None /\ is_end (KComma :: X) = false /\ consume_end (KComma :: X) = None.
Proof. destruct X as [|[] X]; cbn; tauto. Qed.

(** One part of an array or a structure, then the rest by [G] *)
Lemma run_designated R cur cur' ws ds v l : ds <> [] -> run R cur ws (ICons ds v l) = run R cur' ws (ICons ds v l).
Proof. destruct ds; [congruence|reflexivity]. Qed.
Lemma descend_ext v : forall t p q, descend v t p = Some q -> exists r, q = p ++ r.
Proof.
  fix IH 1. intros [t|b n|id zs al ms|id zs al ms] p q H; cbn [descend] in H.
  - destruct (fits _ v); [injection H as <-; exists []; now rewrite app_nil_r|discriminate].
  - destruct (fits _ v); [injection H as <-; exists []; now rewrite app_nil_r|]. destruct n; [discriminate|].
    assert (H2 : descend v b (p ++ [O]) = Some q) by (clear IH; destruct v; [exact H|discriminate|exact H]).
    destruct (IH b _ _ H2) as [r ->]; rewrite <- app_assoc; eexists; reflexivity.
  - destruct (fits _ v); [injection H as <-; exists []; now rewrite app_nil_r|]. destruct ms as [|x off bf c ms]; [discriminate|].
    destruct (IH c _ _ H) as [r ->]; rewrite <- app_assoc; eexists; reflexivity.
  - destruct (fits _ v); [injection H as <-; exists []; now rewrite app_nil_r|]. destruct ms as [|x off bf c ms]; [discriminate|].
    destruct (IH c _ _ H) as [r ->]; rewrite <- app_assoc; eexists; reflexivity.
Qed.
Lemma compat_not_above t P : forall i r, compatible t P (P ++ i :: r) = false.
Proof. revert t. induction P as [|j P IH]; intros t i r; cbn; [reflexivity|]. rewrite Nat.eqb_refl. destruct (child t j); auto. Qed.
Lemma compat_not_below q : forall t s r, sub t q = Some s -> scalar s = false -> compatible t (q ++ r) q = false.
Proof.
  induction q as [|j q IH]; intros t s r H N; cbn in *; [injection H as ->; destruct r; cbn; auto|]. rewrite Nat.eqb_refl. destruct (child t j) as [ct|]; [|reflexivity]. eapply IH; eassumption.
Qed.
Lemma no_expr t P s ws c : sub t P = Some s -> part (A t ws) P = Some c -> (forall w e, In (w, e) ws -> w <> P) -> i_expr c = None.
Proof.
  intros S D N. unfold A in D.
  assert (G : forall ws c0 d0, part c0 P = Some d0 -> i_expr d0 = None -> (forall w e, In (w, e) ws -> w <> P) -> forall c, part (wrs t c0 ws) P = Some c -> i_expr c = None).
  { clear c D ws N. induction ws as [|[w e] ws IH]; intros c0 d0 D0 E0 N c D; cbn in D; [congruence|].
    assert (N' : forall w e, In (w, e) ws -> w <> P) by (intros; eapply N; right; eassumption).
    destruct (pre_dec P w) as [[r ->]|NP].
    - apply (IH _ _ (part_wr_under P t c0 s d0 r e S D0)) with (c := c); [|exact N'|exact D]. destruct r as [|i r]; [exfalso; eapply N; [left; reflexivity|apply app_nil_r]|].
      cbn. destruct (child s i); [|exact E0]. destruct (nth_error (i_kids d0) i); [|exact E0]. destruct d0; exact E0.
    - eapply IH; [rewrite part_wr_other by exact NP; exact D0|exact E0|exact N'|exact D]. }
  eapply G; [apply part_blank, S| |exact N|exact D]. destruct s; reflexivity.
Qed.
Lemma place_free R ws v its T P W : place R ws v its T P = Some W -> exists r, forallb (fun '(w, _) => compatible R w (P ++ r)) ws = true.
Proof.
  unfold place. intros H. destruct (descend v T P) as [q|] eqn:ED; [|discriminate]. destruct (descend_ext _ _ _ _ ED) as [r ->]. exists r.
  destruct (sub R (P ++ r)); [|discriminate]. destruct (assigns v n); [|discriminate]. destruct (forallb _ ws); [reflexivity|discriminate].
Qed.
Lemma place_not_above R ws v its T P i p W : place R ws v its T (P ++ i :: p) = Some W -> forall w e, In (w, e) ws -> w <> P.
Proof.
  intros H w e IN ->. destruct (place_free _ _ _ _ _ _ _ H) as [r F]. rewrite forallb_forall in F. specialize (F _ IN). cbn in F.
  rewrite <- app_assoc in F. cbn in F. rewrite compat_not_above in F. discriminate.
Qed.
Lemma find_desig x : forall ms i j, find x ms i = Some j -> struct_desig x ms i = LOk (j, true) /\ (i <= j)%nat /\ exists t, m_nth ms (j - i) = Some t.
Proof.
  induction ms as [|y off bf t ms IH]; intros i j H; cbn in *; [discriminate|]. destruct y as [y|]; [|discriminate].
  destruct (list_eq_dec Z.eq_dec y x).
  - injection H as <-. split; [reflexivity|]. split; [lia|]. exists t. now rewrite Nat.sub_diag.
  - destruct (IH _ _ H) as (A1 & A2 & t0 & A3). split; [exact A1|]. split; [lia|]. exists t0. replace (j - i)%nat with (S (j - S i)) by lia. exact A3.
Qed.
Definition is_last (l : items) : bool := match l with INil => true | _ => false end.
Lemma kids_mem c i : i_kids (set_mem c i) = i_kids c. Proof. destruct c; reflexivity. Qed.
Lemma sx32 n : 0 <= n < 2 ^ 31 -> sx 32 n = n.
Proof. intros H. apply sx_id; lia. Qed.
Lemma array_desig_one n len : 0 <= n < Z.min (Z.of_nat len) (2 ^ 31) -> array_desig n n len = LOk (Z.to_nat n, Z.to_nat n).
Proof.
  intros H. unfold array_desig. rewrite sx32 by lia. destruct (Z.leb_spec (Z.of_nat len) n); [lia|]. destruct (Z.ltb_spec n n); [lia|]. destruct (Z.ltb_spec n 0); [lia|]. reflexivity.
Qed.
Scheme ini_mut := Induction for ini Sort Prop with items_mut := Induction for items Sort Prop.
Lemma run_item R cur ws ds v l : run R cur ws (ICons ds v l) =
  let* p := match ds with [] => cur | _ => resolve true (is_last l) R ds end in let* t := sub R p in place R ws v l t p.
Proof. reflexivity. Qed.
Lemma assigns_facts : forall v, (forall t a, assigns v t = Some a -> a <> [] /\ Forall (fun '(q, _) => sub t q <> None) a).
Proof.
  intros v. apply (ini_mut (fun v => forall t a, assigns v t = Some a -> a <> [] /\ Forall (fun '(q, _) => sub t q <> None) a)
    (fun l => forall R cur ws W, run R cur ws l = Some W -> exists e, W = ws ++ e /\ (l <> INil -> e <> []) /\ Forall (fun '(q, _) => sub R q <> None) e)).
  - intros e t a H. cbn [assigns] in H. destruct (fits t (VEx e) && _); [|discriminate]. injection H as <-. split; [discriminate|]. constructor; [cbn; discriminate|constructor].
  - intros k vs e t a H. cbn [assigns] in H. destruct t as [t|b n|id zs al ms|id zs al ms]; try discriminate.
    + injection H as <-. split; [discriminate|]. constructor; [cbn; discriminate|constructor].
    + destruct (chars b k && _) eqn:EC; [|discriminate]. injection H as <-. split; [destruct (letters n vs); [rewrite andb_false_r in EC; discriminate|discriminate]|].
      unfold letters. rewrite Forall_map, Forall_forall. intros [i x] IN. apply in_combine_l in IN. apply in_seq in IN. cbn [sub child].
      destruct (i <? n)%nat eqn:EI; [discriminate|lia].
  - intros l IHl trail t a H.
    assert (G : run t (Some [O]) [] l = Some a -> l <> INil -> a <> [] /\ Forall (fun '(q, _) => sub t q <> None) a).
    { intros RR NN. destruct (IHl _ _ _ _ RR) as (e & -> & NE & FE). split; [apply NE, NN|exact FE]. }
    cbn [assigns] in H. destruct t as [t|b n|id zs al ms|id zs al ms].
    + destruct l as [|[|d ds] v' [|ds2 v2 l2]]; try discriminate. destruct trail; [discriminate|].
      assert (X : run (NScal t) (Some []) [] (ICons [] v' INil) = Some (under [] a)).
      { cbn [run sub]. replace (descend v' (NScal t) []) with (Some (@nil nat)) by (destruct v'; reflexivity).
        cbn [sub forallb]. rewrite H. reflexivity. }
      destruct (IHl _ _ _ _ X) as (e & EE & NE & FE). rewrite under_nil in EE. cbn in EE. subst e. split; [apply NE; discriminate|exact FE].
    + destruct l as [|ds v' l']; [discriminate|]. apply G; [|discriminate]. destruct ds; [|exact H]. destruct v'; try exact H. destruct l'; [|exact H]. destruct (chars b k); [discriminate|exact H].
    + destruct l as [|ds v' l']; [discriminate|]. apply G; [exact H|discriminate].
    + destruct l as [|ds v' l']; [discriminate|]. destruct (no_dsg l' && _); [|discriminate]. apply G; [exact H|discriminate].
  - intros R cur ws W H. cbn in H. injection H as <-. exists []. rewrite app_nil_r. repeat split; auto.
  - intros ds v' IHv l IHl R cur ws W H. rewrite run_item in H. destruct (match ds with [] => cur | _ => _ end) as [p|]; [|discriminate]. destruct (sub R p) as [t|]; [|discriminate].
    unfold place in H. destruct (descend v' t p) as [q|]; [|discriminate]. destruct (sub R q) as [t'|] eqn:ES; [|discriminate]. destruct (assigns v' t') as [a|] eqn:EA; [|discriminate].
    destruct (forallb _ ws); [|discriminate]. destruct (IHl _ _ _ _ H) as (e & -> & _ & FE). destruct (IHv _ _ EA) as [NA FA]. exists (under q a ++ e). rewrite app_assoc. split; [reflexivity|].
    split; [intros _; destruct a; [congruence|discriminate]|]. apply Forall_app. split; [|exact FE]. unfold under. rewrite Forall_map. eapply Forall_impl; [|exact FA]. intros [w x] K. cbn in K |- *. now rewrite sub_app, ES.
Qed.
Definition body (l : items) : list itok := match l with INil => [] | ICons ds v l => dsg_toks ds ++ ini_toks v ++ more_toks l end.
Lemma set_nth_app pre0 x y r : set_nth (pre0 ++ x :: r) (length pre0) y = pre0 ++ y :: r.
Proof. induction pre0; cbn; [reflexivity|now rewrite IHpre0]. Qed.
Lemma string_writes b n e0 m0 : forall vs cs pr, (length pr + length cs = n)%nat ->
  wrs (NArr b n) (Init e0 m0 (pr ++ cs)) (map (fun '(i, v) => ([i], NNum (TInt false) v)) (combine (seq (length pr) (length cs)) vs)) = Init e0 m0 (pr ++ put_string vs cs).
Proof.
  induction vs as [|v vs IHv]; intros cs pr L; [rewrite combine_nil; cbn; destruct cs; reflexivity|]. destruct cs as [|c cs]; [reflexivity|].
  cbn [length seq combine map wrs fold_left put_string] in *. unfold wrs. cbn [fold_left wr child i_kids]. destruct (length pr <? n)%nat eqn:EL; [|lia].
  rewrite nth_error_app2, Nat.sub_diag by lia. cbn [nth_error upd union]. rewrite set_nth_app.
  specialize (IHv cs (pr ++ [set_expr c (Some (NNum (TInt false) v))])). rewrite app_length in IHv. cbn [length] in IHv. rewrite <- !app_assoc in IHv. cbn [app] in IHv.
  replace (length pr + 1)%nat with (Datatypes.S (length pr)) in IHv by lia. apply IHv. lia.
Qed.
(** ** What is consumed does not depend on the initializer that is filled in *)
Definition shaped (T : nty) (c : init) : Prop := forall p s, sub T p = Some s -> exists d, part c p = Some d.
Lemma shaped_kid T c i b : shaped T c -> child T i = Some b -> exists k, nth_error (i_kids c) i = Some k /\ shaped b k.
Proof.
  intros H C. destruct (H [i] b) as [k K]; [cbn; now rewrite C|]. cbn in K. destruct (nth_error (i_kids c) i) as [k0|] eqn:E; [|discriminate]. exists k0. split; [reflexivity|].
  intros p s S. destruct (H (i :: p) s) as [d D]; [cbn; now rewrite C|]. cbn in D. rewrite E in D. eauto.
Qed.
Lemma shaped_of T c : (forall i b, child T i = Some b -> exists k, nth_error (i_kids c) i = Some k /\ shaped b k) -> shaped T c.
Proof.
  intros H [|i p] s S; cbn in *; [eauto|]. destruct (child T i) as [b|] eqn:C; [|discriminate]. destruct (H i b C) as (k & K & SK). rewrite K. apply (SK p s S).
Qed.
Lemma shaped_set T c i b k : shaped T c -> child T i = Some b -> shaped b k -> shaped T (set_kid c i k).
Proof.
  intros H C SK. apply shaped_of. intros j b' C'. destruct (shaped_kid T c j b' H C') as (k0 & K0 & S0). destruct c as [e m cs]. cbn in *. destruct (Nat.eq_dec i j) as [<-|N].
  - rewrite (nth_set _ _ _ _ K0). exists k. split; [reflexivity|]. replace b' with b by congruence. exact SK.
  - rewrite nth_set_other by exact N. eauto.
Qed.
Lemma shaped_kids T c c' : i_kids c = i_kids c' -> shaped T c -> shaped T c'.
Proof. intros E H. apply shaped_of. intros i b C. rewrite <- E. eapply shaped_kid; eassumption. Qed.
Lemma shaped_expr T c e : shaped T c -> shaped T (set_expr c e).
Proof. apply shaped_kids. destruct c; reflexivity. Qed.
Lemma shaped_mem T c i : shaped T c -> shaped T (set_mem c i).
Proof. apply shaped_kids. destruct c; reflexivity. Qed.
Lemma shaped_blank T : shaped T (blank T).
Proof. intros p s S. exists (blank s). apply part_blank, S. Qed.
Lemma put_string_nth vs : forall cs i k, nth_error cs i = Some k -> exists k', nth_error (put_string vs cs) i = Some k'.
Proof. induction vs as [|v vs IH]; intros [|c cs] [|i] k H; cbn in *; try discriminate; eauto. Qed.
Definition same (T : nty) (F : init -> lres (init * list itok)) : Prop :=
  forall c c1 r, F c = LOk (c1, r) -> forall c', shaped T c' -> exists c1', F c' = LOk (c1', r) /\ shaped T c1'.
Lemma same_string b n k vs : same (NArr b n) (fun c => match string_init b k vs c with LOk c => LOk (c, []) | LErr => LErr | LUb => LUb | LFuel => LFuel end).
Proof.
  intros c c1 r H c' S. unfold string_init in *. destruct b as [t| | |]; try discriminate. destruct (_ && _); [|discriminate]. destruct c as [e0 m0 cs0], c' as [e m cs]. injection H as _ <-. eexists. split; [reflexivity|].
  apply shaped_of. intros i b C. destruct (shaped_kid _ _ i b S C) as (k0 & K0 & S0). cbn [i_kids child] in *. destruct (put_string_nth vs cs i k0 K0) as [k1 K1]. exists k1. split; [exact K1|].
  destruct (i <? n)%nat; [|discriminate]. injection C as <-. intros [|j p] s X; cbn in *; [eauto|discriminate].
Qed.
Lemma same_kid T i b F : child T i = Some b -> same b F -> same T (fun c => with_kid c i F).
Proof.
  intros C SF c c1 r H c' S. unfold with_kid in *. destruct (nth_error (i_kids c) i) as [k|]; [|discriminate]. destruct (F k) as [[k1 r1]| | |] eqn:EF; try discriminate. injection H as <- <-.
  destruct (shaped_kid T c' i b S C) as (k' & K' & S'). rewrite K'. destruct (SF k k1 r1 EF k' S') as (k1' & E' & S1). rewrite E'. eexists. split; [reflexivity|]. eapply shaped_set; eassumption.
Qed.
Lemma same_bind T F G : same T F -> (forall r, same T (fun c => G c r)) -> same T (fun c => match F c with LOk (c, r) => G c r | LErr => LErr | LUb => LUb | LFuel => LFuel end).
Proof.
  intros SF SG c c1 r H c' S. destruct (F c) as [[c2 r2]| | |] eqn:EF; try discriminate. destruct (SF c c2 r2 EF c' S) as (c2' & E' & S'). rewrite E'. apply (SG r2 c2 c1 r H c2' S').
Qed.
Lemma same_pre T F g : (forall c, i_kids (g c) = i_kids c) -> same T F -> same T (fun c => F (g c)).
Proof. intros K SF c c1 r H c' S. apply (SF (g c) c1 r H). apply (shaped_kids T c'); [now rewrite K|exact S]. Qed.
Lemma same_ok T g r : (forall c, i_kids (g c) = i_kids c) -> same T (fun c => LOk (g c, r)).
Proof. intros K c c1 r1 H c' S. injection H as <- <-. eexists. split; [reflexivity|]. apply (shaped_kids T c'); [now rewrite K|exact S]. Qed.
Lemma same_bad T x : (forall a, x <> LOk a) -> same T (fun _ => x).
Proof. intros N c c1 r H. destruct (N _ H). Qed.
Lemma same_ext T F G : (forall c, F c = G c) -> same T F -> same T G.
Proof. intros E SF c c1 r H c' S. rewrite <- E in H. destruct (SF c c1 r H c' S) as (c1' & E' & S'). rewrite E in E'. eauto. Qed.
Lemma same_each b n F : same b F -> forall k i ts, (i + k <= n)%nat -> same (NArr b n) (fun c => each F c i k ts).
Proof.
  intros SF. induction k as [|k IH]; intros i ts L; cbn [each]; [apply (same_ok _ (fun c => c)); reflexivity|].
  apply (same_bind (NArr b n) (fun c => with_kid c i F) (fun c r => each F c (Datatypes.S i) k r)).
  - apply (same_kid _ i b); [cbn [child]; destruct (i <? n)%nat eqn:E; [reflexivity|lia]|exact SF].
  - intros r. apply IH. lia.
Qed.
Lemma array_desig_range a b n i j : array_desig a b n = LOk (i, j) -> (i <= j < n)%nat.
Proof.
  unfold array_desig. destruct (Z.of_nat n <=? sx 32 a) eqn:E1; [discriminate|]. destruct (Z.of_nat n <=? sx 32 b) eqn:E2; [discriminate|]. destruct (sx 32 b <? sx 32 a) eqn:E3; [discriminate|].
  destruct (sx 32 a <? 0) eqn:E4; [discriminate|]. intros H. injection H as <- <-. lia.
Qed.
Ltac bad := apply same_bad; intros; discriminate.
Ltac okc := apply (same_ok _ (fun c => c)); reflexivity.
Lemma all_same : forall f, (forall T ts, same T (fun c => init2 f T c ts)) /\ (forall T ts, same T (fun c => desig f T c ts)) /\
  (forall b n i first ts, same (NArr b n) (fun c => arr1 f b n c i first ts)) /\ (forall b n i ts, same (NArr b n) (fun c => arr2 f b n c i ts)) /\
  (forall id zs al ms i first ts, same (NStruct id zs al ms) (fun c => str1 f ms c i first ts)) /\ (forall id zs al ms i first ts, same (NStruct id zs al ms) (fun c => str2 f ms c i first ts)).
Proof.
  induction f as [|f (HI & HD & HA1 & HA2 & HS1 & HS2)]; [repeat split; intros; cbn; bad|].
  assert (KD : forall T i ms ts, match T with NStruct _ _ _ m0 | NUnion _ _ _ m0 => m0 = ms | _ => False end -> same T (fun c => with_kid c i (fun k => match m_nth ms i with Some t => desig f t k ts | None => LUb end))).
  { intros T i ms ts E. destruct (m_nth ms i) as [t|] eqn:EM.
    - apply (same_kid _ i t); [destruct T; try destruct E; subst; exact EM|]. apply HD.
    - intros c c1 r H. unfold with_kid in H. destruct (nth_error (i_kids c) i); discriminate. }
  assert (KI : forall T i ms ts, match T with NStruct _ _ _ m0 | NUnion _ _ _ m0 => m0 = ms | _ => False end -> same T (fun c => with_kid c i (fun k => match m_nth ms i with Some t => init2 f t k ts | None => LUb end))).
  { intros T i ms ts E. destruct (m_nth ms i) as [t|] eqn:EM.
    - apply (same_kid _ i t); [destruct T; try destruct E; subst; exact EM|]. apply HI.
    - intros c c1 r H. unfold with_kid in H. destruct (nth_error (i_kids c) i); discriminate. }
  repeat split.
  - intros T ts. destruct T as [t|b n|id zs al ms|id zs al ms].
    + cbn [init2]. destruct ts as [|[] ts]; try bad; try (apply (same_ok _ (fun c => set_expr c _)); intros [? ? ?]; reflexivity).
      eapply (same_ext _ (fun c => match init2 f (NScal t) c ts with LOk (c, r) => (fun c r => match r with KRb :: r => LOk (c, r) | _ => LErr end) c r | LErr => LErr | LUb => LUb | LFuel => LFuel end));
        [intros c; destruct (init2 f (NScal t) c ts) as [[? r]| | |]; try reflexivity|].
      apply same_bind; [apply HI|]. intros [|[] r]; try bad. okc.
    + cbn [init2]. destruct ts as [|[] ts]; try apply HA2; try apply HA1.
      intros c c1 r H c' S. destruct (string_init b k vs c) as [c2| | |] eqn:EQ; try discriminate. injection H as <- <-.
      destruct (same_string b n k vs c c2 [] ltac:(cbv beta; rewrite EQ; reflexivity) c' S) as (c1' & E' & S'). cbv beta in E'. destruct (string_init b k vs c') as [c3| | |]; try discriminate. injection E' as <-. eauto.
    + cbn [init2]. destruct ts as [|[] ts]; try bad; try apply HS1; try apply HS2.
      destruct (is_struct (ntype e)); [apply (same_ok _ (fun c => set_expr c _)); intros [? ? ?]; reflexivity|apply HS2].
    + cbn [init2].
      assert (PL : forall ts, same (NUnion id zs al ms) (fun c => with_kid (set_mem c O) O (fun k => match m_nth ms O with Some t => init2 f t k ts | None => LUb end))).
      { intros u. apply (same_pre _ (fun c => with_kid c O (fun k => match m_nth ms O with Some t => init2 f t k u | None => LUb end)) (fun c => set_mem c O)); [intros [? ? ?]; reflexivity|]. apply KI. reflexivity. }
      assert (BR : forall ts, same (NUnion id zs al ms) (fun c => match with_kid (set_mem c O) O (fun k => match m_nth ms O with Some t => init2 f t k ts | None => LUb end) with
              | LOk (c, r) => match (match r with KComma :: r => r | _ => r end) with KRb :: r => LOk (c, r) | _ => LErr end | LErr => LErr | LUb => LUb | LFuel => LFuel end)).
      { intros u. apply (same_bind _ _ (fun c r => match (match r with KComma :: r => r | _ => r end) with KRb :: r => LOk (c, r) | _ => LErr end)); [apply PL|].
        intros r. destruct (match r with KComma :: r => r | _ => r end) as [|[] r']; try bad. okc. }
      assert (BR' : forall ts, same (NUnion id zs al ms) (fun c => match with_kid (set_mem c O) O (fun k => match m_nth ms O with Some t => init2 f t k ts | None => LUb end) with
              | LOk (c, r) => match (match r with KComma :: r => r | _ => r end) with KRb :: r => LOk (c, r) | _ => LErr end | r => r end)).
      { intros u. eapply same_ext; [|apply (BR u)]. intros c. cbv beta. destruct (with_kid _ _ _) as [[? ?]| | |]; reflexivity. }
      destruct ts as [|t0 ts]; [apply PL|]. destruct t0; try apply PL. destruct ts as [|t1 ts]; [apply BR'|]. destruct t1; try apply BR'.
      destruct (struct_desig x ms 0) as [[i used]| | |]; try bad.
      eapply (same_ext _ (fun c => match with_kid (set_mem c i) i (fun k => match m_nth ms i with Some t => desig f t k (if used then ts else KDot x :: ts) | None => LUb end) with
         LOk (c, r) => (fun c r => match r with KRb :: r => LOk (c, r) | _ => LErr end) c r | LErr => LErr | LUb => LUb | LFuel => LFuel end)).
      { intros c. cbv beta. destruct (with_kid _ _ _) as [[? r]| | |]; reflexivity. }
      apply same_bind; [|intros [|[] r]; try bad; okc].
      apply (same_pre _ (fun c => with_kid c i (fun k => match m_nth ms i with Some t => desig f t k (if used then ts else KDot x :: ts) | None => LUb end)) (fun c => set_mem c i)); [intros [? ? ?]; reflexivity|]. apply KD. reflexivity.
  - intros T ts. cbn [desig].
    assert (RG : forall a b r, same T (fun c => match T with NArr bt n => match array_desig a b n with
            | LOk (i, j) => match each (fun k => desig f bt k r) c i (Datatypes.S j - i) r with LOk (c, r) => arr2 f bt n c (Datatypes.S j) r | r => r end
            | LErr => LErr | LUb => LUb | LFuel => LFuel end | _ => LErr end)).
    { intros a b r. destruct T as [| bt n| |]; try bad. destruct (array_desig a b n) as [[i j]| | |] eqn:EA; try bad. apply array_desig_range in EA.
      eapply (same_ext _ (fun c => match each (fun k => desig f bt k r) c i (Datatypes.S j - i) r with LOk (c, r) => (fun c r => arr2 f bt n c (Datatypes.S j) r) c r | LErr => LErr | LUb => LUb | LFuel => LFuel end)).
      { intros c. cbv beta. destruct (each _ _ _ _ _) as [[? ?]| | |]; reflexivity. }
      apply same_bind; [apply same_each; [apply HD|lia]|intros; apply HA2]. }
    destruct ts as [|t0 ts]; [apply HI|]. destruct t0; try apply HI; try apply RG.
    destruct T as [| |id zs al ms|id zs al ms]; try bad; destruct (struct_desig x ms 0) as [[i used]| | |]; try bad.
    + eapply (same_ext _ (fun c => match with_kid c i (fun k => match m_nth ms i with Some t => desig f t k (if used then ts else KDot x :: ts) | None => LUb end) with
         LOk (c, r) => (fun c r => str2 f ms (set_expr c None) (Datatypes.S i) true r) c r | LErr => LErr | LUb => LUb | LFuel => LFuel end)).
      { intros c. cbv beta. destruct (with_kid _ _ _) as [[? r]| | |]; reflexivity. }
      apply same_bind; [apply KD; reflexivity|]. intros r. apply (same_pre _ (fun c => str2 f ms c (Datatypes.S i) true r) (fun c => set_expr c None)); [intros [? ? ?]; reflexivity|apply HS2].
    + apply (same_pre _ (fun c => with_kid c i (fun k => match m_nth ms i with Some t => desig f t k (if used then ts else KDot x :: ts) | None => LUb end)) (fun c => set_mem c i)); [intros [? ? ?]; reflexivity|]. apply KD. reflexivity.
  - intros b n i first ts. cbn [arr1]. destruct (consume_end ts); [okc|]. destruct (if first then Some ts else match ts with KComma :: r => Some r | _ => None end) as [u|]; [|bad].
    assert (RG : forall x y r, same (NArr b n) (fun c => match array_desig x y n with
                | LOk (i, j) => match each (fun k => desig f b k r) c i (Datatypes.S j - i) r with LOk (c, r) => arr1 f b n c (Datatypes.S j) false r | r => r end
                | LErr => LErr | LUb => LUb | LFuel => LFuel end)).
    { intros x y r. destruct (array_desig x y n) as [[i0 j]| | |] eqn:EA; try bad. apply array_desig_range in EA.
      eapply (same_ext _ (fun c => match each (fun k => desig f b k r) c i0 (Datatypes.S j - i0) r with LOk (c, r) => (fun c r => arr1 f b n c (Datatypes.S j) false r) c r | LErr => LErr | LUb => LUb | LFuel => LFuel end)).
      { intros c. cbv beta. destruct (each _ _ _ _ _) as [[? ?]| | |]; reflexivity. }
      apply same_bind; [apply same_each; [apply HD|lia]|intros; apply HA1]. }
    assert (NX : same (NArr b n) (fun c => if (i <? n)%nat then match with_kid c i (fun k => init2 f b k u) with LOk (c, r) => arr1 f b n c (Datatypes.S i) false r | r => r end
                  else match skip_excess u with Some r => arr1 f b n c (Datatypes.S i) false r | None => LErr end)).
    { destruct (i <? n)%nat eqn:EI; [|destruct (skip_excess u); [apply HA1|bad]].
      eapply (same_ext _ (fun c => match with_kid c i (fun k => init2 f b k u) with LOk (c, r) => (fun c r => arr1 f b n c (Datatypes.S i) false r) c r | LErr => LErr | LUb => LUb | LFuel => LFuel end)).
      { intros c. cbv beta. destruct (with_kid _ _ _) as [[? ?]| | |]; reflexivity. }
      apply same_bind; [apply (same_kid _ i b); [cbn [child]; now rewrite EI|apply HI]|intros; apply HA1]. }
    destruct u as [|t0 u]; [exact NX|]. destruct t0; try exact NX; apply RG.
  - intros b n i ts. cbn [arr2]. destruct ((i <? n)%nat && negb (is_end ts)) eqn:EI; [|okc]. destruct (match i with O => Some ts | _ => match ts with KComma :: r => Some r | _ => None end end) as [u|]; [|bad].
    destruct (designated u); [okc|].
    eapply (same_ext _ (fun c => match with_kid c i (fun k => init2 f b k u) with LOk (c, r) => (fun c r => arr2 f b n c (Datatypes.S i) r) c r | LErr => LErr | LUb => LUb | LFuel => LFuel end)).
    { intros c. cbv beta. destruct (with_kid _ _ _) as [[? ?]| | |]; reflexivity. }
    apply same_bind; [apply (same_kid _ i b); [cbn [child]; destruct (i <? n)%nat; [reflexivity|discriminate]|apply HI]|intros; apply HA2].
  - intros id zs al ms i first ts. cbn [str1]. destruct (consume_end ts); [okc|]. destruct (if first then Some ts else match ts with KComma :: r => Some r | _ => None end) as [u|]; [|bad].
    assert (NX : same (NStruct id zs al ms) (fun c => match m_nth ms i with
                  | Some t => match with_kid c i (fun k => init2 f t k u) with LOk (c, r) => str1 f ms c (Datatypes.S i) false r | r => r end
                  | None => match skip_excess u with Some r => str1 f ms c i false r | None => LErr end end)).
    { destruct (m_nth ms i) as [t|] eqn:EM; [|destruct (skip_excess u); [apply HS1|bad]].
      eapply (same_ext _ (fun c => match with_kid c i (fun k => init2 f t k u) with LOk (c, r) => (fun c r => str1 f ms c (Datatypes.S i) false r) c r | LErr => LErr | LUb => LUb | LFuel => LFuel end)).
      { intros c. cbv beta. destruct (with_kid _ _ _) as [[? ?]| | |]; reflexivity. }
      apply same_bind; [apply (same_kid _ i t); [exact EM|apply HI]|intros; apply HS1]. }
    destruct u as [|t0 u]; [exact NX|]. destruct t0; try exact NX. destruct (struct_desig x ms 0) as [[j used]| | |]; try bad.
    eapply (same_ext _ (fun c => match with_kid c j (fun k => match m_nth ms j with Some t => desig f t k (if used then u else KDot x :: u) | None => LUb end) with
         LOk (c, r) => (fun c r => str1 f ms c (Datatypes.S j) false r) c r | LErr => LErr | LUb => LUb | LFuel => LFuel end)).
    { intros c. cbv beta. destruct (with_kid _ _ _) as [[? r]| | |]; reflexivity. }
    apply same_bind; [apply KD; reflexivity|intros; apply HS1].
  - intros id zs al ms i first ts. cbn [str2]. destruct (m_nth ms i) as [t|] eqn:EM; [|okc]. destruct (is_end ts); [okc|]. destruct (if first then Some ts else match ts with KComma :: r => Some r | _ => None end) as [u|]; [|bad].
    destruct (designated u); [okc|].
    eapply (same_ext _ (fun c => match with_kid c i (fun k => init2 f t k u) with LOk (c, r) => (fun c r => str2 f ms c (Datatypes.S i) false r) c r | LErr => LErr | LUb => LUb | LFuel => LFuel end)).
    { intros c. cbv beta. destruct (with_kid _ _ _) as [[? ?]| | |]; reflexivity. }
    apply same_bind; [apply (same_kid _ i t); [exact EM|apply HI]|intros; apply HS2].
Qed.
Scheme nty_mut := Induction for nty Sort Prop with mems_mut := Induction for mems Sort Prop.
Section Step.
Variable m : nat.
Hypothesis IH : forall k, (k < m)%nat -> ELI k.

Lemma arr2_follows b n : forall its i R P ws c E W, (isz its <= m)%nat -> is_end E = true -> sub R P = Some (NArr b n) -> part (A R ws) P = Some c -> (0 < i)%nat ->
  run R (cur_at R P (NArr b n) i) ws its = Some W -> follows R P ws E W its false (fun f => arr2 f b n c i (more_toks its ++ E)).
Proof.
  assert (G : forall k its i R P ws c E W, (isz its <= k)%nat -> (isz its <= m)%nat -> is_end E = true -> sub R P = Some (NArr b n) -> part (A R ws) P = Some c -> (0 < i)%nat ->
  run R (cur_at R P (NArr b n) i) ws its = Some W -> follows R P ws E W its false (fun f => arr2 f b n c i (more_toks its ++ E))).
  { induction k as [|k IHk]; intros its i R P ws c E W LK L EE S D I0 H.
    - destruct its; cbn in LK; [|lia]. exists [], INil, 1%nat, c. cbn [under map]. rewrite app_nil_r. split; [|split; [exact D|split; [exact H|split; [cbn; lia|split; [discriminate|auto]]]]].
      intros [|f] F; [lia|]. cbn [arr2 more_toks app]. rewrite EE, andb_false_r. reflexivity.
    - destruct its as [|ds v l].
      { exists [], INil, 1%nat, c. cbn [under map]. rewrite app_nil_r. split; [|split; [exact D|split; [exact H|split; [cbn; lia|split; [discriminate|auto]]]]].
        intros [|f] F; [lia|]. cbn [arr2 more_toks app]. rewrite EE, andb_false_r. reflexivity. }
      unfold cur_at in H. cbn [child] in H. destruct (i <? n)%nat eqn:EI.
      2:{ exists [], (ICons ds v l), 1%nat, c. cbn [under map]. rewrite app_nil_r. split; [|split; [exact D|split; [exact H|split; [lia|split; [discriminate|auto]]]]].
          intros [|f] F; [lia|]. cbn [arr2]. rewrite EI. reflexivity. }
      assert (TE : more_toks (ICons ds v l) ++ E = KComma :: dsg_toks ds ++ ini_toks v ++ more_toks l ++ E) by (cbn [more_toks]; cbn [app]; now rewrite <- !app_assoc).
      destruct (item_starts ds v (more_toks l ++ E)) as [ST DS]. destruct (starts_end _ ST) as (_ & _ & E3 & _).
      assert (AE : forall f, arr2 (Datatypes.S f) b n c i (more_toks (ICons ds v l) ++ E) =
         if designated (dsg_toks ds ++ ini_toks v ++ more_toks l ++ E) then LOk (c, more_toks (ICons ds v l) ++ E) else
            match with_kid c i (fun k => init2 f b k (dsg_toks ds ++ ini_toks v ++ more_toks l ++ E)) with LOk (c, r) => arr2 f b n c (Datatypes.S i) r | r => r end).
      { intros f. rewrite TE. cbn [arr2]. rewrite EI, E3. cbn [andb negb]. destruct i; [lia|]. reflexivity. }
      destruct ds as [|d ds].
      2:{ exists [], (ICons (d :: ds) v l), 1%nat, c. cbn [under map]. rewrite app_nil_r. split; [|split; [exact D|split; [|split; [lia|split; [discriminate|auto]]]]].
          - intros [|f] F; [lia|]. rewrite AE, DS. reflexivity.
          - rewrite <- H. apply run_designated. discriminate. }
      cbn [dsg_toks app] in AE, DS. cbn [run] in H. assert (C : child (NArr b n) i = Some b) by (cbn [child]; now rewrite EI).
      destruct (kid_in R P _ i b ws c S D C) as (kd & K & KP & SC).
      change (let* t := sub R (P ++ [i]) in let* q := descend v t (P ++ [i]) in let* t0 := sub R q in let* a := assigns v t0 in if forallb (fun '(w, _) => compatible R w q) ws then run R (next R q) (ws ++ under q a) l else None) with
        (let* t := sub R (P ++ [i]) in place R ws v l t (P ++ [i])) in H. rewrite SC in H.
      cbn [isz] in L, LK. assert (SV := sz_pos v).
      destruct (IH (sz v + isz l) ltac:(lia) R (P ++ [i]) b ws kd v l E W (le_n _) EE SC KP H) as (lw & its & f0 & k' & F1 & P1 & R1 & B1 & N1 & D1). specialize (N1 eq_refl).
      rewrite (next_child R P _ i b S C) in R1. cbn [union] in R1. rewrite <- under_under in P1, R1.
      assert (KO := kid_out R P _ i b ws c kd lw k' S D C K N1 ltac:(rewrite under_under in P1; exact P1)). rewrite upd_plain in KO by reflexivity.
      destruct (IHk its (Datatypes.S i) R P _ _ E W ltac:(lia) ltac:(lia) EE S KO ltac:(lia) R1) as (lw2 & its2 & f1 & c2 & F2 & P2 & R2 & B2 & _ & D2).
      exists (under [i] lw ++ lw2), its2, (Datatypes.S (Nat.max f0 f1)), c2. rewrite under_app, app_assoc. split; [|split; [exact P2|split; [exact R2|split; [cbn [isz]; lia|split; [discriminate|]]]]].
      2:{ cbn [no_dsg]. intros X. apply D2, D1, X. }
      intros [|f] F; [lia|]. rewrite AE, DS. cbn [is_nil negb]. unfold with_kid. rewrite K, F1 by lia. apply F2. lia. }
  intros its i R P ws c E W. apply (G (isz its)). lia.
Qed.
Lemma str2_follows id zs al ms : forall its i R P ws c E W, (isz its <= m)%nat -> is_end E = true -> sub R P = Some (NStruct id zs al ms) -> part (A R ws) P = Some c ->
  run R (cur_at R P (NStruct id zs al ms) i) ws its = Some W -> follows R P ws E W its false (fun f => str2 f ms c i false (more_toks its ++ E)).
Proof.
  assert (G : forall k its i R P ws c E W, (isz its <= k)%nat -> (isz its <= m)%nat -> is_end E = true -> sub R P = Some (NStruct id zs al ms) -> part (A R ws) P = Some c ->
  run R (cur_at R P (NStruct id zs al ms) i) ws its = Some W -> follows R P ws E W its false (fun f => str2 f ms c i false (more_toks its ++ E))).
  { induction k as [|k IHk]; intros its i R P ws c E W LK L EE S D H.
    - destruct its; cbn in LK; [|lia]. exists [], INil, 1%nat, c. cbn [under map]. rewrite app_nil_r. split; [|split; [exact D|split; [exact H|split; [cbn; lia|split; [discriminate|auto]]]]].
      intros [|f] F; [lia|]. cbn [str2 more_toks app]. destruct (m_nth ms i); [|reflexivity]. rewrite EE. reflexivity.
    - destruct its as [|ds v l].
      { exists [], INil, 1%nat, c. cbn [under map]. rewrite app_nil_r. split; [|split; [exact D|split; [exact H|split; [cbn; lia|split; [discriminate|auto]]]]].
        intros [|f] F; [lia|]. cbn [str2 more_toks app]. destruct (m_nth ms i); [|reflexivity]. rewrite EE. reflexivity. }
      unfold cur_at in H. cbn [child] in H. destruct (m_nth ms i) as [b|] eqn:EI.
      2:{ exists [], (ICons ds v l), 1%nat, c. cbn [under map]. rewrite app_nil_r. split; [|split; [exact D|split; [exact H|split; [lia|split; [discriminate|auto]]]]].
          intros [|f] F; [lia|]. cbn [str2]. rewrite EI. reflexivity. }
      assert (TE : more_toks (ICons ds v l) ++ E = KComma :: dsg_toks ds ++ ini_toks v ++ more_toks l ++ E) by (cbn [more_toks]; cbn [app]; now rewrite <- !app_assoc).
      destruct (item_starts ds v (more_toks l ++ E)) as [ST DS]. destruct (starts_end _ ST) as (_ & _ & E3 & _).
      assert (AE : forall f, str2 (Datatypes.S f) ms c i false (more_toks (ICons ds v l) ++ E) =
         if designated (dsg_toks ds ++ ini_toks v ++ more_toks l ++ E) then LOk (c, more_toks (ICons ds v l) ++ E) else
            match with_kid c i (fun k => init2 f b k (dsg_toks ds ++ ini_toks v ++ more_toks l ++ E)) with LOk (c, r) => str2 f ms c (Datatypes.S i) false r | r => r end).
      { intros f. rewrite TE. cbn [str2]. rewrite EI, E3. reflexivity. }
      destruct ds as [|d ds].
      2:{ exists [], (ICons (d :: ds) v l), 1%nat, c. cbn [under map]. rewrite app_nil_r. split; [|split; [exact D|split; [|split; [lia|split; [discriminate|auto]]]]].
          - intros [|f] F; [lia|]. rewrite AE, DS. reflexivity.
          - rewrite <- H. apply run_designated. discriminate. }
      cbn [dsg_toks app] in AE, DS. cbn [run] in H. assert (C : child (NStruct id zs al ms) i = Some b) by exact EI.
      destruct (kid_in R P _ i b ws c S D C) as (kd & K & KP & SC).
      change (let* t := sub R (P ++ [i]) in let* q := descend v t (P ++ [i]) in let* t0 := sub R q in let* a := assigns v t0 in if forallb (fun '(w, _) => compatible R w q) ws then run R (next R q) (ws ++ under q a) l else None) with
        (let* t := sub R (P ++ [i]) in place R ws v l t (P ++ [i])) in H. rewrite SC in H.
      cbn [isz] in L, LK. assert (SV := sz_pos v).
      destruct (IH (sz v + isz l) ltac:(lia) R (P ++ [i]) b ws kd v l E W (le_n _) EE SC KP H) as (lw & its & f0 & k' & F1 & P1 & R1 & B1 & N1 & D1). specialize (N1 eq_refl).
      rewrite (next_child R P _ i b S C) in R1. cbn [union] in R1. rewrite <- under_under in P1, R1.
      assert (KO := kid_out R P _ i b ws c kd lw k' S D C K N1 ltac:(rewrite under_under in P1; exact P1)). rewrite upd_plain in KO by reflexivity.
      destruct (IHk its (Datatypes.S i) R P _ _ E W ltac:(lia) ltac:(lia) EE S KO R1) as (lw2 & its2 & f1 & c2 & F2 & P2 & R2 & B2 & _ & D2).
      exists (under [i] lw ++ lw2), its2, (Datatypes.S (Nat.max f0 f1)), c2. rewrite under_app, app_assoc. split; [|split; [exact P2|split; [exact R2|split; [cbn [isz]; lia|split; [discriminate|]]]]].
      2:{ cbn [no_dsg]. intros X. apply D2, D1, X. }
      intros [|f] F; [lia|]. rewrite AE, DS. cbn [is_nil negb]. unfold with_kid. rewrite K, F1 by lia. apply F2. lia. }
  intros its i R P ws c E W. apply (G (isz its)). lia.
Qed.

Lemma desig_follows : forall ds R P T ws c v its E W p, (sz v + isz its < m)%nat -> is_end E = true -> sub R P = Some T -> part (A R ws) P = Some c ->
  resolve false (is_last its) T ds = Some p -> (let* t := sub R (P ++ p) in place R ws v its t (P ++ p)) = Some W ->
  follows R P ws E W its true (fun f => desig f T c (map dsg_tok ds ++ KEq :: ini_toks v ++ more_toks its ++ E)).
Proof.
  induction ds as [|d ds IHd]; intros R P T ws c v its E W p L EE S D RS H.
  - cbn in RS. injection RS as <-. rewrite app_nil_r, S in H. destruct (IH _ L R P T ws c v its E W (le_n _) EE S D H) as (lw & its' & f0 & c' & F & X).
    exists lw, its', (Datatypes.S f0), c'. split; [|exact X]. intros [|f] FL; [lia|]. cbn [map app desig]. apply F. lia.
  - cbn [resolve] in RS. 
    assert (RS' : exists i ct p', match d, T with
        | DIx n, NArr _ len => if (0 <=? n) && (n <? Z.min (Z.of_nat len) (2 ^ 31)) then Some (Z.to_nat n) else None
        | DFd x, NStruct _ _ _ ms => let* i := find x ms O in if false || is_last its || negb (more T i) then Some i else None
        | DFd x, NUnion _ _ _ ms => find x ms O
        | _, _ => None end = Some i /\ child T i = Some ct /\ resolve false (is_last its) ct ds = Some p' /\ p = i :: p').
    { destruct (match d, T with DIx n, NArr _ len => _ | DFd x, NStruct _ _ _ ms => _ | DFd x, NUnion _ _ _ ms => _ | _, _ => None end) as [i|]; [|discriminate].
      destruct (child T i) as [ct|] eqn:EC; [|discriminate]. destruct (resolve false (is_last its) ct ds) as [p'|] eqn:ER; [|discriminate]. injection RS as <-. exists i, ct, p'. auto. }
    clear RS. destruct RS' as (i & ct & p' & RI & C & RS & ->).
    destruct (kid_in R P T i ct ws c S D C) as (kd & K & KP & SC).
    assert (H' : (let* t := sub R ((P ++ [i]) ++ p') in place R ws v its t ((P ++ [i]) ++ p')) = Some W) by (rewrite <- app_assoc; exact H).
    destruct (IHd R (P ++ [i]) ct ws kd v its E W p' L EE SC KP RS H') as (lw & its1 & f0 & k' & F1 & P1 & R1 & B1 & N1 & D1). specialize (N1 eq_refl).
    rewrite (next_child R P T i ct S C) in R1. rewrite <- under_under in P1, R1.
    assert (KO := kid_out R P T i ct ws c kd lw k' S D C K N1 ltac:(rewrite under_under in P1; exact P1)).
    assert (NE : i_expr c = None).
    { eapply no_expr; [exact S|exact D|]. destruct (sub R (P ++ i :: p')); [|discriminate]. eapply place_not_above, H. }
    assert (NL : under [i] lw <> []) by (destruct lw; [congruence|discriminate]).
    destruct d as [n|x]; destruct T as [t|b len|id zs al ms|id zs al ms]; try discriminate.
    + destruct ((0 <=? n) && (n <? Z.min (Z.of_nat len) (2 ^ 31))) eqn:EN; [|discriminate]. injection RI as <-.
      cbn [child] in C. destruct (Z.to_nat n <? len)%nat eqn:EL; [|discriminate]. injection C as <-. rewrite upd_plain in KO by reflexivity. cbn [union] in R1.
      destruct (arr2_follows b len its1 (Datatypes.S (Z.to_nat n)) R P _ _ E W ltac:(lia) EE S KO ltac:(lia) R1) as (lw2 & its2 & f1 & c2 & F2 & P2 & R2 & B2 & _ & D2).
      exists (under [Z.to_nat n] lw ++ lw2), its2, (Datatypes.S (Nat.max f0 f1)), c2. rewrite under_app, (app_assoc ws). split; [|split; [exact P2|split; [exact R2|split; [lia|split; [|auto]]]]].
      * intros [|f] F; [lia|]. cbn [map app desig dsg_tok]. rewrite array_desig_one by lia. replace (Datatypes.S (Z.to_nat n) - Z.to_nat n)%nat with 1%nat by lia.
        cbn [each]. unfold with_kid. rewrite K, F1 by lia. apply F2. lia.
      * intros _ X. apply app_eq_nil in X. tauto.
    + destruct (find x ms O) as [i0|] eqn:EF; [|discriminate]. destruct (false || is_last its || negb (more (NStruct id zs al ms) i0)) eqn:EO; [|discriminate]. injection RI as ->.
      destruct (find_desig x ms O i EF) as (FD & _ & _). cbn [child] in C. rewrite upd_plain in KO by reflexivity. cbn [union] in R1.
      assert (X : (m_nth ms (Datatypes.S i) = None \/ its1 = INil)).
      { rewrite (more_child (NStruct id zs al ms) i ct C) in EO. cbn [child union negb] in EO. destruct (m_nth ms (Datatypes.S i)); [right|left; reflexivity]. cbn in EO. rewrite orb_false_r in EO.
        destruct its; [|discriminate]. destruct its1; [reflexivity|]. cbn in B1. lia. }
      exists (under [i] lw), its1, (Datatypes.S (Datatypes.S f0)), (set_kid c i k'). split; [|split; [exact KO|split; [|split; [lia|auto]]]].
      * intros [|[|f]] F; [lia|lia|]. set (g := Datatypes.S f) in *. cbn [map app desig dsg_tok]. rewrite FD. unfold with_kid. rewrite K, C, F1 by lia.
        assert (SE : set_expr (set_kid c i k') None = set_kid c i k') by (destruct c as [e0 m0 cs0]; cbn in NE; subst e0; reflexivity). rewrite SE.
        subst g. cbn [str2]. destruct X as [->| ->]; [reflexivity|]. cbn [more_toks app]. rewrite EE. destruct (m_nth ms (Datatypes.S i)); reflexivity.
      * destruct X as [X| ->]; [|exact R1]. unfold cur_at in R1. cbn [child] in R1. rewrite X in R1. exact R1.
    + destruct (find_desig x ms O i RI) as (FD & _ & _). cbn [child] in C. rewrite upd_union in KO by reflexivity. cbn [union] in R1.
      exists (under [i] lw), its1, (Datatypes.S f0), (set_kid (set_mem c i) i k'). split; [|split; [exact KO|split; [exact R1|split; [lia|auto]]]].
      intros [|f] F; [lia|]. cbn [map app desig dsg_tok]. rewrite FD. unfold with_kid. rewrite kids_mem, K, C, F1 by lia. reflexivity.
Qed.

(** one item of the list of an array: the part of index j *)
Lemma arr1_one b n R : R = NArr b n -> forall ds v l i ws E W, (sz v + isz l < m)%nat -> is_end E = true ->
  (let* p := match ds with [] => cur_at R [] R i | _ => resolve true (is_last l) R ds end in let* t := sub R p in place R ws v l t p) = Some W ->
  let c := A R ws in let U := dsg_toks ds ++ ini_toks v ++ more_toks l ++ E in
  exists j d0, (j < n)%nat /\ nth_error (i_kids c) j = Some d0 /\ exists lw its' f0 k', lw <> [] /\ (isz its' <= isz l)%nat /\
         run R (cur_at R [] R (Datatypes.S j)) (ws ++ under [j] lw) its' = Some W /\ A R (ws ++ under [j] lw) = set_kid c j k' /\
         (forall f, (f0 <= f)%nat -> match ds with [] => j = i /\ init2 f b d0 U = LOk (k', more_toks its' ++ E)
            | d :: ds' => exists x, d = DIx x /\ 0 <= x < Z.min (Z.of_nat n) (2 ^ 31) /\ j = Z.to_nat x /\ desig f b d0 (map dsg_tok ds' ++ KEq :: ini_toks v ++ more_toks l ++ E) = LOk (k', more_toks its' ++ E) end).
Proof.
  intros ER ds v l i ws E W L EE H c U. assert (SV := sz_pos v). assert (PD : part (A R ws) [] = Some c) by reflexivity. assert (SR : sub R [] = Some (NArr b n)) by (rewrite ER; reflexivity).
        destruct ds as [|d ds'].
        - unfold cur_at in H. assert (CI : child R i = if (i <? n)%nat then Some b else None) by (rewrite ER; reflexivity). rewrite CI in H. destruct (i <? n)%nat eqn:EI; [|discriminate H]. cbn [app] in H.
          assert (C : child (NArr b n) i = Some b) by (cbn [child]; now rewrite EI). destruct (kid_in R [] _ i b ws c SR PD C) as (kd & K & KP & SC). cbn [app] in KP, SC. rewrite SC in H.
          destruct (IH (sz v + isz l) ltac:(lia) R [i] b ws kd v l E W (le_n _) EE SC KP H) as (lw & its & f0 & k' & F1 & P1 & R1 & B1 & N1 & _). specialize (N1 eq_refl).
          assert (NX := next_child R [] _ i b SR C). cbn [app union] in NX. rewrite NX in R1.
          assert (KO := kid_out R [] _ i b ws c kd lw k' SR PD C K N1 P1). rewrite upd_plain in KO by reflexivity. cbn [part] in KO. rewrite under_nil in KO. injection KO as KO.
          exists i, kd. split; [lia|]. split; [exact K|]. exists lw, its, f0, k'. split; [exact N1|]. split; [exact B1|]. split; [rewrite ER in R1 |- *; exact R1|]. split; [exact KO|]. intros f F. split; [reflexivity|]. apply F1, F.
        - cbn [resolve] in H. destruct d as [x|x]; [|rewrite ER in H; discriminate H].
          destruct (match R with NArr _ len => if (0 <=? x) && (x <? Z.min (Z.of_nat len) (2 ^ 31)) then Some (Z.to_nat x) else None | _ => None end) as [j|] eqn:EJ; [|discriminate H].
          assert (EJ' := EJ). rewrite ER in EJ'. destruct ((0 <=? x) && (x <? Z.min (Z.of_nat n) (2 ^ 31))) eqn:EX; [|discriminate EJ']. injection EJ' as <-.
          assert (C : child (NArr b n) (Z.to_nat x) = Some b) by (cbn [child]; destruct (Z.to_nat x <? n)%nat eqn:?; [reflexivity|lia]).
          assert (CR : child R (Z.to_nat x) = Some b) by (rewrite ER; exact C). rewrite CR in H. destruct (resolve false (is_last l) b ds') as [p|] eqn:EP; [|discriminate H].
          destruct (kid_in R [] _ (Z.to_nat x) b ws c SR PD C) as (kd & K & KP & SC). cbn [app] in KP, SC.
          destruct (desig_follows ds' R [Z.to_nat x] b ws kd v l E W p ltac:(lia) EE SC KP EP H) as (lw & its & f0 & k' & F1 & P1 & R1 & B1 & N1 & _). specialize (N1 eq_refl).
          assert (NX := next_child R [] _ (Z.to_nat x) b SR C). cbn [app union] in NX. rewrite NX in R1.
          assert (KO := kid_out R [] _ (Z.to_nat x) b ws c kd lw k' SR PD C K N1 P1). rewrite upd_plain in KO by reflexivity. cbn [part] in KO. rewrite under_nil in KO. injection KO as KO.
          exists (Z.to_nat x), kd. split; [lia|]. split; [exact K|]. exists lw, its, f0, k'. split; [exact N1|]. split; [exact B1|]. split; [rewrite ER in R1 |- *; exact R1|]. split; [exact KO|]. intros f F. exists x.
          split; [reflexivity|]. split; [lia|]. split; [reflexivity|]. apply F1, F.
Qed.
Lemma arr1_follows b n R : R = NArr b n -> forall its i ws E X W first, (isz its < m)%nat -> is_end E = true -> consume_end E = Some X -> (first = true -> its <> INil) ->
  run R (cur_at R [] R i) ws its = Some W -> exists f0, forall f, (f0 <= f)%nat -> arr1 f b n (A R ws) i first ((if first then body its else more_toks its) ++ E) = LOk (A R W, X).
Proof.
  intros ER. assert (G : forall k its i ws E X W first, (isz its <= k)%nat -> (isz its < m)%nat -> is_end E = true -> consume_end E = Some X -> (first = true -> its <> INil) ->
    run R (cur_at R [] R i) ws its = Some W -> exists f0, forall f, (f0 <= f)%nat -> arr1 f b n (A R ws) i first ((if first then body its else more_toks its) ++ E) = LOk (A R W, X)).
  { induction k as [|k IHk]; intros its i ws E X W first LK L EE CE NF H.
    - destruct its; cbn in LK; [|lia]. destruct first; [destruct (NF eq_refl); reflexivity|]. cbn in H. injection H as <-. exists 1%nat. intros [|f] F; [lia|]. cbn [arr1 more_toks app]. rewrite CE. reflexivity.
    - destruct its as [|ds v l].
      { destruct first; [destruct (NF eq_refl); reflexivity|]. cbn in H. injection H as <-. exists 1%nat. intros [|f] F; [lia|]. cbn [arr1 more_toks app]. rewrite CE. reflexivity. }
      set (U := dsg_toks ds ++ ini_toks v ++ more_toks l ++ E). destruct (item_starts ds v (more_toks l ++ E)) as [ST DS]. fold U in ST, DS. destruct (starts_end _ ST) as (_ & E2 & _ & E4).
      assert (TE : (if first then body (ICons ds v l) else more_toks (ICons ds v l)) ++ E = if first then U else KComma :: U) by (unfold U; destruct first; cbn [body more_toks app]; now rewrite <- !app_assoc).
      rewrite TE. set (c := A R ws). assert (AE : forall f, arr1 (Datatypes.S f) b n c i first (if first then U else KComma :: U) =
        let range x y r :=
                match array_desig x y n with
                | LOk (i, j) => match each (fun k => desig f b k r) c i (Datatypes.S j - i) r with LOk (c, r) => arr1 f b n c (Datatypes.S j) false r | r => r end
                | LErr => LErr | LUb => LUb | LFuel => LFuel
                end in
        match U with
        | KIdx a :: r => range a a r
        | KRange x y :: r => range x y r
        | _ => if (i <? n)%nat then match with_kid c i (fun k => init2 f b k U) with LOk (c, r) => arr1 f b n c (Datatypes.S i) false r | r => r end
               else match skip_excess U with Some r => arr1 f b n c (Datatypes.S i) false r | None => LErr end
        end).
      { intros f. cbn [arr1]. destruct first; [rewrite E2|rewrite E4]; reflexivity. }
      rewrite run_item in H. cbn [isz] in L, LK. assert (SV := sz_pos v). assert (PD : part (A R ws) [] = Some c) by reflexivity. assert (SR : sub R [] = Some (NArr b n)) by (rewrite ER; reflexivity).
      assert (ONE := arr1_one b n R ER ds v l i ws E W ltac:(lia) EE H). cbv zeta in ONE. fold c U in ONE.
      destruct ONE as (j & d0 & J & K & lw & its' & f0 & k' & _ & B1 & R1 & EA & F1).
      destruct (IHk its' (Datatypes.S j) _ E X W false ltac:(lia) ltac:(lia) EE CE ltac:(discriminate) R1) as [f1 F2]. rewrite EA in F2.
      exists (Datatypes.S (Nat.max f0 f1)). intros [|f] F; [lia|]. rewrite AE. specialize (F1 f ltac:(lia)). specialize (F2 f ltac:(lia)). unfold U in *. destruct ds as [|d ds'].
      + destruct F1 as [-> F1]. cbn [dsg_toks app] in *. destruct (ini_starts v (more_toks l ++ E)) as [_ ND].
        assert (HI : (i <? n)%nat = true) by lia. rewrite HI.
        assert (GO : match with_kid c i (fun k => init2 f b k (ini_toks v ++ more_toks l ++ E)) with LOk (c, r) => arr1 f b n c (Datatypes.S i) false r | r => r end = LOk (A R W, X)) by (unfold with_kid; rewrite K, F1; exact F2).
        destruct (ini_toks v ++ more_toks l ++ E) as [|t0 u]; [exact GO|]. destruct t0; try exact GO; discriminate ND.
      + destruct F1 as (x & -> & RX & -> & F1). cbn [dsg_toks map app dsg_tok]. rewrite <- !app_assoc. cbn [app]. cbv zeta. rewrite array_desig_one by lia.
        replace (Datatypes.S (Z.to_nat x) - Z.to_nat x)%nat with 1%nat by lia. cbn [each]. unfold with_kid. rewrite K, F1. exact F2. }
  intros its i ws E X W first. apply (G (isz its)). lia.
Qed.

Lemma top_cons i p e ws : top ((i :: p, e) :: ws) = Z.max (top ws) (Z.of_nat i + 1).
Proof. reflexivity. Qed.
Lemma top_whole e ws : top (([], e) :: ws) = top ws.
Proof. reflexivity. Qed.
Lemma top_pos ws : 0 <= top ws.
Proof. induction ws as [|[[|i p] e] ws IHw]; [cbn; lia|now rewrite top_whole|]. rewrite top_cons. lia. Qed.
Lemma top_app a b : top (a ++ b) = Z.max (top a) (top b).
Proof. pose proof (top_pos b). induction a as [|[[|i p] e] a IHa]; cbn [app]; [change (top []) with 0; lia|now rewrite !top_whole|]. rewrite !top_cons. lia. Qed.
Lemma top_under j lw : lw <> [] -> top (under [j] lw) = Z.of_nat j + 1.
Proof.
  induction lw as [|[p e] lw IHl]; [congruence|]. intros _. change (top (under [j] ((p, e) :: lw))) with (Z.max (top (under [j] lw)) (Z.of_nat j + 1)).
  destruct lw as [|y lw]; [cbn; lia|]. rewrite IHl by discriminate. lia.
Qed.
Lemma count_follows b n R : R = NArr b n -> forall its i ws E X W first, (isz its < m)%nat -> is_end E = true -> consume_end E = Some X -> (first = true -> its <> INil) ->
  run R (cur_at R [] R i) ws its = Some W -> exists e f0, W = ws ++ e /\ forall d mx f, shaped b d -> 0 <= mx -> (f0 <= f)%nat ->
    count f b d first (Z.of_nat i) mx ((if first then body its else more_toks its) ++ E) = LOk (Z.max mx (top e)).
Proof.
  intros ER. assert (G : forall k its i ws E X W first, (isz its <= k)%nat -> (isz its < m)%nat -> is_end E = true -> consume_end E = Some X -> (first = true -> its <> INil) ->
    run R (cur_at R [] R i) ws its = Some W -> exists e f0, W = ws ++ e /\ forall d mx f, shaped b d -> 0 <= mx -> (f0 <= f)%nat ->
      count f b d first (Z.of_nat i) mx ((if first then body its else more_toks its) ++ E) = LOk (Z.max mx (top e))).
  { induction k as [|k IHk]; intros its i ws E X W first LK L EE CE NF H.
    - destruct its; cbn in LK; [|lia]. destruct first; [destruct (NF eq_refl); reflexivity|]. cbn in H. injection H as <-. exists [], 1%nat. rewrite app_nil_r. split; [reflexivity|].
      intros d mx [|f] SD MX F; [lia|]. cbn [count more_toks app]. rewrite CE. cbn [top fold_right]. f_equal. lia.
    - destruct its as [|ds v l].
      { destruct first; [destruct (NF eq_refl); reflexivity|]. cbn in H. injection H as <-. exists [], 1%nat. rewrite app_nil_r. split; [reflexivity|].
        intros d mx [|f] SD MX F; [lia|]. cbn [count more_toks app]. rewrite CE. cbn [top fold_right]. f_equal. lia. }
      set (U := dsg_toks ds ++ ini_toks v ++ more_toks l ++ E). destruct (item_starts ds v (more_toks l ++ E)) as [ST DS]. fold U in ST, DS. destruct (starts_end _ ST) as (_ & E2 & _ & E4).
      assert (TE : (if first then body (ICons ds v l) else more_toks (ICons ds v l)) ++ E = if first then U else KComma :: U) by (unfold U; destruct first; cbn [body more_toks app]; now rewrite <- !app_assoc).
      rewrite TE. assert (AE : forall d mx f, count (Datatypes.S f) b d first (Z.of_nat i) mx (if first then U else KComma :: U) =
              let '(i, r) := match U with KIdx a :: r => (sx 32 a, desig f b d r) | KRange _ a :: r => (sx 32 a, desig f b d r) | _ => (Z.of_nat i, init2 f b d U) end in
              match r with
              | LOk (d, ts) => count f b d false (i + 1) (Z.max mx (i + 1)) ts
              | LErr => LErr | LUb => LUb | LFuel => LFuel
              end).
      { intros d mx f. cbn [count]. destruct first; [rewrite E2|rewrite E4]; reflexivity. }
      rewrite run_item in H. cbn [isz] in L, LK. assert (SV := sz_pos v).
      assert (ONE := arr1_one b n R ER ds v l i ws E W ltac:(lia) EE H). cbv zeta in ONE. fold U in ONE.
      destruct ONE as (j & d0 & J & K & lw & its' & f0 & k' & N1 & B1 & R1 & EA & F1).
      destruct (IHk its' (Datatypes.S j) _ E X W false ltac:(lia) ltac:(lia) EE CE ltac:(discriminate) R1) as (e & f1 & -> & F2).
      exists (under [j] lw ++ e), (Datatypes.S (Nat.max f0 f1)). rewrite app_assoc. split; [reflexivity|]. intros d mx [|f] SD MX F; [lia|]. rewrite AE. specialize (F1 f ltac:(lia)).
      rewrite top_app, (top_under j lw N1). assert (F3 : forall d', shaped b d' -> count f b d' false (Z.of_nat j + 1) (Z.max mx (Z.of_nat j + 1)) (more_toks its' ++ E) = LOk (Z.max mx (Z.max (Z.of_nat j + 1) (top e)))).
      { intros d' S'. replace (Z.of_nat j + 1) with (Z.of_nat (Datatypes.S j)) by lia. rewrite F2; [f_equal; lia|exact S'|lia|lia]. }
      unfold U in *. destruct ds as [|d1 ds'].
      + destruct F1 as [-> F1]. cbn [dsg_toks app] in *. destruct (proj1 (all_same f) b _ _ _ _ F1 d SD) as (d' & E' & S'). destruct (ini_starts v (more_toks l ++ E)) as [_ ND].
        assert (GO : match init2 f b d (ini_toks v ++ more_toks l ++ E) with LOk (d, ts) => count f b d false (Z.of_nat i + 1) (Z.max mx (Z.of_nat i + 1)) ts | LErr => LErr | LUb => LUb | LFuel => LFuel end
          = LOk (Z.max mx (Z.max (Z.of_nat i + 1) (top e)))) by (rewrite E'; apply F3, S').
        destruct (ini_toks v ++ more_toks l ++ E) as [|t0 u]; [exact GO|]. destruct t0; try exact GO; discriminate ND.
      + destruct F1 as (x & -> & RX & -> & F1). destruct (proj1 (proj2 (all_same f)) b _ _ _ _ F1 d SD) as (d' & E' & S').
        cbn [dsg_toks map app dsg_tok]. rewrite <- !app_assoc. cbn [app]. rewrite E', sx32 by lia. rewrite <- (Z2Nat.id x) at 1 2 by lia. apply F3, S'. }
  intros its i ws E X W first. apply (G (isz its)). lia.
Qed.
Lemma str1_follows id0 zs0 al0 ms R : R = NStruct id0 zs0 al0 ms -> forall its i ws E X W first, (isz its < m)%nat -> is_end E = true -> consume_end E = Some X -> (first = true -> its <> INil) ->
  run R (cur_at R [] R i) ws its = Some W -> exists f0, forall f, (f0 <= f)%nat -> str1 f ms (A R ws) i first ((if first then body its else more_toks its) ++ E) = LOk (A R W, X).
Proof.
  intros ER. assert (G : forall k its i ws E X W first, (isz its <= k)%nat -> (isz its < m)%nat -> is_end E = true -> consume_end E = Some X -> (first = true -> its <> INil) ->
    run R (cur_at R [] R i) ws its = Some W -> exists f0, forall f, (f0 <= f)%nat -> str1 f ms (A R ws) i first ((if first then body its else more_toks its) ++ E) = LOk (A R W, X)).
  { induction k as [|k IHk]; intros its i ws E X W first LK L EE CE NF H.
    - destruct its; cbn in LK; [|lia]. destruct first; [destruct (NF eq_refl); reflexivity|]. cbn in H. injection H as <-. exists 1%nat. intros [|f] F; [lia|]. cbn [str1 more_toks app]. rewrite CE. reflexivity.
    - destruct its as [|ds v l].
      { destruct first; [destruct (NF eq_refl); reflexivity|]. cbn in H. injection H as <-. exists 1%nat. intros [|f] F; [lia|]. cbn [str1 more_toks app]. rewrite CE. reflexivity. }
      set (U := dsg_toks ds ++ ini_toks v ++ more_toks l ++ E). destruct (item_starts ds v (more_toks l ++ E)) as [ST DS]. fold U in ST, DS. destruct (starts_end _ ST) as (_ & E2 & _ & E4).
      assert (TE : (if first then body (ICons ds v l) else more_toks (ICons ds v l)) ++ E = if first then U else KComma :: U) by (unfold U; destruct first; cbn [body more_toks app]; now rewrite <- !app_assoc).
      rewrite TE. set (c := A R ws). assert (AE : forall f, str1 (Datatypes.S f) ms c i first (if first then U else KComma :: U) =
              match U with
              | KDot x :: r =>
                  match struct_desig x ms O with
                  | LOk (i, used) =>
                      match with_kid c i (fun k => match m_nth ms i with Some t => desig f t k (if used then r else U) | None => LUb end) with
                      | LOk (c, r) => str1 f ms c (Datatypes.S i) false r
                      | r => r
                      end
                  | LErr => LErr | LUb => LUb | LFuel => LFuel
                  end
              | _ =>
                  match m_nth ms i with
                  | Some t =>
                      match with_kid c i (fun k => init2 f t k U) with
                      | LOk (c, r) => str1 f ms c (Datatypes.S i) false r
                      | r => r
                      end
                  | None => match skip_excess U with Some r => str1 f ms c i false r | None => LErr end
                  end
              end).
      { intros f. cbn [str1]. destruct first; [rewrite E2|rewrite E4]; reflexivity. }
      rewrite run_item in H. cbn [isz] in L, LK. assert (SV := sz_pos v). assert (PD : part (A R ws) [] = Some c) by reflexivity. assert (SR : sub R [] = Some (NStruct id0 zs0 al0 ms)) by (rewrite ER; reflexivity).
      assert (ONE : exists j d0 b, m_nth ms j = Some b /\ nth_error (i_kids c) j = Some d0 /\ exists lw its' f0 k', (isz its' <= isz l)%nat /\
         run R (cur_at R [] R (Datatypes.S j)) (ws ++ under [j] lw) its' = Some W /\ A R (ws ++ under [j] lw) = set_kid c j k' /\
         (forall f, (f0 <= f)%nat -> match ds with [] => j = i /\ init2 f b d0 U = LOk (k', more_toks its' ++ E)
            | d :: ds' => exists x, d = DFd x /\ struct_desig x ms O = LOk (j, true) /\ desig f b d0 (map dsg_tok ds' ++ KEq :: ini_toks v ++ more_toks l ++ E) = LOk (k', more_toks its' ++ E) end)).
      { destruct ds as [|d ds'].
        - unfold cur_at in H. assert (CI : child R i = m_nth ms i) by (rewrite ER; reflexivity). rewrite CI in H. destruct (m_nth ms i) as [b|] eqn:EI; [|discriminate H]. cbn [app] in H.
          assert (C : child (NStruct id0 zs0 al0 ms) i = Some b) by exact EI. destruct (kid_in R [] _ i b ws c SR PD C) as (kd & K & KP & SC). cbn [app] in KP, SC. rewrite SC in H.
          destruct (IH (sz v + isz l) ltac:(lia) R [i] b ws kd v l E W (le_n _) EE SC KP H) as (lw & its & f0 & k' & F1 & P1 & R1 & B1 & N1 & _). specialize (N1 eq_refl).
          assert (NX := next_child R [] _ i b SR C). cbn [app union] in NX. rewrite NX in R1.
          assert (KO := kid_out R [] _ i b ws c kd lw k' SR PD C K N1 P1). rewrite upd_plain in KO by reflexivity. cbn [part] in KO. rewrite under_nil in KO. injection KO as KO.
          exists i, kd, b. split; [exact EI|]. split; [exact K|]. exists lw, its, f0, k'. split; [exact B1|]. split; [rewrite ER in R1 |- *; exact R1|]. split; [exact KO|]. intros f F. split; [reflexivity|]. apply F1, F.
        - cbn [resolve] in H. destruct d as [x|x]; [rewrite ER in H; discriminate H|].
          assert (EX : exists j, find x ms O = Some j /\ (let* c := child R j in let* p := resolve false (is_last l) c ds' in Some (j :: p)) = resolve true (is_last l) R (DFd x :: ds')).
          { rewrite ER in H |- *. cbn [orb] in H. cbn [resolve]. destruct (find x ms O) as [j|]; [|discriminate H]. exists j. split; [reflexivity|]. reflexivity. }
          destruct EX as (j & EJ & EQ). cbn [resolve] in EQ. rewrite <- EQ in H. clear EQ. destruct (find_desig _ _ _ _ EJ) as (SD & _ & b & MN). rewrite Nat.sub_0_r in MN.
          assert (C : child (NStruct id0 zs0 al0 ms) j = Some b) by exact MN.
          assert (CR : child R j = Some b) by (rewrite ER; exact C). rewrite CR in H. destruct (resolve false (is_last l) b ds') as [p|] eqn:EP; [|discriminate H].
          destruct (kid_in R [] _ j b ws c SR PD C) as (kd & K & KP & SC). cbn [app] in KP, SC.
          destruct (desig_follows ds' R [j] b ws kd v l E W p ltac:(lia) EE SC KP EP H) as (lw & its & f0 & k' & F1 & P1 & R1 & B1 & N1 & _). specialize (N1 eq_refl).
          assert (NX := next_child R [] _ j b SR C). cbn [app union] in NX. rewrite NX in R1.
          assert (KO := kid_out R [] _ j b ws c kd lw k' SR PD C K N1 P1). rewrite upd_plain in KO by reflexivity. cbn [part] in KO. rewrite under_nil in KO. injection KO as KO.
          exists j, kd, b. split; [exact MN|]. split; [exact K|]. exists lw, its, f0, k'. split; [exact B1|]. split; [rewrite ER in R1 |- *; exact R1|]. split; [exact KO|]. intros f F. exists x.
          split; [reflexivity|]. split; [exact SD|]. apply F1, F. }
      destruct ONE as (j & d0 & b & J & K & lw & its' & f0 & k' & B1 & R1 & EA & F1).
      destruct (IHk its' (Datatypes.S j) _ E X W false ltac:(lia) ltac:(lia) EE CE ltac:(discriminate) R1) as [f1 F2]. rewrite EA in F2.
      exists (Datatypes.S (Nat.max f0 f1)). intros [|f] F; [lia|]. rewrite AE. specialize (F1 f ltac:(lia)). specialize (F2 f ltac:(lia)). unfold U in *. destruct ds as [|d ds'].
      + destruct F1 as [-> F1]. cbn [dsg_toks app] in *. destruct (ini_starts v (more_toks l ++ E)) as [_ ND]. rewrite J.
        assert (GO : match with_kid c i (fun k => init2 f b k (ini_toks v ++ more_toks l ++ E)) with LOk (c, r) => str1 f ms c (Datatypes.S i) false r | r => r end = LOk (A R W, X)) by (unfold with_kid; rewrite K, F1; exact F2).
        destruct (ini_toks v ++ more_toks l ++ E) as [|t0 u]; [exact GO|]. destruct t0; try exact GO; discriminate ND.
      + destruct F1 as (x & -> & SD & F1). cbn [dsg_toks map app dsg_tok]. rewrite <- !app_assoc. cbn [app]. cbv zeta. rewrite SD, J. unfold with_kid. rewrite K, F1. exact F2. }
  intros its i ws E X W first. apply (G (isz its)). lia.
Qed.
Lemma run_none_nil R ws its W : no_dsg its = true -> run R None ws its = Some W -> its = INil /\ W = ws.
Proof. intros N H. destruct its as [|[|d ds] v l]; cbn in H; [injection H as <-; auto|discriminate|discriminate N]. Qed.
Lemma union_follows id0 zs0 al0 ms R : R = NUnion id0 zs0 al0 ms -> forall ds v l E X W, (sz v + isz l < m)%nat -> is_end E = true -> consume_end E = Some X -> no_dsg l = true -> (ds <> [] -> E = KRb :: X) ->
  run R (Some [O]) [] (ICons ds v l) = Some W -> exists f0, forall f, (f0 <= f)%nat -> init2 f R (blank R) (KLb :: body (ICons ds v l) ++ E) = LOk (A R W, X).
Proof.
  intros ER ds v l E X W L EE CE ND TR H. rewrite run_item in H. assert (SR : sub R [] = Some (NUnion id0 zs0 al0 ms)) by (rewrite ER; reflexivity).
  assert (PD : part (A R []) [] = Some (blank R)) by reflexivity.
  destruct ds as [|d ds'].
  - destruct (sub R [O]) as [b|] eqn:SC; [|discriminate H]. assert (C : child (NUnion id0 zs0 al0 ms) O = Some b) by (rewrite ER in SC; cbn [sub] in SC; destruct (child _ O); congruence).
    destruct (kid_in R [] _ O b [] _ SR PD C) as (kd & K & KP & _). cbn [app] in KP.
    destruct (IH (sz v + isz l) ltac:(lia) R [O] b [] kd v l E W (le_n _) EE SC KP H) as (lw & its & f0 & k' & F1 & P1 & R1 & B1 & N1 & D1). specialize (N1 eq_refl). specialize (D1 ND).
    assert (NX := next_child R [] _ O b SR C). cbn [app union] in NX. rewrite NX in R1. change (next R []) with (@None (list nat)) in R1. destruct (run_none_nil _ _ _ _ D1 R1) as [-> ->].
    assert (KO := kid_out R [] _ O b [] _ kd lw k' SR PD C K N1 P1). rewrite upd_union in KO by reflexivity. cbn [part] in KO. rewrite under_nil in KO. injection KO as KO.
    exists (Datatypes.S f0). intros [|f] F; [lia|]. specialize (F1 f ltac:(lia)). cbn [body dsg_toks app]. rewrite <- app_assoc. cbn [app more_toks] in *. rewrite KO.
    destruct (ini_starts v (more_toks l ++ E)) as [_ DS]. set (U := ini_toks v ++ more_toks l ++ E) in *.
    assert (GO : init2 (Datatypes.S f) R (blank R) (KLb :: U) = match with_kid (set_mem (blank R) O) O (fun k => match m_nth ms O with Some t => init2 f t k U | None => LUb end) with
              | LOk (c, r) => match (match r with KComma :: r => r | _ => r end) with KRb :: r => LOk (c, r) | _ => LErr end
              | r => r
              end) by (rewrite ER; cbn [init2]; destruct U as [|[] U]; try reflexivity; discriminate DS).
    rewrite GO. unfold with_kid. rewrite kids_mem, K. cbn [child] in C. rewrite C, F1. destruct E as [|[] E]; try discriminate; cbn in CE |- *; [congruence|]. destruct E as [|[] E]; try discriminate. congruence.
  - specialize (TR ltac:(discriminate)). subst E.
    cbn [resolve] in H. destruct d as [x|x]; [rewrite ER in H; discriminate H|].
    assert (EX : exists j, find x ms O = Some j /\ (let* c := child R j in let* p := resolve false (is_last l) c ds' in Some (j :: p)) = resolve true (is_last l) R (DFd x :: ds')).
    { rewrite ER in H |- *. cbn [resolve]. destruct (find x ms O) as [j|]; [|discriminate H]. exists j. split; reflexivity. }
    destruct EX as (j & EJ & EQ). cbn [resolve] in EQ. rewrite <- EQ in H. clear EQ. destruct (find_desig _ _ _ _ EJ) as (SD & _ & b & MN). rewrite Nat.sub_0_r in MN.
    assert (C : child (NUnion id0 zs0 al0 ms) j = Some b) by exact MN.
    assert (CR : child R j = Some b) by (rewrite ER; exact C). rewrite CR in H. destruct (resolve false (is_last l) b ds') as [p|] eqn:EP; [|discriminate H].
    destruct (kid_in R [] _ j b [] _ SR PD C) as (kd & K & KP & SC). cbn [app] in KP, SC.
    destruct (desig_follows ds' R [j] b [] kd v l (KRb :: X) W p ltac:(lia) EE SC KP EP H) as (lw & its & f0 & k' & F1 & P1 & R1 & B1 & N1 & D1). specialize (N1 eq_refl). specialize (D1 ND).
    assert (NX := next_child R [] _ j b SR C). cbn [app union] in NX. rewrite NX in R1. change (next R []) with (@None (list nat)) in R1. destruct (run_none_nil _ _ _ _ D1 R1) as [-> ->].
    assert (KO := kid_out R [] _ j b [] _ kd lw k' SR PD C K N1 P1). rewrite upd_union in KO by reflexivity. cbn [part] in KO. rewrite under_nil in KO. injection KO as KO.
    exists (Datatypes.S f0). intros [|f] F; [lia|]. specialize (F1 f ltac:(lia)). cbn [body dsg_toks app map dsg_tok]. rewrite <- !app_assoc. cbn [app more_toks] in *. rewrite KO.
    rewrite ER at 1. cbn [init2]. rewrite SD, MN. unfold with_kid. rewrite kids_mem, K, F1. reflexivity.
Qed.

Lemma value_ok : forall v T c a X, (sz v <= m)%nat -> fits T v = true -> assigns v T = Some a -> (scalar T = false -> c = blank T) ->
  exists f0, forall f, (f0 <= f)%nat -> init2 f T c (ini_toks v ++ X) = LOk (wrs T c a, X).
Proof.
  fix VO 1. intros [e|k vs e|l trail] T c a X SV FT H NB.
  - clear VO. cbn [assigns] in H. rewrite FT in H. destruct (union_ty (ntype e)); [discriminate|]. injection H as <-. exists 1%nat. intros [|f] F; [lia|].
    cbn [ini_toks app wrs fold_left wr]. destruct T as [t|b n|id zs al ms|id zs al ms]; cbn [fits] in FT; try discriminate; cbn [init2]; [reflexivity|].
    change (is_struct (ntype e)) with (struct_ty (ntype e)). rewrite FT. reflexivity.
  - clear VO. cbn [assigns] in H. exists 1%nat. intros [|f] F; [lia|]. destruct T as [t|b n|id zs al ms|id zs al ms]; cbn [fits] in FT; try discriminate.
    + injection H as <-. reflexivity.
    + rewrite FT in H. destruct (negb (is_nil (letters n vs))); [|discriminate]. injection H as <-. rewrite (NB eq_refl). cbn [ini_toks app init2]. unfold string_init.
      destruct b as [t| | |]; try discriminate FT. cbn [chars] in FT. rewrite FT. cbn [blank]. f_equal. f_equal. symmetry.
      assert (G := string_writes (NScal t) n None None vs (repeat (blank (NScal t)) n) []). cbn [length app] in G. rewrite repeat_length in G. apply G. reflexivity.
  - assert (SE : forall X, is_end ((if trail then [KComma] else []) ++ KRb :: X) = true /\ consume_end ((if trail then [KComma] else []) ++ KRb :: X) = Some X) by (intros Y; destruct trail; split; reflexivity).
    destruct (SE X) as [EE CE]. set (E := (if trail then [KComma] else []) ++ KRb :: X) in *.
    assert (TE : ini_toks (VBr l trail) ++ X = KLb :: body l ++ E) by (unfold E; cbn [ini_toks]; fold (body l); cbn [app]; now rewrite <- !app_assoc).
    cbn [sz] in SV. destruct T as [t|b n|id zs al ms|id zs al ms]; cbn [assigns] in H.
    + destruct l as [|[|d ds] v' [|ds2 v2 l2]]; try discriminate. destruct trail; [discriminate|].
      destruct (VO v' (NScal t) c a (KRb :: X)) as [f0 F0]; [cbn [isz] in SV; lia|destruct v'; reflexivity|exact H|discriminate|].
      clear VO. exists (Datatypes.S f0). intros [|f] F; [lia|]. rewrite TE. cbn [body dsg_toks app more_toks]. rewrite app_nil_r. cbn [init2]. unfold E. cbn [app]. rewrite F0 by lia. reflexivity.
    + clear VO. rewrite (NB eq_refl). set (R := NArr b n). assert (H' : l <> INil /\ run R (Some [O]) [] l = Some a).
      { destruct l as [|ds v' l']; [discriminate|]. split; [discriminate|]. destruct ds; [|exact H]. destruct v'; try exact H. destruct l'; [|exact H]. destruct (chars b k); [discriminate|exact H]. }
      destruct H' as [NL RR]. destruct l as [|ds v' l']; [congruence|]. assert (CO : cur_at R [] R O = Some [O] \/ ds <> []).
      { unfold cur_at. destruct (child R O) eqn:EC; [left; reflexivity|]. right. intros ->. rewrite run_item in RR. cbn [sub] in RR. rewrite EC in RR. discriminate. }
      assert (RR' : run R (cur_at R [] R O) [] (ICons ds v' l') = Some a) by (destruct CO as [-> |N]; [exact RR|rewrite <- RR; apply run_designated, N]).
      destruct (arr1_follows b n R eq_refl (ICons ds v' l') O [] E X a true ltac:(lia) EE CE ltac:(discriminate) RR') as [f0 F0].
      exists (Datatypes.S f0). intros [|f] F; [lia|]. rewrite TE. exact (F0 f ltac:(lia)).
    + clear VO. rewrite (NB eq_refl). set (R := NStruct id zs al ms). assert (H' : l <> INil /\ run R (Some [O]) [] l = Some a).
      { destruct l as [|ds v' l']; [discriminate|]. split; [discriminate|]. exact H. }
      destruct H' as [NL RR]. destruct l as [|ds v' l']; [congruence|]. assert (CO : cur_at R [] R O = Some [O] \/ ds <> []).
      { unfold cur_at. destruct (child R O) eqn:EC; [left; reflexivity|]. right. intros ->. rewrite run_item in RR. cbn [sub] in RR. rewrite EC in RR. discriminate. }
      assert (RR' : run R (cur_at R [] R O) [] (ICons ds v' l') = Some a) by (destruct CO as [-> |N]; [exact RR|rewrite <- RR; apply run_designated, N]).
      destruct (str1_follows id zs al ms R eq_refl (ICons ds v' l') O [] E X a true ltac:(lia) EE CE ltac:(discriminate) RR') as [f0 F0].
      exists (Datatypes.S f0). intros [|f] F; [lia|]. rewrite TE. exact (F0 f ltac:(lia)).
    + clear VO. rewrite (NB eq_refl). destruct l as [|ds v' l']; [discriminate|]. destruct (no_dsg l') eqn:EN; [|discriminate]. cbn [andb] in H. destruct (is_nil ds || negb trail) eqn:ET; [|discriminate].
      cbn [isz] in SV. rewrite TE. apply (union_follows id zs al ms _ eq_refl ds v' l' E X a); auto; [lia|].
      intros N. unfold E. destruct ds; [congruence|]. destruct trail; [discriminate|reflexivity].
Qed.
Lemma eli_fits T R P ws c v its E W : (sz v + isz its <= m)%nat -> is_end E = true -> sub R P = Some T -> part (A R ws) P = Some c -> fits T v = true ->
  place R ws v its T P = Some W -> follows R P ws E W its true (fun f => init2 f T c (ini_toks v ++ more_toks its ++ E)).
Proof.
  intros L EE S D FT H. unfold place in H. assert (ED : descend v T P = Some P) by (destruct T; cbn [descend]; rewrite FT; reflexivity). rewrite ED, S in H.
  destruct (assigns v T) as [a|] eqn:EA; [|discriminate]. destruct (forallb _ ws) eqn:EF; [|discriminate]. rewrite forallb_forall in EF.
  assert (NB : scalar T = false -> c = blank T).
  { intros N. assert (PB := part_A_blank R P T ws S). rewrite D in PB. assert (Some c = Some (blank T)); [|congruence]. apply PB. intros w e IN [r ->].
    specialize (EF _ IN). cbn in EF. rewrite (compat_not_below P R T r S N) in EF. discriminate. }
  destruct (value_ok v T c a (more_toks its ++ E) ltac:(lia) FT EA NB) as [f0 F0].
  exists a, its, f0, (wrs T c a). split; [exact F0|]. split; [apply part_A_under; assumption|]. split; [exact H|]. split; [lia|]. split; [intros _; apply (assigns_facts v T a EA)|auto].
Qed.
Lemma eli_step : ELI m.
Proof.
  intros R P T. revert R P. pattern T. apply (nty_mut _ (fun ms => match ms with MCons _ _ _ t _ => forall R P ws c v its E W, (sz v + isz its <= m)%nat -> is_end E = true -> sub R P = Some t -> part (A R ws) P = Some c ->
    place R ws v its t P = Some W -> follows R P ws E W its true (fun f => init2 f t c (ini_toks v ++ more_toks its ++ E)) | MNil => True end)); clear T.
  - intros t R P ws c v its E W L EE S D H. apply eli_fits; auto. destruct v; reflexivity.
  - intros b IHb n R P ws c v its E W L EE S D H. destruct (fits (NArr b n) v) eqn:FT; [apply eli_fits; auto|].
    assert (HV : (exists e, v = VEx e) /\ exists n', n = Datatypes.S n' /\ place R ws v its b (P ++ [O]) = Some W).
    { unfold place in H. cbn [descend] in H. rewrite FT in H. destruct n as [|n']; [discriminate|]. destruct v; [|discriminate|discriminate]. split; [eauto|]. exists n'. split; [reflexivity|exact H]. }
    destruct HV as ((e & ->) & n' & -> & H'). clear H. assert (C : child (NArr b (Datatypes.S n')) O = Some b) by reflexivity.
    destruct (kid_in R P _ O b ws c S D C) as (kd & K & KP & SC).
    destruct (IHb R (P ++ [O]) ws kd (VEx e) its E W L EE SC KP H') as (lw & its1 & f0 & k' & F1 & P1 & R1 & B1 & N1 & D1). specialize (N1 eq_refl).
    rewrite (next_child R P _ O b S C) in R1. cbn [union] in R1. rewrite <- under_under in P1, R1.
    assert (KO := kid_out R P _ O b ws c kd lw k' S D C K N1 ltac:(rewrite under_under in P1; exact P1)). rewrite upd_plain in KO by reflexivity.
    destruct (arr2_follows b (Datatypes.S n') its1 1%nat R P _ _ E W ltac:(lia) EE S KO ltac:(lia) R1) as (lw2 & its2 & f1 & c2 & F2 & P2 & R2 & B2 & _ & D2).
    exists (under [O] lw ++ lw2), its2, (Datatypes.S (Datatypes.S (Nat.max f0 f1))), c2. rewrite under_app, (app_assoc ws). split; [|split; [exact P2|split; [exact R2|split; [lia|split; [|]]]]].
    + intros [|[|f]] F; [lia|lia|]. specialize (F1 f ltac:(lia)). specialize (F2 f ltac:(lia)). cbn [ini_toks app] in F1 |- *. set (U := more_toks its ++ E) in *.
      change (init2 (Datatypes.S (Datatypes.S f)) (NArr b (Datatypes.S n')) c (KExpr e :: U)) with
        (match with_kid c O (fun k => init2 f b k (KExpr e :: U)) with LOk (c, r) => arr2 f b (Datatypes.S n') c 1 r | r => r end).
      unfold with_kid. rewrite K, F1. exact F2.
    + intros _ Z. apply app_eq_nil in Z. destruct lw; [congruence|]. destruct Z; discriminate.
    + intros Z. apply D2, D1, Z.
  - intros id zs al ms IHms R P ws c v its E W L EE S D H. destruct (fits (NStruct id zs al ms) v) eqn:FT; [apply eli_fits; auto|].
    destruct ms as [|x off bf b ms]; [unfold place in H; cbn [descend] in H; rewrite FT in H; discriminate|].
    assert (H' : place R ws v its b (P ++ [O]) = Some W) by (unfold place in H; cbn [descend] in H; rewrite FT in H; exact H). clear H.
    assert (C : child (NStruct id zs al (MCons x off bf b ms)) O = Some b) by reflexivity.
    destruct (kid_in R P _ O b ws c S D C) as (kd & K & KP & SC).
    destruct (IHms R (P ++ [O]) ws kd v its E W L EE SC KP H') as (lw & its1 & f0 & k' & F1 & P1 & R1 & B1 & N1 & D1). specialize (N1 eq_refl).
    rewrite (next_child R P _ O b S C) in R1. cbn [union] in R1. rewrite <- under_under in P1, R1.
    assert (KO := kid_out R P _ O b ws c kd lw k' S D C K N1 ltac:(rewrite under_under in P1; exact P1)). rewrite upd_plain in KO by reflexivity.
    destruct (str2_follows id zs al _ its1 1%nat R P _ _ E W ltac:(lia) EE S KO R1) as (lw2 & its2 & f1 & c2 & F2 & P2 & R2 & B2 & _ & D2).
    exists (under [O] lw ++ lw2), its2, (Datatypes.S (Datatypes.S (Nat.max f0 f1))), c2. rewrite under_app, (app_assoc ws). split; [|split; [exact P2|split; [exact R2|split; [lia|split; [|]]]]].
    + intros [|[|f]] F; [lia|lia|]. specialize (F1 f ltac:(lia)). specialize (F2 f ltac:(lia)). set (U := more_toks its ++ E) in *.
      assert (GO : init2 (Datatypes.S (Datatypes.S f)) (NStruct id zs al (MCons x off bf b ms)) c (ini_toks v ++ U) =
        match with_kid c O (fun k => init2 f b k (ini_toks v ++ U)) with LOk (c, r) => str2 f (MCons x off bf b ms) c 1 false r | r => r end).
      { destruct v as [e|k vs e|]; [|reflexivity|discriminate FT]. cbn [fits] in FT. cbn [ini_toks app]. cbn [init2]. change (is_struct (ntype e)) with (struct_ty (ntype e)). rewrite FT. reflexivity. }
      rewrite GO. unfold with_kid. rewrite K, F1. exact F2.
    + intros _ Z. apply app_eq_nil in Z. destruct lw; [congruence|]. destruct Z; discriminate.
    + intros Z. apply D2, D1, Z.
  - intros id zs al ms IHms R P ws c v its E W L EE S D H. destruct (fits (NUnion id zs al ms) v) eqn:FT; [apply eli_fits; auto|].
    destruct ms as [|x off bf b ms]; [unfold place in H; cbn [descend] in H; rewrite FT in H; discriminate|].
    assert (H' : place R ws v its b (P ++ [O]) = Some W) by (unfold place in H; cbn [descend] in H; rewrite FT in H; exact H). clear H.
    assert (C : child (NUnion id zs al (MCons x off bf b ms)) O = Some b) by reflexivity.
    destruct (kid_in R P _ O b ws c S D C) as (kd & K & KP & SC).
    destruct (IHms R (P ++ [O]) ws kd v its E W L EE SC KP H') as (lw & its1 & f0 & k' & F1 & P1 & R1 & B1 & N1 & D1). specialize (N1 eq_refl).
    rewrite (next_child R P _ O b S C) in R1. cbn [union] in R1. rewrite <- under_under in P1, R1.
    assert (KO := kid_out R P _ O b ws c kd lw k' S D C K N1 ltac:(rewrite under_under in P1; exact P1)). rewrite upd_union in KO by reflexivity.
    exists (under [O] lw), its1, (Datatypes.S f0), (set_kid (set_mem c O) O k'). split; [|split; [exact KO|split; [exact R1|split; [lia|split; [|exact D1]]]]].
    + intros [|f] F; [lia|]. specialize (F1 f ltac:(lia)). set (U := more_toks its ++ E) in *.
      assert (GO : init2 (Datatypes.S f) (NUnion id zs al (MCons x off bf b ms)) c (ini_toks v ++ U) = with_kid (set_mem c O) O (fun k => init2 f b k (ini_toks v ++ U))).
      { destruct v as [e|k vs e|]; [reflexivity|reflexivity|discriminate FT]. }
      rewrite GO. unfold with_kid. rewrite kids_mem, K, F1. reflexivity.
    + intros _ Z. destruct lw; [congruence|]. discriminate.
  - exact I.
  - intros x off bf t IHt ms _. exact IHt.
Qed.
End Step.
Lemma eli : forall m, ELI m.
Proof. apply (well_founded_induction Nat.lt_wf_0). exact eli_step. Qed.
Lemma initializer_ok v T ws X : fits T v = true -> assigns v T = Some ws -> exists f0, forall f, (f0 <= f)%nat -> initializer f T (ini_toks v ++ X) = LOk (A T ws, X).
Proof. intros FT H. apply (value_ok (sz v) (fun k _ => eli k) v T (blank T) ws X (le_n _) FT H). reflexivity. Qed.
Lemma unsized_ok l trail b n ws X : assigns (VBr l trail) (NArr b n) = Some ws -> Z.of_nat n = top ws -> exists f0, forall f, (f0 <= f)%nat -> unsized f b (ini_toks (VBr l trail) ++ X) = LOk (Z.of_nat n, A (NArr b n) ws, X).
Proof.
  intros H NT. destruct (initializer_ok (VBr l trail) (NArr b n) ws X eq_refl H) as [f0 F0].
  set (R := NArr b n) in *. assert (H' : exists ds v' l', l = ICons ds v' l' /\ run R (Some [O]) [] l = Some ws).
  { cbn [assigns] in H. unfold R in H. destruct l as [|ds v' l']; [discriminate|]. exists ds, v', l'. split; [reflexivity|]. destruct ds; [|exact H]. destruct v'; try exact H. destruct l'; [|exact H]. destruct (chars b k); [discriminate|exact H]. }
  destruct H' as (ds & v' & l' & -> & RR). assert (CO : cur_at R [] R O = Some [O] \/ ds <> []).
  { unfold cur_at. destruct (child R O) eqn:EC; [left; reflexivity|]. right. intros ->. rewrite run_item in RR. cbn [sub] in RR. rewrite EC in RR. discriminate. }
  assert (RR' : run R (cur_at R [] R O) [] (ICons ds v' l') = Some ws) by (destruct CO as [-> |N]; [exact RR|rewrite <- RR; apply run_designated, N]).
  set (E := (if trail then [KComma] else []) ++ KRb :: X).
  destruct (count_follows (Datatypes.S (isz (ICons ds v' l'))) (fun k _ => eli k) b n R eq_refl (ICons ds v' l') O [] E X ws true ltac:(lia) ltac:(unfold E; destruct trail; reflexivity) ltac:(unfold E; destruct trail; reflexivity) ltac:(discriminate) RR')
    as (e & f1 & EW & F1). cbn [app] in EW. subst e.
  assert (TE : ini_toks (VBr (ICons ds v' l') trail) ++ X = KLb :: body (ICons ds v' l') ++ E) by (unfold E; cbn [ini_toks body]; cbn [app]; now rewrite <- !app_assoc).
  exists (Nat.max f0 f1). intros f F. specialize (F0 f ltac:(lia)). specialize (F1 (blank b) 0 f (shaped_blank b) ltac:(lia) ltac:(lia)). unfold initializer in F0. rewrite TE in F0 |- *.
  cbn [unsized]. change (Z.of_nat 0) with 0 in F1. rewrite F1. replace (Z.max 0 (top ws)) with (Z.of_nat n) by lia. rewrite Nat2Z.id. fold R. rewrite F0. reflexivity.
Qed.
Lemma unsized_string_ok k vs e b ws X : assigns (VSt k vs e) (NArr b (length vs)) = Some ws -> exists f0, forall f, (f0 <= f)%nat -> unsized f b (ini_toks (VSt k vs e) ++ X) = LOk (Z.of_nat (length vs), A (NArr b (length vs)) ws, X).
Proof.
  intros H. assert (FT : fits (NArr b (length vs)) (VSt k vs e) = true) by (cbn [assigns] in H; cbn [fits]; destruct (chars b k); [reflexivity|discriminate]).
  destruct (initializer_ok _ _ ws X FT H) as [f0 F0]. exists f0. intros f F. specialize (F0 f F). unfold initializer in F0. cbn [ini_toks app unsized] in F0 |- *. rewrite Nat2Z.id, F0. reflexivity.
Qed.
(** ** Ranges *)
Lemma each_same f d r : forall k p i ts,  (forall j, (i <= j < i + k)%nat -> exists c, nth_error (i_kids p) j = Some c /\ f c = LOk (d, r)) ->
  exists q, each f p i k ts = LOk (q, if (k =? 0)%nat then ts else r) /\ i_expr q = i_expr p /\ i_mem q = i_mem p /\
    forall j, nth_error (i_kids q) j = if ((i <=? j) && (j <? i + k))%nat then Some d else nth_error (i_kids p) j.
Proof.
  induction k as [|k IH]; intros p i ts F.
  - exists p. split; [reflexivity|]. split; [reflexivity|]. split; [reflexivity|]. intros j. replace ((i <=? j) && (j <? i + 0))%nat with false by lia. reflexivity.
  - cbn [each]. unfold with_kid. destruct (F i ltac:(lia)) as (c & N & FC). rewrite N, FC.
    assert (SN : forall l i j c0, nth_error l i = Some c0 -> nth_error (set_nth l i d) j = if (i =? j)%nat then Some d else nth_error l j). { clear. induction l as [|x l IH]; intros [|i] [|j] c0 H; cbn in H |- *; try discriminate H; try reflexivity. apply (IH i j c0 H). }
    destruct p as [e m cs]. cbn [i_kids set_kid] in *.
    destruct (IH (Init e m (set_nth cs i d)) (S i) r ) as (q & E & X1 & X2 & K).
    { intros j Hj. destruct (F j ltac:(lia)) as (c' & N' & F'). exists c'. split; [|exact F']. cbn [i_kids]. rewrite (SN cs i j c N). destruct (Nat.eqb_spec i j); [lia|exact N']. }
    exists q. cbn [Nat.eqb]. split; [destruct k; cbn [Nat.eqb] in E |- *; exact E|]. split; [exact X1|]. split; [exact X2|]. intros j. rewrite K. cbn [i_kids]. rewrite (SN cs i j c N).
    destruct (Nat.eqb_spec i j) as [<-|NE]; [replace ((S i <=? i) && (i <? S i + k))%nat with false by lia; replace ((i <=? i) && (i <? i + S k))%nat with true by lia; reflexivity|].
    replace ((S i <=? j) && (j <? S i + k))%nat with ((i <=? j) && (j <? i + S k))%nat by lia. reflexivity.
Qed.
