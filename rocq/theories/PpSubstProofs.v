(** Proofs about include search, origins and parameter substitution. *)
From Verif Require Import Base UnicodeModel TextModel LexModel LitModel LitProofs PpModel PpSpec PpProofs PpCondProofs PpMoreProofs.
From Coq Require Import Arith.
From Coq Require Import ZifyBool ZifyNat.
Local Notation length := List.length.

(** ** Include search *)
Lemma search_from_first E name dirs : forall i,
  match search_from E i dirs name with
  | Some (p, k) => first_in E dirs name p /\ exists d, nth_error dirs (k - i) = Some d /\ p = path_join d name /\ (i <= k)%nat
  | None => forall d, In d dirs -> fs E (path_join d name) = None
  end.
Proof.
  induction dirs as [|d r IH]; intro i; cbn [search_from]; [intros d []|].
  unfold file_exists. destruct (fs E (path_join d name)) eqn:F.
  - split.
    + exists O, d. repeat split; [rewrite F; discriminate|intros; lia].
    + exists d. replace (i - i)%nat with O by lia. repeat split. lia.
  - specialize (IH (S i)). destruct (search_from E (S i) r name) as [[p k]|].
    + destruct IH as [(j & d' & N & P1 & P2 & P3) (d2 & N2 & P4 & L)]. split.
      * exists (S j), d'. repeat split; auto. intros j' d'' L' N'. destruct j' as [|j']; [cbn in N'; assert (d'' = d) by congruence; subst; exact F|].
        apply (P3 j'); [lia|exact N'].
      * exists d2. replace (k - i)%nat with (S (k - S i)) by lia. repeat split; auto. lia.
    + intros d0 [->|H]; [exact F|apply IH; exact H].
Qed.

Lemma first_in_unique E dirs name p q : first_in E dirs name p -> first_in E dirs name q -> p = q.
Proof.
  intros (i & d & N & -> & F & B) (j & d' & N' & -> & F' & B').
  destruct (Nat.lt_trichotomy i j) as [L|[->|L]].
  - exfalso. apply F. apply (B' i); assumption.
  - congruence.
  - exfalso. apply F'. apply (B j); assumption.
Qed.

Definition cache_ok (E : env) (st : pst) : Prop :=
  forall n p, lookup (cache st) n = Some p -> first_in E (inc_paths E) n p.

Lemma cache_search E st n p st' : cache_ok E st -> search_include_paths E st n = (p, st') -> cache_ok E st'.
Proof.
  intros H. unfold search_include_paths.
  destruct (at_ n 0 =? 47); [intro X; assert (st' = st) by congruence; subst; exact H|].
  destruct (lookup (cache st) n) eqn:L; [intro X; assert (st' = st) by congruence; subst; exact H|].
  pose proof (search_from_first E n (inc_paths E) 0) as SF.
  destruct (search_from E 0 (inc_paths E) n) as [[q i]|]; intro X.
  - assert (st' = set_search st ((n, q) :: cache st) (S i)) by congruence. subst.
    intros m p'. cbn [set_search cache lookup]. destruct (beq n m) eqn:B; [|apply H].
    intro Y. apply beq_eq in B. subst m. assert (p' = q) by congruence. subst. apply SF.
  - assert (st' = st) by congruence. subst. exact H.
Qed.
Lemma cache_next E st n p st' : cache_ok E st -> search_include_next E st n = (p, st') -> cache_ok E st'.
Proof.
  intros H. unfold search_include_next. destruct (search_from _ _ _ _) as [[q i]|]; intro X.
  - assert (st' = set_search st (cache st) i) by congruence. subst. exact H.
  - assert (st' = set_search st (cache st) (Nat.max (next_idx st) (length (inc_paths E)))) by congruence. subst. exact H.
Qed.

Lemma cache_inv E f st l out st' : cache_ok E st -> preprocess2 f E st l = LOk (out, st') -> cache_ok E st'.
Proof.
  intros H R.
  assert (X : ok_pp (cache_ok E) (preprocess2 f E)).
  { apply preprocess_inv; auto.
    - intros; eapply cache_search; eauto.
    - intros; eapply cache_next; eauto. }
  specialize (X st l H). rewrite R in X. exact X.
Qed.

Lemma search_spec E st n : cache_ok E st -> at_ n 0 <> 47 ->
  match fst (search_include_paths E st n) with
  | Some p => first_in E (inc_paths E) n p
  | None => forall d, In d (inc_paths E) -> fs E (d ++ [47] ++ n) = None
  end.
Proof.
  intros H Hn. unfold search_include_paths. replace (at_ n 0 =? 47) with false by lia.
  destruct (lookup (cache st) n) eqn:L; [cbn [fst]; apply H; exact L|].
  pose proof (search_from_first E n (inc_paths E) 0) as SF.
  destruct (search_from E 0 (inc_paths E) n) as [[q i]|]; cbn [fst]; [apply SF|exact SF].
Qed.

(** ** Origins *)

Lemma append_split (Q : ptok -> Prop) l r : (forall t, Q t -> Q (copy_token t)) -> Forall Q l ->
  exists new, append l r = new ++ r /\ Forall Q new.
Proof.
  intros HQ H. induction H as [|t l Ht H IH]; cbn [append]; [exists []; auto|].
  destruct (is_eof t); [exists []; auto|]. destruct IH as (new & -> & HF). exists (copy_token t :: new). split; [reflexivity|]. constructor; auto.
Qed.

Lemma expand_origin pp st t r l' st' : expand_macro pp st t r = LOk (Some (l', st')) ->
  (forall h, find_macro st t <> Some (Handler h)) ->
  exists new suffix, map key_of l' = map key_of (new ++ suffix) /\ (exists pre, r = pre ++ suffix) /\
    Forall (fun x => p_oline x = p_oline t /\ p_ofile x = p_ofile t) new.
Proof.
  intros H Hh. unfold expand_macro in H. destruct (hideset_contains _ _); [discriminate|].
  destruct (find_macro st t) as [[h|b|ps va b]|]; [exfalso; eapply Hh; reflexivity| | |discriminate].
  - cbv zeta in H.
    destruct (append_split (fun x => p_oline x = p_oline t /\ p_ofile x = p_ofile t)
      (map (set_origin t) (add_hideset (hideset_union (p_hs t) [p_text t]) b)) r) as (new & Ha & HF); [auto| |].
    { apply Forall_map, Forall_forall. intros x _. split; reflexivity. }
    rewrite Ha in H. destruct (set_flags_hd t (new ++ r)) as [l| | |] eqn:Q; cbn [lbind] in H; try discriminate.
    assert (l' = l) by congruence. subst. exists new, r. split; [eapply set_flags_key; exact Q|]. split; [exists []; reflexivity|exact HF].
  - destruct r as [|lp r1]; [discriminate|]. destruct (negb _); [discriminate|].
    destruct (read_macro_args r1 ps va) as [[args rest]| | |] eqn:RA; cbn [lbind fst snd] in H; try discriminate.
    destruct rest as [|rp r2]; [discriminate|]. cbv zeta in H.
    destruct (subst _ _ _ _ _ _) as [[o s]| | |]; cbn [lbind fst snd] in H; try discriminate.
    destruct (append_split (fun x => p_oline x = p_oline t /\ p_ofile x = p_ofile t)
      (map (set_origin t) (add_hideset (hideset_union (hideset_intersection (p_hs t) (p_hs rp)) [p_text t]) o)) r2) as (new & Ha & HF); [auto| |].
    { apply Forall_map, Forall_forall. intros x _. split; reflexivity. }
    rewrite Ha in H. destruct (set_flags_hd t (new ++ r2)) as [l| | |] eqn:Q; cbn [lbind] in H; try discriminate.
    assert (l' = l) by congruence. subst. exists new, r2. split; [eapply set_flags_key; exact Q|]. split; [|exact HF].
    (* r2 is a suffix *)
    assert (Suf : exists pre, r1 = pre ++ rp :: r2).
    { unfold read_macro_args in RA.
      assert (N : forall ps first l args rest, read_named_args ps first l = LOk (args, rest) -> exists pre, l = pre ++ rest).
      { clear. induction ps as [|n ps IH]; intros first l args rest; cbn [read_named_args].
        - intro X. exists []. cbn [app]. congruence.
        - destruct (if first then LOk l else skip l (bs ",")) as [l1| | |] eqn:Q1; cbn [lbind]; try discriminate.
          destruct (read_macro_arg_one l1 0 false) as [[a rr]| | |] eqn:Q2; cbn [lbind fst snd]; try discriminate.
          destruct (read_named_args ps false rr) as [[as_ r2]| | |] eqn:Q3; cbn [lbind fst snd]; try discriminate.
          intro X. assert (rest = r2) by congruence. subst.
          destruct (IH _ _ _ _ Q3) as [p1 ->]. destruct (read_one_sound _ _ _ _ _ Q2) as (p2 & -> & _).
          destruct first.
          + exists (p2 ++ p1). assert (l = p2 ++ p1 ++ r2) by congruence. rewrite <- app_assoc. exact H.
          + apply skip_inv in Q1 as (t & -> & _). exists (t :: p2 ++ p1). cbn [app]. rewrite <- app_assoc. reflexivity. }
      destruct (read_named_args ps true r1) as [[as_ l1]| | |] eqn:Q1; cbn [lbind fst snd] in RA; try discriminate.
      destruct (N _ _ _ _ _ Q1) as [p1 ->].
      destruct va as [name|].
      - destruct l1 as [|t1 l1]; cbn [lbind] in RA; [discriminate|].
        destruct (equal t1 (bs ")")); cbn [lbind fst snd] in RA.
        + destruct (skip (t1 :: l1) (bs ")")); cbn [lbind] in RA; try discriminate. exists p1. congruence.
        + destruct (match ps with [] => LOk (t1 :: l1) | _ :: _ => skip (t1 :: l1) (bs ",") end) as [l2| | |] eqn:Q2; cbn [lbind] in RA; try discriminate.
          destruct (read_macro_arg_one l2 0 true) as [[a rr]| | |] eqn:Q3; cbn [lbind fst snd] in RA; try discriminate.
          destruct (skip rr (bs ")")); cbn [lbind] in RA; try discriminate.
          assert (rr = rp :: r2) by congruence. subst.
          destruct (read_one_sound _ _ _ _ _ Q3) as (p2 & -> & _).
          destruct ps.
          * exists (p1 ++ p2). assert (t1 :: l1 = p2 ++ rp :: r2) by congruence. rewrite <- app_assoc. congruence.
          * apply skip_inv in Q2 as (t2 & Ht2 & _). exists (p1 ++ t1 :: p2). rewrite <- app_assoc. cbn [app]. congruence.
      - cbn [lbind fst snd] in RA. destruct (skip l1 (bs ")")); cbn [lbind] in RA; try discriminate. exists p1. congruence. }
    destruct Suf as [pre ->]. exists (lp :: pre ++ [rp]). cbn [app]. rewrite <- app_assoc. reflexivity.
Qed.

(** ** Parameter substitution *)
Definition arg_eq (st : pst) (a0 a : marg) : Prop :=
  a_name a = a_name a0 /\ a_va a = a_va a0 /\ map key_of (a_toks a) = map key_of (a_toks a0) /\
  map p_space (tl (a_toks a)) = map p_space (tl (a_toks a0)) /\ plain_arg st a.

Lemma inert_pp E st l e f : Forall (inert st) l -> p_kind e = TK_EOF -> (length l < f)%nat ->
  preprocess2 f E st (l ++ [e]) = LOk (l ++ [e], st).
Proof.
  intros H He. revert f. induction H as [|t l Ht H IH]; intros f Hf; (destruct f as [|f]; [cbn in Hf; lia|]); cbn [app]; rewrite pp_unfold.
  - rewrite (proj2 (is_eof_iff e) He). reflexivity.
  - rewrite (inert_no_expand _ _ _ _ Ht). destruct Ht as (Hk & Hh & _).
    rewrite (proj2 (is_eof_not t) Hk), (not_hash_false t Hh). cbn [lbind negb].
    rewrite IH by (cbn in Hf; lia). reflexivity.
Qed.

Lemma mark_from_app l1 l2 i : mark_from i (l1 ++ l2) = mark_from i l1 ++ mark_from (i + length l1) l2.
Proof.
  revert i. induction l1 as [|t l1 IH]; intro i; cbn [app mark_from length]; [rewrite Nat.add_0_r; reflexivity|].
  rewrite IH. do 3 f_equal. lia.
Qed.
Lemma mark_key l i : map key_of (mark_from i l) = map key_of l.
Proof. revert i. induction l as [|t l IH]; intro i; cbn [mark_from map]; [reflexivity|]. rewrite IH. reflexivity. Qed.
Lemma copy_mark l i : map copy_token (mark_from i l) = map copy_token l.
Proof. revert i. induction l as [|t l IH]; intro i; cbn [mark_from map]; [reflexivity|]. rewrite IH. reflexivity. Qed.
Lemma upto_wf l e : Forall (fun t => p_kind t <> TK_EOF) l -> p_kind e = TK_EOF -> upto_eof (l ++ [e]) = l.
Proof.
  intros H He. induction H as [|t l Ht H IH]; cbn [app upto_eof].
  - rewrite (proj2 (is_eof_iff e) He). reflexivity.
  - rewrite (proj2 (is_eof_not t) Ht), IH. reflexivity.
Qed.

Lemma plain_split st a : plain_arg st a -> exists l e, a_toks a = l ++ [e] /\ p_kind e = TK_EOF /\ p_text e = [] /\
  Forall (fun t => p_kind t <> TK_EOF) l /\ Forall (inert st) l /\
  upto_eof (a_toks a) = l /\ arg_words a = map p_text l /\
  (arg_empty a = match l with [] => true | _ => false end) /\ (forall t b, In t l -> In b (p_text t) -> 0 < b < 256 /\ b <> 10).
Proof.
  intros (l & e & Q & Ke & Te & HF). exists l, e.
  assert (H1 : Forall (fun t => p_kind t <> TK_EOF) l) by (eapply Forall_impl; [|exact HF]; intros t Ht; apply Ht).
  assert (H2 : Forall (inert st) l) by (eapply Forall_impl; [|exact HF]; intros t (A & B & C & D); unfold inert; auto).
  split; [exact Q|]. split; [exact Ke|]. split; [exact Te|]. split; [exact H1|]. split; [exact H2|]. split; [|split; [|split]].
  - rewrite Q. apply upto_wf; assumption.
  - unfold arg_words. rewrite Q, map_app. cbn [map]. apply removelast_app1.
  - unfold arg_empty. rewrite Q. destruct l as [|t l]; cbn [app]; [apply is_eof_iff; exact Ke|]. inversion H1; subst. apply is_eof_not. assumption.
  - intros t b H H0. rewrite Forall_forall in HF. destruct (HF t H) as (_ & _ & _ & D). apply (D b H0).
Qed.

Definition args_eq (st : pst) := Forall2 (arg_eq st).

Lemma args_nth st args0 args i a0 : args_eq st args0 args -> nth_error args0 i = Some a0 ->
  exists a, nth_error args i = Some a /\ arg_eq st a0 a.
Proof.
  intro H. revert i. induction H as [|x y xs ys Hxy H IH]; intros [|i]; cbn [nth_error]; try discriminate; [|apply IH].
  intro X. assert (x = a0) by congruence. subst. eauto.
Qed.

Lemma find_arg_at_some args0 args st : args_eq st args0 args -> forall s i k a0,
  nth_error args0 i = Some a0 -> s = a_name a0 ->
  (forall j b, (j < i)%nat -> nth_error args0 j = Some b -> a_name b <> s) ->
  exists a, find_arg_at args s k = Some ((k + i)%nat, a) /\ nth_error args i = Some a /\ arg_eq st a0 a.
Proof.
  induction 1 as [|x y xs ys Hxy H IH]; intros s i k a0 N Hs Hb; [destruct i; discriminate|].
  cbn [find_arg_at]. destruct i as [|i].
  - cbn in N. assert (x = a0) by congruence. subst x. destruct Hxy as (Hn & Hrest). rewrite Hn, <- Hs, beq_refl.
    exists y. rewrite Nat.add_0_r. repeat split; auto; apply Hrest.
  - assert (Hx : a_name x <> s) by (apply (Hb O x); [lia|reflexivity]).
    destruct Hxy as (Hn & _). rewrite Hn. replace (beq s (a_name x)) with false by (symmetry; apply beq_neq; congruence).
    destruct (IH s i (S k) a0 N Hs) as (a & F & N' & Q).
    { intros j b L Nb. apply (Hb (S j) b); [lia|exact Nb]. }
    exists a. rewrite F. repeat split; auto; try apply Q. f_equal. f_equal. lia.
Qed.

Lemma find_arg_names st args0 args t i r : args_eq st args0 args -> names_arg args0 t i ->
  exists a0 a, nth_error args0 i = Some a0 /\ find_arg args (t :: r) = Some (i, a) /\ nth_error args i = Some a /\ arg_eq st a0 a.
Proof.
  intros H (a0 & N & T & B). destruct (find_arg_at_some _ _ _ H (p_text t) i 0 a0 N T B) as (a & F & N' & Q).
  exists a0, a. auto.
Qed.
Lemma find_arg_none st args0 args t r : args_eq st args0 args -> no_arg args0 t -> find_arg args (t :: r) = None.
Proof.
  intros H N. cbn [find_arg]. generalize 0%nat. induction H as [|x y xs ys Hxy H IH]; intro k; cbn [find_arg_at]; [reflexivity|].
  destruct Hxy as (Hn & _). rewrite Hn. replace (beq (p_text t) (a_name x)) with false.
  - apply IH. intros a Ha. apply N. right. exact Ha.
  - symmetry. apply beq_neq. intro X. apply (N x); [left; reflexivity|congruence].
Qed.

Lemma keys_words a a0 : map key_of (a_toks a) = map key_of (a_toks a0) -> arg_words a = arg_words a0.
Proof.
  intro H. unfold arg_words. f_equal.
  assert (X : map (fun k : key => snd (fst k)) (map key_of (a_toks a)) = map (fun k : key => snd (fst k)) (map key_of (a_toks a0))) by (rewrite H; reflexivity).
  rewrite !map_map in X. exact X.
Qed.

Lemma join_eq l l0 : map p_text l = map p_text l0 -> map p_space (tl l) = map p_space (tl l0) ->
  join_tokens (map (fun t => (p_text t, p_space t)) l) = join_tokens (map (fun t => (p_text t, p_space t)) l0).
Proof.
  destruct l as [|t l]; destruct l0 as [|t0 l0]; cbn [map tl]; try discriminate; [reflexivity|].
  intros H1 H2. cbn [join_tokens]. assert (T : p_text t = p_text t0) by congruence. assert (M : map p_text l = map p_text l0) by congruence.
  rewrite T. f_equal. clear T t t0 H1. revert l0 M H2. induction l as [|t l IH]; intros [|t0 l0] M H2; cbn [map] in *; try discriminate; [reflexivity|].
  cbn [flat_map fst snd]. rewrite (IH l0) by congruence. f_equal. f_equal; [|congruence].
  replace (p_space t0) with (p_space t) by congruence. reflexivity.
Qed.

Lemma join_bytes l b : (forall t b, In t l -> In b (p_text t) -> 0 < b < 256 /\ b <> 10) ->
  In b (join_tokens (map (fun t => (p_text t, p_space t)) l)) -> 0 < b < 256 /\ b <> 10.
Proof.
  intros H. destruct l as [|t l]; cbn [map join_tokens]; [intros []|].
  rewrite in_app_iff. intros [Hb|Hb]; [apply (H t); [left; reflexivity|exact Hb]|].
  apply in_flat_map in Hb as ((s & sp) & Hi & Hb). apply in_map_iff in Hi as (u & Hu & Hi).
  assert (s = p_text u /\ sp = p_space u) as [-> ->] by (split; congruence). cbn [fst snd] in Hb.
  apply in_app_iff in Hb as [Hb|Hb]; [destruct (p_space u); [destruct Hb as [<-|[]]; lia|destruct Hb]|].
  apply (H u); [right; exact Hi|exact Hb].
Qed.

Lemma retok_single tmpl s : single_token s -> exists p e, retokenize tmpl s = LOk [p; e] /\ p_text p = s /\ is_eof e = true.
Proof.
  intros (t & e & Q & L & N & K). unfold retokenize. rewrite Q. cbn [lbind map]. eexists _, _. split; [reflexivity|].
  split; [cbn [made_tok p_text]; rewrite L, N; cbn [skipn]; apply firstn_all|]. unfold is_eof. cbn [made_tok p_kind]. rewrite K. reflexivity.
Qed.
Lemma paste_single x y : single_token (p_text x ++ p_text y) -> exists p, paste x y = LOk p /\ p_text p = p_text x ++ p_text y.
Proof.
  intro H. destruct (retok_single x _ H) as (p & e & R & T & Q). unfold paste. rewrite R. cbn [lbind]. rewrite Q. eauto.
Qed.
Lemma stringize_ok st a0 a i args0 h : arg_eq st a0 a -> plain_arg st a0 -> nth_error args0 i = Some a0 ->
  exists s, pp_stringize h (a_toks a) = LOk s /\ p_text s = arg_string args0 i.
Proof.
  intros (Hn & Hv & Hk & Hs & Hp) Hp0 N.
  destruct (plain_split st a Hp) as (l & e & Q & Ke & Te & Hne & Hin & Hu & Hw & Hem & Hb).
  destruct (plain_split st a0 Hp0) as (l0 & e0 & Q0 & Ke0 & Te0 & Hne0 & Hin0 & Hu0 & Hw0 & Hem0 & Hb0).
  assert (J : join_tokens (spelled_of (a_toks a)) = join_tokens (map (fun t => (p_text t, p_space t)) l0)).
  { unfold spelled_of. rewrite Hu. apply join_eq.
    - rewrite <- Hw, <- Hw0. apply keys_words. exact Hk.
    - rewrite Q, Q0 in Hs. assert (L : length l = length l0).
      { apply (f_equal (@List.length _)) in Hk. rewrite !map_length, Q, Q0, !app_length in Hk. cbn in Hk. lia. }
      destruct l as [|t l]; destruct l0 as [|t0 l0]; cbn in L; try lia; [reflexivity|]. cbn [app tl] in Hs |- *.
      rewrite !map_app in Hs. apply app_inj_tail in Hs. apply Hs. }
  unfold pp_stringize, new_str_token. rewrite J.
  destruct (tokenize_quoted (join_tokens (map (fun t => (p_text t, p_space t)) l0))) as (t & e1 & T & _ & L & N1 & _ & _ & K).
  { intros b Hbb. eapply join_bytes; [exact Hb0|exact Hbb]. }
  destruct (retok_single h (quote_string (join_tokens (map (fun t => (p_text t, p_space t)) l0)))) as (p & e2 & R & T2 & _).
  { exists t, e1. auto. }
  unfold retokenize1. rewrite R. cbn [lbind]. exists p. split; [reflexivity|]. rewrite T2. unfold arg_string. rewrite N, Q0, removelast_app1. reflexivity.
Qed.

Lemma Forall2_set_nth {A B} (R : A -> B -> Prop) xs ys i y x : Forall2 R xs ys -> nth_error xs i = Some x -> R x y ->
  Forall2 R xs (set_nth i y ys).
Proof.
  intro H. revert i. induction H as [|a b xs ys Hab H IH]; intros [|i] N HR; cbn in N; try discriminate; cbn [set_nth].
  - assert (a = x) by congruence. subst. constructor; assumption.
  - constructor; [assumption|]. apply IH; assumption.
Qed.

(** using an argument: the copies inserted, and the argument list afterwards *)
Lemma use_arg E g st args0 args i a0 a t : args_eq st args0 args -> nth_error args0 i = Some a0 -> nth_error args i = Some a ->
  arg_eq st a0 a -> (length (a_toks a0) <= g)%nat -> p_bol t = false ->
  exists out new args', preprocess2 g E st (mark_from 0 (a_toks a)) = LOk (mark_from 0 (a_toks a), st) /\
    set_flags_hd t (mark_from 0 (a_toks a)) = LOk out /\
    set_arg args i (residual (a_toks a) out) = args' /\ args_eq st args0 args' /\
    rev (map copy_token (upto_eof out)) = rev new /\ map p_text new = arg_words a0.
Proof.
  intros HA N0 N (Hn & Hv & Hk & Hs & Hp) Hg Hbol.
  destruct (plain_split st a Hp) as (l & e & Q & Ke & Te & Hne & Hin & Hu & Hw & Hem & Hb).
  assert (L : length (a_toks a) = length (a_toks a0)).
  { apply (f_equal (@List.length _)) in Hk. rewrite !map_length in Hk. exact Hk. }
  assert (Hpp : preprocess2 g E st (mark_from 0 (a_toks a)) = LOk (mark_from 0 (a_toks a), st)).
  { rewrite Q, mark_from_app. cbn [mark_from]. apply inert_pp; [|exact Ke|].
    - clear -Hin. generalize 0%nat. induction Hin as [|x l Hx H IH]; intro k; cbn [mark_from]; constructor; [exact Hx|apply IH].
    - rewrite Q, app_length in L. cbn in L. assert (length (mark_from 0 l) = length l).
      { clear. generalize 0%nat. induction l; intro; cbn [mark_from length]; [reflexivity|]. rewrite IHl. reflexivity. }
      lia. }
  destruct (a_toks a) as [|x xs] eqn:Qa; [destruct l; discriminate|].
  cbn [mark_from] in *. 
  set (x' := PTok (p_kind x) (p_text x) (p_bol x) (p_space x) (p_hs x) (p_line x) (p_file x) (p_oline x) (p_ofile x) (Some 0%nat)) in *.
  exists (set_flags t x' :: mark_from 1 xs).
  exists (map copy_token (upto_eof (set_flags t x' :: mark_from 1 xs))).
  exists (set_arg args i (residual (x :: xs) (set_flags t x' :: mark_from 1 xs))).
  split; [exact Hpp|]. split; [reflexivity|]. split; [reflexivity|].
  assert (HR : residual (x :: xs) (set_flags t x' :: mark_from 1 xs) = copy_token (set_flags t x') :: map copy_token xs).
  { cbn [residual]. cbn [set_flags x' p_mark firstn app map]. rewrite copy_mark. reflexivity. }
  split.
  { rewrite HR. unfold set_arg. rewrite N. eapply Forall2_set_nth; [exact HA|exact N0|].
    split; [exact Hn|]. split; [exact Hv|]. cbn [a_toks].
    split.
    { rewrite <- Hk. cbn [map]. f_equal. rewrite map_map. reflexivity. }
    split; [rewrite <- Hs; cbn [tl]; rewrite map_map; reflexivity|].
    destruct Hp as (l1 & e1 & Q1 & K1 & T1 & HF1).
    destruct l1 as [|y l1]; rewrite Qa in Q1; cbn [app] in Q1.
    - assert (x = e1 /\ xs = []) as [-> ->] by (split; congruence). cbn [map].
      exists [], (copy_token (set_flags t x')). cbn [a_toks app]. auto.
    - assert (x = y /\ xs = l1 ++ [e1]) as [-> ->] by (split; congruence).
      exists (copy_token (set_flags t x') :: map copy_token l1), (copy_token e1). cbn [a_toks app].
      split; [rewrite map_app; reflexivity|]. split; [exact K1|]. split; [exact T1|].
      inversion HF1 as [|? ? (A & B & C & D) HF2]; subst. constructor.
      + split; [exact A|]. split; [intros [X _]; cbn in X; congruence|]. split; [exact C|exact D].
      + apply Forall_map. exact HF2. }
  split; [reflexivity|].
  rewrite map_map. rewrite <- (keys_words a a0) by (rewrite Qa; exact Hk).
  rewrite Hw. rewrite <- Hu. clear. cbn [upto_eof].
  change (is_eof (set_flags t x')) with (is_eof x). destruct (is_eof x); [reflexivity|]. cbn [map]. f_equal.
  generalize 1%nat. induction xs as [|z xs IH]; intro k; cbn [mark_from upto_eof]; [reflexivity|].
  change (is_eof (PTok (p_kind z) (p_text z) (p_bol z) (p_space z) (p_hs z) (p_line z) (p_file z) (p_oline z) (p_ofile z) (Some k))) with (is_eof z).
  destruct (is_eof z); [reflexivity|]. cbn [map]. f_equal. apply IH.
Qed.

Lemma arg_words_len st a0 a : arg_eq st a0 a -> arg_words a = arg_words a0.
Proof. intros (_ & _ & H & _). apply keys_words. exact H. Qed.

Lemma hd_not_hh (rest : list ptok) : (match rest with t :: _ => p_text t <> bs "##" | [] => False end) -> hd_is rest (bs "##") = false.
Proof. destruct rest as [|t r]; [intros []|]. intro H. apply equal_not. exact H. Qed.

Lemma last_rev_hd {A} (f : A -> bytes) (l : list A) : l <> [] ->
  exists c l', l = l' ++ [c] /\ last (map f l) [] = f c /\ removelast (map f l) = map f l'.
Proof.
  intro H. destruct (exists_last H) as (l' & c & ->). exists c, l'.
  rewrite map_app. cbn [map]. rewrite last_last, removelast_last. auto.
Qed.

(** pasting the second operand onto the copies [new1] of the first one *)
Lemma paste_second E g st args0 args f o2 hh rest acc new1 :
  args_eq st args0 args -> Forall (plain_arg st) args0 ->
  p_kind hh <> TK_EOF -> p_text hh = bs "##" -> p_kind (op_tok o2) <> TK_EOF -> op_ok args0 o2 ->
  new1 <> [] ->
  (op_text (arg_text_of args0) o2 <> [] -> single_token (last (map p_text new1) [] ++ hd [] (op_text (arg_text_of args0) o2))) ->
  exists new, subst (S f) (preprocess2 g E) st args (hh :: op_tok o2 :: rest) (rev new1 ++ acc) = subst f (preprocess2 g E) st args rest (rev new ++ acc) /\
    map p_text new = glue (map p_text new1) (op_text (arg_text_of args0) o2).
Proof.
  intros HA HP Kh Th K2 O2 Hne Hs.
  destruct (last_rev_hd p_text new1 Hne) as (c & n' & -> & HL & HRl).
  rewrite rev_app_distr. cbn [rev app subst].
  rewrite (proj2 (is_eof_not hh) Kh).
  replace (equal hh (bs "#")) with false by (symmetry; apply equal_not; rewrite Th; nb).
  replace (equal hh (bs ",")) with false by (symmetry; apply equal_not; rewrite Th; nb).
  rewrite (proj2 (equal_iff hh _) Th). cbn [andb]. rewrite (proj2 (is_eof_not _) K2).
  rewrite HL in Hs.
  destruct o2 as [t2|t2 i2]; cbn [op_tok op_ok op_text] in *.
  - rewrite (find_arg_none _ _ _ _ _ HA O2).
    destruct (paste_single c t2 (Hs ltac:(discriminate))) as (p & -> & Tp). cbn [lbind].
    exists (n' ++ [p]). rewrite rev_app_distr. split; [reflexivity|].
    unfold glue. destruct (map p_text (n' ++ [c])) eqn:M; [rewrite map_app in M; destruct (map p_text n'); discriminate|].
    rewrite <- M in *. rewrite HRl, HL. rewrite map_app. cbn [map]. rewrite Tp. reflexivity.
  - destruct (find_arg_names _ _ _ _ _ rest HA O2) as (a0 & a & N0 & F & N & Q). rewrite F.
    assert (HPa0 : plain_arg st a0) by (rewrite Forall_forall in HP; apply HP; eapply nth_error_In; exact N0).
    assert (HPa : plain_arg st a) by apply Q.
    destruct (plain_split st a HPa) as (l & e & Qa & Ke & Te & Hk & Hin & Hu & Hw & Hem & Hb).
    pose proof (arg_words_len _ _ _ Q) as W. unfold arg_text_of in *. rewrite N0 in *. rewrite <- W in *. rewrite Hw in *.
    destruct l as [|y ys].
    + rewrite Qa. cbn [app]. rewrite (proj2 (is_eof_iff e) Ke). exists (n' ++ [c]). rewrite rev_app_distr. split; [reflexivity|].
      cbn [map]. unfold glue. destruct (map p_text (n' ++ [c])); reflexivity.
    + rewrite Qa. cbn [app]. inversion Hk as [|? ? Hky Hkys]; subst. rewrite (proj2 (is_eof_not y) Hky).
      cbn [map hd] in Hs. destruct (paste_single c y (Hs ltac:(discriminate))) as (p & -> & Tp). cbn [lbind].
      rewrite (upto_wf ys e Hkys Ke).
      exists (n' ++ p :: map copy_token ys). split.
      { rewrite rev_app_distr. cbn [rev]. rewrite <- !app_assoc. reflexivity. }
      unfold glue. cbn [map]. destruct (map p_text (n' ++ [c])) eqn:M; [rewrite map_app in M; destruct (map p_text n'); discriminate|].
      rewrite <- M in *. rewrite HRl, HL. rewrite map_app. cbn [map]. rewrite Tp, map_map. reflexivity.
Qed.

Lemma subst_item E g st args0 args b rest acc f :
  args_eq st args0 args -> Forall (plain_arg st) args0 -> Forall (fun a => (length (a_toks a) <= g)%nat) args0 ->
  item_ok args0 b -> (match rest with t :: _ => p_text t <> bs "##" | [] => False end) ->
  (length (item_toks b ++ rest) < f)%nat ->
  exists f' new args', (length rest < f')%nat /\ args_eq st args0 args' /\
    subst f (preprocess2 g E) st args (item_toks b ++ rest) acc = subst f' (preprocess2 g E) st args' rest (rev new ++ acc) /\
    map p_text new = item_text (arg_text_of args0) (arg_string args0) b.
Proof.
  intros HA HP HG Hb Hrest Hf. destruct f as [|f]; [lia|]. rewrite app_length in Hf.
  assert (Param : forall t i f r, ordinary t -> p_text t <> bs "," -> names_arg args0 t i ->
     (match r with t :: _ => p_text t <> bs "##" | [] => False end) -> forall acc,
     exists new args', args_eq st args0 args' /\
       subst (S f) (preprocess2 g E) st args (t :: r) acc = subst f (preprocess2 g E) st args' r (rev new ++ acc) /\
       map p_text new = arg_text_of args0 i).
  { clear Hf. intros t i f0 r (Ok & Ob & O1 & O2 & O3) Oc Hn Hr acc0.
    destruct (find_arg_names _ _ _ _ _ r HA Hn) as (a0 & a & N0 & F & N & Q).
    destruct (use_arg E g st args0 args i a0 a t HA N0 N Q) as (out & new & args' & R1 & R2 & R3 & R4 & R5 & R6).
    { rewrite Forall_forall in HG. apply HG. eapply nth_error_In. exact N0. }
    { exact Ob. }
    exists new, args'. split; [exact R4|]. split.
    - cbn [subst]. rewrite (proj2 (is_eof_not t) Ok), (proj2 (equal_not t _) O1), (proj2 (equal_not t _) Oc), (proj2 (equal_not t _) O2).
      cbn [andb]. rewrite F, (hd_not_hh _ Hr), (proj2 (equal_not t _) O3). cbn [andb].
      rewrite R1. cbn [lbind fst snd]. rewrite R2. cbn [lbind]. rewrite R3, R5. reflexivity.
    - rewrite R6. unfold arg_text_of. rewrite N0. reflexivity. }
  destruct b as [t|t i|h t i|o1 hh o2|c hh t i]; cbn [item_toks item_ok item_text length] in *.
  - destruct Hb as ((Ok & Ob & O1 & O2 & O3) & Hn). exists f, [copy_token t], args. split; [lia|]. split; [exact HA|]. split; [|reflexivity].
    cbn [app subst rev]. rewrite (proj2 (is_eof_not t) Ok), (proj2 (equal_not t _) O1), (hd_not_hh _ Hrest), andb_false_r.
    cbn [andb]. rewrite (proj2 (equal_not t _) O2), (find_arg_none _ _ _ _ _ HA Hn), (proj2 (equal_not t _) O3). reflexivity.
  - destruct Hb as (O & Oc & Hn). destruct (Param t i f rest O Oc Hn Hrest acc) as (new & args' & A1 & A2 & A3).
    exists f, new, args'. split; [lia|]. auto.
  - destruct Hb as (Kh & Th & Hn). destruct (find_arg_names _ _ _ _ _ rest HA Hn) as (a0 & a & N0 & F & N & Q).
    destruct (stringize_ok st a0 a i args0 h Q) as (s & S1 & S2); [rewrite Forall_forall in HP; apply HP; eapply nth_error_In; exact N0|exact N0|].
    exists f, [s], args. split; [lia|]. split; [exact HA|]. split; [|cbn [map]; rewrite S2; reflexivity].
    cbn [app subst rev]. rewrite (proj2 (is_eof_not h) Kh), (proj2 (equal_iff h _) Th), F, S1. reflexivity.
  - destruct Hb as ((Ok & Ob & O1 & O2 & O3) & Oc & Ho1 & Kh & Th & K2 & Ho2 & Hs).
    assert (Hh : equal hh (bs "##") = true) by (apply equal_iff; exact Th).
    destruct o1 as [t1|t1 i1]; cbn [op_tok op_ok op_text] in *.
    + destruct f as [|f]; [lia|].
      destruct (paste_second E g st args0 args f o2 hh rest acc [copy_token t1] HA HP Kh Th K2 Ho2 ltac:(discriminate)) as (new & R1 & R2).
      { intro X. apply Hs; [discriminate|exact X]. }
      exists f, new, args. split; [lia|]. split; [exact HA|]. split; [|exact R2].
      rewrite <- R1. cbn [app rev]. remember (S f) as f1 eqn:Ef1. cbn [subst]. rewrite (proj2 (is_eof_not t1) Ok), (proj2 (equal_not t1 _) O1), (proj2 (equal_not t1 _) Oc), (proj2 (equal_not t1 _) O2).
      cbn [andb]. rewrite (find_arg_none _ _ _ _ _ HA Ho1), (proj2 (equal_not t1 _) O3). reflexivity.
    + destruct (find_arg_names _ _ _ _ _ (hh :: op_tok o2 :: rest) HA Ho1) as (a0 & a & N0 & F & N & Q).
      assert (HPa : plain_arg st a) by apply Q.
      destruct (plain_split st a HPa) as (l & e & Qa & Ke & Te & Hk & Hin & Hu & Hw & Hem & Hbb).
      pose proof (arg_words_len _ _ _ Q) as W. assert (Ta : arg_text_of args0 i1 = map p_text l) by (unfold arg_text_of; rewrite N0, <- W; exact Hw).
      rewrite Ta in *.
      destruct l as [|y ys].
      * cbn [map glue].
        destruct o2 as [t2|t2 i2]; cbn [op_tok op_ok op_text] in *.
        -- exists f, [copy_token t2], args. split; [lia|]. split; [exact HA|]. split; [|reflexivity].
           cbn [app subst rev]. rewrite (proj2 (is_eof_not t1) Ok), (proj2 (equal_not t1 _) O1), (proj2 (equal_not t1 _) Oc), (proj2 (equal_not t1 _) O2).
           cbn [andb]. rewrite F. cbn [hd_is]. rewrite Hh, Hem. rewrite (find_arg_none _ _ _ _ _ HA Ho2). reflexivity.
        -- destruct (find_arg_names _ _ _ _ _ rest HA Ho2) as (b0 & b & M0 & F2 & M & Q2).
           exists f, (map copy_token (upto_eof (a_toks b))), args. split; [lia|]. split; [exact HA|]. split.
           ++ cbn [app subst]. rewrite (proj2 (is_eof_not t1) Ok), (proj2 (equal_not t1 _) O1), (proj2 (equal_not t1 _) Oc), (proj2 (equal_not t1 _) O2).
              cbn [andb]. rewrite F. cbn [hd_is]. rewrite Hh, Hem. rewrite F2. reflexivity.
           ++ rewrite map_map. change (map (fun x => p_text (copy_token x)) (upto_eof (a_toks b))) with (map p_text (upto_eof (a_toks b))).
              destruct (plain_split st b) as (l2 & e2 & _ & _ & _ & _ & _ & Hu2 & Hw2 & _); [apply Q2|].
              rewrite Hu2, <- Hw2. unfold arg_text_of. rewrite M0. apply (arg_words_len st). exact Q2.
      * destruct f as [|f]; [lia|].
        destruct (paste_second E g st args0 args f o2 hh rest acc (map copy_token (y :: ys)) HA HP Kh Th K2 Ho2 ltac:(discriminate)) as (new & R1 & R2).
        { intro X. rewrite map_map. apply Hs; [discriminate|exact X]. }
        exists f, new, args. split; [lia|]. split; [exact HA|]. split; [|rewrite R2, map_map; reflexivity].
        rewrite <- R1. cbn [app]. remember (S f) as f1 eqn:Ef1. cbn [subst]. rewrite (proj2 (is_eof_not t1) Ok), (proj2 (equal_not t1 _) O1), (proj2 (equal_not t1 _) Oc), (proj2 (equal_not t1 _) O2).
        cbn [andb]. rewrite F. cbn [hd_is]. rewrite Hh, Hem, Hu. reflexivity.
  - destruct Hb as (Kc & Tc & Th & O & Oc & Hn & (a0' & N0' & Va)).
    destruct (find_arg_names _ _ _ _ _ rest HA Hn) as (a0 & a & N0 & F & N & Q).
    assert (a0' = a0) by congruence. subst a0'.
    assert (HPa : plain_arg st a) by apply Q.
    assert (Va' : a_va a = true) by (destruct Q as (_ & V & _); congruence).
    destruct (plain_split st a HPa) as (l & e & Qa & Ke & Te & Hk & Hin & Hu & Hw & Hem & Hbb).
    pose proof (arg_words_len _ _ _ Q) as W.
    assert (Hstep : forall acc f1, subst (S f1) (preprocess2 g E) st args (c :: hh :: t :: rest) acc =
       if arg_empty a then subst f1 (preprocess2 g E) st args rest acc else subst f1 (preprocess2 g E) st args (t :: rest) (copy_token c :: acc)).
    { intros acc1 f1. cbn [subst]. rewrite (proj2 (is_eof_not c) Kc).
      replace (equal c (bs "#")) with false by (symmetry; apply equal_not; rewrite Tc; nb).
      rewrite (proj2 (equal_iff c _) Tc). cbn [hd_is]. rewrite (proj2 (equal_iff hh _) Th). cbn [andb]. rewrite F, Va'. reflexivity. }
    unfold arg_text_of. rewrite N0, <- W, Hw.
    destruct l as [|y ys].
    + exists f, [], args. split; [lia|]. split; [exact HA|]. split; [|reflexivity]. cbn [app]. rewrite Hstep, Hem. reflexivity.
    + destruct f as [|f]; [lia|]. destruct (Param t i f rest O Oc Hn Hrest (copy_token c :: acc)) as (new & args' & A1 & A2 & A3).
      exists f, (copy_token c :: new), args'. split; [lia|]. split; [exact A1|]. split.
      * cbn [app]. rewrite Hstep, Hem. rewrite A2. cbn [rev]. rewrite <- app_assoc. reflexivity.
      * cbn [map]. rewrite A3. unfold arg_text_of. rewrite N0, <- W, Hw. reflexivity.
Qed.

Theorem subst_items E g st args0 items e :
  Forall (plain_arg st) args0 -> Forall (fun a => (length (a_toks a) <= g)%nat) args0 ->
  Forall (item_ok args0) items -> p_kind e = TK_EOF -> p_text e <> bs "##" ->
  exists out, subst (S (length (flat_map item_toks items ++ [e]))) (preprocess2 g E) st args0 (flat_map item_toks items ++ [e]) [] = LOk (out ++ [copy_token e], st) /\
    map p_text out = flat_map (item_text (arg_text_of args0) (arg_string args0)) items.
Proof.
  intros HP HG HI Ke Te.
  assert (G : forall items, Forall (item_ok args0) items -> forall f args acc, args_eq st args0 args ->
     (length (flat_map item_toks items ++ [e]) < f)%nat ->
     exists out, subst f (preprocess2 g E) st args (flat_map item_toks items ++ [e]) acc = LOk (rev acc ++ out ++ [copy_token e], st) /\
       map p_text out = flat_map (item_text (arg_text_of args0) (arg_string args0)) items).
  { clear HI items. induction items as [|b items IH]; intros HI f args acc HA Hf.
    - exists []. cbn [flat_map app] in *. destruct f as [|f]; [lia|]. cbn [subst]. rewrite (proj2 (is_eof_iff e) Ke). split; reflexivity.
    - inversion HI as [|? ? Hb HI']; subst. cbn [flat_map] in *. rewrite <- app_assoc in *.
      destruct (subst_item E g st args0 args b (flat_map item_toks items ++ [e]) acc f HA HP HG Hb) as (f' & new & args' & L & HA' & R & T).
      { destruct items as [|b2 items]; cbn [flat_map app]; [exact Te|].
        inversion HI' as [|? ? Hb2 _]; subst. destruct b2 as [t|t i|h t i|o1 hh o2|c hh t i]; cbn [item_toks app item_ok] in *; try (apply Hb2).
        - destruct Hb2 as (_ & Q & _). rewrite Q. nb.
        - destruct Hb2 as (_ & Q & _). rewrite Q. nb. }
      { exact Hf. }
      destruct (IH HI' f' args' (rev new ++ acc) HA' L) as (out & R2 & T2).
      exists (new ++ out). rewrite R, R2. rewrite rev_app_distr, rev_involutive, <- !app_assoc. split; [reflexivity|].
      rewrite map_app, T, T2. reflexivity. }
  destruct (G items HI (S (length (flat_map item_toks items ++ [e]))) args0 []) as (out & R & T); [|lia|].
  - clear -HP. induction HP as [|a l Ha H IH]; constructor; [|exact IH]. repeat split; auto.
  - exists out. rewrite R. auto.
Qed.

(** ** Bodies of plain words and parameters, arguments with macros *)
Definition same_name (a0 a : marg) : Prop := a_name a = a_name a0 /\ a_va a = a_va a0.

Lemma find_same args0 args : Forall2 same_name args0 args -> forall s k,
  match find_arg_at args0 s k, find_arg_at args s k with
  | Some (i, a0), Some (j, a) => i = j /\ nth_error args0 (i - k) = Some a0 /\ nth_error args (i - k) = Some a /\ (k <= i)%nat
  | None, None => True
  | _, _ => False
  end.
Proof.
  induction 1 as [|a0 a l0 l (Q1 & Q2) H IH]; intros s k; cbn [find_arg_at]; [exact I|].
  rewrite Q1. destruct (beq s (a_name a0)); [rewrite Nat.sub_diag; auto|].
  specialize (IH s (S k)). destruct (find_arg_at l0 s (S k)) as [[i x]|], (find_arg_at l s (S k)) as [[j y]|]; auto.
  destruct IH as (-> & A & B & C). replace (j - k)%nat with (S (j - S k)) by lia. cbn [nth_error]. repeat split; auto. lia.
Qed.

Lemma find_names0 args0 : forall i s k a0, nth_error args0 i = Some a0 -> s = a_name a0 ->
  (forall j b, (j < i)%nat -> nth_error args0 j = Some b -> a_name b <> s) ->
  find_arg_at args0 s k = Some ((k + i)%nat, a0).
Proof.
  induction args0 as [|x l IH]; intros i s k a0 N Hs Hf; [destruct i; discriminate|]. destruct i as [|i]; cbn [nth_error find_arg_at] in *.
  - assert (x = a0) by congruence. subst. rewrite (proj2 (beq_eq _ _) eq_refl). f_equal. f_equal. lia.
  - destruct (beq s (a_name x)) eqn:B; [apply beq_eq in B; exfalso; apply (Hf O x); [lia|reflexivity|auto]|].
    rewrite (IH i s (S k) a0 N Hs). { f_equal. f_equal. lia. }
    intros j b Hj Nb. apply (Hf (S j) b); [lia|exact Nb].
Qed.
Lemma find_none0 args0 s : (forall a, In a args0 -> a_name a <> s) -> forall k, find_arg_at args0 s k = None.
Proof.
  induction args0 as [|x l IH]; intros H k; [reflexivity|]. cbn [find_arg_at].
  destruct (beq s (a_name x)) eqn:B; [apply beq_eq in B; exfalso; apply (H x); [left; reflexivity|auto]|].
  apply IH. intros a Ha. apply H. right. exact Ha.
Qed.

Definition used (b : bitem) : list nat := match b with BParam _ i => [i] | _ => [] end.

Lemma set_nth_other {A} (l : list A) : forall i j y, i <> j -> nth_error (set_nth i y l) j = nth_error l j.
Proof. induction l as [|x l IH]; intros [|i] [|j] y H; cbn; auto; try lia. Qed.

Lemma set_arg_other args i j l : i <> j -> nth_error (set_arg args i l) j = nth_error args j.
Proof. intro H. unfold set_arg. destruct (nth_error args i); [apply set_nth_other; exact H|reflexivity]. Qed.

Lemma set_arg_names args0 args i l : Forall2 same_name args0 args -> Forall2 same_name args0 (set_arg args i l).
Proof.
  intro H. unfold set_arg. destruct (nth_error args i) as [a|] eqn:N; [|exact H].
  assert (E : exists a0, nth_error args0 i = Some a0 /\ same_name a0 a).
  { clear -H N. revert i N. induction H as [|x y l0 l Q H IH]; intros [|i] N; try discriminate; cbn in *.
    - exists x. split; [reflexivity|]. congruence.
    - apply IH. exact N. }
  destruct E as (a0 & N0 & Q). eapply Forall2_set_nth; [exact H|exact N0|exact Q].
Qed.

Definition plain_item (b : bitem) : Prop := match b with BWord _ | BParam _ _ => True | _ => False end.

Theorem subst_expands pp st args0 outs items e :
  Forall (item_ok args0) items -> Forall plain_item items -> NoDup (flat_map used items) ->
  p_kind e = TK_EOF -> p_text e <> bs "##" ->
  (forall i a, nth_error args0 i = Some a -> pp st (mark_from 0 (a_toks a)) = LOk (outs i, st) /\ outs i <> []) ->
  exists out, subst (S (length (flat_map item_toks items ++ [e]))) pp st args0 (flat_map item_toks items ++ [e]) [] = LOk (out ++ [copy_token e], st) /\
    words out = flat_map (fun b => match b with BParam _ i => words (upto_eof (outs i)) | b => words (item_toks b) end) items.
Proof.
  intros HI HPl HN Ke Te Hex.
  assert (G : forall items, Forall (item_ok args0) items -> Forall plain_item items -> NoDup (flat_map used items) ->
     forall f args acc, Forall2 same_name args0 args ->
     (forall i, In i (flat_map used items) -> nth_error args i = nth_error args0 i) ->
     (length (flat_map item_toks items ++ [e]) < f)%nat ->
     exists out, subst f pp st args (flat_map item_toks items ++ [e]) acc = LOk (rev acc ++ out ++ [copy_token e], st) /\
       words out = flat_map (fun b => match b with BParam _ i => words (upto_eof (outs i)) | b => words (item_toks b) end) items).
  { clear HI HPl HN items. induction items as [|b items IH]; intros HI HPl HN f args acc HA HU Hf.
    - exists []. cbn [flat_map app] in *. destruct f as [|f]; [lia|]. cbn [subst]. rewrite (proj2 (is_eof_iff e) Ke). split; reflexivity.
    - inversion HI as [|? ? Hb HI']; subst. inversion HPl as [|? ? Pb HPl']; subst.
      assert (Hrest : match flat_map item_toks items ++ [e] with t :: _ => p_text t <> bs "##" | [] => False end).
      { destruct items as [|b2 items]; cbn [flat_map app]; [exact Te|].
        inversion HI' as [|? ? Hb2 _]; subst. inversion HPl' as [|? ? Pb2 _]; subst. destruct b2 as [t|t i|h t i|o1 hh o2|c hh t i]; try contradiction; cbn [item_toks app item_ok] in *; apply Hb2. }
      destruct b as [t|t i|h t i|o1 hh o2|c hh t i]; try contradiction; cbn [flat_map item_toks used app item_ok length] in *.
      + destruct Hb as ((Ok & Ob & O1 & O2 & O3) & Hn). destruct f as [|f]; [lia|].
        destruct (IH HI' HPl' HN f args (copy_token t :: acc) HA HU ltac:(lia)) as (out & R & T).
        exists (copy_token t :: out). split; [|unfold words in T |- *; cbn [map]; rewrite T; reflexivity].
        cbn [subst]. rewrite (proj2 (is_eof_not t) Ok), (proj2 (equal_not t _) O1), (hd_not_hh _ Hrest), andb_false_r.
        cbn [andb]. rewrite (proj2 (equal_not t _) O2). unfold find_arg.
        pose proof (find_same args0 args HA (p_text t) 0) as FS. rewrite (find_none0 args0 _ Hn) in FS.
        destruct (find_arg_at args (p_text t) 0) as [[? ?]|]; [contradiction|].
        rewrite (proj2 (equal_not t _) O3). cbn [andb]. rewrite R. cbn [rev]. rewrite <- app_assoc. reflexivity.
      + destruct Hb as ((Ok & Ob & O1 & O2 & O3) & Oc & (a0 & N0 & Hnm & Hf0)). destruct f as [|f]; [lia|].
        inversion HN as [|? ? Hni HN']; subst.
        destruct (Hex i a0 N0) as (X1 & X2).
        destruct (outs i) as [|o os] eqn:Eo; [contradiction|].
        assert (Na : nth_error args i = Some a0) by (rewrite HU; [exact N0|left; reflexivity]).
        pose proof (find_same args0 args HA (p_text t) 0) as FS. rewrite (find_names0 args0 i _ 0 a0 N0 Hnm Hf0) in FS.
        cbn [Nat.add] in FS.
        destruct (find_arg_at args (p_text t) 0) as [[j a]|] eqn:FA; [|contradiction].
        destruct FS as (<- & _ & Na2 & _). rewrite Nat.sub_0_r in Na2. assert (a = a0) by congruence. subst a.
        assert (SF : set_flags_hd t (o :: os) = LOk (set_flags t o :: os)) by reflexivity.
        destruct (IH HI' HPl' HN' f (set_arg args i (residual (a_toks a0) (set_flags t o :: os)))
          (rev (map copy_token (upto_eof (set_flags t o :: os))) ++ acc)) as (out & R & T).
        { apply set_arg_names. exact HA. }
        { intros j Hj. rewrite set_arg_other; [apply HU; right; exact Hj|]. intros ->. contradiction. }
        { lia. }
        exists (map copy_token (upto_eof (set_flags t o :: os)) ++ out). split.
        * cbn [subst]. rewrite (proj2 (is_eof_not t) Ok), (proj2 (equal_not t _) O1), (proj2 (equal_not t _) Oc), (proj2 (equal_not t _) O2).
          cbn [andb]. unfold find_arg. rewrite FA, (hd_not_hh _ Hrest), (proj2 (equal_not t _) O3). cbn [andb].
          rewrite X1. cbn [lbind fst snd]. rewrite SF. cbn [lbind]. rewrite R. rewrite rev_app_distr, rev_involutive, <- !app_assoc. reflexivity.
        * unfold words in *. rewrite map_app, T. f_equal. rewrite map_map.
          cbn [upto_eof]. change (is_eof (set_flags t o)) with (is_eof o). destruct (is_eof o); reflexivity. }
  destruct (G items HI HPl HN (S (length (flat_map item_toks items ++ [e]))) args0 []) as (out & R & T); auto.
  - clear. induction args0; constructor; [split; reflexivity|assumption].
  - exists out. rewrite R. auto.
Qed.

(** ** Number tokens *)
Definition digit_value (l : bytes) : Z := fold_left (fun a d => 10 * a + (d - 48)) l 0.
Definition is_dec (l : bytes) : Prop := Forall (fun c => 48 <= c <= 57) l.

Lemma dec_digits_ok f : forall v acc, 0 <= v < 10 ^ Z.of_nat f -> is_dec acc ->
  exists ds, dec_digits f v acc = ds ++ acc /\ is_dec ds /\ digit_value ds = v /\ (f <> O -> ds <> []).
Proof.
  induction f as [|f IH]; intros v acc Hv Ha; cbn [dec_digits].
  - exists []. split; [reflexivity|]. split; [constructor|]. split; [cbn; lia|congruence].
  - destruct (v <? 10) eqn:L.
    + exists [48 + v]. split; [reflexivity|]. split; [constructor; [lia|constructor]|]. split; [|discriminate].
      unfold digit_value. cbn [fold_left]. lia.
    + rewrite Nat2Z.inj_succ, Z.pow_succ_r in Hv by lia.
      destruct (IH (v / 10) ((48 + v mod 10) :: acc)) as (ds & A & B & C & _).
      * split; [apply Z.div_pos; lia|]. apply Z.div_lt_upper_bound; lia.
      * constructor; [|exact Ha]. pose proof (Z.mod_pos_bound v 10). lia.
      * exists (ds ++ [48 + v mod 10]). rewrite A, <- app_assoc. split; [reflexivity|].
        split; [apply Forall_app; split; [exact B|constructor; [pose proof (Z.mod_pos_bound v 10); lia|constructor]]|].
        split; [|intros _ X; destruct ds; discriminate].
        unfold digit_value in *. rewrite fold_left_app. cbn [fold_left]. rewrite C. pose proof (Z.div_mod v 10). lia.
Qed.

Lemma isdigit_dec c : 48 <= c <= 57 -> isdigit c = true.
Proof. intro H. unfold isdigit. lia. Qed.

Lemma ppnum_digits l : is_dec l -> forall f, (length l < f)%nat -> ppnum_loop f l = length l.
Proof.
  induction 1 as [|c l Hc H IH]; intros f Hf; (destruct f as [|f]; [cbn [length] in Hf; lia|]); cbn [ppnum_loop length]; [reflexivity|].
  replace (existsb (Z.eqb c) [101; 69; 112; 80]) with false by (cbn; symmetry; repeat rewrite orb_false_iff; repeat split; lia).
  rewrite andb_false_r. cbn [andb].
  replace (isalnum c) with true by (unfold isalnum; symmetry; rewrite (isdigit_dec c Hc); rewrite ?orb_true_r; reflexivity).
  cbn [orb]. rewrite IH; [reflexivity|cbn [length] in Hf; lia].
Qed.

Lemma digits_tokenize c l : is_dec (c :: l) ->
  tokenize (c :: l) = LOk [Tok TK_PP_NUM 0 (S (length l)) true false 1 0 0 []; Tok TK_EOF (S (length l)) 0 false false 1 0 0 []].
Proof.
  intro H. pose proof H as H0. inversion H0 as [|? ? Hc Hl]; subst. unfold tokenize.
  cbn [length]. change (S (S (length l))) with (S (S (length l))).
  assert (T : tokenize_loop (S (S (length l))) (c :: l) 0 true false =
    LOk [Tok TK_PP_NUM 0 (S (length l)) true false 0 0 0 []; Tok TK_EOF (S (length l)) 0 false false 0 0 0 []]).
  { remember (S (length l)) as f eqn:Ef. cbn [tokenize_loop].
    replace (startwith (c :: l) [47; 47]) with false by (symmetry; unfold startwith; cbn [is_prefix]; replace (47 =? c) with false by lia; reflexivity).
    replace (startwith (c :: l) [47; 42]) with false by (symmetry; unfold startwith; cbn [is_prefix]; replace (47 =? c) with false by lia; reflexivity).
    replace (c =? 10) with false by lia.
    replace (isspace c) with false by (symmetry; unfold isspace; lia).
    rewrite (isdigit_dec c Hc). cbn [orb]. rewrite (ppnum_digits l Hl) by lia.
    rewrite Ef. cbn [skipn]. rewrite skipn_all. cbn [tokenize_loop lbind]. reflexivity. }
  rewrite T. cbn [lbind]. f_equal.
  cbn [add_line_number]. cbn [loc Nat.eqb]. replace (c =? 10) with false by lia.
  unfold set_line at 1. f_equal.
  assert (G : forall l pos k, is_dec l -> k = (pos + length l)%nat ->
    add_line_number l pos 1 [Tok TK_EOF k 0 false false 0 0 0 []] = [Tok TK_EOF k 0 false false 1 0 0 []]).
  { clear. induction l as [|c l IH]; intros pos k H Hk; cbn [add_line_number length] in *.
    - cbn [loc]. replace (k =? pos)%nat with true by (symmetry; apply Nat.eqb_eq; lia). reflexivity.
    - cbn [loc]. replace (k =? pos)%nat with false by (symmetry; apply Nat.eqb_neq; lia).
      inversion H; subst. replace (c =? 10) with false by lia. apply IH; [assumption|lia]. }
  apply G; [exact Hl|lia].
Qed.

Lemma num_token_ok v tmpl : 0 <= v < 10 ^ 20 ->
  exists x, new_num_token v tmpl = LOk x /\ p_kind x = TK_PP_NUM /\ is_dec (p_text x) /\ digit_value (p_text x) = v.
Proof.
  intro H. unfold new_num_token, print_dec. replace (v <? 0) with false by lia.
  destruct (dec_digits_ok 20 v []) as (ds & A & B & C & D); [exact H|constructor|].
  rewrite app_nil_r in A. rewrite A. destruct ds as [|c l]; [exfalso; apply D; [discriminate|reflexivity]|].
  unfold retokenize1, retokenize. rewrite (digits_tokenize c l B). cbn [lbind map].
  eexists. split; [reflexivity|]. unfold made_tok. cbn [p_kind p_text kind tlen loc skipn]. split; [reflexivity|].
  change (S (length l)) with (length (c :: l)). rewrite firstn_all. auto.
Qed.
