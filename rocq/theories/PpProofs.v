(** Proofs about the preprocessor model: fuel, hidesets, object-like macros,
    macro arguments. *)
From Verif Require Import Base UnicodeModel TextModel LexModel LitModel PpModel PpSpec.
From Coq Require Import Arith.
From Coq Require Import ZifyBool ZifyNat.
Local Notation length := List.length.

(** ** More fuel never changes a result *)
Definition le_res {A} (a b : lres A) : Prop := a = LFuel \/ a = b.
Lemma le_refl {A} (a : lres A) : le_res a a.
Proof. right; reflexivity. Qed.
Lemma le_fuel {A} (a : lres A) : le_res LFuel a.
Proof. left; reflexivity. Qed.
Lemma le_trans {A} (a b c : lres A) : le_res a b -> le_res b c -> le_res a c.
Proof. intros [->| ->] H; [apply le_fuel|exact H]. Qed.
Lemma le_bind {A B} (a b : lres A) (k1 k2 : A -> lres B) :
  le_res a b -> (forall x, le_res (k1 x) (k2 x)) -> le_res (lbind a k1) (lbind b k2).
Proof. intros [->| ->] H; [apply le_fuel|]. destruct b; simpl; try apply le_refl. apply H. Qed.

Definition le_pp (p q : pst -> list ptok -> lres (list ptok * pst)) : Prop := forall st l, le_res (p st l) (q st l).

Ltac le_step :=
  match goal with
  | |- le_res ?a ?a => apply le_refl
  | |- le_res LFuel _ => apply le_fuel
  | |- le_res (lbind _ _) (lbind _ _) => apply le_bind; [|intros]
  | H : le_pp ?p ?q |- le_res (?p _ _) (?q _ _) => apply H
  | |- le_res (match ?x with _ => _ end) (match ?x with _ => _ end) => destruct x
  | |- le_res (let (_, _) := ?x in _) (let (_, _) := ?x in _) => destruct x
  end.
Ltac le_auto := repeat (cbv zeta; first [le_step | solve [auto]]).

Lemma subst_mono f p q : le_pp p q -> forall st args l acc, le_res (subst f p st args l acc) (subst f q st args l acc).
Proof.
  intro H. induction f as [|f IH]; intros; [apply le_refl|].
  cbn [subst]. le_auto.
Qed.

Lemma expand_macro_mono p q st t r : le_pp p q -> le_res (expand_macro p st t r) (expand_macro q st t r).
Proof.
  intro H. unfold expand_macro. le_auto; apply subst_mono; exact H.
Qed.

Lemma eval_mono E p q st l : le_pp p q -> le_res (eval_const_expr E p st l) (eval_const_expr E q st l).
Proof. intro H. unfold eval_const_expr. le_auto. Qed.

Lemma read_include_mono p q : le_pp p q -> forall f g st l, (f <= g)%nat ->
  le_res (read_include_filename f p st l) (read_include_filename g q st l).
Proof.
  intro H. induction f as [|f IH]; intros g st l L; [apply le_fuel|].
  destruct g as [|g]; [lia|]. cbn [read_include_filename].
  assert (IH' : forall st l, le_res (read_include_filename f p st l) (read_include_filename g q st l))
    by (intros; apply IH; lia).
  le_auto.
Qed.

Lemma line_marker_mono p q st s l : le_pp p q -> le_res (read_line_marker p st s l) (read_line_marker q st s l).
Proof. intro H. unfold read_line_marker. le_auto. Qed.

Lemma directive_mono E p q f g st s l : le_pp p q -> (f <= g)%nat ->
  le_res (directive E p f st s l) (directive E q g st s l).
Proof.
  intros H L. unfold directive.
  pose proof (fun st l => read_include_mono p q H f g st l L) as HI.
  pose proof (fun st l => eval_mono E p q st l H) as HE.
  pose proof (fun st s l => line_marker_mono p q st s l H) as HL.
  le_auto.
Qed.

Lemma pp_mono_S f E : le_pp (preprocess2 f E) (preprocess2 (S f) E).
Proof.
  induction f as [|f IH]; intros st l; [apply le_fuel|].
  remember (S f) as g. cbn [preprocess2]. subst g.
  destruct l as [|t r]; [apply le_refl|].
  change (le_res
    (if is_eof t then LOk ([t], st) else lbind (expand_macro (preprocess2 f E) st t r) (fun x =>
            match x with
            | Some (l', st') => preprocess2 f E st' l'
            | None =>
                if negb (is_hash t) then
                  lbind (preprocess2 f E st r) (fun os => LOk (t :: fst os, snd os))
                else
                  lbind (directive E (preprocess2 f E) f st t r) (fun ls => preprocess2 f E (snd ls) (fst ls))
            end))
    (if is_eof t then LOk ([t], st) else lbind (expand_macro (preprocess2 (S f) E) st t r) (fun x =>
            match x with
            | Some (l', st') => preprocess2 (S f) E st' l'
            | None =>
                if negb (is_hash t) then
                  lbind (preprocess2 (S f) E st r) (fun os => LOk (t :: fst os, snd os))
                else
                  lbind (directive E (preprocess2 (S f) E) (S f) st t r) (fun ls => preprocess2 (S f) E (snd ls) (fst ls))
            end))).
  destruct (is_eof t); [apply le_refl|].
  apply le_bind; [apply expand_macro_mono, IH|]. intros [[l' st']|]; [apply IH|].
  destruct (negb (is_hash t)).
  - apply le_bind; [apply IH|]. intros; apply le_refl.
  - apply le_bind; [apply directive_mono; [apply IH|lia]|]. intros; apply IH.
Qed.

Lemma pp_mono f g E st l : (f <= g)%nat -> le_res (preprocess2 f E st l) (preprocess2 g E st l).
Proof.
  induction 1 as [|g H IH]; [apply le_refl|].
  eapply le_trans; [exact IH|apply pp_mono_S].
Qed.
Lemma pp_mono_ok f g E st l r : (f <= g)%nat -> preprocess2 f E st l = LOk r -> preprocess2 g E st l = LOk r.
Proof. intros L H. destruct (pp_mono f g E st l L) as [X|X]; rewrite H in X; [discriminate|congruence]. Qed.

Lemma pp_unfold f E st t r :
  preprocess2 (S f) E st (t :: r) =
  if is_eof t then LOk ([t], st)
  else lbind (expand_macro (preprocess2 f E) st t r) (fun x =>
            match x with
            | Some (l', st') => preprocess2 f E st' l'
            | None =>
                if negb (is_hash t) then
                  lbind (preprocess2 f E st r) (fun os => LOk (t :: fst os, snd os))
                else
                  lbind (directive E (preprocess2 f E) f st t r) (fun ls => preprocess2 f E (snd ls) (fst ls))
            end).
Proof. reflexivity. Qed.

(** ** Hidesets *)
Lemma contains_in hs n : hideset_contains hs n = true <-> In n hs.
Proof.
  induction hs as [|m r IH]; simpl; [split; [discriminate|tauto]|].
  destruct (beq m n) eqn:B.
  - apply beq_eq in B. tauto.
  - apply beq_neq in B. rewrite IH. intuition congruence.
Qed.
Lemma in_union a b n : In n (hideset_union a b) <-> In n a \/ In n b.
Proof. apply in_app_iff. Qed.
Lemma in_inter a b n : In n (hideset_intersection a b) <-> In n a /\ In n b.
Proof.
  induction a as [|m r IH]; simpl; [tauto|].
  destruct (hideset_contains b m) eqn:B; simpl; rewrite IH; split.
  - intros [->|[H1 H2]]; [split; [auto|apply contains_in; exact B]|tauto].
  - intros [[->|H] H2]; tauto.
  - tauto.
  - intros [[->|H] H2]; [|tauto]. apply contains_in in H2. congruence.
Qed.

(** ** Object-like macros *)
Lemma is_eof_iff t : is_eof t = true <-> p_kind t = TK_EOF.
Proof. unfold is_eof; destruct (p_kind t); split; intro; congruence. Qed.
Lemma is_eof_not t : is_eof t = false <-> p_kind t <> TK_EOF.
Proof. unfold is_eof; destruct (p_kind t); split; intro; congruence. Qed.

Lemma append_wf b0 e r : Forall (fun t => p_kind t <> TK_EOF) b0 -> p_kind e = TK_EOF ->
  append (b0 ++ [e]) r = map copy_token b0 ++ r.
Proof.
  intros H He. induction H as [|t b Ht H IH]; simpl.
  - apply is_eof_iff in He. rewrite He. reflexivity.
  - apply is_eof_not in Ht. rewrite Ht. f_equal. exact IH.
Qed.

Definition key := (tkind * bytes * list bytes)%type.
Definition key_of (t : ptok) : key := (p_kind t, p_text t, p_hs t).

Section ObjLike.
Variable st : pst.
Variable E : env.

Definition table (n : bytes) : option (list word) :=
  match lookup (macros st) n with Some (ObjLike b) => Some (removelast (words b)) | _ => None end.

Definition body_ok (b : list ptok) : Prop :=
  terminated b /\ Forall (fun t => p_hs t = [] /\ p_text t <> bs "#") b.
Hypothesis Hmac : forall n m, lookup (macros st) n = Some m -> exists b, m = ObjLike b /\ body_ok b.

Definition dom : list bytes := map fst (macros st).
Definition rank (hs : list bytes) : nat := length (filter (fun n => negb (hideset_contains hs n)) dom).
Definition maxbody : nat := list_max (map (fun nm => match snd nm with ObjLike b => length b | _ => 0%nat end) (macros st)).
Definition W (k : nat) : nat := Nat.pow (maxbody + 1) k.
Definition meas (ks : list key) : nat := list_sum (map (fun k => W (rank (snd k))) ks).

Lemma lookup_in {A} (m : list (bytes * A)) n v : lookup m n = Some v -> In (n, v) m.
Proof.
  induction m as [|[k w] r IH]; simpl; [discriminate|].
  destruct (beq k n) eqn:B; intro H; [|auto].
  apply beq_eq in B. left. congruence.
Qed.

Lemma body_len n b : lookup (macros st) n = Some (ObjLike b) -> (length b <= maxbody)%nat.
Proof.
  intro H. apply lookup_in in H.
  unfold maxbody. assert (Hm := list_max_le (map (fun nm => match snd nm with ObjLike b => length b | _ => 0%nat end) (macros st)) (list_max (map (fun nm => match snd nm with ObjLike b => length b | _ => 0%nat end) (macros st)))).
  destruct Hm as [Hm _]. specialize (Hm (Nat.le_refl _)).
  rewrite Forall_forall in Hm. apply Hm. apply in_map_iff. exists (n, ObjLike b). auto.
Qed.

Lemma filter_lt {A} (f g : A -> bool) l : (forall x, g x = true -> f x = true) ->
  (length (filter g l) <= length (filter f l))%nat /\
  (forall x, In x l -> f x = true -> g x = false -> (length (filter g l) < length (filter f l))%nat).
Proof.
  intro H. induction l as [|y l [IH1 IH2]]; simpl; [split; [lia|intros x []]|].
  destruct (f y) eqn:F; destruct (g y) eqn:G; simpl; try (rewrite (H y G) in F; discriminate);
    split; try lia; intros x [->|Hx] Fx Gx; try congruence; try lia; specialize (IH2 x Hx Fx Gx); lia.
Qed.

Lemma W_pos k : (1 <= W k)%nat.
Proof. unfold W. assert (Nat.pow (maxbody + 1) k <> 0)%nat by (apply Nat.pow_nonzero; lia). lia. Qed.
Lemma W_mono a b : (a <= b)%nat -> (W a <= W b)%nat.
Proof. intro. unfold W. apply Nat.pow_le_mono_r; lia. Qed.

Lemma meas_app a b : meas (a ++ b) = (meas a + meas b)%nat.
Proof. unfold meas. rewrite map_app, list_sum_app. reflexivity. Qed.

Lemma meas_const ks k : Forall (fun x => (rank (snd x) <= k)%nat) ks -> (meas ks <= length ks * W k)%nat.
Proof.
  induction 1 as [|x ks Hx H IH]; simpl; [unfold meas; simpl; lia|].
  unfold meas in *; simpl. pose proof (W_mono _ _ Hx). lia.
Qed.

Lemma rank_lt hs n : In n dom -> ~ In n hs -> (rank (hs ++ [n]) < rank hs)%nat.
Proof.
  intros Hd Hn. unfold rank.
  apply (proj2 (filter_lt (fun m => negb (hideset_contains hs m)) (fun m => negb (hideset_contains (hs ++ [n]) m)) dom
    ltac:(intros x Hx; apply negb_true_iff in Hx; apply negb_true_iff;
          destruct (hideset_contains hs x) eqn:C; [|reflexivity];
          apply contains_in in C; assert (C2 : In x (hs ++ [n])) by (apply in_or_app; tauto);
          apply contains_in in C2; congruence)) n Hd).
  - apply negb_true_iff. destruct (hideset_contains hs n) eqn:C; [|reflexivity]. apply contains_in in C. tauto.
  - apply negb_false_iff. apply contains_in. apply in_or_app. simpl. tauto.
Qed.

Definition expk (k : key) (o : list word) : Prop := expands table (snd k) (fst k) o.

Lemma set_flags_key o l l' : set_flags_hd o l = LOk l' -> map key_of l' = map key_of l.
Proof. destruct l as [|t r]; simpl; [discriminate|]. intro H. assert (l' = set_flags o t :: r) by congruence. subst. reflexivity. Qed.
Lemma set_flags_ok o l : l <> [] -> exists l', set_flags_hd o l = LOk l'.
Proof. destruct l; [congruence|]. simpl. eauto. Qed.

Lemma Forall2_app_l {A B} (R : A -> B -> Prop) a b c : Forall2 R (a ++ b) c ->
  exists c1 c2, c = c1 ++ c2 /\ Forall2 R a c1 /\ Forall2 R b c2.
Proof. intro H. apply Forall2_app_inv_l in H as (c1 & c2 & H1 & H2 & H3). exists c1, c2. auto. Qed.

Lemma removelast_app1 {A} (l : list A) x : removelast (l ++ [x]) = l.
Proof. rewrite removelast_app by discriminate. simpl. apply app_nil_r. Qed.

Lemma hash_text t : p_text t <> bs "#" -> is_hash t = false.
Proof. intro H. unfold is_hash, equal. apply beq_neq in H. rewrite H. apply andb_false_r. Qed.

Lemma keys_terminated l l0 e : map key_of l = map key_of (l0 ++ [e]) -> p_kind e = TK_EOF ->
  Forall (fun t => p_kind t <> TK_EOF) l0 -> Forall (fun t => p_text t <> bs "#") l0 ->
  exists l1 e1, l = l1 ++ [e1] /\ p_kind e1 = TK_EOF /\ Forall (fun t => p_kind t <> TK_EOF) l1 /\
    Forall (fun t => p_text t <> bs "#") l1 /\ map key_of l1 = map key_of l0.
Proof.
  intros H He H1 H2. rewrite map_app in H. simpl in H.
  apply map_eq_app in H as (l1 & e1 & -> & K1 & K2).
  destruct e1 as [|e1 [|]]; simpl in K2; try discriminate.
  exists l1, e1. split; [reflexivity|]. split; [unfold key_of in K2; congruence|].
  split; [|split].
  - clear -K1 H1. revert l0 K1 H1. induction l1 as [|t l1 IH]; intros l0 K1 H1; [constructor|].
    destruct l0 as [|u l0]; simpl in K1; [discriminate|]. inversion H1; subst.
    constructor; [unfold key_of in K1; congruence|]. apply (IH l0); [congruence|assumption].
  - clear -K1 H2. revert l0 K1 H2. induction l1 as [|t l1 IH]; intros l0 K1 H2; [constructor|].
    destruct l0 as [|u l0]; simpl in K1; [discriminate|]. inversion H2; subst.
    constructor; [unfold key_of in K1; congruence|]. apply (IH l0); [congruence|assumption].
  - exact K1.
Qed.

Lemma objlike_run n : forall l l0 e, l = l0 ++ [e] -> p_kind e = TK_EOF ->
  Forall (fun t => p_kind t <> TK_EOF) l0 -> Forall (fun t => p_text t <> bs "#") l0 ->
  (meas (map key_of l0) < n)%nat ->
  exists out e' outs, preprocess2 n E st l = LOk (out ++ [e'], st) /\ p_kind e' = TK_EOF /\
    words out = List.concat outs /\ Forall2 expk (map key_of l0) outs /\
    Forall (fun t => p_kind t = TK_IDENT -> table (p_text t) <> None -> In (p_text t) (p_hs t)) out.
Proof.
  induction n as [|n IH]; intros l l0 e -> He Hk Hh Hn; [lia|].
  destruct l0 as [|t l0].
  { exists [], e, []. cbn [app]. rewrite pp_unfold. rewrite (proj2 (is_eof_iff e) He). repeat split; auto; constructor. }
  cbn [app]. rewrite pp_unfold.
  inversion Hk as [|? ? Hkt Hk']; subst. inversion Hh as [|? ? Hht Hh']; subst.
  rewrite (proj2 (is_eof_not t) Hkt). cbn [map] in Hn.
  change (meas (key_of t :: map key_of l0)) with (W (rank (p_hs t)) + meas (map key_of l0))%nat in Hn.
  unfold expand_macro.
  assert (Hkeep : (p_kind t <> TK_IDENT \/ table (p_text t) = None \/ In (p_text t) (p_hs t)) ->
    exists out e' outs, lbind (preprocess2 n E st (l0 ++ [e])) (fun os => LOk (t :: fst os, snd os)) = LOk (out ++ [e'], st) /\
     p_kind e' = TK_EOF /\ words out = List.concat outs /\ Forall2 expk (map key_of (t :: l0)) outs /\
     Forall (fun t => p_kind t = TK_IDENT -> table (p_text t) <> None -> In (p_text t) (p_hs t)) out).
  { intro Hk3. destruct (IH (l0 ++ [e]) l0 e eq_refl He Hk' Hh') as (out & e' & outs & R & He' & Hw & H2 & H3).
    { pose proof (W_pos (rank (p_hs t))). lia. }
    exists (t :: out), e', ([word_of t] :: outs). rewrite R. cbn [lbind fst snd app].
    repeat split; auto.
    - unfold words in *. simpl. f_equal. exact Hw.
    - cbn [map]. constructor; [|exact H2]. apply exp_keep. exact Hk3.
    - constructor; [|exact H3]. intros Hi Ht. tauto. }
  destruct (hideset_contains (p_hs t) (p_text t)) eqn:C.
  { apply contains_in in C. cbn [lbind]. rewrite (hash_text t Hht). cbn [negb]. apply Hkeep. auto. }
  unfold find_macro.
  destruct (is_ident_tok t) eqn:Id.
  2:{ cbn [lbind]. rewrite (hash_text t Hht). cbn [negb]. apply Hkeep. left.
      intro K. unfold is_ident_tok in Id. rewrite K in Id. discriminate. }
  destruct (lookup (macros st) (p_text t)) as [m|] eqn:L.
  2:{ cbn [lbind]. rewrite (hash_text t Hht). cbn [negb]. apply Hkeep. right; left. unfold table. rewrite L. reflexivity. }
  destruct (Hmac _ _ L) as (b & -> & (b0 & be & Hb & Hbk & Hbe) & Hbh).
  assert (Hkt' : p_kind t = TK_IDENT) by (unfold is_ident_tok in Id; destruct (p_kind t); congruence).
  assert (HnotIn : ~ In (p_text t) (p_hs t)) by (intro X; apply contains_in in X; congruence).
  set (hs := hideset_union (p_hs t) [p_text t]).
  subst b. unfold add_hideset. rewrite map_map, map_app. cbn [map].
  set (F := fun x => set_origin t (add_hs1 hs x)).
  change (set_origin t (add_hs1 hs be)) with (F be).
  change (map (fun x => set_origin t (add_hs1 hs x)) b0) with (map F b0).
  rewrite (append_wf (map F b0) (F be) (l0 ++ [e])).
  2:{ apply Forall_map. exact Hbk. }
  2:{ exact Hbe. }
  destruct (set_flags_ok t (map copy_token (map F b0) ++ l0 ++ [e])) as [l' Hl'].
  { intro X. destruct (map copy_token (map F b0)); [|discriminate]. destruct l0; discriminate. }
  rewrite Hl'. cbn [lbind].
  pose proof (set_flags_key _ _ _ Hl') as Kl'.
  rewrite app_assoc in Kl'.
  assert (Hbh0 : Forall (fun t => p_hs t = [] /\ p_text t <> bs "#") b0) by (apply Forall_app in Hbh; tauto).
  destruct (keys_terminated l' (map copy_token (map F b0) ++ l0) e Kl' He) as (l1 & e1 & -> & He1 & Hk1 & Hh1 & K1).
  { apply Forall_app. split; [|exact Hk']. rewrite map_map. apply Forall_map. exact Hbk. }
  { apply Forall_app. split; [|exact Hh']. rewrite map_map. apply Forall_map.
    eapply Forall_impl; [|exact Hbh0]. intros a [_ Ha]. exact Ha. }
  assert (Kb : map key_of (map copy_token (map F b0)) = map (fun x => (p_kind x, p_text x, p_hs t ++ [p_text t])) b0).
  { clear -Hbh0. induction Hbh0 as [|x b0 [Hx _] H IHb]; [reflexivity|]. cbn [map]. f_equal; [|exact IHb].
    unfold F, key_of, copy_token, set_origin, add_hs1. cbn. rewrite Hx. reflexivity. }
  rewrite map_app, Kb in K1.
  destruct (IH (l1 ++ [e1]) l1 e1 eq_refl He1 Hk1 Hh1) as (out & e' & outs & R & He' & Hw & H2 & H3).
  { rewrite K1, meas_app.
    assert (HB : (meas (map (fun x => (p_kind x, p_text x, p_hs t ++ [p_text t])) b0) < W (rank (p_hs t)))%nat).
    { assert (Hd : In (p_text t) dom) by (unfold dom; apply in_map_iff; exists (p_text t, ObjLike (b0 ++ [be])); split; [reflexivity|apply lookup_in; exact L]).
      pose proof (rank_lt _ _ Hd HnotIn) as Hr.
      destruct (rank (p_hs t)) as [|k]; [lia|].
      assert (Hm : (meas (map (fun x => (p_kind x, p_text x, p_hs t ++ [p_text t])) b0) <= length b0 * W k)%nat).
      { rewrite <- (map_length (fun x => (p_kind x, p_text x, p_hs t ++ [p_text t])) b0). apply meas_const.
        apply Forall_map. apply Forall_forall. intros x _. cbn [snd]. lia. }
      pose proof (body_len _ _ L) as Hlen. rewrite app_length in Hlen. simpl in Hlen.
      pose proof (W_pos k). change (W (S k)) with ((maxbody + 1) * W k)%nat. nia. }
    lia. }
  rewrite K1 in H2. apply Forall2_app_l in H2 as (o1 & o2 & -> & H2a & H2b).
  exists out, e', (List.concat o1 :: o2). rewrite R. repeat split; auto.
  - rewrite Hw, concat_app. reflexivity.
  - cbn [map]. constructor; [|exact H2b]. unfold expk, key_of. cbn [fst snd].
    rewrite Hkt'. apply exp_macro with (body := words b0).
    + unfold table. rewrite L. unfold words. rewrite map_app. cbn [map]. rewrite removelast_app1. reflexivity.
    + exact HnotIn.
    + clear -H2a. revert o1 H2a. induction b0 as [|x b0 IHb]; intros o1 H; inversion H; subst; constructor.
      * exact H2.
      * apply IHb. assumption.
Qed.
End ObjLike.

Fixpoint expands_det tbl A w o1 (H : expands tbl A w o1) {struct H} : forall o2, expands tbl A w o2 -> o1 = o2.
Proof.
  destruct H as [A k n Hk|A n body outs Hb Hn HF]; intros o2 H2.
  - inversion H2; subst; [reflexivity|]. destruct Hk as [K|[K|K]]; congruence.
  - inversion H2 as [? ? ? Hk|? ? body2 outs2 Hb2 Hn2 HF2]; subst.
    + destruct Hk as [K|[K|K]]; congruence.
    + assert (body2 = body) by congruence. subst. f_equal.
      clear H2 Hb Hb2. revert outs2 HF2. induction HF as [|x o l os Hx HF IH]; intros outs2 HF2; inversion HF2; subst; [reflexivity|].
      f_equal; [apply (expands_det _ _ _ _ Hx); assumption|]. apply IH. assumption.
Qed.

(** ** Macro arguments *)
Lemma beq_dec (a b : bytes) : {a = b} + {a <> b}.
Proof. destruct (beq a b) eqn:B; [left; apply beq_eq; exact B|right; apply beq_neq; exact B]. Qed.

Lemma equal_iff t s : equal t s = true <-> p_text t = s.
Proof. apply beq_eq. Qed.
Lemma equal_not t s : equal t s = false <-> p_text t <> s.
Proof. apply beq_neq. Qed.

(** The text read while inside [n] open parentheses *)
Inductive tail_text (c : bool) : nat -> list bytes -> Prop :=
  | tt_0 ts : arg_text c ts -> tail_text c 0 ts
  | tt_S n a b : arg_text true a -> tail_text c n b -> tail_text c (S n) (a ++ bs ")" :: b).

Lemma tail_word c n w ts : w <> bs "(" -> w <> bs ")" -> (n = O -> c = false -> w <> bs ",") ->
  tail_text c n ts -> tail_text c n (w :: ts).
Proof.
  intros H1 H2 H3 H. inversion H; subst.
  - constructor. apply at_word; auto.
  - change (w :: a ++ bs ")" :: b) with ((w :: a) ++ bs ")" :: b). constructor; [|assumption].
    apply at_word; auto. discriminate.
Qed.
Lemma tail_open c n ts : tail_text c (S n) ts -> tail_text c n (bs "(" :: ts).
Proof.
  intro H. inversion H as [|? a b Ha Hb]; subst. inversion Hb; subst.
  - constructor. apply at_paren; assumption.
  - match goal with |- context [?x :: a ++ ?y :: a0 ++ ?z :: b0] =>
      replace (x :: a ++ y :: a0 ++ z :: b0) with ((x :: a ++ y :: a0) ++ z :: b0) by (cbn [app]; rewrite <- app_assoc; reflexivity) end.
    constructor; [|assumption]. apply at_paren; assumption.
Qed.
Lemma tail_close c n ts : tail_text c n ts -> tail_text c (S n) (bs ")" :: ts).
Proof. intro H. apply (tt_S c n []); [constructor|exact H]. Qed.

Definition stop_at (rr : bool) (rest : list ptok) : Prop :=
  match rest with t :: _ => p_text t = bs ")" \/ (rr = false /\ p_text t = bs ",") | [] => False end.

Ltac ncst := let H := fresh in intro H; vm_compute in H; discriminate.
Lemma lp_rp : bs "(" <> bs ")". Proof. ncst. Qed.
Lemma lp_cm : bs "(" <> bs ",". Proof. ncst. Qed.
Lemma rp_cm : bs ")" <> bs ",". Proof. ncst. Qed.

Lemma read_one_sound l : forall lv rr a rest, read_macro_arg_one l lv rr = LOk (a, rest) ->
  exists pre, l = pre ++ rest /\ stop_at rr rest /\ Forall (fun t => p_kind t <> TK_EOF) pre /\
    (exists e, a = map copy_token pre ++ [e] /\ p_kind e = TK_EOF /\ p_text e = []) /\
    tail_text rr lv (map p_text pre).
Proof.
  induction l as [|t r IH]; intros lv rr a rest; cbn [read_macro_arg_one]; [discriminate|].
  destruct ((lv =? 0)%nat && equal t (bs ")")) eqn:C1.
  { intro H. assert (a = [new_eof t] /\ rest = t :: r) as [-> ->] by (split; congruence).
    apply andb_prop in C1 as [Lv C1]. apply Nat.eqb_eq in Lv. subst lv. apply equal_iff in C1.
    exists []. split; [reflexivity|]. split; [left; exact C1|]. split; [constructor|].
    split; [exists (new_eof t); auto|]. constructor. constructor. }
  destruct ((lv =? 0)%nat && negb rr && equal t (bs ",")) eqn:C2.
  { intro H. assert (a = [new_eof t] /\ rest = t :: r) as [-> ->] by (split; congruence).
    apply andb_prop in C2 as [C2 C3]. apply andb_prop in C2 as [Lv C2]. apply Nat.eqb_eq in Lv. subst lv.
    apply equal_iff in C3. apply negb_true_iff in C2.
    exists []. split; [reflexivity|]. split; [right; auto|]. split; [constructor|].
    split; [exists (new_eof t); auto|]. constructor. constructor. }
  destruct (is_eof t) eqn:Et; [discriminate|]. cbv zeta.
  destruct (read_macro_arg_one r _ rr) as [[a' rest']| | |] eqn:R; cbn [lbind]; try discriminate.
  intro H. cbn [fst snd] in H. assert (a = copy_token t :: a' /\ rest = rest') as [-> ->] by (split; congruence).
  destruct (IH _ _ _ _ R) as (pre & -> & Hs & Hk & (e & -> & He & He2) & Ht).
  exists (t :: pre). split; [reflexivity|]. split; [exact Hs|].
  split; [constructor; [apply is_eof_not; exact Et|exact Hk]|].
  split; [exists e; auto|]. cbn [map].
  destruct (equal t (bs "(")) eqn:O1.
  { apply equal_iff in O1. rewrite O1. apply tail_open. exact Ht. }
  destruct (equal t (bs ")")) eqn:O2.
  { destruct lv as [|lv]; [discriminate|]. apply equal_iff in O2. rewrite O2. apply tail_close.
    replace (S lv - 1)%nat with lv in Ht by lia. exact Ht. }
  apply tail_word; [apply equal_not; exact O1|apply equal_not; exact O2| |exact Ht].
  intros -> -> X. apply equal_iff in X. rewrite X in C2. discriminate.
Qed.

(** Completeness: reading stops exactly after balanced text *)
Lemma read_one_tail : forall pre lv rr rest, Forall (fun t => p_kind t <> TK_EOF) pre ->
  tail_text rr lv (map p_text pre) -> stop_at rr rest ->
  exists e, read_macro_arg_one (pre ++ rest) lv rr = LOk (map copy_token pre ++ [e], rest) /\ p_kind e = TK_EOF /\ p_text e = [].
Proof.
  induction pre as [|t pre IH]; intros lv rr rest Hk Ht Hs.
  - inversion Ht as [ts Ha|n a b Ha Hb E]; subst; [|destruct a; discriminate].
    destruct rest as [|s rest]; [destruct Hs|]. exists (new_eof s). split; [|auto]. cbn [app map read_macro_arg_one].
    destruct Hs as [Hs|[Hr Hs]].
    + rewrite (proj2 (equal_iff s _) Hs). reflexivity.
    + rewrite (proj2 (equal_iff s _) Hs). subst rr.
      replace (equal s (bs ")")) with false; [reflexivity|].
      symmetry. apply equal_not. rewrite Hs. apply not_eq_sym, rp_cm.
  - inversion Hk as [|? ? Hkt Hk']; subst.
    cbn [app map read_macro_arg_one].
    assert (Step : exists lv', (if equal t (bs "(") then S lv else if equal t (bs ")") then (lv - 1)%nat else lv) = lv' /\
       tail_text rr lv' (map p_text pre) /\ (p_text t = bs ")" -> lv <> O) /\ (p_text t = bs "," -> lv = O -> rr = true)).
    { cbn [map] in Ht. remember (p_text t :: map p_text pre) as ts eqn:Ets. destruct Ht as [ts Ha|n a b Ha Hb].
      - destruct Ha as [|w r W1 W2 W3 Ha|a b Ha Hb]; [discriminate| |].
        + assert (w = p_text t /\ r = map p_text pre) as [-> ->] by (split; congruence).
          exists O. rewrite (proj2 (equal_not t _) W1), (proj2 (equal_not t _) W2).
          split; [reflexivity|]. split; [constructor; exact Ha|]. split; [tauto|].
          intros X _. destruct rr; [reflexivity|]. exfalso. apply W3; auto.
        + assert (T : p_text t = bs "(") by congruence. assert (M : map p_text pre = a ++ bs ")" :: b) by congruence.
          exists 1%nat. rewrite (proj2 (equal_iff t _) T). split; [reflexivity|].
          split; [rewrite M; constructor; [exact Ha|constructor; exact Hb]|].
          rewrite T. split; intros X; exfalso; revert X; [apply lp_rp|apply lp_cm].
      - destruct Ha as [|w r W1 W2 W3 Ha|a1 a2 Ha1 Ha2].
        + assert (T : p_text t = bs ")") by (cbn [app] in Ets; congruence). assert (M : map p_text pre = b) by (cbn [app] in Ets; congruence).
          exists n. rewrite (proj2 (equal_iff t _) T).
          replace (equal t (bs "(")) with false by (symmetry; apply equal_not; rewrite T; apply not_eq_sym, lp_rp).
          split; [lia|]. split; [rewrite M; exact Hb|]. split; [intros _; discriminate|].
          rewrite T. intros X; exfalso; revert X; apply rp_cm.
        + assert (T : w = p_text t) by (cbn [app] in Ets; congruence). assert (M : map p_text pre = r ++ bs ")" :: b) by (cbn [app] in Ets; congruence).
          subst w. exists (S n). rewrite (proj2 (equal_not t _) W1), (proj2 (equal_not t _) W2).
          split; [reflexivity|]. split; [rewrite M; constructor; assumption|]. split; [tauto|]. intros _ X; discriminate.
        + assert (T : p_text t = bs "(") by (cbn [app] in Ets; congruence).
          assert (M : map p_text pre = a1 ++ bs ")" :: (a2 ++ bs ")" :: b)) by (cbn [app] in Ets; rewrite <- app_assoc in Ets; cbn [app] in Ets; congruence).
          exists (S (S n)). rewrite (proj2 (equal_iff t _) T). split; [reflexivity|].
          split; [rewrite M; constructor; [exact Ha1|]; constructor; assumption|].
          rewrite T. split; intros X; exfalso; revert X; [apply lp_rp|apply lp_cm]. }
    destruct Step as (lv' & Elv & Ht' & N1 & N2).
    destruct (IH lv' rr rest Hk' Ht' Hs) as (e & R & He). exists e.
    replace ((lv =? 0)%nat && equal t (bs ")")) with false.
    2:{ destruct (equal t (bs ")")) eqn:X; [|rewrite andb_false_r; reflexivity]. apply equal_iff in X.
        destruct lv; [exfalso; apply N1; auto|reflexivity]. }
    replace ((lv =? 0)%nat && negb rr && equal t (bs ",")) with false.
    2:{ destruct (equal t (bs ",")) eqn:X; [|rewrite andb_false_r; reflexivity]. apply equal_iff in X.
        destruct lv; [|reflexivity]. rewrite (N2 X eq_refl). reflexivity. }
    rewrite (proj2 (is_eof_not t) Hkt). cbv zeta. rewrite Elv, R. cbn [lbind fst snd]. auto.
Qed.

Lemma arg_words_eof n v pre e : arg_words (MArg n v (map copy_token pre ++ [e])) = map p_text pre.
Proof.
  unfold arg_words. cbn [a_toks]. rewrite map_app, map_map. cbn [map]. rewrite removelast_app1. reflexivity.
Qed.

Lemma skip_inv l s r : skip l s = LOk r -> exists t, l = t :: r /\ p_text t = s.
Proof.
  destruct l as [|t l]; simpl; [discriminate|]. destruct (equal t s) eqn:Q; [|discriminate].
  intro H. exists t. apply equal_iff in Q. split; congruence.
Qed.

Lemma tail0_inv c ts : tail_text c 0 ts -> arg_text c ts.
Proof. intro H. inversion H. assumption. Qed.

Lemma joined_cons sep w ws : ws <> [] -> joined sep (w :: ws) = w ++ sep :: joined sep ws.
Proof. destruct ws; [congruence|]. reflexivity. Qed.

Lemma joined_app sep a b : a <> [] -> b <> [] -> joined sep (a ++ b) = joined sep a ++ sep :: joined sep b.
Proof.
  induction a as [|x a IH]; [congruence|]. intros _ Hb. destruct a as [|y a].
  - cbn [app]. rewrite joined_cons by exact Hb. reflexivity.
  - change ((x :: y :: a) ++ b) with (x :: (y :: a) ++ b). rewrite joined_cons by discriminate.
    rewrite IH by (try discriminate; exact Hb). rewrite (joined_cons sep x (y :: a)) by discriminate. rewrite <- app_assoc. reflexivity.
Qed.

Definition lead (first : bool) (ws : list (list bytes)) : list bytes :=
  match ws with [] => [] | _ => if first then joined (bs ",") ws else bs "," :: joined (bs ",") ws end.


Definition eof_blank (l : list ptok) : Prop := Forall (fun t => p_kind t = TK_EOF -> p_text t = []) l.

Lemma named_sound params : forall first l args rest, eof_blank l -> read_named_args params first l = LOk (args, rest) ->
  exists pre, l = pre ++ rest /\ Forall (fun t => p_kind t <> TK_EOF) pre /\
    map a_name args = params /\ Forall (fun a => a_va a = false /\ arg_text false (arg_words a)) args /\
    map p_text pre = lead first (map arg_words args) /\ (params <> [] -> stop_at false rest).
Proof.
  induction params as [|n ps IH]; intros first l args rest Hb; cbn [read_named_args].
  - intro H. assert (args = [] /\ rest = l) as [-> ->] by (split; congruence).
    exists []. split; [reflexivity|]. split; [constructor|]. split; [reflexivity|]. split; [constructor|]. split; [reflexivity|congruence].
  - destruct (if first then LOk l else skip l (bs ",")) as [l1| | |] eqn:Q1; cbn [lbind]; try discriminate.
    destruct (read_macro_arg_one l1 0 false) as [[a r1]| | |] eqn:Q2; cbn [lbind fst snd]; try discriminate.
    destruct (read_named_args ps false r1) as [[as_ r2]| | |] eqn:Q3; cbn [lbind fst snd]; try discriminate.
    intro H. assert (args = MArg n false a :: as_ /\ rest = r2) as [-> ->] by (split; congruence).
    destruct (read_one_sound _ _ _ _ _ Q2) as (p1 & -> & Hs1 & Hk1 & (e & -> & He & He2) & Ht1).
    assert (Hsub : eof_blank r1).
    { assert (eof_blank (p1 ++ r1)).
      { destruct first; [replace (p1 ++ r1) with l by congruence; exact Hb|].
        apply skip_inv in Q1 as (t & -> & _). unfold eof_blank in Hb; inversion Hb; assumption. }
      apply Forall_app in H0. apply H0. }
    destruct (IH _ _ _ _ Hsub Q3) as (p2 & -> & Hk2 & Hn & HF & Hw & Hs2).
    exists ((if first then [] else firstn 1 l) ++ p1 ++ p2).
    assert (Hl : l = (if first then [] else firstn 1 l) ++ p1 ++ p2 ++ r2).
    { destruct first; [assert (X : l = p1 ++ p2 ++ r2) by congruence; exact X|]. apply skip_inv in Q1 as (t & -> & _). reflexivity. }
    split; [rewrite <- !app_assoc; exact Hl|].
    split.
    { apply Forall_app; split; [|apply Forall_app; auto]. destruct first; [constructor|].
      apply skip_inv in Q1 as (t & -> & T). unfold eof_blank in Hb; inversion Hb as [|? ? Hbt _]; subst. cbn [firstn]. constructor; [|constructor].
      intro K. rewrite (Hbt K) in T. vm_compute in T. discriminate. }
    split; [cbn [map a_name]; f_equal; exact Hn|].
    split; [constructor; [|exact HF]; split; [reflexivity|rewrite arg_words_eof; apply tail0_inv; exact Ht1]|].
    split.
    + cbn [map]. rewrite arg_words_eof. rewrite !map_app, Hw.
      assert (Hj : map p_text p1 ++ lead false (map arg_words as_) = joined (bs ",") (map p_text p1 :: map arg_words as_)).
      { destruct (map arg_words as_) eqn:M; [cbn [lead joined]; apply app_nil_r|]. reflexivity. }
      rewrite Hj. unfold lead. destruct first; [reflexivity|].
      apply skip_inv in Q1 as (t & -> & T). cbn [firstn map app]. rewrite T. reflexivity.
    + intros _. destruct ps; [|apply Hs2; discriminate].
      cbn [read_named_args] in Q3. assert (r2 = p2 ++ r2) by congruence. rewrite H0. exact Hs1.
Qed.

Lemma stop_rp rr rest : stop_at rr rest -> skip rest (bs ")") = LOk (tl rest) -> exists rp r, rest = rp :: r /\ p_text rp = bs ")".
Proof. intros H S. apply skip_inv in S as (t & -> & T). eauto. Qed.

Lemma arg_weaken ts : arg_text false ts -> arg_text true ts.
Proof. intro H. induction H; [constructor|apply at_word; auto; discriminate|apply at_paren; auto]. Qed.
Lemma arg_app c a b : arg_text c a -> arg_text c b -> arg_text c (a ++ b).
Proof.
  intros H Hb. induction H; [exact Hb|apply at_word; auto|].
  cbn [app]. rewrite <- app_assoc. cbn [app]. apply at_paren; auto.
Qed.
Lemma joined_balanced ws : Forall (arg_text true) ws -> arg_text true (joined (bs ",") ws).
Proof.
  induction 1 as [|w ws H HF IH]; [constructor|]. destruct ws; [exact H|].
  rewrite joined_cons by discriminate. apply arg_app; [exact H|].
  apply at_word; [apply not_eq_sym, lp_cm|apply not_eq_sym, rp_cm|discriminate|exact IH].
Qed.

(** The whole argument list. [present]: the arguments written out; when the
    variadic one is left out altogether, it is the empty list. *)
Theorem macro_args_sound l params va args rest : eof_blank l ->
  read_macro_args l params va = LOk (args, rest) ->
  exists inner rp r, l = inner ++ rp :: r /\ rest = rp :: r /\ p_text rp = bs ")" /\
    Forall (fun t => p_kind t <> TK_EOF) inner /\ arg_text true (map p_text inner) /\
    map a_name args = params ++ match va with Some n => [n] | None => [] end /\
    Forall (fun a => arg_text (a_va a) (arg_words a)) args /\
    map a_va args = map (fun _ => false) params ++ match va with Some _ => [true] | None => [] end /\
    (map p_text inner = joined (bs ",") (map arg_words args) \/
     (va <> None /\ arg_words (last args (MArg [] true [])) = [] /\ map p_text inner = joined (bs ",") (map arg_words (removelast args)))).
Proof.
  intro Hb. unfold read_macro_args.
  destruct (read_named_args params true l) as [[as_ l1]| | |] eqn:Q1; cbn [lbind fst snd]; try discriminate.
  destruct (named_sound _ _ _ _ _ Hb Q1) as (pre & -> & Hk & Hn & HF & Hw & Hs).
  assert (Hw' : map p_text pre = joined (bs ",") (map arg_words as_)) by (rewrite Hw; destruct (map arg_words as_); reflexivity).
  assert (HFv : map a_va as_ = map (fun _ => false) params).
  { rewrite <- Hn, map_map. apply map_ext_in. intros a Ha. rewrite Forall_forall in HF. apply HF. exact Ha. }
  assert (HFt : Forall (fun a => arg_text (a_va a) (arg_words a)) as_).
  { eapply Forall_impl; [|exact HF]. intros a [V T]. rewrite V. exact T. }
  assert (HFb : Forall (arg_text true) (map arg_words as_)).
  { apply Forall_map. eapply Forall_impl; [|exact HF]. intros a [V T]. apply arg_weaken. exact T. }
  assert (Hbl1 : eof_blank l1) by (apply Forall_app in Hb; tauto).
  destruct va as [name|].
  - destruct l1 as [|t l1']; cbn [lbind]; [discriminate|].
    destruct (equal t (bs ")")) eqn:T; cbn [lbind fst snd].
    + apply equal_iff in T.
      destruct (skip (t :: l1') (bs ")")) eqn:S; cbn [lbind]; try discriminate.
      intro H. assert (args = as_ ++ [MArg name true [new_eof t]] /\ rest = t :: l1') as [-> ->] by (split; congruence).
      exists pre, t, l1'. repeat split; auto.
      * rewrite Hw'. apply joined_balanced. exact HFb.
      * rewrite map_app, Hn. reflexivity.
      * apply Forall_app; split; [exact HFt|]. repeat constructor.
      * rewrite map_app, HFv. reflexivity.
      * right. split; [discriminate|]. rewrite last_last, removelast_last. split; [reflexivity|exact Hw'].
    + destruct (match params with [] => LOk (t :: l1') | _ :: _ => skip (t :: l1') (bs ",") end) as [l2| | |] eqn:Q2; cbn [lbind]; try discriminate.
      destruct (read_macro_arg_one l2 0 true) as [[a r1]| | |] eqn:Q3; cbn [lbind fst snd]; try discriminate.
      destruct (read_one_sound _ _ _ _ _ Q3) as (p1 & -> & Hs1 & Hk1 & (e & -> & He & He2) & Ht1).
      destruct (skip r1 (bs ")")) as [r2| | |] eqn:S; cbn [lbind]; try discriminate.
      intro H. match type of H with LOk (?x, ?y) = _ => assert (args = x /\ rest = y) as [-> ->] by (split; congruence) end.
      apply skip_inv in S as (rp & -> & Hrp). apply tail0_inv in Ht1.
      exists (pre ++ (match params with [] => [] | _ => [t] end) ++ p1), rp, r2.
      assert (Hl : t :: l1' = (match params with [] => [] | _ => [t] end) ++ p1 ++ rp :: r2).
      { destruct params; [assert (X : t :: l1' = p1 ++ rp :: r2) by congruence; exact X|]. apply skip_inv in Q2 as (t' & Ht' & _). cbn [app]. congruence. }
      assert (Hc : params <> [] -> p_text t = bs ",").
      { destruct params; [congruence|]. intros _. apply skip_inv in Q2 as (t' & Ht' & T'). congruence. }
      assert (Hj : map p_text (pre ++ (match params with [] => [] | _ => [t] end) ++ p1) = joined (bs ",") (map arg_words (as_ ++ [MArg name true (map copy_token p1 ++ [e])]))).
      { rewrite !map_app, Hw'. cbn [map]. rewrite arg_words_eof.
        destruct params as [|q params].
        - destruct as_; [|discriminate]. reflexivity.
        - cbn [map app]. rewrite Hc by discriminate. rewrite joined_app; [reflexivity| |discriminate].
          destruct as_; [discriminate|discriminate]. }
      split; [rewrite Hl, <- !app_assoc; reflexivity|]. split; [reflexivity|]. split; [exact Hrp|].
      split.
      { apply Forall_app; split; [exact Hk|]. apply Forall_app; split; [|exact Hk1].
        destruct params; [constructor|]. constructor; [|constructor]. intro K.
        unfold eof_blank in Hbl1; inversion Hbl1 as [|? ? B _]; subst. rewrite (B K) in Hc. specialize (Hc ltac:(discriminate)). vm_compute in Hc. discriminate. }
      split.
      { rewrite Hj, map_app. apply joined_balanced. apply Forall_app; split; [exact HFb|].
        constructor; [|constructor]. rewrite arg_words_eof. exact Ht1. }
      split; [rewrite map_app, Hn; reflexivity|].
      split; [apply Forall_app; split; [exact HFt|]; constructor; [|constructor]; rewrite arg_words_eof; exact Ht1|].
      split; [rewrite map_app, HFv; reflexivity|].
      left. exact Hj.
  - cbn [lbind fst snd]. destruct (skip l1 (bs ")")) as [r2| | |] eqn:S; cbn [lbind]; try discriminate.
    intro H. assert (args = as_ /\ rest = l1) as [-> ->] by (split; congruence).
    apply skip_inv in S as (rp & -> & Hrp).
    exists pre, rp, r2. repeat split; auto.
    + rewrite Hw'. apply joined_balanced. exact HFb.
    + rewrite app_nil_r. exact Hn.
    + rewrite app_nil_r. exact HFv.
Qed.

(** ** Completeness *)
Lemma read_one_complete rr pre rest : Forall (fun t => p_kind t <> TK_EOF) pre ->
  arg_text rr (map p_text pre) -> stop_at rr rest ->
  exists e, read_macro_arg_one (pre ++ rest) 0 rr = LOk (map copy_token pre ++ [e], rest) /\ p_kind e = TK_EOF /\ p_text e = [].
Proof. intros Hk Ht Hs. apply read_one_tail; [exact Hk|constructor; exact Ht|exact Hs]. Qed.

Lemma named_complete params : forall first groups inner rest,
  length groups = length params -> params <> [] ->
  Forall (arg_text false) groups -> Forall (fun t => p_kind t <> TK_EOF) inner ->
  map p_text inner = lead first groups -> stop_at false rest ->
  exists args, read_named_args params first (inner ++ rest) = LOk (args, rest) /\
    map arg_words args = groups /\ map a_name args = params.
Proof.
  induction params as [|n ps IH]; intros first groups inner rest Hl Hne HF Hk Hw Hs; [congruence|].
  destruct groups as [|g gs]; [discriminate|]. inversion HF as [|? ? Hg HF']; subst.
  cbn [read_named_args].
  assert (Hsplit : exists inner', (if first then LOk (inner ++ rest) else skip (inner ++ rest) (bs ",")) = LOk (inner' ++ rest) /\
     map p_text inner' = joined (bs ",") (g :: gs) /\ Forall (fun t => p_kind t <> TK_EOF) inner').
  { cbn [lead] in Hw. destruct first; [exists inner; auto|].
    destruct inner as [|t inner]; [discriminate|]. cbn [map] in Hw. exists inner.
    inversion Hk; subst. cbn [app skip]. rewrite (proj2 (equal_iff t (bs ",")) ltac:(congruence)).
    split; [reflexivity|]. split; [congruence|assumption]. }
  destruct Hsplit as (inner' & -> & Hw' & Hk'). cbn [lbind].
  destruct ps as [|n2 ps].
  - destruct gs; [|discriminate]. cbn [joined] in Hw'.
    destruct (read_one_complete false inner' rest Hk' ltac:(rewrite Hw'; exact Hg) Hs) as (e & -> & He & He2).
    cbn [lbind fst snd read_named_args]. eexists. split; [reflexivity|]. split; [|reflexivity].
    cbn [map]. rewrite arg_words_eof, Hw'. reflexivity.
  - destruct gs as [|g2 gs]; [discriminate|]. rewrite joined_cons in Hw' by discriminate.
    apply map_eq_app in Hw' as (p1 & p2 & -> & W1 & W2).
    apply Forall_app in Hk' as [Hk1 Hk2]. rewrite <- app_assoc.
    destruct (read_one_complete false p1 (p2 ++ rest) Hk1 ltac:(rewrite W1; exact Hg)) as (e & -> & He & He2).
    { destruct p2 as [|t p2]; [discriminate|]. cbn [map] in W2. right. split; [reflexivity|]. congruence. }
    cbn [lbind fst snd].
    destruct (IH false (g2 :: gs) p2 rest) as (args & -> & A1 & A2); auto; try discriminate.
    cbn [lbind fst snd]. eexists. split; [reflexivity|]. split; [cbn [map]; rewrite arg_words_eof, A1, W1; reflexivity|].
    cbn [map a_name]. rewrite A2. reflexivity.
Qed.

Theorem macro_args_complete params groups inner rp r :
  length groups = length params -> params <> [] ->
  Forall (arg_text false) groups -> Forall (fun t => p_kind t <> TK_EOF) inner ->
  map p_text inner = joined (bs ",") groups -> p_text rp = bs ")" ->
  exists args, read_macro_args (inner ++ rp :: r) params None = LOk (args, rp :: r) /\
    map arg_words args = groups /\ map a_name args = params.
Proof.
  intros Hl Hne HF Hk Hw Hr.
  destruct (named_complete params true groups inner (rp :: r)) as (args & R & A1 & A2); auto.
  { destruct groups; [destruct params; [congruence|discriminate]|exact Hw]. }
  { left. exact Hr. }
  unfold read_macro_args. rewrite R. cbn [lbind fst snd skip]. rewrite (proj2 (equal_iff rp _) Hr). cbn [lbind]. eauto.
Qed.

Theorem macro_args_complete_va params name groups v inner rp r :
  length groups = length params ->
  Forall (arg_text false) groups -> arg_text true v -> Forall (fun t => p_kind t <> TK_EOF) inner ->
  map p_text inner = joined (bs ",") (groups ++ [v]) -> p_text rp = bs ")" ->
  exists args, read_macro_args (inner ++ rp :: r) params (Some name) = LOk (args, rp :: r) /\
    map arg_words args = groups ++ [v] /\ map a_name args = params ++ [name].
Proof.
  intros Hl HF Hv Hk Hw Hr. unfold read_macro_args.
  destruct params as [|q params].
  - destruct groups; [|discriminate]. cbn [app joined] in Hw. cbn [read_named_args lbind fst snd].
    destruct inner as [|t inner].
    + cbn [app]. rewrite (proj2 (equal_iff rp _) Hr). cbn [lbind fst snd skip]. rewrite (proj2 (equal_iff rp _) Hr).
      cbn [lbind]. eexists. split; [reflexivity|]. cbn [map] in Hw. subst v. split; reflexivity.
    + cbn [app]. replace (equal t (bs ")")) with false.
      2:{ symmetry. apply equal_not. intro X. cbn [map] in Hw. rewrite X in Hw. subst v.
          remember (bs ")" :: map p_text inner) as ts eqn:Ets.
          destruct Hv as [|w rr W1 W2 W3 W4|a b Ha Hb]; [discriminate|congruence|].
          assert (X1 : bs "(" = bs ")") by congruence. revert X1. apply lp_rp. }
      cbn [lbind]. change (t :: inner ++ rp :: r) with ((t :: inner) ++ rp :: r).
      destruct (read_one_complete true (t :: inner) (rp :: r) Hk ltac:(rewrite Hw; exact Hv) ltac:(left; exact Hr)) as (e & -> & He & He2).
      cbn [lbind fst snd skip]. rewrite (proj2 (equal_iff rp _) Hr). cbn [lbind]. eexists. split; [reflexivity|].
      split; [|reflexivity]. cbn [app]. change (map arg_words [MArg name true (map copy_token (t :: inner) ++ [e])] = [v]).
      cbn [map]. change (copy_token t :: map copy_token inner) with (map copy_token (t :: inner)). rewrite arg_words_eof, Hw. reflexivity.
  - assert (Hg : groups <> []) by (destruct groups; discriminate).
    rewrite joined_app in Hw by (try discriminate; exact Hg). cbn [joined] in Hw.
    apply map_eq_app in Hw as (p1 & p2 & -> & W1 & W2). apply Forall_app in Hk as [Hk1 Hk2].
    destruct p2 as [|c p2]; [discriminate|]. cbn [map] in W2. inversion Hk2 as [|? ? Hkc Hk2']; subst.
    assert (Hc : p_text c = bs ",") by congruence. assert (W3 : map p_text p2 = v) by congruence.
    rewrite <- app_assoc.
    destruct (named_complete (q :: params) true groups p1 ((c :: p2) ++ rp :: r)) as (args & R & A1 & A2); auto; try discriminate.
    { destruct groups; [congruence|exact W1]. }
    { right. auto. }
    rewrite R. cbn [lbind fst snd app].
    replace (equal c (bs ")")) with false by (symmetry; apply equal_not; rewrite Hc; apply not_eq_sym, rp_cm).
    cbn [skip]. rewrite (proj2 (equal_iff c _) Hc). cbn [lbind].
    destruct (read_one_complete true p2 (rp :: r) Hk2' ltac:(rewrite W3; exact Hv) ltac:(left; exact Hr)) as (e & -> & He & He2).
    cbn [lbind fst snd skip]. rewrite (proj2 (equal_iff rp _) Hr). cbn [lbind]. eexists. split; [reflexivity|].
    rewrite !map_app, A1, A2. cbn [map]. rewrite arg_words_eof, W3. split; reflexivity.
Qed.
