From Verif Require Import Base DrvModel DrvSpec.
From Coq Require Import ZifyBool ZifyNat.
Local Notation length := List.length.
Local Arguments Z.mul : simpl never.
Local Arguments Z.add : simpl never.

(** ** quote_makefile *)
Definition blank (c : Z) : bool := (c =? 32) || (c =? 9).
Definition run (k : nat) (c : Z) : nat := if c =? 92 then S k else 0%nat.
Definition esc (k : nat) (c : Z) : bytes :=
  if c =? 36 then [36; 36] else if c =? 35 then [92; 35] else if blank c then repeat 92 k ++ [92; c] else [c].
Fixpoint q (k : nat) (s : bytes) : bytes := match s with [] => [] | c :: r => esc k c ++ q (run k c) r end.
(** Without the quoting of number signs; without that of dollars *)
Definition esc1 (k : nat) (c : Z) : bytes := if c =? 36 then [36; 36] else if blank c then repeat 92 k ++ [92; c] else [c].
Fixpoint q1 (k : nat) (s : bytes) : bytes := match s with [] => [] | c :: r => esc1 k c ++ q1 (run k c) r end.
Definition esc2 (k : nat) (c : Z) : bytes := if blank c then repeat 92 k ++ [92; c] else [c].
Fixpoint q2 (k : nat) (s : bytes) : bytes := match s with [] => [] | c :: r => esc2 k c ++ q2 (run k c) r end.

Lemma esc_length k c : (length (esc k c) + run k c <= k + 2)%nat.
Proof.
  unfold esc, run, blank. destruct (Z.eqb_spec c 36) as [->|]; [cbn; lia|]. destruct (Z.eqb_spec c 35) as [->|]; [cbn; lia|].
  destruct (Z.eqb_spec c 32) as [->|]; [cbn [orb Z.eqb]; rewrite app_length, repeat_length; cbn; lia|]. destruct (Z.eqb_spec c 9) as [->|]; [cbn [orb Z.eqb]; rewrite app_length, repeat_length; cbn; lia|].
  cbn [orb length]. destruct (c =? 92); lia.
Qed.
Lemma q_length k s : (length (q k s) <= 2 * length s + k)%nat.
Proof. revert k; induction s as [|c s IH]; intros k; cbn [q length]; [lia|]. rewrite app_length. specialize (IH (run k c)). pose proof (esc_length k c). lia. Qed.
Lemma puts_app cap l : forall buf, (length buf + length l <= cap)%nat -> puts cap buf l = Some (buf ++ l).
Proof.
  induction l as [|c l IH]; intros buf L; cbn [puts length] in *; [now rewrite app_nil_r|]. unfold put. replace (length buf <? cap)%nat with true by lia.
  rewrite IH; [now rewrite <- app_assoc|]. rewrite app_length. cbn. lia.
Qed.
Lemma quote_go_q cap rest : forall prev buf, (length buf + length (q (back_run prev) rest) < cap)%nat -> quote_go cap prev rest buf = Some (buf ++ q (back_run prev) rest).
Proof.
  induction rest as [|c r IH]; intros prev buf L; cbn [quote_go q length] in *; [rewrite app_nil_r; replace (length buf <? cap)%nat with true by lia; reflexivity|].
  rewrite app_length in L. unfold esc in *. unfold blank in *.
  rewrite puts_app by lia. rewrite app_assoc. assert (R: run (back_run prev) c = back_run (c :: prev)) by reflexivity. rewrite R in *. apply IH. rewrite app_length. lia.
Qed.
Lemma quote_q s : quote_makefile s = Some (q 0 s).
Proof. unfold quote_makefile. rewrite quote_go_q; [reflexivity|]. cbn [back_run length]. pose proof (q_length 0 s). lia. Qed.

Lemma rep_app (a b : nat) : repeat 92 (a + b) = repeat 92 a ++ repeat 92 b. Proof. apply repeat_app. Qed.
Lemma rep_S k : repeat 92 (S k) = repeat 92 k ++ [92]. Proof. replace (S k) with (k + 1)%nat by lia. apply repeat_app. Qed.
Lemma unq_back stop j : forall k s, unquote stop k (repeat 92 j ++ s) = unquote stop (j + k) s.
Proof. induction j as [|j IH]; intros k s; cbn [repeat app Nat.add]; [reflexivity|]. cbn [unquote]. change (92 =? 92) with true. cbv iota. rewrite IH. f_equal. lia. Qed.
Lemma words_back j : forall k cur s, words k cur (repeat 92 j ++ s) = words (j + k) cur s.
Proof. induction j as [|j IH]; intros k cur s; cbn [repeat app Nat.add]; [reflexivity|]. cbn [words]. change (92 =? 92) with true. cbv iota. rewrite IH. f_equal. lia. Qed.
Lemma unq_char stop k c r : c <> 92 -> stop c = false -> unquote stop k (c :: r) = let '(t, u) := unquote stop 0 r in (repeat 92 k ++ c :: t, u).
Proof. intros N S. cbn [unquote]. replace (c =? 92) with false by lia. now rewrite S. Qed.

(** The name is kept if [prev] is a backslash exactly when [k] is not 0 *)
Definition kp (prev : Z) (k : nat) : Prop := (prev = 92 <-> k <> 0%nat).
Lemma kp_next prev k c : kp prev k -> kp c (run k c).
Proof. unfold kp, run. intros _. destruct (Z.eqb_spec c 92); split; intros; try lia. Qed.
Lemma unq_hash t : (forall c, In c t -> c <> 35) -> (hd 0 t <> 92) -> forall s k prev, nameable prev s = true -> kp prev k ->
  fst (unquote (Z.eqb 35) k (q k s ++ t)) = repeat 92 k ++ q1 k s ++ t.
Proof.
  intros T T0. assert (TT: forall t k, (forall c, In c t -> c <> 35) -> fst (unquote (Z.eqb 35) k t) = repeat 92 k ++ t).
  { clear T T0 t. induction t as [|c t IH]; intros k H; cbn [unquote fst]; [now rewrite app_nil_r|]. destruct (Z.eqb_spec c 92) as [->|N].
    - rewrite IH by (intros; apply H; now right). rewrite rep_S. now rewrite <- app_assoc.
    - replace (35 =? c) with false by (specialize (H c (or_introl eq_refl)); lia). destruct (unquote _ 0 t) as [a b] eqn:U. cbn [fst]. f_equal. f_equal. change a with (fst (a, b)). rewrite <- U, IH; [reflexivity|]. intros; apply H; now right. }
  induction s as [|c s IH]; intros k prev NA K; cbn [q q1 app]; [now apply TT|].
  cbn [nameable] in NA. apply andb_true_iff in NA as [NA1 NA3]. apply andb_true_iff in NA1 as [NA1 NA2]. specialize (IH (run k c) c NA3 (kp_next _ _ _ K)). rewrite <- !app_assoc.
  unfold esc, esc1. destruct (Z.eqb_spec c 36) as [->|N36].
  { cbn [app]. rewrite !unq_char by (lia || reflexivity). change (run k 36) with 0%nat in *. destruct (unquote _ 0 (q 0 s ++ t)) as [a b]. cbn [fst repeat app] in *. now rewrite IH. }
  destruct (Z.eqb_spec c 35) as [->|N35].
  { cbn [Z.eqb] in NA2. assert (K0: k = 0%nat) by (destruct K as [K1 K2]; destruct k; auto; exfalso; rewrite (K2 ltac:(lia)) in NA2; discriminate). subst k.
    cbn [app]. cbn [unquote]. change (92 =? 92) with true. cbv iota. change (35 =? 92) with false. change (35 =? 35) with true. cbv iota. change (Nat.even 1) with false. cbv iota. change (run 0 35) with 0%nat in *. change (blank 35) with false. cbv iota.
    destruct (unquote _ 0 (q 0 s ++ t)) as [a b]. cbn [fst repeat app Nat.div2] in *. now rewrite IH. }
  assert (S35: 35 =? c = false) by lia.
  destruct (blank c) eqn:B.
  { unfold blank in B. rewrite <- !app_assoc. rewrite unq_back. cbn [app]. change (92 :: c :: q (run k c) s ++ t) with (repeat 92 1 ++ (c :: q (run k c) s ++ t)). rewrite unq_back.
    rewrite unq_char by (lia || exact S35). assert (R: run k c = 0%nat) by (unfold run; replace (c =? 92) with false by lia; reflexivity). rewrite R in *.
    destruct (unquote _ 0 (q 0 s ++ t)) as [a b]. cbn [fst repeat app] in *. rewrite IH. replace (1 + (k + k))%nat with (k + k + 1)%nat by lia. rewrite !rep_app. cbn [repeat]. now rewrite <- !app_assoc. }
  cbn [app]. unfold run in *. destruct (Z.eqb_spec c 92) as [->|N92].
  { cbn [unquote]. change (92 =? 92) with true. cbv iota. rewrite IH. rewrite rep_S. now rewrite <- app_assoc. }
  rewrite unq_char by (lia || exact S35). destruct (unquote _ 0 (q 0 s ++ t)) as [a b]. cbn [fst repeat app] in *. now rewrite IH.
Qed.

Lemma expand_char c r : c <> 36 -> expand_dollar (c :: r) = option_map (cons c) (expand_dollar r).
Proof. intros N. cbn [expand_dollar]. destruct c as [|p|p]; try reflexivity. do 6 (destruct p as [p|p|]; try reflexivity). lia. Qed.
Lemma expand_back j s : expand_dollar (repeat 92 j ++ s) = option_map (app (repeat 92 j)) (expand_dollar s).
Proof. induction j as [|j IH]; cbn [repeat app]; [destruct (expand_dollar s); reflexivity|]. rewrite expand_char by lia. rewrite IH. destruct (expand_dollar s); reflexivity. Qed.
Lemma expand_q t : (forall c, In c t -> c <> 36) -> forall s k, expand_dollar (q1 k s ++ t) = Some (q2 k s ++ t).
Proof.
  intros T. assert (TT: expand_dollar t = Some t). { clear -T. induction t as [|c t IH]; [reflexivity|]. rewrite expand_char by (apply T; now left). rewrite IH; [reflexivity|]. intros; apply T; now right. }
  induction s as [|c s IH]; intros k; cbn [q1 q2 app]; [exact TT|]. specialize (IH (run k c)). rewrite <- !app_assoc. unfold esc1, esc2. destruct (Z.eqb_spec c 36) as [->|N36].
  { change (blank 36) with false. cbv iota. change ([36; 36] ++ q1 (run k 36) s ++ t) with (36 :: 36 :: (q1 (run k 36) s ++ t)). cbn [expand_dollar]. rewrite IH. reflexivity. }
  destruct (blank c) eqn:B.
  { rewrite <- !app_assoc. rewrite expand_back. cbn [app]. rewrite !expand_char by lia. rewrite IH. reflexivity. }
  cbn [app]. rewrite expand_char by lia. rewrite IH. reflexivity.
Qed.
Lemma unq_colon deps : forall s k prev, nameable prev s = true -> kp prev k -> unquote (Z.eqb 58) k (q2 k s ++ 58 :: deps) = (repeat 92 k ++ q2 k s, Some deps).
Proof.
  induction s as [|c s IH]; intros k prev NA K; cbn [q2 app].
  { cbn [nameable] in NA. assert (K0: k = 0%nat) by (destruct K as [K1 K2]; destruct k; auto; exfalso; rewrite (K2 ltac:(lia)) in NA; discriminate). subst k. reflexivity. }
  cbn [nameable] in NA. apply andb_true_iff in NA as [NA1 NA3]. apply andb_true_iff in NA1 as [NA1 _]. specialize (IH (run k c) c NA3 (kp_next _ _ _ K)).
  assert (N58: 58 =? c = false) by (destruct (Z.eqb_spec 58 c) as [<-|]; [discriminate NA1|reflexivity]).
  rewrite <- !app_assoc. unfold esc2. destruct (blank c) eqn:B.
  { unfold blank in B. rewrite <- !app_assoc. rewrite unq_back. cbn [app]. change (92 :: c :: q2 (run k c) s ++ 58 :: deps) with (repeat 92 1 ++ (c :: q2 (run k c) s ++ 58 :: deps)). rewrite unq_back.
    rewrite unq_char by (lia || exact N58). assert (R: run k c = 0%nat) by (unfold run; replace (c =? 92) with false by lia; reflexivity). rewrite R in *. rewrite IH. f_equal.
    replace (1 + (k + k))%nat with (k + k + 1)%nat by lia. rewrite !rep_app. cbn [repeat app]. now rewrite <- !app_assoc. }
  cbn [app]. unfold run in *. destruct (Z.eqb_spec c 92) as [->|N92].
  { cbn [unquote]. change (92 =? 92) with true. cbv iota. rewrite IH. rewrite rep_S. now rewrite <- app_assoc. }
  rewrite unq_char by (lia || exact N58). now rewrite IH.
Qed.
Lemma words_char k cur c r : c <> 92 -> blank c = false -> words k cur (c :: r) = words 0 (cur ++ repeat 92 k ++ [c]) r.
Proof. intros N B. cbn [words]. replace (c =? 92) with false by lia. unfold blank in B. now rewrite B. Qed.
Lemma words_q : forall s k cur, words k cur (q2 k s) = flush (cur ++ repeat 92 k ++ s).
Proof.
  induction s as [|c s IH]; intros k cur; cbn [q2]; [cbn [words]; now rewrite app_nil_r|]. specialize (IH (run k c)). unfold esc2. destruct (blank c) eqn:B.
  { unfold blank in B. rewrite <- !app_assoc. rewrite words_back. cbn [app]. change (92 :: c :: q2 (run k c) s) with (repeat 92 1 ++ (c :: q2 (run k c) s)). rewrite words_back. cbn [words]. replace (c =? 92) with false by lia. rewrite B.
    assert (R: run k c = 0%nat) by (unfold run; replace (c =? 92) with false by lia; reflexivity). rewrite R in *. replace (1 + (k + k))%nat with (S (2 * k)) by lia. rewrite Nat.even_succ, Nat.odd_mul, Nat.div2_succ_double. cbn [Nat.odd Nat.even negb andb].
    rewrite IH. cbn [repeat]. rewrite <- !app_assoc. reflexivity. }
  cbn [app]. unfold run in *. destruct (Z.eqb_spec c 92) as [->|N92].
  { cbn [words]. change (92 =? 92) with true. cbv iota. rewrite IH. rewrite rep_S. now rewrite <- app_assoc. }
  rewrite words_char by auto. rewrite IH. cbn [repeat app]. now rewrite <- !app_assoc.
Qed.

Lemma target_read s deps : s <> [] -> nameable 0 s = true -> (forall c, In c deps -> c <> 35 /\ c <> 36) ->
  make_rule (q 0 s ++ 58 :: deps) = Some ([s], words 0 [] deps).
Proof.
  intros N NA D. unfold make_rule. rewrite (unq_hash (58 :: deps)) with (prev := 0); auto; [|cbn; intros c [<-|I]; [lia|apply D, I]|cbn; lia|split; intros; lia].
  cbn [repeat app]. rewrite expand_q; [|cbn; intros c [<-|I]; [lia|apply D, I]]. rewrite (unq_colon deps s 0 0) by (auto; split; intros; lia). cbn [repeat app]. rewrite words_q. cbn [repeat app]. destruct s; [congruence|reflexivity].
Qed.

(** ** Dependency text *)
Lemma plain_char s c : plain_name s = true -> In c s -> c <> 9 /\ c <> 10 /\ c <> 32 /\ c <> 35 /\ c <> 36 /\ c <> 58 /\ c <> 92.
Proof.
  unfold plain_name. rewrite andb_true_iff, forallb_forall. intros [_ H] I. specialize (H c I). cbn [existsb] in H. lia.
Qed.
Lemma words_plain s : forall cur r, (forall c, In c s -> c <> 9 /\ c <> 32 /\ c <> 92) -> words 0 cur (s ++ r) = words 0 (cur ++ s) r.
Proof.
  induction s as [|c s IH]; intros cur r H; cbn [app]; [now rewrite app_nil_r|]. destruct (H c (or_introl eq_refl)) as (? & ? & ?). rewrite words_char by (unfold blank; lia). cbn [repeat app]. rewrite IH by (intros; apply H; now right). now rewrite <- app_assoc.
Qed.
Lemma join_plain s r : (forall c, In c s -> c <> 92) -> join_lines (s ++ r) = s ++ join_lines r.
Proof.
  induction s as [|c s IH]; intros H; cbn [app]; [reflexivity|]. assert (N: c <> 92) by (apply H; now left). rewrite <- IH by (intros; apply H; now right).
  cbn [join_lines]. destruct c as [|p|p]; try reflexivity. do 7 (destruct p as [p|p|]; try reflexivity). lia.
Qed.
Lemma join_dep f r : (forall c, In c f -> c <> 92) -> join_lines (bs " " ++ [92; 10; 9] ++ f ++ r) = [32; 32; 9] ++ f ++ join_lines r.
Proof. intros H. change (bs " ") with [32]. cbn [app join_lines]. now rewrite join_plain. Qed.
Lemma dep_words : forall fs, forallb plain_name fs = true ->
  words 0 [] (join_lines (flat_map (fun f => bs " " ++ [92; 10; 9] ++ f) fs)) = fs /\
  forall c, In c (join_lines (flat_map (fun f => bs " " ++ [92; 10; 9] ++ f) fs)) -> c <> 35 /\ c <> 36.
Proof.
  induction fs as [|f fs IH]; intros H; [split; [reflexivity|intros c []]|]. cbn [forallb] in H. apply andb_true_iff in H as [H1 H2]. destruct (IH H2) as [IH1 IH2].
  pose proof (fun c => plain_char f c H1) as PC. cbn [flat_map]. rewrite <- !app_assoc. rewrite join_dep by (intros c I; apply PC in I; lia). set (T := join_lines _) in *.
  split.
  - cbn [app words]. change (words 0 [] ([32; 32; 9] ++ f ++ T)) with (words 0 [] (f ++ T)). rewrite words_plain by (intros c I; apply PC in I; lia). cbn [app].
    assert (TF: words 0 f T = flush f ++ words 0 [] T).
    { destruct fs as [|g fs]; [cbn in T; subst T; cbn [words]; cbn [repeat]; now rewrite !app_nil_r|]. unfold T. cbn [flat_map]. rewrite <- !app_assoc.
      cbn [forallb] in H2. apply andb_true_iff in H2 as [H3 _]. rewrite join_dep by (intros c I; apply (plain_char _ _ H3) in I; lia). cbn [app words]. change (32 =? 92) with false. change (32 =? 32) with true. cbv iota. cbn [orb Nat.even Nat.div2 repeat]. now rewrite app_nil_r. }
    rewrite TF, IH1. unfold plain_name in H1. destruct f; [discriminate H1|reflexivity].
  - intros c I. apply in_app_or in I as [I|I]; [cbn in I; lia|]. apply in_app_or in I as [I|I]; [apply PC in I; lia|auto].
Qed.

(** ** The command line *)
Definition effect (i : item) (o : opts) : opts :=
  match i with
  | Flag f =>
      match f with
      | Fhash => setu Uhash o | FcS => setu US o | Fc => setu Uc o | FE => setu UE o | FM => setu UM o | FMD => setu UMD o | FMMD => setu UMMD o | FMP => setu UMP o
      | Fstatic => setu Ustatic o | Fshared => setu Ushared o | Fs => setu (Uld (Some (bs "-s"))) o | Fpic | FPIC => setu Ufpic o | Fcommon => setu (Ufcommon true) o | Fno_common => setu (Ufcommon false) o
      end
  | Ignored _ => o
  | Sep a x | Att a x =>
      match a with
      | Oout => setu (Uo (Some x)) o | Oinc => setu (Uinc x) o | Odef => setu (Umacro (define x)) o | Oundef => setu (Umacro (MUndef x)) o
      | Oinclude => setu (Uinclude (Some x)) o
      | Ox => match parse_opt_x x with Some t => setu (Ux t) o | None => o end
      | Oxlinker => setu (Uld (Some x)) o | OMF => setu (UMF (Some x)) o
      | OMT => match o_MT o with None => setu (UMT (Some x)) o | Some t => setu (UMT (Some (t ++ [32] ++ x))) o end
      | OL => setu (Uld (Some x)) (setu (Uld (Some (bs "-L"))) o)
      | Oidirafter => setu (Uidir x) o
      end
  | Lib s => setu (Uinput (bs "-l" ++ s)) o
  | Wl s => setu (Uinput (bs "-Wl," ++ s)) o
  | Input s => setu (Uinput s) o
  end.
Lemma dash_case {X} (a : bytes) (x y : X) : hd 0 a <> 45 -> (match a with 45 :: _ :: _ => x | _ => y end) = y.
Proof. destruct a as [|c a]; [reflexivity|]. cbn [hd]. intros N. destruct c as [|p|p]; try reflexivity. do 6 (destruct p as [p|p|]; try reflexivity). lia. Qed.
Lemma beq_hd s c l : hd 0 s <> c -> beq s (c :: l) = false.
Proof. destruct s as [|d s]; [reflexivity|]. cbn [hd beq]. intros N. replace (d =? c) with false by lia. reflexivity. Qed.
Lemma prefix_hd s c l : hd 0 s <> c -> is_prefix (c :: l) s = false.
Proof. destruct s as [|d s]; [reflexivity|]. cbn [hd is_prefix]. intros N. replace (c =? d) with false by lia. reflexivity. Qed.

Lemma input_parse s nx o : hd 0 s <> 45 -> parse1 s nx o = PNext (setu (Uinput s) o).
Proof.
  intros N. unfold parse1. assert (B: forall t, beq s (45 :: t) = false) by (intros; now apply beq_hd). assert (P: forall t, is_prefix (45 :: t) s = false) by (intros; now apply prefix_hd).
  cbn [bs nat_of_ascii]. unfold ignored. cbn [map existsb].
  cbn [bs]. change (Z.of_nat (nat_of_ascii "-"%char)) with 45. rewrite !B, !P. cbn [orb]. now apply dash_case.
Qed.

Ltac decide_parse := cbv - [setu define parse_opt_x app o_MT Z.eqb]; cbn; reflexivity.
Lemma att_parse a x nx o : good_item (Att a x) -> parse1 (aopt_name a ++ x) nx o = PNext (effect (Att a x) o).
Proof.
  intros (A & NE & X). destruct x as [|c x]; [congruence|]. destruct a; try discriminate A; try (cbn; reflexivity).
  specialize (X eq_refl). cbn [In map] in X. destruct X as [<-|[<-|[<-|[]]]]; reflexivity.
Qed.
Lemma sep_parse a x o : good_item (Sep a x) -> separate_dir (Sep a x) = false -> parse1 (aopt_name a) (Some x) o = PSkip (effect (Sep a x) o).
Proof.
  intros G D. destruct a; try discriminate D; try (cbn; reflexivity).
  - cbn [good_item In map] in G. destruct G as [<-|[<-|[<-|[]]]]; reflexivity.
  - unfold effect. destruct o as [? ? ? ? ? ? ? ? ? ? ? ? ? ? ? [mt|] ? ? ? ? ? ? ? ? ?]; reflexivity.
Qed.
Lemma item_parse i rest o : good_item i -> separate_dir i = false -> parse_loop (spell i ++ rest) o = parse_loop rest (effect i o).
Proof.
  intros G D. destruct i as [f|s|a x|a x|s|s|s].
  - destruct f; reflexivity.
  - cbn [good_item] in G. cbn [spell app parse_loop]. assert (E: forall nx, parse1 s nx o = PNext o). { intros nx. cbn [In map] in G. repeat (destruct G as [<-|G]; [reflexivity|]). destruct G. } now rewrite E.
  - cbn [spell app parse_loop hd_error]. rewrite sep_parse by auto. reflexivity.
  - cbn [spell app parse_loop]. rewrite att_parse by auto. reflexivity.
  - reflexivity.
  - reflexivity.
  - cbn [spell app parse_loop]. cbn [good_item] in G. destruct G as [->|G]; [reflexivity|]. rewrite input_parse by auto. reflexivity.
Qed.
Lemma items_parse l : forall o, Forall good_item l -> forallb (fun i => negb (separate_dir i)) l = true -> parse_loop (flat_map spell l) o = ROk (fold_left (fun o i => effect i o) l o).
Proof.
  induction l as [|i l IH]; intros o G D; [reflexivity|]. inversion G; subst. cbn [forallb] in D. apply andb_true_iff in D as [D1 D2]. cbn [flat_map fold_left]. rewrite item_parse by (auto; now apply negb_true_iff). now apply IH.
Qed.

Lemma take_arg_in x : take_arg x = true <-> In x takes_arg.
Proof.
  unfold take_arg, takes_arg. rewrite existsb_exists. split.
  - intros (y & I & B). apply beq_eq in B. subst y. cbn in *. tauto.
  - intros I. exists x. split; [cbn in *; tauto|apply beq_refl].
Qed.
Lemma take_no_dash s : hd 0 s <> 45 -> take_arg s = false.
Proof. intros N. unfold take_arg. cbn [map existsb bs]. change (Z.of_nat (nat_of_ascii "-"%char)) with 45. rewrite !beq_hd by auto. reflexivity. Qed.
Lemma item_check i rest : good_item i -> check_args (spell i ++ rest) = check_args rest.
Proof.
  intros G. destruct i as [f|s|a x|a x|s|s|s]; cbn [spell app check_args].
  - destruct f; reflexivity.
  - cbn [good_item In map] in G. repeat (destruct G as [<-|G]; [reflexivity|]). destruct G.
  - assert (TN: ~ In x takes_arg -> take_arg x = false) by (intros N; destruct (take_arg x) eqn:T; auto; apply take_arg_in in T; contradiction).
    destruct a; try reflexivity; cbn [good_item] in G; cbn [check_args]; rewrite (TN G); reflexivity.
  - destruct G as (A & NE & _). destruct x as [|c x]; [congruence|]. destruct a; try discriminate A; reflexivity.
  - reflexivity.
  - reflexivity.
  - cbn [good_item] in G. destruct G as [->|G]; [reflexivity|]. rewrite take_no_dash by auto. reflexivity.
Qed.
Lemma items_check l rest : Forall good_item l -> check_args (flat_map spell l ++ rest) = check_args rest.
Proof. induction 1 as [|i l G _ IH]; [reflexivity|]. cbn [flat_map]. rewrite <- app_assoc. rewrite item_check by auto. exact IH. Qed.

(** Every field after all items *)
Definition eff (l : list item) (o : opts) : opts := fold_left (fun o i => effect i o) l o.
Lemma fold_field {X} (get : opts -> X) (f : item -> X -> X) : (forall i o, get (effect i o) = f i (get o)) -> forall l o, get (eff l o) = fold_left (fun x i => f i x) l (get o).
Proof. intros H l. induction l as [|i l IH]; intros o; [reflexivity|]. unfold eff in *. cbn [fold_left]. rewrite IH, H. reflexivity. Qed.
Lemma fold_append {X} (f : item -> list X) l : forall x, fold_left (fun x i => x ++ f i) l x = x ++ flat_map f l.
Proof. induction l as [|i l IH]; intros x; cbn [fold_left flat_map]; [now rewrite app_nil_r|]. rewrite IH. now rewrite <- app_assoc. Qed.
Ltac fields := let i := fresh "i" in let o := fresh "o" in intros i o; destruct o as [? ? ? ? ? ? ? ? ? ? ? ? ? ? ? [?|] ? ? ? ? ? ? ? ? ?]; destruct i as [[]| |[]|[]| | |]; cbn; rewrite ?app_nil_r; try (destruct (parse_opt_x _)); cbn; rewrite <- ?app_assoc, ?app_nil_r; try reflexivity.
Lemma eff_inputs l o : o_inputs (eff l o) = o_inputs o ++ inputs_of l.
Proof. rewrite (fold_field o_inputs (fun i x => x ++ match i with Lib s => [bs "-l" ++ s] | Wl s => [bs "-Wl," ++ s] | Input s => [s] | _ => [] end)); [apply fold_append|]. fields. Qed.
Lemma eff_inc l o : o_inc (eff l o) = o_inc o ++ args_of Oinc l.
Proof. rewrite (fold_field o_inc (fun i x => x ++ arg_of Oinc i)); [apply fold_append|]. fields. Qed.
Lemma eff_idir l o : forallb (fun i => negb (separate_dir i)) l = true -> Forall good_item l -> o_idir (eff l o) = o_idir o.
Proof.
  intros D G. rewrite (fold_field o_idir (fun i x => x ++ arg_of Oidirafter i)); [|fields]. rewrite fold_append. assert (E: flat_map (arg_of Oidirafter) l = []); [|now rewrite E, app_nil_r].
  induction l as [|i l IH]; [reflexivity|]. inversion G; subst. cbn [forallb] in D. apply andb_true_iff in D as [D1 D2]. cbn [flat_map]. rewrite IH by auto. rewrite app_nil_r. destruct i as [| |[]|[]| | |]; try reflexivity; [discriminate D1|]. destruct H1 as [A _]. discriminate A.
Qed.
Lemma eff_include l o : o_include (eff l o) = o_include o ++ map Some (args_of Oinclude l).
Proof. rewrite (fold_field o_include (fun i x => x ++ map Some (arg_of Oinclude i))); [|fields]. rewrite fold_append. f_equal. unfold args_of. induction l as [|i l IH]; [reflexivity|]. cbn [flat_map]. now rewrite map_app, IH. Qed.
Lemma eff_ld l o : Forall good_item l -> o_ld (eff l o) = o_ld o ++ map Some (ld_of l).
Proof.
  intros G. revert o; induction G as [|i l G _ IH]; intros o; [cbn; now rewrite app_nil_r|]. unfold eff in *. cbn [fold_left]. rewrite IH. unfold ld_of. cbn [flat_map]. rewrite map_app, app_assoc. f_equal.
  destruct o as [? ? ? ? ? ? ? ? ? ? ? ? ? ? ? [?|] ? ? ? ? ? ? ? ? ?]; destruct i as [[]| |[]|[]| | |]; cbn; rewrite ?app_nil_r; try (destruct (parse_opt_x _)); cbn; rewrite <- ?app_assoc, ?app_nil_r; try reflexivity; destruct G as [A _]; discriminate A.
Qed.
Lemma last_cons_some l (x : bytes) : last_of (x :: l) = match last_of l with Some y => Some y | None => Some x end.
Proof. revert x; induction l as [|y l IH]; intros x; [reflexivity|]. change (last_of (x :: y :: l)) with (last_of (y :: l)). rewrite IH. destruct (last_of l); reflexivity. Qed.
Lemma last_app_some l1 : forall l2, last_of (l1 ++ l2) = match last_of l2 with Some y => Some y | None => last_of l1 end.
Proof. induction l1 as [|x l1 IH]; intros l2; [cbn [app]; destruct (last_of l2); reflexivity|]. cbn [app]. rewrite !last_cons_some, IH. destruct (last_of l2), (last_of l1); reflexivity. Qed.
Lemma eff_last (get : opts -> option bytes) a : (forall i o, get (effect i o) = match last_of (arg_of a i) with Some y => Some y | None => get o end) ->
  forall l o, get (eff l o) = match last_of (args_of a l) with Some y => Some y | None => get o end.
Proof.
  intros H l. induction l as [|i l IH]; intros o; [reflexivity|]. unfold eff in *. cbn [fold_left]. rewrite IH, H. unfold args_of. cbn [flat_map]. rewrite last_app_some.
  destruct (last_of (flat_map _ l)); reflexivity.
Qed.
Lemma eff_o l o : o_o (eff l o) = match last_of (args_of Oout l) with Some y => Some y | None => o_o o end.
Proof. apply (eff_last o_o Oout). fields. Qed.
Lemma eff_MF l o : o_MF (eff l o) = match last_of (args_of OMF l) with Some y => Some y | None => o_MF o end.
Proof. apply (eff_last o_MF OMF). fields. Qed.
Lemma eff_flag (get : opts -> bool) f : (forall i o, get (effect i o) = get o || match i with Flag g => beq (flag_name f) (flag_name g) | _ => false end) -> forall l o, get (eff l o) = get o || has f l.
Proof. intros H l. induction l as [|i l IH]; intros o; [cbn; now rewrite orb_false_r|]. unfold eff in *. cbn [fold_left]. rewrite IH, H. unfold has. cbn [existsb]. now rewrite orb_assoc. Qed.
Ltac flags := let i := fresh "i" in let o := fresh "o" in intros i o; destruct o as [[] [] ? ? ? [] [] ? ? [] [] ? ? ? ? [?|] ? ? ? ? ? ? ? ? ?]; destruct i as [[]| |[]|[]| | |]; cbn; try (destruct (parse_opt_x _)); cbn; reflexivity.
Lemma eff_c l o : o_c (eff l o) = o_c o || has Fc l. Proof. apply eff_flag. flags. Qed.
Lemma eff_S l o : o_S (eff l o) = o_S o || has FcS l. Proof. apply eff_flag. flags. Qed.
Lemma eff_E l o : o_E (eff l o) = o_E o || has FE l. Proof. apply eff_flag. flags. Qed.
Lemma eff_M l o : o_M (eff l o) = o_M o || has FM l. Proof. apply eff_flag. flags. Qed.
Lemma eff_static l o : o_static (eff l o) = o_static o || has Fstatic l. Proof. apply eff_flag. flags. Qed.
Lemma eff_shared l o : o_shared (eff l o) = o_shared o || has Fshared l. Proof. apply eff_flag. flags. Qed.
Lemma eff_cc1 l o : o_cc1 (eff l o) = o_cc1 o.
Proof. rewrite (fold_field o_cc1 (fun i x => x)); [|fields]. induction l; auto. Qed.

Lemma split_eq_none s : split_eq s = None <-> ~ In 61 s.
Proof.
  induction s as [|c s IH]; cbn [split_eq In]; [tauto|]. destruct (Z.eqb_spec c 61) as [->|N]; [split; [discriminate|intros H; exfalso; apply H; auto]|].
  destruct (split_eq s) as [[a b]|]; split; intros H; try discriminate; try reflexivity.
  - assert (Q: ~ In 61 s) by tauto. apply IH in Q. discriminate.
  - intros [Q|Q]; [lia|]. now apply IH in Q.
Qed.
Lemma split_eq_some s a b : split_eq s = Some (a, b) -> s = a ++ [61] ++ b /\ ~ In 61 a.
Proof.
  revert a; induction s as [|c s IH]; intros a H; cbn [split_eq] in H; [discriminate|]. destruct (Z.eqb_spec c 61) as [->|N]; [assert (a = [] /\ b = s) as [-> ->] by (split; congruence); auto|].
  destruct (split_eq s) as [[a' b']|]; [|discriminate]. assert (c :: a' = a /\ b' = b) as [<- ->] by (split; congruence). destruct (IH _ eq_refl) as [-> NI]. split; [reflexivity|]. cbn. intros [Q|Q]; [lia|tauto].
Qed.
Lemma define_ok s : defines s (define s).
Proof.
  unfold define. destruct (split_eq s) as [[a b]|] eqn:E; [apply split_eq_some in E as [-> NI]; now constructor|]. apply split_eq_none in E. now constructor.
Qed.
Lemma eff_macros l : forall o, exists ms, o_macros (eff l o) = o_macros o ++ ms /\ macros l ms.
Proof.
  induction l as [|i l IH]; intros o; [exists []; split; [now rewrite app_nil_r|constructor]|]. destruct (IH (effect i o)) as (ms & E & M). unfold eff in *. cbn [fold_left]. rewrite E.
  assert (C: (o_macros (effect i o) = o_macros o /\ arg_of Odef i = [] /\ arg_of Oundef i = []) \/ (exists x, o_macros (effect i o) = o_macros o ++ [define x] /\ arg_of Odef i = [x]) \/ (exists x, o_macros (effect i o) = o_macros o ++ [MUndef x] /\ arg_of Oundef i = [x])).
  { destruct o as [? ? ? ? ? ? ? ? ? ? ? ? ? ? ? [?|] ? ? ? ? ? ? ? ? ?]; destruct i as [[]| |[]|[]| | |]; try (left; cbn; try (destruct (parse_opt_x _)); now auto); right; cbn; eauto. }
  destruct C as [(C1 & C2 & C3)|[(x & C1 & C2)|(x & C1 & C2)]]; rewrite C1.
  - exists ms. split; [reflexivity|]. now apply macros_other.
  - exists (define x :: ms). split; [now rewrite <- app_assoc|]. eapply macros_def; eauto. apply define_ok.
  - exists (MUndef x :: ms). split; [now rewrite <- app_assoc|]. eapply macros_undef; eauto.
Qed.
Lemma parse_items inc l : Forall good_item l -> forallb (fun i => negb (separate_dir i)) l = true -> inputs_of l <> [] ->
  parse_args inc (flat_map spell l) = ROk (if has FE l then setu (Ux FC) (eff l (opts0 inc)) else eff l (opts0 inc)).
Proof.
  intros G D I. unfold parse_args. pose proof (items_check l [] G) as C. rewrite app_nil_r in C. rewrite C. cbn [negb check_args]. rewrite items_parse by auto. fold (eff l (opts0 inc)).
  assert (A: add_idir (eff l (opts0 inc)) = eff l (opts0 inc)) by (unfold add_idir; rewrite eff_idir by auto; reflexivity). rewrite A. rewrite eff_inputs. change (o_inputs (opts0 inc)) with (@nil bytes). cbn [app].
  rewrite eff_E. destruct (inputs_of l); [congruence|]. reflexivity.
Qed.

(** ** The steps *)
(** What holds after every step *)
Definition no_unlink (l : list event) : Prop := forall n, ~ In (EvUnlink n) l.
Definition reads_ok (l : list event) : Prop := forall l1 e l2 t, l = l1 ++ e :: l2 -> In t (reads e) -> exists e', In e' l1 /\ In t (fills e').
Definition filled (l : list event) (p : path) : Prop := match p with User _ => True | Temp t => exists e, In e l /\ In t (fills e) end.
Record inv (w : oracle) (failed : bool) (s : dst) : Prop := {
  iv_un : no_unlink (d_ev s);
  iv_tmp : temps (d_ev s) [] = seq 0 (d_tmp s);
  iv_proc : length (procs (d_ev s)) = d_proc s;
  iv_ok : forall k, (k < d_proc s)%nat -> (failed = true -> (S k < d_proc s)%nat) -> proc_ok w k = true;
  iv_fail : failed = true -> exists k, d_proc s = S k /\ proc_ok w k = false;
  iv_reads : reads_ok (d_ev s);
  iv_ld : Forall (filled (d_ev s)) (d_ld s);
}.
Definition good_res (w : oracle) (r : dres) : Prop :=
  match r with
  | DGo s => inv w false s
  | DExit n s => n = 1 /\ exists f, inv w f s
  | DAbort _ => False
  end.
Lemma temps_app l1 : forall l2 live, temps (l1 ++ l2) live = temps l2 (temps l1 live).
Proof. induction l1 as [|e l1 IH]; intros; cbn [app temps]; auto. destruct e; auto. Qed.
Lemma procs_app a b : procs (a ++ b) = procs a ++ procs b. Proof. apply filter_app. Qed.
Lemma reads_snoc l e : reads_ok l -> (forall t, In t (reads e) -> exists e', In e' l /\ In t (fills e')) -> reads_ok (l ++ [e]).
Proof.
  intros R E l1 e' l2 t EQ I. destruct l2 as [|y l2] using rev_ind.
  - apply app_inj_tail in EQ as [-> ->]. auto.
  - clear IHl2. rewrite app_comm_cons, app_assoc in EQ. apply app_inj_tail in EQ as [-> _]. eapply R; eauto.
Qed.
Lemma filled_mono l e p : filled l p -> filled (l ++ [e]) p.
Proof. destruct p; cbn; auto. intros (x & I & F). exists x. split; auto. apply in_or_app. auto. Qed.
Lemma run_sub_good w e s : is_proc e = true -> (forall t, In t (reads e) -> exists e', In e' (d_ev s) /\ In t (fills e')) -> inv w false s -> good_res w (run_sub w e s).
Proof.
  intros P RD [U T PR OK _ RE LD]. unfold run_sub.
  assert (U': no_unlink (d_ev s ++ [e])) by (intros n I; apply in_app_or in I as [I|[I|[]]]; [exact (U n I)|subst e; discriminate P]).
  assert (T': temps (d_ev s ++ [e]) [] = seq 0 (d_tmp s)) by (rewrite temps_app, T; destruct e; try discriminate P; reflexivity).
  assert (PR': length (procs (d_ev s ++ [e])) = S (d_proc s)) by (rewrite procs_app, app_length, PR; unfold procs; cbn [filter]; rewrite P; cbn; lia).
  assert (LD': Forall (filled (d_ev s ++ [e])) (d_ld s)) by (eapply Forall_impl; [|exact LD]; intros; now apply filled_mono).
  pose proof (reads_snoc _ _ RE RD) as RE'.
  destruct (proc_ok w (d_proc s)) eqn:Q; cbn [good_res].
  - constructor; cbn [d_ev d_proc d_tmp d_ld]; auto; [|discriminate]. intros k K _. destruct (Nat.eq_dec k (d_proc s)) as [->|]; auto. apply OK; [lia|discriminate].
  - split; [reflexivity|]. exists true. constructor; cbn [d_ev d_proc d_tmp d_ld]; auto; [|intros _; eauto]. intros k K F. apply OK; [specialize (F eq_refl); lia|discriminate].
Qed.
Lemma create_good w s t s' : create_tmp w s = Some (t, s') -> inv w false s -> inv w false s' /\ t = Temp (d_tmp s) /\ (forall e, In e (d_ev s) -> In e (d_ev s')).
Proof.
  unfold create_tmp. intros H [U T PR OK _ RE LD]. destruct (mk_ok w (d_tmp s)); [|discriminate].
  assert (t = Temp (d_tmp s) /\ s' = Dst (d_ev s ++ [EvTemp (d_tmp s)]) (d_proc s) (S (d_tmp s)) (d_ld s)) as [-> ->] by (split; congruence).
  split; [|split; [reflexivity|cbn; intros; apply in_or_app; auto]]. constructor; cbn [d_ev d_proc d_tmp d_ld]; auto; try discriminate.
  - intros n I. apply in_app_or in I as [I|[I|[]]]; [exact (U n I)|discriminate I].
  - rewrite temps_app, T. cbn [temps]. change [d_tmp s] with (seq (0 + d_tmp s) 1). rewrite <- seq_app. f_equal. lia.
  - rewrite procs_app. cbn. now rewrite app_nil_r.
  - apply reads_snoc; auto. intros t [].
  - eapply Forall_impl; [|exact LD]. intros; now apply filled_mono.
Qed.
Lemma push_good w l s : Forall (filled (d_ev s)) l -> inv w false s -> inv w false (push_ld l s).
Proof. intros F [U T PR OK FA RE LD]. constructor; auto. cbn. apply Forall_app; auto. Qed.
Lemma dbind_good w r f : good_res w r -> (forall s, r = DGo s -> inv w false s -> good_res w (f s)) -> good_res w (dbind r f).
Proof. destruct r as [s|n s|s]; cbn; auto. Qed.
Lemma run_sub_ev w e s s' : run_sub w e s = DGo s' -> In e (d_ev s') /\ (forall x, In x (d_ev s) -> In x (d_ev s')) /\ d_ld s' = d_ld s.
Proof. unfold run_sub. destruct (proc_ok w (d_proc s)); [|discriminate]. intros H. assert (s' = Dst (d_ev s ++ [e]) (S (d_proc s)) (d_tmp s) (d_ld s)) as -> by congruence. cbn. split; [apply in_or_app; cbn; auto|]. split; auto. intros; apply in_or_app; auto. Qed.
Lemma type_some x f : get_file_type x f <> Some FNone.
Proof. unfold get_file_type. destruct x; try discriminate. repeat (destruct (endswith f _); [discriminate|]). discriminate. Qed.

Lemma input_good w o i s : inv w false s -> good_res w (do_input w o i s).
Proof.
  intros I. unfold do_input. destruct (is_prefix (bs "-l") i); [apply push_good; auto; repeat constructor|].
  destruct (is_prefix (bs "-Wl,") i); [apply push_good; auto; apply Forall_forall; intros x X; apply in_map_iff in X as (y & <- & _); exact Logic.I|].
  pose proof (type_some (o_x o) i) as TS. set (out := match o_o o with Some _ => _ | None => _ end). clearbody out.
  assert (EX: good_res w (DExit 1 s)) by (split; eauto). assert (PU: good_res w (DGo (push_ld [User i] s))) by (apply push_good; auto; repeat constructor).
  destruct (get_file_type (o_x o) i) as [[]|]; auto; [congruence| |].
  - destruct (o_E o || o_M o); [apply run_sub_good; auto; intros t []|]. destruct (o_S o); [apply run_sub_good; auto; intros t []|]. destruct (o_c o).
    + destruct (create_tmp w s) as [[t s1]|] eqn:C1; [|exact EX]. destruct (create_good _ _ _ _ C1 I) as (I1 & T1 & _).
      apply dbind_good; [apply run_sub_good; auto; intros ? []|]. intros s2 R2 I2. apply run_sub_good; auto. destruct (run_sub_ev _ _ _ _ R2) as (E1 & _). subst t. intros u [<-|[]]. eexists; split; [exact E1|cbn; auto].
    + destruct (create_tmp w s) as [[t s1]|] eqn:C1; [|exact EX]. destruct (create_good _ _ _ _ C1 I) as (I1 & T1 & _).
      destruct (create_tmp w s1) as [[t2 s2]|] eqn:C2; [|split; eauto]. destruct (create_good _ _ _ _ C2 I1) as (I2 & T2 & _).
      apply dbind_good; [apply run_sub_good; auto; intros ? []|]. intros s3 R3 I3. destruct (run_sub_ev _ _ _ _ R3) as (E3 & _). subst t t2.
      apply dbind_good; [apply run_sub_good; auto; intros u [<-|[]]; eexists; split; [exact E3|cbn; auto]|]. intros s4 R4 I4. destruct (run_sub_ev _ _ _ _ R4) as (E4 & _).
      apply push_good; auto. repeat constructor. cbn. eexists; split; [exact E4|cbn; auto].
  - destruct (o_S o); [exact I|]. apply run_sub_good; auto. intros t [].
Qed.
Lemma inputs_good w o l : forall s, inv w false s -> good_res w (do_inputs w o l s).
Proof. induction l as [|i l IH]; intros s I; [exact I|]. cbn [do_inputs]. apply dbind_good; [now apply input_good|]. intros; now apply IH. Qed.
Lemma drive_good w o : good_res w (drive w o).
Proof.
  unfold drive. assert (I0: inv w false (Dst [] 0 0 [])). { constructor; cbn; auto; try discriminate; try lia; [intros n []|]. intros l1 e l2 t EQ. destruct l1; discriminate. }
  destruct (_ && _ && _); [split; eauto|]. apply dbind_good; [now apply inputs_good|]. intros s _ I. pose proof (iv_ld _ _ _ I) as LD. destruct (d_ld s) as [|p l] eqn:L; [exact I|].
  apply run_sub_good; auto. intros t T. cbn [reads] in T. apply in_flat_map in T as (x & X & Y). rewrite Forall_forall in LD. specialize (LD x X). destruct x; [destruct Y|]. destruct Y as [<-|[]]. exact LD.
Qed.

Lemma driver_cases w o : exists f s st, driver w o = (d_ev s ++ cleanup s, Some st) /\ inv w f s /\ (st = 0 /\ f = false \/ st = 1).
Proof.
  unfold driver. pose proof (drive_good w o) as G. destruct (drive w o) as [s|n s|s]; cbn in G; [exists false, s, 0; auto|destruct G as (-> & f & I); exists f, s, 1; auto|destruct G].
Qed.
Lemma temps_none live : temps (map EvUnlink live) live = [].
Proof.
  assert (G: forall l live, (forall x, In x live -> In x l) -> temps (map EvUnlink l) live = []).
  { induction l as [|n l IH]; intros lv H; cbn [map temps]; [destruct lv as [|x lv]; auto; destruct (H x (or_introl eq_refl))|]. apply IH. intros x X. apply filter_In in X as [X Y]. destruct (H x X) as [->|]; auto. rewrite Nat.eqb_refl in Y. discriminate. }
  apply G. auto.
Qed.
Lemma cleanup_procs s : procs (cleanup s) = [].
Proof. unfold cleanup. generalize (seq 0 (d_tmp s)). induction l; auto. Qed.

(** *** What is linked *)
Lemma strtok_inputs_good : forall w o l s s', do_inputs w o l s = DGo s' -> forall x, In x (d_ev s) -> In x (d_ev s').
Proof.
  assert (RS: forall w e s s', run_sub w e s = DGo s' -> forall x, In x (d_ev s) -> In x (d_ev s')) by (intros w e s s' H; now destruct (run_sub_ev _ _ _ _ H) as (_ & M & _)).
  assert (CT: forall w s t s', create_tmp w s = Some (t, s') -> forall x, In x (d_ev s) -> In x (d_ev s')) by (intros w s t s' H x X; unfold create_tmp in H; destruct (mk_ok w (d_tmp s)); [|discriminate]; assert (s' = Dst (d_ev s ++ [EvTemp (d_tmp s)]) (d_proc s) (S (d_tmp s)) (d_ld s)) as -> by congruence; cbn; apply in_or_app; auto).
  assert (ST: forall w o i s s', do_input w o i s = DGo s' -> forall x, In x (d_ev s) -> In x (d_ev s')).
  { intros w o i s s' H x X. unfold do_input in H. 
    assert (GO: forall a, DGo a = DGo s' -> d_ev a = d_ev s -> In x (d_ev s')) by (intros a Q E; assert (a = s') by congruence; subst; now rewrite E).
    destruct (is_prefix (bs "-l") i); [now apply (GO _ H)|]. destruct (is_prefix (bs "-Wl,") i); [now apply (GO _ H)|]. destruct (get_file_type (o_x o) i) as [[]|]; try discriminate H; try (now apply (GO _ H)).
    - destruct (o_E o || o_M o); [eapply RS; eauto|]. destruct (o_S o); [eapply RS; eauto|]. destruct (o_c o).
      + destruct (create_tmp w s) as [[t s1]|] eqn:C1; [|discriminate]. destruct (run_sub w (EvCc1 i (Some t)) s1) as [s2|? ?|?] eqn:R; try discriminate H. cbn in H. eauto.
      + destruct (create_tmp w s) as [[t s1]|] eqn:C1; [|discriminate]. destruct (create_tmp w s1) as [[t2 s2]|] eqn:C2; [|discriminate].
        destruct (run_sub w (EvCc1 i (Some t)) s2) as [s3|? ?|?] eqn:R; try discriminate H. cbn in H. destruct (run_sub w (EvAs t t2) s3) as [s4|? ?|?] eqn:R4; try discriminate H. cbn in H. assert (push_ld [t2] s4 = s') by congruence. subst. cbn. eauto.
    - destruct (o_S o); [now apply (GO _ H)|]. eauto. }
  induction l as [|i l IH]; intros s s' H x X; cbn [do_inputs] in H; [congruence|]. destruct (do_input w o i s) as [s1|? ?|?] eqn:D; try discriminate H. cbn in H. eauto.
Qed.
Lemma endswith_ends p q0 : endswith p q0 = true <-> ends q0 p.
Proof.
  unfold endswith, ends. rewrite is_prefix_spec. split.
  - intros (r & E). exists (rev r). rewrite <- (rev_involutive p), E, rev_app_distr. now rewrite rev_involutive.
  - intros (s & ->). exists (rev s). apply rev_app_distr.
Qed.
Lemma strtok_pieces s : forall cur, strtok cur s = match commas s with h :: t => flush (cur ++ h) ++ filter (fun p => negb (beq p [])) t | [] => [] end.
Proof.
  induction s as [|c s IH]; intros cur; cbn [strtok commas]; [rewrite app_nil_r, app_nil_r; destruct cur; reflexivity|]. destruct (c =? 44).
  - rewrite (IH []). rewrite app_nil_r. destruct (commas s) as [|h t] eqn:C; [destruct cur; reflexivity|]. cbn [filter app]. destruct cur as [|x cur]; destruct h; reflexivity.
  - rewrite IH. destruct (commas s) as [|h t] eqn:C; [destruct s as [|d s]; cbn in C; [discriminate|]; destruct (d =? 44); [discriminate|]; destruct (commas s); discriminate|]. now rewrite <- app_assoc.
Qed.
Lemma strtok_ok s : strtok [] s = pieces s.
Proof. rewrite strtok_pieces. unfold pieces. destruct (commas s) as [|h t]; [reflexivity|]. cbn [app filter]. destruct h; reflexivity. Qed.
Lemma link_mono o d1 d2 l ps : (forall x, In x d1 -> In x d2) -> link_list o d1 l ps -> link_list o d2 l ps.
Proof. intros M. induction 1; econstructor; eauto. Qed.
Lemma suffix_last f a b : (exists s, f = s ++ [46; a]) -> (exists s, f = s ++ [46; b]) -> a = b.
Proof. intros [s ->] [t E]. change [46; a] with ([46] ++ [a]) in E. change [46; b] with ([46] ++ [b]) in E. rewrite !app_assoc in E. now apply app_inj_tail in E as [_ E]. Qed.
Lemma get_c o f : c_source o f -> get_file_type (o_x o) f = Some FC.
Proof.
  intros [-> |[-> E]]; [reflexivity|]. unfold get_file_type.
  assert (N: forall q0, endswith f (bs q0) = true -> ends (bs q0) f) by (intros; now apply endswith_ends).
  destruct (endswith f (bs ".a")) eqn:E1; [apply endswith_ends in E1; pose proof (suffix_last f _ _ E E1); discriminate|].
  destruct (endswith f (bs ".so")) eqn:E2. { apply endswith_ends in E2. destruct E as [s ->]. destruct E2 as [t Q]. change (bs ".c") with ([46] ++ [99]) in Q. change (bs ".so") with ([46; 115] ++ [111]) in Q. rewrite !app_assoc in Q. apply app_inj_tail in Q as [_ Q]. discriminate. }
  destruct (endswith f (bs ".o")) eqn:E3; [apply endswith_ends in E3; pose proof (suffix_last f _ _ E E3); discriminate|].
  now replace (endswith f (bs ".c")) with true by (symmetry; now apply endswith_ends).
Qed.
Lemma get_obj o f : object_file o f -> exists t, get_file_type (o_x o) f = Some t /\ (t = FObj \/ t = FAr \/ t = FDso).
Proof.
  intros [-> E]. unfold get_file_type. destruct (endswith f (bs ".a")) eqn:E1; [eauto|]. destruct (endswith f (bs ".so")) eqn:E2; [eauto|]. destruct (endswith f (bs ".o")) eqn:E3; [eauto|].
  exfalso. destruct E as [E|[E|E]]; apply endswith_ends in E; congruence.
Qed.
Lemma run_sub_evs w e s s' : run_sub w e s = DGo s' -> d_ev s' = d_ev s ++ [e] /\ d_ld s' = d_ld s.
Proof. unfold run_sub. destruct (proc_ok w (d_proc s)); [|discriminate]. intros H. assert (s' = Dst (d_ev s ++ [e]) (S (d_proc s)) (d_tmp s) (d_ld s)) as -> by congruence. auto. Qed.
Definition no_link (l : list event) : Prop := forall a b, ~ In (EvLd a b) l.
Lemma link_input w o i s s' : o_c o = false -> o_S o = false -> o_E o = false -> o_M o = false -> linkable o i -> do_input w o i s = DGo s' ->
  exists ps, d_ld s' = d_ld s ++ ps /\ (forall l qs done, (forall x, In x (d_ev s') -> In x done) -> link_list o done l qs -> link_list o done (i :: l) (ps ++ qs)) /\ (no_link (d_ev s) -> no_link (d_ev s')).
Proof.
  intros C1 C2 C3 C4 L H. unfold do_input in H.
  destruct (is_prefix (bs "-l") i) eqn:P1.
  { assert (s' = push_ld [User i] s) by congruence. subst. exists [User i]. split; [reflexivity|]. split; [|auto]. intros l qs done _ K. apply is_prefix_spec in P1 as [r ->]. now constructor. }
  destruct (is_prefix (bs "-Wl,") i) eqn:P2.
  { assert (s' = push_ld (map User (strtok [] (skipn 4 i))) s) by congruence. subst. eexists. split; [reflexivity|]. split; [|auto]. intros l qs done _ K. apply is_prefix_spec in P2 as [r ->]. change (skipn 4 (bs "-Wl," ++ r)) with r. rewrite strtok_ok. now constructor. }
  destruct L as [L|[L|(HD & [L|L])]]; try congruence.
  - rewrite (get_c _ _ L) in H. rewrite C1, C2, C3, C4 in H. cbn [orb] in H. destruct (create_tmp w s) as [[t s1]|] eqn:T1; [|discriminate]. destruct (create_tmp w s1) as [[t2 s2]|] eqn:T2; [|discriminate].
    destruct (run_sub w (EvCc1 i (Some t)) s2) as [s3|? ?|?] eqn:R; try discriminate H. cbn in H. destruct (run_sub w (EvAs t t2) s3) as [s4|? ?|?] eqn:R4; try discriminate H. cbn in H. assert (push_ld [t2] s4 = s') by congruence. subst.
    unfold create_tmp in T1, T2. destruct (mk_ok w (d_tmp s)); [|discriminate]. assert (t = Temp (d_tmp s) /\ s1 = Dst (d_ev s ++ [EvTemp (d_tmp s)]) (d_proc s) (S (d_tmp s)) (d_ld s)) as [-> ->] by (split; congruence). cbn [d_tmp d_ev d_proc d_ld] in T2. destruct (mk_ok w (S (d_tmp s))); [|discriminate].
    set (s2' := Dst _ _ _ _) in T2. assert (t2 = Temp (S (d_tmp s)) /\ s2 = s2') as [-> ->] by (split; congruence). apply run_sub_evs in R as [R1 R2]. apply run_sub_evs in R4 as [R3 R4]. cbn [d_ev d_ld s2'] in R1, R2.
    exists [Temp (S (d_tmp s))]. cbn [push_ld d_ld d_ev]. split; [now rewrite R4, R2|]. split.
    + intros l qs done M K. cbn [app]. apply link_c with (u := d_tmp s); auto; apply M; rewrite R3, ?R1; repeat (apply in_or_app; (right; now left) || left).
    + intros N a b I. rewrite R3, R1 in I. repeat (apply in_app_or in I as [I|[I|[]]]; [|discriminate I]). exact (N a b I).
  - destruct (get_obj _ _ L) as (t & G & T). rewrite G in H. assert (s' = push_ld [User i] s) by (destruct T as [-> |[-> | ->]]; congruence). subst. exists [User i]. split; [reflexivity|]. split; [|auto]. intros l qs done _ K. now constructor.
Qed.
Lemma link_inputs w o l : o_c o = false -> o_S o = false -> o_E o = false -> o_M o = false -> Forall (linkable o) l -> forall s s', do_inputs w o l s = DGo s' ->
  exists ps, d_ld s' = d_ld s ++ ps /\ link_list o (d_ev s') l ps /\ (no_link (d_ev s) -> no_link (d_ev s')).
Proof.
  intros C1 C2 C3 C4 L. induction L as [|i l L _ IH]; intros s s' H; cbn [do_inputs] in H; [assert (s' = s) by congruence; subst; exists []; rewrite app_nil_r; split; [auto|split; [constructor|auto]]|].
  destruct (do_input w o i s) as [s1|? ?|?] eqn:D; try discriminate H. cbn in H. destruct (link_input _ _ _ _ _ C1 C2 C3 C4 L D) as (p1 & A1 & A2 & A3). destruct (IH _ _ H) as (p2 & B1 & B2 & B3).
  exists (p1 ++ p2). split; [now rewrite B1, A1, app_assoc|]. split; [|auto]. apply A2; auto. eapply strtok_inputs_good; eauto.
Qed.
Lemma link_drive w o s : o_c o = false -> o_S o = false -> o_E o = false -> o_M o = false -> Forall (linkable o) (o_inputs o) -> drive w o = DGo s ->
  exists body ps, link_list o body (o_inputs o) ps /\ no_link body /\ d_ev s = body ++ (match ps with [] => [] | _ => [EvLd ps (match o_o o with Some p => p | None => bs "a.out" end)] end).
Proof.
  intros C1 C2 C3 C4 L H. unfold drive in H. rewrite C1, C2, C3 in H. cbn [orb] in H. rewrite andb_false_r in H. destruct (do_inputs w o (o_inputs o) (Dst [] 0 0 [])) as [s1|? ?|?] eqn:D; try discriminate H. cbn [dbind] in H.
  destruct (link_inputs _ _ _ C1 C2 C3 C4 L _ _ D) as (ps & A1 & A2 & A3). cbn [d_ld app] in A1. exists (d_ev s1), ps. split; [exact A2|]. split; [apply A3; intros a b []|]. rewrite A1 in H. destruct ps as [|p ps]; [assert (s = s1) by congruence; subst; now rewrite app_nil_r|].
  apply run_sub_evs in H as [H _]. exact H.
Qed.
Lemma join_app a b : (forall c, In c a -> c <> 10) -> hd 0 b <> 10 -> join_lines (a ++ b) = a ++ join_lines b.
Proof.
  intros N B. induction a as [|c a IH]; [reflexivity|]. cbn [app]. rewrite <- IH by (intros; apply N; now right). assert (H: hd 0 (a ++ b) <> 10) by (destruct a as [|d a]; [exact B|cbn; apply N; right; now left]). clear IH N. generalize dependent (a ++ b). intros l H.
  cbn [join_lines]. destruct c as [|p|p]; try reflexivity. do 7 (destruct p as [p|p|]; try reflexivity). destruct l as [|d l]; [reflexivity|]. cbn [hd] in H. destruct d as [|p|p]; try reflexivity. do 4 (destruct p as [p|p|]; try reflexivity). lia.
Qed.
Lemma q_newline s : forall k, (forall c, In c s -> c <> 10) -> forall c, In c (q k s) -> c <> 10.
Proof.
  induction s as [|d s IH]; intros k N c I; [destruct I|]. cbn [q] in I. apply in_app_or in I as [I|I]; [|eapply IH; eauto; intros; apply N; now right]. assert (D: d <> 10) by (apply N; now left). unfold esc in I.
  destruct (d =? 36); [cbn in I; lia|]. destruct (d =? 35); [cbn in I; lia|]. destruct (blank d); [apply in_app_or in I as [I|I]; [apply repeat_spec in I; lia|cbn in I; lia]|cbn in I; lia].
Qed.
Lemma nameable_newline s : forall p, nameable p s = true -> forall c, In c s -> c <> 10.
Proof. induction s as [|d s IH]; intros p H c I; [destruct I|]. cbn [nameable] in H. apply andb_true_iff in H as [H1 H2]. destruct I as [<-|I]; [lia|]. eapply IH; eauto. Qed.
