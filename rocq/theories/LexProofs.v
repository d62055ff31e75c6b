From Verif Require Import Base UnicodeModel UnicodeSpec UnicodeProofs TextModel LexModel LexSpec.
From Coq Require Import ZifyBool ZifyNat Arith.
Ltac Zify.zify_post_hook ::= Z.div_mod_to_equations.
Local Notation length := List.length.
Local Arguments Nat.sub : simpl never.

Lemma source_cons c s : source (c :: s) -> is_byte c /\ c <> 0 /\ source s.
Proof. intro H. split; [|split]; try (apply H; left; reflexivity). intros b Hb. apply H. right. exact Hb. Qed.

Lemma source_skipn n s : source s -> source (skipn n s).
Proof.
  intros H b Hb. apply H. rewrite <- (firstn_skipn n s). apply in_or_app. right. exact Hb.
Qed.

Lemma lbind_ok {A B} (x : lres A) (f : A -> lres B) b : lbind x f = LOk b -> exists a, x = LOk a /\ f a = LOk b.
Proof. destruct x; simpl; try discriminate. eauto. Qed.

Lemma skipn_decode_length p c k : source p -> p <> [] -> decode_utf8 p = Some (c, k) -> (1 <= k <= length p)%nat.
Proof. intros Hs Hp H. destruct (decode_in_bounds p c k Hs Hp H). lia. Qed.

(** Identifiers *)
Lemma ident2_nul : is_ident2 0 = false.
Proof. reflexivity. Qed.

Lemma ident_loop_spec : forall fuel p n m, source p -> ident_loop fuel p n = LOk m ->
  (n <= m <= n + length p)%nat /\ ident_run p (m - n).
Proof.
  induction fuel as [|fuel IH]; intros p n m Hs H; [discriminate|].
  cbn [ident_loop] in H. destruct (decode_utf8 p) as [[c k]|] eqn:Ed; [|discriminate].
  destruct (is_ident2 c) eqn:Ei.
  - destruct p as [|x p].
    { unfold decode_utf8 in Ed. simpl in Ed. injection Ed as <- <-. discriminate Ei. }
    assert (Hk : (1 <= k <= length (x :: p))%nat) by (eapply skipn_decode_length; eauto; discriminate).
    destruct (IH (skipn k (x :: p)) (n + k)%nat m (source_skipn _ _ Hs) H) as [H1 H2].
    rewrite skipn_length in H1. split; [lia|].
    replace (m - n)%nat with (k + (m - (n + k)))%nat by lia. eapply run_more; eauto.
  - injection H as <-. split; [lia|]. rewrite Nat.sub_diag. eapply run_stop; eauto.
Qed.

Lemma ident_loop_total : forall fuel p n, source p -> (length p < fuel)%nat ->
  ident_loop fuel p n <> LFuel /\ ident_loop fuel p n <> LOOB.
Proof.
  induction fuel as [|fuel IH]; intros p n Hs Hf; [lia|].
  cbn [ident_loop]. destruct (decode_utf8 p) as [[c k]|] eqn:Ed; [|split; discriminate].
  destruct (is_ident2 c) eqn:Ei; [|split; discriminate].
  destruct p as [|x p].
  { unfold decode_utf8 in Ed. simpl in Ed. injection Ed as <- <-. discriminate Ei. }
  assert (Hk : (1 <= k <= length (x :: p))%nat) by (eapply skipn_decode_length; eauto; discriminate).
  apply IH; [apply source_skipn; exact Hs|]. rewrite skipn_length. lia.
Qed.

Lemma read_ident_spec p n : source p -> read_ident p = LOk n -> (0 < n)%nat ->
  (n <= length p)%nat /\ ident_at p n.
Proof.
  unfold read_ident. intros Hs H Hn. destruct (decode_utf8 p) as [[c k]|] eqn:Ed; [|discriminate].
  destruct (is_ident1 c) eqn:Ei.
  2:{ injection H as <-. lia. }
  destruct p as [|x p].
  { unfold decode_utf8 in Ed. simpl in Ed. injection Ed as <- <-. discriminate Ei. }
  assert (Hk : (1 <= k <= length (x :: p))%nat) by (eapply skipn_decode_length; eauto; discriminate).
  destruct (ident_loop_spec _ _ _ _ (source_skipn k _ Hs) H) as [H1 H2]. rewrite skipn_length in H1.
  split; [lia|]. exists c, k, (n - k)%nat. repeat split; auto. lia.
Qed.

Lemma read_ident_total p : source p -> read_ident p <> LFuel /\ read_ident p <> LOOB.
Proof.
  unfold read_ident. intros Hs. destruct (decode_utf8 p) as [[c k]|] eqn:Ed; [|split; discriminate].
  destruct (is_ident1 c) eqn:Ei; [|split; discriminate].
  apply ident_loop_total; [apply source_skipn; exact Hs|]. rewrite skipn_length. lia.
Qed.

(** Punctuators *)
Lemma is_prefix_length q p : is_prefix q p = true -> (length q <= length p)%nat.
Proof. rewrite is_prefix_spec. intros [r ->]. rewrite app_length. lia. Qed.

Lemma find_first {A} (f : A -> bool) l x : find f l = Some x -> In x l /\ f x = true.
Proof. apply find_some. Qed.

Lemma read_punct_bound p : (read_punct p <= length p)%nat.
Proof.
  unfold read_punct. destruct (find (startwith p) kw) as [k|] eqn:E.
  - apply find_some in E as [_ E]. apply is_prefix_length. exact E.
  - destruct p; simpl; [auto|]. destruct (ispunct _); lia.
Qed.

Lemma is_prefix_firstn q p : is_prefix q p = true -> firstn (length q) p = q.
Proof. rewrite is_prefix_spec. intros [r ->]. rewrite firstn_app, Nat.sub_diag, firstn_all. simpl. apply app_nil_r. Qed.

Lemma kw_in_punctuators k : In k kw -> In k punctuators.
Proof.
  assert (H : forallb (fun k => existsb (beq k) punctuators) kw = true) by (vm_compute; reflexivity).
  intro Hk. rewrite forallb_forall in H. apply H in Hk. apply existsb_exists in Hk as [x [Hx E]].
  apply beq_eq in E. subst. exact Hx.
Qed.

(* Every punctuator longer than one character is in the table. *)
Lemma punctuators_in_kw q : In q punctuators -> (1 < length q)%nat -> In q kw.
Proof.
  assert (H : forallb (fun q => (length q <=? 1)%nat || existsb (beq q) kw) punctuators = true) by (vm_compute; reflexivity).
  intros Hq Hl. rewrite forallb_forall in H. apply H in Hq. apply orb_true_iff in Hq as [Hq|Hq]; [lia|].
  apply existsb_exists in Hq as [x [Hx E]]. apply beq_eq in E. subst. exact Hx.
Qed.

(* The table is sorted by decreasing length. *)
Fixpoint sorted_len (l : list bytes) : bool :=
  match l with
  | [] => true
  | x :: r => forallb (fun y => (length y <=? length x)%nat) r && sorted_len r
  end.

Lemma find_longest f l x : sorted_len l = true -> find f l = Some x ->
  forall y, In y l -> f y = true -> (length y <= length x)%nat.
Proof.
  induction l as [|a l IH]; simpl; intros Hs Hf y Hy Fy; [contradiction|].
  apply andb_true_iff in Hs as [H1 H2]. destruct (f a) eqn:Fa.
  - injection Hf as ->. destruct Hy as [->|Hy]; [lia|]. rewrite forallb_forall in H1. apply H1 in Hy. lia.
  - destruct Hy as [->|Hy]; [congruence|]. eapply IH; eauto.
Qed.

Lemma kw_long k : In k kw -> (2 <= length k)%nat.
Proof.
  assert (H : forallb (fun k => (2 <=? length k)%nat) kw = true) by (vm_compute; reflexivity).
  intro Hk. rewrite forallb_forall in H. apply H in Hk. lia.
Qed.

Lemma read_punct_spec p : (0 < read_punct p)%nat -> punct_at p (read_punct p).
Proof.
  unfold read_punct, punct_at. destruct (find (startwith p) kw) as [k|] eqn:E; intro Hn.
  - pose proof E as E'. apply find_some in E' as [Hin Hp]. split.
    + left. rewrite is_prefix_firstn by exact Hp. apply kw_in_punctuators. exact Hin.
    + intros q r' Hq Hpq'. assert (Hpq : is_prefix q p = true) by (apply is_prefix_spec; eauto). pose proof (kw_long k Hin). destruct (Nat.le_gt_cases (length q) 1); [lia|].
      eapply find_longest; eauto; [vm_compute; reflexivity|]. apply punctuators_in_kw; [exact Hq|lia].
  - destruct (ispunct (at_ p 0)) eqn:Ep; [|lia]. split; [right; auto|].
    intros q r' Hq Hpq'. assert (Hpq : is_prefix q p = true) by (apply is_prefix_spec; eauto). destruct (Nat.le_gt_cases (length q) 1); [lia|].
    exfalso. pose proof (find_none _ _ E q (punctuators_in_kw q Hq ltac:(lia))) as N.
    unfold startwith in N. congruence.
Qed.

(** String and character literals: lengths *)
Lemma string_literal_end_bound : forall k p n, (length p <= k)%nat -> string_literal_end p = LOk n ->
  (n < length p)%nat /\ nth_error p n = Some 34.
Proof.
  induction k as [|k IH]; intros p n Hk H.
  { destruct p; [discriminate|simpl in Hk; lia]. }
  destruct p as [|c r]; [discriminate|]. cbn [string_literal_end] in H.
  destruct (Z.eqb_spec c 34); [injection H as <-; subst; simpl; split; [lia|reflexivity]|].
  destruct (Z.eqb_spec c 10); [discriminate|].
  destruct (Z.eqb_spec c 92).
  - destruct r as [|d r]; [discriminate|]. apply lbind_ok in H as [m [Hm H]]. injection H as <-.
    apply IH in Hm as [H1 H2]; [|simpl in *; lia]. simpl. split; [lia|exact H2].
  - apply lbind_ok in H as [m [Hm H]]. injection H as <-.
    apply IH in Hm as [H1 H2]; [|simpl in *; lia]. simpl. split; [lia|exact H2].
Qed.

Lemma string_literal_end_total : forall k p, (length p <= k)%nat -> last p 0 <> 92 ->
  string_literal_end p <> LFuel /\ string_literal_end p <> LOOB.
Proof.
  induction k as [|k IH]; intros p Hk Hl.
  { destruct p; [split; discriminate|simpl in Hk; lia]. }
  destruct p as [|c r]; [split; discriminate|]. cbn [string_literal_end].
  destruct (Z.eqb_spec c 34); [split; discriminate|].
  destruct (Z.eqb_spec c 10); [split; discriminate|].
  destruct (Z.eqb_spec c 92).
  - destruct r as [|d r]; [simpl in Hl; lia|].
    destruct (IH r) as [H1 H2]; [simpl in *; lia|destruct r; [simpl; lia|exact Hl]|].
    destruct (string_literal_end r); simpl; split; congruence.
  - destruct (IH r) as [H1 H2]; [simpl in *; lia|destruct r; [simpl; lia|exact Hl]|].
    destruct (string_literal_end r); simpl; split; congruence.
Qed.

Lemma strchr_bound p c n : strchr p c = Some n -> (n < length p)%nat.
Proof.
  revert n. induction p as [|x p IH]; simpl; intros n H; [discriminate|].
  destruct (x =? c); [injection H as <-; lia|].
  destruct (strchr p c); simpl in H; [injection H as <-|discriminate]. specialize (IH n0 eq_refl). lia.
Qed.

Lemma oct_loop_suffix : forall n p c, exists k, snd (oct_loop n p c) = skipn k p /\ (k <= n)%nat /\ (k <= length p)%nat /\
  Forall (fun d => isodigit d = true) (firstn k p).
Proof.
  induction n as [|n IH]; intros p c.
  - exists 0%nat. simpl. repeat split; auto; lia.
  - destruct p as [|d r]; simpl.
    + exists 0%nat. simpl. repeat split; auto; lia.
    + destruct (isodigit d) eqn:E.
      * destruct (IH r (Z.shiftl c 3 + from_oct d)) as [k [H1 [H2 [H3 H4]]]].
        exists (S k). simpl. repeat split; auto; lia.
      * exists 0%nat. simpl. repeat split; auto; lia.
Qed.

Lemma hex_loop_suffix : forall p c, exists k, snd (hex_loop p c) = skipn k p /\ (k <= length p)%nat /\
  Forall (fun d => isxdigit d = true) (firstn k p).
Proof.
  induction p as [|d r IH]; intro c; simpl.
  - exists 0%nat. simpl. repeat split; auto.
  - destruct (isxdigit d) eqn:E.
    + destruct (IH (int32 (Z.shiftl c 4 + from_hex d))) as [k [H1 [H2 H3]]]. exists (S k). simpl. repeat split; auto; lia.
    + exists 0%nat. simpl. repeat split; auto; lia.
Qed.

(* An escape consumes at least one byte, and after the first one only digits. *)
Lemma read_escaped_suffix p v r : read_escaped_char p = LOk (v, r) ->
  exists c q k, p = c :: q /\ r = skipn k q /\ (k <= length q)%nat /\ Forall (fun d => isxdigit d = true) (firstn k q).
Proof.
  unfold read_escaped_char. destruct p as [|c q]; [discriminate|]. intro H. exists c, q.
  destruct (isodigit c) eqn:Eo.
  - assert (H' : oct_loop 3 (c :: q) 0 = (v, r)) by congruence. clear H. rename H' into H.
    destruct (oct_loop_suffix 3 (c :: q) 0) as [k [H1 [H2 [H3 H4]]]]. rewrite H in H1. simpl snd in H1.
    destruct k as [|k].
    + (* at least one digit is read *)
      assert (H' : oct_loop 2 q (Z.shiftl 0 3 + from_oct c) = (v, r)).
      { rewrite <- H. simpl. rewrite Eo. reflexivity. }
      clear H. rename H' into H.
      destruct (oct_loop_suffix 2 q (Z.shiftl 0 3 + from_oct c)) as [k' [G1 _]]. rewrite H in G1. simpl in G1, H1.
      rewrite H1 in G1. apply (f_equal (@length Z)) in G1. rewrite skipn_length in G1. simpl in G1. lia.
    + exists k. simpl in *. repeat split; auto; [lia|].
      inversion H4 as [|x y Hx Hy]; subst. eapply Forall_impl; [|exact Hy].
      intros a Ha. unfold isodigit in Ha. unfold isxdigit. lia.
  - destruct (c =? 120).
    + destruct (isxdigit (at_ q 0)); [|discriminate].
      assert (H' : hex_loop q 0 = (v, r)) by congruence. clear H. rename H' into H.
      destruct (hex_loop_suffix q 0) as [k [H1 [H2 H3]]]. rewrite H in H1. exists k. repeat split; auto.
    + injection H as _ <-. exists 0%nat. simpl. repeat split; auto. lia.
Qed.

Lemma read_escaped_total p : p <> [] -> read_escaped_char p <> LOOB /\ read_escaped_char p <> LFuel.
Proof.
  destruct p as [|c q]; [congruence|]. intros _. unfold read_escaped_char.
  destruct (isodigit c); [split; discriminate|]. destruct (c =? 120); [destruct (isxdigit _)|]; split; discriminate.
Qed.

Lemma read_char_literal_bound p v n : source p -> read_char_literal p = LOk (v, n) -> (n < length p)%nat.
Proof.
  unfold read_char_literal. destruct p as [|c r]; [discriminate|]. intros Hs H.
  apply lbind_ok in H as [[v' r'] [H1 H2]]. simpl snd in H2. simpl fst in H2.
  destruct (strchr r' 39) as [m|] eqn:Em; [|discriminate].
  assert (En : n = (length (c :: r) - length r' + m)%nat) by congruence. subst n.
  apply strchr_bound in Em.
  assert (length r' < length (c :: r))%nat; [|lia].
  destruct (c =? 92).
  - apply read_escaped_suffix in H1 as [c' [q [k [-> [-> [Hk _]]]]]]. rewrite skipn_length. simpl. lia.
  - destruct (decode_utf8 (c :: r)) as [[c' k]|] eqn:Ed; [|discriminate].
    assert (Er : r' = skipn k (c :: r)) by congruence. subst r'.
    pose proof (skipn_decode_length _ _ _ Hs ltac:(discriminate) Ed). rewrite skipn_length. lia.
Qed.

Lemma read_char_literal_total p : last p 0 <> 92 -> read_char_literal p <> LOOB /\ read_char_literal p <> LFuel.
Proof.
  unfold read_char_literal. destruct p as [|c r]; [split; discriminate|]. intro Hl.
  destruct (Z.eqb_spec c 92) as [->|].
  - destruct r as [|d r]; [simpl in Hl; lia|].
    destruct (read_escaped_total (d :: r) ltac:(discriminate)) as [H1 H2].
    destruct (read_escaped_char (d :: r)) as [[v q]| | |]; simpl; try (split; congruence).
    destruct (strchr q 39); split; discriminate.
  - destruct (decode_utf8 (c :: r)) as [[c' k]|]; simpl; [|split; discriminate].
    destruct (strchr _ 39); split; discriminate.
Qed.

Lemma ppnum_bound : forall fuel p, (ppnum_loop fuel p <= length p)%nat.
Proof.
  induction fuel as [|fuel IH]; intro p; [simpl; lia|]. cbn [ppnum_loop].
  destruct p as [|c r]; [simpl; lia|].
  destruct (_ && _ && _) eqn:E.
  - destruct r as [|d r]; [simpl in E; discriminate|]. cbn [skipn]. specialize (IH r). simpl. lia.
  - destruct (_ || _); [specialize (IH r); simpl; lia|simpl; lia].
Qed.

Lemma ppnum_run : forall fuel p, source p -> (length p < fuel)%nat -> pp_run p (ppnum_loop fuel p).
Proof.
  induction fuel as [|fuel IH]; intros p Hs Hf; [lia|]. cbn [ppnum_loop].
  destruct p as [|c r]; [constructor|]. apply source_cons in Hs as [Hb [H0 Hs]].
  destruct (_ && _ && _) eqn:E.
  - apply andb_true_iff in E as [E1 E3]. apply andb_true_iff in E1 as [E1 E2].
    destruct r as [|d r]; [simpl in E1; discriminate|]. cbn [skipn]. change (at_ (d :: r) 0) with d in *.
    apply pp_sign.
    + unfold exponent_mark. simpl in E2. lia.
    + unfold sign_char. simpl in E3. lia.
    + apply source_cons in Hs as [_ [_ Hs]]. apply IH; [exact Hs|simpl in Hf; lia].
  - destruct (isalnum c || (c =? 46)) eqn:E2.
    + apply pp_char; [apply orb_true_iff in E2 as [E2|E2]; [left; exact E2|right; lia]| |apply IH; [exact Hs|simpl in Hf; lia]].
      intros [He [s [r' [-> Hsg]]]]. change (at_ (s :: r') 0) with s in E.
      apply source_cons in Hs as [_ [Hs0 _]].
      unfold exponent_mark, sign_char in *. simpl in E. lia.
    + apply pp_stop; [destruct (isalnum c); [discriminate|reflexivity]|lia].
Qed.

Lemma skip_line_comment_spec : forall p n, skip_line_comment p = LOk n ->
  exists r, p = firstn n p ++ 10 :: r /\ ~ In 10 (firstn n p) /\ (n < length p)%nat /\ skipn n p = 10 :: r.
Proof.
  induction p as [|c p IH]; intros n H; [discriminate|]. cbn [skip_line_comment] in H.
  destruct (Z.eqb_spec c 10) as [->|Hc].
  - injection H as <-. exists p. simpl. repeat split; auto; lia.
  - apply lbind_ok in H as [m [Hm H]]. injection H as <-. apply IH in Hm as [r [H1 [H2 [H3 H4]]]].
    exists r. simpl. rewrite <- H1. repeat split; auto; [intros [?|?]; [congruence|contradiction]|lia].
Qed.

Lemma skip_line_comment_total p : In 10 p -> exists n, skip_line_comment p = LOk n.
Proof.
  induction p as [|c p IH]; simpl; [contradiction|]. intro H.
  destruct (Z.eqb_spec c 10); [eauto|]. destruct H as [H|H]; [congruence|].
  destruct (IH H) as [n0 ->]. simpl. eauto.
Qed.

Lemma find_comment_end_spec : forall p n, find_comment_end p = Some n ->
  exists r, p = firstn n p ++ [42; 47] ++ r /\ (n + 2 <= length p)%nat /\ skipn (n + 2) p = r /\
    forall a b, firstn n p ++ [42] <> a ++ [42; 47] ++ b.
Proof.
  induction p as [|c p IH]; intros n H; [discriminate|]. cbn [find_comment_end] in H.
  destruct (startwith (c :: p) [42; 47]) eqn:E.
  - injection H as <-. apply is_prefix_spec in E as [r E]. exists r. rewrite E. simpl.
    repeat split; auto; try lia. intros a b F. destruct a as [|x [|y a]]; simpl in F; try discriminate.
  - destruct (find_comment_end p) as [m|] eqn:Em; [|discriminate]. injection H as <-.
    destruct (IH m eq_refl) as [r [H1 [H2 [H3 H4]]]]. exists r. simpl.
    split; [f_equal; exact H1|]. split; [lia|]. split; [exact H3|].
    intros a b F. destruct a as [|x a].
    + simpl in F. injection F as -> F.
      unfold startwith in E. simpl in E. destruct p as [|d p]; [simpl in H2; lia|].
      destruct m as [|m]; simpl in F; [discriminate F|]. injection F as -> F. simpl in E. discriminate.
    + simpl in F. injection F as -> F. eapply H4. exact F.
Qed.

(** Gaps *)
Lemma gap_ok_snoc g b rest : gap_ok g (blank_bytes b ++ rest) -> blank_ok b rest -> gap_ok (g ++ [b]) rest.
Proof.
  induction g as [|x g IH]; simpl; intros H Hb.
  - auto.
  - destruct H as [H1 H2]. split; [|apply IH; auto].
    unfold gap_bytes in *. rewrite flat_map_app. simpl. rewrite app_nil_r, <- app_assoc. exact H1.
Qed.

Lemma gap_bytes_snoc g b : gap_bytes (g ++ [b]) = gap_bytes g ++ blank_bytes b.
Proof. unfold gap_bytes. rewrite flat_map_app. simpl. rewrite app_nil_r. reflexivity. Qed.

Lemma last_line_snoc g b : is_newline b = false -> last_line (g ++ [b]) = last_line g ++ [b].
Proof.
  intro Hb. induction g as [|x g IH]; simpl.
  - rewrite Hb. reflexivity.
  - rewrite existsb_app. simpl. rewrite Hb. rewrite !orb_false_r.
    destruct (existsb is_newline g) eqn:E; [exact IH|]. destruct (is_newline x); reflexivity.
Qed.

Lemma last_line_newline g : last_line (g ++ [Newline]) = [].
Proof.
  induction g as [|x g IH]; simpl; [reflexivity|].
  rewrite existsb_app. simpl. rewrite orb_true_r. exact IH.
Qed.

Lemma nonempty_snoc {A} (l : list A) x : nonempty (l ++ [x]) = true.
Proof. destruct l; reflexivity. Qed.

Lemma prefix2 a b p : startwith p [a; b] = true -> p = [a; b] ++ skipn 2 p.
Proof. intro H. apply is_prefix_spec in H as [r ->]. reflexivity. Qed.

Lemma prefix3 a b c p : startwith p [a; b; c] = true -> p = [a; b; c] ++ skipn 3 p.
Proof. intro H. apply is_prefix_spec in H as [r ->]. reflexivity. Qed.

(* What one iteration of the loop does. *)
Inductive step_result : bytes -> nat -> bool -> bool -> lres (list token) -> nat -> Prop :=
  | st_eof pos bol sp f : step_result [] pos bol sp (LOk [Tok TK_EOF pos 0 bol sp 0 0 0 []]) f
  | st_blank p pos bol sp f b rest bol' sp' :
      p = blank_bytes b ++ rest -> blank_ok b rest ->
      bol' = (bol || is_newline b)%bool -> sp' = negb (is_newline b) ->
      step_result p pos bol sp (tokenize_loop f rest (pos + length (blank_bytes b)) bol' sp') f
  | st_tok p pos bol sp f n t :
      (0 < n <= length p)%nat -> loc t = pos -> tlen t = n -> at_bol t = bol -> has_space t = sp ->
      kind t <> TK_EOF -> class_ok p t ->
      step_result p pos bol sp
        (lbind (tokenize_loop f (skipn n p) (pos + n) false false) (fun ts => LOk (t :: ts))) f
  | st_bad p pos bol sp f r : p <> [] -> (forall ts, r <> LOk ts) ->
      (last p 0 = 10 -> r = LErr) -> step_result p pos bol sp r f.

Lemma isspace_not_special c : isspace c = true -> c <> 10 -> c = 32 \/ 9 <= c <= 13.
Proof. unfold isspace. lia. Qed.

Lemma last_skipn {A} (d : A) n p : (n < length p)%nat -> last (skipn n p) d = last p d.
Proof.
  revert p. induction n as [|n IH]; intros p H; [reflexivity|].
  destruct p as [|x p]; [simpl in H; lia|]. simpl skipn. rewrite IH by (simpl in H; lia).
  destruct p; [simpl in H; lia|reflexivity].
Qed.

Lemma last_in {A} (d : A) p : p <> [] -> In (last p d) p.
Proof. induction p as [|x p IH]; [congruence|]. intros _. destruct p; [left; reflexivity|right; apply IH; discriminate]. Qed.

Definition ordinary (c : Z) : Prop := c <> 34 /\ c <> 10 /\ c <> 92.

Lemma sle_skip : forall k p n, Forall ordinary (firstn k p) -> (k <= length p)%nat ->
  string_literal_end p = LOk n -> (k <= n)%nat /\ string_literal_end (skipn k p) = LOk (n - k)%nat.
Proof.
  induction k as [|k IH]; intros p n Hf Hk H.
  - simpl. rewrite Nat.sub_0_r. split; [lia|exact H].
  - destruct p as [|c r]; [simpl in Hk; lia|]. simpl in Hf. inversion Hf as [|x y [A [B C]] Hy]; subst.
    cbn [string_literal_end] in H.
    destruct (Z.eqb_spec c 34); [contradiction|]. destruct (Z.eqb_spec c 10); [contradiction|].
    destruct (Z.eqb_spec c 92); [contradiction|].
    apply lbind_ok in H as [m [Hm H]]. injection H as <-. simpl in Hk.
    destruct (IH r m Hy ltac:(lia) Hm) as [I1 I2]. simpl. split; [lia|exact I2].
Qed.

Lemma xdigit_ordinary k q : Forall (fun d => isxdigit d = true) (firstn k q) -> Forall ordinary (firstn k q).
Proof. apply Forall_impl. intros a. unfold isxdigit, ordinary. lia. Qed.

Lemma decode_ordinary c r cp k : source (c :: r) -> ordinary c -> decode_utf8 (c :: r) = Some (cp, k) ->
  (1 <= k <= length (c :: r))%nat /\ Forall ordinary (firstn k (c :: r)).
Proof.
  intros Hs Hc Hd. destruct (decode_in_bounds _ _ _ Hs ltac:(discriminate) Hd) as [H1 [H2 _]].
  split; [exact H1|]. apply Forall_forall. intros x Hx.
  apply In_nth with (d := 0) in Hx as [j [Hj Hx]]. rewrite firstn_length in Hj.
  assert (E : nth j (c :: r) 0 = x).
  { rewrite <- Hx. rewrite <- (firstn_skipn k (c :: r)) at 1. apply app_nth1. rewrite firstn_length. lia. }
  destruct j as [|j]; [change (nth 0 (c :: r) 0) with c in E; rewrite <- E; exact Hc|].
  assert (C : continuation (nth (S j) (c :: r) 0)) by (apply H2; lia).
  rewrite E in C. unfold continuation in C. unfold ordinary. lia.
Qed.

(* One round of the string loop stays in step with the search for the closing quote. *)
Lemma sle_round bits p rem : source p -> string_literal_end p = LOk (S rem) ->
  let x := match p with
           | 92 :: r => lbind (read_escaped_char r) (fun vr => LOk ([fst vr mod 2^bits], snd vr))
           | _ => store_plain bits p
           end in
  x <> LFuel /\ x <> LOOB /\
  forall es q, x = LOk (es, q) ->
    (1 <= length p - length q <= S rem)%nat /\ (length q <= length p)%nat /\ (exists k, q = skipn k p) /\
    string_literal_end q = LOk (S rem - (length p - length q))%nat.
Proof.
  intros Hs He. cbv zeta. destruct p as [|c r]; [discriminate|].
  assert (Hc34 : c <> 34 /\ c <> 10).
  { cbn [string_literal_end] in He. destruct (Z.eqb_spec c 34); [discriminate|]. destruct (Z.eqb_spec c 10); [discriminate|]. auto. }
  destruct (Z.eq_dec c 92) as [->|Hc].
  - assert (He' := He). cbn [string_literal_end] in He. simpl in He. destruct r as [|d r]; [discriminate|].
    apply lbind_ok in He as [m [Hm E]]. injection E as <-.
    destruct (read_escaped_total (d :: r) ltac:(discriminate)) as [T1 T2].
    destruct (read_escaped_char (d :: r)) as [[v q0]| | |] eqn:Er; simpl; try (split; [congruence|]; split; [congruence|]; intros; congruence).
    split; [congruence|]. split; [congruence|]. intros es q E. injection E as _ <-.
    apply read_escaped_suffix in Er as [c' [q' [k [E1 [-> [Hk Hf]]]]]]. injection E1 as <- <-.
    destruct (sle_skip k r m (xdigit_ordinary _ _ Hf) Hk Hm) as [S1 S2].
    rewrite skipn_length. cbn [List.length].
    split; [lia|]. split; [lia|]. split; [exists (S (S k)); reflexivity|].
    rewrite S2. f_equal. lia.
  - assert (Hx : match c :: r with 92 :: r0 => lbind (read_escaped_char r0) (fun vr => LOk ([fst vr mod 2^bits], snd vr))
                 | _ => store_plain bits (c :: r) end = store_plain bits (c :: r)).
    { destruct c as [|c|c]; try reflexivity. do 7 (destruct c as [c|c|]; try reflexivity). congruence. }
    rewrite Hx. clear Hx. unfold store_plain.
    destruct (bits =? 8).
    + split; [discriminate|]. split; [discriminate|]. intros es q E. injection E as _ <-.
      destruct (sle_skip 1 (c :: r) (S rem)) as [S1 S2]; auto; [simpl; constructor; [|constructor]; unfold ordinary; tauto|simpl; lia|].
      simpl skipn in *. cbn [List.length]. split; [lia|]. split; [lia|]. split; [exists 1%nat; reflexivity|].
      rewrite S2. f_equal. lia.
    + destruct (decode_utf8 (c :: r)) as [[cp k]|] eqn:Ed; [|split; [discriminate|split; [discriminate|intros; discriminate]]].
      destruct (decode_ordinary c r cp k Hs) as [D1 D2]; [unfold ordinary; tauto|exact Ed|].
      destruct (sle_skip k (c :: r) (S rem) D2 ltac:(lia) He) as [S1 S2].
      assert (G : forall q, q = skipn k (c :: r) ->
        (1 <= length (c :: r) - length q <= S rem)%nat /\ (length q <= length (c :: r))%nat /\ (exists k, q = skipn k (c :: r)) /\
        string_literal_end q = LOk (S rem - (length (c :: r) - length q))%nat).
      { intros q ->. rewrite skipn_length. split; [lia|]. split; [lia|]. split; [eauto|]. rewrite S2. f_equal. lia. }
      destruct (bits =? 16); [destruct (cp <? 0x10000)|];
      (split; [discriminate|]; split; [discriminate|]; intros es q E; apply G; congruence).
Qed.

Lemma string_loop_total bits : forall f p rem, source p -> string_literal_end p = LOk rem -> (rem < f)%nat ->
  string_loop f bits p rem <> LFuel /\ string_loop f bits p rem <> LOOB.
Proof.
  induction f as [|f IH]; intros p rem Hs He Hf; [lia|].
  cbn [string_loop]. destruct rem as [|rem]; [split; discriminate|].
  destruct (sle_round bits p rem Hs He) as [R1 [R2 R3]]. cbv zeta in *.
  destruct (match p with [] => _ | _ => _ end) as [[es q]| | |] eqn:Ex; simpl; try (split; congruence).
  destruct (R3 es q eq_refl) as [A [B [[k ->] D]]].
  destruct (IH (skipn k p) (S rem - (length p - length (skipn k p)))%nat (source_skipn _ _ Hs) D ltac:(lia)) as [I1 I2].
  destruct (string_loop f bits (skipn k p) _); simpl; split; congruence.
Qed.

Lemma read_string_bound bits p l n : read_string bits p = LOk (l, n) -> (n < length p)%nat.
Proof.
  unfold read_string. intro H. apply lbind_ok in H as [m [H1 H2]]. apply lbind_ok in H2 as [l' [H3 H4]].
  injection H4 as _ <-. eapply string_literal_end_bound; eauto.
Qed.

Lemma read_string_total bits p : source p -> last p 0 <> 92 -> read_string bits p <> LFuel /\ read_string bits p <> LOOB.
Proof.
  intros Hs Hl. unfold read_string. destruct (string_literal_end_total (length p) p (le_n _) Hl) as [T1 T2].
  destruct (string_literal_end p) as [n| | |] eqn:E; cbn [lbind]; try (split; congruence).
  destruct (string_loop_total bits (S n) p n Hs E ltac:(lia)) as [U1 U2].
  destruct (string_loop (S n) bits p n); cbn [lbind]; split; congruence.
Qed.

Lemma last_skipn_ne n p : last p 0 = 10 -> last (skipn n p) 0 <> 92.
Proof.
  intro H. destruct (Nat.lt_ge_cases n (length p)).
  - rewrite last_skipn by assumption. lia.
  - rewrite skipn_all2 by lia. simpl. lia.
Qed.

Lemma step_cases f p pos bol sp : source p -> step_result p pos bol sp (tokenize_loop (S f) p pos bol sp) f.
Proof.
  intro Hs. cbn [tokenize_loop].
  destruct p as [|c r]; [apply st_eof|].
  set (p := c :: r) in *.
  assert (Hstr : forall pre bits,
    step_result p pos bol sp
     (lbind (read_string bits (skipn (S pre) p)) (fun ln =>
        lbind (tokenize_loop f (skipn (S pre + snd ln + 1) p) (pos + (S pre + snd ln + 1)) false false)
              (fun ts => LOk (Tok TK_STR pos (S pre + snd ln + 1) bol sp 0 0 bits (fst ln) :: ts)))) f).
  { intros pre bits. destruct (read_string bits (skipn (S pre) p)) as [[l n]| | |] eqn:E.
    - cbn [lbind fst snd]. apply read_string_bound in E. rewrite skipn_length in E.
      apply st_tok; unfold class_ok; cbn [loc tlen at_bol has_space kind]; auto; try discriminate; lia.
    - apply st_bad; [discriminate|intros; discriminate|reflexivity].
    - apply st_bad; [discriminate|intros; discriminate|]. intro Hl.
      destruct (read_string_total bits (skipn (S pre) p) (source_skipn _ _ Hs) (last_skipn_ne _ _ Hl)). congruence.
    - apply st_bad; [discriminate|intros; discriminate|]. intro Hl.
      destruct (read_string_total bits (skipn (S pre) p) (source_skipn _ _ Hs) (last_skipn_ne _ _ Hl)). congruence. }
  assert (Hchr : forall pre bits conv,
    step_result p pos bol sp
     (lbind (read_char_literal (skipn (S pre) p)) (fun vn =>
        lbind (tokenize_loop f (skipn (S pre + snd vn + 1) p) (pos + (S pre + snd vn + 1)) false false)
              (fun ts => LOk (Tok TK_NUM pos (S pre + snd vn + 1) bol sp 0 (conv (fst vn)) bits [] :: ts)))) f).
  { intros pre bits conv. destruct (read_char_literal (skipn (S pre) p)) as [[v n]| | |] eqn:E.
    - cbn [lbind fst snd]. apply read_char_literal_bound in E; [|apply source_skipn; exact Hs]. rewrite skipn_length in E.
      apply st_tok; unfold class_ok; cbn [loc tlen at_bol has_space kind]; auto; try discriminate; lia.
    - apply st_bad; [discriminate|intros; discriminate|reflexivity].
    - apply st_bad; [discriminate|intros; discriminate|]. intro Hl.
      destruct (read_char_literal_total (skipn (S pre) p) (last_skipn_ne _ _ Hl)). congruence.
    - apply st_bad; [discriminate|intros; discriminate|]. intro Hl.
      destruct (read_char_literal_total (skipn (S pre) p) (last_skipn_ne _ _ Hl)). congruence. }
  destruct (startwith p [47; 47]) eqn:E1.
  { apply prefix2 in E1. destruct (skip_line_comment (skipn 2 p)) as [n| | |] eqn:E2; cbn [lbind].
    - destruct (skip_line_comment_spec _ _ E2) as [r' [S1 [S2 [S3 S4]]]].
      assert (Ep : p = blank_bytes (LineComment (firstn n (skipn 2 p))) ++ 10 :: r').
      { rewrite E1 at 1. cbn [blank_bytes]. rewrite <- app_assoc. rewrite <- S1. reflexivity. }
      assert (El : length (blank_bytes (LineComment (firstn n (skipn 2 p)))) = (2 + n)%nat).
      { cbn [blank_bytes app List.length]. rewrite firstn_length. lia. }
      assert (Er : skipn (2 + n) p = 10 :: r').
      { rewrite <- S4. rewrite E1 at 1. reflexivity. }
      rewrite Er, <- El. eapply st_blank; [exact Ep| |simpl; rewrite orb_false_r; reflexivity|reflexivity].
      simpl. split; [exact S2|eauto].
    - apply st_bad; [discriminate|intros; discriminate|reflexivity].
    - apply st_bad; [discriminate|intros; discriminate|]. intro Hl. exfalso.
      assert (Hin : In 10 (skipn 2 p)).
      { rewrite <- Hl. rewrite E1 at 1. destruct (skipn 2 p) as [|x y] eqn:Ey.
        - rewrite E1 in Hl. simpl in Hl. discriminate.
        - change ([47; 47] ++ x :: y) with ([47; 47] ++ (x :: y)).
          replace (last ([47; 47] ++ x :: y) 0) with (last (x :: y) 0) by reflexivity. apply last_in. discriminate. }
      apply skip_line_comment_total in Hin as [n Hn]. congruence.
    - apply st_bad; [discriminate|intros; discriminate|]. intro Hl. exfalso.
      assert (Hin : In 10 (skipn 2 p)).
      { rewrite <- Hl. rewrite E1 at 1. destruct (skipn 2 p) as [|x y] eqn:Ey.
        - rewrite E1 in Hl. simpl in Hl. discriminate.
        - replace (last ([47; 47] ++ x :: y) 0) with (last (x :: y) 0) by reflexivity. apply last_in. discriminate. }
      apply skip_line_comment_total in Hin as [n Hn]. congruence. }
  destruct (startwith p [47; 42]) eqn:E2.
  { apply prefix2 in E2. destruct (find_comment_end (skipn 2 p)) as [n|] eqn:E3.
    - destruct (find_comment_end_spec _ _ E3) as [r' [S1 [S2 [S3 S4]]]].
      assert (Ep : p = blank_bytes (BlockComment (firstn n (skipn 2 p))) ++ r').
      { rewrite E2 at 1. cbn [blank_bytes]. rewrite <- !app_assoc. f_equal. exact S1. }
      assert (El : length (blank_bytes (BlockComment (firstn n (skipn 2 p)))) = (2 + n + 2)%nat).
      { cbn [blank_bytes]. rewrite !app_length, firstn_length. cbn [List.length]. lia. }
      assert (Er : skipn (2 + n + 2) p = r').
      { rewrite <- S3. rewrite E2 at 1. reflexivity. }
      rewrite Er, <- El. eapply st_blank; [exact Ep|exact S4|simpl; rewrite orb_false_r; reflexivity|reflexivity].
    - apply st_bad; [discriminate|intros; discriminate|reflexivity]. }
  destruct (Z.eqb_spec c 10) as [->|Hc10].
  { change (pos + 1)%nat with (pos + length (blank_bytes Newline))%nat.
    eapply st_blank; [reflexivity|exact I|simpl; rewrite orb_true_r; reflexivity|reflexivity]. }
  destruct (isspace c) eqn:Esp.
  { change (pos + 1)%nat with (pos + length (blank_bytes (Space c)))%nat.
    eapply st_blank; [reflexivity|split; auto|simpl; rewrite orb_false_r; reflexivity|reflexivity]. }
  destruct (isdigit c || _) eqn:Edig.
  { apply st_tok; unfold class_ok; cbn [loc tlen at_bol has_space kind]; auto; try discriminate.
    2:{ exists c, r, (ppnum_loop (S (length r)) r). split; [reflexivity|]. split; [|split; [|reflexivity]].
        - apply orb_true_iff in Edig as [Ed|Ed]; [auto|]. apply andb_true_iff in Ed as [Ed1 Ed2]. right. split; [lia|exact Ed2].
        - apply ppnum_run; [|lia]. apply (source_skipn 1 _ Hs). }
    pose proof (ppnum_bound (S (length r)) r). cbn [ppnum_loop] in *. unfold p. cbn [List.length]. lia. }
  destruct (c =? 34); [apply (Hstr 0%nat 8)|].
  destruct (startwith p [117; 56; 34]); [apply (Hstr 2%nat 8)|].
  destruct (startwith p [117; 34]); [apply (Hstr 1%nat 16)|].
  destruct (startwith p [85; 34]); [apply (Hstr 1%nat 32)|].
  destruct (startwith p [76; 34]); [apply (Hstr 1%nat 32)|].
  destruct (c =? 39); [apply (Hchr 0%nat 32 to_char)|].
  destruct (startwith p [76; 39]); [apply (Hchr 1%nat 32 (fun v => v))|].
  destruct (startwith p [117; 39]); [apply (Hchr 1%nat 16 (fun v => v mod 2^16))|].
  destruct (startwith p [85; 39]); [apply (Hchr 1%nat 32 (fun v => v))|].
  destruct (read_ident_total p Hs) as [T1 T2].
  destruct (read_ident p) as [n| | |] eqn:Ei; cbn [lbind]; try congruence; [|apply st_bad; [discriminate|intros; discriminate|reflexivity]].
  destruct (Nat.ltb_spec 0 n).
  { destruct (read_ident_spec p n Hs Ei ltac:(lia)) as [B1 B2]. apply st_tok; unfold class_ok; cbn [loc tlen at_bol has_space kind]; auto; try discriminate. }
  destruct (Nat.ltb_spec 0 (read_punct p)).
  { apply st_tok; unfold class_ok; cbn [loc tlen at_bol has_space kind]; auto; try discriminate; [split; [lia|apply read_punct_bound]|apply read_punct_spec; assumption]. }
  apply st_bad; [discriminate|intros; discriminate|reflexivity].
Qed.

Lemma source_app_r a b : source (a ++ b) -> source b.
Proof. intros H x Hx. apply H. apply in_or_app. right. exact Hx. Qed.

Lemma last_line_nonl g : existsb is_newline g = false -> last_line g = g.
Proof.
  destruct g as [|b g]; simpl; [reflexivity|]. intro H. apply orb_false_iff in H as [H1 H2]. rewrite H2, H1. reflexivity.
Qed.

Lemma loop_tiles : forall fuel p pos bol sp toks g0 pos0 first,
  source p -> tokenize_loop fuel p pos bol sp = LOk toks ->
  gap_ok g0 p -> pos = (pos0 + length (gap_bytes g0))%nat ->
  bol = (first || existsb is_newline g0)%bool -> sp = nonempty (last_line g0) ->
  tiles (gap_bytes g0 ++ p) pos0 first toks.
Proof.
  induction fuel as [|fuel IH]; intros p pos bol sp toks g0 pos0 first Hs H Hg Hpos Hbol Hsp; [discriminate|].
  pose proof (step_cases fuel p pos bol sp Hs) as St. rewrite H in St. clear H.
  remember (LOk toks) as res eqn:Eres.
  destruct St as [pos bol sp f|p pos bol sp f b rest bol' sp' Ep Hb Eb Es|p pos bol sp f n t Hn E1 E2 E3 E4 Hk Hc|p pos bol sp f r _ Hbad _].
  - injection Eres as <-. rewrite app_nil_r. apply tiles_eof; simpl; auto.
  - subst p. rewrite app_assoc, <- gap_bytes_snoc.
    eapply IH.
    + eapply source_app_r; eauto.
    + exact Eres.
    + apply gap_ok_snoc; assumption.
    + rewrite gap_bytes_snoc, app_length. lia.
    + rewrite Eb, Hbol, existsb_app. simpl. rewrite orb_false_r, orb_assoc. reflexivity.
    + rewrite Es. destruct (is_newline b) eqn:En.
      * destruct b; try discriminate. rewrite last_line_newline. reflexivity.
      * rewrite last_line_snoc by exact En. rewrite nonempty_snoc. reflexivity.
  - apply lbind_ok in Eres as [ts [H1 H2]]. injection H2 as <-.
    rewrite <- (firstn_skipn n p). apply tiles_cons.
    + rewrite firstn_skipn. exact Hg.
    + intro E. apply (f_equal (@length Z)) in E. rewrite firstn_length in E. simpl in E. lia.
    + exact Hk.
    + congruence.
    + rewrite firstn_length. lia.
    + congruence.
    + congruence.
    + change (skipn n p) with (gap_bytes [] ++ skipn n p).
      eapply (IH _ (pos + n)%nat false false); try reflexivity.
      * apply source_skipn. exact Hs.
      * exact H1.
      * rewrite firstn_length. simpl. lia.
  - exfalso. eapply Hbad; eauto.
Qed.

Lemma skipn_skipn {A} n m (l : list A) : skipn n (skipn m l) = skipn (m + n) l.
Proof. revert l. induction m as [|m IH]; intro l; [reflexivity|]. destruct l; simpl; [apply skipn_nil|apply IH]. Qed.

Lemma loop_class : forall fuel p pos bol sp toks, source p -> tokenize_loop fuel p pos bol sp = LOk toks ->
  forall t, In t toks -> (pos <= loc t <= pos + length p)%nat /\ class_ok (skipn (loc t - pos) p) t.
Proof.
  induction fuel as [|fuel IH]; intros p pos bol sp toks Hs H t Ht; [discriminate|].
  pose proof (step_cases fuel p pos bol sp Hs) as St. rewrite H in St. clear H.
  remember (LOk toks) as res eqn:Eres.
  destruct St as [pos bol sp f|p pos bol sp f b rest bol' sp' Ep Hb Eb Es|p pos bol sp f n t' Hn E1 E2 E3 E4 Hk Hc|p pos bol sp f r _ Hbad _].
  - injection Eres as <-. destruct Ht as [<-|[]]. simpl. split; [lia|exact I].
  - subst p. destruct (IH _ _ _ _ _ (source_app_r _ _ Hs) Eres t Ht) as [H1 H2].
    rewrite app_length. split; [lia|].
    rewrite skipn_app. rewrite (skipn_all2 (blank_bytes b)) by lia. simpl app.
    replace (loc t - pos - length (blank_bytes b))%nat with (loc t - (pos + length (blank_bytes b)))%nat by lia. exact H2.
  - apply lbind_ok in Eres as [ts [H1 H2]]. injection H2 as <-. destruct Ht as [<-|Ht].
    + rewrite E1, Nat.sub_diag. split; [lia|exact Hc].
    + destruct (IH _ _ _ _ _ (source_skipn n _ Hs) H1 t Ht) as [I1 I2]. rewrite skipn_length in I1.
      split; [lia|]. rewrite skipn_skipn in I2. replace (n + (loc t - (pos + n)))%nat with (loc t - pos)%nat in I2 by lia. exact I2.
  - exfalso. eapply Hbad; eauto.
Qed.

Lemma blank_bytes_pos b : (0 < length (blank_bytes b))%nat.
Proof. destruct b; simpl; lia. Qed.

Lemma last_app_ne {A} (d : A) a b : b <> [] -> last (a ++ b) d = last b d.
Proof.
  intro Hb. induction a as [|x a IH]; [reflexivity|]. simpl. destruct (a ++ b) eqn:E; [destruct a; simpl in E; congruence|]. rewrite <- E in *. exact IH.
Qed.

Lemma loop_total : forall fuel p pos bol sp, source p -> (length p < fuel)%nat -> p = [] \/ last p 0 = 10 ->
  (exists toks, tokenize_loop fuel p pos bol sp = LOk toks) \/ tokenize_loop fuel p pos bol sp = LErr.
Proof.
  induction fuel as [|fuel IH]; intros p pos bol sp Hs Hf Hl; [lia|].
  destruct (step_cases fuel p pos bol sp Hs) as [pos bol sp f|p pos bol sp f b rest bol' sp' Ep Hb Eb Es|p pos bol sp f n t' Hn E1 E2 E3 E4 Hk Hc|p pos bol sp f r Hne Hbad Hbad2].
  - eauto.
  - subst p. pose proof (blank_bytes_pos b). rewrite app_length in Hf.
    apply IH; [eapply source_app_r; eauto|lia|]. destruct rest as [|x rest]; [auto|right].
    destruct Hl as [Hl|Hl]; [destruct (blank_bytes b); discriminate|]. rewrite last_app_ne in Hl by discriminate. exact Hl.
  - destruct (IH (skipn n p) (pos + n)%nat false false) as [[ts Hts]|He].
    + apply source_skipn. exact Hs.
    + rewrite skipn_length. lia.
    + destruct (Nat.lt_ge_cases n (length p)).
      * right. rewrite last_skipn by assumption. destruct Hl as [->|Hl]; [simpl in *; lia|exact Hl].
      * left. apply skipn_all2. lia.
    + left. rewrite Hts. simpl. eauto.
    + right. rewrite He. reflexivity.
  - right. apply Hbad2. destruct Hl as [->|Hl]; [congruence|exact Hl].
Qed.

(** Line numbers *)
Fixpoint asc (lo hi : nat) (toks : list token) : Prop :=
  match toks with
  | [] => True
  | t :: ts => (lo <= loc t <= hi)%nat /\ asc (S (loc t)) hi ts
  end.

Lemma asc_weaken : forall toks lo lo' hi, (lo' <= lo)%nat -> asc lo hi toks -> asc lo' hi toks.
Proof. destruct toks as [|t ts]; simpl; intros; [auto|]. intuition lia. Qed.

Lemma tiles_asc s pos first toks : tiles s pos first toks -> asc pos (pos + length s) toks.
Proof.
  induction 1 as [g pos first t Hg Hk Hl Ht Hb Hsp|g pos first lexeme rest t toks Hg Hx Hk Hl Ht Hb Hsp Hr IH]; simpl.
  - rewrite Hl. split; [lia|exact I].
  - rewrite !app_length. split; [lia|].
    assert (0 < length lexeme)%nat by (destruct lexeme; [congruence|simpl; lia]).
    eapply asc_weaken with (lo := (pos + length (gap_bytes g) + length lexeme)%nat); [lia|].
    replace (pos + (length (gap_bytes g) + (length lexeme + length rest)))%nat
      with (pos + length (gap_bytes g) + length lexeme + length rest)%nat by lia. exact IH.
Qed.

Lemma add_line_number_spec : forall p pos n toks, asc pos (pos + length p) toks ->
  add_line_number p pos n toks = map (fun t => set_line t (n + newlines (firstn (loc t - pos) p))) toks.
Proof.
  induction p as [|c p IH]; intros pos n toks H; cbn [add_line_number].
  - destruct toks as [|t [|t2 ts]]; simpl in H.
    + reflexivity.
    + destruct (Nat.eqb_spec (loc t) pos); [|lia]. simpl. rewrite firstn_nil. unfold newlines. simpl. rewrite Nat.add_0_r. reflexivity.
    + lia.
  - assert (Hrest : forall ts, asc (S pos) (pos + length (c :: p)) ts ->
      add_line_number p (S pos) (if c =? 10 then S n else n) ts
      = map (fun t => set_line t (n + newlines (firstn (loc t - pos) (c :: p)))) ts).
    { intros ts Ha. rewrite IH.
      2:{ simpl in Ha. replace (S pos + length p)%nat with (pos + S (length p))%nat by lia. exact Ha. }
      assert (G : forall lo, (pos < lo)%nat -> asc lo (pos + length (c :: p)) ts ->
        map (fun t => set_line t ((if c =? 10 then S n else n) + newlines (firstn (loc t - S pos) p))) ts
        = map (fun t => set_line t (n + newlines (firstn (loc t - pos) (c :: p)))) ts).
      { clear Ha. induction ts as [|t ts IHt]; intros lo Hlo Ha; [reflexivity|]. destruct Ha as [A1 A2]. simpl map. f_equal.
        - f_equal. replace (loc t - pos)%nat with (S (loc t - S pos)) by lia. simpl. unfold newlines. simpl.
          destruct (Z.eqb_spec c 10) as [->|Hc]; [destruct (Z.eq_dec 10 10); [lia|congruence]|].
          destruct (Z.eq_dec c 10); [congruence|lia].
        - apply (IHt (S (loc t))); [lia|exact A2]. }
      apply (G (S pos)); [lia|exact Ha]. }
    destruct toks as [|t ts]; [apply Hrest; exact I|].
    destruct H as [H1 H2]. destruct (Nat.eqb_spec (loc t) pos) as [E|E].
    + simpl map. rewrite E, Nat.sub_diag. simpl firstn. unfold newlines at 1. simpl. rewrite Nat.add_0_r. f_equal.
      apply Hrest. rewrite E in H2. exact H2.
    + apply Hrest. simpl in *. split; [lia|exact H2].
Qed.

Lemma tiles_set_line (f : token -> nat) s pos first toks :
  tiles s pos first toks -> tiles s pos first (map (fun t => set_line t (f t)) toks).
Proof. induction 1; simpl; constructor; auto. Qed.

(** Top level *)
Lemma tokenize_tiles s toks : source s -> tokenize s = LOk toks -> tiles s 0 true toks.
Proof.
  unfold tokenize. intros Hs H. apply lbind_ok in H as [ts [H1 H2]]. injection H2 as <-.
  assert (T : tiles s 0 true ts).
  { change s with (gap_bytes [] ++ s). eapply loop_tiles; eauto; reflexivity. }
  rewrite add_line_number_spec by (apply tiles_asc in T; exact T).
  apply tiles_set_line. exact T.
Qed.

Lemma tokenize_lines s toks : source s -> tokenize s = LOk toks ->
  forall t, In t toks -> line_no t = (1 + newlines (firstn (loc t) s))%nat.
Proof.
  unfold tokenize. intros Hs H t Ht. apply lbind_ok in H as [ts [H1 H2]]. injection H2 as <-.
  assert (T : tiles s 0 true ts).
  { change s with (gap_bytes [] ++ s). eapply loop_tiles; eauto; reflexivity. }
  rewrite add_line_number_spec in Ht by (apply tiles_asc in T; exact T).
  apply in_map_iff in Ht as [t' [<- Ht']]. simpl. rewrite Nat.sub_0_r. reflexivity.
Qed.

Lemma tokenize_class s toks : source s -> tokenize s = LOk toks ->
  forall t, In t toks -> class_ok (skipn (loc t) s) t.
Proof.
  unfold tokenize. intros Hs H t Ht. apply lbind_ok in H as [ts [H1 H2]]. injection H2 as <-.
  assert (T : tiles s 0 true ts).
  { change s with (gap_bytes [] ++ s). eapply loop_tiles; eauto; reflexivity. }
  rewrite add_line_number_spec in Ht by (apply tiles_asc in T; exact T).
  apply in_map_iff in Ht as [t' [<- Ht']].
  destruct (loop_class _ _ _ _ _ _ Hs H1 t' Ht') as [_ C]. rewrite Nat.sub_0_r in C. exact C.
Qed.

Lemma tokenize_total s : source s -> last s 0 = 10 -> (exists toks, tokenize s = LOk toks) \/ tokenize s = LErr.
Proof.
  intros Hs Hl. unfold tokenize.
  destruct (loop_total (S (length s)) s 0 true false Hs ltac:(lia) (or_intror Hl)) as [[ts E]|E]; rewrite E; simpl; eauto.
Qed.

Lemma tiles_flags s pos first toks : tiles s pos first toks ->
  forall t, In t toks -> exists pre g post,
    s = pre ++ gap_bytes g ++ post /\ loc t = (pos + length (pre ++ gap_bytes g))%nat /\ gap_ok g post /\
    at_bol t = ((negb (nonempty pre) && first) || existsb is_newline g)%bool /\
    has_space t = nonempty (last_line g) /\
    (pre = [] \/ exists t', In t' toks /\ (loc t' + tlen t' = pos + length pre)%nat).
Proof.
  induction 1 as [g pos first t Hg Hk Hl Ht Hb Hsp|g pos first lexeme rest t toks Hg Hx Hk Hl Ht Hb Hsp Hr IH]; intros t' Hin.
  - destruct Hin as [<-|[]]. exists [], g, []. rewrite app_nil_r. simpl. auto 10.
  - destruct Hin as [<-|Hin].
    + exists [], g, (lexeme ++ rest). simpl. auto 10.
    + destruct (IH t' Hin) as [pre [g' [post [A [B [C [D [E F]]]]]]]].
      exists (gap_bytes g ++ lexeme ++ pre), g', post. rewrite A at 1. rewrite <- !app_assoc. split; [reflexivity|].
      split; [rewrite B, !app_length; lia|]. split; [exact C|]. split; [|split; [exact E|]].
      * rewrite D, andb_false_r.
        assert (N : nonempty (gap_bytes g ++ lexeme ++ pre) = true).
        { destruct (gap_bytes g); [|reflexivity]. destruct lexeme; [congruence|reflexivity]. }
        rewrite N. reflexivity.
      * right. destruct F as [->|[t2 [F1 F2]]].
        -- exists t. split; [left; reflexivity|]. rewrite app_nil_r, app_length. lia.
        -- exists t2. split; [right; exact F1|]. rewrite !app_length. lia.
Qed.
