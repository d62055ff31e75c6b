From Verif Require Import Base BitLemmas UnicodeModel UnicodeSpec UnicodeProofs TextModel TextSpec TextProofs LexModel LexSpec LexProofs LitModel LitSpec LitProofs SpellSpec.
Local Notation length := List.length.

Lemma starts_prefix p q : startwith p q = true <-> starts p q.
Proof. unfold startwith, starts. rewrite is_prefix_spec. reflexivity. Qed.
Lemma starts_no p q : ~ starts p q -> startwith p q = false.
Proof. intro H. destruct (startwith p q) eqn:E; [|reflexivity]. apply starts_prefix in E. contradiction. Qed.
Lemma startwith_head c r a q : c <> a -> startwith (c :: r) (a :: q) = false.
Proof. intro H. unfold startwith. cbn [is_prefix]. destruct (Z.eqb_spec a c); [congruence|reflexivity]. Qed.

(** Identifiers *)
Lemma ident_loop_run p n : ident_run p n -> forall fuel acc, source p -> (length p < fuel)%nat -> ident_loop fuel p acc = LOk (acc + n)%nat.
Proof.
  induction 1 as [p c k Hd Hi|p c k n Hd Hi Hr IH]; intros fuel acc Hs Hf; (destruct fuel as [|fuel]; [lia|]); cbn [ident_loop]; rewrite Hd, Hi.
  - f_equal. lia.
  - destruct p as [|b p].
    { exfalso. unfold decode_utf8 in Hd. cbn in Hd. assert (Q : c = 0) by congruence. subst c. rewrite ident2_nul in Hi. discriminate. }
    pose proof (skipn_decode_length (b :: p) c k Hs ltac:(discriminate) Hd) as Hk.
    rewrite IH; [f_equal; lia|apply source_skipn; exact Hs|]. rewrite skipn_length. lia.
Qed.
Definition first_ok (b : Z) : Prop := b = 36 \/ b = 95 \/ 65 <= b <= 90 \/ 97 <= b <= 122 \/ 128 <= b.
Lemma ident1_ascii b : 0 <= b < 128 -> is_ident1 b = true -> first_ok b.
Proof.
  intros Hb H.
  assert (Q : forallb (fun b => implb (is_ident1 b) ((b =? 36) || (b =? 95) || ((65 <=? b) && (b <=? 90)) || ((97 <=? b) && (b <=? 122)))) (map Z.of_nat (seq 0 128)) = true) by (vm_compute; reflexivity).
  rewrite forallb_forall in Q. specialize (Q b). rewrite H in Q. cbn [implb] in Q.
  assert (In b (map Z.of_nat (seq 0 128))) as HI by (apply in_map_iff; exists (Z.to_nat b); split; [lia|apply in_seq; lia]).
  specialize (Q HI). unfold first_ok. lia.
Qed.
Lemma ident_head p c k : source p -> decode_utf8 p = Some (c, k) -> is_ident1 c = true -> exists b r, p = b :: r /\ first_ok b.
Proof.
  intros Hs Hd Hi. destruct p as [|b r].
  { unfold decode_utf8 in Hd. cbn in Hd. assert (Q : c = 0) by congruence. subst c. discriminate Hi. }
  exists b, r. split; [reflexivity|]. apply source_cons in Hs as [Hb [H0 _]]. unfold is_byte in Hb.
  unfold decode_utf8 in Hd. cbn [at_ nth] in Hd. destruct (Z.ltb_spec b 128).
  - assert (Q : c = b) by congruence. subst c. apply ident1_ascii; [lia|exact Hi].
  - unfold first_ok. lia.
Qed.
Lemma read_ident_at p n : source p -> ident_at p n -> read_ident p = LOk n /\ (0 < n)%nat.
Proof.
  intros Hs (c & k & m & Hd & Hi & Hr & ->). unfold read_ident. rewrite Hd, Hi.
  assert (Hk : (1 <= k <= length p)%nat).
  { destruct p as [|b p]; [|apply (skipn_decode_length _ _ _ Hs ltac:(discriminate) Hd)].
    unfold decode_utf8 in Hd. cbn in Hd. assert (Q : c = 0) by congruence. subst c. discriminate Hi. }
  split; [|lia]. apply ident_loop_run; [exact Hr|apply source_skipn; exact Hs|]. rewrite skipn_length. lia.
Qed.

(** Numbers *)
Lemma ppnum_loop_run p m : pp_run p m -> forall fuel, source p -> (length p < fuel)%nat -> ppnum_loop fuel p = m.
Proof.
  induction 1 as [e s r n He Hsg Hr IH|c r n Hc Hno Hr IH| |c r H1 H2]; intros fuel Hs Hf; (destruct fuel as [|fuel]; [lia|]); cbn [ppnum_loop]; [| |reflexivity|].
  - apply source_cons in Hs as [_ [_ Hs]]. pose proof (source_cons _ _ Hs) as [_ [Hs0 Hs']]. cbn [at_ nth List.length] in *.
    assert (E1 : existsb (Z.eqb e) [101; 69; 112; 80] = true) by (cbn [existsb]; unfold exponent_mark in He; lia).
    assert (E2 : existsb (Z.eqb s) [43; 45] = true) by (cbn [existsb]; unfold sign_char in Hsg; lia).
    rewrite E1, E2. assert (E3 : negb (s =? 0) = true) by lia. rewrite E3. cbn [andb]. cbn [skipn]. rewrite IH; [reflexivity|exact Hs'|lia].
  - apply source_cons in Hs as [_ [_ Hs]]. cbn [List.length] in Hf.
    match goal with |- context [if ?b then _ else _] => destruct b eqn:E end.
    + exfalso. apply andb_true_iff in E as [E E3]. apply andb_true_iff in E as [E1 E2]. apply Hno. split.
      * cbn [existsb] in E2. unfold exponent_mark. lia.
      * destruct r as [|s r']; [cbn in E1; discriminate|]. exists s, r'. split; [reflexivity|]. cbn [at_ nth existsb] in E3. unfold sign_char. lia.
    + assert (E4 : isalnum c || (c =? 46) = true) by (destruct Hc as [->| ->]; [reflexivity|apply orb_true_r]).
      rewrite E4. rewrite IH; [reflexivity|exact Hs|lia].
  - assert (E4 : isalnum c || (c =? 46) = false) by (rewrite H1; cbn; lia). rewrite E4.
    match goal with |- context [if ?b then _ else _] => destruct b eqn:E end; [|reflexivity].
    exfalso. apply andb_true_iff in E as [E E3]. apply andb_true_iff in E as [E1 E2]. cbn [existsb] in E2.
    unfold isalnum, isdigit, isalpha in H1. lia.
Qed.

(** Punctuators *)
Lemma punct_chars q : In q punctuators -> exists c r, q = c :: r /\ ispunct c = true /\ c <> 36 /\ c <> 95 /\ c <> 34 /\ c <> 39 /\ c <> 10 /\ isspace c = false /\ isdigit c = false /\ isalpha c = false /\ c < 128.
Proof.
  assert (H : forallb (fun q => match q with c :: _ => ispunct c && negb (existsb (Z.eqb c) [36; 95; 34; 39; 10]) && negb (isspace c) && negb (isdigit c) && negb (isalpha c) && (c <? 128) | [] => false end) punctuators = true) by (vm_compute; reflexivity).
  intro Hq. rewrite forallb_forall in H. specialize (H q Hq). destruct q as [|c r]; [discriminate|]. exists c, r.
  repeat match goal with X : _ && _ = true |- _ => apply andb_true_iff in X as [X ?] end. cbn [existsb] in *.
  repeat match goal with X : negb _ = true |- _ => apply negb_true_iff in X end.
  split; [reflexivity|].
  repeat apply conj; try assumption; try (intro; subst c; cbn in *; discriminate); lia.
Qed.
Lemma punct_len q : In q punctuators -> (1 <= length q)%nat.
Proof. intro H. destruct (punct_chars q H) as (c & r & -> & _). cbn. lia. Qed.
Lemma read_punct_at w rest : In w punctuators -> (forall q, In q punctuators -> starts (w ++ rest) q -> (length q <= length w)%nat) -> read_punct (w ++ rest) = length w.
Proof.
  intros Hw Hl. unfold read_punct. destruct (find (startwith (w ++ rest)) kw) as [k|] eqn:E.
  - pose proof E as E'. apply find_some in E' as [Hk Hp].
    assert (Q1 : (length k <= length w)%nat) by (apply Hl; [apply kw_in_punctuators; exact Hk|apply starts_prefix; exact Hp]).
    pose proof (kw_long k Hk).
    assert (Hw2 : In w kw) by (apply punctuators_in_kw; [exact Hw|lia]).
    assert (Q2 : (length w <= length k)%nat).
    { refine (find_longest (startwith (w ++ rest)) kw k _ E w Hw2 _); [vm_compute; reflexivity|]. apply starts_prefix. exists rest. reflexivity. }
    lia.
  - destruct (Nat.leb_spec (length w) 1) as [L|L].
    + destruct (punct_chars w Hw) as (c & r & -> & Hc & _). cbn [app at_ nth]. rewrite Hc. cbn in *. lia.
    + assert (Hw2 : In w kw) by (apply punctuators_in_kw; [exact Hw|lia]).
      exfalso. eapply find_none in E; [|exact Hw2]. assert (startwith (w ++ rest) w = true) as X by (apply starts_prefix; exists rest; reflexivity). congruence.
Qed.

(** One element *)
Definition emitted (f : nat) (w rest : bytes) (pos : nat) (bol sp : bool) (e : element) : lres (list token) :=
  lbind (tokenize_loop f rest (pos + length w) false false)
        (fun ts => LOk (Tok (e_kind e) pos (length w) bol sp 0 (e_val e) (e_bits e) (e_str e) :: ts)).
Lemma skipn_w (w rest : bytes) : skipn (length w) (w ++ rest) = rest.
Proof. rewrite skipn_app, skipn_all, Nat.sub_diag. reflexivity. Qed.
Lemma no_ident c r : source (c :: r) -> c < 128 -> c <> 36 -> c <> 95 -> isalpha c = false -> read_ident (c :: r) = LOk 0%nat.
Proof.
  intros Hs H1 H2 H3 H4. unfold read_ident, decode_utf8. cbn [at_ nth]. destruct (Z.ltb_spec c 128); [|lia].
  apply source_cons in Hs as [Hb [H0 _]]. unfold is_byte in Hb.
  destruct (is_ident1 c) eqn:E; [|reflexivity]. apply ident1_ascii in E; [|lia]. unfold first_ok, isalpha in *. lia.
Qed.
Lemma starts_cons c r a q : starts (c :: r) (a :: q) -> c = a /\ starts r q.
Proof. intros [x E]. cbn in E. injection E as -> ->. split; [reflexivity|]. exists x. reflexivity. Qed.
Lemma starts_one c r a : c = a -> starts (c :: r) [a].
Proof. intros ->. exists r. reflexivity. Qed.

Lemma step_element f w rest e pos bol sp : source (w ++ rest) -> element_at w rest e ->
  e_text e = w /\ e_kind e <> TK_EOF /\ w <> [] /\ tokenize_loop (S f) (w ++ rest) pos bol sp = emitted f w rest pos bol sp e.
Proof.
  intros Hs H. destruct H as [w rest Hi Hl|w rest Hn|w rest Hw Hl Hc Hn|c rest Hc|pre bits src v rest Hp Hb|pre bits src v x rest Hv Hb]; cbn [e_text e_kind].
  - split; [reflexivity|]. split; [discriminate|]. destruct (read_ident_at _ _ Hs Hi) as [Hr Hpos].
    split; [intros ->; cbn in Hpos; lia|].
    destruct Hi as (c0 & k & m & Hd & Hi & _). destruct (ident_head _ _ _ Hs Hd Hi) as (b & r & Ep & Hf). clear c0 k m Hd Hi.
    unfold emitted. rewrite <- (skipn_w w rest) at 2. rewrite Ep in *. cbn [tokenize_loop].
    assert (L : forall q, In q (map bs ["u8"""; "u"""; "U"""; "L"""; "L'"; "u'"; "U'"]%string) -> startwith (b :: r) q = false).
    { intros q Hq. apply starts_no. intro X. apply Hl. exists q. auto. }
    rewrite !(startwith_head b r 47) by (unfold first_ok in Hf; lia).
    destruct (Z.eqb_spec b 10); [unfold first_ok in Hf; lia|].
    replace (isspace b) with false by (unfold isspace, first_ok in *; lia).
    replace (isdigit b) with false by (unfold isdigit, first_ok in *; lia).
    destruct (Z.eqb_spec b 46); [unfold first_ok in Hf; lia|]. cbn [orb andb].
    destruct (Z.eqb_spec b 34); [unfold first_ok in Hf; lia|].
    change [117; 56; 34] with (bs "u8"""). change [117; 34] with (bs "u"""). change [85; 34] with (bs "U"""). change [76; 34] with (bs "L""").
    change [76; 39] with (bs "L'"). change [117; 39] with (bs "u'"). change [85; 39] with (bs "U'").
    rewrite !L by (cbn [map]; cbn [In]; tauto).
    destruct (Z.eqb_spec b 39); [unfold first_ok in Hf; lia|].
    rewrite Hr. cbn [lbind]. destruct (Nat.ltb_spec 0 (length w)); [reflexivity|lia].
  - split; [reflexivity|]. split; [discriminate|]. destruct Hn as (c & r & m & Ep & Hd & Hr & Em).
    split; [intros ->; cbn in Em; lia|]. unfold emitted. rewrite <- (skipn_w w rest) at 2. rewrite Ep in *. cbn [tokenize_loop].
    assert (Hc : 48 <= c <= 57 \/ c = 46 /\ isdigit (nth 0 r 0) = true) by (destruct Hd as [Hd|Hd]; [unfold isdigit in Hd; lia|auto]).
    rewrite !(startwith_head c r 47) by lia. destruct (Z.eqb_spec c 10); [lia|].
    replace (isspace c) with false by (unfold isspace; lia).
    assert (E : isdigit c || ((c =? 46) && isdigit (at_ r 0)) = true).
    { destruct Hd as [->|[-> Hd]]; [reflexivity|]. unfold at_. rewrite Hd. reflexivity. }
    rewrite E. assert (Hs' : source r) by (apply source_cons in Hs; tauto).
    rewrite (ppnum_loop_run r m Hr (S (length r)) Hs' ltac:(lia)). rewrite <- Em. reflexivity.
  - split; [reflexivity|]. split; [discriminate|]. pose proof (read_punct_at w rest Hw Hl) as Hr. pose proof (punct_len w Hw) as Lw.
    split; [intros ->; cbn in Lw; lia|].
    destruct (punct_chars w Hw) as (c & r & Ew & P1 & P2 & P3 & P4 & P5 & P6 & P7 & P8 & P9 & P10).
    unfold emitted. rewrite <- (skipn_w w rest) at 2. 
    assert (Ep : w ++ rest = c :: (r ++ rest)) by (rewrite Ew; reflexivity).
    rewrite Ep in *. clear Ew. set (r' := r ++ rest) in *. cbn [tokenize_loop].
    rewrite (starts_no (c :: r') [47; 47]) by (intro X; apply Hc; left; exact X).
    rewrite (starts_no (c :: r') [47; 42]) by (intro X; apply Hc; right; exact X).
    destruct (Z.eqb_spec c 10); [contradiction|]. rewrite P7, P8. cbn [orb].
    assert (E : (c =? 46) && isdigit (at_ r' 0) = false).
    { destruct (Z.eqb_spec c 46) as [->|]; [|reflexivity]. cbn [andb]. destruct r' as [|d r'']; [reflexivity|]. cbn [at_ nth].
      destruct (isdigit d) eqn:Ed; [|reflexivity]. exfalso. apply Hn. exists d, r''. auto. }
    rewrite E. destruct (Z.eqb_spec c 34); [contradiction|].
    rewrite !(startwith_head c r' 117), !(startwith_head c r' 85), !(startwith_head c r' 76) by (intro; subst c; discriminate P9).
    destruct (Z.eqb_spec c 39); [contradiction|].
    rewrite (no_ident c r' Hs P10 P2 P3 P9). cbn [lbind]. change (0 <? 0)%nat with false. cbv iota. rewrite Hr.
    destruct (Nat.ltb_spec 0 (length w)); [reflexivity|lia].
  - split; [reflexivity|]. split; [discriminate|]. split; [discriminate|]. unfold emitted. cbn [app length skipn e_kind e_val e_bits e_str].
    assert (Q : c = 64 \/ c = 96 \/ c = 92) by (cbn in Hc; lia). cbn [app] in Hs.
    assert (Hp : read_punct (c :: rest) = 1%nat).
    { unfold read_punct. assert (E : find (startwith (c :: rest)) kw = None).
      { destruct (find (startwith (c :: rest)) kw) as [k|] eqn:E; [|reflexivity]. exfalso. apply find_some in E as [Hk Hx].
        assert (H : forallb (fun k => match k with a :: _ => negb (existsb (Z.eqb a) [64; 96; 92]) | [] => false end) kw = true) by (vm_compute; reflexivity).
        rewrite forallb_forall in H. specialize (H k Hk). destruct k as [|a k]; [discriminate|]. apply starts_prefix, starts_cons in Hx as [<- _]. cbn [existsb] in H. lia. }
      rewrite E. cbn [at_ nth]. replace (ispunct c) with true; [reflexivity|]. destruct Q as [->|[->| ->]]; reflexivity. }
    cbn [tokenize_loop]. rewrite !(startwith_head c rest 47) by lia. destruct (Z.eqb_spec c 10); [lia|].
    replace (isspace c) with false by (unfold isspace; lia). replace (isdigit c) with false by (unfold isdigit; lia).
    destruct (Z.eqb_spec c 46); [lia|]. cbn [orb andb]. destruct (Z.eqb_spec c 34); [lia|].
    rewrite !(startwith_head c rest 117), !(startwith_head c rest 85), !(startwith_head c rest 76) by lia.
    destruct (Z.eqb_spec c 39); [lia|].
    rewrite (no_ident c rest Hs); [|lia|lia|lia|unfold isalpha; lia]. cbn [lbind]. change (0 <? 0)%nat with false. cbv iota. rewrite Hp.
    change (0 <? 1)%nat with true. cbv iota. cbn [skipn]. reflexivity.
  - split; [reflexivity|]. split; [discriminate|]. split; [destruct pre; discriminate|].
    unfold emitted. cbn [e_kind e_val e_bits e_str].
    assert (Ep : (pre ++ 34 :: src ++ [34]) ++ rest = pre ++ 34 :: src ++ 34 :: rest) by (rewrite <- app_assoc; cbn [app]; rewrite <- app_assoc; reflexivity).
    rewrite Ep, (tokenize_string_literal pre bits src v rest f pos bol sp Hp Hb).
    replace (length (pre ++ 34 :: src ++ [34])) with (length pre + 1 + length src + 1)%nat by (rewrite app_length; cbn [length]; rewrite app_length; cbn; lia).
    reflexivity.
  - split; [reflexivity|]. split; [discriminate|]. split; [destruct pre; discriminate|].
    assert (Ep : (pre ++ 39 :: src ++ [39]) ++ rest = pre ++ 39 :: src ++ 39 :: rest) by (rewrite <- app_assoc; cbn [app]; rewrite <- app_assoc; reflexivity).
    unfold emitted. rewrite <- (skipn_w (pre ++ 39 :: src ++ [39]) rest) at 2.
    assert (El : length (pre ++ 39 :: src ++ [39]) = (S (length pre) + length src + 1)%nat) by (rewrite app_length; cbn [length]; rewrite app_length; cbn; lia).
    rewrite El, Ep in *. clear Ep El. cbn [e_kind e_val e_bits e_str].
    pose proof (read_char_body src v rest Hb) as Hr.
    unfold char_value in Hv. destruct (beq pre []) eqn:B1.
    { apply beq_eq in B1. subst pre. assert (bits = 32 /\ x = (v + 128) mod 256 - 128) as [-> ->] by (split; congruence). clear Hv.
      cbn [app length] in *. set (q := src ++ 39 :: rest) in *. cbn [tokenize_loop].
      rewrite !(startwith_head 39 q 47) by lia. change (isspace 39) with false. change (isdigit 39) with false. change (39 =? 10) with false. change (39 =? 46) with false. change (39 =? 34) with false. change (39 =? 39) with true.
      cbn [orb andb]. cbv iota. rewrite !(startwith_head 39 q 117), !(startwith_head 39 q 85), !(startwith_head 39 q 76) by lia.
      cbn [skipn]. rewrite Hr. cbn [lbind fst snd]. reflexivity. }
    destruct (beq pre (bs "L") || beq pre (bs "U")) eqn:B2.
    { assert (bits = 32 /\ x = v) as [-> ->] by (split; congruence). clear Hv. apply orb_true_iff in B2 as [B2|B2]; apply beq_eq in B2; subst pre.
      - change (bs "L") with [76] in *. cbn [app length] in *. set (q := src ++ 39 :: rest) in *. cbn [tokenize_loop].
        rewrite !(startwith_head 76 _ 47), !(startwith_head 76 _ 117), !(startwith_head 76 _ 85) by lia.
        change (isspace 76) with false. change (isdigit 76) with false. change (76 =? 10) with false. change (76 =? 46) with false. change (76 =? 34) with false. change (76 =? 39) with false.
        cbn [orb andb]. cbv iota. change (startwith (76 :: 39 :: q) [76; 34]) with false. change (startwith (76 :: 39 :: q) [76; 39]) with true. cbv iota.
        cbn [skipn]. rewrite Hr. cbn [lbind fst snd]. reflexivity.
      - change (bs "U") with [85] in *. cbn [app length] in *. set (q := src ++ 39 :: rest) in *. cbn [tokenize_loop].
        rewrite !(startwith_head 85 _ 47), !(startwith_head 85 _ 117), !(startwith_head 85 _ 76) by lia.
        change (isspace 85) with false. change (isdigit 85) with false. change (85 =? 10) with false. change (85 =? 46) with false. change (85 =? 34) with false. change (85 =? 39) with false.
        cbn [orb andb]. cbv iota. change (startwith (85 :: 39 :: q) [85; 34]) with false. change (startwith (85 :: 39 :: q) [85; 39]) with true. cbv iota.
        cbn [skipn]. rewrite Hr. cbn [lbind fst snd]. reflexivity. }
    destruct (beq pre (bs "u")) eqn:B3; [|discriminate]. apply beq_eq in B3. subst pre. assert (bits = 16 /\ x = v mod 2 ^ 16) as [-> ->] by (split; congruence). clear Hv.
    change (bs "u") with [117] in *. cbn [app length] in *. set (q := src ++ 39 :: rest) in *. cbn [tokenize_loop].
    rewrite !(startwith_head 117 _ 47), !(startwith_head 117 _ 85), !(startwith_head 117 _ 76) by lia.
    change (isspace 117) with false. change (isdigit 117) with false. change (117 =? 10) with false. change (117 =? 46) with false. change (117 =? 34) with false. change (117 =? 39) with false.
    cbn [orb andb]. cbv iota. change (startwith (117 :: 39 :: q) [117; 56; 34]) with false. change (startwith (117 :: 39 :: q) [117; 34]) with false. change (startwith (117 :: 39 :: q) [117; 39]) with true. cbv iota.
    cbn [skipn]. rewrite Hr. cbn [lbind fst snd]. reflexivity.
Qed.

(** White space and comments *)
Lemma line_comment_at body r : ~ In 10 body -> skip_line_comment (body ++ 10 :: r) = LOk (length body).
Proof.
  induction body as [|c body IH]; intro H; [reflexivity|]. cbn [app skip_line_comment]. destruct (Z.eqb_spec c 10) as [->|]; [exfalso; apply H; left; reflexivity|].
  rewrite IH by (intro X; apply H; right; exact X). reflexivity.
Qed.
Lemma block_comment_at : forall body rest, (forall a b, body ++ [42] <> a ++ [42; 47] ++ b) -> find_comment_end (body ++ [42; 47] ++ rest) = Some (length body).
Proof.
  induction body as [|c body IH]; intros rest H; [reflexivity|]. cbn [app find_comment_end].
  destruct (startwith (c :: body ++ 42 :: 47 :: rest) [42; 47]) eqn:E.
  - exfalso. apply starts_prefix, starts_cons in E as [-> E]. destruct body as [|d body].
    + apply starts_cons in E as [E _]. discriminate.
    + apply starts_cons in E as [-> _]. apply (H [] (body ++ [42])). reflexivity.
  - change (body ++ 42 :: 47 :: rest) with (body ++ [42; 47] ++ rest). rewrite IH; [reflexivity|]. intros a b X. apply (H (c :: a) b). cbn [app]. rewrite X. reflexivity.
Qed.
Lemma step_blank f b rest pos bol sp : blank_ok b rest ->
  tokenize_loop (S f) (blank_bytes b ++ rest) pos bol sp = tokenize_loop f rest (pos + length (blank_bytes b)) (bol || is_newline b) (negb (is_newline b)).
Proof.
  destruct b as [|c|body|body]; intro H; cbn [blank_bytes is_newline negb blank_ok] in *.
  - cbn [app tokenize_loop]. rewrite !(startwith_head 10 rest 47) by lia. cbn [Z.eqb Pos.eqb]. cbn [length]. rewrite orb_true_r. reflexivity.
  - destruct H as [H1 H2]. cbn [app tokenize_loop]. rewrite !(startwith_head c rest 47) by (intro; subst c; discriminate H1).
    destruct (Z.eqb_spec c 10); [contradiction|]. rewrite H1. cbn [length]. rewrite orb_false_r. reflexivity.
  - destruct H as [H1 [r ->]]. rewrite orb_false_r. cbn [app]. cbn [tokenize_loop]. change (startwith (47 :: 47 :: body ++ 10 :: r) [47; 47]) with true. cbv iota.
    change (skipn 2 (47 :: 47 :: body ++ 10 :: r)) with (body ++ 10 :: r). rewrite (line_comment_at body r H1). cbn [lbind].
    change (skipn (2 + length body) (47 :: 47 :: body ++ 10 :: r)) with (skipn (length body) (body ++ 10 :: r)). rewrite skipn_w. reflexivity.
  - rewrite orb_false_r. rewrite <- !app_assoc. cbn [app]. cbn [tokenize_loop]. change (startwith (47 :: 42 :: body ++ 42 :: 47 :: rest) [47; 47]) with false.
    change (startwith (47 :: 42 :: body ++ 42 :: 47 :: rest) [47; 42]) with true. cbv iota.
    change (skipn 2 (47 :: 42 :: body ++ 42 :: 47 :: rest)) with (body ++ [42; 47] ++ rest). rewrite (block_comment_at body rest H).
    assert (E : skipn (2 + length body + 2) (47 :: 42 :: body ++ 42 :: 47 :: rest) = rest).
    { replace (2 + length body + 2)%nat with (length (47 :: 42 :: body ++ [42; 47])) by (cbn [length]; rewrite app_length; cbn; lia).
      replace (47 :: 42 :: body ++ 42 :: 47 :: rest) with ((47 :: 42 :: body ++ [42; 47]) ++ rest) by (cbn [app]; rewrite <- app_assoc; reflexivity).
      apply skipn_w. }
    rewrite E. f_equal. cbn [length]. rewrite app_length. cbn. lia.
Qed.
Lemma gap_length g : (length g <= length (gap_bytes g))%nat.
Proof. induction g as [|b g IH]; [cbn; lia|]. change (gap_bytes (b :: g)) with (blank_bytes b ++ gap_bytes g). rewrite app_length. cbn [length]. pose proof (blank_bytes_pos b). lia. Qed.
Lemma step_gap : forall g rest f pos bol sp, gap_ok g rest -> (length (gap_bytes g ++ rest) < f)%nat ->
  exists f' bol' sp', (length rest < f')%nat /\ tokenize_loop f (gap_bytes g ++ rest) pos bol sp = tokenize_loop f' rest (pos + length (gap_bytes g)) bol' sp'.
Proof.
  induction g as [|b g IH]; intros rest f pos bol sp H Hf.
  - cbn [gap_bytes flat_map app length] in *. exists f, bol, sp. rewrite Nat.add_0_r. auto.
  - change (gap_bytes (b :: g)) with (blank_bytes b ++ gap_bytes g) in *. rewrite <- app_assoc in *. destruct H as [H1 H2]. destruct f as [|f]; [lia|].
    rewrite (step_blank f b _ pos bol sp H1). rewrite app_length in Hf. pose proof (blank_bytes_pos b).
    destruct (IH rest f (pos + length (blank_bytes b))%nat (bol || is_newline b)%bool (negb (is_newline b)) H2 ltac:(lia)) as (f' & bol' & sp' & A & B).
    exists f', bol', sp'. split; [exact A|]. rewrite B. f_equal. rewrite app_length. lia.
Qed.

Lemma loop_spells s p l : spells p l -> forall f pos bol sp, source p -> (length p < f)%nat -> skipn pos s = p ->
  exists toks, tokenize_loop f p pos bol sp = LOk toks /\ map (element_of s) toks = l ++ [eof_element].
Proof.
  induction 1 as [g Hg|g w rest e l Hg He Hr IH]; intros f pos bol sp Hs Hf Hp.
  - destruct (step_gap g [] f pos bol sp Hg) as (f' & bol' & sp' & A & B); [rewrite app_nil_r; exact Hf|]. rewrite app_nil_r in B. rewrite B.
    destruct f' as [|f']; [cbn in A; lia|]. cbn [tokenize_loop]. eexists. split; [reflexivity|]. cbn [map app]. unfold element_of, eof_element, lexeme_of. cbn. reflexivity.
  - destruct (step_gap g (w ++ rest) f pos bol sp Hg Hf) as (f' & bol' & sp' & A & B). rewrite B. destruct f' as [|f']; [lia|].
    assert (Hs' : source (w ++ rest)) by (apply source_app_r in Hs; exact Hs).
    destruct (step_element f' w rest e (pos + length (gap_bytes g)) bol' sp' Hs' He) as (E1 & E2 & E3 & E4). rewrite E4. unfold emitted.
    assert (Hsk : skipn (pos + length (gap_bytes g)) s = w ++ rest) by (rewrite <- skipn_skipn, Hp; apply skipn_w).
    assert (0 < length w)%nat by (destruct w; [congruence|cbn; lia]).
    destruct (IH f' (pos + length (gap_bytes g) + length w)%nat false false) as (toks & T1 & T2).
    + apply source_app_r in Hs'. exact Hs'.
    + rewrite app_length in A. lia.
    + rewrite <- skipn_skipn, Hsk. apply skipn_w.
    + rewrite T1. cbn [lbind]. eexists. split; [reflexivity|]. cbn [map app]. rewrite T2. f_equal.
      unfold element_of, lexeme_of. cbn [kind loc tlen tval tbits tstr]. rewrite Hsk, firstn_app, firstn_all, Nat.sub_diag. cbn [firstn]. rewrite app_nil_r.
      destruct e as [k t v b x]. cbn in *. subst t. reflexivity.
Qed.
Lemma element_set_line s t n : element_of s (set_line t n) = element_of s t.
Proof. reflexivity. Qed.
Lemma tokenize_spells s l : source s -> spells s l -> exists toks, tokenize s = LOk toks /\ map (element_of s) toks = l ++ [eof_element].
Proof.
  intros Hs H. destruct (loop_spells s s l H (S (length s)) 0 true false Hs ltac:(lia) eq_refl) as (toks & T1 & T2).
  unfold tokenize. rewrite T1. cbn [lbind]. eexists. split; [reflexivity|].
  assert (T : tiles s 0 true toks) by (change s with (gap_bytes [] ++ s); eapply loop_tiles; eauto; reflexivity).
  rewrite add_line_number_spec by (apply tiles_asc in T; exact T). rewrite map_map. rewrite <- T2. apply map_ext. intro t. apply element_set_line.
Qed.

(** Elements with spaces between them *)
Lemma pp_run_space p m : pp_run p m -> m = length p -> forall rest, pp_run (p ++ 32 :: rest) m.
Proof.
  induction 1 as [e s r n He Hsg Hr IH|c r n Hc Hno Hr IH| |c r H1 H2]; intros E rest; cbn [app length] in *.
  - apply pp_sign; auto. apply IH. lia.
  - apply pp_char; [exact Hc| |apply IH; lia]. intros [X (s & r' & Er & Y)]. destruct r as [|s0 r0]; cbn [app] in Er.
    + injection Er as <- _. unfold sign_char in Y. lia.
    + apply Hno. split; [exact X|]. injection Er as -> _. exists s, r0. auto.
  - apply pp_stop; [reflexivity|lia].
  - discriminate.
Qed.
Lemma ident_run_ascii : forall w rest, forallb (fun x => letter x || isdigit x) w = true -> ident_run (w ++ 32 :: rest) (length w).
Proof.
  assert (A : forall b, letter b || isdigit b = true -> 0 <= b < 128 /\ is_ident2 b = true).
  { intros b H.
    assert (Q : forallb (fun b => implb (letter b || isdigit b) (is_ident2 b)) (map Z.of_nat (seq 0 128)) = true) by (vm_compute; reflexivity).
    assert (Hb : 0 <= b < 128) by (unfold letter, isdigit, isalpha in H; lia). split; [exact Hb|].
    rewrite forallb_forall in Q. specialize (Q b). rewrite H in Q. apply Q. apply in_map_iff. exists (Z.to_nat b). split; [lia|apply in_seq; lia]. }
  induction w as [|c w IH]; intros rest H.
  - cbn [app length]. apply (run_stop _ 32 1); reflexivity.
  - cbn [forallb] in H. apply andb_true_iff in H as [H1 H2]. destruct (A c H1) as [Hb Hi]. cbn [app length].
    change (Datatypes.S (length w)) with (1 + length w)%nat. apply (run_more _ c 1); [|exact Hi|apply IH; exact H2].
    unfold decode_utf8. cbn [at_ nth]. destruct (Z.ltb_spec c 128); [reflexivity|lia].
Qed.
Lemma word_no_literal w rest : forallb (fun x => letter x || isdigit x) w = true -> ~ literal_here (w ++ 32 :: rest).
Proof.
  intros H (q & Hq & r & E).
  assert (Q : exists a c, q = a ++ [c] /\ (c = 34 \/ c = 39) /\ ~ In 32 q).
  { cbn [map In] in Hq. repeat (destruct Hq as [<-|Hq]; [match goal with |- context [In 32 ?q] => let q' := eval cbv in q in exists (removelast q'), (last q' 0) end; vm_compute; split; [reflexivity|split; [auto|intros X; repeat (destruct X as [X|X]; [discriminate|]); exact X]]|]). destruct Hq. }
  destruct Q as (a & c & Eq & Hc & Hn).
  assert (In c w \/ In 32 q) as [X|X].
  { subst q. clear Hq H. rewrite <- app_assoc in E. cbn [app] in E. revert w E Hn. induction a as [|x a IH]; intros [|y w] E Hn; cbn [app] in E.
    - injection E as E _. exfalso. lia.
    - injection E as -> _. left. left. reflexivity.
    - injection E as <- _. right. left. reflexivity.
    - injection E as -> E. destruct (IH w E) as [G|G]; [intro Z0; apply Hn; right; exact Z0|left; right; exact G|right; right; exact G]. }
  - rewrite forallb_forall in H. specialize (H c X). unfold letter, isdigit, isalpha in H. lia.
  - contradiction.
Qed.
Lemma punct_no_space q : In q punctuators -> ~ In 32 q.
Proof.
  assert (H : forallb (fun q => negb (existsb (Z.eqb 32) q)) punctuators = true) by (vm_compute; reflexivity).
  intros Hq X. rewrite forallb_forall in H. specialize (H q Hq). apply negb_true_iff in H. assert (existsb (Z.eqb 32) q = true) as Y; [|congruence].
  apply existsb_exists. exists 32. split; [exact X|reflexivity].
Qed.
Lemma starts_space w rest q : ~ In 32 q -> starts (w ++ 32 :: rest) q -> (length q <= length w)%nat.
Proof.
  intros Hq [r E]. revert q Hq E. induction w as [|c w IH]; intros [|x q] Hq E; cbn [app length] in *; try lia.
  - injection E as <- _. exfalso. apply Hq. left. reflexivity.
  - injection E as _ E. apply IH in E; [lia|]. intro X. apply Hq. right. exact X.
Qed.
Lemma alone_at e rest : alone e -> element_at (e_text e) (32 :: rest) e.
Proof.
  destruct 1 as [c w H1 H2|w Hn|w Hw|pre bits src v Hp Hb|pre bits src v x Hv Hb]; cbn [e_text].
  - assert (A : forallb (fun x => letter x || isdigit x) (c :: w) = true) by (cbn [forallb]; rewrite H1, H2; reflexivity).
    apply at_ident; [|apply word_no_literal; exact A].
    assert (Hc : 0 <= c < 128 /\ is_ident1 c = true).
    { assert (Q : forallb (fun b => implb (letter b) (is_ident1 b)) (map Z.of_nat (seq 0 128)) = true) by (vm_compute; reflexivity).
      assert (Hb : 0 <= c < 128) by (unfold letter, isalpha in H1; lia). split; [exact Hb|].
      rewrite forallb_forall in Q. specialize (Q c). rewrite H1 in Q. apply Q. apply in_map_iff. exists (Z.to_nat c). split; [lia|apply in_seq; lia]. }
    exists c, 1%nat, (length w). cbn [app length]. split; [|split; [apply Hc|split; [apply ident_run_ascii; exact H2|reflexivity]]].
    unfold decode_utf8. cbn [at_ nth]. destruct (Z.ltb_spec c 128); [reflexivity|lia].
  - apply at_number. destruct Hn as (c & r & m & -> & Hd & Hr & E). exists c, (r ++ 32 :: rest), m. cbn [app length] in *.
    split; [reflexivity|]. split; [|split; [apply pp_run_space; [exact Hr|lia]|exact E]].
    destruct Hd as [Hd|[-> Hd]]; [auto|right]. split; [reflexivity|]. destruct r as [|d r]; [cbn in Hd; discriminate|exact Hd].
  - apply at_punct; [exact Hw| | |].
    + intros q Hq X. apply (starts_space _ _ _ (punct_no_space q Hq) X).
    + intros [X|X]; apply starts_space in X as Y; try (intros [Z0|[Z0|[]]]; discriminate);
        (destruct w as [|a [|b w]]; cbn in Y; try lia);
        [assert (H : forallb (fun q => negb (startwith q [47; 47])) punctuators = true) by (vm_compute; reflexivity)
        |assert (H : forallb (fun q => negb (startwith q [47; 42])) punctuators = true) by (vm_compute; reflexivity)];
        rewrite forallb_forall in H; specialize (H _ Hw); apply negb_true_iff in H;
        apply starts_cons in X as [-> X]; apply starts_cons in X as [-> _]; discriminate H.
    + intros (d & r & E & Hd). destruct w as [|a [|b w]].
      * apply punct_len in Hw. cbn in Hw. lia.
      * cbn [app] in E. injection E as _ <- _. discriminate Hd.
      * cbn [app] in E. injection E as -> -> _.
        assert (H : forallb (fun q => match q with _ :: b :: _ => negb (isdigit b) | _ => true end) punctuators = true) by (vm_compute; reflexivity).
        rewrite forallb_forall in H; specialize (H _ Hw). cbn in H. rewrite Hd in H. discriminate.
  - apply at_string; assumption.
  - eapply at_char; eassumption.
Qed.
Lemma spells_spaced l : Forall alone l -> spells (spaced l) l.
Proof.
  assert (G : forall l, Forall alone l -> spells (32 :: flat_map (fun e => e_text e ++ [32]) l ++ [10]) l).
  { clear l. induction l as [|e l IH]; intro H.
    - cbn [flat_map app]. change [32; 10] with (gap_bytes [Space 32; Newline]). apply sp_end. cbn. repeat split; auto. discriminate.
    - inversion H as [|? ? He Hl]; subst. cbn [flat_map]. rewrite <- !app_assoc. cbn [app].
      change (32 :: e_text e ++ 32 :: flat_map (fun e => e_text e ++ [32]) l ++ [10]) with (gap_bytes [Space 32] ++ e_text e ++ (32 :: flat_map (fun e => e_text e ++ [32]) l ++ [10])).
      apply sp_element; [cbn; repeat split; auto; discriminate|apply alone_at; exact He|apply IH; exact Hl]. }
  unfold spaced. destruct l as [|e l]; intro H.
  - cbn [flat_map app]. change [10] with (gap_bytes [Newline]). apply sp_end. cbn. auto.
  - inversion H as [|? ? He Hl]; subst. cbn [flat_map]. rewrite <- !app_assoc. cbn [app].
    change (e_text e ++ 32 :: flat_map (fun e => e_text e ++ [32]) l ++ [10]) with (gap_bytes [] ++ e_text e ++ (32 :: flat_map (fun e => e_text e ++ [32]) l ++ [10])).
    apply sp_element; [exact I|apply alone_at; exact He|apply G; exact Hl].
Qed.
