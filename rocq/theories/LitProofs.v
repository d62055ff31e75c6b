From Verif Require Import Base BitLemmas UnicodeModel UnicodeSpec UnicodeProofs TextModel TextSpec TextProofs LexModel LexSpec LexProofs LitModel LitSpec.
From Coq Require Import ZifyBool ZifyNat Arith.
Ltac Zify.zify_post_hook ::= Z.div_mod_to_equations.
Local Notation length := List.length.
Local Notation concat := List.concat.
Local Arguments Nat.sub : simpl never.
Local Arguments Z.mul : simpl never.
Local Arguments Z.add : simpl never.
Local Arguments Z.pow : simpl never.

(** * Integer literals *)
Definition dig_ok (dig : Z -> option Z) (base : Z) : Prop :=
  forall c d, dig c = Some d -> digit_val c = d /\ 0 <= d < base.

Lemma dec_ok : dig_ok dec_digit 10.
Proof. intros c d. unfold dec_digit, digit_val, isdigit. destruct ((48 <=? c) && (c <=? 57)) eqn:E; [|discriminate]. intro H. injection H as <-. lia. Qed.
Lemma oct_ok : dig_ok oct_digit 8.
Proof. intros c d. unfold oct_digit, digit_val, isdigit. destruct ((48 <=? c) && (c <=? 55)) eqn:E; [|discriminate]. intro H. injection H as <-.
  replace ((48 <=? c) && (c <=? 57)) with true by lia. lia. Qed.
Lemma bin_ok : dig_ok bin_digit 2.
Proof. intros c d. unfold bin_digit, digit_val, isdigit. destruct ((48 <=? c) && (c <=? 49)) eqn:E; [|discriminate]. intro H. injection H as <-.
  replace ((48 <=? c) && (c <=? 57)) with true by lia. lia. Qed.
Lemma hex_ok : dig_ok hex_digit 16.
Proof.
  intros c d. unfold hex_digit, digit_val, isdigit. destruct ((48 <=? c) && (c <=? 57)) eqn:E1.
  - intro H. injection H as <-. lia.
  - destruct ((65 <=? c) && (c <=? 70)) eqn:E2.
    + intro H. injection H as <-. replace ((97 <=? c) && (c <=? 122)) with false by lia.
      replace ((65 <=? c) && (c <=? 90)) with true by lia. lia.
    + destruct ((97 <=? c) && (c <=? 102)) eqn:E3; [|discriminate]. intro H. injection H as <-.
      replace ((97 <=? c) && (c <=? 122)) with true by lia. lia.
Qed.

Lemma digits_numeral dig base : dig_ok dig base -> forall ds rest acc v,
  numeral dig base acc ds = Some v -> (rest = [] \/ base <= digit_val (nth 0 rest 0)) ->
  digits base (ds ++ rest) acc = (v, rest).
Proof.
  intros Hd. induction ds as [|c ds IH]; intros rest acc v H Hr.
  - simpl in H. injection H as <-. destruct rest as [|x rest]; [reflexivity|]. simpl.
    destruct Hr as [Hr|Hr]; [discriminate|]. simpl in Hr.
    destruct (Z.ltb_spec (digit_val x) base); [lia|reflexivity].
  - cbn [numeral] in H. destruct (dig c) as [d|] eqn:E; [|discriminate]. apply Hd in E as [E1 E2].
    cbn [app digits]. rewrite E1. destruct (Z.ltb_spec d base); [|lia]. apply IH; assumption.
Qed.

Lemma numeral_nonneg dig base : dig_ok dig base -> 0 < base -> forall ds acc v, numeral dig base acc ds = Some v -> 0 <= acc -> 0 <= v.
Proof.
  intros Hd Hb. induction ds as [|c ds IH]; intros acc v H Ha; simpl in H; [congruence|].
  destruct (dig c) as [d|] eqn:E; [|discriminate]. apply Hd in E. eapply IH; eauto. nia.
Qed.

(** The character after the literal cannot continue a pp-number. *)
Definition ends_number (tail : bytes) : Prop :=
  tail = [] \/ exists t r, tail = t :: r /\ isalnum t = false.

Lemma ends_number_digit tail base : ends_number tail -> base <= 16 -> tail = [] \/ base <= digit_val (nth 0 tail 0).
Proof.
  intros [->|[t [r [-> H]]]] Hb; [auto|right]. simpl. unfold isalnum, isdigit, isalpha in H. unfold digit_val, isdigit.
  replace ((48 <=? t) && (t <=? 57)) with false by lia.
  replace ((97 <=? t) && (t <=? 122)) with false by lia.
  replace ((65 <=? t) && (t <=? 90)) with false by lia. lia.
Qed.

Lemma suffix_digit suf l u tail base : suffix suf l u -> ends_number tail -> base <= 16 ->
  suf ++ tail = [] \/ base <= digit_val (nth 0 (suf ++ tail) 0).
Proof.
  intros H Ht Hb. destruct H as [|a Ha|b Hb'|a b Ha Hb'|a b Ha Hb'].
  - apply ends_number_digit; assumption.
  - right. simpl in Ha. repeat (destruct Ha as [<-|Ha]; [cbv -[Z.le]; lia|]). destruct Ha.
  - right. simpl in Hb'. repeat (destruct Hb' as [<-|Hb']; [cbv -[Z.le]; lia|]). destruct Hb'.
  - right. simpl in Ha. repeat (destruct Ha as [<-|Ha]; [cbv -[Z.le]; lia|]). destruct Ha.
  - right. simpl in Hb'. repeat (destruct Hb' as [<-|Hb']; [cbv -[Z.le]; lia|]). destruct Hb'.
Qed.

Lemma int_suffix_spec suf l u tail : suffix suf l u -> ends_number tail -> int_suffix (suf ++ tail) = (l, u, tail).
Proof.
  intros H Ht.
  assert (Hcase : tail = [] \/ exists t r, tail = t :: r /\ (t =? 76) = false /\ (t =? 108) = false /\ (t =? 85) = false /\ (t =? 117) = false /\
     (lower t =? 117) = false /\ (lower t =? 108) = false).
  { destruct Ht as [->|[t [r [-> E]]]]; [auto|]. right. exists t, r. unfold isalnum, isdigit, isalpha in E. unfold lower.
    split; [reflexivity|]. destruct ((65 <=? t) && (t <=? 90)) eqn:EE; lia. }
  clear Ht. destruct Hcase as [->|[t [r [-> [E1 [E2 [E3 [E4 [E5 E6]]]]]]]]].
  - rewrite app_nil_r. destruct H as [|a Ha|b Hb|a b Ha Hb|a b Ha Hb].
    + reflexivity.
    + simpl in Ha. repeat (destruct Ha as [<-|Ha]; [reflexivity|]). destruct Ha.
    + simpl in Hb. repeat (destruct Hb as [<-|Hb]; [reflexivity|]). destruct Hb.
    + simpl in Ha, Hb. repeat (destruct Ha as [<-|Ha]; [repeat (destruct Hb as [<-|Hb]; [reflexivity|]); destruct Hb|]). destruct Ha.
    + simpl in Ha, Hb. repeat (destruct Ha as [<-|Ha]; [repeat (destruct Hb as [<-|Hb]; [reflexivity|]); destruct Hb|]). destruct Ha.
  - assert (F1 : (76 =? t) = false) by lia. assert (F2 : (108 =? t) = false) by lia.
    assert (F3 : (85 =? t) = false) by lia. assert (F4 : (117 =? t) = false) by lia.
    assert (F5 : (117 =? lower t) = false) by lia. assert (F6 : (108 =? lower t) = false) by lia.
    Local Ltac crunch := unfold int_suffix, startwith, startcase2;
      repeat match goal with |- context[bs ?s] => let v := eval vm_compute in (bs s) in change (bs s) with v end;
      cbn -[Z.eqb lower]; unfold at_; cbn -[Z.eqb lower];
      repeat (first [progress (rewrite ?Z.eqb_refl) | match goal with H : (?a =? ?b) = _ |- context[?a =? ?b] => rewrite H end
         | progress (cbn -[Z.eqb lower])
         | match goal with |- context[Z.eqb (Zpos ?a) (Zpos ?b)] => let v := eval vm_compute in (Z.eqb (Zpos a) (Zpos b)) in change (Z.eqb (Zpos a) (Zpos b)) with v end
         | match goal with |- context[lower (Zpos ?a)] => let v := eval vm_compute in (lower (Zpos a)) in change (lower (Zpos a)) with v end ]);
      reflexivity.
    destruct H as [|a Ha|b Hb|a b Ha Hb|a b Ha Hb].
    + crunch.
    + simpl in Ha. repeat (destruct Ha as [<-|Ha]; [crunch|]). destruct Ha.
    + simpl in Hb. repeat (destruct Hb as [<-|Hb]; [crunch|]). destruct Hb.
    + simpl in Ha, Hb. repeat (destruct Ha as [<-|Ha]; [repeat (destruct Hb as [<-|Hb]; [crunch|]); destruct Hb|]). destruct Ha.
    + simpl in Ha, Hb. repeat (destruct Ha as [<-|Ha]; [repeat (destruct Hb as [<-|Hb]; [crunch|]); destruct Hb|]). destruct Ha.
Qed.

Definition ty_of (t : cint) : ity := match t with c_int => Int | c_uint => UInt | c_long => Long | c_ulong => ULong end.

Lemma shiftr_zero v k : 0 <= k < 64 -> 0 <= v < 2^64 -> k <= 63 -> (Z.shiftr (int64 v) k =? 0) = (v <? 2^k).
Proof.
  intros Hk Hv Hk2. rewrite Z.shiftr_div_pow2 by lia. unfold int64.
  assert (Hp : 0 < 2^k) by (apply Z.pow_pos_nonneg; lia).
  assert (Hle : 2^k <= 2^63) by (apply Z.pow_le_mono_r; lia).
  destruct (Z.ltb_spec v (2^63)).
  - replace ((v + 2^63) mod 2^64) with (v + 2^63) by (symmetry; apply Z.mod_small; lia).
    replace (v + 2^63 - 2^63) with v by lia.
    destruct (Z.ltb_spec v (2^k)).
    + rewrite Z.div_small by lia. reflexivity.
    + assert (1 <= v / 2^k) by (apply Z.div_le_lower_bound; lia). lia.
  - replace ((v + 2^63) mod 2^64) with (v + 2^63 - 2^64).
    2:{ apply Z.mod_unique with 1; lia. }
    destruct (Z.ltb_spec v (2^k)); [lia|].
    assert ((v + 2^63 - 2^64 - 2^63) / 2^k < 0) by (apply Z.div_lt_upper_bound; lia). lia.
Qed.

Lemma int_type_spec base l u v t : (base = 2 \/ base = 8 \/ base = 16 \/ base = 10) -> 0 <= v < 2^64 ->
  first_fit (candidates (base =? 10) l u) v = Some t -> int_type base l u (int64 v) = ty_of t.
Proof.
  intros Hb Hv H. unfold int_type. rewrite !shiftr_zero by lia.
  destruct Hb as [->|[->|[->| ->]]]; simpl (_ =? 10) in *; cbv iota; destruct l, u; cbn [candidates first_fit andb type_max] in *;
    repeat match type of H with context[?a <=? ?b] => destruct (Z.leb_spec a b) end; try discriminate; injection H as <-; cbn [ty_of];
    repeat match goal with |- context[?a <? ?b] => destruct (Z.ltb_spec a b) end; cbn [negb]; try reflexivity; lia.
Qed.

Lemma isxdigit_hex c d : hex_digit c = Some d -> isxdigit c = true.
Proof. unfold hex_digit, isxdigit. destruct ((48 <=? c) && (c <=? 57)) eqn:E1; [lia|].
  destruct ((65 <=? c) && (c <=? 70)) eqn:E2; [lia|]. destruct ((97 <=? c) && (c <=? 102)) eqn:E3; [lia|discriminate]. Qed.

(** What may follow the digits: not x, b. *)
Lemma after_digits suf l u tail : suffix suf l u -> ends_number tail ->
  suf ++ tail = [] \/ exists t r, suf ++ tail = t :: r /\ lower t <> 120 /\ lower t <> 98.
Proof.
  intros H Ht. destruct H as [|a Ha|b Hb'|a b Ha Hb'|a b Ha Hb'].
  - destruct Ht as [->|[t [r [-> E]]]]; [auto|right]. exists t, r. unfold isalnum, isdigit, isalpha in E. unfold lower.
    split; [reflexivity|]. destruct ((65 <=? t) && (t <=? 90)) eqn:EE; lia.
  - right. simpl in Ha. repeat (destruct Ha as [<-|Ha]; [eexists _, _; split; [reflexivity|cbv; split; discriminate]|]). destruct Ha.
  - right. simpl in Hb'. repeat (destruct Hb' as [<-|Hb']; [eexists _, _; split; [reflexivity|cbv; split; discriminate]|]). destruct Hb'.
  - right. simpl in Ha. repeat (destruct Ha as [<-|Ha]; [eexists _, _; split; [reflexivity|cbv; split; discriminate]|]). destruct Ha.
  - right. simpl in Hb'. repeat (destruct Hb' as [<-|Hb']; [eexists _, _; split; [reflexivity|cbv; split; discriminate]|]). destruct Hb'.
Qed.

Lemma strtoul_noprefix base p : (forall x r, p = 48 :: x :: r -> x <> 120 /\ x <> 88) -> 
  strtoul base p = (let (v, r) := digits base p 0 in (Z.min v (2^64-1), r)).
Proof.
  intros H. unfold strtoul. destruct p as [|a p]; [reflexivity|]. 
  destruct (Z.eq_dec a 48) as [->|Ha].
  - destruct p as [|x p]; [reflexivity|]. destruct (H x p eq_refl) as [H1 H2].
    destruct p as [|d p]; [reflexivity|].
    replace ((x =? 120) || (x =? 88)) with false by lia. rewrite andb_false_r. reflexivity.
  - assert (E : match a :: p with
      | 48 :: x :: d :: _ => if (base =? 16) && ((x =? 120) || (x =? 88)) && isxdigit d then skipn 2 (a :: p) else a :: p
      | _ => a :: p end = a :: p).
    { destruct a as [|a|a]; try reflexivity. repeat (destruct a as [a|a|]; try reflexivity; try (exfalso; apply Ha; reflexivity)). }
    rewrite E. reflexivity.
Qed.

Lemma finish base dig ds v suf l u tail t (p : bytes) len : 
  dig_ok dig base -> (base = 2 \/ base = 8 \/ base = 16 \/ base = 10) ->
  numeral dig base 0 ds = Some v -> v < 2^64 -> suffix suf l u -> ends_number tail ->
  first_fit (candidates (base =? 10) l u) v = Some t ->
  (forall x r, ds ++ suf ++ tail = 48 :: x :: r -> x <> 120 /\ x <> 88) ->
  (length p = len + length tail)%nat ->
  (let (v, p2) := strtoul base (ds ++ suf ++ tail) in
   let val := int64 v in
   let '(l, u, p3) := int_suffix p2 in
   if (length p - length p3 =? len)%nat then Some (val, int_type base l u val) else None) = Some (int64 v, ty_of t).
Proof.
  intros Hd Hb Hn Hv Hs Ht Hf Hx Hl. rewrite strtoul_noprefix by exact Hx.
  rewrite (digits_numeral dig base Hd _ _ _ _ Hn).
  2:{ eapply suffix_digit; eauto. lia. }
  assert (0 <= v) by (eapply numeral_nonneg; eauto; lia).
  rewrite Z.min_l by lia. cbv zeta. rewrite (int_suffix_spec _ _ _ _ Hs Ht).
  replace (length p - length tail =? len)%nat with true by (symmetry; apply Nat.eqb_eq; lia).
  rewrite (int_type_spec _ _ _ _ t); auto; lia.
Qed.

Lemma startcase2_no p q0 q1 : at_ p 0 <> q0 -> (65 <= at_ p 0 <= 90 -> at_ p 0 + 32 <> q0) -> startcase2 p [q0; q1] = false.
Proof.
  intros H1 H2. unfold startcase2. destruct p as [|a p]; [reflexivity|]. cbn [firstn map is_prefix].
  unfold at_ in *. simpl in H1, H2. unfold lower. destruct ((65 <=? a) && (a <=? 90)) eqn:E; [|destruct (Z.eqb_spec q0 a); [congruence|reflexivity]].
  destruct (Z.eqb_spec q0 (a+32)); [lia|reflexivity].
Qed.
Lemma startcase2_no2 a b p q0 q1 : lower b <> q1 -> startcase2 (a :: b :: p) [q0; q1] = false.
Proof. intro H. unfold startcase2. cbn [firstn map is_prefix]. destruct (Z.eqb_spec q1 (lower b)); [congruence|]. cbn. apply andb_false_r. Qed.

Lemma hexdig_not_x c d : hex_digit c = Some d -> c <> 120 /\ c <> 88.
Proof. unfold hex_digit. destruct ((48 <=? c) && (c <=? 57)) eqn:E1; [lia|].
  destruct ((65 <=? c) && (c <=? 70)) eqn:E2; [lia|]. destruct ((97 <=? c) && (c <=? 102)) eqn:E3; [lia|discriminate]. Qed.

Lemma numeral_head dig base acc c ds v : numeral dig base acc (c :: ds) = Some v -> exists d, dig c = Some d.
Proof. cbn [numeral]. destruct (dig c); [eauto|discriminate]. Qed.

Lemma numeral_no_x dig base ds v suf l u tail : dig_ok dig base -> base <= 16 -> numeral dig base 0 ds = Some v -> suffix suf l u -> ends_number tail ->
  forall x r, ds ++ suf ++ tail = 48 :: x :: r -> x <> 120 /\ x <> 88.
Proof.
  intros Hd Hb Hn Hs Ht x r E.
  assert (Hdig : forall c d, dig c = Some d -> c <> 120 /\ c <> 88).
  { intros c d Hc. apply Hd in Hc as [H1 H2]. split; intros ->; [change (digit_val 120) with 33 in H1|change (digit_val 88) with 33 in H1]; lia. }
  destruct (after_digits _ _ _ _ Hs Ht) as [E0|[t [q [E0 [Hx _]]]]]; rewrite E0 in E.
  - rewrite app_nil_r in E. subst ds. cbn [numeral] in Hn. destruct (dig 48); [|discriminate].
    destruct (dig x) eqn:Ex; [|discriminate]. eauto.
  - assert (Hlow : forall a, lower a <> 120 -> a <> 120 /\ a <> 88).
    { intros a Ha. split; intros ->; apply Ha; reflexivity. }
    destruct ds as [|c [|c' ds]]; cbn [app] in E.
    + destruct (suffix_digit _ _ _ _ base Hs Ht Hb) as [H|H]; rewrite E0 in H; [discriminate|].
      simpl in H. injection E as -> ->. 
      exfalso. (* t = 48 : not reachable *)
      destruct Hs as [|a Ha|b Hb'|a b Ha Hb'|a b Ha Hb'].
      * destruct Ht as [->|[t' [r' [-> Et]]]]; [discriminate|]. cbn [app] in E0. injection E0 as -> ->. discriminate.
      * simpl in Ha. repeat (destruct Ha as [<-|Ha]; [cbn in E0; discriminate|]). destruct Ha.
      * simpl in Hb'. repeat (destruct Hb' as [<-|Hb']; [cbn in E0; discriminate|]). destruct Hb'.
      * simpl in Ha. repeat (destruct Ha as [<-|Ha]; [cbn in E0; discriminate|]). destruct Ha.
      * simpl in Hb'. repeat (destruct Hb' as [<-|Hb']; [cbn in E0; discriminate|]). destruct Hb'.
    + injection E as _ <- _. auto.
    + cbn [numeral] in Hn. destruct (dig c); [|discriminate]. destruct (dig c') eqn:Ex; [|discriminate].
      assert (c' = x) by congruence. subst. eauto.
Qed.

Lemma convert_pp_int_spec b dec v suf l u tail t :
  int_const b dec v -> suffix suf l u -> ends_number tail -> v < 2^64 ->
  first_fit (candidates dec l u) v = Some t ->
  convert_pp_int (b ++ suf ++ tail) (length (b ++ suf)) = Some (int64 v, ty_of t).
Proof.
  intros Hc Hs Ht Hv Hf.
  assert (Hlen : length (b ++ suf ++ tail) = (length (b ++ suf) + length tail)%nat) by (rewrite !app_length; lia).
  unfold convert_pp_int. change (bs "0x") with [48; 120]. change (bs "0b") with [48; 98].
  destruct Hc as [c ds v H48 Hn|ds v Hn|x c ds v Hx Hn|x c ds v Hx Hn].
  - destruct (numeral_head _ _ _ _ _ _ Hn) as [d Hd]. 
    assert (Hc : 49 <= c <= 57). { unfold dec_digit in Hd. destruct ((48 <=? c) && (c <=? 57)) eqn:E; [lia|discriminate]. }
    assert (Ea : at_ ((c :: ds) ++ suf ++ tail) 0 = c) by reflexivity.
    rewrite !startcase2_no by (rewrite Ea; lia). cbn [andb]. rewrite Ea.
    replace (c =? 48) with false by lia.
    eapply (finish 10 dec_digit); eauto using dec_ok. 
    eapply numeral_no_x; eauto using dec_ok. lia.
  - assert (Hno : startcase2 ((48 :: ds) ++ suf ++ tail) [48; 120] = false /\ startcase2 ((48 :: ds) ++ suf ++ tail) [48; 98] = false).
    { destruct ds as [|c ds].
      - destruct (after_digits _ _ _ _ Hs Ht) as [E0|[y [q [E0 [Hx1 Hx2]]]]]; cbn [app]; rewrite E0; [split; reflexivity|].
        split; apply startcase2_no2; assumption.
      - destruct (numeral_head _ _ _ _ _ _ Hn) as [d Hd]. unfold oct_digit in Hd.
        destruct ((48 <=? c) && (c <=? 55)) eqn:E; [|discriminate]. cbn [app].
        split; apply startcase2_no2; unfold lower; replace ((65 <=? c) && (c <=? 90)) with false by lia; lia. }
    destruct Hno as [-> ->]. cbn [andb]. change (at_ ((48 :: ds) ++ suf ++ tail) 0 =? 48) with true. cbv iota.
    eapply (finish 8 oct_digit); eauto using oct_ok.
    eapply (numeral_no_x oct_digit 8); eauto using oct_ok. lia.
  - destruct (numeral_head _ _ _ _ _ _ Hn) as [d Hd]. apply isxdigit_hex in Hd.
    assert (E1 : startcase2 ((48 :: x :: c :: ds) ++ suf ++ tail) [48; 120] = true) by (destruct Hx as [-> | ->]; reflexivity).
    rewrite E1. change (at_ ((48 :: x :: c :: ds) ++ suf ++ tail) 2) with c. rewrite Hd. cbn [andb].
    change (skipn 2 ((48 :: x :: c :: ds) ++ suf ++ tail)) with ((c :: ds) ++ suf ++ tail).
    eapply (finish 16 hex_digit); eauto using hex_ok.
    eapply (numeral_no_x hex_digit 16); eauto using hex_ok. lia.
  - destruct (numeral_head _ _ _ _ _ _ Hn) as [d Hd]. 
    assert (E1 : startcase2 ((48 :: x :: c :: ds) ++ suf ++ tail) [48; 120] = false) by (destruct Hx as [-> | ->]; reflexivity).
    assert (E2 : startcase2 ((48 :: x :: c :: ds) ++ suf ++ tail) [48; 98] = true) by (destruct Hx as [-> | ->]; reflexivity).
    rewrite E1, E2. change (at_ ((48 :: x :: c :: ds) ++ suf ++ tail) 2) with c. 
    replace ((c =? 48) || (c =? 49)) with true by (unfold bin_digit in Hd; destruct ((48 <=? c) && (c <=? 49)) eqn:E; [lia|discriminate]).
    cbn [andb].
    change (skipn 2 ((48 :: x :: c :: ds) ++ suf ++ tail)) with ((c :: ds) ++ suf ++ tail).
    eapply (finish 2 bin_digit); eauto using bin_ok.
    eapply (numeral_no_x bin_digit 2); eauto using bin_ok. lia.
Qed.

(** * String literals *)
Lemma sle_app : forall a q, Forall ordinary a ->
  string_literal_end (a ++ q) = lbind (string_literal_end q) (fun n => LOk (length a + n)%nat).
Proof.
  induction a as [|c a IH]; intros q H.
  - simpl. destruct (string_literal_end q); reflexivity.
  - inversion H as [|x y [A [B C]] Hy]; subst. cbn [app string_literal_end].
    destruct (Z.eqb_spec c 34); [contradiction|]. destruct (Z.eqb_spec c 10); [contradiction|].
    destruct (Z.eqb_spec c 92); [contradiction|]. rewrite IH by exact Hy.
    destruct (string_literal_end q); reflexivity.
Qed.

Lemma utf8_ordinary c : is_scalar c -> c <> 34 -> c <> 92 -> c <> 10 -> Forall ordinary (utf8_of c).
Proof.
  intros [Hr _] H1 H2 H3. unfold scalar_max in Hr. unfold utf8_of, ordinary.
  destruct (Z.ltb_spec c 0x80); [|destruct (Z.ltb_spec c 0x800); [|destruct (Z.ltb_spec c 0x10000)]];
    repeat constructor; lia.
Qed.

Lemma numeral_forall dig base (P : Z -> Prop) : (forall c d, dig c = Some d -> P c) ->
  forall ds acc v, numeral dig base acc ds = Some v -> Forall P ds.
Proof.
  intro HP. induction ds as [|c ds IH]; intros acc v H; [constructor|].
  cbn [numeral] in H. destruct (dig c) as [d|] eqn:E; [|discriminate]. constructor; eauto.
Qed.

Lemma oct_ordinary c d : oct_digit c = Some d -> ordinary c.
Proof. unfold oct_digit, ordinary. destruct ((48 <=? c) && (c <=? 55)) eqn:E; [lia|discriminate]. Qed.
Lemma hex_ordinary c d : hex_digit c = Some d -> ordinary c.
Proof. unfold hex_digit, ordinary. destruct ((48 <=? c) && (c <=? 57)) eqn:E1; [lia|].
  destruct ((65 <=? c) && (c <=? 70)) eqn:E2; [lia|]. destruct ((97 <=? c) && (c <=? 102)) eqn:E3; [lia|discriminate]. Qed.

Lemma simple_escape_not_oct c x : simple_escape c = Some x -> isodigit c = false /\ (c =? 120) = false.
Proof.
  unfold simple_escape, isodigit. intro H.
  repeat match type of H with (if ?a =? ?b then _ else _) = _ => destruct (Z.eqb_spec a b); [subst; split; reflexivity|] end.
  discriminate.
Qed.

Lemma body_end bits src v rest : body bits src v -> string_literal_end (src ++ 34 :: rest) = LOk (length src).
Proof.
  induction 1 as [|b r v Hb Hbyte H1 H2 H3 Hr IH|c r v Hb Hsc H0 H1 H2 H3 Hr IH|c x r v Hx Hr IH|ds x r v Hl Hn Hstop Hr IH|ds x r v Hl Hn Hstop Hr IH].
  - reflexivity.
  - change ((b :: r) ++ 34 :: rest) with ([b] ++ (r ++ 34 :: rest)). rewrite sle_app, IH; [reflexivity|]. repeat constructor; assumption.
  - rewrite <- app_assoc, sle_app, IH by (apply utf8_ordinary; assumption). simpl. rewrite app_length. reflexivity.
  - cbn [app string_literal_end Z.eqb]. simpl. rewrite IH. reflexivity.
  - assert (Ho : Forall ordinary ds) by (eapply numeral_forall; eauto using oct_ordinary).
    destruct ds as [|d ds]; [simpl in Hl; lia|]. inversion Ho as [|? ? Hd Hds]; subst.
    cbn [app string_literal_end]. change (92 =? 34) with false. change (92 =? 10) with false. change (92 =? 92) with true. cbv iota.
    rewrite <- app_assoc, sle_app, IH by exact Hds. cbn [lbind]. f_equal. cbn [length app]. rewrite app_length. lia.
  - assert (Ho : Forall ordinary ds) by (eapply numeral_forall; eauto using hex_ordinary).
    cbn [app string_literal_end]. change (92 =? 34) with false. change (92 =? 10) with false. change (92 =? 92) with true. cbv iota.
    rewrite <- app_assoc, sle_app, IH by exact Ho. cbn [lbind]. f_equal. cbn [length app]. rewrite app_length. lia.
Qed.

Lemma oct_loop_numeral : forall ds n acc v rest, numeral oct_digit 8 acc ds = Some v -> (length ds <= n)%nat ->
  (length ds = n \/ ~ starts_oct rest) -> oct_loop n (ds ++ rest) acc = (v, rest).
Proof.
  induction ds as [|c ds IH]; intros n acc v rest H Hn Hs.
  - simpl in H. injection H as <-. destruct n as [|n]; [destruct rest; reflexivity|].
    destruct Hs as [Hs|Hs]; [discriminate|]. destruct rest as [|c rest]; [reflexivity|]. cbn [app oct_loop].
    destruct (isodigit c) eqn:E; [|reflexivity]. exfalso. apply Hs. exists c, rest, (c - 48). split; [reflexivity|].
    unfold oct_digit. unfold isodigit in E. rewrite E. reflexivity.
  - cbn [numeral] in H. destruct (oct_digit c) as [d|] eqn:E; [|discriminate].
    destruct n as [|n]; [simpl in Hn; lia|]. cbn [app oct_loop].
    assert (Ei : isodigit c = true /\ from_oct c = d).
    { unfold oct_digit in E. unfold isodigit, from_oct. destruct ((48 <=? c) && (c <=? 55)); [|discriminate]. split; congruence. }
    destruct Ei as [-> ->]. rewrite Z.shiftl_mul_pow2 by lia. change (2^3) with 8.
    apply IH; [exact H|simpl in Hn; lia|]. simpl in Hs. destruct Hs; [left; lia|right; assumption].
Qed.

Lemma int32_mod z : (int32 z) mod 2^32 = z mod 2^32.
Proof. unfold int32. change (2^32) with 4294967296. change (2^31) with 2147483648. lia. Qed.

Lemma int32_small z : - 2^31 <= z < 2^31 -> int32 z = z.
Proof. unfold int32. intro H. rewrite Z.mod_small; lia. Qed.

Lemma hex_from c d : hex_digit c = Some d -> from_hex c = d /\ 0 <= d < 16.
Proof.
  unfold hex_digit, from_hex. destruct ((48 <=? c) && (c <=? 57)) eqn:E1; [intro H; injection H as <-; lia|].
  destruct ((65 <=? c) && (c <=? 70)) eqn:E2.
  - intro H. injection H as <-. replace ((97 <=? c) && (c <=? 102)) with false by lia. lia.
  - destruct ((97 <=? c) && (c <=? 102)) eqn:E3; [|discriminate]. intro H. injection H as <-. lia.
Qed.

Lemma hex_loop_numeral : forall ds acc acc' v rest, numeral hex_digit 16 acc ds = Some v -> ~ starts_hex rest ->
  acc' mod 2^32 = acc mod 2^32 ->
  exists v', hex_loop (ds ++ rest) acc' = (v', rest) /\ v' mod 2^32 = v mod 2^32.
Proof.
  induction ds as [|c ds IH]; intros acc acc' v rest H Hs Ha.
  - simpl in H. injection H as <-. exists acc'. split; [|exact Ha]. destruct rest as [|c rest]; [reflexivity|]. cbn [app hex_loop].
    destruct (isxdigit c) eqn:E; [|reflexivity]. exfalso. apply Hs. 
    unfold isxdigit in E. destruct (hex_digit c) as [d|] eqn:Eh; [exists c, rest, d; auto|].
    unfold hex_digit in Eh. destruct ((48 <=? c) && (c <=? 57)) eqn:E1; [discriminate|].
    destruct ((65 <=? c) && (c <=? 70)) eqn:E2; [discriminate|]. destruct ((97 <=? c) && (c <=? 102)) eqn:E3; [discriminate|]. lia.
  - cbn [numeral] in H. destruct (hex_digit c) as [d|] eqn:E; [|discriminate].
    cbn [app hex_loop]. rewrite (isxdigit_hex _ _ E). destruct (hex_from _ _ E) as [-> Hd].
    rewrite Z.shiftl_mul_pow2 by lia. change (2^4) with 16.
    eapply IH; [exact H|exact Hs|]. rewrite int32_mod. change (2^32) with 4294967296 in *. lia.
Qed.

Lemma hex_stop rest acc : ~ starts_hex rest -> hex_loop rest acc = (acc, rest).
Proof.
  intro Hs. destruct rest as [|c rest]; [reflexivity|]. cbn [hex_loop].
  destruct (isxdigit c) eqn:E; [|reflexivity]. exfalso. apply Hs.
  unfold isxdigit in E. destruct (hex_digit c) as [d|] eqn:Eh; [exists c, rest, d; auto|].
  unfold hex_digit in Eh. destruct ((48 <=? c) && (c <=? 57)) eqn:E1; [discriminate|].
  destruct ((65 <=? c) && (c <=? 70)) eqn:E2; [discriminate|]. destruct ((97 <=? c) && (c <=? 102)) eqn:E3; [discriminate|]. lia.
Qed.

Lemma hex_loop_small : forall ds acc v rest, numeral hex_digit 16 acc ds = Some v -> ~ starts_hex rest -> 0 <= acc -> v < 2^31 ->
  hex_loop (ds ++ rest) acc = (v, rest).
Proof.
  induction ds as [|c ds IH]; intros acc v rest H Hs Ha Hv.
  - simpl in H. injection H as <-. apply hex_stop. exact Hs.
  - cbn [numeral] in H. destruct (hex_digit c) as [d|] eqn:E; [|discriminate].
    cbn [app hex_loop]. rewrite (isxdigit_hex _ _ E). destruct (hex_from _ _ E) as [-> Hd].
    rewrite Z.shiftl_mul_pow2 by lia. change (2^4) with 16.
    assert (Hmono : forall ds acc v, numeral hex_digit 16 acc ds = Some v -> 0 <= acc -> acc <= v).
    { clear. induction ds as [|c ds IH]; intros acc v H Ha; simpl in H; [injection H as <-; lia|].
      destruct (hex_digit c) as [d|] eqn:E; [|discriminate]. apply hex_from in E as [_ E].
      specialize (IH _ _ H ltac:(lia)). lia. }
    specialize (Hmono _ _ _ H ltac:(lia)).
    rewrite int32_small by lia. apply IH; [assumption|assumption|lia|assumption].
Qed.

Lemma escape_simple c x r : simple_escape c = Some x -> read_escaped_char (c :: r) = LOk (x, r).
Proof.
  intro H. destruct (simple_escape_not_oct _ _ H) as [E1 E2]. cbn [read_escaped_char]. rewrite E1, E2.
  unfold simple_escape in H.
  repeat match type of H with (if ?a =? ?b then _ else _) = _ => destruct (Z.eqb_spec a b); [subst; injection H as <-; reflexivity|] end.
  discriminate.
Qed.

Lemma escape_oct ds x rest : (1 <= length ds <= 3)%nat -> numeral oct_digit 8 0 ds = Some x ->
  (length ds = 3%nat \/ ~ starts_oct rest) -> read_escaped_char (ds ++ rest) = LOk (x, rest).
Proof.
  intros Hl Hn Hs. destruct ds as [|c ds]; [simpl in Hl; lia|]. 
  destruct (numeral_head _ _ _ _ _ _ Hn) as [d Hd].
  unfold read_escaped_char. cbn [app].
  assert (E : isodigit c = true). { unfold oct_digit in Hd. unfold isodigit. destruct ((48 <=? c) && (c <=? 55)); [reflexivity|discriminate]. }
  rewrite E. change (c :: ds ++ rest) with ((c :: ds) ++ rest). rewrite (oct_loop_numeral _ _ _ x); [reflexivity|exact Hn|lia|exact Hs].
Qed.

Lemma escape_hex_head ds rest x : ds <> [] -> numeral hex_digit 16 0 ds = Some x ->
  read_escaped_char (120 :: ds ++ rest) = LOk (hex_loop (ds ++ rest) 0).
Proof.
  intros Hl Hn. destruct ds as [|c ds]; [congruence|]. destruct (numeral_head _ _ _ _ _ _ Hn) as [d Hd].
  apply isxdigit_hex in Hd. cbn [read_escaped_char]. change (isodigit 120) with false. change (120 =? 120) with true. cbv iota.
  change (at_ ((c :: ds) ++ rest) 0) with c. rewrite Hd. reflexivity.
Qed.

Lemma quote_not_hex rest : ~ starts_hex (34 :: rest).
Proof. intros [c [t [d [E H]]]]. injection E as <- _. discriminate. Qed.
Lemma starts_hex_app r rest : starts_hex (r ++ 34 :: rest) -> starts_hex r.
Proof.
  intros [c [t [d [E H]]]]. destruct r as [|a r]; cbn [app] in E; [assert (c = 34) by congruence; subst; discriminate|]. exists a, r, d. split; [reflexivity|congruence].
Qed.
Lemma starts_oct_app r rest : starts_oct (r ++ 34 :: rest) -> starts_oct r.
Proof.
  intros [c [t [d [E H]]]]. destruct r as [|a r]; cbn [app] in E; [assert (c = 34) by congruence; subst; discriminate|]. exists a, r, d. split; [reflexivity|congruence].
Qed.

Lemma mod_pow_bits a b bits : bits = 8 \/ bits = 16 \/ bits = 32 -> a mod 2^32 = b mod 2^32 -> a mod 2^bits = b mod 2^bits.
Proof.
  intros Hb H. intros. 
  destruct Hb as [->|[->| ->]]; change (2^8) with 256; change (2^16) with 65536; change (2^32) with 4294967296 in *; lia.
Qed.

Lemma simple_escape_range c x : simple_escape c = Some x -> 0 <= x < 128.
Proof.
  unfold simple_escape. intro H.
  repeat match type of H with (if ?a =? ?b then _ else _) = _ => destruct (Z.eqb_spec a b); [subst; injection H as <-; lia|] end.
  discriminate.
Qed.

(** One round of the loop, by kind of character. *)
Lemma round_escape f bits r rem x q : (0 < rem)%nat -> read_escaped_char r = LOk (x, q) ->
  string_loop (S f) bits (92 :: r) rem =
  lbind (string_loop f bits q (rem - (S (length r) - length q))%nat) (fun l => LOk (x mod 2^bits :: l)).
Proof.
  intros Hr H. destruct rem as [|rem]; [lia|]. cbn [string_loop]. rewrite H. reflexivity.
Qed.

Lemma round_plain f bits c r rem es q : c <> 92 -> (0 < rem)%nat -> store_plain bits (c :: r) = LOk (es, q) ->
  string_loop (S f) bits (c :: r) rem =
  lbind (string_loop f bits q (rem - (S (length r) - length q))%nat) (fun l => LOk (es ++ l)).
Proof.
  intros Hc Hr H. destruct rem as [|rem]; [lia|]. cbn [string_loop].
  assert (Hx : match c :: r with 92 :: r0 => lbind (read_escaped_char r0) (fun vr => LOk ([fst vr mod 2^bits], snd vr))
               | _ => store_plain bits (c :: r) end = store_plain bits (c :: r)).
  { destruct c as [|c|c]; try reflexivity. do 7 (destruct c as [c|c|]; try reflexivity). congruence. }
  rewrite Hx, H. reflexivity.
Qed.

Lemma utf8_length c : (1 <= length (utf8_of c))%nat.
Proof. unfold utf8_of. destruct (c <? 128); [|destruct (c <? 2048); [|destruct (c <? 65536)]]; simpl; lia. Qed.

Lemma decode_utf8_of c rest : is_scalar c -> decode_utf8 (utf8_of c ++ rest) = Some (c, length (utf8_of c)).
Proof.
  intros [H _]. unfold scalar_max in H. rewrite <- encode_is_utf8 by lia. apply decode_encode. lia.
Qed.

Lemma store_plain_char bits c rest : bits = 16 \/ bits = 32 -> is_scalar c ->
  store_plain bits (utf8_of c ++ rest) = LOk (encode_elem bits c, rest).
Proof.
  intros Hb Hc. unfold store_plain, encode_elem. rewrite decode_utf8_of by exact Hc.
  assert (Hsk : skipn (length (utf8_of c)) (utf8_of c ++ rest) = rest) by (rewrite skipn_app, skipn_all, Nat.sub_diag; reflexivity).
  rewrite Hsk.
  destruct Hb as [-> | ->]; cbn [Z.eqb]; simpl (_ =? _); cbv iota; [|reflexivity].
  unfold utf16_of. destruct (c <? 65536) eqn:E; [reflexivity|]. f_equal. f_equal.
  rewrite !land_1023, Z.shiftr_div_pow2 by lia. change (2^10) with 1024.
  destruct Hc as [Hr _]. unfold scalar_max in Hr.
  replace ((c - 65536) / 1024 mod 1024) with ((c - 65536) / 1024) by (symmetry; apply Z.mod_small; lia). reflexivity.
Qed.

Lemma utf8_head c : is_scalar c -> c <> 92 -> exists b t, utf8_of c = b :: t /\ b <> 92.
Proof.
  intros [H _] Hc. unfold scalar_max in H. unfold utf8_of.
  destruct (c <? 128); [|destruct (c <? 2048); [|destruct (c <? 65536)]]; eexists _, _; (split; [reflexivity|lia]).
Qed.

Lemma body_loop bits src v rest : bits = 8 \/ bits = 16 \/ bits = 32 -> body bits src v ->
  forall f, (length src < f)%nat -> string_loop f bits (src ++ 34 :: rest) (length src) = LOk v.
Proof.
  intros Hbits. induction 1 as [|b r v Hb Hbyte H1 H2 H3 Hr IH|c r v Hb Hsc H0 H1 H2 H3 Hr IH|c x r v Hx Hr IH|ds x r v Hl Hn Hstop Hr IH|ds x r v Hl Hn Hstop Hr IH];
    intros f Hf; (destruct f as [|f]; [simpl in Hf; lia|]).
  - reflexivity.
  - cbn [app]. rewrite (round_plain f bits b (r ++ 34 :: rest) _ [b] (r ++ 34 :: rest)); [|assumption|simpl; lia|subst bits; reflexivity].
    replace (length (b :: r) - (S (length (r ++ 34%Z :: rest)) - length (r ++ 34%Z :: rest)))%nat with (length r) by (simpl; lia).
    rewrite IH by (simpl in Hf; lia). reflexivity.
  - destruct (utf8_head c Hsc H2) as [b [t [Ht Hbt]]]. assert (Hs := store_plain_char bits c (r ++ 34 :: rest) Hb Hsc).
    assert (Hlen : length (utf8_of c) = S (length t)) by (rewrite Ht; reflexivity).
    rewrite <- app_assoc, app_length. rewrite Ht in *. cbn [app] in *.
    rewrite (round_plain f bits b _ (length (b :: t) + length r)%nat _ _ Hbt ltac:(simpl; lia) Hs).
    replace (length (b :: t) + length r - (S (length (t ++ r ++ 34%Z :: rest)) - length (r ++ 34%Z :: rest)))%nat with (length r)
      by (rewrite (app_length t); simpl; lia).
    rewrite IH by (rewrite ?app_length in Hf; simpl in Hf; rewrite app_length in Hf; lia). reflexivity.
  - cbn [app]. rewrite (round_escape f bits _ (length (92 :: c :: r)) _ _ ltac:(simpl; lia) (escape_simple c x (r ++ 34 :: rest) Hx)).
    replace (length (92%Z :: c :: r) - (S (length (c :: r ++ 34%Z :: rest)) - length (r ++ 34%Z :: rest)))%nat with (length r) by (simpl; lia).
    rewrite IH by (simpl in Hf; lia). cbn [lbind]. apply simple_escape_range in Hx. rewrite Z.mod_small; [reflexivity|].
    destruct Hbits as [->|[->| ->]]; lia.
  - cbn [app]. rewrite <- app_assoc.
    rewrite (round_escape f bits _ (length (92 :: ds ++ r)) _ _ ltac:(simpl; lia) (escape_oct ds x (r ++ 34 :: rest) Hl Hn ltac:(destruct Hstop; [left; assumption|right; intro Hs; apply starts_oct_app in Hs; contradiction]))).
    replace (length (92%Z :: ds ++ r) - (S (length (ds ++ r ++ 34%Z :: rest)) - length (r ++ 34%Z :: rest)))%nat with (length r)
      by (cbn [length]; rewrite !(app_length ds); lia).
    rewrite IH by (simpl in Hf; rewrite app_length in Hf; lia). reflexivity.
  - cbn [app]. rewrite <- app_assoc.
    destruct (hex_loop_numeral ds 0 0 x (r ++ 34 :: rest) Hn ltac:(intro Hs; apply starts_hex_app in Hs; contradiction) eq_refl) as [x' [E1 E2]].
    assert (Ee := escape_hex_head ds (r ++ 34 :: rest) x Hl Hn). rewrite E1 in Ee.
    rewrite (round_escape f bits _ (length (92 :: 120 :: ds ++ r)) _ _ ltac:(simpl; lia) Ee).
    replace (length (92%Z :: 120%Z :: ds ++ r) - (S (length (120%Z :: ds ++ r ++ 34%Z :: rest)) - length (r ++ 34%Z :: rest)))%nat with (length r)
      by (cbn [length]; rewrite !(app_length ds); lia).
    rewrite IH by (simpl in Hf; rewrite app_length in Hf; lia). cbn [lbind]. rewrite (mod_pow_bits x' x) by assumption. reflexivity.
Qed.

Lemma read_string_body bits src v rest : bits = 8 \/ bits = 16 \/ bits = 32 -> body bits src v ->
  read_string bits (src ++ 34 :: rest) = LOk (v ++ [0], length src).
Proof.
  intros Hb H. unfold read_string. rewrite (body_end _ _ _ _ H). cbn [lbind].
  rewrite (body_loop _ _ _ _ Hb H) by lia. reflexivity.
Qed.

Lemma quote39_not_hex rest : ~ starts_hex (39 :: rest).
Proof. intros [c [t [d [E H]]]]. injection E as <- _. discriminate. Qed.
Lemma quote39_not_oct rest : ~ starts_oct (39 :: rest).
Proof. intros [c [t [d [E H]]]]. injection E as <- _. discriminate. Qed.

Lemma read_char_body src v rest : char_body src v -> read_char_literal (src ++ 39 :: rest) = LOk (v, length src).
Proof.
  intros H. destruct H as [c Hsc H0 H1 H2 H3|c x Hx|ds x Hl Hn|ds x Hl Hn Hx].
  - destruct (utf8_head c Hsc H2) as [b [t [Ht Hbt]]]. assert (Hd := decode_utf8_of c (39 :: rest) Hsc).
    assert (Hsk : skipn (length (utf8_of c)) (utf8_of c ++ 39 :: rest) = 39 :: rest) by (rewrite skipn_app, skipn_all, Nat.sub_diag; reflexivity).
    rewrite Ht in *. cbn [app] in *. cbn [read_char_literal]. replace (b =? 92) with false by lia. rewrite Hd. cbn [lbind fst snd]. rewrite Hsk.
    cbn [strchr]. rewrite Z.eqb_refl. f_equal. f_equal. cbn [length]. rewrite app_length. cbn [length]. lia.
  - cbn [app read_char_literal]. change (92 =? 92) with true. cbv iota. rewrite (escape_simple _ _ _ Hx). cbn [lbind fst snd strchr].
    rewrite Z.eqb_refl. f_equal. f_equal. cbn [length]. lia.
  - cbn [app read_char_literal]. change (92 =? 92) with true. cbv iota.
    rewrite (escape_oct ds x (39 :: rest) Hl Hn (or_intror (quote39_not_oct rest))). cbn [lbind fst snd strchr].
    rewrite Z.eqb_refl. f_equal. f_equal. cbn [length]. rewrite app_length. cbn [length]. lia.
  - cbn [app read_char_literal]. change (92 =? 92) with true. cbv iota. rewrite (escape_hex_head ds (39 :: rest) x Hl Hn).
    rewrite (hex_loop_small ds 0 x (39 :: rest) Hn (quote39_not_hex rest) ltac:(lia) Hx). cbn [lbind fst snd strchr].
    rewrite Z.eqb_refl. f_equal. f_equal. cbn [length]. rewrite app_length. cbn [length]. lia.
Qed.

(** * UTF-16 and UTF-32 contents of plain text *)
Definition plain_char (c : Z) : Prop := is_scalar c /\ c <> 0 /\ c <> 34 /\ c <> 92 /\ c <> 10.

Lemma plain_body bits cs : bits = 16 \/ bits = 32 -> Forall plain_char cs ->
  body bits (flat_map utf8_of cs) (flat_map (encode_elem bits) cs).
Proof.
  intros Hb. induction 1 as [|c cs [H1 [H2 [H3 [H4 H5]]]] Hcs IH]; [constructor|].
  cbn [flat_map]. apply body_char; assumption.
Qed.

Lemma utf16_decode_encode cs : Forall is_scalar cs -> utf16_decode (flat_map utf16_of cs) = cs.
Proof.
  induction 1 as [|c cs [Hr Hs] Hcs IH]; [reflexivity|]. unfold scalar_max in Hr.
  cbn [flat_map]. unfold utf16_of at 1. destruct (Z.ltb_spec c 65536).
  - cbn [app]. cbn [utf16_decode]. destruct (flat_map utf16_of cs) as [|lo r] eqn:E.
    + simpl in IH. rewrite IH. reflexivity.
    + replace ((55296 <=? c) && (c <? 56320)) with false by lia. cbn [andb]. rewrite IH. reflexivity.
  - cbn [app utf16_decode].
    replace ((55296 <=? 55296 + (c - 65536) / 1024) && (55296 + (c - 65536) / 1024 <? 56320) &&
             (56320 <=? 56320 + (c - 65536) mod 1024) && (56320 + (c - 65536) mod 1024 <? 57344)) with true by lia.
    rewrite IH. f_equal. lia.
Qed.

(** * Quoting *)
Lemma quote_body s : (forall b, In b s -> 0 < b < 256 /\ b <> 10) -> body 8 (flat_map quote_char s) s.
Proof.
  induction s as [|b s IH]; intro H; [constructor|]. cbn [flat_map]. unfold quote_char at 1.
  assert (IH' := IH (fun x Hx => H x (or_intror Hx))). destruct (H b (or_introl eq_refl)) as [H1 H2].
  destruct (Z.eqb_spec b 92) as [->|Hb]; [apply body_simple; [reflexivity|exact IH']|].
  destruct (Z.eqb_spec b 34) as [->|Hb']; [apply body_simple; [reflexivity|exact IH']|].
  cbn [orb app]. apply body_byte; auto.
Qed.

Lemma tokenize_quoted s : (forall b, In b s -> 0 < b < 256 /\ b <> 10) ->
  exists t e, tokenize (quote_string s) = LOk [t; e] /\ kind t = TK_STR /\ loc t = 0%nat /\ tlen t = length (quote_string s) /\
    tbits t = 8 /\ tstr t = s ++ [0] /\ kind e = TK_EOF.
Proof.
  intros H. assert (Hb := quote_body s H). unfold quote_string. set (q := flat_map quote_char s) in *.
  assert (Hr : read_string 8 (q ++ 34 :: []) = LOk (s ++ [0], length q)) by (apply read_string_body; auto).
  assert (Hlen : length ([34] ++ q ++ [34]) = S (S (length q))) by (cbn [app length]; rewrite app_length; simpl; lia).
  assert (Hsk : skipn (S (length q + 1)) (34 :: q ++ [34]) = []).
  { cbn [skipn]. apply skipn_all2. rewrite app_length. simpl. lia. }
  exists (Tok TK_STR 0 (length ([34] ++ q ++ [34])) true false 1 0 8 (s ++ [0])), (set_line (Tok TK_EOF (length ([34] ++ q ++ [34])) 0 false false 0 0 0 []) (1 + newlines (firstn (length ([34] ++ q ++ [34])) ([34] ++ q ++ [34])))).
  split; [|cbn; auto 8]. unfold tokenize.
  assert (E : tokenize_loop (S (length ([34] ++ q ++ [34]))) ([34] ++ q ++ [34]) 0 true false =
     LOk [Tok TK_STR 0 (length ([34] ++ q ++ [34])) true false 0 0 8 (s ++ [0]); Tok TK_EOF (length ([34] ++ q ++ [34])) 0 false false 0 0 0 []]).
  { rewrite Hlen. cbn [app]. remember (S (S (length q))) as f eqn:Ef. cbn [tokenize_loop].
    change (startwith (34 :: q ++ [34]) [47; 47]) with false. change (startwith (34 :: q ++ [34]) [47; 42]) with false.
    change (34 =? 10) with false. change (isspace 34) with false. change (isdigit 34) with false. change (34 =? 46) with false. change (34 =? 34) with true.
    cbn [orb andb]. cbv iota. change (skipn 1 (34 :: q ++ [34])) with (q ++ [34]). rewrite Hr. cbn [lbind fst snd].
    change (1 + length q + 1)%nat with (S (length q + 1)). rewrite Hsk. subst f. cbn [tokenize_loop lbind].
    replace (S (length q + 1)) with (S (S (length q))) by lia. reflexivity. }
  rewrite E. cbn [lbind]. f_equal.
  rewrite add_line_number_spec.
  2:{ simpl. rewrite app_length. simpl. repeat split; lia. }
  cbn [map loc]. f_equal.
Qed.

(** * Concatenation *)
(** The token the tokenizer makes of a literal (see [tokenize_literal]). *)
Definition token_of (l : literal) (t : strtok) : Prop :=
  s_loc t = literal_text l /\ s_bits t = prefix_bits (l_prefix l) /\
  exists v, body (prefix_bits (l_prefix l)) (l_src l) v /\ s_str t = v ++ [0].

Definition kind_of (p : prefix) : skind :=
  match p with p_none => STR_NONE | p_u => STR_UTF16 | p_U => STR_UTF32 | p_L => STR_WIDE end.

Lemma kind_of_token l t : token_of l t -> getStringKind t = Some (kind_of (l_prefix l)).
Proof.
  intros [H _]. unfold getStringKind. rewrite H. unfold literal_text. destruct (l_prefix l); reflexivity.
Qed.

Lemma common_kind_spec : forall ls ts a, Forall2 token_of ls ts ->
  common_kind (kind_of a) (prefix_bits a) ts =
  match join_prefixes a (map l_prefix ls) with Some q => LOk (kind_of q, prefix_bits q) | None => LErr end.
Proof.
  induction ls as [|l ls IH]; intros ts a H; inversion H as [|? t ? ts' Ht Hts]; subst; [reflexivity|].
  cbn [common_kind map join_prefixes]. rewrite (kind_of_token _ _ Ht). destruct Ht as [_ [Hb _]]. rewrite Hb.
  unfold join_prefix. destruct a, (l_prefix l) eqn:Ep; cbn [kind_of skind_eqb prefix_eqb negb andb]; try reflexivity;
  match goal with |- _ = match join_prefixes ?q _ with _ => _ end => exact (IH ts' q Hts) end.
Qed.

Lemma join_prefixes_member : forall ps a q, join_prefixes a ps = Some q -> (a = p_none \/ a = q) /\ Forall (fun p => p = p_none \/ p = q) ps.
Proof.
  induction ps as [|b ps IH]; intros a q H; cbn [join_prefixes] in H.
  - injection H as <-. auto.
  - destruct (join_prefix a b) as [c|] eqn:E; [|discriminate]. destruct (IH c q H) as [I1 I2].
    unfold join_prefix in E. destruct a, b; cbn in E; try discriminate; injection E as <-; (split; [tauto|constructor; [tauto|exact I2]]).
Qed.

Lemma body_unique bits src v w : bits = 8 \/ bits = 16 \/ bits = 32 -> body bits src v -> body bits src w -> v = w.
Proof.
  intros Hb Hv Hw. assert (E1 := read_string_body bits src v [] Hb Hv). assert (E2 := read_string_body bits src w [] Hb Hw).
  rewrite E1 in E2. assert (E : v ++ [0] = w ++ [0]) by congruence. apply app_inv_tail in E. exact E.
Qed.

Lemma prefix_bits_cases p : prefix_bits p = 8 \/ prefix_bits p = 16 \/ prefix_bits p = 32.
Proof. destruct p; cbn; auto. Qed.

Definition made (bits : Z) (w : list Z) (t : strtok) : Prop := s_bits t = bits /\ s_str t = w ++ [0].

Lemma widen_all_spec q : forall ls ts ws, 8 < prefix_bits q -> Forall2 token_of ls ts -> Forall (fun p => p = p_none \/ p = q) (map l_prefix ls) ->
  Forall2 (fun l w => body (prefix_bits q) (l_src l) w) ls ws ->
  exists ts', widen_all (prefix_bits q) ts = LOk ts' /\ Forall2 (made (prefix_bits q)) ws ts'.
Proof.
  intros ls ts ws Hq. revert ts ws. induction ls as [|l ls IH]; intros ts ws H Hp Hw;
    inversion H as [|? t ? ts' Ht Hts]; subst; inversion Hw as [|? w ? ws' Hw1 Hws]; subst; [exists []; split; [reflexivity|constructor]|].
  cbn [map] in Hp. apply Forall_cons_iff in Hp as [Hp1 Hps].
  destruct (IH ts' ws' Hts Hps Hws) as [r' [E1 E2]]. cbn [widen_all].
  destruct Ht as [Ht1 [Ht2 [v [Ht3 Ht4]]]].
  assert (Hone : exists t', widen (prefix_bits q) t = LOk t' /\ made (prefix_bits q) w t').
  { unfold widen. rewrite Ht2. destruct Hp1 as [Ep|Ep].
    - rewrite Ep. cbn [prefix_bits]. change (8 =? 8) with true. cbv iota. rewrite Ht1. unfold literal_text. rewrite Ep. cbn [prefix_bytes app skipn].
      assert (Eb : (if prefix_bits q =? 16 then 16 else 32) = prefix_bits q) by (destruct q; cbn in *; try lia; reflexivity).
      rewrite Eb. rewrite (read_string_body _ _ w _ (prefix_bits_cases q) Hw1). cbn [lbind fst]. eexists. split; [reflexivity|]. split; reflexivity.
    - rewrite Ep in *. replace (prefix_bits q =? 8) with false by lia. exists t. split; [reflexivity|]. split; [exact Ht2|].
      rewrite Ht4. f_equal. eapply body_unique; eauto using prefix_bits_cases. }
  destruct Hone as [t' [E3 E4]]. rewrite E3. cbn [lbind]. rewrite E1. cbn [lbind]. exists (t' :: r'). split; [reflexivity|]. constructor; assumption.
Qed.

Lemma le_bytes_image n : forall v, le_bytes n v = le_image n v.
Proof. induction n as [|n IH]; intro v; cbn; [reflexivity|]. rewrite IH. reflexivity. Qed.
Lemma elems_image bits l : elems_bytes bits l = array_image bits l.
Proof. unfold elems_bytes, array_image. apply flat_map_ext. intro. apply le_bytes_image. Qed.
Lemma le_image_length n : forall v, length (le_image n v) = n.
Proof. induction n as [|n IH]; intro v; cbn; [reflexivity|]. rewrite IH. reflexivity. Qed.
Lemma image_length bits l : length (array_image bits l) = (length l * Z.to_nat (bits / 8))%nat.
Proof. unfold array_image. induction l as [|x l IH]; [reflexivity|]. cbn [flat_map]. rewrite app_length, le_image_length, IH. cbn [length]. lia. Qed.
Lemma image_app bits a b : array_image bits (a ++ b) = array_image bits a ++ array_image bits b.
Proof. unfold array_image. apply flat_map_app. Qed.
Lemma image_zero bits : array_image bits [0] = repeat 0 (Z.to_nat (bits / 8)).
Proof. unfold array_image. cbn [flat_map]. rewrite app_nil_r. generalize (Z.to_nat (bits / 8)). induction n as [|n IH]; [reflexivity|]. cbn. rewrite IH. reflexivity. Qed.

Lemma set_nth_app {A} (a : list A) x y b : set_nth (length a) x (a ++ y :: b) = a ++ x :: b.
Proof. induction a as [|z a IH]; [reflexivity|]. cbn. rewrite IH. reflexivity. Qed.

Lemma blit_spec : forall src (a b c : bytes), length src = length b -> blit (a ++ b ++ c) (length a) src = a ++ src ++ c.
Proof.
  induction src as [|x src IH]; intros a b c H; destruct b as [|y b]; try discriminate; [reflexivity|].
  cbn [blit app]. rewrite set_nth_app. 
  replace (a ++ x :: b ++ c) with ((a ++ [x]) ++ b ++ c) by (rewrite <- app_assoc; reflexivity).
  replace (S (length a)) with (length (a ++ [x])) by (rewrite app_length; simpl; lia).
  rewrite IH by (simpl in H; lia). rewrite <- app_assoc. reflexivity.
Qed.

Lemma repeat_app_n (x : Z) n m : repeat x (n + m) = repeat x n ++ repeat x m.
Proof. apply repeat_app. Qed.

Lemma concat_loop_spec bits : forall ws ts acc, Forall2 (made bits) ws ts ->
  let k := Z.to_nat (bits / 8) in
  concat_loop (acc ++ repeat 0 (k * S (length (concat ws)))) (length acc) ts = LOk (acc ++ array_image bits (concat ws ++ [0])).
Proof.
  induction ws as [|w ws IH]; intros ts acc H k; inversion H as [|? t ? ts' [Hb Hs] Hts]; subst.
  - cbn [concat_loop concat app length]. rewrite image_zero. subst k. rewrite Nat.mul_1_r. reflexivity.
  - cbn [concat_loop concat].
    assert (Hsz : length (s_str t) = S (length w)) by (rewrite Hs, app_length; simpl; lia).
    rewrite Hsz. fold k. rewrite !app_length, repeat_length.
    destruct (Nat.ltb_spec (length acc + k * S (length w + length (concat ws))) (length acc + S (length w) * k)); [nia|].
    rewrite Hs, elems_image.
    replace (k * S (length w + length (concat ws)))%nat with (S (length w) * k + k * length (concat ws))%nat by nia.
    rewrite repeat_app_n, blit_spec.
    2:{ rewrite image_length, repeat_length, app_length. cbn [length]. fold k. nia. }
    rewrite image_app, image_zero. fold k.
    replace (acc ++ (array_image (s_bits t) w ++ repeat 0 k) ++ repeat 0 (k * length (concat ws)))
      with ((acc ++ array_image (s_bits t) w) ++ repeat 0 (k * S (length (concat ws)))).
    2:{ rewrite <- !app_assoc. f_equal. f_equal. rewrite <- repeat_app. f_equal. lia. }
    replace (length acc + (S (length w) * k - k))%nat with (length (acc ++ array_image (s_bits t) w)).
    2:{ rewrite app_length, image_length. fold k. nia. }
    assert (I := IH ts' (acc ++ array_image (s_bits t) w) Hts). cbv zeta in I. fold k in I. rewrite I. rewrite <- !app_assoc, <- image_app. reflexivity.
Qed.

Lemma concat_len_spec bits : forall w ws t ts, made bits w t -> Forall2 (made bits) ws ts -> concat_len (t :: ts) = S (length (concat (w :: ws))).
Proof.
  intros w ws t ts [Hb Hs] H. cbn [concat_len concat]. rewrite Hs, !app_length. cbn [length].
  enough (E : fold_right (fun t n => (length (s_str t) - 1 + n)%nat) 0%nat ts = length (concat ws)) by lia.
  induction H as [|w' t' ws ts [Hb' Hs'] Hts IH]; [reflexivity|]. cbn [fold_right concat]. rewrite IH, Hs', !app_length. cbn [length]. lia.
Qed.

Lemma join_adjacent_spec l ls t ts q w ws :
  token_of l t -> Forall2 token_of ls ts ->
  join_prefixes (l_prefix l) (map l_prefix ls) = Some q ->
  Forall2 (fun l w => body (prefix_bits q) (l_src l) w) (l :: ls) (w :: ws) ->
  join_adjacent (t :: ts) = LOk (prefix_bits q, S (length (concat (w :: ws))), array_image (prefix_bits q) (concat (w :: ws) ++ [0])).
Proof.
  intros Ht Hts Hj Hw. cbn [join_adjacent]. rewrite (kind_of_token _ _ Ht).
  assert (Hb : s_bits t = prefix_bits (l_prefix l)) by apply Ht. rewrite Hb.
  rewrite (common_kind_spec _ _ _ Hts), Hj. cbn [lbind snd].
  destruct (join_prefixes_member _ _ _ Hj) as [M1 M2].
  assert (HW : exists t' ts', (if 8 <? prefix_bits q then widen_all (prefix_bits q) (t :: ts) else LOk (t :: ts)) = LOk (t' :: ts') /\
             made (prefix_bits q) w t' /\ Forall2 (made (prefix_bits q)) ws ts').
  { destruct (Z.ltb_spec 8 (prefix_bits q)).
    - destruct (widen_all_spec q (l :: ls) (t :: ts) (w :: ws) H ltac:(constructor; assumption) ltac:(constructor; assumption) Hw) as [r [E1 E2]].
      inversion E2 as [|? t' ? ts' A B]; subst. eauto 6.
    - assert (Eq : q = p_none) by (destruct q; cbn in *; try reflexivity; lia). subst q.
      exists t, ts. split; [reflexivity|].
      assert (Hall : Forall2 (made (prefix_bits p_none)) (w :: ws) (t :: ts)).
      { assert (Ha : Forall2 token_of (l :: ls) (t :: ts)) by (constructor; assumption).
        assert (Hp : Forall (fun p => p = p_none \/ p = p_none) (map l_prefix (l :: ls))) by (constructor; assumption).
        clear - Ha Hp Hw. revert Ha Hp Hw. generalize (l :: ls), (t :: ts), (w :: ws). intros a b c.
        revert b c. induction a as [|x a IH]; intros b c Ha Hp Hw; inversion Ha as [|? y ? b' [A1 [A2 [v [A3 A4]]]] Hb']; subst;
          inversion Hw as [|? z ? c' Hz Hc']; subst; [constructor|].
        cbn [map] in Hp. apply Forall_cons_iff in Hp as [Hp1 Hps]. assert (Ep : l_prefix x = p_none) by tauto. rewrite Ep in *.
        constructor; [|apply IH; assumption]. split; [exact A2|]. rewrite A4. f_equal. apply (body_unique 8 (l_src x)); auto. }
      inversion Hall; subst; auto. }
  destruct HW as [t' [ts' [E [E1 E2]]]]. rewrite E. cbn [lbind].
  rewrite (concat_len_spec _ _ _ _ _ E1 E2). assert (Hb' : s_bits t' = prefix_bits q) by apply E1. rewrite Hb'.
  assert (HC := concat_loop_spec (prefix_bits q) (w :: ws) (t' :: ts') [] ltac:(constructor; assumption)).
  cbn [app length] in HC. cbv zeta in HC. rewrite HC. reflexivity.
Qed.

Lemma join_adjacent_reject l ls t ts :
  token_of l t -> Forall2 token_of ls ts ->
  join_prefixes (l_prefix l) (map l_prefix ls) = None -> join_adjacent (t :: ts) = LErr.
Proof.
  intros Ht Hts Hj. cbn [join_adjacent]. rewrite (kind_of_token _ _ Ht).
  assert (Hb : s_bits t = prefix_bits (l_prefix l)) by apply Ht. rewrite Hb.
  rewrite (common_kind_spec _ _ _ Hts), Hj. reflexivity.
Qed.

Lemma tokenize_string_literal pre bits src v rest f pos bol sp :
  In (pre, bits) string_prefixes -> body bits src v ->
  let n := (length pre + 1 + length src + 1)%nat in
  tokenize_loop (S f) (pre ++ 34 :: src ++ 34 :: rest) pos bol sp =
  lbind (tokenize_loop f rest (pos + n) false false)
        (fun ts => LOk (Tok TK_STR pos n bol sp 0 0 bits (v ++ [0]) :: ts)).
Proof.
  intros Hp Hb n.
  assert (Hbits : bits = 8 \/ bits = 16 \/ bits = 32).
  { simpl in Hp. repeat (destruct Hp as [Hp|Hp]; [injection Hp as _ <-; auto|]). destruct Hp. }
  assert (Hr := read_string_body bits src v rest Hbits Hb).
  assert (Hsk : forall k, k = length pre -> skipn (S k + length src + 1) (pre ++ 34 :: src ++ 34 :: rest) = rest).
  { intros k ->. replace (pre ++ 34 :: src ++ 34 :: rest) with ((pre ++ 34 :: src ++ [34]) ++ rest) by (rewrite <- app_assoc; cbn [app]; rewrite <- app_assoc; reflexivity).
    rewrite skipn_app. rewrite skipn_all2 by (rewrite app_length; cbn [length]; rewrite app_length; simpl; lia).
    replace (S (length pre) + length src + 1 - length (pre ++ 34%Z :: src ++ [34%Z]))%nat with 0%nat by (rewrite app_length; cbn [length]; rewrite app_length; simpl; lia).
    reflexivity. }
  subst n. simpl in Hp.
  repeat (destruct Hp as [Hp|Hp]; [injection Hp as <- <-; specialize (Hsk _ eq_refl)|]); [| | | | |destruct Hp].
  all: cbn [app length] in *; cbn [tokenize_loop].
  - change (startwith (34 :: src ++ 34 :: rest) [47; 47]) with false. change (startwith (34 :: src ++ 34 :: rest) [47; 42]) with false.
    simpl (34 =? _). change (isspace 34) with false. change (isdigit 34) with false. cbn [orb andb]. cbv iota.
    change (skipn 1 (34 :: src ++ 34 :: rest)) with (src ++ 34 :: rest). rewrite Hr. cbn [lbind fst snd]. rewrite Hsk. reflexivity.
  - set (q := 34 :: src ++ 34 :: rest) in *. change (startwith (117 :: 56 :: q) [47; 47]) with false. change (startwith (117 :: 56 :: q) [47; 42]) with false.
    simpl (117 =? _). change (isspace 117) with false. change (isdigit 117) with false. cbn [orb andb]. cbv iota.
    change (startwith (117 :: 56 :: q) [117; 56; 34]) with true. cbv iota.
    change (skipn 3 (117 :: 56 :: q)) with (src ++ 34 :: rest). rewrite Hr. cbn [lbind fst snd]. rewrite Hsk. reflexivity.
  - set (q := 34 :: src ++ 34 :: rest) in *. change (startwith (117 :: q) [47; 47]) with false. change (startwith (117 :: q) [47; 42]) with false.
    simpl (117 =? _). change (isspace 117) with false. change (isdigit 117) with false. cbn [orb andb]. cbv iota.
    change (startwith (117 :: q) [117; 56; 34]) with false. change (startwith (117 :: q) [117; 34]) with true. cbv iota.
    change (skipn 2 (117 :: q)) with (src ++ 34 :: rest). rewrite Hr. cbn [lbind fst snd]. rewrite Hsk. reflexivity.
  - set (q := 34 :: src ++ 34 :: rest) in *. change (startwith (85 :: q) [47; 47]) with false. change (startwith (85 :: q) [47; 42]) with false.
    simpl (85 =? _). change (isspace 85) with false. change (isdigit 85) with false. cbn [orb andb]. cbv iota.
    change (startwith (85 :: q) [117; 56; 34]) with false. change (startwith (85 :: q) [117; 34]) with false. change (startwith (85 :: q) [85; 34]) with true. cbv iota.
    change (skipn 2 (85 :: q)) with (src ++ 34 :: rest). rewrite Hr. cbn [lbind fst snd]. rewrite Hsk. reflexivity.
  - set (q := 34 :: src ++ 34 :: rest) in *. change (startwith (76 :: q) [47; 47]) with false. change (startwith (76 :: q) [47; 42]) with false.
    simpl (76 =? _). change (isspace 76) with false. change (isdigit 76) with false. cbn [orb andb]. cbv iota.
    change (startwith (76 :: q) [117; 56; 34]) with false. change (startwith (76 :: q) [117; 34]) with false. change (startwith (76 :: q) [85; 34]) with false.
    change (startwith (76 :: q) [76; 34]) with true. cbv iota.
    change (skipn 2 (76 :: q)) with (src ++ 34 :: rest). rewrite Hr. cbn [lbind fst snd]. rewrite Hsk. reflexivity.
Qed.

(** * The decoded contents fit the buffer *)
Definition factor (bits : Z) : nat := if bits =? 16 then 2%nat else 1%nat.

Lemma string_loop_fits bits : forall f p rem l, source p -> string_literal_end p = LOk rem -> 
  string_loop f bits p rem = LOk l -> (length l <= factor bits * rem)%nat.
Proof.
  induction f as [|f IH]; intros p rem l Hs He H; destruct rem as [|rem]; cbn [string_loop] in H;
    try (assert (l = []) by congruence; subst; simpl; lia); try discriminate.
  destruct (sle_round bits p rem Hs He) as [R1 [R2 R3]]. cbv zeta in *.
  assert (Hes : forall es q, match p with
      | 92 :: r => lbind (read_escaped_char r) (fun vr => LOk ([fst vr mod 2^bits], snd vr))
      | _ => store_plain bits p end = LOk (es, q) -> (length es <= factor bits)%nat).
  { intros es q E. destruct p as [|c r]; [discriminate|]. destruct (Z.eq_dec c 92) as [->|Hc].
    - apply lbind_ok in E as [vr [_ E]]. assert (es = [fst vr mod 2^bits]) by congruence. subst. unfold factor. destruct (bits =? 16); simpl; lia.
    - assert (Hx : match c :: r with 92 :: r0 => lbind (read_escaped_char r0) (fun vr => LOk ([fst vr mod 2^bits], snd vr))
                 | _ => store_plain bits (c :: r) end = store_plain bits (c :: r)).
      { destruct c as [|c|c]; try reflexivity. do 7 (destruct c as [c|c|]; try reflexivity). congruence. }
      rewrite Hx in E. unfold store_plain in E. destruct (bits =? 8).
      + assert (es = [at_ (c :: r) 0]) by congruence. subst. unfold factor. destruct (bits =? 16); simpl; lia.
      + destruct (decode_utf8 (c :: r)) as [[cp k]|]; [|discriminate]. unfold factor. destruct (bits =? 16); [destruct (cp <? 65536)|].
        * assert (es = [cp]) by congruence. subst. simpl. lia.
        * match type of E with LOk (?a, _) = _ => assert (es = a) by congruence end. subst. simpl. lia.
        * assert (es = [cp]) by congruence. subst. simpl. lia. }
  apply lbind_ok in H as [[es q] [Ex H]]. cbn [fst snd] in H. apply lbind_ok in H as [l' [Hl H]].
  assert (l = es ++ l') by congruence. subst l. clear H.
  destruct (R3 es q Ex) as [A [B [[k ->] D]]]. specialize (Hes _ _ Ex).
  specialize (IH _ _ _ (source_skipn _ _ Hs) D Hl). rewrite app_length.
  assert (H1 : (1 <= factor bits)%nat) by (unfold factor; destruct (bits =? 16); lia).
  nia.
Qed.

Lemma read_string_fits bits p l n : source p -> read_string bits p = LOk (l, n) -> (length l <= factor bits * (n + 1))%nat.
Proof.
  intros Hs H. unfold read_string in H. apply lbind_ok in H as [m [Hm H]]. apply lbind_ok in H as [l' [Hl H]].
  assert (l = l' ++ [0] /\ n = m) as [-> ->] by (split; congruence).
  apply string_loop_fits in Hl; auto. rewrite app_length. cbn [length].
  assert (H1 : (1 <= factor bits)%nat) by (unfold factor; destruct (bits =? 16); lia). nia.
Qed.
