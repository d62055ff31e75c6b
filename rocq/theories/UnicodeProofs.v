From Verif Require Import Base BitLemmas UnicodeModel UnicodeSpec.
From Coq Require Import ZifyBool.
Ltac Zify.zify_post_hook ::= Z.div_mod_to_equations.

Lemma encode_is_utf8 c : 0 <= c < 0x200000 -> encode_utf8 c = utf8_of c.
Proof.
  intro H. unfold encode_utf8, utf8_of.
  rewrite !Z.shiftr_div_pow2 by lia. rewrite !land_63.
  change (2^6) with 64. change (2^12) with 4096. change (2^18) with 262144.
  destruct (Z.leb_spec c 0x7F); destruct (Z.ltb_spec c 0x80); try lia.
  { f_equal. apply Z.mod_small. lia. }
  assert (E80 : forall x, Z.lor 0x80 (x mod 64) mod 256 = 128 + x mod 64).
  { intro x. rewrite (lor_const_add 0x80 7 1) by lia. apply Z.mod_small. lia. }
  destruct (Z.leb_spec c 0x7FF); destruct (Z.ltb_spec c 0x800); try lia.
  { rewrite E80. rewrite (lor_const_add 0xC0 6 3) by lia. rewrite Z.mod_small by lia. reflexivity. }
  destruct (Z.leb_spec c 0xFFFF); destruct (Z.ltb_spec c 0x10000); try lia.
  { rewrite !E80. rewrite (lor_const_add 0xE0 5 7) by lia. rewrite Z.mod_small by lia. reflexivity. }
  rewrite !E80. rewrite (lor_const_add 0xF0 4 15) by lia. rewrite Z.mod_small by lia. reflexivity.
Qed.

Lemma shiftr6_cont x : Z.shiftr (128 + x mod 64) 6 =? 2 = true.
Proof. rewrite Z.shiftr_div_pow2 by lia. change (2^6) with 64. lia. Qed.

Lemma cont_step c x : 0 <= c < 2^26 ->
  Z.lor (Z.shiftl c 6 mod 2^32) (Z.land (128 + x mod 64) 0x3F) = c * 64 + x mod 64.
Proof.
  intro H. rewrite land_63. rewrite Z.shiftl_mul_pow2 by lia.
  rewrite (Z.mod_small (c * 2^6)) by lia.
  replace ((128 + x mod 64) mod 64) with (x mod 64) by lia.
  apply lor_shift_add; lia.
Qed.

Lemma decode_encode c rest : 0 <= c < 0x200000 ->
  decode_utf8 (encode_utf8 c ++ rest) = Some (c, List.length (encode_utf8 c)).
Proof.
  intro H. rewrite encode_is_utf8 by exact H. unfold utf8_of.
  destruct (Z.ltb_spec c 0x80).
  { unfold decode_utf8. cbn [app at_ nth]. destruct (Z.ltb_spec c 128); [reflexivity|lia]. }
  destruct (Z.ltb_spec c 0x800).
  { unfold decode_utf8. cbn [app at_ nth decode_cont].
    destruct (Z.ltb_spec (192 + c / 64) 128); [lia|].
    destruct (Z.leb_spec 0xF0 (192 + c / 64)); [lia|].
    destruct (Z.leb_spec 0xE0 (192 + c / 64)); [lia|].
    destruct (Z.leb_spec 0xC0 (192 + c / 64)); [|lia].
    rewrite shiftr6_cont, land_31.
    replace ((192 + c / 64) mod 32) with (c / 64) by lia.
    rewrite cont_step by lia. cbn [List.length]. do 2 f_equal. lia. }
  destruct (Z.ltb_spec c 0x10000).
  { unfold decode_utf8. cbn [app at_ nth decode_cont].
    destruct (Z.ltb_spec (224 + c / 4096) 128); [lia|].
    destruct (Z.leb_spec 0xF0 (224 + c / 4096)); [lia|].
    destruct (Z.leb_spec 0xE0 (224 + c / 4096)); [|lia].
    rewrite !shiftr6_cont, land_15.
    replace ((224 + c / 4096) mod 16) with (c / 4096) by lia.
    rewrite (cont_step (c / 4096)) by lia. rewrite cont_step by lia.
    cbn [List.length]. do 2 f_equal. lia. }
  unfold decode_utf8. cbn [app at_ nth decode_cont].
  destruct (Z.ltb_spec (240 + c / 262144) 128); [lia|].
  destruct (Z.leb_spec 0xF0 (240 + c / 262144)); [|lia].
  rewrite !shiftr6_cont, land_7.
  replace ((240 + c / 262144) mod 8) with (c / 262144) by lia.
  rewrite (cont_step (c / 262144)) by lia.
  rewrite (cont_step (c / 262144 * 64 + c / 4096 mod 64)) by lia. rewrite cont_step by lia.
  cbn [List.length]. do 2 f_equal. lia.
Qed.

Lemma encode_length c : (1 <= List.length (encode_utf8 c) <= 4)%nat.
Proof.
  unfold encode_utf8. destruct (c <=? 0x7F); [simpl; lia|].
  destruct (c <=? 0x7FF); [simpl; lia|]. destruct (c <=? 0xFFFF); simpl; lia.
Qed.

Lemma encode_prefix_free c1 c2 r1 r2 : 0 <= c1 < 0x200000 -> 0 <= c2 < 0x200000 ->
  encode_utf8 c1 ++ r1 = encode_utf8 c2 ++ r2 -> c1 = c2 /\ r1 = r2.
Proof.
  intros H1 H2 E. pose proof (decode_encode c1 r1 H1) as D1. pose proof (decode_encode c2 r2 H2) as D2.
  rewrite E, D2 in D1. injection D1 as Ec El. split; [congruence|]. subst c2.
  apply app_inv_head in E. exact E.
Qed.

(* Decoding looks only at bytes inside the string and consumes no more than is there. *)
Lemma decode_cont_spec p : forall n i c c', decode_cont p i n c = Some c' ->
  forall j, (i <= j < i + n)%nat -> (j < List.length p)%nat /\ (Z.shiftr (nth j p 0) 6 = 2).
Proof.
  induction n as [|n IH]; intros i c c' E j Hj; [lia|].
  cbn [decode_cont] in E. destruct (Z.eqb_spec (Z.shiftr (at_ p i) 6) 2) as [Es|]; [|discriminate].
  destruct (Nat.eq_dec j i) as [->|].
  - split; [|exact Es]. destruct (Nat.lt_ge_cases i (List.length p)); auto.
    unfold at_ in Es. rewrite nth_overflow in Es by assumption. discriminate.
  - eapply IH; eauto. lia.
Qed.

Lemma decode_in_bounds p c n : (forall b, In b p -> is_byte b /\ b <> 0) -> p <> [] ->
  decode_utf8 p = Some (c, n) ->
  (1 <= n <= List.length p)%nat /\ (forall j, (1 <= j < n)%nat -> continuation (nth j p 0)) /\
  (n = 1%nat -> c = nth 0 p 0 /\ c < 128).
Proof.
  intros Hb Hne E. unfold decode_utf8 in E.
  assert (Hl : (1 <= List.length p)%nat) by (destruct p; [contradiction|simpl; lia]).
  assert (Hgen : forall m (c0 c' : Z), decode_cont p 1 m c0 = Some c' ->
    (1 <= S m <= List.length p)%nat /\ (forall j, (1 <= j < S m)%nat -> continuation (nth j p 0))).
  { intros m c0 c' D. pose proof (decode_cont_spec p m 1 c0 c' D) as Hs. split.
    - destruct m as [|m]; [lia|]. destruct (Hs (S m) ltac:(lia)) as [Hs1 _]. lia.
    - intros j Hj. destruct (Hs j ltac:(lia)) as [S1 S2].
      rewrite Z.shiftr_div_pow2 in S2 by lia. change (2^6) with 64 in S2. unfold continuation. lia. }
  destruct (Z.ltb_spec (at_ p 0) 128).
  { injection E as <- <-. split; [lia|]. split; [lia|]. unfold at_ in *. auto. }
  destruct (0xF0 <=? at_ p 0).
  { destruct (decode_cont p 1 3 (Z.land (at_ p 0) 7)) eqn:D; [|discriminate]. injection E as <- <-.
    destruct (Hgen _ _ _ D). split; [lia|]. split; auto; lia. }
  destruct (0xE0 <=? at_ p 0).
  { destruct (decode_cont p 1 2 (Z.land (at_ p 0) 15)) eqn:D; [|discriminate]. injection E as <- <-.
    destruct (Hgen _ _ _ D). split; [lia|]. split; auto; lia. }
  destruct (0xC0 <=? at_ p 0); [|discriminate].
  destruct (decode_cont p 1 1 (Z.land (at_ p 0) 31)) eqn:D; [|discriminate]. injection E as <- <-.
  destruct (Hgen _ _ _ D). split; [lia|]. split; auto; lia.
Qed.

Lemma encode_bytes c : 0 <= c -> forall b, In b (encode_utf8 c) -> 0 <= b < 256.
Proof.
  intros Hc b. unfold encode_utf8.
  destruct (c <=? 0x7F); [|destruct (c <=? 0x7FF); [|destruct (c <=? 0xFFFF)]]; simpl;
  intros H; repeat (destruct H as [<-|H]; [apply Z.mod_pos_bound; lia|]); destruct H.
Qed.
