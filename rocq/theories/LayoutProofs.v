(** Proofs about struct layout and member lookup. *)
From Verif Require Import Base LayoutModel LayoutSpec.
From Coq Require Import ZifyBool ZifyNat.
Local Notation length := List.length.
Local Arguments Z.mul : simpl never.
Local Arguments Z.add : simpl never.
Local Arguments Z.sub : simpl never.
Local Arguments Z.pow : simpl never.

Ltac undo :=
  repeat match goal with
  | H : (match ?x with Some _ => _ | None => None end) = Some _ |- _ => let E := fresh "E" in destruct x eqn:E; [|discriminate H]
  end.
Lemma chk_some z r : chk z = Some r -> r = z /\ -2^31 <= z < 2^31.
Proof. unfold chk. destruct ((-2^31 <=? z) && (z <? 2^31)) eqn:E; [|discriminate]. intros [= <-]. lia. Qed.
Ltac chks := repeat match goal with H : chk _ = Some _ |- _ => apply chk_some in H as [? ?] end.

Lemma align_to_spec n a r : 0 <= n -> 0 < a -> align_to n a = Some r -> n <= r < n + a /\ exists k, r = k * a.
Proof.
  unfold align_to. intros Hn Ha. destruct (a =? 0) eqn:E0; [discriminate|]. intros H.
  undo. chks. subst. rewrite Z.quot_div_nonneg in * by lia. split; [|eauto].
  pose proof (Z.div_mod (n + a - 1) a ltac:(lia)). pose proof (Z.mod_pos_bound (n + a - 1) a Ha). lia.
Qed.
Lemma align_down_spec n a r : 0 <= n -> 0 < a -> align_down n a = Some r -> n - a < r <= n /\ exists k, r = k * a.
Proof.
  unfold align_down, align_to. intros Hn Ha. destruct (a =? 0) eqn:E0; [lia|]. intros H.
  undo. chks. subst. replace (n - a + 1 + a - 1) with n in * by lia. rewrite Z.quot_div_nonneg in * by lia. split; [|eauto].
  pose proof (Z.div_mod n a ltac:(lia)). pose proof (Z.mod_pos_bound n a Ha). lia.
Qed.

Lemma floor_unique z a k : 0 < a -> z - a < k * a <= z -> k = z / a.
Proof.
  intros Ha H. apply Z.div_unique with (z - k * a); lia.
Qed.
Lemma unit_same bits w s : 0 < s -> 0 < w -> bits / s = (bits + w - 1) / s -> bits mod s + w <= s.
Proof.
  intros Hs Hw C.
  pose proof (Z.div_mod bits s ltac:(lia)). pose proof (Z.mod_pos_bound (bits + w - 1) s Hs).
  pose proof (Z.div_mod (bits + w - 1) s ltac:(lia)). rewrite <- C in *. lia.
Qed.
Lemma unit_cross bits w s k : 0 < s -> 0 < w -> bits / s <> (bits + w - 1) / s -> bits <= k * s < bits + s -> k * s < bits + w.
Proof.
  intros Hs Hw C B.
  destruct (Z_lt_le_dec (k * s) (bits + w)) as [|G]; [assumption|exfalso]. apply C.
  (* then both ends are in the unit that ends at k * s *)
  transitivity (k - 1).
  - destruct (Z.eq_dec bits (k * s)) as [E|E]; [lia|].
    symmetry. apply floor_unique; lia.
  - apply floor_unique; lia.
Qed.
Lemma unit_pos z sz k : 0 < sz -> 0 <= z -> z / 8 - sz < k * sz <= z / 8 -> 8 * (k * sz) + z mod (sz * 8) = z /\ 0 <= k * sz.
Proof.
  intros Hs Hz H.
  assert (K: k = z / (sz * 8)).
  { rewrite (floor_unique (z / 8) sz k Hs H). rewrite Z.div_div by lia. f_equal. lia. }
  pose proof (Z.div_mod z (sz * 8) ltac:(lia)) as D. rewrite <- K in D. split; [lia|].
  assert (0 <= k) by (subst k; apply Z.div_pos; lia). lia.
Qed.

(** what one round of the loop does *)
Definition placed (packed : bool) (bits : Z) (m : member) (b' : Z) (p : place) : Prop :=
  match m_width m with
  | None =>
      snd p = 0 /\ fst p >= 0 /\
      if packed then fst p = bits / 8 /\ b' = bits + 8 * m_size m
      else b' = end_bit m p /\ bits <= first_bit p < bits + 8 * m_align m /\ exists k, fst p = k * m_align m
  | Some w =>
      if w =? 0 then bits <= b' < bits + 8 * m_size m /\ (exists k, b' = k * (8 * m_size m)) /\ p = (0, 0)
      else
        b' = end_bit m p /\ bits <= first_bit p /\ fst p >= 0 /\ 0 <= snd p /\ snd p + w <= 8 * m_size m /\ (exists k, fst p = k * m_size m) /\
        (first_bit p = bits \/
         (snd p = 0 /\ first_bit p < bits + 8 * m_size m /\ first_bit p < bits + w))
  end.

Lemma place_member_spec packed bits m b' p :
  0 <= bits -> member_ok m -> place_member packed bits m = Some (b', p) -> placed packed bits m b' p /\ 0 <= b'.
Proof.
  intros Hb (Hs & Ha & Hw). unfold place_member, placed. intros H.
  destruct (chk (m_size m * 8)) as [sz8|] eqn:E8; [|discriminate]. chks. subst sz8.
  destruct (m_width m) as [w|] eqn:EW.
  - destruct Hw as [Hs0 Hw]. destruct (w =? 0) eqn:W0.
    + undo. assert (z = b') by congruence. assert (p = (0, 0)) by congruence. subst.
      apply align_to_spec in E; try lia. destruct E as [B [k K]].
      repeat split; try lia. exists k. lia.
    + destruct (m_size m * 8 =? 0) eqn:Z8; [lia|]. undo.
      set (S8 := m_size m * 8) in *. assert (HS: 0 < S8) by (clear -Hs0; lia).
      assert (Eb: z2 = b') by congruence. assert (Ep: (z1, Z.rem z0 S8) = p) by congruence. clear H. subst b' p.
      chks. subst z z2. cbn [fst snd first_bit] in *. unfold end_bit, first_bit, bit_count. rewrite EW. cbn [fst snd].
      rewrite !Z.quot_div_nonneg in E0 by lia.
      assert (B: 0 <= z0 /\ bits <= z0 /\ z0 mod S8 + w <= S8 /\ (z0 = bits \/ (z0 mod S8 = 0 /\ z0 < bits + S8 /\ z0 < bits + w))).
      { destruct (bits / S8 =? (bits + w - 1) / S8) eqn:C; cbn [negb] in E0.
        - assert (z0 = bits) by congruence. subst. split; [lia|]. split; [lia|]. split; [|now left].
          apply Z.eqb_eq in C. apply unit_same; auto; lia.
        - apply align_to_spec in E0; try lia. destruct E0 as [B [k K]].
          assert (M: z0 mod S8 = 0) by (subst z0; apply Z.mod_mul; lia). rewrite M.
          split; [lia|]. split; [lia|]. split; [lia|]. right. split; [reflexivity|]. split; [lia|].
          apply Z.eqb_neq in C. rewrite K in *. apply unit_cross; auto; lia. }
      destruct B as (B0 & B1 & B2 & B3).
      rewrite Z.quot_div_nonneg in E1 by lia. rewrite Z.rem_mod_nonneg by lia.
      apply align_down_spec in E1; [|apply Z.div_pos; lia|lia]. destruct E1 as [A [k K]].
      pose proof (Z.mod_pos_bound z0 S8 HS) as MB.
      rewrite K in A. destruct (unit_pos z0 (m_size m) k Hs0 B0 A) as [P Z1]. fold S8 in P. rewrite <- K in P, Z1.
      clear A E0.
      split; [|lia]. split; [lia|]. split; [lia|]. split; [lia|]. split; [lia|]. split; [lia|]. split; [exists k; lia|].
      rewrite P. destruct B3 as [B3|(M & B4 & B5)]; [left; exact B3|right]. repeat split; lia.
  - unfold end_bit, first_bit, bit_count. rewrite EW. destruct packed; cbn [negb] in H.
    + undo. chks. subst z.
      assert (bits + m_size m * 8 = b') by congruence. assert ((Z.quot bits 8, 0) = p) by congruence.
      subst b' p. cbn [fst snd]. rewrite Z.quot_div_nonneg by lia.
      assert (0 <= bits / 8) by (apply Z.div_pos; lia). repeat split; lia.
    + destruct (chk (m_align m * 8)) as [al8|] eqn:EA; [|discriminate H].
      destruct (align_to bits al8) as [z|] eqn:E; [|discriminate H].
      destruct (chk (z + m_size m * 8)) as [z0|] eqn:E0; [|discriminate H]. chks. subst z0 al8.
      assert (z + m_size m * 8 = b') by congruence. assert ((Z.quot z 8, 0) = p) by congruence.
      subst b' p. cbn [fst snd]. clear H.
      apply align_to_spec in E; [|lia|lia]. destruct E as [B [k K]].
      rewrite Z.quot_div_nonneg by lia.
      assert (Q: z / 8 = k * m_align m) by (subst z; replace (k * (m_align m * 8)) with (k * m_align m * 8) by lia; apply Z.div_mul; lia).
      rewrite Q. assert (0 <= k * m_align m) by lia.
      repeat split; try lia. exists k. lia.
Qed.

Definition advance (packed : bool) (al : Z) (m : member) : Z :=
  if negb packed && (al <? m_align m) then m_align m else al.

Lemma place_all_cons packed bits al m ms ps b a :
  place_all packed bits al (m :: ms) = Some (ps, b, a) ->
  exists b1 p ps', place_member packed bits m = Some (b1, p) /\ ps = p :: ps' /\
    place_all packed b1 (advance packed al m) ms = Some (ps', b, a).
Proof.
  cbn [place_all]. fold (advance packed al m). destruct (place_member packed bits m) as [[b1 p]|]; [|discriminate]. cbn [fst snd].
  destruct (place_all packed b1 (advance packed al m) ms) as [[[ps' b'] a']|] eqn:E; [|discriminate]. cbn [fst snd].
  intros [= <- <- <-]. exists b1, p, ps'. auto.
Qed.

Lemma place_all_length packed ms : forall bits al ps b a, place_all packed bits al ms = Some (ps, b, a) -> length ps = length ms.
Proof.
  induction ms as [|m ms IH]; intros bits al ps b a H.
  - cbn in H. assert ([] = ps) by congruence. now subst.
  - apply place_all_cons in H as (b1 & p & ps' & _ & -> & H). cbn. f_equal. eauto.
Qed.

Lemma placed_mono bits m b' p : member_ok m -> placed false bits m b' p ->
  bits <= b' /\ (occupies m -> bits <= first_bit p /\ b' = end_bit m p).
Proof.
  intros (Hs & Ha & Hw). unfold placed, occupies, end_bit, bit_count. destruct (m_width m) as [w|].
  - destruct (w =? 0) eqn:W.
    + apply Z.eqb_eq in W. subst. intros (B & _). split; [lia|congruence].
    + intros (-> & B & _). split; [lia|auto].
  - intros (_ & _ & -> & B & _). split; [lia|split; lia].
Qed.

Lemma place_all_spec ms : forall bits al ps b a,
  0 <= bits -> Forall member_ok ms -> place_all false bits al ms = Some (ps, b, a) ->
  bits <= b /\
  (forall i m p, nth_error ms i = Some m -> nth_error ps i = Some p ->
     exists b0 b1, placed false b0 m b1 p /\ bits <= b0 /\ b1 <= b /\
       (forall j m' p', (i < j)%nat -> nth_error ms j = Some m' -> nth_error ps j = Some p' -> occupies m' -> b1 <= first_bit p') /\
       (forall j m' p', (j < i)%nat -> nth_error ms j = Some m' -> nth_error ps j = Some p' -> occupies m' -> end_bit m' p' <= b0) /\
       (i = 0%nat -> b0 = bits) /\
       (forall j m' p', i = S j -> nth_error ms j = Some m' -> nth_error ps j = Some p' -> occupies m' -> b0 = end_bit m' p')) /\
  (forall j m' p', nth_error ms j = Some m' -> nth_error ps j = Some p' -> occupies m' -> end_bit m' p' <= b) /\
  (ms = [] -> b = bits) /\
  (forall j m' p', length ms = S j -> nth_error ms j = Some m' -> nth_error ps j = Some p' -> occupies m' -> b = end_bit m' p').
Proof.
  induction ms as [|m ms IH]; intros bits al ps b a Hb F H.
  - cbn in H. assert (bits = b /\ [] = ps) as [-> <-] by (split; congruence).
    split; [lia|]. split; [intros [|i] ? ?; discriminate|]. split; [intros [|i] ? ?; discriminate|].
    split; auto. intros j; discriminate.
  - apply place_all_cons in H as (b1 & p & ps' & P & -> & H).
    inversion F as [|? ? Fm Fms]; subst.
    destruct (place_member_spec _ _ _ _ _ Hb Fm P) as [PL Hb1].
    destruct (placed_mono _ _ _ _ Fm PL) as [M1 M2].
    destruct (IH _ _ _ _ _ Hb1 Fms H) as (I1 & I2 & I3 & I4 & I5).
    split; [lia|]. split; [|split; [|split]].
    + intros [|i] m0 p0 Em Ep; cbn in Em, Ep.
      * assert (m = m0 /\ p = p0) as [<- <-] by (split; congruence).
        exists bits, b1. split; [assumption|]. split; [lia|]. split; [lia|]. split; [|split; [intros; lia|]].
        { intros [|j] m' p' Hj Em' Ep' Oc; [lia|]; cbn in Em', Ep'.
          destruct (I2 j m' p' Em' Ep') as (c0 & c1 & C1 & C2 & _).
          assert (Fm': member_ok m') by (apply nth_error_In in Em'; rewrite Forall_forall in Fms; auto).
          destruct (placed_mono _ _ _ _ Fm' C1) as [_ X]. destruct (X Oc). lia. } split; auto. intros; discriminate.
      * destruct (I2 i m0 p0 Em Ep) as (c0 & c1 & C1 & C2 & C3 & C7 & C4 & C5 & C6).
        exists c0, c1. split; [assumption|]. split; [lia|]. split; [lia|]. split; [|split; [|split; [discriminate|]]].
        -- intros [|j] m' p' Hj Em' Ep' Oc; [lia|]; cbn in Em', Ep'. apply (C7 j m' p'); auto. lia.
        -- intros [|j] m' p' Hj Em' Ep' Oc; cbn in Em', Ep'.
           ++ assert (m = m' /\ p = p') as [<- <-] by (split; congruence). destruct (M2 Oc). lia.
           ++ apply (C4 j m' p'); auto. lia.
        -- intros [|j] m' p' E Em' Ep' Oc; assert (E': i = _) by (injection E; intros X; exact X); subst i; cbn in Em', Ep'.
           ++ assert (m = m' /\ p = p') as [<- <-] by (split; congruence). destruct (M2 Oc). rewrite C5; auto.
           ++ now apply (C6 j).
    + intros [|j] m' p' Em' Ep' Oc; cbn in Em', Ep'.
      * assert (m = m' /\ p = p') as [<- <-] by (split; congruence). destruct (M2 Oc). lia.
      * now apply (I3 j).
    + discriminate.
    + intros [|j] m' p' E Em' Ep' Oc; cbn in E, Em', Ep'.
      * assert (m = m' /\ p = p') as [<- <-] by (split; congruence). destruct (M2 Oc). rewrite I4; auto.
        destruct ms; auto; discriminate.
      * apply (I5 j); auto.
Qed.

(** the alignment of the struct *)
Lemma place_all_align packed ms : forall bits al ps b a,
  place_all packed bits al ms = Some (ps, b, a) ->
  al <= a /\ (a = al \/ exists m, In m ms /\ a = m_align m) /\ (packed = false -> forall m, In m ms -> m_align m <= a) /\ (packed = true -> a = al).
Proof.
  induction ms as [|m ms IH]; intros bits al ps b a H.
  - cbn in H. assert (al = a) by congruence. subst. split; [lia|]. split; [now left|]. split; [intros _ m []|auto].
  - apply place_all_cons in H as (b1 & p & ps' & P & -> & H).
    destruct (IH _ _ _ _ _ H) as (I1 & I2 & I3 & I4). unfold advance in *.
    destruct (negb packed && (al <? m_align m)) eqn:E.
    + split; [lia|]. split; [|split].
      * right. destruct I2 as [->|(m' & I & ->)]; [exists m; split; auto; now left|exists m'; split; auto; now right].
      * intros _ m' [<-|I]; [lia|apply I3; auto; destruct packed; auto].
      * intros ->. discriminate.
    + split; [lia|]. split; [|split; [|auto]].
      * destruct I2 as [->|(m' & I & ->)]; [now left|right; exists m'; split; auto; now right].
      * intros -> m' [<-|I]; [cbn in E; lia|now apply I3].
Qed.

Lemma pow2_le_div a b : power_of_two a -> power_of_two b -> a <= b -> exists k, b = k * a.
Proof.
  intros (i & Hi & ->) (j & Hj & ->) L. apply Z.pow_le_mono_r_iff in L; try lia.
  exists (2 ^ (j - i)). rewrite <- Z.pow_add_r by lia. f_equal. lia.
Qed.

Lemma struct_layout_inv packed al ms ps size a :
  struct_layout packed al ms = Some (ps, size, a) ->
  exists b, place_all packed 0 al ms = Some (ps, b, a) /\ exists s, align_to b (a * 8) = Some s /\ size = Z.quot s 8.
Proof.
  unfold struct_layout. destruct (place_all packed 0 al ms) as [[[ps' b] a']|] eqn:P; [|discriminate]. cbn [fst snd].
  intros H. undo. chks. subst z. assert (ps' = ps /\ Z.quot z0 8 = size /\ a' = a) as (<- & <- & <-) by (repeat split; congruence).
  exists b. split; auto. eauto.
Qed.

Lemma struct_size_spec b a s : 0 <= b -> 1 <= a -> align_to b (a * 8) = Some s ->
  let size := Z.quot s 8 in b <= 8 * size < b + 8 * a /\ (exists k, size = k * a) /\ 0 <= size.
Proof.
  intros Hb Ha H. apply align_to_spec in H as [B [k K]]; try lia.
  rewrite Z.quot_div_nonneg by lia. cbv zeta.
  assert (Q: s / 8 = k * a) by (subst s; replace (k * (a * 8)) with (k * a * 8) by lia; apply Z.div_mul; lia).
  rewrite Q. split; [lia|]. split; [eauto|lia].
Qed.

(** layout is stable: laying out again with the final alignment changes nothing *)
Lemma place_all_again packed ms : forall bits al ps b a al',
  place_all packed bits al ms = Some (ps, b, a) -> a <= al' -> place_all packed bits al' ms = Some (ps, b, al').
Proof.
  induction ms as [|m ms IH]; intros bits al ps b a al' H L.
  - cbn in *. congruence.
  - pose proof (place_all_align _ _ _ _ _ _ _ H) as (A1 & A2 & A3 & A4).
    apply place_all_cons in H as (b1 & p & ps' & P & -> & H).
    cbn [place_all]. rewrite P. cbn [fst snd]. fold (advance packed al' m).
    assert (E: advance packed al' m = al').
    { unfold advance. destruct packed; auto. specialize (A3 eq_refl m (or_introl eq_refl)). cbn [negb andb].
      destruct (al' <? m_align m) eqn:C; auto. lia. }
    rewrite E. rewrite (IH _ _ _ _ _ al' H L). reflexivity.
Qed.

(** ** Packed structs without bit-fields *)
Lemma total_nonneg ms : Forall member_ok ms -> 0 <= total ms.
Proof. induction 1 as [|m ms (H & _) _ IH]; cbn [total]; lia. Qed.
Lemma place_all_packed ms : forall off al ps b a,
  0 <= off -> Forall member_ok ms -> Forall ordinary ms -> place_all true (8 * off) al ms = Some (ps, b, a) ->
  b = 8 * (off + total ms) /\
  forall i p, nth_error ps i = Some p -> p = (off + total (firstn i ms), 0).
Proof.
  induction ms as [|m ms IH]; intros off al ps b a Ho F O H.
  - cbn in H. assert (b = 8 * off /\ [] = ps) as [-> <-] by (split; congruence). cbn [total]. split; [lia|]. intros [|i]; discriminate.
  - apply place_all_cons in H as (b1 & p & ps' & P & -> & H).
    inversion F as [|? ? Fm Fms]; subst. inversion O as [|? ? Om Oms]; subst.
    assert (H8: 0 <= 8 * off) by lia. destruct (place_member_spec _ _ _ _ _ H8 Fm P) as [PL Hb1].
    unfold placed in PL. rewrite Om in PL. destruct PL as (S0 & _ & S1 & S2).
    replace (8 * off) with (off * 8) in S1 by lia. rewrite Z.div_mul in S1 by lia.
    assert (Hm : 0 <= m_size m) by apply Fm.
    replace b1 with (8 * (off + m_size m)) in H by lia.
    destruct (IH (off + m_size m) _ _ _ _ ltac:(lia) Fms Oms H) as [-> I2]. cbn [total]. split; [lia|].
    intros [|i] q E; cbn in E.
    + assert (p = q) by congruence. subst q. cbn [firstn total]. destruct p as [x y]; cbn [fst snd] in S0, S1. subst x y. f_equal; lia.
    + rewrite (I2 _ _ E). cbn [firstn total]. f_equal. lia.
Qed.

(** ** When the arithmetic does not overflow *)
Lemma chk_ok z : -2^31 <= z < 2^31 -> chk z = Some z.
Proof. unfold chk. intros H. destruct ((-2^31 <=? z) && (z <? 2^31)) eqn:E; auto. lia. Qed.
Lemma align_to_ok n a : 0 <= n -> 0 < a -> n + a < 2^31 -> exists r, align_to n a = Some r /\ n <= r < n + a.
Proof.
  intros Hn Ha H. unfold align_to. destruct (a =? 0) eqn:E; [lia|]. rewrite chk_ok by lia.
  rewrite Z.quot_div_nonneg by lia.
  pose proof (Z.div_mod (n + a - 1) a ltac:(lia)). pose proof (Z.mod_pos_bound (n + a - 1) a Ha).
  exists ((n + a - 1) / a * a). rewrite chk_ok by lia. split; auto. lia.
Qed.
Lemma align_down_ok n a : 0 <= n -> 0 < a -> n < 2^31 -> a < 2^31 -> exists r, align_down n a = Some r.
Proof.
  intros Hn Ha H H'. unfold align_down, align_to. rewrite chk_ok by lia. destruct (a =? 0) eqn:E; [lia|].
  replace (n - a + 1 + a - 1) with n by lia. rewrite chk_ok by lia. rewrite Z.quot_div_nonneg by lia.
  pose proof (Z.div_mod n a ltac:(lia)). pose proof (Z.mod_pos_bound n a Ha).
  assert (0 <= n / a) by (apply Z.div_pos; lia).
  exists (n / a * a). apply chk_ok. nia.
Qed.
Lemma place_member_ok packed bits m : 0 <= bits -> member_ok m -> bits + budget m < 2^31 ->
  exists b p, place_member packed bits m = Some (b, p) /\ 0 <= b <= bits + budget m.
Proof.
  intros Hb (Hs & Ha & Hw) B. unfold budget in B. unfold place_member. rewrite chk_ok by lia.
  destruct (m_width m) as [w|] eqn:EW.
  - destruct (w =? 0) eqn:W0.
    + destruct (align_to_ok bits (m_size m * 8)) as (r & -> & R); try lia. exists r, (0, 0). split; auto. unfold budget. lia.
    + destruct (m_size m * 8 =? 0) eqn:Z8; [lia|]. rewrite chk_ok by lia.
      assert (A: exists b, (if negb (Z.quot bits (m_size m * 8) =? Z.quot (bits + w - 1) (m_size m * 8))
                 then align_to bits (m_size m * 8) else Some bits) = Some b /\ bits <= b < bits + m_size m * 8).
      { destruct (negb _); [apply align_to_ok; lia|]. exists bits. split; auto. lia. }
      destruct A as (b & -> & Bb).
      assert (D: exists off, align_down (Z.quot b 8) (m_size m) = Some off).
      { rewrite Z.quot_div_nonneg by lia.
        apply align_down_ok; [apply Z.div_pos; lia|lia|apply Z.div_lt_upper_bound; lia|lia]. }
      destruct D as (off & ->). rewrite chk_ok by lia. eexists _, _. split; [reflexivity|]. unfold budget. lia.
  - destruct packed; cbn [negb].
    + rewrite chk_ok by lia. eexists _, _. split; [reflexivity|]. unfold budget. lia.
    + rewrite chk_ok by lia. destruct (align_to_ok bits (m_align m * 8)) as (r & -> & R); try lia.
      rewrite chk_ok by lia. eexists _, _. split; [reflexivity|]. unfold budget. lia.
Qed.
Lemma budgets_nonneg ms : Forall member_ok ms -> 0 <= budgets ms /\ forall m, In m ms -> 8 * m_align m <= budgets ms.
Proof.
  induction 1 as [|m ms (H1 & H2 & _) _ [IH1 IH2]]; cbn [budgets]; unfold budget; [split; [lia|intros m []]|].
  split; [lia|]. intros m' [<-|I]; [lia|]. specialize (IH2 _ I). lia.
Qed.
Lemma place_all_ok packed ms : forall bits al, 0 <= bits -> Forall member_ok ms -> bits + budgets ms < 2^31 ->
  exists ps b a, place_all packed bits al ms = Some (ps, b, a) /\ 0 <= b <= bits + budgets ms.
Proof.
  induction ms as [|m ms IH]; intros bits al Hb F B; cbn [place_all].
  - exists [], bits, al. split; auto. cbn [budgets]. lia.
  - inversion F as [|? ? Fm Fms]; subst. cbn [budgets] in *. destruct (budgets_nonneg _ Fms) as [N _].
    destruct (place_member_ok packed bits m Hb Fm ltac:(lia)) as (b & p & -> & P). cbn [fst snd].
    fold (advance packed al m).
    destruct (IH b (advance packed al m) ltac:(lia) Fms ltac:(lia)) as (ps & b' & a & -> & P'). cbn [fst snd].
    exists (p :: ps), b', a. split; auto. lia.
Qed.
Lemma struct_layout_ok packed al ms : 1 <= al -> Forall member_ok ms -> 2 * budgets ms + 8 * al < 2^31 ->
  exists r, struct_layout packed al ms = Some r.
Proof.
  intros Ha F B. unfold struct_layout. destruct (budgets_nonneg _ F) as [N1 N2].
  destruct (place_all_ok packed ms 0 al ltac:(lia) F ltac:(lia)) as (ps & b & a & E & P). rewrite E. cbn [fst snd].
  destruct (place_all_align _ _ _ _ _ _ _ E) as (A1 & A2 & _).
  assert (8 * a <= 8 * al + budgets ms) by (destruct A2 as [->|(m & I & ->)]; [lia|specialize (N2 _ I); lia]).
  rewrite chk_ok by lia. destruct (align_to_ok b (a * 8)) as (r & -> & R); try lia. eauto.
Qed.

(** ** Unions *)
Lemma union_fold ms : forall sz al s a, fold_left union_step ms (sz, al) = (s, a) ->
  sz <= s /\ al <= a /\ (forall m, In m ms -> m_size m <= s /\ m_align m <= a) /\
  (s = sz \/ exists m, In m ms /\ s = m_size m) /\ (a = al \/ exists m, In m ms /\ a = m_align m).
Proof.
  induction ms as [|m ms IH]; intros sz al s a H.
  - cbn in H. assert (sz = s /\ al = a) as [<- <-] by (split; congruence).
    split; [lia|]. split; [lia|]. split; [intros m []|]. split; now left.
  - cbn [fold_left union_step] in H. apply IH in H as (I1 & I2 & I3 & I4 & I5).
    assert (E1: sz <= (if sz <? m_size m then m_size m else sz) /\ m_size m <= (if sz <? m_size m then m_size m else sz)) by (destruct (sz <? m_size m) eqn:?; lia).
    assert (E2: al <= (if al <? m_align m then m_align m else al) /\ m_align m <= (if al <? m_align m then m_align m else al)) by (destruct (al <? m_align m) eqn:?; lia).
    split; [lia|]. split; [lia|]. split; [|split].
    + intros m' [<-|I]; [split; lia|now apply I3].
    + destruct I4 as [->|(m' & I & ->)]; [|right; exists m'; split; auto; now right].
      destruct (sz <? m_size m); [right; exists m; split; auto; now left|now left].
    + destruct I5 as [->|(m' & I & ->)]; [|right; exists m'; split; auto; now right].
      destruct (al <? m_align m); [right; exists m; split; auto; now left|now left].
Qed.

(** ** Member lookup *)
Section MtreeInd.
  Variable P : mtree -> Prop.
  Hypothesis Hleaf : forall n o, P (Mem n o None).
  Hypothesis Hnode : forall n o sub, Forall P sub -> P (Mem n o (Some sub)).
  Fixpoint mtree_ind' (m : mtree) : P m :=
    match m with
    | Mem n o None => Hleaf n o
    | Mem n o (Some sub) => Hnode n o sub
        ((fix go l : Forall P l := match l with [] => Forall_nil P | x :: r => Forall_cons x (mtree_ind' x) (go r) end) sub)
    end.
End MtreeInd.

Lemma get_member_anon name o sub :
  get_member name (Mem None o (Some sub)) =
  match get_struct_member name sub with LFound _ => LFound (Mem None o (Some sub)) | x => x end.
Proof.
  cbn [get_member]. generalize (Mem None o (Some sub)) as self. intros self.
  induction sub as [|x r IH]; cbn [get_struct_member]; auto. destruct (get_member name x); auto.
Qed.
Lemma get_member_named name k o sub :
  get_member name (Mem (Some k) o sub) = if list_eq_dec Z.eq_dec k name then LFound (Mem (Some k) o sub) else LNone.
Proof. destruct sub; reflexivity. Qed.
Lemma first_visible_app name a b : first_visible name (a ++ b) = match first_visible name a with Some v => Some v | None => first_visible name b end.
Proof.
  unfold first_visible. induction a as [|e a IH]; cbn [app find]; auto.
  destruct (list_eq_dec Z.eq_dec (fst e) name); auto.
Qed.


(** the search through one member *)
Definition member_good (name : bytes) (m : mtree) : Prop :=
  (get_member name m = LNone /\ forall base, first_visible name (visible_of base m) = None) \/
  (get_member name m = LFound m /\ exists N l, (forall f, (N <= f)%nat -> 
     match m with
     | Mem (Some _) o _ => l = [o]
     | Mem None o (Some sub) => exists l', l = o :: l' /\ struct_ref f name sub = RPath l'
     | Mem None o None => False
     end) /\ forall base, first_visible name (visible_of base m) = Some (base + sum l)).

Lemma list_good name ms : Forall (member_good name) ms ->
  exists N res, (forall f, (N <= f)%nat -> struct_ref f name ms = res) /\
    match res with
    | RPath l => (exists m, get_struct_member name ms = LFound m) /\ forall base, first_visible name (flat_map (visible_of base) ms) = Some (base + sum l)
    | RNoMember => get_struct_member name ms = LNone /\ forall base, first_visible name (flat_map (visible_of base) ms) = None
    | _ => False
    end.
Proof.
  induction 1 as [|m ms Hm _ IH].
  - exists 1%nat, RNoMember. split; [intros [|f] Hf; [lia|reflexivity]|]. split; reflexivity.
  - destruct Hm as [[G V]|(G & N & l & R & V)].
    + destruct IH as (N & res & R & S0). exists (S N), res. split.
      * intros [|f] Hf; [lia|]. specialize (R (S f) ltac:(lia)). cbn [struct_ref get_struct_member] in *. rewrite G. exact R.
      * cbn [get_struct_member flat_map]. rewrite G. destruct res; try contradiction.
        -- destruct S0 as [S1 S2]. split; auto. intros base. now rewrite first_visible_app, V.
        -- destruct S0 as [S1 S2]. split; auto. intros base. now rewrite first_visible_app, V.
    + exists (S N), (RPath l). split.
      * intros [|f] Hf; [lia|]. cbn [struct_ref get_struct_member]. rewrite G.
        specialize (R f ltac:(lia)). destruct m as [[k|] o [sub|]]; try contradiction.
        -- now rewrite R.
        -- now rewrite R.
        -- destruct R as (l' & -> & ->). reflexivity.
      * cbn [get_struct_member flat_map]. rewrite G. split; eauto. intros base. now rewrite first_visible_app, V.
Qed.

Lemma all_good name m : all_named m -> member_good name m.
Proof.
  induction m as [n o|n o sub IH] using mtree_ind'; intros A.
  - inversion A; subst. unfold member_good. rewrite get_member_named.
    cbn [visible_of]. unfold first_visible. cbn [find fst]. destruct (list_eq_dec Z.eq_dec n0 name) as [->|NE].
    + right. split; auto. exists 0%nat, [o]. split; auto. intros base. cbn [snd sum]. f_equal. lia.
    + left. split; auto.
  - destruct n as [n|].
    + unfold member_good. rewrite get_member_named.
      cbn [visible_of]. unfold first_visible. cbn [find fst]. destruct (list_eq_dec Z.eq_dec n name) as [->|NE].
      * right. split; auto. exists 0%nat, [o]. split; auto. intros base. cbn [snd sum]. f_equal. lia.
      * left. split; auto.
    + inversion A as [|? ? F]; subst. unfold member_good. rewrite get_member_anon.
      assert (G: Forall (member_good name) sub).
      { clear A. induction sub as [|x r IHr]; constructor; inversion F; inversion IH; subst; auto. }
      destruct (list_good name sub G) as (N & res & R & S0). destruct res as [l| | |]; try contradiction.
      * destruct S0 as [[m ->] V]. right. split; auto. exists N, (o :: l). split.
        -- intros f Hf. exists l. split; auto.
        -- intros base. cbn [visible_of]. rewrite V. cbn [sum]. f_equal. lia.
      * destruct S0 as [-> V]. left. split; auto. intros base. cbn [visible_of]. apply V.
Qed.

Lemma lookup_good name ms : Forall all_named ms ->
  exists N res, (forall f, (N <= f)%nat -> struct_ref f name ms = res) /\
    match first_visible name (visible ms) with
    | Some off => exists l, res = RPath l /\ sum l = off
    | None => res = RNoMember
    end.
Proof.
  intros F. destruct (list_good name ms) as (N & res & R & S0).
  { eapply Forall_impl; [|exact F]. intros m. apply all_good. }
  exists N, res. split; auto. unfold visible. destruct res; try contradiction.
  - destruct S0 as [_ V]. rewrite V. exists offs. split; auto.
  - destruct S0 as [_ V]. now rewrite V.
Qed.

Lemma small_multiple q s : 0 <= q * s < s -> q = 0.
Proof. intros H. assert (0 < s) by lia. symmetry. rewrite (floor_unique (q * s) s q) by lia. symmetry. apply Z.div_small. lia. Qed.
