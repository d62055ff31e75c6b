(** Properties C30, C31, C32 and C58. *)
From Verif Require Import Base LayoutModel LayoutSpec LayoutProofs.
From Coq Require Import ZifyBool ZifyNat.
Local Notation length := List.length.

(** ** C30 *)
(** Members (bit-fields included) are laid out in order, without overlap, inside the
    struct; ordinary members are at multiples of their alignment; the size is a
    multiple of the struct's alignment, which is the largest one asked for. *)
Theorem C30_struct_layout al ms ps size a :
  1 <= al -> Forall member_ok ms -> struct_layout false al ms = Some (ps, size, a) ->
  length ps = length ms /\
  (forall i m p, nth_error ms i = Some m -> nth_error ps i = Some p ->
     (occupies m -> 0 <= first_bit p /\ end_bit m p <= 8 * size) /\
     (ordinary m -> snd p = 0 /\ (m_align m | fst p))) /\
  (forall i j m p m' p', (i < j)%nat -> nth_error ms i = Some m -> nth_error ps i = Some p ->
     nth_error ms j = Some m' -> nth_error ps j = Some p' -> occupies m -> occupies m' -> end_bit m p <= first_bit p') /\
  (a | size) /\ 0 <= size /\ al <= a /\ (forall m, In m ms -> m_align m <= a) /\ (a = al \/ exists m, In m ms /\ a = m_align m).
Proof.
  intros Ha F H. destruct (struct_layout_inv _ _ _ _ _ _ H) as (b & P & s & A & ->).
  destruct (place_all_spec ms 0 al ps b a ltac:(lia) F P) as (B1 & B2 & B3 & B4 & B5).
  destruct (place_all_align _ _ _ _ _ _ _ P) as (A1 & A2 & A3 & _).
  destruct (struct_size_spec b a s B1 ltac:(lia) A) as (S1 & [k S2] & S3). cbv zeta in S1, S2, S3.
  assert (OK: forall i m, nth_error ms i = Some m -> member_ok m).
  { intros i m E. apply nth_error_In in E. rewrite Forall_forall in F. auto. }
  split; [exact (place_all_length _ _ _ _ _ _ _ P)|]. split; [|split; [|split; [|split; [|split; [|split]]]]].
  - intros i m p E1 E2. destruct (B2 i m p E1 E2) as (c0 & c1 & C1 & C2 & C3 & _). split.
    + intros Oc. destruct (placed_mono _ _ _ _ (OK _ _ E1) C1) as [_ X]. destruct (X Oc). lia.
    + intros Or. unfold placed in C1. rewrite Or in C1. destruct C1 as (X & _ & _ & _ & [q Q]). split; auto. exists q. exact Q.
  - intros i j m p m' p' L E1 E2 E3 E4 O1 O2. destruct (B2 i m p E1 E2) as (c0 & c1 & C1 & _ & _ & C4 & _).
    destruct (placed_mono _ _ _ _ (OK _ _ E1) C1) as [_ X]. destruct (X O1) as [_ <-]. apply (C4 j m' p'); auto.
  - exists k. exact S2.
  - exact S3.
  - exact A1.
  - now apply A3.
  - exact A2.
Qed.
Print Assumptions C30_struct_layout.

(** There is no needless padding: an ordinary member starts less than its alignment
    after the end of its predecessor (or the start of the struct), and the struct ends
    less than its own alignment after its last member. *)
Theorem C30_minimal_padding al ms ps size a :
  1 <= al -> Forall member_ok ms -> struct_layout false al ms = Some (ps, size, a) ->
  (forall m p, nth_error ms 0 = Some m -> nth_error ps 0 = Some p -> occupies m -> first_bit p = 0) /\
  (forall i m p m' p', nth_error ms i = Some m -> nth_error ps i = Some p -> occupies m ->
     nth_error ms (S i) = Some m' -> nth_error ps (S i) = Some p' -> ordinary m' -> first_bit p' - end_bit m p < 8 * m_align m') /\
  (forall i m p, length ms = S i -> nth_error ms i = Some m -> nth_error ps i = Some p -> occupies m -> 8 * size - end_bit m p < 8 * a) /\
  (ms = [] -> size = 0).
Proof.
  intros Ha F H. destruct (struct_layout_inv _ _ _ _ _ _ H) as (b & P & s & A & ->).
  destruct (place_all_spec ms 0 al ps b a ltac:(lia) F P) as (B1 & B2 & B3 & B4 & B5).
  destruct (place_all_align _ _ _ _ _ _ _ P) as (A1 & A2 & A3 & _).
  destruct (struct_size_spec b a s B1 ltac:(lia) A) as (S1 & [k S2] & S3). cbv zeta in S1, S2, S3.
  split; [|split; [|split]].
  - intros m p E1 E2 Oc. destruct (B2 0%nat m p E1 E2) as (c0 & c1 & C1 & C2 & C3 & _ & _ & C5 & _).
    rewrite (C5 eq_refl) in C1. unfold placed in C1.
    assert (OK: member_ok m) by (apply nth_error_In in E1; rewrite Forall_forall in F; auto). destruct OK as (K1 & K2 & K3).
    destruct (m_width m) as [w|] eqn:EW.
    + destruct (w =? 0) eqn:W; [exfalso; apply Oc; rewrite EW; f_equal; lia|].
      destruct C1 as (_ & L & L0 & L1 & _ & [q Q] & [X|(X1 & X2 & X3)]); [exact X|].
      unfold first_bit in *. assert (q = 0) by (apply (small_multiple q (m_size m)); lia). subst q. lia.
    + destruct C1 as (X & Y & _ & Z0 & [q Q]). unfold first_bit in *. assert (q = 0) by (apply (small_multiple q (m_align m)); lia). subst q. lia.
  - intros i m p m' p' E1 E2 Oc E3 E4 Or. destruct (B2 _ m' p' E3 E4) as (c0 & c1 & C1 & C2 & C3 & _ & _ & _ & C6).
    rewrite <- (C6 i m p eq_refl E1 E2 Oc). unfold placed in C1. rewrite Or in C1. lia.
  - intros i m p L E1 E2 Oc. rewrite <- (B5 i m p L E1 E2 Oc). lia.
  - intros E. specialize (B4 E). subst b. rewrite S2 in *. assert (k = 0) by (apply (small_multiple k a); lia). subst k. lia.
Qed.
Print Assumptions C30_minimal_padding.

(** The computation is free of overflow for every struct of less than some 64 MB *)
Theorem C30_layout_defined packed al ms :
  1 <= al -> Forall member_ok ms -> 2 * budgets ms + 8 * al < 2^31 -> exists r, struct_layout packed al ms = Some r.
Proof. exact (struct_layout_ok packed al ms). Qed.
Print Assumptions C30_layout_defined.
(** ... but it counts bits in an int: 256 MB are too much. *)
Theorem C30_large_struct_refuted :
  exists m, member_ok m /\ m_size m < 2^31 /\ struct_layout false 1 [m] = None.
Proof. exists (Member (2^28) 1 None). vm_compute. intuition discriminate. Qed.
Print Assumptions C30_large_struct_refuted.

(** A packed struct of ordinary members has no padding at all. *)
Theorem C30_packed_struct ms ps size a :
  Forall member_ok ms -> Forall ordinary ms -> struct_layout true 1 ms = Some (ps, size, a) ->
  size = total ms /\ a = 1 /\ length ps = length ms /\ forall i p, nth_error ps i = Some p -> p = (total (firstn i ms), 0).
Proof.
  intros F O H. destruct (struct_layout_inv _ _ _ _ _ _ H) as (b & P & s & A & ->).
  destruct (place_all_align _ _ _ _ _ _ _ P) as (_ & _ & _ & A4). specialize (A4 eq_refl). subst a.
  pose proof (place_all_length _ _ _ _ _ _ _ P) as L.
  change 0 with (8 * 0) in P. destruct (place_all_packed ms 0 1 ps b 1 ltac:(lia) F O P) as [-> Q].
  pose proof (total_nonneg ms F). destruct (struct_size_spec (8 * (0 + total ms)) 1 s ltac:(lia) ltac:(lia) A) as (S1 & [k S2] & S3). cbv zeta in S1, S2, S3.
  split; [lia|]. split; auto.
Qed.
Print Assumptions C30_packed_struct.

(** Every mention of a struct tag lays the struct out again: nothing changes. *)
Theorem C30_relayout_stable packed al ms ps size a :
  struct_layout packed al ms = Some (ps, size, a) -> struct_layout packed a ms = Some (ps, size, a).
Proof.
  unfold struct_layout. destruct (place_all packed 0 al ms) as [[[ps' b] a']|] eqn:P; [|discriminate]. cbn [fst snd].
  intros H. assert (a' = a).
  { destruct (chk (a' * 8)); [|discriminate]. destruct (align_to b z); [|discriminate]. congruence. }
  subst a'. rewrite (place_all_again _ _ _ _ _ _ _ a P ltac:(lia)). cbn [fst snd]. exact H.
Qed.
Print Assumptions C30_relayout_stable.

(** struct { char c; int a : 5, b : 28; long : 0; short s; } *)
Definition ex_members := [Member 1 1 None; Member 4 4 (Some 5); Member 4 4 (Some 28); Member 8 8 (Some 0); Member 2 2 None].
Example C30_nonvacuous :
  Forall member_ok ex_members /\
  struct_layout false 1 ex_members = Some ([(0, 0); (0, 8); (4, 0); (0, 0); (8, 0)], 16, 8) /\
  struct_layout true 1 [Member 1 1 None; Member 8 8 None; Member 2 2 None] = Some ([(0, 0); (1, 0); (9, 0)], 11, 1).
Proof. split; [repeat constructor; cbn; lia|]. split; reflexivity. Qed.

(** A member of incomplete type (size -1) is not rejected: the next one overlaps it. *)
Theorem C30_incomplete_member_refuted :
  struct_layout false 1 [Member 1 1 None; Member (-1) 1 None; Member 1 1 None] = Some ([(0, 0); (1, 0); (0, 0)], 1, 1).
Proof. reflexivity. Qed.
Print Assumptions C30_incomplete_member_refuted.

(** ** C31 *)
Theorem C31_union_layout ms s a :
  Forall member_ok ms -> union_layout 0 1 ms = Some (s, a) ->
  (a | s) /\ 1 <= a /\ (forall m, In m ms -> m_size m <= s /\ m_align m <= a) /\
  (a = 1 \/ exists m, In m ms /\ a = m_align m) /\
  (exists s0, (s0 = 0 \/ exists m, In m ms /\ s0 = m_size m) /\ s0 <= s < s0 + a).
Proof.
  intros F. unfold union_layout. destruct (fold_left union_step ms (0, 1)) as [s0 a0] eqn:E.
  destruct (union_fold _ _ _ _ _ E) as (U1 & U2 & U3 & U4 & U5).
  destruct (align_to s0 a0) as [s'|] eqn:A; [|discriminate]. intros H. assert (s' = s /\ a0 = a) as [-> ->] by (split; congruence).
  apply align_to_spec in A as [B [k K]]; try lia.
  split; [exists k; exact K|]. split; [lia|]. split; [|split; [exact U5|exists s0; split; [exact U4|lia]]].
  intros m I. destruct (U3 m I). lia.
Qed.
Print Assumptions C31_union_layout.
Example C31_nonvacuous : union_layout 0 1 [Member 4 4 None; Member 5 1 None] = Some (8, 4).
Proof. reflexivity. Qed.
Theorem C31_union_relayout_stable ms s a :
  Forall member_ok ms -> union_layout 0 1 ms = Some (s, a) -> s + a < 2^31 -> union_layout s a ms = Some (s, a).
Proof.
  intros F H Hs. destruct (C31_union_layout ms s a F H) as ([k K] & A1 & U & _ & _).
  assert (G: forall l, (forall m, In m l -> In m ms) -> fold_left union_step l (s, a) = (s, a)).
  { induction l as [|m l IH]; intros I; [reflexivity|]. cbn [fold_left union_step].
    destruct (U m (I m (or_introl eq_refl))) as [L1 L2].
    destruct (s <? m_size m) eqn:E1; [lia|]. destruct (a <? m_align m) eqn:E2; [lia|]. apply IH. intros m' J. apply I. now right. }
  unfold union_layout. rewrite G by auto.
  assert (Hs0: 0 <= s).
  { unfold union_layout in H. destruct (fold_left union_step ms (0, 1)) as [s0 a0] eqn:E.
    destruct (union_fold _ _ _ _ _ E) as (U1 & U2 & _).
    destruct (align_to s0 a0) as [s'|] eqn:A; [|discriminate]. assert (s' = s /\ a0 = a) as [-> ->] by (split; congruence).
    apply align_to_spec in A as [B _]; lia. }
  destruct (align_to_ok s a) as (r & E & R); try lia. rewrite E. f_equal. f_equal.
  apply align_to_spec in E as [_ [k' K']]; try lia. subst. assert (k' = k) by nia. now subst.
Qed.
Print Assumptions C31_union_relayout_stable.
(** `packed` is ignored by unions: a packed union of a char array of 5 and an int
    takes 8 bytes instead of 5 (in GCC 5). The layout does not depend on the
    attribute at all, see [union_layout]. *)

(** ** C32 *)
(** Every bit-field of positive width lies in one aligned storage unit of its type;
    with alignments that are powers of two, at least the size of the type for a
    bit-field, the unit lies in the struct. Disjointness and order are in
    C30_struct_layout. A bit-field follows its predecessor immediately unless
    it would cross a unit. *)
Theorem C32_bitfield_layout al ms ps size a :
  1 <= al -> Forall member_ok ms -> struct_layout false al ms = Some (ps, size, a) ->
  forall i m p w, nth_error ms i = Some m -> nth_error ps i = Some p -> m_width m = Some w -> 0 < w ->
    0 <= snd p /\ snd p + w <= 8 * m_size m /\ (m_size m | fst p) /\
    (power_of_two al -> (forall m', In m' ms -> power_of_two (m_align m')) -> power_of_two (m_size m) -> m_size m <= m_align m ->
       0 <= fst p /\ fst p + m_size m <= size) /\
    (forall j m' p', i = S j -> nth_error ms j = Some m' -> nth_error ps j = Some p' -> occupies m' ->
       first_bit p = end_bit m' p' \/
       (snd p = 0 /\ end_bit m' p' < first_bit p < end_bit m' p' + w)).
Proof.
  intros Ha F H i m p w E1 E2 EW W. destruct (struct_layout_inv _ _ _ _ _ _ H) as (b & P & s & A & ->).
  destruct (place_all_spec ms 0 al ps b a ltac:(lia) F P) as (B1 & B2 & B3 & B4 & B5).
  destruct (place_all_align _ _ _ _ _ _ _ P) as (A1 & A2 & A3 & _).
  destruct (struct_size_spec b a s B1 ltac:(lia) A) as (S1 & [k S2] & S3). cbv zeta in S1, S2, S3.
  destruct (B2 i m p E1 E2) as (c0 & c1 & C1 & C2 & C3 & _ & _ & _ & C6).
  unfold placed in C1. rewrite EW in C1. destruct (w =? 0) eqn:W0; [lia|].
  destruct C1 as (D1 & D2 & D3 & D4 & D5 & [q Q] & D7).
  split; [lia|]. split; [lia|]. split; [exists q; exact Q|]. split.
  - intros Pal Pms Psz L. split; [lia|].
    assert (Pa: power_of_two a) by (destruct A2 as [->|(m' & I & ->)]; auto).
    assert (L2: m_size m <= a) by (specialize (A3 eq_refl m (nth_error_In _ _ E1)); lia).
    destruct (pow2_le_div _ _ Psz Pa L2) as [r R].
    assert (Sz: 0 < m_size m) by (destruct Psz as (e & He & ->); apply Z.pow_pos_nonneg; lia).
    (* both ends are multiples of the unit *)
    assert (X: 8 * fst p < 8 * Z.quot s 8) by (unfold end_bit, first_bit, bit_count in D1; rewrite EW in D1; lia).
    rewrite S2, R, Q in *. assert (q < k * r) by nia. nia.
  - intros j m' p' -> E3 E4 Oc. rewrite <- (C6 j m' p' eq_refl E3 E4 Oc).
    destruct D7 as [D7|(X1 & X2 & X3)]; [now left|]. destruct (Z.eq_dec (first_bit p) c0); [now left|right]. lia.
Qed.
Print Assumptions C32_bitfield_layout.

(** A zero width bit-field closes the storage unit: some unit boundary lies between
    what precedes and what follows. *)
Theorem C32_zero_width al ms ps size a :
  1 <= al -> Forall member_ok ms -> struct_layout false al ms = Some (ps, size, a) ->
  forall i m, nth_error ms i = Some m -> m_width m = Some 0 ->
    exists bound, (8 * m_size m | bound) /\
      (forall j m' p', (j < i)%nat -> nth_error ms j = Some m' -> nth_error ps j = Some p' -> occupies m' -> end_bit m' p' <= bound) /\
      (forall j m' p', (i < j)%nat -> nth_error ms j = Some m' -> nth_error ps j = Some p' -> occupies m' -> bound <= first_bit p').
Proof.
  intros Ha F H i m E1 EW. destruct (struct_layout_inv _ _ _ _ _ _ H) as (b & P & s & A & ->).
  destruct (place_all_spec ms 0 al ps b a ltac:(lia) F P) as (B1 & B2 & _).
  assert (Ep: exists p, nth_error ps i = Some p).
  { destruct (nth_error ps i) eqn:E; eauto. apply nth_error_None in E. rewrite (place_all_length _ _ _ _ _ _ _ P) in E.
    assert (nth_error ms i <> None) by congruence. apply nth_error_Some in H0. lia. }
  destruct Ep as [p Ep]. destruct (B2 i m p E1 Ep) as (c0 & c1 & C1 & C2 & C3 & C4 & C5 & _).
  unfold placed in C1. rewrite EW in C1. cbn [Z.eqb] in C1. destruct C1 as (D1 & [k D2] & D3).
  exists c1. split; [exists k; exact D2|]. split.
  - intros j m' p' L X Y Z0. specialize (C5 j m' p' L X Y Z0). lia.
  - exact C4.
Qed.
Print Assumptions C32_zero_width.

(** struct { char c; int a : 5, b : 28; long : 0; short s; } *)
Example C32_nonvacuous :
  struct_layout false 1 ex_members = Some ([(0, 0); (0, 8); (4, 0); (0, 0); (8, 0)], 16, 8) /\
  nth_error ex_members 2 = Some (Member 4 4 (Some 28)) /\ end_bit (Member 4 4 (Some 5)) (0, 8) = 13 /\ first_bit (4, 0) = 32.
Proof. repeat split. Qed.

(** In a packed struct the claim fails. struct __attribute__((packed)) { int a : 4; char c; }:
    both start at bit 0. *)
Theorem C32_packed_overlap_refuted :
  let ms := [Member 4 4 (Some 4); Member 1 1 None] in
  Forall member_ok ms /\ exists size, struct_layout true 1 ms = Some ([(0, 0); (0, 0)], size, 1).
Proof. cbn. split; [repeat constructor; cbn; lia|]. exists 2. reflexivity. Qed.
Print Assumptions C32_packed_overlap_refuted.
(** ... and the storage unit of a packed struct's only bit-field is outside the
    struct: 1 byte of size, a unit of 4. *)
Theorem C32_packed_unit_refuted :
  struct_layout true 1 [Member 4 4 (Some 4)] = Some ([(0, 0)], 1, 1).
Proof. reflexivity. Qed.
Print Assumptions C32_packed_unit_refuted.
(** An _Alignas smaller than the type of the bit-field has the same effect. *)
Theorem C32_alignas_unit_refuted :
  struct_layout false 1 [Member 4 1 (Some 4)] = Some ([(0, 0)], 1, 1).
Proof. reflexivity. Qed.
Print Assumptions C32_alignas_unit_refuted.
(** A bit-field wider than its type is accepted: int a : 40. *)
Theorem C32_wide_bitfield_refuted :
  struct_layout false 1 [Member 4 4 (Some 40); Member 4 4 (Some 8)] = Some ([(0, 0); (4, 8)], 8, 4).
Proof. reflexivity. Qed.
Print Assumptions C32_wide_bitfield_refuted.

(** ** C58 *)
(** If all members but anonymous structs and unions have names, s.x denotes the first
    visible member called x, at the sum of the offsets on the way; if there is none
    the program is rejected. *)
Theorem C58_member_lookup_partial name ms : Forall all_named ms ->
  exists N res, (forall f, (N <= f)%nat -> struct_ref f name ms = res) /\
    match first_visible name (visible ms) with
    | Some off => exists l, res = RPath l /\ sum l = off
    | None => res = RNoMember
    end.
Proof. exact (lookup_good name ms). Qed.
Print Assumptions C58_member_lookup_partial.
(** struct { int a; struct { int b; union { int c; char d; }; }; int e; } *)
Definition ex_tree := [Mem (Some [97]) 0 None; Mem None 4 (Some [Mem (Some [98]) 0 None; Mem None 4 (Some [Mem (Some [99]) 0 None; Mem (Some [100]) 0 None])]);
  Mem (Some [101]) 12 None].
Example C58_nonvacuous :
  Forall all_named ex_tree /\ struct_ref 9 [100] ex_tree = RPath [4; 4; 0] /\ first_visible [100] (visible ex_tree) = Some 8 /\
  struct_ref 9 [102] ex_tree = RNoMember.
Proof. split; [repeat constructor|]. repeat split. Qed.
(** An unnamed bit-field (`int : 3;`) before the member crashes the compiler. *)
Theorem C58_unnamed_bitfield_refuted :
  exists name ms off, first_visible name (visible ms) = Some off /\ forall f, struct_ref (S f) name ms = RCrash.
Proof. exists [97], [Mem None 0 None; Mem (Some [97]) 4 None], 4. split; reflexivity. Qed.
Print Assumptions C58_unnamed_bitfield_refuted.
