(** Invariant and refinement proofs for the hash map. *)
From Verif Require Import Base HashMapModel HashMapSpec.
From Coq Require Import ZifyNat ZifyBool Arith.
Ltac Zify.zify_post_hook ::= Z.div_mod_to_equations.

Section P.
Context {V : Type}.
Local Notation key := bytes (only parsing).
Local Notation slot := (slot V).
Local Notation hmap := (hmap V).
Local Open Scope nat_scope.

Definition nonempty (s : slot) : bool := match s with Empty => false | _ => true end.
Definition count_ne (bs : list slot) : nat := List.length (filter nonempty bs).

Lemma count_ne_le bs : count_ne bs <= List.length bs.
Proof. unfold count_ne. induction bs as [|s bs IH]; simpl; [lia|]. destruct (nonempty s); simpl; lia. Qed.

Lemma exists_empty bs : count_ne bs < List.length bs ->
  exists j, j < List.length bs /\ nth j bs Empty = Empty.
Proof.
  unfold count_ne. induction bs as [|s bs IH]; simpl; [lia|]. intro H.
  destruct s; simpl in H.
  - exists 0. split; [lia|reflexivity].
  - destruct IH as [j [Hj E]]; [lia|]. exists (S j). split; [lia|exact E].
  - destruct IH as [j [Hj E]]; [lia|]. exists (S j). split; [lia|exact E].
Qed.

Lemma count_ne_set_ne j s bs : j < List.length bs ->
  nonempty (nth j bs Empty) = true -> nonempty s = true ->
  count_ne (set_nth j s bs) = count_ne bs.
Proof.
  unfold count_ne. revert bs; induction j as [|j IH]; intros [|x bs]; simpl; intros; try lia.
  - rewrite H0, H1. reflexivity.
  - destruct (nonempty x); simpl; rewrite IH; auto; lia.
Qed.

Lemma count_ne_set_e j s bs : j < List.length bs ->
  nth j bs Empty = Empty -> nonempty s = true ->
  count_ne (set_nth j s bs) = S (count_ne bs).
Proof.
  unfold count_ne. revert bs; induction j as [|j IH]; intros [|x bs]; simpl; intros; try lia.
  - subst x. simpl. rewrite H1. reflexivity.
  - destruct (nonempty x); simpl; rewrite IH; auto; lia.
Qed.

Lemma count_ne_repeat n : count_ne (repeat (@Empty V) n) = 0.
Proof. unfold count_ne. induction n; simpl; auto. Qed.

Lemma nth_repeat_empty n j : nth j (repeat (@Empty V) n) Empty = Empty.
Proof. revert j; induction n as [|n IH]; intros [|j]; simpl; auto. Qed.

Lemma nth_set_eq j s (bs : list slot) : j < List.length bs -> nth j (set_nth j s bs) Empty = s.
Proof.
  intro H. apply nth_error_nth. apply nth_error_set_nth_eq. exact H.
Qed.

Lemma nth_set_neq j j' s (bs : list slot) : j <> j' -> nth j' (set_nth j s bs) Empty = nth j' bs Empty.
Proof.
  intro H. pose proof (nth_error_set_nth_neq j j' s bs H) as E.
  destruct (nth_error bs j') eqn:E2.
  - erewrite (nth_error_nth bs) by exact E2. apply nth_error_nth. exact E.
  - apply nth_error_None in E, E2. rewrite !nth_overflow; auto.
Qed.

(** Capacities: 16 * 2^e below 2^31. *)
Definition cap_ok (c : nat) : Prop :=
  exists e : Z, (0 <= e)%Z /\ Z.of_nat c = (2 ^ (e + 4))%Z /\ (Z.of_nat c < 2 ^ 31)%Z.

Lemma cap_ok_16 : cap_ok 16.
Proof. exists 0%Z. split; [lia|]. split; [reflexivity|lia]. Qed.

Lemma cap_ok_double c : cap_ok c -> (Z.of_nat (c * 2) < 2 ^ 31)%Z -> cap_ok (c * 2).
Proof.
  intros [e [He [Hc Hb]]] H. exists (e + 1)%Z. split; [lia|]. split; [|exact H].
  replace (e + 1 + 4)%Z with (e + 4 + 1)%Z by lia.
  rewrite Z.pow_add_r by lia. rewrite Nat2Z.inj_mul, Hc. reflexivity.
Qed.

Lemma cap_ok_ge c : cap_ok c -> 16 <= c.
Proof.
  intros [e [He [Hc _]]]. assert (2 ^ 4 <= 2 ^ (e + 4))%Z by (apply Z.pow_le_mono_r; lia).
  change (2^4)%Z with 16%Z in H. lia.
Qed.

Lemma cap_ok_div c : cap_ok c -> (Z.of_nat c | 2 ^ 64)%Z.
Proof.
  intros [e [He [Hc Hb]]]. rewrite Hc in *.
  assert (e + 4 < 31)%Z.
  { apply (Z.pow_lt_mono_r_iff 2); lia. }
  exists (2 ^ (64 - (e + 4)))%Z. rewrite <- Z.pow_add_r by lia. f_equal. lia.
Qed.

Lemma probe_lt c k i : 0 < c -> probe c k i < c.
Proof.
  intro H. unfold probe.
  pose proof (Z.mod_pos_bound ((fnv_hash k + Z.of_nat i) mod 2 ^ 64) (Z.of_nat c)). lia.
Qed.

Lemma probe_simpl c k i : cap_ok c ->
  probe c k i = Z.to_nat ((fnv_hash k + Z.of_nat i) mod Z.of_nat c).
Proof.
  intro H. unfold probe. f_equal.
  destruct (cap_ok_div c H) as [q Hq].
  pose proof (cap_ok_ge c H).
  rewrite Hq. rewrite Z.mul_comm.
  rewrite Z.rem_mul_r by nia.
  rewrite Z.mul_comm, Z.mod_add by lia. rewrite Z.mod_mod by lia. reflexivity.
Qed.

Lemma probe_surj c k j : cap_ok c -> j < c -> exists i, i < c /\ probe c k i = j.
Proof.
  intros H Hj. pose proof (cap_ok_ge c H).
  exists (Z.to_nat ((Z.of_nat j - fnv_hash k) mod Z.of_nat c)).
  pose proof (Z.mod_pos_bound (Z.of_nat j - fnv_hash k) (Z.of_nat c) ltac:(lia)).
  split; [lia|].
  rewrite probe_simpl by assumption.
  rewrite Z2Nat.id by lia.
  rewrite Z.add_mod_idemp_r by lia.
  replace (fnv_hash k + (Z.of_nat j - fnv_hash k))%Z with (Z.of_nat j) by lia.
  rewrite Z.mod_small by lia. lia.
Qed.

(** Weak invariant, true of every history. *)
Definition WInv (m : hmap) : Prop :=
  (buckets m = [] /\ used m = 0) \/
  (cap_ok (capacity m) /\ used m = count_ne (buckets m) /\ used m < capacity m).

Lemma WInv_empty : WInv empty_map.
Proof. left. split; reflexivity. Qed.

Definition entry_is (bs : list slot) (j : nat) (k : key) : Prop := slot_match (nth j bs Empty) k = true.

(* The get loop, from i with n iterations left. *)
Lemma get_loop_spec bs k : forall n i,
  (exists i0, i <= i0 < i + n /\ nth (probe (List.length bs) k i0) bs Empty = Empty) ->
  (exists j i1, get_loop bs k i n = Ok (Some j) /\ i <= i1 < i + n /\
      j = probe (List.length bs) k i1 /\ entry_is bs j k) \/
  (exists i1, get_loop bs k i n = Ok None /\ i <= i1 < i + n /\
      nth (probe (List.length bs) k i1) bs Empty = Empty /\
      forall i', i <= i' < i1 -> ~ entry_is bs (probe (List.length bs) k i') k).
Proof.
  induction n as [|n IH]; intros i [i0 [Hi0 He]]; [lia|].
  cbn [get_loop]. cbv zeta.
  destruct (slot_match (nth (probe (List.length bs) k i) bs Empty) k) eqn:Em.
  - left. exists (probe (List.length bs) k i), i. repeat split; auto; lia.
  - destruct (nth (probe (List.length bs) k i) bs Empty) eqn:Es.
    + right. exists i. repeat split; auto; try lia.
    + assert (i0 <> i) by (intro; subst; congruence).
      destruct (IH (S i)) as [[j [i1 [H1 [H2 [H3 H4]]]]]|[i1 [H1 [H2 [H3 H4]]]]].
      { exists i0. split; [lia|exact He]. }
      * left. exists j, i1. repeat split; auto; lia.
      * right. exists i1. repeat split; auto; try lia.
        intros i' Hi'. destruct (Nat.eq_dec i' i) as [->|Hne].
        -- unfold entry_is. rewrite Es. simpl. discriminate.
        -- apply H4. lia.
    + assert (i0 <> i) by (intro; subst; congruence).
      destruct (IH (S i)) as [[j [i1 [H1 [H2 [H3 H4]]]]]|[i1 [H1 [H2 [H3 H4]]]]].
      { exists i0. split; [lia|exact He]. }
      * left. exists j, i1. repeat split; auto; lia.
      * right. exists i1. repeat split; auto; try lia.
        intros i' Hi'. destruct (Nat.eq_dec i' i) as [->|Hne].
        -- unfold entry_is. rewrite Es, Em. discriminate.
        -- apply H4. lia.
Qed.

Lemma WInv_has_empty m k : WInv m -> buckets m <> [] ->
  exists i0, 0 <= i0 < 0 + capacity m /\ nth (probe (List.length (buckets m)) k i0) (buckets m) Empty = Empty.
Proof.
  intros [[H _]|[Hc [Hu Hl]]] Hne; [contradiction|].
  destruct (exists_empty (buckets m)) as [j [Hj He]].
  { unfold capacity in Hl. lia. }
  destruct (probe_surj (capacity m) k j Hc Hj) as [i [Hi Hp]].
  exists i. split; [lia|]. unfold capacity in Hp. rewrite Hp. exact He.
Qed.

Lemma get_entry_weak m k : WInv m -> 
  (exists j, get_entry m k = Ok (Some j) /\ j < capacity m /\ entry_is (buckets m) j k) \/
  get_entry m k = Ok None.
Proof.
  intro H. unfold get_entry. destruct (buckets m) eqn:Eb; [right; reflexivity|].
  rewrite <- Eb.
  pose proof (WInv_has_empty m k H ltac:(rewrite Eb; discriminate)) as He.
  destruct (get_loop_spec (buckets m) k (capacity m) 0 He)
    as [[j [i1 [H1 [H2 [H3 H4]]]]]|[i1 [H1 _]]].
  - left. exists j. split; [exact H1|]. split; [|exact H4].
    subst j. apply probe_lt. unfold capacity. rewrite Eb. simpl. lia.
  - right. exact H1.
Qed.

Lemma put_loop_spec m k (v : V) : forall n i,
  (exists i0, i <= i0 < i + n /\ nth (probe (capacity m) k i0) (buckets m) Empty = Empty) ->
  exists i1, let j := probe (capacity m) k i1 in
    i <= i1 < i + n /\
    (forall i', i <= i' < i1 -> exists k' v', nth (probe (capacity m) k i') (buckets m) Empty = Ent k' v' /\ k' <> k) /\
    ((entry_is (buckets m) j k /\ put_loop m k v i n = Ok (HMap (set_nth j (Ent k v) (buckets m)) (used m))) \/
     (nth j (buckets m) Empty = Tomb /\ put_loop m k v i n = Ok (HMap (set_nth j (Ent k v) (buckets m)) (used m))) \/
     (nth j (buckets m) Empty = Empty /\ put_loop m k v i n = Ok (HMap (set_nth j (Ent k v) (buckets m)) (S (used m))))).
Proof.
  induction n as [|n IH]; intros i [i0 [Hi0 He]]; [lia|].
  cbn [put_loop]. cbv zeta.
  destruct (slot_match (nth (probe (capacity m) k i) (buckets m) Empty) k) eqn:Em.
  - exists i. split; [lia|]. split; [intros; lia|]. left. split; [exact Em|reflexivity].
  - destruct (nth (probe (capacity m) k i) (buckets m) Empty) eqn:Es.
    + exists i. split; [lia|]. split; [intros; lia|]. right; right. split; [exact Es|reflexivity].
    + exists i. split; [lia|]. split; [intros; lia|]. right; left. split; [exact Es|reflexivity].
    + assert (i0 <> i) by (intro; subst; congruence).
      destruct (IH (S i)) as [i1 [H1 [H2 H3]]].
      { exists i0. split; [lia|exact He]. }
      exists i1. split; [lia|]. split; [|exact H3].
      intros i' Hi'. destruct (Nat.eq_dec i' i) as [->|Hne].
      * exists k0, v0. split; [exact Es|]. simpl in Em. apply beq_neq. exact Em.
      * apply H2. lia.
Qed.

(** Strong invariant: keys unique, and every entry reachable by probing. *)
Definition uniq (bs : list slot) : Prop :=
  forall j j' k v v', nth j bs Empty = Ent k v -> nth j' bs Empty = Ent k v' -> j = j'.

Definition reach (bs : list slot) : Prop :=
  forall j k v, nth j bs Empty = Ent k v ->
    exists i, i < List.length bs /\ probe (List.length bs) k i = j /\
      forall i', i' < i -> nth (probe (List.length bs) k i') bs Empty <> Empty.

Definition no_tomb (bs : list slot) : Prop := forall j, nth j bs Empty <> Tomb.

Definition Rep (m : hmap) (f : key -> option V) : Prop :=
  forall k v, f k = Some v <-> exists j, nth j (buckets m) Empty = Ent k v.

Definition SInv (m : hmap) (f : key -> option V) : Prop :=
  WInv m /\ uniq (buckets m) /\ reach (buckets m) /\ Rep m f.

Definition upd (f : key -> option V) (k : key) (x : option V) : key -> option V :=
  fun k' => if beq k k' then x else f k'.

(* nth with an Ent result is in range *)
Lemma nth_ent_lt (bs : list slot) j k v : nth j bs Empty = Ent k v -> j < List.length bs.
Proof.
  intro H. destruct (Nat.lt_ge_cases j (List.length bs)); auto.
  rewrite nth_overflow in H by auto. discriminate.
Qed.

Lemma entry_is_ent bs j k : entry_is bs j k <-> exists v, nth j bs Empty = Ent k v.
Proof.
  unfold entry_is. destruct (nth j bs Empty); simpl.
  - split; [discriminate|intros [v H]; discriminate].
  - split; [discriminate|intros [v H]; discriminate].
  - rewrite beq_eq. split; [intros ->; eauto|intros [v' H]; congruence].
Qed.

Lemma get_entry_strong m f k : SInv m f ->
  match f k with
  | Some v => exists j, get_entry m k = Ok (Some j) /\ j < capacity m /\ nth j (buckets m) Empty = Ent k v
  | None => get_entry m k = Ok None
  end.
Proof.
  intros [HW [HU [HR HRep]]].
  destruct (f k) as [v|] eqn:Ef.
  - apply HRep in Ef as [j Hj].
    pose proof (nth_ent_lt _ _ _ _ Hj) as Hlt.
    unfold get_entry. destruct (buckets m) eqn:Eb; [simpl in Hlt; lia|]. rewrite <- Eb in *.
    pose proof (WInv_has_empty m k HW ltac:(rewrite Eb; discriminate)) as He.
    destruct (get_loop_spec (buckets m) k (capacity m) 0 He)
      as [[j' [i1 [H1 [H2 [H3 H4]]]]]|[i1 [H1 [H2 [H3 H4]]]]].
    + exists j'. split; [exact H1|]. apply entry_is_ent in H4 as [v' Hv'].
      assert (HE : j = j') by (eapply HU; eauto). rewrite <- HE.
      split; [unfold capacity; lia|exact Hj].
    + exfalso. destruct (HR _ _ _ Hj) as [i [Hi [Hp Hb]]].
      destruct (Nat.lt_trichotomy i i1) as [Hc|[Hc|Hc]].
      * apply (H4 i); [lia|]. rewrite Hp. apply entry_is_ent. eauto.
      * subst i1. rewrite Hp, Hj in H3. discriminate.
      * apply (Hb i1); [lia|exact H3].
  - destruct (get_entry_weak m k HW) as [[j [H1 [H2 H3]]]|H]; [|exact H].
    exfalso. apply entry_is_ent in H3 as [v Hv].
    assert (f k = Some v) by (apply HRep; eauto). congruence.
Qed.

Lemma hashmap_get_strong m f k : SInv m f -> hashmap_get m k = Ok (f k).
Proof.
  intro H. pose proof (get_entry_strong m f k H) as G. unfold hashmap_get.
  destruct (f k) as [v|].
  - destruct G as [j [G1 [G2 G3]]]. rewrite G1, G3. reflexivity.
  - rewrite G. reflexivity.
Qed.

(* A successful insertion at position j preserves the invariants. *)
Lemma insert_weak m k v : 
  cap_ok (capacity m) -> used m = count_ne (buckets m) -> used m + 1 < capacity m ->
  exists m', put_loop m k v 0 (capacity m) = Ok m' /\ WInv m' /\
    capacity m' = capacity m /\ used m <= used m' <= used m + 1.
Proof.
  intros Hc Hu Hl.
  assert (HW : WInv m) by (right; repeat split; auto; lia).
  pose proof (cap_ok_ge _ Hc).
  pose proof (WInv_has_empty m k HW) as He. 
  destruct (put_loop_spec m k v (capacity m) 0) as [i1 [H1 [H2 H3]]].
  { apply He. intro E. unfold capacity in *. rewrite E in *. simpl in *. lia. }
  assert (Hlt : probe (capacity m) k i1 < List.length (buckets m)) by (change (List.length (buckets m)) with (capacity m); apply probe_lt; lia).
  destruct H3 as [[Ha Hb]|[[Ha Hb]|[Ha Hb]]]; rewrite Hb; eexists; split; try reflexivity;
    unfold WInv, capacity; simpl; rewrite set_nth_length; (split; [|split; [reflexivity|lia]]);
    right; (split; [exact Hc|]).
  - rewrite count_ne_set_ne; auto.
    + split; auto. unfold capacity in *. lia.
    + apply entry_is_ent in Ha as [v' Hv']. unfold capacity in Hv'. rewrite Hv'. reflexivity.
  - rewrite count_ne_set_ne; auto.
    + split; auto. unfold capacity in *. lia.
    + unfold capacity in Ha. rewrite Ha. reflexivity.
  - rewrite count_ne_set_e; auto. split; [lia|]. unfold capacity in *. lia.
Qed.

Lemma insert_strong m f k v :
  cap_ok (capacity m) -> used m + 1 < capacity m -> SInv m f ->
  (f k = None \/ no_tomb (buckets m)) ->
  exists m', put_loop m k v 0 (capacity m) = Ok m' /\ SInv m' (upd f k (Some v)) /\
    capacity m' = capacity m /\
    (no_tomb (buckets m) -> no_tomb (buckets m')) /\
    (no_tomb (buckets m) -> f k = None -> used m' = S (used m)) /\ used m' <= S (used m).
Proof.
  intros Hc Hl HS Hcond. destruct HS as [HW [HU [HR HRep]]].
  assert (Hu : used m = count_ne (buckets m)).
  { destruct HW as [[H1 H2]|[_ [H2 _]]]; [|exact H2]. rewrite H1, H2. reflexivity. }
  destruct (insert_weak m k v Hc Hu Hl) as [m' [Hm' [HW' [Hcap Hus]]]].
  pose proof (cap_ok_ge _ Hc) as Hge.
  destruct (put_loop_spec m k v (capacity m) 0) as [i1 [H1 [H2 H3]]].
  { apply WInv_has_empty; auto. intro E. unfold capacity in *. rewrite E in *. simpl in *. lia. }
  set (j := probe (capacity m) k i1) in *.
  assert (Hlt : j < List.length (buckets m)) by (change (List.length (buckets m)) with (capacity m); apply probe_lt; lia).
  assert (Hbm : buckets m' = set_nth j (Ent k v) (buckets m)).
  { destruct H3 as [[_ Hb]|[[_ Hb]|[_ Hb]]]; rewrite Hb in Hm'; injection Hm' as <-; reflexivity. }
  (* no other slot holds k *)
  assert (Honly : forall j' v', nth j' (buckets m) Empty = Ent k v' -> j' = j).
  { intros j' v' Hj'. destruct (Nat.eq_dec j' j) as [|Hne]; [assumption|exfalso].
    destruct (HR _ _ _ Hj') as [i2 [Hi2 [Hp2 Hb2]]].
    destruct (Nat.lt_trichotomy i2 i1) as [Hlt2|[Heq|Hgt]].
    - destruct (H2 i2 ltac:(lia)) as [k' [w [Hk' Hnk]]].
      fold (capacity m) in Hp2. rewrite Hp2, Hj' in Hk'. congruence.
    - subst i2. apply Hne. symmetry. exact Hp2.
    - destruct H3 as [[Ha _]|[[Ha _]|[Ha _]]].
      + apply entry_is_ent in Ha as [w Hw]. apply Hne. eapply HU; eauto.
      + destruct Hcond as [Hn|Hn].
        * assert (f k = Some v') by (apply HRep; eauto). congruence.
        * apply (Hn j). exact Ha.
      + apply (Hb2 i1 Hgt). exact Ha. }
  assert (Hnth : forall j', nth j' (buckets m') Empty = if j' =? j then Ent k v else nth j' (buckets m) Empty).
  { intro j'. rewrite Hbm. destruct (Nat.eqb_spec j' j) as [->|Hne].
    - apply nth_set_eq. exact Hlt.
    - apply nth_set_neq. congruence. }
  exists m'. split; [exact Hm'|].
  assert (Hlen : List.length (buckets m') = List.length (buckets m)) by (rewrite Hbm, set_nth_length; reflexivity).
  split; [|split; [exact Hcap|split; [|split]]].
  - split; [exact HW'|split; [|split]].
    + intros a b kk x y Ha Hb. rewrite Hnth in Ha, Hb.
      destruct (Nat.eqb_spec a j) as [->|Hna]; destruct (Nat.eqb_spec b j) as [->|Hnb]; auto.
      * injection Ha as <- <-. symmetry. eapply Honly; eauto.
      * injection Hb as <- <-. eapply Honly; eauto.
      * eapply HU; eauto.
    + intros a kk x Ha. rewrite Hlen. rewrite Hnth in Ha.
      destruct (Nat.eqb_spec a j) as [->|Hna].
      * injection Ha as <- <-. exists i1. split; [unfold capacity in *; lia|]. split; [reflexivity|].
        intros i' Hi'. rewrite Hnth.
        destruct (Nat.eqb_spec (probe (List.length (buckets m)) k i') j); [discriminate|].
        destruct (H2 i' ltac:(lia)) as [k' [w [Hk' _]]]. fold (capacity m). rewrite Hk'. discriminate.
      * destruct (HR _ _ _ Ha) as [i [Hi [Hp Hb]]]. exists i. split; [exact Hi|]. split; [exact Hp|].
        intros i' Hi'. rewrite Hnth. destruct (Nat.eqb_spec (probe (List.length (buckets m)) kk i') j); [discriminate|].
        apply Hb. exact Hi'.
    + intros kk x. unfold upd. destruct (beq k kk) eqn:E.
      * apply beq_eq in E. subst kk. split.
        -- intro Hx. injection Hx as <-. exists j. rewrite Hnth, Nat.eqb_refl. reflexivity.
        -- intros [a Ha]. rewrite Hnth in Ha. destruct (Nat.eqb_spec a j) as [Ea|Hna]; [congruence|].
           exfalso. apply Hna. eapply Honly; eauto.
      * apply beq_neq in E. rewrite (HRep kk x). split.
        -- intros [a Ha]. exists a. rewrite Hnth. destruct (Nat.eqb_spec a j) as [Ea|]; [|exact Ha]. rewrite Ea in Ha.
           exfalso. destruct H3 as [[Hs _]|[[Hs _]|[Hs _]]].
           ++ apply entry_is_ent in Hs as [w Hw]. congruence.
           ++ congruence.
           ++ congruence.
        -- intros [a Ha]. rewrite Hnth in Ha. destruct (Nat.eqb_spec a j) as [Ea|]; [congruence|eauto].
  - intros Hn j'. rewrite Hnth. destruct (Nat.eqb_spec j' j); [discriminate|apply Hn].
  - intros Hn Hk. destruct H3 as [[Hs Hb]|[[Hs Hb]|[Hs Hb]]].
    + exfalso. apply entry_is_ent in Hs as [w Hw]. assert (f k = Some w) by (apply HRep; eauto). congruence.
    + exfalso. apply (Hn j). exact Hs.
    + rewrite Hb in Hm'. injection Hm' as <-. reflexivity.
  - lia.
Qed.

(** grow *)
Lemma grow_weak nkeys : forall fuel cap, cap_ok cap -> 
  match grow nkeys cap fuel with
  | Ok c => cap_ok c /\ cap <= c /\ nkeys * 2 < c
  | IntOverflow => True
  | ModelFuel => cap * 2 ^ fuel <= 4 * nkeys \/ fuel = 0
  | _ => False
  end.
Proof.
  induction fuel as [|fuel IH]; intros cap Hc; [right; reflexivity|].
  cbn [grow]. pose proof (cap_ok_ge _ Hc).
  destruct (fits_int (nkeys * 100)) eqn:Ef; [|exact I]. cbn [negb].
  destruct (50 <=? nkeys * 100 / cap)%nat eqn:El.
  - destruct (fits_int (cap * 2)) eqn:Ef2; [|exact I].
    unfold fits_int in Ef2. 
    specialize (IH (cap * 2) (cap_ok_double _ Hc ltac:(lia))).
    assert (50 * cap <= nkeys * 100).
    { apply Nat.leb_le in El. apply Nat.mul_le_mono_l with (p := cap) in El.
      pose proof (Nat.mul_div_le (nkeys * 100) cap). lia. }
    destruct (grow nkeys (cap * 2) fuel); auto.
    + destruct IH as [? [? ?]]. split; [assumption|]. split; lia.
    + left. destruct IH as [IH| ->].
      * change (2 ^ S fuel) with (2 * 2 ^ fuel). lia.
      * change (2 ^ 1) with 2. lia.
  - split; [assumption|]. split; [lia|].
    apply Nat.leb_gt in El. 
    assert (nkeys * 100 < 50 * cap).
    { destruct (Nat.lt_ge_cases (nkeys * 100) (50 * cap)); auto.
      assert (50 <= nkeys * 100 / cap) by (apply Nat.div_le_lower_bound; lia). lia. }
    lia.
Qed.

Lemma pow2_gt n : n < 2 ^ n.
Proof. apply Nat.pow_gt_lin_r. lia. Qed.

Lemma grow_nofuel nkeys cap : cap_ok cap -> grow nkeys cap (S nkeys) <> ModelFuel.
Proof.
  intros Hc E. pose proof (grow_weak nkeys (S nkeys) cap Hc) as G. rewrite E in G.
  destruct G as [G|G]; [|lia]. pose proof (cap_ok_ge _ Hc). pose proof (pow2_gt (S nkeys)).
  nia.
Qed.

(* With few keys, growing cannot overflow. *)
Lemma grow_no_overflow nkeys : (Z.of_nat nkeys <= 20000000)%Z -> forall fuel cap,
  cap_ok cap -> (Z.of_nat cap <= 2 ^ 30)%Z -> grow nkeys cap fuel <> IntOverflow.
Proof.
  intros Hn. induction fuel as [|fuel IH]; intros cap Hc Hb; [discriminate|].
  cbn [grow]. pose proof (cap_ok_ge _ Hc).
  unfold fits_int.
  destruct (Z.ltb_spec (Z.of_nat (nkeys * 100)) (2^31)) as [_|Hx]; [cbn [negb]|lia].
  destruct (50 <=? nkeys * 100 / cap)%nat eqn:El; [|discriminate].
  assert (50 * cap <= nkeys * 100).
  { apply Nat.leb_le in El. apply Nat.mul_le_mono_l with (p := cap) in El.
    pose proof (Nat.mul_div_le (nkeys * 100) cap). lia. }
  destruct (Z.ltb_spec (Z.of_nat (cap * 2)) (2^31)) as [Hy|Hx]; [|lia].
  apply IH; [apply cap_ok_double; auto|]. lia.
Qed.

(** copy loop of rehash *)
Definition ents (bs : list slot) : list (key * V) :=
  fold_right (fun s acc => match s with Ent k v => (k, v) :: acc | _ => acc end) [] bs.

Lemma ents_length bs : List.length (ents bs) = count_live bs.
Proof. unfold count_live. induction bs as [|[| |k v] bs IH]; simpl; auto. Qed.

Lemma ents_in bs k v : In (k, v) (ents bs) <-> exists j, nth j bs Empty = Ent k v.
Proof.
  induction bs as [|s bs IH]; simpl.
  - split; [tauto|intros [[|j] H]; discriminate].
  - destruct s as [| |k' v']; simpl; rewrite ?IH; split.
    + intros [j H]. exists (S j). exact H.
    + intros [[|j] H]; [discriminate|eauto].
    + intros [j H]. exists (S j). exact H.
    + intros [[|j] H]; [discriminate|eauto].
    + intros [E|[j H]]; [injection E as -> ->; exists 0; reflexivity|exists (S j); exact H].
    + intros [[|j] H]; [left; congruence|right; eauto].
Qed.

Lemma ents_nodup bs : uniq bs -> NoDup (map fst (ents bs)).
Proof.
  induction bs as [|s bs IH]; intro HU; [constructor|].
  assert (HU' : uniq bs).
  { intros a b k v v' Ha Hb. assert (S a = S b) by (eapply (HU (S a) (S b)); eauto). congruence. }
  destruct s as [| |k v]; simpl; auto. constructor; auto.
  intro Hin. apply in_map_iff in Hin as [[k' v'] [E Hin]]. simpl in E. subst k'.
  apply ents_in in Hin as [j Hj]. assert (0 = S j) by (eapply (HU 0 (S j)); simpl; eauto). discriminate.
Qed.

Lemma put_d_unfold d (m : hmap) k v : put_d (S d) m k v =
      match buckets m with
      | [] => let m1 := HMap (repeat Empty 16) (used m) in put_loop m1 k v 0 (capacity m1)
      | _ =>
          if negb (fits_int (used m * 100)) then IntOverflow
          else if (70 <=? (used m * 100) / capacity m)%nat then
            let nkeys := count_live (buckets m) in
            match grow nkeys (capacity m) (S nkeys) with
            | Ok cap =>
                match copy_all (put_d d) (buckets m) (HMap (repeat Empty cap) 0) with
                | Ok m2 =>
                    if (used m2 =? nkeys)%nat then put_loop m2 k v 0 (capacity m2)
                    else AssertFail
                | e => e
                end
            | Unreachable => Unreachable
            | AssertFail => AssertFail
            | IntOverflow => IntOverflow
            | ModelFuel => ModelFuel
            end
          else put_loop m k v 0 (capacity m)
      end.
Proof. reflexivity. Qed.

(* A put on a table below the watermark does not rehash. *)
Lemma put_d_norehash d (m : hmap) k v : cap_ok (capacity m) -> (used m * 2 < capacity m) ->
  (Z.of_nat (used m * 100) < 2 ^ 31)%Z ->
  put_d (S d) m k v = put_loop m k v 0 (capacity m).
Proof.
  intros Hc Hu Hz. pose proof (cap_ok_ge _ Hc) as Hge.
  cbn [put_d]. destruct (buckets m) eqn:Eb; [unfold capacity in Hge; rewrite Eb in Hge; simpl in Hge; lia|].
  unfold fits_int. destruct (Z.ltb_spec (Z.of_nat (used m * 100)) (2^31)); [cbn [negb]|lia].
  destruct (70 <=? used m * 100 / capacity m)%nat eqn:El; [|reflexivity].
  apply Nat.leb_le in El. apply Nat.mul_le_mono_l with (p := capacity m) in El.
  pose proof (Nat.mul_div_le (used m * 100) (capacity m)). lia.
Qed.

Lemma copy_weak d bs : forall m2, cap_ok (capacity m2) -> WInv m2 ->
  (used m2 + count_live bs) * 2 < capacity m2 ->
  (Z.of_nat ((used m2 + count_live bs) * 100) < 2 ^ 31)%Z ->
  exists m3, copy_all (put_d (S d)) bs m2 = Ok m3 /\ WInv m3 /\ capacity m3 = capacity m2 /\
    used m3 <= used m2 + count_live bs.
Proof.
  induction bs as [|s bs IH]; intros m2 Hc HW Hu Hz.
  - exists m2. repeat split; auto. lia.
  - destruct s as [| |k v].
    + apply IH; auto.
    + apply IH; auto.
    + cbn [copy_all].
      assert (Hcl : count_live (Ent k v :: bs) = S (count_live bs)) by reflexivity.
      rewrite Hcl in *.
      rewrite put_d_norehash; auto; [|lia|lia].
      assert (Hue : used m2 = count_ne (buckets m2)).
      { destruct HW as [[H1 H2]|[_ [H2 _]]]; [|exact H2]. rewrite H1, H2. reflexivity. }
      destruct (insert_weak m2 k v Hc Hue) as [m' [E [HW' [Hcap Hus]]]].
      { pose proof (cap_ok_ge _ Hc). lia. }
      rewrite E. destruct (IH m') as [m3 [E3 [HW3 [Hc3 Hu3]]]]; auto.
      * rewrite Hcap. exact Hc.
      * rewrite Hcap. lia.
      * lia.
      * exists m3. repeat split; auto; try congruence. lia.
Qed.

Lemma copy_strong d bs : forall m2 f, cap_ok (capacity m2) -> SInv m2 f -> no_tomb (buckets m2) ->
  (used m2 + count_live bs) * 2 < capacity m2 ->
  (Z.of_nat ((used m2 + count_live bs) * 100) < 2 ^ 31)%Z ->
  NoDup (map fst (ents bs)) ->
  (forall k, In k (map fst (ents bs)) -> f k = None) ->
  exists m3 f3, copy_all (put_d (S d)) bs m2 = Ok m3 /\ SInv m3 f3 /\ no_tomb (buckets m3) /\
    capacity m3 = capacity m2 /\ used m3 = used m2 + count_live bs /\
    forall k v, f3 k = Some v <-> (f k = Some v \/ In (k, v) (ents bs)).
Proof.
  induction bs as [|s bs IH]; intros m2 f Hc HS HT Hu Hz HN Hf.
  - exists m2, f. split; [reflexivity|]. split; [exact HS|]. split; [exact HT|].
    split; [reflexivity|]. split; [unfold count_live; simpl; lia|].
    intros k v. simpl. tauto.
  - destruct s as [| |k v].
    + apply IH; auto.
    + apply IH; auto.
    + cbn [copy_all].
      assert (Hcl : count_live (Ent k v :: bs) = S (count_live bs)) by reflexivity.
      rewrite Hcl in *. cbn [ents fold_right] in *. fold (ents bs) in *.
      rewrite put_d_norehash; auto; [|lia|lia].
      assert (Hfk : f k = None) by (apply Hf; simpl; auto).
      destruct (insert_strong m2 f k v Hc) as [m' [E [HS' [Hcap [HT' [Hus Hus2]]]]]]; auto.
      { pose proof (cap_ok_ge _ Hc). lia. }
      rewrite E. specialize (Hus HT Hfk).
      inversion HN as [|? ? Hnin HN']; subst.
      destruct (IH m' (upd f k (Some v))) as [m3 [f3 [E3 [HS3 [HT3 [Hc3 [Hu3 Hf3]]]]]]]; auto.
      * rewrite Hcap. exact Hc.
      * rewrite Hcap, Hus. lia.
      * rewrite Hus. lia.
      * intros k' Hin. unfold upd. destruct (beq k k') eqn:Eb.
        -- apply beq_eq in Eb. subst. contradiction.
        -- apply Hf. simpl. auto.
      * exists m3, f3. split; [exact E3|]. split; [exact HS3|]. split; [exact HT3|].
        split; [congruence|]. split; [lia|].
        intros k' v'. rewrite Hf3. unfold upd. simpl. destruct (beq k k') eqn:Eb.
        -- apply beq_eq in Eb. subst k'. split.
           ++ intros [H|H]; [injection H as ->; auto|auto].
           ++ intros [H|[H|H]]; [congruence|injection H as ->; auto|auto].
        -- apply beq_neq in Eb. split; [tauto|]. intros [H|[H|H]]; auto. congruence.
Qed.

Lemma count_live_le_ne bs : count_live bs <= count_ne bs.
Proof. unfold count_live, count_ne. induction bs as [|[| |k v] bs IH]; simpl; lia. Qed.

Lemma WInv_fresh c : cap_ok c -> WInv (HMap (repeat Empty c) 0).
Proof.
  intro H. right. unfold capacity; simpl. rewrite repeat_length.
  split; [exact H|]. rewrite count_ne_repeat. pose proof (cap_ok_ge _ H). lia.
Qed.

Lemma SInv_fresh c : cap_ok c -> SInv (HMap (repeat Empty c) 0) (fun _ => None).
Proof.
  intro H. split; [apply WInv_fresh; exact H|]. split; [|split].
  - intros j j' k v v'. simpl. rewrite nth_repeat_empty. discriminate.
  - intros j k v. simpl. rewrite nth_repeat_empty. discriminate.
  - intros k v. split; [discriminate|]. intros [j Hj]. simpl in Hj. rewrite nth_repeat_empty in Hj. discriminate.
Qed.

Lemma capacity_fresh c : capacity (HMap (repeat (@Empty V) c) 0) = c.
Proof. unfold capacity. simpl. apply repeat_length. Qed.

(* below the high watermark there is room for one more *)
Lemma room (m : hmap) : cap_ok (capacity m) -> (70 <=? used m * 100 / capacity m) = false ->
  used m + 1 < capacity m.
Proof.
  intros Hc El. pose proof (cap_ok_ge _ Hc). apply Nat.leb_gt in El.
  assert (used m * 100 < 70 * capacity m).
  { destruct (Nat.lt_ge_cases (used m * 100) (70 * capacity m)); auto.
    assert (70 <= used m * 100 / capacity m) by (apply Nat.div_le_lower_bound; lia). lia. }
  lia.
Qed.

(** hashmap_put: no outcome but Ok, AssertFail or IntOverflow. *)
Lemma put_weak m k v : WInv m ->
  match hashmap_put m k v with
  | Ok m' => WInv m' /\ used m' <= S (used m)
  | AssertFail => True
  | IntOverflow => True
  | _ => False
  end.
Proof.
  intro HW. unfold hashmap_put. rewrite put_d_unfold. cbv zeta.
  destruct (buckets m) eqn:Eb.
  - destruct HW as [[_ Hu]|[Hc _]].
    2:{ pose proof (cap_ok_ge _ Hc) as Hge. unfold capacity in Hge. rewrite Eb in Hge. simpl in Hge. lia. }
    set (m1 := HMap (repeat Empty 16) (used m)).
    assert (Hcap : capacity m1 = 16) by reflexivity.
    destruct (insert_weak m1 k v) as [m' [E [HW' [_ Hus]]]].
    + rewrite Hcap. exact cap_ok_16.
    + unfold m1; simpl. rewrite Hu. reflexivity.
    + rewrite Hcap. unfold m1; simpl. lia.
    + fold m1. rewrite E. split; [exact HW'|]. simpl in Hus. lia.
  - destruct HW as [[Hb _]|[Hc [Hu Hl]]]; [congruence|].
    rewrite <- Eb.
    destruct (fits_int (used m * 100)) eqn:Ef; [cbn [negb]|exact I]. unfold fits_int in Ef.
    destruct (70 <=? used m * 100 / capacity m)%nat eqn:El.
    + pose proof (grow_weak (count_live (buckets m)) (S (count_live (buckets m))) (capacity m) Hc) as G.
      pose proof (grow_nofuel (count_live (buckets m)) (capacity m) Hc) as G2.
      destruct (grow (count_live (buckets m)) (capacity m) (S (count_live (buckets m)))) as [c| | | |]; try exact I; try contradiction.
      destruct G as [Gc [Gle Glt]].
      pose proof (count_live_le_ne (buckets m)).
      destruct (copy_weak 0 (buckets m) (HMap (repeat Empty c) 0)) as [m3 [E3 [HW3 [Hc3 Hu3]]]].
      * rewrite capacity_fresh. exact Gc.
      * apply WInv_fresh. exact Gc.
      * rewrite capacity_fresh. simpl. lia.
      * simpl. lia.
      * rewrite E3.
        destruct (Nat.eqb_spec (used m3) (count_live (buckets m))) as [Heq|]; [|exact I].
        rewrite capacity_fresh in Hc3.
        destruct (insert_weak m3 k v) as [m' [E [HW' [_ Hus]]]].
        -- rewrite Hc3. exact Gc.
        -- destruct HW3 as [[H1 H2]|[_ [H2 _]]]; [|exact H2]. rewrite H1, H2. reflexivity.
        -- rewrite Hc3. pose proof (cap_ok_ge _ Gc). lia.
        -- rewrite E. split; [exact HW'|]. lia.
    + pose proof (room m Hc El) as Hroom.
      destruct (insert_weak m k v Hc Hu Hroom) as [m' [E [HW' [_ Hus]]]]. rewrite E. split; [exact HW'|]. lia.
Qed.

Lemma delete_weak m k : WInv m ->
  exists m', hashmap_delete m k = Ok m' /\ WInv m' /\ used m' = used m.
Proof.
  intro HW. unfold hashmap_delete.
  destruct (get_entry_weak m k HW) as [[j [H1 [H2 H3]]]|H]; [rewrite H1|rewrite H; eauto].
  eexists; split; [reflexivity|]. simpl. split; [|reflexivity].
  destruct HW as [[Hb _]|[Hc [Hu Hl]]].
  - unfold capacity in H2. rewrite Hb in H2. simpl in H2. lia.
  - right. unfold capacity; simpl. rewrite set_nth_length. split; [exact Hc|].
    rewrite count_ne_set_ne; auto. apply entry_is_ent in H3 as [w ->]. reflexivity.
Qed.

(** Strong versions. *)
Lemma put_strong m f k v : SInv m f -> (Z.of_nat (used m) <= 20000000)%Z ->
  (f k = None \/ no_tomb (buckets m)) ->
  exists m', hashmap_put m k v = Ok m' /\ SInv m' (upd f k (Some v)) /\
    (no_tomb (buckets m) -> no_tomb (buckets m')) /\ used m' <= S (used m).
Proof.
  intros HS Hz Hcond. pose proof HS as HS0. destruct HS as [HW [HU [HR HRep]]].
  unfold hashmap_put. rewrite put_d_unfold. cbv zeta.
  destruct (buckets m) eqn:Eb.
  - destruct HW as [[_ Hu]|[Hc _]].
    2:{ pose proof (cap_ok_ge _ Hc) as Hge. unfold capacity in Hge. rewrite Eb in Hge. simpl in Hge. lia. }
    rewrite Hu.
    assert (Hf : forall k', f k' = None).
    { intro k'. destruct (f k') as [w|] eqn:E; auto. apply HRep in E as [j Hj]. rewrite Eb in Hj.
      destruct j; discriminate. }
    change (capacity (HMap (repeat (@Empty V) 16) 0)) with 16.
    destruct (insert_strong (HMap (repeat Empty 16) 0) (fun _ => None) k v) as [m' [E [HS' [_ [HT [_ Hu']]]]]].
    + exact cap_ok_16.
    + unfold capacity; simpl; lia.
    + apply SInv_fresh. exact cap_ok_16.
    + left; reflexivity.
    + change (capacity (HMap (repeat (@Empty V) 16) 0)) with 16 in E. rewrite E.
      exists m'. split; [reflexivity|]. split; [|split].
      * destruct HS' as [A [B [C D]]]. split; [exact A|]. split; [exact B|]. split; [exact C|].
        intros k' v'. rewrite <- (D k' v'). unfold upd. destruct (beq k k'); [reflexivity|]. rewrite Hf. reflexivity.
      * intros _. apply HT. intros j Hj. cbn [buckets] in Hj. rewrite (nth_repeat_empty 16 j) in Hj. discriminate.
      * exact Hu'.
  - destruct HW as [[Hb _]|[Hc [Hu Hl]]]; [congruence|].
    rewrite <- Eb in *.
    unfold fits_int. destruct (Z.ltb_spec (Z.of_nat (used m * 100)) (2^31)) as [_|]; [cbn [negb]|lia].
    destruct (70 <=? used m * 100 / capacity m)%nat eqn:El.
    + pose proof (count_live_le_ne (buckets m)) as Hle.
      pose proof (grow_weak (count_live (buckets m)) (S (count_live (buckets m))) (capacity m) Hc) as G.
      pose proof (grow_nofuel (count_live (buckets m)) (capacity m) Hc) as G2.
      assert (G3 : grow (count_live (buckets m)) (capacity m) (S (count_live (buckets m))) <> IntOverflow).
      { apply grow_no_overflow; auto; [lia|].
        destruct Hc as [e [He [Hce Hlt]]]. rewrite Hce in *.
        assert (e + 4 < 31)%Z by (apply (Z.pow_lt_mono_r_iff 2); lia).
        apply Z.pow_le_mono_r; lia. }
      destruct (grow (count_live (buckets m)) (capacity m) (S (count_live (buckets m)))) as [c| | | |]; try contradiction.
      destruct G as [Gc [Gle Glt]].
      destruct (copy_strong 0 (buckets m) (HMap (repeat Empty c) 0) (fun _ => None))
        as [m3 [f3 [E3 [HS3 [HT3 [Hc3 [Hu3 Hf3]]]]]]].
      * rewrite capacity_fresh. exact Gc.
      * apply SInv_fresh. exact Gc.
      * intros j. simpl. rewrite nth_repeat_empty. discriminate.
      * rewrite capacity_fresh. simpl. lia.
      * simpl. lia.
      * apply ents_nodup. exact HU.
      * reflexivity.
      * rewrite E3. simpl in Hu3. rewrite Hu3, Nat.eqb_refl.
        rewrite capacity_fresh in Hc3.
        assert (Heq : forall k', f3 k' = f k').
        { intro k'. destruct (f3 k') as [w|] eqn:E1.
          - apply Hf3 in E1 as [E1|E1]; [discriminate|]. apply ents_in in E1. symmetry. apply HRep. exact E1.
          - destruct (f k') as [w|] eqn:E2; auto. apply HRep in E2. apply ents_in in E2.
            assert (f3 k' = Some w) by (apply Hf3; auto). congruence. }
        destruct (insert_strong m3 f3 k v) as [m' [E [HS' [_ [HT' [_ Hus]]]]]]; auto.
        -- rewrite Hc3. exact Gc.
        -- rewrite Hc3. pose proof (cap_ok_ge _ Gc). lia.
        -- rewrite E. exists m'. split; [reflexivity|]. split; [|split; [auto|lia]].
           destruct HS' as [A [B [C D]]]. split; [exact A|]. split; [exact B|]. split; [exact C|].
           intros k' v'. rewrite <- (D k' v'). unfold upd. destruct (beq k k'); [reflexivity|]. rewrite Heq. reflexivity.
    + pose proof (room m Hc El) as Hroom.
      destruct (insert_strong m f k v Hc Hroom HS0 Hcond) as [m' [E [HS' [_ [HT' [_ Hus]]]]]].
      rewrite E. exists m'. auto.
Qed.

Lemma delete_strong m f k : SInv m f ->
  exists m', hashmap_delete m k = Ok m' /\ SInv m' (upd f k None) /\ used m' = used m.
Proof.
  intro HS. destruct (delete_weak m k (proj1 HS)) as [m' [E [HW' Hus]]].
  exists m'. split; [exact E|]. split; [|exact Hus]. split; [exact HW'|].
  pose proof (get_entry_strong m f k HS) as G. destruct HS as [HW [HU [HR HRep]]].
  unfold hashmap_delete in E. destruct (f k) as [w|] eqn:Ef.
  - destruct G as [j [G1 [G2 G3]]]. rewrite G1 in E. injection E as <-. cbn [buckets].
    assert (Hnth : forall j', nth j' (set_nth j Tomb (buckets m)) Empty = if j' =? j then Tomb else nth j' (buckets m) Empty).
    { intro j'. destruct (Nat.eqb_spec j' j) as [->|Hne].
      - apply nth_set_eq. exact G2.
      - apply nth_set_neq. congruence. }
    split; [|split].
    + intros a b kk x y Ha Hb. rewrite Hnth in Ha, Hb.
      destruct (Nat.eqb_spec a j); [discriminate|]. destruct (Nat.eqb_spec b j); [discriminate|].
      eapply HU; eauto.
    + intros a kk x Ha. rewrite set_nth_length. rewrite Hnth in Ha.
      destruct (Nat.eqb_spec a j); [discriminate|].
      destruct (HR _ _ _ Ha) as [i [Hi [Hp Hb]]]. exists i. split; [exact Hi|]. split; [exact Hp|].
      intros i' Hi'. rewrite Hnth. destruct (Nat.eqb_spec (probe (List.length (buckets m)) kk i') j); [discriminate|].
      apply Hb. exact Hi'.
    + intros kk x. cbn [buckets]. unfold upd. destruct (beq k kk) eqn:Eb.
      * apply beq_eq in Eb. subst kk. split; [discriminate|].
        intros [a Ha]. rewrite Hnth in Ha. destruct (Nat.eqb_spec a j) as [|Hna]; [discriminate|].
        exfalso. apply Hna. eapply HU; eauto.
      * apply beq_neq in Eb. rewrite (HRep kk x). split.
        -- intros [a Ha]. exists a. rewrite Hnth. destruct (Nat.eqb_spec a j) as [->|]; [congruence|exact Ha].
        -- intros [a Ha]. rewrite Hnth in Ha. destruct (Nat.eqb_spec a j); [discriminate|eauto].
  - rewrite G in E. injection E as <-. split; [exact HU|]. split; [exact HR|].
    intros kk x. unfold upd. destruct (beq k kk) eqn:Eb; [|apply HRep].
    apply beq_eq in Eb. subst kk. rewrite <- (HRep k x). split; [discriminate|congruence].
Qed.

(** Histories. *)
Lemma spec_lookup_app (h1 h2 : list (op V)) k c :
  spec_lookup (h1 ++ h2) k c = spec_lookup h2 k (spec_lookup h1 k c).
Proof.
  revert c; induction h1 as [|[k' v|k'] h1 IH]; intro c; simpl; auto.
Qed.

Lemma run_app (h1 h2 : list (op V)) m :
  run m (h1 ++ h2) = match run m h1 with Ok m' => run m' h2 | e => e end.
Proof.
  revert m; induction h1 as [|o h1 IH]; intro m; simpl; auto.
  destruct (step m o); auto.
Qed.

Lemma SInv_ext m f g : SInv m f -> (forall k, f k = g k) -> SInv m g.
Proof.
  intros [A [B [C D]]] E. split; [exact A|]. split; [exact B|]. split; [exact C|].
  intros k v. rewrite <- E. apply D.
Qed.

Lemma run_strong (h : list (op V)) :
  (Z.of_nat (List.length h) <= 20000000)%Z -> no_overwrite_after_delete h ->
  exists m, run empty_map h = Ok m /\ SInv m (expected h) /\
    (existsb is_del h = false -> no_tomb (buckets m)) /\ used m <= List.length h.
Proof.
  induction h as [|o h IH] using rev_ind; intros Hlen Hok.
  - exists empty_map. split; [reflexivity|]. split; [|split].
    + split; [apply WInv_empty|]. split; [|split].
      * intros [|j] j' k v v' H; discriminate.
      * intros [|j] k v H; discriminate.
      * intros k v. split; [discriminate|intros [[|j] H]; discriminate].
    + intros _ [|j]; discriminate.
    + simpl; lia.
  - rewrite app_length in Hlen. simpl in Hlen.
    destruct IH as [m [E [HS [HT Hu]]]]; [lia| |].
    { intros pre k v post Hh. apply (Hok pre k v (post ++ [o])). rewrite Hh, <- app_assoc. reflexivity. }
    rewrite run_app, E. cbn [run]. rewrite app_length. cbn [List.length].
    destruct o as [k v|k]; cbn [step].
    + destruct (put_strong m (expected h) k v HS ltac:(lia)) as [m' [E' [HS' [HT' Hu']]]].
      { destruct (existsb is_del h) eqn:Ed; [left|right; auto].
        apply (Hok h k v []); auto. }
      rewrite E'. exists m'. split; [reflexivity|]. split; [|split; [|lia]].
      * eapply SInv_ext; [exact HS'|]. intro k'. unfold expected. rewrite spec_lookup_app. reflexivity.
      * rewrite existsb_app. intro H. apply orb_false_iff in H as [H _]. auto.
    + destruct (delete_strong m (expected h) k HS) as [m' [E' [HS' Hu']]].
      rewrite E'. exists m'. split; [reflexivity|]. split; [|split; [|lia]].
      * eapply SInv_ext; [exact HS'|]. intro k'. unfold expected. rewrite spec_lookup_app. reflexivity.
      * rewrite existsb_app. intro H. apply orb_false_iff in H as [_ H]. discriminate.
Qed.

Lemma refines (h : list (op V)) k :
  (Z.of_nat (List.length h) <= 20000000)%Z -> no_overwrite_after_delete h ->
  exists m, run empty_map h = Ok m /\ hashmap_get m k = Ok (expected h k).
Proof.
  intros H1 H2. destruct (run_strong h H1 H2) as [m [E [HS _]]].
  exists m. split; [exact E|]. apply hashmap_get_strong. exact HS.
Qed.

Lemma run_weak (h : list (op V)) : forall m, WInv m ->
  match run m h with
  | Ok m' => WInv m'
  | AssertFail | IntOverflow => True
  | _ => False
  end.
Proof.
  induction h as [|o h IH]; intros m HW; [exact HW|].
  cbn [run]. destruct o as [k v|k]; cbn [step].
  - pose proof (put_weak m k v HW) as P. destruct (hashmap_put m k v); auto. apply IH. apply P.
  - destruct (delete_weak m k HW) as [m' [E [HW' _]]]. rewrite E. apply IH. exact HW'.
Qed.

Lemma get_never_unreachable (h : list (op V)) k m :
  run empty_map h = Ok m -> exists r, hashmap_get m k = Ok r.
Proof.
  intro E. pose proof (run_weak h empty_map WInv_empty) as W. rewrite E in W.
  unfold hashmap_get. destruct (get_entry_weak m k W) as [[j [H1 _]]|H1]; rewrite H1; [|eauto].
  destruct (nth j (buckets m) Empty); eauto.
Qed.

End P.

Lemma no_full_probe : forall (V : Type) (h : list (op V)),
    match run empty_map h with
    | Ok m => forall k, exists r, hashmap_get m k = Ok r
    | AssertFail | IntOverflow => True
    | Unreachable | ModelFuel => False
    end.
Proof.
  intros V h. pose proof (run_weak h empty_map WInv_empty) as W.
  destruct (run empty_map h) as [m| | | |] eqn:E; auto.
  intro k. eapply get_never_unreachable. exact E.
Qed.
