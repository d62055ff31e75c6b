From Verif Require Import Base TypeModel IntArith NodeModel ValSpec NodeSpec NodeProofs EvalModel ElabSpec ElabProofs InitModel InitSpec InitProofs BitLemmas GenBits.
From Coq Require Import ZifyBool ZifyNat.
Local Arguments Z.mul : simpl never. Local Arguments Z.add : simpl never. Local Arguments Z.sub : simpl never. Local Arguments Z.pow : simpl never.

Lemma val_long z : - 2 ^ 63 <= z < 2 ^ 63 -> val_of (TLong false) z = true.
Proof. intros H. change (val_of (TLong false) z) with ((- 2 ^ 63 <=? z) && (z <? 2 ^ 63)). lia. Qed.
Lemma val_int z : - 2 ^ 31 <= z < 2 ^ 31 -> val_of (TInt false) z = true.
Proof. intros H. change (val_of (TInt false) z) with ((- 2 ^ 31 <=? z) && (z <? 2 ^ 31)). lia. Qed.
Section Local.
Variable E : env.
Local Notation W := (e_valid E).
(** a place: an expression without effects whose address is [a] *)
Definition place (l : node) (a : Z) : Prop :=
  well_typed l = true /\ (forall m, ev E true l m = Some (a, m)) /\ (is_aggregate (ntype l) = true -> forall m, ev E false l m = Some (a, m)).
Lemma place_var x t : e_addr E x = e_addr E x -> place (NVar x t) (e_addr E x).
Proof. intros _. split; [reflexivity|]. split; [reflexivity|]. cbn [ntype]. intros A m. cbn [ev]. unfold load_val. rewrite A. reflexivity. Qed.
Lemma place_mem l a mi : place l a -> member_ok mi = true -> (m_bf mi = None \/ is_aggregate (m_ty mi) = false) -> 0 <= a + m_off mi < 2 ^ 64 -> place (NMember l mi) (a + m_off mi).
Proof.
  intros (WT & L & _) MO BF R. split; [cbn [well_typed]; now rewrite MO, WT|]. split.
  - intros m. cbn [ev]. rewrite L, Z.mod_small by exact R. reflexivity.
  - cbn [ntype]. intros A m. cbn [ev]. rewrite L, Z.mod_small by exact R. destruct BF as [-> |B]; [|congruence]. unfold load_val. rewrite A. reflexivity.
Qed.
Lemma place_idx l a b n k : place l a -> ntype l = TArr b n -> (forall t, b <> TVla t) -> b <> TVoid -> 0 <= size_of b < 2 ^ 31 -> Z.of_nat k < 2 ^ 31 -> 0 <= a < 2 ^ 64 -> 0 <= a + Z.of_nat k * size_of b < 2 ^ 64 ->
  exists d, desg_step l (SIdx k) = Some d /\ ntype d = b /\ place d (a + Z.of_nat k * size_of b).
Proof.
  intros (WT & L & AG) T NV NB SZ K RA R. set (kk := Z.of_nat k) in *. specialize (AG ltac:(now rewrite T)).
  set (mul := NBin Mul (TLong false) (NCast (TLong false) (NNum (TInt false) kk)) (NCast (TLong false) (NNum (TLong false) (size_of b)))).
  set (add := NBin Add (TPtr b) (NCast (TPtr b) l) (NCast (TPtr b) mul)). exists (NDeref add).
  assert (ADD: new_add l (NNum (TInt false) kk) = Some add).
  { unfold new_add. rewrite T. cbn [ntype is_numeric is_integer andb has_base base_of negb]. rewrite T. cbn [base_of]. unfold add, mul, mk_arith. cbn [ntype]. rewrite T. cbn [get_common_type base_of]. destruct b; try reflexivity. now specialize (NV b). }
  split; [unfold desg_step; fold kk; rewrite ADD; unfold mk_deref; cbn [add ntype base_of]; destruct b; try reflexivity; congruence|]. split; [reflexivity|].
  assert (B31: 2 ^ 31 = 2147483648) by reflexivity. assert (B63: 2 ^ 63 = 9223372036854775808) by reflexivity. assert (B64: 2 ^ 64 = 18446744073709551616) by reflexivity.
  assert (PR: 0 <= kk * size_of b < 2 ^ 62) by (split; [nia|]; change (2 ^ 62) with (2147483648 * 2147483648); nia).
  assert (EM: forall m, ev E false mul m = Some (kk * size_of b, m)).
  { intros m. unfold mul. eapply ev_bin; [eapply ev_cast; [reflexivity|apply ev_num, val_long; lia|cbn [conv int_repr negb]; rewrite sx_id by (change (2 ^ (64 - 1)) with (2 ^ 63); lia); reflexivity]| |].
    - eapply ev_cast; [reflexivity|apply ev_num, val_int; lia|cbn [conv int_repr negb]; rewrite sx_id by (change (2 ^ (64 - 1)) with (2 ^ 63); lia); reflexivity].
    - cbn [bin_val fit int_repr negb]. unfold in_range. change (2 ^ (64 - 1)) with (2 ^ 63). change (2 ^ 62) with 4611686018427387904 in PR. replace ((- 2 ^ 63 <=? kk * size_of b) && (kk * size_of b <? 2 ^ 63)) with true by lia. reflexivity. }
  assert (EA: forall m, ev E false add m = Some (a + kk * size_of b, m)).
  { intros m. unfold add. eapply ev_bin; [eapply ev_cast; [reflexivity|apply EM|cbn [conv int_repr]; rewrite Z.mod_small by (change (2 ^ 62) with 4611686018427387904 in PR; lia); reflexivity]|eapply ev_cast; [rewrite T; reflexivity|apply AG|cbn [conv int_repr]; rewrite Z.mod_small by lia; reflexivity]|].
    cbn [bin_val fit int_repr]. rewrite Z.mod_small by lia. reflexivity. }
  split; [cbn; now rewrite WT|]. split.
  - intros m. change (ev E true (NDeref add) m) with (let* (a, m) := ev E false add m in Some (a, m)). rewrite EA. reflexivity.
  - intros AB m. change (ev E false (NDeref add) m) with (let* (a, m) := ev E false add m in (let* v := load_val W (ntype (NDeref add)) m a in Some (v, m))). rewrite EA. unfold load_val. rewrite AB. reflexivity.
Qed.

(** what the assignments of some elements do *)
Definition does (base : Z) (n : node) (l : list elem) : Prop := well_typed n = true /\ forall m, option_map snd (ev E false n m) = run (ev E false) W base l m.
Lemma run_app base a : forall b m, run (ev E false) W base (a ++ b) m = let* m := run (ev E false) W base a m in run (ev E false) W base b m.
Proof. induction a as [|e a IH]; intros b m; cbn [app run]; [reflexivity|]. destruct (ev E false (el_expr e) m) as [[v m1]|]; [|reflexivity]. destruct (conv (el_ty e) v) as [v'|]; [|reflexivity]. destruct (write W (el_bf e) (el_ty e) m1 (base + el_off e) v') as [[w m2]|]; [|reflexivity]. apply IH. Qed.
Lemma does_null base : does base NNull []. Proof. split; reflexivity. Qed.
Lemma does_comma base a la b lb : does base a la -> does base b lb -> does base (NComma a b) (la ++ lb).
Proof.
  intros [W1 A] [W2 B]. split; [cbn [well_typed]; now rewrite W1, W2|]. intros m. rewrite run_app, <- A. cbn [ev]. destruct (ev E false a m) as [[v m1]|]; [|reflexivity]. cbn [option_map snd]. apply B.
Qed.
Definition expr_ok (e : elem) : Prop := well_typed (el_expr e) = true /\ convertible (ntype (el_expr e)) (el_ty e) = true.
Lemma does_leaf base l off e : place l (base + off) -> scalar (ntype l) = true -> expr_ok (Elem off (nbits l) (ntype l) e) -> exists n, mk_assign l e = Some n /\ does base n [Elem off (nbits l) (ntype l) e].
Proof.
  intros (WT & L & _) SC [WE CV]. cbn [el_expr el_ty] in *. exists (NAssign l (NCast (ntype l) e)). split; [unfold mk_assign; destruct (ntype l); try discriminate SC; reflexivity|]. split.
  - cbn [well_typed ntype]. rewrite WT, WE, (scalar_self _ SC). cbn. now rewrite orb_true_r.
  - intros m. cbn [run el_expr el_ty el_bf el_off]. cbn [ev andb]. rewrite L, CV. cbn [orb negb]. destruct (ev E false e m) as [[v m1]|]; [|reflexivity]. destruct (conv (ntype l) v) as [v'|]; [|reflexivity].
    unfold write. destruct l as [| | |l' [t f [[o u]|]]| | | | | | | | | | | | | |]; cbn [nbits m_bf m_ty ntype]; try (destruct (store_val W _ m1 (base + off) v') as [m2|]; reflexivity). destruct (store_bf W t o u m1 (base + off) v'); reflexivity.
Qed.
Lemma does_struct base l off e id sz al : place l (base + off) -> ntype l = TStruct id sz al -> nbits l = None -> expr_ok (Elem off None (ntype l) e) -> exists n, mk_assign l e = Some n /\ does base n [Elem off None (ntype l) e].
Proof.
  intros (WT & L & _) T NB [WE CV]. cbn [el_expr el_ty] in *. exists (NAssign l e). split; [unfold mk_assign; now rewrite T|]. rewrite T in CV. cbn [convertible] in CV. split.
  - cbn [well_typed]. now rewrite WT, WE, T, CV.
  - intros m. cbn [run el_expr el_ty el_bf el_off]. cbn [ev andb]. rewrite L. destruct (ev E false e m) as [[v m1]|]; [|reflexivity]. rewrite T. cbn [conv write]. rewrite <- T.
    destruct l as [| | |l' [t f [[o u]|]]| | | | | | | | | | | | | |]; cbn [nbits m_bf] in NB; try discriminate NB; cbn [m_ty ntype]; (destruct (store_val W _ m1 (base + off) v) as [m2|]; reflexivity).
Qed.
Lemma erase_fine t : wf t = true -> erase t <> TVoid /\ forall u, erase t <> TVla u.
Proof. destruct t as [t| | |]; cbn; intros W; try (split; [|intros u]; discriminate). destruct t; try discriminate W; split; [|intros u| |intros u'| |intros u'| |intros u'| |intros u'| |intros u'| |intros u']; discriminate. Qed.
Lemma agg_scalar t : scalar t = true -> is_aggregate t = false. Proof. now destruct t. Qed.
Lemma leaf_does base l off t i : place l (base + off) -> ntype l = t -> scalar t = true -> Forall expr_ok (match i_expr i with Some e => [Elem off (nbits l) t e] | None => [] end) ->
  exists n, match i_expr i with None => Some NNull | Some e => mk_assign l e end = Some n /\ does base n (match i_expr i with Some e => [Elem off (nbits l) t e] | None => [] end).
Proof. intros P <- SC F. destruct (i_expr i) as [e|]; [|exists NNull; split; [reflexivity|apply does_null]]. inversion F; subst. now apply does_leaf. Qed.
Lemma lvar_does t : forall i l base off, wf t = true -> shaped t i = true -> modest t = true -> ntype l = erase t -> nbits l = None -> place l (base + off) -> 0 <= base + off -> base + off + isize t < 2 ^ 64 ->
  Forall expr_ok (elements t i off) -> exists n, lvar_init t i l = Some n /\ does base n (elements t i off).
Proof.
  induction t as [t|b n IH|id sz al ms IH|id sz al ms IH] using ity_ind'; intros i l base off WF SH MD NT NB P A0 A1 F; pose proof (wf_size _ WF) as SZ.
  - cbn [lvar_init elements erase wf] in *. pose proof (leaf_does base l off t i P NT WF) as LD. rewrite NB in LD. apply LD. exact F.
  - rewrite elements_arr in *. cbn [lvar_init wf modest shaped] in *. apply andb_true_iff in SH as [LN SH]. apply Nat.eqb_eq in LN. rewrite !andb_true_iff in MD. destruct MD as [[MD SB] NN]. pose proof (wf_size _ WF) as SB0. unfold isize in A1. cbn [erase size_of] in A1. fold (isize b) in A1. destruct (erase_fine b WF) as [NV NVL].
    assert (G: forall cs k idx acc la, List.length cs = k -> forallb (shaped b) cs = true -> (idx + k <= n)%nat -> does base acc la -> Forall expr_ok (arr_els (elements b) (isize b) k cs (off + Z.of_nat idx * isize b)) ->
      exists nd, (fix arr (k : nat) (cs : list init) (idx : nat) (acc : node) : option node := match k, cs with O, _ => Some acc | S k, c :: r => let* d := desg_step l (SIdx idx) in let* x := lvar_init b c d in arr k r (S idx) (NComma acc x) | S _, [] => None end) k cs idx acc = Some nd /\
        does base nd (la ++ arr_els (elements b) (isize b) k cs (off + Z.of_nat idx * isize b))).
    { induction cs as [|c cs IHc]; intros k idx acc la LK SH' LE D F'; subst k; cbn [List.length] in *.
      - exists acc. split; [reflexivity|]. cbn. now rewrite app_nil_r.
      - cbn [arr_els] in *. cbn [forallb] in SH'. apply andb_true_iff in SH' as [S1 S2]. apply Forall_app in F' as [F1 F2].
        assert (RNG: Z.of_nat idx * isize b + isize b <= isize b * Z.of_nat n) by nia.
        destruct (place_idx l (base + off) (erase b) (Z.of_nat n) idx P NT NVL NV) as (d & DS & ND & PD); [unfold isize in *; lia|lia|lia|unfold isize in *; lia|].
        rewrite DS. assert (PD': place d (base + (off + Z.of_nat idx * isize b))) by (unfold isize; replace (base + (off + Z.of_nat idx * size_of (erase b))) with (base + off + Z.of_nat idx * size_of (erase b)) by lia; exact PD).
        assert (NBD: nbits d = None). { unfold desg_step in DS. destruct (new_add l (NNum (TInt false) (Z.of_nat idx))) as [ad|]; [|discriminate DS]. unfold mk_deref in DS. destruct (base_of (ntype ad)) as [[]|]; try discriminate DS; injection DS as <-; reflexivity. }
        destruct (IH c d base (off + Z.of_nat idx * isize b) WF S1 MD ND NBD PD' ltac:(nia) ltac:(lia) F1) as (x & LX & DX). rewrite LX.
        assert (OE: off + Z.of_nat (S idx) * isize b = off + Z.of_nat idx * isize b + isize b) by lia.
        destruct (IHc (List.length cs) (S idx) (NComma acc x) (la ++ elements b c (off + Z.of_nat idx * isize b)) eq_refl S2 ltac:(lia) (does_comma base acc la x _ D DX)) as (nd & EQ & DN); [rewrite OE; exact F2|].
        exists nd. split; [exact EQ|]. rewrite OE in DN. now rewrite <- app_assoc in DN. }
    destruct (G (i_kids i) n 0%nat NNull [] LN SH ltac:(lia) (does_null base)) as (nd & EQ & DN); [now replace (off + Z.of_nat 0 * isize b) with off by lia|]. exists nd. split; [exact EQ|]. now replace (off + Z.of_nat 0 * isize b) with off in DN by lia.
  - rewrite elements_struct, shaped_struct in *. cbn [lvar_init wf modest] in *. rewrite !andb_true_iff in WF. destruct WF as [[[S0 WF] BM] _]. destruct (i_expr i) as [e|].
    + inversion F as [|? ? F1 _]; subst. cbn [erase] in NT. assert (F1': expr_ok (Elem off None (ntype l) e)) by (rewrite NT; exact F1). destruct (does_struct base l off e id sz al P NT NB F1') as (nd & EQ & DN). exists nd. split; [exact EQ|]. rewrite NT in DN. exact DN.
    + assert (A1': base + off + sz < 2 ^ 64) by exact A1. clear A1 SZ.
      assert (G: forall cs acc la, shaped_list ms cs = true -> does base acc la -> Forall expr_ok (mems_els elements off ms cs) ->
        exists nd, (fix mems (ms : list (Z * option (Z * Z) * ity)) (cs : list init) (acc : node) : option node := match ms, cs with [], _ => Some acc | (mo, bf, mt) :: ms, c :: cs => let* x := lvar_init mt c (NMember l (MInfo (erase mt) mo bf)) in mems ms cs (NComma acc x) | _ :: _, [] => None end) ms cs acc = Some nd /\ does base nd (la ++ mems_els elements off ms cs)).
      { clear SH F. induction IH as [|[[mo bf] mt] ms H _ IHm]; intros [|c cs] acc la SH D F; try discriminate SH.
        - exists acc. split; [reflexivity|]. cbn. now rewrite app_nil_r.
        - cbn [shaped_list] in SH. apply andb_true_iff in SH as [S1 S2]. cbn [forallb snd] in WF, MD. apply andb_true_iff in WF as [W1 W2]. apply andb_true_iff in MD as [M1 M2]. cbn [forallb] in BM. apply andb_true_iff in BM as [B1 B2]. unfold bf_member in B1. rewrite !andb_true_iff in B1. destruct B1 as [[O1 O2] O3]. cbn [snd] in H. pose proof (wf_size _ W1) as SM.
          destruct bf as [[bo bw]|]; cbn [mems_els] in *; apply Forall_app in F as [F1 F2].
          + destruct mt as [t| | |]; try discriminate O3. cbn [erase] in *. cbn [wf] in W1. assert (PM: place (NMember l (MInfo t mo (Some (bo, bw)))) (base + (off + mo))).
            { replace (base + (off + mo)) with (base + off + mo) by lia. apply (place_mem l (base + off) (MInfo t mo (Some (bo, bw))) P); [exact O3|right; now apply agg_scalar|cbn [m_off]; lia]. }
            destruct (leaf_does base _ (off + mo) t c PM eq_refl W1 F1) as (x & LX & DX). cbn [lvar_init]. rewrite LX. destruct (IHm W2 B2 M2 NT cs (NComma acc x) _ S2 (does_comma base acc la x _ D DX) F2) as (nd & EQ & DN). exists nd. split; [exact EQ|]. now rewrite <- app_assoc in DN.
          + assert (PM: place (NMember l (MInfo (erase mt) mo None)) (base + (off + mo))).
            { replace (base + (off + mo)) with (base + off + mo) by lia. apply (place_mem l (base + off) (MInfo (erase mt) mo None) P); [reflexivity|now left|cbn [m_off]; lia]. }
            destruct (H c (NMember l (MInfo (erase mt) mo None)) base (off + mo) W1 S1 M1 eq_refl eq_refl PM ltac:(lia) ltac:(lia) F1) as (x & LX & DX). rewrite LX. destruct (IHm W2 B2 M2 NT cs (NComma acc x) _ S2 (does_comma base acc la x _ D DX) F2) as (nd & EQ & DN). exists nd. split; [exact EQ|]. now rewrite <- app_assoc in DN. }
      exact (G (i_kids i) NNull [] SH (does_null base) F).
  - rewrite elements_union, shaped_union in *. cbn [lvar_init wf modest] in *. rewrite !andb_true_iff in WF. destruct WF as [[[S0 WF] BM] _]. apply andb_true_iff in SH as [SH MK]. assert (A1': base + off + sz < 2 ^ 64) by exact A1. clear A1 SZ.
    assert (G: forall cs k, shaped_list ms cs = true -> (k < List.length ms)%nat -> Forall expr_ok (pick_els elements off ms cs k) ->
      exists nd, (fix pick (ms : list (Z * option (Z * Z) * ity)) (cs : list init) (k : nat) : option node := match ms, cs, k with (mo, bf, mt) :: _, c :: _, O => lvar_init mt c (NMember l (MInfo (erase mt) mo bf)) | _ :: ms, _ :: cs, S k => pick ms cs k | _, _, _ => None end) ms cs k = Some nd /\ does base nd (pick_els elements off ms cs k)).
    { clear SH F MK. induction IH as [|[[mo bf] mt] ms H _ IHm]; intros cs k SH LK F; [cbn in LK; lia|]. destruct cs as [|c cs]; [discriminate SH|]. cbn [shaped_list] in SH. apply andb_true_iff in SH as [S1 S2]. cbn [forallb snd] in WF, MD. apply andb_true_iff in WF as [W1 W2]. apply andb_true_iff in MD as [M1 M2]. cbn [forallb] in BM. apply andb_true_iff in BM as [B1 B2]. unfold bf_member in B1. rewrite !andb_true_iff in B1. destruct B1 as [[O1 O2] O3]. cbn [snd] in H. pose proof (wf_size _ W1) as SM.
      destruct k as [|k]; [|destruct bf as [bf|]; cbn [pick_els] in *; apply IHm; auto; cbn in LK; lia]. destruct bf as [[bo bw]|]; cbn [pick_els] in *.
      - destruct mt as [t| | |]; try discriminate O3. cbn [erase] in *. cbn [wf] in W1. assert (PM: place (NMember l (MInfo t mo (Some (bo, bw)))) (base + (off + mo))).
        { replace (base + (off + mo)) with (base + off + mo) by lia. apply (place_mem l (base + off) (MInfo t mo (Some (bo, bw))) P); [exact O3|right; now apply agg_scalar|cbn [m_off]; lia]. }
        exact (leaf_does base _ (off + mo) t c PM eq_refl W1 F).
      - assert (PM: place (NMember l (MInfo (erase mt) mo None)) (base + (off + mo))).
        { replace (base + (off + mo)) with (base + off + mo) by lia. apply (place_mem l (base + off) (MInfo (erase mt) mo None) P); [reflexivity|now left|cbn [m_off]; lia]. }
        exact (H c (NMember l (MInfo (erase mt) mo None)) base (off + mo) W1 S1 M1 eq_refl eq_refl PM ltac:(lia) ltac:(lia) F). }
    destruct (i_mem i) as [k|].
    + apply Nat.ltb_lt in MK. exact (G (i_kids i) k SH MK F).
    + apply andb_true_iff in MK as [NE BL]. assert (PE: pick_els elements off ms (i_kids i) 0 = []).
      { destruct ms as [|[[mo bf] mt] ms]; [reflexivity|]. destruct (i_kids i) as [|c cs]; [destruct bf; reflexivity|]. cbn [forallb] in BL. apply andb_true_iff in BL as [B1 _]. cbn [pick_els]. destruct bf; [now destruct (blank_inv c B1) as (-> & _)|now apply blank_elements]. }
      destruct (G (i_kids i) 0%nat SH ltac:(destruct ms; [discriminate NE|cbn; lia]) ltac:(rewrite PE; constructor)) as (nd & EQ & DN). exists nd. split; [exact EQ|]. now rewrite PE in DN.
Qed.
End Local.

(** ** The values at the end *)
Section Values.
Variable EV : node -> mem -> option (Z * mem).
Variable valid : Z -> bool.
Lemma acc_sub a n b k : accessible valid a n = true -> a <= b -> 0 <= k -> b + k <= a + n -> accessible valid b k = true.
Proof.
  intros H A K B. apply accessible_spec in H as (H1 & H2 & H3). unfold accessible. rewrite !andb_true_iff. split; [split; lia|]. apply forallb_forall. intros i I. apply in_seq in I. replace (b + Z.of_nat i) with (a + (b - a + Z.of_nat i)) by lia. apply H3. lia.
Qed.
Lemma le_store_bit m a n v p : bit (le_store m a n v) p = if (8 * a <=? p) && (p <? 8 * (a + n)) then Z.testbit v (p - 8 * a) else bit m p.
Proof. exact (put_bit m a n v p). Qed.
Lemma le_load_bit m a n j : 0 <= j < 8 * Z.of_nat n -> Z.testbit (le_load m a n) j = bit m (8 * a + j).
Proof. exact (get_bit m n a j). Qed.
Lemma bf_put_bit o w z v j : 0 <= o -> 0 <= w -> 0 <= j -> Z.testbit (bf_put o w z v) j = if (o <=? j) && (j <? o + w) then Z.testbit v (j - o) else Z.testbit z j.
Proof.
  intros O W J. rewrite bf_put_bits, ones_pow by lia. rewrite Z.lor_spec, Z.land_spec, Z.lnot_spec by lia. rewrite <- !Z.shiftl_mul_pow2 by lia. rewrite !Z.shiftl_spec by lia. destruct (Z.leb_spec o j); cbn [andb].
  - rewrite testbit_mod_pow2 by lia. rewrite Z.testbit_ones_nonneg by lia. replace (j <? o + w) with (j - o <? w) by lia. destruct (j - o <? w); cbn [negb andb orb]; [now rewrite andb_false_r|now rewrite andb_true_r, orb_false_r].
  - rewrite !(Z.testbit_neg_r _ (j - o)) by lia. cbn [negb]. now rewrite andb_true_r, orb_false_r.
Qed.
Lemma write_bits t bf m a c : scalar t = true -> bf_fits t bf = true -> accessible valid a (size_of t) = true -> exists w m', write valid bf t m a c = Some (w, m') /\ outside a (size_of t) m m' /\
  forall p, bit m' p = if in_el (Elem a bf t NNull) p then Z.testbit c (p - el_lo (Elem a bf t NNull)) else bit m p.
Proof.
  intros SC BF AC. assert (SS: 1 <= size_of t) by (destruct t; try discriminate SC; cbn; lia). unfold write. destruct bf as [[o w]|].
  - unfold store_bf. rewrite AC. do 2 eexists. split; [reflexivity|]. split; [intros x X; now apply le_store_out|]. intros p. rewrite le_store_bit. unfold in_el, el_lo, el_width. cbn [el_off el_bf el_ty]. cbn [bf_fits] in BF. destruct (int_repr t) as [[s n]|]; [|discriminate BF].
    destruct ((8 * a <=? p) && (p <? 8 * (a + size_of t))) eqn:IN.
    + rewrite bf_put_bit by lia. replace ((o <=? p - 8 * a) && (p - 8 * a <? o + w)) with ((8 * a + o <=? p) && (p <? 8 * a + o + w)) by lia. destruct ((8 * a + o <=? p) && (p <? 8 * a + o + w)); [f_equal; lia|]. rewrite le_load_bit by lia. f_equal. lia.
    + replace ((8 * a + o <=? p) && (p <? 8 * a + o + w)) with false by lia. reflexivity.
  - assert (ST: store_val valid t m a c = Some (le_store m a (size_of t) c)) by (unfold store_val; rewrite AC; destruct t; try discriminate SC; reflexivity). rewrite ST. do 2 eexists. split; [reflexivity|]. split; [intros x X; now apply le_store_out|]. intros p. rewrite le_store_bit. unfold in_el, el_lo, el_width. cbn [el_off el_bf el_ty]. rewrite Z.add_0_r. replace (8 * a + 8 * size_of t) with (8 * (a + size_of t)) by lia. reflexivity.
Qed.
Lemma conv_scalar t v : scalar t = true -> exists c, conv t v = Some c.
Proof. destruct t; try discriminate; intros _; cbn; eauto. Qed.
Lemma run_bits base size val m0 : accessible valid base size = true -> forall l pos hi m, Forall el_ok l -> Forall (el_in 0 size) l -> Forall (fun e => scalar (el_ty e) = true) l -> seqd pos hi l -> (forall e, In e l -> settled EV base size m0 (el_expr e) (val e)) -> outside base size m0 m ->
  exists m', run EV valid base l m = Some m' /\ outside base size m0 m' /\
    (forall e c p, In e l -> conv (el_ty e) (val e) = Some c -> el_has e p -> bit m' (8 * base + p) = Z.testbit c (p - el_lo e)) /\
    (forall p, (forall e, In e l -> ~ el_has e p) -> bit m' (8 * base + p) = bit m (8 * base + p)).
Proof.
  intros AC. induction l as [|e l IH]; intros pos hi m OK IN SC SQ ST OU; cbn [run].
  - exists m. split; [reflexivity|]. split; [exact OU|]. split; [intros e c p []|reflexivity].
  - inversion OK as [|? ? O1 O2]; subst. inversion IN as [|? ? I1 I2]; subst. inversion SC as [|? ? C1 C2]; subst. destruct SQ as (S1 & S2 & S3). rewrite (ST e (or_introl eq_refl) m OU). destruct (conv_scalar (el_ty e) (val e) C1) as (c & CV). rewrite CV. unfold el_in in I1.
    assert (SZ: 0 <= size_of (el_ty e)) by (clear - C1; destruct (el_ty e); try discriminate C1; cbn; lia).
    destruct (write_bits (el_ty e) (el_bf e) m (base + el_off e) c C1 O1) as (w & m1 & WR & OW & BW); [eapply acc_sub; [exact AC|lia|lia|lia]|]. rewrite WR.
    assert (LO: el_lo (Elem (base + el_off e) (el_bf e) (el_ty e) NNull) = 8 * base + el_lo e) by (unfold el_lo; cbn; destruct (el_bf e) as [[]|]; lia).
    assert (WI: el_width (Elem (base + el_off e) (el_bf e) (el_ty e) NNull) = el_width e) by reflexivity.
    assert (OU1: outside base size m0 m1) by (intros x X; rewrite OW by lia; now apply OU).
    destruct (IH _ _ m1 O2 I2 C2 S3 (fun e' I => ST e' (or_intror I)) OU1) as (m' & RN & O' & B1 & B2).
    assert (AFT: forall e', In e' l -> el_lo e + el_width e <= el_lo e').
    { clear - S3. revert S3. generalize (el_lo e + el_width e) as q. induction l as [|a l IH]; intros q S e' I; [destruct I|]. cbn in S. destruct S as (A & B & C). destruct I as [<-|I]; [exact A|]. specialize (IH _ C e' I). lia. }
    assert (BW': forall p, bit m1 (8 * base + p) = if in_el e p then Z.testbit c (p - el_lo e) else bit m (8 * base + p)).
    { intros p. rewrite BW. unfold in_el. rewrite LO, WI. replace ((8 * base + el_lo e <=? 8 * base + p) && (8 * base + p <? 8 * base + el_lo e + el_width e)) with ((el_lo e <=? p) && (p <? el_lo e + el_width e)) by lia. destruct ((el_lo e <=? p) && (p <? el_lo e + el_width e)); [f_equal; lia|reflexivity]. }
    exists m'. split; [exact RN|]. split; [exact O'|]. split.
    + intros e' c' p [<-|I] CV' HP; [|now apply (B1 e' c')]. assert (c' = c) by congruence. subst c'. rewrite B2; [rewrite BW'; unfold el_has in HP; unfold in_el; replace ((el_lo e <=? p) && (p <? el_lo e + el_width e)) with true by lia; reflexivity|]. intros e' I. specialize (AFT e' I). unfold el_has in *. lia.
    + intros p N. rewrite B2 by (intros e' I; apply N; now right). rewrite BW'. specialize (N e (or_introl eq_refl)). unfold el_has in N. unfold in_el. replace ((el_lo e <=? p) && (p <? el_lo e + el_width e)) with false by lia. reflexivity.
Qed.
End Values.
