From Verif Require Import Base TypeModel IntArith NodeModel ValSpec EvalModel ElabSpec InitModel InitSpec BitLemmas.
From Coq Require Import ZifyBool ZifyNat.
Local Arguments Z.mul : simpl never. Local Arguments Z.add : simpl never. Local Arguments Z.sub : simpl never. Local Arguments Z.pow : simpl never.
Notation mlist := (list (Z * option (Z * Z) * ity)).

Section Ind.
Variable P : ity -> Prop.
Hypothesis Hs : forall t, P (IScal t).
Hypothesis Ha : forall b n, P b -> P (IArr b n).
Hypothesis Ht : forall id sz al ms, Forall (fun m => P (snd m)) ms -> P (IStruct id sz al ms).
Hypothesis Hu : forall id sz al ms, Forall (fun m => P (snd m)) ms -> P (IUnion id sz al ms).
Fixpoint ity_ind' (t : ity) : P t :=
  let go := fix go (ms : mlist) : Forall (fun m => P (snd m)) ms := match ms with [] => Forall_nil _ | m :: r => Forall_cons m (ity_ind' (snd m)) (go r) end in
  match t with
  | IScal t => Hs t
  | IArr b n => Ha b n (ity_ind' b)
  | IStruct id sz al ms => Ht id sz al ms (go ms)
  | IUnion id sz al ms => Hu id sz al ms (go ms)
  end.
End Ind.

(** ** The elements one by one *)
Definition write_el (g : image) (e : elem) : option image :=
  match el_bf e with
  | Some (bo, bw) =>
      let* old := read_buf (g_buf g) (el_off e) (size_of (el_ty e)) in
      match eval (el_expr e) with
      | EOk v _ =>
          if (0 <=? bw) && (bw <? 64) && (0 <=? bo) && (bo <? 64) then
            let* b := write_buf (g_buf g) (el_off e) (Z.lor old ((v mod 2 ^ 64) mod 2 ^ bw * 2 ^ bo mod 2 ^ 64)) (size_of (el_ty e)) in Some (Img b (g_rel g))
          else None
      | _ => None
      end
  | None =>
      if is_float (el_ty e) then None else
      match eval2 true (el_expr e) with
      | EOk v None => let* b := write_buf (g_buf g) (el_off e) v (size_of (el_ty e)) in Some (Img b (g_rel g))
      | EOk v (Some l) => Some (Img (g_buf g) (g_rel g ++ [(el_off e, l, v)]))
      | _ => None
      end
  end.
Fixpoint write_els (l : list elem) (g : image) : option image := match l with [] => Some g | e :: r => let* g := write_el g e in write_els r g end.
Lemma write_els_app a b g : write_els (a ++ b) g = let* g := write_els a g in write_els b g.
Proof. revert g. induction a as [|e a IH]; intros g; cbn; [reflexivity|]. destruct (write_el g e); [apply IH|reflexivity]. Qed.

(** the loops over members, named *)
Definition mems_els (els : ity -> init -> Z -> list elem) (off : Z) : mlist -> list init -> list elem :=
  fix mems (ms : mlist) (cs : list init) : list elem :=
    match ms, cs with
    | (mo, Some bf, mt) :: ms, c :: cs => match i_expr c with Some e => [Elem (off + mo) (Some bf) (erase mt) e] | None => [] end ++ mems ms cs
    | (mo, None, mt) :: ms, c :: cs => els mt c (off + mo) ++ mems ms cs
    | _, _ => []
    end.
Definition pick_els (els : ity -> init -> Z -> list elem) (off : Z) : mlist -> list init -> nat -> list elem :=
  fix pick (ms : mlist) (cs : list init) (k : nat) : list elem :=
    match ms, cs, k with
    | (mo, Some bf, mt) :: _, c :: _, O => match i_expr c with Some e => [Elem (off + mo) (Some bf) (erase mt) e] | None => [] end
    | (mo, None, mt) :: _, c :: _, O => els mt c (off + mo)
    | _ :: ms, _ :: cs, S k => pick ms cs k
    | _, _, _ => []
    end.
Definition arr_els (els : init -> Z -> list elem) (sz : Z) : nat -> list init -> Z -> list elem :=
  fix arr (k : nat) (cs : list init) (o : Z) : list elem := match k, cs with S k, c :: r => els c o ++ arr k r (o + sz) | _, _ => [] end.
Lemma elements_arr b n i off : elements (IArr b n) i off = arr_els (elements b) (isize b) n (i_kids i) off. Proof. reflexivity. Qed.
Lemma elements_struct id sz al ms i off : elements (IStruct id sz al ms) i off = match i_expr i with Some e => [Elem off None (TStruct id sz al) e] | None => mems_els elements off ms (i_kids i) end. Proof. reflexivity. Qed.
Lemma elements_union id sz al ms i off : elements (IUnion id sz al ms) i off = match i_mem i with Some k => pick_els elements off ms (i_kids i) k | None => [] end. Proof. reflexivity. Qed.
Definition shaped_list : mlist -> list init -> bool :=
  fix mems (ms : mlist) (cs : list init) : bool := match ms, cs with [], [] => true | (_, _, mt) :: ms, c :: cs => shaped mt c && mems ms cs | _, _ => false end.
Lemma shaped_struct id sz al ms i : shaped (IStruct id sz al ms) i = shaped_list ms (i_kids i). Proof. reflexivity. Qed.
Lemma shaped_union id sz al ms i : shaped (IUnion id sz al ms) i = shaped_list ms (i_kids i) && match i_mem i with Some k => Nat.ltb k (List.length ms) | None => negb (match ms with [] => true | _ => false end) && forallb blank (i_kids i) end. Proof. reflexivity. Qed.

Lemma blank_inv i : blank i = true -> i_expr i = None /\ i_mem i = None /\ forallb blank (i_kids i) = true.
Proof. destruct i as [[e|] [k|] cs]; cbn; try discriminate. auto. Qed.
Lemma blank_elements t : forall i off, blank i = true -> elements t i off = [].
Proof.
  induction t as [t|b n IH|id sz al ms IH|id sz al ms IH] using ity_ind'; intros i off B; destruct (blank_inv i B) as (E & M & K).
  - cbn. now rewrite E.
  - rewrite elements_arr. revert off K. generalize (i_kids i). clear i B E M. induction n as [|n IHn]; intros [|c cs] off K; cbn; auto. cbn in K. apply andb_true_iff in K as [K1 K2]. rewrite (IH c off K1). now apply IHn.
  - rewrite elements_struct, E. revert K. generalize (i_kids i). clear i B E M. induction IH as [|[[mo bf] mt] ms H _ IHm]; intros [|c cs] K; cbn; auto; [now destruct bf|]. cbn in K. apply andb_true_iff in K as [K1 K2]. destruct bf as [bf|]; [destruct (blank_inv c K1) as (-> & _)|cbn in H; rewrite (H c _ K1)]; now apply IHm.
  - rewrite elements_union, M. reflexivity.
Qed.

Lemma scalar_nofloat t : scalar t = true -> is_float t = false. Proof. now destruct t. Qed.
Lemma write_is_els t : forall i off g, shaped t i = true -> clean t i = true -> Forall (fun e => scalar (el_ty e) = true) (elements t i off) -> wf t = true -> write_gvar t i off g = write_els (elements t i off) g.
Proof.
  induction t as [t|b n IH|id sz al ms IH|id sz al ms IH] using ity_ind'; intros i off g SH CL SC WF.
  - cbn in *. destruct (i_expr i) as [e|]; [|reflexivity]. cbn. unfold write_el. cbn. rewrite (scalar_nofloat t WF). destruct (eval2 true e) as [v [l|]| | | |]; try reflexivity; try (destruct (write_buf _ _ _ _); reflexivity).
  - rewrite elements_arr in *. cbn [write_gvar shaped clean wf] in *. apply andb_true_iff in SH as [LN SH]. apply Nat.eqb_eq in LN. revert n off g LN SH CL SC. generalize (i_kids i). clear i.
    intros cs. induction cs as [|c cs IHc]; intros [|n] off g LN SH CL SC; try discriminate LN; [reflexivity|]. cbn [arr_els] in *. cbn [forallb] in SH, CL. apply andb_true_iff in SH as [S1 S2]. apply andb_true_iff in CL as [C1 C2]. apply Forall_app in SC as [F1 F2].
    rewrite write_els_app, (IH c off g S1 C1 F1 WF). destruct (write_els (elements b c off) g) as [g'|]; [|reflexivity]. apply IHc; auto.
  - rewrite elements_struct, shaped_struct in *. cbn [wf] in WF. rewrite !andb_true_iff in WF. destruct WF as [[[_ WF] BM] _].
    destruct (i_expr i) as [e|]; [inversion SC as [|? ? SC' _]; subst; discriminate SC'|]. cbn [write_gvar clean] in *. revert g SH CL SC. generalize (i_kids i). clear i.
    induction IH as [|[[mo bf] mt] ms H _ IHm]; intros [|c cs] g SH CL SC; try reflexivity; try discriminate SH. cbn [shaped_list] in SH. apply andb_true_iff in SH as [S1 S2]. cbn [forallb snd] in WF. apply andb_true_iff in WF as [W1 W2]. cbn [forallb] in BM. apply andb_true_iff in BM as [B1 B2]. cbn [mems_els] in *. cbn [snd] in H.
    destruct bf as [[bo bw]|].
    + destruct (i_expr c) as [e|] eqn:EC.
      * cbn [app write_els]. unfold write_el at 1. cbn [el_bf el_off el_ty el_expr]. apply andb_true_iff in CL as [C1 C2]. inversion SC as [|? ? _ SC']; subst. unfold isize in *.
        destruct (read_buf (g_buf g) (off + mo) (size_of (erase mt))) as [old|]; [|reflexivity]. destruct (eval e) as [v l| | | |]; try reflexivity. destruct ((0 <=? bw) && (bw <? 64) && (0 <=? bo) && (bo <? 64)); [|reflexivity].
        destruct (write_buf _ _ _ _) as [b|]; [|reflexivity]. apply IHm; auto.
      * cbn [app]. replace (mems_els elements off ms cs) with (@nil elem); [reflexivity|]. symmetry. clear - CL. revert cs CL. induction ms as [|[[mo bf] mt] ms IH]; intros [|c cs] CL; try reflexivity; [cbn; now destruct bf|]. cbn [forallb] in CL. apply andb_true_iff in CL as [C1 C2]. cbn [mems_els].
        destruct bf; [destruct (blank_inv c C1) as (-> & _)|rewrite (blank_elements mt c _ C1)]; now apply IH.
    + apply andb_true_iff in CL as [C1 C2]. apply Forall_app in SC as [F1 F2]. rewrite write_els_app, (H c (off + mo) g S1 C1 F1 W1). destruct (write_els _ g) as [g'|]; [|reflexivity]. apply IHm; auto.
  - rewrite elements_union, shaped_union in *. cbn [wf] in WF. rewrite !andb_true_iff in WF. destruct WF as [[[_ WF] _] OF]. apply andb_true_iff in SH as [SH MK]. cbn [write_gvar clean] in *. destruct (i_mem i) as [k|]; [|reflexivity]. apply Nat.ltb_lt in MK. revert k MK SH CL SC. generalize (i_kids i). clear i.
    induction IH as [|[[mo bf] mt] ms H _ IHm]; intros cs k MK SH CL SC; [cbn in MK; lia|]. destruct cs as [|c cs]; [discriminate SH|]. cbn [shaped_list] in SH. apply andb_true_iff in SH as [S1 S2]. cbn [forallb snd fst] in WF, OF. apply andb_true_iff in WF as [W1 W2]. apply andb_true_iff in OF as [O1 O2]. cbn [pick_els] in *. cbn [snd] in H.
    destruct k as [|k].
    + destruct bf as [bf|]; [discriminate CL|]. apply Z.eqb_eq in O1. subst mo. rewrite Z.add_0_r in *. now apply H.
    + destruct bf as [bf|]; apply IHm; auto; cbn in MK; lia.
Qed.

(** ** Order *)
Fixpoint seqd (pos hi : Z) (l : list elem) : Prop :=
  match l with [] => pos <= hi | e :: r => pos <= el_lo e /\ 0 <= el_width e /\ seqd (el_lo e + el_width e) hi r end.
Lemma seqd_le l : forall pos hi, seqd pos hi l -> pos <= hi.
Proof. induction l as [|e l IH]; cbn; intros pos hi H; [exact H|]. destruct H as (A & B & C). apply IH in C. lia. Qed.
Lemma seqd_app a : forall pos mid hi b, seqd pos mid a -> seqd mid hi b -> seqd pos hi (a ++ b).
Proof.
  induction a as [|e a IH]; cbn; intros pos mid hi b A B.
  - destruct b as [|e b]; cbn in *; [lia|]. destruct B as (B1 & B2 & B3). repeat split; auto. lia.
  - destruct A as (A1 & A2 & A3). repeat split; auto. eapply IH; eauto.
Qed.
Lemma seqd_weak l : forall pos hi pos' hi', seqd pos hi l -> pos' <= pos -> hi <= hi' -> seqd pos' hi' l.
Proof. induction l as [|e l IH]; cbn; intros pos hi pos' hi' H A B; [lia|]. destruct H as (H1 & H2 & H3). repeat split; [lia|auto|]. eapply IH; eauto. lia. Qed.
Lemma scalar_sz t : scalar t = true -> ok_size (size_of t) = true. Proof. now destruct t. Qed.
Lemma wf_size t : wf t = true -> 0 <= isize t.
Proof.
  unfold isize. induction t as [t|b n IH|id sz al ms IH|id sz al ms IH] using ity_ind'; cbn [wf erase size_of]; intros W.
  - apply scalar_sz in W. unfold ok_size in W. lia.
  - apply IH in W. nia.
  - rewrite !andb_true_iff in W. lia.
  - rewrite !andb_true_iff in W. lia.
Qed.
Lemma laid_le ms : forall pos hi, laid pos hi ms = true -> pos <= hi.
Proof. induction ms as [|m ms IH]; cbn; intros pos hi H; [lia|]. rewrite !andb_true_iff in H. destruct H as [[A B] C]. apply IH in C. lia. Qed.
Lemma elements_seqd t : forall i off, wf t = true -> seqd (8 * off) (8 * (off + isize t)) (elements t i off).
Proof.
  induction t as [t|b n IH|id sz al ms IH|id sz al ms IH] using ity_ind'; intros i off W; pose proof (wf_size _ W) as SZ.
  - cbn [elements]. unfold isize in *. cbn [erase] in *. destruct (i_expr i); cbn; unfold el_lo, el_width; cbn; lia.
  - rewrite elements_arr. cbn [wf] in W. pose proof (wf_size _ W) as SB. replace (isize (IArr b n)) with (isize b * Z.of_nat n) by reflexivity. clear SZ. generalize (i_kids i). revert off. induction n as [|n IHn]; intros off [|c cs]; cbn [arr_els seqd]; try nia.
    eapply seqd_app; [apply (IH c off W)|]. eapply seqd_weak; [apply (IHn (off + isize b) cs)|lia|nia].
  - rewrite elements_struct. replace (isize (IStruct id sz al ms)) with sz in * by reflexivity. cbn [wf] in W. rewrite !andb_true_iff in W. destruct W as [[[S0 W] B] L]. destruct (i_expr i) as [e|]; [cbn; unfold el_lo, el_width; cbn; lia|].
    replace (8 * (off + sz)) with (8 * off + 8 * sz) by lia. apply (seqd_weak _ (8 * off + 0) (8 * off + 8 * sz)); [|lia|lia]. generalize (i_kids i). clear i SZ S0. revert L. generalize 0 as pos, (8 * sz) as hi. intros pos hi.
    revert pos W B. induction IH as [|[[mo bf] mt] ms H _ IHm]; intros pos W B L cs; [cbn [laid] in L; destruct cs; cbn; lia|]. cbn [forallb snd] in W. apply andb_true_iff in W as [W1 W2]. cbn [forallb] in B. apply andb_true_iff in B as [B1 B2]. cbn [laid] in L. rewrite !andb_true_iff in L. destruct L as [[L1 L2] L3]. pose proof (laid_le _ _ _ L3) as L4. cbn [m_lo m_hi snd] in *.
    destruct cs as [|c cs]; [destruct bf; cbn; lia|]. destruct bf as [[bo bw]|]; cbn [mems_els].
    + eapply (seqd_app _ _ (8 * off + (8 * mo + (bo + bw)))); [|apply IHm; auto]. destruct (i_expr c); cbn; unfold el_lo, el_width; cbn; lia.
    + eapply (seqd_app _ _ (8 * off + (8 * mo + 8 * isize mt))); [|apply IHm; auto]. eapply seqd_weak; [apply (H c (off + mo) W1)|lia|lia].
  - rewrite elements_union. replace (isize (IUnion id sz al ms)) with sz in * by reflexivity. cbn [wf] in W. rewrite !andb_true_iff in W. destruct W as [[[S0 W] B] O]. destruct (i_mem i) as [k|]; [|cbn; lia]. generalize (i_kids i). clear i. revert k W B O.
    induction IH as [|[[mo bf] mt] ms H _ IHm]; intros k W B O cs; [cbn; lia|]. cbn [forallb snd fst] in W, O. apply andb_true_iff in W as [W1 W2]. cbn [forallb] in B. apply andb_true_iff in B as [B1 B2]. apply andb_true_iff in O as [O1 O2].
    unfold bf_member in B1. rewrite !andb_true_iff in B1. destruct B1 as [[M1 M2] M3]. cbn [snd] in H.
    destruct cs as [|c cs]; [cbn; destruct bf, k; cbn; lia|]. destruct k as [|k]; cbn [pick_els]; [|destruct bf; now apply IHm]. destruct bf as [[bo bw]|].
    + destruct mt as [t| | |]; try discriminate M3. cbn [bf_fits] in M3. destruct (int_repr t) as [[s n]|]; [|discriminate M3]. unfold isize in M2. cbn [erase] in M2. destruct (i_expr c); cbn; unfold el_lo, el_width; cbn; lia.
    + eapply seqd_weak; [apply (H c (off + mo) W1)|lia|lia].
Qed.

(** ** Bits *)
Lemma byte_bit v k j : 0 <= k -> 0 <= j < 8 -> Z.testbit (byte_at v k) j = Z.testbit v (8 * k + j).
Proof.
  intros K J. unfold byte_at. change 256 with (2 ^ 8) at 2. rewrite testbit_mod_pow2 by lia. replace (j <? 8) with true by lia. cbn [andb]. replace (256 ^ k) with (2 ^ (8 * k)) by (rewrite Z.pow_mul_r by lia; reflexivity).
  rewrite Z.div_pow2_bits by lia. f_equal. lia.
Qed.
Lemma put_bit buf off n v p : bit (put buf off n v) p = if (8 * off <=? p) && (p <? 8 * (off + n)) then Z.testbit v (p - 8 * off) else bit buf p.
Proof.
  unfold bit, put. pose proof (Z.div_mod p 8 ltac:(lia)) as D. pose proof (Z.mod_pos_bound p 8 ltac:(lia)) as R. destruct ((off <=? p / 8) && (p / 8 <? off + n)) eqn:C.
  - replace ((8 * off <=? p) && (p <? 8 * (off + n))) with true by lia. rewrite byte_bit by lia. f_equal. lia.
  - replace ((8 * off <=? p) && (p <? 8 * (off + n))) with false by lia. reflexivity.
Qed.
Lemma get_bit buf n : forall off j, 0 <= j < 8 * Z.of_nat n -> Z.testbit (get buf off n) j = bit buf (8 * off + j).
Proof.
  induction n as [|n IH]; intros off j J; [lia|]. cbn [get]. change 256 with (2 ^ 8). unfold bit. pose proof (Z.div_mod j 8 ltac:(lia)) as D. pose proof (Z.mod_pos_bound j 8 ltac:(lia)) as R.
  assert (A: buf off mod 2 ^ 8 + 2 ^ 8 * get buf (off + 1) n = Z.lor (buf off mod 2 ^ 8) (Z.shiftl (get buf (off + 1) n) 8)).
  { rewrite Z.shiftl_mul_pow2 by lia. symmetry. rewrite (Z.mul_comm (2 ^ 8)). rewrite Z.lor_comm, (Z.add_comm (buf off mod 2 ^ 8)). apply Z.bits_inj'. intros i Hi. rewrite Z.lor_spec. rewrite <- Z.shiftl_mul_pow2 by lia.
    destruct (Z.ltb_spec i 8).
    - rewrite Z.shiftl_spec_low by lia. cbn [orb]. rewrite Z.shiftl_mul_pow2 by lia. rewrite <- (Z.mod_pow2_bits_low (get buf (off + 1) n * 2 ^ 8 + buf off mod 2 ^ 8) 8 i) by lia. f_equal. rewrite Z.add_comm, Z.mod_add by lia. now rewrite Zmod_mod.
    - rewrite testbit_mod_pow2 by lia. replace (i <? 8) with false by lia. cbn [andb]. rewrite orb_false_r. rewrite Z.shiftl_spec by lia. rewrite Z.shiftl_mul_pow2 by lia. replace i with (i - 8 + 8) at 2 by lia. rewrite <- Z.div_pow2_bits by lia. f_equal. rewrite Z.div_add_l by lia. rewrite (Z.div_small (buf off mod 2 ^ 8)); [lia|]. apply Z.mod_pos_bound. lia. }
  rewrite A, Z.lor_spec. destruct (Z.ltb_spec j 8).
  - rewrite Z.shiftl_spec_low by lia. rewrite orb_false_r, testbit_mod_pow2 by lia. replace (j <? 8) with true by lia. cbn [andb]. replace ((8 * off + j) / 8) with off by (rewrite (Z.mul_comm 8), Z.add_comm, Z.div_add, Z.div_small by lia; lia). replace ((8 * off + j) mod 8) with j by (rewrite (Z.mul_comm 8), Z.add_comm, Z.mod_add, Z.mod_small by lia; reflexivity). reflexivity.
  - rewrite testbit_mod_pow2 by lia. replace (j <? 8) with false by lia. cbn [andb orb]. rewrite Z.shiftl_spec by lia. rewrite IH by lia. unfold bit. replace (8 * (off + 1) + (j - 8)) with (8 * off + j) by lia. reflexivity.
Qed.
Lemma read_bit buf off n old j : read_buf buf off n = Some old -> 0 <= j < 8 * n -> Z.testbit old j = bit buf (8 * off + j).
Proof.
  unfold read_buf. destruct (Z.eqb_spec n 1) as [->|N].
  - intros H J. injection H as <-. rewrite testbit_mod_pow2 by lia. replace (j <? 64) with true by lia. cbn [andb]. pose proof (sx_eqm 8 (buf off) ltac:(lia)) as E. rewrite eqm_bits in E by lia. rewrite (E j) by lia. unfold bit.
    replace ((8 * off + j) / 8) with off by (rewrite (Z.mul_comm 8), Z.add_comm, Z.div_add, Z.div_small by lia; lia). replace ((8 * off + j) mod 8) with j by (rewrite (Z.mul_comm 8), Z.add_comm, Z.mod_add, Z.mod_small by lia; reflexivity). reflexivity.
  - destruct (ok_size n) eqn:O; [|discriminate]. intros H J. injection H as <-. apply get_bit. lia.
Qed.
Definition is_bf (e : elem) : bool := match el_bf e with Some _ => true | None => false end.
Definition in_el (e : elem) (p : Z) : bool := (el_lo e <=? p) && (p <? el_lo e + el_width e).
Definition el_ok (e : elem) : Prop := bf_fits (el_ty e) (el_bf e) = true.
Lemma write_el_bits g e g' : el_ok e -> write_el g e = Some g' -> exists v lab, el_value e = EOk v lab /\ g_rel g' = g_rel g ++ el_reloc e /\
  forall p, bit (g_buf g') p = if in_el e p && (is_bf e || match lab with None => true | Some _ => false end) then Z.testbit v (p - el_lo e) || (is_bf e && bit (g_buf g) p) else bit (g_buf g) p.
Proof.
  intros OK H. unfold write_el, el_value, el_reloc, in_el, is_bf, el_lo, el_width, el_ok in *. destruct e as [off [[bo bw]|] t e]; cbn [el_off el_bf el_ty el_expr] in *.
  - destruct (read_buf (g_buf g) off (size_of t)) as [old|] eqn:RD; [|discriminate]. destruct (eval e) as [v lab| | | |] eqn:EV; try discriminate. destruct ((0 <=? bw) && (bw <? 64) && (0 <=? bo) && (bo <? 64)) eqn:B; [|discriminate].
    unfold write_buf in H. destruct (ok_size (size_of t)) eqn:OS; [|discriminate]. injection H as <-. exists v, lab. split; [reflexivity|]. split; [cbn; now rewrite app_nil_r|]. intros p. cbn [g_buf]. rewrite put_bit. cbn [orb]. rewrite andb_true_r.
    cbn [bf_fits] in OK. destruct (int_repr t) as [[s n]|]; [|discriminate]. assert (SZ: 1 <= size_of t <= 8) by (unfold ok_size in OS; lia).
    destruct ((8 * off <=? p) && (p <? 8 * (off + size_of t))) eqn:IN.
    + rewrite Z.lor_spec, (read_bit _ _ _ _ _ RD) by lia. replace (8 * off + (p - 8 * off)) with p by lia. rewrite testbit_mod_pow2 by lia. replace (p - 8 * off <? 64) with true by lia. cbn [andb]. rewrite <- Z.shiftl_mul_pow2 by lia. rewrite Z.shiftl_spec by lia.
      destruct ((8 * off + bo <=? p) && (p <? 8 * off + bo + bw)) eqn:F.
      * rewrite !testbit_mod_pow2 by lia. replace (p - 8 * off - bo <? bw) with true by lia. replace (p - 8 * off - bo <? 64) with true by lia. cbn [andb]. rewrite orb_comm. f_equal. f_equal. lia.
      * destruct (Z.ltb_spec (p - 8 * off - bo) 0); [rewrite Z.testbit_neg_r by lia; apply orb_false_r|]. rewrite testbit_mod_pow2 by lia. replace (p - 8 * off - bo <? bw) with false by lia. cbn [andb]. apply orb_false_r.
    + replace ((8 * off + bo <=? p) && (p <? 8 * off + bo + bw)) with false by lia. reflexivity.
  - destruct (is_float t); [discriminate|]. destruct (eval2 true e) as [v [l|]| | | |] eqn:EV; try discriminate.
    + injection H as <-. exists v, (Some l). split; [reflexivity|]. split; [unfold el_value; cbn [el_bf el_expr]; now rewrite EV|]. intros p. cbn [g_buf orb]. now rewrite andb_false_r.
    + unfold write_buf in H. destruct (ok_size (size_of t)) eqn:OS; [|discriminate]. injection H as <-. exists v, None. split; [reflexivity|]. split; [unfold el_value; cbn [el_bf el_expr]; rewrite EV; cbn; now rewrite app_nil_r|]. intros p. cbn [g_buf orb andb]. rewrite put_bit, andb_true_r, orb_false_r. replace (8 * off + 0) with (8 * off) by lia.
      replace (8 * (off + size_of t)) with (8 * off + 8 * size_of t) by lia. reflexivity.
Qed.
Lemma els_bits l : forall pos hi g g', Forall el_ok l -> seqd pos hi l -> write_els l g = Some g' -> g_rel g' = g_rel g ++ flat_map el_reloc l /\
  (forall e, In e l -> exists v lab, el_value e = EOk v lab /\ forall p, in_el e p = true -> bit (g_buf g') p = if is_bf e || match lab with None => true | Some _ => false end then Z.testbit v (p - el_lo e) || (is_bf e && bit (g_buf g) p) else bit (g_buf g) p) /\
  (forall p, (forall e, In e l -> in_el e p = false) -> bit (g_buf g') p = bit (g_buf g) p).
Proof.
  induction l as [|e l IH]; intros pos hi g g' OK SQ H; cbn [write_els] in H.
  - injection H as <-. cbn. rewrite app_nil_r. split; [reflexivity|]. split; [intros e []|auto].
  - destruct (write_el g e) as [g1|] eqn:W; [|discriminate]. inversion OK as [|? ? O1 O2]; subst. destruct SQ as (S1 & S2 & S3). destruct (write_el_bits _ _ _ O1 W) as (v & lab & EV & R1 & B1). destruct (IH _ _ _ _ O2 S3 H) as (R2 & B2 & B3).
    assert (AFT: forall e', In e' l -> el_lo e + el_width e <= el_lo e').
    { clear - S3. revert S3. generalize (el_lo e + el_width e) as q. induction l as [|a l IH]; intros q S e' I; [destruct I|]. cbn in S. destruct S as (A & B & C). destruct I as [<-|I]; [exact A|]. specialize (IH _ C e' I). lia. }
    split; [rewrite R2, R1; cbn; now rewrite <- app_assoc|]. split.
    + intros e' [<-|I].
      * exists v, lab. split; [exact EV|]. intros p Hp. rewrite B3; [rewrite B1, Hp; reflexivity|]. intros e' I. unfold in_el in *. specialize (AFT e' I). lia.
      * destruct (B2 e' I) as (v' & lab' & EV' & B'). exists v', lab'. split; [exact EV'|]. intros p Hp. rewrite (B' p Hp). assert (in_el e p = false) by (unfold in_el in *; specialize (AFT e' I); lia). rewrite (B1 p), H0. cbn [andb]. reflexivity.
    + intros p N. rewrite B3 by (intros e' I; apply N; now right). rewrite B1, (N e (or_introl eq_refl)). reflexivity.
Qed.
Lemma elements_ok t : forall i off, wf t = true -> Forall el_ok (elements t i off).
Proof.
  induction t as [t|b n IH|id sz al ms IH|id sz al ms IH] using ity_ind'; intros i off W.
  - cbn [elements]. destruct (i_expr i); constructor; [reflexivity|constructor].
  - rewrite elements_arr. cbn [wf] in W. generalize (i_kids i). revert off. induction n as [|n IHn]; intros off [|c cs]; cbn [arr_els]; try constructor. apply Forall_app. split; [now apply IH|apply IHn].
  - rewrite elements_struct. cbn [wf] in W. rewrite !andb_true_iff in W. destruct W as [[[_ W] B] _]. destruct (i_expr i) as [e|]; [constructor; [reflexivity|constructor]|]. generalize (i_kids i). clear i. induction IH as [|[[mo bf] mt] ms H _ IHm]; intros cs; [constructor|].
    cbn [forallb snd] in W. apply andb_true_iff in W as [W1 W2]. cbn [forallb] in B. apply andb_true_iff in B as [B1 B2]. unfold bf_member in B1. rewrite !andb_true_iff in B1. destruct B1 as [_ B1]. cbn [snd] in H.
    destruct cs as [|c cs]; [destruct bf; constructor|]. destruct bf as [bf|]; cbn [mems_els]; apply Forall_app; split; auto. destruct bf as [o w]. destruct (i_expr c); constructor; [|constructor]. destruct mt; try discriminate B1. exact B1.
  - rewrite elements_union. cbn [wf] in W. rewrite !andb_true_iff in W. destruct W as [[[_ W] B] _]. destruct (i_mem i) as [k|]; [|constructor]. generalize (i_kids i). clear i. revert k. induction IH as [|[[mo bf] mt] ms H _ IHm]; intros k cs; [constructor|].
    cbn [forallb snd] in W. apply andb_true_iff in W as [W1 W2]. cbn [forallb] in B. apply andb_true_iff in B as [B1 B2]. unfold bf_member in B1. rewrite !andb_true_iff in B1. destruct B1 as [_ B1]. cbn [snd] in H.
    destruct cs as [|c cs]; [destruct bf, k; constructor|]. destruct bf as [bf|], k as [|k]; cbn [pick_els]; auto. destruct bf as [o w]. destruct (i_expr c); constructor; [|constructor]. destruct mt; try discriminate B1. exact B1.
Qed.

(** ** emit_data *)
Lemma rels_fit_le r : forall pos sz, rels_fit pos sz r -> pos <= sz.
Proof. induction r as [|[[o l] a] r IH]; cbn; intros pos sz H; [exact H|]. destruct H as [A B]. apply IH in B. lia. Qed.
Lemma rels_fit_weak r pos pos' sz : rels_fit pos sz r -> pos' <= pos -> rels_fit pos' sz r.
Proof. destruct r as [|[[o l] a] r]; cbn; intros; [lia|]. destruct H. split; [lia|auto]. Qed.
Lemma find_none_before r : forall pos sz p, rels_fit pos sz r -> p < pos -> find (covers p) r = None.
Proof. induction r as [|[[o l] a] r IH]; cbn; intros pos sz p H L; [reflexivity|]. destruct H as [A B]. unfold covers at 1. cbn. replace (o <=? p) with false by lia. cbn. eapply IH; eauto. lia. Qed.
Definition cells (rel : list (Z * bytes * Z)) (buf : Z -> Z) (pos : Z) (n : nat) : list cell := map (fun k => cell_at rel buf (pos + Z.of_nat k)) (seq 0 n).
Lemma cells_S rel buf pos n : cells rel buf pos (S n) = cell_at rel buf pos :: cells rel buf (pos + 1) n.
Proof. unfold cells. cbn [seq map]. rewrite Z.add_0_r. f_equal. rewrite <- seq_shift, map_map. apply map_ext. intros k. f_equal. lia. Qed.
Lemma cells_ext rel rel' buf n : forall pos, (forall p, pos <= p -> cell_at rel buf p = cell_at rel' buf p) -> cells rel buf pos n = cells rel' buf pos n.
Proof. intros pos H. unfold cells. apply map_ext. intros k. apply H. lia. Qed.
Lemma emit_cells fuel : forall sz pos rel buf, (Z.to_nat (sz - pos) <= fuel)%nat -> rels_fit pos sz rel -> exists d, emit_bytes fuel sz pos rel buf = Some d /\ assemble d = cells rel buf pos (Z.to_nat (sz - pos)).
Proof.
  induction fuel as [|fuel IH]; intros sz pos rel buf F R; pose proof (rels_fit_le _ _ _ R) as LE.
  - cbn [emit_bytes]. replace (sz <=? pos) with true by lia. exists []. split; [reflexivity|]. replace (Z.to_nat (sz - pos)) with 0%nat by lia. reflexivity.
  - cbn [emit_bytes]. destruct (Z.leb_spec sz pos); [exists []; split; [reflexivity|]; replace (Z.to_nat (sz - pos)) with 0%nat by lia; reflexivity|].
    assert (BY: forall b, sx 8 b mod 256 = b mod 256) by (intros b; exact (mod_sx 8 8 b ltac:(lia) ltac:(lia))).
    assert (N: Z.to_nat (sz - pos) = S (Z.to_nat (sz - (pos + 1)))) by lia. destruct rel as [|[[o l] a] rel].
    + destruct (IH sz (pos + 1) [] buf ltac:(lia) ltac:(cbn; lia)) as (d & E & A). rewrite E. exists (DByte (sx 8 (buf pos)) :: d). split; [reflexivity|]. rewrite N, cells_S, <- A. cbn. unfold cell_at. cbn. now rewrite BY.
    + destruct R as [R1 R2]. destruct (Z.eqb_spec o pos) as [->|NE].
      * pose proof (rels_fit_le _ _ _ R2) as LE2. destruct (IH sz (pos + 8) rel buf ltac:(lia) R2) as (d & E & A). rewrite E. exists (DQuad l a :: d). split; [reflexivity|]. cbn [assemble flat_map]. fold (assemble d). rewrite A. replace (Z.to_nat (sz - pos)) with (8 + Z.to_nat (sz - (pos + 8)))%nat by lia.
        set (n := Z.to_nat (sz - (pos + 8))). unfold cells. rewrite seq_app, map_app. f_equal.
        -- cbn [assemble1]. apply map_ext_in. intros k K. apply in_seq in K. unfold cell_at. cbn [find]. unfold covers at 1. cbn [fst]. replace ((pos <=? pos + Z.of_nat k) && (pos + Z.of_nat k <? pos + 8)) with true by lia. f_equal. lia.
        -- replace (seq (0 + 8) n) with (map (fun k => (8 + k)%nat) (seq 0 n)). 2:{ rewrite <- (map_ext (fun k => S (S (S (S (S (S (S (S k)))))))) (fun k => (8 + k)%nat)) by reflexivity. cbn [Nat.add]. do 8 (rewrite <- seq_shift). rewrite !map_map. reflexivity. }
           rewrite map_map. apply map_ext. intros k. unfold cell_at. cbn [find]. unfold covers at 2. cbn [fst]. replace ((pos <=? pos + Z.of_nat (8 + k)) && (pos + Z.of_nat (8 + k) <? pos + 8)) with false by lia. replace (pos + Z.of_nat (8 + k)) with (pos + 8 + Z.of_nat k) by lia. reflexivity.
      * destruct (IH sz (pos + 1) ((o, l, a) :: rel) buf ltac:(lia) ltac:(cbn; split; [lia|exact R2])) as (d & E & A). rewrite E. exists (DByte (sx 8 (buf pos)) :: d). split; [reflexivity|]. rewrite N, cells_S, <- A. cbn [assemble flat_map assemble1]. cbn [app]. f_equal. unfold cell_at.
        rewrite (find_none_before ((o, l, a) :: rel) o sz pos) by (cbn; lia || (split; [lia|exact R2])). now rewrite BY.
Qed.
(** relocations of ordered elements *)
Lemma relocs_fit l : forall pos q hi, seqd q (8 * hi) l -> 8 * pos <= q -> Forall (fun e => el_reloc e <> [] -> size_of (el_ty e) = 8) l -> rels_fit pos hi (flat_map el_reloc l).
Proof.
  induction l as [|e l IH]; intros pos q hi SQ LE F; cbn [flat_map].
  - cbn in *. lia.
  - inversion F as [|? ? F1 F2]; subst. destruct SQ as (S1 & S2 & S3). destruct (el_reloc e) as [|r l'] eqn:RE.
    + cbn. apply (IH pos _ hi S3); [lia|exact F2].
    + specialize (F1 ltac:(discriminate)). unfold el_reloc in RE. unfold el_lo, el_width in *. destruct (el_bf e) as [[bo bw]|]; [discriminate|]. destruct (el_value e) as [v [lb|]| | | |]; try discriminate. injection RE as <- <-. cbn. split; [lia|]. apply (IH _ _ hi S3); [lia|exact F2].
Qed.

(** ** Where the elements lie *)
Definition el_in (lo hi : Z) (e : elem) : Prop := lo <= el_off e /\ el_off e + size_of (el_ty e) <= hi.
Lemma el_in_weak lo hi lo' hi' l : Forall (el_in lo hi) l -> lo' <= lo -> hi <= hi' -> Forall (el_in lo' hi') l.
Proof. intros F A B. eapply Forall_impl; [|exact F]. unfold el_in. intros e H. lia. Qed.
Lemma elements_in t : forall i off, wf t = true -> Forall (el_in off (off + isize t)) (elements t i off).
Proof.
  induction t as [t|b n IH|id sz al ms IH|id sz al ms IH] using ity_ind'; intros i off W.
  - cbn [elements]. destruct (i_expr i); constructor; [|constructor]. unfold el_in, isize. cbn. lia.
  - rewrite elements_arr. cbn [wf] in W. pose proof (wf_size _ W) as SB. unfold isize at 1. cbn [erase size_of]. fold (isize b). generalize (i_kids i). revert off. induction n as [|n IHn]; intros off [|c cs]; cbn [arr_els]; try constructor. apply Forall_app. split; [eapply el_in_weak; [now apply IH|lia|lia]|eapply el_in_weak; [apply IHn|lia|lia]].
  - rewrite elements_struct. change (isize (IStruct id sz al ms)) with sz. cbn [wf] in W. rewrite !andb_true_iff in W. destruct W as [[[S0 W] B] _]. destruct (i_expr i) as [e|]; [constructor; [unfold el_in; cbn; lia|constructor]|]. generalize (i_kids i). clear i. induction IH as [|[[mo bf] mt] ms H _ IHm]; intros cs; [constructor|].
    cbn [forallb snd] in W. apply andb_true_iff in W as [W1 W2]. cbn [forallb] in B. apply andb_true_iff in B as [B1 B2]. unfold bf_member in B1. rewrite !andb_true_iff in B1. destruct B1 as [[O1 O2] B1]. cbn [snd] in H.
    destruct cs as [|c cs]; [destruct bf; constructor|]. destruct bf as [bf|]; cbn [mems_els]; apply Forall_app; split; auto; [|eapply el_in_weak; [now apply H|lia|lia]]. destruct (i_expr c); constructor; [|constructor]. unfold el_in, isize in *. cbn [el_off el_ty]. lia.
  - rewrite elements_union. change (isize (IUnion id sz al ms)) with sz. cbn [wf] in W. rewrite !andb_true_iff in W. destruct W as [[[S0 W] B] _]. destruct (i_mem i) as [k|]; [|constructor]. generalize (i_kids i). clear i. revert k. induction IH as [|[[mo bf] mt] ms H _ IHm]; intros k cs; [constructor|].
    cbn [forallb snd] in W. apply andb_true_iff in W as [W1 W2]. cbn [forallb] in B. apply andb_true_iff in B as [B1 B2]. unfold bf_member in B1. rewrite !andb_true_iff in B1. destruct B1 as [[O1 O2] B1]. cbn [snd] in H.
    destruct cs as [|c cs]; [destruct bf, k; constructor|]. destruct bf as [bf|], k as [|k]; cbn [pick_els]; auto; [|eapply el_in_weak; [now apply H|lia|lia]]. destruct (i_expr c); constructor; [|constructor]. unfold el_in, isize in *. cbn [el_off el_ty]. lia.
Qed.

(** ** When the image exists *)
Definition narrow (e : elem) : Prop := match el_bf e with Some (_, w) => w < 64 | None => True end.
Lemma clean_narrow t : forall i off, shaped t i = true -> clean t i = true -> Forall narrow (elements t i off).
Proof.
  induction t as [t|b n IH|id sz al ms IH|id sz al ms IH] using ity_ind'; intros i off SH CL.
  - cbn [elements]. destruct (i_expr i); constructor; [exact I|constructor].
  - rewrite elements_arr. cbn [shaped clean] in *. apply andb_true_iff in SH as [_ SH]. revert SH CL. generalize (i_kids i). intros cs. revert off n. induction cs as [|c cs IHc]; intros off [|n] SH CL; cbn [arr_els]; try constructor. cbn [forallb] in SH, CL. apply andb_true_iff in SH as [S1 S2]. apply andb_true_iff in CL as [C1 C2]. apply Forall_app. split; [now apply IH|now apply IHc].
  - rewrite elements_struct. rewrite shaped_struct in SH. destruct (i_expr i) as [e|]; [constructor; [exact I|constructor]|]. cbn [clean] in CL. revert SH CL. generalize (i_kids i). clear i. induction IH as [|[[mo bf] mt] ms H _ IHm]; intros cs SH CL; [constructor|].
    destruct cs as [|c cs]; [destruct bf; constructor|]. cbn [shaped_list] in SH. apply andb_true_iff in SH as [S1 S2]. cbn [snd] in H. destruct bf as [[o w]|]; cbn [mems_els]; apply Forall_app; split.
    + destruct (i_expr c); constructor; [|constructor]. unfold narrow. cbn [el_bf]. apply andb_true_iff in CL as [CL _]. lia.
    + destruct (i_expr c); [apply andb_true_iff in CL as [_ CL]; now apply IHm|]. clear - CL. revert cs CL. induction ms as [|[[mo' bf'] mt'] ms IH]; intros [|c cs] CL; try (destruct bf'; constructor); try constructor. cbn [forallb] in CL. apply andb_true_iff in CL as [C1 C2]. destruct bf'; cbn [mems_els]; apply Forall_app; split; auto; [destruct (blank_inv c C1) as (-> & _); constructor|rewrite blank_elements by exact C1; constructor].
    + apply andb_true_iff in CL as [C1 _]. now apply H.
    + apply andb_true_iff in CL as [_ C2]. now apply IHm.
  - rewrite elements_union. rewrite shaped_union in SH. apply andb_true_iff in SH as [SH _]. cbn [clean] in CL. destruct (i_mem i) as [k|]; [|constructor]. revert SH CL. generalize (i_kids i). clear i. revert k. induction IH as [|[[mo bf] mt] ms H _ IHm]; intros k cs SH CL; [constructor|].
    destruct cs as [|c cs]; [destruct bf, k; constructor|]. cbn [shaped_list] in SH. apply andb_true_iff in SH as [S1 S2]. cbn [snd] in H. destruct bf as [bf|], k as [|k]; cbn [pick_els]; try discriminate CL; auto.
Qed.
Lemma write_els_some l : forall g, Forall el_ok l -> Forall narrow l -> Forall (fun e => scalar (el_ty e) = true) l -> (forall e, In e l -> exists v lab, el_value e = EOk v lab) -> exists g', write_els l g = Some g'.
Proof.
  induction l as [|e l IH]; intros g OK NA SC EV; [now exists g|]. inversion OK as [|? ? O1 O2]; subst. inversion NA as [|? ? N1 N2]; subst. inversion SC as [|? ? C1 C2]; subst. cbn [write_els].
  assert (W: exists g1, write_el g e = Some g1).
  { destruct (EV e (or_introl eq_refl)) as (v & lab & V). pose proof (scalar_sz _ C1) as OS. pose proof (scalar_nofloat _ C1) as NF. unfold write_el, el_value, el_ok, narrow, write_buf, read_buf in *. destruct (el_bf e) as [[o w]|].
    - rewrite OS, V. cbn [bf_fits] in O1. destruct (int_repr (el_ty e)) as [[s n]|]; [|discriminate O1]. assert (SZ: size_of (el_ty e) <= 8) by (unfold ok_size in OS; lia). replace ((0 <=? w) && (w <? 64) && (0 <=? o) && (o <? 64)) with true by lia. destruct (size_of (el_ty e) =? 1); eauto.
    - rewrite NF, V, OS. destruct lab; eauto. }
  destruct W as (g1 & W). rewrite W. apply IH; auto. intros e' I. apply EV. now right.
Qed.
(** ** From bits to values *)
Lemma load_of_bits buf off n v : (forall p, 8 * off <= p < 8 * off + 8 * Z.of_nat n -> bit buf p = Z.testbit v (p - 8 * off)) -> le_load buf off n = v mod 2 ^ (8 * Z.of_nat n).
Proof.
  intros H. change (le_load buf off n) with (get buf off n). apply Z.bits_inj'. intros j J. rewrite testbit_mod_pow2 by lia. destruct (Z.ltb_spec j (8 * Z.of_nat n)); cbn [andb].
  - rewrite get_bit by lia. rewrite H by lia. f_equal. lia.
  - assert (B: 0 <= get buf off n < 2 ^ (8 * Z.of_nat n)).
    { clear. revert off. induction n as [|n IH]; intros off; [cbn; lia|]. cbn [get]. specialize (IH (off + 1)). pose proof (Z.mod_pos_bound (buf off) 256 ltac:(lia)). replace (8 * Z.of_nat (S n)) with (8 + 8 * Z.of_nat n) by lia. rewrite Z.pow_add_r by lia. change (2 ^ 8) with 256. lia. }
    destruct (Z.eq_dec (get buf off n) 0) as [E|E]; [rewrite E; apply Z.bits_0|]. apply Z.bits_above_log2; [lia|]. apply Z.log2_lt_pow2; [lia|]. eapply Z.lt_le_trans; [apply B|]. apply Z.pow_le_mono_r; lia.
Qed.
Lemma of_bytes_conv t v : scalar t = true -> t <> TBool -> of_bytes t (v mod 2 ^ (8 * size_of t)) = conv t v.
Proof.
  intros SC NB. destruct t as [| |[]|[]|[]|[]| | | | | | | | | |]; try discriminate SC; try congruence; cbn [of_bytes conv int_repr negb size_of]; change (8 * 1) with 8; change (8 * 2) with 16; change (8 * 4) with 32; change (8 * 8) with 64; f_equal; try (apply Zmod_mod); apply sx_mod; lia.
Qed.
