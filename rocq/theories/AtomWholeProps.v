(** C55, the beginning: evaluating A and B brings about the situation from which the update
    starts (C55_int_partial). *)
From Verif Require Import Base TypeModel IntArith NodeModel ValSpec NodeSpec RvSpec ElabSpec GenModel GenSpec RvProofs GenBits GenRun GenProofs GenProps AtomSpec AtomModel AtomProofs.
From Coq Require Import ZifyBool ZifyNat.
Local Notation length := List.length.

Lemma acc_area (valid : Z -> bool) a n : 0 <= a -> a + n <= 2 ^ 64 -> (forall x, a <= x < a + n -> valid x = true) -> accessible valid a n = true.
Proof.
  intros H1 H2 H. unfold accessible. replace ((0 <=? a) && (a + n <=? 2 ^ 64)) with true by lia. cbn [andb]. apply forallb_forall.
  intros i Hi. apply in_seq in Hi. apply H. lia.
Qed.
Lemma conv_same t y : is_arith t = true -> val_of t y = true -> conv t y = Some y.
Proof.
  destruct t as [| |[]|[]|[]|[]| | | | | | | | | |]; try discriminate; unfold val_of, conv, in_range; cbn [int_repr negb]; intros _ H; f_equal.
  all: try (apply (sx_id 8); lia). all: try (apply (sx_id 16); lia). all: try (apply (sx_id 32); lia). all: try (apply (sx_id 64); lia). all: try (apply Z.mod_small; lia).
  destruct (Z.eqb_spec y 0); lia.
Qed.
Lemma bytes_same t y : is_arith t = true -> val_of t y = true -> of_bytes t (y mod 2 ^ (8 * size_of t)) = Some y.
Proof.
  destruct t as [| |[]|[]|[]|[]| | | | | | | | | |]; try discriminate; unfold val_of, of_bytes, in_range; cbn [int_repr negb size_of]; intros _ H.
  all: try (f_equal; rewrite Z.mod_mod by lia; apply Z.mod_small; lia).
  all: try (f_equal; match goal with |- sx ?n _ = _ => transitivity (sx n y); [apply sx_cong; [apply Z.mod_mod; lia|lia]|apply (sx_id n); lia] end).
  rewrite Z.mod_small by lia. replace (y <? 2) with true by lia. reflexivity.
Qed.
Lemma arith_size t : is_arith t = true -> 0 < size_of t <= 8. Proof. arith_cases t; cbn; lia. Qed.
Lemma same_qual t q : is_arith t = true -> 8 * size_of t <= q -> t <> TBool \/ q = 64 -> 8 * size_of t <= cast_qual t t q.
Proof. arith_cases t; cbn; intros _ H N; repeat match goal with |- context [if ?b then _ else _] => destruct b eqn:? end; cbn in *; try lia; destruct N; congruence || lia. Qed.
Lemma arith_conv_self t : is_arith t = true -> convertible t t = true. Proof. arith_cases t; reflexivity. Qed.
Lemma arith_assign k t r : is_arith t = true -> mk_assign (NVar (VLocal k) t) r = Some (NAssign (NVar (VLocal k) t) (NCast t r)).
Proof. arith_cases t; reflexivity. Qed.
Lemma arith_store valid t m a v : is_arith t = true -> accessible valid a (size_of t) = true -> store_val valid t m a v = Some (le_store m a (size_of t) v).
Proof. intros H A. unfold store_val. destruct t as [| |[]|[]|[]|[]| | | | | | | | | |]; try discriminate; cbn [int_repr]; rewrite A; reflexivity. Qed.

(** The code of A op= B, A an object that is not a member, begins with instructions which,
    executed without interference, evaluate A and then B: at their end the address [X] of A
    and the value [y] of B are in the temporaries and everything is [ready] for the update.
    What follows is the code of C55_int_partial.
    Partial: [m] to [m2] as C says ([ev]); B is taken not to change the temporary of A's
    address. *)
Theorem C55_operands_partial E W goff fp room (mine : Z -> Prop) o l r k u s code s' m X m1 y m2 q sp :
  setting E W goff fp -> (forall a i, l <> NMember a i) ->
  well_typed l = true -> well_typed r = true -> qual true l = Some 64 -> qual false r = Some q ->
  is_arith (ntype r) = true -> 8 * size_of (ntype r) <= q -> (ntype r <> TBool \/ q = 64) ->
  atomic_assign goff (o, l, r) k u s = Some (code, s') ->
  (forall i, (i < 4)%nat -> -2048 <= goff (k + i)%nat <= 2047) ->
  ForallOrdPairs apart (areas fp sp goff k (ntype r)) ->
  Forall (fun r => 0 <= fst r /\ fst r + snd r <= 2 ^ 64 /\ forall a, fst r <= a < fst r + snd r -> mine a) (areas fp sp goff k (ntype r)) ->
  (forall a, fp + goff k <= a < fp + goff k + 8 \/ fp + goff (S k) <= a < fp + goff (S k) + size_of (ntype r) -> e_valid E a = true) ->
  ev E true l m = Some (X, m1) -> 0 <= X < 2 ^ 64 ->
  ev E false r (le_store m1 (fp + goff k) 8 X) = Some (y, m2) -> val_of (ntype r) y = true ->
  (forall a, fp + goff k <= a < fp + goff k + 8 -> m2 a = le_store m1 (fp + goff k) 8 X a) ->
  exists before body s1, code = map AI before ++ body /\ atomic_rmw goff o (ntype l) (ntype r) k u s1 = Some (body, s') /\
    forall p j st lo, code_at p j before -> linked E W fp room p -> pc st = j -> matches E fp m st -> rg st Sp = sp -> free_stack E room lo st -> lo + 8 * (1 + Z.max (need l) (need r)) <= sp ->
      exists st', star W p st st' /\ pc st' = (j + length before)%nat /\ ready mine X goff k (ntype r) y fp sp (rg st') (mm st') /\
        (forall a, e_valid E a = false -> sp <= a -> mm st' a = mm st a).
Proof.
  intros HS NM WL WR QL QR AR SZ NB AA NEAR AP MI VA EL XR ER VY KEEP.
  assert (ST := arith_size _ AR).
  assert (BK : 0 <= fp + goff k /\ fp + goff k + 8 <= 2 ^ 64) by (unfold areas in MI; inversion MI as [|? ? H1 ?]; subst; cbn in H1; lia).
  assert (BV : 0 <= fp + goff (S k) /\ fp + goff (S k) + size_of (ntype r) <= 2 ^ 64) by (unfold areas in MI; inversion MI as [|? ? _ H1]; subst; inversion H1 as [|? ? H2 ?]; subst; cbn in H2; lia).
  assert (DJ : fp + goff k + 8 <= fp + goff (S k) \/ fp + goff (S k) + size_of (ntype r) <= fp + goff k) by (unfold areas in AP; inversion AP as [|? ? H1 ?]; subst; inversion H1 as [|? ? H2 ?]; subst; exact H2).
  assert (LK : e_addr E (VLocal k) = fp + goff k) by (rewrite (set_loc _ _ _ _ HS); apply Z.mod_small; lia).
  assert (LV : e_addr E (VLocal (S k)) = fp + goff (S k)) by (rewrite (set_loc _ _ _ _ HS); apply Z.mod_small; lia).
  assert (AK : accessible (e_valid E) (fp + goff k) 8 = true) by (apply acc_area; try lia; intros; apply VA; lia).
  assert (AV : accessible (e_valid E) (fp + goff (S k)) (size_of (ntype r)) = true) by (apply acc_area; try lia; intros; apply VA; lia).
  set (n1 := NAssign (NVar (VLocal k) (TPtr (ntype l))) (NCast (TPtr (ntype l)) (NAddr l))). set (n2 := NAssign (NVar (VLocal (S k)) (ntype r)) (NCast (ntype r) r)).
  assert (SP : exists c1 s1 c2 s2 body, gen goff false n1 s = Some (c1, s1) /\ gen goff false n2 s1 = Some (c2, s2) /\ atomic_rmw goff o (ntype l) (ntype r) k u s2 = Some (body, s') /\ code = map AI (c1 ++ c2) ++ body).
  { unfold atomic_assign in AA. rewrite (arith_assign (S k) _ r AR) in AA. fold n2 in AA.
    assert (AA' : (lift (gen goff false n1 ;; gen goff false n2) ;;; atomic_rmw goff o (ntype l) (ntype r) k u) s = Some (code, s')).
    { destruct l; try exact AA. destruct (NM _ _ eq_refl). }
    unfold aseq, lift, seq_ in AA'. destruct (gen goff false n1 s) as [[c1 s1]|] eqn:GE1; [|discriminate]. destruct (gen goff false n2 s1) as [[c2 s2]|] eqn:GE2; [|discriminate].
    destruct (atomic_rmw goff o (ntype l) (ntype r) k u s2) as [[body s3]|] eqn:RM; [|discriminate]. injection AA' as <- <-. exists c1, s1, c2, s2, body. split; [reflexivity|]. repeat (split; [assumption|]). reflexivity. }
  destruct SP as (c1 & s1 & c2 & s2 & body & G1 & G2 & RM & EC). exists (c1 ++ c2), body, s2. split; [exact EC|]. split; [exact RM|].
  assert (E1 : ev E false n1 m = Some (X, le_store m1 (fp + goff k) 8 X)).
  { unfold n1. cbn [ev ntype andb]. rewrite LK. replace (convertible _ (TPtr (ntype l))) with true by (destruct (ntype l); reflexivity). cbn [orb negb]. rewrite EL. cbn [conv int_repr]. rewrite Z.mod_small by lia. unfold store_val. cbn [int_repr size_of]. rewrite AK. reflexivity. }
  assert (E2 : ev E false n2 (le_store m1 (fp + goff k) 8 X) = Some (y, le_store m2 (fp + goff (S k)) (size_of (ntype r)) y)).
  { unfold n2. cbn [ev ntype andb]. rewrite LV, (arith_conv_self _ AR). cbn [orb negb]. rewrite ER, (conv_same _ _ AR VY), (arith_store _ _ _ _ _ AR AV). reflexivity. }
  assert (W1 : well_typed n1 = true) by (unfold n1; cbn; rewrite WL; reflexivity).
  assert (W2 : well_typed n2 = true). { unfold n2. cbn. rewrite WR. cbn. clear - AR. destruct (ntype r) as [| |[]|[]|[]|[]| | | | | | | | | |]; try discriminate AR; reflexivity. }
  assert (Q1 : exists q1, qual false n1 = Some q1).
  { unfold n1. cbn [qual andb orb ntype is_struct_union is_float]. rewrite QL. cbn [negb Z.eqb Pos.eqb]. eexists. match goal with |- (if ?b then _ else _) = _ => replace b with true by (destruct (ntype l); reflexivity) end. reflexivity. }
  assert (Q2 : exists q2, qual false n2 = Some q2).
  { unfold n2. cbn [qual andb orb ntype]. replace (is_float (ntype r)) with false by (clear - AR; destruct (ntype r); try discriminate AR; reflexivity). rewrite QR. cbn [negb Z.eqb Pos.eqb]. assert (SQ := same_qual _ q AR SZ NB). replace (is_struct_union (ntype r)) with false by (clear - AR; destruct (ntype r); try discriminate AR; reflexivity).
    eexists. match goal with |- (if ?b then _ else _) = _ => replace b with true by lia end. reflexivity. }
  destruct Q1 as [q1 Q1], Q2 as [q2 Q2].
  assert (C1 := C38_expression_code E W goff fp room n1 false s c1 s1 q1 m X _ HS W1 Q1 G1 E1). assert (C2 := C38_expression_code E W goff fp room n2 false s1 c2 s2 q2 _ y _ HS W2 Q2 G2 E2).
  intros p j st lo CA LN PC MT SPE FS SL. destruct CA as (pa & pb & -> & LE).
  destruct (C1 (pa ++ (c1 ++ c2) ++ pb) j st lo ltac:(exists pa, (c2 ++ pb); rewrite <- app_assoc; split; [reflexivity|exact LE]) LN PC MT FS) as (st1 & R1 & PC1 & _ & MT1 & (SP1 & AB1)). { unfold n1. cbn [need]. assert (NP := need_pos l). lia. }
  assert (FS1 : free_stack E room lo st1) by (unfold free_stack in *; rewrite SP1; exact FS).
  destruct (C2 (pa ++ (c1 ++ c2) ++ pb) (j + length c1)%nat st1 lo ltac:(exists (pa ++ c1), pb; rewrite <- !app_assoc, app_length, LE; split; reflexivity) LN PC1 MT1 FS1) as (st2 & R2 & PC2 & _ & MT2 & (SP2 & AB2)). { unfold n2. cbn [need]. assert (NP := need_pos r). lia. }
  exists st2. split; [eapply star_trans; eassumption|]. split; [rewrite app_length, PC2; lia|]. destruct MT2 as ((Z2 & RO2) & FP2 & SM2).
  split.
  - constructor; auto; try congruence.
    + rewrite (le_load_ext _ (le_store m1 (fp + goff k) 8 X)).
      * change 8%nat with (Z.to_nat 8). rewrite le_load_store by lia. apply Z.mod_small. change (2 ^ (8 * 8)) with (2 ^ 64). lia.
      * intros i Hi. rewrite SM2 by (apply VA; lia). rewrite <- KEEP by lia. unfold le_store at 1. replace ((fp + goff (S k) <=? fp + goff k + i) && (fp + goff k + i <? fp + goff (S k) + size_of (ntype r))) with false by lia. reflexivity.
    + rewrite (le_load_ext _ (le_store m2 (fp + goff (S k)) (size_of (ntype r)) y)).
      * rewrite le_load_store by lia. apply bytes_same; assumption.
      * intros i Hi. rewrite SM2 by (apply VA; lia). reflexivity.
  - intros a NV HA. rewrite AB2 by (try exact NV; lia). apply AB1; [exact NV|lia].
Qed.
Print Assumptions C55_operands_partial.

(** *p += c, p a variable of type int * at fp - 40, c one of type unsigned char at fp - 48; the
    temporaries are at fp - 8 to fp - 32 *)
Definition wx_off (i : nat) : Z := match i with 0%nat => -40 | 1%nat => -48 | 2%nat => -8 | 3%nat => -16 | 4%nat => -24 | _ => -32 end.
Definition wx_fp : Z := 4096.
Definition wx_env : env := NodeSpec.Env (fun x => match x with VLocal j => (wx_fp + wx_off j) mod 2 ^ 64 | VGlobal _ => 0 end) (fun a => (a =? 64) || (a =? 65) || (a =? 66) || (a =? 67) || (wx_fp - 48 <=? a) && (a <? wx_fp)) (fun _ _ _ _ _ => None).
Definition wx_world : world := World (fun _ => 0) (fun _ => 0) (fun _ => 0) (fun _ => None) (fun _ _ _ => None).
Definition wx_l : node := NDeref (NVar (VLocal 0) (TPtr int_t)).
Definition wx_r : node := NVar (VLocal 1) (TChar true).
Definition wx_mem : mem := le_store (le_store (fun _ => 0) (wx_fp - 40) 8 64) (wx_fp - 48) 1 200.
Definition wx_mine (a : Z) : Prop := 2048 <= a < wx_fp.
Example C55_operands_nonvacuous :
  setting wx_env wx_world wx_off wx_fp /\ well_typed wx_l = true /\ qual true wx_l = Some 64 /\ qual false wx_r = Some 64 /\
  (exists code s', atomic_assign wx_off (Add, wx_l, wx_r) 2 20 (GS 0 7) = Some (code, s')) /\
  ForallOrdPairs apart (areas wx_fp 3072 wx_off 2 (TChar true)) /\
  Forall (fun r => 0 <= fst r /\ fst r + snd r <= 2 ^ 64 /\ forall a, fst r <= a < fst r + snd r -> wx_mine a) (areas wx_fp 3072 wx_off 2 (TChar true)) /\
  (forall a, wx_fp + wx_off 2 <= a < wx_fp + wx_off 2 + 8 \/ wx_fp + wx_off 3 <= a < wx_fp + wx_off 3 + 1 -> e_valid wx_env a = true) /\
  ev wx_env true wx_l wx_mem = Some (64, wx_mem) /\
  ev wx_env false wx_r (le_store wx_mem (wx_fp + wx_off 2) 8 64) = Some (200, le_store wx_mem (wx_fp + wx_off 2) 8 64).
Proof.
  split; [constructor; [intros [j|g]; cbn; [apply Z.mod_pos_bound|]; lia|reflexivity|reflexivity]|]. split; [reflexivity|]. split; [reflexivity|]. split; [reflexivity|].
  split; [eexists; eexists; vm_compute; reflexivity|]. split; [repeat constructor; unfold apart; cbn; lia|].
  split; [unfold areas, wx_mine, wx_fp; repeat (apply Forall_cons; [split; [cbn; lia|split; [cbn; lia|intros a; cbn; lia]]|]); apply Forall_nil|].
  split; [intros a; unfold wx_env, wx_fp; cbn; lia|]. split; reflexivity.
Qed.
