(** Proofs about argument passing. *)
From Verif Require Import Base TypeModel LayoutModel LayoutProofs NodeModel GenModel FrameModel FrameSpec.
From Coq Require Import ZifyBool ZifyNat.
Local Notation length := List.length.
Local Arguments Z.mul : simpl never.
Local Arguments Z.add : simpl never.
Local Arguments Z.sub : simpl never.

(** the stack words of the parameters, in their order *)
Fixpoint stack_words (i : nat) (ks : list akind) (b : list bool) : list aword :=
  match ks, b with
  | k :: ks, b0 :: b => (if is_big k then words i (word_count k) else if b0 then [AW i 0] else []) ++ stack_words (S i) ks b
  | _, _ => []
  end.

Lemma no_big ks : forall i b, existsb is_big ks = false -> length b = length ks ->
  (forall j k, nth_error ks j = Some k -> nth_error b j = Some true -> k = KInt \/ k = KFlt) ->
  stack_words i ks b = pushed_in true i ks b /\ copies i ks = [].
Proof.
  induction ks as [|k ks IH]; intros i b NB L T; destruct b as [|b0 b]; try discriminate; [auto|]. cbn [existsb] in NB. apply orb_false_iff in NB as [N1 N2].
  destruct (IH (S i) b N2 ltac:(cbn in L; lia) (fun j => T (S j))) as [A B]. cbn [stack_words pushed_in copies]. rewrite N1, A. split.
  - destruct b0; cbn [Bool.eqb]; [|reflexivity]. destruct (T 0%nat k eq_refl eq_refl) as [-> | ->]; reflexivity.
  - destruct k; try exact B. unfold is_big in N1. apply negb_false_iff in N1. rewrite N1. exact B.
Qed.
Lemma no_stack ks : forall i b, length b = length ks -> (forall x, In x b -> x = false) ->
  stack_words i ks b = copies i ks /\ pushed_in true i ks b = [].
Proof.
  induction ks as [|k ks IH]; intros i b L F; destruct b as [|b0 b]; try discriminate; [auto|].
  destruct (IH (S i) b ltac:(cbn in L; lia) (fun x H => F x (or_intror H))) as [A B]. cbn [stack_words pushed_in copies]. rewrite (F b0 (or_introl eq_refl)), A, B. split; [|reflexivity].
  destruct k; try reflexivity. cbn [is_big word_count]. destruct (Nat.leb n 2); reflexivity.
Qed.
Lemma by_stack_length ks : forall v g f, length (by_stack v g f ks) = length ks.
Proof.
  induction ks as [|k ks IH]; intros v g f; [reflexivity|]. cbn [by_stack].
  repeat match goal with |- context [match ?x with _ => _ end] => destruct x end; cbn [List.length]; now rewrite IH.
Qed.
Lemma by_stack_scalar ks : forall g f j k, nth_error ks j = Some k -> nth_error (by_stack (length ks) g f ks) j = Some true -> k = KInt \/ k = KFlt.
Proof.
  induction ks as [|k0 ks IH]; intros g f j k N B; [destruct j; discriminate|]. cbn [List.length by_stack] in B. destruct j as [|j].
  - injection N as ->. destruct k; auto; discriminate B.
  - cbn [nth_error] in N. destruct k0; repeat match type of B with context [if ?x then _ else _] => destruct x end; cbn [nth_error] in B; eapply IH; eauto.
Qed.
Lemma by_stack_few ks : forall g f, (g + regs_used f ks <= 8)%nat -> small_fit g f ks = true -> forall x, In x (by_stack (length ks) g f ks) -> x = false.
Proof.
  induction ks as [|k ks IH]; intros g f U SF x I; [destruct I|]. cbn [List.length by_stack regs_used small_fit] in *.
  destruct k as [| | |n].
  - destruct (Nat.ltb g max_regs) eqn:G; [|unfold max_regs in G; lia]. destruct I as [<-|I]; [reflexivity|]. apply (IH (g + 1)%nat f); auto; lia.
  - change max_regs with 8%nat in I. destruct (Nat.ltb f 8) eqn:F; [destruct I as [<-|I]; [reflexivity|]; now apply (IH g (f + 1)%nat)|].
    destruct (Nat.ltb g 8) eqn:G; [|lia]. destruct I as [<-|I]; [reflexivity|]. apply (IH (g + 1)%nat f); auto; lia.
  - apply andb_prop in SF as [S1 S2]. destruct I as [<-|I]; [reflexivity|]. change max_regs with 8%nat in I. replace (Nat.min (g + 2) (Nat.max g 8)) with (g + 2)%nat in I by lia. apply (IH (g + 2)%nat f); auto; lia.
  - change max_regs with 8%nat in I. destruct I as [<-|I]; [reflexivity|]. destruct (Nat.leb n 2) eqn:N.
    + apply andb_prop in SF as [S1 S2]. replace (Nat.min (g + n) (Nat.max g 8)) with (g + n)%nat in I by lia. apply (IH (g + n)%nat f); auto; lia.
    + apply andb_prop in SF as [S1 S2]. rewrite S1 in I. apply (IH (g + 1)%nat f); auto; lia.
Qed.

(** offsets of the parameters on the stack *)
Lemma stack_off top c o : 16 + 8 * (c - 1) < top <= 16 + 8 * c -> 0 <= c -> align_to top 8 = Some o -> o = 16 + 8 * c.
Proof. intros H C A. apply align_to_spec in A as [A (k & ->)]; lia. Qed.
Definition agg_words (t : ty) : nat := Z.to_nat ((size_of t + 7) / 8).
Lemma agg_words_quot t sz : 0 <= size_of t -> align_to (size_of t) 8 = Some sz -> Z.to_nat (sz / 8) = agg_words t.
Proof.
  intros P A. apply align_to_spec in A as [A (k & ->)]; [|lia|lia]. unfold agg_words. f_equal. rewrite Z.div_mul by lia.
  apply Z.div_unique with (size_of t + 7 - 8 * k); lia.
Qed.

(** What the caller does with one argument: register words are popped in order *)
Lemma pop_words n i : forall j g st, (g + n <= 8)%nat -> exists l, pop_n n g (map (AW i) (seq j n) ++ st) = (l, (g + n)%nat, st) /\ forall x, (x < n)%nat -> In (GReg (g + x), AW i (j + x)) l.
Proof.
  induction n as [|n IH]; intros j g st L; [exists []; rewrite Nat.add_0_r; split; [reflexivity|intros x X; lia]|].
  cbn [pop_n seq map app]. destruct (Nat.ltb g max_regs) eqn:G; [|unfold max_regs in G; lia]. destruct (IH (S j) (g + 1)%nat st ltac:(lia)) as (l & E & I).
  rewrite E. exists ((GReg g, AW i j) :: l). split; [f_equal; f_equal; lia|]. intros x X. destruct x as [|x]; [left; f_equal; [f_equal|f_equal]; lia|]. right.
  replace (g + S x)%nat with (g + 1 + x)%nat by lia. replace (j + S x)%nat with (S j + x)%nat by lia. apply I. lia.
Qed.
Lemma pop_full n g st : (8 <= g)%nat -> pop_n n g st = ([], g, st).
Proof. intros G. destruct n; [reflexivity|]. cbn [pop_n]. destruct (Nat.ltb g max_regs) eqn:E; [unfold max_regs in E; lia|reflexivity]. Qed.

(** ** The two sides agree *)
Definition found (regs : list (areg * aword)) (stack : list aword) (i : nat) (takes : list (list aloc)) : Prop :=
  forall a locs j l, nth_error takes a = Some locs -> nth_error locs j = Some l ->
  match l with
  | InReg r => In (r, AW (i + a) j) regs
  | OnStack o => exists p, o = 8 * Z.of_nat p /\ nth_error stack p = Some (AW (i + a) j)
  end.
Lemma found_cons regs stack i locs takes :
  (forall j l, nth_error locs j = Some l -> match l with InReg r => In (r, AW i j) regs | OnStack o => exists p, o = 8 * Z.of_nat p /\ nth_error stack p = Some (AW i j) end) ->
  found regs stack (S i) takes -> found regs stack i (locs :: takes).
Proof.
  intros H F a l j x N M. destruct a as [|a]; [injection N as <-; rewrite Nat.add_0_r; now apply H|]. replace (i + S a)%nat with (S i + a)%nat by lia. now apply (F a l j x).
Qed.
Lemma found_incl regs regs' stack i takes : incl regs regs' -> found regs stack i takes -> found regs' stack i takes.
Proof. intros I F a locs j l N M. specialize (F a locs j l N M). destruct l; [now apply I|exact F]. Qed.
Lemma kind_cases t : (is_struct_union t = true /\ akind_of t = KAgg (agg_words t)) \/ (is_struct_union t = false /\ is_float_arg t = true /\ akind_of t = KFlt) \/
  t = TLDouble \/ (is_struct_union t = false /\ is_float_arg t = false /\ akind_of t = KInt /\ forall X (a b : X), match t with TLDouble => a | _ => b end = b).
Proof. destruct t; try (left; split; reflexivity); try (right; left; repeat split; reflexivity); try (right; right; left; reflexivity); right; right; right; repeat split; reflexivity. Qed.
Lemma small_fit_full ks : forall g g' f, (8 <= g)%nat -> (8 <= g')%nat -> small_fit g f ks = small_fit g' f ks.
Proof.
  induction ks as [|k ks IH]; intros g g' f G G'; [reflexivity|]. cbn [small_fit]. destruct k as [| | |n].
  - apply IH; lia.
  - destruct (Nat.ltb f 8); apply IH; lia.
  - replace (Nat.leb (g + 2) 8) with false by lia. replace (Nat.leb (g' + 2) 8) with false by lia. reflexivity.
  - destruct (Nat.leb n 2).
    + destruct (Nat.leb 1 n) eqn:N; [|reflexivity]. replace (Nat.leb (g + n) 8) with false by lia. replace (Nat.leb (g' + n) 8) with false by lia. reflexivity.
    + replace (Nat.ltb g 8) with false by lia. replace (Nat.ltb g' 8) with false by lia. reflexivity.
Qed.

Lemma on_stack_words i n pre l stack o : stack = pre ++ words i n ++ l -> o = 16 + 8 * Z.of_nat (length pre) ->
  forall j x, nth_error (map (fun k => OnStack (o - 16 + 8 * Z.of_nat k)) (seq 0 n)) j = Some x ->
  match x with InReg r => False | OnStack o' => exists p, o' = 8 * Z.of_nat p /\ nth_error stack p = Some (AW i j) end.
Proof.
  intros -> -> j x N. assert (J: (j < n)%nat). { assert (j < length (map (fun k => OnStack (16 + 8 * Z.of_nat (length pre) - 16 + 8 * Z.of_nat k)) (seq 0 n)))%nat by (apply nth_error_Some; congruence). rewrite map_length, seq_length in H. exact H. }
  rewrite nth_error_map in N. rewrite (nth_error_nth' (seq 0 n) 0%nat) in N by (rewrite seq_length; lia). rewrite seq_nth in N by lia. injection N as <-.
  exists (length pre + j)%nat. split; [lia|]. rewrite nth_error_app2 by lia. replace (length pre + j - length pre)%nat with j by lia.
  rewrite nth_error_app1 by (unfold words; rewrite map_length, seq_length; lia). unfold words. rewrite nth_error_map, (nth_error_nth' (seq 0 n) 0%nat) by (rewrite seq_length; lia). rewrite seq_nth by lia. reflexivity.
Qed.

Lemma agree_gen ps : forall i g f top po top' st stack pre,
  Forall param_ok ps -> small_fit g f (map akind_of ps) = true -> (g <= 8)%nat ->
  param_offsets top g f ps = Some (po, top') -> 16 + 8 * (Z.of_nat (length pre) - 1) < top <= 16 + 8 * Z.of_nat (length pre) ->
  stack = pre ++ stack_words i (map akind_of ps) (by_stack (length ps) g f (map akind_of ps)) ->
  exists regs, pop_args (length ps) g f (map akind_of ps) (pushed_in false i (map akind_of ps) (by_stack (length ps) g f (map akind_of ps)) ++ st) = (regs, st) /\
    found regs stack i (taken g f (combine ps po)) /\ takes_all (taken g f (combine ps po)) ps.
Proof.
  induction ps as [|t ps IH]; intros i g f top po top' st stack pre PO SF G8 OFF TOP ST.
  { injection OFF as <- <-. exists []. split; [reflexivity|]. split; [intros a; destruct a; discriminate|constructor]. }
  inversion PO as [|? ? P1 PO2]; subst x l. cbn [map List.length by_stack param_offsets small_fit] in *.
  destruct (kind_cases t) as [(SU & K)|[(SU & FL & K)|[->|(SU & FL & K & M)]]].
  - (* struct *)
    unfold param_ok in P1. rewrite K in *. rewrite SU in OFF. cbn [stack_words is_big word_count] in ST. cbn [pushed_in Bool.eqb].
    destruct (align_to (size_of t) 8) as [sz|] eqn:AL; [|discriminate]. rewrite (agg_words_quot t sz P1 AL) in OFF. set (n := agg_words t) in *.
    assert (NS: n = Z.to_nat ((size_of t + 7) / 8)) by reflexivity. change max_regs with 8%nat in *.
    destruct (Nat.leb n 2) eqn:N2.
    + apply andb_prop in SF as [S1 SF]. apply andb_prop in S1 as [S0 S1]. rewrite S1 in OFF. replace (Nat.min (g + n) (Nat.max g 8)) with (g + n)%nat in * by lia.
      destruct (param_offsets top (g + n) f ps) as [[l tp]|] eqn:O2; [|discriminate]. injection OFF as <- <-. cbn [negb app] in ST.
      destruct (IH (S i) (g + n)%nat f top l tp st stack pre PO2 SF ltac:(lia) O2 TOP ST) as (regs & R1 & R2 & R3).
      cbn [pop_args pushed]. rewrite N2. destruct (pop_words n i 0%nat g (pushed_in false (S i) (map akind_of ps) (by_stack (length ps) (g + n) f (map akind_of ps)) ++ st) ltac:(lia)) as (lr & E & I).
      unfold words. rewrite <- app_assoc, E, R1. exists (lr ++ regs). split; [reflexivity|]. cbn [combine taken]. change (0 <? 0) with false. cbv iota. rewrite SU.
      assert (NN: (if (8 <? size_of t)%Z then g + 2 else g + 1)%nat = (g + n)%nat /\ length (if (8 <? size_of t)%Z then [InReg (GReg g); InReg (GReg (g + 1))] else [InReg (GReg g)]) = n).
      { rewrite NS in *. clear - S0 N2 P1. destruct (8 <? size_of t) eqn:E8; cbn [List.length].
        - assert (2 <= (size_of t + 7) / 8) by (apply Z.div_le_lower_bound; lia). lia.
        - assert ((size_of t + 7) / 8 < 2) by (apply Z.div_lt_upper_bound; lia). lia. }
      destruct NN as [NN NL]. rewrite NN. split.
      * apply found_cons; [|eapply found_incl; [|exact R2]; apply incl_appr, incl_refl]. intros j x N. assert (J: (j < n)%nat) by (rewrite <- NL; apply nth_error_Some; congruence).
        assert (x = InReg (GReg (g + j))) as ->. { revert N. destruct (8 <? size_of t); destruct j as [|[|j]]; cbn [nth_error]; intros N; try (injection N as <-); rewrite ?Nat.add_0_r; try reflexivity; try (destruct j; discriminate); discriminate. }
        apply in_or_app. left. exact (I j J).
      * constructor; [rewrite K; cbn [word_count]; exact NL|exact R3].
    + apply andb_prop in SF as [S1 SF]. rewrite S1 in *. destruct (align_to top 8) as [o|] eqn:AO; [|discriminate]. apply (stack_off top (Z.of_nat (length pre))) in AO; [|lia|lia].
      destruct (chk (o + size_of t)) as [tp1|] eqn:CK; [|discriminate]. apply chk_some in CK as [-> _]. destruct (param_offsets (o + size_of t) (g + 1) f ps) as [[l tp]|] eqn:O2; [|discriminate]. injection OFF as <- <-.
      cbn [negb] in ST. pose proof ST as ST'. rewrite app_assoc in ST.
      assert (SZ: 8 * (Z.of_nat n - 1) < size_of t <= 8 * Z.of_nat n).
      { rewrite NS in *. clear - N2 P1. pose proof (Z.div_mod (size_of t + 7) 8 ltac:(lia)). pose proof (Z.mod_pos_bound (size_of t + 7) 8 ltac:(lia)). lia. }
      destruct (IH (S i) (g + 1)%nat f (o + size_of t) l tp st stack (pre ++ words i n) PO2 SF ltac:(lia) O2) as (regs & R1 & R2 & R3); [rewrite app_length; unfold words; rewrite map_length, seq_length; lia|exact ST|].
      cbn [pop_args pushed]. rewrite N2. cbn [app pop_n]. change max_regs with 8%nat. rewrite S1, R1. eexists. split; [reflexivity|]. cbn [combine taken]. replace (0 <? o) with true by lia. change max_regs with 8%nat. rewrite S1.
      split; [|constructor; [rewrite K, map_length, seq_length; exact (eq_sym NS)|exact R3]].
      apply found_cons; [|eapply found_incl; [|exact R2]; apply incl_appr, incl_refl]. intros j x N. rewrite <- NS in N. pose proof (on_stack_words i n pre _ stack o ST' ltac:(lia) j x N) as Q. destruct x; [destruct Q|exact Q].
  - (* float, double *)
    unfold param_ok in P1. rewrite K in *. rewrite SU, FL in OFF. cbn [pop_args]. change max_regs with 8%nat in *. destruct (Nat.ltb f 8) eqn:F8.
    + destruct (param_offsets top g (f + 1) ps) as [[l tp]|] eqn:O2; [|discriminate]. injection OFF as <- <-. cbn [stack_words is_big app] in ST.
      destruct (IH (S i) g (f + 1)%nat top l tp st stack pre PO2 SF G8 O2 TOP ST) as (regs & R1 & R2 & R3). cbn [pushed_in Bool.eqb pushed app]. change (words i 1) with [AW i 0]. cbn [app]. rewrite R1.
      eexists. split; [reflexivity|]. cbn [combine taken]. change (0 <? 0) with false. change max_regs with 8%nat. rewrite SU, FL, F8. cbn [andb]. split; [|constructor; [rewrite K; reflexivity|exact R3]].
      apply found_cons; [|eapply found_incl; [|exact R2]; apply incl_tl, incl_refl]. intros j x N. destruct j as [|j]; [injection N as <-; now left|destruct j; discriminate].
    + destruct (Nat.ltb g 8) eqn:G.
      * destruct (param_offsets top (g + 1) f ps) as [[l tp]|] eqn:O2; [|discriminate]. injection OFF as <- <-. cbn [stack_words is_big app] in ST.
        destruct (IH (S i) (g + 1)%nat f top l tp st stack pre PO2 SF ltac:(lia) O2 TOP ST) as (regs & R1 & R2 & R3). cbn [pushed_in Bool.eqb pushed app]. change (words i 1) with [AW i 0]. cbn [app pop_n]. change max_regs with 8%nat. rewrite G, R1.
        eexists. split; [reflexivity|]. cbn [combine taken]. change (0 <? 0) with false. change max_regs with 8%nat. rewrite SU, FL, F8. cbn [andb].
        replace (match t with TLDouble => if Nat.ltb (g + 1) 8 then [InReg (GReg g); InReg (GReg (g + 1))] :: taken (g + 2) f (combine ps l) else [] :: taken g f (combine ps l) | _ => if Nat.ltb g 8 then [InReg (GReg g)] :: taken (g + 1) f (combine ps l) else [] :: taken g f (combine ps l) end)
          with ([InReg (GReg g)] :: taken (g + 1) f (combine ps l)) by (rewrite G; destruct t; try reflexivity; discriminate FL).
        split; [|constructor; [rewrite K; reflexivity|exact R3]].
        apply found_cons; [|eapply found_incl; [|exact R2]; apply incl_tl, incl_refl]. intros j x N. destruct j as [|j]; [injection N as <-; now left|destruct j; discriminate].
      * rewrite (small_fit_full _ (g + 1)%nat g f ltac:(lia) ltac:(lia)) in SF. destruct (align_to top 8) as [o|] eqn:AO; [|discriminate]. apply (stack_off top (Z.of_nat (length pre))) in AO; [|lia|lia].
        destruct (chk (o + size_of t)) as [tp1|] eqn:CK; [|discriminate]. apply chk_some in CK as [-> _]. destruct (param_offsets (o + size_of t) g f ps) as [[l tp]|] eqn:O2; [|discriminate]. injection OFF as <- <-.
        cbn [stack_words is_big] in ST. pose proof ST as ST'. rewrite app_assoc in ST. destruct (IH (S i) g f (o + size_of t) l tp st stack (pre ++ [AW i 0]) PO2 SF G8 O2) as (regs & R1 & R2 & R3); [rewrite app_length; cbn [List.length]; lia|exact ST|].
        cbn [pushed_in Bool.eqb app]. rewrite pop_full by lia. rewrite R1. eexists. split; [reflexivity|]. cbn [combine taken app]. replace (0 <? o) with true by lia. change max_regs with 8%nat. rewrite G.
        replace (Z.to_nat ((size_of t + 7) / 8)) with 1%nat. 2:{ assert ((size_of t + 7) / 8 = 1) by (symmetry; apply Z.div_unique with (size_of t - 1); lia). lia. }
        split; [|constructor; [rewrite K; reflexivity|exact R3]]. apply found_cons; [|exact R2]. intros j x N. pose proof (on_stack_words i 1 pre _ stack o ST' ltac:(lia) j x N) as Q. destruct x; [destruct Q|exact Q].
  - (* long double *)
    cbn [akind_of is_struct_union is_float_arg] in *. apply andb_prop in SF as [S1 SF]. change max_regs with 8%nat in *. rewrite S1 in OFF. replace (Nat.min (g + 2) (Nat.max g 8)) with (g + 2)%nat in * by lia.
    destruct (param_offsets top (g + 2) f ps) as [[l tp]|] eqn:O2; [|discriminate]. injection OFF as <- <-. cbn [stack_words is_big app] in ST.
    destruct (IH (S i) (g + 2)%nat f top l tp st stack pre PO2 SF ltac:(lia) O2 TOP ST) as (regs & R1 & R2 & R3).
    cbn [pop_args pushed_in Bool.eqb pushed]. destruct (pop_words 2 i 0%nat g (pushed_in false (S i) (map akind_of ps) (by_stack (length ps) (g + 2) f (map akind_of ps)) ++ st) ltac:(lia)) as (lr & E & I).
    unfold words. rewrite <- app_assoc, E, R1. exists (lr ++ regs). split; [reflexivity|]. cbn [combine taken is_struct_union is_float_arg andb]. change (0 <? 0) with false. cbv iota. change max_regs with 8%nat. replace (Nat.ltb (g + 1) 8) with true by lia.
    split; [|constructor; [reflexivity|exact R3]]. apply found_cons; [|eapply found_incl; [|exact R2]; apply incl_appr, incl_refl]. intros j x N.
    destruct j as [|[|j]]; [| |destruct j; discriminate]; injection N as <-; apply in_or_app; left; [pose proof (I 0%nat ltac:(lia)) as Q; rewrite Nat.add_0_r in Q; exact Q|exact (I 1%nat ltac:(lia))].
  - (* integers and pointers *)
    unfold param_ok in P1. rewrite K in *. rewrite SU, FL, M in OFF. cbn [pop_args]. change max_regs with 8%nat in *. destruct (Nat.ltb g 8) eqn:G.
      * destruct (param_offsets top (g + 1) f ps) as [[l tp]|] eqn:O2; [|discriminate]. injection OFF as <- <-. cbn [stack_words is_big app] in ST.
        destruct (IH (S i) (g + 1)%nat f top l tp st stack pre PO2 SF ltac:(lia) O2 TOP ST) as (regs & R1 & R2 & R3). cbn [pushed_in Bool.eqb pushed app]. change (words i 1) with [AW i 0]. cbn [app pop_n]. change max_regs with 8%nat. rewrite G, R1.
        eexists. split; [reflexivity|]. cbn [combine taken]. change (0 <? 0) with false. change max_regs with 8%nat. rewrite SU, FL, M, G. cbn [andb].
        split; [|constructor; [rewrite K; reflexivity|exact R3]].
        apply found_cons; [|eapply found_incl; [|exact R2]; apply incl_tl, incl_refl]. intros j x N. destruct j as [|j]; [injection N as <-; now left|destruct j; discriminate].
      * rewrite (small_fit_full _ (g + 1)%nat g f ltac:(lia) ltac:(lia)) in SF. destruct (align_to top 8) as [o|] eqn:AO; [|discriminate]. apply (stack_off top (Z.of_nat (length pre))) in AO; [|lia|lia].
        destruct (chk (o + size_of t)) as [tp1|] eqn:CK; [|discriminate]. apply chk_some in CK as [-> _]. destruct (param_offsets (o + size_of t) g f ps) as [[l tp]|] eqn:O2; [|discriminate]. injection OFF as <- <-.
        cbn [stack_words is_big] in ST. pose proof ST as ST'. rewrite app_assoc in ST. destruct (IH (S i) g f (o + size_of t) l tp st stack (pre ++ [AW i 0]) PO2 SF G8 O2) as (regs & R1 & R2 & R3); [rewrite app_length; cbn [List.length]; lia|exact ST|].
        cbn [pushed_in Bool.eqb app]. rewrite pop_full by lia. rewrite R1. eexists. split; [reflexivity|]. cbn [combine taken app]. replace (0 <? o) with true by lia. change max_regs with 8%nat. rewrite G.
        replace (Z.to_nat ((size_of t + 7) / 8)) with 1%nat. 2:{ assert ((size_of t + 7) / 8 = 1) by (symmetry; apply Z.div_unique with (size_of t - 1); lia). lia. }
        split; [|constructor; [rewrite K; reflexivity|exact R3]]. apply found_cons; [|exact R2]. intros j x N. pose proof (on_stack_words i 1 pre _ stack o ST' ltac:(lia) j x N) as Q. destruct x; [destruct Q|exact Q].
Qed.

Theorem args_agree ps po top : Forall param_ok ps -> covered (map akind_of ps) = true -> param_offsets 16 0 0 ps = Some (po, top) ->
  agrees (at_call (length ps) (map akind_of ps)) (taken 0 0 (combine ps po)) /\ takes_all (taken 0 0 (combine ps po)) ps.
Proof.
  intros PO C O. unfold covered in C. apply andb_prop in C as [SF C]. set (b := by_stack (length ps) 0 0 (map akind_of ps)).
  assert (ST: stack_words 0 (map akind_of ps) b = pushed_in true 0 (map akind_of ps) b ++ copies 0 (map akind_of ps)).
  { unfold b. apply orb_prop in C as [C|C].
    - apply negb_true_iff in C. destruct (no_big (map akind_of ps) 0 (by_stack (length ps) 0 0 (map akind_of ps)) C) as [H1 H2]; [apply by_stack_length| |rewrite H2, app_nil_r; exact H1].
      rewrite <- (map_length akind_of ps). apply by_stack_scalar.
    - destruct (no_stack (map akind_of ps) 0 (by_stack (length ps) 0 0 (map akind_of ps)) (by_stack_length _ _ _ _)) as [H1 H2]; [|rewrite H2; exact H1].
      rewrite <- (map_length akind_of ps). apply by_stack_few; [lia|exact SF]. }
  destruct (agree_gen ps 0 0 0 16 po top (pushed_in true 0 (map akind_of ps) b ++ copies 0 (map akind_of ps)) _ [] PO SF ltac:(lia) O ltac:(cbn; lia) eq_refl) as (regs & R1 & R2 & R3).
  unfold at_call, call_stack. fold b. rewrite <- ?app_assoc in *. fold b in R1. rewrite R1. split; [|exact R3]. fold b in R2. cbn [app] in R2. rewrite ST in R2. exact R2.
Qed.

(** ** Variadic functions *)
Lemma va_args va : forall g f i st, Forall scalar_kind va -> (g <= 8)%nat ->
  exists regs, pop_args 0 g f va (pushed_in false i va (by_stack 0 g f va) ++ st) = (regs, st) /\
    (forall k, (k < length va)%nat -> (k < 8 - g)%nat -> In (GReg (g + k), AW (i + k) 0) regs) /\
    forall k, (k < length va)%nat -> (8 - g <= k)%nat -> nth_error (pushed_in true i va (by_stack 0 g f va)) (k - (8 - g)) = Some (AW (i + k) 0).
Proof.
  induction va as [|k va IH]; intros g f i st SC G; [exists []; split; [reflexivity|]; split; intros k K; cbn in K; lia|]. inversion SC as [|? ? S1 SC2]; subst x l.
  assert (KE: pushed i k = [AW i 0] /\ forall X (a b : X), match k with KLd => a | _ => b end = b) by (destruct S1 as [-> | ->]; split; reflexivity). destruct KE as [KE KM].
  cbn [by_stack pop_args]. rewrite KM. change max_regs with 8%nat. destruct (Nat.ltb g 8) eqn:G8.
  - cbn [pushed_in Bool.eqb app]. rewrite KE. cbn [app pop_n]. change max_regs with 8%nat. rewrite G8. destruct (IH (g + 1)%nat f (S i) st SC2 ltac:(lia)) as (regs & R1 & R2 & R3). rewrite R1. eexists. split; [reflexivity|]. split.
    + intros x L X. destruct x as [|x]; [left; f_equal; f_equal; lia|right]. replace (g + S x)%nat with (g + 1 + x)%nat by lia. replace (i + S x)%nat with (S i + x)%nat by lia. cbn in L. apply R2; lia.
    + intros x L X. cbn in L. destruct x as [|x]; [lia|]. replace (i + S x)%nat with (S i + x)%nat by lia. replace (S x - (8 - g))%nat with (x - (8 - (g + 1)))%nat by lia. apply R3; lia.
  - cbn [pushed_in Bool.eqb app]. rewrite KE, pop_full by lia. destruct (IH g f (S i) st SC2 G) as (regs & R1 & R2 & R3). rewrite R1. eexists. split; [reflexivity|]. split; [intros; lia|].
    intros x L X. cbn in L. replace (8 - g)%nat with 0%nat in * by lia. rewrite Nat.sub_0_r. destruct x as [|x]; [cbn [app nth_error]; f_equal; f_equal; lia|].
    cbn [app nth_error]. replace (i + S x)%nat with (S i + x)%nat by lia. specialize (R3 x ltac:(lia) ltac:(lia)). rewrite Nat.sub_0_r in R3. exact R3.
Qed.
(** [n]: parameters on the stack *)
Lemma fixed_args va ps : Forall scalar_kind va -> Forall param_ok ps -> Forall scalar_kind (map akind_of ps) -> forall g f i top po top' st c, (g <= 8)%nat ->
  param_offsets top g f ps = Some (po, top') -> 0 <= c -> 16 + 8 * (c - 1) < top <= 16 + 8 * c ->
  exists regs n, let b := by_stack (length ps) g f (map akind_of ps ++ va) in
    pop_args (length ps) g f (map akind_of ps ++ va) (pushed_in false i (map akind_of ps ++ va) b ++ st) = (regs, st) /\
    16 + 8 * (c + Z.of_nat n - 1) < top' <= 16 + 8 * (c + Z.of_nat n) /\
    (taken_g g f (combine ps po) <= 8)%nat /\ (g + va_gp f ps = taken_g g f (combine ps po) + n)%nat /\ (0 < n -> taken_g g f (combine ps po) = 8)%nat /\
    (forall k, (k < length va)%nat -> (k < 8 - taken_g g f (combine ps po))%nat -> In (GReg (taken_g g f (combine ps po) + k), AW (i + length ps + k) 0) regs) /\
    forall k, (k < length va)%nat -> (8 - taken_g g f (combine ps po) <= k)%nat -> nth_error (pushed_in true i (map akind_of ps ++ va) b) (n + (k - (8 - taken_g g f (combine ps po)))) = Some (AW (i + length ps + k) 0).
Proof.
  intros SV. induction ps as [|t ps IH]; intros PO SC g f i top po top' st c G O C T.
  { injection O as <- <-. destruct (va_args va g f i st SV G) as (regs & R1 & R2 & R3). exists regs, 0%nat. cbn [map app List.length combine taken_g va_gp Nat.add]. split; [exact R1|]. split; [lia|]. split; [exact G|]. split; [lia|]. split; [lia|]. rewrite !Nat.add_0_r. split; [exact R2|exact R3]. }
  inversion PO as [|? ? P1 PO2]; subst x l. cbn [map] in SC. inversion SC as [|? ? S1 SC2]; subst x l. specialize (IH PO2 SC2). cbn [map List.length by_stack param_offsets app] in *.
  destruct (kind_cases t) as [(SU & K)|[(SU & FL & K)|[->|(SU & FL & K & M)]]].
  - rewrite K in S1. destruct S1; discriminate.
  - rewrite SU, FL in O. unfold param_ok in P1. rewrite K in *. cbn [pop_args va_gp]. rewrite FL. change max_regs with 8%nat in *. destruct (Nat.ltb f 8) eqn:F8.
    + destruct (param_offsets top g (f + 1) ps) as [[l tp]|] eqn:O2; [|discriminate]. injection O as <- <-. destruct (IH g (f + 1)%nat (S i) top l tp st c G O2 C T) as (regs & n & R1 & R2 & R3 & R4 & R5 & R6 & R7).
      cbn [pushed_in Bool.eqb pushed app combine taken_g]. change (words i 1) with [AW i 0]. cbn [app]. rewrite R1. change (0 <? 0) with false. change max_regs with 8%nat. rewrite SU, FL, F8. cbn [andb].
      do 2 eexists. split; [reflexivity|]. split; [exact R2|]. split; [exact R3|]. split; [exact R4|]. split; [exact R5|]. replace (i + S (length ps))%nat with (S i + length ps)%nat by lia. split; [intros k K1 K2; right; now apply R6|exact R7].
    + destruct (Nat.ltb g 8) eqn:G8.
      * destruct (param_offsets top (g + 1) f ps) as [[l tp]|] eqn:O2; [|discriminate]. injection O as <- <-. destruct (IH (g + 1)%nat f (S i) top l tp st c ltac:(lia) O2 C T) as (regs & n & R1 & R2 & R3 & R4 & R5 & R6 & R7).
        cbn [pushed_in Bool.eqb pushed app combine taken_g]. change (words i 1) with [AW i 0]. cbn [app pop_n]. change max_regs with 8%nat. rewrite G8, R1. change (0 <? 0) with false. rewrite SU, FL, F8. cbn [andb].
        replace (match t with TLDouble => if Nat.ltb (g + 1) 8 then taken_g (g + 2) f (combine ps l) else taken_g g f (combine ps l) | _ => taken_g (g + 1) f (combine ps l) end) with (taken_g (g + 1) f (combine ps l)) by (destruct t; try reflexivity; discriminate FL).
        do 2 eexists. split; [reflexivity|]. split; [exact R2|]. split; [exact R3|]. split; [lia|]. split; [exact R5|]. replace (i + S (length ps))%nat with (S i + length ps)%nat by lia. split; [intros k K1 K2; right; now apply R6|exact R7].
      * destruct (align_to top 8) as [o|] eqn:AO; [|discriminate]. apply (stack_off top c) in AO; [|lia|lia]. destruct (chk (o + size_of t)) as [tp1|] eqn:CK; [|discriminate]. apply chk_some in CK as [-> _].
        destruct (param_offsets (o + size_of t) g f ps) as [[l tp]|] eqn:O2; [|discriminate]. injection O as <- <-. destruct (IH g f (S i) (o + size_of t) l tp st (c + 1) G O2 ltac:(lia) ltac:(lia)) as (regs & n & R1 & R2 & R3 & R4 & R5 & R6 & R7).
        cbn [pushed_in Bool.eqb pushed app combine taken_g]. rewrite pop_full by lia. rewrite R1. replace (0 <? o) with true by lia. change max_regs with 8%nat. rewrite G8. change (words i 1) with [AW i 0].
        assert (TG: (taken_g g f (combine ps l) = 8)%nat). { destruct n; [|apply R5; lia]. clear - R3 R4 G8. assert (g <= taken_g g f (combine ps l))%nat by lia. lia. }
        exists regs, (S n). split; [reflexivity|]. split; [lia|]. split; [exact R3|]. split; [lia|]. split; [intros _; exact TG|]. replace (i + S (length ps))%nat with (S i + length ps)%nat by lia. split; [exact R6|]. exact R7.
  - cbn in S1. destruct S1; discriminate.
  - rewrite SU, FL, M in O. unfold param_ok in P1. rewrite K in *. cbn [pop_args va_gp]. rewrite FL. change max_regs with 8%nat in *. destruct (Nat.ltb g 8) eqn:G8.
      * destruct (param_offsets top (g + 1) f ps) as [[l tp]|] eqn:O2; [|discriminate]. injection O as <- <-. destruct (IH (g + 1)%nat f (S i) top l tp st c ltac:(lia) O2 C T) as (regs & n & R1 & R2 & R3 & R4 & R5 & R6 & R7).
        cbn [pushed_in Bool.eqb pushed app combine taken_g]. change (words i 1) with [AW i 0]. cbn [app pop_n]. change max_regs with 8%nat. rewrite G8, R1. change (0 <? 0) with false. rewrite SU, FL, M. cbn [andb].
        do 2 eexists. split; [reflexivity|]. split; [exact R2|]. split; [exact R3|]. split; [lia|]. split; [exact R5|]. replace (i + S (length ps))%nat with (S i + length ps)%nat by lia. split; [intros k K1 K2; right; now apply R6|exact R7].
      * destruct (align_to top 8) as [o|] eqn:AO; [|discriminate]. apply (stack_off top c) in AO; [|lia|lia]. destruct (chk (o + size_of t)) as [tp1|] eqn:CK; [|discriminate]. apply chk_some in CK as [-> _].
        destruct (param_offsets (o + size_of t) g f ps) as [[l tp]|] eqn:O2; [|discriminate]. injection O as <- <-. destruct (IH g f (S i) (o + size_of t) l tp st (c + 1) G O2 ltac:(lia) ltac:(lia)) as (regs & n & R1 & R2 & R3 & R4 & R5 & R6 & R7).
        cbn [pushed_in Bool.eqb pushed app combine taken_g]. rewrite pop_full by lia. rewrite R1. replace (0 <? o) with true by lia. change max_regs with 8%nat. rewrite G8. change (words i 1) with [AW i 0].
        assert (TG: (taken_g g f (combine ps l) = 8)%nat). { destruct n; [|apply R5; lia]. clear - R3 R4 G8. assert (g <= taken_g g f (combine ps l))%nat by lia. lia. }
        exists regs, (S n). split; [reflexivity|]. split; [lia|]. split; [exact R3|]. split; [lia|]. split; [intros _; exact TG|]. replace (i + S (length ps))%nat with (S i + length ps)%nat by lia. split; [exact R6|]. exact R7.
Qed.
Theorem variadic_agree ps va po top off k : Forall param_ok ps -> Forall scalar_kind (map akind_of ps) -> Forall scalar_kind va ->
  param_offsets 16 0 0 ps = Some (po, top) -> align_to top 8 = Some off -> (k < length va)%nat ->
  let call := at_call (length ps) (map akind_of ps ++ va) in
  (exists r, In (GReg r, AW (length ps + k) 0) (fst call) /\ In (r, off + 8 * Z.of_nat k) (va_spill (taken_g 0 0 (combine ps po)) off)) \/
  (exists p, nth_error (snd call) p = Some (AW (length ps + k) 0) /\ 8 * Z.of_nat p + va_size ps = off - 16 + 8 * Z.of_nat k).
Proof.
  intros PO SC SV O AO K call.
  destruct (fixed_args va ps SV PO SC 0 0 0 16 po top (pushed_in true 0 (map akind_of ps ++ va) (by_stack (length ps) 0 0 (map akind_of ps ++ va)) ++ copies 0 (map akind_of ps ++ va)) 0 ltac:(lia) O ltac:(lia) ltac:(lia)) as (regs & n & R1 & R2 & R3 & R4 & R5 & R6 & R7).
  unfold call, at_call, call_stack. rewrite R1. cbn [fst snd]. apply (stack_off top (Z.of_nat n)) in AO; [|lia|lia]. set (g := taken_g 0 0 (combine ps po)) in *. destruct (Nat.ltb k (8 - g)) eqn:KG.
  - left. exists (g + k)%nat. split; [apply R6; lia|]. unfold va_spill. apply in_map_iff. exists k. split; [f_equal; lia|]. apply in_seq. unfold max_regs. lia.
  - right. exists (n + (k - (8 - g)))%nat. split; [rewrite nth_error_app1; [apply R7; lia|]; apply nth_error_Some; cbn [Nat.add] in *; rewrite (R7 k K ltac:(lia)); discriminate|].
    unfold va_size, max_regs. assert (n = 0 \/ g = 8)%nat by (destruct n; [now left|right; apply R5; lia]). lia.
Qed.
