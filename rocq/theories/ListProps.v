(** C66: initializers. The parser gives every part of the object the expression that C11
    6.7.9 gives it: braces and elided braces, designators, strings, unions; findings. *)
From Verif Require Import Base TypeModel IntArith NodeModel InitModel ListModel ListSpec ListProofs.
From Coq Require Import ZifyBool ZifyNat.
Local Notation length := List.length.

(** Of every part of the object, the initializer holds the last expression C11 assigns to
    it, and of every union the member last assigned; what follows is left. *)
Theorem C66_parts_partial : forall v t ws rest, fits t v = true -> assigns v t = Some ws ->
  exists f0 c, (forall fuel, (f0 <= fuel)%nat -> initializer fuel t (ini_toks v ++ rest) = LOk (c, rest)) /\ holds t c ws.
Proof.
  intros v t ws rest F H. destruct (initializer_ok v t ws rest F H) as [f0 P]. exists f0, (A t ws). split; [exact P|]. apply A_holds. apply (assigns_facts v t ws H).
Qed.
Print Assumptions C66_parts_partial.
(** The parts are parts of the object, and something is assigned. *)
Theorem C66_inside : forall v t ws, assigns v t = Some ws -> ws <> [] /\ forall p e, In (p, e) ws -> exists s, sub t p = Some s.
Proof.
  intros v t ws H. destruct (assigns_facts v t ws H) as [N F]. split; [exact N|]. intros p e IN. rewrite Forall_forall in F. specialize (F _ IN). cbn in F. destruct (sub t p); [eauto|congruence].
Qed.
Print Assumptions C66_inside.

Definition tint : nty := NScal (TInt false).
Definition tchar : nty := NScal (TChar false).
Definition num (n : Z) : node := NNum (TInt false) n.
Definition n_ (x : string) : option bytes := Some (bs x).
Definition arr2_3 : nty := NArr (NArr tint 2) 3.
(** struct { int a; struct { int b; char s[4]; } x[2]; union { int i; long l; } u; int z; } *)
Definition inner : nty := NStruct 2 8 4 (MCons (n_ "b") 0 None tint (MCons (n_ "s") 4 None (NArr tchar 4) MNil)).
Definition uni : nty := NUnion 3 8 8 (MCons (n_ "i") 0 None tint (MCons (n_ "l") 0 None (NScal (TLong false)) MNil)).
Definition outer : nty := NStruct 1 40 8 (MCons (n_ "a") 0 None tint (MCons (n_ "x") 4 None (NArr inner 2) (MCons (n_ "u") 24 None uni (MCons (n_ "z") 32 None tint MNil)))).
Fixpoint lst (l : list (list dsg * ini)) : items := match l with [] => INil | (ds, v) :: l => ICons ds v (lst l) end.
Definition fd (x : string) : dsg := DFd (bs x).
Definition abc : ini := VSt 1 [97; 98; 99; 0] NNull.
(** { 1, 2, "abc", .x[1] = { 5 }, { .l = 7 }, 8, .a = 9, } *)
Definition ex_list : ini := VBr (lst [([], VEx (num 1)); ([], VEx (num 2)); ([], abc); ([fd "x"; DIx 1], VBr (lst [([], VEx (num 5))]) false); ([], VBr (lst [([fd "l"], VEx (num 7))]) false);
  ([], VEx (num 8)); ([fd "a"], VEx (num 9))]) true.
Example C66_example : exists c,
  assigns ex_list outer = Some [([0], num 1); ([1; 0; 0], num 2); ([1; 0; 1; 0], num 97); ([1; 0; 1; 1], num 98); ([1; 0; 1; 2], num 99); ([1; 0; 1; 3], num 0);
    ([1; 1; 0], num 5); ([2; 1], num 7); ([3], num 8); ([0], num 9)]%nat /\
  initializer 100 outer (ini_toks ex_list ++ [KOther]) = LOk (c, [KOther]) /\
  option_map i_expr (part c [0]%nat) = Some (Some (num 9)) /\ option_map i_mem (part c [2]%nat) = Some (Some 1%nat) /\ option_map i_expr (part c [1; 1; 1; 0]%nat) = Some None.
Proof. eexists. split; [vm_compute; reflexivity|]. split; [vm_compute; reflexivity|]. repeat split. Qed.
Example C66_elided : assigns (VBr (lst [([], VEx (num 1)); ([], VEx (num 2)); ([], VEx (num 3)); ([DIx 2; DIx 1], VEx (num 4))]) false) arr2_3 =
  Some [([0; 0], num 1); ([0; 1], num 2); ([1; 0], num 3); ([2; 1], num 4)]%nat.
Proof. reflexivity. Qed.

(** *** Ranges (an extension): [a ... z] = v gives v to each of the elements, and nothing to others *)
Theorem C66_range_partial : forall a z b n v ws rest, fits b v = true -> assigns v b = Some ws -> 0 <= a <= z -> z < Z.min (Z.of_nat n) (2 ^ 31) ->
  exists f0 c, (forall fuel, (f0 <= fuel)%nat -> initializer fuel (NArr b n) (KLb :: KRange a z :: KEq :: ini_toks v ++ KRb :: rest) = LOk (c, rest)) /\
    forall i, (i < n)%nat -> exists d, part c [i] = Some d /\ holds b d (if (a <=? Z.of_nat i) && (Z.of_nat i <=? z) then ws else []).
Proof.
  intros a z b n v ws rest F H L1 L2. destruct (initializer_ok v b ws (KRb :: rest) F H) as [f0 P].
  assert (KN : forall i, nth_error (repeat (blank b) n) i = if (i <? n)%nat then Some (blank b) else None). { clear. induction n as [|n IH]; intros [|i]; cbn [repeat nth_error]; try reflexivity. rewrite IH. reflexivity. }
  destruct (each_same (fun k => if i_expr k then LOk (A b ws, KRb :: rest) else LOk (A b ws, KRb :: rest)) (A b ws) (KRb :: rest) (S (Z.to_nat z) - Z.to_nat a) (Init None None (repeat (blank b) n)) (Z.to_nat a) (KEq :: ini_toks v ++ KRb :: rest) ) as (q & E & X1 & X2 & K).
  { intros j Hj. exists (blank b). cbn [i_kids]. rewrite KN. replace (j <? n)%nat with true by lia. split; [reflexivity|]. destruct (i_expr (blank b)); reflexivity. }
  exists (4 + f0)%nat, q. split.
  - intros fuel Hf. destruct fuel as [|[|[|fuel]]]; try lia. unfold initializer. cbn [init2 blank]. cbn [arr1 consume_end].
    unfold array_desig. rewrite !sx32 by lia. replace (Z.of_nat n <=? a) with false by lia. replace (Z.of_nat n <=? z) with false by lia. replace (z <? a) with false by lia. replace (a <? 0) with false by lia.
    destruct (each_same (fun k => desig (S fuel) b k (KEq :: ini_toks v ++ KRb :: rest)) (A b ws) (KRb :: rest) (S (Z.to_nat z) - Z.to_nat a) (Init None None (repeat (blank b) n)) (Z.to_nat a) (KEq :: ini_toks v ++ KRb :: rest) ) as (q' & E' & X1' & X2' & K').
    { intros j Hj. exists (blank b). cbn [i_kids]. rewrite KN. replace (j <? n)%nat with true by lia. split; [reflexivity|]. cbn [desig]. apply P. lia. }
    rewrite E'. replace (S (Z.to_nat z) - Z.to_nat a =? 0)%nat with false by lia. cbn [arr1 consume_end]. do 2 f_equal. destruct q as [e m cs], q' as [e' m' cs']. cbn [i_expr i_mem i_kids] in *. subst. f_equal.
    clear - K K'. assert (Q : forall j, nth_error cs' j = nth_error cs j) by (intros j; now rewrite K, K'). clear K K'. revert cs Q. induction cs' as [|x l IH]; intros [|y m] Q; [reflexivity|discriminate (Q 0%nat)|discriminate (Q 0%nat)|]. pose proof (Q 0%nat) as Q0. cbn in Q0. injection Q0 as ->. f_equal. apply IH. intros j. exact (Q (S j)).
  - intros i Hi. cbn [part]. rewrite K. cbn [i_kids]. rewrite KN. replace (i <? n)%nat with true by lia.
    replace ((Z.to_nat a <=? i) && (i <? Z.to_nat a + (S (Z.to_nat z) - Z.to_nat a)))%nat with ((a <=? Z.of_nat i) && (Z.of_nat i <=? z)) by lia.
    destruct ((a <=? Z.of_nat i) && (Z.of_nat i <=? z)); eexists; (split; [reflexivity|]); [apply A_holds; apply (assigns_facts v b ws H)|]. change (blank b) with (A b []). apply A_holds. constructor.
Qed.
Print Assumptions C66_range_partial.
Example C66_range_nonvacuous : assigns (VBr (lst [([], VEx (num 1)); ([], VEx (num 2))]) false) (NArr tint 3) = Some [([0%nat], num 1); ([1%nat], num 2)] /\
  exists c, initializer 100 (NArr (NArr tint 3) 5) (KLb :: KRange 1 3 :: KEq :: ini_toks (VBr (lst [([], VEx (num 1)); ([], VEx (num 2))]) false) ++ [KRb]) = LOk (c, []) /\
    option_map i_expr (part c [3; 1]%nat) = Some (Some (num 2)) /\ option_map i_expr (part c [4; 1]%nat) = Some None.
Proof. split; [reflexivity|]. eexists. split; [vm_compute; reflexivity|]. split; reflexivity. Qed.

(** *** Findings: valid initializers that are rejected, crash the compiler or are misread *)
Definition pair_ : nty := NStruct 4 8 4 (MCons (n_ "a") 0 None tint (MCons (n_ "b") 4 None tint MNil)).
Definition wrap : nty := NStruct 5 12 4 (MCons (n_ "x") 0 None pair_ (MCons (n_ "y") 8 None tint MNil)).
Definition rejected (t : nty) (v : ini) : Prop := forall fuel, initializer (20 + fuel) t (ini_toks v ++ [KOther]) = LErr.
Definition crashes (t : nty) (v : ini) : Prop := forall fuel, initializer (20 + fuel) t (ini_toks v ++ [KOther]) = LUb.
(** struct { struct { int a, b; } x; int y; } = { .x.a = 1, .x.b = 2 } and = { .x.a = 1, 2 } *)
Theorem C66_nested_refuted : rejected wrap (VBr (lst [([fd "x"; fd "a"], VEx (num 1)); ([fd "x"; fd "b"], VEx (num 2))]) false) /\
  rejected wrap (VBr (lst [([fd "x"; fd "a"], VEx (num 1)); ([], VEx (num 2))]) false).
Proof. split; intros fuel; reflexivity. Qed.
(** struct { struct { int a, b; }; int y; } = { .a = 1, .y = 2 } is rejected;
    struct { union { int i; long l; }; int y; } = { .y = 2 } and
    struct { int : 3; int y; } = { .y = 2 } crash the compiler *)
Theorem C66_anonymous_refuted :
  rejected (NStruct 6 12 4 (MCons None 0 None pair_ (MCons (n_ "y") 8 None tint MNil))) (VBr (lst [([fd "a"], VEx (num 1)); ([fd "y"], VEx (num 2))]) false) /\
  crashes (NStruct 7 16 8 (MCons None 0 None uni (MCons (n_ "y") 8 None tint MNil))) (VBr (lst [([fd "y"], VEx (num 2))]) false) /\
  crashes (NStruct 8 8 4 (MCons None 0 (Some (0, 3)) tint (MCons (n_ "y") 4 None tint MNil))) (VBr (lst [([fd "y"], VEx (num 2))]) false).
Proof. repeat split; intros fuel; reflexivity. Qed.
(** The value meant for y in struct { int : 3; int y; } = { 2 } goes to the unnamed
    bit-field *)
Theorem C66_unnamed_refuted : exists c, initializer 20 (NStruct 8 8 4 (MCons None 0 (Some (0, 3)) tint (MCons (n_ "y") 4 None tint MNil))) (ini_toks (VBr (lst [([], VEx (num 2))]) false)) = LOk (c, []) /\
  option_map i_expr (part c [0]%nat) = Some (Some (num 2)) /\ option_map i_expr (part c [1]%nat) = Some None.
Proof. eexists. split; [vm_compute; reflexivity|]. split; reflexivity. Qed.
(** char *p[2][1] = { "a", "b" } and struct { char s[1][4]; } x = { "abc" } reach unreachable();
    char s[4] = { "abc" } makes the address of the string the first element *)
Theorem C66_string_refuted : crashes (NArr (NArr (NScal (TPtr (TChar false))) 1) 2) (VBr (lst [([], VSt 1 [97; 0] NNull); ([], VSt 1 [98; 0] NNull)]) false) /\
  crashes (NStruct 9 4 1 (MCons (n_ "s") 0 None (NArr (NArr tchar 4) 1) MNil)) (VBr (lst [([], abc)]) false) /\
  exists c, initializer 20 (NArr tchar 4) (ini_toks (VBr (lst [([], abc)]) false)) = LOk (c, []) /\ option_map i_expr (part c [0]%nat) = Some (Some NNull) /\ option_map i_expr (part c [1]%nat) = Some None.
Proof. split; [intros fuel; reflexivity|]. split; [intros fuel; reflexivity|]. eexists. split; [vm_compute; reflexivity|]. split; reflexivity. Qed.
(** union U u = w, w another such union: w is taken for the value of the first member, as is
    the union in struct { union U u; int y; } = { w, 2 } *)
Definition w : node := NVar (VLocal 1) (TUnion 3 8 8).
Theorem C66_union_expression_refuted : exists c, initializer 20 uni (ini_toks (VEx w)) = LOk (c, []) /\ i_expr c = None /\ option_map i_expr (part c [0]%nat) = Some (Some w).
Proof. eexists. split; [vm_compute; reflexivity|]. split; reflexivity. Qed.
(** { .x = { 1, 2 }, .x = { 3 } } leaves the 2 of the first .x *)
Theorem C66_override_refuted : exists c, initializer 20 wrap (ini_toks (VBr (lst [([fd "x"], VBr (lst [([], VEx (num 1)); ([], VEx (num 2))]) false); ([fd "x"], VBr (lst [([], VEx (num 3))]) false)]) false)) = LOk (c, []) /\
  option_map i_expr (part c [0; 0]%nat) = Some (Some (num 3)) /\ option_map i_expr (part c [0; 1]%nat) = Some (Some (num 2)).
Proof. eexists. split; [vm_compute; reflexivity|]. split; reflexivity. Qed.
(** int i = { 1, }; union U u = { .l = 7, } *)
Theorem C66_trailing_refuted : rejected tint (VBr (lst [([], VEx (num 1))]) true) /\ rejected uni (VBr (lst [([fd "l"], VEx (num 7))]) true).
Proof. split; intros fuel; reflexivity. Qed.
(** union U u = { .i = 1, .l = 2 } *)
Theorem C66_union_twice_refuted : rejected uni (VBr (lst [([fd "i"], VEx (num 1)); ([fd "l"], VEx (num 2))]) false).
Proof. intros fuel; reflexivity. Qed.
(** int a[2] = { [-1] = 0 } is accepted, and the initializer before the first is changed *)
Theorem C66_negative_refuted : crashes (NArr tint 2) (VBr (lst [([DIx (-1)], VEx (num 0))]) false).
Proof. intros fuel; reflexivity. Qed.

(** *** Arrays without a size *)
(** The length is the least that takes all elements assigned, and the rest is as above. *)
Theorem C66_unsized_partial : forall l trail b n ws rest, assigns (VBr l trail) (NArr b n) = Some ws -> Z.of_nat n = top ws ->
  exists f0 c, (forall fuel, (f0 <= fuel)%nat -> unsized fuel b (ini_toks (VBr l trail) ++ rest) = LOk (Z.of_nat n, c, rest)) /\ holds (NArr b n) c ws.
Proof.
  intros l tr b n ws rest H N. destruct (unsized_ok l tr b n ws rest H N) as [f0 P]. exists f0, (A (NArr b n) ws). split; [exact P|]. apply A_holds. apply (assigns_facts _ _ ws H).
Qed.
Print Assumptions C66_unsized_partial.
(** char s[] = "abc": the terminating 0 is an element *)
Theorem C66_unsized_string : forall k vs e b ws rest, assigns (VSt k vs e) (NArr b (length vs)) = Some ws ->
  exists f0 c, (forall fuel, (f0 <= fuel)%nat -> unsized fuel b (ini_toks (VSt k vs e) ++ rest) = LOk (Z.of_nat (length vs), c, rest)) /\ holds (NArr b (length vs)) c ws.
Proof.
  intros k vs e b ws rest H. destruct (unsized_string_ok k vs e b ws rest H) as [f0 P]. exists f0, (A (NArr b (length vs)) ws). split; [exact P|]. apply A_holds. apply (assigns_facts _ _ ws H).
Qed.
Print Assumptions C66_unsized_string.
(** struct { int a, b; } x[] = { { 1 }, 2, 3, [3].b = 4, [1] = 6, } has four elements *)
Definition ex_unsized : items := lst [([], VBr (lst [([], VEx (num 1))]) false); ([], VEx (num 2)); ([], VEx (num 3)); ([DIx 3; fd "b"], VEx (num 4)); ([DIx 1], VEx (num 6))].
Example C66_unsized_example : exists ws, assigns (VBr ex_unsized true) (NArr pair_ 4) = Some ws /\ top ws = 4.
Proof. eexists. split; vm_compute; reflexivity. Qed.
