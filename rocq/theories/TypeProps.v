(** Properties C27, C28, C29 and C59. *)
From Verif Require Import Base TypeModel TypeSpec TypeProofs.
From Coq Require Import Sorting.Permutation.

(** ** C27 *)
(** For every pair of arithmetic types, the common type is that of C11 6.3.1.8
    (an enumerated type being as good as int). *)
Theorem C27_usual_arithmetic_conversions t1 t2 :
  is_numeric t1 = true -> is_numeric t2 = true ->
  same_arith (get_common_type t1 t2) (c11_common t1 t2).
Proof. exact (common_c11 t1 t2). Qed.
Print Assumptions C27_usual_arithmetic_conversions.
Theorem C27_common_symmetric t1 t2 :
  is_numeric t1 = true -> is_numeric t2 = true ->
  same_arith (get_common_type t1 t2) (get_common_type t2 t1).
Proof. exact (common_sym t1 t2). Qed.
Print Assumptions C27_common_symmetric.
(** It is no narrower than either operand; a signed one holds all their values. *)
Theorem C27_common_keeps_values t1 t2 :
  is_integer t1 = true -> is_integer t2 = true ->
  let t := get_common_type t1 t2 in
  is_integer t = true /\ size_of t1 <= size_of t /\ size_of t2 <= size_of t /\ 4 <= size_of t /\
  (signed t = true -> min_of t <= min_of t1 /\ max_of t1 <= max_of t /\ min_of t <= min_of t2 /\ max_of t2 <= max_of t) /\
  max_of t1 <= max_of t /\ max_of t2 <= max_of t.
Proof. exact (common_keeps t1 t2). Qed.
Print Assumptions C27_common_keeps_values.
Example C27_nonvacuous :
  get_common_type (TShort true) (TChar false) = TInt false /\ get_common_type (TInt true) (TLong false) = TLong false /\
  get_common_type (TLong false) (TLong true) = TLong true /\ c11_common (TInt true) TEnum = TInt true.
Proof. vm_compute. auto. Qed.

(** ** C28 *)
(** Two type objects are compatible iff they stand for the same type: same kind
    and signedness, same array length, same parameters and variadicity, whatever
    chain of typedef copies leads to them. (The bound N only says that the model's
    recursion terminates.) *)
Theorem C28_compatible_iff_same_type h t1 t2 c1 c2 :
  denotes h t1 c1 -> denotes h t2 c2 ->
  exists N b, (forall f, (N <= f)%nat -> is_compatible f h t1 t2 = Some b) /\ (b = true <-> c1 = c2).
Proof. intros D1 D2. exact (compat_verdict h t1 c1 D1 t2 c2 D2). Qed.
Print Assumptions C28_compatible_iff_same_type.

Theorem C28_compatible_equivalence h :
  (forall t c, denotes h t c -> exists N, forall f, (N <= f)%nat -> is_compatible f h t t = Some true) /\
  (forall t1 t2 c1 c2 b, denotes h t1 c1 -> denotes h t2 c2 ->
     (exists N, forall f, (N <= f)%nat -> is_compatible f h t1 t2 = Some b) ->
     (exists N, forall f, (N <= f)%nat -> is_compatible f h t2 t1 = Some b)) /\
  (forall t1 t2 t3 c1 c2 c3, denotes h t1 c1 -> denotes h t2 c2 -> denotes h t3 c3 ->
     (exists N, forall f, (N <= f)%nat -> is_compatible f h t1 t2 = Some true) ->
     (exists N, forall f, (N <= f)%nat -> is_compatible f h t2 t3 = Some true) ->
     (exists N, forall f, (N <= f)%nat -> is_compatible f h t1 t3 = Some true)).
Proof.
  assert (V: forall t1 t2 c1 c2 b, denotes h t1 c1 -> denotes h t2 c2 ->
     (exists N, forall f, (N <= f)%nat -> is_compatible f h t1 t2 = Some b) -> (b = true <-> c1 = c2)).
  { intros t1 t2 c1 c2 b D1 D2 [N H]. destruct (compat_verdict h t1 c1 D1 t2 c2 D2) as (M & b' & H' & B).
    specialize (H (N + M)%nat ltac:(lia)). specialize (H' (N + M)%nat ltac:(lia)).
    assert (b = b') by congruence. now subst. }
  split; [|split].
  - intros t c D. destruct (compat_verdict h t c D t c D) as (M & b & H & B). exists M.
    assert (b = true) by now apply B. now subst.
  - intros t1 t2 c1 c2 b D1 D2 E. pose proof (V _ _ _ _ _ D1 D2 E) as B.
    destruct (compat_verdict h t2 c2 D2 t1 c1 D1) as (M & b' & H & B'). exists M.
    replace b with b'; [exact H|]. apply Bool.eq_iff_eq_true. rewrite B, B'. split; congruence.
  - intros t1 t2 t3 c1 c2 c3 D1 D2 D3 E1 E2.
    pose proof (proj1 (V _ _ _ _ _ D1 D2 E1) eq_refl). pose proof (proj1 (V _ _ _ _ _ D2 D3 E2) eq_refl).
    destruct (compat_verdict h t1 c1 D1 t3 c3 D3) as (M & b' & H1 & B'). exists M.
    assert (b' = true) by (apply B'; congruence). now subst.
Qed.
Print Assumptions C28_compatible_equivalence.

(** int f(char, ...) through a typedef copy, and the same type built again *)
Definition ex_heap : heap := fun n =>
  match n with
  | 0%nat => TObj KInt false None 0 0 0 [] false
  | 1%nat => TObj KChar false None 0 0 0 [] false
  | 2%nat => TObj KFunc false None 0 0 0 [1%nat] true
  | 3%nat => TObj KFunc false (Some 2%nat) 0 0 0 [1%nat] true
  | 4%nat => TObj KChar false (Some 1%nat) 0 0 0 [] false
  | 5%nat => TObj KFunc false None 0 0 0 [4%nat] true
  | 6%nat => TObj KFunc false None 0 0 0 [0%nat] true
  | 7%nat => TObj KArr false None 0 (-1) 0 [] false
  | 8%nat => TObj KArr false None 0 3 0 [] false
  | 9%nat => TObj KEnum false None 0 0 0 [] false
  | _ => TObj KVoid false None 0 0 0 [] false
  end.
Example C28_nonvacuous :
  denotes ex_heap 3 (CFunc (CInteger KInt false) [CInteger KChar false] true) /\
  is_compatible 9 ex_heap 3 5 = Some true /\ is_compatible 9 ex_heap 3 6 = Some false.
Proof.
  split; [|vm_compute; auto].
  apply dn_copy with 2%nat; [reflexivity|].
  apply (dn_func ex_heap 2); try reflexivity.
  - apply dn_int; cbn; auto.
  - repeat constructor.
Qed.

(** C11 6.7.6.2p6: `int[]` is compatible with `int[3]`; here it is not. *)
Theorem C28_incomplete_array_refuted :
  exists h t1 t2, k_kind (h t1) = KArr /\ k_kind (h t2) = KArr /\ k_base (h t1) = k_base (h t2) /\ k_len (h t1) < 0 /\
    forall f, is_compatible (S (S f)) h t1 t2 = Some false.
Proof. exists ex_heap, 7%nat, 8%nat. repeat split. Qed.
Print Assumptions C28_incomplete_array_refuted.
(** C11 6.7.2.2p4: an enumerated type is compatible with an integer type. Here it
    is compatible with none of them. *)
Theorem C28_enum_refuted :
  exists h t1, k_kind (h t1) = KEnum /\ forall t2 f, k_origin (h t2) = None ->
    k_kind (h t2) = KChar \/ k_kind (h t2) = KShort \/ k_kind (h t2) = KInt \/ k_kind (h t2) = KLong ->
    is_compatible (S f) h t1 t2 = Some false.
Proof.
  exists ex_heap, 9%nat. split; [reflexivity|]. intros t2 f O K. cbn [is_compatible].
  destruct (Nat.eqb_spec 9 t2) as [<-|NE].
  - exfalso. cbn in K. intuition discriminate.
  - rewrite O. cbn. destruct K as [K|[K|[K|K]]]; rewrite K; reflexivity.
Qed.
Print Assumptions C28_enum_refuted.

(** ** C29 *)
(** A non-empty sequence of type specifier words is accepted, with type [t], iff it
    is a permutation of a row of the table of C11 6.7.2p2 for [t]. *)
Theorem C29_specifiers ws t :
  ws <> [] -> (occurrences SSigned ws <= 1)%nat -> (occurrences SUnsigned ws <= 1)%nat ->
  (declspec ws = Some t <-> exists s, In (s, t) c11_specifiers /\ Permutation ws s).
Proof.
  intros NE O1 O2. split; [exact (specifiers_sound ws t NE O1 O2)|].
  intros (s & I & P). exact (specifiers_complete ws s t I P).
Qed.
Print Assumptions C29_specifiers.
Example C29_nonvacuous :
  declspec [SLong; SUnsigned; SInt; SLong] = Some (TLong true) /\ declspec [SDouble; SLong] = Some TLDouble /\
  declspec [SLong; SFloat] = None /\ declspec [SSigned; SUnsigned] = None.
Proof. vm_compute. auto. Qed.
(** Repeating `signed` is accepted, and no word at all means int. *)
Theorem C29_repeated_sign_refuted :
  declspec [SSigned; SSigned] = Some (TInt false) /\ declspec [] = Some (TInt false) /\
  forall s t, In (s, t) c11_specifiers -> ~ Permutation [SSigned; SSigned] s /\ ~ Permutation [] s.
Proof.
  split; [reflexivity|]. split; [reflexivity|]. intros s t I. split; intros P.
  - assert (C: forallb (fun '(s, _) => negb (if in_dec specs_dec s (perms [SSigned; SSigned]) then true else false)) c11_specifiers = true)
      by (vm_compute; reflexivity).
    rewrite forallb_forall in C. specialize (C _ I). cbn beta iota in C.
    destruct (in_dec specs_dec s (perms [SSigned; SSigned])) as [|N]; [discriminate|].
    apply N, perms_complete, Permutation_sym, P.
  - apply Permutation_nil in P. subst. cbn in I. repeat (destruct I as [I|I]; [discriminate|]). destruct I.
Qed.
Print Assumptions C29_repeated_sign_refuted.

(** ** C59 *)
(** [l] are the associations, [l'] the same with the types they stand for. *)
Theorem C59_generic_selection {A} h t1 c1 (l : list (option nat * A)) l' :
  denotes h t1 c1 -> Forall2 (named h) l l' ->
  exists N, forall f, (N <= f)%nat -> exists r, generic_selection f h t1 l = Some r /\
    match r with
    | Some a => selected c1 l' a /\ (well_formed_generic l' -> forall b, selected c1 l' b -> b = a)
    | None => forall a, ~ selected c1 l' a
    end.
Proof.
  intros D F. destruct (generic_selects h t1 c1 l l' D F) as [N H]. exists N. intros f Hf.
  destruct (H f Hf) as (r & R & C). exists r. split; auto. destruct r; auto. split; auto.
  intros W b Sb. exact (selected_unique c1 l' b a W Sb C).
Qed.
Print Assumptions C59_generic_selection.
Example C59_nonvacuous :
  generic_selection 9 ex_heap 4 [(Some 0%nat, 10); (None, 11); (Some 1%nat, 12)] = Some (Some 12) /\
  generic_selection 9 ex_heap 9 [(Some 0%nat, 10); (None, 11); (Some 1%nat, 12)] = Some (Some 11) /\
  generic_selection 9 ex_heap 9 [(Some 0%nat, 10)] = Some None.
Proof. vm_compute. auto. Qed.
