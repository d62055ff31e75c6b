(** Proofs about types: usual arithmetic conversions, type specifiers,
    compatibility, _Generic. *)
From Verif Require Import Base TypeModel TypeSpec.
From Coq Require Import Sorting.Permutation.
Local Notation length := List.length.

(** ** Usual arithmetic conversions *)
Lemma common_c11 t1 t2 : is_numeric t1 = true -> is_numeric t2 = true ->
  same_arith (get_common_type t1 t2) (c11_common t1 t2).
Proof.
  unfold same_arith.
  destruct t1; cbn; try discriminate; intros _;
  destruct t2; cbn; try discriminate; intros _;
  repeat match goal with u : bool |- _ => destruct u end; vm_compute; auto.
Qed.

Lemma common_sym t1 t2 : is_numeric t1 = true -> is_numeric t2 = true ->
  same_arith (get_common_type t1 t2) (get_common_type t2 t1).
Proof.
  unfold same_arith.
  destruct t1; cbn; try discriminate; intros _;
  destruct t2; cbn; try discriminate; intros _;
  repeat match goal with u : bool |- _ => destruct u end; vm_compute; auto.
Qed.

(** the common type keeps every value of both types when it is signed, and is at
    least as wide as both otherwise *)
Lemma common_keeps t1 t2 : is_integer t1 = true -> is_integer t2 = true ->
  let t := get_common_type t1 t2 in
  is_integer t = true /\ size_of t1 <= size_of t /\ size_of t2 <= size_of t /\ 4 <= size_of t /\
  (signed t = true -> min_of t <= min_of t1 /\ max_of t1 <= max_of t /\ min_of t <= min_of t2 /\ max_of t2 <= max_of t) /\
  max_of t1 <= max_of t /\ max_of t2 <= max_of t.
Proof.
  destruct t1; cbn; try discriminate; intros _;
  destruct t2; cbn; try discriminate; intros _;
  repeat match goal with u : bool |- _ => destruct u end; vm_compute; intuition (try discriminate).
Qed.

(** ** Type specifiers *)
Definition wsum (ws : list spec) : Z := fold_right (fun s a => weight s + a) 0 ws.
Definition all_specs := [SVoid; SBool; SChar; SShort; SInt; SLong; SFloat; SDouble; SSigned; SUnsigned].
Lemma all_specs_in w : In w all_specs. Proof. destruct w; cbn; tauto. Qed.

Fixpoint insert_all {A} (x : A) (l : list A) : list (list A) :=
  match l with
  | [] => [[x]]
  | y :: r => (x :: l) :: map (cons y) (insert_all x r)
  end.
Fixpoint perms {A} (l : list A) : list (list A) :=
  match l with [] => [[]] | x :: r => flat_map (insert_all x) (perms r) end.

Lemma insert_all_in {A} (x : A) l1 l2 : In (l1 ++ x :: l2) (insert_all x (l1 ++ l2)).
Proof.
  induction l1 as [|y l1 IH]; cbn [app].
  - destruct l2; cbn; auto.
  - cbn [insert_all]. right. now apply in_map.
Qed.
Lemma insert_all_perm {A} (x : A) l m : In m (insert_all x l) -> Permutation m (x :: l).
Proof.
  revert m; induction l as [|y l IH]; cbn [insert_all]; intros m H.
  - destruct H as [<-|[]]; auto.
  - destruct H as [<-|H]; [auto|]. apply in_map_iff in H as (m' & <- & H).
    rewrite (IH _ H). apply perm_swap.
Qed.
Lemma perms_complete {A} (l m : list A) : Permutation m l -> In m (perms l).
Proof.
  revert m; induction l as [|x l IH]; intros m H.
  - apply Permutation_sym, Permutation_nil in H. subst. cbn; auto.
  - assert (I: In x m) by (apply (Permutation_in x (Permutation_sym H)); now left).
    destruct (in_split _ _ I) as (l1 & l2 & ->).
    cbn [perms]. apply in_flat_map. exists (l1 ++ l2). split.
    + apply IH. apply Permutation_cons_inv with x. rewrite <- H. apply Permutation_middle.
    + apply insert_all_in.
Qed.
Lemma perms_sound {A} (l m : list A) : In m (perms l) -> Permutation m l.
Proof.
  revert m; induction l as [|x l IH]; cbn [perms]; intros m H.
  - destruct H as [<-|[]]; auto.
  - apply in_flat_map in H as (k & Hk & H). rewrite (insert_all_perm _ _ _ H). auto.
Qed.

Definition spec_dec (a b : spec) : {a = b} + {a <> b}. Proof. decide equality. Defined.
Definition specs_dec : forall a b : list spec, {a = b} + {a <> b} := list_eq_dec spec_dec.
Definition ty_beq (a b : ty) : bool :=
  match a, b with
  | TVoid, TVoid | TBool, TBool | TFloat, TFloat | TDouble, TDouble | TLDouble, TLDouble => true
  | TChar u, TChar v | TShort u, TShort v | TInt u, TInt v | TLong u, TLong v => Bool.eqb u v
  | _, _ => false
  end.
Lemma ty_beq_eq a b : ty_beq a b = true -> a = b.
Proof. destruct a, b; cbn; try discriminate; auto; intros H; apply Bool.eqb_prop in H; now subst. Qed.

Definition otyb (a : option ty) (t : ty) : bool := match a with Some t' => ty_beq t' t | None => false end.
Lemma otyb_eq a t : otyb a t = true -> a = Some t.
Proof. destruct a; cbn; [|discriminate]. intros H. f_equal. now apply ty_beq_eq. Qed.

Lemma specifiers_complete_check :
  forallb (fun '(s, t) => forallb (fun p => otyb (declspec p) t) (perms s)) c11_specifiers = true.
Proof. vm_compute. reflexivity. Qed.

Lemma specifiers_complete ws s t : In (s, t) c11_specifiers -> Permutation ws s -> declspec ws = Some t.
Proof.
  intros I P. pose proof specifiers_complete_check as C. rewrite forallb_forall in C.
  specialize (C _ I). cbn beta iota in C. rewrite forallb_forall in C.
  apply otyb_eq, C, perms_complete, P.
Qed.

(** one more word: from a row of the table (or from nothing) to a row of the table *)
Definition step_ok (c : Z) (ws : list spec) (w : spec) : bool :=
  match counter_type (count c w) with
  | None => true
  | Some t => existsb (fun '(s, t') => ty_beq t t' && (if in_dec specs_dec s (perms (w :: ws)) then true else false)
                                      && (count c w =? wsum s)) c11_specifiers
  end.
Definition dup (w : spec) (ws : list spec) : bool := match w with SSigned | SUnsigned => existsb (spec_eqb w) ws | _ => false end.
Lemma step_check :
  forallb (fun s => forallb (fun w => dup w s || step_ok (wsum s) s w) all_specs) ([] :: map fst c11_specifiers) = true.
Proof. vm_compute. reflexivity. Qed.

Lemma spec_eqb_eq a b : spec_eqb a b = true <-> a = b.
Proof. split; [destruct a, b; cbn; congruence|intros ->; now destruct b]. Qed.

Lemma dup_perm w ws s : Permutation ws s -> dup w ws = dup w s.
Proof.
  intros P. assert (E: existsb (spec_eqb w) ws = existsb (spec_eqb w) s).
  { apply Bool.eq_iff_eq_true. rewrite !existsb_exists. split; intros (x & I & E); exists x; split; auto;
    [eapply Permutation_in; eauto|eapply Permutation_in; [apply Permutation_sym|]; eauto]. }
  unfold dup. now rewrite E.
Qed.
Lemma occ_dup w ws l : (occurrences w (ws ++ w :: l) <= 1)%nat -> existsb (spec_eqb w) ws = false.
Proof.
  intros H. apply Bool.not_true_is_false. intros E. apply existsb_exists in E as (x & I & E).
  apply spec_eqb_eq in E; subst x. apply in_split in I as (l1 & l2 & ->).
  unfold occurrences in H. rewrite <- app_assoc in H. cbn [app] in H.
  rewrite !filter_app in H. cbn [filter] in H. rewrite filter_app in H. cbn [filter] in H.
  assert (E: spec_eqb w w = true) by now apply spec_eqb_eq. rewrite !E in H.
  rewrite !app_length in H. cbn [length] in H. rewrite app_length in H. cbn [length] in H. lia.
Qed.

Lemma loop_sound r : forall done s c t0 t,
  (s = [] /\ done = [] \/ In (s, t0) c11_specifiers) -> Permutation done s -> c = wsum s ->
  (occurrences SSigned (done ++ r) <= 1)%nat -> (occurrences SUnsigned (done ++ r) <= 1)%nat ->
  done ++ r <> [] ->
  declspec_loop c t0 r = Some t ->
  exists s', In (s', t) c11_specifiers /\ Permutation (done ++ r) s'.
Proof.
  induction r as [|w r IH]; intros done s c t0 t Hs P -> O1 O2 NE H.
  - cbn in H. inversion H; subst. rewrite app_nil_r in *.
    destruct Hs as [[-> ->]|Hs]; [congruence|]. exists s; auto.
  - cbn [declspec_loop] in H.
    destruct (counter_type (count (wsum s) w)) as [t'|] eqn:E; [|discriminate].
    pose proof step_check as C. rewrite forallb_forall in C.
    assert (I: In s ([] :: map fst c11_specifiers)).
    { destruct Hs as [[-> _]|Hs]; [now left|right]. apply in_map_iff. now exists (s, t0). }
    specialize (C _ I). rewrite forallb_forall in C. specialize (C w (all_specs_in w)).
    assert (D: dup w s = false).
    { rewrite <- (dup_perm _ _ _ P). unfold dup. destruct w; auto; eapply occ_dup; eauto. }
    rewrite D in C. cbn [orb] in C. unfold step_ok in C. rewrite E in C.
    apply existsb_exists in C as ([s' t''] & I' & C).
    apply andb_prop in C as [C C3]. apply andb_prop in C as [C1 C2].
    apply ty_beq_eq in C1. subst t''.
    destruct (in_dec specs_dec s' (perms (w :: s))) as [C2'|]; [|discriminate].
    apply perms_sound in C2'. apply Z.eqb_eq in C3.
    assert (EQ: done ++ w :: r = (done ++ [w]) ++ r) by now rewrite <- app_assoc.
    rewrite EQ in *.
    eapply IH with (s := s'); eauto.
    rewrite C2', <- P. apply Permutation_sym, Permutation_cons_append.
Qed.

Lemma specifiers_sound ws t : ws <> [] -> (occurrences SSigned ws <= 1)%nat -> (occurrences SUnsigned ws <= 1)%nat ->
  declspec ws = Some t -> exists s, In (s, t) c11_specifiers /\ Permutation ws s.
Proof.
  intros NE O1 O2 H. destruct (loop_sound ws [] [] 0 (TInt false) t) as (s' & I & P); auto.
  exists s'; auto.
Qed.

(** ** Compatibility *)
Lemma denotes_det h t c : denotes h t c -> forall c', denotes h t c' -> c = c'.
Proof.
  intros H. induction H using denotes_mut with
    (P0 := fun ts cs _ => forall cs', denotes_all h ts cs' -> cs = cs');
    intros c' H'; inversion H'; subst; try congruence;
    try (exfalso; lia);
    try (repeat match goal with H : _ \/ _ |- _ => destruct H end; congruence).
  - assert (o0 = o) by congruence. subst. auto.
  - f_equal; auto.
  - f_equal; auto.
  - f_equal; auto.
  - f_equal; auto.
Qed.

Definition verdict (h : heap) (t1 t2 : nat) (c1 c2 : ctype) : Prop :=
  exists N b, (forall f, (N <= f)%nat -> is_compatible f h t1 t2 = Some b) /\ (b = true <-> c1 = c2).

Lemma verdict_strip h t1 c1 : denotes h t1 c1 -> k_origin (h t1) = None ->
  (forall t2 c2, t1 <> t2 -> k_origin (h t2) = None -> denotes h t2 c2 -> verdict h t1 t2 c1 c2) ->
  forall t2 c2, denotes h t2 c2 -> verdict h t1 t2 c1 c2.
Proof.
  intros D1 O B t2 c2 D2.
  induction D2 using denotes_mut with (P0 := fun ts cs _ => True); auto;
  match goal with |- verdict h t1 ?t c1 ?c =>
    destruct (Nat.eq_dec t1 t) as [->|NE];
    [exists 1%nat, true; split; [intros [|f] Hf; [lia|]; cbn; now rewrite Nat.eqb_refl
      | split; auto; intros _; eapply denotes_det; [exact D1|econstructor; solve [eauto]]]|] end;
  try (apply B; auto; econstructor; solve [eauto]).
  destruct IHD2 as (N & b & H1 & H2). exists (S N), b. split; auto.
  intros [|f] Hf; [lia|]. cbn [is_compatible].
  destruct (t1 =? t)%nat eqn:E; [apply Nat.eqb_eq in E; congruence|].
  rewrite O, e. apply H1. lia.
Qed.

Ltac step_in := intros [|f] Hf; [lia|]; cbn [is_compatible];
  match goal with |- (if (?a =? ?b)%nat then _ else _) = _ =>
    destruct (Nat.eqb_spec a b) as [|_]; [congruence|] end.
Ltac origins := repeat match goal with H : k_origin (?h ?t) = None |- context [k_origin (?h ?t)] => rewrite H end.
Ltac kinds := cbv zeta; repeat match goal with H : k_kind (?h ?t) = _ |- context [k_kind (?h ?t)] => rewrite H end; cbn [tkind_eqb negb].

Lemma all2_verdict h ts cs : 
  Forall2 (fun t c => forall t2 c2, denotes h t2 c2 -> verdict h t t2 c c2) ts cs ->
  forall us ds, denotes_all h us ds ->
  exists N b, (forall f, (N <= f)%nat -> all2 (is_compatible f h) ts us = Some b) /\ (b = true <-> cs = ds).
Proof.
  induction 1 as [|t c ts cs Ht _ IH]; intros us ds D; inversion D as [|u us' d ds' Du Dus]; subst.
  - exists 0%nat, true. split; [reflexivity|]. split; auto.
  - exists 0%nat, false. split; [reflexivity|]. split; intros; discriminate.
  - exists 0%nat, false. split; [reflexivity|]. split; intros; discriminate.
  - destruct (Ht _ _ Du) as (N1 & b1 & H1 & E1). destruct (IH _ _ Dus) as (N2 & b2 & H2 & E2).
    exists (N1 + N2)%nat, (b1 && b2). split.
    + intros f Hf. cbn [all2]. rewrite H1 by lia. destruct b1; [|reflexivity]. now rewrite H2 by lia.
    + rewrite andb_true_iff, E1, E2. split; [intros [-> ->]; reflexivity|]. intros [= -> ->]; auto.
Qed.

Lemma compat_verdict h t1 c1 : denotes h t1 c1 -> forall t2 c2, denotes h t2 c2 -> verdict h t1 t2 c1 c2.
Proof.
  intros D. induction D using denotes_mut with
    (P0 := fun ts cs _ => Forall2 (fun t c => forall t2 c2, denotes h t2 c2 -> verdict h t t2 c c2) ts cs).
  - intros t2 c2 D2. destruct (Nat.eq_dec t t2) as [->|NE].
    + exists 1%nat, true. split; [intros [|f] Hf; [lia|]; cbn; now rewrite Nat.eqb_refl|].
      split; auto. intros _. eapply denotes_det; [eapply dn_copy; eauto|eauto].
    + destruct (IHD _ _ D2) as (N & b & H1 & H2). exists (S N), b. split; auto.
      step_in. rewrite e. apply H1. lia.
  - apply verdict_strip; [econstructor; solve [eauto]|assumption|].
    intros t2 c2 NE O D2. exists 1%nat, false. split.
    + step_in. origins. cbv zeta. destruct (tkind_eqb (k_kind (h t)) (k_kind (h t2))); cbn [negb]; auto.
      rewrite e0. destruct o as [->|[->|[->|[->|[->| ->]]]]]; reflexivity.
    + split; [discriminate|]. intros <-. inversion D2; subst; congruence.
  - apply verdict_strip; [econstructor; solve [eauto]|assumption|].
    intros t2 c2 NE O D2.
    exists 1%nat, (tkind_eqb k (k_kind (h t2)) && Bool.eqb u (k_unsigned (h t2))). split.
    + step_in. origins. cbv zeta. rewrite e0, e1.
      destruct (tkind_eqb k (k_kind (h t2))) eqn:K; cbn [negb andb]; [|reflexivity].
      destruct o as [->|[->|[->| ->]]]; reflexivity.
    + inversion D2; subst; try congruence;
        repeat match goal with H : _ \/ _ |- _ => destruct H end;
        repeat match goal with H : k_kind (h _) = _ |- _ => rewrite H in * end; cbn;
        repeat match goal with |- context [Bool.eqb ?a ?b] => destruct (Bool.eqb_spec a b) end;
        split; try discriminate; intros; congruence.
  - apply verdict_strip; [econstructor; solve [eauto]|assumption|].
    intros t2 c2 NE O D2.
    exists 1%nat, (tkind_eqb k (k_kind (h t2))). split.
    + step_in. origins. cbv zeta. rewrite e0.
      destruct (tkind_eqb k (k_kind (h t2))) eqn:K; cbn [negb andb]; [|reflexivity].
      destruct o as [->|[->| ->]]; reflexivity.
    + inversion D2; subst; try congruence;
        repeat match goal with H : _ \/ _ |- _ => destruct H end;
        repeat match goal with H : k_kind (h _) = _ |- _ => rewrite H in * end; cbn;
        split; try discriminate; intros; congruence.
  - apply verdict_strip; [econstructor; solve [eauto]|assumption|].
    intros t2 c2 NE O D2. inversion D2; subst; try congruence.
    4: { destruct (IHD _ _ H1) as (N & b & A & B). exists (S N), b. split.
         - step_in. origins. kinds. apply A. lia.
         - split; [intros Hb; f_equal; tauto|intros [= ->]; tauto]. }
    all: exists 1%nat, false; split; [|split; intros; discriminate]; step_in; origins; kinds; auto;
      repeat match goal with H : _ \/ _ |- _ => destruct H end;
      match goal with H : k_kind _ = ?k |- context [k_kind _] => rewrite H; subst; reflexivity | _ => subst; reflexivity end.
  - apply verdict_strip; [econstructor; solve [eauto]|assumption|].
    intros t2 c2 NE O D2. inversion D2; subst; try congruence.
    5: { destruct (IHD _ _ H2) as (N & b & A & B). exists (S N), (b && (k_len (h t) =? k_len (h t2))). split.
         - step_in. origins. kinds. rewrite A by lia. destruct b; [|reflexivity]. f_equal. cbn [andb].
           destruct (0 <=? k_len (h t)) eqn:L1; [|lia]. destruct (0 <=? k_len (h t2)) eqn:L2; [|lia]. reflexivity.
         - rewrite andb_true_iff, Z.eqb_eq. split; [intros [Hb ->]; f_equal; tauto|intros [= -> ->]; tauto]. }
    5: { destruct (IHD _ _ H2) as (N & b & A & B). exists (S N), false. split; [|split; intros; discriminate].
         step_in. origins. kinds. rewrite A by lia. destruct b; [|reflexivity]. f_equal.
         destruct (0 <=? k_len (h t2)) eqn:L2; [lia|]. now rewrite andb_false_r. }
    all: exists 1%nat, false; split; [|split; intros; discriminate]; step_in; origins; kinds; auto;
      repeat match goal with H : _ \/ _ |- _ => destruct H end;
      match goal with H : k_kind _ = ?k |- context [k_kind _] => rewrite H; subst; reflexivity | _ => subst; reflexivity end.
  - apply verdict_strip; [eapply dn_incomplete; eauto|assumption|].
    intros t2 c2 NE O D2. inversion D2; subst; try congruence.
    5: { destruct (IHD _ _ H2) as (N & b & A & B). exists (S N), false. split; [|split; intros; discriminate].
         step_in. origins. kinds. rewrite A by lia. destruct b; [|reflexivity]. f_equal.
         destruct (0 <=? k_len (h t)) eqn:L2; [lia|]. reflexivity. }
    5: { destruct (IHD _ _ H2) as (N & b & A & B). exists (S N), false. split; [|split; intros; congruence].
         step_in. origins. kinds. rewrite A by lia. destruct b; [|reflexivity]. f_equal.
         destruct (0 <=? k_len (h t)) eqn:L2; [lia|]. reflexivity. }
    all: exists 1%nat, false; split; [|split; intros; congruence]; step_in; origins; kinds; auto;
      repeat match goal with H : _ \/ _ |- _ => destruct H end;
      match goal with H : k_kind _ = ?k |- context [k_kind _] => rewrite H; subst; reflexivity | _ => subst; reflexivity end.
  - apply verdict_strip; [econstructor; solve [eauto]|assumption|].
    intros t2 c2 NE O D2. inversion D2; subst; try congruence.
    7: { destruct (IHD _ _ H1) as (N & b & A & B).
         destruct (all2_verdict _ _ _ IHD0 _ _ H2) as (N' & b' & A' & B').
         exists (S (N + N')), (b && Bool.eqb (k_variadic (h t)) (k_variadic (h t2)) && b'). split.
         - step_in. origins. kinds. rewrite A by lia. destruct b; [|reflexivity]. cbn [andb].
           destruct (Bool.eqb (k_variadic (h t)) (k_variadic (h t2))); cbn [negb andb]; [|reflexivity].
           apply A'. lia.
         - rewrite !andb_true_iff, Bool.eqb_true_iff.
           split; [intros [[Hb ->] Hb']; f_equal; tauto|intros [= -> -> ->]; tauto]. }
    all: exists 1%nat, false; split; [|split; intros; discriminate]; step_in; origins; kinds; auto;
      repeat match goal with H : _ \/ _ |- _ => destruct H end;
      match goal with H : k_kind _ = ?k |- context [k_kind _] => rewrite H; subst; reflexivity | _ => subst; reflexivity end.
  - constructor.
  - constructor; auto.
Qed.

(** ** _Generic *)
Lemma generic_run {A} h t1 c1 : denotes h t1 c1 -> forall (l : list (option nat * A)) l', Forall2 (named h) l l' ->
  exists N, forall f, (N <= f)%nat -> forall ret, exists r, generic_loop f h t1 ret l = Some r /\
    ((exists a, r = Some a /\ In (Some c1, a) l') \/
     ((forall x, ~ In (Some c1, x) l') /\
      ((ret <> None /\ r = ret) \/ (ret = None /\ match r with Some a => In (None, a) l' | None => forall a, ~ In (None, a) l' end)))).
Proof.
  intros D l l' F. induction F as [|[t a] [c a'] l l' [E K] F IH].
  - exists 0%nat. intros f _ ret. exists ret. split; [reflexivity|]. right. split; [intros x []|].
    destruct ret; [left; split; congruence|right; split; auto].
  - cbn in E, K. subst a'. destruct IH as [N IH]. destruct t as [t|], c as [c|]; try contradiction.
    + destruct (compat_verdict h t1 c1 D _ _ K) as (N' & b & V & B).
      exists (N + N')%nat. intros f Hf ret. cbn [generic_loop]. rewrite V by lia. destruct b.
      * assert (c = c1) by (symmetry; now apply B). subst c.
        destruct (IH f ltac:(lia) (Some a)) as (r & R & [(x & -> & I)|(NI & [[_ ->]|[C _]])]).
        -- exists (Some x). split; auto. left. exists x. split; auto. now right.
        -- exists (Some a). split; auto. left. exists a. split; auto. now left.
        -- discriminate.
      * assert (NE: c1 <> c) by (intros EE; apply B in EE; discriminate).
        destruct (IH f ltac:(lia) ret) as (r & R & H). exists r. split; auto.
        destruct H as [(x & -> & I)|(NI & H)].
        -- left. exists x. split; auto. now right.
        -- right. split; [intros x [J|J]; [congruence|now apply (NI x)]|].
           destruct H as [H|[-> H]]; [now left|]. right. split; auto.
           destruct r; [now right|]. intros y [J|J]; [congruence|now apply (H y)].
    + exists N. intros f Hf ret. cbn [generic_loop].
      destruct (IH f ltac:(lia) (match ret with None => Some a | _ => ret end)) as (r & R & H). exists r. split; auto.
      destruct H as [(x & -> & I)|(NI & H)].
      * left. exists x. split; auto. now right.
      * right. split; [intros x [J|J]; [congruence|now apply (NI x)]|].
        destruct ret as [v|].
        -- left. destruct H as [[_ ->]|[C _]]; [split; congruence|discriminate].
        -- right. destruct H as [[_ ->]|[C _]]; [split; [auto|now left]|discriminate].
Qed.

Lemma generic_selects {A} h t1 c1 (l : list (option nat * A)) l' :
  denotes h t1 c1 -> Forall2 (named h) l l' ->
  exists N, forall f, (N <= f)%nat -> exists r, generic_selection f h t1 l = Some r /\
    match r with
    | Some a => selected c1 l' a
    | None => forall a, ~ selected c1 l' a
    end.
Proof.
  intros D F. destruct (generic_run h t1 c1 D l l' F) as [N H]. exists N. intros f Hf.
  destruct (H f Hf None) as (r & R & C). exists r. split; auto.
  destruct C as [(a & -> & I)|(NI & [[C _]|[_ C]])]; [now left|congruence|].
  destruct r; [now right|]. intros a [I|[_ I]]; [now apply (NI a)|now apply (C a)].
Qed.

Lemma nodup_fst {A B} (l : list (A * B)) k x y : NoDup (map fst l) -> In (k, x) l -> In (k, y) l -> x = y.
Proof.
  induction l as [|[k' z] l IH]; cbn; intros ND Ix Iy; [destruct Ix|].
  inversion ND as [|? ? NI ND']; subst.
  destruct Ix as [Ix|Ix], Iy as [Iy|Iy].
  - congruence.
  - exfalso. apply NI. assert (k' = k) by congruence. subst. apply (in_map fst) in Iy. exact Iy.
  - exfalso. apply NI. assert (k' = k) by congruence. subst. apply (in_map fst) in Ix. exact Ix.
  - now apply IH.
Qed.
Lemma selected_unique {A} c (l : list (option ctype * A)) a b :
  well_formed_generic l -> selected c l a -> selected c l b -> a = b.
Proof.
  intros W [I|[N I]] [J|[M J]].
  - eapply nodup_fst; eauto.
  - exfalso. now apply (M a).
  - exfalso. now apply (N b).
  - eapply nodup_fst; eauto.
Qed.
