(** Theorems about scopes, tentative definitions and unused static inline functions. *)
From Verif Require Import Base HashMapModel HashMapSpec ScopeModel ScopeSpec ScopeProofs.
From Coq Require Import ZifyBool ZifyNat Sorting.Sorted Strings.String. From Coq Require Import List. Import ListNotations. Local Open Scope Z_scope.
Local Notation length := List.length.

(** ** C23: a name means the innermost declaration in force; ordinary names and tags are
    looked up separately. [l] is everything that happened to the scopes so far. *)
Theorem C23_innermost : forall l,
  nested l 0 = true -> Z.of_nat (length l) <= 20000000 ->
  exists c, do_sops l chain0 = SOk c
         /\ (forall n, find_var c n = SOk (visible (declares_var n) 0 (rev l)))
         /\ (forall n, find_tag c n = SOk (visible (declares_tag n) 0 (rev l))).
Proof.
  intros l NS B. destruct (sim_run l 0 chain0 [SH [] []] 0 sim0 eq_refl NS ltac:(lia)) as (c & E & S & _). exists c. split; [exact E|]. split; intros n.
  - rewrite (find_var_h _ _ _ n S ltac:(lia)). now rewrite vis_vars.
  - rewrite (find_tag_h _ _ _ n S ltac:(lia)). now rewrite vis_tags.
Qed.
(** Leaving a block restores every binding *)
Theorem C23_block : forall l b,
  nested l 0 = true -> block b -> Z.of_nat (length l + length b) + 2 <= 20000000 ->
  exists c c', do_sops l chain0 = SOk c /\ do_sops (l ++ OpEnter :: b ++ [OpLeave]) chain0 = SOk c'
            /\ (forall n, find_var c' n = find_var c n) /\ (forall n, find_tag c' n = find_tag c n).
Proof.
  intros l b NS [Nb Db] B. destruct (C23_innermost l NS ltac:(lia)) as (c & E & V & T).
  assert (NS2: nested (l ++ OpEnter :: b ++ [OpLeave]) 0 = true).
  { rewrite nested_app, NS. cbn [andb nested]. rewrite nested_app.
    assert (G: forall b d k, nested b d = true -> nested b (k + d) = true /\ depth b (k + d) = (k + depth b d)%nat).
    { clear. induction b as [|o b IH]; intros d k H; [split; reflexivity|]. destruct o as [| |a v|a v]; cbn [nested depth] in *; try (apply IH; exact H).
      - replace (S (k + d)) with (k + S d)%nat by lia. now apply IH.
      - destruct d as [|d]; [discriminate|]. replace (k + S d)%nat with (S (k + d)) by lia. cbn [pred]. now apply IH. }
    destruct (G b 0%nat (S (depth l 0)) Nb) as [G1 G2]. rewrite Db in G2. replace (S (depth l 0) + 0)%nat with (S (depth l 0)) in * by lia. rewrite G1, G2. reflexivity. }
  destruct (C23_innermost _ NS2) as (c' & E' & V' & T'); [rewrite app_length; cbn; rewrite app_length; cbn; lia|].
  exists c, c'. split; [exact E|]. split; [exact E'|].
  assert (R: rev (l ++ OpEnter :: b ++ [OpLeave]) = OpLeave :: rev b ++ OpEnter :: rev l) by (rewrite rev_app_distr; cbn [rev]; rewrite rev_app_distr; cbn [rev app]; rewrite <- app_assoc; reflexivity).
  split; intros n; [rewrite V', V, R|rewrite T', T, R]; f_equal; apply visible_block; split; auto.
Qed.
(** Functions are looked up among the declarations at file level, whatever blocks are open *)
Theorem C23_file_level : forall l n,
  nested l 0 = true -> Z.of_nat (length l) <= 20000000 ->
  exists c, do_sops l chain0 = SOk c /\ find_file c n = SOk (file_level n l 0 None).
Proof.
  intros l n NS B. destruct (sim_run l 0 chain0 [SH [] []] 0 sim0 eq_refl NS ltac:(lia)) as (c & E & S & L). exists c. split; [exact E|].
  assert (NE: hops l [SH [] []] <> []) by (destruct (hops l [SH [] []]); [discriminate|congruence]). destruct (sim_last _ _ _ S NE) as (s & r & R & A & _). unfold find_file. rewrite R. rewrite (hist_get _ _ _ n A ltac:(lia)).
  rewrite (file_h n l [SH [] []] 0 eq_refl NS). reflexivity.
Qed.
Definition nm (s : string) : bytes := bs s.
Example C23_nonvacuous :
  let l := [OpVar (nm "x"%string) 1; OpTag (nm "x"%string) 2; OpEnter; OpVar (nm "x"%string) 3; OpEnter; OpVar (nm "y"%string) 4; OpLeave] in
  nested l 0 = true /\ visible (declares_var (nm "x"%string)) 0 (rev l) = Some 3 /\ visible (declares_var (nm "y"%string)) 0 (rev l) = None
  /\ visible (declares_tag (nm "x"%string)) 0 (rev l) = Some 2 /\ file_level (nm "x"%string) l 0 None = Some 1.
Proof. vm_compute. repeat split; reflexivity. Qed.

(** ** C25. [scan_globals] gives the positions of the objects that stay. Definitions that are
    not tentative all stay; a tentative definition stays only if it is the only definition
    that stays and there is no other kind. What is missing (see the refutation): that one
    definition always stays. *)
Theorem C25_merge_partial : forall objs, exists r, scan_globals objs = Some r
  /\ StronglySorted lt r
  /\ (forall i o, nth_error objs i = Some o -> g_tent o = false -> In i r)
  /\ (forall n i j, In i r -> defines_as objs n true i -> In j r -> defines objs n j -> j = i)
  /\ (forall n i j, In i r -> defines_as objs n true i -> ~ defines_as objs n false j).
Proof.
  intros objs. exists (final objs). split; [apply scan_globals_final|]. split; [apply final_sorted|]. split; [|split].
  - intros i o E T. eapply final_solid; eauto. eapply nth_lt; eauto.
  - intros n i j Ii Di Ij Dj. destruct (Nat.eq_dec j i) as [->|NE]; [reflexivity|]. exfalso. eapply (final_tent objs n i j); eauto.
  - intros n i j Ii Di Dj. assert (NE: j <> i) by (intros ->; destruct Di as (o & E & _ & _ & T), Dj as (o' & E' & _ & _ & T'); congruence). apply (final_tent objs n i j Ii Di NE); [right|exists false; exact Dj]. destruct Dj as (o & E & _ & _ & T). exists o. auto.
Qed.
(** One definition stays if it is the only one, or if not all are tentative, or if some
    other kind of object is before the others and between each of them and the last one *)
Theorem C25_one_stays_partial : forall objs n i,
  defines objs n i ->
  (forall j, defines objs n j -> j = i) \/ defines_as objs n false i \/
  (defines_as objs n true i /\ forall j, defines objs n j -> j <> i -> (j < i)%nat /\ defines_as objs n true j
     /\ (exists a o, (a < j)%nat /\ nth_error objs a = Some o /\ g_tent o = false)
     /\ (exists b o, (j < b < i)%nat /\ nth_error objs b = Some o /\ g_tent o = false)) ->
  exists r, scan_globals objs = Some r /\ In i r.
Proof.
  intros objs n i D H. exists (final objs). split; [apply scan_globals_final|]. destruct H as [H|[H|[H1 H2]]]; [eapply final_sole; eauto| |eapply final_last; eauto].
  destruct H as (o & E & _ & _ & T). eapply final_solid; eauto. eapply nth_lt; eauto.
Qed.
(** In terms of the declarations themselves: [GDecl x ext tls init] is extern or not,
    thread-local or not, with an initializer or not. An initialised definition always stays, and a
    definition without initializer stays only without another one of the identifier that stays
    and without an initialised one. *)
Inductive gdecl := GDecl (x : bytes) (ext tls init : bool).
Definition declared_obj (d : gdecl) : gobj := let 'GDecl x ext tls init := d in global_variable x ext tls init.
Theorem C25_declarations_partial : forall ds, exists r, scan_globals (map declared_obj ds) = Some r
  /\ (forall i x tls, nth_error ds i = Some (GDecl x false tls true) -> In i r)
  /\ (forall i j x tls init, In i r -> nth_error ds i = Some (GDecl x false false false) -> nth_error ds j = Some (GDecl x false tls init) -> j <> i -> ~ In j r /\ init = false /\ tls = false)
  /\ (forall i x, nth_error ds i = Some (GDecl x false false false) -> (forall j tls init, nth_error ds j = Some (GDecl x false tls init) -> j = i) -> In i r).
Proof.
  intros ds. destruct (C25_merge_partial (map declared_obj ds)) as (r & S & _ & K & U & V). exists r. split; [exact S|].
  assert (N : forall i d, nth_error ds i = Some d -> nth_error (map declared_obj ds) i = Some (declared_obj d)) by (intros; now apply map_nth_error).
  split; [|split].
  - intros i x tls H. exact (K i _ (N _ _ H) eq_refl).
  - intros i j x tls init I H H' NE.
    assert (D : defines_as (map declared_obj ds) x true i) by (eexists; split; [exact (N _ _ H)|repeat split; reflexivity]).
    destruct tls; [exfalso; apply (V x i j I D); eexists; split; [exact (N _ _ H')|repeat split; cbn; try reflexivity; now destruct init]|].
    destruct init; [exfalso; apply (V x i j I D); eexists; split; [exact (N _ _ H')|repeat split; reflexivity]|].
    split; [|split; reflexivity]. intros J. apply NE. apply (U x i j I D J). exists true. eexists; split; [exact (N _ _ H')|repeat split; reflexivity].
  - intros i x H O. destruct (C25_one_stays_partial (map declared_obj ds) x i) as (r' & S' & I); [exists true; eexists; split; [exact (N _ _ H)|repeat split; reflexivity]| |congruence].
    left. intros j (t & o & E & A & B & C). rewrite nth_error_map in E. destruct (nth_error ds j) as [[y ext tls init]|] eqn:Ej; [|discriminate]. cbn in E. injection E as <-. cbn in A, B. subst y. destruct ext; [discriminate|]. exact (O j tls init Ej).
Qed.
Print Assumptions C25_declarations_partial.
Example C25_declarations_nonvacuous : scan_globals (map declared_obj [GDecl (nm "x"%string) false false true; GDecl (nm "y"%string) false false false; GDecl (nm "x"%string) false false false; GDecl (nm "z"%string) true false false]) = Some [0; 1; 3]%nat.
Proof. vm_compute. reflexivity. Qed.
(** [int x; int x;] defines nothing: each of the two is dropped because of the other *)
Theorem C25_one_stays_refuted :
  exists objs n i r, consistent objs /\ defines objs n i /\ scan_globals objs = Some r /\ forall j, In j r -> ~ defines objs n j.
Proof.
  exists [global_variable (nm "x"%string) false false false; global_variable (nm "x"%string) false false false], (nm "x"%string), 0%nat, [].
  split; [repeat constructor|]. split; [exists true; eexists; repeat split; reflexivity|]. split; [vm_compute; reflexivity|]. intros j [].
Qed.
(** and whether it does depends on what is declared in between *)
Theorem C25_order_refuted : exists o1 o2 x r1 r2,
  defines_as [x] (nm "x"%string) true 0 /\ g_name o1 <> nm "x"%string /\ g_name o2 <> nm "x"%string /\
  scan_globals [o1; o2; x; x] = Some r1 /\ scan_globals [o1; x; o2; x] = Some r2 /\
  (forall i, In i r1 -> ~ defines [o1; o2; x; x] (nm "x"%string) i) /\ In 3%nat r2 /\ defines [o1; x; o2; x] (nm "x"%string) 3.
Proof.
  exists (global_variable (nm "a"%string) false false true), (global_variable (nm "b"%string) false false true), (global_variable (nm "x"%string) false false false), [0; 1]%nat, [0; 2; 3]%nat.
  split; [eexists; repeat split; reflexivity|]. split; [vm_compute; discriminate|]. split; [vm_compute; discriminate|]. split; [vm_compute; reflexivity|]. split; [vm_compute; reflexivity|]. split; [|split].
  - intros i [<-|[<-|[]]] (t & o & E & N & _); cbn in E; injection E as <-; vm_compute in N; discriminate.
  - cbn; tauto.
  - exists true. eexists. repeat split; reflexivity.
Qed.
(** [extern int x = 3;] is a definition in C; here it is not one *)
Theorem C25_extern_initialised_refuted : exists n, g_def (global_variable n true false true) = false.
Proof. exists (nm "x"%string). reflexivity. Qed.
Example C25_nonvacuous :
  scan_globals [global_variable (nm "f"%string) false false true; global_variable (nm "x"%string) false false false; global_variable (nm "y"%string) false false false; global_variable (nm "x"%string) false false true] = Some [0; 2; 3]%nat.
Proof. vm_compute. reflexivity. Qed.

(** ** C24: when the declarations are accepted the marking ends, and only needed functions
    are emitted *)
Theorem C24_only_needed : forall l fs, declare_all l None [] = Some fs ->
  exists em, emitted l = Some em /\ forall f, In f em -> is_defined l f /\ needed l f.
Proof.
  intros l fs DA. destruct (emitted_iff l fs DA) as (em & L & E & _ & I & M & C). exists em. split; [exact E|]. intros f F. apply I in F as [F1 F2]. split; [exact F1|]. destruct (C f F2) as [_ (r & R1 & R2 & R3)]. destruct (tbl_l l fs DA) as (cur & T). eapply live_needed; eauto.
Qed.
(** No call is left dangling: what an emitted function names is emitted, if it is defined *)
Theorem C24_closed : forall l em f g, emitted l = Some em -> In f em -> names l f g -> is_defined l g -> In g em.
Proof.
  intros l em f g E F N D. destruct (declare_all l None []) as [fs|] eqn:DA; [|unfold emitted in E; rewrite DA in E; discriminate]. destruct (emitted_iff l fs DA) as (em' & L & E' & _ & I & M & C). assert (em' = em) by congruence. subst em'.
  apply I in F as [F1 F2]. apply I. split; [exact D|]. destruct (tbl_l l fs DA) as (cur & T). destruct (C f F2) as [Cl _]. apply Cl; [eapply in_refs_of; eauto|eapply (t_names _ _ _ T); eauto].
Qed.
(** Exactly the needed functions, if no initializer at file level names a static inline
    function. What is missing: the initializers (see the refutations). *)
Theorem C24_exactly_needed_partial : forall l em, emitted l = Some em ->
  (forall n, In (FInit n) l -> internal_inline l n = false) ->
  forall f, In f em <-> is_defined l f /\ needed l f.
Proof.
  intros l em E HI f. destruct (declare_all l None []) as [fs|] eqn:DA; [|unfold emitted in E; rewrite DA in E; discriminate]. destruct (emitted_iff l fs DA) as (em' & L & E' & _ & I & M & C). assert (em' = em) by congruence. subst em'.
  destruct (tbl_l l fs DA) as (cur & T). rewrite I. split; intros [A B]; (split; [exact A|]).
  - destruct (C f B) as [_ (r & R1 & R2 & R3)]. eapply live_needed; eauto.
  - eapply needed_live; eauto. intros x X. now apply C.
Qed.
(** static inline int f(void) {} static inline int g(void) {} int ( *p)(void) = f; :
    the initializer is counted as a use inside g, and f is not emitted *)
Theorem C24_initializer_refuted : exists l em f,
  emitted l = Some em /\ is_defined l f /\ In (FInit f) l /\ ~ In f em.
Proof.
  exists [FDecl (nm "f"%string) true true false (Some []); FDecl (nm "g"%string) true true false (Some []); FInit (nm "f"%string)], [], (nm "f"%string).
  split; [vm_compute; reflexivity|]. split; [exists true, true, false, []; now left|]. split; [right; right; now left|intros []].
Qed.
(** A declaration after the initializer makes the function unneeded again *)
Theorem C24_redeclaration_refuted : exists l em f,
  emitted l = Some em /\ is_defined l f /\ In (FInit f) l /\ ~ In f em.
Proof.
  exists [FDecl (nm "f"%string) true true false None; FInit (nm "f"%string); FDecl (nm "f"%string) true true false (Some [])], [], (nm "f"%string).
  split; [vm_compute; reflexivity|]. split; [exists true, true, false, []; right; right; now left|]. split; [right; now left|intros []].
Qed.
Example C24_nonvacuous :
  emitted [FDecl (nm "dead"%string) true true false (Some [nm "dead"%string]); FDecl (nm "ev"%string) true true false None; FDecl (nm "od"%string) true true false (Some [nm "ev"%string]);
           FDecl (nm "ev"%string) true true false (Some [nm "od"%string]); FDecl (nm "main"%string) false false false (Some [nm "ev"%string])] = Some [nm "main"%string; nm "od"%string; nm "ev"%string].
Proof. vm_compute. reflexivity. Qed.

Print Assumptions C23_innermost.
Print Assumptions C23_block.
Print Assumptions C23_file_level.
Print Assumptions C25_merge_partial.
Print Assumptions C25_one_stays_partial.
Print Assumptions C25_one_stays_refuted.
Print Assumptions C25_order_refuted.
Print Assumptions C25_extern_initialised_refuted.
Print Assumptions C24_only_needed.
Print Assumptions C24_closed.
Print Assumptions C24_exactly_needed_partial.
Print Assumptions C24_initializer_refuted.
Print Assumptions C24_redeclaration_refuted.
