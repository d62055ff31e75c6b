(** Properties C36, C46, C56: the image of an initialised global, the assembly lines of the
    variables of a file, the code of a local initializer. *)
From Verif Require Import Base TypeModel IntArith NodeModel ValSpec NodeSpec NodeProofs EvalModel RvSpec GenModel GenSpec GenProps ElabSpec ElabProps InitModel InitSpec InitProofs InitLocal DataModel DataSpec DataProofs.
From Coq Require Import ZifyBool ZifyNat.
Local Arguments Z.mul : simpl never. Local Arguments Z.add : simpl never. Local Arguments Z.sub : simpl never. Local Arguments Z.pow : simpl never.
Local Notation length := List.length.

(** All initialised parts are scalars (not a struct initialised as a whole) *)
Definition all_scalar (t : ity) (i : init) : Prop := forall e, In e (elements t i 0) -> scalar (el_ty e) = true.
Definition is_bitfield_el (e : elem) : bool := match el_bf e with Some _ => true | None => false end.

(** ** C36 *)
(** An image exists when all the initializers are constant; then every bit of the object
    that belongs to an initialised part is that bit of its value (in a bit-field: or'ed to
    what malloc left), the parts with an address in them are the relocations, in order, and
    every other bit is what malloc left in the buffer. *)
Theorem C36_image_partial junk t i : wf t = true -> shaped t i = true -> clean t i = true -> all_scalar t i -> (forall e, In e (elements t i 0) -> exists v lab, el_value e = EOk v lab) ->
  exists img, gvar_init junk t i = Some img /\ g_rel img = flat_map el_reloc (elements t i 0) /\
  (forall e v p, In e (elements t i 0) -> el_value e = EOk v None -> el_has e p -> bit (g_buf img) p = Z.testbit v (p - el_lo e) || (is_bitfield_el e && bit junk p)) /\
  (forall p, (forall e, In e (elements t i 0) -> ~ el_has e p) -> bit (g_buf img) p = bit junk p).
Proof.
  intros WF SH CL SC EV. assert (SC': Forall (fun e => scalar (el_ty e) = true) (elements t i 0)) by (apply Forall_forall; exact SC). unfold gvar_init. rewrite (write_is_els t i 0 (Img junk []) SH CL SC' WF).
  pose proof (elements_ok t i 0 WF) as OK. destruct (write_els_some (elements t i 0) (Img junk []) OK (clean_narrow t i 0 SH CL) SC' EV) as (img & W). exists img. split; [exact W|].
  destruct (els_bits _ _ _ _ _ OK (elements_seqd t i 0 WF) W) as (R & B1 & B2). split; [exact R|]. split.
  - intros e v p I V HP. destruct (B1 e I) as (v' & lab & V' & B). rewrite V in V'. injection V' as <- <-. specialize (B p ltac:(unfold in_el, el_has in *; lia)). rewrite orb_true_r in B. exact B.
  - intros p N. apply B2. intros e I. specialize (N e I). unfold in_el, el_has in *. lia.
Qed.
Print Assumptions C36_image_partial.
(** With a buffer of zeros: the initialised numbers other than _Bool read back with their
    value converted to their type, bit-fields with their low bits; everything else is zero *)
Theorem C36_zero_buffer_partial t i : wf t = true -> shaped t i = true -> clean t i = true -> all_scalar t i -> (forall e, In e (elements t i 0) -> exists v lab, el_value e = EOk v lab) ->
  exists img, gvar_init (fun _ => 0) t i = Some img /\
  (forall e v, In e (elements t i 0) -> el_value e = EOk v None -> el_bf e = None -> el_ty e <> TBool -> of_bytes (el_ty e) (le_load (g_buf img) (el_off e) (Z.to_nat (size_of (el_ty e)))) = conv (el_ty e) v) /\
  (forall e v k, In e (elements t i 0) -> el_value e = EOk v None -> is_bitfield_el e = true -> 0 <= k < el_width e -> bit (g_buf img) (el_lo e + k) = Z.testbit v k) /\
  (forall p, (forall e, In e (elements t i 0) -> ~ el_has e p) -> bit (g_buf img) p = false).
Proof.
  intros WF SH CL SC EV. destruct (C36_image_partial (fun _ => 0) t i WF SH CL SC EV) as (img & G & _ & B1 & B2). exists img. split; [exact G|]. assert (Z0: forall p, bit (fun _ => 0) p = false) by (intros p; apply Z.bits_0). split; [|split].
  - intros e v I V BF NB. pose proof (SC e I) as S1. assert (SZ: 1 <= size_of (el_ty e)) by (clear - S1; destruct (el_ty e); try discriminate S1; cbn; lia). rewrite (load_of_bits _ _ _ v); [replace (8 * Z.of_nat (Z.to_nat (size_of (el_ty e)))) with (8 * size_of (el_ty e)) by lia; now apply of_bytes_conv|].
    intros p P. rewrite (B1 e v p I V) by (unfold el_has, el_lo, el_width; rewrite BF; lia). unfold is_bitfield_el, el_lo. rewrite BF. cbn [andb]. rewrite orb_false_r. f_equal. lia.
  - intros e v k I V BF K. rewrite (B1 e v (el_lo e + k) I V) by (unfold el_has; lia). rewrite Z0, andb_false_r, orb_false_r. f_equal. lia.
  - intros p N. rewrite (B2 p N). apply Z0.
Qed.
Print Assumptions C36_zero_buffer_partial.

Definition int_ : ity := IScal (TInt false).
Definition lit (z : Z) : init := Init (Some (NNum (TInt false) z)) None [].
Definition none : init := Init None None [].
Definition kids (l : list init) : init := Init None None l.
(** struct { char c; int f:5; int g:9; short s[2]; char *p; } x[2] =
    { { 1, 2, -3, { 4, 5 }, &y + 8 }, { 6, .s[1] = 300, .p = 0 } }; f of x[1] without
    initializer would hide g and later ones (below), so they are given *)
Definition ex_st : ity := IStruct 1 24 8 [(0, None, IScal (TChar false)); (0, Some (8, 5), int_); (0, Some (13, 9), int_); (4, None, IArr (IScal (TShort false)) 2); (16, None, IScal (TPtr (TChar false)))].
Definition ex_ty : ity := IArr ex_st 2.
Definition ex_ptr : node := NBin Add (TPtr (TChar false)) (NCast (TPtr (TChar false)) (NAddr (NVar (VGlobal (bs "y"%string)) (TArr (TChar false) 16)))) (NCast (TPtr (TChar false)) (NNum (TLong false) 8)).
Definition ex_init : init := kids [kids [lit 1; lit 2; lit (-3); kids [lit 4; lit 5]; Init (Some ex_ptr) None []]; kids [lit 6; lit 0; lit 0; kids [none; lit 300]; lit 0]].
Example C36_nonvacuous : wf ex_ty = true /\ shaped ex_ty ex_init = true /\ clean ex_ty ex_init = true /\ all_scalar ex_ty ex_init /\ length (elements ex_ty ex_init 0) = 11%nat /\
  (forall e, In e (elements ex_ty ex_init 0) -> exists v lab, el_value e = EOk v lab) /\
  option_map (fun g => (map (fun k => g_buf g (Z.of_nat k)) (seq 0 8), g_rel g)) (gvar_init (fun _ => 0) ex_ty ex_init) = Some ([1; 162; 63; 0; 4; 0; 5; 0], [(16, bs "y"%string, 8)]).
Proof.
  split; [reflexivity|]. split; [reflexivity|]. split; [reflexivity|]. split; [intros e I; repeat (destruct I as [<-|I]; [reflexivity|]); destruct I|]. split; [reflexivity|]. split; [|vm_compute; reflexivity].
  intros e I. repeat (destruct I as [<-|I]; [do 2 eexists; vm_compute; reflexivity|]). destruct I.
Qed.

(** *** What is not so *)
(** The buffer comes from malloc and is not cleared: int a[2] = { 1 } *)
Theorem C36_uninitialised_refuted : exists junk img, gvar_init junk (IArr int_ 2) (kids [lit 1; none]) = Some img /\ g_buf img 4 = 255.
Proof. exists (fun _ => 255). eexists. split; [reflexivity|]. vm_compute. reflexivity. Qed.
(** or'ed into it: struct { int f : 4; } x = { 1 } *)
Theorem C36_bitfield_junk_refuted : exists junk img, gvar_init junk (IStruct 1 4 4 [(0, Some (0, 4), int_)]) (kids [lit 1]) = Some img /\ le_load (g_buf img) 0 4 mod 2 ^ 4 = 3.
Proof. exists (fun _ => 2). eexists. split; [reflexivity|]. vm_compute. reflexivity. Qed.
(** After a bit-field without initializer the other members are lost:
    struct { int f : 4; int n; } x = { .n = 7 } *)
Theorem C36_after_bitfield_refuted : exists img, gvar_init (fun _ => 0) (IStruct 1 8 4 [(0, Some (0, 4), int_); (4, None, int_)]) (kids [none; lit 7]) = Some img /\ le_load (g_buf img) 4 4 = 0.
Proof. eexists. split; [reflexivity|]. vm_compute. reflexivity. Qed.
(** _Bool b = 2 is the byte 2, not 1 *)
Theorem C36_bool_refuted : exists img, gvar_init (fun _ => 0) (IScal TBool) (lit 2) = Some img /\ g_buf img 0 = 2 /\ conv TBool 2 = Some 1.
Proof. eexists. split; [reflexivity|]. split; reflexivity. Qed.
(** A bit-field of a union is stored as if it were not one: union { int f : 3; } u = { 9 } *)
Theorem C36_union_bitfield_refuted : exists img, gvar_init (fun _ => 0) (IUnion 1 4 4 [(0, Some (0, 3), int_)]) (Init None (Some 0%nat) [lit 9]) = Some img /\ g_buf img 0 = 9.
Proof. eexists. split; [reflexivity|]. vm_compute. reflexivity. Qed.
(** A struct initialised by an expression that is not constant is accepted and ignored *)
Theorem C36_struct_expression_refuted e : gvar_init (fun _ => 0) (IStruct 1 4 4 [(0, None, int_)]) (Init (Some e) None [none]) = Some (Img (fun _ => 0) []).
Proof. reflexivity. Qed.
(** _Bool f = 3 as a bit-field of one bit keeps the lowest bit: 2 becomes 0 *)
Theorem C36_bool_bitfield_refuted : exists img, gvar_init (fun _ => 0) (IStruct 1 1 1 [(0, Some (0, 1), IScal TBool)]) (kids [lit 2]) = Some img /\ g_buf img 0 = 0 /\ conv TBool 2 = Some 1.
Proof. eexists. split; [reflexivity|]. split; reflexivity. Qed.

(** ** C46 *)
(** The .byte and .quad lines of an object: as many bytes as it has, each that of the image
    or of the relocated pointer that covers it *)
Theorem C46_directives sz rel buf : 0 <= sz -> rels_fit 0 sz rel -> exists d, emit_bytes (Z.to_nat sz) sz 0 rel buf = Some d /\ Z.of_nat (length (assemble d)) = sz /\
  forall p, 0 <= p < sz -> nth_error (assemble d) (Z.to_nat p) = Some (cell_at rel buf p).
Proof.
  intros S0 RF. destruct (emit_cells (Z.to_nat sz) sz 0 rel buf ltac:(lia) RF) as (d & E & A). exists d. split; [exact E|]. rewrite A. split; [unfold cells; rewrite map_length, seq_length; lia|]. intros p P. unfold cells. rewrite nth_error_map.
  rewrite (nth_error_nth' (seq 0 (Z.to_nat (sz - 0))) 0%nat) by (rewrite seq_length; lia). rewrite seq_nth by lia. cbn [option_map Nat.add]. do 2 f_equal. lia.
Qed.
Print Assumptions C46_directives.
(** The images made from initializers meet the condition when only objects of 8 bytes hold
    addresses *)
Theorem C46_initialised junk t i img : wf t = true -> shaped t i = true -> clean t i = true -> all_scalar t i -> gvar_init junk t i = Some img ->
  (forall e, In e (elements t i 0) -> el_reloc e <> [] -> size_of (el_ty e) = 8) -> rels_fit 0 (isize t) (g_rel img).
Proof.
  intros WF SH CL SC G L8. assert (SC': Forall (fun e => scalar (el_ty e) = true) (elements t i 0)) by (apply Forall_forall; exact SC). unfold gvar_init in G. rewrite (write_is_els t i 0 (Img junk []) SH CL SC' WF) in G.
  destruct (els_bits _ _ _ _ _ (elements_ok t i 0 WF) (elements_seqd t i 0 WF) G) as (R & _). rewrite R. cbn [g_rel app]. eapply relocs_fit; [exact (elements_seqd t i 0 WF)|lia|]. apply Forall_forall. exact L8.
Qed.
Print Assumptions C46_initialised.
(** The whole file, read by the assembler: every defined variable has its binding, and a
    common symbol, or a symbol at an aligned place of .data, .bss, .tdata or .tbss where
    its bytes stand. *)
Theorem C46_object_file fcommon prog : NoDup (map o_name (filter emitted prog)) -> (forall v, In v prog -> emitted v = true -> good_var v) ->
  exists l, emit_data fcommon prog = Some l /\ forall v, In v prog -> emitted v = true -> has_var fcommon (lines empty l) v.
Proof. intros ND GV. apply emit_data_has; [cbn; lia|exact ND|exact GV]. Qed.
Print Assumptions C46_object_file.
(** Of the alignments from 1 on, just the powers of two are accepted *)
Theorem C46_alignment n k : 1 <= n < 2 ^ 31 -> (llog2 n = Some k <-> 0 <= k < 31 /\ n = 2 ^ k).
Proof.
  intros N. split.
  - intros H. unfold llog2 in H. destruct (llog2_loop_only 31 n 0 k H ltac:(change (Z.of_nat 31) with 31; lia) ltac:(lia)) as (K & E). rewrite Z.sub_0_r in E. split; [|exact E]. split; [exact K|]. destruct (Z_lt_le_dec k 31) as [L|L]; [exact L|]. pose proof (Z.pow_le_mono_r 2 31 k ltac:(lia) L). lia.
  - intros (K & ->). now apply llog2_pow.
Qed.
Print Assumptions C46_alignment.
(** char *p = &y + 1 (static), int t (tentative), long z = 0 in .tbss, a declaration *)
Definition ex_prog : list gobj :=
  [GObj (bs "p"%string) false true true false false 8 8 (Some (Img (fun _ => 0) [(0, bs "y"%string, 1)])); GObj (bs "t"%string) false true false true false 4 4 None;
   GObj (bs "z"%string) false true false false true 8 8 None; GObj (bs "c"%string) false true false false false 3 1 (Some (Img (fun k => 65 + k) [])); GObj (bs "e"%string) false false false false false 4 4 None].
Example C46_nonvacuous : NoDup (map o_name (filter emitted ex_prog)) /\ (forall v, In v ex_prog -> emitted v = true -> good_var v) /\
  option_map (@length aline) (emit_data true ex_prog) = Some 23%nat /\
  (exists l, emit_data true ex_prog = Some l /\ sym (lines empty l) (bs "c"%string) = Some (Defined SData 8) /\ sym (lines empty l) (bs "t"%string) = Some (Common 4 4) /\ length (body (lines empty l) SData) = 11%nat).
Proof.
  split; [repeat (constructor; [intros K; repeat (destruct K as [K|K]; [discriminate K|]); destruct K|]); constructor|]. split; [|split; [vm_compute; reflexivity|eexists; split; [vm_compute; reflexivity|]; split; [vm_compute; reflexivity|]; split; vm_compute; reflexivity]].
  intros v I0 E. destruct I0 as [<-|[<-|[<-|[<-|[<-|[]]]]]]; try discriminate E; (split; [|split; [cbn [o_size]; lia|cbn; try exact I; lia]]); [exists 3|exists 2|exists 3|exists 0]; (split; [lia|reflexivity]).
Qed.
(** An int that holds an address: int x = (int)&y is 8 bytes of data in an object of 4 *)
Theorem C46_narrow_pointer_refuted : exists img d, gvar_init (fun _ => 0) int_ (Init (Some (NCast (TInt false) (NAddr (NVar (VGlobal (bs "y"%string)) (TInt false))))) None []) = Some img /\
  emit_bytes 4 4 0 (g_rel img) (g_buf img) = Some d /\ length (assemble d) = 8%nat.
Proof. do 2 eexists. split; [vm_compute; reflexivity|]. split; [vm_compute; reflexivity|vm_compute; reflexivity]. Qed.

(** ** C56 *)
Section Local.
Variable E : env.
(** Types of the initializers that suit the parts they are for *)
Definition suits (t : ity) (i : init) : Prop := forall e, In e (elements t i 0) -> well_typed (el_expr e) = true /\ convertible (ntype (el_expr e)) (el_ty e) = true.
(** The tree for [T x = init] zeroes the object and then, in order, evaluates each
    initializer, converts it and stores it in its part *)
Theorem C56_local_partial x t i : wf t = true -> shaped t i = true -> modest t = true -> suits t i -> 0 <= e_addr E x -> e_addr E x + isize t < 2 ^ 64 ->
  exists n, lvar_initializer x t i = Some n /\ well_typed n = true /\ forall m, option_map snd (ev E false n m) = run_init (ev E false) (e_valid E) (e_addr E x) (isize t) (elements t i 0) m.
Proof.
  intros WF SH MD SU A0 A1. assert (P: place E (NVar x (erase t)) (e_addr E x + 0)) by (rewrite Z.add_0_r; now apply place_var).
  assert (F: Forall expr_ok (elements t i 0)) by (apply Forall_forall; exact SU).
  destruct (lvar_does E t i (NVar x (erase t)) (e_addr E x) 0 WF SH MD eq_refl eq_refl P ltac:(lia) ltac:(lia) F) as (n & L & (W & D)). exists (NComma (NMemzero x (erase t)) n). unfold lvar_initializer. rewrite L. split; [reflexivity|]. split; [cbn [well_typed]; exact W|].
  intros m. unfold run_init, isize. rewrite <- D. change (ev E false (NComma (NMemzero x (erase t)) n) m) with (let* (_, m) := (if accessible (e_valid E) (e_addr E x) (size_of (erase t)) then Some (0, le_store m (e_addr E x) (size_of (erase t)) 0) else None) in ev E false n m).
  destruct (accessible (e_valid E) (e_addr E x) (size_of (erase t))); reflexivity.
Qed.
(** If the initializers neither look at the object nor have side effects: afterwards every
    initialised part has its value converted to its type, the rest of the object is zero,
    and nothing else has changed *)
Theorem C56_values_partial x t i val m : wf t = true -> shaped t i = true -> modest t = true -> suits t i -> all_scalar t i -> 0 <= e_addr E x -> e_addr E x + isize t < 2 ^ 64 -> accessible (e_valid E) (e_addr E x) (isize t) = true ->
  (forall e, In e (elements t i 0) -> settled (ev E false) (e_addr E x) (isize t) m (el_expr e) (val e)) ->
  exists n v m', lvar_initializer x t i = Some n /\ ev E false n m = Some (v, m') /\
    (forall e c k, In e (elements t i 0) -> conv (el_ty e) (val e) = Some c -> 0 <= k < el_width e -> bit m' (8 * e_addr E x + (el_lo e + k)) = Z.testbit c k) /\
    (forall p, 0 <= p < 8 * isize t -> (forall e, In e (elements t i 0) -> ~ el_has e p) -> bit m' (8 * e_addr E x + p) = false) /\
    (forall a, a < e_addr E x \/ e_addr E x + isize t <= a -> m' a = m a).
Proof.
  intros WF SH MD SU SC A0 A1 AC ST. destruct (C56_local_partial x t i WF SH MD SU A0 A1) as (n & L & _ & D). specialize (D m). unfold run_init in D. rewrite AC in D. set (m1 := le_store m (e_addr E x) (isize t) 0) in *.
  assert (SC': Forall (fun e => scalar (el_ty e) = true) (elements t i 0)) by (apply Forall_forall; exact SC).
  assert (O1: outside (e_addr E x) (isize t) m m1) by (intros a A; now apply GenBits.le_store_out).
  destruct (run_bits (ev E false) (e_valid E) (e_addr E x) (isize t) val m AC (elements t i 0) _ _ m1 (elements_ok t i 0 WF) (elements_in t i 0 WF) SC' (elements_seqd t i 0 WF) ST O1) as (m' & R & O2 & B1 & B2). rewrite R in D.
  destruct (ev E false n m) as [[v m'']|] eqn:EV; [|discriminate D]. cbn [option_map snd] in D. injection D as ->. exists n, v, m'. split; [exact L|]. split; [exact EV|]. split; [|split].
  - intros e c k I CV K. rewrite (B1 e c (el_lo e + k) I CV) by (unfold el_has; lia). f_equal. lia.
  - intros p P N. rewrite (B2 p N). unfold m1. rewrite le_store_bit. replace ((8 * e_addr E x <=? 8 * e_addr E x + p) && (8 * e_addr E x + p <? 8 * (e_addr E x + isize t))) with true by lia. apply Z.bits_0.
  - exact O2.
Qed.
(** ... and so does the printed code *)
Theorem C56_code_partial W goff fp room x t i : setting E W goff fp -> wf t = true -> shaped t i = true -> modest t = true -> suits t i -> 0 <= e_addr E x -> e_addr E x + isize t < 2 ^ 64 -> exists n, lvar_initializer x t i = Some n /\
  forall s c s' q m m', gen goff false n s = Some (c, s') -> qual false n = Some q -> run_init (ev E false) (e_valid E) (e_addr E x) (isize t) (elements t i 0) m = Some m' -> exists v, computes E W fp room c q (need n) m v m'.
Proof.
  intros HS WF SH MD SU A0 A1. destruct (C56_local_partial x t i WF SH MD SU A0 A1) as (n & L & WT & D). exists n. split; [exact L|]. intros s c s' q m m' G Q R. specialize (D m). rewrite R in D. destruct (ev E false n m) as [[v m'']|] eqn:EV; [|discriminate D]. cbn [option_map snd] in D. injection D as ->.
  exists v. exact (C38_expression_code E W goff fp room n false s c s' q m v m' HS WT Q G EV).
Qed.
End Local.
Print Assumptions C56_local_partial.
Print Assumptions C56_values_partial.
Print Assumptions C56_code_partial.

(** struct { int f:5; int g:9; short s[2]; } x = { 2, -3, { [1] = v + 1 } } with v variable 2
    of ElabProps (5), x variable 7 *)
Definition lx_ty : ity := IStruct 1 8 4 [(0, Some (0, 5), int_); (0, Some (5, 9), int_); (4, None, IArr (IScal (TShort false)) 2)].
Definition lx_expr : node := NBin Add (TInt false) (NVar (VLocal 2) (TInt false)) (NNum (TInt false) 1).
Definition lx_init : init := kids [lit 2; lit (-3); kids [none; Init (Some lx_expr) None []]].
Definition lx_val (e : elem) : Z := match el_expr e with NNum _ z => z | _ => 6 end.
Example C56_nonvacuous : wf lx_ty = true /\ shaped lx_ty lx_init = true /\ modest lx_ty = true /\ suits lx_ty lx_init /\ all_scalar lx_ty lx_init /\ accessible (e_valid sx_env) (loc 7) (isize lx_ty) = true /\
  (forall e, In e (elements lx_ty lx_init 0) -> settled (ev sx_env false) (loc 7) (isize lx_ty) sx_mem (el_expr e) (lx_val e)) /\
  exists n c s', lvar_initializer (VLocal 7) lx_ty lx_init = Some n /\ qual false n = Some 64 /\ gen sx_goff false n (GS 0 1) = Some (c, s') /\
  value_and (ev sx_env false n (fun a => 255)) (fun m => le_load m (loc 7) 8) = Some (0, 2 + 509 * 2 ^ 5) /\ value_and (ev sx_env false n sx_mem) (fun m => le_load m (loc 7) 8) = Some (6, 2 + 509 * 2 ^ 5 + 6 * 2 ^ 48).
Proof.
  split; [reflexivity|]. split; [reflexivity|]. split; [reflexivity|]. split; [intros e I; repeat (destruct I as [<-|I]; [split; reflexivity|]); destruct I|]. split; [intros e I; repeat (destruct I as [<-|I]; [reflexivity|]); destruct I|]. split; [reflexivity|]. split.
  - intros e I m' O. do 2 (destruct I as [<-|I]; [reflexivity|]). destruct I as [<-|[]]. cbn [el_expr lx_val]. unfold lx_expr. cbn [ev ntype]. cbn [val_of int_repr negb in_range]. change (in_range true 32 1) with true. cbv iota. unfold load_val. cbn [is_aggregate size_of]. change (accessible (e_valid sx_env) (e_addr sx_env (VLocal 2)) 4) with true. cbv iota.
    rewrite (GenBits.le_load_ext m' sx_mem); [reflexivity|]. intros k K. f_equal. apply O. right. unfold loc, sx_env, e_addr. cbn. lia.
  - do 3 eexists. split; [vm_compute; reflexivity|]. split; [vm_compute; reflexivity|]. split; [vm_compute; reflexivity|]. split; vm_compute; reflexivity.
Qed.
