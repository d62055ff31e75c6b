(** C62: declarators. The tree of C11 6.7.6 behind the tokens of a declaration gives the
    identifier its type, whatever the nesting of pointers, arrays, functions, parentheses and
    parameter lists; every type can be written down and is read back; findings. *)
From Verif Require Import Base IntArith DeclModel DeclSpec DeclProofs.
From Coq Require Import ZifyBool ZifyNat.
Local Notation length := List.length.

(** Every sequence of tokens is either read or rejected. *)
Theorem C62_total : forall abstract ts, parse_decl abstract ts <> DFuel /\ forall t x rest, parse_decl abstract ts = DOk (t, x, rest) -> exists pre, ts = pre ++ rest.
Proof.
  intros a ts. split.
  - unfold parse_decl. destruct (spec ts) as [b r]. destruct (enough (2 * length r + 2)) as [E _]. specialize (E r b a ltac:(lia)).
    destruct (declarator _ a r b) as [[[t x] r2]| |]; cbn in E; congruence.
  - intros t x rest H. unfold parse_decl in H. destruct (spec ts) as [b r] eqn:ES. apply spec_sound in ES. destruct ES as (s & -> & _).
    destruct (proj1 (sound _) a _ _ _ _ _ H) as (d & -> & _). exists (spec_toks s ++ toks d). now rewrite app_assoc.
Qed.
Print Assumptions C62_total.

(** Declarations and type names: the identifier and its type, and what follows is left. *)
Theorem C62_types : forall abstract b d rest, taken abstract d -> stops rest ->
  parse_decl abstract (DSpec b :: toks d ++ rest) = DOk (typ d (Bas b), name d, rest).
Proof. intros a b d rest T S. unfold parse_decl. cbn [spec]. apply (complete (Datatypes.S (length (toks d)))); auto; lia. Qed.
Print Assumptions C62_types.
(** Two trees for the same tokens give the same identifier the same type. *)
Theorem C62_unambiguous : forall abstract b d d', taken abstract d -> taken abstract d' -> toks d = toks d' -> name d = name d' /\ typ d (Bas b) = typ d' (Bas b).
Proof.
  intros a b d d' T T' E. assert (P := C62_types a b d [] T I). assert (P' := C62_types a b d' [] T' I). rewrite E, P' in P. injection P as -> ->. auto.
Qed.
Print Assumptions C62_unambiguous.
(** Whatever is accepted is a declarator followed by what is left, and the type is that of
    the declarator. *)
Theorem C62_trees : forall abstract ts t x rest, parse_decl abstract ts = DOk (t, x, rest) ->
  exists s d, ts = spec_toks s ++ toks d ++ rest /\ x = name d /\ (plain d -> t = typ d (spec_type s)).
Proof.
  intros a ts t x rest H. unfold parse_decl in H. destruct (spec ts) as [b r] eqn:ES. apply spec_sound in ES. destruct ES as (s & -> & ->).
  destruct (proj1 (sound _) a _ _ _ _ _ H) as (d & -> & -> & T). exists s, d. split; [reflexivity|]. split; [reflexivity|].
  destruct (T (spec_type s)) as (t' & E & K). rewrite H in E. injection E as <-. exact K.
Qed.
Print Assumptions C62_trees.
(** Every type C has can be declared: the declaration written for it is read back as it. *)
Theorem C62_round_trip : forall t x, valid t -> (x = None -> match t with Fun _ _ _ => False | _ => True end) -> parse_decl false (declaration t x) = DOk (t, x, []).
Proof.
  intros t x V N. unfold declaration. destruct (unwind_ok t V false (Direct (Name x))) as (A & B & C); [cbn; discriminate|destruct t; cbn; auto; destruct x; auto; destruct (N eq_refl)|].
  destruct (unwind t (Direct (Name x))) as [b d]. cbn [fst snd] in *. rewrite <- (app_nil_r (toks d)). rewrite C62_types; [|exact A|exact I]. rewrite B, C. reflexivity.
Qed.
Print Assumptions C62_round_trip.
Theorem C62_type_name : forall t, valid t -> (match t with Fun _ _ _ => False | _ => True end) -> parse_decl true (declaration t None ++ [DRPar]) = DOk (t, None, [DRPar]).
Proof.
  intros t V N. unfold declaration. destruct (unwind_ok t V true (Direct (Name None))) as (A & B & C); [intros _; reflexivity|destruct t; cbn; auto; destruct N|].
  destruct (unwind t (Direct (Name None))) as [b d]. cbn [fst snd] in *. cbn [app]. rewrite C62_types; [|exact A|exact I]. rewrite B, C. reflexivity.
Qed.
Print Assumptions C62_type_name.

(** int *( *f(char c, int a[3], ...))[2][5] *)
Definition ch : bytes := bs "char".
Definition idf : bytes := bs "f".
Definition idc : bytes := bs "c".
Definition ida : bytes := bs "a".
Definition ex_dcl : dcl :=
  Pointer [] (Direct (Array (Array (Paren (Pointer [false] (Direct (Func (Name (Some idf))
    (Params (PCons (SSpec ch) (Direct (Name (Some idc))) (PCons (SSpec intb) (Direct (Array (Name (Some ida)) [true] (Some (Some 3)))) PNil)) true))))) [] (Some (Some 2))) [] (Some (Some 5)))).
Definition ex_ty : dty := Fun (Ptr (Arr 2 (Arr 5 (Ptr (Bas intb))))) [(Some idc, Bas ch); (Some ida, Ptr (Bas intb))] true.
Example C62_types_met : taken false ex_dcl /\ typ ex_dcl (Bas intb) = ex_ty /\ name ex_dcl = Some idf /\ plain ex_dcl /\
  parse_decl false (DSpec intb :: toks ex_dcl ++ [DOther]) = DOk (ex_ty, Some idf, [DOther]).
Proof.
  assert (T : taken false ex_dcl) by (cbn; repeat split; try discriminate; try lia; intros [E _]; discriminate).
  split; [exact T|]. split; [reflexivity|]. split; [reflexivity|]. split; [cbn; repeat split; lia|]. rewrite C62_types; [reflexivity|exact T|exact I].
Qed.
(** int *( * )[3] as a type name *)
Example C62_type_name_met : taken true (Pointer [] (Direct (Array (Paren (Pointer [] (Direct (Name None)))) [] (Some (Some 3))))) /\
  parse_decl true ([DSpec intb; DStar; DLPar; DStar; DRPar; DLBrk; DExpr (Some 3); DRBrk] ++ [DRPar]) = DOk (Ptr (Arr 3 (Ptr (Bas intb))), None, [DRPar]).
Proof. split; [cbn; repeat split; try discriminate; lia|reflexivity]. Qed.
(** void ( *signal(int, void ( * )(int)))(int) *)
Definition handler : dty := Ptr (Fun (Bas voidb) [(None, Bas intb)] false).
Example C62_round_trip_met : valid (Fun handler [(None, Bas intb); (None, handler)] false) /\
  declaration (Fun handler [(None, Bas intb); (None, handler)] false) (Some idf) =
    [DSpec voidb; DLPar; DStar; DId idf; DLPar; DSpec intb; DComma; DSpec voidb; DLPar; DStar; DRPar; DLPar; DSpec intb; DRPar; DRPar; DRPar; DLPar; DSpec intb; DRPar].
Proof. split; [cbn; repeat split; discriminate|reflexivity]. Qed.

(** *** Findings *)
Definition int_int : dcl := Direct (Func (Name None) (Params (PCons (SSpec intb) (Direct (Name None)) PNil) false)).
Definition int_none : dcl := Direct (Func (Name None) (Params PNil false)).
(** Function types without a name: `sizeof(int ( * )(int (int)))` - the type `int (int)` is
    rejected, as a type name and as a parameter; `int ()` is read as int. *)
Theorem C62_abstract_function_refuted :
  typ int_int (Bas intb) = Fun (Bas intb) [(None, Bas intb)] false /\
  (forall abstract, parse_decl abstract (DSpec intb :: toks int_int ++ [DRPar]) = DErr) /\
  typ int_none (Bas intb) = Fun (Bas intb) [] false /\
  (forall abstract, parse_decl abstract (DSpec intb :: toks int_none ++ [DRPar]) = DOk (Bas intb, None, [DRPar])).
Proof. repeat split; intros [|]; vm_compute; reflexivity. Qed.
Print Assumptions C62_abstract_function_refuted.
(** A parameter declared as a variable length array stays one: it is no pointer (6.7.6.3p7). *)
Theorem C62_vla_parameter_refuted : exists d, typ d (Bas intb) = Fun (Bas intb) [(Some ida, Ptr (Bas intb))] false /\
  parse_decl false (DSpec intb :: toks d) = DOk (Fun (Bas intb) [(Some ida, Vla (Bas intb))] false, Some idf, []).
Proof.
  exists (Direct (Func (Name (Some idf)) (Params (PCons (SSpec intb) (Direct (Array (Name (Some ida)) [] (Some None))) PNil) false))).
  split; vm_compute; reflexivity.
Qed.
Print Assumptions C62_vla_parameter_refuted.
(** Sizes of arrays: `int a[-1]` is an array without a size, and sizes are taken modulo 2^32. *)
Theorem C62_size_refuted :
  parse_decl false [DSpec intb; DId ida; DLBrk; DExpr (Some (-1)); DRBrk] = parse_decl false [DSpec intb; DId ida; DLBrk; DRBrk] /\
  parse_decl false [DSpec ch; DId ida; DLBrk; DExpr (Some (2 ^ 32 + 3)); DRBrk] = DOk (Arr 3 (Bas ch), Some ida, []) /\
  parse_decl false [DSpec ch; DId ida; DLBrk; DExpr (Some (2 ^ 31)); DRBrk] = DOk (Arr (- 2 ^ 31) (Bas ch), Some ida, []).
Proof. repeat split; vm_compute; reflexivity. Qed.
Print Assumptions C62_size_refuted.
(** Accepted although C11 has a constraint or syntax against it: arrays of functions, a
    parameter without specifiers, an empty parameter at the end, dots alone; a function
    declared with () is one without parameters, not one with unknown parameters. *)
Theorem C62_accepted_refuted :
  parse_decl false [DSpec intb; DId ida; DLBrk; DExpr (Some 3); DRBrk; DLPar; DRPar] = DOk (Arr 3 (Fun (Bas intb) [] false), Some ida, []) /\
  parse_decl false [DSpec intb; DId idf; DLPar; DId ida; DRPar] = DOk (Fun (Bas intb) [(Some ida, Bas intb)] false, Some idf, []) /\
  parse_decl false [DSpec intb; DId idf; DLPar; DSpec ch; DComma; DRPar] = DOk (Fun (Bas intb) [(None, Bas ch); (None, Bas intb)] false, Some idf, []) /\
  parse_decl false [DSpec intb; DId idf; DLPar; DDots; DRPar] = DOk (Fun (Bas intb) [] true, Some idf, []) /\
  parse_decl false [DSpec intb; DId idf; DLPar; DRPar] = parse_decl false [DSpec intb; DId idf; DLPar; DVoid; DRPar].
Proof. repeat split; vm_compute; reflexivity. Qed.
Print Assumptions C62_accepted_refuted.
