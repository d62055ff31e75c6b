(** Readings of the tree the parser builds, for the statements of C26 and C60. *)
From Verif Require Import Base TypeModel NodeModel StmtSpec StmtModel.

(** The goto statements of the source with the labels they jump to in the tree; the labels
    of the source with the labels they have in the tree. *)
Fixpoint goto_pairs (s : stmt) (x : snode) : list (bytes * Z) :=
  match s, x with
  | SGoto l, XGoto u => [(l, u)]
  | SSeq a b, XSeq a' b' | SIf _ a b, XIf _ a' b' => goto_pairs a a' ++ goto_pairs b b'
  | SSwitch _ s, XSwitch _ _ _ _ x | SCase _ _ s, XCase _ x | SDefault s, XCase _ x | SLabel _ s, XLabel _ _ x
  | SFor _ _ _ s, XFor _ _ _ x _ _ | SWhile _ s, XFor _ _ _ x _ _ | SDo s _, XDo x _ _ _ => goto_pairs s x
  | _, _ => []
  end.
Fixpoint label_pairs (s : stmt) (x : snode) : list (bytes * Z) :=
  match s, x with
  | SLabel l s, XLabel _ u x => (l, u) :: label_pairs s x
  | SSeq a b, XSeq a' b' | SIf _ a b, XIf _ a' b' => label_pairs a a' ++ label_pairs b b'
  | SSwitch _ s, XSwitch _ _ _ _ x | SCase _ _ s, XCase _ x | SDefault s, XCase _ x
  | SFor _ _ _ s, XFor _ _ _ x _ _ | SWhile _ s, XFor _ _ _ x _ _ | SDo s _, XDo x _ _ _ => label_pairs s x
  | _, _ => []
  end.
(** Every break and continue jumps to the label of the innermost statement of the right kind around it;
    [brk], [cont]: those labels. The shapes of [s] and [x] are the same. *)
Fixpoint innermost (brk cont : option Z) (s : stmt) (x : snode) : Prop :=
  match s, x with
  | SBreak, XGoto u => brk = Some u
  | SContinue, XGoto u => cont = Some u
  | SSeq a b, XSeq a' b' | SIf _ a b, XIf _ a' b' => innermost brk cont a a' /\ innermost brk cont b b'
  | SSwitch _ s, XSwitch _ _ _ u x => innermost (Some u) cont s x
  | SFor _ _ _ s, XFor _ _ _ x u v | SWhile _ s, XFor _ _ _ x u v | SDo s _, XDo x _ u v => innermost (Some u) (Some v) s x
  | SCase _ _ s, XCase _ x | SDefault s, XCase _ x | SLabel _ s, XLabel _ _ x => innermost brk cont s x
  | SSkip, XSkip | SExpr _, XExpr _ | SGoto _, XGoto _ | SReturn _, XReturn _ => True
  | _, _ => False
  end.
