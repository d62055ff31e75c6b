(** Statements and their meaning (C11 6.8), with GNU case ranges. *)
From Verif Require RvSpec.
From Verif Require Import Base TypeModel IntArith NodeModel ValSpec NodeSpec GenSpec.

(** Statements as written. A block is a nest of [SSeq]; a missing else is [SSkip]; the
    declarations of a block are its initializing expressions. [SFor init c inc b]: [init]
    is a list because a declaration may initialize several variables. *)
Inductive stmt :=
  | SSkip
  | SExpr (e : node)
  | SSeq (a b : stmt)
  | SIf (c : node) (a b : stmt)
  | SSwitch (c : node) (b : stmt)
  | SCase (lo hi : Z) (s : stmt)             (* case lo ... hi: s *)
  | SDefault (s : stmt)
  | SFor (init : list node) (c inc : option node) (b : stmt)
  | SWhile (c : node) (b : stmt)
  | SDo (b : stmt) (c : node)
  | SGoto (l : bytes)
  | SBreak
  | SContinue
  | SLabel (l : bytes) (s : stmt)
  | SReturn (e : option node).

(** What remains to be done after the current statement. *)
Inductive cont :=
  | KStop
  | KSeq (s : stmt) (k : cont)
  | KHead (c inc : option node) (b : stmt) (k : cont)    (* test of a for or while loop *)
  | KBody (c inc : option node) (b : stmt) (k : cont)    (* end of its body *)
  | KDo (b : stmt) (c : node) (k : cont)                 (* end of the body of a do loop *)
  | KSwitch (k : cont).

(** ** switch *)
(** Type to which the controlling expression and the constants are converted (6.8.4.2p5). *)
Definition switch_ty (t : ty) : ty := match int_repr t with Some (_, w) => if w <? 32 then TInt false else t | None => t end.
Definition case_hit (t : ty) (lo hi v : Z) : bool :=
  match conv (switch_ty t) lo, conv (switch_ty t) hi with
  | Some a, Some b => (a <=? v) && (v <=? b)
  | _, _ => false
  end.
Definition orelse {X} (a b : option X) : option X := match a with Some _ => a | None => b end.
(** The statement after the case label that [v] selects, and what follows it; labels of inner
    switches do not belong to this one. *)
Fixpoint find_case (t : ty) (v : Z) (s : stmt) (k : cont) : option (stmt * cont) :=
  match s with
  | SSeq a b => orelse (find_case t v a (KSeq b k)) (find_case t v b k)
  | SIf _ a b => orelse (find_case t v a k) (find_case t v b k)
  | SCase lo hi s => if case_hit t lo hi v then Some (s, k) else find_case t v s k
  | SDefault s | SLabel _ s => find_case t v s k
  | SFor _ c inc b => find_case t v b (KBody c inc b k)
  | SWhile c b => find_case t v b (KBody (Some c) None b k)
  | SDo b c => find_case t v b (KDo b c k)
  | _ => None
  end.
Fixpoint find_default (s : stmt) (k : cont) : option (stmt * cont) :=
  match s with
  | SSeq a b => orelse (find_default a (KSeq b k)) (find_default b k)
  | SIf _ a b => orelse (find_default a k) (find_default b k)
  | SDefault s => Some (s, k)
  | SCase _ _ s | SLabel _ s => find_default s k
  | SFor _ c inc b => find_default b (KBody c inc b k)
  | SWhile c b => find_default b (KBody (Some c) None b k)
  | SDo b c => find_default b (KDo b c k)
  | _ => None
  end.
(** ** goto *)
Fixpoint find_label (l : bytes) (s : stmt) (k : cont) : option (stmt * cont) :=
  match s with
  | SSeq a b => orelse (find_label l a (KSeq b k)) (find_label l b k)
  | SIf _ a b => orelse (find_label l a k) (find_label l b k)
  | SLabel l' s => if beq l l' then Some (s, k) else find_label l s k
  | SCase _ _ s | SDefault s => find_label l s k
  | SSwitch _ b => find_label l b (KSwitch k)
  | SFor _ c inc b => find_label l b (KBody c inc b k)
  | SWhile c b => find_label l b (KBody (Some c) None b k)
  | SDo b c => find_label l b (KDo b c k)
  | _ => None
  end.

(** ** Execution *)
Inductive conf :=
  | Run (s : stmt) (k : cont) (m : mem)
  | Returned (v : option Z) (m : mem)        (* by a return statement *)
  | Finished (m : mem).                      (* at the end of the function *)

Section Exec.
Variable E : env.
Variable rt : ty.        (* result type of the function *)
Variable body : stmt.    (* body of the function *)

Definition test (c : option node) (m : mem) : option (bool * mem) :=
  match c with
  | None => Some (true, m)
  | Some c => if is_scalar (ntype c) then let* (v, m) := ev E false c m in Some (truth v, m) else None
  end.
Fixpoint effects (l : list node) (m : mem) : option mem :=
  match l with [] => Some m | e :: l => let* (_, m) := ev E false e m in effects l m end.

Definition sstep (s : conf) : option conf :=
  match s with
  | Returned _ _ | Finished _ => None
  | Run s k m =>
      match s with
      | SSkip =>
          match k with
          | KStop => Some (Finished m)
          | KSeq s k => Some (Run s k m)
          | KHead c inc b k => let* (t, m) := test c m in Some (if t then Run b (KBody c inc b k) m else Run SSkip k m)
          | KBody c inc b k => let* m := effects (match inc with Some e => [e] | None => [] end) m in Some (Run SSkip (KHead c inc b k) m)
          | KDo b c k => let* (t, m) := test (Some c) m in Some (if t then Run b (KDo b c k) m else Run SSkip k m)
          | KSwitch k => Some (Run SSkip k m)
          end
      | SExpr e => let* m := effects [e] m in Some (Run SSkip k m)
      | SSeq a b => Some (Run a (KSeq b k) m)
      | SIf c a b => let* (t, m) := test (Some c) m in Some (Run (if t then a else b) k m)
      | SSwitch c b =>
          let* (v, m) := ev E false c m in
          match orelse (find_case (ntype c) v b (KSwitch k)) (find_default b (KSwitch k)) with
          | Some (s, k) => Some (Run s k m)
          | None => Some (Run SSkip k m)
          end
      | SCase _ _ s | SDefault s | SLabel _ s => Some (Run s k m)
      | SFor init c inc b => let* m := effects init m in Some (Run SSkip (KHead c inc b k) m)
      | SWhile c b => Some (Run SSkip (KHead (Some c) None b k) m)
      | SDo b c => Some (Run b (KDo b c k) m)
      | SGoto l => let* (s, k) := find_label l body KStop in Some (Run s k m)
      | SBreak =>
          match k with
          | KSeq _ k => Some (Run SBreak k m)
          | KBody _ _ _ k | KDo _ _ k | KSwitch k => Some (Run SSkip k m)
          | KStop | KHead _ _ _ _ => None
          end
      | SContinue =>
          match k with
          | KSeq _ k | KSwitch k => Some (Run SContinue k m)
          | KBody _ _ _ _ | KDo _ _ _ => Some (Run SSkip k m)
          | KStop | KHead _ _ _ _ => None
          end
      | SReturn None => Some (Returned None m)
      | SReturn (Some e) => let* (v, m) := ev E false (NCast rt e) m in Some (Returned (Some v) m)
      end
  end.
Inductive ssteps : conf -> conf -> Prop :=
  | ssteps_refl s : ssteps s s
  | ssteps_step s s1 s2 : sstep s = Some s1 -> ssteps s1 s2 -> ssteps s s2.
(** It never ends and never goes wrong. *)
Definition runs_forever (s : conf) : Prop := forall s', ssteps s s' -> sstep s' <> None.
End Exec.

(** ** Which statements *)
(** The case labels and the number of defaults that belong to a switch with body [s]. *)
Fixpoint cases_of (s : stmt) : list (Z * Z) :=
  match s with
  | SSeq a b | SIf _ a b => cases_of b ++ cases_of a
  | SCase lo hi s => (lo, hi) :: cases_of s
  | SDefault s | SLabel _ s | SFor _ _ _ s | SWhile _ s | SDo s _ => cases_of s
  | _ => []
  end.
Fixpoint defaults (s : stmt) : nat :=
  match s with
  | SSeq a b | SIf _ a b => defaults a + defaults b
  | SDefault s => S (defaults s)
  | SCase _ _ s | SLabel _ s | SFor _ _ _ s | SWhile _ s | SDo s _ => defaults s
  | _ => 0
  end%nat.
Fixpoint user_labels (s : stmt) : list bytes :=
  match s with
  | SSeq a b | SIf _ a b => user_labels b ++ user_labels a
  | SLabel l s => l :: user_labels s
  | SCase _ _ s | SDefault s | SFor _ _ _ s | SWhile _ s | SDo s _ | SSwitch _ s => user_labels s
  | _ => []
  end.
(** The constant is in the range of int and of the promoted type of the expression. *)
Definition case_fits (t : ty) (z : Z) : bool := (- 2 ^ 31 <=? z) && (z <? 2 ^ 31) && val_of (switch_ty t) z.
Fixpoint disjoint (l : list (Z * Z)) : bool :=
  match l with [] => true | (a, b) :: r => forallb (fun x => (b <? fst x) || (snd x <? a)) r && disjoint r end.
Definition switch_ok (c : node) (s : stmt) : bool :=
  forallb (fun x => case_fits (ntype c) (fst x) && case_fits (ntype c) (snd x)) (cases_of s) &&
  disjoint (cases_of s) && Nat.leb (defaults s) 1.

(** The code for all expressions is right (see [GenSpec.qual]), to as many bits as needed
    where they are used, and they need at most [slots] stack slots. *)
Section Ok.
Variables (rt : ty) (slots : Z).
Definition expr_ok (bits : Z) (e : node) : bool :=
  well_typed e && (match qual false e with Some q => bits <=? q | None => false end) && (need e <=? slots).
Fixpoint stmt_ok (s : stmt) : bool :=
  match s with
  | SSkip | SGoto _ | SBreak | SContinue | SReturn None => true
  | SExpr e => expr_ok 0 e
  | SReturn (Some e) => expr_ok (ret_bits rt) (NCast rt e)
  | SSeq a b => stmt_ok a && stmt_ok b
  | SIf c a b => expr_ok 64 c && stmt_ok a && stmt_ok b
  | SSwitch c s => expr_ok 64 c && (match int_repr (ntype c) with Some _ => true | None => false end) && switch_ok c s && stmt_ok s
  | SCase _ _ s | SDefault s | SLabel _ s => stmt_ok s
  | SFor init c inc b =>
      forallb (expr_ok 0) init && (match c with Some c => expr_ok 64 c | None => true end) &&
      (match inc with Some e => expr_ok 0 e | None => true end) && stmt_ok b
  | SWhile c b | SDo b c => expr_ok 64 c && stmt_ok b
  end.
End Ok.

(** [n] steps of the machine *)
Fixpoint steps_n (W : RvSpec.world) (p : RvSpec.prog) (n : nat) (s s' : RvSpec.state) : Prop :=
  match n with O => s = s' | S n => exists s1, RvSpec.step W p s = Some s1 /\ steps_n W p n s1 s' end.

(** ** Which statements a compiler must accept *)
(** break only in a loop or switch, continue only in a loop, case and default only in a
    switch, no empty case range (of ints) *)
Fixpoint nested (loop sw : bool) (s : stmt) : bool :=
  match s with
  | SBreak => loop || sw
  | SContinue => loop
  | SCase lo hi s => sw && (sx 32 lo <=? sx 32 hi) && nested loop sw s
  | SDefault s => sw && nested loop sw s
  | SSwitch _ s => nested loop true s
  | SFor _ _ _ s | SWhile _ s | SDo s _ => nested true sw s
  | SSeq a b | SIf _ a b => nested loop sw a && nested loop sw b
  | SLabel _ s => nested loop sw s
  | SSkip | SExpr _ | SGoto _ | SReturn _ => true
  end.
Fixpoint gotos (s : stmt) : list bytes :=
  match s with
  | SGoto l => [l]
  | SSeq a b | SIf _ a b => gotos a ++ gotos b
  | SCase _ _ s | SDefault s | SLabel _ s | SFor _ _ _ s | SWhile _ s | SDo s _ | SSwitch _ s => gotos s
  | _ => []
  end.
