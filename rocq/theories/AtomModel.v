(** Model of compound assignment to objects of atomic type: parser.c to_assign (the atomic
    part), codegen.c ND_CAS. Instructions as in GenModel, with lr.w and sc.w. The .aq
    suffix is dropped (the machine is sequentially consistent). *)
From Verif Require Import Base TypeModel IntArith NodeModel ValSpec RvSpec GenModel AtomSpec.

(** A function that prints code with atomic instructions *)
Definition GA := gst -> option (list ainstr * gst).
Definition lift (g : G) : GA := fun s => match g s with Some (c, s) => Some (map AI c, s) | None => None end.
Definition aemit (c : list ainstr) : GA := fun s => Some (c, s).
Definition aseq (a b : GA) : GA := fun s =>
  match a s with
  | Some (ca, s1) => match b s1 with Some (cb, s2) => Some (ca ++ cb, s2) | None => None end
  | None => None
  end.
Notation "a ;;; b" := (aseq a b) (at level 62, right associativity).
Definition acount (f : Z -> GA) : GA := fun s => f (g_cnt s) (GS (g_depth s) (g_cnt s + 1)).

(** codegen.c:1366-1388 the labels of ND_CAS *)
Definition cas_retry (c : Z) : label := bs ".L.cas_retry." ++ dec c.
Definition cas_return (c : Z) : label := bs ".L.cas_return." ++ dec c.
Definition cas_end (c : Z) : label := bs ".L.cas_end." ++ dec c.
Definition T3 := T 3. Definition T4 := T 4.

Section Gen.
Variable goff : nat -> Z.

(** codegen.c:1362-1390 the part of ND_CAS after its operands are in t0-t3 *)
Definition cas_tail (c : Z) : list ainstr :=
  [AI (ILabel (cas_retry c));
   ALr T4 T0;
   AI (IBr BNE T4 T2 (cas_return c));
   ASc A0 T3 T0;
   AI (Bnez A0 (cas_retry c));
   AI (ILabel (cas_return c));
   AI (IOp SUBW T2 T4 T2);
   AI (Seqz A0 T2);
   AI (Beqz T2 (cas_end c));
   AI (IStore 4 T4 0 T1);
   AI (ILabel (cas_end c))].
(** codegen.c:1345-1390 ND_CAS *)
Definition gen_cas (addr old new : node) : GA :=
  lift (gen goff false addr ;; emit [Mv T0 A0] ;;
        gen goff false old ;; emit [Mv T1 A0] ;;
        match base_of (ntype old) with Some b => load b | None => fail end ;; emit [Mv T2 A0] ;;
        gen goff false new ;; emit [Mv T3 A0]) ;;;
  acount (fun c => aemit (cas_tail c)).

(** parser.c:425-480 the statement expression made of A op= B from `old = *addr` on, and
    codegen.c:1699-1712 (ND_DO), 1169-1172 (ND_NOT), 1126-1130 (ND_STMT_EXPR): the code of
      old = *addr; do { new = old op val; } while (!CAS(addr, &old, new)); new;
    [ta], [tb]: the types of A and B; the locals addr, val, old and new are number [k] and
    following; [u], [u + 1]: the numbers of the labels of the loop. *)
Definition atomic_rmw (o : bop) (ta tb : ty) (k : nat) (u : Z) : GA := fun s =>
  let addr := NVar (VLocal k) (TPtr ta) in
  let val := NVar (VLocal (S k)) tb in
  let old := NVar (VLocal (S (S k))) ta in
  let new := NVar (VLocal (S (S (S k)))) ta in
  let* d := mk_deref addr in
  let* get := mk_assign old d in
  let* body := mk_assign new (mk_bin o old val) in
  (lift (gen goff false get) ;;;
   acount (fun n =>
     lift (emit [Lab (LBegin n)] ;; gen goff false body ;; emit [ILabel (name (LUniq (u + 1)))]) ;;;
     gen_cas addr (NAddr old) new ;;;
     lift (emit [Seqz A0 A0] ;; emit [Seqz A0 A0] ;; emit [Beqz A0 (name (LBegin n)); ILabel (name (LUniq u))])) ;;;
   lift (gen goff false new)) s.

(** parser.c:410-480: all of it; `parts` as in NodeModel.to_assign. An A that is a member
    of a structure never gets here (parser.c:376-408). *)
Definition atomic_assign (parts : bop * node * node) (k : nat) (u : Z) : GA := fun s =>
  let '(o, l, r) := parts in
  match l with
  | NMember _ _ => let* n := to_assign parts k in lift (gen goff false n) s
  | _ =>
      let* e1 := mk_assign (NVar (VLocal k) (TPtr (ntype l))) (NAddr l) in
      let* e2 := mk_assign (NVar (VLocal (S k)) (ntype r)) r in
      (lift (gen goff false e1 ;; gen goff false e2) ;;; atomic_rmw o (ntype l) (ntype r) k u) s
  end.
End Gen.
