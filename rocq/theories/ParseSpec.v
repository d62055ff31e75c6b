(** The grammar of C expressions (C11 6.5), with the GNU forms a ?: b, &&label, _Alignof
    of an expression and three built-in functions. *)
From Verif Require Import Base NodeModel ParseModel.

(** Operators by precedence, the tightest first (6.5.5 - 6.5.14); all associate to the left *)
Definition precedence : list (list (punct * xop)) :=
  [[(Star, XO SMul); (Slash, XO SDiv); (Percent, XO SMod)];
   [(Plus, XO SAdd); (Minus, XO SSub)];
   [(LtLt, XO SShl); (GtGt, XO SShr)];
   [(PLt, XO SLt); (PGt, XO SGt); (PLe, XO SLe); (PGe, XO SGe)];
   [(EqEq, XO SEq); (BangEq, XO SNe)];
   [(Amp, XO SAnd)]; [(Caret, XO SXor)]; [(Bar, XO SOr)]; [(AmpAmp, XAnd)]; [(BarBar, XOr)]].
Definition infix (k : nat) (p : punct) (o : xop) : Prop := exists l, nth_error precedence k = Some l /\ In (p, o) l.
Definition unary_operators : list (punct * uop) := [(Amp, UAddr); (Star, UDeref); (Plus, UPlus); (Minus, UNeg); (Tilde, UBitNot); (Bang, UNot)].
Definition assignments : list (punct * option sop) :=
  [(PEq, None); (StarEq, Some SMul); (SlashEq, Some SDiv); (PercentEq, Some SMod); (PlusEq, Some SAdd); (MinusEq, Some SSub);
   (LtLtEq, Some SShl); (GtGtEq, Some SShr); (AmpEq, Some SAnd); (CaretEq, Some SXor); (BarEq, Some SOr)].

(** Nonterminals: primary, postfix, unary, cast, the ten binary ones, conditional,
    assignment, expression *)
Inductive nt := GPrim | GPost | GUnary | GCast | GBin (k : nat) | GCond | GAssign | GExpr.
Definition below (k : nat) : nt := match k with O => GCast | S j => GBin j end.
(** C11: the grammar of C. Taken: without a postfix operator after a compound literal, and
    without sizeof or _Alignof of one unless it is in parentheses. Loose: with more, any
    conditional expression to the left of an assignment, postfix operators after sizeof
    and _Alignof, and _Generic without an association. *)
Inductive mode := C11 | Taken | Loose.
Definition literal (ts : list tok) : Prop := exists t i, ts = [KP LPar; KType t; KP RPar; KBrace i].
Inductive gr (m : mode) : nt -> list tok -> sx -> Prop :=
  | g_id n : gr m GPrim [KId n] (XAtom (AId n))
  | g_num n : gr m GPrim [KNum n] (XAtom (ANum n))
  | g_str s : gr m GPrim [KStr s] (XAtom (AStr s))
  | g_paren ts e : gr m GExpr ts e -> gr m GPrim (KP LPar :: ts ++ [KP RPar]) e
  | g_generic ts c us l : gr m GAssign ts c -> assocs m us l -> (m <> Loose -> l <> []) -> gr m GPrim (KGeneric :: KP LPar :: ts ++ us ++ [KP RPar]) (XGeneric c l)
  | g_compat t u : gr m GPrim [KCompat; KP LPar; KType t; KP Comma; KType u; KP RPar] (XAtom (ACompat t u))
  | g_cas t1 a t2 b t3 c : gr m GAssign t1 a -> gr m GAssign t2 b -> gr m GAssign t3 c -> gr m GPrim (KCas :: KP LPar :: t1 ++ KP Comma :: t2 ++ KP Comma :: t3 ++ [KP RPar]) (XCas a b c)
  | g_exch t1 a t2 b : gr m GAssign t1 a -> gr m GAssign t2 b -> gr m GPrim (KExch :: KP LPar :: t1 ++ KP Comma :: t2 ++ [KP RPar]) (XExch a b)
  | l_sizeof ts e : m = Loose -> gr m GUnary ts e -> gr m GPrim (KSizeof :: ts) (XUn USizeof e)
  | l_sizeof_type t : m = Loose -> gr m GPrim [KSizeof; KP LPar; KType t; KP RPar] (XAtom (ASizeT t))
  | l_alignof ts e : m = Loose -> gr m GUnary ts e -> gr m GPrim (KAlignof :: ts) (XUn UAlignof e)
  | l_alignof_type t : m = Loose -> gr m GPrim [KAlignof; KP LPar; KType t; KP RPar] (XAtom (AAlignT t))
  | g_compound t i : m <> Taken -> gr m GPost [KP LPar; KType t; KP RPar; KBrace i] (XAtom (ACompound t i))
  | g_post ts e : gr m GPrim ts e -> gr m GPost ts e
  | g_index t1 a t2 i : gr m GPost t1 a -> gr m GExpr t2 i -> gr m GPost (t1 ++ KP LBrk :: t2 ++ [KP RBrk]) (XIndex a i)
  | g_call0 ts f : gr m GPost ts f -> gr m GPost (ts ++ [KP LPar; KP RPar]) (XCall f [])
  | g_call ts f us l : gr m GPost ts f -> arguments m us l -> gr m GPost (ts ++ KP LPar :: us ++ [KP RPar]) (XCall f l)
  | g_dot ts e x : gr m GPost ts e -> gr m GPost (ts ++ [KP Dot; KId x]) (XMem false e x)
  | g_arrow ts e x : gr m GPost ts e -> gr m GPost (ts ++ [KP Arrow; KId x]) (XMem true e x)
  | g_postinc ts e : gr m GPost ts e -> gr m GPost (ts ++ [KP PlusPlus]) (XPost true e)
  | g_postdec ts e : gr m GPost ts e -> gr m GPost (ts ++ [KP MinusMinus]) (XPost false e)
  | g_unary ts e : gr m GPost ts e -> gr m GUnary ts e
  | t_compound t i : m = Taken -> gr m GUnary [KP LPar; KType t; KP RPar; KBrace i] (XAtom (ACompound t i))
  | g_preinc ts e : gr m GUnary ts e -> gr m GUnary (KP PlusPlus :: ts) (XUn UInc e)
  | g_predec ts e : gr m GUnary ts e -> gr m GUnary (KP MinusMinus :: ts) (XUn UDec e)
  | g_prefix p u ts e : In (p, u) unary_operators -> gr m GCast ts e -> gr m GUnary (KP p :: ts) (XUn u e)
  | g_sizeof ts e : (m = Taken -> ~ literal ts) -> gr m GUnary ts e -> gr m GUnary (KSizeof :: ts) (XUn USizeof e)
  | g_sizeof_type t : gr m GUnary [KSizeof; KP LPar; KType t; KP RPar] (XAtom (ASizeT t))
  | g_alignof ts e : (m = Taken -> ~ literal ts) -> gr m GUnary ts e -> gr m GUnary (KAlignof :: ts) (XUn UAlignof e)
  | g_alignof_type t : gr m GUnary [KAlignof; KP LPar; KType t; KP RPar] (XAtom (AAlignT t))
  | g_label n : gr m GUnary [KP AmpAmp; KId n] (XAtom (ALabelOf n))
  | g_cast0 ts e : gr m GUnary ts e -> gr m GCast ts e
  | g_cast t ts e : gr m GCast ts e -> gr m GCast (KP LPar :: KType t :: KP RPar :: ts) (XCast t e)
  | g_operand k ts e : (k < 10)%nat -> gr m (below k) ts e -> gr m (GBin k) ts e
  | g_binary k p o t1 a t2 b : infix k p o -> gr m (GBin k) t1 a -> gr m (below k) t2 b -> gr m (GBin k) (t1 ++ KP p :: t2) (XBin o a b)
  | g_cond0 ts e : gr m (GBin 9) ts e -> gr m GCond ts e
  | g_cond t1 c t2 a t3 b : gr m (GBin 9) t1 c -> gr m GExpr t2 a -> gr m GCond t3 b -> gr m GCond (t1 ++ KP Quest :: t2 ++ KP Colon :: t3) (XCond c a b)
  | g_elvis t1 c t3 b : gr m (GBin 9) t1 c -> gr m GCond t3 b -> gr m GCond (t1 ++ KP Quest :: KP Colon :: t3) (XElvis c b)
  | g_assign0 ts e : gr m GCond ts e -> gr m GAssign ts e
  | g_assign t1 l p o t2 r : gr m GUnary t1 l -> In (p, o) assignments -> gr m GAssign t2 r -> gr m GAssign (t1 ++ KP p :: t2) (XAssign o l r)
  | l_assign t1 l p o t2 r : m = Loose -> gr m GCond t1 l -> In (p, o) assignments -> gr m GAssign t2 r -> gr m GAssign (t1 ++ KP p :: t2) (XAssign o l r)
  | g_expr ts e : gr m GAssign ts e -> gr m GExpr ts e
  | g_comma t1 a t2 b : gr m GExpr t1 a -> gr m GAssign t2 b -> gr m GExpr (t1 ++ KP Comma :: t2) (XComma a b)
with arguments (m : mode) : list tok -> list sx -> Prop :=
  | g_arg ts e : gr m GAssign ts e -> arguments m ts [e]
  | g_args ts e us l : gr m GAssign ts e -> arguments m us l -> arguments m (ts ++ KP Comma :: us) (e :: l)
with assocs (m : mode) : list tok -> list (option bytes * sx) -> Prop :=
  | g_assocs0 : assocs m [] []
  | g_assoc t ts e us l : gr m GAssign ts e -> assocs m us l -> assocs m (KP Comma :: KType t :: KP Colon :: ts ++ us) ((Some t, e) :: l)
  | g_default ts e us l : gr m GAssign ts e -> assocs m us l -> assocs m (KP Comma :: KDefault :: KP Colon :: ts ++ us) ((None, e) :: l).

(** A token after which an expression of this kind could go on *)
Definition is_tail (p : punct) : bool := match p with LPar | LBrk | Dot | Arrow | PlusPlus | MinusMinus => true | _ => false end.
Definition goes_on (g : nt) (p : punct) : Prop :=
  match g with
  | GPrim => False
  | GPost | GUnary | GCast => is_tail p = true
  | GBin k => is_tail p = true \/ exists j o, (j <= k)%nat /\ infix j p o
  | GCond => is_tail p = true \/ (exists j o, infix j p o) \/ p = Quest
  | GAssign => is_tail p = true \/ (exists j o, infix j p o) \/ p = Quest \/ exists o, In (p, o) assignments
  | GExpr => is_tail p = true \/ (exists j o, infix j p o) \/ p = Quest \/ (exists o, In (p, o) assignments) \/ p = Comma
  end.
Definition stops (g : nt) (rest : list tok) : Prop := match rest with KP p :: _ => ~ goes_on g p | _ => True end.

(** Trees up to the association of commas: (a, b), c and a, (b, c) *)
Fixpoint then_ (a b : sx) : sx := match a with XComma x y => XComma x (then_ y b) | _ => XComma a b end.
Fixpoint norm (e : sx) : sx :=
  match e with
  | XAtom a => XAtom a
  | XUn u e => XUn u (norm e)
  | XPost i e => XPost i (norm e)
  | XMem r e m => XMem r (norm e) m
  | XIndex a i => XIndex (norm a) (norm i)
  | XCall f l => XCall (norm f) (map norm l)
  | XGeneric c l => XGeneric (norm c) (map (fun x => (fst x, norm (snd x))) l)
  | XCas a b c => XCas (norm a) (norm b) (norm c)
  | XExch a b => XExch (norm a) (norm b)
  | XBin o a b => XBin o (norm a) (norm b)
  | XCond c a b => XCond (norm c) (norm a) (norm b)
  | XElvis a b => XElvis (norm a) (norm b)
  | XCast t e => XCast t (norm e)
  | XAssign o l r => XAssign o (norm l) (norm r)
  | XComma a b => then_ (norm a) (norm b)
  end.
Definition same_tree (a b : sx) : Prop := norm a = norm b.

(** ** Printing with as few parentheses as the grammar allows *)
Definition rank (g : nt) : nat := match g with GPrim => 0 | GPost => 1 | GUnary => 2 | GCast => 3 | GBin k => 4 + k | GCond => 14 | GAssign => 15 | GExpr => 16 end%nat.
Definition op_level (o : xop) : nat := match o with XO (SMul | SDiv | SMod) => 0 | XO (SAdd | SSub) => 1 | XO (SShl | SShr) => 2 | XO (SLt | SLe | SGt | SGe) => 3 | XO (SEq | SNe) => 4 | XO SAnd => 5 | XO SXor => 6 | XO SOr => 7 | XAnd => 8 | XOr => 9 end%nat.
Definition op_punct (o : xop) : punct :=
  match o with
  | XO SMul => Star | XO SDiv => Slash | XO SMod => Percent | XO SAdd => Plus | XO SSub => Minus | XO SShl => LtLt | XO SShr => GtGt
  | XO SLt => PLt | XO SLe => PLe | XO SGt => PGt | XO SGe => PGe | XO SEq => EqEq | XO SNe => BangEq | XO SAnd => Amp | XO SXor => Caret | XO SOr => Bar | XAnd => AmpAmp | XOr => BarBar
  end.
Definition assign_punct (o : option sop) : option punct :=
  match o with
  | None => Some PEq | Some SMul => Some StarEq | Some SDiv => Some SlashEq | Some SMod => Some PercentEq | Some SAdd => Some PlusEq | Some SSub => Some MinusEq
  | Some SShl => Some LtLtEq | Some SShr => Some GtGtEq | Some SAnd => Some AmpEq | Some SXor => Some CaretEq | Some SOr => Some BarEq | _ => None
  end.
Definition kind (e : sx) : nt :=
  match e with
  | XAtom (ASizeT _ | AAlignT _ | ALabelOf _) | XUn _ _ => GUnary
  | XAtom (ACompound _ _) | XCast _ _ => GCast
  | XAtom _ | XGeneric _ _ | XCas _ _ _ | XExch _ _ => GPrim
  | XPost _ _ | XMem _ _ _ | XIndex _ _ | XCall _ _ => GPost
  | XBin o _ _ => GBin (op_level o)
  | XCond _ _ _ | XElvis _ _ => GCond
  | XAssign _ _ _ => GAssign
  | XComma _ _ => GExpr
  end.
Definition wrap (g : nt) (e : sx) (ts : list tok) : list tok := if Nat.leb (rank (kind e)) (rank g) then ts else KP LPar :: ts ++ [KP RPar].
Definition atom_text (a : atom) : list tok :=
  match a with
  | AId n => [KId n] | ANum n => [KNum n] | AStr s => [KStr s] | ALabelOf n => [KP AmpAmp; KId n]
  | ASizeT t => [KSizeof; KP LPar; KType t; KP RPar] | AAlignT t => [KAlignof; KP LPar; KType t; KP RPar]
  | ACompound t i => [KP LPar; KType t; KP RPar; KBrace i] | ACompat t u => [KCompat; KP LPar; KType t; KP Comma; KType u; KP RPar]
  end.
Definition un_text (u : uop) : tok := match u with UPlus => KP Plus | UNeg => KP Minus | UAddr => KP Amp | UDeref => KP Star | UNot => KP Bang | UBitNot => KP Tilde | UInc => KP PlusPlus | UDec => KP MinusMinus | USizeof => KSizeof | UAlignof => KAlignof end.
Definition un_arg (u : uop) : nt := match u with UInc | UDec | USizeof | UAlignof => GUnary | _ => GCast end.
Fixpoint commas (l : list (list tok)) : list tok := match l with [] => [] | [t] => t | t :: r => t ++ KP Comma :: commas r end.
Fixpoint text (e : sx) : list tok :=
  let sub g e := wrap g e (text e) in
  match e with
  | XAtom a => atom_text a
  | XUn u e => un_text u :: sub (un_arg u) e
  | XPost i e => sub GPost e ++ [KP (if i then PlusPlus else MinusMinus)]
  | XMem r e m => sub GPost e ++ [KP (if r then Arrow else Dot); KId m]
  | XIndex a i => sub GPost a ++ KP LBrk :: sub GExpr i ++ [KP RBrk]
  | XCall f l => sub GPost f ++ KP LPar :: commas (map (sub GAssign) l) ++ [KP RPar]
  | XGeneric c l => KGeneric :: KP LPar :: sub GAssign c ++ flat_map (fun x => KP Comma :: match fst x with Some t => KType t | None => KDefault end :: KP Colon :: sub GAssign (snd x)) l ++ [KP RPar]
  | XCas a b c => KCas :: KP LPar :: sub GAssign a ++ KP Comma :: sub GAssign b ++ KP Comma :: sub GAssign c ++ [KP RPar]
  | XExch a b => KExch :: KP LPar :: sub GAssign a ++ KP Comma :: sub GAssign b ++ [KP RPar]
  | XBin o a b => sub (GBin (op_level o)) a ++ KP (op_punct o) :: sub (below (op_level o)) b
  | XCond c a b => sub (GBin 9) c ++ KP Quest :: sub GExpr a ++ KP Colon :: sub GCond b
  | XElvis a b => sub (GBin 9) a ++ KP Quest :: KP Colon :: sub GCond b
  | XCast t e => KP LPar :: KType t :: KP RPar :: sub GCast e
  | XAssign o l r => sub GUnary l ++ KP (match assign_punct o with Some p => p | None => PEq end) :: sub GAssign r
  | XComma a b => sub GExpr a ++ KP Comma :: sub GAssign b
  end.
(** Compound assignment has the operators C has, and _Generic an association *)
Fixpoint proper (e : sx) : bool :=
  match e with
  | XAtom _ => true
  | XUn _ e | XPost _ e | XMem _ e _ | XCast _ e => proper e
  | XIndex a b | XExch a b | XBin _ a b | XElvis a b | XComma a b => proper a && proper b
  | XCall f l => proper f && forallb proper l
  | XGeneric c l => proper c && match l with [] => false | _ => true end && forallb (fun x => proper (snd x)) l
  | XCas a b c | XCond a b c => proper a && proper b && proper c
  | XAssign o l r => match assign_punct o with Some _ => true | None => false end && proper l && proper r
  end.
