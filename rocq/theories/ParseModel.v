(** Model of the expression parser, /repo/parser/parser.c:24-302 and 514-1071: which tree
    a sequence of tokens has. The trees are those of the source; what new_add, to_assign
    and the like build from them is in NodeModel. *)
From Verif Require Import Base NodeModel.

(** Tokens. A type name (read by typename, declarator.c) is one token here, and so is a
    braced initializer list (initializer.c). Names are not looked up. *)
Inductive punct :=
  | LPar | RPar | LBrk | RBrk | LBrace | RBrace | Dot | Arrow | PlusPlus | MinusMinus
  | Plus | Minus | Star | Amp | Bang | Tilde | Slash | Percent
  | LtLt | GtGt | PLt | PLe | PGt | PGe | EqEq | BangEq | Caret | Bar | AmpAmp | BarBar
  | Quest | Colon | Comma | Semi | Ellipsis
  | PEq | PlusEq | MinusEq | StarEq | SlashEq | PercentEq | AmpEq | BarEq | CaretEq | LtLtEq | GtGtEq.
(** The keywords of statements (parser.c:1139-1377) *)
Inductive kword := WReturn | WIf | WElse | WSwitch | WCase | WFor | WWhile | WDo | WAsm | WQual | WGoto | WBreak | WContinue.   (* WQual: volatile or inline, after asm *)
Inductive tok :=
  | KP (p : punct)
  | KId (n : bytes) | KNum (n : bytes) | KStr (s : bytes)
  | KType (t : bytes) | KBrace (i : bytes)
  | KSizeof | KAlignof | KGeneric | KDefault | KCompat | KCas | KExch
  | KW (w : kword).

Inductive atom := AId (n : bytes) | ANum (n : bytes) | AStr (s : bytes) | ALabelOf (n : bytes) | ASizeT (t : bytes) | AAlignT (t : bytes) | ACompound (t i : bytes) | ACompat (t u : bytes).
Inductive uop := UPlus | UNeg | UAddr | UDeref | UNot | UBitNot | UInc | UDec | USizeof | UAlignof.
Inductive xop := XO (o : sop) | XAnd | XOr.
Inductive sx :=
  | XAtom (a : atom)
  | XUn (u : uop) (e : sx)
  | XPost (inc : bool) (e : sx)
  | XMem (arrow : bool) (e : sx) (m : bytes)
  | XIndex (a i : sx)
  | XCall (f : sx) (args : list sx)
  | XGeneric (c : sx) (l : list (option bytes * sx))
  | XCas (a b c : sx) | XExch (a b : sx)
  | XBin (o : xop) (a b : sx)
  | XCond (c a b : sx)
  | XElvis (a b : sx)
  | XCast (t : bytes) (e : sx)
  | XAssign (o : option sop) (l r : sx)
  | XComma (a b : sx).

(** The ten functions mul (parser.c:621-646), add (732-752), shift (827-847), relational
    (850-880), equality (882-902), bitand (905-916), bitxor (919-930), bitor (933-944),
    logand (947-956) and logor (959-968) have one form, operand (op operand)*; they differ
    in their operators, and the operand is the function before (for mul: cast). a > b is
    new_binary(ND_LT, b, a): see new_op of NodeModel. *)
Definition binary (k : nat) (p : punct) : option xop :=
  match k, p with
  | 0%nat, Star => Some (XO SMul) | 0%nat, Slash => Some (XO SDiv) | 0%nat, Percent => Some (XO SMod)
  | 1%nat, Plus => Some (XO SAdd) | 1%nat, Minus => Some (XO SSub)
  | 2%nat, LtLt => Some (XO SShl) | 2%nat, GtGt => Some (XO SShr)
  | 3%nat, PLt => Some (XO SLt) | 3%nat, PLe => Some (XO SLe) | 3%nat, PGt => Some (XO SGt) | 3%nat, PGe => Some (XO SGe)
  | 4%nat, EqEq => Some (XO SEq) | 4%nat, BangEq => Some (XO SNe)
  | 5%nat, Amp => Some (XO SAnd)
  | 6%nat, Caret => Some (XO SXor)
  | 7%nat, Bar => Some (XO SOr)
  | 8%nat, AmpAmp => Some XAnd
  | 9%nat, BarBar => Some XOr
  | _, _ => None
  end.
(** parser.c:1019-1058: None is =, Some o the operator of o= *)
Definition assign_op (p : punct) : option (option sop) :=
  match p with
  | PEq => Some None
  | PlusEq => Some (Some SAdd) | MinusEq => Some (Some SSub) | StarEq => Some (Some SMul) | SlashEq => Some (Some SDiv) | PercentEq => Some (Some SMod)
  | AmpEq => Some (Some SAnd) | BarEq => Some (Some SOr) | CaretEq => Some (Some SXor) | LtLtEq => Some (Some SShl) | GtGtEq => Some (Some SShr)
  | _ => None
  end.
(** parser.c:762-811; the flag: the operand is a unary, not a cast *)
Definition prefix (p : punct) : option (uop * bool) :=
  match p with
  | Plus => Some (UPlus, false) | Minus => Some (UNeg, false) | Amp => Some (UAddr, false) | Star => Some (UDeref, false) | Bang => Some (UNot, false) | Tilde => Some (UBitNot, false)
  | PlusPlus => Some (UInc, true) | MinusMinus => Some (UDec, true)
  | _ => None
  end.

(** The functions, and their loops with what they have so far *)
Inductive fn :=
  | PExpr | PAssign | PCond | PBin (k : nat) | PBinLoop (k : nat) (e : sx) | PCast | PUnary | PPost | PPostLoop (e : sx) | PPrim
  | PArgs (f : sx) (acc : list sx) | PAssocs (c : sx) (acc : list (option bytes * sx)).
(** Fuel: not enough of it. Err: a diagnostic, or a form that is not modelled (statement
    expressions; a compound literal without braces). *)
Inductive res := Fuel | Err | Ok (e : sx) (rest : list tok).
Definition bind (r : res) (k : sx -> list tok -> res) : res := match r with Ok e ts => k e ts | Err => Err | Fuel => Fuel end.
Definition skip (p : tok -> bool) (ts : list tok) (k : list tok -> res) : res := match ts with t :: ts => if p t then k ts else Err | [] => Err end.
Definition is_rpar t := match t with KP RPar => true | _ => false end.
Definition is_rbrk t := match t with KP RBrk => true | _ => false end.
Definition is_colon t := match t with KP Colon => true | _ => false end.
Definition is_comma t := match t with KP Comma => true | _ => false end.
Definition is_lpar t := match t with KP LPar => true | _ => false end.

Fixpoint parse (f : nat) (g : fn) (ts : list tok) {struct f} : res :=
  match f with
  | O => Fuel
  | S f =>
      let operand k := match k with O => PCast | S k => PBin k end in
      match g with
      | PExpr =>                                            (* 1061-1070 *)
          bind (parse f PAssign ts) (fun a ts =>
          match ts with
          | KP Comma :: ts => bind (parse f PExpr ts) (fun b ts => Ok (XComma a b) ts)
          | _ => Ok a ts
          end)
      | PAssign =>                                          (* 1019-1058 *)
          bind (parse f PCond ts) (fun a ts =>
          match ts with
          | KP p :: ts' => match assign_op p with Some o => bind (parse f PAssign ts') (fun b ts => Ok (XAssign o a b) ts) | None => Ok a ts end
          | _ => Ok a ts
          end)
      | PCond =>                                            (* 971-1008 *)
          bind (parse f (PBin 9) ts) (fun c ts =>
          match ts with
          | KP Quest :: KP Colon :: ts => bind (parse f PCond ts) (fun b ts => Ok (XElvis c b) ts)
          | KP Quest :: ts => bind (parse f PExpr ts) (fun a ts => skip is_colon ts (fun ts => bind (parse f PCond ts) (fun b ts => Ok (XCond c a b) ts)))
          | _ => Ok c ts
          end)
      | PBin k => bind (parse f (operand k) ts) (fun a ts => parse f (PBinLoop k a) ts)
      | PBinLoop k a =>
          match ts with
          | KP p :: ts' => match binary k p with Some o => bind (parse f (operand k) ts') (fun b ts => parse f (PBinLoop k (XBin o a b)) ts) | None => Ok a ts end
          | _ => Ok a ts
          end
      | PCast =>                                            (* 600-618 *)
          match ts with
          | KP LPar :: KType t :: ts' =>
              skip is_rpar ts' (fun ts' =>
              match ts' with
              | KBrace _ :: _ => parse f PUnary ts
              | _ => bind (parse f PCast ts') (fun e ts => Ok (XCast t e) ts)
              end)
          | _ => parse f PUnary ts
          end
      | PUnary =>                                           (* 762-824 *)
          match ts with
          | KP AmpAmp :: ts => match ts with KId n :: ts => Ok (XAtom (ALabelOf n)) ts | _ => Err end
          | KP p :: ts' =>
              match prefix p with
              | Some (u, un) => bind (parse f (if un then PUnary else PCast) ts') (fun e ts => Ok (XUn u e) ts)
              | None => parse f PPost ts
              end
          | _ => parse f PPost ts
          end
      | PPost =>                                            (* 524-597 *)
          match ts with
          | KP LPar :: KType t :: ts => skip is_rpar ts (fun ts => match ts with KBrace i :: ts => Ok (XAtom (ACompound t i)) ts | _ => Err end)
          | _ => bind (parse f PPrim ts) (fun e ts => parse f (PPostLoop e) ts)
          end
      | PPostLoop e =>
          match ts with
          | KP LPar :: ts => bind (parse f (PArgs e []) ts) (fun e ts => parse f (PPostLoop e) ts)
          | KP LBrk :: ts => bind (parse f PExpr ts) (fun i ts => skip is_rbrk ts (fun ts => parse f (PPostLoop (XIndex e i)) ts))
          | KP Dot :: ts => match ts with KId m :: ts => parse f (PPostLoop (XMem false e m)) ts | _ => Err end
          | KP Arrow :: ts => match ts with KId m :: ts => parse f (PPostLoop (XMem true e m)) ts | _ => Err end
          | KP PlusPlus :: ts => parse f (PPostLoop (XPost true e)) ts
          | KP MinusMinus :: ts => parse f (PPostLoop (XPost false e)) ts
          | _ => Ok e ts
          end
      | PArgs fe acc =>                                     (* 24-80 *)
          match ts with
          | KP RPar :: ts => Ok (XCall fe (rev acc)) ts
          | _ => let arg ts := bind (parse f PAssign ts) (fun a ts => parse f (PArgs fe (a :: acc)) ts) in
                 match acc with [] => arg ts | _ => skip is_comma ts arg end
          end
      | PAssocs c acc =>                                    (* 86-126 *)
          match ts with
          | KP RPar :: ts => Ok (XGeneric c (rev acc)) ts
          | _ =>
              skip is_comma ts (fun ts =>
              match ts with
              | KDefault :: ts => skip is_colon ts (fun ts => bind (parse f PAssign ts) (fun a ts => parse f (PAssocs c ((None, a) :: acc)) ts))
              | KType t :: ts => skip is_colon ts (fun ts => bind (parse f PAssign ts) (fun a ts => parse f (PAssocs c ((Some t, a) :: acc)) ts))
              | _ => Err
              end)
          end
      | PPrim =>                                            (* 148-302 *)
          match ts with
          | KP LPar :: KP LBrace :: _ => Err
          | KP LPar :: ts => bind (parse f PExpr ts) (fun e ts => skip is_rpar ts (fun ts => Ok e ts))
          | KSizeof :: KP LPar :: KType t :: ts => skip is_rpar ts (fun ts => Ok (XAtom (ASizeT t)) ts)
          | KSizeof :: ts => bind (parse f PUnary ts) (fun e ts => Ok (XUn USizeof e) ts)
          | KAlignof :: KP LPar :: KType t :: ts => skip is_rpar ts (fun ts => Ok (XAtom (AAlignT t)) ts)
          | KAlignof :: ts => bind (parse f PUnary ts) (fun e ts => Ok (XUn UAlignof e) ts)
          | KGeneric :: ts => skip is_lpar ts (fun ts => bind (parse f PAssign ts) (fun c ts => parse f (PAssocs c []) ts))
          | KCompat :: ts => match ts with KP LPar :: KType t :: KP Comma :: KType u :: KP RPar :: ts => Ok (XAtom (ACompat t u)) ts | _ => Err end
          | KCas :: ts => skip is_lpar ts (fun ts => bind (parse f PAssign ts) (fun a ts => skip is_comma ts (fun ts => bind (parse f PAssign ts) (fun b ts => skip is_comma ts (fun ts =>
                          bind (parse f PAssign ts) (fun c ts => skip is_rpar ts (fun ts => Ok (XCas a b c) ts)))))))
          | KExch :: ts => skip is_lpar ts (fun ts => bind (parse f PAssign ts) (fun a ts => skip is_comma ts (fun ts => bind (parse f PAssign ts) (fun b ts => skip is_rpar ts (fun ts => Ok (XExch a b) ts)))))
          | KId n :: ts => Ok (XAtom (AId n)) ts
          | KStr s :: ts => Ok (XAtom (AStr s)) ts
          | KNum n :: ts => Ok (XAtom (ANum n)) ts
          | _ => Err
          end
      end
  end.
(** Twenty steps for every token are enough: proved *)
Definition parse_expr (ts : list tok) : res := parse (20 * (List.length ts + 1)) PExpr ts.
