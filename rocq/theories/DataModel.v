(** Model of emit_data (/repo/codegen.c:1891-1952) and llog2 (/repo/utils.c:79-90): the
    assembly lines of the variables of a file. The lines are kept as structures; printing
    their numbers with %d and the comment after a .byte are not modelled. *)
From Verif Require Import Base TypeModel IntArith NodeModel InitModel.

(** The fields of struct Obj (toycc.h) that emit_data reads; [o_init]: init_data and rel *)
Record gobj := GObj {
  o_name : bytes; o_fun : bool; o_def : bool; o_static : bool; o_tent : bool; o_tls : bool;
  o_size : Z; o_align : Z; o_init : option image }.
Inductive sect := SData | SBss | STdata | STbss.
Inductive aline :=
  | ALocal (n : bytes) | AGlobal (n : bytes)
  | AComm (n : bytes) (size align : Z)
  | ASect (s : sect)
  | AType (n : bytes) | ASize (n : bytes) (size : Z)
  | AAlign (k : Z)
  | ALabel (n : bytes)
  | AData (d : dline)
  | AZero (n : Z).

(** utils.c:79-90; None: the diagnostic. An int has no more than 31 bits to shift out. *)
Fixpoint llog2_loop (fuel : nat) (n ret : Z) : option Z :=
  match fuel with
  | O => Some ret
  | S k => if 1 <? n then (if Z.odd n then None else llog2_loop k (n / 2) (ret + 1)) else Some ret
  end.
Definition llog2 (num : Z) : option Z := llog2_loop 31 num 0.

(** codegen.c:1893-1951, one variable *)
Definition emit_var (fcommon : bool) (v : gobj) : option (list aline) :=
  if o_fun v || negb (o_def v) then Some [] else
  let b := if o_static v then ALocal (o_name v) else AGlobal (o_name v) in
  if fcommon && o_tent v then Some [b; AComm (o_name v) (o_size v) (o_align v)] else
  match o_init v with
  | Some img =>
      let* k := llog2 (o_align v) in
      let* d := emit_bytes (Z.to_nat (o_size v)) (o_size v) 0 (g_rel img) (g_buf img) in
      Some (b :: ASect (if o_tls v then STdata else SData) :: AType (o_name v) :: ASize (o_name v) (o_size v) :: AAlign k :: ALabel (o_name v) :: map AData d)
  | None =>
      let* k := llog2 (o_align v) in
      Some [b; ASect (if o_tls v then STbss else SBss); AAlign k; ALabel (o_name v); AZero (o_size v)]
  end.
Fixpoint emit_data (fcommon : bool) (prog : list gobj) : option (list aline) :=
  match prog with
  | [] => Some []
  | v :: r => let* a := emit_var fcommon v in let* b := emit_data fcommon r in Some (a ++ b)
  end.
