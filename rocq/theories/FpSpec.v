(** IEEE 754 arithmetic on bit patterns, binary32 and binary64, rounding to nearest even.
    The arithmetic is that of the standard library (Coq.Floats.SpecFloat: definitions only,
    no axioms); here are the encodings. Part of the specification: nothing here comes from
    /repo. A value is the number in [0, 2^width) that its bits make. *)
From Verif Require Import Base IntArith.
From Coq Require SpecFloat.

Inductive fmt := B32 | B64.
Definition width (f : fmt) : Z := match f with B32 => 32 | B64 => 64 end.
Definition prec (f : fmt) : Z := match f with B32 => 24 | B64 => 53 end.
Definition emax (f : fmt) : Z := match f with B32 => 128 | B64 => 1024 end.
Definition mbits (f : fmt) : Z := prec f - 1.
Definition ebits (f : fmt) : Z := width f - prec f.
Definition emin (f : fmt) : Z := SpecFloat.emin (prec f) (emax f).
Definition fmt_eqb (a b : fmt) : bool := match a, b with B32, B32 | B64, B64 => true | _, _ => false end.

(** IEEE 754-2008 3.4: sign, exponent and trailing significand fields *)
Definition decode (f : fmt) (z : Z) : SpecFloat.spec_float :=
  let s := z / 2 ^ (width f - 1) mod 2 =? 1 in
  let e := z / 2 ^ mbits f mod 2 ^ ebits f in
  let m := z mod 2 ^ mbits f in
  if e =? 2 ^ ebits f - 1 then (if m =? 0 then SpecFloat.S754_infinity s else SpecFloat.S754_nan)
  else if e =? 0 then match m with Zpos p => SpecFloat.S754_finite s p (emin f) | _ => SpecFloat.S754_zero s end
  else match m + 2 ^ mbits f with Zpos p => SpecFloat.S754_finite s p (e - 1 + emin f) | _ => SpecFloat.S754_nan end.
(** The NaN is the canonical one (RISC-V manual, 11.3). *)
Definition nan_bits (f : fmt) : Z := (2 ^ ebits f - 1) * 2 ^ mbits f + 2 ^ (mbits f - 1).
Definition encode (f : fmt) (x : SpecFloat.spec_float) : Z :=
  let sign (s : bool) := if s then 2 ^ (width f - 1) else 0 in
  match x with
  | SpecFloat.S754_zero s => sign s
  | SpecFloat.S754_infinity s => sign s + (2 ^ ebits f - 1) * 2 ^ mbits f
  | SpecFloat.S754_nan => nan_bits f
  | SpecFloat.S754_finite s m e =>
      sign s + (if Zpos m <? 2 ^ mbits f then Zpos m else (e - emin f + 1) * 2 ^ mbits f + (Zpos m - 2 ^ mbits f))
  end mod 2 ^ width f.

Inductive fbin := FAdd | FSub | FMul | FDiv.
Definition fop (o : fbin) (f : fmt) (x y : Z) : Z :=
  encode f (match o with FAdd => SpecFloat.SFadd | FSub => SpecFloat.SFsub | FMul => SpecFloat.SFmul | FDiv => SpecFloat.SFdiv end
              (prec f) (emax f) (decode f x) (decode f y)).
Definition fneg (f : fmt) (x : Z) : Z := (x + 2 ^ (width f - 1)) mod 2 ^ width f.
Inductive fcomp := FEq | FLt | FLe.
Definition fcmp (o : fcomp) (f : fmt) (x y : Z) : bool :=
  (match o with FEq => SpecFloat.SFeqb | FLt => SpecFloat.SFltb | FLe => SpecFloat.SFleb end) (decode f x) (decode f y).
(** The integer [z], rounded *)
Definition fof (f : fmt) (z : Z) : Z := encode f (SpecFloat.binary_normalize (prec f) (emax f) z 0 false).
(** The integral part, rounded towards zero. None: not a finite number *)
Definition ftrunc (f : fmt) (x : Z) : option Z :=
  match decode f x with
  | SpecFloat.S754_zero _ => Some 0
  | SpecFloat.S754_finite s m e => let a := if e <? 0 then Zpos m / 2 ^ (- e) else Zpos m * 2 ^ e in Some (if s then - a else a)
  | _ => None
  end.
Definition fminus (f : fmt) (x : Z) : bool := match decode f x with SpecFloat.S754_infinity s => s | _ => false end.
(** From one format to another *)
Definition fconv (f g : fmt) (x : Z) : Z :=
  encode g (match decode f x with
            | SpecFloat.S754_finite s m e => SpecFloat.binary_round (prec g) (emax g) s m e
            | y => y
            end).
(** Every bit pattern is a value. *)
Definition fval (f : fmt) (z : Z) : bool := (0 <=? z) && (z <? 2 ^ width f).
