(** What alloca must do. *)
From Verif Require Import Base ValSpec RvSpec GenSpec.

Definition round8 (n : Z) : Z := (n + 7) / 8 * 8.
(** Before the call of alloca([n]): the slot at [slot] holds the lowest address of the blocks
    allocated so far (or the bottom of the local variables), [bottom]; between sp and
    [bottom] are temporaries; there is room for the block below; the slot is not there. *)
Record alloca_ready (fp off n bottom : Z) (s : state) : Prop := {
  ar_regs : regs_ok (rg s);
  ar_fp : rg s Fp = fp;
  ar_size : rg s (A 0) = n;
  ar_slot : 0 <= fp + off /\ fp + off + 8 <= 2 ^ 64 /\ le_load (mm s) (fp + off) 8 = bottom;
  ar_room : 0 <= rg s Sp - round8 n /\ rg s Sp <= bottom /\ (bottom <= fp + off);
}.
(** Afterwards: a block of [n] bytes below [bottom], 8-byte aligned if [bottom] is; the
    temporaries are where they were relative to sp, below the block; the slot has the address
    of the block; nothing else changed. *)
Record alloca_done (fp off n bottom : Z) (s s' : state) : Prop := {
  ad_regs : regs_ok (rg s') /\ rg s' Fp = fp /\ rg s' Ra = rg s Ra;
  ad_block : rg s' (A 0) + n <= bottom /\ rg s' (A 0) = bottom - round8 n /\ ((8 | bottom) -> (8 | rg s' (A 0)));
  ad_sp : rg s' Sp = rg s Sp - round8 n /\ rg s' Sp + (bottom - rg s Sp) = rg s' (A 0);
  ad_temps : forall i, 0 <= i < bottom - rg s Sp -> mm s' (rg s' Sp + i) mod 256 = mm s (rg s Sp + i) mod 256;
  ad_slot : le_load (mm s') (fp + off) 8 = rg s' (A 0);
  ad_rest : forall a, a < rg s' Sp \/ (bottom <= a /\ (a < fp + off \/ fp + off + 8 <= a)) -> mm s' a = mm s a;
}.

(** Calls of alloca one after another in a function, each finding in the slot what the one
    before left there: the blocks, from [bottom] down. *)
Inductive allocas (fp off : Z) : Z -> list (Z * Z) -> Prop :=
  | allocas_nil bottom : allocas fp off bottom []
  | allocas_cons bottom n s s' l : alloca_ready fp off n bottom s -> alloca_done fp off n bottom s s' ->
      allocas fp off (rg s' (A 0)) l -> allocas fp off bottom ((rg s' (A 0), n) :: l).
