(** Model of builtin_alloca of /repo/codegen.c. *)
From Verif Require Import Base RvSpec GenModel.

(** codegen.c:915-961 builtin_alloca. [off]: offset of alloca_bottom (__alloca_size__). The
    two numeric labels, which may be repeated in an assembly file (1b, 2f: the last one
    before, the next one after), are [l1] and [l2] here. *)
Definition alloca_loop (l1 l2 : label) : list instr :=
  [ILabel l1;
   Beqz (T 4) l2;
   ILoad false 1 A0 0 T2;
   IStore 1 A0 0 (T 3);
   IAddi T2 T2 1;
   IAddi (T 3) (T 3) 1;
   IAddi (T 4) (T 4) (-1);
   IJ l1;
   ILabel l2].
Definition alloca_code (off : Z) (l1 l2 : label) : list instr :=
  [Mv T0 A0;
   IAddi T0 T0 7;
   IAndi T0 T0 (-8);
   Mv T2 Sp;
   IOp SUB Sp Sp T0;
   Mv (T 3) Sp;
   ILi (T 5) off;
   IOp ADD (T 5) (T 5) Fp;
   ILoad false 8 T1 0 (T 5);
   IOp SUB (T 4) T1 T2] ++
  alloca_loop l1 l2 ++
  [IOp SUB A0 T1 T0;
   IStore 8 A0 0 (T 5)].
