(** A machine with several harts (hardware threads), after the chapters on RV64I and on the
    A extension of The RISC-V Instruction Set Manual, volume I, and what it means for an
    update of a shared int to be atomic. Part of the trusted base: nothing here comes from
    /repo. The harts take turns, one instruction at a time (sequential consistency): the
    orders a weaker memory model adds are not covered. *)
From Verif Require Import Base IntArith TypeModel NodeModel ValSpec FpSpec RvSpec ElabSpec.

(** The instructions of RvSpec (without calls), load-reserved, store-conditional *)
Inductive ainstr :=
  | AI (i : instr)
  | ALr (rd rs : reg)            (* lr.w rd, (rs) *)
  | ASc (rd r2 r1 : reg).        (* sc.w rd, r2, (r1) *)

Fixpoint afind (p : list ainstr) (l : label) : option nat :=
  match p with
  | [] => None
  | AI (ILabel l') :: r => if label_eqb l l' then Some 0%nat else option_map S (afind r l)
  | _ :: r => option_map S (afind r l)
  end.
Definition alabels (p : list ainstr) : list label :=
  flat_map (fun i => match i with AI (ILabel l) => [l] | _ => [] end) p.

(** A hart: program counter, registers, the address of its reservation *)
Record hart := Hart { h_pc : nat; h_rg : regs; h_res : option Z }.

(** An address lr.w and sc.w accept: others trap. *)
Definition word_ok (a : Z) : bool := (a mod 4 =? 0) && (a + 4 <=? 2 ^ 64).

(** One instruction of a hart. [luck]: whether a store-conditional that may succeed does
    (it may always fail). The last component is the range of bytes written. None: the hart
    traps, or is at the end of its program. *)
Definition hstep (p : list ainstr) (luck : bool) (h : hart) (m : mem) : option (hart * mem * option (Z * Z)) :=
  match nth_error p (h_pc h) with
  | None => None
  | Some (ALr rd rs) =>
      let a := h_rg h rs in
      if word_ok a then Some (Hart (S (h_pc h)) (setr (h_rg h) rd (wrap (sx 32 (le_load m a 4)))) (Some a), m, None) else None
  | Some (ASc rd r2 r1) =>
      let a := h_rg h r1 in
      if negb (word_ok a) then None
      else if luck && match h_res h with Some b => a =? b | None => false end
      then Some (Hart (S (h_pc h)) (setr (h_rg h) rd 0) None, le_store m a 4 (h_rg h r2), Some (a, 4))
      else Some (Hart (S (h_pc h)) (setr (h_rg h) rd 1) None, m, None)
  | Some (AI i) =>
      match i with
      | IBr c r1 r2 l =>
          if exec_cond c (h_rg h r1) (h_rg h r2)
          then match afind p l with Some k => Some (Hart k (h_rg h) (h_res h), m, None) | None => None end
          else Some (Hart (S (h_pc h)) (h_rg h) (h_res h), m, None)
      | IJ l => match afind p l with Some k => Some (Hart k (h_rg h) (h_res h), m, None) | None => None end
      | IStore n _ off r1 =>
          match exec_straight (fun _ => 0) i (h_rg h) m with
          | Some (rs, m') => Some (Hart (S (h_pc h)) rs (h_res h), m', match ea (h_rg h) r1 off n with Some a => Some (a, n) | None => None end)
          | None => None
          end
      | IFStore f _ off r1 =>
          match exec_straight (fun _ => 0) i (h_rg h) m with
          | Some (rs, m') => Some (Hart (S (h_pc h)) rs (h_res h), m', match ea (h_rg h) r1 off (width f / 8) with Some a => Some (a, width f / 8) | None => None end)
          | None => None
          end
      | _ =>
          match exec_straight (fun _ => 0) i (h_rg h) m with
          | Some (rs, m') => Some (Hart (S (h_pc h)) rs (h_res h), m', None)
          | None => None
          end
      end
  end.

Definition overlap (a n : Z) (w : option (Z * Z)) : bool :=
  match w with Some (b, k) => (0 <? k) && (a <? b + k) && (b <? a + n) | None => false end.
(** A store takes away the reservations other harts have on the bytes it writes. *)
Definition disturb (w : option (Z * Z)) (h : hart) : hart :=
  match h_res h with
  | Some a => if overlap a 4 w then Hart (h_pc h) (h_rg h) None else h
  | None => h
  end.

Record conf := Conf { c_hart : nat -> hart; c_mem : mem }.

Section Machine.
Variable code : nat -> list ainstr.        (* the program of every hart *)
Variable own : nat -> Z -> Prop.           (* the memory only that hart uses: its stack *)
Variable X : Z.                            (* the address of the shared int *)

Definition at_X (m : mem) : Z := sx 32 (le_load m X 4).

(** A store to the shared int: by which hart (None: by something else in the system),
    the value before and after *)
Record event := Ev { e_by : option nat; e_old : Z; e_new : Z }.

(** One step of the system: a hart, or something else, which may change all of memory but
    the harts' own, and with what it changes takes away reservations. *)
Inductive cstep : conf -> list event -> conf -> Prop :=
  | cs_hart c t luck h m w : hstep (code t) luck (c_hart c t) (c_mem c) = Some (h, m, w) ->
      cstep c (if overlap X 4 w then [Ev (Some t) (at_X (c_mem c)) (at_X m)] else [])
        (Conf (fun u => if Nat.eqb u t then h else disturb w (c_hart c u)) m)
  | cs_other c hs m :
      (forall t a, own t a -> m a = c_mem c a) ->
      (forall t, h_pc (hs t) = h_pc (c_hart c t) /\ h_rg (hs t) = h_rg (c_hart c t)) ->
      (forall t a, h_res (hs t) = Some a -> h_res (c_hart c t) = Some a /\ forall i, 0 <= i < 4 -> m (a + i) = c_mem c (a + i)) ->
      cstep c [Ev None (at_X (c_mem c)) (at_X m)] (Conf hs m).
Inductive crun : conf -> list event -> conf -> Prop :=
  | cr_nil c : crun c [] c
  | cr_step c tr c1 e c2 : crun c tr c1 -> cstep c1 e c2 -> crun c (tr ++ e) c2.
End Machine.

(** The stores made by hart [t] *)
Definition by_hart (t : nat) (tr : list event) : list event :=
  filter (fun e => match e_by e with Some u => Nat.eqb u t | None => false end) tr.
(** [tr] leads from the value [v] to [v']: every store finds what the one before it left. *)
Fixpoint chain (v : Z) (tr : list event) (v' : Z) : Prop :=
  match tr with
  | [] => v = v'
  | e :: r => e_old e = v /\ chain (e_new e) r v'
  end.

(** The value C11 6.5.16.2 gives to A op= B for an int A of value [x] and a B of type [tb] and
    value [y]; None: undefined. *)
Definition op_value (o : bop) (tb : ty) (x y : Z) : option Z :=
  let z := match o with
           | Shl | Shr => bin_val o int_t x y
           | _ =>
               let t := usual int_t (promote tb) in
               let* x := conv t x in let* y := conv t y in bin_val o t x y
           end in
  let* z := z in conv int_t z.
Definition is_assign_op (o : bop) : bool := match o with Eq | Ne | Lt | Le => false | _ => true end.

(** ** The situation at the beginning of the update *)
Definition apart (x y : Z * Z) : Prop := fst x + snd x <= fst y \/ fst y + snd y <= fst x.
(** The addresses and sizes of the four temporaries, in the order in which they are declared
    (the address of A, the value of B of type [tb], old, new), and the 16 bytes below the
    stack pointer *)
Definition areas (fp sp : Z) (off : nat -> Z) (k : nat) (tb : ty) : list (Z * Z) :=
  [(fp + off k, 8); (fp + off (S k), size_of tb); (fp + off (S (S k)), 4); (fp + off (S (S (S k))), 4); (sp - 16, 16)].
(** [mine]: the memory only this hart uses. The areas lie apart in it, the temporaries less
    than 2048 bytes from the frame pointer; the first holds the address of A, the second
    the value [y] of B. *)
Record ready (mine : Z -> Prop) (X : Z) (off : nat -> Z) (k : nat) (tb : ty) (y fp sp : Z) (rs : regs) (m : mem) : Prop := {
  rd_zero : rs Zero = 0;
  rd_regs : forall r, 0 <= rs r < 2 ^ 64;
  rd_fp : rs Fp = fp;
  rd_sp : rs Sp = sp;
  rd_near : forall i, (i < 4)%nat -> -2048 <= off (k + i)%nat <= 2047;
  rd_apart : ForallOrdPairs apart (areas fp sp off k tb);
  rd_mine : Forall (fun r => 0 <= fst r /\ fst r + snd r <= 2 ^ 64 /\ forall a, fst r <= a < fst r + snd r -> mine a) (areas fp sp off k tb);
  rd_addr : le_load m (fp + off k) 8 = X;
  rd_val : of_bytes tb (le_load m (fp + off (S k)) (Z.to_nat (size_of tb))) = Some y;
}.

(** A hart's part in the run: what it updates with, where its temporaries are, what it has
    before the update in its program *)
Record job := Job {
  j_op : bop; j_type : ty; j_val : Z;                        (* X op= val, the type of val *)
  j_off : nat -> Z; j_first : nat; j_fp : Z; j_sp : Z;       (* the temporaries, the stack *)
  j_before : list ainstr }.

(** What may be seen of a hart [t] in the execution of X op= val: it has not stored yet, and
    is not at the end; or it has stored once, the right value, which is its result. *)
Definition update_once (j : job) (t : nat) (len : nat) (tr : list event) (h : hart) : Prop :=
  (by_hart t tr = [] /\ (h_pc h < len)%nat) \/
  (exists v v', by_hart t tr = [Ev (Some t) v v'] /\ (forall z, op_value (j_op j) (j_type j) v (j_val j) = Some z -> v' = z) /\
     (h_pc h = len -> h_rg h (A 0) = wrap v' /\ h_rg h Sp = j_sp j /\ h_rg h Fp = j_fp j)).

(** A hart running alone, its store-conditionals succeeding when they may *)
Fixpoint alone (p : list ainstr) (n : nat) (h : hart) (m : mem) : option (hart * mem) :=
  match n with
  | O => Some (h, m)
  | S n => match hstep p true h m with Some (h, m, _) => alone p n h m | None => None end
  end.
