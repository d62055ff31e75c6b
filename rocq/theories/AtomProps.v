(** C55: compound assignment to an object of atomic type. *)
From Verif Require Import Base TypeModel IntArith NodeModel ValSpec NodeSpec RvSpec ElabSpec GenModel AtomSpec AtomModel AtomProofs AtomRun.
From Coq Require Import ZifyBool ZifyNat.
Local Notation length := List.length.

(** C55 for int: [N] harts execute [X op= val] on the same int, each with its own operator and
    operand, while other things in the system may read and write it too. In every
    execution, whatever the order of steps and whichever store-conditionals fail: the
    stores to X form a chain, each finding what the one before it left; every hart stores
    exactly once before it ends, the value C11 gives for the value it replaces; and that
    value is the result of the expression.
    Partial: int only (C55_unsigned_refuted, C55_long_refuted, C55_char_refuted), the
    temporaries less than 2048 bytes from the frame pointer (C55_far_refuted), A not a
    member (C55_member_refuted); from the point where the address and the operand have been
    evaluated. *)
Theorem C55_int_partial (N : nat) (J : nat -> job) (code : nat -> list ainstr) (own : nat -> Z -> Prop) (X : Z) (c0 c : conf) tr :
  word_ok X = true ->
  (forall t, (N <= t)%nat -> code t = []) ->
  (forall t, (t < N)%nat -> let j := J t in
     is_assign_op (j_op j) = true /\ is_arith (j_type j) = true /\
     (exists u s s' body, atomic_rmw (j_off j) (j_op j) int_t (j_type j) (j_first j) u s = Some (body, s') /\ code t = j_before j ++ body) /\
     NoDup (alabels (code t)) /\
     ready (own t) X (j_off j) (j_first j) (j_type j) (j_val j) (j_fp j) (j_sp j) (h_rg (c_hart c0 t)) (c_mem c0) /\
     h_pc (c_hart c0 t) = length (j_before j)) ->
  (forall t t' a, (t < N)%nat -> (t' < N)%nat -> t <> t' -> own t a -> ~ own t' a) ->
  (forall t a, (t < N)%nat -> own t a -> ~ (X <= a < X + 4)) ->
  crun code own X c0 tr c ->
  chain (at_X X (c_mem c0)) tr (at_X X (c_mem c)) /\
  (forall t, (t < N)%nat -> update_once (J t) t (length (code t)) tr (c_hart c t)) /\
  (forall t, (t < N)%nat -> exists n h m, alone (code t) n (c_hart c t) (c_mem c) = Some (h, m) /\ h_pc h = length (code t)).
Proof.
  intros XO ID H DI XP R.
  assert (exists Ln Lc Lu : nat -> Z, forall t, (t < N)%nat -> begins (code t) (own t) X (J t) (Ln t) (Lc t) (Lu t) (c_hart c0 t) (c_mem c0)) as (Ln & Lc & Lu & BE).
  { clear R ID DI XP. revert H. generalize N. intros M H. induction M as [|M IH].
    - exists (fun _ => 0), (fun _ => 0), (fun _ => 0). lia.
    - destruct IH as (Ln & Lc & Lu & B); [intros; apply H; lia|]. destruct (H M ltac:(lia)) as (OP & TB & (u & s & s' & body & E & CO) & ND & RD & PC).
      exists (fun t => if Nat.eqb t M then g_cnt s else Ln t), (fun t => if Nat.eqb t M then g_cnt s + 1 else Lc t), (fun t => if Nat.eqb t M then u else Lu t).
      intros t L. destruct (Nat.eqb_spec t M) as [->|NE]; [|apply B; lia]. unfold begins. repeat (split; [assumption|]). split; [|auto].
      apply rmw_inv in E; auto; [|apply RD]. rewrite CO, E. reflexivity. }
  destruct (system N J code own X Ln Lc Lu c0 ID BE XO DI XP tr c R) as [CH U]. split; [exact CH|]. split; [exact U|].
  intros t L. eapply system_go; eauto.
Qed.
Print Assumptions C55_int_partial.

(** *** Concrete runs *)
(** Steps of harts in the order given *)
Fixpoint sched (code : nat -> list ainstr) (X : Z) (l : list (nat * bool)) (c : conf) : option (list event * conf) :=
  match l with
  | [] => Some ([], c)
  | (t, luck) :: r =>
      match hstep (code t) luck (c_hart c t) (c_mem c) with
      | Some (h, m, w) =>
          match sched code X r (Conf (fun u => if Nat.eqb u t then h else disturb w (c_hart c u)) m) with
          | Some (tr, c') => Some ((if overlap X 4 w then [Ev (Some t) (at_X X (c_mem c)) (at_X X m)] else []) ++ tr, c')
          | None => None
          end
      | None => None
      end
  end.
Lemma crun_first code own X c e c1 tr c2 : cstep code own X c e c1 -> crun code own X c1 tr c2 -> crun code own X c (e ++ tr) c2.
Proof.
  intros S1 R. induction R as [c1|c1 tr c3 e2 c4 R IH S2].
  - rewrite app_nil_r. change e with ([] ++ e). eapply cr_step; [apply cr_nil|exact S1].
  - rewrite app_assoc. eapply cr_step; [apply IH; exact S1|exact S2].
Qed.
Lemma sched_run code own X l : forall c tr c', sched code X l c = Some (tr, c') -> crun code own X c tr c'.
Proof.
  induction l as [|[t luck] l IH]; intros c tr c' H; cbn [sched] in H.
  - inversion H; subst. apply cr_nil.
  - destruct (hstep (code t) luck (c_hart c t) (c_mem c)) as [[[h m] w]|] eqn:E; [|discriminate].
    destruct (sched code X l _) as [[tr1 c1]|] eqn:E1; [|discriminate]. assert (tr = (if overlap X 4 w then [Ev (Some t) (at_X X (c_mem c)) (at_X X m)] else []) ++ tr1) by congruence.
    assert (c' = c1) by congruence. subst. eapply crun_first; [eapply cs_hart; exact E|]. apply IH. exact E1.
Qed.
(** hart [t] has its stack in the page from 4096 * (t + 2) on. *)
Definition ex_off (i : nat) : Z := match i with 0%nat => -8 | 1%nat => -16 | 2%nat => -24 | _ => -32 end.
Definition ex_fp (t : nat) : Z := 4096 * (Z.of_nat t + 2) + 2048.
Definition ex_own (t : nat) (a : Z) : Prop := 4096 * (Z.of_nat t + 2) <= a < 4096 * (Z.of_nat t + 3).
Definition ex_regs (t : nat) : regs := fun r => match r with RvSpec.Fp => ex_fp t | RvSpec.Sp => ex_fp t - 64 | _ => 0 end.
Definition ex_code (off : nat -> Z) (o : bop) (ta tb : ty) : list ainstr := match atomic_rmw off o ta tb 0 20 (GS 0 7) with Some (c, _) => c | None => [] end.
(** hart 0: x += 5, hart 1: x *= y of type unsigned char; x at 64 *)
Definition ex_job (t : nat) : job := match t with 0%nat => Job Add int_t 5 ex_off 0 (ex_fp 0) (ex_fp 0 - 64) [] | _ => Job Mul (TChar true) 3 ex_off 0 (ex_fp 1) (ex_fp 1 - 64) [] end.
Definition ex_codes (t : nat) : list ainstr := match t with 0%nat => ex_code ex_off Add int_t int_t | 1%nat => ex_code ex_off Mul int_t (TChar true) | _ => [] end.
Definition ex_conf (x : Z) (size : Z) (addr v0 v1 : Z) : conf :=
  Conf (fun t => Hart 0 (ex_regs t) None)
       (le_store (le_store (le_store (le_store (le_store (fun _ => 0) addr size x) (ex_fp 0 - 8) 8 addr) (ex_fp 1 - 8) 8 addr) (ex_fp 0 - 16) 8 v0) (ex_fp 1 - 16) 8 v1).
Definition view (X : Z) (ts : list nat) (r : option (list event * conf)) : option (list event * list (nat * Z) * Z) :=
  match r with
  | Some (tr, c) => Some (tr, map (fun t => (h_pc (c_hart c t), h_rg (c_hart c t) (A 0))) ts, at_X X (c_mem c))
  | None => None
  end.
Definition many (n : nat) (t : nat) : list (nat * bool) := repeat (t, true) n.
(** Both harts read 10; hart 1 stores first; hart 0 finds that, tries again, and stores
    30 + 5. *)
Definition ex_sched : list (nat * bool) := many 30 0 ++ many 52 1 ++ many 61 0.
Example C55_int_run : view 64 [0%nat; 1%nat] (sched ex_codes 64 ex_sched (ex_conf 10 4 64 5 3)) =
  Some ([Ev (Some 1%nat) 10 30; Ev (Some 0%nat) 30 35], [(length (ex_codes 0), 35); (length (ex_codes 1), 30)], 35).
Proof. vm_compute. reflexivity. Qed.
Lemma ex_nodup t : NoDup (alabels (ex_codes t)).
Proof. destruct t as [|[|t]]; [..|apply NoDup_nil]; vm_compute; repeat (constructor; [cbn; intuition discriminate|]); constructor. Qed.
(** and the conditions of the theorem hold there. *)
Example C55_int_met : exists tr c, crun ex_codes ex_own 64 (ex_conf 10 4 64 5 3) tr c /\
  tr = [Ev (Some 1%nat) 10 30; Ev (Some 0%nat) 30 35] /\ chain 10 tr 35 /\
  (forall t, (t < 2)%nat -> update_once (ex_job t) t (length (ex_codes t)) tr (c_hart c t) /\ h_pc (c_hart c t) = length (ex_codes t)).
Proof.
  assert (RUN := C55_int_run). destruct (sched ex_codes 64 ex_sched (ex_conf 10 4 64 5 3)) as [[tr c]|] eqn:E; [|discriminate]. cbn [view map] in RUN.
  apply (sched_run _ ex_own) in E. injection RUN as TR P0 _ P1 _ AX. exists tr, c. split; [exact E|]. split; [exact TR|].
  destruct (C55_int_partial 2 ex_job ex_codes ex_own 64 (ex_conf 10 4 64 5 3) c tr) as (CH & U & _); auto.
  - intros t L. destruct t as [|[|t]]; [lia|lia|reflexivity].
  - intros t L j. subst j. split; [destruct t; reflexivity|]. split; [destruct t; reflexivity|].
    split; [exists 20, (GS 0 7); destruct t as [|[|t]]; [| |lia]; eexists; eexists; split; reflexivity|]. split; [apply ex_nodup|].
    destruct t as [|[|t]]; [| |lia]; (split; [|reflexivity]).
    all: constructor; try reflexivity.
    all: try (intros r; destruct r; cbn; lia).
    all: try (intros [|[|[|[|i]]]] Hi; cbn; lia).
    all: try (repeat constructor; unfold apart; cbn; lia).
    all: unfold areas, ex_own; repeat (apply Forall_cons; [split; [cbn; lia|split; [cbn; lia|intros a; cbn; lia]]|]); apply Forall_nil.
  - intros t t' a _ _ NE. unfold ex_own. lia.
  - intros t a _. unfold ex_own. lia.
  - split; [rewrite AX in CH; exact CH|]. intros t L. split; [apply U; exact L|]. destruct t as [|[|t]]; [exact P0|exact P1|lia].
Qed.

(** The other integer types. lr.w extends the sign of what it reads, so that an unsigned int
    with the top bit set is never equal to `old`, but the next instruction compares only
    the lower halves and takes the exchange for done: nothing is stored, although the
    result is that of the addition. *)
Definition ex_hart : hart := Hart 0 (ex_regs 0) None.
Theorem C55_unsigned_refuted : let code := ex_code ex_off Add (TInt true) int_t in let m := c_mem (ex_conf (2 ^ 31) 4 64 1 0) in
  exists n h' m', alone code n ex_hart m = Some (h', m') /\ h_pc h' = length code /\
    le_load m 64 4 = 2 ^ 31 /\ h_rg h' (A 0) = 2 ^ 31 + 1 /\ le_load m' 64 4 = 2 ^ 31.
Proof.
  exists 52%nat. destruct (alone (ex_code ex_off Add (TInt true) int_t) 52 ex_hart (c_mem (ex_conf (2 ^ 31) 4 64 1 0))) as [[h m]|] eqn:E.
  - exists h, m. split; [reflexivity|].
    assert (V : option_map (fun r => (h_pc (fst r), h_rg (fst r) (A 0), le_load (snd r) 64 4)) (Some (h, m)) = Some (length (ex_code ex_off Add (TInt true) int_t), 2 ^ 31 + 1, 2 ^ 31)) by (rewrite <- E; vm_compute; reflexivity).
    cbn [option_map fst snd] in V. apply some3 in V; destruct V as (V1 & V2 & V3). split; [symmetry; exact V1|]. split; [vm_compute; reflexivity|]. split; symmetry; [exact V2|exact V3].
  - exfalso. assert (V : option_map (fun _ => 0) (@None (hart * mem)) <> None) by (rewrite <- E; vm_compute; discriminate). cbn in V. congruence.
Qed.
(** For long, only the lower half is compared and exchanged: the same with 2^32. *)
Theorem C55_long_refuted : let code := ex_code ex_off Add (TLong false) int_t in let m := c_mem (ex_conf (2 ^ 32) 8 64 1 0) in
  exists n h' m', alone code n ex_hart m = Some (h', m') /\ h_pc h' = length code /\
    le_load m 64 8 = 2 ^ 32 /\ h_rg h' (A 0) = 2 ^ 32 + 1 /\ le_load m' 64 8 = 2 ^ 32.
Proof.
  exists 50%nat. destruct (alone (ex_code ex_off Add (TLong false) int_t) 50 ex_hart (c_mem (ex_conf (2 ^ 32) 8 64 1 0))) as [[h m]|] eqn:E.
  - exists h, m. split; [reflexivity|].
    assert (V : option_map (fun r => (h_pc (fst r), h_rg (fst r) (A 0), le_load (snd r) 64 8)) (Some (h, m)) = Some (length (ex_code ex_off Add (TLong false) int_t), 2 ^ 32 + 1, 2 ^ 32)) by (rewrite <- E; vm_compute; reflexivity).
    cbn [option_map fst snd] in V. apply some3 in V; destruct V as (V1 & V2 & V3). split; [symmetry; exact V1|]. split; [vm_compute; reflexivity|]. split; symmetry; [exact V2|exact V3].
  - exfalso. assert (V : option_map (fun _ => 0) (@None (hart * mem)) <> None) by (rewrite <- E; vm_compute; discriminate). cbn in V. congruence.
Qed.
(** For char, four bytes are exchanged: the update of c (127) in struct { _Atomic char c, d, e,
    f; } writes over d, e and f. *)
Theorem C55_char_refuted : let code := ex_code ex_off Add (TChar false) int_t in let m := c_mem (ex_conf 127 4 64 1 0) in
  exists n h' m', alone code n ex_hart m = Some (h', m') /\ h_pc h' = length code /\
    le_load m 65 3 = 0 /\ le_load m' 65 3 = 2 ^ 24 - 1.
Proof.
  exists 54%nat. destruct (alone (ex_code ex_off Add (TChar false) int_t) 54 ex_hart (c_mem (ex_conf 127 4 64 1 0))) as [[h m]|] eqn:E.
  - exists h, m. split; [reflexivity|].
    assert (V : option_map (fun r => (h_pc (fst r), le_load (snd r) 65 3, 0)) (Some (h, m)) = Some (length (ex_code ex_off Add (TChar false) int_t), 2 ^ 24 - 1, 0)) by (rewrite <- E; vm_compute; reflexivity).
    cbn [option_map fst snd] in V. apply some3 in V; destruct V as (V1 & V2 & V3). split; [symmetry; exact V1|]. split; [vm_compute; reflexivity|]. symmetry; exact V2.
  - exfalso. assert (V : option_map (fun _ => 0) (@None (hart * mem)) <> None) by (rewrite <- E; vm_compute; discriminate). cbn in V. congruence.
Qed.
(** With the temporaries more than 2048 bytes from the frame pointer, computing the address
    of `old` uses t0, in which the address of A is kept: the exchange is done elsewhere. *)
Definition far_off (i : nat) : Z := -3000 - 8 * Z.of_nat i.
Definition far_hart : hart := Hart 0 (fun r => match r with RvSpec.Fp => 16384 | RvSpec.Sp => 8192 | _ => 0 end) None.
Definition far_mem : mem := le_store (le_store (le_store (fun _ => 0) 64 4 10) (16384 - 3000) 8 64) (16384 - 3008) 8 5.
Theorem C55_far_refuted : let code := ex_code far_off Add int_t int_t in
  exists n h' m', alone code n far_hart far_mem = Some (h', m') /\ h_pc h' = length code /\
    le_load far_mem 64 4 = 10 /\ le_load m' 64 4 = 10 /\ le_load far_mem (2 ^ 64 - 3024) 4 = 0 /\ le_load m' (2 ^ 64 - 3024) 4 = 5.
Proof.
  exists 106%nat. destruct (alone (ex_code far_off Add int_t int_t) 106%nat far_hart far_mem) as [[h m]|] eqn:E.
  - exists h, m. split; [reflexivity|].
    assert (V : option_map (fun r => (h_pc (fst r), le_load (snd r) 64 4, le_load (snd r) (2 ^ 64 - 3024) 4)) (Some (h, m)) = Some (length (ex_code far_off Add int_t int_t), 10, 5)) by (rewrite <- E; vm_compute; reflexivity).
    cbn [option_map fst snd] in V. apply some3 in V; destruct V as (V1 & V2 & V3). split; [symmetry; exact V1|]. split; [vm_compute; reflexivity|]. split; [symmetry; exact V2|]. split; [vm_compute; reflexivity|]. symmetry; exact V3.
  - exfalso. assert (V : option_map (fun _ => 0) (@None (hart * mem)) <> None) by (rewrite <- E; vm_compute; discriminate). cbn in V. congruence.
Qed.
(** A member of a structure is read, changed and written like any other object: of two
    p->x += 1, one can get lost. *)
Definition member_code (t : nat) : list ainstr :=
  match t with
  | 0%nat | 1%nat =>
      match atomic_assign ex_off (Add, NMember (NDeref (NVar (VLocal 0) (TPtr (TStruct 0 8 4)))) (MInfo int_t 0 None), NNum int_t 1) 2 20 (GS 0 7) with
      | Some (c, _) => c
      | None => []
      end
  | _ => []
  end.
Theorem C55_member_refuted : exists tr c, crun member_code ex_own 64 (ex_conf 10 4 64 0 0) tr c /\
  (forall t, (t < 2)%nat -> h_pc (c_hart c t) = length (member_code t)) /\ tr = [Ev (Some 0%nat) 10 11; Ev (Some 1%nat) 11 11].
Proof.
  assert (V : view 64 [0%nat; 1%nat] (sched member_code 64 (many 22 0 ++ many 22 1 ++ many 4 0 ++ many 4 1) (ex_conf 10 4 64 0 0)) =
    Some ([Ev (Some 0%nat) 10 11; Ev (Some 1%nat) 11 11], [(length (member_code 0), 11); (length (member_code 1), 11)], 11)) by (vm_compute; reflexivity).
  destruct (sched member_code 64 _ (ex_conf 10 4 64 0 0)) as [[tr c]|] eqn:E; [|discriminate]. cbn [view map] in V.
  apply (sched_run _ ex_own) in E. injection V as TR P0 _ P1 _ _. exists tr, c. split; [exact E|]. split; [|exact TR].
  intros t L. destruct t as [|[|t]]; [exact P0|exact P1|lia].
Qed.
(** atomic_fetch_add(&x, v) is defined as the compound assignment (include/stdatomic.h:36), but
    its result should be the value x had before. *)
Theorem C55_fetch_add_refuted : exists tr c v v', crun ex_codes ex_own 64 (ex_conf 10 4 64 5 3) tr c /\
  h_pc (c_hart c 0%nat) = length (ex_codes 0) /\ by_hart 0 tr = [Ev (Some 0%nat) v v'] /\ h_rg (c_hart c 0%nat) (A 0) <> wrap v.
Proof.
  assert (RUN := C55_int_run). destruct (sched ex_codes 64 ex_sched (ex_conf 10 4 64 5 3)) as [[tr c]|] eqn:E; [|discriminate]. cbn [view map] in RUN.
  apply (sched_run _ ex_own) in E. injection RUN as TR P0 A0 P1 _ AX. exists tr, c, 30, 35. split; [exact E|]. split; [exact P0|]. split; [rewrite TR; reflexivity|]. rewrite A0. discriminate.
Qed.
Print Assumptions C55_unsigned_refuted.
Print Assumptions C55_long_refuted.
Print Assumptions C55_char_refuted.
Print Assumptions C55_far_refuted.
Print Assumptions C55_member_refuted.
Print Assumptions C55_fetch_add_refuted.
