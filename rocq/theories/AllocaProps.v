(** Property C47: alloca. *)
From Verif Require Import Base IntArith ValSpec RvSpec GenModel GenSpec RvProofs GenBits AllocaModel AllocaSpec AllocaProofs.
From Coq Require Import ZifyBool ZifyNat.
Local Notation length := List.length.

(** For all sizes, stack contents and positions in the program: the code allocates the block,
    moves the temporaries below it and touches nothing else. *)
Theorem C47_alloca W p k off l1 l2 fp n bottom s : pc s = k -> code_at p k (alloca_code off l1 l2) -> NoDup (labels p) -> alloca_ready fp off n bottom s ->
  exists s', star W p s s' /\ pc s' = (k + length (alloca_code off l1 l2))%nat /\ alloca_done fp off n bottom s s'.
Proof. destruct s as [k0 rs ms]. cbn [pc]. intros ->. apply alloca_run. Qed.
Print Assumptions C47_alloca.

(** The blocks of any number of calls are disjoint, and below everything that was there. *)
Theorem C47_disjoint fp off bottom l : allocas fp off bottom l ->
  ForallOrdPairs (fun b c => fst c + snd c <= fst b) l /\ Forall (fun b => fst b + snd b <= bottom) l.
Proof.
  induction 1 as [b|b n s s' l R D _ [IH1 IH2]]; [split; constructor|]. destruct (ad_block _ _ _ _ _ _ D) as (B1 & B2 & _). pose proof (proj2 (ar_regs _ _ _ _ _ R) (A 0)) as N. rewrite (ar_size _ _ _ _ _ R) in N.
  split; [constructor; auto|]. constructor; [cbn; lia|]. eapply Forall_impl; [|exact IH2]. cbn. intros a Ha. lia.
Qed.
Print Assumptions C47_disjoint.

(** An example: 13 bytes, 24 bytes of temporaries, in a program with two alloca calls. *)
Definition ex_prog : prog := alloca_code (-40) (bs "a") (bs "b") ++ alloca_code (-40) (bs "c") (bs "d").
Definition ex_mem : mem := le_store (fun a => a * 7 mod 256) 1960 8 1000.
Definition ex_st : state := St 0 (fun r => match r with Fp => 2000 | Sp => 976 | A 0 => 13 | _ => 0 end) ex_mem.
Lemma ex_ready : alloca_ready 2000 (-40) 13 1000 ex_st.
Proof.
  constructor; try reflexivity.
  - split; [reflexivity|]. intros r. cbn. destruct r as [| | | |[|]| |]; lia.
  - split; [lia|]. split; [lia|]. vm_compute. reflexivity.
  - vm_compute. repeat split; discriminate.
Qed.
Example C47_nonvacuous W : exists s', star W ex_prog ex_st s' /\ rg s' (A 0) = 984 /\ rg s' Sp = 960 /\ mm s' 965 mod 256 = 981 * 7 mod 256 /\ le_load (mm s') 1960 8 = 984.
Proof.
  destruct (C47_alloca W ex_prog 0 (-40) (bs "a") (bs "b") 2000 13 1000 ex_st eq_refl) as (s' & X & _ & D).
  - exists [], (alloca_code (-40) (bs "c") (bs "d")). auto.
  - unfold ex_prog. vm_compute. repeat (constructor; [intros Q; cbn in Q; intuition discriminate|]). constructor.
  - exact ex_ready.
  - exists s'. destruct D as [_ (_ & B & _) (Q & _) TT SL _]. cbn [rg ex_st] in *. change (round8 13) with 16 in *. split; [exact X|]. rewrite B, Q in *. repeat split; auto.
    specialize (TT 5 ltac:(lia)). exact TT.
Qed.
