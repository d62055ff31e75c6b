(** C01, C02: the hash map. *)
From Verif Require Import Base HashMapModel HashMapSpec HashMapProofs.

(** C01 (restricted): for every history of at most 20 million operations in
    which no bound key is overwritten after some deletion, the table returns
    for every key exactly what the history says.
    Missing with respect to C01: histories which overwrite a bound key after a
    deletion; the property is false there, see [C01_hashmap_refuted]. *)
Theorem C01_hashmap_refines_map_partial :
  forall (V : Type) (h : list (op V)) (k : bytes),
    Z.of_nat (List.length h) <= 20000000 ->
    no_overwrite_after_delete h ->
    exists m, run empty_map h = Ok m /\ hashmap_get m k = Ok (expected h k).
Proof. exact (@refines). Qed.
Print Assumptions C01_hashmap_refines_map_partial.

(** Scopes, keyword table and include caches never delete: full property. *)
Theorem C01_hashmap_insert_only :
  forall (V : Type) (h : list (op V)) (k : bytes),
    Z.of_nat (List.length h) <= 20000000 ->
    (forall k', ~ In (Del k') h) ->
    exists m, run empty_map h = Ok m /\ hashmap_get m k = Ok (expected h k).
Proof.
  exact (fun V h k Hl Hd => refines h k Hl
    (fun pre k' v post E Hex =>
       match proj1 (existsb_exists is_del pre) Hex with
       | ex_intro _ (Put _ _) (conj _ Hf) => False_ind _ (Bool.diff_false_true Hf)
       | ex_intro _ (Del k0) (conj Hin _) =>
           False_ind _ (Hd k0 (eq_ind_r (fun l => In (Del k0) l) (in_or_app _ _ _ (or_introl Hin)) E))
       end)).
Qed.
Print Assumptions C01_hashmap_insert_only.

(** Finding: after put a; put q; delete a; put q; delete q (a and q collide in
    a 16-slot table) the table still returns the first value stored for q:
    get_or_insert_entry reuses the tombstone before looking for the key. *)
Theorem C01_hashmap_refuted :
  exists (h : list (op Z)) (k : bytes) m,
    run empty_map h = Ok m /\ hashmap_get m k <> Ok (expected h k).
Proof.
  exists [Put (bs "a") 1; Put (bs "q") 2; Del (bs "a"); Put (bs "q") 3; Del (bs "q")], (bs "q").
  eexists. split; [vm_compute; reflexivity|]. vm_compute. discriminate.
Qed.
Print Assumptions C01_hashmap_refuted.

Example C01_nonvacuous :
  let h := [Put (bs "a") 1; Put (bs "q") 2; Put (bs "a") 4; Del (bs "a"); Put (bs "a") 7; Del (bs "q")] in
  no_overwrite_after_delete h /\ expected h (bs "a") = Some 7 /\ expected h (bs "q") = None.
Proof.
  split; [|split; reflexivity].
  intros pre k v post E Hd.
  repeat (destruct pre as [|? pre]; simpl in E; inversion E; subst; clear E; simpl in Hd; try discriminate;
          try reflexivity; rename H1 into E).
Qed.

(** C02 (restricted): for every history whatsoever the table never runs a
    full probe cycle (the unreachable() calls) and its recursion put->rehash->put
    is at most one deep: the only failures are the assertion in rehash and
    signed overflow of the counters; lookups always succeed.
    Missing: absence of the assertion failure, which is false in general
    ([C02_hashmap_assert_refuted]) and true under the condition of C01
    ([C01_hashmap_refines_map_partial]). *)
Theorem C02_hashmap_no_full_probe_partial :
  forall (V : Type) (h : list (op V)),
    match run empty_map h with
    | Ok m => forall k, exists r, hashmap_get m k = Ok r
    | AssertFail | IntOverflow => True
    | Unreachable | ModelFuel => False
    end.
Proof. exact (@no_full_probe). Qed.
Print Assumptions C02_hashmap_no_full_probe_partial.

(** Finding: redefining a key after a colliding one was deleted leaves two
    live copies; the next rehash then fails assert(map2.used == nkeys) and the
    compiler aborts. *)
Theorem C02_hashmap_assert_refuted :
  exists h : list (op Z), run empty_map h = AssertFail.
Proof.
  exists ([Put (bs "a") 1; Put (bs "q") 2; Del (bs "a"); Put (bs "q") 3] ++
          map (fun s => Put (bs s) 0)
            ["b"; "c"; "d"; "e"; "f"; "g"; "h"; "i"; "j"; "k"; "l"; "m"]%string).
  vm_compute. reflexivity.
Qed.
Print Assumptions C02_hashmap_assert_refuted.
