(** Model of /repo/hashmap.c (open-addressing hash table).

    Simplifications:
    - a bucket array is a list of slots, [NULL] is the empty list;
      [capacity] is the length of the list;
    - the signed [int] computations [used*100], [nkeys*100] and [cap*2] yield
      the distinct outcome [IntOverflow] when they leave the range of [int];
    - keys are byte strings (key pointer + keylen compared with memcmp);
      the value is any type. *)
From Verif Require Import Base.

Section HashMap.
Context {V : Type}.

Local Notation key := bytes (only parsing).

(** hashmap.h struct HashEntry; key == NULL, key == TOMBSTONE (hashmap.c:13)
    or a live entry. *)
Inductive slot := Empty | Tomb | Ent (k : key) (v : V).

(** hashmap.h struct HashMap. *)
Record hmap := HMap { buckets : list slot; used : nat }.

Definition empty_map : hmap := HMap [] 0.

Definition capacity (m : hmap) : nat := List.length (buckets m).

(** Outcomes: normal, the unreachable() at hashmap.c:81/117, the assert at
    hashmap.c:61, signed overflow, or the model's own recursion bound being
    too small. *)
Inductive outcome (A : Type) :=
  | Ok (a : A) | Unreachable | AssertFail | IntOverflow | ModelFuel.
Arguments Ok {A} a.
Arguments Unreachable {A}.
Arguments AssertFail {A}.
Arguments IntOverflow {A}.
Arguments ModelFuel {A}.

(** hashmap.c:15-26 fnv_hash *)
Definition fnv_hash (s : bytes) : Z :=
  fold_left (fun h c => Z.lxor ((h * 0x100000001b3) mod 2^64) c) s 0xcbf29ce484222325.

(** hashmap.c:73/97: index (hash + i) % capacity in uint64_t arithmetic *)
Definition probe (cap : nat) (k : key) (i : nat) : nat :=
  Z.to_nat (((fnv_hash k + Z.of_nat i) mod 2^64) mod Z.of_nat cap).

(** hashmap.c:28-32 match *)
Definition slot_match (s : slot) (k : key) : bool :=
  match s with Ent k' _ => beq k' k | _ => false end.

(** hashmap.c:72-81: probe loop of get_entry, [n] = capacity - i iterations
    left; returns the index of the entry. *)
Fixpoint get_loop (bs : list slot) (k : key) (i n : nat) : outcome (option nat) :=
  match n with
  | O => Unreachable
  | S n' =>
      let j := probe (List.length bs) k i in
      let s := nth j bs Empty in
      if slot_match s k then Ok (Some j)
      else match s with
           | Empty => Ok None
           | _ => get_loop bs k (S i) n'
           end
  end.

(** hashmap.c:65-82 get_entry *)
Definition get_entry (m : hmap) (k : key) : outcome (option nat) :=
  match buckets m with
  | [] => Ok None
  | _ => get_loop (buckets m) k 0 (capacity m)
  end.

(** hashmap.c:120-124 hashmap_get2 *)
Definition hashmap_get (m : hmap) (k : key) : outcome (option V) :=
  match get_entry m k with
  | Ok None => Ok None
  | Ok (Some j) =>
      match nth j (buckets m) Empty with
      | Ent _ v => Ok (Some v)
      | _ => Ok None
      end
  | Unreachable => Unreachable
  | AssertFail => AssertFail
  | IntOverflow => IntOverflow
  | ModelFuel => ModelFuel
  end.

(** hashmap.c:96-117: probe loop of get_or_insert_entry together with the
    store [ent->val = val] of hashmap_put2 (hashmap.c:129). *)
Fixpoint put_loop (m : hmap) (k : key) (v : V) (i n : nat) : outcome hmap :=
  match n with
  | O => Unreachable
  | S n' =>
      let j := probe (capacity m) k i in
      let s := nth j (buckets m) Empty in
      if slot_match s k then Ok (HMap (set_nth j (Ent k v) (buckets m)) (used m))
      else match s with
           | Tomb => Ok (HMap (set_nth j (Ent k v) (buckets m)) (used m))
           | Empty => Ok (HMap (set_nth j (Ent k v) (buckets m)) (S (used m)))
           | _ => put_loop m k v (S i) n'
           end
  end.

Definition is_live (s : slot) : bool := match s with Ent _ _ => true | _ => false end.

(** hashmap.c:40-43: count of live keys *)
Definition count_live (bs : list slot) : nat := List.length (filter is_live bs).

(** Range of [int]. *)
Definition fits_int (n : nat) : bool := Z.of_nat n <? 2^31.

(** hashmap.c:45-48: while ((nkeys*100)/cap >= LOW_WATERMARK) cap *= 2; *)
Fixpoint grow (nkeys cap fuel : nat) : outcome nat :=
  match fuel with
  | O => ModelFuel
  | S f =>
      if negb (fits_int (nkeys * 100)) then IntOverflow
      else if (50 <=? (nkeys * 100) / cap)%nat then
        if fits_int (cap * 2) then grow nkeys (cap * 2) f else IntOverflow
      else Ok cap
  end.

(** Copy loop of rehash, hashmap.c:55-59, over a given put function. *)
Fixpoint copy_all (put : hmap -> key -> V -> outcome hmap) (bs : list slot) (m2 : hmap)
  : outcome hmap :=
  match bs with
  | [] => Ok m2
  | Ent k v :: r =>
      match put m2 k v with
      | Ok m' => copy_all put r m'
      | e => e
      end
  | _ :: r => copy_all put r m2
  end.

(** hashmap.c:126-130 hashmap_put2, hashmap.c:84-118 get_or_insert_entry and
    hashmap.c:37-63 rehash. They are mutually recursive in C (rehash calls
    hashmap_put2); [d] bounds that recursion. *)
Fixpoint put_d (d : nat) (m : hmap) (k : key) (v : V) : outcome hmap :=
  match d with
  | O => ModelFuel
  | S d' =>
      match buckets m with
      | [] => let m1 := HMap (repeat Empty 16) (used m) in put_loop m1 k v 0 (capacity m1)
      | _ =>
          if negb (fits_int (used m * 100)) then IntOverflow
          else if (70 <=? (used m * 100) / capacity m)%nat then
            let nkeys := count_live (buckets m) in
            match grow nkeys (capacity m) (S nkeys) with
            | Ok cap =>
                match copy_all (put_d d') (buckets m) (HMap (repeat Empty cap) 0) with
                | Ok m2 =>
                    if (used m2 =? nkeys)%nat then put_loop m2 k v 0 (capacity m2)
                    else AssertFail
                | e => e
                end
            | Unreachable => Unreachable
            | AssertFail => AssertFail
            | IntOverflow => IntOverflow
            | ModelFuel => ModelFuel
            end
          else put_loop m k v 0 (capacity m)
      end
  end.

Definition hashmap_put := put_d 2.

(** hashmap.c:132-137 hashmap_delete2 *)
Definition hashmap_delete (m : hmap) (k : key) : outcome hmap :=
  match get_entry m k with
  | Ok None => Ok m
  | Ok (Some j) => Ok (HMap (set_nth j Tomb (buckets m)) (used m))
  | Unreachable => Unreachable
  | AssertFail => AssertFail
  | IntOverflow => IntOverflow
  | ModelFuel => ModelFuel
  end.

(** A history of mutating API calls on one map. *)
Inductive op := Put (k : key) (v : V) | Del (k : key).

Definition step (m : hmap) (o : op) : outcome hmap :=
  match o with
  | Put k v => hashmap_put m k v
  | Del k => hashmap_delete m k
  end.

Fixpoint run (m : hmap) (h : list op) : outcome hmap :=
  match h with
  | [] => Ok m
  | o :: r => match step m o with Ok m' => run m' r | e => e end
  end.

End HashMap.
Arguments slot : clear implicits.
Arguments hmap : clear implicits.
Arguments outcome : clear implicits.
Arguments op : clear implicits.
Arguments Ok {A} a.
Arguments Unreachable {A}.
Arguments AssertFail {A}.
Arguments IntOverflow {A}.
Arguments ModelFuel {A}.
