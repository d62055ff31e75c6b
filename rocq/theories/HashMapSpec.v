(** Specification of a map from byte strings to values as a history of
    operations. Uses only the operation type of the model. *)
From Verif Require Import Base HashMapModel.

(** What a lookup must return after a history: the value of the last Put of
    the key that is not followed by a Del of it. [h] is oldest first. *)
Fixpoint spec_lookup {V} (h : list (op V)) (k : bytes) (cur : option V) : option V :=
  match h with
  | [] => cur
  | Put k' v :: r => spec_lookup r k (if beq k' k then Some v else cur)
  | Del k' :: r => spec_lookup r k (if beq k' k then None else cur)
  end.

Definition expected {V} (h : list (op V)) (k : bytes) : option V := spec_lookup h k None.

(** Histories without an overwrite after a deletion: a Put of a key that is
    bound at that moment may only happen if nothing was deleted before. *)
Definition is_del {V} (o : op V) : bool := match o with Del _ => true | _ => false end.

Definition no_overwrite_after_delete {V} (h : list (op V)) : Prop :=
  forall pre k v post, h = pre ++ Put k v :: post ->
    existsb is_del pre = true -> expected pre k = None.
