(** Proofs about ProgModel: renumbering the local variables of a statement. *)
From Verif Require Import Base TypeModel IntArith NodeModel ValSpec NodeSpec NodeProofs StmtSpec ProgModel.
Local Notation length := List.length.

Section Vars.
Variable f : var -> var.
Variable E : env.
Definition renumbered : env := Env (fun v => e_addr E (f v)) (e_valid E) (e_call E).
Lemma map_ntype n : ntype (map_vars f n) = ntype n.
Proof. induction n using node_induct; cbn [map_vars ntype]; try reflexivity; try congruence; now rewrite ?IHn, ?IHn1, ?IHn2, ?IHn3. Qed.
Lemma map_ntypes l : map ntype (map (map_vars f) l) = map ntype l.
Proof. rewrite map_map. apply map_ext. intros n. apply map_ntype. Qed.
Lemma map_assign l r lv m : ev E lv (NAssign (map_vars f l) r) m =
  (if lv && negb (is_struct_union (ntype l)) then None else
   let* (a, m) := ev E true (map_vars f l) m in let* (v, m) := ev E false r m in
   match l with
   | NMember _ (MInfo t _ (Some (o, w))) => let* m := store_bf (e_valid E) t o w m a v in Some (if bf_signed t then sx w v else v mod 2 ^ w, m)
   | _ => let* m := store_val (e_valid E) (ntype l) m a v in Some (v, m)
   end).
Proof. cbn [ev]. rewrite map_ntype. destruct l; reflexivity. Qed.
Lemma map_ev n : forall lv m, ev E lv (map_vars f n) m = ev renumbered lv n m.
Proof.
  induction n using node_induct; intros lv m.
  all: try (cbn [map_vars ev renumbered e_addr e_valid]; reflexivity).
  - cbn [map_vars ev]. rewrite IHn. reflexivity.
  - change (map_vars f (NDeref n)) with (NDeref (map_vars f n)). cbn [ev]. rewrite IHn. change (ntype (NDeref (map_vars f n))) with (match base_of (ntype (map_vars f n)) with Some b => b | None => TVoid end). rewrite map_ntype. reflexivity.
  - cbn [map_vars ev]. rewrite IHn. reflexivity.
  - cbn [map_vars]. rewrite map_assign. cbn [ev]. destruct (lv && _); [reflexivity|]. rewrite IHn1. destruct (ev renumbered true n1 m) as [[a m1]|]; [|reflexivity]. rewrite IHn2. reflexivity.
  - cbn [map_vars ev]. rewrite IHn1. destruct (ev renumbered false n1 m) as [[a m1]|]; [|reflexivity]. apply IHn2.
  - cbn [map_vars ev]. rewrite map_ntype, IHn. reflexivity.
  - change (map_vars f (NCond n1 n2 n3)) with (NCond (map_vars f n1) (map_vars f n2) (map_vars f n3)). cbn [ev]. change (ntype (NCond (map_vars f n1) (map_vars f n2) (map_vars f n3))) with (match ntype (map_vars f n2), ntype (map_vars f n3) with TVoid, _ | _, TVoid => TVoid | t, _ => t end). rewrite !map_ntype, IHn1.
    change (ntype (NCond n1 n2 n3)) with (match ntype n2, ntype n3 with TVoid, _ | _, TVoid => TVoid | t, _ => t end). destruct (_ || _); [reflexivity|]. destruct (ev renumbered false n1 m) as [[a m1]|]; [|reflexivity]. destruct (truth a); [apply IHn2|apply IHn3].
  - cbn [map_vars ev]. rewrite IHn. reflexivity.
  - cbn [map_vars ev]. rewrite map_ntype, IHn. reflexivity.
  - cbn [map_vars ev]. rewrite map_ntype, IHn. reflexivity.
  - cbn [map_vars ev]. rewrite !map_ntype, IHn1. destruct (_ || _); [reflexivity|]. destruct (ev renumbered false n1 m) as [[a m1]|]; [|reflexivity]. now rewrite IHn2.
  - cbn [map_vars ev]. rewrite !map_ntype, IHn1. destruct (_ || _); [reflexivity|]. destruct (ev renumbered false n1 m) as [[a m1]|]; [|reflexivity]. now rewrite IHn2.
  - cbn [map_vars ev]. rewrite !map_ntype, IHn2. destruct lv; [reflexivity|]. destruct (ev renumbered false n2 m) as [[a m1]|]; [|reflexivity]. now rewrite IHn1.
  - cbn [map_vars]. rewrite !ev_call. destruct lv; [reflexivity|]. rewrite map_ntypes.
    assert (EL : forall m, evl E (map (map_vars f) args) m = evl renumbered args m).
    { clear m. match goal with F : Forall _ args |- _ => induction F as [|a l Ha _ IH] end; intros m; [reflexivity|]. cbn [map evl]. rewrite IH. destruct (evl renumbered l m) as [[vs m1]|]; [|reflexivity]. now rewrite Ha. }
    rewrite EL. destruct (evl renumbered args m) as [[vs m1]|]; [|reflexivity]. rewrite IHn. reflexivity.
Qed.

(** ** Statements *)
Fixpoint map_cont (k : cont) : cont :=
  match k with
  | KStop => KStop
  | KSeq s k => KSeq (map_svars f s) (map_cont k)
  | KHead c i b k => KHead (option_map (map_vars f) c) (option_map (map_vars f) i) (map_svars f b) (map_cont k)
  | KBody c i b k => KBody (option_map (map_vars f) c) (option_map (map_vars f) i) (map_svars f b) (map_cont k)
  | KDo b c k => KDo (map_svars f b) (map_vars f c) (map_cont k)
  | KSwitch k => KSwitch (map_cont k)
  end.
Definition map_found (r : option (stmt * cont)) : option (stmt * cont) := match r with Some (s, k) => Some (map_svars f s, map_cont k) | None => None end.
Definition map_conf (c : conf) : conf := match c with Run s k m => Run (map_svars f s) (map_cont k) m | Returned v m => Returned v m | Finished m => Finished m end.
Lemma found_or a b : map_found (orelse a b) = orelse (map_found a) (map_found b). Proof. destruct a as [[? ?]|]; reflexivity. Qed.
Lemma map_find_case t v s : forall k, find_case t v (map_svars f s) (map_cont k) = map_found (find_case t v s k).
Proof.
  induction s; intros k; cbn [map_svars find_case]; try reflexivity; rewrite ?found_or; auto.
  - rewrite <- IHs1, <- IHs2. reflexivity.
  - now rewrite IHs1, IHs2.
  - destruct (case_hit t lo hi v); [reflexivity|apply IHs].
  - rewrite <- IHs. reflexivity.
  - rewrite <- IHs. reflexivity.
  - rewrite <- IHs. reflexivity.
Qed.
Lemma map_find_default s : forall k, find_default (map_svars f s) (map_cont k) = map_found (find_default s k).
Proof.
  induction s; intros k; cbn [map_svars find_default]; try reflexivity; rewrite ?found_or; auto.
  - rewrite <- IHs1, <- IHs2. reflexivity.
  - now rewrite IHs1, IHs2.
  - rewrite <- IHs. reflexivity.
  - rewrite <- IHs. reflexivity.
  - rewrite <- IHs. reflexivity.
Qed.
Lemma map_find_label l s : forall k, find_label l (map_svars f s) (map_cont k) = map_found (find_label l s k).
Proof.
  induction s; intros k; cbn [map_svars find_label]; try reflexivity; rewrite ?found_or; auto.
  - rewrite <- IHs1, <- IHs2. reflexivity.
  - now rewrite IHs1, IHs2.
  - rewrite <- IHs. reflexivity.
  - rewrite <- IHs. reflexivity.
  - rewrite <- IHs. reflexivity.
  - rewrite <- IHs. reflexivity.
  - destruct (beq l l0); [reflexivity|apply IHs].
Qed.
Lemma map_test c m : test E (option_map (map_vars f) c) m = test renumbered c m.
Proof. destruct c as [c|]; [|reflexivity]. cbn [option_map test]. rewrite map_ntype, map_ev. reflexivity. Qed.
Lemma map_effects l : forall m, effects E (map (map_vars f) l) m = effects renumbered l m.
Proof. induction l as [|n l IH]; intros m; [reflexivity|]. cbn [map effects]. rewrite map_ev. destruct (ev renumbered false n m) as [[v m1]|]; [apply IH|reflexivity]. Qed.
Lemma map_step rt body c : sstep E rt (map_svars f body) (map_conf c) = option_map map_conf (sstep renumbered rt body c).
Proof.
  destruct c as [s k m| |]; [|reflexivity|reflexivity]. destruct s; cbn [map_conf map_svars sstep].
  - destruct k; cbn [map_cont]; try reflexivity.
    + rewrite map_test. destruct (test renumbered c m) as [[[|] m1]|]; reflexivity.
    + replace (match option_map (map_vars f) inc with Some e => [e] | None => [] end) with (map (map_vars f) match inc with Some e => [e] | None => [] end) by (destruct inc; reflexivity). rewrite map_effects. destruct (effects renumbered _ m); reflexivity.
    + change (Some (map_vars f c)) with (option_map (map_vars f) (Some c)). rewrite map_test. destruct (test renumbered (Some c) m) as [[[|] m1]|]; reflexivity.
  - change [map_vars f e] with (map (map_vars f) [e]). rewrite map_effects. destruct (effects renumbered [e] m); reflexivity.
  - reflexivity.
  - change (Some (map_vars f c)) with (option_map (map_vars f) (Some c)). rewrite map_test. destruct (test renumbered (Some c) m) as [[[|] m1]|]; reflexivity.
  - rewrite map_ev, map_ntype. destruct (ev renumbered false c m) as [[v m1]|]; [|reflexivity]. change (KSwitch (map_cont k)) with (map_cont (KSwitch k)). rewrite map_find_case, map_find_default, <- found_or. destruct (orelse _ _) as [[? ?]|]; reflexivity.
  - reflexivity.
  - reflexivity.
  - rewrite map_effects. destruct (effects renumbered init m); reflexivity.
  - reflexivity.
  - reflexivity.
  - change KStop with (map_cont KStop) at 1. rewrite map_find_label. destruct (find_label l body KStop) as [[? ?]|]; reflexivity.
  - destruct k; reflexivity.
  - destruct k; reflexivity.
  - reflexivity.
  - destruct e as [e|]; [|reflexivity]. cbn [option_map]. change (NCast rt (map_vars f e)) with (map_vars f (NCast rt e)). rewrite map_ev. destruct (ev renumbered false (NCast rt e) m) as [[v m1]|]; reflexivity.
Qed.
Lemma map_steps rt body a b : ssteps renumbered rt body a b -> ssteps E rt (map_svars f body) (map_conf a) (map_conf b).
Proof. induction 1 as [a|a a1 b S1 _ IH]; [constructor|]. econstructor; [rewrite map_step, S1; reflexivity|exact IH]. Qed.
End Vars.
