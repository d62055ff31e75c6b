(** Proofs about FrontModel against FrontSpec. *)
From Verif Require Import Base TypeModel IntArith NodeModel ValSpec ElabSpec ElabProofs ElabSim ParseModel ParseSpec ParsePrint FrontModel FrontSpec.
From Verif Require ScopeModel ScopeSpec LitModel LitSpec LitProofs.
From Coq Require Import ZifyBool ZifyNat.
Local Notation length := List.length.

(** ** Members *)
Section MInd.
Variable Q : mtree -> Prop.
Hypothesis H : forall n m k, Forall Q k -> Q (MT n m k).
Fixpoint mtree_all (x : mtree) : Q x :=
  let 'MT n m k := x in H n m k ((fix go l := match l return Forall Q l with [] => Forall_nil _ | y :: l => Forall_cons y (mtree_all y) (go l) end) k).
End MInd.
Lemma su_same t : is_struct_union t = is_su t. Proof. destruct t; reflexivity. Qed.
Lemma get_in_unfold n name m kids : get_in n (MT name m kids) =
  if is_struct_union (m_ty m) && match name with None => true | Some _ => false end
  then match get_struct_member n kids with MFound _ => MFound (MT name m kids) | res => res end
  else match name with None => MCrash | Some s => if beq s n then MFound (MT name m kids) else MNone end.
Proof. reflexivity. Qed.
Lemma places_in_unfold n name m kids : places_in n (MT name m kids) =
  match name with Some s => if beq s n then [[m]] else [] | None => if is_su (m_ty m) then map (cons m) (places n kids) else [] end.
Proof. reflexivity. Qed.
Lemma named_in_unfold name m kids : named_in (MT name m kids) = match name with Some _ => true | None => is_su (m_ty m) && named kids end.
Proof. reflexivity. Qed.
Definition got (n : bytes) (x : mtree) : mres := match places_in n x with [] => MNone | _ :: _ => MFound x end.
Lemma get_list n l : named l = true -> Forall (fun x => named_in x = true -> get_in n x = got n x) l ->
  match places n l with
  | [] => get_struct_member n l = MNone
  | p :: _ => exists x r, In x l /\ places_in n x = p :: r /\ get_struct_member n l = MFound x
  end.
Proof.
  induction l as [|y l IH]; intros N F; [reflexivity|]. cbn [named forallb] in N. apply andb_true_iff in N. destruct N as [N1 N2]. inversion F as [|? ? F1 F2]; subst. specialize (IH N2 F2).
  cbn [get_struct_member]. rewrite (F1 N1). unfold got. change (places n (y :: l)) with (places_in n y ++ places n l). destruct (places_in n y) as [|p r] eqn:P; cbn [app].
  - destruct (places n l); [exact IH|]. destruct IH as (x & r & I1 & P1 & G). exists x, r. split; [now right|]. now split.
  - exists y, r. split; [now left|]. now split.
Qed.
Lemma get_in_got n x : named_in x = true -> get_in n x = got n x.
Proof.
  revert x. apply (mtree_all (fun x => named_in x = true -> get_in n x = got n x)). intros name m kids F N. rewrite named_in_unfold in N. rewrite get_in_unfold. unfold got. rewrite places_in_unfold, su_same. destruct name as [s|].
  - rewrite andb_false_r. destruct (beq s n); reflexivity.
  - apply andb_true_iff in N. destruct N as [N1 N2]. rewrite N1. cbn [andb]. pose proof (get_list n kids N2 F) as G. destruct (places n kids) as [|p r]; [now rewrite G|]. destruct G as (x & ? & _ & _ & G). now rewrite G.
Qed.
Lemma get_member n l : named l = true -> match places n l with
  | [] => get_struct_member n l = MNone
  | p :: _ => exists x r, In x l /\ places_in n x = p :: r /\ get_struct_member n l = MFound x
  end.
Proof. intros N. apply get_list; [exact N|]. apply Forall_forall. intros x _. apply get_in_got. Qed.
Lemma depths_in x l : In x l -> (depth x <= depths l)%nat.
Proof. induction l as [|y l IH]; [easy|]. change (depths (y :: l)) with (Nat.max (depth y) (depths l)). intros [->|I1]; [lia|]. specialize (IH I1). lia. Qed.
Lemma struct_ref_first n : forall fuel l, named l = true -> (depths l < fuel)%nat -> struct_ref n fuel l = hd_error (places n l).
Proof.
  induction fuel as [|fuel IH]; intros l N D; [lia|]. cbn [struct_ref]. pose proof (get_member n l N) as G. destruct (places n l) as [|p r]; [now rewrite G|]. destruct G as (x & r' & I1 & P & G). rewrite G. destruct x as [name m kids]. rewrite places_in_unfold in P. destruct name as [s|].
  - destruct (beq s n); [injection P as <- _; reflexivity|discriminate P].
  - destruct (is_su (m_ty m)) eqn:SU; [|discriminate P]. assert (NK : named kids = true).
    { unfold named in N. rewrite forallb_forall in N. specialize (N _ I1). rewrite named_in_unfold in N. apply andb_true_iff in N. apply N. }
    pose proof (depths_in _ _ I1) as DX. change (depth (MT None m kids)) with (S (depths kids)) in DX. rewrite (IH kids NK ltac:(lia)). destruct (places n kids) as [|p' r'']; [discriminate P|]. cbn [map] in P. injection P as <- _. reflexivity.
Qed.

(** ** Expressions that mean the same *)
Definition ceq (c d : cexpr) : Prop :=
  ctype c = ctype d /\ plain c = plain d /\ is_lval c = is_lval d /\ bits_of c = bits_of d /\ prototyped c = prototyped d /\ forall A V f lv m, cev A V f lv c m = cev A V f lv d m.
Lemma ceq_refl c : ceq c c. Proof. repeat split. Qed.
Lemma ceq_sym c d : ceq c d -> ceq d c. Proof. intros (A & B & C & D & X & E). repeat split; auto. Qed.
Lemma ceq_trans a b c : ceq a b -> ceq b c -> ceq a c. Proof. intros (A & B & C & D & X & E) (A' & B' & C' & D' & X' & E'). repeat split; try congruence; intros; rewrite E; apply E'. Qed.
Lemma ceq_ty c d : ceq c d -> ty_of c = ty_of d. Proof. intros (A & _). unfold ty_of. now rewrite A. Qed.
Lemma ceq_op c d : ceq c d -> op_of c = op_of d. Proof. intros Q. unfold op_of. rewrite (ceq_ty _ _ Q). destruct Q as (_ & _ & _ & B & _). unfold operand_type. now rewrite B. Qed.
Lemma ceq_ot c d : ceq c d -> forall t, operand_type c t = operand_type d t. Proof. intros (_ & _ & _ & B & _) t. unfold operand_type. now rewrite B. Qed.
Lemma ceq_wide c d : ceq c d -> wide c = wide d. Proof. intros Q. unfold wide. rewrite (ceq_ty _ _ Q). destruct Q as (_ & _ & _ & -> & _). reflexivity. Qed.
Lemma ceq_prom c d : ceq c d -> promotable c = promotable d. Proof. intros Q. unfold promotable. rewrite (ceq_ty _ _ Q). destruct Q as (_ & _ & _ & -> & _). reflexivity. Qed.
Lemma ceq_comma a b c : ceq (CComma (CComma a b) c) (CComma a (CComma b c)).
Proof.
  repeat split; cbn [ctype plain].
  - destruct (ctype a); reflexivity.
  - now rewrite andb_assoc.
  - cbn [prototyped]. now rewrite andb_assoc.
  - intros A V f [|] m; [reflexivity|]. cbn [cev]. destruct (cev A V f false a m) as [[? ?]|]; reflexivity.
Qed.

Ltac facts Q := pose proof (ceq_ty _ _ Q); pose proof (ceq_op _ _ Q); pose proof (ceq_ot _ _ Q); pose proof (ceq_wide _ _ Q); pose proof (ceq_prom _ _ Q); destruct Q as (? & ? & ? & ? & ? & ?).
Ltac rws := repeat match goal with
  | H : ctype ?c = ctype _ |- context [ctype ?c] => rewrite H
  | H : plain ?c = plain _ |- context [plain ?c] => rewrite H
  | H : is_lval ?c = is_lval _ |- context [is_lval ?c] => rewrite H
  | H : prototyped ?c = prototyped _ |- context [prototyped ?c] => rewrite H
  | H : bits_of ?c = bits_of _ |- context [bits_of ?c] => rewrite H
  | H : ty_of ?c = ty_of _ |- context [ty_of ?c] => rewrite H
  | H : op_of ?c = op_of _ |- context [op_of ?c] => rewrite H
  | H : wide ?c = wide _ |- context [wide ?c] => rewrite H
  | H : promotable ?c = promotable _ |- context [promotable ?c] => rewrite H
  | H : forall t, operand_type ?c t = _ |- context [operand_type ?c ?t] => rewrite (H t)
  | H : forall A V f lv m, cev A V f lv ?c m = _ |- context [cev ?A ?V ?f ?lv ?c ?m] => rewrite (H A V f lv m)
  end.
Ltac steps := rws; try reflexivity;
  first [ match goal with
          | |- context [match ctype ?c with _ => _ end] => destruct (ctype c)
          | |- context [match cev ?A ?V ?f ?lv ?c ?m with _ => _ end] => destruct (cev A V f lv c m) as [[? ?]|]
          | |- context [if truth ?x then _ else _] => destruct (truth x)
          | |- context [if right_first ?o ?a ?b then _ else _] => destruct (right_first o a b)
          end; steps
        | idtac ].
Ltac congr :=
  match goal with |- ceq ?u ?v =>
    assert (ctype u = ctype v) by (cbn [ctype]; steps);
    assert (ty_of u = ty_of v) by (unfold ty_of; rws; reflexivity);
    split; [assumption|]; split; [cbn [plain]; rws; reflexivity|]; split; [cbn [is_lval]; rws; reflexivity|]; split; [cbn [bits_of]; rws; reflexivity|]; split; [cbn [prototyped]; rws; reflexivity|];
    intros ? ? ? [|] ?; cbn [cev]; unfold bin_order; steps
  end.
Lemma ceq_plus a a' : ceq a a' -> ceq (CPlus a) (CPlus a'). Proof. intros Q. facts Q. congr. Qed.
Lemma ceq_neg a a' : ceq a a' -> ceq (CNeg a) (CNeg a'). Proof. intros Q. facts Q. congr. Qed.
Lemma ceq_not a a' : ceq a a' -> ceq (CNot a) (CNot a'). Proof. intros Q. facts Q. congr. Qed.
Lemma ceq_bitnot a a' : ceq a a' -> ceq (CBitNot a) (CBitNot a'). Proof. intros Q. facts Q. congr. Qed.
Lemma ceq_addr a a' : ceq a a' -> ceq (CAddr a) (CAddr a'). Proof. intros Q. facts Q. congr. Qed.
Lemma ceq_deref a a' : ceq a a' -> ceq (CDeref a) (CDeref a'). Proof. intros Q. facts Q. congr; destruct (ty_of a'); rws; reflexivity. Qed.
Lemma ceq_cast t a a' : ceq a a' -> ceq (CCast t a) (CCast t a'). Proof. intros Q. facts Q. congr. Qed.
Lemma ceq_step a a' : ceq a a' -> ceq (CPreInc a) (CPreInc a') /\ ceq (CPreDec a) (CPreDec a') /\ ceq (CPostInc a) (CPostInc a') /\ ceq (CPostDec a) (CPostDec a').
Proof. intros Q. facts Q. split; [congr|]. split; [congr|]. split; congr. Qed.
Lemma ceq_dot a a' m : ceq a a' -> ceq (CDot a m) (CDot a' m). Proof. intros Q. facts Q. congr. Qed.
Lemma ceq_arrow a a' m : ceq a a' -> ceq (CArrow a m) (CArrow a' m). Proof. intros Q. facts Q. congr. Qed.
Lemma ceq_dots p : forall a a', ceq a a' -> ceq (fold_left CDot p a) (fold_left CDot p a').
Proof. induction p as [|m p IH]; intros a a' Q; [exact Q|]. cbn [fold_left]. apply IH. now apply ceq_dot. Qed.
Lemma ceq_bin o a a' b b' : ceq a a' -> ceq b b' -> ceq (CBin o a b) (CBin o a' b'). Proof. intros Q R. facts Q. facts R. congr. Qed.
Lemma ceq_and a a' b b' : ceq a a' -> ceq b b' -> ceq (CAnd a b) (CAnd a' b'). Proof. intros Q R. facts Q. facts R. congr. Qed.
Lemma ceq_or a a' b b' : ceq a a' -> ceq b b' -> ceq (COr a b) (COr a' b'). Proof. intros Q R. facts Q. facts R. congr. Qed.
Lemma ceq_com a a' b b' : ceq a a' -> ceq b b' -> ceq (CComma a b) (CComma a' b'). Proof. intros Q R. facts Q. facts R. congr. Qed.
Lemma ceq_elvis a a' b b' : ceq a a' -> ceq b b' -> ceq (CElvis a b) (CElvis a' b'). Proof. intros Q R. facts Q. facts R. congr. Qed.
Lemma ceq_index a a' b b' : ceq a a' -> ceq b b' -> ceq (CIndex a b) (CIndex a' b'). Proof. intros Q R. facts Q. facts R. congr. Qed.
Lemma ceq_assign a a' b b' : ceq a a' -> ceq b b' -> ceq (CAssign a b) (CAssign a' b'). Proof. intros Q R. facts Q. facts R. congr. Qed.
Lemma ceq_opassign o a a' b b' : ceq a a' -> ceq b b' -> ceq (COpAssign o a b) (COpAssign o a' b'). Proof. intros Q R. facts Q. facts R. congr. Qed.
Lemma ceq_cond c c' a a' b b' : ceq c c' -> ceq a a' -> ceq b b' -> ceq (CCond c a b) (CCond c' a' b'). Proof. intros P Q R. facts P. facts Q. facts R. congr. Qed.
Lemma cevs_eq l l' (Q : Forall2 ceq l l') A V f : forall ps m, cevs A V f l ps m = cevs A V f l' ps m.
Proof. induction Q as [|a a' r r' Qa _ IH]; intros ps m; [reflexivity|]. cbn [cevs]. fold (cevs A V f). rewrite IH. destruct (cevs A V f r' (List.tl ps) m) as [[? ?]|]; [|reflexivity]. destruct Qa as (_ & _ & _ & _ & _ & E). rewrite E. reflexivity. Qed.
Lemma args_ok_eq l l' (Q : Forall2 ceq l l') va : forall ps, args_ok va l ps = args_ok va l' ps.
Proof. induction Q as [|a a' r r' Qa _ IH]; intros ps; [reflexivity|]. cbn [args_ok]. fold (args_ok va). destruct Qa as (-> & _). destruct (ctype a'); [|reflexivity]. destruct ps; now rewrite IH. Qed.
Lemma arg_types_eq l l' (Q : Forall2 ceq l l') : forall ps, arg_types l ps = arg_types l' ps.
Proof. induction Q as [|a a' r r' Qa _ IH]; intros ps; [reflexivity|]. cbn [arg_types]. destruct ps; rewrite IH; [now rewrite (ceq_op _ _ Qa)|reflexivity]. Qed.
Lemma plain_eq l l' (Q : Forall2 ceq l l') : forallb plain l = forallb plain l'.
Proof. induction Q as [|a a' r r' Qa _ IH]; [reflexivity|]. cbn [forallb]. rewrite IH. now destruct Qa as (_ & -> & _). Qed.
Lemma prototyped_eq l l' (Q : Forall2 ceq l l') : forallb prototyped l = forallb prototyped l'.
Proof. induction Q as [|a a' r r' Qa _ IH]; [reflexivity|]. cbn [forallb]. rewrite IH. now destruct Qa as (_ & _ & _ & _ & -> & _). Qed.
Lemma promotable_eq l l' (Q : Forall2 ceq l l') : forall n, forallb promotable (skipn n l) = forallb promotable (skipn n l').
Proof.
  induction Q as [|a a' r r' Qa _ IH]; intros n; [reflexivity|]. destruct n as [|n]; cbn [skipn]; [|apply IH]. cbn [forallb]. rewrite (ceq_prom _ _ Qa). f_equal. apply (IH O).
Qed.
Lemma ceq_call f f' ps va l l' : ceq f f' -> Forall2 ceq l l' -> ceq (CCall f ps va l) (CCall f' ps va l').
Proof.
  intros P Q. facts P. assert (CT : ctype (CCall f ps va l) = ctype (CCall f' ps va l')) by (cbn [ctype]; fold (args_ok va); rewrite (args_ok_eq l l' Q va ps); rws; reflexivity).
  assert (TY : ty_of (CCall f ps va l) = ty_of (CCall f' ps va l')) by (unfold ty_of; now rewrite CT).
  split; [exact CT|]. split; [cbn [plain]; rws; now rewrite (plain_eq _ _ Q), (promotable_eq _ _ Q)|]. split; [reflexivity|]. split; [reflexivity|]. split; [cbn [prototyped]; rws; now rewrite (prototyped_eq _ _ Q)|].
  intros A V g [|] m; [reflexivity|]. cbn [cev]. fold (cevs A V g). rewrite (cevs_eq _ _ Q), (arg_types_eq _ _ Q), TY. destruct (cevs A V g l' ps m) as [[? ?]|]; [|reflexivity]. rws. reflexivity.
Qed.

(** ** Comma expressions *)
Section Norm.
Variables (decl : bytes -> option ent) (x : ctx) (number : bytes -> option (ty * Z)).
Notation M := (means decl x number).
Definition means_l := fix go (l : list sx) (j : nat) : option (list cexpr * nat) :=
  match l with [] => Some ([], j) | a :: l => let* (c, j) := M a j in let* (cs, j) := go l j in Some (c :: cs, j) end.
Definition oeq (a b : option (cexpr * nat)) : Prop :=
  match a, b with Some (c, j), Some (d, k) => ceq c d /\ j = k | None, None => True | _, _ => False end.
Lemma oeq_refl a : oeq a a. Proof. destruct a as [[? ?]|]; [split; [apply ceq_refl|reflexivity]|exact I]. Qed.
Lemma oeq_trans a b c : oeq a b -> oeq b c -> oeq a c.
Proof. destruct a as [[? ?]|], b as [[? ?]|], c as [[? ?]|]; cbn; try easy. intros [A ->] [B ->]. split; [eapply ceq_trans; eassumption|reflexivity]. Qed.
Lemma then_means b : forall a j, oeq (M (XComma a b) j) (M (then_ a b) j).
Proof.
  induction a as [| | | | | | | | | | | | | |p _ q IH]; intros j; try apply oeq_refl. cbn [then_].
  change (M (XComma p (then_ q b)) j) with (let* (ca, j) := M p j in let* (cb, j) := M (then_ q b) j in Some (CComma ca cb, j)).
  cbn [means]. destruct (M p j) as [[cp jp]|]; [|exact I]. specialize (IH jp). cbn [means] in IH. destruct (M q jp) as [[cq jq]|].
  - destruct (M b jq) as [[cb jb]|].
    + destruct (M (then_ q b) jp) as [[d k]|]; [|easy]. destruct IH as [Q ->]. split; [|reflexivity]. eapply ceq_trans; [apply ceq_comma|]. apply ceq_com; [apply ceq_refl|exact Q].
    + destruct (M (then_ q b) jp) as [[d k]|]; easy.
  - destruct (M (then_ q b) jp) as [[d k]|]; easy.
Qed.
Lemma params_then b : forall a, parameters decl (then_ a b) = None. Proof. intros a. destruct a; reflexivity. Qed.
Lemma params_norm : forall e, parameters decl (norm e) = parameters decl e.
Proof. induction e as [a|u e IH| | | | | | | | | | | | |a _ b _]; try reflexivity. - cbn [norm]. destruct u; try reflexivity; exact IH. - cbn [norm]. apply params_then. Qed.
Lemma operand_eq c d : ceq c d -> operand c = operand d.
Proof. intros (A & B & _ & D & _). unfold operand. rewrite A, B, D. reflexivity. Qed.
Ltac one IH j := let H := fresh in pose proof (IH j) as H; match type of H with oeq ?a ?b => destruct a as [[? ?]|], b as [[? ?]|]; cbn [oeq] in H; try contradiction; [destruct H as [?Q ->]|exact I] end.
Lemma means_norm : forall e j, oeq (M e j) (M (norm e) j).
Proof.
  induction e as [a|u e IH|i e IH|r e m IH|a i IHa IHi|f l IHf IHl|c l IHc IHl|a b c IHa IHb IHc|a b IHa IHb|o a b IHa IHb|c a b IHc IHa IHb|a b IHa IHb|t e IH|o l r IHl IHr|a b IHa IHb] using sx_all; intros j.
  - cbn [norm]. apply oeq_refl.
  - cbn [norm means]. one IH j. destruct u; try (rewrite (operand_eq _ _ Q); apply oeq_refl); cbn [oeq]; (split; [|reflexivity]);
    first [now apply ceq_plus|now apply ceq_neg|now apply ceq_addr|now apply ceq_deref|now apply ceq_not|now apply ceq_bitnot|now apply (ceq_step _ _ Q)].
  - cbn [norm means]. one IH j. split; [|reflexivity]. destruct i; now apply (ceq_step _ _ Q).
  - destruct r; cbn [norm means]; one IH j; rewrite (proj1 Q); destruct (ctype _) as [t|]; [| exact I | | exact I].
    + destruct (pointee t) as [b|]; [|exact I]. destruct (places m (tagged x b)) as [|[|i p] [|? ?]]; try exact I. split; [|reflexivity]. apply ceq_dots. now apply ceq_arrow.
    + destruct (places m (tagged x t)) as [|p [|? ?]]; try exact I. split; [|reflexivity]. now apply ceq_dots.
  - cbn [norm means]. one IHa j. one IHi n0. split; [|reflexivity]. now apply ceq_index.
  - cbn [norm means]. one IHf j. rewrite params_norm. destruct (parameters decl f) as [[ps va]|]; [|exact I].
    fold means_l. assert (G : forall k, match means_l l k, means_l (map norm l) k with Some (cs, a), Some (ds, b) => Forall2 ceq cs ds /\ a = b | None, None => True | _, _ => False end).
    { clear - IHl. induction IHl as [|a l Ha _ IH]; intros k; [split; [constructor|reflexivity]|]. cbn [map means_l]. fold means_l. one Ha k. specialize (IH n0). destruct (means_l l n0) as [[? ?]|], (means_l (map norm l) n0) as [[? ?]|]; try easy. destruct IH as [? ->]. split; [now constructor|reflexivity]. }
    specialize (G n0). destruct (means_l l n0) as [[? ?]|], (means_l (map norm l) n0) as [[? ?]|]; try easy. destruct G as [G ->]. split; [|reflexivity]. now apply ceq_call.
  - exact I.
  - exact I.
  - exact I.
  - cbn [norm means]. one IHa j. one IHb n0. split; [|reflexivity]. destruct o as [o| |]; [now apply ceq_bin|now apply ceq_and|now apply ceq_or].
  - cbn [norm means]. one IHc j. one IHa n0. match goal with |- oeq (match M _ ?k with _ => _ end) _ => one IHb k end. split; [|reflexivity]. now apply ceq_cond.
  - cbn [norm means]. one IHa j. one IHb n0. split; [|reflexivity]. now apply ceq_elvis.
  - cbn [norm means]. destruct (x_type x t); [|exact I]. one IH j. split; [|reflexivity]. now apply ceq_cast.
  - cbn [norm means]. one IHl j. one IHr n0. split; [|reflexivity]. destruct o as [o|]; [now apply ceq_opassign|now apply ceq_assign].
  - cbn [norm]. eapply oeq_trans; [|apply then_means]. cbn [means]. one IHa j. one IHb n0. split; [|reflexivity]. now apply ceq_com.
Qed.
Lemma means_same e e' j c k : same_tree e e' -> M e j = Some (c, k) -> exists c', M e' j = Some (c', k) /\ ceq c c'.
Proof.
  intros S1 E. pose proof (means_norm e j) as A. pose proof (means_norm e' j) as B. rewrite S1, E in A. destruct (M (norm e') j) as [[d k1]|]; [|easy]. destruct A as [A <-]. destruct (M e' j) as [[c' k2]|]; [|easy]. destruct B as [B ->]. exists c'. split; [reflexivity|]. eapply ceq_trans; [exact A|now apply ceq_sym].
Qed.

(** ** The model *)
Hypothesis SC : forall n, find_ent x n = decl n.
Hypothesis NUM : forall b t v, number b = Some (t, v) -> integer_constant b t v.
Hypothesis MEM : forall i, named (x_mems x i) = true.
Hypothesis STAT : forall c t, plain c = true -> ctype c = Some t -> exists n k, elab c 0 = Some (n, k) /\ teq (ntype n) t.
Definition names_l := fix go (l : list sx) (j : nat) : option (list cexpr * nat) :=
  match l with [] => Some ([], j) | a :: l => let* (c, j) := names x a j in let* (cs, j) := go l j in Some (c :: cs, j) end.
Lemma signature_parameters : forall e, signature x e = parameters decl e.
Proof. induction e as [a|u e IH| | | | | | | | | | | | | ]; try reflexivity. - destruct a; try reflexivity. cbn [signature parameters]. now rewrite SC. - destruct u; try reflexivity; exact IH. Qed.
Lemma number_model b t v : number b = Some (t, v) -> exists w u, LitModel.convert_pp_int b (length b) = Some (w, u) /\ ity_ty u = t /\ num_val u w = v.
Proof.
  intros N. destruct (NUM b t v N) as (d & dec & suf & l & u & ct & -> & IC & SF & FF & ->).
  assert (B : 0 <= v). { destruct IC as [c ds v _ Hn|ds v Hn|y c ds v _ Hn|y c ds v _ Hn]; eapply LitProofs.numeral_nonneg in Hn; eauto using LitProofs.dec_ok, LitProofs.oct_ok, LitProofs.hex_ok, LitProofs.bin_ok; lia. }
  assert (U : v <= LitSpec.type_max ct). { revert FF. generalize (LitSpec.candidates dec l u). induction l0 as [|c r IH]; cbn; [discriminate|]. destruct (v <=? LitSpec.type_max c) eqn:L; [intros [= <-]; lia|exact IH]. }
  assert (L : v < 2 ^ 64) by (destruct ct; cbn in U; lia).
  pose proof (LitProofs.convert_pp_int_spec d dec v suf l u [] ct IC SF) as C. rewrite !app_nil_r in C. specialize (C (or_introl eq_refl) L FF). rewrite C. eexists. eexists. split; [reflexivity|]. split; [destruct ct; reflexivity|].
  unfold LitModel.int64 in *. destruct ct; cbn [LitProofs.ty_of num_val] in *; cbn in U.
  1-3: rewrite Z.mod_small by lia; lia.
  rewrite Zminus_mod_idemp_l. replace (v + 2 ^ 63 - 2 ^ 63) with v by lia. apply Z.mod_small. lia.
Qed.
Lemma plain_dots p : forall c, plain (fold_left CDot p c) = plain c.
Proof. induction p as [|m p IH]; intros c; [reflexivity|]. cbn [fold_left]. now rewrite IH. Qed.
Lemma tagged_su t n : places n (tagged x t) <> [] -> is_su t = true. Proof. destruct t; cbn; congruence. Qed.
Lemma tagged_named t : named (tagged x t) = true. Proof. destruct t; cbn; try reflexivity; apply MEM. Qed.
Lemma sized_align a b : teq a b -> align_of a = align_of b.
Proof. intros [->|[A B]]; [reflexivity|]. apply ei_cases in A, B. destruct A as [->| ->], B as [->| ->]; reflexivity. Qed.
Lemma operand_type_of c t : operand c = Some t -> exists u, node_type c = Some u /\ size_of u = size_of t /\ align_of u = align_of t.
Proof.
  unfold operand, node_type. destruct (ctype c) as [t'|] eqn:T; [|discriminate]. destruct (sized t' && _ && plain c) eqn:B; [|discriminate]. intros [= <-]. apply andb_true_iff in B. destruct B as [_ P]. destruct (STAT c t' P T) as (n & k & -> & TQ). exists (ntype n). split; [reflexivity|]. split; [|now apply sized_align]. now destruct (teq_all _ _ TQ) as (_ & _ & S1 & _).
Qed.
Ltac mn IH := match goal with E : match M ?a ?j with _ => _ end = Some _ |- _ => destruct (M a j) as [[? ?]|] eqn:?; [|discriminate E]; cbv beta iota in E end.
Lemma names_means : forall e j c j', M e j = Some (c, j') -> plain c = true -> names x e j = Some (c, j').
Proof.
  induction e as [a|u e IH|i e IH|r e m IH|a i IHa IHi|f l IHf IHl|c l IHc IHl|a b c IHa IHb IHc|a b IHa IHb|o a b IHa IHb|c a b IHc IHa IHb|a b IHa IHb|t e IH|o l r IHl IHr|a b IHa IHb] using sx_all; intros j c0 j0 E P.
  - destruct a; cbn [means names] in *; try discriminate E.
    + rewrite SC. exact E.
    + match goal with E : match number ?b with _ => _ end = _ |- _ => destruct (number b) as [[t v]|] eqn:N end; [|discriminate E]. injection E as <- <-. destruct (number_model _ _ _ N) as (w & q & -> & <- & <-). reflexivity.
    + exact E.
    + exact E.
    + exact E.
  - cbn [means names] in *. mn IH. destruct u; cbv beta iota in E; try (injection E as <- <-; cbn [plain] in P; rewrite ?andb_true_iff in P; erewrite IH by (first [eassumption|apply P]); reflexivity).
    all: destruct (operand c) as [t|] eqn:O; [|discriminate E]; injection E as <- <-; destruct (operand_type_of _ _ O) as (q & NT & S1 & S2);
         assert (PC : plain c = true) by (unfold operand in O; destruct (ctype c); [|discriminate O]; destruct (plain c); [reflexivity|rewrite andb_false_r in O; discriminate O]);
         rewrite (IH _ _ _ Heqo PC), NT; unfold ulong; congruence.
  - cbn [means names] in *. mn IH. injection E as <- <-. rewrite (IH _ _ _ Heqo) by (destruct i; cbn [plain] in P; apply andb_true_iff in P; apply P). reflexivity.
  - destruct r; cbn [means names] in *; mn IH; destruct (ctype c) as [t|] eqn:T; try discriminate E; cbv beta iota in E.
    + destruct (pointee t) as [b|] eqn:PT; [|discriminate E]. destruct (places m (tagged x b)) as [|[|i p] [|? ?]] eqn:PL; try discriminate E. injection E as <- <-. rewrite plain_dots in P. cbn [plain] in P. rewrite (IH _ _ _ Heqo P).
      destruct (STAT c t P T) as (nd & k & -> & TQ). assert (BS : is_su b = true) by (apply (tagged_su b m); rewrite PL; discriminate).
      assert (TN : base_of (ntype nd) = Some b) by (destruct (teq_all _ _ TQ) as (_ & -> & _); destruct t; try discriminate PT; exact PT).
      unfold mk_deref. rewrite TN. replace (match b with TVoid => None | _ => Some (NDeref nd) end) with (Some (NDeref nd)) by (destruct b; try reflexivity; discriminate BS).
      assert (NT : ntype (NDeref nd) = b) by (cbn [ntype]; rewrite TN; reflexivity). rewrite NT. change (members x b) with (tagged x b). rewrite (struct_ref_first m _ (tagged x b) (tagged_named b)) by lia. rewrite PL. reflexivity.
    + destruct (places m (tagged x t)) as [|p [|? ?]] eqn:PL; try discriminate E. injection E as <- <-. rewrite plain_dots in P. rewrite (IH _ _ _ Heqo P). unfold node_type.
      destruct (STAT c t P T) as (nd & k & -> & TQ). assert (BS : is_su t = true) by (apply (tagged_su t m); rewrite PL; discriminate). rewrite (teq_su _ _ TQ BS). change (members x t) with (tagged x t).
      rewrite (struct_ref_first m _ (tagged x t) (tagged_named t)) by lia. rewrite PL. reflexivity.
  - cbn [means names] in *. mn IHa. mn IHi. injection E as <- <-. cbn [plain] in P. rewrite !andb_true_iff in P. rewrite (IHa _ _ _ Heqo) by apply P. rewrite (IHi _ _ _ Heqo0) by apply P. reflexivity.
  - cbn [means names] in *. mn IHf. rewrite signature_parameters. destruct (parameters decl f) as [[ps va]|]; [|discriminate E]. cbv beta iota in E. fold means_l in E. destruct (means_l l n) as [[cs k]|] eqn:ML; [|discriminate E]. injection E as <- <-.
    cbn [plain] in P. rewrite !andb_true_iff in P. destruct P as [[P1 P2] _]. rewrite (IHf _ _ _ Heqo P1). fold names_l.
    assert (G : names_l l n = Some (cs, k)); [|rewrite G; reflexivity]. clear - IHl ML P2. revert n cs k ML P2. induction IHl as [|a l Ha _ IH]; intros n cs k ML P2; [exact ML|]. cbn [means_l] in ML. fold means_l in ML. cbn [names_l]. fold names_l.
    destruct (M a n) as [[ca ka]|] eqn:Ma; [|discriminate ML]. destruct (means_l l ka) as [[cs' k']|] eqn:Ml; [|discriminate ML]. injection ML as <- <-. cbn [forallb] in P2. apply andb_true_iff in P2. rewrite (Ha _ _ _ Ma) by apply P2. rewrite (IH _ _ _ Ml) by apply P2. reflexivity.
  - discriminate E.
  - discriminate E.
  - discriminate E.
  - cbn [means names] in *. mn IHa. mn IHb. injection E as <- <-. assert (PP : plain c = true /\ plain c1 = true) by (destruct o; cbn [plain] in P; rewrite ?andb_true_iff in P; tauto). rewrite (IHa _ _ _ Heqo0), (IHb _ _ _ Heqo1) by apply PP. reflexivity.
  - cbn [means names] in *. mn IHc. mn IHa. mn IHb. injection E as <- <-. cbn [plain] in P. rewrite !andb_true_iff in P. rewrite (IHc _ _ _ Heqo) by apply P. rewrite (IHa _ _ _ Heqo0) by apply P. rewrite (IHb _ _ _ Heqo1) by apply P. reflexivity.
  - cbn [means names] in *. mn IHa. mn IHb. injection E as <- <-. cbn [plain] in P. rewrite !andb_true_iff in P. rewrite (IHa _ _ _ Heqo) by apply P. rewrite (IHb _ _ _ Heqo0) by apply P. reflexivity.
  - cbn [means names] in *. destruct (x_type x t); [|discriminate E]. mn IH. injection E as <- <-. cbn [plain] in P. rewrite (IH _ _ _ Heqo P). reflexivity.
  - cbn [means names] in *. mn IHl. mn IHr. injection E as <- <-. assert (PP : plain c = true /\ plain c1 = true) by (destruct o; cbn [plain] in P; rewrite ?andb_true_iff in P; tauto). rewrite (IHl _ _ _ Heqo0), (IHr _ _ _ Heqo1) by apply PP. reflexivity.
  - cbn [means names] in *. mn IHa. mn IHb. injection E as <- <-. cbn [plain] in P. rewrite !andb_true_iff in P. rewrite (IHa _ _ _ Heqo) by apply P. rewrite (IHb _ _ _ Heqo0) by apply P. reflexivity.
Qed.
End Norm.
