(** Proofs about BodyModel: what it makes of a body, given what the body means. *)
From Verif Require Import Base TypeModel IntArith NodeModel ValSpec NodeSpec EvalModel ElabSpec ElabProofs ElabSim ElabProps ParseModel ParseSpec ParsePrint BlockModel BlockSpec BlockProofs FrontModel FrontSpec FrontProofs StmtSpec BodyModel BodySpec BodyRename BodyConst.
From Verif Require ScopeModel ScopeSpec ScopeProofs ScopeProps.
From Coq Require Import ZifyBool ZifyNat.
Local Notation length := List.length.

(** ** Scopes *)
Lemma nest_weak b : forall d k, ScopeSpec.nested b d = true -> ScopeSpec.nested b (k + d) = true /\ ScopeSpec.depth b (k + d) = (k + ScopeSpec.depth b d)%nat.
Proof.
  induction b as [|o b IH]; intros d k H; [split; reflexivity|]. destruct o as [| |a v|a v]; cbn [ScopeSpec.nested ScopeSpec.depth] in *; try (apply IH; exact H).
  - replace (S (k + d)) with (k + S d)%nat by lia. now apply IH.
  - destruct d as [|d]; [discriminate|]. replace (k + S d)%nat with (S (k + d)) by lia. cbn [pred]. now apply IH.
Qed.
Lemma block_app l1 l2 : ScopeSpec.block l1 -> ScopeSpec.block l2 -> ScopeSpec.block (l1 ++ l2).
Proof. intros [A B] [C D]. split; [rewrite ScopeProofs.nested_app, A, B; exact C|rewrite ScopeProofs.depth_app, B; exact D]. Qed.
Lemma nested_block ops d : ScopeSpec.nested ops 0 = true -> ScopeSpec.block d -> ScopeSpec.nested (ops ++ d) 0 = true /\ ScopeSpec.depth (ops ++ d) 0 = ScopeSpec.depth ops 0.
Proof.
  intros N [A B]. rewrite ScopeProofs.nested_app, ScopeProofs.depth_app, N. destruct (nest_weak d 0 (ScopeSpec.depth ops 0) A) as [C D]. rewrite Nat.add_0_r in C, D. rewrite B, Nat.add_0_r in D. split; [exact C|exact D].
Qed.
Lemma do_snoc l o : forall c c1, ScopeModel.do_sops l c = ScopeModel.SOk c1 -> ScopeModel.do_sops (l ++ [o]) c = ScopeModel.do_sop o c1.
Proof. induction l as [|a l IH]; cbn [app ScopeModel.do_sops]; intros c c1 H; [injection H as <-; destruct (ScopeModel.do_sop o c); reflexivity|]. destruct (ScopeModel.do_sop a c); try discriminate H. now apply IH. Qed.
Lemma do_one ops o c : ScopeModel.do_sops ops ScopeModel.chain0 = ScopeModel.SOk c -> ScopeSpec.nested (ops ++ [o]) 0 = true -> Z.of_nat (length ops) + 1 <= 20000000 ->
  exists c', ScopeModel.do_sop o c = ScopeModel.SOk c' /\ ScopeModel.do_sops (ops ++ [o]) ScopeModel.chain0 = ScopeModel.SOk c'.
Proof.
  intros D N L. destruct (ScopeProps.C23_innermost (ops ++ [o]) N) as (c' & D' & _); [rewrite app_length; cbn [length]; lia|]. exists c'. split; [|exact D']. rewrite <- D'. symmetry. now apply do_snoc.
Qed.
Lemma visible_in n : forall l k z, ScopeSpec.visible (ScopeSpec.declares_var n) k l = Some z -> In (ScopeModel.OpVar n z) l.
Proof.
  induction l as [|o l IH]; intros k z H; [discriminate H|]. destruct o as [| |m v|m v]; cbn [ScopeSpec.visible ScopeSpec.declares_var] in H; try (right; eapply IH; exact H).
  - destruct (Nat.eqb k 0); [|right; eapply IH; exact H]. destruct (beq m n) eqn:B; [|right; eapply IH; exact H]. injection H as <-. apply beq_eq in B. subst. now left.
  - right. destruct (Nat.eqb k 0); eapply IH; exact H.
Qed.
Definition closed (d : list ScopeModel.sop) : Prop := ScopeSpec.block d /\ forall decl k rest, ScopeSpec.visible decl k (rev d ++ rest) = ScopeSpec.visible decl k rest.
Lemma closed_nil : closed []. Proof. split; [split; reflexivity|]. reflexivity. Qed.
Lemma closed_app d1 d2 : closed d1 -> closed d2 -> closed (d1 ++ d2).
Proof. intros [A B] [C D]. split; [now apply block_app|]. intros. rewrite rev_app_distr, <- app_assoc, D. apply B. Qed.
Lemma closed_block d : ScopeSpec.block d -> closed (ScopeModel.OpEnter :: d ++ [ScopeModel.OpLeave]).
Proof.
  intros [A B]. split.
  - destruct (nest_weak d 0 1 A) as [C D]. cbn [Nat.add] in C, D. rewrite B in D. split; cbn [ScopeSpec.nested ScopeSpec.depth]; [rewrite ScopeProofs.nested_app, C, D; reflexivity|rewrite ScopeProofs.depth_app, D; reflexivity].
  - intros decl k rest. replace (rev (ScopeModel.OpEnter :: d ++ [ScopeModel.OpLeave]) ++ rest) with (ScopeModel.OpLeave :: rev d ++ ScopeModel.OpEnter :: rest); [apply ScopeProofs.visible_block; split; assumption|]. cbn [rev]. rewrite rev_app_distr. cbn [rev app]. rewrite <- app_assoc. reflexivity.
Qed.

(** ** Constants and commas *)
Lemma then_comma b : forall a, exists u v, then_ a b = XComma u v.
Proof. intros a. destruct a; cbn [then_]; eauto. Qed.
Lemma rn_constant f c : int_constant c = true -> rn f c = c.
Proof.
  induction c using cexpr_induct; cbn [int_constant rn]; intros I; try discriminate I; try reflexivity; rewrite ?andb_true_iff in I; intuition congruence.
Qed.
Lemma dots_constant p : forall c, int_constant (fold_left CDot p c) = true -> p = [] /\ int_constant c = true.
Proof. induction p as [|m p IH]; intros c I; [auto|]. cbn [fold_left] in I. apply IH in I as [_ I]. discriminate I. Qed.
Lemma constant_same decl x number : forall e e' j c j', means decl x number e j = Some (c, j') -> int_constant c = true -> norm e' = norm e -> e' = e.
Proof.
  assert (NC : forall e' a b, XComma a b = e' -> exists u v, norm e' = XComma u v) by (intros ? a b <-; apply then_comma).
  induction e as [a|u e IH|i e IH|r e m IH|a i IHa IHi|f l IHf IHl|c l IHc IHl|a b c IHa IHb IHc|a b IHa IHb|o a b IHa IHb|c a b IHc IHa IHb|a b IHa IHb|t e IH|o l r IHl IHr|a b IHa IHb] using sx_all; intros e' j c0 j0 M I N.
  - cbn [norm] in N. destruct e'; cbn [norm] in N; try discriminate N; [exact N|]. destruct (then_comma (norm e'2) (norm e'1)) as (? & ? & E). rewrite E in N. discriminate N.
  - cbn [means] in M. destruct (means decl x number e j) as [[c1 j1]|] eqn:M1; [|discriminate M]. assert (I1 : int_constant c1 = true) by (destruct u; cbv beta iota in M; try (injection M as <- <-; exact I || discriminate I); destruct (operand c1); try discriminate M; injection M as <- <-; discriminate I).
    cbn [norm] in N. destruct e'; cbn [norm] in N; try discriminate N; [|destruct (then_comma (norm e'2) (norm e'1)) as (? & ? & E); rewrite E in N; discriminate N]. injection N as -> N. f_equal. eapply IH; eassumption.
  - cbn [means] in M. destruct (means decl x number e j) as [[c1 j1]|]; [|discriminate M]. injection M as <- <-. destruct i; discriminate I.
  - destruct r; cbn [means] in M; destruct (means decl x number e j) as [[c1 j1]|] eqn:M1; try discriminate M; destruct (ctype c1) as [t|] eqn:T; try discriminate M; cbv beta iota in M.
    + destruct (pointee t); [|discriminate M]. destruct (places m (tagged x t0)) as [|[|i p] [|? ?]]; try discriminate M. injection M as <- <-. apply dots_constant in I as [_ I]. discriminate I.
    + destruct (places m (tagged x t)) as [|p [|? ?]] eqn:P; try discriminate M. injection M as <- <-. apply dots_constant in I as [_ I]. destruct (const_elab _ I) as (T' & _). rewrite T in T'. injection T' as ->. discriminate P.
  - cbn [means] in M. destruct (means decl x number a j) as [[c1 j1]|]; [|discriminate M]. destruct (means decl x number i j1) as [[c2 j2]|]; [|discriminate M]. injection M as <- <-. discriminate I.
  - cbn [means] in M. destruct (means decl x number f j) as [[c1 j1]|]; [|discriminate M]. destruct (parameters decl f) as [[ps va]|]; [|discriminate M]. fold (means_l decl x number) in M. destruct (means_l decl x number l j1) as [[cs k]|]; [|discriminate M]. injection M as <- <-. discriminate I.
  - discriminate M.
  - discriminate M.
  - discriminate M.
  - cbn [means] in M. destruct (means decl x number a j) as [[c1 j1]|] eqn:M1; [|discriminate M]. destruct (means decl x number b j1) as [[c2 j2]|] eqn:M2; [|discriminate M]. injection M as <- <-. assert (I2 : int_constant c1 && int_constant c2 = true) by (destruct o; exact I). apply andb_true_iff in I2 as [I1 I2].
    cbn [norm] in N. destruct e'; cbn [norm] in N; try discriminate N; [|destruct (then_comma (norm e'2) (norm e'1)) as (? & ? & E); rewrite E in N; discriminate N]. injection N as -> N1 N2. f_equal; [eapply IHa; eassumption|eapply IHb; eassumption].
  - cbn [means] in M. destruct (means decl x number c j) as [[c3 j3]|] eqn:M3; [|discriminate M]. destruct (means decl x number a j3) as [[c1 j1]|] eqn:M1; [|discriminate M]. destruct (means decl x number b j1) as [[c2 j2]|] eqn:M2; [|discriminate M]. injection M as <- <-. cbn [int_constant] in I. rewrite !andb_true_iff in I. destruct I as [[I3 I1] I2].
    cbn [norm] in N. destruct e'; cbn [norm] in N; try discriminate N; [|destruct (then_comma (norm e'2) (norm e'1)) as (? & ? & E); rewrite E in N; discriminate N]. injection N as N3 N1 N2. f_equal; [eapply IHc; eassumption|eapply IHa; eassumption|eapply IHb; eassumption].
  - cbn [means] in M. destruct (means decl x number a j) as [[c1 j1]|]; [|discriminate M]. destruct (means decl x number b j1) as [[c2 j2]|]; [|discriminate M]. injection M as <- <-. discriminate I.
  - cbn [means] in M. destruct (x_type x t); [|discriminate M]. destruct (means decl x number e j) as [[c1 j1]|]; [|discriminate M]. injection M as <- <-. discriminate I.
  - cbn [means] in M. destruct (means decl x number l j) as [[c1 j1]|]; [|discriminate M]. destruct (means decl x number r j1) as [[c2 j2]|]; [|discriminate M]. injection M as <- <-. destruct o; discriminate I.
  - cbn [means] in M. destruct (means decl x number a j) as [[c1 j1]|]; [|discriminate M]. destruct (means decl x number b j1) as [[c2 j2]|]; [|discriminate M]. injection M as <- <-. discriminate I.
Qed.

(** ** Matching trees *)
Section Match.
Variables (proto : bool) (k0 : nat).
(** The local variables are [VS], all are below [kN] *)
Section Rel.
Variables (VS : list nat) (kN : nat).
Definition mex (c : cexpr) (n : node) : Prop := exists c' t k k', ceq c c' /\ elab (rn (moved k0 VS) c') k = Some (n, k') /\ (plain c' = true /\ (proto = true -> prototyped c' = true)) /\ ctype c' = Some t /\ (k0 <= k)%nat /\ (k' <= kN)%nat /\ forall i, (k <= i < k')%nat -> ~ In i VS.
Definition mopt (c : option cexpr) (n : option node) : Prop := match c, n with None, None => True | Some c, Some n => mex c n | _, _ => False end.
Inductive macts : list act -> list node -> Prop :=
  | ma_nil : macts [] []
  | ma_do c n l ns : mex c n -> macts l ns -> macts (ADo c :: l) (n :: ns)
  | ma_new x t v l ns : vla_size t = Some v -> macts l ns -> macts (ANew x t None :: l) (v :: ns)
  | ma_init x t c v a l ns : vla_size t = Some v -> mex (CAssign (CVar x t) c) a -> macts l ns -> macts (ANew x t (Some c) :: l) (v :: NComma (NMemzero (moved k0 VS x) t) a :: ns).
Inductive mst (rt : ty) : hstmt -> stmt -> Prop :=
  | m_skip : mst rt HSkip SSkip
  | m_expr c n : mex c n -> mst rt (HActs [ADo c]) (SExpr n)
  | m_acts a l ns : macts (a :: l) ns -> mst rt (HActs (a :: l)) (seqs ns)
  | m_seq a b a' b' : mst rt a a' -> mst rt b b' -> mst rt (HSeq a b) (SSeq a' b')
  | m_if c n a b a' b' : mex c n -> mst rt a a' -> mst rt b b' -> mst rt (HIf c a b) (SIf n a' b')
  | m_switch c n b b' : mex c n -> mst rt b b' -> mst rt (HSwitch c b) (SSwitch n b')
  | m_case lo hi s s' : mst rt s s' -> mst rt (HCase lo hi s) (SCase lo hi s')
  | m_default s s' : mst rt s s' -> mst rt (HDefault s) (SDefault s')
  | m_for l ns c c' i i' b b' : macts l ns -> mopt c c' -> mopt i i' -> mst rt b b' -> mst rt (HFor l c i b) (SFor ns c' i' b')
  | m_while c n b b' : mex c n -> mst rt b b' -> mst rt (HWhile c b) (SWhile n b')
  | m_do c n b b' : mex c n -> mst rt b b' -> mst rt (HDo b c) (SDo b' n)
  | m_goto l : mst rt (HGoto l) (SGoto l)
  | m_break : mst rt HBreak SBreak
  | m_continue : mst rt HContinue SContinue
  | m_label l s s' : mst rt s s' -> mst rt (HLabel l s) (SLabel l s')
  | m_return0 : mst rt (HReturn None) (SReturn None)
  | m_return c n : mex (CCast rt c) (NCast rt n) -> mst rt (HReturn (Some c)) (SReturn (Some n)).
End Rel.

(** ** The state of the compiler *)
Variable x0 : ctx.
Variable number : bytes -> option (ty * Z).
Variable outer : bytes -> option ent.
Variable rt : ty.
Hypothesis NUM : forall b t v, number b = Some (t, v) -> integer_constant b t v.
Hypothesis MEM : forall i, named (x_mems x0 i) = true.
Definition mk c e nx j k vs : bst := BS (with_ctx x0 c e) nx j k vs.
Record wf (ops : list ScopeModel.sop) (c : ScopeModel.chain) (nx : Z) (k : nat) (vs : list nat) (i : nat) : Prop := {
  w_nest : ScopeSpec.nested ops 0 = true;
  w_do : ScopeModel.do_sops ops ScopeModel.chain0 = ScopeModel.SOk c;
  w_val : forall n z, In (ScopeModel.OpVar n z) ops -> z < nx;
  w_i : i = (k0 + length vs)%nat;
  w_k : (k0 <= k)%nat;
  w_vs : Forall (fun v => (k0 <= v < k)%nat) vs;
  w_nd : NoDup vs }.
Definition ext (k : nat) (vs VS : list nat) : Prop := exists later, VS = vs ++ later /\ Forall (fun v => (k <= v)%nat) later.
Definition agree (ops : list ScopeModel.sop) (e : Z -> ent) (k : nat) (vs : list nat) (env : senv) : Prop := forall VS, ext k vs VS -> forall n,
  option_map e (ScopeSpec.visible (ScopeSpec.declares_var n) 0 (rev ops)) = option_map (rn_ent (moved k0 VS)) (denotes outer env n).
Record grow (e : Z -> ent) (nx : Z) (k : nat) (vs : list nat) (e' : Z -> ent) (nx' : Z) (k' : nat) (vs' : list nat) : Prop := {
  g_nx : nx <= nx';
  g_e : forall z, z < nx -> e' z = e z;
  g_k : (k <= k')%nat;
  g_vs : ext k vs vs' }.
Lemma ext_refl k vs : ext k vs vs. Proof. exists []. rewrite app_nil_r. split; constructor. Qed.
Lemma grow_refl e nx k vs : grow e nx k vs e nx k vs. Proof. constructor; try lia; [reflexivity|apply ext_refl]. Qed.
Lemma ext_trans k vs k' vs' VS : (k <= k')%nat -> ext k vs vs' -> ext k' vs' VS -> ext k vs VS.
Proof. intros L (a & -> & A) (b & -> & B). exists (a ++ b). split; [now rewrite app_assoc|]. apply Forall_app. split; [exact A|]. eapply Forall_impl; [|exact B]. cbv beta. intros v H. lia. Qed.
Lemma grow_trans e nx k vs e1 nx1 k1 vs1 e2 nx2 k2 vs2 : grow e nx k vs e1 nx1 k1 vs1 -> grow e1 nx1 k1 vs1 e2 nx2 k2 vs2 -> grow e nx k vs e2 nx2 k2 vs2.
Proof. intros [A B C D] [A' B' C' D']. constructor; try lia; [intros z H; rewrite B' by lia; now apply B|]. eapply ext_trans; eassumption. Qed.
Lemma grow_ext e nx k vs e' nx' k' vs' VS : grow e nx k vs e' nx' k' vs' -> ext k' vs' VS -> ext k vs VS.
Proof. intros [_ _ A B] H. eapply ext_trans; eassumption. Qed.
Lemma agree_carry ops d c e nx k vs i e' nx' k' vs' env : wf ops c nx k vs i -> agree ops e k vs env -> grow e nx k vs e' nx' k' vs' ->
  (forall n, ScopeSpec.visible (ScopeSpec.declares_var n) 0 (rev (ops ++ d)) = ScopeSpec.visible (ScopeSpec.declares_var n) 0 (rev ops)) -> agree (ops ++ d) e' k' vs' env.
Proof.
  intros W A G H VS X n. rewrite H, <- (A VS (grow_ext _ _ _ _ _ _ _ _ _ G X) n). destruct (ScopeSpec.visible _ 0 (rev ops)) as [z|] eqn:Vz; [|reflexivity]. cbn [option_map]. f_equal. apply (g_e _ _ _ _ _ _ _ _ G). apply (w_val _ _ _ _ _ _ W n). apply in_rev. now apply visible_in in Vz.
Qed.
Lemma agree_closed ops d c e nx k vs i e' nx' k' vs' env : wf ops c nx k vs i -> agree ops e k vs env -> grow e nx k vs e' nx' k' vs' -> closed d -> agree (ops ++ d) e' k' vs' env.
Proof. intros W A G [_ C]. eapply agree_carry; try eassumption. intros n. rewrite rev_app_distr. apply C. Qed.
Lemma agree_same ops c e nx k vs i e' nx' k' vs' env : wf ops c nx k vs i -> agree ops e k vs env -> grow e nx k vs e' nx' k' vs' -> agree ops e' k' vs' env.
Proof. intros W A G. rewrite <- (app_nil_r ops). eapply agree_closed; try eassumption. apply closed_nil. Qed.
Lemma agree_enter ops e k vs env : agree ops e k vs env -> agree (ops ++ [ScopeModel.OpEnter]) e k vs ([] :: env).
Proof. intros A VS X n. rewrite rev_app_distr. cbn [rev app ScopeSpec.visible pred denotes assoc]. now apply A. Qed.
Lemma wf_op ops o c nx k vs i : wf ops c nx k vs i -> ScopeSpec.nested (ops ++ [o]) 0 = true -> Z.of_nat (length ops) + 1 <= 20000000 -> (o = ScopeModel.OpEnter \/ o = ScopeModel.OpLeave) ->
  exists c', (forall e j, scope_op o (mk c e nx j k vs) = Some (mk c' e nx j k vs)) /\ wf (ops ++ [o]) c' nx k vs i.
Proof.
  intros W N L O. destruct (do_one ops o c (w_do _ _ _ _ _ _ W) N L) as (c' & D & D'). exists c'. split.
  - intros e j. unfold scope_op, mk. cbn [b_ctx b_next b_str b_loc b_vars with_ctx x_scope x_ent]. rewrite D. reflexivity.
  - destruct W. constructor; auto. intros n z I. apply in_app_or in I as [I|[I|[]]]; [eauto|]. subst o. destruct O; discriminate.
Qed.
Lemma wf_k ops c nx k vs i k' : wf ops c nx k vs i -> (k <= k')%nat -> wf ops c nx k' vs i.
Proof. intros [A B C D E F G] L. constructor; auto; [lia|]. eapply Forall_impl; [|exact F]. cbv beta. intros v H. lia. Qed.
Lemma grow_k e nx k vs k' : (k <= k')%nat -> grow e nx k vs e nx k' vs.
Proof. intros L. constructor; try lia; [reflexivity|apply ext_refl]. Qed.

(** ** Expressions *)
Definition dummy_env : env := Env (fun _ => 0) (fun _ => false) (fun _ _ _ _ _ => None).
Lemma stat c t k : plain c = true -> ctype c = Some t -> exists n k', elab c k = Some (n, k') /\ (k <= k')%nat /\ same_type (ntype n) t /\ teq (ntype n) t.
Proof.
  intros P T. assert (OK : env_ok dummy_env) by (intros v; cbn; lia). assert (TM : temporaries (e_addr dummy_env) (fun _ => false) (e_valid dummy_env) 0 0) by (constructor; intros; cbn in *; try lia; discriminate).
  assert (CA : calls_agree (fun _ => false) (fun _ _ _ _ _ => None) (e_call dummy_env)) by (intros fa ts ts' r vs m m2 v m' H; discriminate H).
  destruct (elab_sim _ _ _ _ OK TM _ CA c t P T k) as (n & k' & EL & _ & (_ & TQ & _) & _). destruct (C65_source_meaning_partial _ _ _ _ OK TM _ CA c t k P T) as (n2 & k2 & EL2 & KK & _ & ST & _). rewrite EL in EL2. injection EL2 as <- <-. exists n, k'. auto.
Qed.
Lemma names_env ops c e nx j k vs i env e0 c0 j' : wf ops c nx k vs i -> agree ops e k vs env -> Z.of_nat (length ops) <= 20000000 ->
  means (denotes outer env) x0 number e0 j = Some (c0, j') -> plain c0 = true -> forall VS, ext k vs VS -> names (with_ctx x0 c e) e0 j = Some (rn (moved k0 VS) c0, j').
Proof.
  intros W A L M P VS X. pose (decl2 := fun n => option_map e (ScopeSpec.visible (ScopeSpec.declares_var n) 0 (rev ops))).
  assert (M2 : means decl2 (with_ctx x0 c e) number e0 j = Some (rn (moved k0 VS) c0, j')).
  { change (means decl2 (with_ctx x0 c e) number e0 j) with (means decl2 x0 number e0 j). rewrite (means_rn (moved k0 VS) ltac:(reflexivity) (denotes outer env) decl2 x0 number (A VS X)), M. reflexivity. }
  apply (names_means decl2 (with_ctx x0 c e) number); try exact M2.
  - intros n. unfold find_ent, decl2. cbn [with_ctx x_scope x_ent]. destruct (ScopeProps.C23_innermost ops (w_nest _ _ _ _ _ _ W) L) as (ch & D & FV & _). rewrite (w_do _ _ _ _ _ _ W) in D. injection D as <-. rewrite FV. destruct (ScopeSpec.visible _ _ _); reflexivity.
  - exact NUM.
  - exact MEM.
  - intros c1 t1 P1 T1. destruct (stat c1 t1 0 P1 T1) as (n & k' & EL & _ & _ & TQ). eauto.
  - destruct (rn_mv (moved k0 VS) c0) as (_ & HP & _). rewrite HP. exact P.
Qed.
Lemma expr_ok ops c e nx j k vs i env e0 e1 c0 j' : wf ops c nx k vs i -> agree ops e k vs env -> Z.of_nat (length ops) <= 20000000 ->
  r_expr outer x0 number env e0 j = Some (c0, j') -> norm e1 = norm e0 -> fine proto c0 = true ->
  exists n k', b_expr e1 (mk c e nx j k vs) = Some (n, mk c e nx j' k' vs) /\ (k <= k')%nat /\ forall VS kN, ext k' vs VS -> (k' <= kN)%nat -> exists c1 t, ceq c0 c1 /\ elab (rn (moved k0 VS) c1) k = Some (n, k') /\ (plain c1 = true /\ (proto = true -> prototyped c1 = true)) /\ ctype c1 = Some t /\ (k0 <= k)%nat /\ (k' <= kN)%nat /\ forall i, (k <= i < k')%nat -> ~ In i VS.
Proof.
  intros W A L R N F. unfold r_expr in R. unfold fine in F. apply andb_true_iff in F as [F X0]. apply andb_true_iff in F as [P T]. destruct (ctype c0) as [t|] eqn:T0; [clear T|discriminate T].
  destruct (means_same (denotes outer env) x0 number e0 e1 j c0 j' ltac:(unfold same_tree; congruence) R) as (c1 & M1 & Q). pose proof Q as (QT & QP & _ & _ & QX & _). rewrite QX in X0. rewrite QP in P. rewrite QT in T0.
  pose proof (names_env ops c e nx j k vs i env e1 c1 j' W A L M1 P) as NM.
  destruct (rn_mv (moved k0 vs) c1) as (HT & HP & _). destruct (stat (rn (moved k0 vs) c1) t k) as (n & k' & EL & KK & _ & _); [now rewrite HP|now rewrite HT|].
  exists n, k'. split; [|split; [exact KK|]].
  - unfold b_expr, mk. cbn [b_ctx b_next b_str b_loc b_vars]. rewrite (NM vs (ext_refl _ _)). rewrite EL. reflexivity.
  - intros VS kN X KN. exists c1, t. split; [exact Q|]. split; [|split; [split; [exact P|intros ->; exact X0]|split; [exact T0|split; [apply (w_k _ _ _ _ _ _ W)|split; [exact KN|]]]]].
    + assert (X' : ext k vs VS) by (eapply ext_trans; [exact KK|apply ext_refl|exact X]). pose proof (NM VS X') as N1. rewrite (NM vs (ext_refl _ _)) in N1. injection N1 as N1. rewrite <- N1. exact EL.
    + intros q Hq I. destruct X as (later & -> & FL). apply in_app_or in I as [I|I]; [pose proof (w_vs _ _ _ _ _ _ W) as FV; rewrite Forall_forall in FV; specialize (FV _ I); cbv beta in FV; lia|rewrite Forall_forall in FL; specialize (FL _ I); cbv beta in FL; lia].
Qed.
Lemma expr_ok' ops c e nx j k vs i env e0 e1 c0 j' : wf ops c nx k vs i -> agree ops e k vs env -> Z.of_nat (length ops) <= 20000000 ->
  r_expr outer x0 number env e0 j = Some (c0, j') -> norm e1 = norm e0 -> fine proto c0 = true ->
  exists n k', b_expr e1 (mk c e nx j k vs) = Some (n, mk c e nx j' k' vs) /\ (k <= k')%nat /\ forall VS kN, ext k' vs VS -> (k' <= kN)%nat -> mex VS kN c0 n.
Proof.
  intros W A L R N F. destruct (expr_ok _ _ _ _ _ _ _ _ _ _ _ _ _ W A L R N F) as (n & k' & B & KK & H). exists n, k'. split; [exact B|]. split; [exact KK|]. intros VS kN X KN. destruct (H VS kN X KN) as (c1 & t & G). exists c1, t, k, k'. exact G.
Qed.
Lemma opt_ok ops c e nx j k vs i env e0 e1 c0 j' : wf ops c nx k vs i -> agree ops e k vs env -> Z.of_nat (length ops) <= 20000000 ->
  r_opt outer x0 number env e0 j = Some (c0, j') -> option_map norm e1 = option_map norm e0 -> fine_opt proto c0 = true ->
  exists n k', b_opt e1 (mk c e nx j k vs) = Some (n, mk c e nx j' k' vs) /\ (k <= k')%nat /\ forall VS kN, ext k' vs VS -> (k' <= kN)%nat -> mopt VS kN c0 n.
Proof.
  intros W A L R N F. destruct e0 as [e0|], e1 as [e1|]; try discriminate N; cbn [r_opt] in R.
  - destruct (r_expr outer x0 number env e0 j) as [[c1 j1]|] eqn:R1; [|discriminate R]. injection R as <- <-. injection N as N. destruct (expr_ok' _ _ _ _ _ _ _ _ _ _ _ _ _ W A L R1 N F) as (n & k' & B & KK & H). exists (Some n), k'. cbn [b_opt]. rewrite B. auto.
  - injection R as <- <-. exists None, k. split; [reflexivity|]. split; [lia|]. intros. exact I.
Qed.
Lemma const_ok ops c e nx j k vs i env e0 e1 v j' : wf ops c nx k vs i -> agree ops e k vs env -> Z.of_nat (length ops) <= 20000000 ->
  r_const outer x0 number env e0 j = Some (v, j') -> norm e1 = norm e0 -> b_const e1 (mk c e nx j k vs) = Some (v, mk c e nx j' k vs).
Proof.
  intros W A L R N. unfold r_const, r_expr in R. destruct (means (denotes outer env) x0 number e0 j) as [[c0 j0]|] eqn:M; [|discriminate R]. destruct (constant c0) as [w|] eqn:CO; [|discriminate R]. injection R as <- <-.
  pose proof (constant_plain _ _ CO) as P. assert (IC : int_constant c0 = true) by (unfold constant in CO; destruct (int_constant c0); [reflexivity|discriminate CO]). rewrite (constant_same _ _ _ _ _ _ _ _ M IC N).
  pose proof (names_env ops c e nx j k vs i env e0 c0 j0 W A L M P vs (ext_refl _ _)) as NM. rewrite (rn_constant _ _ IC) in NM. destruct (constant_elab c0 w k CO) as (n & EL & EV).
  unfold b_const, b_expr, mk. cbn [b_ctx b_next b_str b_loc b_vars]. rewrite NM, EL. rewrite EV. reflexivity.
Qed.

(** ** Declarations *)
Lemma fixed_size t : fixed t = true -> exists v, vla_size t = Some v.
Proof. induction t; cbn [fixed vla_size]; intros H; try discriminate H; try (eexists; reflexivity); destruct (IHt H) as (v & ->); eexists; reflexivity. Qed.
Lemma fine_assign v t c : fine proto (CAssign (CVar v t) c) = true -> fine proto c = true.
Proof.
  unfold fine. cbn [plain prototyped]. intros H. apply andb_true_iff in H as [H X]. apply andb_true_iff in H as [P T]. apply andb_true_iff in P as [_ P]. rewrite P. cbn [andb] in X. rewrite X, andb_true_r. cbn [ctype] in T. destruct (ctype c); [reflexivity|]. destruct t; discriminate T.
Qed.
Lemma fine_cast t c : fine proto (CCast t c) = true -> fine proto c = true.
Proof. unfold fine. cbn [plain ctype prototyped]. intros H. apply andb_true_iff in H as [H X]. rewrite X, andb_true_r. apply andb_true_iff in H as [-> T]. destruct (ctype c); [reflexivity|discriminate T]. Qed.
Lemma moved_new vs VS k i : i = (k0 + length vs)%nat -> ext (S k) (vs ++ [k]) VS -> moved k0 VS (VLocal i) = VLocal k.
Proof. intros -> (later & -> & _). cbn [moved]. destruct (Nat.ltb_spec (k0 + length vs) k0); [lia|]. replace (k0 + length vs - k0)%nat with (length vs) by lia. rewrite <- app_assoc, app_nth2, Nat.sub_diag by lia. reflexivity. Qed.
Lemma new_ok ops c e nx k vs i n t env b : wf ops c nx k vs i -> agree ops e k vs (b :: env) -> Z.of_nat (length ops) + 1 <= 20000000 ->
  let e' := fun y => if y =? nx then EVar (VLocal k) t None else e y in
  exists c', (forall j, new_lvar n t (mk c e nx j k vs) = Some (mk c' e' (nx + 1) j (S k) (vs ++ [k]))) /\
    wf (ops ++ [ScopeModel.OpVar n nx]) c' (nx + 1) (S k) (vs ++ [k]) (S i) /\ agree (ops ++ [ScopeModel.OpVar n nx]) e' (S k) (vs ++ [k]) (((n, EVar (VLocal i) t None) :: b) :: env) /\
    grow e nx k vs e' (nx + 1) (S k) (vs ++ [k]).
Proof.
  intros W A L e'. assert (N : ScopeSpec.nested (ops ++ [ScopeModel.OpVar n nx]) 0 = true) by (rewrite ScopeProofs.nested_app, (w_nest _ _ _ _ _ _ W); reflexivity).
  destruct (do_one ops _ c (w_do _ _ _ _ _ _ W) N L) as (c' & D & D'). exists c'.
  assert (G : grow e nx k vs e' (nx + 1) (S k) (vs ++ [k])). { constructor; try lia; [intros z Hz; unfold e'; replace (z =? nx) with false by lia; reflexivity|]. exists [k]. split; [reflexivity|]. constructor; [lia|constructor]. }
  split; [|split; [|split; [|exact G]]].
  - intros j. unfold new_lvar, mk. cbn [b_ctx b_next b_str b_loc b_vars with_ctx x_scope x_ent]. rewrite D. reflexivity.
  - destruct W as [W1 W2 W3 W4 W5 W6 W7]. constructor; auto.
    + intros m z I. apply in_app_or in I as [I|[I|[]]]; [specialize (W3 _ _ I); lia|]. injection I as _ <-. lia.
    + rewrite app_length. cbn [length]. lia.
    + apply Forall_app. split; [eapply Forall_impl; [|exact W6]; cbv beta; intros; lia|]. constructor; [lia|constructor].
    + assert (NI : ~ In k vs) by (rewrite Forall_forall in W6; intros I; specialize (W6 _ I); cbv beta in W6; lia). clear - W7 NI. induction W7 as [|v vs H _ IH]; [constructor; [intros []|constructor]|]. cbn [app]. constructor; [|apply IH; intros I; apply NI; now right]. intros I. apply in_app_or in I as [I|[I|[]]]; [now apply H|]. apply NI. now left.
  - intros VS X m. rewrite rev_app_distr. cbn [rev app ScopeSpec.visible ScopeSpec.declares_var Nat.eqb denotes assoc]. destruct (beq n m).
    + cbn [option_map rn_ent]. unfold e' at 1. rewrite Z.eqb_refl. rewrite (moved_new vs VS k i (w_i _ _ _ _ _ _ W) X). reflexivity.
    + pose proof (agree_same ops c e nx k vs i e' (nx + 1) (S k) (vs ++ [k]) (b :: env) W A G VS X m) as AA. cbn [denotes] in AA. exact AA.
Qed.
Lemma declarator_ok base d d' ops c e nx j k vs i env a env' j' : wf ops c nx k vs i -> agree ops e k vs env -> Z.of_nat (length ops) + 1 <= 20000000 ->
  r_declarator outer x0 number base d env j i = Some (a, env', j') -> dnorm d' = dnorm d -> fine_act proto a = true ->
  exists ns c' e' nx' k' vs' o, b_declarator base d' (mk c e nx j k vs) = Some (ns, mk c' e' nx' j' k' vs') /\ wf (ops ++ [o]) c' nx' k' vs' (S i) /\ agree (ops ++ [o]) e' k' vs' env' /\
    grow e nx k vs e' nx' k' vs' /\ ScopeSpec.block [o] /\ forall VS kN, ext k' vs' VS -> (k' <= kN)%nat -> forall l r, macts VS kN l r -> macts VS kN (a :: l) (ns ++ r).
Proof.
  intros W A L R N F. destruct d as [s n init], d' as [s' n' init']. cbn [dnorm] in N. injection N as -> -> N. cbn [r_declarator] in R. set (t := Nat.iter s TPtr base) in *. destruct env as [|b up]; [discriminate R|].
  destruct (object_type t) eqn:OT; [|discriminate R]. destruct (assoc n b); [discriminate R|]. cbn [andb] in R.
  destruct (new_ok ops c e nx k vs i n t up b W A L) as (c' & NV & W' & A' & G). set (e' := fun y => if y =? nx then EVar (VLocal k) t None else e y) in *.
  assert (OT' : (match t with TVoid | TFunc _ | TVla _ => true | _ => false end) = false /\ size_of t <? 0 = false /\ fixed t = true). { unfold object_type in OT. destruct t; try discriminate OT; apply andb_true_iff in OT as [O1 O2]; (split; [first [reflexivity|discriminate O2]|split; [lia|exact O2]]). }
  destruct OT' as (OT1 & OT2 & OT3). destruct (fixed_size t OT3) as (v & VS0).
  assert (BD : b_declarator base (Dcl s n init') (mk c e nx j k vs) = match init' with None => Some ([v], mk c' e' (nx + 1) j (S k) (vs ++ [k])) | Some (DExpr e1) => if is_struct_union t || match t with TArr _ _ => true | _ => false end then None else let* (r, st) := b_expr e1 (mk c' e' (nx + 1) j (S k) (vs ++ [k])) in let* a := mk_assign (NVar (VLocal k) t) r in Some ([v; NComma (NMemzero (VLocal k) t) a], st) | Some (DBrace _) => None end).
  { cbn [b_declarator]. fold t. rewrite OT2, VS0. change (b_loc (mk c e nx j k vs)) with k. rewrite NV. destruct t; try discriminate OT1; reflexivity. }
  assert (BK : ScopeSpec.block [ScopeModel.OpVar n nx]) by (split; reflexivity).
  destruct init as [[e0|br]|].
  - destruct (scalar t) eqn:SC; [|discriminate R]. match type of R with match ?X with _ => _ end = _ => destruct X as [[c0 j1]|] eqn:R1; [|discriminate R] end. injection R as <- <- <-. cbn [fine_act] in F. destruct init' as [[e1|br]|]; try discriminate N. cbn [option_map inorm] in N. injection N as N.
    destruct (expr_ok _ _ _ _ _ _ _ _ _ _ _ _ _ W' A' ltac:(rewrite app_length; cbn [length]; lia) R1 N (fine_assign _ _ _ F)) as (r & k' & B & KK & H).
    assert (NS : is_struct_union t || match t with TArr _ _ => true | _ => false end = false) by (destruct t; try discriminate SC; reflexivity). rewrite NS in BD. rewrite B in BD.
    assert (KEY : exists a, mk_assign (NVar (VLocal k) t) r = Some a /\ forall VS kN, ext k' (vs ++ [k]) VS -> (k' <= kN)%nat -> mex VS kN (CAssign (CVar (VLocal i) t) c0) a).
    { assert (Q : forall VS kN, ext k' (vs ++ [k]) VS -> (k' <= kN)%nat -> exists a, mk_assign (NVar (VLocal k) t) r = Some a /\ mex VS kN (CAssign (CVar (VLocal i) t) c0) a).
      { intros VS kN X KN. destruct (H VS kN X KN) as (c1 & t1 & Q & EL & P & T & K1 & K2 & NI). pose proof (ceq_assign _ _ _ _ (ceq_refl (CVar (VLocal i) t)) Q) as QA. unfold fine in F. apply andb_true_iff in F as [F XA]. apply andb_true_iff in F as [PA TA]. destruct (ctype (CAssign (CVar (VLocal i) t) c0)) as [ta|] eqn:TA'; [|discriminate TA]. pose proof QA as (QT & QP & _ & _ & QX & _). rewrite QX in XA. rewrite QP in PA. rewrite QT in TA'.
        destruct (rn_mv (moved k0 VS) (CAssign (CVar (VLocal i) t) c1)) as (HT & HP & _). destruct (stat (rn (moved k0 VS) (CAssign (CVar (VLocal i) t) c1)) ta (S k)) as (a & k2 & ELA & _); [now rewrite HP|now rewrite HT|].
        assert (MV : moved k0 VS (VLocal i) = VLocal k) by (apply (moved_new vs VS k i (w_i _ _ _ _ _ _ W)); eapply ext_trans; [exact KK|apply ext_refl|exact X]).
        pose proof ELA as EL2. cbn [rn elab] in EL2. rewrite EL, MV in EL2. destruct (mk_assign (NVar (VLocal k) t) r) as [a'|] eqn:MA; [|discriminate EL2]. injection EL2 as -> <-. exists a. split; [reflexivity|].
        exists (CAssign (CVar (VLocal i) t) c1), ta, (S k), k'. split; [exact QA|]. split; [exact ELA|]. auto. }
      destruct (Q (vs ++ [k]) k' (ext_refl _ _) (le_n _)) as (a & MA & _). exists a. split; [exact MA|]. intros VS kN X KN. destruct (Q VS kN X KN) as (a2 & MA2 & Q2). congruence. }
    destruct KEY as (a & MA & Q). rewrite MA in BD. exists [v; NComma (NMemzero (VLocal k) t) a], c', e', (nx + 1), k', (vs ++ [k]), (ScopeModel.OpVar n nx).
    assert (G2 : grow e' (nx + 1) (S k) (vs ++ [k]) e' (nx + 1) k' (vs ++ [k])) by now apply grow_k.
    split; [exact BD|]. split; [now apply (wf_k _ _ _ (S k))|]. split; [exact (agree_same _ _ _ _ _ _ _ _ _ _ _ _ W' A' G2)|]. split; [exact (grow_trans _ _ _ _ _ _ _ _ _ _ _ _ G G2)|]. split; [exact BK|].
    intros VS kN X KN l r0 M. assert (MV : moved k0 VS (VLocal i) = VLocal k) by (apply (moved_new vs VS k i (w_i _ _ _ _ _ _ W)); eapply ext_trans; [exact KK|apply ext_refl|exact X]). cbn [app]. rewrite <- MV. apply ma_init; [exact VS0|now apply Q|exact M].
  - discriminate R.
  - injection R as <- <- <-. destruct init' as [|]; [discriminate N|]. exists [v], c', e', (nx + 1), (S k), (vs ++ [k]), (ScopeModel.OpVar n nx). split; [exact BD|]. split; [exact W'|]. split; [exact A'|]. split; [exact G|]. split; [exact BK|]. intros VS kN X KN l r0 M. now apply ma_new.
Qed.
Lemma declarators_ok base : forall l l' ops c e nx j k vs i env acts env' j' i', wf ops c nx k vs i -> agree ops e k vs env -> Z.of_nat (length ops + length l) <= 20000000 ->
  r_declarators outer x0 number base l env j i = Some (acts, env', j', i') -> map dnorm l' = map dnorm l -> forallb (fine_act proto) acts = true ->
  exists ns c' e' nx' k' vs' d, b_declarators base l' (mk c e nx j k vs) = Some (ns, mk c' e' nx' j' k' vs') /\ wf (ops ++ d) c' nx' k' vs' i' /\ agree (ops ++ d) e' k' vs' env' /\
    grow e nx k vs e' nx' k' vs' /\ ScopeSpec.block d /\ length d = length l /\ forall VS kN, ext k' vs' VS -> (k' <= kN)%nat -> macts VS kN acts ns.
Proof.
  induction l as [|d l IH]; intros [|d' l'] ops c e nx j k vs i env acts env' j' i' W A L R N F; try discriminate N; cbn [r_declarators] in R.
  - injection R as <- <- <- <-. exists [], c, e, nx, k, vs, []. rewrite app_nil_r. split; [reflexivity|]. split; [exact W|]. split; [exact A|]. split; [apply grow_refl|]. split; [split; reflexivity|]. split; [reflexivity|]. constructor.
  - destruct (r_declarator outer x0 number base d env j i) as [[[a env1] j1]|] eqn:R1; [|discriminate R]. destruct (r_declarators outer x0 number base l env1 j1 (S i)) as [[[[r env2] j2] i2]|] eqn:R2; [|discriminate R]. injection R as <- <- <- <-.
    cbn [map] in N. injection N as N1 N2. cbn [forallb] in F. apply andb_true_iff in F as [F1 F2]. cbn [length] in L.
    destruct (declarator_ok _ _ _ _ _ _ _ _ _ _ _ _ _ _ _ W A ltac:(lia) R1 N1 F1) as (ns & c1 & e1 & nx1 & k1 & vs1 & o & B1 & W1 & A1 & G1 & BK1 & M1).
    destruct (IH l' _ _ _ _ _ _ _ _ _ _ _ _ _ W1 A1 ltac:(rewrite app_length; cbn [length]; lia) R2 N2 F2) as (ns2 & c2 & e2 & nx2 & k2 & vs2 & d2 & B2 & W2 & A2 & G2 & BK2 & LD & M2).
    exists (ns ++ ns2), c2, e2, nx2, k2, vs2, (o :: d2). split; [cbn [b_declarators]; rewrite B1, B2; reflexivity|]. rewrite <- app_assoc in W2, A2. cbn [app] in W2, A2. split; [exact W2|]. split; [exact A2|]. split; [exact (grow_trans _ _ _ _ _ _ _ _ _ _ _ _ G1 G2)|]. split; [exact (block_app [o] d2 BK1 BK2)|]. split; [cbn [length]; lia|].
    intros VS kN X KN. pose proof (g_k _ _ _ _ _ _ _ _ G2) as KK. apply M1; [exact (grow_ext _ _ _ _ _ _ _ _ _ G2 X)|lia|now apply M2].
Qed.

(** ** Statements *)
Definition stmt_done (cl : list ScopeModel.sop -> Prop) (bm : bst -> option (stmt * bst)) ops c e nx j k vs hs j' i' (size : nat) : Prop :=
  exists t c' e' nx' k' vs' d, bm (mk c e nx j k vs) = Some (t, mk c' e' nx' j' k' vs') /\ wf (ops ++ d) c' nx' k' vs' i' /\ grow e nx k vs e' nx' k' vs' /\ cl d /\ (length d <= size)%nat /\
    forall VS kN, ext k' vs' VS -> (k' <= kN)%nat -> mst VS kN rt hs t.
Definition stmt_goal (s : ss) : Prop := forall s' env j i hs j' i' ops c e nx k vs, ynorm s' = ynorm s -> r_stmt outer x0 number s env j i = Some (hs, j', i') -> fine_stmt proto rt hs = true -> wf ops c nx k vs i -> agree ops e k vs env ->
  Z.of_nat (length ops + scope_size s) <= 20000000 -> stmt_done closed (b_stmt s') ops c e nx j k vs hs j' i' (scope_size s).
Definition items_goal (b : items) : Prop := forall b' env j i hs j' i' ops c e nx k vs, bnorm b' = bnorm b -> r_items outer x0 number b env j i = Some (hs, j', i') -> fine_stmt proto rt hs = true -> wf ops c nx k vs i -> agree ops e k vs env ->
  Z.of_nat (length ops + items_size b) <= 20000000 -> stmt_done ScopeSpec.block (b_items b') ops c e nx j k vs hs j' i' (items_size b).
Lemma fine_acts l : fine_stmt proto rt (acts l) = forallb (fine_act proto) l. Proof. destruct l; reflexivity. Qed.
Lemma mst_acts VS kN l ns : macts VS kN l ns -> mst VS kN rt (acts l) (seqs ns).
Proof. intros M. destruct l; [inversion M; constructor|]. now apply m_acts. Qed.
Lemma enter_ok ops c nx k vs i : wf ops c nx k vs i -> Z.of_nat (length ops) + 1 <= 20000000 -> exists c', (forall e j, scope_op ScopeModel.OpEnter (mk c e nx j k vs) = Some (mk c' e nx j k vs)) /\ wf (ops ++ [ScopeModel.OpEnter]) c' nx k vs i.
Proof. intros W L. apply wf_op; auto. rewrite ScopeProofs.nested_app, (w_nest _ _ _ _ _ _ W). reflexivity. Qed.
Lemma leave_ok ops d c nx k vs i : ScopeSpec.nested ops 0 = true -> wf ((ops ++ [ScopeModel.OpEnter]) ++ d) c nx k vs i -> ScopeSpec.block d -> Z.of_nat (length ops + length d) + 2 <= 20000000 ->
  exists c', (forall e j, scope_op ScopeModel.OpLeave (mk c e nx j k vs) = Some (mk c' e nx j k vs)) /\ wf (ops ++ (ScopeModel.OpEnter :: d ++ [ScopeModel.OpLeave])) c' nx k vs i.
Proof.
  intros N W B L. replace (ops ++ ScopeModel.OpEnter :: d ++ [ScopeModel.OpLeave]) with (((ops ++ [ScopeModel.OpEnter]) ++ d) ++ [ScopeModel.OpLeave]) by (rewrite <- !app_assoc; reflexivity). apply wf_op; auto.
  - assert (N1 : ScopeSpec.nested (ops ++ [ScopeModel.OpEnter]) 0 = true) by (rewrite ScopeProofs.nested_app, N; reflexivity). destruct (nested_block _ _ N1 B) as [A C]. rewrite ScopeProofs.nested_app, A, C, ScopeProofs.depth_app. reflexivity.
  - rewrite !app_length. cbn [length]. lia.
Qed.
Ltac norm_inv s' N := destruct s'; cbn [ynorm] in N; try discriminate N.
Ltac fin := first [assumption|lia|reflexivity].
Lemma r_istmt s r env j i : r_items outer x0 number (IStmt s r) env j i = (let* (s, j, i) := r_stmt outer x0 number s env j i in let* (r, j, i) := r_items outer x0 number r env j i in Some (HSeq s r, j, i)). Proof. reflexivity. Qed.
Lemma r_idecl t l r env j i : r_items outer x0 number (IDecl t l r) env j i = (let* (l, env, j, i) := r_declaration outer x0 number t l env j i in let* (r, j, i) := r_items outer x0 number r env j i in Some (HSeq (acts l) r, j, i)). Proof. reflexivity. Qed.
Lemma b_istmt s r st : b_items (IStmt s r) st = (let* (s, st) := b_stmt s st in let* (r, st) := b_items r st in Some (SSeq s r, st)). Proof. reflexivity. Qed.
Lemma b_idecl t l r st : b_items (IDecl t l r) st = (let* (l, st) := b_declaration t l st in let* (r, st) := b_items r st in Some (SSeq (seqs l) r, st)). Proof. reflexivity. Qed.
Lemma bn_stmt s r : bnorm (IStmt s r) = IStmt (ynorm s) (bnorm r). Proof. reflexivity. Qed.
Lemma bn_decl t l r : bnorm (IDecl t l r) = IDecl t (map dnorm l) (bnorm r). Proof. reflexivity. Qed.
Lemma sz_stmt s r : items_size (IStmt s r) = (scope_size s + items_size r)%nat. Proof. reflexivity. Qed.
Lemma sz_decl t l r : items_size (IDecl t l r) = (length l + items_size r)%nat. Proof. reflexivity. Qed.
Lemma stmts_ok : (forall s, stmt_goal s) /\ (forall b, items_goal b).
Proof.
  apply ss_items; unfold stmt_goal, items_goal.
  - (* ; *) intros s' env j i hs j' i' ops c e nx k vs N R F W A L. norm_inv s' N. cbn [r_stmt] in R. injection R as <- <- <-. exists SSkip, c, e, nx, k, vs, []. rewrite app_nil_r. split; [reflexivity|]. split; [exact W|]. split; [apply grow_refl|]. split; [apply closed_nil|]. split; [cbn; lia|]. constructor.
  - (* expression *) intros e0 s' env j i hs j' i' ops c e nx k vs N R F W A L. norm_inv s' N. injection N as N. cbn [r_stmt] in R. destruct (r_expr outer x0 number env e0 j) as [[hx jx]|] eqn:R1; [|discriminate R]. injection R as <- <- <-. cbn [fine_stmt forallb fine_act] in F. rewrite andb_true_r in F. cbn [scope_size] in L.
    destruct (expr_ok' _ _ _ _ _ _ _ _ _ _ _ _ _ W A ltac:(lia) R1 N F) as (n & k' & B & KK & M). exists (SExpr n), c, e, nx, k', vs, []. rewrite app_nil_r. split; [cbn [b_stmt]; rewrite B; reflexivity|]. split; [now apply (wf_k _ _ _ k)|]. split; [now apply grow_k|]. split; [apply closed_nil|]. split; [cbn; lia|]. intros. constructor. now apply M.
  - (* block *) intros b IH s' env j i hs j' i' ops c e nx k vs N R F W A L. norm_inv s' N. injection N as N. cbn [r_stmt] in R. cbn [scope_size] in L.
    destruct (enter_ok _ _ _ _ _ _ W ltac:(lia)) as (c1 & S1 & W1). destruct (IH _ _ _ _ _ _ _ _ _ _ _ _ _ N R F W1 (agree_enter _ _ _ _ _ A) ltac:(rewrite app_length; cbn [length]; lia)) as (t & c2 & e2 & nx2 & k2 & vs2 & d & B & W2 & G & BK & LD & M).
    destruct (leave_ok _ _ _ _ _ _ _ (w_nest _ _ _ _ _ _ W) W2 BK ltac:(lia)) as (c3 & S3 & W3). exists t, c3, e2, nx2, k2, vs2, (ScopeModel.OpEnter :: d ++ [ScopeModel.OpLeave]).
    split; [cbn [b_stmt]; rewrite S1, B, S3; reflexivity|]. split; [exact W3|]. split; [exact G|]. split; [now apply closed_block|]. split; [cbn [scope_size length]; rewrite app_length; cbn [length]; lia|exact M].
  - (* if *) intros e0 a IH s' env j i hs j' i' ops c e nx k vs N R F W A L. norm_inv s' N. injection N as N1 N2. cbn [r_stmt] in R. cbn [scope_size] in L. destruct (r_expr outer x0 number env e0 j) as [[hx jx]|] eqn:R1; [|discriminate R]. destruct (r_stmt outer x0 number a env jx i) as [[[ha ja] ia]|] eqn:R2; [|discriminate R]. injection R as <- <- <-. cbn [fine_stmt] in F. rewrite !andb_true_iff in F. destruct F as [[F1 F2] _].
    destruct (expr_ok' _ _ _ _ _ _ _ _ _ _ _ _ _ W A ltac:(lia) R1 N1 F1) as (n & k1 & B1 & KK & M1). destruct (IH _ _ _ _ _ _ _ _ _ _ _ _ _ N2 R2 F2 (wf_k _ _ _ _ _ _ _ W KK) (agree_same _ _ _ _ _ _ _ _ _ _ _ _ W A (grow_k e nx k vs k1 KK)) L) as (t & c2 & e2 & nx2 & k2 & vs2 & d & B2 & W2 & G & CL & LD & M2).
    exists (SIf n t SSkip), c2, e2, nx2, k2, vs2, d. split; [cbn [b_stmt]; rewrite B1, B2; reflexivity|]. split; [exact W2|]. split; [exact (grow_trans _ _ _ _ _ _ _ _ _ _ _ _ (grow_k e nx k vs k1 KK) G)|]. split; [exact CL|]. split; [exact LD|]. intros VS kN X KN. pose proof (g_k _ _ _ _ _ _ _ _ G). constructor; [apply M1; [exact (grow_ext _ _ _ _ _ _ _ _ _ G X)|lia]|now apply M2|constructor].
  - (* if else *) intros e0 a IHa b IHb s' env j i hs j' i' ops c e nx k vs N R F W A L. norm_inv s' N. injection N as N1 N2 N3. cbn [r_stmt] in R. cbn [scope_size] in L. destruct (r_expr outer x0 number env e0 j) as [[hx jx]|] eqn:R1; [|discriminate R]. destruct (r_stmt outer x0 number a env jx i) as [[[ha ja] ia]|] eqn:R2; [|discriminate R]. destruct (r_stmt outer x0 number b env ja ia) as [[[hb jb] ib]|] eqn:R3; [|discriminate R]. injection R as <- <- <-. cbn [fine_stmt] in F. rewrite !andb_true_iff in F. destruct F as [[F1 F2] F3].
    destruct (expr_ok' _ _ _ _ _ _ _ _ _ _ _ _ _ W A ltac:(lia) R1 N1 F1) as (n & k1 & B1 & KK & M1). pose proof (agree_same _ _ _ _ _ _ _ _ _ _ _ _ W A (grow_k e nx k vs k1 KK)) as A1.
    destruct (IHa _ _ _ _ _ _ _ _ _ _ _ _ _ N2 R2 F2 (wf_k _ _ _ _ _ _ _ W KK) A1 ltac:(lia)) as (t & c2 & e2 & nx2 & k2 & vs2 & d & B2 & W2 & G & CL & LD & M2).
    destruct (IHb _ _ _ _ _ _ _ _ _ _ _ _ _ N3 R3 F3 W2 (agree_closed _ _ _ _ _ _ _ _ _ _ _ _ _ (wf_k _ _ _ _ _ _ _ W KK) A1 G CL) ltac:(rewrite app_length; lia)) as (t3 & c3 & e3 & nx3 & k3 & vs3 & d3 & B3 & W3 & G3 & CL3 & LD3 & M3).
    exists (SIf n t t3), c3, e3, nx3, k3, vs3, (d ++ d3). split; [cbn [b_stmt]; rewrite B1, B2, B3; reflexivity|]. rewrite app_assoc. split; [exact W3|]. split; [exact (grow_trans _ _ _ _ _ _ _ _ _ _ _ _ (grow_k e nx k vs k1 KK) (grow_trans _ _ _ _ _ _ _ _ _ _ _ _ G G3))|]. split; [now apply closed_app|]. split; [rewrite app_length; cbn [scope_size]; lia|].
    intros VS kN X KN. pose proof (g_k _ _ _ _ _ _ _ _ G). pose proof (g_k _ _ _ _ _ _ _ _ G3). pose proof (grow_ext _ _ _ _ _ _ _ _ _ G3 X) as X2. constructor; [apply M1; [exact (grow_ext _ _ _ _ _ _ _ _ _ G X2)|lia]|apply M2; [exact X2|lia]|now apply M3].
  - (* switch *) intros e0 a IH s' env j i hs j' i' ops c e nx k vs N R F W A L. norm_inv s' N. injection N as N1 N2. cbn [r_stmt] in R. cbn [scope_size] in L. destruct (r_expr outer x0 number env e0 j) as [[hx jx]|] eqn:R1; [|discriminate R]. destruct (r_stmt outer x0 number a env jx i) as [[[ha ja] ia]|] eqn:R2; [|discriminate R]. injection R as <- <- <-. cbn [fine_stmt] in F. rewrite !andb_true_iff in F. destruct F as [F1 F2].
    destruct (expr_ok' _ _ _ _ _ _ _ _ _ _ _ _ _ W A ltac:(lia) R1 N1 F1) as (n & k1 & B1 & KK & M1). destruct (IH _ _ _ _ _ _ _ _ _ _ _ _ _ N2 R2 F2 (wf_k _ _ _ _ _ _ _ W KK) (agree_same _ _ _ _ _ _ _ _ _ _ _ _ W A (grow_k e nx k vs k1 KK)) L) as (t & c2 & e2 & nx2 & k2 & vs2 & d & B2 & W2 & G & CL & LD & M2).
    exists (SSwitch n t), c2, e2, nx2, k2, vs2, d. split; [cbn [b_stmt]; rewrite B1, B2; reflexivity|]. split; [exact W2|]. split; [exact (grow_trans _ _ _ _ _ _ _ _ _ _ _ _ (grow_k e nx k vs k1 KK) G)|]. split; [exact CL|]. split; [exact LD|]. intros VS kN X KN. pose proof (g_k _ _ _ _ _ _ _ _ G). constructor; [apply M1; [exact (grow_ext _ _ _ _ _ _ _ _ _ G X)|lia]|now apply M2].
  - (* case *) intros lo hi s IH s' env j i hs j' i' ops c e nx k vs N R F W A L. norm_inv s' N. injection N as N1 N2 N3. cbn [r_stmt] in R. cbn [scope_size] in L. destruct (r_const outer x0 number env lo j) as [[a ja]|] eqn:R1; [|discriminate R]. destruct (match hi with None => Some (a, ja) | Some e1 => r_const outer x0 number env e1 ja end) as [[b jb]|] eqn:R2; [|discriminate R]. destruct (r_stmt outer x0 number s env jb i) as [[[h j3] i3]|] eqn:R3; [|discriminate R]. injection R as <- <- <-. cbn [fine_stmt] in F.
    pose proof (const_ok _ _ _ _ _ _ _ _ _ _ _ _ _ W A ltac:(lia) R1 N1) as B1.
    match goal with NN : option_map norm ?h = option_map norm hi |- _ => assert (B2 : match h with None => Some (a, mk c e nx ja k vs) | Some e1 => b_const e1 (mk c e nx ja k vs) end = Some (b, mk c e nx jb k vs)); [destruct hi as [e2|], h as [e1|]; try discriminate NN; [injection NN as NN; exact (const_ok _ _ _ _ _ _ _ _ _ _ _ _ _ W A ltac:(lia) R2 NN)|injection R2 as <- <-; reflexivity]|] end.
    destruct (IH _ _ _ _ _ _ _ _ _ _ _ _ _ N3 R3 F W A L) as (t & c2 & e2 & nx2 & k2 & vs2 & d & B3 & W2 & G & CL & LD & M2).
    exists (SCase a b t), c2, e2, nx2, k2, vs2, d. split; [cbn [b_stmt]; rewrite B1; cbv beta iota; rewrite B2, B3; reflexivity|]. split; [exact W2|]. split; [exact G|]. split; [exact CL|]. split; [exact LD|]. intros. constructor. now apply M2.
  - (* default *) intros s IH s' env j i hs j' i' ops c e nx k vs N R F W A L. norm_inv s' N. injection N as N. cbn [r_stmt] in R. destruct (r_stmt outer x0 number s env j i) as [[[h j3] i3]|] eqn:R3; [|discriminate R]. injection R as <- <- <-.
    destruct (IH _ _ _ _ _ _ _ _ _ _ _ _ _ N R3 F W A L) as (t & c2 & e2 & nx2 & k2 & vs2 & d & B3 & W2 & G & CL & LD & M2). exists (SDefault t), c2, e2, nx2, k2, vs2, d. split; [cbn [b_stmt]; rewrite B3; reflexivity|]. split; [exact W2|]. split; [exact G|]. split; [exact CL|]. split; [exact LD|]. intros. constructor. now apply M2.
  - (* for *) intros f co inc s IH s' env j i hs j' i' ops c e nx k vs N R F W A L. norm_inv s' N. injection N as N1 N2 N3 N4. cbn [r_stmt] in R. cbn [scope_size] in L. destruct (r_first outer x0 number f ([] :: env) j i) as [[[[hf env1] j1] i1]|] eqn:R1; [|discriminate R]. destruct (r_opt outer x0 number env1 co j1) as [[hc j2]|] eqn:R2; [|discriminate R]. destruct (r_opt outer x0 number env1 inc j2) as [[hi j3]|] eqn:R3; [|discriminate R]. destruct (r_stmt outer x0 number s env1 j3 i1) as [[[h j4] i4]|] eqn:R4; [|discriminate R]. injection R as <- <- <-. cbn [fine_stmt] in F. rewrite !andb_true_iff in F. destruct F as [[[F1 F2] F3] F4].
    destruct (enter_ok _ _ _ _ _ _ W ltac:(lia)) as (ca & S1 & W1). pose proof (agree_enter _ _ _ _ _ A) as A1.
    match goal with NN : fnorm ?g = fnorm f |- _ => assert (FI : exists ns c1 e1 nx1 k1 vs1 d, b_first g (mk ca e nx j k vs) = Some (ns, mk c1 e1 nx1 j1 k1 vs1) /\ wf ((ops ++ [ScopeModel.OpEnter]) ++ d) c1 nx1 k1 vs1 i1 /\ agree ((ops ++ [ScopeModel.OpEnter]) ++ d) e1 k1 vs1 env1 /\ grow e nx k vs e1 nx1 k1 vs1 /\ ScopeSpec.block d /\ (length d <= first_size f)%nat /\ forall VS kN, ext k1 vs1 VS -> (k1 <= kN)%nat -> macts VS kN hf ns) end.
    { destruct f as [|e0|t l]; match goal with NN : fnorm ?g = _ |- _ => destruct g; try discriminate NN; cbn [fnorm] in NN end.
      - cbn [r_first] in R1. injection R1 as <- <- <- <-. exists [], ca, e, nx, k, vs, []. rewrite app_nil_r. split; [reflexivity|]. split; [exact W1|]. split; [exact A1|]. split; [apply grow_refl|]. split; [split; reflexivity|]. split; [cbn; lia|]. constructor.
      - injection N1 as N1. cbn [r_first] in R1. destruct (r_expr outer x0 number ([] :: env) e0 j) as [[hx jx]|] eqn:RE; [|discriminate R1]. injection R1 as <- <- <- <-. cbn [forallb fine_act] in F1. rewrite andb_true_r in F1.
        destruct (expr_ok' _ _ _ _ _ _ _ _ _ _ _ _ _ W1 A1 ltac:(rewrite app_length; cbn [length]; lia) RE N1 F1) as (n & k1 & B1 & KK & M1). exists [n], ca, e, nx, k1, vs, []. rewrite app_nil_r. split; [cbn [b_first]; rewrite B1; reflexivity|]. split; [now apply (wf_k _ _ _ k)|]. split; [exact (agree_same _ _ _ _ _ _ _ _ _ _ _ _ W1 A1 (grow_k e nx k vs k1 KK))|]. split; [now apply grow_k|]. split; [split; reflexivity|]. split; [cbn; lia|]. intros. constructor; [now apply M1|constructor].
      - injection N1 as -> N1. cbn [r_first] in R1. unfold r_declaration in R1. destruct (x_type x0 t) as [base|] eqn:XT; [|discriminate R1]. cbn [first_size] in L.
        destruct (declarators_ok base l _ _ _ _ _ _ _ _ _ _ _ _ _ _ W1 A1 ltac:(rewrite app_length; cbn [length]; lia) R1 N1 F1) as (ns & c1 & e1 & nx1 & k1 & vs1 & d & B1 & W2 & A2 & G & BK & LD & M). exists ns, c1, e1, nx1, k1, vs1, d. split; [cbn [b_first]; unfold b_declaration; change (x_type (b_ctx (mk ca e nx j k vs)) t) with (x_type x0 t); rewrite XT; exact B1|]. split; [exact W2|]. split; [exact A2|]. split; [exact G|]. split; [exact BK|]. split; [cbn [first_size]; lia|exact M]. }
    destruct FI as (ns & c1 & e1 & nx1 & k1 & vs1 & d & B1 & W2 & A2 & G1 & BK & LD & M1). assert (LE : Z.of_nat (length ((ops ++ [ScopeModel.OpEnter]) ++ d) + scope_size s) <= 20000000) by (rewrite !app_length; cbn [length]; lia).
    destruct (opt_ok _ _ _ _ _ _ _ _ _ _ _ _ _ W2 A2 ltac:(lia) R2 N2 F2) as (nc & k2 & B2 & KK2 & M2). pose proof (wf_k _ _ _ _ _ _ _ W2 KK2) as W3. pose proof (grow_k e1 nx1 k1 vs1 k2 KK2) as G2. pose proof (agree_same _ _ _ _ _ _ _ _ _ _ _ _ W2 A2 G2) as A3.
    destruct (opt_ok _ _ _ _ _ _ _ _ _ _ _ _ _ W3 A3 ltac:(lia) R3 N3 F3) as (ni & k3 & B3 & KK3 & M3). pose proof (wf_k _ _ _ _ _ _ _ W3 KK3) as W4. pose proof (grow_k e1 nx1 k2 vs1 k3 KK3) as G3. pose proof (agree_same _ _ _ _ _ _ _ _ _ _ _ _ W3 A3 G3) as A4.
    destruct (IH _ _ _ _ _ _ _ _ _ _ _ _ _ N4 R4 F4 W4 A4 LE) as (t & c5 & e5 & nx5 & k5 & vs5 & d5 & B5 & W5 & G5 & CL & LD5 & M5).
    rewrite <- app_assoc in W5. destruct CL as [BK5 CL]. destruct (leave_ok _ _ _ _ _ _ _ (w_nest _ _ _ _ _ _ W) W5 (block_app _ _ BK BK5) ltac:(rewrite app_length; rewrite !app_length in LE; cbn [length] in LE; lia)) as (c6 & S6 & W6).
    exists (SFor ns nc ni t), c6, e5, nx5, k5, vs5, (ScopeModel.OpEnter :: (d ++ d5) ++ [ScopeModel.OpLeave]). split; [cbn [b_stmt]; rewrite S1, B1, B2, B3, B5, S6; reflexivity|]. split; [exact W6|].
    pose proof (grow_trans _ _ _ _ _ _ _ _ _ _ _ _ G3 G5) as G35. pose proof (grow_trans _ _ _ _ _ _ _ _ _ _ _ _ G2 G35) as G25. pose proof (grow_trans _ _ _ _ _ _ _ _ _ _ _ _ G1 G25) as G15. split; [exact G15|]. split; [apply closed_block; now apply block_app|]. split; [cbn [scope_size length]; rewrite !app_length; cbn [length]; lia|].
    intros VS kN X KN. pose proof (g_k _ _ _ _ _ _ _ _ G5). constructor; [apply M1; [exact (grow_ext _ _ _ _ _ _ _ _ _ G25 X)|lia]|apply M2; [exact (grow_ext _ _ _ _ _ _ _ _ _ G35 X)|lia]|apply M3; [exact (grow_ext _ _ _ _ _ _ _ _ _ G5 X)|lia]|now apply M5].
  - (* while *) intros e0 a IH s' env j i hs j' i' ops c e nx k vs N R F W A L. norm_inv s' N. injection N as N1 N2. cbn [r_stmt] in R. cbn [scope_size] in L. destruct (r_expr outer x0 number env e0 j) as [[hx jx]|] eqn:R1; [|discriminate R]. destruct (r_stmt outer x0 number a env jx i) as [[[ha ja] ia]|] eqn:R2; [|discriminate R]. injection R as <- <- <-. cbn [fine_stmt] in F. rewrite !andb_true_iff in F. destruct F as [F1 F2].
    destruct (expr_ok' _ _ _ _ _ _ _ _ _ _ _ _ _ W A ltac:(lia) R1 N1 F1) as (n & k1 & B1 & KK & M1). destruct (IH _ _ _ _ _ _ _ _ _ _ _ _ _ N2 R2 F2 (wf_k _ _ _ _ _ _ _ W KK) (agree_same _ _ _ _ _ _ _ _ _ _ _ _ W A (grow_k e nx k vs k1 KK)) L) as (t & c2 & e2 & nx2 & k2 & vs2 & d & B2 & W2 & G & CL & LD & M2).
    exists (SWhile n t), c2, e2, nx2, k2, vs2, d. split; [cbn [b_stmt]; rewrite B1, B2; reflexivity|]. split; [exact W2|]. split; [exact (grow_trans _ _ _ _ _ _ _ _ _ _ _ _ (grow_k e nx k vs k1 KK) G)|]. split; [exact CL|]. split; [exact LD|]. intros VS kN X KN. pose proof (g_k _ _ _ _ _ _ _ _ G). constructor; [apply M1; [exact (grow_ext _ _ _ _ _ _ _ _ _ G X)|lia]|now apply M2].
  - (* do *) intros a IH e0 s' env j i hs j' i' ops c e nx k vs N R F W A L. norm_inv s' N. injection N as N1 N2. cbn [r_stmt] in R. cbn [scope_size] in L. destruct (r_stmt outer x0 number a env j i) as [[[ha ja] ia]|] eqn:R2; [|discriminate R]. destruct (r_expr outer x0 number env e0 ja) as [[hx jx]|] eqn:R1; [|discriminate R]. injection R as <- <- <-. cbn [fine_stmt] in F. rewrite !andb_true_iff in F. destruct F as [F1 F2].
    destruct (IH _ _ _ _ _ _ _ _ _ _ _ _ _ N1 R2 F2 W A L) as (t & c2 & e2 & nx2 & k2 & vs2 & d & B2 & W2 & G & CL & LD & M2). destruct (expr_ok' _ _ _ _ _ _ _ _ _ _ _ _ _ W2 (agree_closed _ _ _ _ _ _ _ _ _ _ _ _ _ W A G CL) ltac:(rewrite app_length; lia) R1 N2 F1) as (n & k1 & B1 & KK & M1).
    exists (SDo t n), c2, e2, nx2, k1, vs2, d. split; [cbn [b_stmt]; rewrite B2, B1; reflexivity|]. split; [now apply (wf_k _ _ _ k2)|]. pose proof (grow_k e2 nx2 k2 vs2 k1 KK) as G1. split; [exact (grow_trans _ _ _ _ _ _ _ _ _ _ _ _ G G1)|]. split; [exact CL|]. split; [exact LD|]. intros VS kN X KN. constructor; [now apply M1|apply M2; [exact (grow_ext _ _ _ _ _ _ _ _ _ G1 X)|lia]].
  - (* asm *) intros a s' env j i hs j' i' ops c e nx k vs N R. discriminate R.
  - (* goto *p *) intros a s' env j i hs j' i' ops c e nx k vs N R. discriminate R.
  - (* goto *) intros l s' env j i hs j' i' ops c e nx k vs N R F W A L. norm_inv s' N. injection N as ->. cbn [r_stmt] in R. injection R as <- <- <-. exists (SGoto l), c, e, nx, k, vs, []. rewrite app_nil_r. split; [reflexivity|]. split; [exact W|]. split; [apply grow_refl|]. split; [apply closed_nil|]. split; [cbn; lia|]. constructor.
  - (* break *) intros s' env j i hs j' i' ops c e nx k vs N R F W A L. norm_inv s' N. cbn [r_stmt] in R. injection R as <- <- <-. exists SBreak, c, e, nx, k, vs, []. rewrite app_nil_r. split; [reflexivity|]. split; [exact W|]. split; [apply grow_refl|]. split; [apply closed_nil|]. split; [cbn; lia|]. constructor.
  - (* continue *) intros s' env j i hs j' i' ops c e nx k vs N R F W A L. norm_inv s' N. cbn [r_stmt] in R. injection R as <- <- <-. exists SContinue, c, e, nx, k, vs, []. rewrite app_nil_r. split; [reflexivity|]. split; [exact W|]. split; [apply grow_refl|]. split; [apply closed_nil|]. split; [cbn; lia|]. constructor.
  - (* label *) intros l s IH s' env j i hs j' i' ops c e nx k vs N R F W A L. norm_inv s' N. injection N as -> N. cbn [r_stmt] in R. destruct (r_stmt outer x0 number s env j i) as [[[h j3] i3]|] eqn:R3; [|discriminate R]. injection R as <- <- <-.
    destruct (IH _ _ _ _ _ _ _ _ _ _ _ _ _ N R3 F W A L) as (t & c2 & e2 & nx2 & k2 & vs2 & d & B3 & W2 & G & CL & LD & M2). exists (SLabel l t), c2, e2, nx2, k2, vs2, d. split; [cbn [b_stmt]; rewrite B3; reflexivity|]. split; [exact W2|]. split; [exact G|]. split; [exact CL|]. split; [exact LD|]. intros. constructor. now apply M2.
  - (* return *) intros e0 s' env j i hs j' i' ops c e nx k vs N R F W A L. norm_inv s' N. injection N as N. cbn [r_stmt] in R. destruct (r_opt outer x0 number env e0 j) as [[hx jx]|] eqn:R1; [|discriminate R]. injection R as <- <- <-. cbn [scope_size] in L.
    destruct e0 as [e0|]; match goal with NN : option_map norm ?g = _ |- _ => destruct g as [e1|]; try discriminate NN end; cbn [r_opt] in R1.
    + injection N as N. destruct (r_expr outer x0 number env e0 j) as [[c1 j1]|] eqn:RE; [|discriminate R1]. injection R1 as <- <-. cbn [fine_stmt] in F. destruct (expr_ok _ _ _ _ _ _ _ _ _ _ _ _ _ W A ltac:(lia) RE N (fine_cast _ _ F)) as (n & k1 & B1 & KK & H).
      exists (SReturn (Some n)), c, e, nx, k1, vs, []. rewrite app_nil_r. split; [cbn [b_stmt b_opt]; rewrite B1; reflexivity|]. split; [now apply (wf_k _ _ _ k)|]. split; [now apply grow_k|]. split; [apply closed_nil|]. split; [cbn; lia|].
      intros VS kN X KN. destruct (H VS kN X KN) as (c2 & t & Q & EL & P & T & K1 & K2 & NI). constructor. pose proof (ceq_cast rt _ _ Q) as QA. unfold fine in F. apply andb_true_iff in F as [F XA]. apply andb_true_iff in F as [PA TA]. destruct (ctype (CCast rt c1)) as [ta|] eqn:TA'; [|discriminate TA]. pose proof QA as (QT & QP & _ & _ & QX & _). rewrite QX in XA. rewrite QP in PA. rewrite QT in TA'.
      exists (CCast rt c2), ta, k, k1. split; [exact QA|]. split; [cbn [rn elab]; rewrite EL; reflexivity|]. auto.
    + injection R1 as <- <-. exists (SReturn None), c, e, nx, k, vs, []. rewrite app_nil_r. split; [reflexivity|]. split; [exact W|]. split; [apply grow_refl|]. split; [apply closed_nil|]. split; [cbn; lia|]. constructor.
  - (* no item *) intros b' env j i hs j' i' ops c e nx k vs N R F W A L. destruct b'; try discriminate N. cbn [r_items] in R. injection R as <- <- <-. exists SSkip, c, e, nx, k, vs, []. rewrite app_nil_r. split; [reflexivity|]. split; [exact W|]. split; [apply grow_refl|]. split; [split; reflexivity|]. split; [cbn; lia|]. constructor.
  - (* statement *) intros s IHs r IHr b' env j i hs j' i' ops c e nx k vs N R F W A L. destruct b'; try discriminate N. rewrite !bn_stmt in N. injection N as N1 N2. rewrite r_istmt in R. rewrite sz_stmt in L. destruct (r_stmt outer x0 number s env j i) as [[[ha ja] ia]|] eqn:R1; [|discriminate R]. destruct (r_items outer x0 number r env ja ia) as [[[hb jb] ib]|] eqn:R2; [|discriminate R]. injection R as <- <- <-. cbn [fine_stmt] in F. apply andb_true_iff in F as [F1 F2].
    destruct (IHs _ _ _ _ _ _ _ _ _ _ _ _ _ N1 R1 F1 W A ltac:(lia)) as (t & c2 & e2 & nx2 & k2 & vs2 & d & B2 & W2 & G & CL & LD & M2).
    destruct (IHr _ _ _ _ _ _ _ _ _ _ _ _ _ N2 R2 F2 W2 (agree_closed _ _ _ _ _ _ _ _ _ _ _ _ _ W A G CL) ltac:(rewrite app_length; lia)) as (t3 & c3 & e3 & nx3 & k3 & vs3 & d3 & B3 & W3 & G3 & BK3 & LD3 & M3).
    exists (SSeq t t3), c3, e3, nx3, k3, vs3, (d ++ d3). split; [rewrite b_istmt, B2, B3; reflexivity|]. rewrite app_assoc. split; [exact W3|]. split; [exact (grow_trans _ _ _ _ _ _ _ _ _ _ _ _ G G3)|]. split; [apply block_app; [apply CL|exact BK3]|]. split; [rewrite app_length; rewrite sz_stmt; lia|].
    intros VS kN X KN. pose proof (g_k _ _ _ _ _ _ _ _ G3). constructor; [apply M2; [exact (grow_ext _ _ _ _ _ _ _ _ _ G3 X)|lia]|now apply M3].
  - (* declaration *) intros t l r IHr b' env j i hs j' i' ops c e nx k vs N R F W A L. destruct b'; try discriminate N. rewrite !bn_decl in N. injection N as -> N1 N2. rewrite r_idecl in R. rewrite sz_decl in L. destruct (r_declaration outer x0 number t l env j i) as [[[[ha env1] ja] ia]|] eqn:R1; [|discriminate R]. destruct (r_items outer x0 number r env1 ja ia) as [[[hb jb] ib]|] eqn:R2; [|discriminate R]. injection R as <- <- <-. cbn [fine_stmt] in F. apply andb_true_iff in F as [F1 F2]. rewrite fine_acts in F1.
    unfold r_declaration in R1. destruct (x_type x0 t) as [base|] eqn:XT; [|discriminate R1].
    destruct (declarators_ok base l _ _ _ _ _ _ _ _ _ _ _ _ _ _ W A ltac:(lia) R1 N1 F1) as (ns & c1 & e1 & nx1 & k1 & vs1 & d & B1 & W1 & A1 & G & BK & LD & M1).
    destruct (IHr _ _ _ _ _ _ _ _ _ _ _ _ _ N2 R2 F2 W1 A1 ltac:(rewrite app_length; lia)) as (t3 & c3 & e3 & nx3 & k3 & vs3 & d3 & B3 & W3 & G3 & BK3 & LD3 & M3).
    exists (SSeq (seqs ns) t3), c3, e3, nx3, k3, vs3, (d ++ d3). split; [rewrite b_idecl; unfold b_declaration; change (x_type (b_ctx (mk c e nx j k vs)) t) with (x_type x0 t); rewrite XT, B1, B3; reflexivity|]. rewrite app_assoc. split; [exact W3|]. split; [exact (grow_trans _ _ _ _ _ _ _ _ _ _ _ _ G G3)|]. split; [now apply block_app|]. split; [rewrite app_length; rewrite sz_decl; lia|].
    intros VS kN X KN. pose proof (g_k _ _ _ _ _ _ _ _ G3). constructor; [apply mst_acts; apply M1; [exact (grow_ext _ _ _ _ _ _ _ _ _ G3 X)|lia]|now apply M3].
Qed.
End Match.
