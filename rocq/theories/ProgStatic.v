(** Proofs about ProgModel: which functions it makes. *)
From Verif Require Import Base TypeModel IntArith NodeModel ValSpec NodeSpec StmtSpec ElabSpec ElabProofs ElabSim ParseModel ParseSpec BlockModel BlockSpec BlockProofs BlockProps FrontModel FrontSpec FrontProofs BodyModel BodySpec BodyRename BodyStatic ProgModel ProgSpec.
From Verif Require ScopeModel ScopeSpec ScopeProofs ScopeProps FrameModel.
From Coq Require Import ZifyBool ZifyNat.
Local Notation length := List.length.

(** ** The types of the objects *)
Section Types.
Variable xt : bytes -> option ty.
Lemma dcl_type_norm base d : dcl_type base (dnorm d) = dcl_type base d. Proof. destruct d; reflexivity. Qed.
Lemma decl_types_norm t l : decl_types xt t (map dnorm l) = decl_types xt t l.
Proof. unfold decl_types. destruct (xt t) as [b|]; [|reflexivity]. rewrite map_map. apply map_ext. apply dcl_type_norm. Qed.
Lemma first_types_norm i : first_types xt (fnorm i) = first_types xt i. Proof. destruct i; try reflexivity. apply decl_types_norm. Qed.
Lemma it_stmt s r : items_types xt (IStmt s r) = stmt_types xt s ++ items_types xt r. Proof. reflexivity. Qed.
Lemma it_decl t l r : items_types xt (IDecl t l r) = decl_types xt t l ++ items_types xt r. Proof. reflexivity. Qed.
Lemma types_norm : (forall s, stmt_types xt (ynorm s) = stmt_types xt s) /\ (forall b, items_types xt (bnorm b) = items_types xt b).
Proof.
  apply ss_items; intros; try reflexivity; try assumption; try (cbn [ynorm stmt_types]; congruence).
  - cbn [ynorm stmt_types]. rewrite first_types_norm. congruence.
  - rewrite bn_stmt, !it_stmt. congruence.
  - rewrite bn_decl, !it_decl. rewrite decl_types_norm. congruence.
Qed.
End Types.
Definition numbered (i : nat) (ts : list ty) : list (var * ty) := combine (map VLocal (seq i (length ts))) ts.
Lemma numbered_app i a b : numbered i (a ++ b) = numbered i a ++ numbered (i + length a) b.
Proof. unfold numbered. revert i. induction a as [|t a IH]; intros i; [cbn; now rewrite Nat.add_0_r|]. cbn [app length seq map combine]. rewrite IH. replace (S i + length a)%nat with (i + S (length a))%nat by lia. reflexivity. Qed.
Section Objects.
Variables (outer : bytes -> option ent) (x : ctx) (number : bytes -> option (ty * Z)).
Lemma declarators_objects base l : forall env j i a env' j' i', r_declarators outer x number base l env j i = Some (a, env', j', i') ->
  flat_map act_objects a = numbered i (map (dcl_type base) l) /\ i' = (i + length l)%nat.
Proof.
  induction l as [|d l IH]; intros env j i a env' j' i' R; cbn [r_declarators] in R; [injection R as <- <- <- <-; split; [reflexivity|cbn; lia]|].
  destruct (r_declarator outer x number base d env j i) as [[[a1 e1] j1]|] eqn:R1; [|discriminate R]. destruct (r_declarators outer x number base l e1 j1 (S i)) as [[[[r e2] j2] i2]|] eqn:R2; [|discriminate R]. injection R as <- <- <- <-.
  destruct (IH _ _ _ _ _ _ _ R2) as [F ->]. split; [|cbn [length]; lia]. cbn [flat_map map]. rewrite F. change (numbered i (dcl_type base d :: map (dcl_type base) l)) with ((VLocal i, dcl_type base d) :: numbered (S i) (map (dcl_type base) l)).
  destruct d as [s n init]. cbn [r_declarator] in R1. destruct e1 as [|b1 e1]; destruct env as [|b up]; try discriminate R1; destruct (_ && _); try discriminate R1; destruct init as [[e|br]|]; try discriminate R1.
  all: try (destruct (scalar _); [|discriminate R1]; match type of R1 with match ?X with _ => _ end = _ => destruct X as [[c0 j0]|]; [|discriminate R1] end).
  all: match type of R1 with Some (?p, _, _) = _ => assert (E1 : a1 = p) by congruence end; subst a1; reflexivity.
Qed.
Lemma declaration_objects t l env j i a env' j' i' : r_declaration outer x number t l env j i = Some (a, env', j', i') ->
  flat_map act_objects a = numbered i (decl_types (x_type x) t l) /\ i' = (i + length (decl_types (x_type x) t l))%nat.
Proof. unfold r_declaration, decl_types. destruct (x_type x t) as [base|]; [|discriminate]. intros R. destruct (declarators_objects _ _ _ _ _ _ _ _ _ R) as [A B]. rewrite map_length. auto. Qed.
Lemma acts_objects l : body_objects (acts l) = flat_map act_objects l. Proof. destruct l; reflexivity. Qed.
Ltac bd R := match type of R with match ?X with _ => _ end = _ => let Q := fresh "Q" in destruct X as [?|] eqn:Q; [|discriminate R]; repeat match goal with p : (_ * _)%type |- _ => destruct p end end.
Ltac nil := match goal with R : Some _ = Some _ |- _ => injection R as <- <- <-; split; [reflexivity|cbn; lia] end.
Lemma objects_ok : (forall s env j i hs j' i', r_stmt outer x number s env j i = Some (hs, j', i') -> body_objects hs = numbered i (stmt_types (x_type x) s) /\ i' = (i + length (stmt_types (x_type x) s))%nat) /\
  (forall b env j i hs j' i', r_items outer x number b env j i = Some (hs, j', i') -> body_objects hs = numbered i (items_types (x_type x) b) /\ i' = (i + length (items_types (x_type x) b))%nat).
Proof.
  apply ss_items.
  - intros env j i hs j' i' R. cbn [r_stmt] in R. nil.
  - intros e env j i hs j' i' R. cbn [r_stmt] in R. bd R. nil.
  - intros b IH env j i hs j' i' R. exact (IH _ _ _ _ _ _ R).
  - intros c a IH env j i hs j' i' R. cbn [r_stmt] in R. bd R. bd R. injection R as <- <- <-. destruct (IH _ _ _ _ _ _ Q0) as [A B]. cbn [body_objects stmt_types]. rewrite app_nil_r. auto.
  - intros c a IHa b IHb env j i hs j' i' R. cbn [r_stmt] in R. bd R. bd R. bd R. injection R as <- <- <-. destruct (IHa _ _ _ _ _ _ Q0) as [A B]. destruct (IHb _ _ _ _ _ _ Q1) as [C D]. cbn [body_objects stmt_types]. rewrite numbered_app, app_length, A, C. subst. split; [reflexivity|lia].
  - intros c a IH env j i hs j' i' R. cbn [r_stmt] in R. bd R. bd R. injection R as <- <- <-. destruct (IH _ _ _ _ _ _ Q0) as [A B]. auto.
  - intros lo hi a IH env j i hs j' i' R. cbn [r_stmt] in R. bd R. bd R. bd R. injection R as <- <- <-. destruct (IH _ _ _ _ _ _ Q1) as [A B]. auto.
  - intros a IH env j i hs j' i' R. cbn [r_stmt] in R. bd R. injection R as <- <- <-. destruct (IH _ _ _ _ _ _ Q) as [A B]. auto.
  - intros f c inc a IH env j i hs j' i' R. cbn [r_stmt] in R. bd R. bd R. bd R. bd R. injection R as <- <- <-. destruct (IH _ _ _ _ _ _ Q2) as [A B]. cbn [body_objects stmt_types]. rewrite numbered_app, app_length, A.
    assert (F : flat_map act_objects l = numbered i (first_types (x_type x) f) /\ n = (i + length (first_types (x_type x) f))%nat).
    { destruct f as [|e|t l0]; cbn [r_first] in Q; [injection Q as <- <- <- <-; split; [reflexivity|cbn; lia]|bd Q; injection Q as <- <- <- <-; split; [reflexivity|cbn; lia]|]. exact (declaration_objects _ _ _ _ _ _ _ _ _ Q). }
    destruct F as [F ->]. rewrite F. split; [reflexivity|lia].
  - intros c a IH env j i hs j' i' R. cbn [r_stmt] in R. bd R. bd R. injection R as <- <- <-. destruct (IH _ _ _ _ _ _ Q0) as [A B]. auto.
  - intros a IH c env j i hs j' i' R. cbn [r_stmt] in R. bd R. bd R. injection R as <- <- <-. destruct (IH _ _ _ _ _ _ Q) as [A B]. auto.
  - intros a env j i hs j' i' R. discriminate R.
  - intros a env j i hs j' i' R. discriminate R.
  - intros l env j i hs j' i' R. cbn [r_stmt] in R. nil.
  - intros env j i hs j' i' R. cbn [r_stmt] in R. nil.
  - intros env j i hs j' i' R. cbn [r_stmt] in R. nil.
  - intros l a IH env j i hs j' i' R. cbn [r_stmt] in R. bd R. injection R as <- <- <-. destruct (IH _ _ _ _ _ _ Q) as [A B]. auto.
  - intros e env j i hs j' i' R. cbn [r_stmt] in R. bd R. nil.
  - intros env j i hs j' i' R. change (Some (HSkip, j, i) = Some (hs, j', i')) in R. nil.
  - intros s IHs r IHr env j i hs j' i' R. rewrite r_istmt in R. bd R. bd R. injection R as <- <- <-. destruct (IHs _ _ _ _ _ _ Q) as [A B]. destruct (IHr _ _ _ _ _ _ Q0) as [C D]. cbn [body_objects]. rewrite it_stmt, numbered_app, app_length, A, C. subst. split; [reflexivity|lia].
  - intros t l r IHr env j i hs j' i' R. rewrite r_idecl in R. bd R. bd R. injection R as <- <- <-. destruct (declaration_objects _ _ _ _ _ _ _ _ _ Q) as [A B]. destruct (IHr _ _ _ _ _ _ Q0) as [C D]. cbn [body_objects]. rewrite it_decl, acts_objects, numbered_app, app_length, A, C. subst. split; [reflexivity|lia].
Qed.
End Objects.

(** ** The state between declarations *)
Section Prog.
Variables (x : ctx) (number : bytes -> option (ty * Z)).
Hypothesis NUM : forall b t v, number b = Some (t, v) -> integer_constant b t v.
Hypothesis MEM : forall i, named (x_mems x i) = true.
Notation mk := (mk x).
Record fstate (ops : list ScopeModel.sop) (c : ScopeModel.chain) (e : Z -> ent) (nx : Z) (G : list (bytes * ent)) : Prop := {
  s_nest : ScopeSpec.nested ops 0 = true;
  s_do : ScopeModel.do_sops ops ScopeModel.chain0 = ScopeModel.SOk c;
  s_val : forall n z, In (ScopeModel.OpVar n z) ops -> z < nx;
  s_names : forall n, option_map e (ScopeSpec.visible (ScopeSpec.declares_var n) 0 (rev ops)) = assoc n G }.
Lemma find_ok ops c e nx G n : fstate ops c e nx G -> Z.of_nat (length ops) <= 20000000 -> find_ent (with_ctx x c e) n = assoc n G.
Proof.
  intros ST L. rewrite <- (s_names _ _ _ _ _ ST n). unfold find_ent. cbn [with_ctx x_scope x_ent]. destruct (ScopeProps.C23_innermost ops (s_nest _ _ _ _ _ ST) L) as (ch & D & FV & _). rewrite (s_do _ _ _ _ _ ST) in D. injection D as <-. rewrite FV. destruct (ScopeSpec.visible _ _ _); reflexivity.
Qed.
Lemma s_push ops c e nx G n v : fstate ops c e nx G -> Z.of_nat (length ops) + 1 <= 20000000 ->
  exists c', ScopeModel.do_sop (ScopeModel.OpVar n nx) c = ScopeModel.SOk c' /\ fstate (ops ++ [ScopeModel.OpVar n nx]) c' (fun y => if y =? nx then v else e y) (nx + 1) ((n, v) :: G).
Proof.
  intros ST L. assert (N : ScopeSpec.nested (ops ++ [ScopeModel.OpVar n nx]) 0 = true) by (rewrite ScopeProofs.nested_app, (s_nest _ _ _ _ _ ST); reflexivity). destruct (do_one ops _ c (s_do _ _ _ _ _ ST) N L) as (c' & D & D'). exists c'. split; [exact D|]. constructor; [exact N|exact D'| |].
  - intros m z I. apply in_app_or in I as [I|[I|[]]]; [pose proof (s_val _ _ _ _ _ ST _ _ I); lia|]. injection I as _ <-. lia.
  - intros m. rewrite rev_app_distr. cbn [rev app ScopeSpec.visible ScopeSpec.declares_var Nat.eqb assoc]. destruct (beq n m); [cbn [option_map]; now rewrite Z.eqb_refl|]. rewrite <- (s_names _ _ _ _ _ ST m). destruct (ScopeSpec.visible _ 0 (rev ops)) as [z|] eqn:Vz; [|reflexivity]. cbn [option_map]. apply visible_in in Vz. apply in_rev in Vz. pose proof (s_val _ _ _ _ _ ST _ _ Vz). replace (z =? nx) with false by lia. reflexivity.
Qed.
Definition kept (e : Z -> ent) (nx : Z) (e' : Z -> ent) (nx' : Z) : Prop := nx <= nx' /\ forall z, z < nx -> e' z = e z.
Lemma kept_new e nx v : kept e nx (fun y => if y =? nx then v else e y) (nx + 1).
Proof. split; [lia|]. intros z H. replace (z =? nx) with false by lia. reflexivity. Qed.
Lemma kept_trans e nx e1 nx1 e2 nx2 : kept e nx e1 nx1 -> kept e1 nx1 e2 nx2 -> kept e nx e2 nx2.
Proof. intros [A B] [C D]. split; [lia|]. intros z H. rewrite D by lia. now apply B. Qed.
Lemma push_ok ops c e nx G n v : fstate ops c e nx G -> Z.of_nat (length ops) + 1 <= 20000000 ->
  exists c' e', kept e nx e' (nx + 1) /\ (forall j k vs, push_ent n v (mk c e nx j k vs) = Some (mk c' e' (nx + 1) j k vs)) /\ fstate (ops ++ [ScopeModel.OpVar n nx]) c' e' (nx + 1) ((n, v) :: G).
Proof.
  intros ST L. destruct (s_push _ _ _ _ _ n v ST L) as (c' & D & ST'). exists c', (fun y => if y =? nx then v else e y). split; [apply kept_new|]. split; [|exact ST'].
  intros j k vs. unfold push_ent, BodyStatic.mk. cbn [b_ctx b_next b_str b_loc b_vars with_ctx x_scope x_ent]. rewrite D. reflexivity.
Qed.
Lemma new_local_ok ops c e nx G n t k : fstate ops c e nx G -> Z.of_nat (length ops) + 1 <= 20000000 ->
  exists c' e', kept e nx e' (nx + 1) /\ (forall j vs, new_lvar n t (mk c e nx j k vs) = Some (mk c' e' (nx + 1) j (S k) (vs ++ [k]))) /\ fstate (ops ++ [ScopeModel.OpVar n nx]) c' e' (nx + 1) ((n, EVar (VLocal k) t None) :: G).
Proof.
  intros ST L. destruct (s_push _ _ _ _ _ n (EVar (VLocal k) t None) ST L) as (c' & D & ST'). exists c', (fun y => if y =? nx then EVar (VLocal k) t None else e y). split; [apply kept_new|]. split; [|exact ST'].
  intros j vs. unfold new_lvar, BodyStatic.mk. cbn [b_ctx b_next b_str b_loc b_vars with_ctx x_scope x_ent]. rewrite D. reflexivity.
Qed.
Lemma params_ok ps : forall ops c e nx G, fstate ops c e nx G -> Z.of_nat (length ops + length ps) <= 20000000 ->
  exists c' e' nx' vs' d, (forall j, param_lvars ps (mk c e nx j 0 []) = Some (mk c' e' nx' j (length ps) vs')) /\ kept e nx e' nx' /\ fstate (ops ++ d) c' e' nx' (param_names ps ++ G) /\ ScopeSpec.block d /\ length d = length ps.
Proof.
  induction ps as [|[n t] ps IH]; intros ops c e nx G ST L; cbn [param_lvars param_names app length] in *.
  - exists c, e, nx, [], []. rewrite app_nil_r. split; [reflexivity|]. split; [split; [lia|reflexivity]|]. split; [exact ST|]. split; [split; reflexivity|reflexivity].
  - destruct (IH ops c e nx G ST ltac:(lia)) as (c1 & e1 & nx1 & vs1 & d1 & P & K & S1 & B & LD). destruct (new_local_ok _ _ _ _ _ n t (length ps) S1 ltac:(rewrite app_length; lia)) as (c2 & e2 & K2 & N & S2).
    exists c2, e2, (nx1 + 1), (vs1 ++ [length ps]), (d1 ++ [ScopeModel.OpVar n nx1]). split; [intros j; rewrite P, N; reflexivity|]. split; [exact (kept_trans _ _ _ _ _ _ K K2)|]. split; [rewrite app_assoc; exact S2|]. split; [apply block_app; [exact B|split; reflexivity]|]. rewrite app_length, LD. cbn [length]. lia.
Qed.
Lemma name_ok ops c e nx G j k vs s n : fstate ops c e nx G -> Z.of_nat (length ops) + 1 <= 20000000 ->
  exists c' e', kept e nx e' (nx + 1) /\ func_name s n (mk c e nx j k vs) = Some (mk c' e' (nx + 1) (S j) k vs) /\ fstate (ops ++ [ScopeModel.OpVar s nx]) c' e' (nx + 1) ((s, EVar (VGlobal (x_anon x j)) (TArr (TChar false) (Z.of_nat (length n) + 1)) None) :: G).
Proof.
  intros ST L. destruct (push_ok _ _ _ _ _ s (EVar (VGlobal (x_anon x j)) (TArr (TChar false) (Z.of_nat (length n) + 1)) None) ST L) as (c' & e' & K & P & ST'). exists c', e'. split; [exact K|]. split; [|exact ST'].
  unfold func_name. unfold BodyStatic.mk at 1 2. cbn [b_ctx b_str with_ctx x_anon]. change (BS (with_ctx x c e) nx j k vs) with (mk c e nx j k vs). rewrite P. reflexivity.
Qed.
Lemma enter_st ops c e nx G : fstate ops c e nx G -> Z.of_nat (length ops) + 1 <= 20000000 ->
  exists c', (forall j k vs, scope_op ScopeModel.OpEnter (mk c e nx j k vs) = Some (mk c' e nx j k vs)) /\ fstate (ops ++ [ScopeModel.OpEnter]) c' e nx G.
Proof.
  intros ST L. assert (N : ScopeSpec.nested (ops ++ [ScopeModel.OpEnter]) 0 = true) by (rewrite ScopeProofs.nested_app, (s_nest _ _ _ _ _ ST); reflexivity). destruct (do_one ops _ c (s_do _ _ _ _ _ ST) N L) as (c' & D & D'). exists c'. split.
  - intros j k vs. unfold scope_op, BodyStatic.mk. cbn [b_ctx b_next b_str b_loc b_vars with_ctx x_scope x_ent]. rewrite D. reflexivity.
  - constructor; [exact N|exact D'| |]; [intros n z I; apply in_app_or in I as [I|[I|[]]]; [exact (s_val _ _ _ _ _ ST _ _ I)|discriminate I]|]. intros n. rewrite rev_app_distr. cbn [rev app ScopeSpec.visible pred]. apply (s_names _ _ _ _ _ ST).
Qed.

(** ** Functions *)
Definition types_agree (ts : list ty) (VS : list nat) (type_of : nat -> ty) : Prop := forall i q, nth_error VS i = Some q -> type_of q = nth i ts TVoid.
Inductive made (h : hfun) (p : FrameModel.func * list ty) : Prop := Made (N : nat) (VS : list nat) (s : stmt) (type_of : nat -> ty) (ts : list ty) :
  FrameModel.f_name (fst p) = h_name h -> FrameModel.f_ret (fst p) = h_ret h -> map FrameModel.v_ty (FrameModel.f_params (fst p)) = h_params h -> FrameModel.f_variadic (fst p) = false ->
  (S (length (h_params h)) <= N)%nat -> FrameModel.f_vars (fst p) = map (fun q => FrameModel.plain (type_of q)) (rev (seq (S (length (h_params h))) (N - S (length (h_params h))))) ->
  FrameModel.f_body (fst p) = map_svars (position N) s -> mst true (S (length (h_params h))) VS N (h_ret h) (h_body h) s ->
  NoDup VS -> Forall (fun v => S (length (h_params h)) <= v < N)%nat VS ->
  body_objects (h_body h) = numbered (S (length (h_params h))) ts -> length ts = length VS -> types_agree ts VS type_of ->
  (forall q, (S (length (h_params h)) <= q < N)%nat -> ~ In q VS -> In (type_of q) (snd p)) -> made h p.
Lemma index_ok VS : NoDup VS -> forall i q, nth_error VS i = Some q -> index_of q VS = Some i.
Proof.
  induction 1 as [|v VS NI _ IH]; intros i q H; [destruct i; discriminate H|]. cbn [index_of]. destruct i as [|i]; cbn [nth_error] in H.
  - injection H as ->. now rewrite Nat.eqb_refl.
  - rewrite (IH _ _ H). destruct (Nat.eqb_spec v q) as [->|]; [|reflexivity]. exfalso. apply NI. eapply nth_error_In. exact H.
Qed.
Lemma names_local j f ps G n p t s : (forall n p t s, assoc n G <> Some (EVar (VLocal p) t s)) -> assoc n (fun_names x j f ps G) = Some (EVar (VLocal p) t s) -> (p < S (length ps))%nat.
Proof.
  intros H. unfold fun_names, own_names. cbn [app assoc]. destruct (beq _ n); [discriminate|]. destruct (beq _ n); [discriminate|]. destruct (beq _ n); [intros E; injection E as <- _ _; lia|].
  assert (P : forall l, (length l <= length ps)%nat -> assoc n (param_names l ++ G) = Some (EVar (VLocal p) t s) -> (p < S (length ps))%nat); [|apply P; lia].
  induction l as [|[m u] l IH]; intros L; cbn [param_names app assoc length] in *; [intros E; now apply H in E|]. destruct (beq m n); [intros E; injection E as <- _ _; lia|]. apply IH. lia.
Qed.
Lemma function_ok n ret ps G ts b hs j j' i' ops c e nx : fstate ops c e nx G -> (forall n p t s, assoc n G <> Some (EVar (VLocal p) t s)) ->
  blk C11 ts b -> (forall i, ~ In (KBrace i) ts) -> ~ In (KW WAsm) ts ->
  r_items (fun s => assoc s (fun_names x j n ps G)) x number b [[]] (S (S j)) (S (length ps)) = Some (hs, j', i') -> fine_stmt true ret hs = true ->
  Z.of_nat (length ops + (7 + length ps + items_size b)) <= 20000000 ->
  exists p c' e' nx' d, function_body n ret ps (ts ++ [KP RBrace]) (mk c e nx j 0 []) = Some (p, mk c' e' nx' j' 0 []) /\ fstate (ops ++ d) c' e' nx' G /\ (length d <= 7 + length ps + items_size b)%nat /\
    made (HF n ret (map snd ps) hs) p.
Proof.
  intros ST GL GB NB NA R F L. apply (proj2 c11_stmt) in GB; [|split; assumption]. destruct (C69_body_partial ts b [] GB) as (b' & P & SB). unfold same_block in SB.
  destruct (enter_st _ _ _ _ _ ST ltac:(lia)) as (c1 & E1 & S1). destruct (params_ok ps _ _ _ _ _ S1 ltac:(rewrite app_length; cbn [length]; lia)) as (c2 & e2 & nx2 & vs2 & d2 & E2 & K2 & S2 & B2 & L2).
  destruct (new_local_ok _ _ _ _ _ (bs "__alloca_size__") (TPtr (TChar false)) (length ps) S2 ltac:(rewrite !app_length; cbn [length]; lia)) as (c3 & e3 & K3 & E3 & S3).
  destruct (name_ok _ _ _ _ _ j (S (length ps)) (vs2 ++ [length ps]) (bs "__func__") n S3 ltac:(rewrite !app_length; cbn [length]; lia)) as (c4 & e4 & K4 & E4 & S4).
  destruct (name_ok _ _ _ _ _ (S j) (S (length ps)) (vs2 ++ [length ps]) (bs "__FUNCTION__") n S4 ltac:(rewrite !app_length; cbn [length]; lia)) as (c5 & e5 & K5 & E5 & S5).
  set (inner := d2 ++ [ScopeModel.OpVar (bs "__alloca_size__") nx2; ScopeModel.OpVar (bs "__func__") (nx2 + 1); ScopeModel.OpVar (bs "__FUNCTION__") (nx2 + 1 + 1)]) in *.
  replace (((((ops ++ [ScopeModel.OpEnter]) ++ d2) ++ [ScopeModel.OpVar (bs "__alloca_size__") nx2]) ++ [ScopeModel.OpVar (bs "__func__") (nx2 + 1)]) ++ [ScopeModel.OpVar (bs "__FUNCTION__") (nx2 + 1 + 1)]) with ((ops ++ [ScopeModel.OpEnter]) ++ inner) in S5 by (unfold inner; rewrite <- !app_assoc; reflexivity).
  assert (BI : ScopeSpec.block inner) by (apply block_app; [exact B2|split; reflexivity]). assert (LI : length inner = (3 + length ps)%nat) by (unfold inner; rewrite app_length, L2; cbn [length]; lia).
  assert (K : kept e nx e5 (nx2 + 1 + 1 + 1)) by exact (kept_trans _ _ _ _ _ _ (kept_trans _ _ _ _ _ _ (kept_trans _ _ _ _ _ _ K2 K3) K4) K5).
  destruct (enter_st _ _ _ _ _ S5 ltac:(rewrite !app_length; cbn [length]; lia)) as (c6 & E6 & S6). set (k0 := S (length ps)) in *. set (nx5 := nx2 + 1 + 1 + 1) in *.
  assert (W : wf k0 (((ops ++ [ScopeModel.OpEnter]) ++ inner) ++ [ScopeModel.OpEnter]) c6 nx5 k0 [] k0). { constructor; [apply S6|apply S6|apply S6|cbn; lia|lia|constructor|constructor]. }
  assert (A : agree k0 (fun s => assoc s (fun_names x j n ps G)) ((ops ++ [ScopeModel.OpEnter]) ++ inner) e5 k0 [] []).
  { intros VS _ s. cbn [denotes]. rewrite (s_names _ _ _ _ _ S5 s). change ((bs "__FUNCTION__", _) :: (bs "__func__", _) :: (bs "__alloca_size__", _) :: param_names ps ++ G) with (fun_names x j n ps G). destruct (assoc s (fun_names x j n ps G)) as [en|] eqn:AS; [|reflexivity]. cbn [option_map]. f_equal. destruct en as [v t sg| |]; try reflexivity. cbn [rn_ent]. destruct v as [p|g]; [|reflexivity]. pose proof (names_local _ _ _ _ _ _ _ _ GL AS). cbn [moved]. destruct (Nat.ltb_spec p k0); [reflexivity|lia]. }
  destruct (proj2 (stmts_ok true k0 x number (fun s => assoc s (fun_names x j n ps G)) ret NUM MEM) b b' [[]] (S (S j)) k0 hs j' i' _ c6 e5 nx5 k0 [] SB R F W (agree_enter _ _ _ _ _ _ _ A)) as (t & c7 & e7 & nx7 & k7 & vs7 & d7 & B & W7 & G7 & B7 & L7 & M); [rewrite !app_length; cbn [length]; lia|].
  destruct (leave_ok k0 x number ret NUM MEM ((ops ++ [ScopeModel.OpEnter]) ++ inner) d7 c7 nx7 k7 vs7 i' (s_nest _ _ _ _ _ S5) W7 B7) as (c8 & E8 & W8); [rewrite !app_length; cbn [length]; lia|].
  rewrite <- app_assoc in W8. pose proof (closed_block _ B7) as [B8 _]. pose proof (block_app _ _ BI B8) as B9.
  destruct (leave_ok k0 x number ret NUM MEM ops _ c8 nx7 k7 vs7 i' (s_nest _ _ _ _ _ ST) W8 B9) as (c9 & E9 & W9); [rewrite !app_length; cbn [length]; rewrite app_length; cbn [length]; lia|].
  eexists _, c9, e7, nx7, _. split; [|split; [|split]].
  - unfold function_body. rewrite E1, E2, E3, E4, E5. rewrite P. cbv zeta. unfold BodyStatic.mk at 1 2 3 4. cbn [b_ctx b_next b_str b_loc b_vars]. change (BS (with_ctx x c5 e5) nx5 (S (S j)) k0 []) with (mk c5 e5 nx5 (S (S j)) k0 []). rewrite E6, B. cbv beta iota. rewrite E8, E9. unfold BodyStatic.mk. cbn [b_ctx b_next b_str b_loc b_vars with_ctx x_type]. reflexivity.
  - constructor; [apply W9|apply W9| |].
    + exact (w_val _ _ _ _ _ _ _ W9).
    + intros s. rewrite rev_app_distr. destruct (closed_block _ B9) as [_ CL]. rewrite CL, <- (s_names _ _ _ _ _ ST s). destruct (ScopeSpec.visible _ 0 (rev ops)) as [z|] eqn:Vz; [|reflexivity]. cbn [option_map]. f_equal. apply visible_in in Vz. apply in_rev in Vz. pose proof (s_val _ _ _ _ _ ST _ _ Vz) as ZL. destruct K as [KN KE]. rewrite (g_e _ _ _ _ _ _ _ _ G7 z) by lia. now apply KE.
  - cbn [length]. rewrite !app_length. cbn [length]. rewrite app_length. cbn [length]. lia.
  - destruct (proj2 (objects_ok _ x number) _ _ _ _ _ _ _ R) as [OB OL]. pose proof (w_i _ _ _ _ _ _ _ W7) as WI. pose proof (proj2 (types_norm (x_type x)) b) as TN. rewrite <- SB, (proj2 (types_norm (x_type x)) b') in TN. rewrite <- TN in OB, OL.
    apply (Made _ _ k7 vs7 t (local_type (items_types (x_type x) b') vs7 t) (items_types (x_type x) b')); cbn [fst snd FrameModel.f_name FrameModel.f_ret FrameModel.f_params FrameModel.f_variadic FrameModel.f_vars FrameModel.f_body h_name h_ret h_params h_body]; rewrite ?map_length; try reflexivity.
    + rewrite map_map. reflexivity.
    + exact (w_k _ _ _ _ _ _ _ W7).
    + exact (M vs7 k7 (ext_refl _ _) (le_n _)).
    + exact (w_nd _ _ _ _ _ _ _ W7).
    + exact (w_vs _ _ _ _ _ _ _ W7).
    + exact OB.
    + lia.
    + intros i q H. unfold local_type. rewrite (index_ok _ (w_nd _ _ _ _ _ _ _ W7) _ _ H). reflexivity.
    + intros q Q NI. apply in_map. apply filter_In. split; [apply in_seq; lia|]. apply negb_true_iff. apply not_true_iff_false. intros EX. apply existsb_exists in EX as (v & I1 & EQ). apply Nat.eqb_eq in EQ. subst. contradiction.
Qed.

(** ** Programs *)
Definition global (G : list (bytes * ent)) : Prop := forall n p t s, assoc n G <> Some (EVar (VLocal p) t s).
Lemma global_cons n v G : global G -> (forall p t s, v <> EVar (VLocal p) t s) -> global ((n, v) :: G).
Proof. intros H N m p t s. cbn [assoc]. destruct (beq n m); [intros E; injection E as E; exact (N _ _ _ E)|apply H]. Qed.
Lemma declare_ok ops c e nx G n ret ps G' j k vs : fstate ops c e nx G -> global G -> Z.of_nat (length ops) + 1 <= 20000000 -> declares G n ret ps G' ->
  exists c' e' nx' d, declare n ret ps (mk c e nx j k vs) = Some (mk c' e' nx' j k vs) /\ fstate (ops ++ d) c' e' nx' G' /\ (length d <= 1)%nat /\ return_type n (mk c' e' nx' j k vs) = Some ret /\ global G'.
Proof.
  intros ST GL L D. unfold declare, return_type. unfold BodyStatic.mk at 1. cbn [b_ctx]. rewrite (find_ok _ _ _ _ _ n ST) by lia. destruct D as [D|D]; rewrite D.
  - destruct (push_ok _ _ _ _ _ n (func_ent n ret ps) ST L) as (c' & e' & _ & P & S'). exists c', e', (nx + 1), [ScopeModel.OpVar n nx]. split; [apply P|]. split; [exact S'|]. split; [cbn; lia|]. split.
    + unfold BodyStatic.mk. cbn [b_ctx]. rewrite (find_ok _ _ _ _ _ n S') by (rewrite app_length; cbn [length]; lia). cbn [assoc]. rewrite beq_refl. reflexivity.
    + apply global_cons; [exact GL|discriminate].
  - exists c, e, nx, []. rewrite app_nil_r. split; [reflexivity|]. split; [exact ST|]. split; [cbn; lia|]. split; [|exact GL]. unfold BodyStatic.mk. cbn [b_ctx]. rewrite (find_ok _ _ _ _ _ n ST) by lia. rewrite D. reflexivity.
Qed.
Lemma program_made G j ds hfs sz : program x number G j ds hfs sz -> forall ops c e nx, fstate ops c e nx G -> global G -> Z.of_nat (length ops + sz) <= 20000000 ->
  exists fs, externals ds (mk c e nx j 0 []) = Some fs /\ Forall2 made hfs fs.
Proof.
  induction 1 as [G j|G j n t ds fs sz N _ IH|G j n ret ps G' ds fs sz D _ IH|G j n ret ps G' ts b hs j' i' ds fs sz D B NB NA R F _ IH]; intros ops c e nx ST GL L; cbn [externals external].
  - exists []. split; [reflexivity|constructor].
  - destruct (push_ok _ _ _ _ _ n (EVar (VGlobal n) t None) ST ltac:(lia)) as (c' & e' & _ & P & S'). rewrite P. destruct (IH _ _ _ _ S' (global_cons n (EVar (VGlobal n) t None) _ GL ltac:(discriminate)) ltac:(rewrite app_length; cbn [length]; lia)) as (r & E & M). exists r. rewrite E. split; [reflexivity|exact M].
  - destruct (declare_ok _ _ _ _ _ n ret ps _ j 0%nat [] ST GL ltac:(lia) D) as (c' & e' & nx' & d & P & S' & LD & _ & GL'). rewrite P. destruct (IH _ _ _ _ S' GL' ltac:(rewrite app_length; lia)) as (r & E & M). exists r. rewrite E. split; [reflexivity|exact M].
  - destruct (declare_ok _ _ _ _ _ n ret (map snd ps) _ j 0%nat [] ST GL ltac:(lia) D) as (c1 & e1 & nx1 & d1 & P & S1 & L1 & RT & GL'). rewrite P, RT.
    destruct (function_ok n ret ps G' ts b hs j j' i' _ _ _ _ S1 GL' B NB NA R F ltac:(rewrite app_length; lia)) as (p & c2 & e2 & nx2 & d2 & P2 & S2 & L2 & M). rewrite P2.
    destruct (IH _ _ _ _ S2 GL' ltac:(rewrite !app_length; lia)) as (r & E & MR). rewrite E. exists (p :: r). split; [reflexivity|]. constructor; assumption.
Qed.
Lemma start_made ds hfs sz : program x number [] 0 ds hfs sz -> Z.of_nat sz <= 20000000 -> exists fs, externals ds (start x) = Some fs /\ Forall2 made hfs fs.
Proof.
  intros P L. refine (program_made _ _ _ _ _ P [] _ (x_ent x) 0 _ _ L); [|discriminate]. constructor; [reflexivity|reflexivity|intros n z []|reflexivity].
Qed.
End Prog.
