(** The code of a function taken apart; the labels of a program. *)
From Verif Require Import Base TypeModel LayoutModel IntArith NodeModel NodeProofs ValSpec NodeSpec RvSpec GenModel GenSpec RvProofs GenArith GenBits GenRun GenProofs GenSim GenShape StmtSpec StmtModel StmtTree StmtProofs StmtCode FrameModel FrameSpec FunSpec.
From Coq Require Import ZifyBool ZifyNat.
Local Notation length := List.length.
Local Arguments Z.mul : simpl never.
Local Arguments Z.add : simpl never.
Local Arguments Z.sub : simpl never.

Definition prologue (f : func) (offs : list Z) (size : Z) : list instr :=
  Lab (LFun (f_name f)) :: push_code Ra ++ push_code Fp ++ [Mv Fp Sp] ++
  store_params 0 (combine (map v_ty (f_params f)) (skipn (param_ix f) offs)) ++
  (if beyond (- size) then [ILi T0 (- size); IOp ADD Sp Sp T0] else [IAddi Sp Sp (- size)]) ++
  [ILi T0 (nth (bottom_ix f) offs 0); IOp ADD T0 T0 Fp; IStore 8 Sp 0 T0].
Definition main_zero (f : func) : list instr := if beq (f_name f) (bs "main") then [ILi A0 0] else [].
Definition epilogue : list instr := Mv Sp Fp :: pop_code Fp ++ pop_code Ra.

Lemma compile_inv uses f u gs c u' gs' : compile_function uses f u gs = Some (c, u', gs') ->
  exists body offs size cb gs1 gs2, parse_body (f_ret f) uses (f_body f) u = Some (body, u') /\ frame f = Some (offs, size) /\
    gen_stmt (fun k => nth k offs 0) (f_name f) body gs1 = Some (cb, gs2) /\ g_cnt gs1 = g_cnt gs /\ g_cnt gs2 = g_cnt gs' /\
    f_variadic f = false /\ c = prologue f offs size ++ cb ++ main_zero f ++ Lab (LReturn (f_name f)) :: epilogue ++ [IRet].
Proof.
  unfold compile_function. intros H. destruct (parse_body (f_ret f) uses (f_body f) u) as [[body u1]|] eqn:PB; [|discriminate].
  destruct (frame f) as [[offs size]|] eqn:FR; [|discriminate]. destruct (emit_function f offs size body gs) as [[c1 gs3]|] eqn:EF; [|discriminate].
  injection H as <- <- <-. unfold emit_function in EF. destruct (f_variadic f) eqn:VA; [discriminate|]. cbn [orb] in EF.
  destruct (negb _); [discriminate|].
  apply seq_inv in EF as (c1' & s1 & r & E1 & EF & ->). apply emit_inv in E1 as [-> ->].
  apply seq_inv in EF as (c2 & s2 & r2 & E2 & EF & ->). pose proof (push_inv _ _ _ _ E2) as ->. assert (N2: g_cnt s2 = g_cnt gs) by (unfold push, seq_, emit, dep in E2; inversion E2; reflexivity). clear E2.
  apply seq_inv in EF as (c3 & s3 & r3 & E3 & EF & ->). pose proof (push_inv _ _ _ _ E3) as ->. assert (N3: g_cnt s3 = g_cnt s2) by (unfold push, seq_, emit, dep in E3; inversion E3; reflexivity). clear E3.
  apply seq_inv in EF as (c4 & s4 & r4 & E4 & EF & ->). apply emit_inv in E4 as [-> ->].
  apply seq_inv in EF as (c5 & s5 & r5 & E5 & EF & ->). apply emit_inv in E5 as [-> ->].
  apply seq_inv in EF as (c6 & s6 & r6 & E6 & EF & ->). apply emit_inv in E6 as [-> ->].
  apply seq_inv in EF as (c7 & s7 & r7 & E7 & EF & ->). apply emit_inv in E7 as [-> ->].
  apply seq_inv in EF as (cb & s8 & r8 & E8 & EF & ->).
  apply seq_inv in EF as (c9 & s9 & r9 & E9 & EF & ->). apply emit_inv in E9 as [-> ->].
  apply seq_inv in EF as (c10 & s10 & r10 & E10 & EF & ->). apply emit_inv in E10 as [-> ->].
  apply seq_inv in EF as (c11 & s11 & r11 & E11 & EF & ->). pose proof (pop_inv _ _ _ _ E11) as ->. assert (N11: g_cnt s11 = g_cnt s8) by (unfold pop, seq_, emit, dep in E11; inversion E11; reflexivity). clear E11.
  apply seq_inv in EF as (c12 & s12 & r12 & E12 & EF & ->). pose proof (pop_inv _ _ _ _ E12) as ->. assert (N12: g_cnt s12 = g_cnt s11) by (unfold pop, seq_, emit, dep in E12; inversion E12; reflexivity). clear E12.
  apply emit_inv in EF as [-> ->].
  exists body, offs, size, cb, s3, s8. split; [reflexivity|]. split; [reflexivity|]. split; [exact E8|]. split; [congruence|]. split; [congruence|]. split; [auto|].
  unfold prologue, epilogue, main_zero. cbn [app]. rewrite <- !app_assoc. cbn [app]. rewrite <- !app_assoc. cbn [app]. reflexivity.
Qed.

(** ** Labels *)
Lemma labels_app a b : labels (a ++ b) = labels a ++ labels b. Proof. apply flat_map_app. Qed.
Lemma labels_flat {X} (g : X -> list instr) l : (forall x, labels (g x) = []) -> labels (flat_map g l) = [].
Proof. intros H. induction l as [|x l IH]; [reflexivity|]. cbn [flat_map]. now rewrite labels_app, H, IH. Qed.
Lemma labels_store r o z : labels (store_args r o z) = [].
Proof.
  unfold store_args. destruct (beyond o); rewrite labels_app; destruct ((z =? 1) || (z =? 2) || (z =? 4) || (z =? 8)); cbn [labels flat_map app]; auto; apply labels_flat; reflexivity.
Qed.
Lemma labels_params ps : forall g, labels (store_params g ps) = [].
Proof. induction ps as [|[t o] ps IH]; intros g; cbn [store_params]; [reflexivity|]. destruct (0 <? o); auto. destruct (Nat.ltb g max_regs); auto. now rewrite labels_app, labels_store, IH. Qed.
Lemma labels_fun f offs size cb : labels (prologue f offs size ++ cb ++ main_zero f ++ Lab (LReturn (f_name f)) :: epilogue ++ [IRet]) = f_name f :: labels cb ++ [name (LReturn (f_name f))].
Proof.
  assert (L1: labels (if beyond (- size) then [ILi T0 (- size); IOp ADD Sp Sp T0] else [IAddi Sp Sp (- size)]) = []) by (destruct (beyond _); reflexivity).
  assert (L2: labels (main_zero f) = []) by (unfold main_zero; destruct (beq _ _); reflexivity).
  unfold prologue, epilogue. change (Lab (LFun (f_name f)) :: ?x) with ([Lab (LFun (f_name f))] ++ x). change (Lab (LReturn (f_name f)) :: ?x) with ([Lab (LReturn (f_name f))] ++ x). change (Mv Sp Fp :: ?x) with ([Mv Sp Fp] ++ x).
  rewrite !labels_app, labels_params, L2. clear L1 L2. destruct (beyond (- size)); reflexivity.
Qed.

(** The label is that of a function, numbered by count(), or numbered by new_unique_name *)
Definition label_in (f : func) (u u' n n' : Z) (l : label) : Prop :=
  l = f_name f \/ l = name (LReturn (f_name f)) \/ (exists k, l = name (LUniq k) /\ u <= k < u') \/ fresh n n' l.
Lemma numbered_dot x n : numbered x = Some n -> In 46 (name x).
Proof. destruct x; intros H; try discriminate; cbn; auto 10. Qed.
Lemma numbered_return x n g : numbered x = Some n -> name x <> name (LReturn g).
Proof. destruct x; intros H; try discriminate; cbn; intros X; discriminate. Qed.
Lemma return_dot g : In 46 (name (LReturn g)). Proof. cbn. auto 10. Qed.
Lemma return_inj f g : name (LReturn f) = name (LReturn g) -> f = g. Proof. cbn [name]. apply app_inv_head. Qed.
Definition kind_label (u u' n n' : Z) (l : label) : Prop := (exists k, l = name (LUniq k) /\ u <= k < u') \/ fresh n n' l.
Lemma kind_numbered u u' n n' l : kind_label u u' n n' l -> exists x k, numbered x = Some k /\ l = name x.
Proof. intros [(k & -> & _)|(x & k & -> & C & _)]; [exists (LUniq k), k; auto|exists x, k; split; [now apply counted_numbered|auto]]. Qed.
Lemma fun_labels uses f u gs c u' gs' : compile_function uses f u gs = Some (c, u', gs') -> 0 <= u -> 0 <= g_cnt gs -> dot_free (f_name f) ->
  NoDup (labels c) /\ u <= u' /\ g_cnt gs <= g_cnt gs' /\ forall l, In l (labels c) -> label_in f u u' (g_cnt gs) (g_cnt gs') l.
Proof.
  intros H U0 C0 DF. destruct (compile_inv _ _ _ _ _ _ _ H) as (body & offs & size & cb & gs1 & gs2 & PB & FR & GB & N1 & N2 & VA & ->). clear H.
  destruct (body_shape _ _ _ _ _ _ _ _ PB U0 gs1 cb gs2 GB ltac:(lia)) as (_ & ND & UU & NN & LB). rewrite N1, N2 in *. split; [|split; [exact UU|split; [exact NN|]]].
  - rewrite labels_fun. constructor.
    + rewrite in_app_iff. intros [I|[I|[]]].
      * apply LB in I. apply (kind_numbered u u' _ _) in I as (x & k & X & E). apply DF. rewrite E. eapply numbered_dot; eauto.
      * apply DF. rewrite <- I. apply return_dot.
    + apply NoDup_app_intro; [exact ND|repeat constructor; auto|]. intros l I [E|[]]. apply LB in I. apply (kind_numbered u u' _ _) in I as (x & k & X & E2). eapply numbered_return; [exact X|]. rewrite <- E2, <- E. reflexivity.
  - intros l I. rewrite labels_fun in I. destruct I as [<-|I]; [now left|]. apply in_app_iff in I as [I|[<-|[]]]; [|right; now left]. right; right. apply LB in I. exact I.
Qed.
Lemma kind_disjoint u u1 n n1 l : 0 <= u -> u <= u1 -> 0 <= n -> n <= n1 -> kind_label u u1 n n1 l -> forall u3 n3, kind_label u1 u3 n1 n3 l -> False.
Proof.
  intros U0 U1 N0 N1 A u3 n3 B. destruct A as [(k & -> & K)|(x & k & -> & X & K)], B as [(j & E & J)|(y & j & E & Y & J)].
  - pose proof (name_numbered_inj (LUniq k) (LUniq j) k j eq_refl eq_refl ltac:(lia) ltac:(lia) E) as Q. injection Q. lia.
  - pose proof (name_numbered_inj (LUniq k) y k j eq_refl (counted_numbered _ _ Y) ltac:(lia) ltac:(lia) E) as Q. subst y. discriminate.
  - pose proof (name_numbered_inj x (LUniq j) k j (counted_numbered _ _ X) eq_refl ltac:(lia) ltac:(lia) E) as Q. subst x. discriminate.
  - pose proof (name_numbered_inj x y k j (counted_numbered _ _ X) (counted_numbered _ _ Y) ltac:(lia) ltac:(lia) E) as Q. subst y. assert (k = j) by congruence. lia.
Qed.
Lemma program_labels uses fs : forall u gs p, compile_program uses fs u gs = Some p -> 0 <= u -> 0 <= g_cnt gs -> Forall (fun f => dot_free (f_name f)) fs -> NoDup (map f_name fs) ->
  NoDup (labels p) /\ forall l, In l (labels p) -> In l (map f_name fs) \/ (exists f, In f fs /\ l = name (LReturn (f_name f))) \/ exists u' n', kind_label u u' (g_cnt gs) n' l.
Proof.
  induction fs as [|f fs IH]; intros u gs p H U0 C0 DF ND; cbn [compile_program] in H.
  { injection H as <-. split; [constructor|easy]. }
  destruct (compile_function uses f u gs) as [[[c u1] gs1]|] eqn:CF; [|discriminate]. destruct (compile_program uses fs u1 gs1) as [r|] eqn:CP; [|discriminate]. injection H as <-.
  inversion DF as [|? ? D1 DF2]; subst. cbn [map] in ND. inversion ND as [|? ? N1 ND2]; subst.
  destruct (fun_labels _ _ _ _ _ _ _ CF U0 C0 D1) as (A1 & A2 & A3 & A4). destruct (IH _ _ _ CP ltac:(lia) ltac:(lia) DF2 ND2) as (B1 & B2).
  rewrite labels_app. split.
  - apply NoDup_app_intro; auto. intros l I J. apply A4 in I. apply B2 in J. rewrite Forall_forall in DF2.
    destruct I as [->|[->|I]].
    + destruct J as [J|[(g & G & E)|(u' & n' & K)]]; [now apply N1| |].
      * apply D1. rewrite E. apply return_dot.
      * apply kind_numbered in K as (x & k & X & E). apply D1. rewrite E. eapply numbered_dot; eauto.
    + destruct J as [J|[(g & G & E)|(u' & n' & K)]].
      * apply in_map_iff in J as (g & E & G). apply (DF2 g G). rewrite E. apply return_dot.
      * apply return_inj in E. apply N1. rewrite E. now apply in_map.
      * apply kind_numbered in K as (x & k & X & E). eapply numbered_return; [exact X|]. symmetry. exact E.
    + fold (kind_label u u1 (g_cnt gs) (g_cnt gs1) l) in I. destruct J as [J|[(g & G & ->)|(u' & n' & K)]].
      * apply in_map_iff in J as (g & <- & G). apply kind_numbered in I as (x & k & X & E). apply (DF2 g G). rewrite E. eapply numbered_dot; eauto.
      * apply kind_numbered in I as (x & k & X & E). eapply numbered_return; [exact X|]. symmetry. exact E.
      * eapply (kind_disjoint u u1 _ _ l); eauto.
  - intros l I. apply in_app_iff in I as [I|I].
    + apply A4 in I as [->|[->|I]]; [left; now left|right; left; exists f; split; [now left|auto]|right; right]. exists u1, (g_cnt gs1). exact I.
    + apply B2 in I as [I|[(g & G & E)|(u' & n' & K)]]; [left; now right|right; left; exists g; split; [now right|auto]|right; right]. exists u', n'.
      destruct K as [(k & E & K)|(x & k & E & X & K)]; [left; exists k; split; [auto|lia]|right; exists x, k; split; [auto|split; [auto|lia]]].
Qed.
Lemma program_at uses fs : forall u gs p, compile_program uses fs u gs = Some p -> forall f, In f fs -> exists u1 gs1 c u2 gs2 k, compile_function uses f u1 gs1 = Some (c, u2, gs2) /\ code_at p k c.
Proof.
  induction fs as [|g fs IH]; intros u gs p H f I; [easy|]. cbn [compile_program] in H.
  destruct (compile_function uses g u gs) as [[[c u1] gs1]|] eqn:CF; [|discriminate]. destruct (compile_program uses fs u1 gs1) as [r|] eqn:CP; [|discriminate]. injection H as <-.
  destruct I as [->|I].
  - exists u, gs, c, u1, gs1, 0%nat. split; auto. exists [], r. auto.
  - destruct (IH _ _ _ CP f I) as (v & gv & d & v2 & gv2 & k & A & (p1 & p2 & -> & L)). exists v, gv, d, v2, gv2, (length c + k)%nat. split; auto. exists (c ++ p1), p2. rewrite app_length, <- app_assoc. auto.
Qed.
