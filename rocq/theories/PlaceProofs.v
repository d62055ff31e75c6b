(** The elements of an initializer (InitSpec) are the parts that C66 gives an expression. *)
From Verif Require Import Base TypeModel IntArith NodeModel InitModel.
From Verif Require InitSpec InitProofs.
From Verif Require Import ListModel ListSpec ListProofs PlaceSpec.
From Coq Require Import ZifyBool ZifyNat.
Local Notation length := List.length.
Local Arguments Z.mul : simpl never.
Notation elements := InitSpec.elements.
Notation Elem := InitSpec.Elem.
Notation wf := InitSpec.wf.

(** ** The writes of an initializer: scalars and whole structs, none inside another *)
Definition leaf (s : nty) : Prop := match s with NScal _ | NStruct _ _ _ _ => True | _ => False end.
Definition tidy (T : nty) (ws : writes) : Prop :=
  (forall w e, In (w, e) ws -> exists s, sub T w = Some s /\ leaf s) /\ (forall w e e' r, In (w, e) ws -> In (w ++ r, e') ws -> r = []).
Lemma compat_cases : forall w R q t, compatible R w q = true -> sub R q = Some t -> (w = q /\ scalar t = true) \/ (forall r s, w ++ r <> q ++ s).
Proof.
  induction w as [|i w IH]; intros R q t C S.
  - destruct q; [|discriminate]. cbn in *. injection S as ->. auto.
  - destruct q as [|j q]; [discriminate|]. cbn in C, S. destruct (Nat.eqb_spec i j) as [->|N].
    + destruct (child R j) as [ct|]; [|discriminate]. destruct (IH ct q t C S) as [[-> H]|H]; [auto|]. right. intros r s E. injection E as E. apply (H r s E).
    + right. intros r s E. cbn in E. congruence.
Qed.
Lemma assigns_tidy : forall v, (forall t a, assigns v t = Some a -> tidy t a /\ (scalar t = true -> forall w e, In (w, e) a -> w = [])).
Proof.
  intros v. apply (ini_mut (fun v => forall t a, assigns v t = Some a -> tidy t a /\ (scalar t = true -> forall w e, In (w, e) a -> w = []))
    (fun l => forall R cur ws W, run R cur ws l = Some W -> tidy R ws -> tidy R W)).
  - intros e t a H. cbn [assigns] in H. destruct (fits t (VEx e) && _) eqn:EF; [|discriminate]. injection H as <-. split; [split|].
    + intros w x [E|[]]. injection E as <- <-. exists t. split; [reflexivity|]. destruct t; cbn in EF |- *; auto; discriminate.
    + intros w x x' r [E|[]] [E'|[]]. injection E as <- <-. injection E' as E' _. now destruct r.
    + intros _ w x [E|[]]. now injection E.
  - intros k vs e t a H. cbn [assigns] in H. destruct t as [t|b n|id zs al ms|id zs al ms]; try discriminate.
    + injection H as <-. split; [split|].
      * intros w x [E|[]]. injection E as <- <-. exists (NScal t). split; [reflexivity|exact I].
      * intros w x x' r [E|[]] [E'|[]]. injection E as <- <-. injection E' as E' _. now destruct r.
      * intros _ w x [E|[]]. now injection E.
    + destruct (chars b k && _) eqn:EC; [|discriminate]. injection H as <-. split; [split|discriminate].
      * intros w x IN. unfold letters in IN. apply in_map_iff in IN. destruct IN as ([i y] & E & IN). injection E as <- <-. apply in_combine_l in IN. apply in_seq in IN. cbn [sub child].
        destruct (i <? n)%nat eqn:EI; [|lia]. exists b. split; [reflexivity|]. destruct b; [exact I|discriminate EC|discriminate EC|discriminate EC].
      * intros w x x' r IN IN'. unfold letters in *. apply in_map_iff in IN. destruct IN as ([i y] & E & _). apply in_map_iff in IN'. destruct IN' as ([j y'] & E' & _). injection E as <- _. apply (f_equal (fun z => length (fst z))) in E'. cbn in E'. destruct r; [reflexivity|discriminate].
  - intros l IHl trail t a H. assert (G : run t (Some [O]) [] l = Some a -> tidy t a) by (intros RR; apply (IHl _ _ _ _ RR); split; intros; contradiction).
    cbn [assigns] in H. destruct t as [t|b n|id zs al ms|id zs al ms].
    + destruct l as [|[|d ds] v' [|ds2 v2 l2]]; try discriminate. destruct trail; [discriminate|].
      assert (X : run (NScal t) (Some []) [] (ICons [] v' INil) = Some (under [] a)).
      { cbn [run sub]. replace (descend v' (NScal t) []) with (Some (@nil nat)) by (destruct v'; reflexivity). cbn [sub forallb]. rewrite H. reflexivity. }
      assert (TA : tidy (NScal t) a) by (rewrite under_nil in X; apply (IHl _ _ _ _ X); split; intros; contradiction). split; [exact TA|].
      intros _ w e IN. destruct (proj1 TA w e IN) as (s & S & _). destruct w; [reflexivity|discriminate].
    + split; [|discriminate]. destruct l as [|ds v' l']; [discriminate|]. apply G. destruct ds; [|exact H]. destruct v'; try exact H. destruct l'; [|exact H]. destruct (chars b k); [discriminate|exact H].
    + split; [|discriminate]. destruct l as [|ds v' l']; [discriminate|]. apply G; exact H.
    + split; [|discriminate]. destruct l as [|ds v' l']; [discriminate|]. destruct (no_dsg l' && _); [|discriminate]. apply G; exact H.
  - intros R cur ws W H T. cbn in H. now injection H as <-.
  - intros ds v' IHv l IHl R cur ws W H TW. rewrite run_item in H. destruct (match ds with [] => cur | _ => _ end) as [p|]; [|discriminate]. destruct (sub R p) as [t|]; [|discriminate].
    unfold place in H. destruct (descend v' t p) as [q|]; [|discriminate]. destruct (sub R q) as [t'|] eqn:ES; [|discriminate]. destruct (assigns v' t') as [a|] eqn:EA; [|discriminate].
    destruct (forallb _ ws) eqn:EF; [|discriminate]. apply (IHl _ _ _ _ H). destruct (IHv _ _ EA) as [[L1 A1] SC]. destruct TW as [L0 A0]. rewrite forallb_forall in EF. split.
    + intros w e IN. apply in_app_iff in IN. destruct IN as [IN|IN]; [eapply L0, IN|]. unfold under in IN. apply in_map_iff in IN. destruct IN as ([w' e'] & E & IN). injection E as <- <-.
      destruct (L1 w' e' IN) as (s & S & LS). exists s. split; [now rewrite sub_app, ES|exact LS].
    + intros w e e' r IN IN'. apply in_app_iff in IN, IN'. unfold under in IN, IN'. rewrite in_map_iff in IN, IN'. destruct IN as [IN|([w1 e1] & E & IN)], IN' as [IN'|([w2 e2] & E' & IN')].
      * exact (A0 w e e' r IN IN').
      * injection E' as E' <-. destruct (compat_cases w R q t' (EF _ IN) ES) as [[-> SS]|D].
        -- rewrite (SC SS _ _ IN') in E'. apply app_inv_head in E'. now destruct r.
        -- destruct (D r w2). now rewrite E'.
      * injection E as <- <-. destruct (compat_cases _ R q t' (EF _ IN') ES) as [[E SS]|D].
        -- rewrite <- (app_nil_r q) in E at 2. rewrite <- app_assoc in E. apply app_inv_head in E. apply app_eq_nil in E. tauto.
        -- destruct (D [] (w1 ++ r)). now rewrite app_nil_r, app_assoc.
      * injection E as <- <-. injection E' as E' <-. rewrite <- app_assoc in E'. apply app_inv_head in E'. subst w2. exact (A1 w1 e1 e2 r IN IN').
Qed.
Lemma last_at_in ws p e : last_at ws p = Some e -> In (p, e) ws.
Proof.
  induction ws as [|[q x] ws IH]; cbn; [discriminate|]. destruct (last_at ws p) as [y|]; [intros H; right; now apply IH|]. destruct (list_eq_dec Nat.eq_dec q p) as [->|]; [|discriminate].
  intros H. left. congruence.
Qed.

(** ** Lists of children *)
Definition one (off mo : Z) (bf : option (Z * Z)) (mt : nty) (k : init) : list InitSpec.elem :=
  match bf with
  | Some b => match i_expr k with Some x => [Elem (off + mo) (Some b) (erase (ity_of mt)) x] | None => [] end
  | None => elements (ity_of mt) k (off + mo)
  end.
Lemma arr_in els zs e : forall n cs off, In e (InitProofs.arr_els els zs n cs off) <-> exists i k, (i < n)%nat /\ nth_error cs i = Some k /\ In e (els k (off + Z.of_nat i * zs)).
Proof.
  induction n as [|n IH]; intros cs off; [split; [destruct cs; intros []|intros (i & k & L & _); lia]|]. destruct cs as [|c cs]; [split; [intros []|intros (i & k & _ & E & _); now destruct i]|].
  cbn [InitProofs.arr_els]. rewrite in_app_iff, IH. split.
  - intros [H|(i & k & L & E & H)]; [exists O, c; split; [lia|]; split; [reflexivity|]; now rewrite Z.add_0_r|].
    exists (S i), k. split; [lia|]. split; [exact E|]. replace (off + Z.of_nat (S i) * zs) with (off + zs + Z.of_nat i * zs) by lia. exact H.
  - intros ([|i] & k & L & E & H); [left; cbn in E; injection E as ->; now rewrite Z.add_0_r in H|]. right. exists i, k. split; [lia|]. split; [exact E|].
    replace (off + zs + Z.of_nat i * zs) with (off + Z.of_nat (S i) * zs) by lia. exact H.
Qed.
Lemma mems_in off e : forall ms cs, In e (InitProofs.mems_els elements off (ity_mems ms) cs) <-> exists i mo bf mt k, mem_at ms i = Some (mo, bf, mt) /\ nth_error cs i = Some k /\ In e (one off mo bf mt k).
Proof.
  induction ms as [|x mo bf mt ms IH]; intros cs; [split; [intros []|intros (i & a & b & c & k & E & _); now destruct i]|].
  destruct cs as [|c cs]; [split; [destruct bf; intros []|intros (i & a & b & d & k & _ & E & _); now destruct i]|].
  assert (EQ : InitProofs.mems_els elements off (ity_mems (MCons x mo bf mt ms)) (c :: cs) = one off mo bf mt c ++ InitProofs.mems_els elements off (ity_mems ms) cs) by (destruct bf; reflexivity).
  rewrite EQ, in_app_iff, IH. split.
  - intros [H|(i & a & b & d & k & E & K & H)]; [exists O, mo, bf, mt, c; auto|exists (S i), a, b, d, k; auto].
  - intros ([|i] & a & b & d & k & E & K & H); cbn in E, K; [left; congruence|right; exists i, a, b, d, k; auto].
Qed.
Lemma pick_is off : forall ms cs k, InitProofs.pick_els elements off (ity_mems ms) cs k = match mem_at ms k, nth_error cs k with Some (mo, bf, mt), Some c => one off mo bf mt c | _, _ => [] end.
Proof.
  induction ms as [|x mo bf mt ms IH]; intros cs k; [destruct k; reflexivity|]. destruct cs as [|c cs]; [destruct k, bf; cbn; try reflexivity; destruct (mem_at ms k) as [[[? ?] ?]|]; reflexivity|].
  destruct k as [|k]; [destruct bf; reflexivity|]. cbn [mem_at nth_error]. rewrite <- IH. destruct bf; reflexivity.
Qed.
Lemma mem_at_child ms : forall i, m_nth ms i = match mem_at ms i with Some (_, _, mt) => Some mt | None => None end.
Proof. induction ms as [|x mo bf mt ms IH]; intros [|i]; cbn; auto. Qed.
Lemma mem_at_in ms : forall i mo bf mt, mem_at ms i = Some (mo, bf, mt) -> In (mo, bf, ity_of mt) (ity_mems ms).
Proof. induction ms as [|x a b c ms IH]; intros [|i] mo bf mt H; cbn in *; try discriminate; [left; congruence|right; eauto]. Qed.
Lemma wf_mem (t : nty) ms i mo bf mt : match t with NStruct _ _ _ m0 | NUnion _ _ _ m0 => m0 = ms | _ => False end -> wf (ity_of t) = true -> mem_at ms i = Some (mo, bf, mt) ->
  wf (ity_of mt) = true /\ (bf <> None -> exists s, mt = NScal s).
Proof.
  intros E W M. assert (IN := mem_at_in _ _ _ _ _ M).
  assert (F : forallb (fun m => wf (snd m)) (ity_mems ms) = true /\ exists zs, forallb (InitSpec.bf_member zs) (ity_mems ms) = true).
  { destruct t as [| |id zs al m0|id zs al m0]; try contradiction; subst m0; cbn [ity_of InitSpec.wf] in W; rewrite !andb_true_iff in W; split; try tauto; exists zs; tauto. }
  destruct F as [F1 [zs F2]]. rewrite forallb_forall in F1, F2. specialize (F1 _ IN). specialize (F2 _ IN). cbn in F1. split; [exact F1|].
  intros NB. destruct bf as [[bo bw]|]; [|congruence]. cbn [InitSpec.bf_member] in F2. rewrite !andb_true_iff in F2. destruct F2 as [_ F2]. destruct mt; cbn [ity_of] in F2; [eauto|discriminate|discriminate|discriminate].
Qed.

(** ** Elements *)
Section Elements.
Variables (T : nty) (c : init) (ws : writes).
Hypothesis H : holds T c ws.
Hypothesis TD : tidy T ws.
Definition assigned (t : nty) (q : list nat) (off : Z) (e : InitSpec.elem) : Prop :=
  exists p o bf ty x, spot t p = Some (o, bf, ty) /\ live t ws q p = true /\ last_at ws (q ++ p) = Some x /\ e = Elem (off + o) bf ty x.
Definition good (t : nty) : Prop := forall q d off, sub T q = Some t -> part c q = Some d -> wf (ity_of t) = true -> forall e, In e (elements (ity_of t) d off) <-> assigned t q off e.
Lemma at_part q t d : sub T q = Some t -> part c q = Some d -> i_expr d = last_at ws q /\ i_mem d = if union t then last_below ws q else None.
Proof. intros S D. destruct (H q t S) as (d' & D' & E & M). replace d with d' by congruence. auto. Qed.
Lemma kid_part q t d i b : sub T q = Some t -> part c q = Some d -> child t i = Some b -> exists k, nth_error (i_kids d) i = Some k /\ part c (q ++ [i]) = Some k /\ sub T (q ++ [i]) = Some b.
Proof.
  intros S D C. assert (SC : sub T (q ++ [i]) = Some b) by (rewrite sub_app, S; cbn; now rewrite C). destruct (H _ _ SC) as (k & K & _). exists k. split; [|auto].
  rewrite part_app, D in K. cbn in K. destruct (nth_error (i_kids d) i); congruence.
Qed.
Lemma one_in t ms q d i mo bf mt k off : match t with NStruct _ _ _ m0 | NUnion _ _ _ m0 => m0 = ms | _ => False end -> wf (ity_of t) = true -> sub T q = Some t -> part c q = Some d ->
  mem_at ms i = Some (mo, bf, mt) -> nth_error (i_kids d) i = Some k -> good mt -> forall e, In e (one off mo bf mt k) <->
  exists p o bf' ty x, spot t (i :: p) = Some (o, bf', ty) /\ live mt ws (q ++ [i]) p = true /\ last_at ws (q ++ i :: p) = Some x /\ e = Elem (off + o) bf' ty x.
Proof.
  intros ET W S D M K G e. destruct (wf_mem t ms i mo bf mt ET W M) as [WM BF].
  assert (C : child t i = Some mt) by (destruct t; try contradiction; subst ms; cbn [child]; rewrite mem_at_child, M; reflexivity).
  destruct (kid_part q t d i mt S D C) as (k' & K' & PK & SC). rewrite K in K'. injection K' as <-.
  assert (SP : forall p, spot t (i :: p) = match p with [] => Some (mo, bf, erase (ity_of mt)) | _ => match spot mt p with Some (o, bf, ty) => Some (mo + o, bf, ty) | None => None end end)
    by (intros p; destruct t; try contradiction; subst ms; cbn [spot]; rewrite M; reflexivity).
  unfold one. destruct bf as [b|].
  - destruct (BF ltac:(discriminate)) as [s ->]. destruct (at_part _ _ _ SC PK) as [EX _]. split.
    + destruct (i_expr k) as [x|] eqn:EK; [|intros []]. intros [<-|[]]. exists [], mo, (Some b), (erase (ity_of (NScal s))), x. rewrite SP. repeat split. now rewrite <- EX.
    + intros (p & o & bf' & ty & x & E & _ & L & ->). rewrite SP in E. destruct p as [|j p]; [|discriminate]. injection E as <- <- <-. rewrite EX, L. left. reflexivity.
  - rewrite (G (q ++ [i]) k (off + mo) SC PK WM e). unfold assigned. split.
    + intros (p & o & bf' & ty & x & E & LV & L & ->). exists p, (mo + o), bf', ty, x. rewrite <- app_assoc in L. split; [|split; [exact LV|split; [exact L|f_equal; lia]]].
      rewrite SP. destruct p as [|j p]; [cbn in E; injection E as <- <- <-; now rewrite Z.add_0_r|]. rewrite E. reflexivity.
    + intros (p & o & bf' & ty & x & E & LV & L & ->). rewrite SP in E. destruct p as [|j p].
      * injection E as <- <- <-. exists [], 0, None, (erase (ity_of mt)), x. rewrite <- app_assoc. repeat split; auto. f_equal. lia.
      * destruct (spot mt (j :: p)) as [[[o' b'] ty']|] eqn:EM; [|discriminate]. injection E as <- <- <-. exists (j :: p), o', b', ty', x. rewrite <- app_assoc. repeat split; auto. f_equal. lia.
Qed.
Lemma mem_kid t ms q d i mo bf mt : match t with NStruct _ _ _ m0 | NUnion _ _ _ m0 => m0 = ms | _ => False end -> sub T q = Some t -> part c q = Some d -> mem_at ms i = Some (mo, bf, mt) -> exists k, nth_error (i_kids d) i = Some k.
Proof.
  intros ET S D M. assert (C : child t i = Some mt) by (destruct t; try contradiction; subst ms; cbn [child]; rewrite mem_at_child, M; reflexivity).
  destruct (kid_part q t d i mt S D C) as (k & K & _). eauto.
Qed.
Lemma spot_mem t ms i p o bf ty : match t with NStruct _ _ _ m0 | NUnion _ _ _ m0 => m0 = ms | _ => False end -> spot t (i :: p) = Some (o, bf, ty) -> exists mo b mt, mem_at ms i = Some (mo, b, mt).
Proof. intros ET E. destruct t; try contradiction; subst ms; cbn [spot] in E; destruct (mem_at ms0 i) as [[[mo b] mt]|]; try discriminate; eauto. Qed.
Lemma no_leaf q t : sub T q = Some t -> ~ leaf t -> last_at ws q = None.
Proof. intros S N. destruct (last_at ws q) as [x|] eqn:L; [|reflexivity]. apply last_at_in in L. destruct (proj1 TD _ _ L) as (s & S' & LF). destruct N. congruence. Qed.
Lemma elements_are : forall t, good t.
Proof.
  intros t. apply (nty_mut good (fun ms => forall i mo bf mt, mem_at ms i = Some (mo, bf, mt) -> good mt)); clear t.
  - intros t q d off S D W e. destruct (at_part _ _ _ S D) as [EX _]. cbn [ity_of elements]. rewrite EX. unfold assigned. split.
    + destruct (last_at ws q) as [x|] eqn:L; [|intros []]. intros [<-|[]]. exists [], 0, None, t, x. rewrite app_nil_r. repeat split; auto. f_equal. lia.
    + intros (p & o & bf & ty & x & E & _ & L & ->). destruct p as [|i p]; [|discriminate]. cbn in E. injection E as <- <- <-. rewrite app_nil_r in L. rewrite L. left. f_equal. lia.
  - intros b G n q d off S D W e. cbn [ity_of InitSpec.wf] in *. rewrite InitProofs.elements_arr, arr_in. unfold assigned. split.
    + intros (i & k & L & K & IN). assert (C : child (NArr b n) i = Some b) by (cbn [child]; destruct (i <? n)%nat eqn:EI; [reflexivity|lia]).
      destruct (kid_part _ _ _ _ _ S D C) as (k' & K' & PK & SC). rewrite K in K'. injection K' as <-. rewrite (G _ _ _ SC PK W e) in IN. destruct IN as (p & o & bf & ty & x & E & LV & LA & ->).
      exists (i :: p), (Z.of_nat i * isize (ity_of b) + o), bf, ty, x. rewrite <- app_assoc in LA. cbn [spot live union andb]. destruct (i <? n)%nat eqn:EI; [|lia]. rewrite E, C. repeat split; auto. f_equal. lia.
    + intros (p & o & bf & ty & x & E & LV & LA & ->). destruct p as [|i p].
      * exfalso. rewrite app_nil_r in LA. rewrite (no_leaf q _ S) in LA by (intros []). discriminate.
      * cbn [spot live union andb] in E, LV. destruct (i <? n)%nat eqn:EI; [|discriminate]. destruct (spot b p) as [[[o' bf'] ty']|] eqn:ES; [|discriminate]. injection E as <- <- <-.
        assert (C : child (NArr b n) i = Some b) by (cbn [child]; now rewrite EI). rewrite C in LV.
        destruct (kid_part _ _ _ _ _ S D C) as (k & K & PK & SC). exists i, k. split; [lia|]. split; [exact K|]. apply (G _ _ _ SC PK W). exists p, o', bf', ty', x. rewrite <- app_assoc. repeat split; auto. f_equal. lia.
  - intros id zs al ms IHm q d off S D W e. destruct (at_part _ _ _ S D) as [EX _]. cbn [ity_of]. rewrite InitProofs.elements_struct, EX. unfold assigned. destruct (last_at ws q) as [x0|] eqn:L0.
    + split.
      * intros [<-|[]]. exists [], 0, None, (TStruct id zs al), x0. rewrite app_nil_r. repeat split; auto. f_equal. lia.
      * intros (p & o & bf & ty & x & E & LV & LA & ->). assert (PN : p = []) by (eapply (proj2 TD); [apply last_at_in, L0|apply last_at_in, LA]). subst p. rewrite app_nil_r, L0 in LA. cbn in E. injection LA as <-. injection E as <- <- <-. left. f_equal. lia.
    + rewrite mems_in. split.
      * intros (i & mo & bf & mt & k & M & K & IN). rewrite (one_in (NStruct id zs al ms) ms q d i mo bf mt k off eq_refl W S D M K (IHm _ _ _ _ M)) in IN. destruct IN as (p & o & bf' & ty & x & E & LV & LA & ->).
        exists (i :: p), o, bf', ty, x. split; [exact E|]. split; [|auto]. cbn [live union child andb]. rewrite mem_at_child, M. exact LV.
      * intros (p & o & bf & ty & x & E & LV & LA & ->). destruct p as [|i p]; [rewrite app_nil_r in LA; congruence|]. destruct (spot_mem (NStruct id zs al ms) ms i p _ _ _ eq_refl E) as (mo & b & mt & M).
        destruct (mem_kid (NStruct id zs al ms) ms q d i mo b mt eq_refl S D M) as [k K]. exists i, mo, b, mt, k. split; [exact M|]. split; [exact K|].
        apply (one_in (NStruct id zs al ms) ms q d i mo b mt k off eq_refl W S D M K (IHm _ _ _ _ M)). exists p, o, bf, ty, x. split; [exact E|]. split; [|auto]. cbn [live union child andb] in LV. rewrite mem_at_child, M in LV. exact LV.
  - intros id zs al ms IHm q d off S D W e. destruct (at_part _ _ _ S D) as [_ EM]. cbn [union] in EM. cbn [ity_of]. rewrite InitProofs.elements_union, EM. unfold assigned. destruct (last_below ws q) as [j|] eqn:LB.
    + rewrite pick_is. split.
      * destruct (mem_at ms j) as [[[mo bf] mt]|] eqn:M; [|intros []]. destruct (nth_error (i_kids d) j) as [k|] eqn:K; [|intros []].
        intros IN. rewrite (one_in (NUnion id zs al ms) ms q d j mo bf mt k off eq_refl W S D M K (IHm _ _ _ _ M)) in IN. destruct IN as (p & o & bf' & ty & x & E & LV & LA & ->).
        exists (j :: p), o, bf', ty, x. split; [exact E|]. split; [|auto]. cbn [live union child]. rewrite LB, Nat.eqb_refl. cbn [andb]. rewrite mem_at_child, M. exact LV.
      * intros (p & o & bf & ty & x & E & LV & LA & ->). destruct p as [|i p]; [exfalso; rewrite app_nil_r in LA; rewrite (no_leaf q _ S) in LA by (intros []); discriminate|].
        cbn [live union child] in LV. rewrite LB in LV. destruct (Nat.eqb_spec j i) as [->|]; [|discriminate]. cbn [andb] in LV.
        destruct (spot_mem (NUnion id zs al ms) ms i p _ _ _ eq_refl E) as (mo & b & mt & M). destruct (mem_kid (NUnion id zs al ms) ms q d i mo b mt eq_refl S D M) as [k K]. rewrite M, K.
        apply (one_in (NUnion id zs al ms) ms q d i mo b mt k off eq_refl W S D M K (IHm _ _ _ _ M)). exists p, o, bf, ty, x. split; [exact E|]. split; [|auto]. rewrite mem_at_child, M in LV. exact LV.
    + split; [intros []|]. intros (p & o & bf & ty & x & E & LV & LA & ->). destruct p as [|i p]; [exfalso; rewrite app_nil_r in LA; rewrite (no_leaf q _ S) in LA by (intros []); discriminate|].
      cbn [live union child] in LV. rewrite LB in LV. discriminate.
  - intros i mo bf mt M. destruct i; discriminate.
  - intros x off bf t Gt ms IHm i mo bf' mt M. destruct i as [|i]; cbn in M; [injection M as <- <- <-; exact Gt|eapply IHm, M].
Qed.
End Elements.

(** ** The trees are as the later stages expect them *)
Notation shapedI := InitSpec.shaped.
Lemma blank_blank t : InitSpec.blank (blank t) = true.
Proof.
  apply (nty_mut (fun t => InitSpec.blank (blank t) = true) (fun ms => forallb InitSpec.blank (blanks ms) = true)); cbn; auto.
  - intros b E n. induction n as [|n IH]; cbn; [reflexivity|now rewrite E].
  - intros x off bf t0 E ms E2. now rewrite E.
Qed.
Lemma blanks_shaped ms : (forall i mo bf mt, mem_at ms i = Some (mo, bf, mt) -> shapedI (ity_of mt) (blank mt) = true) -> InitProofs.shaped_list (ity_mems ms) (blanks ms) = true.
Proof.
  induction ms as [|x mo bf mt ms IH]; intros G; [reflexivity|]. cbn [ity_mems blanks InitProofs.shaped_list]. apply andb_true_iff. split; [apply (G O mo bf mt eq_refl)|].
  apply IH. intros i a b c M. apply (G (S i) a b c M).
Qed.
Lemma blank_shaped t : inhabited t = true -> shapedI (ity_of t) (blank t) = true.
Proof.
  apply (nty_mut (fun t => inhabited t = true -> shapedI (ity_of t) (blank t) = true) (fun ms => inhabited_all ms = true -> forall i mo bf mt, mem_at ms i = Some (mo, bf, mt) -> shapedI (ity_of mt) (blank mt) = true)); clear t.
  - reflexivity.
  - intros b IH n I. cbn [ity_of blank InitSpec.shaped i_kids]. rewrite repeat_length, Nat.eqb_refl. cbn [andb inhabited] in *. specialize (IH I). induction n as [|n IHn]; cbn; [reflexivity|now rewrite IH].
  - intros id zs al ms IH I. cbn [ity_of blank]. rewrite InitProofs.shaped_struct. cbn [i_kids]. apply blanks_shaped, IH, I.
  - intros id zs al ms IH I. cbn [inhabited] in I. apply andb_true_iff in I as [NE I]. cbn [ity_of blank]. rewrite InitProofs.shaped_union. cbn [i_kids i_mem]. rewrite (blanks_shaped ms (IH I)). cbn [andb].
    destruct ms as [|x mo bf mt ms]; [discriminate|]. cbn [ity_mems negb andb].
    clear. induction (MCons x mo bf mt ms) as [|y a b t ms' IH]; [reflexivity|]. cbn [blanks forallb]. now rewrite blank_blank.
  - intros _ i mo bf mt M. destruct i; discriminate.
  - intros x off bf t IHt ms IHm I i mo bf' mt M. cbn [inhabited_all] in I. apply andb_true_iff in I as [I1 I2]. destruct i as [|i]; cbn in M; [injection M as <- <- <-; auto|eapply IHm; eassumption].
Qed.
Lemma set_length l i k : length (set_nth l i k) = length l.
Proof. revert i. induction l as [|a l IH]; intros [|i]; cbn; auto. Qed.
Lemma shaped_list_nth ms : forall cs i ct k, InitProofs.shaped_list (ity_mems ms) cs = true -> m_nth ms i = Some ct -> nth_error cs i = Some k -> shapedI (ity_of ct) k = true.
Proof.
  induction ms as [|x mo bf mt ms IH]; intros cs i ct k SL M K; [discriminate|]. destruct cs as [|c cs]; [destruct i; discriminate|]. cbn [ity_mems InitProofs.shaped_list] in SL. apply andb_true_iff in SL as [S1 S2].
  destruct i as [|i]; cbn in M, K; [congruence|eapply IH; eassumption].
Qed.
Lemma shaped_list_set ms : forall cs i ct k, InitProofs.shaped_list (ity_mems ms) cs = true -> m_nth ms i = Some ct -> shapedI (ity_of ct) k = true -> InitProofs.shaped_list (ity_mems ms) (set_nth cs i k) = true.
Proof.
  induction ms as [|x mo bf mt ms IH]; intros cs i ct k SL M K; [discriminate|]. destruct cs as [|c cs]; [discriminate|]. cbn [ity_mems InitProofs.shaped_list] in SL. apply andb_true_iff in SL as [S1 S2].
  destruct i as [|i]; cbn in M |- *; apply andb_true_iff; [split; [congruence|exact S2]|split; [exact S1|eapply IH; eassumption]].
Qed.
Lemma forallb_nth {X} (f : X -> bool) l : forall i x, forallb f l = true -> nth_error l i = Some x -> f x = true.
Proof. intros i x F N. rewrite forallb_forall in F. apply F. eapply nth_error_In, N. Qed.
Lemma forallb_set f l : forall i (x : init), forallb f l = true -> f x = true -> forallb f (set_nth l i x) = true.
Proof. induction l as [|a l IH]; intros [|i] x F N; cbn in *; auto; apply andb_true_iff in F as [F1 F2]; apply andb_true_iff; auto. Qed.
Lemma len_mems ms : forall i ct, m_nth ms i = Some ct -> (i < length (ity_mems ms))%nat.
Proof. induction ms as [|x mo bf mt ms IH]; intros [|i] ct M; cbn in *; try discriminate; [lia|]. specialize (IH _ _ M). lia. Qed.
Lemma shaped_expr_ t k e : shapedI t k = true -> shapedI t (set_expr k e) = true.
Proof. destruct k as [e0 m0 cs]. destruct t; exact (fun x => x). Qed.
Lemma shaped_wr : forall p t k e s, shapedI (ity_of t) k = true -> sub t p = Some s -> shapedI (ity_of t) (wr t k p e) = true.
Proof.
  induction p as [|i p IH]; intros t k e s SH S; [apply shaped_expr_, SH|]. cbn [sub] in S. cbn [wr]. destruct (child t i) as [ct|] eqn:C; [|discriminate]. destruct (nth_error (i_kids k) i) as [k'|] eqn:K; [|exact SH].
  unfold upd. destruct k as [e0 m0 cs]. cbn [i_kids] in K. destruct t as [t|b n|id zs al ms|id zs al ms]; [discriminate| | |].
  - cbn [ity_of InitSpec.shaped i_kids] in *. apply andb_true_iff in SH as [L F]. rewrite set_length, L. cbn [andb]. cbn [child] in C. destruct (i <? n)%nat; [|discriminate]. injection C as <-.
    apply forallb_set; [exact F|]. eapply IH; [eapply forallb_nth; eassumption|exact S].
  - cbn [ity_of] in *. rewrite InitProofs.shaped_struct in *. cbn [i_kids child] in *. eapply shaped_list_set; [exact SH|exact C|]. eapply IH; [eapply shaped_list_nth; eassumption|exact S].
  - cbn [ity_of] in *. rewrite InitProofs.shaped_union in *. cbn [i_kids child i_mem union] in *. apply andb_true_iff in SH as [SL _]. apply andb_true_iff. split.
    + eapply shaped_list_set; [exact SL|exact C|]. eapply IH; [eapply shaped_list_nth; eassumption|exact S].
    + apply Nat.ltb_lt. eapply len_mems, C.
Qed.
Lemma shaped_A t ws : inhabited t = true -> Forall (fun '(q, _) => sub t q <> None) ws -> shapedI (ity_of t) (A t ws) = true.
Proof.
  intros I F. unfold A. assert (G : forall ws k, shapedI (ity_of t) k = true -> Forall (fun '(q, _) => sub t q <> None) ws -> shapedI (ity_of t) (wrs t k ws) = true).
  { clear. induction ws as [|[q e] ws IH]; intros k S F; [exact S|]. inversion F as [|? ? F1 F2]; subst. cbn. apply IH; [|exact F2]. destruct (sub t q) as [s|] eqn:E; [|congruence]. eapply shaped_wr; eassumption. }
  apply G; [now apply blank_shaped|exact F].
Qed.
Lemma clean_list ms : forall cs, no_bf_all ms = true -> (forall i ct k, m_nth ms i = Some ct -> no_bf ct = true -> InitSpec.clean (ity_of ct) k = true) ->
  (fix go (ms : list (Z * option (Z * Z) * ity)) (cs : list init) : bool :=
         match ms, cs with
         | (_, Some (_, w), _) :: ms, c :: cs => match i_expr c with Some _ => (w <? 64) && go ms cs | None => forallb InitSpec.blank cs end
         | (_, None, mt) :: ms, c :: cs => InitSpec.clean mt c && go ms cs
         | _, _ => true
         end) (ity_mems ms) cs = true.
Proof.
  induction ms as [|x mo bf mt ms IH]; intros cs NB G; [reflexivity|]. cbn [no_bf_all] in NB. rewrite !andb_true_iff in NB. destruct NB as [[NB1 NB2] NB3]. destruct bf; [discriminate|]. destruct cs as [|c cs]; [reflexivity|].
  cbn [ity_mems]. apply andb_true_iff. split; [apply (G O mt c eq_refl NB2)|]. apply IH; [exact NB3|]. intros i ct k M. apply (G (S i) ct k M).
Qed.
Lemma clean_pick ms : forall cs j, no_bf_all ms = true -> (forall i ct k, m_nth ms i = Some ct -> no_bf ct = true -> InitSpec.clean (ity_of ct) k = true) ->
  (fix pick (ms : list (Z * option (Z * Z) * ity)) (cs : list init) (k : nat) : bool :=
             match ms, cs, k with
             | (_, bf, mt) :: _, c :: _, O => match bf with Some _ => false | None => InitSpec.clean mt c end
             | _ :: ms, _ :: cs, S k => pick ms cs k
             | _, _, _ => true
             end) (ity_mems ms) cs j = true.
Proof.
  induction ms as [|x mo bf mt ms IH]; intros cs j NB G; [reflexivity|]. cbn [no_bf_all] in NB. rewrite !andb_true_iff in NB. destruct NB as [[NB1 NB2] NB3]. destruct bf; [discriminate|]. destruct cs as [|c cs]; [destruct j; reflexivity|].
  destruct j as [|j]; [apply (G O mt c eq_refl NB2)|]. apply IH; [exact NB3|]. intros i ct k M. apply (G (S i) ct k M).
Qed.
Lemma clean_no_bf t : no_bf t = true -> forall k, InitSpec.clean (ity_of t) k = true.
Proof.
  apply (nty_mut (fun t => no_bf t = true -> forall k, InitSpec.clean (ity_of t) k = true) (fun ms => forall i ct k, m_nth ms i = Some ct -> no_bf ct = true -> InitSpec.clean (ity_of ct) k = true)); clear t.
  - reflexivity.
  - intros b IH n NB k. cbn [ity_of InitSpec.clean]. apply forallb_forall. intros x _. apply IH, NB.
  - intros id zs al ms IH NB k. cbn [ity_of InitSpec.clean]. apply clean_list; [exact NB|exact IH].
  - intros id zs al ms IH NB k. cbn [ity_of InitSpec.clean]. destruct (i_mem k) as [j|]; [|reflexivity]. apply clean_pick; [exact NB|exact IH].
  - intros i ct k M. discriminate.
  - intros x off bf t IHt ms IHm i ct k M NB. destruct i as [|i]; cbn in M; [injection M as <-; now apply IHt|eapply IHm; eassumption].
Qed.
Lemma spot_sub : forall p t o bf ty, spot t p = Some (o, bf, ty) -> exists s, sub t p = Some s /\ ty = erase (ity_of s).
Proof.
  induction p as [|i p IH]; intros t o bf ty E; [cbn in *; exists t; split; [reflexivity|congruence]|].
  assert (M : forall ms, match mem_at ms i with Some (mo, bf, mt) => match p with [] => Some (mo, bf, erase (ity_of mt)) | _ => match spot mt p with Some (o, bf, ty) => Some (mo + o, bf, ty) | None => None end end | None => None end = Some (o, bf, ty) ->
     exists s, match m_nth ms i with Some t => sub t p | None => None end = Some s /\ ty = erase (ity_of s)).
  { intros ms E'. rewrite mem_at_child. destruct (mem_at ms i) as [[[mo b'] mt]|]; [|discriminate]. destruct p as [|j p]; [exists mt; split; [reflexivity|congruence]|].
    destruct (spot mt (j :: p)) as [[[o' bf'] ty']|] eqn:ES; [|discriminate]. injection E' as <- <- <-. eapply IH, ES. }
  destruct t as [t|b n|id zs al ms|id zs al ms]; cbn [spot sub child] in *; [discriminate| |apply M, E|apply M, E].
  destruct (i <? n)%nat; [|discriminate]. destruct (spot b p) as [[[o' bf'] ty']|] eqn:ES; [|discriminate]. injection E as <- <- <-. eapply IH, ES.
Qed.
Lemma wf_sub : forall p t s, wf (ity_of t) = true -> sub t p = Some s -> wf (ity_of s) = true.
Proof.
  induction p as [|i p IH]; intros t s W S; [cbn in S; congruence|]. cbn [sub] in S. destruct (child t i) as [ct|] eqn:C; [|discriminate]. eapply IH; [|exact S].
  destruct t as [t|b n|id zs al ms|id zs al ms]; cbn [child] in C; [discriminate| | |].
  - destruct (i <? n)%nat; [|discriminate]. injection C as <-. exact W.
  - rewrite mem_at_child in C. destruct (mem_at ms i) as [[[mo b'] mt]|] eqn:M; [|discriminate]. injection C as <-. apply (wf_mem (NStruct id zs al ms) ms i mo b' mt eq_refl W M).
  - rewrite mem_at_child in C. destruct (mem_at ms i) as [[[mo b'] mt]|] eqn:M; [|discriminate]. injection C as <-. apply (wf_mem (NUnion id zs al ms) ms i mo b' mt eq_refl W M).
Qed.
Lemma spot_no_bf : forall p t o bf ty, no_bf t = true -> spot t p = Some (o, bf, ty) -> bf = None.
Proof.
  assert (NB : forall ms i mo bf mt, no_bf_all ms = true -> mem_at ms i = Some (mo, bf, mt) -> bf = None /\ no_bf mt = true).
  { induction ms as [|x a b t ms IH]; intros i mo bf mt N M; [destruct i; discriminate|]. cbn [no_bf_all] in N. rewrite !andb_true_iff in N. destruct N as [[N1 N2] N3].
    destruct i as [|i]; cbn in M; [injection M as <- <- <-; destruct b; [discriminate|auto]|eapply IH; eassumption]. }
  induction p as [|i p IH]; intros t o bf ty N E; [cbn in E; congruence|].
  assert (M : forall ms, no_bf_all ms = true -> match mem_at ms i with Some (mo, bf, mt) => match p with [] => Some (mo, bf, erase (ity_of mt)) | _ => match spot mt p with Some (o, bf, ty) => Some (mo + o, bf, ty) | None => None end end | None => None end = Some (o, bf, ty) -> bf = None).
  { intros ms N' E'. destruct (mem_at ms i) as [[[mo b'] mt]|] eqn:EM; [|discriminate]. destruct (NB _ _ _ _ _ N' EM) as [-> N2]. destruct p as [|j p]; [congruence|].
    destruct (spot mt (j :: p)) as [[[o' bf'] ty']|] eqn:ES; [|discriminate]. injection E' as <- <- <-. eapply IH; eassumption. }
  destruct t as [t|b n|id zs al ms|id zs al ms]; cbn [spot no_bf] in *; [discriminate| |eapply M; eassumption|eapply M; eassumption].
  destruct (i <? n)%nat; [|discriminate]. destruct (spot b p) as [[[o' bf'] ty']|] eqn:ES; [|discriminate]. injection E as <- <- <-. eapply IH; eassumption.
Qed.
