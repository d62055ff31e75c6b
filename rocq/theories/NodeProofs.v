From Verif Require Import Base TypeModel IntArith NodeModel ValSpec NodeSpec.
From Coq Require Import ZifyBool.
Local Notation length := List.length.

(** ** Induction over trees with argument lists *)
Section NodeInd.
Variable P : node -> Prop.
Hypothesis Hnull : P NNull.
Hypothesis Hnum : forall t v, P (NNum t v).
Hypothesis Hvar : forall x t, P (NVar x t).
Hypothesis Hmember : forall l i, P l -> P (NMember l i).
Hypothesis Hderef : forall l, P l -> P (NDeref l).
Hypothesis Haddr : forall l, P l -> P (NAddr l).
Hypothesis Hassign : forall l r, P l -> P r -> P (NAssign l r).
Hypothesis Hcomma : forall l r, P l -> P r -> P (NComma l r).
Hypothesis Hcast : forall t l, P l -> P (NCast t l).
Hypothesis Hcond : forall c a b, P c -> P a -> P b -> P (NCond c a b).
Hypothesis Hneg : forall t l, P l -> P (NNeg t l).
Hypothesis Hnot : forall l, P l -> P (NNot l).
Hypothesis Hbitnot : forall l, P l -> P (NBitNot l).
Hypothesis Hand : forall l r, P l -> P r -> P (NLogAnd l r).
Hypothesis Hor : forall l r, P l -> P r -> P (NLogOr l r).
Hypothesis Hbin : forall o t l r, P l -> P r -> P (NBin o t l r).
Hypothesis Hmemzero : forall x t, P (NMemzero x t).
Hypothesis Hcall : forall f args t, P f -> forall FA : Forall P args, P (NCall f args t).
Fixpoint node_induct (n : node) : P n :=
  match n with
  | NNull => Hnull
  | NNum t v => Hnum t v
  | NVar x t => Hvar x t
  | NMember l i => Hmember l i (node_induct l)
  | NDeref l => Hderef l (node_induct l)
  | NAddr l => Haddr l (node_induct l)
  | NAssign l r => Hassign l r (node_induct l) (node_induct r)
  | NComma l r => Hcomma l r (node_induct l) (node_induct r)
  | NCast t l => Hcast t l (node_induct l)
  | NCond c a b => Hcond c a b (node_induct c) (node_induct a) (node_induct b)
  | NNeg t l => Hneg t l (node_induct l)
  | NNot l => Hnot l (node_induct l)
  | NBitNot l => Hbitnot l (node_induct l)
  | NLogAnd l r => Hand l r (node_induct l) (node_induct r)
  | NLogOr l r => Hor l r (node_induct l) (node_induct r)
  | NBin o t l r => Hbin o t l r (node_induct l) (node_induct r)
  | NMemzero x t => Hmemzero x t
  | NCall f args t =>
      Hcall f args t (node_induct f)
        ((fix go (l : list node) : Forall P l :=
            match l with [] => Forall_nil P | a :: r => Forall_cons a (node_induct a) (go r) end) args)
  end.
End NodeInd.

(** The evaluation of an argument list *)
Definition evl (E : env) := fix evl (l : list node) (m : mem) {struct l} : option (list Z * mem) :=
  match l with
  | [] => Some ([], m)
  | a :: r => let* (vs, m) := evl r m in let* (v, m) := ev E false a m in Some (v :: vs, m)
  end.
Lemma ev_call E lv f args t m :
  ev E lv (NCall f args t) m =
  (if lv then None else
   let* (vs, m) := evl E args m in
   let* (fa, m) := ev E false f m in
   let* (v, m) := e_call E fa (map ntype args) t vs m in
   match t with TVoid => Some (0, m) | _ => if val_of t v then Some (v, m) else None end).
Proof.
  reflexivity.
Qed.

Global Arguments in_range : simpl never.
Global Arguments sx : simpl never.
Global Arguments Z.pow : simpl never.
Global Arguments Z.modulo : simpl never.

(** ** Ranges *)
Lemma int_repr_width t s n : int_repr t = Some (s, n) -> 0 < n <= 64.
Proof. destruct t; cbn; intros E; inversion E; subst; lia. Qed.
Lemma in_range_true s n z : 0 < n ->
  in_range s n z = true <-> (if s then - 2 ^ (n - 1) <= z < 2 ^ (n - 1) else 0 <= z < 2 ^ n).
Proof. intros. unfold in_range. destruct s; lia. Qed.
Lemma wrap_range (s : bool) n z : 0 < n -> in_range s n (if s then sx n z else z mod 2 ^ n) = true.
Proof.
  intros Hn. apply in_range_true; auto. destruct s; [now apply sx_range|apply mod_pow_range; lia].
Qed.
Lemma fit_val t z v : fit t z = Some v -> val_of t v = true.
Proof.
  unfold fit, val_of. destruct (int_repr t) as [(s, n)|] eqn:R; [|discriminate].
  pose proof (int_repr_width _ _ _ R). destruct s.
  - destruct (in_range true n z) eqn:I; intros X; inversion X; subst; auto.
  - intros X; inversion X; subst. apply (wrap_range false); lia.
Qed.
Lemma val_of_bool z : val_of (TInt false) (b2z z) = true.
Proof. destruct z; reflexivity. Qed.
Lemma same_repr_eq a b : same_repr a b = true -> exists p, int_repr a = Some p /\ int_repr b = Some p.
Proof.
  unfold same_repr. destruct (int_repr a) as [(s, w)|], (int_repr b) as [(s', w')|]; try discriminate.
  intros H. apply andb_true_iff in H as [H1 H2]. apply eqb_prop in H1. apply Z.eqb_eq in H2. subst. eauto.
Qed.
Lemma same_repr_sym a b : same_repr a b = true -> same_repr b a = true.
Proof. intros H. apply same_repr_eq in H as (p & A & B). unfold same_repr. rewrite A, B. destruct p. rewrite Z.eqb_refl. now destruct b0. Qed.
Lemma same_repr_val a b v : same_repr a b = true -> val_of a v = val_of b v.
Proof. intros H. apply same_repr_eq in H as (p & A & B). unfold val_of. now rewrite A, B. Qed.
Lemma same_repr_refl a p : int_repr a = Some p -> same_repr a a = true.
Proof. intros H. unfold same_repr. rewrite H. destruct p. rewrite Z.eqb_refl. now destruct b. Qed.

Lemma le_load_range m a n : 0 <= le_load m a n < 2 ^ (8 * Z.of_nat n).
Proof.
  revert a; induction n as [|n IH]; intros a; cbn [le_load].
  - cbn. lia.
  - specialize (IH (a + 1)). pose proof (Z.mod_pos_bound (m a) 256 ltac:(lia)).
    replace (8 * Z.of_nat (S n)) with (8 + 8 * Z.of_nat n) by lia. rewrite Z.pow_add_r by lia. change (2 ^ 8) with 256. lia.
Qed.
Lemma of_bytes_val t z v : of_bytes t z = Some v -> 0 <= z -> val_of t v = true.
Proof.
  unfold of_bytes, val_of. intros H Hz.
  destruct t; cbn in H |- *; try discriminate;
    try (inversion H; subst; clear H;
         match goal with
         | |- in_range ?s ?n _ = true => let X := fresh in pose proof (wrap_range s n z ltac:(lia)) as X; try destruct u; exact X
         end).
  destruct (z <? 2) eqn:E; inversion H; subst. apply in_range_true; [lia|]. change (2 ^ 1) with 2. lia.
Qed.

(** What the value of a node of type [t] looks like *)
Definition val_ok (lv : bool) (t : ty) (v : Z) : Prop :=
  if lv || is_aggregate t then 0 <= v < 2 ^ 64 else int_repr t <> None -> val_of t v = true.

Lemma aggregate_repr t : is_aggregate t = true -> int_repr t = None.
Proof. now destruct t. Qed.
Lemma load_val_ok valid t m a v : load_val valid t m a = Some v -> 0 <= a < 2 ^ 64 -> val_ok false t v.
Proof.
  unfold load_val, val_ok. cbn [orb]. destruct (is_aggregate t); [congruence|].
  destruct accessible; [|discriminate]. intros H _ _. eapply of_bytes_val; eauto. apply le_load_range.
Qed.
Lemma bf_get_range t o w z n s : int_repr t = Some (s, n) -> 0 < w <= n ->
  in_range s n (bf_get t o w z) = true.
Proof.
  intros R W. pose proof (int_repr_width _ _ _ R). unfold bf_get, bf_signed. rewrite R.
  apply in_range_true; [lia|]. destruct s.
  - pose proof (sx_range w (z / 2 ^ o mod 2 ^ w) ltac:(lia)).
    pose proof (Z.pow_le_mono_r 2 (w - 1) (n - 1) ltac:(lia) ltac:(lia)). lia.
  - pose proof (mod_pow_range w (z / 2 ^ o) ltac:(lia)). pose proof (Z.pow_le_mono_r 2 w n ltac:(lia) ltac:(lia)). lia.
Qed.
Lemma conv_ok t v w f : conv t v = Some w -> convertible f t = true -> (is_struct_union f = true -> 0 <= v < 2 ^ 64) -> val_ok false t w.
Proof.
  unfold val_ok. intros H C S. cbn [orb].
  destruct t; cbn [is_aggregate]; cbn in H |- *; try discriminate; try (now cbn);
    try (inversion H; subst; clear H; intros _; unfold val_of; cbn [int_repr]; 
         match goal with
         | |- in_range ?s ?n _ = true => let X := fresh in pose proof (wrap_range s n v ltac:(lia)) as X; try destruct u; exact X
         end).
  - inversion H; subst. intros _. destruct (v =? 0); reflexivity.
  - cbn in C. inversion H; subst. auto.
  - cbn in C. inversion H; subst. auto.
Qed.

Lemma aggr_addr lv t v : is_aggregate t = true -> val_ok lv t v -> 0 <= v < 2 ^ 64.
Proof. unfold val_ok. intros ->. now rewrite orb_true_r. Qed.
Lemma su_aggr t : is_struct_union t = true -> is_aggregate t = true. Proof. now destruct t. Qed.
Lemma val_ok_same lv a b v : same_repr a b = true -> val_ok lv a v -> val_ok lv b v.
Proof.
  intros S. pose proof (same_repr_eq _ _ S) as (p & A & B). unfold val_ok.
  assert (XA : is_aggregate a = false) by (destruct (is_aggregate a) eqn:E; auto; apply aggregate_repr in E; congruence).
  assert (XB : is_aggregate b = false) by (destruct (is_aggregate b) eqn:E; auto; apply aggregate_repr in E; congruence).
  rewrite XA, XB. destruct (lv || false); auto. intros H _. rewrite <- (same_repr_val _ _ _ S). apply H. congruence.
Qed.
Lemma val_ok_of t v : val_of t v = true -> val_ok false t v.
Proof. unfold val_ok. cbn [orb]. intros. destruct (is_aggregate t) eqn:A; auto. apply aggregate_repr in A. unfold val_of in H. rewrite A in H. discriminate. Qed.
Lemma val_ok_val t v p : int_repr t = Some p -> val_ok false t v -> val_of t v = true.
Proof.
  unfold val_ok. cbn [orb]. intros R. destruct (is_aggregate t) eqn:A; [apply aggregate_repr in A; congruence|].
  intros H. apply H. congruence.
Qed.
Lemma ptr_range b v : val_of (TPtr b) v = true -> 0 <= v < 2 ^ 64.
Proof. unfold val_of. cbn [int_repr]. intros. apply in_range_true in H; lia. Qed.
Lemma base_addr t v : has_base t = true -> val_ok false t v -> 0 <= v < 2 ^ 64.
Proof.
  intros B H. destruct t; try discriminate; try (eapply aggr_addr; [|exact H]; reflexivity).
  apply (ptr_range t). eapply val_ok_val; [|exact H]; reflexivity.
Qed.
Lemma bin_val_ok o t x y v : bin_val o t x y = Some v ->
  match o with Eq | Ne | Lt | Le => val_of (TInt false) v = true | _ => val_of t v = true end.
Proof.
  destruct o; cbn [bin_val]; intros H; try (eapply fit_val; eauto; fail); try (inversion H; apply val_of_bool).
  - destruct (y =? 0); [discriminate|]. eapply fit_val; eauto.
  - destruct (y =? 0); [discriminate|]. destruct (fit t (Z.quot x y)); [|discriminate]. eapply fit_val; eauto.
  - destruct (int_repr t) as [(s, n)|]; [|discriminate]. destruct ((0 <=? y) && _ && _); [|discriminate]. eapply fit_val; eauto.
  - destruct (int_repr t) as [(s, n)|]; [|discriminate]. destruct ((0 <=? y) && _); [|discriminate]. eapply fit_val; eauto.
Qed.

Lemma member_ok_bf t f o w : member_ok (MInfo t f (Some (o, w))) = true ->
  exists s n, int_repr t = Some (s, n) /\ 0 < w <= n /\ 0 <= o /\ o + w <= 8 * size_of t.
Proof.
  unfold member_ok. cbn [m_bf m_ty]. destruct (int_repr t) as [(s, n)|]; [|discriminate]. intros H. exists s, n. split; [reflexivity|lia].
Qed.

Ltac inv H := inversion H; subst; clear H.
Ltac opt H := match type of H with
  | match ?e with Some _ => _ | None => None end = Some _ => let E := fresh "E" in destruct e as [?|] eqn:E; [|discriminate H]
  | (if ?c then None else _) = Some _ => let E := fresh "E" in destruct c eqn:E; [discriminate H|]
  | (if ?c then _ else None) = Some _ => let E := fresh "E" in destruct c eqn:E; [|discriminate H]
  | (let (_, _) := ?p in _) = Some _ => destruct p
  | Some _ = Some _ => inversion H; subst; clear H
  end.
Ltac ands := repeat match goal with H : _ && _ = true |- _ => apply andb_true_iff in H as [? ?] end.

Theorem ev_val_ok E n : env_ok E -> forall lv m v m', well_typed n = true -> ev E lv n m = Some (v, m') -> val_ok lv (ntype n) v.
Proof.
  intros HE. induction n using node_induct; intros lv m0 v0 m' W H.
  - cbn in H. repeat opt H. intro X; now contradiction X.
  - cbn in H. repeat opt H. now apply val_ok_of.
  - cbn [ev] in H. destruct lv; repeat opt H.
    + apply HE.
    + eapply load_val_ok; eauto.
  - cbn [well_typed ntype] in *. ands. cbn [ev] in H. repeat opt H.
    set (a := (z + m_off i) mod 2 ^ 64) in *. assert (A: 0 <= a < 2 ^ 64) by (apply mod_pow_range; lia).
    destruct lv; [opt H; exact A|]. unfold member_ok in H0. destruct (m_bf i) as [(o, w)|].
    + repeat opt H. unfold load_bf in *. repeat opt E1.
      destruct (int_repr (m_ty i)) as [(s, nn)|] eqn:R; [|discriminate]. apply val_ok_of. unfold val_of. rewrite R.
      eapply bf_get_range; eauto. lia.
    + repeat opt H. eapply load_val_ok; eauto.
  - cbn [well_typed] in W. ands. cbn [ev] in H. repeat opt H. apply IHn in E0; auto.
    assert (A: 0 <= z < 2 ^ 64) by (eapply base_addr; eauto).
    destruct lv; repeat opt H; auto. eapply load_val_ok; eauto.
  - cbn [well_typed ev] in *. repeat opt H. apply IHn in H; auto. unfold val_ok in H. cbn in H.
    apply val_ok_of. unfold val_of. cbn [ntype]. destruct (ntype n); cbn [int_repr]; apply in_range_true; lia.
  - cbn [well_typed ntype] in *. ands. cbn [ev] in H. opt H. opt H. opt H. opt H. opt H.
    apply IHn1 in E1; auto. apply IHn2 in E2; auto.
    assert (X : (exists l' i o w, n1 = NMember l' i /\ m_bf i = Some (o, w)) \/
                (let* m := store_val (e_valid E) (ntype n1) m1 z z0 in Some (z0, m)) = Some (v0, m')).
    { destruct n1; auto. destruct m2 as [tt ff [(o, w)|]]; auto. left. do 4 eexists. split; reflexivity. }
    destruct X as [(l' & i & o & w & -> & BF)|X].
    + destruct i as [tt ff bf]. cbn in BF. subst bf. cbn [ntype m_ty] in *. repeat opt H.
      unfold store_bf in *. 
      assert (MO: member_ok (MInfo tt ff (Some (o, w))) = true) by (cbn [well_typed] in *; ands; assumption).
      apply member_ok_bf in MO as (s & nn & R & MO).
      assert (NS: is_struct_union tt = false) by (destruct tt; try reflexivity; discriminate R).
      destruct lv; [rewrite NS in E0; discriminate|].
      apply val_ok_of. unfold val_of. rewrite R. apply in_range_true; [lia|]. unfold bf_signed. rewrite R. destruct s.
      * pose proof (sx_range w z0 ltac:(lia)). pose proof (Z.pow_le_mono_r 2 (w - 1) (nn - 1) ltac:(lia) ltac:(lia)). lia.
      * pose proof (mod_pow_range w z0 ltac:(lia)). pose proof (Z.pow_le_mono_r 2 w nn ltac:(lia) ltac:(lia)). lia.
    + opt X. opt X. apply orb_true_iff in H1 as [S|S].
      * ands. unfold val_ok. rewrite (su_aggr _ H1), orb_true_r. eapply aggr_addr; [|exact E2]. now apply su_aggr.
      * assert (NS: is_struct_union (ntype n1) = false).
        { apply same_repr_eq in S as (p & S1 & _). now destruct (ntype n1). }
        destruct lv; [rewrite NS in E0; discriminate|].
        eapply val_ok_same; [|exact E2]. now apply same_repr_sym.
  - cbn [well_typed ntype ev] in *. ands. repeat opt H. eapply IHn2; eauto.
  - cbn [well_typed ntype ev] in *. repeat opt H. apply orb_false_iff in E0 as [-> C]. apply negb_false_iff in C.
    eapply conv_ok; eauto. intros S. eapply aggr_addr; [apply su_aggr, S|]. eapply IHn; eauto.
  - cbn [well_typed ev] in *. ands. opt H. opt H. opt H. apply orb_false_iff in E0 as [L _].
    assert (G: exists x mm, (x = n2 \/ x = n3) /\ ev E false x mm = Some (v0, m') ) by (destruct (truth z); eauto).
    destruct G as (x & mm & XX & EV).
    assert (VX: val_ok false (ntype x) v0) by (destruct XX; subst x; eauto).
    set (t := ntype (NCond n1 n2 n3)) in *.
    assert (T: t = TVoid \/ (same_repr t (ntype x) = true) \/ (is_struct_union t = true /\ is_struct_union (ntype x) = true)).
    { destruct t; auto; right;
        match goal with H : _ || _ = true |- _ => apply orb_true_iff in H as [S|S]; ands; [left|right]; destruct XX; subst x; auto end. }
    destruct T as [T|[T|[T1 T2]]].
    + rewrite T in *. destruct lv; [discriminate|]. unfold val_ok. cbn. intros NN. now contradiction NN.
    + destruct lv.
      * apply same_repr_eq in T as (p & T & _). destruct t; discriminate.
      * eapply val_ok_same; [|exact VX]. now apply same_repr_sym.
    + unfold val_ok. rewrite (su_aggr _ T1), orb_true_r. eapply aggr_addr; [apply su_aggr, T2|exact VX].
  - cbn [well_typed ntype ev] in *. repeat opt H. apply val_ok_of. eapply fit_val. unfold neg_val in *. eauto.
  - cbn [well_typed ntype ev] in *. repeat opt H. apply orb_false_iff in E0 as [-> _]. apply val_ok_of, val_of_bool.
  - cbn [well_typed ntype ev] in *. repeat opt H. apply val_ok_of. eapply fit_val. unfold bitnot_val in *. eauto.
  - cbn [well_typed ntype ev] in *. ands. opt H. opt H. opt H. apply orb_false_iff in E0 as [-> _].
    destruct (truth z); repeat opt H; apply val_ok_of; [apply val_of_bool|reflexivity].
  - cbn [well_typed ntype ev] in *. ands. opt H. opt H. opt H. apply orb_false_iff in E0 as [-> _].
    destruct (truth z); repeat opt H; apply val_ok_of; [reflexivity|apply val_of_bool].
  - cbn [well_typed ntype ev] in *. ands. repeat opt H. apply val_ok_of.
    pose proof (bin_val_ok _ _ _ _ _ E3) as B.
    destruct o; auto; ands; match goal with S : same_repr ?t (TInt false) = true |- _ => rewrite (same_repr_val _ _ _ S); exact B end.
  - cbn [well_typed ntype ev] in *. repeat opt H. intros N. now contradiction N.
  - rewrite ev_call in H. cbn [ntype well_typed] in *. ands. repeat opt H.
    destruct t; repeat opt H; try (apply val_ok_of; assumption). intros N. now contradiction N.
Qed.
