(** Values of expressions with float and double; composing fragments of code. *)
From Verif Require Import Base TypeModel IntArith NodeModel NodeProofs ValSpec NodeSpec FpSpec RvSpec GenModel GenSpec RvProofs GenArith GenBits GenRun GenBytes GenProofs GenSim FloatSpec.
From Coq Require Import ZifyBool ZifyNat.
Local Notation length := List.length.

Lemma flo_fmt t : flo t = fmt_of t. Proof. reflexivity. Qed.
Lemma float_fmt t : is_float t = false -> fmt_of t = None. Proof. now destruct t. Qed.
Lemma repr_fmt t p : int_repr t = Some p -> fmt_of t = None. Proof. now destruct t. Qed.
Lemma repr_float t p : int_repr t = Some p -> is_float t = false. Proof. now destruct t. Qed.
Lemma fmt_size t f : fmt_of t = Some f -> size_of t = width f / 8. Proof. destruct t; try discriminate; intros H; injection H as <-; reflexivity. Qed.
Lemma fmt_repr t f : fmt_of t = Some f -> int_repr t = None. Proof. now destruct t. Qed.
Lemma fmt_eqb_eq a b : fmt_eqb a b = true -> a = b. Proof. destruct a, b; auto; discriminate. Qed.

(** ** Values *)
Definition fin (f : fmt) (v : Z) : Prop := 0 <= v < 2 ^ width f.
Lemma encode_in f x : fin f (encode f x). Proof. unfold fin, encode. apply Z.mod_pos_bound. destruct f; reflexivity. Qed.
Lemma fop_in o f x y : fin f (fop o f x y). Proof. apply encode_in. Qed.
Lemma fof_in f x : fin f (fof f x). Proof. apply encode_in. Qed.
Lemma fconv_in f g x : fin g (fconv f g x). Proof. apply encode_in. Qed.
Lemma fneg_in f x : fin f (fneg f x). Proof. unfold fin, fneg. apply Z.mod_pos_bound. destruct f; reflexivity. Qed.
Lemma unbox_box f v : fin f v -> unbox f (box f v) = v.
Proof.
  unfold fin. intros H. destruct f; cbn [width] in H; cbn [unbox box].
  - rewrite Z.div_add by lia. rewrite (Z.div_small (v mod 2 ^ 32)) by (apply Z.mod_pos_bound; lia). rewrite Z.add_0_l, Z.eqb_refl.
    rewrite Z.mod_add by lia. rewrite Z.mod_mod by lia. apply Z.mod_small. lia.
  - apply Z.mod_small. lia.
Qed.
Lemma unbox_in f r : 0 <= r < 2 ^ 64 -> fin f (unbox f r).
Proof.
  unfold fin. intros H. destruct f; cbn [width unbox]; auto. destruct (_ =? _); [apply Z.mod_pos_bound; lia|]. split; [vm_compute; discriminate|vm_compute; reflexivity].
Qed.
Lemma box_in f v : 0 <= box f v < 2 ^ 64.
Proof.
  destruct f; cbn [box]; [|apply Z.mod_pos_bound; lia]. pose proof (Z.mod_pos_bound v (2 ^ 32) ltac:(lia)). change (2 ^ 64) with (2 ^ 32 * 2 ^ 32). lia.
Qed.
Lemma box_mod f v : box f v mod 2 ^ width f = v mod 2 ^ width f.
Proof. destruct f; cbn [box width]; [rewrite Z.mod_add by lia|]; apply Z.mod_mod; lia. Qed.

Definition fval_ok (lv : bool) (t : ty) (v : Z) : Prop :=
  match (if lv then None else fmt_of t) with Some f => fin f v | None => val_ok lv t v end.
Lemma fval_int lv t v : fmt_of t = None -> fval_ok lv t v = val_ok lv t v.
Proof. unfold fval_ok. intros ->. now destruct lv. Qed.
Lemma fval_addr t v : fval_ok true t v -> 0 <= v < 2 ^ 64. Proof. auto. Qed.
Lemma fload_ok valid t m a v : fload valid t m a = Some v -> 0 <= a < 2 ^ 64 -> fval_ok false t v.
Proof.
  unfold fload, fval_ok. destruct (fmt_of t) as [f|] eqn:F; [|apply load_val_ok]. destruct accessible; [|discriminate]. intros H _. injection H as <-.
  pose proof (le_load_range m a (Z.to_nat (size_of t))) as R. rewrite (fmt_size t f F) in *. unfold fin. destruct f; exact R.
Qed.
Lemma fval_same a b v : fsame a b = true -> fval_ok false a v -> fval_ok false b v.
Proof.
  unfold fsame, fval_ok. destruct (fmt_of a) as [f|], (fmt_of b) as [g|]; try discriminate.
  - intros E. apply fmt_eqb_eq in E. now subst.
  - intros S. now apply val_ok_same.
Qed.
Lemma fsame_sym a b : fsame a b = true -> fsame b a = true.
Proof. unfold fsame. destruct (fmt_of a) as [[]|], (fmt_of b) as [[]|]; auto. apply same_repr_sym. Qed.
Lemma fsame_fmt a b : fsame a b = true -> fmt_of a = fmt_of b.
Proof. unfold fsame. destruct (fmt_of a) as [[]|], (fmt_of b) as [[]|]; auto; discriminate. Qed.
Lemma fsame_int a b : fsame a b = true -> fmt_of a = None -> same_repr a b = true.
Proof. unfold fsame. intros H N. rewrite N in H. destruct (fmt_of b); [discriminate|auto]. Qed.
Lemma fval_of t v : val_of t v = true -> fval_ok false t v.
Proof. intros V. rewrite fval_int; [now apply val_ok_of|]. unfold val_of in V. destruct (int_repr t) eqn:R; [eapply repr_fmt; eauto|discriminate]. Qed.
Lemma fcast_val s t v w : fcast s t v = Some w -> fval_ok false s v -> fval_ok false t w.
Proof.
  unfold fcast. intros H V. destruct (fmt_of s) as [f|] eqn:F, (fmt_of t) as [g|] eqn:G.
  - unfold fval_ok in *. rewrite F in V. rewrite G. destruct (fmt_eqb f g) eqn:EQ; injection H as <-; [apply fmt_eqb_eq in EQ; now subst|apply fconv_in].
  - assert (X : (t = TVoid /\ w = 0) \/ (t = TBool /\ exists b, w = b2z b) \/ exists s0 n z, int_repr t = Some (s0, n) /\ in_range s0 n z = true /\ w = z).
    { destruct t; try discriminate H; try (left; split; [reflexivity|congruence]); try (right; left; split; [reflexivity|eexists; injection H as <-; reflexivity]);
        right; right; cbn [int_repr] in H |- *; destruct (ftrunc f v) as [z|]; try discriminate H;
        match type of H with (if in_range ?a ?b ?c then _ else _) = _ => destruct (in_range a b c) eqn:R; [|discriminate]; exists a, b, c end; repeat split; auto; congruence. }
    destruct X as [[-> ->]|[[-> [b ->]]|(s0 & n & z & R & I & ->)]].
    + intros X. now contradiction X.
    + apply fval_of. now destruct b.
    + apply fval_of. unfold val_of. now rewrite R.
  - unfold fval_ok. rewrite G. assert (w = fof g v) as -> by (destruct s; try discriminate H; cbn [int_repr] in H; congruence). apply fof_in.
  - destruct (convertible s t) eqn:C; [|discriminate]. rewrite fval_int in * by auto. eapply conv_ok; eauto.
    intros S. apply (aggr_addr false s); auto. now apply su_aggr.
Qed.
Lemma fbin_ok o t tl tr f x y v : fmt_of tl = Some f -> fbin_val o f x y = Some v ->
  match o with
  | Eq | Ne | Lt | Le => fsame tl tr && same_repr t (TInt false)
  | Shl | Shr => same_repr t tl && match int_repr tr with Some _ => true | None => false end
  | Sub => fsame t tl && fsame t tr || (same_repr t (TLong false) && has_base tl && has_base tr)
  | _ => fsame t tl && fsame t tr
  end = true -> fval_ok false t v /\ (match o with Eq | Ne | Lt | Le => fmt_of t = None | _ => fmt_of t = Some f end) /\ fmt_of tr = Some f.
Proof.
  intros F B T.
  assert (CM : forall b, fsame tl tr && same_repr t (TInt false) = true -> fval_ok false t (b2z b) /\ fmt_of t = None /\ fmt_of tr = Some f).
  { intros b H. apply andb_true_iff in H as [H1 H2]. pose proof (same_repr_eq _ _ H2) as (p & R & _). split; [|split; [eapply repr_fmt; eauto|rewrite <- (fsame_fmt _ _ H1); auto]].
    rewrite fval_int by (eapply repr_fmt; eauto). apply (val_ok_same false (TInt false)); [now apply same_repr_sym|]. apply val_ok_of. now destruct b. }
  assert (AR : forall oo, fsame t tl && fsame t tr = true -> fval_ok false t (fop oo f x y) /\ fmt_of t = Some f /\ fmt_of tr = Some f).
  { intros oo H. apply andb_true_iff in H as [H1 H2]. apply fsame_fmt in H1, H2. split; [|split; congruence]. unfold fval_ok. replace (fmt_of t) with (Some f) by congruence. apply fop_in. }
  destruct o; cbn [fbin_val] in B; try discriminate; injection B as <-; auto.
  apply orb_true_iff in T as [T|T]; auto. apply andb_true_iff in T as [T _]. apply andb_true_iff in T as [_ T]. destruct tl; discriminate.
Qed.
Lemma int_only_type n : int_only n = true -> is_float (ntype n) = false.
Proof. intros H. destruct n; cbn [int_only] in H; apply andb_true_iff in H as [H _]; now apply negb_true_iff in H. Qed.

Ltac inon n H := destruct (int_only n) eqn:H.
Theorem fev_ok E n : env_ok E -> forall lv m v m', fwell_typed n = true -> fev E lv n m = Some (v, m') -> fval_ok lv (ntype n) v.
Proof.
  intros HE.
  assert (INT : forall n lv m v m', int_only n = true -> well_typed n = true -> ev E lv n m = Some (v, m') -> fval_ok lv (ntype n) v).
  { intros n0 lv m v m' IO WT EV. rewrite fval_int by (apply float_fmt, int_only_type; auto). eapply ev_val_ok; eauto. }
  induction n using node_induct; intros lv m0 v0 m' WT H; cbn [fwell_typed fev] in WT, H;
    match type of H with (if int_only ?n then _ else _) = _ => destruct (int_only n) eqn:IO; [eapply INT; eauto|] end.
  - discriminate.
  - destruct lv; [discriminate|]. opt H. unfold fval_ok. cbn [ntype]. rewrite E0. opt H. injection H as <- <-. unfold fval in E1. unfold fin. lia.
  - destruct lv; [injection H as <- <-; apply HE|]. opt H. injection H as <- <-. eapply fload_ok; eauto.
  - apply andb_true_iff in WT as [MO WT]. opt H. opt H. set (a := (z + m_off i) mod 2 ^ 64) in *. assert (A: 0 <= a < 2 ^ 64) by (apply mod_pow_range; lia).
    destruct lv; [injection H as <- <-; exact A|]. destruct (m_bf i); [discriminate|]. opt H. injection H as <- <-. eapply fload_ok; eauto.
  - apply andb_true_iff in WT as [HB WT]. opt H. opt H. apply IHn in E0; auto.
    assert (A: 0 <= z < 2 ^ 64) by (rewrite fval_int in E0 by (destruct (ntype n); auto; discriminate HB); eapply base_addr; eauto).
    destruct lv; [injection H as <- <-; exact A|]. opt H. injection H as <- <-. eapply fload_ok; eauto.
  - destruct lv; [discriminate|]. apply IHn in H; auto. cbn in H. apply fval_of. cbn [ntype]. unfold val_of. destruct (ntype n); cbn [int_repr]; apply in_range_true; lia.
  - apply andb_true_iff in WT as [WT TY]. apply andb_true_iff in WT as [WL WR]. opt H. destruct lv; [discriminate|]. opt H. opt H. opt H. opt H. opt H. injection H as <- <-.
    apply IHn2 in E2; auto. cbn [ntype]. eapply fval_same; [|exact E2]. now apply fsame_sym.
  - apply andb_true_iff in WT as [WL WR]. opt H. opt H. cbn [ntype]. eauto.
  - opt H. subst lv. opt H. opt H. opt H. injection H as <- <-. cbn [ntype]. eapply fcast_val; eauto.
  - destruct lv; [discriminate|]. apply andb_true_iff in WT as [WT TY]. apply andb_true_iff in WT as [WT WB]. apply andb_true_iff in WT as [WC WA]. opt H. opt H. opt H.
    set (tt := ntype (NCond n1 n2 n3)) in *. assert (X : tt = TVoid \/ fsame tt (ntype n2) && fsame tt (ntype n3) = true) by (destruct tt; auto).
    destruct X as [->|X]; [intros X; now contradiction X|]. apply andb_true_iff in X as [X1 X2]. destruct b; [apply IHn2 in H|apply IHn3 in H]; auto; (eapply fval_same; [|exact H]; now apply fsame_sym).
  - destruct lv; [discriminate|]. apply andb_true_iff in WT as [TY WT]. opt H. opt H. cbn [ntype]. destruct (fmt_of t) as [f|] eqn:F.
    + injection H as <- <-. unfold fval_ok. rewrite F. apply fneg_in.
    + opt H. injection H as <- <-. apply fval_of. eapply fit_val; eauto.
  - destruct lv; [discriminate|]. opt H. opt H. opt H. injection H as <- <-. apply fval_of. apply val_of_bool.
  - destruct lv; [discriminate|]. opt H. opt H. opt H. injection H as <- <-. apply fval_of. eapply fit_val; eauto.
  - destruct lv; [discriminate|]. opt H. opt H. opt H. destruct b; [opt H; opt H; opt H|]; injection H as <- <-; apply fval_of; [apply val_of_bool|reflexivity].
  - destruct lv; [discriminate|]. opt H. opt H. opt H. destruct b; [|opt H; opt H; opt H]; injection H as <- <-; apply fval_of; [reflexivity|apply val_of_bool].
  - destruct lv; [discriminate|]. apply andb_true_iff in WT as [WT TY]. opt H. opt H. opt H. opt H. opt H. injection H as <- <-. cbn [ntype].
    destruct (fmt_of (ntype n1)) as [f|] eqn:F.
    + eapply fbin_ok; eauto.
    + pose proof (bin_val_ok _ _ _ _ _ E2) as B. destruct o; try (apply fval_of; exact B);
        (apply andb_true_iff in TY as [_ TY]; pose proof (same_repr_eq _ _ TY) as (p & R & _); rewrite fval_int by (eapply repr_fmt; eauto);
         apply (val_ok_same false (TInt false)); [now apply same_repr_sym|]; apply val_ok_of; exact B).
  - discriminate.
  - discriminate.
Qed.
