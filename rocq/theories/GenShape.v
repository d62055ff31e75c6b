(** Labels, the counter and the depth of the generated code. *)
From Verif Require Import Base TypeModel IntArith NodeModel NodeProofs ValSpec NodeSpec RvSpec GenModel GenSpec RvProofs GenRun GenProofs.
From Coq Require Import ZifyBool ZifyNat.
Local Notation length := List.length.

(** ** Names *)
Definition undec (l : bytes) : Z := fold_left (fun a c => 10 * a + (c - 48)) l 0.
Lemma dec_loop_app f : forall v acc, dec_loop f v acc = dec_loop f v [] ++ acc.
Proof.
  induction f as [|f IH]; intros v acc; cbn [dec_loop]; auto. destruct (v <? 10); [reflexivity|]. rewrite IH, (IH _ [_]), <- app_assoc. reflexivity.
Qed.
Lemma dec_loop_val f : forall v, 0 <= v < 2 ^ Z.of_nat f -> undec (dec_loop f v []) = v /\ (v <> 0 \/ (0 < f)%nat -> dec_loop f v [] <> []) /\ Forall (fun c => 48 <= c <= 57) (dec_loop f v []).
Proof.
  induction f as [|f IH]; intros v B.
  - cbn in B. assert (v = 0) by lia. subst. cbn. repeat split; auto; lia.
  - cbn [dec_loop]. destruct (Z.ltb_spec v 10).
    + unfold undec. cbn [fold_left]. repeat split; try lia; try discriminate. constructor; auto. lia.
    + rewrite dec_loop_app. unfold undec in *. rewrite fold_left_app. cbn [fold_left].
      assert (Bq : 0 <= v / 10 < 2 ^ Z.of_nat f).
      { split; [apply Z.div_pos; lia|]. apply Z.div_lt_upper_bound; [lia|]. replace (Z.of_nat (S f)) with (Z.of_nat f + 1) in B by lia. rewrite Z.pow_add_r in B by lia. lia. }
      destruct (IH _ Bq) as (I1 & _ & I3). rewrite I1. pose proof (Z.div_mod v 10 ltac:(lia)). pose proof (Z.mod_pos_bound v 10 ltac:(lia)).
      split; [lia|]. split; [intros _ K; apply app_eq_nil in K as [_ K]; discriminate|]. apply Forall_app. split; auto. constructor; auto. lia.
Qed.
Lemma log_bound v : 0 <= v -> 0 <= v < 2 ^ Z.of_nat (S (Z.to_nat (Z.log2 v))).
Proof.
  intros H. split; auto. pose proof (Z.log2_nonneg v). replace (Z.of_nat (S (Z.to_nat (Z.log2 v)))) with (Z.succ (Z.log2 v)) by lia.
  destruct (Z.eq_dec v 0) as [->|]; [reflexivity|]. apply Z.log2_spec. lia.
Qed.
Lemma dec_val v : 0 <= v -> undec (dec v) = v. Proof. intros. now apply dec_loop_val, log_bound. Qed.
Lemma dec_inj a b : 0 <= a -> 0 <= b -> dec a = dec b -> a = b.
Proof. intros A B H. rewrite <- (dec_val a A), <- (dec_val b B). now rewrite H. Qed.
Lemma dec_digits v : 0 <= v -> Forall (fun c => 48 <= c <= 57) (dec v). Proof. intros. apply dec_loop_val, log_bound; auto. Qed.
Lemma dec_nonempty v : 0 <= v -> dec v <> []. Proof. intros. apply dec_loop_val; [apply log_bound; auto|lia]. Qed.

(** A label with a number *)
Definition numbered (l : lbl) : option Z :=
  match l with
  | LPcrel c | LElseE c | LEndE c | LFalse c | LTrue c | LElse c | LEnd c | LBegin c | LUniq c => Some c
  | LReturn _ | LFun _ => None
  end.
Lemma name_numbered_inj a b i j : numbered a = Some i -> numbered b = Some j -> 0 <= i -> 0 <= j -> name a = name b -> a = b.
Proof.
  intros Ha Hb I J N. pose proof (dec_digits i I) as Di. pose proof (dec_digits j J) as Dj.
  pose proof (dec_nonempty i I) as Ni. pose proof (dec_nonempty j J) as Nj.
  assert (X : forall (c d : Z) r1 r2, c = 46 -> (48 <= d <= 57) -> c :: r1 = d :: r2 -> False) by (intros c d r1 r2 -> Hd K; inversion K; lia).
  destruct a; try discriminate Ha; destruct b; try discriminate Hb; cbn in Ha, Hb; inversion Ha; subst; inversion Hb; subst; cbn [name] in N;

    try (f_equal; apply dec_inj; auto; match type of N with ?p ++ _ = ?p ++ _ => apply app_inv_head in N end; exact N);
    try (exfalso; clear - N; cbn in N; congruence).
  all: exfalso; cbn in N.
  all: destruct (dec i) as [|d1 e1] eqn:D1, (dec j) as [|d2 e2] eqn:D2; try congruence.
  all: inversion Di; inversion Dj; subst; clear - N H1 H5; inversion N; lia.
Qed.

(** ** Where labels come from: count(), or new_unique_name *)
Definition counted (l : lbl) : option Z := match l with LUniq _ => None | _ => numbered l end.
Definition fresh (lo hi : Z) (l : label) : Prop := exists x n, l = name x /\ counted x = Some n /\ lo <= n < hi.
(** A label that count() will not give from [lo] on *)
Definition old (lo : Z) (l : label) : Prop := exists x n, l = name x /\ numbered x = Some n /\ 0 <= n /\ (counted x = None \/ n < lo).
Lemma counted_numbered x n : counted x = Some n -> numbered x = Some n. Proof. destruct x; cbn; congruence. Qed.
Lemma old_fresh lo hi l : 0 <= lo -> old lo l -> fresh lo hi l -> False.
Proof.
  intros L (x & n & -> & N & P & O) (y & k & E & C & B). pose proof (counted_numbered _ _ C).
  assert (x = y) by (eapply name_numbered_inj; eauto; lia). subst y. destruct O; [congruence|]. assert (n = k) by congruence. lia.
Qed.
Lemma old_mono lo hi l : lo <= hi -> old lo l -> old hi l.
Proof. intros L (x & n & E & N & P & [O|O]); exists x, n; (split; [auto|]; split; [auto|]; split; [auto|]); [now left|right; lia]. Qed.
Lemma fresh_old lo hi l : 0 <= lo -> fresh lo hi l -> old hi l.
Proof. intros L (x & n & E & C & B). exists x, n. split; auto. split; [now apply counted_numbered|]. split; [lia|]. right; lia. Qed.

(** [d]: the change of depth, [K]: labels given from outside *)
Definition shape (d : Z) (K : list label) (a : G) : Prop := forall s c s', a s = Some (c, s') -> 0 <= g_cnt s -> (forall l, In l K -> old (g_cnt s) l) ->
  g_depth s' = g_depth s + d /\ g_cnt s <= g_cnt s' /\ NoDup (labels c) /\ forall l, In l (labels c) -> In l K \/ fresh (g_cnt s) (g_cnt s') l.

Lemma NoDup_app_intro {X} (a b : list X) : NoDup a -> NoDup b -> (forall x, In x a -> In x b -> False) -> NoDup (a ++ b).
Proof. induction 1 as [|x l N H IH]; cbn; auto. intros B D. constructor; [|apply IH; auto; intros; eapply D; eauto]. rewrite in_app_iff. intros [K|K]; [auto|eapply D; eauto]. Qed.
Lemma shape_seq d1 d2 K1 K2 a b : shape d1 K1 a -> shape d2 K2 b -> (forall l, In l K1 -> In l K2 -> False) -> shape (d1 + d2) (K1 ++ K2) (a ;; b).
Proof.
  intros HA HB DJ s c s' H P O. apply seq_inv in H as (ca & s1 & cb & H1 & H2 & ->).
  destruct (HA _ _ _ H1 P ltac:(intros; apply O, in_or_app; auto)) as (D1 & C1 & N1 & L1).
  destruct (HB _ _ _ H2 ltac:(lia) ltac:(intros; eapply old_mono; [exact C1|]; apply O, in_or_app; auto)) as (D2 & C2 & N2 & L2).
  split; [lia|]. split; [lia|]. rewrite labels_app. split.
  - apply NoDup_app_intro; auto. intros l I1 I2. apply L1 in I1. apply L2 in I2. destruct I1 as [I1|I1], I2 as [I2|I2].
    + eauto.
    + eapply (old_fresh (g_cnt s1)); [|eapply old_mono; [exact C1|]; apply O, in_or_app; left; exact I1|exact I2]. lia.
    + eapply (old_fresh (g_cnt s) (g_cnt s1)); [lia| |exact I1]. apply O, in_or_app. auto.
    + eapply (old_fresh (g_cnt s1)); [|eapply fresh_old; [|exact I1]|exact I2]; lia.
  - intros l I. apply in_app_iff in I as [I|I]; [apply L1 in I|apply L2 in I]; destruct I as [I|(x & n & E & C & B)].
    + left. apply in_or_app. auto.
    + right. exists x, n. repeat split; auto; lia.
    + left. apply in_or_app. auto.
    + right. exists x, n. repeat split; auto; lia.
Qed.
Lemma shape_emit c : NoDup (labels c) -> shape 0 (labels c) (emit c).
Proof. intros N s c' s' H P O. apply emit_inv in H as [-> ->]. repeat split; auto; try lia. Qed.
Lemma shape_plain c : labels c = [] -> shape 0 [] (emit c).
Proof. intros N. rewrite <- N. apply shape_emit. rewrite N. constructor. Qed.
Lemma shape_fail d K : shape d K fail. Proof. intros s c s' H; discriminate. Qed.
Lemma shape_push r : shape 1 [] (push r). Proof. intros s c s' H P O. unfold push, seq_, emit, dep in H. inversion H. cbn. repeat split; try lia; try constructor; easy. Qed.
Lemma shape_pop r : shape (-1) [] (pop r). Proof. intros s c s' H P O. unfold pop, seq_, emit, dep in H. inversion H. cbn. repeat split; try lia; try constructor; easy. Qed.
Lemma shape_fpush r : shape 1 [] (fpush r). Proof. intros s c s' H P O. unfold fpush, seq_, emit, dep in H. inversion H. cbn. repeat split; try lia; try constructor; easy. Qed.
Lemma shape_fpop r : shape (-1) [] (fpop r). Proof. intros s c s' H P O. unfold fpop, seq_, emit, dep in H. inversion H. cbn. repeat split; try lia; try constructor; easy. Qed.
Lemma shape_dep k : shape k [] (dep k). Proof. intros s c s' H P O. unfold dep in H. inversion H. cbn. repeat split; try lia; try constructor; easy. Qed.
(** The labels of one number *)
Lemma shape_count d K f : (forall k, 0 <= k -> exists K', (forall l, In l K' -> In l K \/ exists x, l = name x /\ counted x = Some k) /\ shape d K' (f k)) -> shape d K (with_count f).
Proof.
  intros H s c s' X P O. unfold with_count in X. destruct (H (g_cnt s) P) as (K' & HK & SH).
  destruct (SH _ _ _ X) as (D & C & N & L); cbn [g_cnt g_depth] in *; [lia| |].
  - intros l I. apply HK in I as [I|(x & E & CN)]; [eapply old_mono; [|apply O; auto]; lia|]. exists x, (g_cnt s). split; auto. split; [now apply counted_numbered|]. split; [lia|]. right; lia.
  - split; [lia|]. split; [lia|]. split; auto. intros l I. apply L in I as [I|(x & n & E & CN & B)].
    + apply HK in I as [I|(x & E & CN)]; auto. right. exists x, (g_cnt s). repeat split; auto; lia.
    + right. exists x, n. repeat split; auto; lia.
Qed.
Lemma shape_depth d K f : (forall k, shape d K (f k)) -> shape d K (with_depth f). Proof. intros H s c s' X. unfold with_depth in X. eapply H; eauto. Qed.
Lemma shape_eq d d' K K' a : shape d K a -> d = d' -> K = K' -> shape d' K' a. Proof. intros; subst; auto. Qed.
Lemma shape_nil d1 d2 d a b : shape d1 [] a -> shape d2 [] b -> d = d1 + d2 -> shape d [] (a ;; b).
Proof. intros H1 H2 ->. apply (shape_seq d1 d2 [] []); auto. Qed.
Ltac shp := first [ eassumption | apply shape_fail | apply shape_push | apply shape_pop | apply shape_dep | (apply shape_plain; reflexivity)
  | (eapply shape_nil; [shp|shp|try lia; reflexivity]) ].

Lemma shape_load t : shape 0 [] (load t). Proof. unfold load. destruct t; shp. Qed.
Lemma labels_flat_map {X} (f : X -> list instr) l : (forall x, labels (f x) = []) -> labels (flat_map f l) = [].
Proof. intros H. induction l; cbn; auto. now rewrite labels_app, H. Qed.
Lemma copy_byte_labels i : labels (copy_byte i) = []. Proof. unfold copy_byte. destruct (beyond i); reflexivity. Qed.
Lemma zero_byte_labels i : labels (zero_byte i) = []. Proof. unfold zero_byte. destruct (beyond i); reflexivity. Qed.
Lemma shape_store t : shape (-1) [] (store t).
Proof.
  unfold store. eapply (shape_nil (-1) 0); [shp| |lia]. destruct t; try shp; apply shape_plain; apply labels_flat_map, copy_byte_labels.
Qed.
Lemma shape_cast f t : shape 0 [] (cast f t).
Proof.
  unfold cast. destruct t; try shp; destruct (type_id f); try shp; destruct (type_id _); shp.
Qed.
Lemma shape_cmp_zero t : shape 0 [] (cmp_zero t). Proof. unfold cmp_zero. destruct t; shp. Qed.
Lemma bin_code_labels o t tl : labels (bin_code o t tl) = []. Proof. destruct o; try reflexivity; cbn; destruct (is_unsigned t); reflexivity. Qed.
Lemma shape_fbin o f : shape 0 [] (fbin_code o f). Proof. destruct o; cbn [fbin_code]; shp. Qed.
Lemma shape_bf t o w : shape 0 [] (bf_merge t o w).
Proof. unfold bf_merge. destruct (w =? 64); [shp|]. pose proof (shape_load t). shp. Qed.
Lemma narrow_labels t : labels (narrow t) = []. Proof. destruct t as [| |[]|[]| | | | | | | | | | | |]; reflexivity. Qed.
Lemma shape_pops n : forall i, shape (- Z.of_nat n) [] (pops n i).
Proof. induction n as [|n IH]; intros i; cbn [pops]; [shp|]. eapply shape_nil; [shp|apply IH|lia]. Qed.

Section Shape.
Variable goff : nat -> Z.
Lemma shape_ext d K a b : (forall s, a s = b s) -> shape d K b -> shape d K a.
Proof. intros X H s c s' E. rewrite X in E. exact (H s c s' E). Qed.
Lemma shape_pa l : Forall (fun n => forall lv, shape 0 [] (gen goff lv n)) l -> shape (Z.of_nat (length l)) [] (pa goff l).
Proof.
  induction 1 as [|a l H HL IH]; cbn [pa length]; [shp|]. eapply shape_nil; [exact IH| |].
  - eapply shape_nil; [apply H|apply shape_push|reflexivity].
  - lia.
Qed.
Lemma name_neq a b i j : numbered a = Some i -> numbered b = Some j -> 0 <= i -> 0 <= j -> a <> b -> name a <> name b.
Proof. intros A B I J N E. apply N. eapply name_numbered_inj; eauto. Qed.
Lemma shape_app d1 d2 d K1 K2 K a b : shape d1 K1 a -> shape d2 K2 b -> (forall l, In l K1 -> In l K2 -> False) -> d = d1 + d2 -> K = K1 ++ K2 -> shape d K (a ;; b).
Proof. intros H1 H2 D -> ->. now apply shape_seq. Qed.
Theorem gen_shape n : forall lv, shape 0 [] (gen goff lv n).
Proof.
  induction n using node_induct; intros lv; cbn [gen].
  - destruct lv; shp.
  - destruct lv; [shp|]. destruct (flo t); [shp|]. destruct (is_float t); shp.
  - pose proof (shape_load t).
    assert (X : shape 0 [] ((match x with VLocal k => emit (local_addr (goff k)) | VGlobal s => with_count (fun c => emit [Lab (LPcrel c); ILa A0 s]) end) ;; (if lv then emit [] else load t))).
    { eapply (shape_nil 0 0); [|destruct lv; shp|reflexivity]. destruct x as [k|s].
      - apply shape_plain. unfold local_addr. destruct (beyond (goff k)); reflexivity.
      - apply shape_count. intros k K0. exists [name (LPcrel k)]. split; [|apply (shape_emit [Lab (LPcrel k); ILa A0 s]); repeat constructor; auto].
        intros l [<-|[]]. right. exists (LPcrel k). auto. }
    destruct t; try exact X; apply shape_fail.
  - eapply (shape_nil 0 0); [apply IHn| |reflexivity]. eapply (shape_nil 0 0); [|destruct lv; [shp|]|reflexivity].
    + destruct (beyond (m_off i)); shp.
    + eapply (shape_nil 0 0); [apply shape_load| |reflexivity]. destruct (m_bf i) as [[o w]|]; [|shp]. destruct (is_unsigned (m_ty i)); shp.
  - eapply (shape_nil 0 0); [apply IHn| |reflexivity]. destruct lv; [shp|apply shape_load].
  - destruct lv; [shp|apply IHn].
  - destruct (lv && negb (is_struct_union (ntype n1))); [shp|].
    eapply (shape_nil 0 0); [apply IHn1| |reflexivity]. eapply (shape_nil 1 (-1)); [shp| |reflexivity]. eapply (shape_nil 0 (-1)); [apply IHn2| |reflexivity].
    destruct (assign_view n1) as [(l0 & t & off & o & w & ->)|V].
    + eapply (shape_nil 0 (-1)); [apply shape_bf| |reflexivity]. eapply (shape_nil (-1) 0); [apply shape_store|shp|reflexivity].
    + rewrite (V G). apply shape_store.
  - eapply (shape_nil 0 0); [apply IHn1|apply IHn2|reflexivity].
  - destruct lv; [shp|]. eapply (shape_nil 0 0); [apply IHn|apply shape_cast|reflexivity].
  - destruct (lv && negb (is_struct_union (ntype (NCond n1 n2 n3)))); [shp|]. apply shape_count. intros k K0.
    exists [name (LElseE k); name (LEndE k)]. split; [intros l [<-|[<-|[]]]; right; eexists; split; reflexivity|].
    pose proof (name_neq (LElseE k) (LEndE k) k k eq_refl eq_refl K0 K0 ltac:(discriminate)) as NE.
    eapply (shape_app 0 0 0 []); [apply IHn1| |easy|reflexivity|reflexivity].
    eapply (shape_app 0 0 0 []); [apply shape_cmp_zero| |easy|reflexivity|reflexivity].
    eapply (shape_app 0 0 0 []); [shp| |easy|reflexivity|reflexivity].
    eapply (shape_app 0 0 0 []); [apply IHn2| |easy|reflexivity|reflexivity].
    eapply (shape_app 0 0 0 [name (LElseE k)] [name (LEndE k)]); [apply (shape_emit [IJ (name (LEndE k)); Lab (LElseE k)]); repeat constructor; auto| | |reflexivity|reflexivity].
    + eapply (shape_app 0 0 0 []); [apply IHn3| |easy|reflexivity|reflexivity]. apply (shape_emit [Lab (LEndE k)]); repeat constructor; auto.
    + intros l [<-|[]] [E|[]]. congruence.
  - destruct lv; [shp|]. destruct (flo t); [eapply (shape_nil 0 0); [apply IHn|shp|reflexivity]|]. destruct (is_float t); [shp|]. eapply (shape_nil 0 0); [apply IHn|destruct (size_of t =? 8); shp|reflexivity].
  - destruct lv; [shp|]. eapply (shape_nil 0 0); [apply IHn|apply shape_cmp_zero|reflexivity].
  - destruct lv; [shp|]. eapply (shape_nil 0 0); [apply IHn|shp|reflexivity].
  - destruct lv; [shp|]. apply shape_count. intros k K0.
    exists [name (LFalse k); name (LEndE k)]. split; [intros l [<-|[<-|[]]]; right; eexists; split; reflexivity|].
    pose proof (name_neq (LFalse k) (LEndE k) k k eq_refl eq_refl K0 K0 ltac:(discriminate)) as NE.
    do 5 (eapply (shape_app 0 0 0 []); [first [apply IHn1|apply IHn2|apply shape_cmp_zero|shp]| |easy|reflexivity|reflexivity]).
    apply (shape_emit [Bnez A0 (name (LFalse k)); ILi A0 1; IJ (name (LEndE k)); Lab (LFalse k); ILi A0 0; Lab (LEndE k)]).
    constructor; [intros [E|[]]; congruence|repeat constructor; auto].
  - destruct lv; [shp|]. apply shape_count. intros k K0.
    exists [name (LTrue k); name (LEndE k)]. split; [intros l [<-|[<-|[]]]; right; eexists; split; reflexivity|].
    pose proof (name_neq (LTrue k) (LEndE k) k k eq_refl eq_refl K0 K0 ltac:(discriminate)) as NE.
    do 5 (eapply (shape_app 0 0 0 []); [first [apply IHn1|apply IHn2|apply shape_cmp_zero|shp]| |easy|reflexivity|reflexivity]).
    apply (shape_emit [Beqz A0 (name (LTrue k)); ILi A0 0; IJ (name (LEndE k)); Lab (LTrue k); ILi A0 1; Lab (LEndE k)]).
    constructor; [intros [E|[]]; congruence|repeat constructor; auto].
  - destruct lv; [shp|]. destruct (flo (ntype n1)).
    { eapply (shape_nil 0 0); [apply IHn2| |reflexivity]. eapply (shape_nil 1 (-1)); [apply shape_fpush| |reflexivity].
      eapply (shape_nil 0 (-1)); [apply IHn1| |reflexivity]. eapply (shape_nil (-1) 0); [apply shape_fpop|apply shape_fbin|reflexivity]. }
    destruct (is_float (ntype n1)); [shp|]. eapply (shape_nil 0 0); [apply IHn2| |reflexivity]. eapply (shape_nil 1 (-1)); [shp| |reflexivity].
    eapply (shape_nil 0 (-1)); [apply IHn1| |reflexivity]. eapply (shape_nil (-1) 0); [shp|apply shape_plain, bin_code_labels|reflexivity].
  - destruct lv; [shp|]. destruct x as [k|s]; [|shp]. apply shape_plain, labels_flat_map. intros. apply zero_byte_labels.
  - destruct lv; [apply shape_plain; reflexivity|]. fold (gen goff). fold (push_args2 goff true). fold (push_args2 goff false).
    destruct (is_alloca n || negb (forallb (fun a => int_arg (ntype a)) args) || negb (int_arg t)); [apply shape_fail|]. cbn zeta.
    set (nst := Z.of_nat (length args - 8)).
    apply shape_depth. intros d. set (pad := (d + nst) mod 2 =? 1).
    assert (HFA : Forall (fun n => forall lv, shape 0 [] (gen goff lv n)) args) by assumption.
    assert (S1 : shape nst [] (push_args2 goff true 0 args)).
    { eapply shape_ext; [intros; apply push_args2_true|]. eapply shape_eq; [apply shape_pa|rewrite skipn_length; reflexivity|reflexivity].
      clear - HFA. change (8 - 0)%nat with 8%nat. generalize 8%nat as k. intros k. revert k. induction HFA; intros [|k]; cbn; auto. }
    assert (S2 : shape (Z.of_nat (Nat.min 8 (length args))) [] (push_args2 goff false 0 args)).
    { eapply shape_ext; [intros; apply push_args2_false|]. eapply shape_eq; [apply shape_pa|rewrite firstn_length; reflexivity|reflexivity].
      clear - HFA. change (8 - 0)%nat with 8%nat. generalize 8%nat as k. intros k. revert k. induction HFA; intros [|k]; cbn; auto. }
    eapply (shape_nil (if pad then 1 else 0)); [destruct pad; shp| |].
    { eapply (shape_nil 0); [shp| |]. { eapply (shape_nil nst); [exact S1| |]. { eapply (shape_nil); [exact S2| |]. { eapply (shape_nil 0); [apply IHn| |].
      { eapply (shape_nil 0); [shp| |]. { eapply shape_nil; [apply shape_pops| |]. { eapply (shape_nil 0); [shp| |].
        { eapply (shape_nil (if pad then - (nst + 1) else - nst) 0); [|apply shape_plain, narrow_labels|reflexivity].
          destruct pad; [destruct (nst + 1 =? 0) eqn:Z0|destruct (nst =? 0) eqn:Z0]; try (eapply shape_eq; [apply (shape_plain []); reflexivity|lia|reflexivity]);
            (eapply shape_nil; [apply shape_plain; reflexivity|apply shape_dep|lia]). }
        all: reflexivity. } all: reflexivity. } all: reflexivity. } all: reflexivity. } all: reflexivity. } all: reflexivity. } all: reflexivity. }
    destruct pad; lia.
Qed.
End Shape.
