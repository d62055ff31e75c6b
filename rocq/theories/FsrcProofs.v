(** Proofs for FsrcSpec: the trees of source expressions with float and double. *)
From Verif Require Import Base TypeModel IntArith NodeModel ValSpec NodeSpec NodeProofs FpSpec FloatSpec FloatProofs FloatProps ElabSpec ElabProofs ElabSim FsrcSpec.
From Coq Require Import ZifyBool ZifyNat.
Local Arguments Z.mul : simpl never. Local Arguments Z.add : simpl never. Local Arguments Z.sub : simpl never. Local Arguments Z.pow : simpl never. Local Arguments Z.modulo : simpl never.

(** ** [fev] by equations, floating or not *)
Lemma fev_int E lv n m : int_only n = true -> fev E lv n m = ev E lv n m. Proof. intros H. destruct n; cbn [fev]; rewrite H; reflexivity. Qed.
Lemma fwt_int n : int_only n = true -> fwell_typed n = well_typed n. Proof. intros H. destruct n; cbn [fwell_typed]; rewrite H; reflexivity. Qed.
Lemma fmt_float t f : fmt_of t = Some f -> is_float t = true. Proof. now destruct t. Qed.
Ltac iparts H := cbn [int_only] in H; rewrite ?andb_true_iff in H.
Lemma fev_cast E t l m v m1 w : fev E false l m = Some (v, m1) -> fcast (ntype l) t v = Some w -> fev E false (NCast t l) m = Some (w, m1).
Proof.
  intros L F. cbn [fev]. destruct (int_only (NCast t l)) eqn:I; [|now rewrite L, F].
  iparts I. destruct I as [I1 I2]. rewrite fev_int in L by exact I2. apply int_only_type in I2. cbn [ntype] in I1. apply negb_true_iff in I1.
  unfold fcast in F. rewrite (float_fmt _ I2), (float_fmt _ I1) in F. cbn [ev]. destruct (convertible _ _); [|discriminate]. cbn [orb negb]. now rewrite L, F.
Qed.
Lemma fwt_cast t l : fwell_typed l = true -> fwell_typed (NCast t l) = true.
Proof. intros W. cbn [fwell_typed]. destruct (int_only (NCast t l)) eqn:I; [|exact W]. iparts I. destruct I as [_ I]. rewrite fwt_int in W by exact I. exact W. Qed.
Lemma ftruth_int t v b : is_float t = false -> ftruth t v = Some b -> is_scalar t = true /\ truth v = b.
Proof. intros F. unfold ftruth. rewrite (float_fmt _ F). destruct (is_scalar t); [|discriminate]. intros H. injection H as <-. auto. Qed.
Lemma fev_not E l m x m1 b : fev E false l m = Some (x, m1) -> ftruth (ntype l) x = Some b -> fev E false (NNot l) m = Some (b2z (negb b), m1).
Proof.
  intros L F. cbn [fev]. destruct (int_only (NNot l)) eqn:I; [|now rewrite L, F].
  iparts I. destruct I as [_ I]. rewrite fev_int in L by exact I. destruct (ftruth_int _ _ _ (int_only_type _ I) F) as [S T]. cbn [ev]. rewrite S. cbn [orb negb]. now rewrite L, T.
Qed.
Lemma fwt_not l : fwell_typed l = true -> fwell_typed (NNot l) = true.
Proof. intros W. cbn [fwell_typed]. destruct (int_only (NNot l)) eqn:I; [|exact W]. iparts I. destruct I as [_ I]. rewrite fwt_int in W by exact I. exact W. Qed.
Lemma fwt_and l r : fwell_typed l = true -> fwell_typed r = true -> fwell_typed (NLogAnd l r) = true /\ fwell_typed (NLogOr l r) = true /\ fwell_typed (NComma l r) = true.
Proof.
  intros W X. cbn [fwell_typed]. repeat split; [destruct (int_only (NLogAnd l r)) eqn:I|destruct (int_only (NLogOr l r)) eqn:I|destruct (int_only (NComma l r)) eqn:I]; try (now rewrite W, X).
  all: iparts I; destruct I as (_ & I & J); rewrite fwt_int in W by exact I; rewrite fwt_int in X by exact J; cbn [well_typed]; now rewrite W, X.
Qed.
Lemma fev_and E l r m x m1 b v m2 : fev E false l m = Some (x, m1) -> ftruth (ntype l) x = Some b -> is_scalar (ntype r) = true \/ is_float (ntype r) = true ->
  (if b then exists y c, fev E false r m1 = Some (y, m2) /\ ftruth (ntype r) y = Some c /\ v = b2z c else v = 0 /\ m2 = m1) -> fev E false (NLogAnd l r) m = Some (v, m2).
Proof.
  intros L F S R. cbn [fev]. destruct (int_only (NLogAnd l r)) eqn:I.
  - iparts I. destruct I as (_ & I & J). rewrite fev_int in L by exact I. destruct (ftruth_int _ _ _ (int_only_type _ I) F) as [S1 T]. pose proof (int_only_type _ J) as FJ. destruct S as [S|S]; [|congruence]. cbn [ev]. rewrite S1, S. cbn [orb negb andb]. rewrite L, T. destruct b.
    + destruct R as (y & c & R & G & ->). rewrite fev_int in R by exact J. destruct (ftruth_int _ _ _ FJ G) as [_ T2]. now rewrite R, T2.
    + destruct R as [-> ->]. reflexivity.
  - rewrite L, F. destruct b; [destruct R as (y & c & R & G & ->); now rewrite R, G|destruct R as [-> ->]; reflexivity].
Qed.
Lemma fev_or E l r m x m1 b v m2 : fev E false l m = Some (x, m1) -> ftruth (ntype l) x = Some b -> is_scalar (ntype r) = true \/ is_float (ntype r) = true ->
  (if b then v = 1 /\ m2 = m1 else exists y c, fev E false r m1 = Some (y, m2) /\ ftruth (ntype r) y = Some c /\ v = b2z c) -> fev E false (NLogOr l r) m = Some (v, m2).
Proof.
  intros L F S R. cbn [fev]. destruct (int_only (NLogOr l r)) eqn:I.
  - iparts I. destruct I as (_ & I & J). rewrite fev_int in L by exact I. destruct (ftruth_int _ _ _ (int_only_type _ I) F) as [S1 T]. pose proof (int_only_type _ J) as FJ. destruct S as [S|S]; [|congruence]. cbn [ev]. rewrite S1, S. cbn [orb negb andb]. rewrite L, T. destruct b.
    + destruct R as [-> ->]. reflexivity.
    + destruct R as (y & c & R & G & ->). rewrite fev_int in R by exact J. destruct (ftruth_int _ _ _ FJ G) as [_ T2]. now rewrite R, T2.
  - rewrite L, F. destruct b; [destruct R as [-> ->]; reflexivity|destruct R as (y & c & R & G & ->); now rewrite R, G].
Qed.
Lemma fev_comma E l r m x m1 v m2 : fev E false l m = Some (x, m1) -> fev E false r m1 = Some (v, m2) -> fev E false (NComma l r) m = Some (v, m2).
Proof.
  intros L R. cbn [fev]. destruct (int_only (NComma l r)) eqn:I; [|now rewrite L].
  iparts I. destruct I as (_ & I & J). rewrite fev_int in L by exact I. rewrite fev_int in R by exact J. cbn [ev]. now rewrite L.
Qed.
(** Operators on integers *)
Lemma fev_bin E o t l r m y m1 x m2 v : is_float (ntype l) = false -> fev E false r m = Some (y, m1) -> fev E false l m1 = Some (x, m2) -> bin_val o (match o with Eq | Ne | Lt | Le => ntype l | _ => t end) x y = Some v -> fev E false (NBin o t l r) m = Some (v, m2).
Proof.
  intros F R L B. cbn [fev]. destruct (int_only (NBin o t l r)) eqn:I; [|rewrite R, L, (float_fmt _ F), B; reflexivity].
  iparts I. destruct I as (_ & I & J). rewrite fev_int in L by exact I. rewrite fev_int in R by exact J. now apply (ev_bin E o t l r m m1 m2 x y v).
Qed.
Lemma arith_nf t : is_arith t = true -> is_float t = false. Proof. now destruct t. Qed.
Lemma scalar_nf t : scalar t = true -> is_float t = false. Proof. now destruct t. Qed.
Definition is_shift (o : bop) : bool := match o with Shl | Shr => true | _ => false end.
Lemma fwt_bin o g t l r : fwell_typed l = true -> fwell_typed r = true -> ntype l = g -> ntype r = g -> scalar g = true -> is_shift o = false -> t = (if comparison o then TInt false else g) -> fwell_typed (NBin o t l r) = true.
Proof.
  intros L R TL TR S H ->. pose proof (scalar_self _ S) as SS. pose proof (float_fmt _ (scalar_nf _ S)) as FG.
  assert (FS : fsame g g = true) by (unfold fsame; rewrite FG; exact SS).
  cbn [fwell_typed]. destruct (int_only (NBin o (if comparison o then TInt false else g) l r)) eqn:I.
  - iparts I. destruct I as (_ & I & J). rewrite fwt_int in L by exact I. rewrite fwt_int in R by exact J. cbn [well_typed]. rewrite L, R, TL, TR. destruct o; try discriminate H; cbn [comparison andb]; rewrite ?SS; reflexivity.
  - rewrite L, R, TL, TR. destruct o; try discriminate H; cbn [comparison andb]; rewrite ?FS; reflexivity.
Qed.
Lemma fcast_conv s t v : is_arith s = true -> scalar t = true -> fcast s t v = conv t v.
Proof. intros A S. unfold fcast. rewrite (float_fmt _ (arith_nf _ A)), (float_fmt _ (scalar_nf _ S)), (convertible_scalar _ _ (arith_valued _ A) S). reflexivity. Qed.
Lemma int_bin E o l r : is_arith (ntype l) = true -> is_arith (ntype r) = true -> fwell_typed l = true -> fwell_typed r = true -> is_shift o = false ->
  fwell_typed (mk_bin o l r) = true /\ teq (ntype (mk_bin o l r)) (if comparison o then int_t else usual (promote (ntype l)) (promote (ntype r))) /\
  forall m y m1 x m2 v, fev E false r m = Some (y, m1) -> fev E false l m1 = Some (x, m2) -> arith_op o (promote (ntype l)) (promote (ntype r)) x y = Some v -> fev E false (mk_bin o l r) m = Some (v, m2).
Proof.
  intros A B L R H. pose proof (gct_arith _ _ A B) as GC. set (g := get_common_type (ntype l) (ntype r)) in *. set (u := usual _ _) in *. assert (S : scalar g = true) by (now apply gct_scalar).
  assert (MB : mk_bin o l r = NBin o (if comparison o then TInt false else g) (NCast g l) (NCast g r)) by (destruct o; try discriminate H; reflexivity). rewrite MB. pose proof (fwt_cast g l L) as L'. pose proof (fwt_cast g r R) as R'.
  split; [apply (fwt_bin o g); auto|]. split; [cbn [ntype]; destruct (comparison o); [apply teq_refl|exact GC]|]. intros m y m1 x m2 v ER EL AO. unfold arith_op in AO. fold u in AO. destruct (teq_all _ _ GC) as (_ & _ & _ & _ & _ & TC & TB & _). rewrite <- !TC in AO.
  destruct (conv g x) as [x'|] eqn:CX; [|discriminate]. destruct (conv g y) as [y'|] eqn:CY; [|discriminate]. rewrite <- TB in AO.
  eapply fev_bin; [now apply scalar_nf|eapply fev_cast; [exact ER|rewrite fcast_conv by auto; exact CY]|eapply fev_cast; [exact EL|rewrite fcast_conv by auto; exact CX]|]. destruct o; try discriminate H; exact AO.
Qed.
Lemma ptr_cmp E o l r a b : ntype l = TPtr a -> ntype r = TPtr b -> fwell_typed l = true -> fwell_typed r = true -> comparison o = true ->
  fwell_typed (mk_bin o l r) = true /\ ntype (mk_bin o l r) = TInt false /\
  forall m y m1 x m2 x' y' v, fev E false r m = Some (y, m1) -> fev E false l m1 = Some (x, m2) -> conv (TPtr TVoid) x = Some x' -> conv (TPtr TVoid) y = Some y' -> bin_val o (TPtr TVoid) x' y' = Some v -> fev E false (mk_bin o l r) m = Some (v, m2).
Proof.
  intros A B L R H. assert (MB : mk_bin o l r = NBin o (TInt false) (NCast (TPtr a) l) (NCast (TPtr a) r)) by (destruct o; try discriminate H; cbn [mk_bin]; unfold mk_compare; rewrite A, B; reflexivity). rewrite MB. pose proof (fwt_cast (TPtr a) l L) as L'. pose proof (fwt_cast (TPtr a) r R) as R'.
  split; [apply (fwt_bin o (TPtr a)); auto; [destruct o; try discriminate H; reflexivity|now rewrite H]|]. split; [reflexivity|]. intros m y m1 x m2 x' y' v ER EL CX CY BV.
  eapply fev_bin; [reflexivity|eapply fev_cast; [exact ER|rewrite B; exact CY]|eapply fev_cast; [exact EL|rewrite A; exact CX]|]. destruct o; try discriminate H; exact BV.
Qed.
Lemma int_shift E o l r t : is_shift o = true -> is_arith (ntype l) = true -> is_arith (ntype r) = true -> fwell_typed l = true -> fwell_typed r = true -> teq (ntype l) t ->
  fwell_typed (mk_bin o l r) = true /\ teq (ntype (mk_bin o l r)) t /\ forall m y m1 x m2 v, fev E false r m = Some (y, m1) -> fev E false l m1 = Some (x, m2) -> bin_val o t x y = Some v -> fev E false (mk_bin o l r) m = Some (v, m2).
Proof.
  intros H A B L R T. assert (MB : mk_bin o l r = NBin o (ntype l) l r) by (destruct o; try discriminate H; reflexivity). rewrite MB. destruct (arith_repr _ B) as (sg & w & RB). pose proof (scalar_self _ (arith_scalar _ A)) as SS. split; [|split; [exact T|]].
  - cbn [fwell_typed]. destruct (int_only (NBin o (ntype l) l r)) eqn:I.
    + iparts I. destruct I as (_ & I & J). rewrite fwt_int in L by exact I. rewrite fwt_int in R by exact J. cbn [well_typed]. rewrite L, R, SS, RB. destruct o; try discriminate H; reflexivity.
    + rewrite L, R, SS, RB. destruct o; try discriminate H; reflexivity.
  - intros m y m1 x m2 v ER EL BV. destruct (teq_all _ _ T) as (_ & _ & _ & _ & _ & _ & TB & _). rewrite <- TB in BV. eapply fev_bin; [now apply arith_nf|exact ER|exact EL|]. destruct o; try discriminate H; exact BV.
Qed.
Lemma teq_neg a b x : teq a b -> neg_val a x = neg_val b x /\ bitnot_val a x = bitnot_val b x.
Proof. intros [->|[X Y]]; [auto|]; apply ei_cases in X, Y; destruct X as [->| ->], Y as [->| ->]; auto. Qed.
Lemma gct_int t : is_arith t = true -> teq (get_common_type (TInt false) t) (promote t).
Proof. destruct t as [| |[]|[]|[]|[]| | | | | | | | | |]; try discriminate; intros _; cbn; try (now left); right; auto. Qed.
Lemma int_neg E l t : is_arith (ntype l) = true -> fwell_typed l = true -> teq (promote (ntype l)) t ->
  fwell_typed (mk_neg l) = true /\ teq (ntype (mk_neg l)) t /\ forall m x m1 x' v, fev E false l m = Some (x, m1) -> conv t x = Some x' -> neg_val t x' = Some v -> fev E false (mk_neg l) m = Some (v, m1).
Proof.
  intros A L T. pose proof (gct_int _ A) as GC. assert (S : scalar (get_common_type (TInt false) (ntype l)) = true) by (now apply gct_scalar). unfold mk_neg. set (g := get_common_type (TInt false) (ntype l)) in *.
  assert (GT : teq g t) by (destruct GC as [->|[X Y]]; [exact T|]; destruct T as [<-|[X2 Y2]]; right; auto). pose proof (fwt_cast g l L) as L'. assert (TL : ntype (NCast g l) = g) by reflexivity.
  assert (EC : forall m x m1 x', fev E false l m = Some (x, m1) -> conv t x = Some x' -> fev E false (NCast g l) m = Some (x', m1)). { intros m x m1 x' H C. eapply fev_cast; [exact H|]. rewrite fcast_conv by auto. destruct (teq_all _ _ GT) as (_ & _ & _ & _ & _ & TC & _). now rewrite TC. }
  remember (NCast g l) as c. split; [|split; [exact GT|]].
  - cbn [fwell_typed]. destruct (int_only (NNeg g c)) eqn:I.
    + iparts I. destruct I as [_ I]. rewrite fwt_int in L' by exact I. cbn [well_typed]. rewrite TL, L', (scalar_self _ S). reflexivity.
    + rewrite TL, L'. unfold fsame. rewrite (float_fmt _ (scalar_nf _ S)), (scalar_self _ S). reflexivity.
  - intros m x m1 x' v H C NV. specialize (EC _ _ _ _ H C). rewrite <- (proj1 (teq_neg _ _ x' GT)) in NV. cbn [fev]. destruct (int_only (NNeg g c)) eqn:I; [|rewrite EC, (float_fmt _ (scalar_nf _ S)), NV; reflexivity].
    iparts I. destruct I as [_ I]. rewrite fev_int in EC by exact I. cbn [ev]. now rewrite EC, NV.
Qed.
Lemma int_bitnot E l t : teq (ntype l) t -> fwell_typed l = true -> fwell_typed (NBitNot l) = true /\ forall m x m1 v, fev E false l m = Some (x, m1) -> bitnot_val t x = Some v -> fev E false (NBitNot l) m = Some (v, m1).
Proof.
  intros T L. split.
  - cbn [fwell_typed]. destruct (int_only (NBitNot l)) eqn:I; [|exact L]. iparts I. destruct I as [_ I]. rewrite fwt_int in L by exact I. exact L.
  - intros m x m1 v H B. rewrite <- (proj2 (teq_neg _ _ x T)) in B. cbn [fev]. destruct (int_only (NBitNot l)) eqn:I; [|now rewrite H, B]. iparts I. destruct I as [_ I]. rewrite fev_int in H by exact I. cbn [ev]. now rewrite H, B.
Qed.
(** [c ? a : b] with branches converted to a type *)
Lemma fev_cond E c a b ft m x m1 t v m2 : ft <> TVoid -> fev E false c m = Some (x, m1) -> ftruth (ntype c) x = Some t ->
  (if t then exists y, fev E false a m1 = Some (y, m2) /\ fcast (ntype a) ft y = Some v else exists y, fev E false b m1 = Some (y, m2) /\ fcast (ntype b) ft y = Some v) ->
  fev E false (NCond c (NCast ft a) (NCast ft b)) m = Some (v, m2).
Proof.
  intros NV L F R.
  assert (X : forall n y mm, fev E false n m1 = Some (y, mm) -> fcast (ntype n) ft y = Some v -> fev E false (NCast ft n) m1 = Some (v, mm)) by (intros; eapply fev_cast; eauto).
  assert (Y : (if t then fev E false (NCast ft a) m1 else fev E false (NCast ft b) m1) = Some (v, m2)) by (destruct t; destruct R as (y & R & G); eapply X; eauto).
  remember (NCast ft a) as a'. remember (NCast ft b) as b'. cbn [fev]. destruct (int_only (NCond c a' b')) eqn:I; [|rewrite L, F; destruct t; exact Y].
  iparts I. destruct I as (_ & (I & J1) & J2). rewrite fev_int in L by exact I. destruct (ftruth_int _ _ _ (int_only_type _ I) F) as [S T]. rewrite !fev_int in Y by assumption. cbn [ev]. rewrite S. cbn [orb negb]. rewrite L, T. exact Y.
Qed.
Lemma fsame_fmt_ty f : fsame (fmt_ty f) (fmt_ty f) = true. Proof. now destruct f. Qed.
Lemma fmt_fmt_ty f : fmt_of (fmt_ty f) = Some f. Proof. now destruct f. Qed.
Lemma fwt_cond c a b t : fsame t t = true -> t <> TVoid -> fwell_typed c = true -> fwell_typed a = true -> fwell_typed b = true -> fwell_typed (NCond c (NCast t a) (NCast t b)) = true /\ ntype (NCond c (NCast t a) (NCast t b)) = t.
Proof.
  intros S NV C A B. assert (NT : ntype (NCond c (NCast t a) (NCast t b)) = t) by (cbn [ntype]; destruct t; congruence). split; [|exact NT].
  pose proof (fwt_cast t a A) as A'. pose proof (fwt_cast t b B) as B'. remember (NCast t a) as a'. remember (NCast t b) as b'.
  assert (TA : ntype a' = t) by (subst; reflexivity). assert (TB : ntype b' = t) by (subst; reflexivity).
  cbn [fwell_typed]. destruct (int_only (NCond c a' b')) eqn:I.
  - pose proof (int_only_type _ I) as F. rewrite NT in F. iparts I. destruct I as (_ & (I & J1) & J2). rewrite fwt_int in C by exact I. rewrite fwt_int in A' by exact J1. rewrite fwt_int in B' by exact J2. unfold fsame in S. rewrite (float_fmt _ F) in S.
    cbn [well_typed]. rewrite NT, C, A', B', TA, TB. clear - S NV. destruct t; try congruence; cbv beta iota; cbn [andb]; rewrite S; reflexivity.
  - rewrite NT, C, A', B', TA, TB. clear - S NV. destruct t; try congruence; cbv beta iota; cbn [andb]; rewrite S; reflexivity.
Qed.
(** An assignment, not to a bit-field or a structure *)
Lemma fev_assign E l r m a m1 v m2 m3 : is_bitfield l = false -> is_struct_union (ntype l) = false -> fev E true l m = Some (a, m1) -> fev E false r m1 = Some (v, m2) -> fstore (e_valid E) (ntype l) m2 a v = Some m3 ->
  fev E false (NAssign l r) m = Some (v, m3).
Proof.
  intros B S L R F. cbn [fev]. destruct (int_only (NAssign l r)) eqn:I; [|rewrite B, S; cbn [orb]; now rewrite L, R, F].
  iparts I. destruct I as (_ & I & J). rewrite fev_int in L by exact I. rewrite fev_int in R by exact J. apply int_only_type in I. unfold fstore in F. rewrite (float_fmt _ I) in F.
  eapply assign_ev; [exact L|exact R|]. replace (nbits l) with (@None (Z * Z)); [cbn [write]; now rewrite F|]. destruct l; try reflexivity. cbn [is_bitfield] in B. cbn [nbits]. destruct (m_bf m0); [discriminate|reflexivity].
Qed.
Lemma fwt_assign l r t : fwell_typed l = true -> fwell_typed r = true -> ntype l = t -> fsame t t = true -> fwell_typed (NAssign l (NCast t r)) = true.
Proof.
  intros L R T S. pose proof (fwt_cast t r R) as R'. assert (TR : ntype (NCast t r) = t) by reflexivity. remember (NCast t r) as r'. cbn [fwell_typed]. destruct (int_only (NAssign l r')) eqn:I; [|now rewrite L, R', T, TR].
  iparts I. destruct I as (_ & I & J). pose proof (int_only_type _ I) as F. rewrite T in F. rewrite fwt_int in L by exact I. rewrite fwt_int in R' by exact J. cbn [well_typed]. rewrite L, R', T, TR. cbn [andb]. unfold fsame in S. rewrite (float_fmt _ F) in S. rewrite S. apply orb_true_r.
Qed.

(** ** Floating objects *)
Definition fobj (n : node) : Prop :=
  (exists f, fmt_of (ntype n) = Some f) /\
  match n with NVar _ _ => True | NDeref l => int_only l = true | NMember l i => int_only l = true /\ m_bf i = None | _ => False end.
Lemma fobj_int n : fobj n -> int_only n = false.
Proof. intros [[f F] _]. apply fmt_float in F. destruct n; cbn [int_only]; rewrite F; reflexivity. Qed.
Lemma fobj_true E n m : fobj n -> fev E true n m = ev E true n m.
Proof.
  intros O. pose proof (fobj_int n O) as I. destruct O as [_ O]. destruct n; try contradiction; cbn [fev]; rewrite I.
  - reflexivity.
  - destruct O as [O _]. now rewrite fev_int by exact O.
  - now rewrite fev_int by exact O.
Qed.
Lemma fobj_false E n m a m1 v : fobj n -> ev E true n m = Some (a, m1) -> fload (e_valid E) (ntype n) m1 a = Some v -> fev E false n m = Some (v, m1).
Proof.
  intros O H L. pose proof (fobj_int n O) as I. destruct O as [_ O]. destruct n; try contradiction; cbn [fev]; rewrite I.
  - injection H as <- <-. cbn [ntype] in L. now rewrite L.
  - destruct O as [O B]. rewrite fev_int by exact O. cbn [ev] in H. destruct (ev E true n m) as [[a0 m0']|]; [|discriminate]. injection H as <- <-. cbn [ntype] in L. now rewrite B, L.
  - rewrite fev_int by exact O. cbn [ev] in H. destruct (ev E false n m) as [[a0 m0']|]; [|discriminate]. injection H as <- <-. now rewrite L.
Qed.
Lemma fobj_wt n : fobj n -> well_typed n = true -> fwell_typed n = true.
Proof.
  intros O W. pose proof (fobj_int n O) as I. destruct O as [_ O]. destruct n; try contradiction; cbn [fwell_typed]; rewrite I; [reflexivity| |].
  - destruct O as [O _]. rewrite fwt_int by exact O. exact W.
  - rewrite fwt_int by exact O. exact W.
Qed.
Lemma fobj_target n j : fobj n -> fobj (target n j).
Proof.
  intros [[f F] O]. split; [exists f; now rewrite target_type|]. destruct n; try contradiction; cbn [target]; try reflexivity.
  destruct O as [O B]. split; [|exact B]. cbn [int_only ntype base_of]. rewrite (int_only_type _ O). reflexivity.
Qed.
Lemma fobj_tmp E n j m r : fobj n -> ev E false (set_tmp n j) m = Some r -> fev E false (set_tmp n j) m = Some r.
Proof.
  intros O H. assert (B : fev E true (base_node n) m = ev E true (base_node n) m). { destruct n; try (apply fobj_true; exact O). destruct O as [_ [O _]]. cbn [base_node]. now apply fev_int. }
  unfold set_tmp in *. set (b := base_node n) in *. clearbody b. cbn [ev ntype orb negb] in H. destruct (convertible (ntype (NAddr b)) (TPtr (ntype b))) eqn:C; [|destruct (ntype b) eqn:TB; cbn [ntype convertible] in C; rewrite TB in C; discriminate C].
  change (ntype (NAddr b)) with (match ntype b with TArr b _ => TPtr b | t => TPtr t end) in C. rewrite C in H. cbn [orb negb] in H.
  destruct (ev E true b m) as [[a m1]|] eqn:HB; [|discriminate]. destruct (conv (TPtr (ntype b)) a) as [v|] eqn:CV; [|discriminate]. destruct (store_val (e_valid E) (TPtr (ntype b)) m1 (e_addr E (VLocal j)) v) as [m2|] eqn:ST; [|discriminate]. injection H as <-.
  assert (A : fev E false (NAddr b) m = Some (a, m1)). { cbn [fev]. destruct (int_only (NAddr b)); [exact HB|now rewrite B]. }
  eapply fev_assign; [reflexivity|reflexivity|reflexivity|eapply fev_cast; [exact A|]|exact ST].
  unfold fcast. cbn [ntype fmt_of]. replace (fmt_of match ntype b with TArr b0 _ => TPtr b0 | t => TPtr t end) with (@None fmt) by (destruct (ntype b); reflexivity). rewrite C. exact CV.
Qed.
Lemma fobj_tmp_wt n j : fobj n -> well_typed n = true -> fwell_typed (set_tmp n j) = true.
Proof.
  intros O W. unfold set_tmp. apply fwt_assign; try reflexivity. assert (B : fwell_typed (base_node n) = true). { destruct n; try (apply fobj_wt; assumption). destruct O as [_ [O _]]. cbn [base_node]. rewrite fwt_int by exact O. cbn [well_typed] in W. apply andb_true_iff in W. tauto. }
  cbn [fwell_typed]. destruct (int_only (NAddr (base_node n))) eqn:I; [|exact B]. iparts I. rewrite fwt_int in B by tauto. exact B.
Qed.

(** ** Trees of expressions without floating point *)
Local Notation nf t := (is_float t = false).
Lemma gct_nf a b : nf a -> nf b -> nf (get_common_type a b).
Proof. intros A B. unfold get_common_type. destruct (base_of a); [reflexivity|]. destruct a; try discriminate A; destruct b; try discriminate B; try reflexivity; cbv beta iota zeta; repeat match goal with |- context [if ?c then _ else _] => destruct c end; reflexivity. Qed.
Lemma io_cast t l : nf t -> int_only l = true -> int_only (NCast t l) = true. Proof. intros T L. cbn [int_only ntype]. now rewrite T, L. Qed.
Lemma io_num t v : nf t -> int_only (NNum t v) = true. Proof. intros T. cbn [int_only ntype]. now rewrite T. Qed.
Lemma io_arith o l r : int_only l = true -> int_only r = true -> int_only (mk_arith o l r) = true.
Proof. intros L R. pose proof (gct_nf _ _ (int_only_type _ L) (int_only_type _ R)) as T. unfold mk_arith. cbn [int_only ntype]. now rewrite T, L, R. Qed.
Lemma io_bin o l r : int_only l = true -> int_only r = true -> int_only (mk_bin o l r) = true.
Proof.
  intros L R. pose proof (gct_nf _ _ (int_only_type _ L) (int_only_type _ R)) as T. pose proof (int_only_type _ L) as TL.
  unfold mk_bin. destruct o; try (apply io_arith; assumption); unfold mk_compare, mk_shift; cbn [int_only ntype is_float]; rewrite ?T, ?TL, L, R; reflexivity.
Qed.
Lemma io_add l r n : int_only l = true -> int_only r = true -> new_add l r = Some n -> int_only n = true.
Proof.
  intros L R. unfold new_add. destruct (_ && _); [intros H; injection H as <-; now apply io_arith|]. destruct (_ && _); [discriminate|].
  destruct (_ && _); match goal with |- context [base_of (ntype ?x)] => destruct (base_of (ntype x)) as [[]|] end; try discriminate; intros H; injection H as <-; (apply io_arith; [assumption|apply io_arith; [assumption|reflexivity]]).
Qed.
Lemma io_sub l r n : int_only l = true -> int_only r = true -> new_sub l r = Some n -> int_only n = true.
Proof.
  intros L R. unfold new_sub. destruct (_ && _); [intros H; injection H as <-; now apply io_arith|].
  assert (D : int_only (NBin Sub (TLong false) l r) = true) by (cbn [int_only ntype is_float]; now rewrite L, R).
  destruct (base_of (ntype l)) as [[]|]; destruct (base_of (ntype r)); try discriminate; try (destruct (is_integer _); [|discriminate]); intros H; injection H as <-; (apply io_arith; [assumption|]); try reflexivity; (apply io_arith; [assumption|reflexivity]).
Qed.
Lemma io_op o l r n : int_only l = true -> int_only r = true -> new_op o l r = Some n -> int_only n = true.
Proof. intros L R. unfold new_op. destruct o; try (intros H; apply (f_equal (fun x => match x with Some y => y | None => l end)) in H; cbv beta iota in H; rewrite <- H; apply io_bin; assumption); [now apply io_add|now apply io_sub]. Qed.
Lemma io_assign l r n : int_only l = true -> int_only r = true -> mk_assign l r = Some n -> int_only n = true.
Proof.
  intros L R. pose proof (int_only_type _ L) as T. unfold mk_assign. destruct (ntype l) eqn:TL; try discriminate; intros H; injection H as <-; cbn [int_only ntype]; rewrite ?TL, L, R; try reflexivity; discriminate T.
Qed.
Lemma io_cond c a b : int_only c = true -> int_only a = true -> int_only b = true -> int_only (mk_cond c a b) = true.
Proof.
  intros C A B. pose proof (gct_nf _ _ (int_only_type _ A) (int_only_type _ B)) as T.
  assert (X : int_only (NCond c a b) = true). { pose proof (int_only_type _ A) as TA. cbn [int_only ntype]. rewrite A, B, C, andb_true_r. destruct (ntype a), (ntype b); try reflexivity; exact (f_equal negb TA). }
  assert (Y : forall t, nf t -> int_only (NCond c (NCast t a) (NCast t b)) = true). { intros t F. cbn [int_only ntype]. rewrite A, B, C, F, andb_true_r. destruct t; try reflexivity; discriminate F. }
  unfold mk_cond. destruct (ntype a); try exact X; destruct (ntype b); try exact X; apply Y; exact T.
Qed.
Lemma io_deref l n : int_only l = true -> mk_deref l = Some n -> nf (ntype n) -> int_only n = true /\ n = NDeref l.
Proof. intros L. unfold mk_deref. destruct (base_of (ntype l)) as [[]|]; try discriminate; intros H; injection H as <-; intros F; (split; [|reflexivity]); cbn [int_only]; now rewrite F, L. Qed.
Lemma io_raw o l r p : int_only l = true -> int_only r = true -> raw_parts o l r = Some p -> int_only (snd (fst p)) = true /\ int_only (snd p) = true.
Proof.
  intros L R. assert (D : int_only (NBin Sub (TLong false) l r) = true) by (cbn [int_only ntype is_float]; now rewrite L, R).
  unfold raw_parts. destruct o; try discriminate; try (intros H; injection H as <-; auto; fail).
  - destruct (_ && _); [intros H; injection H as <-; auto|]. destruct (_ && _); [discriminate|].
    destruct (_ && _); match goal with |- context [base_of (ntype ?x)] => destruct (base_of (ntype x)) as [[]|] end; try discriminate; intros H; injection H as <-; (split; [assumption|apply io_arith; [assumption|reflexivity]]).
  - destruct (_ && _); [intros H; injection H as <-; auto|].
    destruct (base_of (ntype l)) as [[]|]; destruct (base_of (ntype r)); try discriminate; try (destruct (is_integer _); [|discriminate]); intros H; injection H as <-; (split; [assumption|]); try reflexivity; (apply io_arith; [assumption|reflexivity]).
Qed.
Lemma io_addr l : int_only l = true -> int_only (NAddr l) = true. Proof. intros L. cbn [int_only ntype]. rewrite L. destruct (ntype l); reflexivity. Qed.
Lemma io_to_assign o l r k n : int_only l = true -> int_only r = true -> to_assign (o, l, r) k = Some n -> int_only n = true.
Proof.
  intros L R. pose proof (int_only_type _ L) as TL.
  assert (V : forall T, int_only (NVar (VLocal k) (TPtr T)) = true) by reflexivity.
  assert (G : forall b d e1 e2, int_only b = true -> int_only d = true -> mk_assign (NVar (VLocal k) (TPtr (ntype b))) (NAddr b) = Some e1 -> mk_assign d (mk_bin o d r) = Some e2 -> int_only (NComma e1 e2) = true).
  { intros b d e1 e2 B D A1 A2. apply io_assign in A1; [|apply V|now apply io_addr]. apply io_assign in A2; [|exact D|now apply io_bin]. pose proof (int_only_type _ A2) as T2. cbn [int_only ntype]. now rewrite A1, A2, T2. }
  unfold to_assign. destruct l; cbv beta iota zeta.
  4: { destruct (mk_assign _ (NAddr l)) as [e1|] eqn:A1; [|discriminate]. destruct (mk_deref _) as [d|] eqn:D; [|discriminate]. destruct (mk_assign (NMember d m) _) as [e2|] eqn:A2; [|discriminate]. intros H; injection H as <-.
    iparts L. destruct L as [L1 L2]. eapply G; [exact L2| |exact A1|exact A2]. cbn [ntype] in L1. cbn [int_only ntype]. rewrite L1. unfold mk_deref in D. cbn [ntype base_of] in D. pose proof (int_only_type _ L2) as T2. assert (DD : d = NDeref (NVar (VLocal k) (TPtr (ntype l)))) by (destruct (ntype l); try discriminate D; now injection D as <-). rewrite DD. cbn [int_only ntype base_of]. now rewrite T2. }
  all: match goal with |- context [mk_assign _ (NAddr ?x)] => set (l0 := x) in *; destruct (mk_assign _ (NAddr l0)) as [e1|] eqn:A1; [|discriminate]; destruct (mk_deref _) as [d|] eqn:D; [|discriminate]; destruct (mk_assign d _) as [e2|] eqn:A2; [|discriminate]; intros H; injection H as <-;
    (eapply G; [exact L| |exact A1|exact A2]); unfold mk_deref in D; cbn [ntype base_of] in D; assert (DD : d = NDeref (NVar (VLocal k) (TPtr (ntype l0)))) by (destruct (ntype l0); try discriminate D; now injection D as <-); rewrite DD; cbn [int_only ntype base_of]; now rewrite TL end.
Qed.
Lemma io_inc l c k n : int_only l = true -> new_inc_dec l c k = Some n -> int_only n = true.
Proof.
  intros L. unfold new_inc_dec. destruct (raw_parts _ _ _) as [[[o a] b]|] eqn:P; [|discriminate]. apply io_raw in P as [A B]; [|exact L|reflexivity]. cbn [fst snd] in A, B.
  destruct (to_assign _ _) as [x|] eqn:T; [|discriminate]. apply io_to_assign in T; [|exact A|exact B]. destruct (new_add _ _) as [s|] eqn:S; [|discriminate]. apply io_add in S; [|exact T|reflexivity]. intros H; injection H as <-. apply io_cast; [now apply int_only_type|exact S].
Qed.
