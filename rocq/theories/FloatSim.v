(** The simulation theorem for expressions with float and double. *)
From Verif Require Import Base TypeModel IntArith NodeModel NodeProofs ValSpec NodeSpec FpSpec RvSpec GenModel GenSpec RvProofs GenArith GenBits GenRun GenBytes GenProofs GenSim FloatSpec FloatProofs FloatRun.
From Coq Require Import ZifyBool ZifyNat.
Local Notation length := List.length.

Lemma holds_int t q v rs : fmt_of t = None -> holds false t q v rs = rep q v (rs (A 0)). Proof. unfold holds. now intros ->. Qed.
Lemma holds_fmt t f q v rs : fmt_of t = Some f -> holds false t q v rs = (rs (FA 0) = box f v). Proof. unfold holds. now intros ->. Qed.
Lemma holds_lv t q v rs : holds true t q v rs = rep q v (rs (A 0)). Proof. reflexivity. Qed.
(** An integer of at most [w] bits from a register of which [w] bits are right *)
Lemma operand_ok sg w n x r : (n = 32 \/ n = 64) -> w <= n -> 0 < w -> in_range sg w x = true -> rep n x r -> int_operand sg n r = x.
Proof.
  intros N L P I R. apply in_range_true in I; [|lia]. unfold int_operand. destruct sg.
  - pose proof (Z.pow_le_mono_r 2 (w - 1) (n - 1) ltac:(lia) ltac:(lia)). apply sx_unique; [lia|exact R|lia].
  - pose proof (Z.pow_le_mono_r 2 w n ltac:(lia) ltac:(lia)). rewrite R. apply Z.mod_small. lia.
Qed.
Lemma fcvt_ok sg n f x z : (n = 32 \/ n = 64) -> ftrunc f x = Some z -> in_range sg n z = true -> fcvt_int sg n f x = wrap (sx n z).
Proof.
  intros N T I. apply in_range_true in I; [|lia]. unfold fcvt_int. rewrite T. destruct sg; [rewrite Z.min_r, Z.max_r by lia|rewrite Z.min_r, Z.max_r by lia]; reflexivity.
Qed.
Lemma fqual_range n : forall lv q, fqual lv n = Some q -> 0 <= q <= 64.
Proof.
  induction n using node_induct; intros lv q Q; cbn [fqual] in Q;
    match type of Q with (if int_only ?n then _ else _) = _ => destruct (int_only n) eqn:IO; [eapply qual_range; eauto|] end; try discriminate.
  - destruct lv; [discriminate|]. opt Q. inversion Q; lia.
  - destruct lv; [|opt Q]; inversion Q; lia.
  - opt Q. opt Q. destruct lv; [inversion Q; lia|]. destruct (m_bf i); [discriminate|]. opt Q. inversion Q; lia.
  - opt Q. opt Q. inversion Q; lia.
  - destruct lv; [discriminate|]. eauto.
  - destruct lv; [discriminate|]. opt Q. opt Q. opt Q. destruct (fmt_of (ntype n1)); [inversion Q; lia|]. opt Q. inversion Q; subst. eauto.
  - opt Q. eauto.
  - destruct lv; [discriminate|]. opt Q. pose proof (IHn _ _ E) as R. unfold fcast_qual in Q. destruct (fmt_of (ntype n)), (fmt_of t).
    + inversion Q; lia.
    + destruct t as [| | | |[]| | | | | | | | | | |]; inversion Q; lia.
    + destruct (ntype n); try discriminate; opt Q; inversion Q; lia.
    + inversion Q. now apply cast_qual_range.
  - destruct lv; [discriminate|]. opt Q. opt Q. opt Q. opt Q. pose proof (IHn2 _ _ E0). pose proof (IHn3 _ _ E1). assert (M : q = 0 \/ q = Z.min z0 z1) by (clear - Q; destruct (ntype (NCond n1 n2 n3)); injection Q as <-; auto). lia.
  - destruct lv; [discriminate|]. opt Q. pose proof (IHn _ _ E) as R. destruct (fmt_of t); [inversion Q; lia|]. destruct (int_repr t) as [[sg k]|]; [|discriminate].
    destruct (k =? 64); [inversion Q; lia|]. destruct (k =? 32); [|discriminate]. injection Q as <-. destruct (32 <=? z), sg; lia.
  - destruct lv; [discriminate|]. opt Q. opt Q. inversion Q; lia.
  - destruct lv; [discriminate|]. opt Q. pose proof (IHn _ _ E) as R. destruct (int_repr (ntype n)) as [[[] k]|] eqn:IR; inversion Q; subst; auto. pose proof (int_repr_width _ _ _ IR). lia.
  - destruct lv; [discriminate|]. opt Q. opt Q. opt Q. inversion Q; lia.
  - destruct lv; [discriminate|]. opt Q. opt Q. opt Q. inversion Q; lia.
  - destruct lv; [discriminate|]. opt Q. opt Q. pose proof (IHn1 _ _ E). pose proof (IHn2 _ _ E0). destruct (fmt_of (ntype n1)); [inversion Q; lia|]. eapply bin_qual_range; eauto.
Qed.
Lemma cmp_zero_fmt t u f : fmt_of t = Some f -> fmt_of u = Some f -> cmp_zero t = cmp_zero u.
Proof. destruct t; try discriminate; intros X; injection X as <-; destruct u; try discriminate; reflexivity. Qed.
Lemma ty_eq_void (t : ty) : t = TVoid \/ t <> TVoid. Proof. destruct t; auto; right; discriminate. Qed.

Section Sim.
Variables (E : env) (W : world) (goff : nat -> Z) (fp room : Z).
Hypothesis HS : setting E W goff fp.
Notation same_mem := (same_mem E). Notation matches := (matches E fp). Notation free_stack := (free_stack E room).
Notation above_same := (above_same E). Notation computes := (computes E W fp room). Notation runs := (runs E W fp room).
Let HE : env_ok E := set_env _ _ _ _ HS.
Definition fgen_ok (n : node) : Prop := forall lv s c s' q m v m', gen goff lv n s = Some (c, s') -> fqual lv n = Some q -> fwell_typed n = true ->
  fev E lv n m = Some (v, m') -> runs c (need n) m (holds lv (ntype n) q v) m'.

Lemma int_case n lv s c s' q m v m' : int_only n = true -> gen goff lv n s = Some (c, s') -> qual lv n = Some q -> well_typed n = true ->
  ev E lv n m = Some (v, m') -> runs c (need n) m (holds lv (ntype n) q v) m'.
Proof.
  intros IO G Q WT EV. pose proof (gen_correct E W goff fp room HS n lv s c s' q m v m' G Q WT EV) as C.
  unfold holds. rewrite (float_fmt _ (int_only_type _ IO)). destruct lv; exact C.
Qed.
Ltac start n := intros lv s c s' q m v m' G Q WT EV;
  cbn [fqual fwell_typed fev] in Q, WT, EV;
  destruct (int_only n) eqn:IO; [eapply int_case; eauto|]; cbn [gen need ntype] in *.

Ltac start0 n := intros lv s c s' q m v m' G Q WT EV;
  cbn [fqual fwell_typed fev] in Q, WT, EV;
  destruct (int_only n) eqn:IO; [eapply int_case; eauto|]; cbn [gen need] in *.

(** ** Loads *)
Lemma fload_run t s0 c s' m a v rs ms : load t s0 = Some (c, s') -> floadable t = true -> fload (e_valid E) t m a = Some v ->
  0 <= a < 2 ^ 64 -> rs (A 0) = a -> same_mem m ms ->
  pure c = true /\ exists rs', exec_list (w_sym W) c rs ms = Some (rs', ms) /\ holds false t 64 v rs'.
Proof.
  intros LD LO LV Ba RA SM. unfold floadable, fload in *. destruct (fmt_of t) as [f|] eqn:F.
  - assert (c = [IFLoad f FA0 0 A0]) as -> by (destruct t; try discriminate F; injection F as <-; unfold load, emit in LD; congruence).
    split; [reflexivity|]. destruct (accessible (e_valid E) a (size_of t)) eqn:AC; [|discriminate]. apply accessible_spec in AC as (A1 & A2 & A3).
    assert (v = le_load m a (Z.to_nat (size_of t))) by congruence. subst v. rewrite (fmt_size t f F) in *.
    assert (AD : wrap (rs A0 + 0) = a) by (change (rs A0) with (rs (A 0)); rewrite RA, Z.add_0_r; now apply mod_id).
    eexists. cbn [exec_list exec_straight]. rewrite (ea_ok rs A0 0 (width f / 8) a AD ltac:(lia)). split; [reflexivity|].
    rewrite (holds_fmt t f) by auto. change (FA 0) with FA0. rewrite setr_same by discriminate. f_equal.
    apply (same_load E); auto. intros i Hi. apply A3. destruct f; cbn in Hi |- *; lia.
  - destruct (load_run E W t s0 c s' m a v rs ms LD LO LV Ba RA SM) as [P (rs' & X & R)]. split; auto. exists rs'. split; auto. now rewrite holds_int.
Qed.
Lemma fwith_load t s0 c s' m v a : load t s0 = Some (c, s') -> floadable t = true -> fload (e_valid E) t m a = Some v -> 0 <= a < 2 ^ 64 ->
  forall st, matches m st -> rep 64 a (rg st (A 0)) -> exists rs', exec_list (w_sym W) c (rg st) (mm st) = Some (rs', mm st) /\ holds false t 64 v rs'.
Proof.
  intros LD LO LV Ba st (RO & FP & SM) P. destruct (fload_run t s0 c s' m a v (rg st) (mm st) LD LO LV Ba) as [_ H]; auto. apply rep_addr; auto. apply RO.
Qed.
Lemma fload_pure t s0 c s' : load t s0 = Some (c, s') -> floadable t = true -> pure c = true.
Proof.
  intros LD LO. unfold floadable in LO. destruct (fmt_of t) as [f|] eqn:F; [|eapply load_pure; eauto].
  destruct t; try discriminate F; unfold load, emit in LD; injection LD as <- _; reflexivity.
Qed.
Lemma fgen_num t v0 : fgen_ok (NNum t v0).
Proof.
  start (NNum t v0). destruct lv; [discriminate|]. rewrite flo_fmt in G. destruct (fmt_of t) as [f|] eqn:F; [|discriminate]. apply emit_inv in G as [-> _].
  destruct (fval f v0) eqn:V; [|discriminate]. assert (v = v0 /\ m' = m) as [-> ->] by (split; congruence).
  apply (runs_pure E W goff fp room HS); [|reflexivity]. intros st MT. eexists. split; [reflexivity|]. rewrite (holds_fmt t f) by auto.
  cbn. unfold fval in V. unfold wrap. rewrite (Z.mod_small v0); auto. destruct f; cbn [width] in V; [change (2 ^ 32) with 4294967296 in V; change (2 ^ 64) with 18446744073709551616|]; lia.
Qed.
Lemma fgen_var x t : fgen_ok (NVar x t).
Proof.
  start (NVar x t).
  assert (F : is_float t = true) by (cbn in IO; destruct (is_float t); auto; discriminate).
  assert (G' : exists c1 s1 c2, (match x with VLocal k => emit (local_addr (goff k)) | VGlobal g => with_count (fun c => emit [Lab (LPcrel c); ILa A0 g]) end) s = Some (c1, s1) /\
            (if lv then emit [] else load t) s1 = Some (c2, s') /\ c = c1 ++ c2).
  { destruct t; try discriminate F; apply seq_inv in G; exact G. }
  clear G. destruct G' as (c1 & s1 & c2 & G1 & G2 & ->).
  assert (A1 : forall M n, runs c1 n M (fun rs => rep 64 (e_addr E x) (rs (A 0))) M).
  { intros M n. destruct x as [k|g].
    - apply emit_inv in G1 as [-> _]. apply (runs_pure E W goff fp room HS).
      + intros st (RO & FP & SM). destruct (local_addr_run E W goff fp HS k (rg st) (mm st) RO FP) as [_ (rs' & X & R)]. exists rs'. split; auto. rewrite R. apply rep_refl.
      + unfold local_addr. destruct (beyond (goff k)); reflexivity.
    - unfold with_count in G1. apply emit_inv in G1 as [-> _]. apply (runs_pure E W goff fp room HS); [|reflexivity].
      intros st MT. eexists. split; [reflexivity|]. cbn. rewrite (set_sym _ _ _ _ HS). apply rep_refl. }
  destruct lv.
  - apply emit_inv in G2 as [-> _]. rewrite app_nil_r. assert (v = e_addr E x /\ m' = m /\ q = 64) as (-> & -> & ->) by (repeat split; congruence). apply A1.
  - opt Q. injection Q as <-. opt EV. injection EV as <- <-.
    eapply (runs_then E W goff fp room HS); [apply A1| |eapply fload_pure; eauto; unfold floadable; now rewrite E0].
    eapply fwith_load; eauto. unfold floadable. now rewrite E0.
Qed.
Lemma fgen_deref l : fgen_ok l -> fgen_ok (NDeref l).
Proof.
  intros IH. start (NDeref l). fold (ntype (NDeref l)) in *.
  apply seq_inv in G as (c1 & s1 & c2 & G1 & G2 & ->). apply andb_true_iff in WT as [HB WT]. opt Q. opt Q. injection Q as <-. apply andb_true_iff in E1 as [C1 C2]. apply Z.eqb_eq in C1. subst z.
  opt EV. destruct p as [a m1].
  assert (FN : fmt_of (ntype l) = None) by (destruct (ntype l); try reflexivity; discriminate HB).
  pose proof (IH false _ _ _ _ _ _ _ G1 E0 WT E1) as CL. pose proof (fev_ok E l HE _ _ _ _ WT E1) as V. rewrite fval_int in V by auto.
  pose proof (base_addr _ _ HB V) as Ba.
  assert (CL' : runs c1 (need l) m (fun rs => rep 64 a (rs (A 0))) m1) by (eapply runs_weaken; [|apply Z.le_refl|exact CL]; intros rs R; now rewrite holds_int in R).
  destruct lv.
  - apply emit_inv in G2 as [-> _]. rewrite app_nil_r. injection EV as <- <-. exact CL'.
  - opt EV. injection EV as <- <-. cbn [orb] in C2.
    eapply (runs_then E W goff fp room HS); [exact CL'| |eapply fload_pure; eauto]. eapply fwith_load; eauto.
Qed.
Lemma fgen_addr l : fgen_ok l -> fgen_ok (NAddr l).
Proof.
  intros IH. start (NAddr l). destruct lv; [discriminate|]. pose proof (IH true _ _ _ _ _ _ _ G Q WT EV) as CL. eapply runs_weaken; [|apply Z.le_refl|exact CL]. intros rs R. rewrite holds_int; [exact R|destruct (ntype l); reflexivity].
Qed.
Lemma fgen_member l i : fgen_ok l -> fgen_ok (NMember l i).
Proof.
  intros IH. start (NMember l i).
  apply seq_inv in G as (c1 & s1 & c2 & G1 & G2 & ->). apply seq_inv in G2 as (c3 & s2 & c4 & G3 & G4 & ->). apply emit_inv in G3 as [-> ->].
  apply andb_true_iff in WT as [MO WT]. opt Q. opt Q. assert (z = 64) by lia. subst z. opt EV. destruct p as [a m1].
  pose proof (IH true _ _ _ _ _ _ _ G1 E0 WT E2) as CL. set (b := (a + m_off i) mod 2 ^ 64) in *.
  assert (Ba : 0 <= b < 2 ^ 64) by (apply mod_pow_range; lia). pose proof (fev_ok E l HE _ _ _ _ WT E2) as Ra. cbn in Ra.
  rewrite app_assoc. assert (CB : runs (c1 ++ (if beyond (m_off i) then [ILi T0 (m_off i); IOp ADD A0 A0 T0] else [IAddi A0 A0 (m_off i)])) (need l) m (fun rs => rep 64 b (rs (A 0))) m1).
  { eapply (runs_then E W goff fp room HS); [exact CL| |destruct (beyond (m_off i)); reflexivity]. intros st MT R. rewrite holds_lv in R.
    pose proof (rep_addr a (rg st (A 0)) Ra (proj2 (proj1 MT) (A 0)) R) as RA.
    destruct (beyond (m_off i)); (eexists; split; [reflexivity|]; cbn; change (rg st A0) with (rg st (A 0)); rewrite RA).
    - unfold wrap. rewrite Zplus_mod_idemp_r. apply rep_refl.
    - apply rep_refl. }
  destruct lv.
  - apply emit_inv in G4 as [-> _]. rewrite app_nil_r. injection EV as <- <-. injection Q as <-. exact CB.
  - apply seq_inv in G4 as (c5 & s3 & c6 & G5 & G6 & ->). destruct (m_bf i) as [[o w]|] eqn:BF; [discriminate|].
    apply emit_inv in G6 as [-> _]. rewrite app_nil_r. opt Q. injection Q as <-. opt EV. injection EV as <- <-.
    eapply (runs_then E W goff fp room HS); [exact CB| |eapply fload_pure; eauto]. eapply fwith_load; eauto.
Qed.
Lemma fgen_comma l r : fgen_ok l -> fgen_ok r -> fgen_ok (NComma l r).
Proof.
  intros IHl IHr. start (NComma l r). apply andb_true_iff in WT as [WL WR].
  apply seq_inv in G as (c1 & s1 & c2 & G1 & G2 & ->). opt Q. opt EV. destruct p as [x m1].
  eapply (runs_seq E W fp room); [eapply IHl; eauto|eapply IHr; eauto].
Qed.

(** ** Tests *)
Lemma scalar_in t v : fmt_of t = None -> is_scalar t = true -> fval_ok false t v -> val_in t v.
Proof.
  intros F S V. rewrite fval_int in V by auto. unfold val_in, repr_or_addr. unfold is_scalar in S.
  destruct (int_repr t) as [(sg, w)|] eqn:R; cbn [fst snd].
  - apply (val_ok_val _ _ _ R) in V. unfold val_of in V. now rewrite R in V.
  - apply in_range_true; [lia|]. apply (aggr_addr false t); auto. destruct t; auto; discriminate.
Qed.
Lemma cmp_zero_run t s0 c s' x b rs ms : cmp_zero t s0 = Some (c, s') -> ftruth t x = Some b -> fval_ok false t x -> regs_ok rs -> holds false t 64 x rs ->
  s' = s0 /\ pure c = true /\ exists rs', exec_list (w_sym W) c rs ms = Some (rs', ms) /\ flag b rs'.
Proof.
  intros G T V RO H. unfold ftruth in T. destruct (fmt_of t) as [f|] eqn:F.
  - rewrite (holds_fmt t f) in H by auto. unfold fval_ok in V. rewrite F in V.
    assert (C : c = [IFMv f FA1 Zero; IFCmp FEq f A0 FA0 FA1] /\ s' = s0) by (destruct t; try discriminate F; injection F as <-; unfold cmp_zero, emit in G; split; congruence).
    destruct C as [-> ->]. split; auto. split; [reflexivity|]. eexists. split; [reflexivity|]. injection T as <-. unfold flag. rewrite negb_involutive.
    cbn. change (rs FA0) with (rs (FA 0)). rewrite H, (unbox_box f x V), (proj1 RO). rewrite unbox_box; [reflexivity|]. destruct f; split; reflexivity || discriminate.
  - destruct (is_scalar t) eqn:SC; [|discriminate]. injection T as <-. rewrite holds_int in H by auto.
    apply cmp_zero_inv in G as [-> ->]; auto. split; auto. split; [reflexivity|].
    destruct (seqz_run W t x rs ms) as (rs' & X & R); auto; [now apply scalar_in|]. exists rs'. split; auto.
Qed.
Lemma runs_test l c1 s1 c2 s2 n x m m1 b : runs c1 n m (holds false (ntype l) 64 x) m1 -> cmp_zero (ntype l) s1 = Some (c2, s2) -> ftruth (ntype l) x = Some b ->
  fval_ok false (ntype l) x -> runs (c1 ++ c2) n m (flag b) m1.
Proof.
  intros H G T V. eapply (runs_then E W goff fp room HS); [exact H| |].
  - intros st MT R. eapply cmp_zero_run; eauto. apply MT.
  - destruct (fmt_of (ntype l)) as [f|] eqn:F.
    + destruct (ntype l); try discriminate F; unfold cmp_zero, emit in G; injection G as <- _; reflexivity.
    + unfold ftruth in T. rewrite F in T. destruct (is_scalar (ntype l)) eqn:SC; [|discriminate]. apply cmp_zero_inv in G as [-> _]; auto.
Qed.
Lemma fgen_not l : fgen_ok l -> fgen_ok (NNot l).
Proof.
  intros IH. start (NNot l). destruct lv; [discriminate|]. apply seq_inv in G as (c1 & s1 & c2 & G1 & G2 & ->).
  opt Q. opt Q. injection Q as <-. assert (z = 64) by lia. subst z. opt EV. destruct p as [x m1]. opt EV. injection EV as <- <-.
  pose proof (IH false _ _ _ _ _ _ _ G1 E0 WT E2) as CL. pose proof (fev_ok E l HE _ _ _ _ WT E2) as V.
  eapply runs_weaken; [|apply Z.le_refl|eapply runs_test; eauto]. intros rs R. rewrite holds_int by reflexivity. unfold flag in R. rewrite R. apply rep_refl.
Qed.
Lemma fgen_cond c0 a b : fgen_ok c0 -> fgen_ok a -> fgen_ok b -> fgen_ok (NCond c0 a b).
Proof.
  intros IHc IHa IHb. start0 (NCond c0 a b). destruct lv; [discriminate|].
  apply andb_true_iff in WT as [WT TY]. apply andb_true_iff in WT as [WT WB]. apply andb_true_iff in WT as [WC WA].
  opt Q. opt Q. opt Q. opt Q. injection Q as <-. assert (z = 64) by lia. subst z. opt EV. destruct p as [x m1]. opt EV.
  unfold with_count in G. apply seq_inv in G as (c1 & s1 & c2 & G1 & G & ->). apply seq_inv in G as (c3 & s2 & c4 & G2 & G & ->).
  apply seq_inv in G as (c5 & s3 & c6 & G3 & G & ->). apply emit_inv in G3 as [-> ->]. apply seq_inv in G as (c7 & s4 & c8 & G4 & G & ->).
  apply seq_inv in G as (c9 & s5 & c10 & G5 & G & ->). apply emit_inv in G5 as [-> ->]. apply seq_inv in G as (c11 & s6 & c12 & G6 & G & ->). apply emit_inv in G as [-> _].
  pose proof (IHc false _ _ _ _ _ _ _ G1 E0 WC E4) as CC. pose proof (fev_ok E c0 HE _ _ _ _ WC E4) as V.
  rewrite app_assoc. eapply (runs_cond E W fp room); [eapply runs_test; eauto|].
  set (tt := ntype (NCond c0 a b)) in *. pose proof (fqual_range _ _ _ E1) as RA. pose proof (fqual_range _ _ _ E2) as RB.
  assert (X : tt = TVoid \/ fsame tt (ntype a) && fsame tt (ntype b) = true) by (destruct tt; auto).
  assert (K : forall t k u rs, (t = ntype a /\ k = z0) \/ (t = ntype b /\ k = z1) -> holds false t k u rs -> holds false tt (match tt with TVoid => 0 | _ => Z.min z0 z1 end) u rs).
  { intros t k u rs TK H. destruct X as [X|X]; [rewrite X; rewrite holds_int by reflexivity; apply rep_0|]. apply andb_true_iff in X as [X1 X2].
    assert (FT : fmt_of tt = fmt_of t) by (destruct TK as [[-> _]|[-> _]]; now apply fsame_fmt). unfold holds in *. rewrite FT. destruct (fmt_of t); auto.
    eapply rep_le; [|exact H]. destruct tt, TK as [[_ ->]|[_ ->]]; lia. }
  destruct b0; [eapply runs_weaken; [|apply Z.le_refl|eapply IHa; eauto]|eapply runs_weaken; [|apply Z.le_refl|eapply IHb; eauto]]; intros rs; apply K; auto.
Qed.
Lemma fgen_logand l r : fgen_ok l -> fgen_ok r -> fgen_ok (NLogAnd l r).
Proof.
  intros IHl IHr. start (NLogAnd l r). destruct lv; [discriminate|]. apply andb_true_iff in WT as [WL WR].
  opt Q. opt Q. opt Q. injection Q as <-. apply andb_true_iff in E2 as [C SC]. assert (z = 64 /\ z0 = 64) as [-> ->] by lia. opt EV. destruct p as [x m1]. opt EV.
  unfold with_count in G. apply seq_inv in G as (c1 & s1 & c2 & G1 & G & ->). apply seq_inv in G as (c3 & s2 & c4 & G2 & G & ->).
  apply seq_inv in G as (c5 & s3 & c6 & G3 & G & ->). apply emit_inv in G3 as [-> ->]. apply seq_inv in G as (c7 & s4 & c8 & G4 & G & ->).
  apply seq_inv in G as (c9 & s5 & c10 & G5 & G & ->). apply emit_inv in G as [-> _].
  pose proof (IHl false _ _ _ _ _ _ _ G1 E0 WL E2) as CL. pose proof (fev_ok E l HE _ _ _ _ WL E2) as VL.
  assert (H : exists y, v = b2z y /\ if Bool.eqb b false then y = b /\ m' = m1 else runs (c7 ++ c9) (need r) m1 (flag y) m').
  { destruct b; cbn [Bool.eqb].
    - opt EV. destruct p as [y m2]. opt EV. injection EV as <- <-. exists b. split; auto. pose proof (IHr false _ _ _ _ _ _ _ G4 E1 WR E4) as CR. pose proof (fev_ok E r HE _ _ _ _ WR E4) as VR.
      assert (G5' : cmp_zero (ntype r) s4 = Some (c9, s5)).
      { unfold same_class in SC. unfold ftruth in E3, E5. destruct (fmt_of (ntype l)) as [f|] eqn:FL, (fmt_of (ntype r)) as [g|] eqn:FR; try discriminate SC.
        - apply fmt_eqb_eq in SC. subst g. rewrite <- G5. now rewrite (cmp_zero_fmt (ntype l) (ntype r) f).
        - destruct (is_scalar (ntype l)) eqn:SL; [|discriminate]. destruct (is_scalar (ntype r)) eqn:SR; [|discriminate]. apply cmp_zero_inv in G5 as [-> ->]; auto. destruct (ntype r); try discriminate SR; reflexivity. }
      eapply runs_test; eauto.
    - injection EV as <- <-. exists false. auto. }
  destruct H as (y & -> & H). rewrite app_assoc, (app_assoc c7).
  eapply runs_weaken; [|apply Z.le_refl|apply (runs_logic E W fp room (c1 ++ c3) (c7 ++ c9) (need l) (need r) m b m1 y m' BNE); auto; eapply runs_test; eauto].
  intros rs R. rewrite holds_int by reflexivity. exact R.
Qed.
Lemma fgen_logor l r : fgen_ok l -> fgen_ok r -> fgen_ok (NLogOr l r).
Proof.
  intros IHl IHr. start (NLogOr l r). destruct lv; [discriminate|]. apply andb_true_iff in WT as [WL WR].
  opt Q. opt Q. opt Q. injection Q as <-. assert (z = 64 /\ z0 = 64) as [-> ->] by lia. opt EV. destruct p as [x m1]. opt EV.
  unfold with_count in G. apply seq_inv in G as (c1 & s1 & c2 & G1 & G & ->). apply seq_inv in G as (c3 & s2 & c4 & G2 & G & ->).
  apply seq_inv in G as (c5 & s3 & c6 & G3 & G & ->). apply emit_inv in G3 as [-> ->]. apply seq_inv in G as (c7 & s4 & c8 & G4 & G & ->).
  apply seq_inv in G as (c9 & s5 & c10 & G5 & G & ->). apply emit_inv in G as [-> _].
  pose proof (IHl false _ _ _ _ _ _ _ G1 E0 WL E3) as CL. pose proof (fev_ok E l HE _ _ _ _ WL E3) as VL.
  assert (H : exists y, v = b2z y /\ if Bool.eqb b true then y = b /\ m' = m1 else runs (c7 ++ c9) (need r) m1 (flag y) m').
  { destruct b; cbn [Bool.eqb].
    - injection EV as <- <-. exists true. auto.
    - opt EV. destruct p as [y m2]. opt EV. injection EV as <- <-. exists b. split; auto. pose proof (IHr false _ _ _ _ _ _ _ G4 E1 WR E5) as CR. pose proof (fev_ok E r HE _ _ _ _ WR E5) as VR.
      eapply runs_test; eauto. }
  destruct H as (y & -> & H). rewrite app_assoc, (app_assoc c7).
  eapply runs_weaken; [|apply Z.le_refl|apply (runs_logic E W fp room (c1 ++ c3) (c7 ++ c9) (need l) (need r) m b m1 y m' BEQ); auto; eapply runs_test; eauto].
  intros rs R. rewrite holds_int by reflexivity. exact R.
Qed.

(** ** Operators *)
Lemma fgen_neg t l : fgen_ok l -> fgen_ok (NNeg t l).
Proof.
  intros IH. start (NNeg t l). destruct lv; [discriminate|]. apply andb_true_iff in WT as [TY WT]. rewrite flo_fmt in G. opt Q. opt EV. destruct p as [x m1].
  pose proof (fsame_fmt _ _ TY) as FT. pose proof (fqual_range _ _ _ E0) as Qa. destruct (fmt_of t) as [f|] eqn:F.
  - apply seq_inv in G as (c1 & s1 & c2 & G1 & G2 & ->). apply emit_inv in G2 as [-> _]. injection EV as <- <-. injection Q as <-.
    pose proof (IH false _ _ _ _ _ _ _ G1 E0 WT E1) as CL. pose proof (fev_ok E l HE _ _ _ _ WT E1) as V. unfold fval_ok in V. rewrite <- FT in V.
    eapply (runs_then E W goff fp room HS); [exact CL| |reflexivity]. intros st MT R. rewrite (holds_fmt _ f) in R by auto. eexists. split; [reflexivity|].
    rewrite (holds_fmt _ f) by auto. cbn. change (rg st FA0) with (rg st (FA 0)). now rewrite R, unbox_box.
  - destruct (is_float t); [discriminate|]. apply seq_inv in G as (c1 & s1 & c2 & G1 & G2 & ->). apply emit_inv in G2 as [-> _].
    opt EV. injection EV as <- <-. unfold neg_val in E2. pose proof (IH false _ _ _ _ _ _ _ G1 E0 WT E1) as CL.
    destruct (int_repr t) as [(sg, n)|] eqn:R; [|discriminate]. pose proof (int_repr_width _ _ _ R) as Wn.
    eapply (runs_then E W goff fp room HS); [exact CL| |destruct (size_of t =? 8); reflexivity].
    intros st MT P. rewrite holds_int in P by auto. pose proof (proj1 (proj1 MT)) as Z0.
    assert (PN : rep z (- x) (0 - rg st (A 0))) by (apply (eqm_sub z 0 0); [lia|apply eqm_refl|exact P]).
    assert (SZ : (size_of t =? 8) = (n =? 64)) by (destruct t; cbn in R |- *; try discriminate; inversion R; reflexivity). rewrite SZ.
    destruct (n =? 64) eqn:N64.
    + injection Q as <-. eexists. split; [reflexivity|]. rewrite holds_int by auto. cbn. rewrite Z0. apply rep_wrap; [lia|].
      apply rep_trans with (- x); auto. apply (fit_rep _ _ _ _ _ _ R E2); lia.
    + destruct (n =? 32) eqn:N32; [|discriminate]. assert (n = 32) by lia. subst n. eexists. split; [reflexivity|]. rewrite holds_int by auto. cbn. rewrite Z0.
      pose proof (w_result _ _ _ _ _ _ z R ltac:(lia) E2 ltac:(lia) PN) as X. assert (q = if 32 <=? z then if sg then 64 else 32 else z) as -> by congruence.
      change (rg st A0) with (rg st (A 0)). destruct (32 <=? z) eqn:L; auto. eapply rep_le; [|exact X]. destruct sg; lia.
Qed.
Lemma fgen_bitnot l : fgen_ok l -> fgen_ok (NBitNot l).
Proof.
  intros IH. start (NBitNot l). destruct lv; [discriminate|]. apply seq_inv in G as (c1 & s1 & c2 & G1 & G2 & ->). apply emit_inv in G2 as [-> _].
  opt Q. pose proof (fqual_range _ _ _ E0) as Qa. opt EV. destruct p as [x m1]. opt EV. injection EV as <- <-. unfold bitnot_val in E2.
  pose proof (IH false _ _ _ _ _ _ _ G1 E0 WT E1) as CL.
  destruct (int_repr (ntype l)) as [(sg, n)|] eqn:R; [|discriminate]. pose proof (int_repr_width _ _ _ R) as Wn. pose proof (repr_fmt _ _ R) as FN.
  eapply (runs_then E W goff fp room HS); [exact CL| |reflexivity].
  intros st MT P. rewrite holds_int in P by auto. eexists. split; [reflexivity|]. rewrite holds_int by auto. cbn. change (rg st A0) with (rg st (A 0)).
  assert (PN : forall k, 0 <= k <= z -> rep k (Z.lnot x) (Z.lxor (rg st (A 0)) (wrap (-1)))).
  { intros k K. replace (Z.lnot x) with (Z.lxor x (-1)) by (apply Z.lxor_m1_r). apply eqm_lxor; [lia|eapply rep_le; [|exact P]; lia|].
    apply rep_wrap; [lia|apply rep_refl]. }
  destruct sg.
  - injection Q as <-. destruct (fit_cases _ _ _ _ _ R E2) as [-> _]. apply PN. lia.
  - injection Q as <-. apply rep_trans with (Z.lnot x); [apply PN; lia|]. apply (fit_rep _ _ _ _ _ _ R E2); lia.
Qed.
Lemma trunc_fit sg n v r : 0 < n <= 64 -> in_range sg n v = true -> rep n v r -> rep 64 v (trunc_reg sg n r).
Proof.
  intros N I R. apply in_range_true in I; [|lia]. rewrite trunc_reg_ok by lia. destruct sg.
  - apply rep_wrap; [lia|]. rewrite (sx_cong n r v R) by lia. rewrite sx_id by lia. apply rep_refl.
  - rewrite R, Z.mod_small by lia. apply rep_refl.
Qed.
(** truncation to the integer of [w] bits that the type is computed in *)
Lemma fcvt_rep sg n w f x z : (w = 32 \/ w = 64) -> 0 < n <= w -> fin f x -> ftrunc f x = Some z -> in_range sg n z = true ->
  rep (if sg then 64 else w) z (fcvt_int sg w f x).
Proof.
  intros Hw N F T I. apply in_range_true in I; [|lia]. pose proof (Z.pow_le_mono_r 2 n w ltac:(lia) ltac:(lia)). pose proof (Z.pow_le_mono_r 2 (n - 1) (w - 1) ltac:(lia) ltac:(lia)).
  assert (J : in_range sg w z = true) by (apply in_range_true; [lia|]; destruct sg; lia). rewrite (fcvt_ok sg w f x z Hw T J). destruct sg.
  - rewrite sx_id by lia. apply rep_wrap; [lia|apply rep_refl].
  - apply rep_wrap; [lia|]. apply rep_sx; lia.
Qed.
Lemma to_int_run sg n w f x z rs ms : (w = 32 \/ w = 64) -> 0 < n <= w -> fin f x -> ftrunc f x = Some z -> in_range sg n z = true -> rs (FA 0) = box f x ->
  exists rs', exec_list (w_sym W) [IFToInt sg w f A0 FA0] rs ms = Some (rs', ms) /\ rep (if sg then 64 else w) z (rs' (A 0)) /\
              rep 64 z (trunc_reg sg n (rs' (A 0))).
Proof.
  intros Hw N F T I H. eexists. split; [reflexivity|]. cbn -[fcvt_int unbox trunc_reg]. change (rs FA0) with (rs (FA 0)). rewrite H, unbox_box by auto.
  pose proof (fcvt_rep sg n w f x z Hw N F T I) as R. split; auto. apply trunc_fit; auto; [lia|]. eapply rep_le; [|exact R]. destruct sg; lia.
Qed.
Lemma fcast_run s t s0 c s' a q x v rs ms : cast s t s0 = Some (c, s') -> fcast s t x = Some v -> fcast_qual s t a = Some q -> 0 <= a <= 64 -> fval_ok false s x ->
  regs_ok rs -> holds false s a x rs -> pure c = true /\ exists rs', exec_list (w_sym W) c rs ms = Some (rs', ms) /\ holds false t q v rs'.
Proof.
  intros G C Q A64 V RO H. unfold fcast in C. unfold fcast_qual in Q.
  destruct (fmt_of s) as [f|] eqn:F, (fmt_of t) as [g|] eqn:GT.
  - (* between the formats *)
    rewrite (holds_fmt s f) in H by auto. unfold fval_ok in V. rewrite F in V. injection C as <-. injection Q as <-.
    destruct s; try discriminate F; injection F as <-; (destruct t; try discriminate GT; injection GT as <-);
      cbn [cast type_id cast_matrix] in G; apply emit_inv in G as [-> _]; (split; [reflexivity|]); eexists; (split; [reflexivity|]); unfold holds; cbn [fmt_of fmt_eqb]; auto;
      cbn -[box unbox fconv]; change (rs FA0) with (rs (FA 0)); now rewrite H, unbox_box.
  - (* to integers *)
    rewrite (holds_fmt s f) in H by auto. unfold fval_ok in V. rewrite F in V.
    assert (TI : forall sg n, int_repr t = Some (sg, n) -> q <> 0 -> ftrunc f x = Some v /\ in_range sg n v = true).
    { intros sg n R NQ. destruct t; try discriminate Q; try discriminate R; rewrite R in C; destruct (ftrunc f x) as [z|]; try discriminate C;
        (destruct (in_range sg n z) eqn:I; [|discriminate]); injection C as <-; auto. }
    assert (FIN : forall k k', cast s t s0 = Some (IFToInt (fst k) (snd k) f A0 FA0 :: (if snd k' =? 0 then [] else [ISlli A0 A0 (64 - snd k'); (if fst k' : bool then ISrai else ISrli) A0 A0 (64 - snd k')]), s0) ->
               (snd k = 32 \/ snd k = 64) -> int_repr t = Some (fst k, if snd k' =? 0 then snd k else snd k') -> fst k' = fst k -> 0 <= snd k' <= snd k -> q = (if snd k' =? 0 then if fst k then 64 else snd k else 64) ->
               pure c = true /\ exists rs', exec_list (w_sym W) c rs ms = Some (rs', ms) /\ holds false t q v rs').
    { intros [sg w] [sg' n] GE Hw R Es N Eq. cbn [fst snd] in *. subst sg'. assert (c = IFToInt sg w f A0 FA0 :: (if n =? 0 then [] else [ISlli A0 A0 (64 - n); (if sg then ISrai else ISrli) A0 A0 (64 - n)])) by congruence. subst c.
      destruct (TI _ _ R) as [T I]; [destruct (n =? 0), sg; lia|].
      destruct (to_int_run sg (if n =? 0 then w else n) w f x v rs ms Hw ltac:(destruct (n =? 0) eqn:?; lia) V T I H) as (rs1 & X & R1 & R2).
      destruct (n =? 0).
      - split; [reflexivity|]. exists rs1. split; auto. rewrite holds_int by auto. now subst q.
      - split; [destruct sg; reflexivity|]. change (IFToInt sg w f A0 FA0 :: ?l) with ([IFToInt sg w f A0 FA0] ++ l).
        destruct sg; (eexists; split; [erewrite exec_list_app; rewrite X; reflexivity|]); rewrite holds_int by auto; subst q; exact R2. }
    destruct t as [| |[]|[]|[]|[]| | | | | | | | | |]; try discriminate Q; injection Q as <-;
      destruct s; try discriminate F; injection F as <-.
    all: try match goal with
      | |- context [holds false (TChar ?u) _ _ _] => apply (FIN (negb u, 32) (negb u, 8))
      | |- context [holds false (TShort ?u) _ _ _] => apply (FIN (negb u, 32) (negb u, 16))
      | |- context [holds false (TInt ?u) _ _ _] => apply (FIN (negb u, 32) (negb u, 0))
      | |- context [holds false (TLong ?u) _ _ _] => apply (FIN (negb u, 64) (negb u, 0)) end; cbn [fst snd]; auto; try reflexivity; try lia.
    all: try (now apply emit_inv in G as [-> _]; split; [reflexivity|]; exists rs; split; auto; rewrite holds_int by auto; apply rep_0).
  - rewrite holds_int in H by auto. rewrite fval_int in V by auto.
    assert (FIN : forall sg w n, c = [IFFromInt g sg w FA0 A0] -> (w = 32 \/ w = 64) -> w <= a -> n <= w -> int_repr s = Some (sg, n) -> 
               pure c = true /\ exists rs', exec_list (w_sym W) c rs ms = Some (rs', ms) /\ holds false t 64 v rs').
    { intros sg w n -> Hw WA NW R. split; [reflexivity|]. eexists. split; [reflexivity|]. rewrite (holds_fmt _ g) by auto. cbn -[box unbox fof int_operand].
      change (rs A0) with (rs (A 0)). pose proof (int_repr_width _ _ _ R).
      assert (I : in_range sg n x = true).
      { assert (SC : is_scalar s = true) by (unfold is_scalar; now rewrite R). pose proof (scalar_in s x F SC ltac:(now rewrite fval_int)) as VI. unfold val_in, repr_or_addr in VI. now rewrite R in VI. }
      assert (H' : rep w x (rs (A 0))) by (eapply rep_le; [|exact H]; lia). rewrite (operand_ok sg n w x) by (auto; lia).
      destruct s; try discriminate R; try discriminate Q; cbn in C; injection C as <-; reflexivity. }
    assert (exists sg w n, c = [IFFromInt g sg w FA0 A0] /\ (w = 32 \/ w = 64) /\ w <= a /\ n <= w /\ int_repr s = Some (sg, n) /\ q = 64) as (sg & w & n & E1 & E2 & E3 & E4 & E5 & ->).
    { destruct t; try discriminate GT; injection GT as <-;
        destruct s as [| |[]|[]|[]|[]| | | | | | | | | |]; try discriminate Q;
        match type of Q with (if ?b then _ else _) = _ => destruct b eqn:L; [|discriminate] end; injection Q as <-;
        cbn in G; apply emit_inv in G as [-> _]; do 3 eexists; (split; [reflexivity|]); (split; [auto|]); (split; [lia|]); refine (conj _ (conj eq_refl eq_refl)); lia. }
    now apply (FIN sg w n).
  - rewrite holds_int in H by auto. destruct (convertible s t) eqn:CV; [|discriminate]. injection Q as <-. rewrite fval_int in V by auto.
    assert (VI : t <> TVoid -> val_in s x).
    { intros NV. destruct (is_scalar s) eqn:SC; [apply scalar_in; auto; now rewrite fval_int|].
      unfold val_in, repr_or_addr. assert (R : int_repr s = None) by (unfold is_scalar in SC; destruct (int_repr s); [discriminate|auto]).
      rewrite R. cbn [fst snd]. apply in_range_true; [lia|]. apply (aggr_addr false s); auto.
      destruct t, s; try discriminate CV; try discriminate SC; try discriminate R; try reflexivity; contradiction NV; reflexivity. }
    destruct (cast_run W s t s0 c s' rs ms x G CV ltac:(congruence) RO) as [P (rs' & X & RR)]. split; auto. exists rs'. split; auto. rewrite holds_int by auto. rewrite RR.
    apply (cast_ok s t a x v); auto. apply RO.
Qed.
Lemma fgen_cast t l : fgen_ok l -> fgen_ok (NCast t l).
Proof.
  intros IH. start (NCast t l). destruct lv; [discriminate|]. apply seq_inv in G as (c1 & s1 & c2 & G1 & G2 & ->).
  opt Q. opt EV. destruct p as [x m1]. opt EV. injection EV as <- <-. pose proof (IH false _ _ _ _ _ _ _ G1 E0 WT E1) as CL.
  pose proof (fev_ok E l HE _ _ _ _ WT E1) as V. pose proof (fqual_range _ _ _ E0) as Qa.
  assert (RUN : forall rs ms, regs_ok rs -> holds false (ntype l) z x rs -> pure c2 = true /\ exists rs', exec_list (w_sym W) c2 rs ms = Some (rs', ms) /\ holds false t q z0 rs')
    by (intros rs ms RO H; eapply fcast_run; eauto).
  intros p k st lo CA ND PC MT FS SL. pose proof CA as CA'. apply code_at_app in CA' as [CA1 CA2].
  destruct (CL p k st lo CA1 ND PC MT FS SL) as (s2 & ST & PC1 & R & MT1 & AB).
  destruct (RUN (rg s2) (mm s2) (proj1 MT1) R) as [PU _].
  assert (C : runs (c1 ++ c2) (need l) m (holds false t q z0) m1).
  { eapply (runs_then E W goff fp room HS); [exact CL| |exact PU]. intros st' MT' R'. apply (RUN (rg st') (mm st') (proj1 MT') R'). }
  exact (C p k st lo CA ND PC MT FS SL).
Qed.
Lemma fbin_run o f s c s' x y v rs ms : fbin_code o f s = Some (c, s') -> fbin_val o f x y = Some v -> fin f x -> fin f y -> regs_ok rs -> rs (FA 0) = box f x -> rs (FA 1) = box f y ->
  pure c = true /\ exists rs', exec_list (w_sym W) c rs ms = Some (rs', ms) /\
    match o with Eq | Ne | Lt | Le => rs' (A 0) = v | _ => rs' (FA 0) = box f v end.
Proof.
  intros G V FX FY RO X Y. destruct o; try discriminate V; apply emit_inv in G as [-> _]; injection V as <-; (split; [reflexivity|]); eexists; (split; [reflexivity|]);
    cbn -[box unbox fop fcmp wrap]; change (rs FA0) with (rs (FA 0)); change (rs FA1) with (rs (FA 1)); rewrite X, Y, !unbox_box by auto; try reflexivity.
  unfold b2z, fcmp. destruct (SpecFloat.SFeqb (decode f x) (decode f y)); reflexivity.
Qed.
Lemma fbin_not_pure o f s c s' : fbin_code o f s = Some (c, s') -> pure c = true.
Proof. intros G. destruct o; try discriminate G; apply emit_inv in G as [-> _]; reflexivity. Qed.
Lemma fgen_bin o t l r : fgen_ok l -> fgen_ok r -> fgen_ok (NBin o t l r).
Proof.
  intros IHl IHr. start (NBin o t l r). destruct lv; [discriminate|]. rewrite flo_fmt in G.
  apply andb_true_iff in WT as [WT TY]. apply andb_true_iff in WT as [WL WR].
  opt Q. opt Q. rename E0 into QL, E1 into QR. pose proof (fqual_range _ _ _ QL) as Qa. pose proof (fqual_range _ _ _ QR) as Qb.
  opt EV. destruct p as [y m1]. opt EV. destruct p as [x m2]. opt EV. injection EV as <- <-. rename E0 into ER, E1 into EL, E2 into BV.
  pose proof (fev_ok E l HE _ _ _ _ WL EL) as VX. pose proof (fev_ok E r HE _ _ _ _ WR ER) as VY.
  destruct (fmt_of (ntype l)) as [f|] eqn:F.
  - apply seq_inv in G as (c1 & s1 & c2 & G1 & G & ->). apply seq_inv in G as (c3 & s2 & c4 & G3 & G & ->). apply fpush_inv in G3. subst c3.
    apply seq_inv in G as (c5 & s3 & c6 & G5 & G & ->). apply seq_inv in G as (c7 & s4 & c8 & G7 & G & ->). apply fpop_inv in G7. subst c7.
    destruct (fbin_ok _ _ _ _ _ _ _ _ F BV TY) as (_ & FT & FR). unfold fval_ok in VX, VY. rewrite F in VX. rewrite FR in VY. injection Q as <-.
    pose proof (IHr false _ _ _ _ _ _ _ G1 QR WR ER) as CR. pose proof (IHl false _ _ _ _ _ _ _ G5 QL WL EL) as CL.
    eapply (runs_pushed E W fp room FA0 (fpush_code FA0)); [intros; apply fpush_same|reflexivity|discriminate|exact CR|exact CL|apply need_pos|].
    intros rs ms rs0 RO FP SM PX SB IV PY RO0 LD. rewrite (holds_fmt _ f) in PX by auto. rewrite (holds_fmt _ f) in PY by auto.
    destruct (fpop_run W FA1 rs ms RO ltac:(lia) ltac:(discriminate) ltac:(discriminate)) as (rs1 & X1 & RO1 & SP1 & OT1 & A1v).
    destruct (fbin_run o f s4 c8 s' x y z1 rs1 ms G BV VX VY RO1) as [PU (rs2 & X2 & R2)]; [rewrite OT1 by discriminate; exact PX|change (FA 1) with FA1; rewrite A1v, LD; exact PY|].
    destruct (pure_exec _ _ _ _ _ _ (sym_range E W goff fp HS) PU RO1 X2) as (_ & RO2 & K2).
    exists rs2, ms. split; [rewrite exec_list_app, X1; exact X2|]. split.
    + destruct o; try discriminate BV; first [rewrite (holds_fmt _ f) by exact FT; exact R2|rewrite holds_int by exact FT; rewrite R2; apply rep_refl].
    + split; auto. split; [rewrite K2, OT1; auto; discriminate|]. split; [rewrite K2 by auto; rewrite SP1; pose proof (proj2 RO Sp); apply mod_id; lia|]. split; auto.
  - destruct (is_float (ntype l)); [discriminate|].
    apply seq_inv in G as (c1 & s1 & c2 & G1 & G & ->). apply seq_inv in G as (c3 & s2 & c4 & G3 & G & ->). apply push_inv in G3. subst c3.
    apply seq_inv in G as (c5 & s3 & c6 & G5 & G & ->). apply seq_inv in G as (c7 & s4 & c8 & G7 & G & ->). apply pop_inv in G7. subst c7.
    apply emit_inv in G as [-> _].
    assert (BT : bin_typed o t (ntype l) (ntype r) /\ fmt_of (ntype r) = None /\ fmt_of t = None).
    { assert (S2 : fsame t (ntype l) && fsame t (ntype r) = true -> (same_repr t (ntype l) = true /\ same_repr t (ntype r) = true) /\ fmt_of (ntype r) = None /\ fmt_of t = None).
      { intros H. apply andb_true_iff in H as [H1 H2]. pose proof (fsame_fmt _ _ H1) as F1. pose proof (fsame_fmt _ _ H2) as F2. rewrite F in F1. repeat split; auto; try congruence; apply fsame_int; auto. }
      assert (SC : fsame (ntype l) (ntype r) && same_repr t (TInt false) = true -> (same_repr (ntype l) (ntype r) = true /\ same_repr t (TInt false) = true) /\ fmt_of (ntype r) = None /\ fmt_of t = None).
      { intros H. apply andb_true_iff in H as [H1 H2]. pose proof (fsame_fmt _ _ H1) as F1. split; [split; auto; apply fsame_int; auto|]. split; [congruence|]. pose proof (same_repr_eq _ _ H2) as (p & R & _). eapply repr_fmt; eauto. }
      unfold bin_typed. destruct o; try (now apply S2); try (now apply SC).
      - apply orb_true_iff in TY as [TY|TY]; [destruct (S2 TY) as [A B]; split; auto|]. apply andb_true_iff in TY as [TY T3]. apply andb_true_iff in TY as [T1 T2]. split; auto.
        split; [destruct (ntype r); auto; discriminate T3|]. pose proof (same_repr_eq _ _ T1) as (p & R & _). eapply repr_fmt; eauto.
      - apply andb_true_iff in TY as [T1 T2]. destruct (int_repr (ntype r)) eqn:R; [|discriminate]. pose proof (same_repr_eq _ _ T1) as (p' & R' & _). split; [split; auto; congruence|]. split; eapply repr_fmt; eauto.
      - apply andb_true_iff in TY as [T1 T2]. destruct (int_repr (ntype r)) eqn:R; [|discriminate]. pose proof (same_repr_eq _ _ T1) as (p' & R' & _). split; [split; auto; congruence|]. split; eapply repr_fmt; eauto. }
    destruct BT as (BT & FR & FT). rewrite fval_int in VX by auto. rewrite fval_int in VY by auto.
    assert (VX' : int_repr (ntype l) <> None -> val_of (ntype l) x = true).
    { intros N. destruct (int_repr (ntype l)) as [p|] eqn:R; [|congruence]. eapply val_ok_val; eauto. }
    assert (VY' : int_repr (ntype r) <> None -> val_of (ntype r) y = true).
    { intros N. destruct (int_repr (ntype r)) as [p|] eqn:R; [|congruence]. eapply val_ok_val; eauto. }
    pose proof (IHr false _ _ _ _ _ _ _ G1 QR WR ER) as CR. pose proof (IHl false _ _ _ _ _ _ _ G5 QL WL EL) as CL.
    eapply (runs_pushed E W fp room A0 (push_code A0)); [reflexivity|reflexivity|discriminate|exact CR|exact CL|apply need_pos|].
    intros rs ms rs0 RO FP SM PX SB IV PY RO0 LD. rewrite holds_int in PX by auto. rewrite holds_int in PY by auto.
    destruct (pop_run W A1 rs ms RO ltac:(lia) ltac:(discriminate) ltac:(discriminate)) as (rs1 & X1 & RO1 & SP1 & OT1 & A1v).
    destruct (bin_code_run W o t (ntype l) rs1 ms RO1) as [PU (rs2 & X2 & R2)].
    destruct (pure_exec _ _ _ _ _ _ (sym_range E W goff fp HS) PU RO1 X2) as (_ & RO2 & K2).
    exists rs2, ms. split; [rewrite exec_list_app, X1; exact X2|]. split.
    + rewrite holds_int by auto. rewrite R2. rewrite (OT1 (A 0)) by discriminate. change (rs1 (A 1)) with (rs1 A1). rewrite A1v, LD. change (rs0 A0) with (rs0 (A 0)).
      eapply (bin_ok o t (ntype l) (ntype r) z z0); eauto; [apply RO|apply RO0].
    + split; auto. split; [rewrite K2, OT1; auto; discriminate|]. split; [rewrite K2 by auto; rewrite SP1; pose proof (proj2 RO Sp); apply mod_id; lia|]. split; auto.
Qed.
Lemma fgen_assign l r : fgen_ok l -> fgen_ok r -> fgen_ok (NAssign l r).
Proof.
  intros IHl IHr. start (NAssign l r). destruct lv; [discriminate|]. cbn [andb orb] in *.
  apply andb_true_iff in WT as [WT TY]. apply andb_true_iff in WT as [WL WR].
  apply seq_inv in G as (c1 & s1 & c2 & G1 & G & ->). apply seq_inv in G as (c3 & s2 & c4 & G3 & G & ->). apply push_inv in G3. subst c3.
  apply seq_inv in G as (c5 & s3 & c6 & G5 & G & ->).
  destruct (is_bitfield l || is_struct_union (ntype l)) eqn:BS; [discriminate|]. apply orb_false_iff in BS as [BF SU].
  opt Q. opt Q. rename E0 into QL, E1 into QR. pose proof (fqual_range _ _ _ QR) as Qb.
  destruct (negb (z =? 64)) eqn:C; [discriminate|]. assert (z = 64) by lia. subst z. clear C.
  opt EV. destruct p as [a m1]. opt EV. destruct p as [x m2]. opt EV. injection EV as <- <-. rename E0 into EL, E1 into ER, E2 into SV.
  pose proof (IHl true _ _ _ _ _ _ _ G1 QL WL EL) as CL. pose proof (IHr false _ _ _ _ _ _ _ G5 QR WR ER) as CR.
  pose proof (fev_ok E l HE _ _ _ _ WL EL) as Ba. pose proof (fev_ok E r HE _ _ _ _ WR ER) as VX.
  assert (G' : store (ntype l) s3 = Some (c6, s')).
  { destruct (assign_view l) as [(l0 & t & off & o & w & ->)|V]; [discriminate BF|]. rewrite V in G. exact G. }
  clear G. rename G' into G.
  eapply (runs_pushed E W fp room A0 (push_code A0)); [reflexivity|reflexivity|discriminate|exact CL|exact CR|apply need_pos|]. clear CL CR.
  intros rs ms rs0 RO FP SM PX SB IV PA RO0 LD. rewrite holds_lv in PA.
  assert (LA : le_load ms (rs Sp) 8 = a) by (rewrite LD; apply rep_addr; auto; apply RO0). clear PA LD.
  pose proof (fsame_fmt _ _ TY) as FT. unfold fstore in SV. destruct (fmt_of (ntype l)) as [f|] eqn:F.
  - injection Q as <-. destruct (accessible (e_valid E) a (size_of (ntype l))) eqn:AC; [|discriminate]. injection SV as <-. apply accessible_spec in AC as (A1' & A2 & A3).
    rewrite (holds_fmt _ f) in PX by auto. unfold fval_ok in VX. rewrite <- FT in VX. pose proof (fmt_size _ _ F) as SZ.
    assert (c6 = pop_code A1 ++ [IFStore f FA0 0 A1]) as ->.
    { unfold store in G. apply seq_inv in G as (d1 & u1 & d2 & D1 & D2 & ->). apply pop_inv in D1. subst d1. f_equal. destruct (ntype l); try discriminate F; injection F as <-; apply emit_inv in D2 as [-> _]; reflexivity. }
    destruct (pop_run W A1 rs ms RO ltac:(lia) ltac:(discriminate) ltac:(discriminate)) as (rs1 & X1 & RO1 & SP1 & OT1 & A1v).
    exists rs1, (le_store ms a (size_of (ntype l)) (box f x)). split.
    { rewrite exec_list_app, X1. cbn [exec_list exec_straight]. rewrite SZ in *. rewrite (ea_ok rs1 A1 0 (width f / 8) a); [|rewrite A1v, LA, Z.add_0_r; now apply mod_id|lia].
      change (rs1 FA0) with (rs1 (FA 0)). rewrite (OT1 (FA 0)) by discriminate. now rewrite PX. }
    split; [rewrite (holds_fmt _ f) by auto; rewrite OT1 by discriminate; exact PX|]. split; auto. split; [rewrite OT1 by discriminate; auto|].
    split; [rewrite SP1; pose proof (proj2 RO Sp); apply mod_id; lia|]. split.
    + apply same_store; auto. unfold rep. rewrite SZ. replace (8 * (width f / 8)) with (width f) by (destruct f; reflexivity). apply box_mod.
    + intros y Vy Ly. apply le_store_out. eapply valid_out; eauto.
  - rewrite holds_int in PX by auto. destruct (8 * size_of (ntype l) <=? z0) eqn:SZ; [|discriminate]. injection Q as <-.
    assert (S : same_repr (ntype l) (ntype r) = true) by (apply fsame_int; auto).
    destruct (same_repr_eq _ _ S) as (p & R & _).
    assert (SV' : accessible (e_valid E) a (size_of (ntype l)) = true /\ m0 = le_store m2 a (size_of (ntype l)) x).
    { unfold store_val in SV. rewrite R in SV. destruct (accessible (e_valid E) a (size_of (ntype l))); destruct (ntype l); try discriminate SU; try discriminate SV; split; congruence. }
    destruct SV' as [AC ->]. apply accessible_spec in AC as (A1' & A2 & A3). destruct (scalar_access _ _ R) as [SA SS].
    rewrite (store_scalar_code _ _ _ _ _ G R).
    destruct (store_scalar_run W (size_of (ntype l)) a rs ms RO SB LA A1' A2 ltac:(lia)) as (rs' & X & RO' & SP' & OT').
    exists rs', (le_store ms a (size_of (ntype l)) (rs (A 0))). split; auto. split; [rewrite holds_int by auto; rewrite OT' by discriminate; exact PX|]. split; auto.
    split; [rewrite OT' by discriminate; auto|]. split; auto. split; [apply same_store; auto; eapply rep_le; [|exact PX]; lia|].
    intros y Vy Ly. apply le_store_out. eapply valid_out; eauto.
Qed.
Theorem fgen_correct n : fgen_ok n.
Proof.
  induction n using node_induct.
  all: auto using fgen_num, fgen_var, fgen_deref, fgen_addr, fgen_member, fgen_comma, fgen_not, fgen_cond, fgen_logand, fgen_logor, fgen_neg, fgen_bitnot, fgen_cast, fgen_bin, fgen_assign.
  all: intros lv s c s' q m v m' G Q WT EV; cbn [fqual fwell_typed fev] in Q, WT, EV.
  all: match type of EV with (if int_only ?n then _ else _) = _ => destruct (int_only n) eqn:IO; [eapply int_case; eauto|discriminate] end.
Qed.
End Sim.
