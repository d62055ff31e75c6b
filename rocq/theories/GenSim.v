(** The simulation theorem for expressions. *)
From Verif Require Import Base TypeModel IntArith NodeModel NodeProofs ValSpec NodeSpec FpSpec RvSpec GenModel GenSpec RvProofs GenArith GenBits GenRun GenBytes GenProofs.
From Coq Require Import ZifyBool ZifyNat.
Local Notation length := List.length.

Section Sim.
Variables (E : env) (W : world) (goff : nat -> Z) (fp room : Z).
Hypothesis HS : setting E W goff fp.
Notation same_mem := (same_mem E). Notation matches := (matches E fp). Notation free_stack := (free_stack E room).
Notation above_same := (above_same E). Notation computes := (computes E W fp room). Notation gen_ok := (gen_ok E W goff fp room).
Let HE : env_ok E := set_env _ _ _ _ HS.

(** ** Addresses and loads *)
Lemma local_addr_run k rs ms : regs_ok rs -> rs Fp = fp ->
  pure (local_addr (goff k)) = true /\ exists rs', exec_list (w_sym W) (local_addr (goff k)) rs ms = Some (rs', ms) /\ rs' (A 0) = e_addr E (VLocal k).
Proof.
  intros RO FP. rewrite (set_loc _ _ _ _ HS). unfold local_addr. destruct (beyond (goff k)); (split; [reflexivity|]; eexists; split; [reflexivity|]; cbn).
  - rewrite FP. unfold wrap. now rewrite Zplus_mod_idemp_r.
  - now rewrite FP.
Qed.
Lemma with_load t s0 c s' m v a q : load t s0 = Some (c, s') -> loadable t = true -> load_val (e_valid E) t m a = Some v -> 0 <= a < 2 ^ 64 -> q = 64 ->
  forall st, matches m st -> rep q a (rg st (A 0)) -> exists rs', exec_list (w_sym W) c (rg st) (mm st) = Some (rs', mm st) /\ rep 64 v (rs' (A 0)).
Proof.
  intros LD LO LV Ba -> st (RO & FP & SM) P. destruct (load_run E W t s0 c s' m a v (rg st) (mm st) LD LO LV Ba) as [_ H]; auto.
  apply rep_addr; auto. apply RO.
Qed.
Lemma load_pure t s0 c s' : load t s0 = Some (c, s') -> loadable t = true -> pure c = true.
Proof.
  intros LD LO. unfold loadable in LO. destruct (int_repr t) as [p|] eqn:R.
  - destruct (scalar_access t p R) as [SA SB].
    assert (C : c = [if access_size t =? 8 then ILoad false 8 A0 0 A0 else ILoad (is_unsigned t) (access_size t) A0 0 A0]).
    { destruct t; try discriminate R; cbn in LD; inversion LD; reflexivity. }
    subst c. destruct (access_size t =? 8); [reflexivity|]. cbn. lia.
  - apply andb_true_iff in LO as [AG _]. assert (c = []) by (destruct t; try discriminate AG; cbn in LD; inversion LD; reflexivity). now subst c.
Qed.

Lemma gen_num t v : gen_ok (NNum t v).
Proof.
  intros lv s c s' q m x m' G Q WT EV. cbn [gen qual ev need] in *. destruct lv; [discriminate|]. destruct (val_of t v) eqn:V; [|discriminate].
  replace (is_float t) with false in Q by (clear - V; destruct t; try reflexivity; discriminate V). replace (flo t) with (@None fmt) in G by (clear - V; destruct t; try reflexivity; discriminate V). destruct (is_float t); [discriminate|]. apply emit_inv in G as [-> _].
  assert (x = v /\ m' = m /\ q = 64) as (-> & -> & ->) by (repeat split; congruence).
  apply (computes_pure E W goff fp room HS); [|reflexivity]. intros st MT. eexists. split; [reflexivity|]. cbn. apply rep_wrap; [lia|]. apply rep_sx; lia.
Qed.
Lemma gen_var x t : gen_ok (NVar x t).
Proof.
  intros lv s c s' q m v m' G Q WT EV. cbn [gen qual ev need] in *. destruct (lv || loadable t) eqn:LL; [|discriminate]. assert (q = 64) by congruence. subst q.
  assert (G' : exists c1 s1 c2, (match x with VLocal k => emit (local_addr (goff k)) | VGlobal g => with_count (fun c => emit [Lab (LPcrel c); ILa A0 g]) end) s = Some (c1, s1) /\
            (if lv then emit [] else load t) s1 = Some (c2, s') /\ c = c1 ++ c2).
  { destruct t; try discriminate G; apply seq_inv in G; exact G. }
  clear G. destruct G' as (c1 & s1 & c2 & G1 & G2 & ->).
  assert (A1 : forall M n, computes c1 64 n M (e_addr E x) M).
  { intros M n. destruct x as [k|g].
    - apply emit_inv in G1 as [-> _]. apply (computes_pure E W goff fp room HS).
      + intros st (RO & FP & SM). destruct (local_addr_run k (rg st) (mm st) RO FP) as [_ (rs' & X & R)]. exists rs'. split; auto. rewrite R. apply rep_refl.
      + unfold local_addr. destruct (beyond (goff k)); reflexivity.
    - unfold with_count in G1. apply emit_inv in G1 as [-> _]. apply (computes_pure E W goff fp room HS); [|reflexivity].
      intros st MT. eexists. split; [reflexivity|]. cbn. rewrite (set_sym _ _ _ _ HS). apply rep_refl. }
  destruct lv.
  - apply emit_inv in G2 as [-> _]. rewrite app_nil_r. assert (v = e_addr E x /\ m' = m) as [-> ->] by (split; congruence). apply A1.
  - cbn [orb] in LL. destruct (load_val (e_valid E) t m (e_addr E x)) as [v0|] eqn:LV; [|discriminate].
    assert (v0 = v /\ m' = m) as [-> ->] by (split; congruence).
    eapply (computes_then E W goff fp room HS); [apply A1| |eapply load_pure; eauto]. eapply with_load; eauto.
Qed.
Lemma gen_deref l : gen_ok l -> gen_ok (NDeref l).
Proof.
  intros IH lv s c s' q m v m' G Q WT EV. cbn [gen qual ev need well_typed] in *.
  apply seq_inv in G as (c1 & s1 & c2 & G1 & G2 & ->). apply andb_true_iff in WT as [HB WT].
  destruct (qual false l) as [a|] eqn:QL; [|discriminate]. destruct ((a =? 64) && (lv || loadable (ntype (NDeref l)))) eqn:C; [|discriminate].
  assert (q = 64) by congruence. subst q. apply andb_true_iff in C as [C1 C2]. apply Z.eqb_eq in C1. subst a.
  destruct (ev E false l m) as [[a m1]|] eqn:EL; [|discriminate]. pose proof (IH false _ _ _ _ _ _ _ G1 QL WT EL) as CL.
  pose proof (base_addr _ _ HB (ev_val_ok E l HE _ _ _ _ WT EL)) as Ba.
  destruct lv.
  - apply emit_inv in G2 as [-> _]. rewrite app_nil_r. assert (v = a /\ m' = m1) as [-> ->] by (split; congruence). exact CL.
  - cbn [orb] in C2. destruct (load_val (e_valid E) _ m1 a) as [v0|] eqn:LV; [|discriminate]. assert (v0 = v /\ m' = m1) as [-> ->] by (split; congruence).
    eapply (computes_then E W goff fp room HS); [exact CL| |eapply load_pure; eauto]. eapply with_load; eauto.
Qed.
Lemma gen_addr l : gen_ok l -> gen_ok (NAddr l).
Proof. intros IH lv s c s' q m v m' G Q WT EV. cbn [gen qual ev need well_typed] in *. destruct lv; [discriminate|]. eapply IH; eauto. Qed.

Lemma gen_member l i : gen_ok l -> gen_ok (NMember l i).
Proof.
  intros IH lv s c s' q m v m' G Q WT EV. cbn [gen qual ev need well_typed] in *.
  apply seq_inv in G as (c1 & s1 & c2 & G1 & G2 & ->). apply seq_inv in G2 as (c3 & s2 & c4 & G3 & G4 & ->). apply emit_inv in G3 as [-> ->].
  apply andb_true_iff in WT as [MO WT]. destruct (qual true l) as [a|] eqn:QL; [|discriminate]. destruct (negb (a =? 64)) eqn:C; [discriminate|].
  assert (a = 64) by lia. subst a. destruct (ev E true l m) as [[a m1]|] eqn:EL; [|discriminate].
  pose proof (IH true _ _ _ _ _ _ _ G1 QL WT EL) as CL. set (b := (a + m_off i) mod 2 ^ 64) in *.
  assert (Ba : 0 <= b < 2 ^ 64) by (apply mod_pow_range; lia). pose proof (addr_range E W goff fp HS l _ _ _ WT EL) as Ra.
  rewrite app_assoc. assert (CB : computes (c1 ++ (if beyond (m_off i) then [ILi T0 (m_off i); IOp ADD A0 A0 T0] else [IAddi A0 A0 (m_off i)])) 64 (need l) m b m1).
  { eapply (computes_then E W goff fp room HS); [exact CL| |destruct (beyond (m_off i)); reflexivity]. intros st MT R.
    pose proof (rep_addr a (rg st (A 0)) Ra (proj2 (proj1 MT) (A 0)) R) as RA.
    destruct (beyond (m_off i)); (eexists; split; [reflexivity|]; cbn; change (rg st A0) with (rg st (A 0)); rewrite RA).
    - unfold wrap. rewrite Zplus_mod_idemp_r. apply rep_refl.
    - apply rep_refl. }
  destruct lv.
  - apply emit_inv in G4 as [-> _]. rewrite app_nil_r. assert (v = b /\ m' = m1 /\ q = 64) as (-> & -> & ->) by (repeat split; congruence). exact CB.
  - apply seq_inv in G4 as (c5 & s3 & c6 & G5 & G6 & ->). destruct (m_bf i) as [[o w]|] eqn:BF.
    + apply emit_inv in G6 as [-> _]. unfold load_bf in EV. destruct (bool_field (m_ty i)) eqn:BFD; [discriminate|]. assert (q = 64) by congruence. subst q.
      destruct (accessible (e_valid E) b (size_of (m_ty i))) eqn:AC; [|discriminate]. apply accessible_spec in AC as (A1 & A2 & A3).
      assert (v = bf_get (m_ty i) o w (le_load m1 b (Z.to_nat (size_of (m_ty i)))) /\ m' = m1) as [-> ->] by (split; congruence).
      destruct i as [t f bf]. cbn [m_ty m_off m_bf] in *. subst bf. apply member_ok_bf in MO as (sg & n & R & Wn & O0 & OW).
      destruct (scalar_access t _ R) as [SA SB].
      eapply (computes_then E W goff fp room HS); [exact CB| |].
      * intros st MT RB. pose proof (rep_addr b (rg st (A 0)) Ba (proj2 (proj1 MT) (A 0)) RB) as RA.
        rewrite exec_list_app, (load_exec W t _ _ c5 s3 (rg st) (mm st) b G5 R RA A1 A2).
        assert (LL : le_load (mm st) b (Z.to_nat (size_of t)) = le_load m1 b (Z.to_nat (size_of t))) by (apply (same_load E); [apply MT|intros j Hj; apply A3; lia]).
        rewrite LL. set (z := le_load m1 b (Z.to_nat (size_of t))).
        pose proof (bf_get_reg t sg n o w z (load_reg t z) R BFD O0 ltac:(lia) OW (load_reg_low t _ z R)) as BG.
        destruct (is_unsigned t); (eexists; split; [reflexivity|]; exact BG).
      * rewrite pure_app. rewrite (load_pure t _ _ _ G5) by (unfold loadable; now rewrite R). destruct (is_unsigned t); reflexivity.
    + apply emit_inv in G6 as [-> _]. rewrite app_nil_r. destruct (loadable (m_ty i)) eqn:LO; [|discriminate].
      assert (q = 64) by congruence. subst q. destruct (load_val (e_valid E) (m_ty i) m1 b) as [v0|] eqn:LV; [|discriminate].
      assert (v0 = v /\ m' = m1) as [-> ->] by (split; congruence).
      eapply (computes_then E W goff fp room HS); [exact CB| |eapply load_pure; eauto]. eapply with_load; eauto.
Qed.

(** ** Operators *)
Lemma gen_cast t l : gen_ok l -> gen_ok (NCast t l).
Proof.
  intros IH lv s c s' q m v m' G Q WT EV. cbn [gen qual ev need well_typed] in *. destruct lv; [discriminate|]. destruct (is_float t); [discriminate|].
  apply seq_inv in G as (c1 & s1 & c2 & G1 & G2 & ->). destruct (qual false l) as [a|] eqn:QL; [|discriminate].
  assert (q = cast_qual (ntype l) t a) by congruence. subst q. cbn [orb] in EV. destruct (negb (convertible (ntype l) t)) eqn:CV; [discriminate|].
  apply negb_false_iff in CV. destruct (ev E false l m) as [[x m1]|] eqn:EL; [|discriminate]. destruct (conv t x) as [y|] eqn:CX; [|discriminate].
  assert (y = v /\ m' = m1) as [-> ->] by (split; congruence). pose proof (IH false _ _ _ _ _ _ _ G1 QL WT EL) as CL.
  assert (VI : t <> TVoid -> val_in (ntype l) x).
  { intros NV. pose proof (ev_val_ok E l HE _ _ _ _ WT EL) as VO. destruct (is_scalar (ntype l)) eqn:SC; [eapply scalar_val; eauto|].
    unfold val_in, repr_or_addr. assert (R : int_repr (ntype l) = None) by (unfold is_scalar in SC; destruct (int_repr (ntype l)); [discriminate|auto]).
    rewrite R. cbn [fst snd]. apply in_range_true; [lia|]. apply (aggr_addr false (ntype l)); auto.
    destruct t, (ntype l); try discriminate CV; try discriminate SC; try discriminate R; try reflexivity; contradiction NV; reflexivity. }
  eapply (computes_then E W goff fp room HS); [exact CL| |].
  - intros st MT R. destruct (cast_run W (ntype l) t s1 c2 s' (rg st) (mm st) x G2 CV ltac:(congruence) (proj1 MT)) as [_ (rs' & X & RR)].
    exists rs'. split; auto. rewrite RR. apply (cast_ok (ntype l) t a x v); auto; [eapply qual_range; eauto|apply (proj1 MT)].
  - destruct (cast_run W (ntype l) t s1 c2 s' (fun _ => 0) (fun _ => 0) x G2 CV ltac:(congruence)) as [P _]; auto. split; auto. intros; lia.
Qed.
Lemma gen_neg t l : gen_ok l -> gen_ok (NNeg t l).
Proof.
  intros IH lv s c s' q m v m' G Q WT EV. cbn [gen qual ev need well_typed] in *. destruct lv; [discriminate|]. apply andb_true_iff in WT as [SR WT].
  replace (flo t) with (@None fmt) in G by (clear - SR; destruct t; try reflexivity; discriminate SR).
  destruct (is_float t); [discriminate|]. apply seq_inv in G as (c1 & s1 & c2 & G1 & G2 & ->). apply emit_inv in G2 as [-> _]. destruct (qual false l) as [a|] eqn:QL; [|discriminate]. pose proof (qual_range _ _ _ QL) as Qa.
  destruct (ev E false l m) as [[x m1]|] eqn:EL; [|discriminate]. unfold neg_val in EV. destruct (fit t (- x)) as [y|] eqn:F; [|discriminate].
  assert (y = v /\ m' = m1) as [-> ->] by (split; congruence). pose proof (IH false _ _ _ _ _ _ _ G1 QL WT EL) as CL.
  destruct (int_repr t) as [(sg, n)|] eqn:R; [|discriminate]. pose proof (int_repr_width _ _ _ R) as Wn.
  eapply (computes_then E W goff fp room HS); [exact CL| |destruct (size_of t =? 8); reflexivity].
  intros st MT P. pose proof (proj1 (proj1 MT)) as Z0.
  assert (PN : rep a (- x) (0 - rg st (A 0))) by (apply (eqm_sub a 0 0); [lia|apply eqm_refl|exact P]).
  assert (SZ : (size_of t =? 8) = (n =? 64)) by (destruct t; cbn in R |- *; try discriminate; inversion R; reflexivity). rewrite SZ.
  destruct (n =? 64) eqn:N64.
  - assert (q = a) by congruence. subst q. eexists. split; [reflexivity|]. cbn. rewrite Z0. apply rep_wrap; [lia|].
    apply rep_trans with (- x); auto. apply (fit_rep _ _ _ _ _ _ R F); lia.
  - destruct (n =? 32) eqn:N32; [|discriminate]. assert (n = 32) by lia. subst n. eexists. split; [reflexivity|]. cbn. rewrite Z0.
    pose proof (w_result _ _ _ _ _ _ a R ltac:(lia) F ltac:(lia) PN) as X. assert (q = if 32 <=? a then if sg then 64 else 32 else a) as -> by congruence.
    change (rg st A0) with (rg st (A 0)). destruct (32 <=? a) eqn:L; auto. eapply rep_le; [|exact X]. destruct sg; lia.
Qed.
Lemma bitnot_range t s n x v : int_repr t = Some (s, n) -> val_of t x = true -> fit t (Z.lnot x) = Some v -> s = true -> v = Z.lnot x.
Proof. intros R V F ->. destruct (fit_cases _ _ _ _ _ R F) as [-> _]. reflexivity. Qed.
Lemma gen_bitnot l : gen_ok l -> gen_ok (NBitNot l).
Proof.
  intros IH lv s c s' q m v m' G Q WT EV. cbn [gen qual ev need well_typed] in *. destruct lv; [discriminate|].
  apply seq_inv in G as (c1 & s1 & c2 & G1 & G2 & ->). apply emit_inv in G2 as [-> _].
  destruct (qual false l) as [a|] eqn:QL; [|discriminate]. pose proof (qual_range _ _ _ QL) as Qa.
  destruct (ev E false l m) as [[x m1]|] eqn:EL; [|discriminate]. unfold bitnot_val in EV. destruct (fit (ntype l) (Z.lnot x)) as [y|] eqn:F; [|discriminate].
  assert (y = v /\ m' = m1) as [-> ->] by (split; congruence). pose proof (IH false _ _ _ _ _ _ _ G1 QL WT EL) as CL.
  destruct (int_repr (ntype l)) as [(sg, n)|] eqn:R; [|discriminate]. pose proof (int_repr_width _ _ _ R) as Wn.
  eapply (computes_then E W goff fp room HS); [exact CL| |reflexivity].
  intros st MT P. eexists. split; [reflexivity|]. cbn. change (rg st A0) with (rg st (A 0)).
  assert (PN : forall k, 0 <= k <= a -> rep k (Z.lnot x) (Z.lxor (rg st (A 0)) (wrap (-1)))).
  { intros k K. replace (Z.lnot x) with (Z.lxor x (-1)) by (apply Z.lxor_m1_r). apply eqm_lxor; [lia|eapply rep_le; [|exact P]; lia|].
    apply rep_wrap; [lia|apply rep_refl]. }
  destruct sg.
  - assert (q = a) by congruence. subst q. destruct (fit_cases _ _ _ _ _ R F) as [-> _]. apply PN. lia.
  - assert (q = Z.min a n) by congruence. subst q. apply rep_trans with (Z.lnot x); [apply PN; lia|]. apply (fit_rep _ _ _ _ _ _ R F); lia.
Qed.
Lemma seqz_run t x rs ms : val_in t x -> regs_ok rs -> rep 64 x (rs (A 0)) ->
  exists rs', exec_list (w_sym W) [Seqz A0 A0] rs ms = Some (rs', ms) /\ rs' (A 0) = b2z (negb (truth x)).
Proof.
  intros V RO P. pose proof (val_in_zero _ _ _ V (proj2 RO (A 0)) P) as Z0. eexists. split; [reflexivity|]. unfold truth. rewrite negb_involutive, <- Z0. cbn.
  change (rs A0) with (rs (A 0)). pose proof (proj2 RO (A 0)). change (wrap 1) with 1. destruct (Z.ltb_spec (rs (A 0)) 1), (Z.eqb_spec (rs (A 0)) 0); auto; lia.
Qed.
Lemma cmp_zero_inv t s c s' : cmp_zero t s = Some (c, s') -> is_scalar t = true -> c = [Seqz A0 A0] /\ s' = s.
Proof. destruct t; cbn; intros H SC; try discriminate; inversion H; auto. Qed.
Lemma gen_not l : gen_ok l -> gen_ok (NNot l).
Proof.
  intros IH lv s c s' q m v m' G Q WT EV. cbn [gen qual ev need well_typed] in *. destruct lv; [discriminate|].
  apply seq_inv in G as (c1 & s1 & c2 & G1 & G2 & ->).
  destruct (qual false l) as [a|] eqn:QL; [|discriminate]. destruct (a =? 64) eqn:A64; [|discriminate]. assert (a = 64 /\ q = 64) as [-> ->] by (split; [lia|congruence]).
  cbn [orb] in EV. destruct (negb (is_scalar (ntype l))) eqn:SC; [discriminate|]. apply negb_false_iff in SC. apply cmp_zero_inv in G2 as [-> _]; [|exact SC].
  destruct (ev E false l m) as [[x m1]|] eqn:EL; [|discriminate]. assert (v = b2z (negb (truth x)) /\ m' = m1) as [-> ->] by (split; congruence).
  eapply (computes_then E W goff fp room HS); [eapply IH; eauto| |reflexivity]. intros st MT P.
  destruct (seqz_run (ntype l) x (rg st) (mm st)) as (rs' & X & R); auto; [eapply scalar_val; eauto|apply MT|]. exists rs'. split; auto. rewrite R. apply rep_refl.
Qed.
Lemma bin_not_flo o t l r :
  match o with
  | Eq | Ne | Lt | Le => same_repr (ntype l) (ntype r) && same_repr t (TInt false)
  | Shl | Shr => same_repr t (ntype l) && match int_repr (ntype r) with Some _ => true | None => false end
  | Sub => same_repr t (ntype l) && same_repr t (ntype r) || (same_repr t (TLong false) && has_base (ntype l) && has_base (ntype r))
  | _ => same_repr t (ntype l) && same_repr t (ntype r)
  end = true -> flo (ntype l) = None.
Proof.
  intros H. assert (X : forall u, int_repr (ntype l) = None -> same_repr u (ntype l) = false) by (intros u N; unfold same_repr; rewrite N; destruct (int_repr u) as [[]|]; reflexivity).
  assert (Y : int_repr (ntype l) = None -> same_repr (ntype l) (ntype r) = false) by (intros N; unfold same_repr; now rewrite N).
  destruct (ntype l); try reflexivity; exfalso; destruct o; rewrite ?X in H by reflexivity; rewrite ?Y in H by reflexivity; cbn [andb orb has_base] in H; rewrite ?andb_false_r in H; discriminate H.
Qed.
Lemma gen_bin o t l r : gen_ok l -> gen_ok r -> gen_ok (NBin o t l r).
Proof.
  intros IHl IHr lv s c s' q m v m' G Q WT EV. cbn [gen qual ev need well_typed] in *. destruct lv; [discriminate|].
  rewrite (bin_not_flo o t l r) in G by (apply andb_true_iff in WT as [_ TY]; exact TY). destruct (is_float (ntype l)); [discriminate|].
  apply seq_inv in G as (c1 & s1 & c2 & G1 & G & ->). apply seq_inv in G as (c3 & s2 & c4 & G3 & G & ->). apply push_inv in G3. subst c3.
  apply seq_inv in G as (c5 & s3 & c6 & G5 & G & ->). apply seq_inv in G as (c7 & s4 & c8 & G7 & G & ->). apply pop_inv in G7. subst c7.
  apply emit_inv in G as [-> _].
  destruct (qual false l) as [a|] eqn:QL; [|discriminate]. destruct (qual false r) as [b|] eqn:QR; [|discriminate].
  pose proof (qual_range _ _ _ QL) as Qa. pose proof (qual_range _ _ _ QR) as Qb.
  apply andb_true_iff in WT as [WT TY]. apply andb_true_iff in WT as [WL WR].
  destruct (ev E false r m) as [[y m1]|] eqn:ER; [|discriminate]. destruct (ev E false l m1) as [[x m2]|] eqn:EL; [|discriminate].
  match type of EV with match ?e with _ => _ end = _ => destruct e as [v0|] eqn:BV; [|discriminate] end. assert (v0 = v /\ m' = m2) as [-> ->] by (split; congruence).
  assert (BT : bin_typed o t (ntype l) (ntype r)).
  { unfold bin_typed. destruct o; try (apply andb_true_iff in TY as [T1 T2]; split; auto).
    - apply orb_true_iff in TY as [TY|TY]; [left; now apply andb_true_iff in TY|right]. apply andb_true_iff in TY as [TY _]. now apply andb_true_iff in TY as [TY _].
    - destruct (int_repr (ntype r)); congruence.
    - destruct (int_repr (ntype r)); congruence. }
  assert (VX : int_repr (ntype l) <> None -> val_of (ntype l) x = true).
  { intros N. destruct (int_repr (ntype l)) as [p|] eqn:R; [|congruence]. eapply val_ok_val; eauto. eapply (ev_val_ok E l HE); eauto. }
  assert (VY : int_repr (ntype r) <> None -> val_of (ntype r) y = true).
  { intros N. destruct (int_repr (ntype r)) as [p|] eqn:R; [|congruence]. eapply val_ok_val; eauto. eapply (ev_val_ok E r HE); eauto. }
  pose proof (IHr false _ _ _ _ _ _ _ G1 QR WR ER) as CR. pose proof (IHl false _ _ _ _ _ _ _ G5 QL WL EL) as CL.
  eapply (computes_pushed E W fp room); [exact CR|exact CL|apply need_pos|].
  intros rs ms RO FP SM PX SB IV PY. destruct (pop_run W A1 rs ms RO ltac:(lia) ltac:(discriminate) ltac:(discriminate)) as (rs1 & X1 & RO1 & SP1 & OT1 & A1v).
  destruct (bin_code_run W o t (ntype l) rs1 ms RO1) as [PU (rs2 & X2 & R2)].
  destruct (pure_exec _ _ _ _ _ _ (sym_range E W goff fp HS) PU RO1 X2) as (_ & RO2 & K2).
  exists rs2, ms. split; [rewrite exec_list_app, X1; exact X2|]. split.
  - rewrite R2. rewrite (OT1 (A 0)) by discriminate. change (rs1 (A 1)) with (rs1 A1). rewrite A1v.
    eapply (bin_ok o t (ntype l) (ntype r) a b); eauto; [apply RO|]. pose proof (le_load_range ms (rs Sp) 8) as LR. exact LR.
  - split; auto. split; [rewrite K2, OT1; auto; discriminate|]. split; [rewrite K2 by auto; rewrite SP1; pose proof (proj2 RO Sp); apply mod_id; lia|]. split; auto.
Qed.
Lemma gen_comma l r : gen_ok l -> gen_ok r -> gen_ok (NComma l r).
Proof.
  intros IHl IHr lv s c s' q m v m' G Q WT EV. cbn [gen qual ev need well_typed] in *. apply andb_true_iff in WT as [WL WR].
  apply seq_inv in G as (c1 & s1 & c2 & G1 & G2 & ->). destruct (qual false l) as [a|] eqn:QL; [|discriminate].
  destruct (ev E false l m) as [[x m1]|] eqn:EL; [|discriminate].
  eapply (computes_seq E W fp room); [eapply IHl; eauto|eapply IHr; eauto].
Qed.
Lemma gen_null : gen_ok NNull.
Proof.
  intros lv s c s' q m v m' G Q WT EV. cbn [gen qual ev need] in *. destruct lv; [discriminate|]. apply emit_inv in G as [-> _].
  assert (q = 0 /\ v = 0 /\ m' = m) as (-> & -> & ->) by (repeat split; congruence).
  apply (computes_pure E W goff fp room HS); [|reflexivity]. intros st MT. eexists. split; [reflexivity|]. apply rep_0.
Qed.
Lemma gen_memzero x t : gen_ok (NMemzero x t).
Proof.
  intros lv s c s' q m v m' G Q WT EV. cbn [gen qual ev need] in *. destruct lv; [discriminate|]. destruct x as [k|g]; [|discriminate].
  apply emit_inv in G as [-> _]. destruct (accessible (e_valid E) (e_addr E (VLocal k)) (size_of t)) eqn:AC; [|discriminate].
  assert (q = 0 /\ v = 0 /\ m' = le_store m (e_addr E (VLocal k)) (size_of t) 0) as (-> & -> & ->) by (repeat split; congruence).
  apply accessible_spec in AC as (A1 & A2 & A3).
  intros p kk st lo CA ND PC (RO & FP & SM) FS SL. subst kk. set (a0 := e_addr E (VLocal k)) in *.
  assert (WA : wrap (fp + goff k) = a0) by (unfold a0; now rewrite (set_loc _ _ _ _ HS)).
  destruct (Z_le_gt_dec 0 (size_of t)) as [SZ|SZ].
  - destruct (zero_run (w_sym W) fp (goff k) a0 (size_of t) (Z.to_nat (size_of t)) (rg st) (mm st) RO FP WA ltac:(lia) A2) as (rs' & ms' & X & RO' & K & M).
    rewrite Z2Nat.id in M by lia. exists (St (pc st + length (flat_map (fun i => zero_byte (goff k + i)) (zseq (size_of t)))) rs' ms').
    split; [now apply run_straight|]. split; auto. split; [apply rep_0|]. split.
    + split; auto. split; [cbn; rewrite K; auto; discriminate|]. intros a Va. cbn. rewrite M. unfold le_store. destruct ((a0 <=? a) && (a <? a0 + size_of t)); auto.
    + split; [cbn; apply K; discriminate|]. cbn. intros a Va La. rewrite M. apply le_store_out.
      destruct (Z_lt_le_dec a a0); auto. destruct (Z_lt_le_dec a (a0 + size_of t)); [|lia]. specialize (A3 (a - a0) ltac:(lia)). replace (a0 + (a - a0)) with a in A3 by lia. congruence.
  - exists st. unfold zseq in *. replace (Z.to_nat (size_of t)) with 0%nat in * by lia. cbn [seq map flat_map length] in *. split; [constructor|]. split; [lia|]. split; [apply rep_0|].
    split; [split; auto; split; auto; intros a Va; rewrite le_store_out by lia; auto|]. split; auto.
Qed.

(** ** Assignment *)
Lemma pure_after c rs m rs' m' : exec_list (w_sym W) c rs m = Some (rs', m') -> regs_ok rs -> pure c = true ->
  m' = m /\ regs_ok rs' /\ (forall r, tmp r = false -> rs' r = rs r).
Proof. intros. eapply pure_exec; eauto. apply (sym_range E W goff fp HS). Qed.
Lemma store_scalar_code t p s c s' : store t s = Some (c, s') -> int_repr t = Some p -> c = pop_code A1 ++ [IStore (size_of t) A0 0 A1].
Proof.
  intros H R. destruct (scalar_access t p R) as [SA _]. unfold store in H. apply seq_inv in H as (c1 & s1 & c2 & H1 & H2 & ->). apply pop_inv in H1. subst c1. rewrite <- SA.
  destruct t; try discriminate R; apply emit_inv in H2 as [-> _]; reflexivity.
Qed.
Lemma store_scalar_run n a rs ms : regs_ok rs -> rs Sp + 8 < 2 ^ 64 -> le_load ms (rs Sp) 8 = a -> 0 <= a -> a + n <= 2 ^ 64 -> 0 < n ->
  exists rs', exec_list (w_sym W) (pop_code A1 ++ [IStore n A0 0 A1]) rs ms = Some (rs', le_store ms a n (rs (A 0))) /\ regs_ok rs' /\ rs' Sp = rs Sp + 8 /\
    (forall x, x <> Sp -> x <> A 1 -> rs' x = rs x).
Proof.
  intros RO SB LA A0 AN N. destruct (pop_run W A1 rs ms RO ltac:(lia) ltac:(discriminate) ltac:(discriminate)) as (rs1 & X1 & RO1 & SP1 & OT1 & A1v).
  exists rs1. split.
  - rewrite exec_list_app, X1. cbn [exec_list exec_straight].
    rewrite (ea_ok rs1 A1 0 n a); [|rewrite A1v, LA, Z.add_0_r; apply mod_id; lia|lia].
    change (rs1 GenModel.A0) with (rs1 (A 0)). now rewrite (OT1 (A 0)) by discriminate.
  - split; auto. split; [rewrite SP1; pose proof (proj2 RO Sp); apply mod_id; lia|]. intros x H1 H2. apply OT1; auto.
Qed.
Lemma same_store m ms a n v r : same_mem m ms -> rep (8 * n) v r -> same_mem (le_store m a n v) (le_store ms a n r).
Proof. intros SM P x Vx. apply le_store_agree; auto. Qed.
Lemma valid_out a n x : (forall i, 0 <= i < n -> e_valid E (a + i) = true) -> e_valid E x = false -> x < a \/ a + n <= x.
Proof.
  intros V N. destruct (Z_lt_le_dec x a); auto. destruct (Z_lt_le_dec x (a + n)); auto. specialize (V (x - a) ltac:(lia)). replace (a + (x - a)) with x in V by lia. congruence.
Qed.
Lemma gen_assign l r : gen_ok l -> gen_ok r -> gen_ok (NAssign l r).
Proof.
  intros IHl IHr lv s c s' q m v m' G Q WT EV. cbn [gen qual ev need well_typed] in *.
  apply andb_true_iff in WT as [WT TY]. apply andb_true_iff in WT as [WL WR].
  destruct (lv && negb (is_struct_union (ntype l))) eqn:LS; [discriminate|].
  apply seq_inv in G as (c1 & s1 & c2 & G1 & G & ->). apply seq_inv in G as (c3 & s2 & c4 & G3 & G & ->). apply push_inv in G3. subst c3.
  apply seq_inv in G as (c5 & s3 & c6 & G5 & G & ->).
  destruct (qual true l) as [a|] eqn:QL; [|discriminate]. destruct (qual false r) as [b|] eqn:QR; [|discriminate]. pose proof (qual_range _ _ _ QR) as Qb.
  destruct (negb (a =? 64)) eqn:C; [discriminate|]. assert (a = 64) by lia. subst a. clear C.
  destruct (ev E true l m) as [[a m1]|] eqn:EL; [|discriminate]. destruct (ev E false r m1) as [[x m2]|] eqn:ER; [|discriminate].
  pose proof (IHl true _ _ _ _ _ _ _ G1 QL WL EL) as CL. pose proof (IHr false _ _ _ _ _ _ _ G5 QR WR ER) as CR.
  pose proof (addr_range E W goff fp HS l _ _ _ WL EL) as Ba.
  eapply (computes_pushed E W fp room); [exact CL|exact CR|apply need_pos|]. clear CL CR.
  intros rs ms RO FP SM PX SB IV PA. assert (LA : le_load ms (rs Sp) 8 = a) by (apply rep_addr; auto; apply (le_load_range ms (rs Sp) 8)). clear PA.
  destruct (assign_view l) as [(l0 & t & off & o & w & ->)|V].
  - (* a bit-field *)
    destruct ((w <=? b) && negb (bool_field t)) eqn:C; [|discriminate]. assert (q = 0) by congruence. subst q. apply andb_true_iff in C as [C1 _].
    unfold store_bf in EV. destruct (accessible (e_valid E) a (size_of t)) eqn:AC; [|discriminate]. apply accessible_spec in AC as (A1' & A2 & A3).
    set (z := le_load m2 a (Z.to_nat (size_of t))) in *.
    assert (M' : m' = le_store m2 a (size_of t) (bf_put o w z x)) by congruence. clear EV.
    cbn [well_typed] in WL. apply andb_true_iff in WL as [MO _]. apply member_ok_bf in MO as (sg & n & R & Wn & O0 & OW).
    destruct (scalar_access t _ R) as [SA SB'].
    apply seq_inv in G as (c7 & s4 & c8 & G7 & G & ->). apply seq_inv in G as (c9 & s5 & c10 & G9 & G & ->). apply emit_inv in G as [-> _].
    apply (store_scalar_code _ _ _ _ _ ltac:(eassumption)) in R as SC. subst c9.
    unfold bf_merge in G7. destruct (w =? 64) eqn:W64; [discriminate|]. apply seq_inv in G7 as (d1 & u1 & d2 & D1 & D & ->).
    apply seq_inv in D as (d3 & u2 & d4 & D3 & D4 & ->). apply emit_inv in D1 as [-> ->]. apply emit_inv in D4 as [-> _].
    rewrite <- !app_assoc. rewrite exec_list_app.
    assert (EA : ea rs Sp 0 8 = Some (rs Sp)) by (apply ea_ok; [rewrite Z.add_0_r; apply mod_id; pose proof (proj2 RO Sp); lia|lia]).
    set (rv := rs (A 0)). set (rt0 := wrap (Z.land rv (wrap (2 ^ w - 1)) * 2 ^ o)).
    assert (X1 : exists rs1, exec_list (w_sym W) [Mv T2 A0; Mv T0 A0; ILi T1 (2 ^ w - 1); IOp AND T0 T0 T1; ISlli T0 T0 o; ILoad false 8 A0 0 Sp] rs ms = Some (rs1, ms) /\
              rs1 (A 0) = a /\ rs1 (T 0) = rt0 /\ rs1 Sp = rs Sp /\ regs_ok rs1 /\ rs1 Fp = fp).
    { change [Mv T2 A0; Mv T0 A0; ILi T1 (2 ^ w - 1); IOp AND T0 T0 T1; ISlli T0 T0 o; ILoad false 8 A0 0 Sp] with
        ([Mv T2 A0; Mv T0 A0; ILi T1 (2 ^ w - 1); IOp AND T0 T0 T1; ISlli T0 T0 o] ++ [ILoad false 8 A0 0 Sp]). rewrite exec_list_app.
      assert (X : exists rs0, exec_list (w_sym W) [Mv T2 A0; Mv T0 A0; ILi T1 (2 ^ w - 1); IOp AND T0 T0 T1; ISlli T0 T0 o] rs ms = Some (rs0, ms) /\ rs0 Sp = rs Sp /\ rs0 (T 0) = rt0).
      { eexists. split; [reflexivity|]. split; [reflexivity|]. 
        cbn. unfold rt0, rv. change (rs A0) with (rs (A 0)). rewrite Z.add_0_r. unfold wrap at 2. rewrite (mod_id 64 (rs (A 0))) by apply RO. reflexivity. }
      destruct X as (rs0 & X0 & S0 & T0'). destruct (pure_after _ _ _ _ _ X0 RO eq_refl) as (_ & RO0 & K0).
      assert (FP0 : rs0 Fp = fp) by (rewrite K0; auto). rewrite X0. cbn [exec_list exec_straight].
      rewrite (ea_ok rs0 Sp 0 8 (rs Sp)); [|rewrite S0, Z.add_0_r; apply mod_id; pose proof (proj2 RO Sp); lia|lia].
      eexists. split; [reflexivity|]. split; [|split; [|split; [exact S0|split]]].
      - change (wrap (sx 64 (le_load ms (rs Sp) 8)) = a). rewrite LA. unfold wrap. rewrite (mod_sx 64 64 a) by lia. apply mod_id. lia.
      - exact T0'.
      - apply regs_ok_upd; auto. apply wrap_rng.
      - exact FP0. }
    destruct X1 as (rs1 & X1 & P1 & P2 & P3 & RO1 & FP1). rewrite X1, exec_list_app.
    rewrite (load_exec W t _ _ d3 u2 rs1 ms a D3 R P1 A1' A2), exec_list_app.
    assert (LL : le_load ms a (Z.to_nat (size_of t)) = z) by (apply (same_load E); auto; intros j Hj; apply A3; lia). rewrite LL.
    set (rz := load_reg t z). set (rs2 := setr rs1 A0 rz).
    set (nv := Z.lor (Z.land rz (wrap (Z.lnot ((2 ^ w - 1) * 2 ^ o)))) rt0).
    assert (X2 : exists rs3, exec_list (w_sym W) [ILi T1 (Z.lnot ((2 ^ w - 1) * 2 ^ o)); IOp AND A0 A0 T1; IOp OR A0 A0 T0] rs2 ms = Some (rs3, ms) /\
              rs3 (A 0) = nv).
    { eexists. split; [reflexivity|]. cbn; unfold nv; change (rs1 T0) with (rs1 (T 0)); rewrite P2; reflexivity. }
    destruct X2 as (rs3 & X2 & N3). 
    assert (RO2 : regs_ok rs2).
    { apply regs_ok_upd; auto. unfold rz, load_reg. destruct (access_size t =? 8); [apply wrap_rng|]. destruct (is_unsigned t); [|apply wrap_rng].
      unfold z. pose proof (le_load_range m2 a (Z.to_nat (size_of t))) as LR. rewrite Z2Nat.id in LR by lia. pose proof (pow_le (8 * size_of t) 64 ltac:(lia)). lia. }
    destruct (pure_after _ _ _ _ _ X2 RO2 eq_refl) as (_ & RO3 & K3).
    assert (S3 : rs3 Sp = rs Sp) by (rewrite K3; auto). assert (FP3 : rs3 Fp = fp) by (rewrite K3; auto). rewrite X2, (app_assoc (pop_code A1)), exec_list_app.
    destruct (store_scalar_run (size_of t) a rs3 ms RO3 ltac:(lia) ltac:(rewrite S3; exact LA) A1' A2 ltac:(lia)) as (rs4 & X4 & RO4 & SP4 & OT4). rewrite X4, N3.
    eexists. exists (le_store ms a (size_of t) nv). split; [reflexivity|]. split; [apply rep_0|].
    split; [apply regs_ok_upd; auto; apply wrap_rng|]. split; [change (rs4 Fp = fp); rewrite OT4 by discriminate; auto|]. split; [change (rs4 Sp = rs Sp + 8); lia|].
    split; [|intros y Vy Ly; apply le_store_out; eapply valid_out; eauto].
    subst m'. apply same_store; auto. unfold nv, rt0. apply (bf_merge_reg o w (8 * size_of t) z x rz rv b); auto; try lia. apply (load_reg_low t _ z R).
  - rewrite V in EV, Q, G. destruct (store_val (e_valid E) (ntype l) m2 a x) as [m3|] eqn:SV; [|discriminate].
    assert (x = v /\ m' = m3) as [-> ->] by (split; congruence). clear EV. destruct (is_struct_union (ntype l)) eqn:SU.
    + (* a struct *)
      destruct (b =? 64) eqn:B64; [|discriminate]. assert (b = 64 /\ q = 64) as [-> ->] by (split; [lia|congruence]).
      assert (SV' : exists n, size_of (ntype l) = n /\ accessible (e_valid E) v n && accessible (e_valid E) a n && ((a =? v) || (a + n <=? v) || (v + n <=? a)) = true /\ m3 = copy_bytes m2 v a n).
      { destruct (ntype l) as [| | | | | | | | | | | | | |? n ?|? n ?]; try discriminate SU; cbn [store_val size_of] in SV |- *; exists n; (split; [reflexivity|]);
          destruct (accessible (e_valid E) v n && accessible (e_valid E) a n && ((a =? v) || (a + n <=? v) || (v + n <=? a))); try discriminate; split; congruence. }
      assert (SUR : is_struct_union (ntype r) = true).
      { cbn [andb] in TY. apply orb_true_iff in TY as [TY|TY]; auto. unfold same_repr in TY. destruct (ntype l); try discriminate SU; discriminate TY. }
      destruct SV' as (n & SZ & AC & ->). apply andb_true_iff in AC as [AC DJ]. apply andb_true_iff in AC as [AC1 AC2].
      apply accessible_spec in AC1 as (V1 & V2 & V3). apply accessible_spec in AC2 as (A1' & A2 & A3).
      assert (GC : c6 = pop_code A1 ++ flat_map copy_byte (zseq n)).
      { unfold store in G. apply seq_inv in G as (d1 & u1 & d2 & D1 & D2 & ->). apply pop_inv in D1. subst d1. rewrite SZ in D2.
        destruct (ntype l); try discriminate SU; apply emit_inv in D2 as [-> _]; reflexivity. }
      subst c6. clear G.
      destruct (pop_run W A1 rs ms RO ltac:(lia) ltac:(discriminate) ltac:(discriminate)) as (rs1 & X1 & RO1 & SP1 & OT1 & A1v).
      assert (SPe : rs1 Sp = rs Sp + 8) by (rewrite SP1; pose proof (proj2 RO Sp); apply mod_id; lia).
      assert (A1e : rs1 (A 1) = a) by (change (rs1 (A 1)) with (rs1 A1); congruence).
      assert (Bv : 0 <= v < 2 ^ 64) by (apply (aggr_addr false (ntype r)); [|eapply (ev_val_ok E r HE); eauto]; destruct (ntype r); auto; discriminate SUR).
      assert (RV : rs1 (A 0) = v) by (rewrite OT1 by discriminate; apply rep_addr; auto; apply RO).
      destruct (copy_run (w_sym W) v a (Z.max 0 n) (Z.to_nat n) rs1 ms RO1 RV A1e V1 A1' ltac:(lia) ltac:(lia) ltac:(lia) ltac:(lia)) as (rs2 & ms2 & X2 & RO2 & K2 & M2).
      exists rs2, ms2. split; [rewrite exec_list_app, X1; exact X2|]. split; [rewrite K2, RV by discriminate; apply rep_refl|]. split; auto.
      split; [rewrite K2, OT1 by discriminate; auto|]. split; [rewrite K2 by discriminate; auto|].
      split.
      * intros y Vy. rewrite M2. unfold copy_bytes. replace (Z.of_nat (Z.to_nat n)) with (Z.max 0 n) by lia.
        destruct ((a <=? y) && (y <? a + Z.max 0 n)) eqn:C, ((a <=? y) && (y <? a + n)) eqn:C'; try lia; auto.
        rewrite SM; auto. apply V3. lia.
      * intros y Vy Ly. rewrite M2. unfold copy_bytes. destruct (valid_out a n y A3 Vy); replace ((a <=? y) && (y <? a + Z.of_nat (Z.to_nat n))) with false by lia; auto.
    + destruct (8 * size_of (ntype l) <=? b) eqn:SZ; [|discriminate]. assert (q = b) by congruence. subst q.
      destruct (int_repr (ntype l)) as [p|] eqn:R; [|apply orb_true_iff in TY as [TY|TY]; [discriminate|unfold same_repr in TY; rewrite R in TY; discriminate]].
      assert (SV' : accessible (e_valid E) a (size_of (ntype l)) = true /\ m3 = le_store m2 a (size_of (ntype l)) v).
      { unfold store_val in SV. rewrite R in SV. destruct (accessible (e_valid E) a (size_of (ntype l))); destruct (ntype l); try discriminate SU; try discriminate SV; split; congruence. }
      destruct SV' as [AC ->]. apply accessible_spec in AC as (A1' & A2 & A3). destruct (scalar_access _ _ R) as [SA SS].
      rewrite (store_scalar_code _ _ _ _ _ G R).
      destruct (store_scalar_run (size_of (ntype l)) a rs ms RO SB LA A1' A2 ltac:(lia)) as (rs' & X & RO' & SP' & OT').
      exists rs', (le_store ms a (size_of (ntype l)) (rs (A 0))). split; auto. split; [rewrite OT' by discriminate; exact PX|]. split; auto.
      split; [rewrite OT' by discriminate; auto|]. split; auto. split; [apply same_store; auto; eapply rep_le; [|exact PX]; lia|].
      intros y Vy Ly. apply le_store_out. eapply valid_out; eauto.
Qed.

(** ** Branches *)
Lemma computes_cond cc ca cb qa qb n1 na nb m x t m1 v m' le ld : computes cc 64 n1 m x m1 -> val_in t x -> 0 <= qa -> 0 <= qb ->
  (if truth x then computes ca qa na m1 v m' else computes cb qb nb m1 v m') ->
  computes (cc ++ [Seqz A0 A0] ++ [Bnez A0 le] ++ ca ++ [IJ ld; ILabel le] ++ cb ++ [ILabel ld]) (Z.min qa qb) (Z.max n1 (Z.max na nb)) m v m'.
Proof.
  intros HC V QA QB HX p k s lo CA ND PC MT FS SL.
  apply code_at_app in CA as [CA1 CA]. cbn [app] in CA. apply code_at_cons in CA as [N1 CA]. apply code_at_cons in CA as [N2 CA].
  apply code_at_app in CA as [CA2 CA]. apply code_at_cons in CA as [N3 CA]. apply code_at_cons in CA as [N4 CA]. apply code_at_app in CA as [CA3 CA]. apply code_at_cons in CA as [N5 _].
  destruct (HC p k s lo CA1 ND PC MT FS ltac:(lia)) as (s1 & ST1 & PC1 & R1 & MT1 & AB1). rewrite <- PC1 in *.
  destruct (test_branch E W fp p s1 t x m1 BNE le _ V MT1 R1 N1 N2 ltac:(auto) N4 (proj1 ND)) as (rs & ST2 & MT2 & SP2).
  assert (AB2 : forall n, above_same s (St n rs (mm s1))) by (intros n; eapply (above_trans E); [exact AB1|]; apply (above_refl E); auto).
  assert (SPn : rs Sp = rg s Sp) by (rewrite SP2; apply AB1).
  rewrite !app_length. cbn [length]. destruct (truth x); cbn [Bool.eqb] in ST2.
  - destruct (HX p _ (St _ rs (mm s1)) lo CA2 ND eq_refl (MT2 _) (free_same E room lo s (St _ rs (mm s1)) SPn FS) ltac:(cbn [rg]; lia)) as (s3 & ST3 & PC3 & R3 & MT3 & AB3).
    rewrite <- PC3 in N3. pose proof (jump W p s3 ld _ N3 N5 (proj1 ND)) as ST4.
    eexists. split; [eapply star_trans; [exact ST1|]; eapply star_trans; [exact ST2|]; eapply star_trans; [exact ST3|exact ST4]|].
    split; [cbn [pc]; lia|]. split; [eapply rep_le; [|exact R3]; lia|]. split; [exact MT3|]. eapply (above_trans E); [apply AB2|exact AB3].
  - destruct (HX p _ (St _ rs (mm s1)) lo CA3 ND eq_refl (MT2 _) (free_same E room lo s (St _ rs (mm s1)) SPn FS) ltac:(cbn [rg]; lia)) as (s3 & ST3 & PC3 & R3 & MT3 & AB3).
    eexists. split; [eapply star_trans; [exact ST1|]; eapply star_trans; [exact ST2|]; eapply star_trans; [exact ST3|]; apply star_one; unfold step; rewrite PC3, N5; reflexivity|].
    split; [cbn [pc]; lia|]. split; [eapply rep_le; [|exact R3]; lia|]. split; [exact MT3|]. eapply (above_trans E); [apply AB2|exact AB3].
Qed.
(** [c] is the branch taken early: with the value [b2z (negb (c = BNE))] *)
Lemma computes_logic cl cr nl nr m x tl m1 y tr m2 c lx ld : (c = BNE \/ c = BEQ) -> computes cl 64 nl m x m1 -> val_in tl x ->
  (if Bool.eqb (truth x) (match c with BNE => false | _ => true end) then y = x /\ m2 = m1 else computes cr 64 nr m1 y m2 /\ val_in tr y) ->
  computes (cl ++ [Seqz A0 A0] ++ [IBr c A0 Zero lx] ++ cr ++ [Seqz A0 A0] ++
    [IBr c A0 Zero lx; ILi A0 (match c with BNE => 1 | _ => 0 end); IJ ld; ILabel lx; ILi A0 (match c with BNE => 0 | _ => 1 end); ILabel ld]) 64 (Z.max nl nr) m
    (b2z (truth y)) m2.
Proof.
  intros CC HC V HX p k s lo CA ND PC MT FS SL.
  apply code_at_app in CA as [CA1 CA]. cbn [app] in CA. apply code_at_cons in CA as [N1 CA]. apply code_at_cons in CA as [N2 CA].
  apply code_at_app in CA as [CA2 CA]. apply code_at_cons in CA as [N3 CA]. apply code_at_cons in CA as [N4 CA]. apply code_at_cons in CA as [N5 CA].
  apply code_at_cons in CA as [N6 CA]. apply code_at_cons in CA as [N7 CA]. apply code_at_cons in CA as [N8 CA]. apply code_at_cons in CA as [N9 _].
  destruct (HC p k s lo CA1 ND PC MT FS ltac:(lia)) as (s1 & ST1 & PC1 & R1 & MT1 & AB1). rewrite <- PC1 in *.
  destruct (test_branch E W fp p s1 tl x m1 c lx _ V MT1 R1 N1 N2 CC N7 (proj1 ND)) as (rs & ST2 & MT2 & SP2).
  assert (AB2 : forall n, above_same s (St n rs (mm s1))) by (intros n; eapply (above_trans E); [exact AB1|]; apply (above_refl E); auto).
  assert (SPn : rs Sp = rg s Sp) by (rewrite SP2; apply AB1).
  set (j := (S (S (pc s1)) + length cr)%nat) in *.
  (* after lx: *)
  assert (LX : forall r0 m0, star W p (St (S (S (S (S (S j))))) r0 m0) (St (S (S (S (S (S (S (S j))))))) (setr r0 A0 (wrap (match c with BNE => 0 | _ => 1 end))) m0)).
  { intros. eapply star_step; [eapply exec_straight_step; [exact N8|reflexivity]|]. apply star_one. unfold step. cbn [pc]. now rewrite N9. }
  assert (LD : forall r0 m0, star W p (St (S (S j)) r0 m0) (St (S (S (S (S (S (S (S j))))))) (setr r0 A0 (wrap (match c with BNE => 1 | _ => 0 end))) m0)).
  { intros. eapply star_step; [eapply exec_straight_step; [exact N5|reflexivity]|].
    apply (jump W p (St (S (S (S j))) (setr r0 A0 _) m0) ld (S (S (S (S (S (S j))))))); auto. apply ND. }
  assert (PCE : S (S (S (S (S (S (S j)))))) = (pc s1 + length (Seqz A0 A0 :: IBr c A0 Zero lx :: cr ++ [Seqz A0 A0] ++ [IBr c A0 Zero lx; ILi A0 (match c with BNE => 1 | _ => 0 end); IJ ld; ILabel lx; ILi A0 (match c with BNE => 0 | _ => 1 end); ILabel ld]))%nat).
  { cbn [length]. rewrite app_length. cbn. unfold j. lia. }
  rewrite app_length, Nat.add_assoc. rewrite <- PC in PC1. replace (k + length cl)%nat with (pc s1) by lia. cbn [app] in PCE |- *. rewrite <- PCE.
  assert (UP : forall r0 m0 mm1 n w, matches mm1 (St n r0 m0) -> matches mm1 (St (S (S (S (S (S (S (S j))))))) (setr r0 A0 (wrap w)) m0)).
  { intros r0 m0 mm1 n w (A1' & A2' & A3'). split; [apply regs_ok_upd; auto; apply wrap_rng|]. split; auto. }
  destruct (Bool.eqb (truth x) (match c with BNE => false | _ => true end)) eqn:TX.
  - destruct HX as [-> ->]. eexists. split; [eapply star_trans; [exact ST1|]; eapply star_trans; [exact ST2|apply LX]|]. split; [reflexivity|].
    split; [|split; [eapply UP, (MT2 0%nat)|exact (AB2 0%nat)]].
    cbn [rg]. change (A 0) with A0. rewrite setr_same by discriminate.
    destruct CC as [-> | ->]; destruct (truth x); try discriminate TX; apply rep_refl.
  - destruct HX as [HY VY].
    destruct (HY p _ (St _ rs (mm s1)) lo CA2 ND eq_refl (MT2 _) (free_same E room lo s (St _ rs (mm s1)) SPn FS) ltac:(cbn [rg]; lia)) as (s3 & ST3 & PC3 & R3 & MT3 & AB3).
    fold j in PC3. rewrite <- PC3 in N3, N4.
    destruct (test_branch E W fp p s3 tr y m2 c lx _ VY MT3 R3 N3 N4 CC N7 (proj1 ND)) as (rs4 & ST4 & MT4 & SP4). rewrite PC3 in ST4.
    assert (AB4 : forall n, above_same s (St n rs4 (mm s3))).
    { intros n; eapply (above_trans E); [apply (AB2 0%nat)|]. eapply (above_trans E); [exact AB3|]. apply (above_refl E); auto. }
    destruct (Bool.eqb (truth y) (match c with BNE => false | _ => true end)) eqn:TY.
    + eexists. split; [eapply star_trans; [exact ST1|]; eapply star_trans; [exact ST2|]; eapply star_trans; [exact ST3|]; eapply star_trans; [exact ST4|apply LX]|].
      split; [reflexivity|]. split; [|split; [eapply UP, (MT4 0%nat)|exact (AB4 0%nat)]].
      cbn [rg]. change (A 0) with A0. rewrite setr_same by discriminate. destruct CC as [-> | ->]; destruct (truth y); try discriminate TY; apply rep_refl.
    + eexists. split; [eapply star_trans; [exact ST1|]; eapply star_trans; [exact ST2|]; eapply star_trans; [exact ST3|]; eapply star_trans; [exact ST4|apply LD]|].
      split; [reflexivity|]. split; [|split; [eapply UP, (MT4 0%nat)|exact (AB4 0%nat)]].
      cbn [rg]. change (A 0) with A0. rewrite setr_same by discriminate. destruct CC as [-> | ->]; destruct (truth y); try discriminate TY; apply rep_refl.
Qed.
Lemma gen_cond c a b : gen_ok c -> gen_ok a -> gen_ok b -> gen_ok (NCond c a b).
Proof.
  intros IHc IHa IHb lv s k s' q m v m' G Q WT EV. cbn [gen qual ev need well_typed] in *.
  apply andb_true_iff in WT as [WT _]. apply andb_true_iff in WT as [WT WB]. apply andb_true_iff in WT as [WC WA].
  destruct (lv && negb (is_struct_union (ntype (NCond c a b)))) eqn:LS; [discriminate|]. cbn [orb] in EV.
  destruct (negb (is_scalar (ntype c))) eqn:SC; [discriminate|]. apply negb_false_iff in SC.
  destruct (qual false c) as [x|] eqn:QC; [|discriminate]. destruct (qual false a) as [qa|] eqn:QA; [|discriminate]. destruct (qual false b) as [qb|] eqn:QB; [|discriminate].
  destruct (x =? 64) eqn:X64; [|discriminate]. assert (x = 64 /\ q = Z.min qa qb) as [-> ->] by (split; [lia|congruence]).
  destruct (ev E false c m) as [[y m1]|] eqn:EC; [|discriminate].
  unfold with_count in G. apply seq_inv in G as (c1 & s1 & c2 & G1 & G & ->). apply seq_inv in G as (c3 & s2 & c4 & G2 & G & ->). apply cmp_zero_inv in G2 as [-> ->]; [|assumption].
  apply seq_inv in G as (c5 & s3 & c6 & G3 & G & ->). apply emit_inv in G3 as [-> ->]. apply seq_inv in G as (c7 & s4 & c8 & G4 & G & ->).
  apply seq_inv in G as (c9 & s5 & c10 & G5 & G & ->). apply emit_inv in G5 as [-> ->]. apply seq_inv in G as (c11 & s6 & c12 & G6 & G & ->). apply emit_inv in G as [-> _].
  apply (computes_cond c1 c7 c11 qa qb (need c) (need a) (need b) m y (ntype c) m1); auto.
  - eapply IHc; eauto.
  - eapply scalar_val; eauto.
  - eapply qual_range; eauto.
  - eapply qual_range; eauto.
  - destruct (truth y); [eapply IHa|eapply IHb]; eauto.
Qed.
Lemma gen_logand l r : gen_ok l -> gen_ok r -> gen_ok (NLogAnd l r).
Proof.
  intros IHl IHr lv s k s' q m v m' G Q WT EV. cbn [gen qual ev need well_typed] in *. destruct lv; [discriminate|]. cbn [orb] in EV.
  apply andb_true_iff in WT as [WL WR]. destruct (negb (is_scalar (ntype l) && is_scalar (ntype r))) eqn:SC; [discriminate|]. apply negb_false_iff in SC. apply andb_true_iff in SC as [SL SR].
  destruct (qual false l) as [a|] eqn:QL; [|discriminate]. destruct (qual false r) as [b|] eqn:QR; [|discriminate].
  destruct ((a =? 64) && (b =? 64)) eqn:C; [|discriminate]. assert (a = 64 /\ b = 64 /\ q = 64) as (-> & -> & ->) by (repeat split; [lia|lia|congruence]).
  destruct (ev E false l m) as [[x m1]|] eqn:EL; [|discriminate].
  unfold with_count in G. apply seq_inv in G as (c1 & s1 & c2 & G1 & G & ->). apply seq_inv in G as (c3 & s2 & c4 & G2 & G & ->). apply cmp_zero_inv in G2 as [-> ->]; [|assumption].
  apply seq_inv in G as (c5 & s3 & c6 & G3 & G & ->). apply emit_inv in G3 as [-> ->]. apply seq_inv in G as (c7 & s4 & c8 & G4 & G & ->).
  apply seq_inv in G as (c9 & s5 & c10 & G5 & G & ->). apply cmp_zero_inv in G5 as [-> ->]; [|assumption]. apply emit_inv in G as [-> _].
  assert (H : exists y, v = b2z (truth y) /\ if Bool.eqb (truth x) false then y = x /\ m' = m1 else computes c7 64 (need r) m1 y m' /\ val_in (ntype r) y).
  { destruct (truth x) eqn:TX; cbn [Bool.eqb].
    - destruct (ev E false r m1) as [[y m2]|] eqn:ER; [|discriminate]. exists y. split; [congruence|]. assert (m' = m2) by congruence. subst. split; [eapply IHr|eapply scalar_val]; eauto.
    - exists x. rewrite TX. repeat split; [cbn|]; congruence. }
  destruct H as (y & -> & H). apply (computes_logic c1 c7 (need l) (need r) m x (ntype l) m1 y (ntype r) m' BNE); auto; [eapply IHl|eapply scalar_val]; eauto.
Qed.
Lemma gen_logor l r : gen_ok l -> gen_ok r -> gen_ok (NLogOr l r).
Proof.
  intros IHl IHr lv s k s' q m v m' G Q WT EV. cbn [gen qual ev need well_typed] in *. destruct lv; [discriminate|]. cbn [orb] in EV.
  apply andb_true_iff in WT as [WL WR]. destruct (negb (is_scalar (ntype l) && is_scalar (ntype r))) eqn:SC; [discriminate|]. apply negb_false_iff in SC. apply andb_true_iff in SC as [SL SR].
  destruct (qual false l) as [a|] eqn:QL; [|discriminate]. destruct (qual false r) as [b|] eqn:QR; [|discriminate].
  destruct ((a =? 64) && (b =? 64)) eqn:C; [|discriminate]. assert (a = 64 /\ b = 64 /\ q = 64) as (-> & -> & ->) by (repeat split; [lia|lia|congruence]).
  destruct (ev E false l m) as [[x m1]|] eqn:EL; [|discriminate].
  unfold with_count in G. apply seq_inv in G as (c1 & s1 & c2 & G1 & G & ->). apply seq_inv in G as (c3 & s2 & c4 & G2 & G & ->). apply cmp_zero_inv in G2 as [-> ->]; [|assumption].
  apply seq_inv in G as (c5 & s3 & c6 & G3 & G & ->). apply emit_inv in G3 as [-> ->]. apply seq_inv in G as (c7 & s4 & c8 & G4 & G & ->).
  apply seq_inv in G as (c9 & s5 & c10 & G5 & G & ->). apply cmp_zero_inv in G5 as [-> ->]; [|assumption]. apply emit_inv in G as [-> _].
  assert (H : exists y, v = b2z (truth y) /\ if Bool.eqb (truth x) true then y = x /\ m' = m1 else computes c7 64 (need r) m1 y m' /\ val_in (ntype r) y).
  { destruct (truth x) eqn:TX; cbn [Bool.eqb].
    - exists x. rewrite TX. repeat split; [cbn|]; congruence.
    - destruct (ev E false r m1) as [[y m2]|] eqn:ER; [|discriminate]. exists y. split; [congruence|]. assert (m' = m2) by congruence. subst. split; [eapply IHr|eapply scalar_val]; eauto. }
  destruct H as (y & -> & H). apply (computes_logic c1 c7 (need l) (need r) m x (ntype l) m1 y (ntype r) m' BEQ); auto; [eapply IHl|eapply scalar_val]; eauto.
Qed.

(** ** Calls *)
Definition head_code (pad : bool) : list instr := (if pad then [IAddi Sp Sp (-8)] else []) ++ [Mv T1 Sp; IAddi Sp Sp 0].
Lemma head_run (pad : bool) rs ms : regs_ok rs -> 8 <= rs Sp -> exists rs', exec_list (w_sym W) (head_code pad) rs ms = Some (rs', ms) /\ regs_ok rs' /\
  rs' Sp = rs Sp - (if pad then 8 else 0) /\ rs' Fp = rs Fp.
Proof.
  intros RO B. pose proof (proj2 RO Sp) as BS.
  assert (X : exists rs', exec_list (w_sym W) (head_code pad) rs ms = Some (rs', ms) /\ rs' Sp = rs Sp - (if pad then 8 else 0) /\ rs' Fp = rs Fp).
  { destruct pad; (eexists; split; [reflexivity|]; split; [|reflexivity]); cbn.
    - unfold wrap. rewrite Z.add_0_r, Z.mod_mod by lia. replace (rs Sp + -8) with (rs Sp - 8) by lia. apply mod_id. lia.
    - unfold wrap. rewrite Z.add_0_r. rewrite mod_id; lia. }
  destruct X as (rs' & X & S1 & F1). exists rs'. split; auto. split; auto.
  assert (G : forall c, (forall i, In i c -> exists rd r k, i = IAddi rd r k) -> forall r0 r1, regs_ok r0 -> exec_list (w_sym W) c r0 ms = Some (r1, ms) -> regs_ok r1).
  { induction c as [|i c IH]; intros HI r0 r1 R0 XX; cbn [exec_list] in XX; [inversion XX; subst; auto|].
    destruct (HI i (or_introl eq_refl)) as (rd & r & k & ->). cbn [exec_straight] in XX. eapply IH; [|apply regs_ok_upd; [exact R0|apply wrap_rng]|exact XX].
    intros j Hj. apply HI. now right. }
  eapply G; [|exact RO|exact X]. intros i Hi. destruct pad; cbn in Hi; intuition (subst; eexists _, _, _; reflexivity).
Qed.
Lemma Forall_firstn {X} (P : X -> Prop) k l : Forall P l -> Forall P (firstn k l).
Proof. intros H. revert k; induction H; intros [|k]; cbn; auto. Qed.
Lemma Forall_skipn {X} (P : X -> Prop) k l : Forall P l -> Forall P (skipn k l).
Proof. intros H. revert k; induction H; intros [|k]; cbn; auto. Qed.
Lemma forallb_firstn {X} (f : X -> bool) k l : forallb f l = true -> forallb f (firstn k l) = true.
Proof. revert k; induction l as [|a l IH]; intros [|k] H; cbn in *; auto. apply andb_true_iff in H as [-> H]. cbn. auto. Qed.
Lemma forallb_skipn {X} (f : X -> bool) k l : forallb f l = true -> forallb f (skipn k l) = true.
Proof. revert k; induction l as [|a l IH]; intros [|k] H; cbn in *; auto. apply andb_true_iff in H as [_ H]. auto. Qed.
Lemma need_args f args : let mx := fold_right (fun a k => Z.max (need a) k) (need f) args in Forall (fun a => need a <= mx) args /\ need f <= mx /\ 0 <= mx.
Proof.
  cbn. pose proof (need_pos f). induction args as [|a l (I1 & I2 & I3)]; cbn [fold_right]; [repeat split; auto; lia|]. split; [constructor; [lia|]|lia].
  eapply Forall_impl; [|exact I1]. cbn. lia.
Qed.
Lemma gen_callx f args t : gen_ok f -> Forall gen_ok args -> gen_ok (NCall f args t).
Proof.
  intros IHf IHa lv s c s' q m v m' G Q WT EV. cbn [qual need well_typed] in *. rewrite ev_call in EV. destruct lv; [discriminate|]. rewrite gen_call in G.
  destruct (is_alloca f || negb (forallb (fun a => int_arg (ntype a)) args) || negb (int_arg t)); [discriminate|].
  apply andb_true_iff in WT as [WT WTt]. apply andb_true_iff in WT as [WF WA].
  destruct (qual false f) as [qf|] eqn:QF; [|discriminate]. match type of Q with (if ?c then _ else _) = _ => destruct c eqn:C; [|discriminate] end.
  assert (q = call_qual t) by congruence. subst q. clear Q. apply andb_true_iff in C as [C AQ]. apply andb_true_iff in C as [C TF]. apply Z.eqb_eq in C. subst qf.
  change (forallb arg_q args = true) in AQ.
  destruct (evl E args m) as [[vs m1]|] eqn:EA; [|discriminate]. destruct (ev E false f m1) as [[fa m2]|] eqn:EF; [|discriminate].
  destruct (e_call E fa (map ntype args) t vs m2) as [[rv m3]|] eqn:EC; [|discriminate].
  cbn zeta in G. unfold with_depth in G.
  set (nst := Z.of_nat (length args - 8)) in *. set (pad := (g_depth s + nst) mod 2 =? 1) in *. set (stack := if pad then nst + 1 else nst) in *.
  apply seq_inv in G as (c1 & s1 & d1 & G1 & G & ->). apply seq_inv in G as (c2 & s2 & d2 & G2 & G & ->). apply emit_inv in G2 as [-> ->].
  assert (CH : c1 ++ [Mv T1 Sp; IAddi Sp Sp 0] = head_code pad).
  { unfold head_code. f_equal. destruct pad; [|now apply emit_inv in G1 as [-> _]]. apply seq_inv in G1 as (e1 & u1 & e2 & E1 & E2 & ->). apply emit_inv in E1 as [-> _]. apply dep_inv in E2 as [-> _]. reflexivity. }
  apply seq_inv in G as (c3 & s3 & d3 & G3 & G & ->). rewrite push_args2_true in G3. change (8 - 0)%nat with 8%nat in G3.
  apply seq_inv in G as (c4 & s4 & d4 & G4 & G & ->). rewrite push_args2_false in G4. change (8 - 0)%nat with 8%nat in G4.
  apply seq_inv in G as (c5 & s5 & d5 & G5 & G & ->). apply seq_inv in G as (c6 & s6 & d6 & G6 & G & ->). apply emit_inv in G6 as [-> ->].
  apply seq_inv in G as (c7 & s7 & d7 & G7 & G & ->). apply seq_inv in G as (c8 & s8 & d8 & G8 & G & ->). apply emit_inv in G8 as [-> ->].
  apply seq_inv in G as (c9 & s9 & d9 & G9 & G & ->). apply emit_inv in G as [-> _].
  rewrite (app_assoc c1), CH.
  destruct (need_args f args) as (NA & NF & MX0). set (mx := fold_right (fun a k => Z.max (need a) k) (need f) args) in *.
  rewrite <- (firstn_skipn 8 args) in EA. rewrite evl_app in EA. set (ar := firstn 8 args) in *. set (as_ := skipn 8 args) in *.
  destruct (evl E as_ m) as [[v2 ma]|] eqn:EA2; [|discriminate]. destruct (evl E ar ma) as [[v1 mb]|] eqn:EA1; [|discriminate].
  assert (vs = v1 ++ v2 /\ mb = m1) as [-> ->] by (split; congruence). clear EA.
  pose proof (evl_length E _ _ _ _ EA1) as L1. pose proof (evl_length E _ _ _ _ EA2) as L2.
  assert (LR : length ar = Nat.min 8 (length args)) by apply firstn_length. assert (LS : length as_ = (length args - 8)%nat) by apply skipn_length.
  assert (NS : Z.of_nat (length as_) = nst) by (unfold nst; now rewrite LS).
  intros p k st lo CA ND PC MT FS SL.
  apply code_at_app in CA as [CAh CA]. apply code_at_app in CA as [CA3 CA]. apply code_at_app in CA as [CA4 CA]. apply code_at_app in CA as [CA5 CA].
  apply code_at_app in CA as [CA6 CA]. apply code_at_app in CA as [CA7 CA]. apply code_at_app in CA as [CA8 CA]. apply code_at_app in CA as [CA9 CAn].
  destruct MT as (RO & FP & SM). destruct FS as [L0 FS].
  assert (NA8 : Z.of_nat (length args) = Z.of_nat (length ar) + nst) by (unfold nst; lia).
  assert (P8 : 0 <= (if pad then 8 else 0) <= 8) by (destruct pad; lia).
  (* padding *)
  destruct (head_run pad (rg st) (mm st) RO ltac:(lia)) as (rs1 & X1 & RO1 & SP1 & FP1). subst k.
  pose proof (run_straight W p st _ _ _ CAh X1) as ST1. set (st1 := St (pc st + length (head_code pad)) rs1 (mm st)) in *.
  assert (MT1 : matches m st1) by (split; [exact RO1|]; split; [cbn; congruence|exact SM]).
  (* arguments on the stack *)
  destruct (pa_ok E W goff fp room as_ (Forall_skipn _ 8 _ IHa) _ _ _ m v2 ma mx G3 (forallb_skipn _ 8 _ AQ) (forallb_skipn _ 8 _ WA) EA2 (Forall_skipn _ 8 _ NA) MX0 p st1 lo CA3 ND MT1
     ltac:(split; auto; intros a Ha; apply FS; cbn [st1 rg] in Ha; lia) ltac:(cbn [st1 rg]; lia)) as (st2 & ST2 & PC2 & MT2 & SP2 & MO2 & SL2).
  (* arguments in registers *)
  cbn [st1 pc] in PC2. cbn [st1 rg] in SP2. rewrite SP1 in SP2.
  destruct (pa_ok E W goff fp room ar (Forall_firstn _ 8 _ IHa) _ _ _ ma v1 m1 mx G4 (forallb_firstn _ 8 _ AQ) (forallb_firstn _ 8 _ WA) EA1 (Forall_firstn _ 8 _ NA) MX0 p st2 lo ltac:(rewrite PC2; exact CA4) ND MT2
     ltac:(split; auto; intros a Ha; apply FS; lia) ltac:(lia)) as (st3 & ST3 & PC3 & MT3 & SP3 & MO3 & SL3).
  (* the function *)
  destruct (IHf false _ _ _ _ _ _ _ G5 QF WF EF p (pc st3) st3 lo ltac:(rewrite PC3, PC2; exact CA5) ND eq_refl MT3
     ltac:(split; auto; intros a Ha; apply FS; lia) ltac:(lia)) as (st4 & ST4 & PC4 & R4 & MT4 & [SP4 MO4]).
  assert (FA : rg st4 (A 0) = fa).
  { apply rep_addr; auto; [|apply MT4]. pose proof (ev_val_ok E f HE _ _ _ _ WF EF) as VF. destruct (ntype f) eqn:TYF; try discriminate TF.
    - apply (ptr_range t0). eapply val_ok_val; [reflexivity|exact VF].
    - apply (aggr_addr false (TFunc t0)); auto. }
  destruct MT4 as (RO4 & FP4 & SM4).
  (* mv t0, a0 and the pops *)
  set (rs5 := setr (rg st4) T0 (wrap (rg st4 A0 + 0))).
  assert (RO5 : regs_ok rs5) by (apply regs_ok_upd; auto; apply wrap_rng).
  assert (T05 : rs5 (T 0) = fa) by (change (rs5 (T 0)) with (wrap (rg st4 (A 0) + 0)); rewrite Z.add_0_r, FA; apply mod_id; rewrite <- FA; apply RO4).
  rewrite <- LR in G7. pose proof (proj2 RO Sp) as BSP.
  destruct (pops_ok W (length ar) 0 _ _ _ rs5 (mm st4) G7 RO5 ltac:(change (rs5 Sp) with (rg st4 Sp); lia)) as (rs6 & X6 & RO6 & SP6 & OT6 & TT6 & _ & AA6).
  change (rs5 Sp) with (rg st4 Sp) in SP6, AA6.
  assert (ST6 : star W p st4 (St (pc st4 + length ([Mv T0 A0] ++ c7)) rs6 (mm st4))).
  { apply (run_straight W p st4 ([Mv T0 A0] ++ c7)).
    - rewrite PC4, PC3, PC2. apply code_at_app. split; [exact CA6|exact CA7].
    - rewrite exec_list_app. cbn [exec_list exec_straight Mv]. fold rs5. exact X6. }
  (* the call *)
  assert (ARGS : forall i ty x, nth_error (map ntype args) i = Some ty -> nth_error (v1 ++ v2) i = Some x -> rep (8 * size_of ty) x (arg_at rs6 (mm st4) i)).
  { intros i ty x Ty Xi. rewrite <- (firstn_skipn 8 args) in Ty. fold ar as_ in Ty. rewrite map_app in Ty. unfold arg_at. destruct (Nat.ltb_spec i 8) as [I8|I8].
    - assert (IL : (i < length ar)%nat).
      { assert (i < length args)%nat; [|lia]. assert (NN : nth_error (map ntype ar ++ map ntype as_) i <> None) by congruence. apply nth_error_Some in NN. rewrite app_length, !map_length in NN. lia. }
      rewrite nth_error_app1 in Ty by (rewrite map_length; lia). rewrite nth_error_app1 in Xi by lia.
      pose proof (AA6 i IL) as AI. cbn [Nat.add] in AI. rewrite AI. replace (rg st4 Sp) with (rg st3 Sp) by lia.
      replace (le_load (mm st4) (rg st3 Sp + 8 * Z.of_nat i) 8) with (le_load (mm st3) (rg st3 Sp + 8 * Z.of_nat i) 8); [eapply SL3; eauto|].
      apply le_load_ext. intros j Hj. rewrite MO4; auto; [|lia]. apply FS. lia.
    - assert (IL : (i < length args)%nat).
      { assert (NN : nth_error (map ntype ar ++ map ntype as_) i <> None) by congruence. apply nth_error_Some in NN. rewrite app_length, !map_length in NN. lia. }
      rewrite nth_error_app2 in Ty by (rewrite map_length; lia). rewrite map_length in Ty. rewrite nth_error_app2 in Xi by lia. rewrite L1 in Xi.
      replace (length ar) with 8%nat in Ty, Xi by lia.
      replace (rs6 Sp + 8 * (Z.of_nat i - 8)) with (rg st2 Sp + 8 * Z.of_nat (i - 8)) by lia.
      replace (le_load (mm st4) (rg st2 Sp + 8 * Z.of_nat (i - 8)) 8) with (le_load (mm st2) (rg st2 Sp + 8 * Z.of_nat (i - 8)) 8); [eapply SL2; eauto|].
      apply le_load_ext. intros j Hj. assert (IV : e_valid E (rg st2 Sp + 8 * Z.of_nat (i - 8) + j) = false) by (apply FS; lia).
      rewrite MO4, MO3; auto; lia. }
  set (st6 := St (pc st4 + length ([Mv T0 A0] ++ c7)) rs6 (mm st4)) in *.
  assert (N8 : nth_error p (pc st6) = Some (ICall T0)).
  { apply code_at_cons in CA8 as [N8 _]. rewrite <- N8. f_equal. cbn [st6 pc]. rewrite app_length. lia. }
  destruct (proj2 ND (pc st6) T0 fa (map ntype args) t (v1 ++ v2) m2 rv m3 rs6 (mm st4) lo N8 ltac:(change T0 with (T 0); rewrite TT6; exact T05) EC ltac:(rewrite map_length, app_length; lia) ARGS RO6
     ltac:(rewrite OT6 by (reflexivity || discriminate); exact FP4) SM4
     ltac:(split; [exact L0|]; cbn [rg]; intros a Ha; apply FS; lia) ltac:(lia) ltac:(rewrite app_length; lia) ltac:(rewrite app_length; intros a Ha; apply FS; lia)) as (rs7 & ms7 & ST7 & RR & RO7 & SP7 & FP7 & SM7 & MO7).
  change (St (pc st6) rs6 (mm st4)) with st6 in ST7.
  (* sp back, and narrowing *)
  assert (VV : match t with TVoid => True | _ => val_of t rv = true end /\ m' = m3 /\ (t = TVoid \/ v = rv)).
  { destruct t; try (destruct (val_of _ rv); [|discriminate]); (split; [auto|]); (split; [congruence|]); first [now left | right; congruence]. }
  destruct VV as (VV & -> & VE).
  assert (X9 : exists rs9, exec_list (w_sym W) c9 rs7 ms7 = Some (rs9, ms7) /\ regs_ok rs9 /\ rs9 Sp = rg st Sp /\ rs9 Fp = rs7 Fp /\ rs9 (A 0) = rs7 (A 0)).
  { assert (STK : 8 * stack = 8 * nst + (if pad then 8 else 0)) by (unfold stack; destruct pad; lia).
    destruct (stack =? 0) eqn:S0.
    - apply emit_inv in G9 as [-> _]. exists rs7. split; auto. split; auto. split; [lia|auto].
    - apply seq_inv in G9 as (e1 & u1 & e2 & E1 & E2 & ->). apply emit_inv in E1 as [-> _]. apply dep_inv in E2 as [-> _].
      eexists. split; [reflexivity|]. split; [apply regs_ok_upd; auto; apply wrap_rng|]. split; [|split; reflexivity].
      change (wrap (rs7 Sp + 8 * stack) = rg st Sp). replace (rs7 Sp + 8 * stack) with (rg st Sp) by lia. apply mod_id. lia. }
  destruct X9 as (rs9 & X9 & RO9 & SP9 & FP9 & A9).
  destruct (narrow_run W t rs9 ms7 rv RO9 VV ltac:(rewrite A9; exact RR)) as [PN (rs10 & X10 & R10)].
  destruct (pure_after _ _ _ _ _ X10 RO9 PN) as (_ & RO10 & K10).
  assert (ST10 : star W p (St (S (pc st6)) rs7 ms7) (St (S (pc st6) + length (c9 ++ narrow t)) rs10 ms7)).
  { apply (run_straight W p (St (S (pc st6)) rs7 ms7) (c9 ++ narrow t)).
    - cbn [pc]. replace (S (pc st6)) with (pc st + length (head_code pad) + length c3 + length c4 + length c5 + length [Mv T0 A0] + length c7 + length [ICall T0])%nat.
      + apply code_at_app. split; [exact CA9|exact CAn].
      + cbn [st6 pc length app]. lia.
    - rewrite exec_list_app. cbn [rg mm]. rewrite X9. exact X10. }
  eexists. split; [eapply star_trans; [exact ST1|]; eapply star_trans; [exact ST2|]; eapply star_trans; [exact ST3|]; eapply star_trans; [exact ST4|]; eapply star_trans; [exact ST6|]; eapply star_trans; [exact ST7|exact ST10]|].
  split; [cbn [pc st6]; rewrite !app_length; cbn [length]; lia|]. split.
  - cbn [rg]. destruct VE as [->| ->]; [apply rep_0|exact R10].
  - split; [split; [exact RO10|]; split; [|exact SM7]|].
    + cbn [rg]. rewrite K10 by reflexivity. rewrite FP9, FP7, OT6 by (reflexivity || discriminate). exact FP4.
    + split; [cbn [rg]; rewrite K10 by reflexivity; exact SP9|]. intros a Va La. cbn [mm].
      rewrite MO7, MO4, MO3, MO2; auto; try (cbn [st1 rg]; lia). rewrite app_length, L1, L2. lia.
Qed.

Theorem gen_correct n : gen_ok n.
Proof.
  induction n using node_induct.
  - apply gen_null.
  - apply gen_num.
  - apply gen_var.
  - now apply gen_member.
  - now apply gen_deref.
  - now apply gen_addr.
  - now apply gen_assign.
  - now apply gen_comma.
  - now apply gen_cast.
  - now apply gen_cond.
  - now apply gen_neg.
  - now apply gen_not.
  - now apply gen_bitnot.
  - now apply gen_logand.
  - now apply gen_logor.
  - now apply gen_bin.
  - apply gen_memzero.
  - now apply gen_callx.
Qed.
End Sim.
