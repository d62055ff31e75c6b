From Verif Require Import Base IntArith InitModel InitSpec InitProofs DataModel DataSpec.
From Coq Require Import ZifyBool ZifyNat.
Local Arguments Z.mul : simpl never. Local Arguments Z.add : simpl never. Local Arguments Z.sub : simpl never. Local Arguments Z.pow : simpl never.

Lemma llog2_loop_pow k : forall fuel r, (k <= fuel)%nat -> llog2_loop fuel (2 ^ Z.of_nat k) r = Some (r + Z.of_nat k).
Proof.
  induction k as [|k IH]; intros fuel r L.
  - destruct fuel; cbn [llog2_loop]; change (2 ^ Z.of_nat 0) with 1; cbn; f_equal; lia.
  - destruct fuel as [|fuel]; [lia|]. cbn [llog2_loop]. replace (Z.of_nat (S k)) with (1 + Z.of_nat k) by lia. rewrite Z.pow_add_r by lia. change (2 ^ 1) with 2.
    pose proof (Z.pow_pos_nonneg 2 (Z.of_nat k) ltac:(lia) ltac:(lia)) as P. replace (1 <? 2 * 2 ^ Z.of_nat k) with true by lia. rewrite Z.odd_mul. cbn [Z.odd andb].
    rewrite (Z.mul_comm 2), Z.div_mul by lia. rewrite IH by lia. f_equal. lia.
Qed.
Lemma llog2_pow k : 0 <= k < 31 -> llog2 (2 ^ k) = Some k.
Proof. intros K. unfold llog2. replace k with (Z.of_nat (Z.to_nat k)) by lia. rewrite llog2_loop_pow by lia. reflexivity. Qed.
(** and no other number is accepted *)
Lemma llog2_loop_only fuel : forall n r k, llog2_loop fuel n r = Some k -> n < 2 ^ Z.of_nat fuel -> 1 <= n -> r <= k /\ n = 2 ^ (k - r).
Proof.
  induction fuel as [|fuel IH]; intros n r k H B N; cbn [llog2_loop] in H.
  - change (2 ^ Z.of_nat 0) with 1 in B. lia.
  - destruct (Z.ltb_spec 1 n) as [G|G].
    + destruct (Z.odd n) eqn:O; [discriminate|]. assert (EV: n = 2 * (n / 2)) by (apply Z_div_exact_2; [lia|]; rewrite Zmod_odd, O; reflexivity).
      replace (Z.of_nat (S fuel)) with (1 + Z.of_nat fuel) in B by lia. rewrite Z.pow_add_r in B by lia. change (2 ^ 1) with 2 in B. destruct (IH (n / 2) (r + 1) k H ltac:(lia) ltac:(lia)) as (L & E). split; [lia|]. rewrite EV, E. replace (k - r) with (1 + (k - (r + 1))) by lia. rewrite Z.pow_add_r by lia. reflexivity.
    + injection H as <-. split; [lia|]. rewrite Z.sub_diag. change (2 ^ 0) with 1. lia.
Qed.

(** ** Growing *)
Definition grows (n : bytes) (o o' : objfile) : Prop :=
  (forall s, exists x, body o' s = body o s ++ x) /\ (forall s, power o s <= power o' s) /\
  (forall k, k <> n -> sym o' k = sym o k /\ local o' k = local o k).
Lemma grows_refl n o : grows n o o.
Proof. split; [intros s; exists []; now rewrite app_nil_r|]. split; [lia|auto]. Qed.
Lemma grows_trans n a b c : grows n a b -> grows n b c -> grows n a c.
Proof.
  intros (A1 & A2 & A3) (B1 & B2 & B3). split; [|split].
  - intros s. destruct (A1 s) as (x & X). destruct (B1 s) as (y & Y). exists (x ++ y). now rewrite Y, X, app_assoc.
  - intros s. specialize (A2 s). specialize (B2 s). lia.
  - intros k K. destruct (A3 k K), (B3 k K). split; congruence.
Qed.
Lemma sect_eqb_eq a b : sect_eqb a b = true <-> a = b. Proof. destruct a, b; cbn; split; congruence. Qed.
Lemma set_get {A} (f : sect -> A) s x : set f s x s = x. Proof. unfold set. now rewrite (proj2 (sect_eqb_eq s s) eq_refl). Qed.
Lemma bind_get {A} (f : bytes -> option A) n x : bind f n x n = Some x. Proof. unfold bind. now rewrite beq_refl. Qed.
Lemma bind_other {A} (f : bytes -> option A) n x k : k <> n -> bind f n x k = f k. Proof. intros K. unfold bind. destruct (beq n k) eqn:B; [|reflexivity]. apply beq_eq in B. congruence. Qed.
Lemma add_grows n o c : grows n o (add o c).
Proof. split; [|split; [cbn; lia|cbn; auto]]. intros s. cbn [add body]. unfold set. destruct (sect_eqb (cur o) s) eqn:E; [apply sect_eqb_eq in E; subst; now exists c|exists []; now rewrite app_nil_r]. Qed.
Definition about (n : bytes) (l : aline) : Prop := match l with ALocal k | AGlobal k | AComm k _ _ | ALabel k => k = n | _ => True end.
Lemma line_grows n o l : about n l -> grows n o (line o l).
Proof.
  destruct l; cbn [about line]; intros A; subst; try apply grows_refl; try apply add_grows;
  try (split; [intros s0; exists []; now rewrite app_nil_r|]; split; [cbn; lia|]; intros m M; cbn [sym local]; rewrite ?bind_other by exact M; auto).
  destruct (add_grows n o (zeros (- len (body o (cur o)) mod 2 ^ k))) as (A1 & A2 & A3). split; [exact A1|]. split; [|exact A3]. intros s. cbn [power]. unfold set. destruct (sect_eqb _ s) eqn:E; [apply sect_eqb_eq in E; subst; cbn [add power cur]; lia|apply A2].
Qed.
Lemma lines_grows n l : forall o, Forall (about n) l -> grows n o (lines o l).
Proof. induction l as [|x l IH]; intros o F; [apply grows_refl|]. inversion F; subst. apply (grows_trans n o (line o x)); [now apply line_grows|now apply IH]. Qed.
Lemma var_about fc v a : emit_var fc v = Some a -> Forall (about (o_name v)) a.
Proof.
  unfold emit_var. intros H. destruct (o_fun v || negb (o_def v)); [injection H as <-; constructor|]. destruct (fc && o_tent v).
  - injection H as <-. destruct (o_static v); repeat constructor.
  - destruct (o_init v) as [img|]; (destruct (llog2 (o_align v)) as [k|]; [|discriminate H]).
    + destruct (emit_bytes _ _ _ _ _) as [d|]; [|discriminate H]. injection H as <-. destruct (o_static v); (do 6 (constructor; [first [reflexivity|exact I]|])); clear; induction d; constructor; auto; exact I.
    + injection H as <-. destruct (o_static v); (do 5 (constructor; [first [reflexivity|exact I]|])); constructor.
Qed.
Lemma has_grows fc n f f' v : n <> o_name v -> (forall k, 0 <= power f k) -> good_var v -> grows n f f' -> has_var fc f v -> has_var fc f' v.
Proof.
  intros N PW (_ & SZ & _) (G1 & G2 & G3) (L & H). destruct (G3 (o_name v) ltac:(congruence)) as (S1 & S2). split; [now rewrite S2|]. destruct (fc && o_tent v); [now rewrite S1|].
  destruct H as (off & S & O & (A1 & A2) & B). exists off. split; [now rewrite S1|]. split; [exact O|]. split.
  - split; [exact A1|]. etransitivity; [exact A2|]. specialize (G2 (sect_of v)). specialize (PW (sect_of v)). exists (2 ^ (power f' (sect_of v) - power f (sect_of v))). rewrite <- Z.pow_add_r by lia. f_equal. lia.
  - destruct (G1 (sect_of v)) as (x & X). rewrite X. assert (LB: List.length (image_of v) = Z.to_nat (o_size v)).
    { unfold image_of. destruct (o_init v); [now rewrite map_length, seq_length|unfold zeros; now rewrite repeat_length]. }
    rewrite <- B, firstn_length, skipn_length in LB. destruct (Nat.eq_dec (Z.to_nat (o_size v)) 0) as [Z0|NZ]; [rewrite Z0 in *; exact B|]. rewrite skipn_app, firstn_app, skipn_length.
    replace (Z.to_nat (o_size v) - (List.length (body f (sect_of v)) - Z.to_nat off))%nat with 0%nat by lia. cbn [firstn]. rewrite app_nil_r. exact B.
Qed.
Lemma data_lines d : forall o, lines o (map AData d) = match d with [] => o | _ => lines o (map AData d) end /\ cur (lines o (map AData d)) = cur o /\ body (lines o (map AData d)) (cur o) = body o (cur o) ++ assemble d /\ sym (lines o (map AData d)) = sym o /\ local (lines o (map AData d)) = local o /\ power (lines o (map AData d)) = power o.
Proof.
  induction d as [|x d IH]; intros o; [cbn; rewrite app_nil_r; auto 10|]. split; [reflexivity|]. change (lines o (map AData (x :: d))) with (lines (add o (assemble1 x)) (map AData d)). destruct (IH (add o (assemble1 x))) as (_ & C & B & S1 & L & P). cbn [add cur body sym local power] in *. rewrite set_get in B. split; [exact C|]. split; [rewrite B; cbn [assemble flat_map]; now rewrite app_assoc|]. auto.
Qed.
Lemma pad_mod n k : 0 <= k -> (n + (- n) mod 2 ^ k) mod 2 ^ k = 0.
Proof. intros K. pose proof (Z.pow_pos_nonneg 2 k ltac:(lia) K). rewrite Z.add_mod_idemp_r by lia. rewrite Z.add_opp_diag_r. reflexivity. Qed.
Lemma len_zeros n : 0 <= n -> len (zeros n) = n. Proof. intros. unfold len, zeros. rewrite repeat_length. lia. Qed.
Lemma len_app {A} (a b : list A) : len (a ++ b) = len a + len b. Proof. unfold len. rewrite app_length. lia. Qed.
Lemma emit_var_has fc v o : good_var v -> emitted v = true -> (forall k, 0 <= power o k) -> exists a, emit_var fc v = Some a /\ has_var fc (lines o a) v.
Proof.
  intros ((k & K & AL) & SZ & RF) EM PW. unfold emit_var, emitted in *. replace (o_fun v || negb (o_def v)) with false by (destruct (o_fun v), (o_def v); auto; discriminate). unfold has_var.
  set (b := if o_static v then ALocal (o_name v) else AGlobal (o_name v)). set (o1 := line o b).
  assert (B: body o1 = body o /\ power o1 = power o /\ cur o1 = cur o /\ local o1 (o_name v) = Some (o_static v)) by (unfold o1, b; destruct (o_static v); cbn [line body power cur local]; rewrite bind_get; auto).
  destruct B as (B1 & B2 & B3 & B4). destruct (fc && o_tent v).
  { eexists. split; [reflexivity|]. change (lines o [b; AComm (o_name v) (o_size v) (o_align v)]) with (line o1 (AComm (o_name v) (o_size v) (o_align v))). cbn [line local sym]. rewrite bind_get. auto. }
  assert (LK: llog2 (o_align v) = Some k) by (rewrite AL; now apply llog2_pow). rewrite LK. set (o2 := line o1 (ASect (sect_of v))). set (o3 := line o2 (AAlign k)). set (o4 := line o3 (ALabel (o_name v))).
  set (n := len (body o (sect_of v))). set (pad := (- n) mod 2 ^ k). assert (PP: 0 < 2 ^ k) by (apply Z.pow_pos_nonneg; lia). assert (P0: 0 <= pad) by (apply Z.mod_pos_bound; lia).
  assert (C4: cur o4 = sect_of v) by reflexivity.
  assert (D4: body o4 (sect_of v) = body o (sect_of v) ++ zeros pad). { unfold o4, o3. cbn [line body]. cbn [add cur o2 line body]. rewrite B1. unfold o2. cbn [line cur]. rewrite set_get. reflexivity. }
  assert (L4: len (body o4 (sect_of v)) = n + pad) by (rewrite D4, len_app, len_zeros by lia; reflexivity).
  assert (S4: sym o4 (o_name v) = Some (Defined (sect_of v) (n + pad))). { unfold o4. cbn [line sym]. rewrite bind_get. f_equal. f_equal. exact L4. }
  assert (W4: k <= power o4 (sect_of v)). { unfold o4, o3. cbn [line power]. cbn [add cur o2 line power]. rewrite set_get. lia. }
  assert (N0: 0 <= n) by (unfold n, len; lia).
  assert (E4: local o4 (o_name v) = Some (o_static v)) by exact B4.
  assert (DV: (o_align v | 2 ^ power o4 (sect_of v))) by (rewrite AL; exists (2 ^ (power o4 (sect_of v) - k)); rewrite <- Z.pow_add_r by lia; f_equal; lia).
  destruct (o_init v) as [img|] eqn:IN.
  - destruct (emit_cells (Z.to_nat (o_size v)) (o_size v) 0 (g_rel img) (g_buf img) ltac:(lia) RF) as (d & ED & AS). rewrite ED. eexists. split; [reflexivity|].
    assert (SE: (if o_tls v then STdata else SData) = sect_of v) by (unfold sect_of; rewrite IN; now destruct (o_tls v)). rewrite SE.
    change (lines o (b :: ASect (sect_of v) :: AType (o_name v) :: ASize (o_name v) (o_size v) :: AAlign k :: ALabel (o_name v) :: map AData d)) with (lines o4 (map AData d)).
    destruct (data_lines d o4) as (_ & _ & BD & SY & LO & PO). rewrite C4 in BD. rewrite SY, LO, PO. split; [exact E4|]. exists (n + pad). split; [exact S4|]. split; [lia|]. split; [split; [rewrite AL; now apply pad_mod; lia|exact DV]|].
    rewrite BD, skipn_app. replace (Z.to_nat (n + pad)) with (List.length (body o4 (sect_of v))) by (unfold len in L4; lia). rewrite skipn_all, Nat.sub_diag. cbn [app skipn]. rewrite AS. unfold image_of. rewrite IN. rewrite Z.sub_0_r.
    rewrite firstn_all2 by (unfold cells; rewrite map_length, seq_length; lia). unfold cells. apply map_ext. intros j. f_equal.
  - eexists. split; [reflexivity|]. assert (SE: (if o_tls v then STbss else SBss) = sect_of v) by (unfold sect_of; rewrite IN; now destruct (o_tls v)). rewrite SE.
    change (lines o [b; ASect (sect_of v); AAlign k; ALabel (o_name v); AZero (o_size v)]) with (add o4 (zeros (o_size v))). cbn [add local sym power body]. rewrite C4, set_get. split; [exact E4|]. exists (n + pad). split; [exact S4|]. split; [lia|]. split; [split; [rewrite AL; now apply pad_mod; lia|exact DV]|].
    rewrite skipn_app. replace (Z.to_nat (n + pad)) with (List.length (body o4 (sect_of v))) by (unfold len in L4; lia). rewrite skipn_all, Nat.sub_diag. cbn [app skipn]. unfold image_of. rewrite IN. unfold zeros. apply firstn_all2. rewrite repeat_length. lia.
Qed.
Lemma lines_app a : forall b o, lines o (a ++ b) = lines (lines o a) b. Proof. intros b o. unfold lines. apply fold_left_app. Qed.
Lemma grows_any n o o' : grows n o o' -> (forall k, 0 <= power o k) -> forall k, 0 <= power o' k.
Proof. intros (_ & P & _) H k. specialize (P k). specialize (H k). lia. Qed.
Definition grows_all (names : list bytes) (o o' : objfile) : Prop :=
  forall fc v, ~ In (o_name v) names -> good_var v -> (forall k, 0 <= power o k) -> has_var fc o v -> has_var fc o' v.
Lemma emit_data_grows fc prog : forall o a, (forall k, 0 <= power o k) -> emit_data fc prog = Some a -> grows_all (map o_name (filter emitted prog)) o (lines o a).
Proof.
  induction prog as [|v r IH]; intros o a PW H; cbn [emit_data] in H; [injection H as <-; intros fc' v N GV P HV; exact HV|]. destruct (emit_var fc v) as [x|] eqn:E; [|discriminate H]. destruct (emit_data fc r) as [y|] eqn:D; [|discriminate H]. injection H as <-.
  intros fc' w N GW PW' HV. rewrite lines_app. pose proof (lines_grows _ _ o (var_about fc v x E)) as G. cbn [filter] in N. destruct (emitted v) eqn:EM.
  - cbn [map In] in N. apply (IH (lines o x) y (grows_any _ _ _ G PW) eq_refl); [tauto|exact GW|exact (grows_any _ _ _ G PW)|]. eapply (has_grows fc' (o_name v)); [intros Q; apply N; now left|exact PW|exact GW|exact G|exact HV].
  - assert (X: x = []) by (unfold emit_var in E; unfold emitted in EM; replace (o_fun v || negb (o_def v)) with true in E by (destruct (o_fun v), (o_def v); auto; discriminate); congruence). subst x. exact (IH o y PW eq_refl fc' w N GW PW HV).
Qed.
Lemma emit_data_has fc prog : forall o, (forall k, 0 <= power o k) -> NoDup (map o_name (filter emitted prog)) -> (forall v, In v prog -> emitted v = true -> good_var v) ->
  exists a, emit_data fc prog = Some a /\ forall v, In v prog -> emitted v = true -> has_var fc (lines o a) v.
Proof.
  induction prog as [|v r IH]; intros o PW ND GV; [exists []; split; [reflexivity|intros v []]|]. cbn [emit_data filter] in *. destruct (emitted v) eqn:EM.
  - cbn [map] in ND. inversion ND as [|? ? N1 N2]; subst. destruct (emit_var_has fc v o (GV v (or_introl eq_refl) EM) EM PW) as (x & EX & HX). rewrite EX. pose proof (lines_grows _ _ o (var_about fc v x EX)) as G. pose proof (grows_any _ _ _ G PW) as PW2.
    destruct (IH (lines o x) PW2 N2 (fun w I => GV w (or_intror I))) as (y & EY & HY). rewrite EY. exists (x ++ y). split; [reflexivity|]. intros w [<-|I] EW; rewrite lines_app; [|now apply HY].
    apply (emit_data_grows fc r (lines o x) y PW2 EY); [exact N1|exact (GV v (or_introl eq_refl) EM)|exact PW2|exact HX].
  - assert (X: emit_var fc v = Some []) by (unfold emit_var; unfold emitted in EM; replace (o_fun v || negb (o_def v)) with true by (destruct (o_fun v), (o_def v); auto; discriminate); reflexivity). rewrite X. destruct (IH o PW ND (fun w I => GV w (or_intror I))) as (y & EY & HY). rewrite EY. exists y. split; [reflexivity|]. intros w [<-|I] EW; [congruence|now apply HY].
Qed.
