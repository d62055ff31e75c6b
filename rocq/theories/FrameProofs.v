(** Proofs about stack frames. *)
From Verif Require Import Base TypeModel LayoutModel LayoutProofs NodeModel GenModel FrameModel FrameSpec.
From Coq Require Import ZifyBool ZifyNat.
Local Notation length := List.length.
Local Arguments Z.mul : simpl never.
Local Arguments Z.add : simpl never.
Local Arguments Z.sub : simpl never.

Lemma local_offsets_ok vs : forall bottom l b, local_offsets bottom vs = Some (l, b) -> 0 <= bottom -> (forall v o, In (v, o) vs -> lvar_ok v) ->
  bottom <= b /\ length l = length vs /\
  (forall i v o, nth_error vs i = Some (v, o) -> exists o', nth_error l i = Some o' /\ (o <> 0 -> o' = o) /\ (o = 0 -> - b <= o' /\ o' + size_of (v_ty v) <= - bottom /\ (v_align v | o'))) /\
  (forall i j v w o o', (i < j)%nat -> nth_error vs i = Some (v, 0) -> nth_error vs j = Some (w, 0) -> nth_error l i = Some o -> nth_error l j = Some o' -> o' + size_of (v_ty w) <= o).
Proof.
  induction vs as [|[v o] vs IH]; intros bottom l b H B OK; cbn [local_offsets] in H.
  { injection H as <- <-. split; [lia|]. split; [reflexivity|]. split; [intros i; destruct i; discriminate|intros i j; destruct i; discriminate]. }
  assert (OK2: forall v o, In (v, o) vs -> lvar_ok v) by (intros; eapply OK; right; eassumption). destruct (negb (o =? 0)) eqn:O.
  - destruct (local_offsets bottom vs) as [[l' b']|] eqn:H2; [|discriminate]. injection H as <- <-. destruct (IH bottom l' b' H2 B OK2) as (I1 & I2 & I3 & I4). split; [exact I1|]. split; [cbn [List.length]; lia|]. split.
    + intros [|i] w o' N; [injection N as <- <-; exists o; split; [reflexivity|]; split; [auto|lia]|]. exact (I3 i w o' N).
    + intros [|i] [|j] x y p q L N1 N2 M1 M2; try lia; [injection N1 as <- ->; lia|]. exact (I4 i j x y p q ltac:(lia) N1 N2 M1 M2).
  - destruct (OK v o (or_introl eq_refl)) as [SZ AL]. destruct (chk (bottom + size_of (v_ty v))) as [b1|] eqn:CK; [|discriminate]. apply chk_some in CK as [-> _].
    destruct (align_to (bottom + size_of (v_ty v)) (v_align v)) as [b2|] eqn:A; [|discriminate]. apply align_to_spec in A as [A (k & KE)]; [|lia|exact AL].
    destruct (local_offsets b2 vs) as [[l' b']|] eqn:H2; [|discriminate]. injection H as <- <-. destruct (IH b2 l' b' H2 ltac:(lia) OK2) as (I1 & I2 & I3 & I4). split; [lia|]. split; [cbn [List.length]; lia|]. split.
    + intros [|i] w o' N.
      * injection N as <- <-. exists (- b2). split; [reflexivity|]. split; [lia|]. intros _. split; [lia|]. split; [lia|]. exists (- k). lia.
      * destruct (I3 i w o' N) as (p & P1 & P2 & P3). exists p. split; [exact P1|]. split; [exact P2|]. intros E. destruct (P3 E) as (Q1 & Q2 & Q3). split; [exact Q1|]. split; [lia|exact Q3].
    + intros [|i] [|j] x y p q L N1 N2 M1 M2; try lia.
      * injection N1 as <- ->. injection M1 as <-. cbn [nth_error] in N2, M2. destruct (I3 j y 0 N2) as (q' & Q1 & _ & Q3). destruct (Q3 eq_refl) as (_ & Q & _). assert (q' = q) by congruence. subst q'. lia.
      * exact (I4 i j x y p q ltac:(lia) N1 N2 M1 M2).
Qed.

Lemma param_offsets_ok ps : forall top g f l top', param_offsets top g f ps = Some (l, top') -> 0 < top -> (forall t, In t ps -> 0 <= size_of t) ->
  top <= top' /\ length l = length ps /\
  (forall i t o, nth_error ps i = Some t -> nth_error l i = Some o -> o = 0 \/ (top <= o /\ (8 | o) /\ o + size_of t <= top')) /\
  (forall i j t o o', (i < j)%nat -> nth_error ps i = Some t -> nth_error l i = Some o -> nth_error l j = Some o' -> o <> 0 -> o' <> 0 -> o + size_of t <= o').
Proof.
  induction ps as [|t ps IH]; intros top g f l top' H T OK; cbn [param_offsets] in H.
  { injection H as <- <-. split; [lia|]. split; [reflexivity|]. split; [intros i; destruct i; discriminate|intros i j; destruct i; discriminate]. }
  assert (OK2: forall t, In t ps -> 0 <= size_of t) by (intros; apply OK; now right).
  assert (HR: (exists g' f', (let* (l, top) := param_offsets top g' f' ps in Some (0 :: l, top)) = Some (l, top')) \/
     (exists g' f', (let* o := align_to top 8 in let* top := chk (o + size_of t) in let* (l, top) := param_offsets top g' f' ps in Some (o :: l, top)) = Some (l, top'))).
  { repeat match type of H with
    | context [if ?x then _ else _] => destruct x
    | context [match align_to (size_of t) 8 with Some _ => _ | None => None end] => destruct (align_to (size_of t) 8); [|discriminate]
    | context [match t with TVoid => _ | _ => _ end] => destruct t
    end; try discriminate; try (left; eexists _, _; exact H); try (right; eexists _, _; exact H). }
  clear H. destruct HR as [(g' & f' & H)|(g' & f' & H)].
  - destruct (param_offsets top g' f' ps) as [[l' tp]|] eqn:H2; [|discriminate]. injection H as <- <-. destruct (IH top g' f' l' tp H2 T OK2) as (I1 & I2 & I3 & I4). split; [exact I1|]. split; [cbn [List.length]; lia|]. split.
    + intros [|i] x o N M; [injection M as <-; now left|]. exact (I3 i x o N M).
    + intros [|i] [|j] x o o' L N M1 M2 Z1 Z2; try lia; [injection M1 as <-; lia|]. exact (I4 i j x o o' ltac:(lia) N M1 M2 Z1 Z2).
  - destruct (align_to top 8) as [o|] eqn:A; [|discriminate]. apply align_to_spec in A as [A (k & KE)]; [|lia|lia]. destruct (chk (o + size_of t)) as [t1|] eqn:CK; [|discriminate]. apply chk_some in CK as [-> _].
    pose proof (OK t (or_introl eq_refl)) as SZ.
    destruct (param_offsets (o + size_of t) g' f' ps) as [[l' tp]|] eqn:H2; [|discriminate]. injection H as <- <-. destruct (IH (o + size_of t) g' f' l' tp H2 ltac:(lia) OK2) as (I1 & I2 & I3 & I4). split; [lia|]. split; [cbn [List.length]; lia|]. split.
    + intros [|i] x p N M; [injection N as <-; injection M as <-; right; split; [lia|]; split; [exists k; lia|lia]|]. destruct (I3 i x p N M) as [->|(Q1 & Q2 & Q3)]; [now left|right]. split; [lia|]. split; assumption.
    + intros [|i] [|j] x p q L N M1 M2 Z1 Z2; try lia; [|exact (I4 i j x p q ltac:(lia) N M1 M2 Z1 Z2)]. injection N as <-. injection M1 as <-. cbn [nth_error] in M2.
      destruct (nth_error ps j) as [y|] eqn:NJ; [|apply nth_error_None in NJ; assert (nth_error l' j <> None) as X by congruence; apply nth_error_Some in X; lia]. destruct (I3 j y q NJ M2) as [->|(Q & _ & _)]; [lia|exact Q].
Qed.

(** initial offsets of fn->locals *)
Definition init_offs (f : func) (va po : list Z) : list Z := map (fun _ => 0) (f_vars f) ++ [0] ++ va ++ po.
Lemma nth_error_combine {X Y} (a : list X) : forall (b : list Y) i x y, nth_error a i = Some x -> nth_error b i = Some y -> nth_error (combine a b) i = Some (x, y).
Proof. induction a as [|p a IH]; intros [|q b] [|i] x y N M; try discriminate; cbn in *; [congruence|now apply IH]. Qed.
Lemma combine_nth_error {X Y} (a : list X) : forall (b : list Y) i x y, nth_error (combine a b) i = Some (x, y) -> nth_error a i = Some x /\ nth_error b i = Some y.
Proof. induction a as [|p a IH]; intros [|q b] [|i] x y N; try discriminate; cbn in *; [injection N as -> ->; auto|now apply IH]. Qed.

Record frame_facts (f : func) (offs : list Z) (size : Z) : Prop := {
  ff_len : length offs = length (f_locals f);
  ff_size : 0 <= size /\ (8 | size);
  ff_in : forall i v o, nth_error (f_locals f) i = Some v -> nth_error offs i = Some o ->
    (- size <= o /\ o + size_of (v_ty v) <= 0 /\ (v_align v | o)) \/ ((S (bottom_ix f) <= i)%nat /\ 16 <= o /\ (8 | o));
  ff_apart : forall i j v w o o', i <> j -> nth_error (f_locals f) i = Some v -> nth_error (f_locals f) j = Some w -> nth_error offs i = Some o -> nth_error offs j = Some o' -> apart o (size_of (v_ty v)) o' (size_of (v_ty w));
  ff_params : forall po top, param_offsets 16 0 0 (map v_ty (f_params f)) = Some (po, top) -> forall i o o', nth_error po i = Some o -> nth_error offs (param_ix f + i) = Some o' -> (o <> 0 -> o' = o) /\ (o = 0 -> o' <= 0);
}.
Lemma frame_ok f offs size : frame f = Some (offs, size) -> Forall lvar_ok (f_locals f) -> frame_facts f offs size.
Proof.
  unfold frame. intros H OK. destruct (param_offsets 16 0 0 (map v_ty (f_params f))) as [[po top]|] eqn:P; [|discriminate].
  destruct (if f_variadic f then (let* o := align_to top 8 in Some [o]) else Some []) as [va|] eqn:VA; [|discriminate]. fold (init_offs f va po) in H.
  destruct (local_offsets 0 (combine (f_locals f) (init_offs f va po))) as [[l b]|] eqn:LO; [|discriminate]. destruct (align_to b 8) as [sz|] eqn:AB; [|discriminate]. injection H as <- <-.
  rewrite Forall_forall in OK. assert (OK1: forall v o, In (v, o) (combine (f_locals f) (init_offs f va po)) -> lvar_ok v) by (intros v o I; apply OK; exact (in_combine_l _ _ _ _ I)).
  destruct (local_offsets_ok _ _ _ _ LO ltac:(lia) OK1) as (L1 & L2 & L3 & L4).
  apply align_to_spec in AB as [AB (kb & KB)]; [|lia|lia].
  assert (PS: forall t, In t (map v_ty (f_params f)) -> 0 <= size_of t). { intros t I. apply in_map_iff in I as (v & <- & I). apply OK. unfold f_locals. rewrite !in_app_iff. auto. }
  destruct (param_offsets_ok _ _ _ _ _ _ P ltac:(lia) PS) as (P1 & P2 & P3 & P4).
  assert (VAL: length va = (if f_variadic f then 1 else 0)%nat /\ forall o, In o va -> top <= o /\ (8 | o)).
  { destruct (f_variadic f); [|injection VA as <-; split; [reflexivity|intros o []]]. destruct (align_to top 8) as [o|] eqn:AO; [|discriminate]. injection VA as <-. apply align_to_spec in AO as [AO (k & K)]; [|lia|lia]. split; [reflexivity|]. intros o' [<-|[]]. split; [lia|exists k; lia]. }
  destruct VAL as [VL VO]. rewrite map_length in P2.
  assert (LEN: length (init_offs f va po) = length (f_locals f)). { unfold init_offs, f_locals. rewrite !app_length, map_length. cbn [List.length]. rewrite VL, P2. destruct (f_variadic f); reflexivity. }
  assert (VS: forall v i, f_variadic f = true -> nth_error (f_locals f) i = Some v -> (i = S (bottom_ix f)) -> size_of (v_ty v) = 0).
  { intros v i V N ->. unfold f_locals in N. rewrite V in N. rewrite nth_error_app2 in N by (unfold bottom_ix; lia). replace (S (bottom_ix f) - length (f_vars f))%nat with 1%nat in N by (unfold bottom_ix; lia). cbn in N. injection N as <-. reflexivity. }
  (* what an initial offset that is not zero is *)
  assert (NZ: forall i v o, nth_error (f_locals f) i = Some v -> nth_error (init_offs f va po) i = Some o -> o <> 0 ->
     (f_variadic f = true /\ i = S (bottom_ix f) /\ top <= o /\ (8 | o) /\ size_of (v_ty v) = 0) \/
     (exists k, i = (param_ix f + k)%nat /\ nth_error po k = Some o /\ nth_error (map v_ty (f_params f)) k = Some (v_ty v))).
  { intros i v o N M Z0. unfold init_offs in M. destruct (Nat.ltb i (length (f_vars f))) eqn:I1.
    { rewrite nth_error_app1 in M by (rewrite map_length; lia). rewrite nth_error_map in M. destruct (nth_error (f_vars f) i); [injection M as <-; lia|discriminate]. }
    rewrite nth_error_app2 in M by (rewrite map_length; lia). rewrite map_length in M. destruct (i - length (f_vars f))%nat as [|i'] eqn:I2; [cbn in M; injection M as <-; lia|]. cbn [app nth_error] in M.
    destruct (Nat.ltb i' (length va)) eqn:I3.
    - left. assert (f_variadic f = true /\ i' = 0%nat) as [V ->] by (destruct (f_variadic f); lia). split; [exact V|]. assert (i = S (bottom_ix f)) by (unfold bottom_ix; lia). split; [assumption|].
      rewrite nth_error_app1 in M by lia. apply nth_error_In in M. destruct (VO o M). split; [assumption|]. split; [assumption|]. eapply VS; eauto.
    - right. rewrite nth_error_app2 in M by lia. exists (i' - length va)%nat. assert (IE: i = (param_ix f + (i' - length va))%nat) by (unfold param_ix, bottom_ix; rewrite VL in *; lia).
      split; [exact IE|]. split; [exact M|]. unfold f_locals in N. rewrite nth_error_app2 in N by lia. rewrite I2 in N. cbn [app nth_error] in N. rewrite nth_error_app2 in N by (destruct (f_variadic f); cbn [List.length] in *; lia).
      replace (length (if f_variadic f then [va_var] else [])) with (length va) in N by (rewrite VL; destruct (f_variadic f); reflexivity). rewrite nth_error_map, N. reflexivity. }
  assert (BOTH: forall i v o, nth_error (f_locals f) i = Some v -> nth_error l i = Some o -> exists o0, nth_error (init_offs f va po) i = Some o0 /\ nth_error (combine (f_locals f) (init_offs f va po)) i = Some (v, o0) /\
     (o0 <> 0 -> o = o0) /\ (o0 = 0 -> - b <= o /\ o + size_of (v_ty v) <= 0 /\ (v_align v | o))).
  { intros i v o N M. destruct (nth_error (init_offs f va po) i) as [o0|] eqn:N0; [|apply nth_error_None in N0; assert (nth_error (f_locals f) i <> None) as X by congruence; apply nth_error_Some in X; lia].
    exists o0. split; [reflexivity|]. pose proof (nth_error_combine _ _ _ _ _ N N0) as NC. split; [exact NC|]. destruct (L3 i v o0 NC) as (o' & M' & A & B). assert (o' = o) by congruence. subst o'. auto. }
  constructor.
  - rewrite L2, combine_length, LEN. lia.
  - split; [lia|exists kb; lia].
  - intros i v o N M. destruct (BOTH i v o N M) as (o0 & N0 & NC & A & B). destruct (Z.eq_dec o0 0) as [E|E]; [left; destruct (B E) as (B1 & B2 & B3); split; [lia|]; split; [lia|exact B3]|].
    right. rewrite (A E). destruct (NZ i v o0 N N0 E) as [(_ & -> & T & D & _)|(k & -> & M1 & M2)]; [split; [lia|]; split; [lia|exact D]|].
    destruct (P3 k _ o0 M2 M1) as [|(Q1 & Q2 & _)]; [lia|]. split; [unfold param_ix; lia|]. split; [lia|exact Q2].
  - intros i j v w o o' IJ N1 N2 M1 M2. pose proof (proj1 (OK v ltac:(eapply nth_error_In; eassumption))) as SV. pose proof (proj1 (OK w ltac:(eapply nth_error_In; eassumption))) as SW.
    destruct (BOTH i v o N1 M1) as (p & A0 & AC & AA & AB'). destruct (BOTH j w o' N2 M2) as (q & B0 & BC & BA & BB).
    unfold apart. destruct (Z.eq_dec p 0) as [E1|E1], (Z.eq_dec q 0) as [E2|E2].
    + subst p q. destruct (Nat.lt_trichotomy i j) as [L|[L|L]]; [right; eapply L4; eauto|lia|left; eapply L4; eauto].
    + left. destruct (AB' E1) as (_ & X & _). rewrite (BA E2). destruct (NZ j w q N2 B0 E2) as [(_ & _ & T & _)|(k & _ & K1 & K2)]; [lia|]. destruct (P3 k _ q K2 K1) as [|(T & _)]; lia.
    + right. destruct (BB E2) as (_ & X & _). rewrite (AA E1). destruct (NZ i v p N1 A0 E1) as [(_ & _ & T & _)|(k & _ & K1 & K2)]; [lia|]. destruct (P3 k _ p K2 K1) as [|(T & _)]; lia.
    + rewrite (AA E1), (BA E2). destruct (NZ i v p N1 A0 E1) as [(_ & I1 & T1 & _ & Z1)|(k & I1 & K1 & K2)]; destruct (NZ j w q N2 B0 E2) as [(_ & J1 & T2 & _ & Z2)|(k' & J1 & K1' & K2')].
      * lia.
      * right. destruct (P3 k' _ q K2' K1') as [|(_ & _ & T)]; lia.
      * left. destruct (P3 k _ p K2 K1) as [|(_ & _ & T)]; lia.
      * destruct (Nat.lt_trichotomy k k') as [L|[L|L]]; [left; eapply P4; eauto|lia|right; eapply P4; eauto].
  - intros po0 top0 PE. rewrite P in PE. injection PE as <- <-. intros i o o' M N.
    assert (IE: nth_error (init_offs f va po) (param_ix f + i) = Some o).
    { unfold init_offs. rewrite nth_error_app2 by (rewrite map_length; unfold param_ix, bottom_ix; lia). rewrite map_length. replace (param_ix f + i - length (f_vars f))%nat with (S (length va + i)) by (unfold param_ix, bottom_ix; rewrite VL; lia). cbn [app nth_error].
      rewrite nth_error_app2 by lia. replace (length va + i - length va)%nat with i by lia. exact M. }
    destruct (nth_error (f_locals f) (param_ix f + i)) as [v|] eqn:NV; [|apply nth_error_None in NV; assert (nth_error (init_offs f va po) (param_ix f + i) <> None) as X by congruence; apply nth_error_Some in X; lia].
    destruct (BOTH _ v o' NV N) as (o0 & N0 & _ & A & B). assert (o0 = o) by congruence. subst o0. split; [exact A|]. intros E. destruct (B E) as (_ & X & _). pose proof (proj1 (OK v ltac:(eapply nth_error_In; eassumption))). lia.
Qed.
