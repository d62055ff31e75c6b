(** Running fragments of code. *)
From Verif Require Import Base IntArith ValSpec FpSpec RvSpec GenSpec NodeProofs.
From Coq Require Import ZifyBool ZifyNat.
Local Notation length := List.length.

Lemma exec_list_app sym a b rs m :
  exec_list sym (a ++ b) rs m = match exec_list sym a rs m with Some (rs, m) => exec_list sym b rs m | None => None end.
Proof. revert rs m; induction a as [|i a IH]; intros; cbn [exec_list app]; auto. destruct exec_straight as [[]|]; auto. Qed.

(** ** Fragments *)
Lemma code_at_app p k a b : code_at p k (a ++ b) <-> code_at p k a /\ code_at p (k + length a) b.
Proof.
  split.
  - intros (p1 & p2 & -> & L). split.
    + exists p1, (b ++ p2). now rewrite <- app_assoc.
    + exists (p1 ++ a), p2. rewrite <- !app_assoc, app_length. split; [reflexivity|lia].
  - intros [(p1 & p2 & -> & L) (q1 & q2 & E & L')]. exists p1, q2. split; auto.
    rewrite (app_assoc p1 a p2) in E. assert (X : p1 ++ a = q1 /\ p2 = b ++ q2).
    { assert (LL : length (p1 ++ a) = length q1) by (rewrite app_length; lia). clear L L'.
      revert q1 E LL. generalize (p1 ++ a) as u. induction u as [|h u IH]; intros [|g q1] E LL; cbn in *; try lia; auto.
      assert (h = g /\ u ++ p2 = q1 ++ b ++ q2) as [-> E'] by (inversion E; auto). destruct (IH _ E' ltac:(lia)) as [-> ->]. auto. }
    destruct X as [_ ->]. now rewrite <- app_assoc.
Qed.
Lemma code_at_cons p k i c : code_at p k (i :: c) <-> nth_error p k = Some i /\ code_at p (S k) c.
Proof.
  change (i :: c) with ([i] ++ c). rewrite code_at_app. cbn [length]. replace (k + 1)%nat with (S k) by lia.
  split; intros [H1 H2]; split; auto.
  - destruct H1 as (p1 & p2 & -> & L). rewrite nth_error_app2 by lia. replace (k - length p1)%nat with 0%nat by lia. reflexivity.
  - apply nth_error_split in H1 as (p1 & p2 & -> & L). exists p1, p2. auto.
Qed.

Lemma star_trans w p a b c : star w p a b -> star w p b c -> star w p a c.
Proof. induction 1; auto. intros. econstructor; eauto. Qed.
Lemma star_one w p a b : step w p a = Some b -> star w p a b.
Proof. intros. econstructor; eauto. constructor. Qed.

Lemma exec_straight_step w p k i rs m rs' m' : nth_error p k = Some i -> exec_straight (w_sym w) i rs m = Some (rs', m') ->
  step w p (St k rs m) = Some (St (S k) rs' m').
Proof.
  intros N X. unfold step. cbn [pc rg mm]. rewrite N.
  destruct i; try discriminate X; rewrite X; reflexivity.
Qed.
Lemma straight w p k c rs m rs' m' : code_at p k c -> exec_list (w_sym w) c rs m = Some (rs', m') ->
  star w p (St k rs m) (St (k + length c) rs' m').
Proof.
  revert k rs m; induction c as [|i c IH]; intros k rs m C X; cbn [exec_list length] in *.
  - replace (k + 0)%nat with k by lia. assert (rs' = rs /\ m' = m) as [-> ->] by (inversion X; auto). constructor.
  - apply code_at_cons in C as [N C]. destruct exec_straight as [[rs1 m1]|] eqn:Q; [|discriminate].
    econstructor; [eapply exec_straight_step; eauto|]. replace (k + S (length c))%nat with (S k + length c)%nat by lia. auto.
Qed.

(** ** Labels *)
Lemma labels_app a b : labels (a ++ b) = labels a ++ labels b. Proof. apply flat_map_app. Qed.
Lemma find_label_at p k l : NoDup (labels p) -> nth_error p k = Some (ILabel l) -> find_label p l = Some k.
Proof.
  revert k; induction p as [|i p IH]; intros k ND N; [destruct k; discriminate|].
  destruct k as [|k]; cbn in N.
  - assert (i = ILabel l) by congruence. subst. cbn. unfold label_eqb. now rewrite beq_refl.
  - assert (I : In l (labels p)).
    { apply nth_error_In in N. unfold labels. apply in_flat_map. exists (ILabel l). cbn. auto. }
    destruct i; cbn [find_label]; cbn [labels flat_map app] in ND; try (rewrite (IH k ND N); reflexivity).
    inversion ND; subst. unfold label_eqb. destruct (beq l l0) eqn:B.
    + apply beq_eq in B. subst. contradiction.
    + rewrite (IH k); auto.
Qed.

(** ** Registers stay in range *)
Lemma regs_ok_upd rs r v : regs_ok rs -> 0 <= v < 2 ^ 64 -> regs_ok (setr rs r v).
Proof.
  intros [Z0 B] V. destruct r; cbn [setr]; [split; auto| | | | | |]; (split; [exact Z0|]);
    intros x; unfold upd; destruct (reg_eqb x _); auto.
Qed.
Lemma wrap_rng z : 0 <= wrap z < 2 ^ 64. Proof. apply mod_pow_range. lia. Qed.
Lemma div_rng x y : 0 <= x < 2 ^ 64 -> 0 <= x / 2 ^ y < 2 ^ 64.
Proof.
  intros B. destruct (Z_lt_le_dec y 0) as [N|N].
  - rewrite (Z.pow_neg_r 2 y N). cbn. destruct x; cbn; lia.
  - pose proof (pow_pos y N). split; [apply Z.div_pos; lia|]. apply Z.le_lt_trans with x; [|lia].
    apply Z.div_le_upper_bound; [lia|]. assert (1 * x <= 2 ^ y * x) by (apply Z.mul_le_mono_nonneg_r; lia). lia.
Qed.
Lemma b2z_rng b : 0 <= b2z b < 2 ^ 64. Proof. destruct b; cbn; lia. Qed.
Lemma exec_op_rng o x y : 0 <= x < 2 ^ 64 -> 0 <= y < 2 ^ 64 -> 0 <= exec_op o x y < 2 ^ 64.
Proof.
  intros X Y. destruct o; cbn [exec_op]; try apply wrap_rng; try apply b2z_rng.
  - apply land_range; lia.
  - apply lor_range; lia.
  - apply lxor_range; lia.
  - now apply div_rng.
Qed.
Lemma box_rng f z : 0 <= box f z < 2 ^ 64.
Proof. destruct f; cbn [box]; [pose proof (mod_pow_range 32 z ltac:(lia)); lia|apply mod_pow_range; lia]. Qed.
Lemma fcvt_rng sg n f x : 0 <= fcvt_int sg n f x < 2 ^ 64. Proof. apply wrap_rng. Qed.
Lemma exec_straight_regs sym i rs m rs' m' : (forall s, 0 <= sym s < 2 ^ 64) -> (forall u n rd off r, i = ILoad u n rd off r -> 0 <= n <= 8) ->
  regs_ok rs -> exec_straight sym i rs m = Some (rs', m') -> regs_ok rs'.
Proof.
  intros SY LD [Z0 B] X. destruct i; cbn [exec_straight] in X; try discriminate;
    try (assert (rs' = rs) by congruence; subst; split; assumption);
    try (assert (E : rs' = _) by (injection X as <- _; reflexivity); subst rs'; apply regs_ok_upd; [split; assumption|]);
    auto using wrap_rng, b2z_rng, div_rng, exec_op_rng, box_rng, fcvt_rng.
  - apply lxor_range; auto; try lia. apply wrap_rng.
  - apply land_range; auto; try lia. apply wrap_rng.
  - destruct (ea rs rs0 off n) as [a|]; [|discriminate].
    assert (E : rs' = setr rs rd (if u then le_load m a (Z.to_nat n) else wrap (sx (8 * n) (le_load m a (Z.to_nat n))))) by congruence.
    subst rs'. apply regs_ok_upd; [split; auto|]. destruct u; [|apply wrap_rng].
    pose proof (le_load_range m a (Z.to_nat n)) as R. specialize (LD _ _ _ _ _ eq_refl).
    pose proof (Z.pow_le_mono_r 2 (8 * Z.of_nat (Z.to_nat n)) 64 ltac:(lia) ltac:(lia)). lia.
  - destruct (ea rs r1 off n) as [a|]; [|discriminate]. assert (rs' = rs) by congruence. subst. split; auto.
  - destruct (ea rs rs0 off (width f / 8)) as [a|]; [|discriminate]. assert (E : rs' = setr rs rd (box f (le_load m a (Z.to_nat (width f / 8))))) by congruence.
    subst rs'. apply regs_ok_upd; [split; auto|apply box_rng].
  - destruct (ea rs r1 off (width f / 8)) as [a|]; [|discriminate]. assert (rs' = rs) by congruence. subst. split; auto.
Qed.
