From Verif Require Import Base BitLemmas UnicodeModel UnicodeSpec UnicodeProofs TextModel TextSpec.
From Coq Require Import ZifyBool ZifyNat Arith.
Ltac Zify.zify_post_hook ::= Z.div_mod_to_equations.

Local Notation length := List.length.

Lemma set_nth_app {A} (out : list A) m r x : set_nth (length out) x (out ++ m :: r) = out ++ x :: r.
Proof. induction out as [|y out IH]; simpl; [reflexivity|]. rewrite IH. reflexivity. Qed.

Lemma write_mid {A} out m r x (k : bytes -> res A) j :
  j = length out -> write (out ++ m :: r) j x k = k ((out ++ [x]) ++ r).
Proof.
  intros ->. unfold write. rewrite app_length. simpl.
  destruct (Nat.ltb_spec (length out) (length out + S (length r))); [|lia].
  rewrite set_nth_app, <- app_assoc. reflexivity.
Qed.

Lemma nth_error_mid {A} (a : list A) x r i : i = length a -> nth_error (a ++ x :: r) i = Some x.
Proof. intros ->. rewrite nth_error_app2, Nat.sub_diag by lia. reflexivity. Qed.

Lemma nth_error_mid1 {A} (a : list A) x y r i : i = length a -> nth_error (a ++ x :: y :: r) (i + 1) = Some y.
Proof. intros ->. rewrite nth_error_app2 by lia. replace (length a + 1 - length a)%nat with 1%nat by lia. reflexivity. Qed.

Lemma app_snoc_cons {A} (mid : list A) c : exists m mid', mid ++ [c] = m :: mid'.
Proof. destruct mid; simpl; eauto. Qed.

Ltac aa := simpl; repeat (rewrite <- app_assoc; simpl); try reflexivity.
Ltac ll := cbn [List.length] in *; rewrite ?app_length in *; simpl in *; lia.

(** Phase 1 *)
Lemma canon_correct : forall fuel s out mid junk p i j,
  text s -> (length s < fuel)%nat ->
  p = out ++ mid ++ s ++ 0 :: junk -> i = length (out ++ mid) -> j = length out ->
  exists t junk', newline_norm s t /\ canonicalize_newline fuel p i j = Done (out ++ t ++ 0 :: junk').
Proof.
  induction fuel as [|fuel IH]; intros s out mid junk p i j Ht Hf Hp Hi Hj; [lia|].
  cbn [canonicalize_newline].
  destruct s as [|c s].
  - assert (E : nth_error p i = Some 0) by (subst p; rewrite app_assoc; apply nth_error_mid; exact Hi).
    rewrite E. simpl. 
    destruct mid as [|m mid]; subst p; cbn [app] in *.
    + rewrite (write_mid out 0 junk 0 Done j Hj). exists [], junk. split; [constructor|]. aa.
    + rewrite (write_mid out m (mid ++ 0 :: junk) 0 Done j Hj). exists [], (mid ++ 0 :: junk). split; [constructor|]. aa.
  - assert (E : nth_error p i = Some c).
    { subst p. rewrite app_assoc. simpl. apply nth_error_mid. exact Hi. }
    rewrite E.
    assert (Hc : c <> 0) by (intros ->; apply Ht; left; reflexivity).
    assert (Hs : text s) by (intro; apply Ht; right; assumption).
    destruct (Z.eqb_spec c 0); [contradiction|].
    destruct (Z.eqb_spec c 13) as [->|Hc13].
    + destruct s as [|d s].
      * assert (E1 : nth_error p (i + 1) = Some 0).
        { subst p. rewrite app_assoc. simpl. apply nth_error_mid1. exact Hi. }
        rewrite E1. simpl.
        destruct (app_snoc_cons mid 13) as [m [mid' Em]].
        assert (Ep : p = out ++ m :: mid' ++ [] ++ 0 :: junk).
        { subst p. f_equal. change (m :: mid' ++ [] ++ 0 :: junk) with ((m :: mid') ++ 0 :: junk).
          rewrite <- Em. aa. }
        rewrite Ep. rewrite write_mid by exact Hj.
        destruct (IH [] (out ++ [10]) mid' junk ((out ++ [10]) ++ mid' ++ [] ++ 0 :: junk) (i + 1)%nat (j + 1)%nat) as [t [junk' [Hn Hr]]]; auto.
        { simpl in *; lia. }
        { apply (f_equal (@length Z)) in Em. ll. }
        { ll. }
        exists (10 :: t), junk'. split; [|rewrite Hr; aa].
        apply nn_cr; [simpl; lia|exact Hn].
      * assert (E1 : nth_error p (i + 1) = Some d).
        { subst p. rewrite app_assoc. simpl. apply nth_error_mid1. exact Hi. }
        rewrite E1.
        destruct (Z.eqb_spec d 10) as [->|Hd].
        -- destruct (app_snoc_cons mid 13) as [m [mid' Em]].
           assert (Ep : p = out ++ m :: (mid' ++ [10]) ++ s ++ 0 :: junk).
           { subst p. f_equal. change (m :: (mid' ++ [10]) ++ s ++ 0 :: junk) with (((m :: mid') ++ [10]) ++ s ++ 0 :: junk).
             rewrite <- Em. aa. }
           rewrite Ep. rewrite write_mid by exact Hj.
           destruct (IH s (out ++ [10]) (mid' ++ [10]) junk ((out ++ [10]) ++ (mid' ++ [10]) ++ s ++ 0 :: junk) (i + 2)%nat (j + 1)%nat) as [t [junk' [Hn Hr]]]; auto.
           { intro; apply Hs; right; assumption. }
           { simpl in *; lia. }
           { apply (f_equal (@length Z)) in Em. ll. }
           { ll. }
           exists (10 :: t), junk'. split; [|rewrite Hr; aa].
           apply nn_crlf. exact Hn.
        -- destruct (app_snoc_cons mid 13) as [m [mid' Em]].
           assert (Ep : p = out ++ m :: mid' ++ (d :: s) ++ 0 :: junk).
           { subst p. f_equal. change (m :: mid' ++ (d :: s) ++ 0 :: junk) with ((m :: mid') ++ (d :: s) ++ 0 :: junk).
             rewrite <- Em. aa. }
           rewrite Ep. rewrite write_mid by exact Hj.
           destruct (IH (d :: s) (out ++ [10]) mid' junk ((out ++ [10]) ++ mid' ++ (d :: s) ++ 0 :: junk) (i + 1)%nat (j + 1)%nat) as [t [junk' [Hn Hr]]]; auto.
           { simpl in *; lia. }
           { apply (f_equal (@length Z)) in Em. ll. }
           { ll. }
           exists (10 :: t), junk'. split; [|rewrite Hr; aa].
           apply nn_cr; [simpl; lia|exact Hn].
    + destruct (app_snoc_cons mid c) as [m [mid' Em]].
      assert (Ep : p = out ++ m :: mid' ++ s ++ 0 :: junk).
      { subst p. f_equal. change (m :: mid' ++ s ++ 0 :: junk) with ((m :: mid') ++ s ++ 0 :: junk).
        rewrite <- Em. aa. }
      rewrite Ep. rewrite write_mid by exact Hj.
      destruct (IH s (out ++ [c]) mid' junk ((out ++ [c]) ++ mid' ++ s ++ 0 :: junk) (i + 1)%nat (j + 1)%nat) as [t [junk' [Hn Hr]]]; auto.
      { simpl in *; lia. }
      { apply (f_equal (@length Z)) in Em. ll. }
      { ll. }
      exists (c :: t), junk'. split; [|rewrite Hr; aa].
      apply nn_other; [exact Hc13|exact Hn].
Qed.

Lemma newline_norm_fun s t t' : newline_norm s t -> newline_norm s t' -> t = t'.
Proof.
  intro H. revert t'. induction H as [|s t H IH|s t Hh H IH|c s t Hc H IH]; intros t' H'; inversion H'; subst; try congruence.
  - f_equal. auto.
  - simpl in *. congruence.
  - simpl in *. congruence.
  - f_equal. auto.
  - f_equal. auto.
Qed.

Lemma newline_norm_nocr s t : newline_norm s t -> ~ In 13 t.
Proof. induction 1; simpl; intros; intuition lia. Qed.

Lemma newline_norm_id s : ~ In 13 s -> newline_norm s s.
Proof.
  induction s as [|c s IH]; intro H; constructor.
  - intros ->. apply H. left. reflexivity.
  - apply IH. intro. apply H. right. assumption.
Qed.

Lemma newline_norm_keeps s t : newline_norm s t ->
  filter (fun c => negb ((c =? 10) || (c =? 13))) t = filter (fun c => negb ((c =? 10) || (c =? 13))) s.
Proof.
  induction 1; simpl; auto.
  destruct (c =? 10) eqn:E1; simpl; auto.
  destruct (Z.eqb_spec c 13); [contradiction|]. simpl. f_equal. assumption.
Qed.

Lemma newline_norm_length s t : newline_norm s t -> (length t <= length s)%nat.
Proof. induction 1; simpl; lia. Qed.

Lemma newline_norm_text s t : newline_norm s t -> text s -> text t.
Proof.
  intros H. unfold text. induction H; simpl; intros Ht Hin; intuition lia.
Qed.

(** Phase 2 *)
Lemma put_newlines_mid {A} : forall n out mid r (k : bytes -> nat -> res A) j,
  (n <= length mid)%nat -> j = length out ->
  put_newlines n (out ++ mid ++ r) j k = k ((out ++ repeat 10 n) ++ skipn n mid ++ r) (length (out ++ repeat 10 n)).
Proof.
  induction n as [|n IH]; intros out mid r k j Hn Hj; cbn [put_newlines].
  - simpl. rewrite app_nil_r, Hj. reflexivity.
  - destruct mid as [|m mid]; [simpl in Hn; lia|]. simpl app at 2.
    rewrite write_mid by exact Hj.
    rewrite IH by ll. simpl. rewrite <- !app_assoc. reflexivity.
Qed.

Lemma splice_correct : forall fuel s out mid junk p i j n,
  text s -> (length s < fuel)%nat -> (2 * n <= length mid)%nat ->
  p = out ++ mid ++ s ++ 0 :: junk -> i = length (out ++ mid) -> j = length out ->
  exists t junk', splice n s t /\ remove_backslash_newline fuel p i j n = Done (out ++ t ++ 0 :: junk').
Proof.
  induction fuel as [|fuel IH]; intros s out mid junk p i j n Ht Hf Hn Hp Hi Hj; [lia|].
  cbn [remove_backslash_newline].
  destruct s as [|c s].
  - assert (E : nth_error p i = Some 0) by (subst p; rewrite app_assoc; apply nth_error_mid; exact Hi).
    rewrite E. simpl. subst p. simpl. rewrite put_newlines_mid by lia.
    exists (repeat 10 n).
    destruct (skipn n mid) as [|m mid'] eqn:Es; simpl.
    + rewrite write_mid by reflexivity. exists junk. split; [constructor|]. aa.
    + rewrite write_mid by reflexivity. exists (mid' ++ 0 :: junk). split; [constructor|]. aa.
  - assert (E : nth_error p i = Some c).
    { subst p. rewrite app_assoc. simpl. apply nth_error_mid. exact Hi. }
    rewrite E.
    assert (Hc : c <> 0) by (intros ->; apply Ht; left; reflexivity).
    assert (Hs : text s) by (intro; apply Ht; right; assumption).
    destruct (Z.eqb_spec c 0); [contradiction|].
    assert (Hother : c <> 10 -> (c = 92 -> hd 0 s <> 10) ->
      exists t junk', splice n (c :: s) t /\
        write p j c (fun p' => remove_backslash_newline fuel p' (i + 1) (j + 1) n) = Done (out ++ t ++ 0 :: junk')).
    { intros H10 H92. destruct (app_snoc_cons mid c) as [m [mid' Em]].
      assert (Ep : p = out ++ m :: mid' ++ s ++ 0 :: junk).
      { subst p. f_equal. change (m :: mid' ++ s ++ 0 :: junk) with ((m :: mid') ++ s ++ 0 :: junk).
        rewrite <- Em. aa. }
      rewrite Ep. rewrite write_mid by exact Hj.
      pose proof (f_equal (@length Z) Em) as Eml.
      destruct (IH s (out ++ [c]) mid' junk ((out ++ [c]) ++ mid' ++ s ++ 0 :: junk) (i + 1)%nat (j + 1)%nat n) as [t [junk' [Hsp Hr]]]; auto; try ll.
      exists (c :: t), junk'. split; [|rewrite Hr; aa].
      apply sp_other; auto. }
    destruct (Z.eqb_spec c 92) as [->|H92].
    + destruct s as [|d s].
      * assert (E1 : nth_error p (i + 1) = Some 0).
        { subst p. rewrite app_assoc. simpl. apply nth_error_mid1. exact Hi. }
        rewrite E1. simpl. apply Hother; simpl; lia.
      * assert (E1 : nth_error p (i + 1) = Some d).
        { subst p. rewrite app_assoc. simpl. apply nth_error_mid1. exact Hi. }
        rewrite E1. simpl andb. destruct (Z.eqb_spec d 10) as [->|Hd].
        -- destruct (IH s out (mid ++ [92; 10]) junk p (i + 2)%nat j (n + 1)%nat) as [t [junk' [Hsp Hr]]]; auto; try ll.
           { intro; apply Hs; right; assumption. }
           { subst p. aa. }
           exists t, junk'. split; [|exact Hr]. apply sp_join. replace (S n) with (n + 1)%nat by lia. exact Hsp.
        -- simpl. apply Hother; simpl; lia.
    + simpl andb. cbn iota.
      destruct (Z.eqb_spec c 10) as [->|H10].
      * destruct (app_snoc_cons mid 10) as [m [mid' Em]].
        assert (Ep : p = out ++ m :: mid' ++ s ++ 0 :: junk).
        { subst p. f_equal. change (m :: mid' ++ s ++ 0 :: junk) with ((m :: mid') ++ s ++ 0 :: junk).
          rewrite <- Em. aa. }
        pose proof (f_equal (@length Z) Em) as Eml.
        rewrite Ep. rewrite write_mid by exact Hj.
        rewrite put_newlines_mid by ll.
        destruct (IH s ((out ++ [10]) ++ repeat 10 n) (skipn n mid') junk
          (((out ++ [10]) ++ repeat 10 n) ++ skipn n mid' ++ s ++ 0 :: junk) (i + 1)%nat
          (length ((out ++ [10]) ++ repeat 10 n)) 0%nat) as [t [junk' [Hsp Hr]]]; auto.
        { ll. }
        { simpl; lia. }
        { rewrite !app_length, repeat_length, skipn_length. ll. }
        exists (10 :: repeat 10 n ++ t), junk'. split; [constructor; exact Hsp|]. rewrite Hr. aa.
      * apply Hother; auto.
Qed.

Lemma count_app c a b : count c (a ++ b) = (count c a + count c b)%nat.
Proof. unfold count. apply count_occ_app. Qed.

Lemma count_repeat n : count 10 (repeat 10 n) = n.
Proof. unfold count. induction n; simpl; auto. Qed.

Lemma filter_repeat10 n : filter not_newline (repeat 10 n) = [].
Proof. induction n; simpl; auto. Qed.

Lemma splice_count n s t : splice n s t -> count 10 t = (count 10 s + n)%nat.
Proof.
  induction 1 as [n|n s t H IH|n s t H IH|n c s t Hc Hh H IH].
  - rewrite count_repeat. reflexivity.
  - rewrite IH. unfold count. simpl. lia.
  - change (10 :: repeat 10 n ++ t) with ([10] ++ repeat 10 n ++ t).
    change (10 :: s) with ([10] ++ s). rewrite !count_app, count_repeat, IH. unfold count; simpl. lia.
  - change (c :: t) with ([c] ++ t). change (c :: s) with ([c] ++ s). rewrite !count_app, IH. lia.
Qed.

Lemma unsplice_other c s : (c = 92 -> hd 0 s <> 10) -> unsplice (c :: s) = c :: unsplice s.
Proof.
  intro H. destruct (Z.eq_dec c 92) as [->|Hc].
  - destruct s as [|d s]; [reflexivity|]. simpl hd in H.
    assert (d <> 10) by auto. simpl.
    destruct d as [|d|d]; try reflexivity.
    do 4 (destruct d as [d|d|]; try reflexivity). lia.
  - cbn [unsplice]. destruct c as [|c|c]; try reflexivity.
    do 7 (destruct c as [c|c|]; try reflexivity). lia.
Qed.

Lemma splice_keeps n s t : splice n s t -> filter not_newline t = filter not_newline (unsplice s).
Proof.
  induction 1 as [n|n s t H IH|n s t H IH|n c s t Hc Hh H IH].
  - apply filter_repeat10.
  - exact IH.
  - simpl. rewrite filter_app, filter_repeat10. exact IH.
  - rewrite unsplice_other by exact Hh. simpl. rewrite IH. reflexivity.
Qed.

Lemma splice_line_split : forall s1 n s2 t, splice n (s1 ++ 10 :: s2) t -> last s1 0 <> 92 ->
  exists t1 t2, t = t1 ++ t2 /\ splice 0 s2 t2 /\ count 10 t1 = (count 10 s1 + 1 + n)%nat.
Proof.
  induction s1 as [s1 IH] using (well_founded_induction (Wf_nat.well_founded_ltof _ (@length Z))).
  unfold Wf_nat.ltof in IH. intros n s2 t H Hl.
  destruct s1 as [|c s1].
  - simpl in H. inversion H; subst; try congruence.
    exists (10 :: repeat 10 n), t0. split; [reflexivity|]. split; [assumption|].
    change (10 :: repeat 10 n) with ([10] ++ repeat 10 n). rewrite count_app, count_repeat. unfold count; simpl. lia.
  - simpl in H. inversion H as [| n' s' t' Hsp E1 [E0 E2] E3|n' s' t0 H1|n' c' s' t0 H1 H2 H5]; subst.
    + destruct s1 as [|d s1]; simpl in E2.
      * simpl in Hl. lia.
      * injection E2 as <- ->.
        destruct (IH s1 ltac:(simpl; lia) (S n) s2 t Hsp) as [t1 [t2 [Ht [Hs2 Hc]]]].
        { destruct s1; [simpl; lia|exact Hl]. }
        exists t1, t2. split; [exact Ht|]. split; [exact Hs2|]. rewrite Hc. unfold count. simpl. lia.
    + destruct (IH s1 ltac:(simpl; lia) 0%nat s2 t0 H1) as [t1 [t2 [Ht [Hs2 Hc]]]].
      { destruct s1; [simpl; lia|exact Hl]. }
      exists (10 :: repeat 10 n ++ t1), t2. split; [rewrite Ht; simpl; rewrite <- app_assoc; reflexivity|].
      split; [exact Hs2|]. change (10 :: repeat 10 n ++ t1) with ([10] ++ repeat 10 n ++ t1).
      rewrite !count_app, count_repeat, Hc. unfold count; simpl. lia.
    + destruct (IH s1 ltac:(simpl; lia) n s2 t0 H5) as [t1 [t2 [Ht [Hs2 Hc]]]].
      { destruct s1; [simpl; lia|exact Hl]. }
      exists (c :: t1), t2. split; [rewrite Ht; reflexivity|]. split; [exact Hs2|].
      change (c :: t1) with ([c] ++ t1). change (c :: s1) with ([c] ++ s1). rewrite !count_app, Hc. lia.
Qed.

Lemma splice_text n s t : splice n s t -> text s -> text t.
Proof.
  unfold text. intros H. induction H as [n|n s t H IH|n s t H IH|n c s t Hc Hh H IH]; simpl; intros Ht Hin.
  - apply repeat_spec in Hin. lia.
  - tauto.
  - destruct Hin as [?|Hin]; [lia|]. apply in_app_or in Hin as [Hin|Hin]; [apply repeat_spec in Hin; lia|].
    tauto.
  - tauto.
Qed.

(* The last byte stays a newline. *)
Lemma last_app_cons {A} (l : list A) x r d : last (l ++ x :: r) d = last (x :: r) d.
Proof. induction l as [|y l IH]; simpl; auto. destruct (l ++ x :: r) eqn:E; [destruct l; discriminate|]. rewrite <- E in *. exact IH. Qed.

Lemma splice_nonnil n s t : splice n s t -> (n > 0)%nat \/ s <> [] -> t <> [].
Proof.
  induction 1; intros Hc E; try discriminate.
  - destruct n; [|discriminate]. destruct Hc; [lia|congruence].
  - apply IHsplice; [left; lia|exact E].
Qed.

Lemma last_repeat10 n : (n > 0)%nat -> last (repeat 10 n) 0 = 10.
Proof. induction n as [|[|n] IH]; intros; [lia|reflexivity|]. simpl in *. apply IH. lia. Qed.

Lemma splice_last n s t : splice n s t -> (s = [] /\ (n > 0)%nat) \/ last s 0 = 10 -> last t 0 = 10.
Proof.
  induction 1 as [n|n s t H IH|n s t H IH|n c s t Hc Hh H IH]; intros Hl.
  - destruct Hl as [[_ Hl]|Hl]; [apply last_repeat10; exact Hl|discriminate].
  - apply IH. destruct Hl as [[? _]|Hl]; [discriminate|].
    destruct s; [left; split; [reflexivity|lia]|right; exact Hl].
  - destruct t as [|x t].
    + rewrite app_nil_r. destruct n; [reflexivity|].
      change (10 :: repeat 10 (S n)) with (repeat 10 (S (S n))). apply last_repeat10. lia.
    + change (10 :: repeat 10 n ++ x :: t) with ((10 :: repeat 10 n) ++ x :: t). rewrite last_app_cons.
      apply IH. right. destruct Hl as [[? _]|Hl]; [discriminate|].
      destruct s; [|exact Hl]. inversion H.
  - destruct s as [|d s].
    + simpl in Hl. destruct Hl as [[? _]|Hl]; [discriminate|congruence].
    + destruct t as [|x t].
      * exfalso. eapply (splice_nonnil n (d :: s) []); eauto. right. discriminate.
      * change (last (x :: t) 0 = 10). apply IH. right. destruct Hl as [[? _]|Hl]; [discriminate|exact Hl].
Qed.

(** Phase 3 *)
Lemma isxdigit_hex c : isxdigit c = true -> hex_digit c = Some (from_hex c) /\ 0 <= from_hex c < 16.
Proof.
  unfold isxdigit, hex_digit, from_hex. intro H.
  destruct (Z.leb_spec 48 c); destruct (Z.leb_spec c 57); simpl in *; try (split; [reflexivity|lia]);
  destruct (Z.leb_spec 97 c); destruct (Z.leb_spec c 102); simpl in *;
  destruct (Z.leb_spec 65 c); destruct (Z.leb_spec c 70); simpl in *; try discriminate; try lia;
  (split; [f_equal; lia|lia]).
Qed.

Lemma isxdigit_not c : isxdigit c = false -> hex_digit c = None.
Proof.
  unfold isxdigit, hex_digit. intro H.
  destruct (Z.leb_spec 48 c); destruct (Z.leb_spec c 57); simpl in *; try discriminate;
  destruct (Z.leb_spec 97 c); destruct (Z.leb_spec c 102); simpl in *; try discriminate;
  destruct (Z.leb_spec 65 c); destruct (Z.leb_spec c 70); simpl in *; try discriminate; try lia; reflexivity.
Qed.

Lemma hex_value_pos ds : forall acc v, hex_value acc ds = Some v -> 0 <= acc ->
  acc * 16 ^ Z.of_nat (length ds) <= v < (acc + 1) * 16 ^ Z.of_nat (length ds).
Proof.
  induction ds as [|d ds IH]; intros acc v H Ha.
  - simpl in H. injection H as <-. simpl. lia.
  - cbn [hex_value] in H. destruct (hex_digit d) as [x|] eqn:E; [|discriminate].
    assert (0 <= x < 16).
    { unfold hex_digit in E. 
      destruct (Z.leb_spec 48 d); destruct (Z.leb_spec d 57); simpl in E;
      destruct (Z.leb_spec 97 d); destruct (Z.leb_spec d 102); simpl in E;
      destruct (Z.leb_spec 65 d); destruct (Z.leb_spec d 70); simpl in E; try discriminate; injection E as <-; lia. }
    apply IH in H; [|lia].
    replace (Z.of_nat (length (d :: ds))) with (1 + Z.of_nat (length ds)) by (simpl length; lia).
    rewrite Z.pow_add_r by lia. change (16^1) with 16. 
    assert (0 < 16 ^ Z.of_nat (length ds)) by (apply Z.pow_pos_nonneg; lia). nia.
Qed.

(* read_universal_char on a buffer  pre ++ s ++ 0 :: junk  at |pre| *)
Lemma read_universal_spec junk : forall n s pre p i c,
  text s -> p = pre ++ s ++ 0 :: junk -> i = length pre -> 0 <= c -> c * 16 ^ Z.of_nat n < 2^32 ->
  c < 16 ^ (8 - Z.of_nat n) -> (n <= 8)%nat ->
  exists u, read_universal_char p i n c = Some u /\
   ((exists ds r, s = ds ++ r /\ length ds = n /\ hex_value c ds = Some u) \/
    (u = 0 /\ forall ds r, s = ds ++ r -> length ds = n -> hex_value c ds = None)).
Proof.
  induction n as [|n IH]; intros s pre p i c Ht Hp Hi Hc Hb Hc2 Hn.
  - exists c. split; [reflexivity|]. left. exists [], s. auto.
  - cbn [read_universal_char]. destruct s as [|d s].
    + assert (E : nth_error p i = Some 0) by (subst p; apply nth_error_mid; exact Hi).
      rewrite E. simpl. exists 0. split; [reflexivity|]. right. split; [reflexivity|].
      intros ds r Hs Hl. destruct ds; [discriminate Hl|discriminate Hs].
    + assert (E : nth_error p i = Some d) by (subst p; apply nth_error_mid; exact Hi).
      rewrite E. destruct (isxdigit d) eqn:Ex.
      * apply isxdigit_hex in Ex as [Eh Er].
        replace (Z.of_nat (S n)) with (1 + Z.of_nat n) in Hb, Hc2 by lia.
        assert (Hpow : 16 ^ (1 + Z.of_nat n) = 16 * 16 ^ Z.of_nat n) by (rewrite Z.pow_add_r by lia; reflexivity).
        assert (Hge1 : 1 <= 16 ^ Z.of_nat n) by (pose proof (Z.pow_pos_nonneg 16 (Z.of_nat n)); lia).
        assert (Hpow2 : 16 ^ (8 - Z.of_nat n) = 16 * 16 ^ (8 - (1 + Z.of_nat n))).
        { replace (8 - Z.of_nat n) with (1 + (8 - (1 + Z.of_nat n))) by lia. rewrite Z.pow_add_r by lia. reflexivity. }
        assert (Hpow3 : 16 ^ (8 - Z.of_nat n) * 16 ^ Z.of_nat n = 2^32).
        { rewrite <- Z.pow_add_r by lia. replace (8 - Z.of_nat n + Z.of_nat n) with 8 by lia. reflexivity. }
        assert (Ec : Z.lor (Z.shiftl c 4 mod 2^32) (from_hex d) = c * 16 + from_hex d).
        { rewrite Z.shiftl_mul_pow2 by lia. change (2^4) with 16.
          rewrite Z.mod_small by nia. change 16 with (2^4). apply lor_shift_add; lia. }
        rewrite Ec.
        assert (Hc2' : c * 16 + from_hex d < 16 ^ (8 - Z.of_nat n)).
        { rewrite Hpow2. nia. }
        destruct (IH s (pre ++ [d]) p (S i) (c * 16 + from_hex d)) as [u [Hu Hd]].
        -- intro; apply Ht; right; assumption.
        -- subst p. aa.
        -- ll.
        -- lia.
        -- nia.
        -- exact Hc2'.
        -- lia.
        -- exists u. split; [exact Hu|]. destruct Hd as [[ds [r [H1 [H2 H3]]]]|[H1 H2]].
           ++ left. exists (d :: ds), r. split; [rewrite H1; reflexivity|]. split; [simpl; lia|].
              simpl. rewrite Eh. exact H3.
           ++ right. split; [exact H1|]. intros [|d' ds] r Hs Hl; [discriminate|].
              injection Hs as <- Hs. simpl. rewrite Eh. apply (H2 ds r); auto.
      * exists 0. split; [reflexivity|]. right. split; [reflexivity|].
        intros [|d' ds] r Hs Hl; [discriminate|]. injection Hs as <- Hs. simpl.
        rewrite isxdigit_not by exact Ex. reflexivity.
Qed.

Lemma write_all_mid {A} : forall ws out mid r (k : bytes -> nat -> res A) j,
  (length ws <= length mid)%nat -> j = length out ->
  write_all ws (out ++ mid ++ r) j k = k ((out ++ ws) ++ skipn (length ws) mid ++ r) (length (out ++ ws)).
Proof.
  induction ws as [|w ws IH]; intros out mid r k j Hn Hj; cbn [write_all].
  - simpl. rewrite app_nil_r, Hj. reflexivity.
  - destruct mid as [|m mid]; [simpl in Hn; lia|]. simpl app at 2.
    rewrite write_mid by exact Hj. rewrite IH by ll. simpl. rewrite <- !app_assoc. reflexivity.
Qed.

Lemma app_eq_len {A} : forall (a b c d : list A), a ++ b = c ++ d -> length a = length c -> a = c /\ b = d.
Proof.
  induction a as [|x a IH]; intros b [|y c] d E L; simpl in *; try discriminate; auto.
  injection E as -> E. destruct (IH b c d E) as [-> ->]; [lia|auto].
Qed.

Lemma big_ucn_free_tail a s : big_ucn_free (a ++ s) -> big_ucn_free s.
Proof.
  intros H pre ds v post E. apply (H (a ++ pre) ds v post). rewrite E, <- app_assoc. reflexivity.
Qed.

Lemma ucn_correct : forall fuel s out mid junk p i j,
  text s -> (length s < fuel)%nat -> last s 0 <> 92 ->
  p = out ++ mid ++ s ++ 0 :: junk -> i = length (out ++ mid) -> j = length out ->
  exists t junk', ucn_conv encode_utf8 s t /\ convert_universal_chars fuel p i j = Done (out ++ t ++ 0 :: junk').
Proof.
  induction fuel as [|fuel IH]; intros s out mid junk p i j Ht Hf Hlast Hp Hi Hj; [lia|].
  cbn [convert_universal_chars].
  destruct s as [|c s].
  - assert (E : nth_error p i = Some 0) by (subst p; rewrite app_assoc; apply nth_error_mid; exact Hi).
    rewrite E. simpl. 
    destruct mid as [|m mid]; subst p; cbn [app] in *.
    + rewrite (write_mid out 0 junk 0 Done j Hj). exists [], junk. split; [constructor|]. aa.
    + rewrite (write_mid out m (mid ++ 0 :: junk) 0 Done j Hj). exists [], (mid ++ 0 :: junk). split; [constructor|]. aa.
  - assert (E : nth_error p i = Some c).
    { subst p. rewrite app_assoc. simpl. apply nth_error_mid. exact Hi. }
    rewrite E.
    assert (Hc : c <> 0) by (intros ->; apply Ht; left; reflexivity).
    assert (Hs : text s) by (intro; apply Ht; right; assumption).
    destruct (Z.eqb_spec c 0); [contradiction|].
    (* copying one byte *)
    assert (Hcopy : last s 0 <> 92 ->
      exists t junk', ucn_conv encode_utf8 s t /\
        write p j c (fun p' => convert_universal_chars fuel p' (i + 1) (j + 1)) = Done (out ++ (c :: t) ++ 0 :: junk')).
    { intro Hl. destruct (app_snoc_cons mid c) as [m [mid' Em]].
      assert (Ep : p = out ++ m :: mid' ++ s ++ 0 :: junk).
      { subst p. f_equal. change (m :: mid' ++ s ++ 0 :: junk) with ((m :: mid') ++ s ++ 0 :: junk).
        rewrite <- Em. aa. }
      pose proof (f_equal (@length Z) Em) as Eml.
      rewrite Ep. rewrite write_mid by exact Hj.
      destruct (IH s (out ++ [c]) mid' junk ((out ++ [c]) ++ mid' ++ s ++ 0 :: junk) (i + 1)%nat (j + 1)%nat) as [t [junk' [Hn Hr]]]; auto; try ll.
      exists t, junk'. split; [exact Hn|rewrite Hr; aa]. }
    destruct (Z.eqb_spec c 92) as [->|H92].
    2:{ destruct Hcopy as [t [junk' [Hn Hr]]].
        { destruct s; [simpl; lia|exact Hlast]. }
        exists (c :: t), junk'. split; [apply uc_other; auto|exact Hr]. }
    destruct s as [|d s]; [simpl in Hlast; lia|].
    assert (Hl2 : last s 0 <> 92) by (destruct s; [simpl; lia|exact Hlast]).
    assert (Hs2 : text s) by (intro; apply Hs; right; assumption).
    assert (E1 : nth_error p (i + 1) = Some d).
    { subst p. rewrite app_assoc. simpl. apply nth_error_mid1. exact Hi. }
    rewrite E1.
    assert (Hlen2 : length (out ++ mid ++ [92; d]) = (i + 2)%nat) by ll.
    (* conversion of a name with n digits *)
    assert (Hconv : forall n u, read_universal_char p (i + 2) n 0 = Some u -> (n = 4 \/ n = 8)%nat ->
       u <> 0 -> (exists ds r, s = ds ++ r /\ length ds = n /\ hex_value 0 ds = Some u) ->
       exists ds r t junk', s = ds ++ r /\ ucn ds n u /\ ucn_conv encode_utf8 r t /\
        write_all (encode_utf8 u) p j (fun p' j' => convert_universal_chars fuel p' (i + 2 + n) j')
          = Done (out ++ (encode_utf8 u ++ t) ++ 0 :: junk')).
    { intros n0 u Hru Hn Hu0 [ds [r [Hsd [Hld Hv]]]].
      assert (Ep : p = out ++ (mid ++ 92 :: d :: ds) ++ r ++ 0 :: junk).
      { subst p. rewrite Hsd. aa. }
      assert (Hle : (length (encode_utf8 u) <= length (mid ++ 92%Z :: d :: ds))%nat).
      { pose proof (encode_length u). ll. }
      rewrite Ep. rewrite write_all_mid by assumption.
      destruct (IH r (out ++ encode_utf8 u) (skipn (length (encode_utf8 u)) (mid ++ 92 :: d :: ds)) junk
        ((out ++ encode_utf8 u) ++ skipn (length (encode_utf8 u)) (mid ++ 92 :: d :: ds) ++ r ++ 0 :: junk)
        (i + 2 + n0)%nat (length (out ++ encode_utf8 u))) as [t [junk' [Hn' Hr]]]; auto.
      - intro Hin. apply Hs2. rewrite Hsd. apply in_or_app. right. exact Hin.
      - rewrite Hsd in Hf. ll.
      - rewrite Hsd in Hl2. destruct r as [|x r]; [simpl; lia|]. rewrite last_app_cons in Hl2. exact Hl2.
      - rewrite !app_length, skipn_length. rewrite !app_length in *. simpl in *. lia.
      - exists ds, r, t, junk'. split; [exact Hsd|]. split; [repeat split; auto|]. split; [exact Hn'|].
        rewrite Hr. aa. }
    assert (Hesc :
      (forall ds v r, d :: s <> 117 :: ds ++ r \/ ~ ucn ds 4 v) ->
      (forall ds v r, d :: s <> 85 :: ds ++ r \/ ~ ucn ds 8 v) -> d <> 92 ->
      exists t junk', ucn_conv encode_utf8 (92 :: d :: s) t /\
        write p j 92 (fun p' => convert_universal_chars fuel p' (i + 1) (j + 1)) = Done (out ++ t ++ 0 :: junk')).
    { intros H4 H8 Hd. destruct (Hcopy Hlast) as [t [junk' [Hn Hr]]].
      inversion Hn; subst; try congruence.
      eexists; exists junk'. split; [|exact Hr]. apply uc_esc; auto. }
    assert (Hnone : forall n (u : Z), u = 0 ->
       (exists ds r, s = ds ++ r /\ length ds = n /\ hex_value 0 ds = Some u) \/
       (u = 0 /\ forall ds r, s = ds ++ r -> length ds = n -> hex_value 0 ds = None) ->
       forall ds v r, d :: s <> d :: ds ++ r \/ ~ ucn ds n v).
    { intros n0 u Hu0 Hcase ds v r. destruct (list_eq_dec Z.eq_dec s (ds ++ r)) as [Es|Hne].
      - right. intros [Hl [Hv Hv0]]. destruct Hcase as [[ds' [r' [Hs' [Hl' Hv']]]]|[_ Hcase]].
        + rewrite Es in Hs'. apply app_eq_len in Hs' as [-> _]; [|congruence]. congruence.
        + rewrite (Hcase ds r Es Hl) in Hv. discriminate.
      - left. congruence. }
    destruct (Z.eqb_spec d 117) as [->|Hd].
    + destruct (read_universal_spec junk 4 s (out ++ mid ++ [92; 117]) p (i + 2)%nat 0) as [u [Hu Hcase]]; auto; try (simpl; lia).
      { subst p. aa. }
      rewrite Hu. destruct (Z.eqb_spec u 0) as [Hu0|Hu0]; cbn [negb].
      * apply Hesc; [|intros; left; discriminate|lia]. apply (Hnone 4%nat u); auto.
      * destruct Hcase as [Hcase|[? _]]; [|contradiction].
        destruct (Hconv 4%nat u Hu ltac:(auto) Hu0 Hcase) as [ds [r [t [junk' [Hsd [Hucn [Hct Hr]]]]]]].
        exists (encode_utf8 u ++ t), junk'. split; [rewrite Hsd; apply uc_u; auto|].
        replace (i + 6)%nat with (i + 2 + 4)%nat by lia. exact Hr.
    + destruct (Z.eqb_spec d 85) as [->|Hd2].
      * destruct (read_universal_spec junk 8 s (out ++ mid ++ [92; 85]) p (i + 2)%nat 0) as [u [Hu Hcase]]; auto; try (simpl; lia).
        { subst p. aa. }
        rewrite Hu. destruct (Z.eqb_spec u 0) as [Hu0|Hu0]; cbn [negb].
        -- apply Hesc; [intros; left; discriminate| |lia]. apply (Hnone 8%nat u); auto.
        -- destruct Hcase as [Hcase|[? _]]; [|contradiction].
           destruct (Hconv 8%nat u Hu ltac:(auto) Hu0 Hcase) as [ds [r [t [junk' [Hsd [Hucn [Hct Hr]]]]]]].
           exists (encode_utf8 u ++ t), junk'. split; [rewrite Hsd; apply uc_U; auto|].
           replace (i + 10)%nat with (i + 2 + 8)%nat by lia. exact Hr.
      * (* plain escape: two bytes are copied *)
        destruct (app_snoc_cons mid 92) as [m [mid' Em]].
        assert (Ep : p = out ++ m :: mid' ++ (d :: s) ++ 0 :: junk).
        { subst p. f_equal. change (m :: mid' ++ (d :: s) ++ 0 :: junk) with ((m :: mid') ++ (d :: s) ++ 0 :: junk).
          rewrite <- Em. aa. }
        pose proof (f_equal (@length Z) Em) as Eml.
        rewrite Ep. rewrite write_mid by exact Hj.
        assert (E2 : nth_error ((out ++ [92]) ++ mid' ++ (d :: s) ++ 0 :: junk) (i + 1) = Some d).
        { rewrite app_assoc. simpl. apply nth_error_mid. ll. }
        rewrite E2.
        destruct (app_snoc_cons mid' d) as [m2 [mid2 Em2]].
        assert (Ep2 : (out ++ [92]) ++ mid' ++ (d :: s) ++ 0 :: junk = (out ++ [92]) ++ m2 :: mid2 ++ s ++ 0 :: junk).
        { f_equal. change (m2 :: mid2 ++ s ++ 0 :: junk) with ((m2 :: mid2) ++ s ++ 0 :: junk).
          rewrite <- Em2. aa. }
        pose proof (f_equal (@length Z) Em2) as Eml2.
        rewrite Ep2. rewrite write_mid by ll.
        destruct (IH s ((out ++ [92]) ++ [d]) mid2 junk (((out ++ [92]) ++ [d]) ++ mid2 ++ s ++ 0 :: junk) (i + 2)%nat (j + 2)%nat) as [t [junk' [Hn Hr]]]; auto; try ll.
        exists (92 :: d :: t), junk'. split; [|rewrite Hr; aa].
        apply uc_esc; auto; intros; left; congruence.
Qed.

(** Statements for the property file. *)
Lemma canon_top s junk : text s ->
  exists t junk', newline_norm s t /\
    canonicalize_newline (S (length s)) (s ++ 0 :: junk) 0 0 = Done (t ++ 0 :: junk').
Proof.
  intro H. destruct (canon_correct (S (length s)) s [] [] junk (s ++ 0 :: junk) 0%nat 0%nat) as [t [j' [A B]]]; auto.
  exists t, j'. auto.
Qed.

Lemma splice_top s junk : text s ->
  exists t junk', splice 0 s t /\
    remove_backslash_newline (S (length s)) (s ++ 0 :: junk) 0 0 0 = Done (t ++ 0 :: junk').
Proof.
  intro H. destruct (splice_correct (S (length s)) s [] [] junk (s ++ 0 :: junk) 0%nat 0%nat 0%nat) as [t [j' [A B]]]; auto.
  exists t, j'. auto.
Qed.

Lemma ucn_top s junk : text s -> last s 0 <> 92 ->
  exists t junk', ucn_conv encode_utf8 s t /\
    convert_universal_chars (S (length s)) (s ++ 0 :: junk) 0 0 = Done (t ++ 0 :: junk').
Proof.
  intros H Hl. destruct (ucn_correct (S (length s)) s [] [] junk (s ++ 0 :: junk) 0%nat 0%nat) as [t [j' [A B]]]; auto.
  exists t, j'. auto.
Qed.

Lemma ucn_conv_fun enc s t : ucn_conv enc s t -> forall t', ucn_conv enc s t' -> t = t'.
Proof.
  induction 1 as [|ds v s t Hu H IH|ds v s t Hu H IH|c s t H4 H8 H IH|c s t Hc H IH]; intros t' H'.
  - inversion H'. reflexivity.
  - inversion H' as [|ds2 v2 s2 t2 Hu2 Hr2 E1 E2|ds2 v2 s2 t2 Hu2 Hr2 E1 E2|c2 s2 t2 A4 A8 Hr2 E1 E2|c2 s2 t2 Hc2 Hr2 E1 E2]; subst; try congruence.
    + destruct Hu as [L1 [V1 N1]], Hu2 as [L2 [V2 N2]].
      apply app_eq_len in E1 as [-> ->]; [|congruence]. rewrite V1 in V2. injection V2 as ->. f_equal. auto.
    + exfalso. destruct (A4 ds v s) as [N|N]; [congruence|contradiction].
  - inversion H' as [|ds2 v2 s2 t2 Hu2 Hr2 E1 E2|ds2 v2 s2 t2 Hu2 Hr2 E1 E2|c2 s2 t2 A4 A8 Hr2 E1 E2|c2 s2 t2 Hc2 Hr2 E1 E2]; subst; try congruence.
    + destruct Hu as [L1 [V1 N1]], Hu2 as [L2 [V2 N2]].
      apply app_eq_len in E1 as [-> ->]; [|congruence]. rewrite V1 in V2. injection V2 as ->. f_equal. auto.
    + exfalso. destruct (A8 ds v s) as [N|N]; [congruence|contradiction].
  - inversion H' as [|ds2 v2 s2 t2 Hu2 Hr2 E1 E2|ds2 v2 s2 t2 Hu2 Hr2 E1 E2|c2 s2 t2 A4 A8 Hr2 E1 E2|c2 s2 t2 Hc2 Hr2 E1 E2]; subst; try congruence.
    + exfalso. destruct (H4 ds2 v2 s2) as [N|N]; [congruence|contradiction].
    + exfalso. destruct (H8 ds2 v2 s2) as [N|N]; [congruence|contradiction].
    + do 2 f_equal. auto.
  - inversion H'; subst; try congruence. f_equal. auto.
Qed.

Lemma ucn_conv_id enc s : ~ In 92 s -> ucn_conv enc s s.
Proof.
  induction s as [|c s IH]; intro H; [constructor|]. apply uc_other.
  - intros ->. apply H. left. reflexivity.
  - apply IH. intro. apply H. right. assumption.
Qed.

Lemma ucn_conv_utf8 s t : big_ucn_free s -> ucn_conv encode_utf8 s t -> ucn_conv utf8_of s t.
Proof.
  intros Hb H. induction H as [|ds v s t Hu H IH|ds v s t Hu H IH|c s t H4 H8 H IH|c s t Hc H IH].
  - constructor.
  - rewrite encode_is_utf8.
    + apply uc_u; auto. apply IH. apply (big_ucn_free_tail ([92; 117] ++ ds)). rewrite <- app_assoc. exact Hb.
    + destruct Hu as [Hl [Hv _]]. pose proof (hex_value_pos ds 0 v Hv ltac:(lia)) as B. rewrite Hl in B. simpl in B. lia.
  - rewrite encode_is_utf8.
    + apply uc_U; auto. apply IH. apply (big_ucn_free_tail ([92; 85] ++ ds)). rewrite <- app_assoc. exact Hb.
    + assert (v <= scalar_max) by (apply (Hb [] ds v s); auto).
      destruct Hu as [Hl [Hv _]]. pose proof (hex_value_pos ds 0 v Hv ltac:(lia)) as B. unfold scalar_max in *. lia.
  - apply uc_esc; auto. apply IH. apply (big_ucn_free_tail [92; c]). exact Hb.
  - apply uc_other; auto. apply IH. apply (big_ucn_free_tail [c]). exact Hb.
Qed.

Lemma ucn_utf8_top s junk : text s -> big_ucn_free s -> last s 0 <> 92 ->
  exists t junk', ucn_conv utf8_of s t /\
    convert_universal_chars (S (length s)) (s ++ 0 :: junk) 0 0 = Done (t ++ 0 :: junk').
Proof.
  intros H Hb Hl. destruct (ucn_top s junk H Hl) as [t [j' [A B]]]. exists t, j'. split; [|exact B].
  apply ucn_conv_utf8; auto.
Qed.

(** The whole pipeline *)
Lemma newline_norm_nonnil s t : newline_norm s t -> s <> [] -> t <> [].
Proof. destruct 1; congruence. Qed.

Lemma newline_norm_last s t : newline_norm s t -> last s 0 = 10 -> last t 0 = 10.
Proof.
  induction 1 as [|s t H IH|s t Hh H IH|c s t Hc H IH]; intro Hl; auto.
  - destruct s as [|x s]; [inversion H; reflexivity|].
    pose proof (newline_norm_nonnil _ _ H ltac:(discriminate)). destruct t; [congruence|]. apply IH. exact Hl.
  - destruct s as [|x s]; [discriminate Hl|].
    pose proof (newline_norm_nonnil _ _ H ltac:(discriminate)). destruct t; [congruence|]. apply IH. exact Hl.
  - destruct s as [|x s]; [inversion H; subst; exact Hl|].
    pose proof (newline_norm_nonnil _ _ H ltac:(discriminate)). destruct t; [congruence|]. apply IH. exact Hl.
Qed.

Lemma canon_fuel s junk f : text s -> (length s < f)%nat ->
  exists t junk', newline_norm s t /\ canonicalize_newline f (s ++ 0 :: junk) 0 0 = Done (t ++ 0 :: junk').
Proof. intros H Hf. apply (canon_correct f s [] [] junk); auto. Qed.
Lemma splice_fuel s junk f : text s -> (length s < f)%nat ->
  exists t junk', splice 0 s t /\ remove_backslash_newline f (s ++ 0 :: junk) 0 0 0 = Done (t ++ 0 :: junk').
Proof. intros H Hf. apply (splice_correct f s [] [] junk); auto. Qed.
Lemma ucn_fuel s junk f : text s -> (length s < f)%nat -> last s 0 <> 92 ->
  exists t junk', ucn_conv encode_utf8 s t /\ convert_universal_chars f (s ++ 0 :: junk) 0 0 = Done (t ++ 0 :: junk').
Proof. intros H Hf Hl. apply (ucn_correct f s [] [] junk); auto. Qed.

Lemma splice_length n s t : splice n s t -> (length t <= length s + n)%nat.
Proof. induction 1; simpl; rewrite ?app_length, ?repeat_length; simpl in *; lia. Qed.

(* the bytes the filters see: the file without byte order mark, with a final newline *)
Lemma strip_cases p : ignore_bom p = p \/ p = 0xEF :: 0xBB :: 0xBF :: ignore_bom p.
Proof.
  destruct p as [|a p]; [left; reflexivity|].
  destruct (Z.eq_dec a 0xEF) as [->|Ha].
  2:{ left. unfold ignore_bom. destruct a as [|a|a]; try reflexivity. do 8 (destruct a as [a|a|]; try reflexivity). congruence. }
  destruct p as [|b p]; [left; reflexivity|].
  destruct (Z.eq_dec b 0xBB) as [->|Hb].
  2:{ left. unfold ignore_bom. destruct b as [|b|b]; try reflexivity. do 8 (destruct b as [b|b|]; try reflexivity). congruence. }
  destruct p as [|c p]; [left; reflexivity|].
  destruct (Z.eq_dec c 0xBF) as [->|Hc]; [right; reflexivity|].
  left. unfold ignore_bom. destruct c as [|c|c]; try reflexivity. do 8 (destruct c as [c|c|]; try reflexivity). congruence.
Qed.

Lemma ignore_bom_app p x r : (3 <= length p)%nat -> ignore_bom (p ++ x :: r) = ignore_bom p ++ x :: r.
Proof.
  intro H. destruct p as [|a [|b [|c p]]]; simpl in H; try lia.
  destruct (strip_cases (a :: b :: c :: p)) as [E|E].
  - rewrite E. destruct (strip_cases ((a :: b :: c :: p) ++ x :: r)) as [E'|E']; [exact E'|].
    simpl in E'. injection E' as -> -> -> _. simpl in E. apply (f_equal (@length Z)) in E. simpl in E. lia.
  - remember (ignore_bom (a :: b :: c :: p)) as q. injection E as -> -> -> ->. reflexivity.
Qed.

Lemma last_snoc {A} (l : list A) x d : last (l ++ [x]) d = x.
Proof. induction l as [|y l IH]; simpl; auto. destruct (l ++ [x]) eqn:E; [destruct l; discriminate|]. exact IH. Qed.

Lemma terminated contents : text contents ->
  exists s, ignore_bom (terminate contents) = s ++ [0] /\ text s /\ last s 0 = 10 /\
   (s = contents \/ s = contents ++ [10] \/ 0xEF :: 0xBB :: 0xBF :: s = contents \/ 0xEF :: 0xBB :: 0xBF :: s = contents ++ [10]).
Proof.
  intro H. unfold terminate.
  set (c := if last contents 0 =? 10 then contents else contents ++ [10]).
  assert (Hc : text c /\ last c 0 = 10 /\ (c = contents \/ c = contents ++ [10])).
  { unfold c. destruct (Z.eqb_spec (last contents 0) 10).
    - auto.
    - split; [|split; [apply last_snoc|auto]]. unfold text in *. intro Hi. apply in_app_or in Hi as [Hi|[Hi|[]]]; [auto|lia]. }
  destruct Hc as [Ht [Hl Hcase]].
  destruct (strip_cases (c ++ [0])) as [E|E].
  - exists c. rewrite E. intuition.
  - assert (L3 : (3 <= length c)%nat).
    { destruct c as [|x [|y [|z c']]]; simpl in *; try lia; try congruence.
      all: injection E; intros; congruence. }
    destruct c as [|x [|y [|z c']]]; simpl in L3; try lia.
    simpl app in E. injection E as -> -> -> E.
    exists c'. simpl. split; [reflexivity|].
    split; [intro Hi; apply Ht; do 3 right; exact Hi|].
    split; [destruct c'; [simpl in Hl; lia|exact Hl]|].
    right; right. destruct Hcase as [Hcase|Hcase]; rewrite <- Hcase; auto.
Qed.

Lemma clean_source_spec contents : text contents ->
  exists s t1 t2 t3 junk,
    (s = contents \/ s = contents ++ [10] \/ 0xEF :: 0xBB :: 0xBF :: s = contents \/ 0xEF :: 0xBB :: 0xBF :: s = contents ++ [10]) /\
    last s 0 = 10 /\ newline_norm s t1 /\ splice 0 t1 t2 /\ ucn_conv encode_utf8 t2 t3 /\
    clean_source contents = Done (t3 ++ 0 :: junk).
Proof.
  intro H. destruct (terminated contents H) as [s [Es [Hs [Hl Hcase]]]].
  unfold clean_source. rewrite Es. set (f := S (length (s ++ [0]))).
  assert (Hf : f = (length s + 2)%nat) by (unfold f; rewrite app_length; simpl; lia).
  destruct (canon_fuel s [] f Hs ltac:(lia)) as [t1 [j1 [N1 E1]]]. rewrite E1.
  pose proof (newline_norm_length _ _ N1).
  assert (T1 : text t1) by (eapply newline_norm_text; eauto).
  destruct (splice_fuel t1 j1 f T1 ltac:(lia)) as [t2 [j2 [N2 E2]]]. rewrite E2.
  pose proof (splice_length _ _ _ N2).
  assert (L2 : last t2 0 = 10).
  { eapply splice_last; eauto. right. eapply newline_norm_last; eauto. }
  destruct (ucn_fuel t2 j2 f (splice_text _ _ _ N2 T1) ltac:(lia) ltac:(lia)) as [t3 [j3 [N3 E3]]].
  exists s, t1, t2, t3, j3. auto 10.
Qed.

(** strarray *)
Lemma push_all_spec {T} (junk : nat -> option T) : forall l a pre,
  (data a = [] /\ len a = 0%nat /\ pre = [] \/
   (8 <= length (data a))%nat /\ len a = length pre /\ (len a <= length (data a))%nat /\
     firstn (len a) (data a) = map Some pre) ->
  exists a', push_all junk a l = Done a' /\ len a' = length (pre ++ l) /\
    (len a' <= length (data a'))%nat /\ firstn (len a') (data a') = map Some (pre ++ l).
Proof.
  induction l as [|s l IH]; intros a pre H.
  - exists a. split; [reflexivity|]. rewrite app_nil_r.
    destruct H as [[H1 [H2 ->]]|[H1 [H2 [H3 H4]]]].
    + rewrite H2. simpl. auto with arith.
    + auto.
  - cbn [push_all]. unfold strarray_push.
    set (d1 := match data a with [] => map junk (seq 0 8) | d => d end).
    assert (Hd1 : (8 <= length d1)%nat /\ (len a <= length d1)%nat /\ len a = length pre /\ firstn (len a) d1 = map Some pre).
    { destruct H as [[H1 [H2 ->]]|[H1 [H2 [H3 H4]]]]; unfold d1.
      - rewrite H1, H2. simpl. auto with arith.
      - destruct (data a) eqn:Ed; [simpl in H1; lia|]. auto. }
    destruct Hd1 as [A [B [C D]]].
    set (d2 := if (length d1 =? len a)%nat then d1 ++ repeat None (length d1) else d1).
    assert (Hd2 : (8 <= length d2)%nat /\ (len a < length d2)%nat /\ firstn (len a) d2 = map Some pre).
    { unfold d2. destruct (Nat.eqb_spec (length d1) (len a)).
      - rewrite app_length, repeat_length. split; [lia|]. split; [lia|].
        rewrite firstn_app. replace (len a - length d1)%nat with 0%nat by lia. simpl. rewrite app_nil_r. exact D.
      - split; [lia|]. split; [lia|exact D]. }
    destruct Hd2 as [A2 [B2 D2]]. cbv zeta.
    destruct (Nat.ltb_spec (len a) (length d2)); [|lia].
    destruct (IH (StrArray (set_nth (len a) (Some s) d2) (S (len a))) (pre ++ [s])) as [a' [E [E1 [E2 E3]]]].
    + right. cbn [data len]. rewrite set_nth_length. split; [lia|]. split; [ll|]. split; [lia|].
      clear IH. rewrite map_app. simpl map.
      assert (G : forall n (x : list (option T)), (n < length x)%nat -> firstn (S n) (set_nth n (Some s) x) = firstn n x ++ [Some s]).
      { clear. induction n as [|n IHn]; intros [|y x] Hn; simpl in *; try lia; [destruct x; reflexivity|].
        f_equal. apply IHn. lia. }
      rewrite G by lia. rewrite D2. reflexivity.
    + exists a'. rewrite <- app_assoc in *. simpl in *. auto.
Qed.
