From Verif Require Import Base HashMapModel HashMapSpec HashMapProofs ScopeModel ScopeSpec.
From Coq Require Import ZifyBool ZifyNat Sorting.Sorted.
Local Notation length := List.length.

(** ** Scopes *)
(** A table and the history of its insertions *)
Definition puts_only (h : list (op Z)) : Prop := forall k, ~ In (Del k) h.
Definition hist (N : nat) (m : hmap Z) (h : list (op Z)) : Prop := run empty_map h = Ok m /\ puts_only h /\ (length h <= N)%nat.
Lemma run_snoc (h : list (op Z)) : forall (m m' : hmap Z) o, run m h = Ok m' -> run m (h ++ [o]) = step m' o.
Proof. induction h as [|x h IH]; intros m m' o H; cbn [run app] in *; [assert (m = m') by congruence; subst; destruct (step m' o); reflexivity|]. destruct (step m x); try discriminate. auto. Qed.
Lemma hist_get N m h k : hist N m h -> Z.of_nat N <= 20000000 -> hashmap_get m k = Ok (expected h k).
Proof.
  intros (R & P & L) B. assert (L': Z.of_nat (length h) <= 20000000) by lia. assert (NO: no_overwrite_after_delete h).
  { intros pre k0 v post E D. exfalso. apply existsb_exists in D as (x & X & Y). destruct x as [a b|a]; [discriminate Y|]. apply (P a). rewrite E. apply in_or_app. auto. }
  destruct (refines h k L' NO) as (m' & R' & G). assert (m' = m) by congruence. now subst.
Qed.
Lemma hist_put N m h k v : hist N m h -> Z.of_nat (S N) <= 20000000 -> exists m', hashmap_put m k v = Ok m' /\ hist (S N) m' (h ++ [Put k v]).
Proof.
  intros (R & P & L) B. assert (P': puts_only (h ++ [Put k v])) by (intros a I; apply in_app_or in I as [I|[I|[]]]; [exact (P a I)|discriminate I]).
  assert (L': (length (h ++ [Put k v]) <= S N)%nat) by (rewrite app_length; cbn; lia).
  assert (NO: no_overwrite_after_delete (h ++ [Put k v])).
  { intros pre k0 w post E D. exfalso. apply existsb_exists in D as (x & X & Y). destruct x as [a b|a]; [discriminate Y|]. apply (P' a). rewrite E. apply in_or_app. auto. }
  destruct (refines (h ++ [Put k v]) k ltac:(lia) NO) as (m' & R' & _). pose proof (run_snoc h empty_map m (Put k v) R) as E. rewrite R' in E. cbn [step] in E. exists m'. split; [auto|]. split; [exact R'|auto].
Qed.
Lemma spec_lookup_app (h1 h2 : list (op Z)) k : forall cur, spec_lookup (h1 ++ h2) k cur = spec_lookup h2 k (spec_lookup h1 k cur).
Proof. induction h1 as [|[a b|a] h1 IH]; intros cur; cbn [spec_lookup app]; auto. Qed.
Lemma expected_snoc (h : list (op Z)) k v n : expected (h ++ [Put k v]) n = if beq k n then Some v else expected h n.
Proof. unfold expected. rewrite spec_lookup_app. cbn. reflexivity. Qed.
Lemma hist_mono N M m h : hist N m h -> (N <= M)%nat -> hist M m h. Proof. intros (A & B & C) L. repeat split; auto. lia. Qed.

(** The chain and the histories of its tables *)
Record shist := SH { h_vars : list (op Z); h_tags : list (op Z) }.
Definition sim1 (N : nat) (s : scope) (h : shist) : Prop := hist N (sc_vars s) (h_vars h) /\ hist N (sc_tags s) (h_tags h).
Definition sim N (c : chain) (hs : list shist) : Prop := Forall2 (sim1 N) c hs.
Definition hop (o : sop) (hs : list shist) : list shist :=
  match o, hs with
  | OpEnter, _ => SH [] [] :: hs
  | OpLeave, _ :: r => r
  | OpVar n v, h :: r => SH (h_vars h ++ [Put n v]) (h_tags h) :: r
  | OpTag n v, h :: r => SH (h_vars h) (h_tags h ++ [Put n v]) :: r
  | _, [] => []
  end.
Lemma sim_mono N M c hs : sim N c hs -> (N <= M)%nat -> sim M c hs.
Proof. intros H L. induction H as [|s h c hs [A B] _ IH]; constructor; auto. split; eapply hist_mono; eauto. Qed.
Lemma empty_hist N : hist N empty_map []. Proof. repeat split; [intros k []|cbn; lia]. Qed.
Lemma sim_step N o c hs : sim N c hs -> hs <> [] -> Z.of_nat (S N) <= 20000000 -> exists c', do_sop o c = SOk c' /\ sim (S N) c' (hop o hs).
Proof.
  intros H NE B. destruct H as [|s h c hs [A1 A2] H]; [congruence|]. assert (H': sim (S N) c hs) by (eapply sim_mono; eauto). destruct o as [| |n v|n v]; cbn [do_sop hop].
  - eexists. split; [reflexivity|]. constructor; [split; apply empty_hist|]. constructor; auto. split; eapply hist_mono; eauto.
  - eexists. split; [reflexivity|exact H'].
  - destruct (hist_put _ _ _ n v A1 B) as (m & P & Q). rewrite P. eexists. split; [reflexivity|]. constructor; auto. split; [exact Q|]. eapply hist_mono; eauto.
  - destruct (hist_put _ _ _ n v A2 B) as (m & P & Q). rewrite P. eexists. split; [reflexivity|]. constructor; auto. split; [|exact Q]. eapply hist_mono; eauto.
Qed.
Definition hops (l : list sop) (hs : list shist) : list shist := fold_left (fun hs o => hop o hs) l hs.
Lemma hop_length o hs : hs <> [] -> length (hop o hs) = match o with OpEnter => S (length hs) | OpLeave => pred (length hs) | _ => length hs end.
Proof. intros N. destruct hs; [congruence|]. destruct o; reflexivity. Qed.
Lemma sim_run l : forall N c hs d, sim N c hs -> length hs = S d -> nested l d = true -> Z.of_nat (N + length l) <= 20000000 -> exists c', do_sops l c = SOk c' /\ sim (N + length l) c' (hops l hs) /\ length (hops l hs) = S (depth l d).
Proof.
  induction l as [|o l IH]; intros N c hs d H L NS B; cbn [do_sops hops fold_left length depth] in *.
  { exists c. split; [reflexivity|]. split; [eapply sim_mono; eauto; lia|exact L]. }
  assert (NE: hs <> []) by (destruct hs; [discriminate|congruence]). destruct (sim_step N o c hs H NE ltac:(lia)) as (c1 & E1 & S1). rewrite E1. pose proof (hop_length o hs NE) as HL.
  replace (N + S (length l))%nat with (S N + length l)%nat by lia. destruct o as [| |n v|n v]; cbn [nested] in NS.
  - eapply IH; eauto; lia.
  - destruct d as [|d]; [discriminate|]. cbn [pred]. eapply IH; eauto; lia.
  - eapply IH; eauto; lia.
  - eapply IH; eauto; lia.
Qed.
Fixpoint hfind (get : shist -> list (op Z)) (hs : list shist) (n : bytes) : option Z :=
  match hs with [] => None | h :: r => match expected (get h) n with Some v => Some v | None => hfind get r n end end.
Lemma find_var_h N c hs n : sim N c hs -> Z.of_nat N <= 20000000 -> find_var c n = SOk (hfind h_vars hs n).
Proof. intros H B. induction H as [|s h c hs [A1 A2] _ IH]; [reflexivity|]. cbn [find_var hfind]. rewrite (hist_get _ _ _ n A1 B). destruct (expected (h_vars h) n); auto. Qed.
Lemma find_tag_h N c hs n : sim N c hs -> Z.of_nat N <= 20000000 -> find_tag c n = SOk (hfind h_tags hs n).
Proof. intros H B. induction H as [|s h c hs [A1 A2] _ IH]; [reflexivity|]. cbn [find_tag hfind]. rewrite (hist_get _ _ _ n A2 B). destruct (expected (h_tags h) n); auto. Qed.

(** Looking up in the histories, skipping [k] scopes, is looking back in the operations *)
Lemma hops_snoc l o hs : hops (l ++ [o]) hs = hop o (hops l hs). Proof. unfold hops. now rewrite fold_left_app. Qed.
Lemma nested_app l1 : forall l2 d, nested (l1 ++ l2) d = nested l1 d && nested l2 (depth l1 d).
Proof. induction l1 as [|o l1 IH]; intros l2 d; [reflexivity|]. cbn [app nested depth]. destruct o; auto. destruct d; auto. Qed.
Lemma depth_app l1 : forall l2 d, depth (l1 ++ l2) d = depth l2 (depth l1 d).
Proof. induction l1 as [|o l1 IH]; intros l2 d; [reflexivity|]. cbn [app depth]. destruct o; auto. Qed.
Lemma hops_length l : forall hs d, length hs = S d -> nested l d = true -> length (hops l hs) = S (depth l d).
Proof.
  induction l as [|o l IH]; intros hs d L NS; [exact L|]. cbn [hops fold_left depth]. assert (NE: hs <> []) by (destruct hs; [discriminate|congruence]). pose proof (hop_length o hs NE) as HL.
  destruct o as [| |n v|n v]; cbn [nested] in NS; try (apply IH; auto; lia). destruct d; [discriminate|]. cbn [pred]. apply IH; auto. lia.
Qed.
Section Vis.
Variables (get : shist -> list (op Z)) (n : bytes) (decl : sop -> option Z).
Hypothesis D0 : get (SH [] []) = [].
Hypothesis D1 : forall h r o, (o <> OpEnter /\ o <> OpLeave) -> exists h', hop o (h :: r) = h' :: r /\ expected (get h') n = match decl o with Some v => Some v | None => expected (get h) n end.
Lemma vis_h : forall l k, nested l 0 = true -> hfind get (skipn k (hops l [SH [] []])) n = visible decl k (rev l).
Proof.
  intros l. induction l as [|o l IH] using rev_ind; intros k NS.
  { cbn [hops fold_left rev visible]. destruct k as [|k]; cbn [skipn hfind]; [|destruct k; reflexivity]. rewrite D0. reflexivity. }
  rewrite nested_app in NS. apply andb_true_iff in NS as [NS1 NS2]. rewrite rev_unit, hops_snoc. pose proof (hops_length l [SH [] []] 0 eq_refl NS1) as L. destruct (hops l [SH [] []]) as [|h r] eqn:H; [discriminate|].

  assert (IHk: forall k, hfind get (skipn k (h :: r)) n = visible decl k (rev l)) by (intros; now apply IH). clear IH.
  destruct o as [| |a v|a v].
  - cbn [hop visible]. destruct k as [|k]; cbn [skipn pred]; [cbn [hfind]; rewrite D0; cbn [expected spec_lookup]; exact (IHk 0%nat)|apply IHk].
  - cbn [hop visible]. rewrite <- IHk. reflexivity.
  - destruct (D1 h r (OpVar a v) ltac:(split; discriminate)) as (h' & E1 & E2). rewrite E1. cbn [visible]. rewrite <- IHk. destruct k as [|k]; cbn [skipn Nat.eqb hfind]; [|reflexivity]. rewrite E2. destruct (decl (OpVar a v)); reflexivity.
  - destruct (D1 h r (OpTag a v) ltac:(split; discriminate)) as (h' & E1 & E2). rewrite E1. cbn [visible]. rewrite <- IHk. destruct k as [|k]; cbn [skipn Nat.eqb hfind]; [|reflexivity]. rewrite E2. destruct (decl (OpTag a v)); reflexivity.
Qed.
End Vis.
Lemma vis_vars n l : nested l 0 = true -> hfind h_vars (hops l [SH [] []]) n = visible (declares_var n) 0 (rev l).
Proof.
  intros NS. apply (vis_h h_vars n (declares_var n) eq_refl) with (k := 0%nat); auto. intros h r o [N1 N2]. destruct o as [| |a v|a v]; try congruence; cbn [hop declares_var]; eexists; split; try reflexivity; cbn [h_vars]. rewrite expected_snoc. destruct (beq a n); reflexivity.
Qed.
Lemma vis_tags n l : nested l 0 = true -> hfind h_tags (hops l [SH [] []]) n = visible (declares_tag n) 0 (rev l).
Proof.
  intros NS. apply (vis_h h_tags n (declares_tag n) eq_refl) with (k := 0%nat); auto. intros h r o [N1 N2]. destruct o as [| |a v|a v]; try congruence; cbn [hop declares_tag]; eexists; split; try reflexivity; cbn [h_tags]. rewrite expected_snoc. destruct (beq a n); reflexivity.
Qed.
Lemma sim0 : sim 0 chain0 [SH [] []]. Proof. constructor; [split; apply empty_hist|constructor]. Qed.

(** A block does not change what is visible *)
Lemma visible_block decl l : forall k rest, block l -> visible decl k (OpLeave :: rev l ++ OpEnter :: rest) = visible decl k rest.
Proof.
  intros k rest [N D]. cbn [visible].
  assert (G: forall l k d, nested l d = true -> (k > depth l d)%nat -> visible decl k (rev l ++ OpEnter :: rest) = visible decl (k - depth l d + d - 1) rest).
  { clear. intros l. induction l as [|o l IH] using rev_ind; intros k d N K; [cbn [rev app depth visible] in *; f_equal; lia|]. rewrite nested_app in N. apply andb_true_iff in N as [N1 N2]. rewrite depth_app in K |- *. rewrite rev_unit. cbn [app].
    destruct o as [| |a v|a v]; cbn [visible depth nested] in *.
    - rewrite (IH _ d N1) by lia. f_equal. lia.
    - destruct (depth l d) as [|e] eqn:E; [discriminate|]. cbn [pred] in *. rewrite (IH _ d N1) by lia. f_equal. lia.
    - replace (Nat.eqb k 0) with false by lia. rewrite (IH _ d N1) by lia. reflexivity.
    - replace (Nat.eqb k 0) with false by lia. rewrite (IH _ d N1) by lia. reflexivity. }
  rewrite (G l (S k) 0%nat N) by lia. f_equal. lia.
Qed.
(** The outermost scope *)
Lemma file_h n l : forall hs d, length hs = S d -> nested l d = true -> 
  expected (h_vars (last (hops l hs) (SH [] []))) n = file_level n l d (expected (h_vars (last hs (SH [] []))) n).
Proof.
  induction l as [|o l IH]; intros hs d L NS; [reflexivity|]. cbn [hops fold_left file_level]. assert (NE: hs <> []) by (destruct hs; [discriminate|congruence]). pose proof (hop_length o hs NE) as HL. destruct hs as [|h r]; [congruence|].
  destruct o as [| |a v|a v]; cbn [nested] in NS.
  - cbn [hop]. fold (hops l (SH [] [] :: h :: r)). rewrite (IH _ (S d)); [|cbn in *; lia|exact NS]. reflexivity.
  - destruct d as [|d]; [discriminate|]. cbn [hop pred]. fold (hops l r). rewrite (IH _ d); [|cbn in *; lia|exact NS]. destruct r; [discriminate L|reflexivity].
  - cbn [hop]. fold (hops l (SH (h_vars h ++ [Put a v]) (h_tags h) :: r)). rewrite (IH _ d); [|cbn in *; lia|exact NS]. f_equal. destruct r as [|h2 r]; [|cbn in L; replace (Nat.eqb d 0) with false by lia; reflexivity]. cbn in L. replace (Nat.eqb d 0) with true by lia. cbn [last h_vars andb]. apply expected_snoc.
  - cbn [hop]. fold (hops l (SH (h_vars h) (h_tags h ++ [Put a v]) :: r)). rewrite (IH _ d); [|cbn in *; lia|exact NS]. f_equal. destruct r; reflexivity.
Qed.
Lemma sim_last N c hs : sim N c hs -> hs <> [] -> exists s r, rev c = s :: r /\ sim1 N s (last hs (SH [] [])).
Proof.
  intros H NE. destruct hs as [|h hs] using rev_ind; [congruence|]. clear IHhs NE. apply Forall2_app_inv_r in H as (c1 & c2 & H1 & H2 & ->). inversion H2 as [|s h' c3 hs' A B]; subst. inversion B; subst. exists s, (rev c1). rewrite rev_app_distr. split; [reflexivity|]. now rewrite last_last.
Qed.

(** ** Tentative definitions *)
Section ScanProofs.
Variable objs : list gobj.
Let n := length objs.
Inductive path (nx : nat -> nat) : nat -> list nat -> Prop :=
  | path_nil i : (n <= i)%nat -> path nx i []
  | path_cons i l : (i < n)%nat -> path nx (nx i) l -> path nx i (i :: l).
Lemma path_app_inv nx l1 c l2 : forall i, path nx i (l1 ++ c :: l2) -> path nx c (c :: l2).
Proof. induction l1 as [|a l1 IH]; intros i P; inversion P; subst; [constructor; auto|eapply IH; eauto]. Qed.
Lemma path_upd nx l1 c l2 j l3 : ~ In c l1 -> path (upd_next nx c j) j l3 -> forall i, path nx i (l1 ++ c :: l2) -> path (upd_next nx c j) i (l1 ++ c :: l3).
Proof.
  intros NI P3. induction l1 as [|a l1 IH]; intros i P; inversion P; subst; cbn [app]; constructor; auto.
  - unfold upd_next at 2. now rewrite Nat.eqb_refl.
  - unfold upd_next at 2. replace (Nat.eqb a c) with false; [apply IH; [intros I; apply NI; now right|assumption]|]. symmetry. apply Nat.eqb_neq. intros ->. apply NI. now left.
Qed.
Lemma path_seq nx : forall k i, (i + k = n)%nat -> (forall j, (i <= j)%nat -> nx j = S j) -> path nx i (seq i k).
Proof. induction k as [|k IH]; intros i E H; cbn [seq]; [constructor; lia|]. constructor; [lia|]. rewrite H by lia. apply IH; [lia|]. intros; apply H; lia. Qed.
Definition clash (self : nat) (o : gobj) (i : nat) : bool :=
  match nth_error objs i with Some o2 => negb (Nat.eqb i self) && g_def o2 && beq (g_name o) (g_name o2) | None => false end.
Lemma other_def_path nx self o : forall fuel i l, path nx i l -> (length l < fuel)%nat -> other_def objs fuel nx self o i = Some (existsb (clash self o) l).
Proof.
  induction fuel as [|fuel IH]; intros i l P L; [lia|]. cbn [other_def]. destruct P as [i G|i l G P].
  - destruct (nth_error objs i) eqn:E; [apply nth_error_Some_lt in E || (assert (i < length objs)%nat by (apply nth_error_Some; congruence); unfold n in G; lia)|reflexivity].
  - unfold existsb; fold (existsb (clash self o) l). unfold clash at 1. destruct (nth_error objs i) as [o2|] eqn:E; [|apply nth_error_None in E; unfold n in G; lia].
    destruct (_ && _ && _); [reflexivity|]. cbn [orb]. apply IH; auto. cbn in L. lia.
Qed.
Lemma collect_path nx : forall fuel i l, path nx i l -> (length l < fuel)%nat -> collect objs fuel nx i = Some l.
Proof.
  induction fuel as [|fuel IH]; intros i l P L; [lia|]. cbn [collect]. destruct P as [i G|i l G P].
  - fold n. replace (Nat.leb n i) with true by lia. reflexivity.
  - fold n. replace (Nat.leb n i) with false by lia. rewrite (IH _ _ P); [reflexivity|cbn in L; lia].
Qed.

(** The decision, with the list that is visible *)
Definition visl (D K : list nat) (c : nat) : list nat := D ++ K ++ seq (S c) (n - S c).
Definition keepb (D K : list nat) (c i : nat) : bool :=
  match nth_error objs i with
  | Some o => negb (g_tent o) || negb (existsb (clash i o) (visl D K c))
  | None => false
  end.
(** State of the scan before object [i]: nothing kept yet, or the last kept is [c] *)
Inductive sst := S0 | S1 (D K : list nat) (c : nat).
Definition keep0 (i : nat) : bool := match nth_error objs i with Some o => negb (g_tent o) || negb (existsb (clash i o) (seq 0 n)) | None => false end.
Definition sstep (s : sst) (i : nat) : sst :=
  match s with
  | S0 => if keep0 i then S1 (seq 0 i) [i] i else S0
  | S1 D K c => if keepb D K c i then S1 D (K ++ [i]) i else s
  end.
Definition kept (s : sst) : list nat := match s with S0 => [] | S1 _ K _ => K end.
Definition sinv (nx : nat -> nat) (hd : nat) (cur : option nat) (i : nat) (s : sst) : Prop :=
  match s, cur with
  | S0, None => forall j, nx j = S j
  | S1 D K c, Some c' => c = c' /\ (c < i)%nat /\ (forall j, (c <= j)%nat -> nx j = S j) /\ (exists K0, K = K0 ++ [c]) /\ (exists r, K = hd :: r) /\ path nx 0 (visl D K c) /\ NoDup (visl D K c)
  | _, _ => False
  end.
Lemma nodup_len (l : list nat) : NoDup l -> (forall x, In x l -> (x < n)%nat) -> (length l <= n)%nat.
Proof. intros ND H. rewrite <- (seq_length n 0). apply NoDup_incl_length; auto. intros x I. apply in_seq. specialize (H x I). lia. Qed.
Lemma path_lt nx i l : path nx i l -> forall x, In x l -> (x < n)%nat.
Proof. intros P. induction P; cbn; intros x I; [contradiction|]. destruct I as [->|I]; auto. Qed.
Lemma seq_split_at a k i : (a <= i)%nat -> (i < a + k)%nat -> seq a k = seq a (i - a) ++ i :: seq (S i) (a + k - S i).
Proof. intros A B. replace k with ((i - a) + S (a + k - S i))%nat at 1 by lia. rewrite seq_app. cbn [seq]. f_equal. f_equal; [lia|]. f_equal. lia. Qed.
Lemma nodup_l (l1 l2 : list nat) : NoDup (l1 ++ l2) -> NoDup l2. Proof. induction l1; cbn; intros H; auto. inversion H; auto. Qed.
Lemma nodup_r (l1 l2 : list nat) : NoDup (l1 ++ l2) -> NoDup l1. Proof. induction l1; cbn; intros H; [constructor|]. inversion H; subst. constructor; [|auto]. intros I. apply H2. apply in_or_app. now left. Qed.
Lemma nodup_drop (l1 l2 l3 : list nat) : NoDup (l1 ++ l2 ++ l3) -> NoDup (l1 ++ l3).
Proof. intros H. induction l1 as [|a l1 IH]; cbn in *; [now apply nodup_l in H|]. inversion H; subst. constructor; auto. intros I. apply H2. rewrite !in_app_iff in *. tauto. Qed.
Lemma scan_ok : forall k i fuel nx hd cur s, (i + k = n)%nat -> (k < fuel)%nat -> sinv nx hd cur i s ->
  exists hd' nx', scan objs fuel nx hd cur i = Some (hd', nx') /\ path nx' hd' (kept (fold_left sstep (seq i k) s)) /\ NoDup (kept (fold_left sstep (seq i k) s)).
Proof.
  induction k as [|k IH]; intros i fuel nx hd cur s E F IV; (destruct fuel as [|fuel]; [lia|]); cbn [scan seq fold_left].
  { replace (nth_error objs i) with (@None gobj); [|symmetry; apply nth_error_None; unfold n in E; lia]. fold n. destruct s as [|D K c], cur as [c'|]; cbn [sinv] in IV; try contradiction.
    - exists n, nx. split; [reflexivity|]. cbn [kept]. split; [constructor; lia|constructor].
    - destruct IV as (<- & Lc & SU & (K0 & EK) & (r & EH) & P & ND). eexists hd, _. split; [reflexivity|]. cbn [kept]. unfold visl in ND, P.
      assert (NK: NoDup K) by (apply nodup_l, nodup_r in ND; exact ND). split; [|exact NK].
      assert (P1: path nx hd (K ++ seq (S c) (n - S c))) by (rewrite EH in P |- *; cbn [app] in P |- *; eapply path_app_inv; exact P). rewrite EK in P1, NK |- *. rewrite <- app_assoc in P1. cbn [app] in P1.
      eapply (path_upd nx K0 c _ n []); [|constructor; lia|exact P1]. intros I. apply NoDup_remove_2 in NK. apply NK. rewrite app_nil_r. exact I. }
  assert (Li: (i < n)%nat) by lia. destruct (nth_error objs i) as [o|] eqn:EO; [|apply nth_error_None in EO; unfold n in Li; lia].
  assert (STEP: forall fuel, (k < fuel)%nat -> forall nx hd cur s', sinv nx hd cur (S i) s' -> exists hd' nx', scan objs fuel nx hd cur (S i) = Some (hd', nx') /\ path nx' hd' (kept (fold_left sstep (seq (S i) k) s')) /\ NoDup (kept (fold_left sstep (seq (S i) k) s'))) by (intros; apply IH; auto; lia).
  assert (F': (k < fuel)%nat) by lia. destruct s as [|D K c], cur as [c'|]; cbn [sinv] in IV; try contradiction.
  - assert (PA: path nx 0 (seq 0 n)) by (apply path_seq; auto). assert (OD: other_def objs (S (S n)) nx i o 0 = Some (existsb (clash i o) (seq 0 n))) by (apply other_def_path; [exact PA|rewrite seq_length; lia]).
    fold n. rewrite OD. cbn [sstep]. unfold keep0. rewrite EO.
    assert (KEEP: sinv nx i (Some i) (S i) (S1 (seq 0 i) [i] i)).
    { cbn [sinv]. split; [reflexivity|]. split; [lia|]. split; [auto|]. split; [now exists []|]. split; [now exists []|]. assert (EV: visl (seq 0 i) [i] i = seq 0 n) by (unfold visl; rewrite (seq_split_at 0 n i) by lia; cbn [app]; rewrite Nat.sub_0_r; reflexivity). rewrite EV. split; [exact PA|apply seq_NoDup]. }
    rewrite (IV i). destruct (g_tent o); cbn [negb orb]; [|now apply STEP]. destruct (existsb (clash i o) (seq 0 n)); cbn [negb]; apply STEP; auto.
  - destruct IV as (<- & Lc & SU & (K0 & EK) & (r & EH) & P & ND). pose proof (path_lt _ _ _ P) as LT. pose proof (nodup_len _ ND LT) as LL.
    assert (OD: other_def objs (S (S n)) nx i o 0 = Some (existsb (clash i o) (visl D K c))) by (apply other_def_path; [exact P|lia]).
    fold n. rewrite OD. cbn [sstep]. unfold keepb. rewrite EO.
    assert (KEEP: sinv (upd_next nx c i) hd (Some i) (S i) (S1 D (K ++ [i]) i)).
    { cbn [sinv]. split; [reflexivity|]. split; [lia|]. assert (SU': forall j, (i <= j)%nat -> upd_next nx c i j = S j) by (intros j J; unfold upd_next; replace (Nat.eqb j c) with false by lia; apply SU; lia). split; [exact SU'|]. split; [now exists K|]. split; [exists (r ++ [i]); rewrite EH; reflexivity|].
      unfold visl in P, ND |- *. rewrite (seq_split_at (S c) (n - S c) i) in ND by lia. replace (S c + (n - S c) - S i)%nat with (n - S i)%nat in ND by lia.
      assert (ND': NoDup (D ++ (K ++ [i]) ++ seq (S i) (n - S i))) by (rewrite <- app_assoc; cbn [app]; rewrite app_assoc in ND |- *; eapply nodup_drop; exact ND). split; [|exact ND'].
      rewrite EK. rewrite EK in P. rewrite <- !app_assoc in *. cbn [app] in *. rewrite app_assoc. rewrite app_assoc in P. assert (PS: path (upd_next nx c i) i (i :: seq (S i) (n - S i))) by (constructor; [lia|]; rewrite SU' by lia; apply path_seq; [lia|]; intros; apply SU'; lia). eapply path_upd; [|exact PS|exact P].
      - rewrite EK in ND'. rewrite <- !app_assoc in ND'. cbn [app] in ND'. rewrite app_assoc in ND'. apply NoDup_remove_2 in ND'. intros I. apply ND'. apply in_or_app. now left. }
    assert (NXI: upd_next nx c i i = S i) by (unfold upd_next; replace (Nat.eqb i c) with false by lia; apply SU; lia). rewrite NXI, (SU i) by lia.
    assert (SKIP: sinv nx hd (Some c) (S i) (S1 D K c)) by (cbn [sinv]; repeat split; eauto; lia).
    destruct (g_tent o); cbn [negb orb]; [|now apply STEP]. destruct (existsb (clash i o) (visl D K c)); cbn [negb]; apply STEP; auto.
Qed.
Definition final : list nat := kept (fold_left sstep (seq 0 n) S0).
Lemma scan_globals_final : scan_globals objs = Some final.
Proof.
  unfold scan_globals. fold n. destruct (scan_ok n 0 (S (S n)) S n None S0 ltac:(lia) ltac:(lia) ltac:(intros j; reflexivity)) as (hd & nx & E & P & ND). rewrite E.
  apply collect_path; [exact P|]. pose proof (nodup_len _ ND (path_lt _ _ _ P)). fold final in *. lia.
Qed.
Definition st (m : nat) : sst := fold_left sstep (seq 0 m) S0.
Definition decide (s : sst) (i : nat) : bool := match s with S0 => keep0 i | S1 D K c => keepb D K c i end.
Definition vis (s : sst) : list nat := match s with S0 => seq 0 n | S1 D K c => visl D K c end.
Lemma st_S m : st (S m) = sstep (st m) m. Proof. unfold st. rewrite seq_S, fold_left_app. reflexivity. Qed.
Lemma kept_step s i : kept (sstep s i) = kept s ++ (if decide s i then [i] else []).
Proof. destruct s as [|D K c]; cbn [sstep decide kept]; [destruct (keep0 i); reflexivity|]. destruct (keepb D K c i); cbn [kept]; [reflexivity|now rewrite app_nil_r]. Qed.
Lemma kept_st m : kept (st m) = filter (fun i => decide (st i) i) (seq 0 m).
Proof. induction m as [|m IH]; [reflexivity|]. rewrite st_S, kept_step, IH, seq_S, filter_app. cbn [filter plus]. reflexivity. Qed.
Lemma kept_in m i : In i (kept (st m)) <-> (i < m)%nat /\ decide (st i) i = true.
Proof. rewrite kept_st, filter_In, in_seq. split; intros [A B]; split; auto; lia. Qed.
Lemma decide_iff s i o : nth_error objs i = Some o -> decide s i = negb (g_tent o) || negb (existsb (clash i o) (vis s)).
Proof. intros E. destruct s; cbn [decide vis]; [unfold keep0|unfold keepb]; now rewrite E. Qed.
Lemma decide_lt s i : decide s i = true -> (i < n)%nat.
Proof. intros H. destruct (nth_error objs i) eqn:E; [apply nth_error_Some; congruence|]. destruct s; cbn in H; [unfold keep0 in H|unfold keepb in H]; rewrite E in H; discriminate. Qed.
Definition shape (m : nat) (s : sst) : Prop :=
  match s with
  | S0 => True
  | S1 D K c => (c < m)%nat /\ In c K /\ (forall x, In x K -> (x <= c)%nat) /\ exists k1, D = seq 0 k1 /\ In k1 K /\ forall x, In x K -> (k1 <= x)%nat
  end.
Lemma shape_st m : shape m (st m).
Proof.
  induction m as [|m IH]; [exact I|]. rewrite st_S. destruct (st m) as [|D K c]; cbn [sstep].
  - destruct (keep0 m); [|exact I]. cbn [shape]. split; [lia|]. split; [now left|]. split; [intros x [<-|[]]; lia|]. exists m. split; [reflexivity|]. split; [now left|]. intros x [<-|[]]; lia.
  - destruct IH as (A & B & C & k1 & E & F & G). destruct (keepb D K c m); cbn [shape].
    + split; [lia|]. split; [apply in_or_app; right; now left|]. split; [intros x X; apply in_app_or in X as [X|[<-|[]]]; [specialize (C x X)|]; lia|]. exists k1. split; [exact E|]. split; [apply in_or_app; now left|]. intros x X; apply in_app_or in X as [X|[<-|[]]]; [auto|]. specialize (C k1 F). lia.
    + split; [lia|]. split; [exact B|]. split; [exact C|]. exists k1. auto.
Qed.
Lemma vis_in m x : (x < n)%nat -> (m <= x)%nat \/ In x (kept (st m)) -> In x (vis (st m)).
Proof.
  intros L H. pose proof (shape_st m) as SH. destruct (st m) as [|D K c]; cbn [vis kept shape] in *; [apply in_seq; lia|]. destruct SH as (A & _). unfold visl. rewrite !in_app_iff, in_seq. destruct H as [H|H]; [right; right; lia|right; now left].
Qed.
Lemma vis_out m x a b : In x (vis (st m)) -> (x < m)%nat -> In a (kept (st m)) -> (a < x)%nat -> In b (kept (st m)) -> (x < b)%nat -> In x (kept (st m)).
Proof.
  intros V L Ia La Ib Lb. pose proof (shape_st m) as SH. destruct (st m) as [|D K c]; cbn [vis kept shape] in *; [contradiction|]. destruct SH as (A & B & C & k1 & E & F & G). unfold visl in V. rewrite !in_app_iff, in_seq in V. destruct V as [V|[V|V]]; [|exact V|].
  - rewrite E in V. apply in_seq in V. specialize (G a Ia). lia.
  - specialize (C b Ib). lia.
Qed.
Lemma clash_true i o j : clash i o j = true <-> j <> i /\ defines objs (g_name o) j.
Proof.
  unfold clash, defines, defines_as. destruct (nth_error objs j) as [o2|] eqn:E.
  - rewrite !andb_true_iff, negb_true_iff, Nat.eqb_neq, beq_eq. split.
    + intros [[A B] C]. split; [exact A|]. exists (g_tent o2), o2. repeat split; auto.
    + intros [A (t & o3 & E3 & N & D & T)]. assert (o3 = o2) by congruence. subst. auto.
  - split; [discriminate|]. intros [_ (t & o3 & E3 & _)]. congruence.
Qed.
Lemma nth_lt i o : nth_error objs i = Some o -> (i < n)%nat. Proof. intros E. apply nth_error_Some. congruence. Qed.
Lemma final_eq : final = kept (st n). Proof. reflexivity. Qed.
Lemma final_solid i o : nth_error objs i = Some o -> g_tent o = false -> forall m, (i < m)%nat -> In i (kept (st m)).
Proof. intros E T m L. apply kept_in. split; [exact L|]. rewrite (decide_iff _ _ _ E), T. reflexivity. Qed.
Lemma final_sorted m : StronglySorted lt (kept (st m)).
Proof.
  rewrite kept_st. assert (G: forall k a, StronglySorted lt (filter (fun i => decide (st i) i) (seq a k))); [|apply G]. intros k. induction k as [|k IH]; intros a; [constructor|]. cbn [seq filter]. destruct (decide (st a) a); [|apply IH]. constructor; [apply IH|]. apply Forall_forall. intros x X. apply filter_In in X as [X _]. apply in_seq in X. lia.
Qed.
Lemma final_tent nm i j : In i final -> defines_as objs nm true i -> j <> i -> (In j final \/ exists o, nth_error objs j = Some o /\ g_tent o = false) -> ~ defines objs nm j.
Proof.
  rewrite final_eq. intros I (o & E & N & D & T) NE J DJ. subst nm. apply kept_in in I as [L K]. rewrite (decide_iff _ _ _ E), T in K. cbn [negb orb] in K. apply negb_true_iff in K.
  assert (Lj: (j < n)%nat) by (destruct DJ as (t & o' & E' & _); eapply nth_lt; eauto).
  assert (V: In j (vis (st i))).
  { apply vis_in; auto. destruct (Nat.le_gt_cases i j) as [Q|Q]; [now left|right]. destruct J as [J|(o' & E' & T')].
    - apply kept_in in J as [_ J]. apply kept_in. auto.
    - eapply final_solid; eauto. }
  assert (X: existsb (clash i o) (vis (st i)) = true) by (apply existsb_exists; exists j; split; auto; apply clash_true; auto). congruence.
Qed.
Lemma final_last nm i : defines_as objs nm true i ->
  (forall j, defines objs nm j -> j <> i -> (j < i)%nat /\ defines_as objs nm true j /\
     (exists a o, (a < j)%nat /\ nth_error objs a = Some o /\ g_tent o = false) /\ exists b o, (j < b < i)%nat /\ nth_error objs b = Some o /\ g_tent o = false) ->
  In i final.
Proof.
  rewrite final_eq. intros (o & E & N & D & T) H. pose proof (nth_lt _ _ E) as L. apply kept_in. split; [exact L|]. rewrite (decide_iff _ _ _ E), T. cbn [negb orb]. apply negb_true_iff. destruct (existsb (clash i o) (vis (st i))) eqn:X; [|reflexivity]. exfalso.
  apply existsb_exists in X as (j & V & C). apply clash_true in C as [NE DJ]. rewrite N in DJ. destruct (H j DJ NE) as (Lj & DT & (a & oa & La & Ea & Ta) & b & ob & Lb & Eb & Tb).
  assert (KJ: In j (kept (st i))) by (eapply (vis_out i j a b V Lj); [eapply final_solid; eauto; lia|lia|eapply final_solid; eauto; lia|lia]).
  apply (final_tent nm j i); auto.
  - rewrite final_eq. apply kept_in in KJ as [_ KJ]. apply kept_in. split; [lia|exact KJ].
  - (* i is not yet known to be kept: use the decision for j *)
    exfalso. apply kept_in in KJ as [_ KJ]. destruct DT as (oj & Ej & Nj & Dj & Tj). rewrite (decide_iff _ _ _ Ej), Tj in KJ. cbn [negb orb] in KJ. apply negb_true_iff in KJ.
    assert (X: existsb (clash j oj) (vis (st j)) = true); [|congruence]. apply existsb_exists. exists i. split; [apply vis_in; auto; left; lia|]. apply clash_true. split; [auto|]. exists true, o. repeat split; auto. congruence.
  - exists true, o. auto.
Qed.
Lemma final_sole nm i : defines objs nm i -> (forall j, defines objs nm j -> j = i) -> In i final.
Proof.
  intros (t & o & E & N & D & T) U. destruct t; [|rewrite final_eq; eapply final_solid; eauto; eapply nth_lt; eauto]. apply (final_last nm); [exists o; auto|]. intros j DJ NE. exfalso. apply NE, U, DJ.
Qed.
End ScanProofs.

(** ** Dead functions *)
Section Live.
Variable fs : list fobj.
Hypothesis ND : NoDup (map f_name fs).
Lemma find_fn_in nm f : find_fn fs nm = Some f -> In f fs /\ f_name f = nm.
Proof. intros H. unfold find_fn in H. apply find_some in H as [A B]. apply beq_eq in B. auto. Qed.
Lemma find_fn_self f : In f fs -> find_fn fs (f_name f) = Some f.
Proof.
  unfold find_fn. clear -ND. revert ND. induction fs as [|g l IH]; intros ND I; [contradiction|]. cbn [find map] in *. inversion ND as [|a b N1 N2]; subst. destruct I as [->|I]; [now rewrite beq_refl|].
  destruct (beq (f_name g) (f_name f)) eqn:E; [|auto]. exfalso. apply N1. apply beq_eq in E. rewrite E. now apply in_map.
Qed.
Definition refs_of (x : bytes) : list bytes := match find_fn fs x with Some f => f_refs f | None => [] end.
Definition declared_fn (x : bytes) : Prop := In x (map f_name fs).
Lemma find_declared x : declared_fn x <-> exists f, find_fn fs x = Some f.
Proof. split; [|intros (f & E); apply find_fn_in in E as [A <-]; now apply in_map]. intros I. apply in_map_iff in I as (f & <- & I). exists f. now apply find_fn_self. Qed.
Inductive reach (x : bytes) : bytes -> Prop := reach_refl : reach x x | reach_step y g : reach x y -> In g (refs_of y) -> declared_fn g -> reach x g.
Lemma reach_left x y z : In y (refs_of x) -> declared_fn y -> reach y z -> reach x z.
Proof. intros A B R. induction R as [|u g R IH C D]; [eapply reach_step; [apply reach_refl|auto|auto]|eapply reach_step; eauto]. Qed.
Definition closed_in (L : list bytes) (x : bytes) : Prop := forall g, In g (refs_of x) -> declared_fn g -> In g L.
Definition good (L : list bytes) : Prop := NoDup L /\ incl L (map f_name fs).
Definition mark_refs (fuel : nat) : list bytes -> list bytes -> option (list bytes) :=
  fix go (l : list bytes) (live : list bytes) : option (list bytes) :=
    match l with
    | [] => Some live
    | n :: r => match find_fn fs n with Some g => match mark_live fuel fs live g with Some live => go r live | None => None end | None => go r live end
    end.
Lemma mark_live_unfold fuel live f : mark_live (S fuel) fs live f = if existsb (beq (f_name f)) live then Some live else mark_refs fuel (f_refs f) (f_name f :: live). Proof. reflexivity. Qed.
Lemma mem_iff x (L : list bytes) : existsb (beq x) L = true <-> In x L.
Proof. rewrite existsb_exists. split; [intros (y & A & B); apply beq_eq in B; now subst|intros I; exists x; split; [exact I|apply beq_refl]]. Qed.
Lemma in_dec_b (x : bytes) L : In x L \/ ~ In x L.
Proof. destruct (existsb (beq x) L) eqn:E; [left; now apply mem_iff|right; intros I; apply mem_iff in I; congruence]. Qed.
Lemma good_len L : good L -> (length L <= length fs)%nat.
Proof. intros [A B]. rewrite <- (map_length f_name fs). now apply NoDup_incl_length. Qed.
Lemma mark_ok : forall fuel,
  (forall live f, In f fs -> good live -> (length fs - length live < fuel)%nat ->
     exists L, mark_live fuel fs live f = Some L /\ incl live L /\ good L /\ In (f_name f) L /\ (forall x, In x L -> ~ In x live -> reach (f_name f) x /\ closed_in L x)).
Proof.
  induction fuel as [|fuel IH]; intros live f If G LE; [lia|].
  assert (R: forall l live, good live -> (length fs - length live < fuel)%nat -> exists L, mark_refs fuel l live = Some L /\ incl live L /\ good L /\ (forall g, In g l -> declared_fn g -> In g L) /\ (forall x, In x L -> ~ In x live -> (exists g, In g l /\ declared_fn g /\ reach g x) /\ closed_in L x)).
  { induction l as [|nm l IHl]; intros lv G' LE'; cbn [mark_refs].
    - exists lv. split; [reflexivity|]. split; [apply incl_refl|]. split; [exact G'|]. split; [intros g []|]. intros x A B. contradiction.
    - fold (mark_refs fuel). destruct (find_fn fs nm) as [g|] eqn:E.
      + destruct (find_fn_in _ _ E) as [Ig Ng]. destruct (IH lv g Ig G' LE') as (L1 & E1 & I1 & G1 & M1 & C1). rewrite E1. destruct (IHl L1 G1) as (L2 & E2 & I2 & G2 & M2 & C2).
        { pose proof (NoDup_incl_length (proj1 G') I1). lia. }
        rewrite E2. exists L2. split; [reflexivity|]. split; [eapply incl_tran; eauto|]. split; [exact G2|]. split.
        * intros h [<-|Ih] D; [rewrite Ng in M1; now apply I2|now apply M2].
        * intros x Ix Nx. destruct (in_dec_b x L1) as [Y|Y].
          -- destruct (C1 x Y Nx) as [Ra Ca]. split; [exists nm; split; [now left|]; split; [apply find_declared; eauto|now rewrite Ng in Ra]|]. intros h A B. apply I2. now apply Ca.
          -- destruct (C2 x Ix Y) as [(h & A & B & Cc) D]. split; [|exact D]. exists h. split; [now right|auto].
      + destruct (IHl lv G' LE') as (L2 & E2 & I2 & G2 & M2 & C2). exists L2. split; [exact E2|]. split; [exact I2|]. split; [exact G2|]. split.
        * intros h [<-|Ih] D; [apply find_declared in D as (f' & E'); congruence|now apply M2].
        * intros x Ix Nx. destruct (C2 x Ix Nx) as [(h & A & B & Cc) D]. split; [|exact D]. exists h. split; [now right|auto]. }
  rewrite mark_live_unfold. destruct (existsb (beq (f_name f)) live) eqn:EM.
  - apply mem_iff in EM. exists live. split; [reflexivity|]. split; [apply incl_refl|]. split; [exact G|]. split; [exact EM|]. intros x A B. contradiction.
  - assert (NM: ~ In (f_name f) live) by (intros I; apply mem_iff in I; congruence). assert (G1: good (f_name f :: live)).
    { destruct G as [A B]. split; [constructor; auto|]. intros x [<-|I]; [now apply in_map|auto]. }
    pose proof (good_len _ G1) as LG. cbn in LG. destruct (R (f_refs f) (f_name f :: live) G1) as (L & E & Il & GL & M & C); [cbn; lia|]. rewrite E. exists L. split; [reflexivity|]. split; [intros x I; apply Il; now right|]. split; [exact GL|]. split; [apply Il; now left|].
    assert (RF: refs_of (f_name f) = f_refs f) by (unfold refs_of; now rewrite (find_fn_self f If)).
    intros x Ix Nx. destruct (in_dec_b x (f_name f :: live)) as [[<-|Y]|Y]; [|contradiction|].
    + split; [apply reach_refl|]. intros g A B. rewrite RF in A. now apply M.
    + destruct (C x Ix Y) as [(g & A & B & D) Cc]. split; [|exact Cc]. eapply reach_left; eauto. now rewrite RF.
Qed.
Lemma roots_ok fuel : forall l live, incl l fs -> good live -> (length fs < fuel)%nat ->
  (forall x, In x live -> closed_in live x /\ exists r, In r fs /\ f_root r = true /\ reach (f_name r) x) ->
  exists L, mark_roots fuel fs l live = Some L /\ incl live L /\ (forall r, In r l -> f_root r = true -> In (f_name r) L) /\ (forall x, In x L -> closed_in L x /\ exists r, In r fs /\ f_root r = true /\ reach (f_name r) x).
Proof.
  induction l as [|f l IH]; intros live IL G LE H; cbn [mark_roots]; [exists live; split; [reflexivity|]; split; [apply incl_refl|]; split; [intros r []|exact H]|].
  assert (If: In f fs) by (apply IL; now left). assert (IL': incl l fs) by (intros x X; apply IL; now right). destruct (f_root f) eqn:ER.
  - destruct (mark_ok fuel live f If G ltac:(lia)) as (L1 & E1 & I1 & G1 & M1 & C1). rewrite E1. destruct (IH L1 IL' G1 LE) as (L & E & I2 & M & C).
    { intros x X. destruct (in_dec_b x live) as [Y|Y]; [destruct (H x Y) as [A B]; split; [intros g P Q; apply I1; now apply A|exact B]|]. destruct (C1 x X Y) as [A B]. split; [exact B|]. exists f. auto. }
    rewrite E. exists L. split; [reflexivity|]. split; [eapply incl_tran; eauto|]. split; [|exact C]. intros r [<-|Ir] Rr; [now apply I2|now apply M].
  - destruct (IH live IL' G LE H) as (L & E & I2 & M & C). exists L. split; [exact E|]. split; [exact I2|]. split; [|exact C]. intros r [<-|Ir] Rr; [congruence|now apply M].
Qed.
Lemma roots_all : exists L, mark_roots (S (S (length fs))) fs fs [] = Some L /\ (forall r, In r fs -> f_root r = true -> In (f_name r) L) /\ (forall x, In x L -> closed_in L x /\ exists r, In r fs /\ f_root r = true /\ reach (f_name r) x).
Proof.
  destruct (roots_ok (S (S (length fs))) fs [] (incl_refl _)) as (L & E & _ & M & C); [split; [constructor|intros x []]|lia|intros x []|]. eauto.
Qed.
End Live.

(** The table of functions after the events [pre] *)
Definition fspec (pre : list fev) (f : fobj) : Prop :=
  (exists st il ext, first_decl pre (f_name f) = Some (st, il, ext) /\ f_inline f = il /\ f_static f = st || (il && negb ext))
  /\ (f_def f = true <-> is_defined pre (f_name f))
  /\ (internal_inline pre (f_name f) = false -> f_root f = true)
  /\ (f_root f = true -> internal_inline pre (f_name f) = false \/ In (FInit (f_name f)) pre)
  /\ (forall g, names pre (f_name f) g -> In g (f_refs f))
  /\ (forall g, In g (f_refs f) -> (names pre (f_name f) g \/ In (FInit g) pre)).
Lemma first_decl_app l1 l2 x : first_decl (l1 ++ l2) x = match first_decl l1 x with Some y => Some y | None => first_decl l2 x end.
Proof. induction l1 as [|[a s i e b|a] l1 IH]; cbn [app first_decl]; auto. destruct (beq a x); auto. Qed.
Lemma ii_app l1 l2 x y : first_decl l1 x = Some y -> internal_inline (l1 ++ l2) x = internal_inline l1 x.
Proof. intros H. unfold internal_inline. now rewrite first_decl_app, H. Qed.
Definition ev_names (e : fev) (f g : bytes) : Prop := match e with FDecl n _ _ _ (Some refs) => n = f /\ In g refs | _ => False end.
Definition ev_defines (e : fev) (f : bytes) : Prop := match e with FDecl n _ _ _ (Some refs) => n = f | _ => False end.
Lemma names_snoc l e f g : names (l ++ [e]) f g <-> names l f g \/ ev_names e f g.
Proof.
  unfold names. split.
  - intros (s & i & x & r & A & B). apply in_app_or in A as [A|[A|[]]]; [left; eauto 7|right]. subst e. cbn. auto.
  - intros [(s & i & x & r & A & B)|H]; [exists s, i, x, r; split; [apply in_or_app; now left|exact B]|]. destruct e as [n s i x [r|]|]; cbn in H; try contradiction. destruct H as [<- B]. exists s, i, x, r. split; [apply in_or_app; right; now left|exact B].
Qed.
Lemma defined_snoc l e f : is_defined (l ++ [e]) f <-> is_defined l f \/ ev_defines e f.
Proof.
  unfold is_defined. split.
  - intros (s & i & x & r & A). apply in_app_or in A as [A|[A|[]]]; [left; eauto 7|right]. subst e. cbn. auto.
  - intros [(s & i & x & r & A)|H]; [exists s, i, x, r; apply in_or_app; now left|]. destruct e as [n s i x [r|]|]; cbn in H; try contradiction. subst. exists s, i, x, r. apply in_or_app; right; now left.
Qed.
Lemma init_snoc l e f : In (FInit f) (l ++ [e]) <-> In (FInit f) l \/ e = FInit f.
Proof. rewrite in_app_iff. cbn. tauto. Qed.
Record tbl (pre : list fev) (cur : option bytes) (fs : list fobj) : Prop := {
  t_nodup : NoDup (map f_name fs);
  t_spec : forall f, In f fs -> fspec pre f;
  t_decl : forall x y, first_decl pre x = Some y -> declared_fn fs x;
  t_names : forall f g, names pre f g -> declared_fn fs g;
  t_init : forall g, In (FInit g) pre -> declared_fn fs g }.
Lemma upd_fn_names x g fs : (forall f, f_name (g f) = f_name f) -> map f_name (upd_fn x g fs) = map f_name fs.
Proof. intros H. unfold upd_fn. rewrite map_map. apply map_ext. intros f. destruct (beq (f_name f) x); auto. Qed.
Lemma upd_fn_in x g fs f' : In f' (upd_fn x g fs) -> exists f, In f fs /\ f' = if beq (f_name f) x then g f else f.
Proof. intros I. apply in_map_iff in I as (f & <- & I). eauto. Qed.
Lemma first_decl_defined l f : is_defined l f -> exists y, first_decl l f = Some y.
Proof.
  intros (s & i & x & r & A). induction l as [|e l IH]; [contradiction|]. destruct A as [->|A]; cbn [first_decl]; [rewrite beq_refl; eauto|]. destruct e as [n s' i' x' b|n]; [|auto]. destruct (beq n f); eauto.
Qed.
Lemma names_defined l f g : names l f g -> is_defined l f. Proof. intros (s & i & x & r & A & _). exists s, i, x, r. exact A. Qed.
Lemma ii_first pre x s i e : first_decl pre x = Some (s, i, e) -> internal_inline pre x = (s || (i && negb e)) && i.
Proof. intros H. unfold internal_inline. rewrite H. destruct s, i, e; reflexivity. Qed.

Lemma tbl_declare pre cur fs x st il ext isdef fs' : tbl pre cur fs -> declare_fn x st il ext isdef fs = Some fs' ->
  tbl (pre ++ [FDecl x st il ext (if isdef then Some [] else None)]) (if isdef then Some x else cur) fs' /\ declared_fn fs' x.
Proof.
  intros T. set (e := FDecl x st il ext (if isdef then Some [] else None)). destruct T as [ND SP TD TN TI]. unfold declare_fn.
  assert (EN: forall f g, ~ ev_names e f g) by (intros f g; unfold e; destruct isdef; cbn; tauto). assert (EI: forall g, e <> FInit g) by (intros; discriminate).
  assert (ED: forall f, ev_defines e f <-> x = f /\ isdef = true) by (intros f; unfold e; destruct isdef; cbn; intuition congruence).
  destruct (find_fn fs x) as [f0|] eqn:EF.
  - destruct (f_def f0 && isdef) eqn:C1; [discriminate|]. destruct (negb (f_static f0) && st) eqn:C2; [discriminate|]. intros H. injection H as <-.
    set (u := fun f => FObj (f_name f) (f_static f) (f_inline f) (f_def f || isdef) (negb (f_static f && f_inline f)) (f_refs f)).
    assert (MN: map f_name (upd_fn x u fs) = map f_name fs) by (apply upd_fn_names; reflexivity).
    assert (DX: declared_fn fs x) by (apply find_declared; eauto). split; [|unfold declared_fn; now rewrite MN]. constructor.
    + now rewrite MN.
    + intros f' I. apply upd_fn_in in I as (f & I & ->). destruct (SP f I) as ((s0 & i0 & e0 & F1 & F2 & F3) & D & R1 & R2 & N1 & N2). pose proof (ii_first _ _ _ _ _ F1) as II. rewrite <- F3, <- F2 in II.
      assert (FD: first_decl (pre ++ [e]) (f_name f) = Some (s0, i0, e0)) by (now rewrite first_decl_app, F1). assert (IA: internal_inline (pre ++ [e]) (f_name f) = internal_inline pre (f_name f)) by (eapply ii_app; eauto).
      destruct (beq (f_name f) x) eqn:B.
      * apply beq_eq in B. unfold u. unfold fspec. cbn [f_name f_inline f_static f_def f_root f_refs]. split; [exists s0, i0, e0; auto|]. split; [rewrite orb_true_iff, defined_snoc, ED, D; intuition auto|]. rewrite IA, II. split; [intros ->; reflexivity|]. split; [intros Q; left; now apply negb_true_iff in Q|]. split; intros g; rewrite names_snoc; [intros [Q|Q]; [auto|destruct (EN _ _ Q)]|]. intros Q. rewrite init_snoc. destruct (N2 g Q); auto.
      * assert (B': x <> f_name f) by (intros ->; now rewrite beq_refl in B). unfold fspec. split; [exists s0, i0, e0; auto|]. split; [rewrite defined_snoc, ED, D; intuition auto|]. rewrite IA. split; [exact R1|]. split; [intros Q; rewrite init_snoc; destruct (R2 Q); auto|]. split; intros g; rewrite names_snoc; [intros [Q|Q]; [auto|destruct (EN _ _ Q)]|]. intros Q. rewrite init_snoc. destruct (N2 g Q); auto.
    + intros y z. unfold declared_fn. rewrite MN, first_decl_app. destruct (first_decl pre y) eqn:FY; [intros _; eapply TD; eauto|]. unfold e. cbn [first_decl]. destruct (beq x y) eqn:B; [|discriminate]. apply beq_eq in B. subst y. intros _. exact DX.
    + intros f g Q. unfold declared_fn. rewrite MN. apply names_snoc in Q as [Q|Q]; [eapply TN; eauto|destruct (EN _ _ Q)].
    + intros g Q. unfold declared_fn. rewrite MN. apply init_snoc in Q as [Q|Q]; [eapply TI; eauto|destruct (EI _ Q)].
  - intros H. injection H as <-.
    assert (NX: ~ declared_fn fs x) by (intros Q; apply (find_declared fs ND) in Q as (f & Q); congruence). assert (FX: first_decl pre x = None) by (destruct (first_decl pre x) eqn:Q; [destruct (NX (TD _ _ Q))|reflexivity]).
    set (s := st || (il && negb ext)). split; [|now left]. constructor.
    + cbn [map f_name]. constructor; auto.
    + intros f [<-|I].
      * assert (FD: first_decl (pre ++ [e]) x = Some (st, il, ext)) by (rewrite first_decl_app, FX; unfold e; cbn [first_decl]; now rewrite beq_refl). pose proof (ii_first _ _ _ _ _ FD) as II. fold s in II. unfold fspec. cbn [f_name f_inline f_static f_def f_root f_refs].
        split; [exists st, il, ext; auto|]. split; [|rewrite II; split; [intros ->; reflexivity|]; split; [intros Q; left; now apply negb_true_iff in Q|split; [|intros g []]]].
        -- rewrite defined_snoc, ED. split; [intros ->; auto|]. intros [Q|[_ Q]]; [|exact Q]. exfalso. destruct (first_decl_defined _ _ Q) as (y & Y). congruence.
        -- intros g Q. apply names_snoc in Q as [Q|Q]; [|destruct (EN _ _ Q)]. apply names_defined, first_decl_defined in Q as (y & Y). congruence.
      * destruct (SP f I) as ((s0 & i0 & e0 & F1 & F2 & F3) & D & R1 & R2 & N1 & N2). assert (B': x <> f_name f) by (intros ->; apply NX; now apply in_map). assert (IA: internal_inline (pre ++ [e]) (f_name f) = internal_inline pre (f_name f)) by (eapply ii_app; eauto).
        unfold fspec. split; [exists s0, i0, e0; split; [now rewrite first_decl_app, F1|auto]|]. split; [rewrite defined_snoc, ED, D; intuition auto|]. rewrite IA. split; [exact R1|]. split; [intros Q; rewrite init_snoc; destruct (R2 Q); auto|]. split; intros g; rewrite names_snoc; [intros [Q|Q]; [auto|destruct (EN _ _ Q)]|]. intros Q. rewrite init_snoc. destruct (N2 g Q); auto.
    + intros y z. rewrite first_decl_app. destruct (first_decl pre y) eqn:FY; [intros _; right; eapply TD; eauto|]. unfold e. cbn [first_decl]. destruct (beq x y) eqn:B; [|discriminate]. apply beq_eq in B. subst y. intros _. now left.
    + intros f g Q. right. apply names_snoc in Q as [Q|Q]; [eapply TN; eauto|destruct (EN _ _ Q)].
    + intros g Q. right. apply init_snoc in Q as [Q|Q]; [eapply TI; eauto|destruct (EI _ Q)].
Qed.
Lemma tbl_ref pre x st il ext d cur m fs fs' : tbl (pre ++ [FDecl x st il ext (Some d)]) cur fs -> name_fn m (Some x) fs = Some fs' -> tbl (pre ++ [FDecl x st il ext (Some (d ++ [m]))]) cur fs'.
Proof.
  intros [ND SP TD TN TI]. unfold name_fn. destruct (find_fn fs m) as [fm|] eqn:EM; [|discriminate]. intros H. injection H as <-. assert (DM: declared_fn fs m) by (apply find_declared; eauto).
  set (u := fun f => FObj (f_name f) (f_static f) (f_inline f) (f_def f) (f_root f) (f_refs f ++ [m])). set (e := FDecl x st il ext (Some d)) in *. set (e' := FDecl x st il ext (Some (d ++ [m]))).
  assert (MN: map f_name (upd_fn x u fs) = map f_name fs) by (apply upd_fn_names; reflexivity).
  assert (FDE: forall y, first_decl (pre ++ [e']) y = first_decl (pre ++ [e]) y) by (intros y; now rewrite !first_decl_app).
  assert (IIE: forall y, internal_inline (pre ++ [e']) y = internal_inline (pre ++ [e]) y) by (intros y; unfold internal_inline; now rewrite FDE).
  assert (DE: forall y, is_defined (pre ++ [e']) y <-> is_defined (pre ++ [e]) y) by (intros y; rewrite !defined_snoc; reflexivity).
  assert (NE: forall f g, names (pre ++ [e']) f g <-> names (pre ++ [e]) f g \/ (x = f /\ g = m)) by (intros f g; rewrite !names_snoc; unfold e, e'; cbn [ev_names]; rewrite in_app_iff; cbn [In]; intuition auto).
  assert (IE: forall g, In (FInit g) (pre ++ [e']) <-> In (FInit g) (pre ++ [e])) by (intros g; rewrite !init_snoc; unfold e, e'; intuition discriminate).
  constructor.
  - now rewrite MN.
  - intros f' I. apply upd_fn_in in I as (f & I & ->). destruct (SP f I) as (F & D & R1 & R2 & N1 & N2). destruct (beq (f_name f) x) eqn:B.
    + apply beq_eq in B. unfold u, fspec. cbn [f_name f_inline f_static f_def f_root f_refs]. rewrite FDE, IIE, DE, IE. split; [exact F|]. split; [exact D|]. split; [exact R1|]. split; [exact R2|]. split; intros g; rewrite NE, in_app_iff; cbn [In].
      * intros [Q|[_ ->]]; auto.
      * rewrite IE. intros [Q|[<-|[]]]; [destruct (N2 g Q); auto|auto].
    + assert (B': x <> f_name f) by (intros ->; now rewrite beq_refl in B). unfold fspec. rewrite FDE, IIE, DE, IE. split; [exact F|]. split; [exact D|]. split; [exact R1|]. split; [exact R2|]. split; intros g; rewrite NE; [intros [Q|[Q _]]; [auto|contradiction]|]. rewrite IE. intros Q. destruct (N2 g Q); auto.
  - intros y z. rewrite FDE. unfold declared_fn. rewrite MN. apply TD.
  - intros f g. rewrite NE. unfold declared_fn. rewrite MN. intros [Q|[_ ->]]; [eapply TN; eauto|exact DM].
  - intros g. rewrite IE. unfold declared_fn. rewrite MN. apply TI.
Qed.
Lemma tbl_refs pre x st il ext cur : forall l d fs fs', tbl (pre ++ [FDecl x st il ext (Some d)]) cur fs -> name_fns l (Some x) fs = Some fs' -> tbl (pre ++ [FDecl x st il ext (Some (d ++ l))]) cur fs'.
Proof.
  induction l as [|m l IH]; intros d fs fs' T H; cbn [name_fns] in H; [injection H as <-; now rewrite app_nil_r|]. destruct (name_fn m (Some x) fs) as [fs1|] eqn:E; [|discriminate]. replace (d ++ m :: l) with ((d ++ [m]) ++ l) by (now rewrite <- app_assoc). eapply IH; [|exact H]. eapply tbl_ref; eauto.
Qed.
Lemma tbl_init pre cur fs m fs' : tbl pre cur fs -> name_fn m cur fs = Some fs' -> tbl (pre ++ [FInit m]) cur fs'.
Proof.
  intros [ND SP TD TN TI]. unfold name_fn. destruct (find_fn fs m) as [fm|] eqn:EM; [|discriminate]. intros H. assert (DM: declared_fn fs m) by (apply find_declared; eauto). set (e := FInit m).
  assert (EN: forall f g, names (pre ++ [e]) f g <-> names pre f g) by (intros f g; rewrite names_snoc; unfold e; cbn; tauto). assert (ED: forall f, is_defined (pre ++ [e]) f <-> is_defined pre f) by (intros f; rewrite defined_snoc; unfold e; cbn; tauto).
  assert (EF: forall y, first_decl (pre ++ [e]) y = first_decl pre y) by (intros y; rewrite first_decl_app; destruct (first_decl pre y); reflexivity). assert (EII: forall y, internal_inline (pre ++ [e]) y = internal_inline pre y) by (intros y; unfold internal_inline; now rewrite EF).
  assert (EI: forall g, In (FInit g) (pre ++ [e]) <-> In (FInit g) pre \/ g = m) by (intros g; rewrite init_snoc; unfold e; intuition congruence).
  assert (G: exists x u, fs' = upd_fn x u fs /\ (forall f, f_name (u f) = f_name f) /\ (forall f, In f fs -> f_name f = x -> fspec (pre ++ [e]) (u f))).
  { destruct cur as [c|]; injection H as <-; eexists _, _; (split; [reflexivity|]); (split; [reflexivity|]); intros f I Q; destruct (SP f I) as (F & D & R1 & R2 & N1 & N2); unfold fspec; cbn [f_name f_inline f_static f_def f_root f_refs]; rewrite EF, EII, ED, EI.
    - split; [exact F|]. split; [exact D|]. split; [exact R1|]. split; [intros Z; destruct (R2 Z); auto|]. split; intros g; rewrite EN, in_app_iff; [auto|]. rewrite EI. cbn [In]. intros [Z|[<-|[]]]; [destruct (N2 g Z); auto|auto].
    - split; [exact F|]. split; [exact D|]. split; [reflexivity|]. split; [auto|]. split; intros g; rewrite EN; [auto|]. rewrite EI. intros Z. destruct (N2 g Z); auto. }
  destruct G as (x & u & -> & UN & US). assert (MN: map f_name (upd_fn x u fs) = map f_name fs) by (now apply upd_fn_names). constructor.
  - now rewrite MN.
  - intros f' I. apply upd_fn_in in I as (f & I & ->). destruct (beq (f_name f) x) eqn:B; [apply beq_eq in B; auto|]. destruct (SP f I) as (F & D & R1 & R2 & N1 & N2). unfold fspec. rewrite EF, EII, ED, EI. split; [exact F|]. split; [exact D|]. split; [exact R1|]. split; [intros Z; destruct (R2 Z); auto|]. split; intros g; rewrite EN; [auto|]. rewrite EI. intros Z. destruct (N2 g Z); auto.
  - intros y z. rewrite EF. unfold declared_fn. rewrite MN. apply TD.
  - intros f g. rewrite EN. unfold declared_fn. rewrite MN. apply TN.
  - intros g. rewrite EI. unfold declared_fn. rewrite MN. intros [Q| ->]; [exact (TI g Q)|exact DM].
Qed.
Lemma tbl_all : forall l pre cur fs fs', tbl pre cur fs -> declare_all l cur fs = Some fs' -> exists cur', tbl (pre ++ l) cur' fs'.
Proof.
  induction l as [|e l IH]; intros pre cur fs fs' T H; [cbn in H; injection H as <-; rewrite app_nil_r; eauto|]. replace (pre ++ e :: l) with ((pre ++ [e]) ++ l) by (now rewrite <- app_assoc). destruct e as [x st il ext [r|]|m]; cbn [declare_all] in H.
  - destruct (declare_fn x st il ext true fs) as [fs1|] eqn:E; [|discriminate]. destruct (tbl_declare _ _ _ _ _ _ _ _ _ T E) as [T1 _]. destruct (name_fns r (Some x) fs1) as [fs2|] eqn:E2; [|discriminate]. eapply IH; [|exact H]. exact (tbl_refs _ _ _ _ _ _ r [] _ _ T1 E2).
  - destruct (declare_fn x st il ext false fs) as [fs1|] eqn:E; [|discriminate]. destruct (tbl_declare _ _ _ _ _ _ _ _ _ T E) as [T1 _]. eapply IH; eauto.
  - destruct (name_fn m cur fs) as [fs1|] eqn:E; [|discriminate]. eapply IH; [|exact H]. eapply tbl_init; eauto.
Qed.
Lemma tbl_nil : tbl [] None [].
Proof. constructor; [constructor|intros f []|discriminate|intros f g (s & i & x & r & [] & _)|intros g []]. Qed.

Section Emit.
Variables (l : list fev) (fs : list fobj).
Hypothesis DA : declare_all l None [] = Some fs.
Lemma tbl_l : exists cur, tbl l cur fs. Proof. exact (tbl_all l [] None [] fs tbl_nil DA). Qed.
Lemma emitted_iff : exists em L, emitted l = Some em /\ mark_roots (S (S (length fs))) fs fs [] = Some L /\ (forall x, In x em <-> is_defined l x /\ In x L) /\
  (forall r, In r fs -> f_root r = true -> In (f_name r) L) /\ (forall x, In x L -> closed_in fs L x /\ exists r, In r fs /\ f_root r = true /\ reach fs (f_name r) x).
Proof.
  destruct tbl_l as (cur & T). destruct (roots_all fs (t_nodup _ _ _ T)) as (L & E & M & C). unfold emitted. rewrite DA, E. eexists _, L. split; [reflexivity|]. split; [reflexivity|]. split; [|auto].
  intros x. rewrite in_map_iff. split.
  - intros (f & <- & I). apply filter_In in I as [I Q]. apply andb_true_iff in Q as [Q1 Q2]. destruct (t_spec _ _ _ T f I) as (_ & D & _). split; [now apply D|]. now apply mem_iff in Q2.
  - intros [D I]. destruct (first_decl_defined _ _ D) as (y & Y). apply (t_decl _ _ _ T) in Y. apply in_map_iff in Y as (f & <- & Y). exists f. split; [reflexivity|]. apply filter_In. split; [exact Y|]. apply andb_true_iff. split; [now apply (t_spec _ _ _ T f Y)|now apply mem_iff].
Qed.
Lemma refs_of_in cur x g : tbl l cur fs -> In g (refs_of fs x) -> names l x g \/ In (FInit g) l.
Proof. intros T I. unfold refs_of in I. destruct (find_fn fs x) as [f|] eqn:E; [|contradiction]. apply find_fn_in in E as [A <-]. destruct (t_spec _ _ _ T f A) as (_ & _ & _ & _ & _ & N). auto. Qed.
Lemma in_refs_of cur x g : tbl l cur fs -> names l x g -> In g (refs_of fs x).
Proof.
  intros T N. destruct (first_decl_defined _ _ (names_defined _ _ _ N)) as (y & Y). apply (t_decl _ _ _ T) in Y. apply in_map_iff in Y as (f & <- & Y). unfold refs_of. rewrite (find_fn_self fs (t_nodup _ _ _ T) f Y). destruct (t_spec _ _ _ T f Y) as (_ & _ & _ & _ & N1 & _). auto.
Qed.
Lemma live_needed cur r x : tbl l cur fs -> In r fs -> f_root r = true -> reach fs (f_name r) x -> needed l x.
Proof.
  intros T I R H. induction H as [|y g H IH Q D].
  - destruct (t_spec _ _ _ T r I) as ((s & i & e & F & _) & _ & _ & R2 & _). destruct (R2 R) as [Z|Z]; [eapply needed_root; eauto|now apply needed_init].
  - destruct (refs_of_in _ _ _ T Q) as [Z|Z]; [eapply needed_ref; eauto|now apply needed_init].
Qed.
Lemma needed_live cur L x : tbl l cur fs -> (forall n, In (FInit n) l -> internal_inline l n = false) ->
  (forall r, In r fs -> f_root r = true -> In (f_name r) L) -> (forall x, In x L -> closed_in fs L x) -> needed l x -> In x L.
Proof.
  intros T HI M C N.
  assert (RT: forall f, declared_fn fs f -> internal_inline l f = false -> In f L).
  { intros f D II. apply in_map_iff in D as (o & <- & D). apply M; [exact D|]. destruct (t_spec _ _ _ T o D) as (_ & _ & R1 & _). auto. }
  induction N as [f y F II|f I|f g N IH Q].
  - apply RT; [eapply (t_decl _ _ _ T); eauto|exact II].
  - apply RT; [eapply (t_init _ _ _ T); eauto|auto].
  - eapply (C f IH); [eapply in_refs_of; eauto|eapply (t_names _ _ _ T); eauto].
Qed.
End Emit.
