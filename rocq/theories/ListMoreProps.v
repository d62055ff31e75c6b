(** C66, two further parts: elements in excess of those of an array are skipped; a designator
    finds a member of a structure inside structures without a name. *)
From Verif Require Import Base TypeModel IntArith NodeModel InitModel ListModel ListSpec ListProofs ListProps.
From Coq Require Import ZifyBool ZifyNat.
Local Notation length := List.length.

(** *** Excess elements (a violation of p2, accepted with a warning by other compilers) *)
(** an expression or string, in any number of braces *)
Inductive extra : list itok -> Prop :=
| X_expr e : extra [KExpr e]
| X_str k vs e : extra [KStr k vs e]
| X_brace l : extra l -> extra (KLb :: l ++ [KRb]).
Fixpoint joined (l : list (list itok)) : list itok := match l with [] => [] | x :: l => KComma :: x ++ joined l end.
Definition listed (l : list (list itok)) : list itok := match l with [] => [] | x :: l => x ++ joined l end.

Lemma skip_extra l : extra l -> forall r, skip_excess (l ++ r) = Some r.
Proof.
  induction 1 as [e|k vs e|l X IH]; intros r; [reflexivity|reflexivity|]. cbn [app skip_excess]. rewrite <- app_assoc. rewrite IH. reflexivity.
Qed.
Lemma extra_starts l r : extra l -> starts (l ++ r) /\ designated (l ++ r) = false.
Proof. destruct 1; split; cbn; trivial. Qed.
Lemma arr1_plain f b n c i first ts : consume_end ts = None -> forall r, (if first : bool then ts = r else ts = KComma :: r) -> designated r = false ->
  arr1 (S f) b n c i first ts = if (i <? n)%nat then match with_kid c i (fun k => init2 f b k r) with LOk (c, r) => arr1 f b n c (S i) false r | r => r end
    else match skip_excess r with Some r => arr1 f b n c (S i) false r | None => LErr end.
Proof.
  intros CE r E D. cbn [arr1]. rewrite CE. destruct first; subst ts; cbn iota beta; destruct r as [|[] r]; try discriminate D; reflexivity.
Qed.
Lemma arr1_extras b n c rest : forall xs i, Forall extra xs -> (n <= i)%nat -> forall f, (length xs < f)%nat -> arr1 f b n c i false (joined xs ++ KRb :: rest) = LOk (c, rest).
Proof.
  induction xs as [|x xs IH]; intros i F L f H; (destruct f as [|f]; [inversion H|]); cbn [joined app].
  - reflexivity.
  - inversion F as [|? ? X F']; subst. rewrite <- app_assoc. destruct (extra_starts x (joined xs ++ KRb :: rest) X) as [ST D]. destruct (starts_end _ ST) as (_ & _ & _ & CE).
    rewrite (arr1_plain f b n c i false _ CE _ eq_refl D). replace (i <? n)%nat with false by lia. rewrite (skip_extra x X). apply IH; [exact F'|lia|cbn in H; lia].
Qed.
Lemma arr1_values b n xs rest : Forall extra xs -> forall vs wss, Forall2 (fun v ws => fits b v = true /\ assigns v b = Some ws) vs wss ->
  forall done, (length done + length vs = n)%nat -> exists f0, forall f, (f0 <= f)%nat -> forall first e m, (first = true -> vs <> []) ->
    arr1 f b n (Init e m (done ++ repeat (blank b) (length vs))) (length done) first ((if first : bool then listed (map ini_toks vs ++ xs) else joined (map ini_toks vs ++ xs)) ++ KRb :: rest) =
    LOk (Init e m (done ++ map (A b) wss), rest).
Proof.
  intros FX. induction vs as [|v vs IH]; intros wss F2 done L; inversion F2 as [|? ws ? wss' [FT AS] F2']; subst.
  - exists (S (length xs)). intros f Hf first e m NE. destruct first; [destruct (NE eq_refl eq_refl)|]. cbn [map repeat app List.length]. rewrite !app_nil_r. apply arr1_extras; [exact FX|cbn; lia|exact Hf].
  - destruct (IH wss' F2' (done ++ [A b ws])) as [f1 P1]; [rewrite app_length; cbn in *; lia|].
    destruct (initializer_ok v b ws (joined (map ini_toks vs ++ xs) ++ KRb :: rest) FT AS) as [f2 P2].
    exists (S (f1 + f2)). intros f Hf first e m _. destruct f as [|f]; [lia|].
    destruct (ini_starts v (joined (map ini_toks vs ++ xs) ++ KRb :: rest)) as [ST D]. destruct (starts_end _ ST) as (_ & CE1 & _ & CE2).
    assert (T : forall X, X = (if first : bool then listed (map ini_toks (v :: vs) ++ xs) else joined (map ini_toks (v :: vs) ++ xs)) ++ KRb :: rest ->
      consume_end X = None /\ (if first then X = ini_toks v ++ joined (map ini_toks vs ++ xs) ++ KRb :: rest else X = KComma :: ini_toks v ++ joined (map ini_toks vs ++ xs) ++ KRb :: rest)).
    { intros X ->. destruct first; cbn [map app listed joined]; rewrite <- app_assoc; split; auto. }
    destruct (T _ eq_refl) as [CE EQ]. rewrite (arr1_plain f b _ _ _ first _ CE _ EQ D). replace (length done <? length done + length (v :: vs))%nat with true by (symmetry; apply Nat.ltb_lt; cbn [List.length]; lia).
    unfold with_kid. cbn [i_kids]. rewrite nth_error_app2 by lia. rewrite Nat.sub_diag. cbn [List.length repeat nth_error]. unfold initializer in P2. rewrite P2 by lia.
    cbn [set_kid]. rewrite set_nth_app. specialize (P1 f ltac:(lia) false e m ltac:(discriminate)). rewrite app_length in P1. cbn [List.length] in P1.
    rewrite <- !app_assoc in P1. cbn [app] in P1. replace (length done + 1)%nat with (S (length done)) in P1 by lia. replace (length done + S (length vs))%nat with (length done + length (v :: vs))%nat in P1 by reflexivity. exact P1.
Qed.
(** An array whose elements are all listed, and more: the elements have their values, the
    rest is skipped, up to the closing brace and no further. *)
Theorem C66_excess_partial : forall b vs wss xs rest, vs <> [] -> Forall2 (fun v ws => fits b v = true /\ assigns v b = Some ws) vs wss -> Forall extra xs ->
  exists f0 c, (forall fuel, (f0 <= fuel)%nat -> initializer fuel (NArr b (length vs)) (KLb :: listed (map ini_toks vs ++ xs) ++ KRb :: rest) = LOk (c, rest)) /\
    forall i ws, nth_error wss i = Some ws -> exists d, part c [i] = Some d /\ holds b d ws.
Proof.
  intros b vs wss xs rest NE F2 FX. destruct (arr1_values b (length vs) xs rest FX vs wss F2 [] eq_refl) as [f0 P].
  exists (S f0), (Init None None (map (A b) wss)). split.
  - intros [|f] Hf; [lia|]. unfold initializer. cbn [init2 blank]. exact (P f ltac:(lia) true None None (fun _ => NE)).
  - intros i ws H. exists (A b ws). cbn [part i_kids]. rewrite (map_nth_error (A b) i wss H). split; [reflexivity|]. apply A_holds.
    clear - F2 H. revert i H. induction F2 as [|v w vs wss [_ AS] F IH]; intros [|i] H; cbn in H; try discriminate; [injection H as ->; apply (assigns_facts v b ws AS)|exact (IH i H)].
Qed.
Print Assumptions C66_excess_partial.
(** int a[2] = { 1, 2, { { 3 } }, 4 } *)
Example C66_excess_nonvacuous : Forall2 (fun v ws => fits tint v = true /\ assigns v tint = Some ws) [VEx (num 1); VEx (num 2)] [[([], num 1)]; [([], num 2)]] /\
  Forall extra [KLb :: (KLb :: [KExpr (num 3)] ++ [KRb]) ++ [KRb]; [KExpr (num 4)]].
Proof. split; [repeat (constructor; [split; reflexivity|]); constructor|]. repeat constructor. Qed.

(** *** Members of structures without a name *)
(** the member named [x]: directly, or in a structure without a name *)
Inductive reaches (x : bytes) : mems -> list nat -> Prop :=
| R_here o bf t ms : reaches x (MCons (Some x) o bf t ms) [O]
| R_in o bf id z al inner ms p : reaches x inner p -> reaches x (MCons None o bf (NStruct id z al inner) ms) (O :: p)
| R_next n o bf t ms i p : reaches x ms (i :: p) -> reaches x (MCons n o bf t ms) (S i :: p).
Fixpoint names (ms : mems) : list bytes :=
  match ms with
  | MNil => []
  | MCons None _ _ (NStruct _ _ _ inner) ms => names inner ++ names ms
  | MCons None _ _ _ ms => names ms
  | MCons (Some y) _ _ _ ms => y :: names ms
  end.
(** every member without a name is a structure *)
Fixpoint structs_only (ms : mems) : bool :=
  match ms with
  | MNil => true
  | MCons None _ _ (NStruct _ _ _ inner) ms => structs_only inner && structs_only ms
  | MCons None _ _ _ _ => false
  | MCons (Some _) _ _ _ ms => structs_only ms
  end.

Lemma reach_in x : forall ms p, reaches x ms p -> structs_only ms = true -> In x (names ms).
Proof.
  induction 1 as [o bf t ms|o bf id z al inner ms p R IH|n o bf t ms i p R IH]; cbn [names structs_only]; intros H; [left; reflexivity|apply andb_prop in H; apply in_or_app; left; apply IH; apply H|].
  destruct n; [right; auto|]. destruct t; try discriminate H. apply andb_prop in H. apply in_or_app. right. apply IH. apply H.
Qed.
Lemma has_mem_in x : forall ms, structs_only ms = true -> (has_mem x ms = Some true /\ In x (names ms)) \/ (has_mem x ms = Some false /\ ~ In x (names ms)).
Proof.
  fix IH 1. intros [|n o bf t ms] H; [right; split; [reflexivity|intros []]|]. destruct n as [y|].
  - cbn [has_mem names structs_only] in *. destruct (list_eq_dec Z.eq_dec y x) as [->|N]; [left; split; [reflexivity|left; reflexivity]|].
    destruct (IH ms H) as [[E K]|[E K]]; [left|right]; (split; [exact E|]); [right; exact K|intros [Q|Q]; [exact (N Q)|exact (K Q)]].
  - destruct t as [|  |id z al inner|]; try discriminate H. cbn [structs_only] in H. apply andb_prop in H. destruct H as [H1 H2]. cbn [has_mem names has_member].
    destruct (IH inner H1) as [[E K]|[E K]]; rewrite E; [left; split; [reflexivity|apply in_or_app; left; exact K]|].
    destruct (IH ms H2) as [[E' K']|[E' K']]; [left|right]; (split; [exact E'|]); [apply in_or_app; right; exact K'|intros Q; apply in_app_or in Q; tauto].
Qed.
Lemma nodup_app_r {X} (a b : list X) : NoDup (a ++ b) -> NoDup a /\ NoDup b /\ forall x, In x a -> ~ In x b.
Proof.
  induction a as [|x a IH]; cbn; intros H; [split; [constructor|split; [exact H|tauto]]|]. inversion H as [|? ? N D]; subst. destruct (IH D) as (A1 & A2 & A3).
  split; [constructor; [intros Q; apply N; apply in_or_app; left; exact Q|exact A1]|]. split; [exact A2|]. intros y [->|Q]; [intros Q; apply N; apply in_or_app; right; exact Q|apply A3; exact Q].
Qed.
Lemma desig_reach x : forall ms p, reaches x ms p -> structs_only ms = true -> NoDup (names ms) -> forall k, exists i q, p = i :: q /\
  struct_desig x ms k = LOk ((k + i)%nat, is_nil q) /\
  (q <> [] -> exists id z al inner, m_nth ms i = Some (NStruct id z al inner) /\ reaches x inner q /\ structs_only inner = true /\ NoDup (names inner)).
Proof.
  induction 1 as [o bf t ms|o bf id z al inner ms p R IH|n o bf t ms i p R IH]; cbn [names structs_only struct_desig]; intros H N k.
  - exists O, []. destruct (list_eq_dec Z.eq_dec x x); [|congruence]. rewrite Nat.add_0_r. split; [reflexivity|]. split; [reflexivity|congruence].
  - apply andb_prop in H. destruct H as [H1 H2]. apply nodup_app_r in N. destruct N as (N1 & N2 & N3). exists O, p. split; [reflexivity|]. cbn [has_member].
    destruct (has_mem_in x inner H1) as [[E K]|[E K]]; [|destruct (K (reach_in _ _ _ R H1))]. rewrite E, Nat.add_0_r. assert (NP : p <> []) by (destruct R; discriminate).
    split; [destruct p; [congruence|reflexivity]|]. intros _. exists id, z, al, inner. cbn [m_nth]. auto.
  - destruct n as [y|].
    + inversion N as [|? ? NI ND]; subst. destruct (list_eq_dec Z.eq_dec y x) as [->|NE]; [destruct (NI (reach_in _ _ _ R H))|].
      destruct (IH H ND (S k)) as (j & q & EQ & E & D). injection EQ as -> ->. exists (S j), q. split; [reflexivity|]. rewrite E. split; [do 2 f_equal; lia|exact D].
    + destruct t as [| |id z al inner|]; try discriminate H. apply andb_prop in H. destruct H as [H1 H2]. apply nodup_app_r in N. destruct N as (N1 & N2 & N3). cbn [has_member].
      destruct (has_mem_in x inner H1) as [[E K]|[E K]]; [destruct (N3 x K (reach_in _ _ _ R H2))|]. rewrite E.
      destruct (IH H2 N2 (S k)) as (j & q & EQ & E' & D). injection EQ as -> ->. exists (S j), q. split; [reflexivity|]. rewrite E'. split; [do 2 f_equal; lia|exact D].
Qed.
Lemma is_nil_eq {X} (l : list X) : is_nil l = true -> l = []. Proof. destruct l; [reflexivity|discriminate]. Qed.
Lemma kid_blank t i ct F lw r : union t = false -> child t i = Some ct -> lw <> [] -> F (blank ct) = LOk (A ct lw, r) -> with_kid (blank t) i F = LOk (A t (under [i] lw), r).
Proof.
  intros U C N E. unfold with_kid. rewrite (blank_child t i ct C), E. do 2 f_equal. unfold A at 2. rewrite (wrs_child t i ct C lw (blank t) (blank ct) (blank_child t i ct C) N). rewrite (upd_plain _ _ _ _ U). reflexivity.
Qed.
Lemma under_ne p ws : ws <> [] -> under p ws <> []. Proof. destruct ws; [congruence|discriminate]. Qed.
Lemma last_under j q : forall l, last_at (under (j :: q) l) [] = None.
Proof.
  induction l as [|[w e] l IH]; [reflexivity|]. change (under (j :: q) ((w, e) :: l)) with (((j :: q) ++ w, e) :: under (j :: q) l). cbn [last_at]. rewrite IH. destruct (list_eq_dec Nat.eq_dec ((j :: q) ++ w) []); [discriminate|reflexivity].
Qed.
Section Deep.
Variables (x : bytes) (v : ini) (s : nty) (ws : writes) (rest : list itok).
Hypothesis FT : fits s v = true.
Hypothesis AS : assigns v s = Some ws.
Let ts := KDot x :: KEq :: ini_toks v ++ KRb :: rest.
Lemma kid_deep : forall p ms, reaches x ms p -> structs_only ms = true -> NoDup (names ms) -> forall id z al, sub (NStruct id z al ms) p = Some s ->
  exists i used f0, struct_desig x ms 0 = LOk (i, used) /\ forall f, (f0 <= f)%nat ->
    with_kid (blank (NStruct id z al ms)) i (fun k => match m_nth ms i with Some t => desig f t k (if used : bool then tl ts else ts) | None => LUb end) = LOk (A (NStruct id z al ms) (under p ws), KRb :: rest).
Proof.
  intros p. remember (length p) as l eqn:EL. revert p EL. induction l as [|l IH]; intros p EL ms R SO ND id z al SU; (destruct (desig_reach x ms p R SO ND 0) as (i & q & -> & SD & DEEP)); [discriminate EL|].
  assert (NW : ws <> []) by (apply (assigns_facts v s ws AS)). injection EL as EL. change (i :: q) with ([i] ++ q) in SU. rewrite sub_app in SU. cbn [sub child] in SU. destruct (m_nth ms i) as [ct|] eqn:MN; [|discriminate].
  exists i, (is_nil q). destruct q as [|j q].
  - injection SU as ->. destruct (initializer_ok v s ws (KRb :: rest) FT AS) as [f0 P]. exists (S f0). split; [exact SD|]. intros [|f] Hf; [lia|].
    apply (kid_blank (NStruct id z al ms) i s); [reflexivity|exact MN|exact NW|]. rewrite MN. cbn [is_nil tl ts]. unfold ts. cbn [tl desig]. apply P. lia.
  - destruct (DEEP ltac:(discriminate)) as (id' & z' & al' & inner & E & R' & SO' & ND'). injection E as ->.
    destruct (IH (j :: q) EL inner R' SO' ND' id' z' al' SU) as (i' & used' & f0 & SD' & P). exists (S (S f0)). split; [exact SD|]. intros [|f] Hf; [lia|].
    change (i :: j :: q) with ([i] ++ (j :: q)). rewrite <- under_under. apply (kid_blank (NStruct id z al ms) i (NStruct id' z' al' inner)); [reflexivity|exact MN|apply under_ne; exact NW|]. rewrite MN.
    cbn [is_nil]. unfold ts at 1. cbn [desig]. fold ts. rewrite SD'. change (KEq :: ini_toks v ++ KRb :: rest) with (tl ts). rewrite P by lia. destruct f as [|f]; [lia|]. cbn [str2].
    assert (NE : i_expr (A (NStruct id' z' al' inner) (under (j :: q) ws)) = None).
    { destruct (A_holds (NStruct id' z' al' inner) (under (j :: q) ws)) with (p := @nil nat) (s := NStruct id' z' al' inner) as (d & D1 & D2 & _); [|reflexivity|cbn in D1; injection D1 as <-; rewrite D2; apply last_under].
      apply Forall_forall; intros [w e] IN; unfold under in IN; apply in_map_iff in IN; destruct IN as ([w' e'] & Q & IN); injection Q as <- <-; rewrite (app_comm_cons q w' j), sub_app, SU; destruct (assigns_facts v s ws AS) as [_ F]; rewrite Forall_forall in F; exact (F _ IN). }
    assert (KEEP : set_expr (A (NStruct id' z' al' inner) (under (j :: q) ws)) None = A (NStruct id' z' al' inner) (under (j :: q) ws)).
    { destruct (A (NStruct id' z' al' inner) (under (j :: q) ws)) as [e0 m0 c0]; cbn in NE; subst e0; reflexivity. }
    rewrite KEEP. destruct (m_nth inner (S i')); reflexivity.
Qed.
End Deep.
(** { .x = v }, x a member of the structure or of one without a name in it, at any depth:
    the part of that name is initialized, and nothing else. *)
Theorem C66_anonymous_partial : forall x ms p id z al s v ws rest, reaches x ms p -> structs_only ms = true -> NoDup (names ms) ->
  sub (NStruct id z al ms) p = Some s -> fits s v = true -> assigns v s = Some ws ->
  exists f0 c, (forall fuel, (f0 <= fuel)%nat -> initializer fuel (NStruct id z al ms) (KLb :: KDot x :: KEq :: ini_toks v ++ KRb :: rest) = LOk (c, rest)) /\
    holds (NStruct id z al ms) c (under p ws).
Proof.
  intros x ms p id z al s v ws rest R SO ND SU FT AS. destruct (kid_deep x v s ws rest FT AS p ms R SO ND id z al SU) as (i & used & f0 & SD & P).
  exists (S (S (S f0))), (A (NStruct id z al ms) (under p ws)). split.
  - intros [|[|[|f]]] Hf; try lia. unfold initializer. cbn [init2 str1 consume_end]. rewrite SD. cbn [tl] in P. rewrite P by lia. reflexivity.
  - apply A_holds. apply Forall_forall. intros [w e] IN. unfold under in IN. apply in_map_iff in IN. destruct IN as ([w' e'] & Q & IN). injection Q as <- <-. rewrite sub_app, SU. destruct (assigns_facts v s ws AS) as [_ F]. rewrite Forall_forall in F. exact (F _ IN).
Qed.
Print Assumptions C66_anonymous_partial.
(** struct { struct { struct { int a; }; int b; }; int c; } = { .b = 7 } *)
Definition ex_inner : mems := MCons None 0 None (NStruct 12 4 4 (MCons (n_ "a") 0 None tint MNil)) (MCons (n_ "b") 4 None tint MNil).
Definition ex_outer : mems := MCons None 0 None (NStruct 11 8 4 ex_inner) (MCons (n_ "c") 8 None tint MNil).
Example C66_anonymous_nonvacuous : reaches (bs "b") ex_outer [0; 1]%nat /\ structs_only ex_outer = true /\ NoDup (names ex_outer) /\ sub (NStruct 10 12 4 ex_outer) [0; 1]%nat = Some tint /\
  assigns (VEx (num 7)) tint = Some [([], num 7)].
Proof. split; [apply R_in, R_next, R_here|]. split; [reflexivity|]. split; [|split; reflexivity]. repeat constructor; cbn; intuition discriminate. Qed.
