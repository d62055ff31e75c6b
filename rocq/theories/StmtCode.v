(** From the source of a function body to its code; labels of the code. *)
From Verif Require Import Base TypeModel IntArith NodeModel NodeProofs ValSpec NodeSpec RvSpec GenModel GenSpec RvProofs GenArith GenBits GenRun GenProofs GenSim GenShape StmtSpec StmtModel StmtTree StmtProofs.
From Coq Require Import ZifyBool ZifyNat.
Local Notation length := List.length.

Ltac pinv H := repeat match type of H with
  | (match parse ?a ?b ?c ?d ?e ?f ?g with Some _ => _ | None => _ end) = Some _ => let P := fresh "P" in destruct (parse a b c d e f g) as [[? ?]|] eqn:P; [|discriminate H]
  | (if ?b then None else _) = Some _ => let B := fresh "B" in destruct b eqn:B; [discriminate H|]
  | (match ?o with Some _ => _ | None => _ end) = Some _ => let B := fresh "B" in destruct o eqn:B; [|discriminate H]
  end.

Section Parse.
Variables (rt : ty) (uses : node -> nat).
Lemma tick_uniq e st : p_uniq st <= p_uniq (tick uses e st). Proof. cbn. lia. Qed.
Lemma tick_opt_uniq e st : p_uniq st <= p_uniq (tick_opt uses e st). Proof. destruct e; cbn; lia. Qed.
Lemma ticks_uniq l : forall st, p_uniq st <= p_uniq (fold_left (fun st e => tick uses e st) l st).
Proof. induction l as [|e l IH]; intros st; cbn [fold_left]; [lia|]. etransitivity; [apply (tick_uniq e)|apply IH]. Qed.
Lemma ticks_labels l : forall st, p_labels (fold_left (fun st e => tick uses e st) l st) = p_labels st. Proof. induction l as [|e l IH]; intros st; cbn [fold_left]; [auto|]. now rewrite IH. Qed.
Lemma ticks_cases l : forall st, p_cases (fold_left (fun st e => tick uses e st) l st) = p_cases st. Proof. induction l as [|e l IH]; intros st; cbn [fold_left]; [auto|]. now rewrite IH. Qed.
Lemma ticks_dflt l : forall st, p_dflt (fold_left (fun st e => tick uses e st) l st) = p_dflt st. Proof. induction l as [|e l IH]; intros st; cbn [fold_left]; [auto|]. now rewrite IH. Qed.
Lemma tick_opt_same e st : p_labels (tick_opt uses e st) = p_labels st /\ p_cases (tick_opt uses e st) = p_cases st /\ p_dflt (tick_opt uses e st) = p_dflt st. Proof. destruct e; auto. Qed.

Lemma parse_labels s : forall brk cont sw st x st', parse rt uses brk cont sw s st = Some (x, st') -> exists L, p_labels st' = L ++ p_labels st /\ map fst L = user_labels s.
Proof.
  induction s as [ |e|a IHa b IHb|e a IHa b IHb|e a IHa|l h a IHa|a IHa|init e inc a IHa|e a IHa|a IHa e|l| | |l a IHa|e]; intros brk cont sw st x st' P; cbn [parse user_labels] in *; pinv P; try (injection P as <- <-); cbn [p_labels next tick] in *.
  all: try (exists []; split; reflexivity).
  - destruct (IHa _ _ _ _ _ _ P0) as (L1 & E1 & F1), (IHb _ _ _ _ _ _ P1) as (L2 & E2 & F2). exists (L2 ++ L1). rewrite E2, E1, app_assoc, map_app, F1, F2. auto.
  - destruct (IHa _ _ _ _ _ _ P0) as (L1 & E1 & F1), (IHb _ _ _ _ _ _ P1) as (L2 & E2 & F2). exists (L2 ++ L1). rewrite E2, E1, app_assoc, map_app, F1, F2. auto.
  - destruct (IHa _ _ _ _ _ _ P0) as (L1 & E1 & F1). eauto.
  - destruct (IHa _ _ _ _ _ _ P0) as (L1 & E1 & F1). eauto.
  - destruct (IHa _ _ _ _ _ _ P0) as (L1 & E1 & F1). eauto.
  - destruct (IHa _ _ _ _ _ _ P0) as (L1 & E1 & F1). exists L1. split; auto. rewrite E1. do 2 rewrite (proj1 (tick_opt_same _ _)). now rewrite ticks_labels.
  - destruct (IHa _ _ _ _ _ _ P0) as (L1 & E1 & F1). eauto.
  - destruct (IHa _ _ _ _ _ _ P0) as (L1 & E1 & F1). eauto.
  - destruct (IHa _ _ _ _ _ _ P0) as (L1 & E1 & F1). exists ((l, p_uniq st) :: L1). cbn. rewrite E1, F1. auto.
  - destruct e as [e|]; pinv P; injection P as <- <-; exists []; auto.
Qed.

(** The unique labels, in the order of the code *)
Fixpoint uniqs (x : snode) : list Z :=
  match x with
  | XSeq a b | XIf _ a b => uniqs a ++ uniqs b
  | XSwitch _ _ _ u b => uniqs b ++ [u]
  | XCase u s | XLabel _ u s => u :: uniqs s
  | XFor _ _ _ b u v | XDo b _ u v => uniqs b ++ [v; u]
  | _ => []
  end.
Lemma resolve_uniqs L x : forall x', resolve L x = Some x' -> uniqs x' = uniqs x.
Proof.
  induction x; intros x' R; cbn [resolve] in R; repeat match type of R with
    | (match resolve ?a ?b with Some _ => _ | None => _ end) = Some _ => let P := fresh "P" in destruct (resolve a b) eqn:P; [|discriminate R]
    | (match ?o with Some _ => _ | None => _ end) = Some _ => let B := fresh "B" in destruct o eqn:B; [|discriminate R] end; injection R as <-; cbn [uniqs]; auto;
  repeat match goal with H : forall x', Some ?s = Some x' -> _ |- _ => specialize (H _ eq_refl); rewrite H end; auto.
Qed.
Definition rng (lo hi : Z) (l : list Z) : Prop := NoDup l /\ forall u, In u l -> lo <= u < hi.
Lemma rng_app a b c d l1 l2 : a <= b -> b <= c -> c <= d -> rng a b l1 -> rng c d l2 -> rng a d (l1 ++ l2).
Proof.
  intros B1 B2 B3 [N1 R1] [N2 R2]. split; [apply NoDup_app_intro; auto; intros u I1 I2; apply R1 in I1; apply R2 in I2; lia|].
  intros u I. apply in_app_iff in I as [I|I]; [apply R1 in I|apply R2 in I]; lia.
Qed.
Lemma rng_app' a b c d l1 l2 : a <= b -> b <= c -> c <= d -> rng a b l2 -> rng c d l1 -> rng a d (l1 ++ l2).
Proof.
  intros B1 B2 B3 [N1 R1] [N2 R2]. split; [apply NoDup_app_intro; auto; intros u I1 I2; apply R2 in I1; apply R1 in I2; lia|].
  intros u I. apply in_app_iff in I as [I|I]; [apply R2 in I|apply R1 in I]; lia.
Qed.
Lemma rng_two u : rng u (u + 2) [u + 1; u].
Proof. split; [repeat constructor; cbn; lia|]. intros x [<-|[<-|[]]]; lia. Qed.
Lemma rng_one u : rng u (u + 1) [u].
Proof. split; [repeat constructor; cbn; lia|]. intros x [<-|[]]; lia. Qed.
Lemma parse_uniqs s : forall brk cont sw st x st', parse rt uses brk cont sw s st = Some (x, st') -> p_uniq st <= p_uniq st' /\ rng (p_uniq st) (p_uniq st') (uniqs x).
Proof.
  assert (Z0 : forall a, rng a a []) by (intros; split; [constructor|easy]). assert (ZZ : forall a b, rng a b []) by (intros; split; [constructor|easy]).
  induction s as [ |e|a IHa b IHb|e a IHa b IHb|e a IHa|l h a IHa|a IHa|init e inc a IHa|e a IHa|a IHa e|l| | |l a IHa|e]; intros brk cont sw st x st' P; cbn [parse] in *; pinv P; try (injection P as <- <-); cbn [p_uniq next tick uniqs] in *.
  all: try (split; [lia|auto]; fail).
  - destruct (IHa _ _ _ _ _ _ P0) as (L1 & R1), (IHb _ _ _ _ _ _ P1) as (L2 & R2). split; [lia|]. eapply rng_app; [| | |exact R1|exact R2]; lia.
  - destruct (IHa _ _ _ _ _ _ P0) as (L1 & R1), (IHb _ _ _ _ _ _ P1) as (L2 & R2). cbn [p_uniq tick next] in *. split; [lia|].
    change (uniqs s ++ uniqs s0) with ([] ++ (uniqs s ++ uniqs s0)). eapply (rng_app (p_uniq st) (p_uniq st)); [| | |apply Z0|eapply rng_app; [| | |exact R1|exact R2]]; lia.
  - destruct (IHa _ _ _ _ _ _ P0) as (L1 & R1). cbn [p_uniq tick next] in *. split; [lia|]. eapply (rng_app' (p_uniq st)); [| | |eapply (rng_app' (p_uniq st) (p_uniq st) _ _ [_] []); [| | |apply Z0|apply rng_one]|exact R1]; lia.
  - destruct (IHa _ _ _ _ _ _ P0) as (L1 & R1). cbn [p_uniq tick next] in *. split; [lia|]. eapply (rng_app _ _ _ _ [_]); [| | |apply rng_one|exact R1]; lia.
  - destruct (IHa _ _ _ _ _ _ P0) as (L1 & R1). cbn [p_uniq tick next] in *. split; [lia|]. eapply (rng_app _ _ _ _ [_]); [| | |apply rng_one|exact R1]; lia.
  - destruct (IHa _ _ _ _ _ _ P0) as (L1 & R1). pose proof (tick_opt_uniq inc (tick_opt uses e (fold_left (fun st e => tick uses e st) init (next (next st))))).
    pose proof (tick_opt_uniq e (fold_left (fun st e => tick uses e st) init (next (next st)))). pose proof (ticks_uniq init (next (next st))). cbn [p_uniq next tick] in *. split; [lia|].
    eapply (rng_app' (p_uniq st)); [| | |apply rng_two|exact R1]; lia.
  - destruct (IHa _ _ _ _ _ _ P0) as (L1 & R1). cbn [p_uniq next tick] in *. split; [lia|]. eapply (rng_app' (p_uniq st)); [| | |eapply (rng_app' (p_uniq st) (p_uniq st) _ _ [_;_] []); [| | |apply Z0|apply rng_two]|exact R1]; lia.
  - destruct (IHa _ _ _ _ _ _ P0) as (L1 & R1). cbn [p_uniq next tick] in *. split; [lia|]. rewrite <- (app_nil_r (_ ++ _)).
    eapply (rng_app (p_uniq st) (p_uniq p) (p_uniq p)); [| | |eapply (rng_app' (p_uniq st)); [| | |apply rng_two|exact R1]|apply ZZ]; lia.
  - destruct (IHa _ _ _ _ _ _ P0) as (L1 & R1). cbn [p_uniq tick next] in *. split; [lia|]. eapply (rng_app _ _ _ _ [_]); [| | |apply rng_one|exact R1]; lia.
  - destruct e as [e|]; pinv P; injection P as <- <-; cbn [p_uniq tick uniqs]; (split; [lia|auto]).
Qed.
End Parse.

(** ** Shape of the code of statements *)
Section Shape.
Variables (goff : nat -> Z) (fname : bytes).
Lemma gens_shape l : shape 0 [] (gens goff l).
Proof. induction l as [|e l IH]; cbn [gens]; [apply shape_plain; reflexivity|]. eapply (shape_nil 0 0); [apply gen_shape|exact IH|reflexivity]. Qed.
Lemma gen_test_shape c br l : (forall r l, labels [br r l] = []) -> shape 0 [] (gen_test goff c br l).
Proof. intros B. unfold gen_test. eapply (shape_nil 0 0); [apply gen_shape| |reflexivity]. eapply (shape_nil 0 0); [apply shape_cmp_zero|apply shape_plain, B|reflexivity]. Qed.
Lemma NoDup_app_inv {X} (a b : list X) : NoDup (a ++ b) -> NoDup a /\ NoDup b /\ forall x, In x a -> In x b -> False.
Proof.
  induction a as [|x a IH]; cbn; intros H; [repeat split; auto; constructor|]. inversion H; subst. destruct (IH H3) as (A & B & C).
  repeat split; auto; [constructor; auto; rewrite in_app_iff in H2; tauto|]. intros y [<-|I] J; [apply H2, in_or_app; auto|eauto].
Qed.
Lemma U_counted u x n : 0 <= u -> 0 <= n -> counted x = Some n -> U u = name x -> False.
Proof. intros A B C Q. eapply (name_neq (LUniq u) x u n); eauto; [now apply counted_numbered|intros <-; discriminate C]. Qed.
Definition nonneg (l : list Z) : Prop := forall u, In u l -> 0 <= u.
Lemma nonneg_app a b : nonneg (a ++ b) -> nonneg a /\ nonneg b. Proof. unfold nonneg. intros H. split; intros u I; apply H, in_or_app; auto. Qed.
Lemma in_map_U l u : In l (map U u) -> exists v, l = U v /\ In v u. Proof. intros I. apply in_map_iff in I as (v & <- & I). eauto. Qed.
Theorem stmt_shape x : NoDup (map U (uniqs x)) -> nonneg (uniqs x) -> shape 0 (map U (uniqs x)) (gen_stmt goff fname x).
Proof.
  induction x as [ |e|a IHa b IHb|c a IHa b IHb|c cs d u b IHb|u s IHs|init c inc b IHb u v|b IHb c u v|l|u|l u s IHs|e]; cbn [uniqs gen_stmt map]; intros ND NN.
  - apply shape_plain; reflexivity.
  - apply gens_shape.
  - rewrite map_app in *. apply NoDup_app_inv in ND as (N1 & N2 & DJ). apply nonneg_app in NN as [P1 P2]. apply shape_seq with (d1 := 0) (d2 := 0); auto.
  - rewrite map_app in *. apply NoDup_app_inv in ND as (N1 & N2 & DJ). apply nonneg_app in NN as [P1 P2]. apply shape_count. intros k K0.
    exists (map U (uniqs a) ++ [name (LElse k)] ++ map U (uniqs b) ++ [name (LEnd k)]). split.
    { intros l I. rewrite !in_app_iff in I. destruct I as [I|[I|[I|I]]]; [left; apply in_or_app; auto| |left; apply in_or_app; auto|]; destruct I as [<-|[]]; right; eexists; split; reflexivity. }
    assert (UN : forall l x, counted x = Some k -> In l (map U (uniqs a)) \/ In l (map U (uniqs b)) -> l = name x -> False).
    { intros l x CX I ->. destruct I as [I|I]; apply in_map_U in I as (w & EQ & I); eapply (U_counted w x k); eauto. }
    eapply (shape_app 0 0 0 []); [apply gen_test_shape; reflexivity| |easy|reflexivity|reflexivity].
    eapply (shape_app 0 0 0); [apply IHa; auto| | |reflexivity|reflexivity].
    + eapply (shape_app 0 0 0 [name (LElse k)]); [apply (shape_emit [IJ (name (LEnd k)); Lab (LElse k)]); repeat constructor; auto| | |reflexivity|reflexivity].
      * eapply (shape_app 0 0 0); [apply IHb; auto|apply (shape_emit [Lab (LEnd k)]); repeat constructor; auto| |reflexivity|reflexivity].
        intros l I [EQ|[]]. eapply (UN l (LEnd k)); [reflexivity|tauto|now symmetry].
      * intros l [EQ|[]] I. apply in_app_iff in I as [I|[EQ2|[]]]; [eapply (UN l (LElse k)); [reflexivity|tauto|now symmetry]|].
        rewrite <- EQ in EQ2. eapply (name_neq (LEnd k) (LElse k) k k); eauto. discriminate.
    + intros l I J. rewrite !in_app_iff in J. destruct J as [[EQ|[]]|[J|[EQ|[]]]]; [|eauto|]; [eapply (UN l (LElse k))|eapply (UN l (LEnd k))]; auto.
  - rewrite map_app in *. apply NoDup_app_inv in ND as (N1 & N2 & DJ). apply nonneg_app in NN as [P1 P2].
    do 4 (eapply (shape_app 0 0 0 []); [first [apply gen_shape|apply shape_plain; first [apply labels_flat_map; intros [[b0 e0] w]; cbn [case_code]; destruct (b0 =? e0); reflexivity|destruct d; reflexivity|reflexivity]]| |easy|reflexivity|reflexivity]).
    eapply (shape_app 0 0 0); [apply IHb; auto|apply (shape_emit [ILabel (U u)]); repeat constructor; auto|exact DJ|reflexivity|reflexivity].
  - change (uniqs s) with (uniqs s) in *. inversion ND; subst. eapply (shape_app 0 0 0 [U u]); [apply (shape_emit [ILabel (U u)]); repeat constructor; auto|apply IHs; auto; intros w I; apply NN; now right| |reflexivity|reflexivity].
    intros l [<-|[]]. auto.
  - rewrite map_app in *. apply NoDup_app_inv in ND as (N1 & N2 & DJ). apply nonneg_app in NN as [P1 P2]. apply shape_count. intros k K0.
    exists ([name (LBegin k)] ++ map U (uniqs b) ++ [U v; U u]). split.
    { intros l I. cbn [app] in I. destruct I as [<-|I]; [right; eexists; split; reflexivity|left; exact I]. }
    eapply (shape_app 0 0 0 []); [apply gens_shape| |easy|reflexivity|reflexivity].
    eapply (shape_app 0 0 0 [name (LBegin k)]); [apply (shape_emit [Lab (LBegin k)]); repeat constructor; auto| | |reflexivity|reflexivity].
    + eapply (shape_app 0 0 0 []); [destruct c; [apply gen_test_shape; reflexivity|apply shape_plain; reflexivity]| |easy|reflexivity|reflexivity].
      eapply (shape_app 0 0 0); [apply IHb; auto| |exact DJ|reflexivity|reflexivity].
      eapply (shape_app 0 0 0 [U v] [U u]); [apply (shape_emit [ILabel (U v)]); repeat constructor; auto| | |reflexivity|reflexivity].
      * eapply (shape_app 0 0 0 []); [apply gens_shape| |easy|reflexivity|reflexivity]. apply (shape_emit [IJ (name (LBegin k)); ILabel (U u)]); repeat constructor; auto.
      * cbn [map] in N2. inversion N2; subst. intros l [<-|[]] I. auto.
    + intros l [<-|[]] I. apply in_app_iff in I as [I|I].
      * apply in_map_U in I as (w & EQ & I). eapply (U_counted w (LBegin k) k); eauto; reflexivity.
      * apply (in_map_U _ [v; u]) in I as (w & EQ & I). eapply (U_counted w (LBegin k) k); eauto; reflexivity.
  - rewrite map_app in *. apply NoDup_app_inv in ND as (N1 & N2 & DJ). apply nonneg_app in NN as [P1 P2]. apply shape_count. intros k K0.
    exists ([name (LBegin k)] ++ map U (uniqs b) ++ [U v; U u]). split.
    { intros l I. cbn [app] in I. destruct I as [<-|I]; [right; eexists; split; reflexivity|left; exact I]. }
    eapply (shape_app 0 0 0 [name (LBegin k)]); [apply (shape_emit [Lab (LBegin k)]); repeat constructor; auto| | |reflexivity|reflexivity].
    + eapply (shape_app 0 0 0); [apply IHb; auto| |exact DJ|reflexivity|reflexivity].
      eapply (shape_app 0 0 0 [U v] [U u]); [apply (shape_emit [ILabel (U v)]); repeat constructor; auto| | |reflexivity|reflexivity].
      * eapply (shape_app 0 0 0 []); [apply gen_test_shape; reflexivity| |easy|reflexivity|reflexivity]. apply (shape_emit [ILabel (U u)]); repeat constructor; auto.
      * cbn [map] in N2. inversion N2; subst. intros l [<-|[]] I. auto.
    + intros l [<-|[]] I. apply in_app_iff in I as [I|I].
      * apply in_map_U in I as (w & EQ & I). eapply (U_counted w (LBegin k) k); eauto; reflexivity.
      * apply (in_map_U _ [v; u]) in I as (w & EQ & I). eapply (U_counted w (LBegin k) k); eauto; reflexivity.
  - apply shape_fail.
  - apply shape_plain; reflexivity.
  - inversion ND; subst. eapply (shape_app 0 0 0 [U u]); [apply (shape_emit [ILabel (U u)]); repeat constructor; auto|apply IHs; auto; intros w I; apply NN; now right| |reflexivity|reflexivity].
    intros w [<-|[]]. auto.
  - eapply (shape_nil 0 0); [apply gens_shape|apply shape_plain; reflexivity|reflexivity].
Qed.
End Shape.

(** ** The code of a parsed statement is where [at_s] says *)
Section At.
Variables (goff : nat -> Z) (slots : Z) (rt : ty) (uses : node -> nat) (fname : bytes) (p : prog) (lenv : list (bytes * Z)).
Local Notation ats := (at_s goff slots rt fname p lenv).
Lemma gens_at l : forall k gs c gs', gens goff l gs = Some (c, gs') -> code_at p k c -> forallb (expr_ok slots 0) l = true -> exprs_at goff slots p k l (k + length c).
Proof.
  induction l as [|e l IH]; intros k gs c gs' G CA OK; cbn [gens exprs_at forallb] in *.
  - apply emit_inv in G as [-> ->]. cbn [length]. lia.
  - apply seq_inv in G as (c1 & s1 & c2 & G1 & G2 & ->). apply andb_prop in OK as [O1 O2]. apply code_at_app in CA as [C1 C2]. exists (k + length c1)%nat.
    split; [split; auto; exists gs, c1, s1; auto|]. rewrite app_length, Nat.add_assoc. eapply IH; eauto.
Qed.
Lemma test_code c br l gs code gs' k : gen_test goff c (fun r l => IBr br r Zero l) l gs = Some (code, gs') -> code_at p k code -> expr_ok slots 64 c = true -> test_at goff slots p k c br l (k + length code).
Proof.
  unfold gen_test. intros G CA OK. apply seq_inv in G as (c1 & s1 & c2 & G1 & G2 & ->). apply seq_inv in G2 as (c3 & s2 & c4 & G2 & G3 & ->). apply emit_inv in G3 as [-> ->].
  apply code_at_app in CA as [C1 C2]. apply code_at_app in C2 as [C2 C3].
  assert (NF : is_float (ntype c) = false).
  { unfold expr_ok in OK. apply andb_prop in OK as [OK _]. apply andb_prop in OK as [WT QL]. destruct (qual false c) as [q|] eqn:QC; [|discriminate]. eapply qual_not_float; eauto. }
  assert (c3 = [Seqz A0 A0]) by (unfold cmp_zero in G2; destruct (ntype c); try discriminate; unfold emit in G2; congruence). subst c3.
  apply code_at_cons in C2 as [C2 _]. apply code_at_cons in C3 as [C3 _]. cbn [length] in C3. replace (k + length c1 + 1)%nat with (S (k + length c1)) in C3 by lia.
  exists (k + length c1)%nat. split; [split; auto; exists gs, c1, s1; auto|]. split; [exact C2|]. split; [exact C3|]. rewrite !app_length. cbn [length]. lia.
Qed.
Lemma orelse_assoc {X} (a b c : option X) : orelse a (orelse b c) = orelse (orelse a b) c. Proof. destruct a; reflexivity. Qed.
Ltac inseq G := apply seq_inv in G as (?c1 & ?s1 & ?c2 & ?G1 & G & ->).
Ltac splitc C := apply code_at_app in C as [?C1 C]; rewrite ?app_length, ?Nat.add_assoc in *.
Lemma one_at k i c : code_at p k (i :: c) -> ati p k i. Proof. intros C. now apply code_at_cons in C as [C _]. Qed.
Lemma len1 {X} (k : nat) (x : X) : (k + length [x])%nat = S k. Proof. cbn [length]. lia. Qed.
Lemma len2 {X} (k : nat) (x y : X) : (k + length [x; y])%nat = S (S k). Proof. cbn [length]. lia. Qed.
Theorem parse_at s : forall brk cont sw st x st' x' gs c gs' k, parse rt uses brk cont sw s st = Some (x, st') -> resolve lenv x = Some x' ->
  gen_stmt goff fname x' gs = Some (c, gs') -> code_at p k c -> stmt_ok rt slots s = true -> incl (p_labels st') lenv ->
  exists ents d, ats brk cont s k (k + length c) ents d /\ p_cases st' = ents ++ p_cases st /\ p_dflt st' = orelse d (p_dflt st).
Proof.
  induction s as [ |e|a IHa b IHb|e a IHa b IHb|e a IHa|l h a IHa|a IHa|init e inc a IHa|e a IHa|a IHa e|l| | |l a IHa|e]; intros brk cont sw st x st' x' gs c gs' k P R G CA OK IL;
    cbn [parse stmt_ok] in *; pinv P; try (injection P as <- <-); cbn [resolve] in R.
  - injection R as <-. apply emit_inv in G as [-> ->]. exists [], None. cbn [length]. rewrite Nat.add_0_r. split; [constructor|auto].
  - injection R as <-. cbn [gen_stmt] in G. exists [], None. pose proof (gens_at [e] k gs c gs' G CA ltac:(cbn [forallb]; now rewrite OK)) as (k1 & A1 & A2). cbn [exprs_at] in A2. subst k1. split; [now constructor|auto].
  - destruct (resolve lenv s) as [xa|] eqn:R1; [|discriminate]. destruct (resolve lenv s0) as [xb|] eqn:R2; [|discriminate]. injection R as <-. cbn [gen_stmt] in G. inseq G. apply code_at_app in CA as [C1 C2].
    apply andb_prop in OK as [O1 O2]. destruct (parse_labels _ _ _ _ _ _ _ _ _ P1) as (L & EL & _).
    destruct (IHa _ _ _ _ _ _ _ _ _ _ _ P0 R1 G1 C1 O1 ltac:(intros y Y; apply IL; rewrite EL; apply in_or_app; auto)) as (e1 & d1 & A1 & E1 & D1).
    destruct (IHb _ _ _ _ _ _ _ _ _ _ _ P1 R2 G C2 O2 IL) as (e2 & d2 & A2 & E2 & D2). exists (e2 ++ e1), (orelse d2 d1). rewrite app_length, Nat.add_assoc.
    split; [econstructor; eauto|]. rewrite E2, E1, D2, D1, app_assoc, orelse_assoc. auto.
  - destruct (resolve lenv s) as [xa|] eqn:R1; [|discriminate]. destruct (resolve lenv s0) as [xb|] eqn:R2; [|discriminate]. injection R as <-. cbn [gen_stmt] in G. unfold with_count in G. set (n := g_cnt gs) in *.
    apply seq_inv in G as (ct & s1 & cr & GT & G & ->). apply seq_inv in G as (ca & s2 & cr2 & GA & G & ->). apply seq_inv in G as (cj & s3 & cr3 & GJ & G & ->). apply emit_inv in GJ as [-> ->].
    apply seq_inv in G as (cb & s4 & ce & GB & G & ->). apply emit_inv in G as [-> ->].
    apply code_at_app in CA as [C1 CA]. apply code_at_app in CA as [C2 CA]. apply code_at_app in CA as [C3 CA]. apply code_at_app in CA as [C4 C5].
    apply andb_prop in OK as [OK O3]. apply andb_prop in OK as [O1 O2]. destruct (parse_labels _ _ _ _ _ _ _ _ _ P1) as (L & EL & _).
    destruct (IHa _ _ _ _ _ _ _ _ _ _ _ P0 R1 GA C2 O2 ltac:(intros y Y; apply IL; rewrite EL; apply in_or_app; auto)) as (e1 & d1 & A1 & E1 & D1).
    destruct (IHb _ _ _ _ _ _ _ _ _ _ _ P1 R2 GB C4 O3 IL) as (e2 & d2 & A2 & E2 & D2). exists (e2 ++ e1), (orelse d2 d1).
    rewrite len2 in *. rewrite !app_length. cbn [length]. set (k1 := (k + length ct)%nat) in *. set (k2 := (k1 + length ca)%nat) in *. set (k3 := (S (S k2) + length cb)%nat) in *.
    replace (k + (length ct + (length ca + (2 + (length cb + 1)))))%nat with (S k3) by (unfold k3, k2, k1; lia).
    split; [|cbn [p_cases p_dflt tick] in *; rewrite E2, E1, D2, D1, app_assoc, orelse_assoc; auto].
    rewrite !code_at_cons in C3. destruct C3 as (J1 & J2 & _). apply one_at in C5.
    eapply at_if; [eapply (test_code e BNE); eassumption|exact A1|exact J1|exact J2|exact A2|exact C5].
  - destruct (resolve lenv s) as [xb|] eqn:R1; [|discriminate]. injection R as <-. cbn [gen_stmt] in G.
    apply seq_inv in G as (ct & s1 & cr & GT & G & ->). apply seq_inv in G as (cc & s2 & cr2 & GC & G & ->). apply emit_inv in GC as [-> ->]. apply seq_inv in G as (cd & s3 & cr3 & GD & G & ->). apply emit_inv in GD as [-> ->].
    apply seq_inv in G as (cj & s4 & cr4 & GJ & G & ->). apply emit_inv in GJ as [-> ->]. apply seq_inv in G as (cb & s5 & ce & GB & G & ->). apply emit_inv in G as [-> ->].
    apply code_at_app in CA as [C1 CA]. apply code_at_app in CA as [C2 CA]. apply code_at_app in CA as [C3 CA]. apply code_at_app in CA as [C4 CA]. apply code_at_app in CA as [C5 C6].
    apply andb_prop in OK as [OK O4]. apply andb_prop in OK as [OK O3]. apply andb_prop in OK as [O1 O2]. rewrite len1 in *.
    destruct (IHa _ _ _ _ _ _ _ _ _ _ _ P0 R1 GB C5 O4 IL) as (e1 & d1 & A1 & E1 & D1). cbn [p_cases p_dflt tick] in *. rewrite app_nil_r in E1. replace (orelse d1 None) with d1 in D1 by (destruct d1; auto).
    exists [], None. split; [|auto]. rewrite E1, D1 in *.
    set (k1 := (k + length ct)%nat) in *. set (k2 := (k1 + length (flat_map case_code e1))%nat) in *. set (k3 := (k2 + length (match d1 with Some u => [IJ (U u)] | None => [] end))%nat) in *. set (k4 := (S k3 + length cb)%nat) in *.
    replace (k + length _)%nat with (S k4) by (rewrite !app_length; cbn [length]; unfold k4, k3, k2, k1; lia).
    apply one_at in C4. apply one_at in C6. eapply (at_switch _ _ _ _ _ _ brk cont e a (p_uniq st + Z.of_nat (uses e)) k k1 k3 k4 e1 d1);
      [split; auto; exists gs, ct, s1; auto|destruct (int_repr (ntype e)); [discriminate|discriminate O2]|exact O3|exact C2| |exact C4|exact A1|exact C6].
    unfold k3. destruct d1; cbn [dflt_at]; [split; [now apply one_at in C3|cbn [length]; lia]|cbn [length]; lia].
  - destruct (resolve lenv s) as [xb|] eqn:R1; [|discriminate]. injection R as <-. cbn [gen_stmt] in G. apply seq_inv in G as (ct & s1 & cr & GT & G & ->). apply emit_inv in GT as [-> ->].
    apply code_at_app in CA as [C1 C2]. rewrite len1 in C2. apply one_at in C1. destruct (IHa _ _ _ _ _ _ _ _ _ _ _ P0 R1 G C2 OK IL) as (e1 & d1 & A1 & E1 & D1). cbn [p_cases p_dflt next] in *.
    exists ((sx 32 l, sx 32 h, p_uniq st) :: e1), d1. replace (k + length _)%nat with (S k + length cr)%nat by (rewrite app_length; cbn [length]; lia).
    split; [constructor; auto; apply Z.ltb_ge in B0; lia|]. rewrite E1. auto.
  - destruct (resolve lenv s) as [xb|] eqn:R1; [|discriminate]. injection R as <-. cbn [gen_stmt] in G. apply seq_inv in G as (ct & s1 & cr & GT & G & ->). apply emit_inv in GT as [-> ->].
    apply code_at_app in CA as [C1 C2]. rewrite len1 in C2. apply one_at in C1. destruct (IHa _ _ _ _ _ _ _ _ _ _ _ P0 R1 G C2 OK IL) as (e1 & d1 & A1 & E1 & D1). cbn [p_cases p_dflt next] in *.
    exists e1, (Some (p_uniq st)). replace (k + length _)%nat with (S k + length cr)%nat by (rewrite app_length; cbn [length]; lia).
    split; [econstructor; eauto|]. auto.
  - destruct (resolve lenv s) as [xb|] eqn:R1; [|discriminate]. injection R as <-. cbn [gen_stmt] in G. unfold with_count in G. set (n := g_cnt gs) in *.
    apply seq_inv in G as (ci & s1 & cr & GI & G & ->). apply seq_inv in G as (cl & s2 & cr2 & GL & G & ->). apply emit_inv in GL as [-> ->]. apply seq_inv in G as (ct & s3 & cr3 & GT & G & ->).
    apply seq_inv in G as (cb & s4 & cr4 & GB & G & ->). apply seq_inv in G as (cv & s5 & cr5 & GV & G & ->). apply emit_inv in GV as [-> ->]. apply seq_inv in G as (cn & s6 & ce & GN & G & ->). apply emit_inv in G as [-> ->].
    apply code_at_app in CA as [C1 CA]. apply code_at_app in CA as [C2 CA]. apply code_at_app in CA as [C3 CA]. apply code_at_app in CA as [C4 CA]. apply code_at_app in CA as [C5 CA]. apply code_at_app in CA as [C6 C7]. rewrite !len1 in *.
    apply andb_prop in OK as [OK O4]. apply andb_prop in OK as [OK O3]. apply andb_prop in OK as [O1 O2].
    destruct (IHa _ _ _ _ _ _ _ _ _ _ _ P0 R1 GB C4 O4 IL) as (e1 & d1 & A1 & E1 & D1). exists e1, d1.
    do 2 rewrite (proj1 (proj2 (tick_opt_same _ _ _))) in E1. rewrite ticks_cases in E1. do 2 rewrite (proj2 (proj2 (tick_opt_same _ _ _))) in D1. rewrite ticks_dflt in D1. split; [|split; auto].
    set (k0 := (k + length ci)%nat) in *. set (kb := (S k0 + length ct)%nat) in *. set (kc := (kb + length cb)%nat) in *. set (k1 := (S kc + length cn)%nat) in *.
    replace (k + length _)%nat with (S (S k1)) by (rewrite !app_length; cbn [length]; unfold k1, kc, kb, k0; lia).
    rewrite !code_at_cons in C7. destruct C7 as (J1 & J2 & _). apply one_at in C2. apply one_at in C5.
    eapply at_for; [eapply gens_at; eauto| |exact A1]. exists n, k1. split; [exact C2|]. split.
    { destruct e as [e|]; cbn [test_opt_at]; [eapply (test_code e BNE); eassumption|]. apply emit_inv in GT as [-> ->]. unfold kb. cbn [length]. lia. }
    split; [exact C5|]. split; [|repeat split; auto]. eapply gens_at; [exact GN|exact C6|]. destruct inc; cbn [optl forallb]; auto. now rewrite O3.
  - destruct (resolve lenv s) as [xb|] eqn:R1; [|discriminate]. injection R as <-. cbn [gen_stmt] in G. unfold with_count in G. set (n := g_cnt gs) in *.
    apply seq_inv in G as (ci & s1 & cr & GI & G & ->). apply emit_inv in GI as [-> ->]. apply seq_inv in G as (cl & s2 & cr2 & GL & G & ->). apply emit_inv in GL as [-> ->]. apply seq_inv in G as (ct & s3 & cr3 & GT & G & ->).
    apply seq_inv in G as (cb & s4 & cr4 & GB & G & ->). apply seq_inv in G as (cv & s5 & cr5 & GV & G & ->). apply emit_inv in GV as [-> ->]. apply seq_inv in G as (cn & s6 & ce & GN & G & ->). apply emit_inv in GN as [-> ->]. apply emit_inv in G as [-> ->].
    cbn [app] in CA. apply (code_at_app p k [_]) in CA as [C2 CA]. apply code_at_app in CA as [C3 CA]. apply code_at_app in CA as [C4 CA]. apply (code_at_app p _ [_]) in CA as [C5 C7]. rewrite !len1 in *.
    apply andb_prop in OK as [O1 O2].
    destruct (IHa _ _ _ _ _ _ _ _ _ _ _ P0 R1 GB C4 O2 IL) as (e1 & d1 & A1 & E1 & D1). exists e1, d1. split; [|auto].
    set (kb := (S k + length ct)%nat) in *. set (kc := (kb + length cb)%nat) in *.
    replace (k + length _)%nat with (S (S (S kc))) by (cbn [app]; cbn [length]; rewrite !app_length; cbn [length]; unfold kc, kb; lia).
    rewrite !code_at_cons in C7. destruct C7 as (J1 & J2 & _). apply one_at in C2. apply one_at in C5.
    eapply at_while; [|exact A1]. exists n, (S kc). split; [exact C2|]. split; [eapply (test_code e BNE); eassumption|].
    split; [exact C5|]. repeat split; auto.
  - destruct (resolve lenv s) as [xb|] eqn:R1; [|discriminate]. injection R as <-. cbn [gen_stmt] in G. unfold with_count in G. set (n := g_cnt gs) in *.
    apply seq_inv in G as (cl & s2 & cr2 & GL & G & ->). apply emit_inv in GL as [-> ->].
    apply seq_inv in G as (cb & s4 & cr4 & GB & G & ->). apply seq_inv in G as (cv & s5 & cr5 & GV & G & ->). apply emit_inv in GV as [-> ->]. apply seq_inv in G as (ct & s6 & ce & GT & G & ->). apply emit_inv in G as [-> ->].
    apply code_at_app in CA as [C2 CA]. apply code_at_app in CA as [C4 CA]. apply code_at_app in CA as [C5 CA]. apply code_at_app in CA as [C6 C7]. rewrite !len1 in *.
    apply andb_prop in OK as [O1 O2].
    destruct (IHa _ _ _ _ _ _ _ _ _ _ _ P0 R1 GB C4 O2 IL) as (e1 & d1 & A1 & E1 & D1). exists e1, d1. split; [|auto].
    set (kc := (S k + length cb)%nat) in *. set (k2 := (S kc + length ct)%nat) in *.
    replace (k + length _)%nat with (S k2) by (rewrite !app_length; cbn [length]; unfold k2, kc; lia).
    apply one_at in C2. apply one_at in C5. apply one_at in C7. eapply at_do; [|exact A1]. exists n, k2. split; [exact C2|]. split; [exact C5|]. split; [eapply (test_code e BEQ); eassumption|]. split; auto.
  - destruct (lookup lenv l) as [u|] eqn:LK; [|discriminate]. injection R as <-. cbn [gen_stmt] in G. apply emit_inv in G as [-> ->]. exists [], None. split; [econstructor; eauto; eapply one_at; eauto|auto].
  - injection R as <-. cbn [gen_stmt] in G. apply emit_inv in G as [-> ->]. exists [], None. split; [econstructor; eauto; eapply one_at; eauto|auto].
  - injection R as <-. cbn [gen_stmt] in G. apply emit_inv in G as [-> ->]. exists [], None. split; [econstructor; eauto; eapply one_at; eauto|auto].
  - destruct (resolve lenv s) as [xb|] eqn:R1; [|discriminate]. injection R as <-. cbn [gen_stmt] in G. apply seq_inv in G as (ct & s1 & cr & GT & G & ->). apply emit_inv in GT as [-> ->].
    apply code_at_app in CA as [C1 C2]. rewrite len1 in C2. apply one_at in C1. destruct (IHa _ _ _ _ _ _ _ _ _ _ _ P0 R1 G C2 OK ltac:(intros y Y; apply IL; now right)) as (e1 & d1 & A1 & E1 & D1). cbn [p_cases p_dflt next] in *.
    exists e1, d1. replace (k + length _)%nat with (S k + length cr)%nat by (rewrite app_length; cbn [length]; lia).
    split; [econstructor; eauto; apply IL; now left|]. auto.
  - destruct e as [e|]; pinv P; injection P as <- <-; cbn [resolve] in R; injection R as <-; cbn [gen_stmt] in G; apply seq_inv in G as (ct & s1 & cr & GT & G & ->); apply emit_inv in G as [-> ->];
      apply code_at_app in CA as [C1 C2]; apply one_at in C2; exists [], None; (split; [|auto]).
    + pose proof (gens_at [NCast rt e] k gs ct s1 GT C1) as X. unfold expr_ok in OK. apply andb_prop in OK as [O1 O3]. apply andb_prop in O1 as [O1 O2].
      destruct X as (k1 & A1 & A2). { cbn [forallb]. unfold expr_ok. rewrite O1, O3. destruct (qual false (NCast rt e)) as [q|] eqn:Q; [|discriminate]. pose proof (qual_range _ _ _ Q). cbn. lia. }
      cbn [exprs_at] in A2. subst k1. eapply at_return; [|exact C2]. destruct A1 as [_ A1]. split; auto. unfold expr_ok. now rewrite O1, O2, O3.
    + cbn [gen_opt gens] in GT. apply emit_inv in GT as [-> ->]. cbn [length] in C2. eapply at_return; [|exact C2]. cbn. lia.
Qed.
End At.

(** ** Whole executions *)
Section Whole.
Variables (E : env) (W : world) (goff : nat -> Z) (fp room slots : Z) (rt : ty) (fname : bytes) (p : prog).
Variables (uses : node -> nat) (body : stmt) (u u' : Z) (x : snode) (gs gs' : gst) (c : list instr) (pret : nat) (s0 : state) (lo : Z) (m : mem).
Hypothesis HS : setting E W goff fp.
Hypothesis HL : linked E W fp room p.
Hypothesis FS0 : free_stack E room lo s0.
Hypothesis SL0 : lo + 8 * slots <= rg s0 Sp.
Hypothesis PB : parse_body rt uses body u = Some (x, u').
Hypothesis GB : gen_stmt goff fname x gs = Some (c, gs').
Hypothesis OK : stmt_ok rt slots body = true.
Hypothesis NL : NoDup (user_labels body).
Hypothesis CA : code_at p (pc s0) c.
Hypothesis RET : nth_error p pret = Some (Lab (LReturn fname)).
Hypothesis MT : matches E fp m s0.

Lemma whole_setup : exists lenv ents d, NoDup (map fst lenv) /\ at_s goff slots rt fname p lenv None None body (pc s0) (pc s0 + length c) ents d.
Proof.
  unfold parse_body in PB. destruct (parse rt uses None None false body (PS u [] None [])) as [[x0 st]|] eqn:P; [|discriminate]. destruct (resolve (p_labels st) x0) as [x1|] eqn:R; [|discriminate].
  injection PB as -> <-. destruct (parse_labels _ _ _ _ _ _ _ _ _ P) as (L & EL & FL). cbn [p_labels] in EL. rewrite app_nil_r in EL.
  destruct (parse_at goff slots rt uses fname p (p_labels st) body None None false _ _ _ x gs c gs' (pc s0) P R GB CA OK (incl_refl _)) as (ents & d & AT & _).
  exists (p_labels st), ents, d. split; auto. now rewrite EL, FL.
Qed.
Lemma above_same_refl s : above_same E s s. Proof. split; auto. Qed.

Lemma steps_sim lenv ents d : NoDup (map fst lenv) -> at_s goff slots rt fname p lenv None None body (pc s0) (pc s0 + length c) ents d ->
  forall a b, ssteps E rt body a b -> forall st, sim E W goff fp slots rt fname p lenv (pc s0 + length c) pret s0 a st ->
  exists st', star W p st st' /\ sim E W goff fp slots rt fname p lenv (pc s0 + length c) pret s0 b st'.
Proof.
  intros LN AT a b H. induction H as [a|a a1 a2 S1 S2 IH]; intros st SM; [exists st; split; [constructor|auto]|].
  destruct (step_sim E W goff fp room slots rt fname p lenv _ pret s0 lo HS HL FS0 SL0 LN RET body (pc s0) ents d AT a st a1 SM S1) as (st1 & SM1 & ST).
  destruct (IH st1 SM1) as (st2 & ST2 & SM2). exists st2. split; auto. eapply star_trans; [|exact ST2]. destruct ST as [ST|[ST _]]; [now apply plus_star|auto].
Qed.
Lemma start_sim lenv ents d : at_s goff slots rt fname p lenv None None body (pc s0) (pc s0 + length c) ents d ->
  sim E W goff fp slots rt fname p lenv (pc s0 + length c) pret s0 (Run body KStop m) s0.
Proof. intros AT. econstructor; [exact AT|constructor; apply leads_refl|]. split; auto. apply above_same_refl. Qed.

Lemma whole_returns v m' : ssteps E rt body (Run body KStop m) (Returned v m') ->
  exists s', star W p s0 s' /\ pc s' = pret /\ matches E fp m' s' /\ above_same E s0 s' /\ forall z, v = Some z -> rep (ret_bits rt) z (rg s' (A 0)).
Proof.
  intros H. destruct whole_setup as (lenv & ents & d & LN & AT). destruct (steps_sim _ _ _ LN AT _ _ H s0 (start_sim _ _ _ AT)) as (s' & ST & SM).
  inversion SM; subst. match goal with X : inv _ _ _ _ _ |- _ => destruct X end. exists s'. auto.
Qed.
Lemma whole_finishes m' : ssteps E rt body (Run body KStop m) (Finished m') ->
  exists s', star W p s0 s' /\ pc s' = (pc s0 + length c)%nat /\ matches E fp m' s' /\ above_same E s0 s'.
Proof.
  intros H. destruct whole_setup as (lenv & ents & d & LN & AT). destruct (steps_sim _ _ _ LN AT _ _ H s0 (start_sim _ _ _ AT)) as (s' & ST & SM).
  inversion SM; subst. match goal with X : inv _ _ _ _ _ |- _ => destruct X end. exists s'. auto.
Qed.
Lemma star_steps a b : star W p a b -> exists n, steps_n W p n a b. Proof. induction 1 as [a|a a1 a2 S1 S2 [n IH]]; [exists O; reflexivity|]. exists (S n). cbn [steps_n]. eauto. Qed.
Lemma steps_add i : forall j a b c, steps_n W p i a b -> steps_n W p j b c -> steps_n W p (i + j) a c.
Proof. induction i as [|i IH]; intros j a b d H K; cbn [Nat.add steps_n] in *; [now subst|]. destruct H as (a1 & S1 & H). exists a1. split; auto. eapply IH; eauto. Qed.
Lemma steps_cut i : forall j a b, steps_n W p (i + j) a b -> exists d, steps_n W p i a d.
Proof. induction i as [|i IH]; intros j a b H; cbn [Nat.add steps_n] in *; [eauto|]. destruct H as (a1 & S1 & H). destruct (IH _ _ _ H) as (d & D). eauto. Qed.
Lemma ssteps_snoc a b d : sstep E rt body a = Some b -> ssteps E rt body b d -> ssteps E rt body a d. Proof. intros. econstructor; eauto. Qed.
Lemma forever_step a : runs_forever E rt body a -> exists b, sstep E rt body a = Some b /\ runs_forever E rt body b.
Proof.
  intros H. destruct (sstep E rt body a) as [b|] eqn:S1; [|destruct (H a (ssteps_refl _ _ _ _)); auto]. exists b. split; auto. intros d D. apply H. econstructor; eauto.
Qed.
Lemma whole_diverges : runs_forever E rt body (Run body KStop m) -> forall n, exists s', steps_n W p n s0 s'.
Proof.
  intros H. destruct whole_setup as (lenv & ents & d & LN & AT). pose proof (start_sim _ _ _ AT) as SM. revert SM.
  assert (GO : forall n k a st, (csize a <= k)%nat -> runs_forever E rt body a -> sim E W goff fp slots rt fname p lenv (pc s0 + length c) pret s0 a st -> exists s' j, steps_n W p (n + j) st s').
  { induction n as [|n IHn]; [intros; exists st, O; reflexivity|]. induction k as [k IHk] using lt_wf_ind. intros a st SZ FA SM. destruct (forever_step a FA) as (b & S1 & FB).
    destruct (step_sim E W goff fp room slots rt fname p lenv _ pret s0 lo HS HL FS0 SL0 LN RET body (pc s0) ents d AT a st b SM S1) as (st1 & SM1 & [(st2 & X & Y)|[ST LT]]).
    - destruct (IHn (csize b) b st1 ltac:(lia) FB SM1) as (s' & j & K). destruct (star_steps _ _ Y) as (i & Y'). exists s', (i + j)%nat.
      replace (S n + (i + j))%nat with (S (i + (n + j)))%nat by lia. exists st2. split; auto. eapply steps_add; eauto.
    - destruct (IHk (csize b) ltac:(lia) b st1 ltac:(lia) FB SM1) as (s' & j & K). destruct (star_steps _ _ ST) as (i & Y'). exists s', (i + j)%nat.
      replace (S n + (i + j))%nat with (i + (S n + j))%nat by lia. eapply steps_add; eauto. }
  intros SM n. destruct (GO n _ _ _ (le_n _) H SM) as (s' & j & K). eapply steps_cut; eauto.
Qed.
End Whole.

(** ** Statements for the properties *)
Lemma map_U_nodup l : NoDup l -> nonneg l -> NoDup (map U l).
Proof.
  induction 1 as [|u l N H IH]; intros NN; cbn [map]; constructor.
  - intros I. apply in_map_U in I as (v & EQ & I). assert (u = v); [|subst; auto].
    assert (LUniq u = LUniq v); [|congruence]. eapply (name_numbered_inj (LUniq u) (LUniq v) u v); auto; apply NN; [now left|now right].
  - apply IH. intros v I. apply NN. now right.
Qed.
Lemma body_shape rt uses body u x u' goff fname : parse_body rt uses body u = Some (x, u') -> 0 <= u -> forall gs c gs', gen_stmt goff fname x gs = Some (c, gs') -> 0 <= g_cnt gs ->
  g_depth gs' = g_depth gs /\ NoDup (labels c) /\ u <= u' /\ g_cnt gs <= g_cnt gs' /\ forall l, In l (labels c) -> (exists n, l = name (LUniq n) /\ u <= n < u') \/ fresh (g_cnt gs) (g_cnt gs') l.
Proof.
  unfold parse_body. intros PB U0 gs c gs' G C0. destruct (parse rt uses None None false body (PS u [] None [])) as [[x0 st]|] eqn:P; [|discriminate]. destruct (resolve (p_labels st) x0) as [x1|] eqn:R; [|discriminate].
  injection PB as -> <-. destruct (parse_uniqs _ _ _ _ _ _ _ _ _ P) as (L & N & RG). cbn [p_uniq] in *. rewrite <- (resolve_uniqs _ _ _ R) in N, RG.
  assert (NN : nonneg (uniqs x)) by (intros w I; apply RG in I; lia).
  destruct (stmt_shape goff fname x (map_U_nodup _ N NN) NN gs c gs' G C0) as (D & C & ND & LB).
  { intros l I. apply in_map_U in I as (w & -> & I). exists (LUniq w), w. repeat split; auto. }
  repeat split; auto; try lia. intros l I. apply LB in I as [I|I]; auto. left. apply in_map_U in I as (w & -> & I). exists w. auto.
Qed.
Lemma switch_dispatch W p t v ents : NoDup (labels p) -> int_repr t <> None -> val_of t v = true ->
  (forall b e u, In (b, e, u) ents -> b <= e /\ case_fits t b = true /\ case_fits t e = true) ->
  forall k rs m, code_at p k (flat_map case_code ents) -> regs_ok rs -> rep 64 v (rs (A 0)) ->
  (exists b e u, In (b, e, u) ents /\ b <= v <= e /\ forall kp, nth_error p kp = Some (ILabel (name (LUniq u))) -> exists rs', star W p (St k rs m) (St kp rs' m) /\ rs' Sp = rs Sp /\ rs' Fp = rs Fp) \/
  ((forall b e u, In (b, e, u) ents -> ~ b <= v <= e) /\ exists rs', star W p (St k rs m) (St (k + length (flat_map case_code ents)) rs' m) /\ rs' Sp = rs Sp /\ rs' Fp = rs Fp).
Proof.
  intros ND NT V OK k rs m CA RO R0.
  set (E0 := Env (fun _ => 0) (fun _ => false) (fun _ _ _ _ _ => None)).
  assert (HL : linked E0 W 0 0 p) by (split; auto; intros ? ? ? ? ? ? ? ? ? ? ? ? ? ? C; discriminate C).
  destruct (dispatch E0 W 0 0 p (St 0 rs m) HL t v ents NT V) with (k := k) (rs := rs) (m := m) as (rs' & (K1 & K2 & K3) & [(e & I & H & P)|(N & P)]); auto.
  - apply Forall_forall. intros [[b e] u] I. exact (OK _ _ _ I).
  - apply rep_full; auto. apply RO.
  - left. destruct e as [[b e] u]. exists b, e, u. split; auto. split; [exact H|]. intros kp L. exists rs'. split; auto. apply plus_star, P. exact L.
  - right. split; [intros b e u I; exact (N _ I)|]. exists rs'. auto.
Qed.

Lemma lookup_some L l : In l (map fst L) <-> exists u, lookup L l = Some u.
Proof.
  induction L as [|[l' u] L IH]; cbn [map fst lookup]; [split; [easy|intros [u H]; discriminate]|]. destruct (beq l l') eqn:B.
  - apply beq_eq in B. subst. split; [eauto|now left].
  - rewrite <- IH. split; [|now right]. intros [Q|I]; auto. subst l. rewrite (proj2 (beq_eq l' l') eq_refl) in B. discriminate.
Qed.
Fixpoint named (x : snode) : list bytes :=
  match x with
  | XNamed l => [l]
  | XSeq a b | XIf _ a b => named a ++ named b
  | XSwitch _ _ _ _ s | XCase _ s | XFor _ _ _ s _ _ | XDo s _ _ _ | XLabel _ _ s => named s
  | _ => []
  end.
Lemma incl_app_iff {X} (a b c : list X) : incl (a ++ b) c <-> incl a c /\ incl b c.
Proof. split; [intros H; split; intros x I; apply H, in_or_app; auto|intros [A B]; now apply incl_app]. Qed.
Ltac rinv R := repeat match type of R with
  | (match resolve ?a ?b with Some _ => _ | None => _ end) = Some _ => let P := fresh "P" in destruct (resolve a b) eqn:P; [|discriminate R]
  | (match ?o with Some _ => _ | None => _ end) = Some _ => let B := fresh "B" in destruct o eqn:B; [|discriminate R] end.
Lemma resolve_some L x : (exists x', resolve L x = Some x') <-> incl (named x) (map fst L).
Proof.
  induction x; cbn [resolve named]; rewrite ?incl_app_iff; try (split; [intros _ y []|eauto]; fail).
  1, 2: rewrite <- IHx1, <- IHx2; split; [intros [x' R]; rinv R; eauto|intros [[a Ha] [b Hb]]; rewrite Ha, Hb; eauto].
  1, 2, 3, 4, 6: rewrite <- IHx; split; [intros [x' R]; rinv R; eauto|intros [a Ha]; rewrite Ha; eauto].
  split; [intros [x' R]; rinv R; intros y [<-|[]]; apply lookup_some; eauto|]. intros H. destruct (proj1 (lookup_some L l) (H l (or_introl eq_refl))) as [u Hu]. rewrite Hu. eauto.
Qed.
Lemma parse_named rt uses s : forall brk cont sw st x st', parse rt uses brk cont sw s st = Some (x, st') -> named x = gotos s.
Proof.
  induction s as [ |e|a IHa b IHb|e a IHa b IHb|e a IHa|l h a IHa|a IHa|init e inc a IHa|e a IHa|a IHa e|l| | |l a IHa|e]; intros brk cont sw st x st' P; cbn [parse gotos] in *; pinv P; try (injection P as <- <-); cbn [named]; eauto.
  - now rewrite (IHa _ _ _ _ _ _ P0), (IHb _ _ _ _ _ _ P1).
  - now rewrite (IHa _ _ _ _ _ _ P0), (IHb _ _ _ _ _ _ P1).
  - destruct e as [e|]; pinv P; injection P as <- <-; reflexivity.
Qed.
Definition is_some {X} (o : option X) : bool := match o with Some _ => true | None => false end.
Lemma parse_accepts rt uses s : is_struct_union rt = false -> forall brk cont sw st, is_some brk = is_some cont || sw -> (exists r, parse rt uses brk cont sw s st = Some r) <-> nested (is_some cont) sw s = true.
Proof.
  intros RT. induction s as [ |e|a IHa b IHb|e a IHa b IHb|e a IHa|l h a IHa|a IHa|init e inc a IHa|e a IHa|a IHa e|l| | |l a IHa|e]; intros brk cont sw st BC; cbn [parse nested].
  all: try (split; [reflexivity|eauto]; fail).
  - rewrite andb_true_iff. split.
    + intros [r H]. pinv H. split; [eapply IHa; eauto|eapply IHb; eauto].
    + intros [HA HB]. destruct (proj2 (IHa brk cont sw st BC) HA) as [[a' s1] Ha]. rewrite Ha. destruct (proj2 (IHb brk cont sw s1 BC) HB) as [[b' s2] Hb]. rewrite Hb. eauto.
  - rewrite andb_true_iff. split.
    + intros [r H]. pinv H. split; [eapply IHa; eauto|eapply IHb; eauto].
    + intros [HA HB]. destruct (proj2 (IHa brk cont sw (tick uses e st) BC) HA) as [[a' s1] Ha]. rewrite Ha. destruct (proj2 (IHb brk cont sw s1 BC) HB) as [[b' s2] Hb]. rewrite Hb. eauto.
  - split.
    + intros [r H]. pinv H. eapply (IHa (Some _)); eauto. cbn. now rewrite orb_true_r.
    + intros HA. match goal with |- context [parse rt uses ?b ?c true a ?s] => destruct (proj2 (IHa b c true s ltac:(cbn; now rewrite orb_true_r)) HA) as [[a' s1] Ha] end. rewrite Ha. eauto.
  - rewrite !andb_true_iff. split.
    + intros [r H]. pinv H. apply negb_false_iff in B. subst sw. split; [split; [auto|apply Z.ltb_ge in B0; lia]|]. eapply IHa; eauto.
    + intros [[-> L] HA]. cbn [negb]. replace (sx 32 h <? sx 32 l) with false by lia. destruct (proj2 (IHa brk cont true (next st) BC) HA) as [[a' s1] Ha]. rewrite Ha. eauto.
  - rewrite !andb_true_iff. split.
    + intros [r H]. pinv H. apply negb_false_iff in B. subst sw. split; [auto|]. eapply IHa; eauto.
    + intros [-> HA]. cbn [negb]. destruct (proj2 (IHa brk cont true (next st) BC) HA) as [[a' s1] Ha]. rewrite Ha. eauto.
  - split.
    + intros [r H]. pinv H. eapply (IHa (Some _) (Some _)); eauto.
    + intros HA. match goal with |- context [parse rt uses (Some ?b) (Some ?c) sw a ?s] => destruct (proj2 (IHa (Some b) (Some c) sw s ltac:(reflexivity)) HA) as [[a' s1] Ha] end. rewrite Ha. eauto.
  - split.
    + intros [r H]. pinv H. eapply (IHa (Some _) (Some _)); eauto.
    + intros HA. match goal with |- context [parse rt uses (Some ?b) (Some ?c) sw a ?s] => destruct (proj2 (IHa (Some b) (Some c) sw s ltac:(reflexivity)) HA) as [[a' s1] Ha] end. rewrite Ha. eauto.
  - split.
    + intros [r H]. pinv H. eapply (IHa (Some _) (Some _)); eauto.
    + intros HA. match goal with |- context [parse rt uses (Some ?b) (Some ?c) sw a ?s] => destruct (proj2 (IHa (Some b) (Some c) sw s ltac:(reflexivity)) HA) as [[a' s1] Ha] end. rewrite Ha. eauto.
  - rewrite <- BC. destruct brk; split; eauto; [intros [r H]|]; discriminate.
  - destruct cont; split; eauto; [intros [r H]|]; discriminate.
  - split.
    + intros [r H]. pinv H. eapply IHa; eauto.
    + intros HA. destruct (proj2 (IHa brk cont sw (next st) BC) HA) as [[a' s1] Ha]. rewrite Ha. eauto.
  - destruct e; [rewrite RT|]; (split; [reflexivity|eauto]).
Qed.
Lemma parse_body_accepts rt uses s u : is_struct_union rt = false -> (exists r, parse_body rt uses s u = Some r) <-> nested false false s = true /\ incl (gotos s) (user_labels s).
Proof.
  intros RT. unfold parse_body. rewrite <- (parse_accepts rt uses s RT None None false (PS u [] None []) eq_refl). split.
  - intros [r H]. pinv H. split; [eauto|]. destruct (parse_labels _ _ _ _ _ _ _ _ _ P) as (L & EL & FL). cbn [p_labels] in EL. rewrite app_nil_r in EL.
    rewrite <- (parse_named _ _ _ _ _ _ _ _ _ P), <- FL, <- EL. apply resolve_some. destruct (resolve (p_labels p) s0) eqn:R; [eauto|discriminate].
  - intros [[[x st] P] I]. rewrite P. destruct (parse_labels _ _ _ _ _ _ _ _ _ P) as (L & EL & FL). cbn [p_labels] in EL. rewrite app_nil_r in EL.
    rewrite <- (parse_named _ _ _ _ _ _ _ _ _ P), <- FL, <- EL in I. apply resolve_some in I as [x' ->]. eauto.
Qed.
Lemma goto_undeclared rt uses s u l : In l (gotos s) -> ~ In l (user_labels s) -> parse_body rt uses s u = None.
Proof.
  intros I N. unfold parse_body. destruct (parse rt uses None None false s (PS u [] None [])) as [[x st]|] eqn:P; [|reflexivity].
  destruct (parse_labels _ _ _ _ _ _ _ _ _ P) as (L & EL & FL). cbn [p_labels] in EL. rewrite app_nil_r in EL. destruct (resolve (p_labels st) x) as [x'|] eqn:R; [|reflexivity].
  exfalso. apply N. rewrite <- FL, <- EL. apply (proj1 (resolve_some _ _) (ex_intro _ _ R)). rewrite (parse_named _ _ _ _ _ _ _ _ _ P). exact I.
Qed.
Lemma parse_label_pairs rt uses L s : forall brk cont sw st x st' x', parse rt uses brk cont sw s st = Some (x, st') -> resolve L x = Some x' ->
  (forall y, In y (p_labels st') <-> In y (label_pairs s x') \/ In y (p_labels st)) /\ incl (goto_pairs s x') L /\ innermost brk cont s x'.
Proof.
  induction s as [ |e|a IHa b IHb|e a IHa b IHb|e a IHa|l h a IHa|a IHa|init e inc a IHa|e a IHa|a IHa e|l| | |l a IHa|e]; intros brk cont sw st x st' x' P R; cbn [parse] in *; pinv P; try (injection P as <- <-); cbn [resolve] in R; rinv R; try (injection R as <-);
    cbn [label_pairs goto_pairs innermost].
  all: try (split; [cbn; tauto|split; [easy|auto]]; fail).
  - destruct (IHa _ _ _ _ _ _ _ P0 P) as (A1 & A2 & A3), (IHb _ _ _ _ _ _ _ P1 P2) as (B1 & B2 & B3). rewrite incl_app_iff. split; [|tauto]. intros y. rewrite B1, A1, in_app_iff. tauto.
  - destruct (IHa _ _ _ _ _ _ _ P0 P) as (A1 & A2 & A3), (IHb _ _ _ _ _ _ _ P1 P2) as (B1 & B2 & B3). rewrite incl_app_iff. split; [|tauto]. intros y. rewrite B1, A1, in_app_iff. cbn [tick p_labels]. tauto.
  - exact (IHa _ _ _ _ _ _ _ P0 P).
  - exact (IHa _ _ _ _ _ _ _ P0 P).
  - exact (IHa _ _ _ _ _ _ _ P0 P).
  - destruct (IHa _ _ _ _ _ _ _ P0 P) as (A1 & A2 & A3). do 2 rewrite (proj1 (tick_opt_same _ _ _)) in A1. rewrite ticks_labels in A1. cbn [next p_labels] in A1. auto.
  - exact (IHa _ _ _ _ _ _ _ P0 P).
  - exact (IHa _ _ _ _ _ _ _ P0 P).
  - split; [cbn; tauto|]. split; [|auto]. intros y [<-|[]]. clear - B. induction L as [|[l' u'] L IH]; cbn [lookup] in B; [discriminate|]. destruct (beq l l') eqn:Q; [apply beq_eq in Q; left; congruence|right; auto].
  - destruct (IHa _ _ _ _ _ _ _ P0 P) as (A1 & A2 & A3). split; [|auto]. intros y. cbn [p_labels In]. rewrite A1. cbn [next p_labels]. tauto.
  - destruct e as [e|]; pinv P; injection P as <- <-; cbn [resolve] in R; injection R as <-; cbn; (split; [tauto|split; [easy|auto]]).
Qed.
Lemma body_pairs rt uses s u x u' : parse_body rt uses s u = Some (x, u') -> incl (goto_pairs s x) (label_pairs s x) /\ innermost None None s x.
Proof.
  unfold parse_body. intros PB. destruct (parse rt uses None None false s (PS u [] None [])) as [[x0 st]|] eqn:P; [|discriminate]. destruct (resolve (p_labels st) x0) as [x1|] eqn:R; [|discriminate].
  injection PB as -> <-. destruct (parse_label_pairs rt uses _ s _ _ _ _ _ _ _ P R) as (A1 & A2 & A3). split; auto. intros y I. apply A2, A1 in I. destruct I as [I|[]]. exact I.
Qed.
