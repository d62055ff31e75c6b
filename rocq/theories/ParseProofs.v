From Verif Require Import Base NodeModel ParseModel ParseSpec.
From Coq Require Import ZifyBool ZifyNat.
Local Notation length := List.length.

(** ** Tables *)
Lemma infix_binary k p o : infix k p o <-> binary k p = Some o.
Proof.
  split.
  - intros (l & N & I). do 10 (destruct k as [|k]; [cbn in N; injection N as <-; cbn in I; repeat (destruct I as [I|I]; [injection I as <- <-; reflexivity|]); destruct I|]). destruct k; discriminate N.
  - intros H. do 10 (destruct k as [|k]; [destruct p; try discriminate H; injection H as <-; eexists; (split; [reflexivity|]); cbn; tauto|]). destruct k, p; discriminate H.
Qed.
Lemma assign_table p o : In (p, o) assignments <-> assign_op p = Some o.
Proof.
  split.
  - intros I. cbn in I. repeat (destruct I as [I|I]; [injection I as <- <-; reflexivity|]). destruct I.
  - intros H. destruct p; try discriminate H; injection H as <-; cbn; tauto.
Qed.
Lemma infix_other j k p o o' : infix j p o -> infix k p o' -> j = k.
Proof.
  rewrite !infix_binary. intros A B. do 10 (destruct j as [|j]; [destruct p; try discriminate A; do 10 (destruct k as [|k]; [try discriminate B; reflexivity|]); destruct k; discriminate B|]). destruct j, p; discriminate A.
Qed.
Lemma infix_lt k p o : infix k p o -> (k < 10)%nat.
Proof. intros (l & N & _). apply (nth_error_Some precedence k). congruence. Qed.

(** ** Enough fuel *)
Definition rk (g : fn) : nat := match g with PPrim => 1 | PPost => 2 | PUnary => 3 | PCast => 4 | PBin k => 5 + min k 9 | PCond => 15 | PAssign => 16 | PExpr => 17 | PArgs _ _ => 18 | _ => 1 end%nat.
Definition eats (g : fn) : nat := match g with PBinLoop _ _ | PPostLoop _ => 0 | _ => 1 end%nat.
Definition fine (g : fn) : Prop := match g with PBin k => (k < 10)%nat | PBinLoop k _ => (k < 10)%nat | _ => True end.
Definition good (g : fn) (ts : list tok) (r : res) : Prop := match r with Fuel => False | Err => True | Ok _ rest => (length rest + eats g <= length ts)%nat end.
Lemma parse_S f g ts : parse (S f) g ts = ltac:(let t := eval cbn [parse] in (parse (S f) g ts) in exact t). Proof. reflexivity. Qed.
Lemma skip_good p g ts k : (forall ts', (length ts' < length ts)%nat -> good g ts (k ts')) -> good g ts (skip p ts k).
Proof. intros H. destruct ts as [|t ts]; [exact I|]. cbn [skip]. destruct (p t); [|exact I]. apply H. cbn. lia. Qed.
Lemma skip_good' p g ts0 ts k : (length ts <= length ts0)%nat -> (forall ts', (length ts' < length ts)%nat -> good g ts0 (k ts')) -> good g ts0 (skip p ts k).
Proof. intros L H. destruct ts as [|t ts]; [exact I|]. cbn [skip]. destruct (p t); [|exact I]. apply H. cbn. lia. Qed.
Lemma bind_good g0 ts0 f g ts k : good g ts (parse f g ts) -> (forall e ts', (length ts' + eats g <= length ts)%nat -> good g0 ts0 (k e ts')) -> good g0 ts0 (bind (parse f g ts) k).
Proof. intros H K. destruct (parse f g ts) as [| |e r]; [destruct H|exact I|]. cbn [bind]. apply K. exact H. Qed.
Lemma good_tail g0 ts0 f g ts : good g ts (parse f g ts) -> (length ts + eats g0 <= length ts0 + eats g)%nat -> good g0 ts0 (parse f g ts).
Proof. intros H L. destruct (parse f g ts) as [| |e r]; auto. unfold good in *. lia. Qed.
Lemma parse_good f : forall g ts, fine g -> (20 * length ts + rk g <= f)%nat -> good g ts (parse f g ts).
Proof.
  induction f as [|f IH]; intros g ts FN L; [destruct g; cbn [rk] in L; lia|]. rewrite parse_S.
  assert (IH': forall g ts0, fine g -> (20 * length ts0 + rk g <= f)%nat -> good g ts0 (parse f g ts0)) by exact IH.
  Ltac call IH' := first
    [ exact I
    | match goal with |- good ?g0 ?ts0 (bind (parse ?f ?g ?ts) ?k) => apply bind_good; [apply IH'; [cbn; try exact I; try lia|cbn [rk length eats fine] in *; lia]|cbn [eats length]; intros ? ? ?] end
    | match goal with |- good ?g0 ?ts0 (parse ?f ?g ?ts) => apply good_tail; [apply IH'; [cbn; try exact I; try lia|cbn [rk length eats fine] in *; lia]|cbn [eats length] in *; lia] end
    | match goal with |- good ?g0 ?ts0 (skip ?p ?ts ?k) => apply skip_good'; [cbn [length] in *; lia|intros ? ?] end
    | match goal with |- good ?g0 ?ts0 (Ok _ _) => cbn [good length eats] in *; lia end ].
  destruct g; cbn [fine rk] in *; cbv zeta; repeat first [call IH' | match goal with |- good _ _ (match ?t with _ => _ end) => destruct t | |- context [parse _ (match ?t with _ => _ end) _] => destruct t end].
Qed.

(** More fuel does not change a result *)
Lemma bind_mono (r r' : res) k k' : (r <> Fuel -> r' = r) -> (forall e ts, k e ts <> Fuel -> k' e ts = k e ts) -> bind r k <> Fuel -> bind r' k' = bind r k.
Proof. intros H K N. destruct r as [| |e ts]; cbn [bind] in *; [congruence|now rewrite H by discriminate|]. rewrite H by discriminate. cbn [bind]. apply K. exact N. Qed.
Lemma skip_mono p ts k k' : (forall ts, k ts <> Fuel -> k' ts = k ts) -> skip p ts k <> Fuel -> skip p ts k' = skip p ts k.
Proof. intros K. destruct ts as [|t ts]; cbn [skip]; [reflexivity|]. destruct (p t); [apply K|reflexivity]. Qed.
Lemma parse_mono f : forall g ts, parse f g ts <> Fuel -> parse (S f) g ts = parse f g ts.
Proof.
  induction f as [|f IH]; intros g ts; [intros H; exfalso; apply H; reflexivity|]. rewrite (parse_S (S f)). rewrite (parse_S f). 
  destruct g; cbv zeta;
  repeat first [ reflexivity | apply IH | apply bind_mono; [apply IH|intros ? ?] | apply skip_mono; intros ? | match goal with |- (match ?t with _ => _ end) <> Fuel -> _ => destruct t end ].
Qed.
Lemma parse_more f f' g ts r : parse f g ts = r -> r <> Fuel -> (f <= f')%nat -> parse f' g ts = r.
Proof. intros H N L. induction L; [exact H|]. rewrite parse_mono; congruence. Qed.
