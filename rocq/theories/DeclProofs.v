(** Proofs about declarators. *)
From Verif Require Import Base IntArith DeclModel DeclSpec.
From Coq Require Import ZifyBool ZifyNat.
Local Notation length := List.length.

Lemma declarator_S fuel abstract ts t : declarator (S fuel) abstract ts t =
      match pointers (S (length ts)) ts t with
      | DErr => DErr
      | DFuel => DFuel
      | DOk (t, ts) =>
          match ts with
          | DLPar :: start =>
              match declarator fuel abstract start (Bas voidb) with
              | DErr => DErr
              | DFuel => DFuel
              | DOk (_, _, ts) =>
                  match skip DRPar ts with
                  | None => DErr
                  | Some ts =>
                      match suffix fuel ts t with
                      | DErr => DErr
                      | DFuel => DFuel
                      | DOk (t, rest) =>
                          match declarator fuel abstract start t with
                          | DErr => DErr
                          | DFuel => DFuel
                          | DOk (t, x, _) => DOk (t, x, rest)
                          end
                      end
                  end
              end
          | _ =>
              let (x, ts) := match ts with DId x :: r => if abstract then (None, ts) else (Some x, r) | _ => (None, ts) end in
              match suffix fuel ts t with
              | DErr => DErr
              | DFuel => DFuel
              | DOk (t, rest) => DOk (t, x, rest)
              end
          end
      end.
Proof. reflexivity. Qed.
Lemma suffix_S fuel ts t : suffix (S fuel) ts t =
  match ts with
  | DLPar :: r => func_params (declarator fuel false) (S (S (length r))) r t
  | DLBrk :: r => dimension (suffix fuel) r t
  | _ => DOk (t, ts)
  end.
Proof. reflexivity. Qed.
Lemma params_S decl fuel first ts acc : params decl (S fuel) first ts acc =
      match ts with
      | DRPar :: r => DOk (rev acc, false, r)
      | _ =>
          match (if first then Some ts else skip DComma ts) with
          | None => DErr
          | Some (DDots :: r) => match skip DRPar r with Some r => DOk (rev acc, true, r) | None => DErr end
          | Some ts =>
              let (b, r) := spec ts in
              match decl r b with
              | DOk (t, x, r) => params decl fuel false r ((x, adjust t) :: acc)
              | DErr => DErr
              | DFuel => DFuel
              end
          end
      end.
Proof. reflexivity. Qed.

(** ** Heads and suffixes *)
Inductive suf := SArr (qs : list bool) (n : option (option Z)) | SFun (p : pars).
Definition suf_toks (s : suf) : list dtok := match s with SArr qs n => DLBrk :: map dq_tok qs ++ size_toks n ++ [DRBrk] | SFun p => DLPar :: pars_toks p end.
Definition suf_typ (s : suf) (t : dty) : dty := match s with SArr _ n => arr n t | SFun NoParams => Fun t [] false | SFun (Params l dots) => Fun t (plist_typ l) dots end.
Fixpoint head (d : dir) : dir := match d with Array d _ _ | Func d _ => head d | _ => d end.
Fixpoint sufs (d : dir) : list suf := match d with Array d qs n => sufs d ++ [SArr qs n] | Func d p => sufs d ++ [SFun p] | _ => [] end.
Definition app_suf (d : dir) (s : suf) : dir := match s with SArr qs n => Array d qs n | SFun p => Func d p end.
Lemma dir_split d : dir_toks d = dir_toks (head d) ++ flat_map suf_toks (sufs d) /\ dir_name d = dir_name (head d) /\
  forall t, dir_typ d t = dir_typ (head d) (fold_right suf_typ t (sufs d)).
Proof.
  revert d. fix IH 1. intros [x|d|d qs n|d p]; cbn [head sufs]; try (cbn [flat_map fold_right]; rewrite app_nil_r; auto; fail).
  - destruct (IH d) as (A & B & C). cbn [dir_toks dir_name dir_typ]. rewrite flat_map_app. cbn [flat_map]. rewrite app_nil_r.
    split; [rewrite A, <- app_assoc; reflexivity|]. split; [exact B|]. intros t. rewrite C, fold_right_app. reflexivity.
  - destruct (IH d) as (A & B & C). cbn [dir_toks dir_name dir_typ]. rewrite flat_map_app. cbn [flat_map]. rewrite app_nil_r.
    split; [rewrite A, <- app_assoc; reflexivity|]. split; [exact B|]. intros t. rewrite C, fold_right_app. cbn [fold_right suf_typ]. destruct p; reflexivity.
Qed.
Lemma head_app h l : (forall d, h = d -> head d = d) -> head (fold_left app_suf l h) = h /\ sufs (fold_left app_suf l h) = sufs h ++ l.
Proof.
  intros H. assert (G : forall l d, head (fold_left app_suf l d) = head d /\ sufs (fold_left app_suf l d) = sufs d ++ l).
  { clear. induction l as [|s l IH]; intros d; cbn [fold_left]; [rewrite app_nil_r; auto|]. destruct (IH (app_suf d s)) as [-> ->].
    destruct s; cbn [app_suf head sufs]; rewrite <- app_assoc; auto. }
  destruct (G l h) as [A B]. rewrite A, B. split; [apply H; reflexivity|reflexivity].
Qed.

(** ** Pointers *)
Fixpoint stars (d : dcl) : list (list bool) := match d with Pointer qs d => qs :: stars d | Direct _ => [] end.
Fixpoint core (d : dcl) : dir := match d with Pointer _ d => core d | Direct d => d end.
Definition star_toks (l : list (list bool)) : list dtok := flat_map (fun qs => DStar :: map DQual qs) l.
Definition ptrs (l : list (list bool)) (t : dty) : dty := fold_left (fun t _ => Ptr t) l t.
Lemma dcl_split d : toks d = star_toks (stars d) ++ dir_toks (core d) /\ name d = dir_name (core d) /\ forall t, typ d t = dir_typ (core d) (ptrs (stars d) t).
Proof.
  assert (H : forall d, toks d = star_toks (stars d) ++ dir_toks (core d) /\ name d = dir_name (core d) /\ forall t, typ d t = dir_typ (core d) (ptrs (stars d) t)).
  { fix IH 1. intros [qs e|e]; cbn; [|auto]. destruct (IH e) as (A & B & C). rewrite A, B. split; [cbn; now rewrite <- app_assoc|]. split; [reflexivity|]. intros t. apply C. }
  apply H.
Qed.
Lemma quals_skip qs r : (match r with DQual _ :: _ => False | _ => True end) -> quals (map DQual qs ++ r) = r.
Proof. intros H. induction qs as [|q qs IH]; cbn; [destruct r as [|[] r]; cbn; auto; contradiction|exact IH]. Qed.
Lemma pointers_complete l : forall fuel r t, (length l < fuel)%nat -> (match r with (DStar | DQual _) :: _ => False | _ => True end) ->
  pointers fuel (star_toks l ++ r) t = DOk (ptrs l t, r).
Proof.
  induction l as [|qs l IH]; intros fuel r t L S; destruct fuel as [|fuel]; cbn in L; try lia; cbn [star_toks flat_map app pointers ptrs fold_left].
  - destruct r as [|[] r]; auto; contradiction.
  - rewrite <- app_assoc. rewrite quals_skip; [apply (IH fuel r (Ptr t)); [lia|exact S]|].
    destruct l as [|q l]; cbn; [destruct r as [|[] r]; auto|auto].
Qed.
Lemma pointers_sound fuel : forall ts t t' r, pointers fuel ts t = DOk (t', r) -> exists l, ts = star_toks l ++ r /\ t' = ptrs l t /\ forall t, pointers fuel ts t = DOk (ptrs l t, r).
Proof.
  assert (Q : forall r, exists qs, r = map DQual qs ++ quals r).
  { induction r as [|k r [qs E]]; [exists []; reflexivity|]. destruct k; try (exists []; reflexivity). exists (restrict :: qs). cbn. now rewrite <- E. }
  induction fuel as [|fuel IH]; intros ts t t' r H; [discriminate|]. cbn [pointers] in H. destruct ts as [|k ts]; [injection H as <- <-; exists []; auto|].
  destruct k; try (injection H as <- <-; exists []; cbn; auto; fail).
  destruct (IH _ _ _ _ H) as (l & E & T & P). destruct (Q ts) as [qs EQ]. exists (qs :: l). cbn [star_toks flat_map ptrs fold_left app]. split; [|split; [exact T|intros u; cbn [pointers]; apply P]].
  rewrite EQ at 1. rewrite E. cbn. now rewrite <- app_assoc.
Qed.
Lemma pointers_len fuel ts t t' r : pointers fuel ts t = DOk (t', r) -> (length r <= length ts)%nat.
Proof. intros H. apply pointers_sound in H. destruct H as (l & -> & _). rewrite app_length. lia. Qed.
Lemma pointers_fuel ts : forall fuel t, (length ts < fuel)%nat -> pointers fuel ts t <> DFuel.
Proof.
  assert (Q : forall r, (length (quals r) <= length r)%nat) by (induction r as [|[] r IH]; cbn; lia).
  intros fuel. revert ts. induction fuel as [|fuel IH]; intros ts t L; [lia|]. cbn [pointers]. destruct ts as [|k ts]; [discriminate|]. cbn in L.
  destruct k; try discriminate. apply IH. specialize (Q ts). lia.
Qed.
Lemma pointers_err fuel : forall ts t, pointers fuel ts t <> DErr.
Proof. induction fuel as [|fuel IH]; intros ts t; [discriminate|]. cbn [pointers]. destruct ts as [|[] ts]; try discriminate. apply IH. Qed.

(** ** There is always enough fuel. *)
Lemma skip_len k ts r : skip k ts = Some r -> length ts = S (length r).
Proof. destruct k, ts as [|[] ts]; cbn; intros H; try discriminate; injection H as <-; reflexivity. Qed.
Lemma spec_len ts : (length (snd (spec ts)) <= length ts)%nat.
Proof. destruct ts as [|[] ts]; cbn; lia. Qed.
Lemma dim_quals_len ts : (length (dim_quals ts) <= length ts)%nat.
Proof. induction ts as [|[] ts IH]; cbn; try lia. destruct restrict; cbn; lia. Qed.
Definition good1 (n : nat) (r : dres (dty * list dtok)) : Prop := match r with DOk (_, r) => (length r <= n)%nat | DErr => True | DFuel => False end.
Definition good2 (n : nat) (r : dres (dty * option bytes * list dtok)) : Prop := match r with DOk (_, _, r) => (length r <= n)%nat | DErr => True | DFuel => False end.
Definition good3 (n : nat) (r : dres (list (option bytes * dty) * bool * list dtok)) : Prop := match r with DOk (_, _, r) => (length r <= n)%nat | DErr => True | DFuel => False end.
Lemma params_fuel decl N : (forall ts t, (length ts <= N)%nat -> good2 (length ts) (decl ts t)) -> forall fuel (first : bool) ts acc, (length ts <= N)%nat ->
  ((if first then S (length ts) else length ts) < fuel)%nat -> good3 (length ts) (params decl fuel first ts acc).
Proof.
  intros D. induction fuel as [|fuel IH]; intros first ts acc L F; [destruct first; lia|]. rewrite params_S.
  assert (ST : forall ts1, (length ts1 + (if first then 0 else 1) = length ts)%nat -> good3 (length ts) (let (b, r) := spec ts1 in
     match decl r b with DOk (t, x, r) => params decl fuel false r ((x, adjust t) :: acc) | DErr => DErr | DFuel => DFuel end)).
  { intros ts1 E. pose proof (spec_len ts1) as SL. destruct (spec ts1) as [b r] eqn:ES. cbn [snd] in SL. assert (LR : (length r <= N)%nat) by lia. specialize (D r b LR). destruct (decl r b) as [[[t x] r1]| |]; auto. cbn in D.
    specialize (IH false r1 ((x, adjust t) :: acc) ltac:(lia) ltac:(destruct first; lia)). destruct (params decl fuel false r1 _) as [[[? ?] r2]| |]; auto. cbn in *. lia. }
  destruct ts as [|k ts].
  - destruct first; cbn [skip]; [|exact I]. apply (ST []). reflexivity.
  - assert (C : k = DRPar \/ k <> DRPar) by (destruct k; auto; right; discriminate). destruct C as [->|NK]; [cbn; lia|].
    replace (match k with DRPar => DOk (rev acc, false, ts) | _ =>
       match (if first then Some (k :: ts) else skip DComma (k :: ts)) with None => DErr | Some (DDots :: r) => match skip DRPar r with Some r => DOk (rev acc, true, r) | None => DErr end
         | Some ts => let (b, r) := spec ts in match decl r b with DOk (t, x, r) => params decl fuel false r ((x, adjust t) :: acc) | DErr => DErr | DFuel => DFuel end end end)
      with (match (if first then Some (k :: ts) else skip DComma (k :: ts)) with None => DErr | Some (DDots :: r) => match skip DRPar r with Some r => DOk (rev acc, true, r) | None => DErr end
         | Some ts => let (b, r) := spec ts in match decl r b with DOk (t, x, r) => params decl fuel false r ((x, adjust t) :: acc) | DErr => DErr | DFuel => DFuel end end) by (destruct k; congruence).
    assert (X : exists o, (if first then Some (k :: ts) else skip DComma (k :: ts)) = o /\ forall u, o = Some u -> (length u + (if first then 0 else 1) = length (k :: ts))%nat).
    { eexists. split; [reflexivity|]. intros u E. destruct first; [injection E as <-; cbn; lia|]. apply skip_len in E. lia. }
    destruct X as (o & -> & X). destruct o as [u|]; [|exact I]. specialize (X u eq_refl). specialize (ST u X). cbn [length] in *.
    destruct u as [|k1 u]; [exact ST|]. destruct k1; try exact ST. destruct (skip DRPar u) as [r|] eqn:ES; [|exact I]. apply skip_len in ES. cbn in X. cbn; destruct first; lia.
Qed.
Lemma enough fuel : (forall ts t a, (2 * length ts + 2 <= fuel)%nat -> good2 (length ts) (declarator fuel a ts t)) /\
  (forall ts t, (2 * length ts + 1 <= fuel)%nat -> good1 (length ts) (suffix fuel ts t)).
Proof.
  induction fuel as [|fuel [IH1 IH2]]; [split; intros; lia|]. split.
  - intros ts t a L. rewrite declarator_S. assert (PF := pointers_fuel ts (S (length ts)) t ltac:(lia)).
    destruct (pointers (S (length ts)) ts t) as [[t1 ts1]| |] eqn:EP; [|exact I|congruence]. apply pointers_len in EP.
    assert (NP : good2 (length ts) (let (x, ts2) := match ts1 with DId x :: r => if a then (None, ts1) else (Some x, r) | _ => (None, ts1) end in
      match suffix fuel ts2 t1 with DErr => DErr | DFuel => DFuel | DOk (t, rest) => DOk (t, x, rest) end)).
    { assert (X : exists x ts2, match ts1 with DId x :: r => if a then (None, ts1) else (Some x, r) | _ => (None, ts1) end = (x, ts2) /\ (length ts2 <= length ts1)%nat).
      { destruct ts1 as [|[] r]; try (eexists; eexists; split; [reflexivity|lia]). destruct a; eexists; eexists; (split; [reflexivity|cbn; lia]). }
      destruct X as (x & ts2 & -> & LX). specialize (IH2 ts2 t1 ltac:(lia)). destruct (suffix fuel ts2 t1) as [[t2 r2]| |]; cbn in *; auto. lia. }
    destruct ts1 as [|k ts1]; [exact NP|]. destruct k; try exact NP. clear NP. cbn in EP.
    assert (I1 := IH1 ts1 (Bas voidb) a ltac:(lia)). destruct (declarator fuel a ts1 (Bas voidb)) as [[[t2 x2] r2]| |]; cbn [good1 good2] in *; auto.
    destruct (skip DRPar r2) as [r3|] eqn:E3; [|exact I]. apply skip_len in E3.
    assert (I2 := IH2 r3 t1 ltac:(lia)). destruct (suffix fuel r3 t1) as [[t4 r4]| |]; cbn [good1 good2] in *; auto.
    assert (I3 := IH1 ts1 t4 a ltac:(lia)). destruct (declarator fuel a ts1 t4) as [[[t5 x5] r5]| |]; cbn [good1 good2] in *; auto. lia.
  - intros ts t L. rewrite suffix_S. destruct ts as [|k ts]; [cbn; lia|]. destruct k; try (cbn; lia).
    + unfold func_params. cbn in L. assert (IH3 : forall ts' t', (length ts' <= length ts)%nat -> good2 (length ts') (declarator fuel false ts' t')) by (intros ts' t' H; apply IH1; lia).
      assert (PF := params_fuel (declarator fuel false) (length ts) IH3 (S (S (length ts))) true ts [] (le_n _) ltac:(cbn; lia)).
      assert (PG : good1 (S (length ts)) (match params (declarator fuel false) (S (S (length ts))) true ts [] with DOk (ps, v, r) => DOk (Fun t ps v, r) | DErr => DErr | DFuel => DFuel end)).
      { destruct (params (declarator fuel false) (S (S (length ts))) true ts []) as [[[ps v] r]| |]; cbn [good1 good2] in *; auto. }
      cbn [length]. destruct ts as [|k ts]; [exact PG|]. destruct k; try exact PG. destruct ts as [|k ts]; [exact PG|]. destruct k; try exact PG. cbn. lia.
    + unfold dimension. cbn in L. assert (DL := dim_quals_len ts). destruct (dim_quals ts) as [|k r] eqn:ED; [exact I|]. destruct k; try exact I; cbn in DL.
      * assert (I2 := IH2 r t ltac:(lia)). destruct (suffix fuel r t) as [[t1 r1]| |]; cbn [good1 good2] in *; auto. cbn [length]; lia.
      * destruct (skip DRBrk r) as [r1|] eqn:E1; [|exact I]. apply skip_len in E1.
        assert (I2 := IH2 r1 t ltac:(lia)). destruct (suffix fuel r1 t) as [[t2 r2]| |]; cbn [good1 good2] in *; auto. destruct n as [z|]; [destruct (is_vla t2)|]; cbn; lia.
Qed.

(** ** Completeness *)
Lemma sx32 n : - 2 ^ 31 <= n < 2 ^ 31 -> sx 32 n = n.
Proof. intros H. apply sx_id; lia. Qed.
Definition suf_ok (s : suf) : Prop :=
  match s with
  | SArr _ n => match n with Some (Some z) => 0 <= z < 2 ^ 31 | _ => True end
  | SFun NoParams => True
  | SFun (Params l dots) => plist_taken l /\ (l = PNil -> dots = false) /\ ~ (l = PCons SVoid (Direct (Name None)) PNil /\ dots = false)
  end.
Fixpoint sufs_ok (l : list suf) : Prop := match l with [] => True | s :: l => suf_ok s /\ sufs_ok l /\ match s with SFun _ => l = [] | _ => True end end.
Definition is_arr (s : suf) : Prop := match s with SArr _ _ => True | _ => False end.
Lemma sufs_ok_snoc l s : sufs_ok l -> Forall is_arr l -> suf_ok s -> sufs_ok (l ++ [s]).
Proof.
  intros H F K. induction l as [|a l IH]; cbn in *; [destruct s; auto|]. inversion F as [|? ? A B]; subst. destruct H as (X & Y & _). split; [exact X|]. split; [auto|].
  destruct a; [exact I|contradiction].
Qed.
Lemma dir_taken_split a d : dir_taken a d -> dir_taken a (head d) /\ sufs_ok (sufs d) /\ (no_func d = true -> Forall is_arr (sufs d)) /\
  (nameless (head d) = true -> match sufs d with SFun _ :: _ => False | _ => True end) /\ (head d = d \/ no_func d = false \/ sufs d <> []).
Proof.
  revert d. fix IH 1. intros [x|d|d qs n|d p]; cbn [head sufs].
  - intros H. cbn. repeat split; auto.
  - intros H. cbn in *. repeat split; try tauto; auto.
  - cbn [dir_taken]. intros (H & N & R). destruct (IH d H) as (A & B & C & D & E). specialize (C N). split; [exact A|]. split; [apply sufs_ok_snoc; auto|].
    split; [intros _; apply Forall_app; split; [exact C|repeat constructor]|]. split; [|right; right; destruct (sufs d); discriminate].
    intros K. specialize (D K). destruct (sufs d); [exact I|exact D].
  - cbn [dir_taken]. intros (H & N & M & R). destruct (IH d H) as (A & B & C & D & E). specialize (C N). split; [exact A|].
    split; [apply sufs_ok_snoc; auto; destruct p; exact R|].
    split; [discriminate|]. split; [|right; left; reflexivity].
    intros K. specialize (D K). destruct (sufs d) as [|s l] eqn:ES; cbn [app]; [|exact D]. destruct E as [E|[E|E]]; [rewrite E in K; congruence|congruence|congruence].
Qed.
Lemma taken_core a d : taken a d -> dir_taken a (core d).
Proof. revert d. fix IH 1. intros [qs d|d]; cbn; [apply IH|auto]. Qed.
Lemma head_simple d : match head d with Name _ | Paren _ => True | _ => False end.
Proof. revert d. fix IH 1. intros [x|d|d qs n|d p]; cbn [head]; [exact I|exact I|apply IH|apply IH]. Qed.

Lemma adjust_param t : not_vla t -> adjust t = param_type t.
Proof. destruct t; cbn; intros H; try reflexivity; contradiction. Qed.
Definition no_star (r : list dtok) : Prop := match r with (DStar | DQual _) :: _ => False | _ => True end.
Definition comp (n : nat) : Prop := forall d, (length (toks d) < n)%nat -> forall a, taken a d -> forall rest t fuel, stops rest -> (2 * length (toks d ++ rest) + 2 <= fuel)%nat ->
  declarator fuel a (toks d ++ rest) t = DOk (typ d t, name d, rest).
Lemma spec_taken s r : s <> SNone -> spec (spec_toks s ++ r) = (spec_type s, r).
Proof. destruct s; intros H; [congruence|reflexivity|reflexivity]. Qed.
Definition tail_toks (l : plist) (dots : bool) : list dtok := more_toks l ++ (if dots then [DComma; DDots] else []) ++ [DRPar].
Lemma tail_stops l dots rest : stops (tail_toks l dots ++ rest).
Proof. destruct l; [destruct dots|]; exact I. Qed.
Fixpoint plen (l : plist) : nat := match l with PNil => O | PCons _ _ l => S (plen l) end.
Lemma plen_toks l : (plen l <= length (more_toks l))%nat.
Proof. revert l. fix IH 1. intros [|s d l]; cbn; [lia|]. rewrite !app_length. specialize (IH l). lia. Qed.
Lemma params_comma decl fuel ts acc : (match ts with DDots :: _ => False | _ => True end) -> params decl (S fuel) false (DComma :: ts) acc =
  let (b, r) := spec ts in match decl r b with DOk (t, x, r) => params decl fuel false r ((x, adjust t) :: acc) | DErr => DErr | DFuel => DFuel end.
Proof. intros H. rewrite params_S. cbn [skip]. destruct ts as [|k ts]; [reflexivity|]. destruct k; try reflexivity. contradiction. Qed.
Lemma params_first decl fuel ts acc : (match ts with (DDots | DRPar) :: _ => False | _ => True end) -> params decl (S fuel) true ts acc =
  let (b, r) := spec ts in match decl r b with DOk (t, x, r) => params decl fuel false r ((x, adjust t) :: acc) | DErr => DErr | DFuel => DFuel end.
Proof. intros H. rewrite params_S. destruct ts as [|k ts]; [reflexivity|]. destruct k; try reflexivity; contradiction. Qed.
Lemma params_complete n F : comp n -> forall l dots rest acc fuel, (length (tail_toks l dots) <= n)%nat -> plist_taken l -> (2 * length (tail_toks l dots ++ rest) <= F)%nat -> (plen l < fuel)%nat ->
  params (declarator F false) fuel false (tail_toks l dots ++ rest) acc = DOk (rev acc ++ plist_typ l, dots, rest).
Proof.
  intros C. fix IH 1. intros [|s d l] dots rest acc fuel L T LF P; (destruct fuel as [|fuel]; [lia|]).
  - rewrite params_S. cbn [plist_typ]. rewrite app_nil_r. destruct dots; reflexivity.
  - cbn [plist_taken] in T. destruct T as (N & TD & NV & TL).
    assert (E : tail_toks (PCons s d l) dots ++ rest = DComma :: spec_toks s ++ toks d ++ tail_toks l dots ++ rest).
    { unfold tail_toks. cbn [more_toks]. cbn [app]. now rewrite <- !app_assoc. }
    assert (LE := f_equal (@List.length _) E). cbn [List.length] in LE. rewrite !app_length in LE.
    rewrite E. rewrite app_length in LF.
    assert (ND : match spec_toks s ++ toks d ++ tail_toks l dots ++ rest with DDots :: _ => False | _ => True end) by (destruct s; [congruence|exact I|exact I]).
    rewrite params_comma by exact ND.
    rewrite spec_taken by exact N.
    rewrite (C d) with (a := false); [| |exact TD|apply tail_stops|rewrite !app_length; lia]; [|lia].
    cbn [plen] in P. rewrite (IH l dots rest) with (fuel := fuel); [|lia|exact TL|rewrite app_length; lia|lia].
    cbn [rev plist_typ]. rewrite adjust_param by exact NV. rewrite <- app_assoc. reflexivity.
Qed.
Lemma dir_first d : match dir_toks d with (DRPar | DDots | DVoid | DSpec _ | DComma | DStar | DQual _) :: _ => False | _ => True end.
Proof.
  revert d. fix IH 1. intros [[x|]|d|d qs n|d p]; try exact I.
  - specialize (IH d). cbn [dir_toks]. destruct (dir_toks d) as [|k ks]; [exact I|]. destruct k; cbn; auto.
  - specialize (IH d). cbn [dir_toks]. destruct (dir_toks d) as [|k ks]; [exact I|]. destruct k; cbn; auto.
Qed.
Lemma dcl_first d : match toks d with (DRPar | DDots | DVoid | DSpec _ | DComma) :: _ => False | _ => True end.
Proof. destruct d as [qs d|d]; [exact I|]. assert (K := dir_first d). cbn [toks]. destruct (dir_toks d) as [|[] ?]; auto. Qed.
Lemma pars_complete n F p : comp n -> (length (pars_toks p) <= n)%nat -> suf_ok (SFun p) -> forall rest t, (2 * length (pars_toks p ++ rest) + 2 <= F)%nat ->
  func_params (declarator F false) (S (S (length (pars_toks p ++ rest)))) (pars_toks p ++ rest) t = DOk (suf_typ (SFun p) t, rest).
Proof.
  intros C L T rest t LF. destruct p as [|l dots]; [reflexivity|]. cbn [suf_ok] in T. destruct T as (T & N & V). destruct l as [|s d l].
  - rewrite (N eq_refl). reflexivity.
  - cbn [plist_taken] in T. destruct T as (NS & TD & NV & TL).
    assert (E : pars_toks (Params (PCons s d l) dots) ++ rest = spec_toks s ++ toks d ++ tail_toks l dots ++ rest) by (unfold tail_toks; cbn [pars_toks]; now rewrite <- !app_assoc).
    assert (LE := f_equal (@List.length _) E). rewrite !app_length in LE.
    assert (G : params (declarator F false) (S (S (length (pars_toks (Params (PCons s d l) dots) ++ rest)))) true (spec_toks s ++ toks d ++ tail_toks l dots ++ rest) [] = DOk (plist_typ (PCons s d l), dots, rest)).
    { rewrite params_first; [|destruct s; [congruence|exact I|exact I]]. rewrite spec_taken by exact NS.
      rewrite app_length in LF. assert (S1 : (0 < length (tail_toks l dots))%nat) by (unfold tail_toks; rewrite !app_length; cbn; lia).
      rewrite (C d) with (a := false); [| |exact TD|apply tail_stops|rewrite !app_length; lia]; [|lia].
      assert (PL := plen_toks l). assert (TL2 : (length (more_toks l) <= length (tail_toks l dots))%nat) by (unfold tail_toks; rewrite app_length; lia).
      rewrite (params_complete n F C l dots rest); [|lia|exact TL|rewrite app_length; lia|rewrite app_length; lia].
      cbn [rev app plist_typ]. rewrite adjust_param by exact NV. reflexivity. }
    unfold func_params. rewrite E in *.
    assert (NVD : match spec_toks s ++ toks d ++ tail_toks l dots ++ rest with DVoid :: DRPar :: _ => False | _ => True end).
    { destruct s; [congruence| |exact I]. cbn [spec_toks app]. destruct (toks d) as [|k ks] eqn:ED.
      - assert (ED' : d = Direct (Name None)).
        { destruct d as [qs d|[[x|]|d|d qs m|d p]]; cbn in ED; try discriminate; try reflexivity; apply app_eq_nil in ED; destruct ED as [_ ED]; discriminate. }
        subst d. cbn [app]. destruct l; cbn; [|exact I]. destruct dots; [exact I|]. apply V. auto.
      - cbn [app]. assert (K := dcl_first d). rewrite ED in K. destruct k; auto. }
    rewrite G. destruct (spec_toks s ++ toks d ++ tail_toks l dots ++ rest) as [|[] [|[] ?]]; try reflexivity; contradiction.
Qed.
Lemma dim_quals_skip qs r : (match r with (DStatic | DQual _) :: _ => False | _ => True end) -> dim_quals (map dq_tok qs ++ r) = r.
Proof. intros H. induction qs as [|[] qs IH]; cbn; auto. destruct r as [|[] r]; cbn; auto; contradiction. Qed.
Lemma suf_complete n : comp n -> forall l, (length (flat_map suf_toks l) <= n)%nat -> sufs_ok l -> forall rest t F, stops rest -> (2 * length (flat_map suf_toks l ++ rest) + 1 <= F)%nat ->
  suffix F (flat_map suf_toks l ++ rest) t = DOk (fold_right suf_typ t l, rest).
Proof.
  intros C. induction l as [|s l IH]; intros L T rest t F S LF; (destruct F as [|F]; [lia|]); rewrite suffix_S.
  - cbn. destruct rest as [|[] rest]; auto; contradiction.
  - cbn [sufs_ok] in T. destruct T as (TS & TL & K). cbn [flat_map] in *. rewrite app_length in L. rewrite <- app_assoc in *. destruct s as [qs m|p].
    + cbn [suf_toks app]. unfold dimension. rewrite <- !app_assoc. cbn [suf_toks] in L, LF. cbn [List.length] in L, LF.
      cbn [app] in LF. cbn [List.length] in LF. rewrite !app_length in LF. rewrite !app_length in L.
      assert (I1 : suffix F (flat_map suf_toks l ++ rest) t = DOk (fold_right suf_typ t l, rest)) by (apply IH; [lia|exact TL|exact S|rewrite app_length; lia]).
      rewrite dim_quals_skip by (destruct m; exact I). cbn [fold_right suf_typ]. destruct m as [[z|]|]; cbn [size_toks app skip]; rewrite I1.
      * cbn in TS. unfold array_of. rewrite sx32 by lia. cbn [arr]. destruct (fold_right suf_typ t l); reflexivity.
      * reflexivity.
      * reflexivity.
    + subst l. cbn [suf_toks app flat_map]. cbn [suf_toks app flat_map List.length] in L, LF. rewrite app_length in LF.
      rewrite (pars_complete n); [reflexivity|exact C|lia|exact TS|rewrite app_length; lia].
Qed.
Lemma stars_len st : (length st <= length (star_toks st))%nat.
Proof. induction st as [|q st IH]; [cbn; lia|]. unfold star_toks in *. cbn [flat_map List.length app]. rewrite app_length. lia. Qed.
Lemma complete n : comp n.
Proof.
  induction n as [|n IH]; [intros d L; lia|]. intros d L a T rest t fuel S LF. destruct fuel as [|fuel]; [lia|]. rewrite declarator_S.
  destruct (dcl_split d) as (ET & EN & EY). apply taken_core in T. destruct (dir_split (core d)) as (ET2 & EN2 & EY2). destruct (dir_taken_split a (core d) T) as (TH & TS & _ & NL & _).
  rewrite ET, ET2 in *. rewrite EN, EN2, EY, EY2. rewrite <- !app_assoc in *. rewrite !app_length in L, LF.
  set (st := stars d) in *. set (h := head (core d)) in *. set (l := sufs (core d)) in *.
  assert (STL : (length st <= length (star_toks st))%nat) by apply stars_len.
  assert (NS : no_star (dir_toks h ++ flat_map suf_toks l ++ rest)).
  { assert (K := dir_first h). destruct (dir_toks h) as [|k ks]; [|destruct k; try exact I; contradiction]. destruct l as [|[] l]; cbn; auto. destruct rest as [|[] rest]; auto. }
  rewrite pointers_complete; [|rewrite !app_length; lia|exact NS].
  assert (SU : forall t, suffix fuel (flat_map suf_toks l ++ rest) t = DOk (fold_right suf_typ t l, rest)).
  { intros t1. apply (suf_complete n); [exact IH|lia|exact TS|exact S|rewrite ?app_length in *; lia]. }
  assert (HS := head_simple (core d)). fold h in HS. destruct h as [x|e|e qs m|e p] eqn:EH; try contradiction.
  - cbn [dir_toks dir_name dir_typ dir_taken] in *.
    destruct x as [id|].
    + destruct a; [specialize (TH eq_refl); discriminate|]. cbn [app]. rewrite SU. reflexivity.
    + specialize (NL eq_refl). cbn [app].
      assert (W : match flat_map suf_toks l ++ rest with (DLPar | DId _) :: _ => False | _ => True end).
      { destruct l as [|[] l']; cbn; auto. destruct rest as [|[] rest]; auto. }
      specialize (SU (ptrs st t)). destruct (flat_map suf_toks l ++ rest) as [|k u]; [rewrite SU; reflexivity|]. destruct k; try contradiction; rewrite SU; reflexivity.
  - cbn [dir_toks dir_name dir_typ dir_taken] in *. destruct TH as [TE NE]. cbn [app]. rewrite <- !app_assoc in *. cbn [app] in *. cbn [List.length] in L, LF. rewrite app_length in L, LF. cbn [List.length] in L, LF.
    assert (D : forall t, declarator fuel a (toks e ++ DRPar :: flat_map suf_toks l ++ rest) t = DOk (typ e t, name e, DRPar :: flat_map suf_toks l ++ rest)).
    { intros t1. apply IH; [lia|exact TE|exact I|]. rewrite app_length in *. cbn [List.length] in *. rewrite ?app_length in *. lia. }
    rewrite D. cbn [skip]. rewrite SU, D. reflexivity.
Qed.

(** ** Soundness *)
Definition suf_plain (s : suf) : Prop :=
  match s with
  | SArr _ n => match n with Some (Some z) => - 2 ^ 31 <= z < 2 ^ 31 | _ => True end
  | SFun NoParams => True
  | SFun (Params l _) => plist_plain l
  end.
Definition build (st : list (list bool)) (h : dir) (l : list suf) : dcl := fold_right Pointer (Direct (fold_left app_suf l h)) st.
Lemma build_stars st h l : stars (build st h l) = st /\ core (build st h l) = fold_left app_suf l h.
Proof. unfold build. induction st as [|q st [A B]]; cbn [fold_right stars core]; [auto|]. rewrite A. auto. Qed.
Lemma build_spec st h l : head h = h -> sufs h = [] -> toks (build st h l) = star_toks st ++ dir_toks h ++ flat_map suf_toks l /\
  name (build st h l) = dir_name h /\ forall t, typ (build st h l) t = dir_typ h (fold_right suf_typ (ptrs st t) l).
Proof.
  intros HH HS. destruct (build_stars st h l) as [A B]. destruct (dcl_split (build st h l)) as (T & N & Y). rewrite A, B in *.
  destruct (dir_split (fold_left app_suf l h)) as (T2 & N2 & Y2). destruct (head_app h l) as [C D]; [intros d <-; exact HH|]. rewrite HS in D. cbn in D.
  rewrite C, D in *. rewrite T, N, T2, N2. split; [reflexivity|]. split; [reflexivity|]. intros t. rewrite Y. apply Y2.
Qed.
Lemma build_plain st h l : plain (build st h l) -> dir_plain h /\ Forall suf_plain l.
Proof.
  unfold build. intros H. assert (P : dir_plain (fold_left app_suf l h)) by (induction st; cbn in H; auto). clear H. revert h P.
  induction l as [|s l IH]; intros h P; cbn in P; [auto|]. apply IH in P. destruct P as [P Q]. destruct s as [qs n|p]; cbn in P; destruct P as [P1 P2].
  - split; [exact P1|]. constructor; [exact P2|exact Q].
  - split; [exact P1|]. constructor; [destruct p; exact P2|exact Q].
Qed.
Definition dsound (decl : list dtok -> dty -> dres (dty * option bytes * list dtok)) : Prop := forall ts t0 t0' x r, decl ts t0 = DOk (t0', x, r) ->
  exists d, ts = toks d ++ r /\ x = name d /\ forall t, exists t', decl ts t = DOk (t', x, r) /\ (plain d -> t' = typ d t).
Definition ssound (suf : list dtok -> dty -> dres (dty * list dtok)) : Prop := forall ts t0 t0' r, suf ts t0 = DOk (t0', r) ->
  exists l, ts = flat_map suf_toks l ++ r /\ forall t, exists t', suf ts t = DOk (t', r) /\ (Forall suf_plain l -> t' = fold_right suf_typ t l).
Lemma skip_sound k ts r : skip k ts = Some r -> ts = k :: r.
Proof. destruct k, ts as [|[] ts]; cbn; intros H; try discriminate; injection H as <-; reflexivity. Qed.
Lemma spec_sound ts b r : spec ts = (b, r) -> exists s, ts = spec_toks s ++ r /\ b = spec_type s.
Proof.
  destruct ts as [|k ts]; cbn; [injection 1 as <- <-; exists SNone; auto|]. destruct k; cbn; injection 1 as <- <-; try (exists SNone; split; reflexivity).
  - exists (SSpec b0). auto.
  - exists SVoid. auto.
Qed.
Lemma params_sound decl : dsound decl -> forall fuel ts acc ps v r, params decl fuel false ts acc = DOk (ps, v, r) ->
  exists l, ts = tail_toks l v ++ r /\ (plist_plain l -> ps = rev acc ++ plist_typ l).
Proof.
  intros D. induction fuel as [|fuel IH]; intros ts acc ps v r H; [discriminate|].
  destruct ts as [|k ts]; [discriminate|]. destruct k; try discriminate.
  - rewrite params_S in H. injection H as <- <- <-. exists PNil. split; [reflexivity|]. intros _. cbn. now rewrite app_nil_r.
  - assert (C : (exists u, ts = DDots :: u) \/ match ts with DDots :: _ => False | _ => True end) by (destruct ts as [|[] ts]; eauto).
    destruct C as [[u ->]|C].
    + rewrite params_S in H. cbn [skip] in H. destruct u as [|[] u]; try discriminate. injection H as <- <- <-. exists PNil. split; [reflexivity|]. intros _. cbn. now rewrite app_nil_r.
    + rewrite params_comma in H by exact C. destruct (spec ts) as [b r1] eqn:ES. apply spec_sound in ES. destruct ES as (s & -> & ->).
      destruct (decl r1 (spec_type s)) as [[[t x] r2]| |] eqn:ED; try discriminate. destruct (D _ _ _ _ _ ED) as (d & -> & -> & T). destruct (T (spec_type s)) as (t' & E & TY).
      rewrite ED in E. injection E as <-. apply IH in H. destruct H as (l & -> & P). exists (PCons s d l). split; [unfold tail_toks; cbn [more_toks]; cbn [app]; now rewrite <- !app_assoc|].
      cbn [plist_plain]. intros (P1 & P2 & P3). rewrite (P P3). cbn [rev plist_typ]. rewrite <- app_assoc. cbn [app]. rewrite (TY P1), adjust_param by exact P2. reflexivity.
Qed.
Lemma pars_sound decl : dsound decl -> forall fuel ts t0 t0' r, func_params decl fuel ts t0 = DOk (t0', r) ->
  exists p, ts = pars_toks p ++ r /\ forall t, exists t', func_params decl fuel ts t = DOk (t', r) /\ (suf_plain (SFun p) -> t' = suf_typ (SFun p) t).
Proof.
  intros D fuel ts t0 t0' r H. assert (C : (exists u, ts = DVoid :: DRPar :: u) \/ match ts with DVoid :: DRPar :: _ => False | _ => True end) by (destruct ts as [|[] [|[] ts]]; eauto).
  destruct C as [[u ->]|C].
  - cbn in H. injection H as <- <-. exists NoParams. split; [reflexivity|]. intros t. eexists. split; [reflexivity|]. reflexivity.
  - assert (FE : forall t, func_params decl fuel ts t = match params decl fuel true ts [] with DOk (ps, v, r) => DOk (Fun t ps v, r) | DErr => DErr | DFuel => DFuel end).
    { intros t. unfold func_params. destruct ts as [|[] [|[] ts]]; try reflexivity. contradiction. }
    rewrite FE in H. destruct (params decl fuel true ts []) as [[[ps v] r1]| |] eqn:EP; try discriminate. injection H as <- <-.
    assert (G : exists l, ts = pars_toks (Params l v) ++ r1 /\ (plist_plain l -> ps = plist_typ l)).
    { destruct fuel as [|fuel]; [discriminate|].
      assert (C2 : (exists u, ts = DRPar :: u) \/ (exists u, ts = DDots :: u) \/ match ts with (DDots | DRPar) :: _ => False | _ => True end) by (destruct ts as [|[] ts]; eauto).
      destruct C2 as [[u ->]|[[u ->]|C2]].
      - rewrite params_S in EP. injection EP as <- <- <-. exists PNil. split; reflexivity.
      - rewrite params_S in EP. destruct u as [|[] u]; try discriminate. injection EP as <- <- <-. exists PNil. split; reflexivity.
      - rewrite params_first in EP by exact C2. destruct (spec ts) as [b r2] eqn:ES. apply spec_sound in ES. destruct ES as (s & -> & ->).
        destruct (decl r2 (spec_type s)) as [[[t x] r3]| |] eqn:ED; try discriminate. destruct (D _ _ _ _ _ ED) as (d & -> & -> & T). destruct (T (spec_type s)) as (t' & E & TY).
        rewrite ED in E. injection E as <-. apply (params_sound decl D) in EP. destruct EP as (l & -> & P). exists (PCons s d l).
        split; [unfold tail_toks; cbn [pars_toks]; now rewrite <- !app_assoc|].
        cbn [plist_plain]. intros (P1 & P2 & P3). rewrite (P P3). cbn [rev plist_typ app]. rewrite (TY P1), adjust_param by exact P2. reflexivity. }
    destruct G as (l & G1 & G2). exists (Params l v). split; [exact G1|]. intros t. exists (Fun t ps v). rewrite FE. split; [reflexivity|]. cbn. intros P. now rewrite (G2 P).
Qed.
Lemma dim_quals_sound ts : exists qs, ts = map dq_tok qs ++ dim_quals ts.
Proof.
  induction ts as [|k ts [qs E]]; [exists []; reflexivity|]. destruct k; try (exists []; reflexivity).
  - destruct restrict; [|exists []; reflexivity]. exists (false :: qs). cbn. now rewrite <- E.
  - exists (true :: qs). cbn. now rewrite <- E.
Qed.
Lemma sound fuel : (forall a, dsound (declarator fuel a)) /\ ssound (suffix fuel).
Proof.
  induction fuel as [|fuel [IH1 IH2]]; [split; [intros a|]; intros ts; discriminate|]. split.
  - intros a ts t0 t0' x r H. assert (HH := H). rewrite declarator_S in H.
    destruct (pointers (S (length ts)) ts t0) as [[t1 ts1]| |] eqn:EP; try discriminate. apply pointers_sound in EP. destruct EP as (st & ETS & -> & NS).
    assert (PT : forall t, pointers (S (length ts)) ts t = DOk (ptrs st t, ts1)).
    { exact NS. }
    assert (C : (exists u, ts1 = DLPar :: u) \/ match ts1 with DLPar :: _ => False | _ => True end) by (destruct ts1 as [|[] ts1]; eauto).
    destruct C as [[u ->]|C].
    + destruct (declarator fuel a u (Bas voidb)) as [[[t2 x2] r2]| |] eqn:E2; try discriminate. destruct (IH1 a _ _ _ _ _ E2) as (d & EU & -> & TD).
      destruct (skip DRPar r2) as [r3|] eqn:E3; try discriminate. apply skip_sound in E3. subst r2.
      destruct (suffix fuel r3 (ptrs st t0)) as [[t4 r4]| |] eqn:E4; try discriminate. destruct (IH2 _ _ _ _ E4) as (l & ER & TL).
      destruct (declarator fuel a u t4) as [[[t5 x5] r5]| |] eqn:E5; try discriminate. injection H as <- <- <-.
      destruct (TD t4) as (t5' & E5' & _). rewrite E5 in E5'. injection E5' as -> -> ->.
      destruct (build_spec st (Paren d) l eq_refl eq_refl) as (BT & BN & BY). exists (build st (Paren d) l).
      rewrite BT, BN. split; [rewrite ETS, EU, ER; cbn [dir_toks app]; rewrite <- !app_assoc; cbn [app]; rewrite <- ?app_assoc; reflexivity|]. split; [reflexivity|].
      intros t. rewrite declarator_S, PT, E2. cbn [skip]. destruct (TL (ptrs st t)) as (t6 & E6 & K6). rewrite E6. destruct (TD t6) as (t7 & E7 & K7). rewrite E7.
      exists t7. split; [reflexivity|]. intros P. apply build_plain in P. destruct P as [P1 P2]. rewrite BY. cbn [dir_typ]. rewrite <- (K6 P2). apply K7. exact P1.
    + set (xr := match ts1 with DId x :: r => if a then (None, ts1) else (Some x, r) | _ => (None, ts1) end).
      assert (DD : forall t, declarator (S fuel) a ts t = let (x, ts) := xr in match suffix fuel ts (ptrs st t) with DErr => DErr | DFuel => DFuel | DOk (t, rest) => DOk (t, x, rest) end).
      { intros t. rewrite declarator_S, PT. unfold xr. destruct ts1 as [|[] ts1]; try reflexivity. contradiction. }
      assert (XR : ts1 = dir_toks (Name (fst xr)) ++ snd xr).
      { unfold xr. destruct ts1 as [|[] ts1]; try reflexivity. destruct a; reflexivity. }
      clear H. rename HH into H. rewrite DD in H. destruct xr as [x2 ts2]. cbn [fst snd] in XR.
      destruct (suffix fuel ts2 (ptrs st t0)) as [[t4 r4]| |] eqn:E4; try discriminate. destruct (IH2 _ _ _ _ E4) as (l & ER & TL). injection H as <- <- <-.
      destruct (build_spec st (Name x2) l eq_refl eq_refl) as (BT & BN & BY). exists (build st (Name x2) l).
      rewrite BT, BN. split; [rewrite ETS, XR, ER; rewrite <- !app_assoc; reflexivity|]. split; [reflexivity|].
      intros t. rewrite DD. destruct (TL (ptrs st t)) as (t6 & E6 & K6). rewrite E6. exists t6. split; [reflexivity|]. intros P. apply build_plain in P. destruct P as [P1 P2]. rewrite BY. exact (K6 P2).
  - intros ts t0 t0' r H. rewrite suffix_S in H.
    destruct ts as [|k ts]; [injection H as <- <-; exists []; split; [reflexivity|]; intros t; exists t; split; reflexivity|].
    destruct k; try (injection H as <- <-; exists []; split; [reflexivity|]; intros t; exists t; split; reflexivity).
    + destruct (pars_sound _ (IH1 false) _ _ _ _ _ H) as (p & -> & T). exists [SFun p]. split; [cbn; now rewrite app_nil_r|]. intros t. rewrite suffix_S.
      destruct (T t) as (t' & E & K). exists t'. split; [exact E|]. intros P. inversion P. cbn [fold_right]. auto.
    + destruct (dim_quals_sound ts) as [qs EQ]. unfold dimension in H. destruct (dim_quals ts) as [|k r1] eqn:ED; try discriminate. destruct k; try discriminate.
      * destruct (suffix fuel r1 t0) as [[t1 r2]| |] eqn:E1; try discriminate. injection H as <- <-. destruct (IH2 _ _ _ _ E1) as (l & ER & TL). exists (SArr qs None :: l).
        split; [rewrite EQ, ER; cbn; rewrite <- !app_assoc; reflexivity|]. intros t. rewrite suffix_S. unfold dimension. rewrite ED. destruct (TL t) as (t' & E & K). rewrite E.
        eexists. split; [reflexivity|]. intros P. inversion P. cbn [fold_right suf_typ arr]. rewrite <- K by assumption. reflexivity.
      * destruct (skip DRBrk r1) as [r3|] eqn:E3; try discriminate. assert (E3' := E3). apply skip_sound in E3. subst r1.
        destruct (suffix fuel r3 t0) as [[t1 r2]| |] eqn:E1; try discriminate. destruct (IH2 _ _ _ _ E1) as (l & ER & TL).
        assert (r2 = r) by (destruct n; [destruct (is_vla t1)|]; injection H; auto). subst r2. exists (SArr qs (Some n) :: l).
        split; [rewrite EQ, ER; cbn; rewrite <- !app_assoc; reflexivity|]. intros t. rewrite suffix_S. unfold dimension. rewrite ED, E3'. destruct (TL t) as (t' & E & K). rewrite E.
        destruct n as [z|].
        -- exists (if is_vla t' then Vla t' else array_of t' z). split; [destruct (is_vla t'); reflexivity|]. intros P. inversion P as [|? ? P1 P2]; subst. cbn [fold_right suf_typ arr]. rewrite <- K by assumption.
           unfold array_of. cbn in P1. rewrite sx32 by lia. destruct t'; reflexivity.
        -- eexists. split; [reflexivity|]. intros P. inversion P as [|? ? P1 P2]; subst. cbn [fold_right suf_typ arr]. rewrite <- K by assumption. reflexivity.
Qed.

(** ** Writing a type down and reading it back *)
Lemma unwind_ok : forall t, valid t -> forall a d, taken a d -> (match t with Arr _ _ | Vla _ => no_func (direct d) = true | Fun _ _ _ => no_func (direct d) = true /\ nameless (direct d) = false | _ => True end) ->
  taken a (snd (unwind t d)) /\ name (snd (unwind t d)) = name d /\ typ (snd (unwind t d)) (Bas (fst (unwind t d))) = typ d t.
Proof.
  assert (DT : forall a d, taken a d -> dir_taken a (direct d)).
  { intros a [qs d|d] H; cbn [direct dir_taken]; [|exact H]. split; [exact H|reflexivity]. }
  assert (DN : forall d, dir_name (direct d) = name d) by (intros [qs d|d]; reflexivity).
  assert (DY : forall d t, dir_typ (direct d) t = typ d t) by (intros [qs d|d] t; reflexivity).
  fix IH 1. intros [b|t|n t|t|r ps v] V a d TD S; cbn [unwind].
  - cbn. auto.
  - cbn [valid] in V. destruct (IH t V a (Pointer [] d)) as (A & B & C); [exact TD|destruct t; cbn; auto|]. split; [exact A|]. split; [exact B|exact C].
  - cbn [valid] in V. destruct V as (V & R & K). destruct (IH t V a (Direct (Array (direct d) [] (if n =? -1 then None else Some (Some n))))) as (A & B & C).
    + cbn [taken dir_taken]. split; [apply DT, TD|]. split; [exact S|]. destruct (Z.eqb_spec n (-1)); [exact I|lia].
    + destruct t; cbn; auto; contradiction.
    + split; [exact A|]. split; [rewrite B; cbn; apply DN|]. rewrite C. cbn [typ dir_typ]. rewrite DY. f_equal. destruct (Z.eqb_spec n (-1)); cbn [arr]; [now subst n|]. destruct t; auto; contradiction.
  - cbn [valid] in V. destruct V as (V & K). destruct (IH t V a (Direct (Array (direct d) [] (Some None)))) as (A & B & C).
    + cbn [taken dir_taken]. split; [apply DT, TD|]. split; [exact S|]. exact I.
    + destruct t; cbn; auto; contradiction.
    + split; [exact A|]. split; [rewrite B; cbn; apply DN|]. rewrite C. cbn [typ dir_typ]. rewrite DY. reflexivity.
  - cbn [valid] in V. destruct V as (V & K & VP & VD).
    set (pl := (fix all (l : list (option bytes * dty)) := match l with [] => PNil | (x, t) :: l => let (b, d) := unwind t (Direct (Name x)) in PCons (SSpec b) d (all l) end) ps).
    assert (P : plist_taken pl /\ plist_typ pl = ps /\ (pl = PNil -> ps = []) /\ (match pl with PCons SVoid _ _ => False | _ => True end)).
    { subst pl. clear VD S TD d K V v r a. revert ps VP. fix IHp 1. intros [|[x t] ps] VP; [cbn; auto|]. destruct VP as (V & E & NV & VP). destruct (IHp ps VP) as (A & B & _).
      destruct (IH t V false (Direct (Name x))) as (A1 & B1 & C1); [intros ?; discriminate|destruct t; cbn; auto; discriminate|].
      destruct (unwind t (Direct (Name x))) as [b d]. cbn [fst snd] in *. cbn [plist_taken plist_typ spec_type]. rewrite C1, B1, B. cbn [typ dir_typ name dir_name]. rewrite E.
      repeat split; auto; try discriminate. destruct t; cbn in E |- *; auto; discriminate. }
    destruct P as (P1 & P2 & P3 & P4).
    destruct (IH r V a (Direct (Func (direct d) (Params pl v)))) as (A & B & C).
    + cbn [taken dir_taken]. destruct S as [S1 S2]. split; [apply DT, TD|]. split; [exact S1|]. split; [exact S2|]. split; [exact P1|]. split; [|intros [E _]; rewrite E in P4; exact P4].
      intros E. destruct v; [|reflexivity]. exfalso. apply VD; [reflexivity|]. apply P3. exact E.
    + destruct r; auto; contradiction.
    + split; [exact A|]. split; [rewrite B; cbn; apply DN|]. rewrite C. cbn [typ dir_typ]. rewrite DY, P2. reflexivity.
Qed.
