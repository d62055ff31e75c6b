(** Proofs about ProgModel: the functions it makes return what the functions of the program
    return. *)
From Verif Require Import Base TypeModel IntArith NodeModel ValSpec NodeSpec StmtSpec ElabSpec ElabProofs ElabSim ParseModel FrontModel BodyModel BodySpec BodyStatic BodySim FrameModel FrameSpec FrameProofs FunSpec FunProofs ProgModel ProgSpec ProgVars ProgStatic.
From Coq Require Import ZifyBool ZifyNat.
Local Notation length := List.length.

(** ** Where the locals are *)
Lemma combine_nth {A B} (a : list A) (b : list B) : forall i x y, nth_error a i = Some x -> nth_error b i = Some y -> nth_error (combine a b) i = Some (x, y).
Proof. revert b. induction a as [|u a IH]; intros [|w b] [|i] x y X Y; cbn in *; try discriminate; [congruence|auto]. Qed.
Section Frame.
Set Default Proof Using "All".
Variables (h : hfun) (f : func) (temps : list ty) (N : nat) (VS : list nat) (s : stmt) (type_of : nat -> ty) (ts : list ty).
Notation np := (length (h_params h)). Notation k0 := (S np).
Hypothesis FP : map v_ty (f_params f) = h_params h.
Hypothesis FVA : f_variadic f = false.
Hypothesis KN : (k0 <= N)%nat.
Hypothesis FV : f_vars f = map (fun q => plain (type_of q)) (rev (seq k0 (N - k0))).
Hypothesis ND : NoDup VS.
Hypothesis FA : Forall (fun v => k0 <= v < N)%nat VS.
Hypothesis OB : body_objects (h_body h) = numbered k0 ts.
Hypothesis LT : length ts = length VS.
Hypothesis TA : types_agree ts VS type_of.
Hypothesis TE : forall q, (k0 <= q < N)%nat -> ~ In q VS -> In (type_of q) temps.
Hypothesis T8 : Forall (fun t => size_of t = 8) temps.
Variables (offs : list Z) (size fp : Z) (W : Z -> bool).
Hypothesis FR : frame f = Some (offs, size).
Hypothesis LV : Forall lvar_ok (f_locals f).
Hypothesis IP : Forall (fun v => int_repr (v_ty v) <> None) (f_params f).
Hypothesis PL : placed W f size fp.

Definition local_ty (q : nat) : ty := if Nat.ltb q np then nth (np - 1 - q) (h_params h) TVoid else if Nat.eqb q np then TPtr (TChar false) else type_of q.
Definition at_fp (q : nat) : Z := fp + nth (N - 1 - q) offs 0.
Lemma fp_len : length (f_params f) = np. Proof. rewrite <- FP. now rewrite map_length. Qed.
Lemma fv_len : length (f_vars f) = (N - k0)%nat. Proof. rewrite FV, map_length, rev_length, seq_length. reflexivity. Qed.
Lemma loc_len : length (f_locals f) = N. Proof. unfold f_locals. rewrite FVA, !app_length, fv_len, fp_len. cbn [length]. lia. Qed.
Lemma loc_nth q : (q < N)%nat -> exists v, nth_error (f_locals f) (N - 1 - q) = Some v /\ v_ty v = local_ty q.
Proof.
  intros Q. unfold f_locals, local_ty. rewrite FVA. cbn [app]. destruct (Nat.ltb_spec q np) as [A|A].
  - rewrite nth_error_app2 by (rewrite fv_len; lia). rewrite fv_len. replace (N - 1 - q - (N - k0))%nat with (S (np - 1 - q)) by lia. cbn [nth_error]. destruct (nth_error (f_params f) (np - 1 - q)) as [v|] eqn:E; [|apply nth_error_None in E; rewrite fp_len in E; lia]. exists v. split; [reflexivity|]. symmetry. apply nth_error_nth. transitivity (nth_error (map v_ty (f_params f)) (np - 1 - q)); [now rewrite FP|]. rewrite nth_error_map, E. reflexivity.
  - destruct (Nat.eqb_spec q np) as [->|B].
    + rewrite nth_error_app2 by (rewrite fv_len; lia). rewrite fv_len. replace (N - 1 - np - (N - k0))%nat with O by lia. exists alloca_var. split; reflexivity.
    + rewrite nth_error_app1 by (rewrite fv_len; lia). rewrite FV, nth_error_map. exists (plain (type_of q)). split; [|reflexivity].
      assert (E : nth_error (rev (seq k0 (N - k0))) (N - 1 - q) = Some q); [|rewrite E; reflexivity].
      rewrite (nth_error_nth' _ O) by (rewrite rev_length, seq_length; lia). f_equal. rewrite rev_nth by (rewrite seq_length; lia). rewrite seq_length. rewrite seq_nth by lia. lia.
Qed.
Lemma off_nth q : (q < N)%nat -> nth_error offs (N - 1 - q) = Some (nth (N - 1 - q) offs 0).
Proof. intros Q. apply nth_error_nth'. rewrite (ff_len _ _ _ (frame_ok _ _ _ FR LV)), loc_len. lia. Qed.
Lemma in_obj q a : (q < N)%nat -> q <> np -> at_fp q <= a < at_fp q + size_of (local_ty q) -> in_frame f offs fp a = true.
Proof.
  intros Q NE R. destruct (loc_nth q Q) as (v & NV & TV). pose proof (off_nth q Q) as NO. unfold in_frame. apply existsb_exists. exists (nth (N - 1 - q) offs 0, size_of (v_ty v)). split.
  - unfold objects. set (l := combine offs (map (fun v => size_of (v_ty v)) (f_locals f))).
    assert (NL : nth_error l (N - 1 - q) = Some (nth (N - 1 - q) offs 0, size_of (v_ty v))). { apply combine_nth; [exact NO|]. rewrite nth_error_map, NV. reflexivity. }
    apply in_or_app. destruct (Nat.lt_ge_cases (N - 1 - q) (bottom_ix f)) as [B|B].
    + left. apply (nth_error_In _ (N - 1 - q)%nat). rewrite <- NL. rewrite <- (firstn_skipn (bottom_ix f) l) at 2. rewrite nth_error_app1; [reflexivity|]. rewrite firstn_length. assert (N - 1 - q < length l)%nat by (apply nth_error_Some; rewrite NL; discriminate). lia.
    + right. unfold bottom_ix in *. rewrite fv_len in *. assert (B2 : (S (N - k0) <= N - 1 - q)%nat) by lia. apply (nth_error_In _ (N - 1 - q - S (N - k0))%nat). rewrite <- NL. rewrite <- (firstn_skipn (S (N - k0)) l) at 2. assert (N - 1 - q < length l)%nat by (apply nth_error_Some; rewrite NL; discriminate). assert (LF : length (firstn (S (N - k0)) l) = S (N - k0)) by (rewrite firstn_length; lia). rewrite nth_error_app2 by lia. rewrite LF. reflexivity.
  - cbn [fst snd]. rewrite TV. unfold at_fp in R. lia.
Qed.
Lemma size_pos q : (q < N)%nat -> 0 <= size_of (local_ty q).
Proof. intros Q. destruct (loc_nth q Q) as (v & NV & <-). rewrite Forall_forall in LV. exact (proj1 (LV v (nth_error_In _ _ NV))). Qed.
Lemma slot_in q : (q < N)%nat -> fp - size <= at_fp q /\ at_fp q + size_of (local_ty q) <= fp \/ (q < np)%nat /\ fp + 16 <= at_fp q /\ at_fp q + size_of (local_ty q) <= fp + 16 + stack_args np.
Proof.
  intros Q. destruct (loc_nth q Q) as (v & NV & TV). destruct (ff_in _ _ _ (frame_ok _ _ _ FR LV) _ _ _ NV (off_nth q Q)) as [(A & B & _)|(A & B & _)]; unfold at_fp.
  - left. rewrite TV in B. lia.
  - right. unfold bottom_ix in A. rewrite fv_len in A. assert (QP : (q < np)%nat) by lia. split; [exact QP|]. split; [lia|]. pose proof (size_pos q Q) as SP. 
    assert (S1 : 0 < size_of (local_ty q)).
    { assert (I1 : In v (f_params f)). { unfold f_locals in NV. rewrite FVA in NV. cbn [app] in NV. rewrite nth_error_app2 in NV by (rewrite fv_len; lia). rewrite fv_len in NV. replace (N - 1 - q - (N - k0))%nat with (S (np - 1 - q)) in NV by lia. cbn [nth_error] in NV. exact (nth_error_In _ _ NV). }
      rewrite Forall_forall in IP. specialize (IP v I1). rewrite TV in IP. destruct (local_ty q); cbn [int_repr] in IP; try (now contradiction IP); cbn; lia. }
    assert (NE : q <> np) by (clear - QP; lia). assert (IR : at_fp q <= at_fp q + size_of (local_ty q) - 1 < at_fp q + size_of (local_ty q)) by (clear - S1; lia).
    destruct (in_frame_range f offs size fp (at_fp q + size_of (local_ty q) - 1) FR LV FVA IP (in_obj q _ Q NE IR)) as [R|R]; unfold at_fp in R; [lia|]. rewrite fp_len in R. lia.
Qed.
Lemma slot_apart q q' : (q < N)%nat -> (q' < N)%nat -> q <> q' -> at_fp q + size_of (local_ty q) <= at_fp q' \/ at_fp q' + size_of (local_ty q') <= at_fp q.
Proof.
  intros Q Q' NE. destruct (loc_nth q Q) as (v & NV & <-), (loc_nth q' Q') as (v' & NV' & <-). assert (NI : (N - 1 - q)%nat <> (N - 1 - q')%nat) by lia. destruct (ff_apart _ _ _ (frame_ok _ _ _ FR LV) _ _ _ _ _ _ NI NV NV' (off_nth q Q) (off_nth q' Q')); unfold at_fp; lia.
Qed.
Lemma slot_used q a : (q < N)%nat -> at_fp q <= a < at_fp q + size_of (local_ty q) -> 0 < a < 2 ^ 64 /\ W a = false.
Proof. intros Q R. destruct PL as (P1 & P2 & P3). rewrite fp_len in *. destruct (ff_size _ _ _ (frame_ok _ _ _ FR LV)) as [SZ _]. assert (0 <= stack_args np) by (unfold stack_args; lia). destruct (slot_in q Q) as [S1|(_ & S1)]; (split; [lia|apply P3; lia]). Qed.
Lemma slot_mod q : (q < N)%nat -> at_fp q mod 2 ^ 64 = at_fp q.
Proof. intros Q. destruct PL as (P1 & P2 & P3). rewrite fp_len in *. destruct (ff_size _ _ _ (frame_ok _ _ _ FR LV)) as [SZ _]. pose proof (size_pos q Q). apply Z.mod_small. assert (0 <= stack_args np) by (unfold stack_args; lia). destruct (slot_in q Q) as [S1|(_ & S1)]; lia. Qed.

(** ** Where the objects of the program are *)
Lemma in_numbered v t l : forall i, In (v, t) (numbered i l) -> exists j, (j < length l)%nat /\ v = VLocal (i + j) /\ t = nth j l TVoid.
Proof.
  induction l as [|u l IH]; intros i I; [destruct I|]. change (numbered i (u :: l)) with ((VLocal i, u) :: numbered (S i) l) in I. destruct I as [I|I].
  - injection I as <- <-. exists O. cbn. split; [lia|]. split; [f_equal; lia|reflexivity].
  - destruct (IH _ I) as (j & J & -> & ->). exists (S j). cbn [length nth]. split; [lia|]. split; [f_equal; lia|reflexivity].
Qed.
Lemma in_params v t l : In (v, t) (param_objects l) -> exists q, (q < length l)%nat /\ v = VLocal q /\ t = nth (length l - 1 - q) l TVoid.
Proof.
  induction l as [|u l IH]; cbn [param_objects length]; [intros []|]. intros [I|I].
  - injection I as <- <-. exists (length l). split; [lia|]. split; [reflexivity|]. replace (S (length l) - 1 - length l)%nat with O by lia. reflexivity.
  - destruct (IH I) as (q & Q & -> & ->). exists q. split; [lia|]. split; [reflexivity|]. replace (S (length l) - 1 - q)%nat with (S (length l - 1 - q)) by lia. reflexivity.
Qed.
Lemma object_slot o : In o (h_objects h) -> exists q, fst o = VLocal q /\ (q < np)%nat /\ snd o = local_ty q /\ moved k0 VS (fst o) = VLocal q \/
  exists i, (q = nth i VS O) /\ nth_error VS i = Some q /\ fst o = VLocal (k0 + i) /\ snd o = local_ty q /\ moved k0 VS (fst o) = VLocal q.
Proof.
  destruct o as [v t]. unfold h_objects. intros I. apply in_app_or in I as [I|I]; cbn [fst snd].
  - destruct (in_params _ _ _ I) as (q & Q & -> & ->). exists q. left. split; [reflexivity|]. split; [exact Q|]. split; [unfold local_ty; replace (Nat.ltb q np) with true by lia; reflexivity|]. cbn [moved]. replace (Nat.ltb q k0) with true by lia. reflexivity.
  - rewrite OB in I. destruct (in_numbered _ _ _ _ I) as (i & L & -> & ->). rewrite LT in L. exists (nth i VS O). right. exists i. pose proof (nth_error_nth' VS O L) as NE. split; [reflexivity|]. split; [exact NE|]. split; [reflexivity|].
    rewrite Forall_forall in FA. pose proof (FA _ (nth_error_In _ _ NE)) as B. cbv beta in B. split.
    + unfold local_ty. replace (Nat.ltb _ np) with false by lia. replace (Nat.eqb _ np) with false by lia. symmetry. now apply TA.
    + cbn [moved]. replace (Nat.ltb (k0 + i) k0) with false by lia. replace (k0 + i - k0)%nat with i by lia. reflexivity.
Qed.

Variables (addr : bytes -> Z) (V : Z -> bool).
Hypothesis AD : forall n, 0 <= addr n < 2 ^ 64.
Hypothesis VW : forall a, V a = true -> W a = true.
Definition fun_at (v : var) : Z := match v with VGlobal n => addr n | VLocal k => (fp + nth k offs 0) mod 2 ^ 64 end.
Definition obj_at (v : var) : Z := fun_at (position N (moved k0 VS v)).
Lemma fun_at_slot q : (q < N)%nat -> fun_at (position N (VLocal q)) = at_fp q.
Proof. intros Q. cbn [position fun_at]. apply (slot_mod q Q). Qed.
Lemma vs_in q : In q VS -> (k0 <= q < N)%nat. Proof. intros I. rewrite Forall_forall in FA. exact (FA q I). Qed.
Lemma at_slot o : In o (h_objects h) -> exists q, (q < N)%nat /\ q <> np /\ obj_at (fst o) = at_fp q /\ snd o = local_ty q /\ ((q < np)%nat /\ fst o = VLocal q \/ exists i, nth_error VS i = Some q /\ fst o = VLocal (k0 + i)).
Proof.
  intros I. unfold obj_at. destruct (object_slot o I) as (q & [(A & B & C & D)|(i & _ & B & A & C & D)]); exists q.
  - split; [lia|]. split; [lia|]. rewrite D. split; [apply fun_at_slot; lia|]. split; [exact C|]. left. auto.
  - pose proof (vs_in q (nth_error_In _ _ B)) as Q. split; [lia|]. split; [lia|]. rewrite D. split; [apply fun_at_slot; lia|]. split; [exact C|]. right. exists i. auto.
Qed.
Lemma objs_placed : h_placed addr V h obj_at.
Proof.
  split; [reflexivity|]. split.
  - intros o a I R. destruct (at_slot o I) as (q & Q & NE & A & T & _). unfold occupies in R. rewrite A, T in R. destruct (slot_used q a Q R) as [B C]. split; [exact B|]. destruct (V a) eqn:E; [|reflexivity]. rewrite (VW a E) in C. discriminate.
  - intros o o' a I I' R R'. destruct (at_slot o I) as (q & Q & NE & A & T & K), (at_slot o' I') as (q' & Q' & NE' & A' & T' & K'). unfold occupies in R, R'. rewrite A, T in R. rewrite A', T' in R'. destruct (Nat.eq_dec q q') as [<-|D]; [|destruct (slot_apart q q' Q Q' D); lia].
    destruct o as [v t], o' as [v' t']. cbn [fst snd] in *. f_equal; [|congruence]. destruct K as [[K1 K2]|(i & K1 & K2)], K' as [[K1' K2']|(i' & K1' & K2')].
    + congruence.
    + pose proof (vs_in q (nth_error_In _ _ K1')). lia.
    + pose proof (vs_in q (nth_error_In _ _ K1)). lia.
    + rewrite K2, K2'. do 2 f_equal. rewrite <- K1' in K1. apply (proj1 (NoDup_nth_error VS) ND); [|exact K1]. apply nth_error_Some. rewrite K1, K1'. discriminate.
Qed.
Notation hv := (h_valid V h obj_at).
Lemma hv_cases a : hv a = true -> V a = true \/ exists q, (q < N)%nat /\ q <> np /\ ((q < np)%nat \/ In q VS) /\ at_fp q <= a < at_fp q + size_of (local_ty q).
Proof.
  unfold h_valid. intros H. apply orb_prop in H as [H|H]; [now left|right]. apply existsb_exists in H as (o & I & R). destruct (at_slot o I) as (q & Q & NE & A & T & K). rewrite A, T in R. exists q. split; [exact Q|]. split; [exact NE|]. split; [|lia]. destruct K as [[K _]|(i & K & _)]; [now left|right]. exact (nth_error_In _ _ K).
Qed.
Lemma temp_size q : (k0 <= q < N)%nat -> ~ In q VS -> size_of (local_ty q) = 8.
Proof. intros Q NI. unfold local_ty. replace (Nat.ltb q np) with false by lia. replace (Nat.eqb q np) with false by lia. rewrite Forall_forall in T8. apply T8. now apply TE. Qed.
Lemma hv_sub a : hv a = true -> fun_valid W f offs fp a = true.
Proof.
  intros H. unfold fun_valid. destruct (hv_cases a H) as [X|(q & Q & NE & _ & R)]; [now rewrite (VW a X)|]. rewrite (in_obj q a Q NE R). apply orb_true_r.
Qed.
Lemma hv_new a : V a = false -> W a = true -> hv a = false.
Proof. intros A B. destruct (hv a) eqn:H; [|reflexivity]. destruct (hv_cases a H) as [X|(q & Q & NE & _ & R)]; [congruence|]. destruct (slot_used q a Q R) as [_ X]. congruence. Qed.
Lemma temps_others : others (fun v => fun_at (position N v)) hv (fun_valid W f offs fp) k0 N VS.
Proof.
  constructor; [exact hv_sub| | |].
  - intros q Q NI. rewrite fun_at_slot by lia. rewrite <- (temp_size q Q NI). destruct PL as (P1 & P2 & P3). destruct (ff_size _ _ _ (frame_ok _ _ _ FR LV)) as [SZ _]. destruct (slot_in q ltac:(lia)) as [S1|(S1 & _)]; [|lia]. unfold stack_args in P2. lia.
  - intros q a Q NI R. rewrite fun_at_slot in R by lia. rewrite <- (temp_size q Q NI) in R. assert (QN : (q < N)%nat) by lia. assert (QP : q <> np) by lia. split; [unfold fun_valid; rewrite (in_obj q a QN QP R); apply orb_true_r|].
    destruct (hv a) eqn:H; [|reflexivity]. destruct (slot_used q a QN R) as [_ WA]. destruct (hv_cases a H) as [X|(q' & Q' & NE' & K & R')]; [rewrite (VW a X) in WA; discriminate|]. assert (D : q <> q') by (intros <-; destruct K as [K|K]; [lia|contradiction]). destruct (slot_apart q q' QN Q' D); lia.
  - intros i j A B NA NB D. rewrite !fun_at_slot by lia. rewrite <- (temp_size i A NA) at 1. rewrite <- (temp_size j B NB). apply slot_apart; lia.
Qed.
Lemma aside_old a : V a = false -> W a = true -> aside (fun v => fun_at (position N v)) hv k0 N VS a.
Proof.
  intros A B. split; [exact (hv_new a A B)|]. intros q Q NI R. rewrite fun_at_slot in R by lia. rewrite <- (temp_size q Q NI) in R. destruct (slot_used q a ltac:(lia) R) as [_ X]. congruence.
Qed.
Lemma env_at call : env_ok (renumbered (position N) (fun_env addr W f offs fp call)).
Proof. intros v. cbn [renumbered e_addr fun_env]. destruct (position N v); [apply Z.mod_pos_bound; lia|apply AD]. Qed.
Lemma params_at vs m : params_set f offs fp vs m -> h_params_set h obj_at vs m.
Proof.
  intros P i t v NT NV. assert (L : (i < np)%nat) by (apply nth_error_Some; rewrite NT; discriminate). unfold param_number, obj_at. cbn [moved]. replace (Nat.ltb (np - 1 - i) k0) with true by lia. rewrite fun_at_slot by lia. unfold at_fp. replace (N - 1 - (np - 1 - i))%nat with (param_ix f + i)%nat by (unfold param_ix, bottom_ix; rewrite FVA, fv_len; lia).
  rewrite <- FP, nth_error_map in NT. destruct (nth_error (f_params f) i) as [p|] eqn:E; [|discriminate NT]. injection NT as <-. now apply P.
Qed.
Unset Default Proof Using.
End Frame.

(** ** Calls *)
Section Calls.
Variables (addr : bytes -> Z) (hfs : list hfun) (fs : list (func * list ty)).
Hypothesis AD : forall n, 0 <= addr n < 2 ^ 64.
Hypothesis MADE : Forall2 made hfs fs.
Hypothesis FRAMES : forall p, In p fs -> frame (fst p) <> None.
Hypothesis LVS : forall p, In p fs -> Forall lvar_ok (f_locals (fst p)).
Hypothesis IPS : forall p, In p fs -> Forall (fun v => int_repr (v_ty v) <> None) (f_params (fst p)).
Hypothesis T8S : forall p, In p fs -> Forall (fun t => size_of t = 8) (snd p).
Definition merged (V : Z -> bool) (m' m : mem) : mem := fun a => if V a then m' a else m a.
Lemma made_in h : In h hfs -> exists p, In p fs /\ made h p.
Proof. intros I. pose proof MADE as MD. clear - MD I. induction MD as [|a b l l' M _ IH]; [destruct I|]. destruct I as [->|I]; [exists b; split; [now left|exact M]|]. destruct (IH I) as (p & J & X). exists p. split; [now right|exact X]. Qed.
Lemma returns_made n : forall V h p vs m v m' W m2, In p fs -> made h p -> h_returns addr hfs n V h vs m v m' -> (forall a, V a = true -> W a = true) -> agree V m m2 ->
  returns addr (map fst fs) n W (fst p) vs m2 v (merged V m' m2).
Proof.
  induction n as [|n IH]; intros V h p vs m v m' W m2 IN M H VW AG; [destruct H|]. cbn [h_returns] in H. cbn [returns]. pose proof (FRAMES p IN) as FRN. destruct (frame (fst p)) as [[offs size]|] eqn:FR; [|contradiction]. exists offs, size. split; [reflexivity|].
  intros fp PL. destruct M as [N VS s tyf ts M1 M2 M3 M4 M5 M6 M7 M8 M9 M10 M11 M12 M13 M14]. set (at_ := obj_at h N VS offs fp addr).
  assert (HP : h_placed addr V h at_) by exact (objs_placed h (fst p) (snd p) N VS s tyf ts M3 M4 M5 M6 M9 M10 M11 M12 M13 M14 (T8S p IN) offs size fp W FR (LVS p IN) (IPS p IN) PL addr V AD VW).
  destruct (H at_ HP) as (call & OV & CB & BODY). set (hv := h_valid V h at_) in *.
  set (call' := fun fa tys t vs m => match call fa tys t vs m with Some (v, m') => Some (v, merged hv m' m) | None => None end). exists call'. split.
  - intros fa tys t vs1 m3 v1 m3' C. unfold call' in C. destruct (call fa tys t vs1 m3) as [[v2 m4]|] eqn:CA; [|discriminate C]. injection C as <- <-. destruct (CB _ _ _ _ _ _ _ CA) as (g & G1 & G2 & G3 & G4 & G5 & G6). destruct (made_in g G1) as (pg & IG & MG).
    exists (fst pg). split; [now apply in_map|]. pose proof MG as [? ? ? ? ? A1 A2 A3 _ _ _ _ _ _ _ _ _ _ _]. split; [now rewrite A1|]. split; [now rewrite A3|]. split; [now rewrite A2|]. split; [exact G5|].
    apply (IH hv g pg vs1 m3 v2 m4 _ m3 IG MG G6); [|intros a _; reflexivity]. intros a. exact (hv_sub h (fst p) (snd p) N VS s tyf ts M3 M4 M5 M6 M9 M10 M11 M12 M13 M14 (T8S p IN) offs size fp W FR (LVS p IN) (IPS p IN) PL addr V AD VW a).
  - intros m0 AG0 PS. destruct (BODY m0) as (c & m1 & ST & RES & AG1).
    { intros a Va. rewrite (AG a Va). apply AG0. now apply VW. }
    { exact (params_at h (fst p) (snd p) N VS s tyf ts M3 M4 M5 M6 M9 M10 M11 M12 M13 M14 (T8S p IN) offs size fp W FR (LVS p IN) (IPS p IN) PL addr V AD VW vs m0 PS). }
    set (E := renumbered (position N) (fun_env addr W (fst p) offs fp call')).
    assert (CS : calls_same hv call call'). { intros fa tys t vs1 m3 m4 v1 m3' C A. destruct (OV _ _ _ _ _ m4 _ _ C A) as (m4' & C4 & A4). exists (merged hv m4' m4). unfold call'. rewrite C4. split; [reflexivity|]. split; intros a X; unfold merged; rewrite X; [now apply A4|reflexivity]. }
    assert (OT : others (e_addr E) hv (e_valid E) (S (length (h_params h))) N VS) by exact (temps_others h (fst p) (snd p) N VS s tyf ts M3 M4 M5 M6 M9 M10 M11 M12 M13 M14 (T8S p IN) offs size fp W FR (LVS p IN) (IPS p IN) PL addr V AD VW).
    assert (OLD : forall a, V a = false -> W a = true -> aside (e_addr E) hv (S (length (h_params h))) N VS a) by exact (aside_old h (fst p) (snd p) N VS s tyf ts M3 M4 M5 M6 M9 M10 M11 M12 M13 M14 (T8S p IN) offs size fp W FR (LVS p IN) (IPS p IN) PL addr V AD VW).
    assert (EO : env_ok E) by exact (env_at h (fst p) (snd p) N VS s tyf ts M3 M4 M5 M6 M9 M10 M11 M12 M13 M14 (T8S p IN) offs size fp W FR (LVS p IN) (IPS p IN) PL addr V AD VW call').
    assert (M0 : mconf true E hv (S (length (h_params h))) N VS (h_ret h) m0 (HRun (h_body h) HKStop m0) (Run s KStop m0)) by (split; [exact M8|split; [constructor|split; [intros a _; reflexivity|reflexivity]]]).
    destruct (steps_sim true E hv _ N VS (h_ret h) EO OT call CS m0 (h_body h) s M8 _ _ ST _ M0) as (b & SS & MB). apply map_steps in SS.
    assert (FIN : forall m5, like E hv (S (length (h_params h))) N VS m0 m1 m5 -> agree W m5 (merged V m' m2)).
    { intros m5 [L1 L2] a Wa. unfold merged. destruct (V a) eqn:Va; [rewrite <- (AG1 a Va); symmetry; apply L1; unfold hv, h_valid; rewrite Va; reflexivity|]. rewrite (L2 a (OLD a Va Wa)). symmetry. now apply AG0. }
    rewrite M2, M7. destruct RES as [w m5|w m5 R|w m5 R|m5 R]; destruct b as [|w2 m6|m6]; cbn [mconf] in MB; try contradiction.
    + destruct MB as [<- MB]. exists (Returned (Some w) m6), m6. split; [exact SS|]. split; [constructor|now apply FIN].
    + destruct MB as [<- MB]. exists (Returned None m6), m6. split; [exact SS|]. split; [constructor; congruence|now apply FIN].
    + exists (Finished m6), m6. split; [exact SS|]. split; [constructor; congruence|now apply FIN].
    + exists (Finished m6), m6. split; [exact SS|]. split; [constructor; congruence|now apply FIN].
Qed.
End Calls.
