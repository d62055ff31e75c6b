(** C66, continued: from the tokens of an initializer to the memory of the variable. *)
From Verif Require Import Base TypeModel IntArith NodeModel ValSpec NodeSpec EvalModel RvSpec GenModel GenSpec GenProps ElabSpec InitModel InitSpec InitProofs InitProps.
From Verif Require Import ListModel ListSpec ListProofs ListProps PlaceSpec PlaceProofs.
From Coq Require Import ZifyBool ZifyNat.
Local Notation length := List.length.
Local Notation run := ListSpec.run.
Local Arguments Z.mul : simpl never.

(** Every assigned part that is live is initialised, and nothing else. *)
Theorem C66_elements : forall v t ws e, assigns v t = Some ws -> wf (ity_of t) = true ->
  (In e (elements (ity_of t) (A t ws) 0) <-> exists p o bf ty x, last_at ws p = Some x /\ live t ws [] p = true /\ spot t p = Some (o, bf, ty) /\ e = Elem o bf ty x).
Proof.
  intros v t ws e AS W. assert (HO := A_holds t ws (proj2 (assigns_facts v t ws AS))). rewrite (elements_are t (A t ws) ws HO (proj1 (assigns_tidy v t ws AS)) t [] (A t ws) 0 eq_refl eq_refl W e).
  unfold assigned. split; intros (p & o & bf & ty & x & H1 & H2 & H3 & H4); exists p, o, bf, ty, x; auto.
Qed.

Section Local.
Variable E : env.
(** The object of variable [x] in [m']: every live part with an expression has the bits of
    the value converted to its type, the other bits are 0; [m'] is [m] elsewhere. *)
Definition initialised (x : var) (t : nty) (ws : writes) (val : node -> Z) (m m' : mem) : Prop :=
  (forall p e o bf ty w k, last_at ws p = Some e -> live t ws [] p = true -> spot t p = Some (o, bf, ty) -> conv ty (val e) = Some w -> 0 <= k < width bf ty ->
     bit m' (8 * e_addr E x + (first_bit o bf + k)) = Z.testbit w k) /\
  (forall k, 0 <= k < 8 * isize (ity_of t) -> ~ set_bit t ws k -> bit m' (8 * e_addr E x + k) = false) /\
  (forall a, a < e_addr E x \/ e_addr E x + isize (ity_of t) <= a -> m' a = m a).
(** Initializers that suit their parts, all scalars; their values do not depend on the
    object *)
Definition usable (x : var) (t : nty) (ws : writes) (val : node -> Z) (m : mem) : Prop :=
  forall p e, In (p, e) ws -> exists ty, sub t p = Some (NScal ty) /\ well_typed e = true /\ convertible (ntype e) ty = true /\ settled (ev E false) (e_addr E x) (isize (ity_of t)) m e (val e).
Definition roomy (x : var) (t : nty) : Prop :=
  wf (ity_of t) = true /\ inhabited t = true /\ modest (ity_of t) = true /\ 0 <= e_addr E x /\ e_addr E x + isize (ity_of t) < 2 ^ 64 /\ accessible (e_valid E) (e_addr E x) (isize (ity_of t)) = true.
Lemma conditions v t ws : assigns v t = Some ws -> wf (ity_of t) = true -> inhabited t = true -> InitSpec.shaped (ity_of t) (A t ws) = true.
Proof. intros AS W I. apply shaped_A; [exact I|]. apply (assigns_facts v t ws AS). Qed.

(** T x = v; in a function: the tree made for it has this effect. *)
Theorem C66_local_partial : forall x v t ws rest val m, fits t v = true -> assigns v t = Some ws -> roomy x t -> usable x t ws val m ->
  exists f0 c n u m', (forall fuel, (f0 <= fuel)%nat -> initializer fuel t (ini_toks v ++ rest) = LOk (c, rest)) /\
    lvar_initializer x (ity_of t) c = Some n /\ well_typed n = true /\ ev E false n m = Some (u, m') /\ initialised x t ws val m m'.
Proof.
  intros x v t ws rest val m FT AS (W & I & MD & A0 & A1 & AC) US. destruct (initializer_ok v t ws rest FT AS) as [f0 P]. set (c := A t ws) in *.
  assert (SH := conditions v t ws AS W I). fold c in SH.
  assert (EL : forall e, In e (elements (ity_of t) c 0) -> exists p, In (p, el_expr e) ws /\ exists ty, sub t p = Some (NScal ty) /\ el_ty e = ty).
  { intros e IN. apply (C66_elements v t ws e AS W) in IN. destruct IN as (p & o & bf & ty & y & L & LV & SP & ->). apply last_at_in in L. exists p. split; [exact L|].
    destruct (US _ _ L) as (ty' & S & _). destruct (spot_sub _ _ _ _ _ SP) as (s & S' & ->). exists ty'. split; [exact S|]. cbn. replace s with (NScal ty') by congruence. reflexivity. }
  assert (SC : all_scalar (ity_of t) c).
  { intros e IN. destruct (EL e IN) as (p & _ & ty & S & ->). assert (WS := wf_sub _ _ _ W S). exact WS. }
  assert (SU : suits (ity_of t) c).
  { intros e IN. destruct (EL e IN) as (p & L & ty & S & ->). destruct (US _ _ L) as (ty' & S' & WT & CV & _). split; [exact WT|]. replace ty with ty' by congruence. exact CV. }
  destruct (C56_local_partial E x (ity_of t) c W SH MD SU A0 A1) as (n0 & L0 & WT & _).
  destruct (C56_values_partial E x (ity_of t) c (fun e => val (el_expr e)) m W SH MD SU SC A0 A1 AC) as (n & u & m' & L & EV & B1 & B2 & B3).
  { intros e IN. destruct (EL e IN) as (p & LA & ty & S & _). destruct (US _ _ LA) as (ty' & _ & _ & _ & ST). exact ST. }
  exists f0, c, n, u, m'. split; [exact P|]. split; [exact L|]. split; [congruence|]. split; [exact EV|]. split; [|split; [|exact B3]].
  - intros p e o bf ty w k LA LV SP CV K. assert (IN : In (Elem o bf ty e) (elements (ity_of t) c 0)) by (apply (C66_elements v t ws _ AS W); exists p, o, bf, ty, e; auto).
    exact (B1 _ w k IN CV K).
  - intros k K NS. apply B2; [exact K|]. intros e IN HP. apply NS. apply (C66_elements v t ws e AS W) in IN. destruct IN as (p & o & bf & ty & y & LA & LV & SP & ->).
    exists p, y, o, bf, ty. repeat (split; [assumption|]). exact HP.
Qed.
(** and so has the code. *)
Theorem C66_code_partial : forall W goff fp room x v t ws rest val m, setting E W goff fp -> fits t v = true -> assigns v t = Some ws -> roomy x t -> usable x t ws val m ->
  exists f0 c n m', (forall fuel, (f0 <= fuel)%nat -> initializer fuel t (ini_toks v ++ rest) = LOk (c, rest)) /\ lvar_initializer x (ity_of t) c = Some n /\ initialised x t ws val m m' /\
    forall s code s' q, gen goff false n s = Some (code, s') -> qual false n = Some q -> exists u, computes E W fp room code q (need n) m u m'.
Proof.
  intros W goff fp room x v t ws rest val m HS FT AS RM US. destruct (C66_local_partial x v t ws rest val m FT AS RM US) as (f0 & c & n & u & m' & P & L & WT & EV & IN).
  exists f0, c, n, m'. split; [exact P|]. split; [exact L|]. split; [exact IN|]. intros s code s' q G Q. exists u. exact (C38_expression_code E W goff fp room n false s code s' q m u m' HS WT Q G EV).
Qed.
End Local.
Print Assumptions C66_elements.
Print Assumptions C66_local_partial.
Print Assumptions C66_code_partial.

(** The image of a global variable, if the buffer starts as zeros (but see
    C36_uninitialised_refuted): numbers are converted to the type of their part, addresses
    are relocations, everything else is 0. *)
Theorem C66_global_partial : forall v t ws rest, fits t v = true -> assigns v t = Some ws -> wf (ity_of t) = true -> inhabited t = true -> no_bf t = true ->
  (forall p e, In (p, e) ws -> exists ty, sub t p = Some (NScal ty) /\ exists n lab, eval2 true e = EOk n lab) ->
  exists f0 c img, (forall fuel, (f0 <= fuel)%nat -> initializer fuel t (ini_toks v ++ rest) = LOk (c, rest)) /\ gvar_init (fun _ => 0) (ity_of t) c = Some img /\
    (forall p e o bf ty n, last_at ws p = Some e -> live t ws [] p = true -> spot t p = Some (o, bf, ty) -> eval2 true e = EOk n None -> ty <> TBool ->
       of_bytes ty (le_load (g_buf img) o (Z.to_nat (size_of ty))) = conv ty n) /\
    (forall p e o bf ty n l, last_at ws p = Some e -> live t ws [] p = true -> spot t p = Some (o, bf, ty) -> eval2 true e = EOk n (Some l) -> In (o, l, n) (g_rel img)) /\
    (forall k, ~ set_bit t ws k -> bit (g_buf img) k = false).
Proof.
  intros v t ws rest FT AS W I NB US. destruct (initializer_ok v t ws rest FT AS) as [f0 P]. set (c := A t ws) in *. assert (SH := conditions v t ws AS W I). fold c in SH. assert (CL := clean_no_bf t NB c).
  assert (EL : forall e, In e (elements (ity_of t) c 0) -> el_bf e = None /\ exists p, In (p, el_expr e) ws /\ exists ty, sub t p = Some (NScal ty) /\ el_ty e = ty).
  { intros e IN. apply (C66_elements v t ws e AS W) in IN. destruct IN as (p & o & bf & ty & y & L & LV & SP & ->). split; [exact (spot_no_bf _ _ _ _ _ NB SP)|]. apply last_at_in in L. exists p. split; [exact L|].
    destruct (US _ _ L) as (ty' & S & _). destruct (spot_sub _ _ _ _ _ SP) as (s & S' & ->). exists ty'. split; [exact S|]. cbn. replace s with (NScal ty') by congruence. reflexivity. }
  assert (SC : all_scalar (ity_of t) c) by (intros e IN; destruct (EL e IN) as (_ & p & _ & ty & S & ->); exact (wf_sub _ _ _ W S)).
  assert (EV : forall e, In e (elements (ity_of t) c 0) -> exists n lab, el_value e = EOk n lab).
  { intros e IN. destruct (EL e IN) as (BF & p & L & _). unfold el_value. rewrite BF. destruct (US _ _ L) as (_ & _ & n & lab & X). eauto. }
  destruct (C36_image_partial (fun _ => 0) (ity_of t) c W SH CL SC EV) as (img & G & RL & _).
  destruct (C36_zero_buffer_partial (ity_of t) c W SH CL SC EV) as (img' & G' & B1 & _ & B3). replace img' with img in * by congruence.
  exists f0, c, img. split; [exact P|]. split; [exact G|].
  assert (MK : forall p e o bf ty, last_at ws p = Some e -> live t ws [] p = true -> spot t p = Some (o, bf, ty) -> In (Elem o bf ty e) (elements (ity_of t) c 0)) by (intros; apply (C66_elements v t ws _ AS W); eauto 10).
  split; [|split].
  - intros p e o bf ty n LA LV SP VA NT. assert (IN := MK _ _ _ _ _ LA LV SP). destruct (EL _ IN) as [BF _]. cbn in BF. subst bf. exact (B1 _ n IN VA eq_refl NT).
  - intros p e o bf ty n l LA LV SP VA. assert (IN := MK _ _ _ _ _ LA LV SP). destruct (EL _ IN) as [BF _]. cbn in BF. subst bf. rewrite RL. apply in_flat_map. exists (Elem o None ty e). split; [exact IN|].
    unfold el_reloc, el_value. cbn. rewrite VA. left. reflexivity.
  - intros k NS. apply B3. intros e IN HP. apply NS. apply (C66_elements v t ws e AS W) in IN. destruct IN as (p & o & bf & ty & y & LA & LV & SP & ->).
    exists p, y, o, bf, ty. repeat (split; [assumption|]). exact HP.
Qed.
Print Assumptions C66_global_partial.

(** struct { int f:5; int g:9; short s[2]; } x = { 2, .s[1] = v + 1, .g = -3 } with v variable 2
    of ElabProps (5), x variable 7 *)
Definition px_ty : nty := NStruct 1 8 4 (MCons (n_ "f") 0 (Some (0, 5)) tint (MCons (n_ "g") 0 (Some (5, 9)) tint (MCons (n_ "s") 4 None (NArr (NScal (TShort false)) 2) MNil))).
Definition px_ini : ini := VBr (lst [([], VEx (ListProps.num 2)); ([fd "s"; DIx 1], VEx lx_expr); ([fd "g"], VEx (ListProps.num (-3)))]) false.
Definition px_ws : writes := [([0], ListProps.num 2); ([2; 1], lx_expr); ([1], ListProps.num (-3))]%nat.
Definition px_val (e : node) : Z := match e with NNum _ z => z | _ => 6 end.
Lemma px_roomy : roomy ElabProps.sx_env (VLocal 7) px_ty.
Proof. unfold roomy. split; [vm_compute; reflexivity|]. split; [vm_compute; reflexivity|]. split; [vm_compute; reflexivity|]. split; [vm_compute; congruence|]. split; vm_compute; reflexivity. Qed.
Lemma px_settled : settled (ev ElabProps.sx_env false) (e_addr ElabProps.sx_env (VLocal 7)) 8 ElabProps.sx_mem lx_expr 6.
Proof.
  intros m' O. unfold lx_expr. cbn [ev ntype]. cbn [val_of int_repr negb in_range]. change (in_range true 32 1) with true. cbv iota. unfold load_val. cbn [is_aggregate size_of].
  change (accessible (e_valid ElabProps.sx_env) (e_addr ElabProps.sx_env (VLocal 2)) 4) with true. cbv iota.
  rewrite (GenBits.le_load_ext m' ElabProps.sx_mem); [reflexivity|]. intros k K. f_equal. apply O. right. unfold ElabProps.sx_env, e_addr. cbn. lia.
Qed.
Lemma px_usable : usable ElabProps.sx_env (VLocal 7) px_ty px_ws px_val ElabProps.sx_mem.
Proof.
  intros p e IN. destruct IN as [IN|[IN|[IN|[]]]]; injection IN as <- <-; eexists; (split; [reflexivity|]; split; [reflexivity|]; split; [reflexivity|]).
  - intros m' O. reflexivity.
  - exact px_settled.
  - intros m' O. reflexivity.
Qed.
Example C66_local_nonvacuous : fits px_ty px_ini = true /\ assigns px_ini px_ty = Some px_ws /\ roomy ElabProps.sx_env (VLocal 7) px_ty /\ usable ElabProps.sx_env (VLocal 7) px_ty px_ws px_val ElabProps.sx_mem /\
  map (live px_ty px_ws []) [[0]; [1]; [2; 1]]%nat = [true; true; true] /\ map (spot px_ty) [[0]; [1]; [2; 1]]%nat = [Some (0, Some (0, 5), TInt false); Some (0, Some (5, 9), TInt false); Some (6, None, TShort false)] /\
  exists c n, initializer 20 px_ty (ini_toks px_ini) = LOk (c, []) /\ lvar_initializer (VLocal 7) (ity_of px_ty) c = Some n /\
    value_and (ev ElabProps.sx_env false n ElabProps.sx_mem) (fun m => le_load m (ElabProps.loc 7) 8) = Some (6, 2 + 509 * 2 ^ 5 + 6 * 2 ^ 48).
Proof.
  split; [reflexivity|]. split; [reflexivity|]. split; [exact px_roomy|]. split; [exact px_usable|].
  split; [reflexivity|]. split; [reflexivity|]. do 2 eexists. split; [vm_compute; reflexivity|]. split; [vm_compute; reflexivity|]. vm_compute; reflexivity.
Qed.
(** the list of ListProps as initializer of a global variable *)
Example C66_global_nonvacuous : exists ws, assigns ex_list outer = Some ws /\ fits outer ex_list = true /\ wf (ity_of outer) = true /\ inhabited outer = true /\ no_bf outer = true /\
  (forall p e, In (p, e) ws -> exists ty, sub outer p = Some (NScal ty) /\ exists n lab, eval2 true e = EOk n lab) /\
  last_at ws [0]%nat = Some (ListProps.num 9) /\ live outer ws [] [2; 1]%nat = true /\ live outer ws [] [2; 0]%nat = false /\ spot outer [1; 1; 0]%nat = Some (12, None, TInt false).
Proof.
  eexists. split; [vm_compute; reflexivity|]. do 4 (split; [vm_compute; reflexivity|]). split; [|do 3 (split; [vm_compute; reflexivity|]); vm_compute; reflexivity].
  intros p e IN. repeat (destruct IN as [IN|IN]; [injection IN as <- <-; eexists; split; [reflexivity|]; do 2 eexists; vm_compute; reflexivity|]). destruct IN.
Qed.
