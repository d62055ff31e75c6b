From Verif Require Import Base TypeModel IntArith NodeModel ValSpec NodeSpec NodeProofs GenBits ElabSpec.
From Coq Require Import ZifyBool ZifyNat.
Local Notation length := List.length.
Local Arguments Z.mul : simpl never. Local Arguments Z.add : simpl never. Local Arguments Z.sub : simpl never. Local Arguments Z.pow : simpl never. Local Arguments Z.modulo : simpl never.

(** ** Types: int and an enumerated type are interchangeable *)
Definition ei (t : ty) : bool := match t with TEnum | TInt false => true | _ => false end.
Definition teq (a b : ty) : Prop := a = b \/ (ei a = true /\ ei b = true).
Lemma teq_refl a : teq a a. Proof. now left. Qed.
Lemma ei_cases t : ei t = true -> t = TEnum \/ t = TInt false. Proof. destruct t as [| | | |[]| | | | | | | | | | |]; cbn; auto; discriminate. Qed.
Lemma teq_all a b : teq a b -> int_repr a = int_repr b /\ base_of a = base_of b /\ size_of a = size_of b /\ is_numeric a = is_numeric b /\ is_integer a = is_integer b /\ (forall z, conv a z = conv b z) /\ (forall o x y, bin_val o a x y = bin_val o b x y) /\ is_arith a = is_arith b /\ pointee a = pointee b /\ is_su a = is_su b /\ valued a = valued b /\ promote a = promote b /\ is_struct_union a = is_struct_union b /\ is_aggregate a = is_aggregate b.
Proof.
  intros [->|[A B]]; [repeat split; reflexivity|]. apply ei_cases in A, B. destruct A as [->| ->], B as [->| ->]; repeat split; reflexivity.
Qed.
Lemma teq_eq a b : teq a b -> ei b = false -> a = b. Proof. intros [->|[_ B]]; [auto|congruence]. Qed.
Lemma arith_repr t : is_arith t = true -> exists s n, int_repr t = Some (s, n). Proof. destruct t; cbn; try discriminate; eauto. Qed.
Lemma gct_arith a b : is_arith a = true -> is_arith b = true -> teq (get_common_type a b) (usual (promote a) (promote b)).
Proof. intros A B. destruct a as [| |[]|[]|[]|[]| | | | | | | | | |], b as [| |[]|[]|[]|[]| | | | | | | | | |]; try discriminate; vm_compute; auto. Qed.
Lemma promote_arith t : is_arith t = true -> is_arith (promote t) = true. Proof. destruct t as [| |[]|[]|[]|[]| | | | | | | | | |]; cbn; auto. Qed.
Lemma usual_arith a b : is_arith a = true -> is_arith b = true -> is_arith (usual a b) = true. Proof. intros A B. unfold usual. repeat destruct (_ =? _); repeat destruct (_ <? _); destruct (is_unsigned a); auto. Qed.
Lemma promote_na t : is_arith t = false -> promote t = t. Proof. destruct t; cbn; auto; discriminate. Qed.
Lemma pointee_promote t : pointee (promote t) = pointee t. Proof. destruct t as [| |[]|[]|[]|[]| | | | | | | | | |]; reflexivity. Qed.
Lemma arith_promote_iff t : is_arith (promote t) = is_arith t. Proof. destruct t as [| |[]|[]|[]|[]| | | | | | | | | |]; reflexivity. Qed.
Lemma arith_pointee t : is_arith t = true -> pointee t = None. Proof. destruct t; cbn; auto; discriminate. Qed.
Lemma arith_base t : is_arith t = true -> base_of t = None. Proof. destruct t; cbn; auto; discriminate. Qed.
Lemma arith_numeric t : is_arith t = true -> is_numeric t = true. Proof. destruct t; cbn; auto; discriminate. Qed.
Lemma arith_integer t : is_arith t = true -> is_integer t = true. Proof. destruct t; cbn; auto; discriminate. Qed.
Lemma pointee_base t b : pointee t = Some b -> base_of t = Some b /\ is_numeric t = false /\ valued t = true. Proof. destruct t; cbn; try discriminate; auto. Qed.
Lemma gct_ptr a b bt : pointee a = Some bt -> get_common_type a b = TPtr bt. Proof. intros H. apply pointee_base in H as (H & _). unfold get_common_type. now rewrite H. Qed.
Lemma gct_num_ptr a b : is_arith a = true -> get_common_type a (TPtr b) = TPtr b. Proof. destruct a as [| |[]|[]|[]|[]| | | | | | | | | |]; try discriminate; intros _; reflexivity. Qed.
Lemma scalar_conv t x : scalar t = true -> exists v, conv t x = Some v.
Proof. unfold scalar. destruct t; cbn; try discriminate; eauto. Qed.
Lemma arith_scalar t : is_arith t = true -> scalar t = true. Proof. unfold scalar. destruct t; cbn; auto. Qed.
Lemma arith_valued t : is_arith t = true -> valued t = true. Proof. destruct t; cbn; auto; discriminate. Qed.
Lemma convertible_valued f t : valued f = true -> convertible f t = true \/ is_su t = true.
Proof. intros V. unfold convertible, valued, scalar in *. destruct t; auto; left; destruct f; cbn in *; auto. Qed.
Lemma convertible_scalar f t : valued f = true -> scalar t = true -> convertible f t = true.
Proof. intros V S. destruct (convertible_valued f t V) as [C|C]; auto. destruct t; cbn in *; discriminate. Qed.

(** ** Evaluation, one node at a time *)
Lemma ev_cast E t l m x m1 v : convertible (ntype l) t = true -> ev E false l m = Some (x, m1) -> conv t x = Some v -> ev E false (NCast t l) m = Some (v, m1).
Proof. intros C L V. cbn [ev]. rewrite C. cbn [orb negb]. rewrite L, V. reflexivity. Qed.
Lemma ev_bin E o t l r m m1 m2 x y v : ev E false r m = Some (y, m1) -> ev E false l m1 = Some (x, m2) -> bin_val o (match o with Eq | Ne | Lt | Le => ntype l | _ => t end) x y = Some v -> ev E false (NBin o t l r) m = Some (v, m2).
Proof. intros R L V. cbn [ev]. rewrite R, L, V. reflexivity. Qed.
Lemma ev_num E t v m : val_of t v = true -> ev E false (NNum t v) m = Some (v, m). Proof. intros H. cbn [ev]. now rewrite H. Qed.
Lemma ev_arith E o l r m m1 m2 x y x' y' v t : t = get_common_type (ntype l) (ntype r) -> scalar t = true -> valued (ntype l) = true -> valued (ntype r) = true ->
  ev E false r m = Some (y, m1) -> ev E false l m1 = Some (x, m2) -> conv t x = Some x' -> conv t y = Some y' -> bin_val o t x' y' = Some v ->
  ev E false (mk_arith o l r) m = Some (v, m2).
Proof.
  intros -> S VL VR R L CX CY B. unfold mk_arith. eapply ev_bin; [eapply ev_cast; [now apply convertible_scalar|exact R|exact CY]|eapply ev_cast; [now apply convertible_scalar|exact L|exact CX]|]. destruct o; exact B.
Qed.
Lemma ev_compare E o l r m m1 m2 x y x' y' v t : t = get_common_type (ntype l) (ntype r) -> scalar t = true -> valued (ntype l) = true -> valued (ntype r) = true -> (o = Eq \/ o = Ne \/ o = Lt \/ o = Le) ->
  ev E false r m = Some (y, m1) -> ev E false l m1 = Some (x, m2) -> conv t x = Some x' -> conv t y = Some y' -> bin_val o t x' y' = Some v ->
  ev E false (mk_compare o l r) m = Some (v, m2).
Proof.
  intros -> S VL VR O R L CX CY B. unfold mk_compare. eapply ev_bin; [eapply ev_cast; [now apply convertible_scalar|exact R|exact CY]|eapply ev_cast; [now apply convertible_scalar|exact L|exact CX]|]. destruct O as [->|[->|[->| ->]]]; exact B.
Qed.

(** ** Numbers *)
Lemma sx_mod64 z : 0 <= (sx 64 z) mod 2 ^ 64. Proof. apply Z.mod_pos_bound. lia. Qed.
Lemma in_range_conv t s n v : int_repr t = Some (s, n) -> t <> TBool -> in_range s n v = true -> conv t v = Some v.
Proof.
  intros R NB IR. assert (N: 1 <= n) by (destruct t; cbn in R; try discriminate; injection R as <- <-; lia). unfold in_range in IR. destruct s.
  - assert (E: conv t v = Some (sx n v)) by (destruct t; cbn in R |- *; try discriminate; try (injection R as B <-); try rewrite B; try reflexivity; congruence). rewrite E. f_equal. apply sx_unique; [lia|apply eqm_refl|lia].
  - assert (E: conv t v = Some (v mod 2 ^ n)) by (destruct t; cbn in R |- *; try discriminate; try (injection R as B <-); try rewrite B; try reflexivity; congruence). rewrite E. f_equal. apply Z.mod_small. lia.
Qed.
Lemma conv_long y u : conv (TLong u) y = Some (if u then y mod 2 ^ 64 else sx 64 y). Proof. destruct u; reflexivity. Qed.
Lemma conv_ptr b y : conv (TPtr b) y = Some (y mod 2 ^ 64). Proof. reflexivity. Qed.
Lemma gct_long t : is_arith t = true -> get_common_type t (TLong false) = TLong (match t with TLong true => true | _ => false end).
Proof. destruct t as [| |[]|[]|[]|[]| | | | | | | | | |]; try discriminate; intros _; reflexivity. Qed.
Lemma arith_range64 t v : is_arith t = true -> val_of t v = true -> t <> TLong true -> -2 ^ 63 <= v < 2 ^ 63.
Proof. unfold val_of, in_range. destruct t as [| |[]|[]|[]|[]| | | | | | | | | |]; try discriminate; cbn; intros _ H N; try congruence; rewrite ?andb_true_iff, ?Z.leb_le, ?Z.ltb_lt in H; lia. Qed.
Lemma mul_ev E r s m m1 y : is_arith (ntype r) = true -> val_of (ntype r) y = true -> 0 < s < 2 ^ 31 -> in_range true 64 (y * s) = true -> ev E false r m = Some (y, m1) ->
  exists w, ev E false (mk_arith Mul r (NNum (TLong false) s)) m = Some (w, m1) /\ eqm 64 w (y * s).
Proof.
  intros A V S R EV. pose proof (gct_long _ A) as G. set (u := match ntype r with TLong true => true | _ => false end) in *.
  assert (NV: val_of (TLong false) s = true) by (unfold val_of; cbn [int_repr negb]; unfold in_range; change (2 ^ (64 - 1)) with 9223372036854775808; change (2 ^ 31) with 2147483648 in S; lia).
  assert (SC: forall c d e, conv (TLong u) y = Some c -> conv (TLong u) s = Some d -> bin_val Mul (TLong u) c d = Some e -> ev E false (mk_arith Mul r (NNum (TLong false) s)) m = Some (e, m1)).
  { intros c d e C D B. eapply ev_arith; [symmetry; exact G|reflexivity|now apply arith_valued|reflexivity|apply ev_num; exact NV|exact EV|exact C|exact D|exact B]. }
  rewrite (conv_long y), (conv_long s) in SC. unfold in_range in R. change (2 ^ (64 - 1)) with (2 ^ 63) in *. destruct u eqn:U.
  - eexists. split; [eapply SC; [reflexivity|reflexivity|cbn [bin_val]; unfold fit; cbn [int_repr negb]; reflexivity]|]. unfold eqm. rewrite Zmod_mod. rewrite <- Zmult_mod. reflexivity.
  - assert (NU: ntype r <> TLong true) by (intros Q; unfold u in U; rewrite Q in U; discriminate). pose proof (arith_range64 _ _ A V NU) as RY.
    exists (y * s). split; [|apply eqm_refl]. eapply SC; [reflexivity|reflexivity|]. cbn [bin_val]. rewrite (sx_id 64 y), (sx_id 64 s) by (change (2 ^ (64 - 1)) with (2 ^ 63); change (2 ^ 31) with 2147483648 in S; change (2 ^ 63) with 9223372036854775808 in *; lia).
    unfold fit. cbn [int_repr negb]. unfold in_range. change (2 ^ (64 - 1)) with (2 ^ 63). rewrite R. reflexivity.
Qed.
Lemma mul_type r s : is_arith (ntype r) = true -> exists u, ntype (mk_arith Mul r (NNum (TLong false) s)) = TLong u.
Proof. intros A. unfold mk_arith. cbn [ntype]. rewrite gct_long by exact A. eauto. Qed.
Lemma complete_size b : complete b = true -> 0 < size_of b < 2 ^ 31. Proof. unfold complete. destruct b; intros; try discriminate; lia. Qed.
Lemma ptr_op_ev E (o : bop) l r b x y m m1 m2 v : (o = Add \/ o = Sub) -> pointee (ntype l) = Some b -> is_arith (ntype r) = true -> complete b = true -> val_of (ntype r) y = true ->
  ev E false r m = Some (y, m1) -> ev E false l m1 = Some (x, m2) -> (match o with Add => ptr_add b x y | _ => ptr_sub b x y end) = Some v ->
  ev E false (mk_arith o l (mk_arith Mul r (NNum (TLong false) (size_of b)))) m = Some (v, m2).
Proof.
  intros O P A C V R L PV. assert (RG: in_range true 64 (y * size_of b) = true) by (unfold ptr_add, ptr_sub in PV; destruct O as [->| ->]; destruct (in_range true 64 (y * size_of b)); congruence).
  destruct (mul_ev E r (size_of b) m m1 y A V (complete_size _ C) RG R) as (w & EW & QW). destruct (mul_type r (size_of b) A) as (u & TU).
  eapply ev_arith; [symmetry; apply gct_ptr; exact P|reflexivity|apply (pointee_base _ _ P)|rewrite TU; reflexivity|exact EW|exact L|apply conv_ptr|apply conv_ptr|].
  unfold ptr_add, ptr_sub in PV. rewrite RG in PV. destruct O as [->| ->]; cbn [bin_val]; unfold fit; cbn [int_repr]; rewrite <- PV; f_equal.
  - apply eqm_add; [lia|apply eqm_mod|]. eapply eqm_trans; [apply eqm_mod|exact QW].
  - apply eqm_sub; [lia|apply eqm_mod|]. eapply eqm_trans; [apply eqm_mod|exact QW].
Qed.
Lemma ptr_diff_ev E l r b b2 x y m m1 m2 v : pointee (ntype l) = Some b -> pointee (ntype r) = Some b2 -> complete b = true ->
  ev E false r m = Some (y, m1) -> ev E false l m1 = Some (x, m2) -> ptr_diff b x y = Some v ->
  ev E false (mk_arith Div (NBin Sub (TLong false) l r) (NNum (TInt false) (size_of b))) m = Some (v, m2).
Proof.
  intros P P2 C R L PV. pose proof (complete_size _ C) as S. unfold ptr_diff in PV. destruct (in_range true 64 (x - y)) eqn:RG; [|discriminate]. destruct ((x - y) mod size_of b =? 0) eqn:D; [|discriminate]. cbn [andb] in PV. injection PV as <-.
  assert (SUB: ev E false (NBin Sub (TLong false) l r) m = Some (x - y, m2)) by (eapply ev_bin; [exact R|exact L|]; cbn [bin_val]; unfold fit; cbn [int_repr negb]; rewrite RG; reflexivity).
  assert (NV: val_of (TInt false) (size_of b) = true) by (unfold val_of; cbn [int_repr negb]; unfold in_range; change (2 ^ (32 - 1)) with (2 ^ 31); lia).
  unfold in_range in RG. change (2 ^ (64 - 1)) with (2 ^ 63) in RG. change (2 ^ 31) with 2147483648 in S.
  eapply (ev_arith E Div _ _ m m m2 (x - y) (size_of b) (x - y) (size_of b) _ (TLong false)); [reflexivity|reflexivity|reflexivity|reflexivity|apply ev_num; exact NV|exact SUB| | |].
  - rewrite conv_long. f_equal. apply sx_id; change (2 ^ (64 - 1)) with (2 ^ 63); lia.
  - rewrite conv_long. f_equal. apply sx_id; [lia|]. change (2 ^ (64 - 1)) with 9223372036854775808. lia.
  - cbn [bin_val]. replace (size_of b =? 0) with false by lia. apply Z.eqb_eq in D. assert (Q: Z.quot (x - y) (size_of b) = (x - y) / size_of b).
    { apply Z.mod_divide in D as (k & K); [|lia]. rewrite K, Z.quot_mul, Z.div_mul by lia. reflexivity. }
    rewrite Q. unfold fit. cbn [int_repr negb]. unfold in_range. change (2 ^ (64 - 1)) with (2 ^ 63).
    apply Z.mod_divide in D as (k & K); [|lia]. rewrite K, Z.div_mul by lia. replace ((- 2 ^ 63 <=? k) && (k <? 2 ^ 63)) with true; [reflexivity|]. change (2 ^ 63) with 9223372036854775808 in *. symmetry. apply andb_true_iff. rewrite K in RG. clear - RG S. split; nia.
Qed.

(** ** Binary operators *)
Definition su_free (t : ty) : Prop := valued t = true.
Lemma ptr_val t b v : pointee t = Some b -> val_ok false t v -> 0 <= v < 2 ^ 64.
Proof. intros P V. apply (base_addr t); [unfold has_base; apply pointee_base in P as (P & _); now rewrite P|exact V]. Qed.
Lemma arith_val t v : is_arith t = true -> val_ok false t v -> val_of t v = true.
Proof. intros A V. destruct (arith_repr _ A) as (s & n & R). eapply val_ok_val; eauto. Qed.
Lemma usual_scalar a b : is_arith a = true -> is_arith b = true -> scalar (usual (promote a) (promote b)) = true.
Proof. intros A B. apply arith_scalar, usual_arith; now apply promote_arith. Qed.
Lemma arith_ev E o l r m m1 m2 x y v : is_arith (ntype l) = true -> is_arith (ntype r) = true ->
  ev E false r m = Some (y, m1) -> ev E false l m1 = Some (x, m2) -> arith_op o (promote (ntype l)) (promote (ntype r)) x y = Some v ->
  ev E false (mk_arith o l r) m = Some (v, m2) /\ ((o = Eq \/ o = Ne \/ o = Lt \/ o = Le) -> ev E false (mk_compare o l r) m = Some (v, m2)).
Proof.
  intros A B R L AV. destruct (teq_all _ _ (gct_arith _ _ A B)) as (TR & _ & _ & _ & _ & TC & TB & _). set (u := usual (promote (ntype l)) (promote (ntype r))) in *. set (g := get_common_type (ntype l) (ntype r)) in *.
  unfold arith_op in AV. fold u in AV. destruct (conv u x) as [x'|] eqn:CX; [|discriminate]. destruct (conv u y) as [y'|] eqn:CY; [|discriminate].
  assert (SG: scalar g = true) by (unfold scalar; rewrite TR; apply (usual_scalar _ _ A B)). rewrite <- TC in CX, CY. rewrite <- TB in AV. pose proof (arith_valued _ A). pose proof (arith_valued _ B). split.
  - eapply (ev_arith E o l r); eauto.
  - intros O. eapply (ev_compare E o l r); eauto.
Qed.
Definition shift_ok (o : sop) (t : ty) : Prop := match o with SShl | SShr => 4 <= size_of t | _ => True end.
Definition null_ok (o : sop) (ta tb : ty) : Prop := match o with SEq | SNe => ~ (is_arith ta = true /\ is_array tb = true) | _ => True end.
Lemma wide_promote t : is_arith t = true -> 4 <= size_of t -> teq t (promote t).
Proof. destruct t as [| |[]|[]|[]|[]| | | | | | | | | |]; cbn; try discriminate; intros _ H; try lia; try apply teq_refl; right; auto. Qed.
Lemma base_pointee t : valued t = true -> base_of t = pointee t. Proof. destruct t; cbn; auto; discriminate. Qed.
Lemma has_base_pointee t : valued t = true -> has_base t = match pointee t with Some _ => true | None => false end. Proof. intros V. unfold has_base. now rewrite base_pointee. Qed.
Lemma pointee_arith t b : pointee t = Some b -> is_arith t = false. Proof. destruct t; cbn; auto; discriminate. Qed.
Definition order_ev E (rf : bool) l r m x y m2 : Prop :=
  if rf then exists m1, ev E false r m = Some (y, m1) /\ ev E false l m1 = Some (x, m2)
  else exists m1, ev E false l m = Some (x, m1) /\ ev E false r m1 = Some (y, m2).
Lemma bin_ptr x : 0 <= x < 2 ^ 64 -> conv (TPtr TVoid) x = Some x. Proof. intros. rewrite conv_ptr. f_equal. now apply Z.mod_small. Qed.
Lemma compare_ev E o l r m m1 m2 x y v : (o = Eq \/ o = Ne \/ o = Lt \/ o = Le) -> valued (ntype l) = true -> valued (ntype r) = true -> ~ (is_arith (ntype l) = true /\ is_array (ntype r) = true) ->
  is_arith (ntype l) = true \/ pointee (ntype l) <> None -> val_ok false (ntype l) x -> val_ok false (ntype r) y ->
  ev E false r m = Some (y, m1) -> ev E false l m1 = Some (x, m2) -> compare_op o (promote (ntype l)) (promote (ntype r)) x y = Some v ->
  ev E false (mk_compare o l r) m = Some (v, m2).
Proof.
  intros O VL VR NA HL VX VY R L CV. unfold compare_op in CV. rewrite !arith_promote_iff, !pointee_promote in CV. destruct (is_arith (ntype l)) eqn:AL.
  - destruct (is_arith (ntype r)) eqn:AR; cbn [andb] in CV; [now apply (arith_ev E o l r m m1 m2 x y v AL AR R L CV)|]. rewrite (arith_pointee _ AL) in CV. destruct (pointee (ntype r)) as [b|] eqn:P; [|discriminate]. destruct (x =? 0) eqn:X0; [|discriminate]. apply Z.eqb_eq in X0. subst x.
    assert (TR: ntype r = TPtr b) by (destruct (ntype r); cbn in P; try discriminate; [congruence|exfalso; apply NA; auto]). assert (G: get_common_type (ntype l) (ntype r) = TPtr b) by (rewrite TR; now apply gct_num_ptr). pose proof (ptr_val _ _ _ P VY) as RY.
    eapply (ev_compare E o l r m m1 m2 0 y 0 y v (TPtr b)); auto. rewrite conv_ptr. f_equal. now apply Z.mod_small.
  - cbn [andb] in CV. destruct (pointee (ntype l)) as [b|] eqn:P.
    2:{ exfalso. destruct HL; congruence. }
    pose proof (gct_ptr _ (ntype r) _ P) as G. pose proof (ptr_val _ _ _ P VX) as RX. assert (CX: conv (TPtr b) x = Some x) by (rewrite conv_ptr; f_equal; now apply Z.mod_small).
    destruct (pointee (ntype r)) as [b2|] eqn:P2.
    + pose proof (ptr_val _ _ _ P2 VY) as RY. eapply (ev_compare E o l r m m1 m2 x y x y v (TPtr b)); auto. rewrite conv_ptr. f_equal. now apply Z.mod_small.
    + destruct (y =? 0) eqn:Y0; [|discriminate]. apply Z.eqb_eq in Y0. subst y. eapply (ev_compare E o l r m m1 m2 x 0 x 0 v (TPtr b)); auto.
Qed.
(** The operators, from the types of the operands to the value of the node *)
Lemma same_repr_teq a b : scalar a = true -> teq a b -> same_repr a b = true.
Proof. intros S T. destruct (teq_all _ _ T) as (R & _). unfold scalar in S. destruct (int_repr a) as [[s n]|] eqn:E; [|discriminate]. unfold same_repr. rewrite E, <- R. now rewrite eqb_reflx, Z.eqb_refl. Qed.
Lemma scalar_self t : scalar t = true -> same_repr t t = true. Proof. intros S. apply same_repr_teq; [exact S|apply teq_refl]. Qed.
Lemma mk_arith_wt o l r : well_typed l = true -> well_typed r = true -> scalar (get_common_type (ntype l) (ntype r)) = true -> (match o with Eq | Ne | Lt | Le | Shl | Shr => False | _ => True end) -> well_typed (mk_arith o l r) = true.
Proof. intros L R S O. unfold mk_arith. cbn [well_typed ntype]. rewrite L, R, (scalar_self _ S). destruct o; try contradiction; reflexivity. Qed.
Lemma mk_compare_wt o l r : well_typed l = true -> well_typed r = true -> scalar (get_common_type (ntype l) (ntype r)) = true -> (o = Eq \/ o = Ne \/ o = Lt \/ o = Le) -> well_typed (mk_compare o l r) = true.
Proof. intros L R S O. unfold mk_compare. cbn [well_typed ntype]. rewrite L, R, (scalar_self _ S). destruct O as [->|[->|[->| ->]]]; reflexivity. Qed.
Lemma gct_scalar a b : is_arith a = true -> is_arith b = true -> scalar (get_common_type a b) = true.
Proof. intros A B. destruct (teq_all _ _ (gct_arith _ _ A B)) as (R & _). unfold scalar. rewrite R. apply (usual_scalar _ _ A B). Qed.
Lemma ptr_node_wt (o : bop) l r b : (o = Add \/ o = Sub) -> pointee (ntype l) = Some b -> is_arith (ntype r) = true -> well_typed l = true -> well_typed r = true ->
  well_typed (mk_arith o l (mk_arith Mul r (NNum (TLong false) (size_of b)))) = true /\ ntype (mk_arith o l (mk_arith Mul r (NNum (TLong false) (size_of b)))) = TPtr b.
Proof.
  intros O P A WL WR. assert (G: forall t, get_common_type (ntype l) t = TPtr b) by (intros; now apply gct_ptr). split.
  - apply mk_arith_wt; [exact WL| |rewrite G; reflexivity|destruct O as [->| ->]; exact I]. apply mk_arith_wt; [exact WR|reflexivity|cbn [ntype]; rewrite gct_long by exact A; reflexivity|exact I].
  - unfold mk_arith at 1. cbn [ntype]. apply G.
Qed.
Definition opnode (o : sop) (l r : node) : Prop :=
  valued (ntype l) = true /\ valued (ntype r) = true /\ well_typed l = true /\ well_typed r = true /\ shift_ok o (ntype l) /\ null_ok o (ntype l) (ntype r).
Lemma bin_type_side o ta tb t : bin_type o ta tb = Some t -> (is_arith ta = true \/ pointee ta <> None) /\ (is_arith tb = true \/ pointee tb <> None).
Proof.
  unfold bin_type. destruct (is_arith ta) eqn:A, (is_arith tb) eqn:B; cbn [andb]; intros H; split; auto; right; intros Q; rewrite Q in H; destruct o; try discriminate H; try (destruct (pointee ta); discriminate H); try (destruct (pointee tb); discriminate H).
Qed.
Lemma op_ev o l r t : opnode o l r -> bin_type o (promote (ntype l)) (promote (ntype r)) = Some t ->
  exists n, new_op o l r = Some n /\ teq (ntype n) t /\ well_typed n = true /\
    (forall E m m2 x y v, val_ok false (ntype l) x -> val_ok false (ntype r) y -> order_ev E (right_first o (promote (ntype l)) (promote (ntype r))) l r m x y m2 ->
       bin_op o (promote (ntype l)) (promote (ntype r)) x y = Some v -> ev E false n m = Some (v, m2)).
Proof.
  intros (VL & VR & WL & WR & SO & NO) BT. destruct (bin_type_side _ _ _ _ BT) as [SL SR]. rewrite arith_promote_iff, pointee_promote in SL, SR.
  assert (ARITH: forall b, (match b with Eq | Ne | Lt | Le | Shl | Shr => False | _ => True end) -> is_arith (ntype l) = true -> is_arith (ntype r) = true -> t = usual (promote (ntype l)) (promote (ntype r)) -> 
            teq (ntype (mk_arith b l r)) t /\ well_typed (mk_arith b l r) = true /\ (forall E m m1 m2 x y v, ev E false r m = Some (y, m1) -> ev E false l m1 = Some (x, m2) -> arith_op b (promote (ntype l)) (promote (ntype r)) x y = Some v -> ev E false (mk_arith b l r) m = Some (v, m2))).
  { intros b Hb A B ->. split; [unfold mk_arith; cbn [ntype]; now apply gct_arith|]. split; [apply mk_arith_wt; auto; now apply gct_scalar|]. intros E m m1 m2 x y v R L AV. now apply (arith_ev E b l r m m1 m2 x y v A B R L AV). }
  assert (CMP: forall b l r, (b = Eq \/ b = Ne \/ b = Lt \/ b = Le) -> valued (ntype l) = true -> valued (ntype r) = true -> well_typed l = true -> well_typed r = true -> ~ (is_arith (ntype l) = true /\ is_array (ntype r) = true) -> (is_arith (ntype l) = true \/ pointee (ntype l) <> None) -> (is_arith (ntype r) = true \/ pointee (ntype r) <> None) ->
            ntype (mk_compare b l r) = TInt false /\ well_typed (mk_compare b l r) = true).
  { clear. intros b l r Hb VL VR WL WR NA SL SR. split; [reflexivity|]. apply mk_compare_wt; auto. destruct (is_arith (ntype l)) eqn:A.
    - destruct (is_arith (ntype r)) eqn:B; [now apply gct_scalar|]. destruct SR as [SR|SR]; [discriminate|]. destruct (ntype r); cbn in SR; try congruence; [now rewrite gct_num_ptr|exfalso; apply NA; auto].
    - destruct SL as [SL|SL]; [discriminate|]. destruct (pointee (ntype l)) as [b'|] eqn:P; [|congruence]. rewrite (gct_ptr _ _ _ P). reflexivity. }
  unfold bin_type, bin_op, right_first, order_ev, new_op in *. rewrite !arith_promote_iff, !pointee_promote in *. destruct o.
  - (* + *) unfold new_add. destruct (is_arith (ntype l)) eqn:A, (is_arith (ntype r)) eqn:B; cbn [andb] in BT.
    + rewrite (arith_numeric _ A), (arith_numeric _ B). cbn [andb]. injection BT as BT. destruct (ARITH Add I eq_refl eq_refl (eq_sym BT)) as (T1 & T2 & T3). eexists. split; [reflexivity|]. split; [exact T1|]. split; [exact T2|]. intros E m m2 x y v _ _. rewrite (arith_pointee _ B). intros (m1 & R & L) AV. eapply T3; eauto.
    + rewrite (arith_pointee _ A) in *. destruct (pointee (ntype r)) as [b|] eqn:P; [|discriminate]. destruct (complete b) eqn:C; cbn [andb] in BT; [|discriminate]. injection BT as <-. destruct (pointee_base _ _ P) as (PB & PN & _). rewrite PN, andb_false_r. rewrite (has_base_pointee _ VL), (has_base_pointee _ VR), P, (arith_pointee _ A). cbn [andb negb]. rewrite PB.
      destruct (ptr_node_wt Add r l b (or_introl eq_refl) P A WR WL) as [W1 W2]. eexists. split; [destruct b; try reflexivity; discriminate C|]. rewrite W2. split; [apply teq_refl|]. split; [exact W1|]. intros E m m2 x y v VX VY (m1 & L & R) PV. eapply (ptr_op_ev E Add r l b y x); eauto using arith_val.
    + rewrite (arith_pointee _ B) in *. destruct (pointee (ntype l)) as [b|] eqn:P; [|discriminate]. destruct (complete b) eqn:C; cbn [andb] in BT; [|discriminate]. injection BT as <-. destruct (pointee_base _ _ P) as (PB & PN & _). rewrite PN. cbn [andb]. rewrite (has_base_pointee _ VL), (has_base_pointee _ VR), P, (arith_pointee _ B). cbn [andb negb]. rewrite PB.
      destruct (ptr_node_wt Add l r b (or_introl eq_refl) P B WL WR) as [W1 W2]. eexists. split; [destruct b; try reflexivity; discriminate C|]. rewrite W2. split; [apply teq_refl|]. split; [exact W1|]. intros E m m2 x y v VX VY (m1 & R & L) PV. eapply (ptr_op_ev E Add l r b x y); eauto using arith_val.
    + destruct (pointee (ntype l)), (pointee (ntype r)); discriminate BT.
  - (* - *) unfold new_sub. destruct (is_arith (ntype l)) eqn:A, (is_arith (ntype r)) eqn:B; cbn [andb] in BT.
    + rewrite (arith_numeric _ A). cbn [andb]. injection BT as BT. destruct (ARITH Sub I eq_refl eq_refl (eq_sym BT)) as (T1 & T2 & T3). eexists. split; [reflexivity|]. split; [exact T1|]. split; [exact T2|]. intros E m m2 x y v _ _ (m1 & R & L) AV. eapply T3; eauto.
    + rewrite (arith_pointee _ A) in BT. discriminate.
    + rewrite (arith_pointee _ B) in *. destruct (pointee (ntype l)) as [b|] eqn:P; [|discriminate]. destruct (complete b) eqn:C; cbn [andb] in BT; [|discriminate]. injection BT as <-. destruct (pointee_base _ _ P) as (PB & PN & _). rewrite PN. cbn [andb]. rewrite PB, (arith_base _ B), (arith_integer _ B).
      destruct (ptr_node_wt Sub l r b (or_intror eq_refl) P B WL WR) as [W1 W2]. eexists. split; [destruct b; try reflexivity; discriminate C|]. rewrite W2. split; [apply teq_refl|]. split; [exact W1|]. intros E m m2 x y v VX VY (m1 & R & L) PV. eapply (ptr_op_ev E Sub l r b x y); eauto using arith_val.
    + destruct (pointee (ntype l)) as [b|] eqn:P; [|discriminate]. destruct (pointee (ntype r)) as [b2|] eqn:P2; [|discriminate]. destruct (complete b) eqn:C; [|discriminate]. injection BT as <-. destruct (pointee_base _ _ P) as (PB & PN & _), (pointee_base _ _ P2) as (PB2 & PN2 & _). rewrite PN. cbn [andb]. rewrite PB, PB2.
      eexists. split; [destruct b; reflexivity|]. split; [apply teq_refl|]. split; [|intros E m m2 x y v VX VY (m1 & R & L) PV; eapply ptr_diff_ev; eauto].
      apply mk_arith_wt; [|reflexivity|reflexivity|exact I]. cbn [well_typed]. rewrite WL, WR. unfold has_base. rewrite PB, PB2. cbn. now rewrite orb_true_r.
  - destruct (is_arith (ntype l) && is_arith (ntype r)) eqn:AB; [|discriminate]. apply andb_true_iff in AB as [A B]. injection BT as BT. destruct (ARITH Mul I A B (eq_sym BT)) as (T1 & T2 & T3). eexists. split; [reflexivity|]. split; [exact T1|]. split; [exact T2|]. intros E m m2 x y v _ _ (m1 & R & L) AV. eapply T3; eauto.
  - destruct (is_arith (ntype l) && is_arith (ntype r)) eqn:AB; [|discriminate]. apply andb_true_iff in AB as [A B]. injection BT as BT. destruct (ARITH Div I A B (eq_sym BT)) as (T1 & T2 & T3). eexists. split; [reflexivity|]. split; [exact T1|]. split; [exact T2|]. intros E m m2 x y v _ _ (m1 & R & L) AV. eapply T3; eauto.
  - destruct (is_arith (ntype l) && is_arith (ntype r)) eqn:AB; [|discriminate]. apply andb_true_iff in AB as [A B]. injection BT as BT. destruct (ARITH Mod I A B (eq_sym BT)) as (T1 & T2 & T3). eexists. split; [reflexivity|]. split; [exact T1|]. split; [exact T2|]. intros E m m2 x y v _ _ (m1 & R & L) AV. eapply T3; eauto.
  - destruct (is_arith (ntype l) && is_arith (ntype r)) eqn:AB; [|discriminate]. apply andb_true_iff in AB as [A B]. injection BT as BT. destruct (ARITH And I A B (eq_sym BT)) as (T1 & T2 & T3). eexists. split; [reflexivity|]. split; [exact T1|]. split; [exact T2|]. intros E m m2 x y v _ _ (m1 & R & L) AV. eapply T3; eauto.
  - destruct (is_arith (ntype l) && is_arith (ntype r)) eqn:AB; [|discriminate]. apply andb_true_iff in AB as [A B]. injection BT as BT. destruct (ARITH Or I A B (eq_sym BT)) as (T1 & T2 & T3). eexists. split; [reflexivity|]. split; [exact T1|]. split; [exact T2|]. intros E m m2 x y v _ _ (m1 & R & L) AV. eapply T3; eauto.
  - destruct (is_arith (ntype l) && is_arith (ntype r)) eqn:AB; [|discriminate]. apply andb_true_iff in AB as [A B]. injection BT as BT. destruct (ARITH Xor I A B (eq_sym BT)) as (T1 & T2 & T3). eexists. split; [reflexivity|]. split; [exact T1|]. split; [exact T2|]. intros E m m2 x y v _ _ (m1 & R & L) AV. eapply T3; eauto.
  - assert (TT: t = TInt false) by (destruct (is_arith (ntype l)), (is_arith (ntype r)), (pointee (ntype l)), (pointee (ntype r)); cbn [andb] in BT; congruence). subst t. destruct (CMP Eq l r) as [T1 T2]; auto. eexists. split; [reflexivity|]. split; [exact (teq_refl (TInt false))|]. split; [exact T2|]. intros E m m2 x y v VX VY (m1 & R & L) CV. eapply compare_ev; eauto.
  - assert (TT: t = TInt false) by (destruct (is_arith (ntype l)), (is_arith (ntype r)), (pointee (ntype l)), (pointee (ntype r)); cbn [andb] in BT; congruence). subst t. destruct (CMP Ne l r) as [T1 T2]; auto. eexists. split; [reflexivity|]. split; [exact (teq_refl (TInt false))|]. split; [exact T2|]. intros E m m2 x y v VX VY (m1 & R & L) CV. eapply compare_ev; eauto.
  - assert (NA: ~ (is_arith (ntype l) = true /\ is_array (ntype r) = true)) by (intros [Q1 Q2]; destruct (is_arith (ntype r)) eqn:Q3; [destruct (ntype r); discriminate|]; rewrite Q1, (arith_pointee _ Q1) in BT; cbn [andb] in BT; discriminate).
    assert (TT: t = TInt false) by (destruct (is_arith (ntype l)), (is_arith (ntype r)), (pointee (ntype l)), (pointee (ntype r)); cbn [andb] in BT; congruence). subst t. destruct (CMP Lt l r) as [T1 T2]; auto. eexists. split; [reflexivity|]. split; [exact (teq_refl (TInt false))|]. split; [exact T2|]. intros E m m2 x y v VX VY (m1 & R & L) CV. eapply compare_ev; eauto.
  - assert (NA: ~ (is_arith (ntype l) = true /\ is_array (ntype r) = true)) by (intros [Q1 Q2]; destruct (is_arith (ntype r)) eqn:Q3; [destruct (ntype r); discriminate|]; rewrite Q1, (arith_pointee _ Q1) in BT; cbn [andb] in BT; discriminate).
    assert (TT: t = TInt false) by (destruct (is_arith (ntype l)), (is_arith (ntype r)), (pointee (ntype l)), (pointee (ntype r)); cbn [andb] in BT; congruence). subst t. destruct (CMP Le l r) as [T1 T2]; auto. eexists. split; [reflexivity|]. split; [exact (teq_refl (TInt false))|]. split; [exact T2|]. intros E m m2 x y v VX VY (m1 & R & L) CV. eapply compare_ev; eauto.
  - assert (NA: ~ (is_arith (ntype r) = true /\ is_array (ntype l) = true)) by (intros [Q1 Q2]; destruct (is_arith (ntype l)) eqn:Q3; [destruct (ntype l); discriminate|]; rewrite Q1, (arith_pointee _ Q1) in BT; cbn [andb] in BT; destruct (pointee (ntype l)); discriminate).
    assert (TT: t = TInt false) by (destruct (is_arith (ntype l)), (is_arith (ntype r)), (pointee (ntype l)), (pointee (ntype r)); cbn [andb] in BT; congruence). subst t. destruct (CMP Lt r l) as [T1 T2]; auto. eexists. split; [reflexivity|]. split; [exact (teq_refl (TInt false))|]. split; [exact T2|]. intros E m m2 x y v VX VY (m1 & R & L) CV. eapply compare_ev; eauto.
  - assert (NA: ~ (is_arith (ntype r) = true /\ is_array (ntype l) = true)) by (intros [Q1 Q2]; destruct (is_arith (ntype l)) eqn:Q3; [destruct (ntype l); discriminate|]; rewrite Q1, (arith_pointee _ Q1) in BT; cbn [andb] in BT; destruct (pointee (ntype l)); discriminate).
    assert (TT: t = TInt false) by (destruct (is_arith (ntype l)), (is_arith (ntype r)), (pointee (ntype l)), (pointee (ntype r)); cbn [andb] in BT; congruence). subst t. destruct (CMP Le r l) as [T1 T2]; auto. eexists. split; [reflexivity|]. split; [exact (teq_refl (TInt false))|]. split; [exact T2|]. intros E m m2 x y v VX VY (m1 & R & L) CV. eapply compare_ev; eauto.
  - destruct (is_arith (ntype l) && is_arith (ntype r)) eqn:AB; [|discriminate]. apply andb_true_iff in AB as [A B]. injection BT as <-. eexists. split; [reflexivity|]. cbn [shift_ok] in SO. pose proof (wide_promote _ A SO) as TP. split; [exact TP|]. split.
    + cbn [mk_bin mk_shift well_typed]. rewrite WL, WR, (scalar_self _ (arith_scalar _ A)). destruct (arith_repr _ B) as (s & w & RB). rewrite RB. reflexivity.
    + intros E m m2 x y v _ _ (m1 & R & L) SV. cbn [mk_bin mk_shift]. eapply ev_bin; eauto. cbn iota. destruct (teq_all _ _ TP) as (_ & _ & _ & _ & _ & _ & TB & _). now rewrite TB.
  - destruct (is_arith (ntype l) && is_arith (ntype r)) eqn:AB; [|discriminate]. apply andb_true_iff in AB as [A B]. injection BT as <-. eexists. split; [reflexivity|]. cbn [shift_ok] in SO. pose proof (wide_promote _ A SO) as TP. split; [exact TP|]. split.
    + cbn [mk_bin mk_shift well_typed]. rewrite WL, WR, (scalar_self _ (arith_scalar _ A)). destruct (arith_repr _ B) as (s & w & RB). rewrite RB. reflexivity.
    + intros E m m2 x y v _ _ (m1 & R & L) SV. cbn [mk_bin mk_shift]. eapply ev_bin; eauto. cbn iota. destruct (teq_all _ _ TP) as (_ & _ & _ & _ & _ & _ & TB & _). now rewrite TB.
Qed.

(** ** Memory: the code sees the program's objects and its own temporaries *)
Section Agree.
Variables V W : Z -> bool.
Hypothesis VW : forall a, V a = true -> W a = true.
Definition agree (m m2 : mem) : Prop := forall a, V a = true -> m a = m2 a.
Lemma acc_mono a n : accessible V a n = true -> accessible W a n = true.
Proof. unfold accessible. rewrite !andb_true_iff, !forallb_forall. intros [[A B] C]. repeat split; auto. Qed.
Lemma acc_load a n m m2 : agree m m2 -> accessible V a n = true -> le_load m a (Z.to_nat n) = le_load m2 a (Z.to_nat n).
Proof. intros AG AC. apply accessible_spec in AC as (_ & _ & AC). apply le_load_ext. intros i Hi. rewrite AG; [reflexivity|]. apply AC. lia. Qed.
Lemma read_mono b t m m2 a v : agree m m2 -> read V b t m a = Some v -> read W b t m2 a = Some v.
Proof.
  intros AG. unfold read, load_val, load_bf. destruct b as [[o w]|].
  - destruct (accessible V a (size_of t)) eqn:AC; [|discriminate]. rewrite (acc_mono _ _ AC), <- (acc_load _ _ _ _ AG AC). auto.
  - destruct (is_aggregate t); [auto|]. destruct (accessible V a (size_of t)) eqn:AC; [|discriminate]. rewrite (acc_mono _ _ AC), <- (acc_load _ _ _ _ AG AC). auto.
Qed.
Definition same_out (m m2 : mem) : Prop := forall a, V a = false -> m2 a = m a.
Lemma store_both m m2 a n v v2 : agree m m2 -> accessible V a n = true -> (v = v2) -> agree (le_store m a n v) (le_store m2 a n v2) /\ same_out m2 (le_store m2 a n v2).
Proof.
  intros AG AC <-. apply accessible_spec in AC as (_ & _ & AC). split.
  - intros x Vx. unfold le_store. destruct ((a <=? x) && (x <? a + n)); [reflexivity|now apply AG].
  - intros x Vx. unfold le_store. destruct ((a <=? x) && (x <? a + n)) eqn:Q; [|reflexivity]. exfalso. specialize (AC (x - a) ltac:(lia)). replace (a + (x - a)) with x in AC by lia. congruence.
Qed.
Lemma copy_both m m2 s a n : agree m m2 -> accessible V a n = true -> accessible V s n = true -> agree (copy_bytes m s a n) (copy_bytes m2 s a n) /\ same_out m2 (copy_bytes m2 s a n).
Proof.
  intros AG AC SC. apply accessible_spec in AC as (_ & _ & AC). apply accessible_spec in SC as (_ & _ & SC). split.
  - intros x Vx. unfold copy_bytes. destruct ((a <=? x) && (x <? a + n)) eqn:Q; [|now apply AG]. rewrite AG; [reflexivity|]. apply SC. lia.
  - intros x Vx. unfold copy_bytes. destruct ((a <=? x) && (x <? a + n)) eqn:Q; [|reflexivity]. exfalso. specialize (AC (x - a) ltac:(lia)). replace (a + (x - a)) with x in AC by lia. congruence.
Qed.
Lemma store_val_mono t m m2 a v m' : agree m m2 -> store_val V t m a v = Some m' -> exists m2', store_val W t m2 a v = Some m2' /\ agree m' m2' /\ same_out m2 m2'.
Proof.
  intros AG H. assert (SU: forall n, (if accessible V v n && accessible V a n && ((a =? v) || (a + n <=? v) || (v + n <=? a)) then Some (copy_bytes m v a n) else None) = Some m' -> exists m2', (if accessible W v n && accessible W a n && ((a =? v) || (a + n <=? v) || (v + n <=? a)) then Some (copy_bytes m2 v a n) else None) = Some m2' /\ agree m' m2' /\ same_out m2 m2').
  { intros n Q. destruct (accessible V v n) eqn:A1; [|discriminate]. destruct (accessible V a n) eqn:A2; [|discriminate]. cbn [andb] in Q. rewrite (acc_mono _ _ A1), (acc_mono _ _ A2). cbn [andb]. destruct ((a =? v) || (a + n <=? v) || (v + n <=? a)); [|discriminate]. injection Q as <-. eexists. split; [reflexivity|]. now apply copy_both. }
  assert (SC: forall p, int_repr t = Some p -> (if accessible V a (size_of t) then Some (le_store m a (size_of t) v) else None) = Some m' -> exists m2', (if accessible W a (size_of t) then Some (le_store m2 a (size_of t) v) else None) = Some m2' /\ agree m' m2' /\ same_out m2 m2').
  { intros p _ Q. destruct (accessible V a (size_of t)) eqn:AC; [|discriminate]. rewrite (acc_mono _ _ AC). injection Q as <-. eexists. split; [reflexivity|]. now apply store_both. }
  unfold store_val in *. destruct t; try (now apply SU); destruct (int_repr _) eqn:R in H |- *; try discriminate; eapply SC; eauto.
Qed.
Lemma write_mono b t m m2 a v w m' : agree m m2 -> write V b t m a v = Some (w, m') -> exists m2', write W b t m2 a v = Some (w, m2') /\ agree m' m2' /\ same_out m2 m2'.
Proof.
  intros AG H. unfold write in *. destruct b as [[o u]|].
  - unfold store_bf in *. destruct (accessible V a (size_of t)) eqn:AC; [|discriminate]. rewrite (acc_mono _ _ AC), <- (acc_load _ _ _ _ AG AC). injection H as <- <-. eexists. split; [reflexivity|]. now apply store_both.
  - destruct (store_val V t m a v) as [m1|] eqn:ST; [|discriminate]. injection H as <- <-. destruct (store_val_mono _ _ _ _ _ _ AG ST) as (m2' & E & P). rewrite E. eauto.
Qed.
End Agree.

(** ** Nodes: shapes and pieces *)
Definition nbits (n : node) : option (Z * Z) := match n with NMember _ m => m_bf m | _ => None end.
Fixpoint suf (n : node) : bool := match n with NComma _ r => suf r | NVar _ _ | NMember _ _ | NDeref _ | NAssign _ _ | NCond _ _ _ => true | _ => false end.
Definition mem_su (n : node) : Prop := match n with NMember a _ => is_struct_union (ntype a) = true | _ => True end.
Lemma is_su_eq t : is_su t = is_struct_union t. Proof. now destruct t. Qed.
Lemma suf_ev E n : suf n = true -> is_struct_union (ntype n) = true -> well_typed n = true -> forall m r, ev E false n m = Some r -> ev E true n m = Some r.
Proof.
  induction n; cbn [suf ntype]; intros S T W m0 r H; try discriminate.
  - cbn [ev] in *. unfold load_val in H. rewrite (su_aggr _ T) in H. exact H.
  - cbn [ev] in *. destruct (ev E true n m0) as [[a m1]|]; [|discriminate]. cbn [well_typed] in W. apply andb_true_iff in W as [W _]. destruct (m_bf m) as [[o w]|] eqn:B.
    + unfold member_ok in W. rewrite B in W. destruct m as [ty off bf]. cbn in *. destruct ty; discriminate.
    + unfold load_val in H. rewrite (su_aggr _ T) in H. exact H.
  - cbn [ev] in *. destruct (ev E false n m0) as [[a m1]|]; [|discriminate]. unfold load_val in H. cbn [ntype] in H. rewrite (su_aggr _ T) in H. exact H.
  - cbn [ev] in *. rewrite T. cbn [negb andb] in *. exact H.
  - cbn [ev] in *. destruct (ev E false n1 m0) as [[a m1]|]; [|discriminate]. cbn [well_typed] in W. apply andb_true_iff in W as [_ W]. eapply IHn2; eauto.
  - cbn [ev] in *. cbn [ntype] in *. rewrite T. cbn [negb andb orb] in *. exact H.
Qed.
Lemma assign_ev E l r m a m1 v m2 w m3 : ev E true l m = Some (a, m1) -> ev E false r m1 = Some (v, m2) -> write (e_valid E) (nbits l) (ntype l) m2 a v = Some (w, m3) -> ev E false (NAssign l r) m = Some (w, m3).
Proof.
  intros L R WR. cbn [ev andb]. rewrite L, R. unfold write in WR. destruct l as [| | |l' [t f [[o u]|]]| | | | | | | | | | | | | |]; cbn [nbits m_bf m_ty ntype] in WR; exact WR.
Qed.
Lemma valued_scalar t : valued t = true -> is_scalar t = true. Proof. unfold valued, is_scalar, scalar. destruct t; cbn; auto. Qed.
Lemma conv_fix E n m v m1 : env_ok E -> well_typed n = true -> scalar (ntype n) = true -> ev E false n m = Some (v, m1) -> conv (ntype n) v = Some v.
Proof.
  intros OK WT S H. pose proof (ev_val_ok E n OK false m v m1 WT H) as Q. unfold scalar in S. destruct (int_repr (ntype n)) as [[s w]|] eqn:R; [|discriminate].
  apply (val_ok_val _ _ _ R) in Q. unfold val_of in Q. rewrite R in Q. destruct (ntype n) eqn:T; try (eapply in_range_conv; [exact R|discriminate|exact Q]). cbn in R. injection R as <- <-. unfold in_range in Q. cbn in Q |- *. change (2 ^ 1) with 2 in Q. destruct (v =? 0) eqn:Z0; f_equal; lia.
Qed.

(** The conditional *)
Lemma gct_su a b : same_su a b = true -> 4 <= size_of a -> get_common_type a b = a.
Proof.
  intros S B. assert (SZ: size_of a = size_of b /\ is_unsigned b = false /\ base_of a = None) by (destruct a, b; cbn in S; try discriminate; rewrite !andb_true_iff in S; cbn; repeat split; try reflexivity; lia).
  destruct SZ as (SZ & U & BA). unfold get_common_type. rewrite BA. destruct a, b; cbn in S; try discriminate; cbv zeta; rewrite <- !SZ; replace (size_of _ <? 4) with false by lia; rewrite <- ?SZ, Z.eqb_refl; cbn [negb]; now rewrite U.
Qed.
Lemma same_su_su a b : same_su a b = true -> is_su a = true /\ is_su b = true. Proof. destruct a, b; cbn; try discriminate; auto. Qed.
Lemma cond_ev c a b t : well_typed c = true -> well_typed a = true -> well_typed b = true -> valued (ntype c) = true ->
  cond_type (promote (ntype a)) (promote (ntype b)) = Some t -> ~ (is_arith (ntype a) = true /\ is_array (ntype b) = true) -> big (ntype a) = true ->
  teq (ntype (mk_cond c a b)) t /\ well_typed (mk_cond c a b) = true /\ suf (mk_cond c a b) = true /\ mem_su (mk_cond c a b) /\
  (forall E m x m1 v m2 w, ev E false c m = Some (x, m1) -> ev E false (if truth x then a else b) m1 = Some (v, m2) -> conv t v = Some w -> (t = TVoid -> v = 0) -> ev E false (mk_cond c a b) m = Some (w, m2)).
Proof.
  intros WC WA WB VC CT NA BG. unfold cond_type in CT. rewrite !arith_promote_iff, !pointee_promote in CT.
  assert (CAST: forall T, ntype a <> TVoid -> ntype b <> TVoid -> get_common_type (ntype a) (ntype b) = T -> teq T t -> (scalar T = true /\ valued (ntype a) = true /\ valued (ntype b) = true \/ is_su T = true /\ is_su (ntype a) = true /\ is_su (ntype b) = true) ->
    teq (ntype (mk_cond c a b)) t /\ well_typed (mk_cond c a b) = true /\ suf (mk_cond c a b) = true /\ mem_su (mk_cond c a b) /\
    (forall E m x m1 v m2 w, ev E false c m = Some (x, m1) -> ev E false (if truth x then a else b) m1 = Some (v, m2) -> conv t v = Some w -> (t = TVoid -> v = 0) -> ev E false (mk_cond c a b) m = Some (w, m2))).
  { intros T NVA NVB G TQ K. assert (NT: T <> TVoid) by (destruct K as [(K & _)|(K & _)]; intros ->; discriminate). assert (MK: mk_cond c a b = NCond c (NCast T a) (NCast T b)) by (clear - NVA NVB G; revert NVA NVB G; unfold mk_cond; destruct (ntype a), (ntype b); intros NVA NVB G; try congruence; rewrite G; reflexivity). rewrite MK.
    assert (NTY: ntype (NCond c (NCast T a) (NCast T b)) = T) by (cbn [ntype]; destruct T; congruence). rewrite NTY. split; [exact TQ|]. split; [|split; [reflexivity|split; [exact I|]]].
    - cbn [well_typed]. rewrite NTY. cbn [ntype]. rewrite WC, WA, WB. cbn [andb]. destruct K as [(K & _)|(K & _)]; [pose proof (scalar_self _ K) as SS; clear - SS NT; destruct T; try congruence; rewrite SS; reflexivity|clear - K; destruct T; try discriminate K; reflexivity].
    - intros E m x m1 v m2 w C AB CV _. cbn [ev]. rewrite NTY, (valued_scalar _ VC). cbn [andb orb negb]. rewrite C. destruct (teq_all _ _ TQ) as (_ & _ & _ & _ & _ & TC & _).
      assert (CO: convertible (ntype a) T = true /\ convertible (ntype b) T = true) by (destruct K as [(K & K1 & K2)|(K & K1 & K2)]; [split; now apply convertible_scalar|rewrite is_su_eq in K1, K2; destruct T; try discriminate; auto]). destruct CO as [CO1 CO2].
      destruct (truth x); (eapply ev_cast; [eassumption|exact AB|now rewrite TC]). }
  destruct (is_arith (ntype a)) eqn:A, (is_arith (ntype b)) eqn:B; cbn [andb] in CT.
  - injection CT as <-. eapply CAST; [intros QQ; rewrite QQ in *; discriminate|intros QQ; rewrite QQ in *; discriminate|reflexivity|now apply gct_arith|left; repeat split; [now apply gct_scalar|now apply arith_valued|now apply arith_valued]].
  - rewrite (arith_pointee _ A) in CT. destruct (pointee (ntype b)) as [p|] eqn:P.
    + injection CT as <-. assert (TB: ntype b = TPtr p) by (destruct (ntype b); cbn in P; try discriminate; [congruence|exfalso; apply NA; auto]). eapply CAST; [intros QQ; rewrite QQ in *; discriminate|congruence|rewrite TB; now apply gct_num_ptr|apply teq_refl|left; repeat split; [now apply arith_valued|rewrite TB; reflexivity]].
    + exfalso. destruct (ntype a) as [| |[]|[]|[]|[]| | | | | | | | | |]; try discriminate A; cbn in CT; destruct (promote (ntype b)); discriminate.
  - rewrite (arith_pointee _ B) in CT. destruct (pointee (ntype a)) as [p|] eqn:P.
    + injection CT as <-. eapply CAST; [intros QQ; rewrite QQ in *; discriminate|intros QQ; rewrite QQ in *; discriminate|apply (gct_ptr _ _ _ P)|apply teq_refl|left; repeat split; [apply (pointee_base _ _ P)|now apply arith_valued]].
    + exfalso. destruct (ntype b) as [| |[]|[]|[]|[]| | | | | | | | | |]; try discriminate B; cbn in CT; destruct (promote (ntype a)); discriminate.
  - rewrite !promote_na in CT by assumption. destruct (pointee (ntype a)) as [p|] eqn:P.
    + destruct (pointee (ntype b)) as [p2|] eqn:P2; [|discriminate]. injection CT as <-. eapply CAST; [intros QQ; rewrite QQ in *; discriminate|intros QQ; rewrite QQ in *; discriminate|apply (gct_ptr _ _ _ P)|apply teq_refl|left; repeat split; [apply (pointee_base _ _ P)|apply (pointee_base _ _ P2)]].
    + destruct (pointee (ntype b)) as [p2|] eqn:P2; [discriminate|]. destruct (same_su (ntype a) (ntype b)) eqn:SU.
      * destruct (same_su_su _ _ SU) as [S1 S2]. assert (CT': Some (ntype a) = Some t) by (destruct (ntype a), (ntype b); try discriminate S1; exact CT). injection CT' as <-. unfold big in BG. rewrite S1 in BG. cbn [negb orb] in BG. eapply CAST; [intros QQ; rewrite QQ in *; discriminate|intros QQ; rewrite QQ in *; discriminate|apply gct_su; [exact SU|lia]|apply teq_refl|right; auto].
      * assert (TV: ntype a = TVoid /\ ntype b = TVoid /\ t = TVoid) by (destruct (ntype a), (ntype b); try discriminate CT; injection CT as <-; auto). destruct TV as (TA & TB & ->). unfold mk_cond. rewrite TA. cbn [ntype well_typed suf mem_su]. rewrite TA, WC, WA, WB. repeat split; [apply teq_refl|].
        intros E m x m1 v m2 w C AB CV V0. cbn [ev ntype]. rewrite (valued_scalar _ VC). cbn [orb andb negb]. rewrite C. injection CV as <-. rewrite (V0 eq_refl) in AB. destruct (truth x); exact AB.
Qed.

(** Compound assignment *)
Definition base_node (n : node) : node := match n with NMember a _ => a | _ => n end.
Definition target (n : node) (k : nat) : node := match n with NMember a m => NMember (NDeref (NVar (VLocal k) (TPtr (ntype a)))) m | _ => NDeref (NVar (VLocal k) (TPtr (ntype n))) end.
Definition set_tmp (n : node) (k : nat) : node := NAssign (NVar (VLocal k) (TPtr (ntype (base_node n)))) (NCast (TPtr (ntype (base_node n))) (NAddr (base_node n))).
Lemma target_type n k : ntype (target n k) = ntype n. Proof. destruct n; reflexivity. Qed.
Lemma target_bits n k : nbits (target n k) = nbits n. Proof. destruct n; reflexivity. Qed.
Lemma target_wt n k : well_typed n = true -> well_typed (target n k) = true.
Proof. intros H. destruct n; try reflexivity. cbn [target well_typed] in *. now apply andb_true_iff in H as [-> _]. Qed.
Lemma scalar_not t : scalar t = true -> (forall b n, t <> TArr b n) /\ t <> TVoid /\ (forall a b c, t <> TStruct a b c).
Proof. destruct t; cbn; try discriminate; repeat split; congruence. Qed.
Lemma mk_assign_scalar l r : scalar (ntype l) = true -> mk_assign l r = Some (NAssign l (NCast (ntype l) r)).
Proof. intros S. unfold mk_assign. destruct (ntype l); try reflexivity; discriminate S. Qed.
Lemma to_assign_form o n r k : scalar (ntype n) = true -> mem_su n -> to_assign (o, n, r) k = Some (NComma (set_tmp n k) (NAssign (target n k) (NCast (ntype n) (mk_bin o (target n k) r)))).
Proof.
  intros S M. assert (NV: ntype n <> TVoid) by apply (scalar_not _ S).
  assert (D: forall x t, t <> TVoid -> mk_deref (NVar x (TPtr t)) = Some (NDeref (NVar x (TPtr t)))) by (intros x t Ht; unfold mk_deref; cbn [ntype base_of]; destruct t; congruence).
  assert (G: (forall a m, n <> NMember a m) -> to_assign (o, n, r) k = Some (NComma (set_tmp n k) (NAssign (NDeref (NVar (VLocal k) (TPtr (ntype n)))) (NCast (ntype n) (mk_bin o (NDeref (NVar (VLocal k) (TPtr (ntype n)))) r))))).
  { intros N. unfold to_assign. assert (Q: mk_assign (NDeref (NVar (VLocal k) (TPtr (ntype n)))) (mk_bin o (NDeref (NVar (VLocal k) (TPtr (ntype n)))) r) = Some (NAssign (NDeref (NVar (VLocal k) (TPtr (ntype n)))) (NCast (ntype n) (mk_bin o (NDeref (NVar (VLocal k) (TPtr (ntype n)))) r)))) by (apply (mk_assign_scalar (NDeref (NVar (VLocal k) (TPtr (ntype n))))); exact S).
    assert (B: base_node n = n) by (destruct n; try reflexivity; exfalso; eapply N; reflexivity). unfold set_tmp. rewrite B.
    assert (U: forall (f : node -> minfo -> option node) g, match n with NMember a m => f a m | _ => g end = g) by (intros; destruct n; try reflexivity; exfalso; eapply N; reflexivity). rewrite U. unfold mk_assign at 1. cbn [ntype]. rewrite (D _ _ NV), Q. reflexivity. }
  destruct n as [| | |a m| | | | | | | | | | | | | |]; try (apply G; congruence). cbn [to_assign mem_su] in *. unfold mk_assign at 1. cbn [ntype]. rewrite D by (destruct (ntype a); discriminate). rewrite mk_assign_scalar by exact S. reflexivity.
Qed.
Lemma raw_form o l r : assign_op o (ntype l) (promote (ntype r)) = true ->
  exists o' r', raw_parts o l r = Some (o', l, r') /\ forall d, ntype d = ntype l -> new_op o d r = Some (mk_bin o' d r').
Proof.
  intros A. unfold assign_op in A. rewrite !arith_promote_iff in A. destruct o; try discriminate A; try (apply andb_true_iff in A as [A B]; eexists; eexists; split; [reflexivity|intros d Hd; reflexivity]).
  - apply andb_true_iff in A as [B A]. cbn [raw_parts]. destruct (is_arith (ntype l)) eqn:AL.
    + rewrite (arith_numeric _ AL), (arith_numeric _ B). cbn [andb]. eexists; eexists; split; [reflexivity|]. intros d Hd. cbn [new_op]. unfold new_add. rewrite Hd, (arith_numeric _ AL), (arith_numeric _ B). reflexivity.
    + cbn [orb] in A. destruct (ntype l) as [| | | | | | | | | |b| | | | |] eqn:TL; try discriminate A. unfold has_base. rewrite (arith_base _ B). cbn [is_numeric is_integer is_float andb negb base_of orb]. rewrite TL. cbn [base_of]. eexists; eexists. split; [destruct b; try reflexivity; discriminate A|]. intros d Hd. cbn [new_op]. unfold new_add, has_base. rewrite Hd, (arith_base _ B). cbn [is_numeric is_integer is_float andb negb base_of orb]. rewrite Hd. cbn [base_of]. destruct b; try reflexivity; discriminate A.
  - apply andb_true_iff in A as [B A]. cbn [raw_parts]. destruct (is_arith (ntype l)) eqn:AL.
    + rewrite (arith_numeric _ AL). cbn [andb]. eexists; eexists; split; [reflexivity|]. intros d Hd. cbn [new_op]. unfold new_sub. rewrite Hd, (arith_numeric _ AL). reflexivity.
    + cbn [orb] in A. destruct (ntype l) as [| | | | | | | | | |b| | | | |] eqn:TL; try discriminate A. rewrite (arith_base _ B), (arith_integer _ B). cbn [is_numeric is_integer is_float andb negb base_of orb]. eexists; eexists. split; [destruct b; try reflexivity; discriminate A|]. intros d Hd. cbn [new_op]. unfold new_sub. rewrite Hd, (arith_base _ B), (arith_integer _ B). cbn [is_numeric is_integer is_float andb negb base_of orb]. destruct b; try reflexivity; discriminate A.
Qed.
Lemma assign_bin o ta tb : assign_op o ta tb = true -> exists t, bin_type o (promote ta) tb = Some t.
Proof.
  unfold assign_op, bin_type. destruct o; try discriminate; rewrite ?arith_promote_iff, ?pointee_promote; intros H; apply andb_true_iff in H as [A B]; try (rewrite A, B; cbn [andb]; eauto).
  - destruct (is_arith ta) eqn:Q; cbn [andb orb] in *; [rewrite A; eauto|]. rewrite (arith_pointee _ A), A. destruct ta; try discriminate B. cbn. rewrite B. eauto.
  - destruct (is_arith ta) eqn:Q; cbn [andb orb] in *; [rewrite A; eauto|]. rewrite (arith_pointee _ A), A. destruct ta; try discriminate B. cbn. rewrite B. eauto.
Qed.
Lemma assign_scalar o ta tb : assign_op o ta tb = true -> scalar ta = true.
Proof. unfold assign_op. destruct o; try discriminate; intros H; apply andb_true_iff in H as [A B]; try (now apply arith_scalar); apply orb_true_iff in B as [B|B]; try (now apply arith_scalar); destruct ta; try discriminate; reflexivity. Qed.
Lemma assign_arith o ta tb : assign_op o ta tb = true -> is_arith tb = true.
Proof. unfold assign_op. destruct o; try discriminate; intros H; apply andb_true_iff in H as [A B]; auto. Qed.
Lemma assign_first o ta tb : assign_op o ta tb = true -> right_first o (promote ta) tb = true.
Proof. intros H. pose proof (assign_arith _ _ _ H) as A. unfold right_first. rewrite (arith_pointee _ A). destruct o; try reflexivity; discriminate H. Qed.

(** ** Adding one and taking it off again *)
Lemma int_num u c : -1 <= c <= 1 -> conv (TInt u) c = Some (if u then c mod 2 ^ 32 else c).
Proof. intros C. destruct u; cbn; [reflexivity|]. f_equal. apply sx_id; [lia|]. change (2 ^ (32 - 1)) with 2147483648. lia. Qed.
Lemma long_num u c : -1 <= c <= 1 -> conv (TLong u) c = Some (if u then c mod 2 ^ 64 else c).
Proof. intros C. destruct u; cbn; [reflexivity|]. f_equal. apply sx_id; [lia|]. change (2 ^ (64 - 1)) with 9223372036854775808. lia. Qed.
Lemma sub_is_add tl x z : assign_op SAdd tl (TInt false) = true -> bin_op SSub (promote tl) (TInt false) x 1 = Some z -> bin_op SAdd (promote tl) (TInt false) x (-1) = Some z.
Proof.
  intros A H. unfold bin_op in *. rewrite !arith_promote_iff, !pointee_promote in *. unfold assign_op in A. destruct (is_arith tl) eqn:AR.
  - assert (Q: forall u n c, (forall v, conv u v = Some (v mod 2 ^ n)) -> (forall v, fit u v = Some (v mod 2 ^ n)) -> 0 < n -> arith_op Sub u (TInt false) x 1 = arith_op Sub u (TInt false) x 1 -> conv u c = conv u c) by reflexivity. clear Q.
    assert (U: forall n a, 0 < n -> (a - 1 mod 2 ^ n) mod 2 ^ n = (a + (-1) mod 2 ^ n) mod 2 ^ n).
    { intros n a N. transitivity ((a - 1) mod 2 ^ n); [apply eqm_sub; [lia|apply eqm_refl|apply eqm_mod]|]. replace (a - 1) with (a + -1) by lia. symmetry. apply eqm_add; [lia|apply eqm_refl|apply eqm_mod]. }
    destruct tl as [| |[]|[]|[]|[]| | | | | | | | | |]; try discriminate AR; revert H; unfold arith_op; cbn [andb is_arith promote int_repr negb];
      change (usual (promote (TInt false)) (TInt false)) with (TInt false);
      repeat match goal with |- context [usual ?a ?b] => let u := eval vm_compute in (usual a b) in change (usual a b) with u end;
      rewrite ?(int_num false 1), ?(int_num true 1), ?(long_num false 1), ?(long_num true 1), ?(int_num false (-1)), ?(int_num true (-1)), ?(long_num false (-1)), ?(long_num true (-1)) by lia;
      match goal with |- context [conv ?t x] => destruct (conv t x) as [x'|]; [|discriminate] end; cbn [bin_val]; unfold fit; cbn [int_repr negb]; rewrite ?U by lia; auto.
  - cbn [orb andb] in *. destruct tl; try discriminate A. cbn [pointee] in *. unfold ptr_sub, ptr_add in *. apply complete_size in A. change (2 ^ 31) with 2147483648 in A. destruct (in_range true 64 (1 * size_of tl)); [|discriminate]. injection H as <-.
    replace (in_range true 64 (-1 * size_of tl)) with true; [f_equal; f_equal; lia|]. unfold in_range. change (2 ^ (64 - 1)) with 9223372036854775808. symmetry. lia.
Qed.
Lemma add_back tl x c z w : assign_op SAdd tl (TInt false) = true -> tl <> TBool -> val_of tl x = true -> -1 <= c <= 1 -> bin_op SAdd (promote tl) (TInt false) x c = Some z -> conv tl z = Some w ->
  exists u, bin_op SAdd (promote tl) (TInt false) w (- c) = Some u /\ conv tl u = Some x.
Proof.
  intros A NB VX C H CW. unfold bin_op in *. rewrite !arith_promote_iff, !pointee_promote in *. unfold assign_op in A. destruct (is_arith tl) eqn:AR.
  - unfold val_of in VX. destruct tl as [| |[]|[]|[]|[]| | | | | | | | | |]; try discriminate AR; try congruence; revert H; unfold arith_op; cbn [andb is_arith promote int_repr negb];
      repeat match goal with |- context [usual ?a ?b] => let u := eval vm_compute in (usual a b) in change (usual a b) with u end;
      rewrite ?(int_num false c), ?(int_num true c), ?(long_num false c), ?(long_num true c), ?(int_num false (-c)), ?(int_num true (-c)), ?(long_num false (-c)), ?(long_num true (-c)) by lia.
    all: cbn [conv int_repr negb] in *; unfold in_range in VX; cbn [bin_val]; unfold fit; cbn [int_repr negb]; unfold in_range.
    all: intros H; repeat match type of H with (if ?b then _ else _) = _ => destruct b eqn:?; [|discriminate] end; injection H as <-; injection CW as <-.
    all: unfold sx in *; repeat match goal with H : context [2 ^ ?n] |- _ => let u := eval vm_compute in (2 ^ n) in progress change (2 ^ n) with u in * end.
    all: eexists; split; [try (match goal with |- (if ?b then _ else _) = _ => replace b with true; [reflexivity|symmetry; apply andb_true_iff; split; Z.div_mod_to_equations; lia] end); reflexivity|f_equal; Z.div_mod_to_equations; lia].
  - cbn [orb andb] in *. destruct tl; try discriminate A. cbn [pointee] in *. unfold ptr_add in *. apply complete_size in A. change (2 ^ 31) with 2147483648 in A. destruct (in_range true 64 (c * size_of tl)) eqn:R; [|discriminate]. injection H as <-. rewrite conv_ptr in CW. injection CW as <-.
    replace (in_range true 64 (- c * size_of tl)) with true by (unfold in_range in *; change (2 ^ (64 - 1)) with 9223372036854775808 in *; symmetry; nia). eexists. split; [reflexivity|]. rewrite conv_ptr. f_equal. rewrite Zmod_mod.
    transitivity ((x + c * size_of tl + - c * size_of tl) mod 2 ^ 64); [apply eqm_add; [lia| |apply eqm_refl]; eapply eqm_trans; apply eqm_mod|]. replace (x + c * size_of tl + - c * size_of tl) with x by lia. apply Z.mod_small. unfold val_of, in_range in VX. cbn in VX. lia.
Qed.

(** ** The simulation *)
Section Sim.
Variables (E : env) (V : Z -> bool) (k0 kN : nat).
Hypothesis OK : env_ok E.
Hypothesis TM : temporaries (e_addr E) V (e_valid E) k0 kN.
Local Notation W := (e_valid E).
Local Notation taddr k := (e_addr E (VLocal k)).
Local Notation agr := (agree V).
Definition frame (k k' : nat) (m m' : mem) : Prop :=
  forall a, V a = false -> (forall j, (k <= j < k')%nat -> ~ (taddr j <= a < taddr j + 8)) -> m' a = m a.
Lemma frame_refl k k' m : frame k k' m m. Proof. intros a _ _. reflexivity. Qed.
Lemma frame_trans a b c d k k' m1 m2 m3 : frame a b m1 m2 -> frame c d m2 m3 -> (k <= a)%nat -> (b <= k')%nat -> (k <= c)%nat -> (d <= k')%nat -> frame k k' m1 m3.
Proof. intros F G L1 L2 L3 L4 x Vx N. rewrite G, F; auto; intros j Hj; apply N; lia. Qed.
Lemma frame_wide a b k k' m m' : frame a b m m' -> (k <= a)%nat -> (b <= k')%nat -> frame k k' m m'.
Proof. intros F L1 L2 x Vx N. apply F; auto. intros j Hj. apply N. lia. Qed.
Lemma frame_out k k' m m' : same_out V m m' -> frame k k' m m'. Proof. intros S x Vx _. now apply S. Qed.
Lemma frame_tmp k k' j m v n : (k <= j < k')%nat -> n <= 8 -> frame k k' m (le_store m (taddr j) n v).
Proof. intros L N x Vx Nx. apply le_store_out. specialize (Nx j L). lia. Qed.
Lemma tmp_agree j m m2 v n : (k0 <= j < kN)%nat -> n <= 8 -> agr m m2 -> agr m (le_store m2 (taddr j) n v).
Proof.
  intros L N A x Vx. unfold le_store. destruct ((taddr j <=? x) && (x <? taddr j + n)) eqn:Q; [|now apply A]. exfalso. destruct (tm_all _ _ _ _ _ TM j x L ltac:(lia)) as [_ B]. congruence.
Qed.
Lemma tmp_keep k k' j m m' n : frame k k' m m' -> (k0 <= k /\ k' <= kN)%nat -> (k0 <= j < kN)%nat -> (j < k \/ k' <= j)%nat -> 0 <= n <= 8 -> le_load m' (taddr j) (Z.to_nat n) = le_load m (taddr j) (Z.to_nat n).
Proof.
  intros F K0 L O N. apply le_load_ext. intros i Hi. rewrite F; [reflexivity| |].
  - apply (tm_all _ _ _ _ _ TM j); [exact L|lia].
  - intros j' Hj B. destruct (tm_apart _ _ _ _ _ TM j j' L ltac:(lia) ltac:(lia)) as [X|X]; lia.
Qed.
Lemma tmp_acc j n : (k0 <= j < kN)%nat -> 0 <= n <= 8 -> accessible W (taddr j) n = true.
Proof.
  intros L N. destruct (tm_rng _ _ _ _ _ TM j L) as [A B]. unfold accessible. rewrite !andb_true_iff, forallb_forall. repeat split; try lia. intros i Hi. apply in_seq in Hi. apply (tm_all _ _ _ _ _ TM j); [exact L|lia].
Qed.
Lemma tmp_get j m T a : (k0 <= j < kN)%nat -> le_load m (taddr j) 8 = a -> ev E false (NVar (VLocal j) (TPtr T)) m = Some (a, m).
Proof.
  intros L H. cbn [ev]. unfold load_val. cbn [is_aggregate size_of]. rewrite (tmp_acc j 8 L) by lia. change (Z.to_nat 8) with 8%nat. rewrite H. cbn [of_bytes int_repr]. rewrite Z.mod_small; [reflexivity|]. subst a. apply (le_load_range m _ 8).
Qed.
Lemma tmp_set j m l a m1 T : (k0 <= j < kN)%nat -> ev E true l m = Some (a, m1) -> 0 <= a < 2 ^ 64 -> ev E false (NAssign (NVar (VLocal j) (TPtr T)) (NCast (TPtr T) (NAddr l))) m = Some (a, le_store m1 (taddr j) 8 a).
Proof.
  intros L H R. eapply assign_ev; [reflexivity|eapply (ev_cast E (TPtr T) (NAddr l)); [cbn [ntype]; destruct (ntype l); reflexivity|exact H|rewrite conv_ptr, Z.mod_small by exact R; reflexivity]|].
  cbn [nbits write ntype]. unfold store_val. cbn [int_repr size_of]. rewrite (tmp_acc j 8 L) by lia. reflexivity.
Qed.
Lemma target_ev n j m a m1 : (k0 <= j < kN)%nat -> well_typed n = true -> ev E true n m = Some (a, m1) -> exists a0, 0 <= a0 < 2 ^ 64 /\ ev E false (set_tmp n j) m = Some (a0, le_store m1 (taddr j) 8 a0) /\
  (forall m', le_load m' (taddr j) 8 = a0 -> ev E true (target n j) m' = Some (a, m') /\ (forall x, read W (nbits n) (ntype n) m' a = Some x -> ev E false (target n j) m' = Some (x, m'))).
Proof.
  intros L WT H. assert (G: ev E true (base_node n) m = Some (a, m1) -> base_node n = n -> nbits n = None -> target n j = NDeref (NVar (VLocal j) (TPtr (ntype n))) -> exists a0, 0 <= a0 < 2 ^ 64 /\ ev E false (set_tmp n j) m = Some (a0, le_store m1 (taddr j) 8 a0) /\ (forall m', le_load m' (taddr j) 8 = a0 -> ev E true (target n j) m' = Some (a, m') /\ (forall x, read W (nbits n) (ntype n) m' a = Some x -> ev E false (target n j) m' = Some (x, m')))).
  { intros HB BN NB TG. pose proof (ev_val_ok E n OK true m a m1 WT H) as R. exists a. split; [exact R|]. split; [unfold set_tmp; now apply tmp_set|]. intros m' LD. rewrite TG, NB.
    pose proof (tmp_get j m' (ntype n) a L LD) as TG'. split.
    - change (ev E true (NDeref (NVar (VLocal j) (TPtr (ntype n)))) m') with (let* (a, m) := ev E false (NVar (VLocal j) (TPtr (ntype n))) m' in Some (a, m)). rewrite TG'. reflexivity.
    - intros x RD. change (ev E false (NDeref (NVar (VLocal j) (TPtr (ntype n)))) m') with (let* (a, m) := ev E false (NVar (VLocal j) (TPtr (ntype n))) m' in (let* v := load_val W (ntype n) m a in Some (v, m))). rewrite TG'. cbn [read] in RD. rewrite RD. reflexivity. }
  destruct n as [| | |l mi| | | | | | | | | | | | | |]; try (apply G; [exact H|reflexivity|reflexivity|reflexivity]). clear G. cbn [well_typed] in WT. apply andb_true_iff in WT as [MO WL]. cbn [base_node nbits target] in *.
  cbn [ev] in H. destruct (ev E true l m) as [[a0 m']|] eqn:HL; [|discriminate]. injection H as <- <-. pose proof (ev_val_ok E l OK true m a0 m' WL HL) as R. exists a0. split; [exact R|]. split; [unfold set_tmp; cbn [base_node]; now apply tmp_set|]. intros m2 LD.
  pose proof (tmp_get j m2 (ntype l) a0 L LD) as TG'. assert (D: ev E true (NDeref (NVar (VLocal j) (TPtr (ntype l)))) m2 = Some (a0, m2)) by (change (ev E true (NDeref (NVar (VLocal j) (TPtr (ntype l)))) m2) with (let* (a, m) := ev E false (NVar (VLocal j) (TPtr (ntype l))) m2 in Some (a, m)); rewrite TG'; reflexivity). split.
  - change (ev E true (NMember (NDeref (NVar (VLocal j) (TPtr (ntype l)))) mi) m2) with (let* (a, m) := ev E true (NDeref (NVar (VLocal j) (TPtr (ntype l)))) m2 in Some ((a + m_off mi) mod 2 ^ 64, m)). rewrite D. reflexivity.
  - intros x RD. change (ev E false (NMember (NDeref (NVar (VLocal j) (TPtr (ntype l)))) mi) m2) with (let* (a, m) := ev E true (NDeref (NVar (VLocal j) (TPtr (ntype l)))) m2 in match m_bf mi with None => let* v := load_val W (m_ty mi) m ((a + m_off mi) mod 2 ^ 64) in Some (v, m) | Some (o, w) => let* v := load_bf W (m_ty mi) o w m ((a + m_off mi) mod 2 ^ 64) in Some (v, m) end). rewrite D. cbn [read ntype] in RD. destruct (m_bf mi) as [[o w]|]; cbn [read] in RD; rewrite RD; reflexivity.
Qed.
Lemma modify_ev o nl nr j : well_typed nl = true -> well_typed nr = true -> mem_su nl -> valued (ntype nr) = true -> assign_op o (ntype nl) (promote (ntype nr)) = true -> shift_ok o (ntype nl) ->
  exists p n, raw_parts o nl nr = Some p /\ to_assign p j = Some n /\ ntype n = ntype nl /\ well_typed n = true /\ mem_su n /\ suf n = true /\
  ((k0 <= j < kN)%nat -> forall m a m1, ev E true nl m = Some (a, m1) -> exists a0, 0 <= a0 < 2 ^ 64 /\ forall y m2 x z z' w m3, ev E false nr (le_store m1 (taddr j) 8 a0) = Some (y, m2) -> le_load m2 (taddr j) 8 = a0 ->
     read W (nbits nl) (ntype nl) m2 a = Some x -> bin_op o (promote (ntype nl)) (promote (ntype nr)) x y = Some z -> conv (ntype nl) z = Some z' -> write W (nbits nl) (ntype nl) m2 a z' = Some (w, m3) -> ev E false n m = Some (w, m3)).
Proof.
  intros WL WR MS VR AO SO. pose proof (assign_scalar _ _ _ AO) as SC. destruct (raw_form o nl nr AO) as (o' & r' & RP & NO). destruct (assign_bin _ _ _ AO) as (t & BT).
  exists (o', nl, r'). eexists. split; [exact RP|]. split; [apply to_assign_form; assumption|]. set (d := target nl j). assert (TD: ntype d = ntype nl) by apply target_type. assert (WD: well_typed d = true) by now apply target_wt.
  assert (OPN: opnode o d nr) by (unfold opnode; rewrite TD; repeat split; auto; [destruct (ntype nl); cbn in SC; try discriminate; reflexivity|unfold null_ok; destruct o; auto; discriminate AO]).
  rewrite <- TD in BT. destruct (op_ev o d nr t OPN BT) as (nb & NB & TB & WB & EB). rewrite (NO d TD) in NB. injection NB as NB. rewrite NB.
  assert (WN: well_typed (NAssign d (NCast (ntype nl) nb)) = true) by (cbn [well_typed ntype]; rewrite WD, WB, TD, (scalar_self _ SC); cbn; now rewrite orb_true_r).
  split; [cbn [ntype]; exact TD|]. split; [|split; [exact I|split; [reflexivity|]]].
  { cbn [well_typed] in *. rewrite WN. unfold set_tmp. cbn [well_typed ntype]. replace (well_typed (base_node nl)) with true; [reflexivity|]. destruct nl; try (symmetry; exact WL). cbn [base_node well_typed] in *. now apply andb_true_iff in WL as [_ ->]. }
  intros KJ m a m1 H. destruct (target_ev nl j m a m1 KJ WL H) as (a0 & R0 & SET & GET). exists a0. split; [exact R0|]. intros y m2 x z z' w m3 HR LD RD BO CZ WRT.
  change (ev E false (NComma (set_tmp nl j) (NAssign d (NCast (ntype nl) nb))) m) with (let* (_, m) := ev E false (set_tmp nl j) m in ev E false (NAssign d (NCast (ntype nl) nb)) m). rewrite SET.
  assert (LD0: le_load (le_store m1 (taddr j) 8 a0) (taddr j) 8 = a0) by (change 8%nat with (Z.to_nat 8); rewrite le_load_store by lia; apply Z.mod_small; exact R0).
  destruct (GET _ LD0) as [G1 _]. destruct (GET _ LD) as [_ G2]. specialize (G2 x RD).
  eapply assign_ev; [exact G1|eapply ev_cast; [|eapply EB; [| | |rewrite TD; exact BO]|exact CZ]|].
  - apply convertible_scalar; [|exact SC]. destruct (teq_all _ _ TB) as (_ & _ & _ & _ & _ & _ & _ & _ & _ & _ & TV & _). rewrite TV. clear - AO BT TD. rewrite TD in BT. unfold assign_op, bin_type in *. rewrite ?arith_promote_iff, ?pointee_promote in *.
    destruct o; try discriminate AO; apply andb_true_iff in AO as [A B]; rewrite ?A, ?B in BT; cbn [andb] in BT.
    all: try (injection BT as <-; apply arith_valued; try apply usual_arith; now apply promote_arith).
    + destruct (is_arith (ntype nl)) eqn:Q; cbn [andb] in BT; [injection BT as <-; apply arith_valued, usual_arith; now apply promote_arith|]. destruct (ntype nl); try discriminate B. cbn [pointee] in BT. rewrite (arith_pointee _ A) in BT. rewrite ?A in BT. cbn [andb orb] in *. rewrite B in BT. injection BT as <-. reflexivity.
    + destruct (is_arith (ntype nl)) eqn:Q; cbn [andb] in BT; [injection BT as <-; apply arith_valued, usual_arith; now apply promote_arith|]. destruct (ntype nl); try discriminate B. cbn [pointee] in BT. rewrite (arith_pointee _ A) in BT. rewrite ?A in BT. cbn [andb orb] in *. rewrite B in BT. injection BT as <-. reflexivity.
  - exact (ev_val_ok E d OK false _ _ _ WD G2).
  - exact (ev_val_ok E nr OK false _ _ _ WR HR).
  - rewrite TD, (assign_first _ _ _ AO). exists m2. split; [exact HR|exact G2].
  - rewrite TD. unfold d. rewrite target_bits. exact WRT.
Qed.
End Sim.
