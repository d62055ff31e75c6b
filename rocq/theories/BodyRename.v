(** Proofs about BodyModel: renaming the variables of an expression; constants. *)
From Verif Require Import Base TypeModel IntArith NodeModel ValSpec EvalModel ElabSpec ElabProofs ElabSim ParseModel ParseSpec ParsePrint FrontModel FrontSpec FrontProofs BodySpec.
From Coq Require Import ZifyBool ZifyNat.
Local Notation length := List.length.

Section Rename.
Variable f : var -> var.
Fixpoint rn (e : cexpr) : cexpr :=
  match e with
  | CNum t v => CNum t v
  | CVar x t => CVar (f x) t
  | CPlus e => CPlus (rn e) | CNeg e => CNeg (rn e) | CNot e => CNot (rn e) | CBitNot e => CBitNot (rn e)
  | CBin o a b => CBin o (rn a) (rn b)
  | CAnd a b => CAnd (rn a) (rn b) | COr a b => COr (rn a) (rn b)
  | CCond c a b => CCond (rn c) (rn a) (rn b)
  | CElvis a b => CElvis (rn a) (rn b)
  | CComma a b => CComma (rn a) (rn b)
  | CCast t e => CCast t (rn e)
  | CAssign l r => CAssign (rn l) (rn r)
  | COpAssign o l r => COpAssign o (rn l) (rn r)
  | CPreInc l => CPreInc (rn l) | CPreDec l => CPreDec (rn l) | CPostInc l => CPostInc (rn l) | CPostDec l => CPostDec (rn l)
  | CDeref e => CDeref (rn e) | CAddr l => CAddr (rn l)
  | CIndex a i => CIndex (rn a) (rn i)
  | CDot l m => CDot (rn l) m | CArrow e m => CArrow (rn e) m
  | CCall g ps va args => CCall (rn g) ps va (map rn args)
  end.
Definition mv (c : cexpr) : Prop :=
  ctype (rn c) = ctype c /\ plain (rn c) = plain c /\ is_lval (rn c) = is_lval c /\ bits_of (rn c) = bits_of c /\ forall A V g lv m, cev A V g lv (rn c) m = cev (fun v => A (f v)) V g lv c m.
Lemma mv_ty c : mv c -> ty_of (rn c) = ty_of c. Proof. intros (A & _). unfold ty_of. now rewrite A. Qed.
Lemma mv_op c : mv c -> op_of (rn c) = op_of c. Proof. intros Q. unfold op_of. rewrite (mv_ty _ Q). destruct Q as (_ & _ & _ & B & _). unfold operand_type. now rewrite B. Qed.
Lemma mv_ot c : mv c -> forall t, operand_type (rn c) t = operand_type c t. Proof. intros (_ & _ & _ & B & _) t. unfold operand_type. now rewrite B. Qed.
Lemma mv_wide c : mv c -> wide (rn c) = wide c. Proof. intros Q. unfold wide. rewrite (mv_ty _ Q). destruct Q as (_ & _ & _ & -> & _). reflexivity. Qed.
Lemma mv_prom c : mv c -> promotable (rn c) = promotable c. Proof. intros Q. unfold promotable. rewrite (mv_ty _ Q). destruct Q as (_ & _ & _ & -> & _). reflexivity. Qed.
Ltac mfacts Q := pose proof (mv_ty _ Q); pose proof (mv_op _ Q); pose proof (mv_ot _ Q); pose proof (mv_wide _ Q); pose proof (mv_prom _ Q); destruct Q as (? & ? & ? & ? & ?).
Ltac mcongr :=
  match goal with |- mv ?c => unfold mv;
    assert (ctype (rn c) = ctype c) by (cbn [rn ctype]; steps);
    assert (ty_of (rn c) = ty_of c) by (unfold ty_of; rws; reflexivity); cbn [rn] in *;
    split; [assumption|]; split; [cbn [plain]; rws; reflexivity|]; split; [cbn [is_lval]; rws; reflexivity|]; split; [cbn [bits_of]; rws; reflexivity|];
    intros ? ? ? [|] ?; cbn [cev]; unfold bin_order; steps
  end.
Lemma cevs_mv l (Q : Forall mv l) A V g : forall ps m, cevs A V g (map rn l) ps m = cevs (fun v => A (f v)) V g l ps m.
Proof. induction Q as [|a l Qa _ IH]; intros ps m; [reflexivity|]. cbn [map cevs]. rewrite IH. destruct (cevs _ V g l (tl ps) m) as [[? ?]|]; [|reflexivity]. destruct Qa as (_ & _ & _ & _ & E). rewrite E. reflexivity. Qed.
Lemma args_ok_mv l (Q : Forall mv l) va : forall ps, args_ok va (map rn l) ps = args_ok va l ps.
Proof. induction Q as [|a l Qa _ IH]; intros ps; [reflexivity|]. cbn [map args_ok]. destruct Qa as (E & _). rewrite E. destruct (ctype a); [|reflexivity]. destruct ps; rewrite IH; reflexivity. Qed.
Lemma arg_types_mv l (Q : Forall mv l) : forall ps, arg_types (map rn l) ps = arg_types l ps.
Proof. induction Q as [|a l Qa _ IH]; intros ps; [reflexivity|]. cbn [map arg_types]. destruct ps; rewrite IH; [rewrite (mv_op _ Qa)|]; reflexivity. Qed.
Lemma rn_mv c : mv c.
Proof.
  induction c as [ct v|x vt|a IHa|a IHa|a IHa|a IHa|o a IHa b IHb|a IHa b IHb|a IHa b IHb|c IHc a IHa b IHb|a IHa b IHb|a IHa b IHb|ct a IHa|l IHl r IHr|o l IHl r IHr|l IHl|l IHl|l IHl|l IHl|a IHa|l IHl|a IHa b IHb|l IHl mi|a IHa mi|g IHf ps va args IHargs] using cexpr_induct.
  1,2: repeat split.
  all: try (mfacts IHa); try (mfacts IHb); try (mfacts IHc); try (mfacts IHl); try (mfacts IHr).
  all: try solve [mcongr].
  - pose proof (mv_ty _ IHf). destruct IHf as (? & ? & ? & ? & ?). assert (CT : ctype (rn (CCall g ps va args)) = ctype (CCall g ps va args)) by (cbn [rn ctype]; fold (args_ok va); rewrite (args_ok_mv _ IHargs va ps); rws; reflexivity).
    assert (TY : ty_of (rn (CCall g ps va args)) = ty_of (CCall g ps va args)) by (unfold ty_of; now rewrite CT).
    split; [exact CT|]. split; [|split; [reflexivity|split; [reflexivity|]]].
    + cbn [rn plain]. rws. f_equal; [f_equal|].
      * clear - IHargs. induction IHargs as [|a l Qa _ IH]; [reflexivity|]. cbn [map forallb]. rewrite IH. destruct Qa as (_ & -> & _). reflexivity.
      * clear - IHargs. revert ps. induction IHargs as [|a l Qa _ IH]; intros ps; [destruct (length ps); reflexivity|]. destruct ps as [|p ps]; [cbn [skipn length map forallb]; rewrite (mv_prom _ Qa); f_equal; exact (IH [])|]. cbn [skipn length map]. apply IH.
    + intros A V h [|] m; [reflexivity|]. cbn [rn cev] in *. fold (cevs A V h). fold (cevs (fun v => A (f v)) V h). rewrite (cevs_mv _ IHargs), (arg_types_mv _ IHargs), TY. destruct (cevs _ V h args ps m) as [[? ?]|]; [|reflexivity]. rws. reflexivity.
Qed.
Lemma rn_prototyped c : prototyped (rn c) = prototyped c.
Proof.
  induction c using cexpr_induct; cbn [rn prototyped]; try congruence. rewrite IHc. f_equal. induction H as [|a l Qa _ IH]; [reflexivity|]. cbn [map forallb]. congruence.
Qed.

Definition rn_ent (e : ent) : ent := match e with EVar v t s => EVar (f v) t s | _ => e end.
Hypothesis GL : forall n, f (VGlobal n) = VGlobal n.
Variables (d1 d2 : bytes -> option ent) (x : ctx) (number : bytes -> option (ty * Z)).
Hypothesis D : forall n, d2 n = option_map rn_ent (d1 n).
Notation M1 := (means d1 x number). Notation M2 := (means d2 x number).
Definition rnp (p : cexpr * nat) := (rn (fst p), snd p).
Lemma params_rn : forall e, parameters d2 e = parameters d1 e.
Proof. induction e as [a|u e IH| | | | | | | | | | | | |a _ b _]; try reflexivity. - destruct a; try reflexivity. cbn [parameters]. rewrite D. destruct (d1 n) as [[]|]; reflexivity. - destruct u; try reflexivity; exact IH. Qed.
Lemma rn_dots p : forall c, rn (fold_left CDot p c) = fold_left CDot p (rn c).
Proof. induction p as [|m p IH]; intros c; [reflexivity|]. cbn [fold_left]. rewrite IH. reflexivity. Qed.
Lemma operand_rn c : operand (rn c) = operand c.
Proof. destruct (rn_mv c) as (A & B & _ & C & _). unfold operand. rewrite A, B, C. reflexivity. Qed.
Ltac on IH := match goal with |- context [M1 ?e ?j] => rewrite (IH j); destruct (M1 e j) as [[? ?]|]; [|reflexivity]; cbn [option_map rnp fst snd] end.
Lemma means_rn : forall e j, M2 e j = option_map rnp (M1 e j).
Proof.
  induction e as [a|u e IH|i e IH|r e m IH|a i IHa IHi|g l IHf IHl|c l IHc IHl|a b c IHa IHb IHc|a b IHa IHb|o a b IHa IHb|c a b IHc IHa IHb|a b IHa IHb|t e IH|o l r IHl IHr|a b IHa IHb] using sx_all; intros j.
  - destruct a; cbn [means]; try reflexivity.
    all: try (match goal with |- context [number ?b] => destruct (number b) as [[? ?]|]; reflexivity | |- context [x_type x ?t] => destruct (x_type x t); reflexivity end).
    + rewrite D. destruct (d1 n) as [[]|]; reflexivity.
    + unfold option_map, rnp. cbn [fst snd rn]. rewrite GL. reflexivity.
  - cbn [means]. on IH. destruct u; try reflexivity; rewrite operand_rn; destruct (operand c); reflexivity.
  - cbn [means]. on IH. destruct i; reflexivity.
  - destruct r; cbn [means]; on IH; destruct (rn_mv c) as (-> & _); destruct (ctype c) as [t|]; try reflexivity.
    + destruct (pointee t) as [b|]; [|reflexivity]. destruct (places m (tagged x b)) as [|[|i p] [|? ?]]; try reflexivity. cbn [option_map rnp fst snd]. unfold rnp. cbn [fst snd]. rewrite rn_dots. reflexivity.
    + destruct (places m (tagged x t)) as [|p [|? ?]]; try reflexivity. cbn [option_map]. unfold rnp. cbn [fst snd]. rewrite rn_dots. reflexivity.
  - cbn [means]. on IHa. on IHi. reflexivity.
  - cbn [means]. on IHf. rewrite params_rn. destruct (parameters d1 g) as [[ps va]|]; [|reflexivity]. fold (means_l d1 x number). fold (means_l d2 x number).
    assert (G : forall k, means_l d2 x number l k = option_map (fun p => (map rn (fst p), snd p)) (means_l d1 x number l k)).
    { clear - IHl. induction IHl as [|a l Ha _ IH]; intros k; [reflexivity|]. cbn [means_l]. fold (means_l d1 x number). fold (means_l d2 x number). rewrite Ha. destruct (M1 a k) as [[? ?]|]; [|reflexivity]. cbn [option_map rnp fst snd]. rewrite IH. destruct (means_l d1 x number l n) as [[? ?]|]; reflexivity. }
    rewrite G. destruct (means_l d1 x number l n) as [[? ?]|]; reflexivity.
  - reflexivity.
  - reflexivity.
  - reflexivity.
  - cbn [means]. on IHa. on IHb. destruct o; reflexivity.
  - cbn [means]. on IHc. on IHa. on IHb. reflexivity.
  - cbn [means]. on IHa. on IHb. reflexivity.
  - cbn [means]. destruct (x_type x t); [|reflexivity]. on IH. reflexivity.
  - cbn [means]. on IHl. on IHr. destruct o; reflexivity.
  - cbn [means]. on IHa. on IHb. reflexivity.
Qed.
End Rename.
