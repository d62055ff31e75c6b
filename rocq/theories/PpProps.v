(** Properties C16 to C22, C57 and C61: the preprocessor. *)
From Verif Require Import Base UnicodeModel TextModel LexModel LexSpec LitModel PpModel PpSpec PpProofs PpCondProofs PpMoreProofs PpSubstProofs.
Local Notation length := List.length.

(** ** Concrete programs *)
Definition lines (l : list string) : bytes := flat_map (fun s => bs s ++ [10]) l.
(** A constant expression evaluator for the examples: "0" is 0, the rest is 1. *)
Definition zero_or_one (l : list ptok) : option Z :=
  match l with t :: _ => Some (if equal t (bs "0") then 0 else 1) | [] => None end.
Definition st0 : pst :=
  PSt [(bs "__COUNTER__", Handler H_COUNTER); (bs "__LINE__", Handler H_LINE)] [] [] [] [] 0 0 [FInfo (bs "a.c") (bs "a.c") 0].
Definition toks_of (text : list string) : list ptok :=
  match source_toks 0 (lines text) with LOk l => l | _ => [] end.
Definition files_of (l : list (string * list string)) (p : bytes) : option (list ptok) :=
  match find (fun x => beq (bs (fst x)) p) l with Some (_, t) => Some (toks_of t) | None => None end.
Definition E1 (dirs : list string) (fl : list (string * list string)) : env := Env (files_of fl) (map bs dirs) zero_or_one.
Definition E0 : env := E1 [] [].
(** The spellings of the tokens of a preprocessed program, without the end marker *)
Definition pp_in (E : env) (text : list string) : lres (list bytes) :=
  match preprocessor 500 E st0 (toks_of text) with
  | LOk (o, _) => LOk (removelast (map p_text o))
  | LErr => LErr | LOOB => LOOB | LFuel => LFuel
  end.
Definition pp_text := pp_in E0.
Definition out (l : list string) : lres (list bytes) := LOk (map bs l).

(** ** C16 hidesets *)
Theorem C16_hideset_laws a b n :
  (hideset_contains a n = true <-> In n a) /\
  (hideset_contains (hideset_union a b) n = true <-> In n a \/ In n b) /\
  (hideset_contains (hideset_intersection a b) n = true <-> In n a /\ In n b).
Proof. rewrite !contains_in, in_union, in_inter. tauto. Qed.
Print Assumptions C16_hideset_laws.

(** A token that has its own name in its hideset is never expanded. *)
Theorem C16_hidden_never_expanded E st f t r :
  In (p_text t) (p_hs t) -> p_kind t <> TK_EOF -> is_hash t = false ->
  preprocess2 (S f) E st (t :: r) = lbind (preprocess2 f E st r) (fun os => LOk (t :: fst os, snd os)).
Proof.
  intros H K HH. rewrite pp_unfold, (proj2 (is_eof_not t) K). unfold expand_macro.
  rewrite (proj2 (contains_in _ _) H). cbn [lbind]. rewrite HH. reflexivity.
Qed.
Print Assumptions C16_hidden_never_expanded.

(** Every token an object-like macro expands to carries the macro's name and the
    hideset of the macro token. *)
Theorem C16_expansion_hides st t r pp body l' st' :
  find_macro st t = Some (ObjLike body) -> terminated body -> r <> [] ->
  expand_macro pp st t r = LOk (Some (l', st')) ->
  st' = st /\ map p_text l' = map p_text (removelast body) ++ map p_text r /\
  forall x, In x (firstn (length body - 1) l') -> In (p_text t) (p_hs x) /\ forall m, In m (p_hs t) -> In m (p_hs x).
Proof.
  intros F (l0 & e & -> & K & Ke) Hr X. unfold expand_macro in X. destruct (hideset_contains (p_hs t) (p_text t)); [discriminate|].
  rewrite F in X.
  assert (A : append (map (set_origin t) (add_hideset (hideset_union (p_hs t) [p_text t]) (l0 ++ [e]))) r =
    map copy_token (map (set_origin t) (add_hideset (hideset_union (p_hs t) [p_text t]) l0)) ++ r).
  { unfold add_hideset. rewrite !map_app. cbn [map]. apply append_wf; [|exact Ke].
    rewrite !Forall_map. eapply Forall_impl; [|exact K]. intros x Hx. exact Hx. }
  rewrite A in X. rewrite removelast_app1.
  set (u := map copy_token (map (set_origin t) (add_hideset (hideset_union (p_hs t) [p_text t]) l0))) in *.
  assert (T : map p_text u = map p_text l0) by (unfold u, add_hideset; rewrite !map_map; reflexivity).
  assert (HS : forall x, In x u -> In (p_text t) (p_hs x) /\ forall m, In m (p_hs t) -> In m (p_hs x)).
  { unfold u, add_hideset. intros x Hx. rewrite !map_map in Hx. apply in_map_iff in Hx. destruct Hx as (y & <- & _). cbn.
    unfold hideset_union. split; [|intros m Hm]; rewrite !in_app_iff; cbn; tauto. }
  assert (Lu : length u = length l0) by (unfold u, add_hideset; rewrite !map_length; reflexivity).
  rewrite app_length. cbn [length]. replace (length l0 + 1 - 1)%nat with (length u) by lia.
  destruct (u ++ r) as [|y ys] eqn:Y; [destruct u; [cbn in Y; contradiction|discriminate]|].
  cbn [set_flags_hd lbind] in X. assert (Q : l' = set_flags t y :: ys /\ st' = st) by (split; congruence). destruct Q as [-> ->].
  split; [reflexivity|]. split.
  { rewrite <- T, <- map_app. cbn [map]. rewrite Y. reflexivity. }
  intros x Hx. destruct u as [|y' u']; [destruct Hx|]. cbn [app length firstn] in *.
  assert (y = y' /\ ys = u' ++ r) as [-> ->] by (split; congruence).
  destruct Hx as [<-|Hx]; [apply (HS y'); left; reflexivity|].
  rewrite firstn_app, Nat.sub_diag, firstn_all, firstn_O, app_nil_r in Hx. apply HS. right. exact Hx.
Qed.
Print Assumptions C16_expansion_hides.

Example C16_nonvacuous : pp_text ["#define A B x"; "#define B A y"; "A B"]%string = out ["A"; "y"; "x"; "B"; "x"; "y"]%string.
Proof. vm_compute. reflexivity. Qed.

(** ** C17 object-like macros *)
(** For every table of object-like macros (mutually recursive or not) and every
    token list, preprocessing terminates, the output is the concatenation of the
    complete expansions of the input words, that expansion is unique, and a
    macro name left in the output is suppressed by its own expansion.
    Missing for the full statement: the token # in the text or in a body (see
    the refutation below). *)
Theorem C17_objlike_expansion_partial E st l0 e :
  (forall n m, lookup (macros st) n = Some m ->
     exists b, m = ObjLike b /\ terminated b /\ Forall (fun t => p_hs t = [] /\ p_text t <> bs "#") b) ->
  p_kind e = TK_EOF -> Forall (fun t => p_kind t <> TK_EOF /\ p_text t <> bs "#" /\ p_hs t = []) l0 ->
  exists f o e' outs, preprocess2 f E st (l0 ++ [e]) = LOk (o ++ [e'], st) /\ p_kind e' = TK_EOF /\
    words o = List.concat outs /\
    Forall2 (fun w x => expands (table st) [] w x /\ forall y, expands (table st) [] w y -> y = x) (words l0) outs /\
    Forall (fun t => p_kind t = TK_IDENT -> table st (p_text t) <> None -> In (p_text t) (p_hs t)) o.
Proof.
  intros Hm Ke HF.
  destruct (objlike_run st E Hm (S (meas st (map key_of l0))) (l0 ++ [e]) l0 e eq_refl Ke) as (o & e' & outs & R & Ke' & Wd & F2 & Hs).
  - eapply Forall_impl; [|exact HF]. intros a Ha. apply Ha.
  - eapply Forall_impl; [|exact HF]. intros a Ha. apply Ha.
  - lia.
  - eexists _, o, e', outs. split; [exact R|]. split; [exact Ke'|]. split; [exact Wd|]. split; [|exact Hs].
    clear -F2 HF. revert outs F2. induction HF as [|t l (_ & _ & Hh) HF IH]; intros outs F2; inversion F2; subst; cbn [words map]; constructor; auto.
    unfold expk, key_of in H1. cbn [fst snd] in H1. rewrite Hh in H1. split; [exact H1|]. intros y0 Hy0. eapply expands_det; eassumption.
Qed.
Print Assumptions C17_objlike_expansion_partial.

Example C17_nonvacuous :
  let m := [(bs "A", ObjLike (toks_of ["B x B"])); (bs "B", ObjLike (toks_of ["A y"]))]%string in
  expands (fun n => match lookup m n with Some (ObjLike b) => Some (removelast (words b)) | _ => None end) []
    (TK_IDENT, bs "A") [(TK_IDENT, bs "A"); (TK_IDENT, bs "y"); (TK_IDENT, bs "x"); (TK_IDENT, bs "A"); (TK_IDENT, bs "y")].
Proof.
  intro m.
  assert (EB : expands (fun n => match lookup m n with Some (ObjLike b) => Some (removelast (words b)) | _ => None end) [bs "A"]
    (TK_IDENT, bs "B") (List.concat [[(TK_IDENT, bs "A")]; [(TK_IDENT, bs "y")]])).
  { eapply exp_macro; [vm_compute; reflexivity|intros [H|[]]; vm_compute in H; discriminate|].
    constructor; [apply exp_keep; right; right; vm_compute; auto|].
    constructor; [apply exp_keep; right; left; vm_compute; reflexivity|]. constructor. }
  change [(TK_IDENT, bs "A"); (TK_IDENT, bs "y"); (TK_IDENT, bs "x"); (TK_IDENT, bs "A"); (TK_IDENT, bs "y")]
    with (List.concat [List.concat [[(TK_IDENT, bs "A")]; [(TK_IDENT, bs "y")]]; [(TK_IDENT, bs "x")]; List.concat [[(TK_IDENT, bs "A")]; [(TK_IDENT, bs "y")]]]).
  eapply exp_macro; [vm_compute; reflexivity|intros []|].
  constructor; [exact EB|]. constructor; [apply exp_keep; right; left; vm_compute; reflexivity|]. constructor; [exact EB|constructor].
Qed.

(** A body that starts with # is taken for a directive when the macro stands at
    the beginning of a line; C11 6.10.3.4p3 says it is not. *)
Theorem C17_directive_refuted :
  pp_text ["#define H #define Q 1"; "H"; "Q"]%string = out ["1"]%string.
Proof. vm_compute. reflexivity. Qed.
Print Assumptions C17_directive_refuted.

(** An empty expansion at the end of a line hides the next directive: the
    `at_bol` flag of the next line's # is overwritten. *)
Theorem C17_empty_expansion_refuted :
  pp_text ["#define EMPTY"; "x EMPTY"; "#define Y 1"; "Y"]%string = out ["x"; "#"; "define"; "Y"; "1"; "Y"]%string.
Proof. vm_compute. reflexivity. Qed.
Print Assumptions C17_empty_expansion_refuted.

(** ** C18 macro arguments *)
Theorem C18_args_sound l params va args rest :
  Forall (fun t => p_kind t = TK_EOF -> p_text t = []) l ->
  read_macro_args l params va = LOk (args, rest) ->
  exists inner rp r, l = inner ++ rp :: r /\ rest = rp :: r /\ p_text rp = bs ")" /\
    Forall (fun t => p_kind t <> TK_EOF) inner /\ arg_text true (map p_text inner) /\
    map a_name args = params ++ match va with Some n => [n] | None => [] end /\
    Forall (fun a => arg_text (a_va a) (arg_words a)) args /\
    map a_va args = map (fun _ => false) params ++ match va with Some _ => [true] | None => [] end /\
    (map p_text inner = joined (bs ",") (map arg_words args) \/
     (va <> None /\ arg_words (last args (MArg [] true [])) = [] /\ map p_text inner = joined (bs ",") (map arg_words (removelast args)))).
Proof. exact (macro_args_sound l params va args rest). Qed.
Print Assumptions C18_args_sound.

(** Every way of writing the right number of arguments is accepted and split so. *)
Theorem C18_args_complete params groups inner rp r :
  length groups = length params -> params <> [] ->
  Forall (arg_text false) groups -> Forall (fun t => p_kind t <> TK_EOF) inner ->
  map p_text inner = joined (bs ",") groups -> p_text rp = bs ")" ->
  exists args, read_macro_args (inner ++ rp :: r) params None = LOk (args, rp :: r) /\
    map arg_words args = groups /\ map a_name args = params.
Proof. exact (macro_args_complete params groups inner rp r). Qed.
Print Assumptions C18_args_complete.

Theorem C18_args_complete_variadic params name groups v inner rp r :
  length groups = length params ->
  Forall (arg_text false) groups -> arg_text true v -> Forall (fun t => p_kind t <> TK_EOF) inner ->
  map p_text inner = joined (bs ",") (groups ++ [v]) -> p_text rp = bs ")" ->
  exists args, read_macro_args (inner ++ rp :: r) params (Some name) = LOk (args, rp :: r) /\
    map arg_words args = groups ++ [v] /\ map a_name args = params ++ [name].
Proof. exact (macro_args_complete_va params name groups v inner rp r). Qed.
Print Assumptions C18_args_complete_variadic.

Example C18_nonvacuous :
  arg_text false (map bs ["f"; "("; "a"; ","; "b"; ")"])%string /\ arg_text false [] /\
  joined (bs ",") [map bs ["f"; "("; "a"; ","; "b"; ")"]; []]%string = map bs ["f"; "("; "a"; ","; "b"; ")"; ","]%string /\
  pp_text ["#define G(x,y,...) [x|y|__VA_ARGS__]"; "G(f(a,b),,c,(d,e)) G(1,2)"]%string =
  out ["["; "f"; "("; "a"; ","; "b"; ")"; "|"; "|"; "c"; ","; "("; "d"; ","; "e"; ")"; "]"; "["; "1"; "|"; "2"; "|"; "]"]%string.
Proof.
  split; [|split; [constructor|split; [reflexivity|vm_compute; reflexivity]]].
  apply at_word; [nb|nb|intro; nb|]. apply (at_paren false [bs "a"; bs ","; bs "b"] []); [|constructor].
  repeat (apply at_word; [nb|nb|discriminate|]). constructor.
Qed.

(** ** C19 conditional inclusion *)
(** The lines [l], in which conditional groups are well nested and the first
    group whose condition is true is selected, produce the output [o] and the
    state [st'], and leave the enclosing conditionals alone. *)
Theorem C19_conditional_inclusion E st l o st' cs rest r :
  sel E st l o st' -> starts_line rest ->
  pp_result E (set_conds st' cs) rest r ->
  pp_result E (set_conds st cs) (l ++ rest) (prepend o r).
Proof. intros H HS HR. destruct (sel_runs E _ _ _ _ H) as [_ G]. exact (G cs rest r HS HR). Qed.
Print Assumptions C19_conditional_inclusion.

(** Instances of the hypotheses of [sel]: text without macros is copied, *)
Theorem C19_text_copied E st l :
  Forall (fun t => p_kind t <> TK_EOF /\ ~ (p_bol t = true /\ p_text t = bs "#") /\
    (p_kind t <> TK_IDENT \/ lookup (macros st) (p_text t) = None \/ In (p_text t) (p_hs t))) l ->
  plain_text E st l l st.
Proof. exact (inert_plain E st l). Qed.
Print Assumptions C19_text_copied.

(** #undef removes exactly that macro, *)
Theorem C19_undef E st h d n :
  hash_at h -> p_text d = bs "undef" -> p_kind n = TK_IDENT ->
  exists st', plain_text E st [h; d; n] [] st' /\
    (forall m, lookup (macros st') m = if beq (p_text n) m then None else lookup (macros st) m) /\
    conds st' = conds st /\ counter st' = counter st.
Proof.
  intros H1 H2 H3. exists (set_macros st (remove (macros st) (p_text n))). split; [exact (undef_plain E st h d n H1 H2 H3)|].
  split; [|split; reflexivity]. intro m. apply lookup_remove.
Qed.
Print Assumptions C19_undef.

(** and a constant or a `defined X` has its value. *)
Theorem C19_if_constant E st expr v :
  expr <> [] ->
  Forall (fun t => p_bol t = false /\ p_kind t <> TK_EOF /\ p_kind t <> TK_IDENT /\ p_text t <> bs "defined") expr ->
  (forall e, p_kind e = TK_EOF -> const_expr E (map copy_token expr ++ [e]) = Some v) ->
  if_value E st expr v st.
Proof. exact (if_value_const E st expr v). Qed.
Print Assumptions C19_if_constant.

Theorem C19_if_defined E st d n :
  p_bol d = false -> p_text d = bs "defined" -> p_kind d = TK_IDENT ->
  p_bol n = false -> p_kind n = TK_IDENT ->
  p_text n <> bs "(" ->
  (forall (b : bool) t e, word_of t = (TK_PP_NUM, if b then bs "1" else bs "0") -> p_kind e = TK_EOF ->
     const_expr E [t; e] = Some (if b then 1 else 0)) ->
  if_value E st [d; n] (if defined_in st n then 1 else 0) st.
Proof. exact (if_value_defined E st d n). Qed.
Print Assumptions C19_if_defined.

(** A macro defined on the lines before is visible to the lines after. *)
Theorem C19_define E st h d n body cs rest r :
  hash_at h -> p_text d = bs "define" -> p_kind n = TK_IDENT ->
  Forall (fun t => p_bol t = false) body ->
  match body with t :: _ => p_space t = true \/ p_text t <> bs "(" | [] => True end ->
  starts_line rest -> match body, rest with [], t :: _ => p_text t <> bs "(" | _, _ => True end ->
  (forall e, p_kind e = TK_EOF ->
     pp_result E (set_macros (set_conds st cs) ((p_text n, ObjLike (map copy_token body ++ [e])) :: macros st)) rest r) ->
  pp_result E (set_conds st cs) ((h :: d :: n :: body) ++ rest) r.
Proof. intros. eapply define_plain; eassumption. Qed.
Print Assumptions C19_define.

Definition ex_t (b : bool) (k : tkind) (s : string) : ptok := PTok k (bs s) b false [] 1 0 1 0 None.
(* #ifdef X / a / #elif 0 / b / #else / c / #endif with X undefined and a nested
   #if in the group that is skipped *)
Example C19_nonvacuous :
  let h := ex_t true TK_PUNCT "#"%string in let i s := ex_t false TK_IDENT s in let b s := ex_t true TK_IDENT s in
  sel E0 st0 ([h; i "ifdef"%string; i "X"%string] ++
    ([b "a"%string; h; i "if"%string; i "Y"%string; h; i "else"%string; h; i "endif"%string] ++
       h :: i "elif"%string :: [ex_t false TK_PP_NUM "0"%string] ++ ([b "b"%string] ++ h :: i "else"%string :: ([b "c"%string] ++ []) ++ [h; i "endif"%string])) ++ [])
   (([b "c"%string] ++ []) ++ []) st0.
Proof.
  intros h i b. assert (Hh : hash_at h) by (repeat split; reflexivity).
  apply (sel_cond E0 st0 [h; i "ifdef"; i "X"]%string false st0 _ _ st0 [] [] st0); [|  |constructor].
  - change false with (defined_in st0 (i "X"%string)). constructor; [exact Hh|reflexivity].
  - apply (arms_elif E0 st0 [b "a"; h; i "if"; i "Y"; h; i "else"; h; i "endif"]%string h (i "elif"%string) [ex_t false TK_PP_NUM "0"] 0 st0); [| |exact Hh|reflexivity| |].
    + apply nt_tok; [discriminate|intros _ H; vm_compute in H; discriminate|].
      apply (nt_cond false h (i "if"%string) [i "Y"; h; i "else"]%string h (i "endif"%string) []); [exact Hh|left; reflexivity| |exact Hh|reflexivity|constructor].
      apply nt_tok; [discriminate|intro H; vm_compute in H; discriminate|].
      apply nt_tok; [discriminate|intros _ _; split; [|split; [nb|discriminate]]|].
      { intros [H|[H|H]]; vm_compute in H; discriminate. }
      apply nt_tok; [discriminate|intro H; vm_compute in H; discriminate|]. constructor.
    + reflexivity.
    + apply (C19_if_constant E0 st0 _ 0); [discriminate| |intros e _; reflexivity].
      repeat constructor; discriminate.
    + apply (arms_else E0 st0 [b "b"]%string h (i "else"%string) ([b "c"%string] ++ []) h (i "endif"%string)); auto; try reflexivity.
      * apply nt_tok; [discriminate|intros _ H; vm_compute in H; discriminate|constructor].
      * apply (sel_text E0 st0 [b "c"]%string [b "c"]%string st0 [] [] st0); [reflexivity| |constructor].
        apply C19_text_copied. constructor; [|constructor]. split; [discriminate|]. split; [intros [_ H]; vm_compute in H; discriminate|].
        right. left. vm_compute. reflexivity.
Qed.

(** A null directive (a line with # alone) swallows the first word of the next
    line when that is a directive name; a missing name after #ifdef at the end
    of the file is a NULL dereference. *)
Theorem C19_null_directive_refuted :
  pp_text ["#"; "define X 1"; "X"]%string = out ["1"]%string /\ pp_text ["#ifdef"]%string = LOOB.
Proof. split; vm_compute; reflexivity. Qed.
Print Assumptions C19_null_directive_refuted.

(** ** C20 extra tokens after a directive *)
(** The claim is false: a token after #endif (or #else, #undef, #ifdef X) is
    output like text. *)
Theorem C20_extra_tokens_refuted :
  pp_text ["#ifdef FOO"; "#endif FOO"; "z"]%string = out ["FOO"; "z"]%string /\
  pp_text ["#ifndef FOO extra"; "#else leak"; "#endif"; "#undef FOO more"; "z"]%string = out ["extra"; "more"; "z"]%string.
Proof. split; vm_compute; reflexivity. Qed.
Print Assumptions C20_extra_tokens_refuted.

(** What does hold: the rest of an #ifdef/#ifndef/#else line inside a group that
    is skipped is dropped, for every such text. *)
Theorem C20_extra_tokens_skipped_partial E st h i n extra body h2 e cs rest r :
  hash_at h -> p_text i = bs "ifdef" -> defined_in st n = false ->
  Forall (fun t => p_bol t = false /\ p_kind t <> TK_EOF) extra -> nested false body ->
  hash_at h2 -> p_text e = bs "endif" -> starts_line rest ->
  pp_result E (set_conds st cs) rest r ->
  pp_result E (set_conds st cs) ((h :: i :: n :: extra ++ body ++ [h2; e]) ++ rest) r.
Proof.
  intros H1 H2 H3 H4 H5 H6 H7 H8 H9.
  assert (HN : nested false (extra ++ body)).
  { clear -H4 H5. induction H4 as [|t l (A & B) H IH]; [exact H5|]. cbn [app]. apply nt_tok; [exact B|congruence|exact IH]. }
  cbn [app]. eapply (dir_step E (set_conds st cs) h _ (h2 :: e :: rest) (set_conds st ((IN_THEN, false) :: cs))); [exact H1| |].
  - exists O. rewrite dir_ifdef; [|exact H2|intro X; destruct extra; [destruct body|]; discriminate].
    assert (D : defined_in (set_conds st cs) n = false) by (rewrite <- H3; reflexivity). rewrite D.
    assert (Q : (extra ++ body ++ [h2; e]) ++ rest = (extra ++ body) ++ h2 :: e :: rest) by (rewrite <- !app_assoc; reflexivity).
    rewrite Q, (skip_to (extra ++ body) h2 e rest); auto.
  - apply endif_step; assumption.
Qed.
Print Assumptions C20_extra_tokens_skipped_partial.
Example C20_nonvacuous : pp_text ["#ifdef FOO extra tokens"; "x"; "#endif"; "z"]%string = out ["z"]%string.
Proof. vm_compute. reflexivity. Qed.

(** ** C21 include guards *)
(** A header of the form #ifndef M ... #endif, properly nested and without #else
    for that #ifndef, contributes nothing once M is defined: leaving it out, as
    include_file does, gives the same result. *)
Theorem C21_guard_partial E st h i m body h2 e eof rest r :
  hash_at h -> p_text i = bs "ifndef" -> p_kind i <> TK_EOF -> p_kind m = TK_IDENT -> lookup (macros st) (p_text m) <> None ->
  nested false body -> starts_line (body ++ [h2]) -> hash_at h2 -> p_text e = bs "endif" -> p_kind e <> TK_EOF -> p_kind eof = TK_EOF ->
  Forall (fun t => p_kind t <> TK_EOF) body -> starts_line rest ->
  pp_result E st rest r ->
  pp_result E st (append (h :: i :: m :: body ++ [h2; e; eof]) rest) r.
Proof.
  intros H1 H2 K2 H3 H4 H5 H6 H7 H8 K8 H9 H10 H11 H12.
  assert (A : append (h :: i :: m :: body ++ [h2; e; eof]) rest = map copy_token (h :: i :: m :: body ++ [h2; e]) ++ rest).
  { replace (h :: i :: m :: body ++ [h2; e; eof]) with ((h :: i :: m :: body ++ [h2; e]) ++ [eof]) by (cbn [app]; rewrite <- app_assoc; reflexivity).
    apply append_wf; [|exact H9].
    constructor; [destruct H1 as (K & _); rewrite K; discriminate|]. constructor; [exact K2|]. constructor; [rewrite H3; discriminate|].
    apply Forall_app. split; [exact H10|]. constructor; [destruct H7 as (K & _); rewrite K; discriminate|]. constructor; [exact K8|constructor]. }
  rewrite A. cbn [map]. rewrite map_app. cbn [map].
  assert (NC : forall c l, nested c l -> nested c (map copy_token l)).
  { clear. intros c l Hn. induction Hn as [c|c t r B C Hn IH|c h i b h2 e r A1 B C IHC D F G IHG]; cbn [map].
    - constructor.
    - apply nt_tok; [exact B| |exact IH]. intros X Y. replace (text_at (map copy_token r)) with (text_at r) by (destruct r; reflexivity). exact (C X Y).
    - rewrite map_app. cbn [map]. apply (nt_cond c (copy_token h) (copy_token i) (map copy_token b) (copy_token h2) (copy_token e)); auto. }
  pose proof (guard_skips E st (copy_token h) (copy_token i) (copy_token m) (map copy_token body) (copy_token h2) (copy_token e)) as GS.
  assert (C : consumes E st (copy_token h :: copy_token i :: copy_token m :: map copy_token body ++ [copy_token h2; copy_token e]) [] st).
  { apply GS; auto.
    - unfold defined_in. cbn. rewrite H3. destruct (lookup (macros st) (p_text m)); congruence.
    - destruct body; exact H6. }
  specialize (C rest r H11 H12). rewrite prepend_nil in C. exact C.
Qed.
Print Assumptions C21_guard_partial.

(** What the test of include_file looks at: only a file that starts with #ifndef M,
    #define M and whose last tokens are # endif is taken to be
    guarded, by M. *)
Theorem C21_detected_shape l g :
  detect_include_guard l = LOk (Some g) ->
  exists h i m h2 d m2 body pre h3 e eof post,
    l = h :: i :: m :: h2 :: d :: m2 :: body /\
    is_hash h = true /\ p_text i = bs "ifndef" /\ p_kind m = TK_IDENT /\ p_text m = g /\
    is_hash h2 = true /\ p_text d = bs "define" /\ p_text m2 = g /\
    h2 :: d :: m2 :: body = pre ++ h3 :: e :: eof :: post /\
    is_hash h3 = true /\ p_text e = bs "endif" /\ p_kind eof = TK_EOF /\ Forall (fun t => p_kind t <> TK_EOF) pre.
Proof.
  unfold detect_include_guard. destruct l as [|h [|i [|m r]]]; try discriminate.
  destruct (negb (is_hash h) || negb (equal i (bs "ifndef"))) eqn:E1; [discriminate|].
  destruct (negb (is_ident_tok m)) eqn:E2; [discriminate|].
  destruct r as [|h2 [|d [|m2 body]]]; try discriminate.
  destruct (negb (is_hash h2) || negb (equal d (bs "define")) || negb (equal m2 (p_text m))) eqn:E3; [discriminate|].
  destruct (guard_loop (S (length (h2 :: d :: m2 :: body))) (h2 :: d :: m2 :: body)) as [[|]| | |] eqn:G; cbn [lbind]; try discriminate.
  intros H. assert (p_text m = g) by congruence. subst g.
  apply guard_loop_shape in G as (pre & h3 & e & eof & post & X1 & X2 & X3 & X4 & X5).
  apply Bool.orb_false_elim in E1 as [A1 A2]. apply Bool.orb_false_elim in E3 as [E3 A5]. apply Bool.orb_false_elim in E3 as [A3 A4].
  apply Bool.negb_false_iff in A1, A2, A3, A4, A5, E2. unfold equal in *. apply beq_eq in A2, A4, A5.
  unfold is_ident_tok in E2.
  exists h, i, m, h2, d, m2, body, pre, h3, e, eof, post. repeat split; auto. destruct (p_kind m); congruence.
Qed.
Print Assumptions C21_detected_shape.

(** such a header is detected *)
Example C21_nonvacuous :
  detect_include_guard (toks_of ["#ifndef A"; "#define A"; "int x;"; "#ifdef B"; "#else"; "#endif"; "#endif"]%string) = LOk (Some (bs "A")) /\
  pp_in (E1 ["d"] [("d/x.h", ["#ifndef A"; "#define A"; "int x;"; "#ifdef B"; "#else"; "#endif"; "#endif"])])%string
    ["#include <x.h>"; "#include <x.h>"; "y"]%string = out ["int"; "x"; ";"; "y"]%string.
Proof. split; vm_compute; reflexivity. Qed.

(** The claim itself is false: these headers are detected as guarded and the
    second inclusion is dropped although it has an effect (nested conditionals
    are not skipped by the detection since it tests the # and not the name, and
    #else is ignored). *)
Theorem C21_guard_refuted :
  pp_in (E1 ["d"] [("d/x.h", ["#ifndef A"; "#define A"; "#endif"; "int x;"; "#ifdef B"; "#endif"])])%string
    ["#include <x.h>"; "#include <x.h>"; "y"]%string = out ["int"; "x"; ";"; "y"]%string /\
  pp_in (E1 ["d"] [("d/x.h", ["#ifndef A"; "#define A"; "#else"; "int x;"; "#endif"])])%string
    ["#include <x.h>"; "#include <x.h>"; "y"]%string = out ["y"]%string.
Proof. split; vm_compute; reflexivity. Qed.
Print Assumptions C21_guard_refuted.

(** ** C22 include search *)
(** Whatever was preprocessed before, a name is resolved to the file in the
    first directory of the search list that has it, and if none has it the
    search fails. *)
Theorem C22_search_first E f l o st n :
  preprocess2 f E st0 l = LOk (o, st) -> at_ n 0 <> 47 ->
  match fst (search_include_paths E st n) with
  | Some p => first_in E (inc_paths E) n p
  | None => forall d, In d (inc_paths E) -> fs E (d ++ [47] ++ n) = None
  end.
Proof.
  intros H Hn. apply search_spec; [|exact Hn]. eapply cache_inv; [|exact H]. intros x p Hx. discriminate Hx.
Qed.
Print Assumptions C22_search_first.

Example C22_nonvacuous :
  first_in (E1 ["a"; "b"; "c"] [("b/x.h", ["b"]); ("c/x.h", ["c"])])%string [bs "a"; bs "b"; bs "c"] (bs "x.h") (bs "b/x.h").
Proof.
  exists 1%nat, (bs "b"). split; [reflexivity|]. split; [reflexivity|]. split; [vm_compute; discriminate|].
  intros [|j] d' Hj Hd; [|lia]. assert (d' = bs "a") by (change (Some (bs "a") = Some d') in Hd; congruence). subst. vm_compute. reflexivity.
Qed.

(** #include_next does not continue after the directory of the current file:
    the position is a global that other includes overwrite, and after an
    #include_next it stays at the directory it was found in. *)
Theorem C22_include_next_refuted :
  pp_in (E1 ["a"; "b"; "c"] [("a/x.h", ["#include <y.h>"; "#include_next <x.h>"]); ("b/x.h", ["b"]); ("c/y.h", [])])%string
    ["#include <x.h>"]%string = LErr /\
  pp_in (E1 ["a"; "b"; "c"] [("a/x.h", ["#include_next <x.h>"]);
      ("b/x.h", ["#ifndef B"; "#define B"; "#include_next <x.h>"; "#endif"]); ("c/x.h", ["c"])])%string
    ["#include <x.h>"; "z"]%string = out ["z"]%string.
Proof. split; vm_compute; reflexivity. Qed.
Print Assumptions C22_include_next_refuted.

(** ** C57 parameter substitution *)
(** For every body made of words, parameters, # parameter, operand ## operand and
    `, ## variadic`, and arguments without macro names in them, the replacement
    text is the one of the specification [item_text]. *)
Theorem C57_substitution_partial E g st args items e :
  Forall (plain_arg st) args -> Forall (fun a => (length (a_toks a) <= g)%nat) args ->
  Forall (item_ok args) items -> p_kind e = TK_EOF -> p_text e <> bs "##" ->
  exists o, subst (S (length (flat_map item_toks items ++ [e]))) (preprocess2 g E) st args (flat_map item_toks items ++ [e]) []
      = LOk (o ++ [copy_token e], st) /\
    map p_text o = flat_map (item_text (arg_text_of args) (arg_string args)) items.
Proof. exact (subst_items E g st args items e). Qed.
Print Assumptions C57_substitution_partial.

(** For bodies of words and parameters, each used once, an argument is replaced
    by its complete macro expansion ([mark_from] only numbers the tokens). *)
Theorem C57_arguments_expanded_partial E g st args outs items e :
  Forall (item_ok args) items -> Forall (fun b => match b with BWord _ | BParam _ _ => True | _ => False end) items ->
  NoDup (flat_map (fun b => match b with BParam _ i => [i] | _ => [] end) items) ->
  p_kind e = TK_EOF -> p_text e <> bs "##" ->
  (forall i a, nth_error args i = Some a -> preprocess2 g E st (mark_from 0 (a_toks a)) = LOk (outs i, st) /\ outs i <> []) ->
  exists o, subst (S (length (flat_map item_toks items ++ [e]))) (preprocess2 g E) st args (flat_map item_toks items ++ [e]) []
      = LOk (o ++ [copy_token e], st) /\
    words o = flat_map (fun b => match b with BParam _ i => words (upto_eof (outs i)) | b => words (item_toks b) end) items.
Proof. exact (subst_expands (preprocess2 g E) st args outs items e). Qed.
Print Assumptions C57_arguments_expanded_partial.

Example C57_nonvacuous :
  pp_text ["#define F(x,y,...) x y##x #y f(x,##__VA_ARGS__) z##1"; "F(a, b c, 1, (2,3)) F(p,q)"]%string =
  out ["a"; "b"; "ca"; """b c"""; "f"; "("; "a"; ","; "1"; ","; "("; "2"; ","; "3"; ")"; ")"; "z1";
       "p"; "qp"; """q"""; "f"; "("; "p"; ")"; "z1"]%string.
Proof. vm_compute. reflexivity. Qed.
Example C57_hypotheses_nonvacuous :
  let t s := ex_t false TK_IDENT s in let eof := ex_t true TK_EOF "" in
  let args := [MArg (bs "x") false [t "a"; eof]; MArg (bs "y") false [t "b"; t "c"; eof]]%string in
  Forall (plain_arg st0) args /\
  Forall (item_ok args) [BWord (t "w"); BParam (t "x") 0; BStr (ex_t false TK_PUNCT "#") (t "y") 1;
     BPaste (OArg (t "y") 1) (ex_t false TK_PUNCT "##") (OArg (t "x") 0)]%string.
Proof.
  intros t eof args.
  assert (N0 : names_arg args (t "x"%string) 0) by (eexists; split; [reflexivity|split; [reflexivity|intros; lia]]).
  assert (N1 : names_arg args (t "y"%string) 1).
  { eexists; split; [reflexivity|split; [reflexivity|]]. intros [|j] b Hj Hb; [|lia]. assert (X : b = MArg (bs "x") false [t "a"; eof]%string) by (cbn [nth_error args] in Hb; congruence). subst b. cbn [a_name p_text t ex_t]. nb. }
  assert (HO : forall s, bs s <> bs "#" -> bs s <> bs "##" -> bs s <> bs "__VA_OPT__" -> ordinary (t s)).
  { intros s A B C. repeat split; auto. discriminate. }
  assert (HT : forall s, In s ["a"; "b"; "c"]%string -> p_kind (t s) <> TK_EOF /\ ~ (p_bol (t s) = true /\ p_text (t s) = bs "#") /\
      (p_kind (t s) <> TK_IDENT \/ lookup (macros st0) (p_text (t s)) = None \/ In (p_text (t s)) (p_hs (t s))) /\
      forall b, In b (p_text (t s)) -> 0 < b < 256 /\ b <> 10).
  { intros s Hs. split; [discriminate|]. split; [intros [H _]; discriminate|].
    destruct Hs as [<-|[<-|[<-|[]]]]; (split; [right; left; vm_compute; reflexivity|]); intros b Hb; vm_compute in Hb; destruct Hb as [<-|[]]; lia. }
  split.
  - constructor; [|constructor; [|constructor]].
    + exists [t "a"%string], eof. split; [reflexivity|]. split; [reflexivity|]. split; [reflexivity|].
      constructor; [apply HT; cbn; auto|constructor].
    + exists [t "b"%string; t "c"%string], eof. split; [reflexivity|]. split; [reflexivity|]. split; [reflexivity|].
      constructor; [apply HT; cbn; auto|]. constructor; [apply HT; cbn; auto|constructor].
  - constructor; [|constructor; [|constructor; [|constructor; [|constructor]]]].
    + split; [apply HO; nb|]. intros a [<-|[<-|[]]]; cbn [a_name p_text t ex_t]; nb.
    + split; [apply HO; nb|]. split; [cbn [p_text t ex_t]; nb|exact N0].
    + split; [discriminate|]. split; [reflexivity|exact N1].
    + split; [apply HO; nb|]. split; [cbn [p_text op_tok t ex_t]; nb|]. split; [exact N1|]. split; [discriminate|]. split; [reflexivity|].
      split; [discriminate|]. split; [exact N0|]. intros _ _. eexists _, _. split; [vm_compute; reflexivity|]. vm_compute. auto.
Qed.

(** Cases where the replacement is wrong: #x after an expanded use of x sees the
    expansion; an argument used twice is expanded twice, so __COUNTER__ in it
    differs; parameters inside __VA_OPT__ are not replaced; a ## operand after two
    empty arguments is pasted onto the word before them. *)
Theorem C57_refuted :
  pp_text ["#define FOO bar"; "#define S(x) x #x"; "S(a FOO)"]%string = out ["a"; "bar"; """a bar"""]%string /\
  pp_text ["#define P(x) x x"; "P(__COUNTER__)"]%string = out ["0"; "1"]%string /\
  pp_text ["#define F(x,...) __VA_OPT__(x)"; "F(1,2)"]%string = out ["x"]%string /\
  pp_text ["#define G(a,b,c) x a##b##c"; "G(,,y)"]%string = out ["xy"]%string.
Proof. repeat split; vm_compute; reflexivity. Qed.
Print Assumptions C57_refuted.
(** ## at the end of a body after an empty argument reads past the end marker. *)
Theorem C57_paste_at_end_refuted : pp_text ["#define F(x) x##"; "F()"]%string = LOOB.
Proof. vm_compute. reflexivity. Qed.
Print Assumptions C57_paste_at_end_refuted.

(** ** C61 __LINE__ *)
(** All tokens an expansion adds carry the line and file of the token that was
    expanded (of the outermost macro, by repetition), and __LINE__ is printed
    from that line: it is the line of the macro use, not of the definition. *)
Theorem C61_expansion_origin pp st t r l' st' :
  expand_macro pp st t r = LOk (Some (l', st')) ->
  (forall h, find_macro st t <> Some (Handler h)) ->
  exists new suffix, words l' = words (new ++ suffix) /\ (exists pre, r = pre ++ suffix) /\
    Forall (fun x => p_oline x = p_oline t /\ p_ofile x = p_ofile t) new.
Proof.
  intros H Hh. destruct (expand_origin pp st t r l' st' H Hh) as (new & suffix & A & B & C). exists new, suffix. split; [|auto].
  apply (f_equal (map fst)) in A. unfold words. rewrite !map_map in A. exact A.
Qed.
Print Assumptions C61_expansion_origin.
Theorem C61_line_value st t : 0 <= p_oline t < 10 ^ 20 -> f_delta (file_of st (p_ofile t)) = 0 ->
  exists x, run_handler st H_LINE t = LOk (x, st) /\ p_kind x = TK_PP_NUM /\
    Forall (fun c => 48 <= c <= 57) (p_text x) /\ fold_left (fun a d => 10 * a + (d - 48)) (p_text x) 0 = p_oline t.
Proof.
  intros H D. unfold run_handler. rewrite D, Z.add_0_r. destruct (num_token_ok (p_oline t) t H) as (x & -> & A & B & C).
  exists x. auto.
Qed.
Print Assumptions C61_line_value.
Example C61_nonvacuous : pp_text ["#define A __LINE__"; "#define B A"; ""; "B"; "__LINE__"]%string = out ["4"; "5"]%string.
Proof. vm_compute. reflexivity. Qed.
(** #line N says that the next line has the number N (C11 6.10.4p3): here it gets N + 1. *)
Theorem C61_line_directive_refuted : pp_text ["#line 100"; "__LINE__"]%string = out ["101"]%string.
Proof. vm_compute. reflexivity. Qed.
Print Assumptions C61_line_directive_refuted.
