(** Proofs for C215: the text of a program is read as its code. *)
From Coq Require Import String Lia.
From Verif Require Import Base NumModel NumSpec NumProperties ParseModel ParseSpec PrintModel ParseProperties EnvModel EvalModel
  ApiModel LangSpec LangProofs HoSpec.
From Verif Require LangProperties.
Local Open Scope string_scope.
Local Open Scope Z_scope.
Local Open Scope list_scope.

Definition plist (ps : list (list Z)) : val := match ps with [] => VNil | _ => VList (map VSym ps) false end.
Definition rlist (ps : list (list Z)) : rdatum := match ps with [] => RNil | p :: ps => RList (RSym p) (map RSym ps) None end.
Fixpoint hcode (e : hexp) : val :=
  match e with
  | HNum z => VInt z
  | HVar x => VSym x
  | HBin o a b => VList [VSym (op_name o); hcode a; hcode b] false
  | HIf r a b t f => VList [sym "if"; VList [VSym (rel_name r); hcode a; hcode b] false; hcode t; hcode f] false
  | HLet x a b => VList [sym "let"; VList [VList [VSym x; hcode a] false] false; hcode b] false
  | HLam ps b => VList [sym "lambda"; plist ps; hcode b] false
  | HApp f args => VList (hcode f :: map hcode args) false
  end.
Fixpoint hdatum (e : hexp) : rdatum :=
  match e with
  | HNum z => RInt z
  | HVar x => RSym x
  | HBin o a b => RList (RSym (op_name o)) [hdatum a; hdatum b] None
  | HIf r a b t f => RList (RSym (bs "if")) [RList (RSym (rel_name r)) [hdatum a; hdatum b] None; hdatum t; hdatum f] None
  | HLet x a b => RList (RSym (bs "let")) [RList (RList (RSym x) [hdatum a] None) [] None; hdatum b] None
  | HLam ps b => RList (RSym (bs "lambda")) [rlist ps; hdatum b] None
  | HApp f args => RList (hdatum f) (map hdatum args) None
  end.
Definition hcode_fn (d : hfn) : val :=
  VList [sym "define"; VList (VSym (h_name d) :: map VSym (h_params d)) false; hcode (h_body d)] false.
Definition hdatum_fn (d : hfn) : rdatum :=
  RList (RSym (bs "define")) [RList (RSym (h_name d)) (map RSym (h_params d)) None; hdatum (h_body d)] None.

Section HInd.
Variable Q : hexp -> Prop.
Hypothesis HN : forall z, Q (HNum z).
Hypothesis HV : forall x, Q (HVar x).
Hypothesis HB : forall o a b, Q a -> Q b -> Q (HBin o a b).
Hypothesis HJ : forall r a b t f, Q a -> Q b -> Q t -> Q f -> Q (HIf r a b t f).
Hypothesis HL : forall x a b, Q a -> Q b -> Q (HLet x a b).
Hypothesis HM : forall ps b, Q b -> Q (HLam ps b).
Hypothesis HC : forall f args, Q f -> Forall Q args -> Q (HApp f args).
Fixpoint hexp_ind' (e : hexp) : Q e :=
  match e with
  | HNum z => HN z
  | HVar x => HV x
  | HBin o a b => HB o a b (hexp_ind' a) (hexp_ind' b)
  | HIf r a b t f => HJ r a b t f (hexp_ind' a) (hexp_ind' b) (hexp_ind' t) (hexp_ind' f)
  | HLet x a b => HL x a b (hexp_ind' a) (hexp_ind' b)
  | HLam ps b => HM ps b (hexp_ind' b)
  | HApp f args => HC f args (hexp_ind' f) ((fix go l : Forall Q l := match l with [] => Forall_nil _ | x :: r => Forall_cons x (hexp_ind' x) (go r) end) args)
  end.
End HInd.

Lemma program_rlist ps : program (rlist ps) = Some (plist ps).
Proof.
  destruct ps as [|p ps]; [reflexivity|]. cbn [rlist plist program map].
  match goal with |- context[?g (map RSym ps)] => assert (E : g (map RSym ps) = Some (map VSym ps)) end.
  { induction ps as [|x l IH]; cbn [map]; [reflexivity|]. cbn [program] in *. now rewrite IH. }
  now rewrite E.
Qed.
Lemma hprogram_code e : program (hdatum e) = Some (hcode e).
Proof.
  induction e using hexp_ind'; cbn [hdatum hcode program].
  - reflexivity.
  - reflexivity.
  - now rewrite IHe1, IHe2.
  - now rewrite IHe1, IHe2, IHe3, IHe4.
  - now rewrite IHe1, IHe2.
  - now rewrite program_rlist, IHe.
  - rewrite IHe. match goal with |- context[?g (map hdatum args)] => assert (E : g (map hdatum args) = Some (map hcode args)) end.
    { induction H as [|x l Hx _ IH]; cbn [map]; [reflexivity|]. now rewrite Hx, IH. }
    now rewrite E.
Qed.
Lemma hprogram_fn d : program (hdatum_fn d) = Some (hcode_fn d).
Proof.
  unfold hdatum_fn, hcode_fn. cbn [program].
  match goal with |- context[?g (map RSym (h_params d))] => assert (E : g (map RSym (h_params d)) = Some (map VSym (h_params d))) end.
  { induction (h_params d) as [|x l IH]; cbn [map]; [reflexivity|]. cbn [program] in *. now rewrite IH. }
  rewrite E. now rewrite hprogram_code.
Qed.

Lemma lambda_ident : identifier (bs "lambda") /\ not_quoting (bs "lambda").
Proof.
  split; [|unfold not_quoting; repeat split; discriminate].
  apply LangProperties.lower; [discriminate|reflexivity].
Qed.
Section Text.
Variable nm : list Z -> Prop.
Hypothesis NM : forall x, nm x -> name x.
Lemma nm_ident x : nm x -> identifier x /\ not_quoting x. Proof. intros N. now apply name_ident, NM. Qed.
(* a list whose head is not a symbol *)
Definition not_sym (h : rdatum) : Prop := match h with RSym _ => False | _ => True end.
Lemma print_head pf wm h l : not_sym h ->
  print pf wm false false (RList h l None) = paren (map (print pf true false false) (h :: l)).
Proof.
  intros N. assert (SW : forall s, starts_with h s = false) by (intros s; destruct h; try reflexivity; contradiction).
  cbn [print]. rewrite !SW. cbn [map]. unfold paren, spaced. cbn [app]. f_equal. rewrite <- app_assoc. f_equal. f_equal.
  clear. induction l as [|y l IH]; cbn [map flat_map]; [reflexivity|]. now rewrite IH.
Qed.
Lemma print_syms pf ps : Forall nm ps -> map (print pf true false false) (map RSym ps) = ps.
Proof.
  intros F. rewrite map_map. rewrite <- (map_id ps) at 2. apply map_ext_in. intros x I. rewrite Forall_forall in F.
  cbn [print]. now apply ident_colon, nm_ident, F.
Qed.
Lemma print_rlist pf wm ps : Forall nm ps -> print pf wm false false (rlist ps) = paren ps.
Proof.
  intros F. destruct ps as [|p ps]; [reflexivity|]. inversion F; subst. cbn [rlist]. rewrite print_plain_list by now apply nm_ident.
  now rewrite print_syms.
Qed.
Lemma hprint_code pf e wm : hwf nm e -> print pf wm false false (hdatum e) = hshow e.
Proof.
  intros W. revert wm. induction e using hexp_ind'; intros wm; inversion W; subst; cbn [hdatum hshow].
  - reflexivity.
  - cbn [print]. apply ident_colon. now apply nm_ident.
  - rewrite print_plain_list by apply op_ident. cbn [map]. now rewrite IHe1, IHe2.
  - rewrite print_plain_list by apply if_ident. cbn [map]. rewrite print_plain_list by apply rel_ident. cbn [map].
    now rewrite IHe1, IHe2, IHe3, IHe4.
  - rewrite print_plain_list by apply let_ident. cbn [map]. rewrite print_list_list by reflexivity. cbn [map].
    rewrite print_plain_list by now apply nm_ident. cbn [map]. now rewrite IHe1, IHe2.
  - rewrite print_plain_list by apply lambda_ident. cbn [map]. rewrite print_rlist by assumption. now rewrite IHe.
  - assert (A : map (print pf true false false) (map hdatum args) = map hshow args).
    { rewrite map_map. apply map_ext_in. intros a I. rewrite Forall_forall in *. auto. }
    destruct e; try contradiction.
    + cbn [hdatum hshow]. inversion H3; subst. rewrite print_plain_list by now apply nm_ident. now rewrite A.
    + rewrite print_head by exact Logic.I. cbn [map]. now rewrite A, IHe.
    + rewrite print_head by exact Logic.I. cbn [map]. now rewrite A, IHe.
    + rewrite print_head by exact Logic.I. cbn [map]. now rewrite A, IHe.
    + rewrite print_head by exact Logic.I. cbn [map]. now rewrite A, IHe.
    + rewrite print_head by exact Logic.I. cbn [map]. now rewrite A, IHe.
Qed.
Lemma hplain_exp e : hwf nm e -> plain (hdatum e).
Proof.
  intros W. induction e using hexp_ind'; inversion W; subst; cbn [hdatum].
  - constructor. now apply small_range.
  - constructor. now apply nm_ident.
  - apply plain_sym_list; [apply op_ident|apply op_ident|repeat constructor; auto].
  - apply plain_sym_list; [apply if_ident|apply if_ident|].
    constructor; [apply plain_sym_list; [apply rel_ident|apply rel_ident|repeat constructor; auto]|repeat constructor; auto].
  - apply plain_sym_list; [apply let_ident|apply let_ident|]. destruct (nm_ident _ H2) as (I1 & I2).
    constructor; [|repeat constructor; auto]. apply pl_list; [intros [E|[E|[E|E]]]; discriminate|apply plain_sym_list; auto|constructor].
  - apply plain_sym_list; [apply lambda_ident|apply lambda_ident|]. constructor; [|repeat constructor; auto].
    destruct ps as [|p ps]; [constructor|]. match goal with F : Forall nm (p :: ps) |- _ => inversion F; subst end.
    cbn [rlist]. apply plain_sym_list; [now apply nm_ident|now apply nm_ident|]. apply Forall_map.
    match goal with F : Forall nm ps |- _ => eapply Forall_impl; [|exact F] end. intros x Nx. constructor. now apply nm_ident.
  - apply pl_list; [|auto|apply Forall_map; rewrite Forall_forall in *; auto].
    destruct e; try contradiction; cbn [hdatum]; try (intros [E|[E|[E|E]]]; discriminate).
    apply not_quote_word. match goal with F : hwf nm (HVar _) |- _ => inversion F; subst end. now apply nm_ident.
Qed.
Lemma hplain_fn d : hwf_fn nm d -> plain (hdatum_fn d).
Proof.
  intros (N & Ps & _ & W). unfold hdatum_fn. apply plain_sym_list; [apply define_ident|apply define_ident|].
  constructor; [|constructor; [now apply hplain_exp|constructor]].
  apply plain_sym_list; [now apply nm_ident|now apply nm_ident|]. apply Forall_map. eapply Forall_impl; [|exact Ps].
  intros x Nx. constructor. now apply nm_ident.
Qed.
Lemma hread_exp e : hwf nm e -> parse (hshow e) = Ok (hdatum e).
Proof. intros W. assert (E : write_datum pf1 (hdatum e) = hshow e) by (now apply hprint_code). rewrite <- E. now apply c32_round_trip, hplain_exp. Qed.
Lemma hread_fn d : hwf_fn nm d -> parse (hshow_fn d) = Ok (hdatum_fn d).
Proof.
  intros W. pose proof W as (N & Ps & _ & Wb).
  assert (E : write_datum pf1 (hdatum_fn d) = hshow_fn d).
  { unfold write_datum, hdatum_fn, hshow_fn. rewrite print_plain_list by apply define_ident. cbn [map].
    rewrite print_plain_list by now apply nm_ident. rewrite (hprint_code pf1 _ true Wb). now rewrite print_syms. }
  rewrite <- E. now apply c32_round_trip, hplain_fn.
Qed.
End Text.
