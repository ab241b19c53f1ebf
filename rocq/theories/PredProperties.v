(** C76-C78: types, symbols, variables. *)
From Coq Require Import Lia String SpecFloat.
From Verif Require Import Base NumModel HeapModel EqModel StringModel ListModel ListSpec ListProofs ListProofs2 PrintModel ParseModel ParseSpec ParseProofs PredModel PredSpec PredProofs.
From Verif Require EnvModel EnvSpec EnvProperties.
Local Open Scope Z_scope.
Local Open Scope list_scope.

(** ** C76 *)
(* every type predicate answers #t or #f for every object and changes nothing *)
Theorem c76_total : forall p h a o,
  In p (nine ++ [complex_p; real_p; rational_p; integer_p; exact_p; inexact_p; hash_table_p; variable_p; not_p]) ->
  h_obj h a = Some o -> exists b, says p h a b.
Proof.
  intros p h a o I E. unfold nine in I. cbn [app] in I.
  repeat (destruct I as [<-|I]; [eexists; unfold says; eapply (check_says _ h a o E)|]). destruct I.
Qed.
Print Assumptions c76_total.
(* no object satisfies two of boolean? null? pair? number? symbol? string? char?
   vector? procedure? *)
Theorem c76_disjoint : forall h a i j p q,
  h_obj h a <> None -> nth_error nine i = Some p -> nth_error nine j = Some q ->
  says p h a true -> says q h a true -> i = j.
Proof.
  intros h a i j p q E Hi Hj P Q. destruct (h_obj h a) as [o|] eqn:Eo; [|congruence]. rewrite nine_eq, nth_error_map in Hi, Hj.
  destruct (nth_error nine_p i) as [p'|] eqn:Fi; [|discriminate]. destruct (nth_error nine_p j) as [q'|] eqn:Fj; [|discriminate].
  cbn in Hi, Hj. injection Hi as <-. injection Hj as <-.
  apply (says_check _ h a o _ Eo) in P, Q. eapply nine_disjoint; eauto.
Qed.
Print Assumptions c76_disjoint.
(* the numeric tower: number?, complex?, real? agree; integer? => rational? =>
   real?; rational? = exact?; a number is exact or inexact and never both *)
Theorem c76_tower : forall h a, h_obj h a <> None ->
  (forall b, says number_p h a b <-> says complex_p h a b) /\
  (forall b, says number_p h a b <-> says real_p h a b) /\
  (says integer_p h a true -> says rational_p h a true) /\
  (says rational_p h a true -> says real_p h a true) /\
  (forall b, says rational_p h a b <-> says exact_p h a b) /\
  (says number_p h a true <-> says exact_p h a true \/ says inexact_p h a true) /\
  ~ (says exact_p h a true /\ says inexact_p h a true).
Proof.
  intros h a N. destruct (h_obj h a) as [o|] eqn:E; [|congruence]. clear N.
  unfold number_p, complex_p, real_p, integer_p, rational_p, exact_p, inexact_p.
  repeat setoid_rewrite (fun p b => says_check p h a o b E).
  destruct o; cbn; repeat split; try tauto; try congruence; try (intros [|]; congruence); (intros [? ?]; congruence).
Qed.
Print Assumptions c76_tower.
(* what the numeric predicates say of an integer, a ratio and a double *)
Theorem c76_numbers : forall h a,
  (forall z, h_obj h a = Some (ONum z) -> says integer_p h a true /\ says exact_p h a true /\ says inexact_p h a false) /\
  (forall n d, h_obj h a = Some (ORatio n d) -> says integer_p h a false /\ says rational_p h a true /\ says exact_p h a true /\ says inexact_p h a false) /\
  (forall f, h_obj h a = Some (OFloat f) -> says real_p h a true /\ says exact_p h a false /\ says inexact_p h a true).
Proof.
  intros h a. repeat split; intros; unfold says, number_p, complex_p, real_p, integer_p, rational_p, exact_p, inexact_p; erewrite check_says by eassumption; reflexivity.
Qed.
Print Assumptions c76_numbers.
(* each of the nine predicates accepts exactly the objects of its type *)
Theorem c76_exactly : forall h a o, h_obj h a = Some o ->
  (says boolean_p h a true <-> exists b, o = OBool b) /\
  (says null_p h a true <-> o = ONil) /\
  (says pair_p h a true <-> exists c, o = OList c) /\
  (says number_p h a true <-> (exists z, o = ONum z) \/ (exists f, o = OFloat f) \/ (exists n d, o = ORatio n d)) /\
  (says symbol_p h a true <-> exists s, o = OSym s) /\
  (says string_p h a true <-> exists s, o = OStr s) /\
  (says char_p h a true <-> exists c, o = OChar c) /\
  (says vector_p h a true <-> exists l, o = OVec l) /\
  (says hash_table_p h a true <-> exists b n, o = OHash b n) /\
  (* closures, continuations, built-in functions; not macros (3) *)
  (says procedure_p h a true <-> o = OOpaque 0 \/ o = OOpaque 1 \/ o = OOpaque 2) /\
  (says variable_p h a true <-> o = OOpaque 8).
Proof.
  intros h a o E.
  unfold boolean_p, null_p, pair_p, number_p, symbol_p, string_p, char_p, vector_p, hash_table_p, procedure_p, variable_p.
  rewrite !(fun p => says_check p h a o true E).
  destruct o; cbn; repeat split; intros; try discriminate; try (eexists; reflexivity); eauto 6;
    repeat match goal with
    | H : exists _, _ |- _ => destruct H
    | H : _ \/ _ |- _ => destruct H
    end; try discriminate; try reflexivity; try congruence.
  - unfold is_proc, is_cont, is_func, is_tag in H. destruct tag as [|[|[|t]]]; auto; discriminate.
  - injection H as ->. reflexivity.
  - injection H as ->. reflexivity.
  - injection H as ->. reflexivity.
  - apply Nat.eqb_eq in H. now subst.
  - injection H as ->. reflexivity.
Qed.
Print Assumptions c76_exactly.
(* not answers #t for #f only *)
Theorem c76_not : forall h a o, h_obj h a = Some o ->
  exists b, says not_p h a b /\ (b = true <-> o = OBool false).
Proof.
  intros h a o E. exists (is_falsy o). split; [now apply check_says|]. destruct o as [| | | | | | |[]| | | | |]; cbn; split; congruence.
Qed.
Print Assumptions c76_not.
(* whatever list? accepts is the empty list or a pair *)
Theorem c76_list : forall h a fuel,
  says (is_list_prim fuel) h a true -> says null_p h a true \/ says pair_p h a true.
Proof.
  intros h a fuel H. unfold says, is_list_prim, mbind, get in H. destruct (h_obj h a) as [o|] eqn:E; [|discriminate].
  unfold null_p, pair_p. rewrite !(fun p => says_check p h a o true E).
  destruct o; cbn in H; try (injection H as H; discriminate H); auto.
Qed.
Print Assumptions c76_list.
(* REFUTED: "an inexact whole number is an integer and rational" (R5RS 6.2.5:
   (integer? 3.0) => #t, (rational? 6.0) => #t) *)
Theorem c109_inexact_integer_refuted : forall h a f, h_obj h a = Some (OFloat f) ->
  says integer_p h a false /\ says rational_p h a false.
Proof. intros h a f E. split; unfold says, integer_p, rational_p; now rewrite (check_says _ h a _ E). Qed.
Print Assumptions c109_inexact_integer_refuted.
Definition ex_types : heap :=
  mkHeap (fun a => nth_error [ONone; ONil; OBool false; OBool true; ONum 3; OFloat (d_of_Z 3); ORatio 1 2; OSym (bs "s"); OStr (bs "t"); OOpaque 2; OOpaque 3; OList 12] a)
         (fun a => if Nat.eqb a 12 then Some (mkCell 4 None false) else None) 13.
Example c76_ex : says number_p ex_types 5 true /\ says integer_p ex_types 5 false /\ says procedure_p ex_types 9 true /\
  says procedure_p ex_types 10 false /\ says (is_list_prim 9) ex_types 11 true /\ says (is_list_prim 9) ex_types 1 true /\ says not_p ex_types 1 false.
Proof. repeat split. Qed.

(** ** C77 *)
Theorem c77_symbol_string : forall h a n, h_obj h a = Some (OSym n) ->
  exists s h1 b h2, symbol_to_string a h = Ok (s, h1) /\ h_obj h1 s = Some (OStr n) /\
    string_to_symbol s h1 = Ok (b, h2) /\ h_obj h2 b = Some (OSym n).
Proof.
  intros h a n E. unfold symbol_to_string, string_to_symbol, mbind, get, alloc. rewrite E. do 4 eexists.
  split; [reflexivity|]. cbn. unfold HeapModel.upd. rewrite Nat.eqb_refl. split; [reflexivity|]. split; [reflexivity|]. cbn. rewrite Nat.eqb_refl. reflexivity.
Qed.
Print Assumptions c77_symbol_string.
Theorem c77_string_symbol : forall h a s, h_obj h a = Some (OStr s) ->
  exists b h1 c h2, string_to_symbol a h = Ok (b, h1) /\ h_obj h1 b = Some (OSym s) /\
    symbol_to_string b h1 = Ok (c, h2) /\ h_obj h2 c = Some (OStr s).
Proof.
  intros h a n E. unfold symbol_to_string, string_to_symbol, mbind, get, alloc. rewrite E. do 4 eexists.
  split; [reflexivity|]. cbn. unfold HeapModel.upd. rewrite Nat.eqb_refl. split; [reflexivity|]. split; [reflexivity|]. cbn. rewrite Nat.eqb_refl. reflexivity.
Qed.
Print Assumptions c77_string_symbol.
(* the conversions make a new object and change no existing one; in particular
   the string from symbol->string can be changed without renaming the symbol *)
Theorem c77_fresh : forall h a r h', wf h ->
  symbol_to_string a h = Ok (r, h') \/ string_to_symbol a h = Ok (r, h') ->
  extends h h' /\ h_obj h r = None.
Proof.
  intros h a r h' W H.
  assert (G : forall o, alloc o h = Ok (r, h') -> extends h h' /\ h_obj h r = None).
  { intros o E. unfold alloc in E. injection E as <- <-. destruct W as [W _]. split; [|apply W; lia]. split; [|split]; cbn; auto.
    intros b p E. unfold HeapModel.upd. destruct (Nat.eqb_spec b (h_next h)); [|exact E]. subst. destruct (W (h_next h) (le_n _)). congruence. }
  destruct H as [H|H]; unfold symbol_to_string, string_to_symbol, mbind, get in H; destruct (h_obj h a) as [o|]; try discriminate;
    destruct o; try discriminate; eauto.
Qed.
Print Assumptions c77_fresh.
Theorem c77_wrong_type : forall h a o, h_obj h a = Some o ->
  ((forall n, o <> OSym n) -> symbol_to_string a h = Err) /\ ((forall s, o <> OStr s) -> string_to_symbol a h = Err).
Proof.
  intros h a o E. unfold symbol_to_string, string_to_symbol, mbind, get. rewrite E. split; intro N; destruct o; try reflexivity; exfalso; eapply N; reflexivity.
Qed.
Print Assumptions c77_wrong_type.
(* eq? of two symbols is equality of their names, however they were made,
   provided no name contains a NUL byte *)
Theorem c110_eq : forall h a b x y,
  h_obj h a = Some (OSym x) -> h_obj h b = Some (OSym y) -> Forall (fun c => c <> 0) x -> Forall (fun c => c <> 0) y ->
  exists r, eq_p a b h = Ok (r, h) /\ (r = true <-> x = y).
Proof. exact eq_syms. Qed.
Print Assumptions c110_eq.
(* REFUTED without the proviso: (eq? (string->symbol "a\000b") (string->symbol "a\000c")) *)
Theorem c165_eq_nul_refuted : exists h a b x y,
  h_obj h a = Some (OSym x) /\ h_obj h b = Some (OSym y) /\ x <> y /\ eq_p a b h = Ok (true, h).
Proof.
  exists (mkHeap (fun a => nth_error [ONone; ONil; OBool false; OBool true; OSym [97; 0; 98]; OSym [97; 0; 99]] a) (fun _ => None) 6), 4%nat, 5%nat, [97; 0; 98], [97; 0; 99].
  repeat split. discriminate.
Qed.
Print Assumptions c165_eq_nul_refuted.
(* two calls of gensym never give the same name, whatever happens in between *)
Theorem c77_gensym_distinct : forall i h l, gens i h l -> NoDup l.
Proof. exact gens_nodup. Qed.
Print Assumptions c77_gensym_distinct.
(* gensym always answers with a symbol that is not eq? to any earlier gensym still
   in the heap, for the first 2^31 - 1 calls *)
Theorem c77_gensym_fresh : forall i h l, gens i h l -> i <> 2 ^ 31 - 1 ->
  exists a i' h' n, gensym i h = Ok ((a, i'), h') /\ h_obj h' a = Some (OSym n) /\
    forall b x, In x l -> h_obj h' b = Some (OSym x) -> eq_p a b h' = Ok (false, h').
Proof.
  intros i h l G N. assert (Z : exists a i' h' n, gensym i h = Ok ((a, i'), h') /\ h_obj h' a = Some (OSym n)).
  { unfold gensym. rewrite (proj2 (Z.eqb_neq i int32_max) N). unfold mbind, alloc, ret. do 4 eexists. split; [reflexivity|]. cbn. unfold HeapModel.upd. now rewrite Nat.eqb_refl. }
  destruct Z as (a & i' & h' & n & E & On). exists a, i', h', n. split; [exact E|split; [exact On|]]. intros b x I Ob.
  assert (G' : gens i' h' (l ++ [n])) by (eapply gens_call; eauto).
  destruct (gens_blank _ _ _ n G' ltac:(apply in_or_app; cbn; auto)) as (_ & _ & Fn). destruct (gens_blank _ _ _ x G I) as (_ & _ & Fx).
  destruct (eq_syms h' a b n x On Ob Fn Fx) as (r & Er & R). destruct r; [|exact Er].
  assert (n = x) by (now apply R). subst. apply gens_nodup in G'. apply NoDup_remove_2 in G'. rewrite app_nil_r in G'. contradiction.
Qed.
Print Assumptions c77_gensym_fresh.
(* REFUTED: "gensym can be called any number of times": the 2^31-th call is
   undefined behaviour (signed overflow of its counter) *)
Theorem c165_gensym_overflow_refuted : forall h, gensym (2 ^ 31 - 1) h = UB.
Proof. reflexivity. Qed.
Print Assumptions c165_gensym_overflow_refuted.
(* no gensym is named by a program text, provided the text has no #{...}# *)
Theorem c110_gensym_unreadable : forall i h l x s ds d,
  gens i h l -> In x l -> no_braces s -> parse_all s = Ok ds -> In d ds -> ~ occurs x d.
Proof.
  intros i h l x s ds d G I N P D O. destruct (gens_blank _ _ _ _ G I) as (r & -> & _).
  pose proof (names_all_forms _ _ _ N P) as F. rewrite Forall_forall in F. specialize (F d D _ O). inversion F as [|? ? [H _] _]. discriminate H.
Qed.
Print Assumptions c110_gensym_unreadable.
(* names the reader makes contain no white space, parenthesis, semicolon or NUL *)
Theorem c77_read_names : forall s d x, no_braces s -> parse s = Ok d -> occurs x d ->
  Forall (fun c => isspace c = false /\ c <> 40 /\ c <> 41 /\ c <> 59 /\ c <> 0) x.
Proof.
  intros s d x N E O. unfold parse in E. destruct (parse_expr s) as [[[d'|] r]| | | |] eqn:P; try discriminate. cbn in E.
  destruct (negb (at0 (skip r) =? 0)); [discriminate|]. injection E as ->. exact (proj1 (names_all _) s d r N P x O).
Qed.
Print Assumptions c77_read_names.
(* REFUTED: "a gensym differs from every symbol of the program": #{ g0}# and
   (string->symbol " g0") have the name of the first gensym *)
Theorem c165_gensym_collides_refuted : exists i h l x,
  gens i h l /\ In x l /\ parse (bs "#{ g0}#") = Ok (RSym x) /\
  exists h0 a b h1, h_obj h0 a = Some (OStr (bs " g0")) /\ string_to_symbol a h0 = Ok (b, h1) /\ h_obj h1 b = Some (OSym x).
Proof.
  set (h := mkHeap (fun a => nth_error [ONone; ONil; OBool false; OBool true; OStr (bs " g0")] a) (fun _ => None) 5).
  eexists 1, _, _, (bs " g0"). split; [eapply (gens_call 0 h [] _ _ _ _ (gens_start h)); [reflexivity|reflexivity]|].
  split; [left; reflexivity|]. split; [vm_compute; reflexivity|]. exists h, 4%nat. do 2 eexists. split; [reflexivity|split; reflexivity].
Qed.
Print Assumptions c165_gensym_collides_refuted.
Example c77_ex : exists h', gens 2 h' [bs " g0"; bs " g1"] /\ h_obj h' 4 = Some (OSym (bs " g0")) /\ h_obj h' 5 = Some (OSym (bs " g1")).
Proof.
  eexists. split; [eapply (gens_call 1 _ [bs " g0"]); [eapply (gens_call 0 empty_heap [] _ _ _ _ (gens_start empty_heap)); reflexivity|reflexivity|reflexivity]|].
  split; reflexivity.
Qed.
Example c77_ex_read : no_braces (bs "(let ((x 1)) |a\;b|)") /\ exists d, parse (bs "(let ((x 1)) |a| b\'c)") = Ok d.
Proof.
  split; [|eexists; vm_compute; reflexivity].
  intros a b E. assert (I : In 123 (bs "(let ((x 1)) |a\;b|)")) by (rewrite E; apply in_or_app; cbn; auto). cbn in I. intuition discriminate.
Qed.

(** ** C78 *)
(* after any history of operations, a variable holds what the last write to it
   (or its creation) stored: variable-ref and variable-bound? say so *)
Theorem c78_last_write : forall l i,
  let s := snd (vrun (rev l) []) in
  match holds i l with
  | Some (Some v) => variable_ref (Var i) s = Ok v /\ variable_bound (Var i) s = Ok true
  | Some None => variable_ref (Var i) s = Err /\ variable_bound (Var i) s = Ok false
  | None => (made l <= i)%nat
  end.
Proof.
  intros l i s. destruct (store_holds l i) as [H L]. subst s. cbn [variable_ref variable_bound]. rewrite H. destruct (holds i l) as [[v|]|]; auto.
  rewrite <- L. now apply nth_error_None.
Qed.
Print Assumptions c78_last_write.
(* the n-th creation gives a variable different from all the earlier ones *)
Theorem c78_fresh : forall l v,
  vstep (OpMake v) (snd (vrun (rev l) [])) = (AVar (Var (made l)), snd (vrun (rev (OpMake v :: l)) [])) /\
  vstep OpMakeUndef (snd (vrun (rev l) [])) = (AVar (Var (made l)), snd (vrun (rev (OpMakeUndef :: l)) [])).
Proof.
  intros l v. cbn [rev]. rewrite !vrun_snoc. cbn [snd vstep make_variable make_undefined_variable]. now rewrite (proj2 (store_holds l 0%nat)).
Qed.
Print Assumptions c78_fresh.
(* operations on something that is not a variable are errors *)
Theorem c78_not_variable : forall s v,
  variable_ref NotVar s = Err /\ variable_bound NotVar s = Err /\ variable_set NotVar v s = Err.
Proof. intros. repeat split. Qed.
Print Assumptions c78_not_variable.
(* no sequence of operations on variables it made itself goes wrong *)
Theorem c78_safe : forall l i v, (i < made l)%nat ->
  let s := snd (vrun (rev l) []) in
  variable_ref (Var i) s <> UB /\ variable_bound (Var i) s <> UB /\ variable_set (Var i) v s <> UB.
Proof.
  intros l i v L s. destruct (store_holds l i) as [H Len]. cbn [variable_ref variable_bound variable_set].
  destruct (nth_error s i) as [[w|]|] eqn:E; try (repeat split; discriminate). apply nth_error_None in E. subst s. lia.
Qed.
Print Assumptions c78_safe.
(* a lookup finds the current value of the name at top level, or fails *)
Theorem c78_lookup : forall st x s,
  match EnvModel.env_search st EnvModel.g_env x with
  | Some v => exists a s', lookup st x s = Ok (a, s') /\ variable_ref a s' = Ok v /\
      forall i, (i < length s)%nat -> variable_ref (Var i) s' = variable_ref (Var i) s
  | None => lookup st x s = Err
  end.
Proof.
  intros st x s. unfold lookup. destruct (EnvModel.env_search st EnvModel.g_env x) as [v|]; [|reflexivity].
  do 2 eexists. split; [reflexivity|]. split.
  - cbn. rewrite nth_error_app2 by lia. now rewrite Nat.sub_diag.
  - intros i L. cbn. now rewrite nth_error_app1.
Qed.
Print Assumptions c78_lookup.
(* REFUTED: "the variable returned by a lookup is the binding": setting it does
   not change the value of the name, and a later set! of the name is not seen
   through it *)
Theorem c111_lookup_copy_refuted : forall st x v w s a s',
  EnvModel.env_search st EnvModel.g_env x = Some v -> lookup st x s = Ok (a, s') ->
  (exists s2, variable_set a w s' = Ok s2 /\ variable_ref a s2 = Ok w /\ EnvModel.env_search st EnvModel.g_env x = Some v) /\
  (EnvSpec.places_exist st EnvModel.g_env ->
   let st' := EnvModel.do_set st EnvModel.g_env x w in
   EnvModel.env_search st' EnvModel.g_env x = Some w /\ variable_ref a s' = Ok v).
Proof.
  intros st x v w s a s' E L. unfold lookup in L. rewrite E in L. injection L as <- <-. split.
  - cbn. rewrite nth_error_app2 by lia. rewrite Nat.sub_diag. cbn. eexists. split; [reflexivity|]. split; [|exact E]. rewrite upd_nth, Nat.eqb_refl.
    rewrite nth_error_app2 by lia. now rewrite Nat.sub_diag.
  - intros PE st'. assert (P : EnvSpec.proper_env EnvModel.g_env) by (exists []; split; [reflexivity|intros []]).
    rewrite EnvProperties.c38_lookup_order in E by exact P. destruct (EnvSpec.first_bound st (EnvSpec.actual st EnvModel.g_env) x) as [[p old]|] eqn:F; [|discriminate].
    split; [apply (EnvProperties.c39_set st EnvModel.g_env x w p old P PE F); now left|]. cbn. rewrite nth_error_app2 by lia. now rewrite Nat.sub_diag.
Qed.
Print Assumptions c111_lookup_copy_refuted.
Example c78_ex :
  fst (vrun [OpMake (EnvModel.VInt 1); OpMakeUndef; OpRef (Var 1); OpSet (Var 1) (EnvModel.VInt 2); OpRef (Var 1); OpRef (Var 0); OpBound (Var 1)] [])
  = [AVar (Var 0); AVar (Var 1); AErr; ADone; AVal (EnvModel.VInt 2); AVal (EnvModel.VInt 1); ABool true].
Proof. reflexivity. Qed.
