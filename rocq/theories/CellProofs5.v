(** Proofs about CellModel: which nodes the evaluator changes, whatever the program and the heap. *)
From Coq Require Import String Lia.
From Verif Require Import Base ParseModel PrintModel EnvModel EvalModel CellModel CellSpec CellProofs CellProofs2 CellProofs4.
Local Open Scope string_scope.
Local Open Scope list_scope.

Definition is_cfunc (v : cval) : bool := match v with CFunc _ _ => true | _ => false end.
Definition kept (h h' : list cell) : Prop := forall a c, nth_error h a = Some c ->
  exists c', nth_error h' a = Some c' /\ c_data c' = c_data c /\ c_dot c' = c_dot c /\ (is_cfunc (c_data c) = false -> c' = c).
Definition keeps {A} (m : CM A) : Prop := forall s,
  match fst (m s) with CRet _ s' | CErr s' | CWrong _ s' => kept (cs_cells s) (cs_cells s') | _ => True end.
Lemma kept_refl h : kept h h.
Proof. intros a c N. exists c. auto. Qed.
Lemma kept_trans h h1 h2 : kept h h1 -> kept h1 h2 -> kept h h2.
Proof.
  intros A B a c N. destruct (A a c N) as (c1 & N1 & D1 & T1 & U1). destruct (B a c1 N1) as (c2 & N2 & D2 & T2 & U2). exists c2.
  split; [exact N2|]. split; [congruence|]. split; [congruence|]. intro F. rewrite U2 by congruence. auto.
Qed.
Lemma kept_app h new : kept h (h ++ new).
Proof. intros a c N. exists c. split; [rewrite nth_error_app1; [exact N|eapply nth_lt; eauto]|auto]. Qed.
Lemma k_bind {A B} (m : CM A) (f : A -> CM B) : keeps m -> (forall a, keeps (f a)) -> keeps (cbind m f).
Proof.
  intros M F s. specialize (M s). unfold cbind. destruct (m s) as [[a s1|s1|v s1| | | |] o]; cbn [fst] in *; auto.
  specialize (F a s1). destruct (f a s1) as [r o']. cbn [fst] in *. destruct r; auto; eapply kept_trans; eauto.
Qed.
Lemma k_ret {A} (a : A) : keeps (cret a). Proof. intro s. apply kept_refl. Qed.
Lemma k_err {A} : keeps (@cerr A). Proof. intro s. apply kept_refl. Qed.
Lemma k_abort {A} : keeps (@cabort A). Proof. intro s. exact Logic.I. Qed.
Lemma k_ub {A} : keeps (@cub A). Proof. intro s. exact Logic.I. Qed.
Lemma k_fuel {A} : keeps (@cfuel A). Proof. intro s. exact Logic.I. Qed.
Lemma k_other {A} : keeps (@cother A). Proof. intro s. exact Logic.I. Qed.
Lemma k_get a : keeps (get a). Proof. intro s. unfold get. destruct (nth_error _ _); [apply kept_refl|exact Logic.I]. Qed.
Lemma k_alloc c : keeps (alloc c). Proof. intro s. apply kept_app. Qed.
Lemma k_gets {A} (f : cstate -> A) : keeps (cgets f). Proof. intro s. apply kept_refl. Qed.
Lemma k_modify f : (forall s, cs_cells (f s) = cs_cells s) -> keeps (cmodify f). Proof. intros H s. cbn [cmodify fst]. rewrite H. apply kept_refl. Qed.
Lemma k_env e : keeps (c_make_env e). Proof. intro s. apply kept_refl. Qed.
Create HintDb keep.
#[local] Hint Resolve k_ret k_err k_abort k_ub k_fuel k_other k_get k_alloc k_gets k_env : keep.
Ltac kk := repeat first
  [ assumption
  | solve [auto with keep]
  | match goal with |- keeps (cbind _ _) => apply k_bind; [|let x := fresh "x" in intro x] end
  | match goal with |- keeps (cmodify _) => apply k_modify; intro; first [apply cells_insert|apply cells_insert_up|apply cells_set|apply cells_define|reflexivity] end
  | match goal with |- keeps (match ?x with _ => _ end) => destruct x end ].
Lemma k_alloc_list vs : keeps (alloc_list vs).
Proof. induction vs; cbn [alloc_list]; kk. Qed.
#[local] Hint Resolve k_alloc_list : keep.
Section K.
Variable cprim : list Z -> list cval -> list cell -> option (cval * list cell * list Z).
Variable ev : env -> bool -> cval -> CM cval.
Hypothesis EV : forall e own x, keeps (ev e own x).
#[local] Hint Resolve EV : keep.
Lemma k_lookup e x : keeps (clookup e x). Proof. unfold clookup. kk. Qed.
Lemma k_body k : forall e a, keeps (cbody ev k e a). Proof. induction k; intros; cbn [cbody]; kk. Qed.
Lemma k_args k : forall e l, keeps (cargs ev k e l). Proof. induction k; intros e [a|]; cbn [cargs]; kk. Qed.
Lemma k_last k : forall a, keeps (clast k a). Proof. induction k; intros; cbn [clast]; kk. Qed.
#[local] Hint Resolve k_lookup k_body k_args k_last : keep.
Lemma k_rest k p : keeps (crest k p). Proof. unfold crest. kk. Qed.
Lemma k_bind_rest k ce fe y l : keeps (bind_rest ev k ce fe y l). Proof. unfold bind_rest. kk. Qed.
#[local] Hint Resolve k_rest k_bind_rest : keep.
Lemma k_loop k : forall ce fe r p a, keeps (cbind_loop ev k ce fe r p a). Proof. induction k; intros ce fe r [p|] [a|]; cbn [cbind_loop]; kk. Qed.
#[local] Hint Resolve k_loop : keep.
Lemma k_apply k ce p b pe l : keeps (capply ev k ce p b pe l). Proof. unfold capply. kk. Qed.
Lemma k_quote_all vs : keeps (cquote_all vs). Proof. induction vs; cbn [cquote_all]; kk. Qed.
Lemma k_bind_values k : forall fe r p a, keeps (cbind_values k fe r p a).
Proof. induction k; intros fe r [p|] [a|]; cbn [cbind_values]; kk. Qed.
#[local] Hint Resolve k_apply k_quote_all k_bind_values : keep.
Lemma k_apply_vals k p b pe l : keeps (capply_vals ev k p b pe l). Proof. unfold capply_vals. kk. Qed.
Lemma k_delay e x : keeps (cdelay e x). Proof. unfold cdelay. apply k_bind; [kk|]. intros b s. apply kept_refl. Qed.
Lemma k_force k v : keeps (cforce ev k v). Proof. unfold cforce. kk. Qed.
#[local] Hint Resolve k_apply_vals k_delay k_force : keep.
Lemma k_call k nm ar args : keeps (ccall cprim ev k nm ar args).
Proof.
  unfold ccall. set (run := if beq nm (bs "force") then _ else _). assert (R : keeps run).
  { unfold run. destruct (beq nm (bs "force")); [kk|]. destruct (beq nm (bs "eval")); [kk|]. destruct (beq nm (bs "values")); [kk|]. destruct (_ || _)%bool; [kk|]. destruct (_ || _)%bool; [kk|].
    intro s. destruct (cprim nm args (cs_cells s)) as [[[v new] o]|]; [apply kept_app|apply kept_refl]. }
  clearbody run. destruct (_ && _)%bool; [destruct (_ =? _)%Z; [exact R|intro s; apply kept_refl]|]. destruct (_ || _)%bool; [exact R|kk].
Qed.
Lemma k_lambda e sp b : keeps (clambda e sp b). Proof. unfold clambda. kk. Qed.
Lemma k_proper k l : keeps (cproper k l). Proof. unfold cproper. kk. Qed.
Lemma k_split nd k : forall l, keeps (csplit nd k l). Proof. induction k; intros [a|]; cbn [csplit]; kk. Qed.
Lemma k_elems k : forall l, keeps (celems k l). Proof. induction k; intros [a|]; cbn [celems]; kk. Qed.
Lemma k_call_lambda p b l : keeps (call_lambda p b l). Proof. unfold call_lambda. kk. Qed.
Lemma k_params xs : keeps (letrec_params xs). Proof. induction xs; cbn [letrec_params]; kk. Qed.
Lemma k_sets xs : keeps (letrec_sets xs). Proof. induction xs as [|[]]; cbn [letrec_sets]; kk. Qed.
#[local] Hint Resolve k_call k_lambda k_proper k_split k_elems k_call_lambda k_params k_sets : keep.
Lemma k_list2 xs : keeps (clist2 xs). Proof. induction xs as [|[]]; cbn [clist2]; kk. Qed.
Lemma k_named_rec f p b c : keeps (cnamed_rec f p b c). Proof. unfold cnamed_rec. kk. Qed.
#[local] Hint Resolve k_list2 k_named_rec : keep.
Lemma k_named_let k f b : keeps (cnamed_let k f b). Proof. unfold cnamed_let. cbv zeta. kk. Qed.
#[local] Hint Resolve k_named_let : keep.
Lemma k_let k l : keeps (cexpand_let k l). Proof. unfold cexpand_let. kk. Qed.
Lemma k_letstar k l : keeps (cexpand_letstar k l). Proof. unfold cexpand_letstar. kk. Qed.
Lemma k_letrec k l : keeps (cexpand_letrec k l). Proof. unfold cexpand_letrec. kk. Qed.
Lemma k_curry k : forall key l, keeps (ccurry k key l). Proof. induction k; intros [] l; cbn [ccurry]; kk. Qed.
#[local] Hint Resolve k_let k_letstar k_letrec k_curry : keep.
Lemma k_define k e l : keeps (cdefine ev k e l). Proof. unfold cdefine. kk. Qed.
Lemma k_set e l : keeps (cset_form ev e l). Proof. unfold cset_form. kk. Qed.
Lemma k_if e l : keeps (cif ev e l). Proof. unfold cif. kk. Qed.
Lemma k_andor k : forall b e l, keeps (candor ev k b e l). Proof. induction k; intros b e [a|]; cbn [candor]; kk. Qed.
#[local] Hint Resolve k_define k_set k_if k_andor : keep.
Lemma k_cdr q : keeps (ccdr q). Proof. unfold ccdr. kk. Qed.
Lemma k_seq k e l : keeps (cseq ev k e l). Proof. unfold cseq. kk. Qed.
Lemma k_call1 e f v : keeps (ccall1 ev e f v). Proof. unfold ccall1. kk. Qed.
#[local] Hint Resolve k_cdr k_seq k_call1 : keep.
Lemma k_cond k : forall e l, keeps (ccond ev k e l). Proof. induction k; intros e [a|]; cbn [ccond]; kk. Qed.
Lemma k_eq k : forall x y, keeps (ceq k x y).
Proof.
  induction k as [|k IH]; intros x y; [apply k_fuel|]. cbn [ceq]. destruct x, y; try (kk; fail).
  match goal with |- keeps (?g k (Some a) (Some a0)) => assert (G : forall m l r, keeps (g m l r)); [|apply G] end.
  induction m as [|m IHm]; intros [l|] [r|]; kk.
Qed.
#[local] Hint Resolve k_eq : keep.
Lemma k_member k : forall key l, keeps (cmember k key l). Proof. induction k; intros key [a|]; cbn [cmember]; kk. Qed.
#[local] Hint Resolve k_member : keep.
Lemma k_clauses k : forall e key l, keeps (ccase_clauses ev k e key l). Proof. induction k; intros e key [a|]; cbn [ccase_clauses]; kk. Qed.
#[local] Hint Resolve k_clauses : keep.
Lemma k_case k e l : keeps (ccase ev k e l). Proof. unfold ccase. kk. Qed.
Lemma k_inits k : forall e de l, keeps (cdo_inits ev k e de l). Proof. induction k; intros e de [a|]; cbn [cdo_inits]; kk. Qed.
Lemma k_evals e xs : keeps (cevals ev e xs). Proof. induction xs; cbn [cevals]; kk. Qed.
Lemma k_insert_all de : forall xs vs, keeps (cinsert_all de xs vs). Proof. induction xs as [|[x y] xs IH]; intros [|v vs]; cbn [cinsert_all]; kk. Qed.
Lemma k_results k : forall e l acc, keeps (cresults ev k e l acc). Proof. induction k; intros e [a|] acc; cbn [cresults]; kk. Qed.
#[local] Hint Resolve k_cond k_case k_inits k_evals k_insert_all k_results : keep.
Lemma k_do_loop m : forall k de q b st, keeps (cdo_loop ev m k de q b st). Proof. induction m; intros; cbn [cdo_loop]; kk. Qed.
#[local] Hint Resolve k_do_loop : keep.
Lemma k_do k e l : keeps (cdo ev k e l). Proof. unfold cdo. kk. Qed.
Lemma k_len k : forall l, keeps (clen k l). Proof. induction k; intros [a|]; cbn [clen]; kk. Qed.
Lemma k_as_list v : keeps (cas_list v). Proof. unfold cas_list. kk. Qed.
#[local] Hint Resolve k_do k_len k_as_list : keep.
Lemma k_n_lists n : forall e l, keeps (ceval_n_lists ev e n l). Proof. induction n; intros e [a|]; cbn [ceval_n_lists]; kk. Qed.
Lemma k_lists k : forall e l, keeps (ceval_lists ev k e l). Proof. induction k; intros e [a|]; cbn [ceval_lists]; kk. Qed.
Lemma k_nodes ls : keeps (cnodes ls). Proof. induction ls as [|[a|] ls IH]; cbn [cnodes]; kk. Qed.
#[local] Hint Resolve k_n_lists k_lists k_nodes : keep.
Lemma k_each k : forall e f ls, keeps (ceach_rows ev k e f ls). Proof. induction k; intros; cbn [ceach_rows]; kk. Qed.
#[local] Hint Resolve k_each : keep.
Lemma k_for_each k e l : keeps (cfor_each ev k e l). Proof. unfold cfor_each. kk. Qed.
Lemma k_call_list k e f l : keeps (ccall_list cprim ev k e f l). Proof. unfold ccall_list. kk. Qed.
#[local] Hint Resolve k_for_each k_call_list : keep.
Lemma k_map_rows m : forall k e f ls, keeps (cmap_rows cprim ev m k e f ls). Proof. induction m; intros; cbn [cmap_rows]; kk. Qed.
#[local] Hint Resolve k_map_rows : keep.
Lemma k_map k e l : keeps (cmap cprim ev k e l). Proof. unfold cmap. kk. Qed.
Lemma k_last_at k : forall a, keeps (clast_at k a). Proof. induction k; intros; cbn [clast_at]; kk. Qed.
Lemma k_before k : forall e z a, keeps (cbefore ev k e z a). Proof. induction k; intros; cbn [cbefore]; kk. Qed.
#[local] Hint Resolve k_map k_last_at k_before : keep.
Lemma k_apply_form m : forall k e l, keeps (capply_form cprim ev m k e l). Proof. induction m; intros; cbn [capply_form]; kk. Qed.
Lemma k_cwv k e l : keeps (ccall_with_values cprim ev k e l). Proof. unfold ccall_with_values. kk. Qed.
#[local] Hint Resolve k_apply_form k_cwv : keep.
Lemma k_special n e f nx : keeps (cspecial cprim ev n e f nx). Proof. unfold cspecial. kk. Qed.
#[local] Hint Resolve k_special : keep.
Lemma k_func n e own a c nm ar s : nth_error (cs_cells s) a = Some c -> c_data c = CFunc nm ar ->
  match fst ((do! vs := cargs ev n e (c_next c) in do! l := alloc_list vs in do! _ := set_next own a l in ccall cprim ev n nm ar vs) s) with
  | CRet _ s' | CErr s' | CWrong _ s' => kept (cs_cells s) (cs_cells s') | _ => True end.
Proof.
  intros N D. pose proof (k_args n e (c_next c) s) as H. unfold cbind at 1. destruct (cargs ev n e (c_next c) s) as [[vs s1|s1|v s1| | | |] o]; cbn [fst] in *; auto.
  pose proof (k_alloc_list vs s1) as H1. unfold cbind at 1. destruct (alloc_list vs s1) as [[l s2|s2|v s2| | | |] o1]; cbn [fst] in *; auto;
    try (eapply kept_trans; eauto; fail).
  assert (K2 : kept (cs_cells s) (cs_cells s2)) by (eapply kept_trans; eauto). destruct (K2 a c N) as (c2 & N2 & D2 & _ & _).
  unfold cbind, set_next. rewrite N2. set (s3 := with_cells s2 (upd (cs_cells s2) a (mkCell (c_data c2) l (c_dot c2)))).
  assert (K3 : kept (cs_cells s2) (cs_cells s3)).
  { intros b d Nb. unfold s3. cbn [with_cells cs_cells]. destruct (Nat.eq_dec a b) as [<-|NE].
    - assert (d = c2) by congruence. subst d. exists (mkCell (c_data c2) l (c_dot c2)).
      split; [clear - N2; revert a N2; induction (cs_cells s2) as [|x r IH]; intros [|i] H; cbn in *; try discriminate; [reflexivity|now apply IH]|].
      split; [reflexivity|]. split; [reflexivity|]. rewrite D2, D. discriminate.
    - exists d. split; [rewrite upd_other by auto; exact Nb|auto]. }
  pose proof (k_call n nm ar vs s3) as H4. destruct (ccall cprim ev n nm ar vs s3) as [r o4]. cbn [fst] in *. destruct r; auto; (eapply kept_trans; [exact K2|eapply kept_trans; eauto]).
Qed.
Lemma k_step n e own x : keeps (cstep cprim ev n e own x).
Proof.
  unfold cstep. destruct x as [| | | | | |s|a| | |]; try (kk; fail). intro s. destruct (nth_error (cs_cells s) a) as [c|] eqn:N; [rewrite (cbind_get _ _ _ _ N)|unfold cbind, get; rewrite N; exact Logic.I].
  destruct (c_data c) as [| | | | | |x|q|p b pe|nm ar|pa] eqn:D.
    - apply k_err.
    - destruct (c_next c); [apply k_err|apply (k_ret CNil)].
    - destruct (c_next c); [apply k_err|apply (k_ret (CBool b))].
    - destruct (c_next c); [apply k_err|apply (k_ret (CInt z))].
    - destruct (c_next c); [apply k_err|apply (k_ret (CChar c0))].
    - destruct (c_next c); [apply k_err|apply (k_ret (CStr s0))].
    - match goal with |- match fst (?m s) with _ => _ end => assert (M : keeps m) by kk; exact (M s) end.
    - match goal with |- match fst (?m s) with _ => _ end => assert (M : keeps m); [kk|exact (M s)] end.
    - match goal with |- match fst (?m s) with _ => _ end => assert (M : keeps m) by kk; exact (M s) end.
    - destruct (beq nm (bs "apply")); [apply k_apply_form|]. destruct (_ || _)%bool; [apply k_map|]. destruct (is_callcc nm); [exact Logic.I|]. now apply k_func.
    - apply k_err.
Qed.
End K.
Lemma k_eval cprim n : forall e own x, keeps (ceval cprim n e own x).
Proof. induction n; intros e own x; cbn [ceval]; [apply k_fuel|]. now apply k_step. Qed.
