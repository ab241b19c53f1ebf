(** C204, and more of C101: which variables the collector takes as roots. *)
From Verif Require Import Base GcModel GcSpec GcProofs GcProofs2 GcProofs3 GcProofs4 GcProofs5 GcWitness GcProperties RootModel.
From Coq Require Import Lia.
Local Open Scope list_scope.

(** What happens to the registry in a run: constants are used, before, during and after
    the initialisation of the interpreter, which happens once. *)
Inductive event := Uses (c : constant) | Init.
Definition happens (e : event) (r : reg) : reg := match e with Uses c => use_constant c r | Init => register_statics r end.
Definition run_events (l : list event) : reg := fold_left (fun r e => happens e r) l (mkReg [] []).
(* exactly one initialisation *)
Definition one_init (l : list event) : Prop := exists a b, l = a ++ Init :: b /\ ~ In Init a /\ ~ In Init b.
(* the variables that hold objects, apart from the two option tables *)
Definition rooted (l : list event) (s : slot) : Prop :=
  match s with
  | Const c => In (Uses c) l
  | KeywordsOption | ShowFileNameOption => False
  | _ => True
  end.

Definition all_constants : list constant := [KNone; KNil; KFalse; KTrue; KLet; KQuote; KQuasiquote; KUnquote; KUnquoteSplicing; KLetrec; KSet; KLambda].
Lemma const_eqb_iff a b : const_eqb a b = true <-> a = b.
Proof. destruct a, b; cbn; split; intros; congruence. Qed.
Lemma made_in c r : existsb (const_eqb c) (made r) = true <-> In c (made r).
Proof.
  rewrite existsb_exists. split; [intros (x & I & E); apply const_eqb_iff in E; now subst|].
  intros I. exists c. split; auto. now apply const_eqb_iff.
Qed.
(* n: how many of the fixed variables have been registered *)
Definition sound (n : nat) (r : reg) : Prop :=
  NoDup (made r) /\ length (registry r) = (length (made r) + n)%nat /\ (forall c, In (Const c) (registry r) <-> In c (made r)).
Lemma made_le r : NoDup (made r) -> (length (made r) <= 12)%nat.
Proof.
  intros N. change 12%nat with (length all_constants). apply NoDup_incl_length; auto. intros c _. destruct c; cbn; tauto.
Qed.
Lemma register_room s r : (length (registry r) <= 100)%nat -> register s r = mkReg (registry r ++ [s]) (made r).
Proof.
  intros L. unfold register, MAX_ROOTS. destruct (Z.leb_spec 8192 (Z.of_nat (length (registry r)))); auto. lia.
Qed.
Lemma register_many : forall l r, (length (registry r) + length l <= 100)%nat ->
  fold_left (fun r s => register s r) l r = mkReg (registry r ++ l) (made r).
Proof.
  induction l as [|x l IH]; intros r L; cbn [fold_left length] in *; [rewrite app_nil_r; now destruct r|].
  rewrite register_room by lia. rewrite IH by (cbn [registry]; rewrite app_length; cbn [length]; lia). cbn [registry made]. now rewrite <- app_assoc.
Qed.
Lemma use_sound n r c : (n <= 10)%nat -> sound n r -> sound n (use_constant c r) /\ In (Const c) (registry (use_constant c r)) /\
  (forall s, In s (registry r) -> In s (registry (use_constant c r))).
Proof.
  intros L (N & Len & Q). pose proof (made_le r N) as M. unfold use_constant. destruct (existsb (const_eqb c) (made r)) eqn:E.
  - apply made_in in E. split; [now split|]. split; [now apply Q|auto].
  - assert (NI : ~ In c (made r)) by (intros I; apply made_in in I; congruence).
    rewrite register_room by (cbn; lia). cbn [registry made]. split; [|split; [apply in_or_app; right; now left|intros; apply in_or_app; now left]].
    split; [now constructor|]. cbn [registry made]. split; [rewrite app_length; cbn; lia|].
    intros c'. rewrite in_app_iff. cbn. rewrite Q. intuition congruence.
Qed.
Lemma uses_sound n : (n <= 10)%nat -> forall l r, ~ In Init l -> sound n r ->
  sound n (fold_left (fun r e => happens e r) l r) /\
  (forall s, In s (registry r) -> In s (registry (fold_left (fun r e => happens e r) l r))) /\
  (forall c, In (Uses c) l -> In (Const c) (registry (fold_left (fun r e => happens e r) l r))).
Proof.
  intros L. induction l as [|e l IH]; intros r NI Sd; cbn [fold_left]; [cbn; tauto|]. cbn in NI. destruct e as [c|]; [|tauto]. cbn [happens].
  destruct (use_sound n r c L Sd) as (S1 & I1 & K1). destruct (IH _ ltac:(tauto) S1) as (S2 & K2 & C2).
  split; [exact S2|]. split; [auto|]. intros c' [E|I]; [injection E as <-; auto|auto].
Qed.
Lemma statics_sound r : sound 0 r -> sound 10 (register_statics r) /\
  registry (register_statics r) = registry r ++ [RootModule; WindChain; EvalContext; ErrorKey; CurrentModule; ModuleRegistry; EofObject; ErrorPort; InputPort; OutputPort].
Proof.
  intros (N & Len & Q). pose proof (made_le r N) as M.
  assert (E : register_statics r = mkReg (registry r ++ [RootModule; WindChain; EvalContext; ErrorKey; CurrentModule; ModuleRegistry; EofObject; ErrorPort; InputPort; OutputPort]) (made r)).
  { unfold register_statics. apply register_many. cbn [length]. lia. }
  rewrite E. cbn [registry]. split; [|reflexivity]. split; [exact N|]. cbn [registry made]. split; [rewrite app_length; cbn [length]; lia|].
  intros c. rewrite in_app_iff, Q. cbn. intuition discriminate.
Qed.
Lemma all_registered l : one_init l -> forall s, rooted l s -> In s (registry (run_events l)).
Proof.
  intros (a & b & -> & Na & Nb) s R. unfold run_events. rewrite fold_left_app. cbn [fold_left happens].
  assert (S0 : sound 0 (mkReg [] [])) by (split; [constructor|split; [reflexivity|cbn; tauto]]).
  destruct (uses_sound 0 ltac:(lia) a _ Na S0) as (S1 & _ & C1). destruct (statics_sound _ S1) as (S2 & E2).
  destruct (uses_sound 10 ltac:(lia) b _ Nb S2) as (_ & K3 & C3).
  destruct s; cbn in R; try (apply K3; rewrite E2; apply in_or_app; right; cbn; tauto); try contradiction.
  rewrite in_app_iff in R. cbn in R. destruct R as [I | [E | I]]; [|discriminate|auto].
  apply K3. rewrite E2. apply in_or_app. left. auto.
Qed.
Lemma never_option l s : s = KeywordsOption \/ s = ShowFileNameOption -> ~ In s (registry (run_events l)).
Proof.
  intros Hs. unfold run_events. assert (G : forall l r, ~ In s (registry r) -> ~ In s (registry (fold_left (fun r e => happens e r) l r))).
  { clear l. induction l as [|e l IH]; intros r N; cbn [fold_left]; auto. apply IH.
    assert (R : forall x r, x <> s -> ~ In s (registry r) -> ~ In s (registry (register x r))).
    { intros x r' Nx N'. unfold register. destruct (_ <=? _)%Z; auto. cbn [registry]. rewrite in_app_iff. cbn. tauto. }
    destruct e as [c|]; cbn [happens].
    - unfold use_constant. destruct (existsb _ _); auto. apply R; [destruct Hs; subst; discriminate|exact N].
    - unfold register_statics. cbn [fold_left]. repeat (apply R; [destruct Hs; subst; discriminate|]). exact N. }
  apply G. cbn. tauto.
Qed.

(** C204.  In a process that is initialised once, whatever constants are used and when, an
    object held by the current module, the module registry, the wind chain, the current
    ports, the end-of-file object, the error key, the expression being evaluated or a
    shared constant survives every collection unchanged. *)
Theorem c204_statics_survive : forall l val page s v ever r s' e sl,
  one_init l -> rooted l sl -> r_registered r = registered_words val (run_events l) ->
  history page s v ever -> run_gc r s = Ok s' -> In e v -> val sl = e_ptr e ->
  object_at s' (e_ptr e) = Some (e_obj e) /\ ~ on_free_list s' (e_ptr e).
Proof.
  intros l val page s v ever r s' e sl O R E H G I V. apply (c50_reachable_survive page s v ever r s' e); auto.
  apply reach_root; auto. left. rewrite E. unfold registered_words. apply in_map_iff. exists sl. split; [now rewrite V|].
  now apply all_registered.
Qed.
Example c204_live : one_init [Uses KNil; Init; Uses KQuote; Uses KNil] /\ rooted [Uses KNil; Init; Uses KQuote; Uses KNil] (Const KQuote) /\
  registry (run_events [Uses KNil; Init; Uses KQuote; Uses KNil]) =
  [Const KNil; RootModule; WindChain; EvalContext; ErrorKey; CurrentModule; ModuleRegistry; EofObject; ErrorPort; InputPort; OutputPort; Const KQuote].
Proof.
  split; [exists [Uses KNil], [Uses KQuote; Uses KNil]; repeat split; cbn; intuition discriminate|]. split; [cbn; tauto|]. vm_compute. reflexivity.
Qed.

(** C101, once more: the values of the reader option keywords and of the debugger option
    show-file-name are not roots.  An object that only such an option holds is freed by the
    next collection, while the option table goes on pointing to it. *)
Theorem c101_option_value_refuted : forall l val page s v ever r s' e sl,
  sl = KeywordsOption \/ sl = ShowFileNameOption -> val sl = e_ptr e ->
  r_registered r = registered_words val (run_events l) ->
  history page s v ever -> tame_roots s v r -> tame_view s v -> run_gc r s = Ok s' -> In e v -> In (e_ptr e) ever ->
  (forall x, In x (registry (run_events l)) -> val x <> e_ptr e) ->
  ~ In (Some (e_ptr e)) (r_globals r) -> ~ In (e_ptr e) (r_registers r) -> (forall ws, r_stack r = Some ws -> ~ In (e_ptr e) ws) ->
  (forall f, In f v -> ~ refers (e_obj f) (e_ptr e)) ->
  on_free_list s' (e_ptr e).
Proof.
  intros l val page s v ever r s' e sl Hs V E H TR TV G I Ev N1 N2 N3 N4 N5.
  apply (c51_exactly_unreachable page s v ever r s' (e_ptr e) H TR TV G Ev). intros R.
  inversion R as [e' I' W Q | e' f I' R' Rf If' Q].
  - rewrite Q in W. destruct W as [W | [W | [W | (ws & Es & W)]]]; [|tauto|tauto|exact (N4 ws Es W)].
    rewrite E in W. unfold registered_words in W. apply in_map_iff in W. destruct W as (x & Ex & Ix). injection Ex as Ex. exact (N1 x Ix Ex).
  - rewrite Q in Rf. exact (N5 e' I' Rf).
Qed.
(* the hypotheses are met: a string held by the keywords option only *)
Definition q1 := st_of (gc_alloc no_os page (on_stack []) GC_STRING 16 w0).
Example c101_option_live : exists l val page s v ever r s' e,
  val KeywordsOption = e_ptr e /\ r_registered r = registered_words val (run_events l) /\ one_init l /\
  history page s v ever /\ tame_roots s v r /\ tame_view s v /\ run_gc r s = Ok s' /\ In e v /\ on_free_list s' (e_ptr e).
Proof.
  set (val := fun s => match s with KeywordsOption => 65552 | _ => 0 end).
  set (l := [Init; Uses KNil]). set (r := mkroots (registered_words val (run_events l)) [] [] (Some [])).
  assert (H : history page q1 [mkentry 65552 16 SString] [65552]).
  { apply (h_alloc page w0 [] [] no_os (on_stack []) GC_STRING 16 65552 q1 []).
    - apply h_init; [exact page_ok | lia | reflexivity].
    - split; [lia | intros; lia].
    - apply no_os_fresh.
    - vm_compute. reflexivity.
    - split; [constructor | intros e []]. }
  assert (TR : tame_roots q1 [mkentry 65552 16 SString] r).
  { intros w [W | [W | [W | (ws & Es & W)]]]; [|destruct W|destruct W|injection Es as <-; destruct W].
    left. assert (forall x, In x (r_registered r) -> x = Some 0) as A; [|specialize (A _ W); congruence].
    intros x Hx. cbn in Hx. intuition congruence. }
  assert (TV : tame_view q1 [mkentry 65552 16 SString]) by (intros e w [<- | []] Rf; inversion Rf).
  destruct (c50_collection_completes page q1 _ _ r H TR TV) as (s' & G); [intros e [<- | []]; exact Logic.I|].
  exists l, val, page, q1, [mkentry 65552 16 SString], [65552], r, s', (mkentry 65552 16 SString).
  split; [reflexivity|]. split; [reflexivity|]. split; [exists [], [Uses KNil]; repeat split; cbn; intuition discriminate|].
  split; [exact H|]. split; [exact TR|]. split; [exact TV|]. split; [exact G|]. split; [now left|].
  apply (c101_option_value_refuted l val page q1 [mkentry 65552 16 SString] [65552] r s' (mkentry 65552 16 SString) KeywordsOption); auto.
  - now left.
  - now left.
  - intros x Ix. pose proof (never_option l x) as NV. destruct x; cbn; try discriminate. elim (NV (or_introl eq_refl) Ix).
  - intros ws Es. injection Es as <-. intros [].
  - intros f [<- | []] Rf. inversion Rf.
Qed.
