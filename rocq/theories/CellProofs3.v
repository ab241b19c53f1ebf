(** Proofs about CellModel, concluded: the special forms, calls, the evaluator. *)
From Coq Require Import String Lia.
From Verif Require Import Base ParseModel PrintModel EnvModel EvalModel CellModel CellSpec CellProofs CellProofs2.
Local Open Scope string_scope.
Local Open Scope list_scope.

Ltac up P :=
  match type of P with post None ?X ?h _ _ =>
    repeat match goal with
    | H : rep X h _ _ |- _ => apply (proj1 (rep_mono _ _ _ _ _ P ltac:(discriminate))) in H
    | H : reps X h _ _ _ |- _ => apply (proj2 (rep_mono _ _ _ _ _ P ltac:(discriminate))) in H
    | H : tails X h _ _ |- _ => apply (tails_mono _ _ _ _ _ P ltac:(discriminate)) in H
    | H : Forall2 (rep X h) _ _ |- _ => apply (Forall2_imp _ _ _ _ (proj1 (rep_mono _ _ _ _ _ P ltac:(discriminate)))) in H
    | H : nth_error h _ = Some _ |- _ => apply (po_same _ _ _ _ _ P) in H; [|discriminate]
    end
  end.
(* a new node, a new list *)
Lemma alloc_step {A B} (Q : list nat -> list cell -> A -> B -> Prop) skip X s st c (f : nat -> CM A) o : bounded X (cs_cells s) -> same_state X s st ->
  (forall n s1, post None X (cs_cells s) X (cs_cells s1) -> same_state X s1 st -> bounded X (cs_cells s1) -> nth_error (cs_cells s1) n = Some c -> ~ In n X -> sim Q skip X (cs_cells s1) (f n s1) o) ->
  sim Q skip X (cs_cells s) (cbind (alloc c) f s) o.
Proof.
  intros Bd S0 F. rewrite cbind_alloc. eapply sim_pre; [apply (post_app X (cs_cells s) [c] Bd)|]. change (cs_cells s ++ [c]) with (cs_cells (with_cells s (cs_cells s ++ [c]))) at 1. apply F.
  - now apply post_app.
  - now apply state_app.
  - now apply bounded_app.
  - apply nth_new.
  - now apply len_bounded.
Qed.
Definition flist (X : list nat) (h : list cell) (l : option nat) (vs : list val) : Prop := match l with None => vs = [] | Some a => reps X h a vs false end.
Lemma alloc_list_step {A B} (Q : list nat -> list cell -> A -> B -> Prop) skip X s st args vs (f : option nat -> CM A) o : bounded X (cs_cells s) -> same_state X s st ->
  Forall2 (rep X (cs_cells s)) args vs ->
  (forall l s1, post None X (cs_cells s) X (cs_cells s1) -> same_state X s1 st -> bounded X (cs_cells s1) -> flist X (cs_cells s1) l vs -> sim Q skip X (cs_cells s1) (f l s1) o) ->
  sim Q skip X (cs_cells s) (cbind (alloc_list args) f s) o.
Proof.
  intros Bd S0 F1 F. destruct (alloc_list_ok X args vs s Bd F1) as (l & new & E & L). rewrite (cbind_eq _ _ _ _ _ E).
  eapply sim_pre; [apply (post_app X (cs_cells s) new Bd)|]. change (cs_cells s ++ new) with (cs_cells (with_cells s (cs_cells s ++ new))) at 1. apply F.
  - now apply post_app.
  - now apply state_app.
  - now apply bounded_app.
  - exact L.
Qed.
Lemma one X h n x v : nth_error h n = Some (mkCell x None false) -> ~ In n X -> rep X h x v -> reps X h n [v] false.
Proof. intros N I R. apply (reps_last X h n (mkCell x None false) v N I eq_refl R). Qed.
Lemma more X h n x v m vs d : nth_error h n = Some (mkCell x (Some m) false) -> ~ In n X -> rep X h x v -> reps X h m vs d -> reps X h n (v :: vs) d.
Proof. intros N I R T. apply (reps_more X h n (mkCell x (Some m) false) v m vs d N I eq_refl eq_refl R T). Qed.
Lemma consf X h n x v l vs : nth_error h n = Some (mkCell x l false) -> ~ In n X -> rep X h x v -> flist X h l vs -> reps X h n (v :: vs) false.
Proof. intros N I R F. destruct l as [m|]; [eapply more; eauto|cbn in F; subst; eapply one; eauto]. Qed.
Lemma nonempty X h a vs d : reps X h a vs d -> vs <> [].
Proof. intros H E. subst. inversion H. Qed.

Lemma lambda_ok e spec v body bs X s st : same_state X s st -> bounded X (cs_cells s) -> rep X (cs_cells s) spec v -> tails X (cs_cells s) body bs ->
  sim rep None X (cs_cells s) (clambda e spec body s) (do_lambda e v bs st).
Proof.
  intros S0 Bd R T. unfold clambda.
  assert (FIN : forall p ps d s1, post None X (cs_cells s) X (cs_cells s1) -> same_state X s1 st -> bounded X (cs_cells s1) -> params X (cs_cells s1) p ps d ->
    sim rep None X (cs_cells s1) ((do! b := (match body with Some b => cret b | None => alloc (mkCell CNil None false) end) in cret (CProc p b e)) s1)
      (Ret (VProc ps d (match bs with [] => [VNil] | _ => bs end) e) st)).
  { intros p ps d s1 P S1 B1 PP. apply (tails_mono _ _ _ _ _ P ltac:(discriminate)) in T. destruct body as [b|].
    - rewrite (cbind_eq _ _ _ b s1) by reflexivity. destruct T as [db T]. destruct bs as [|b1 bs]; [inversion T|]. apply (sim_ret rep); auto.
      destruct p as [p|]; [econstructor; eauto|]. destruct PP as [-> ->]. econstructor; eauto.
    - cbn in T. subst bs. apply (alloc_step _ _ _ _ st); auto. intros n s2 P2 S2 B2 N2 I2. apply (sim_ret rep); auto.
      assert (RB : reps X (cs_cells s2) n [VNil] false) by (eapply one; eauto; constructor).
      destruct p as [p|]; [|destruct PP as [-> ->]; econstructor; eauto]. cbn [params] in PP. up P2. econstructor; eauto. }
  unfold do_lambda. destruct spec as [| | | | | |x|a| | |]; inversion R; subst; try (unfold cbind at 1; cbn [cerr]; now apply sim_err).
  - rewrite (cbind_eq _ _ _ None s) by reflexivity. apply (FIN None [] false); auto; [now apply post_refl|now split].
  - rewrite cbind_assoc. apply (alloc_step _ _ _ _ st); auto. intros n s1 P S1 B1 N1 I1. rewrite (cbind_eq _ _ _ (Some n) s1) by reflexivity. apply (FIN (Some n) [VSym x] true); auto.
    apply (reps_last _ _ _ (mkCell (CSym x) None true)); auto. constructor.
  - rewrite (cbind_eq _ _ _ (Some a) s) by reflexivity. apply (FIN (Some a)); auto. now apply post_refl.
Qed.

(** ** let *)
Definition exp_of (x : option (option val)) : EM val := fun st => match x with None => OAbort | Some None => err st | Some (Some v) => Ret v st end.
Lemma run_exp ev' e x st : run_expansion ev' e x st = ebind (exp_of x) (ev' e) st.
Proof. unfold run_expansion, ebind, exp_of. destruct x as [[v|]|]; [reflexivity| |reflexivity]. unfold err, throw. destruct (find_handler _ _ _); reflexivity. Qed.
Lemma proper_ok X s k a vs : tails X (cs_cells s) (Some a) vs -> cproper k (Some a) s = (CFuel, []) \/ cproper k (Some a) s = (CRet false s, []) \/
  cproper k (Some a) s = (CRet true s, []) /\ reps X (cs_cells s) a vs false.
Proof.
  intros [d H]. unfold cproper. destruct (last_ok X s k a vs d H) as [E|(c & E & D & R)]; [left; unfold cbind; now rewrite E|right]. rewrite (cbind_eq _ _ _ _ _ E).
  unfold cret. rewrite D. destruct d; [left; reflexivity|right; split; [reflexivity|exact H]].
Qed.
Lemma split_ok X s nd : forall k l ns, tails X (cs_cells s) l ns -> csplit nd k l s = (CFuel, []) \/
  match split_bindings ns with
  | Some (xs, is) => exists p, csplit nd k l s = (CRet p s, []) /\ Forall2 (rep X (cs_cells s)) (fst p) xs /\ Forall2 (rep X (cs_cells s)) (snd p) is
  | None => csplit nd k l s = (if nd then CErr s else CAbort, [])
  end.
Proof.
  induction k as [|k IH]; intros l ns T.
  - destruct l; [now left|right]. cbn in T. subst. exists ([], []). split; [reflexivity|]. split; constructor.
  - destruct l as [a|]; [|right; cbn in T; subst; exists ([], []); split; [reflexivity|]; split; constructor].
    apply tails_some in T. destruct T as (c & v & t & -> & N & NX & R & T). cbn [csplit]. rewrite (cbind_get _ _ _ _ N).
    destruct (c_data c) as [| | | | | | |q| | |] eqn:DC; inversion R; subst; cbn [split_bindings]; try (right; destruct nd; reflexivity).
    match goal with H : reps _ _ q _ _ |- _ => apply reps_inv in H; destruct H as (cq & x & u & -> & NQ & NXQ & RX & TQ & _) end.
    rewrite (cbind_get _ _ _ _ NQ). destruct (c_next cq) as [r|]; [|cbn in TQ; subst u; right; destruct nd; reflexivity].
    apply tails_some in TQ. destruct TQ as (cr & i & u2 & -> & NR & NXR & RI & _). rewrite (cbind_get _ _ _ _ NR).
    destruct (IH _ _ T) as [E|E]; [left; unfold cbind at 1; now rewrite E|]. destruct (split_bindings t) as [[xs is]|].
    + destruct E as (p & E & F1 & F2). right. rewrite (cbind_eq _ _ _ _ _ E). eexists. split; [reflexivity|]. split; constructor; auto.
    + right. unfold cbind at 1. rewrite E. now destruct nd.
Qed.
Lemma elems_ok X s : forall k l vs, tails X (cs_cells s) l vs -> celems k l s = (CFuel, []) \/ exists us, celems k l s = (CRet us s, []) /\ Forall2 (rep X (cs_cells s)) us vs.
Proof.
  induction k as [|k IH]; intros l vs T.
  - destruct l; [now left|right]. cbn in T. subst. exists []. split; [reflexivity|constructor].
  - destruct l as [a|]; [|right; cbn in T; subst; exists []; split; [reflexivity|constructor]].
    apply tails_some in T. destruct T as (c & v & t & -> & N & NX & R & T). cbn [celems]. rewrite (cbind_get _ _ _ _ N).
    destruct (IH _ _ T) as [E|(us & E & F)]; [left; unfold cbind; now rewrite E|right]. rewrite (cbind_eq _ _ _ _ _ E). eexists. split; [reflexivity|]. constructor; auto.
Qed.
Lemma call_lambda_ok pv p b bs args is X s st : same_state X s st -> bounded X (cs_cells s) -> rep X (cs_cells s) p pv -> reps X (cs_cells s) b bs false -> flist X (cs_cells s) args is ->
  sim rep None X (cs_cells s) (call_lambda p b args s) (Ret (VList (VList (sym "lambda" :: pv :: bs) false :: is) false) st).
Proof.
  intros S0 Bd R TB F. unfold call_lambda. apply (alloc_step _ _ _ _ st); auto. intros n1 s1 P1 S1 B1 N1 I1.
  assert (F1 : flist X (cs_cells s1) args is) by (destruct args; [cbn in *; now up P1|exact F]). up P1. clear F.
  apply (alloc_step _ _ _ _ st); auto. intros n2 s2 P2 S2 B2 N2 I2. assert (F2 : flist X (cs_cells s2) args is) by (destruct args; [cbn in *; now up P2|exact F1]). clear F1. up P2.
  apply (alloc_step _ _ _ _ st); auto. intros n3 s3 P3 S3 B3 N3 I3. assert (F3 : flist X (cs_cells s3) args is) by (destruct args; [cbn in *; now up P3|exact F2]). clear F2. up P3.
  apply (sim_ret rep); auto. constructor. eapply consf; eauto. constructor. eapply more; [exact N2|exact I2|constructor|]. eapply more; eauto.
Qed.
Lemma combine_rep X h : forall xs vs is ws, Forall2 (rep X h) xs vs -> Forall2 (rep X h) is ws -> Forall2 (fun p q => rep X h (fst p) (fst q) /\ rep X h (snd p) (snd q)) (combine xs is) (combine vs ws).
Proof. intros xs vs is ws F. revert is ws. induction F; intros is ws G; [constructor|]. destruct G; [constructor|]. cbn [combine]. constructor; auto. Qed.
(** *** named let *)
Lemma temps_ok X h : forall is ws k, Forall2 (rep X h) is ws -> Forall2 (rep X h) (ctemps k is) (temps k ws).
Proof. intros is ws k F. revert k. induction F; intro k; cbn [ctemps temps]; constructor; auto. constructor. Qed.
Lemma temps_len : forall is k, length (temps k is) = length is.
Proof. induction is; intro k; cbn [temps length]; auto. Qed.
Lemma fl_up X h X' h' l vs : post None X h X' h' -> flist X h l vs -> flist X' h' l vs.
Proof. intros P F. destruct l; [cbn in *; now up P|exact F]. Qed.
Lemma fl_rep X h l v vs : flist X h l (v :: vs) -> rep X h (as_list l) (VList (v :: vs) false).
Proof. intro F. destruct l as [l|]; [constructor; exact F|discriminate F]. Qed.
Lemma list2_ok : forall ps qs X s st, same_state X s st -> bounded X (cs_cells s) -> Forall2 (fun p q => rep X (cs_cells s) (fst p) (fst q) /\ rep X (cs_cells s) (snd p) (snd q)) ps qs ->
  sim (fun X h us ws => Forall2 (rep X h) us ws /\ ws = map (fun p : val * val => VList [fst p; snd p] false) qs) None X (cs_cells s) (clist2 ps s) (Ret (map (fun p : val * val => VList [fst p; snd p] false) qs) st).
Proof.
  induction ps as [|[x i] xs IH]; intros vs X s st S0 Bd F; inversion F as [|? [v w] ? vs' [R1 R2] F']; subst.
  - apply (sim_ret (fun X h us ws => Forall2 (rep X h) us ws /\ ws = [])); [exact Bd|exact S0|split; [constructor|reflexivity]].
  - cbn [fst snd] in *. cbn [clist2]. apply (alloc_list_step _ _ _ _ st _ [v; w]); auto. intros l s1 P1 S1 B1 L1. clear F R1 R2.
    assert (F1 : Forall2 (fun p q => rep X (cs_cells s1) (fst p) (fst q) /\ rep X (cs_cells s1) (snd p) (snd q)) xs vs').
    { revert F'. apply Forall2_imp. intros p q [A1 A2]. up P1. auto. }
    change (Ret (map (fun p : val * val => VList [fst p; snd p] false) ((v, w) :: vs')) st) with (ebind (fun st => Ret (map (fun p : val * val => VList [fst p; snd p] false) vs') st) (fun r => ret (VList [v; w] false :: r)) st).
    apply (sim_bind (fun X h us ws => Forall2 (rep X h) us ws /\ ws = map (fun p : val * val => VList [fst p; snd p] false) vs')); [discriminate|apply IH; auto|]. intros X' us us' s2 st2 P2 S2 [F2 ->].
    apply (sim_ret (fun X h us ws => Forall2 (rep X h) us ws /\ ws = map (fun p : val * val => VList [fst p; snd p] false) ((v, w) :: vs'))); auto; [apply P2|].
    split; [|reflexivity]. constructor; auto. apply fl_rep. eapply fl_up; eauto.
Qed.
Lemma named_rec_ok f fv p pv b bv c cv X s st : same_state X s st -> bounded X (cs_cells s) -> rep X (cs_cells s) f fv -> rep X (cs_cells s) p pv -> rep X (cs_cells s) b bv -> rep X (cs_cells s) c cv ->
  sim (fun X h a b => rep X h a b /\ b = VList [sym "letrec"; VList [VList [fv; VList [sym "lambda"; pv; bv] false] false] false; cv] false) None X (cs_cells s) (cnamed_rec f p b c s)
    (Ret (VList [sym "letrec"; VList [VList [fv; VList [sym "lambda"; pv; bv] false] false] false; cv] false) st).
Proof.
  intros S0 Bd RF RP RB RC. unfold cnamed_rec.
  apply (alloc_list_step _ _ _ _ st _ [sym "lambda"; pv; bv]); auto; [repeat constructor; auto|]. intros l1 s1 P1 S1 B1 L1. up P1. apply fl_rep in L1.
  apply (alloc_list_step _ _ _ _ st _ [fv; VList [sym "lambda"; pv; bv] false]); auto. intros l2 s2 P2 S2 B2 L2. up P2. apply fl_rep in L2.
  apply (alloc_list_step _ _ _ _ st _ [VList [fv; VList [sym "lambda"; pv; bv] false] false]); auto. intros l3 s3 P3 S3 B3 L3. up P3. apply fl_rep in L3.
  apply (alloc_list_step _ _ _ _ st _ [sym "letrec"; VList [VList [fv; VList [sym "lambda"; pv; bv] false] false] false; cv]); auto; [repeat (constructor; auto)|]. intros l4 s4 P4 S4 B4 L4. up P4. apply fl_rep in L4.
  apply (sim_ret (fun X h a b => rep X h a b /\ b = _)); auto.
Qed.
Lemma named_let_ok k f b t X s st : same_state X s st -> bounded X (cs_cells s) -> reps X (cs_cells s) b t false ->
  sim rep None X (cs_cells s) (cnamed_let k (CSym f) b s) (exp_of (expand_let (VSym f :: t)) st).
Proof.
  intros S0 Bd TB. apply reps_inv in TB. destruct TB as (cb & argl & u & -> & N & NX & R & T & _). unfold cnamed_let. rewrite (cbind_get _ _ _ _ N). cbn [expand_let].
  destruct (c_next cb) as [d|]; [|cbn in T; subst u; apply sim_abort]. apply tails_some in T. destruct T as (cd & b1 & u2 & -> & ND & _ & RD & _). rewrite (cbind_get _ _ _ _ ND).
  assert (RF : forall X h, rep X h (CSym f) (VSym f)) by (intros; constructor).
  destruct (c_data cb) as [| | | | | | |q| | |] eqn:DC; inversion R; subst; try (now apply sim_err).
  - cbn [exp_of]. apply (alloc_list_step _ _ _ _ st _ [VSym f]); auto. intros l1 s1 P1 S1 B1 L1. up P1. apply fl_rep in L1.
    eapply sim_weak; [|apply (named_rec_ok (CSym f) (VSym f) CNil VNil (c_data cd) b1 (as_list l1) (VList [VSym f] false)); auto; constructor]. intros X' h' a b0 [H _]. exact H.
  - match goal with H : reps _ _ q ?ns ?d |- _ => destruct (split_ok X s true k (Some q) ns (ex_intro _ d H)) as [E2|E2]; [unfold cbind; rewrite E2; apply sim_fuel|]; rename H into HQ end.
    destruct (split_bindings vs) as [[xs is]|] eqn:SB; [|unfold cbind; rewrite E2; now apply (sim_err rep)].
    destruct E2 as (p & E2 & F1 & F2). rewrite (cbind_eq _ _ _ _ _ E2). cbv zeta.
    assert (NE : exists x xs' i is', xs = x :: xs' /\ is = i :: is').
    { destruct vs as [|v0 vs]; [inversion HQ|]. cbn [split_bindings] in SB. destruct v0; try discriminate SB. destruct ns as [|x0 [|i0 ?]]; try discriminate SB. destruct (split_bindings vs) as [[xs' is']|]; [|discriminate SB]. injection SB as <- <-. eauto 8. }
    clear HQ SB. assert (FT := temps_ok _ _ _ _ 0%Z F2). set (ts := temps 0 is) in *. set (cts := ctemps 0 (snd p)) in *.
    set (bl := map (fun p0 : val * val => VList [fst p0; snd p0] false) (combine ts is)).
    assert (NB : exists y ys, bl = y :: ys). { destruct NE as (x & xs' & i & is' & -> & ->). unfold bl, ts. cbn [temps combine map]. eauto. }
    set (rec := VList [sym "letrec"; VList [VList [VSym f; VList [sym "lambda"; VList xs false; b1] false] false] false; VList (VSym f :: ts) false] false).
    change (exp_of (Some (Some (VList [sym "let"; VList bl false; rec] false))) st) with
      (ebind (fun st => Ret bl st) (fun _ => ebind (fun st => Ret rec st) (fun _ => ret (VList [sym "let"; VList bl false; rec] false))) st).
    apply (sim_bind (fun X h us ws => Forall2 (rep X h) us ws /\ ws = bl)); [discriminate|apply list2_ok; auto; now apply combine_rep|].
    intros X1 us us' s1 st1 P1 S1 [FU ->]. assert (B1 := po_bnd _ _ _ _ _ P1). up P1. clearbody bl. destruct NB as (y & ys & ->).
    apply (alloc_list_step _ _ _ _ st1 us (y :: ys)); auto. intros l2 s2 P2 S2 B2 L2. up P2. apply fl_rep in L2.
    apply (alloc_list_step _ _ _ _ st1 (fst p) xs); auto. intros l3 s3 P3 S3 B3 L3. up P3.
    assert (L3' : rep X1 (cs_cells s3) (as_list l3) (VList xs false)) by (destruct NE as (x & xs' & i & is' & -> & _); now apply fl_rep). clear L3.
    apply (alloc_list_step _ _ _ _ st1 (CSym f :: cts) (VSym f :: ts)); auto. intros l4 s4 P4 S4 B4 L4. up P4. apply fl_rep in L4.
    apply (sim_bind (fun X h a b => rep X h a b /\ b = rec)); [discriminate|apply named_rec_ok; auto|].
    intros X5 r r' s5 st5 P5 S5 [RR ->]. assert (B5 := po_bnd _ _ _ _ _ P5). up P5.
    apply (alloc_list_step _ _ _ _ st5 _ [sym "let"; VList (y :: ys) false; rec]); auto; [repeat (constructor; auto)|]. intros l6 s6 P6 S6 B6 L6. apply fl_rep in L6. apply (sim_ret rep); auto.
Qed.
Lemma let_ok k args vs X s st : same_state X s st -> bounded X (cs_cells s) -> tails X (cs_cells s) args vs ->
  sim rep None X (cs_cells s) (cexpand_let k args s) (exp_of (expand_let vs) st).
Proof.
  intros S0 Bd T. destruct args as [a|]; [|cbn in T; subst; apply sim_abort]. apply tails_some in T. destruct T as (ca & v & t & -> & N & NX & R & T).
  unfold cexpand_let. rewrite (cbind_get _ _ _ _ N). destruct (c_next ca) as [b|]; [|cbn in T; subst; apply sim_abort].
  destruct (proper_ok X s k b t T) as [E|[E|[E TB]]]; [unfold cbind; rewrite E; apply sim_fuel|rewrite (cbind_eq _ _ _ _ _ E); apply sim_other|rewrite (cbind_eq _ _ _ _ _ E); cbn [negb]].
  destruct t as [|t1 t]; [destruct T as [d T]; inversion T|]. cbn [expand_let].
  destruct (c_data ca) as [| | | | | | |q| | |] eqn:DC; inversion R; subst; try (apply sim_abort); try (apply sim_other).
  - apply call_lambda_ok; auto. reflexivity.
  - exact (named_let_ok k _ b (t1 :: t) X s st S0 Bd TB).
  - match goal with H : reps _ _ q ?ns ?d |- _ => destruct (split_ok X s false k (Some q) ns (ex_intro _ d H)) as [E2|E2]; [unfold cbind; rewrite E2; apply sim_fuel|]; rename H into HQ end.
    destruct (split_bindings vs) as [[xs is]|] eqn:SB; [|unfold cbind; rewrite E2; apply sim_abort].
    destruct E2 as (p & E2 & F1 & F2). rewrite (cbind_eq _ _ _ _ _ E2).
    assert (NE : xs <> []).
    { destruct vs as [|v0 vs]; [inversion HQ|]. cbn [split_bindings] in SB. destruct v0; try discriminate SB. destruct ns as [|? [|? ?]]; try discriminate SB. destruct (split_bindings vs) as [[]|]; [|discriminate SB]. intros ->. discriminate SB. }
    clear HQ. apply (alloc_list_step _ _ _ _ st (fst p) xs); auto. intros px s1 P1 S1 B1 L1. up P1.
    apply (alloc_list_step _ _ _ _ st (snd p) is); auto. intros pi s2 P2 S2 B2 L2.
    assert (L3 : flist X (cs_cells s2) px xs) by (destruct px; [cbn in *; now up P2|exact L1]). up P2. apply call_lambda_ok; auto.
    destruct px as [px|]; [|cbn in L3; congruence]. cbn [as_list]. constructor. exact L3.
Qed.
Lemma params_ok : forall xs vs X s st, same_state X s st -> bounded X (cs_cells s) -> Forall2 (rep X (cs_cells s)) xs vs ->
  sim (fun X h => Forall2 (rep X h)) None X (cs_cells s) (letrec_params xs s) (Ret (map (fun x => VList [x; VBool false] false) vs) st).
Proof.
  induction xs as [|x xs IH]; intros vs X s st S0 Bd F; inversion F as [|? v ? vs' R F']; subst.
  - apply (sim_ret (fun X h => Forall2 (rep X h))); auto; constructor.
  - cbn [letrec_params]. apply (alloc_list_step _ _ _ _ st _ [v; VBool false]); auto; [repeat constructor; auto|]. intros l s1 P1 S1 B1 L1. clear F R. up P1.
    change (Ret (map (fun x => VList [x; VBool false] false) (v :: vs')) st) with (ebind (fun st => Ret (map (fun x => VList [x; VBool false] false) vs') st) (fun r => ret (VList [v; VBool false] false :: r)) st).
    apply (sim_bind (fun X h => Forall2 (rep X h))); [discriminate|apply IH; auto|]. intros X' us us' s2 st2 P2 S2 F2. apply (sim_ret (fun X h => Forall2 (rep X h))); auto; [apply P2|].
    constructor; auto. destruct l as [l|]; [|cbn in L1; discriminate L1]. cbn in L1. up P2. constructor. exact L1.
Qed.
Lemma sets_ok : forall ps qs X s st, same_state X s st -> bounded X (cs_cells s) -> Forall2 (fun p q => rep X (cs_cells s) (fst p) (fst q) /\ rep X (cs_cells s) (snd p) (snd q)) ps qs ->
  sim (fun X h => Forall2 (rep X h)) None X (cs_cells s) (letrec_sets ps s) (Ret (map (fun p : val * val => VList [sym "set!"; fst p; snd p] false) qs) st).
Proof.
  induction ps as [|[x i] xs IH]; intros vs X s st S0 Bd F; inversion F as [|? [v w] ? vs' [R1 R2] F']; subst.
  - apply (sim_ret (fun X h => Forall2 (rep X h))); auto; constructor.
  - cbn [fst snd] in *. cbn [letrec_sets]. apply (alloc_list_step _ _ _ _ st _ [sym "set!"; v; w]); auto; [repeat constructor; auto|]. intros l s1 P1 S1 B1 L1. clear F R1 R2.
    assert (F1 : Forall2 (fun p q => rep X (cs_cells s1) (fst p) (fst q) /\ rep X (cs_cells s1) (snd p) (snd q)) xs vs').
    { revert F'. apply Forall2_imp. intros p q [A1 A2]. up P1. auto. }
    change (Ret (map (fun p : val * val => VList [sym "set!"; fst p; snd p] false) ((v, w) :: vs')) st) with (ebind (fun st => Ret (map (fun p : val * val => VList [sym "set!"; fst p; snd p] false) vs') st) (fun r => ret (VList [sym "set!"; v; w] false :: r)) st).
    apply (sim_bind (fun X h => Forall2 (rep X h))); [discriminate|apply IH; auto|]. intros X' us us' s2 st2 P2 S2 F2. apply (sim_ret (fun X h => Forall2 (rep X h))); auto; [apply P2|].
    constructor; auto. destruct l as [l|]; [|cbn in L1; discriminate L1]. cbn in L1. up P2. constructor. exact L1.
Qed.
Lemma letrec_ok k args vs X s st : same_state X s st -> bounded X (cs_cells s) -> tails X (cs_cells s) args vs ->
  sim rep None X (cs_cells s) (cexpand_letrec k args s) (exp_of (expand_letrec vs) st).
Proof.
  intros S0 Bd T. destruct args as [a|]; [|cbn in T; subst; apply sim_abort]. apply tails_some in T. destruct T as (ca & v & t & -> & N & NX & R & T).
  unfold cexpand_letrec. rewrite (cbind_get _ _ _ _ N). destruct (c_next ca) as [b|]; [|cbn in T; subst; apply sim_abort].
  destruct (proper_ok X s k b t T) as [E|[E|[E TB]]]; [unfold cbind; rewrite E; apply sim_fuel|rewrite (cbind_eq _ _ _ _ _ E); apply sim_other|rewrite (cbind_eq _ _ _ _ _ E); cbn [negb]].
  destruct t as [|t1 t]; [destruct T as [d T]; inversion T|]. cbn [expand_letrec].
  destruct (c_data ca) as [| | | | | | |q| | |] eqn:DC; inversion R; subst; try (apply sim_abort).
  - apply call_lambda_ok; auto. reflexivity.
  - match goal with H : reps _ _ q ?ns ?d |- _ => destruct (split_ok X s false k (Some q) ns (ex_intro _ d H)) as [E2|E2]; [unfold cbind; rewrite E2; apply sim_fuel|]; rename H into HQ end.
    destruct (split_bindings vs) as [[xs is]|] eqn:SB; [|unfold cbind; rewrite E2; apply sim_abort].
    destruct E2 as (p & E2 & F1 & F2). rewrite (cbind_eq _ _ _ _ _ E2).
    assert (NE : xs <> []).
    { destruct vs as [|v0 vs]; [inversion HQ|]. cbn [split_bindings] in SB. destruct v0; try discriminate SB. destruct ns as [|? [|? ?]]; try discriminate SB. destruct (split_bindings vs) as [[]|]; [|discriminate SB]. intros ->. discriminate SB. }
    clear HQ T.
    set (VP := map (fun x => VList [x; VBool false] false) xs). set (VS := map (fun p : val * val => VList [sym "set!"; fst p; snd p] false) (combine xs is)).
    change (exp_of (Some (Some (VList (sym "let" :: VList VP false :: VS ++ t1 :: t) false))) st) with (ebind (fun st => Ret VP st) (fun _ => ebind (fun st => Ret VS st) (fun _ => ret (VList (sym "let" :: VList VP false :: VS ++ t1 :: t) false))) st).
    apply (sim_bind (fun X h us ws => Forall2 (rep X h) us ws /\ ws = VP)); [discriminate| |].
    { assert (H := params_ok (fst p) xs X s st S0 Bd F1). intros Z0. specialize (H Z0). destruct (fst (letrec_params (fst p) s)); auto.
      - destruct H as (X' & ws & st' & H1 & H2 & H3 & H4). exists X', ws, st'. split; [exact H1|]. split; [exact H2|]. split; [exact H3|]. split; [exact H4|]. clear - H1. unfold VP. congruence. }
    intros X1 us us' s1 st1 P1 S1 [FU ->]. assert (B1 := po_bnd _ _ _ _ _ P1). up P1.
    apply (alloc_list_step _ _ _ _ st1 us VP); auto. intros pl s2 P2 S2 B2 L2. up P2.
    apply (sim_bind (fun X h us ws => Forall2 (rep X h) us ws /\ ws = VS)); [discriminate| |].
    { assert (H := sets_ok (combine (fst p) (snd p)) (combine xs is) X1 s2 st1 S2 B2 (combine_rep _ _ _ _ _ _ F1 F2)). intros Z0. specialize (H Z0). destruct (fst (letrec_sets (combine (fst p) (snd p)) s2)); auto.
      - destruct H as (X' & ws & st' & H1 & H2 & H3 & H4). exists X', ws, st'. split; [exact H1|]. split; [exact H2|]. split; [exact H3|]. split; [exact H4|]. clear - H1. unfold VS. congruence. }
    intros X3 ss ss' s3 st3 P3 S3 [FS ->]. assert (B3 := po_bnd _ _ _ _ _ P3).
    assert (RP : rep X3 (cs_cells s3) (as_list pl) (VList VP false)).
    { destruct pl as [pl|]; [cbn in L2; up P3; constructor; exact L2|]. exfalso. cbn in L2. apply NE. clear - L2. unfold VP in L2. destruct xs; [reflexivity|discriminate L2]. }
    up P3. destruct (elems_ok X3 s3 k (Some b) (t1 :: t) (ex_intro _ false TB)) as [E4|(es & E4 & FE)]; [unfold cbind; rewrite E4; apply sim_fuel|].
    rewrite (cbind_eq _ _ _ _ _ E4). apply (alloc_list_step _ _ _ _ st3 _ (sym "let" :: VList VP false :: VS ++ t1 :: t)); auto.
    { constructor; [constructor|]. constructor; [exact RP|]. now apply Forall2_app. }
    intros l s4 P4 S4 B4 L4. apply (sim_ret rep); auto. destruct l as [l|]; [cbn in L4; constructor; exact L4|cbn in L4; discriminate L4].
Qed.
Lemma letstar_ok k args vs X s st : same_state X s st -> bounded X (cs_cells s) -> tails X (cs_cells s) args vs ->
  sim rep None X (cs_cells s) (cexpand_letstar k args s) (exp_of (expand_letstar vs) st).
Proof.
  intros S0 Bd T. destruct args as [a|]; [|cbn in T; subst; apply sim_abort]. destruct T as [d0 T]. apply reps_inv in T. destruct T as (ca & v & t & -> & N & NX & R & T & DA).
  unfold cexpand_letstar. rewrite (cbind_get _ _ _ _ N). destruct (c_next ca) as [b|] eqn:NB; [|cbn in T; subst; apply sim_abort]. destruct DA as [DA _].
  destruct (proper_ok X s k b t T) as [E|[E|[E TB]]]; [unfold cbind; rewrite E; apply sim_fuel|rewrite (cbind_eq _ _ _ _ _ E); apply sim_other|rewrite (cbind_eq _ _ _ _ _ E); cbn [negb]].
  destruct t as [|t1 t]; [destruct T as [d T]; inversion T|]. cbn [expand_letstar].
  destruct (c_data ca) as [| | | | | | |q| | |] eqn:DC; inversion R; subst; try (now apply sim_err).
  - apply call_lambda_ok; auto. reflexivity.
  - rename H0 into HQ. clear T. assert (HQ2 := HQ). apply reps_inv in HQ. destruct HQ as (cq & b1 & r & -> & NQ & NXQ & RB1 & TR & D). rewrite (cbind_get _ _ _ _ NQ).
    (* the rest of the bindings *)
    assert (RR : exists rv, (match c_next cq with None => cret CNil | Some r => do! cr := get r in cret (match c_next cr with None => if c_dot cr then c_data cr else CPair r | _ => CPair r end) end) s = (CRet rv s, []) /\
                   rep X (cs_cells s) rv (cdr_val (b1 :: r) d)).
    { destruct (c_next cq) as [r0|].
      - destruct D as [_ D]. assert (D2 := D). apply reps_inv in D. destruct D as (cr & x & r2 & -> & NR & NXR & RX & TR2 & D3). rewrite (cbind_get _ _ _ _ NR). eexists. split; [reflexivity|].
        destruct (c_next cr) as [r3|].
        + destruct r2 as [|y r2]; [destruct TR2 as [d2 TR2]; inversion TR2|]. cbn [cdr_val]. constructor. exact D2.
        + cbn in TR2. subst r2. subst d. cbn [cdr_val]. destruct (c_dot cr) eqn:DD; [exact RX|]. constructor. exact D2.
      - cbn in TR. subst r. exists CNil. split; [reflexivity|constructor]. }
    destruct RR as (rv & E2 & RR). rewrite (cbind_eq _ _ _ _ _ E2).
    assert (LET : sim rep None X (cs_cells s) ((do! n := alloc (mkCell (csym "let") (Some a) false) in cret (CPair n)) s) (Ret (VList (sym "let" :: VList (b1 :: r) d :: t1 :: t) false) st)).
    { apply (alloc_step _ _ _ _ st); auto. intros n s1 P1 S1 B1 N1 I1. up P1. apply (sim_ret rep); auto. constructor. eapply more; [exact N1|exact I1|constructor|].
      apply (reps_more X (cs_cells s1) a ca (VList (b1 :: r) d) b (t1 :: t) false N NX NB); [exact DA|rewrite DC; constructor; exact HQ2|exact TB]. }
    assert (NEST : rv <> CNil -> sim rep None X (cs_cells s) ((do! e1 := alloc (mkCell (c_data cq) None false) in
                  do! s1 := alloc (mkCell rv (Some b) false) in
                  do! s2 := alloc (mkCell (csym "let*") (Some s1) false) in
                  do! l := alloc_list [csym "let"; CPair e1; CPair s2] in cret (as_list l)) s)
        (Ret (VList [sym "let"; VList [b1] false; VList (sym "let*" :: cdr_val (b1 :: r) d :: t1 :: t) false] false) st)).
    { intros _. clear HQ2 LET E2 TR D R. apply (alloc_step _ _ _ _ st); auto. intros n1 s1 P1 S1 B1 N1 I1. up P1. apply (alloc_step _ _ _ _ st); auto. intros n2 s2 P2 S2 B2 N2 I2. up P2.
      apply (alloc_step _ _ _ _ st); auto. intros n3 s3 P3 S3 B3 N3 I3. up P3.
      apply (alloc_list_step _ _ _ _ st _ [sym "let"; VList [b1] false; VList (sym "let*" :: cdr_val (b1 :: r) d :: t1 :: t) false]); auto.
      - constructor; [constructor|]. constructor; [constructor; eapply one; eauto|]. constructor; [|constructor]. constructor. eapply more; [exact N3|exact I3|constructor|]. eapply more; eauto.
      - intros l s4 P4 S4 B4 L4. apply (sim_ret rep); auto. destruct l as [l|]; [cbn in L4; constructor; exact L4|cbn in L4; discriminate L4]. }
    clear E2 TR D. revert NEST RR. generalize (cdr_val (b1 :: r) d). intros cv NEST RR. destruct RR; try (apply NEST; discriminate). exact LET.
Qed.

(** ** define, set!, if *)
Section Forms.
Variable ev : env -> bool -> cval -> CM cval.
Variable ev' : env -> val -> EM val.
Hypothesis EV : agrees ev ev'.
Lemma curry_ok : forall k key kv vals vv X s st, same_state X s st -> bounded X (cs_cells s) -> rep X (cs_cells s) key kv -> flist X (cs_cells s) vals vv ->
  sim (fun X h p q => rep X h (fst p) (fst q) /\ flist X h (snd p) (snd q)) None X (cs_cells s) (ccurry k key vals s) (ret (curry kv vv) st).
Proof.
  induction k as [|k IH]; intros key kv vals vv X s st S0 Bd R F.
  - destruct key; inversion R; subst; try (apply sim_fuel); apply sim_ret; auto.
  - destruct key; inversion R; subst; try (apply sim_ret; auto; fail). cbn [ccurry].
    match goal with H : reps _ _ _ _ _ |- _ => apply reps_inv in H; destruct H as (cq & kv & ps & -> & NQ & NXQ & RK & TP & D) end. rewrite (cbind_get _ _ _ _ NQ). cbn [curry].
    assert (RP : rep X (cs_cells s) (as_list (c_next cq)) (match ps with [] => VNil | _ => VList ps d end)).
    { destruct (c_next cq) as [p|]; [|cbn in TP; subst; constructor]. destruct D as [_ D]. destruct ps; [inversion D|]. constructor. exact D. }
    clear R TP D. apply (alloc_step _ _ _ _ st); auto. intros n1 s1 P1 S1 B1 N1 I1. assert (F1 : flist X (cs_cells s1) vals vv) by (destruct vals; [cbn in *; now up P1|exact F]). up P1.
    apply (alloc_step _ _ _ _ st); auto. intros n2 s2 P2 S2 B2 N2 I2. assert (F2 : flist X (cs_cells s2) vals vv) by (destruct vals; [cbn in *; now up P2|exact F1]). clear F F1. up P2.
    apply (alloc_step _ _ _ _ st); auto. intros n3 s3 P3 S3 B3 N3 I3. assert (F3 : flist X (cs_cells s3) vals vv) by (destruct vals; [cbn in *; now up P3|exact F2]). clear F2. up P3.
    apply IH; auto. cbn [flist]. eapply one; eauto. constructor. eapply more; [exact N2|exact I2|constructor|]. eapply consf; eauto.
Qed.
Lemma define_ok k e args vs X s st : same_state X s st -> bounded X (cs_cells s) -> tails X (cs_cells s) args vs ->
  sim rep None X (cs_cells s) (cdefine ev k e args s) (do_define ev' e vs st).
Proof.
  intros S0 Bd T. destruct args as [a|]; [|cbn in T; subst; apply sim_ub]. apply tails_some in T. destruct T as (ca & v & t & -> & N & NX & R & T).
  unfold cdefine. rewrite (cbind_get _ _ _ _ N).
  assert (PROC : sim rep None X (cs_cells s)
     ((do! ok := cproper k (c_next ca) in if negb ok then cother else
          do! p := ccurry k (c_data ca) (c_next ca) in
          match p with
          | (CSym x, Some nv) =>
              do! cn := get nv in
              match c_data cn with
              | CPair ll =>
                  do! cl := get ll in
                  match c_next cl with
                  | Some lp =>
                      do! cp := get lp in
                      do! v := clambda e (c_data cp) (c_next cp) in
                      do! _ := cmodify (fun s => c_define_proc s x v) in
                      cret CNone
                  | None => cerr
                  end
              | _ => cerr
              end
          | _ => cerr
          end) s)
     (match curry v t with
      | (VSym x, VList (_ :: spec :: body) _ :: _) =>
          let! v := do_lambda e spec body in
          let! _ := modify (fun st => do_define_proc st x v) in ret VNone
      | _ => err
      end st)).
  { assert (FL : cproper k (c_next ca) s = (CFuel, []) \/ cproper k (c_next ca) s = (CRet false s, []) \/ cproper k (c_next ca) s = (CRet true s, []) /\ flist X (cs_cells s) (c_next ca) t).
    { destruct (c_next ca) as [b|]; [now apply proper_ok|]. right. right. split; [reflexivity|exact T]. }
    destruct FL as [E|[E|[E F]]]; [unfold cbind; rewrite E; apply sim_fuel|rewrite (cbind_eq _ _ _ _ _ E); apply sim_other|rewrite (cbind_eq _ _ _ _ _ E); cbn [negb]].
    match goal with |- sim _ _ _ _ _ (?G st) => change (G st) with (ebind (ret (curry v t)) (fun q => match q with (VSym x, VList (_ :: spec :: body) _ :: _) => let! v := do_lambda e spec body in let! _ := modify (fun st => do_define_proc st x v) in ret VNone | _ => err end) st) end.
    apply (sim_bind (fun X h p q => rep X h (fst p) (fst q) /\ flist X h (snd p) (snd q))); [discriminate|now apply curry_ok|].
    intros X1 [key vals] [kv vv] s1 st1 P1 S1 [RK FV]. cbn [fst snd] in *. assert (B1 := po_bnd _ _ _ _ _ P1). clear - RK FV S1 B1 EV.
    destruct key as [| | | | | |x| | | |]; inversion RK; subst; try (now apply sim_err). destruct vals as [nv|]; [|cbn in FV; subst vv; now apply sim_err].
    cbn [flist] in FV. apply reps_inv in FV. destruct FV as (cn & v0 & t0 & -> & NN & _ & R0 & _). rewrite (cbind_get _ _ _ _ NN).
    destruct (c_data cn) as [| | | | | | |ll| | |]; inversion R0; subst; try (now apply sim_err).
    match goal with H : reps _ _ ll _ _ |- _ => apply reps_inv in H; destruct H as (cl & l0 & lt & -> & NL & _ & _ & TL & _) end. rewrite (cbind_get _ _ _ _ NL).
    destruct (c_next cl) as [lp|]; [|cbn in TL; subst lt; now apply sim_err]. apply tails_some in TL. destruct TL as (cp & spec & body & -> & NP & _ & RS & TB). rewrite (cbind_get _ _ _ _ NP).
    apply (sim_bind rep); [discriminate|now apply lambda_ok|]. intros X2 w w' s2 st2 P2 S2 RW. rewrite cbind_modify. assert (B2 := po_bnd _ _ _ _ _ P2).
    change (ebind (modify (fun st => do_define_proc st x w')) (fun _ => ret VNone) st2) with (ret VNone (do_define_proc st2 x w')).
    change (cs_cells s2) with (cs_cells (c_define_proc s2 x w)). apply (sim_ret rep); [exact B2| |constructor]. now apply s_define_proc. }
  unfold do_define. destruct (c_data ca) as [| | | | | |x| | | |] eqn:DC; inversion R; subst; try exact PROC.
  - apply sim_ub.
  - destruct (c_next ca) as [b|]; [|cbn in T; subst t; now apply sim_err]. apply tails_some in T. destruct T as (cb & i & t' & -> & NB & _ & RI & _). rewrite (cbind_get _ _ _ _ NB).
    apply (ev_bind ev ev' EV); auto; [discriminate|]. intros X2 w w' s2 st2 P2 S2 B2 RW. rewrite cbind_modify.
    change (ebind (modify (fun st => do_define_var st e x w')) (fun _ => ret VNone) st2) with (ret VNone (do_define_var st2 e x w')).
    rewrite <- (cells_define s2 e x w). apply (sim_ret rep); [rewrite cells_define; exact B2| |constructor]. now apply s_define.
Qed.
Lemma set_ok e args vs X s st : same_state X s st -> bounded X (cs_cells s) -> tails X (cs_cells s) args vs ->
  sim rep None X (cs_cells s) (cset_form ev e args s) (do_set_form ev' e vs st).
Proof.
  intros S0 Bd T. destruct args as [a|]; [|cbn in T; subst; apply sim_abort]. apply tails_some in T. destruct T as (ca & v & t & -> & N & NX & R & T).
  unfold cset_form. rewrite (cbind_get _ _ _ _ N). unfold do_set_form. destruct (c_data ca) as [| | | | | |x| | | |] eqn:DC; inversion R; subst; try (apply sim_abort).
  destruct (c_next ca) as [b|]; [|cbn in T; subst t; apply sim_ub]. apply tails_some in T. destruct T as (cb & i & t' & -> & NB & _ & RI & _). rewrite (cbind_get _ _ _ _ NB).
  apply (ev_bind ev ev' EV); auto; [discriminate|]. intros X2 w w' s2 st2 P2 S2 B2 RW. rewrite cbind_modify.
  change (ebind (modify (fun st => do_set st e x w')) (fun _ => ret VNone) st2) with (ret VNone (do_set st2 e x w')).
  rewrite <- (cells_set s2 e x w). apply (sim_ret rep); [rewrite cells_set; exact B2| |constructor]. now apply s_set.
Qed.
Lemma if_ok e args vs X s st : same_state X s st -> bounded X (cs_cells s) -> tails X (cs_cells s) args vs ->
  sim rep None X (cs_cells s) (cif ev e args s) (do_if ev' e vs st).
Proof.
  intros S0 Bd T. destruct args as [a|]; [|cbn in T; subst; apply sim_abort]. apply tails_some in T. destruct T as (ca & v & t & -> & N & NX & R & T).
  unfold cif. rewrite (cbind_get _ _ _ _ N). unfold do_if. apply (ev_bind ev ev' EV); auto; [discriminate|]. intros X2 w w' s2 st2 P2 S2 B2 RW. up P2.
  rewrite (cbind_get _ _ _ _ N). destruct (c_next ca) as [b|]; [|cbn in T; subst t; apply sim_ub]. apply tails_some in T. destruct T as (cb & i & t' & -> & NB & _ & RI & T).
  rewrite (cbind_get _ _ _ _ NB). rewrite (r_truthy _ _ _ _ RW). destruct (truthy w'); [now apply ev0|].
  destruct (c_next cb) as [d|]; [|cbn in T; subst t'; apply (sim_ret rep); auto; constructor]. apply tails_some in T. destruct T as (cd & i2 & t2 & -> & ND & _ & RD & _).
  rewrite (cbind_get _ _ _ _ ND). now apply ev0.
Qed.
End Forms.
