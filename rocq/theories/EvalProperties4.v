(** C58-C63: map, for-each, quasiquote, promises, values, apply, macros.
    Vocabulary: EvalSpec. *)
From Coq Require Import String Lia.
From Verif Require Import Base ParseModel PrintModel EnvModel EnvSpec EnvProofs EvalModel EvalMono EvalInv EvalInv2 EvalInv3 EvalSpec EvalProofs
  EvalProofs2 EvalProofs3 EvalProofs4 EvalWitness EvalProperties EvalProofs5 EvalProofs6 EvalProofs7.
Local Open Scope string_scope.
Local Open Scope list_scope.

(** * C58. map, for-each.  [rows_of ls]: the argument lists of the calls, made of
    the i-th elements of all lists, for every i below the shortest length. *)
Lemma fcall_from prim e xs rest body pe r : (rest = None \/ (length xs <= length r)%nat) ->
  call_from prim e xs rest body pe r <<= fcall prim e (closure xs rest body pe) r.
Proof.
  intros L st o ((P & F) & H). apply (fcall_closure prim e xs rest body pe r L st o).
  apply (call_denote prim e xs rest body pe (map quoted r) r st o P F (quoted_denote r)). exact H.
Qed.
Lemma calls_incl {A} (f g : A -> Beh val) l : (forall r, In r l -> f r <<= g r) -> calls_run f l <<= calls_run g l.
Proof.
  induction l as [|r l IH]; intro H; cbn [calls_run]; [apply incl_refl|]. apply incl_then; [apply H; now left|]. intro v.
  apply incl_then; [apply IH; intros; apply H; now right|intro; apply incl_refl].
Qed.
Lemma rows_length ls r : In r (rows_of ls) -> length r = length ls.
Proof. unfold rows_of. intro I. apply in_map_iff in I as (i & <- & _). unfold row. apply map_length. Qed.
Lemma Forall2_length {A B} (R : A -> B -> Prop) l m : Forall2 R l m -> length l = length m.
Proof. induction 1; cbn; auto. Qed.
Lemma args_length prim e : forall es st vs st', args_run prim e es st (Ret vs st') -> length vs = length es.
Proof.
  induction es as [|x es IH]; intros st vs st' H; cbn [args_run] in H; [injection H as -> _; reflexivity|].
  destruct H as [(v & s & _ & [(ws & s2 & H2 & H3)|(o1 & _ & H3)])|(o1 & _ & H3)]; try inversion H3. subst. apply IH in H2. cbn. lia.
Qed.
(* f and the lists are evaluated, in order; then f is called on the rows, in
   order; the list of the results is the value *)
Theorem c58_map : forall prim e (nm : string) pf lists st xs rest body pe st1 vals st2 ls o, nm = "map" \/ nm = "map-in-order" ->
  plain e nm st -> lists <> [] ->
  runs prim e pf st (Ret (closure xs rest body pe) st1) -> args_run prim e lists st1 (Ret vals st2) ->
  Forall2 (fun v l => v = mklist l) vals ls -> (rest = None \/ (length xs <= length lists)%nat) ->
  (vs <~ calls_run (call_from prim e xs rest body pe) (rows_of ls) ;; returns (mklist vs)) st2 o ->
  runs prim e (form_ nm (pf :: lists)) st o.
Proof.
  intros prim e nm pf lists st xs rest body pe st1 vals st2 ls o HN P NE Hf Hl F L H. destruct lists as [|y lists]; [congruence|].
  assert (F' : Forall2 (fun v l => elements v = Some l) vals ls).
  { clear -F. induction F as [|v l vals ls E F IH]; constructor; auto. subst. destruct l; reflexivity. }
  apply (proj2 (runs_map prim e nm pf y lists st (closure xs rest body pe) st1 vals st2 ls o HN P Hf ltac:(destruct rest; reflexivity) Hl F')).
  revert H. apply incl_then; [|intro; apply incl_refl]. apply calls_incl. intros r I. apply fcall_from.
  destruct L as [L|L]; [now left|right]. rewrite (rows_length ls r I), <- (Forall2_length _ _ _ F), (args_length _ _ _ _ _ _ Hl). exact L.
Qed.
Print Assumptions c58_map.
(* the same for a primitive *)
Lemma plain_emit e k out st : plain e k st -> plain e k (emit out st).
Proof.
  intros P v H. apply (P v). rewrite <- H. unfold head_value.
  assert (U : forall l x, uses_lookup (emit out st) l x = uses_lookup st l x).
  { induction l as [|u l IH]; intro x; [reflexivity|]. cbn [uses_lookup]. rewrite IH. reflexivity. }
  assert (C : forall l x, search_chain (emit out st) l x = search_chain st l x).
  { induction l as [|u l IH]; intro x; [reflexivity|]. cbn [search_chain]. rewrite IH. reflexivity. }
  unfold env_exist, search_entry. rewrite U, C. reflexivity.
Qed.
Lemma prim_incl prim e nm ar : calls_back nm = false -> (-2 <= ar <= 3)%Z -> forall rs st o, plain e "quote" st ->
  calls_run (prim_run prim nm ar) rs st o -> calls_run (fcall prim e (VFunc nm ar)) rs st o.
Proof.
  intros C A. induction rs as [|r rs IH]; intros st o P H; cbn [calls_run] in *; [exact H|].
  destruct H as [(v & s & H1 & H2)|(o1 & H1 & H2)].
  - left. exists v, s. split; [now apply fcall_prim|].
    assert (P2 : plain e "quote" s).
    { unfold prim_run in H1. destruct (_ || _)%bool.
      - destruct (prim nm r) as [w out|]; [|unfold raises, err, throw in H1; destruct (find_handler _ _ _); discriminate].
        apply (proj1 (andthen_effect _ _ _ _)) in H1. injection H1 as _ ->. now apply plain_emit.
      - unfold throw in H1. destruct (find_handler _ _ _); discriminate. }
    destruct H2 as [(vs & s2 & H2 & H3)|(o1 & H2 & H3)]; [left; exists vs, s2|right; exists o1]; split; auto.
  - right. exists o1. split; [now apply fcall_prim|auto].
Qed.
Theorem c58_map_primitive : forall prim e (nm : string) pf lists st f ar st1 vals st2 ls o, nm = "map" \/ nm = "map-in-order" ->
  plain e nm st -> plain e "quote" st2 -> lists <> [] -> calls_back f = false -> (-2 <= ar <= 3)%Z ->
  runs prim e pf st (Ret (VFunc f ar) st1) -> args_run prim e lists st1 (Ret vals st2) ->
  Forall2 (fun v l => v = mklist l) vals ls ->
  (vs <~ calls_run (prim_run prim f ar) (rows_of ls) ;; returns (mklist vs)) st2 o ->
  runs prim e (form_ nm (pf :: lists)) st o.
Proof.
  intros prim e nm pf lists st f ar st1 vals st2 ls o HN P PQ NE C A Hf Hl F H. destruct lists as [|y lists]; [congruence|].
  assert (F' : Forall2 (fun v l => elements v = Some l) vals ls).
  { clear -F. induction F as [|v l vals ls E F IH]; constructor; auto. subst. destruct l; reflexivity. }
  apply (proj2 (runs_map prim e nm pf y lists st (VFunc f ar) st1 vals st2 ls o HN P Hf eq_refl Hl F')).
  destruct H as [(vs & s & H1 & H2)|(o1 & H1 & H2)]; [left; exists vs, s|right; exists o1]; split; auto; now apply prim_incl.
Qed.
Print Assumptions c58_map_primitive.
Example c58_ex_rows : rows_of [[VInt 1; VInt 2; VInt 3]; [VInt 4; VInt 5]] = [[VInt 1; VInt 4]; [VInt 2; VInt 5]]. Proof. reflexivity. Qed.
Example c58_ex_map : go "(map (lambda (x y) (display x) (* x y)) '(1 2 3) '(4 5))" = Some (VList [VInt 4; VInt 10] false, bs "12").
Proof. vm_compute. reflexivity. Qed.
Example c58_ex_hyp : exists st1 st2,
  plain g_env "map" st0 /\ runs prim0 g_env (expr "(lambda (x y) (* x y))") st0 (Ret (closure [bs "x"; bs "y"] None [expr "(* x y)"] g_env) st1) /\
  args_run prim0 g_env [expr "'(1 2)"; expr "'(3 4)"] st1 (Ret [mklist [VInt 1; VInt 2]; mklist [VInt 3; VInt 4]] st2) /\ frames_exist g_env st2.
Proof.
  exists st0, st0. split; [apply plain0; reflexivity|]. split; [run_it|]. split.
  - left. exists (mklist [VInt 1; VInt 2]), st0. split; [run_it|]. left. exists [mklist [VInt 3; VInt 4]], st0. split; [|reflexivity].
    left. exists (mklist [VInt 3; VInt 4]), st0. split; [run_it|]. left. exists [], st0. split; reflexivity.
  - repeat constructor.
Qed.
(* for-each calls f on the rows in order; for lists of equal length without () as
   an element, and at most 10 lists *)
Theorem c121_for_each : forall prim e pf lists st xs body pe st1 vals st2 ls m o, plain e "for-each" st -> lists <> [] ->
  runs prim e pf st (Ret (closure xs None body pe) st1) -> args_run prim e lists st1 (Ret vals st2) ->
  Forall2 (fun v l => v = mklist l) vals ls -> length xs = length lists -> (length xs <= 10)%nat ->
  Forall (fun l => length l = m) ls -> Forall (Forall (fun x => x <> VNil)) ls ->
  (_ <~ calls_run (call_from prim e xs None body pe) (rows_of ls) ;; returns VNone) st2 o ->
  runs prim e (form_ "for-each" (pf :: lists)) st o.
Proof.
  intros prim e pf lists st xs body pe st1 vals st2 ls m o P NE Hf Hl F Lx L10 Lm NN H.
  assert (F' : Forall2 (fun v l => elements v = Some l) vals ls).
  { clear -F. induction F as [|v l vals ls E F IH]; constructor; auto. subst. destruct l; reflexivity. }
  destruct ls as [|l ls].
  { inversion F; subst. apply args_length in Hl. destruct lists; [congruence|discriminate]. }
  apply (proj2 (runs_for_each prim e pf lists st xs body pe st1 vals st2 l ls o P Hf Lx L10 Hl F')).
  inversion Lm as [|? ? Lm1 Lm2]; subst.
  apply (proj2 (each_spec prim e (closure xs None body pe) _ l ls eq_refl Lm2 NN st2 o)).
  revert H. apply incl_then; [|intro; apply incl_refl]. apply calls_incl. intros r I s oo ((Pq & Fe) & K).
  unfold ecall. apply (proj2 (runs_call prim e xs None body pe (map quoted r) false (or_introl eq_refl) s oo)).
  apply (call_denote prim e xs None body pe (map quoted r) r s oo Pq Fe (quoted_denote r)). exact K.
Qed.
Print Assumptions c121_for_each.
Lemma each_stop prim e f : forall a b, lim (fun n => each_rows (eval prim n) e f (a ++ VNil :: b) []) == lim (fun n => each_rows (eval prim n) e f a []).
Proof.
  induction a as [|x a IH]; intro b; [apply lim_ext; reflexivity|].
  assert (G : forall r n, each_rows (eval prim n) e f (x :: r) [] = match x with VNil => ret VNone | _ => ebind (eval prim n e (VList [f; quoted x] false)) (fun _ => each_rows (eval prim n) e f r []) end).
  { intros r n. destruct x; reflexivity. }
  cbn [app]. transitivity (lim (fun n => match x with VNil => ret VNone | _ => ebind (eval prim n e (VList [f; quoted x] false)) (fun _ => each_rows (eval prim n) e f (a ++ VNil :: b) []) end)).
  { apply lim_ext. intros n st. now rewrite G. }
  transitivity (lim (fun n => match x with VNil => ret VNone | _ => ebind (eval prim n e (VList [f; quoted x] false)) (fun _ => each_rows (eval prim n) e f a []) end)).
  2:{ apply lim_ext. intros n st. now rewrite G. }
  destruct x; try reflexivity; (rewrite !lim_bind; [|apply mono_eval|intro; apply mono_each|apply mono_eval|intro; apply mono_each]; apply andthen_cong; [reflexivity|intros _; apply IH]).
Qed.
(* for-each stops, without an error, at the first element that is () *)
Theorem c168_for_each_stops_refuted : forall prim e pf le st x body pe st1 a b st2 o, plain e "for-each" st ->
  runs prim e pf st (Ret (closure [x] None body pe) st1) -> runs prim e le st1 (Ret (mklist (a ++ VNil :: b)) st2) ->
  Forall (fun x => x <> VNil) a ->
  (_ <~ calls_run (call_from prim e [x] None body pe) (map (fun v => [v]) a) ;; returns VNone) st2 o ->
  runs prim e (form_ "for-each" [pf; le]) st o.
Proof.
  intros prim e pf le st x body pe st1 a b st2 o P Hf Hl NN H.
  assert (Ha : args_run prim e [le] st1 (Ret [mklist (a ++ VNil :: b)] st2)).
  { left. exists (mklist (a ++ VNil :: b)), st2. split; [exact Hl|]. left. exists [], st2. split; reflexivity. }
  apply (proj2 (runs_for_each prim e pf [le] st [x] body pe st1 _ st2 (a ++ VNil :: b) [] o P Hf eq_refl ltac:(cbn; lia) Ha
    ltac:(constructor; [destruct a; reflexivity|constructor]))).
  apply (proj2 (each_stop prim e _ a b st2 o)).
  apply (proj2 (each_spec prim e (closure [x] None body pe) _ a [] eq_refl ltac:(constructor) ltac:(repeat constructor; auto) st2 o)).
  assert (R : rows_of [a] = map (fun v => [v]) a).
  { unfold rows_of. cbn [shortest map fold_left]. rewrite <- (map_map (fun i => nth i a VNone) (fun v => [v])). f_equal.
    clear. induction a as [|y a IH]; [reflexivity|]. cbn [length seq map]. f_equal. rewrite <- seq_shift, map_map. exact IH. }
  rewrite R. revert H. apply incl_then; [|intro; apply incl_refl]. apply calls_incl. intros r I s oo ((Pq & Fe) & K).
  unfold ecall. apply (proj2 (runs_call prim e [x] None body pe (map quoted r) false (or_introl eq_refl) s oo)).
  apply (call_denote prim e [x] None body pe (map quoted r) r s oo Pq Fe (quoted_denote r)). exact K.
Qed.
Print Assumptions c168_for_each_stops_refuted.
Example c58_ex_stops : go "(for-each (lambda (x) (display 1)) '(a b () c d))" = Some (VNone, bs "11"). Proof. vm_compute. reflexivity. Qed.
Example c58_ex_each : go "(for-each (lambda (x y) (display x) (display y)) '(1 2) '(3 4))" = Some (VNone, bs "1324"). Proof. vm_compute. reflexivity. Qed.

(** * C59. Quasiquote.  [tm_run prim e 1 t]: the value of the template; a template
    t is written [tm_val t] in the program.  Not covered: splicing a dotted list,
    and a ,@ directly before a dot at an inner level. *)
Theorem c59_template : forall prim e t st o, plain e "quasiquote" st -> tm_ok 1 t ->
  tm_run prim e 1 t st o -> runs prim e (form_ "quasiquote" [tm_val t]) st o.
Proof. exact runs_quasi. Qed.
Print Assumptions c59_template.
Lemma not_us v : const_datum v -> v <> sym "unquote-splicing".
Proof. destruct v; cbn; try discriminate. tauto. Qed.
Fixpoint const_tm (v : val) {struct v} : const_datum v -> exists t, tm_val t = v /\ tm_const t /\ (forall d, item_ok d (It t)).
Proof.
  assert (L : forall l, (fix all (l : list val) : Prop := match l with [] => True | y :: r => const_datum y /\ all r end) l ->
    exists ts, map tm_val ts = l /\ Forall (fun t => tm_const t /\ (forall d, item_ok d (It t)) /\ const_datum (tm_val t)) ts).
  { fix go 1. intros [|x l] C; [exists []; repeat split; constructor|]. destruct C as [C1 C2].
    destruct (const_tm x C1) as (t & V & K & I). destruct (go l C2) as (ts & V2 & K2).
    exists (t :: ts). cbn [map]. rewrite V2. split; [now f_equal|]. constructor; auto. rewrite V. auto. }
  clear const_tm.
  assert (AT : forall v, v <> sym "unquote" /\ v <> sym "quasiquote" -> match v with VList _ _ | VVec _ => False | _ => True end ->
    exists t, tm_val t = v /\ tm_const t /\ (forall d, item_ok d (It t))).
  { intros w W D. exists (TAtom w). split; [reflexivity|]. split; [exact I|]. intro d. split; [|exact I]. cbn. destruct w; auto. }
  assert (MI : forall ts, map item_val (map It ts) = map tm_val ts) by (intro ts; rewrite map_map; reflexivity).
  assert (FC : forall ts, Forall (fun t => tm_const t /\ (forall d, item_ok d (It t)) /\ const_datum (tm_val t)) ts -> fold_right (fun i P => item_const i /\ P) True (map It ts)).
  { induction 1 as [|t ts (K & _) _ IH]; cbn; auto. }
  assert (FO : forall d ts, Forall (fun t => tm_const t /\ (forall d, item_ok d (It t)) /\ const_datum (tm_val t)) ts -> fold_right (fun i P => item_ok d i /\ P) True (map It ts)).
  { induction 1 as [|t ts (_ & K & _) _ IH]; cbn [map fold_right]; auto. }
  assert (NU : forall t, const_datum (tm_val t) -> match t with TAtom v => v <> sym "unquote-splicing" | _ => True end).
  { intros t C. destruct t; auto. now apply not_us. }
  destruct v as [| |b|z|c|s|s|l d|l|ps r bd pe|n ar|ps r bd pe|a|a|k m]; intro C; try (apply AT; [split; discriminate|exact I]).
  - apply AT; [destruct C as (C1 & C2 & _); auto|exact I].
  - destruct C as [C D]. destruct (L l C) as (ts & V & K). destruct d.
    + destruct D as [D1 D2]. destruct ts as [|t0 ts]; [subst l; cbn in D1; lia|].
      destruct (exists_last (l := ts)) as (mid & tl & ->). { intros ->. subst l. cbn in D1. lia. }
      inversion K as [|? ? K0 Kr]; subst. apply Forall_app in Kr as [Km Kt]. inversion Kt as [|? ? Kt1 _]; subst.
      exists (TDot (It t0) (map It mid) tl).
      assert (T : match tm_val tl with VNil | VList _ _ => False | _ => True end).
      { revert D2. cbn [map]. rewrite map_app. cbn [map].
        change (tm_val t0 :: map tm_val mid ++ [tm_val tl]) with ((tm_val t0 :: map tm_val mid) ++ [tm_val tl]). rewrite last_last. auto. }
      split; [cbn [tm_val item_val]; rewrite MI; cbn [map]; rewrite map_app; reflexivity|].
      destruct K0 as (K01 & K02 & K03), Kt1 as (Kt1 & Kt2 & Kt3).
      split; [split; [exact K01|]; split; [now apply FC|]; split; auto|].
      intro d. split; [|specialize (NU t0 K03); destruct t0; auto].
      split; [apply K02|]. split; [now apply FO|]. split; [apply (Kt2 d)|].
      change (It t0 :: map It mid) with (map It (t0 :: mid)). clear. generalize (t0 :: mid). intro q. generalize t0. induction q as [|x [|y q] IH]; intro t; [exact I|exact I|apply IH].
    + destruct ts as [|t0 ts]; [subst l; cbn in D; congruence|]. inversion K as [|? ? K0 Kr]; subst.
      destruct K0 as (K01 & K02 & K03). exists (TList (It t0) (map It ts)).
      split; [cbn [tm_val item_val map]; rewrite MI; reflexivity|]. split; [split; [exact K01|now apply FC]|].
      intro d. split; [split; [apply K02|now apply FO]|specialize (NU t0 K03); destruct t0; auto].
  - destruct (L l C) as (ts & V & K). exists (TVec (map It ts)). cbn [tm_val]. rewrite MI, V.
    split; [reflexivity|]. split; [now apply FC|]. intro d. split; [now apply FO|exact I].
Qed.
(* a template without quasiquote, unquote and unquote-splicing is its own value *)
Theorem c59_constant : forall prim e v st o, plain e "quasiquote" st -> const_datum v ->
  (runs prim e (form_ "quasiquote" [v]) st o <-> o = Ret v st).
Proof.
  intros prim e v st o P C. destruct (const_tm v C) as (t & V & K & O).
  assert (R : runs prim e (form_ "quasiquote" [v]) st (Ret v st)).
  { rewrite <- V. apply (runs_quasi prim e t st _ P (proj1 (O 1%nat))). apply (const_run prim e t 1 K). reflexivity. }
  split; [|intros ->; exact R]. intro H. exact (runs_det prim e _ st _ _ H R).
Qed.
Print Assumptions c59_constant.
Example c59_ex_const : const_datum (expr "(a (1 . b) #(c (d)) () ""s"")").
Proof. vm_compute. repeat split; try discriminate; try lia. Qed.
(* `(1 ,(+ 1 2) ,@(list 4 5) . ,x) *)
Definition ex59 : tm := TDot (It (TAtom (VInt 1))) [It (TUnq (expr "(+ 1 2)")); Spl (expr "(list 4 5)")] (TUnq (expr "'z")).
Example c59_ex : tm_ok 1 ex59 /\ tm_val ex59 = expr "(1 ,(+ 1 2) ,@(list 4 5) . ,'z)" /\
  tm_run prim0 g_env 1 ex59 st0 (Ret (VList [VInt 1; VInt 3; VInt 4; VInt 5; sym "z"] true) st0).
Proof.
  split; [repeat split; discriminate|]. split; [vm_compute; reflexivity|].
  left. exists [VInt 1], st0. split; [left; exists (VInt 1), st0; split; reflexivity|].
  left. exists [VInt 3; VInt 4; VInt 5], st0. split.
  - left. exists [VInt 3], st0. split; [left; exists (VInt 3), st0; split; [run_it|reflexivity]|].
    left. exists [VInt 4; VInt 5], st0. split; [|reflexivity]. left. exists [VInt 4; VInt 5], st0. split.
    + left. exists (mklist [VInt 4; VInt 5]), st0. split; [run_it|reflexivity].
    + left. exists [], st0. split; reflexivity.
  - left. exists (sym "z"), st0. split; [run_it|reflexivity].
Qed.
Example c59_ex_nested : go "`(1 `(2 ,(3 ,(+ 1 3))))" = Some (expr "(1 `(2 ,(3 4)))", []). Proof. vm_compute. reflexivity. Qed.
(* at an inner level, ,@x before a dot: the tail becomes an element *)
Theorem c153_inner_splice_refuted : forall prim e a b st, plain e "quasiquote" st ->
  runs prim e (form_ "quasiquote" [VList [sym "quasiquote"; VList [VList [sym "unquote-splicing"; VInt a] false; VInt b] true] false]) st
    (Ret (VList [sym "quasiquote"; VList [VList [sym "unquote-splicing"; VInt a] false; VInt b] false] false) st).
Proof.
  intros prim e a b st P. apply (proj2 (runs_special prim e "quasiquote" FQuasi _ st _ P eq_refl)). cbn [special].
  exists 10%nat. split; [reflexivity|discriminate].
Qed.
Print Assumptions c153_inner_splice_refuted.
(* splicing a dotted list before other elements: its tail becomes an element *)
Theorem c153_dotted_splice_refuted : go "`(0 ,@(cons 1 2) 3)" = Some (VList [VInt 0; VInt 1; VInt 2; VInt 3] false, []).
Proof. vm_compute. reflexivity. Qed.
Print Assumptions c153_dotted_splice_refuted.

(** * C60. Promises.  [forced a w st]: promise a has the value w. *)
(* a completed force leaves the promise forced with the value it returns *)
Theorem c60_first : forall prim e x a st st1 w st', operator_is e "force" (VFunc (bs "force") 1) st ->
  runs prim e x st (Ret (VPromise a) st1) -> runs prim e (form_ "force" [x]) st (Ret w st') -> forced a w st'.
Proof.
  intros prim e x a st st1 w st' O Hx H.
  apply (proj1 (runs_operator prim e (bs "force") [x] false _ st _ O eq_refl eq_refl)) in H.
  apply (proj1 (runs_force prim e x false st a st1 _ Hx)) in H. exact (force_result prim a st1 w st' H).
Qed.
Print Assumptions c60_first.
(* no evaluation changes that *)
Theorem c60_stays : forall prim e x a w st o st', forced a w st -> runs prim e x st o -> end_in o st' -> forced a w st'.
Proof.
  intros prim e x a w st o st' (p & N & V) (n & E & _) D. pose proof (eval_grows prim n e x st) as G. rewrite E in G.
  assert (GR : grows st st') by (destruct o; cbn in D; try contradiction; subst; exact G).
  destruct (g_proms _ _ GR a p N) as (q & Nq & _ & _ & K). exists q. split; auto. 
Qed.
Print Assumptions c60_stays.
(* forcing it again evaluates nothing but the operand and returns the same value *)
Theorem c60_again : forall prim e x a w st st1 o, operator_is e "force" (VFunc (bs "force") 1) st ->
  runs prim e x st (Ret (VPromise a) st1) -> forced a w st1 -> (runs prim e (form_ "force" [x]) st o <-> o = Ret w st1).
Proof.
  intros prim e x a w st st1 o O Hx F. unfold form_.
  rewrite (runs_operator prim e (bs "force") [x] false _ st o O eq_refl eq_refl).
  rewrite (runs_force prim e x false st a st1 o Hx). exact (force_forced prim a st1 w F o).
Qed.
Print Assumptions c60_again.
(* a promise forced again while it is being forced: the first value to be
   completed stays *)
Example c60_ex_reentrant : go "(define x 5) (define p (delay (begin (set! x (+ x 1)) (if (< x 8) (force p) x)))) (list (force p) (force p) x)"
  = Some (VList [VInt 8; VInt 8; VInt 8] false, []). Proof. vm_compute. reflexivity. Qed.
Example c60_ex_op : operator_is g_env "force" (VFunc (bs "force") 1) st0. Proof. left. vm_compute. reflexivity. Qed.
Example c60_ex : exists w, forced 0 w (final "(define p (delay (+ 1 2))) (force p)"). Proof. exists (VInt 3). eexists. split; vm_compute; reflexivity. Qed.

(** * C61. values and call-with-values *)
Theorem c61_values : forall prim e args c st vs st2 xs rest bc pc st3 o,
  plain e "call-with-values" st -> plain e "lambda" st ->
  let fe := fst (make_env st e) in let st1 := snd (make_env st e) in
  operator_is fe "values" (VFunc (bs "values") (-2)) st1 -> args_run prim fe args st1 (Ret vs st2) ->
  runs prim e c st2 (Ret (closure xs rest bc pc) st3) ->
  (runs prim e (form_ "call-with-values" [form_ "lambda" [VNil; form_ "values" args]; c]) st o <->
   call_vals prim xs rest bc pc vs st3 o).
Proof.
  intros prim e args c st vs st2 xs rest bc pc st3 o P PL fe st1 O Ha Hc.
  assert (Hp : runs prim e (form_ "lambda" [VNil; form_ "values" args]) st (Ret (closure [] None [form_ "values" args] e) st)).
  { apply (proj2 (runs_special prim e "lambda" FLambda _ st _ PL eq_refl)). apply (proj2 (lim_ret _ st _)). reflexivity. }
  assert (Hv : call_run prim e [] None [form_ "values" args] e [] st (Ret (mklist vs) st2)).
  { unfold call_run. apply andthen_new. left. exists tt, st1. split; [reflexivity|]. cbn [body_run].
    apply (proj2 (runs_operator prim fe (bs "values") args false _ st1 _ O eq_refl eq_refl)).
    apply (proj2 (runs_values prim fe args _ st1 _)). left. exists vs, st2. split; [exact Ha|reflexivity]. }
  rewrite (runs_cwv prim e _ c st _ e st _ st2 xs rest bc pc st3 o P Hp Hv Hc ltac:(destruct vs; reflexivity)).
  destruct vs; reflexivity.
Qed.
Print Assumptions c61_values.
Example c61_ex : go "(call-with-values (lambda () (values 1 '(2 3) 4)) (lambda (a b c) (list c b a)))"
  = Some (VList [VInt 4; VList [VInt 2; VInt 3] false; VInt 1] false, []). Proof. vm_compute. reflexivity. Qed.
Example c61_ex_hyp : plain g_env "call-with-values" st0 /\ plain g_env "lambda" st0 /\
  operator_is (fst (make_env st0 g_env)) "values" (VFunc (bs "values") (-2)) (snd (make_env st0 g_env)).
Proof. split; [apply plain0; reflexivity|]. split; [apply plain0; reflexivity|]. right. split; vm_compute; reflexivity. Qed.
(* but a single value that is a list is taken for several values *)
Theorem c154_list_value_refuted : forall prim e p c st bt pt st1 v vs st2 xs rest bc pc st3 o,
  plain e "call-with-values" st -> runs prim e p st (Ret (closure [] None bt pt) st1) ->
  call_run prim e [] None bt pt [] st1 (Ret (VList (v :: vs) false) st2) -> runs prim e c st2 (Ret (closure xs rest bc pc) st3) ->
  (runs prim e (form_ "call-with-values" [p; c]) st o <-> call_vals prim xs rest bc pc (v :: vs) st3 o).
Proof.
  intros prim e p c st bt pt st1 v vs st2 xs rest bc pc st3 o P Hp Hv Hc.
  exact (runs_cwv prim e p c st bt pt st1 _ st2 xs rest bc pc st3 o P Hp Hv Hc eq_refl).
Qed.
Print Assumptions c154_list_value_refuted.
Example c61_ex_list : go "(call-with-values (lambda () (list 1 2)) (lambda (a b) (+ a b)))" = Some (VInt 3, []). Proof. vm_compute. reflexivity. Qed.

(** * C62. apply *)
(* [self v]: v is a value that evaluates to itself *)
Theorem c62_procedure : forall prim e pf args l st xs rest body pe st1 els st2 vs st3 o, plain e "apply" st ->
  runs prim e pf st (Ret (closure xs rest body pe) st1) -> runs prim e l st1 (Ret (mklist els) st2) ->
  args_run prim e args st2 (Ret vs st3) -> Forall self vs -> (rest = None \/ (length xs <= length vs + length els)%nat) ->
  plain e "quote" st3 -> frames_exist e st3 ->
  (runs prim e (form_ "apply" (pf :: args ++ [l])) st o <-> call_vals prim xs rest body pe (vs ++ els) st3 o).
Proof.
  intros prim e pf args l st xs rest body pe st1 els st2 vs st3 o P Hf Hl Ha S L PQ F.
  rewrite (runs_apply prim e pf args l st xs rest body pe st1 (mklist els) els st2 vs st3 o P Hf Hl ltac:(destruct els; reflexivity) Ha L).
  apply (call_denote prim e xs rest body pe _ _ st3 o PQ F). apply Forall2_app; [now apply self_denote|apply quoted_denote].
Qed.
Print Assumptions c62_procedure.
Theorem c62_primitive : forall prim e pf args l st nm ar st1 els st2 vs st3 o, plain e "apply" st ->
  runs prim e pf st (Ret (VFunc nm ar) st1) -> runs prim e l st1 (Ret (mklist els) st2) ->
  args_run prim e args st2 (Ret vs st3) -> Forall self vs -> calls_back nm = false -> (-2 <= ar <= 3)%Z ->
  plain e "quote" st3 ->
  (runs prim e (form_ "apply" (pf :: args ++ [l])) st o <-> prim_run prim nm ar (vs ++ els) st3 o).
Proof.
  intros prim e pf args l st nm ar st1 els st2 vs st3 o P Hf Hl Ha S C A PQ.
  rewrite (runs_apply_prim prim e pf args l st nm ar st1 (mklist els) els st2 vs st3 o P Hf Hl ltac:(destruct els; reflexivity) Ha C A).
  apply (after_args prim e _ _ st3 _ st3 o). apply (args_denote prim e _ (vs ++ els) st3 _ PQ); [|reflexivity].
  apply Forall2_app; [now apply self_denote|apply quoted_denote].
Qed.
Print Assumptions c62_primitive.
(* in general the values of the leading arguments are evaluated again, as
   expressions *)
Theorem c155_evaluated_again_refuted : forall prim e pf args l st xs rest body pe st1 els st2 vs st3 o, plain e "apply" st ->
  runs prim e pf st (Ret (closure xs rest body pe) st1) -> runs prim e l st1 (Ret (mklist els) st2) ->
  args_run prim e args st2 (Ret vs st3) -> (rest = None \/ (length xs <= length vs + length els)%nat) ->
  (runs prim e (form_ "apply" (pf :: args ++ [l])) st o <-> call_run prim e xs rest body pe (vs ++ map quoted els) st3 o).
Proof.
  intros prim e pf args l st xs rest body pe st1 els st2 vs st3 o P Hf Hl Ha L.
  exact (runs_apply prim e pf args l st xs rest body pe st1 (mklist els) els st2 vs st3 o P Hf Hl ltac:(destruct els; reflexivity) Ha L).
Qed.
Print Assumptions c155_evaluated_again_refuted.
Example c62_ex_again : go "(define x 5) (apply (lambda (a b) (list a b)) 'x '(y))" = Some (VList [VInt 5; sym "y"] false, []).
Proof. vm_compute. reflexivity. Qed.
Example c62_ex : go "(apply (lambda (a . r) (list a r)) 1 '(x (y)))" = Some (VList [VInt 1; VList [sym "x"; VList [sym "y"] false] false] false, []).
Proof. vm_compute. reflexivity. Qed.
Example c62_ex_hyp : exists st1, plain g_env "apply" st0 /\
  runs prim0 g_env (expr "(lambda (a b) a)") st0 (Ret (closure [bs "a"; bs "b"] None [sym "a"] g_env) st1) /\
  runs prim0 g_env (expr "'(2)") st1 (Ret (mklist [VInt 2]) st0) /\ args_run prim0 g_env [VInt 1] st0 (Ret [VInt 1] st0) /\ Forall self [VInt 1].
Proof.
  exists st0. split; [apply plain0; reflexivity|]. split; [run_it|]. split; [run_it|]. split; [|repeat constructor].
  left. exists (VInt 1), st0. split; [run_it|]. left. exists [], st0. split; reflexivity.
Qed.

(** * C63. Macros *)
(* (m op ...): the transformer's body is run with its parameters bound to the
   operands, unevaluated, a rest parameter to the list of the remaining ones; its
   value goes to one and the same continuation *)
Theorem c63_operands : forall prim e xs rest body me, exists use : val -> Beh val, forall m ops d st o,
  head_value st e m = Some (macro xs rest body me) -> (rest = None \/ (length xs <= length ops)%nat) ->
  (runs prim e (VList (VSym m :: ops) d) st o <-> (y <~ call_vals prim xs rest body me ops ;; use y) st o).
Proof.
  intros prim e xs rest body me. exists (finish prim e). intros m ops d st o H L. exact (runs_macro prim e m ops d xs rest body me st o H L).
Qed.
Print Assumptions c63_operands.
(* when that value is a form that needs no further expansion it is evaluated in
   place of the call *)
Theorem c63_expansion : forall prim e m ops d xs rest body me st h t dd st1 o,
  head_value st e m = Some (macro xs rest body me) -> (rest = None \/ (length xs <= length ops)%nat) ->
  call_vals prim xs rest body me ops st (Ret (VList (h :: t) dd) st1) -> no_macros e st1 (VList (h :: t) dd) ->
  (t <> [] \/ match h with VSym _ | VList _ _ => True | _ => False end) ->
  (runs prim e (VList (VSym m :: ops) d) st o <-> runs prim e (VList (h :: t) dd) st1 o).
Proof.
  intros prim e m ops d xs rest body me st h t dd st1 o H L C N S.
  rewrite (runs_macro prim e m ops d xs rest body me st o H L).
  assert (AP : lim (fun n => after_expand (eval prim n) e (VList (h :: t) dd)) == runs prim e (VList (h :: t) dd)).
  { rewrite after_pair. destruct t; [|reflexivity]. destruct h; try reflexivity; destruct S as [S|S]; try congruence; destruct S. }
  assert (U : forall o1, call_vals prim xs rest body me ops st o1 -> o1 = Ret (VList (h :: t) dd) st1).
  { intros o1 K. apply (lim_expand prim xs rest body me ops L st) in K, C. destruct K as (n & E & NF), C as (n2 & E2 & _).
    assert (MX : monotone (fun n => expand_call (eval prim n) (pars xs rest) (isrest rest) body me ops)) by (intros p q K; apply m_expand_call; now apply hev).
    pose proof (MX n (Nat.max n n2) ltac:(lia) st) as [G|G]; [congruence|]. pose proof (MX n2 (Nat.max n n2) ltac:(lia) st) as [G2|G2]; congruence. }
  rewrite <- (AP st1 o), <- (finish_id prim e _ st1 o N). split.
  - intros [(a & s & K1 & K2)|(o1 & K1 & K2)]; apply U in K1; [injection K1 as -> ->; exact K2|subst; inversion K2].
  - intro K. left. exists (VList (h :: t) dd), st1. auto.
Qed.
Print Assumptions c63_expansion.
(* the macro that define-macro makes *)
Theorem c63_define : forall prim e m xs rest b body st o, plain e "define-macro" st -> s_cur st = root ->
  (rest <> None \/ length xs <> 1%nat) ->
  (runs prim e (form_ "define-macro" (VList (VSym m :: map VSym xs ++ match rest with Some r => [VSym r] | None => [] end)
       (match rest with Some _ => true | None => false end) :: b :: body)) st o <->
   o = Ret VNone (env_insert st e m (macro xs rest (b :: body) e) true)).
Proof.
  intros prim e m xs rest b body st o P R NE. rewrite (runs_special prim e "define-macro" FDefMacro _ st o P eq_refl).
  set (ps := map VSym xs ++ match rest with Some r => [VSym r] | None => [] end).
  assert (D : match ps with [VSym _] => true | [] => false | _ => match rest with Some _ => true | None => false end end = match rest with Some _ => true | None => false end).
  { unfold ps. destruct rest as [r|]; [destruct xs as [|x1 [|x2 xs]]; reflexivity|]. destruct NE as [NE|NE]; [congruence|].
    destruct xs as [|x1 [|x2 xs]]; try reflexivity. cbn in NE. congruence. }
  etransitivity; [apply (lim_ext _ (fun _ => ebind (modify (fun st => store_macro st e m (VMacro ps (match rest with Some _ => true | None => false end) (b :: body) e))) (fun _ => ret VNone)))|].
  { intros n s. cbn [special do_define_macro]. rewrite D. reflexivity. }
  unfold store_macro. etransitivity; [apply lim_bind; intros; apply mono_const|].
  etransitivity; [refine (andthen_cong _ _ _ _ (lim_modify _) (fun _ => lim_ret _) st o)|].
  rewrite andthen_effect. rewrite R. reflexivity.
Qed.
Print Assumptions c63_define.
(* ... or from a procedure; its environment is dropped *)
Theorem c63_define_from_procedure : forall prim e m f xs rest body pe st st1 o, plain e "define-macro" st ->
  runs prim e f st (Ret (closure xs rest body pe) st1) -> s_cur st1 = root ->
  (runs prim e (form_ "define-macro" [VSym m; f]) st o <-> o = Ret VNone (env_insert st1 e m (macro xs rest body e) true)).
Proof.
  intros prim e m f xs rest body pe st st1 o P Hf R. rewrite (runs_special prim e "define-macro" FDefMacro _ st o P eq_refl).
  cbn [special do_define_macro].
  etransitivity; [apply lim_bind; [apply mono_eval|]|].
  { intros v n n' L. destruct v; apply mle_refl. }
  rewrite (after_run prim e f _ st _ st1 o Hf).
  etransitivity; [apply (lim_ext _ (fun _ => ebind (modify (fun st => store_macro st e m (macro xs rest body e))) (fun _ => ret VNone)))|].
  { intros n s. unfold closure, macro. destruct rest; [reflexivity|]. rewrite app_nil_r. reflexivity. }
  unfold store_macro. etransitivity; [apply lim_bind; intros; apply mono_const|].
  etransitivity; [refine (andthen_cong _ _ _ _ (lim_modify _) (fun _ => lim_ret _) st1 o)|].
  rewrite andthen_effect. rewrite R. reflexivity.
Qed.
Print Assumptions c63_define_from_procedure.
(* and it is found by the code that follows at top level *)
Theorem c63_defined : forall st m v, s_frames st <> [] -> is_macro v = true -> head_value (env_insert st g_env m v true) g_env m = Some v.
Proof.
  intros st m v N M. unfold env_insert, search_entry. cbn [e_chain g_env search_chain].
  assert (G : forall f, assoc m f = Some v -> head_value (set_frame st 0 f) g_env m = Some v).
  { intros f E. unfold head_value, env_exist, search_entry. cbn [e_chain g_env firstn search_chain].
    replace (frame_at (set_frame st 0 f) 0) with f; [now rewrite E|]. unfold frame_at, set_frame. cbn [s_frames]. destruct (s_frames st); [congruence|reflexivity]. }
  destruct (assoc m (frame_at st 0)) as [w|] eqn:E; apply G.
  - rewrite assoc_put. now rewrite beq_refl.
  - cbn. now rewrite beq_refl.
Qed.
Print Assumptions c63_defined.
(* a single parameter is taken for a rest parameter *)
Theorem c156_single_parameter_refuted : forall prim e m x b body st o, plain e "define-macro" st -> s_cur st = root ->
  (runs prim e (form_ "define-macro" (VList [VSym m; VSym x] false :: b :: body)) st o <->
   o = Ret VNone (env_insert st e m (macro [] (Some x) (b :: body) e) true)).
Proof.
  intros prim e m x b body st o P R. rewrite (runs_special prim e "define-macro" FDefMacro _ st o P eq_refl).
  etransitivity; [apply (lim_ext _ (fun _ => ebind (modify (fun st => store_macro st e m (VMacro [VSym x] true (b :: body) e))) (fun _ => ret VNone))); reflexivity|].
  unfold store_macro. etransitivity; [apply lim_bind; intros; apply mono_const|].
  etransitivity; [refine (andthen_cong _ _ _ _ (lim_modify _) (fun _ => lim_ret _) st o)|].
  rewrite andthen_effect. rewrite R. reflexivity.
Qed.
Print Assumptions c156_single_parameter_refuted.
Example c63_ex_single : go "(define-macro (m x) (list 'quote x)) (m 5)" = Some (VList [VInt 5] false, []). Proof. vm_compute. reflexivity. Qed.
Example c63_ex : go "(define-macro (m x . r) (list 'list (list 'quote x) (list 'quote r))) (m (+ 1 2) a (b))"
  = Some (VList [VList [sym "+"; VInt 1; VInt 2] false; VList [sym "a"; VList [sym "b"] false] false] false, []). Proof. vm_compute. reflexivity. Qed.
Example c63_ex_hyp : plain g_env "define-macro" st0 /\ s_cur st0 = root /\ s_frames st0 <> []. Proof. split; [apply plain0; reflexivity|]. split; [reflexivity|discriminate]. Qed.
