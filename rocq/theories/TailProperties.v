(** C219.  Loops written as tail calls, and the C stack: every iteration adds a
    frame of eval_with_env, so that how long such a loop can run depends on the
    stack.  Branches of an if do not add frames. *)
From Coq Require Import String Lia.
From Verif Require Import Base ParseModel PrintModel EnvModel EvalModel EvalMono ApiModel LangSpec LangProofs LangProofs2 LangProperties
  EvalWitness TailModel TailProofs.
Local Open Scope string_scope.
Local Open Scope Z_scope.
Local Open Scope list_scope.

(** Counting frames gives the same outcomes as the evaluator of the other
    theorems, for every program. *)
Theorem c219_same_outcomes : forall prim e x st o, o <> OFuel ->
  ((exists n, eval prim n e x st = o) <-> (exists N G d, deep prim N G d e x st = o)).
Proof.
  intros prim e x st o NF. split.
  - intros (n & E). exists n, n, n. destruct (deep_above prim n n n n ltac:(lia) ltac:(lia) ltac:(lia) e x st) as [Q|Q]; congruence.
  - intros (N & G & d & E). exists (N + d * G)%nat. destruct (deep_below prim N G d e x st) as [Q|Q]; congruence.
Qed.
Print Assumptions c219_same_outcomes.

(** ** Counting down with a tail call *)
Definition loop_text : list Z := bs "(define (loop k) (if (= k 0) 0 (loop (- k 1))))".
Definition sub1 : val := VList [VSym (bs "-"); VSym (bs "k"); VInt 1] false.
Definition is0 : val := VList [VSym (bs "="); VSym (bs "k"); VInt 0] false.
Definition loop_body : val := VList [VSym (bs "if"); is0; VInt 0; VList [VSym (bs "loop"); sub1] false] false.
Definition loop_proc : val := VProc [VSym (bs "k")] false [loop_body] g_env.
Definition st (dy : dyn) (fs : list (list (list Z * val))) : state :=
  mkState (globals212 :: fs) [mkMod [(bs "loop", loop_proc)] [] [] None] 0 [] dy.
(* st dy []: what pscm_eval_string leaves after the definition *)
Definition dyL : dyn := mkDyn [] [] [] 3 [] [] [] [] 0 0.
Lemma loaded prim n : pscm_eval_string prim (S n) loop_text api212 = AOk (Some VNone) (mkApi (st dyL []) None None).
Proof.
  exact (eq_refl (AOk (Some VNone) (mkApi (st dyL []) None None)) <:
    pscm_eval_string prim (S n) loop_text api212 = AOk (Some VNone) (mkApi (st dyL []) None None)).
Qed.

Section Loop.
Variable prim : list Z -> list val -> pres.
Hypothesis HN : numeric prim.
Variable N : nat.
Variable dy : dyn.
Notation en j := (mkEnv [S j; 0]%nat None).
Notation st := (st dy).
Notation run g := (deep prim N (S (S (S g)))).
Notation fr g d := (one_frame prim N (run g d)).

Lemma step_func ev m e nm ar t d s : beq nm (bs "apply") = false -> beq nm (bs "map") = false -> beq nm (bs "map-in-order") = false -> is_callcc nm = false ->
  step prim ev m e (VList (VFunc nm ar :: t) d) s = (let! vs := eval_args ev e t in call_func prim ev m nm ar vs) s.
Proof. intros A B C D. unfold step. now rewrite A, B, C, D. Qed.
Lemma deep_S g d e x : run g (S d) e x = turn prim N (run g d) (fr g d (S (S g))) e x.
Proof. change (run g (S d) e x) with (fr g d (S (S (S g))) e x). apply one_frame_S. Qed.
Lemma upd_last {A} (l : list A) x y : upd (l ++ [x]) (length l) y = l ++ [y].
Proof. induction l as [|z l IH]; cbn [app length upd]; [reflexivity|]. now rewrite IH. Qed.
Lemma at_j fs j l : nth j fs [] = l -> frame_at (st fs) (S j) = l. Proof. intros <-. reflexivity. Qed.
Section At.
Variables (fs : list (list (list Z * val))) (j : nat) (z : Z).
Hypothesis J : nth j fs [] = [(bs "k", VInt z)].
Lemma look_k : env_search (st fs) (en j) (bs "k") = Some (VInt z).
Proof. unfold env_search, env_exist, search_entry. cbn [e_chain firstn search_chain]. rewrite (at_j _ _ _ J). reflexivity. Qed.
Lemma no_macro x : x <> bs "k" -> head_value (st fs) (en j) x = match assoc x globals212 with Some v => if is_macro v then Some v else None | None => None end.
Proof.
  intros NK. unfold head_value, env_exist, search_entry. cbn [e_chain firstn search_chain]. rewrite (at_j _ _ _ J). cbn [assoc].
  rewrite beq_neq by congruence. reflexivity.
Qed.
Lemma look_global x v : x <> bs "k" -> assoc x globals212 = Some v -> env_search (st fs) (en j) x = Some v.
Proof.
  intros NK A. unfold env_search, env_exist, search_entry. cbn [e_chain firstn search_chain]. rewrite (at_j _ _ _ J). cbn [assoc].
  rewrite beq_neq by congruence. change (frame_at (st fs) 0) with globals212. now rewrite A.
Qed.
Lemma look_loop : env_search (st fs) (en j) (bs "loop") = Some loop_proc.
Proof. unfold env_search, env_exist, search_entry. cbn [e_chain firstn search_chain]. rewrite (at_j _ _ _ J). reflexivity. Qed.

Lemma k_value g d : run g (S d) (en j) (VSym (bs "k")) (st fs) = Ret (VInt z) (st fs).
Proof.
  rewrite deep_S. cbn [turn]. unfold step. change (match bs "k" with c :: _ => c =? 58 | [] => false end) with false. cbn iota.
  unfold lookup, ebind, gets. rewrite look_k. reflexivity.
Qed.
Lemma int_value g d x e s : run g (S d) e (VInt x) s = Ret (VInt x) s.
Proof. reflexivity. Qed.
(* (= k 0) and (- k 1): two frames *)
Lemma op_value g d nm r c : (nm = bs "=" \/ nm = bs "-") -> prim nm [VInt z; VInt c] = PVal r [] ->
  run g (S (S d)) (en j) (VList [VSym nm; VSym (bs "k"); VInt c] false) (st fs) = Ret r (st fs).
Proof.
  intros NM Pr. rewrite deep_S.
  assert (F : form_of nm = None) by (destruct NM; subst; reflexivity).
  assert (A : assoc nm globals212 = Some (VFunc nm (-2))) by (destruct NM; subst; reflexivity).
  assert (NK : nm <> bs "k") by (destruct NM; subst; discriminate).
  assert (CF : forall m s, call_func prim (run g (S d)) m nm (-2) [VInt z; VInt c] s = Ret r s).
  { intros m s. unfold call_func. rewrite Pr. destruct NM; subst nm; unfold ebind, modify; cbn; now rewrite emit_nil. }
  cbn [turn]. unfold ebind at 1, gets at 1. rewrite (no_macro nm NK), A, F. cbn [is_macro].
  unfold lookup, ebind at 1, ebind at 1, gets at 1. rewrite (look_global nm _ NK A). cbn [ret]. rewrite one_frame_S. cbn [turn].
  rewrite step_func by (destruct NM; subst; reflexivity).
  cbn [eval_args]. unfold ebind. rewrite k_value, int_value. cbn [ret]. apply CF.
Qed.
End At.

(* calling the procedure: one more frame for its body *)
Lemma enter g d e x v fs fs' dt : run g d e x (st (fs ++ [[]])) = Ret (VInt v) (st (fs ++ [[]])) -> fs' = fs ++ [[(bs "k", VInt v)]] ->
  apply_proc (run g d) e [VSym (bs "k")] false [loop_body] g_env [x] (st fs) = run g d (en (length fs)) loop_body (st fs') /\
  step prim (run g d) N e (VList [loop_proc; x] dt) (st fs) = run g d (en (length fs)) loop_body (st fs').
Proof.
  intros X ->.
  assert (A : apply_proc (run g d) e [VSym (bs "k")] false [loop_body] g_env [x] (st fs) = run g d (en (length fs)) loop_body (st (fs ++ [[(bs "k", VInt v)]]))).
  { unfold apply_proc, alloc_frame, ebind at 1. cbn [make_env s_frames st s_mods s_cur s_proms s_dyn e_chain e_mod g_env has_rest andb bind_loop is_sym length app].
    change (mkState (globals212 :: fs ++ [[]]) [mkMod [(bs "loop", loop_proc)] [] [] None] 0 [] dy) with (st (fs ++ [[]])).
    unfold ebind. rewrite X. unfold insert, modify, env_insert, search_entry. cbn [e_chain firstn search_chain].
    assert (Fa : frame_at (st (fs ++ [[]])) (S (length fs)) = []) by (unfold frame_at, st; cbn [s_frames nth]; rewrite app_nth2, Nat.sub_diag by lia; reflexivity).
    rewrite Fa. cbn [assoc ret]. cbn [eval_body].
    match goal with |- context[set_frame ?a ?b ?c] => assert (SF : set_frame a b c = st (fs ++ [[(bs "k", VInt v)]])) end.
    { unfold set_frame, st. cbn [s_frames s_mods s_cur s_proms s_dyn upd]. now rewrite upd_last. }
    now rewrite SF. }
  split; [exact A|]. exact A.
Qed.
(* the test and the operand need two frames *)
Lemma op_fuel g d j fs nm z c : nth j fs [] = [(bs "k", VInt z)] -> (nm = bs "=" \/ nm = bs "-") -> (d <= 1)%nat ->
  run g d (en j) (VList [VSym nm; VSym (bs "k"); VInt c] false) (st fs) = OFuel.
Proof.
  intros J NM L. destruct d as [|[|d]]; [reflexivity| |lia]. rewrite deep_S.
  assert (F : form_of nm = None) by (destruct NM; subst; reflexivity).
  assert (A : assoc nm globals212 = Some (VFunc nm (-2))) by (destruct NM; subst; reflexivity).
  assert (NK : nm <> bs "k") by (destruct NM; subst; discriminate).
  cbn [turn]. unfold ebind at 1, gets at 1. rewrite (no_macro fs j z J nm NK), A, F. cbn [is_macro].
  unfold lookup, ebind at 1, ebind at 1, gets at 1. rewrite (look_global fs j z J nm _ NK A). cbn [ret]. rewrite one_frame_S. cbn [turn].
  rewrite step_func by (destruct NM; subst; reflexivity). reflexivity.
Qed.
Lemma body_run g : forall k d j fs, nth j fs [] = [(bs "k", VInt (Z.of_nat k))] -> small (Z.of_nat k) ->
  ((k + 3 <= d)%nat -> exists fs', run g d (en j) loop_body (st fs) = Ret (VInt 0) (st fs')) /\
  ((d < k + 3)%nat -> run g d (en j) loop_body (st fs) = OFuel).
Proof.
  induction k as [|k IH]; intros d j fs J Sm.
  - destruct d as [|d]; [split; [lia|reflexivity]|].
    assert (T : run g (S d) (en j) loop_body (st fs) = deep_if (run g d) (fr g d (S (S g))) (en j) [is0; VInt 0; VList [VSym (bs "loop"); sub1] false] (st fs)).
    { rewrite deep_S. unfold loop_body. cbn [turn]. unfold ebind at 1, gets at 1. rewrite (no_macro _ _ _ J) by discriminate. reflexivity. }
    rewrite T. unfold deep_if, ebind. split; intros L.
    + destruct d as [|[|d]]; [lia|lia|]. unfold is0.
      rewrite (op_value fs j _ J g d (bs "=") (VBool true) 0); [|now left|]. { cbn [truthy]. exists fs. reflexivity. }
      change (bs "=") with (rel_name REq). apply (n_rel _ HN). apply num_rel_ok.
    + unfold is0. rewrite (op_fuel g d j fs _ _ 0 J); auto; lia.
  - destruct d as [|d]; [split; [lia|reflexivity]|].
    assert (T : run g (S d) (en j) loop_body (st fs) = deep_if (run g d) (fr g d (S (S g))) (en j) [is0; VInt 0; VList [VSym (bs "loop"); sub1] false] (st fs)).
    { rewrite deep_S. unfold loop_body. cbn [turn]. unfold ebind at 1, gets at 1. rewrite (no_macro _ _ _ J) by discriminate. reflexivity. }
    rewrite T. destruct (le_lt_dec d 1) as [L1|L1].
    { split; [lia|]. intros _. unfold deep_if, ebind, is0. rewrite (op_fuel g d j fs _ _ 0 J); auto. }
    destruct d as [|[|d]]; [lia|lia|].
    set (fs1 := fs ++ [[(bs "k", VInt (Z.of_nat k))]]).
    assert (EQ : deep_if (run g (S (S d))) (fr g (S (S d)) (S (S g))) (en j) [is0; VInt 0; VList [VSym (bs "loop"); sub1] false] (st fs) =
      run g (S (S d)) (en (length fs)) loop_body (st fs1)).
    { unfold deep_if, ebind at 1, is0.
      rewrite (op_value fs j _ J g d (bs "=") (VBool false) 0); [|now left|].
      2:{ change (bs "=") with (rel_name REq). rewrite (n_rel _ HN REq _ _ _ (num_rel_ok REq _ _)). reflexivity. }
      cbn [truthy]. rewrite one_frame_S. cbn [turn]. unfold ebind at 1, gets at 1. rewrite (no_macro _ _ _ J) by discriminate.
      change (assoc (bs "loop") globals212) with (@None val). change (form_of (bs "loop")) with (@None form). cbn iota.
      unfold lookup, ebind at 1, ebind at 1, gets at 1. rewrite (look_loop _ _ _ J). cbn [ret]. rewrite one_frame_S.
      assert (Jl : (j < length fs)%nat). { destruct (le_lt_dec (length fs) j) as [G|G]; [|exact G]. rewrite nth_overflow in J by exact G. discriminate J. }
      assert (V : run g (S (S d)) (en j) sub1 (st (fs ++ [[]])) = Ret (VInt (Z.of_nat k)) (st (fs ++ [[]]))).
      { unfold sub1. apply (op_value (fs ++ [[]]) j (Z.of_nat (S k))).
        - rewrite app_nth1 by exact Jl. exact J.
        - now right.
        - change (bs "-") with (op_name OSub). replace (Z.of_nat k) with (arith OSub (Z.of_nat (S k)) 1) by (cbn [arith]; lia).
          apply (n_op _ HN). apply num_op_ok; [exact Sm|reflexivity|intros [Q|[Q|Q]]; discriminate Q|]. unfold small, arith in *. lia. }
      exact (proj2 (enter g (S (S d)) (en j) sub1 (Z.of_nat k) fs fs1 false V eq_refl)). }
    rewrite EQ. destruct (IH (S (S d)) (length fs) fs1) as (U & D).
    { unfold fs1. rewrite app_nth2, Nat.sub_diag by lia. reflexivity. }
    { unfold small in *. lia. }
    split; intros L; [apply U; lia|apply D; lia].
Qed.
Lemma loop_run g k d : small (Z.of_nat k) ->
  ((k + 4 <= d)%nat -> exists fs', run g d g_env (VList [VSym (bs "loop"); VInt (Z.of_nat k)] false) (st []) = Ret (VInt 0) (st fs')) /\
  ((d < k + 4)%nat -> run g d g_env (VList [VSym (bs "loop"); VInt (Z.of_nat k)] false) (st []) = OFuel).
Proof.
  intros Sm. destruct d as [|d]; [split; [lia|reflexivity]|].
  assert (T : run g (S d) g_env (VList [VSym (bs "loop"); VInt (Z.of_nat k)] false) (st []) =
    step prim (run g d) N g_env (VList [loop_proc; VInt (Z.of_nat k)] false) (st [])).
  { rewrite deep_S. cbn [turn]. change (form_of (bs "loop")) with (@None form). unfold ebind at 1, gets at 1.
    change (head_value (st []) g_env (bs "loop")) with (@None val). cbn iota. unfold lookup, ebind at 1, ebind at 1, gets at 1.
    change (env_search (st []) g_env (bs "loop")) with (Some loop_proc). cbn [ret]. rewrite one_frame_S. reflexivity. }
  rewrite T. destruct d as [|d].
  - split; [lia|]. intros _. reflexivity.
  - destruct (enter g (S d) g_env (VInt (Z.of_nat k)) (Z.of_nat k) [] [[(bs "k", VInt (Z.of_nat k))]] false) as (_ & E); [reflexivity|reflexivity|].
    rewrite E. destruct (body_run g k (S d) 0%nat [[(bs "k", VInt (Z.of_nat k))]] eq_refl Sm) as (U & D). cbn [length]. split; intros L; [apply U; lia|apply D; lia].
Qed.
End Loop.

(** The claim that a loop written as a tail call runs in a bounded C stack does not
    hold: counting down from k with one, a host that has just loaded the text of the
    loop gets the answer exactly when there is room for k + 4 frames of
    eval_with_env -- with more of it the answer is 0, and with less there is none,
    however many jumps within a frame are allowed. *)
Theorem c219_tail_loop_refuted : forall prim, numeric prim -> exists s,
  (forall n, pscm_eval_string prim (S n) (bs "(define (loop k) (if (= k 0) 0 (loop (- k 1))))") api212 = AOk (Some VNone) s) /\
  forall k d N, small (Z.of_nat k) ->
  let call := VList [sym "loop"; VInt (Z.of_nat k)] false in
  ((k + 4 <= d)%nat -> exists st', forall G, (3 <= G)%nat -> deep prim N G d g_env call (a_st s) = Ret (VInt 0) st') /\
  ((d < k + 4)%nat -> forall G, deep prim N G d g_env call (a_st s) = OFuel).
Proof.
  intros prim HN. exists (mkApi (st dyL []) None None). split; [intros n; apply loaded|]. intros k d N Sm. cbn zeta. split.
  - intros L. destruct (proj1 (loop_run prim HN N dyL 0 k d Sm) L) as (fs & E). exists (st dyL fs). intros G LG. cbn [a_st]. unfold sym.
    destruct (deep_mono prim N N 3 G d d ltac:(lia) LG ltac:(lia) g_env (VList [VSym (bs "loop"); VInt (Z.of_nat k)] false) (st dyL [])) as [Q|Q]; congruence.
  - intros L G. pose proof (proj2 (loop_run prim HN N dyL G k d Sm) L) as E.
    destruct (deep_mono prim N N G (S (S (S G))) d d ltac:(lia) ltac:(lia) ltac:(lia) g_env (VList [VSym (bs "loop"); VInt (Z.of_nat k)] false) (st dyL [])) as [Q|Q]; [exact Q|].
    cbn [a_st]. unfold sym. congruence.
Qed.
Print Assumptions c219_tail_loop_refuted.
(* no depth is enough for every count it could hold *)
Theorem c219_no_depth_refuted : forall prim, numeric prim -> forall d, small (Z.of_nat d) -> exists s k,
  (forall n, pscm_eval_string prim (S n) (bs "(define (loop k) (if (= k 0) 0 (loop (- k 1))))") api212 = AOk (Some VNone) s) /\
  (forall N G, deep prim N G d g_env (VList [sym "loop"; VInt k] false) (a_st s) = OFuel) /\
  exists n st', eval prim n g_env (VList [sym "loop"; VInt k] false) (a_st s) = Ret (VInt 0) st'.
Proof.
  intros prim HN d Sm. destruct (c219_tail_loop_refuted prim HN) as (s & L & H). exists s, (Z.of_nat d). split; [exact L|]. split.
  - intros N G. apply (proj2 (H d d N Sm)). lia.
  - destruct (proj1 (H d (d + 4)%nat 0%nat Sm) ltac:(lia)) as (st' & E). specialize (E 3%nat ltac:(lia)).
    destruct (proj2 (c219_same_outcomes prim g_env (VList [sym "loop"; VInt (Z.of_nat d)] false) (a_st s) (Ret (VInt 0) st') ltac:(discriminate))) as (n & Q); [eauto|]. eauto.
Qed.
Print Assumptions c219_no_depth_refuted.

(** What does hold: branches of an if, however deeply nested, stay in the frame. *)
Fixpoint ifs (tests : list val) (x : val) : val :=
  match tests with [] => x | t :: r => VList [sym "if"; t; VInt 1; ifs r x] false end.
Theorem c219_branches_partial : forall prim N G e s tests x v s',
  (forall p r b m, head_value s e (bs "if") <> Some (VMacro p r b m)) ->
  Forall (fun t => deep prim N G 1 e t s = Ret (VBool false) s) tests ->
  (forall g, (0 < g)%nat -> one_frame prim N (deep prim N G 1) g e x s = Ret v s') -> (length tests < G)%nat ->
  deep prim N G 2 e (ifs tests x) s = Ret v s'.
Proof.
  intros prim N G e s tests x v s' NM T X LG.
  change (deep prim N G 2 e (ifs tests x) s) with (one_frame prim N (deep prim N G 1) G e (ifs tests x) s).
  assert (K : forall g, (length tests < g)%nat -> one_frame prim N (deep prim N G 1) g e (ifs tests x) s = Ret v s'); [|now apply K].
  clear LG. induction T as [|t r Et _ IH]; intros g Lg; cbn [ifs length] in *; [now apply X|].
  destruct g as [|g]; [lia|]. rewrite one_frame_S. unfold sym. cbn [turn]. unfold ebind at 1, gets at 1.
  change (form_of (bs "if")) with (Some FIf).
  assert (E : deep_if (deep prim N G 1) (one_frame prim N (deep prim N G 1) g) e [t; VInt 1; ifs r x] s = Ret v s').
  { unfold deep_if, ebind. rewrite Et. cbn [truthy]. apply IH. lia. }
  destruct (head_value s e (bs "if")) as [[]|] eqn:Hv; try exact E. now elim (NM _ _ _ _ eq_refl).
Qed.
Print Assumptions c219_branches_partial.

(** ** Concrete cases *)
(* counting down from 20: 23 frames are not enough, 24 are *)
Example c219_runs : match pscm_eval_string prim212 1 loop_text api212 with
  | AOk _ s =>
      deep prim212 0 5 23 g_env (VList [sym "loop"; VInt 20] false) (a_st s) = OFuel /\
      match deep prim212 0 5 24 g_env (VList [sym "loop"; VInt 20] false) (a_st s) with Ret v _ => v = VInt 0 | _ => False end
  | _ => False end.
Proof. vm_compute. auto. Qed.
(* five hundred nested ifs in two frames *)
Example c219_ifs : match deep prim212 0 501 2 g_env (ifs (repeat (VBool false) 500) (VInt 7)) (a_st api212) with Ret v _ => v = VInt 7 | _ => False end.
Proof. vm_compute. reflexivity. Qed.
