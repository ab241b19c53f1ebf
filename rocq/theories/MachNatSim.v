(** The machine of MachModel follows the natural semantics of MachNat: the
    simulation. *)
From Coq Require Import String List ZArith Bool Lia.
From Verif Require Import MachModel MachSpec MachProofs MachProofs2 MachNat MachNatProofs.
Import ListNotations.
Local Open Scope string_scope.
Local Open Scope list_scope.
Local Open Scope nat_scope.

(** ** cells are not lost *)
Lemma new_list_mono vs : forall c, length c <= length (snd (new_list vs c)).
Proof. induction vs as [|v r IH]; intro c; cbn [new_list]; [auto|]. specialize (IH c). destruct (new_list r c) as [t c1]. cbn [snd] in *. rewrite app_length. cbn. lia. Qed.
Lemma tail_mono v c : length c <= length (snd (tail_of v c)).
Proof. destruct v as [[| | | |]| | | |]; cbn; rewrite ?app_length; cbn; lia. Qed.
Lemma grow_mono l v c l1 c1 : grow l v c = (l1, c1) -> length c <= length c1 /\ (Forall (fun a => a < length c) l -> Forall (fun a => a < length c1) l1).
Proof.
  unfold grow. intros [= <- <-].
  assert (L : length (match rev l with [] => c | t :: _ => set_nth c t (fun x => mkCell (c_data x) (Some (length c)) (c_dot x)) end ++ [mkCell v None false]) = S (length c)).
  { rewrite app_length. destruct (rev l); rewrite ?set_nth_len; cbn; lia. }
  rewrite L. split; [lia|]. intro F. apply Forall_app. split; [|constructor; [lia|constructor]]. eapply Forall_impl; [|exact F]. cbn. lia.
Qed.
Lemma prim_mono p vs c v c1 : primitive p vs c = Some (v, c1) -> length c <= length c1.
Proof.
  unfold primitive. destruct p; intro H; try discriminate H.
  - pose proof (new_list_mono vs c) as Q. inversion H as [E]. rewrite E in Q. exact Q.
  - destruct vs as [|a [|d [|? ?]]]; try discriminate H. pose proof (tail_mono d c) as Q. destruct (tail_of d c) as [n c2]. inversion H; subst. cbn in Q. rewrite app_length. cbn. lia.
  - destruct vs as [|[] [|? ?]]; try discriminate H. destruct (nth_error c a); inversion H; subst; lia.
  - destruct vs as [|[] [|? ?]]; try discriminate H. destruct (nth_error c a); inversion H; subst; lia.
  - destruct vs as [|[] [|? [|? ?]]]; try discriminate H. destruct (nth_error c a); inversion H; subst. rewrite set_nth_len. lia.
  - destruct vs as [|[] [|d [|? ?]]]; try discriminate H. pose proof (tail_mono d c) as Q. destruct (tail_of d c) as [n c2]. cbn in Q. destruct (nth_error c2 a); inversion H; subst. rewrite set_nth_len. lia.
  - destruct (all_ints vs); inversion H; subst; lia.
  - destruct (all_ints vs) as [[|? [|? [|? ?]]]|]; inversion H; subst; lia.
  - destruct (all_ints vs) as [[|? [|? [|? ?]]]|]; inversion H; subst; lia.
  - destruct vs as [|[[| | | |]| | | |] [|? ?]]; inversion H; subst; lia.
Qed.
Lemma bind_mono fe ex ps r vs m o : bind_all fe ex ps r vs m o -> forall m1, o = Some m1 -> length (cells m) <= length (cells m1).
Proof.
  induction 1 as [m|v vs m|y vs m l c N|p ps r v vs m o B IH|p ps m|p ps y m X|p ps y m X]; intros m1 Q; inversion Q; subst; auto.
  cbn. pose proof (new_list_mono vs (cells m)) as L. rewrite N in L. exact L.
Qed.
Lemma ev_mono d m t o m' : ev d m t o m' -> length (cells m) <= length (cells m').
Proof.
  induction 1; cbn [cells bind_var new_frame] in *; try lia;
    repeat match goal with
    | H : grow _ _ _ = _ |- _ => apply grow_mono in H; destruct H
    | H : primitive _ _ _ = Some _ |- _ => apply prim_mono in H
    | H : bind_all _ _ _ _ _ _ (Some _) |- _ => apply bind_mono with (1 := H) in H || (pose proof (bind_mono _ _ _ _ _ _ _ H _ eq_refl); clear H)
    end; cbn [cells new_frame] in *; try lia.
Qed.

(** ** running *)
Definition run_to (c : ctrl) (k0 : list frame) (h : store) cts cs w g n cr (k : list frame) (o : outcome) (m' : mem) (ea ei : option nat) : Prop :=
  match o with
  | RVal v => exists h' w' g' n' cr', steps (mkM c k0 h cts cs 0 w g n cr) (mkM (CRet v) k h' cts cs 0 w' g' n' cr') /\ agree h' m' /\ kept ea ei h h' /\ n <= n'
  | RStop (Thrown key args) => exists ex h' w' g' n' cr', steps (mkM c k0 h cts cs 0 w g n cr) (mkM (CThrow key args) (ex ++ k) h' cts cs 0 w' g' n' cr') /\
      agree h' m' /\ kept ea ei h h' /\ n <= n' /\ bodies ex = [] /\ (forall j, j < n -> unwind_to j (ex ++ k) = unwind_to j k)
  | RStop (Exit key) => exists s', steps (mkM c k0 h cts cs 0 w g n cr) s' /\ step s' = Uncaught key s' /\ agree (m_sto s') m' /\ m_conts s' = cts
  end.
Lemma kept_change ea ei ea' ei' h1 h2 h3 : kept ea ei h1 h2 -> kept ea' ei' h2 h3 ->
  (forall a, ea' = Some a -> ea = Some a \/ length (h_args h1) <= a) -> (forall a, ei' = Some a -> ei = Some a \/ length (h_iters h1) <= a) -> kept ea ei h1 h3.
Proof.
  intros (A & B & C & D) (A2 & B2 & C2 & D2) F G. split; [lia|]. split; [lia|]. split.
  - intros i x N H. apply C2; [|auto]. intro Q. destruct (F i (eq_sym Q)) as [E|E]; [congruence|]. assert (i < length (h_args h1)) by (apply nth_error_Some; congruence). lia.
  - intros i x N H. apply D2; [|auto]. intro Q. destruct (G i (eq_sym Q)) as [E|E]; [congruence|]. assert (i < length (h_iters h1)) by (apply nth_error_Some; congruence). lia.
Qed.
Lemma rt_gen c k0 h cts cs w g n cr c1 k1 h1 w1 g1 n1 cr1 k o m' ea ei ea' ei' :
  step (mkM c k0 h cts cs 0 w g n cr) = Next (mkM c1 k1 h1 cts cs 0 w1 g1 n1 cr1) -> kept ea ei h h1 -> n <= n1 ->
  (forall a, ea' = Some a -> ea = Some a \/ length (h_args h) <= a) -> (forall a, ei' = Some a -> ei = Some a \/ length (h_iters h) <= a) ->
  run_to c1 k1 h1 cts cs w1 g1 n1 cr1 k o m' ea' ei' -> run_to c k0 h cts cs w g n cr k o m' ea ei.
Proof.
  intros S K N F G R. destruct o as [v|[key args|key]].
  - destruct R as (h' & w' & g' & n' & cr' & S2 & A & K2 & N2). exists h', w', g', n', cr'. split; [eapply steps_more; eauto|]. split; [exact A|]. split; [eapply kept_change; eauto|lia].
  - destruct R as (ex & h' & w' & g' & n' & cr' & S2 & A & K2 & N2 & B & U). exists ex, h', w', g', n', cr'. split; [eapply steps_more; eauto|]. split; [exact A|].
    split; [eapply kept_change; eauto|]. split; [lia|]. split; [exact B|]. intros j J. apply U. lia.
  - destruct R as (s' & S2 & R). exists s'. split; [eapply steps_more; eauto|exact R].
Qed.
Lemma rt_step c k0 h cts cs w g n cr c1 k1 h1 w1 g1 n1 cr1 k o m' ea ei :
  step (mkM c k0 h cts cs 0 w g n cr) = Next (mkM c1 k1 h1 cts cs 0 w1 g1 n1 cr1) -> kept ea ei h h1 -> n <= n1 ->
  run_to c1 k1 h1 cts cs w1 g1 n1 cr1 k o m' ea ei -> run_to c k0 h cts cs w g n cr k o m' ea ei.
Proof. intros S K N R. eapply rt_gen; eauto. Qed.
Lemma rt_weak c k0 h cts cs w g n cr k o m' ea ei : run_to c k0 h cts cs w g n cr k o m' None None -> run_to c k0 h cts cs w g n cr k o m' ea ei.
Proof.
  destruct o as [v|[key args|key]].
  - intros (h' & w' & g' & n' & cr' & S2 & A & K2 & N2). exists h', w', g', n', cr'. split; [exact S2|]. split; [exact A|]. split; [apply kept_weak; exact K2|exact N2].
  - intros (ex & h' & w' & g' & n' & cr' & S2 & A & K2 & N2 & U). exists ex, h', w', g', n', cr'. split; [exact S2|]. split; [exact A|]. split; [apply kept_weak; exact K2|]. auto.
  - auto.
Qed.
Lemma rt_ret v k h cts cs w g n cr m ea ei : agree h m -> run_to (CRet v) k h cts cs w g n cr k (RVal v) m ea ei.
Proof. intro A. exists h, w, g, n, cr. split; [apply steps_refl|]. split; [exact A|]. split; [apply kept_refl|lia]. Qed.
Lemma rt_throw key a k h cts cs w g n cr m ea ei : agree h m -> run_to (CThrow key a) k h cts cs w g n cr k (RStop (Thrown key a)) m ea ei.
Proof. intro A. exists [], h, w, g, n, cr. split; [apply steps_refl|]. split; [exact A|]. split; [apply kept_refl|]. split; [lia|]. split; reflexivity. Qed.
Definition plain (F : frame) : Prop := match F with FCatch _ _ _ _ _ => False | _ => True end.
Lemma plain_unwind F j k : plain F -> unwind_to j (F :: k) = unwind_to j k.
Proof. destruct F; cbn; intros []; reflexivity. Qed.
Lemma bodies_app a b : bodies (a ++ b) = bodies a ++ bodies b.
Proof. induction a as [|f r IH]; [reflexivity|]. destruct f; cbn [bodies app]; try exact IH. destruct body; cbn [app]; rewrite IH; reflexivity. Qed.
Lemma plain_bodies F : plain F -> bodies [F] = [].
Proof. destruct F; cbn; intros []; reflexivity. Qed.
Lemma rt_thr F c h cts cs w g n cr k q m' ea ei : plain F -> run_to c (F :: k) h cts cs w g n cr (F :: k) (RStop q) m' None None ->
  run_to c (F :: k) h cts cs w g n cr k (RStop q) m' ea ei.
Proof.
  intros P. destruct q as [key a|key]; [|auto].
  intros (ex & h' & w' & g' & n' & cr' & S2 & A & K2 & N2 & B & U). exists (ex ++ [F]), h', w', g', n', cr'. rewrite <- app_assoc. cbn [app].
  split; [exact S2|]. split; [exact A|]. split; [apply kept_weak; exact K2|]. split; [exact N2|]. split; [rewrite bodies_app, B, plain_bodies by exact P; reflexivity|].
  intros j J. rewrite U by exact J. apply plain_unwind. exact P.
Qed.
Lemma rt_bind c k0 h cts cs w g n cr k1 v m1 k o m' ea ei : run_to c k0 h cts cs w g n cr k1 (RVal v) m1 None None ->
  (forall h1 w1 g1 n1 cr1, agree h1 m1 -> kept None None h h1 -> n <= n1 -> run_to (CRet v) k1 h1 cts cs w1 g1 n1 cr1 k o m' ea ei) ->
  run_to c k0 h cts cs w g n cr k o m' ea ei.
Proof.
  intros (h1 & w1 & g1 & n1 & cr1 & S1 & A1 & K1 & N1) R. specialize (R h1 w1 g1 n1 cr1 A1 K1 N1). destruct o as [u|[key args|key]].
  - destruct R as (h' & w' & g' & n' & cr' & S2 & A & K2 & N2). exists h', w', g', n', cr'. split; [eapply steps_trans; eauto|]. split; [exact A|].
    split; [eapply kept_trans; [apply kept_weak; exact K1|exact K2]|lia].
  - destruct R as (ex & h' & w' & g' & n' & cr' & S2 & A & K2 & N2 & B & U). exists ex, h', w', g', n', cr'. split; [eapply steps_trans; eauto|]. split; [exact A|].
    split; [eapply kept_trans; [apply kept_weak; exact K1|exact K2]|]. split; [lia|]. split; [exact B|]. intros j J. apply U. lia.
  - destruct R as (s' & S2 & R). exists s'. split; [eapply steps_trans; eauto|exact R].
Qed.
(** the catches that are active: their ids and tags, innermost first *)
Definition ctx (cs : list nat) (k : list frame) (n : nat) (d : list mv) : Prop :=
  Forall2 (fun id t => id < n /\ exists h w r, unwind_to id k = Some (t, h, w, r) /\ In (FCatch id t h true w) k) cs d.
Lemma ctx_len cs k n d : ctx cs k n d -> length cs = length d.
Proof. unfold ctx. induction 1; cbn; auto. Qed.
Lemma ctx_impl cs k n d ex n' : ctx cs k n d -> n <= n' -> (forall j, j < n -> unwind_to j (ex ++ k) = unwind_to j k) -> ctx cs (ex ++ k) n' d.
Proof.
  intros C N U. unfold ctx in *. induction C as [|id t cs d (L & h & w & r & H & I1) C IH]; constructor; auto. split; [lia|]. rewrite U by exact L. exists h, w, r.
  split; [exact H|]. apply in_or_app. auto.
Qed.
Lemma ctx_more cs k n d n' : ctx cs k n d -> n <= n' -> ctx cs k n' d.
Proof. intros C N. apply (ctx_impl cs k n d [] n' C N). reflexivity. Qed.
Lemma ctx_push F cs k n d n' : plain F -> ctx cs k n d -> n <= n' -> ctx cs (F :: k) n' d.
Proof. intros P C N. apply (ctx_impl cs k n d [F] n' C N). intros j _. apply plain_unwind. exact P. Qed.
Lemma ctx_catch cs k n d t h w : ctx cs k n d -> ctx (n :: cs) (FCatch n t h true w :: k) (S n) (t :: d).
Proof.
  intro C. constructor.
  - split; [lia|]. exists h, w, k. cbn [unwind_to]. rewrite Nat.eqb_refl. split; [reflexivity|now left].
  - apply (ctx_impl cs k n d [FCatch n t h true w] (S n) C); [lia|]. intros j J. cbn [unwind_to app]. destruct (Nat.eqb_spec n j); [lia|reflexivity].
Qed.
Lemma catches_match t key : good_tag t \/ True -> (catches t key <-> tag_match t key = true).
Proof.
  intros _. unfold catches. split.
  - intros [E | E]; subst; [reflexivity|]. apply String.eqb_refl.
  - destruct t as [a| | | |]; intro H; try discriminate H. destruct a as [z|b|x| |]; try discriminate H; [destruct b; [now left|discriminate H]|].
    right. apply String.eqb_eq in H. congruence.
Qed.
Lemma ctx_none cs k n d key : ctx cs k n d -> (forall t, In t d -> ~ catches t key) -> find_catch cs k key = NotFound.
Proof.
  induction 1 as [|id t cs d (L & h & w & r & U & _) C IH]; intro N; [reflexivity|]. cbn [find_catch]. rewrite U.
  destruct (tag_match t key) eqn:T; [destruct (N t (or_introl eq_refl)); apply catches_match; auto|]. apply IH. intros t' I1. apply N. now right.
Qed.

(** ** tasks and controls *)
Inductive ctrl_is (h : store) : task -> ctrl -> option nat -> option nat -> Prop :=
| ci_eval : forall e x, ctrl_is h (TEval e x) (CEval e x) None None
| ci_body : forall e es, ctrl_is h (TBody e es) (CBody e es) None None
| ci_call : forall e f args, ctrl_is h (TCall e f args) (CApp e f args) None None
| ci_params : forall e fe ps r args b, ctrl_is h (TParams e fe ps r args b) (CBindLoop e fe ps r args b) None None
| ci_rest : forall e fe y l args b, Forall (fun a => a < length (h_cells h)) l -> ctrl_is h (TRest e fe y l args b) (CRestLoop e fe y (head_of l) (last_of l) args b) None None
| ci_ops : forall e p vs args hd tl, args_are (h_args h) hd tl vs -> ctrl_is h (TOperands e p vs args) (CArgsLoop e p hd tl args) tl None
| ci_prim : forall p vs, ctrl_is h (TPrim p vs) (CFunc p vs) None None
| ci_call1 : forall f v, ctrl_is h (TCall1 f v) (CApp1 f v) None None
| ci_vals : forall f vs, ctrl_is h (TCallValues f vs) (CVals f vs) None None
| ci_map : forall e f p l i, nth_error (h_iters h) i = Some (Some p) -> Forall (fun a => a < length (h_cells h)) l ->
    ctrl_is h (TMap e f p l) (CMapLoop e f i (head_of l) (last_of l)) None (Some i)
| ci_each : forall e f p, ctrl_is h (TEach e f p) (CEachLoop e f p) None None.
Definition sim_at (d : list mv) (m : mem) (t : task) (o : outcome) (m' : mem) : Prop :=
  forall h c ea ei k cts cs w g n cr, ctrl_is h t c ea ei -> agree h m -> ctx cs k n d -> run_to c k h cts cs w g n cr k o m' ea ei.

Lemma cells_agree h m : agree h m -> h_cells h = cells m.
Proof. intros (C & _). exact C. Qed.
Lemma agree_eta h m : agree h m -> agree h (mkMem (cells m) (frames m)).
Proof. destruct m. auto. Qed.
Lemma is_closure_iff f : procedure f -> is_closure f = true.
Proof. destruct f; intros []; reflexivity. Qed.
Lemma closure_proc f : is_closure f = true -> procedure f.
Proof. destruct f; intro H; try discriminate H; exact Logic.I. Qed.
Lemma fun_iff f : function f -> is_fun f = true.
Proof. destruct f; intros []; reflexivity. Qed.
Lemma not_fun f : ~ function f -> is_fun f = false.
Proof. destruct f; intro H; try reflexivity; destruct (H Logic.I). Qed.
Lemma tag_iff t : good_tag t -> tag_ok t = true.
Proof. intros [E | (x & E)]; subst; reflexivity. Qed.
Lemma tag_good t : tag_ok t = true -> good_tag t.
Proof. destruct t as [a| | | |]; intro H; try discriminate H. destruct a as [z|b|x| |]; try discriminate H; [destruct b; [now left|discriminate H]|right; eauto]. Qed.
Lemma kept_arg h h1 i x : kept None None h h1 -> nth_error (h_args h) i = Some x -> nth_error (h_args h1) i = Some x.
Proof. intros (_ & _ & K & _) H. apply K; [discriminate|exact H]. Qed.
Lemma kept_iter h h1 i x : kept None None h h1 -> nth_error (h_iters h) i = Some x -> nth_error (h_iters h1) i = Some x.
Proof. intros (_ & _ & _ & K) H. apply K; [discriminate|exact H]. Qed.

Lemma rt_back c k0 h cts cs w g n cr c1 k1 k o m' ea ei : step (mkM c k0 h cts cs 0 w g n cr) = Next (mkM c1 k1 h cts cs 0 w g n cr) ->
  match c with CRet _ | CThrow _ _ => False | _ => True end -> run_to c k0 h cts cs w g n cr k o m' ea ei -> run_to c1 k1 h cts cs w g n cr k o m' ea ei.
Proof.
  intros S N R. destruct o as [v|[key args|key]].
  - destruct R as (h' & w' & g' & n' & cr' & S2 & R). exists h', w', g', n', cr'. split; [|exact R].
    inversion S2 as [s E|s s1 s2 S3 S4]; subst; [destruct N|]. rewrite S in S3. inversion S3; subst. exact S4.
  - destruct R as (ex & h' & w' & g' & n' & cr' & S2 & R). exists ex, h', w', g', n', cr'. split; [|exact R].
    inversion S2 as [s E|s s1 s2 S3 S4]; subst; [destruct N|]. rewrite S in S3. inversion S3; subst. exact S4.
  - destruct R as (s' & S2 & E & R). exists s'. split; [|auto].
    inversion S2 as [s E2|s s1 s2 S3 S4]; subst; [rewrite S in E; discriminate E|]. rewrite S in S3. inversion S3; subst. exact S4.
Qed.
Lemma func_simple p vs k h cts cs w g n cr : p <> PCatch -> p <> PThrow ->
  step (mkM (CFunc p vs) k h cts cs 0 w g n cr) = match simple_prim p vs h with Some (v, h1) => Next (mkM (CRet v) k h1 cts cs 0 w g n cr) | None => Next (mkM (CThrow "error" []) k h cts cs 0 w g n cr) end.
Proof. intros A B. destruct p; try congruence; reflexivity. Qed.
Lemma cells_lt h m h1 m1 (l : list nat) : agree h m -> agree h1 m1 -> length (cells m) <= length (cells m1) -> Forall (fun a => a < length (h_cells h)) l -> Forall (fun a => a < length (cells m1)) l.
Proof. intros A B L F. rewrite (cells_agree _ _ A) in F. eapply Forall_impl; [|exact F]. cbn. lia. Qed.
Lemma link_arg_args tl n h : h_args (link_arg tl n h) = match tl with None => h_args h | Some t => match nth_error (h_args h) t with Some (v, _) => upd (h_args h) t (v, Some n) | None => h_args h end end.
Proof. destruct tl as [t|]; [|reflexivity]. cbn. destruct (nth_error (h_args h) t) as [[v q]|]; reflexivity. Qed.
Lemma arg_agree h m v tl : agree h m -> exists h1, alloc_arg v h = (length (h_args h), h1) /\ agree (link_arg tl (length (h_args h)) h1) m /\
  kept tl None h (link_arg tl (length (h_args h)) h1) /\ h_args h1 = h_args h ++ [(v, None)].
Proof.
  intro A. unfold alloc_arg. eexists. split; [reflexivity|]. split; [|split; [|reflexivity]].
  - destruct A as (C & F & Old). unfold link_arg. destruct tl as [t|]; [|split; [exact C|split; [exact F|exact Old]]].
    cbn [h_args]. destruct (nth_error (h_args h ++ [(v, None)]) t) as [[u q]|]; (split; [exact C|split; [exact F|exact Old]]).
  - unfold kept. rewrite link_arg_args. cbn [h_args].
    assert (E : h_iters (link_arg tl (length (h_args h)) (mkStore (h_cells h) (h_args h ++ [(v, None)]) (h_envs h) (h_iters h))) = h_iters h).
    { unfold link_arg. destruct tl as [t|]; [|reflexivity]. cbn [h_args]. destruct (nth_error (h_args h ++ [(v, None)]) t) as [[u q]|]; reflexivity. }
    rewrite E. split.
    { destruct tl as [t|]; [destruct (nth_error (h_args h ++ [(v, None)]) t) as [[u q]|]|]; rewrite ?upd_len, ?app_length; lia. }
    split; [lia|]. split; [|auto]. intros i x N H. assert (L : i < length (h_args h)) by (apply nth_error_Some; congruence).
    destruct tl as [t|]; [destruct (nth_error (h_args h ++ [(v, None)]) t) as [[u q]|]|]; rewrite ?nth_upd.
    + destruct (Nat.eqb_spec i t); [congruence|]. rewrite nth_error_app1 by exact L. exact H.
    + rewrite nth_error_app1 by exact L. exact H.
    + rewrite nth_error_app1 by exact L. exact H.
Qed.
Ltac cx := cbn [m_next m_catch]; first [assumption | eapply ctx_more; [eassumption|lia] | eapply ctx_push; [exact Logic.I|eassumption|lia]].
Ltac st := eapply rt_step; [reflexivity|apply kept_refl|apply Nat.le_refl|]; cbn [m_sto m_conts m_catch m_under m_wind m_guards m_next m_crossed].
Ltac ci := match goal with H : ctrl_is _ _ _ _ _ |- _ => inversion H; subst; clear H end.
Ltac sub IH := apply IH; [constructor|assumption|cx].
Ltac thr IH := eapply rt_thr; [exact Logic.I|]; sub IH.
Ltac bnd IH := eapply rt_bind; [sub IH|]; let h1 := fresh "h1" in let w1 := fresh "w1" in let g1 := fresh "g1" in let n1 := fresh "n1" in let cr1 := fresh "cr1" in
  let A1 := fresh "A1" in let K1 := fresh "K1" in let N1 := fresh "N1" in intros h1 w1 g1 n1 cr1 A1 K1 N1; cbn [m_next] in N1; cbn [m_sto] in K1.

Ltac ff := match goal with Q : Forall _ ?l |- _ => rename Q into FF | Q : args_are _ _ _ _ |- _ => rename Q into FF end.
Lemma set_iter_agree i p h m : agree h m -> agree (set_iter i p h) m.
Proof. intros (C & F & Old). split; [exact C|split; [exact F|exact Old]]. Qed.
Lemma set_iter_kept i p h : kept None (Some i) h (set_iter i p h).
Proof.
  unfold kept, set_iter. cbn [h_args h_iters]. rewrite upd_len. split; [lia|]. split; [lia|]. split; [auto|].
  intros j x N H. rewrite nth_upd. destruct (Nat.eqb_spec j i); [congruence|exact H].
Qed.
Lemma iter_agree p h m : agree h m -> exists h1, alloc_iter p h = (length (h_iters h), h1) /\ agree h1 m /\ kept None None h h1 /\ nth_error (h_iters h1) (length (h_iters h)) = Some (Some p).
Proof.
  intros (C & F & Old). unfold alloc_iter. eexists. split; [reflexivity|]. split; [split; [exact C|split; [exact F|exact Old]]|].
  split; [|cbn [h_iters]; rewrite nth_error_app2, Nat.sub_diag by lia; reflexivity].
  unfold kept. cbn [h_args h_iters]. rewrite app_length. split; [lia|]. split; [lia|]. split; [auto|]. intros j x _ H. rewrite nth_error_app1; [exact H|]. apply nth_error_Some. congruence.
Qed.
Lemma closures f1 f2 f3 : procedure f1 -> procedure f2 -> procedure f3 -> is_closure f1 && is_closure f2 && is_closure f3 = true.
Proof. intros A B C. rewrite !is_closure_iff by assumption. reflexivity. Qed.
Lemma not_closures f1 f2 f3 : ~ (procedure f1 /\ procedure f2 /\ procedure f3) -> is_closure f1 && is_closure f2 && is_closure f3 = false.
Proof.
  intro N. destruct (is_closure f1) eqn:A; [|reflexivity]. destruct (is_closure f2) eqn:B; [|reflexivity]. destruct (is_closure f3) eqn:C; [|reflexivity].
  destruct N. auto using closure_proc.
Qed.
Lemma each_one g e l k h cts cs w gu n cr : takes_one g ->
  step (mkM (CRet g) (FEach1 e l :: k) h cts cs 0 w gu n cr) = Next (mkM (CEval e l) (FEach2 e g :: k) h cts cs 0 w gu n cr).
Proof.
  destruct g as [a|a|ps r b pe|p|j]; cbn [takes_one]; intro T; try (now destruct T).
  - destruct r as [y|]; destruct ps as [|p1 [|p2 ps]]; cbn [length] in T; try lia; reflexivity.
  - destruct p; try (now destruct T); reflexivity.
Qed.
Lemma each_none g e l k h cts cs w gu n cr : takes_none g ->
  step (mkM (CRet g) (FEach1 e l :: k) h cts cs 0 w gu n cr) = Next (mkM (CRet (MA ANone)) k h cts cs 0 w gu n cr).
Proof. destruct g as [a|a|[|q ps] [y|] b pe|p|j]; cbn [takes_none]; intro T; first [now destruct T | reflexivity]. Qed.
Lemma each_bad g e l k h cts cs w gu n cr : ~ takes_none g -> ~ takes_one g ->
  step (mkM (CRet g) (FEach1 e l :: k) h cts cs 0 w gu n cr) = Next (mkM (CThrow "error" []) k h cts cs 0 w gu n cr).
Proof.
  destruct g as [a|a|ps r b pe|p|j]; cbn [takes_none takes_one]; intros T U; try reflexivity.
  - destruct r as [y|]; destruct ps as [|p1 [|p2 ps]]; cbn [length] in *; try reflexivity; try (now destruct T); try (now destruct U).
  - destruct p; try reflexivity; destruct (U Logic.I).
Qed.

Lemma catch_step t f h r kk h0 cts cs w0 g0 n0 cr0 d : ctx cs kk n0 d -> length d < 100 -> good_tag t -> procedure f -> procedure h ->
  step (mkM (CFunc PCatch (t :: f :: h :: r)) kk h0 cts cs 0 w0 g0 n0 cr0) = Next (mkM (CApp 0 f []) (FCatch n0 t h true w0 :: kk) h0 cts (n0 :: cs) 0 w0 g0 (S n0) cr0).
Proof.
  intros CX L0 T F G. apply ctx_len in CX. cbn [step m_ctrl m_stack func_step m_catch m_under]. rewrite (tag_iff t), !is_closure_iff by assumption. cbn [andb].
  destruct (100 <=? length cs) eqn:L; [apply Nat.leb_le in L; lia|reflexivity].
Qed.
Lemma sim_all d m t o m' : ev d m t o m' -> sim_at d m t o m'.
Proof.
  induction 1; intros h0 c0 ea ei kk cts cs w0 g0 n0 cr0 CI AG CX; ci.
  - st. apply rt_ret; assumption.
  - eapply rt_step; [cbn [step m_ctrl eval_step m_sto]; rewrite (get_bound _ _ _ _ _ _ AG H); reflexivity|apply kept_refl|apply Nat.le_refl|]. apply rt_ret; assumption.
  - eapply rt_step; [cbn [step m_ctrl eval_step m_sto]; rewrite (proj1 (get_unbound _ _ _ _ AG H)); reflexivity|apply kept_refl|apply Nat.le_refl|]. apply rt_throw; assumption.
  - st. thr IHev.
  - st. bnd IHev1. eapply rt_step; [|apply kept_refl|apply Nat.le_refl|sub IHev2]. cbn [step m_ctrl m_stack ret_step]. destruct v as [a| | | |]; try reflexivity. destruct a as [z|b|x| |]; try reflexivity. destruct b; [reflexivity|congruence].
  - st. bnd IHev1. st. sub IHev2.
  - st. bnd IHev. st. apply rt_ret; assumption.
  - st. thr IHev.
  - st. bnd IHev. destruct (put_agree _ _ o x v A1) as (A2 & P1 & P2).
    eapply rt_step; [cbn [step m_ctrl m_stack ret_step m_sto]; rewrite (set_agree _ _ _ _ _ _ _ A1 H0); reflexivity|apply kept_same; assumption|apply Nat.le_refl|]. apply rt_ret; assumption.
  - st. bnd IHev. destruct (put_agree _ _ e x v A1) as (A2 & P1 & P2). pose proof (proj2 (get_unbound _ _ _ _ A1 H0)) as O1.
    eapply rt_step; [cbn [step m_ctrl m_stack ret_step m_sto]; unfold env_set; rewrite O1; reflexivity|apply kept_same; assumption|apply Nat.le_refl|]. apply rt_ret; assumption.
  - st. thr IHev.
  - st. bnd IHev. destruct (put_agree _ _ e x v A1) as (A2 & P1 & P2). eapply rt_step; [reflexivity|apply kept_same; assumption|apply Nat.le_refl|]. apply rt_ret; assumption.
  - st. apply rt_ret; assumption.
  - st. apply rt_ret; assumption.
  - st. sub IHev.
  - st. thr IHev.
  - st. bnd IHev1. st. sub IHev2.
  (* sequences *)
  - st. destruct o as [v|q]; [|thr IHev]. bnd IHev. st. apply rt_ret; assumption.
  - st. thr IHev.
  - st. bnd IHev1. st. apply rt_back with (c := CBody e (y :: es)) (k0 := kk); [reflexivity|exact Logic.I|]. sub IHev2.
  (* calls *)
  - eapply rt_step; [|apply kept_refl|apply Nat.le_refl|apply rt_throw; assumption].
    destruct f as [a| | | |j]; try reflexivity; [destruct (H Logic.I)|destruct (H Logic.I)|destruct (H0 j eq_refl)].
  - st. apply IHev; [apply ci_ops; constructor|assumption|cx].
  - destruct (env_agree _ _ pe AG H) as (h1 & E & A1 & B1 & B2).
    eapply rt_step; [cbn [step m_ctrl app_step apply_step m_sto]; unfold apply_step; cbn [m_sto]; rewrite E; reflexivity|apply kept_same; assumption|apply Nat.le_refl|].
    apply IHev; [apply (ci_rest h1 e (length (frames m)) y []); constructor|assumption|cx].
  - destruct (env_agree _ _ pe AG H) as (h1 & E & A1 & B1 & B2).
    eapply rt_step; [|apply (kept_same _ _ _ h1); assumption|apply Nat.le_refl|sub IHev].
    cbn [step m_ctrl app_step apply_step m_sto]; unfold apply_step; cbn [m_sto]; rewrite E.
    destruct H0 as [N | N]; [destruct ps as [|p ps]; [congruence|reflexivity]|subst r; destruct ps; reflexivity].
  - st. sub IHev.
  - st. apply rt_throw; assumption.
  - st. apply rt_throw; assumption.
  - st. sub IHev.
  - st. thr IHev.
  - st. bnd IHev1. destruct (put_agree _ _ fe p v A1) as (A2 & P1 & P2).
    eapply rt_step; [|apply (kept_same _ _ _ (env_put fe p v h1)); assumption|apply Nat.le_refl|sub IHev2].
    cbn [step m_ctrl m_stack ret_step m_sto].
    destruct H0 as [N | N]; [destruct ps as [|q ps]; [congruence|reflexivity]|subst r; destruct ps; reflexivity].
  - st. bnd IHev1. destruct (put_agree _ _ fe p v A1) as (A2 & P1 & P2).
    eapply rt_step; [reflexivity|apply kept_same; assumption|apply Nat.le_refl|].
    apply IHev2; [apply (ci_rest _ e fe y []); constructor|assumption|cx].
  - destruct (put_agree _ _ fe y (list_of l) AG) as (A2 & P1 & P2).
    eapply rt_step; [|apply (kept_same _ _ _ (env_put fe y (list_of l) h0)); assumption|apply Nat.le_refl|sub IHev].
    cbn [step m_ctrl m_stack m_sto]. rewrite as_list_of. reflexivity.
  - st. thr IHev.
  - ff. st. bnd IHev1. pose proof (cells_lt _ _ _ _ _ AG A1 (ev_mono _ _ _ _ _ H) FF) as FL.
    destruct (grow_agree _ _ _ _ _ _ A1 H0 FL) as (nn & h2 & E & El & A2 & B1 & B2 & Lc & En).
    destruct (grow_mono _ _ _ _ _ H0) as (_ & FL2). specialize (FL2 FL).
    eapply rt_step; [|apply (kept_same _ _ _ (link_cell (last_of l) nn h2)); assumption|apply Nat.le_refl|
      apply IHev2; [apply (ci_rest _ e fe y l1); rewrite (cells_agree _ _ A2); exact FL2|exact A2|cx]].
    cbn [step m_ctrl m_stack ret_step m_sto]. rewrite E, El, head_snoc, last_snoc. reflexivity.
  - ff. eapply rt_step; [|apply kept_refl|apply Nat.le_refl|apply rt_weak; sub IHev].
    cbn [step m_ctrl m_stack m_sto]. rewrite (aa_values _ _ _ _ FF). reflexivity.
  - st. thr IHev.
  - ff. st. bnd IHev1. destruct (arg_agree h1 _ v ea A1) as (h2 & E & A2 & K2 & Ea).
    pose proof (aa_snoc _ _ _ _ v (aa_kept _ _ _ _ _ (fun i x => kept_arg _ _ i x K1) FF)) as AA. rewrite <- Ea, <- link_arg_args in AA.
    eapply rt_gen; [cbn [step m_ctrl m_stack ret_step m_sto]; rewrite E; reflexivity|exact K2|apply Nat.le_refl| | |
      apply IHev2; [apply ci_ops; exact AA|exact A2|cx]].
    + intros a0 [= <-]. right. lia.
    + intros a0 Q. discriminate Q.
  (* primitives *)
  - pose proof (prim_agree p vs h0 m AG) as P. rewrite H in P.
    assert (N1 : p <> PCatch) by (intros ->; discriminate H). assert (N2 : p <> PThrow) by (intros ->; discriminate H).
    destruct (P N1 N2) as (h1 & E & A1 & B1 & B2).
    eapply rt_step; [rewrite func_simple, E by assumption; reflexivity|apply kept_same; assumption|apply Nat.le_refl|]. apply rt_ret. exact A1.
  - pose proof (prim_agree p vs h0 m AG H H0) as P. rewrite H1 in P.
    eapply rt_step; [rewrite func_simple, P by assumption; reflexivity|apply kept_refl|apply Nat.le_refl|]. apply rt_throw. exact AG.
  - st. apply rt_throw; assumption.
  - eapply rt_step; [|apply kept_refl|apply Nat.le_refl|apply rt_throw; assumption].
    cbn [step m_ctrl m_stack func_step]. destruct vs as [|v r]; [reflexivity|]. destruct v as [a| | | |]; try reflexivity. destruct a as [z|b|x| |]; try reflexivity.
    destruct (H x r eq_refl).
  - pose proof (catch_step t f h r kk h0 cts cs w0 g0 n0 cr0 d CX H H0 H1 H2) as S1.
    destruct (IHev h0 (CApp 0 f []) None None (FCatch n0 t h true w0 :: kk) cts (n0 :: cs) w0 g0 (S n0) cr0) as (h1 & w1 & g1 & n1 & cr1 & S2 & A1 & K1 & N1); [constructor|exact AG|apply ctx_catch; exact CX|].
    exists h1, w1, g1, n1, cr1. split; [|split; [exact A1|split; [exact K1|lia]]].
    eapply steps_more; [exact S1|]. eapply steps_trans; [exact S2|]. apply steps_one. reflexivity.
  - pose proof (catch_step t f h r kk h0 cts cs w0 g0 n0 cr0 d CX H H0 H1 H2) as S1.
    destruct (IHev1 h0 (CApp 0 f []) None None (FCatch n0 t h true w0 :: kk) cts (n0 :: cs) w0 g0 (S n0) cr0) as (ex & h1 & w1 & g1 & n1 & cr1 & S2 & A1 & K1 & N1 & B & U); [constructor|exact AG|apply ctx_catch; exact CX|].
    assert (U0 : unwind_to n0 (ex ++ FCatch n0 t h true w0 :: kk) = Some (t, h, w0, kk)).
    { rewrite U by lia. cbn [unwind_to]. rewrite Nat.eqb_refl. reflexivity. }
    assert (S3 : exists cr2, step (mkM (CThrow key args) (ex ++ FCatch n0 t h true w0 :: kk) h1 cts (n0 :: cs) 0 w1 g1 n1 cr1) =
      Next (mkM (CVals h (MA (ASym key) :: args)) (FCatch n0 t h false w0 :: kk) h1 cts cs 0 w1 g1 n1 cr2)).
    { eexists. cbn [step m_ctrl m_stack]. unfold throw_step. cbn [m_catch find_catch]. rewrite U0. apply catches_match in H4; [|auto]. rewrite H4. reflexivity. }
    destruct S3 as (cr2 & S3).
    assert (CX2 : ctx cs (FCatch n0 t h false w0 :: kk) n1 d).
    { apply (ctx_impl cs kk n0 d [FCatch n0 t h false w0] n1 CX); [lia|]. intros j J. cbn [unwind_to app]. destruct (Nat.eqb_spec n0 j); [lia|reflexivity]. }
    pose proof (IHev2 h1 (CVals h (MA (ASym key) :: args)) None None (FCatch n0 t h false w0 :: kk) cts cs w1 g1 n1 cr2 (ci_vals _ _ _) A1 CX2) as R.
    assert (SS : steps (mkM (CFunc PCatch (t :: f :: h :: r)) kk h0 cts cs 0 w0 g0 n0 cr0) (mkM (CVals h (MA (ASym key) :: args)) (FCatch n0 t h false w0 :: kk) h1 cts cs 0 w1 g1 n1 cr2)).
    { eapply steps_more; [exact S1|]. eapply steps_trans; [exact S2|]. apply steps_one. exact S3. }
    destruct o as [v|[key2 args2|key2]].
    + destruct R as (h2 & w2 & g2 & n2 & cr3 & S4 & A2 & K2 & N2). exists h2, w2, g2, n2, cr3. split; [|split; [exact A2|split; [eapply kept_trans; eauto|lia]]].
      eapply steps_trans; [exact SS|]. eapply steps_trans; [exact S4|]. apply steps_one. reflexivity.
    + destruct R as (ex2 & h2 & w2 & g2 & n2 & cr3 & S4 & A2 & K2 & N2 & B2 & U2). exists (ex2 ++ [FCatch n0 t h false w0]), h2, w2, g2, n2, cr3. rewrite <- app_assoc. cbn [app].
      split; [eapply steps_trans; [exact SS|exact S4]|]. split; [exact A2|]. split; [eapply kept_trans; eauto|]. split; [lia|].
      split; [rewrite bodies_app, B2; reflexivity|].
      intros j J. rewrite U2 by lia. cbn [unwind_to]. destruct (Nat.eqb_spec n0 j); [lia|reflexivity].
    + destruct R as (s' & S4 & R). exists s'. split; [eapply steps_trans; [exact SS|exact S4]|exact R].
  - pose proof (catch_step t f h r kk h0 cts cs w0 g0 n0 cr0 d CX H H0 H1 H2) as S1.
    destruct (IHev h0 (CApp 0 f []) None None (FCatch n0 t h true w0 :: kk) cts (n0 :: cs) w0 g0 (S n0) cr0) as (ex & h1 & w1 & g1 & n1 & cr1 & S2 & A1 & K1 & N1 & B & U); [constructor|exact AG|apply ctx_catch; exact CX|].
    assert (CX2 : ctx (n0 :: cs) (ex ++ FCatch n0 t h true w0 :: kk) n1 (t :: d)) by (eapply ctx_impl; [apply ctx_catch; exact CX|exact N1|exact U]).
    eexists. split; [eapply steps_more; [exact S1|exact S2]|]. split; [|split; [exact A1|reflexivity]].
    cbn [step m_ctrl m_stack]. unfold throw_step. cbn [m_catch]. rewrite (ctx_none _ _ _ _ _ CX2 H4). reflexivity.
  - pose proof (catch_step t f h r kk h0 cts cs w0 g0 n0 cr0 d CX H H0 H1 H2) as S1.
    destruct (IHev h0 (CApp 0 f []) None None (FCatch n0 t h true w0 :: kk) cts (n0 :: cs) w0 g0 (S n0) cr0) as (s' & S2 & R); [constructor|exact AG|apply ctx_catch; exact CX|].
    exists s'. split; [eapply steps_more; [exact S1|exact S2]|exact R].
  - eapply rt_step; [|apply kept_refl|apply Nat.le_refl|apply rt_throw; assumption].
    cbn [step m_ctrl m_stack func_step m_catch m_under]. rewrite (tag_iff t), !is_closure_iff by assumption. cbn [andb].
    apply ctx_len in CX. destruct (100 <=? length cs) eqn:L; [reflexivity|apply Nat.leb_gt in L; lia].
  - eapply rt_step; [|apply kept_refl|apply Nat.le_refl|apply rt_throw; assumption].
    cbn [step m_ctrl m_stack func_step]. destruct vs as [|t [|f [|h r]]]; try reflexivity. specialize (H t f h r eq_refl).
    destruct (tag_ok t) eqn:T; [|reflexivity]. destruct (is_closure f) eqn:F; [|reflexivity]. destruct (is_closure h) eqn:G; [|reflexivity].
    destruct H. auto using tag_good, closure_proc.
  (* calls on values *)
  - destruct (env_agree _ _ pe AG H) as (h1 & E & A1 & B1 & B2). destruct (bind_agree _ _ _ _ _ _ _ H0 h1 A1) as (h2 & E2 & A2 & B3 & B4).
    eapply rt_step; [|apply (kept_same _ _ _ h2); congruence|apply Nat.le_refl|sub IHev].
    cbn [step m_ctrl m_stack vals_step m_sto]. rewrite E, E2. reflexivity.
  - destruct (env_agree _ _ pe AG H) as (h1 & E & A1 & B1 & B2). pose proof (bind_agree _ _ _ _ _ _ _ H0 h1 A1) as E2. cbn iota in E2.
    eapply rt_step; [|apply kept_refl|apply Nat.le_refl|apply rt_throw; assumption].
    cbn [step m_ctrl m_stack vals_step m_sto]. rewrite E, E2. reflexivity.
  - st. sub IHev.
  - destruct (env_agree _ _ pe AG H) as (h1 & E & A1 & B1 & B2). destruct (bind_agree _ _ _ _ _ _ _ H0 h1 A1) as (h2 & E2 & A2 & B3 & B4).
    eapply rt_step; [|apply (kept_same _ _ _ h2); congruence|apply Nat.le_refl|sub IHev].
    cbn [step m_ctrl m_stack vals_step m_sto]. rewrite E, E2. reflexivity.
  - destruct (env_agree _ _ pe AG H) as (h1 & E & A1 & B1 & B2). pose proof (bind_agree _ _ _ _ _ _ _ H0 h1 A1) as E2. cbn iota in E2.
    eapply rt_step; [|apply kept_refl|apply Nat.le_refl|apply rt_throw; assumption].
    cbn [step m_ctrl m_stack vals_step m_sto]. rewrite E, E2. reflexivity.
  (* call/cc *)
  - st. thr IHev.
  (* dynamic-wind *)
  - st. thr IHev.
  - st. bnd IHev1. st. thr IHev2.
  - st. bnd IHev1. st. bnd IHev2. st. thr IHev3.
  - st. bnd IHev1. st. bnd IHev2. st. bnd IHev3.
    eapply rt_step; [cbn [step m_ctrl m_stack ret_step]; rewrite not_closures by assumption; reflexivity|apply kept_refl|apply Nat.le_refl|apply rt_throw; assumption].
  - st. bnd IHev1. st. bnd IHev2. st. bnd IHev3.
    eapply rt_step; [cbn [step m_ctrl m_stack ret_step]; rewrite closures by assumption; reflexivity|apply kept_refl|apply Nat.le_refl|]. thr IHev4.
  - st. bnd IHev1. st. bnd IHev2. st. bnd IHev3.
    eapply rt_step; [cbn [step m_ctrl m_stack ret_step]; rewrite closures by assumption; reflexivity|apply kept_refl|apply Nat.le_refl|]. bnd IHev4. st. thr IHev5.
  - st. bnd IHev1. st. bnd IHev2. st. bnd IHev3.
    eapply rt_step; [cbn [step m_ctrl m_stack ret_step]; rewrite closures by assumption; reflexivity|apply kept_refl|apply Nat.le_refl|]. bnd IHev4. st. bnd IHev5. st. thr IHev6.
  - st. bnd IHev1. st. bnd IHev2. st. bnd IHev3.
    eapply rt_step; [cbn [step m_ctrl m_stack ret_step]; rewrite closures by assumption; reflexivity|apply kept_refl|apply Nat.le_refl|]. bnd IHev4. st. bnd IHev5. st. bnd IHev6.
    st. apply rt_ret; assumption.
  (* map *)
  - st. thr IHev.
  - st. bnd IHev. eapply rt_step; [cbn [step m_ctrl m_stack ret_step]; rewrite not_fun by assumption; reflexivity|apply kept_refl|apply Nat.le_refl|apply rt_throw; assumption].
  - st. bnd IHev1. eapply rt_step; [cbn [step m_ctrl m_stack ret_step]; rewrite fun_iff by assumption; reflexivity|apply kept_refl|apply Nat.le_refl|]. thr IHev2.
  - st. bnd IHev1. eapply rt_step; [cbn [step m_ctrl m_stack ret_step]; rewrite fun_iff by assumption; reflexivity|apply kept_refl|apply Nat.le_refl|]. bnd IHev2.
    destruct (iter_agree (Some a) _ _ A0) as (h3 & E & A3 & K3 & E3).
    eapply rt_gen; [cbn [step m_ctrl m_stack ret_step m_sto]; rewrite E; reflexivity|exact K3|apply Nat.le_refl| | |
      apply IHev3; [apply (ci_map h3 e g (Some a) [] (length (h_iters h2))); [exact E3|constructor]|exact A3|cx]].
    + intros b Q. discriminate Q.
    + intros b [= <-]. right. lia.
  - st. bnd IHev1. eapply rt_step; [cbn [step m_ctrl m_stack ret_step]; rewrite fun_iff by assumption; reflexivity|apply kept_refl|apply Nat.le_refl|]. bnd IHev2.
    destruct (iter_agree None _ _ A0) as (h3 & E & A3 & K3 & E3).
    eapply rt_gen with (ei' := Some (length (h_iters h2))) (ea' := None); [cbn [step m_ctrl m_stack ret_step m_sto]; rewrite E; reflexivity|exact K3|apply Nat.le_refl| | |].
    + intros b Q. discriminate Q.
    + intros b [= <-]. right. lia.
    + eapply rt_step; [cbn [step m_ctrl m_stack m_sto]; rewrite E3; reflexivity|apply set_iter_kept|apply Nat.le_refl|]. apply rt_ret. apply set_iter_agree. exact A3.
  - st. bnd IHev1. eapply rt_step; [cbn [step m_ctrl m_stack ret_step]; rewrite fun_iff by assumption; reflexivity|apply kept_refl|apply Nat.le_refl|]. bnd IHev2.
    eapply rt_step; [|apply kept_refl|apply Nat.le_refl|apply rt_throw; assumption].
    cbn [step m_ctrl m_stack ret_step]. destruct v as [a|a| | |]; try reflexivity; [|destruct (H3 a eq_refl)]. destruct a as [z|b|x| |]; try reflexivity. congruence.
  - eapply rt_step; [cbn [step m_ctrl m_stack m_sto]; rewrite H6, as_list_of; reflexivity|apply set_iter_kept|apply Nat.le_refl|]. apply rt_ret. apply set_iter_agree. exact AG.
  - match goal with Q : nth_error (h_iters h0) _ = _ |- _ => rename Q into IT end.
    eapply rt_step; [cbn [step m_ctrl m_stack m_sto]; unfold get_cell; rewrite IT, (cells_agree _ _ AG), H; reflexivity|apply set_iter_kept|apply Nat.le_refl|].
    pose proof (set_iter_agree i (Some (c_next c)) _ _ AG) as AG2. thr IHev.
  - ff. match goal with Q : nth_error (h_iters h0) _ = _ |- _ => rename Q into IT end.
    eapply rt_step; [cbn [step m_ctrl m_stack m_sto]; unfold get_cell; rewrite IT, (cells_agree _ _ AG), H; reflexivity|apply set_iter_kept|apply Nat.le_refl|].
    pose proof (set_iter_agree i (Some (c_next c)) _ _ AG) as AG2. bnd IHev1.
    pose proof (cells_lt _ _ _ _ _ AG A1 (ev_mono _ _ _ _ _ H0) FF) as FL.
    destruct (grow_agree _ _ _ _ _ _ A1 H1 FL) as (nn & h2 & E & El & A2 & B1 & B2 & Lc & En).
    destruct (grow_mono _ _ _ _ _ H1) as (_ & FL2). specialize (FL2 FL).
    assert (IT2 : nth_error (h_iters h1) i = Some (Some (c_next c))).
    { apply (kept_iter _ _ _ _ K1). unfold set_iter. cbn [h_iters]. rewrite nth_upd, Nat.eqb_refl, IT. reflexivity. }
    eapply rt_step; [|apply (kept_same _ _ _ (link_cell (last_of l) nn h2)); assumption|apply Nat.le_refl|
      apply IHev2; [apply (ci_map _ e f (c_next c) l1); [rewrite B2; exact IT2|rewrite (cells_agree _ _ A2); exact FL2]|exact A2|cx]].
    cbn [step m_ctrl m_stack ret_step m_sto]. rewrite E, El, head_snoc, last_snoc. reflexivity.
  (* for-each *)
  - st. thr IHev.
  - st. bnd IHev. eapply rt_step; [apply each_none; assumption|apply kept_refl|apply Nat.le_refl|]. apply rt_ret; assumption.
  - st. bnd IHev. eapply rt_step; [apply each_bad; assumption|apply kept_refl|apply Nat.le_refl|]. apply rt_throw; assumption.
  - st. bnd IHev1. eapply rt_step; [apply each_one; assumption|apply kept_refl|apply Nat.le_refl|]. thr IHev2.
  - st. bnd IHev1. eapply rt_step; [apply each_one; assumption|apply kept_refl|apply Nat.le_refl|]. bnd IHev2. st. sub IHev3.
  - st. bnd IHev1. eapply rt_step; [apply each_one; assumption|apply kept_refl|apply Nat.le_refl|]. bnd IHev2. st. st. apply rt_ret; assumption.
  - st. bnd IHev1. eapply rt_step; [apply each_one; assumption|apply kept_refl|apply Nat.le_refl|]. bnd IHev2.
    eapply rt_step; [|apply kept_refl|apply Nat.le_refl|apply rt_throw; assumption].
    cbn [step m_ctrl m_stack ret_step]. destruct v as [a|a| | |]; try reflexivity; [|destruct (H3 a eq_refl)]. destruct a as [z|b|x| |]; try reflexivity. congruence.
  - st. apply rt_ret; assumption.
  - eapply rt_step; [cbn [step m_ctrl m_stack m_sto]; unfold get_cell; rewrite (cells_agree _ _ AG), H, H0; reflexivity|apply kept_refl|apply Nat.le_refl|]. apply rt_ret; assumption.
  - eapply rt_step; [|apply kept_refl|apply Nat.le_refl|apply rt_thr with (F := FEach3 e f (c_next c)); [exact Logic.I|sub IHev]].
    cbn [step m_ctrl m_stack m_sto]. unfold get_cell. rewrite (cells_agree _ _ AG), H. destruct (c_data c) as [a0| | | |]; try reflexivity. destruct a0 as [z|b|y| |]; try reflexivity. congruence.
  - eapply rt_step with (k1 := FEach3 e f (c_next c) :: kk) (c1 := CApp1 f (c_data c)); [|apply kept_refl|apply Nat.le_refl|].
    + cbn [step m_ctrl m_stack m_sto]. unfold get_cell. rewrite (cells_agree _ _ AG), H. destruct (c_data c) as [a0| | | |]; try reflexivity. destruct a0 as [z|b|y| |]; try reflexivity. congruence.
    + bnd IHev1. st. sub IHev2.
Qed.
