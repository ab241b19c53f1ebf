(** Proofs about CellModel, continued: the simulation. *)
From Coq Require Import String Lia.
From Verif Require Import Base ParseModel PrintModel EnvModel EvalModel CellModel CellSpec CellProofs.
Local Open Scope string_scope.
Local Open Scope list_scope.

Lemma ebind_ret {A} (m : EM A) st : ebind m ret st = m st.
Proof. unfold ebind, ret. destruct (m st); reflexivity. Qed.
Lemma cbind_modify {B} g (f : unit -> CM B) s : cbind (cmodify g) f s = f tt (g s).
Proof. apply cbind_eq. reflexivity. Qed.
Lemma cbind_gets {A B} (g : cstate -> A) (f : A -> CM B) s : cbind (cgets g) f s = f (g s) s.
Proof. apply cbind_eq. reflexivity. Qed.
Lemma F2_len {A B} (R : A -> B -> Prop) l m : Forall2 R l m -> length l = length m.
Proof. intro F. induction F; cbn; congruence. Qed.
Lemma sim_fuel {A B} P skip X h o : @sim A B P skip X h (CFuel, []) o.
Proof. intros _. exact Logic.I. Qed.
Lemma sim_other {A B} P skip X h o : @sim A B P skip X h (COther, []) o.
Proof. intros _. exact Logic.I. Qed.
Lemma sim_abort {A B} P skip X h : @sim A B P skip X h (CAbort, []) OAbort.
Proof. intros _. reflexivity. Qed.
Lemma sim_ub {A B} P skip X h : @sim A B P skip X h (CUB, []) OUB.
Proof. intros _. reflexivity. Qed.

(** ** new nodes *)
Lemma len_bounded X h : bounded X h -> ~ In (length h) X.
Proof. intros B I. specialize (B _ I). lia. Qed.
Lemma nth_new {A} (h : list A) c : nth_error (h ++ [c]) (length h) = Some c.
Proof. rewrite nth_error_app2 by lia. now rewrite Nat.sub_diag. Qed.
Lemma bounded_app X h new : bounded X h -> bounded X (h ++ new).
Proof. intros B a I. rewrite app_length. specialize (B a I). lia. Qed.
Lemma state_app X s st new : bounded X (cs_cells s) -> same_state X s st -> same_state X (with_cells s (cs_cells s ++ new)) st.
Proof. intros B S0. apply (state_mono None X s X); [now apply post_app|discriminate|exact S0]. Qed.
Lemma alloc_list_ok X : forall args vs s, bounded X (cs_cells s) -> Forall2 (rep X (cs_cells s)) args vs ->
  exists l new, alloc_list args s = (CRet l (with_cells s (cs_cells s ++ new)), []) /\
    match l with None => vs = [] | Some a => reps X (cs_cells s ++ new) a vs false end.
Proof.
  induction args as [|x args IH]; intros vs s B F; inversion F as [|? v ? vs' R F']; subst.
  - exists None, []. cbn. rewrite app_nil_r. destruct s; split; reflexivity.
  - destruct (IH vs' s B F') as (l & new & E & L). cbn [alloc_list]. rewrite (cbind_eq _ _ _ _ _ E). rewrite cbind_alloc. cbn [with_cells cs_cells cs_frames cs_mods cs_cur cs_out cs_proms].
    exists (Some (length (cs_cells s ++ new))), (new ++ [mkCell x l false]). rewrite app_assoc. split; [reflexivity|].
    assert (B1 : bounded X (cs_cells s ++ new)) by (now apply bounded_app). destruct (rep_app X (cs_cells s ++ new) [mkCell x l false] B1) as [M1 M2].
    assert (RX : rep X ((cs_cells s ++ new) ++ [mkCell x l false]) x v) by (apply M1, (proj1 (rep_app X (cs_cells s) new B)), R).
    destruct l as [b|].
    + eapply reps_more; [apply nth_new|now apply len_bounded|reflexivity|reflexivity|exact RX|now apply M2].
    + subst vs'. change false with (c_dot (mkCell x None false)). apply (reps_last _ _ _ (mkCell x None false)); [apply nth_new|now apply len_bounded|reflexivity|exact RX].
Qed.
Lemma as_list_ok X h l vs : match l with None => vs = [] | Some a => reps X h a vs false end -> rep X h (as_list l) (mklist vs).
Proof.
  destruct l as [a|]; intro H; [|subst; constructor]. cbn [as_list]. destruct vs as [|v vs]; [inversion H|]. now constructor.
Qed.

Section Sim.
Variable cprim : list Z -> list cval -> list cell -> option (cval * list cell * list Z).
Variable prim : list Z -> list val -> pres.
Hypothesis PA : prims_agree cprim prim.
Inductive entry (own : bool) (X : list nat) (h : list cell) : cval -> val -> Prop :=
| en_val x v : own = false -> rep X h x v -> entry own X h x v
| en_own a c hv t d : own = true -> nth_error h a = Some c -> In a X -> rep X h (c_data c) hv -> tails X h (c_next c) t -> entry own X h (CPair a) (VList (hv :: t) d).
Definition skipof (own : bool) (x : cval) : option nat := match x with CPair a => if own then Some a else None | _ => None end.
Definition agrees (ev : env -> bool -> cval -> CM cval) (ev' : env -> val -> EM val) : Prop :=
  forall e own X s st x v, same_state X s st -> bounded X (cs_cells s) -> entry own X (cs_cells s) x v ->
    sim rep (skipof own x) X (cs_cells s) (ev e own x s) (ev' e v st).
Variable ev : env -> bool -> cval -> CM cval.
Variable ev' : env -> val -> EM val.
Hypothesis EV : agrees ev ev'.
Lemma ev0 e X s st x v : same_state X s st -> bounded X (cs_cells s) -> rep X (cs_cells s) x v -> sim rep None X (cs_cells s) (ev e false x s) (ev' e v st).
Proof.
  intros S0 B R. assert (H := EV e false X s st x v S0 B (en_val false X (cs_cells s) x v eq_refl R)). destruct x; exact H.
Qed.
(* evaluate, then go on *)
Lemma ev_bind {A B} (Q : list nat -> list cell -> A -> B -> Prop) skip e X s st x v (f : cval -> CM A) (f' : val -> EM B) : (forall a, skip = Some a -> In a X) ->
  same_state X s st -> bounded X (cs_cells s) -> rep X (cs_cells s) x v ->
  (forall X' a b s' st', post None X (cs_cells s) X' (cs_cells s') -> same_state X' s' st' -> bounded X' (cs_cells s') -> rep X' (cs_cells s') a b -> sim Q skip X' (cs_cells s') (f a s') (f' b st')) ->
  sim Q skip X (cs_cells s) (cbind (ev e false x) f s) (ebind (ev' e v) f' st).
Proof. intros K S0 B0 R F. apply (sim_bind rep); [exact K|now apply ev0|]. intros X' a b s' st' P S1 R1. apply F; auto. apply P. Qed.
Lemma ev_bind_ret {A B} (Q : list nat -> list cell -> A -> B -> Prop) e X s st x v (f : cval -> CM A) (m' : EM B) (f' : val -> EM B) : (forall st, m' st = ebind (ev' e v) f' st) ->
  same_state X s st -> bounded X (cs_cells s) -> rep X (cs_cells s) x v ->
  (forall X' a b s' st', post None X (cs_cells s) X' (cs_cells s') -> same_state X' s' st' -> bounded X' (cs_cells s') -> rep X' (cs_cells s') a b -> sim Q None X' (cs_cells s') (f a s') (f' b st')) ->
  sim Q None X (cs_cells s) (cbind (ev e false x) f s) (m' st).
Proof. intros E. rewrite E. apply ev_bind. discriminate. Qed.

Lemma body_ok : forall k e a vs X s st, same_state X s st -> bounded X (cs_cells s) -> tails X (cs_cells s) (Some a) vs ->
  sim rep None X (cs_cells s) (cbody ev k e a s) (eval_body ev' e vs st).
Proof.
  induction k as [|k IH]; intros e a vs X s st S0 B T; [apply sim_fuel|]. cbn [cbody].
  apply tails_some in T. destruct T as (c & v & t & -> & N & NX & R & T). rewrite (cbind_get _ _ _ _ N).
  destruct (c_next c) as [b|] eqn:NB.
  - destruct t as [|v2 t]; [destruct T as [d T]; inversion T|]. change (eval_body ev' e (v :: v2 :: t)) with (ebind (ev' e v) (fun _ => eval_body ev' e (v2 :: t))).
    apply ev_bind; auto; [discriminate|]. intros X' w w' s' st' P S1 B1 RW. rewrite (cbind_get _ c) by (apply (po_same _ _ _ _ _ P); [discriminate|exact N]). rewrite NB.
    apply IH; auto. eapply tails_mono; eauto. discriminate.
  - cbn in T. subst t. cbn [eval_body]. apply (ev_bind_ret _ _ _ _ _ _ v _ (ev' e v) ret); auto; [intro; now rewrite ebind_ret|]. intros X' w w' s' st' P S1 B1 RW.
    rewrite (cbind_get _ c) by (apply (po_same _ _ _ _ _ P); [discriminate|exact N]). rewrite NB. now apply sim_ret.
Qed.
Lemma args_ok : forall k e l vs X s st, same_state X s st -> bounded X (cs_cells s) -> tails X (cs_cells s) l vs ->
  sim (fun X h => Forall2 (rep X h)) None X (cs_cells s) (cargs ev k e l s) (eval_args ev' e vs st).
Proof.
  induction k as [|k IH]; intros e l vs X s st S0 B T.
  - destruct l; [apply sim_fuel|]. cbn in T. subst vs. apply sim_ret; auto.
  - destruct l as [a|]; [|cbn in T; subst vs; apply sim_ret; auto]. cbn [cargs].
    apply tails_some in T. destruct T as (c & v & t & -> & N & NX & R & T). rewrite (cbind_get _ _ _ _ N). cbn [eval_args].
    apply ev_bind; auto; [discriminate|]. intros X' w w' s' st' P S1 B1 RW. rewrite (cbind_get _ c) by (apply (po_same _ _ _ _ _ P); [discriminate|exact N]).
    apply (sim_bind (fun X h => Forall2 (rep X h))); [discriminate|apply IH; auto; eapply tails_mono; eauto; discriminate|].
    intros X2 us us' s2 st2 P2 S2 F2. apply sim_ret; auto; [apply P2|]. constructor; auto. apply (proj1 (rep_mono _ _ _ _ _ P2 ltac:(discriminate))), RW.
Qed.
Lemma andor_ok : forall k b e l vs X s st, same_state X s st -> bounded X (cs_cells s) -> tails X (cs_cells s) l vs ->
  sim rep None X (cs_cells s) (candor ev k b e l s) ((if b then do_and ev' e vs else do_or ev' e vs) st).
Proof.
  induction k as [|k IH]; intros b e l vs X s st S0 B T.
  - destruct l; [apply sim_fuel|]. cbn in T. subst vs. destruct b; apply sim_ret; auto; constructor.
  - destruct l as [a|]; [|cbn in T; subst vs; destruct b; apply sim_ret; auto; constructor]. cbn [candor].
    apply tails_some in T. destruct T as (c & v & t & -> & N & NX & R & T). rewrite (cbind_get _ _ _ _ N).
    destruct (c_next c) as [b2|] eqn:NB.
    + destruct t as [|v2 t]; [destruct T as [d T]; inversion T|].
      destruct b.
      * change (do_and ev' e (v :: v2 :: t)) with (ebind (ev' e v) (fun u => if truthy u then do_and ev' e (v2 :: t) else ret (VBool false))).
        apply ev_bind; auto; [discriminate|]. intros X' w w' s' st' P S1 B1 RW. rewrite (cbind_get _ c) by (apply (po_same _ _ _ _ _ P); [discriminate|exact N]). rewrite NB.
        rewrite (r_truthy _ _ _ _ RW). destruct (truthy w'); cbn [Bool.eqb].
        -- apply (IH true); auto. eapply tails_mono; eauto. discriminate.
        -- apply sim_ret; auto. constructor.
      * change (do_or ev' e (v :: v2 :: t)) with (ebind (ev' e v) (fun u => if truthy u then ret u else do_or ev' e (v2 :: t))).
        apply ev_bind; auto; [discriminate|]. intros X' w w' s' st' P S1 B1 RW. rewrite (cbind_get _ c) by (apply (po_same _ _ _ _ _ P); [discriminate|exact N]). rewrite NB.
        rewrite (r_truthy _ _ _ _ RW). destruct (truthy w'); cbn [Bool.eqb].
        -- apply sim_ret; auto.
        -- apply (IH false); auto. eapply tails_mono; eauto. discriminate.
    + cbn in T. subst t. apply (ev_bind_ret _ _ _ _ _ _ v _ (if b then do_and ev' e [v] else do_or ev' e [v]) ret); auto; [intro; rewrite ebind_ret; destruct b; reflexivity|]. intros X' w w' s' st' P S1 B1 RW.
      rewrite (cbind_get _ c) by (apply (po_same _ _ _ _ _ P); [discriminate|exact N]). rewrite NB. now apply sim_ret.
Qed.

(** ** procedures *)
Lemma last_ok X s : forall k a vs d, reps X (cs_cells s) a vs d ->
  clast k a s = (CFuel, []) \/ exists c, clast k a s = (CRet c s, []) /\ c_dot c = d /\ rep X (cs_cells s) (c_data c) (last vs VNone).
Proof.
  induction k as [|k IH]; intros a vs d H; [now left|]. cbn [clast]. apply reps_inv in H. destruct H as (c & v & t & -> & N & NX & R & T & D).
  rewrite (cbind_get _ _ _ _ N). destruct (c_next c) as [b|].
  - destruct D as [_ D]. destruct (IH _ _ _ D) as [E|(c2 & E & D2 & R2)]; [now left|right]. exists c2. split; [exact E|]. split; [exact D2|].
    destruct t; [inversion D|exact R2].
  - right. exists c. cbn in T. subst t. split; [reflexivity|]. split; [congruence|exact R].
Qed.
Lemma sym_rep X h x v : rep X h x v -> (match x with CSym _ => true | _ => false end) = match v with VSym _ => true | _ => false end.
Proof. intro R. inversion R; reflexivity. Qed.
(* p: the parameters, and whether the last one stands after a dot *)
Definition params (X : list nat) (h : list cell) (p : option nat) (ps : list val) (d : bool) : Prop :=
  match p with None => ps = [] /\ d = false | Some a => reps X h a ps d end.
Lemma rest_ok X s k p ps d : params X (cs_cells s) p ps d -> crest k p s = (CFuel, []) \/ crest k p s = (CRet (has_rest ps d) s, []).
Proof.
  destruct p as [a|]; intro H.
  - unfold crest. destruct (last_ok X s k a ps d H) as [E|(c & E & D & R)]; [left; unfold cbind; now rewrite E|right]. rewrite (cbind_eq _ _ _ _ _ E). unfold cret, has_rest. now rewrite D, (sym_rep _ _ _ _ R).
  - destruct H as [-> ->]. right. reflexivity.
Qed.
Lemma insert_state X s st e x v w : same_state X s st -> rep X (cs_cells s) v w -> same_state X (c_insert s e x v) (env_insert st e x w false).
Proof. intros S0 R. now apply s_insert. Qed.
Lemma bind_rest_ok {A B} (Q : list nat -> list cell -> A -> B -> Prop) k ce fe y args vs (f : unit -> CM A) (f' : EM B) X s st : same_state X s st -> bounded X (cs_cells s) -> tails X (cs_cells s) args vs ->
  (forall X' s' st', post None X (cs_cells s) X' (cs_cells s') -> same_state X' s' st' -> bounded X' (cs_cells s') -> sim Q None X' (cs_cells s') (f tt s') (f' st')) ->
  sim Q None X (cs_cells s) (cbind (bind_rest ev k ce fe y args) f s) ((let! us := eval_args ev' ce vs in let! _ := insert fe y (mklist us) in f') st).
Proof.
  intros S0 Bd T F. unfold bind_rest. rewrite cbind_assoc. apply (sim_bind (fun X h => Forall2 (rep X h))); [discriminate|now apply args_ok|].
  intros X' us us' s' st' P S1 F1. assert (B1 := po_bnd _ _ _ _ _ P). rewrite cbind_assoc. destruct (alloc_list_ok X' us us' s' B1 F1) as (l & new & E & L).
  rewrite (cbind_eq _ _ _ _ _ E). rewrite cbind_modify. change (ebind (insert fe y (mklist us')) (fun _ => f') st') with (f' (env_insert st' fe y (mklist us') false)).
  assert (P1 : post None X' (cs_cells s') X' (cs_cells s' ++ new)) by (now apply post_app).
  eapply sim_pre; [exact P1|]. set (s2 := c_insert (with_cells s' (cs_cells s' ++ new)) fe y (as_list l)).
  assert (C2 : cs_cells s2 = cs_cells s' ++ new) by (unfold s2; rewrite cells_insert; reflexivity). rewrite <- C2. apply F.
  - rewrite C2. eapply post_trans; eauto.
  - unfold s2. apply insert_state; [now apply state_app|]. cbn [with_cells cs_cells]. now apply as_list_ok.
  - rewrite C2. apply P1.
Qed.
Lemma loop_ok : forall k ce fe rest p a ps vs X s st, same_state X s st -> bounded X (cs_cells s) -> tails X (cs_cells s) p ps -> tails X (cs_cells s) a vs ->
  sim (fun _ _ => eq) None X (cs_cells s) (cbind_loop ev k ce fe rest p a s) (bind_loop ev' ce fe rest ps vs st).
Proof.
  induction k as [|k IH]; intros ce fe rest p a ps vs X s st S0 B TP TA.
  - destruct p as [p|], a as [a|].
    + apply sim_fuel.
    + apply tails_some in TP. destruct TP as (c & v & t & -> & _). cbn in TA. subst vs. apply sim_ret; auto.
    + apply tails_some in TA. destruct TA as (c & v & t & -> & _). cbn in TP. subst ps. apply sim_ret; auto.
    + cbn in *. subst. apply sim_ret; auto.
  - destruct p as [p|], a as [a|].
    + apply tails_some in TP. destruct TP as (cp & pv & pt & -> & NP & NXP & RP & TP). apply tails_some in TA. destruct TA as (ca & av & at' & -> & NA & NXA & RA & TA).
      cbn [cbind_loop]. rewrite (cbind_get _ _ _ _ NP). cbn [bind_loop].
      destruct (c_data cp) as [| | | | | |x| | | |] eqn:DP; inversion RP; subst; cbn [is_sym]; try (apply sim_err; auto).
      rewrite (cbind_get _ _ _ _ NA). apply ev_bind; auto; [discriminate|]. intros X' w w' s' st' P S1 B1 RW.
      rewrite cbind_modify. set (s2 := c_insert s' fe x w). change (ebind (insert fe x w') ?f st') with (f tt (env_insert st' fe x w' false)). cbv beta.
      assert (C2 : cs_cells s2 = cs_cells s') by (apply cells_insert). assert (S2 : same_state X' s2 (env_insert st' fe x w' false)) by (now apply insert_state).
      assert (KEEP : forall i c, nth_error (cs_cells s) i = Some c -> nth_error (cs_cells s2) i = Some c) by (intros i c E; rewrite C2; apply (po_same _ _ _ _ _ P); [discriminate|exact E]).
      assert (TM : forall l us, tails X (cs_cells s) l us -> tails X' (cs_cells s2) l us) by (rewrite C2; apply (tails_mono _ _ _ _ _ P); discriminate).
      rewrite <- C2. rewrite <- C2 in B1. rewrite (cbind_get _ ca) by (now apply KEEP).
      assert (GO : sim (fun _ _ => eq) None X' (cs_cells s2) (cbind_loop ev k ce fe rest (c_next cp) (c_next ca) s2) (bind_loop ev' ce fe rest pt at' (env_insert st' fe x w' false))).
      { apply IH; auto. }
      destruct rest; [|exact GO]. destruct (c_next cp) as [q|] eqn:NQ; [|cbn in TP; subst pt; exact GO].
      pose proof (TM _ _ TP) as TP2. apply tails_some in TP2. destruct TP2 as (cq & qv & qt & -> & NQ2 & NXQ & RQ & TQ). rewrite (cbind_get _ _ _ _ NQ2).
      destruct (c_next cq) as [q2|] eqn:NQ3.
      * destruct qt as [|q3 qt]; [destruct TQ as [dd TQ]; inversion TQ|]. destruct qv; exact GO.
      * cbn in TQ. subst qt. destruct (c_data cq) as [| | | | | |y| | | |] eqn:DQ; inversion RQ; subst; try exact GO.
        apply bind_rest_ok; auto. intros X3 s3 st3 P3 S3 B3. apply sim_ret; auto.
    + apply tails_some in TP. destruct TP as (c & v & t & -> & _). cbn in TA. subst vs. apply sim_ret; auto.
    + apply tails_some in TA. destruct TA as (c & v & t & -> & _). cbn in TP. subst ps. apply sim_ret; auto.
    + cbn in *. subst. apply sim_ret; auto.
Qed.
Lemma apply_ok k ce p b pe args ps d bs vs X s st : same_state X s st -> bounded X (cs_cells s) -> params X (cs_cells s) p ps d -> tails X (cs_cells s) (Some b) bs -> tails X (cs_cells s) args vs ->
  sim rep None X (cs_cells s) (capply ev k ce p b pe args s) (apply_proc ev' ce ps d bs pe vs st).
Proof.
  intros S0 B PP TB TA. unfold capply, apply_proc.
  set (e1 := mkEnv (length (s_frames st) :: e_chain pe) (e_mod pe)).
  set (s1 := mkCS (cs_cells s) (cs_frames s ++ [[]]) (cs_mods s) (cs_cur s) (cs_out s) (cs_proms s)).
  set (st1 := mkState (s_frames st ++ [[]]) (s_mods st) (s_cur st) (s_proms st) (s_dyn st)).
  assert (LF : length (cs_frames s) = length (s_frames st)) by (eapply F2_len; apply S0).
  rewrite (cbind_eq _ _ _ e1 s1) by (unfold c_make_env; rewrite LF; reflexivity).
  match goal with |- sim _ _ _ _ _ (ebind (alloc_frame pe) ?f st) => change (ebind (alloc_frame pe) f st) with (f e1 st1) end. cbv beta.
  assert (S1 : same_state X s1 st1).
  { destruct S0 as [A1 A2 A3 A4 A5]. split; cbn; auto. apply Forall2_app; [exact A1|]. constructor; [constructor|constructor]. }
  assert (C1 : cs_cells s = cs_cells s1) by reflexivity. clear LF S0. clearbody s1 st1. rewrite C1 in B, PP, TB, TA |- *. clear C1.
  destruct (rest_ok X s1 k p ps d PP) as [E|E]; [unfold cbind; rewrite E; apply sim_fuel|]. rewrite (cbind_eq _ _ _ _ _ E).
  assert (TP : tails X (cs_cells s1) p ps) by (destruct p; [exists d; exact PP|apply PP]).
  assert (GO : sim rep None X (cs_cells s1) ((do! ok := cbind_loop ev k ce e1 (has_rest ps d) p args in if (ok : bool) then cbody ev k e1 b else cerr) s1)
     ((let! ok := bind_loop ev' ce e1 (has_rest ps d) ps vs in if (ok : bool) then eval_body ev' e1 bs else err) st1)).
  { apply (sim_bind (fun _ _ => eq)); [discriminate|now apply loop_ok|]. intros X' u u' s' st' P S2 ->. assert (B2 := po_bnd _ _ _ _ _ P).
    destruct u'; [|now apply sim_err]. apply body_ok; auto. eapply tails_mono; eauto. discriminate. }
  destruct (has_rest ps d) eqn:HR; [|exact GO]. destruct p as [q|]; [|destruct PP as [-> ->]; discriminate HR].
  apply tails_some in TP. destruct TP as (cq & qv & qt & -> & NQ & NXQ & RQ & TQ). rewrite (cbind_get _ _ _ _ NQ).
  destruct (c_next cq) as [q2|] eqn:NQ3.
  - destruct qt as [|q3 qt]; [destruct TQ as [dd TQ]; inversion TQ|]. destruct qv; exact GO.
  - cbn in TQ. subst qt. destruct (c_data cq) as [| | | | | |y| | | |] eqn:DQ; inversion RQ; subst; try exact GO.
    apply bind_rest_ok; auto. intros X3 s3 st3 P3 S3 B3. apply body_ok; auto. eapply tails_mono; eauto. discriminate.
Qed.
End Sim.
