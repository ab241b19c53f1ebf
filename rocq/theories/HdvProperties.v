(** C217.  The converse of C215 and C216: an answer of the interpreter is an answer
    of the rules, and a program without one is never answered. *)
From Coq Require Import String Lia.
From Verif Require Import Base NumModel NumSpec ParseModel ParseSpec PrintModel ParseProperties EnvModel EvalModel EvalMono ApiModel
  LangSpec LangProofs LangProofs2 LangProofs3 LangProperties HoSpec HoText HoProofs HoProperties HerSpec HerProofs HerProperties HdvSpec HdvProofs.
Local Open Scope string_scope.
Local Open Scope Z_scope.
Local Open Scope list_scope.

Section Steps.
Variable prim : list Z -> list val -> pres.
Hypothesis HN : numeric prim.
Variable nm : list Z -> Prop.
Hypothesis NM : forall x, nm x -> name x.
Variable free : list Z -> Prop.
Variable P : list hfn.
Hypothesis WP : Forall (hwf_fn nm) P.
Hypothesis SP : Forall (fun d => hscoped P free (h_params d) (h_body d)) P.
Notation hinv := (hinv nm free P).
Notation hbase := (hbase P nm free).
Notation result := (result P free).

(* one expression: fuel is missing, or the rules say something *)
Lemma hexp_conv n e go s : hwf nm e -> hscoped P free [] e -> hinv s -> runs_as prim go (hcode e) s ->
  go n = AFuel \/ stray P [] e \/ exists w o s', result e w /\ told w o /\ go n = AOk o s' /\ hinv s'.
Proof.
  intros W Sc [B R M] (st1 & R1 & V & Er & Fu).
  assert (B1 : hbase st1) by (exact (hbase_rest nm free P (a_st s) st1 R1 B)).
  pose proof (erel_global nm (all st1) st1) as O1.
  assert (D : eval prim n g_env (hcode e) st1 = OFuel \/ eval prim n g_env (hcode e) st1 <> OFuel).
  { destruct (eval prim n g_env (hcode e) st1); auto; right; discriminate. }
  destruct D as [D|D]; [left; now apply Fu|right].
  assert (K : forall st2 s3, ext st1 st2 -> left_as s s3 st2 -> hinv s3).
  { intros st2 s3 E2 (L1 & L2). pose proof E2 as (_ & _ & _ & M2 & _ & _ & D2).
    assert (B2 : hbase st2) by exact (hbase_ext P nm free st1 st2 E2 B1).
    assert (M1 : s_mods st2 <> []). { rewrite M2. destruct R1 as (_ & -> & _). exact M. }
    constructor; [exact (hbase_rest nm free P _ _ L1 B2)|now rewrite L2|]. destruct L1 as (_ & -> & _). exact M1. }
  destruct (hconverse prim P nm free HN NM WP SP n [] e st1 g_env (all st1) B1 ltac:(auto) O1 W (rwf_nil nm) Sc (rg_nil P free) D)
    as [(v & E)|[E|?]]; [right|right|now left].
  - destruct (hev_got prim P nm free HN NM WP n [] e v st1 g_env (all st1) E W (rwf_nil nm) B1 ltac:(auto) O1 D) as (st2 & w & E2 & Vw & Q & _).
    pose proof E2 as (_ & _ & _ & _ & _ & _ & D2). destruct (V st2 w D2) as (s3 & L & Ky & X). exists (Some v), (Some w), s3.
    split; [now constructor|]. split; [inversion Vw; subst; cbn [told shown]; eauto|]. split; [now apply X|eapply K; eauto].
  - destruct (proj1 (herfollows prim P nm free HN NM WP) [] e E W (rwf_nil nm) st1 g_env (all st1) B1 ltac:(auto) O1) as (st2 & E2 & N & H).
    pose proof E2 as (_ & _ & _ & _ & _ & _ & D2). destruct (Er st2 D2) as (s3 & L & Ky & X). exists None, None, s3.
    split; [now constructor|]. split; [reflexivity|]. split; [|eapply K; eauto]. apply X. apply (down prim n (N + n)); [lia|exact D|]. apply H. lia.
Qed.
Lemma hexps_conv n es : Forall (hwf nm) es -> Forall (hscoped P free []) es -> forall gos s vs s', hinv s -> Forall2 (does prim) gos (map hcode es) ->
  seq gos n s = Some (vs, s') ->
  (exists ws, Forall2 result es ws /\ Forall2 told ws vs) \/
  (exists e1 e e2 ws, es = e1 ++ e :: e2 /\ Forall2 result e1 ws /\ stray P [] e).
Proof.
  intros W Sc. induction W as [|e es We W IH]; intros gos s vs s' I G Q.
  - inversion G; subst. injection Q as <- <-. left. exists []. split; constructor.
  - inversion Sc as [|? ? Se Ss]; subst. inversion G as [|g ? gos' ? Gg Gs]; subst. cbn [seq] in Q.
    destruct (hexp_conv n e (fun n => g n s) s We Se I (Gg s (hi_room _ _ _ _ I))) as [F|[Ov|(w & o & s1 & E & T & F & I1)]].
    + rewrite F in Q. discriminate Q.
    + right. exists [], e, es, []. repeat split; auto.
    + rewrite F in Q. destruct (seq gos' n s1) as [[vs1 s2]|] eqn:Q1; [|discriminate Q]. injection Q as <- <-.
      destruct (IH Ss gos' s1 vs1 s2 I1 Gs Q1) as [(ws & Es & Ts)|(e1 & x & e2 & ws & -> & Es & Ov)].
      * left. exists (w :: ws). split; now constructor.
      * right. exists (e :: e1), x, e2, (w :: ws). repeat split; auto.
Qed.
End Steps.
Lemma hfn_strings prim (nm : list Z -> Prop) P : (forall x, nm x -> name x) -> Forall (hwf_fn nm) P ->
  Forall2 (does prim) (map (fun t n s => pscm_eval_string prim n t s) (map hshow_fn P)) (map hcode_fn P).
Proof.
  intros NM WP. apply does_strings. induction WP as [|d P W _ IH]; cbn [map]; constructor; auto. exists (hdatum_fn d).
  split; [exact (hread_fn nm NM d W)|apply hprogram_fn].
Qed.
Lemma hexp_strings prim (nm : list Z -> Prop) es : (forall x, nm x -> name x) -> Forall (hwf nm) es ->
  Forall2 (does prim) (map (fun t n s => pscm_eval_string prim n t s) (map hshow es)) (map hcode es).
Proof.
  intros NM WE. apply does_strings. induction WE as [|e es W _ IH]; cbn [map]; constructor; auto. exists (hdatum e).
  split; [exact (hread_exp nm NM e W)|apply hprogram_code].
Qed.
Lemma pl_name s x : plain_name s x -> name x. Proof. intros (N & _). exact N. Qed.

(** Whatever a session answers is what the rules say, unless some expression of it
    leaves what they speak about, all before it having been answered by the rules. *)
Theorem c217_answers : forall prim s P es n vs s', numeric prim -> ready s ->
  Forall (hwf_fn (plain_name s)) P -> NoDup (map h_name P) -> Forall (unbound s) (map h_name P) ->
  Forall (fun d => hscoped P (unbound s) (h_params d) (h_body d)) P ->
  Forall (hwf (plain_name s)) es -> Forall (hscoped P (unbound s) []) es ->
  session prim n (map hshow_fn P ++ map hshow es) s = Some (vs, s') ->
  (exists ws os, Forall2 (result P (unbound s)) es ws /\ Forall2 told ws os /\ vs = repeat (Some VNone) (length P) ++ os) \/
  (exists e1 e e2 ws, es = e1 ++ e :: e2 /\ Forall2 (result P (unbound s)) e1 ws /\ stray P [] e).
Proof.
  intros prim s P es n vs s' HN R WP ND F SP WE SE Q.
  pose proof (hfn_strings prim _ P (pl_name s) WP) as DP. pose proof (hexp_strings prim _ es (pl_name s) WE) as DE.
  assert (K : forall Q s1 v2 s2, Forall (hwf_fn (plain_name s)) Q -> Forall (fun d => hscoped Q (unbound s) (h_params d) (h_body d)) Q ->
     Q = P -> hinv (plain_name s) (unbound s) Q s1 ->
     seq (map (fun t n s => pscm_eval_string prim n t s) (map hshow es)) n s1 = Some (v2, s2) ->
     (exists ws os, Forall2 (result P (unbound s)) es ws /\ Forall2 told ws os /\ repeat (Some VNone) (length P) ++ v2 = repeat (Some VNone) (length P) ++ os) \/
     (exists e1 e e2 ws, es = e1 ++ e :: e2 /\ Forall2 (result P (unbound s)) e1 ws /\ stray P [] e)).
  { intros Q0 s1 v2 s2 WQ SQ -> I Q2.
    destruct (hexps_conv prim HN (plain_name s) (pl_name s) (unbound s) P WP SP n es WE SE _ s1 v2 s2 I DE Q2) as [(ws & E & T)|Y]; [left|now right].
    exists ws, v2. auto. }
  destruct (Nat.eq_dec n 0) as [->|N0].
  { rewrite session_seq, map_app, seq_app in Q. destruct P as [|d P].
    - cbn [map seq] in Q. destruct (seq _ 0 s) as [[v2 s2]|] eqn:Q2; [|discriminate Q]. injection Q as <- <-.
      exact (K [] s v2 s2 WP SP eq_refl (hinv_start s R) Q2).
    - exfalso. cbn [map] in DP. inversion DP as [|? ? ? ? Dd _]; subst.
      destruct (Dd s ltac:(pose proof (r_room _ R); lia)) as (st1 & _ & _ & _ & Fu). cbn [map seq] in Q. rewrite (Fu 0%nat eq_refl) in Q. discriminate Q. }
  assert (Hn : (1 <= n)%nat) by lia.
  destruct (hfns_steps prim (plain_name s) (unbound s) P WP [] _ s (hinv_start s R) F ND DP) as (s1 & X & I & _).
  rewrite session_seq, map_app, seq_app, X in Q by exact Hn.
  destruct (seq _ n s1) as [[v2 s2]|] eqn:Q2; [|discriminate Q]. injection Q as <- <-.
  exact (K P s1 v2 s2 WP SP eq_refl I Q2).
Qed.
Print Assumptions c217_answers.

(** An expression to which the rules give neither a value nor an error, and which
    does not leave what they speak about, is never answered: the call of
    pscm_eval_string does not return, however deep the C stack, although everything
    before it has been answered. *)
Theorem c217_never : forall prim s P es ws e, numeric prim -> ready s ->
  Forall (hwf_fn (plain_name s)) P -> NoDup (map h_name P) -> Forall (unbound s) (map h_name P) ->
  Forall (fun d => hscoped P (unbound s) (h_params d) (h_body d)) P ->
  Forall (hwf (plain_name s)) es -> Forall2 (result P (unbound s)) es ws ->
  hwf (plain_name s) e -> hscoped P (unbound s) [] e ->
  (forall w, ~ result P (unbound s) e w) -> ~ stray P [] e ->
  exists N s' os, Forall2 told ws os /\ forall n, (N <= n)%nat ->
    session prim n (map hshow_fn P ++ map hshow es) s = Some (repeat (Some VNone) (length P) ++ os, s') /\
    pscm_eval_string prim n (hshow e) s' = AFuel.
Proof.
  intros prim s P es ws e HN R WP ND F SP WE E We Se NE NO.
  destruct (hfns_steps prim (plain_name s) (unbound s) P WP [] _ s (hinv_start s R) F ND (hfn_strings prim _ P (pl_name s) WP)) as (s1 & X & I & _).
  destruct (hres_steps prim HN (plain_name s) (pl_name s) (unbound s) P es WP WE ws _ s1 I E (hexp_strings prim _ es (pl_name s) WE)) as (N & s2 & os & Y & T & I2 & _).
  exists (1 + N)%nat, s2, os. split; [exact T|]. intros n Hn. split.
  - rewrite session_seq, map_app, seq_app, X, Y by lia. reflexivity.
  - pose proof (hexp_strings prim _ [e] (pl_name s) ltac:(auto)) as D. cbn [map] in D. inversion D as [|? ? ? ? De _]; subst.
    destruct (hexp_conv prim HN (plain_name s) (pl_name s) (unbound s) P WP SP n e _ s2 We Se I2 (De s2 (hi_room _ _ _ _ I2)))
      as [?|[?|(w & ? & ? & Ew & _)]]; auto.
    + contradiction.
    + now elim (NE w).
Qed.
Print Assumptions c217_never.

(** ** The two cases of an answer exclude each other *)
Scheme stray_min := Minimality for stray Sort Prop with strays_min := Minimality for strays Sort Prop.
Combined Scheme stray_strays_min from stray_min, strays_min.
Lemma hnot_both P free : NoDup (map h_name P) ->
  (forall r e, stray P r e -> (forall v, ~ hev P r e v) /\ ~ her P free r e) /\
  (forall r es, strays P r es -> (forall vs, ~ hevs P r es vs) /\ ~ hers P free r es).
Proof.
  intros ND. assert (ONE : forall r e v v', hev P r e v -> hev P r e v' -> v = v') by (intros r e v v' A; now apply (proj1 (hone P ND))).
  assert (ONES : forall r e v v', hevs P r e v -> hevs P r e v' -> v = v') by (intros r e v v' A; now apply (proj2 (hone P ND))).
  destruct (hexcl P free ND) as (XC & XS).
  assert (FST : forall r es vs k, hevs P r es vs -> hevs P r (firstn k es) (firstn k vs)).
  { intros r es vs k E. revert k. induction E; intros [|k]; cbn; constructor; auto. }
  apply stray_strays_min; intros; (split; [intros ? E|intros E]); inversion E; subst;
    repeat match goal with
    | H : _ /\ _ |- _ => destruct H
    | A : hev _ ?r ?e ?w1, B : hev _ ?r ?e ?w2 |- _ =>
        lazymatch w1 with w2 => fail | _ => let Q := fresh in assert (Q : w1 = w2) by exact (ONE _ _ _ _ A B); first [discriminate Q|injection Q; intros; subst|subst] end
    | A : hevs _ ?r ?e ?w1, B : hevs _ ?r ?e ?w2 |- _ =>
        lazymatch w1 with w2 => fail | _ => let Q := fresh in assert (Q : w1 = w2) by exact (ONES _ _ _ _ A B); subst end
    end;
    try contradiction; try (now eauto).
  all: try (match goal with D : divides ?o, H : divides ?o -> _ |- _ => now elim (H D) end).
  all: try (match goal with H : ~ integers _ _ |- _ => apply H; split; eauto end).
  all: try (match goal with A : hev _ ?r ?e _, B : her _ _ ?r ?e |- _ => now elim (XC _ _ B _ A) end).
  all: try (match goal with A : hevs _ ?r ?e _, B : hers _ _ ?r ?e |- _ => now elim (XS _ _ B _ A) end).
  all: try (match goal with IH : forall v, ~ hev _ ?r ?e v, A : hev _ ?r ?e _ |- _ => now elim (IH _ A) end).
  all: try (match goal with IH : forall v, ~ hevs _ ?r ?e v, A : hevs _ ?r ?e _ |- _ => now elim (IH _ A) end).
  all: try (match goal with IH : forall v, ~ hevs _ ?r (firstn ?k ?es) v, A : hevs _ ?r ?es ?vs |- _ => exact (IH _ (FST _ _ _ k A)) end).
  all: try (match goal with A : hevs _ ?r ?args ?vs, B : hers _ _ ?r (firstn ?k ?args) |- _ => exact (XS _ _ B _ (FST _ _ _ k A)) end).
  all: match goal with A : hevs _ ?r ?args ?vs, N : length ?args <> _ |- _ => apply hevs_length in A; congruence end.
Qed.
Theorem c217_exclusive : forall P free e w, NoDup (map h_name P) -> result P free e w -> ~ stray P [] e.
Proof.
  intros P free e w ND E O. destruct (proj1 (hnot_both P free ND) [] e O) as (A & B). inversion E; subst; [now apply (A v)|now apply B].
Qed.
Print Assumptions c217_exclusive.

(** ** Concrete cases: the procedure that applies its argument to itself, applied to
    itself, is never answered *)
Definition self : hexp := HApp (v_ "x") [v_ "x"].
Definition omega : hexp := HApp (HLam [bs "x"] self) [HLam [bs "x"] self].
Definition om (r : list (list Z * hval)) : hval := HClo [bs "x"] self r.
(* the body, with itself for x *)
Definition inner (r : list (list Z * hval)) : Prop := exists r0 r1, r = (bs "x", om r0) :: r1.
Lemma self_var r0 r1 v : hev [] ((bs "x", om r0) :: r1) (v_ "x") v -> v = om r0.
Proof. intros E. inversion E as [|? ? ? L|? ? L I| | | | |]; subst; [cbn in L; congruence|destruct I]. Qed.
Lemma self_args r0 r1 vs : hevs [] ((bs "x", om r0) :: r1) [v_ "x"] vs -> vs = [om r0].
Proof. intros E. inversion E as [|? ? ? ? ? A B]; subst. inversion B; subst. apply self_var in A. now subst. Qed.
Lemma self_no : (forall r e v, hev [] r e v -> e = self -> inner r -> False) /\ (forall r es vs, hevs [] r es vs -> True).
Proof.
  apply hev_hevs_min; auto; try (intros; discriminate).
  intros r f args ps b r' vs v Ef _ Es _ L _ IH [= -> ->] (r0 & r1 & ->). apply self_var in Ef. injection Ef as -> -> ->.
  apply self_args in Es. subst vs. apply IH; auto. exists r0, r0. reflexivity.
Qed.
Lemma self_noerr free : (forall r e, her [] free r e -> e = self -> inner r -> False) /\
  (forall r es, hers [] free r es -> es = [v_ "x"] -> inner r -> False).
Proof.
  assert (V : forall r0 r1, ~ her [] free ((bs "x", om r0) :: r1) (v_ "x")).
  { intros r0 r1 E. inversion E as [? ? L| | | | | | | | | | | | |]; subst. discriminate L. }
  apply her_hers_min; try (intros; discriminate).
  - intros r f args E _ [= -> ->] (r0 & r1 & ->). now apply (V r0 r1).
  - intros r f args ps b r' Ef _ IH [= -> ->] (r0 & r1 & ->). apply self_var in Ef. injection Ef as -> -> ->. apply IH; [reflexivity|]. now exists r0, r1.
  - intros r f args ps b r' vs Ef _ N [= -> ->] (r0 & r1 & ->). apply self_var in Ef. injection Ef as -> -> ->. now elim N.
  - intros r f args ps b r' vs Ef Es L _ IH [= -> ->] (r0 & r1 & ->). apply self_var in Ef. injection Ef as -> -> ->.
    apply self_args in Es. subst vs. apply IH; auto. now exists r0, r0.
  - intros r f args z Ef _ [= -> ->] (r0 & r1 & ->). apply self_var in Ef. discriminate Ef.
  - intros r a l E _ [= -> ->] (r0 & r1 & ->). now apply (V r0 r1).
  - intros r a l v _ E IH [= -> ->]. inversion E.
Qed.
Lemma self_nostray : (forall r e, stray [] r e -> e = self -> inner r -> False) /\
  (forall r es, strays [] r es -> es = [v_ "x"] -> inner r -> False).
Proof.
  assert (V : forall r, ~ stray [] r (v_ "x")) by (intros r E; inversion E).
  apply stray_strays_min; try (intros; discriminate).
  - intros r f args E _ [= -> ->] _. now apply (V r).
  - intros r f args ps b r' Ef _ IH [= -> ->] (r0 & r1 & ->). apply self_var in Ef. injection Ef as -> -> ->. apply IH; [reflexivity|]. now exists r0, r1.
  - intros r f args ps b r' vs Ef Es L _ IH [= -> ->] (r0 & r1 & ->). apply self_var in Ef. injection Ef as -> -> ->.
    apply self_args in Es. subst vs. apply IH; auto. now exists r0, r0.
  - intros r a l E _ [= -> ->] _. now apply (V r).
  - intros r a l v _ E IH [= -> ->]. inversion E.
Qed.
Lemma lam_val P r ps b v : hev P r (HLam ps b) v -> v = HClo ps b r. Proof. intros E. now inversion E. Qed.
Lemma lam_vals P r ps b vs : hevs P r [HLam ps b] vs -> vs = [HClo ps b r].
Proof. intros E. inversion E as [|? ? ? ? ? A B]; subst. inversion B; subst. apply lam_val in A. now subst. Qed.
Lemma omega_no free : forall w, ~ result [] free omega w.
Proof.
  intros w E. inversion E as [? v Ev|? Ee]; subst.
    + inversion Ev as [| | | | | | |? ? ? ? ? ? ? ? Ef Es L Eb]; subst. apply lam_val in Ef. injection Ef as -> -> ->. apply lam_vals in Es. subst.
      apply (proj1 self_no _ _ _ Eb); auto. now exists [], [].
    + assert (NL : forall r, ~ her [] free r (HLam [bs "x"] self)) by (intros r X; inversion X).
      inversion Ee as [| | | | | | | | |? ? ? X|? ? ? ? ? ? Ef X|? ? ? ? ? ? ? Ef X N|? ? ? ? ? ? ? Ef Es L Eb|? ? ? ? Ef]; subst.
      * now apply NL in X.
      * apply lam_val in Ef. injection Ef as -> -> ->. cbn in X. inversion X as [? ? ? Y|? ? ? ? ? Y]; subst; [now apply NL in Y|inversion Y].
      * apply lam_val in Ef. injection Ef as -> -> ->. now elim N.
      * apply lam_val in Ef. injection Ef as -> -> ->. apply lam_vals in Es. subst. apply (proj1 (self_noerr _) _ _ Eb); auto. now exists [], [].
      * apply lam_val in Ef. discriminate Ef.
Qed.
Lemma omega_nostray : ~ stray [] [] omega.
Proof.
  intros O. assert (NL : forall r, ~ stray [] r (HLam [bs "x"] self)) by (intros r X; inversion X).
    inversion O as [| | | | | | | | | | |? ? ? X|? ? ? ? ? ? Ef X|? ? ? ? ? ? ? Ef Es L Eb]; subst.
    + now apply NL in X.
    + apply lam_val in Ef. injection Ef as -> -> ->. cbn in X. inversion X as [? ? ? Y|? ? ? ? ? Y]; subst; [now apply NL in Y|inversion Y].
    + apply lam_val in Ef. injection Ef as -> -> ->. apply lam_vals in Es. subst. apply (proj1 self_nostray _ _ Eb); auto. now exists [], [].
Qed.
Example c217_omega : exists N s' os, Forall2 told [Some (HI 7)] os /\ forall n, (N <= n)%nat ->
  session prim212 n [bs "((lambda (x) (+ x 4)) 3)"] api212 = Some (os, s') /\
  pscm_eval_string prim212 n (bs "((lambda (x) (x x)) (lambda (x) (x x)))") s' = AFuel.
Proof.
  assert (Nx : plain_name api212 (bs "x")).
  { split; [apply named; [apply lower; [discriminate|reflexivity]|reflexivity]|]. intros v E. discriminate E. }
  assert (Wl : hwf (plain_name api212) (HLam [bs "x"] self)).
  { apply hwf_lam; [constructor; [exact Nx|constructor]|constructor; [intros []|constructor]|]. apply hwf_app; [exact Logic.I|apply hwf_var; exact Nx|constructor; [apply hwf_var; exact Nx|constructor]]. }
  assert (Sl : hscoped [] (unbound api212) [] (HLam [bs "x"] self)).
  { apply hs_lam. cbn [app]. apply hs_app; [|constructor; [|constructor]]; apply hs_var; left; now left. }
  apply (c217_never prim212 api212 [] [HApp (HLam [bs "x"] (HBin OAdd (v_ "x") (HNum 4))) [HNum 3]] [Some (HI 7)] omega numeric212 ready212).
  - constructor.
  - constructor.
  - constructor.
  - constructor.
  - constructor; [|constructor]. apply hwf_app; [exact Logic.I| |repeat constructor].
    apply hwf_lam; [constructor; [exact Nx|constructor]|constructor; [intros []|constructor]|]. apply hwf_bin; [apply hwf_var; exact Nx|now constructor].
  - constructor; [|constructor]. apply result_value.
    eapply hev_app with (ps := [bs "x"]) (vs := [HI 3]) (r' := []); [constructor|repeat constructor|reflexivity|].
    apply (hev_bin _ _ OAdd _ _ 3 4); [now constructor|constructor|intros [Q|[Q|Q]]; discriminate Q|reflexivity].
  - apply hwf_app; [exact Logic.I|exact Wl|constructor; [exact Wl|constructor]].
  - apply hs_app; [exact Sl|constructor; [exact Sl|constructor]].
  - exact (omega_no _).
  - exact omega_nostray.
Qed.
(* an expression that leaves the rules: (+ adder 1) *)
Example c217_stray : stray ho_progs [] (HBin OAdd (v_ "adder") (HNum 1)).
Proof.
  eapply sy_arith; [apply (hev_global ho_progs _ adder); [reflexivity|now left]|constructor|]. intros ((x & Q) & _). discriminate Q.
Qed.
