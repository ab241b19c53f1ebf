(** C216.  What the host gets back from a program with procedures as values when
    some of its expressions stop in an error. *)
From Coq Require Import String Lia.
From Verif Require Import Base NumModel NumSpec ParseModel ParseSpec PrintModel ParseProperties EnvModel EvalModel EvalMono ApiModel
  LangSpec LangProofs LangProofs2 LangProofs3 LangProperties HoSpec HoText HoProofs HoProperties HerSpec HerProofs.
Local Open Scope string_scope.
Local Open Scope Z_scope.
Local Open Scope list_scope.

Section Steps.
Variable prim : list Z -> list val -> pres.
Hypothesis HN : numeric prim.
Variable nm : list Z -> Prop.
Hypothesis NM : forall x, nm x -> name x.
Variable free : list Z -> Prop.
Notation hinv := (hinv nm free).
Lemma her_step P e go s : Forall (hwf_fn nm) P -> hwf nm e -> hinv P s -> her P free [] e -> runs_as prim go (hcode e) s ->
  exists N s', (forall n, (N <= n)%nat -> go n = AOk None s') /\ hinv P s' /\ a_key s' = Some (bs "error").
Proof.
  intros WP W [B R M] E (st1 & R1 & _ & Er & _).
  assert (B1 : hbase P nm free st1) by (exact (hbase_rest nm free P (a_st s) st1 R1 B)).
  destruct (proj1 (herfollows prim P nm free HN NM WP) [] e E W (rwf_nil nm) st1 g_env (all st1) B1 ltac:(auto) (erel_global nm (all st1) st1))
    as (st2 & E2 & N & H).
  pose proof E2 as (_ & _ & _ & M2 & _ & _ & D2).
  assert (B2 : hbase P nm free st2) by exact (hbase_ext P nm free st1 st2 E2 B1).
  assert (M1 : s_mods st2 <> []). { rewrite M2. destruct R1 as (_ & -> & _). exact M. }
  destruct (Er st2 D2) as (s3 & (L1 & L2) & Ky & G). exists N, s3. split; [auto|]. split; [|exact Ky].
  constructor; [exact (hbase_rest nm free P _ _ L1 B2)|now rewrite L2|]. destruct L1 as (_ & -> & _). exact M1.
Qed.
Lemma hres_steps P es : Forall (hwf_fn nm) P -> Forall (hwf nm) es -> forall ws gos s, hinv P s -> Forall2 (result P free) es ws ->
  Forall2 (does prim) gos (map hcode es) ->
  exists N s' os, (forall n, (N <= n)%nat -> seq gos n s = Some (os, s')) /\ Forall2 told ws os /\ hinv P s' /\
    a_key s' = herr_after ws (a_key s).
Proof.
  intros WP WE. induction WE as [|e es W _ IH]; intros ws gos s I E G.
  - inversion E; subst. inversion G; subst. exists 0%nat, s, []. split; [reflexivity|split; [constructor|split; [exact I|reflexivity]]].
  - inversion E as [|? w ? ws' Ew Es]; subst. cbn [map] in G. inversion G as [|g ? gos' ? Gg Gs]; subst.
    pose proof (Gg s (hi_room _ _ _ _ I)) as RA.
    assert (X : exists N s1 o, (forall n, (N <= n)%nat -> g n s = AOk o s1) /\ told w o /\ hinv P s1 /\ a_key s1 = herr_after [w] (a_key s)).
    { inversion Ew as [? v Ev|? Ee]; subst.
      - destruct (hexp_step prim HN nm NM free P e v (fun n => g n s) s WP W I Ev RA) as (N1 & s1 & o & H1 & So & I1 & K1). exists N1, s1, o. auto.
      - destruct (her_step P e (fun n => g n s) s WP W I Ee RA) as (N1 & s1 & H1 & I1 & K1). exists N1, s1, None. split; [exact H1|split; [reflexivity|auto]]. }
    destruct X as (N1 & s1 & o & H1 & So & I1 & K1).
    destruct (IH ws' gos' s1 I1 Es Gs) as (N2 & s2 & os & H2 & Sos & I2 & K2). exists (N1 + N2)%nat, s2, (o :: os).
    split; [|split; [now constructor|split; [exact I2|]]].
    + intros n Hn. cbn [seq]. rewrite H1, H2 by lia. reflexivity.
    + rewrite K2, K1. unfold herr_after. cbn [existsb]. destruct w; cbn [orb]; [reflexivity|]. now destruct (existsb _ ws').
Qed.
End Steps.

(** The texts of the definitions, then those of the expressions: from some depth of
    the C stack on the answers are the values, and NULL where the rules give an
    error; the session goes on after an error, which stays pending. *)
Theorem c216_session : forall prim s P es ws, numeric prim -> ready s ->
  Forall (hwf_fn (plain_name s)) P -> NoDup (map h_name P) -> Forall (unbound s) (map h_name P) ->
  Forall (hwf (plain_name s)) es -> Forall2 (result P (unbound s)) es ws ->
  exists N s' os, (forall n, (N <= n)%nat ->
      session prim n (map hshow_fn P ++ map hshow es) s = Some (repeat (Some VNone) (length P) ++ os, s')) /\
    Forall2 told ws os /\ a_key s' = herr_after ws (a_key s).
Proof.
  intros prim s P es ws HN R WP ND F WE E.
  assert (NM : forall x, plain_name s x -> name x) by (intros x (N & _); exact N).
  destruct (hfns_steps prim (plain_name s) (unbound s) P WP []
    (map (fun t n s => pscm_eval_string prim n t s) (map hshow_fn P)) s (hinv_start s R) F ND) as (s1 & H1 & I1 & K1).
  { apply does_strings. clear - WP NM. induction WP as [|d P W _ IH]; cbn [map]; constructor; auto. exists (hdatum_fn d).
    split; [exact (hread_fn (plain_name s) NM d W)|apply hprogram_fn]. }
  destruct (hres_steps prim HN (plain_name s) NM (unbound s) P es WP WE ws
    (map (fun t n s => pscm_eval_string prim n t s) (map hshow es)) s1 I1 E) as (N & s2 & os & H2 & So & _ & K2).
  { apply does_strings. clear - WE NM. induction WE as [|e es W _ IH]; cbn [map]; constructor; auto. exists (hdatum e).
    split; [exact (hread_exp (plain_name s) NM e W)|apply hprogram_code]. }
  exists (1 + N)%nat, s2, os. split; [|split; [exact So|congruence]].
  intros n Hn. rewrite session_seq, map_app, seq_app, H1, H2 by lia. reflexivity.
Qed.
Print Assumptions c216_session.

(** An expression does not have both a value and an error, in whatever variables. *)
Lemma hexcl P free : NoDup (map h_name P) ->
  (forall r e, her P free r e -> forall v, ~ hev P r e v) /\
  (forall r es, hers P free r es -> forall vs, ~ hevs P r es vs).
Proof.
  intros ND. assert (ONE : forall r e v v', hev P r e v -> hev P r e v' -> v = v') by (intros r e v v' A; now apply (proj1 (hone P ND))).
  assert (ONES : forall r e v v', hevs P r e v -> hevs P r e v' -> v = v') by (intros r e v v' A; now apply (proj2 (hone P ND))).
  assert (FST : forall r es vs k, hevs P r es vs -> hevs P r (firstn k es) (firstn k vs)).
  { intros r es vs k E. revert k. induction E; intros [|k]; cbn; constructor; auto. }
  apply her_hers_min.
  - intros r x L (U1 & U2) v E. inversion E; subst; [congruence|]. apply U2. now apply in_map.
  - intros r o a b x Ea Eb Dv v E. inversion E; subst. match goal with A : divides o -> ?y' <> 0 |- _ => assert (Q : HI y' = HI 0) by eauto; injection Q as ->; now elim (A Dv) end.
  - intros r o a b _ IH v E. inversion E; subst. eapply IH; eauto.
  - intros r o a b w _ _ IH v E. inversion E; subst. eapply IH; eauto.
  - intros r c a b t f _ IH v E. inversion E; subst. eapply IH; eauto.
  - intros r c a b t f w _ _ IH v E. inversion E; subst. eapply IH; eauto.
  - intros r c a b t f x y Ea Eb _ IH v E. inversion E; subst.
    match goal with A : hev P r a (HI ?x'), B : hev P r b (HI ?y') |- _ =>
      first [constr_eq x' x; fail 1 | assert (Q1 : HI x = HI x') by eauto; assert (Q2 : HI y = HI y') by eauto; injection Q1 as <-; injection Q2 as <-] end.
    eapply IH; eauto.
  - intros r x a b _ IH v E. inversion E; subst. eapply IH; eauto.
  - intros r x a b w Ea _ IH v E. inversion E; subst. match goal with A : hev P r a ?w' |- _ => first [constr_eq w' w; fail 1|assert (w = w') by eauto; subst w'] end.
    eapply IH; eauto.
  - intros r f args _ IH v E. inversion E; subst. eapply IH; eauto.
  - intros r f args ps b r' Ef _ IH v E. inversion E; subst.
    match goal with A : hev P r f (HClo ?p ?q ?s) |- _ => first [constr_eq p ps; fail 1|assert (Q : HClo ps b r' = HClo p q s) by eauto; injection Q as <- <- <-] end.
    eapply IH, FST; eauto.
  - intros r f args ps b r' vs Ef Es Ne v E. inversion E; subst.
    match goal with A : hev P r f (HClo ?p ?q ?s) |- _ => first [constr_eq p ps; fail 1|assert (Q : HClo ps b r' = HClo p q s) by eauto; injection Q as <- <- <-] end.
    match goal with A : hevs P r args _ |- _ => apply hevs_length in A end. congruence.
  - intros r f args ps b r' vs Ef Es Lv _ IH v E. inversion E; subst.
    match goal with A : hev P r f (HClo ?p ?q ?s) |- _ => first [constr_eq p ps; fail 1|assert (Q : HClo ps b r' = HClo p q s) by eauto; injection Q as <- <- <-] end.
    match goal with A : hevs P r args ?ws |- _ => first [constr_eq ws vs; fail 1|assert (vs = ws) by eauto; subst ws] end.
    eapply IH; eauto.
  - intros r f args z Ef _ v E. inversion E; subst. assert (Q : HI z = HClo ps b r') by eauto. discriminate Q.
  - intros r a l _ IH vs E. inversion E; subst. eapply IH; eauto.
  - intros r a l v _ _ IH vs E. inversion E; subst. eapply IH; eauto.
Qed.
Theorem c216_exclusive : forall P free e w1 w2, NoDup (map h_name P) -> result P free e w1 -> result P free e w2 -> w1 = w2.
Proof.
  intros P free e w1 w2 ND R1 R2. inversion R1; inversion R2; subst; auto.
  - f_equal. now apply (proj1 (hone P ND) [] e).
  - now elim (proj1 (hexcl P free ND) [] e H2 v).
  - now elim (proj1 (hexcl P free ND) [] e H v).
Qed.
Print Assumptions c216_exclusive.

(** ** Concrete cases *)
Definition her_exps : list hexp :=
  [HApp (HApp (v_ "adder") [HNum 3]) [HNum 4; HNum 5];
   HApp (HApp (v_ "adder") [HNum 3]) [];
   HApp (HApp (v_ "iter") [v_ "adder"; HNum 0; HNum 7]) [v_ "nowhere"];
   HApp (v_ "compose") [v_ "adder"; v_ "nowhere"];
   HApp (HApp (v_ "compose") [HLam [bs "y"] (HBin OQuo (HNum 1) (v_ "y")); v_ "adder"; HNum 0]) [HNum 0];
   HApp (HApp (v_ "compose") [HLam [bs "y"] (HBin OQuo (HNum 1) (v_ "y")); HLam [bs "y"] (v_ "y")]) [HNum 0];
   HApp (HApp (v_ "adder") [HNum 3]) [HNum 4]].
Example c216_text : map hshow her_exps = map bs ["((adder 3) 4 5)"; "((adder 3))"; "((iter adder 0 7) nowhere)"; "(compose adder nowhere)";
  "((compose (lambda (y) (quotient 1 y)) adder 0) 0)"; "((compose (lambda (y) (quotient 1 y)) (lambda (y) y)) 0)"; "((adder 3) 4)"].
Proof. reflexivity. Qed.
Example c216_runs : option_map (fun p => (map (fun o => match o with Some (VInt z) => Some z | _ => None end) (fst p), a_key (snd p)))
  (session prim212 60 (map hshow_fn ho_progs ++ map hshow her_exps) api212) =
  Some ([None; None; None; None; None; None; None; None; None; Some 7], Some (bs "error")).
Proof. vm_compute. reflexivity. Qed.
(* a procedure that fails where it is called, not where it was made *)
Example c216_late : her ho_progs (unbound api212) []
  (HApp (HApp (v_ "compose") [HLam [bs "y"] (HBin OQuo (HNum 1) (v_ "y")); HLam [bs "y"] (v_ "y")]) [HNum 0]).
Proof.
  set (q := HBin OQuo (HNum 1) (v_ "y")). set (F := HClo [bs "y"] q []). set (G := HClo [bs "y"] (v_ "y") []).
  eapply her_body with (ps := [bs "x"]) (vs := [HI 0]) (r' := [(bs "f", F); (bs "g", G)]) (b := HApp (v_ "f") [HApp (v_ "g") [v_ "x"]]).
  - eapply hev_app with (ps := [bs "f"; bs "g"]) (vs := [F; G]) (r' := []).
    + apply (hev_global ho_progs _ compose); [reflexivity|right; now left].
    + repeat constructor.
    + reflexivity.
    + constructor.
  - repeat constructor.
  - reflexivity.
  - eapply her_body with (ps := [bs "y"]) (vs := [HI 0]) (r' := []) (b := q); [now constructor| |reflexivity|].
    + constructor; [|constructor]. eapply hev_app with (ps := [bs "y"]) (vs := [HI 0]) (r' := []); [now constructor| |reflexivity|now constructor].
      repeat constructor.
    + apply her_zero with 1; [constructor|now constructor|now left].
Qed.
