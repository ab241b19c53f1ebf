(** C215.  What the host gets back when it loads a program whose procedures are
    values: they are called with the variables of the place where they were
    written. *)
From Coq Require Import String Lia.
From Verif Require Import Base NumModel NumSpec ParseModel ParseSpec PrintModel ParseProperties EnvModel EvalModel EvalMono ApiModel
  LangSpec LangProofs LangProofs2 LangProofs3 LangProperties HoSpec HoText HoProofs.
From Verif Require EnvProofs.
Local Open Scope string_scope.
Local Open Scope Z_scope.
Local Open Scope list_scope.

Section Steps.
Variable prim : list Z -> list val -> pres.
Hypothesis HN : numeric prim.
Variable nm : list Z -> Prop.
Hypothesis NM : forall x, nm x -> name x.
Variable free : list Z -> Prop.
Notation hbase P := (hbase P nm free).

Record hinv (P : list hfn) (s : api) : Prop := {
  hi_base : hbase P (a_st s);
  hi_room : (length (d_catch (s_dyn (a_st s))) < 99)%nat;
  hi_mods : s_mods (a_st s) <> [] }.
Lemma hbase_rest P a b : rest a b -> hbase P a -> hbase P b.
Proof.
  intros (F & M & C & Pr) B. destruct B.
  unfold frame_at, ob_lookup, mod_at in *.
  constructor; unfold frame_at, ob_lookup, mod_at; rewrite ?F, ?M, ?C; auto.
  intros x U V. specialize (hb_free x U V). unfold env_search, env_exist, search_entry, mod_search, mod_find, ob_lookup, mod_at, frame_at in *.
  cbn [e_chain e_mod g_env firstn search_chain] in *.
  assert (UL : forall l, uses_lookup b l x = uses_lookup a l x) by (induction l; cbn; [reflexivity|]; unfold ob_lookup, mod_at; rewrite M; now rewrite IHl).
  unfold frame_at in *. rewrite UL, F, M, C. exact hb_free.
Qed.
Lemma hexp_step P e v go s : Forall (hwf_fn nm) P -> hwf nm e -> hinv P s -> hev P [] e v -> runs_as prim go (hcode e) s ->
  exists N s' o, (forall n, (N <= n)%nat -> go n = AOk o s') /\ shown v o /\ hinv P s' /\ a_key s' = a_key s.
Proof.
  intros WP W [B R M] E (st1 & R1 & V & _).
  assert (B1 : hbase P st1) by (eapply hbase_rest; eauto).
  destruct (proj1 (hfollows prim P nm free HN NM WP) [] e v E W (rwf_nil nm) st1 g_env (all st1) B1 ltac:(auto) (erel_global nm (all st1) st1))
    as (st2 & w & E2 & Vw & N & H).
  pose proof E2 as (_ & _ & _ & M2 & _ & _ & D2).
  assert (B2 : hbase P st2) by exact (hbase_ext P nm free st1 st2 E2 B1).
  assert (M1 : s_mods st2 <> []). { rewrite M2. destruct R1 as (_ & -> & _). exact M. }
  destruct (V st2 w D2) as (s3 & (L1 & L2) & Ky & G). exists N, s3, (Some w). split; [auto|]. split; [|split; [|exact Ky]].
  - inversion Vw; subst; cbn [shown]; eauto.
  - constructor; [eapply hbase_rest; eauto|now rewrite L2|]. destruct L1 as (_ & -> & _). exact M1.
Qed.
Lemma hfn_step P d go s : hwf_fn nm d -> hinv P s -> free (h_name d) -> ~ In (h_name d) (map h_name P) -> runs_as prim go (hcode_fn d) s ->
  exists s', (forall n, (1 <= n)%nat -> go n = AOk (Some VNone) s') /\ hinv (P ++ [d]) s' /\ a_key s' = a_key s.
Proof.
  intros W [B R M] Fr NI (st1 & R1 & V & _ & _).
  assert (B1 : hbase P st1) by (eapply hbase_rest; eauto).
  set (c := VProc (map VSym (h_params d)) false [hcode (h_body d)] g_env).
  set (st2 := ob_set st1 root (h_name d) c).
  assert (EV : forall n, (1 <= n)%nat -> eval prim n g_env (hcode_fn d) st1 = Ret VNone st2).
  { intros [|n] Hn; [lia|]. rewrite (eval_S prim). unfold hcode_fn, sym.
    rewrite (step_form prim n n g_env (bs "define") FDefine).
    - unfold st2, c. rewrite <- (hb_cur _ _ _ _ B1). now destruct (h_params d).
    - apply (h_plain P nm free (all st1) st1 g_env [] (bs "define")); auto; [now apply erel_global|].
      intros u. apply (hb_key _ _ _ _ B1). cbn. tauto.
    - reflexivity. }
  assert (M1 : s_mods st1 <> []) by (destruct R1 as (_ & -> & _); exact M).
  assert (L1 : (0 < length (s_mods st1))%nat) by (destruct (s_mods st1); cbn; [congruence|lia]).
  assert (OB : forall u x, ob_lookup st2 u x = if Nat.eqb u root then (if beq (h_name d) x then Some c else ob_lookup st1 u x) else ob_lookup st1 u x).
  { intros u x. unfold st2, ob_set, ob_lookup, mod_at, set_mod. cbn [s_mods]. rewrite EnvProofs.nth_upd by exact L1. unfold root.
    rewrite (Nat.eqb_sym u 0). destruct (Nat.eqb 0 u) eqn:Q; [|reflexivity]. apply Nat.eqb_eq in Q as <-. cbn [m_ob]. apply EnvProofs.assoc_put. }
  assert (US : m_uses (mod_at st2 root) = m_uses (mod_at st1 root)).
  { unfold st2, ob_set, mod_at, set_mod. cbn [s_mods]. rewrite EnvProofs.nth_upd by exact L1. reflexivity. }
  assert (G0 : env_search st1 g_env (h_name d) = None) by (apply (hb_free _ _ _ _ B1); auto).
  assert (B2 : hbase (P ++ [d]) st2).
  { destruct B1. constructor; auto.
    - intros d' I. apply in_app_or in I as [I|[<-|[]]].
      + destruct (hb_fn d' I) as (X & Y). split; [exact X|]. rewrite OB. cbn [Nat.eqb root]. rewrite beq_neq; [exact Y|].
        intros Q. apply NI. rewrite Q. now apply in_map.
      + split.
        * unfold env_search, env_exist, search_entry in G0. cbn [e_chain g_env firstn search_chain] in G0.
          destruct (assoc (h_name d) (frame_at st1 0)) eqn:A; [discriminate|exact A].
        * rewrite OB. cbn [Nat.eqb root]. now rewrite beq_refl.
    - intros x Fx Nx. assert (Ux : ~ In x (map h_name P)). { intros I. apply Nx. rewrite map_app. apply in_or_app. now left. }
      assert (Nd : h_name d <> x). { intros <-. apply Nx. rewrite map_app. apply in_or_app. right. now left. }
      specialize (hb_free x Fx Ux). unfold env_search, env_exist, search_entry, mod_search, mod_find in *.
      cbn [e_chain e_mod g_env firstn search_chain] in *. change (frame_at st2 0) with (frame_at st1 0). change (s_cur st2) with (s_cur st1).
      rewrite hb_cur in *. rewrite US.
      assert (O1 : forall u, ob_lookup st2 u x = ob_lookup st1 u x).
      { intros u. rewrite OB, beq_neq by exact Nd. now destruct (Nat.eqb u root). }
      assert (UL : forall l, uses_lookup st2 l x = uses_lookup st1 l x) by (induction l; cbn; [reflexivity|]; now rewrite O1, IHl).
      now rewrite UL, !O1. }
  destruct (V st2 VNone eq_refl) as (s3 & (L3 & L4) & Ky & G). exists s3. split; [|split]; auto.
  constructor.
  - eapply hbase_rest; eauto.
  - now rewrite L4.
  - destruct L3 as (_ & -> & _). unfold st2, ob_set, set_mod. cbn [s_mods]. intros Q. apply (f_equal (@length _)) in Q.
    rewrite EnvProofs.upd_length in Q. cbn in Q. lia.
Qed.
Lemma hexps_steps P es : Forall (hwf_fn nm) P -> Forall (hwf nm) es -> forall vs gos s, hinv P s -> Forall2 (hev P []) es vs ->
  Forall2 (does prim) gos (map hcode es) ->
  exists N s' os, (forall n, (N <= n)%nat -> seq gos n s = Some (os, s')) /\ Forall2 shown vs os /\ hinv P s' /\ a_key s' = a_key s.
Proof.
  intros WP WE. induction WE as [|e es W _ IH]; intros vs gos s I E G.
  - inversion E; subst. inversion G; subst. exists 0%nat, s, []. split; [reflexivity|split; [constructor|auto]].
  - inversion E as [|? v ? vs' Ev Es]; subst. cbn [map] in G. inversion G as [|g ? gos' ? Gg Gs]; subst.
    destruct (hexp_step P e v (fun n => g n s) s WP W I Ev (Gg s (hi_room _ _ I))) as (N1 & s1 & o & H1 & So & I1 & K1).
    destruct (IH vs' gos' s1 I1 Es Gs) as (N2 & s2 & os & H2 & Sos & I2 & K2). exists (N1 + N2)%nat, s2, (o :: os).
    split; [|split; [now constructor|split; [exact I2|congruence]]].
    intros n Hn. cbn [seq]. rewrite H1, H2 by lia. reflexivity.
Qed.
Lemma hfns_steps ds : Forall (hwf_fn nm) ds -> forall P gos s, hinv P s -> Forall free (map h_name ds) -> NoDup (map h_name (P ++ ds)) ->
  Forall2 (does prim) gos (map hcode_fn ds) ->
  exists s', (forall n, (1 <= n)%nat -> seq gos n s = Some (repeat (Some VNone) (length ds), s')) /\ hinv (P ++ ds) s' /\ a_key s' = a_key s.
Proof.
  intros WD. induction WD as [|d ds W _ IH]; intros P gos s I F ND G.
  - inversion G; subst. exists s. rewrite app_nil_r. split; [reflexivity|split; [exact I|reflexivity]].
  - cbn [map] in *. inversion F; subst. inversion G as [|g ? gos' ? Gg Gs]; subst.
    assert (NI : ~ In (h_name d) (map h_name P)).
    { rewrite map_app in ND. cbn [map] in ND. intros X. apply NoDup_remove_2 in ND. apply ND. apply in_or_app. now left. }
    destruct (hfn_step P d (fun n => g n s) s W I H1 NI (Gg s (hi_room _ _ I))) as (s1 & X1 & I1 & K1).
    destruct (IH (P ++ [d]) gos' s1 I1 H2) as (s2 & X2 & I2 & K2); auto. { now rewrite <- app_assoc. }
    exists s2. rewrite <- app_assoc in I2. split; [|split; [exact I2|congruence]].
    intros n Hn. cbn [seq repeat length]. rewrite X1, X2 by lia. reflexivity.
Qed.
End Steps.

Lemma hinv_start s : ready s -> hinv (plain_name s) (unbound s) [] s.
Proof.
  intros R. pose proof (inv_start s R) as [B _ _]. destruct R as [A Bc C D E F G]. constructor; auto. constructor; auto.
  - intros x v (_ & H). apply H.
  - intros d [].
Qed.

(** The texts of the definitions, then the texts of the expressions, one call of
    pscm_eval_string each: from some depth of the C stack on, the answers are the
    values the rules give, in order -- the integer, or some procedure. *)
Theorem c215_session : forall prim s P es vs, numeric prim -> ready s ->
  Forall (hwf_fn (plain_name s)) P -> NoDup (map h_name P) -> Forall (unbound s) (map h_name P) ->
  Forall (hwf (plain_name s)) es -> Forall2 (hev P []) es vs ->
  exists N s' os, (forall n, (N <= n)%nat ->
      session prim n (map hshow_fn P ++ map hshow es) s = Some (repeat (Some VNone) (length P) ++ os, s')) /\
    Forall2 shown vs os /\ a_key s' = a_key s.
Proof.
  intros prim s P es vs HN R WP ND F WE E.
  assert (NM : forall x, plain_name s x -> name x) by (intros x (N & _); exact N).
  destruct (hfns_steps prim (plain_name s) (unbound s) P WP []
    (map (fun t n s => pscm_eval_string prim n t s) (map hshow_fn P)) s (hinv_start s R) F ND) as (s1 & H1 & I1 & K1).
  { apply does_strings. clear - WP NM. induction WP as [|d P W _ IH]; cbn [map]; constructor; auto. exists (hdatum_fn d).
    split; [exact (hread_fn (plain_name s) NM d W)|apply hprogram_fn]. }
  destruct (hexps_steps prim HN (plain_name s) NM (unbound s) P es WP WE vs
    (map (fun t n s => pscm_eval_string prim n t s) (map hshow es)) s1 I1 E) as (N & s2 & os & H2 & So & _ & K2).
  { apply does_strings. clear - WE NM. induction WE as [|e es W _ IH]; cbn [map]; constructor; auto. exists (hdatum e).
    split; [exact (hread_exp (plain_name s) NM e W)|apply hprogram_code]. }
  exists (1 + N)%nat, s2, os. split; [|split; [exact So|congruence]].
  intros n Hn. rewrite session_seq, map_app, seq_app, H1, H2 by lia. reflexivity.
Qed.
Print Assumptions c215_session.

(** The rules give an expression one value. *)
Lemma hone P : NoDup (map h_name P) ->
  (forall r e v, hev P r e v -> forall v', hev P r e v' -> v = v') /\
  (forall r es vs, hevs P r es vs -> forall vs', hevs P r es vs' -> vs = vs').
Proof.
  intros ND.
  assert (DD : forall d d', In d P -> In d' P -> h_name d = h_name d' -> d = d').
  { clear - ND. induction P as [|x P IH]; [intros d d' []|]. cbn [map] in ND. inversion ND; subst. intros d d' [->|I] [->|I'] Q; auto.
    - elim H1. rewrite Q. now apply in_map.
    - elim H1. rewrite <- Q. now apply in_map. }
  apply hev_hevs_min.
  - intros r z v' E. now inversion E.
  - intros r x v L v' E. inversion E; subst; congruence.
  - intros r d L I v' E. inversion E; subst; [congruence|]. now rewrite (DD d d0).
  - intros r o a b x y _ IHa _ IHb _ _ v' E. inversion E; subst.
    match goal with A : hev P r a _, B : hev P r b _ |- _ => apply IHa in A; apply IHb in B; congruence end.
  - intros r c a b t f x y v _ IHa _ IHb _ IHr v' E. inversion E; subst.
    match goal with A : hev P r a _, B : hev P r b _ |- _ => apply IHa in A; apply IHb in B; injection A as <-; injection B as <- end. auto.
  - intros r x a b w v _ IHa _ IHb v' E. inversion E; subst. match goal with A : hev P r a _ |- _ => apply IHa in A; subst end. auto.
  - intros r ps b v' E. now inversion E.
  - intros r f args ps b r' vs v _ IHf _ IHs _ _ IHb v' E. inversion E; subst.
    match goal with A : hev P r f _, B : hevs P r args _ |- _ => apply IHf in A; apply IHs in B; injection A as <- <- <-; subst end. auto.
  - intros r vs' E. now inversion E.
  - intros r a l v vs _ IHa _ IHl vs' E. inversion E; subst. f_equal; auto.
Qed.
Theorem c215_one_value : forall P r e v1 v2, NoDup (map h_name P) -> hev P r e v1 -> hev P r e v2 -> v1 = v2.
Proof. intros P r e v1 v2 ND E1 E2. exact (proj1 (hone P ND) _ _ _ E1 _ E2). Qed.
Print Assumptions c215_one_value.

(** ** Concrete cases: a curried adder, composition, an iterator given a procedure,
    a local variable that hides the one a procedure was written under *)
Definition v_ (x : string) : hexp := HVar (bs x).
Definition adder : hfn := HFn (bs "adder") [bs "n"] (HLam [bs "x"] (HBin OAdd (v_ "x") (v_ "n"))).
Definition compose : hfn := HFn (bs "compose") [bs "f"; bs "g"] (HLam [bs "x"] (HApp (v_ "f") [HApp (v_ "g") [v_ "x"]])).
Definition iter : hfn := HFn (bs "iter") [bs "f"; bs "k"; bs "x"]
  (HIf REq (v_ "k") (HNum 0) (v_ "x") (HApp (v_ "iter") [v_ "f"; HBin OSub (v_ "k") (HNum 1); HApp (v_ "f") [v_ "x"]])).
Definition ho_progs : list hfn := [adder; compose; iter].
Definition ho_exps : list hexp :=
  [HApp (HApp (v_ "adder") [HNum 3]) [HNum 4];
   HLet (bs "n") (HNum 100) (HApp (HApp (v_ "adder") [HNum 3]) [v_ "n"]);
   HApp (HApp (v_ "compose") [HApp (v_ "adder") [HNum 1]; HLam [bs "y"] (HBin OMul (v_ "y") (HNum 2))]) [HNum 20];
   HApp (v_ "iter") [HApp (v_ "adder") [HNum 5]; HNum 6; HNum 0]; v_ "adder"; HApp (HLam [] (HNum 9)) []].
Example c215_text : map hshow ho_exps = map bs ["((adder 3) 4)"; "(let ((n 100)) ((adder 3) n))";
  "((compose (adder 1) (lambda (y) (* y 2))) 20)"; "(iter (adder 5) 6 0)"; "adder"; "((lambda () 9))"].
Proof. reflexivity. Qed.
Example c215_runs : option_map (fun p => map (fun o => match o with Some (VInt z) => Some z | _ => None end) (fst p))
  (session prim212 60 (map hshow_fn ho_progs ++ map hshow ho_exps) api212) =
  Some [None; None; None; Some 7; Some 103; Some 41; Some 30; None; Some 9].
Proof. vm_compute. reflexivity. Qed.
Example c215_wf : Forall (hwf_fn (plain_name api212)) ho_progs /\ Forall (hwf (plain_name api212)) ho_exps.
Proof.
  assert (N : forall x, x <> [] -> forallb (fun c => (97 <=? c) && (c <=? 122)) x = true ->
    existsb (beq x) (keywords ++ map op_name [OAdd; OSub; OMul; OQuo; ORem; OMod] ++ map rel_name [REq; RLt; RGt; RLe; RGe]) = false ->
    assoc x (frame_at (a_st api212) 0) = None -> plain_name api212 x).
  { intros x A B C D. split; [apply named; [now apply lower|exact C]|]. intros v E. congruence. }
  split; unfold ho_progs, ho_exps, adder, compose, iter, v_; repeat first
  [ apply Forall_nil | apply Forall_cons
  | (split; [|split; [|split]]) | apply hwf_num; reflexivity | apply hwf_bin | apply hwf_if | apply hwf_lam | apply hwf_let
  | apply hwf_app; [exact Logic.I| |] | apply hwf_var
  | apply N; [discriminate|reflexivity|reflexivity|reflexivity]
  | apply NoDup_nil | apply NoDup_cons; [cbn; intros Q; repeat destruct Q as [Q|Q]; first [discriminate Q|exact Q]|] ].
Qed.
(* (let ((n 100)) ((adder 3) n)): the n of the call is not the n of the procedure *)
Example c215_lexical : hev ho_progs [] (HLet (bs "n") (HNum 100) (HApp (HApp (v_ "adder") [HNum 3]) [v_ "n"])) (HI 103).
Proof.
  apply hev_let with (HI 100); [constructor|].
  eapply hev_app with (ps := [bs "x"]) (vs := [HI 100]) (r' := [(bs "n", HI 3)]) (b := HBin OAdd (v_ "x") (v_ "n")).
  - eapply hev_app with (ps := [bs "n"]) (vs := [HI 3]) (r' := []).
    + apply (hev_global ho_progs _ adder); [reflexivity|now left].
    + repeat constructor.
    + reflexivity.
    + constructor.
  - repeat constructor.
  - reflexivity.
  - apply (hev_bin _ _ OAdd _ _ 100 3); try (now constructor). intros [Q|[Q|Q]]; discriminate Q.
Qed.
