(** A run of the machine of MachModel that ends without a continuation has an
    evaluation in the natural semantics of MachNat: completeness. *)
From Coq Require Import String List ZArith Bool Lia.
From Verif Require Import MachModel MachSpec MachProofs MachProofs2 MachNat MachNatProofs MachNatSim MachNatOk.
Import ListNotations.
Local Open Scope string_scope.
Local Open Scope list_scope.
Local Open Scope nat_scope.

Definition live (n : nat) (s : mst) : Prop := (exists s', ends n s s') /\ forall s', steps s s' -> covered s' /\ m_conts s' = m_conts s.
Lemma live_next n s : live n s -> match step s with Next s' => exists n', n = S n' /\ live n' s' | Final _ _ | Uncaught _ _ => True | _ => False end.
Proof.
  intros ((sE & E) & G). destruct n as [|n]; [destruct E as [(v & E) | (key & E)]; discriminate E|].
  unfold ends in E. cbn [run] in E. destruct (step s) as [s1| | | |] eqn:X; auto; [|destruct E as [(v & E) | (key & E)]; discriminate E|destruct E as [(v & E) | (key & E)]; discriminate E].
  exists n. split; [reflexivity|]. split; [exists sE; exact E|]. intros s' S1. destruct (G s') as (A & B); [eapply steps_more; eauto|]. split; [exact A|].
  destruct (G s1) as (_ & C); [apply steps_one; exact X|]. congruence.
Qed.
Lemma live_steps s s' : steps s s' -> forall n, live n s -> exists n', n' <= n /\ live n' s'.
Proof.
  induction 1 as [s|s s1 s2 X S IH]; intros n L; [exists n; auto|]. pose proof (live_next _ _ L) as Q. rewrite X in Q. destruct Q as (n1 & -> & L1).
  destruct (IH _ L1) as (n2 & N & L2). exists n2. split; [lia|exact L2].
Qed.
Lemma live_back n s s' : step s = Next s' -> match m_ctrl s with CThrow _ _ => False | _ => True end -> m_conts s' = m_conts s -> live n s' -> live (S n) s.
Proof.
  intros X N C ((sE & E) & G). split; [exists sE; unfold ends in *; cbn [run]; rewrite X; exact E|]. intros s2 S2. inversion S2 as [s3 Q|s3 s4 s5 Q1 Q2]; subst.
  - split; [|reflexivity]. unfold covered. destruct (m_ctrl s2); auto. destruct N.
  - rewrite X in Q1. inversion Q1; subst. destruct (G _ Q2) as (A & B). split; [exact A|congruence].
Qed.
Lemma live_covered n s : live n s -> covered s.
Proof. intros (_ & G). apply G. apply steps_refl. Qed.
Lemma live_grown n s c : live n s -> forall s', step s = Next s' -> m_conts s' <> m_conts s ++ [c].
Proof.
  intros (_ & G) s' X E. destruct (G s') as (_ & B); [apply steps_one; exact X|]. rewrite B in E. apply (f_equal (@length _)) in E. rewrite app_length in E. cbn in E. lia.
Qed.

Definition comp (n : nat) : Prop := forall d m t h c ea ei k cts cs w g nx cr,
  live n (mkM c k h cts cs 0 w g nx cr) -> ctrl_is h t c ea ei -> agree h m -> ctx cs k nx d -> okm m -> okt (fl m) t -> exists o m', ev d m t o m'.
Lemma comp_sub n d m t h c ea ei F k cts cs w g nx cr : live n (mkM c (F :: k) h cts cs 0 w g nx cr) -> comp n -> plain F -> ctrl_is h t c ea ei -> agree h m -> ctx cs k nx d -> okm m -> okt (fl m) t ->
  (exists q m1, ev d m t (RStop q) m1) \/
  exists v m1 h1 w1 g1 n1 cr1 n2, ev d m t (RVal v) m1 /\ agree h1 m1 /\ okm m1 /\ okv (fl m1) v /\ fl m <= fl m1 /\ kept ea ei h h1 /\ n2 <= n /\
    live n2 (mkM (CRet v) (F :: k) h1 cts cs 0 w1 g1 n1 cr1) /\ ctx cs k n1 d.
Proof.
  intros L C P CI A CX M T. assert (CX2 : ctx cs (F :: k) nx d) by (eapply ctx_push; [exact P|exact CX|lia]).
  destruct (C _ _ _ _ _ _ _ _ _ _ _ _ _ _ L CI A CX2 M T) as (o & m1 & E). destruct o as [v|q]; [|left; eauto].
  right. destruct (sim_all _ _ _ _ _ E _ _ _ _ (F :: k) cts cs w g nx cr CI A CX2) as (h1 & w1 & g1 & n1 & cr1 & S & A1 & K1 & N1).
  destruct (live_steps _ _ S _ L) as (n2 & N2 & L2). destruct (ev_ok _ _ _ _ _ E M T) as (M1 & V1 & F1). cbn [oko] in V1.
  exists v, m1, h1, w1, g1, n1, cr1, n2. split; [exact E|]. split; [exact A1|]. split; [exact M1|]. split; [exact V1|]. split; [exact F1|]. split; [exact K1|]. split; [exact N2|]. split; [exact L2|].
  eapply ctx_more; eauto.
Qed.
Lemma var_cases h m e x : agree h m -> (exists o v, bound_at (frames m) e x o v) \/ unbound (frames m) e x.
Proof.
  intro A. destruct (owner h e x) as [o|] eqn:O1.
  - left. destruct (owner_bound _ _ _ _ A _ _ O1) as (v & B & _). eauto.
  - right. intros o v B. pose proof (bound_valid _ _ _ _ _ B) as L. rewrite <- (env_len _ _ A) in L. unfold owner in O1.
    destruct (bound_owner _ _ _ _ _ _ A B (S (length (h_envs h)))) as (Q & _); [lia|]. congruence.
Qed.
Lemma bind_total fe ex ps : forall r vs m, exists o, bind_all fe ex ps r vs m o.
Proof.
  induction ps as [|p ps IH]; intros r vs m.
  - destruct r as [y|]; [destruct (new_list vs (cells m)) as [l c] eqn:N; eexists; eapply b_rest; exact N|]. destruct vs; eexists; constructor.
  - destruct vs as [|v vs]; [|destruct (IH r vs (bind_var fe p v m)) as (o & B); eexists; eapply b_next; exact B].
    destruct r as [y|]; [|eexists; constructor]. destruct ex; eexists; [apply b_few_exact; reflexivity|apply b_few_rest; reflexivity].
Qed.
Lemma proc_dec f : procedure f \/ ~ procedure f.
Proof. destruct f; cbn; auto. Qed.
Lemma fun_dec f : function f \/ ~ function f.
Proof. destruct f; cbn; auto. Qed.
Lemma tag_dec t : good_tag t \/ ~ good_tag t.
Proof. destruct (tag_ok t) eqn:E; [left; apply tag_good; exact E|]. right. intro G. apply tag_iff in G. congruence. Qed.
Lemma none_dec f : takes_none f \/ ~ takes_none f.
Proof. destruct f as [| |[|? ?] [?|] ? ?| |]; cbn; auto. Qed.
Lemma one_dec f : takes_one f \/ ~ takes_one f.
Proof. destruct f as [| |ps [?|] ? ?|p|]; cbn; auto; [destruct (Nat.eq_dec (length ps) 0)|destruct (Nat.eq_dec (length ps) 1)|destruct p]; auto. Qed.
Lemma covered_catch ex n t h w k key args h0 cts cs cs1 w0 g0 n0 n1 cr0 d : bodies ex = [] -> ctx cs k n1 d ->
  covered (mkM (CThrow key args) (ex ++ FCatch n t h true w :: k) h0 cts cs1 0 w0 g0 n0 cr0) -> catches t key \/ forall t', In t' (t :: d) -> ~ catches t' key.
Proof.
  intros B CX. unfold covered. cbn [m_ctrl m_stack].
  assert (E : tags (ex ++ FCatch n t h true w :: k) = t :: tags k).
  { clear -B. induction ex as [|f r IH]; [reflexivity|]. destruct f; cbn [bodies app tags] in *; auto. destruct body; [discriminate B|auto]. }
  rewrite E. intros [C | C]; [left; exact C|]. right. intros t' I1. apply C. destruct I1 as [I1 | I1]; [left; exact I1|right].
  clear -CX I1. unfold ctx in CX. induction CX as [|id u cs d (_ & h & w & r & _ & I2) CX IH]; [destruct I1|]. destruct I1 as [I1 | I1]; [subst u|auto].
  clear -I2. induction k as [|f r IH]; [destruct I2|]. destruct I2 as [I2 | I2]; [subst f; now left|]. destruct f; cbn [tags]; auto. destruct body; [right|]; auto.
Qed.

Lemma comp_tail n d m t h c ea ei k cts cs w g nx cr (P : Prop) : live n (mkM c k h cts cs 0 w g nx cr) -> comp n -> ctrl_is h t c ea ei -> agree h m -> ctx cs k nx d -> okm m -> okt (fl m) t ->
  (forall o m', ev d m t o m' -> P) -> P.
Proof. intros L C CI A CX M T Q. destruct (C _ _ _ _ _ _ _ _ _ _ _ _ _ _ L CI A CX M T) as (o & m' & E). eauto. Qed.
Ltac lv L := apply live_next in L; cbn [step m_ctrl m_stack m_sto m_conts m_catch m_under m_wind m_guards m_next m_crossed eval_step app_step ret_step func_step vals_step throw_step go goh gow popped error errork] in L.
Ltac lvn L := lv L; let n := fresh "n" in destruct L as (n & -> & L).
Ltac okx := cbn [okt]; flr; change (length (frames ?m)) with (fl m) in *; repeat split; first [okvt | idtac].
Ltac yes C := do 2 eexists; eapply C; eassumption.
(* a nested evaluation: its throw by rule C, or its value *)
Ltac sbc L IH C tac := let q := fresh "q" in let v := fresh "v" in let m1 := fresh "m" in let h1 := fresh "h" in let w1 := fresh "w" in let g1 := fresh "g" in let n1 := fresh "nx" in let cr1 := fresh "cr" in let n2 := fresh "n" in
  let E := fresh "E" in let A1 := fresh "A" in let M1 := fresh "M" in let V1 := fresh "V" in let F1 := fresh "F" in let K1 := fresh "K" in let N2 := fresh "N" in let CX1 := fresh "CX" in
  eapply comp_sub in L; [|apply IH; lia|exact Logic.I|constructor|eassumption|eassumption|assumption|okx];
  destruct L as [(q & m1 & E) | (v & m1 & h1 & w1 & g1 & n1 & cr1 & n2 & E & A1 & M1 & V1 & F1 & K1 & N2 & L & CX1)]; [tac C|].
Ltac sb L IH C := sbc L IH C ltac:(fun C => yes C).
Ltac tl L IH C := eapply comp_tail; [exact L|apply IH; lia|constructor|eassumption|eassumption|assumption|okx|intros; yes C].

Lemma complete_expr n : (forall n', n' < n -> comp n') -> forall d m e x h k cts cs w g nx cr,
  live n (mkM (CEval e x) k h cts cs 0 w g nx cr) -> agree h m -> ctx cs k nx d -> okm m -> okt (fl m) (TEval e x) -> exists o m', ev d m (TEval e x) o m'.
Proof.
  intros IH d m e x h k cts cs w g nx cr L A CX M T. cbn [okt] in T. destruct x as [a|x|c t f|x y|x y|ps r b|es|f args|f|a b c|f l|f l].
  - yes ev_atom.
  - destruct (var_cases _ _ e x A) as [(o & v & B) | U]; [yes ev_var|yes ev_unbound].
  - lvn L. sb L IH ev_if_throw. lv L.
    destruct v as [[z|[|]|s| |]|a|ps r b pe|p|j]; try (destruct f as [f|]); try (destruct L as (n4 & -> & L));
    first [yes ev_if_none | tl L IH ev_if_false | eapply comp_tail; [exact L|apply IH; lia|constructor|eassumption|eassumption|assumption|okx|intros; do 2 eexists; eapply ev_if_true; [eassumption|discriminate|eassumption]]].
  - lvn L. sb L IH ev_set_throw. destruct (var_cases _ _ e x A0) as [(o & v0 & B) | U]; [yes ev_set|yes ev_set_new].
  - lvn L. sb L IH ev_def_throw. yes ev_def.
  - yes ev_lam.
  - destruct es as [|x es]; [yes ev_begin_none|]. lvn L. tl L IH ev_begin.
  - lvn L. sb L IH ev_call_throw. lvn L. tl L IH ev_call.
  - lvn L. sb L IH ev_callcc_throw. exfalso. eapply (live_grown _ _ _ L); reflexivity.
  - lvn L. sb L IH ev_wind1_throw. lvn L. sb L IH ev_wind2_throw. lvn L. sb L IH ev_wind3_throw. lv L.
    destruct (proc_dec v) as [P1 | P1]; [|do 2 eexists; eapply ev_wind_wrong; [eassumption|eassumption|eassumption|tauto]].
    destruct (proc_dec v0) as [P2 | P2]; [|do 2 eexists; eapply ev_wind_wrong; [eassumption|eassumption|eassumption|tauto]].
    destruct (proc_dec v1) as [P3 | P3]; [|do 2 eexists; eapply ev_wind_wrong; [eassumption|eassumption|eassumption|tauto]].
    rewrite closures in L by assumption. destruct L as (n7 & -> & L).
    sb L IH ev_wind_in. lvn L. sb L IH ev_wind_thunk. lvn L. sb L IH ev_wind_out. yes ev_wind.
  - lvn L. sb L IH ev_map1_throw. lv L. destruct (fun_dec v) as [P1 | P1]; [|yes ev_map_wrong]. rewrite fun_iff in L by assumption. destruct L as (n7 & -> & L).
    sb L IH ev_map2_throw. lv L. destruct (iter_agree (match v0 with MList a => Some a | _ => None end) _ _ A1) as (h3 & E3 & A3 & K3 & I3).
    destruct v0 as [[z|b|s| |]|a|ps r b pe|p|j]; try (do 2 eexists; eapply ev_map_not_list; [eassumption|eassumption|eassumption|discriminate|discriminate]).
    + yes ev_map_nil.
    + rewrite E3 in L. destruct L as (n8 & -> & L). eapply comp_tail; [exact L|apply IH; lia|eapply (ci_map h3 e v (Some a) [] (length (h_iters h1))); [exact I3|constructor]|eassumption|eassumption|assumption|okx|intros; yes ev_map_list].
  - lvn L. sb L IH ev_each1_throw. destruct (none_dec v) as [P1 | P1]; [yes ev_each_none|]. destruct (one_dec v) as [P2 | P2]; [|yes ev_each_wrong].
    apply live_next in L. rewrite each_one in L by exact P2. destruct L as (n7 & -> & L). sb L IH ev_each2_throw. lv L.
    destruct v0 as [[z|b|s| |]|a|ps r b pe|p|j]; try (do 2 eexists; eapply ev_each_not_list; [eassumption|eassumption|eassumption|discriminate|discriminate]).
    + yes ev_each_nil.
    + destruct L as (n8 & -> & L). tl L IH ev_each_list.
Qed.
Lemma complete_call n : (forall n', n' < n -> comp n') -> forall d m t h c ea ei k cts cs w g nx cr,
  live n (mkM c k h cts cs 0 w g nx cr) -> ctrl_is h t c ea ei -> agree h m -> ctx cs k nx d -> okm m -> okt (fl m) t ->
  match t with TBody _ _ | TCall _ _ _ | TParams _ _ _ _ _ _ | TRest _ _ _ _ _ _ => True | _ => False end -> exists o m', ev d m t o m'.
Proof.
  intros IH d m t h c ea ei k cts cs w g nx cr L CI A CX M T W. destruct t as [e x|e es|e f args|e fe ps r args b|e fe y l args b|e p vs args|p vs|f v|f vs|e f p l|e f p]; destruct W; inversion CI; subst; clear CI; cbn [okt] in T.
  - destruct es as [|x [|y es]]; [lv L; destruct L|lvn L; sbc L IH ev_last ltac:(fun C => yes C); yes ev_last|].
    lvn L. sb L IH ev_seq_throw. lv L. destruct L as (n4 & -> & L).
    eapply live_back with (s := mkM (CBody e (y :: es)) k h0 cts cs 0 w0 g0 nx0 cr0) in L; [|reflexivity|exact Logic.I|reflexivity]. tl L IH ev_seq.
  - destruct T as (T1 & T2). destruct f as [a|a|ps r b pe|p|j].
    + do 2 eexists. apply ev_not_function; [intros []|discriminate].
    + do 2 eexists. apply ev_not_function; [intros []|discriminate].
    + cbn [okv] in T2. destruct (env_agree _ _ pe A T2) as (h1 & E & A1 & B1 & B2). lv L. unfold apply_step in L. cbn [m_sto] in L. rewrite E in L. cbn [goh m_conts m_catch m_under m_wind m_guards m_next m_crossed] in L.
      assert (D : (ps = [] /\ exists y, r = Some y) \/ ps <> [] \/ r = None) by (destruct ps; [destruct r; eauto|right; left; discriminate]).
      destruct D as [(-> & y & ->) | D].
      * destruct L as (n4 & -> & L). eapply comp_tail; [exact L|apply IH; lia|apply (ci_rest h1 e (length (frames m)) y []); constructor|exact A1|exact CX|apply ok_new; exact M|cbn [okt]; rewrite fl_new; unfold fl in *; lia|].
        intros. yes ev_call_rest.
      * assert (L2 : exists n4, n = S n4 /\ live n4 (mkM (CBindLoop e (length (frames m)) ps r args b) k h1 cts cs 0 w g nx cr)) by (destruct ps, r; destruct D as [D | D]; try congruence; exact L).
        clear L. destruct L2 as (n4 & -> & L). eapply comp_tail; [exact L|apply IH; lia|constructor|exact A1|exact CX|apply ok_new; exact M|cbn [okt]; rewrite fl_new; unfold fl in *; repeat split; first [lia|assumption]|].
        intros. yes ev_call_proc.
    + lvn L. eapply comp_tail; [exact L|apply IH; lia|apply ci_ops; constructor|eassumption|eassumption|assumption|cbn [okt]; auto|]. intros. yes ev_call_prim.
    + destruct T2.
  - destruct T as (T1 & T2 & T3). lv L. destruct ps as [|p ps], args as [|a args].
    + destruct r as [y|]; [destruct T3; congruence|]. destruct L as (n4 & -> & L); tl L IH ev_params_done.
    + destruct r as [y|]; [destruct T3; congruence|]. yes ev_params_many.
    + destruct r as [y|]; [|yes ev_params_few]. destruct L as (n4 & -> & L). tl L IH ev_params_few_rest.
    + destruct L as (n4 & -> & L). sb L IH ev_param_throw. match type of L with live ?q (mkM _ _ ?hh _ _ _ ?ww ?gg ?nn ?cc) => rename q into nq, hh into hq, ww into wq, gg into gq, nn into nxq, cc into crq end. lv L. destruct (put_agree _ _ fe p v A0) as (A2 & P1 & P2).
      assert (D : (ps = [] /\ exists y, r = Some y) \/ ps <> [] \/ r = None) by (destruct ps; [destruct r; eauto|right; left; discriminate]).
      destruct D as [(-> & y & ->) | D].
      * destruct L as (n5 & -> & L). eapply comp_tail; [exact L|apply IH; lia|apply (ci_rest _ e fe y []); constructor|exact A2|eassumption|apply ok_bind; assumption|cbn [okt]; rewrite fl_bind; lia|].
        intros. yes ev_param_rest.
      * assert (L2 : exists n5, nq = S n5 /\ live n5 (mkM (CBindLoop e fe ps r args b) k (env_put fe p v hq) cts cs 0 wq gq nxq crq)) by (destruct ps, r; destruct D as [D | D]; try congruence; exact L).
        clear L. destruct L2 as (n5 & -> & L). eapply comp_tail; [exact L|apply IH; lia|constructor|exact A2|eassumption|apply ok_bind; assumption|cbn [okt]; rewrite fl_bind; repeat split; first [lia|assumption]|].
        intros. yes ev_param.
  - destruct T as (T1 & T2). lv L. destruct args as [|a args].
    + destruct L as (n4 & -> & L). destruct (put_agree _ _ fe y (list_of l) A) as (A2 & P1 & P2). rewrite as_list_of in L.
      eapply comp_tail; [exact L|apply IH; lia|constructor|exact A2|eassumption|apply ok_bind; [exact M|apply ok_list_of]|cbn [okt]; rewrite fl_bind; lia|]. intros. yes ev_rest_done.
    + destruct L as (n4 & -> & L). ff. sb L IH ev_rest_throw. lv L. pose proof (cells_lt _ _ _ _ _ A A0 (ev_mono _ _ _ _ _ E) FF) as FL.
      destruct (grow l v (cells m0)) as [l1 c1] eqn:G. destruct (grow_agree _ _ _ _ _ _ A0 G FL) as (nn & h2 & E2 & El & A2 & B1 & B2 & Lc & En).
      destruct (grow_mono _ _ _ _ _ G) as (_ & FL2). specialize (FL2 FL). rewrite E2 in L. cbn [goh m_conts m_catch m_under m_wind m_guards m_next m_crossed] in L. destruct L as (n5 & -> & L).
      assert (M3 : okm (mkMem c1 (frames m0))) by (apply ok_cells; [assumption|eapply ok_grow; [exact G|apply M0|assumption]]).
      rewrite <- head_snoc in L. rewrite <- (last_snoc l nn), <- El in L.
      eapply comp_tail; [exact L|apply IH; lia|apply (ci_rest _ e fe y l1); rewrite (cells_agree _ _ A2); exact FL2|exact A2|eassumption|exact M3|cbn [okt]; rewrite fl_mk; lia|]. intros. yes ev_rest.
Qed.
Lemma prim_eq_dec (p q : prim) : {p = q} + {p <> q}.
Proof. decide equality. Qed.
Lemma catch_args_dec vs : (exists t f h r, vs = t :: f :: h :: r /\ good_tag t /\ procedure f /\ procedure h) \/
  (forall t f h r, vs = t :: f :: h :: r -> ~ (good_tag t /\ procedure f /\ procedure h)).
Proof.
  destruct vs as [|t [|f [|h r]]]; try (right; intros t0 f0 h0 r0 Q; discriminate Q).
  destruct (tag_dec t) as [A | A]; [|right; intros ? ? ? ? [= <- <- <- <-]; tauto].
  destruct (proc_dec f) as [B | B]; [|right; intros ? ? ? ? [= <- <- <- <-]; tauto].
  destruct (proc_dec h) as [C | C]; [|right; intros ? ? ? ? [= <- <- <- <-]; tauto]. left. exists t, f, h, r. auto.
Qed.
Lemma throw_args_dec vs : (exists key r, vs = MA (ASym key) :: r) \/ forall key r, vs <> MA (ASym key) :: r.
Proof. destruct vs as [|[[| |x| |]| | | |] r]; try (right; discriminate). left. eauto. Qed.
Lemma complete_prim n : (forall n', n' < n -> comp n') -> forall d m t h c ea ei k cts cs w g nx cr,
  live n (mkM c k h cts cs 0 w g nx cr) -> ctrl_is h t c ea ei -> agree h m -> ctx cs k nx d -> okm m -> okt (fl m) t ->
  match t with TOperands _ _ _ _ | TPrim _ _ => True | _ => False end -> exists o m', ev d m t o m'.
Proof.
  intros IH d m t h c ea ei k cts cs w g nx cr L CI A CX M T W. destruct t as [e x|e es|e f args|e fe ps r args b|e fe y l args b|e p vs args|p vs|f v|f vs|e f p l|e f p]; destruct W; inversion CI; subst; clear CI; cbn [okt] in T.
  - destruct T as (T1 & T2). match goal with Q : args_are _ _ _ _ |- _ => rename Q into FF end. destruct args as [|a args]; lv L.
    + rewrite (aa_values _ _ _ _ FF) in L. destruct L as (n4 & -> & L). tl L IH ev_operands_done.
    + destruct L as (n4 & -> & L). sb L IH ev_operand_throw. lv L. match type of A0 with agree ?hh _ => rename hh into hq end. destruct (arg_agree hq _ v ea A0) as (h2 & E2 & A2 & K2 & Ea).
      pose proof (aa_snoc _ _ _ _ v (aa_kept _ _ _ _ _ (fun i x => kept_arg _ _ i x K) FF)) as AA. rewrite <- Ea, <- link_arg_args in AA.
      rewrite E2 in L. cbn [goh m_conts m_catch m_under m_wind m_guards m_next m_crossed] in L. destruct L as (n5 & -> & L).
      eapply comp_tail; [exact L|apply IH; lia|apply ci_ops; exact AA|exact A2|eassumption|assumption| |intros; yes ev_operand].
      cbn [okt]. split; [lia|]. apply Forall_app. split; [okvt|]. constructor; [assumption|constructor].
  - destruct (prim_eq_dec p PCatch) as [-> | NC]; [|destruct (prim_eq_dec p PThrow) as [-> | NT]].
    + destruct (catch_args_dec vs) as [(t & f & hd & r & -> & G & P1 & P2) | N]; [|do 2 eexists; apply ev_catch_wrong; exact N].
      destruct (le_lt_dec 100 (length d)) as [D | D]; [do 2 eexists; apply ev_catch_deep; assumption|].
      inversion T as [|? ? T1 T2]; subst. inversion T2 as [|? ? T3 T4]; subst. inversion T4 as [|? ? T5 T6]; subst.
      pose proof (catch_step t f hd r k h cts cs w g nx cr d CX D G P1 P2) as S1. pose proof (live_next _ _ L) as L1. rewrite S1 in L1. destruct L1 as (n4 & -> & L1).
      assert (OT : okt (fl m) (TCall 0 f [])) by (cbn [okt]; split; [apply M|exact T3]). pose proof (ctx_catch _ _ _ _ t hd w CX) as CX1.
      destruct (IH n4 ltac:(lia) _ _ _ _ _ _ _ _ _ _ _ _ _ _ L1 (ci_call h 0 f []) A CX1 M OT) as (o & m1 & E).
      pose proof (sim_all _ _ _ _ _ E h _ None None (FCatch nx t hd true w :: k) cts (nx :: cs) w g (S nx) cr (ci_call h 0 f []) A CX1) as R. destruct (ev_ok _ _ _ _ _ E M OT) as (M1 & V1 & F1).
      destruct o as [v|[key args|key]].
      * do 2 eexists. eapply ev_catch_value; eassumption.
      * destruct R as (ex & h1 & w1 & g1 & n1 & cr1 & S2 & A1 & K1 & N1 & B & U). destruct (live_steps _ _ S2 _ L1) as (n5 & N5 & L2).
        destruct (covered_catch _ _ _ _ _ _ _ _ _ _ _ _ _ _ _ _ _ d B CX (live_covered _ _ L2)) as [CA | CN].
        -- assert (U0 : unwind_to nx (ex ++ FCatch nx t hd true w :: k) = Some (t, hd, w, k)).
           { rewrite U by lia. cbn [unwind_to]. rewrite Nat.eqb_refl. reflexivity. }
           apply live_next in L2. cbn [step m_ctrl m_stack] in L2. unfold throw_step in L2. cbn [m_catch find_catch] in L2. rewrite U0 in L2. rewrite (proj1 (catches_match t key (or_intror Logic.I)) CA) in L2.
           cbn [m_under pop fst snd m_sto m_conts m_wind m_guards m_next m_crossed] in L2. destruct L2 as (n6 & -> & L2).
           assert (CX2 : ctx cs (FCatch nx t hd false w :: k) n1 d).
           { apply (ctx_impl cs k nx d [FCatch nx t hd false w] n1 CX); [lia|]. intros j J. cbn [unwind_to app]. destruct (Nat.eqb_spec nx j); [lia|reflexivity]. }
           eapply comp_tail; [exact L2|apply IH; lia|constructor|exact A1|exact CX2|exact M1| |].
           ++ cbn [okt]. split; [eapply okv_mono; [|exact T5]; lia|]. split; [assumption|]. constructor; [exact Logic.I|exact V1].
           ++ intros. do 2 eexists. eapply ev_catch_throw; eassumption.
        -- do 2 eexists. eapply ev_catch_none; eassumption.
      * do 2 eexists. eapply ev_catch_exit; eassumption.
    + destruct (throw_args_dec vs) as [(key & r & ->) | N]; do 2 eexists; [apply ev_throw|apply ev_throw_wrong; exact N].
    + destruct (primitive p vs (cells m)) as [[v c]|] eqn:E; do 2 eexists; [apply ev_prim; exact E|apply ev_prim_wrong; assumption].
Qed.
Lemma complete_vals n : (forall n', n' < n -> comp n') -> forall d m t h c ea ei k cts cs w g nx cr,
  live n (mkM c k h cts cs 0 w g nx cr) -> ctrl_is h t c ea ei -> agree h m -> ctx cs k nx d -> okm m -> okt (fl m) t ->
  match t with TCall1 _ _ | TCallValues _ _ => True | _ => False end -> exists o m', ev d m t o m'.
Proof.
  intros IH d m t h c ea ei k cts cs w g nx cr L CI A CX M T W. destruct t as [e x|e es|e f args|e fe ps r args b|e fe y l args b|e p vs args|p vs|f v|f vs|e f p l|e f p]; destruct W; inversion CI; subst; clear CI; cbn [okt] in T;
    destruct T as (T1 & T2 & T3); destruct f as [a|a|ps r b pe|p|j]; cbn [function procedure] in T2; try (now destruct T2).
  - cbn [okv] in T1. destruct (env_agree _ _ pe A T1) as (h1 & E & A1 & B1 & B2). destruct (bind_total (length (frames m)) false ps r [v] (new_frame pe m)) as (o & B). pose proof (bind_agree _ _ _ _ _ _ _ B h1 A1) as BA.
    lv L. rewrite E in L. destruct o as [m1|]; [|do 2 eexists; eapply ev_call1_wrong; eassumption]. destruct BA as (h2 & E2 & A2 & _ & _). rewrite E2 in L. cbn [goh m_conts m_catch m_under m_wind m_guards m_next m_crossed] in L.
    destruct L as (n4 & -> & L). destruct (ok_bind_all _ _ _ _ _ _ _ B (ok_new _ _ M)) with (m1 := m1) as (M1 & F1); [rewrite fl_new; constructor; [eapply okv_mono; [|exact T3]; lia|constructor]|reflexivity|]. rewrite fl_new in F1.
    eapply comp_tail; [exact L|apply IH; lia|constructor|exact A2|exact CX|exact M1|cbn [okt]; unfold fl in *; lia|]. intros. yes ev_call1.
  - lvn L. eapply comp_tail; [exact L|apply IH; lia|constructor|exact A|exact CX|exact M|cbn [okt]; constructor; [assumption|constructor]|]. intros. yes ev_call1_prim.
  - cbn [okv] in T1. destruct (env_agree _ _ pe A T1) as (h1 & E & A1 & B1 & B2). destruct (bind_total (length (frames m)) true ps r vs (new_frame pe m)) as (o & B). pose proof (bind_agree _ _ _ _ _ _ _ B h1 A1) as BA.
    lv L. rewrite E in L. destruct o as [m1|]; [|do 2 eexists; eapply ev_handler_wrong; eassumption]. destruct BA as (h2 & E2 & A2 & _ & _). rewrite E2 in L. cbn [goh m_conts m_catch m_under m_wind m_guards m_next m_crossed] in L.
    destruct L as (n4 & -> & L). destruct (ok_bind_all _ _ _ _ _ _ _ B (ok_new _ _ M)) with (m1 := m1) as (M1 & F1); [rewrite fl_new; eapply okvs_mono; [|exact T3]; lia|reflexivity|]. rewrite fl_new in F1.
    eapply comp_tail; [exact L|apply IH; lia|constructor|exact A2|exact CX|exact M1|cbn [okt]; unfold fl in *; lia|]. intros. yes ev_handler.
Qed.
Lemma complete_loops n : (forall n', n' < n -> comp n') -> forall d m t h c ea ei k cts cs w g nx cr,
  live n (mkM c k h cts cs 0 w g nx cr) -> ctrl_is h t c ea ei -> agree h m -> ctx cs k nx d -> okm m -> okt (fl m) t ->
  match t with TMap _ _ _ _ | TEach _ _ _ => True | _ => False end -> exists o m', ev d m t o m'.
Proof.
  intros IH d m t h c ea ei k cts cs w g nx cr L CI A CX M T W. destruct t as [e x|e es|e f args|e fe ps r args b|e fe y l args b|e p vs args|p vs|f v|f vs|e f p l|e f p]; destruct W; inversion CI; subst; clear CI; cbn [okt] in T;
    destruct T as (T1 & T2 & T3); (destruct p as [a|]; [|first [yes ev_map_done | yes ev_each_done]]).
  - ff. match goal with Q : nth_error (h_iters h) _ = _ |- _ => rename Q into IT end. lv L. unfold get_cell in L. rewrite IT, (cells_agree _ _ A) in L. destruct (nth_error (cells m) a) as [c|] eqn:C; [|destruct L].
    destruct L as (n4 & -> & L). pose proof (set_iter_agree i (Some (c_next c)) _ _ A) as AG2. assert (VC : okv (fl m) (c_data c)) by (eapply okc_nth; [apply M|exact C]).
    sb L IH ev_map_throw. lv L. match type of A0 with agree ?hh _ => rename hh into hq end. pose proof (cells_lt _ _ _ _ _ A A0 (ev_mono _ _ _ _ _ E) FF) as FL.
    destruct (grow l v (cells m0)) as [l1 c1] eqn:G. destruct (grow_agree _ _ _ _ _ _ A0 G FL) as (nn & h2 & E2 & El & A2 & B1 & B2 & Lc & En).
    destruct (grow_mono _ _ _ _ _ G) as (_ & FL2). specialize (FL2 FL). rewrite E2 in L. cbn [goh m_conts m_catch m_under m_wind m_guards m_next m_crossed] in L. destruct L as (n5 & -> & L).
    assert (M3 : okm (mkMem c1 (frames m0))) by (apply ok_cells; [assumption|eapply ok_grow; [exact G|apply M0|assumption]]).
    rewrite <- head_snoc in L. rewrite <- (last_snoc l nn), <- El in L.
    assert (IT2 : nth_error (h_iters hq) i = Some (Some (c_next c))).
    { apply (kept_iter _ _ _ _ K). unfold set_iter. cbn [h_iters]. rewrite nth_upd, Nat.eqb_refl, IT. reflexivity. }
    eapply comp_tail; [exact L|apply IH; lia|apply (ci_map _ e f (c_next c) l1); [rewrite B2; exact IT2|rewrite (cells_agree _ _ A2); exact FL2]|exact A2|eassumption|exact M3| |intros; yes ev_map_more].
    cbn [okt]. rewrite fl_mk. split; [lia|]. split; [eapply okv_mono; [|exact T2]; lia|exact T3].
  - lv L. unfold get_cell in L. rewrite (cells_agree _ _ A) in L. destruct (nth_error (cells m) a) as [c|] eqn:C; [|destruct L].
    assert (D : c_data c = MA ANil \/ c_data c <> MA ANil) by (destruct (c_data c) as [[z|b|s| |]|?|? ? ? ?|?|?]; auto; right; discriminate).
    destruct D as [D | D]; [yes ev_each_end|]. assert (L2 : exists n4, n = S n4 /\ live n4 (mkM (CApp1 f (c_data c)) (FEach3 e f (c_next c) :: k) h cts cs 0 w g nx cr)).
    { destruct (c_data c) as [[z|b|s| |]|?|? ? ? ?|?|?]; try exact L. congruence. }
    clear L. destruct L2 as (n4 & -> & L). assert (VC : okv (fl m) (c_data c)) by (eapply okc_nth; [apply M|exact C]).
    sb L IH ev_each_throw. lvn L. tl L IH ev_each_more.
Qed.
Lemma complete n : comp n.
Proof.
  induction n as [n IH] using (well_founded_induction lt_wf). intros d m t h c ea ei k cts cs w g nx cr L CI A CX M T. destruct t as [e x|e es|e f args|e fe ps r args b|e fe y l args b|e p vs args|p vs|f v|f vs|e f p l|e f p].
  1: inversion CI; subst; eapply complete_expr; eassumption.
  1,2,3,4: eapply complete_call; first [eassumption | exact Logic.I].
  1,2: eapply complete_prim; first [eassumption | exact Logic.I].
  1,2: eapply complete_vals; first [eassumption | exact Logic.I].
  all: eapply complete_loops; first [eassumption | exact Logic.I].
Qed.
