(** Proofs about CellModel, continued: cond, case, do, delay and the forms that call procedures. *)
From Coq Require Import String Lia.
From Verif Require Import Base ParseModel PrintModel EnvModel EvalModel EnvProofs CellModel CellSpec CellProofs CellProofs2 CellProofs3 CellProofs4.
Local Open Scope string_scope.
Local Open Scope list_scope.

Lemma r_symval X h x v n : rep X h x v -> csym_val x n = is_sym_val v n.
Proof. intro R. inversion R; reflexivity. Qed.
Lemma alist_up X h X' h' l m : post None X h X' h' -> same_alist X h l m -> same_alist X' h' l m.
Proof. intros P. apply alist_mono. intros x v R. now up P. Qed.
Lemma lists_up X h X' h' ls us : post None X h X' h' -> Forall2 (tails X h) ls us -> Forall2 (tails X' h') ls us.
Proof. intros P. apply Forall2_imp. intros x v R. now up P. Qed.
Lemma cdr_ok X s q vs d : reps X (cs_cells s) q vs d -> exists rv, ccdr q s = (CRet rv s, []) /\ rep X (cs_cells s) rv (cdr_val vs d).
Proof.
  intro H. apply reps_inv in H. destruct H as (cq & v & r & -> & N & _ & _ & T & D). unfold ccdr. rewrite (cbind_get _ _ _ _ N). destruct (c_next cq) as [r0|].
  - destruct D as [_ D]. assert (D2 := D). apply reps_inv in D. destruct D as (cr & x & r2 & -> & NR & NXR & RX & TR2 & D3). rewrite (cbind_get _ _ _ _ NR). eexists. split; [reflexivity|].
    destruct (c_next cr) as [r3|].
    + destruct r2 as [|y r2]; [destruct TR2 as [d2 TR2]; inversion TR2|]. cbn [cdr_val]. constructor. exact D2.
    + cbn in TR2. subst r2. subst d. cbn [cdr_val]. destruct (c_dot cr) eqn:DD; [exact RX|]. constructor. exact D2.
  - cbn in T. subst r. exists CNil. split; [reflexivity|constructor].
Qed.
Lemma quote_all_step {A B} (Q : list nat -> list cell -> A -> B -> Prop) skip X st o : forall vs ws s (f : list cval -> CM A), bounded X (cs_cells s) -> same_state X s st -> Forall2 (rep X (cs_cells s)) vs ws ->
  (forall qs s1, post None X (cs_cells s) X (cs_cells s1) -> same_state X s1 st -> bounded X (cs_cells s1) -> Forall2 (rep X (cs_cells s1)) qs (map quoted ws) -> sim Q skip X (cs_cells s1) (f qs s1) o) ->
  sim Q skip X (cs_cells s) (cbind (cquote_all vs) f s) o.
Proof.
  induction vs as [|v vs IH]; intros ws s f Bd S0 F K; inversion F as [|? w ? ws' R F']; subst.
  - cbn [cquote_all]. rewrite (cbind_eq _ _ _ [] s) by reflexivity. apply K; auto. now apply post_refl.
  - cbn [cquote_all]. rewrite cbind_assoc. apply (alloc_list_step _ _ _ _ st _ [sym "quote"; w]); auto; [repeat constructor; auto|]. intros l s1 P1 S1 B1 L1. clear F. up P1. apply fl_rep in L1.
    rewrite cbind_assoc. apply (IH ws'); auto. intros qs s2 P2 S2 B2 F2. rewrite (cbind_eq _ _ _ (as_list l :: qs) s2) by reflexivity. apply K; auto.
    + eapply post_trans; eauto.
    + up P2. cbn [map]. constructor; auto.
Qed.

(** ** eq *)
Definition alleq := fix all (l1 l2 : list val) {struct l1} : bool :=
  match l1, l2 with [], [] => true | x :: r1, y :: r2 => val_eq x y && all r1 r2 | _, _ => false end.
Definition pure_ok {A} (r : cout A * list nat) (a : A) (s : cstate) : Prop := r = (CFuel, []) \/ r = (COther, []) \/ r = (CRet a s, []).
Lemma eq_ok X s : forall k x y v w, rep X (cs_cells s) x v -> rep X (cs_cells s) y w -> pure_ok (ceq k x y s) (val_eq v w) s.
Proof.
  induction k as [|k IH]; intros x y v w R1 R2; [now left|]. cbn [ceq].
  destruct R1; destruct R2; try (right; right; reflexivity); try (right; left; reflexivity).
  change (val_eq (VList vs d) (VList vs0 d0)) with (alleq vs vs0).
  match goal with |- pure_ok (?g k (Some a) (Some a0) s) _ _ => set (go := g) end.
  assert (G : forall m l r us ws, tails X (cs_cells s) l us -> tails X (cs_cells s) r ws -> pure_ok (go m l r s) (alleq us ws) s).
  { induction m as [|m IHm]; intros l r us ws T1 T2.
    - destruct l as [l|], r as [r|].
      + now left.
      + apply tails_some in T1. destruct T1 as (c & v & t & -> & _). cbn in T2. subst. right. right. reflexivity.
      + apply tails_some in T2. destruct T2 as (c & v & t & -> & _). cbn in T1. subst. right. right. reflexivity.
      + cbn in *. subst. right. right. reflexivity.
    - destruct l as [l|], r as [r|].
      + apply tails_some in T1. destruct T1 as (c1 & v1 & t1 & -> & N1 & _ & R1 & T1). apply tails_some in T2. destruct T2 as (c2 & v2 & t2 & -> & N2 & _ & R2 & T2).
        change (go (S m) (Some l) (Some r) s) with ((do! ca := get l in do! cb := get r in do! t := ceq k (c_data ca) (c_data cb) in if (t : bool) then go m (c_next ca) (c_next cb) else cret false) s).
        rewrite (cbind_get _ _ _ _ N1), (cbind_get _ _ _ _ N2). cbn [alleq]. destruct (IH _ _ _ _ R1 R2) as [E|[E|E]].
        * left. unfold cbind. now rewrite E.
        * right. left. unfold cbind. now rewrite E.
        * rewrite (cbind_eq _ _ _ _ _ E). destruct (val_eq v1 v2); cbn [andb]; [now apply IHm|]. right. right. reflexivity.
      + apply tails_some in T1. destruct T1 as (c & v & t & -> & _). cbn in T2. subst. right. right. reflexivity.
      + apply tails_some in T2. destruct T2 as (c & v & t & -> & _). cbn in T1. subst. right. right. reflexivity.
      + cbn in *. subst. right. right. reflexivity. }
  apply G; [exists d|exists d0]; assumption.
Qed.
Lemma member_ok X s key kv : rep X (cs_cells s) key kv -> forall k l vs, tails X (cs_cells s) l vs -> pure_ok (cmember k key l s) (existsb (val_eq kv) vs) s.
Proof.
  intro RK. induction k as [|k IH]; intros l vs T.
  - destruct l; [now left|]. cbn in T. subst. right. right. reflexivity.
  - destruct l as [a|]; [|cbn in T; subst; right; right; reflexivity]. apply tails_some in T. destruct T as (c & v & t & -> & N & _ & R & T). cbn [cmember]. rewrite (cbind_get _ _ _ _ N). cbn [existsb].
    destruct (eq_ok X s k _ _ _ _ RK R) as [E|[E|E]].
    + left. unfold cbind. now rewrite E.
    + right. left. unfold cbind. now rewrite E.
    + rewrite (cbind_eq _ _ _ _ _ E). destruct (val_eq kv v); cbn [orb]; [right; right; reflexivity|now apply IH].
Qed.
Lemma len_ok X s : forall k l vs, tails X (cs_cells s) l vs -> clen k l s = (CFuel, []) \/ clen k l s = (CRet (length vs) s, []).
Proof.
  induction k as [|k IH]; intros l vs T.
  - destruct l; [now left|right]. cbn in T. now subst.
  - destruct l as [a|]; [|cbn in T; subst; now right]. apply tails_some in T. destruct T as (c & v & t & -> & N & _ & R & T). cbn [clen]. rewrite (cbind_get _ _ _ _ N).
    destruct (IH _ _ T) as [E|E]; [left; unfold cbind; now rewrite E|right]. rewrite (cbind_eq _ _ _ _ _ E). reflexivity.
Qed.
Lemma as_list_in X s v w : rep X (cs_cells s) v w ->
  match elements w with None => cas_list v s = (CErr s, []) | Some l => exists p, cas_list v s = (CRet p s, []) /\ tails X (cs_cells s) p l end.
Proof.
  intro R. inversion R; subst; try reflexivity.
  - exists None. split; reflexivity.
  - exists (Some a). split; [reflexivity|]. exists d. assumption.
Qed.
(** ** rows of lists *)
Definition node_of (X : list nat) (h : list cell) (c : option cell) (us : list val) : Prop :=
  match c, us with None, [] => True | Some c, u :: t => rep X h (c_data c) u /\ tails X h (c_next c) t | _, _ => False end.
Lemma nodes_ok X s : forall ls us, Forall2 (tails X (cs_cells s)) ls us -> exists cs, cnodes ls s = (CRet cs s, []) /\ Forall2 (node_of X (cs_cells s)) cs us.
Proof.
  intros ls us F. induction F as [|l u ls us T F IH]; [exists []; split; [reflexivity|constructor]|]. destruct IH as (cs & E & G). destruct l as [a|].
  - apply tails_some in T. destruct T as (c & v & t & -> & N & _ & R & T). exists (Some c :: cs). cbn [cnodes]. rewrite (cbind_get _ _ _ _ N). rewrite (cbind_eq _ _ _ _ _ E). split; [reflexivity|]. constructor; [split; assumption|exact G].
  - cbn in T. subst u. exists (None :: cs). cbn [cnodes]. rewrite (cbind_eq _ _ _ _ _ E). split; [reflexivity|]. constructor; [exact Logic.I|exact G].
Qed.
Lemma exhausted_ok X h c us : node_of X h c us -> c_exhausted c = exhausted us.
Proof. intro N. destruct c as [c|], us as [|u t]; try easy. destruct N as [R _]. cbn [c_exhausted exhausted]. inversion R; reflexivity. Qed.
Lemma forall_ok X h cs us : Forall2 (node_of X h) cs us -> forallb c_exhausted cs = forallb exhausted us /\ existsb c_exhausted cs = existsb exhausted us.
Proof. intro F. induction F as [|c u cs us N F IH]; [split; reflexivity|]. cbn [forallb existsb]. rewrite (exhausted_ok _ _ _ _ N). destruct IH as [-> ->]. split; reflexivity. Qed.
Definition nil_list (l : list val) : bool := match l with [] => true | _ => false end.
Lemma none_ok X h cs us : Forall2 (node_of X h) cs us -> existsb (fun c : option cell => match c with None => true | Some _ => false end) cs = existsb nil_list us.
Proof. intro F. induction F as [|c u cs us N F IH]; [reflexivity|]. cbn [existsb]. rewrite IH. destruct c, u; try easy; reflexivity. Qed.
Lemma datas_ok X h cs us : Forall2 (node_of X h) cs us -> existsb nil_list us = false -> Forall2 (rep X h) (cdatas cs) (map (hd VNone) us) /\ Forall2 (tails X h) (cnexts cs) (map (@tl val) us).
Proof.
  intro F. induction F as [|c u cs us N F IH]; intro E; [split; constructor|]. cbn [existsb] in E. apply Bool.orb_false_iff in E. destruct E as [E1 E2]. destruct (IH E2) as [A B].
  destruct u as [|u t]; [discriminate E1|]. destruct c as [c|]; [|easy]. destruct N as [R T]. split; constructor; assumption.
Qed.
Lemma nil_exhausted us : existsb exhausted us = false -> existsb nil_list us = false.
Proof. induction us as [|u us IH]; [reflexivity|]. cbn [existsb]. rewrite !Bool.orb_false_iff. intros [A B]. split; [|auto]. destruct u; [discriminate A|reflexivity]. Qed.
Lemma heads_eq ls : heads ls = if existsb nil_list ls then None else Some (map (hd VNone) ls, map (@tl val) ls).
Proof. induction ls as [|[|x r] ls IH]; [reflexivity|reflexivity|]. cbn [heads existsb nil_list orb]. rewrite IH. destruct (existsb nil_list ls); reflexivity. Qed.
Lemma F2_nth_error {A B} (R : A -> B -> Prop) : forall l m i, Forall2 R l m -> match nth_error l i, nth_error m i with Some a, Some b => R a b | None, None => True | _, _ => False end.
Proof. intros l m i F. revert i. induction F; intros [|i]; cbn [nth_error]; auto; apply IHF. Qed.

Section Forms.
Variable cprim : list Z -> list cval -> list cell -> option (cval * list cell * list Z).
Variable prim : list Z -> list val -> pres.
Hypothesis PA : prims_agree cprim prim.
Variable ev : env -> bool -> cval -> CM cval.
Variable ev' : env -> val -> EM val.
Hypothesis EV : agrees ev ev'.
Lemma owned_call e a c t f f' X s st d : same_state X s st -> bounded X (cs_cells s) -> c = mkCell f (c_next c) false -> nth_error (cs_cells s) a = Some c -> In a X -> rep X (cs_cells s) f f' -> tails X (cs_cells s) (c_next c) t ->
  sim rep (Some a) X (cs_cells s) (ev e true (CPair a) s) (ev' e (VList (f' :: t) d) st).
Proof.
  intros S0 Bd C N I R T. apply (EV e true X s st (CPair a)); auto. eapply en_own; eauto. rewrite C. exact R.
Qed.
Lemma new_call e f f' l t sk X s st d : same_state X s st -> bounded X (cs_cells s) -> rep X (cs_cells s) f f' -> tails X (cs_cells s) l t ->
  sim rep sk X (cs_cells s) ((do! b := alloc (mkCell f l false) in ev e true (CPair b)) s) (ev' e (VList (f' :: t) d) st).
Proof.
  intros S1 B1 RF TT. apply (own_step _ _ _ _ st); auto. intros m s2 EM0 EC P2 S2 B2 N2. up P2.
  apply (owned_call e m (mkCell f l false) t f f'); auto. now left.
Qed.
Lemma seq_ok k e l vs X s st : same_state X s st -> bounded X (cs_cells s) -> tails X (cs_cells s) l vs -> sim rep None X (cs_cells s) (cseq ev k e l s) (eval_body ev' e vs st).
Proof. intros S0 Bd T. destruct l as [a|]; [now apply body_ok|]. cbn in T. subst. apply sim_abort. Qed.
Lemma call1_ok e f f' v w X s st : same_state X s st -> bounded X (cs_cells s) -> rep X (cs_cells s) f f' -> rep X (cs_cells s) v w -> sim rep None X (cs_cells s) (ccall1 ev e f v s) (ev' e (VList [f'; quoted w] false) st).
Proof.
  intros S0 Bd RF RV. unfold ccall1. apply (alloc_list_step _ _ _ _ st _ [sym "quote"; w]); auto; [repeat constructor; auto|]. intros l s1 P1 S1 B1 L1. up P1. apply fl_rep in L1.
  apply (alloc_step _ _ _ _ st); auto. intros n s2 P2 S2 B2 N2 I2. up P2. apply new_call; auto. exists false. eapply one; eauto.
Qed.
Lemma cond_ok : forall k e l vs X s st, same_state X s st -> bounded X (cs_cells s) -> tails X (cs_cells s) l vs -> sim rep None X (cs_cells s) (ccond ev k e l s) (eval_cond ev' e vs st).
Proof.
  induction k as [|k IH]; intros e l vs X s st S0 Bd T.
  - destruct l; [apply sim_fuel|]. cbn in T. subst. apply (sim_ret rep); auto. constructor.
  - destruct l as [a|]; [|cbn in T; subst; apply (sim_ret rep); auto; constructor]. apply tails_some in T. destruct T as (c & v & t & -> & N & _ & R & T). cbn [ccond]. rewrite (cbind_get _ _ _ _ N). cbn [eval_cond].
    destruct (c_data c) as [| | | | | | |q| | |] eqn:DC; inversion R; subst; cbn [cast_list]; try (now apply sim_err); [apply sim_ub|].
    match goal with H : reps _ _ q _ _ |- _ => apply reps_inv in H; destruct H as (cq & tv & body & -> & NQ & _ & RT & TB & _) end. rewrite (cbind_get _ _ _ _ NQ).
    rewrite (r_symval _ _ _ _ _ RT). destruct (is_sym_val tv "else"); [now apply seq_ok|]. clear R.
    apply (ev_bind ev ev' EV); auto; [discriminate|]. intros X1 p pv s1 st1 P1 S1 B1 RP. up P1. rewrite (r_truthy _ _ _ _ RP). destruct (truthy pv).
    + rewrite (cbind_get _ _ _ _ NQ). destruct (c_next cq) as [b|] eqn:NB; [|cbn in TB; subst body; apply (sim_ret rep); auto; constructor].
      assert (TB2 := TB). apply tails_some in TB. destruct TB as (cb & b1 & more' & -> & NBb & _ & RB & TM). rewrite (cbind_get _ _ _ _ NBb). rewrite cbind_gets.
      match goal with |- sim _ _ _ _ _ (ebind (gets ?g) ?f st1) => change (ebind (gets g) f st1) with (f (g st1) st1) end. cbv beta.
      assert (AR : (csym_val (c_data cb) "=>" && match c_exist s1 e (bs "=>") with None => true | Some _ => false end)%bool = (is_sym_val b1 "=>" && match env_exist st1 e (bs "=>") with None => true | Some _ => false end)%bool).
      { rewrite (r_symval _ _ _ _ _ RB). pose proof (r_exist X1 s1 st1 S1 e (bs "=>")) as H. destruct (c_exist s1 e (bs "=>")), (env_exist st1 e (bs "=>")); cbn in H; try easy. }
      rewrite AR. clear AR. destruct (is_sym_val b1 "=>" && _)%bool; [|now apply body_ok].
      destruct (c_next cb) as [dn|]; [|cbn in TM; subst more'; apply sim_abort]. apply tails_some in TM. destruct TM as (cd & pf & m2 & -> & ND & _ & RD & _). rewrite (cbind_get _ _ _ _ ND).
      apply (ev_bind ev ev' EV); auto; [discriminate|]. intros X2 f fv s2 st2 P2 S2 B2 RF. up P2. assert (RF2 := RF).
      destruct f as [| | | | | |x| | | |]; inversion RF; subst; try (now apply call1_ok).
      rewrite cbind_gets. match goal with |- sim _ _ _ _ _ (ebind (gets ?g) ?f st2) => change (ebind (gets g) f st2) with (f (g st2) st2) end. cbv beta.
      pose proof (r_exist X2 s2 st2 S2 e x) as H. destruct (c_exist s2 e x), (env_exist st2 e x); cbn in H; try easy; [now apply call1_ok|now apply (sim_ret rep)].
    + rewrite (cbind_get _ _ _ _ N). now apply IH.
Qed.
Lemma case_clauses_ok : forall k e key kv l vs X s st, same_state X s st -> bounded X (cs_cells s) -> rep X (cs_cells s) key kv -> tails X (cs_cells s) l vs ->
  sim rep None X (cs_cells s) (ccase_clauses ev k e key l s) (eval_case_clauses ev' e kv vs st).
Proof.
  induction k as [|k IH]; intros e key kv l vs X s st S0 Bd RK T.
  - destruct l; [apply sim_fuel|]. cbn in T. subst. apply (sim_ret rep); auto. constructor.
  - destruct l as [a|]; [|cbn in T; subst; apply (sim_ret rep); auto; constructor]. apply tails_some in T. destruct T as (c & v & t & -> & N & _ & R & T). cbn [ccase_clauses]. rewrite (cbind_get _ _ _ _ N). cbn [eval_case_clauses].
    destruct (c_data c) as [| | | | | | |q| | |] eqn:DC; inversion R; subst; cbn [cast_list]; try (now apply sim_err); [apply sim_ub|].
    match goal with H : reps _ _ q _ _ |- _ => apply reps_inv in H; destruct H as (cq & tv & body & -> & NQ & _ & RT & TB & _) end. rewrite (cbind_get _ _ _ _ NQ).
    rewrite (r_symval _ _ _ _ _ RT). destruct (is_sym_val tv "else"); [now apply seq_ok|]. clear R.
    destruct (c_data cq) as [| | | | | | |ds| | |] eqn:DQ; inversion RT; subst; cbn [cast_list]; try (now apply sim_err); [now apply IH|].
    match goal with H : reps _ _ ds ?us ?d |- _ => destruct (member_ok X s key kv RK k (Some ds) us (ex_intro _ d H)) as [E|[E|E]] end.
    + unfold cbind. rewrite E. apply sim_fuel.
    + unfold cbind. rewrite E. apply sim_other.
    + rewrite (cbind_eq _ _ _ _ _ E). destruct (existsb _ _); [now apply seq_ok|now apply IH].
Qed.
Lemma case_ok k e l vs X s st : same_state X s st -> bounded X (cs_cells s) -> tails X (cs_cells s) l vs ->
  sim rep None X (cs_cells s) (ccase ev k e l s) (match vs with [] => abort | x :: cs => let! key := ev' e x in eval_case_clauses ev' e key cs end st).
Proof.
  intros S0 Bd T. destruct l as [a|]; [|cbn in T; subst; apply sim_abort]. apply tails_some in T. destruct T as (c & v & t & -> & N & _ & R & T). cbn [ccase]. rewrite (cbind_get _ _ _ _ N).
  apply (ev_bind ev ev' EV); auto; [discriminate|]. intros X1 p pv s1 st1 P1 S1 B1 RP. up P1. rewrite (cbind_get _ _ _ _ N). now apply case_clauses_ok.
Qed.

(** ** do *)
Lemma insert_up_step {A B} (Q : list nat -> list cell -> A -> B -> Prop) de x v w (f : unit -> CM A) (f' : unit -> EM B) X s st : same_state X s st -> bounded X (cs_cells s) -> rep X (cs_cells s) v w ->
  (forall s1 st1, cs_cells s1 = cs_cells s -> same_state X s1 st1 -> bounded X (cs_cells s1) -> sim Q None X (cs_cells s1) (f tt s1) (f' tt st1)) ->
  sim Q None X (cs_cells s) (cbind (cmodify (fun s => c_insert_up s de x v)) f s) (ebind (insert_up de x w) f' st).
Proof.
  intros S0 Bd R F. rewrite cbind_modify. change (ebind (insert_up de x w) f' st) with (f' tt (env_insert st de x w true)). set (s2 := c_insert_up s de x v).
  assert (C2 : cs_cells s2 = cs_cells s) by (apply cells_insert_up). rewrite <- C2. apply F; auto; [now apply s_insert_up|now rewrite C2].
Qed.
Lemma inits_ok : forall k e de l vs X s st, same_state X s st -> bounded X (cs_cells s) -> tails X (cs_cells s) l vs ->
  sim same_alist None X (cs_cells s) (cdo_inits ev k e de l s) (do_inits ev' e de vs st).
Proof.
  induction k as [|k IH]; intros e de l vs X s st S0 Bd T.
  - destruct l; [apply sim_fuel|]. cbn in T. subst. apply (sim_ret same_alist); auto. constructor.
  - destruct l as [a|]; [|cbn in T; subst; apply (sim_ret same_alist); auto; constructor]. apply tails_some in T. destruct T as (c & v & t & -> & N & _ & R & T). cbn [cdo_inits]. rewrite (cbind_get _ _ _ _ N). cbn [do_inits].
    destruct (c_data c) as [| | | | | | |q| | |] eqn:DC; inversion R; subst; try (now apply sim_err).
    match goal with H : reps _ _ q _ _ |- _ => apply reps_inv in H; destruct H as (cq & xv & body & -> & NQ & _ & RX & TB & _) end. rewrite (cbind_get _ _ _ _ NQ). clear R.
    destruct (c_data cq) as [| | | | | |x| | | |] eqn:DQ; inversion RX; subst; try (now apply sim_err).
    destruct (c_next cq) as [i|]; [|cbn in TB; subst body; now apply sim_err]. apply tails_some in TB. destruct TB as (ci & iv & more' & -> & NI & _ & RI & TM). rewrite (cbind_get _ _ _ _ NI).
    apply (ev_bind ev ev' EV); auto; [discriminate|]. intros X1 w w' s1 st1 P1 S1 B1 RW. up P1. rewrite (cbind_get _ _ _ _ NI).
    assert (ST : exists so, (match c_next ci with None => cret None | Some r => do! cr := get r in cret (Some (c_data cr)) end) s1 = (CRet so s1, []) /\
       match so, more' with None, [] => True | Some y, z :: _ => rep X1 (cs_cells s1) y z | _, _ => False end).
    { destruct (c_next ci) as [r|]; [|cbn in TM; subst; exists None; split; [reflexivity|exact Logic.I]]. apply tails_some in TM. destruct TM as (cr & y & m2 & -> & NR & _ & RY & _). rewrite (cbind_get _ _ _ _ NR). exists (Some (c_data cr)). split; [reflexivity|exact RY]. }
    destruct ST as (so & ES & RS). rewrite (cbind_eq _ _ _ _ _ ES).
    apply insert_up_step; auto. intros s2 st2 C2 S2 B2. rewrite C2 in *. rewrite (cbind_get a c) by (now rewrite C2).
    rewrite <- C2. rewrite <- C2 in T, RS, B2.
    apply (sim_bind same_alist); [discriminate|now apply IH|]. intros X3 ss ss' s3 st3 P3 S3 FS. assert (B3 := po_bnd _ _ _ _ _ P3).
    apply (sim_ret same_alist); auto. destruct so as [y|], more' as [|z m2]; try easy. up P3. constructor; [split; [reflexivity|exact RS]|exact FS].
Qed.
Lemma evals_ok e : forall xs es X s st, same_state X s st -> bounded X (cs_cells s) -> Forall2 (rep X (cs_cells s)) xs es ->
  sim (fun X h => Forall2 (rep X h)) None X (cs_cells s) (cevals ev e xs s) (eval_args ev' e es st).
Proof.
  induction xs as [|x xs IH]; intros es X s st S0 Bd F; inversion F as [|? v ? es' R F']; subst.
  - apply sim_ret; auto.
  - cbn [cevals eval_args]. clear F. apply (ev_bind ev ev' EV); auto; [discriminate|]. intros X1 w w' s1 st1 P1 S1 B1 RW. up P1.
    apply (sim_bind (fun X h => Forall2 (rep X h))); [discriminate|now apply IH|]. intros X2 us us' s2 st2 P2 S2 F2. up P2. apply (sim_ret (fun X h => Forall2 (rep X h))); auto. apply P2.
Qed.
Lemma insert_all_ok de : forall xs ys vs ws X s st, same_state X s st -> bounded X (cs_cells s) -> Forall2 (fun (p : list Z * cval) (q : list Z * val) => fst p = fst q) xs ys -> Forall2 (rep X (cs_cells s)) vs ws ->
  sim (fun _ _ _ _ => True) None X (cs_cells s) (cinsert_all de xs vs s) (insert_all de ys ws st).
Proof.
  induction xs as [|[x y] xs IH]; intros ys vs ws X s st S0 Bd F G; inversion F as [|? [x' y'] ? ys' E F']; subst.
  - apply (sim_ret (fun _ _ _ _ => True)); auto.
  - cbn [fst] in E. subst x'. inversion G as [|v w vs' ws' R G']; subst; [apply (sim_ret (fun _ _ _ _ => True)); auto|]. cbn [cinsert_all insert_all]. apply insert_up_step; auto. intros s1 st1 C1 S1 B1. apply IH; auto. now rewrite C1.
Qed.
Lemma results_ok : forall k e l vs acc av X s st, same_state X s st -> bounded X (cs_cells s) -> tails X (cs_cells s) l vs -> rep X (cs_cells s) acc av ->
  sim rep None X (cs_cells s) (cresults ev k e l acc s) (eval_last ev' e vs av st).
Proof.
  induction k as [|k IH]; intros e l vs acc av X s st S0 Bd T RA.
  - destruct l; [apply sim_fuel|]. cbn in T. subst. now apply (sim_ret rep).
  - destruct l as [a|]; [|cbn in T; subst; now apply (sim_ret rep)]. apply tails_some in T. destruct T as (c & v & t & -> & N & _ & R & T). cbn [cresults eval_last]. rewrite (cbind_get _ _ _ _ N).
    apply (ev_bind ev ev' EV); auto; [discriminate|]. intros X1 w w' s1 st1 P1 S1 B1 RW. up P1. rewrite (cbind_get _ _ _ _ N). now apply IH.
Qed.
Lemma do_loop_ok k de : forall m q t r d body bs steps steps' X s st, same_state X s st -> bounded X (cs_cells s) -> reps X (cs_cells s) q (t :: r) d -> tails X (cs_cells s) body bs -> same_alist X (cs_cells s) steps steps' ->
  sim rep None X (cs_cells s) (cdo_loop ev m k de q body steps s) (do_loop ev' m de t (cdr_val (t :: r) d) bs steps' st).
Proof.
  induction m as [|m IH]; intros q t r d body bs steps steps' X s st S0 Bd RQ TB FS; [apply sim_fuel|]. cbn [cdo_loop do_loop].
  assert (RQ2 := RQ). apply reps_inv in RQ2. destruct RQ2 as (cq & t0 & r0 & E & N & _ & RT & _). injection E as <- <-. rewrite (cbind_get _ _ _ _ N).
  apply (ev_bind ev ev' EV); auto; [discriminate|]. intros X1 w w' s1 st1 P1 S1 B1 RW. apply (alist_up _ _ _ _ _ _ P1) in FS. up P1.
  destruct w as [| |b| | | | | | | |]; inversion RW; subst; try (now apply sim_err). destruct b.
  - destruct (cdr_ok X1 s1 q (t :: r) d RQ) as (rv & ER & RR). rewrite (cbind_eq _ _ _ _ _ ER). generalize dependent (cdr_val (t :: r) d). intros res RR.
    destruct rv as [| | | | | | |es| | |]; inversion RR; subst; cbn [cast_list]; try (now apply sim_err); [apply (sim_ret rep); auto; constructor|].
    apply results_ok; auto; [|constructor]. eexists; eassumption.
  - apply (sim_bind (fun X h => Forall2 (rep X h))); [discriminate|now apply args_ok|]. intros X2 us us' s2 st2 P2 S2 _. assert (B2 := po_bnd _ _ _ _ _ P2). apply (alist_up _ _ _ _ _ _ P2) in FS. up P2.
    unfold update_do. match goal with |- sim _ _ _ _ _ (ebind (ebind ?a ?f) ?g st2) => assert (AS : ebind (ebind a f) g st2 = ebind a (fun x => ebind (f x) g) st2) by (unfold ebind; destruct (a st2); reflexivity); rewrite AS; clear AS end.
    apply (sim_bind (fun X h => Forall2 (rep X h))); [discriminate|apply evals_ok; auto|].
    { clear - FS. induction FS as [|[] [] ? ? [_ R] ? IH]; cbn [map snd]; constructor; auto. }
    intros X3 vs vs' s3 st3 P3 S3 FV. assert (B3 := po_bnd _ _ _ _ _ P3). apply (alist_up _ _ _ _ _ _ P3) in FS. up P3.
    apply (sim_bind (fun _ _ _ _ => True)); [discriminate|apply insert_all_ok; auto|].
    { revert FS. apply Forall2_imp. intros p q0 [H _]. exact H. }
    intros X4 u u' s4 st4 P4 S4 _. assert (B4 := po_bnd _ _ _ _ _ P4). apply (alist_up _ _ _ _ _ _ P4) in FS. up P4. apply IH; auto.
Qed.
Lemma make_env_step {A B} (Q : list nat -> list cell -> A -> B -> Prop) pe (f : env -> CM A) (f' : env -> EM B) X s st : same_state X s st -> bounded X (cs_cells s) ->
  (forall e1 s1 st1, cs_cells s1 = cs_cells s -> same_state X s1 st1 -> bounded X (cs_cells s1) -> sim Q None X (cs_cells s1) (f e1 s1) (f' e1 st1)) ->
  sim Q None X (cs_cells s) (cbind (c_make_env pe) f s) (ebind (alloc_frame pe) f' st).
Proof.
  intros S0 Bd F. set (e1 := mkEnv (length (s_frames st) :: e_chain pe) (e_mod pe)).
  set (s1 := mkCS (cs_cells s) (cs_frames s ++ [[]]) (cs_mods s) (cs_cur s) (cs_out s) (cs_proms s)).
  set (st1 := mkState (s_frames st ++ [[]]) (s_mods st) (s_cur st) (s_proms st) (s_dyn st)).
  assert (LF : length (cs_frames s) = length (s_frames st)) by (eapply F2_len; apply S0).
  rewrite (cbind_eq _ _ _ e1 s1) by (unfold c_make_env; rewrite LF; reflexivity). change (ebind (alloc_frame pe) f' st) with (f' e1 st1).
  change (cs_cells s) with (cs_cells s1). apply F; [reflexivity| |exact Bd]. destruct S0 as [A1 A2 A3 A4 A5]. split; cbn; auto. apply Forall2_app; [exact A1|]. constructor; [constructor|constructor].
Qed.
Lemma do_ok k e l vs X s st : same_state X s st -> bounded X (cs_cells s) -> tails X (cs_cells s) l vs -> sim rep None X (cs_cells s) (cdo ev k e l s) (do_do ev' k e vs st).
Proof.
  intros S0 Bd T. destruct l as [a|]; [|cbn in T; subst; apply sim_abort]. apply tails_some in T. destruct T as (ca & v & t & -> & N & _ & R & T). unfold cdo. rewrite (cbind_get _ _ _ _ N).
  destruct (c_next ca) as [b|]; [|cbn in T; subst; apply sim_abort]. apply tails_some in T. destruct T as (cb & tc & body & -> & NB & _ & RT & TB).
  assert (GO : forall vars us, tails X (cs_cells s) vars us -> sim rep None X (cs_cells s)
     ((do! cb := get b in do! de := c_make_env e in do! steps := cdo_inits ev k e de vars in match c_data cb with CPair q => cdo_loop ev k k de q (c_next cb) steps | _ => cerr end) s)
     ((let! de := alloc_frame e in let! steps := do_inits ev' e de us in match cast_list tc with CNodes (t :: r) d => do_loop ev' k de t (cdr_val (t :: r) d) body steps | _ => err end) st)).
  { intros vars us TV. rewrite (cbind_get _ _ _ _ NB). apply make_env_step; auto. intros de s1 st1 C1 S1 B1. rewrite <- C1 in *.
    apply (sim_bind same_alist); [discriminate|now apply inits_ok|]. intros X2 ss ss' s2 st2 P2 S2 FS. assert (B2 := po_bnd _ _ _ _ _ P2). up P2.
    destruct (c_data cb) as [| | | | | | |q| | |] eqn:DC; inversion RT; subst; cbn [cast_list]; try (now apply sim_err).
    destruct vs as [|t r]; [match goal with H : reps _ _ q [] _ |- _ => inversion H end|]. now apply do_loop_ok. }
  unfold do_do. destruct (c_data ca) as [| | | | | | |q| | |] eqn:DC; inversion R; subst; cbn [cast_list]; try (unfold cbind at 1; cbn [cerr]; now apply sim_err).
  - rewrite (cbind_eq _ _ _ None s) by reflexivity. apply (GO None []). reflexivity.
  - rewrite (cbind_eq _ _ _ (Some q) s) by reflexivity. apply (GO (Some q)). eexists; eassumption.
Qed.

(** ** delay and force *)
Lemma delay_ok e x v X s st : same_state X s st -> bounded X (cs_cells s) -> rep X (cs_cells s) x v -> sim rep None X (cs_cells s) (cdelay e x s) (do_delay e v st).
Proof.
  intros S0 Bd R. unfold cdelay. apply (alloc_step _ _ _ _ st); auto. intros n s1 P1 S1 B1 N1 I1. up P1.
  assert (LP : length (cs_proms s1) = length (s_proms st)) by (eapply F2_len; apply S1).
  intros _. cbn [fst]. exists X, (VPromise (length (s_proms st))), (mkState (s_frames st) (s_mods st) (s_cur st) (s_proms st ++ [mkProm v e None]) (s_dyn st)).
  split; [reflexivity|]. split; [now apply post_refl|]. split; [|rewrite LP; constructor].
  destruct S1 as [A1 A2 A3 A4 A5]. split; cbn [cs_cells cs_frames cs_mods cs_cur cs_out cs_proms s_frames s_mods s_cur s_proms s_dyn]; auto.
  apply Forall2_app; [exact A5|]. constructor; [|constructor]. split; [eapply one; eauto|]. split; [reflexivity|exact Logic.I].
Qed.
Lemma set_promise_ok a v w X s st : same_state X s st -> rep X (cs_cells s) v w -> same_state X (c_set_promise a v s) (set_promise a w st).
Proof.
  intros S0 R. pose proof (F2_nth_error _ _ _ a (same_proms _ _ _ S0)) as H. destruct S0 as [A1 A2 A3 A4 A5].
  unfold c_set_promise, set_promise. split; cbn [cs_cells cs_frames cs_mods cs_cur cs_out cs_proms s_frames s_mods s_cur s_proms s_dyn]; auto.
  destruct (nth_error (cs_proms s) a) as [p|], (nth_error (s_proms st) a) as [q|]; try easy. apply F2_upd; [exact A5|]. destruct H as (H1 & H2 & _). split; [exact H1|]. split; [exact H2|exact R].
Qed.
Lemma force_ok k v w X s st : same_state X s st -> bounded X (cs_cells s) -> rep X (cs_cells s) v w -> sim rep None X (cs_cells s) (cforce ev k v s) (do_force ev' w st).
Proof.
  intros S0 Bd R. destruct v as [| | | | | | | | | |a]; inversion R; subst; try (now apply sim_err). cbn [cforce do_force]. rewrite cbind_gets.
  match goal with |- sim _ _ _ _ _ (ebind (gets ?g) ?f st) => change (ebind (gets g) f st) with (f (g st) st) end. cbv beta.
  pose proof (F2_nth_error _ _ _ a (same_proms _ _ _ S0)) as H. destruct (nth_error (cs_proms s) a) as [p|], (nth_error (s_proms st) a) as [q|]; try easy. destruct H as (H1 & H2 & H3).
  destruct (cp_val p) as [u|], (pr_val q) as [u'|]; try easy; [now apply (sim_ret rep)|]. rewrite H2.
  apply (sim_bind rep); [discriminate|apply (apply_ok ev ev' EV); auto; [split; reflexivity|now exists false|reflexivity]|]. intros X1 r r' s1 st1 P1 S1 RR. assert (B1 := po_bnd _ _ _ _ _ P1).
  rewrite cbind_gets. match goal with |- sim _ _ _ _ _ (ebind (gets ?g) ?f st1) => change (ebind (gets g) f st1) with (f (g st1) st1) end. cbv beta.
  assert (OR : orel X1 (cs_cells s1) (match nth_error (cs_proms s1) a with Some q => cp_val q | None => None end) (match nth_error (s_proms st1) a with Some q => pr_val q | None => None end)).
  { pose proof (F2_nth_error _ _ _ a (same_proms _ _ _ S1)) as H. destruct (nth_error (cs_proms s1) a) as [p1|], (nth_error (s_proms st1) a) as [q1|]; try easy. destruct H as (_ & _ & H). exact H. }
  destruct (match nth_error (cs_proms s1) a with Some q0 => cp_val q0 | None => None end) as [x|], (match nth_error (s_proms st1) a with Some q0 => pr_val q0 | None => None end) as [y|]; try easy; [now apply (sim_ret rep)|].
  rewrite cbind_modify. match goal with |- sim _ _ _ _ _ (ebind (modify ?g) ?f st1) => change (ebind (modify g) f st1) with (f tt (g st1)) end. cbv beta.
  change (cs_cells s1) with (cs_cells (c_set_promise a r s1)). apply (sim_ret rep); [exact B1| |exact RR]. now apply set_promise_ok.
Qed.

(** ** calls on values *)
Lemma call_ok k n nm ar args vs X s st : same_state X s st -> bounded X (cs_cells s) -> Forall2 (rep X (cs_cells s)) args vs ->
  sim rep None X (cs_cells s) (ccall cprim ev k nm ar args s) (call_func prim ev' n nm ar vs st).
Proof.
  intros S0 Bd F. unfold ccall, call_func.
  match goal with |- sim _ _ _ _ ((if _ then if _ then ?R else _ else if _ then _ else _) s) ((if _ then if _ then ?R' else _ else if _ then _ else _) st) =>
    set (run := R); set (run' := R'); assert (RUN : sim rep None X (cs_cells s) (run s) (run' st)) end.
  { unfold run, run'. clear run run'. destruct (beq nm (bs "force")).
    { destruct F; [now apply sim_err|]. now apply force_ok. }
    destruct (beq nm (bs "eval")).
    { destruct F; [now apply sim_err|]. now apply ev0. }
    destruct (beq nm (bs "values")).
    { apply (alloc_list_step _ _ _ _ st args vs); auto. intros l s1 P1 S1 B1 L1. apply (sim_ret rep); auto. now apply as_list_ok. }
    destruct (beq nm (bs "catch")); [apply sim_other|]. destruct (beq nm (bs "throw")); [apply sim_other|]. cbn [orb].
    destruct (_ || is_callcc nm)%bool; [now apply sim_err|].
    pose proof (PA X (cs_cells s) nm args vs Bd F) as H. destruct (cprim nm args (cs_cells s)) as [[[v new] o]|].
    - destruct H as (v' & -> & R). intros _. cbn [fst]. exists X, v', (emit o st). split; [reflexivity|]. split; [now apply post_app|]. split; [|exact R].
      assert (S1 := state_app X s st new Bd S0). destruct S1 as [A1 A2 A3 A4 A5]. split; cbn in *; auto. now rewrite A4.
    - rewrite H. now apply sim_err. }
  clearbody run run'. rewrite (F2_len _ _ _ F). destruct ((0 <=? ar)%Z && (ar <=? 3)%Z)%bool.
  - destruct (Z.of_nat (length vs) =? ar)%Z; [exact RUN|]. intros _. exists X, st, (VFunc nm ar). split; [reflexivity|]. split; [now apply post_refl|]. split; [exact S0|constructor].
  - destruct ((ar =? -1)%Z || (ar =? -2)%Z)%bool; [exact RUN|now apply sim_err].
Qed.
Definition vcall_list (n : nat) (e : env) (f : val) (es : list val) : EM val :=
  match f with
  | VProc ps d b pe => apply_proc ev' e ps d b pe es
  | VFunc nm ar => let! vs := eval_args ev' e es in call_func prim ev' n nm ar vs
  | _ => err
  end.
Lemma call_list_ok k n e f f' l es X s st : same_state X s st -> bounded X (cs_cells s) -> rep X (cs_cells s) f f' -> tails X (cs_cells s) l es ->
  sim rep None X (cs_cells s) (ccall_list cprim ev k e f l s) (vcall_list n e f' es st).
Proof.
  intros S0 Bd R T. inversion R; subst; cbn [ccall_list vcall_list]; try (now apply sim_err).
  - apply (sim_bind (fun X h => Forall2 (rep X h))); [discriminate|now apply args_ok|]. intros X1 us us' s1 st1 P1 S1 F1. apply call_ok; auto. apply P1.
  - apply (apply_ok ev ev' EV); auto; [split; reflexivity|eexists; eassumption].
  - apply (apply_ok ev ev' EV); auto. eexists; eassumption.
Qed.

(** ** for-each and map *)
Lemma eval_n_lists_ok e : forall n l es X s st, same_state X s st -> bounded X (cs_cells s) -> tails X (cs_cells s) l es ->
  sim (fun X h => Forall2 (tails X h)) None X (cs_cells s) (ceval_n_lists ev e n l s) (eval_n_lists ev' e n es st).
Proof.
  induction n as [|n IH]; intros l es X s st S0 Bd T; cbn [ceval_n_lists eval_n_lists]; [apply (sim_ret (fun X h => Forall2 (tails X h))); auto|].
  destruct l as [a|]; [|cbn in T; subst; now apply sim_err]. apply tails_some in T. destruct T as (c & v & t & -> & N & _ & R & T). rewrite (cbind_get _ _ _ _ N).
  apply (ev_bind ev ev' EV); auto; [discriminate|]. intros X1 w w' s1 st1 P1 S1 B1 RW. up P1. pose proof (as_list_in X1 s1 w w' RW) as H.
  destruct (elements w') as [us|]; [|unfold cbind at 1; rewrite H; now apply sim_err]. destruct H as (p & E & TP). rewrite (cbind_eq _ _ _ _ _ E), (cbind_get _ _ _ _ N).
  apply (sim_bind (fun X h => Forall2 (tails X h))); [discriminate|now apply IH|]. intros X2 ls ls' s2 st2 P2 S2 F2. up P2. apply (sim_ret (fun X h => Forall2 (tails X h))); auto. apply P2.
Qed.
Lemma eval_lists_ok e : forall k l es X s st, same_state X s st -> bounded X (cs_cells s) -> tails X (cs_cells s) l es ->
  sim (fun X h p q => Forall2 (tails X h) p q /\ length q = length es) None X (cs_cells s) (ceval_lists ev k e l s) (eval_lists ev' e es st).
Proof.
  induction k as [|k IH]; intros l es X s st S0 Bd T.
  - destruct l; [apply sim_fuel|]. cbn in T. subst. apply (sim_ret (fun X h p q => Forall2 (tails X h) p q /\ length q = _)); auto.
  - destruct l as [a|]; [|cbn in T; subst; apply (sim_ret (fun X h p q => Forall2 (tails X h) p q /\ length q = _)); auto]. apply tails_some in T. destruct T as (c & v & t & -> & N & _ & R & T). cbn [ceval_lists eval_lists]. rewrite (cbind_get _ _ _ _ N).
    apply (ev_bind ev ev' EV); auto; [discriminate|]. intros X1 w w' s1 st1 P1 S1 B1 RW. up P1. pose proof (as_list_in X1 s1 w w' RW) as H.
    destruct (elements w') as [us|]; [|unfold cbind at 1; rewrite H; now apply sim_err]. destruct H as (p & E & TP). rewrite (cbind_eq _ _ _ _ _ E), (cbind_get _ _ _ _ N).
    apply (sim_bind (fun X h p q => Forall2 (tails X h) p q /\ length q = length t)); [discriminate|now apply IH|]. intros X2 ls ls' s2 st2 P2 S2 [F2 L2]. up P2. apply (sim_ret (fun X h p q => Forall2 (tails X h) p q /\ length q = _)); auto; [apply P2|]. split; [auto|]. cbn [length]. now rewrite L2.
Qed.
Lemma each_rows_ok e : forall k f f' ls u us X s st, same_state X s st -> bounded X (cs_cells s) -> rep X (cs_cells s) f f' -> Forall2 (tails X (cs_cells s)) ls (u :: us) ->
  sim rep None X (cs_cells s) (ceach_rows ev k e f ls s) (each_rows ev' e f' u us st).
Proof.
  induction k as [|k IH]; intros f f' ls u us X s st S0 Bd RF F; [apply sim_fuel|]. cbn [ceach_rows]. destruct (nodes_ok X s ls (u :: us) F) as (cs & E & G). rewrite (cbind_eq _ _ _ _ _ E).
  destruct (forall_ok _ _ _ _ G) as [A1 A2]. rewrite A1, A2. 
  assert (UN : each_rows ev' e f' u us = if forallb exhausted (u :: us) then ret VNone else if existsb exhausted (u :: us) then err else match u with [] => ret VNone | x :: r => let! _ := ev' e (VList (f' :: quoted x :: map (fun k => quoted (hd VNone k)) us) false) in each_rows ev' e f' r (map (@tl val) us) end) by (destruct u; reflexivity).
  rewrite UN. clear UN. destruct (forallb exhausted (u :: us)); [apply (sim_ret rep); auto; constructor|]. destruct (existsb exhausted (u :: us)) eqn:EX; [now apply sim_err|].
  assert (EX2 := nil_exhausted _ EX). destruct (datas_ok _ _ _ _ G EX2) as [D1 D2]. destruct u as [|x r]; [discriminate EX|]. clear F G EX EX2 A1 A2 E.
  apply (quote_all_step _ _ _ st _ (cdatas cs) (map (hd VNone) ((x :: r) :: us))); auto. intros qs s1 P1 S1 B1 F1. apply (lists_up _ _ _ _ _ _ P1) in D2. up P1.
  apply (alloc_list_step _ _ _ _ st qs (map quoted (map (hd VNone) ((x :: r) :: us)))); auto. intros l s2 P2 S2 B2 L2. apply (lists_up _ _ _ _ _ _ P2) in D2. up P2.
  match goal with |- sim _ _ _ _ (cbind (alloc ?c) (fun b => cbind (ev e true (CPair b)) ?K) s2) _ => rewrite <- (cbind_assoc (alloc c) (fun b => ev e true (CPair b)) K) end.
  apply (sim_bind rep); [discriminate| |].
  - replace (quoted x :: map (fun k0 : list val => quoted (hd VNone k0)) us) with (map quoted (map (hd VNone) ((x :: r) :: us))) by (cbn [map hd]; rewrite map_map; reflexivity).
    apply new_call; auto. destruct l; [exists false; exact L2|exact L2].
  - intros X3 w w' s3 st3 P3 S3 _. assert (B3 := po_bnd _ _ _ _ _ P3). apply (lists_up _ _ _ _ _ _ P3) in D2. up P3. cbn [map tl] in D2. now apply IH.
Qed.
Lemma for_each_ok k e l vs X s st : same_state X s st -> bounded X (cs_cells s) -> tails X (cs_cells s) l vs -> sim rep None X (cs_cells s) (cfor_each ev k e l s) (do_for_each ev' e vs st).
Proof.
  intros S0 Bd T. destruct l as [a|]; [|cbn in T; subst; apply sim_abort]. apply tails_some in T. destruct T as (c & v & t & -> & N & _ & R & T). unfold cfor_each, do_for_each. rewrite (cbind_get _ _ _ _ N).
  apply (ev_bind ev ev' EV); auto; [discriminate|]. intros X1 f f' s1 st1 P1 S1 B1 RF. up P1. cbv zeta.
  match goal with |- sim _ _ _ _ (cbind _ ?K s1) (match _ with VNone => _ | _ => _ end st1) => assert (GO : forall n, sim rep None X1 (cs_cells s1) (K n s1) ((if (10 <? Z.of_nat n)%Z then err else let! ls := eval_n_lists ev' e n t in match ls with [] => ret VNone | l :: r => each_rows ev' e f' l r end) st1)) end.
  { intro n. cbv beta. destruct (10 <? Z.of_nat n)%Z; [now apply sim_err|]. rewrite (cbind_get _ _ _ _ N). apply (sim_bind (fun X h => Forall2 (tails X h))); [discriminate|now apply eval_n_lists_ok|].
    intros X2 ls us s2 st2 P2 S2 F2. assert (B2 := po_bnd _ _ _ _ _ P2). up P2. destruct us as [|u us]; [|now apply each_rows_ok].
    inversion F2; subst. destruct k; [apply sim_fuel|]. cbn [ceach_rows]. rewrite (cbind_eq _ _ _ [] s2) by reflexivity. apply (sim_ret rep); auto. constructor. }
  inversion RF; subst; try (unfold cbind at 1; cbn [cerr]; now apply sim_err).
  - rewrite cbind_assoc, (cbind_get _ _ _ _ N), cbind_assoc. destruct (len_ok X1 s1 k (c_next c) t T) as [E|E]; [unfold cbind at 1; rewrite E; apply sim_fuel|]. rewrite (cbind_eq _ _ _ _ _ E).
    rewrite (cbind_eq _ _ _ (if (a0 <? 0)%Z then length t else Z.to_nat a0) s1) by reflexivity. apply GO.
  - destruct (len_ok X1 s1 k None []) as [E|E]; [reflexivity|unfold cbind at 1; rewrite E; apply sim_fuel|]. rewrite (cbind_eq _ _ _ _ _ E). apply GO.
  - match goal with H : reps _ _ p ?ps ?d |- _ => destruct (len_ok X1 s1 k (Some p) ps (ex_intro _ d H)) as [E|E]; [unfold cbind at 1; rewrite E; apply sim_fuel|] end. rewrite (cbind_eq _ _ _ _ _ E). apply GO.
Qed.
Lemma map_rows_ok k n e : forall m f f' ls u us X s st, same_state X s st -> bounded X (cs_cells s) -> rep X (cs_cells s) f f' -> Forall2 (tails X (cs_cells s)) ls (u :: us) ->
  sim (fun X h => Forall2 (rep X h)) None X (cs_cells s) (cmap_rows cprim ev m k e f ls s) (map_rows prim ev' n e f' (rows u us) st).
Proof.
  induction m as [|m IH]; intros f f' ls u us X s st S0 Bd RF F; [apply sim_fuel|]. cbn [cmap_rows]. destruct (nodes_ok X s ls (u :: us) F) as (cs & E & G). rewrite (cbind_eq _ _ _ _ _ E).
  rewrite (none_ok _ _ _ _ G). assert (UN : rows u us = if existsb nil_list (u :: us) then [] else map (hd VNone) (u :: us) :: rows (tl u) (map (@tl val) us)).
  { destruct u as [|x r]; [reflexivity|]. cbn [rows existsb nil_list orb]. rewrite heads_eq. destruct (existsb nil_list us); reflexivity. }
  rewrite UN. clear UN. destruct (existsb nil_list (u :: us)) eqn:EX; [apply (sim_ret (fun X h => Forall2 (rep X h))); auto; constructor|].
  destruct (datas_ok _ _ _ _ G EX) as [D1 D2]. clear F G EX E. cbn [map_rows].
  apply (quote_all_step _ _ _ st _ (cdatas cs) (map (hd VNone) (u :: us))); auto. intros qs s1 P1 S1 B1 F1. apply (lists_up _ _ _ _ _ _ P1) in D2. up P1.
  apply (alloc_list_step _ _ _ _ st qs (map quoted (map (hd VNone) (u :: us)))); auto. intros l s2 P2 S2 B2 L2. apply (lists_up _ _ _ _ _ _ P2) in D2. up P2.
  apply (sim_bind rep); [discriminate| |].
  - change (call_quoted prim ev' n e f' (map (hd VNone) (u :: us))) with (vcall_list n e f' (map quoted (map (hd VNone) (u :: us)))). apply call_list_ok; auto. destruct l; [exists false; exact L2|exact L2].
  - intros X3 w w' s3 st3 P3 S3 RW. assert (B3 := po_bnd _ _ _ _ _ P3). apply (lists_up _ _ _ _ _ _ P3) in D2. up P3.
    apply (sim_bind (fun X h => Forall2 (rep X h))); [discriminate|now apply IH|]. intros X4 vs vs' s4 st4 P4 S4 F4. up P4. apply (sim_ret (fun X h => Forall2 (rep X h))); auto. apply P4.
Qed.
Lemma map_ok k n e l vs X s st : same_state X s st -> bounded X (cs_cells s) -> tails X (cs_cells s) l vs -> sim rep None X (cs_cells s) (cmap cprim ev k e l s) (do_map prim ev' n e vs st).
Proof.
  intros S0 Bd T. destruct l as [a|]; [|cbn in T; subst; now apply sim_err]. apply tails_some in T. destruct T as (c & v & t & -> & N & _ & R & T). unfold cmap, do_map. rewrite (cbind_get _ _ _ _ N).
  destruct (c_next c) as [b|] eqn:NB; [|cbn in T; subst; now apply sim_err]. destruct t as [|t1 t]; [destruct T as [d T]; inversion T|].
  apply (ev_bind ev ev' EV); auto; [discriminate|]. intros X1 f f' s1 st1 P1 S1 B1 RF. up P1.
  assert (GO : sim rep None X1 (cs_cells s1) ((do! c2 := get a in do! ls := ceval_lists ev k e (c_next c2) in do! vs := cmap_rows cprim ev k k e f ls in do! r := alloc_list vs in cret (as_list r)) s1)
     ((let! ls := eval_lists ev' e (t1 :: t) in let! vs := map_rows prim ev' n e f' (match ls with l :: r => rows l r | [] => [] end) in ret (mklist vs)) st1)).
  { rewrite (cbind_get _ _ _ _ N), NB. apply (sim_bind (fun X h p q => Forall2 (tails X h) p q /\ length q = length (t1 :: t))); [discriminate|now apply eval_lists_ok|].
    intros X2 ls us s2 st2 P2 S2 [F2 L2]. assert (B2 := po_bnd _ _ _ _ _ P2). up P2. destruct us as [|u us]; [discriminate L2|].
    apply (sim_bind (fun X h => Forall2 (rep X h))); [discriminate|now apply map_rows_ok|]. intros X3 ws ws' s3 st3 P3 S3 F3. assert (B3 := po_bnd _ _ _ _ _ P3).
    apply (alloc_list_step _ _ _ _ st3 ws ws'); auto. intros r s4 P4 S4 B4 L4. apply (sim_ret rep); auto. now apply as_list_ok. }
  inversion RF; subst; cbn [is_callable]; try exact GO; now apply sim_err.
Qed.

(** ** apply *)
Inductive lastn (h : list cell) : nat -> nat -> Prop :=
| ln_end a c : nth_error h a = Some c -> c_next c = None -> lastn h a a
| ln_more a c b z : nth_error h a = Some c -> c_next c = Some b -> lastn h b z -> lastn h a z.
Lemma lastn_up X h X' h' a z : post None X h X' h' -> lastn h a z -> lastn h' a z.
Proof. intros P H. induction H as [a c N E|a c b z N E H IH]; [eapply ln_end|eapply ln_more]; try eassumption; apply (po_same _ _ _ _ _ P); auto; discriminate. Qed.
Lemma lastn_end h a z : lastn h a z -> exists c, nth_error h z = Some c /\ c_next c = None.
Proof. intro H. induction H; eauto. Qed.
Lemma last_at_ok X s : forall k a vs, tails X (cs_cells s) (Some a) vs -> clast_at k a s = (CFuel, []) \/
  exists z c, clast_at k a s = (CRet z s, []) /\ lastn (cs_cells s) a z /\ nth_error (cs_cells s) z = Some c /\ rep X (cs_cells s) (c_data c) (last vs VNone).
Proof.
  induction k as [|k IH]; intros a vs T; [now left|]. cbn [clast_at]. apply tails_some in T. destruct T as (c & v & t & -> & N & _ & R & T). rewrite (cbind_get _ _ _ _ N). destruct (c_next c) as [b|] eqn:NB.
  - destruct (IH b t T) as [E|(z & cz & E & L & NZ & RZ)]; [now left|right]. exists z, cz. split; [exact E|]. split; [eapply ln_more; eauto|]. split; [exact NZ|]. destruct t; [destruct T as [d T]; inversion T|exact RZ].
  - cbn in T. subst t. right. exists a, c. split; [reflexivity|]. split; [eapply ln_end; eauto|]. split; [exact N|exact R].
Qed.
Lemma before_ok e : forall k z a vs X s st, same_state X s st -> bounded X (cs_cells s) -> tails X (cs_cells s) (Some a) vs -> lastn (cs_cells s) a z ->
  sim (fun X h => Forall2 (rep X h)) None X (cs_cells s) (cbefore ev k e z a s) (eval_args ev' e (removelast vs) st).
Proof.
  induction k as [|k IH]; intros z a vs X s st S0 Bd T L; cbn [cbefore].
  - destruct (Nat.eqb_spec a z) as [->|NE]; [|apply sim_fuel]. apply tails_some in T. destruct T as (c & v & t & -> & N & _ & R & T). destruct (lastn_end _ _ _ L) as (c2 & N2 & E2). assert (c2 = c) by congruence. subst c2. rewrite E2 in T. cbn in T. subst t. apply (sim_ret (fun X h => Forall2 (rep X h))); auto; constructor.
  - destruct (Nat.eqb_spec a z) as [->|NE].
    + apply tails_some in T. destruct T as (c & v & t & -> & N & _ & R & T). destruct (lastn_end _ _ _ L) as (c2 & N2 & E2). assert (c2 = c) by congruence. subst c2. rewrite E2 in T. cbn in T. subst t. apply (sim_ret (fun X h => Forall2 (rep X h))); auto; constructor.
    + apply tails_some in T. destruct T as (c & v & t & -> & N & _ & R & T). rewrite (cbind_get _ _ _ _ N). inversion L as [a0 c0 N0 E0|a0 c0 b z0 N0 E0 L0]; subst; [congruence|]. assert (c0 = c) by congruence. subst c0. rewrite E0 in T.
      destruct t as [|v2 t]; [destruct T as [d T]; inversion T|]. change (removelast (v :: v2 :: t)) with (v :: removelast (v2 :: t)). cbn [eval_args].
      apply (ev_bind ev ev' EV); auto; [discriminate|]. intros X1 w w' s1 st1 P1 S1 B1 RW. apply (lastn_up _ _ _ _ _ _ P1) in L0. clear N0. up P1. rewrite (cbind_get _ _ _ _ N), E0.
      apply (sim_bind (fun X h => Forall2 (rep X h))); [discriminate|now apply IH|]. intros X2 us us' s2 st2 P2 S2 F2. up P2. apply (sim_ret (fun X h => Forall2 (rep X h))); auto. apply P2.
Qed.
Lemma apply_form_ok k n e : forall m l vs X s st, same_state X s st -> bounded X (cs_cells s) -> tails X (cs_cells s) l vs -> sim rep None X (cs_cells s) (capply_form cprim ev m k e l s) (do_apply prim ev' m n e vs st).
Proof.
  induction m as [|m IH]; intros l vs X s st S0 Bd T; [apply sim_fuel|]. destruct l as [a|]; [|cbn in T; subst; now apply sim_err]. apply tails_some in T. destruct T as (c & v & t & -> & N & _ & R & T). cbn [capply_form do_apply]. rewrite (cbind_get _ _ _ _ N).
  apply (ev_bind ev ev' EV); auto; [discriminate|]. intros X1 f f' s1 st1 P1 S1 B1 RF. up P1.
  set (fin' := fun exprs => match f' with
     | VFunc nm ar => if beq nm (bs "apply") then do_apply prim ev' m n e exprs else if beq nm (bs "map") then do_map prim ev' n e exprs else if is_callcc nm then fuel else vcall_list n e f' exprs
     | _ => vcall_list n e f' exprs end).
  assert (GO : forall (rest : list val -> list val -> EM val), (forall vs els st, (forall nm ar, f' = VFunc nm ar -> is_callcc nm = false) -> rest vs els st = fin' (vs ++ map quoted els) st) ->
     sim rep None X1 (cs_cells s1)
     ((do! c2 := get a in match c_next c2 with None => cerr | Some b => do! z := clast_at k b in do! cz := get z in do! lst := ev e false (c_data cz) in do! q := cas_list lst in do! vs := cbefore ev k e z b in do! els := celems k q in do! qs := cquote_all els in do! al := alloc_list (vs ++ qs) in
       match f with CFunc nm ar => if beq nm (bs "apply") then capply_form cprim ev m k e al else if beq nm (bs "map") then cmap cprim ev k e al else if is_callcc nm then cother else ccall_list cprim ev k e f al | _ => ccall_list cprim ev k e f al end end) s1)
     (match t with [] => err | _ => let! lst := ev' e (last t VNone) in match elements lst with None => err | Some els => let! vs := eval_args ev' e (removelast t) in rest vs els end end st1)).
  { intros rest REST. rewrite (cbind_get _ _ _ _ N). destruct (c_next c) as [b|]; [|cbn in T; subst t; now apply sim_err]. destruct t as [|t1 t]; [destruct T as [d T]; inversion T|].
    destruct (last_at_ok X1 s1 k b (t1 :: t) T) as [E|(z & cz & E & L & NZ & RZ)]; [unfold cbind at 1; rewrite E; apply sim_fuel|]. rewrite (cbind_eq _ _ _ _ _ E), (cbind_get _ _ _ _ NZ).
    apply (ev_bind ev ev' EV); auto; [discriminate|]. intros X2 lst lst' s2 st2 P2 S2 B2 RL. apply (lastn_up _ _ _ _ _ _ P2) in L. up P2. pose proof (as_list_in X2 s2 lst lst' RL) as H.
    destruct (elements lst') as [els|]; [|unfold cbind at 1; rewrite H; now apply sim_err]. destruct H as (q & EQ & TQ). rewrite (cbind_eq _ _ _ _ _ EQ).
    apply (sim_bind (fun X h => Forall2 (rep X h))); [discriminate|now apply before_ok|]. intros X3 us us' s3 st3 P3 S3 F3. assert (B3 := po_bnd _ _ _ _ _ P3). up P3.
    destruct (elems_ok X3 s3 k q els TQ) as [EE|(cels & EE & FE)]; [unfold cbind at 1; rewrite EE; apply sim_fuel|]. rewrite (cbind_eq _ _ _ _ _ EE).
    apply (quote_all_step _ _ _ st3 _ cels els); auto. intros qs s4 P4 S4 B4 F4. up P4.
    apply (alloc_list_step _ _ _ _ st3 (us ++ qs) (us' ++ map quoted els)); auto; [now apply Forall2_app|]. intros al s5 P5 S5 B5 L5. up P5.
    assert (TA : tails X3 (cs_cells s5) al (us' ++ map quoted els)) by (destruct al; [exists false; exact L5|exact L5]). clear L5.
    assert (CC : (exists nm ar, f' = VFunc nm ar /\ is_callcc nm = true /\ beq nm (bs "apply") = false /\ beq nm (bs "map") = false) \/ (forall nm ar, f' = VFunc nm ar -> is_callcc nm = false)).
    { assert (DF : (exists nm ar, f' = VFunc nm ar) \/ (forall nm ar, f' <> VFunc nm ar)) by (clear; destruct f'; try (right; discriminate); left; eauto).
      destruct DF as [(nm & ar & EF)|NF]; [|right; intros nm ar E0; exfalso; exact (NF _ _ E0)].
      destruct (is_callcc nm) eqn:IC; [left|right; intros nm' ar' E0; assert (nm' = nm) by congruence; subst nm'; exact IC]. exists nm, ar. split; [exact EF|]. split; [exact IC|].
      unfold is_callcc in IC. clear - IC. apply Bool.orb_true_iff in IC. destruct IC as [H|H]; match type of H with beq ?a ?b = _ => destruct (EnvProofs.beq_spec a b); [|discriminate H] end; subst nm; split; vm_compute; reflexivity. }
    destruct CC as [(nm & ar & -> & IC & IA & IM)|NC].
    - inversion RF; subst. rewrite IA, IM, IC. apply sim_other.
    - rewrite REST by exact NC. unfold fin'. inversion RF; subst; try (now apply call_list_ok).
      rewrite (NC _ _ eq_refl). destruct (beq n0 (bs "apply")); [now apply IH|]. destruct (beq n0 (bs "map")); [now apply map_ok|]. now apply call_list_ok. }
  inversion RF; subst; try (now apply sim_err).
  - refine (GO (fun vs els => let exprs := vs ++ map quoted els in
                          if beq n0 (bs "apply") then do_apply prim ev' m n e exprs
                          else if beq n0 (bs "map") then do_map prim ev' n e exprs
                          else if is_callcc n0 then
                            match exprs with
                            | [] => err
                            | pa :: _ =>
                                let! g := ev' e pa in
                                if is_callable g then
                                  with_cont (fun k =>
                                    match g with
                                    | VProc ps d b pe => apply_proc ev' e ps d b pe [k]
                                    | VFunc nm2 ar2 => let! vs2 := eval_args ev' e [k] in call_func prim ev' n nm2 ar2 vs2
                                    | _ => err
                                    end)
                                else err
                            end
                          else let! vs2 := eval_args ev' e exprs in call_func prim ev' n n0 a0 vs2) _).
    intros vs els st2 NC. unfold fin'. cbv zeta. rewrite (NC _ _ eq_refl). reflexivity.
  - refine (GO (fun vs els => apply_proc ev' e [] false bs e0 (vs ++ map quoted els)) _). reflexivity.
  - refine (GO (fun vs els => apply_proc ev' e ps d bs e0 (vs ++ map quoted els)) _). reflexivity.
Qed.

(** ** call-with-values *)
Definition chain (X : list nat) (h : list cell) (l : option nat) (vs : list val) (d : bool) : Prop := match l with None => vs = [] | Some a => reps X h a vs d end.
Lemma chain_up X h X' h' l vs d : post None X h X' h' -> chain X h l vs d -> chain X' h' l vs d.
Proof. intros P F. destruct l; [cbn in *; now up P|exact F]. Qed.
Lemma chain_tails X h l vs d : chain X h l vs d -> tails X h l vs.
Proof. destruct l; [intro H; exists d; exact H|auto]. Qed.
Lemma bind_values_ok fe rest dv : forall k p a ps vs X s st, same_state X s st -> bounded X (cs_cells s) -> tails X (cs_cells s) p ps -> chain X (cs_cells s) a vs dv ->
  sim (fun _ _ _ _ => True) None X (cs_cells s) (cbind_values k fe rest p a s) (bind_values fe rest ps vs dv st).
Proof.
  induction k as [|k IH]; intros p a ps vs X s st S0 Bd T C.
  - destruct p as [p|]; [apply sim_fuel|]. cbn in T. subst ps. cbn [cbind_values bind_values]. destruct a as [a|]; [|cbn in C; subst vs; apply (sim_ret (fun _ _ _ _ => True)); auto].
    destruct vs; [inversion C|]. now apply sim_err.
  - destruct p as [p|].
    2:{ cbn in T. subst ps. cbn [cbind_values bind_values]. destruct a as [a|]; [|cbn in C; subst vs; apply (sim_ret (fun _ _ _ _ => True)); auto]. destruct vs; [inversion C|]. now apply sim_err. }
    apply tails_some in T. destruct T as (cp & pv & pt & -> & N & _ & R & T). cbn [cbind_values bind_values]. rewrite (cbind_get _ _ _ _ N).
    assert (GO : sim (fun _ _ _ _ => True) None X (cs_cells s)
       (match c_data cp with CSym x => match a with Some a => do! ca := get a in do! _ := cmodify (fun s => c_insert s fe x (c_data ca)) in cbind_values k fe rest (c_next cp) (c_next ca) | None => cerr end | _ => cerr end s)
       (match is_sym pv, vs with Some x, v :: r => let! _ := insert fe x v in bind_values fe rest pt r dv | _, _ => err end st)).
    { destruct (c_data cp) as [| | | | | |x| | | |]; inversion R; subst; cbn [is_sym]; try (now apply sim_err). destruct a as [a|]; [|cbn in C; subst vs; now apply sim_err].
      cbn [chain] in C. apply reps_inv in C. destruct C as (ca & v & r & -> & NA & _ & RA & TA & DA). rewrite (cbind_get _ _ _ _ NA). rewrite cbind_modify.
      match goal with |- sim _ _ _ _ _ (ebind (insert fe x v) ?f st) => change (ebind (insert fe x v) f st) with (f tt (env_insert st fe x v false)) end. cbv beta.
      set (s2 := c_insert s fe x (c_data ca)). assert (C2 : cs_cells s2 = cs_cells s) by (apply cells_insert). rewrite <- C2. apply IH; rewrite ?C2; auto; [now apply insert_state|].
      destruct (c_next ca) as [b|]; [apply DA|exact TA]. }
    destruct rest.
    + destruct (c_next cp) as [q|] eqn:NQ.
      * destruct pt as [|p2 pt]; [destruct T as [d T]; inversion T|]. destruct pv; try exact GO; destruct (c_data cp); exact GO.
      * cbn in T. subst pt. destruct (c_data cp) as [| | | | | |y| | | |]; inversion R; subst; cbn [is_sym]; try (now apply sim_err).
        intros _. cbn [cmodify fst]. exists X, tt, (env_insert st fe y (match vs with [] => VNil | _ => VList vs dv end) false). split; [reflexivity|]. rewrite cells_insert. split; [now apply post_refl|]. split; [|exact Logic.I].
        apply insert_state; auto. destruct a as [a|]; [|cbn in C; subst vs; constructor]. destruct vs; [inversion C|]. constructor. exact C.
    + destruct (c_data cp); exact GO.
Qed.
Lemma apply_vals_ok k p b pe args ps d bs vs dv X s st : same_state X s st -> bounded X (cs_cells s) -> params X (cs_cells s) p ps d -> tails X (cs_cells s) (Some b) bs -> chain X (cs_cells s) args vs dv ->
  sim rep None X (cs_cells s) (capply_vals ev k p b pe args s) (apply_vals ev' ps d bs pe vs dv st).
Proof.
  intros S0 Bd PP TB C. unfold capply_vals, apply_vals. apply make_env_step; auto. intros fe s1 st1 C1 S1 B1. rewrite <- C1 in *.
  destruct (rest_ok X s1 k p ps d PP) as [E|E]; [unfold cbind; rewrite E; apply sim_fuel|]. rewrite (cbind_eq _ _ _ _ _ E).
  assert (TP : tails X (cs_cells s1) p ps) by (destruct p; [exists d; exact PP|apply PP]).
  apply (sim_bind (fun _ _ _ _ => True)); [discriminate|now apply bind_values_ok|]. intros X2 u u' s2 st2 P2 S2 _. up P2. apply body_ok; auto. apply P2.
Qed.
Lemma cwv_ok k n e l vs X s st : same_state X s st -> bounded X (cs_cells s) -> tails X (cs_cells s) l vs -> sim rep None X (cs_cells s) (ccall_with_values cprim ev k e l s) (do_call_with_values prim ev' n e vs st).
Proof.
  intros S0 Bd T. destruct l as [a|]; [|cbn in T; subst; now apply sim_err]. apply tails_some in T. destruct T as (c & v & t & -> & N & _ & R & T). unfold ccall_with_values, do_call_with_values. rewrite (cbind_get _ _ _ _ N).
  destruct (c_next c) as [b|] eqn:NB; [|cbn in T; subst; now apply sim_err]. apply tails_some in T. destruct T as (cb & cv & t2 & -> & NBb & _ & RB & _).
  apply (ev_bind ev ev' EV); auto; [discriminate|]. intros X1 f f' s1 st1 P1 S1 B1 RF. up P1.
  assert (GO : forall X2 r r' s2 st2, post None X1 (cs_cells s1) X2 (cs_cells s2) -> same_state X2 s2 st2 -> rep X2 (cs_cells s2) r r' -> sim rep None X2 (cs_cells s2)
    ((do! vl := (match r with CPair q => cret (Some q) | CNil => cret None | v => do! n := alloc (mkCell v None false) in cret (Some n) end) in
      do! c2 := get a in
      match c_next c2 with
      | None => cub
      | Some b =>
          do! cb := get b in
          do! g := ev e false (c_data cb) in
          match g with
          | CProc p b pe => capply_vals ev k p b pe vl
          | CFunc nm ar => do! vs := celems k vl in ccall cprim ev k nm ar vs
          | _ => cerr
          end
      end) s2)
    ((let! consumer := ev' e cv in match consumer with VProc ps d b pe => apply_vals ev' ps d b pe (match r' with VList ns _ => ns | VNil => [] | v => [v] end) (match r' with VList _ d => d | _ => false end)
       | VFunc nm ar => call_func prim ev' n nm ar (match r' with VList ns _ => ns | VNil => [] | v => [v] end) | _ => err end) st2)).
  { intros X2 r r' s2 st2 P2 S2 RR. assert (B2 := po_bnd _ _ _ _ _ P2). up P2.
    set (ws := match r' with VList ns _ => ns | VNil => [] | v => [v] end). set (dv := match r' with VList _ d => d | _ => false end).
    assert (GO2 : forall vl s3, post None X2 (cs_cells s2) X2 (cs_cells s3) -> same_state X2 s3 st2 -> bounded X2 (cs_cells s3) -> chain X2 (cs_cells s3) vl ws dv -> sim rep None X2 (cs_cells s3)
      ((do! c2 := get a in match c_next c2 with None => cub | Some b => do! cb := get b in do! g := ev e false (c_data cb) in match g with CProc p b pe => capply_vals ev k p b pe vl | CFunc nm ar => do! vs := celems k vl in ccall cprim ev k nm ar vs | _ => cerr end end) s3)
      ((let! consumer := ev' e cv in match consumer with VProc ps d b pe => apply_vals ev' ps d b pe ws dv | VFunc nm ar => call_func prim ev' n nm ar ws | _ => err end) st2)).
    { intros vl s3 P3 S3 B3 C. up P3. rewrite (cbind_get _ _ _ _ N), NB, (cbind_get _ _ _ _ NBb). apply (ev_bind ev ev' EV); auto; [discriminate|]. intros X4 g g' s4 st4 P4 S4 B4 RG. apply (chain_up _ _ _ _ _ _ _ P4) in C. up P4.
      inversion RG; subst; try (now apply sim_err).
      - destruct (elems_ok X4 s4 k vl ws (chain_tails _ _ _ _ _ C)) as [E|(us & E & FU)]; [unfold cbind at 1; rewrite E; apply sim_fuel|]. rewrite (cbind_eq _ _ _ _ _ E). now apply call_ok.
      - apply apply_vals_ok; auto; [split; reflexivity|eexists; eassumption].
      - apply apply_vals_ok; auto. eexists; eassumption. }
    assert (ONE : forall v, ws = [v] -> dv = false -> rep X2 (cs_cells s2) r v -> sim rep None X2 (cs_cells s2)
      ((do! vl := (do! n := alloc (mkCell r None false) in cret (Some n)) in do! c2 := get a in match c_next c2 with None => cub | Some b => do! cb := get b in do! g := ev e false (c_data cb) in match g with CProc p b pe => capply_vals ev k p b pe vl | CFunc nm ar => do! vs := celems k vl in ccall cprim ev k nm ar vs | _ => cerr end end) s2)
      ((let! consumer := ev' e cv in match consumer with VProc ps d b pe => apply_vals ev' ps d b pe ws dv | VFunc nm ar => call_func prim ev' n nm ar ws | _ => err end) st2)).
    { intros w EW ED RW. rewrite cbind_assoc. apply (alloc_step _ _ _ _ st2); auto. intros m s3 P3 S3 B3 N3 I3. rewrite (cbind_eq _ _ _ (Some m) s3) by reflexivity. apply GO2; auto. rewrite EW, ED. cbn [chain]. clear GO2. up P3. eapply one; eauto. }
    destruct RR; try (eapply ONE; try reflexivity; econstructor; eassumption); try (eapply ONE; try reflexivity; constructor).
    - rewrite (cbind_eq _ _ _ None s2) by reflexivity. apply GO2; auto; [now apply post_refl|reflexivity].
    - rewrite (cbind_eq _ _ _ (Some a0) s2) by reflexivity. apply GO2; auto. now apply post_refl. }
  inversion RF; subst; cbn [is_callable]; try (now apply sim_err); cbv zeta.
  - apply (sim_bind rep); [discriminate|apply call_ok; auto|exact GO].
  - apply (sim_bind rep); [discriminate|apply (apply_ok ev ev' EV); auto; [split; reflexivity|eexists; eassumption|reflexivity]|exact GO].
  - apply (sim_bind rep); [discriminate|apply (apply_ok ev ev' EV); auto; [eexists; eassumption|reflexivity]|exact GO].
Qed.
End Forms.
