From Coq Require Import Lia String.
From Verif Require Import Base NumModel HeapModel StringModel ParseModel ParseSpec ParseProofs LocModel LocSpec LocProofs LocProofs2.
Local Open Scope list_scope.
Local Open Scope Z_scope.

Definition tl_list (t : option ld) : list ld := match t with Some x => [x] | None => [] end.
Definition GL (st : pst) (lx : list lexeme) (e : list ld * option ld) : Prop := Forall (good lx st) (fst e ++ tl_list (snd e)).
Definition ef (e : list ld * option ld) : list rdatum * option rdatum := (map erase (fst e), oe (snd e)).

Definition linv (n : nat) : Prop :=
  (forall st, own st -> Post st oe (PX st) (l_expr n st) (p_expr n (rest st))) /\
  (forall st, own st -> at0 (rest st) = 39 -> Post st erase (fun lx d => good lx st d) (l_quote n st) (p_quote n (rest st))) /\
  (forall st, own st -> at0 (rest st) = 44 -> Post st erase (fun lx d => good lx st d) (l_unq n st) (p_unq n (rest st))) /\
  (forall st, own st -> Post st ef (GL st) (l_elems n st) (p_elems n (rest st))) /\
  (forall st, own st -> Post st (map erase) (fun lx e => Forall (good lx st) e) (l_vec n st) (p_vec n (rest st))).

Lemma good_abbr lx st s d : good lx st d -> good lx st (LAbbr s d).
Proof. intros G. apply good_kids; [intros l [=]|]. constructor; auto. Qed.
Lemma post_ok {A B} st (f : A -> B) (P : list lexeme -> A -> Prop) a b st' lx :
  b = f a -> step lx st st' -> P lx a -> Post st f P (POk a st') (Ok (b, rest st')).
Proof. intros -> S1 Pa. cbn. eauto. Qed.
Lemma step_nil lx a st1 st2 st3 : step lx st1 st2 -> step a st2 st3 -> a = [] -> step lx st1 st3.
Proof. intros S1 S2 ->. change lx with ([] ++ lx). eapply step_trans; eauto. Qed.
Ltac st_tac := repeat match goal with
  | |- step _ _ (pop _) => eapply step_nil; [|apply step_pop|reflexivity]
  | |- step _ _ (touch _ _ _) => eapply step_nil; [|apply step_touch|reflexivity]
  end.
Lemma good_lift lx lx' st st1 d : step lx st st1 -> good lx' st1 d -> good (lx' ++ lx) st d.
Proof. apply good_later. Qed.
Lemma goods_lift lx lx' st st1 ds : step lx st st1 -> Forall (good lx' st1) ds -> Forall (good (lx' ++ lx) st) ds.
Proof. intros S1. apply Forall_impl. intros d. now apply good_later. Qed.
Lemma goods_more lx lx' st ds : Forall (good lx st) ds -> Forall (good (lx' ++ lx) st) ds.
Proof. apply Forall_impl. intros d. apply good_more_l. Qed.

Lemma n10 s k : (at0 s =? k) = true -> k <> 10 -> at0 s <> 10.
Proof. intros H. apply Z.eqb_eq in H. now rewrite H. Qed.
Lemma n10b s k : (at1 s =? k) = true -> k <> 10 -> at1 s <> 10.
Proof. intros H. apply Z.eqb_eq in H. now rewrite H. Qed.
Ltac en := repeat apply ends_app; assumption.
Section Step.
Variable n : nat.
Hypothesis IH : linv n.
Let IE := proj1 IH.
Let IQ := proj1 (proj2 IH).
Let IU := proj1 (proj2 (proj2 IH)).
Let IL := proj1 (proj2 (proj2 (proj2 IH))).
Let IV := proj2 (proj2 (proj2 (proj2 IH))).

Lemma UE st : own st ->
  Post st oe (GX st) (if at0 (rest st) =? 44 then pdo x, k <- l_unq n st; POk (Some x) k else l_expr n st)
    (if at0 (rest st) =? 44 then do '(x, k) <- p_unq n (rest st); Ok (Some x, k) else p_expr n (rest st)).
Proof.
  intros O. destruct (at0 (rest st) =? 44) eqn:E.
  - eapply post_bind; [apply step_refl|apply IU; [auto|now apply Z.eqb_eq]|].
    intros d st2 lx2 S2 G. eapply post_ok; eauto.
  - apply full; auto.
Qed.

Lemma char_read st : own st -> at0 (rest st) = 35 -> at1 (rest st) = 92 ->
  Post st (fun d => match erase d with RChar b => b | _ => 0 end) (fun lx d => good lx st d /\ exists b, erase d = RChar b) (l_char st) (p_char (rest st)).
Proof.
  intros O E0 E1. pose proof (post_char st st [] O (step_refl st)) as H. specialize (H E0 E1).
  destruct (l_char st) as [d st'|e st'| | |]; destruct (p_char (rest st)) as [[b r]| | | |] eqn:E; cbn in H |- *; try contradiction; auto.
  destruct H as (Eb & Er & lx & S1 & (K & R) & b' & Eb'). split; auto. split; auto. exists lx. split; auto. split; [|eauto].
  apply good_kids; [|rewrite K; constructor]. intros l Rl. rewrite (R l Rl). split; [reflexivity|].
  assert (Sk : skip (rest st) = rest st).
  { destruct (rest st) as [|c q] eqn:Q; [reflexivity|]. cbn in E0. subst c. reflexivity. }
  exists [], lx, (rest st). split; [now rewrite app_nil_r|]. split; [reflexivity|]. split; [exact Sk|]. split.
  - split; [intros pre H _; cbn; rewrite app_nil_r; exact H|intros _; cbn; lia].
  - exists 1%nat, r. cbn [p_expr]. rewrite Sk, E0, E1. cbn [Z.eqb Pos.eqb andb]. rewrite E. cbn. rewrite Eb' in *. now subst.
Qed.
Lemma quote_step st : own st -> at0 (rest st) = 39 -> Post st erase (fun lx d => good lx st d) (l_quote (S n) st) (p_quote (S n) (rest st)).
Proof.
  intros O N. cbn [l_quote p_quote].
  assert (Er : rest (push "quote" st) = rest st) by (unfold push; destruct (Nat.leb _ _); reflexivity).
  rewrite <- Er. eapply post_adv; [now apply step_push, op_quote|rewrite Er, N; discriminate|rewrite Er, N; discriminate|].
  intros st1 t Et S1 _. assert (S1' := step_trans _ _ _ _ _ (step_push "quote" st (op_quote _ N)) S1).
  assert (O1 := own_step _ _ _ O S1').
  destruct ((at0 (rest st1) =? 35) && (at1 (rest st1) =? 92)) eqn:EC.
  - apply andb_true_iff in EC. destruct EC as [E0 E1]. apply Z.eqb_eq in E0, E1.
    eapply post_bind; [exact S1'|now apply char_read|].
    intros d st2 lx2 S2 [G (b & Eb)]. cbv beta iota. rewrite Eb.
    eapply (post_ok st erase (fun lx x => good lx st x)); [cbn; now rewrite Eb|eapply step_trans; [exact S1'|exact S2]|].
    apply good_abbr. eapply good_later; eauto.
  - eapply post_bind; [exact S1'|now apply UE|]. intros [d|] st2 lx2 S2 G; cbv beta iota; cbn [option_map].
    + eapply (post_ok st erase (fun lx x => good lx st x) _ _ (pop st2)); [reflexivity|st_tac; eapply step_trans; [exact S1'|exact S2]|].
      apply good_abbr. eapply good_later; eauto.
    + eapply post_err; [|st_tac; eapply step_trans; [exact S1'|exact S2]]. eapply own_step; [exact O|]. st_tac. eapply step_trans; [exact S1'|exact S2].
Qed.
Lemma unq_step st : own st -> at0 (rest st) = 44 -> Post st erase (fun lx d => good lx st d) (l_unq (S n) st) (p_unq (S n) (rest st)).
Proof.
  intros O N. cbn [l_unq p_unq].
  assert (FIN : forall s0 st1 lx1, step lx1 st st1 -> own st1 -> forall msg,
    Post st erase (fun lx d => good lx st d)
      (pdo d, st2 <- l_expr n st1; match d with Some d => POk (LAbbr s0 d) st2 | None => perr msg st2 end)
      (do '(d, r') <- p_expr n (rest st1); match d with Some d => Ok (two s0 d, r') | None => Err end)).
  { intros s0 st1 lx1 S1 O1 msg. eapply post_bind; [exact S1|apply full; auto|]. intros [d|] st2 lx2 S2 G; cbv beta iota; cbn [option_map].
    - eapply (post_ok st erase (fun lx x => good lx st x)); [reflexivity|eapply step_trans; [exact S1|exact S2]|]. apply good_abbr. eapply good_later; eauto.
    - eapply post_err; [|eapply step_trans; [exact S1|exact S2]]. eapply own_step; [exact O1|exact S2]. }
  destruct (at1 (rest st) =? 64) eqn:E1.
  - eapply post_adv2; [apply step_refl|eapply nz1; eauto; discriminate|rewrite N; discriminate|eapply n10b; eauto; discriminate|]. intros st1 t Et S1 _.
    eapply FIN; [exact S1|]. eapply own_step; [exact O|]; eassumption.
  - eapply post_adv; [apply step_refl|rewrite N; discriminate|rewrite N; discriminate|]. intros st1 t Et S1 _. cbv zeta.
    destruct (step_skip st1) as (w & SS). assert (S2 := step_trans _ _ _ _ _ S1 SS). assert (O2 := own_step _ _ _ O S2).
    rewrite <- (rest_skip st1). set (st2 := pskip st1) in *. clearbody st2.
    destruct (at0 (rest st2) =? 39) eqn:E39; [|destruct (at0 (rest st2) =? 44) eqn:E44].
    + eapply post_bind; [exact S2|apply IQ; [auto|now apply Z.eqb_eq]|]. intros d st3 lx3 S3 G; cbv beta iota.
      eapply (post_ok st erase (fun lx x => good lx st x)); [reflexivity|eapply step_trans; [exact S2|exact S3]|]. apply good_abbr. eapply good_later; eauto.
    + eapply post_bind; [exact S2|apply IU; [auto|now apply Z.eqb_eq]|]. intros d st3 lx3 S3 G; cbv beta iota.
      eapply (post_ok st erase (fun lx x => good lx st x)); [reflexivity|eapply step_trans; [exact S2|exact S3]|]. apply good_abbr. eapply good_later; eauto.
    + eapply FIN; eauto.
Qed.
Lemma vec_step st : own st -> Post st (map erase) (fun lx e => Forall (good lx st) e) (l_vec (S n) st) (p_vec (S n) (rest st)).
Proof.
  intros O. cbn [l_vec p_vec]. destruct ((at0 (rest st) =? 0) || (at0 (rest st) =? 41)).
  { eapply (post_ok st (map erase) (fun lx e => Forall (good lx st) e)); [reflexivity|apply step_refl|constructor]. }
  eapply post_bind; [apply step_refl|now apply UE|]. intros [d|] st1 lx1 S1 G; cbv beta iota; cbn [option_map].
  - destruct (step_skip st1) as (w & SS). assert (S2 := step_trans _ _ _ _ _ S1 SS). assert (O2 := own_step _ _ _ O S2).
    rewrite <- (rest_skip st1). set (st2 := pskip st1) in *. clearbody st2.
    eapply post_bind; [exact S2|apply IV; auto|]. intros els st3 lx3 S3 Gs; cbv beta iota.
    eapply (post_ok st (map erase) (fun lx e => Forall (good lx st) e)); [reflexivity|eapply step_trans; [exact S2|exact S3]|].
    constructor; [|eapply goods_lift; eauto]. apply good_more_l, good_more_l. exact G.
  - assert (S2 := step_trans _ _ _ _ _ S1 (step_pop st1)). eapply post_err; [|exact S2]. eapply own_step; [exact O|]; eassumption.
Qed.
Lemma elems_step st : own st -> Post st ef (GL st) (l_elems (S n) st) (p_elems (S n) (rest st)).
Proof.
  intros O. cbn [l_elems p_elems]. destruct ((at0 (rest st) =? 0) || (at0 (rest st) =? 41)) eqn:E0.
  { eapply (post_ok st ef (GL st)); [reflexivity|apply step_refl|constructor]. }
  apply orb_false_iff in E0. destruct E0 as [E0 _]. apply Z.eqb_neq in E0.
  eapply (post_bind st st [] oe (GX st)); [apply step_refl| |].
  { destruct (at0 (rest st) =? 39) eqn:E39; [|now apply UE].
    eapply post_bind; [apply step_refl|apply IQ; [auto|now apply Z.eqb_eq]|]. intros d st2 lx2 S2 G. eapply post_ok; eauto. }
  intros [d|] st1 lx1 S1 G; cbv beta iota; cbn [option_map].
  2: { assert (S2 := step_trans _ _ _ _ _ S1 (step_pop st1)). eapply post_err; [|exact S2]. exact (own_step _ _ _ O S2). }
  cbv zeta. destruct (step_skip st1) as (w & SS). assert (S2 := step_trans _ _ _ _ _ S1 SS). assert (O2 := own_step _ _ _ O S2).
  rewrite <- (rest_skip st1). set (st2 := pskip st1) in *. clearbody st2. cbn in G.
  assert (G2 : good ([Space w] ++ lx1) st d) by now apply good_more_l.
  destruct ((at0 (rest st2) =? 46) && negb (dot_symbol (rest st2))) eqn:ED.
  - apply andb_true_iff in ED. destruct ED as [ED _].
    eapply post_adv; [exact S2|eapply nz; eauto; discriminate|eapply n10; eauto; discriminate|]. intros st3 t Et S3 _.
    destruct (step_skip st3) as (w3 & SS3). assert (S4 := step_trans _ _ _ _ _ (step_trans _ _ _ _ _ S2 S3) SS3). assert (O4 := own_step _ _ _ O S4).
    rewrite <- (rest_skip st3). set (st4 := pskip st3) in *. clearbody st4.
    eapply post_bind; [exact S4|now apply UE|]. intros [e|] st5 lx5 S5 Ge; cbv beta iota; cbn [option_map].
    + destruct (step_skip st5) as (w5 & SS5). rewrite <- (rest_skip st5). assert (S6 := step_trans _ _ _ _ _ (step_trans _ _ _ _ _ S4 S5) SS5).
      eapply (post_ok st ef (GL st)); [reflexivity|exact S6|].
      unfold GL. cbn. constructor; [|constructor; [|constructor]].
      * do 4 apply (good_more_l _ [_]) || apply good_more_l. exact G2.
      * apply (good_more_l _ [_]). eapply good_later; eauto.
    + assert (S6 := step_trans _ _ _ _ _ (step_trans _ _ _ _ _ S4 S5) (step_pop st5)). eapply post_err; [|exact S6]. eapply own_step; [exact O|]; eassumption.
  - eapply post_bind; [exact S2|apply IL; auto|]. intros [els tl] st3 lx3 S3 Gs; cbv beta iota. cbn [ef fst snd].
    eapply (post_ok st ef (GL st) (d :: els, tl)); [reflexivity|eapply step_trans; [exact S2|exact S3]|].
    unfold GL in *. cbn. constructor; [now apply good_more_l|]. eapply goods_lift; eauto.
Qed.

Lemma here_here st0 : forall l : loc, Some (here (pskip st0)) = Some l -> l = here (pskip st0).
Proof. now intros l [= <-]. Qed.
Lemma expr_step st0 : own st0 -> Post st0 oe (PX st0) (l_expr (S n) st0) (p_expr (S n) (rest st0)).
Proof.
  intros O0. cbn [l_expr p_expr]. cbv zeta. rewrite <- (rest_skip st0).
  destruct (step_skip st0) as (w0 & S0). assert (O := own_step _ _ _ O0 S0).
  pose proof (here_here st0) as HH. assert (PL : forall lx d, ends st0 lx -> leaf_at (pskip st0) d -> PX st0 lx (Some d)) by (intros; now apply leaf_PX).
  assert (PK : forall lx d, ends st0 lx -> (forall l, rloc d = Some l -> Some (here (pskip st0)) = Some l) -> Forall (good lx st0) (kids d) -> PX st0 lx (Some d)).
  { intros lx d E R K. right. split; auto. }
  assert (EB0 : ends st0 [Space w0]) by now apply ends_base.
  assert (PG : forall lx d, good lx st0 d -> PX st0 lx (Some d)) by (intros; now left).
  assert (PN : forall lx, PX st0 lx None) by (intros; exact I).
  generalize dependent (PX st0). intros PXX PL PK PG PN.
  set (st := pskip st0) in *. clearbody st.
  destruct (Z.eqb_spec (at0 (rest st)) 0) as [Z0|N0].
  { eapply (post_ok st0 oe PXX None); [reflexivity|exact S0|apply PN]. }
  assert (RP : forall k, rest (push k st) = rest st) by (intros k; unfold push; destruct (Nat.leb _ _); reflexivity).
  assert (SP : forall k, opens k (rest st) -> step [Space w0] st0 (push k st)).
  { intros k Ok. eapply step_nil; [exact S0|now apply step_push|reflexivity]. }
  assert (ER : forall msg st1 lx1, step lx1 st0 st1 -> Post st0 oe PXX (perr msg st1) Err).
  { intros msg st1 lx1 S1. eapply post_err; [|exact S1]. exact (own_step _ _ _ O0 S1). }
  destruct (at0 (rest st) =? 39) eqn:E39.
  { eapply post_bind; [exact S0|apply IQ; [auto|now apply Z.eqb_eq]|]. intros d st2 lx2 S2 G; cbv beta iota.
    eapply (post_ok st0 oe PXX (Some d)); [reflexivity|eapply step_trans; [exact S0|exact S2]|].
    apply PG. eapply good_later; eauto. }
  destruct (at0 (rest st) =? 96) eqn:E96.
  { rewrite <- (RP "quasiquote"%string). eapply post_adv; [exact (SP _ (op_quasi _ (proj1 (Z.eqb_eq _ _) E96)))|now rewrite RP|rewrite RP; eapply n10; eauto; discriminate|]. intros st1 t Et S1 _.
    assert (S1' := step_trans _ _ _ _ _ (SP "quasiquote"%string (op_quasi _ (proj1 (Z.eqb_eq _ _) E96))) S1). assert (O1 := own_step _ _ _ O0 S1').
    eapply post_bind; [exact S1'|now apply UE|]. intros [d|] st2 lx2 S2 G; cbv beta iota; cbn [option_map].
    - eapply (post_ok st0 oe PXX (Some (LAbbr "quasiquote" d)) _ (pop st2)); [reflexivity|st_tac; eapply step_trans; [exact S1'|exact S2]|].
      apply PG, good_abbr. eapply good_later; eauto.
    - eapply ER. st_tac. eapply step_trans; [exact S1'|exact S2]. }
  destruct (at0 (rest st) =? 40) eqn:E40.
  { rewrite <- (RP "list"%string). eapply post_adv; [exact (SP _ (op_list _ (proj1 (Z.eqb_eq _ _) E40)))|now rewrite RP|rewrite RP; eapply n10; eauto; discriminate|]. intros st1 t Et S1 _.
    assert (S1' := step_trans _ _ _ _ _ (SP "list"%string (op_list _ (proj1 (Z.eqb_eq _ _) E40))) S1). cbv zeta.
    destruct (step_skip st1) as (w & SS). assert (S2 := step_trans _ _ _ _ _ S1' SS). assert (O2 := own_step _ _ _ O0 S2).
    rewrite <- (rest_skip st1). set (st2 := pskip st1) in *. clearbody st2.
    destruct (at0 (rest st2) =? 41) eqn:E41.
    { eapply post_adv; [exact S2|eapply nz; eauto; discriminate|eapply n10; eauto; discriminate|]. intros st3 t3 Et3 S3 _.
      eapply (post_ok st0 oe PXX (Some (LSing RNil)) _ (touch RNil (here st) st3)); [reflexivity|st_tac; eapply step_trans; [exact S2|exact S3]|].
      apply PL; [en|]. split; [reflexivity|intros l [=]]. }
    eapply post_bind; [exact S2|apply IL; auto|]. intros [els tl] st3 lx3 S3 Gs; cbv beta iota. cbn [ef fst snd].
    assert (S3' := step_trans _ _ _ _ _ S2 S3).
    destruct (at0 (rest st3) =? 41) eqn:E3; cbn [negb].
    2: { eapply ER. st_tac. exact S3'. }
    eapply post_adv; [exact S3'|eapply nz; eauto; discriminate|eapply n10; eauto; discriminate|]. intros st4 t4 Et4 S4 _.
    assert (S4' := step_trans _ _ _ _ _ S3' S4).
    destruct els as [|h r]; cbn [build map build_list].
    - eapply (post_ok st0 oe PXX (Some (LSing RNil)) _ (touch RNil (here st) (pop st4))); [reflexivity|st_tac; exact S4'|].
      apply PL; [en|]. split; [reflexivity|intros l [=]].
    - eapply (post_ok st0 oe PXX (Some (LList h r tl (here st))) _ (pop st4)); [reflexivity|st_tac; exact S4'|].
      apply PK; [en|auto|]. cbn [kids]. change [Token t4] with ([] ++ [Token t4]). rewrite <- app_assoc. cbn [app].
      apply (goods_more _ [_]). eapply goods_lift; [exact S2|]. unfold GL in Gs. cbn in Gs. exact Gs. }
  destruct (at0 (rest st) =? 34) eqn:E34.
  { eapply post_bind; [exact S0|apply (post_string st st []); [auto|apply step_refl|now apply Z.eqb_eq]|]. intros d st2 lx2 S2 G; cbv beta iota.
    eapply (post_ok st0 oe PXX (Some d)); [reflexivity|eapply step_trans; [exact S0|exact S2]|]. apply PL; [en|auto]. }
  destruct ((at0 (rest st) =? 35) && (at1 (rest st) =? 58)) eqn:EK.
  { apply andb_true_iff in EK. destruct EK as [EK0 EK]. apply Z.eqb_eq in EK0, EK.
    destruct (rest st) as [|c [|e q]] eqn:Q; [discriminate..|]. cbn in EK0, EK. subst c e. cbn [adv2 adv bind firstn].
    set (st1 := mkP q (ln st) (cl st) (fname st) (tid st) (stk st) (sg st) (Token [35; 58] :: lex st)).
    assert (S1 : step [Token [35; 58]] st st1).
    { apply step_mk; cbn; auto; [|intros _; lia]. intros pre H C. inversion C as [|? ? Cc]; subst. cbn in Cc. tauto. }
    assert (S1' := step_trans _ _ _ _ _ S0 S1). change q with (rest st1).
    assert (Hh : here st1 = here st) by reflexivity. clearbody st1.
    apply (post_symbol st0 st1 ([Token [35; 58]] ++ [Space w0]) PXX (fun st2 => perr (bs "expected identifier after #:") st2) Err); [exact O0|exact S1'| |].
    - intros d st2 lx2 [K R] S2. apply PL; [en|]. split; auto. intros l Rl. rewrite <- Hh. auto.
    - eapply ER. exact S1'. }
  destruct ((at0 (rest st) =? 35) && (at1 (rest st) =? 123)) eqn:EB.
  { apply andb_true_iff in EB. destruct EB as [EBb EB]. apply Z.eqb_eq in EBb, EB.
    eapply post_bind; [exact S0|apply (post_brace st st []); [auto|apply step_refl|auto|auto]|]. intros d st2 lx2 S2 G; cbv beta iota.
    eapply (post_ok st0 oe PXX (Some d)); [reflexivity|eapply step_trans; [exact S0|exact S2]|]. apply PL; [en|auto]. }
  destruct ((at0 (rest st) =? 35) && (at1 (rest st) =? 92)) eqn:EC.
  { apply andb_true_iff in EC. destruct EC as [EC0 EC]. apply Z.eqb_eq in EC0, EC.
    eapply post_bind; [exact S0|apply (post_char st st []); [auto|apply step_refl|auto|auto]|]. intros d st2 lx2 S2 [G (b & Eb)]; cbv beta iota.
    rewrite Eb. eapply (post_ok st0 oe PXX (Some d)); [cbn; now rewrite Eb|eapply step_trans; [exact S0|exact S2]|]. apply PL; [en|auto]. }
  destruct ((at0 (rest st) =? 35) && (at1 (rest st) =? 40)) eqn:EV.
  { apply andb_true_iff in EV. destruct EV as [EV0 EV].
    rewrite <- (RP "vector"%string). eapply post_adv2; [exact (SP _ (op_vector _ (proj1 (Z.eqb_eq _ _) EV0) (proj1 (Z.eqb_eq _ _) EV)))|rewrite RP; eapply nz1; eauto; discriminate|rewrite RP; eapply n10; eauto; discriminate|rewrite RP; eapply n10b; eauto; discriminate|]. intros st1 t Et S1 _.
    assert (S1' := step_trans _ _ _ _ _ (SP "vector"%string (op_vector _ (proj1 (Z.eqb_eq _ _) EV0) (proj1 (Z.eqb_eq _ _) EV))) S1). cbv zeta.
    destruct (step_skip st1) as (w & SS). assert (S2 := step_trans _ _ _ _ _ S1' SS). assert (O2 := own_step _ _ _ O0 S2).
    rewrite <- (rest_skip st1). set (st2 := pskip st1) in *. clearbody st2.
    destruct (at0 (rest st2) =? 41) eqn:E41.
    { eapply post_adv; [exact S2|eapply nz; eauto; discriminate|eapply n10; eauto; discriminate|]. intros st3 t3 Et3 S3 _.
      eapply (post_ok st0 oe PXX (Some (LVec [] (here st))) _ (pop st3)); [reflexivity|st_tac; eapply step_trans; [exact S2|exact S3]|].
      apply PK; [en|auto|constructor]. }
    eapply post_bind; [exact S2|apply IV; auto|]. intros els st3 lx3 S3 Gs; cbv beta iota.
    assert (S3' := step_trans _ _ _ _ _ S2 S3).
    destruct (at0 (rest st3) =? 41) eqn:E3; cbn [negb].
    2: { eapply ER. exact S3'. }
    eapply post_adv; [exact S3'|eapply nz; eauto; discriminate|eapply n10; eauto; discriminate|]. intros st4 t4 Et4 S4 _.
    assert (S4' := step_trans _ _ _ _ _ S3' S4).
    eapply (post_ok st0 oe PXX (Some (LVec els (here st)))); [reflexivity|exact S4'|].
    apply PK; [en|auto|]. cbn [kids]. apply (goods_more _ [_]). eapply goods_lift; [exact S2|exact Gs]. }
  assert (HS : forall e e', Post st0 oe PXX (e st) e' -> Post st0 oe PXX
     (pdo y, k <- l_symbol st; match y with Some d => POk (Some d) k | None => e k end)
     (do y <- p_symbol (rest st); match y with Some (d, r) => Ok (Some d, r) | None => e' end)).
  { intros e e' He. eapply post_symbol; [exact O0|exact S0| |exact He]. intros d st2 lx2 L _. apply PL; [en|auto]. }
  assert (HN : Post st0 oe PXX
     (pdo x, st1 <- l_number st; match x with Some d => POk (Some d) st1 | None =>
        pdo y, st2 <- l_symbol st1; match y with Some d => POk (Some d) st2 | None => perr (unexpected (at0 (rest st2))) st2 end end)
     (do x <- p_number (rest st); match x with Some (d, r) => Ok (Some d, r) | None =>
        do y <- p_symbol (rest st); match y with Some (d, r) => Ok (Some d, r) | None => Err end end)).
  { apply (post_number st0 st [Space w0] PXX (fun st1 => pdo y, st2 <- l_symbol st1; match y with Some d => POk (Some d) st2 | None => perr (unexpected (at0 (rest st2))) st2 end)); [exact O0|exact S0| |].
    - intros d st2 lx2 L _. apply PL; [en|auto].
    - apply (HS (fun st2 => perr (unexpected (at0 (rest st2))) st2)). eapply ER. exact S0. }
  destruct ((at0 (rest st) =? 49) && ((at1 (rest st) =? 43) || (at1 (rest st) =? 45)) && tok_end (at2 (rest st))); [|exact HN].
  apply (HS (fun _ => _)). exact HN.
Qed.
End Step.

Lemma linv_all : forall n, linv n.
Proof.
  induction n as [|n IH].
  - unfold linv. repeat split; intros; exact I.
  - unfold linv. split; [|split; [|split; [|split]]]; intros st O; intros.
    + now apply expr_step.
    + now apply quote_step.
    + now apply unq_step.
    + now apply elems_step.
    + now apply vec_step.
Qed.
