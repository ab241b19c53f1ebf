(** Error reports: C172 - C175. *)
From Coq Require Import String Lia.
From Verif Require Import Base ParseModel PrintModel DiagModel DiagSpec.
Local Open Scope string_scope.
Local Open Scope list_scope.
Local Open Scope Z_scope.

Local Opaque firstn.
Lemma some_inj {A} (a b : A) : Some a = Some b -> a = b. Proof. now injection 1. Qed.
Lemma ok_inj {A} (a b : A) : Ok a = Ok b -> a = b. Proof. now injection 1. Qed.
Lemma place_loc o : obj_loc o = place o.
Proof. destruct o as [[i t [[[f l] c]|]]|]; reflexivity. Qed.
Lemma place_short o l : place o = Some l -> (length l <= 511)%nat.
Proof. destruct o as [[i t [[[f a] b]|]]|]; try discriminate. intro H. apply some_inj in H. subst l. apply firstn_le_length. Qed.
Lemma type_name_short t : (length (type_name t) <= 12)%nat.
Proof. destruct t; cbn; lia. Qed.
(* a write that fits what is left of the buffer *)
Lemma snprintf_fits size s t : Z.of_nat (length s) + Z.of_nat (length t) < size ->
  snprintf_at size (s, Z.of_nat (length s)) t = Ok (s ++ t, Z.of_nat (length (s ++ t))).
Proof.
  intro H. unfold snprintf_at. replace (size <? Z.of_nat (length s)) with false by (symmetry; apply Z.ltb_ge; lia).
  rewrite firstn_all2 by lia. rewrite app_length. do 2 f_equal. lia.
Qed.
Lemma snprintf_cut size s t : Z.of_nat (length s) < size -> exists n,
  snprintf_at size (s, Z.of_nat (length s)) t = Ok (firstn (Z.to_nat (size - 1)) (s ++ t), n).
Proof.
  intro H. unfold snprintf_at. replace (size <? Z.of_nat (length s)) with false by (symmetry; apply Z.ltb_ge; lia).
  eexists. do 2 f_equal. rewrite firstn_app. rewrite (firstn_all2 s) by lia. do 2 f_equal. lia.
Qed.
Lemma lead_len p : (forall l, p = Some l -> (length l <= 511)%nat) -> (length (lead p) <= 513)%nat.
Proof. destruct p; cbn; [intro H; rewrite app_length; specialize (H _ eq_refl); cbn; lia|lia]. Qed.
Lemma lead_put size p : (forall l, p = Some l -> (length l <= 511)%nat) -> 514 <= size ->
  match p with Some l => snprintf_at size ([], 0) (l ++ bs ": ") | None => Ok ([], 0) end = Ok (lead p, Z.of_nat (length (lead p))).
Proof.
  intros H L. destruct p as [l|]; [|reflexivity]. specialize (H l eq_refl). change 0 with (Z.of_nat (length (@nil Z))).
  rewrite snprintf_fits; [reflexivity|]. rewrite app_length. cbn. lia.
Qed.

(** * C172. The text of errors *)
(* eval_error: the place of the evaluation, and the first 1023 bytes of the message *)
Theorem c172_error_text : forall ctx msg, eval_error ctx msg = Ok (lead (place ctx) ++ firstn 1023 msg).
Proof.
  intros ctx msg. unfold eval_error. rewrite place_loc. rewrite lead_put; [|intros l; apply place_short|lia].
  cbn [bind]. rewrite snprintf_fits; [reflexivity|]. pose proof (lead_len (place ctx) (fun l => place_short ctx l)).
  pose proof (firstn_le_length 1023 msg). lia.
Qed.
(* type_error *)
Theorem c172_type_error : forall data ctx expected, (length expected <= 400)%nat ->
  type_error data ctx expected = Ok (lead (place ctx) ++ firstn 1023 (type_text data ctx expected)).
Proof.
  intros data ctx expected L. unfold type_error. rewrite !place_loc.
  set (p := match place data with Some l => Some l | None => place ctx end).
  assert (P : forall l, p = Some l -> (length l <= 511)%nat).
  { subst p. intro l. destruct (place data) eqn:E; [|apply place_short]. intro X. apply some_inj in X. subst l0. revert E. apply place_short. }
  pose proof (lead_len p P) as PL. rewrite lead_put; [|exact P|lia]. cbn [bind].
  set (a := bs "Type error: expected " ++ expected ++ bs ", but got ").
  assert (A : (length a <= 432)%nat) by (subst a; rewrite !app_length; cbn [length bs]; vm_compute (length (bs _)); lia).
  set (b := match data with Some d => type_name (o_type d) | None => bs "null" end).
  assert (B : (length b <= 12)%nat) by (subst b; destruct data; [apply type_name_short|cbn; lia]).
  rewrite snprintf_fits by lia. cbn [bind]. rewrite snprintf_fits by (rewrite app_length; lia). cbn [bind].
  set (s := (lead p ++ a) ++ b).
  assert (SL : (length s <= 957)%nat) by (subst s; rewrite !app_length; lia).
  set (w := match data, ctx with
  | Some d, Some c => if Nat.eqb (o_id d) (o_id c) then [] else match place ctx with Some l => 10 :: bs "  While evaluating at " ++ l | None => [] end
  | _, _ => match place ctx with Some l => 10 :: bs "  While evaluating at " ++ l | None => [] end
  end).
  assert (T : type_text data ctx expected = s ++ w).
  { subst s w a b p. unfold type_text. rewrite <- !app_assoc. reflexivity. }
  rewrite T. rewrite <- c172_error_text.
  assert (G : forall st : list Z * Z, fst st = s -> firstn 1023 s = s -> (do st0 <- Ok st; eval_error ctx (fst st0)) = eval_error ctx (s ++ [])).
  { intros st E _. cbn [bind]. rewrite E, app_nil_r. reflexivity. }
  assert (H : forall t, (do st0 <- snprintf_at 1024 (s, Z.of_nat (length s)) t; eval_error ctx (fst st0)) = eval_error ctx (s ++ t)).
  { intro t. destruct (snprintf_cut 1024 s t) as (n & ->); [lia|]. cbn [bind fst]. rewrite !c172_error_text.
    change (Z.to_nat (1024 - 1)) with 1023%nat. rewrite firstn_firstn. reflexivity. }
  subst w. destruct ctx as [c|], data as [d|]; try (rewrite Nat.eqb_sym; destruct (Nat.eqb (o_id d) (o_id c)));
    try (destruct (place (Some c)); [apply H|]); try (apply G; [reflexivity|apply firstn_all2; lia]).
Qed.

Print Assumptions c172_type_error.
(* the message is complete if it has at most 1023 bytes *)
Theorem c172_complete : forall data ctx expected, (length expected <= 400)%nat -> (length (type_text data ctx expected) <= 1023)%nat ->
  type_error data ctx expected = Ok (lead (place ctx) ++ type_text data ctx expected).
Proof. intros data ctx expected L H. rewrite c172_type_error by assumption. rewrite firstn_all2 by assumption. reflexivity. Qed.
Print Assumptions c172_complete.
Definition in_file (n : nat) (t : stype) (l c : Z) : obj := mkO n t (Some (Some (bs "a.scm"), l, c)).
(* the word for the type that was found *)
Theorem c172_type_name : forall t w, In (t, w) type_words -> type_name t = bs w.
Proof. intros t w I. unfold type_words in I. cbn [In] in I. repeat (destruct I as [I|I]; [inversion I; subst; reflexivity|]). destruct I. Qed.
Print Assumptions c172_type_name.
Theorem c172_type_named : forall t, exists w, In (t, w) type_words.
Proof. intro t. destruct t; eexists; cbn [In type_words]; repeat first [left; reflexivity|right]. Qed.
Print Assumptions c172_type_named.
Example c172_ex : type_error (Some (in_file 1 TySym 3 6)) (Some (in_file 2 TyList 3 1)) (bs "number") =
  Ok (bs "a.scm:3:1: a.scm:3:6: Type error: expected number, but got symbol" ++ 10 :: bs "  While evaluating at a.scm:3:1").
Proof. vm_compute. reflexivity. Qed.
(* without the bound on [expected] the code writes behind its buffer; every call in
   the code gives a literal of less than 60 bytes *)
Example c172_ex_long : type_error None None (repeat 120 1000) = UB. Proof. vm_compute. reflexivity. Qed.

(** * C173. Each place once *)
(* a datum without a location: the place of the evaluation three times *)
Theorem c173_place_repeated_refuted : forall d c expected l, (length expected <= 400)%nat -> o_loc d = None -> o_id d <> o_id c -> place (Some c) = Some l ->
  (length (type_text (Some d) (Some c) expected) <= 1023)%nat ->
  exists t, type_error (Some d) (Some c) expected = Ok ((l ++ bs ": ") ++ (l ++ bs ": ") ++ t ++ 10 :: bs "  While evaluating at " ++ l).
Proof.
  intros d c expected l L D N P H. rewrite c172_complete by assumption. unfold type_text.
  assert (PD : place (Some d) = None) by (destruct d as [i t o]; cbn in D; subst o; reflexivity).
  rewrite PD, P. cbn [lead]. replace (Nat.eqb (o_id d) (o_id c)) with false by (symmetry; now apply Nat.eqb_neq).
  exists (bs "Type error: expected " ++ expected ++ bs ", but got " ++ type_name (o_type d)). rewrite <- !app_assoc. reflexivity.
Qed.
Print Assumptions c173_place_repeated_refuted.
Example c173_ex : o_loc (mkO 1 TyNum None) = None /\ (length (type_text (Some (mkO 1 TyNum None)) (Some (in_file 2 TyList 3 1)) (bs "pair")) <= 1023)%nat.
Proof. split; [reflexivity|vm_compute; repeat constructor]. Qed.
(* file names that differ only after 511 bytes give the same place *)
Theorem c173_long_name_refuted : exists c1 c2, o_loc c1 <> o_loc c2 /\ place (Some c1) = place (Some c2).
Proof.
  exists (mkO 1 TyList (Some (Some (repeat 97 511), 1, 1))), (mkO 1 TyList (Some (Some (repeat 97 511), 2, 1))). split; [|vm_compute; reflexivity].
  cbn [o_loc]. intro H. apply some_inj in H. pose proof (f_equal (fun p => snd (fst p)) H) as X. cbn in X. discriminate X.
Qed.

(** * C174. The call stack *)
Lemma entry_ok t : expr_string t = Ok (if (length t <=? 200)%nat then t else firstn 200 t ++ bs "...").
Proof.
  unfold expr_string. destruct (Nat.leb_spec (length t) 200) as [L|L].
  - replace (200 <? Z.of_nat (length t)) with false by (symmetry; apply Z.ltb_ge; lia).
    rewrite Z.min_l by lia. rewrite Nat2Z.id, firstn_all.
    destruct (Z.ltb_spec (Z.of_nat (length t)) 200).
    + replace (Z.of_nat (length t) + 1 <=? Z.of_nat (length t)) with false by (symmetry; apply Z.leb_gt; lia). reflexivity.
    + replace (205 <=? Z.of_nat (length t)) with false by (symmetry; apply Z.leb_gt; lia). reflexivity.
  - replace (200 <? Z.of_nat (length t)) with true by (symmetry; apply Z.ltb_lt; lia).
    replace (Z.of_nat (length t) <? 200) with false by (symmetry; apply Z.ltb_ge; lia).
    rewrite Z.min_r by lia. reflexivity.
Qed.
Lemma push_ok x d : push_stack x d =
  Ok (if (100 <=? d_depth d) then d else match place (Some (x_obj x)) with None => d | Some _ => mkD (entry x :: d_stack d) (d_depth d + 1) (d_ctx d) (d_open d) end).
Proof.
  unfold push_stack. destruct (100 <=? d_depth d); [reflexivity|]. rewrite place_loc. unfold entry. destruct (place (Some (x_obj x))); [|reflexivity].
  rewrite entry_ok. reflexivity.
Qed.
Lemma handle_ok d e : exists d', handle d e = Ok d'.
Proof.
  destruct e as [x| |fs]; cbn [handle].
  - rewrite push_ok. cbn [bind]. eauto.
  - destruct (d_open d) as [|[? ?] ?]; eauto.
  - eauto.
Qed.
Definition counted (d : dstate) : Prop := d_depth d = Z.of_nat (length (d_stack d)) /\ (length (d_stack d) <= 100)%nat.
Lemma counted_step d e d' : counted d -> handle d e = Ok d' -> counted d'.
Proof.
  unfold counted. intros (C & L). destruct e as [x| |fs]; cbn [handle].
  - rewrite push_ok. cbn [bind]. intro H. apply (f_equal (fun r => match r with Ok a => a | _ => d end)) in H. subst d'. cbn [d_depth d_stack]. destruct (Z.leb_spec 100 (d_depth d)) as [G|G]; [auto|].
    destruct (place (Some (x_obj x))); [|auto]. cbn [d_depth d_stack length]. rewrite C in G |- *. split; lia.
  - destruct (d_open d) as [|[? ?] r]; intros [= <-]; [auto|]. unfold pop_stack. cbn [d_stack d_depth]. destruct (d_stack d); [auto|].
    cbn [d_depth d_stack length] in *. lia.
  - intros [= <-]. auto.
Qed.
Lemma counted_history es : forall d d', counted d -> history d es = Ok d' -> counted d'.
Proof.
  induction es as [|e es IH]; cbn [history]; intros d d' C; [now intros [= <-]|].
  destruct (handle_ok d e) as (d1 & E). rewrite E. cbn [bind]. apply IH. eapply counted_step; eauto.
Qed.
(* whatever happens: the stack is kept without error, it has at most 100 entries *)
Theorem c174_always : forall es, exists d, history dstart es = Ok d /\ (length (d_stack d) <= 100)%nat.
Proof.
  intro es. assert (X : exists d, history dstart es = Ok d).
  { generalize dstart. induction es as [|e es IH]; intro d; cbn [history]; [eauto|]. destruct (handle_ok d e) as (d1 & ->). cbn [bind]. apply IH. }
  destruct X as (d & E). exists d. split; auto. apply (counted_history es dstart d); [split; cbn; lia|exact E].
Qed.
Print Assumptions c174_always.
Lemma frames_ok n : forall i fs, print_frames n (Z.of_nat i) fs =
  (concat (map (fun p => line (fst p) (snd p)) (combine (seq i n) fs)), skipn n fs, Z.of_nat (i + Nat.min n (length fs))).
Proof.
  induction n as [|n IH]; intros i fs.
  - cbn. rewrite Nat.add_0_r. destruct fs; reflexivity.
  - destruct fs as [|f fs]; [cbn; rewrite Nat.add_0_r; reflexivity|]. cbn [print_frames].
    replace (Z.of_nat i + 1) with (Z.of_nat (S i)) by lia. rewrite IH. cbn [seq combine map concat fst snd skipn length Nat.min].
    do 2 f_equal. lia.
Qed.
(* and what is printed is its report *)
Theorem c174_report : forall es d, history dstart es = Ok d -> print_eval_stack d = report (d_stack d).
Proof.
  intros es d E. assert (C : counted d) by (eapply counted_history; eauto; split; cbn; lia). destruct C as (C & _).
  unfold print_eval_stack, report. destruct (d_stack d) as [|f fs] eqn:S; [reflexivity|]. rewrite <- S in *. clear S.
  change 0 with (Z.of_nat 0). rewrite frames_ok. cbn [Nat.add]. do 2 f_equal. f_equal. f_equal. rewrite C.
  destruct (Nat.leb_spec (length (d_stack d)) 20) as [L|L].
  - rewrite skipn_all2 by lia. reflexivity.
  - destruct (skipn 20 (d_stack d)) as [|g gs] eqn:K; [apply (f_equal (@length _)) in K; rewrite skipn_length in K; cbn in K; lia|].
    do 3 f_equal. lia.
Qed.
Print Assumptions c174_report.

(* evaluations that nest at most 100 deep, are located and are not left by throws:
   the stack is exactly the list of the evaluations going on *)
Definition exact_state (d : dstate) : Prop :=
  d_stack d = map entry (going_on d) /\ (forall x, In x (going_on d) -> located x).
Definition ctx_state (d : dstate) : Prop :=
  d_ctx d = hd_error (going_on d) /\
  forall a x o b, d_open d = a ++ (x, o) :: b -> o = hd_error (map fst b).
Lemma located_place x : located x -> exists l, place (Some (x_obj x)) = Some l.
Proof. destruct x as [[i t [[[f l] c]|]] z]; unfold located; cbn [x_obj o_loc]; [|congruence]. intros _. cbn [place]. eauto. Qed.
Lemma open_push x d d' : push_stack x d = Ok d' -> d_open d' = d_open d.
Proof. rewrite push_ok. intro H. apply ok_inj in H. subst d'. destruct (100 <=? d_depth d); [auto|]. destruct (place (Some (x_obj x))); reflexivity. Qed.
Lemma ctx_step d e d' : ctx_state d -> (forall fs, e <> Escape fs) -> handle d e = Ok d' -> ctx_state d'.
Proof.
  unfold ctx_state. intros (C & O) N. destruct e as [x| |fs]; cbn [handle]; [| |exfalso; eapply N; reflexivity].
  - destruct (push_stack x d) as [d1| | | |] eqn:P; try discriminate. pose proof (open_push _ _ _ P) as Q. cbn [bind]. intros [= <-]. cbn [d_ctx d_open going_on map hd_error fst].
    split; [reflexivity|]. rewrite Q. intros [|y a] z o b E; cbn in E.
    + injection E as <- <- <-. exact C.
    + injection E as _ E. eapply O; eauto.
  - destruct (d_open d) as [|[y o] r] eqn:Q; intros [= <-]; [unfold going_on in *; rewrite Q in *; auto|].
    assert (X : d_ctx (pop_stack (mkD (d_stack d) (d_depth d) o r)) = o /\ d_open (pop_stack (mkD (d_stack d) (d_depth d) o r)) = r)
      by (unfold pop_stack; cbn [d_stack]; destruct (d_stack d); auto).
    destruct X as (X1 & X2). unfold going_on. rewrite X1, X2. split; [apply (O [] y o r eq_refl)|].
    intros a z p b E. apply (O ((y, o) :: a) z p b). cbn. now rewrite E.
Qed.
Lemma exact_step d e d' : exact_state d -> counted d -> (length (going_on d') <= 100)%nat -> (forall fs, e <> Escape fs) ->
  (forall x, e = Enter x -> located x) -> handle d e = Ok d' -> exact_state d'.
Proof.
  unfold exact_state. intros (S1 & A) (C & _) L N LO. destruct e as [x| |fs]; cbn [handle]; [| |exfalso; eapply N; reflexivity].
  - rewrite push_ok. cbn [bind]. intro H. apply (f_equal (fun r => match r with Ok a => a | _ => d end)) in H. subst d'. cbn [d_stack d_open going_on map fst] in *.
    assert (Z0 : d_open (if 100 <=? d_depth d then d else match place (Some (x_obj x)) with None => d | Some _ => mkD (entry x :: d_stack d) (d_depth d + 1) (d_ctx d) (d_open d) end) = d_open d)
      by (destruct (100 <=? d_depth d); [auto|]; destruct (place (Some (x_obj x))); reflexivity).
    rewrite Z0 in *. destruct (located_place x (LO x eq_refl)) as (l & P). rewrite P in *. cbn [length] in L.
    replace (100 <=? d_depth d) with false.
    2: { symmetry. apply Z.leb_gt. rewrite C, S1, map_length. unfold going_on. lia. }
    cbn [d_stack]. rewrite S1. split; [reflexivity|]. intros y [<-|I]; [auto|]. now apply A.
  - destruct (d_open d) as [|[y o] r] eqn:Q; intros [= <-]; [unfold going_on in *; rewrite Q in *; auto|].
    unfold pop_stack, going_on in *. rewrite Q in *. cbn [map fst] in *. rewrite S1. cbn [d_stack d_open].
    split; [reflexivity|]. intros z I. apply A. now right.
Qed.
Theorem c174_stack_exact : forall es d, no_escape es -> all_located es -> nested 100 es -> history dstart es = Ok d ->
  d_stack d = map entry (going_on d).
Proof.
  intros es d N A L E.
  assert (G : forall es d0 pre, history dstart pre = Ok d0 -> exact_state d0 -> no_escape es -> all_located es -> nested 100 (pre ++ es) ->
    forall d, history d0 es = Ok d -> exact_state d).
  { clear. induction es as [|e es IH]; intros d0 pre P X N A L d; cbn [history]; [now intros [= <-]|].
    destruct (handle d0 e) as [d1| | | |] eqn:H; try discriminate. cbn [bind]. intro E.
    assert (P1 : history dstart (pre ++ [e]) = Ok d1).
    { clear - H P. revert P. generalize dstart. induction pre as [|f pre IHp]; cbn [history app]; intro s.
      - intros [= ->]. now rewrite H.
      - destruct (handle s f) as [s1| | | |]; try discriminate. cbn [bind]. apply IHp. }
    refine (IH d1 (pre ++ [e]) P1 _ _ _ _ d E).
    - eapply exact_step; eauto.
      + eapply counted_history; eauto. split; cbn; lia.
      + apply (L (pre ++ [e]) es d1); [now rewrite <- app_assoc|exact P1].
      + intros fs ->. apply (N fs). now left.
      + intros x ->. apply A. now left.
    - intros fs I. apply (N fs). now right.
    - intros x I. apply A. now right.
    - rewrite <- app_assoc. exact L. }
  refine (proj1 (G es dstart [] eq_refl _ N A L d E)). split; [reflexivity|]. intros x [].
Qed.
Print Assumptions c174_stack_exact.
(* and the place an error is reported at is that of the innermost evaluation, for any
   nesting, located or not *)
Theorem c174_context_exact : forall es d, no_escape es -> history dstart es = Ok d -> d_ctx d = hd_error (going_on d).
Proof.
  intros es d N E. assert (G : forall es d0, ctx_state d0 -> no_escape es -> history d0 es = Ok d -> ctx_state d).
  { clear. induction es as [|e es IH]; intros d0 X N; cbn [history]; [now intros [= <-]|].
    destruct (handle d0 e) as [d1| | | |] eqn:H; try discriminate. cbn [bind]. apply IH.
    - eapply ctx_step; eauto. intros fs ->. apply (N fs). now left.
    - intros fs I. apply (N fs). now right. }
  refine (proj1 (G es dstart _ N E)). split; [reflexivity|]. intros [|? ?] ? ? ? X; discriminate X.
Qed.
Print Assumptions c174_context_exact.
Definition xx (n : nat) (l : Z) (t : string) : expr := mkX (in_file n TyList l 1) (bs t).
Definition two_calls : list event := [Enter (xx 1 1 "(f (g x))"); Enter (xx 2 2 "(g x)"); Leave; Enter (xx 3 3 "(h)")].
Example c174_ex : no_escape two_calls /\ all_located two_calls /\
  match history dstart two_calls with Ok d => print_eval_stack d | _ => [] end =
  10 :: bs "Evaluation call stack (most recent first):" ++ 10 :: bs "  #0: a.scm:3:1" ++ 10 :: bs "      (h)" ++ 10 :: 10 ::
  bs "  #1: a.scm:1:1" ++ 10 :: bs "      (f (g x))" ++ [10; 10].
Proof.
  split; [intros fs [|[|[|[|[]]]]]; discriminate|]. split; [|vm_compute; reflexivity].
  intros x I. cbn [In two_calls] in I. destruct I as [H|[H|[H|[H|[]]]]]; try discriminate H; injection H as <-; discriminate.
Qed.
Lemma nested_check n : forall es d0, (forall a b d, es = a ++ b -> history d0 a = Ok d -> (length (going_on d) <= n)%nat) <->
  ((length (going_on d0) <= n)%nat /\ match es with [] => True | e :: r => forall d1, handle d0 e = Ok d1 -> forall a b d, r = a ++ b -> history d1 a = Ok d -> (length (going_on d) <= n)%nat end).
Proof.
  intros es d0. split.
  - intro H. split; [apply (H [] es d0); reflexivity|]. destruct es as [|e r]; [exact I|]. intros d1 E a b d -> F. apply (H (e :: a) b d); [reflexivity|].
    cbn [history]. rewrite E. exact F.
  - intros (A & B) a b d -> F. destruct a as [|e a]; [injection F as <-; exact A|]. cbn [app] in B. cbn [history] in F.
    destruct (handle d0 e) as [d1| | | |] eqn:E; try discriminate. cbn [bind] in F. exact (B d1 eq_refl a b d eq_refl F).
Qed.
Example c174_ex_nested : nested 100 two_calls.
Proof.
  unfold nested, two_calls. repeat (apply nested_check; split; [cbn; lia|]; first [exact I|intros ? E; cbn [handle] in E; injection E as <-]).
Qed.

(** * C175. The call stack after any history *)
(* evaluating an expression without a location takes the entry of the caller *)
Theorem c175_unlocated_refuted : forall x y, located x -> ~ located y ->
  exists d, history dstart [Enter x; Enter y; Leave] = Ok d /\ going_on d = [x] /\ d_stack d = [].
Proof.
  intros x y Lx Ly. destruct (located_place x Lx) as (l & P). unfold located in Ly.
  assert (Q : place (Some (x_obj y)) = None) by (destruct y as [[i t [q|]] z]; [exfalso; apply Ly; discriminate|reflexivity]).
  cbn [history handle]. rewrite push_ok, P. cbn [bind dstart d_depth Z.leb Z.compare d_stack d_ctx d_open]. rewrite push_ok, Q. cbn.
  eexists. split; [reflexivity|]. split; reflexivity.
Qed.
(* an evaluation left by a throw stays on the stack, and is where later errors are reported *)
Theorem c175_after_throw_refuted : forall x y, located x -> located y ->
  exists d, history dstart [Enter x; Enter y; Escape [(x, None)]] = Ok d /\ going_on d = [x] /\ d_stack d = [entry y; entry x] /\ d_ctx d = Some y.
Proof.
  intros x y Lx Ly. destruct (located_place x Lx) as (l & P), (located_place y Ly) as (l' & Q).
  cbn [history handle]. rewrite push_ok, P. cbn [bind dstart d_depth Z.leb Z.compare d_stack d_ctx d_open]. rewrite push_ok, Q. cbn.
  eexists. split; [reflexivity|]. repeat split.
Qed.
(* evaluations more than 100 deep take away the entries of the outer ones *)
Theorem c175_deep_refuted : exists d, history dstart (repeat (Enter (xx 1 1 "(f)")) 200 ++ repeat Leave 100) = Ok d /\
  length (going_on d) = 100%nat /\ d_stack d = [].
Proof.
  destruct (c174_always (repeat (Enter (xx 1 1 "(f)")) 200 ++ repeat Leave 100)) as (d & E & _). exists d. split; [exact E|].
  assert (X : match history dstart (repeat (Enter (xx 1 1 "(f)")) 200 ++ repeat Leave 100) with Ok d => (length (going_on d) =? 100)%nat && match d_stack d with [] => true | _ => false end | _ => false end = true) by (vm_compute; reflexivity).
  rewrite E in X. apply andb_prop in X. destruct X as (X & Y). split; [now apply Nat.eqb_eq|]. destruct (d_stack d); [reflexivity|discriminate].
Qed.
Print Assumptions c175_deep_refuted.
