(** C130-C133: source locations of what the reader reads, and syntax error reports.
    Vocabulary: LocSpec.  [start g f text] is a reader about to read [text] from
    the file named [f] (None: a string), in a process whose earlier readings have
    left the globals [g]; [l_parse] reads a text holding one expression (the C
    function parse), [l_all] a whole file or string.  [lex st] lists the lexemes
    gone through, latest first; [flat] is their text. *)
From Coq Require Import Lia String.
From Verif Require Import Base NumModel HeapModel StringModel ParseModel ParseSpec ParseProofs ParseProofs2
  LocModel LocSpec LocProofs LocProofs2 LocProofs3 LocProofs4.
Local Open Scope list_scope.
Local Open Scope Z_scope.

Definition newlines (t : list Z) : Z := Z.of_nat (count_occ Z.eq_dec t 10).

(** What follows a text stands at one place only. *)
Theorem c130_one_place : forall pre l c l' c', at_loc pre l c -> at_loc pre l' c' -> l = l' /\ c = c'.
Proof.
  intros pre l c l' c' (-> & a & b & E & N & D & ->) (-> & a' & b' & E' & N' & D' & ->). split; auto.
  rewrite E in E'. clear E. f_equal. f_equal.
  assert (H : forall a b a' b', ~ In 10 b -> ~ In 10 b' -> (a = [] \/ exists x, a = x ++ [10]) -> a ++ b = a' ++ b' -> (length b' <= length b)%nat -> (a' = [] \/ exists x, a' = x ++ [10]) -> length b = length b').
  { clear. intros a b a' b' N N' D E L D'.
    destruct (Nat.eq_dec (length b) (length b')) as [|NE]; auto. exfalso.
    assert (X : exists m, b = m ++ b' /\ m <> []).
    { exists (firstn (length b - length b') b). split.
      - rewrite <- (firstn_skipn (length b - length b') b) at 1. f_equal.
        assert (Y : skipn (length a + (length b - length b')) (a ++ b) = skipn (length a + (length b - length b')) (a' ++ b')) by now rewrite E.
        assert (La : length a' = (length a + (length b - length b'))%nat) by (apply (f_equal (@length Z)) in E; rewrite !app_length in E; lia).
        rewrite <- La in Y at 2. rewrite !skipn_app, skipn_all, Nat.sub_diag in Y.
        replace (length a + (length b - length b') - length a)%nat with (length b - length b')%nat in Y by lia.
        rewrite (skipn_all2 a) in Y by lia. exact Y.
      - intros X. apply (f_equal (@length Z)) in X. rewrite firstn_length in X. cbn in X. lia. }
    destruct X as (m & -> & Nm). rewrite app_assoc in E. apply app_inv_tail in E. subst a'.
    destruct D' as [D'|(x & D')].
    - apply app_eq_nil in D'. tauto.
    - destruct (exists_last Nm) as (m' & y & ->). rewrite app_assoc in D'. apply app_inj_tail in D'. destruct D' as [_ ->].
      apply N. rewrite in_app_iff. left. rewrite in_app_iff. right. now left. }
  destruct (Nat.le_ge_cases (length b') (length b)) as [L|L].
  - exact (H a b a' b' N N' D E' L D').
  - symmetry. exact (H a' b' a b N' N D' (eq_sym E') L D).
Qed.

Lemma start_own g f text : g_stk g = [] -> own (start g f text).
Proof. intros K. split; [intros _; apply at_nil|]. unfold start. cbn [stk]. rewrite K. constructor. Qed.
Lemma lex_text lx g f text st : step lx (start g f text) st -> lex st = lx /\ text = flat (lex st) ++ rest st.
Proof. intros (L & R & _). cbn in L, R. rewrite app_nil_r in L. rewrite L. auto. Qed.

(** C130: the bookkeeping of locations does not influence what is read... *)
Theorem c130_reading_unchanged : forall g f text, g_stk g = [] ->
  as_res erase (l_parse (start g f text)) = parse text /\
  as_res (map erase) (l_all (start g f text)) = parse_all text.
Proof.
  intros g f text K. pose proof (start_own g f text K) as O. split.
  - now destruct (parse_ok _ O).
  - unfold l_all, parse_all. now destruct (loop_ok (S (length text)) _ O).
Qed.

(** ...and every location stored in what has been read, at any depth, is the place
    where the text of that very object begins.  [located text lx f x]: the object
    [x], read from [text] through the lexemes [lx], stands in a file named [f], at
    the line and column stored in it. *)
Definition located (text : list Z) (lx : list lexeme) (f : option (list Z)) (x : ld) : Prop :=
  forall fl l c, rloc x = Some (fl, l, c) ->
    fl = f /\
    exists before later after,
      lx = later ++ before /\ text = flat before ++ after /\
      (* it is there that x was read: no layout comes first, and reading gives x *)
      skip after = after /\ (exists r, parse_expr after = Ok (Some (erase x), r)) /\
      (Forall calm before -> at_loc (flat before) l c) /\
      (Forall line_calm before -> l = 1 + newlines (flat before)).
Lemma good_located text g f lx st d x : step lx (start g f text) st -> good lx (start g f text) d -> sub x d -> located text (lex st) f x.
Proof.
  intros S1 G X fl l c R. destruct (lex_text _ _ _ _ _ S1) as [L T]. destruct (G x _ X R) as (F & lm & lr & after & E0 & E & Sk & [A AL] & n & r & P).
  cbn in F, E, A, AL. split; auto. exists lm, lr, after. rewrite L. split; auto. split; auto. split; auto. split.
  - exists r. rewrite <- P. apply parse_expr_any. rewrite P. discriminate.
  - split; [intros C; apply (A [] at_nil C)|exact AL].
Qed.
Theorem c130_locations : forall g f text ds st, g_stk g = [] ->
  l_all (start g f text) = POk ds st ->
  text = flat (lex st) ++ rest st /\ at0 (rest st) = 0 /\
  forall d x, In d ds -> sub x d -> located text (lex st) f x.
Proof.
  intros g f text ds st K H. pose proof (start_own g f text K) as O.
  destruct (loop_ok (S (length text)) _ O) as (_ & B & _). destruct (B ds st H) as (_ & lx & S1 & G & Z0).
  destruct (lex_text _ _ _ _ _ S1) as [L T]. split; auto. split; auto. intros d x I X. rewrite Forall_forall in G.
  eapply good_located; eauto.
Qed.
Theorem c130_locations_one : forall g f text d st, g_stk g = [] ->
  l_parse (start g f text) = POk d st ->
  text = flat (lex st) ++ rest st /\ at0 (rest st) = 0 /\
  forall x, sub x d -> located text (lex st) f x.
Proof.
  intros g f text d st K H. pose proof (start_own g f text K) as O.
  destruct (parse_ok _ O) as (_ & B & _). destruct (B d st H) as (lx & S1 & G & Z0).
  destruct (lex_text _ _ _ _ _ S1) as [L T]. split; auto. split; auto. intros x X. eapply good_located; eauto.
Qed.
(* which objects have one: everything but the constants #t #f () and the lists that stand for ' ` , ,@ *)
Theorem c130_which : forall d, rloc d = None <-> (exists b, d = LSing b) \/ (exists s k, d = LAbbr s k).
Proof.
  intros d. split.
  - destruct d; cbn; intros H; try discriminate; [left; eauto|right; eauto].
  - intros [(b & ->)|(s & k & ->)]; reflexivity.
Qed.
(** A syntax error is reported at the place the reader has reached... *)
Theorem c130_error_place : forall g f text msg st, g_stk g = [] ->
  l_parse (start g f text) = PErr msg st \/ l_all (start g f text) = PErr msg st ->
  text = flat (lex st) ++ rest st /\ fname st = f /\
  (Forall calm (lex st) -> at_loc (flat (lex st)) (ln st) (cl st)) /\
  (Forall line_calm (lex st) -> ln st = 1 + newlines (flat (lex st))).
Proof.
  intros g f text msg st K H. pose proof (start_own g f text K) as O.
  assert (X : exists lx, step lx (start g f text) st).
  { destruct H as [H|H]; [destruct (parse_ok _ O) as (_ & _ & C)|destruct (loop_ok (S (length text)) _ O) as (_ & _ & C)]; eauto. }
  destruct X as (lx & S1). destruct (lex_text _ _ _ _ _ S1) as [L T]. destruct S1 as (_ & _ & _ & F & _ & A & N).
  split; auto. split; [exact F|]. rewrite L. split; [intros C; apply (A [] at_nil C)|exact N].
Qed.
(* ...which for text after a complete expression is where that text begins *)
Theorem c130_extra_input : forall g f text d r, g_stk g = [] ->
  parse_expr text = Ok (Some d, r) -> at0 (skip r) <> 0 ->
  exists st, l_parse (start g f text) = PErr (bs "extra input after expression") st /\ rest st = skip r.
Proof.
  intros g f text d r K E N. pose proof (start_own g f text K) as O. pose proof (one_ok _ O) as H. cbn [rest start] in H. rewrite E in H.
  unfold l_parse. destruct (l_one (start g f text)) as [a st1|e st1| | |]; cbn in H; try contradiction. destruct H as (Ea & Er & lx & S1 & _).
  destruct a as [a|]; [|discriminate]. cbn [pbind]. rewrite rest_skip, <- Er. rewrite (proj2 (Z.eqb_neq _ _) N). cbn [negb].
  destruct (step_skip st1) as (w & SS). unfold perr. rewrite (not_stale _ (own_step _ _ _ O (step_trans _ _ _ _ _ S1 SS))).
  exists (pskip st1). split; [reflexivity|]. now rewrite rest_skip, Er.
Qed.

(* a program on several lines; the hypotheses hold *)
Definition ex_prog : list Z := bs "(define (f x) ; comment
  (+ x 1))

  '(f #(2
 ""s"" #\a))
".
Definition ex_f : option (list Z) := Some (bs "p.scm").
Example c130_ex_reads : match l_all (start glob0 ex_f ex_prog) with POk ds st => map erase ds = match parse_all ex_prog with Ok x => x | _ => [] end /\ length ds = 2%nat | _ => False end.
Proof. vm_compute. split; reflexivity. Qed.
Definition all_locs : list ld -> list (Z * Z) :=
  let fix go (d : ld) : list (Z * Z) :=
    match d with
    | LAtom _ (_, l, c) => [(l, c)]
    | LSing _ => []
    | LVec els (_, l, c) => (l, c) :: flat_map go els
    | LList h r t (_, l, c) => (l, c) :: go h ++ flat_map go r ++ match t with Some x => go x | None => [] end
    | LAbbr _ x => go x
    end in flat_map go.
Example c130_ex_locations : match l_all (start glob0 ex_f ex_prog) with POk ds _ => all_locs ds | _ => [] end =
  [(1,1); (1,2); (1,9); (1,10); (1,12); (2,3); (2,4); (2,6); (2,8); (4,4); (4,5); (4,7); (4,9); (5,2); (5,6)].
Proof. reflexivity. Qed.
Definition calmb (x : lexeme) : bool :=
  match x with Space _ => true | Token t => negb (existsb (Z.eqb 10) t) && (if list_eq_dec Z.eq_dec t [35; 58] then false else true) end.
Lemma calmb_ok lx : forallb calmb lx = true -> Forall calm lx.
Proof.
  intros H. rewrite Forall_forall. intros x I. rewrite forallb_forall in H. specialize (H x I). destruct x as [t|t]; cbn in *; auto.
  apply andb_true_iff in H. destruct H as [A B]. split.
  - intros J. apply negb_true_iff in A. assert (existsb (Z.eqb 10) t = true) by (apply existsb_exists; exists 10; split; auto). congruence.
  - destruct (list_eq_dec Z.eq_dec t [35; 58]); [discriminate|auto].
Qed.
Example c130_ex_calm : Forall calm (match l_all (start glob0 ex_f ex_prog) with POk _ st => lex st | _ => [Token [35; 58]] end).
Proof. apply calmb_ok. vm_compute. reflexivity. Qed.
Example c130_ex_error : match l_parse (start glob0 ex_f (bs "(a
   ""b"" . )")) with PErr m st => m = bs "unexpected character ')' (0x29)" /\ (ln st, cl st) = (2, 10) | _ => False end.
Proof. vm_compute. split; reflexivity. Qed.

(** C131: the places where locations are wrong. *)
(* a string that goes over a line end puts everything after it on that line one column too far to the right *)
Theorem c131_string_newline_refuted : exists text ds st l c before,
  l_all (start glob0 None text) = POk ds st /\
  (exists d x, In d ds /\ sub x d /\ erase x = RSym (bs "x") /\ rloc x = Some (None, l, c)) /\
  text = before ++ bs "x" /\ (forall a b, text <> a ++ 92 :: 10 :: b) /\ ~ at_loc before l c.
Proof.
  exists (bs """
"" x"). do 2 eexists. exists 2, 4, (bs """
"" "). split; [vm_compute; reflexivity|]. split; [|split; [reflexivity|split]].
  - eexists. eexists. split; [right; left; reflexivity|]. split; [constructor|]. split; reflexivity.
  - intros a b E. repeat (destruct a as [|? a]; [discriminate|]; injection E as <- E). destruct a; discriminate.
  - intros H. assert (X : at_loc (bs """
"" ") 2 3).
    { split; [reflexivity|]. exists (bs """
"), (bs """ "). repeat split; [|right; exists (bs """"); reflexivity]. cbn. intuition discriminate. }
    destruct (c130_one_place _ _ _ _ _ H X) as [_ Y]. discriminate.
Qed.
(* an escaped newline in a string, and the character written as a newline, are not counted as lines *)
Theorem c131_hidden_newline_refuted : exists text ds st l c,
  l_all (start glob0 None text) = POk ds st /\
  (exists d x, In d ds /\ sub x d /\ erase x = RSym (bs "x") /\ rloc x = Some (None, l, c)) /\
  (exists before, text = before ++ bs "x" /\ l <> 1 + newlines before).
Proof.
  exists (bs """a\
b"" x"). do 2 eexists. exists 1, 8. split; [vm_compute; reflexivity|]. split.
  - eexists. eexists. split; [right; left; reflexivity|]. split; [constructor|]. split; reflexivity.
  - exists (bs """a\
b"" "). split; [reflexivity|]. vm_compute. discriminate.
Qed.
Theorem c131_char_newline_refuted : exists text ds st l c,
  l_all (start glob0 None text) = POk ds st /\
  (exists d x, In d ds /\ sub x d /\ erase x = RSym (bs "x") /\ rloc x = Some (None, l, c)) /\
  (exists before, text = before ++ bs "x" /\ l <> 1 + newlines before).
Proof.
  exists (bs "#\
 x"). do 2 eexists. exists 1, 5. split; [vm_compute; reflexivity|]. split.
  - eexists. eexists. split; [right; left; reflexivity|]. split; [constructor|]. split; reflexivity.
  - exists (bs "#\
 "). split; [reflexivity|]. vm_compute. discriminate.
Qed.
(* the prefix #: is not counted: all that follows on the line is two columns off *)
Theorem c131_keyword_refuted : exists text ds st l c before,
  l_all (start glob0 None text) = POk ds st /\
  (exists d x, In d ds /\ sub x d /\ erase x = RSym (bs "x") /\ rloc x = Some (None, l, c)) /\
  text = before ++ bs "x" /\ ~ In 10 text /\ ~ at_loc before l c.
Proof.
  exists (bs "#:k x"). do 2 eexists. exists 1, 3, (bs "#:k "). split; [vm_compute; reflexivity|]. split; [|split; [reflexivity|split]].
  - eexists. eexists. split; [right; left; reflexivity|]. split; [constructor|]. split; reflexivity.
  - cbn. intuition discriminate.
  - intros H. assert (X : at_loc (bs "#:k ") 1 5).
    { split; [reflexivity|]. exists [], (bs "#:k "). repeat split; auto. cbn. intuition discriminate. }
    destruct (c130_one_place _ _ _ _ _ H X) as [_ Y]. discriminate.
Qed.
(* #{...}# over a line end: one column too far to the left *)
Theorem c131_brace_newline_refuted : exists text ds st l c before,
  l_all (start glob0 None text) = POk ds st /\
  (exists d x, In d ds /\ sub x d /\ erase x = RSym (bs "x") /\ rloc x = Some (None, l, c)) /\
  text = before ++ bs "x" /\ ~ at_loc before l c.
Proof.
  exists (bs "#{
}# x"). do 2 eexists. exists 2, 3, (bs "#{
}# "). split; [vm_compute; reflexivity|]. split; [|split; [reflexivity|]].
  - eexists. eexists. split; [right; left; reflexivity|]. split; [constructor|]. split; reflexivity.
  - intros H. assert (X : at_loc (bs "#{
}# ") 2 4).
    { split; [reflexivity|]. exists (bs "#{
"), (bs "}# "). repeat split; [|right; exists (bs "#{"); reflexivity]. cbn. intuition discriminate. }
    destruct (c130_one_place _ _ _ _ _ H X) as [_ Y]. discriminate.
Qed.
(* #t, #f and () are single objects: the location stored in them is that of the
   last one read anywhere - and a string read later leaves the name of an
   earlier file in it *)
Theorem c131_constants_refuted : exists file text st st' ds ds',
  l_all (start glob0 (Some file) (bs "
#t")) = POk ds st /\ s_true (sg st) = Some (Some file, 2, 1) /\
  l_all (start (finish st) None text) = POk ds' st' /\ s_true (sg st') = Some (Some file, 1, 3).
Proof.
  exists (bs "a.scm"), (bs "  #t"). do 4 eexists. split; [vm_compute; reflexivity|]. split; [reflexivity|]. split; vm_compute; reflexivity.
Qed.

(** C132: reports after successful loads. *)
(* loading a file or string leaves no open construct behind, whatever was there before *)
Theorem c132_load_leaves_none : forall g f text ds st,
  l_all (start g f text) = POk ds st -> g_stk (finish st) = [].
Proof.
  intros g f text ds st. unfold l_all, finish. cbn [g_stk].
  remember (S (length (rest (start g f text)))) as n eqn:En. clear En. remember (start g f text) as s eqn:Es. clear Es. revert s ds.
  induction n as [|n IH]; intros s ds; cbn [l_loop]; [discriminate|]. cbv zeta.
  destruct (at0 (rest (pskip s)) =? 0); [intros [= _ <-]; reflexivity|].
  destruct (l_one (pskip s)) as [[d|] s2| | | |]; cbn [pbind]; try discriminate.
  - destruct (l_loop n (pskip (clear_stack s2))) as [ds' s3| | | |] eqn:E; cbn [pbind]; try discriminate. intros [= _ <-]. eapply IH; eauto.
  - destruct (Nat.eqb _ _); [unfold perr; destruct (stale s2); discriminate|]. intros [= _ <-]. reflexivity.
Qed.
(* then any syntax error is reported without undefined behaviour, and every open
   construct in the report is one of this text: of that kind, beginning at that place *)
Theorem c132_report : forall g f text, g_stk g = [] ->
  (l_parse (start g f text) = PUB <-> parse text = UB) /\
  (l_all (start g f text) = PUB <-> parse_all text = UB) /\
  forall msg st, l_parse (start g f text) = PErr msg st \/ l_all (start g f text) = PErr msg st ->
    text = flat (lex st) ++ rest st /\ Forall (frame_ok st) (stk st).
Proof.
  intros g f text K. destruct (c130_reading_unchanged g f text K) as [A B]. rewrite <- A, <- B.
  split; [destruct (l_parse _); cbn; split; congruence|]. split; [destruct (l_all _); cbn; split; congruence|].
  intros msg st H. split; [now apply (c130_error_place g f text msg st K)|].
  pose proof (start_own g f text K) as O.
  assert (X : exists lx, step lx (start g f text) st).
  { destruct H as [H|H]; [destruct (parse_ok _ O) as (_ & _ & C)|destruct (loop_ok (S (length text)) _ O) as (_ & _ & C)]; eauto. }
  destruct X as (lx & S1). now destruct (own_step _ _ _ O S1).
Qed.
(* any history of successful loads *)
Inductive loads : glob -> Prop :=
| loads0 : loads glob0
| loads_one g f text ds st : loads g -> l_all (start g f text) = POk ds st -> loads (finish st).
Theorem c132_history : forall g, loads g -> g_stk g = [].
Proof. intros g H. destruct H as [|g f text ds st _ E]; [reflexivity|]. eapply c132_load_leaves_none; eauto. Qed.
Example c132_ex : exists g, loads g /\
  match l_all (start g None (bs "(a #(b (c]")) with
  | PErr m st => m = bs "unexpected character ']' (0x5d)" /\ map f_kind (stk st) = ["list"; "vector"; "list"]%string /\ map f_col (stk st) = [8; 4; 1]
  | _ => False end.
Proof.
  destruct (l_all (start glob0 None (bs "() '#\a #(1)"))) as [ds st| | | |] eqn:E; try (vm_compute in E; discriminate).
  exists (finish st). split; [eapply loads_one; [constructor|exact E]|]. vm_compute in E. injection E as _ <-. vm_compute. repeat split.
Qed.

(** C133: what goes wrong with the stack of open constructs. *)
(* after an error in a text, or just after () has been read by parse, the next
   error report looks into the earlier text: undefined behaviour *)
Theorem c133_after_error_refuted : exists t1 t2 msg st,
  l_parse (start glob0 None t1) = PErr msg st /\ parse t2 = Err /\ l_parse (start (finish st) None t2) = PUB.
Proof. exists (bs "(]"), (bs ")"). do 2 eexists. split; [vm_compute; reflexivity|]. split; vm_compute; reflexivity. Qed.
Theorem c133_after_success_refuted : exists t1 t2 d st,
  l_parse (start glob0 None t1) = POk d st /\ parse t2 = Err /\ l_parse (start (finish st) None t2) = PUB.
Proof. exists (bs "()"), (bs ")"). do 2 eexists. split; [vm_compute; reflexivity|]. split; vm_compute; reflexivity. Qed.
(* the construct that is not closed is missing from the report of that error *)
Theorem c133_innermost_missing_refuted : exists text msg st,
  l_all (start glob0 None text) = PErr msg st /\ msg = bs "unterminated string" /\ stk st = [].
Proof. exists (bs " ""a"). do 2 eexists. split; [vm_compute; reflexivity|]. split; reflexivity. Qed.
(* a string removes the entry of the list around it; () and non-empty vectors leave theirs *)
Theorem c133_wrong_entries_refuted :
  (exists text msg st, l_all (start glob0 None text) = PErr msg st /\ text = bs "(""a"" ]" /\ stk st = []) /\
  (exists text msg st, l_all (start glob0 None text) = PErr msg st /\ text = bs "(() #(1) ]" /\ map f_kind (stk st) = ["vector"; "list"; "list"]%string).
Proof.
  split.
  - exists (bs "(""a"" ]"). do 2 eexists. split; [vm_compute; reflexivity|]. split; reflexivity.
  - exists (bs "(() #(1) ]"). do 2 eexists. split; [vm_compute; reflexivity|]. split; reflexivity.
Qed.
