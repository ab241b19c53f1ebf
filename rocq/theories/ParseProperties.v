(** C31-C34: the reader and the printer.  Vocabulary: ParseSpec.  A text is a
    list of bytes; [parse_expr s] is one call of the reader on [s] (datum or
    end-of-text, and the remaining text), [parse s] reads a text holding exactly
    one datum, [parse_all s] a whole file; [write_datum pf d] is the output of
    write, [pf] being printf's rendering of doubles. *)
From Coq Require Import Lia String.
From Verif Require Import Base NumModel StringModel ParseModel PrintModel ParseSpec ParseProofs ParseProofs2.
Local Open Scope list_scope.

Definition ex_text : list Z := bs "(define (f . x) `(a ,@x #(1 ""b\n"" #\space))) ; end".
Definition ex_datum : rdatum :=
  RList (RSym (bs "define"))
    [RList (RSym (bs "f")) [] (Some (RSym (bs "..x")));
     RVec [RInt (-12); RStr (bs "a\""b"); RChar 40; RBool true; RNil];
     RList (RSym (bs "quasiquote")) [RList (RSym (bs "a")) [RList (RSym (bs "quote")) [RSym (bs "1+")] None] None] None] None.
Definition pf0 : dbl -> list Z := fun _ => [].

(** C31 *)
(* every call returns: the result is the same for every sufficient call depth *)
Theorem c31_terminates : forall s,
  parse_expr s <> Fuel /\ parse_all s <> Fuel /\
  forall n, p_expr n s <> Fuel -> p_expr n s = parse_expr s.
Proof.
  intros s. assert (T : forall t, parse_expr t <> Fuel).
  { intros t Q. unfold parse_expr in Q. destruct (inv_all (parse_fuel t)) as [I _]. specialize (I t). rewrite Q in I. cbn in I. unfold parse_fuel in I. lia. }
  split; auto. split; [|intros n H; symmetry; now apply parse_expr_any].
  unfold parse_all. assert (G : forall n t, (length t < n)%nat -> p_all n t <> Fuel).
  { induction n as [|n IH]; intros t L; [lia|]. cbn [p_all]. destruct (at0 (skip t) =? 0); [discriminate|].
    destruct (parse_expr t) as [[[d|] r]| | | |] eqn:E; cbn [bind]; try discriminate.
    - assert (C : consumed t r). { destruct (inv_all (parse_fuel t)) as [I _]. specialize (I t). unfold parse_expr in E. rewrite E in I. exact I. }
      pose proof (consumed_len _ _ C). pose proof (suffix_len _ _ (skip_ws_suffix r false)).
      destruct (p_all n (skip r)) eqn:Q; try discriminate. exfalso. apply (IH (skip r)); auto. lia.
    - destruct (Nat.eqb _ _); discriminate.
    - intros _. exact (T t E). }
  apply G. lia.
Qed.
Print Assumptions c31_terminates.
Theorem c31_progress : forall s d r, parse_expr s = Ok (Some d, r) ->
  exists used, used <> [] /\ s = used ++ r.
Proof.
  intros s d r E. destruct (inv_all (parse_fuel s)) as [I _]. specialize (I s). unfold parse_expr in E. rewrite E in I. exact I.
Qed.
Print Assumptions c31_progress.
(* the end of the text is reported only there: what is left is blank or comment *)
Theorem c31_end_of_text : forall s r, parse_expr s = Ok (None, r) -> r = skip s /\ (r = [] \/ exists k, r = 0 :: k).
Proof.
  intros s r E. destruct (inv_all (parse_fuel s)) as [I _]. specialize (I s). unfold parse_expr in E. rewrite E in I. cbn in I.
  destruct I as [-> I]. split; auto. destruct (skip s) as [|c k]; auto. cbn in I. right. exists k. congruence.
Qed.
Print Assumptions c31_end_of_text.
(* stepping over the terminating NUL is UB in the model (adv); no UB and no
   failed assertion happens unless the text holds an integer above 2^63-1 *)
Theorem c31_no_overrun : forall s, ~ huge_numeral s -> parse_expr s <> UB /\ parse_expr s <> Abort.
Proof.
  intros s N. destruct (inv_all (parse_fuel s)) as [I _]. specialize (I s). unfold parse_expr.
  destruct (p_expr (parse_fuel s) s); split; try discriminate; cbn in I; tauto.
Qed.
Print Assumptions c31_no_overrun.
(* the remaining case is real: signed overflow in parse_number 338-342 *)
Theorem c31_huge_numeral_overflows : parse_expr (bs "9223372036854775808") = UB.
Proof. vm_compute. reflexivity. Qed.
Print Assumptions c31_huge_numeral_overflows.
Example c31_ex : exists d, parse_expr ex_text = Ok (Some d, bs " ; end").
Proof. eexists. vm_compute. reflexivity. Qed.
Example c31_ex_end : parse_expr (bs " ; only a comment") = Ok (None, []).
Proof. vm_compute. reflexivity. Qed.
Example c31_ex_unclosed : parse_expr (bs "((((((") = Err.
Proof. vm_compute. reflexivity. Qed.

(** C32 *)
Lemma c32_at pf d r : plain d -> delim r -> parse_expr (write_datum pf d ++ r) = Ok (Some d, r).
Proof.
  intros P D. destruct (plain_good pf d P false false r D) as (_ & n & E). unfold write_datum.
  rewrite (parse_expr_any n); [exact E|]. rewrite E. discriminate.
Qed.
Theorem c32_round_trip : forall pf d, plain d -> parse (write_datum pf d) = Ok d.
Proof.
  intros pf d P. unfold parse. pose proof (c32_at pf d [] P ltac:(now left)) as E. rewrite app_nil_r in E. rewrite E. reflexivity.
Qed.
Print Assumptions c32_round_trip.
(* and a sequence of data written with spaces between them reads back as that
   sequence *)
Theorem c32_sequence : forall pf d l, Forall plain (d :: l) ->
  parse_all (write_datum pf d ++ flat_map (fun x => 32 :: write_datum pf x) l) = Ok (d :: l).
Proof.
  intros pf d l F. unfold parse_all.
  assert (G : forall l d n, Forall plain (d :: l) ->
    (length (write_datum pf d ++ flat_map (fun x => 32%Z :: write_datum pf x) l) < n)%nat ->
    p_all n (write_datum pf d ++ flat_map (fun x => 32 :: write_datum pf x) l) = Ok (d :: l)).
  { clear d l F. induction l as [|y l IH]; intros d n F L; inversion F as [|? ? Fd Fl]; subst; (destruct n as [|n]; [lia|]); cbn [p_all].
    - cbn [flat_map] in *. destruct (plain_good pf d Fd false false [] ltac:(now left)) as (St & _). fold (write_datum pf d) in St.
      rewrite (starts_skip _ St). destruct (Z.eqb_spec (at0 (write_datum pf d ++ [])) 0) as [Q|_]; [destruct St; congruence|].
      rewrite (c32_at pf d [] Fd) by (now left). cbn [bind].
      rewrite app_nil_r in *. destruct n as [|n]; [|reflexivity]. destruct (write_datum pf d); [destruct St as (A & _); now elim A|cbn in L; lia].
    - cbn [flat_map] in *. set (R := flat_map (fun x => 32 :: write_datum pf x) l) in *.
      assert (D : delim (32 :: write_datum pf y ++ R)) by (right; eauto).
      destruct (plain_good pf d Fd false false _ D) as (St & _). fold (write_datum pf d) in St.
      cbn [app] in *.
      rewrite (starts_skip _ St). destruct (Z.eqb_spec (at0 (write_datum pf d ++ 32 :: write_datum pf y ++ R)) 0) as [Q|_]; [destruct St; congruence|].
      rewrite (c32_at pf d _ Fd D). cbn [bind].
      assert (DR : delim R) by (subst R; destruct l; [now left|right; cbn; eauto]).
      inversion Fl as [|? ? Fy Fl']; subst.
      destruct (plain_good pf y Fy false false R DR) as (St2 & _). fold (write_datum pf y) in St2.
      rewrite (starts_skip_space _ St2). unfold R. rewrite IH; auto. rewrite app_length in L. cbn in L. lia. }
  apply G; auto.
Qed.
Print Assumptions c32_sequence.
Lemma ident_dec n : (forallb symchar n &&
  match n with
  | [] => false
  | [c] => negb (c =? 46) && negb (c =? 58) && negb (isdigit c)
  | c :: e :: r => negb (c =? 58) && negb ((c =? 46) && (e =? 124)) && negb (isdigit c) && negb (((c =? 43) || (c =? 45)) && isdigit e)
  end) = true -> identifier n.
Proof.
  rewrite andb_true_iff, forallb_forall. intros [F H]. unfold identifier.
  split. { apply Forall_forall. intros x I. apply symchar_iff, F, I. }
  destruct n as [|c [|e r]]; [discriminate| |].
  - rewrite !andb_true_iff, !negb_true_iff, !Z.eqb_neq in H. destruct H as ((A & B) & C).
    split; [discriminate|]. split; [intros [= ->]; auto|]. split; [intros k [= -> _]; auto|]. split; [intros k [=]|].
    split; [intros x k [= -> _] D; apply isdigit_iff in D; congruence|intros x y k [=]].
  - rewrite !andb_true_iff, !negb_true_iff, !andb_false_iff, orb_false_iff, !Z.eqb_neq in H. destruct H as (((A & B) & C) & D).
    split; [discriminate|]. split; [discriminate|]. split; [intros k [= -> _]; auto|]. split; [intros k [= -> -> _]; tauto|].
    split; [intros x k [= -> _] G; apply isdigit_iff in G; congruence|]. intros x y k [= -> -> _] X Y. apply isdigit_iff in Y. destruct D as [[D1 D2]|D]; [tauto|congruence].
Qed.
Example ex_datum_plain : plain ex_datum.
Proof.
  assert (I : forall n, forallb symchar n && _ = true -> plain (RSym n)) by (intros n H; constructor; exact (ident_dec n H)).
  assert (I1 : plain (RSym (bs "1+"))).
  { constructor. split. { apply Forall_forall. intros x Hx. apply symchar_iff. cbn in Hx. destruct Hx as [<- |[<- |[]]]; reflexivity. }
    split; [discriminate|]. split; [discriminate|]. split; [discriminate|]. split; [discriminate|].
    split; [intros c r _ _; now left|]. intros s c r E [-> | ->]; discriminate E. }
  unfold ex_datum. apply pl_list.
  - intros [[=]|[[=]|[[=]|[=]]]].
  - now apply I.
  - constructor; [|constructor; [|constructor; [|constructor]]].
    + apply pl_dotted; [intros [[=]|[[=]|[[=]|[=]]]]|now apply I|constructor|now apply I|intros (h & r & [=])].
    + apply pl_vec. repeat apply Forall_cons; try apply Forall_nil.
      * constructor. vm_compute. split; congruence.
      * constructor. apply Forall_forall. intros x Hx. cbn in Hx. intuition lia.
      * constructor. lia.
      * constructor.
      * constructor.
    + apply pl_quoted; [right; now left|]. apply pl_list; [intros [[=]|[[=]|[[=]|[=]]]]|now apply I|].
      constructor; [|constructor]. apply pl_quoted; [now left|exact I1].
Qed.
Example c32_ex : write_datum pf0 ex_datum =
  bs "(define (f . ..x) #(-12 ""a\\\""b"" #\( #t ()) (quasiquote (a '1+)))".
Proof. vm_compute. reflexivity. Qed.
(* integers: INT64_MIN is written correctly but its text overflows the reader *)
Theorem c140_min_int_refuted : forall pf, parse (write_datum pf (RInt i64_min)) = UB.
Proof. intros. vm_compute. reflexivity. Qed.
Print Assumptions c140_min_int_refuted.
(* lists that merely start with the symbol quote lose their further elements *)
Theorem c140_quote_list_refuted : forall pf,
  write_datum pf (RList (RSym (bs "quote")) [RInt 1; RInt 2] None) = bs "(quote 1)".
Proof. intros. vm_compute. reflexivity. Qed.
Print Assumptions c140_quote_list_refuted.
(* (. a . (b)) -- a dotted tail that is a proper list is flattened: read and
   write are not inverse on the reader's own output *)
Theorem c140_dotted_list_refuted : forall pf,
  parse (bs "(1 . (2 3))") = Ok (RList (RInt 1) [] (Some (RList (RInt 2) [RInt 3] None))) /\
  parse (write_datum pf (RList (RInt 1) [] (Some (RList (RInt 2) [RInt 3] None)))) =
    Ok (RList (RInt 1) [RInt 2; RInt 3] None).
Proof. intros. split; vm_compute; reflexivity. Qed.
Print Assumptions c140_dotted_list_refuted.
Theorem c140_ratio_refuted : forall pf, parse (write_datum pf (RRatio 1 2)) = Err.
Proof. intros. vm_compute. reflexivity. Qed.
Print Assumptions c140_ratio_refuted.

(** C33: exactly the printable strings survive. *)
Theorem c33_string_round_trip : forall pf s, Forall (fun b => 0 <= b <= 255) s ->
  (parse (write_datum pf (RStr s)) = Ok (RStr s) <-> printable s).
Proof.
  intros pf s B. split.
  - intros E. unfold parse in E. destruct (p_expr_str s [] B) as (_ & P). rewrite app_nil_r in P.
    change (write_datum pf (RStr s)) with (print_str s) in E.
    rewrite (parse_expr_any 1) in E by (rewrite P; discriminate). rewrite P in E. cbn in E. injection E as E.
    destruct (back_len s) as [_ L].
    assert (D : printable s \/ ~ printable s).
    { clear. induction s as [|c s [H|H]]; [left; constructor| |right; intros Q; inversion Q; auto].
      destruct (printable_dec c); [left; constructor; auto|right; intros Q; inversion Q; subst; auto]. }
    destruct D as [D|D]; auto. specialize (L D). rewrite E in L. lia.
  - intros P. apply c32_round_trip. now constructor.
Qed.
Print Assumptions c33_string_round_trip.
Theorem c129_control_char_refuted : forall pf, parse (write_datum pf (RStr [97; 1; 98])) = Ok (RStr (bs "a001b")).
Proof. intros. vm_compute. reflexivity. Qed.
Print Assumptions c129_control_char_refuted.
Theorem c129_utf8_refuted : forall pf, parse (write_datum pf (RStr [195; 169])) = Ok (RStr (bs "303251")).
Proof. intros. vm_compute. reflexivity. Qed.
Print Assumptions c129_utf8_refuted.
Example c33_ex : parse (write_datum pf0 (RStr (34 :: 92 :: 10 :: 9 :: 13 :: bs "text"))) = Ok (RStr (34 :: 92 :: 10 :: 9 :: 13 :: bs "text")).
Proof. vm_compute. reflexivity. Qed.

(** C34 *)
Theorem c34_symbol_round_trip : forall pf n, identifier n -> parse (write_datum pf (RSym n)) = Ok (RSym n).
Proof. intros pf n I. apply c32_round_trip. now constructor. Qed.
Print Assumptions c34_symbol_round_trip.
(* every keyword is read back as the symbol without its colon *)
Theorem c141_keyword_refuted : forall pf n, Forall ident_char n -> n <> [] ->
  parse (write_datum pf (RSym (58 :: n))) = Ok (RSym n) /\ RSym n <> RSym (58 :: n).
Proof.
  intros pf n F N. split.
  - unfold parse, write_datum. cbn [print print_sym Z.eqb Pos.eqb].
    assert (E : p_expr 1 (35 :: 58 :: n) = Ok (Some (RSym n), [])).
    { cbn [p_expr]. change (skip (35 :: 58 :: n)) with (35 :: 58 :: n). unfold at0, at1. cbn [nth Z.eqb Pos.eqb andb adv2 adv bind].
      pose proof (p_symbol_ident n [] F N ltac:(now left)) as P. rewrite app_nil_r in P. rewrite P. reflexivity. }
    rewrite (parse_expr_any 1) by (rewrite E; discriminate). rewrite E. reflexivity.
  - intros [= Q]. apply (f_equal (@length Z)) in Q. cbn in Q. lia.
Qed.
Print Assumptions c141_keyword_refuted.
(* symbols made by string->symbol with other characters are printed bare *)
Theorem c141_odd_symbol_refuted : forall pf, parse (write_datum pf (RSym (bs "a b"))) = Err /\
  parse (write_datum pf (RSym (bs "12"))) = Ok (RInt 12).
Proof. intros. split; vm_compute; reflexivity. Qed.
Print Assumptions c141_odd_symbol_refuted.
Example c34_ex : identifier (bs "set-car!"). Proof. apply ident_dec. vm_compute. reflexivity. Qed.
