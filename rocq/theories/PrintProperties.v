(** C201, C202: display, and the shape of what write prints. *)
From Coq Require Import String Lia.
From Verif Require Import Base NumModel HeapModel StringModel ParseModel PrintModel ParseProofs ParseProofs2 PrintSpec.
Local Open Scope list_scope.

Lemma until_nul_all : forall s, ~ In 0 s -> until_nul s = s.
Proof.
  induction s as [|c r IH]; intros N; cbn [until_nul]; auto. cbn in N. destruct (Z.eqb_spec c 0); [subst; tauto|]. f_equal. tauto.
Qed.
Lemma until_nul_cut : forall s r, ~ In 0 s -> until_nul (s ++ 0 :: r) = s.
Proof.
  induction s as [|c s IH]; intros r N; cbn [app until_nul]; auto. cbn in N. destruct (Z.eqb_spec c 0); [subst; tauto|]. f_equal. apply IH. tauto.
Qed.

(** C201.  Displaying a string sends its bytes, displaying a character sends that byte;
    numbers, booleans, symbols and the empty list are displayed as they are written. *)
Theorem c201_string : forall pf s, ~ In 0 s -> display_datum pf (RStr s) = s.
Proof. intros pf s N. cbn. now apply until_nul_all. Qed.
Theorem c201_char : forall pf b, display_datum pf (RChar b) = [b].
Proof. reflexivity. Qed.
Theorem c201_same : forall pf d, same_both_ways d -> display_datum pf d = write_datum pf d.
Proof. intros pf [] H; try contradiction; reflexivity. Qed.
Lemma go_join pf wm qq uq : forall l x,
  print pf wm qq uq x ++ (fix go l := match l with [] => [] | x :: r => 32 :: print pf wm qq uq x ++ go r end) l =
  join (map (print pf wm qq uq) (x :: l)).
Proof.
  induction l as [|y l IH]; intros x; [cbn; now rewrite app_nil_r|].
  change (map (print pf wm qq uq) (x :: y :: l)) with (print pf wm qq uq x :: map (print pf wm qq uq) (y :: l)).
  cbn [join]. rewrite <- IH. cbn [map app]. reflexivity.
Qed.
(** The elements of a vector are displayed (written), separated by single spaces. *)
Theorem c201_vector : forall pf l,
  display_datum pf (RVec l) = bs "#(" ++ join (map (display_datum pf) l) ++ bs ")" /\
  write_datum pf (RVec l) = bs "#(" ++ join (map (write_datum pf) l) ++ bs ")".
Proof.
  intros pf [|x l]; [split; reflexivity|]. unfold display_datum, write_datum. split; cbn [print].
  - now rewrite <- go_join, <- app_assoc.
  - now rewrite <- go_join, <- app_assoc.
Qed.
Lemma not_special d : ~ special_head d -> starts_with d "quasiquote" = false /\ starts_with d "quote" = false /\ starts_with d "unquote" = false /\ starts_with d "unquote-splicing" = false.
Proof.
  unfold special_head. intros N. destruct d; try (repeat split; reflexivity). unfold starts_with.
  repeat split; match goal with |- beq ?a ?b = false => destruct (beq a b) eqn:Q; auto; apply beq_iff in Q; subst; tauto end.
Qed.
(** A list is written as its written elements between parentheses, separated by single
    spaces; a last cdr that is not a list follows a dot. *)
Theorem c201_list : forall pf h r, ~ special_head h ->
  write_datum pf (RList h r None) = bs "(" ++ join (map (write_datum pf) (h :: r)) ++ bs ")".
Proof.
  intros pf h r N. destruct (not_special h N) as (E1 & E2 & E3 & E4). unfold write_datum. cbn [print]. rewrite E1, E2, E3, E4.
  rewrite app_assoc, go_join. reflexivity.
Qed.
Theorem c201_dotted : forall pf h r t, ~ special_head h -> (forall h' r', t <> RList h' r' None) ->
  write_datum pf (RList h r (Some t)) = bs "(" ++ join (map (write_datum pf) (h :: r)) ++ bs " . " ++ write_datum pf t ++ bs ")".
Proof.
  intros pf h r t N T. destruct (not_special h N) as (E1 & E2 & E3 & E4). unfold write_datum. cbn [print]. rewrite E1, E2, E3, E4.
  rewrite app_assoc, go_join. cbn [bs app]. f_equal. f_equal.
  destruct t as [| | | | | | | | |a b [c|]]; try reflexivity. now elim (T a b).
Qed.
Example c201_live : forall pf,
  display_datum pf (RVec [RStr (bs "a b"); RChar 32; RInt 7]) = bs "#(a b   7)" /\
  write_datum pf (RVec [RStr (bs "a b"); RChar 32; RInt 7]) = bs "#(""a b"" #\space 7)" /\
  write_datum pf (RList (RSym (bs "f")) [RInt 1; RStr []] (Some (RInt 2))) = bs "(f 1 """" . 2)".
Proof. intros pf. repeat split; reflexivity. Qed.

(** C202.  A non-empty list is displayed exactly as it is written, so strings and characters
    inside it keep their quotes; and a string is displayed only up to its first NUL. *)
Theorem c202_list_refuted : forall pf h r t, display_datum pf (RList h r t) = write_datum pf (RList h r t).
Proof. reflexivity. Qed.
Theorem c202_string_in_list_refuted : forall pf s, ~ In 0 s ->
  display_datum pf (RList (RStr s) [] None) <> bs "(" ++ display_datum pf (RStr s) ++ bs ")".
Proof.
  intros pf s N. rewrite c201_string by auto.
  change (display_datum pf (RList (RStr s) [] None)) with (40 :: (34 :: flat_map str_byte s ++ [34]) ++ [] ++ [41]). intros H.
  apply (f_equal (@length Z)) in H. revert H. change (bs "(" ++ s ++ bs ")") with (40 :: s ++ [41]). repeat (cbn [length app]; rewrite ?app_length).
  assert (L : (length s <= length (flat_map str_byte s))%nat).
  { clear N. induction s as [|c s IH]; [auto|]. cbn [flat_map length]. rewrite app_length.
    assert ((1 <= length (str_byte c))%nat); [|lia]. unfold str_byte, octal3. repeat match goal with |- context [if ?b then _ else _] => destruct b end; cbn; lia. }
  lia.
Qed.
Theorem c202_nul_refuted : forall pf a b, ~ In 0 a -> display_datum pf (RStr (a ++ 0 :: b)) = a.
Proof. intros pf a b N. cbn. now apply until_nul_cut. Qed.
