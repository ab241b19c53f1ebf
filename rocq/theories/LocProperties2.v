(** C203: what the reader says about a byte that cannot begin a datum, and about an empty text. *)
From Coq Require Import Lia String.
From Verif Require Import Base NumModel HeapModel StringModel ParseModel ParseSpec ParseProofs ParseProofs2 ParseProperties2
  LocModel LocSpec LocSpec2 LocProofs LocProofs2 LocProofs3 LocProofs4 LocProperties.
Local Open Scope list_scope.
Local Open Scope Z_scope.

Lemma hexdig_nth n : 0 <= n < 16 -> hexdig n = nth (Z.to_nat n) hex_digits 0.
Proof.
  intros R. assert (E : n = Z.of_nat (Z.to_nat n)) by (rewrite Z2Nat.id; lia). rewrite E at 1. assert (L : (Z.to_nat n < 16)%nat) by lia. revert L. generalize (Z.to_nat n). intros k L.
  do 16 (destruct k as [|k]; [reflexivity|]). lia.
Qed.
Lemma unexpected_complaint c : 1 <= c <= 255 -> complaint c (unexpected c).
Proof.
  intros R. unfold unexpected, complaint, hex2.
  assert (A : 0 <= c / 16 < 16) by (split; [apply Z.div_pos; lia|apply Z.div_lt_upper_bound; lia]).
  pose proof (Z.mod_pos_bound c 16 ltac:(lia)) as B.
  rewrite !hexdig_nth by lia. destruct (Z.eqb_spec c 0); [lia|]. unfold isprint.
  destruct (Z.leb_spec 32 c), (Z.leb_spec c 126); cbn [andb]; split; intros; try lia; reflexivity.
Qed.
Lemma odd_expr n st c r : 1 <= c <= 255 -> ~ may_begin c -> skip (rest st) = c :: r -> own st ->
  l_expr (S n) st = PErr (unexpected c) (pskip st).
Proof.
  intros R N Sk O. unfold may_begin in N. cbn [In] in N.
  assert (Nid : symchar c = false) by (destruct (symchar c) eqn:Q; auto; apply symchar_iff in Q; tauto).
  assert (Nd : isdigit c = false) by (destruct (isdigit c) eqn:Q; auto; apply isdigit_iff in Q; unfold ident_char in N; tauto).
  assert (Ns : c <> 43 /\ c <> 45).
  { unfold ident_char in N. split; intros ->; apply N; left; right; right; vm_compute; tauto. }
  assert (N1 : c <> 49) by (intros ->; discriminate).
  assert (NL : c <> 39 /\ c <> 96 /\ c <> 40 /\ c <> 34 /\ c <> 35 /\ c <> 59 /\ c <> 92) by (repeat split; intros ->; tauto).
  clear N.
  assert (Er : rest (pskip st) = c :: r) by now rewrite rest_skip.
  assert (E0 : at0 (rest (pskip st)) = c) by now rewrite Er.
  cbn [l_expr]. rewrite !E0.
  repeat match goal with |- context [?x =? ?y] =>
    lazymatch x with c => destruct (Z.eqb_spec c y); [exfalso; lia|]; cbn [andb orb negb] end end.
  assert (Hn : l_number (pskip st) = POk None (pskip st)).
  { unfold l_number, p_number. rewrite E0. destruct (Z.eqb_spec c 45); [lia|]. destruct (Z.eqb_spec c 43); [lia|]. now rewrite Nd. }
  rewrite Hn. cbn [pbind].
  assert (Hs : l_symbol (pskip st) = POk None (pskip st)).
  { unfold l_symbol, p_symbol. rewrite E0, Er. destruct (Z.eqb_spec c 35); [lia|]. cbn [andb sym_scan].
    destruct (Z.eqb_spec c 0); [lia|]. destruct (Z.eqb_spec c 92); [lia|]. now rewrite Nid. }
  rewrite Hs. cbn [pbind]. rewrite E0. unfold perr. destruct (step_skip st) as (w & SS).
  now rewrite (not_stale _ (own_step _ _ _ O SS)).
Qed.
Lemma fuel_pos s : exists n, parse_fuel s = S n.
Proof. unfold parse_fuel. destruct (length s); cbn; eauto. Qed.
Lemma not_space c : ~ may_begin c -> isspace c = false.
Proof.
  unfold may_begin, blank. intros N. 
  unfold isspace. destruct (Z.eqb_spec c 32); [exfalso; tauto|]. destruct (Z.leb_spec 9 c), (Z.leb_spec c 13); cbn; auto. exfalso. apply N. right. right. lia.
Qed.
Lemma odd_skip b c r : filler b -> ~ may_begin c -> skip (b ++ c :: r) = c :: r.
Proof.
  intros F N. rewrite skip_filler by auto. cbn [skip_ws]. rewrite (not_space c N).
  destruct (Z.eqb_spec c 59); [|reflexivity]. subst. unfold may_begin in N. cbn [In] in N. exfalso. tauto.
Qed.
Lemma ws_same c r l k : ~ may_begin c -> ws_pos false (c :: r) l k = (l, k).
Proof.
  intros N. cbn [ws_pos]. rewrite (not_space c N). destruct (Z.eqb_spec c 59); [|reflexivity]. subst. unfold may_begin in N. cbn [In] in N. exfalso. tauto.
Qed.
Lemma skip_place b c r l k : skip (b ++ c :: r) = c :: r -> at_loc [] l k ->
  at_loc b (fst (ws_pos false (b ++ c :: r) l k)) (snd (ws_pos false (b ++ c :: r) l k)).
Proof.
  intros Sk A. destruct (ws_ok (b ++ c :: r) false [] l k A) as (t & E & L). rewrite Sk in E. apply app_inv_tail in E. subst t. exact L.
Qed.
(** A byte that cannot begin a datum, where a datum should begin, is reported by name and
    position, whatever follows it. *)
Theorem c203_unexpected : forall g f b c r, g_stk g = [] -> filler b -> 1 <= c <= 255 -> ~ may_begin c ->
  (exists msg st, l_parse (start g f (b ++ c :: r)) = PErr msg st /\
     complaint c msg /\ rest st = c :: r /\ fname st = f /\ at_loc b (ln st) (cl st)) /\
  (exists msg st, l_all (start g f (b ++ c :: r)) = PErr msg st /\
     complaint c msg /\ rest st = c :: r /\ fname st = f /\ at_loc b (ln st) (cl st)).
Proof.
  intros g f b c r K F R N. set (st0 := start g f (b ++ c :: r)). assert (O : own st0) by (now apply start_own).
  assert (Sk : skip (rest st0) = c :: r) by (now apply odd_skip).
  assert (Rs : rest (pskip st0) = c :: r) by now rewrite rest_skip.
  assert (Pl : fname (pskip st0) = f /\ at_loc b (ln (pskip st0)) (cl (pskip st0))).
  { pose proof (skip_place b c r 1 1 Sk at_nil) as A. unfold pskip. change (rest st0) with (b ++ c :: r). change (ln st0) with 1. change (cl st0) with 1.
    destruct (ws_pos false (b ++ c :: r) 1 1) as [l k]. split; [reflexivity|exact A]. }
  split.
  - exists (unexpected c), (pskip st0). destruct (fuel_pos (b ++ c :: r)) as (n & Hn).
    split; [|split; [now apply unexpected_complaint|auto]].
    unfold l_parse, l_one. change (rest st0) with (b ++ c :: r). rewrite Hn, (odd_expr n st0 c r R N Sk O). reflexivity.
  - set (st1 := pskip st0) in *. destruct (step_skip st0) as (w & SS). pose proof (own_step _ _ _ O SS) as O1.
    assert (Sk1 : skip (rest st1) = c :: r) by (unfold st1; rewrite rest_skip; rewrite skip_idem; exact Sk).
    exists (unexpected c), (pskip st1). split; [|split; [now apply unexpected_complaint|]].
    + unfold l_all. destruct (length (rest st0)) as [|m]; cbn [l_loop]; change (pskip st0) with st1; rewrite Rs; unfold at0 at 1; cbn [nth];
      (destruct (Z.eqb_spec c 0); [lia|]); unfold l_one; rewrite Rs; destruct (fuel_pos (c :: r)) as (n0 & Hn0); rewrite Hn0, (odd_expr n0 st1 c r R N Sk1 O1); reflexivity.
    + split; [now rewrite rest_skip|]. destruct Pl as [P1 P2]. unfold pskip. rewrite Rs.
      rewrite (ws_same c r _ _ N). cbn [fname ln cl]. auto.
Qed.
(** A text without a datum, where one is expected, is reported as such. *)
Lemma skip_all b : filler b -> skip b = [].
Proof. intros F. rewrite <- (app_nil_r b). now rewrite skip_filler. Qed.
Theorem c203_no_datum : forall g f b, g_stk g = [] -> filler b ->
  (exists st, l_parse (start g f b) = PErr (bs "expected expression") st /\ rest st = [] /\ fname st = f) /\
  (exists st, l_all (start g f b) = POk [] st).
Proof.
  intros g f b K F. set (st0 := start g f b). assert (O : own st0) by (now apply start_own).
  assert (Rs : rest (pskip st0) = []) by (rewrite rest_skip; now apply skip_all).
  split.
  - exists (pskip (pskip st0)). split; [|split; [now rewrite !rest_skip, skip_idem, <- rest_skip|]].
    + unfold l_parse, l_one. change (rest st0) with b. destruct (fuel_pos b) as (n & Hn). rewrite Hn. cbn [l_expr]. rewrite Rs. cbn [at0 nth Z.eqb pbind].
      unfold perr. destruct (step_skip st0) as (w & SS). destruct (step_skip (pskip st0)) as (w' & SS').
      now rewrite (not_stale _ (own_step _ _ _ (own_step _ _ _ O SS) SS')).
    + unfold pskip. repeat match goal with |- context [ws_pos ?a ?b ?c ?d] => destruct (ws_pos a b c d) end. reflexivity.
  - unfold l_all. cbn [l_loop]. rewrite Rs. cbn [at0 nth Z.eqb]. eauto.
Qed.
Example c203_live :
  (exists st, l_parse (start glob0 None (bs "
  ; a comment
  ) 5")) = PErr (bs "unexpected character ')' (0x29)") st /\ ln st = 3 /\ cl st = 3) /\
  (exists st, l_parse (start glob0 None ([32; 200])) = PErr (bs "unexpected character (0xc8)") st /\ ln st = 1 /\ cl st = 2).
Proof. split; eexists; (split; [vm_compute; reflexivity|split; reflexivity]). Qed.
