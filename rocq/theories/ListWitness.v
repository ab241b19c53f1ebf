(** Concrete heaps used by the examples, and derived facts for the list
    properties. *)
From Coq Require Import Lia SpecFloat.
From Verif Require Import Base NumModel HeapModel EqModel ListModel ListSpec ListProofs ListProofs2 EqSpec EqProofs.

Lemma wf_empty : wf empty_heap.
Proof.
  split; [|repeat split]. intros a Ha. cbn in Ha.
  destruct a as [|[|[|[|a]]]]; try lia. split; reflexivity.
Qed.

(** heap with the numbers 11 12 13 14 at 4..7, the list (11 12 13) at 11
    (cells 8 9 10), (14) at 13 (cell 12), the pair (11 12 . 13) at 17
    (cells 14 15 16), and a circular list of the cells 18 19 at 20 *)
Definition ex_heap : heap :=
  mkHeap (fun a => nth a [Some ONone; Some ONil; Some (OBool false); Some (OBool true);
                          Some (ONum 11); Some (ONum 12); Some (ONum 13); Some (ONum 14);
                          None; None; None; Some (OList 8); None; Some (OList 12);
                          None; None; None; Some (OList 14); None; None; Some (OList 18);
                          Some (ONum 2); Some (ONum (-1)); Some (ONum 5)]%nat None)
         (fun a => nth a [None; None; None; None; None; None; None; None;
                          Some (mkCell 4 (Some 9) false); Some (mkCell 5 (Some 10) false);
                          Some (mkCell 6 None false); None;
                          Some (mkCell 7 None false); None;
                          Some (mkCell 4 (Some 15) false); Some (mkCell 5 (Some 16) false);
                          Some (mkCell 6 None true); None;
                          Some (mkCell 4 (Some 19) false); Some (mkCell 5 (Some 18) false)]%nat None) 24%nat.
Lemma nth_over {A} (l : list A) n d : (length l <= n)%nat -> nth n l d = d.
Proof. apply nth_overflow. Qed.
Lemma wf_ex : wf ex_heap.
Proof.
  split; [|repeat split]. intros a Ha. cbn in Ha. split; cbn [ex_heap h_obj h_cell]; apply nth_overflow; cbn [length]; lia.
Qed.
Lemma ex_list : list_cells ex_heap 11 [8; 9; 10]%nat [4; 5; 6]%nat.
Proof.
  right. exists 8%nat. split; [reflexivity|].
  apply (chain_cons _ _ (mkCell 4 (Some 9%nat) false)); auto.
  apply (chain_cons _ _ (mkCell 5 (Some 10%nat) false)); auto.
  apply (chain_cons _ _ (mkCell 6 None false)); auto. constructor.
Qed.
Lemma ex_list2 : list_cells ex_heap 13 [12]%nat [7]%nat.
Proof.
  right. exists 12%nat. split; [reflexivity|].
  apply (chain_cons _ _ (mkCell 7 None false)); auto. constructor.
Qed.
Lemma ex_dotted : is_dotted_list ex_heap 17 [4; 5]%nat 6%nat.
Proof.
  exists 14%nat, [14; 15; 16]%nat. split; [reflexivity|]. split; [discriminate|].
  apply (dchain_cons _ _ (mkCell 4 (Some 15%nat) false)); auto.
  apply (dchain_cons _ _ (mkCell 5 (Some 16%nat) false)); auto.
  apply (dchain_end _ _ (mkCell 6 None true)); auto.
Qed.
Lemma ex_circular : circular ex_heap 18%nat.
Proof.
  exists (fun c => c = 18%nat \/ c = 19%nat). split; auto. intros d [-> | ->].
  - exists (mkCell 4 (Some 19%nat) false), 19%nat. repeat split; auto.
  - exists (mkCell 5 (Some 18%nat) false), 18%nat. repeat split; auto.
Qed.
Lemma cells_ok_ex : cells_ok ex_heap.
Proof.
  intros c k n H N. cbn [ex_heap h_cell] in *.
  do 24 (destruct c as [|c]; [cbn in H; inversion H; subst; cbn in N; inversion N; subst; cbn; discriminate|]).
  cbn in H. destruct c; discriminate.
Qed.

(** ** derived facts *)
Lemma reverse_twice h a xs fuel : wf h -> is_list h a xs -> (length xs <= fuel)%nat ->
  exists r h1 r2 h2, reverse fuel a h = Ok (r, h1) /\ reverse fuel r h1 = Ok (r2, h2) /\
    is_list h2 r2 xs /\ extends h h2.
Proof.
  intros W L F. destruct (reverse_ok h a xs fuel W L F) as (r&h1&cs&P&Q&_&E&W1).
  destruct (reverse_ok h1 r (rev xs) fuel W1) as (r2&h2&cs2&P2&Q2&_&E2&W2).
  - exists cs; auto.
  - now rewrite rev_length.
  - exists r, h1, r2, h2. split; auto. split; auto. rewrite rev_involutive in Q2.
    split; [exists cs2; auto|eapply extends_trans; eauto].
Qed.
Lemma last_pair_good h a cs xs fuel : wf h -> list_cells h a cs xs -> xs <> [] -> (length xs < fuel)%nat ->
  length xs = 1%nat \/ Nat.even (length xs) = true ->
  exists r h' c cs', last_pair fuel a h = Ok (r, h') /\ h_obj h' r = Some (OList c) /\
    cs = cs' ++ [c] /\ extends h h'.
Proof.
  intros W LC Ne L G. destruct (last_pair_ok h a cs xs fuel W LC Ne L) as (r&h'&c&P&O&E&W'&N).
  assert (Len : length cs = length xs).
  { destruct LC as [(_&->&->)|(c0&_&C)]; auto. eapply chain_len; eauto. }
  assert (N' : nth_error cs (length cs - 1) = Some c).
  { rewrite Len. destruct G as [G|G].
    - rewrite G in *. exact N.
    - unfold Nat.odd in N. rewrite G in N. exact N. }
  destruct (nth_error_last _ _ N') as (cs'&E'). exists r, h', c, cs'. auto.
Qed.
Lemma last_pair_bad h a cs xs fuel : wf h -> list_cells h a cs xs -> (3 <= length xs)%nat -> (length xs < fuel)%nat ->
  Nat.odd (length xs) = true ->
  exists r h' c, last_pair fuel a h = Ok (r, h') /\ h_obj h' r = Some (OList c) /\
    nth_error cs ((length xs - 1) / 2) = Some c /\ ~ exists cs', cs = cs' ++ [c].
Proof.
  intros W LC Ge L Od.
  assert (Ne : xs <> []) by (intros ->; cbn in Ge; lia).
  destruct (last_pair_ok h a cs xs fuel W LC Ne L) as (r&h'&c&P&O&E&W'&N). rewrite Od in N.
  exists r, h', c. split; auto. split; auto. split; auto. intros (cs'&Ec).
  assert (Len : length cs = length xs /\ NoDup cs).
  { destruct LC as [(_&->&->)|(c0&_&C)]; [congruence|]. split; [eapply chain_len|eapply chain_nodup]; eauto. }
  destruct Len as [Len ND]. rewrite NoDup_nth_error in ND.
  assert (X : ((length xs - 1) / 2 = length xs - 1)%nat).
  { apply ND.
    - rewrite Len. pose proof (Nat.div_lt (length xs - 1) 2). lia.
    - rewrite N. rewrite <- Len. rewrite Ec, app_length. cbn.
      replace (length cs' + 1 - 1)%nat with (length cs') by lia.
      rewrite nth_error_app2 by lia. now rewrite Nat.sub_diag. }
  pose proof (Nat.div_lt (length xs - 1) 2). lia.
Qed.
Lemma list_p_long h a xs fuel : cells_ok h -> is_list h a xs -> 10002 <= Z.of_nat fuel -> 10001 < Z.of_nat (length xs) ->
  is_list_prim fuel a h = Ok (false_a, h).
Proof.
  intros OK IL F L. destruct IL as (cs&LC).
  assert (exists o, h_obj h a = Some o /\ (forall c, o = OList c -> h_cell h c <> None)) as (o&O&V).
  { destruct LC as [(N&->&->)|(c&O&C)].
    - cbn in L; lia.
    - exists (OList c). split; auto. intros c' X; inversion X; subst.
      destruct (chain_inv_some _ _ _ _ C) as (k&_&_&K&_). congruence. }
  destruct (is_list_prim_ok h a o fuel OK O F V) as (b&P&Q). destruct b; [|auto].
  exfalso. destruct Q as (Q&_). destruct (Q eq_refl) as (ys&(cs'&LC')&L').
  assert (ys = xs); [|subst; lia].
  destruct LC as [(N&->&->)|(c&O1&C)], LC' as [(N'&->&->)|(c'&O'&C')]; try congruence.
  replace c' with c in * by congruence. now destruct (chain_fun _ _ _ _ C _ _ C').
Qed.
Lemma list_p_circular h a c fuel : cells_ok h -> h_obj h a = Some (OList c) -> circular h c -> 10002 <= Z.of_nat fuel ->
  is_list_prim fuel a h = Ok (false_a, h).
Proof.
  intros OK O Ci F.
  assert (V : forall d, OList c = OList d -> h_cell h d <> None).
  { intros d X; inversion X; subst. destruct Ci as (S&Sc&SS). destruct (SS _ Sc) as (k&n&K&_). congruence. }
  destruct (is_list_prim_ok h a _ fuel OK O F V) as (b&P&Q). destruct b; [|auto].
  exfalso. destruct Q as (Q&_). destruct (Q eq_refl) as (xs&(cs&[(N&_)|(c'&O'&C)])&_); [congruence|].
  replace c' with c in * by congruence. eapply circular_no_chain; eauto.
Qed.
Lemma mem_instances h x a cs xs fuel (f : addr -> bool) : wf h -> list_cells h a cs xs -> (length xs <= fuel)%nat ->
  let outcome (r : res (addr * heap)) :=
    (forall y, In y xs -> f y = false) /\ r = Ok (false_a, h) \/
    exists i s h', first_match f xs i /\ r = Ok (s, h') /\
      list_cells h' s (skipn i cs) (skipn i xs) /\ extends h h' in
  ((forall y, In y xs -> eq_p x y h = Ok (f y, h)) -> outcome (memq fuel x a h)) /\
  ((forall y, In y xs -> eqv_list x y h = Ok (f y, h)) -> outcome (memv fuel x a h)) /\
  ((forall y, In y xs -> legacy_eq fuel x y h = Ok (f y, h)) -> outcome (member fuel x a h)).
Proof.
  intros W LC L outcome. unfold outcome, memq, memv, member.
  split; [|split]; intros H;
    (destruct (mem_prim_ok h _ f a cs xs fuel W LC L H) as [?|(i&s&h'&A&B&C&D&_)];
      [left; auto|right; exists i, s, h'; auto]).
Qed.

(** ** equality witnesses *)

Definition dot_heap : heap :=
  (* a = symbol x at 4, b = symbol y at 5, (x . y) at 8, (x y) at 11 *)
  mkHeap (fun a => nth a [Some ONone; Some ONil; Some (OBool false); Some (OBool true);
                          Some (OSym [120%Z]); Some (OSym [121%Z]); None; None; Some (OList 6); None; None;
                          Some (OList 9)]%nat None)
         (fun a => nth a [None; None; None; None; None; None;
                          Some (mkCell 4 (Some 7) false); Some (mkCell 5 None true); None;
                          Some (mkCell 4 (Some 10) false); Some (mkCell 5 None false)]%nat None) 12%nat.
Lemma wf_dot : wf dot_heap.
Proof.
  split; [|repeat split]. intros a Ha. cbn in Ha. split; cbn [dot_heap h_obj h_cell]; apply nth_overflow; cbn [length]; lia.
Qed.
Definition dsx := DSym [120]. Definition dsy := DSym [121].
Lemma dot_rep1 : rep dot_heap 8 (DPair dsx dsy).
Proof.
  eapply rep_pair; [reflexivity|]. eapply rep_dot; try reflexivity; apply rep_sym; reflexivity.
Qed.
Lemma dot_rep2 : rep dot_heap 11 (DPair dsx (DPair dsy DNil)).
Proof.
  eapply rep_pair; [reflexivity|]. eapply rep_next; try reflexivity; [apply rep_sym; reflexivity|].
  eapply rep_last; try reflexivity. apply rep_sym; reflexivity.
Qed.
(* 2^53+1, 2^53 and the float 2^53 *)
Definition num_heap : heap :=
  mkHeap (fun a => nth a [Some ONone; Some ONil; Some (OBool false); Some (OBool true);
                          Some (ONum (2 ^ 53 + 1)); Some (OFloat (d_of_Z (2 ^ 53))); Some (ONum (2 ^ 53))] None)
         (fun _ => None) 7%nat.
