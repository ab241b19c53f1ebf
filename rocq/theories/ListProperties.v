(** C10-C20: statements about lists and equality.  Vocabulary: ListSpec and
    EqSpec.  [fuel] only bounds the model's loops; every theorem holds for all
    sufficiently large values. *)
From Coq Require Import SpecFloat Lia.
From Verif Require Import Base NumModel HeapModel EqModel ListModel ListSpec ListProofs ListProofs2 EqSpec EqProofs ListWitness.

(** C10 *)
Theorem c10_cons_onto_list : forall h a d cs xs fuel,
  wf h -> list_cells h d cs xs -> (length xs <= fuel)%nat ->
  exists p h' c, cons fuel a d h = Ok (p, h') /\ fresh_for h c /\
    list_cells h' p (c :: cs) (a :: xs) /\ extends h h' /\ wf h'.
Proof. exact cons_list. Qed.
Print Assumptions c10_cons_onto_list.
Theorem c10_cons_onto_atom : forall h a d o fuel,
  wf h -> h_obj h d = Some o -> is_atom o ->
  exists p h', cons fuel a d h = Ok (p, h') /\ is_dotted_list h' p [a] d /\ extends h h' /\ wf h'.
Proof. exact cons_atom. Qed.
Print Assumptions c10_cons_onto_atom.
Theorem c10_cons_onto_dotted : forall h a d xs e fuel,
  wf h -> is_dotted_list h d xs e -> (S (length xs) <= fuel)%nat ->
  exists p h', cons fuel a d h = Ok (p, h') /\ is_dotted_list h' p (a :: xs) e /\ extends h h' /\ wf h'.
Proof. exact cons_dotted. Qed.
Print Assumptions c10_cons_onto_dotted.
Theorem c10_car : forall h p c cs x xs, list_cells h p (c :: cs) (x :: xs) -> car p h = Ok (x, h).
Proof. exact car_list. Qed.
Print Assumptions c10_car.
Theorem c10_cdr : forall h p c cs x xs, wf h -> list_cells h p (c :: cs) (x :: xs) ->
  exists q h', cdr p h = Ok (q, h') /\ list_cells h' q cs xs /\ extends h h' /\ wf h' /\
    (xs = [] -> q = nil_a /\ h' = h).
Proof. exact cdr_list. Qed.
Print Assumptions c10_cdr.
Theorem c10_car_dotted : forall h p x xs d, is_dotted_list h p (x :: xs) d -> car p h = Ok (x, h).
Proof. exact car_dotted. Qed.
Print Assumptions c10_car_dotted.
Theorem c10_cdr_dotted : forall h p x d, is_dotted_list h p [x] d -> cdr p h = Ok (d, h).
Proof. exact cdr_dotted1. Qed.
Print Assumptions c10_cdr_dotted.
Theorem c10_cdr_dotted_longer : forall h p x y xs d, wf h -> is_dotted_list h p (x :: y :: xs) d ->
  exists q h', cdr p h = Ok (q, h') /\ is_dotted_list h' q (y :: xs) d /\ extends h h' /\ wf h'.
Proof. exact cdr_dotted2. Qed.
Print Assumptions c10_cdr_dotted_longer.
Theorem c10_car_cdr_of_non_pair : forall h p o, h_obj h p = Some o -> (forall c, o <> OList c) ->
  car p h = Err /\ cdr p h = Err.
Proof. exact car_nonpair. Qed.
Print Assumptions c10_car_cdr_of_non_pair.
Theorem c10_set_car_changes_one_cell : forall h p v c k,
  h_obj h p = Some (OList c) -> h_cell h c = Some k ->
  exists h', set_car p v h = Ok (none_a, h') /\
    h_cell h' c = Some (mkCell v (c_next k) (c_dotted k)) /\
    (forall d, d <> c -> h_cell h' d = h_cell h d) /\ h_obj h' = h_obj h /\ h_next h' = h_next h.
Proof. exact set_car_ok. Qed.
Print Assumptions c10_set_car_changes_one_cell.
Theorem c10_set_car_aliases : forall h p v c k,
  h_obj h p = Some (OList c) -> h_cell h c = Some k ->
  exists h', set_car p v h = Ok (none_a, h') /\
    (forall q, h_obj h q = Some (OList c) -> car q h' = Ok (v, h')) /\
    (forall q d x, h_obj h q = Some (OList d) -> d <> c -> car q h = Ok (x, h) -> car q h' = Ok (x, h')).
Proof. exact set_car_alias. Qed.
Print Assumptions c10_set_car_aliases.
Theorem c10_set_cdr_to_list : forall h p v c k n,
  h_obj h p = Some (OList c) -> h_cell h c = Some k -> h_obj h v = Some (OList n) ->
  exists h', set_cdr p v h = Ok (none_a, h') /\
    h_cell h' c = Some (mkCell (c_data k) (Some n) (c_dotted k)) /\
    (forall d, d <> c -> h_cell h' d = h_cell h d) /\ h_obj h' = h_obj h.
Proof. exact set_cdr_list. Qed.
Print Assumptions c10_set_cdr_to_list.
Theorem c10_set_cdr_to_nil : forall h p v c k,
  h_obj h p = Some (OList c) -> h_cell h c = Some k -> h_obj h v = Some ONil ->
  exists h', set_cdr p v h = Ok (none_a, h') /\
    h_cell h' c = Some (mkCell (c_data k) None (c_dotted k)) /\
    (forall d, d <> c -> h_cell h' d = h_cell h d) /\ h_obj h' = h_obj h.
Proof. exact set_cdr_nil. Qed.
Print Assumptions c10_set_cdr_to_nil.
Theorem c10_set_cdr_to_atom : forall h p v c k o,
  wf h -> h_obj h p = Some (OList c) -> h_cell h c = Some k -> h_obj h v = Some o -> is_atom o ->
  exists h', set_cdr p v h = Ok (none_a, h') /\ cdr p h' = Ok (v, h') /\
    (forall d, d <> c -> h_cell h d <> None -> h_cell h' d = h_cell h d) /\ h_obj h' = h_obj h.
Proof. exact set_cdr_atom. Qed.
Print Assumptions c10_set_cdr_to_atom.
Example c10_nonvacuous :
  wf ex_heap /\ list_cells ex_heap 11 [8; 9; 10]%nat [4; 5; 6]%nat /\
  is_dotted_list ex_heap 17 [4; 5]%nat 6%nat.
Proof. exact (conj wf_ex (conj ex_list ex_dotted)). Qed.

(** C11 *)
Theorem c11_length : forall h a xs fuel, wf h -> is_list h a xs -> (length xs <= fuel)%nat ->
  exists r h', length_prim fuel a h = Ok (r, h') /\
    h_obj h' r = Some (ONum (Z.of_nat (length xs))) /\ extends h h' /\ wf h'.
Proof. exact length_ok. Qed.
Print Assumptions c11_length.
Theorem c11_length_of_non_list : forall h a o fuel, h_obj h a = Some o ->
  (forall c, o <> OList c) -> o <> ONil -> length_prim fuel a h = Err.
Proof. exact length_nonlist. Qed.
Print Assumptions c11_length_of_non_list.
(** the code does not reject improper lists: the final cdr is counted *)
Theorem c11_length_of_dotted : forall h a xs d fuel,
  wf h -> is_dotted_list h a xs d -> (S (length xs) <= fuel)%nat ->
  exists r h', length_prim fuel a h = Ok (r, h') /\
    h_obj h' r = Some (ONum (Z.of_nat (S (length xs)))).
Proof. exact length_dotted. Qed.
Print Assumptions c11_length_of_dotted.
Example c11_nonvacuous :
  match length_prim 5 11 ex_heap with Ok (r, h') => h_obj h' r = Some (ONum 3) | _ => False end.
Proof. vm_compute. reflexivity. Qed.

(** C12 *)
Theorem c12_append : forall h args xss fuel, wf h -> Forall2 (is_list h) args xss ->
  (length (concat xss) <= fuel)%nat ->
  exists r h', append fuel args h = Ok (r, h') /\ is_list h' r (concat xss) /\ extends h h' /\ wf h'.
Proof. exact append_ok. Qed.
Print Assumptions c12_append.
(** with an improper last argument [(y ys ... . d)] the code keeps [y] and [d]
    and silently drops [ys] *)
Theorem c12_append_dotted_last_drops_middle : forall h args a xss y ys d fuel,
  wf h -> Forall2 (is_list h) args xss -> concat xss <> [] -> is_dotted_list h a (y :: ys) d ->
  (length (concat xss) + length ys + 2 <= fuel)%nat ->
  exists r h', append fuel (args ++ [a]) h = Ok (r, h') /\
    is_dotted_list h' r (concat xss ++ [y]) d /\ extends h h' /\ wf h'.
Proof. exact append_dotted_ok. Qed.
Print Assumptions c12_append_dotted_last_drops_middle.
Example c12_nonvacuous : Forall2 (is_list ex_heap) [11; 13; 1]%nat [[4; 5; 6]; [7]; []]%nat.
Proof.
  repeat constructor; [exists [8; 9; 10]%nat; exact ex_list|exists [12]%nat; exact ex_list2|].
  exists []. left. repeat split.
Qed.

(** C13 *)
Theorem c13_reverse : forall h a xs fuel, wf h -> is_list h a xs -> (length xs <= fuel)%nat ->
  exists r h' cs, reverse fuel a h = Ok (r, h') /\ list_cells h' r cs (rev xs) /\
    Forall (fresh_for h) cs /\ extends h h' /\ wf h'.
Proof. exact reverse_ok. Qed.
Print Assumptions c13_reverse.
Theorem c13_reverse_twice : forall h a xs fuel, wf h -> is_list h a xs -> (length xs <= fuel)%nat ->
  exists r h1 r2 h2, reverse fuel a h = Ok (r, h1) /\ reverse fuel r h1 = Ok (r2, h2) /\
    is_list h2 r2 xs /\ extends h h2.
Proof. exact reverse_twice. Qed.
Print Assumptions c13_reverse_twice.
Example c13_nonvacuous :
  match reverse 5 11 ex_heap with
  | Ok (r, h') => match length_prim 5 r h' with Ok (n, h2) => h_obj h2 n = Some (ONum 3) | _ => False end
  | _ => False end.
Proof. vm_compute. reflexivity. Qed.

(** C14 *)
Theorem c14_list_ref_in_range : forall h a k xs z fuel,
  is_list h a xs -> h_obj h k = Some (ONum z) -> (length xs <= fuel)%nat ->
  0 <= z < Z.of_nat (length xs) ->
  exists x, list_ref fuel a k h = Ok (x, h) /\ nth_error xs (Z.to_nat z) = Some x.
Proof. exact list_ref_in. Qed.
Print Assumptions c14_list_ref_in_range.
Theorem c14_list_ref_out_of_range : forall h a k xs z fuel,
  is_list h a xs -> h_obj h k = Some (ONum z) -> (length xs <= fuel)%nat ->
  ~ (0 <= z < Z.of_nat (length xs)) -> list_ref fuel a k h = Err.
Proof. exact list_ref_out. Qed.
Print Assumptions c14_list_ref_out_of_range.
Theorem c14_list_tail_in_range : forall h a k cs xs z fuel,
  wf h -> list_cells h a cs xs -> h_obj h k = Some (ONum z) -> (length xs <= fuel)%nat ->
  in64 z = true -> 0 <= z <= Z.of_nat (length xs) ->
  exists r h', list_tail fuel a k h = Ok (r, h') /\
    list_cells h' r (skipn (Z.to_nat z) cs) (skipn (Z.to_nat z) xs) /\ extends h h' /\ wf h'.
Proof. exact list_tail_in. Qed.
Print Assumptions c14_list_tail_in_range.
Theorem c14_list_tail_out_of_range : forall h a k xs z fuel,
  is_list h a xs -> h_obj h k = Some (ONum z) -> (length xs <= fuel)%nat ->
  in64 z = true -> Z.of_nat (length xs) < 2 ^ 63 -> ~ (0 <= z <= Z.of_nat (length xs)) ->
  list_tail fuel a k h = Err.
Proof. exact list_tail_out. Qed.
Print Assumptions c14_list_tail_out_of_range.
Theorem c14_list_head_in_range : forall h a k xs z fuel,
  wf h -> is_list h a xs -> h_obj h k = Some (ONum z) -> (length xs <= fuel)%nat ->
  in64 z = true -> 0 <= z <= Z.of_nat (length xs) ->
  exists r h' cs, list_head fuel a k h = Ok (r, h') /\
    list_cells h' r cs (firstn (Z.to_nat z) xs) /\ Forall (fresh_for h) cs /\ extends h h' /\ wf h'.
Proof. exact list_head_in. Qed.
Print Assumptions c14_list_head_in_range.
Theorem c14_list_head_out_of_range : forall h a k xs z fuel,
  wf h -> is_list h a xs -> h_obj h k = Some (ONum z) -> (length xs <= fuel)%nat ->
  in64 z = true -> Z.of_nat (length xs) < 2 ^ 63 -> ~ (0 <= z <= Z.of_nat (length xs)) ->
  list_head fuel a k h = Err.
Proof. exact list_head_out. Qed.
Print Assumptions c14_list_head_out_of_range.
Example c14_nonvacuous :
  (* index 2 (object 21), -1 (object 22), 5 (object 23) of (11 12 13) *)
  list_ref 9 11 21 ex_heap = Ok (6%nat, ex_heap) /\ list_ref 9 11 22 ex_heap = Err /\
  list_tail 9 11 22 ex_heap = Err /\ list_head 9 11 23 ex_heap = Err.
Proof. vm_compute. auto. Qed.

(** C15: false of the code for odd lengths >= 3 *)
Theorem c15_last_pair : forall h a cs xs fuel,
  wf h -> list_cells h a cs xs -> xs <> [] -> (length xs < fuel)%nat ->
  length xs = 1%nat \/ Nat.even (length xs) = true ->
  exists r h' c cs', last_pair fuel a h = Ok (r, h') /\ h_obj h' r = Some (OList c) /\
    cs = cs' ++ [c] /\ extends h h'.
Proof. exact last_pair_good. Qed.
Print Assumptions c15_last_pair.
(** the last pair of () is (), and a value that is no list has none *)
Theorem c15_last_pair_empty : forall h a fuel, h_obj h a = Some ONil -> last_pair fuel a h = Ok (nil_a, h).
Proof. intros h a fuel O. unfold last_pair. rewrite (bind_ok _ _ _ _ _ (get_ok _ _ _ O)). reflexivity. Qed.
Theorem c15_last_pair_no_list : forall h a o fuel, h_obj h a = Some o -> o <> ONil -> (forall c, o <> OList c) ->
  last_pair fuel a h = Err.
Proof.
  intros h a o fuel O N L. unfold last_pair. rewrite (bind_ok _ _ _ _ _ (get_ok _ _ _ O)).
  destruct o; try reflexivity; [congruence | exfalso; exact (L _ eq_refl)].
Qed.
Example c15_last_pair_empty_meets : last_pair 3 nil_a ex_heap = Ok (nil_a, ex_heap) /\ last_pair 3 4%nat ex_heap = Err.
Proof.
  split; [apply c15_last_pair_empty; reflexivity | apply (c15_last_pair_no_list ex_heap 4%nat _ 3 eq_refl); discriminate].
Qed.
Theorem c136_last_pair_odd_refuted : forall h a cs xs fuel,
  wf h -> list_cells h a cs xs -> (3 <= length xs)%nat -> (length xs < fuel)%nat ->
  Nat.odd (length xs) = true ->
  exists r h' c, last_pair fuel a h = Ok (r, h') /\ h_obj h' r = Some (OList c) /\
    nth_error cs ((length xs - 1) / 2) = Some c /\ ~ exists cs', cs = cs' ++ [c].
Proof. exact last_pair_bad. Qed.
Print Assumptions c136_last_pair_odd_refuted.
Theorem c15_last_pair_stops_on_circular : forall h a c,
  wf h -> h_obj h a = Some (OList c) -> circular h c ->
  exists n, forall fuel, (n <= fuel)%nat -> last_pair fuel a h = Err.
Proof. exact last_pair_circular. Qed.
Print Assumptions c15_last_pair_stops_on_circular.
Example c15_nonvacuous :
  (* (last-pair '(11 12 13)) is the sublist starting at 12 *)
  match last_pair 9 11 ex_heap with Ok (r, h') => car r h' = Ok (5%nat, h') | _ => False end /\
  last_pair 9 20 ex_heap = Err.
Proof. vm_compute. auto. Qed.

(** C16 *)
Theorem c16_list_p : forall h a o fuel,
  cells_ok h -> h_obj h a = Some o -> 10002 <= Z.of_nat fuel ->
  (forall c, o = OList c -> h_cell h c <> None) ->
  exists b, is_list_prim fuel a h = Ok (bool_a b, h) /\
    (b = true <-> exists xs, is_list h a xs /\ Z.of_nat (length xs) <= 10001).
Proof. exact is_list_prim_ok. Qed.
Print Assumptions c16_list_p.
Theorem c16_list_p_circular : forall h a c fuel,
  cells_ok h -> h_obj h a = Some (OList c) -> circular h c -> 10002 <= Z.of_nat fuel ->
  is_list_prim fuel a h = Ok (false_a, h).
Proof. exact list_p_circular. Qed.
Print Assumptions c16_list_p_circular.
Theorem c137_long_list_refuted : forall h a xs fuel,
  cells_ok h -> is_list h a xs -> 10002 <= Z.of_nat fuel -> 10001 < Z.of_nat (length xs) ->
  is_list_prim fuel a h = Ok (false_a, h).
Proof. exact list_p_long. Qed.
Print Assumptions c137_long_list_refuted.
Example c16_nonvacuous : cells_ok ex_heap /\ is_list ex_heap 11 [4; 5; 6]%nat /\ circular ex_heap 18.
Proof. split; [exact cells_ok_ex|split; [eexists; exact ex_list|exact ex_circular]]. Qed.

(** C17 *)
Theorem c17_mem_first_match : forall h x a cs xs fuel (f : addr -> bool),
  wf h -> list_cells h a cs xs -> (length xs <= fuel)%nat ->
  let outcome (r : res (addr * heap)) :=
    (forall y, In y xs -> f y = false) /\ r = Ok (false_a, h) \/
    exists i s h', first_match f xs i /\ r = Ok (s, h') /\
      list_cells h' s (skipn i cs) (skipn i xs) /\ extends h h' in
  ((forall y, In y xs -> eq_p x y h = Ok (f y, h)) -> outcome (memq fuel x a h)) /\
  ((forall y, In y xs -> eqv_list x y h = Ok (f y, h)) -> outcome (memv fuel x a h)) /\
  ((forall y, In y xs -> legacy_eq fuel x y h = Ok (f y, h)) -> outcome (member fuel x a h)).
Proof. exact mem_instances. Qed.
Print Assumptions c17_mem_first_match.
Example c17_nonvacuous :
  match memq 9 5 11 ex_heap with Ok (r, h') => h_obj h' r = Some (OList 9) | _ => False end /\
  memv 9 7 11 ex_heap = Ok (false_a, ex_heap).
Proof. vm_compute. auto. Qed.

(** C18: false of the code for every list of two or more elements *)
Theorem c18_eq_of_same_cdr_refuted : forall h p cs x y xs,
  wf h -> list_cells h p cs (x :: y :: xs) ->
  exists q1 h1 q2 h2, cdr p h = Ok (q1, h1) /\ cdr p h1 = Ok (q2, h2) /\ eq_p q1 q2 h2 = Ok (false, h2).
Proof. exact eq_cdr_twice. Qed.
Print Assumptions c18_eq_of_same_cdr_refuted.
Example c18_nonvacuous : list_cells ex_heap 11 [8; 9; 10]%nat [4; 5; 6]%nat.
Proof. exact ex_list. Qed.

(** C19 *)
Theorem c19_equal_decides_structural_equality : forall h a b x y fuel,
  wf h -> rep h a x -> rep h b y -> plain x -> plain y ->
  (2 * (dsize x + dsize y) + 1 <= fuel)%nat ->
  exists r, equal_rec fuel a b h = Ok (r, h) /\ (r = true <-> x = y).
Proof. exact equal_decides. Qed.
Print Assumptions c19_equal_decides_structural_equality.
Theorem c19_denotation_is_unique : forall h a x y, rep h a x -> rep h a y -> y = x.
Proof. exact rep_fun. Qed.
Print Assumptions c19_denotation_is_unique.
(** outside that class: with inexact numbers equal? is not transitive *)
Theorem c19_inexact_not_transitive :
  equal_rec 5 4 5 num_heap = Ok (true, num_heap) /\ equal_rec 5 5 6 num_heap = Ok (true, num_heap) /\
  equal_rec 5 4 6 num_heap = Ok (false, num_heap).
Proof. vm_compute. auto. Qed.
Print Assumptions c19_inexact_not_transitive.
Example c19_nonvacuous :
  rep dot_heap 8 (DPair dsx dsy) /\ rep dot_heap 11 (DPair dsx (DPair dsy DNil)) /\
  equal_rec 30 8 11 dot_heap = Ok (false, dot_heap).
Proof. split; [exact dot_rep1|]. split; [exact dot_rep2|]. vm_compute. reflexivity. Qed.

(** C134: the comparison behind member/assoc/hash confuses dotted pairs with lists *)
Theorem c134_dotted_confused_refuted :
  rep dot_heap 8 (DPair dsx dsy) /\ rep dot_heap 11 (DPair dsx (DPair dsy DNil)) /\
  legacy_eq 30 8 11 dot_heap = Ok (true, dot_heap) /\ equal_rec 30 8 11 dot_heap = Ok (false, dot_heap).
Proof. split; [exact dot_rep1|]. split; [exact dot_rep2|]. vm_compute. auto. Qed.
Print Assumptions c134_dotted_confused_refuted.

(** C67: cons is not total *)
Theorem c67_cons_terminates : forall h a d cs xs fuel,
  wf h -> list_cells h d cs xs -> (length xs <= fuel)%nat ->
  exists p h', cons fuel a d h = Ok (p, h').
Proof.
  exact (fun h a d cs xs fuel W L F =>
    match cons_list h a d cs xs fuel W L F with
    | ex_intro _ p (ex_intro _ h' (ex_intro _ c (conj E _))) => ex_intro _ p (ex_intro _ h' E) end).
Qed.
Print Assumptions c67_cons_terminates.
Theorem c157_cons_on_circular_refuted : forall h a d n,
  wf h -> h_obj h d = Some (OList n) -> circular h n ->
  forall fuel, cons fuel a d h = Fuel.
Proof. exact (fun h a d n W O C fuel => cons_circular h a d n fuel W O C). Qed.
Print Assumptions c157_cons_on_circular_refuted.
Example c67_nonvacuous : circular ex_heap 18 /\ h_obj ex_heap 20 = Some (OList 18).
Proof. split; [exact ex_circular|reflexivity]. Qed.
