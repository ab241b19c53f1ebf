(** C21-C22: statements about association lists.  Vocabulary: ListSpec and
    AlistSpec.  The equal?-style lookups use the comparison [legacy_eq]
    (EqModel.v); a theorem takes as hypothesis what that comparison answers on
    the keys involved ([keyed]), and [c22_atoms_are_keyed] discharges it for
    integers, characters, booleans, symbols and strings. *)
From Coq Require Import Lia.
From Verif Require Import Base NumModel HeapModel EqModel ListModel ListSpec ListProofs ListProofs2
  EqSpec EqProofs ListWitness AlistModel AlistSpec AlistProofs.

Lemma walkable_value_ok fuel h v : walkable_value fuel h v -> walkable fuel h v.
Proof.
  intros (o&O&Wk). exists o. split; auto. intros c Ho. destruct (Wk c Ho) as (cs&L&[(xs&C)|(xs&d&C)]).
  - rewrite (chain_len _ _ _ _ C) in L. destruct (last_cell_ok _ _ _ _ C c fuel eq_refl L) as (t&k&cs'&P&_). eauto.
  - rewrite (dchain_len _ _ _ _ _ C) in L. destruct (last_cell_dotted _ _ _ _ _ C c fuel eq_refl L) as (t&k&P&_). eauto.
Qed.
Lemma walkable_value_live fuel h v : walkable_value fuel h v -> forall c, h_obj h v = Some (OList c) -> h_cell h c <> None.
Proof.
  intros (o&O&Wk) c Oc. rewrite O in Oc. inversion Oc; subst. destruct (Wk c eq_refl) as (cs&L&[(xs&C)|(xs&d&C)]);
    inversion C; subst; congruence.
Qed.
Lemma legacy_atoms h a b oa ob fuel : atomic_key h a -> atomic_key h b -> h_obj h a = Some oa -> h_obj h b = Some ob ->
  legacy_eq (S fuel) a b h = Ok (same_atom oa ob, h).
Proof.
  intros (oa'&Oa&Sa&Pa) (ob'&Ob&Sb&Pb) H1 H2. assert (oa' = oa) by congruence. assert (ob' = ob) by congruence. subst.
  cbn [legacy_eq]. rewrite (bind_ok _ _ _ _ _ (get_ok _ _ _ Oa)), (bind_ok _ _ _ _ _ (get_ok _ _ _ Ob)).
  destruct oa; try discriminate; destruct ob; try discriminate; cbn -[sym_eq str_eq zlist_eqb]; try reflexivity; unfold ret; do 2 f_equal.
  - apply eq_true_iff_eq. rewrite sym_eq_spec, zlist_eqb_spec by auto. reflexivity.
  - apply eq_true_iff_eq. rewrite str_eq_spec, zlist_eqb_spec by auto. reflexivity.
Qed.
Lemma same_atom_spec o1 o2 : same_atom o1 o2 = true -> o1 = o2.
Proof.
  destruct o1, o2; cbn; try discriminate; intros H.
  - f_equal. now apply Z.eqb_eq.
  - f_equal. now apply Z.eqb_eq.
  - f_equal. now apply eqb_prop.
  - f_equal. now apply zlist_eqb_spec.
  - f_equal. now apply zlist_eqb_spec.
Qed.
(* label of an atom: index of its first occurrence among the keys *)
Fixpoint label (h : heap) (K : list addr) (a : addr) : nat :=
  match K with
  | [] => O
  | b :: r => match h_obj h a, h_obj h b with
              | Some oa, Some ob => if same_atom oa ob then O else S (label h r a)
              | _, _ => S (label h r a)
              end
  end.
Lemma label_same h K a b oa ob : h_obj h a = Some oa -> h_obj h b = Some ob ->
  oa = ob -> label h K a = label h K b.
Proof. intros A B ->. induction K; cbn; auto. rewrite A, B. destruct (h_obj h a0); [destruct (same_atom ob o)|]; auto. Qed.
Lemma label_inj h K a b oa ob : h_obj h a = Some oa -> h_obj h b = Some ob -> same_atom oa oa = true -> In a K ->
  label h K a = label h K b -> oa = ob.
Proof.
  intros A B R. induction K as [|k K IH]; cbn; [tauto|]. rewrite A, B.
  intros I. destruct (h_obj h k) as [ok|] eqn:Ek.
  - destruct (same_atom oa ok) eqn:S1, (same_atom ob ok) eqn:S2; try discriminate.
    + intros _. apply same_atom_spec in S1, S2. congruence.
    + intros H. inversion H. destruct I as [->|I]; [congruence|]. auto.
  - intros H. inversion H. destruct I as [->|I]; [congruence|]. auto.
Qed.
Lemma atoms_keyed h K fuel : (forall a, In a K -> atomic_key h a) ->
  exists den, keyed h (legacy_eq (S fuel)) K den /\
    forall a b, In a K -> In b K -> (den a = den b <-> h_obj h a = h_obj h b).
Proof.
  intros At. exists (label h K).
  assert (Iff : forall a b, In a K -> In b K -> (label h K a = label h K b <-> h_obj h a = h_obj h b)).
  { intros a b Ia Ib. destruct (At a Ia) as (oa&Oa&Ra&_), (At b Ib) as (ob&Ob&Rb&_). split.
    - intros E. rewrite Oa, Ob. f_equal. eapply label_inj; eauto.
    - intros E. eapply label_same; eauto. congruence. }
  split; auto. intros a b Ia Ib.
  destruct (At a Ia) as (oa&Oa&Ra&Pa) eqn:Ea, (At b Ib) as (ob&Ob&Rb&Pb) eqn:Eb.
  rewrite (legacy_atoms h a b oa ob) by auto. do 2 f_equal. apply eq_true_iff_eq.
  rewrite Nat.eqb_eq, Iff by auto. rewrite Oa, Ob. split.
  - intros E. f_equal. now apply same_atom_spec.
  - intros E. inversion E; subst. auto.
Qed.

(** C21.  [hit h f x]: element [x] is a pair whose key satisfies [f]. *)
Theorem c21_lookup_returns_first_match : forall h k al xs fuel (f : addr -> bool),
  is_list h al xs -> (length xs <= fuel)%nat -> (forall x, In x xs -> live h x) ->
  let result := match find (hit h f) xs with Some x => x | None => false_a end in
  ((forall x k', In x xs -> key_at h x = Some k' -> is_eq_pointer k k' h = Ok (f k', h)) ->
     assq fuel k al h = Ok (result, h)) /\
  ((forall x k', In x xs -> key_at h x = Some k' -> legacy_eq fuel k k' h = Ok (f k', h)) ->
     assoc fuel k al h = Ok (result, h) /\ assv fuel k al h = Ok (result, h)).
Proof. exact (fun h k al xs fuel f A B C => ass_all h k al xs fuel f A B C). Qed.
Print Assumptions c21_lookup_returns_first_match.
Theorem c21_assoc_ref : forall h k al xs fuel (f : addr -> bool),
  wf h -> is_list h al xs -> (length xs <= fuel)%nat -> (forall x, In x xs -> entry_ok h x) ->
  (forall x k', In x xs -> key_at h x = Some k' -> legacy_eq fuel k k' h = Ok (f k', h)) ->
  assoc_ref fuel al k h =
    Ok (match find (hit h f) xs with Some x => value_at h x | None => false_a end, h).
Proof. exact assoc_ref_ok. Qed.
Print Assumptions c21_assoc_ref.
(** a non-list is a type error for assq and assoc; assv dies on an assertion *)
Theorem c21_non_list : forall h k al o fuel, h_obj h al = Some o -> (forall c, o <> OList c) -> o <> ONil ->
  assq fuel k al h = Err /\ assoc fuel k al h = Err /\ assv fuel k al h = Abort.
Proof.
  intros h k al o fuel O N1 N2. unfold assq, assoc, assv, ass_prim.
  rewrite !(bind_ok _ _ _ _ _ (get_ok _ _ _ O)). destruct o; auto; congruence.
Qed.
Print Assumptions c21_non_list.

(** C22 *)
Theorem c22_assoc_set_replaces : forall h al k v xs fuel (f : addr -> bool),
  wf h -> is_list h al xs -> (length xs <= fuel)%nat -> (forall x, In x xs -> live h x) ->
  walkable_value fuel h v ->
  (forall x k', In x xs -> key_at h x = Some k' -> legacy_eq fuel k k' h = Ok (f k', h)) ->
  exists r h' zs, assoc_set fuel al k v h = Ok (r, h') /\ is_list h' r zs /\ extends h h' /\ wf h' /\
    if existsb (hit h f) xs
    then Forall2 (fun x y => if hit h f x then pair_of h' y k v else y = x) xs zs
    else exists y, zs = y :: xs /\ pair_of h' y k v.
Proof.
  intros h al k v xs fuel f W IL L Lv Wv Hp.
  apply set_prim_ok; auto using walkable_value_ok. intros; apply legacy_stable.
Qed.
Print Assumptions c22_assoc_set_replaces.
Theorem c22_assq_set_replaces : forall h al k v xs fuel (f : addr -> bool),
  wf h -> is_list h al xs -> (length xs <= fuel)%nat -> (forall x, In x xs -> live h x) ->
  walkable_value fuel h v ->
  (forall x k', In x xs -> key_at h x = Some k' -> is_eq_pointer k k' h = Ok (f k', h)) ->
  exists r h' zs, assq_set fuel al k v h = Ok (r, h') /\ is_list h' r zs /\ extends h h' /\ wf h' /\
    if existsb (hit h f) xs
    then Forall2 (fun x y => if hit h f x then pair_of h' y k v else y = x) xs zs
    else exists y, zs = y :: xs /\ pair_of h' y k v.
Proof.
  intros h al k v xs fuel f W IL L Lv Wv Hp.
  apply set_prim_ok; auto using walkable_value_ok. intros; apply eqptr_stable.
Qed.
Print Assumptions c22_assq_set_replaces.
(** The update law.  Full for atom values; [c138_list_value_lost_refuted] shows
    what happens to list values. *)
Theorem c22_set_then_ref : forall h al k v xs fuel K den,
  wf h -> is_list h al xs -> (S (length xs) <= fuel)%nat -> (forall x, In x xs -> entry_ok h x) ->
  In k K -> keys_in h xs K -> keyed h (legacy_eq fuel) K den ->
  (exists o, h_obj h v = Some o /\ is_atom o) ->
  exists r h', assoc_set fuel al k v h = Ok (r, h') /\ extends h h' /\ wf h' /\
    forall k2, In k2 K ->
      assoc_ref fuel r k2 h' = Ok (if Nat.eqb (den k2) (den k) then v else lookup h den xs k2, h') /\
      assoc_ref fuel al k2 h' = Ok (lookup h den xs k2, h').
Proof.
  intros h al k v xs fuel K den W IL L Ev Ik Ki Kd (o&O&At).
  assert (Wv : walkable_value fuel h v). { exists o. split; auto. intros c ->. destruct At as (A&_). exfalso. now apply (A c). }
  destruct (assoc_set_ref h al k v xs fuel K den W IL L Ev Ik Ki Kd (walkable_value_ok _ _ _ Wv) (walkable_value_live _ _ _ Wv)) as (r&h'&P&E&W'&H).
  exists r, h'. split; auto. split; auto. split; auto. intros k2 I2. destruct (H k2 I2) as (H1&H2). split; auto.
  rewrite H1. unfold read_back. rewrite O. destruct o; auto; exfalso; [now apply (proj2 At)|now apply (proj1 At c)].
Qed.
Print Assumptions c22_set_then_ref.
(** for any value, with what is really read back *)
Theorem c22_set_then_ref_any_value : forall h al k v xs fuel K den,
  wf h -> is_list h al xs -> (S (length xs) <= fuel)%nat -> (forall x, In x xs -> entry_ok h x) ->
  In k K -> keys_in h xs K -> keyed h (legacy_eq fuel) K den -> walkable_value fuel h v ->
  exists r h', assoc_set fuel al k v h = Ok (r, h') /\ extends h h' /\ wf h' /\
    forall k2, In k2 K ->
      assoc_ref fuel r k2 h' = Ok (if Nat.eqb (den k2) (den k) then read_back h v else lookup h den xs k2, h').
Proof.
  intros h al k v xs fuel K den W IL L Ev Ik Ki Kd Wv.
  destruct (assoc_set_ref h al k v xs fuel K den W IL L Ev Ik Ki Kd (walkable_value_ok _ _ _ Wv) (walkable_value_live _ _ _ Wv)) as (r&h'&P&E&W'&H).
  exists r, h'. split; auto. split; auto. split; auto. intros k2 I2. now apply H.
Qed.
Print Assumptions c22_set_then_ref_any_value.
Theorem c22_atoms_are_keyed : forall h K fuel, (forall a, In a K -> atomic_key h a) ->
  exists den, keyed h (legacy_eq (S fuel)) K den /\
    forall a b, In a K -> In b K -> (den a = den b <-> h_obj h a = h_obj h b).
Proof. exact atoms_keyed. Qed.
Print Assumptions c22_atoms_are_keyed.
Theorem c22_assoc_remove : forall h al k xs fuel f,
  wf h -> is_list h al xs -> (length xs <= fuel)%nat -> (forall x, In x xs -> live h x) ->
  (forall x k', In x xs -> key_at h x = Some k' -> legacy_eq fuel k k' h = Ok (f k', h)) ->
  exists r h', assoc_remove fuel al k h = Ok (r, h') /\ is_list h' r (remove_first (hit h f) xs) /\
    extends h h' /\ wf h'.
Proof. exact assoc_remove_ok. Qed.
Print Assumptions c22_assoc_remove.
(** acons: a list whose first element is a pair of the key and the value, and
    whose other elements are those of the given list, which is unchanged *)
Theorem c22_acons : forall h k v al xs fuel,
  wf h -> is_list h al xs -> (length xs <= fuel)%nat -> walkable_value fuel h v ->
  exists r h' y, acons fuel k v al h = Ok (r, h') /\ is_list h' r (y :: xs) /\ is_list h' al xs /\
    pair_of h' y k v /\ h_obj h y = None /\ extends h h' /\ wf h'.
Proof.
  intros h k v al xs fuel W (cs&LC) L Wk. unfold acons.
  destruct (cons_pair fuel h k v W (walkable_value_ok _ _ _ Wk)) as (y&h1&P1&E1&W1&Pr&Fy).
  rewrite (bind_ok _ _ _ _ _ P1).
  assert (Py : pair_of h1 y k v) by (eapply pair_in_of; exact Pr).
  destruct LC as [(N&->&->)|(c&O&C)].
  - assert (N1 : h_obj h1 al = Some ONil) by (apply E1; exact N).
    rewrite (bind_ok _ _ _ _ _ (get_ok _ _ _ N1)). cbv iota beta.
    rewrite (bind_ok _ _ _ _ _ (allocc_eq _ _)). rewrite wrap_some.
    set (h2 := hallocc h1 _). assert (W2 : wf h2) by now apply wf_hallocc.
    assert (E2 : extends h1 h2) by now apply extends_hallocc.
    assert (E3 : extends h2 (halloc h2 (OList (h_next h1)))) by now apply extends_halloc.
    exists (h_next h2), (halloc h2 (OList (h_next h1))), y. split; [reflexivity|]. split.
    { exists [h_next h1]. right. exists (h_next h1). split; [cbn; now rewrite upd_same|].
      apply (chain_cons _ _ (mkCell y None false) [] []); cbn; auto using chain_nil. now rewrite upd_same. }
    split. { exists []. left. split; [apply E3, E2; exact N1|auto]. }
    split. { eapply pair_of_ext; [|exact Py]. eapply extends_trans; eauto. }
    split; [exact Fy|]. split; [eapply extends_trans; [|eapply extends_trans]; eauto|now apply wf_halloc].
  - assert (O1 : h_obj h1 al = Some (OList c)) by (apply E1; exact O).
    rewrite (bind_ok _ _ _ _ _ (get_ok _ _ _ O1)). cbv iota beta.
    assert (LC1 : list_cells h1 al cs xs) by (right; exists c; split; [exact O1|eapply chain_extends; eauto]).
    destruct (cons_list h1 y al cs xs fuel W1 LC1 L) as (p&h2&c2&P2&_&L2&E2&W2).
    exists p, h2, y. split; [exact P2|]. split; [eexists; exact L2|]. split.
    { exists cs. right. exists c. split; [apply E2; exact O1|]. destruct LC1 as [(N&_)|(c'&Q1&Q2)]; [congruence|].
      assert (c' = c) by congruence. subst. eapply chain_extends; eauto. }
    split; [eapply pair_of_ext; eauto|]. split; [exact Fy|]. split; [eapply extends_trans; eauto|exact W2].
Qed.
Print Assumptions c22_acons.
Example c22_acons_nonvacuous :
  (exists r h' y, acons 9 4 7 11 ex_heap = Ok (r, h') /\ is_list h' r [y; 4; 5; 6]%nat /\ pair_of h' y 4%nat 7%nat) /\
  exists r h' y, acons 9 4 11 nil_a ex_heap = Ok (r, h') /\ is_list h' r [y] /\ pair_of h' y 4%nat 11%nat.
Proof.
  split.
  - destruct (c22_acons ex_heap 4 7 11 [4; 5; 6]%nat 9 wf_ex) as (r&h'&y&P&IL&_&Pr&_).
    + exists [8;9;10]%nat. exact ex_list.
    + cbn; lia.
    + exists (ONum 14). split; [reflexivity|discriminate].
    + exists r, h', y. auto.
  - destruct (c22_acons ex_heap 4 11 nil_a [] 9 wf_ex) as (r&h'&y&P&IL&_&Pr&_).
    + exists []. left. repeat split.
    + cbn; lia.
    + exists (OList 8). split; [reflexivity|]. intros c E. inversion E; subst. exists [8;9;10]%nat. split; [cbn; lia|].
      left. exists [4;5;6]%nat. destruct ex_list as [(A&_)|(c&A&B)]; [discriminate|]. inversion A; subst. exact B.
    + exists r, h', y. auto.
Qed.

(** ex_heap: key 11 (address 4); the list (11 12 13) at address 11. *)
Definition addr_of (r : res (addr * heap)) : option addr := match r with Ok (a, _) => Some a | _ => None end.
Example c21_c22_nonvacuous :
  (* (assoc-ref (assoc-set! (assoc-set! '() 11 12) 13 14) 11) = 12, and 14 for 13 *)
  match assoc_set 9 nil_a 4 5 ex_heap with
  | Ok (r1, h1) =>
      match assoc_set 9 r1 6 7 h1 with
      | Ok (r2, h2) => (addr_of (assoc_ref 9 r2 4 h2), addr_of (assoc_ref 9 r2 6 h2), addr_of (assoc_ref 9 r2 7 h2))
                       = (Some 5, Some 7, Some false_a)%nat
      | _ => False
      end
  | _ => False
  end.
Proof. vm_compute. reflexivity. Qed.
Example c22_hypotheses_met :
  atomic_key ex_heap 4 /\ walkable_value 9 ex_heap 11 /\
  exists r h', assoc_set 9 nil_a 4 5 ex_heap = Ok (r, h') /\ wf h' /\ (exists y, is_list h' r [y] /\ entry_ok h' y /\ key_at h' y = Some 4%nat).
Proof.
  split; [exists (ONum 11); repeat split|]. split.
  { exists (OList 8). split; auto. intros c E. inversion E; subst. exists [8;9;10]%nat. split; [cbn; lia|].
    left. exists [4;5;6]%nat. destruct ex_list as [(A&_)|(c&A&B)]; [discriminate|]. inversion A; subst. exact B. }
  destruct (c22_assoc_set_replaces ex_heap nil_a 4 5 [] 9 (fun _ => false) wf_ex) as (r&h'&zs&P&IL&E&W&R).
  - exists []. left. repeat split.
  - cbn; lia.
  - intros x [].
  - exists (ONum 12). split; auto. discriminate.
  - intros x k' [].
  - exists r, h'. split; auto. split; auto. destruct R as (y&->&Pr). exists y. split; auto.
    destruct (pair_of_key _ _ _ _ Pr) as (Q&_). split; auto.
    apply (pair_of_value _ _ _ _) in Pr; [apply Pr|]. intros c Oc.
    assert (Q1 : h_obj h' 5%nat = Some (ONum 12)) by (apply E; reflexivity). congruence.
Qed.
(** storing the list (11 12 13) under key 14 and reading it back yields 11 *)
Theorem c138_list_value_lost_refuted :
  exists h k v, wf h /\ is_list h v [4; 5; 6]%nat /\
    match assoc_set 9 nil_a k v h with
    | Ok (r, h') => addr_of (assoc_ref 9 r k h') = Some 4%nat /\ h_obj h' 4%nat = Some (ONum 11)
    | _ => False
    end.
Proof.
  exists ex_heap, 7%nat, 11%nat. split; [exact wf_ex|]. split; [exists [8;9;10]%nat; exact ex_list|].
  vm_compute. split; reflexivity.
Qed.
Print Assumptions c138_list_value_lost_refuted.
