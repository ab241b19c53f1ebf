(** C74: what eq?, eqv?, memv and assq compare; C17 and C21 with that comparison
    filled in. *)
From Coq Require Import Lia.
From Verif Require Import Base NumModel HeapModel EqModel ListModel ListSpec ListProofs ListProofs2
  EqSpec EqProofs ListWitness AlistModel AlistSpec AlistProofs ListProperties AlistProperties CompareSpec ShapeSpec ShapeProofs.

Lemma rep_obj h a x : rep h a x -> exists o, h_obj h a = Some o.
Proof. intros R; inversion R; eauto. Qed.
Ltac pairs h := repeat match goal with H1 : h_obj h ?z = Some ?u, H2 : h_obj h ?z = Some ?w |- _ =>
  rewrite H1 in H2; injection H2 as H2; try subst u; try subst w end.
Ltac differ := exists false; split; [first [reflexivity|destruct (Nat.eqb _ _); reflexivity]|]; split; [discriminate|];
  intros [Z|(Z & W)]; [congruence|unfold is_int, is_char, is_bool, is_sym in *; try discriminate Z; try contradiction; firstorder congruence].
Ltac by_iff := split; [intros ->; right; unfold is_int, is_char, is_bool, is_sym; split; eauto|intros [|([= ->] & _)]; [congruence|auto]].
Theorem c74_eq : forall h a b x y, rep h a x -> rep h b y -> plain x -> plain y ->
  exists r, eq_p a b h = Ok (r, h) /\ eqv_p a b h = Ok (r, h) /\ (r = true <-> same_or atom a b x y).
Proof.
  intros h a b x y R1 R2 P1 P2. unfold eqv_p, eq_p, same_or.
  destruct (Nat.eqb_spec a b) as [E|E]; [exists true; repeat split; auto|].
  assert (G : exists r, (let! oa := get a in let! ob := get b in
    if num_vs_float oa ob then lift (number_eq (as_num oa) (as_num ob))
    else if negb (Nat.eqb (tag oa) (tag ob)) then ret false
    else match oa, ob with
    | ONone, _ | ONil, _ => ret true
    | ONum _, _ | OFloat _, _ | ORatio _ _, _ => lift (number_eq (as_num oa) (as_num ob))
    | OChar x, OChar y => ret (x =? y)
    | OBool x, OBool y => ret (Bool.eqb x y)
    | OSym x, OSym y => ret (sym_eq x y)
    | OStr x, OStr y => ret (str_eq x y)
    | _, _ => ret false
    end) h = Ok (r, h) /\ (r = true <-> a = b \/ x = y /\ atom x)); [|destruct G as (r & G & H); exists r; auto].
  destruct (rep_obj _ _ _ R1) as (oa & Oa), (rep_obj _ _ _ R2) as (ob & Ob).
  rewrite (bind_ok _ _ _ _ _ (get_ok _ _ _ Oa)), (bind_ok _ _ _ _ _ (get_ok _ _ _ Ob)).
  inversion R1; subst; inversion R2; subst;
    repeat match goal with H1 : h_obj h ?z = Some ?u, H2 : h_obj h ?z = Some ?w |- _ => rewrite H1 in H2; injection H2 as H2; try subst u; try subst w end;
    cbn [num_vs_float tag Nat.eqb Nat.add negb as_num atom] in *;
    try (exists false; split; [reflexivity|]; split; [discriminate|intros [Z|(Z & W)]; [congruence|try discriminate Z; try contradiction]]; fail).
  all: try (exists true; split; [reflexivity|]; split; auto; fail).
  - exists (z =? z0)%Z. split; [cbn; unfold lift, number_eq; cbn; try reflexivity|]. rewrite Z.eqb_eq. split; [intros ->; auto|intros [|([= ->] & _)]; [congruence|auto]].
  - exists (c =? c0)%Z. split; [reflexivity|]. rewrite Z.eqb_eq. split; [intros ->; auto|intros [|([= ->] & _)]; [congruence|auto]].
  - exists (Bool.eqb b0 b1). split; [reflexivity|]. rewrite Bool.eqb_true_iff. split; [intros ->; auto|intros [|([= ->] & _)]; [congruence|auto]].
  - exists (sym_eq s s0). split; [reflexivity|]. rewrite sym_eq_spec by auto. split; [intros ->; auto|intros [|([= ->] & _)]; [congruence|auto]].
  - exists (str_eq s s0). split; [reflexivity|]. rewrite str_eq_spec by auto. split; [intros ->; auto|intros [|([= ->] & _)]; [congruence|auto]].
  - exists false; split; [destruct (Nat.eqb _ _); reflexivity|]; split; [discriminate|intros [Z|(Z & W)]; [congruence|contradiction]].
Qed.
Print Assumptions c74_eq.

(* memv: integers, characters and booleans by value, everything else (also the
   empty list, symbols and strings) by identity *)
Theorem c74_memv : forall h a b x y, rep h a x -> rep h b y ->
  exists r, eqv_list a b h = Ok (r, h) /\ (r = true <-> same_or (fun d => is_int d \/ is_char d \/ is_bool d) a b x y).
Proof.
  intros h a b x y R1 R2. unfold eqv_list, same_or.
  destruct (Nat.eqb_spec a b) as [E|E]; [exists true; repeat split; auto|].
  destruct (rep_obj _ _ _ R1) as (oa & Oa), (rep_obj _ _ _ R2) as (ob & Ob).
  rewrite (bind_ok _ _ _ _ _ (get_ok _ _ _ Oa)), (bind_ok _ _ _ _ _ (get_ok _ _ _ Ob)).
  inversion R1; subst; inversion R2; subst; pairs h; cbn [num_vs_float tag Nat.eqb Nat.add negb as_num] in *; try (differ; fail).
  - exists (z =? z0)%Z. split; [reflexivity|]. rewrite Z.eqb_eq. by_iff.
  - exists (c =? c0)%Z. split; [reflexivity|]. rewrite Z.eqb_eq. by_iff.
  - exists (Bool.eqb b0 b1). split; [reflexivity|]. rewrite Bool.eqb_true_iff. by_iff.
Qed.
Print Assumptions c74_memv.
(* assq and assq-set!: integers and symbols by value, everything else by identity *)
Theorem c74_assq : forall h a b x y, rep h a x -> rep h b y ->
  exists r, is_eq_pointer a b h = Ok (r, h) /\ (r = true <-> same_or (fun d => is_int d \/ is_sym d) a b x y).
Proof.
  intros h a b x y R1 R2. unfold is_eq_pointer, same_or.
  destruct (Nat.eqb_spec a b) as [E|E]; [exists true; repeat split; auto|].
  destruct (rep_obj _ _ _ R1) as (oa & Oa), (rep_obj _ _ _ R2) as (ob & Ob).
  rewrite (bind_ok _ _ _ _ _ (get_ok _ _ _ Oa)), (bind_ok _ _ _ _ _ (get_ok _ _ _ Ob)).
  inversion R1; subst; inversion R2; subst; pairs h; try (differ; fail).
  - exists (z =? z0)%Z. split; [reflexivity|]. rewrite Z.eqb_eq. by_iff.
  - exists (zlist_eqb s s0). split; [reflexivity|]. rewrite zlist_eqb_spec. by_iff.
Qed.
Print Assumptions c74_assq.
(* eq? does not tell two strings apart that have the same contents now, although
   changing one does not change the other *)
Theorem c107_strings_refuted : forall h a b s, wf h -> a <> b -> rep h a (DStr s) -> rep h b (DStr s) -> no_nul s ->
  eq_p a b h = Ok (true, h).
Proof.
  intros h a b s W N R1 R2 P. destruct (c74_eq h a b _ _ R1 R2 P P) as (r & E & _ & I). rewrite E.
  replace r with true; [reflexivity|]. symmetry. apply I. right. split; [reflexivity|exact Logic.I].
Qed.
Print Assumptions c107_strings_refuted.
(* eqv? does not tell an exact integer from the inexact number of the same value *)
Theorem c107_inexact_refuted : forall h a b z f, a <> b -> h_obj h a = Some (ONum z) -> h_obj h b = Some (OFloat f) ->
  eqv_p a b h = lift (number_eq (VInt z) (VFloat f)) h.
Proof.
  intros h a b z f N A B. unfold eqv_p, eq_p. destruct (Nat.eqb_spec a b); [congruence|].
  rewrite (bind_ok _ _ _ _ _ (get_ok _ _ _ A)), (bind_ok _ _ _ _ _ (get_ok _ _ _ B)). reflexivity.
Qed.
Print Assumptions c107_inexact_refuted.
Example c74_ex_inexact : number_eq (VInt 1) (VFloat (d_of_Z 1)) = Ok true.
Proof. vm_compute. reflexivity. Qed.

(** C17 and C21 with the comparison filled in: every list whose elements (keys)
    denote data *)
Definition ans (r : res (bool * heap)) : bool := match r with Ok (b, _) => b | _ => false end.
Definition finds (h : heap) (cs xs : list addr) (P : addr -> Prop) (r : res (addr * heap)) : Prop :=
  (forall y, In y xs -> ~ P y) /\ r = Ok (false_a, h) \/
  exists i y s h', first_with P xs i y /\ r = Ok (s, h') /\ list_cells h' s (skipn i cs) (skipn i xs) /\ extends h h'.
Lemma finds_of h cs xs (f : addr -> bool) P r : (forall y, In y xs -> (f y = true <-> P y)) ->
  ((forall y, In y xs -> f y = false) /\ r = Ok (false_a, h) \/
    exists i s h', first_match f xs i /\ r = Ok (s, h') /\
      list_cells h' s (skipn i cs) (skipn i xs) /\ extends h h') -> finds h cs xs P r.
Proof.
  intros A [(N & E)|(i & s & h' & ((y & Y & B) & C) & E & LC & X)].
  - left. split; auto. intros y I S. apply (A y I) in S. rewrite N in S; [discriminate|auto].
  - right. exists i, y, s, h'. split; [|auto]. split; [auto|]. split; [apply A; [eapply nth_error_In; eauto|auto]|].
    intros j z Lj Z S. apply (A z) in S; [|eapply nth_error_In; eauto]. rewrite (C j z Lj Z) in S. discriminate.
Qed.
Theorem c17_memq_finds : forall h x a cs xs fuel dx (den : addr -> datum),
  wf h -> list_cells h a cs xs -> (length xs <= fuel)%nat -> rep h x dx -> plain dx ->
  (forall y, In y xs -> rep h y (den y) /\ plain (den y)) ->
  finds h cs xs (fun y => same_or atom x y dx (den y)) (memq fuel x a h).
Proof.
  intros h x a cs xs fuel dx den W L F Rx Px D.
  assert (A : forall y, In y xs -> eq_p x y h = Ok (ans (eq_p x y h), h) /\ (ans (eq_p x y h) = true <-> same_or atom x y dx (den y))).
  { intros y I. destruct (D y I) as (Ry & Py). destruct (c74_eq h x y dx (den y) Rx Ry Px Py) as (r & E & _ & H). rewrite E. auto. }
  destruct (c17_mem_first_match h x a cs xs fuel (fun y => ans (eq_p x y h)) W L F) as (M & _).
  eapply finds_of; [|apply M]; intros y I; apply A; auto.
Qed.
Print Assumptions c17_memq_finds.
Theorem c17_memv_finds : forall h x a cs xs fuel dx (den : addr -> datum),
  wf h -> list_cells h a cs xs -> (length xs <= fuel)%nat -> rep h x dx ->
  (forall y, In y xs -> rep h y (den y)) ->
  finds h cs xs (fun y => same_or (fun d => is_int d \/ is_char d \/ is_bool d) x y dx (den y)) (memv fuel x a h).
Proof.
  intros h x a cs xs fuel dx den W L F Rx D.
  assert (A : forall y, In y xs -> eqv_list x y h = Ok (ans (eqv_list x y h), h) /\
    (ans (eqv_list x y h) = true <-> same_or (fun d => is_int d \/ is_char d \/ is_bool d) x y dx (den y))).
  { intros y I. destruct (c74_memv h x y dx (den y) Rx (D y I)) as (r & E & H). rewrite E. auto. }
  destruct (c17_mem_first_match h x a cs xs fuel (fun y => ans (eqv_list x y h)) W L F) as (_ & M & _).
  eapply finds_of; [|apply M]; intros y I; apply A; auto.
Qed.
Print Assumptions c17_memv_finds.
(** C20: the comparison behind member, assoc, case and equal-keyed hash tables *)
(* two objects are the same for it exactly if they have the same shape *)
Theorem c20_key_comparison : forall h a b x y fuel,
  shows h a x -> shows h b y -> (2 * (ssize x + ssize y) <= fuel)%nat ->
  exists r, legacy_eq fuel a b h = Ok (r, h) /\ (r = true <-> x = y).
Proof. exact (fun h a b x y fuel => proj1 (legacy_shape h fuel) a b x y). Qed.
Print Assumptions c20_key_comparison.
(* which for data, stored as cons stores them, is equality up to the place of the dot *)
Theorem c20_on_data : forall h a b x y fuel,
  rep h a x -> rep h b y -> plain x -> plain y -> pure_data x -> pure_data y -> cons_like h a -> cons_like h b ->
  (2 * (ssize (flatten x) + ssize (flatten y)) <= fuel)%nat ->
  exists r, legacy_eq fuel a b h = Ok (r, h) /\ (r = true <-> flatten x = flatten y).
Proof.
  intros h a b x y fuel Rx Ry Px Py Ux Uy Nx Ny L. apply c20_key_comparison; auto; now apply rep_shows.
Qed.
Print Assumptions c20_on_data.
(* and structural equality, that is equal?, between data without dots *)
Theorem c20_agrees_with_equal : forall h a b x y fuel, wf h ->
  rep h a x -> rep h b y -> plain x -> plain y -> pure_data x -> pure_data y -> cons_like h a -> cons_like h b ->
  undotted x -> undotted y ->
  (2 * (ssize (flatten x) + ssize (flatten y)) + 2 * (dsize x + dsize y) + 1 <= fuel)%nat ->
  exists r, legacy_eq fuel a b h = Ok (r, h) /\ equal_rec fuel a b h = Ok (r, h) /\ (r = true <-> x = y).
Proof.
  intros h a b x y fuel W Rx Ry Px Py Ux Uy Nx Ny Dx Dy L.
  destruct (c20_on_data h a b x y fuel Rx Ry Px Py Ux Uy Nx Ny) as (r & E & Q); [lia|].
  destruct (c19_equal_decides_structural_equality h a b x y fuel W Rx Ry Px Py) as (r' & E' & Q'); [lia|].
  assert (F : flatten x = flatten y <-> x = y) by (split; [now apply (flatten_inj (dsize x))|now intros ->]).
  exists r. rewrite F in Q. split; auto. split; auto. replace r with r'; auto. destruct r, r'; auto; destruct Q, Q'; intuition congruence.
Qed.
Print Assumptions c20_agrees_with_equal.
(* (x . y) and (x y) have one shape; the hypotheses hold of both *)
Example c20_ex : shows dot_heap 8 (SList [SSym [120]; SSym [121]]) /\ shows dot_heap 11 (SList [SSym [120]; SSym [121]]) /\
  flatten (DPair dsx dsy) = flatten (DPair dsx (DPair dsy DNil)) /\ undotted (DPair dsx (DPair dsy DNil)) /\ cons_like dot_heap 8 /\ cons_like dot_heap 11.
Proof.
  assert (NN : no_nul [120] /\ no_nul [121]) by (unfold no_nul; cbn; split; intuition discriminate). destruct NN.
  assert (X : shows dot_heap 4 (SSym [120])) by now constructor. assert (Y : shows dot_heap 5 (SSym [121])) by now constructor.
  assert (NC : forall a, cons_like dot_heap a).
  { intros a c k _ K D. destruct c as [|[|[|[|[|[|[|[|[|[|[|c]]]]]]]]]]]; try discriminate K; try (injection K as <-; discriminate D).
    - injection K as <-. repeat split; discriminate.
    - destruct c; discriminate K. }
  split; [|split; [|split; [reflexivity|split; [cbn; tauto|split; apply NC]]]].
  - eapply sh_list; [reflexivity|]. eapply sh_next; try reflexivity; [exact X|]. eapply sh_last; try reflexivity. exact Y.
  - eapply sh_list; [reflexivity|]. eapply sh_next; try reflexivity; [exact X|]. eapply sh_last; try reflexivity. exact Y.
Qed.
(** C134, continued: a list written with a dot before its rest, as in (x . (y)), which
    the reader stores in a dotted cell, is equal? to (x y) but not the same key *)
Definition wrap_heap : heap :=
  mkHeap (fun a => nth a [Some ONone; Some ONil; Some (OBool false); Some (OBool true);
                          Some (OSym [120%Z]); Some (OSym [121%Z]); Some (OList 7); None; Some (OList 9); None; None;
                          Some (OList 12)]%nat None)
         (fun a => nth a [None; None; None; None; None; None; None; Some (mkCell 5 None false); None;
                          Some (mkCell 4 (Some 10) false); Some (mkCell 6 None true); None;
                          Some (mkCell 4 (Some 13) false); Some (mkCell 5 None false)]%nat None) 14%nat.
Theorem c134_written_with_dot_refuted : exists x,
  rep wrap_heap 8 x /\ rep wrap_heap 11 x /\ equal_rec 30 8 11 wrap_heap = Ok (true, wrap_heap) /\ legacy_eq 30 8 11 wrap_heap = Ok (false, wrap_heap).
Proof.
  exists (DPair dsx (DPair dsy DNil)). split; [|split; [|split; vm_compute; reflexivity]].
  - eapply rep_pair; [reflexivity|]. eapply rep_dot; try reflexivity; [now apply rep_sym|].
    eapply rep_pair; [reflexivity|]. eapply rep_last; try reflexivity. now apply rep_sym.
  - eapply rep_pair; [reflexivity|]. eapply rep_next; try reflexivity; [now apply rep_sym|]. eapply rep_last; try reflexivity. now apply rep_sym.
Qed.
Print Assumptions c134_written_with_dot_refuted.
Theorem c17_member_finds : forall h x a cs xs fuel sx (sh : addr -> shape),
  wf h -> list_cells h a cs xs -> (length xs <= fuel)%nat -> shows h x sx ->
  (forall y, In y xs -> shows h y (sh y) /\ (2 * (ssize sx + ssize (sh y)) <= fuel)%nat) ->
  finds h cs xs (fun y => sx = sh y) (member fuel x a h).
Proof.
  intros h x a cs xs fuel sx sh W L F Sx D.
  assert (A : forall y, In y xs -> legacy_eq fuel x y h = Ok (ans (legacy_eq fuel x y h), h) /\ (ans (legacy_eq fuel x y h) = true <-> sx = sh y)).
  { intros y I. destruct (D y I) as (Sy & G). destruct (c20_key_comparison h x y sx (sh y) fuel Sx Sy G) as (r & E & H). rewrite E. auto. }
  destruct (c17_mem_first_match h x a cs xs fuel (fun y => ans (legacy_eq fuel x y h)) W L F) as (_ & _ & M).
  eapply finds_of; [|apply M]; intros y I; apply A; auto.
Qed.
Print Assumptions c17_member_finds.
(** [key h x k]: the entry [x] has the key [k]. *)
Definition matching (h : heap) (P : addr -> Prop) (x : addr) : Prop := exists k, key_at h x = Some k /\ P k.
Definition found (h : heap) (xs : list addr) (P : addr -> Prop) (r : res (addr * heap)) : Prop :=
  (forall y, In y xs -> ~ matching h P y) /\ r = Ok (false_a, h) \/
  exists i y, first_with (matching h P) xs i y /\ r = Ok (y, h).
Lemma find_first (g : addr -> bool) xs : match find g xs with
  | Some y => exists i, nth_error xs i = Some y /\ g y = true /\ forall j z, (j < i)%nat -> nth_error xs j = Some z -> g z = false
  | None => forall y, In y xs -> g y = false end.
Proof.
  induction xs as [|x xs IH]; [intros y []|]. cbn [find]. destruct (g x) eqn:G.
  - exists O. repeat split; auto. intros j z L. lia.
  - destruct (find g xs).
    + destruct IH as (i & I & T & B). exists (S i). split; [auto|]. split; [auto|]. intros [|j] z L Z; [cbn in Z; congruence|]. apply (B j); [lia|auto].
    + intros y [<-|I]; auto.
Qed.
Lemma found_of h xs (f : addr -> bool) P : (forall x k, In x xs -> key_at h x = Some k -> (f k = true <-> P k)) ->
  found h xs P (Ok (match find (hit h f) xs with Some x => x | None => false_a end, h)).
Proof.
  intro A. pose proof (find_first (hit h f) xs) as FF.
  assert (Hh : forall y, In y xs -> (hit h f y = true <-> matching h P y)).
  { intros y I. unfold hit, matching. destruct (key_at h y) as [k|] eqn:K; [|split; [discriminate|intros (? & ? & _); discriminate]].
    rewrite (A y k I K). split; [eauto|intros (k' & [= <-] & X); auto]. }
  destruct (find (hit h f) xs) as [y|].
  - destruct FF as (i & I & T & B). right. exists i, y. split; [|auto]. split; [auto|]. split; [apply Hh; [eapply nth_error_In; eauto|auto]|].
    intros j z L Z M. apply Hh in M; [|eapply nth_error_In; eauto]. rewrite (B j z L Z) in M. discriminate.
  - left. split; [|auto]. intros y I M. apply Hh in M; auto. rewrite FF in M by auto. discriminate.
Qed.
Theorem c21_assq_finds : forall h k al xs fuel dk (den : addr -> datum),
  is_list h al xs -> (length xs <= fuel)%nat -> (forall x, In x xs -> live h x) -> rep h k dk ->
  (forall x k', In x xs -> key_at h x = Some k' -> rep h k' (den k')) ->
  found h xs (fun k' => same_or (fun d => is_int d \/ is_sym d) k k' dk (den k')) (assq fuel k al h).
Proof.
  intros h k al xs fuel dk den L F LV R D.
  assert (A : forall x k', In x xs -> key_at h x = Some k' -> is_eq_pointer k k' h = Ok (ans (is_eq_pointer k k' h), h) /\
    (ans (is_eq_pointer k k' h) = true <-> same_or (fun d => is_int d \/ is_sym d) k k' dk (den k'))).
  { intros x k' I K. destruct (c74_assq h k k' dk (den k') R (D x k' I K)) as (r & E & H). rewrite E. auto. }
  destruct (c21_lookup_returns_first_match h k al xs fuel (fun k' => ans (is_eq_pointer k k' h)) L F LV) as (M & _).
  rewrite M; [|intros; eapply A; eauto]. apply found_of. intros. eapply A; eauto.
Qed.
Print Assumptions c21_assq_finds.
Theorem c21_assoc_finds : forall h k al xs fuel sk (sh : addr -> shape),
  is_list h al xs -> (length xs <= fuel)%nat -> (forall x, In x xs -> live h x) -> shows h k sk ->
  (forall x k', In x xs -> key_at h x = Some k' -> shows h k' (sh k') /\ (2 * (ssize sk + ssize (sh k')) <= fuel)%nat) ->
  found h xs (fun k' => sk = sh k') (assoc fuel k al h) /\ found h xs (fun k' => sk = sh k') (assv fuel k al h).
Proof.
  intros h k al xs fuel sk sh L F LV S D.
  assert (A : forall x k', In x xs -> key_at h x = Some k' -> legacy_eq fuel k k' h = Ok (ans (legacy_eq fuel k k' h), h) /\
    (ans (legacy_eq fuel k k' h) = true <-> sk = sh k')).
  { intros x k' I K. destruct (D x k' I K) as (S' & G). destruct (c20_key_comparison h k k' sk (sh k') fuel S S' G) as (r & E & H). rewrite E. auto. }
  destruct (c21_lookup_returns_first_match h k al xs fuel (fun k' => ans (legacy_eq fuel k k' h)) L F LV) as (_ & M).
  destruct M as (M1 & M2); [intros; eapply A; eauto|]. rewrite M1, M2. split; apply found_of; intros; eapply A; eauto.
Qed.
Print Assumptions c21_assoc_finds.
(* an association list of dotted pairs: ((x . y)) at 10 *)
Definition pair_heap : heap :=
  mkHeap (fun a => nth a [Some ONone; Some ONil; Some (OBool false); Some (OBool true);
                          Some (OSym [120%Z]); Some (OSym [121%Z]); None; None; Some (OList 6); None; Some (OList 9)]%nat None)
         (fun a => nth a [None; None; None; None; None; None;
                          Some (mkCell 4 (Some 7) false); Some (mkCell 5 None true); None; Some (mkCell 8 None false)]%nat None) 11%nat.
Example c21_ex_dotted_entries : found pair_heap [8%nat] (fun k' => SSym [120] = SSym [120]) (assoc 20 4 10 pair_heap) /\ assoc 20 4 10 pair_heap = Ok (8%nat, pair_heap).
Proof.
  assert (X : shows pair_heap 4 (SSym [120])) by (constructor; [reflexivity|unfold no_nul; cbn; intuition discriminate]).
  split; [|vm_compute; reflexivity].
  apply (c21_assoc_finds pair_heap 4 10 [8%nat] 20 (SSym [120]) (fun _ => SSym [120])); auto; [|cbn; lia| |].
  - exists [9%nat]. right. exists 9%nat. split; [reflexivity|]. apply (chain_cons pair_heap 9 (mkCell 8 None false)); [reflexivity|reflexivity|constructor].
  - intros x [<-|[]]. eexists. split; [reflexivity|]. intros c [= <-]. discriminate.
  - intros x k' [<-|[]] K. vm_compute in K. injection K as <-. split; [exact X|cbn; lia].
Qed.
Definition two_strings : heap := mkHeap (fun a => nth a [Some ONone; Some ONil; Some (OBool false); Some (OBool true); Some (OStr [97; 98]); Some (OStr [97; 98])] None) (fun _ => None) 6%nat.
Example c74_ex1 : rep two_strings 4 (DStr [97; 98]) /\ rep two_strings 5 (DStr [97; 98]) /\ eq_p 4 5 two_strings = Ok (true, two_strings).
Proof. split; [now constructor|]. split; [now constructor|]. vm_compute. reflexivity. Qed.
Example c17_ex_finds : exists i y s h', first_with (fun y => same_or atom 5%nat y (DInt 12) (if Nat.eqb y 4 then DInt 11 else if Nat.eqb y 5 then DInt 12 else DInt 13)) [4; 5; 6]%nat i y /\ memq 9 5 11 ex_heap = Ok (s, h').
Proof.
  exists 1%nat, 5%nat. eexists _, _. split; [|vm_compute; reflexivity]. split; [reflexivity|]. split; [now left|].
  intros j z L Z. destruct j; [|lia]. injection Z as <-. intros [E|(E & _)]; discriminate.
Qed.
(* C22 for all data as keys: the comparison of assoc-set! and assoc-ref behaves as
   equality of labels, and two keys have one label exactly if they have one shape *)
Fixpoint label_of (p : addr -> bool) (K : list addr) (n : nat) : nat :=
  match K with [] => n | k :: r => if p k then n else label_of p r (S n) end.
Lemma label_ge p K : forall n, (n <= label_of p K n)%nat.
Proof. induction K as [|k K IH]; cbn; intro n; [lia|]. destruct (p k); [lia|]. specialize (IH (S n)). lia. Qed.
Lemma label_ext p q K : (forall k, In k K -> p k = q k) -> forall n, label_of p K n = label_of q K n.
Proof. induction K as [|k K IH]; cbn; intros H n; auto. rewrite (H k) by auto. destruct (q k); auto. Qed.
Lemma label_inj2 p q K : forall n, (exists k, In k K /\ p k = true) -> label_of p K n = label_of q K n -> exists k, In k K /\ p k = true /\ q k = true.
Proof.
  induction K as [|k K IH]; cbn; intros n (z & I & P) E; [contradiction|].
  destruct (p k) eqn:Pk, (q k) eqn:Qk.
  - exists k. auto.
  - pose proof (label_ge q K (S n)). lia.
  - pose proof (label_ge p K (S n)). lia.
  - destruct I as [<-|I]; [congruence|]. destruct (IH (S n)) as (y & A & B & C); eauto.
Qed.
Theorem c22_data_are_keyed : forall h K fuel (sh : addr -> shape),
  (forall a b, In a K -> In b K -> shows h a (sh a) /\ (2 * (ssize (sh a) + ssize (sh b)) <= fuel)%nat) ->
  exists den, keyed h (legacy_eq fuel) K den /\ forall a b, In a K -> In b K -> (den a = den b <-> sh a = sh b).
Proof.
  intros h K fuel sh D.
  assert (A : forall a b, In a K -> In b K -> legacy_eq fuel a b h = Ok (ans (legacy_eq fuel a b h), h) /\
    (ans (legacy_eq fuel a b h) = true <-> sh a = sh b)).
  { intros a b Ia Ib. destruct (D a b Ia Ib) as (S1 & G). destruct (D b b Ib Ib) as (S2 & _).
    destruct (c20_key_comparison h a b (sh a) (sh b) fuel S1 S2 G) as (r & E & H). rewrite E. auto. }
  exists (fun a => label_of (fun b => ans (legacy_eq fuel a b h)) K 0).
  assert (L : forall a b, In a K -> In b K -> (label_of (fun c => ans (legacy_eq fuel a c h)) K 0 = label_of (fun c => ans (legacy_eq fuel b c h)) K 0 <-> sh a = sh b)).
  { intros a b Ia Ib. split; intro E.
    - apply label_inj2 in E; [|exists a; split; auto; now apply (A a a Ia Ia)].
      destruct E as (k & Ik & Pa & Pb). apply (A a k Ia Ik) in Pa. apply (A b k Ib Ik) in Pb. congruence.
    - apply label_ext. intros k Ik. apply eq_true_iff_eq. destruct (A a k Ia Ik) as (_ & ->), (A b k Ib Ik) as (_ & ->). now rewrite E. }
  split; auto. intros a b Ia Ib. destruct (A a b Ia Ib) as (-> & H). do 2 f_equal. apply eq_true_iff_eq. rewrite Nat.eqb_eq, L, H by auto. reflexivity.
Qed.
Print Assumptions c22_data_are_keyed.
