(** C23, C24, C68: statements about hash tables.  Vocabulary: HashSpec.
    [pa] is the machine address of each object: everything holds for every
    assignment of addresses. *)
From Coq Require Import Lia.
From Verif Require Import Base NumModel HeapModel EqModel ListModel ListSpec ListProofs ListProofs2 EqSpec EqProofs
  ListWitness AlistModel AlistProofs HashModel HashSpec HashProofs.

(** C23: make-hash-table gives the empty map, for every capacity *)
Theorem c23_make : forall fam pa h sz z,
  wf h -> h_obj h sz = Some (ONum z) -> 0 <= z ->
  exists t h', make_hash_table (Some sz) h = Ok (t, h') /\ wf h' /\ extends h h' /\
    table fam pa h' t m_empty.
Proof.
  intros fam pa h sz z W O L. unfold make_hash_table. rewrite (bind_ok _ _ _ _ _ (get_ok _ _ _ O)). cbv iota beta.
  destruct (Z.ltb_spec z 0); [lia|]. destruct (Z.eqb_spec z 0); rewrite alloc_eq; do 2 eexists.
  - split; [reflexivity|]. split; [now apply wf_halloc|]. split; [now apply extends_halloc|]. apply fresh_table; auto. lia.
  - split; [reflexivity|]. split; [now apply wf_halloc|]. split; [now apply extends_halloc|]. apply fresh_table; auto. lia.
Qed.
Print Assumptions c23_make.
Theorem c23_make_default : forall fam pa h, wf h ->
  exists t h', make_hash_table None h = Ok (t, h') /\ wf h' /\ extends h h' /\ table fam pa h' t m_empty.
Proof.
  intros fam pa h W. unfold make_hash_table. rewrite alloc_eq. do 2 eexists.
  split; [reflexivity|]. split; [now apply wf_halloc|]. split; [now apply extends_halloc|]. apply fresh_table; auto. lia.
Qed.
Print Assumptions c23_make_default.
(** ... except negative ones, which the code does not check *)
Theorem c100_negative_capacity_refuted : forall h sz z,
  h_obj h sz = Some (ONum z) -> z < 0 -> make_hash_table (Some sz) h = UB.
Proof.
  intros h sz z O L. unfold make_hash_table. rewrite (bind_ok _ _ _ _ _ (get_ok _ _ _ O)). cbv iota beta.
  destruct (Z.ltb_spec z 0); [reflexivity|lia].
Qed.
Print Assumptions c100_negative_capacity_refuted.
(** every history of operations, in each of the three families, answers like
    the finite map and leaves a table holding the resulting map *)
Theorem c23_history_refines_map : forall fam fuel pa t ops h m,
  wf h -> table fam pa h t m ->
  Forall (fun p => op_ok fam fuel h (fst p) (snd p)) ops ->
  exists xs h', do_ops fam fuel pa t (map fst ops) h = Ok (xs, h') /\ wf h' /\
    table fam pa h' t (fst (spec_run m ops)) /\ Forall2 (obs_ok fam h') xs (snd (spec_run m ops)).
Proof.
  intros fam fuel pa t ops h m W T F. destruct (do_ops_ok fam fuel pa t ops h m W T F) as (xs&h'&P&W'&_&T'&O). eauto 6.
Qed.
Print Assumptions c23_history_refines_map.
Theorem c23_size_counts_keys : forall fam pa h t m, table fam pa h t m ->
  exists bs sz ks, h_obj h t = Some (OHash bs sz) /\ sz = Z.of_nat (length ks) /\ NoDup ks /\
    forall c, In c ks <-> m c <> None.
Proof. exact table_size. Qed.
Print Assumptions c23_size_counts_keys.
(** unrelated allocation does not disturb a table *)
Theorem c23_stable_under_allocation : forall fam pa h h' t m, extends h h' -> table fam pa h t m -> table fam pa h' t m.
Proof.
  intros fam pa h h' t m E T. apply table_tinv in T. destruct T as (ess&sz&T&R). apply table_tinv. exists ess, sz.
  split; auto. eapply tinv_extends; eauto.
Qed.
Print Assumptions c23_stable_under_allocation.
(** hash-fold visits each binding exactly once *)
Theorem c23_fold_visits_each_binding_once : forall fam pa h t m, table fam pa h t m ->
  exists kvs cks, hash_fold_visits t h = Ok (kvs, h) /\
    Forall2 (fun kv c => key_in fam h (fst kv) c /\ m c = Some (snd kv)) kvs cks /\ NoDup cks /\
    forall c, In c cks <-> m c <> None.
Proof. exact fold_visits_ok. Qed.
Print Assumptions c23_fold_visits_each_binding_once.
(** the table argument is checked *)
Theorem c23_not_a_table : forall fam fuel pa h t o k v, h_obj h t = Some o -> (forall b s, o <> OHash b s) ->
  hash_set fam fuel pa t k v h = Err /\ hash_ref fam fuel pa t k h = Err /\ hash_remove fam fuel pa t k h = Err /\
  hash_get_handle fam fuel pa t k h = Err /\ hash_create_handle fam fuel pa t k v h = Err.
Proof.
  intros fam fuel pa h t o k v O N.
  assert (L : locate fam fuel pa t k h = Err).
  { unfold locate. rewrite (bind_ok _ _ _ _ _ (get_ok _ _ _ O)). destruct o; auto. exfalso. eapply N; eauto. }
  assert (B : forall T (f : _ -> M T), mbind (locate fam fuel pa t k) f h = Err) by (intros; unfold mbind; now rewrite L).
  unfold hash_set, hash_ref, hash_remove, hash_get_handle, hash_create_handle. repeat split; apply B.
Qed.
Print Assumptions c23_not_a_table.
(** on symbols the hashq- and hash- families use the same hash and the same
    comparison, so they can be mixed on one table *)
Theorem c23_symbol_keys_can_be_mixed : forall fuel pa h a b s1 s2,
  h_obj h a = Some (OSym s1) -> h_obj h b = Some (OSym s2) -> ~ In 0 s1 -> ~ In 0 s2 ->
  hash_code Feq (S fuel) pa a h = hash_code Fequal (S fuel) pa a h /\
  cmp Feq (S fuel) a b h = cmp Fequal (S fuel) a b h /\
  cmp Feq (S fuel) a b h = Ok (if list_eq_dec Z.eq_dec s1 s2 then true else false, h).
Proof.
  intros fuel pa h a b s1 s2 A B N1 N2.
  assert (Ka : key_in Feq h a (KSym s1)) by (exists (OSym s1); auto).
  assert (Kb : key_in Feq h b (KSym s2)) by (exists (OSym s2); auto).
  assert (Ka' : key_in Fequal h a (KData (HSym s1))) by (exists (HSym s1); split; auto; constructor; auto).
  assert (Kb' : key_in Fequal h b (KData (HSym s2))) by (exists (HSym s2); split; auto; constructor; auto).
  rewrite (hash_code_ok Feq (S fuel) pa h a _ Ka), (hash_code_ok Fequal (S fuel) pa h a _ Ka') by (cbn; lia).
  rewrite (cmp_ok Feq (S fuel) h a b _ _ Ka Kb), (cmp_ok Fequal (S fuel) h a b _ _ Ka' Kb') by (cbn; lia).
  split; [reflexivity|]. unfold ceqb. split.
  - destruct (ckey_eq_dec _ _), (ckey_eq_dec _ _); auto; congruence.
  - destruct (ckey_eq_dec _ _), (list_eq_dec _ _ _); auto; congruence.
Qed.
Print Assumptions c23_symbol_keys_can_be_mixed.

(** sz = 2 at address 21 in ex_heap: a table of capacity 2; keys 11 12 13 *)
Definition vals (r : res (list hobs * heap)) : option (list hobs) := match r with Ok (x, _) => Some x | _ => None end.
Example c23_nonvacuous :
  match make_hash_table (Some 21%nat) ex_heap with
  | Ok (t, h) =>
      vals (do_ops Feqv 9 Z.of_nat t [HSet 4 5; HSet 5 6; HSet 6 7; HSet 5 4; HRef 5; HRemove 4; HRef 4; HHandle 6] h)
      = Some [ObVal 5; ObVal 6; ObVal 7; ObVal 4; ObVal 4; ObVal none_a; ObVal false_a; ObPair 6 7]%nat
  | _ => False
  end.
Proof. vm_compute. reflexivity. Qed.
Example c23_hypotheses_met : forall fam pa,
  wf ex_heap /\
  (fam <> Fequal -> op_ok fam 20 ex_heap (HSet 4 5) (canon fam (ONum 11) 4)) /\
  op_ok Fequal 20 ex_heap (HCreate 11 5) (KData (HCons (HNum 11) (HCons (HNum 12) (HCons (HNum 13) HNil)))) /\
  exists t h, make_hash_table None ex_heap = Ok (t, h) /\ table fam pa h t m_empty.
Proof.
  intros fam pa. split; [exact wf_ex|]. split; [|split].
  - intros N. split; [|split; [destruct fam; cbn; lia|exact I]]. destruct fam; [..|congruence]; exists (ONum 11); auto.
  - split; [|split; [cbn; lia|exists (ONum 12); repeat split; congruence]].
    eexists. split; [|reflexivity]. eapply hr_list; [reflexivity|].
    repeat (eapply hc_cons; [reflexivity|reflexivity|constructor; reflexivity|]). constructor.
  - destruct (c23_make_default fam pa ex_heap wf_ex) as (t&h&P&_&_&T). eauto.
Qed.

(** C24: an equal key finds the value, whatever happened before: keys are
    symbols, strings, integers, booleans, () and nested proper lists of those. *)
Fixpoint datum_of (x : hkey) : datum :=
  match x with
  | HSym s => DSym s | HStr s => DStr s | HNum z => DInt z | HBool b => DBool b
  | HNil => DNil | HCons a d => DPair (datum_of a) (datum_of d)
  end.
Lemma datum_of_inj x : forall y, datum_of x = datum_of y -> x = y.
Proof. induction x; intros []; cbn; intros E; inversion E; f_equal; auto. Qed.
Lemma hrep_rep h : (forall a x, hrep h a x -> rep h a (datum_of x) /\ plain (datum_of x)) /\
  (forall l x, hchain h l x -> forall c u d, l = Some c -> x = HCons u d ->
     rep_cell h c (datum_of u) (datum_of d) /\ plain (datum_of u) /\ plain (datum_of d)).
Proof.
  apply hrep_hchain_ind; cbn [datum_of plain]; intros; try (split; [constructor; auto|auto]; fail).
  - destruct (H1 c x d eq_refl eq_refl) as (A&B&C). split; auto. econstructor; eauto.
  - discriminate.
  - inversion H5; inversion H6; subst. destruct H2 as (A&B). destruct d0 as [| | | | |u' d'].
    1-4: exfalso; inversion H3.
    + split; [|split; cbn; auto]. inversion H3 as [HN|]; subst. eapply rep_last; eauto.
    + inversion H3 as [|c1 k1 x1 d1 K1 D1 R1 C1 HN]; subst. symmetry in HN.
      destruct (H4 c1 u' d' HN eq_refl) as (A1&A2&A3). split; [|split; cbn; auto].
      cbn [datum_of]. eapply rep_next; eauto.
Qed.
(** "equal?" on such keys is sameness of the key *)
Theorem c24_equal_is_same_key : forall h a b x y fuel,
  wf h -> hrep h a x -> hrep h b y -> (2 * (dsize (datum_of x) + dsize (datum_of y)) + 1 <= fuel)%nat ->
  exists r, equal_rec fuel a b h = Ok (r, h) /\ (r = true <-> x = y).
Proof.
  intros h a b x y fuel W Ra Rb L. destruct (proj1 (hrep_rep h) _ _ Ra), (proj1 (hrep_rep h) _ _ Rb).
  destruct (equal_decides h a b _ _ fuel W H H1 H0 H2 L) as (r&P&E). exists r. split; auto. rewrite E. split; [apply datum_of_inj|congruence].
Qed.
Print Assumptions c24_equal_is_same_key.
Theorem c24_equal_key_found : forall fuel pa t ops h m k1 k2 v x,
  wf h -> table Fequal pa h t m ->
  Forall (fun p => op_ok Fequal fuel h (fst p) (snd p)) ops ->
  hrep h k1 x -> hrep h k2 x -> (hsize x <= fuel)%nat ->
  exists xs r h', do_ops Fequal fuel pa t (map fst ops ++ [HSet k1 v; HRef k2]) h = Ok (xs ++ [ObVal v; ObVal r], h') /\ r = v.
Proof.
  intros fuel pa t ops h m k1 k2 v x W T F R1 R2 L.
  set (more := [(HSet k1 v, KData x); (HRef k2, KData x)]).
  destruct (do_ops_ok Fequal fuel pa t (ops ++ more) h m W T) as (xs&h'&P&_&_&_&Ob).
  { apply Forall_app. split; auto. constructor; [|constructor; [|constructor]]; (split; [exists x; auto|split; [exact L|exact I]]). }
  rewrite map_app in P. cbn [map fst more] in P.
  assert (S : forall ops m, exists m' rs, spec_run m (ops ++ more) = (m', rs ++ [RVal v; RVal v]) ).
  { clear. induction ops as [|(op,ck) ops IH]; intros m.
    - cbn. unfold m_set at 2. destruct (ckey_eq_dec _ _); [|congruence]. eexists. exists []. reflexivity.
    - cbn. destruct (spec_step m ck op) as (m1,r1). destruct (IH m1) as (m'&rs&E). rewrite E. exists m', (r1 :: rs). reflexivity. }
  destruct (S ops m) as (m'&rs&E). rewrite E in Ob. cbn [snd] in Ob.
  apply Forall2_app_inv_r in Ob. destruct Ob as (xs1&xs2&_&O2&->).
  inversion O2 as [|a1 ? l1 ? Q1 O3]; subst. inversion O3 as [|a2 ? l2 ? Q2 O4]; subst. inversion O4; subst.
  destruct a1; cbn in Q1; try tauto. destruct a2; cbn in Q2; try tauto. subst.
  exists xs1, v, h'. auto.
Qed.
Print Assumptions c24_equal_key_found.
(** False in general: characters (like vectors and inexact numbers) are hashed
    by address.  Two equal characters at addresses falling into different
    buckets: *)
Theorem c139_equal_char_not_found_refuted : forall pa h k1 k2 v c fuel,
  wf h -> h_obj h k1 = Some (OChar c) -> h_obj h k2 = Some (OChar c) -> h_obj h v <> None ->
  u64 (pa k1) mod 31 <> u64 (pa k2) mod 31 ->
  equal_rec (S fuel) k1 k2 h = Ok (true, h) /\
  exists t h1 h2, make_hash_table None h = Ok (t, h1) /\ hash_set Fequal fuel pa t k1 v h1 = Ok (v, h2) /\
    hash_ref Fequal fuel pa t k2 h2 = Ok (false_a, h2).
Proof.
  intros pa h k1 k2 v c fuel W O1 O2 Ov D. split.
  - cbn [equal_rec]. destruct (Nat.eqb k1 k2); [reflexivity|].
    rewrite (bind_ok _ _ _ _ _ (get_ok _ _ _ O1)), (bind_ok _ _ _ _ _ (get_ok _ _ _ O2)). cbn. now rewrite Z.eqb_refl.
  - unfold make_hash_table. rewrite alloc_eq. set (h1 := halloc h _). set (t := h_next h).
    assert (E : extends h h1) by now apply extends_halloc. assert (W1 : wf h1) by now apply wf_halloc.
    assert (Ot : h_obj h1 t = Some (OHash (repeat [] 31) 0)) by (cbn; now rewrite upd_same).
    assert (HC : forall k h', h_obj h' k = Some (OChar c) -> hash_code Fequal fuel pa k h' = Ok (u64 (pa k), h')).
    { intros k h' O. cbn [hash_code]. unfold hash_equal. rewrite (bind_ok _ _ _ _ _ (get_ok _ _ _ O)). cbv iota beta.
      unfold hash_eq. rewrite (bind_ok _ _ _ _ _ (get_ok _ _ _ O)). reflexivity. }
    set (i1 := Z.to_nat (u64 (pa k1) mod 31)). set (i2 := Z.to_nat (u64 (pa k2) mod 31)).
    assert (Li : (i1 < 31)%nat) by (unfold i1; pose proof (Z.mod_pos_bound (u64 (pa k1)) 31); lia).
    assert (Ni : i2 <> i1) by (unfold i1, i2; pose proof (Z.mod_pos_bound (u64 (pa k1)) 31); pose proof (Z.mod_pos_bound (u64 (pa k2)) 31); lia).
    assert (L1 : locate Fequal fuel pa t k1 h1 = Ok ((repeat [] 31, 0, i1), h1)).
    { unfold locate. rewrite (bind_ok _ _ _ _ _ (get_ok _ _ _ Ot)). cbv iota beta.
      rewrite (bind_ok _ _ _ _ _ (HC k1 h1 (proj1 E _ _ O1))). reflexivity. }
    assert (Nr : forall i, nth i (repeat (@nil addr) 31) [] = []) by (intros; apply nth_repeat_nil).
    assert (Nt2 : k2 <> t) by (intros ->; apply (wf_obj_lt _ _ _ W) in O2; unfold t in O2; lia).
    eexists t, h1, _. split; [reflexivity|]. split.
    { unfold hash_set. rewrite (bind_ok _ _ _ _ _ L1). cbv iota beta. rewrite Nr.
      erewrite bind_ok; [|reflexivity]. cbv iota beta. unfold insert_entry.
      erewrite bind_ok; [reflexivity|].
      rewrite (bind_ok _ _ _ _ _ (allocc_eq _ _)). rewrite (bind_ok _ _ _ _ _ (allocc_eq _ _)).
      erewrite bind_ok; [rewrite wrap_some; reflexivity|].
      unfold seto. cbn [h_obj hallocc]. rewrite Ot. reflexivity. }
    rewrite Nr. unfold hash_ref. erewrite bind_ok.
    2:{ unfold locate. erewrite bind_ok; [|apply get_ok; cbn [h_obj halloc hallocc h_next];
          rewrite upd_other by (unfold t, h1; cbn; lia); rewrite upd_same; reflexivity].
        cbv iota beta. erewrite bind_ok; [|apply HC; cbn [h_obj halloc hallocc h_next]].
        2:{ pose proof (wf_obj_lt _ _ _ W O2) as Lt. repeat rewrite upd_other by (unfold t, h1; cbn; lia). exact (proj1 E _ _ O2). }
        rewrite set_nth_length. reflexivity. }
    cbv iota beta. fold i2. change (Z.to_nat (u64 (pa k2) mod Z.of_nat (length (repeat (@nil addr) 31)))) with i2.
    rewrite set_nth_nth by (cbn; lia). destruct (Nat.eqb_spec i2 i1); [congruence|]. rewrite Nr. reflexivity.
Qed.
Print Assumptions c139_equal_char_not_found_refuted.
Example c24_refuted_nonvacuous :
  let h := halloc (halloc empty_heap (OChar 97)) (OChar 97) in
  wf h /\ h_obj h 4%nat = Some (OChar 97) /\ h_obj h 5%nat = Some (OChar 97) /\
  u64 (Z.of_nat 4) mod 31 <> u64 (Z.of_nat 5) mod 31.
Proof. cbv zeta. split; [apply wf_halloc, wf_halloc, wf_empty|]. repeat split. vm_compute. discriminate. Qed.

(** C68: hashq agrees with eq?, hashv with eqv? -- on part of the keys *)
Theorem c68_hashq_symbols : forall h a b s1 s2 fuel,
  h_obj h a = Some (OSym s1) -> h_obj h b = Some (OSym s2) -> ~ In 0 s1 -> ~ In 0 s2 ->
  exists c1 c2, key_in Feq h a c1 /\ key_in Feq h b c2 /\
    cmp Feq fuel a b h = eq_p a b h /\ (eq_p a b h = Ok (true, h) <-> c1 = c2).
Proof.
  intros h a b s1 s2 fuel A B N1 N2. exists (KSym s1), (KSym s2).
  split; [exists (OSym s1); auto|]. split; [exists (OSym s2); auto|].
  cbn [cmp]. unfold cmp_eq, eq_p. destruct (Nat.eqb_spec a b) as [->|N].
  - rewrite !(bind_ok _ _ _ _ _ (get_ok _ _ _ B)). assert (s1 = s2) by congruence. subst.
    unfold ret. replace (zlist_eqb s2 s2) with true by (symmetry; now apply zlist_eqb_spec). tauto.
  - rewrite !(bind_ok _ _ _ _ _ (get_ok _ _ _ A)), !(bind_ok _ _ _ _ _ (get_ok _ _ _ B)). cbn -[sym_eq zlist_eqb]. unfold ret.
    assert (E : zlist_eqb s1 s2 = sym_eq s1 s2) by (apply eq_true_iff_eq; rewrite zlist_eqb_spec, sym_eq_spec by auto; reflexivity).
    rewrite E. split; auto. split.
    + intros Q. inversion Q as [Q1]. apply sym_eq_spec in Q1; auto. congruence.
    + intros Q. inversion Q; subst. do 2 f_equal. now apply sym_eq_spec.
Qed.
Print Assumptions c68_hashq_symbols.
Theorem c68_hashv_ints_chars_bools : forall h a b oa ob fuel,
  h_obj h a = Some oa -> h_obj h b = Some ob ->
  match oa with ONum _ | OChar _ | OBool _ => True | _ => False end ->
  match ob with ONum _ | OChar _ | OBool _ => True | _ => False end ->
  cmp Feqv fuel a b h = eqv_p a b h.
Proof.
  intros h a b oa ob fuel A B Pa Pb. cbn [cmp]. unfold cmp_eqv, eqv_p, eq_p.
  destruct (Nat.eqb_spec a b) as [->|N].
  - rewrite !(bind_ok _ _ _ _ _ (get_ok _ _ _ B)). destruct ob; try tauto; unfold ret; rewrite ?Z.eqb_refl, ?eqb_reflx; reflexivity.
  - rewrite !(bind_ok _ _ _ _ _ (get_ok _ _ _ A)), !(bind_ok _ _ _ _ _ (get_ok _ _ _ B)).
    destruct oa; try tauto; destruct ob; try tauto; cbn; try reflexivity; destruct (Nat.eqb_spec a b); congruence || reflexivity.
Qed.
Print Assumptions c68_hashv_ints_chars_bools.
(** what that means for a table: the value set under one of two such keys is
    the one the other finds, exactly when they are eqv?; otherwise the other
    finds what it found before *)
Theorem c68_hashv_finds_eqv_keys : forall pa h t m a b oa ob v fuel,
  wf h -> table Feqv pa h t m -> h_obj h a = Some oa -> h_obj h b = Some ob -> (1 <= fuel)%nat ->
  match oa with ONum _ | OChar _ | OBool _ => True | _ => False end ->
  match ob with ONum _ | OChar _ | OBool _ => True | _ => False end ->
  exists same before h0 h1,
    eqv_p a b h = Ok (same, h) /\
    do_ops Feqv fuel pa t [HRef b] h = Ok ([ObVal before], h0) /\
    do_ops Feqv fuel pa t [HSet a v; HRef b] h = Ok ([ObVal v; ObVal (if same then v else before)], h1).
Proof.
  intros pa h t m a b oa ob v fuel W T A B L Pa Pb.
  set (ca := canon Feqv oa a). set (cb := canon Feqv ob b).
  assert (Ka : key_in Feqv h a ca) by (exists oa; auto). assert (Kb : key_in Feqv h b cb) by (exists ob; auto).
  assert (Sa : (csize ca <= fuel)%nat) by (subst ca; destruct oa; try tauto; cbn; lia).
  assert (Sb : (csize cb <= fuel)%nat) by (subst cb; destruct ob; try tauto; cbn; lia).
  assert (Q : exists same, eqv_p a b h = Ok (same, h) /\ (same = true <-> cb = ca)).
  { subst ca cb. unfold eqv_p, eq_p. destruct (Nat.eqb_spec a b) as [->|N].
    - exists true. assert (oa = ob) by congruence. subst oa. split; [reflexivity|]. split; auto.
    - rewrite !(bind_ok _ _ _ _ _ (get_ok _ _ _ A)), !(bind_ok _ _ _ _ _ (get_ok _ _ _ B)).
      destruct oa; try tauto; destruct ob; try tauto; cbn; eexists; (split; [reflexivity|]); split; intros Q; try congruence.
      + apply Z.eqb_eq in Q. congruence.
      + inversion Q. apply Z.eqb_refl.
      + apply Z.eqb_eq in Q. congruence.
      + inversion Q. apply Z.eqb_refl.
      + apply eqb_prop in Q. congruence.
      + inversion Q. apply eqb_reflx. }
  destruct Q as (same&Qe&Qi). clearbody ca cb.
  destruct (do_ops_ok Feqv fuel pa t [(HRef b, cb)] h m W T) as (xs0&h0&P0&_&_&_&O0).
  { constructor; [|constructor]. split; [exact Kb|]. split; [exact Sb|exact Logic.I]. }
  destruct (do_ops_ok Feqv fuel pa t [(HSet a v, ca); (HRef b, cb)] h m W T) as (xs&h1&P&_&_&_&Ob).
  { constructor; [|constructor; [|constructor]]; (split; [assumption|split; [assumption|exact Logic.I]]). }
  exists same, (match m cb with Some w => w | None => false_a end), h0, h1. split; [exact Qe|].
  cbn [map fst] in P, P0. cbn in Ob, O0.
  inversion O0 as [|x0 ? l0 ? X0 Y0]; subst. inversion Y0; subst. destruct x0; cbn in X0; try tauto. subst.
  split; [exact P0|].
  inversion Ob as [|x1 ? l1 ? X1 Y1]; subst. inversion Y1 as [|x2 ? l2 ? X2 Y2]; subst. inversion Y2; subst.
  destruct x1; cbn in X1; try tauto. destruct x2; cbn in X2; try tauto. subst. rewrite P.
  unfold m_set. destruct (ckey_eq_dec cb ca) as [E|E].
  - rewrite (proj2 Qi E). reflexivity.
  - destruct same; [exfalso; apply E; now apply Qi|reflexivity].
Qed.
Print Assumptions c68_hashv_finds_eqv_keys.
(** the same for symbols in a table used through the hashq procedures *)
Theorem c68_hashq_finds_eq_symbols : forall pa h t m a b s1 s2 v fuel,
  wf h -> table Feq pa h t m -> h_obj h a = Some (OSym s1) -> h_obj h b = Some (OSym s2) -> (1 <= fuel)%nat ->
  ~ In 0 s1 -> ~ In 0 s2 ->
  exists same before h0 h1,
    eq_p a b h = Ok (same, h) /\
    do_ops Feq fuel pa t [HRef b] h = Ok ([ObVal before], h0) /\
    do_ops Feq fuel pa t [HSet a v; HRef b] h = Ok ([ObVal v; ObVal (if same then v else before)], h1).
Proof.
  intros pa h t m a b s1 s2 v fuel W T A B L N1 N2.
  destruct (c68_hashq_symbols h a b s1 s2 fuel A B N1 N2) as (ca&cb&Ka&Kb&_&Qi).
  assert (Q : exists same, eq_p a b h = Ok (same, h)).
  { unfold eq_p. destruct (Nat.eqb_spec a b) as [->|N]; [exists true; reflexivity|].
    rewrite !(bind_ok _ _ _ _ _ (get_ok _ _ _ A)), !(bind_ok _ _ _ _ _ (get_ok _ _ _ B)). eexists. reflexivity. }
  destruct Q as (same&Qe).
  assert (Qs : same = true <-> ca = cb) by (rewrite <- Qi, Qe; split; [intros ->; reflexivity|congruence]).
  assert (Sa : (csize ca <= fuel)%nat) by (destruct Ka as (o&O&<-); assert (o = OSym s1) by congruence; subst o; cbn; lia).
  assert (Sb : (csize cb <= fuel)%nat) by (destruct Kb as (o&O&<-); assert (o = OSym s2) by congruence; subst o; cbn; lia).
  destruct (do_ops_ok Feq fuel pa t [(HRef b, cb)] h m W T) as (xs0&h0&P0&_&_&_&O0).
  { constructor; [|constructor]. split; [exact Kb|]. split; [exact Sb|exact Logic.I]. }
  destruct (do_ops_ok Feq fuel pa t [(HSet a v, ca); (HRef b, cb)] h m W T) as (xs&h1&P&_&_&_&Ob).
  { constructor; [|constructor; [|constructor]]; (split; [assumption|split; [assumption|exact Logic.I]]). }
  exists same, (match m cb with Some w => w | None => false_a end), h0, h1. split; [exact Qe|].
  cbn [map fst] in P, P0. cbn in Ob, O0.
  inversion O0 as [|x0 ? l0 ? X0 Y0]; subst. inversion Y0; subst. destruct x0; cbn in X0; try tauto. subst.
  split; [exact P0|].
  inversion Ob as [|x1 ? l1 ? X1 Y1]; subst. inversion Y1 as [|x2 ? l2 ? X2 Y2]; subst. inversion Y2; subst.
  destruct x1; cbn in X1; try tauto. destruct x2; cbn in X2; try tauto. subst. rewrite P.
  unfold m_set. destruct (ckey_eq_dec cb ca) as [E|E].
  - rewrite (proj2 Qs (eq_sym E)). reflexivity.
  - destruct same; [exfalso; apply E; symmetry; now apply Qs|reflexivity].
Qed.
Print Assumptions c68_hashq_finds_eq_symbols.
(* 4, 5: the character a; 6: the character b *)
Example c68_hashv_nonvacuous : forall pa,
  let h := halloc (halloc (halloc empty_heap (OChar 97)) (OChar 97)) (OChar 98) in
  wf h /\ eqv_p 4 5 h = Ok (true, h) /\ eqv_p 4 6 h = Ok (false, h) /\
  exists t h', make_hash_table None h = Ok (t, h') /\ wf h' /\ table Feqv pa h' t m_empty /\
    h_obj h' 4%nat = Some (OChar 97) /\ h_obj h' 5%nat = Some (OChar 97) /\ h_obj h' 6%nat = Some (OChar 98).
Proof.
  intros pa h. assert (W : wf h) by (apply wf_halloc, wf_halloc, wf_halloc, wf_empty). split; auto.
  split; [reflexivity|]. split; [reflexivity|].
  destruct (c23_make_default Feqv pa h W) as (t&h'&P&W'&E&T). exists t, h'. repeat (split; [first [exact P | exact W' | exact T | apply E; reflexivity]|]). apply E; reflexivity.
Qed.
(** two integer objects with the same value are eq?, but hashq does not find
    the one through the other; likewise eqv? symbols and hashv *)
Theorem c158_hashq_numbers_refuted : forall pa h t m k1 k2 v z fuel,
  wf h -> table Feq pa h t m -> h_obj h k1 = Some (ONum z) -> h_obj h k2 = Some (ONum z) -> k1 <> k2 ->
  m (KPtr k2) = None -> (1 <= fuel)%nat ->
  eq_p k1 k2 h = Ok (true, h) /\
  exists h', do_ops Feq fuel pa t [HSet k1 v; HRef k2] h = Ok ([ObVal v; ObVal false_a], h').
Proof.
  intros pa h t m k1 k2 v z fuel W T A B N M L. split.
  - unfold eq_p. destruct (Nat.eqb_spec k1 k2); [congruence|].
    rewrite !(bind_ok _ _ _ _ _ (get_ok _ _ _ A)), !(bind_ok _ _ _ _ _ (get_ok _ _ _ B)). cbn. now rewrite Z.eqb_refl.
  - destruct (do_ops_ok Feq fuel pa t [(HSet k1 v, KPtr k1); (HRef k2, KPtr k2)] h m W T) as (xs&h'&P&_&_&_&Ob).
    { constructor; [|constructor; [|constructor]]; (split; [exists (ONum z); auto|split; [cbn; lia|exact I]]). }
    cbn [map fst] in P. cbn in Ob. unfold m_set in Ob. destruct (ckey_eq_dec (KPtr k2) (KPtr k1)) as [Q|_]; [congruence|].
    rewrite M in Ob. inversion Ob as [|a1 ? l1 ? Q1 O3]; subst. inversion O3 as [|a2 ? l2 ? Q2 O4]; subst. inversion O4; subst.
    destruct a1; cbn in Q1; try tauto. destruct a2; cbn in Q2; try tauto. subst. eauto.
Qed.
Print Assumptions c158_hashq_numbers_refuted.
Theorem c158_hashv_symbols_refuted : forall pa h t m k1 k2 v s fuel,
  wf h -> table Feqv pa h t m -> h_obj h k1 = Some (OSym s) -> h_obj h k2 = Some (OSym s) -> k1 <> k2 ->
  m (KPtr k2) = None -> (1 <= fuel)%nat ->
  eqv_p k1 k2 h = Ok (true, h) /\
  exists h', do_ops Feqv fuel pa t [HSet k1 v; HRef k2] h = Ok ([ObVal v; ObVal false_a], h').
Proof.
  intros pa h t m k1 k2 v s fuel W T A B N M L. split.
  - unfold eqv_p, eq_p. destruct (Nat.eqb_spec k1 k2); [congruence|].
    rewrite !(bind_ok _ _ _ _ _ (get_ok _ _ _ A)), !(bind_ok _ _ _ _ _ (get_ok _ _ _ B)). cbn -[sym_eq]. unfold ret. do 2 f_equal.
    unfold sym_eq. now apply zlist_eqb_spec.
  - destruct (do_ops_ok Feqv fuel pa t [(HSet k1 v, KPtr k1); (HRef k2, KPtr k2)] h m W T) as (xs&h'&P&_&_&_&Ob).
    { constructor; [|constructor; [|constructor]]; (split; [exists (OSym s); auto|split; [cbn; lia|exact I]]). }
    cbn [map fst] in P. cbn in Ob. unfold m_set in Ob. destruct (ckey_eq_dec (KPtr k2) (KPtr k1)) as [Q|_]; [congruence|].
    rewrite M in Ob. inversion Ob as [|a1 ? l1 ? Q1 O3]; subst. inversion O3 as [|a2 ? l2 ? Q2 O4]; subst. inversion O4; subst.
    destruct a1; cbn in Q1; try tauto. destruct a2; cbn in Q2; try tauto. subst. eauto.
Qed.
Print Assumptions c158_hashv_symbols_refuted.
Example c68_nonvacuous : forall pa,
  let h := halloc (halloc empty_heap (ONum 1000)) (ONum 1000) in
  wf h /\ exists t h', make_hash_table None h = Ok (t, h') /\ table Feq pa h' t m_empty.
Proof.
  intros pa h. assert (W : wf h) by (apply wf_halloc, wf_halloc, wf_empty). split; auto.
  destruct (c23_make_default Feq pa h W) as (t&h'&P&_&_&T). eauto.
Qed.
